(** Facts about the screening of prime candidates. *)
From Coq Require Import ZArith List Bool Lia Znumtheory.
Require Import Verif.Spec Verif.Monad Verif.Base Verif.Wp Verif.ModelLimb Verif.LimbFacts Verif.LimbFacts2 Verif.ModelBuf Verif.SpecBuf
  Verif.BufFacts Verif.BufFacts2 Verif.BufFacts3 Verif.ModelCmp Verif.CmpFacts Verif.SpecMont Verif.MontFacts5 Verif.MontFacts6
  Verif.ModelEuclid Verif.SpecEuclid Verif.EuclidFacts4 Verif.ModelHex Verif.ModelPrime Verif.SpecPrime.
Import ListNotations.
Open Scope Z_scope.

(** ** Primes *)
Lemma prime_factor : forall n, 1 < n -> exists q, prime q /\ (q | n).
Proof.
  intros n H. assert (P : 0 <= n) by lia. revert H. pattern n. apply Z_lt_induction; auto. clear n P. intros n IH H.
  destruct (prime_dec n) as [D|D]; [exists n; split; [auto|apply Z.divide_refl]|].
  destruct (not_prime_divide n H D) as (m & Hm & Dm). destruct (IH m) as (q & Q & Dq); [lia|lia|].
  exists q. split; [auto|]. eapply Z.divide_trans; eauto.
Qed.
Lemma prime_prod : forall q l, prime q -> (q | fold_right Z.mul 1 l) -> exists x, In x l /\ (q | x).
Proof.
  intros q l Q. induction l as [|x l IH]; cbn [fold_right]; intros D.
  - exfalso. apply Z.divide_1_r in D. destruct Q as [Q _]. lia.
  - destruct (prime_mult q Q _ _ D) as [H|H]; [exists x; cbn; auto|]. destruct (IH H) as (y & I & Dy). exists y. cbn. auto.
Qed.
Lemma prod_in : forall x l, In x l -> (x | fold_right Z.mul 1 l).
Proof.
  intros x l. induction l as [|y l IH]; [intros []|]. cbn [fold_right]. intros [->|I].
  - apply Z.divide_factor_l.
  - apply Z.divide_mul_r. auto.
Qed.

(** Trial division by the primes up to 37. *)
Definition trial (n : Z) : bool := forallb (fun d => negb (n mod d =? 0) || (n =? d)) [2; 3; 5; 7; 11; 13; 17; 19; 23; 29; 31; 37].
Definition small_odds (limit : Z) : list Z := filter trial (map (fun k => 2 * Z.of_nat k + 1) (seq 1 (Z.to_nat (limit / 2)))).

Lemma trial_prime : forall q, prime q -> trial q = true.
Proof.
  intros q Q. unfold trial. apply forallb_forall. intros d I. destruct (q mod d =? 0) eqn:E; [|auto]. apply Z.eqb_eq in E. cbn [negb orb].
  assert (Hd : 1 < d <= 37) by (cbn [In] in I; lia).
  apply Z.mod_divide in E; [|lia]. destruct (prime_divisors q Q d E) as [H|[H|[H|H]]]; try (destruct Q; lia).
Qed.
Lemma small_odds_prime : forall limit q, prime q -> 2 < q <= limit -> In q (small_odds limit).
Proof.
  intros limit q Q H. apply filter_In. split; [|apply trial_prime; auto].
  assert (O : Z.odd q = true).
  { destruct (Z.odd q) eqn:O; auto. exfalso. rewrite <- Z.negb_even in O. apply negb_false_iff, Z.even_spec in O. destruct O as [k O].
    destruct (prime_divisors q Q 2) as [D|[D|[D|D]]]; try lia. exists k. lia. }
  apply Z.odd_spec in O. destruct O as [k O]. apply in_map_iff. exists (Z.to_nat k). split; [lia|]. apply in_seq.
  assert (k <= limit / 2) by (apply Z.div_le_lower_bound; lia). lia.
Qed.
Lemma small_odds_bound : forall limit x, 0 <= limit -> In x (small_odds limit) -> 2 < x <= limit + 1 /\ Z.odd x = true.
Proof.
  intros limit x HL I. apply filter_In in I. destruct I as [I _]. apply in_map_iff in I. destruct I as (k & <- & I). apply in_seq in I.
  pose proof (Z.mul_div_le limit 2 ltac:(lia)). split; [lia|]. rewrite Z.add_1_r, Z.odd_succ, Z.even_mul. reflexivity.
Qed.

(** The products of all odd primes up to the limits. *)
Definition limits : list Z := [7; 13; 29; 53; 101; 193; 379; 739; 1471].

Section Facts.
Context {c : cfg}.

Lemma products_len : map (fun l => zlen l) SMALL_ODD_PRIME_PRODUCTS = [1; 2; 4; 8; 16; 32; 64; 128; 256].
Proof. vm_compute. reflexivity. Qed.
Lemma products_digits : Forall (digits_ok 256) SMALL_ODD_PRIME_PRODUCTS.
Proof.
  assert (H : forallb (forallb (fun d => (0 <=? d) && (d <? 256))) SMALL_ODD_PRIME_PRODUCTS = true) by (vm_compute; reflexivity).
  apply Forall_forall. intros l I. rewrite forallb_forall in H. apply H in I. rewrite forallb_forall in I.
  apply Forall_forall. intros d Id. apply I in Id. lia.
Qed.
Lemma products_val : map (fun l => mpval (BE l)) SMALL_ODD_PRIME_PRODUCTS = map (fun L => fold_right Z.mul 1 (small_odds L)) limits.
Proof. vm_compute. reflexivity. Qed.

Lemma product_at : forall i, (i < 9)%nat -> let l := nth i SMALL_ODD_PRIME_PRODUCTS [] in
  zlen l = 2 ^ Z.of_nat i /\ digits_ok 256 l /\ mpval (BE l) = fold_right Z.mul 1 (small_odds (nth i limits 0)).
Proof.
  intros i Hi l.
  assert (E : forall T (f : list Z -> T) (d : T), d = f [] -> f l = nth i (map f SMALL_ODD_PRIME_PRODUCTS) d).
  { intros T f d ->. unfold l. symmetry. apply map_nth. }
  split; [|split].
  - rewrite (E _ (fun l => zlen l) 0) by reflexivity. rewrite products_len.
    do 9 (destruct i as [|i]; [reflexivity|]). lia.
  - pose proof products_digits as D. rewrite Forall_forall in D. apply D. apply nth_In.
    replace (length SMALL_ODD_PRIME_PRODUCTS) with 9%nat by reflexivity. auto.
  - rewrite (E _ (fun l => mpval (BE l)) (mpval (BE []))) by reflexivity. rewrite products_val.
    rewrite (nth_indep _ _ (fold_right Z.mul 1 (small_odds 0))) by (rewrite map_length; auto).
    apply (map_nth (fun L => fold_right Z.mul 1 (small_odds L))).
Qed.

Lemma limit_at : forall i, (i < 9)%nat -> 2 < nth i limits 0 /\ Z.odd (nth i limits 0) = true.
Proof. intros i Hi. do 9 (destruct i as [|i]; [split; reflexivity|]). lia. Qed.

(** The odd primes dividing the products. *)
Lemma product_primes : forall i q, (i < 9)%nat -> prime q ->
  ((q | mpval (BE (nth i SMALL_ODD_PRIME_PRODUCTS []))) <-> 2 < q <= nth i limits 0).
Proof.
  intros i q Hi Q. destruct (product_at i Hi) as (_ & _ & ->). destruct (limit_at i Hi) as [L2 LO]. split.
  - intros D. destruct (prime_prod q _ Q D) as (x & I & Dx). destruct (small_odds_bound (nth i limits 0) x (Z.lt_le_incl _ _ (Z.lt_trans 0 2 _ eq_refl L2)) I) as [Hx Ox].
    pose proof (prime_ge_2 q Q). pose proof (Z.divide_pos_le q x ltac:(lia) Dx).
    assert (x <> nth i limits 0 + 1) by (intros ->; rewrite Z.add_1_r, Z.odd_succ, <- Z.negb_odd, LO in Ox; discriminate).
    assert (q <> 2); [|lia]. intros ->. destruct Dx as [k ->]. rewrite Z.odd_mul, andb_false_r in Ox. discriminate.
  - intros H. apply prod_in, small_odds_prime; auto.
Qed.
Lemma product_odd : forall i, (i < 9)%nat -> Z.odd (mpval (BE (nth i SMALL_ODD_PRIME_PRODUCTS []))) = true.
Proof.
  intros i Hi. destruct (Z.odd _) eqn:O; auto. exfalso. rewrite <- Z.negb_even in O. apply negb_false_iff, Z.even_spec in O. destruct O as [k O].
  pose proof (proj1 (product_primes i 2 Hi prime_2) ltac:(exists k; lia)). lia.
Qed.
Lemma product_ok : forall i, (i < 9)%nat -> mp_ok (BE (nth i SMALL_ODD_PRIME_PRODUCTS [])).
Proof.
  intros i Hi. destruct (product_at i Hi) as (L & D & _). split; [auto|]. cbn [mp_len]. rewrite L.
  assert (2 ^ Z.of_nat i <= 2 ^ 8) by (apply Z.pow_le_mono_r; lia). pose proof UW_gt. change (2 ^ 8) with 256 in *. lia.
Qed.

(** ** The selection *)
Lemma wp_select : forall n a (Q : nat -> Prop), (n <= 9)%nat ->
  (forall i, (i < n)%nat -> 2 ^ Z.of_nat i <= a -> (forall j, (i < j < n)%nat -> a < 2 ^ Z.of_nat j) -> Q i) ->
  ((forall j, (j < n)%nat -> a < 2 ^ Z.of_nat j) -> Q O) -> wp (select_product n a) Q.
Proof.
  induction n as [|n IH]; intros a Q Hn H1 H0; cbn [select_product].
  - apply wp_ret, H0. lia.
  - destruct (product_at n ltac:(lia)) as (L & _ & _). rewrite L. apply wp_mif; intros E.
    + apply wp_ret. apply H1; [lia|lia|]. lia.
    + apply IH; [lia| |].
      * intros i Hi Hl Hj. apply H1; [lia|auto|]. intros j Hij. destruct (Nat.eq_dec j n) as [->|]; [lia|apply Hj; lia].
      * intros Hj. apply H0. intros j Hij. destruct (Nat.eq_dec j n) as [->|]; [lia|apply Hj; lia].
Qed.

Lemma screen_at : forall p i, 0 < nlimbs p -> (i < 9)%nat -> 2 ^ Z.of_nat i <= LB * nlimbs p ->
  (forall j, (i < j < 9)%nat -> LB * nlimbs p < 2 ^ Z.of_nat j) -> nth i limits 0 = screen_limit p.
Proof.
  intros p i Hp Hi H1 H2. assert (L4 : 4 <= LB * nlimbs p).
  { pf (mul_le_l LB 1 (nlimbs p)). unfold LB in *. destruct (limb64 c); lia. }
  unfold screen_limit. set (len := LB * nlimbs p) in *.
  assert (R : len < 2 ^ Z.of_nat (S i) \/ i = 8%nat) by (destruct (Nat.eq_dec i 8); [auto|left; apply H2; lia]). clear H2.
  assert (P : forall k, (k < 10)%nat -> 2 ^ Z.of_nat k = nth k [1; 2; 4; 8; 16; 32; 64; 128; 256; 512] 0).
  { intros k Hk. do 10 (destruct k as [|k]; [reflexivity|]). lia. }
  rewrite P in H1, R by lia. clear P. clearbody len.
  assert (C : i = 0%nat \/ i = 1%nat \/ i = 2%nat \/ i = 3%nat \/ i = 4%nat \/ i = 5%nat \/ i = 6%nat \/ i = 7%nat \/ i = 8%nat) by lia.
  decompose [or] C; subst i; cbn [nth limits] in *;
    repeat match goal with |- context [?a <? ?b] => destruct (Z.ltb_spec a b) end; try reflexivity; exfalso; lia.
Qed.

(** ** The screening *)
Lemma wp_screen : forall p s0 s1 (Q : result Z screen_err -> Prop), mp_ok p -> 0 < mp_len p -> mp_ok (NE s0) -> mp_ok (NE s1) ->
  nlimbs p <= zlen s0 -> nlimbs p <= zlen s1 -> gcd_len_ok (LB * nlimbs p) ->
  (forall b, (b = true <-> has_small_factor (screen_limit p) (mpval p)) -> Q (Ok (chc b))) ->
  wp (ct_composite_test_small_prime_gcd_mp p s0 s1) Q.
Proof.
  intros p s0 s1 Q Hp LP H0 H1 L0 L1 HG HQ. unfold ct_composite_test_small_prime_gcd_mp.
  pose proof (nlimbs_spec p) as NS. pose proof LB_pos as LBP. pose proof (mpval_bound p Hp) as BP.
  assert (N0 : 0 < nlimbs p) by (destruct (Z.eq_dec (nlimbs p) 0) as [E|E]; [rewrite E in NS|]; lia).
  apply wp_mif; intros E. { rewrite empty_nlimbs in E. lia. } clear E. fold (nlimbs p).
  apply wp_mif; intros E; [lia|]. clear E. apply wp_mif; intros E; [lia|]. clear E.
  set (a := nlimbs p * LB) in *. assert (Ha : 0 < a) by (apply Z.mul_pos_pos; lia).
  assert (A0 : a <= mp_len (NE s0)). { cbn [mp_len]. unfold a. pf (mul_le_l LB (nlimbs p) (zlen s0)). lia. }
  assert (A1 : a <= mp_len (NE s1)). { cbn [mp_len]. unfold a. pf (mul_le_l LB (nlimbs p) (zlen s1)). lia. }
  assert (AL : ct_mp_limbs_align_len a = a).
  { unfold ct_mp_limbs_align_len. rewrite (ct_mp_nlimbs_unique a (nlimbs p)); [reflexivity|lia|fold a; lia]. }
  assert (A4 : 4 <= a). { pf (mul_le_l LB 1 (nlimbs p)). unfold a, LB in *. destruct (limb64 c); lia. }
  change (length SMALL_ODD_PRIME_PRODUCTS) with 9%nat.
  assert (K : forall i, (i < 9)%nat -> 2 ^ Z.of_nat i <= a -> nth i limits 0 = screen_limit p -> wp (let small_prime_product := nth i SMALL_ODD_PRIME_PRODUCTS [] in
    let! gcd := clear_bytes_above (NE s0) a in
    let! gcd := mp_shrink_to gcd a in
    let! gcd := copy_from gcd (BE small_prime_product) in
    let! p_work_scratch := copy_from (NE s1) p in
    let! p_work_scratch := mp_shrink_to p_work_scratch a in
    let! '(r, gcd, _) := ct_gcd_odd_mp_mp gcd p_work_scratch in
    match r with
    | Err _ => panic
    | Ok _ =>
      let! gcd_is_one := ct_is_one_mp gcd in
      let! p_is_odd := test_bit p 0 in
      ret (Ok (lc_or (lc_not gcd_is_one) (lc_not p_is_odd)))
    end) Q).
  { intros i Hi HL ES. cbv zeta. destruct (product_at i Hi) as (PL & _ & _). pose proof (product_ok i Hi) as PO. pose proof (product_odd i Hi) as OD.
    pose proof (product_primes i) as PP. set (P := BE (nth i SMALL_ODD_PRIME_PRODUCTS [])) in *.
    pose proof (mpval_bound P PO) as BB. change (mp_len P) with (zlen (nth i SMALL_ODD_PRIME_PRODUCTS [])) in BB. rewrite PL in BB.
    assert (256 ^ 2 ^ Z.of_nat i <= 256 ^ a) by (apply Z.pow_le_mono_r; lia).
    assert (256 ^ mp_len p <= 256 ^ a) by (apply Z.pow_le_mono_r; unfold a; lia).
    assert (256 ^ a <= 256 ^ mp_len (NE s1)) by (apply Z.pow_le_mono_r; lia).
    apply wp_bind, wp_clear_above; [auto|lia|]. intros g (Og & Sg & Eg). pf (p256_pos a).
    apply wp_bind, wp_shrink_to; [auto|lia|rewrite Eg; apply Z.mod_pos_bound; lia|]. intros g1 O1 K1 L2 _.
    assert (KG : kind_of g = KNE) by (destruct Sg as [KK _]; cbn [kind_of] in KK; congruence). rewrite KG in K1.
    assert (SL : forall b, kind_of b = KNE -> a <= mp_len b -> shrunk_len b a = a).
    { intros b Kb Lb. unfold shrunk_len. rewrite Z.min_l by auto. destruct b; try discriminate Kb. cbn [supports_unaligned]. auto. }
    rewrite SL in L2 by (auto; rewrite (shape_len _ _ Sg); auto).
    apply wp_bind, wp_copy_from; [auto|auto|rewrite L2; lia|]. intros g2 O2 S2 E2.
    apply wp_bind, wp_copy_from; [auto|auto|lia|]. intros w Ow Sw Ew.
    apply wp_bind, wp_shrink_to; [auto|lia|lia|]. intros w1 O3 K3 L3 E3.
    rewrite SL in L3; [|destruct Sw as [KK _]; cbn [kind_of] in KK; congruence|rewrite (shape_len _ _ Sw); auto].
    assert (LG : mp_len g2 = a) by (rewrite (shape_len _ _ S2); auto).
    apply wp_bind, wp_gcd_odd; [auto|auto|rewrite E2; auto|split; left; lia|rewrite LG, L3, Z.max_id; unfold a; rewrite Z.mul_comm; auto|].
    intros f' g' (Of & _ & Ef) _. rewrite E2, E3, Ew in Ef.
    apply wp_bind, wp_is_one_mp; [auto|]. apply wp_bind, wp_test_bit; [auto|lia|]. rewrite Z.bit0_odd, !lc_not_chc, lc_or_chc.
    apply wp_ret, HQ. rewrite Ef, <- ES. clear - PP Hi. destruct (limit_at i Hi) as [L2 _]. split.
    - intros H. apply orb_prop in H. destruct H as [H|H].
      + apply negb_true_iff, Z.eqb_neq in H. pose proof (Z.gcd_nonneg (mpval P) (mpval p)) as GN.
        assert (GD : (Z.gcd (mpval P) (mpval p) | mpval P)) by apply Z.gcd_divide_l.
        assert (Z.gcd (mpval P) (mpval p) <> 0).
        { intros G0. apply Z.gcd_eq_0_l in G0. pose proof (proj1 (PP 2 Hi prime_2)) as X. rewrite G0 in X. specialize (X (Z.divide_0_r 2)). lia. }
        destruct (prime_factor (Z.gcd (mpval P) (mpval p))) as (q & Hq & Dq); [lia|].
        exists q. split; [auto|]. split.
        * apply (proj1 (PP q Hi Hq)). eapply Z.divide_trans; [exact Dq|auto].
        * eapply Z.divide_trans; [exact Dq|apply Z.gcd_divide_r].
      + apply negb_true_iff in H. exists 2. split; [apply prime_2|]. split; [lia|].
        rewrite <- Z.negb_even in H. apply negb_false_iff, Z.even_spec in H. destruct H as [k ->]. exists k. lia.
    - intros (q & Hq & Lq & Dq). pose proof (prime_ge_2 q Hq). apply orb_true_iff. destruct (Z.eq_dec q 2) as [->|].
      + right. destruct Dq as [k ->]. rewrite Z.odd_mul, andb_false_r. reflexivity.
      + left. apply negb_true_iff, Z.eqb_neq. intros G. 
        assert (D : (q | Z.gcd (mpval P) (mpval p))) by (apply Z.gcd_greatest; [apply (PP q Hi Hq); lia|auto]).
        rewrite G in D. apply Z.divide_1_r in D. lia. }
  apply wp_bind, wp_select; [lia| |].
  - intros i Hi HL Hj. apply K; auto. apply screen_at; auto; rewrite Z.mul_comm; auto.
  - intros Hj. specialize (Hj O ltac:(lia)). change (2 ^ Z.of_nat 0) with 1 in Hj. lia.
Qed.

End Facts.
