(** Facts about CompositeLimbsBuffer. *)
From Coq Require Import ZArith List Bool Lia.
Require Import Verif.Spec Verif.Monad Verif.Base Verif.Wp Verif.ModelLimb Verif.LimbFacts Verif.LimbFacts2
  Verif.ModelBuf Verif.SpecBuf Verif.BufFacts Verif.BufFacts2 Verif.BufFacts3.
Import ListNotations.
Open Scope Z_scope.

Section Facts.
Context {c : cfg}.

Definition slen (s : cseg) : Z := mp_len (cs_segment s).
Definition plen (s : cseg) : Z := mp_len (cs_high_next_partial s).
Fixpoint clen (cs : list cseg) : Z :=
  match cs with [] => 0 | s :: rest => slen s + plen s + clen rest end.
Fixpoint cval (cs : list cseg) : Z :=
  match cs with
  | [] => 0
  | s :: rest => mpval (cs_segment s) + 256 ^ slen s * (mpval (cs_high_next_partial s) + 256 ^ plen s * cval rest)
  end.
(** What follows the first segment proper. *)
Definition hval (cs : list cseg) : Z :=
  match cs with [] => 0 | s :: rest => mpval (cs_high_next_partial s) + 256 ^ plen s * cval rest end.
Definition hlen (cs : list cseg) : Z :=
  match cs with [] => 0 | s :: rest => plen s + clen rest end.

Inductive cinv (k : kind) : Z -> list cseg -> Prop :=
| cinv_nil : forall T, cinv k T []
| cinv_cons : forall T s rest,
    mp_ok (cs_segment s) -> mp_ok (cs_high_next_partial s) ->
    kind_of (cs_segment s) = k -> kind_of (cs_high_next_partial s) = k ->
    cs_end s = ct_mp_nlimbs (T + slen s + plen s) ->
    (T mod LB = 0 \/ slen s = 0) -> (k = KNE -> T mod LB = 0) ->
    (rest = [] -> plen s = 0) -> ((T + slen s) mod LB = 0 -> plen s = 0) ->
    plen s <= LB - (T + slen s) mod LB ->
    cinv k (T + slen s + plen s) rest ->
    cinv k T (s :: rest).

Lemma cinv_inv : forall k T s rest, cinv k T (s :: rest) ->
  mp_ok (cs_segment s) /\ mp_ok (cs_high_next_partial s) /\
  kind_of (cs_segment s) = k /\ kind_of (cs_high_next_partial s) = k /\
  cs_end s = ct_mp_nlimbs (T + slen s + plen s) /\
  (T mod LB = 0 \/ slen s = 0) /\ (k = KNE -> T mod LB = 0) /\
  (rest = [] -> plen s = 0) /\ ((T + slen s) mod LB = 0 -> plen s = 0) /\
  plen s <= LB - (T + slen s) mod LB /\
  cinv k (T + slen s + plen s) rest.
Proof. intros k T s rest H. inversion H; subst. tauto. Qed.

Definition cs_same (s s' : cseg) : Prop :=
  cs_end s' = cs_end s /\ mp_ok (cs_segment s') /\ mp_ok (cs_high_next_partial s') /\
  same_shape (cs_segment s) (cs_segment s') /\ same_shape (cs_high_next_partial s) (cs_high_next_partial s').

Lemma mp_is_empty_eq : forall b, mp_is_empty b = (mp_len b =? 0).
Proof.
  intros [l|l|l]; cbn [mp_is_empty mp_len]; auto. pose proof LB_pos. pose proof (zlen_nonneg _ l).
  destruct (Z.eqb_spec (zlen l) 0), (Z.eqb_spec (zlen l * LB) 0); auto; nia.
Qed.
Lemma slen_nonneg : forall s, 0 <= slen s.
Proof. intros. apply mp_len_nonneg. Qed.
Lemma plen_nonneg : forall s, 0 <= plen s.
Proof. intros. apply mp_len_nonneg. Qed.
Lemma clen_nonneg : forall cs, 0 <= clen cs.
Proof. induction cs; cbn [clen]; [lia|]. pose proof (slen_nonneg a). pose proof (plen_nonneg a). lia. Qed.
Lemma cval_app : forall a b, cval (a ++ b) = cval a + 256 ^ clen a * cval b.
Proof.
  induction a; intros; cbn [app cval clen].
  - rewrite Z.pow_0_r. lia.
  - rewrite IHa. pose proof (slen_nonneg a). pose proof (plen_nonneg a). pose proof (clen_nonneg a0).
    rewrite !Z.pow_add_r by lia. ring.
Qed.
Lemma clen_app : forall a b, clen (a ++ b) = clen a + clen b.
Proof. induction a; intros; cbn [app clen]; [lia|rewrite IHa; lia]. Qed.
Lemma cs_same_refl : forall s, mp_ok (cs_segment s) -> mp_ok (cs_high_next_partial s) -> cs_same s s.
Proof. intros. repeat (split; [auto; try apply shape_refl|]). apply shape_refl. Qed.
Lemma cs_same_slen : forall s s', cs_same s s' -> slen s' = slen s.
Proof. intros s s' (_ & _ & _ & S & _). apply shape_len; auto. Qed.
Lemma cs_same_plen : forall s s', cs_same s s' -> plen s' = plen s.
Proof. intros s s' (_ & _ & _ & _ & S). apply shape_len; auto. Qed.
Lemma same_clen : forall cs cs', Forall2 cs_same cs cs' -> clen cs' = clen cs.
Proof.
  induction 1; cbn [clen]; auto. rewrite (cs_same_slen x y), (cs_same_plen x y) by auto. lia.
Qed.
Lemma cinv_same : forall k cs T cs', cinv k T cs -> Forall2 cs_same cs cs' -> cinv k T cs'.
Proof.
  induction cs; intros T cs' H F; inversion F; subst; inversion H; subst; constructor; auto;
    try (rewrite ?(cs_same_slen a y), ?(cs_same_plen a y) by auto; auto).
  - apply H2.
  - apply H2.
  - destruct H2 as (_ & _ & _ & [K _] & _). auto.
  - destruct H2 as (_ & _ & _ & [K _] & [K' _]). congruence.
  - destruct H2 as (E & _). congruence.
  - intros ->. inversion H4; subst. auto.
Qed.
Lemma cinv_refl : forall k cs T, cinv k T cs -> Forall2 cs_same cs cs.
Proof. induction cs; intros; inversion H; subst; constructor; eauto using cs_same_refl. Qed.
Lemma cinv_suffix : forall k pre T cs, cinv k T (pre ++ cs) -> cinv k (T + clen pre) cs.
Proof.
  induction pre; cbn [app clen]; intros.
  - rewrite Z.add_0_r. auto.
  - inversion H; subst. apply IHpre in H13. replace (T + (slen a + plen a + clen pre)) with (T + slen a + plen a + clen pre) by lia. auto.
Qed.
Lemma cval_nonneg : forall k cs T, cinv k T cs -> 0 <= cval cs.
Proof.
  induction 1; cbn [cval]; [lia|].
  pose proof (mpval_nonneg _ H). pose proof (mpval_nonneg _ H0). pose proof (p256_pos (slen s) (slen_nonneg s)).
  pose proof (p256_pos (plen s) (plen_nonneg s)).
  pf (mul_nn (256 ^ plen s) (cval rest)). 
  pf (mul_nn (256 ^ slen s) (mpval (cs_high_next_partial s) + 256 ^ plen s * cval rest)). lia.
Qed.
Lemma cval_bound : forall k cs T, cinv k T cs -> cval cs < 256 ^ clen cs.
Proof.
  induction 1; cbn [cval clen].
  - rewrite Z.pow_0_r. lia.
  - pose proof (mpval_bound _ H) as VS. pose proof (mpval_bound _ H0) as VP. fold (slen s) in VS. fold (plen s) in VP.
    pose proof (slen_nonneg s). pose proof (plen_nonneg s). pose proof (clen_nonneg rest).
    rewrite !Z.pow_add_r by lia. pf (p256_pos (slen s)). pf (p256_pos (plen s)).
    pf (mul_le_l (256 ^ plen s) (cval rest + 1) (256 ^ clen rest)).
    pf (mul_le_l (256 ^ slen s) (mpval (cs_high_next_partial s) + 256 ^ plen s * cval rest + 1) (256 ^ plen s * 256 ^ clen rest)). lia.
Qed.

Lemma cinv_aligned_len : forall k T s rest, cinv k T (s :: rest) -> k = KNE -> slen s mod LB = 0 /\ plen s = 0.
Proof.
  intros k T s rest H ->. destruct (cinv_inv _ _ _ _ H) as (Os & Op & Ks & Kp & En & Al & Ne & La & Ze & Fi & Re). pose proof LB_pos. specialize (Ne eq_refl).
  assert (slen s mod LB = 0). { unfold slen. destruct (cs_segment s); try discriminate. cbn [mp_len]. apply Z.mod_mul. lia. }
  split; auto. apply Ze. rewrite Z.add_mod, Ne, H1 by lia. rewrite Z.mod_0_l; lia.
Qed.

(** Position arithmetic within a limb. *)
Lemma pos_next : forall x p np, 0 < np -> x mod LB = np -> 0 <= p -> np + p < LB -> (x + p) mod LB = np + p.
Proof.
  intros. pose proof LB_pos. pf (Z.div_mod x LB). apply mod_eq_of with (q := x / LB); lia.
Qed.

(** ** Loading across segments *)
Lemma hval_step : forall v p P X m, 0 <= p -> 0 <= m -> 0 <= P < 256 ^ p ->
  v + 256 ^ 0 * ((P + 256 ^ p * X) mod 256 ^ (p + m)) = v + P + 256 ^ p * (X mod 256 ^ m).
Proof.
  intros. pf (p256_pos p). pf (p256_pos m). rewrite Z.pow_0_r, Z.pow_add_r by lia.
  rewrite mod_mul_split by lia. rewrite lohi_mod, lohi_div by lia. lia.
Qed.

Lemma wp_load_partial : forall k cs T np value (Q : Z -> Prop), cinv k T cs -> 0 <= T ->
  0 < np <= LB -> 0 <= value < 256 ^ np ->
  match cs with [] => True | s :: _ => np < LB -> (T + slen s) mod LB = np end ->
  Q (value + 256 ^ np * (hval cs mod 256 ^ (LB - np))) ->
  wp (composite_load_partial cs np value) Q.
Proof.
  induction cs as [|s rest IH]; intros T np value Q HI HT Hnp Hv Hpos HQ.
  - assert (E : value + 256 ^ np * (hval [] mod 256 ^ (LB - np)) = value).
    { cbn [hval]. pf (p256_pos (LB - np)). rewrite Z.mod_0_l by lia. lia. }
    rewrite E in HQ. cbn [composite_load_partial]. apply wp_mif; intros _; apply wp_ret; auto.
  - cbn [composite_load_partial]. destruct (cinv_inv _ _ _ _ HI) as (Os & Op & Ks & Kp & En & Al & Ne & La & Ze & Fi & Re). apply wp_mif; intros E.
    + apply Z.eqb_eq in E. subst np. apply wp_ret. rewrite Z.sub_diag, Z.pow_0_r, Z.mod_1_r in HQ.
      replace (value + 256 ^ LB * 0) with value in HQ by lia. auto.
    + apply Z.eqb_neq in E. specialize (Hpos ltac:(lia)). rewrite Hpos in *.
      pose proof (slen_nonneg s) as SN. pose proof (plen_nonneg s) as PN. pose proof LB_pos as HLB.
      pose proof (mpval_bound _ Op) as PB. fold (plen s) in PB.
      pf (p256_pos np) as NP.
      assert (HH : value + 256 ^ np * (hval (s :: rest) mod 256 ^ (LB - np)) =
        (value + 256 ^ np * mpval (cs_high_next_partial s)) + 256 ^ (np + plen s) * (cval rest mod 256 ^ (LB - (np + plen s)))).
      { cbn [hval]. replace (LB - np) with (plen s + (LB - (np + plen s))) by lia.
        pf (hval_step 0 (plen s) (mpval (cs_high_next_partial s)) (cval rest) (LB - (np + plen s))) as HS.
        rewrite Z.pow_0_r in HS. rewrite Z.pow_add_r by lia. 
        replace (256 ^ plen s * 256 ^ (LB - (np + plen s))) with (256 ^ (plen s + (LB - (np + plen s)))) by (apply Z.pow_add_r; lia).
        rewrite (Z.pow_add_r 256 np) by lia.
        assert (HS' : (mpval (cs_high_next_partial s) + 256 ^ plen s * cval rest) mod 256 ^ (plen s + (LB - (np + plen s))) =
          mpval (cs_high_next_partial s) + 256 ^ plen s * (cval rest mod 256 ^ (LB - (np + plen s)))) by lia.
        rewrite HS'. ring. }
      rewrite HH in HQ.
      assert (HR : cval rest mod 256 ^ (LB - (np + plen s)) = hval rest mod 256 ^ (LB - (np + plen s))).
      { destruct (Z.eq_dec (np + plen s) LB) as [F|F]. { rewrite F, Z.sub_diag, Z.pow_0_r, !Z.mod_1_r. auto. }
        f_equal. destruct rest as [|s' rest']; auto. destruct (cinv_inv _ _ _ _ Re) as (Os' & Op' & Ks' & Kp' & En' & Al' & Ne' & La' & Ze' & Fi' & Re').
        assert (PN' : (T + slen s + plen s) mod LB = np + plen s) by (apply pos_next; lia).
        assert (S0 : slen s' = 0) by (destruct Al'; [lia|auto]).
        cbn [cval hval]. pose proof (mpval_bound _ Os') as B0. fold (slen s') in B0. rewrite S0 in *. rewrite Z.pow_0_r in *. lia. }
      rewrite HR in HQ.
      assert (NXT : match rest with [] => True | s' :: _ => np + plen s < LB -> (T + slen s + plen s + slen s') mod LB = np + plen s end).
      { destruct rest as [|s' rest']; auto. intros L. destruct (cinv_inv _ _ _ _ Re) as (Os' & Op' & Ks' & Kp' & En' & Al' & Ne' & La' & Ze' & Fi' & Re').
        assert (PN' : (T + slen s + plen s) mod LB = np + plen s) by (apply pos_next; lia).
        assert (S0 : slen s' = 0) by (destruct Al'; [lia|auto]). rewrite S0. rewrite Z.add_0_r. auto. }
      apply wp_mif; intros EM; rewrite mp_is_empty_eq in EM; fold (plen s) in EM.
      * apply negb_true_iff, Z.eqb_neq in EM.
        assert (N0 : 0 < nlimbs (cs_high_next_partial s)) by (apply nlimbs_lt; [lia|fold (plen s); lia]).
        apply wp_bind, wp_load; auto; [lia|].
        assert (L0 : limb (cs_high_next_partial s) 0 = mpval (cs_high_next_partial s)).
        { unfold limb. rewrite Z.pow_0_r, Z.div_1_r. apply Z.mod_small. split; [lia|]. eapply Z.lt_le_trans; [apply PB|].
          rewrite B_256'. apply Z.pow_le_mono_r; lia. }
        rewrite L0. apply wp_bind, wp_lshl; [unfold W; lia|]. rewrite <- pow256 by lia.
        assert (LL : mpval (cs_high_next_partial s) * 256 ^ np < B).
        { eapply Z.lt_le_trans with (256 ^ plen s * 256 ^ np).
          - apply Z.mul_lt_mono_pos_r; lia.
          - rewrite <- Z.pow_add_r, B_256' by lia. apply Z.pow_le_mono_r; lia. }
        pf (mul_nn (mpval (cs_high_next_partial s)) (256 ^ np)) as LP.
        rewrite Z.mod_small by lia. rewrite (pow256 np) by lia. rewrite Z.lor_comm, lor_shift_add; [|lia|rewrite <- pow256; lia].
        rewrite <- pow256 by lia.
        fold (plen s). apply IH with (T := T + slen s + plen s); auto; [lia|lia| |].
        -- rewrite Z.pow_add_r by lia.
           pf (mul_le_l (256 ^ np) (mpval (cs_high_next_partial s) + 1) (256 ^ plen s)). lia.
        -- replace (mpval (cs_high_next_partial s) * 256 ^ np + value) with (value + 256 ^ np * mpval (cs_high_next_partial s)) by lia. auto.
      * apply negb_false_iff, Z.eqb_eq in EM. rewrite EM in *. rewrite Z.add_0_r in *.
        assert (P0 : mpval (cs_high_next_partial s) = 0) by (rewrite Z.pow_0_r in PB; lia).
        rewrite P0 in *. rewrite Z.mul_0_r, Z.add_0_r in HQ.
        apply IH with (T := T + slen s); auto; try lia.
        destruct rest; auto. rewrite Z.add_0_r in NXT. auto.
Qed.

(** ** Finding a segment *)
Lemma nlimbs_add_aligned : forall a x, 0 <= a -> 0 <= x -> ct_mp_nlimbs (a * LB + x) = a + ct_mp_nlimbs x.
Proof.
  intros. pf (ct_mp_nlimbs_spec x). pose proof LB_pos. apply ct_mp_nlimbs_unique; lia.
Qed.
(** Bytes that only complete a limb do not add one. *)
Lemma nlimbs_fill : forall x p, 0 <= x -> 0 <= p -> (x mod LB = 0 -> p = 0) -> p <= LB - x mod LB ->
  ct_mp_nlimbs (x + p) = ct_mp_nlimbs x.
Proof.
  intros. pose proof LB_pos. pf (Z.div_mod x LB). pf (Z.mod_pos_bound x LB). pf (Z.div_pos x LB).
  destruct (Z.eq_dec (x mod LB) 0) as [E|E].
  - rewrite H1 by auto. f_equal. lia.
  - rewrite (ct_mp_nlimbs_unique (x + p) (x / LB + 1)), (ct_mp_nlimbs_unique x (x / LB + 1)); lia.
Qed.

Lemma wp_index : forall k i segs T before off (Q : list cseg * cseg * list cseg * Z -> Prop),
  0 <= T -> cinv k T segs -> off = ct_mp_nlimbs T -> off <= i < ct_mp_nlimbs (T + clen segs) ->
  (forall pre s rest off', segs = pre ++ s :: rest -> cinv k (off' * LB) (s :: rest) -> off' * LB = T + clen pre ->
     0 <= off' -> off' <= i < off' + nlimbs (cs_segment s) -> cs_end s = off' + nlimbs (cs_segment s) ->
     Q (before ++ pre, s, rest, off')) ->
  wp (limb_index_to_segment before segs off i) Q.
Proof.
  intros k i. induction segs as [|s rest IH]; intros T before off Q HT HI Ho Hi HQ.
  - cbn [clen] in Hi. rewrite Z.add_0_r in Hi. lia.
  - cbn [limb_index_to_segment]. pose proof LB_pos as HLB. pose proof (slen_nonneg s). pose proof (plen_nonneg s).
    subst off. destruct (cinv_inv _ _ _ _ HI) as (Os & Op & Ks & Kp & En & Al & Ne & La & Ze & Fi & Re).
    assert (EN : cs_end s = ct_mp_nlimbs (T + slen s)).
    { rewrite En. apply nlimbs_fill; auto; lia. }
    apply wp_mif; intros E.
    + apply Z.ltb_lt in E. apply wp_ret.
      assert (A : T mod LB = 0).
      { destruct Al as [|S0]; auto. rewrite S0, Z.add_0_r in EN. lia. }
      pf (Z.div_mod T LB). pf (Z.div_pos T LB).
      assert (OT : ct_mp_nlimbs T = T / LB) by (apply ct_mp_nlimbs_unique; lia).
      assert (ET : T / LB * LB = T) by lia.
      assert (ENN : cs_end s = T / LB + nlimbs (cs_segment s)).
      { rewrite EN. rewrite <- ET at 1. rewrite nlimbs_add_aligned; auto. }
      rewrite <- (app_nil_r before). rewrite OT in *. apply HQ with (pre := []); auto; cbn [app clen]; try lia.
      rewrite ET. auto.
    + apply Z.ltb_ge in E. apply IH with (T := T + slen s + plen s); auto; try lia.
      * cbn [clen] in Hi. replace (T + slen s + plen s + clen rest) with (T + (slen s + plen s + clen rest)) by lia. lia.
      * intros pre s' rest' off' -> I' E1 E2 E3 E4. rewrite <- app_assoc. cbn [app]. apply HQ; auto. cbn [clen]. lia.
Qed.

(** ** Load *)
Lemma vlimb_low : forall S n X j, 0 <= j -> (j + 1) * LB <= n -> 0 <= S < 256 ^ n -> vlimb (S + 256 ^ n * X) j = vlimb S j.
Proof.
  intros. pose proof LB_pos. assert (0 <= (j + 1) * LB) by (apply mul_nn; lia).
  rewrite <- (limb_of_mod (_ + _) j (j + 1)), <- (limb_of_mod S j (j + 1)) by lia. f_equal.
  rewrite Bpow256 by lia. replace n with ((j + 1) * LB + (n - (j + 1) * LB)) at 1 by lia.
  rewrite Z.pow_add_r by lia. rewrite <- Z.mul_assoc, Z.mul_comm with (n := 256 ^ ((j + 1) * LB)).
  apply Z.mod_add. pf (p256_pos ((j + 1) * LB)). lia.
Qed.
Lemma vlimb_part : forall S n np X j, 0 <= j -> n = j * LB + np -> 0 < np < LB -> 0 <= S < 256 ^ n ->
  vlimb (S + 256 ^ n * X) j = vlimb S j + 256 ^ np * (X mod 256 ^ (LB - np)) /\ vlimb S j < 256 ^ np.
Proof.
  intros. pose proof LB_pos. assert (0 <= j * LB) by (apply mul_nn; lia). pf (Bpow_pos j) as BJ.
  assert (EN : 256 ^ n = B ^ j * 256 ^ np). { subst n. rewrite Bpow256 by lia. apply Z.pow_add_r; lia. }
  rewrite EN in *. pf (p256_pos np). pf (p256_pos (LB - np)).
  pf (div_pos_bound S (B ^ j) (256 ^ np)) as DB.
  assert (B256 : B = 256 ^ np * 256 ^ (LB - np)). { rewrite B_256', <- Z.pow_add_r by lia. f_equal. lia. }
  assert (256 ^ np <= B).  { rewrite B_256'. apply Z.pow_le_mono_r; lia. }
  assert (VS : vlimb S j = S / B ^ j). { unfold vlimb. apply Z.mod_small. lia. }
  rewrite VS. split; [|lia]. unfold vlimb. rewrite <- Z.mul_assoc, (Z.mul_comm (B ^ j)), Z.div_add by lia.
  rewrite B256 at 2. rewrite mod_mul_split, lohi_mod, lohi_div by lia. auto.
Qed.
Lemma vlimb_shift : forall A X off i, 0 <= off <= i -> 0 <= A < 256 ^ (off * LB) -> vlimb (A + 256 ^ (off * LB) * X) i = vlimb X (i - off).
Proof.
  intros. rewrite <- (limb_of_div _ i off) by lia. rewrite Bpow256 by lia. rewrite lohi_div by lia. auto.
Qed.

(** The value below a found segment. *)
Lemma cval_prefix_bound : forall k pre T rest, cinv k T (pre ++ rest) -> 0 <= cval pre < 256 ^ clen pre.
Proof.
  induction pre; cbn [app cval clen]; intros.
  - rewrite Z.pow_0_r. lia.
  - destruct (cinv_inv _ _ _ _ H) as (Os & Op & Ks & Kp & En & Al & Ne & La & Ze & Fi & Re). apply IHpre in Re. pose proof (mpval_bound _ Os) as VS. pose proof (mpval_bound _ Op) as VP. fold (slen a) in VS. fold (plen a) in VP.
    pose proof (slen_nonneg a). pose proof (plen_nonneg a). pose proof (clen_nonneg pre).
    rewrite !Z.pow_add_r by lia. pf (p256_pos (slen a)). pf (p256_pos (plen a)).
    pf (mul_nn (256 ^ plen a) (cval pre)).
    pf (mul_nn (256 ^ slen a) (mpval (cs_high_next_partial a) + 256 ^ plen a * cval pre)).
    pf (mul_le_l (256 ^ plen a) (cval pre + 1) (256 ^ clen pre)).
    pf (mul_le_l (256 ^ slen a) (mpval (cs_high_next_partial a) + 256 ^ plen a * cval pre + 1) (256 ^ plen a * 256 ^ clen pre)). lia.
Qed.

Lemma ne_full : forall b j, supports_unaligned b = false -> 0 <= j < nlimbs b -> (j + 1) * LB <= mp_len b.
Proof.
  intros b j U Hj. destruct b; try discriminate. rewrite nlimbs_NE in Hj. cbn [mp_len].
  apply Z.mul_le_mono_nonneg_r; [pose proof LB_pos; lia|lia].
Qed.
Lemma mod0_full : forall b j, mp_len b mod LB = 0 -> 0 <= j < nlimbs b -> (j + 1) * LB <= mp_len b.
Proof.
  intros b j U Hj. pose proof LB_pos. pf (Z.div_mod (mp_len b) LB) as D. pose proof (nlimbs_spec b) as N.
  rewrite U, Z.add_0_r in D. set (q := mp_len b / LB) in *.
  assert (nlimbs b - 1 < q). { apply (mul_lt_cancel LB); lia. }
  pf (mul_le_l LB (j + 1) q). lia.
Qed.
Lemma last_partial : forall b, 0 < nlimbs b -> mp_len b mod LB <> 0 -> mp_len b = (nlimbs b - 1) * LB + mp_len b mod LB.
Proof.
  intros b Hn Hm. pose proof LB_pos. pf (Z.div_mod (mp_len b) LB) as D. pose proof (nlimbs_spec b) as N.
  pf (Z.mod_pos_bound (mp_len b) LB). set (q := mp_len b / LB) in *.
  assert (nlimbs b - 1 < q + 1). { apply (mul_lt_cancel LB); lia. }
  assert (q < nlimbs b). { apply (mul_lt_cancel LB); lia. }
  assert (QE : q = nlimbs b - 1) by lia. rewrite <- QE. lia.
Qed.

Lemma wp_composite_load : forall k cs i (Q : Z -> Prop), cinv k 0 cs -> 0 <= i < ct_mp_nlimbs (clen cs) ->
  Q (vlimb (cval cs) i) -> wp (composite_load cs i) Q.
Proof.
  intros k cs i Q HI Hi HQ. unfold composite_load. pose proof LB_pos as HLB.
  apply wp_bind. eapply wp_index with (T := 0) (k := k); [lia|eauto|symmetry; apply ct_mp_nlimbs_unique; lia|rewrite Z.add_0_l; auto|].
  intros pre s rest off E I0 EO HO HR EE. subst cs. cbn [app].
  assert (PB : 0 <= cval pre < 256 ^ (off * LB)) by (rewrite EO, Z.add_0_l; eapply cval_prefix_bound; eauto).
  rewrite cval_app in HQ. replace (clen pre) with (off * LB) in HQ by lia. rewrite vlimb_shift in HQ by lia.
  destruct (cinv_inv _ _ _ _ I0) as (Os & Op & Ks & Kp & En & Al & Ne & La & Ze & Fi & Re). cbn [cval] in HQ. pose proof (mpval_bound _ Os) as SB. fold (slen s) in SB.
  set (j := i - off) in *. assert (J : 0 <= j < nlimbs (cs_segment s)) by (unfold j; lia).
  assert (FULL : (j + 1) * LB <= slen s -> Q (limb (cs_segment s) j)).
  { intros L. rewrite vlimb_low in HQ by (auto; lia). auto. }
  apply wp_bind, wp_usub; [lia|]. apply wp_mif; intros E1.
  - apply wp_bind, wp_usub; [lia|]. fold j.
    assert (L : (j + 1) * LB <= slen s).
    { apply orb_true_iff in E1. destruct E1 as [E1|E1].
      - apply negb_true_iff, Z.eqb_neq in E1. apply nlimbs_full. unfold j. lia.
      - apply negb_true_iff in E1. apply ne_full; auto. }
    apply wp_load_full; auto. lia.
  - apply orb_false_iff in E1. destruct E1 as [E1 E2]. apply negb_false_iff, Z.eqb_eq in E1. apply negb_false_iff in E2.
    assert (JL : j = nlimbs (cs_segment s) - 1) by (unfold j; lia).
    apply wp_mif; intros E3.
    + apply wp_bind, wp_usub; [lia|]. fold j. apply wp_load; auto. apply orb_true_iff in E3. destruct E3 as [E3|E3].
      * destruct rest; try discriminate. rewrite La in HQ by auto. cbn [cval] in HQ.
        pose proof (mpval_bound _ Op) as PB'. fold (plen s) in PB'. rewrite La, Z.pow_0_r in PB' by auto.
        replace (mpval (cs_high_next_partial s)) with 0 in HQ by lia.
        replace (0 + 256 ^ 0 * 0) with 0 in HQ by lia. rewrite Z.mul_0_r, Z.add_0_r in HQ. auto.
      * apply Z.eqb_eq in E3. apply FULL. apply mod0_full; auto.
    + apply orb_false_iff in E3. destruct E3 as [E3 E4]. apply Z.eqb_neq in E4.
      apply wp_bind, wp_usub; [lia|]. fold j. apply wp_bind, wp_load; auto.
      pf (last_partial (cs_segment s)) as LP. pf (Z.mod_pos_bound (mp_len (cs_segment s)) LB) as MB.
      fold (slen s) in *. set (np := slen s mod LB) in *.
      destruct (vlimb_part (mpval (cs_segment s)) (slen s) np (mpval (cs_high_next_partial s) + 256 ^ plen s * cval rest) j) as [VE VB]; auto; [lia|subst j; lia|lia|].
      eapply wp_load_partial with (T := off * LB) (k := k); auto; [apply mul_nn; lia|lia| | |].
      * split; [apply limb_isl|]. auto.
      * intros _. unfold np. rewrite Z.add_comm, Z.mod_add by lia. auto.
      * rewrite VE in HQ. cbn [hval]. auto.
Qed.

(** ** Store *)
Lemma wp_store_partial : forall k cs T np value (Q : list cseg * Z -> Prop), cinv k T cs -> 0 <= T ->
  0 < np <= LB -> 0 <= value < 256 ^ (Z.min (LB - np) (hlen cs)) ->
  match cs with [] => True | s :: _ => np < LB -> (T + slen s) mod LB = np end ->
  (forall cs', Forall2 cs_same cs cs' ->
     hval cs' = hval cs - hval cs mod 256 ^ (LB - np) + value ->
     match cs, cs' with s :: _, s' :: _ => cs_segment s' = cs_segment s | _, _ => True end -> Q (cs', 0)) ->
  wp (composite_store_partial cs np value) Q.
Proof.
  induction cs as [|s rest IH]; intros T np value Q HI HT Hnp Hv Hpos HQ.
  - cbn [hlen] in Hv. rewrite Z.min_r, Z.pow_0_r in Hv by lia. assert (value = 0) by lia. subst value.
    cbn [composite_store_partial]. pf (p256_pos (LB - np)).
    apply wp_mif; intros _; apply wp_ret; apply HQ; auto; cbn [hval]; rewrite Z.mod_0_l; lia.
  - cbn [composite_store_partial]. pose proof (cinv_refl _ _ _ HI) as RF. destruct (cinv_inv _ _ _ _ HI) as (Os & Op & Ks & Kp & En & Al & Ne & La & Ze & Fi & Re). apply wp_mif; intros E.
    + apply Z.eqb_eq in E. subst np. pose proof (slen_nonneg s). pose proof (plen_nonneg s). pose proof (clen_nonneg rest).
      cbn [hlen] in Hv. rewrite Z.min_l, Z.sub_diag, Z.pow_0_r in Hv by lia. assert (value = 0) by lia. subst value.
      apply wp_ret. apply HQ; auto. rewrite Z.sub_diag, Z.pow_0_r, Z.mod_1_r. lia.
    + apply Z.eqb_neq in E. specialize (Hpos ltac:(lia)). rewrite Hpos in *.
      pose proof (slen_nonneg s) as SN. pose proof (plen_nonneg s) as PN. pose proof LB_pos as HLB. pose proof (clen_nonneg rest) as CN.
      pose proof (mpval_bound _ Op) as PB. fold (plen s) in PB.
      pf (p256_pos np) as NP. pf (p256_pos (plen s)) as PP.
      set (m := LB - (np + plen s)). set (P := cs_high_next_partial s) in *. pf (p256_pos m) as MP.
      assert (HM : hval (s :: rest) mod 256 ^ (LB - np) = mpval P + 256 ^ plen s * (cval rest mod 256 ^ m)).
      { cbn [hval]. fold P. replace (LB - np) with (plen s + m) by (unfold m; lia).
        pf (hval_step 0 (plen s) (mpval P) (cval rest) m) as HS. rewrite Z.pow_0_r in HS. lia. }
      (* the segment following an unfinished limb is empty *)
      assert (HR : np + plen s < LB -> match rest with [] => True | s' :: _ => slen s' = 0 /\ (T + slen s + plen s) mod LB = np + plen s end).
      { intros L. destruct rest as [|s' rest']; auto. destruct (cinv_inv _ _ _ _ Re) as (Os' & Op' & Ks' & Kp' & En' & Al' & Ne' & La' & Ze' & Fi' & Re').
        assert (PN' : (T + slen s + plen s) mod LB = np + plen s) by (apply pos_next; lia). destruct Al'; split; auto; lia. }
      assert (CH : np + plen s < LB -> cval rest = hval rest /\ hlen rest = clen rest).
      { intros L. specialize (HR L). destruct rest as [|s' rest']; auto. destruct HR as [S0 _].
        destruct (cinv_inv _ _ _ _ Re) as (Os' & Op' & Ks' & Kp' & En' & Al' & Ne' & La' & Ze' & Fi' & Re'). cbn [cval hval hlen clen]. pose proof (mpval_bound _ Os') as B0. fold (slen s') in B0. rewrite S0 in *. rewrite Z.pow_0_r in *. lia. }
      assert (NXT : match rest with [] => True | s' :: _ => np + plen s < LB -> (T + slen s + plen s + slen s') mod LB = np + plen s end).
      { destruct rest as [|s' rest']; auto. intros L. destruct (HR L) as [-> M]. rewrite Z.add_0_r. auto. }
      (* values after the recursive call *)
      assert (CV : forall rest', Forall2 cs_same rest rest' ->
         hval rest' = hval rest - hval rest mod 256 ^ m + value / 256 ^ plen s ->
         match rest, rest' with s0 :: _, s' :: _ => cs_segment s' = cs_segment s0 | _, _ => True end ->
         cval rest' = cval rest - cval rest mod 256 ^ m + value / 256 ^ plen s).
      { intros rest' F V SG. destruct rest as [|s0 r0].
        - inversion F; subst rest'. cbn [hval cval] in *. lia.
        - inversion F as [|y1 s0' y3 l' F1 F2 y5 y6]. subst y1 y3 rest'. assert (SL : slen s0' = slen s0) by (apply cs_same_slen; auto).
          destruct (Z_lt_le_dec (np + plen s) LB) as [L|L].
          + destruct (HR L) as [S0 _]. destruct (CH L) as [C0 _].
            assert (C1 : cval (s0' :: l') = hval (s0' :: l')).
            { cbn [cval hval]. rewrite SG, SL, S0. destruct (cinv_inv _ _ _ _ Re) as (Os' & Op' & Ks' & Kp' & En' & Al' & Ne' & La' & Ze' & Fi' & Re'). pose proof (mpval_bound _ Os') as B0. fold (slen s0) in B0. rewrite S0 in *. rewrite Z.pow_0_r in *. lia. }
            rewrite C1, C0, V. auto.
          + assert (m = 0) by (unfold m; lia). rewrite H, Z.pow_0_r, Z.mod_1_r in *.
            assert (hval (s0' :: l') - hval (s0 :: r0) = value / 256 ^ plen s) by lia.
            cbn [hval cval] in *. rewrite SG, SL.
            assert (V0 : value / 256 ^ plen s = 0).
            { apply Z.div_small. split; [lia|]. eapply Z.lt_le_trans; [apply Hv|]. apply Z.pow_le_mono_r; [lia|].
              cbn [hlen clen]. unfold m in H. lia. }
            rewrite V0 in *.
            assert (EQ : mpval (cs_high_next_partial s0') + 256 ^ plen s0' * cval l' = mpval (cs_high_next_partial s0) + 256 ^ plen s0 * cval r0) by lia.
            rewrite EQ. lia. }
      assert (BND : 0 <= value / 256 ^ plen s < 256 ^ Z.min (LB - (np + plen s)) (hlen rest)).
      { split; [apply Z.div_pos; lia|]. apply Z.div_lt_upper_bound; [lia|].
        rewrite <- Z.pow_add_r; [|lia|].
        - eapply Z.lt_le_trans; [apply Hv|]. apply Z.pow_le_mono_r; [lia|]. cbn [hlen].
          destruct (Z_lt_le_dec (np + plen s) LB) as [L|L]; [destruct (CH L) as [_ ->]; lia|].
          assert (0 <= hlen rest). { destruct rest; cbn [hlen]; [lia|]. pose proof (plen_nonneg c0). pose proof (clen_nonneg rest). lia. }
          lia.
        - assert (0 <= hlen rest). { destruct rest; cbn [hlen]; [lia|]. pose proof (plen_nonneg c0). pose proof (clen_nonneg rest). lia. } lia. }
      apply wp_mif; intros EM; rewrite mp_is_empty_eq in EM; change (mp_len (cs_high_next_partial s)) with (plen s) in EM.
      * apply negb_true_iff, Z.eqb_neq in EM.
        change (mp_len P) with (plen s) in *.
        assert (N0 : 0 < nlimbs P) by (apply nlimbs_lt; [lia|change (mp_len P) with (plen s); lia]).
        change (mp_len P) with (plen s).
        apply wp_bind, wp_lsb_mask; [unfold W; lia|]. rewrite land_mask by lia. rewrite <- pow256 by lia.
        assert (VM : 0 <= value mod 256 ^ plen s < 256 ^ plen s) by (apply Z.mod_pos_bound; lia).
        assert (L0 : limb P 0 = mpval P).
        { unfold limb. rewrite Z.pow_0_r, Z.div_1_r. apply Z.mod_small. split; [lia|]. eapply Z.lt_le_trans; [apply PB|].
          rewrite B_256'. apply Z.pow_le_mono_r; lia. }
        apply wp_bind, wp_store; auto; [lia| |].
        { unfold lim. change (mp_len P) with (plen s). rewrite Z.min_r by lia. replace (plen s - 0 * LB) with (plen s) by lia. auto. }
        intros P' (OP & SP & VP). rewrite L0, Z.pow_0_r in VP.
        apply wp_bind, wp_lshr; [unfold W; lia|]. rewrite <- pow256 by lia.
        apply wp_bind. apply IH with (T := T + slen s + plen s); auto; [lia|lia|].
        intros rest' F V SG. fold m in V. apply wp_ret.
        specialize (CV rest' F V SG).
        apply HQ.
        -- constructor; auto. split; [auto|]. split; [auto|]. split; [auto|]. split; [apply shape_refl|auto].
        -- rewrite HM. cbn [hval]. unfold plen at 1. cbn [cs_high_next_partial]. rewrite (shape_len _ _ SP). change (mp_len P) with (plen s).
           rewrite CV, VP. fold P. pf (Z.div_mod value (256 ^ plen s)). lia.
        -- reflexivity.
      * apply negb_false_iff, Z.eqb_eq in EM. change (plen s = 0) in EM.
        apply wp_bind. replace np with (np + plen s) by lia. replace value with (value / 256 ^ plen s) by (rewrite EM, Z.pow_0_r, Z.div_1_r; auto).
        apply IH with (T := T + slen s + plen s); auto; [lia|lia|].
        intros rest' F V SG. fold m in V. apply wp_ret. specialize (CV rest' F V SG).
        apply HQ.
        -- constructor; auto. apply cs_same_refl; auto.
        -- rewrite HM. cbn [hval]. fold P. rewrite CV. pf (Z.div_mod value (256 ^ plen s)). rewrite EM, Z.pow_0_r in *. rewrite Z.mod_1_r in *. lia.
        -- auto.
Qed.

Definition clim (cs : list cseg) (i : Z) : Z := 256 ^ Z.min LB (clen cs - i * LB).

Lemma Forall2_refl_app : forall k T pre cs cs', cinv k T (pre ++ cs) -> Forall2 cs_same cs cs' -> Forall2 cs_same (pre ++ cs) (pre ++ cs').
Proof.
  intros k T pre. revert T. induction pre; cbn [app]; intros; auto. inversion H; subst. constructor; eauto using cs_same_refl.
Qed.

Lemma wp_composite_store : forall k cs i v (Q : list cseg -> Prop), cinv k 0 cs -> 0 <= i < ct_mp_nlimbs (clen cs) ->
  0 <= v < clim cs i ->
  (forall cs', Forall2 cs_same cs cs' -> cval cs' = cval cs + (v - vlimb (cval cs) i) * B ^ i -> Q cs') ->
  wp (composite_store cs i v) Q.
Proof.
  intros k cs i v Q HI Hi Hv HQ. unfold composite_store. pose proof LB_pos as HLB.
  apply wp_bind. eapply wp_index with (T := 0) (k := k); [lia|eauto|symmetry; apply ct_mp_nlimbs_unique; lia|rewrite Z.add_0_l; auto|].
  intros pre s rest off E I0 EO HO HR EE. subst cs. cbn [app].
  assert (PB : 0 <= cval pre < 256 ^ (off * LB)) by (rewrite EO, Z.add_0_l; eapply cval_prefix_bound; eauto).
  assert (OL : 0 <= off * LB) by (apply mul_nn; lia).
  set (j := i - off) in *. assert (J : 0 <= j < nlimbs (cs_segment s)) by (unfold j; lia).
  assert (HQ' : forall cs', Forall2 cs_same (s :: rest) cs' -> cval cs' = cval (s :: rest) + (v - vlimb (cval (s :: rest)) j) * B ^ j -> Q (pre ++ cs')).
  { intros cs' F V. apply HQ; [eapply Forall2_refl_app; eauto|]. rewrite !cval_app. replace (clen pre) with (off * LB) by lia.
    rewrite vlimb_shift by lia. fold j. rewrite V. replace i with (off + j) by (unfold j; lia).
    rewrite Z.pow_add_r by lia. rewrite (Bpow256 off) by lia. ring. }
  unfold clim in Hv. rewrite clen_app in Hv. replace (clen pre) with (off * LB) in Hv by lia.
  replace (off * LB + clen (s :: rest) - i * LB) with (clen (s :: rest) - j * LB) in Hv by (unfold j; lia).
  assert (VI : isl v). { unfold isl. rewrite B_256'. split; [lia|]. eapply Z.lt_le_trans; [apply Hv|]. apply Z.pow_le_mono_r; lia. }
  clear HQ Hi HI EO PB. assert (JE : j = i - off) by auto. clearbody j.
  pose proof (cinv_refl _ _ _ I0) as RF. inversion RF as [|x1 x2 x3 x4 RF1 RF2 x5 x6]. subst x1 x2 x3 x4. clear RF.
  destruct (cinv_inv _ _ _ _ I0) as (Os & Op & Ks & Kp & En & Al & Ne & La & Ze & Fi & Re). pose proof (mpval_bound _ Os) as SB. fold (slen s) in SB. pose proof (slen_nonneg s). pose proof (plen_nonneg s). pose proof (clen_nonneg rest).
  assert (FULL : (j + 1) * LB <= slen s -> forall b', store_post (cs_segment s) j v b' -> Q (pre ++ mk_cseg (cs_end s) b' (cs_high_next_partial s) :: rest)).
  { intros L b' (O & S & V). apply HQ'.
    - constructor; auto. split; [auto|]. split; [auto|]. split; [auto|]. split; [auto|apply shape_refl].
    - cbn [cval]. rewrite vlimb_low by (auto; lia). unfold slen at 1, plen at 1. cbn [cs_segment cs_high_next_partial]. rewrite (shape_len _ _ S).
      fold (slen s) (plen s). rewrite V, limb_vlimb. ring. }
  apply wp_bind, wp_usub; [lia|]. apply wp_mif; intros E1.
  - apply wp_bind, wp_usub; [lia|].
    assert (L : (j + 1) * LB <= slen s).
    { apply orb_true_iff in E1. destruct E1 as [E1|E1].
      - apply negb_true_iff, Z.eqb_neq in E1. apply nlimbs_full. lia.
      - apply negb_true_iff in E1. apply ne_full; auto. }
    rewrite <- JE. apply wp_bind, wp_store_full; auto; [lia|]. intros b' Hb'. apply wp_ret. auto.
  - apply orb_false_iff in E1. destruct E1 as [E1 E2]. apply negb_false_iff, Z.eqb_eq in E1. apply negb_false_iff in E2.
    assert (JL : j = nlimbs (cs_segment s) - 1) by lia.
    apply wp_mif; intros E3.
    + apply wp_bind, wp_usub; [lia|]. rewrite <- JE. apply orb_true_iff in E3. destruct E3 as [E3|E3].
      * destruct rest; try discriminate. cbn [clen] in Hv. rewrite La in Hv by auto.
        apply wp_bind, wp_store; auto.
        { unfold lim. fold (slen s). replace (slen s + 0 + 0 - j * LB) with (slen s - j * LB) in Hv by lia. auto. }
        intros b' (O & S & V). apply wp_ret. apply HQ'.
        -- constructor; auto. split; [auto|]. split; [auto|]. split; [auto|]. split; [auto|apply shape_refl].
        -- pose proof (mpval_bound _ Op) as PB'. fold (plen s) in PB'. rewrite La, Z.pow_0_r in PB' by auto.
           cbn [cval]. unfold slen at 1, plen at 1. cbn [cs_segment cs_high_next_partial]. rewrite (shape_len _ _ S).
           replace (mpval (cs_high_next_partial s)) with 0 by lia.
           rewrite !Z.mul_0_r, !Z.add_0_r, V, limb_vlimb. auto.
      * apply Z.eqb_eq in E3. assert (L : (j + 1) * LB <= slen s) by (apply mod0_full; auto).
        apply wp_bind, wp_store; auto.
        { rewrite lim_full by auto. auto. }
        intros b' Hb'. apply wp_ret. auto.
    + apply orb_false_iff in E3. destruct E3 as [E3 E4]. apply Z.eqb_neq in E4.
      pf (last_partial (cs_segment s)) as LP. pf (Z.mod_pos_bound (mp_len (cs_segment s)) LB) as MB.
      fold (slen s) in *. set (np := slen s mod LB) in *. rewrite <- JL in LP.
      pf (p256_pos np) as NP.
      destruct (vlimb_part (mpval (cs_segment s)) (slen s) np (mpval (cs_high_next_partial s) + 256 ^ plen s * cval rest) j) as [VE VB]; auto; [lia|lia|].
      apply wp_bind, wp_lsb_mask; [unfold W; lia|]. apply wp_bind, wp_usub; [lia|]. rewrite <- JE. rewrite land_mask by lia. rewrite <- pow256 by lia.
      assert (VM : 0 <= v mod 256 ^ np < 256 ^ np) by (apply Z.mod_pos_bound; lia).
      apply wp_bind, wp_store; auto.
      { unfold lim. fold (slen s). rewrite Z.min_r by lia. replace (slen s - j * LB) with np by lia. auto. }
      intros b' (O & S & V). apply wp_bind, wp_lshr; [unfold W; lia|]. rewrite <- pow256 by lia.
      apply wp_bind. set (s' := mk_cseg (cs_end s) b' (cs_high_next_partial s)).
      assert (SS : cs_same s s'). { split; [auto|]. split; [auto|]. split; [auto|]. split; [auto|apply shape_refl]. }
      eapply wp_store_partial with (T := off * LB) (k := k); [ | |lia| | | ].
      * eapply cinv_same; [apply I0|]. constructor; auto.
      * lia.
      * split; [apply Z.div_pos; lia|]. apply Z.div_lt_upper_bound; [lia|]. rewrite <- Z.pow_add_r; [|lia|].
        -- eapply Z.lt_le_trans; [apply Hv|]. apply Z.pow_le_mono_r; [lia|]. cbn [clen hlen]. rewrite (cs_same_plen s s') by auto. lia.
        -- cbn [hlen]. rewrite (cs_same_plen s s') by auto. lia.
      * intros _. rewrite (cs_same_slen s s') by auto. unfold np. rewrite Z.add_comm, Z.mod_add by lia. auto.
      * intros cs' F HV SG. apply wp_bind, wp_dassert; [reflexivity|]. apply wp_ret. apply HQ'.
        -- inversion F as [|y1 y2 y3 y4 F1 F2 y5 y6]; subst y1 y3 cs'. constructor.
           ++ destruct SS as (A1 & A2 & A3 & A4 & A5). destruct F1 as (B1 & B2 & B3 & B4 & B5).
              split; [congruence|]. split; [auto|]. split; [auto|]. split; [eapply shape_trans; [exact A4|exact B4]|eapply shape_trans; [exact A5|exact B5]].
           ++ auto.
        -- inversion F as [|y1 y2 y3 y4 F1 F2 y5 y6]; subst y1 y3 cs'. cbn [hval] in HV. cbn [cval].
           rewrite (cs_same_slen s' y2), (cs_same_slen s s') by auto. rewrite HV, SG. change (plen s') with (plen s). change (cs_high_next_partial s') with (cs_high_next_partial s). change (cs_segment s') with b'.
           rewrite V, VE, limb_vlimb.
           set (H' := mpval (cs_high_next_partial s) + 256 ^ plen s * cval rest) in *.
           pf (Z.div_mod v (256 ^ np)).
           assert (EN : 256 ^ slen s = B ^ j * 256 ^ np). { rewrite LP. rewrite Bpow256 by lia. apply Z.pow_add_r; [apply mul_nn|]; lia. }
           rewrite EN. set (r := v mod 256 ^ np) in *. set (q := v / 256 ^ np) in *. set (e := H' mod 256 ^ (LB - np)) in *. rewrite F0. ring.
Qed.

(** ** Construction *)
Lemma join_spec : forall lo hi, mp_ok lo -> mp_ok hi -> kind_of lo = kind_of hi -> 16 * (mp_len lo + mp_len hi) < 2 ^ UW ->
  mp_ok (mp_join lo hi) /\ kind_of (mp_join lo hi) = kind_of hi /\ mp_len (mp_join lo hi) = mp_len lo + mp_len hi /\
  mpval (mp_join lo hi) = mpval lo + 256 ^ mp_len lo * mpval hi.
Proof.
  intros lo hi [Hl _] [Hh _] K S. pose proof LB_pos.
  destruct lo as [l|l|l], hi as [h|h|h]; try discriminate; cbn [mp_join mp_len mpval kind_of] in *;
    rewrite ?zlen_app; (split; [split; [apply digits_ok_app; auto|cbn [mp_len]; rewrite ?zlen_app; lia]|]).
  - split; [auto|]. split; [lia|]. unfold be_val. rewrite rev_app_distr, digits_val_app, zlen_rev. auto.
  - split; [auto|]. split; [lia|]. unfold le_val. apply digits_val_app.
  - split; [auto|]. split; [lia|]. change (2 ^ (8 * LB)) with B. rewrite digits_val_app, Bpow256 by apply zlen_nonneg. auto.
Qed.

(** Joining with a carried partial. *)
Definition join_head (carry : option mp) (segs : list mp) : list mp :=
  match carry, segs with Some p, b :: r => mp_join p b :: r | _, _ => segs end.

Lemma wp_composite_new_aux : forall k fuel segs T carry (Q : list cseg -> Prop), segs_ok k segs -> 0 <= T ->
  (length segs <= fuel)%nat ->
  match segs with [] => True | b :: _ => (T mod LB = 0 \/ mp_len b = 0) /\ (k = KNE -> T mod LB = 0) end ->
  (forall cs, cinv k T cs -> length cs = length segs -> clen cs = segs_len segs -> cval cs = segs_val segs ->
     join_segments carry cs = join_head carry segs -> Q cs) ->
  wp (composite_new_aux segs T fuel) Q.
Proof.
  intros k. induction fuel as [|fuel IH]; intros segs T carry Q HS HT HF HA HQ.
  - destruct segs; [|cbn [length] in HF; lia]. apply wp_ret. apply HQ; auto; try constructor. destruct carry; auto.
  - destruct segs as [|b rest]. { apply wp_ret. apply HQ; auto; try constructor. destruct carry; auto. }
    cbn [composite_new_aux]. inversion HS as [|x y [Hb Kb] Hrest]; subst x y. destruct HA as [HA1 HA2]. cbn [length] in HF.
    pose proof LB_pos as HLB. pose proof (mp_len_nonneg b) as LN. pf (Z.mod_pos_bound (T + mp_len b) LB) as MB.
    (* the part of the proof common to all cases: an empty partial *)
    assert (EMPTY : forall s p, mp_ok s -> mp_ok p -> kind_of s = k -> kind_of p = k -> mp_len s = mp_len b -> mpval s = mpval b -> mp_len p = 0 ->
       (rest = [] \/ (T + mp_len b) mod LB = 0) ->
       wp (let n_bytes_total := T + mp_len b + mp_len p in
           let end_ := ct_mp_nlimbs n_bytes_total in
           let! tl := composite_new_aux rest n_bytes_total fuel in
           ret (mk_cseg end_ s p :: tl)) Q).
    { intros s p Os Op Ks Kp Ls Vs Lp Hc. cbv zeta. apply wp_bind.
      assert (s = b) by (apply mp_inj; auto; split; congruence). subst s.
      apply IH with (carry := Some p); auto; [lia|lia| |].
      - rewrite Lp, Z.add_0_r. destruct rest as [|b' rest']; auto. destruct Hc as [Hc|Hc]; [discriminate|]. auto.
      - intros tl I0 L0 CL CV J. apply wp_ret. apply HQ.
        + constructor; unfold slen, plen; cbn [cs_segment cs_high_next_partial cs_end]; auto; lia.
        + cbn [length]. lia.
        + cbn [clen segs_len]. unfold slen, plen; cbn [cs_segment cs_high_next_partial]. lia.
        + cbn [cval segs_val]. unfold slen, plen; cbn [cs_segment cs_high_next_partial]. rewrite Lp, CV.
          pose proof (mpval_bound _ Op) as B0. rewrite Lp, Z.pow_0_r in B0. rewrite Z.pow_0_r. replace (mpval p) with 0 by lia. lia.
        + cbn [join_segments cs_segment cs_high_next_partial]. rewrite J.
          assert (JH : join_head (Some p) rest = rest).
          { destruct rest as [|b' rest']; auto. cbn [join_head]. f_equal. inversion Hrest as [|x y [Hb' Kb'] Hr']; subst x y.
            destruct (join_spec p b') as (A1 & A2 & A3 & A4); auto; [congruence|destruct Hb' as [_ Hb']; lia|].
            symmetry. apply mp_inj; auto; [split; [auto|lia]|]. rewrite A4, Lp, Z.pow_0_r.
            pose proof (mpval_bound _ Op) as B0. rewrite Lp, Z.pow_0_r in B0. lia. }
          rewrite JH. destruct carry; reflexivity. }
    (* a segment taken as a whole *)
    assert (WHOLE : (rest = [] \/ (T + mp_len b) mod LB = 0) ->
       forall (F : mp * mp * list mp -> M (list cseg)),
       (forall s p, mp_ok s -> mp_ok p -> kind_of s = k -> kind_of p = k -> mp_len s = mp_len b -> mpval s = mpval b -> mp_len p = 0 ->
          wp (F (p, s, rest)) Q) ->
       wp (let! a := (let! '(hp, sg) := mp_take b (mp_len b) in ret (hp, sg, rest)) in F a) Q).
    { intros Hc F HF'. apply wp_bind, wp_bind, wp_mp_take; auto; [lia| |].
      - destruct b; cbn [supports_unaligned mp_len]; auto. right. apply Z.mod_mul. lia.
      - intros hi lo Oh Ol Kh Kl Ll Lh Vl Vh. apply wp_ret. apply HF'; auto; try congruence; try lia.
        rewrite Vl. apply clear_all_mod; auto. lia. }
    destruct rest as [|b' rest'].
    + apply WHOLE; auto.
    + destruct (Z.eqb_spec ((T + mp_len b) mod LB) 0) as [E|E]; cbn [negb].
      * (* aligned *)
        match goal with |- wp (bind (bind _ (fun _ => ?m2)) ?F) _ =>
          assert (Y : wp (bind m2 F) Q) by (apply WHOLE; auto) end.
        apply wp_bind_inv in Y. apply wp_bind, wp_bind, wp_tick. exact Y.
      * (* bytes taken from the next segment *)
        assert (KU : k <> KNE).
        { intros ->. apply E. specialize (HA2 eq_refl). rewrite Z.add_mod, HA2 by lia.
          assert (mp_len b mod LB = 0). { destruct b; try discriminate. cbn [mp_len]. apply Z.mod_mul. lia. }
          rewrite H. rewrite Z.mod_0_l; lia. }
        inversion Hrest as [|x y [Hb' Kb'] Hr']; subst x y. pose proof (mp_len_nonneg b') as LN'.
        set (nn := Z.min (LB - (T + mp_len b) mod LB) (mp_len b')).
        apply wp_bind. apply wp_bind, wp_tick.
        apply wp_bind, wp_mp_take; auto; [lia| |].
        { left. destruct b'; auto. }
        intros hi lo Oh Ol Kh Kl Ll Lh Vl Vh. apply wp_ret. apply wp_bind.
        assert (DMV : mpval b' = mpval lo + 256 ^ nn * mpval hi).
        { rewrite Vl, Vh. pf (p256_pos nn). pf (Z.div_mod (mpval b') (256 ^ nn)). lia. }
        apply IH with (carry := Some lo); [constructor; auto; split; [auto|congruence]|lia|cbn [length] in *; lia| |].
        -- split; [|congruence]. rewrite Ll, Lh. destruct (Z.min_spec (LB - (T + mp_len b) mod LB) (mp_len b')) as [[M1 M2]|[M1 M2]]; fold nn in M2.
           ++ left. pf (Z.div_mod (T + mp_len b) LB). apply mod_eq_of with (q := (T + mp_len b) / LB + 1); lia.
           ++ right. lia.
        -- intros tl I0 L0 CL CV J. apply wp_ret. cbn [length segs_len segs_val] in *. apply HQ.
           ++ constructor; unfold slen, plen; cbn [cs_segment cs_high_next_partial cs_end]; auto; try congruence; try lia.
              destruct tl; [discriminate|congruence].
           ++ cbn [length]. lia.
           ++ cbn [clen]. unfold slen, plen; cbn [cs_segment cs_high_next_partial]. lia.
           ++ cbn [cval]. unfold slen, plen; cbn [cs_segment cs_high_next_partial]. rewrite CV, Ll, Lh, DMV.
              replace (mp_len b') with (nn + (mp_len b' - nn)) at 2 by lia. rewrite Z.pow_add_r by lia. ring.
           ++ cbn [join_segments cs_segment cs_high_next_partial]. rewrite J. cbn [join_head].
              assert (JH : mp_join lo hi = b').
              { destruct (join_spec lo hi) as (A1 & A2 & A3 & A4); auto; [congruence|destruct Hb' as [_ Hb']; lia|].
                symmetry. apply mp_inj; auto; [split; [congruence|lia]|]. rewrite A4, Ll, DMV. auto. }
              rewrite JH. destruct carry; reflexivity.
Qed.

Lemma wp_composite_new : forall k segs (Q : list cseg -> Prop), segs_ok k segs ->
  (forall cs, cinv k 0 cs -> clen cs = segs_len segs -> cval cs = segs_val segs -> composite_segments cs = segs -> Q cs) ->
  wp (composite_new segs) Q.
Proof.
  intros k segs Q HS HQ. unfold composite_new. pose proof LB_pos.
  apply wp_composite_new_aux with (k := k) (carry := None); [auto|apply Z.le_refl|auto| |].
  - destruct segs; auto.
  - intros cs I _ L V J. apply HQ; auto.
Qed.

(** The memory behind a composite after shape preserving updates. *)
Lemma join_len : forall p b, kind_of p = kind_of b -> mp_len (mp_join p b) = mp_len p + mp_len b.
Proof. intros [l|l|l] [h|h|h] K; try discriminate; cbn [mp_join mp_len]; rewrite zlen_app; lia. Qed.

Lemma join_same : forall k cs cs' T carry carry',
  cinv k T cs -> Forall2 cs_same cs cs' -> (forall b, In b (join_segments carry cs) -> 16 * mp_len b < 2 ^ UW) ->
  match carry, carry' with None, None => True | Some p, Some p' => mp_ok p /\ mp_ok p' /\ same_shape p p' /\ kind_of p = k /\ mp_len p <= LB | _, _ => False end ->
  Forall2 (fun b b' => same_shape b b' /\ mp_ok b') (join_segments carry cs) (join_segments carry' cs').
Proof.
  intros k cs cs' T carry carry' HI HF. revert T carry carry' HI. induction HF; intros T carry carry' HI HB HC; cbn [join_segments]; constructor.
  - destruct (cinv_inv _ _ _ _ HI) as (Os & Op & Ks & Kp & En & Al & Ne & La & Ze & Fi & Re). destruct H as (E1 & O1 & O2 & S1 & S2). pose proof (HB _ (or_introl eq_refl)) as BX.
    destruct carry as [p|], carry' as [p'|]; try contradiction; auto.
    destruct HC as (A1 & A2 & A3 & A4 & A5). rewrite join_len in BX by congruence.
    pose proof (shape_len _ _ A3). pose proof (shape_len _ _ S1).
    assert (kind_of p' = kind_of p) by apply A3. assert (kind_of (cs_segment y) = kind_of (cs_segment x)) by apply S1.
    destruct (join_spec p (cs_segment x)) as (B1 & B2 & B3 & B4); auto; [congruence|].
    destruct (join_spec p' (cs_segment y)) as (C1 & C2 & C3 & C4); auto; [congruence|lia|].
    split; auto. split; [congruence|lia].
  - destruct (cinv_inv _ _ _ _ HI) as (Os & Op & Ks & Kp & En & Al & Ne & La & Ze & Fi & Re). eapply IHHF; eauto.
    + intros s Hs. apply HB. right. exact Hs.
    + destruct H as (E1 & O1 & O2 & S1 & S2). pose proof LB_pos. pf (Z.mod_pos_bound (T + slen x) LB). unfold plen in *. split; [auto|]. split; [auto|]. split; [auto|]. split; [auto|lia].
Qed.

Lemma join_val : forall k cs T carry, cinv k T cs -> (forall b, In b (join_segments carry cs) -> 16 * mp_len b < 2 ^ UW) ->
  match carry with None => True | Some p => mp_ok p /\ kind_of p = k /\ mp_len p <= LB end ->
  cs <> [] ->
  segs_val (join_segments carry cs) =
    match carry with None => cval cs | Some p => mpval p + 256 ^ mp_len p * cval cs end.
Proof.
  induction cs as [|s rest IH]; intros T carry HI HB HC HN; [congruence|]. clear HN. cbn [join_segments segs_val].
  destruct (cinv_inv _ _ _ _ HI) as (Os & Op & Ks & Kp & En & Al & Ne & La & Ze & Fi & Re). pose proof (HB _ (or_introl eq_refl)) as BX. pose proof LB_pos. pf (Z.mod_pos_bound (T + slen s) LB).
  assert (RV : segs_val (join_segments (Some (cs_high_next_partial s)) rest) = mpval (cs_high_next_partial s) + 256 ^ plen s * cval rest).
  { destruct rest as [|s' r'].
    - cbn [join_segments segs_val cval]. pose proof (mpval_bound _ Op) as B0. fold (plen s) in B0. rewrite La, Z.pow_0_r in * by auto. lia.
    - apply (IH (T + slen s + plen s) (Some (cs_high_next_partial s))); auto; [intros b Hb; apply HB; right; exact Hb| |congruence].
      split; [auto|]. split; [auto|]. fold (plen s). lia. }
  rewrite RV. cbn [cval]. destruct carry as [p|].
  - destruct HC as (A1 & A2 & A3). rewrite join_len in BX by congruence. destruct (join_spec p (cs_segment s)) as (B1 & B2 & B3 & B4); auto; [congruence|].
    rewrite B3, B4. fold (slen s). pose proof (slen_nonneg s). pose proof (mp_len_nonneg p). rewrite Z.pow_add_r by lia. ring.
  - fold (slen s). lia.
Qed.

(** The buffers behind [cs'], reached from the fresh composite [cs] by stores. *)
Lemma composite_out : forall k cs cs' segs, segs_ok k segs -> composite_segments cs = segs -> cinv k 0 cs ->
  Forall2 cs_same cs cs' -> cs <> [] ->
  Forall2 (fun b b' => same_shape b b' /\ mp_ok b') segs (composite_segments cs') /\
  segs_val (composite_segments cs') = cval cs'.
Proof.
  intros k cs cs' segs HS HG HI HF HN.
  assert (F2 : Forall2 (fun b b' => same_shape b b' /\ mp_ok b') segs (composite_segments cs')).
  { rewrite <- HG. unfold composite_segments. eapply join_same with (T := 0) (k := k); eauto; cbn; auto.
    intros b Hb. fold (composite_segments cs) in Hb. rewrite HG in Hb. unfold segs_ok in HS. rewrite Forall_forall in HS. apply HS in Hb. apply Hb. }
  split; auto. unfold composite_segments. rewrite (join_val k cs' 0 None); auto.
  - eapply cinv_same; eauto.
  - fold (composite_segments cs'). intros b Hb. clear - F2 Hb. induction F2; [destruct Hb|]. destruct Hb as [->|Hb]; auto. apply H.
  - intros ->. inversion HF; subst; congruence.
Qed.

Lemma same_trans : forall cs cs' cs'', Forall2 cs_same cs cs' -> Forall2 cs_same cs' cs'' -> Forall2 cs_same cs cs''.
Proof.
  intros cs cs' cs'' H. revert cs''. induction H; intros cs'' H'; inversion H' as [|? z ? ? H4]; subst; constructor; auto.
  destruct H as (A1 & A2 & A3 & A4 & A5), H4 as (B1 & B2 & B3 & B4 & B5).
  split; [congruence|]. split; auto. split; auto. split; eapply shape_trans; eauto.
Qed.

End Facts.
