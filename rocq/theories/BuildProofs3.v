(** Different builds and different encodings, for moduli that may lose carries (ThmBuild3.v). *)
From Coq Require Import ZArith List Bool Lia.
Require Import Verif.Spec Verif.Base Verif.Monad Verif.ModelLimb Verif.LimbFacts Verif.ModelBuf Verif.SpecBuf Verif.BufFacts
  Verif.ModelMont Verif.SpecMont Verif.SpecMontValue Verif.ModelEuclid Verif.SpecEuclid Verif.SpecSteps Verif.ModelPrime Verif.PrimeFacts2
  Verif.MontProofs Verif.MontFine Verif.MontValue Verif.PrimeFine Verif.ThmLimb Verif.ThmMont Verif.ThmPrime Verif.ThmInvOdd Verif.SpecBuild Verif.BuildProofs.
Import ListNotations.
Open Scope Z_scope.

Lemma neg_inv_exists : forall (c : cfg) n, mp_ok n -> Z.odd (mpval n) = true -> exists g, neg_inv n g.
Proof. intros c n Hn HO. destruct (proj1 (C29_neg_inv c n Hn) HO) as (r & _ & g & _ & H). exists g. exact H. Qed.

Lemma b44_montgomery_any : forall (c1 c2 : cfg), same_target c1 c2 ->
  (forall r a b n g, @mp_ok c1 r -> @mp_ok c1 a -> @mp_ok c1 b -> @mp_ok c1 n -> Z.odd (@mpval c1 n) = true -> @neg_inv c1 n g -> @len_compat c1 n (@mp_len c1 r) ->
    @len_compat c1 a (@mp_len c1 n) -> @len_compat c1 b (@mp_len c1 n) -> @mpval c1 a < @mpval c1 n -> @mpval c1 b < @mpval c1 n -> 0 < @mp_len c1 b -> @mg_room c1 r n ->
    same_result (@ct_montgomery_mul_mod_mp_mp c1 r a b n g) (@ct_montgomery_mul_mod_mp_mp c2 r a b n g)) /\
  (forall r a n g radix e nbits s, @mp_ok c1 r -> @mp_ok c1 a -> @mp_ok c1 n -> @mp_ok c1 radix -> @mp_ok c1 e -> @mp_ok c1 (NE s) -> Z.odd (@mpval c1 n) = true -> @neg_inv c1 n g ->
    @len_compat c1 n (@mp_len c1 r) -> @nlimbs c1 n <= zlen s -> @len_compat c1 a (@mp_len c1 n) -> 0 < @mp_len c1 a -> @mpval c1 a < @mpval c1 n ->
    @len_compat c1 radix (@mp_len c1 n) -> @mpval c1 radix = @mg_radix c1 n mod @mpval c1 n -> @mg_room c1 r n -> @mg_room c1 (NE s) n -> 0 <= nbits ->
    both (@ct_montgomery_exp_mod_odd_mp_mp c1 r a n g radix e nbits s) (@ct_montgomery_exp_mod_odd_mp_mp c2 r a n g radix e nbits s) (fun x y => fst x = fst y)) /\
  (forall r a n e nbits s, @mp_ok c1 r -> @mp_ok c1 a -> @mp_ok c1 n -> @mp_ok c1 e -> @mp_ok c1 (NE s) -> Z.odd (@mpval c1 n) = true -> 2 <= @nlimbs c1 n ->
    @len_compat c1 n (@mp_len c1 r) -> @len_compat c1 a (@mp_len c1 n) -> @mpval c1 a < @mpval c1 n -> @len_compat c1 n (@mp_len c1 a) -> @nlimbs c1 n <= zlen s ->
    16 * (@mp_len c1 n + @LB c1) + 8 < 2 ^ @UW c1 -> @mg_room c1 r n -> @mg_room c1 (NE s) n -> 0 <= nbits ->
    both (@ct_exp_mod_odd_mp_mp c1 r a n e nbits s) (@ct_exp_mod_odd_mp_mp c2 r a n e nbits s) (fun x y => fst (fst x) = fst (fst y))) /\
  (forall base p radix s0 s1, @mp_ok c1 base -> @mp_ok c1 p -> @mp_ok c1 radix -> @mp_ok c1 (NE s0) -> @mp_ok c1 (NE s1) ->
    Z.odd (@mpval c1 p) = true -> 2 < @mpval c1 p -> @mpval c1 base < @mpval c1 p -> @len_compat c1 base (@mp_len c1 p) -> 0 < @mp_len c1 base -> @len_compat c1 radix (@mp_len c1 p) -> @nlimbs c1 radix = @nlimbs c1 p ->
    @nlimbs c1 p <= zlen s0 -> @nlimbs c1 p <= zlen s1 -> @mpval c1 radix = @mg_radix c1 p mod @mpval c1 p -> @mg_room c1 (NE s0) p -> @mg_room c1 (NE s1) p ->
    same_result (@ct_prime_test_miller_rabin_mp c1 base p radix s0 s1) (@ct_prime_test_miller_rabin_mp c2 base p radix s0 s1)).
Proof.
  intros c1 c2 T. rewrite (target_eq c1 c2 T). clear T. set (c3 := mkcfg _ _ _ _). repeat apply conj; intros.
  - apply (same_of _ _ _ _ _ (C30_mul_value c1 r a b n g H H0 H1 H2 H3 H4 H5 H6 H7 H8 H9 H10 H11) (C30_mul_value c3 r a b n g H H0 H1 H2 H3 H4 H5 H6 H7 H8 H9 H10 H11)).
    intros [x1 x2] [y1 y2] (-> & X & _) (-> & Y & _). f_equal. exact (bec_eq c1 _ _ _ _ X Y).
  - apply (both_of _ _ _ _ _ _ (C32_montgomery_exp_value c1 r a n g radix e nbits s H H0 H1 H2 H3 H4 H5 H6 H7 H8 H9 H10 H11 H12 H13 H14 H15 H16)
      (C32_montgomery_exp_value c3 r a n g radix e nbits s H H0 H1 H2 H3 H4 H5 H6 H7 H8 H9 H10 H11 H12 H13 H14 H15 H16)).
    intros [[x1 x2] x3] [[y1 y2] y3] (-> & _ & X) (-> & _ & Y). cbn [fst]. f_equal. exact (bec_eq c1 _ _ _ _ X Y).
  - destruct (neg_inv_exists c1 n H1 H4) as [g G].
    apply (both_of _ _ _ _ _ _ (C32_exp_value c1 r a n e nbits s g H H0 H1 H2 H3 H4 H5 H6 H7 H8 H9 H10 H11 H12 H13 H14 G) (C32_exp_value c3 r a n e nbits s g H H0 H1 H2 H3 H4 H5 H6 H7 H8 H9 H10 H11 H12 H13 H14 G)).
    intros [[[x1 x2] x3] x4] [[[y1 y2] y3] y4] (-> & _ & _ & _ & v & X & V) (-> & _ & _ & _ & w & Y & Z0). cbn [fst]. f_equal.
    assert (E : v = w) by (exact (reduced_unique c1 n _ v w H4 V Z0)). subst w. exact (bec_eq c1 _ _ _ _ X Y).
  - destruct (neg_inv_exists c1 p H0 H4) as [g G]. destruct (pow_odd_part (@mpval c1 p - 1) ltac:(lia)) as (s & d & S0 & ED & OD).
    eexists. split; [exact (C39_miller_rabin_value c1 base p radix s0 s1 g s d H H0 H1 H2 H3 H4 H5 H6 H7 H8 H9 H10 H11 H12 H13 H14 H15 G S0 ED OD)|
      exact (C39_miller_rabin_value c3 base p radix s0 s1 g s d H H0 H1 H2 H3 H4 H5 H6 H7 H8 H9 H10 H11 H12 H13 H14 H15 G S0 ED OD)].
Qed.

Lemma b44_inv_odd_any : forall (c1 c2 : cfg) res op0 n s0 s1, same_target c1 c2 -> (debug c2 = true -> debug c1 = true) ->
  @mp_ok c1 res -> @mp_ok c1 op0 -> @mp_ok c1 n -> Z.odd (@mpval c1 n) = true -> 1 < @mpval c1 n ->
  @len_compat c1 n (@mp_len c1 res) -> @mut_compat c1 op0 n -> @mp_ok c1 (NE s0) -> @mp_ok c1 (NE s1) -> @nlimbs c1 n <= zlen s0 -> @nlimbs c1 n <= zlen s1 ->
  @gcd_len_ok c1 (@LB c1 * @nlimbs c1 n) -> Z.gcd (@mpval c1 n) (@mpval c1 op0) = 1 ->
  forall x, returns (@ct_inv_mod_odd_mp_mp c1 res op0 n s0 s1) x ->
  exists y, returns (@ct_inv_mod_odd_mp_mp c2 res op0 n s0 s1) y /\ fst (fst x) = fst (fst y).
Proof.
  intros c1 c2 res op0 n s0 s1 T. rewrite (target_eq c1 c2 T). clear T. set (c3 := mkcfg _ _ _ _).
  intros HD H1 H2 H3 HO HN HL HM H4 H5 H6 H7 HG HC x HX.
  assert (X0 : 0 <= @mpval c1 op0). { pose proof (mpval_bound op0 H2). lia. } assert (N0 : 0 < @mpval c1 n) by lia.
  destruct (C34_batches_end c1 _ _ HO N0 X0) as (k & d & f & EB & _).
  pose proof (C34_inv_odd_exact c1 res op0 n s0 s1 k d f H1 H2 H3 HO HN HL HM H4 H5 H6 H7 HG HC EB) as P1.
  pose proof (C34_inv_odd_exact c3 res op0 n s0 s1 k d f H1 H2 H3 HO HN HL HM H4 H5 H6 H7 HG HC EB) as P3.
  cbv zeta in P1, P3.
  change (@residues c3 (@mpval c3 n) (@nlimbs c3 n - 1) (@mpval c3 op0) k) with (@residues c1 (@mpval c1 n) (@nlimbs c1 n - 1) (@mpval c1 op0) k) in P3.
  change (@mpval c3 n) with (@mpval c1 n) in P3.
  set (r := fst (residues (mpval n) (nlimbs n - 1) (mpval op0) k)) in *.
  assert (C : @debug c1 = false \/ r <> 0).
  { destruct (debug c1) eqn:D; [|auto]. right. intros E. pose proof (proj1 P1 eq_refl E) as PN. unfold returns, panics in *. congruence. }
  assert (C3 : @debug c3 = false \/ r <> 0). { destruct C as [C|C]; [|auto]. left. destruct (debug c3); [|auto]. specialize (HD eq_refl). congruence. }
  destruct (proj2 P1 C) as (x' & RX & PX). destruct (proj2 P3 C3) as (y & RY & PY).
  assert (x' = x) by (unfold returns in *; congruence). subst x'. exists y. split; [exact RY|].
  destruct x as [[[[x1 x2] x3] x4] x5], y as [[[[y1 y2] y3] y4] y5]. destruct PX as (-> & X1 & X2), PY as (-> & Y1 & Y2). cbn [fst].
  rewrite (bec_eq c1 _ _ _ _ X1 Y1), (bec_eq c1 _ _ _ _ X2 Y2). reflexivity.
Qed.

(** Only the value and the length of the modulus matter. *)
Section Cong.
Context {c : cfg}.
Lemma product_cong : forall n m g x y, mpval n = mpval m -> mp_len n = mp_len m -> mg_product n g x y = mg_product m g x y.
Proof. intros n m g x y EV EL. unfold mg_product, mg_radix, nlimbs. rewrite EV, EL. reflexivity. Qed.
Lemma power_cong : forall n m g b e k v, mpval n = mpval m -> mp_len n = mp_len m -> mg_power n g b e v k = mg_power m g b e v k.
Proof.
  intros n m g b e k. induction k as [|k IH]; intros v EV EL; [auto|]. cbn [mg_power]. unfold mg_power_step. rewrite !(product_cong n m) by auto. auto.
Qed.
Lemma outcome_cong : forall n m g b s k v, mpval n = mpval m -> mp_len n = mp_len m -> mr_outcome n g b s v k = mr_outcome m g b s v k.
Proof.
  intros n m g b s k. induction k as [|k IH]; intros v EV EL; [auto|]. cbn [mr_outcome]. unfold mg_power_step, mg_radix, nlimbs. rewrite !(product_cong n m), EV, EL by auto.
  cbv zeta. f_equal. auto.
Qed.
End Cong.

Lemma b45_mr_any : forall (c1 c2 : cfg) base1 p1 radix1 s1 t1 base2 p2 radix2 s2 t2, limb64 c1 = limb64 c2 ->
  @mp_ok c1 (NE s1) -> @mp_ok c1 (NE t1) ->
  @len_compat c1 base1 (@mp_len c1 p1) -> 0 < @mp_len c1 base1 -> @len_compat c1 radix1 (@mp_len c1 p1) -> @nlimbs c1 radix1 = @nlimbs c1 p1 ->
  @nlimbs c1 p1 <= zlen s1 -> @nlimbs c1 p1 <= zlen t1 -> @mg_room c1 (NE s1) p1 -> @mg_room c1 (NE t1) p1 ->
  @mp_ok c2 (NE s2) -> @mp_ok c2 (NE t2) ->
  @len_compat c2 base2 (@mp_len c2 p2) -> 0 < @mp_len c2 base2 -> @len_compat c2 radix2 (@mp_len c2 p2) -> @nlimbs c2 radix2 = @nlimbs c2 p2 ->
  @nlimbs c2 p2 <= zlen s2 -> @nlimbs c2 p2 <= zlen t2 -> @mg_room c2 (NE s2) p2 -> @mg_room c2 (NE t2) p2 ->
  same_int c1 base1 c2 base2 -> same_int c1 radix1 c2 radix2 -> reencoded c1 p1 c2 p2 ->
  Z.odd (@mpval c1 p1) = true -> 2 < @mpval c1 p1 -> @mpval c1 base1 < @mpval c1 p1 -> @mpval c1 radix1 = @mg_radix c1 p1 mod @mpval c1 p1 ->
  both (@ct_prime_test_miller_rabin_mp c1 base1 p1 radix1 s1 t1) (@ct_prime_test_miller_rabin_mp c2 base2 p2 radix2 s2 t2) (fun x y => exists b, x = Ok (@choice c1 b) /\ y = Ok (@choice c2 b)).
Proof.
  intros [l1 m1 u1 g1] [l2 m2 u2 g2] base1 p1 radix1 s1 t1 base2 p2 radix2 s2 t2 EL. cbn in EL. subst l2. set (c1 := mkcfg l1 m1 u1 g1). set (c2 := mkcfg l1 m2 u2 g2).
  intros P4 P5 P6 P7 P8 P9 P10 P11 P12 P13 Q4 Q5 Q6 Q7 Q8 Q9 Q10 Q11 Q12 Q13 (P1 & Q1 & Eb) (P3 & Q3 & Er) ((P2 & Q2 & En) & Ln) HO H2 HV HR.
  assert (NL : @nlimbs c2 p2 = @nlimbs c1 p1) by (unfold nlimbs; rewrite Ln; reflexivity).
  assert (ER : @mg_radix c2 p2 = @mg_radix c1 p1) by (unfold mg_radix; rewrite NL; reflexivity).
  assert (HO2 : Z.odd (@mpval c2 p2) = true) by (rewrite <- En; exact HO). assert (HV2 : @mpval c2 base2 < @mpval c2 p2) by lia. assert (H22 : 2 < @mpval c2 p2) by lia.
  assert (HR2 : @mpval c2 radix2 = @mg_radix c2 p2 mod @mpval c2 p2) by (rewrite ER, <- En, <- Er; exact HR).
  destruct (neg_inv_exists c1 p1 P2 HO) as [g G]. assert (G2 : @neg_inv c2 p2 g) by (unfold neg_inv in *; rewrite <- En; exact G).
  destruct (pow_odd_part (@mpval c1 p1 - 1) ltac:(lia)) as (s & d & S0 & ED & OD). assert (ED2 : @mpval c2 p2 - 1 = 2 ^ s * d) by lia.
  eexists. eexists. split; [exact (C39_miller_rabin_value c1 base1 p1 radix1 s1 t1 g s d P1 P2 P3 P4 P5 HO H2 HV P6 P7 P8 P9 P10 P11 HR P12 P13 G S0 ED OD)|].
  split; [exact (C39_miller_rabin_value c2 base2 p2 radix2 s2 t2 g s d Q1 Q2 Q3 Q4 Q5 HO2 H22 HV2 Q6 Q7 Q8 Q9 Q10 Q11 HR2 Q12 Q13 G2 S0 ED2 OD)|].
  eexists. split; [reflexivity|]. do 2 f_equal. rewrite ER, <- En, <- Eb, <- Ln. symmetry. apply (@outcome_cong c1 p1 p2); auto.
Qed.

Lemma b45_exp_any : forall (c1 c2 : cfg) r1 a1 n1 e1 s1 r2 a2 n2 e2 s2 nbits, limb64 c1 = limb64 c2 ->
  @mp_ok c1 r1 -> @mp_ok c1 (NE s1) -> 2 <= @nlimbs c1 n1 ->
  @len_compat c1 n1 (@mp_len c1 r1) -> @len_compat c1 a1 (@mp_len c1 n1) -> @len_compat c1 n1 (@mp_len c1 a1) -> @nlimbs c1 n1 <= zlen s1 ->
  16 * (@mp_len c1 n1 + @LB c1) + 8 < 2 ^ @UW c1 -> @mg_room c1 r1 n1 -> @mg_room c1 (NE s1) n1 ->
  @mp_ok c2 r2 -> @mp_ok c2 (NE s2) ->
  @len_compat c2 n2 (@mp_len c2 r2) -> @len_compat c2 a2 (@mp_len c2 n2) -> @len_compat c2 n2 (@mp_len c2 a2) -> @nlimbs c2 n2 <= zlen s2 ->
  16 * (@mp_len c2 n2 + @LB c2) + 8 < 2 ^ @UW c2 -> @mg_room c2 r2 n2 -> @mg_room c2 (NE s2) n2 ->
  0 <= nbits -> Z.odd (@mpval c1 n1) = true -> @mpval c1 a1 < @mpval c1 n1 ->
  @mp_len c1 r1 = @mp_len c2 r2 -> same_int c1 a1 c2 a2 -> reencoded c1 n1 c2 n2 -> reencoded c1 e1 c2 e2 ->
  both (@ct_exp_mod_odd_mp_mp c1 r1 a1 n1 e1 nbits s1) (@ct_exp_mod_odd_mp_mp c2 r2 a2 n2 e2 nbits s2)
    (fun '(x, x', _, _) '(y, y', _, _) => x = Ok tt /\ y = Ok tt /\ reencoded c1 x' c2 y').
Proof.
  intros [l1 m1 u1 g1] [l2 m2 u2 g2] r1 a1 n1 e1 s1 r2 a2 n2 e2 s2 nbits EL. cbn in EL. subst l2. set (c1 := mkcfg l1 m1 u1 g1). set (c2 := mkcfg l1 m2 u2 g2).
  intros P1 P5 P6 P7 P8 P9 P10 P11 P13 P14 Q1 Q5 Q7 Q8 Q9 Q10 Q11 Q13 Q14 Hb HO HV LR (P2 & Q2 & Ea) ((P3 & Q3 & En) & Ln) ((P4 & Q4 & Ee) & Le).
  assert (HO2 : Z.odd (@mpval c2 n2) = true) by (rewrite <- En; exact HO). assert (HV2 : @mpval c2 a2 < @mpval c2 n2) by lia.
  assert (NL : @nlimbs c1 n1 = @nlimbs c2 n2) by (unfold nlimbs; rewrite Ln; reflexivity).
  assert (Q6 : 2 <= @nlimbs c2 n2) by lia.
  destruct (neg_inv_exists c1 n1 P3 HO) as [g G]. assert (G2 : @neg_inv c2 n2 g) by (unfold neg_inv in *; rewrite <- En; exact G).
  apply (both_of _ _ _ _ _ _ (C32_exp_value c1 r1 a1 n1 e1 nbits s1 g P1 P2 P3 P4 P5 HO P6 P7 P8 HV P9 P10 P11 P13 P14 Hb G) (C32_exp_value c2 r2 a2 n2 e2 nbits s2 g Q1 Q2 Q3 Q4 Q5 HO2 Q6 Q7 Q8 HV2 Q9 Q10 Q11 Q13 Q14 Hb G2)).
  intros [[[x1 x2] x3] x4] [[[y1 y2] y3] y4] (-> & _ & _ & _ & v & X & V) (-> & _ & _ & _ & w & Y & Z0).
  split; [reflexivity|]. split; [reflexivity|].
  assert (ER : @mg_radix c2 n2 = @mg_radix c1 n1) by (unfold mg_radix; rewrite NL; reflexivity).
  assert (Z1 : @mg_reduced c1 n1 (@mg_power c1 n1 g (@mg_product c1 n1 g (@mpval c1 a1) (@mg_radix c1 n1 * @mg_radix c1 n1 mod @mpval c1 n1)) (@mpval c1 e1)
      (@mg_radix c1 n1 mod @mpval c1 n1) (Z.to_nat (Z.min nbits (8 * @mp_len c1 e1)))) w).
  { unfold mg_reduced in Z0. rewrite ER, <- En, <- Ea, <- Ee, <- Le in Z0.
    unfold mg_reduced. rewrite (@power_cong c1 n1 n2), (@product_cong c1 n1 n2) by (exact En || exact Ln). exact Z0. }
  pose proof (reduced_unique c1 n1 _ v w HO V Z1) as E. subst w. exact (bec_re c1 c2 _ _ _ _ _ X Y LR).
Qed.

(** The square of -1 modulo 2^128 - 2^64 - 1: wrong with limbs of 32 bits, right with limbs of 64 bits. *)
Lemma width_wrong : square_wrong 32 16 (2 ^ 128 - 2 ^ 64 - 1) = true.
Proof. vm_compute. reflexivity. Qed.

Lemma b45_width : forall (c1 c2 : cfg) r1 a1 n1 e1 s1 r2 a2 n2 e2 s2 nbits, limb64 c1 = false -> limb64 c2 = true ->
  reencoded c1 r1 c2 r2 -> reencoded c1 a1 c2 a2 -> reencoded c1 n1 c2 n2 -> reencoded c1 e1 c2 e2 -> @mp_ok c1 (NE s1) -> @mp_ok c2 (NE s2) ->
  @mp_len c1 n1 = 16 -> @mpval c1 n1 = 2 ^ 128 - 2 ^ 64 - 1 -> @mp_len c1 r1 = 16 -> @mp_len c1 a1 = 16 -> @mpval c1 a1 = @mpval c1 n1 - 1 -> @mpval c1 e1 = 2 -> 2 <= nbits ->
  4 <= zlen s1 -> 2 <= zlen s2 ->
  both (@ct_exp_mod_odd_mp_mp c1 r1 a1 n1 e1 nbits s1) (@ct_exp_mod_odd_mp_mp c2 r2 a2 n2 e2 nbits s2)
    (fun '(x, x', _, _) '(y, y', _, _) => x = Ok tt /\ y = Ok tt /\ @mpval c1 x' <> 1 /\ @mpval c2 y' = 1).
Proof.
  intros c1 c2 r1 a1 n1 e1 s1 r2 a2 n2 e2 s2 nbits L1 L2 ((R1 & R2 & _) & LR) ((A1 & A2 & EA) & LA) ((N1 & N2 & EN) & LN) ((E1 & E2 & EE) & LE) S1 S2 HL HV HR HA VA VE Hb HS1 HS2.
  assert (NL1 : @nlimbs c1 n1 = 4) by (unfold nlimbs, ct_mp_nlimbs, LB; rewrite HL, L1; reflexivity).
  assert (NL2 : @nlimbs c2 n2 = 2) by (unfold nlimbs, ct_mp_nlimbs, LB; rewrite <- LN, HL, L2; reflexivity).
  assert (W1 : @W c1 = 32) by (unfold W, LB; rewrite L1; reflexivity). assert (B2 : @B c2 = 2 ^ 64) by (unfold B, W, LB; rewrite L2; reflexivity).
  assert (SW : @square_wrong (@W c1) (@mp_len c1 n1) (@mpval c1 n1) = true) by (rewrite W1, HL, HV; exact width_wrong).
  destruct (exp_minus_one_gen c1 r1 a1 n1 e1 nbits s1 R1 A1 N1 E1 S1 SW) as [P X]; auto; try lia.
  { left. lia. } { left. lia. }
  assert (AL : @mp_len c2 n2 mod @LB c2 = 0) by (unfold LB; rewrite <- LN, HL, L2; reflexivity).
  assert (OK2 : @yields _ (@ct_exp_mod_odd_mp_mp c2 r2 a2 n2 e2 nbits s2) (fun '(res, r', op0', s') =>
    res = Ok tt /\ @becomes c2 r2 r' (@mpval c2 a2 ^ (@mpval c2 e2 mod 2 ^ nbits) mod @mpval c2 n2) /\ @mp_ok c2 op0' /\ @same_shape c2 a2 op0' /\ zlen s' = zlen s2)).
  { apply (C32_exp_partial c2); auto; try lia.
    - rewrite <- EN, HV. reflexivity.
    - left. lia.
    - left. lia.
    - left. lia.
    - unfold UW, LB. rewrite <- LN, HL, L2. destruct (usize64 c2); reflexivity.
    - unfold mg_carry_ok, mg_radix. rewrite NL2, B2, <- EN, HV. vm_compute. congruence.
    - left. split; [lia|auto].
    - left. split; [|auto]. cbn [mp_len]. unfold LB. rewrite L2. lia. }
  apply (both_of _ _ _ _ _ _ X OK2).
  intros [[[x1 x2] x3] x4] [[[y1 y2] y3] y4] (-> & v & BX & RX & NV) (-> & BY & _). split; [auto|]. split; [auto|].
  destruct BX as (_ & _ & ->), BY as (_ & _ & ->). split; [auto|]. rewrite <- EE, VE, (Z.mod_small 2), <- EA, <- EN; [exact P|].
  split; [lia|]. assert (2 ^ 2 <= 2 ^ nbits) by (apply Z.pow_le_mono_r; lia). lia.
Qed.
