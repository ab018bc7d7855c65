(** Different builds and different encodings, continued: division by a limb, inversion, least common multiple. *)
From Coq Require Import ZArith List Bool Lia.
Require Import Verif.Spec Verif.Monad Verif.ModelLimb Verif.ModelBuf Verif.SpecBuf Verif.BufFacts
  Verif.ModelDiv Verif.SpecDiv Verif.SpecMont Verif.ModelEuclid Verif.SpecEuclid Verif.ModelLcm Verif.ModelInv Verif.SpecMul Verif.SpecInv
  Verif.InvFacts Verif.ThmDiv Verif.ThmLcm Verif.ThmInvOdd Verif.ThmInvPow2 Verif.ThmInvAny Verif.SpecBuild Verif.BuildProofs.
Import ListNotations.
Open Scope Z_scope.

Lemma b44_div_limb : forall (c1 c2 : cfg), same_target c1 c2 -> forall d1 d2 v n, @limb_divisor_for c1 d1 v -> @limb_divisor_for c2 d2 v -> byte_len v n ->
  (forall u q, @mp_ok c1 u -> @q_ok c1 q -> 1 <= @mp_len c1 u ->
    match q with Some b => @mp_len c1 u + 1 <= @mp_len c1 b + n /\ @nlimbs c1 u <= @nlimbs c1 b | None => True end ->
    same_result (@ct_div_mp_l c1 u d1 q) (@ct_div_mp_l c2 u d2 q)) /\
  (forall u, @mp_ok c1 u -> same_result (@ct_mod_mp_l c1 u d1) (@ct_mod_mp_l c2 u d2)).
Proof.
  intros c1 c2 T. rewrite (target_eq c1 c2 T). clear T. set (c3 := mkcfg _ _ _ _). intros d1 d2 v n D1 D2 BL. split; intros.
  - apply (same_of _ _ _ _ _ (C28_div_partial c1 u d1 v n q H D1 BL H0 H1 H2) (C28_div_partial c3 u d2 v n q H D2 BL H0 H1 H2)).
    intros [r x] [s y] (-> & X1 & X2) (-> & Y1 & Y2). f_equal. exact (q_eq c1 q x y _ X1 X2 Y1 Y2).
  - exists (@mpval c1 u mod v). split; [exact (C28_mod c1 u d1 v H D1)|exact (C28_mod c3 u d2 v H D2)].
Qed.

Lemma becomes_of : forall (c : cfg) r x, mp_ok x -> same_shape r x -> becomes r x (mpval x).
Proof. intros c r x H H0. split; [exact H|]. split; [exact H0|reflexivity]. Qed.

Lemma b44_inv : forall (c1 c2 : cfg), same_target c1 c2 ->
  (forall r x e mx s, @mp_ok c1 r -> @mp_ok c1 x -> @mp_ok c1 (NE s) -> 0 < @mp_len c1 x ->
    0 <= e <= mx -> 0 < mx -> mx <= 8 * @mp_len c1 r -> mx <= 8 * (@LB c1 * zlen s) -> Z.odd (@mpval c1 x) = true ->
    (forall k v, 2 ^ Z.of_nat k < mx -> is_inverse (2 ^ (2 ^ Z.of_nat k)) (@mpval c1 x) v -> @square_ok c1 (@limbs_for_bits c1 mx) v /\ @square_ok c2 (@limbs_for_bits c2 mx) v) ->
    both (@ct_inv_mod_pow2_mp c1 r x e mx s) (@ct_inv_mod_pow2_mp c2 r x e mx s) (fun y z => fst y = fst z)) /\
  (forall op0 n s0 s1 s2 s3 m e, @mp_ok c1 op0 -> @mp_ok c1 n -> @mut_compat c1 op0 n ->
    @scratch_ok c1 n s0 -> @scratch_ok c1 n s1 -> @scratch_ok c1 n s2 -> @scratch_ok c1 n s3 -> @gcd_len_ok c1 (@LB c1 * @nlimbs c1 n) ->
    @mpval c1 n = m * 2 ^ e -> Z.odd m = true -> 0 <= e ->
    m <= @B c1 ^ (@nlimbs c1 n - 1) -> @liftable c1 (@mpval c1 op0) (8 * @mp_len c1 n - 1) -> @liftable c1 m (8 * @mp_len c1 n - 1) ->
    @liftable c2 (@mpval c1 op0) (8 * @mp_len c1 n - 1) -> @liftable c2 m (8 * @mp_len c1 n - 1) ->
    same_result (@ct_inv_mod_mp_mp c1 op0 n (s0, s1, s2, s3)) (@ct_inv_mod_mp_mp c2 op0 n (s0, s1, s2, s3))).
Proof.
  intros c1 c2 T. rewrite (target_eq c1 c2 T). clear T. set (c3 := mkcfg _ _ _ _). split; intros.
  - apply (both_of _ _ _ _ _ _ (C35_inv_pow2_partial c1 r x e mx s H H0 H1 H2 H3 H4 H5 H6 H7 (fun k v K I => proj1 (H8 k v K I))) (C35_inv_pow2_partial c3 r x e mx s H H0 H1 H2 H3 H4 H5 H6 H7 (fun k v K I => proj2 (H8 k v K I)))).
    intros [y t] [z t'] (X1 & X2 & X3 & _) (Y1 & Y2 & Y3 & _). cbn [fst]. apply (bec_eq c1 r y z (@mpval c1 y)); [exact (becomes_of c1 r y X1 X2)|].
    rewrite (InvFacts.inverse_unique (2 ^ e) (@mpval c1 x) (@mpval c1 y) (@mpval c1 z)); [exact (becomes_of c1 r z Y1 Y2)|lia|exact X3|exact Y3].
  - assert (N0 : 0 <= @mpval c1 n) by (apply mpval_nonneg; auto).
    assert (M0 : m <> 0) by (intros ->; discriminate H8).
    assert (P : 0 < 2 ^ e) by lia.
    assert (Npos : 0 < @mpval c1 n) by nia.
    destruct (Z.odd (@mpval c1 n)) eqn:On; [|destruct (Z.odd (@mpval c1 op0)) eqn:Oa].
    3: { assert (L0 : 0 < @mp_len c1 n).
         { pose proof (@mpval_bound c1 n H0) as X. pose proof (@mp_len_nonneg c1 n). destruct (Z.eq_dec (@mp_len c1 n) 0) as [E|E]; [rewrite E in X; change (256 ^ 0) with 1 in X|]; lia. }
         exists (Err ImOperandsNotCoprime, op0, n).
         split; [apply (proj1 (proj2 (proj2 (proj2 (C36_inv_any_errors c1 op0 n s0 s1 s2 s3 H H0))))); auto
                |apply (proj1 (proj2 (proj2 (proj2 (C36_inv_any_errors c3 op0 n s0 s1 s2 s3 H H0))))); auto]. }
    1, 2: (destruct (Z.eq_dec (@mpval c1 n) 1) as [E1|E1];
      [apply (same_of _ _ _ _ _ (C36_inv_any_one_partial c1 op0 n s0 s1 s2 s3 H H0 H1 H2 H3 H4 H5 H6 H11 E1) (C36_inv_any_one_partial c3 op0 n s0 s1 s2 s3 H H0 H1 H2 H3 H4 H5 H6 H13 E1));
       intros [[r x] y] [[r' x'] y'] (-> & X1 & X2) (-> & Y1 & Y2); rewrite (bec_eq c1 _ _ _ _ X1 Y1), (bec_eq c1 _ _ _ _ X2 Y2); reflexivity|]).
    all: (destruct (Z.eq_dec (Z.gcd (@mpval c1 n) (@mpval c1 op0)) 1) as [G|G];
      [assert (N1 : 1 < @mpval c1 n) by lia;
       apply (same_of _ _ _ _ _ (C36_inv_any_partial c1 op0 n s0 s1 s2 s3 m e H H0 H1 H2 H3 H4 H5 H6 H7 H8 H9 H10 H11 H12 N1 G) (C36_inv_any_partial c3 op0 n s0 s1 s2 s3 m e H H0 H1 H2 H3 H4 H5 H6 H7 H8 H9 H10 H13 H14 N1 G));
       intros [[r x] y] [[r' x'] y'] (-> & I1 & X1 & X2) (-> & I2 & Y1 & Y2);
       rewrite (InvFacts.inverse_unique (@mpval c1 n) (@mpval c1 op0) _ _ Npos I2 I1) in Y1;
       rewrite (bec_eq c1 _ _ _ _ X1 Y1), (bec_eq c1 _ _ _ _ X2 Y2); reflexivity|]).
    1: assert (OO : Z.odd (@mpval c1 n) = true \/ Z.odd (@mpval c1 op0) = true) by (left; auto).
    2: assert (OO : Z.odd (@mpval c1 n) = true \/ Z.odd (@mpval c1 op0) = true) by (right; auto).
    all: (apply (same_of _ _ _ _ _ (C36_inv_any_not_coprime_partial c1 op0 n s0 s1 s2 s3 H H0 H1 H2 H3 H4 H5 H6 H11 Npos OO G) (C36_inv_any_not_coprime_partial c3 op0 n s0 s1 s2 s3 H H0 H1 H2 H3 H4 H5 H6 H13 Npos OO G));
       intros [[r x] y] [[r' x'] y'] (-> & X1 & X2) (-> & Y1 & Y2); rewrite (bec_eq c1 _ _ _ _ X1 Y1), (bec_eq c1 _ _ _ _ X2 Y2); reflexivity).
Qed.

Lemma b45_div_limb : forall (c1 c2 : cfg) d1 d2 v n, @limb_divisor_for c1 d1 v -> @limb_divisor_for c2 d2 v -> byte_len v n ->
  (forall u1 q1 u2 q2, reencoded c1 u1 c2 u2 -> reencoded_opt c1 q1 c2 q2 -> 1 <= @mp_len c1 u1 ->
    match q1 with Some b => @mp_len c1 u1 + 1 <= @mp_len c1 b + n | None => True end ->
    match q1, q2 with Some b1, Some b2 => @nlimbs c1 u1 <= @nlimbs c1 b1 /\ @nlimbs c2 u2 <= @nlimbs c2 b2 | _, _ => True end ->
    both (@ct_div_mp_l c1 u1 d1 q1) (@ct_div_mp_l c2 u2 d2 q2) (fun '(r, x) '(s, y) => r = Ok (@mpval c1 u1 mod v) /\ r = s /\ reencoded_opt c1 x c2 y)) /\
  (forall u1 u2, same_int c1 u1 c2 u2 -> same_result (@ct_mod_mp_l c1 u1 d1) (@ct_mod_mp_l c2 u2 d2)).
Proof.
  intros c1 c2 d1 d2 v n D1 D2 BL. split.
  - intros u1 q1 u2 q2 [(O1 & O2 & E) L] Hq L1 Hn Hl.
    destruct q1 as [b1|], q2 as [b2|]; cbn in Hq; try contradiction.
    + destruct Hq as [(Ob1 & Ob2 & Eb) Lb].
      assert (L2 : 1 <= @mp_len c2 u2) by lia. assert (Hn2 : @mp_len c2 u2 + 1 <= @mp_len c2 b2 + n) by lia.
      apply (both_of _ _ _ _ _ _ (C28_div_partial c1 u1 d1 v n (Some b1) O1 D1 BL Ob1 L1 (conj Hn (proj1 Hl))) (C28_div_partial c2 u2 d2 v n (Some b2) O2 D2 BL Ob2 L2 (conj Hn2 (proj2 Hl)))).
      intros [r x] [s y] (-> & X1 & X2) (-> & Y1 & Y2). rewrite E in *. split; [reflexivity|]. split; [reflexivity|].
      destruct x as [x|], y as [y|]; cbn in X1, X2, Y1, Y2 |- *; try contradiction.
      destruct X1 as (X1 & X3), Y1 as (Y1 & Y3). split; [split; [exact X1|split; [exact Y1|congruence]]|]. destruct X3, Y3. congruence.
    + assert (L2 : 1 <= @mp_len c2 u2) by lia.
      apply (both_of _ _ _ _ _ _ (C28_div_partial c1 u1 d1 v n None O1 D1 BL I L1 I) (C28_div_partial c2 u2 d2 v n None O2 D2 BL I L2 I)).
      intros [r x] [s y] (-> & X1 & X2) (-> & Y1 & Y2). rewrite E. split; [reflexivity|]. split; [reflexivity|].
      destruct x as [x|], y as [y|]; cbn in X1, Y1 |- *; try contradiction. exact I.
  - intros u1 u2 (O1 & O2 & E). exists (@mpval c1 u1 mod v). split; [exact (C28_mod c1 u1 d1 v O1 D1)|]. rewrite E. exact (C28_mod c2 u2 d2 v O2 D2).
Qed.

Lemma b45_inv_odd : forall (c1 c2 : cfg) r1 x1 n1 s1 t1 r2 x2 n2 s2 t2, @mp_ok c1 r1 -> @mp_ok c2 r2 -> @mp_len c1 r1 = @mp_len c2 r2 ->
  same_int c1 x1 c2 x2 -> reencoded c1 n1 c2 n2 -> Z.odd (@mpval c1 n1) = true -> 1 < @mpval c1 n1 -> Z.gcd (@mpval c1 n1) (@mpval c1 x1) = 1 ->
  @len_compat c1 n1 (@mp_len c1 r1) -> @mut_compat c1 x1 n1 -> @scratch_ok c1 n1 s1 -> @scratch_ok c1 n1 t1 ->
  @gcd_len_ok c1 (@LB c1 * @nlimbs c1 n1) -> @mpval c1 n1 <= @B c1 ^ (@nlimbs c1 n1 - 1) ->
  @len_compat c2 n2 (@mp_len c2 r2) -> @mut_compat c2 x2 n2 -> @scratch_ok c2 n2 s2 -> @scratch_ok c2 n2 t2 ->
  @gcd_len_ok c2 (@LB c2 * @nlimbs c2 n2) -> @mpval c2 n2 <= @B c2 ^ (@nlimbs c2 n2 - 1) ->
  both (@ct_inv_mod_odd_mp_mp c1 r1 x1 n1 s1 t1) (@ct_inv_mod_odd_mp_mp c2 r2 x2 n2 s2 t2)
    (fun '(e, y, _, _, _) '(f, z, _, _, _) => e = Ok tt /\ f = Ok tt /\ reencoded c1 y c2 z).
Proof.
  intros c1 c2 r1 x1 n1 s1 t1 r2 x2 n2 s2 t2 R1 R2 LR (X1 & X2 & EX) [(N1 & N2 & EN) LN] HO H1 HG C1 M1 [S1 S1'] [T1 T1'] G1 B1 C2 M2 [S2 S2'] [T2 T2'] G2 B2.
  assert (HO2 : Z.odd (@mpval c2 n2) = true) by congruence. assert (H2 : 1 < @mpval c2 n2) by congruence.
  assert (HG2 : Z.gcd (@mpval c2 n2) (@mpval c2 x2) = 1) by congruence.
  apply (both_of _ _ _ _ _ _ (C34_inv_odd_partial c1 r1 x1 n1 s1 t1 R1 X1 N1 HO H1 C1 M1 S1 T1 S1' T1' G1 B1 HG) (C34_inv_odd_partial c2 r2 x2 n2 s2 t2 R2 X2 N2 HO2 H2 C2 M2 S2 T2 S2' T2' G2 B2 HG2)).
  intros [[[[e y] ?] ?] ?] [[[[f z] ?] ?] ?] (-> & I1 & Y1 & _) (-> & I2 & Y2 & _). split; [reflexivity|]. split; [reflexivity|].
  rewrite <- EN, <- EX in I2. rewrite (InvFacts.inverse_unique (@mpval c1 n1) (@mpval c1 x1) _ _ ltac:(lia) I2 I1) in Y2.
  exact (bec_re c1 c2 _ _ _ _ _ Y1 Y2 LR).
Qed.

Lemma b45_inv_any : forall (c1 c2 : cfg) x1 n1 a1 b1 d1 e1 x2 n2 a2 b2 d2 e2 m e,
  reencoded c1 x1 c2 x2 -> reencoded c1 n1 c2 n2 -> @mpval c1 n1 = m * 2 ^ e -> Z.odd m = true -> 0 <= e ->
  1 < @mpval c1 n1 -> Z.gcd (@mpval c1 n1) (@mpval c1 x1) = 1 ->
  @mut_compat c1 x1 n1 -> @scratch_ok c1 n1 a1 -> @scratch_ok c1 n1 b1 -> @scratch_ok c1 n1 d1 -> @scratch_ok c1 n1 e1 -> @gcd_len_ok c1 (@LB c1 * @nlimbs c1 n1) ->
  m <= @B c1 ^ (@nlimbs c1 n1 - 1) -> @liftable c1 (@mpval c1 x1) (8 * @mp_len c1 n1 - 1) -> @liftable c1 m (8 * @mp_len c1 n1 - 1) ->
  @mut_compat c2 x2 n2 -> @scratch_ok c2 n2 a2 -> @scratch_ok c2 n2 b2 -> @scratch_ok c2 n2 d2 -> @scratch_ok c2 n2 e2 -> @gcd_len_ok c2 (@LB c2 * @nlimbs c2 n2) ->
  m <= @B c2 ^ (@nlimbs c2 n2 - 1) -> @liftable c2 (@mpval c2 x2) (8 * @mp_len c2 n2 - 1) -> @liftable c2 m (8 * @mp_len c2 n2 - 1) ->
  both (@ct_inv_mod_mp_mp c1 x1 n1 (a1, b1, d1, e1)) (@ct_inv_mod_mp_mp c2 x2 n2 (a2, b2, d2, e2))
    (fun '(f, y, _) '(g, z, _) => f = Ok tt /\ g = Ok tt /\ reencoded c1 y c2 z).
Proof.
  intros c1 c2 x1 n1 a1 b1 d1 e1 x2 n2 a2 b2 d2 e2 m e [(X1 & X2 & EX) LX] [(N1 & N2 & EN) LN] Hm HO He H1 HG M1 A1 B1 D1 E1 G1 S1 L1 K1 M2 A2 B2 D2 E2 G2 S2 L2 K2.
  assert (Hm2 : @mpval c2 n2 = m * 2 ^ e) by congruence. assert (H2 : 1 < @mpval c2 n2) by congruence.
  assert (HG2 : Z.gcd (@mpval c2 n2) (@mpval c2 x2) = 1) by congruence.
  apply (both_of _ _ _ _ _ _ (C36_inv_any_partial c1 x1 n1 a1 b1 d1 e1 m e X1 N1 M1 A1 B1 D1 E1 G1 Hm HO He S1 L1 K1 H1 HG) (C36_inv_any_partial c2 x2 n2 a2 b2 d2 e2 m e X2 N2 M2 A2 B2 D2 E2 G2 Hm2 HO He S2 L2 K2 H2 HG2)).
  intros [[f y] ?] [[g z] ?] (-> & I1 & Y1 & _) (-> & I2 & Y2 & _). split; [reflexivity|]. split; [reflexivity|].
  rewrite <- EN, <- EX in I2. rewrite (InvFacts.inverse_unique (@mpval c1 n1) (@mpval c1 x1) _ _ ltac:(lia) I2 I1) in Y2.
  exact (bec_re c1 c2 _ _ _ _ _ Y1 Y2 LX).
Qed.

Lemma b45_lcm : forall (c1 c2 : cfg) res1 a1 b1 scr1 res2 a2 b2 scr2 l0 l1, @mp_ok c1 res1 -> @mp_ok c2 res2 -> @mp_len c1 res1 = @mp_len c2 res2 ->
  reencoded c1 a1 c2 a2 -> reencoded c1 b1 c2 b2 -> @mp_len c1 a1 = @mp_len c1 b1 -> 0 < l0 <= @mp_len c1 a1 -> 0 < l1 <= @mp_len c1 b1 ->
  @mpval c1 a1 < 256 ^ l0 -> @mpval c1 b1 < 256 ^ l1 -> l0 + l1 <= @mp_len c1 res1 ->
  @mp_ok c1 scr1 -> kind_of scr1 = kind_of b1 -> @gcd_len_ok c1 (@mp_len c1 a1) -> l0 + l1 <= @mp_len c1 scr1 ->
  (kind_of b1 = KNE -> (l0 + l1) mod @LB c1 = 0 /\ l0 + l1 + (@ct_mp_limbs_align_len c1 (Z.max l0 l1) - Z.max l0 l1) <= @mp_len c1 res1) ->
  @mp_ok c2 scr2 -> kind_of scr2 = kind_of b2 -> @gcd_len_ok c2 (@mp_len c2 a2) -> l0 + l1 <= @mp_len c2 scr2 ->
  (kind_of b2 = KNE -> (l0 + l1) mod @LB c2 = 0 /\ l0 + l1 + (@ct_mp_limbs_align_len c2 (Z.max l0 l1) - Z.max l0 l1) <= @mp_len c2 res2) ->
  both (@ct_lcm_mp_mp c1 res1 a1 l0 b1 l1 scr1) (@ct_lcm_mp_mp c2 res2 a2 l0 b2 l1 scr2)
    (fun '(e, y, _, _, _) '(f, z, _, _, _) => e = Ok tt /\ f = Ok tt /\ reencoded c1 y c2 z).
Proof.
  intros c1 c2 res1 a1 b1 scr1 res2 a2 b2 scr2 l0 l1 R1 R2 LR [(A1 & A2 & EA) LA] [(B1 & B2 & EB) LB'] L H0 H1 V0 V1 HR S1 K1 G1 HS1 N1 S2 K2 G2 HS2 N2.
  assert (Q1 : @mp_len c2 a2 = @mp_len c2 b2) by lia. assert (Q2 : 0 < l0 <= @mp_len c2 a2) by lia. assert (Q3 : 0 < l1 <= @mp_len c2 b2) by lia.
  assert (Q4 : @mpval c2 a2 < 256 ^ l0) by lia. assert (Q5 : @mpval c2 b2 < 256 ^ l1) by lia. assert (Q6 : l0 + l1 <= @mp_len c2 res2) by lia.
  apply (both_of _ _ _ _ _ _ (C37_lcm_partial c1 res1 a1 l0 b1 l1 scr1 R1 A1 B1 S1 K1 L G1 H0 H1 V0 V1 HR HS1 N1)
    (C37_lcm_partial c2 res2 a2 l0 b2 l1 scr2 R2 A2 B2 S2 K2 Q1 G2 Q2 Q3 Q4 Q5 Q6 HS2 N2)).
  intros [[[[e y] ?] ?] ?] [[[[f z] ?] ?] ?] (-> & Y1 & _) (-> & Y2 & _). split; [reflexivity|]. split; [reflexivity|].
  rewrite <- EA, <- EB in Y2. exact (bec_re c1 c2 _ _ _ _ _ Y1 Y2 LR).
Qed.
