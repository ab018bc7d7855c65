(** Facts about euclid_impl.rs (ModelEuclid.v): apply_to_mod_odd_n, continued. *)
From Coq Require Import ZArith List Bool Lia Znumtheory Zpow_facts.
Require Import Verif.Spec Verif.Base Verif.Monad Verif.Wp Verif.ModelLimb Verif.LimbFacts Verif.LimbFacts2
  Verif.ModelBuf Verif.SpecBuf Verif.BufFacts Verif.BufFacts2 Verif.BufFacts3 Verif.UpFacts Verif.ModelCmp Verif.CmpFacts
  Verif.ModelAdd Verif.AddFacts Verif.AddFacts2 Verif.ModelMont Verif.MontFacts Verif.ModelEuclid Verif.GcdBound Verif.SpecSteps Verif.EuclidFacts Verif.EuclidFacts2
  Verif.InvOddFacts Verif.InvOddFacts2.
Import ListNotations.
Open Scope Z_scope.

Section Facts.
Context {c : cfg}.

Lemma wp_geq_update : forall v w i x y (Q : Z -> Prop), 0 <= i -> x = vlimb w i -> y = vlimb v i ->
  Q (b2z (v mod B ^ (i + 1) <=? w mod B ^ (i + 1))) -> wp (geq_kernel_update (b2z (v mod B ^ i <=? w mod B ^ i)) x y) Q.
Proof. intros. unfold geq_kernel_update. apply wp_leq_update; auto. Qed.

Definition geqc (N V R : Z) : bool := (N <=? R) && negb (V <? 0).

Lemma row_final : forall s N V R p M t, 0 <= p -> 0 <= s -> rrep s N V R p -> 0 < N < M -> B ^ (p + 1) = M * t -> 0 < t ->
  let u := (R mod M + pick (geqc N V R) (V <? 0) N) mod M in
  0 <= u < N /\ u = read_back N p s V.
Proof.
  intros s N V R p M t Hp Hs (HR & HV & HP & HM) HN EM Ht. cbv zeta. unfold geqc, pick, read_back. rewrite Z.add_mod_idemp_l by lia.
  set (P1 := B ^ (p + 1)) in *. assert (MP : M <= P1). { rewrite EM. pf (mul_le_l M 1 t). lia. }
  destruct (Z.ltb_spec V 0) as [L|G].
  - rewrite andb_false_r. destruct (HM L) as (V' & <- & HV' & ->). rewrite EM. replace (V' + M * t + N) with (V' + N + t * M) by ring. rewrite Z.mod_add, Z.mod_small by lia.
    split; [lia|]. auto.
  - specialize (HP G). rewrite andb_true_r, <- HP. destruct (Z.lt_ge_cases V P1) as [LT|GE].
    + rewrite Z.mod_small in HP by lia. subst R. destruct (Z.leb_spec N V) as [A|A].
      * rewrite Z.mod_small by lia. split; [lia|auto].
      * rewrite Z.add_0_r, Z.mod_small by lia. split; [lia|auto].
    + assert (ER : R = V - P1). { rewrite HP. apply (mod_eq_of _ _ 1); lia. }
      destruct (Z.leb_spec N R) as [A|A]; [lia|]. rewrite Z.add_0_r, Z.mod_small by lia. split; [lia|auto].
Qed.

(** The quotient. *)
Lemma halved_spec : forall s n U, Z.odd n = true -> exists m, 0 <= m < 2 ^ Z.of_nat s /\ 2 ^ Z.of_nat s * halved n U s = U + m * n.
Proof.
  induction s as [|s IH]; intros n U HO; [exists 0; cbn [halved]; change (2 ^ Z.of_nat 0) with 1; lia|]. cbn [halved]. set (U1 := if Z.odd U then U + n else U).
  destruct (IH n (U1 / 2) HO) as (m & Hm & E). set (H := halved n (U1 / 2) s) in *. clearbody H.
  assert (EV : U1 = 2 * (U1 / 2)).
  { apply Z.div_exact; [lia|]. rewrite Zmod_odd. unfold U1. destruct (Z.odd U) eqn:O; [rewrite Z.odd_add, O, HO|rewrite O]; auto. }
  rewrite Nat2Z.inj_succ, Z.pow_succ_r by lia. set (P := 2 ^ Z.of_nat s) in *. clearbody P.
  exists ((if Z.odd U then 1 else 0) + 2 * m). split; [destruct (Z.odd U); lia|].
  transitivity (2 * (P * H)); [ring|]. rewrite E. unfold U1 in *. destruct (Z.odd U); lia.
Qed.
Lemma halved_unique : forall s n U V m, 0 <= s -> Z.odd n = true -> 0 <= m < 2 ^ s -> 2 ^ s * V = U + m * n -> V = halved n U (Z.to_nat s).
Proof.
  intros s n U V m Hs HO Hm E. destruct (halved_spec (Z.to_nat s) n U HO) as (m' & Hm' & E'). rewrite Z2Nat.id in * by auto. set (H := halved n U (Z.to_nat s)) in *. clearbody H.
  pose proof (pow2_gt0 s Hs) as PS. set (P := 2 ^ s) in *.
  assert (D : (P | (m - m') * n)). { exists (V - H). rewrite Z.mul_sub_distr_r, Z.mul_sub_distr_r, (Z.mul_comm V), (Z.mul_comm H), E, E'. ring. }
  assert (RP : rel_prime P n).
  { unfold P. apply rel_prime_sym. apply rel_prime_Zpower_r; [auto|]. apply rel_prime_sym, prime_rel_prime; [apply prime_2|].
    intros [q EQ]. rewrite EQ, Z.odd_mul in HO. cbn in HO. rewrite andb_false_r in HO. discriminate. }
  rewrite Z.mul_comm in D. apply Gauss in D; [|auto]. destruct D as [q EQ].
  assert (q = 0). { destruct (Z.lt_trichotomy q 0) as [L|[Z0|G]]; [|auto|]; [pf (mul_le_l P q (-1))|pf (mul_le_l P 1 q)]; lia. }
  subst q. assert (m = m') by lia. subst m'. apply (Z.mul_cancel_l _ _ P); lia.
Qed.

Lemma vlimb_add : forall L r j, 0 <= j -> 0 <= L < B ^ j -> isl r -> vlimb (L + r * B ^ j) j = r /\ (L + r * B ^ j) mod B ^ j = L.
Proof.
  intros L r j Hj HL Hr. pose proof (Bpow_pos j Hj). unfold vlimb. rewrite Z.div_add, (Z.div_small L), Z.add_0_l, Z.mod_add, (Z.mod_small L) by lia.
  split; [apply Z.mod_small; exact Hr|auto].
Qed.

Definition rowpost (a b s X Y N : Z) (u u' : mp) (p : Z) : Prop :=
  mp_ok u' /\ same_shape u u' /\ mpval u' < N /\ mpval u' = row_residue N p (a, b, s) X Y.

(** From the loop's end to the final residue of one row. *)
Lemma wp_row_end : forall a b s X Y m p L st k u u0 n q0 A (K : Z -> Z -> Z -> mp -> M A) (Q : A -> Prop), mp_ok u0 -> mp_ok n -> 0 <= p -> nlimbs n = p + 1 -> nlimbs u0 = p + 1 ->
  0 <= s <= W - 2 -> 0 < mpval n < 256 ^ mp_len u0 -> Z.odd (mpval n) = true ->
  Z.abs (a * X + b * Y) <= 2 ^ s * (mpval n - 1) -> rmod a b s X Y (mpval n) m p L st k -> upinv u0 (mpval u0) p L u ->
  q0 = b2z (mpval n mod B ^ p <=? L mod B ^ p) ->
  (forall sg g r u1, mp_ok u1 -> same_shape u0 u1 -> g && sg = false -> (mpval u1 + pick g sg (mpval n)) mod 256 ^ mp_len u0 < mpval n ->
     (mpval u1 + pick g sg (mpval n)) mod 256 ^ mp_len u0 = row_residue (mpval n) p (a, b, s) X Y ->
     forall z, g = z && negb sg -> wp (K (b2z sg) r (b2z z) u1) Q) ->
  wp (let! '(sg, r) := redc_finish_in_twos_complement k (((a * X + b * Y) / B ^ (p + 1)) mod B) in
      let! q := geq_kernel_update q0 r (vlimb (mpval n) p) in
      let! hm := partial_high_mask u in
      let! u := store_l u p (Z.land r hm) in
      K sg r q u) Q.
Proof.
  intros a b s X Y m p L st k u u0 n q0 A K Q Ou On Hp Nn Nu Hs HN ON HU HM UI Eq HQ. set (N := mpval n) in *.
  pose proof (mpval_bound_B n On) as BN. fold N in BN. rewrite Nn in BN. pose proof (upinv_L _ _ _ _ _ UI) as HL.
  apply wp_bind. eapply wp_row_finish; [exact Hp|exact Hs|split; [apply HN|apply BN]|exact HU|exact HM|exact HL|]. intros V r Ir EV RR.
  destruct (vlimb_add L r p Hp HL Ir) as [VA MA]. rewrite Eq.
  apply wp_bind. replace (L mod B ^ p) with ((L + r * B ^ p) mod B ^ p) by (rewrite MA, Z.mod_small; auto).
  apply wp_geq_update; [auto|auto|auto|]. pose proof RR as (RB & RV & _). rewrite (Z.mod_small N), (Z.mod_small (L + _)) by lia.
  apply wp_bind. eapply wp_up_mask; [exact UI|lia|]. rewrite Nu. replace (p + 1 - 1) with p by lia.
  assert (EP : p = nlimbs u0 - 1) by lia. apply wp_bind. rewrite EP in *. eapply wp_up_store_last; [exact UI|lia|auto|]. intros u1 U1.
  rewrite <- EP in *. pose proof (upinv_done u0 (nlimbs u0) _ u1 Ou U1 (Z.le_refl _)) as (O1 & S1 & E1).
  assert (E2 : mpval u1 = (L + r * B ^ p) mod 256 ^ mp_len u0).
  { rewrite E1, <- lim_total by (rewrite Nu; clear - Hp; lia). rewrite <- EP. pose proof (Bpow_pos p Hp) as PP. assert (LP : 0 < lim u0 p) by (apply lim_pos; rewrite Nu; clear - Hp; lia).
    rewrite mod_mul_split by auto. rewrite MA, Z.div_add, (Z.div_small L) by (clear - HL PP; lia). rewrite Z.add_0_l. ring. }
  destruct (len_dvd u0) as (t & Ht & ET); [lia|]. rewrite Nu in ET.
  pose proof (row_final s N V (L + r * B ^ p) p (256 ^ mp_len u0) t Hp ltac:(clear - Hs; lia) RR HN ET Ht) as (F1 & F2).
  apply (HQ (V <? 0) (geqc N V (L + r * B ^ p))); auto.
  - unfold geqc. destruct (V <? 0); rewrite ?andb_false_r; auto.
  - rewrite E2. lia.
  - rewrite E2, F2. destruct HM as (_ & (XX & (_ & Hm & _) & _)). unfold row_residue. f_equal. apply (halved_unique s N _ V m); auto. clear - Hs; lia.
Qed.

Lemma comb_abs : forall a b s X Y N, 0 <= s -> Z.abs a + Z.abs b <= 2 ^ s -> 0 <= X < N -> 0 <= Y < N -> Z.abs (a * X + b * Y) <= 2 ^ s * (N - 1).
Proof.
  intros a b s X Y N Hs H HX HY. assert (A : Z.abs (a * X) <= Z.abs a * (N - 1)) by (rewrite Z.abs_mul, (Z.abs_eq X) by lia; apply mul_le_l; lia).
  assert (A' : Z.abs (b * Y) <= Z.abs b * (N - 1)) by (rewrite Z.abs_mul, (Z.abs_eq Y) by lia; apply mul_le_l; lia).
  pose proof (mul_le_l (N - 1) (Z.abs a + Z.abs b) (2 ^ s)). lia.
Qed.

Lemma wp_apply_mod : forall a b s0 e h s1 uf ug n g (Q : mp * mp -> Prop), mp_ok uf -> mp_ok ug -> mp_ok n -> 0 < nlimbs n ->
  nlimbs uf = nlimbs n -> nlimbs ug = nlimbs n -> mpval uf < mpval n -> mpval ug < mpval n -> mpval n < 256 ^ mp_len uf -> mpval n < 256 ^ mp_len ug ->
  0 <= s0 <= W - 2 -> 0 <= s1 <= W - 2 -> Z.abs a + Z.abs b <= 2 ^ s0 -> Z.abs e + Z.abs h <= 2 ^ s1 ->
  isl g -> lwmul (vlimb (mpval n) 0) g = B - 1 -> Z.odd (mpval n) = true ->
  (forall uf' ug', rowpost a b s0 (mpval uf) (mpval ug) (mpval n) uf uf' (nlimbs n - 1) -> rowpost e h s1 (mpval uf) (mpval ug) (mpval n) ug ug' (nlimbs n - 1) -> Q (uf', ug')) ->
  wp (apply_to_mod_odd_n (mk_tmat (trow_of a b s0) (trow_of e h s1)) ((chc (negz a), chc (negz b)), (chc (negz e), chc (negz h))) uf ug n g) Q.
Proof.
  intros a b s0 e h s1 uf ug n g Q Of Og On Nn Nf Ng Lf Lg Mf Mg Hs0 Hs1 A0 A1 Ig Hg HO HQ.
  set (X := mpval uf) in *. set (Y := mpval ug) in *. set (N := mpval n) in *. set (p := nlimbs n - 1) in *. assert (Np : nlimbs n = p + 1) by (unfold p; lia).
  assert (Hp : 0 <= p) by lia. clearbody p.
  pose proof (mpval_nonneg uf Of) as X0. pose proof (mpval_nonneg ug Og) as Y0. fold X in X0. fold Y in Y0.
  pose proof (mpval_bound_B n On) as BN. fold N in BN. rewrite Np in BN.
  destruct (row_small a b s0 Hs0 A0) as [Sa Sb]. destruct (row_small e h s1 Hs1 A1) as [Se Sh]. fold (small a) in Sa. fold (small b) in Sb. fold (small e) in Se. fold (small h) in Sh.
  assert (HX : 0 <= X < N) by lia. assert (HY : 0 <= Y < N) by lia.
  pose proof (comb_abs a b s0 X Y N ltac:(clear - Hs0; lia) A0 HX HY) as U0. pose proof (comb_abs e h s1 X Y N ltac:(clear - Hs1; lia) A1 HX HY) as U1.
  assert (HB : forall s U, 0 <= s <= W - 2 -> Z.abs U <= 2 ^ s * (N - 1) -> - 2 ^ (W - 2) <= U / B ^ (p + 1) < 2 ^ (W - 2)).
  { clear - Hp BN HX. intros s U Hs HU. pose proof (Bpow_pos (p + 1)) as PP. apply div_rng; [lia|]. assert (2 ^ s <= 2 ^ (W - 2)) by (apply Z.pow_le_mono_r; lia). pose proof (pow2_gt0 s).
    assert (A : 2 ^ s * (N - 1) < 2 ^ s * B ^ (p + 1)) by (apply mul_lt_l; lia). assert (A2 : B ^ (p + 1) * 2 ^ s <= B ^ (p + 1) * 2 ^ (W - 2)) by (apply mul_le_l; lia). lia. }
  assert (HN : 0 < N) by (clear - HX; lia). assert (XB : 0 <= X < B ^ (p + 1)) by (clear - HX BN; lia). assert (YB : 0 <= Y < B ^ (p + 1)) by (clear - HY BN; lia).
  assert (NZ : 0 < p + 1) by (clear - Hp; lia). assert (P0 : 0 <= 0 < p + 1) by (clear - Hp; lia). unfold apply_to_mod_odd_n. cbn [row0 row1].
  apply wp_bind, wp_dassert. { rewrite empty_nlimbs. destruct (Z.eqb_spec (nlimbs n) 0); [lia|auto]. }
  apply wp_bind, wp_dassert. { rewrite Nf. apply Z.eqb_refl. }
  apply wp_bind, wp_dassert_lt; auto.
  apply wp_bind, wp_dassert. { rewrite Ng. apply Z.eqb_refl. }
  apply wp_bind, wp_dassert_lt; auto.
  apply wp_bind, wp_load; [auto|rewrite Np; auto|]. apply wp_bind, wp_load; [auto|rewrite Nf, Np; auto|]. apply wp_bind, wp_load; [auto|rewrite Ng, Np; auto|]. rewrite !limb_vlimb. fold X Y N.
  apply wp_bind, wp_mod_start; auto. intros st0 k0 m0 R0. apply wp_bind, wp_mod_start; auto. intros st1 k1 m1 R1.
  rewrite Np. replace (p + 1 - 1) with p by lia.
  apply wp_bind. apply wp_for with (I := fun j '(u_f, u_g, st0, k0, st1, k1, q0, q1, last_n_val, u_last) =>
    exists L0 L1, upinv uf X j L0 u_f /\ upinv ug Y j L1 u_g /\ rmod a b s0 X Y N m0 j L0 st0 k0 /\ rmod e h s1 X Y N m1 j L1 st1 k1 /\
     q0 = b2z (N mod B ^ j <=? L0 mod B ^ j) /\ q1 = b2z (N mod B ^ j <=? L1 mod B ^ j) /\ last_n_val = vlimb N j /\ u_last = (vlimb X j, vlimb Y j)); [lia| | |].
  - exists 0, 0. split; [apply upinv_init; auto|]. split; [apply upinv_init; auto|]. split; [auto|]. split; [auto|]. rewrite Z.pow_0_r, !Z.mod_1_r. auto.
  - intros j [[[[[[[[[u_f u_g] t0] l0] t1] l1] q0] q1] ln] ul] Hj (L0 & L1 & UF & UG & RM0 & RM1 & -> & -> & -> & ->).
    assert (J1 : 0 <= j + 1 < p + 1) by (clear - Hj; lia). assert (J2 : 0 <= j <= j + 1) by (clear - Hj; lia). assert (Hj0 : 0 <= j) by (clear - Hj; lia).
    assert (FF : (j + 1) * LB <= mp_len uf) by (apply full_inner; rewrite Nf, Np; clear - Hj; lia). assert (FG : (j + 1) * LB <= mp_len ug) by (apply full_inner; rewrite Ng, Np; clear - Hj; lia).
    apply wp_bind, wp_load; [auto|rewrite Np; auto|]. rewrite limb_vlimb. fold N.
    apply wp_bind. eapply wp_up_load; [exact UF|auto|rewrite Nf, Np; apply J1|]. apply wp_bind. eapply wp_up_load; [exact UG|auto|rewrite Ng, Np; apply J1|].
    apply wp_bind. eapply wp_mod_limb; [exact Hj0|auto|auto|exact RM0|]. intros t0' l0' r0 Ir0 RM0'.
    pose proof (upinv_L _ _ _ _ _ UF) as HL0. pose proof (upinv_L _ _ _ _ _ UG) as HL1.
    destruct (vlimb_add L0 r0 j Hj0 HL0 Ir0) as [VA0 MA0].
    apply wp_bind. replace (L0 mod B ^ j) with ((L0 + r0 * B ^ j) mod B ^ j) by (rewrite MA0, Z.mod_small; auto). apply wp_geq_update; [auto|auto|auto|].
    apply wp_bind. eapply wp_mod_limb; [exact Hj0|auto|auto|exact RM1|]. intros t1' l1' r1 Ir1 RM1'. destruct (vlimb_add L1 r1 j Hj0 HL1 Ir1) as [VA1 MA1].
    apply wp_bind. replace (L1 mod B ^ j) with ((L1 + r1 * B ^ j) mod B ^ j) by (rewrite MA1, Z.mod_small; auto). apply wp_geq_update; [auto|auto|auto|].
    apply wp_bind. eapply wp_up_store_full; [exact UF|auto|exact FF|auto|]. intros uf2 UF2.
    apply wp_bind. eapply wp_up_store_full; [exact UG|auto|exact FG|auto|]. intros ug2 UG2. apply wp_ret.
    exists (L0 + r0 * B ^ j), (L1 + r1 * B ^ j). auto 10.
  - intros [[[[[[[[[u_f u_g] t0] l0] t1] l1] q0] q1] ln] ul] (L0 & L1 & UF & UG & RM0 & RM1 & Eq0 & Eq1 & -> & ->).
    rewrite Z.max_r by exact Hp. apply wp_bind, wp_dassert; [apply Z.eqb_refl|].
    apply wp_bind. eapply wp_mod_head; [exact Hp|auto|auto|apply RM0|auto|auto|apply (HB s0); auto|].
    apply wp_bind. eapply wp_mod_head; [exact Hp|auto|auto|apply RM1|auto|auto|apply (HB s1); auto|].
    eapply wp_row_end with (n := n) (u0 := uf); [auto|auto|auto|auto|rewrite Nf; auto|exact Hs0|fold N; auto|exact HO|exact U0|exact RM0|exact UF|exact Eq0|].
    fold N. intros sg0 g0 r0 u1f Of1 Sf1 GS0 LT0 CG0 z0 EG0.
    eapply wp_row_end with (n := n) (u0 := ug); [auto|auto|auto|auto|rewrite Ng; auto|exact Hs1|fold N; auto|exact HO|exact U1|exact RM1|exact UG|exact Eq1|].
    fold N. intros sg1 g1 r1 u1g Og1 Sg1 GS1 LT1 CG1 z1 EG1.
    apply wp_bind. unfold geq_kernel_finish, leq_kernel_finish. apply (wp_lc_new z0); [auto|].
    apply wp_bind. apply (wp_lc_new z1); [auto|].
    pose proof isl_0 as I0. pose proof isl_1 as I1.
    assert (SL : forall z sg, lc_select (chc z) 0 (Z.lxor (b2z sg) 1) = b2z (z && negb sg)).
    { intros z sg. rewrite lc_select_chc; [destruct z, sg; auto|auto|destruct sg; auto]. }
    rewrite !SL, <- EG0, <- EG1.
    apply wp_bind, wp_into_range; auto; [rewrite (shape_nlimbs uf u1f); auto|rewrite (shape_len uf u1f) by auto; exact LT0|]. fold N. rewrite (shape_len uf u1f) by auto. intros uf' (Of' & Sf' & Ef').
    apply wp_bind, wp_into_range; auto; [rewrite (shape_nlimbs ug u1g); auto|rewrite (shape_len ug u1g) by auto; exact LT1|]. fold N. rewrite (shape_len ug u1g) by auto. intros ug' (Og' & Sg' & Eg').
    apply wp_ret. apply HQ.
    + split; [auto|]. split; [eapply shape_trans; eauto|]. rewrite Ef'. split; auto.
    + split; [auto|]. split; [eapply shape_trans; eauto|]. rewrite Eg'. split; auto.
Qed.
End Facts.
