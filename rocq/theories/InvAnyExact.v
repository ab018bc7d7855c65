(** What inversion modulo arbitrary numbers (invmod_impl.rs, ModelInv.v) returns, right or wrong, and numbers it goes wrong for. *)
From Coq Require Import ZArith List Bool Lia Znumtheory.
Require Import Verif.Spec Verif.Base Verif.Monad Verif.Wp Verif.Pan Verif.Wx Verif.LimbFacts Verif.ModelLimb Verif.ModelBuf Verif.SpecBuf Verif.BufFacts Verif.BufFacts2 Verif.BufProofs Verif.SpecMont
  Verif.SpecMul Verif.SpecEuclid Verif.SpecSteps Verif.ModelEuclid Verif.InvOddFacts4 Verif.InvOddFacts5 Verif.SpecInv Verif.ModelInv Verif.InvAnyFacts Verif.InvOddProofs Verif.FitCheck Verif.InvOddWrong.
Import ListNotations.
Open Scope Z_scope.

(** Squaring and lifting going well, decided. *)
Definition sq_check (b n v : Z) : bool :=
  forallb (fun j => forallb (fun k =>
      let j := Z.of_nat j in let k := Z.of_nat k in
      let h := (v / b ^ (k - 1) mod b) * (v / b ^ j mod b) / b in
      let s := ((v ^ 2 - (v mod b ^ (j + 1)) ^ 2) mod b ^ (j + k) + 2 * (v / b ^ j mod b) * (v mod b ^ k) * b ^ j) / b ^ (j + k) in
      negb (h =? b / 2 - 1) && (negb (h =? b / 2 - 2) || (s <=? b - 2)) && ((b <=? 2 * h) || (s <? b)))
    (seq 1 (Nat.min j (Z.to_nat n - 1 - j)))) (seq 1 (Z.to_nat n)).
Fixpoint lift_from (b n x : Z) (K k : nat) (h : Z) : bool :=
  match K with
  | O => true
  | S K => sq_check b n h && lift_from b n x K (S k) ((2 * h - x * h ^ 2) mod 2 ^ (2 ^ Z.of_nat (S k)))
  end.
Definition lift_check (b n x : Z) (K : nat) : bool := lift_from b n x K 0 1.
Lemma lift_from_ok : forall b n x K k, lift_from b n x K k (hensel x k) = true -> forall i, (k <= i < k + K)%nat -> sq_check b n (hensel x i) = true.
Proof.
  intros b n x. induction K as [|K IH]; intros k H i Hi; [lia|]. cbn [lift_from] in H. apply andb_true_iff in H. destruct H as [H1 H2].
  destruct (Nat.eq_dec i k) as [->|]; [auto|]. apply (IH (S k)); [exact H2|lia].
Qed.

Lemma wrong_lift : forall l : bool, forallb (fun '(b, n, x) => lift_check (if l then 2 ^ 64 else 2 ^ 32) (b / (if l then 64 else 32)) n 9 &&
  lift_check (if l then 2 ^ 64 else 2 ^ 32) (b / (if l then 64 else 32)) x 9 && (256 ^ (b / 8 - 1) <=? n) && (b / (if l then 64 else 32) * (if l then 64 else 32) =? b) && (b <=? 384)) (wrong_inverses l) = true.
Proof. intros [|]; vm_compute; reflexivity. Qed.

Section S.
Context {c : cfg}.

Lemma sq_check_ok : forall n v, sq_check B n v = true -> square_ok n v.
Proof.
  intros n v H. assert (X : forall j k, 0 < k <= j -> j + k < n ->
    let h := limb_at v (k - 1) * limb_at v j / B in let s := square_carry v j k in h <> B / 2 - 1 /\ (h = B / 2 - 2 -> s <= B - 2) /\ (2 * h < B -> s < B)).
  { intros j k Hk Hj. assert (EJ : Z.of_nat (Z.to_nat j) = j) by (apply Z2Nat.id; lia). assert (EK : Z.of_nat (Z.to_nat k) = k) by (apply Z2Nat.id; lia).
    assert (J : In (Z.to_nat j) (seq 1 (Z.to_nat n))) by (apply in_seq; lia). assert (K : In (Z.to_nat k) (seq 1 (Nat.min (Z.to_nat j) (Z.to_nat n - 1 - Z.to_nat j)))) by (apply in_seq; lia). unfold sq_check in H. rewrite forallb_forall in H. apply H in J.
    rewrite forallb_forall in J. apply J in K. cbv beta zeta in K. rewrite EJ, EK in K. clear H J.
    fold (limb_at v (k - 1)) in K. fold (limb_at v j) in K. fold (square_carry v j k) in K. cbv zeta.
    apply andb_true_iff in K. destruct K as [K K3]. apply andb_true_iff in K. destruct K as [K1 K2]. apply negb_true_iff, Z.eqb_neq in K1. split; [auto|]. split.
    - intros E. rewrite (proj2 (Z.eqb_eq _ _) E) in K2. cbn in K2. apply Z.leb_le. auto.
    - intros L. apply orb_true_iff in K3. destruct K3 as [K3|K3]; [apply Z.leb_le in K3; lia|apply Z.ltb_lt; auto]. }
  unfold square_ok, square_fine, square_right. destruct (debug c); intros j k Hk Hj; cbv zeta; destruct (X j k Hk ltac:(lia)) as (X1 & X2 & X3); auto.
Qed.
Lemma lift_check_ok : forall x e K, e <= 2 ^ Z.of_nat K -> lift_check B (limbs_for_bits e) x K = true -> liftable x e.
Proof.
  intros x e K He H k Hk. apply sq_check_ok. apply (lift_from_ok B (limbs_for_bits e) x K 0 H).
  assert (HL : 2 ^ Z.of_nat k < 2 ^ Z.of_nat K) by lia. apply Z.pow_lt_mono_r_iff in HL; lia.
Qed.

Lemma coprime_odd : forall a b, Z.gcd a b = 1 -> Z.odd a = true \/ Z.odd b = true.
Proof.
  intros a b HC. destruct (Z.odd a) eqn:A; [auto|]. destruct (Z.odd b) eqn:A2; [auto|]. exfalso.
  rewrite <- Z.negb_even, negb_false_iff, Z.even_spec in A, A2. destruct A as [u A]. destruct A2 as [v A2].
  assert (D : (2 | Z.gcd a b)) by (apply Z.gcd_greatest; [exists u|exists v]; lia). rewrite HC in D. destruct D; lia.
Qed.

Lemma inv_any_exact : forall op0 n s0 s1 s2 s3 m e k d f, mp_ok op0 -> mp_ok n -> mut_compat op0 n ->
  scratch_ok n s0 -> scratch_ok n s1 -> scratch_ok n s2 -> scratch_ok n s3 -> gcd_len_ok (LB * nlimbs n) ->
  mpval n = m * 2 ^ e -> Z.odd m = true -> 0 <= e -> 1 < m ->
  liftable (mpval op0) (8 * mp_len n - 1) -> liftable m (8 * mp_len n - 1) -> Z.gcd (mpval n) (mpval op0) = 1 ->
  batches k (1, m, mpval op0) = (d, f, 0) ->
  let r := fst (residues m (nlimbs n - 1) (mpval op0) k) in
  let v := if f <? 0 then m - r else r in
  (r = 0 -> debug c = true \/ e = 0 /\ f < 0 -> panics (ct_inv_mod_mp_mp op0 n (s0, s1, s2, s3))) /\
  (r <> 0 \/ debug c = false /\ (0 < e \/ 0 <= f) -> yields (ct_inv_mod_mp_mp op0 n (s0, s1, s2, s3)) (fun '(res, op0', n') => exists w,
    becomes op0 op0' w /\ becomes n n' (mpval n) /\ res = (if w =? 0 then Err ImOperandsNotCoprime else Ok tt) /\
    0 <= w < mpval n /\ w mod m = v mod m /\ (mpval op0 * w) mod 2 ^ e = 1 mod 2 ^ e /\
    (is_inverse (mpval n) (mpval op0) w <-> (mpval op0 * v) mod m = 1))).
Proof.
  intros op0 n s0 s1 s2 s3 m e k d f Oo On CO S0 S1 S2 S3 HU EN HO He M1 L1 L2 HC EB. cbv zeta. pose proof (coprime_odd _ _ HC) as HP.
  pose proof (pow2_gt0 e He) as PE. assert (MN : m <= mpval n) by (pf (mul_le_l m 1 (2 ^ e)); lia).
  pose proof (mpval_bound_B n On) as BNB. pose proof (nlimbs_nonneg n) as Hn.
  assert (Hn0 : 0 < nlimbs n). { destruct (Z.eq_dec (nlimbs n) 0) as [E|]; [|lia]. rewrite E, Z.pow_0_r in BNB. lia. }
  set (p := nlimbs n - 1) in *. assert (Hp : 0 <= p) by (unfold p; lia). assert (HM : 0 < m < B ^ (p + 1)) by (replace (p + 1) with (nlimbs n) by (unfold p; lia); lia).
  set (r := fst (residues m p (mpval op0) k)).
  assert (SAME : forall k' d' f', batches k' (1, m, mpval op0) = (d', f', 0) -> f' = f /\ fst (residues m p (mpval op0) k') = r).
  { intros k' d' f' E. destruct (residues_end m p (mpval op0) k' k d' f' d f Hp HO HM E EB). auto. }
  split.
  - intros R0 HD. apply wx_pan. apply (wx_inv_any true op0 n s0 s1 s2 s3 m e); auto; try lia.
    intros res o' n' _ _ _ _ H1. destruct (H1 HC) as (_ & k' & d' & f' & E & _ & D1 & D2 & _). destruct (SAME k' d' f' E) as [-> ER]. fold p in D1, D2. rewrite ER in D1, D2.
    destruct HD as [HD|[E0 F0]]; [apply D1|apply D2]; auto.
  - intros HD. apply wp_yields, wp_wx, (wx_inv_any false op0 n s0 s1 s2 s3 m e); auto; try lia; fold p.
    + intros _ _ D k' d' f' E _ R0. destruct (SAME k' d' f' E) as [_ ER]. rewrite ER in R0. destruct HD as [HD|[HD _]]; congruence.
    + intros _ _ E0 k' d' f' E _ R0 F0. destruct (SAME k' d' f' E) as [-> ER]. rewrite ER in R0. destruct HD as [HD|[_ HD]]; [congruence|lia].
    + intros res o' n' Oo' So' Bn' _ H1. destruct (H1 HC) as (-> & k' & d' & f' & E & _ & _ & _ & RO & RM & R2). destruct (SAME k' d' f' E) as [-> ER]. rewrite ER in RM.
      unfold end_value in RM. destruct (Z.eqb_spec m 1); [lia|]. set (v := if f <? 0 then m - r else r) in *. exists (mpval o').
      split; [split; auto|]. split; [auto|]. split; [auto|]. split; [auto|]. split; [auto|]. split; [auto|].
      assert (XV : (mpval op0 * mpval o') mod m = (mpval op0 * v) mod m). { rewrite Z.mul_mod, RM, <- Z.mul_mod by lia. auto. }
      split.
      * intros [_ I]. rewrite <- XV. rewrite (Z.mod_small 1 (mpval n)) in I by lia. apply Z.mod_divide in I || idtac.
        rewrite (Z.div_mod (mpval op0 * mpval o') (mpval n)), I, EN by lia.
        replace (m * 2 ^ e * (mpval op0 * mpval o' / (m * 2 ^ e)) + 1) with (1 + (2 ^ e * (mpval op0 * mpval o' / (m * 2 ^ e))) * m) by ring.
        rewrite Z.mod_add, Z.mod_small by lia. auto.
      * intros I. rewrite EN in RO |- *. apply (inverse_parts m e (mpval op0) (v mod m)); auto; try lia.
        -- split; [apply Z.mod_pos_bound; lia|]. rewrite Z.mul_mod_idemp_r, I, Z.mod_small by lia. auto.
        -- rewrite Z.mod_mod by lia. auto.
Qed.

Lemma inv_any_curves_wrong : forall op0 n s0 s1 s2 s3, mp_ok op0 -> mp_ok n -> mut_compat op0 n ->
  scratch_ok n s0 -> scratch_ok n s1 -> scratch_ok n s2 -> scratch_ok n s3 ->
  In (W * nlimbs n, mpval n, mpval op0) (wrong_inverses (limb64 c)) ->
  Z.gcd (mpval n) (mpval op0) = 1 /\
  yields (ct_inv_mod_mp_mp op0 n (s0, s1, s2, s3)) (fun '(res, op0', _) => res = Ok tt /\ ~ is_inverse (mpval n) (mpval op0) (mpval op0')).
Proof.
  intros op0 n s0 s1 s2 s3 Oo On CO S0 S1 S2 S3 HI. destruct (curves_go_wrong n (mpval op0) HI) as (HO & HN & HG & GL & K & HW). split; [auto|].
  assert (EB : B = if limb64 c then 2 ^ 64 else 2 ^ 32) by (unfold B, W, LB; destruct (limb64 c); auto).
  assert (EW : W = if limb64 c then 64 else 32) by (unfold W, LB; destruct (limb64 c); auto). assert (W0 : 0 < W) by (rewrite EW; destruct (limb64 c); lia).
  pose proof (proj1 (forallb_forall _ _) (wrong_lift (limb64 c)) _ HI) as HL. cbn beta iota in HL. rewrite <- EB, <- EW in HL.
  apply andb_true_iff in HL. destruct HL as [HL H384]. apply andb_true_iff in HL. destruct HL as [HL _]. apply andb_true_iff in HL. destruct HL as [HL HT].
  apply andb_true_iff in HL. destruct HL as [HL1 HL2]. apply Z.leb_le in HT, H384. rewrite (Z.mul_comm W), Z.div_mul in HL1, HL2 by lia.
  pose proof (mpval_bound n On) as BN. pose proof (nlimbs_spec n) as NS. assert (EL : LB * 8 = W) by (unfold W, LB; destruct (limb64 c); lia). pose proof (mp_len_nonneg n) as Ln.
  assert (LE : mp_len n = LB * nlimbs n).
  { assert (L1 : 256 ^ (W * nlimbs n / 8 - 1) < 256 ^ mp_len n) by lia. replace (W * nlimbs n / 8) with (LB * nlimbs n) in L1 by (rewrite <- EL; replace (LB * 8 * nlimbs n) with (LB * nlimbs n * 8) by ring; rewrite Z.div_mul; lia).
    apply Z.pow_lt_mono_r_iff in L1; [|lia|lia]. lia. }
  assert (EE : limbs_for_bits (8 * mp_len n - 1) = nlimbs n).
  { unfold limbs_for_bits. rewrite LE. replace (8 * (LB * nlimbs n) - 1 + W - 1) with (W - 2 + nlimbs n * W) by (rewrite <- EL; ring). rewrite Z.div_add, Z.div_small by lia. lia. }
  assert (E9 : 8 * mp_len n - 1 <= 2 ^ Z.of_nat 9). { rewrite LE. change (2 ^ Z.of_nat 9) with 512. rewrite <- EL in H384. lia. }
  destruct (goes_wrong_spec K _ _ _ HN HW) as (d & f & EBA & R0 & NI).
  destruct (inv_any_exact op0 n s0 s1 s2 s3 (mpval n) 0 K d f) as [_ Y]; auto; try lia.
  { apply (lift_check_ok _ _ 9); [auto|]. rewrite EE. auto. } { apply (lift_check_ok _ _ 9); [auto|]. rewrite EE. auto. }
  destruct Y as ([[res o'] n'] & R & w & (_ & _ & Ew) & _ & -> & RW & EM & _ & IFF); [auto|]. exists (if w =? 0 then Err ImOperandsNotCoprime else Ok tt, o', n'). split; [auto|]. rewrite Ew.
  pose proof (mpval_bound_B n On) as BNB. assert (Hn : 0 < nlimbs n). { pose proof (nlimbs_nonneg n). destruct (Z.eq_dec (nlimbs n) 0) as [E|]; [|lia]. rewrite E, Z.pow_0_r in BNB. lia. }
  pose proof (residues_range (mpval n) (nlimbs n - 1) (mpval op0) K) as [RR _]; [lia|auto|replace (nlimbs n - 1 + 1) with (nlimbs n) by lia; lia|].
  set (r := fst (residues (mpval n) (nlimbs n - 1) (mpval op0) K)) in *. clearbody r. set (v := if f <? 0 then mpval n - r else r) in *. assert (HV : 0 < v < mpval n) by (unfold v; destruct (f <? 0); lia). clearbody v.
  rewrite !Z.mod_small in EM by lia. rewrite EM. split; [destruct (Z.eqb_spec v 0); [lia|auto]|auto].
Qed.
End S.
