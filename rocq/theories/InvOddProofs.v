(** Proofs of the properties of inversion modulo odd numbers (euclid_impl.rs, ModelEuclid.v). *)
From Coq Require Import ZArith List Bool Lia Znumtheory.
Require Import Verif.Spec Verif.Base Verif.Monad Verif.Wp Verif.Wx Verif.ModelLimb Verif.LimbFacts Verif.LimbProofs
  Verif.ModelBuf Verif.SpecBuf Verif.BufFacts Verif.BufFacts2 Verif.BufFacts3 Verif.BufProofs Verif.ModelCmp Verif.CmpFacts
  Verif.ModelMont Verif.SpecMont Verif.MontFacts5 Verif.MontFacts6
  Verif.SpecEuclid Verif.SpecSteps Verif.ModelEuclid Verif.GcdBound Verif.EuclidFacts3 Verif.EuclidFacts4 Verif.InvOddFacts4 Verif.InvOddFacts5 Verif.FitCheck.
Import ListNotations.
Open Scope Z_scope.

Section S.
Context {c : cfg}.

Lemma wp_inv_odd : forall result op0 n s0 s1 (Q : _ -> Prop), mp_ok result -> mp_ok op0 -> mp_ok n -> Z.odd (mpval n) = true ->
  len_compat n (mp_len result) -> mut_compat op0 n -> mp_ok (NE s0) -> mp_ok (NE s1) -> nlimbs n <= zlen s0 -> nlimbs n <= zlen s1 ->
  gcd_len_ok (LB * nlimbs n) -> (Z.gcd (mpval n) (mpval op0) = 1 -> inv_fits n (mpval op0) \/ debug c = false) ->
  (forall res r' o' a b, mp_ok r' -> same_shape result r' -> becomes op0 o' 0 -> scratch_like s0 a -> scratch_like s1 b ->
     (Z.gcd (mpval n) (mpval op0) <> 1 \/ mpval n = 1 -> res = Err InvOperandsNotCoprime) ->
     (Z.gcd (mpval n) (mpval op0) = 1 -> (res = Ok tt \/ res = Err InvOperandsNotCoprime) /\ mpval r' <= mpval n /\
        (1 < mpval n -> inv_fits n (mpval op0) -> res = Ok tt /\ is_inverse (mpval n) (mpval op0) (mpval r'))) ->
     Q (res, r', o', a, b)) ->
  wp (ct_inv_mod_odd_mp_mp result op0 n s0 s1) Q.
Proof.
  intros result op0 n s0 s1 Q Or Oo On HO CR CO OS0 OS1 L0 L1 HU HD HQ. unfold ct_inv_mod_odd_mp_mp.
  apply wp_bind. apply wp_inv_impl_any; auto. intros res r' o' a b Or' Sr' Bo Ha Hb H0 H1.
  destruct (Z.eq_dec (Z.gcd (mpval n) (mpval op0)) 1) as [G|G].
  - destruct (H1 G) as (-> & HV & N1 & HI). apply wp_bind, wp_is_zero_mp; auto. rewrite lc_unwrap_chc.
    apply wp_mif; intros E; apply wp_ret; apply HQ; auto.
    + intros _. split; [auto|]. split; [auto|]. intros NB GD. exfalso. destruct (HI NB GD) as [_ I].
      destruct (Z.eqb_spec (mpval r') 0) as [E0|]; [|discriminate]. rewrite E0, Z.mul_0_r, Z.mod_0_l, Z.mod_small in I by lia. discriminate.
    + intros [X|X]; [contradiction|]. rewrite (N1 X) in E. discriminate.
  - rewrite (H0 G). apply wp_ret. apply HQ; auto. intros; contradiction.
Qed.

Lemma batches_end : forall n x, Z.odd n = true -> 0 < n -> 0 <= x -> exists k d f, batches k (1, n, x) = (d, f, 0) /\ Z.abs f = Z.gcd n x.
Proof.
  intros n x HO Hn Hx. set (len := 1 + Z.log2 (Z.max n x)). pose proof (Z.log2_nonneg (Z.max n x)) as LN. pose proof (Z.log2_spec (Z.max n x) ltac:(lia)) as LS.
  assert (PL : 2 ^ Z.succ (Z.log2 (Z.max n x)) <= 256 ^ len).
  { change 256 with (2 ^ 8). rewrite <- Z.pow_mul_r by (unfold len; lia). apply Z.pow_le_mono_r; unfold len; lia. }
  set (K := (49 * (len * 8 + 2) + 57)). exists (Z.to_nat K). pose proof W_cases as WC. rewrite batches_dsteps.
  assert (KP : 0 <= K) by (unfold K, len; lia). set (NN := (Z.to_nat K * Z.to_nat (W - 2))%nat).
  pose proof (dsteps_gcd NN 1 n x HO) as GC. pose proof (divsteps_enough len n x NN) as DE.
  destruct (dsteps NN (1, n, x)) as [[d f] g] eqn:ED. assert (g = 0).
  { cbn [snd] in DE. assert (L1 : 1 <= len) by (unfold len; lia). apply DE; auto; [rewrite Z.abs_eq; lia|rewrite Z.abs_eq; lia|].
    unfold NN. rewrite Nat2Z.inj_mul, !Z2Nat.id by lia. pf (mul_le_l K 30 (W - 2)). unfold K in *. lia. }
  subst g. exists d, f. split; [auto|]. rewrite Z.gcd_0_r in GC. auto.
Qed.

Lemma inv_odd_exact : forall result op0 n s0 s1 k d f, mp_ok result -> mp_ok op0 -> mp_ok n -> Z.odd (mpval n) = true -> 1 < mpval n ->
  len_compat n (mp_len result) -> mut_compat op0 n -> mp_ok (NE s0) -> mp_ok (NE s1) -> nlimbs n <= zlen s0 -> nlimbs n <= zlen s1 ->
  gcd_len_ok (LB * nlimbs n) -> Z.gcd (mpval n) (mpval op0) = 1 ->
  batches k (1, mpval n, mpval op0) = (d, f, 0) ->
  let r := fst (residues (mpval n) (nlimbs n - 1) (mpval op0) k) in
  let v := if f <? 0 then mpval n - r else r in
  (debug c = true -> r = 0 -> panics (ct_inv_mod_odd_mp_mp result op0 n s0 s1)) /\
  (debug c = false \/ r <> 0 -> yields (ct_inv_mod_odd_mp_mp result op0 n s0 s1) (fun '(res, result', op0', _, _) =>
    res = (if v =? 0 then Err InvOperandsNotCoprime else Ok tt) /\ becomes result result' v /\ becomes op0 op0' 0)).
Proof.
  intros result op0 n s0 s1 k d f Or Oo On HO HN CR CO OS0 OS1 L0 L1 HU HC EB. cbv zeta. destruct (odd_nlimbs n On HO) as [Hn _]. pose proof (mpval_bound_B n On) as BNB.
  set (N := mpval n) in *. set (x := mpval op0) in *. set (p := nlimbs n - 1) in *. assert (Hp : 0 <= p) by (unfold p; lia). replace (nlimbs n) with (p + 1) in BNB by (unfold p; lia).
  assert (HNB : 0 < N < B ^ (p + 1)) by lia. set (r := fst (residues N p x k)).
  assert (SAME : forall k' d' f', batches k' (1, N, x) = (d', f', 0) -> f' = f /\ fst (residues N p x k') = r).
  { intros k' d' f' E. destruct (residues_end N p x k' k d' f' d f Hp HO HNB E EB). auto. }
  assert (WX : forall ex (Q : _ -> Prop), (debug c = true -> r = 0 -> ex = true) ->
    (forall res r' o' a b, (debug c = true -> r <> 0) -> res = (if (if f <? 0 then N - r else r) =? 0 then Err InvOperandsNotCoprime else Ok tt) ->
       becomes result r' (if f <? 0 then N - r else r) -> becomes op0 o' 0 -> Q (res, r', o', a, b)) ->
    wx ex (ct_inv_mod_odd_mp_mp result op0 n s0 s1) Q).
  { intros ex Q HX HQ. unfold ct_inv_mod_odd_mp_mp. apply wx_bindx. apply wx_inv_impl; auto; fold N x p.
    - intros D _ _ k' d' f' E _ R0. destruct (SAME k' d' f' E) as [_ ER]. apply HX; auto. congruence.
    - intros res r' o' a b k' d' f' Or' Sr' Bo Ha Hb E _ _ H1. destruct (SAME k' d' f' E) as [-> ER]. destruct (H1 HC) as (-> & EV & DZ). rewrite ER in *.
      unfold end_value in EV. destruct (Z.eqb_spec N 1); [lia|]. apply wx_bind, wp_is_zero_mp; auto. rewrite lc_unwrap_chc, EV.
      apply wx_mif; intros EZ; apply wx_ret; apply HQ; auto.
      + destruct ((if f <? 0 then N - r else r) =? 0); [auto|discriminate].
      + split; auto.
      + destruct ((if f <? 0 then N - r else r) =? 0); [discriminate|auto].
      + split; auto. }
  split.
  - intros D R0. apply wx_pan, WX; [auto|]. intros res r' o' a b NZ. destruct (NZ D R0).
  - intros HD. apply wp_yields, wp_wx, WX; [intros D R0; destruct HD; congruence|]. auto.
Qed.

Lemma inv_odd_wrong : forall K result op0 n s0 s1, mp_ok result -> mp_ok op0 -> mp_ok n -> Z.odd (mpval n) = true -> 1 < mpval n ->
  len_compat n (mp_len result) -> mut_compat op0 n -> mp_ok (NE s0) -> mp_ok (NE s1) -> nlimbs n <= zlen s0 -> nlimbs n <= zlen s1 ->
  gcd_len_ok (LB * nlimbs n) -> Z.gcd (mpval n) (mpval op0) = 1 -> goes_wrong K (mpval n) (nlimbs n - 1) (mpval op0) = true ->
  yields (ct_inv_mod_odd_mp_mp result op0 n s0 s1) (fun '(res, result', _, _, _) => res = Ok tt /\ ~ is_inverse (mpval n) (mpval op0) (mpval result')).
Proof.
  intros K result op0 n s0 s1 Or Oo On HO HN CR CO OS0 OS1 L0 L1 HU HC HW. destruct (goes_wrong_spec K _ _ _ HN HW) as (d & f & EB & R0 & NI).
  destruct (inv_odd_exact result op0 n s0 s1 K d f) as [_ Y]; auto. destruct (odd_nlimbs n On HO) as [Hn _]. pose proof (mpval_bound_B n On) as BNB.
  pose proof (residues_range (mpval n) (nlimbs n - 1) (mpval op0) K) as [RR _]; [lia|auto|replace (nlimbs n - 1 + 1) with (nlimbs n) by lia; lia|].
  destruct Y as ([[[[res r'] o'] a] b] & R & H); [auto|]. exists (res, r', o', a, b). split; [auto|]. destruct H as (E & (_ & _ & EV) & _). rewrite EV. split; [|auto].
  rewrite E. set (r := fst (residues (mpval n) (nlimbs n - 1) (mpval op0) K)) in *. clearbody r. destruct (Z.eqb_spec (if f <? 0 then mpval n - r else r) 0) as [Z0|]; [|auto].
  destruct (f <? 0); lia.
Qed.

Lemma inv_odd_any : forall result op0 n s0 s1, mp_ok result -> mp_ok op0 -> mp_ok n -> Z.odd (mpval n) = true -> 1 < mpval n ->
  len_compat n (mp_len result) -> mut_compat op0 n -> mp_ok (NE s0) -> mp_ok (NE s1) -> nlimbs n <= zlen s0 -> nlimbs n <= zlen s1 ->
  gcd_len_ok (LB * nlimbs n) -> residues_fit (mpval n) (nlimbs n - 1) (mpval op0) -> Z.gcd (mpval n) (mpval op0) = 1 ->
  yields (ct_inv_mod_odd_mp_mp result op0 n s0 s1) (fun '(res, result', op0', _, _) =>
    res = Ok tt /\ is_inverse (mpval n) (mpval op0) (mpval result') /\ becomes result result' (mpval result') /\ becomes op0 op0' 0).
Proof.
  intros result op0 n s0 s1 Or Oo On HO HN CR CO OS0 OS1 L0 L1 HU HG HC. apply wp_yields, wp_inv_odd; auto. intros res r' o' a b Or' Sr' Bo Ha Hb H0 H1. destruct H1 as (_ & _ & HI); auto. destruct HI; auto.
  split; [auto|]. split; [auto|]. split; [split; auto|auto].
Qed.

Lemma inv_odd_correct : forall result op0 n s0 s1, mp_ok result -> mp_ok op0 -> mp_ok n -> Z.odd (mpval n) = true -> 1 < mpval n ->
  len_compat n (mp_len result) -> mut_compat op0 n -> mp_ok (NE s0) -> mp_ok (NE s1) -> nlimbs n <= zlen s0 -> nlimbs n <= zlen s1 ->
  gcd_len_ok (LB * nlimbs n) -> mpval n <= B ^ (nlimbs n - 1) -> Z.gcd (mpval n) (mpval op0) = 1 ->
  yields (ct_inv_mod_odd_mp_mp result op0 n s0 s1) (fun '(res, result', op0', _, _) =>
    res = Ok tt /\ is_inverse (mpval n) (mpval op0) (mpval result') /\ becomes result result' (mpval result') /\ becomes op0 op0' 0).
Proof.
  intros result op0 n s0 s1 Or Oo On HO HN CR CO OS0 OS1 L0 L1 HU HG HC. destruct (odd_nlimbs n On HO). apply inv_odd_any; auto. apply spare_fit; lia.
Qed.

Lemma inv_odd_not_coprime : forall result op0 n s0 s1, mp_ok result -> mp_ok op0 -> mp_ok n -> Z.odd (mpval n) = true ->
  len_compat n (mp_len result) -> mut_compat op0 n -> mp_ok (NE s0) -> mp_ok (NE s1) -> nlimbs n <= zlen s0 -> nlimbs n <= zlen s1 ->
  gcd_len_ok (LB * nlimbs n) -> Z.gcd (mpval n) (mpval op0) <> 1 \/ mpval n = 1 ->
  yields (ct_inv_mod_odd_mp_mp result op0 n s0 s1) (fun '(res, result', op0', _, _) =>
    res = Err InvOperandsNotCoprime /\ mp_ok result' /\ same_shape result result' /\ becomes op0 op0' 0).
Proof.
  intros result op0 n s0 s1 Or Oo On HO CR CO OS0 OS1 L0 L1 HU HG. apply wp_yields, wp_inv_odd; auto.
  { intros G. left. destruct HG as [X|X]; [contradiction|]. destruct (odd_nlimbs n On HO). pf (Bpow_pos (nlimbs n - 1)). apply spare_fit; lia. }
Qed.

Lemma inv_odd_release : forall result op0 n s0 s1, debug c = false -> mp_ok result -> mp_ok op0 -> mp_ok n -> Z.odd (mpval n) = true ->
  len_compat n (mp_len result) -> mut_compat op0 n -> mp_ok (NE s0) -> mp_ok (NE s1) -> nlimbs n <= zlen s0 -> nlimbs n <= zlen s1 ->
  gcd_len_ok (LB * nlimbs n) ->
  yields (ct_inv_mod_odd_mp_mp result op0 n s0 s1) (fun '(res, result', op0', _, _) =>
    (res = Ok tt \/ res = Err InvOperandsNotCoprime) /\ (res = Ok tt -> Z.gcd (mpval n) (mpval op0) = 1 /\ mpval result' <= mpval n) /\
    mp_ok result' /\ same_shape result result' /\ becomes op0 op0' 0).
Proof.
  intros result op0 n s0 s1 D Or Oo On HO CR CO OS0 OS1 L0 L1 HU. apply wp_yields, wp_inv_odd; auto.
  intros res r' o' a b Or' Sr' Bo Ha Hb H0 H1. destruct (Z.eq_dec (Z.gcd (mpval n) (mpval op0)) 1) as [G|G].
  - destruct (H1 G) as (X & Y & _). auto.
  - rewrite H0 by auto. split; [auto|]. split; [discriminate|auto].
Qed.

Lemma inv_impl_errors : forall result op0 n s0 s1, mp_ok result -> mp_ok op0 -> mp_ok n ->
  (~ len_compat n (mp_len result) ->
    returns (ct_inv_mod_odd_mp_mp_impl result op0 n s0 s1) (Err InvInsufficientResultSpace, result, op0, s0, s1)) /\
  (len_compat n (mp_len result) -> ~ mut_compat op0 n ->
    returns (ct_inv_mod_odd_mp_mp_impl result op0 n s0 s1) (Err InvInconsistentOperandLengths, result, op0, s0, s1)) /\
  (len_compat n (mp_len result) -> mut_compat op0 n -> zlen s0 < nlimbs n \/ zlen s1 < nlimbs n ->
    returns (ct_inv_mod_odd_mp_mp_impl result op0 n s0 s1) (Err InvInsufficientScratchSpace, result, op0, s0, s1)) /\
  (len_compat n (mp_len result) -> mut_compat op0 n -> nlimbs n <= zlen s0 -> nlimbs n <= zlen s1 -> Z.odd (mpval n) = false ->
    returns (ct_inv_mod_odd_mp_mp_impl result op0 n s0 s1) (Err InvInvalidModulus, result, op0, s0, s1)).
Proof.
  intros result op0 n s0 s1 Or Oo On. pose proof (mp_len_nonneg result). unfold ct_inv_mod_odd_mp_mp_impl.
  split; [|split; [|split]]; [intros CR|intros CR CO|intros CR CO HS|intros CR CO H0 H1 HE]; apply wp_ret_eq.
  - apply wp_bind, wp_compat_not; auto. apply wp_bind, wp_tick. apply wp_ret. auto.
  - apply wp_bind, wp_compat; auto. apply wp_mif; intros E; [discriminate|]. apply wp_bind_assoc. apply wp_bind, wp_mut_compat_not; auto.
    apply wp_bind, wp_tick. apply wp_ret. auto.
  - apply wp_bind, wp_compat; auto. apply wp_mif; intros E; [discriminate|]. apply wp_bind_assoc. apply wp_bind, wp_mut_compat; auto.
    apply wp_bind, wp_tick. fold (nlimbs n). apply wp_mif; intros X0; [apply wp_ret; auto|]. apply Z.ltb_ge in X0.
    apply wp_mif; intros X1; [apply wp_ret; auto|]. apply Z.ltb_ge in X1. lia.
  - apply wp_bind, wp_compat; auto. apply wp_mif; intros E; [discriminate|]. apply wp_bind_assoc. apply wp_bind, wp_mut_compat; auto.
    apply wp_bind, wp_tick. fold (nlimbs n). apply wp_mif; intros X0; [apply Z.ltb_lt in X0; lia|].
    apply wp_mif; intros X1; [apply Z.ltb_lt in X1; lia|]. apply wp_bind, wp_neg_inv_even; auto. apply wp_ret. auto.
Qed.

Lemma inv_wrap_err : forall result op0 n s0 s1 e x, returns (ct_inv_mod_odd_mp_mp_impl result op0 n s0 s1) (Err e, result, op0, s0, s1) ->
  x = e -> returns (ct_inv_mod_odd_mp_mp result op0 n s0 s1) (Err x, result, op0, s0, s1).
Proof.
  intros result op0 n s0 s1 e x H ->. apply wp_ret_eq. unfold ct_inv_mod_odd_mp_mp. apply wp_bind. eapply wp_of_returns; [exact H|]. apply wp_ret. auto.
Qed.

Lemma inv_odd_errors : forall result op0 n s0 s1, mp_ok result -> mp_ok op0 -> mp_ok n ->
  (~ len_compat n (mp_len result) ->
    returns (ct_inv_mod_odd_mp_mp result op0 n s0 s1) (Err InvInsufficientResultSpace, result, op0, s0, s1)) /\
  (len_compat n (mp_len result) -> ~ mut_compat op0 n ->
    returns (ct_inv_mod_odd_mp_mp result op0 n s0 s1) (Err InvInconsistentOperandLengths, result, op0, s0, s1)) /\
  (len_compat n (mp_len result) -> mut_compat op0 n -> zlen s0 < nlimbs n \/ zlen s1 < nlimbs n ->
    returns (ct_inv_mod_odd_mp_mp result op0 n s0 s1) (Err InvInsufficientScratchSpace, result, op0, s0, s1)) /\
  (len_compat n (mp_len result) -> mut_compat op0 n -> nlimbs n <= zlen s0 -> nlimbs n <= zlen s1 -> Z.odd (mpval n) = false ->
    returns (ct_inv_mod_odd_mp_mp result op0 n s0 s1) (Err InvInvalidModulus, result, op0, s0, s1)).
Proof.
  intros result op0 n s0 s1 Or Oo On. destruct (inv_impl_errors result op0 n s0 s1 Or Oo On) as (H1 & H2 & H3 & H4).
  repeat split; intros; eapply inv_wrap_err; eauto.
Qed.
End S.
