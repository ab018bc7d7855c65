(** The statements of ThmGcd.v, derived from the facts. *)
From Coq Require Import ZArith List Bool Lia.
Require Import Verif.Spec Verif.Base Verif.Monad Verif.Wp Verif.ModelLimb Verif.LimbProofs Verif.ModelBuf Verif.SpecBuf Verif.BufProofs Verif.SpecMont Verif.SpecEuclid
  Verif.ModelEuclid Verif.EuclidFacts3 Verif.EuclidFacts4.
Open Scope Z_scope.

Section S.
Context {c : cfg}.

Lemma gcd_odd_correct : forall f g, mp_ok f -> mp_ok g -> Z.odd (mpval f) = true -> mut_compat f g -> gcd_len_ok (Z.max (mp_len f) (mp_len g)) ->
  yields (ct_gcd_odd_mp_mp f g) (fun '(res, f', g') => res = Ok tt /\ becomes f f' (Z.gcd (mpval f) (mpval g)) /\ becomes g g' 0).
Proof. intros. apply wp_yields, wp_gcd_odd; auto. Qed.

Lemma gcd_odd_errors : forall f g, mp_ok f -> mp_ok g ->
  (Z.odd (mpval f) = false -> returns (ct_gcd_odd_mp_mp f g) (Err GcdInvalidInputOperandValue, f, g)) /\
  (Z.odd (mpval f) = true -> ~ mut_compat f g -> returns (ct_gcd_odd_mp_mp f g) (Err GcdInconsistentOperandLengths, f, g)).
Proof. intros f g Hf Hg. destruct (odd_errors f g Hf Hg) as [H0 H1]. split; intros; apply wp_ret_eq; auto. Qed.

Lemma gcd_correct : forall a b, mp_ok a -> mp_ok b -> 0 < mp_len a -> mut_compat a b -> gcd_len_ok (Z.max (mp_len a) (mp_len b)) ->
  mpval a <> 0 \/ mpval b <> 0 ->
  yields (ct_gcd_mp_mp a b) (fun '(res, a', b') => res = Ok tt /\ becomes a a' (Z.gcd (mpval a) (mpval b)) /\ becomes b b' 0).
Proof.
  intros a b Ha Hb Hl HC HL HN. apply wp_yields, wp_gcd; auto. intros a' b' HA HB. split; [auto|split; [|auto]].
  unfold gcd_or_one in HA. destruct (Z.eqb_spec (mpval a) 0), (Z.eqb_spec (mpval b) 0); auto; lia.
Qed.

Lemma gcd_both_zero : forall a b, mp_ok a -> mp_ok b -> 0 < mp_len a -> mut_compat a b -> gcd_len_ok (Z.max (mp_len a) (mp_len b)) ->
  mpval a = 0 -> mpval b = 0 ->
  yields (ct_gcd_mp_mp a b) (fun '(res, a', b') => res = Ok tt /\ becomes a a' 1 /\ becomes b b' 0).
Proof.
  intros a b Ha Hb Hl HC HL Z0 Z1. apply wp_yields, wp_gcd; auto. intros a' b' HA HB. split; [auto|split; [|auto]].
  unfold gcd_or_one in HA. rewrite Z0, Z1 in HA. auto.
Qed.

Lemma gcd_mp_errors : forall a b, mp_ok a -> mp_ok b ->
  (mp_len a = 0 -> returns (ct_gcd_mp_mp a b) (Err GcdInsufficientResultSpace, a, b)) /\
  (0 < mp_len a -> ~ mut_compat a b -> returns (ct_gcd_mp_mp a b) (Err GcdInconsistentOperandLengths, a, b)).
Proof. intros a b Ha Hb. destruct (gcd_errors a b Ha Hb) as [H0 H1]. split; intros; apply wp_ret_eq; auto. Qed.

End S.
