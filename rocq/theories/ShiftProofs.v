(** Proofs of the theorems in ThmShift.v. *)
From Coq Require Import ZArith List Bool Lia.
Require Import Verif.Spec Verif.Monad Verif.Base Verif.Wp Verif.ModelLimb Verif.LimbFacts Verif.ModelBuf Verif.SpecBuf
  Verif.BufFacts Verif.BufProofs Verif.ModelShift Verif.ShiftFacts.
Import ListNotations.
Open Scope Z_scope.

Lemma lshift_correct : forall (c : cfg) a d, mp_ok a -> 0 <= d < 2 ^ UW ->
  yields (ct_lshift_mp a d) (fun '(a', out) =>
    becomes a a' ((mpval a * 2 ^ d) mod 256 ^ mp_len a) /\
    out = (mpval a * 2 ^ d / 256 ^ mp_len a) mod B).
Proof. intros. apply wp_yields, wp_lshift; auto. Qed.

Lemma rshift_correct : forall (c : cfg) a d, mp_ok a -> 0 <= d < 2 ^ UW ->
  yields (ct_rshift_mp a d) (fun '(a', out) =>
    becomes a a' (mpval a / 2 ^ d) /\
    out = (mpval a * B / 2 ^ d) mod B).
Proof. intros. apply wp_yields, wp_rshift; auto. Qed.
