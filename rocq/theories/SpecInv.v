(** Specification vocabulary for the theorems about invmod_impl.rs. *)
From Coq Require Import ZArith List.
Require Import Verif.Spec Verif.Monad Verif.ModelBuf Verif.SpecBuf Verif.SpecMul.
Open Scope Z_scope.

Section Spec.
Context {c : cfg}.

(** Hensel lifting of the inverse of [x] modulo 2 to one modulo 2^(2^k), by x' = 2x' - x x'^2; for even [x] it still is a
    sequence of numbers, though not of inverses. *)
Fixpoint hensel (x : Z) (k : nat) : Z :=
  match k with
  | O => 1
  | S k => (2 * hensel x k - x * hensel x k ^ 2) mod 2 ^ (2 ^ Z.of_nat (S k))
  end.

(** The number of limbs for [e] bits. *)
Definition limbs_for_bits (e : Z) : Z := (e + W - 1) / W.

(** All of the lifted values of [x] of fewer than [e] bits can be squared in that many limbs: they are not among those
    squaring fails for, see C23 in ThmMul.v and SpecMul.v. *)
Definition liftable (x e : Z) : Prop := forall k, 2 ^ Z.of_nat k < e -> square_ok (limbs_for_bits e) (hensel x k).

(** A scratch slice of limbs as long as [n]. *)
Definition scratch_ok (n : mp) (s : list Z) : Prop := mp_ok (NE s) /\ nlimbs n <= zlen s.

End Spec.
