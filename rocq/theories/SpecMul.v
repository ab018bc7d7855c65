(** Specification vocabulary for C23 (ThmMul.v): when squaring goes well. *)
From Coq Require Import ZArith.
Require Import Verif.Spec Verif.Monad Verif.ModelLimb.
Open Scope Z_scope.

Section Spec.
Context {c : cfg}.

Definition limb_at (v i : Z) : Z := v / B ^ i mod B.

(** The limbs of v are taken from the most significant one down. By limb j, what the higher ones contribute to the square is
    there already; twice the products of limb j with the limbs below are added to this, starting from the least significant one.
    This is what the first k of these carry over to limb j + k of the square. *)
Definition square_carry (v j k : Z) : Z :=
  ((v ^ 2 - (v mod B ^ (j + 1)) ^ 2) mod B ^ (j + k) + 2 * limb_at v j * (v mod B ^ k) * B ^ j) / B ^ (j + k).

(** The code computes this carry as twice the high half h of the last of the products, reduced modulo B, plus a small number,
    and keeps record of an overflow of the former only. The debug assertions are more pessimistic. [n] is the number of limbs of
    the square. *)
Definition square_fine (n v : Z) : Prop := forall j k, 0 < k <= j -> j + k < n ->
  let h := limb_at v (k - 1) * limb_at v j / B in
  let s := square_carry v j k in
  if debug c then h <> B / 2 - 1 /\ (h = B / 2 - 2 -> s <= B - 2) else 2 * h < B -> s < B.

(** Without debug assertions, this is what the square being right takes: a carry out of the most significant limb does not matter. *)
Definition square_right (n v : Z) : Prop := forall j k, 0 < k <= j -> j + k + 1 < n ->
  2 * (limb_at v (k - 1) * limb_at v j / B) < B -> square_carry v j k < B.

Definition square_ok (n v : Z) : Prop := if debug c then square_fine n v else square_right n v.

End Spec.
