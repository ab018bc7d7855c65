(** Specification vocabulary for the theorems about euclid_impl.rs, invmod_impl.rs and lcm_impl.rs. The greatest common
    divisor and the least common multiple are the standard library's [Z.gcd] and [Z.lcm]. *)
From Coq Require Import ZArith List Bool.
Require Import Verif.Spec Verif.Monad Verif.ModelBuf Verif.SpecBuf Verif.SpecMont.
Open Scope Z_scope.

Section Spec.
Context {c : cfg}.

(** Both operands fit each other's length, see [len_compat] in SpecMont.v. *)
Definition mut_compat (a b : mp) : Prop := len_compat a (mp_len b) /\ len_compat b (mp_len a).

(** The number of division steps for operands of [len] bytes can be computed in usize: more than ten million bytes on
    platforms with a 32 bit usize, not reachable at all with a 64 bit one. *)
Definition gcd_len_ok (len : Z) : Prop := 400 * len + 300 < 2 ^ UW.

(** [v] is the inverse of [x] modulo [n]. *)
Definition is_inverse (n x v : Z) : Prop := 0 <= v < n /\ (x * v) mod n = 1 mod n.

(** The bytes of the shortest buffer in the encoding of [b] which has room for [n] of them: whole limbs in native encoding. *)
Definition stored_len (b : mp) (n : Z) : Z := match b with NE _ => (n + (LB - 1)) / LB * LB | _ => n end.
(** The bytes [ct_lcm_mp_mp] needs for the result with a second operand [op1] and announced lengths [l0] and [l1]. *)
Definition lcm_room (op1 : mp) (l0 l1 : Z) : Z := stored_len op1 (l0 + l1) + (stored_len op1 (Z.max l0 l1) - Z.max l0 l1).

(** What [ct_lcm_mp_mp] divides by if the length [l1] announced for the second operand [y] exceeds the length [len0] of the buffer the
    first operand [x] is in: the greatest common divisor gets shifted so that it takes all bits of [l1] bytes, in a buffer of [len0] ones. *)
Definition lcm_shift (x y l1 : Z) : Z := 8 * l1 - 1 - Z.log2 (if (x =? 0) && (y =? 0) then 1 else Z.gcd x y).
Definition lcm_short_divisor (x y l1 len0 : Z) : Z := ((if (x =? 0) && (y =? 0) then 1 else Z.gcd x y) * 2 ^ lcm_shift x y l1) mod 256 ^ len0.
(** The quotient it computes. *)
Definition lcm_short_quotient (x y l1 len0 : Z) : Z := x * y * 2 ^ lcm_shift x y l1 / lcm_short_divisor x y l1 len0.

End Spec.
