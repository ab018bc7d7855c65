(** What Montgomery multiplication and exponentiation compute on numbers, including all that is lost on the way. *)
From Coq Require Import ZArith List.
Import ListNotations.
Require Import Verif.Spec Verif.Monad Verif.ModelBuf Verif.SpecBuf Verif.SpecMont.
Open Scope Z_scope.

Section Spec.
Context {c : cfg}.

(** The sum kept after the lowest [i] limbs of [x] were multiplied by [y] and reduced away. In each round the product of one more
    limb of x is added, of the sum whatever exceeds B times the radix [R] is dropped, that is the carry lost, and the lowest limb is
    cleared by adding a multiple of [N]; [g] is the negative inverse of N modulo B. *)
Fixpoint mg_sum (N R g x y : Z) (i : nat) : Z :=
  match i with
  | O => 0
  | S j =>
    let t := (mg_sum N R g x y j + (x / B ^ Z.of_nat j) mod B * y) mod (B * R) in
    (t + (t * g) mod B * N) / B
  end.

(** What a Montgomery multiplication of the residues [x] and [y] makes of them, whether or not carries get lost. *)
Definition mg_product (n : mp) (g x y : Z) : Z := mg_sum (mpval n) (mg_radix n) g x y (Z.to_nat (nlimbs n)) mod mpval n.

(** One step of an exponentiation by square and multiply, and all the steps for the [k] lowest bits of [e], beginning with the
    most significant one and with the power [v]. *)
Definition mg_power_step (n : mp) (g b v : Z) (bit : bool) : Z :=
  let q := mg_product n g v v in if bit then mg_product n g q b else q.
Fixpoint mg_power (n : mp) (g b e v : Z) (k : nat) : Z :=
  match k with
  | O => v
  | S j => mg_power n g b e (mg_power_step n g b v (Z.testbit e (Z.of_nat j))) j
  end.

(** What the Miller-Rabin test finds for the candidate [p], the base of Montgomery form [b] and the [k] bits above the lowest one of p
    still to go, p - 1 being an odd multiple of 2^s. [v] is the power reached so far. At the bit number [s] it may become 1 or -1,
    below -1. *)
Fixpoint mr_outcome (p : mp) (g b s v : Z) (k : nat) : bool :=
  match k with
  | O => false
  | S j =>
    let pos := Z.of_nat (S j) in
    let one := mg_radix p mod mpval p in
    let v' := mg_power_step p g b v (Z.testbit (mpval p) pos) in
    (if pos =? s then (v' =? one) || (v' =? mpval p - one) else if pos <? s then v' =? mpval p - one else false) || mr_outcome p g b s v' j
  end.

End Spec.

(** Bytes of a buffer and a prime filling it: the field primes of P-192, P-384, secp256k1 and Curve448, the group orders of P-384 and
    secp256k1 and the Diffie-Hellman group number 2. *)
Definition p192 : Z := 2 ^ 192 - 2 ^ 64 - 1.
Definition p448 : Z := 2 ^ 448 - 2 ^ 224 - 1.
Definition p384_order : Z := 0xffffffffffffffffffffffffffffffffffffffffffffffffc7634d81f4372ddf581a0db248b0a77aecec196accc52973.
Definition secp256k1_order : Z := 0xfffffffffffffffffffffffffffffffebaaedce6af48a03bbfd25e8cd0364141.
Definition wrong_squares : list (Z * Z) :=
  [(24, p192); (48, p384); (32, secp256k1); (56, p448); (48, p384_order); (32, secp256k1_order); (128, modp1024)].
