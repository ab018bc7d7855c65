(** Specification vocabulary for inversion modulo odd numbers: the division steps and what they do to two numbers F and G,
    independently of limbs and buffers. *)
From Coq Require Import ZArith List Bool.
Import ListNotations.
Require Import Verif.Spec Verif.Monad.
Open Scope Z_scope.

(** One division step on d, f, g, for odd f: if d is positive and g odd, f and g are swapped first and their difference is
    halved, otherwise g is made even by adding f where needed and halved. Beside them, a row [(a, b, s)] tells how a number
    has come from F and G: [2^s f = a F + b G], and the same for g and its row. *)
Definition step_rows (st : (Z * Z * Z) * (Z * Z * Z) * (Z * Z * Z)) : (Z * Z * Z) * (Z * Z * Z) * (Z * Z * Z) :=
  let '((d, f, g), (a, b, s), (e, h, t)) := st in
  let swap := (0 <? d) && Z.odd g in
  let m := if swap then -1 else if Z.odd g then 1 else 0 in
  ((if swap then 1 - d else 1 + d, if swap then g else f, (g + m * f) / 2),
   if swap then (e, h, t) else (a, b, s),
   (e + 2 ^ (t - s) * m * a, h + 2 ^ (t - s) * m * b, t + 1)).

(** [k] steps from [d], [F], [G] on. *)
Fixpoint steps_rows (k : nat) (s : Z * Z * Z) : (Z * Z * Z) * (Z * Z * Z) * (Z * Z * Z) :=
  match k with
  | O => (s, (1, 0, 0), (0, 1, 0))
  | S k => step_rows (steps_rows k s)
  end.

Section Spec.
Context {c : cfg}.

(** The numbers after [k] batches, of as many steps each as a limb has bits, less two. *)
Fixpoint batches (k : nat) (s : Z * Z * Z) : Z * Z * Z :=
  match k with
  | O => s
  | S k => fst (fst (steps_rows (Z.to_nat (W - 2)) (batches k s)))
  end.

(** The exact quotient [V] of [a r + b u + m n] by [2^s] can be represented in the [p + 1] limbs of [n], as a signed number
    whose negative values extend into the low [s] bits of the highest limb only. *)
Definition row_fits (n p : Z) (row : Z * Z * Z) (r u : Z) : Prop :=
  let '(a, b, s) := row in
  forall V m, 0 <= m < 2 ^ s -> 2 ^ s * V = a * r + b * u + m * n -> - (2 ^ s * B ^ p) <= V < B ^ (p + 1).

(** The inversion of [x] modulo [n] keeps residues [r] and [u] with [f = r x] and [g = u x] modulo [n]. None of the values
    the batches compute them from leaves the range above. *)
Definition residues_fit (n p x : Z) : Prop :=
  forall k r u, 0 <= r < n -> 0 <= u < n ->
  let '((_, f, g), row0, row1) := steps_rows (Z.to_nat (W - 2)) (batches k (1, n, x)) in
  let '(_, f0, g0) := batches k (1, n, x) in
  (n | f0 - r * x) -> (n | g0 - u * x) -> row_fits n p row0 r u /\ row_fits n p row1 r u.

(** What becomes of the residues if they need not fit. [halved n U s] is that exact quotient, found by halving [s] times,
    adding [n] to odd numbers. *)
Fixpoint halved (n U : Z) (s : nat) : Z :=
  match s with
  | O => U
  | S s => halved n ((if Z.odd U then U + n else U) / 2) s
  end.
(** How a quotient [V] is read back: a negative one from its low [p] limbs and the low [s] bits of the highest limb, then [n]
    is added to it, and a positive one from its low [p + 1] limbs, then [n] is subtracted if possible. *)
Definition read_back (n p s V : Z) : Z :=
  if V <? 0 then V mod (2 ^ s * B ^ p) - 2 ^ s * B ^ p + n
  else let R := V mod B ^ (p + 1) in if n <=? R then R - n else R.
Definition row_residue (n p : Z) (row : Z * Z * Z) (r u : Z) : Z :=
  let '(a, b, s) := row in read_back n p s (halved n (a * r + b * u) (Z.to_nat s)).
(** The residues after [k] batches. *)
Fixpoint residues (n p x : Z) (k : nat) : Z * Z :=
  match k with
  | O => (0, 1 mod n)
  | S k => let '(r, u) := residues n p x k in
      let '(_, row0, row1) := steps_rows (Z.to_nat (W - 2)) (batches k (1, n, x)) in
      (row_residue n p row0 r u, row_residue n p row1 r u)
  end.

(** A condition on the division steps alone which implies it: the last swap of each batch is its first step or comes after
    as many steps as the highest limb of [n] has bits in use, and there are two unused bits. *)
Definition late_swaps (n p x : Z) : Prop :=
  n <= 2 ^ (W - 2) * B ^ p /\
  forall k, let '(_, (_, _, s), _) := steps_rows (Z.to_nat (W - 2)) (batches k (1, n, x)) in s = 0 \/ n <= 2 ^ s * B ^ p.

End Spec.

(** Bits of a buffer, a prime filling it and a number: the field primes of P-256, secp256k1, Curve25519 and P-384 and the
    group order of secp256k1. *)
Definition wrong_inverses (l64 : bool) : list (Z * Z * Z) :=
  [ (256, 2 ^ 256 - 2 ^ 224 + 2 ^ 192 + 2 ^ 96 - 1, 5);
    (256, 2 ^ 256 - 2 ^ 32 - 977, 4);
    (256, 2 ^ 255 - 19, 50);
    (384, 2 ^ 384 - 2 ^ 128 - 2 ^ 96 + 2 ^ 32 - 1, if l64 then 7 else 2);
    (256, 0xfffffffffffffffffffffffffffffffebaaedce6af48a03bbfd25e8cd0364141, if l64 then 3 else 2) ].
