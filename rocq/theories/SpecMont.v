(** Specification vocabulary for the theorems about montgomery_impl.rs. *)
From Coq Require Import ZArith List.
Require Import Verif.Spec Verif.Monad Verif.ModelBuf Verif.SpecBuf.
Open Scope Z_scope.

Section Spec.
Context {c : cfg}.

(** What the code accepts as "an integer of at most [len] bytes": either the buffer is no longer than that or it is
    one of native limbs reaching less than a limb further, all excess bytes being zero. *)
Definition len_compat (b : mp) (len : Z) : Prop :=
  mp_len b <= len \/ (kind_of b = KNE /\ mp_len b < len + LB /\ mpval b < 256 ^ len).

(** The Montgomery radix for a modulus of [len] bytes: the least power of the limb base not below 256^len. *)
Definition mg_radix (n : mp) : Z := B ^ nlimbs n.

(** [g] is the negative inverse of [n] modulo the limb base. *)
Definition neg_inv (n : mp) (g : Z) : Prop := 0 <= g < B /\ (mpval n * g + 1) mod B = 0.

(** [v] is the Montgomery reduction of [x]: the one residue v with v * R = x modulo n. *)
Definition mg_reduced (n : mp) (x v : Z) : Prop :=
  0 <= v < mpval n /\ (v * mg_radix n) mod mpval n = x mod mpval n.

(** The buffer [r] has exactly the bytes of [n] available: it isn't shorter and, if made of native limbs, the length of
    [n] is a multiple of the limb's. *)
Definition same_bytes (r n : mp) : Prop :=
  mp_len n <= mp_len r /\ (kind_of r = KNE -> mp_len n mod LB = 0).

(** The unreduced product of two residues is known to fit: the buffer [r] has exactly the bytes of [n] available or
    the modulus is small enough for the length of both. *)
Definition mg_room (r n : mp) : Prop :=
  same_bytes r n \/
  mpval n * mpval n + mg_radix n * mpval n <= mg_radix n * 256 ^ Z.min (mp_len r) (mp_len n).

(** No carry can be lost from the limb above the accumulator: the modulus is not within a factor of 1 + 1/B of the radix. *)
Definition mg_carry_ok (n : mp) : Prop := (B + 1) * mpval n <= B * mg_radix n.

(** In the course of a Montgomery multiplication no carry gets lost. [s] is the sum after the lowest [i] limbs of [op0]
    were multiplied by [op1] and reduced away by adding the multiple M * n; it is the only one for a given i. Together
    with the product of the next limb of op0 it has to be less than B times the radix. *)
Definition mg_no_carry_lost (op0 op1 n : mp) : Prop :=
  forall i M s, 0 <= i < nlimbs op0 -> 0 <= M < B ^ i -> B ^ i * s = (mpval op0 mod B ^ i) * mpval op1 + M * mpval n ->
  s + (mpval op0 / B ^ i) mod B * mpval op1 < B * mg_radix n.

(** The same for two residues [a] and [b]: at no limb of a a carry gets lost. *)
Definition mg_fine (n : mp) (a b : Z) : Prop :=
  forall i M s, 0 <= i -> 0 <= M < B ^ i -> B ^ i * s = (a mod B ^ i) * b + M * mpval n -> s + (a / B ^ i) mod B * b < B * mg_radix n.

(** The Montgomery form of [x]. *)
Definition mg_form (n : mp) (x : Z) : Z := (x * mg_radix n) mod mpval n.

(** None of the products an exponentiation of [b] by square and multiply depends on loses a carry: those for the [k] bits of the
    exponent [e], most significant bit first. When the bit number j is processed, b^(e / 2^(j+1)) is squared and, if the bit is
    set, multiplied by b. *)
Definition mg_exp_fine (n : mp) (b e k : Z) : Prop := forall j, 0 <= j < k ->
  mg_fine n (mg_form n (b ^ (e / 2 ^ (j + 1)))) (mg_form n (b ^ (e / 2 ^ (j + 1)))) /\
  (Z.testbit e j = true -> mg_fine n (mg_form n (b ^ (2 * (e / 2 ^ (j + 1))))) (mg_form n b)).

(** The buffer [r] has exactly the bytes of [n] available or the unreduced product [s], of which there is only one, fits
    the length of both. *)
Definition mg_sum_fits (r op0 op1 n : mp) : Prop :=
  same_bytes r n \/
  forall M s, 0 <= M < mg_radix n -> mg_radix n * s = mpval op0 * mpval op1 + M * mpval n -> s < 256 ^ Z.min (mp_len r) (mp_len n).

End Spec.

(** The primes of some widely used elliptic curves: NIST P-256 and P-384, secp256k1, Curve25519. *)
Definition p256 : Z := 2 ^ 256 - 2 ^ 224 + 2 ^ 192 + 2 ^ 96 - 1.
Definition p384 : Z := 2 ^ 384 - 2 ^ 128 - 2 ^ 96 + 2 ^ 32 - 1.
Definition secp256k1 : Z := 2 ^ 256 - 2 ^ 32 - 977.
Definition p25519 : Z := 2 ^ 255 - 19.
(** The primes of the Diffie-Hellman groups number 2, RFC 2409, and number 14, RFC 3526. *)
Definition modp1024 : Z := 0xffffffffffffffffc90fdaa22168c234c4c6628b80dc1cd129024e088a67cc74020bbea63b139b22514a08798e3404ddef9519b3cd3a431b302b0a6df25f14374fe1356d6d51c245e485b576625e7ec6f44c42e9a637ed6b0bff5cb6f406b7edee386bfb5a899fa5ae9f24117c4b1fe649286651ece65381ffffffffffffffff.
Definition modp2048 : Z := 0xffffffffffffffffc90fdaa22168c234c4c6628b80dc1cd129024e088a67cc74020bbea63b139b22514a08798e3404ddef9519b3cd3a431b302b0a6df25f14374fe1356d6d51c245e485b576625e7ec6f44c42e9a637ed6b0bff5cb6f406b7edee386bfb5a899fa5ae9f24117c4b1fe649286651ece45b3dc2007cb8a163bf0598da48361c55d39a69163fa8fd24cf5f83655d23dca3ad961c62f356208552bb9ed529077096966d670c354e4abc9804f1746c08ca18217c32905e462e36ce3be39e772c180e86039b2783a2ec07a28fb5c55df06f4c52c9de2bcbf6955817183995497cea956ae515d2261898fa051015728e5a8aacaa68ffffffffffffffff.
