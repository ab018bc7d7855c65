(** Theorems about multiprecision comparison, addition, subtraction and their
    modular variants: properties C16-C19.

    Vocabulary (SpecBuf.v): [mpval b] is the integer the buffer [b] denotes, in
    any of the three encodings; [becomes b b' v] says that [b'] has the encoding
    and length of [b] and denotes [v]; [yields m P]: [m] does not panic and its
    result satisfies [P]; [choice z]: the LimbChoice for [z]. *)
From Coq Require Import ZArith List Bool Lia.
Require Import Verif.Spec Verif.Monad Verif.ModelLimb Verif.ModelBuf Verif.SpecBuf Verif.ModelCmp Verif.ModelAdd
  Verif.ThmLimb Verif.AddProofs Verif.AddAny.
Import ListNotations.
Open Scope Z_scope.

(** ** C16: comparison, operands of any lengths and encodings *)

Theorem C16_compare : forall (c : cfg) a b, mp_ok a -> mp_ok b ->
  returns (ct_eq_mp_mp a b) (choice (mpval a =? mpval b)) /\
  returns (ct_neq_mp_mp a b) (choice (negb (mpval a =? mpval b))) /\
  returns (ct_lt_mp_mp a b) (choice (mpval a <? mpval b)) /\
  returns (ct_leq_mp_mp a b) (choice (mpval a <=? mpval b)) /\
  returns (ct_gt_mp_mp a b) (choice (mpval b <? mpval a)) /\
  returns (ct_geq_mp_mp a b) (choice (mpval b <=? mpval a)).
Proof. exact compare_correct. Qed.
Print Assumptions C16_compare.

Theorem C16_compare_small : forall (c : cfg) a, mp_ok a ->
  returns (ct_is_zero_mp a) (choice (mpval a =? 0)) /\
  returns (ct_is_one_mp a) (choice (mpval a =? 1)) /\
  (forall l, 0 <= l < B -> returns (ct_leq_mp_l a l) (choice (mpval a <=? l))).
Proof. exact compare_small_correct. Qed.
Print Assumptions C16_compare_small.

(** ** C17: addition *)

Theorem C17_add : forall (c : cfg) a b, mp_ok a -> mp_ok b -> nlimbs b <= nlimbs a -> mpval b < 256 ^ mp_len a ->
  yields (ct_add_mp_mp a b) (fun '(a', carry) =>
    becomes a a' ((mpval a + mpval b) mod 256 ^ mp_len a) /\ carry = (mpval a + mpval b) / 256 ^ mp_len a).
Proof. exact add_correct. Qed.
Print Assumptions C17_add.

Theorem C17_add_cond : forall (c : cfg) a b (z : bool), mp_ok a -> mp_ok b -> nlimbs b <= nlimbs a ->
  (z = true -> mpval b < 256 ^ mp_len a) ->
  yields (ct_add_cond_mp_mp a b (choice z)) (fun '(a', carry) =>
    let sum := mpval a + (if z then mpval b else 0) in
    becomes a a' (sum mod 256 ^ mp_len a) /\ carry = sum / 256 ^ mp_len a).
Proof. exact add_cond_correct. Qed.
Print Assumptions C17_add_cond.

Theorem C17_add_limb : forall (c : cfg) a x, mp_ok a -> 0 <= x < B -> x < 256 ^ mp_len a ->
  yields (ct_add_mp_l a x) (fun '(a', carry) =>
    becomes a a' ((mpval a + x) mod 256 ^ mp_len a) /\ carry = (mpval a + x) / 256 ^ mp_len a).
Proof. exact add_l_correct. Qed.
Print Assumptions C17_add_limb.

(** The remaining operands.  An [op1] too large for [op0]'s bytes is added all the same,
    modulo [op0]'s size; if [op0] ends in a partial limb the carry is the true excess as
    long as the sum fits [op0]'s limbs, and 1 beyond.  An [op1] of more limbs than [op0]
    panics, unless debug assertions are off, there is just one more limb and [op0] has no
    partial limb: then [op1]'s last limb is dropped without notice. *)
Theorem C17_add_any : forall (c : cfg) a b (z : bool) m, mp_ok a -> mp_ok b ->
  m = ct_add_cond_mp_mp a b (choice z) \/ z = true /\ m = ct_add_mp_mp a b ->
  let x := if z then mpval b else 0 in
  let cut := debug c = false /\ nlimbs b = nlimbs a + 1 /\ mp_len a = nlimbs a * LB in
  (nlimbs b <= nlimbs a -> yields m (fun '(a', carry) =>
     becomes a a' ((mpval a + x) mod 256 ^ mp_len a) /\
     carry = if mpval a + x <? B ^ nlimbs a then (mpval a + x) / 256 ^ mp_len a else 1)) /\
  (nlimbs a < nlimbs b -> cut -> yields m (fun '(a', carry) =>
     let sum := mpval a + x mod B ^ nlimbs a in becomes a a' (sum mod B ^ nlimbs a) /\ carry = sum / B ^ nlimbs a)) /\
  (nlimbs a < nlimbs b -> ~ cut -> panics m).
Proof. exact @add_any. Qed.
Print Assumptions C17_add_any.

(** ** C18: subtraction and negation *)

Theorem C18_sub : forall (c : cfg) a b, mp_ok a -> mp_ok b -> nlimbs b <= nlimbs a -> mpval b < 256 ^ mp_len a ->
  yields (ct_sub_mp_mp a b) (fun '(a', borrow) =>
    becomes a a' ((mpval a - mpval b) mod 256 ^ mp_len a) /\ borrow = if mpval a <? mpval b then 1 else 0).
Proof. exact sub_correct. Qed.
Print Assumptions C18_sub.

Theorem C18_sub_cond : forall (c : cfg) a b (z : bool), mp_ok a -> mp_ok b -> nlimbs b <= nlimbs a ->
  (z = true -> mpval b < 256 ^ mp_len a) ->
  yields (ct_sub_cond_mp_mp a b (choice z)) (fun '(a', borrow) =>
    let x := if z then mpval b else 0 in
    becomes a a' ((mpval a - x) mod 256 ^ mp_len a) /\ borrow = if mpval a <? x then 1 else 0).
Proof. exact sub_cond_correct. Qed.
Print Assumptions C18_sub_cond.

Theorem C18_sub_limb : forall (c : cfg) a x, mp_ok a -> 0 <= x < B -> x < 256 ^ mp_len a ->
  yields (ct_sub_mp_l a x) (fun '(a', borrow) =>
    becomes a a' ((mpval a - x) mod 256 ^ mp_len a) /\ borrow = if mpval a <? x then 1 else 0).
Proof. exact sub_l_correct. Qed.
Print Assumptions C18_sub_limb.

(** The remaining operands.  Subtracting an [op1] too large for [op0]'s bytes gives the
    difference modulo [op0]'s size and a borrow, except that in debug builds and with a
    partial last limb a difference below -B^nlimbs/2 fails an assertion; [op1]s of more
    limbs than [op0] are treated as by addition. *)
Theorem C18_sub_any : forall (c : cfg) a b (z : bool) m, mp_ok a -> mp_ok b ->
  m = ct_sub_cond_mp_mp a b (choice z) \/ z = true /\ m = ct_sub_mp_mp a b ->
  let x := if z then mpval b else 0 in
  let refused := debug c = true /\ mp_len a mod LB <> 0 /\ B ^ nlimbs a < 2 * (x - mpval a) in
  let cut := debug c = false /\ nlimbs b = nlimbs a + 1 /\ mp_len a = nlimbs a * LB in
  (nlimbs b <= nlimbs a -> ~ refused -> yields m (fun '(a', borrow) =>
     becomes a a' ((mpval a - x) mod 256 ^ mp_len a) /\ borrow = if mpval a <? x then 1 else 0)) /\
  (nlimbs b <= nlimbs a -> refused -> panics m) /\
  (nlimbs a < nlimbs b -> cut -> yields m (fun '(a', borrow) =>
     let y := x mod B ^ nlimbs a in becomes a a' ((mpval a - y) mod B ^ nlimbs a) /\ borrow = if mpval a <? y then 1 else 0)) /\
  (nlimbs a < nlimbs b -> ~ cut -> panics m).
Proof. exact @sub_any. Qed.
Print Assumptions C18_sub_any.

(** Adding and subtracting any limb: debug builds panic if it does not fit [op0]; release
    builds return the result modulo [op0]'s size; from an empty [op0] no carry or borrow
    ever comes out. *)
Theorem C18_limb_any : forall (c : cfg) a x, mp_ok a -> 0 <= x < B ->
  (debug c = true -> 256 ^ mp_len a <= x -> panics (ct_add_mp_l a x) /\ panics (ct_sub_mp_l a x)) /\
  (debug c = false \/ x < 256 ^ mp_len a ->
    yields (ct_add_mp_l a x) (fun '(a', carry) =>
      becomes a a' ((mpval a + x) mod 256 ^ mp_len a) /\
      carry = if mp_len a =? 0 then 0 else if mpval a + x <? B ^ nlimbs a then (mpval a + x) / 256 ^ mp_len a else 1) /\
    yields (ct_sub_mp_l a x) (fun '(a', borrow) =>
      becomes a a' ((mpval a - x) mod 256 ^ mp_len a) /\ borrow = if mp_len a =? 0 then 0 else if mpval a <? x then 1 else 0)).
Proof. exact @limb_any. Qed.
Print Assumptions C18_limb_any.

Theorem C18_negate : forall (c : cfg) a, mp_ok a ->
  yields (ct_negate_mp a) (fun a' => becomes a a' ((- mpval a) mod 256 ^ mp_len a)) /\
  (forall z, yields (ct_negate_cond_mp a (choice z)) (fun a' => becomes a a' (if z then (- mpval a) mod 256 ^ mp_len a else mpval a))).
Proof. exact negate_correct. Qed.
Print Assumptions C18_negate.

(** ** C19: modular addition, subtraction, negation

    [op0] and [n] of the same number of limbs is the usual case; with a longer
    [op0] the routines only keep track of the carry (borrow) out of [n]'s limbs,
    so that they are right only if there is none. *)

Theorem C19_add_mod_partial : forall (c : cfg) a b n, mp_ok a -> mp_ok b -> mp_ok n -> mpval a < mpval n -> mpval b < mpval n ->
  nlimbs a = nlimbs n \/ mpval a + mpval b < B ^ nlimbs n ->
  yields (ct_add_mod_mp_mp a b n) (fun '(a', r) =>
    (r = Ok tt /\ becomes a a' ((mpval a + mpval b) mod mpval n)) \/
    (r = Err InconsistentOperandLengths /\ a' = a /\ mp_len a < mp_len n)).
Proof. exact add_mod_correct. Qed.
Print Assumptions C19_add_mod_partial.

Theorem C19_sub_mod_partial : forall (c : cfg) a b n, mp_ok a -> mp_ok b -> mp_ok n -> mpval a < mpval n -> mpval b < mpval n ->
  nlimbs a = nlimbs n \/ mpval b <= mpval a ->
  yields (ct_sub_mod_mp_mp a b n) (fun '(a', r) =>
    (r = Ok tt /\ becomes a a' ((mpval a - mpval b) mod mpval n)) \/
    (r = Err InconsistentOperandLengths /\ a' = a /\ mp_len a < mp_len n)).
Proof. exact sub_mod_correct. Qed.
Print Assumptions C19_sub_mod_partial.

Theorem C19_negate_mod : forall (c : cfg) a n, mp_ok a -> mp_ok n -> mpval a < mpval n ->
  yields (ct_negate_mod_mp a n) (fun '(a', r) =>
    (r = Ok tt /\ becomes a a' ((- mpval a) mod mpval n)) \/
    (r = Err InconsistentOperandLengths /\ a' = a /\ mp_len a < mp_len n)).
Proof. exact negate_mod_correct. Qed.
Print Assumptions C19_negate_mod.

(** Outside of the guards, the result is always wrong. *)
Theorem C19_add_mod_longer : forall (c : cfg) a b n, mp_ok a -> mp_ok b -> mp_ok n -> mpval a < mpval n -> mpval b < mpval n ->
  nlimbs a <> nlimbs n -> B ^ nlimbs n <= mpval a + mpval b ->
  yields (ct_add_mod_mp_mp a b n) (fun '(a', r) =>
    (r = Ok tt /\ becomes a a' (mpval a + mpval b - mpval n - B ^ nlimbs n + 256 ^ mp_len a) /\ mpval a' <> (mpval a + mpval b) mod mpval n) \/
    (r = Err InconsistentOperandLengths /\ a' = a /\ mp_len a < mp_len n)).
Proof. exact add_mod_longer. Qed.
Print Assumptions C19_add_mod_longer.

Theorem C19_sub_mod_longer : forall (c : cfg) a b n, mp_ok a -> mp_ok b -> mp_ok n -> mpval a < mpval n -> mpval b < mpval n ->
  nlimbs a <> nlimbs n -> mpval a < mpval b ->
  yields (ct_sub_mod_mp_mp a b n) (fun '(a', r) =>
    (r = Ok tt /\ becomes a a' (mpval a - mpval b + mpval n + B ^ nlimbs n) /\ mpval a' <> (mpval a - mpval b) mod mpval n) \/
    (r = Err InconsistentOperandLengths /\ a' = a /\ mp_len a < mp_len n)).
Proof. exact sub_mod_longer. Qed.
Print Assumptions C19_sub_mod_longer.

Ltac okadd := repeat (split; [first [split; [repeat constructor; vm_compute; congruence|vm_compute; reflexivity]|vm_compute; reflexivity]|]); vm_compute; discriminate.
(** A two-limb [op0] with a one-limb modulus: 0 - 1 mod 5 comes out as 2^W + 4, and
    (2^W - 2) + (2^W - 2) mod (2^W - 1) as -2 mod 2^(2W); all operands are reduced,
    no error is reported. *)
Theorem C19_longer_op0_refuted : forall (c : cfg),
  (exists a b n a', mp_ok a /\ mp_ok b /\ mp_ok n /\ mpval a < mpval n /\ mpval b < mpval n /\
     returns (ct_sub_mod_mp_mp a b n) (a', Ok tt) /\ mpval a' <> (mpval a - mpval b) mod mpval n) /\
  (exists a b n a', mp_ok a /\ mp_ok b /\ mp_ok n /\ mpval a < mpval n /\ mpval b < mpval n /\
     returns (ct_add_mod_mp_mp a b n) (a', Ok tt) /\ mpval a' <> (mpval a + mpval b) mod mpval n).
Proof.
  intros [l64 am u64 d]. split; [|destruct l64].
  - exists (NE [0; 0]), (NE [1]), (NE [5]), (NE [4; 1]). destruct l64, am, u64, d; okadd.
  - exists (NE [2 ^ 64 - 2; 0]), (NE [2 ^ 64 - 2]), (NE [2 ^ 64 - 1]), (NE [2 ^ 64 - 3; 2 ^ 64 - 1]). destruct am, u64, d; okadd.
  - exists (NE [2 ^ 32 - 2; 0]), (NE [2 ^ 32 - 2]), (NE [2 ^ 32 - 1]), (NE [2 ^ 32 - 3; 2 ^ 32 - 1]). destruct am, u64, d; okadd.
Qed.
Print Assumptions C19_longer_op0_refuted.

(** Concrete, non-trivial cases meeting the hypotheses above. *)
Example ex_add : let c := mkcfg false false true true in
  let a := BE [0xff; 0xff; 0xff; 0xff; 0xff; 0xfe] in let b := LE [3; 0; 0; 0; 0] in let n := NE [0xffffffff; 0xffff] in
  mp_ok a /\ mp_ok b /\ mp_ok n /\ nlimbs b <= nlimbs a /\ mpval b < 256 ^ mp_len a /\ mpval a < mpval n /\ mpval b < mpval n /\
  nlimbs a = nlimbs n /\
  snd (ct_add_mp_mp a b) = Some (BE [0; 0; 0; 0; 0; 1], 1) /\
  snd (ct_sub_mp_mp b (LE [4])) = Some (LE [255; 255; 255; 255; 255], 1) /\
  snd (ct_negate_mp b) = Some (LE [253; 255; 255; 255; 255]) /\
  snd (ct_add_mod_mp_mp a b n) = Some (BE [0; 0; 0; 0; 0; 2], Ok tt) /\
  snd (ct_sub_mod_mp_mp (NE [2; 0]) b n) = Some (NE [0xfffffffe; 0xffff], Ok tt).
Proof.
  intros c a b n.
  repeat (split; [first [split; [repeat constructor; vm_compute; congruence|vm_compute; reflexivity]|vm_compute; congruence|vm_compute; reflexivity]|]).
  vm_compute. reflexivity.
Qed.

(** Conditional and single limb variants, and an [op0] longer than the modulus. *)
Example ex_add2 : let c := mkcfg false false true true in
  let a := BE [0xff; 0xff; 0xff; 0xff; 0xff; 0xfe] in let b := LE [3; 0; 0; 0; 0] in let n := NE [0xffffffff; 0xffff] in
  mp_ok a /\ mp_ok b /\ mp_ok n /\ nlimbs b <= nlimbs a /\ mpval b < 256 ^ mp_len a /\ 0 <= 0xabcdef01 < B /\ 0xabcdef01 < 256 ^ mp_len a /\
  snd (ct_add_cond_mp_mp a b (choice true)) = Some (BE [0; 0; 0; 0; 0; 1], 1) /\
  snd (ct_add_cond_mp_mp a b (choice false)) = Some (a, 0) /\
  snd (ct_add_mp_l a 0xabcdef01) = Some (BE [0; 0; 0xab; 0xcd; 0xee; 0xff], 1) /\
  snd (ct_sub_cond_mp_mp (BE [0; 0; 0; 0; 0; 2]) b (choice true)) = Some (BE [0xff; 0xff; 0xff; 0xff; 0xff; 0xff], 1) /\
  snd (ct_sub_cond_mp_mp (BE [0; 0; 0; 0; 0; 2]) b (choice false)) = Some (BE [0; 0; 0; 0; 0; 2], 0) /\
  snd (ct_sub_mp_l (BE [0; 1; 0; 0; 0; 0]) 0xabcdef01) = Some (BE [0; 0; 0x54; 0x32; 0x10; 0xff], 0) /\
  snd (ct_negate_cond_mp b (choice false)) = Some b /\
  mpval b < mpval n /\ snd (ct_negate_mod_mp (BE [0; 0; 0; 0; 0; 3]) n) = Some (BE [0xff; 0xff; 0xff; 0xff; 0xff; 0xfc], Ok tt) /\
  snd (ct_negate_mod_mp b n) = Some (b, Err InconsistentOperandLengths).
Proof.
  intros c a b n.
  repeat (split; [first [split; [repeat constructor; vm_compute; congruence|vm_compute; reflexivity]|vm_compute; congruence|vm_compute; reflexivity
    |vm_compute; split; congruence]|]).
  vm_compute. reflexivity.
Qed.

(** Operands that do not fit [op0]: a carry of more than one bit, a refused subtraction,
    a dropped limb. *)
Example ex_add_any : let rel := mkcfg false false true false in let c := mkcfg false false true true in
  let a := BE [0x12; 0x34] in let b := NE [0xabcdef01] in let b2 := NE [0xffffffff; 5] in
  mp_ok a /\ mp_ok b /\ mp_ok b2 /\ mp_ok (NE [7]) /\ nlimbs b <= nlimbs a /\ 256 ^ mp_len a <= mpval b /\
  snd (ct_add_mp_mp a b) = Some (BE [0x01; 0x35], 0xabce) /\
  snd (ct_add_mp_mp a (NE [0xffffffff])) = Some (BE [0x12; 0x33], 1) /\
  B ^ nlimbs a < 2 * (mpval b - mpval a) /\ snd (ct_sub_mp_mp a b) = None /\
  snd (ct_sub_mp_mp a (NE [0x0bcdef01])) = Some (BE [0x23; 0x33], 1) /\
  snd (@ct_sub_mp_mp rel a b) = Some (BE [0x23; 0x33], 1) /\
  nlimbs (NE [7]) < nlimbs b2 /\ snd (ct_add_mp_mp (NE [7]) b2) = None /\
  snd (@ct_add_mp_mp rel (NE [7]) b2) = Some (NE [6], 1) /\ snd (@ct_sub_mp_mp rel (NE [7]) b2) = Some (NE [8], 1) /\
  snd (@ct_add_mp_mp rel a b2) = None /\
  snd (ct_add_mp_l a 0x10000) = None /\ snd (@ct_add_mp_l rel a 0x10000) = Some (a, 1) /\
  snd (@ct_sub_mp_l rel a 0x10000) = Some (a, 1) /\ snd (@ct_sub_mp_l rel (BE []) 1) = Some (BE [], 0).
Proof.
  intros rel c a b b2.
  repeat (split; [first [split; [repeat constructor; vm_compute; congruence|vm_compute; reflexivity]|vm_compute; congruence|vm_compute; reflexivity]|]).
  vm_compute. reflexivity.
Qed.

Example ex_add_longer : let c := mkcfg false false true false in
  let a := NE [0xfffffffe; 0] in let b := LE [0xfd; 0xff; 0xff; 0xff] in let n := NE [0xffffffff] in
  mp_ok a /\ mp_ok b /\ mp_ok n /\ mpval a < mpval n /\ mpval b < mpval n /\ nlimbs a <> nlimbs n /\ B ^ nlimbs n <= mpval a + mpval b /\
  snd (ct_add_mod_mp_mp a b n) = Some (NE [0xfffffffc; 0xffffffff], Ok tt) /\
  mp_ok (NE [3; 0]) /\ mpval (NE [3; 0]) < mpval b /\
  snd (ct_sub_mod_mp_mp (NE [3; 0]) b n) = Some (NE [5; 1], Ok tt) /\
  (** no carry, no borrow: as it should be *)
  mpval (NE [3; 0]) + mpval (NE [4]) < B ^ nlimbs n /\
  snd (ct_add_mod_mp_mp (NE [3; 0]) (NE [4]) (NE [5])) = Some (NE [2; 0], Ok tt).
Proof.
  intros c a b n.
  repeat (split; [first [split; [repeat constructor; vm_compute; congruence|vm_compute; reflexivity]|vm_compute; congruence|vm_compute; reflexivity]|]).
  vm_compute. reflexivity.
Qed.

Example ex_compare : let c := mkcfg true false true true in
  let a := BE [1; 0; 0; 0; 0; 0; 0; 0; 2] in let b := LE [1; 0; 0; 0; 0; 0; 0; 0; 1; 0; 0] in
  mp_ok a /\ mp_ok b /\ mpval a = 2 ^ 64 + 2 /\ mpval b = 2 ^ 64 + 1 /\
  snd (ct_eq_mp_mp a b) = Some (choice false) /\ snd (ct_neq_mp_mp a b) = Some (choice true) /\
  snd (ct_lt_mp_mp a b) = Some (choice false) /\ snd (ct_lt_mp_mp b a) = Some (choice true) /\
  snd (ct_leq_mp_mp b b) = Some (choice true) /\ snd (ct_geq_mp_mp a (NE [2; 1])) = Some (choice true) /\
  snd (ct_gt_mp_mp a (NE [2; 1])) = Some (choice false) /\
  snd (ct_is_one_mp (BE [0; 1])) = Some (choice true) /\ snd (ct_is_one_mp b) = Some (choice false) /\
  snd (ct_leq_mp_l b 7) = Some (choice false) /\ snd (ct_leq_mp_l (NE [7; 0]) 7) = Some (choice true).
Proof.
  intros c a b.
  repeat (split; [first [split; [repeat constructor; vm_compute; congruence|vm_compute; reflexivity]|vm_compute; congruence|vm_compute; reflexivity]|]).
  vm_compute. reflexivity.
Qed.
