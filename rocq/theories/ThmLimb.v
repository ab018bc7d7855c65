(** Theorems about limb arithmetic: properties C10-C15.

    [c] ranges over every build configuration: limb width 32/64, portable or
    assembly backend, 32/64 bit usize, debug/release.  [B = 2^W] is the limb
    radix.  [returns m r] says: computation [m] does not panic and yields [r]. *)
From Coq Require Import ZArith List Bool Lia.
Require Import Verif.Spec Verif.Monad Verif.ModelLimb Verif.LimbProofs.
Open Scope Z_scope.

(** A LimbChoice representing the truth value [b]. *)
Definition choice {c : cfg} (b : bool) : Z := if b then B - 1 else 0.

(** ** C10 *)

Theorem C10_is_zero : forall (c : cfg) v, 0 <= v < B ->
  returns (ct_is_zero_l v) (b2z (v =? 0)) /\ returns (ct_is_nonzero_l v) (b2z (negb (v =? 0))).
Proof. exact is_zero_correct. Qed.
Print Assumptions C10_is_zero.

Theorem C10_comparisons : forall (c : cfg) v0 v1, 0 <= v0 < B -> 0 <= v1 < B ->
  returns (ct_eq_l_l v0 v1) (choice (v0 =? v1)) /\
  returns (ct_neq_l_l v0 v1) (choice (negb (v0 =? v1))) /\
  returns (ct_lt_l_l v0 v1) (choice (v0 <? v1)) /\
  returns (ct_leq_l_l v0 v1) (choice (v0 <=? v1)) /\
  returns (ct_gt_l_l v0 v1) (choice (v0 >? v1)) /\
  returns (ct_geq_l_l v0 v1) (choice (v0 >=? v1)) /\
  returns (ct_lt_or_eq_l_l v0 v1) (b2z (v0 <? v1), b2z (v0 =? v1)).
Proof. exact comparisons_correct. Qed.
Print Assumptions C10_comparisons.

Theorem C10_choice : forall (c : cfg) b b' v0 v1, 0 <= v0 < B -> 0 <= v1 < B ->
  returns (lc_new (b2z b)) (choice b) /\
  lc_unwrap (choice b) = b2z b /\
  lc_select (choice b) v0 v1 = (if b then v1 else v0) /\
  lc_not (choice b) = choice (negb b) /\
  lc_and (choice b) (choice b') = choice (b && b') /\
  lc_or (choice b) (choice b') = choice (b || b').
Proof. exact choice_correct. Qed.
Print Assumptions C10_choice.

Theorem C10_choice_usize : forall (c : cfg) b v0 v1, 0 <= v0 < 2 ^ UW -> 0 <= v1 < 2 ^ UW ->
  lc_select_usize (choice b) v0 v1 = if b then v1 else v0.
Proof. exact choice_usize_correct. Qed.
Print Assumptions C10_choice_usize.

Theorem C10_lsb_mask : forall (c : cfg) n, 0 <= n <= W -> returns (ct_lsb_mask_l n) (2 ^ n - 1).
Proof. exact lsb_mask_correct. Qed.
Print Assumptions C10_lsb_mask.

Theorem C10_negate : forall (c : cfg) v, 0 <= v < B -> ct_negate_l v = (- v) mod B.
Proof. exact negate_correct. Qed.
Print Assumptions C10_negate.

Theorem C10_arithmetic_rshift : forall (c : cfg) v s, 0 <= v < B -> 0 <= s <= W ->
  returns (ct_arithmetic_rshift_l v s) ((two_compl W v / 2 ^ s) mod B).
Proof. exact arith_rshift_correct. Qed.
Print Assumptions C10_arithmetic_rshift.

(** ** C11 *)

Theorem C11_add : forall (c : cfg) v0 v1 carry, 0 <= v0 < B -> 0 <= v1 < B -> 0 <= carry <= 1 ->
  (exists k r, returns (ct_add_l_l v0 v1) (k, r) /\ 0 <= r < B /\ 0 <= k <= 1 /\ v0 + v1 = k * B + r) /\
  (exists k r, returns (ct_add_l_l_c v0 v1 carry) (k, r) /\ 0 <= r < B /\ 0 <= k <= 1 /\
     v0 + v1 + carry = k * B + r).
Proof. exact add_l_correct. Qed.
Print Assumptions C11_add.

Theorem C11_sub : forall (c : cfg) v0 v1 borrow, 0 <= v0 < B -> 0 <= v1 < B -> 0 <= borrow <= 1 ->
  (exists k r, returns (ct_sub_l_l v0 v1) (k, r) /\ 0 <= r < B /\ 0 <= k <= 1 /\ v0 - v1 = r - k * B) /\
  (exists k r, returns (ct_sub_l_l_b v0 v1 borrow) (k, r) /\ 0 <= r < B /\ 0 <= k <= 1 /\
     v0 - v1 - borrow = r - k * B).
Proof. exact sub_l_correct. Qed.
Print Assumptions C11_sub.

Theorem C11_mul : forall (c : cfg) v0 v1, 0 <= v0 < B -> 0 <= v1 < B ->
  exists h l, returns (ct_mul_l_l v0 v1) (h, l) /\ 0 <= h < B /\ 0 <= l < B /\ v0 * v1 = h * B + l.
Proof. exact mul_l_correct. Qed.
Print Assumptions C11_mul.

Theorem C11_mul_add : forall (c : cfg) op0 v0 v1 carry,
  0 <= op0 < B -> 0 <= v0 < B -> 0 <= v1 < B -> 0 <= carry < B ->
  exists h l, returns (ct_mul_add_l_l_l_c op0 v0 v1 carry) (h, l) /\ 0 <= h < B /\ 0 <= l < B /\
    op0 + v0 * v1 + carry = h * B + l.
Proof. exact mul_add_correct. Qed.
Print Assumptions C11_mul_add.

Theorem C11_mul_sub : forall (c : cfg) op0 v0 v1 borrow,
  0 <= op0 < B -> 0 <= v0 < B -> 0 <= v1 < B -> 0 <= borrow < B ->
  exists h l, returns (ct_mul_sub_l_l_l_b op0 v0 v1 borrow) (h, l) /\ 0 <= h < B /\ 0 <= l < B /\
    op0 - v0 * v1 - borrow = l - h * B.
Proof. exact mul_sub_correct. Qed.
Print Assumptions C11_mul_sub.

(** The portable and the assembly code return the same values. *)
Theorem C11_backends_agree : forall usz dbg v0 v1 carry,
  let asm := mkcfg true true usz dbg in let gen := mkcfg true false usz dbg in
  0 <= v0 < 2 ^ 64 -> 0 <= v1 < 2 ^ 64 -> 0 <= carry <= 1 ->
  snd (@ct_add_l_l_c asm v0 v1 carry) = snd (@ct_add_l_l_c gen v0 v1 carry) /\
  snd (@ct_sub_l_l_b asm v0 v1 carry) = snd (@ct_sub_l_l_b gen v0 v1 carry) /\
  snd (@ct_mul_l_l asm v0 v1) = snd (@ct_mul_l_l gen v0 v1) /\
  snd (@ct_is_zero_l asm v0) = snd (@ct_is_zero_l gen v0) /\
  snd (@ct_is_nonzero_l asm v0) = snd (@ct_is_nonzero_l gen v0).
Proof. exact backends_agree. Qed.
Print Assumptions C11_backends_agree.

(** ** C12 *)

Theorem C12_ct_division : forall (c : cfg) v, 0 < v < B ->
  exists d, returns (ct_l_divisor_new v) (Ok d) /\ returns (ct_l_divisor_nonct_new v) (Ok d) /\
    forall uh ul, 0 <= ul < B -> 0 <= uh < v ->
      returns (ct_l_divisor_do_div d (uh, ul)) ((uh * B + ul) / v, (uh * B + ul) mod v).
Proof. exact ct_division_correct. Qed.
Print Assumptions C12_ct_division.

Theorem C12_nonct_division : forall (c : cfg) v, 0 < v < B ->
  exists d, returns (nonct_l_divisor_new v) (Ok d) /\
    forall uh ul, 0 <= ul < B -> 0 <= uh < v ->
      returns (nonct_l_divisor_do_div d (uh, ul)) ((uh * B + ul) / v, (uh * B + ul) mod v).
Proof. exact nonct_division_correct. Qed.
Print Assumptions C12_nonct_division.

Theorem C12_zero_divisor : forall (c : cfg),
  returns (ct_l_divisor_new 0) (Err LDivisorIsZero) /\
  returns (ct_l_divisor_nonct_new 0) (Err LDivisorIsZero) /\
  returns (nonct_l_divisor_new 0) (Err LDivisorIsZero).
Proof. exact zero_divisor_correct. Qed.
Print Assumptions C12_zero_divisor.

(** ** C13 *)

Theorem C13_inv_mod_l : forall (c : cfg) v, 0 <= v < B -> Z.odd v = true ->
  exists r, returns (ct_inv_mod_l v) r /\ 0 <= r < B /\ (v * r) mod B = 1 /\
    forall r', 0 <= r' < B -> (v * r') mod B = 1 -> r' = r.
Proof. exact inv_mod_l_correct. Qed.
Print Assumptions C13_inv_mod_l.

(** ** C14 *)

Theorem C14_last_set_bit : forall (c : cfg) v, 0 <= v < B ->
  exists n, returns (ct_find_last_set_bit_l v) n /\ is_bit_width v n.
Proof. exact last_set_bit_correct. Qed.
Print Assumptions C14_last_set_bit.

Theorem C14_last_set_byte : forall (c : cfg) v, 0 <= v < B ->
  exists n, returns (ct_find_last_set_byte_l v) n /\
    (v = 0 /\ n = 0 \/ 0 < n /\ 256 ^ (n - 1) <= v < 256 ^ n).
Proof. exact last_set_byte_correct. Qed.
Print Assumptions C14_last_set_byte.

Theorem C14_first_set_bit : forall (c : cfg) v, 0 <= v < B ->
  exists n, returns (ct_find_first_set_bit_l v) n /\
    (v = 0 /\ n = W \/ v <> 0 /\ is_lowest_set_bit v n).
Proof. exact first_set_bit_correct. Qed.
Print Assumptions C14_first_set_bit.

(** ** C15 *)

Theorem C15_usize_comparisons : forall (c : cfg) v0 v1, 0 <= v0 < 2 ^ UW -> 0 <= v1 < 2 ^ UW ->
  returns (ct_eq_usize_usize v0 v1) (choice (v0 =? v1)) /\
  returns (ct_lt_usize_usize v0 v1) (choice (v0 <? v1)) /\
  returns (ct_leq_usize_usize v0 v1) (choice (v0 <=? v1)) /\
  returns (ct_gt_usize_usize v0 v1) (choice (v0 >? v1)) /\
  returns (ct_geq_usize_usize v0 v1) (choice (v0 >=? v1)).
Proof. exact usize_comparisons_correct. Qed.
Print Assumptions C15_usize_comparisons.

(** Concrete instances meeting the hypotheses. *)
Example ex_limb : let c := mkcfg true false true true in
  0 <= 12345678901234567 < @B c /\ 0 < 2 ^ 63 + 1 < @B c /\ Z.odd 12345678901234567 = true /\
  snd (@ct_arithmetic_rshift_l c (2 ^ 63 + 5) 60) = Some (2 ^ 64 - 8) /\
  (exists d, snd (@ct_l_divisor_new c 1000) = Some (Ok d) /\
     snd (@ct_l_divisor_do_div c d (999, 77)) = Some ((999 * 2 ^ 64 + 77) / 1000, (999 * 2 ^ 64 + 77) mod 1000)).
Proof.
  intros c.
  split; [vm_compute; split; congruence|]. split; [vm_compute; split; congruence|].
  split; [vm_compute; reflexivity|]. split; [vm_compute; reflexivity|].
  exists (mk_ldiv 442721857769029238 1000 10). split; vm_compute; reflexivity.
Qed.

Example ex_limb2 : forall am usz dbg, let c := mkcfg true am usz dbg in let m := 2 ^ 64 - 1 in
  (** C10 *)
  snd (ct_is_zero_l m) = Some 0 /\ snd (ct_is_nonzero_l (2 ^ 63)) = Some 1 /\
  snd (ct_lt_l_l m (2 ^ 63)) = Some (choice false) /\ snd (ct_leq_l_l (2 ^ 63) m) = Some (choice true) /\
  lc_select (choice true) 3 m = m /\ snd (ct_lsb_mask_l 64) = Some m /\ snd (ct_lsb_mask_l 5) = Some 31 /\ ct_negate_l 5 = m - 4 /\
  (** C11 *)
  snd (ct_add_l_l_c m m 1) = Some (1, m) /\ snd (ct_sub_l_l_b 0 m 1) = Some (1, 0) /\ snd (ct_mul_l_l m m) = Some (m - 1, 1) /\
  snd (ct_mul_add_l_l_l_c m m m m) = Some (m, m) /\ snd (ct_mul_sub_l_l_l_b 0 m m m) = Some (m, 0) /\
  (** C12 *)
  (exists d, snd (nonct_l_divisor_new 1000) = Some (Ok d) /\
     snd (nonct_l_divisor_do_div d (999, 77)) = Some ((999 * 2 ^ 64 + 77) / 1000, (999 * 2 ^ 64 + 77) mod 1000)) /\
  (** C13 *)
  snd (ct_inv_mod_l 3) = Some 0xaaaaaaaaaaaaaaab /\
  (** C14 *)
  snd (ct_find_last_set_bit_l 0x8000) = Some 16 /\ snd (ct_find_last_set_byte_l 0x8000) = Some 2 /\
  snd (ct_find_first_set_bit_l 0x8000) = Some 15 /\ snd (ct_find_first_set_bit_l 0) = Some 64 /\
  (** C15 *)
  snd (ct_lt_usize_usize (2 ^ 32 - 2) (2 ^ 32 - 1)) = Some (choice true) /\ snd (ct_geq_usize_usize 0 (2 ^ 32 - 1)) = Some (choice false).
Proof.
  intros am usz dbg c m.
  assert (D : exists d, snd (nonct_l_divisor_new 1000) = Some (Ok d) /\
     snd (nonct_l_divisor_do_div d (999, 77)) = Some ((999 * 2 ^ 64 + 77) / 1000, (999 * 2 ^ 64 + 77) mod 1000)).
  { destruct am, usz, dbg; (eexists; split; [vm_compute; reflexivity|vm_compute; reflexivity]). }
  destruct am, usz, dbg; repeat (split; [first [exact D|vm_compute; reflexivity]|]); vm_compute; reflexivity.
Qed.
