(** Theorems about the inline assembly of src/limb/x86_64_math.rs: property C57.

    ModelAsm.v has the instructions as functions on machine states, and the
    assembly blocks as lists of instructions over the registers given to their
    operands.  [may_allocate fixed chosen]: a choice of registers the operand
    constraints allow.  [preserves_but outs s s']: from [s] to [s'], only the
    registers [outs] may have changed.  [run u block s]: the state after the block,
    started with arbitrary contents in all registers and flags, or [None] if the
    processor raises its divide error; [u] is what undefined flags happen to be. *)
From Coq Require Import ZArith List Bool Lia.
Require Import Verif.Spec Verif.Monad Verif.ModelLimb Verif.ModelAsm Verif.AsmProofs.
Import ListNotations.
Open Scope Z_scope.

(** ** C57: the assembly blocks compute the limb primitives, whatever their registers *)

Theorem C57_is_zero : forall u s result v, machine_ok s -> may_allocate [] [result; v] ->
  (exists s', run u (asm_is_nonzero result v) s = Some s' /\ reg_val s' result = b2z (negb (reg_val s v =? 0)) /\ preserves_but [result] s s') /\
  (exists s', run u (asm_is_zero result v) s = Some s' /\ reg_val s' result = b2z (reg_val s v =? 0) /\ preserves_but [result] s s').
Proof. exact asm_is_zero_ok. Qed.
Print Assumptions C57_is_zero.

Theorem C57_add : forall u s carry v0 v1, machine_ok s -> may_allocate [] [carry; v0; v1] ->
  exists s', run u (asm_add carry v0 v1) s = Some s' /\ reg_val s' carry * 2 ^ 64 + reg_val s' v0 = reg_val s v0 + reg_val s v1 /\
    0 <= reg_val s' v0 < 2 ^ 64 /\ preserves_but [carry; v0] s s'.
Proof. exact asm_add_ok. Qed.
Print Assumptions C57_add.

Theorem C57_sub : forall u s borrow v0 v1, machine_ok s -> may_allocate [] [borrow; v0; v1] ->
  exists s', run u (asm_sub borrow v0 v1) s = Some s' /\ reg_val s' v0 - reg_val s' borrow * 2 ^ 64 = reg_val s v0 - reg_val s v1 /\
    0 <= reg_val s' v0 < 2 ^ 64 /\ preserves_but [borrow; v0] s s'.
Proof. exact asm_sub_ok. Qed.
Print Assumptions C57_sub.

Theorem C57_mul : forall u s v1, machine_ok s -> may_allocate [RAX; RDX] [v1] ->
  exists s', run u (asm_mul v1) s = Some s' /\ reg_val s' RDX * 2 ^ 64 + reg_val s' RAX = reg_val s RAX * reg_val s v1 /\
    0 <= reg_val s' RAX < 2 ^ 64 /\ 0 <= reg_val s' RDX < 2 ^ 64 /\ preserves_but [RAX; RDX] s s'.
Proof. exact asm_mul_ok. Qed.
Print Assumptions C57_mul.

(** The division raises the divide error exactly if the quotient does not fit a limb. *)
Theorem C57_div : forall u s v, machine_ok s -> may_allocate [RAX; RDX] [v] ->
  let x := reg_val s RDX * 2 ^ 64 + reg_val s RAX in
  (reg_val s RDX < reg_val s v -> exists s', run u (asm_div v) s = Some s' /\
     x = reg_val s' RAX * reg_val s v + reg_val s' RDX /\ 0 <= reg_val s' RDX < reg_val s v /\
     0 <= reg_val s' RAX < 2 ^ 64 /\ preserves_but [RAX; RDX] s s') /\
  (reg_val s v <= reg_val s RDX -> run u (asm_div v) s = None).
Proof. exact asm_div_ok. Qed.
Print Assumptions C57_div.

(** The limb primitives as modelled, which all other theorems are about, are what these blocks compute. *)
Theorem C57_primitives : forall (c : cfg) u s a b d, limb64 c = true -> asm_math c = true -> machine_ok s ->
  may_allocate [] [a; b; d] -> may_allocate [RAX; RDX] [d] ->
  (exists s', run u (asm_is_nonzero a b) s = Some s' /\ ct_is_nonzero_l (reg_val s b) = ret (reg_val s' a)) /\
  (exists s', run u (asm_is_zero a b) s = Some s' /\ ct_is_zero_l (reg_val s b) = ret (reg_val s' a)) /\
  (exists s', run u (asm_add a b d) s = Some s' /\ ct_add_l_l (reg_val s b) (reg_val s d) = ret (reg_val s' a, reg_val s' b)) /\
  (exists s', run u (asm_sub a b d) s = Some s' /\ ct_sub_l_l (reg_val s b) (reg_val s d) = ret (reg_val s' a, reg_val s' b)) /\
  (exists s', run u (asm_mul d) s = Some s' /\ ct_mul_l_l (reg_val s RAX) (reg_val s d) = ret (reg_val s' RDX, reg_val s' RAX)) /\
  (forall n, snd (nonct_l_divisor_new (reg_val s d)) = Some (Ok n) ->
     snd (nonct_l_divisor_do_div n (reg_val s RDX, reg_val s RAX)) =
     option_map (fun s' => (reg_val s' RAX, reg_val s' RDX)) (run u (asm_div d) s)).
Proof. exact asm_model_ok. Qed.
Print Assumptions C57_primitives.

(** Concrete cases: all registers filled with ones but for the operands, flags set. *)
Definition ex_state (f : reg -> Z) : machine := mk_machine f true true.
Example ex_asm : let m := 2 ^ 64 - 1 in
  let s := ex_state (fun r => match r with RSI => 5 | RCX => m - 2 | RDX => 4 | _ => m end) in
  machine_ok s /\ may_allocate [] [R8; RCX; RSI] /\ may_allocate [RAX; RDX] [RSI] /\
  option_map (fun s' => (reg_val s' R8, reg_val s' RCX, reg_val s' RSI)) (run false (asm_add R8 RCX RSI) s) = Some (1, 2, 5) /\
  option_map (fun s' => (reg_val s' R8, reg_val s' RSI)) (run false (asm_sub R8 RSI RCX) s) = Some (1, 8) /\
  option_map (fun s' => reg_val s' R8) (run false (asm_is_nonzero R8 RSI) s) = Some 1 /\
  option_map (fun s' => (reg_val s' RDX, reg_val s' RAX)) (run false (asm_mul RSI) s) = Some (4, m - 4) /\
  option_map (fun s' => (reg_val s' RAX, reg_val s' RDX)) (run true (asm_div RSI) s) = Some (m, 4) /\
  option_map (fun s' => reg_val s' RAX) (run true (asm_div RCX) (set_reg s RDX m)) = None.
Proof.
  intros m s. split. { intros []; vm_compute; split; congruence. }
  split. { split; [repeat constructor; cbn; intuition discriminate|cbn; intuition discriminate]. }
  split. { split; [repeat constructor; cbn; intuition discriminate|cbn; intuition discriminate]. }
  repeat split; vm_compute; reflexivity.
Qed.

(** The constraints matter: were the carry's register shared with an input, as late outputs may be, the sum would be wrong. *)
Example ex_asm_shared : let s := ex_state (fun r => match r with RSI => 5 | RCX => 7 | _ => 0 end) in
  ~ may_allocate [] [RSI; RCX; RSI] /\
  option_map (fun s' => reg_val s' RCX) (run false (asm_add RSI RCX RSI) s) = Some 7.
Proof.
  cbv zeta. split; [|vm_compute; reflexivity].
  intros [H _]. cbn in H. inversion H; subst. apply H2. cbn. tauto.
Qed.
