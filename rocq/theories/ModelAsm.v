(** The instructions used by the inline assembly of src/limb/x86_64_math.rs and
    the assembly blocks themselves, as programs over x86_64 registers.

    The instructions' semantics follow the processor manual.  A block's operands
    are registers chosen by the compiler: [may_allocate] says which choices the
    operand constraints [in], [out] and [inout] of the blocks allow. *)
From Coq Require Import ZArith List Bool.
Import ListNotations.
Open Scope Z_scope.

(** The general purpose registers the blocks of x86_64_math.rs:34-36, 54-56, 75-81, 98-104, 120-123 and 166-170 may be given by the compiler. *)
Inductive reg := RAX | RBX | RCX | RDX | RSI | RDI | RBP | RSP | R8 | R9 | R10 | R11 | R12 | R13 | R14 | R15.
(** Equality of these registers can be decided. Not code, used for updates of the register file (x86_64_math.rs:34-170). *)
Definition reg_eq_dec : forall a b : reg, {a = b} + {a <> b}.
Proof. decide equality. Defined.

(** The registers' contents, and the carry and zero flags.  The other flags are
    not read by any of the blocks (x86_64_math.rs:34-170) and left out. *)
Record machine := mk_machine { reg_val : reg -> Z; cf : bool; zf : bool }.

(** Registers hold 64 bits, the operands of x86_64_math.rs:34-170 being u64. *)
Definition machine_ok (s : machine) : Prop := forall r, 0 <= reg_val s r < 2 ^ 64.

(** Writing an output register of a block, x86_64_math.rs:34-170. *)
Definition set_reg (s : machine) (r : reg) (v : Z) : machine :=
  mk_machine (fun r' => if reg_eq_dec r r' then v else reg_val s r') (cf s) (zf s).
(** Setting the flags read by [setc], [setz] and [setnz], x86_64_math.rs:36, 56, 77, 100. *)
Definition set_flags (s : machine) (c z : bool) : machine := mk_machine (reg_val s) c z.

(** The instructions of x86_64_math.rs:34-36, 54-56, 75-77, 98-100, 120 and 167. *)
Inductive instr :=
| XOR (dst src : reg)
| TEST (a b : reg)
| ADD (dst src : reg)
| SUB (dst src : reg)
| SETNZ (dst : reg)
| SETZ (dst : reg)
| SETC (dst : reg)
| MUL (src : reg)
| DIV (src : reg).

(** [setcc] writes the low byte of its register only, x86_64_math.rs:36, 56, 77, 100. *)
Definition set_low_byte (s : machine) (r : reg) (b : bool) : machine :=
  set_reg s r (reg_val s r - reg_val s r mod 256 + (if b then 1 else 0)).

(** One instruction of the blocks at x86_64_math.rs:34-170.  [u] is what flags left undefined by [mul] and [div] happen
    to be.  [None] is the processor's divide error exception. *)
Definition step (u : bool) (i : instr) (s : machine) : option machine :=
  match i with
  | XOR d r => let v := Z.lxor (reg_val s d) (reg_val s r) in Some (set_flags (set_reg s d v) false (v =? 0))
  | TEST a b => Some (set_flags s false (Z.land (reg_val s a) (reg_val s b) =? 0))
  | ADD d r =>
      let v := (reg_val s d + reg_val s r) mod 2 ^ 64 in
      Some (set_flags (set_reg s d v) (2 ^ 64 <=? reg_val s d + reg_val s r) (v =? 0))
  | SUB d r =>
      let v := (reg_val s d - reg_val s r) mod 2 ^ 64 in
      Some (set_flags (set_reg s d v) (reg_val s d <? reg_val s r) (v =? 0))
  | SETNZ d => Some (set_low_byte s d (negb (zf s)))
  | SETZ d => Some (set_low_byte s d (zf s))
  | SETC d => Some (set_low_byte s d (cf s))
  | MUL r =>
      let p := reg_val s RAX * reg_val s r in
      Some (set_flags (set_reg (set_reg s RAX (p mod 2 ^ 64)) RDX (p / 2 ^ 64)) (negb (p / 2 ^ 64 =? 0)) u)
  | DIV r =>
      let x := reg_val s RDX * 2 ^ 64 + reg_val s RAX in
      let v := reg_val s r in
      if (v =? 0) || (2 ^ 64 <=? x / v) then None
      else Some (set_flags (set_reg (set_reg s RAX (x / v)) RDX (x mod v)) u u)
  end.

(** All the instructions of a block, x86_64_math.rs:34-170. *)
Fixpoint run (u : bool) (p : list instr) (s : machine) : option machine :=
  match p with
  | [] => Some s
  | i :: p => match step u i s with Some s' => run u p s' | None => None end
  end.

(** x86_64_math::ct_is_nonzero_l, x86_64_math.rs:34-36 *)
Definition asm_is_nonzero (result v : reg) : list instr := [XOR result result; TEST v v; SETNZ result].
(** x86_64_math::ct_is_zero_l, x86_64_math.rs:54-56 *)
Definition asm_is_zero (result v : reg) : list instr := [XOR result result; TEST v v; SETZ result].
(** x86_64_math::ct_add_l_l, x86_64_math.rs:75-81; [v0] is the register of the inout operand v0 => result *)
Definition asm_add (carry v0 v1 : reg) : list instr := [XOR carry carry; ADD v0 v1; SETC carry].
(** x86_64_math::ct_sub_l_l, x86_64_math.rs:98-104 *)
Definition asm_sub (borrow v0 v1 : reg) : list instr := [XOR borrow borrow; SUB v0 v1; SETC borrow].
(** x86_64_math::ct_mul_l_l, x86_64_math.rs:120-123; v0 => l in ax, h in dx *)
Definition asm_mul (v1 : reg) : list instr := [MUL v1].
(** x86_64_math::NonCtLDivisor::do_div, x86_64_math.rs:166-170; u.low() => q in ax, u.high() => r in dx *)
Definition asm_div (v : reg) : list instr := [DIV v].

(** The registers of a block: [fixed] are those named by the block (x86_64_math.rs:121-122, 168-169),
    [chosen] those the compiler picked for its [reg] operands.  No block has [lateout] operands, so that
    no two operands share a register; the stack pointer is not in the class [reg]. *)
Definition may_allocate (fixed chosen : list reg) : Prop := NoDup (fixed ++ chosen) /\ ~ In RSP chosen.

(** What the compiler assumes of a block: all registers but its outputs keep their contents. *)
Definition preserves_but (outs : list reg) (s s' : machine) : Prop := forall r, ~ In r outs -> reg_val s' r = reg_val s r.
