(** Execution model: configuration, panics, event traces, machine arithmetic.

    A computation [M A] is a trace of observable events together with either a
    value or a panic ([None]). *)
From Coq Require Import ZArith List Bool Lia.
Require Import Verif.Spec.
Import ListNotations.
Open Scope Z_scope.

(** Build configuration.  Cargo features and target selection of
    src/limb/mod.rs:34-39 (limb width), :51 (assembly backend), the target's
    pointer width, and whether debug assertions and overflow checks are on. *)
Record cfg := mkcfg {
  limb64 : bool;     (* target_arch = x86_64: u64 limbs, otherwise u32 *)
  asm_math : bool;   (* feature enable_arch_math_asm (needs x86_64) *)
  usize64 : bool;    (* pointer width *)
  debug : bool       (* debug_assertions / overflow-checks *)
}.
Existing Class cfg.

(** LIMB_BYTES, LIMB_BITS: src/limb/mod.rs:42-44. *)
Definition LB {c : cfg} : Z := if limb64 c then 8 else 4.
Definition W {c : cfg} : Z := 8 * LB.
(** The limb radix 2^LIMB_BITS. *)
Definition B {c : cfg} : Z := 2 ^ W.
(** HALF_LIMB_BITS: src/limb/mod.rs:47. *)
Definition HW {c : cfg} : Z := W / 2.
(** Number of bits of usize. *)
Definition UW {c : cfg} : Z := if usize64 c then 64 else 32.
(** Is the x86_64 assembly backend in use?  src/limb/mod.rs:51 *)
Definition use_asm {c : cfg} : bool := limb64 c && asm_math c.

(** Observable events: branch decisions (including loop continuation), limb
    loads and stores with their index, operands of hardware divisions, and calls
    into routines documented as not constant time. *)
Inductive event :=
| EBr (b : bool)
| ELoad (i : Z)
| EStore (i : Z)
| EClear (i : Z)
| EDiv (a b : Z).

Definition M (A : Type) : Type := list event * option A.

Definition ret {A} (a : A) : M A := ([], Some a).
Definition panic {A} : M A := ([], None).
Definition tick (e : event) : M unit := ([e], Some tt).
Definition bind {A C} (m : M A) (f : A -> M C) : M C :=
  match m with
  | (t, None) => (t, None)
  | (t, Some a) => let r := f a in (t ++ fst r, snd r)
  end.

Notation "'let!' x := m 'in' k" := (bind m (fun x => k))
  (at level 200, x name, m at level 100, k at level 200, right associativity,
   format "'let!'  x  :=  m  'in' '//' k").
Notation "'let!' ' p := m 'in' k" := (bind m (fun x => match x with p => k end))
  (at level 200, p pattern, m at level 100, k at level 200, right associativity,
   format "'let!'  ' p  :=  m  'in' '//' k").
Notation "m1 ;; k" := (bind m1 (fun _ => k))
  (at level 199, k at level 200, right associativity, format "m1 ;; '//' k").
(** A Rust [if]: the decision is observable. *)
Notation "'mif' b 'then' m1 'else' m2" :=
  (bind (tick (EBr b)) (fun _ => if b then m1 else m2))
  (at level 200, b at level 100, m1 at level 200, m2 at level 200).

(** [returns m a]: the computation ends without panic, with value [a]. *)
Definition returns {A} (m : M A) (a : A) : Prop := snd m = Some a.
(** [panics m]: the computation panics. *)
Definition panics {A} (m : M A) : Prop := snd m = None.
(** The trace of observable events. *)
Definition trace {A} (m : M A) : list event := fst m.

(** Rust's Result. *)
Inductive result (A E : Type) := Ok (a : A) | Err (e : E).
Arguments Ok {A E} _.
Arguments Err {A E} _.

(** debug_assert!: checked only in debug builds. *)
Definition dassert {c : cfg} (b : bool) : M unit :=
  if debug c then (if b then ret tt else panic) else ret tt.
(** debug_assert! whose condition is itself a computation; not evaluated in
    release builds. *)
Definition dassert_m {c : cfg} (m : M bool) : M unit :=
  if debug c then bind m (fun b => if b then ret tt else panic) else ret tt.
(** assert!: checked in all builds. *)
Definition assert (b : bool) : M unit := if b then ret tt else panic.

(** Overflow: panic in debug builds, wrap around modulo 2^bits in release. *)
Definition ovf {c : cfg} (bits : Z) (v : Z) : M Z :=
  if (0 <=? v) && (v <? 2 ^ bits) then ret v
  else if debug c then panic else ret (v mod 2 ^ bits).

(** Rust's [+ - *] on LimbType. *)
Definition ladd {c : cfg} (a b : Z) : M Z := ovf W (a + b).
Definition lsub {c : cfg} (a b : Z) : M Z := ovf W (a - b).
Definition lmul {c : cfg} (a b : Z) : M Z := ovf W (a * b).
(** Lengths and indices (usize) are unbounded in the model; only the lower
    boundary of a subtraction is checked. *)
Definition usub {c : cfg} (a b : Z) : M Z :=
  if b <=? a then ret (a - b)
  else if debug c then panic else ret ((a - b) mod 2 ^ UW).
Definition sub32 {c : cfg} (a b : Z) : M Z :=
  if b <=? a then ret (a - b)
  else if debug c then panic else ret ((a - b) mod 2 ^ 32).
(** Shifts: a distance of at least the width panics in debug builds and is
    reduced modulo the width in release. *)
Definition shamt {c : cfg} (bits s : Z) : M Z :=
  if s <? bits then ret s else if debug c then panic else ret (s mod bits).
Definition lshl {c : cfg} (a s : Z) : M Z :=
  let! s := shamt W s in ret (Z.shiftl a s mod B).
Definition lshr {c : cfg} (a s : Z) : M Z :=
  let! s := shamt W s in ret (Z.shiftr a s).
(** wrapping_add, wrapping_sub, wrapping_mul, wrapping_neg, [!] on LimbType. *)
Definition lwadd {c : cfg} (a b : Z) : Z := (a + b) mod B.
Definition lwsub {c : cfg} (a b : Z) : Z := (a - b) mod B.
Definition lwmul {c : cfg} (a b : Z) : Z := (a * b) mod B.
Definition lwneg {c : cfg} (a : Z) : Z := (- a) mod B.
Definition lnot {c : cfg} (a : Z) : Z := Z.lxor a (Z.ones W).
(** Hardware division [/] on LimbType: panics on zero, not constant time. *)
Definition ldivhw (a b : Z) : M Z :=
  tick (EDiv a b) ;; if b =? 0 then panic else ret (a / b).

(** Slices.  [slice l a b] is [&l[a..b]]; [splice l a s] writes [s] at offset
    [a]; [znth l i] is [l[i]]; [zupd l i v] is [l[i] = v]. *)
Definition slice {A} (l : list A) (a b : Z) : M (list A) :=
  if (0 <=? a) && (a <=? b) && (b <=? zlen l)
  then ret (firstn (Z.to_nat (b - a)) (skipn (Z.to_nat a) l))
  else panic.
Definition splice {A} (l : list A) (a : Z) (s : list A) : list A :=
  firstn (Z.to_nat a) l ++ s ++ skipn (Z.to_nat a + length s) l.
Definition znth (l : list Z) (i : Z) : M Z :=
  if (0 <=? i) && (i <? zlen l) then ret (nth (Z.to_nat i) l 0) else panic.
Definition zupd (l : list Z) (i v : Z) : M (list Z) :=
  if (0 <=? i) && (i <? zlen l) then ret (splice l i [v]) else panic.
Definition zrepeat {A} (x : A) (n : Z) : list A := repeat x (Z.to_nat n).

(** [for i in lo..hi], threading the loop-carried state. *)
Fixpoint for_aux {S} (n : nat) (i : Z) (body : Z -> S -> M S) (s : S) : M S :=
  match n with
  | O => tick (EBr false) ;; ret s
  | Datatypes.S n => tick (EBr true) ;;
                     let! s' := body i s in for_aux n (i + 1) body s'
  end.
Definition zfor {S} (lo hi : Z) (body : Z -> S -> M S) (s : S) : M S :=
  for_aux (Z.to_nat (hi - lo)) lo body s.
(** [let mut i = hi; while i > lo { i -= 1; body }]. *)
Fixpoint for_down_aux {S} (n : nat) (lo : Z) (body : Z -> S -> M S) (s : S) : M S :=
  match n with
  | O => tick (EBr false) ;; ret s
  | Datatypes.S n => tick (EBr true) ;;
                     let! s' := body (lo + Z.of_nat n) s in for_down_aux n lo body s'
  end.
Definition zfor_down {S} (lo hi : Z) (body : Z -> S -> M S) (s : S) : M S :=
  for_down_aux (Z.to_nat (hi - lo)) lo body s.
