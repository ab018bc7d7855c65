(** Specification vocabulary for comparing different builds, and different encodings of
    the operands. *)
From Coq Require Import ZArith List.
Require Import Verif.Spec Verif.Monad Verif.ModelLimb Verif.ModelBuf Verif.SpecBuf Verif.ModelDiv Verif.SpecDiv Verif.SpecMont.
Import ListNotations.
Open Scope Z_scope.

(** Two builds for the same target: they may differ in whether debug assertions and
    overflow checks are on, and in the limb arithmetic backend. *)
Definition same_target (c1 c2 : cfg) : Prop := limb64 c1 = limb64 c2 /\ usize64 c1 = usize64 c2.

(** Neither run panics, and both return the very same. *)
Definition same_result {A} (m1 m2 : M A) : Prop := exists r, returns m1 r /\ returns m2 r.

(** Both runs return, without a panic, results related by [P]. *)
Definition both {A} (m1 m2 : M A) (P : A -> A -> Prop) : Prop := exists r1 r2, returns m1 r1 /\ returns m2 r2 /\ P r1 r2.

(** [b1], in build [c1], and [b2], in build [c2], are well formed and denote the same
    integer; and, moreover, have the same length in bytes. Encodings, limb sizes and
    usize may differ. *)
Definition same_int (c1 : cfg) (b1 : mp) (c2 : cfg) (b2 : mp) : Prop :=
  @mp_ok c1 b1 /\ @mp_ok c2 b2 /\ @mpval c1 b1 = @mpval c2 b2.
Definition reencoded (c1 : cfg) (b1 : mp) (c2 : cfg) (b2 : mp) : Prop :=
  same_int c1 b1 c2 b2 /\ @mp_len c1 b1 = @mp_len c2 b2.

(** The same for optional buffers. *)
Definition reencoded_opt (c1 : cfg) (o1 : option mp) (c2 : cfg) (o2 : option mp) : Prop :=
  match o1, o2 with Some b1, Some b2 => reencoded c1 b1 c2 b2 | None, None => True | _, _ => False end.
