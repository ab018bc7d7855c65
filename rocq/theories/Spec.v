(** Independent specification vocabulary: the integer denoted by a sequence of
    bytes or limbs.  Nothing here refers to the code. *)
From Coq Require Import ZArith List.
Import ListNotations.
Open Scope Z_scope.

(** Value of a little-endian digit string in base [b]. *)
Fixpoint digits_val (b : Z) (l : list Z) : Z :=
  match l with
  | [] => 0
  | d :: t => d + b * digits_val b t
  end.

(** Integer denoted by a little-endian byte string. *)
Definition le_val (l : list Z) : Z := digits_val 256 l.

(** Integer denoted by a big-endian byte string. *)
Definition be_val (l : list Z) : Z := digits_val 256 (rev l).

(** All elements of a list are in [0, b). *)
Definition digits_ok (b : Z) (l : list Z) : Prop := Forall (fun d => 0 <= d < b) l.

(** Integer length of a list. *)
Definition zlen {A} (l : list A) : Z := Z.of_nat (length l).

(** 0/1 truth values, as returned by the library's constant-time predicates. *)
Definition b2z (b : bool) : Z := if b then 1 else 0.

(** [n] is the number of significant bits of [v] (0 for zero). *)
Definition is_bit_width (v n : Z) : Prop := v = 0 /\ n = 0 \/ 0 < n /\ 2 ^ (n - 1) <= v < 2 ^ n.

(** [n] is the position of the lowest set bit of [v]. *)
Definition is_lowest_set_bit (v n : Z) : Prop :=
  0 <= n /\ Z.testbit v n = true /\ forall i, 0 <= i < n -> Z.testbit v i = false.

(** Two's complement reading of a [w]-bit word. *)
Definition two_compl (w v : Z) : Z := if v <? 2 ^ (w - 1) then v else v - 2 ^ w.
