(** Specification of hexadecimal strings.  A string is the list of its bytes;
    nothing here refers to the code. *)
From Coq Require Import ZArith List.
Require Import Verif.Spec.
Import ListNotations.
Open Scope Z_scope.

(** The ASCII character [ch] is the lowercase hexadecimal digit of value [d]:
    '0'..'9' are 48..57, 'a'..'f' are 97..102. *)
Definition hexdig_lower (ch d : Z) : Prop :=
  0 <= d < 10 /\ ch = 48 + d \/ 10 <= d < 16 /\ ch = 97 + (d - 10).

(** The same, with 'A'..'F' (65..70) accepted, too. *)
Definition hexdig (ch d : Z) : Prop :=
  hexdig_lower ch d \/ 10 <= d < 16 /\ ch = 65 + (d - 10).

(** The integer denoted by the digits [ds], most significant first. *)
Definition hex_val (ds : list Z) : Z := digits_val 16 (rev ds).

(** [s] consists of hexadecimal digits only and [ds] are their values. *)
Definition hex_digits (s ds : list Z) : Prop := Forall2 hexdig s ds.
Definition hex_digits_lower (s ds : list Z) : Prop := Forall2 hexdig_lower s ds.

(** The characters '_', and the strings "0x" and "(empty)". *)
Definition underscore : Z := 95.
Definition str_0x : list Z := [48; 120].
Definition str_empty : list Z := [40; 101; 109; 112; 116; 121; 41].
(** A string without its underscores. *)
Definition strip_underscores (h : list Z) : list Z := filter (fun ch => negb (ch =? underscore)) h.
