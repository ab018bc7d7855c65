(** Theorems about greatest common divisors: property C33.

    [Z.gcd] is the standard library's greatest common divisor. [mut_compat a b] (SpecEuclid.v) says that each operand fits
    the other's length, [gcd_len_ok] that the number of division steps can be counted in usize. *)
From Coq Require Import ZArith List Bool Lia.
Require Import Verif.Spec Verif.Monad Verif.ModelLimb Verif.ModelBuf Verif.SpecBuf Verif.SpecMont Verif.SpecEuclid Verif.ModelEuclid Verif.GcdProofs.
Import ListNotations.
Open Scope Z_scope.

Ltac okmp := split; [repeat constructor; vm_compute; congruence|vm_compute; reflexivity].

(** ** C33: greatest common divisor *)

(** The first operand odd: it receives the greatest common divisor, the second one becomes zero. *)
Theorem C33_gcd_odd : forall (c : cfg) f g, mp_ok f -> mp_ok g -> Z.odd (mpval f) = true -> mut_compat f g ->
  gcd_len_ok (Z.max (mp_len f) (mp_len g)) ->
  yields (ct_gcd_odd_mp_mp f g) (fun '(res, f', g') => res = Ok tt /\ becomes f f' (Z.gcd (mpval f) (mpval g)) /\ becomes g g' 0).
Proof. exact @gcd_odd_correct. Qed.
Print Assumptions C33_gcd_odd.

(** An even first operand or mismatching lengths are refused, both operands remaining untouched. *)
Theorem C33_gcd_odd_errors : forall (c : cfg) f g, mp_ok f -> mp_ok g ->
  (Z.odd (mpval f) = false -> returns (ct_gcd_odd_mp_mp f g) (Err GcdInvalidInputOperandValue, f, g)) /\
  (Z.odd (mpval f) = true -> ~ mut_compat f g -> returns (ct_gcd_odd_mp_mp f g) (Err GcdInconsistentOperandLengths, f, g)).
Proof. exact @gcd_odd_errors. Qed.
Print Assumptions C33_gcd_odd_errors.

(** Any operands not both zero. *)
Theorem C33_gcd : forall (c : cfg) a b, mp_ok a -> mp_ok b -> 0 < mp_len a -> mut_compat a b ->
  gcd_len_ok (Z.max (mp_len a) (mp_len b)) -> mpval a <> 0 \/ mpval b <> 0 ->
  yields (ct_gcd_mp_mp a b) (fun '(res, a', b') => res = Ok tt /\ becomes a a' (Z.gcd (mpval a) (mpval b)) /\ becomes b b' 0).
Proof. exact @gcd_correct. Qed.
Print Assumptions C33_gcd.

(** For two zero operands the function gives 1, as its source says, where mathematics has 0. *)
Theorem C33_gcd_both_zero : forall (c : cfg) a b, mp_ok a -> mp_ok b -> 0 < mp_len a -> mut_compat a b ->
  gcd_len_ok (Z.max (mp_len a) (mp_len b)) -> mpval a = 0 -> mpval b = 0 ->
  yields (ct_gcd_mp_mp a b) (fun '(res, a', b') => res = Ok tt /\ becomes a a' 1 /\ becomes b b' 0).
Proof. exact @gcd_both_zero. Qed.
Print Assumptions C33_gcd_both_zero.

(** Empty or mismatching operands are refused, remaining untouched. *)
Theorem C33_gcd_errors : forall (c : cfg) a b, mp_ok a -> mp_ok b ->
  (mp_len a = 0 -> returns (ct_gcd_mp_mp a b) (Err GcdInsufficientResultSpace, a, b)) /\
  (0 < mp_len a -> ~ mut_compat a b -> returns (ct_gcd_mp_mp a b) (Err GcdInconsistentOperandLengths, a, b)).
Proof. exact @gcd_mp_errors. Qed.
Print Assumptions C33_gcd_errors.

(** Concrete cases meeting the hypotheses, the operands being of different encodings and of more than a limb. *)
Example ex_gcd_odd : let c := mkcfg false false true true in
  let f := BE [1; 0; 0; 0; 0; 3; 9] in let g := LE [12; 0; 0; 0; 0; 0; 4] in
  mp_ok f /\ mp_ok g /\ Z.odd (mpval f) = true /\ mut_compat f g /\ gcd_len_ok (Z.max (mp_len f) (mp_len g)) /\
  snd (ct_gcd_odd_mp_mp f g) = Some (Ok tt, BE [0; 0; 0; 0; 0; 0; 1], LE [0; 0; 0; 0; 0; 0; 0]) /\ Z.gcd (mpval f) (mpval g) = 1.
Proof.
  cbv zeta. split; [okmp|]. split; [okmp|]. split; [vm_compute; reflexivity|]. split; [split; left; vm_compute; congruence|].
  split; [vm_compute; reflexivity|]. split; vm_compute; reflexivity.
Qed.

Example ex_gcd : let c := mkcfg true false true true in
  let a := NE [12 * 0x100000001; 0] in let b := NE [18 * 0x100000001; 0] in
  mp_ok a /\ mp_ok b /\ 0 < mp_len a /\ mut_compat a b /\ gcd_len_ok (Z.max (mp_len a) (mp_len b)) /\ mpval a <> 0 /\
  snd (ct_gcd_mp_mp a b) = Some (Ok tt, NE [6 * 0x100000001; 0], NE [0; 0]).
Proof.
  cbv zeta. split; [okmp|]. split; [okmp|]. split; [vm_compute; reflexivity|]. split; [split; left; vm_compute; congruence|].
  split; [vm_compute; reflexivity|]. split; [vm_compute; congruence|vm_compute; reflexivity].
Qed.

Example ex_gcd_zero : let c := mkcfg true false true true in
  let a := NE [0] in let b := LE [0; 0; 0; 0; 0; 0; 0; 0] in
  mp_ok a /\ mp_ok b /\ 0 < mp_len a /\ mut_compat a b /\ mpval a = 0 /\ mpval b = 0 /\
  snd (ct_gcd_mp_mp a b) = Some (Ok tt, NE [1], LE [0; 0; 0; 0; 0; 0; 0; 0]).
Proof.
  cbv zeta. split; [okmp|]. split; [okmp|]. split; [vm_compute; reflexivity|]. split; [split; left; vm_compute; congruence|].
  split; [vm_compute; reflexivity|]. split; vm_compute; reflexivity.
Qed.
