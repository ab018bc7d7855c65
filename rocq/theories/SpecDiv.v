(** Specification vocabulary for division. *)
From Coq Require Import ZArith List.
Require Import Verif.Spec Verif.Monad Verif.ModelLimb Verif.ModelBuf Verif.SpecBuf Verif.ModelDiv.
Open Scope Z_scope.

Section Spec.
Context {c : cfg}.

(** The dividend consists of a low part and, optionally, a high part of the same
    representation; its length in bytes and its value. *)
Definition uhlen (u_h : option mp) : Z := match u_h with Some b => mp_len b | None => 0 end.
Definition uhval (u_h : option mp) : Z := match u_h with Some b => mpval b | None => 0 end.
Definition uval (u_h : option mp) (u_l : mp) : Z := mpval u_l + 256 ^ mp_len u_l * uhval u_h.
Definition u_ok (u_h : option mp) (u_l : mp) : Prop :=
  mp_ok u_l /\ match u_h with Some b => mp_ok b /\ kind_of b = kind_of u_l | None => True end.

(** An optional buffer is well formed, keeps its presence, representation and
    length, holds the value [v] if present, has room for the value [v]. *)
Definition q_ok (q : option mp) : Prop := match q with Some b => mp_ok b | None => True end.
Definition o_same (o o' : option mp) : Prop :=
  match o, o' with None, None => True | Some b, Some b' => mp_ok b' /\ same_shape b b' | _, _ => False end.
Definition q_is (q : option mp) (v : Z) : Prop := match q with Some b => mpval b = v | None => True end.
Definition q_fits (q : option mp) (v : Z) : Prop := match q with Some b => v < 256 ^ mp_len b | None => True end.

(** [v] is a positive integer of exactly [n] bytes. *)
Definition byte_len (v n : Z) : Prop := 1 <= n /\ 256 ^ (n - 1) <= v < 256 ^ n.

(** Exponents for which the code's computation of the byte length of 2^k, ((k + 1) + 8 - 1) / 8, is right: without overflow
    checks an intermediate result of 2^UW does no harm. *)
Definition pow2_exp_ok (k : Z) : Prop := k + 9 < 2 ^ UW \/ debug c = false /\ k + 8 < 2 ^ UW.

(** The optional decrement passed to CtMpDivisor::new. *)
Definition dec_val (dec : option Z) : Z := match dec with Some x => x | None => 0 end.

(** [d] has been obtained from CtMpDivisor::new, and D is the integer it stands
    for: the value of the buffer less the decrement. *)
Definition divisor_for (d : mp_divisor) (D : Z) : Prop :=
  exists v dec, mp_ok v /\ 0 <= dec_val dec < B /\ returns (mp_divisor_new v dec) (Ok d) /\ D = mpval v - dec_val dec.

(** The same for CtLDivisor::new. *)
Definition limb_divisor_for (d : ct_l_divisor) (v : Z) : Prop :=
  0 <= v < B /\ returns (ct_l_divisor_new v) (Ok d).

End Spec.
