(** C35: inversion modulo a power of two, ct_inv_mod_pow2_mp in src/invmod_impl.rs. The function is private, it takes
    part in ct_inv_mod_mp_mp(), see ThmInv.v.

    [is_inverse n x v] (SpecEuclid.v): 0 <= v < n and x v = 1 modulo n. *)
From Coq Require Import ZArith List Lia.
Require Import Verif.Spec Verif.Monad Verif.ModelLimb Verif.ModelBuf Verif.SpecBuf Verif.SpecEuclid Verif.ModelInv Verif.SpecMul Verif.SpecInv Verif.InvProofs.
Import ListNotations.
Open Scope Z_scope.

Ltac okmp := split; [repeat constructor; vm_compute; congruence|vm_compute; reflexivity].

(** The result becomes the inverse modulo 2^e for an odd operand of any length and a result and a scratch space with room
    for the bound on the exponent, [mx]. The inverses modulo 2, 4, 16, 256, ... it is lifted from get squared and must not
    be among those the squaring handles wrongly, see C23 and SpecMul.v. *)
Theorem C35_inv_pow2_partial : forall (c : cfg) r x e mx s, mp_ok r -> mp_ok x -> mp_ok (NE s) -> 0 < mp_len x ->
  0 <= e <= mx -> 0 < mx -> mx <= 8 * mp_len r -> mx <= 8 * (LB * zlen s) -> Z.odd (mpval x) = true ->
  (forall k v, 2 ^ Z.of_nat k < mx -> is_inverse (2 ^ (2 ^ Z.of_nat k)) (mpval x) v -> square_ok (limbs_for_bits mx) v) ->
  yields (ct_inv_mod_pow2_mp r x e mx s) (fun '(r', s') =>
    mp_ok r' /\ same_shape r r' /\ is_inverse (2 ^ e) (mpval x) (mpval r') /\ mp_ok (NE s') /\ zlen s' = zlen s).
Proof. exact @inv_pow2_correct. Qed.
Print Assumptions C35_inv_pow2_partial.

(** With debug assertions the function panics exactly if one of them is. *)
Theorem C35_inv_pow2_debug_exact : forall (c : cfg) r x e mx s, debug c = true -> mp_ok r -> mp_ok x -> mp_ok (NE s) -> 0 < mp_len x ->
  0 <= e <= mx -> 0 < mx -> mx <= 8 * mp_len r -> mx <= 8 * (LB * zlen s) -> Z.odd (mpval x) = true ->
  (panics (ct_inv_mod_pow2_mp r x e mx s) <->
   ~ forall k v, 2 ^ Z.of_nat k < mx -> is_inverse (2 ^ (2 ^ Z.of_nat k)) (mpval x) v -> square_ok (limbs_for_bits mx) v).
Proof. exact @inv_pow2_debug_exact. Qed.
Print Assumptions C35_inv_pow2_debug_exact.

(** Exponents bounded by twice the width of a limb need only squares of single limbs, which are always right. *)
Theorem C35_inv_pow2_small : forall (c : cfg) r x e mx s, mp_ok r -> mp_ok x -> mp_ok (NE s) -> 0 < mp_len x ->
  0 <= e <= mx -> 0 < mx <= 2 * W -> mx <= 8 * mp_len r -> mx <= 8 * (LB * zlen s) -> Z.odd (mpval x) = true ->
  yields (ct_inv_mod_pow2_mp r x e mx s) (fun '(r', s') =>
    mp_ok r' /\ same_shape r r' /\ is_inverse (2 ^ e) (mpval x) (mpval r') /\ mp_ok (NE s') /\ zlen s' = zlen s).
Proof. exact @inv_pow2_small. Qed.
Print Assumptions C35_inv_pow2_small.

(** For exponent 0 the result becomes zero, also for an even operand. *)
Theorem C35_inv_pow2_zero : forall (c : cfg) r x mx s, mp_ok r -> mp_ok x -> mp_ok (NE s) -> 0 < mp_len x ->
  0 < mx -> mx <= 8 * mp_len r -> mx <= 8 * (LB * zlen s) -> liftable (mpval x) mx ->
  yields (ct_inv_mod_pow2_mp r x 0 mx s) (fun '(r', s') => becomes r r' 0 /\ mp_ok (NE s') /\ zlen s' = zlen s).
Proof. exact @inv_pow2_zero. Qed.
Print Assumptions C35_inv_pow2_zero.

(** The inverse of this odd number modulo B^6 is (B - 1) + (B / 2) B + (B - 1) B^2, which the squaring handles wrongly. *)
Definition bad_inv {c : cfg} : list Z :=
  if limb64 c then [0xffffffffffffffff; 0x7ffffffffffffffe; 0xffffffffffffffff; 0x3ffffffffffffffe; 0x3ffffffffffffffe; 0x1ffffffffffffffe]
  else [0xffffffff; 0x7ffffffe; 0xffffffff; 0x3ffffffe; 0x3ffffffe; 0x1ffffffe].

(** Debug builds panic. *)
Theorem C35_inv_pow2_debug_refuted : forall c : cfg, debug c = true -> exists r x s,
  mp_ok r /\ mp_ok x /\ mp_ok (NE s) /\ Z.odd (mpval x) = true /\ 6 * W = 8 * mp_len r /\ 6 * W = 8 * (LB * zlen s) /\
  panics (ct_inv_mod_pow2_mp r x (6 * W) (6 * W) s).
Proof.
  intros c H. exists (NE [0; 0; 0; 0; 0; 0]), (NE bad_inv), [0; 0; 0; 0; 0; 0].
  revert H. destruct c as [l64 am u64 d]. cbn [debug]. intros ->. destruct l64, am, u64;
  (split; [okmp|]; split; [okmp|]; split; [okmp|]; split; [vm_compute; reflexivity|]; split; [vm_compute; reflexivity|]; split; vm_compute; reflexivity).
Qed.
Print Assumptions C35_inv_pow2_debug_refuted.

(** Release builds give a wrong result. *)
Theorem C35_inv_pow2_release_refuted : forall c : cfg, debug c = false -> exists r x s r' s',
  mp_ok r /\ mp_ok x /\ mp_ok (NE s) /\ Z.odd (mpval x) = true /\ 6 * W = 8 * mp_len r /\ 6 * W = 8 * (LB * zlen s) /\
  returns (ct_inv_mod_pow2_mp r x (6 * W) (6 * W) s) (r', s') /\ ~ is_inverse (2 ^ (6 * W)) (mpval x) (mpval r').
Proof.
  intros c H. exists (NE [0; 0; 0; 0; 0; 0]), (NE bad_inv), [0; 0; 0; 0; 0; 0], (NE [B - 1; B / 2; B - 1; 0; 0; B - 1]).
  revert H. destruct c as [l64 am u64 d]. cbn [debug]. intros ->. destruct l64, am, u64;
  (eexists; split; [okmp|]; split; [okmp|]; split; [okmp|]; split; [vm_compute; reflexivity|]; split; [vm_compute; reflexivity|]; split; [vm_compute; reflexivity|];
   split; [vm_compute; reflexivity|intros [_ E]; vm_compute in E; discriminate E]).
Qed.
Print Assumptions C35_inv_pow2_release_refuted.

(** Concrete cases meeting the hypotheses: 0x0123456789abcdef01 has the inverse 0x9993a132a531101 modulo 2^60. *)
Example ex_inv_pow2_small : let c := mkcfg false false true true in
  let r := BE (zrepeat 255 8) in let x := LE [1; 0xef; 0xcd; 0xab; 0x89; 0x67; 0x45; 0x23; 1] in let s := [7; 7; 7] in
  mp_ok r /\ mp_ok x /\ mp_ok (NE s) /\ 0 < mp_len x /\ 0 < 60 <= 2 * W /\ 60 <= 8 * mp_len r /\ 60 <= 8 * (LB * zlen s) /\ Z.odd (mpval x) = true /\
  option_map fst (snd (ct_inv_mod_pow2_mp r x 60 60 s)) = Some (BE [9; 153; 58; 19; 42; 83; 17; 1]) /\
  is_inverse (2 ^ 60) (mpval x) (mpval (BE [9; 153; 58; 19; 42; 83; 17; 1])).
Proof.
  cbv zeta. split; [okmp|]. split; [okmp|]. split; [okmp|]. split; [vm_compute; reflexivity|]. split; [vm_compute; split; congruence|].
  split; [vm_compute; congruence|]. split; [vm_compute; congruence|]. split; [vm_compute; reflexivity|]. split; [vm_compute; reflexivity|].
  split; [vm_compute; split; congruence|vm_compute; reflexivity].
Qed.

(** A bound on the exponent of more than two limbs, the operand being 3. *)
Example ex_inv_pow2 : let c := mkcfg false false true true in forall k v,
  2 ^ Z.of_nat k < 128 -> is_inverse (2 ^ (2 ^ Z.of_nat k)) 3 v -> square_ok (limbs_for_bits 128) v.
Proof.
  cbv zeta. set (c := mkcfg false false true true). intros k v Hk [Hv Ev].
  assert (k = 0 \/ k = 1 \/ k = 2 \/ k = 3 \/ k = 4 \/ k = 5 \/ k = 6)%nat as K.
  { assert (HL : 2 ^ Z.of_nat k < 2 ^ 7) by lia. apply Z.pow_lt_mono_r_iff in HL; lia. }
  assert (V : v < 2 ^ 32 \/ v = 0xaaaaaaaaaaaaaaab).
  { destruct (Nat.eq_dec k 6) as [->|N].
    - right. change (2 ^ 2 ^ Z.of_nat 6) with (2 ^ 64) in *. assert (E3 : (3 * v) mod 2 ^ 64 = 1) by (rewrite Ev; reflexivity).
      pose proof (Z.div_mod (3 * v) (2 ^ 64)) as DM. assert (QB : 0 <= 3 * v / 2 ^ 64 < 3).
      { split; [apply Z.div_pos; lia|apply Z.div_lt_upper_bound; lia]. } lia.
    - left. eapply Z.lt_le_trans; [apply Hv|]. apply Z.pow_le_mono_r; [lia|].
      repeat (destruct K as [-> |K]; [vm_compute; congruence|]). congruence. }
  destruct V as [V| ->]; [apply SqExact.small_ok; split; [lia|exact V]|].
  intros j k' H1 H2. change (limbs_for_bits 128) with 4 in H2.
  assert (H : (j = 1 /\ k' = 1) \/ (j = 2 /\ k' = 1)) by lia. destruct H as [[-> ->]|[-> ->]]; vm_compute; split; congruence.
Qed.
