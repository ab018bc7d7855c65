(** The statements of ThmInvPow2.v, derived from the facts. *)
From Coq Require Import ZArith List Bool Lia.
Require Import Verif.Spec Verif.Base Verif.Monad Verif.Wp Verif.ModelLimb Verif.LimbProofs Verif.ModelBuf Verif.SpecBuf Verif.BufProofs Verif.SpecMont Verif.SpecEuclid
  Verif.ModelEuclid Verif.ModelInv Verif.SpecMul Verif.SpecInv Verif.Wx Verif.InvFacts.
Open Scope Z_scope.

Section S.
Context {c : cfg}.

Definition inv_pow2_post (r : mp) (s : list Z) (P : Z -> Prop) (o : mp * list Z) : Prop :=
  let '(r', s') := o in mp_ok r' /\ same_shape r r' /\ P (mpval r') /\ mp_ok (NE s') /\ zlen s' = zlen s.

Lemma inv_pow2_lift : forall r x e mx s, mp_ok r -> mp_ok x -> mp_ok (NE s) -> 0 < mp_len x ->
  0 <= e <= mx -> 0 < mx -> mx <= 8 * mp_len r -> mx <= 8 * (LB * zlen s) -> (e = 0 \/ Z.odd (mpval x) = true) -> liftable (mpval x) mx ->
  yields (ct_inv_mod_pow2_mp r x e mx s) (fun '(r', s') =>
    mp_ok r' /\ same_shape r r' /\ (if e =? 0 then mpval r' = 0 else is_inverse (2 ^ e) (mpval x) (mpval r')) /\ mp_ok (NE s') /\ zlen s' = zlen s).
Proof.
  intros r x e mx s Hr Hx Hs Lx He Hm Lr Ls HO LF. apply wp_yields. eapply wp_inv_pow2; eauto.
  intros r' s' k Or Sr Os Zs Hk Vr. split; [auto|]. split; [auto|]. split; [|auto].
  destruct (Z.eqb_spec e 0) as [E|E]; [rewrite Vr, E, Z.pow_0_r; apply Z.mod_1_r|]. destruct HO as [HO|HO]; [contradiction|].
  rewrite Vr. apply hensel_inv_mod; auto. lia.
Qed.

Lemma inv_pow2_correct : forall r x e mx s, mp_ok r -> mp_ok x -> mp_ok (NE s) -> 0 < mp_len x ->
  0 <= e <= mx -> 0 < mx -> mx <= 8 * mp_len r -> mx <= 8 * (LB * zlen s) -> Z.odd (mpval x) = true ->
  (forall k v, 2 ^ Z.of_nat k < mx -> is_inverse (2 ^ (2 ^ Z.of_nat k)) (mpval x) v -> square_ok (limbs_for_bits mx) v) ->
  yields (ct_inv_mod_pow2_mp r x e mx s) (fun '(r', s') =>
    mp_ok r' /\ same_shape r r' /\ is_inverse (2 ^ e) (mpval x) (mpval r') /\ mp_ok (NE s') /\ zlen s' = zlen s).
Proof.
  intros r x e mx s Hr Hx Hs Lx He Hm Lr Ls HO LF. apply wp_yields. eapply wp_inv_pow2; eauto.
  - intros k Hk. apply (LF k); auto. assert (0 <= 2 ^ Z.of_nat k) by (apply Z.pow_nonneg; lia).
    rewrite <- (Z.mod_small (hensel (mpval x) k) (2 ^ 2 ^ Z.of_nat k)) by apply hensel_range. apply hensel_inv_mod; auto. lia.
  - intros r' s' k Or Sr Os Zs Hk Vr. split; [auto|]. split; [auto|]. split; [|auto]. rewrite Vr. apply hensel_inv_mod; auto. lia.
Qed.

Lemma inv_pow2_small : forall r x e mx s, mp_ok r -> mp_ok x -> mp_ok (NE s) -> 0 < mp_len x ->
  0 <= e <= mx -> 0 < mx <= 2 * W -> mx <= 8 * mp_len r -> mx <= 8 * (LB * zlen s) -> Z.odd (mpval x) = true ->
  yields (ct_inv_mod_pow2_mp r x e mx s) (fun '(r', s') =>
    mp_ok r' /\ same_shape r r' /\ is_inverse (2 ^ e) (mpval x) (mpval r') /\ mp_ok (NE s') /\ zlen s' = zlen s).
Proof.
  intros r x e mx s Hr Hx Hs Lx He Hm Lr Ls HO. apply wp_yields. eapply wp_inv_pow2; eauto; [lia|apply liftable_small; lia|].
  intros r' s' k Or Sr Os Zs Hk Vr. split; [auto|]. split; [auto|]. split; [|auto]. rewrite Vr. apply hensel_inv_mod; auto. lia.
Qed.

Lemma inv_pow2_zero : forall r x mx s, mp_ok r -> mp_ok x -> mp_ok (NE s) -> 0 < mp_len x ->
  0 < mx -> mx <= 8 * mp_len r -> mx <= 8 * (LB * zlen s) -> liftable (mpval x) mx ->
  yields (ct_inv_mod_pow2_mp r x 0 mx s) (fun '(r', s') => becomes r r' 0 /\ mp_ok (NE s') /\ zlen s' = zlen s).
Proof.
  intros r x mx s Hr Hx Hs Lx Hm Lr Ls LF. apply wp_yields. eapply wp_inv_pow2; eauto; [lia|].
  intros r' s' k Or Sr Os Zs Hk Vr. split; [split; [auto|split; [auto|]]|auto]. rewrite Vr, Z.pow_0_r. apply Z.mod_1_r.
Qed.

(** With debug assertions, the guard is exact. *)
Lemma inv_pow2_debug_exact : forall r x e mx s, debug c = true -> mp_ok r -> mp_ok x -> mp_ok (NE s) -> 0 < mp_len x ->
  0 <= e <= mx -> 0 < mx -> mx <= 8 * mp_len r -> mx <= 8 * (LB * zlen s) -> Z.odd (mpval x) = true ->
  (panics (ct_inv_mod_pow2_mp r x e mx s) <->
   ~ forall k v, 2 ^ Z.of_nat k < mx -> is_inverse (2 ^ (2 ^ Z.of_nat k)) (mpval x) v -> square_ok (limbs_for_bits mx) v).
Proof.
  intros r x e mx s D Hr Hx Hs Lx He Hm Lr Ls HO. split.
  - intros P F. destruct (inv_pow2_correct r x e mx s Hr Hx Hs Lx He Hm Lr Ls HO F) as (o & R & _). unfold panics, returns in *. congruence.
  - intros F. apply wx_pan. eapply wx_inv_pow2; eauto. intros r' s' k LF _ _ _ _ _ _. apply F. intros k' v Hk IV.
    rewrite (inverse_unique (2 ^ 2 ^ Z.of_nat k') (mpval x) v (hensel (mpval x) k')); auto; [apply pow2_gt0; apply Z.pow_nonneg; lia|].
    assert (0 <= 2 ^ Z.of_nat k') by (apply Z.pow_nonneg; lia).
    rewrite <- (Z.mod_small (hensel (mpval x) k') (2 ^ 2 ^ Z.of_nat k')) by apply hensel_range. apply hensel_inv_mod; auto. lia.
Qed.

End S.
