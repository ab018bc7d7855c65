(** Comparison, addition, shifts by a public distance and multiplication run in
    constant time. *)
From Coq Require Import ZArith List Bool Lia.
Require Import Verif.Spec Verif.Monad Verif.Base Verif.Wp Verif.BufFacts3 Verif.SpecMont Verif.ModelLimb Verif.ModelBuf Verif.SpecBuf Verif.BufFacts
  Verif.ModelCmp Verif.ModelAdd Verif.ModelShift Verif.ModelMul Verif.Ct Verif.CtLimb Verif.CtBuf.
Import ListNotations.
Open Scope Z_scope.

Section Arith.
Context {c : cfg} {o : obs}.
Hypothesis REL : debug c = false.

Lemma ct_wp : forall A (R : A -> A -> Prop) (P P' : A -> Prop) m1 m2,
  ct R m1 m2 -> wp m1 P -> wp m2 P' -> ct (fun a b => R a b /\ P a /\ P' b) m1 m2.
Proof.
  intros A R P P' [t1 [a|]] [t2 [b|]] H H1 H2; unfold ct, wp in *; simpl in *; tauto.
Qed.
(** The length check looks at the value only if the buffer is longer than
    required. *)
Lemma rct_len_compat : forall a b len len', same_shape a b -> len = len' ->
  mp_ok a -> mp_ok b -> 0 <= len -> (len_compat a len <-> len_compat b len) ->
  ct eq (len_is_compatible_with a len) (len_is_compatible_with b len').
Proof.
  intros a b len len' H <- Ha Hb L E.
  assert (T : ct (fun _ _ => True) (len_is_compatible_with a len) (len_is_compatible_with b len)).
  { unfold len_is_compatible_with. ct_auto. }
  assert (P : forall x, mp_ok x -> wp (len_is_compatible_with x len) (fun r => r = true <-> len_compat x len)).
  { intros x Hx. apply wp_len_compat; auto. intros r R1 R2 R3. split.
    - intros R. destruct (R1 R) as (V & V1 & V2). unfold len_compat.
      destruct x; [left; apply V2; reflexivity..|right]. split; [reflexivity|]. split; auto.
    - intros [V|(V & V1 & V2)]; auto. apply R3; auto. destruct x; try discriminate; auto. }
  eapply ct_weaken; [apply ct_wp; [exact T|apply P; exact Ha|apply P; exact Hb]|].
  intros p q (_ & P1 & P2). destruct p, q; auto; exfalso; intuition congruence.
Qed.
Lemma rct_eq_mp : forall a b d e, same_shape a b -> same_shape d e ->
  ct drel (ct_eq_mp_mp a d) (ct_eq_mp_mp b e).
Proof. intros a b d e H H1. unfold ct_eq_mp_mp. ct_auto. Qed.
#[local] Hint Resolve rct_eq_mp : ct.
Lemma rct_neq_mp : forall a b d e, same_shape a b -> same_shape d e ->
  ct drel (ct_neq_mp_mp a d) (ct_neq_mp_mp b e).
Proof. intros a b d e H H1. unfold ct_neq_mp_mp. ct_auto. Qed.
Lemma rct_leq_update : forall a b d a' b' d', ct drel (leq_kernel_update a b d) (leq_kernel_update a' b' d').
Proof. intros. unfold leq_kernel_update. ct_auto. Qed.
#[local] Hint Resolve rct_leq_update : ct.
Lemma rct_geq_update : forall a b d a' b' d', ct drel (geq_kernel_update a b d) (geq_kernel_update a' b' d').
Proof. intros. unfold geq_kernel_update. ct_auto. Qed.
#[local] Hint Resolve rct_geq_update : ct.
Lemma rct_leq_finish : forall a a', ct drel (leq_kernel_finish a) (leq_kernel_finish a').
Proof. intros. unfold leq_kernel_finish. ct_auto. Qed.
#[local] Hint Resolve rct_leq_finish : ct.
Lemma rct_geq_finish : forall a a', ct drel (geq_kernel_finish a) (geq_kernel_finish a').
Proof. intros. unfold geq_kernel_finish. ct_auto. Qed.
#[local] Hint Resolve rct_geq_finish : ct.
Lemma rct_leq_mp : forall a b d e, same_shape a b -> same_shape d e ->
  ct drel (ct_leq_mp_mp a d) (ct_leq_mp_mp b e).
Proof. intros a b d e H H1. unfold ct_leq_mp_mp. ct_auto. Qed.
#[local] Hint Resolve rct_leq_mp : ct.
Lemma rct_geq_mp : forall a b d e, same_shape a b -> same_shape d e ->
  ct drel (ct_geq_mp_mp a d) (ct_geq_mp_mp b e).
Proof. intros a b d e H H1. unfold ct_geq_mp_mp. ct_auto. Qed.
#[local] Hint Resolve rct_geq_mp : ct.
Lemma rct_lt_mp : forall a b d e, same_shape a b -> same_shape d e ->
  ct drel (ct_lt_mp_mp a d) (ct_lt_mp_mp b e).
Proof. intros a b d e H H1. unfold ct_lt_mp_mp. ct_auto. Qed.
Lemma rct_gt_mp : forall a b d e, same_shape a b -> same_shape d e ->
  ct drel (ct_gt_mp_mp a d) (ct_gt_mp_mp b e).
Proof. intros a b d e H H1. unfold ct_gt_mp_mp. ct_auto. Qed.
Lemma rct_is_zero_mp : forall a b, same_shape a b -> ct drel (ct_is_zero_mp a) (ct_is_zero_mp b).
Proof. intros a b H. unfold ct_is_zero_mp. ct_auto. Qed.
Lemma rct_is_one_mp : forall a b, same_shape a b -> ct drel (ct_is_one_mp a) (ct_is_one_mp b).
Proof. intros a b H. unfold ct_is_one_mp. ct_auto. Qed.
Lemma rct_leq_mp_l : forall a b l l', same_shape a b -> ct drel (ct_leq_mp_l a l) (ct_leq_mp_l b l').
Proof. intros a b l l' H. unfold ct_leq_mp_l. ct_auto. Qed.
#[local] Hint Resolve rct_is_zero_mp : ct.

Lemma rct_add_cond : forall a b d e k l, same_shape a b -> same_shape d e ->
  ct drel (ct_add_cond_mp_mp a d k) (ct_add_cond_mp_mp b e l).
Proof. intros a b d e k l H H1. unfold ct_add_cond_mp_mp. ct_auto. Qed.
#[local] Hint Resolve rct_add_cond : ct.
Lemma rct_add : forall a b d e, same_shape a b -> same_shape d e ->
  ct drel (ct_add_mp_mp a d) (ct_add_mp_mp b e).
Proof. intros a b d e H H1. unfold ct_add_mp_mp. ct_auto. Qed.
Lemma rct_sub_cond : forall a b d e k l, same_shape a b -> same_shape d e ->
  ct drel (ct_sub_cond_mp_mp a d k) (ct_sub_cond_mp_mp b e l).
Proof. intros a b d e k l H H1. unfold ct_sub_cond_mp_mp. ct_auto. Qed.
#[local] Hint Resolve rct_sub_cond : ct.
Lemma rct_sub : forall a b d e, same_shape a b -> same_shape d e ->
  ct drel (ct_sub_mp_mp a d) (ct_sub_mp_mp b e).
Proof. intros a b d e H H1. unfold ct_sub_mp_mp. ct_auto. Qed.
Lemma rct_store_masked : forall a b i j v w, same_shape a b -> i = j ->
  ct drel (store_masked a i v) (store_masked b j w).
Proof. intros a b i j v w H <-. unfold store_masked. ct_auto. Qed.
#[local] Hint Resolve rct_store_masked : ct.
Lemma rel_dassert_lt : forall A a b (k : unit -> M A), bind (dassert_lt a b) k = k tt.
Proof. intros. unfold dassert_lt. apply rel_dassert_m. exact REL. Qed.
Lemma rct_add_mod : forall a b d e n m, same_shape a b -> same_shape d e -> same_shape n m ->
  mp_ok a -> mp_ok n -> mp_ok m -> (len_compat n (mp_len a) <-> len_compat m (mp_len a)) ->
  ct drel (ct_add_mod_mp_mp a d n) (ct_add_mod_mp_mp b e m).
Proof.
  intros a b d e n m H H1 H2 Ha Hn Hm L. unfold ct_add_mod_mp_mp.
  eapply ct_bind; [apply rct_len_compat; auto; [symmetry; apply shape_len; auto|apply mp_len_nonneg]|].
  intros p q <-. rewrite !rel_dassert_lt. ct_auto; rewrite !rel_dassert_lt; ct_auto.
Qed.
Lemma rct_sub_mod : forall a b d e n m, same_shape a b -> same_shape d e -> same_shape n m ->
  mp_ok a -> mp_ok n -> mp_ok m -> (len_compat n (mp_len a) <-> len_compat m (mp_len a)) ->
  ct drel (ct_sub_mod_mp_mp a d n) (ct_sub_mod_mp_mp b e m).
Proof.
  intros a b d e n m H H1 H2 Ha Hn Hm L. unfold ct_sub_mod_mp_mp.
  eapply ct_bind; [apply rct_len_compat; auto; [symmetry; apply shape_len; auto|apply mp_len_nonneg]|].
  intros p q <-. rewrite !rel_dassert_lt. ct_auto; rewrite !rel_dassert_lt; ct_auto.
Qed.
Lemma rct_add_l : forall a b v w, same_shape a b -> ct drel (ct_add_mp_l a v) (ct_add_mp_l b w).
Proof. intros a b v w H. unfold ct_add_mp_l. ct_auto. Qed.
Lemma rct_sub_l : forall a b v w, same_shape a b -> ct drel (ct_sub_mp_l a v) (ct_sub_mp_l b w).
Proof. intros a b v w H. unfold ct_sub_mp_l. ct_auto. Qed.
Lemma rct_negate_cond : forall a b v w, same_shape a b ->
  ct drel (ct_negate_cond_mp a v) (ct_negate_cond_mp b w).
Proof. intros a b v w H. unfold ct_negate_cond_mp. ct_auto. Qed.
#[local] Hint Resolve rct_negate_cond : ct.
Lemma rct_negate : forall a b, same_shape a b -> ct drel (ct_negate_mp a) (ct_negate_mp b).
Proof. intros a b H. unfold ct_negate_mp. ct_auto. Qed.
Lemma rct_negate_mod : forall a b n m, same_shape a b -> same_shape n m ->
  mp_ok a -> mp_ok n -> mp_ok m -> (len_compat n (mp_len a) <-> len_compat m (mp_len a)) ->
  ct drel (ct_negate_mod_mp a n) (ct_negate_mod_mp b m).
Proof.
  intros a b n m H H2 Ha Hn Hm L. unfold ct_negate_mod_mp.
  eapply ct_bind; [apply rct_len_compat; auto; [symmetry; apply shape_len; auto|apply mp_len_nonneg]|].
  intros p q <-. rewrite !rel_dassert_lt; ct_auto.
Qed.

Lemma rct_store_trunc : forall a b i j v w, same_shape a b -> i = j ->
  ct drel (store_trunc a i v) (store_trunc b j w).
Proof. intros a b i j v w H <-. unfold store_trunc. ct_auto. Qed.
#[local] Hint Resolve rct_store_trunc : ct.
Lemma rct_lshift_out : forall a b s t, same_shape a b -> s = t ->
  ct drel (lshift_out a s) (lshift_out b t).
Proof. intros a b s t H <-. unfold lshift_out. ct_auto. Qed.
#[local] Hint Resolve rct_lshift_out : ct.
Lemma rct_rshift_out : forall a b s t, same_shape a b -> s = t ->
  ct drel (rshift_out a s) (rshift_out b t).
Proof. intros a b s t H <-. unfold rshift_out. ct_auto. Qed.
#[local] Hint Resolve rct_rshift_out : ct.
Ltac shift_loop :=
  first [ apply ct_for with (R := fun p q : mp * Z * Z =>
            same_shape (fst (fst p)) (fst (fst q)) /\ snd (fst p) = snd (fst q))
        | apply ct_for_down with (R := fun p q : mp * Z * Z =>
            same_shape (fst (fst p)) (fst (fst q)) /\ snd (fst p) = snd (fst q)) ];
  [ct_pub | ct_pub | ct_rel | intros; ct_norm; ct_auto].
Lemma rct_lshift : forall a b s t, same_shape a b -> s = t ->
  ct drel (ct_lshift_mp a s) (ct_lshift_mp b t).
Proof.
  intros a b s t H <-. unfold ct_lshift_mp. ct_auto_l ltac:(shift_loop).
Qed.
Lemma rct_rshift : forall a b s t, same_shape a b -> s = t ->
  ct drel (ct_rshift_mp a s) (ct_rshift_mp b t).
Proof.
  intros a b s t H <-. unfold ct_rshift_mp. ct_auto_l ltac:(shift_loop).
Qed.

Lemma rct_store_hm : forall a b l l' i j v w m m', same_shape a b -> l = l' -> i = j ->
  ct drel (store_hm a l i v m) (store_hm b l' j w m').
Proof. intros a b l l' i j v w m m' H <- <-. unfold store_hm. ct_auto. Qed.
#[local] Hint Resolve rct_store_hm : ct.
Lemma rct_mul_trunc_cond : forall a b n n' d e k l, same_shape a b -> n = n' -> same_shape d e ->
  ct drel (ct_mul_trunc_cond_mp_mp a n d k) (ct_mul_trunc_cond_mp_mp b n' e l).
Proof. intros a b n n' d e k l H <- H1. unfold ct_mul_trunc_cond_mp_mp. ct_auto. Qed.
#[local] Hint Resolve rct_mul_trunc_cond : ct.
Lemma rct_mul_trunc : forall a b n n' d e, same_shape a b -> n = n' -> same_shape d e ->
  ct drel (ct_mul_trunc_mp_mp a n d) (ct_mul_trunc_mp_mp b n' e).
Proof. intros a b n n' d e H <- H1. unfold ct_mul_trunc_mp_mp. ct_auto. Qed.
Lemma rct_square_double : forall a b a' b', ct drel (square_double a b) (square_double a' b').
Proof. intros. unfold square_double. ct_auto. Qed.
#[local] Hint Resolve rct_square_double : ct.
Lemma rct_square : forall a b n n', same_shape a b -> n = n' ->
  ct drel (ct_square_trunc_mp a n) (ct_square_trunc_mp b n').
Proof. intros a b n n' H <-. unfold ct_square_trunc_mp. ct_auto. Qed.
Lemma rct_mul_l : forall a b n n' v w, same_shape a b -> n = n' ->
  ct drel (ct_mul_trunc_mp_l a n v) (ct_mul_trunc_mp_l b n' w).
Proof. intros a b n n' v w H <-. unfold ct_mul_trunc_mp_l. ct_auto. Qed.
End Arith.
#[global] Hint Resolve
  rct_eq_mp rct_neq_mp rct_leq_update rct_geq_update rct_leq_finish rct_geq_finish rct_leq_mp rct_geq_mp rct_lt_mp rct_gt_mp rct_is_zero_mp rct_is_one_mp rct_leq_mp_l rct_add_cond rct_add rct_sub_cond rct_sub rct_store_masked rct_add_l rct_sub_l rct_negate_cond rct_negate rct_store_trunc rct_lshift_out rct_rshift_out rct_lshift rct_rshift rct_store_hm rct_mul_trunc_cond rct_mul_trunc rct_square_double rct_square rct_mul_l : ct.
