(** Two runs side by side: the relational judgement used to prove that what can
    be observed of a run does not depend on the secret operand values.  Nothing
    in this file is about a particular routine. *)
From Coq Require Import ZArith List Bool Lia.
Require Import Verif.Spec Verif.Monad Verif.ModelLimb Verif.ModelBuf Verif.SpecBuf Verif.BufFacts
  Verif.ModelDiv Verif.ModelMont.
Import ListNotations.
Open Scope Z_scope.

(** What of an event is observed; and whether the runs are required to agree on
    panicking ([strict]), or only runs that both return are compared. *)
Class obs := { ob : event -> event; strict : bool }.

(** The runs [m1] and [m2] show the same observations, either both panic or both
    return, and the results are related by [R]. *)
Definition ct {o : obs} {A} (R : A -> A -> Prop) (m1 m2 : M A) : Prop :=
  match snd m1, snd m2 with
  | Some a, Some b => map ob (fst m1) = map ob (fst m2) /\ R a b
  | None, None => strict = true -> map ob (fst m1) = map ob (fst m2)
  | _, _ => strict = false
  end.

(** The relation by default: limbs are secret, booleans are public, buffers agree
    in encoding and length. *)
Class DRel (A : Type) := drel : A -> A -> Prop.
#[global] Instance DRel_Z : DRel Z := fun _ _ => True.
#[global] Instance DRel_unit : DRel unit := fun _ _ => True.
#[global] Instance DRel_bool : DRel bool := eq.
#[global] Instance DRel_mp {c : cfg} : DRel mp := same_shape.
#[global] Instance DRel_bytes : DRel (list Z) := fun l l' => zlen l' = zlen l.
#[global] Instance DRel_prod {A C} `{DRel A} `{DRel C} : DRel (A * C) :=
  fun p q => drel (fst p) (fst q) /\ drel (snd p) (snd q).
#[global] Instance DRel_result {A E} `{DRel A} : DRel (result A E) :=
  fun p q => match p, q with
             | Ok a, Ok b => drel a b
             | Err e, Err e' => e = e'
             | _, _ => False
             end.
#[global] Instance DRel_ldiv : DRel ct_l_divisor := fun _ _ => True.
Definition opt_shape {c : cfg} (p q : option mp) : Prop :=
  match p, q with Some a, Some b => same_shape a b | None, None => True | _, _ => False end.
#[global] Instance DRel_omp {c : cfg} : DRel (option mp) := opt_shape.
Definition seg_shape {c : cfg} (s t : cseg) : Prop :=
  cs_end s = cs_end t /\ same_shape (cs_segment s) (cs_segment t) /\
  same_shape (cs_high_next_partial s) (cs_high_next_partial t).
#[global] Instance DRel_segs {c : cfg} : DRel (list cseg) := Forall2 seg_shape.
Definition dv_shape {c : cfg} (d e : mp_divisor) : Prop :=
  same_shape (dv_v d) (dv_v e) /\ dv_len d = dv_len e.
#[global] Instance DRel_dv {c : cfg} : DRel mp_divisor := dv_shape.

#[global] Instance DRel_redc : DRel redc_kernel := fun _ _ => True.

Section Rules.
Context {o : obs}.

Lemma ct_ret : forall A (R : A -> A -> Prop) a b, R a b -> ct R (ret a) (ret b).
Proof. intros. split; auto. Qed.
Lemma ct_panic : forall A (R : A -> A -> Prop), ct R panic panic.
Proof. intros. unfold ct. simpl. auto. Qed.
Lemma ct_refl : forall A (m1 m2 : M A), m1 = m2 -> ct eq m1 m2.
Proof. intros A m1 m2 ->. unfold ct. destruct (snd m2); auto. Qed.
Lemma ct_weaken : forall A (R R' : A -> A -> Prop) m1 m2,
  ct R m1 m2 -> (forall a b, R a b -> R' a b) -> ct R' m1 m2.
Proof.
  intros A R R' m1 m2 H1 H. unfold ct in *.
  destruct (snd m1), (snd m2); auto. destruct H1. auto.
Qed.
Lemma ct_default : forall A `{DRel A} (m1 m2 : M A), ct drel m1 m2 -> ct drel m1 m2.
Proof. auto. Qed.
Lemma ct_bind_r : forall A C (R : A -> A -> Prop) (Q : C -> C -> Prop) m1 m2 f g,
  ct R m1 m2 -> (forall a b, R a b -> returns m1 a -> returns m2 b -> ct Q (f a) (g b)) ->
  ct Q (bind m1 f) (bind m2 g).
Proof.
  intros A C R Q [t1 [a|]] [t2 [b|]] f g H1 H; unfold ct in *; simpl in *; auto.
  - destruct H1 as [H1 H2]. specialize (H a b H2 eq_refl eq_refl).
    destruct (snd (f a)), (snd (g b)); rewrite ?map_app, ?H1; auto.
    + destruct H as [-> H]. auto.
    + intros E. rewrite H; auto.
  - destruct (snd (f a)); auto. intros E. congruence.
  - destruct (snd (g b)); auto. intros E. congruence.
Qed.
Lemma ct_bind : forall A C (R : A -> A -> Prop) (Q : C -> C -> Prop) m1 m2 f g,
  ct R m1 m2 -> (forall a b, R a b -> ct Q (f a) (g b)) -> ct Q (bind m1 f) (bind m2 g).
Proof. intros. eapply ct_bind_r; eauto. Qed.
Lemma ct_tick : forall A (R : A -> A -> Prop) e e' f g,
  ob e = ob e' -> ct R (f tt) (g tt) -> ct R (bind (tick e) f) (bind (tick e') g).
Proof.
  intros A R e e' f g E H. apply ct_bind with (R := fun _ _ => True).
  - split; auto. simpl. rewrite E. auto.
  - intros [] [] _. exact H.
Qed.
Lemma ct_assert : strict = false -> forall b b', ct (fun _ _ => True) (assert b) (assert b').
Proof. intros E b b'. destruct b, b'; unfold ct; simpl; auto. Qed.
Lemma ct_let : forall X A (P : X -> X -> Prop) (R : A -> A -> Prop) x y (f g : X -> M A),
  P x y -> (forall x y, P x y -> ct R (f x) (g y)) -> ct R (f x) (g y).
Proof. auto. Qed.
Lemma ct_if : forall A (R : A -> A -> Prop) (b b' : bool) m1 m2 m1' m2',
  b = b' -> (b = true -> ct R m1 m1') -> (b = false -> ct R m2 m2') ->
  ct R (if b then m1 else m2) (if b' then m1' else m2').
Proof. intros A R b b' m1 m2 m1' m2' <- H1 H2. destruct b; auto. Qed.
Lemma ct_for_aux : forall S (R : S -> S -> Prop) f g n lo (s s' : S),
  R s s' -> (forall i s s', lo <= i < lo + Z.of_nat n -> R s s' -> ct R (f i s) (g i s')) ->
  ct R (for_aux n lo f s) (for_aux n lo g s').
Proof.
  intros S R f g n. induction n as [|n IH]; intros lo s s' Hs H; cbn [for_aux for_down_aux].
  - apply ct_tick; [reflexivity|]. apply ct_ret. auto.
  - apply ct_tick; [reflexivity|]. eapply ct_bind.
    + apply H; auto. lia.
    + intros a b Hab. apply IH; auto. intros i t t' Hi. apply H. lia.
Qed.
Lemma ct_for : forall S (R : S -> S -> Prop) f g lo lo' hi hi' (s s' : S),
  lo = lo' -> hi = hi' -> R s s' ->
  (forall i s s', lo <= i < hi -> R s s' -> ct R (f i s) (g i s')) ->
  ct R (zfor lo hi f s) (zfor lo' hi' g s').
Proof.
  intros S R f g lo lo' hi hi' s s' <- <- Hs H. unfold zfor. apply ct_for_aux; auto.
  intros i t t' Hi. apply H. lia.
Qed.
Lemma ct_for_down_aux : forall S (R : S -> S -> Prop) f g n lo (s s' : S),
  R s s' -> (forall i s s', lo <= i < lo + Z.of_nat n -> R s s' -> ct R (f i s) (g i s')) ->
  ct R (for_down_aux n lo f s) (for_down_aux n lo g s').
Proof.
  intros S R f g n. induction n as [|n IH]; intros lo s s' Hs H; cbn [for_aux for_down_aux].
  - apply ct_tick; [reflexivity|]. apply ct_ret. auto.
  - apply ct_tick; [reflexivity|]. eapply ct_bind.
    + apply H; auto. lia.
    + intros a b Hab. apply IH; auto. intros i t t' Hi. apply H. lia.
Qed.
Lemma ct_for_down : forall S (R : S -> S -> Prop) f g lo lo' hi hi' (s s' : S),
  lo = lo' -> hi = hi' -> R s s' ->
  (forall i s s', lo <= i < hi -> R s s' -> ct R (f i s) (g i s')) ->
  ct R (zfor_down lo hi f s) (zfor_down lo' hi' g s').
Proof.
  intros S R f g lo lo' hi hi' s s' <- <- Hs H. unfold zfor_down. apply ct_for_down_aux; auto.
  intros i t t' Hi. apply H. lia.
Qed.

(** From the judgement to traces. *)
Lemma ct_trace : forall A (R : A -> A -> Prop) m1 m2, strict = true ->
  ct R m1 m2 -> map ob (trace m1) = map ob (trace m2) /\ (panics m1 <-> panics m2).
Proof.
  intros A R m1 m2 E H. unfold panics, ct, trace in *.
  destruct (snd m1), (snd m2); try congruence; split; try tauto; split; congruence.
Qed.
Lemma ct_trace_ret : forall A (R : A -> A -> Prop) m1 m2 a b,
  ct R m1 m2 -> returns m1 a -> returns m2 b -> map ob (trace m1) = map ob (trace m2).
Proof.
  intros A R m1 m2 a b H H1 H2. unfold returns, ct, trace in *. rewrite H1, H2 in H. tauto.
Qed.
End Rules.

(** Release builds skip the debug assertions. *)
Lemma rel_dassert {c : cfg} : debug c = false -> forall A b (k : unit -> M A), bind (dassert b) k = k tt.
Proof. intros H A b k. unfold dassert. rewrite H. simpl. destruct (k tt). reflexivity. Qed.
Lemma rel_dassert_m {c : cfg} : debug c = false -> forall A b (k : unit -> M A), bind (dassert_m b) k = k tt.
Proof. intros H A b k. unfold dassert_m. rewrite H. simpl. destruct (k tt). reflexivity. Qed.

(** Everything is observed. *)
Definition obs_all : obs := {| ob := fun e => e; strict := true |}.
Definition obs_ret : obs := {| ob := fun e => e; strict := false |}.
Lemma ct_all : forall A (R : A -> A -> Prop) m1 m2,
  @ct obs_all A R m1 m2 -> trace m1 = trace m2 /\ (panics m1 <-> panics m2).
Proof.
  intros A R m1 m2 H. apply ct_trace in H; [|reflexivity]. destruct H as [H1 H2]. split; auto.
  unfold ob, obs_all in H1. rewrite !map_id in H1. exact H1.
Qed.
Lemma ct_all_ret : forall A (R : A -> A -> Prop) m1 m2 a b,
  @ct obs_ret A R m1 m2 -> returns m1 a -> returns m2 b -> trace m1 = trace m2.
Proof.
  intros A R m1 m2 a b H H1 H2. eapply ct_trace_ret in H; eauto.
  unfold ob, obs_ret in H. rewrite !map_id in H. exact H.
Qed.

Create HintDb ct discriminated.
#[global] Hint Constants Opaque : ct.
#[global] Hint Variables Opaque : ct.

(** Rewrites public quantities of the second run into those of the first. *)
Lemma shape_empty {c : cfg} : forall a b, same_shape a b -> mp_is_empty b = mp_is_empty a.
Proof.
  intros a b [K L]. assert (0 < LB) by (unfold LB; destruct (limb64 c); lia).
  destruct a, b; simpl in *; try discriminate; try congruence.
  f_equal. apply Z.mul_reg_r with (p := LB); lia.
Qed.
Lemma shape_mask {c : cfg} : forall a b, same_shape a b -> partial_high_mask b = partial_high_mask a.
Proof.
  intros a b H. unfold partial_high_mask.
  rewrite (shape_unaligned a b H), (shape_len a b H). reflexivity.
Qed.
Lemma shape_shift {c : cfg} : forall a b, same_shape a b -> partial_high_shift b = partial_high_shift a.
Proof.
  intros a b H. unfold partial_high_shift.
  rewrite (shape_unaligned a b H), (shape_len a b H). reflexivity.
Qed.

Ltac ct_pubrw :=
  repeat match goal with
  | H : zlen ?l' = zlen ?l |- context [zlen ?l'] => rewrite H
  | H : dv_shape ?a ?b |- context [dv_len ?b] => rewrite <- (proj2 H)
  | H : same_shape ?a ?b |- context [nlimbs ?b] => rewrite (shape_nlimbs a b H)
  | H : same_shape ?a ?b |- context [mp_len ?b] => rewrite (shape_len a b H)
  | H : same_shape ?a ?b |- context [supports_unaligned ?b] => rewrite (shape_unaligned a b H)
  | H : same_shape ?a ?b |- context [mp_is_empty ?b] => rewrite (shape_empty a b H)
  | H : same_shape ?a ?b |- context [partial_high_mask ?b] => rewrite (shape_mask a b H)
  | H : same_shape ?a ?b |- context [partial_high_shift ?b] => rewrite (shape_shift a b H)
  end.
Ltac ct_syn := lazymatch goal with |- ?x = ?y => constr_eq x y; exact (eq_refl x) end.
Ltac ct_pub := first [ct_syn | solve [ct_pubrw; ct_syn] ].

Ltac ct_norm :=
  repeat match goal with
  | H : drel ?p ?q |- _ =>
    let T := type of p in
    lazymatch eval hnf in T with
    | Z => clear H
    | unit => clear H
    | ct_l_divisor => clear H
    | bool => change (p = q) in H
    | list Z => change (zlen q = zlen p) in H
    | mp => change (same_shape p q) in H
    | option mp => change (opt_shape p q) in H
    | list cseg => change (Forall2 seg_shape p q) in H
    | mp_divisor => change (dv_shape p q) in H
    | redc_kernel => clear H
    | (_ * _)%type => destruct p, q; destruct H as [? ?]; cbn [fst snd] in *
    | result _ _ => destruct p, q; cbn [drel DRel_result] in H; try (exfalso; exact H)
    | _ => change True in H; clear H
    end
  | H : _ /\ _ |- _ => destruct H
  | H : True |- _ => clear H
  | p : (_ * _)%type |- _ => destruct p; cbn [fst snd] in *
  | H : ?x = ?y |- _ => is_var y; subst y
  | H : ?x = false |- _ => is_var x; subst x
  | H : (_, _) = (_, _) |- _ => injection H; clear H; intros
  | H : Err _ = Err _ |- _ => injection H; clear H; intros
  end.

Ltac ct_rel :=
  cbv beta; cbn [fst snd];
  lazymatch goal with
  | |- @drel Z _ _ _ => exact I
  | |- @drel unit _ _ _ => exact I
  | |- @drel ct_l_divisor _ _ _ => exact I
  | |- @drel (_ * _) _ _ _ => split; cbn [fst snd]; ct_rel
  | |- @drel (result _ _) _ (Err _) (Err _) => reflexivity
  | |- @drel (result _ _) _ (Ok _) (Ok _) => cbn [drel DRel_result]; ct_rel
  | |- @drel bool _ _ _ => lazymatch goal with |- drel ?p ?q => change (p = q) end; first [ct_pub | eassumption | idtac]
  | |- @drel mp _ _ _ => first [eassumption | idtac]
  | |- @drel (option mp) _ _ _ => first [eassumption | idtac]
  | |- @drel (list cseg) _ _ _ => first [eassumption | idtac]
  | |- @drel mp_divisor _ _ _ => first [eassumption | idtac]
  | |- @drel redc_kernel _ _ _ => exact I
  | |- @drel (list Z) _ ?p ?q => first [eassumption | change (zlen q = zlen p)]
  | |- @drel _ _ _ _ => first [exact I | idtac]
  | |- same_shape _ _ => first [eassumption | idtac]
  | |- True => exact I
  | |- _ /\ _ => split; ct_rel
  | |- _ = _ => first [ct_pub | eassumption | idtac]
  | |- _ => idtac
  end.

#[global] Hint Extern 0 (same_shape _ _) => eassumption : ct.
#[global] Hint Extern 0 (@drel mp _ _ _) => eassumption : ct.
#[global] Hint Extern 0 (zlen _ = zlen _) => eassumption : ct.
#[global] Hint Extern 0 (dv_shape _ _) => eassumption : ct.
#[global] Hint Extern 0 (opt_shape _ _) => eassumption : ct.
#[global] Hint Extern 0 (Forall2 _ _ _) => eassumption : ct.
#[global] Hint Extern 1 (@eq _ _ _) => solve [ct_pub] : ct.

Ltac ct_leaf0 :=
  first [ apply ct_refl; solve [ct_pub]
        | solve [eauto 4 with ct nocore] ].

Ltac ct_release :=
  match goal with
  | H : debug _ = false |- _ => first [rewrite !(rel_dassert H) | rewrite !(rel_dassert_m H)]
  end.

Ltac ct_auto_l lp :=
  cbv beta;
  lazymatch goal with
  | |- ct _ (bind (tick _) _) (bind (tick _) _) =>
    first [apply ct_tick; [apply f_equal; first [reflexivity | f_equal; solve [ct_pub]] | ct_auto_l lp] | idtac]
  | |- ct _ (bind (dassert _) _) _ => ct_release; ct_auto_l lp
  | |- ct _ (bind (dassert_m _) _) _ => ct_release; ct_auto_l lp
  | |- ct _ (bind _ _) (bind _ _) =>
    eapply ct_bind; [ct_leaf lp | intros ? ? ?; cbv beta in *; ct_norm; ct_auto_l lp]
  | |- ct ?R (let x := ?e in @?k x) (let y := ?e' in @?k' y) =>
    first [ apply (ct_let _ _ eq R e e' k k'); [solve [ct_pub] | intros ? ? ?; cbv beta in *; ct_norm; ct_auto_l lp]
          | apply (ct_let _ _ drel R e e' k k'); [ct_rel | intros ? ? ?; cbv beta in *; ct_norm; ct_auto_l lp] ]
  | |- ct _ (if _ then _ else _) (if _ then _ else _) =>
    first [apply ct_if; [solve [ct_pub] | let H := fresh in intros H; first [discriminate H | ct_auto_l lp]
                      | let H := fresh in intros H; first [discriminate H | ct_auto_l lp] ] | idtac]
  | |- ct _ (match ?p with (_, _) => _ end) (match ?q with (_, _) => _ end) =>
    first [constr_eq p q; destruct p; ct_auto_l lp
          | let E := fresh in assert (E : p = q) by ct_pub; rewrite <- E; clear E; destruct p; ct_auto_l lp
          | destruct p, q; ct_auto_l lp]
  | |- ct _ (ret _) (ret _) => apply ct_ret; ct_rel
  | |- ct _ panic panic => apply ct_panic
  | |- ct _ (zfor _ _ _ _) (zfor _ _ _ _) =>
    first [apply ct_for; [solve [ct_pub] | solve [ct_pub] | ct_rel
                         | intros ? ? ? ? ?; ct_norm; ct_auto_l lp] | idtac]
  | |- ct _ (zfor_down _ _ _ _) (zfor_down _ _ _ _) =>
    first [apply ct_for_down; [solve [ct_pub] | solve [ct_pub] | ct_rel
                         | intros ? ? ? ? ?; ct_norm; ct_auto_l lp] | idtac]
  | |- ct _ _ _ =>
    first [eapply ct_weaken; [ct_leaf0 | intros; ct_norm; ct_rel] | idtac]
  | |- _ => idtac
  end
with ct_leaf lp := first [ ct_leaf0 | lp | apply ct_default; ct_auto_l lp | idtac ].

(** [ct_auto] works through both runs in lockstep; [ct_auto_l lp] lets [lp] supply
    the relation for loops whose state is partly public. *)
Ltac ct_auto := ct_auto_l fail.
