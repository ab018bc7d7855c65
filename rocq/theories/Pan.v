(** Rules to show that a computation panics. *)
From Coq Require Import ZArith List Bool Lia.
Require Import Verif.Spec Verif.Base Verif.Monad Verif.Wp.
Import ListNotations.
Open Scope Z_scope.

Section S.
Context {c : cfg}.

(** ** Rules for panics *)
Lemma pan_any : forall A C (m : M A) (f : A -> M C), (forall a, returns m a -> panics (f a)) -> panics (bind m f).
Proof.
  intros A C [t [a|]] f H; unfold panics, bind, returns in *; cbn in *; [|auto]. specialize (H a eq_refl).
  destruct (f a) as [t' [b|]]; cbn in *; auto. 
Qed.
Lemma pan_l : forall A C (m : M A) (f : A -> M C), panics m -> panics (bind m f).
Proof. intros A C [t [a|]] f H; unfold panics, bind in *; cbn in *; [discriminate|auto]. Qed.
Lemma pan_wp : forall A C (m : M A) (f : A -> M C), wp m (fun a => panics (f a)) -> panics (bind m f).
Proof. intros A C [t [a|]] f H; unfold panics, wp, bind in *; cbn in *; [|auto]. destruct (f a) as [t' [b|]]; cbn in *; auto. Qed.
Lemma pan_mif : forall A (b : bool) (m1 m2 : M A), (b = true -> panics m1) -> (b = false -> panics m2) -> panics (mif b then m1 else m2).
Proof. intros A b m1 m2 H1 H2. apply pan_any. intros [] _. destruct b; auto. Qed.
Lemma pan_panic : forall A, panics (@panic A).
Proof. reflexivity. Qed.
Lemma pan_dassert : forall b, debug c = true -> b = false -> panics (dassert b).
Proof. intros b D ->. unfold dassert. rewrite D. reflexivity. Qed.
Lemma pan_slice : forall A (l : list A) a b, (a < 0 \/ b < a \/ zlen l < b) -> panics (slice l a b).
Proof.
  intros A l a b H. unfold slice. destruct ((0 <=? a) && (a <=? b) && (b <=? zlen l)) eqn:E; [|apply pan_panic]. exfalso.
  apply andb_true_iff in E. destruct E as [E E3]. apply andb_true_iff in E. destruct E as [E1 E2].
  apply Z.leb_le in E1, E2, E3. lia.
Qed.
Lemma pan_znth : forall l i, zlen l <= i -> panics (znth l i).
Proof. intros l i H. unfold znth. destruct (i <? zlen l) eqn:E; [apply Z.ltb_lt in E; lia|]. rewrite andb_false_r. apply pan_panic. Qed.
Lemma pan_for : forall T lo hi (body : Z -> T -> M T) s, lo < hi -> panics (body lo s) -> panics (zfor lo hi body s).
Proof.
  intros T lo hi body s H HP. unfold zfor. destruct (Z.to_nat (hi - lo)) as [|n] eqn:E; [lia|]. cbn [for_aux].
  apply pan_any. intros [] _. apply pan_l. exact HP.
Qed.
Lemma pan_no : forall A (m : M A), (forall a, ~ returns m a) -> panics m.
Proof. intros A [t [a|]] H; unfold returns, panics in *; cbn in *; [exfalso; apply (H a); auto|auto]. Qed.
Lemma pan_not : forall A (m : M A) a, panics m -> returns m a -> False.
Proof. intros A [t [x|]] a H1 H2; unfold returns, panics in *; cbn in *; congruence. Qed.

(** A subtraction that would be negative panics or wraps to a number no slice of [l] reaches. *)
Lemma usub_neg : forall a b x, 0 <= a < b -> b <= 8 * LB -> returns (usub a b) x -> x = 2 ^ UW - (b - a).
Proof.
  intros a b x H HB HR. unfold usub in HR. destruct (b <=? a) eqn:E; [apply Z.leb_le in E; lia|].
  destruct (debug c); [discriminate|]. injection HR as <-. pose proof UW_gt. destruct LB_cases as [L|L]; rewrite L in *;
  symmetry; apply Z.mod_unique with (-1); lia.
Qed.

Lemma pan_pair : forall A A2 C (a : M A) (b : A -> M A2) (K : A -> A2 -> M C) (P : A * A2 -> Prop),
  wp (let! x := a in let! y := b x in ret (x, y)) P -> (forall x y, P (x, y) -> panics (K x y)) -> panics (let! x := a in let! y := b x in K x y).
Proof.
  intros A A2 C a b K P H HP. apply wp_bind_inv in H. apply pan_wp. eapply wp_mono; [exact H|]. intros x Hx. apply wp_bind_inv in Hx.
  apply pan_wp. eapply wp_mono; [exact Hx|]. intros y Hy. apply HP. exact Hy.
Qed.

End S.
