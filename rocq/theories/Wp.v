(** Total-correctness rules for the execution model. *)
From Coq Require Import ZArith List Bool Lia.
Require Import Verif.Spec Verif.Base Verif.Monad.
Import ListNotations.
Open Scope Z_scope.

Lemma LB_cases : forall {c : cfg}, LB = 4 \/ LB = 8.
Proof. intros c. unfold LB. destruct (limb64 c); auto. Qed.
Lemma LB_pos : forall {c : cfg}, 0 < LB.
Proof. intros c. destruct LB_cases; lia. Qed.
Lemma W_eq : forall {c : cfg}, W = 8 * LB.
Proof. reflexivity. Qed.
Lemma W_cases : forall {c : cfg}, W = 32 \/ W = 64.
Proof. intros c. unfold W. destruct LB_cases as [E|E]; rewrite E; auto. Qed.
Lemma W_pos : forall {c : cfg}, 0 < W.
Proof. intros c. destruct W_cases; lia. Qed.
Lemma B_eq : forall {c : cfg}, B = 2 ^ W.
Proof. reflexivity. Qed.
Lemma B_cases : forall {c : cfg}, B = 2 ^ 32 \/ B = 2 ^ 64.
Proof. intros c. unfold B. destruct W_cases as [E|E]; rewrite E; auto. Qed.
Lemma B_gt : forall {c : cfg}, 4294967296 <= B.
Proof. intros c. destruct B_cases as [E|E]; rewrite E; vm_compute; congruence. Qed.
Lemma B_pos : forall {c : cfg}, 0 < B.
Proof. intros c. pose proof B_gt. lia. Qed.
Lemma B_256 : forall {c : cfg}, B = 256 ^ LB.
Proof.
  intros c. unfold B. rewrite W_eq. change 256 with (2 ^ 8).
  rewrite <- Z.pow_mul_r; destruct LB_cases; lia.
Qed.
Lemma B_pow2_half : forall {c : cfg}, B = 2 * 2 ^ (W - 1).
Proof.
  intros c. unfold B. pose proof W_pos.
  replace W with (1 + (W - 1)) at 1 by lia. rewrite Z.pow_add_r by lia. reflexivity.
Qed.
Lemma HW_eq : forall {c : cfg}, W = 2 * HW /\ 0 < HW.
Proof. intros c. unfold HW. destruct W_cases as [E|E]; rewrite E; vm_compute; split; reflexivity. Qed.
Lemma B_HW : forall {c : cfg}, B = 2 ^ HW * 2 ^ HW.
Proof.
  intros c. unfold B. destruct HW_eq as [E P]. rewrite E at 1.
  replace (2 * HW) with (HW + HW) by lia. rewrite Z.pow_add_r by lia. reflexivity.
Qed.
Lemma UW_cases : forall {c : cfg}, UW = 32 \/ UW = 64.
Proof. intros c. unfold UW. destruct (usize64 c); auto. Qed.
Lemma UW_pos : forall {c : cfg}, 0 < UW.
Proof. intros c. destruct UW_cases; lia. Qed.
Lemma UW_gt : forall {c : cfg}, 4294967296 <= 2 ^ UW.
Proof. intros c. destruct UW_cases as [E|E]; rewrite E; vm_compute; congruence. Qed.

Definition wp {A} (m : M A) (Q : A -> Prop) : Prop :=
  match snd m with Some a => Q a | None => False end.

Lemma wp_ret : forall A (a : A) (Q : A -> Prop), Q a -> wp (ret a) Q.
Proof. intros. exact H. Qed.
Lemma wp_tick : forall e (Q : unit -> Prop), Q tt -> wp (tick e) Q.
Proof. intros. exact H. Qed.
Lemma wp_bind : forall A C (m : M A) (f : A -> M C) (Q : C -> Prop),
  wp m (fun a => wp (f a) Q) -> wp (bind m f) Q.
Proof.
  intros A C [t [a|]] f Q H; unfold wp, bind in *; cbn in *; auto.
Qed.
Lemma wp_bind_inv : forall A C (m : M A) (f : A -> M C) (Q : C -> Prop),
  wp (bind m f) Q -> wp m (fun a => wp (f a) Q).
Proof.
  intros A C [t [a|]] f Q H; unfold wp, bind in *; cbn in *; auto.
Qed.
Lemma wp_mono : forall A (m : M A) (Q Q' : A -> Prop),
  wp m Q -> (forall a, Q a -> Q' a) -> wp m Q'.
Proof. intros A [t [a|]] Q Q' H HQ; unfold wp in *; cbn in *; auto. Qed.
Lemma wp_and : forall A (m : M A) (Q Q' : A -> Prop), wp m Q -> wp m Q' -> wp m (fun a => Q a /\ Q' a).
Proof. intros A [t [a|]] Q Q' H HQ; unfold wp in *; cbn in *; auto. Qed.
Lemma wp_if : forall A (b : bool) (m1 m2 : M A) Q,
  (b = true -> wp m1 Q) -> (b = false -> wp m2 Q) -> wp (if b then m1 else m2) Q.
Proof. intros. destruct b; auto. Qed.
Lemma wp_mif : forall A (b : bool) (m1 m2 : M A) Q,
  (b = true -> wp m1 Q) -> (b = false -> wp m2 Q) -> wp (mif b then m1 else m2) Q.
Proof. intros. apply wp_bind, wp_tick. destruct b; auto. Qed.
Lemma wp_returns : forall A (m : M A) (Q : A -> Prop), wp m Q -> exists a, returns m a /\ Q a.
Proof. intros A [t [a|]] Q H; unfold wp, returns in *; cbn in *; [eauto|tauto]. Qed.
Lemma wp_of_returns : forall A (m : M A) a (Q : A -> Prop), returns m a -> Q a -> wp m Q.
Proof. intros A m a Q E H; unfold wp, returns in *. rewrite E. auto. Qed.
Lemma wp_no_panic : forall A (m : M A) (Q : A -> Prop), wp m Q -> ~ panics m.
Proof. intros A [t [a|]] Q H; unfold wp, panics in *; cbn in *; [congruence|tauto]. Qed.

Lemma wp_dassert : forall {c : cfg} b (Q : unit -> Prop), b = true -> Q tt -> wp (dassert b) Q.
Proof. intros c b Q -> H. unfold dassert. destruct (debug c); exact H. Qed.
Lemma wp_dassert_m : forall {c : cfg} m (Q : unit -> Prop),
  wp m (fun b => b = true) -> Q tt -> wp (dassert_m m) Q.
Proof.
  intros c m Q Hm H. unfold dassert_m. destruct (debug c); [|exact H].
  apply wp_bind. eapply wp_mono; [exact Hm|]. intros b ->. exact H.
Qed.
Lemma wp_assert : forall b (Q : unit -> Prop), b = true -> Q tt -> wp (assert b) Q.
Proof. intros b Q -> H. exact H. Qed.

Lemma wp_ovf : forall {c : cfg} bits v (Q : Z -> Prop), 0 <= v < 2 ^ bits -> Q v -> wp (ovf bits v) Q.
Proof.
  intros c bits v Q Hv H. unfold ovf.
  replace ((0 <=? v) && (v <? 2 ^ bits)) with true; [exact H|].
  symmetry. apply andb_true_intro. split; [apply Z.leb_le|apply Z.ltb_lt]; lia.
Qed.
Lemma wp_ladd : forall {c : cfg} a b (Q : Z -> Prop), 0 <= a + b < B -> Q (a + b) -> wp (ladd a b) Q.
Proof. intros. apply wp_ovf; auto. Qed.
Lemma wp_lsub : forall {c : cfg} a b (Q : Z -> Prop), 0 <= a - b < B -> Q (a - b) -> wp (lsub a b) Q.
Proof. intros. apply wp_ovf; auto. Qed.
Lemma wp_lmul : forall {c : cfg} a b (Q : Z -> Prop), 0 <= a * b < B -> Q (a * b) -> wp (lmul a b) Q.
Proof. intros. apply wp_ovf; auto. Qed.
Lemma wp_usub : forall {c : cfg} a b (Q : Z -> Prop), b <= a -> Q (a - b) -> wp (usub a b) Q.
Proof. intros. unfold usub. destruct (Z.leb_spec b a); [auto|lia]. Qed.
Lemma wp_sub32 : forall {c : cfg} a b (Q : Z -> Prop), b <= a -> Q (a - b) -> wp (sub32 a b) Q.
Proof. intros. unfold sub32. destruct (Z.leb_spec b a); [auto|lia]. Qed.
Lemma wp_shamt : forall {c : cfg} bits s (Q : Z -> Prop), s < bits -> Q s -> wp (shamt bits s) Q.
Proof. intros c bits s Q Hs H. unfold shamt. destruct (Z.ltb_spec s bits); [exact H|lia]. Qed.
Lemma wp_lshl : forall {c : cfg} a s (Q : Z -> Prop), 0 <= s < W -> Q ((a * 2 ^ s) mod B) -> wp (lshl a s) Q.
Proof.
  intros. unfold lshl. apply wp_bind, wp_shamt; [lia|]. apply wp_ret.
  rewrite Z.shiftl_mul_pow2 by lia. auto.
Qed.
Lemma wp_lshr : forall {c : cfg} a s (Q : Z -> Prop), 0 <= s < W -> Q (a / 2 ^ s) -> wp (lshr a s) Q.
Proof.
  intros. unfold lshr. apply wp_bind, wp_shamt; [lia|]. apply wp_ret.
  rewrite Z.shiftr_div_pow2 by lia. auto.
Qed.
Lemma wp_ldivhw : forall a b (Q : Z -> Prop), b <> 0 -> Q (a / b) -> wp (ldivhw a b) Q.
Proof.
  intros. unfold ldivhw. apply wp_bind, wp_tick.
  destruct (Z.eqb_spec b 0); [lia|]. apply wp_ret; auto.
Qed.

Lemma wp_for_aux : forall S (body : Z -> S -> M S) (I : Z -> S -> Prop) n i s,
  (forall j s, i <= j < i + Z.of_nat n -> I j s -> wp (body j s) (fun s' => I (j + 1) s')) ->
  I i s -> wp (for_aux n i body s) (I (i + Z.of_nat n)).
Proof.
  intros S body I n. induction n; intros i s Hb Hi; cbn [for_aux].
  - apply wp_bind, wp_tick, wp_ret. rewrite Z.add_0_r. auto.
  - apply wp_bind, wp_tick, wp_bind.
    eapply wp_mono; [apply Hb; [lia|auto]|]. cbn beta. intros s' Hs'.
    replace (i + Z.of_nat (Datatypes.S n)) with ((i + 1) + Z.of_nat n) by lia.
    apply IHn; auto. intros. apply Hb; auto. lia.
Qed.
Lemma wp_for : forall S (I : Z -> S -> Prop) lo hi (body : Z -> S -> M S) s (Q : S -> Prop),
  lo <= hi -> I lo s ->
  (forall i s, lo <= i < hi -> I i s -> wp (body i s) (fun s' => I (i + 1) s')) ->
  (forall s, I hi s -> Q s) ->
  wp (zfor lo hi body s) Q.
Proof.
  intros. unfold zfor. eapply wp_mono; [apply wp_for_aux with (I := I); auto|].
  - intros. apply H1; auto. lia.
  - cbn beta. intros a. replace (lo + Z.of_nat (Z.to_nat (hi - lo))) with hi by lia. auto.
Qed.
(** Empty range. *)
Lemma wp_for_empty : forall S lo hi (body : Z -> S -> M S) s (Q : S -> Prop),
  hi <= lo -> Q s -> wp (zfor lo hi body s) Q.
Proof. intros. unfold zfor. replace (Z.to_nat (hi - lo)) with O by lia. cbn [for_aux].
  apply wp_bind, wp_tick, wp_ret. auto. Qed.

Lemma wp_for_down_aux : forall S (body : Z -> S -> M S) (I : Z -> S -> Prop) n lo s,
  (forall j s, lo <= j < lo + Z.of_nat n -> I (j + 1) s -> wp (body j s) (fun s' => I j s')) ->
  I (lo + Z.of_nat n) s -> wp (for_down_aux n lo body s) (I lo).
Proof.
  intros S body I n. induction n; intros lo s Hb Hi; cbn [for_down_aux].
  - apply wp_bind, wp_tick, wp_ret. rewrite Z.add_0_r in Hi. auto.
  - apply wp_bind, wp_tick, wp_bind.
    eapply wp_mono; [apply Hb; [lia|]|].
    + replace (lo + Z.of_nat n + 1) with (lo + Z.of_nat (Datatypes.S n)) by lia. auto.
    + cbn beta. intros. apply IHn; auto. intros. apply Hb; auto. lia.
Qed.
Lemma wp_for_down : forall S (I : Z -> S -> Prop) lo hi (body : Z -> S -> M S) s (Q : S -> Prop),
  lo <= hi -> I hi s ->
  (forall i s, lo <= i < hi -> I (i + 1) s -> wp (body i s) (fun s' => I i s')) ->
  (forall s, I lo s -> Q s) ->
  wp (zfor_down lo hi body s) Q.
Proof.
  intros. unfold zfor_down. eapply wp_mono; [apply wp_for_down_aux with (I := I); auto|auto].
  - intros. apply H1; auto. lia.
  - replace (lo + Z.of_nat (Z.to_nat (hi - lo))) with hi by lia. auto.
Qed.

Lemma wp_slice : forall A (l : list A) a b (Q : list A -> Prop),
  0 <= a <= b -> b <= zlen l ->
  Q (firstn (Z.to_nat (b - a)) (skipn (Z.to_nat a) l)) -> wp (slice l a b) Q.
Proof.
  intros. unfold slice.
  replace ((0 <=? a) && (a <=? b) && (b <=? zlen l)) with true; [exact H1|].
  symmetry. repeat (apply andb_true_intro; split); apply Z.leb_le; lia.
Qed.
Lemma wp_znth : forall l i (Q : Z -> Prop),
  0 <= i < zlen l -> Q (nth (Z.to_nat i) l 0) -> wp (znth l i) Q.
Proof.
  intros. unfold znth.
  replace ((0 <=? i) && (i <? zlen l)) with true; [exact H0|].
  symmetry. apply andb_true_intro; split; [apply Z.leb_le|apply Z.ltb_lt]; lia.
Qed.
Lemma wp_zupd : forall l i v (Q : list Z -> Prop),
  0 <= i < zlen l -> Q (splice l i [v]) -> wp (zupd l i v) Q.
Proof.
  intros. unfold zupd.
  replace ((0 <=? i) && (i <? zlen l)) with true; [exact H0|].
  symmetry. apply andb_true_intro; split; [apply Z.leb_le|apply Z.ltb_lt]; lia.
Qed.
