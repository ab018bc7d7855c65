(** The division steps of Bernstein and Yang and the number of them that suffices: after 2 w steps, taken in groups of
    2 e, the vector (f, 2 g) has shrunk by the factor (34/55)^w in the norm given by the functionals [fnl] below. This is a
    proof for all sizes of the operands, no computation beyond the one on the eleven functionals is needed. *)
From Coq Require Import ZArith List Bool Lia Znumtheory.
Import ListNotations.
Open Scope Z_scope.

(** ** Division steps *)
Definition divstep (s : Z * Z * Z) : Z * Z * Z :=
  let '(d, f, g) := s in
  if (0 <? d) && Z.odd g then (1 - d, g, (g - f) / 2)
  else (1 + d, f, (g + (if Z.odd g then f else 0)) / 2).
Fixpoint dsteps (n : nat) (s : Z * Z * Z) : Z * Z * Z :=
  match n with O => s | S n => dsteps n (divstep s) end.

Lemma dsteps_plus : forall n m s, dsteps (n + m) s = dsteps m (dsteps n s).
Proof. induction n; intros; [auto|apply IHn]. Qed.
Lemma dsteps_S : forall n s, dsteps (S n) s = divstep (dsteps n s).
Proof. intros. rewrite <- Nat.add_1_r, dsteps_plus. auto. Qed.

Lemma odd_half_sub : forall f g, Z.odd f = true -> Z.odd g = true -> 2 * ((g - f) / 2) = g - f.
Proof.
  intros f g Hf Hg. assert (E : Z.odd (g - f) = false) by (rewrite Z.odd_sub, Hf, Hg; auto).
  pose proof (Zmod_odd (g - f)). rewrite E in H. pose proof (Z.div_mod (g - f) 2). lia.
Qed.
Lemma odd_half_add : forall f g, Z.odd f = true -> 2 * ((g + (if Z.odd g then f else 0)) / 2) = g + (if Z.odd g then f else 0).
Proof.
  intros f g Hf. assert (E : Z.odd (g + (if Z.odd g then f else 0)) = false) by (rewrite Z.odd_add; destruct (Z.odd g); [rewrite Hf|]; auto).
  pose proof (Zmod_odd (g + (if Z.odd g then f else 0))). rewrite E in H. pose proof (Z.div_mod (g + (if Z.odd g then f else 0)) 2). lia.
Qed.

Lemma divstep_odd : forall s, Z.odd (snd (fst s)) = true -> Z.odd (snd (fst (divstep s))) = true.
Proof. intros [[d f] g] H. unfold divstep. cbn [fst snd] in *. destruct (0 <? d), (Z.odd g) eqn:E; cbn; auto. Qed.
Lemma dsteps_odd : forall n s, Z.odd (snd (fst s)) = true -> Z.odd (snd (fst (dsteps n s))) = true.
Proof. induction n; intros; [auto|]. apply IHn, divstep_odd; auto. Qed.

Lemma divstep_zero : forall d f, divstep (d, f, 0) = (1 + d, f, 0).
Proof. intros. unfold divstep. rewrite andb_comm. auto. Qed.
Lemma dsteps_zero : forall n d f, dsteps n (d, f, 0) = (d + Z.of_nat n, f, 0).
Proof. induction n; intros. - cbn. rewrite Z.add_0_r. auto. - cbn [dsteps]. rewrite divstep_zero, IHn, Nat2Z.inj_succ. f_equal. f_equal. lia. Qed.

(** Divisions by two as long as g is even. *)
Lemma dsteps_even : forall n d f g, dsteps n (d, f, 2 ^ Z.of_nat n * g) = (d + Z.of_nat n, f, g).
Proof.
  induction n; intros. { change (2 ^ Z.of_nat 0) with 1. cbn [dsteps Z.of_nat]. rewrite Z.mul_1_l, Z.add_0_r. auto. }
  cbn [dsteps]. assert (E : 2 ^ Z.of_nat (S n) * g = 2 * (2 ^ Z.of_nat n * g)) by (rewrite Nat2Z.inj_succ, Z.pow_succ_r by lia; ring).
  assert (O : Z.odd (2 ^ Z.of_nat (S n) * g) = false) by (rewrite E, Z.odd_mul; auto).
  unfold divstep. rewrite O, andb_false_r, Z.add_0_r, E, (Z.mul_comm 2), Z.div_mul by lia. rewrite IHn, Nat2Z.inj_succ. f_equal. f_equal. lia.
Qed.

(** Steps with delta not positive: f stays and a multiple of it is added to g. *)
Lemma dsteps_neg : forall n d f g, d + Z.of_nat n <= 1 -> Z.odd f = true ->
  exists r g', 0 <= r < 2 ^ Z.of_nat n /\ 2 ^ Z.of_nat n * g' = g + r * f /\ dsteps n (d, f, g) = (d + Z.of_nat n, f, g').
Proof.
  induction n; intros d f g Hd Hf. { exists 0, g. change (2 ^ Z.of_nat 0) with 1. cbn [dsteps Z.of_nat]. split; [lia|]. split; [lia|]. rewrite Z.add_0_r. auto. }
  cbn [dsteps]. rewrite Nat2Z.inj_succ in *. unfold divstep. destruct (Z.ltb_spec 0 d); [lia|]. cbn [andb].
  pose proof (odd_half_add f g Hf) as E. set (g1 := (g + (if Z.odd g then f else 0)) / 2) in *.
  destruct (IHn (1 + d) f g1) as (r & g' & Hr & E2 & E3); [lia|auto|].
  exists (2 * r + (if Z.odd g then 1 else 0)), g'. rewrite Z.pow_succ_r by lia. split; [destruct (Z.odd g); lia|]. split.
  - rewrite <- Z.mul_assoc, E2. destruct (Z.odd g); lia.
  - rewrite E3. f_equal. f_equal. lia.
Qed.

(** A group of 2 e steps: 2^e is the power of two dividing 2 g. *)
Lemma dsteps_group : forall e f g, Z.odd f = true -> Z.odd g = true ->
  exists q g', 1 <= q < 2 ^ (Z.of_nat e + 2) /\ 2 ^ (Z.of_nat e + 2) * g' = q * g - f /\
    dsteps (2 * (e + 1)) (1, f, 2 ^ Z.of_nat e * g) = (1, g, g').
Proof.
  intros e f g Hf Hg. replace (2 * (e + 1))%nat with (e + (1 + (e + 1)))%nat by lia. rewrite (dsteps_plus e), dsteps_even, (dsteps_plus 1).
  assert (D : dsteps 1 (1 + Z.of_nat e, f, g) = (- Z.of_nat e, g, (g - f) / 2)).
  { cbn [dsteps]. unfold divstep. destruct (Z.ltb_spec 0 (1 + Z.of_nat e)); [|lia]. rewrite Hg. cbn [andb]. f_equal. f_equal. lia. }
  rewrite D. destruct (dsteps_neg (e + 1) (- Z.of_nat e) g ((g - f) / 2)) as (r & g' & Hr & E1 & E2); [lia|auto|].
  pose proof (odd_half_sub f g Hf Hg) as H2.
  assert (P : 2 ^ (Z.of_nat e + 2) = 2 * 2 ^ Z.of_nat (e + 1)) by (rewrite <- Z.pow_succ_r by lia; f_equal; lia).
  exists (2 * r + 1), g'. split; [lia|]. split; [rewrite P, <- Z.mul_assoc, E1; lia|].
  rewrite E2. f_equal. f_equal. lia.
Qed.

(** ** The norm *)
Definition fnl : list (Z * Z) :=
  [(60, 25); (39, 42); (13, 63); (20, -79); (34, -83); (51, -87); (65, -80); (68, -74); (76, -48); (85, -16); (85, 0)].
Definition inP (n f h : Z) : Prop := Forall (fun ab => Z.abs (fst ab * f + snd ab * h) <= n) fnl.

Lemma inP_nth : forall n f h i, inP n f h -> - n <= fst (nth i fnl (0, 0)) * f + snd (nth i fnl (0, 0)) * h <= n \/ (length fnl <= i)%nat.
Proof.
  intros n f h i H. destruct (Nat.lt_ge_cases i (length fnl)) as [L|L]; [left|right; auto].
  unfold inP in H. rewrite Forall_forall in H. specialize (H _ (nth_In fnl (0, 0) L)). apply Z.abs_le in H. auto.
Qed.
(** One of the inequalities. *)
Ltac use H i := let L := fresh "L" in destruct (inP_nth _ _ _ i H) as [L|L]; [cbn [nth fst snd fnl] in L|exfalso; cbn in L; lia].
Ltac inP_goal := unfold inP, fnl; repeat (apply Forall_cons; [cbn [fst snd]|]); try apply Forall_nil.

Lemma inP_box : forall X f h, Z.abs f <= X -> Z.abs h <= 2 * X -> inP (225 * X) f h.
Proof. intros. inP_goal; lia. Qed.
Lemma inP_height : forall n f h, inP n f h -> 900 * Z.abs h <= 13 * n.
Proof. intros n f h H. use H 2%nat. use H 3%nat. lia. Qed.

(** *** Contraction *)
Lemma between : forall q m y, 1 <= q <= m -> (0 <= y /\ y <= q * y <= m * y) \/ (y <= 0 /\ m * y <= q * y <= y).
Proof. intros q m y H. destruct (Z_le_dec 0 y); [left|right]; split; nia. Qed.

Lemma contract1 : forall n f y q z, inP n f (2 * y) -> 1 <= q <= 3 -> 2 * z = q * y - f -> inP (34 * n) (55 * y) (55 * z).
Proof.
  intros n f y q z H Hq E. pose proof (between q 3 y Hq) as P. set (p := q * y) in *. clearbody p. clear Hq q.
  inP_goal; apply Z.abs_le.
  - use H 3%nat. use H 4%nat. lia.
  - use H 4%nat. use H 5%nat. use H 6%nat. lia.
  - use H 4%nat. use H 5%nat. use H 7%nat. use H 8%nat. lia.
  - use H 5%nat. use H 6%nat. use H 8%nat. use H 9%nat. lia.
  - use H 6%nat. use H 7%nat. use H 9%nat. use H 10%nat. lia.
  - use H 0%nat. use H 7%nat. use H 8%nat. use H 10%nat. lia.
  - use H 0%nat. use H 7%nat. use H 8%nat. use H 10%nat. lia.
  - use H 0%nat. use H 1%nat. use H 8%nat. use H 9%nat. lia.
  - use H 0%nat. use H 1%nat. use H 2%nat. use H 10%nat. lia.
  - use H 1%nat. use H 2%nat. lia.
  - use H 2%nat. use H 3%nat. lia.
Qed.
Lemma contract2 : forall n f y q z, inP n f (4 * y) -> 1 <= q <= 7 -> 4 * z = q * y - f -> inP (34 ^ 2 * n) (55 ^ 2 * y) (55 ^ 2 * z).
Proof.
  intros n f y q z H Hq E. pose proof (between q 7 y Hq) as P. set (p := q * y) in *. clearbody p. clear Hq q.
  change (34 ^ 2) with 1156. change (55 ^ 2) with 3025. inP_goal; apply Z.abs_le.
  - use H 2%nat. use H 3%nat. use H 4%nat. lia.
  - use H 3%nat. use H 4%nat. use H 6%nat. use H 7%nat. lia.
  - use H 4%nat. use H 5%nat. use H 8%nat. use H 9%nat. lia.
  - use H 0%nat. use H 5%nat. use H 6%nat. use H 10%nat. lia.
  - use H 0%nat. use H 5%nat. use H 6%nat. use H 10%nat. lia.
  - use H 0%nat. use H 6%nat. use H 7%nat. use H 10%nat. lia.
  - use H 0%nat. use H 1%nat. use H 7%nat. use H 8%nat. lia.
  - use H 0%nat. use H 1%nat. use H 7%nat. use H 8%nat. lia.
  - use H 1%nat. use H 2%nat. use H 9%nat. use H 10%nat. lia.
  - use H 1%nat. use H 2%nat. use H 3%nat. lia.
  - use H 2%nat. use H 3%nat. lia.
Qed.
(** The crude bound that suffices for large powers of two. *)
Lemma crude : forall n f h p, inP n f h -> (0 <= h /\ 0 <= p <= 2 * h) \/ (h <= 0 /\ 2 * h <= p <= 0) ->
  Forall (fun ab => 5 * Z.abs (fst ab * h + snd ab * (p - f)) <= 9 * n) fnl.
Proof.
  intros n f h p H P. unfold fnl at 1. repeat (apply Forall_cons; [cbn [fst snd]|]); try apply Forall_nil.
  - use H 2%nat. use H 3%nat. use H 4%nat. use H 5%nat. lia.
  - use H 3%nat. use H 4%nat. use H 7%nat. use H 8%nat. lia.
  - use H 4%nat. use H 5%nat. use H 8%nat. use H 9%nat. lia.
  - use H 0%nat. use H 4%nat. use H 5%nat. use H 10%nat. lia.
  - use H 0%nat. use H 5%nat. use H 6%nat. use H 10%nat. lia.
  - use H 0%nat. use H 1%nat. use H 5%nat. use H 6%nat. lia.
  - use H 0%nat. use H 1%nat. use H 6%nat. use H 7%nat. lia.
  - use H 0%nat. use H 1%nat. use H 7%nat. use H 8%nat. lia.
  - use H 1%nat. use H 2%nat. use H 8%nat. use H 9%nat. lia.
  - use H 1%nat. use H 2%nat. use H 3%nat. lia.
  - use H 2%nat. use H 3%nat. lia.
Qed.

Lemma Forall_scale : forall n f h, Forall (fun ab => Z.abs (fst ab * f + snd ab * h) <= n) fnl <-> inP n f h.
Proof. reflexivity. Qed.

Lemma pow_ratio : forall e, 3 <= e -> 9 * 55 ^ e <= 5 * 68 ^ e.
Proof.
  intros e He. replace e with (3 + (e - 3)) by lia. generalize (e - 3) (proj2 (Z.le_0_sub 3 e) He). clear. intros k Hk. revert k Hk.
  apply (natlike_ind (fun k => 9 * 55 ^ (3 + k) <= 5 * 68 ^ (3 + k))); [vm_compute; congruence|].
  intros k Hk IH. replace (3 + Z.succ k) with (Z.succ (3 + k)) by lia. rewrite !Z.pow_succ_r by lia.
  assert (0 < 68 ^ (3 + k)) by (apply Z.pow_pos_nonneg; lia). lia.
Qed.

Lemma contract : forall e n f y q z, 1 <= e -> 0 <= n -> inP n f (2 ^ e * y) -> 1 <= q < 2 ^ (e + 1) -> 2 ^ e * z = q * y - f ->
  inP (34 ^ e * n) (55 ^ e * y) (55 ^ e * z).
Proof.
  intros e n f y q z He Hn H Hq E. assert (e = 1 \/ e = 2 \/ 3 <= e) as [->|[->|H3]] by lia.
  - apply (contract1 n f y q z); auto. change (2 ^ (1 + 1)) with 4 in Hq. lia.
  - apply (contract2 n f y q z); auto. change (2 ^ (2 + 1)) with 8 in Hq. lia.
  - rewrite Z.pow_add_r in Hq by lia. change (2 ^ 1) with 2 in Hq.
    assert (P0 : 0 < 2 ^ e) by (apply Z.pow_pos_nonneg; lia). assert (D0 : 0 < 55 ^ e) by (apply Z.pow_pos_nonneg; lia).
    assert (C : Forall (fun ab => 5 * Z.abs (fst ab * (2 ^ e * y) + snd ab * (q * y - f)) <= 9 * n) fnl).
    { apply crude; auto. destruct (Z_le_dec 0 y); [left|right]; nia. }
    assert (R : 9 * 55 ^ e <= 5 * (2 ^ e * 34 ^ e)) by (rewrite <- Z.pow_mul_l; apply pow_ratio; auto).
    unfold inP. eapply Forall_impl; [|exact C]. intros [a b] L. cbn [fst snd] in *. rewrite <- E in L.
    replace (a * (2 ^ e * y) + b * (2 ^ e * z)) with (2 ^ e * (a * y + b * z)) in L by ring.
    replace (a * (55 ^ e * y) + b * (55 ^ e * z)) with (55 ^ e * (a * y + b * z)) by ring.
    rewrite Z.abs_mul, (Z.abs_eq (2 ^ e)) in L by lia. rewrite Z.abs_mul, (Z.abs_eq (55 ^ e)) by lia.
    set (v := Z.abs (a * y + b * z)) in *. apply (Z.mul_le_mono_pos_l _ _ (5 * 2 ^ e)); [lia|].
    replace (5 * 2 ^ e * (55 ^ e * v)) with (55 ^ e * (5 * (2 ^ e * v))) by ring.
    transitivity (55 ^ e * (9 * n)); [apply Z.mul_le_mono_nonneg_l; lia|].
    replace (55 ^ e * (9 * n)) with ((9 * 55 ^ e) * n) by ring. replace (5 * 2 ^ e * (34 ^ e * n)) with ((5 * (2 ^ e * 34 ^ e)) * n) by ring.
    apply Z.mul_le_mono_nonneg_r; lia.
Qed.

(** *** Convergence *)
Lemma odd_part : forall g, g <> 0 -> exists (e : nat) g1, g = 2 ^ Z.of_nat e * g1 /\ Z.odd g1 = true.
Proof.
  intros g. remember (Z.to_nat (Z.abs g)) as k eqn:K. revert g K. induction k as [k IH] using (well_founded_induction lt_wf).
  intros g K Hg. destruct (Z.odd g) eqn:O.
  - exists 0%nat, g. change (2 ^ Z.of_nat 0) with 1. split; [lia|auto].
  - assert (E : g = 2 * (g / 2)). { pose proof (Zmod_odd g) as X. rewrite O in X. pose proof (Z.div_mod g 2). lia. }
    destruct (IH (Z.to_nat (Z.abs (g / 2)))) with (g := g / 2) as (e & g1 & E1 & O1); [lia|auto|lia|].
    exists (S e), g1. rewrite Nat2Z.inj_succ, Z.pow_succ_r by lia. split; [lia|auto].
Qed.

Lemma pow_ratio2 : forall e, 1 <= e -> 68 * 55 ^ e <= 55 * 68 ^ e.
Proof.
  intros e He. replace e with (1 + (e - 1)) by lia. generalize (e - 1) (proj2 (Z.le_0_sub 1 e) He). clear. intros k Hk. revert k Hk.
  apply (natlike_ind (fun k => 68 * 55 ^ (1 + k) <= 55 * 68 ^ (1 + k))); [vm_compute; congruence|].
  intros k Hk IH. replace (1 + Z.succ k) with (Z.succ (1 + k)) by lia. rewrite !Z.pow_succ_r by lia.
  assert (0 < 68 ^ (1 + k)) by (apply Z.pow_pos_nonneg; lia). lia.
Qed.

Lemma converge : forall N w f g X, 0 <= w -> 0 <= X -> Z.odd f = true ->
  inP (34 ^ w * (225 * X)) (55 ^ w * f) (55 ^ w * (2 * g)) ->
  snd (dsteps N (1, f, g)) = 0 \/ exists V, Z.of_nat N + 2 * w < 2 * V /\ 272 * 55 ^ V <= 715 * 34 ^ V * X.
Proof.
  intros N. induction N as [N IH] using (well_founded_induction lt_wf). intros w f g X Hw HX Hf HP.
  destruct (Z.eq_dec g 0) as [->|Hg]; [left; rewrite dsteps_zero; auto|].
  destruct (odd_part g Hg) as (e & g1 & -> & Hg1).
  assert (P5 : 0 < 55 ^ w) by (apply Z.pow_pos_nonneg; lia). assert (P3 : 0 < 34 ^ w) by (apply Z.pow_pos_nonneg; lia).
  assert (E2 : 2 * (2 ^ Z.of_nat e * g1) = 2 ^ (Z.of_nat e + 1) * g1) by (rewrite Z.pow_add_r by lia; change (2 ^ 1) with 2; ring).
  destruct (Nat.le_gt_cases (2 * (e + 1)) N) as [L|L].
  - destruct (dsteps_group e f g1 Hf Hg1) as (q & g' & Hq & E & D).
    replace N with (2 * (e + 1) + (N - 2 * (e + 1)))%nat by lia. rewrite dsteps_plus, D.
    destruct (IH (N - 2 * (e + 1))%nat) with (w := w + (Z.of_nat e + 1)) (f := g1) (g := g') (X := X) as [Z0|(V & V1 & V2)]; [lia|lia|auto|auto| |left; auto|right; exists V; split; [lia|auto]].
    rewrite E2 in HP. replace (55 ^ w * (2 ^ (Z.of_nat e + 1) * g1)) with (2 ^ (Z.of_nat e + 1) * (55 ^ w * g1)) in HP by ring.
    pose proof (contract (Z.of_nat e + 1) (34 ^ w * (225 * X)) (55 ^ w * f) (55 ^ w * g1) q (55 ^ w * (2 * g'))) as C.
    rewrite !(Z.add_comm w), !(Z.pow_add_r _ (Z.of_nat e + 1) w) by lia. rewrite <- !Z.mul_assoc. apply C; auto; [lia|apply Z.mul_nonneg_nonneg; lia| |].
    + rewrite <- Z.add_assoc. auto.
    + replace (Z.of_nat e + 2) with (Z.of_nat e + 1 + 1) in E by lia. rewrite Z.pow_add_r in E by lia. change (2 ^ 1) with 2 in E.
      replace (2 ^ (Z.of_nat e + 1) * (55 ^ w * (2 * g'))) with (55 ^ w * (2 ^ (Z.of_nat e + 1) * 2 * g')) by ring. rewrite E. ring.
  - right. exists (w + (Z.of_nat e + 1)). split; [lia|].
    apply inP_height in HP. rewrite E2, Z.abs_mul, (Z.abs_eq (55 ^ w)), Z.abs_mul, (Z.abs_eq (2 ^ (Z.of_nat e + 1))) in HP by (apply Z.pow_nonneg; lia).
    assert (G1 : 1 <= Z.abs g1) by (destruct (Z.eq_dec g1 0) as [->|]; [discriminate|lia]).
    set (k := Z.of_nat e + 1) in *. assert (K1 : 1 <= k) by lia. clearbody k.
    assert (P2 : 0 < 2 ^ k) by (apply Z.pow_pos_nonneg; lia).
    assert (H4 : 4 * (55 ^ w * 2 ^ k) <= 13 * (34 ^ w * X)).
    { assert (55 ^ w * (2 ^ k * 1) <= 55 ^ w * (2 ^ k * Z.abs g1)) by (apply Z.mul_le_mono_nonneg_l; [lia|apply Z.mul_le_mono_nonneg_l; lia]). lia. }
    pose proof (pow_ratio2 k K1) as R. change 68 with (2 * 34) in R at 2. rewrite Z.pow_mul_l in R.
    rewrite !Z.pow_add_r by lia. assert (P34 : 0 < 34 ^ k) by (apply Z.pow_pos_nonneg; lia).
    pose proof (Z.mul_le_mono_nonneg_r _ _ (34 ^ k) ltac:(lia) H4) as A.
    pose proof (Z.mul_le_mono_nonneg_l _ _ (55 ^ w) ltac:(lia) R) as A2.
    replace (272 * (55 ^ w * 55 ^ k)) with (4 * (55 ^ w * (68 * 55 ^ k))) by ring.
    replace (715 * (34 ^ w * 34 ^ k) * X) with (55 * (13 * (34 ^ w * X) * 34 ^ k)) by ring. 
    replace (55 ^ w * (55 * (2 ^ k * 34 ^ k))) with (55 * (55 ^ w * 2 ^ k * 34 ^ k)) in A2 by ring. lia.
Qed.

(** The number of steps the code takes suffices. *)
Lemma enough : forall len V, 1 <= len -> 392 * len + 156 <= 34 * V -> 715 * 34 ^ V * 256 ^ len <= 272 * 55 ^ V.
Proof.
  intros len V Hl HV. apply Z.le_ngt. intros C.
  assert (P34 : forall k, 0 <= k -> 0 < 34 ^ k) by (intros; apply Z.pow_pos_nonneg; lia).
  assert (P55 : forall k, 0 <= k -> 0 < 55 ^ k) by (intros; apply Z.pow_pos_nonneg; lia).
  assert (P2 : forall k, 0 <= k -> 0 < 256 ^ k) by (intros; apply Z.pow_pos_nonneg; lia).
  assert (A : (272 * 55 ^ V) ^ 34 < (715 * 34 ^ V * 256 ^ len) ^ 34).
  { apply Z.pow_lt_mono_l; [lia|]. split; [|auto]. pose proof (P55 V ltac:(lia)). lia. }
  rewrite !Z.pow_mul_l, <- !Z.pow_mul_r in A by lia.
  set (j := V * 34 - (392 * len + 156)). assert (J : 0 <= j) by lia.
  replace (V * 34) with (156 + 392 * len + j) in A by lia. rewrite !Z.pow_add_r, !(Z.pow_mul_r _ 392) in A by lia.
  rewrite (Z.mul_comm len 34), (Z.pow_mul_r 256 34) in A by lia.
  assert (B1 : 34 ^ j <= 55 ^ j) by (apply Z.pow_le_mono_l; lia).
  assert (B2 : (34 ^ 392) ^ len * (256 ^ 34) ^ len <= (55 ^ 392) ^ len) by (rewrite <- Z.pow_mul_l; apply Z.pow_le_mono_l; split; [apply Z.mul_nonneg_nonneg; apply Z.pow_nonneg; lia|vm_compute; congruence]).
  assert (B3 : 715 ^ 34 * 34 ^ 156 <= 272 ^ 34 * 55 ^ 156) by (vm_compute; congruence).
  remember (34 ^ 392) as a. remember (256 ^ 34) as b. remember (55 ^ 392) as d. remember (715 ^ 34) as r. remember (272 ^ 34) as s.
  remember (34 ^ 156) as u. remember (55 ^ 156) as v.
  assert (0 <= a ^ len * b ^ len) by (apply Z.mul_nonneg_nonneg; apply Z.pow_nonneg; subst; apply Z.pow_nonneg; lia).
  assert (0 <= r * u) by (subst; apply Z.mul_nonneg_nonneg; apply Z.pow_nonneg; lia).
  pose proof (P34 j J).
  pose proof (Z.mul_le_mono_nonneg _ _ _ _ H0 B3 H B2) as C1.
  pose proof (Z.mul_le_mono_nonneg _ _ _ _ (Z.mul_nonneg_nonneg _ _ H0 H) C1 (Z.lt_le_incl _ _ H1) B1) as C2.
  replace (s * (v * d ^ len * 55 ^ j)) with (s * v * d ^ len * 55 ^ j) in A by ring.
  replace (r * (u * a ^ len * 34 ^ j) * b ^ len) with (r * u * (a ^ len * b ^ len) * 34 ^ j) in A by ring. lia.
Qed.

Theorem divsteps_enough : forall len f g N, 1 <= len -> Z.odd f = true -> Z.abs f < 256 ^ len -> Z.abs g < 256 ^ len ->
  392 * len + 139 <= 17 * Z.of_nat N -> snd (dsteps N (1, f, g)) = 0.
Proof.
  intros len f g N Hl Hf Bf Bg HN. pose proof (Z.abs_nonneg f).
  destruct (converge N 0 f g (256 ^ len - 1)) as [E|(V & V1 & V2)]; [lia|lia|auto| |auto|].
  - change (34 ^ 0) with 1. change (55 ^ 0) with 1. rewrite !Z.mul_1_l. apply inP_box; lia.
  - exfalso. pose proof (enough len V Hl ltac:(lia)) as Y. assert (0 < 34 ^ V) by (apply Z.pow_pos_nonneg; lia).
    lia.
Qed.

(** ** What division steps preserve *)
Lemma divstep_gcd : forall d f g, Z.odd f = true ->
  let '(_, f', g') := divstep (d, f, g) in Z.gcd f' g' = Z.gcd f g.
Proof.
  intros d f g Hf. unfold divstep.
  assert (G2 : forall a b, Z.odd a = true -> Z.gcd a (2 * b) = Z.gcd a b).
  { intros a b Ha. apply Z.gcd_unique; [apply Z.gcd_nonneg|apply Z.gcd_divide_l|apply Z.divide_mul_r, Z.gcd_divide_r|].
    intros q Q1 Q2. apply Z.gcd_greatest; auto. apply Gauss with 2; auto.
    apply Zgcd_1_rel_prime. apply Z.gcd_unique; [lia|apply Z.divide_1_l|apply Z.divide_1_l|].
    intros r R1 R2. apply Z.divide_pos_le in R2 as R3; [|lia]. destruct (Z.divide_trans _ _ _ R1 Q1) as [k K].
    assert (r <> 2 /\ r <> -2). { split; intros ->; subst a; rewrite Z.odd_mul, andb_comm in Ha; discriminate. }
    assert (R4 : - r <= 2) by (apply Z.divide_pos_le; [lia|]; apply Z.divide_opp_l; auto).
    destruct R2 as [l Hl]. assert (r = -1 \/ r = 1 \/ r = 0) as [-> | [-> | ->]] by lia; [exists (-1); lia|exists 1; lia|lia]. }
  destruct (0 <? d), (Z.odd g) eqn:E; cbn [andb].
  - rewrite <- G2 by auto. rewrite (odd_half_sub f g) by auto. rewrite Z.gcd_comm. replace (g - f) with (- (f - 1 * g)) by ring.
    rewrite Z.gcd_opp_l, Z.gcd_comm, (Z.gcd_comm f g). rewrite Z.mul_1_l. apply Z.gcd_sub_diag_r || (replace (f - g) with (f + (-1) * g) by ring; apply Z.gcd_add_mult_diag_r).
  - pose proof (odd_half_add f g Hf) as H. rewrite E in H. rewrite <- G2 by auto. rewrite H, Z.add_0_r. auto.
  - pose proof (odd_half_add f g Hf) as H. rewrite E in H. rewrite <- G2 by auto. rewrite H. replace (g + f) with (g + 1 * f) by ring. apply Z.gcd_add_mult_diag_r.
  - pose proof (odd_half_add f g Hf) as H. rewrite E in H. rewrite <- G2 by auto. rewrite H, Z.add_0_r. auto.
Qed.
Lemma dsteps_gcd : forall n d f g, Z.odd f = true -> let '(_, f', g') := dsteps n (d, f, g) in Z.gcd f' g' = Z.gcd f g.
Proof.
  induction n; intros d f g Hf; cbn [dsteps]; auto. pose proof (divstep_gcd d f g Hf) as D. pose proof (divstep_odd (d, f, g) Hf) as O.
  destruct (divstep (d, f, g)) as [[d1 f1] g1]. cbn [fst snd] in O. specialize (IHn d1 f1 g1 O). destruct (dsteps n (d1, f1, g1)) as [[d2 f2] g2]. congruence.
Qed.

Lemma divstep_bound : forall X d f g, Z.odd f = true -> Z.abs f <= X -> Z.abs g <= X ->
  let '(_, f', g') := divstep (d, f, g) in Z.abs f' <= X /\ Z.abs g' <= X.
Proof.
  intros X d f g Hf Bf Bg. pose proof (odd_half_add f g Hf) as H. unfold divstep.
  destruct ((0 <? d) && Z.odd g) eqn:E; [apply andb_true_iff in E as [_ E]; pose proof (odd_half_sub f g Hf E); lia|].
  destruct (Z.odd g); lia.
Qed.
Lemma dsteps_bound : forall X n d f g, Z.odd f = true -> Z.abs f <= X -> Z.abs g <= X ->
  let '(_, f', g') := dsteps n (d, f, g) in Z.abs f' <= X /\ Z.abs g' <= X.
Proof.
  intros X. induction n; intros d f g Hf Bf Bg; cbn [dsteps]; auto. pose proof (divstep_bound X d f g Hf Bf Bg) as D. pose proof (divstep_odd (d, f, g) Hf) as O.
  destruct (divstep (d, f, g)) as [[d1 f1] g1]. cbn [fst snd] in O. destruct D. apply IHn; auto.
Qed.
Lemma dsteps_delta : forall n s, Z.abs (fst (fst (dsteps n s))) <= Z.abs (fst (fst s)) + Z.of_nat n.
Proof.
  induction n; intros s; [cbn; lia|]. rewrite Nat2Z.inj_succ. cbn [dsteps]. specialize (IHn (divstep s)).
  destruct s as [[d f] g]. unfold divstep in *. destruct ((0 <? d) && Z.odd g); cbn [fst snd] in *; lia.
Qed.
