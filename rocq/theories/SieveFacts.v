(** The prime wheel sieve: binary search, level 0 and level 1. *)
From Coq Require Import ZArith List Bool Lia Znumtheory.
Require Import Verif.Spec Verif.Monad Verif.Base Verif.Wp Verif.ModelLimb Verif.LimbFacts Verif.LimbFacts2 Verif.LDivFacts Verif.LimbProofs.
Require Import Verif.ModelBuf Verif.SpecBuf Verif.BufFacts Verif.ModelCmp Verif.CmpFacts Verif.ModelDiv Verif.SpecDiv Verif.DivProofs.
Require Import Verif.SpecSieve Verif.ModelSieve.
Import ListNotations.
Open Scope Z_scope.

Lemma wp_loop_pow : forall A R (I : Z -> A -> Prop) (Q : R -> Prop) (body : A -> M (A + R)),
  (forall n a, I n a -> wp (body a) (fun r => match r with inl a' => exists n', n' < n /\ I n' a' | inr v => Q v end)) ->
  forall k n a, I n a ->
  wp (loop_pow k body a) (fun r => match r with inl a' => exists n', n' <= n - 2 ^ Z.of_nat k /\ I n' a' | inr v => Q v end).
Proof.
  intros A R I Q body HB. induction k as [|k IH]; intros n a Ha.
  - cbn [loop_pow]. eapply wp_mono; [exact (HB n a Ha)|]. intros [a'|v]; auto. change (2 ^ Z.of_nat 0) with 1. intros (n' & H1 & H2).
    exists n'. split; auto. lia.
  - cbn [loop_pow]. apply wp_bind. eapply wp_mono; [exact (IH n a Ha)|]. intros [a'|v]; [|intros; apply wp_ret; auto].
    intros (n' & H1 & H2). eapply wp_mono; [exact (IH n' a' H2)|]. intros [b|v]; auto. intros (n2 & H3 & H4). exists n2. split; auto.
    rewrite Nat2Z.inj_succ, Z.pow_succ_r by lia. lia.
Qed.

Lemma wp_mloop_rel : forall A R (I : Z -> A -> Prop) (Q : R -> Prop) (body : A -> M (A + R)) n a,
  I n a -> (forall n a, I n a -> 0 <= n) -> n < 2 ^ 64 ->
  (forall n a, I n a -> wp (body a) (fun r => match r with inl a' => exists n', n' < n /\ I n' a' | inr v => Q v end)) ->
  wp (mloop body a) Q.
Proof.
  intros A R I Q body n a Ha Hm Hb HB. unfold mloop. apply wp_bind.
  eapply wp_mono; [exact (wp_loop_pow A R I Q body HB 64 n a Ha)|]. intros [a'|v]; [|intros; apply wp_ret; auto].
  intros (n' & H1 & H2). exfalso. pose proof (Hm n' a' H2). change (Z.of_nat 64) with 64 in H1. lia.
Qed.

Lemma wp_mloop : forall A R (I : A -> Prop) (m : A -> Z) (Q : R -> Prop) (body : A -> M (A + R)) a,
  I a -> (forall a, I a -> 0 <= m a) -> m a < 2 ^ 64 ->
  (forall a, I a -> wp (body a) (fun r => match r with inl a' => I a' /\ m a' < m a | inr v => Q v end)) ->
  wp (mloop body a) Q.
Proof.
  intros A R I m Q body a Ha Hm Hb HB. apply wp_mloop_rel with (I := fun n a => I a /\ n = m a) (n := m a); auto.
  - intros n b [H ->]. auto.
  - intros n b [H ->]. eapply wp_mono; [exact (HB b H)|]. intros [a'|v]; auto. intros [H1 H2]. eauto.
Qed.

Section Facts.
Context {c : cfg}.

(** ** The search *)
Definition found (v : list Z) (val i : Z) : Prop :=
  0 <= i < zlen v /\ val <= nth (Z.to_nat i) v 0 /\ forall j, 0 <= j < i -> nth (Z.to_nat j) v 0 < val.

Lemma wp_ct_find : forall v val (Q : Z -> Prop), 0 < zlen v -> 2 * zlen v < 2 ^ UW -> ascending v ->
  (forall i, 0 <= i < zlen v -> 0 <= nth (Z.to_nat i) v 0 < 256) -> 0 <= val < 256 -> val <= nth (Z.to_nat (zlen v - 1)) v 0 ->
  (forall i, found v val i -> Q i) -> wp (ct_find_first_ge_than v val) Q.
Proof.
  intros v val Q HL HU HA HB Hval Hlast HQ. unfold ct_find_first_ge_than.
  apply wp_bind, wp_dassert_m.
  { apply wp_bind, wp_usub; [lia|]. apply wp_bind, wp_znth; [lia|]. apply wp_ret. apply Z.leb_le. auto. }
  apply wp_bind, wp_usub; [lia|]. rewrite Z.sub_0_r.
  assert (UB : 2 ^ UW <= 2 ^ 64) by (apply Z.pow_le_mono_r; [lia|unfold UW; destruct (usize64 c); lia]).
  assert (BB := B_gt).
  apply wp_mloop with (I := fun '(lb, ub, r) => 0 <= lb /\ lb < ub /\ ub <= zlen v /\ r = ub - lb /\
      val <= nth (Z.to_nat (ub - 1)) v 0 /\ forall j, 0 <= j < lb -> nth (Z.to_nat j) v 0 < val) (m := fun '(lb, ub, r) => r).
  - repeat split; try lia; auto.
  - intros [[lb ub] r]. lia.
  - lia.
  - intros [[lb ub] r] (H1 & H2 & H3 & H4 & H5 & H6). unfold ct_find_step. apply wp_mif; intros E.
    2:{ apply Z.ltb_ge in E. apply wp_ret, HQ. assert (ub - 1 = lb) by lia. split; [lia|]. split; [|auto]. congruence. }
    apply Z.ltb_lt in E. cbv zeta.
    assert (Hodd : Z.land r 1 = r mod 2) by (change 1 with (Z.ones 1); rewrite Z.land_ones by lia; reflexivity).
    rewrite Hodd.
    assert (M0 : r mod 2 = 0 \/ r mod 2 = 1) by (pose proof (Z.mod_pos_bound r 2); lia).
    set (m := lb + (r + 1) / 2).
    assert (Hm : 2 * (m - lb) = r + r mod 2).
    { unfold m. pose proof (Z.div_mod r 2). pose proof (Z.div_mod (r + 1) 2). pose proof (Z.mod_pos_bound (r+1) 2). lia. }
    apply wp_bind, wp_usub; [lia|]. apply wp_bind, wp_znth; [lia|].
    pose proof (HB (m - 1) ltac:(lia)) as Hp.
    apply wp_bind, wp_lt_l; [unfold isl; lia|unfold isl; lia|].
    apply wp_bind, wp_usub; [lia|]. apply wp_bind, wp_usub; [lia|].
    apply wp_bind, wp_dassert; [apply Z.eqb_eq; lia|].
    apply wp_bind, wp_usub; [lia|].
    rewrite !lc_select_usize_chc by lia.
    destruct (Z.ltb_spec (nth (Z.to_nat (m - 1)) v 0) val) as [D|D].
    + apply wp_bind, wp_usub; [lia|]. apply wp_ret. repeat split; try lia; auto.
      intros j Hj. destruct (Z.lt_ge_cases j lb); [apply H6; lia|]. pose proof (HA j (m - 1) ltac:(lia) ltac:(lia)). lia.
    + apply wp_bind, wp_usub; [lia|]. apply wp_ret. repeat split; try lia; auto.
Qed.

Lemma wp_cnst_find : forall v val (Q : Z -> Prop), 0 < zlen v -> 2 * zlen v < 2 ^ UW -> ascending v ->
  val <= nth (Z.to_nat (zlen v - 1)) v 0 ->
  (forall i, found v val i -> Q i) -> wp (cnst_find_first_ge_than v val) Q.
Proof.
  intros v val Q HL HU HA Hlast HQ. unfold cnst_find_first_ge_than.
  apply wp_bind, wp_dassert; [destruct (Z.eqb_spec (zlen v) 0); [lia|auto]|].
  apply wp_bind, wp_dassert_m.
  { apply wp_bind, wp_usub; [lia|]. apply wp_bind, wp_znth; [lia|]. apply wp_ret. apply Z.leb_le. auto. }
  apply wp_bind, wp_usub; [lia|]. rewrite Z.sub_0_r.
  assert (UB : 2 ^ UW <= 2 ^ 64) by (apply Z.pow_le_mono_r; [lia|unfold UW; destruct (usize64 c); lia]).
  apply wp_mloop with (I := fun '(lb, ub, r) => 0 <= lb /\ lb < ub /\ ub <= zlen v /\ r = ub - lb /\
      val <= nth (Z.to_nat (ub - 1)) v 0 /\ forall j, 0 <= j < lb -> nth (Z.to_nat j) v 0 < val) (m := fun '(lb, ub, r) => r).
  - repeat split; try lia; auto.
  - intros [[lb ub] r]. lia.
  - lia.
  - intros [[lb ub] r] (H1 & H2 & H3 & H4 & H5 & H6). unfold cnst_find_step. apply wp_mif; intros E.
    2:{ apply Z.ltb_ge in E. apply wp_ret, HQ. assert (ub - 1 = lb) by lia. split; [lia|]. split; [|auto]. congruence. }
    apply Z.ltb_lt in E. cbv zeta.
    set (m := lb + (r + 1) / 2).
    assert (Hm : 2 * (m - lb) = r \/ 2 * (m - lb) = r + 1).
    { unfold m. pose proof (Z.div_mod (r + 1) 2). pose proof (Z.mod_pos_bound (r+1) 2). lia. }
    apply wp_bind, wp_usub; [lia|]. apply wp_bind, wp_znth; [lia|].
    apply wp_bind, wp_mif; intros D.
    + apply Z.ltb_lt in D. apply wp_ret. apply wp_bind, wp_usub; [|].
      { destruct (Z.eq_dec m ub) as [->|]; lia. }
      assert (m <> ub) by (intros ->; lia).
      apply wp_ret. repeat split; try lia; auto.
      intros j Hj. pose proof (HA j (m - 1) ltac:(lia) ltac:(lia)). lia.
    + apply Z.ltb_ge in D. apply wp_ret. apply wp_bind, wp_usub; [lia|]. apply wp_ret. repeat split; try lia; auto.
Qed.

(** ** Constants *)
Lemma L0_PRIM : L0_PRIMORIAL = 30.
Proof. destruct c as [[|] ? [|] [|]]; vm_compute; reflexivity. Qed.
Lemma L0_NOFF : L0_NOFFSETS = 8.
Proof. destruct c as [[|] ? [|] [|]]; vm_compute; reflexivity. Qed.
Lemma MAX_OFF : MAX_OFFSET = 29.
Proof. destruct c as [[|] ? [|] [|]]; vm_compute; reflexivity. Qed.
Lemma L1_NF : L1_NFACTORS = zlen wheel_primes.
Proof. destruct c as [[|] ? [|] [|]]; vm_compute; reflexivity. Qed.
Lemma L1_PRIM : L1_PRIMORIAL = wheel_primorial.
Proof. destruct c as [[|] ? [|] [|]]; vm_compute; reflexivity. Qed.
Lemma L1_factors : skipn (Z.to_nat L0_NFACTORS) (firstn (Z.to_nat L1_NFACTORS) FIRST_PRIMES) = skipn 3 wheel_primes.
Proof. destruct c as [[|] ? [|] [|]]; vm_compute; reflexivity. Qed.
Lemma wheel_split : wheel_primes = [2; 3; 5] ++ skipn 3 wheel_primes.
Proof. unfold wheel_primes. destruct (limb64 c); reflexivity. Qed.
Lemma prim_rng : 100 < wheel_primorial /\ wheel_primorial + 100 < B.
Proof. unfold B, W, LB, wheel_primorial, wheel_primes. destruct (limb64 c); vm_compute; split; reflexivity. Qed.
Lemma prim_30 : (30 | wheel_primorial).
Proof. apply Z.mod_divide; [lia|]. unfold wheel_primorial, wheel_primes. destruct (limb64 c); vm_compute; reflexivity. Qed.
Lemma prim_div : forall p, In p wheel_primes -> (p | wheel_primorial) /\ 2 <= p < 48.
Proof.
  assert (X : forallb (fun p => (wheel_primorial mod p =? 0) && (2 <=? p) && (p <? 48)) wheel_primes = true).
  { unfold wheel_primorial, wheel_primes. destruct (limb64 c); vm_compute; reflexivity. }
  rewrite forallb_forall in X. intros p Hp. specialize (X p Hp). apply andb_prop in X as [X X3]. apply andb_prop in X as [X1 X2].
  split; [|lia]. apply Z.mod_divide; lia.
Qed.

(** ** Level 0 *)
Ltac mlia := Z.to_euclidean_division_equations; lia.
Ltac lit t := let v := eval vm_compute in t in change t with v.
Ltac lit_in t H := let v := eval vm_compute in t in change t with v in H.
Ltac offs := repeat match goal with
  | |- context [nth (Z.to_nat ?i) OFFSETS 0] => lit (nth (Z.to_nat i) OFFSETS 0)
  | H : context [nth (Z.to_nat ?i) OFFSETS 0] |- _ => lit_in (nth (Z.to_nat i) OFFSETS 0) H
  | |- context [Zpos ?p + 1 =? ?q] => lit (Zpos p + 1 =? q)
  | |- context [0 + 1 =? ?q] => lit (0 + 1 =? q)
  | H : context [Zpos ?p =? 7] |- _ => lit_in (Zpos p =? 7) H
  | H : context [0 =? 7] |- _ => lit_in (0 =? 7) H
  end; cbv iota in *.
Definition un30 (x : Z) : Prop := x mod 2 <> 0 /\ x mod 3 <> 0 /\ x mod 5 <> 0.
Definition gap30 (a y : Z) : Prop := forall z, a <= z < y -> ~ un30 z.

Definition w0_ok (w : lvl0) (x a : Z) : Prop :=
  let o := nth (Z.to_nat (w0_next_index w)) OFFSETS 0 in
  let d := o + w0_next_offset_delta w - w0_last_offset w in
  0 <= w0_next_index w < 8 /\ 0 <= w0_next_offset_delta w <= 1 /\ 0 <= w0_last_offset w < 30 /\ 0 <= d <= 30 /\
  a <= x + d /\ (x + d) mod 30 = o /\ gap30 a (x + d).

Lemma offs_un30 : forall i y, 0 <= i < 8 -> y mod 30 = nth (Z.to_nat i) OFFSETS 0 -> un30 y.
Proof.
  intros i y Hi Hy. assert (Y := Z.div_mod y 30 ltac:(lia)).
  assert (I : i = 0 \/ i = 1 \/ i = 2 \/ i = 3 \/ i = 4 \/ i = 5 \/ i = 6 \/ i = 7) by lia.
  unfold un30. destruct I as [->|[->|[->|[->|[->|[->|[->| ->]]]]]]]; offs; clear - Hy; mlia.
Qed.

Lemma small_cases : forall k n, 0 <= k < Z.of_nat n -> In k (map Z.of_nat (seq 0 n)).
Proof. intros k n H. rewrite <- (Z2Nat.id k) by lia. apply in_map, in_seq. lia. Qed.

(** Between two offsets there is none. *)
Lemma gap_step : forall i y o', 0 <= i < 8 -> y mod 30 = nth (Z.to_nat i) OFFSETS 0 ->
  o' = (if i =? 7 then 31 else nth (Z.to_nat (i + 1)) OFFSETS 0) ->
  gap30 (y + 1) (y + o' - nth (Z.to_nat i) OFFSETS 0).
Proof.
  intros i y o' Hi Hy Ho z Hz U. unfold un30 in U.
  assert (Y := Z.div_mod y 30 ltac:(lia)).
  assert (I : i = 0 \/ i = 1 \/ i = 2 \/ i = 3 \/ i = 4 \/ i = 5 \/ i = 6 \/ i = 7) by lia.
  assert (X : exists k, z = y + k /\ 1 <= k < 6).
  { exists (z - y). split; [lia|]. destruct I as [->|[->|[->|[->|[->|[->|[->| ->]]]]]]]; offs; lia. }
  destruct X as (k & -> & Hk).
  assert (K : k = 1 \/ k = 2 \/ k = 3 \/ k = 4 \/ k = 5) by lia.
  destruct I as [->|[->|[->|[->|[->|[->|[->| ->]]]]]]]; offs; destruct K as [->|[->|[->|[->| ->]]]]; try (exfalso; clear - Ho Hz; lia); clear - Hy U; mlia.
Qed.

(** From any residue to the first offset not less than it. *)
Lemma gap_start : forall i x, 0 <= i < 8 -> x mod 30 <= nth (Z.to_nat i) OFFSETS 0 ->
  (forall j, 0 <= j < i -> nth (Z.to_nat j) OFFSETS 0 < x mod 30) ->
  gap30 x (x + nth (Z.to_nat i) OFFSETS 0 - x mod 30).
Proof.
  intros i x Hi H1 H2 z Hz U.
  assert (R : 0 <= z mod 30 < nth (Z.to_nat i) OFFSETS 0).
  { assert (Y := Z.div_mod x 30 ltac:(lia)). pose proof (Z.mod_pos_bound x 30 ltac:(lia)).
    assert (nth (Z.to_nat i) OFFSETS 0 < 30).
    { assert (I : i = 0 \/ i = 1 \/ i = 2 \/ i = 3 \/ i = 4 \/ i = 5 \/ i = 6 \/ i = 7) by lia.
      destruct I as [->|[->|[->|[->|[->|[->|[->| ->]]]]]]]; offs; lia. }
    assert (z mod 30 = z - 30 * (x / 30)). { symmetry. apply Z.mod_unique_pos with (q := x / 30); lia. } lia. }
  assert (Z : exists j, 0 <= j < 8 /\ z mod 30 = nth (Z.to_nat j) OFFSETS 0).
  { assert (Y := Z.div_mod z 30 ltac:(lia)). pose proof (Z.mod_pos_bound z 30 ltac:(lia)) as YR.
    unfold un30 in U. pose proof (small_cases (z mod 30) 30 YR) as K. set (r := z mod 30) in *. clearbody r.
    assert (r = 1 \/ r = 7 \/ r = 11 \/ r = 13 \/ r = 17 \/ r = 19 \/ r = 23 \/ r = 29) as D.
    { cbn in K. clear - U Y K. decompose [or] K; try contradiction; clear K;
      match goal with H : _ = r |- _ => rewrite <- H in *; clear H end; try (exfalso; clear - U Y; mlia); lia. }
    destruct D as [->|[->|[->|[->|[->|[->|[->| ->]]]]]]];
      [exists 0|exists 1|exists 2|exists 3|exists 4|exists 5|exists 6|exists 7]; split; try lia; reflexivity. }
  destruct Z as (j & Hj & Ej). rewrite Ej in R.
  assert (Jr : j < i).
  { destruct (Z.lt_ge_cases j i); [auto|]. exfalso.
    assert (I : i = 0 \/ i = 1 \/ i = 2 \/ i = 3 \/ i = 4 \/ i = 5 \/ i = 6 \/ i = 7) by lia.
    assert (J : j = 0 \/ j = 1 \/ j = 2 \/ j = 3 \/ j = 4 \/ j = 5 \/ j = 6 \/ j = 7) by lia.
    destruct I as [->|[->|[->|[->|[->|[->|[->| ->]]]]]]]; destruct J as [->|[->|[->|[->|[->|[->|[->| ->]]]]]]]; offs; lia. }
  specialize (H2 j ltac:(lia)).
  assert (x mod 30 <= z mod 30); [|lia].
  assert (Y := Z.div_mod x 30 ltac:(lia)). pose proof (Z.mod_pos_bound x 30 ltac:(lia)).
  assert (nth (Z.to_nat i) OFFSETS 0 < 30).
  { assert (I : i = 0 \/ i = 1 \/ i = 2 \/ i = 3 \/ i = 4 \/ i = 5 \/ i = 6 \/ i = 7) by lia.
    destruct I as [->|[->|[->|[->|[->|[->|[->| ->]]]]]]]; offs; lia. }
  assert (z mod 30 = z - 30 * (x / 30)). { symmetry. apply Z.mod_unique_pos with (q := x / 30); lia. } lia.
Qed.

Lemma wp_lvl0_next : forall w x a (Q : Z * lvl0 -> Prop), w0_ok w x a ->
  (forall d w', 0 <= d <= 30 -> a <= x + d -> un30 (x + d) -> gap30 a (x + d) -> w0_ok w' (x + d) (x + d + 1) -> Q (d, w')) ->
  wp (lvl0_produce_next_delta w) Q.
Proof.
  intros [i l dl] x a Q (Hi & Hdl & Hl & Hd & Ha & Hm & Hg) HQ. cbn [w0_next_index w0_last_offset w0_next_offset_delta] in *.
  unfold lvl0_produce_next_delta. cbn [w0_next_index w0_last_offset w0_next_offset_delta].
  apply wp_bind, wp_znth; [change (zlen OFFSETS) with 8; lia|].
  pose proof B_gt as BG. pose proof UW_gt as UG.
  assert (OB : 1 <= nth (Z.to_nat i) OFFSETS 0 <= 29).
  { assert (I : i = 0 \/ i = 1 \/ i = 2 \/ i = 3 \/ i = 4 \/ i = 5 \/ i = 6 \/ i = 7) by lia.
    destruct I as [->|[->|[->|[->|[->|[->|[->| ->]]]]]]]; offs; lia. }
  apply wp_bind, wp_ovf; [change (2 ^ 8) with 256; lia|].
  apply wp_bind, wp_ovf; [change (2 ^ 8) with 256; lia|].
  apply wp_bind. unfold lvl0_advance. cbn [w0_next_index w0_last_offset w0_next_offset_delta]. cbv zeta.
  rewrite L0_NOFF. apply wp_bind, wp_eq_usize; [unfold isu; lia|unfold isu; lia|].
  apply wp_bind, wp_znth; [change (zlen OFFSETS) with 8; lia|].
  unfold offset_delta_at_wrap. rewrite L0_PRIM, MAX_OFF. apply wp_bind, wp_ovf; [offs; lia|].
  change (30 - 29) with 1.
  rewrite lc_select_usize_chc by lia. rewrite !lc_select_chc by (unfold isl; lia).
  apply wp_ret, wp_ret. apply HQ; auto.
  - eapply offs_un30; eauto.
  - set (y := x + (nth (Z.to_nat i) OFFSETS 0 + dl - l)) in *. clearbody y.
    pose proof (gap_step i y _ Hi Hm eq_refl) as G.
    unfold w0_ok. cbn [w0_next_index w0_last_offset w0_next_offset_delta].
    assert (Y := Z.div_mod y 30 ltac:(lia)).
    assert (I : i = 0 \/ i = 1 \/ i = 2 \/ i = 3 \/ i = 4 \/ i = 5 \/ i = 6 \/ i = 7) by lia.
    destruct I as [->|[->|[->|[->|[->|[->|[->| ->]]]]]]]; offs;
      cbv iota; repeat match goal with |- context [Zpos ?p mod 256] => lit (Zpos p mod 256) end; change (0 mod 256) with 0; offs;
      (split; [lia|split; [lia|split; [lia|split; [lia|split; [lia|split; [clear - Hm; mlia|]]]]]]);
      intros z Hz; apply G; lia.
Qed.

Lemma wp_lvl0_start : forall lb (Q : lvl0 -> Prop), 0 <= lb ->
  (forall w, (forall x, x mod 30 = lb mod 30 -> w0_ok w x x) -> Q w) -> wp (lvl0_start_geq_than lb) Q.
Proof.
  intros lb Q Hlb HQ. unfold lvl0_start_geq_than, lmodhw. rewrite L0_PRIM, L0_NOFF.
  apply wp_bind, wp_bind, wp_tick. change (30 =? 0) with false. apply wp_ret. cbv zeta.
  pose proof (Z.mod_pos_bound lb 30 ltac:(lia)) as R. rewrite (Z.mod_small (lb mod 30) 256) by lia.
  apply wp_bind, wp_dassert_m.
  { apply wp_bind, wp_usub; [lia|]. apply wp_bind, wp_znth; [change (zlen OFFSETS) with 8; lia|]. apply wp_bind, wp_ovf; [lia|]. apply wp_ret. reflexivity. }
  assert (I8 : forall i, 0 <= i < 8 -> i = 0 \/ i = 1 \/ i = 2 \/ i = 3 \/ i = 4 \/ i = 5 \/ i = 6 \/ i = 7) by lia.
  assert (OB : forall i, 0 <= i < 8 -> 1 <= nth (Z.to_nat i) OFFSETS 0 <= 29).
  { intros i Hi. destruct (I8 i Hi) as [->|[->|[->|[->|[->|[->|[->| ->]]]]]]]; offs; lia. }
  pose proof UW_gt.
  apply wp_bind, wp_ct_find; change (zlen OFFSETS) with 8; try lia.
  - intros i j Hij Hj. change (zlen OFFSETS) with 8 in Hj. destruct (I8 i ltac:(lia)) as [->|[->|[->|[->|[->|[->|[->| ->]]]]]]];
      destruct (I8 j ltac:(lia)) as [->|[->|[->|[->|[->|[->|[->| ->]]]]]]]; offs; lia.
  - intros i Hi. specialize (OB i Hi). lia.
  - change (8 - 1) with 7. offs. lia.
  - intros i (Hi & F1 & F2). change (zlen OFFSETS) with 8 in Hi. apply wp_ret, HQ. intros x Hx.
    unfold w0_ok. cbn [w0_next_index w0_last_offset w0_next_offset_delta]. rewrite <- Hx in *. specialize (OB i Hi).
    assert (Y := Z.div_mod x 30 ltac:(lia)).
    assert (E : x + (nth (Z.to_nat i) OFFSETS 0 + 0 - x mod 30) = x + nth (Z.to_nat i) OFFSETS 0 - x mod 30) by lia. rewrite E.
    split; [lia|]. split; [lia|]. split; [lia|]. split; [lia|]. split; [lia|]. split; [|apply gap_start; auto].
    symmetry. apply Z.mod_unique_pos with (q := x / 30); lia.
Qed.
(** ** Level 1 *)
Lemma wp_mod_l : forall u d v (Q : Z -> Prop), mp_ok u -> ld_ok d v -> Q (mpval u mod v) -> wp (ct_mod_mp_l u d) Q.
Proof.
  intros u d v Q Hu Hd HQ. pose proof Hd as (Hv & _).
  destruct (ct_division_correct c v ltac:(unfold isl in *; lia)) as (d' & X & _).
  assert (Y : wp (ct_l_divisor_new v) (fun r => forall d0, r = Ok d0 -> ld_ok d0 v)).
  { apply wp_l_divisor_new; [unfold isl in *; lia|congruence|]. intros d0 _ H d1 E. congruence. }
  unfold wp in Y. rewrite X in Y. assert (d = d') by (eapply ld_ok_unique; [exact Hd|apply Y; auto]). subst d'.
  eapply wp_of_returns; [apply mod_l_correct; [auto|split; [|exact X]]|]; auto. unfold isl in *; lia.
Qed.

Lemma unsieved_mod : forall y, unsieved y <-> un30 y /\ forall p, In p (skipn 3 wheel_primes) -> (y mod wheel_primorial) mod p <> 0.
Proof.
  intros y. pose proof prim_rng as PR.
  assert (D : forall p, In p wheel_primes -> ((p | y) <-> (y mod wheel_primorial) mod p = 0)).
  { intros p Hp. destruct (prim_div p Hp) as [D R]. rewrite <- Zmod_div_mod by (auto; lia). rewrite Z.mod_divide by lia. tauto. }
  assert (S3 : forall p, In p wheel_primes <-> p = 2 \/ p = 3 \/ p = 5 \/ In p (skipn 3 wheel_primes)).
  { intros p. rewrite wheel_split at 1. rewrite in_app_iff. cbn. intuition. }
  unfold unsieved, un30. split.
  - intros H. split.
    + repeat split; intros E; [apply (H 2)|apply (H 3)|apply (H 5)]; rewrite ?S3; auto; apply Z.mod_divide; auto; lia.
    + intros p Hp E. assert (Q : In p wheel_primes) by (apply S3; auto). apply (H p Q). apply D; auto.
  - intros [(U2 & U3 & U5) H] p Hp Dp. apply S3 in Hp as Q. destruct Q as [->|[->|[->|Q]]].
    + apply U2. apply Z.mod_divide; auto; lia.
    + apply U3. apply Z.mod_divide; auto; lia.
    + apply U5. apply Z.mod_divide; auto; lia.
    + apply (H p Q). apply D; auto.
Qed.

Lemma wp_not_coprime : forall fs o b (Q : Z -> Prop), isl o -> (forall p, In p fs -> 2 <= p < 48) ->
  Q (chc (b || existsb (fun p => o mod p =? 0) fs)) -> wp (not_coprime_loop fs o (chc b)) Q.
Proof.
  induction fs as [|p fs IH]; intros o b Q Ho Hp HQ; cbn [not_coprime_loop existsb] in *.
  - apply wp_bind, wp_tick, wp_ret. rewrite orb_false_r in HQ. auto.
  - apply wp_bind, wp_tick. unfold lmodhw. specialize (Hp p (or_introl eq_refl)) as P. pose proof B_gt.
    pose proof (Z.mod_pos_bound o p ltac:(lia)).
    apply wp_bind, wp_bind, wp_tick. destruct (Z.eqb_spec p 0); [lia|]. apply wp_ret.
    apply wp_bind, wp_eq_l; [unfold isl; lia|apply isl_0|]. rewrite lc_or_chc. apply IH; auto.
    + intros q Hq. apply Hp. right; auto.
    + rewrite <- orb_assoc. auto.
Qed.

Definition w1_ok (w : lvl1) (N x a : Z) : Prop :=
  0 <= N /\ x = N + w1_last_offset_delta w /\ w1_last_offset w = x mod wheel_primorial /\
  (w1_last_offset_delta w = 0 \/ x = 2 /\ 0 <= w1_last_offset_delta w <= 2) /\ w0_ok (w1_lvl0_wheel w) x a /\ (a = x \/ a = x + 1).

Lemma prim_edge : forall q, unsieved (q * wheel_primorial - 1).
Proof.
  intros q p Hp D. destruct (prim_div p Hp) as [DP R].
  assert (X : (p | 1)).
  { replace 1 with (q * wheel_primorial - (q * wheel_primorial - 1)) by lia. apply Z.divide_sub_r; auto. apply Z.divide_mul_r; auto. }
  apply Z.divide_1_r in X. lia.
Qed.
Lemma edge_un30 : forall q, un30 (q * wheel_primorial + 1) /\ ~ un30 (q * wheel_primorial).
Proof. intros q. destruct prim_30 as [k ->]. unfold un30. split; mlia. Qed.
Lemma unsieved_un30 : forall y, unsieved y -> un30 y.
Proof. intros y H. apply unsieved_mod in H. tauto. Qed.
Lemma unsieved_edge : forall q, unsieved (q * wheel_primorial + 1).
Proof.
  intros q p Hp D. destruct (prim_div p Hp) as [DP R].
  assert (X : (p | 1)).
  { replace 1 with ((q * wheel_primorial + 1) - q * wheel_primorial) by lia. apply Z.divide_sub_r; auto. apply Z.divide_mul_r; auto. }
  apply Z.divide_1_r in X. lia.
Qed.

Lemma wp_lvl1_loop : forall w x a (Q : lvl0 * Z * Z * Z -> Prop), 0 <= x -> w0_ok w x a -> (a = x \/ a = x + 1) ->
  let P := wheel_primorial in
  (forall w' y o l d, unsieved y -> a <= y -> (forall z, a <= z < y -> ~ unsieved z) -> o = y mod P -> w0_ok w' y (y + 1) ->
     (l = x mod P /\ d = 0 /\ y - o = x - x mod P \/ y = x + 2 /\ x mod P = P - 1 /\ o = 1 /\ l = 0 /\ d = 1) -> Q (w', o, l, d)) ->
  wp (mloop (lvl1_step (x mod P)) (w, x mod P, x mod P)) Q.
Proof.
  intros w x a Q Hx Hw Ha P HQ. pose proof prim_rng as PR. fold P in PR. set (lo := x mod P) in *.
  pose proof (Z.mod_pos_bound x P ltac:(lia)) as LR. fold lo in LR. pose proof (Z.div_mod x P ltac:(lia)) as XD. fold lo in XD.
  set (q := x / P) in *.
  assert (UB : B <= 2 ^ 64). { unfold B, W, LB. destruct (limb64 c); vm_compute; congruence. }
  apply wp_mloop_rel with (n := (q + 1) * P + 1 - a) (I := fun n '(w, o, l) => exists z b, n = (q + 1) * P + 1 - b /\
      0 <= o < P /\ z = q * P + o /\ l = lo /\ w0_ok w z b /\ a <= b /\ (b = z \/ b = z + 1) /\ x <= z /\ (forall t, a <= t < b -> ~ unsieved t)).
  - exists x, a. repeat split; try lia; auto; apply Hw.
  - intros n [[w1 o] l] (z & b & H1 & H2 & H3 & H4 & H5 & H6 & H7 & _). lia.
  - lia.
  - intros n [[w1 o] l] (z & b & H1 & H2 & H3 & -> & H5 & H6 & H7 & H8 & H9). unfold lvl1_step.
    apply wp_bind. apply wp_lvl0_next with (x := z) (a := b); auto. intros d w2 D1 D2 D3 D4 D5.
    apply wp_bind, wp_ladd; [lia|]. rewrite L1_PRIM. fold P.
    apply wp_bind, wp_geq_l; [unfold isl; lia|unfold isl; lia|].
    assert (NB : forall t, a <= t < z + d -> ~ unsieved t).
    { intros t Ht U. destruct (Z.lt_ge_cases t b); [apply (H9 t); auto; lia|]. apply (D4 t); [lia|]. apply unsieved_un30; auto. }
    assert (WR : P <= o + d -> o + d - P = 1 /\ lo = P - 1 /\ z = x).
    { intros WR. pose proof (prim_edge (q + 1)) as E. fold P in E.
      assert (A : ~ a <= (q + 1) * P - 1). { intros A. apply (NB ((q + 1) * P - 1)); auto. lia. }
      assert (z = x /\ b = x + 1 /\ lo = P - 1) as (-> & -> & EL) by lia.
      destruct (edge_un30 (q + 1)) as [E1 E2]. fold P in E1, E2.
      assert (~ (q + 1) * P + 1 < x + d). { intros L. apply (D4 ((q + 1) * P + 1)); auto. lia. }
      assert (x + d <> (q + 1) * P) by (intros EE; rewrite EE in D3; auto). lia. }
    set (wr := P <=? o + d) in *.
    assert (NO : lc_select (chc wr) (o + d) (lwsub (o + d) P) = if wr then o + d - P else o + d).
    { unfold wr. destruct (Z.leb_spec P (o + d)) as [L|L].
      - unfold lwsub. rewrite (Z.mod_small (o + d - P) B) by lia. rewrite lc_select_chc by (unfold isl; lia). auto.
      - rewrite lc_select_chc; [auto|unfold isl; lia|unfold isl, lwsub]. apply Z.mod_pos_bound. lia. }
    cbv zeta. rewrite NO. rewrite (lc_select_chc wr lo 0) by (unfold isl; lia).
    apply wp_bind, wp_lsub; [lia|]. rewrite (lc_select_chc wr 0 (P - lo)) by (unfold isl; lia).
    apply wp_bind. apply (wp_lc_new false); [reflexivity|].
    assert (YM : (z + d) mod P = if wr then o + d - P else o + d).
    { symmetry. unfold wr. destruct (Z.leb_spec P (o + d)) as [L|L].
      - apply Z.mod_unique_pos with (q := q + 1); lia.
      - apply Z.mod_unique_pos with (q := q); lia. }
    rewrite <- YM. rewrite L1_factors.
    pose proof (Z.mod_pos_bound (z + d) P ltac:(lia)) as YR.
    apply wp_bind, wp_not_coprime; [unfold isl; lia| |].
    { intros p Hp. apply prim_div. rewrite wheel_split. apply in_or_app. auto. }
    cbn [orb]. set (ex := existsb _ _).
    assert (EX : ex = false <-> unsieved (z + d)).
    { rewrite unsieved_mod. fold P. unfold ex. split.
      - intros E. split; auto. intros p Hp E0. apply not_true_iff_false in E. apply E. apply existsb_exists. exists p. split; auto. apply Z.eqb_eq; auto.
      - intros [_ E]. apply not_true_iff_false. intros T. apply existsb_exists in T. destruct T as (p & Hp & Ep). apply Z.eqb_eq in Ep. apply (E p Hp Ep). }
    rewrite lc_unwrap_chc. apply wp_mif; intros C.
    + assert (T : ex = true) by (destruct ex; [auto|discriminate C]).
      assert (NU : ~ unsieved (z + d)) by (intros U; apply EX in U; congruence).
      apply wp_ret. assert (NW : wr = false).
      { unfold wr. destruct (Z.leb_spec P (o + d)) as [L|L]; auto. exfalso. destruct (WR L) as (W1 & W2 & W3). apply NU.
        replace (z + d) with ((q + 1) * P + 1) by lia. apply unsieved_edge. }
      rewrite NW in *. unfold wr in NW. apply Z.leb_gt in NW. exists ((q + 1) * P + 1 - (z + d + 1)). split; [lia|].
      exists (z + d), (z + d + 1). rewrite YM. repeat split; try lia; try apply D5.
      intros t Ht U. destruct (Z.eq_dec t (z + d)) as [->|]; [auto|]. apply (NB t); auto. lia.
    + assert (T : ex = false) by (destruct ex; [discriminate C|auto]). apply EX in T.
      apply wp_ret. apply HQ with (y := z + d); auto; try lia.
      unfold wr in *. destruct (Z.leb_spec P (o + d)) as [L|L].
      * right. destruct (WR L) as (W1 & W2 & W3). lia.
      * left. lia.
Qed.

Lemma wp_lvl1_next : forall w N x a (Q : Z * lvl1 -> Prop), w1_ok w N x a ->
  (forall d w', unsieved (N + d) -> a <= N + d -> (forall z, a <= z < N + d -> ~ unsieved z) ->
     w1_ok w' (N + d) (N + d) (N + d + 1) -> Q (d, w')) ->
  wp (lvl1_produce_next_delta w) Q.
Proof.
  intros [w0 lo lod] N x a Q (HN & Hx & Hlo & Hlod & Hw & Ha) HQ. cbn [w1_lvl0_wheel w1_last_offset w1_last_offset_delta] in *.
  unfold lvl1_produce_next_delta. cbn [w1_lvl0_wheel w1_last_offset w1_last_offset_delta].
  pose proof prim_rng as PR. assert (PP : 0 < wheel_primorial) by lia. pose proof (Z.mod_pos_bound x wheel_primorial PP) as LR.
  assert (X2 : x = 2 -> x mod wheel_primorial = 2) by (intros ->; apply Z.mod_small; lia).
  rewrite Hlo. apply wp_bind. apply wp_lvl1_loop with (a := a); auto; [lia|].
  intros w' y o l d U1 U2 U3 -> U5 U6. pose proof (Z.mod_pos_bound y wheel_primorial PP) as YR.
  assert (W' : w1_ok (mk_lvl1 w' (y mod wheel_primorial) 0) y y (y + 1)).
  { unfold w1_ok. cbn. repeat split; auto; try lia; try apply U5. }
  cbv zeta. apply wp_bind, wp_ladd; [lia|].
  assert (E : N + (y mod wheel_primorial + d - (l - lod)) = y) by lia.
  assert (BD : 0 <= l - lod < B) by lia.
  apply wp_bind, wp_lsub; [lia|]. apply wp_bind, wp_lsub; [lia|]. apply wp_ret, HQ; rewrite E; auto.
Qed.

Lemma wp_lvl1_start : forall n (Q : lvl1 -> Prop), mp_ok n ->
  (forall w, w1_ok w (mpval n) (Z.max (mpval n) 2) (Z.max (mpval n) 2) -> Q w) -> wp (lvl1_start_geq_than n) Q.
Proof.
  intros n Q Hn HQ. unfold lvl1_start_geq_than. rewrite L1_PRIM. pose proof prim_rng as PR. pose proof (mpval_bound n Hn) as NB.
  apply wp_bind, wp_l_divisor_nonct_new; [unfold isl; lia|lia|]. intros d _ Hd.
  apply wp_bind. eapply wp_mod_l; [auto|exact Hd|]. assert (PP : 0 < wheel_primorial) by lia. pose proof (Z.mod_pos_bound (mpval n) wheel_primorial PP) as MR.
  apply wp_bind, wp_leq_mp_l; [auto|unfold isl; pose proof B_gt; lia|].
  set (m := mpval n) in *. clearbody m.
  assert (E : lc_select (chc (m <=? 1)) 0 (lwsub 2 (m mod wheel_primorial)) = Z.max m 2 - m).
  { rewrite lc_select_chc; [|unfold isl; lia|unfold isl, lwsub; apply Z.mod_pos_bound; lia].
    destruct (Z.leb_spec m 1) as [L|L]; [|lia]. rewrite (Z.mod_small m) by lia. unfold lwsub. rewrite Z.mod_small; lia. }
  cbv zeta. rewrite E.
  assert (E2 : m mod wheel_primorial + (Z.max m 2 - m) = Z.max m 2 mod wheel_primorial).
  { destruct (Z.le_gt_cases m 1) as [L|L].
    - rewrite !Z.mod_small by lia. lia.
    - rewrite Z.max_l by lia. lia. }
  apply wp_bind, wp_ladd; [lia|]. rewrite E2.
  apply wp_bind, wp_lvl0_start; [lia|]. intros w Hw. apply wp_ret, HQ. rewrite (Z.mod_small (Z.max m 2 - m) 256) by lia.
  unfold w1_ok. cbn [w1_lvl0_wheel w1_last_offset w1_last_offset_delta].
  split; [lia|]. split; [lia|]. split; [auto|]. split; [lia|]. split; [|auto]. apply Hw.
  symmetry. rewrite <- Zmod_div_mod; auto; try lia. apply prim_30.
Qed.

Lemma wp_lvl1_deltas : forall k w N x a (Q : list Z * lvl1 -> Prop), w1_ok w N x a ->
  (forall ds w', length ds = k -> enumerates N a ds -> Q (ds, w')) -> wp (lvl1_produce_deltas k w) Q.
Proof.
  induction k as [|k IH]; intros w N x a Q Hw HQ; cbn [lvl1_produce_deltas].
  - apply wp_ret, HQ; cbn; auto.
  - apply wp_bind. eapply wp_lvl1_next; [exact Hw|]. intros d w' U1 U2 U3 Hw'.
    apply wp_bind. eapply IH; [exact Hw'|]. intros ds w2 L E. apply wp_ret, HQ; cbn; auto.
Qed.
End Facts.
