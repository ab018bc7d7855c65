(** Procedures deciding, for given numbers, whether all residues of an inversion fit (SpecSteps.v) and computing them, used for
    examples. *)
From Coq Require Import ZArith List Bool Lia Znumtheory.
Require Import Verif.Spec Verif.Base Verif.Monad Verif.Wp Verif.LimbFacts Verif.LimbFacts2 Verif.BufFacts Verif.SpecEuclid Verif.SpecSteps Verif.GcdBound Verif.EuclidFacts Verif.EuclidFacts3 Verif.InvOddFacts4.
Open Scope Z_scope.

Section Facts.
Context {c : cfg}.

(** [y] is an inverse of [x] modulo [n], [i] one of [n] modulo a power of two. *)
Definition row_check (n p i : Z) (row : Z * Z * Z) (r u : Z) : bool :=
  let '(a, b, s) := row in
  let U := a * r + b * u in
  let V := (U + (- U * i) mod 2 ^ s * n) / 2 ^ s in (- (2 ^ s * B ^ p) <=? V) && (V <? B ^ (p + 1)).
Fixpoint fit_check (k : nat) (n p i y : Z) (st : Z * Z * Z) : bool :=
  let '(_, f, g) := st in
  match k with
  | O => g =? 0
  | S k => let '(st', row0, row1) := steps_rows (Z.to_nat (W - 2)) st in
      row_check n p i row0 (f * y mod n) (g * y mod n) && row_check n p i row1 (f * y mod n) (g * y mod n) && fit_check k n p i y st'
  end.

Lemma row_check_fits : forall n p i a b s r u, 0 <= s <= W - 2 -> (2 ^ (W - 2) | n * i - 1) -> row_check n p i (a, b, s) r u = true -> row_fits n p (a, b, s) r u.
Proof.
  intros n p i a b s r u Hs HI HC V m Hm EV. unfold row_check in HC. set (U := a * r + b * u) in *. pose proof (pow2_gt0 s ltac:(lia)) as PS.
  assert (D : (2 ^ s | n * i - 1)). { apply Z.divide_trans with (2 ^ (W - 2)); [|auto]. exists (2 ^ (W - 2 - s)). rewrite <- Z.pow_add_r by lia. f_equal. lia. }
  assert (E : (- U * i) mod 2 ^ s = m).
  { rewrite <- (Z.mod_small m (2 ^ s)) by auto. destruct D as [t Ht]. assert (E1 : - U * i = m + (m * t - V * i) * 2 ^ s).
    { transitivity (m * (n * i) - 2 ^ s * V * i); [rewrite EV; ring|]. replace (n * i) with (t * 2 ^ s + 1) by lia. ring. }
    rewrite E1. apply Z.mod_add. lia. }
  rewrite E, <- EV, (Z.mul_comm (2 ^ s) V), Z.div_mul in HC by lia. apply andb_true_iff in HC. destruct HC as [H1 H2]. apply Z.leb_le in H1. apply Z.ltb_lt in H2. lia.
Qed.

Lemma batches_S : forall k s, batches (S k) s = batches k (fst (fst (steps_rows (Z.to_nat (W - 2)) s))).
Proof. induction k as [|k IH]; intros s; [auto|]. cbn [batches]. cbn [batches] in IH. rewrite IH. auto. Qed.

Lemma residue_eq : forall n x y f r, 1 < n -> (n | x * y - 1) -> 0 <= r < n -> (n | f - r * x) -> r = f * y mod n.
Proof.
  intros n x y f r Hn [t Ht] Hr [q Hq]. symmetry. rewrite <- (Z.mod_small r n) by auto. assert (E : f * y = r + (q * y + r * t) * n).
  { replace f with (r * x + q * n) by lia. transitivity (r * (x * y) + q * y * n); [ring|]. replace (x * y) with (t * n + 1) by lia. ring. }
  rewrite E. apply Z.mod_add. lia.
Qed.

Definition fit_at (n p x : Z) (st : Z * Z * Z) : Prop := forall r u, 0 <= r < n -> 0 <= u < n ->
  let '((_, f, g), row0, row1) := steps_rows (Z.to_nat (W - 2)) st in
  let '(_, f0, g0) := st in (n | f0 - r * x) -> (n | g0 - u * x) -> row_fits n p row0 r u /\ row_fits n p row1 r u.

Lemma zero_fit : forall k n p x y d f, 0 <= p -> 1 < n < B ^ (p + 1) -> (n | x * y - 1) -> fit_at n p x (batches k (d, f, 0)).
Proof.
  intros k n p x y d f Hp Hn HY. assert (E : exists d', batches k (d, f, 0) = (d', f, 0)).
  { induction k as [|k [d' IH]]; [eexists; reflexivity|]. cbn [batches]. rewrite IH, zero_rows. cbn [fst]. eauto. }
  destruct E as [d' ->]. intros r u Hr Hu. rewrite zero_rows. intros _ D. pose proof W_cases as WC.
  assert (U0 : u = 0). { assert (N1 : 1 < n) by lia. rewrite (residue_eq n x y 0 u N1 HY Hu D), Z.mul_0_l. apply Z.mod_0_l. lia. } subst u.
  split; [apply row_fits_id; auto; lia|]. intros V m Hm EV. replace (0 * r + 1 * 0 + m * n) with (m * n) in EV by ring. pose proof (Bpow_pos p Hp).
  set (P := 2 ^ Z.of_nat (Z.to_nat (W - 2))) in *. clearbody P. pf (mul_nn m n). assert (P1 : 0 <= V). { apply (mul_le_cancel P); [lia|]. rewrite Z.mul_0_r, EV. lia. }
  pf (mul_nn P (B ^ p)). split; [lia|]. assert (V < n); [|lia]. apply (mul_lt_cancel P); [lia|]. rewrite EV. apply Z.mul_lt_mono_pos_r; lia.
Qed.

Lemma fit_check_all : forall K n p i x y st k, 0 <= p -> 1 < n < B ^ (p + 1) -> (2 ^ (W - 2) | n * i - 1) -> (n | x * y - 1) ->
  fit_check K n p i y st = true -> fit_at n p x (batches k st).
Proof.
  induction K as [|K IH]; intros n p i x y [[d f] g] k Hp Hn HI HY HC; cbn [fit_check] in HC.
  - apply Z.eqb_eq in HC. subst g. eapply zero_fit; eauto.
  - destruct (steps_rows (Z.to_nat (W - 2)) (d, f, g)) as [[[[d1 f1] g1] row0] row1] eqn:SR. apply andb_true_iff in HC. destruct HC as [HC H2]. apply andb_true_iff in HC. destruct HC as [H0 H1].
    destruct k as [|k]; [|rewrite batches_S, SR; cbn [fst]; eapply IH; eauto]. cbn [batches]. intros r u Hr Hu. rewrite SR. intros Dr Du.
    pose proof (steps_rows_inv (Z.to_nat (W - 2)) (d, f, g)) as SI. rewrite SR in SI. destruct row0 as [[a b] s]. destruct row1 as [[e h] t].
    pose proof W_cases as WC. rewrite Z2Nat.id in SI by lia.
    assert (N1 : 1 < n) by lia. rewrite (residue_eq n x y f r N1 HY Hr Dr), (residue_eq n x y g u N1 HY Hu Du).
    split; apply (row_check_fits n p i); auto; lia.
Qed.

Lemma fit_check_correct : forall K n p i x y, 0 <= p -> 1 < n < B ^ (p + 1) -> (2 ^ (W - 2) | n * i - 1) -> (n | x * y - 1) ->
  fit_check K n p i y (1, n, x) = true -> residues_fit n p x.
Proof.
  intros K n p i x y Hp Hn HI HY HC k r u Hr Hu. exact (fit_check_all K n p i x y (1, n, x) k Hp Hn HI HY HC r u Hr Hu).
Qed.

(** The same for the condition on swaps. *)
Fixpoint late_check (k : nat) (n p : Z) (st : Z * Z * Z) : bool :=
  match k with
  | O => snd st =? 0
  | S k => let '(st', (_, _, s), _) := steps_rows (Z.to_nat (W - 2)) st in ((s =? 0) || (n <=? 2 ^ s * B ^ p)) && late_check k n p st'
  end.
Lemma late_check_all : forall K n p st k, late_check K n p st = true ->
  let '(_, (_, _, s), _) := steps_rows (Z.to_nat (W - 2)) (batches k st) in s = 0 \/ n <= 2 ^ s * B ^ p.
Proof.
  induction K as [|K IH]; intros n p [[d f] g] k HC; cbn [late_check snd] in HC.
  - apply Z.eqb_eq in HC. subst g. assert (E : exists d', batches k (d, f, 0) = (d', f, 0)).
    { induction k as [|k [d' E]]; [eexists; reflexivity|]. cbn [batches]. rewrite E, zero_rows. cbn [fst]. eauto. }
    destruct E as [d' ->]. rewrite zero_rows. auto.
  - destruct (steps_rows (Z.to_nat (W - 2)) (d, f, g)) as [[st' [[a b] s]] row1] eqn:SR. apply andb_true_iff in HC. destruct HC as [H0 H1].
    destruct k as [|k]; [|rewrite batches_S, SR; cbn [fst]; apply IH; auto]. cbn [batches]. rewrite SR. apply orb_true_iff in H0. rewrite Z.eqb_eq, Z.leb_le in H0. auto.
Qed.
Lemma late_check_correct : forall K n p x, n <= 2 ^ (W - 2) * B ^ p -> late_check K n p (1, n, x) = true -> late_swaps n p x.
Proof. intros K n p x HN HC. split; [auto|]. intros k. apply (late_check_all K); auto. Qed.

(** Running all batches, and what becomes of an inversion. *)
Fixpoint run (k : nat) (n p : Z) (st : Z * Z * Z) (r u : Z) : (Z * Z * Z) * (Z * Z) :=
  match k with
  | O => (st, (r, u))
  | S k => let '(st', row0, row1) := steps_rows (Z.to_nat (W - 2)) st in run k n p st' (row_residue n p row0 r u) (row_residue n p row1 r u)
  end.
Lemma run_eq : forall k j n p x, run k n p (batches j (1, n, x)) (fst (residues n p x j)) (snd (residues n p x j)) = (batches (j + k) (1, n, x), residues n p x (j + k)).
Proof.
  induction k as [|k IH]; intros j n p x; cbn [run].
  - rewrite Nat.add_0_r. destruct (residues n p x j); auto.
  - specialize (IH (S j) n p x). rewrite Nat.add_succ_r. rewrite <- Nat.add_succ_l, <- IH. cbn [batches residues].
    destruct (residues n p x j) as [r u]. destruct (steps_rows (Z.to_nat (W - 2)) (batches j (1, n, x))) as [[st row0] row1]. auto.
Qed.
(** The inversion ends after [k] batches with some other number than the inverse. *)
Definition goes_wrong (k : nat) (n p x : Z) : bool :=
  let '((_, f, g), (r, _)) := run k n p (1, n, x) 0 1 in
  (g =? 0) && negb (r =? 0) && negb (x * (if f <? 0 then n - r else r) mod n =? 1).
Lemma goes_wrong_spec : forall k n p x, 1 < n -> goes_wrong k n p x = true ->
  exists d f, batches k (1, n, x) = (d, f, 0) /\ fst (residues n p x k) <> 0 /\
    ~ is_inverse n x (if f <? 0 then n - fst (residues n p x k) else fst (residues n p x k)).
Proof.
  intros k n p x Hn H. unfold goes_wrong in H. pose proof (run_eq k 0 n p x) as E. cbn [batches residues fst snd Nat.add] in E. rewrite (Z.mod_small 1) in E by lia. rewrite E in H.
  destruct (batches k (1, n, x)) as [[d f] g]. destruct (residues n p x k) as [r u]. apply andb_true_iff in H. destruct H as [H W0]. apply andb_true_iff in H. destruct H as [G0 R0].
  apply Z.eqb_eq in G0. subst g. apply negb_true_iff, Z.eqb_neq in R0. apply negb_true_iff, Z.eqb_neq in W0. exists d, f. cbn [fst]. split; [auto|]. split; [auto|].
  intros [_ I]. rewrite (Z.mod_small 1) in I by lia. auto.
Qed.
End Facts.
