(** Long division in place, one quotient limb at a time. *)
From Coq Require Import ZArith List Bool Lia.
Require Import Verif.Spec Verif.Monad Verif.Base Verif.Wp Verif.Pan Verif.Wx Verif.ModelLimb Verif.LimbFacts Verif.LimbFacts2 Verif.LDivFacts
  Verif.ModelBuf Verif.SpecBuf Verif.BufFacts Verif.BufFacts2 Verif.BufFacts3 Verif.CompFacts Verif.UpFacts Verif.ShiftFacts Verif.MulFacts
  Verif.ModelDiv Verif.DivFacts Verif.DivFacts2.
Import ListNotations.
Open Scope Z_scope.

Section Facts.
Context {c : cfg}.

(** ** Arithmetic of one step *)
Definition rems (U D s j : Z) : Z := 2 ^ s * (U mod (D * B ^ j)).

Lemma rems_bound : forall U D s j, 0 < D -> 0 <= s -> 0 <= j -> 0 <= rems U D s j < D * 2 ^ s * B ^ j.
Proof.
  intros U D s j HD Hs Hj. unfold rems. pf (Bpow_pos j). pf (Z.pow_pos_nonneg 2 s) as SP.
  assert (0 < D * B ^ j) by (apply Z.mul_pos_pos; lia). pf (Z.mod_pos_bound U (D * B ^ j)) as MB.
  pose proof (mul_nn (2 ^ s) (U mod (D * B ^ j))). pose proof (mul_lt_l (2 ^ s) (U mod (D * B ^ j)) (D * B ^ j)). lia.
Qed.

Lemma rem_step : forall U D s j q R, 0 <= U -> 0 < D -> 0 <= s -> 0 <= j -> 0 <= q < B ->
  R = rems U D s (j + 1) - q * (D * 2 ^ s) * B ^ j -> 0 <= R < D * 2 ^ s * B ^ j ->
  R = rems U D s j /\ q = vlimb (U / D) j.
Proof.
  intros U D s j q R HU HD Hs Hj Hq ER HR. unfold rems in *. pf (Bpow_pos j) as BP. pf (Z.pow_pos_nonneg 2 s) as SP. pose proof B_pos.
  assert (DP : 0 < D * B ^ j) by (apply Z.mul_pos_pos; lia).
  rewrite Bpow_S in ER by auto. set (M := D * B ^ j) in *. replace (D * (B * B ^ j)) with (M * B) in ER by (unfold M; ring).
  assert (MP : 0 < M * B) by (apply Z.mul_pos_pos; lia).
  pose proof (Z_div_mod_eq_full U (M * B)) as DM. set (r1 := U mod (M * B)) in *. set (H0 := U / (M * B)) in *.
  assert (ER' : R = 2 ^ s * (r1 - q * M)) by (rewrite ER; unfold M; ring).
  assert (R1 : 0 <= r1 - q * M < M).
  { split; [apply (mul_le_cancel (2 ^ s)); lia|]. apply (mul_lt_cancel (2 ^ s)); [lia|]. unfold M in *. lia. }
  assert (DE : U = M * (q + B * H0) + (r1 - q * M)) by (rewrite DM at 1; ring).
  assert (E1 : U mod M = r1 - q * M) by (symmetry; apply Z.mod_unique with (q := q + B * H0); auto).
  assert (E2 : U / M = q + B * H0) by (symmetry; apply Z.div_unique with (r := r1 - q * M); auto).
  split; [rewrite E1; auto|]. unfold vlimb. rewrite Z.div_div by lia. fold M. rewrite E2.
  rewrite Z.mul_comm, Z.mod_add by lia. symmetry. apply Z.mod_small. lia.
Qed.

Lemma upd_div : forall T k x, 0 <= k -> isl x -> (T + (x - vlimb T k) * B ^ k) / B ^ (k + 1) = T / B ^ (k + 1).
Proof.
  intros T k x Hk Hx. pf (limb_split T k) as S. pf (Bpow_pos k) as BP. pose proof B_pos.
  pose proof (Z.mod_pos_bound T (B ^ k)). unfold isl in Hx. rewrite Bpow_S by auto.
  set (h := T / (B * B ^ k)) in *. rewrite Bpow_S in S by auto. fold h in S.
  apply div_eq_of with (r := T mod B ^ k + B ^ k * x); [|rewrite S at 1; ring].
  pose proof (mul_le_l (B ^ k) x (B - 1)). pose proof (mul_nn (B ^ k) x). lia.
Qed.
Lemma div0_bound : forall T P, 0 < P -> T / P = 0 -> 0 <= T < P.
Proof. intros. pose proof (Z_div_mod_eq_full T P). pose proof (Z.mod_pos_bound T P). rewrite H0 in *. lia. Qed.

Definition subinv (T0 q V j i bo T : Z) : Prop :=
  T = T0 - (q * (V mod B ^ i) - bo * B ^ i) * B ^ j /\ T / B ^ (i + j) = T0 / B ^ (i + j).
Lemma subinv_init : forall T0 q V j, subinv T0 q V j 0 0 T0.
Proof. intros. split; auto. rewrite Z.pow_0_r, Z.mod_1_r. lia. Qed.
Lemma subinv_step : forall T0 q V j i bo T bo' x, 0 <= i -> 0 <= j -> subinv T0 q V j i bo T -> isl x ->
  vlimb T (i + j) - q * vlimb V i - bo = x - bo' * B ->
  subinv T0 q V j (i + 1) bo' (T + (x - vlimb T (i + j)) * B ^ (i + j)).
Proof.
  intros T0 q V j i bo T bo' x Hi Hj [E1 E2] Hx E. split.
  - rewrite vmod_S, Bpow_S by auto. rewrite Z.pow_add_r by lia.
    replace (x - vlimb T (i + j)) with (bo' * B - q * vlimb V i - bo) by lia. rewrite E1 at 1. ring.
  - replace (i + 1 + j) with (i + j + 1) by lia. rewrite upd_div by (auto; lia). apply div_ext_S; auto. lia.
Qed.

Lemma sub_final : forall T0 q V j n bo T x kb, 0 <= n -> 0 <= j -> 0 <= T0 < V * B ^ (j + 1) -> 0 < V < B ^ n ->
  est_ok V (T0 / B ^ j) q -> subinv T0 q V j n bo T -> isl x -> (kb = 0 \/ kb = 1) ->
  vlimb T (n + j) - bo = x - B * kb ->
  let T' := T + (x - vlimb T (n + j)) * B ^ (n + j) in
  T' = T0 - q * V * B ^ j + kb * B ^ (n + 1 + j) /\ T' / B ^ (n + 1 + j) = 0 /\
  0 <= q - kb < B /\ 0 <= T0 - (q - kb) * V * B ^ j < V * B ^ j.
Proof.
  intros T0 q V j n bo T x kb Hn Hj HT HV (Q0 & Q1 & Q2) [S1 S2] Hx Hk E T'. pf (Bpow_pos j) as BJ. pf (Bpow_pos n) as BN. pose proof B_pos.
  assert (PE : B ^ (n + 1 + j) = B * B ^ n * B ^ j) by (rewrite Z.pow_add_r, Bpow_S by lia; auto).
  rewrite Z.mod_small in S1 by lia.
  assert (ET : T' = T0 - q * V * B ^ j + kb * B ^ (n + 1 + j)).
  { unfold T'. rewrite PE. replace (x - vlimb T (n + j)) with (B * kb - bo) by lia. rewrite (Z.pow_add_r B n j) by lia. rewrite S1 at 1. ring. }
  assert (T0B : T0 < B ^ (n + 1 + j)).
  { rewrite PE. rewrite Bpow_S in HT by lia. pose proof (mul_lt_l (B * B ^ j) V (B ^ n)). assert (0 < B * B ^ j) by (apply Z.mul_pos_pos; lia). lia. }
  assert (TD : T' / B ^ (n + 1 + j) = 0).
  { unfold T'. replace (n + 1 + j) with (n + j + 1) in * by lia. rewrite upd_div by (auto; lia).
    rewrite (div_ext_S T T0 (n + j)) by (auto; lia). apply Z.div_small. lia. }
  split; auto. split; auto.
  assert (PP : 0 < B ^ (n + 1 + j)) by (apply Bpow_pos; lia). pose proof (div0_bound _ _ PP TD) as TB.
  pose proof (Z_div_mod_eq_full T0 (B ^ j)) as DM. pf (Z.mod_pos_bound T0 (B ^ j)) as MB. set (U := T0 / B ^ j) in *. set (L := T0 mod B ^ j) in *.
  assert (E' : T' = B ^ j * (U - q * V + kb * (B * B ^ n)) + L) by (rewrite ET, PE, DM; ring).
  assert (R1 : 0 <= U - q * V + kb * (B * B ^ n) < B * B ^ n).
  { split.
    - assert (B ^ j * 0 < B ^ j * (U - q * V + kb * (B * B ^ n) + 1)) by lia. apply mul_lt_cancel in H0; lia.
    - assert (B ^ j * (U - q * V + kb * (B * B ^ n)) < B ^ j * (B * B ^ n)) by lia. apply mul_lt_cancel in H0; lia. }
  assert (U0 : 0 <= U) by (apply Z.div_pos; lia). unfold isl in *.
  assert (R2 : 0 <= U - (q - kb) * V < V) by (destruct Hk; subst kb; lia).
  split.
  - destruct Hk; subst kb; [lia|]. assert (q <> 0) by (intros ->; lia). lia.
  - replace (T0 - (q - kb) * V * B ^ j) with (B ^ j * (U - (q - kb) * V) + L) by (rewrite DM; ring).
    pose proof (mul_le_l (B ^ j) (U - (q - kb) * V) (V - 1)). pose proof (mul_nn (B ^ j) (U - (q - kb) * V)). lia.
Qed.

Definition addinv (T1 D s : Z) (b : bool) (j i cy T : Z) : Prop :=
  T = T1 + ((if b then 2 ^ s * (D mod B ^ i) else 0) - cy * B ^ i) * B ^ j /\ T / B ^ (i + j) = T1 / B ^ (i + j).
Lemma addinv_init : forall T1 D s b j, addinv T1 D s b j 0 0 T1.
Proof. intros. split; auto. rewrite Z.pow_0_r, Z.mod_1_r. destruct b; lia. Qed.
Lemma addinv_step : forall T1 D s (b : bool) j i cy T cy' x, 0 <= i -> 0 <= j -> addinv T1 D s b j i cy T -> isl x ->
  vlimb T (i + j) + (if b then vlimb D i * 2 ^ s else 0) + cy = x + cy' * B ->
  addinv T1 D s b j (i + 1) cy' (T + (x - vlimb T (i + j)) * B ^ (i + j)).
Proof.
  intros T1 D s b j i cy T cy' x Hi Hj [E1 E2] Hx E. split.
  - rewrite vmod_S, Bpow_S by auto. rewrite Z.pow_add_r by lia.
    replace (x - vlimb T (i + j)) with ((if b then vlimb D i * 2 ^ s else 0) + cy - cy' * B) by lia. rewrite E1 at 1. destruct b; ring.
  - replace (i + 1 + j) with (i + j + 1) by lia. rewrite upd_div by (auto; lia). apply div_ext_S; auto. lia.
Qed.
Lemma add_final : forall T0 T1 q D s (b : bool) j n cy T x k, 0 <= n -> 0 <= j -> 0 <= s -> 0 < D -> D * 2 ^ s < B ^ n ->
  T1 = T0 - q * (D * 2 ^ s) * B ^ j + b2z b * B ^ (n + 1 + j) -> T1 / B ^ (n + 1 + j) = 0 ->
  0 <= T0 - (q - b2z b) * (D * 2 ^ s) * B ^ j < D * 2 ^ s * B ^ j ->
  addinv T1 D s b j n cy T -> isl x -> (k = 0 \/ k = 1) -> vlimb T (n + j) + cy = x + B * k ->
  T + (x - vlimb T (n + j)) * B ^ (n + j) = T0 - (q - b2z b) * (D * 2 ^ s) * B ^ j.
Proof.
  intros T0 T1 q D s b j n cy T x k Hn Hj Hs HD HV E1 D1 HR [A1 A2] Hx Hk E. pf (Bpow_pos j) as BJ. pf (Bpow_pos n) as BN. pose proof B_pos.
  pf (Z.pow_pos_nonneg 2 s) as SP. assert (DL : D * 1 <= D * 2 ^ s) by (apply mul_le_l; lia). rewrite Z.mod_small in A1 by lia.
  set (V := D * 2 ^ s) in *. set (T' := T + _).
  assert (PE : B ^ (n + 1 + j) = B * B ^ n * B ^ j) by (rewrite Z.pow_add_r, Bpow_S by lia; auto).
  assert (ET : T' = T0 - (q - b2z b) * V * B ^ j + (b2z b - k) * B ^ (n + 1 + j)).
  { unfold T'. replace (x - vlimb T (n + j)) with (cy - B * k) by lia. rewrite (Z.pow_add_r B n j) by lia. rewrite A1 at 1. rewrite E1, PE. unfold V. destruct b; cbn [b2z]; ring. }
  assert (TD : T' / B ^ (n + 1 + j) = 0).
  { unfold T'. rewrite <- D1. replace (n + 1 + j) with (n + j + 1) by lia. rewrite upd_div by (auto; lia). apply div_ext_S; auto; lia. }
  assert (PP : 0 < B ^ (n + 1 + j)) by (apply Bpow_pos; lia). pose proof (div0_bound _ _ PP TD) as TB.
  assert (VP : V * B ^ j < B ^ (n + 1 + j)). { rewrite PE. pose proof (mul_lt_l (B ^ j) V (B ^ n)). pose proof (mul_le_l (B ^ n * B ^ j) 1 B). pose proof (mul_nn (B ^ n) (B ^ j)). lia. }
  assert (Z0 : b2z b - k = 0). { apply (mul_small_0 (B ^ (n + 1 + j))). lia. }
  rewrite ET, Z0. lia.
Qed.

(** ** The quotient argument *)
Definition qinv (q0 : option mp) (Qv j : Z) (q : option mp) : Prop :=
  match q0, q with
  | None, None => True
  | Some b0, Some b => mp_ok b /\ same_shape b0 b /\ mpval b / B ^ j = Qv / B ^ j
  | _, _ => False
  end.
Definition qfit (q0 : option mp) (Qv : Z) : Prop := match q0 with None => True | Some b => Qv < 256 ^ mp_len b end.
Definition qover (q0 : option mp) (Qv : Z) : Prop := match q0 with None => False | Some b => B ^ nlimbs b <= Qv end.
Definition qnl (q0 : option mp) (j : Z) : Prop := match q0 with None => True | Some b => j <= nlimbs b end.

Lemma fit_limb : forall b Qv j, 0 <= Qv < 256 ^ mp_len b -> 0 <= j < nlimbs b -> 0 <= vlimb Qv j < lim b j.
Proof.
  intros b Qv j HQ Hj. pose proof (vlimb_isl Qv j) as I. unfold isl in I. split; [lia|].
  destruct (Z.lt_ge_cases j (nlimbs b - 1)); [rewrite lim_inner by lia; lia|].
  replace j with (nlimbs b - 1) in * by lia. pf (lim_total b) as LT. pf (Bpow_pos (nlimbs b - 1)).
  unfold vlimb. eapply Z.le_lt_trans; [apply Z.mod_le; [apply Z.div_pos; lia|apply B_pos]|]. apply Z.div_lt_upper_bound; lia.
Qed.

(** The quotient's bytes kept by the buffer, what they are good for, and how far
    a division which may panic ([e]) gets. *)
Definition qtr (q0 : option mp) (Qv : Z) : Z := match q0 with None => Qv | Some b => Qv mod 256 ^ mp_len b end.
Definition qtinv (q0 : option mp) (Qv j : Z) (q : option mp) : Prop :=
  match q0, q with
  | None, None => True
  | Some b0, Some b => mp_ok b /\ same_shape b0 b /\ mpval b / B ^ j = qtr q0 Qv / B ^ j
  | _, _ => False
  end.
Definition qgood (q0 : option mp) (Qv : Z) : Prop :=
  match q0 with None => True | Some b => Qv < 256 ^ mp_len b \/ (debug c = false /\ Qv < B ^ nlimbs b) end.
Definition qst (e : bool) (q0 : option mp) (Qv j : Z) : Prop :=
  qgood q0 Qv \/ (e = true /\ match q0 with None => True | Some b => Qv < B ^ nlimbs b /\ nlimbs b <= j end).

Lemma fit_B : forall b Qv, Qv < 256 ^ mp_len b -> Qv < B ^ nlimbs b.
Proof.
  intros b Qv H. eapply Z.lt_le_trans; [apply H|]. pose proof (nlimbs_spec b). rewrite Bpow256 by lia.
  apply Z.pow_le_mono_r; lia.
Qed.
Lemma qgood_B : forall b Qv, qgood (Some b) Qv -> Qv < B ^ nlimbs b.
Proof. intros b Qv [H|[_ H]]; [apply fit_B|]; auto. Qed.
Lemma qst_B : forall e b Qv j, qst e (Some b) Qv j -> Qv < B ^ nlimbs b.
Proof. intros e b Qv j [H|(_ & H & _)]; [apply qgood_B|]; auto. Qed.
Lemma qtr_fit : forall q0 Qv, 0 <= Qv -> qfit q0 Qv -> qtr q0 Qv = Qv.
Proof. intros [b|] Qv H0 H; cbn in *; auto. apply Z.mod_small. lia. Qed.
Lemma qtr_le : forall q0 Qv, 0 <= Qv -> 0 <= qtr q0 Qv <= Qv.
Proof.
  intros [b|] Qv H; cbn; [|lia]. pose proof (mp_len_nonneg b). pf (p256_pos (mp_len b)).
  split; [apply Z.mod_pos_bound|apply Z.mod_le]; lia.
Qed.
Lemma qst_0 : forall e q0 Qv, 0 <= Qv -> qst e q0 Qv 0 -> qgood q0 Qv.
Proof.
  intros e [b|] Qv H0 H; [|exact I]. destruct H as [H|(_ & H & N)]; [auto|]. pose proof (nlimbs_nonneg b). replace (nlimbs b) with 0 in H by lia. rewrite Z.pow_0_r in H.
  left. pose proof (mp_len_nonneg b). pf (p256_pos (mp_len b)). lia.
Qed.

Lemma qtr_limb : forall b Qv j, 0 <= j < nlimbs b -> vlimb (qtr (Some b) Qv) j = vlimb Qv j mod lim b j.
Proof.
  intros b Qv j Hj. pose proof LB_pos as LP. assert (HL : j * LB < mp_len b) by (apply nlimbs_lt; lia).
  assert (J0 : 0 <= j * LB) by (apply mul_nn; lia). pf (Bpow_pos j) as BP. pf (p256_pos (mp_len b - j * LB)) as PP.
  unfold vlimb, qtr, lim. replace (mp_len b) with (j * LB + (mp_len b - j * LB)) at 1 by lia.
  rewrite Z.pow_add_r, <- Bpow256 by lia. rewrite mod_div_split by lia. set (x := Qv / B ^ j). set (n := mp_len b - j * LB) in *.
  rewrite B_256. destruct (Z.le_ge_cases LB n).
  - rewrite Z.min_l by lia. rewrite mod_mod_pow by lia. symmetry. apply Z.mod_mod. pf (p256_pos LB). lia.
  - rewrite Z.min_r by lia. rewrite (mod_mod_pow x 256 n LB) by lia. apply Z.mod_small.
    pf (Z.mod_pos_bound x (256 ^ n)). pose proof (Z.pow_le_mono_r 256 n LB). lia.
Qed.

Lemma wx_store_q : forall e q0 Qv j q est (b : bool) (P : option mp * bool -> Prop), 0 <= Qv -> 0 <= j ->
  qtinv q0 Qv (j + 1) q -> isl est -> est - b2z b = vlimb Qv j -> qnl q0 j ->
  (qst e q0 Qv (j + 1) \/ (qover q0 Qv /\ Qv / B ^ (j + 1) = 0 /\ exists b, q0 = Some b /\ j = nlimbs b)) ->
  (qst e q0 Qv j -> forall q', qtinv q0 Qv j q' -> P (q', false)) ->
  (qover q0 Qv -> forall q', qtinv q0 Qv (j + 1) q' -> P (q', true)) ->
  wx e (store_q q j est (chc b)) P.
Proof.
  intros e q0 Qv j q est b P HQ Hj HI He Eq Hnl Hcase HF HO. unfold store_q. pose proof B_gt.
  destruct q0 as [b0|], q as [bq|]; cbn [qtinv] in HI; try contradiction.
  2:{ apply wx_ret. apply HF; cbn; auto. left. exact I. }
  destruct HI as (O & S & E). pose proof (vlimb_isl Qv j) as IV. unfold isl in *.
  rewrite lc_select_chc by (unfold isl; lia). replace (if b then 1 else 0) with (b2z b) by (destruct b; auto).
  apply wx_bind, wp_lsub; [lia|]. rewrite Eq. pose proof (shape_nlimbs _ _ S) as SN. cbn [qnl] in Hnl.
  set (T := qtr (Some b0) Qv) in *. pose proof (qtr_le (Some b0) Qv HQ) as TL. fold T in TL. pf (Bpow_pos j) as BJ.
  apply wx_mif; intros EJ.
  - apply negb_true_iff, Z.eqb_neq in EJ. assert (JL : j < nlimbs bq) by lia. apply wx_bind, wp_dassert; [apply Z.ltb_lt; auto|].
    assert (FT : qst e (Some b0) Qv (j + 1)). { destruct Hcase as [|(_ & _ & b' & Eb & Ej)]; auto. injection Eb as <-. lia. }
    assert (FIN : forall b', store_post bq j (vlimb Qv j mod lim bq j) b' -> qst e (Some b0) Qv j -> P (Some b', false)).
    { intros b' SP QS. apply HF; auto.
      rewrite (lim_shape b0 bq), <- qtr_limb in SP by (auto; lia). fold T in SP.
      cbn [qtinv]. split; [apply SP|]. split; [eapply shape_trans; [eauto|apply SP]|]. fold T.
      rewrite (vdiv_S (mpval b') j), (vdiv_S T j) by auto.
      rewrite (store_div bq b' j (vlimb T j)) by (auto; apply vlimb_isl). rewrite E.
      rewrite <- limb_vlimb. rewrite (store_limb bq b' j (vlimb T j)) by (auto; apply vlimb_isl). auto. }
    pose proof (qst_B _ _ _ _ FT) as QB.
    pose proof (lim_pos b0 j) as LP. pose proof (lim_shape b0 bq j S) as LS.
    destruct (Z.lt_ge_cases (vlimb Qv j) (lim bq j)) as [F|F].
    + apply wx_bind, wp_store; auto; [lia|]. intros b' SP. apply wx_ret. apply FIN; [rewrite Z.mod_small by lia; auto|].
      destruct FT as [G|(-> & _ & NJ)]; [left; auto|]. left. left.
      assert (JE : j = nlimbs b0 - 1) by lia. pf (lim_total b0) as LT. rewrite <- JE in LT.
      assert (X : Qv / B ^ j = vlimb Qv j).
      { unfold vlimb. rewrite Z.mod_small; auto. split; [apply Z.div_pos; lia|]. apply Z.div_lt_upper_bound; [lia|].
        rewrite Z.mul_comm, <- Bpow_S by lia. replace (j + 1) with (nlimbs b0) by lia. auto. }
      rewrite <- X, LS in F. pose proof (Z.mul_succ_div_gt Qv (B ^ j)). pose proof (mul_le_l (B ^ j) (Z.succ (Qv / B ^ j)) (lim b0 j)). lia.
    + destruct (debug c) eqn:D.
      * assert (e = true) as ->.
        { destruct FT as [[G|[G _]]|[G _]]; [|congruence|auto]. pose proof (fit_limb b0 Qv j). lia. }
        apply pan_wx, pan_l, store_big_pan; auto.
      * apply wx_bind. apply wp_store_cut; [exact D|auto|lia|exact IV|]. intros b' SP. apply wx_ret. apply FIN; auto. left. right. auto.
  - apply negb_false_iff, Z.eqb_eq in EJ. pose proof (mpval_bound_B bq O) as MB. rewrite <- EJ in MB.
    assert (E0 : mpval bq / B ^ (j + 1) = 0). { rewrite Bpow_S by auto. apply Z.div_small. pose proof (mul_le_l (B ^ j) 1 B). lia. }
    apply wx_mif; intros EZ.
    + apply negb_true_iff, Z.eqb_neq in EZ. destruct Hcase as [FT|(OV & Z0 & _)].
      * exfalso. apply EZ. apply vlimb_big. split; [lia|]. rewrite EJ, SN. eapply qst_B; eauto.
      * apply wx_ret. apply HO; auto. cbn [qtinv]. auto.
    + apply negb_false_iff, Z.eqb_eq in EZ. destruct Hcase as [FT|(OV & Z0 & _)].
      * pose proof (qst_B _ _ _ _ FT) as QB. rewrite <- SN, <- EJ in QB. apply wx_ret. apply HF.
        { destruct FT as [G|(G1 & G2 & _)]; [left; auto|right; split; auto; split; auto; lia]. }
        cbn [qtinv]. split; auto. split; auto. fold T. rewrite !Z.div_small by lia. auto.
      * exfalso. cbn [qover] in OV. rewrite <- SN, <- EJ in OV. pf (vdiv_S Qv j) as DS. rewrite EZ, Z0 in DS.
        pose proof (div0_bound Qv (B ^ j)). lia.
Qed.
End Facts.
