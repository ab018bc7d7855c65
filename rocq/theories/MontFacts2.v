(** Facts about montgomery_impl.rs (ModelMont.v): the final conditional subtraction. *)
From Coq Require Import ZArith List Bool Lia.
Require Import Verif.Spec Verif.Base Verif.Monad Verif.Wp Verif.ModelLimb Verif.LimbFacts Verif.LimbFacts2
  Verif.ModelBuf Verif.SpecBuf Verif.BufFacts Verif.BufFacts2 Verif.BufFacts3 Verif.UpFacts Verif.ModelCmp Verif.CmpFacts
  Verif.ModelAdd Verif.AddFacts Verif.ModelMont Verif.MontFacts.
Import ListNotations.
Open Scope Z_scope.

Section Facts.
Context {c : cfg}.

Lemma wp_not_geq : forall a b, mp_ok a -> mp_ok b -> mpval a < mpval b -> wp (dassert_not_geq a b) (fun _ => True).
Proof.
  intros a b Ha Hb H. apply wp_dassert_m; [|auto]. apply wp_bind, wp_geq_mp; auto. apply wp_ret.
  replace (mpval b <=? mpval a) with false by (symmetry; apply Z.leb_gt; lia). rewrite lc_unwrap_chc. reflexivity.
Qed.

Lemma upinv_split : forall t i, mp_ok t -> 0 <= i -> upinv t (mpval t) i (mpval t mod B ^ i) t.
Proof.
  intros t i Ht Hi. pf (Bpow_pos i) as P. split; [auto|]. split; [apply shape_refl|]. split; [apply Z.mod_pos_bound; lia|].
  pf (Z.div_mod (mpval t) (B ^ i)). lia.
Qed.

(** The subtraction itself: the stored value is [V], the bit above it [cc]. *)
Lemma wp_mg_sub : forall t n cc A (Q : mp -> Prop), mp_ok t -> mp_ok n -> nlimbs n <= nlimbs t -> 0 < mpval n ->
  mpval n < 256 ^ mp_len t -> A = mpval t + b2z cc * 256 ^ mp_len t -> A < 2 * mpval n ->
  (forall t', becomes t t' (A mod mpval n) -> Q t') ->
  wp (let! g := ct_geq_mp_mp t n in
      let! '(t, _) := ct_sub_cond_mp_mp t n (lc_or (chc cc) g) in
      dassert_not_geq t n ;; ret t) Q.
Proof.
  intros t n cc A Q Ht Hn Hnn HN HF HA HA2 HQ. pose proof (mpval_bound t Ht) as BT.
  apply wp_bind, wp_geq_mp; auto. rewrite lc_or_chc. apply wp_bind, wp_sub_cond; auto.
  intros t' k (Hk & V & (O & S & EV) & E). pose proof (mpval_bound t' O) as BT'. rewrite (shape_len _ _ S) in BT'. rewrite EV in BT'.
  set (P := 256 ^ mp_len t) in *.
  assert (VA : V = A mod mpval n).
  { destruct cc; cbn [b2z orb] in *.
    - assert (V = A - mpval n) by (destruct Hk as [->| ->]; lia). apply Z.mod_unique with 1; lia.
    - destruct (Z.leb_spec (mpval n) (mpval t)) as [L|L].
      + assert (V = A - mpval n) by (destruct Hk as [->| ->]; lia). apply Z.mod_unique with 1; lia.
      + assert (V = A) by (destruct Hk as [->| ->]; lia). apply Z.mod_unique with 0; lia. }
  pf (Z.mod_pos_bound A (mpval n)) as MB.
  apply wp_bind. apply wp_mono with (Q := fun _ => True); [apply wp_not_geq; auto; lia|]. intros _ _. apply wp_ret. apply HQ.
  split; [auto|split; [auto|lia]].
Qed.

Lemma wp_mg_finish : forall t b n p sh cy A (Q : mp -> Prop), mp_ok t -> mp_ok n -> nlimbs t = p + 1 -> nlimbs b = p + 1 -> 0 <= p ->
  nlimbs n <= nlimbs t -> 0 < mpval n -> mpval n < 256 ^ mp_len t -> isl sh -> (cy = 0 \/ cy = 1) ->
  A = mpval t mod B ^ p + sh * B ^ p + cy * B ^ (p + 1) -> A < 2 * mpval n ->
  (mp_len b = mp_len t \/ (A < 256 ^ mp_len b /\ A < 256 ^ mp_len t)) ->
  (forall t', becomes t t' (A mod mpval n) -> Q t') ->
  wp (mg_finish t b n (p + 1) cy sh) Q.
Proof.
  intros t b n p sh cy A Q Ht Hn Nt Nb Hp Hnn HN HF Hsh Hcy HA HA2 HC HQ.
  assert (Nb0 : 0 < nlimbs b) by lia. assert (Nb1 : nlimbs b - 1 = p) by lia.
  unfold mg_finish. pf (Bpow_pos p) as PP. pose proof B_gt as BG.
  assert (LTb : B ^ p * lim b p = 256 ^ mp_len b) by (replace p with (nlimbs b - 1) by lia; apply lim_total; lia).
  assert (LTt : B ^ p * lim t p = 256 ^ mp_len t) by (replace p with (nlimbs t - 1) by lia; apply lim_total; lia).
  pf (Z.mod_pos_bound (mpval t) (B ^ p)) as VB. pose proof (Bpow_S p Hp) as BS.
  pf (lim_pos b p) as LPb. pf (lim_pos t p) as LPt. unfold isl in Hsh.
  set (V0 := mpval t mod B ^ p) in *. set (lb := lim b p) in *. set (lt := lim t p) in *.
  (* the digits of A *)
  assert (HA' : A = B ^ p * (sh + B * cy) + V0) by (rewrite HA, BS; ring).
  assert (AB : forall l, A < B ^ p * l -> sh + B * cy < l).
  { intros l H. apply (mul_lt_cancel (B ^ p)); [lia|]. lia. }
  assert (ALT : mp_len b = mp_len t -> sh + B * cy < 2 * lb).
  { intros E. apply AB. rewrite <- E in HF. lia. }
  assert (ALT2 : A < 256 ^ mp_len b -> A < 256 ^ mp_len t -> sh + B * cy < lb /\ sh + B * cy < lt).
  { intros H1 H2. split; apply AB; lia. }
  apply wp_bind, wp_partial_high_mask; [lia|]. replace (nlimbs b - 1) with p by lia. fold lb.
  assert (LS : (partial_high_shift b = 0 /\ lb = B) \/ (0 < partial_high_shift b < W /\ lb = 2 ^ partial_high_shift b /\ 256 * lb <= B)).
  { destruct (lim_last_shift b Nb0) as [[E1 E2]|[E1 E2]]; rewrite Nb1 in E2; [left; auto|right].
    split; [auto|]. split; [auto|]. destruct (lim_half b Nb0) as [E3|[_ E3]]; rewrite Nb1 in E3; fold lb in E2, E3; [|auto].
    exfalso. assert (2 ^ partial_high_shift b < 2 ^ W) by (apply Z.pow_lt_mono_r; lia). rewrite <- B_eq in H. lia. }
  assert (CY0 : lb <> B -> cy = 0).
  { intros NE. destruct LS as [[_ E]|(_ & _ & LE)]; [contradiction|]. destruct Hcy as [->| ->]; [auto|]. exfalso.
    destruct HC as [E|[H1 H2]]; [pf (ALT E); lia|destruct (ALT2 H1 H2); lia]. }
  assert (C1 : exists cc : bool, (sh mod lb + lb * b2z cc = sh + B * cy) /\
     wp (lshr (Z.land sh (lnot (lb - 1))) (partial_high_shift b)) (fun s => Z.lor cy s = b2z cc)).
  { pose proof W_pos as WP.
    destruct LS as [[E1 E2]|(E1 & E2 & E3)].
    - exists (cy =? 1). split.
      + rewrite E2, Z.mod_small by lia. destruct Hcy as [->| ->]; reflexivity.
      + rewrite E1. apply wp_lshr; [lia|]. change (2 ^ 0) with 1. rewrite Z.div_1_r.
        unfold lb. replace p with (nlimbs b - 1) by lia. rewrite land_lnot_lim' by (auto; lia). replace (nlimbs b - 1) with p by lia. fold lb.
        rewrite E2, Z.mod_small by lia. rewrite Z.sub_diag, Z.lor_0_r. destruct Hcy as [->| ->]; reflexivity.
    - rewrite CY0 in * by lia. assert (SL : sh < 2 * lb) by (destruct HC as [E|[H1 H2]]; [pf (ALT E); lia|destruct (ALT2 H1 H2); lia]).
      assert (LE0 : 0 < lb) by lia.
      exists (lb <=? sh). split.
      + destruct (Z.leb_spec lb sh); cbn [b2z].
        * replace (sh mod lb) with (sh - lb); [lia|]. apply Z.mod_unique with 1; lia.
        * rewrite Z.mod_small by lia. lia.
      + apply wp_lshr; [lia|]. rewrite <- E2.
        unfold lb at 1. replace p with (nlimbs b - 1) by lia. rewrite land_lnot_lim' by (auto; lia). replace (nlimbs b - 1) with p by lia. fold lb.
        rewrite Z.lor_0_l. rewrite sub_mod_eq by lia. rewrite Z.mul_comm, Z.div_mul by lia.
        destruct (Z.leb_spec lb sh); cbn [b2z]; [symmetry; apply Z.div_unique with (sh - lb); lia|apply Z.div_small; lia]. }
  destruct C1 as (cc & C1 & C2).
  apply wp_bind, wp_assert.
  { destruct LS as [[E1 E2]|(E1 & E2 & E3)]; [rewrite E1; reflexivity|]. rewrite CY0 by lia. apply orb_true_r. }
  apply wp_bind. eapply wp_mono; [exact C2|]. cbn beta. intros s ->.
  apply wp_bind, wp_usub; [lia|].
  assert (LM : Z.land sh (lb - 1) = sh mod lb).
  { unfold lb. replace p with (nlimbs b - 1) by lia. apply land_lim. lia. }
  rewrite LM. pf (Z.mod_pos_bound sh lb) as SM.
  assert (CF : cc = true -> lb = lt).
  { intros ->. cbn [b2z] in C1. unfold lb, lt, lim. destruct HC as [->|[H1 H2]]; [auto|]. destruct (ALT2 H1 H2). lia. }
  assert (SLT : sh mod lb < lt).
  { destruct HC as [E|[H1 H2]].
    - replace lt with lb by (unfold lb, lt, lim; rewrite E; auto). lia.
    - destruct (ALT2 H1 H2) as [H3 H4]. destruct cc; cbn [b2z] in C1; lia. }
  replace (p + 1 - 1) with p by lia.
  apply wp_bind. eapply wp_up_store with (V0 := mpval t) (L := V0); [apply upinv_split; auto|lia|fold lt; lia|].
  intros t1 HU. pf (upinv_done t (p + 1) _ t1 Ht HU) as HB. destruct HB as (O1 & S1 & E1).
  apply wp_bind, wp_lc_new with (b := cc); [auto|].
  apply wp_mg_sub with (A := A); auto.
  - rewrite (shape_nlimbs _ _ S1). lia.
  - rewrite (shape_len _ _ S1). auto.
  - rewrite (shape_len _ _ S1), E1, <- LTt, HA'. rewrite <- C1. destruct cc; cbn [b2z]; [rewrite <- CF by auto|]; ring.
  - intros t' (O' & S' & E'). apply HQ. split; [auto|]. split; [|auto]. eapply shape_trans; eauto.
Qed.
End Facts.
