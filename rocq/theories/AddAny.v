(** Addition and subtraction of numbers the first operand has no room for. *)
From Coq Require Import ZArith List Bool Lia.
Require Import Verif.Spec Verif.Base Verif.Monad Verif.Wp Verif.Pan Verif.ModelLimb Verif.LimbFacts Verif.LimbFacts2
  Verif.ModelBuf Verif.SpecBuf Verif.BufFacts Verif.BufFacts2 Verif.BufFacts3 Verif.BufProofs Verif.UpFacts Verif.ModelCmp Verif.CmpFacts
  Verif.ModelAdd Verif.AddFacts Verif.AddFacts2 Verif.AddProofs Verif.ModelAccess Verif.SpecAccess Verif.AccessFacts Verif.AccessProofs Verif.AccessCopy Verif.CompAccess.
Import ListNotations.
Open Scope Z_scope.

Section Facts.
Context {c : cfg}.

(** A loop panicking at its iteration [j]. *)
Lemma pan_for_at : forall T (I : Z -> T -> Prop) j hi (body : Z -> T -> M T) n lo s, n = Z.to_nat (j - lo) -> lo <= j < hi -> I lo s ->
  (forall i s, lo <= i < j -> I i s -> wp (body i s) (I (i + 1))) -> (forall s, I j s -> panics (body j s)) -> panics (zfor lo hi body s).
Proof.
  intros T I j hi body. induction n as [|n IH]; intros lo s Hn Hj HI HS HP.
  - assert (lo = j) by lia. subst lo. apply pan_for; [lia|auto].
  - apply pan_for_step; [lia|]. intros s' Hs'. apply IH; try lia.
    + specialize (HS lo s ltac:(lia) HI). apply wp_returns in HS. destruct HS as (x & Hx & Ix). unfold returns in *. replace s' with x by congruence. exact Ix.
    + intros i s0 Hi. apply HS. lia.
    + auto.
Qed.
Lemma load_full_out : forall b i, mp_ok b -> 0 <= i -> i * LB <= mp_len b -> mp_len b < (i + 1) * LB -> panics (load_l_full b i).
Proof.
  intros b i Hb H0 H1 H2. pose proof (in_small b i Hb H1) as HU. pose proof LB_pos.
  pose proof (load_full_acc b i Hb H0) as H3. cbv zeta in H3. rewrite index_small in H3 by lia.
  destruct (small_index_same c b i 0 H0 HU) as (_ & E & _). rewrite E in H3.
  unfold limb_exists_full in H3. rewrite (proj2 (Z.leb_gt _ _)) in H3 by lia. exact H3.
Qed.

(** ** Addition *)
Definition addI (a : mp) (A X i : Z) (a' : mp) (k : Z) : Prop :=
  exists L, upinv a A i L a' /\ (k = 0 \/ k = 1) /\ L + k * B ^ i = A mod B ^ i + X mod B ^ i.
Lemma addI_init : forall a X, mp_ok a -> addI a (mpval a) X 0 a 0.
Proof. intros a X Ha. exists 0. split; [apply upinv_init; auto|]. split; [auto|]. rewrite !vmod_0. lia. Qed.
Lemma addI_step : forall A X i L k r k', 0 <= i -> L + k * B ^ i = A mod B ^ i + X mod B ^ i -> vlimb A i + vlimb X i + k = r + B * k' ->
     L + r * B ^ i + k' * B ^ (i + 1) = A mod B ^ (i + 1) + X mod B ^ (i + 1).
Proof. intros. rewrite !vmod_S, Bpow_S by auto. eapply add_step_eq; eauto. Qed.

Definition add_body (op1 : mp) (cond i : Z) (st : mp * Z) : M (mp * Z) :=
  let '(op0, carry) := st in
    let! op0_val := load_l_full op0 i in
    let! op1_val := load_l_full op1 i in
    let op1_val := lc_select cond 0 op1_val in
    let! '(carry, op0_val) := ct_add_l_l_c op0_val op1_val carry in
    let! op0 := store_l_full op0 i op0_val in
    ret (op0, carry).
Lemma add_body_ok : forall a b (z : bool) i s, mp_ok a -> mp_ok b -> 0 <= i -> (i + 1) * LB <= mp_len a -> (i + 1) * LB <= mp_len b ->
  addI a (mpval a) (if z then mpval b else 0) i (fst s) (snd s) ->
  wp (add_body b (chc z) i s) (fun s' => addI a (mpval a) (if z then mpval b else 0) (i + 1) (fst s') (snd s')).
Proof.
  intros a b z i [a' k] Ha Hb Hi FA FB (L & U & Hk & EL). cbn [fst snd] in *. unfold add_body.
  assert (i < nlimbs a) by (apply nlimbs_lt; pose proof LB_pos; lia). assert (i < nlimbs b) by (apply nlimbs_lt; pose proof LB_pos; lia).
  apply wp_bind. eapply wp_up_load_full; eauto; [lia|].
  apply wp_bind, wp_load_full; auto; try lia. rewrite limb_vlimb, sel_limb.
  apply wp_bind, wp_add_c; try apply vlimb_isl; [lia|]. intros k' r Hk' Hr ER.
  apply wp_bind. eapply wp_up_store_full; eauto; try lia. intros a'' U'. apply wp_ret. cbn [fst snd].
  eexists. split; [exact U'|]. split; auto. eapply addI_step; eauto.
Qed.
Lemma add_body_out : forall a b cond i s, mp_ok a -> 0 <= i -> i * LB <= mp_len a -> mp_len a < (i + 1) * LB ->
  mp_ok (fst s) -> same_shape a (fst s) -> panics (add_body b cond i s).
Proof.
  intros a b cond i [a' k] Ha Hi H1 H2 Ha' S. cbn [fst] in *. unfold add_body. apply pan_l. pose proof (shape_len _ _ S). apply load_full_out; auto; lia.
Qed.

Definition add_out (a : mp) (X : Z) (a' : mp) (k : Z) : Prop :=
  becomes a a' ((mpval a + X) mod 256 ^ mp_len a) /\
  k = if mpval a + X <? B ^ nlimbs a then (mpval a + X) / 256 ^ mp_len a else 1.

Lemma up_low : forall a V0 i L b, upinv a V0 i L b -> 0 <= L < B ^ i.
Proof. intros a V0 i L b (_ & _ & H & _). exact H. Qed.

Lemma aligned_nb : forall a i, 0 <= i -> (i + 1) * LB <= mp_len a -> i = nlimbs a - 1 -> lim a (nlimbs a - 1) = B /\ 256 ^ mp_len a = B ^ nlimbs a.
Proof.
  intros a i H0 F E. subst i. assert (lim a (nlimbs a - 1) = B) by (apply lim_full; auto). split; auto. symmetry. apply aligned_total; auto. lia.
Qed.
Lemma wp_add_cond_any : forall a b (z : bool) (Q : mp * Z -> Prop), mp_ok a -> mp_ok b -> nlimbs b <= nlimbs a ->
  (forall a' k, add_out a (if z then mpval b else 0) a' k -> Q (a', k)) ->
  wp (ct_add_cond_mp_mp a b (chc z)) Q.
Proof.
  intros a b z Q Ha Hb Hn HQ. unfold ct_add_cond_mp_mp.
  pose proof (nlimbs_nonneg b) as Nb. pose proof (mpval_bound_B b Hb) as Bb. pose proof (mpval_bound a Ha) as Ba. pose proof (mpval_bound_B a Ha) as BaB.
  pose proof (mp_len_nonneg a) as La. pf (p256_pos (mp_len a)) as P256. pose proof LB_pos as HLB.
  assert (BXb : 0 <= (if z then mpval b else 0) < B ^ nlimbs b) by (destruct z; auto; pf (Bpow_pos (nlimbs b)); lia).
  apply wp_bind, wp_dassert; [apply Z.leb_le; auto|]. apply wp_mif; intros E.
  { apply Z.eqb_eq in E. apply wp_ret, HQ. rewrite E, Z.pow_0_r in BXb. unfold add_out. replace (if z then mpval b else 0) with 0 by lia. rewrite Z.add_0_r.
    rewrite Z.mod_small by lia. split; [split; [auto|split; [apply shape_refl|auto]]|]. rewrite (proj2 (Z.ltb_lt _ _)) by lia. rewrite Z.div_small by lia. auto. }
  apply Z.eqb_neq in E. assert (Nb1 : 0 <= nlimbs b - 1) by lia.
  apply wp_bind. eapply (wp_for _ (fun i s => addI a (mpval a) (if z then mpval b else 0) i (fst s) (snd s)) 0 (nlimbs b - 1) (add_body b (chc z)));
    [lia|apply addI_init; auto| |].
  { intros i s Hi HI. apply add_body_ok; auto; [lia|apply full_inner; lia|apply full_inner; lia]. }
  intros [a' k] HI. cbn [fst snd] in HI. apply wp_bind, wp_load; auto; [lia|]. rewrite limb_vlimb, sel_limb.
  set (X := if z then mpval b else 0) in *. set (A := mpval a) in *.
  assert (BX : 0 <= X < B ^ nlimbs a). { assert (B ^ nlimbs b <= B ^ nlimbs a) by (apply Z.pow_le_mono_r; [pose proof B_pos; lia|lia]). lia. }
  apply wp_bind.
  eapply wp_for with (I := fun i '(a', k, x) => x = vlimb X i /\ (addI a A X i a' k /\ i < nlimbs a \/ i = nlimbs a /\ add_out a X a' k)); [lia|split; [auto|left; split; [exact HI|lia]]| |].
  2:{ intros [[a1 k1] x] [_ [[_ C]|[_ HP]]]; [lia|]. apply wp_ret, HQ. exact HP. }
  clear HI a' k. intros i [[a1 k1] x] Hi [-> [[(L & U & Hk & EL) _]|[C _]]]; [|lia].
  apply wp_bind. eapply wp_up_load; eauto; [lia|lia|].
  apply wp_bind, wp_add_c; try apply vlimb_isl; [lia|]. intros k' r Hk' Hr ER.
  assert (EX : 0 = vlimb X (i + 1)) by (symmetry; apply (vlimb_out X (nlimbs b)); auto; lia).
  rewrite (upinv_unal _ _ _ _ _ U).
  assert (I0 : 0 <= i) by lia.
  apply wp_mif; intros C.
  - assert (F : (i + 1) * LB <= mp_len a).
    { apply orb_true_iff in C. destruct C as [C|C]; apply negb_true_iff in C; [apply Z.eqb_neq in C; apply full_inner; lia|apply ne_full; auto; lia]. }
    apply wp_bind. eapply wp_up_store_full; eauto. intros a2 U2. apply wp_ret. split; auto.
    destruct (Z.eq_dec i (nlimbs a - 1)) as [Ei|Ei].
    + right. split; [lia|]. assert (EL2 := addI_step A X i L k1 r k' I0 EL ER). destruct (aligned_nb a i I0 F Ei) as [_ E256].
      pose proof (up_low _ _ _ _ _ U2) as LB2. assert (I1 : i + 1 = nlimbs a) by (clear - Ei; lia). rewrite I1 in *.
      rewrite (Z.mod_small A), (Z.mod_small X) in EL2 by (auto; lia). pose proof (upinv_done _ _ _ _ Ha U2 ltac:(lia)) as D.
      unfold add_out. fold A. rewrite E256. set (V := L + r * B ^ i) in *.
      assert ((A + X) mod B ^ nlimbs a = V) as EM by (symmetry; apply (Z.mod_unique _ _ k'); lia).
      assert ((A + X) / B ^ nlimbs a = k') as ED by (symmetry; apply (Z.div_unique _ _ _ V); lia).
      rewrite EM, ED. split; auto. destruct (Z.ltb_spec (A + X) (B ^ nlimbs a)); auto. destruct Hk' as [->| ->]; lia.
    + left. split; [|lia]. eexists. split; [exact U2|]. split; auto. exact (addI_step A X i L k1 r k' I0 EL ER).
  - apply orb_false_iff in C. destruct C as [C1 C2]. apply negb_false_iff, Z.eqb_eq in C1. subst i.
    assert (N0 : 0 < nlimbs a) by lia.
    apply wp_bind. eapply wp_up_mask; eauto. cbv zeta. rewrite (up_shift _ _ _ _ _ U).
    apply wp_bind. eapply (wp_up_store_last a A); eauto. intros a2 U2.
    rewrite land_lnot_lim' by auto. pf (lim_pos a (nlimbs a - 1)) as LP. pose proof W_pos as HW. pose proof B_pos as HB.
    pose proof (lim_total a N0) as LT. pf (fit_limb_last a A) as F1. pose proof (vlimb_isl X (nlimbs a - 1)) as F2. unfold isl in F2.
    pose proof (up_low _ _ _ _ _ U) as ULo. pose proof (up_low _ _ _ _ _ U2) as ULo2. pose proof (upinv_done _ _ _ _ Ha U2 ltac:(lia)) as D.
    pf (Bpow_pos (nlimbs a - 1)) as PP.
    set (l := lim a (nlimbs a - 1)) in *. set (P := B ^ (nlimbs a - 1)) in *.
    assert (DM : r = l * (r / l) + r mod l) by (apply Z.div_mod; lia).
    assert (MB : 0 <= r mod l < l) by (apply Z.mod_pos_bound; lia). unfold isl in Hr.
    assert (BN : B ^ nlimbs a = B * P). { replace (nlimbs a) with (nlimbs a - 1 + 1) by lia. apply Bpow_S. lia. }
    assert (EL2 := addI_step A X _ L k1 r k' I0 EL ER). replace (nlimbs a - 1 + 1) with (nlimbs a) in EL2 by (clear; lia). clear EL. fold P in EL2.
    rewrite (Z.mod_small A), (Z.mod_small X) in EL2 by (auto; lia).
    assert (LX : L + r mod l * P < P * l). { clear - ULo MB PP. nia. }
    destruct (lim_last_shift a N0) as [[E1 E2]|[E1 E2]]; fold l in E2.
    + rewrite E1. apply wp_bind, wp_lshr; [lia|].
      assert (M : r mod l = r) by (rewrite E2; apply Z.mod_small; lia). rewrite M in *.
      rewrite Z.sub_diag, Z.pow_0_r, Z.div_1_r.
      apply wp_bind, wp_dassert; [apply orb_true_r|]. rewrite Z.lor_0_r. apply wp_ret. split; auto. right. split; [lia|].
      unfold add_out. fold A. rewrite <- LT, E2 in *. replace (P * B) with (B ^ nlimbs a) in * by lia.
      assert ((A + X) mod B ^ nlimbs a = L + r * P) as EM by (symmetry; apply (Z.mod_unique _ _ k'); lia).
      assert ((A + X) / B ^ nlimbs a = k') as ED by (symmetry; apply (Z.div_unique _ _ _ (L + r * P)); lia).
      rewrite EM, ED. split; auto. destruct (Z.ltb_spec (A + X) (B ^ nlimbs a)); auto. destruct Hk' as [->| ->]; lia.
    + assert (LD : exists q, B = l * q).
      { exists (2 ^ (W - partial_high_shift a)). rewrite E2, <- Z.pow_add_r by lia. unfold B. f_equal. lia. }
      destruct LD as [q LD].
      apply wp_bind, wp_lshr; [lia|]. replace (r - r mod l) with (r / l * l) by lia. rewrite <- E2, Z.div_mul by lia.
      assert (EM : (A + X) mod 256 ^ mp_len a = L + r mod l * P).
      { rewrite <- LT. symmetry. apply (Z.mod_unique _ _ (r / l + q * k')).
        - left. split; [|lia]. clear - ULo MB PP. nia.
        - rewrite <- EL2, BN, LD. rewrite DM at 1. ring. }
      assert (RP : 0 <= r / l) by (apply Z.div_pos; lia).
      destruct Hk' as [->| ->].
      * apply wp_bind, wp_dassert; [reflexivity|]. rewrite Z.lor_0_l. apply wp_ret. split; auto. right. split; [lia|].
        unfold add_out. fold A. rewrite EM. split; auto.
        rewrite (proj2 (Z.ltb_lt _ _)). 2:{ rewrite <- EL2, BN, Z.mul_0_l, Z.add_0_r. clear - ULo Hr PP. nia. }
        apply (Z.div_unique _ _ _ (L + r mod l * P)); [left; rewrite <- LT; split; [clear - ULo MB PP; nia|lia]|].
        rewrite <- LT, <- EL2, Z.mul_0_l, Z.add_0_r. rewrite DM at 1. ring.
      * assert (r < l) by lia. assert (R0 : r / l = 0) by (apply Z.div_small; lia). rewrite R0.
        apply wp_bind, wp_dassert; [apply orb_true_r|]. apply wp_ret. split; auto. right. split; [lia|].
        unfold add_out. fold A. rewrite EM. split; auto.
        rewrite (proj2 (Z.ltb_ge _ _)); [reflexivity|]. rewrite <- EL2. assert (0 <= r * P) by (apply mul_nn; lia). lia.
Qed.

(** A second operand with more limbs. *)
Definition one_more (a b : mp) : bool := negb (debug c) && (nlimbs b =? nlimbs a + 1) && (mp_len a =? nlimbs a * LB).
Lemma len_limbs : forall a, (nlimbs a - 1) * LB < mp_len a <= nlimbs a * LB.
Proof. intros a. pose proof (nlimbs_spec a). lia. Qed.
Lemma first_out : forall a b, nlimbs a < nlimbs b -> ~ (nlimbs b = nlimbs a + 1 /\ mp_len a = nlimbs a * LB) ->
  exists j, 0 <= j /\ j < nlimbs b - 1 /\ j * LB <= mp_len a /\ mp_len a < (j + 1) * LB.
Proof.
  intros a b Hn HE. pose proof LB_pos as HLB. assert (NZ : LB <> 0) by lia. pose proof (mp_len_nonneg a) as L0. pose proof (len_limbs a) as LA. exists (mp_len a / LB).
  pose proof (Z.div_mod (mp_len a) LB NZ) as DM. pose proof (Z.mod_pos_bound (mp_len a) LB HLB) as MB.
  pose proof (Z.div_pos (mp_len a) LB L0 HLB) as J0. set (j := mp_len a / LB) in *. set (m := mp_len a mod LB) in *. clearbody j m.
  split; [auto|]. split; [|lia].
  destruct (Z_lt_le_dec j (nlimbs b - 1)) as [|G]; auto; exfalso. apply HE.
  destruct (Z.eq_dec (nlimbs b) (nlimbs a + 1)) as [E|E].
  - split; auto. assert (nlimbs a * LB <= j * LB) by (apply Z.mul_le_mono_nonneg_r; lia). lia.
  - assert ((nlimbs a + 1) * LB <= j * LB) by (apply Z.mul_le_mono_nonneg_r; lia). lia.
Qed.
Lemma add_more_limbs : forall a b (z : bool), mp_ok a -> mp_ok b -> nlimbs a < nlimbs b ->
  acc (one_more a b) (ct_add_cond_mp_mp a b (chc z)) (fun '(a', k) =>
    let S := mpval a + (if z then mpval b else 0) mod B ^ nlimbs a in becomes a a' (S mod B ^ nlimbs a) /\ k = S / B ^ nlimbs a).
Proof.
  intros a b z Ha Hb Hn. unfold ct_add_cond_mp_mp, one_more. pose proof LB_pos as HLB. pose proof (nlimbs_nonneg a) as Na.
  pose proof (len_limbs a) as LA. pose proof (len_limbs b) as LB'. pose proof (mp_len_nonneg a) as LA0.
  destruct (debug c) eqn:D; cbn [negb andb].
  { apply pan_l, pan_dassert; auto. apply Z.leb_gt. lia. }
  apply acc_bind. unfold dassert. rewrite D. apply wp_ret.
  apply acc_mif; intros E; [apply Z.eqb_eq in E; lia|]. clear E.
  destruct (Z.eqb_spec (nlimbs b) (nlimbs a + 1)) as [E1|E1]; destruct (Z.eqb_spec (mp_len a) (nlimbs a * LB)) as [E2|E2]; cbn [andb].
  1:{ unfold acc. rewrite E1. replace (nlimbs a + 1 - 1) with (nlimbs a) by lia.
    apply wp_bind. eapply (wp_for _ (fun i s => addI a (mpval a) (if z then mpval b else 0) i (fst s) (snd s)) 0 (nlimbs a) (add_body b (chc z)));
      [lia|apply addI_init; auto| |].
    { intros i s Hi HI. assert ((i + 1) * LB <= nlimbs a * LB) by (apply Z.mul_le_mono_nonneg_r; lia).
      apply add_body_ok; auto; [lia|lia|]. replace (nlimbs b - 1) with (nlimbs a) in LB' by lia. lia. }
    intros [a' k] HI. cbn [fst snd] in HI. apply wp_bind, wp_load; auto; try lia.
    apply wp_bind. eapply wp_for with (I := fun i s => fst s = (a', k)); [lia|reflexivity|intros; lia|].
    intros [[a1 k1] x] H1. cbn [fst] in H1. injection H1 as -> ->. apply wp_ret. cbv zeta.
    destruct HI as (L & U & Hk & EL). set (X := if z then mpval b else 0) in *.
    pose proof (up_low _ _ _ _ _ U) as ULo. pose proof (upinv_done _ _ _ _ Ha U ltac:(lia)) as DD.
    pose proof (mpval_bound_B a Ha) as BaB. rewrite (Z.mod_small (mpval a)) in EL by auto. set (Y := X mod B ^ nlimbs a) in *.
    assert ((mpval a + Y) mod B ^ nlimbs a = L) as EM by (symmetry; apply (Z.mod_unique _ _ k); lia).
    assert ((mpval a + Y) / B ^ nlimbs a = k) as ED by (symmetry; apply (Z.div_unique _ _ _ L); lia).
    rewrite EM, ED. auto. }
  all: destruct (first_out a b Hn ltac:(intuition congruence)) as (j & J0 & J1 & J2 & J3); unfold acc; apply pan_l;
    eapply (pan_for_at _ (fun i s => addI a (mpval a) (if z then mpval b else 0) i (fst s) (snd s)) j (nlimbs b - 1) (add_body b (chc z)) _ 0);
      [reflexivity|lia|apply addI_init; auto| |];
      [intros i s Hi HI; assert ((i + 1) * LB <= j * LB) by (apply Z.mul_le_mono_nonneg_r; lia);
       assert ((i + 1) * LB <= (nlimbs b - 1) * LB) by (apply Z.mul_le_mono_nonneg_r; lia); apply add_body_ok; auto; lia
      |intros s (L & (O & S & _) & _); apply (add_body_out a); auto; lia].
Qed.

(** ** Subtraction *)
Definition subI (a : mp) (A X i : Z) (a' : mp) (k : Z) : Prop :=
  exists L, upinv a A i L a' /\ (k = 0 \/ k = 1) /\ L - k * B ^ i = A mod B ^ i - X mod B ^ i.
Lemma subI_init : forall a X, mp_ok a -> subI a (mpval a) X 0 a 0.
Proof. intros a X Ha. exists 0. split; [apply upinv_init; auto|]. split; [auto|]. rewrite !vmod_0. lia. Qed.
Lemma subI_step : forall A X i L k r k', 0 <= i -> L - k * B ^ i = A mod B ^ i - X mod B ^ i -> vlimb A i - vlimb X i - k = r - B * k' ->
     L + r * B ^ i - k' * B ^ (i + 1) = A mod B ^ (i + 1) - X mod B ^ (i + 1).
Proof. intros. rewrite !vmod_S, Bpow_S by auto. eapply sub_step_eq; eauto. Qed.

Definition sub_body (op1 : mp) (cond i : Z) (st : mp * Z) : M (mp * Z) :=
  let '(op0, borrow) := st in
    let! op0_val := load_l_full op0 i in
    let! op1_val := load_l_full op1 i in
    let op1_val := lc_select cond 0 op1_val in
    let! '(borrow, op0_val) := ct_sub_l_l_b op0_val op1_val borrow in
    let! op0 := store_l_full op0 i op0_val in
    ret (op0, borrow).
Lemma sub_body_ok : forall a b (z : bool) i s, mp_ok a -> mp_ok b -> 0 <= i -> (i + 1) * LB <= mp_len a -> (i + 1) * LB <= mp_len b ->
  subI a (mpval a) (if z then mpval b else 0) i (fst s) (snd s) ->
  wp (sub_body b (chc z) i s) (fun s' => subI a (mpval a) (if z then mpval b else 0) (i + 1) (fst s') (snd s')).
Proof.
  intros a b z i [a' k] Ha Hb Hi FA FB (L & U & Hk & EL). cbn [fst snd] in *. unfold sub_body.
  assert (i < nlimbs a) by (apply nlimbs_lt; pose proof LB_pos; lia). assert (i < nlimbs b) by (apply nlimbs_lt; pose proof LB_pos; lia).
  apply wp_bind. eapply wp_up_load_full; eauto; [lia|].
  apply wp_bind, wp_load_full; auto; try lia. rewrite limb_vlimb, sel_limb.
  apply wp_bind, wp_sub_b; try apply vlimb_isl; [lia|]. intros k' r Hk' Hr ER.
  apply wp_bind. eapply wp_up_store_full; eauto; try lia. intros a'' U'. apply wp_ret. cbn [fst snd].
  eexists. split; [exact U'|]. split; auto. eapply subI_step; eauto.
Qed.
Lemma sub_body_out : forall a b cond i s, mp_ok a -> 0 <= i -> i * LB <= mp_len a -> mp_len a < (i + 1) * LB ->
  mp_ok (fst s) -> same_shape a (fst s) -> panics (sub_body b cond i s).
Proof.
  intros a b cond i [a' k] Ha Hi H1 H2 Ha' S. cbn [fst] in *. unfold sub_body. apply pan_l. pose proof (shape_len _ _ S). apply load_full_out; auto; lia.
Qed.

Definition sub_out (a : mp) (X : Z) (a' : mp) (k : Z) : Prop :=
  becomes a a' ((mpval a - X) mod 256 ^ mp_len a) /\ k = if mpval a <? X then 1 else 0.
(** The assertion on the sign of the last limb holds. *)
Definition sign_ok (a : mp) (X : Z) : bool := negb (debug c && negb (mp_len a mod LB =? 0) && (B ^ nlimbs a <? 2 * (X - mpval a))).

Lemma shift0 : forall a, 0 < nlimbs a -> (partial_high_shift a = 0 <-> mp_len a mod LB = 0).
Proof. intros a H. rewrite partial_high_shift_eq. pose proof LB_pos. pose proof (Z.mod_pos_bound (mp_len a) LB LB_pos). lia. Qed.

Definition sub_body2 (n : Z) (i : Z) (st : mp * Z * Z) : M (mp * Z * Z) :=
  let '(op0, borrow, op1_val) := st in
    let! op0_val := load_l op0 i in
    let! '(borrow, op0_val) := ct_sub_l_l_b op0_val op1_val borrow in
    mif (negb (i =? n - 1) || negb (supports_unaligned op0)) then
      let! op0 := store_l_full op0 i op0_val in
      ret (op0, borrow, 0)
    else
      let! op0_high_mask := partial_high_mask op0 in
      let! op0 := store_l op0 i (Z.land op0_val op0_high_mask) in
      dassert_m (if partial_high_shift op0 =? 0 then ret true else
                 let! s := lshr op0_val (W - 1) in ret (borrow =? s)) ;;
      ret (op0, borrow, 0).
Definition subJ (a : mp) (X i : Z) (st : mp * Z * Z) : Prop := snd st = vlimb X i /\ subI a (mpval a) X i (fst (fst st)) (snd (fst st)).
Lemma sub_body2_ok : forall a m X i st, mp_ok a -> 0 <= X < B ^ m -> m <= i + 1 -> 0 <= i < nlimbs a - 1 -> subJ a X i st ->
  wp (sub_body2 (nlimbs a) i st) (subJ a X (i + 1)).
Proof.
  intros a m X i [[a1 k1] x] Ha HX Hm Hi [Ex (L & U & Hk & EL)]. cbn [fst snd] in *. subst x. unfold sub_body2.
  assert (F : (i + 1) * LB <= mp_len a) by (apply full_inner; lia).
  apply wp_bind. eapply wp_up_load; eauto; [lia|lia|].
  apply wp_bind, wp_sub_b; try apply vlimb_isl; [lia|]. intros k' r Hk' Hr ER.
  assert (EX : 0 = vlimb X (i + 1)) by (symmetry; apply (vlimb_out X m); auto).
  apply wp_mif; intros C.
  - apply wp_bind. eapply wp_up_store_full; eauto; try lia. intros a2 U2. apply wp_ret. split; auto. cbn [fst snd].
    eexists. split; [exact U2|]. split; auto. eapply subI_step; eauto. lia.
  - apply orb_false_iff in C. destruct C as [C1 C2]. apply negb_false_iff, Z.eqb_eq in C1. lia.
Qed.
Lemma sub_body2_last : forall a X st, mp_ok a -> 0 <= X < B ^ nlimbs a -> 0 < nlimbs a -> subJ a X (nlimbs a - 1) st ->
  acc (sign_ok a X) (sub_body2 (nlimbs a) (nlimbs a - 1) st) (fun st => sub_out a X (fst (fst st)) (snd (fst st))).
Proof.
  intros a X [[a1 k1] x] Ha BX N0 [Ex (L & U & Hk & EL)]. cbn [fst snd] in *. subst x. unfold sub_body2.
  pose proof (mpval_bound a Ha) as Ba. pose proof (mpval_bound_B a Ha) as BaB. pose proof LB_pos as HLB.
  apply acc_bind. eapply wp_up_load; eauto; [lia|lia|].
  apply acc_bind, wp_sub_b; try apply vlimb_isl; [lia|]. intros k' r Hk' Hr ER.
  rewrite Z.eqb_refl. cbn [negb orb]. rewrite (upinv_unal _ _ _ _ _ U).
  pf (lim_pos a (nlimbs a - 1)) as LP. pose proof W_pos as HW. pose proof B_pos as HB. pose proof (lim_total a N0) as LT.
  pf (fit_limb_last a (mpval a)) as F1. pose proof (vlimb_isl X (nlimbs a - 1)) as F2. unfold isl in F2.
  pose proof (up_low _ _ _ _ _ U) as ULo. pf (Bpow_pos (nlimbs a - 1)) as PP.
  assert (BN : B ^ nlimbs a = B * B ^ (nlimbs a - 1)). { replace (nlimbs a) with (nlimbs a - 1 + 1) at 1 by lia. apply Bpow_S. lia. }
  assert (AX : mpval a - X = L + (r - B * k') * B ^ (nlimbs a - 1)).
  { assert (N1 : 0 <= nlimbs a - 1) by lia. assert (EL2 := subI_step (mpval a) X _ L k1 r k' N1 EL ER). replace (nlimbs a - 1 + 1) with (nlimbs a) in EL2 by (clear; lia).
    rewrite (Z.mod_small (mpval a)), (Z.mod_small X) in EL2 by auto. rewrite <- EL2, BN. ring. }
  clear EL. set (P := B ^ (nlimbs a - 1)) in *. unfold isl in Hr.
  assert (KE : k' = if mpval a <? X then 1 else 0).
  { destruct (Z.ltb_spec (mpval a) X) as [G|G]; destruct Hk' as [->| ->]; auto; exfalso.
    - assert (0 <= r * P) by (apply mul_nn; lia). lia.
    - assert ((r - B + 1) * P <= 0) by (clear - Hr PP; nia). lia. }
  set (l := lim a (nlimbs a - 1)) in *.
  assert (MB : 0 <= r mod l < l) by (apply Z.mod_pos_bound; lia).
  assert (DM : r = l * (r / l) + r mod l) by (apply Z.div_mod; lia).
  assert (LD : exists q, B = l * q).
  { destruct (lim_last_pow2 a N0) as (s & Hs & E). fold l in E. exists (2 ^ (W - s)). rewrite E, <- Z.pow_add_r by lia. unfold B. f_equal. lia. }
  assert (EM : (mpval a - X) mod 256 ^ mp_len a = L + r mod l * P).
  { destruct LD as [q LD]. rewrite <- LT. symmetry. apply (Z.mod_unique _ _ (r / l - q * k')).
    - left. clear - ULo MB PP. nia.
    - rewrite AX, LD. rewrite DM at 1. ring. }
  assert (OUT : forall a2, upinv a (mpval a) (nlimbs a) (L + r mod l * P) a2 -> sub_out a X a2 k').
  { intros a2 U2. pose proof (upinv_done _ _ _ _ Ha U2 ltac:(lia)) as D. unfold sub_out. rewrite EM. auto. }
  apply acc_mif; intros C.
  - apply negb_true_iff in C. assert (F : (nlimbs a - 1 + 1) * LB <= mp_len a) by (apply ne_full; auto; lia).
    assert (sign_ok a X = true) as SK.
    { unfold sign_ok. assert (mp_len a mod LB = 0) as ->; [|rewrite andb_false_r; reflexivity].
      pose proof (len_limbs a). replace (mp_len a) with (nlimbs a * LB) by lia. apply Z.mod_mul. lia. }
    rewrite SK. unfold acc. apply wp_bind. eapply wp_up_store_full; eauto; try lia. intros a2 U2. apply wp_ret. cbn [fst snd].
    apply OUT. assert (N1 : 0 <= nlimbs a - 1) by lia. destruct (aligned_nb a (nlimbs a - 1) N1 F eq_refl) as [EB _]. fold l in EB. rewrite EB, Z.mod_small by lia. fold P in U2. replace (nlimbs a - 1 + 1) with (nlimbs a) in U2 by lia. exact U2.
  - apply acc_bind. eapply wp_up_mask; eauto.
    apply acc_bind. eapply (wp_up_store_last a (mpval a)); eauto. intros a2 U2. fold l P in U2.
    rewrite (up_shift _ _ _ _ _ U2). unfold sign_ok. pose proof B_pow2_half as BH.
    assert (SB : 0 < partial_high_shift a -> r / 2 ^ (W - 1) = k' <-> ~ B ^ nlimbs a < 2 * (X - mpval a)).
    { intros E0. destruct (lim_last_shift a N0) as [[E1 E2]|[E1 E2]]; [lia|].
      destruct (lim_half a N0) as [HB'|[_ HH]].
      { exfalso. assert (2 ^ partial_high_shift a < B) by (unfold B; apply Z.pow_lt_mono_r; lia). lia. }
      fold l in HH. set (H2 := 2 ^ (W - 1)) in *. rewrite BN. destruct Hk' as [->| ->].
      - assert (r < H2) by lia. rewrite Z.div_small by lia. split; auto. intros _ G. assert (0 <= r * P) by (apply mul_nn; lia). assert (0 < B * P) by (apply Z.mul_pos_pos; lia). lia.
      - destruct (Z_lt_le_dec r H2) as [G|G].
        + rewrite Z.div_small by lia. split; [lia|]. intros []. clear - G ULo AX PP BH. nia.
        + assert (r / H2 = 1) as -> by (symmetry; apply (Z.div_unique _ _ 1 (r - H2)); [left|]; lia).
          split; auto. intros _. clear - G ULo AX PP BH. nia. }
    destruct (debug c) eqn:D; cbn [andb negb].
    2:{ unfold acc. apply wp_bind. unfold dassert_m. rewrite D. apply wp_ret. apply wp_ret. cbn [fst snd]. apply OUT. auto. }
    destruct (Z.eqb_spec (mp_len a mod LB) 0) as [E0|E0]; cbn [andb negb].
    + apply shift0 in E0; auto. rewrite E0. cbn [Z.eqb]. unfold acc. apply wp_bind, wp_dassert_m; [apply wp_ret; auto|]. apply wp_ret. cbn [fst snd]. apply OUT. auto.
    + assert (S0 : partial_high_shift a <> 0) by (intros G; apply E0, shift0; auto).
      assert (SP : 0 < partial_high_shift a) by (destruct (lim_last_shift a N0) as [[G _]|[G _]]; lia). specialize (SB SP).
      rewrite (proj2 (Z.eqb_neq _ _) S0).
      destruct (Z.ltb_spec (B ^ nlimbs a) (2 * (X - mpval a))) as [G|G]; cbn [negb]; unfold acc.
      * apply pan_l. unfold dassert_m. rewrite D. apply pan_wp. apply wp_bind, wp_lshr; [lia|]. apply wp_ret.
        assert (r / 2 ^ (W - 1) <> k') as NE. { intros Y. apply SB in Y. auto. }
        rewrite (proj2 (Z.eqb_neq k' _)) by auto. apply pan_panic.
      * apply wp_bind, wp_dassert_m; [|apply wp_ret; cbn [fst snd]; apply OUT; auto].
        apply wp_bind, wp_lshr; [lia|]. apply wp_ret. apply Z.eqb_eq. symmetry. apply SB. lia.
Qed.

Lemma sub_cond_acc : forall a b (z : bool), mp_ok a -> mp_ok b -> nlimbs b <= nlimbs a ->
  acc (sign_ok a (if z then mpval b else 0)) (ct_sub_cond_mp_mp a b (chc z)) (fun '(a', k) => sub_out a (if z then mpval b else 0) a' k).
Proof.
  intros a b z Ha Hb Hn. unfold ct_sub_cond_mp_mp.
  pose proof (nlimbs_nonneg b) as Nb. pose proof (mpval_bound_B b Hb) as Bb. pose proof (mpval_bound a Ha) as Ba. pose proof (mpval_bound_B a Ha) as BaB.
  pose proof (mp_len_nonneg a) as La. pf (p256_pos (mp_len a)) as P256. pose proof LB_pos as HLB.
  assert (BXb : 0 <= (if z then mpval b else 0) < B ^ nlimbs b) by (destruct z; auto; pf (Bpow_pos (nlimbs b)); lia).
  apply acc_bind, wp_dassert; [apply Z.leb_le; auto|]. apply acc_mif; intros E.
  { apply Z.eqb_eq in E. rewrite E, Z.pow_0_r in BXb. replace (if z then mpval b else 0) with 0 by lia.
    assert (sign_ok a 0 = true) as ->. { unfold sign_ok. rewrite (proj2 (Z.ltb_ge _ _)) by lia. rewrite andb_false_r. auto. }
    unfold acc. apply wp_ret. unfold sub_out. rewrite Z.sub_0_r, Z.mod_small by lia. split; [split; [auto|split; [apply shape_refl|auto]]|].
    rewrite (proj2 (Z.ltb_ge _ _)) by lia. auto. }
  apply Z.eqb_neq in E. assert (Nb1 : 0 <= nlimbs b - 1) by lia.
  apply acc_bind. eapply (wp_for _ (fun i s => subI a (mpval a) (if z then mpval b else 0) i (fst s) (snd s)) 0 (nlimbs b - 1) (sub_body b (chc z)));
    [lia|apply subI_init; auto| |].
  { intros i s Hi HI. apply sub_body_ok; auto; [lia|apply full_inner; lia|apply full_inner; lia]. }
  intros [a' k] HI. cbn [fst snd] in HI. apply acc_bind, wp_load; auto; [lia|]. rewrite limb_vlimb, sel_limb.
  set (X := if z then mpval b else 0) in *.
  assert (BX : 0 <= X < B ^ nlimbs a). { assert (B ^ nlimbs b <= B ^ nlimbs a) by (apply Z.pow_le_mono_r; [pose proof B_pos; lia|lia]). lia. }
  assert (J0 : subJ a X (nlimbs b - 1) (a', k, vlimb X (nlimbs b - 1))) by (split; auto).
  assert (N0 : 0 < nlimbs a) by lia.
  assert (LOW : forall i s, nlimbs b - 1 <= i < nlimbs a - 1 -> subJ a X i s -> wp (sub_body2 (nlimbs a) i s) (subJ a X (i + 1))).
  { intros i s Hi HJ. apply (sub_body2_ok a (nlimbs b)); auto; lia. }
  pose proof (fun s => sub_body2_last a X s Ha BX N0) as LAST. destruct (sign_ok a X); unfold acc in *.
  - apply wp_bind. eapply (wp_for _ (fun i s => subJ a X i s /\ i < nlimbs a \/ i = nlimbs a /\ sub_out a X (fst (fst s)) (snd (fst s))) (nlimbs b - 1) (nlimbs a) (sub_body2 (nlimbs a))); [lia|left; split; [exact J0|lia]| |].
    + intros i s Hi [[HJ _]|[G _]]; [|lia]. destruct (Z.eq_dec i (nlimbs a - 1)) as [Ei|Ei].
      * subst i. eapply wp_mono; [exact (LAST s HJ)|]. intros s' Hs'. right. split; [lia|auto].
      * eapply wp_mono; [apply LOW; eauto; lia|]. intros s' Hs'. left. split; [auto|lia].
    + intros [[a1 k1] x] [[_ G]|[_ HP]]; [lia|]. apply wp_ret. exact HP.
  - apply pan_l. apply (pan_for_at _ (subJ a X) (nlimbs a - 1) (nlimbs a) (sub_body2 (nlimbs a)) _ (nlimbs b - 1) _ eq_refl); auto. lia.
Qed.
Lemma sub_more_limbs : forall a b (z : bool), mp_ok a -> mp_ok b -> nlimbs a < nlimbs b ->
  acc (one_more a b) (ct_sub_cond_mp_mp a b (chc z)) (fun '(a', k) =>
    let Y := (if z then mpval b else 0) mod B ^ nlimbs a in becomes a a' ((mpval a - Y) mod B ^ nlimbs a) /\ k = if mpval a <? Y then 1 else 0).
Proof.
  intros a b z Ha Hb Hn. unfold ct_sub_cond_mp_mp, one_more. pose proof LB_pos as HLB. pose proof (nlimbs_nonneg a) as Na.
  pose proof (len_limbs a) as LA. pose proof (len_limbs b) as LB'. pose proof (mp_len_nonneg a) as LA0.
  destruct (debug c) eqn:D; cbn [negb andb].
  { apply pan_l, pan_dassert; auto. apply Z.leb_gt. lia. }
  apply acc_bind. unfold dassert. rewrite D. apply wp_ret.
  apply acc_mif; intros E; [apply Z.eqb_eq in E; lia|]. clear E.
  destruct (Z.eqb_spec (nlimbs b) (nlimbs a + 1)) as [E1|E1]; destruct (Z.eqb_spec (mp_len a) (nlimbs a * LB)) as [E2|E2]; cbn [andb].
  1:{ unfold acc. rewrite E1. replace (nlimbs a + 1 - 1) with (nlimbs a) by lia.
    apply wp_bind. eapply (wp_for _ (fun i s => subI a (mpval a) (if z then mpval b else 0) i (fst s) (snd s)) 0 (nlimbs a) (sub_body b (chc z)));
      [lia|apply subI_init; auto| |].
    { intros i s Hi HI. assert ((i + 1) * LB <= nlimbs a * LB) by (apply Z.mul_le_mono_nonneg_r; lia).
      apply sub_body_ok; auto; [lia|lia|]. replace (nlimbs b - 1) with (nlimbs a) in LB' by lia. lia. }
    intros [a' k] HI. cbn [fst snd] in HI. apply wp_bind, wp_load; auto; try lia.
    apply wp_bind. eapply wp_for with (I := fun i s => fst s = (a', k)); [lia|reflexivity|intros; lia|].
    intros [[a1 k1] x] H1. cbn [fst] in H1. injection H1 as -> ->. apply wp_ret. cbv zeta.
    destruct HI as (L & U & Hk & EL). set (X := if z then mpval b else 0) in *.
    pose proof (up_low _ _ _ _ _ U) as ULo. pose proof (upinv_done _ _ _ _ Ha U ltac:(lia)) as DD.
    pose proof (mpval_bound_B a Ha) as BaB. rewrite (Z.mod_small (mpval a)) in EL by auto.
    pf (Bpow_pos (nlimbs a)) as PP. pose proof (Z.mod_pos_bound X (B ^ nlimbs a) PP) as YB. set (Y := X mod B ^ nlimbs a) in *.
    assert ((mpval a - Y) mod B ^ nlimbs a = L) as EM by (symmetry; apply (Z.mod_unique _ _ (- k)); lia).
    rewrite EM. split; auto. destruct (Z.ltb_spec (mpval a) Y); destruct Hk as [->| ->]; lia. }
  all: destruct (first_out a b Hn ltac:(intuition congruence)) as (j & J0 & J1 & J2 & J3); unfold acc; apply pan_l;
    eapply (pan_for_at _ (fun i s => subI a (mpval a) (if z then mpval b else 0) i (fst s) (snd s)) j (nlimbs b - 1) (sub_body b (chc z)) _ 0);
      [reflexivity|lia|apply subI_init; auto| |];
      [intros i s Hi HI; assert ((i + 1) * LB <= j * LB) by (apply Z.mul_le_mono_nonneg_r; lia);
       assert ((i + 1) * LB <= (nlimbs b - 1) * LB) by (apply Z.mul_le_mono_nonneg_r; lia); apply sub_body_ok; auto; lia
      |intros s (L & (O & S & _) & _); apply (sub_body_out a); auto; lia].
Qed.

(** ** Single limbs *)
Lemma limb_large_len : forall a x, 256 ^ mp_len a <= x < B -> mp_len a < LB.
Proof. intros a x H. destruct (Z_lt_le_dec (mp_len a) LB) as [|G]; auto. exfalso. rewrite B_256' in H. assert (256 ^ LB <= 256 ^ mp_len a) by (apply Z.pow_le_mono_r; lia). lia. Qed.
Lemma limb_large_pan : forall a x, debug c = true -> mp_ok a -> 256 ^ mp_len a <= x < B ->
  panics (dassert_m (let! k := ct_find_last_set_byte_l x in ret (k <=? mp_len a))).
Proof.
  intros a x D Ha Hx. pose proof (mp_len_nonneg a) as L0. pf (p256_pos (mp_len a)) as PP.
  unfold dassert_m. rewrite D. apply pan_wp, wp_bind, wp_fls_byte; [unfold isl; lia|]. apply wp_ret.
  rewrite (proj2 (Z.leb_gt _ _)); [apply pan_panic|].
  assert (X0 : 0 <= x) by lia. pose proof (nbytes_le_iff x (mp_len a) X0 L0) as NI.
  destruct (Z_lt_le_dec (mp_len a) ((nbits x + 7) / 8)) as [|G]; auto. exfalso. apply NI in G. lia.
Qed.
Lemma add_l_acc : forall a x, mp_ok a -> isl x ->
  acc (negb (debug c && (256 ^ mp_len a <=? x))) (ct_add_mp_l a x) (fun '(a', k) =>
    becomes a a' ((mpval a + x) mod 256 ^ mp_len a) /\
    k = if mp_len a =? 0 then 0 else if mpval a + x <? B ^ nlimbs a then (mpval a + x) / 256 ^ mp_len a else 1).
Proof.
  intros a x Ha Hx. unfold isl in Hx. pose proof (mp_len_nonneg a) as L0. pf (p256_pos (mp_len a)) as PP. pose proof (mpval_bound a Ha) as Ba.
  destruct (Z.leb_spec (256 ^ mp_len a) x) as [G|G]; rewrite ?andb_true_r, ?andb_false_r; cbn [negb].
  - pose proof (limb_large_len a x ltac:(lia)) as LL. pose proof (len_limbs a) as LA. pose proof (nlimbs_nonneg a) as N0. pose proof LB_pos as HLB.
    destruct (debug c) eqn:D; cbn [negb]; unfold acc, ct_add_mp_l.
    { apply pan_l, limb_large_pan; auto. lia. }
    apply wp_bind. unfold dassert_m. rewrite D. apply wp_ret. apply wp_mif; intros E.
    + apply Z.eqb_eq in E. rewrite (len0 a E) in *. rewrite Z.pow_0_r in *. apply wp_ret. rewrite Z.mod_1_r. cbn [Z.eqb]. split; auto. split; [auto|split; [apply shape_refl|lia]].
    + apply Z.eqb_neq in E. assert (N1 : nlimbs a = 1). { destruct (Z.eq_dec (nlimbs a) 1); auto. assert (1 * LB <= (nlimbs a - 1) * LB) by (apply Z.mul_le_mono_nonneg_r; lia). lia. }
      assert (L1 : 0 < mp_len a). { destruct (Z.eq_dec (mp_len a) 0) as [Z0|]; [|lia]. exfalso. rewrite Z0, N1 in LA. lia. }
      rewrite (proj2 (Z.eqb_neq (mp_len a) 0)) by lia.
      assert (LE : lim a (nlimbs a - 1) = 256 ^ mp_len a). { rewrite N1. unfold lim. f_equal. lia. }
      apply wp_bind. eapply wp_for with (I := fun i s => s = (a, x)); [lia|reflexivity|intros; lia|]. intros s ->.
      apply wp_bind, wp_load; auto; [lia|].
      assert (LV : limb a (nlimbs a - 1) = mpval a). { rewrite N1. unfold limb. rewrite Z.pow_0_r, Z.div_1_r. apply Z.mod_small. lia. }
      rewrite LV. pose proof B_gt as HB.
      apply wp_bind, wp_add_l; [unfold isl; lia|unfold isl; lia|]. intros k r Hk Hr ER. unfold isl in Hr.
      assert (U : upinv a (mpval a) (nlimbs a - 1) 0 a) by (rewrite N1; apply upinv_init; auto).
      assert (N00 : 0 < nlimbs a) by lia.
      apply wp_bind. eapply wp_up_mask; eauto. cbv zeta.
      apply wp_bind. eapply (wp_up_store_last a (mpval a)); eauto. intros a2 U2.
      rewrite land_lnot_lim' by auto. pose proof W_pos as HW. pose proof (upinv_done _ _ _ _ Ha U2 ltac:(lia)) as DD. rewrite LE in *.
      replace (0 + r mod 256 ^ mp_len a * B ^ (nlimbs a - 1)) with (r mod 256 ^ mp_len a) in DD by (rewrite N1, Z.pow_0_r; lia).
      set (l := 256 ^ mp_len a) in *.
      assert (DM : r = l * (r / l) + r mod l) by (apply Z.div_mod; lia).
      assert (MB : 0 <= r mod l < l) by (apply Z.mod_pos_bound; lia).
      destruct (lim_last_shift a N00) as [[E1 E2]|[E1 E2]]; rewrite LE in E2; [lia|]. fold l in E2.
      assert (LD : exists q, B = l * q).
      { exists (2 ^ (W - partial_high_shift a)). rewrite E2, <- Z.pow_add_r by lia. unfold B. f_equal. lia. }
      destruct LD as [q LD]. rewrite N1, Z.pow_1_r.
      assert (EM : (mpval a + x) mod l = r mod l). { symmetry. apply (Z.mod_unique _ _ (r / l + q * k)); [left; auto|]. rewrite ER. rewrite DM at 1. rewrite LD. ring. }
      apply wp_bind, wp_lshr; [lia|]. replace (r - r mod l) with (r / l * l) by lia. rewrite <- E2, Z.div_mul by lia. rewrite EM.
      destruct Hk as [->| ->].
      * apply wp_bind, wp_dassert; [reflexivity|]. apply wp_ret. split; auto. rewrite Z.lor_0_l. rewrite (proj2 (Z.ltb_lt _ _)) by lia. f_equal. lia.
      * assert (R0 : r / l = 0) by (apply Z.div_small; lia). rewrite R0. apply wp_bind, wp_dassert; [apply orb_true_r|]. apply wp_ret. split; auto.
        rewrite (proj2 (Z.ltb_ge _ _)) by lia. reflexivity.
  - unfold acc. apply wp_add_mp_l; auto. intros a' k HP. apply addpost_correct in HP. destruct HP as [H1 H2]. split; auto.
    destruct (Z.eqb_spec (mp_len a) 0) as [E|E].
    + rewrite E, Z.pow_0_r in *. rewrite H2. replace (mpval a + x) with 0 by lia. reflexivity.
    + destruct (Z.ltb_spec (mpval a + x) (B ^ nlimbs a)) as [G2|G2]; auto. rewrite H2. symmetry.
      apply (Z.div_unique _ _ 1 (mpval a + x - 256 ^ mp_len a)); [left|]; [|lia]. split; [|lia].
      assert (256 ^ mp_len a <= B ^ nlimbs a); [|lia]. rewrite Bpow256 by apply nlimbs_nonneg. apply Z.pow_le_mono_r; [lia|]. apply len_limbs.
Qed.
Lemma sub_l_acc : forall a x, mp_ok a -> isl x ->
  acc (negb (debug c && (256 ^ mp_len a <=? x))) (ct_sub_mp_l a x) (fun '(a', k) =>
    becomes a a' ((mpval a - x) mod 256 ^ mp_len a) /\ k = if mp_len a =? 0 then 0 else if mpval a <? x then 1 else 0).
Proof.
  intros a x Ha Hx. unfold isl in Hx. pose proof (mp_len_nonneg a) as L0. pf (p256_pos (mp_len a)) as PP. pose proof (mpval_bound a Ha) as Ba.
  destruct (Z.leb_spec (256 ^ mp_len a) x) as [G|G]; rewrite ?andb_true_r, ?andb_false_r; cbn [negb].
  - pose proof (limb_large_len a x ltac:(lia)) as LL. pose proof (len_limbs a) as LA. pose proof (nlimbs_nonneg a) as N0. pose proof LB_pos as HLB.
    destruct (debug c) eqn:D; cbn [negb]; unfold acc, ct_sub_mp_l.
    { apply pan_l, limb_large_pan; auto. lia. }
    apply wp_bind. unfold dassert_m at 1. rewrite D. apply wp_ret. apply wp_mif; intros E.
    + apply Z.eqb_eq in E. rewrite (len0 a E) in *. rewrite Z.pow_0_r in *. apply wp_ret. rewrite Z.mod_1_r. cbn [Z.eqb]. split; auto. split; [auto|split; [apply shape_refl|lia]].
    + apply Z.eqb_neq in E. assert (N1 : nlimbs a = 1). { destruct (Z.eq_dec (nlimbs a) 1); auto. assert (1 * LB <= (nlimbs a - 1) * LB) by (apply Z.mul_le_mono_nonneg_r; lia). lia. }
      assert (L1 : 0 < mp_len a). { destruct (Z.eq_dec (mp_len a) 0) as [Z0|]; [|lia]. exfalso. rewrite Z0, N1 in LA. lia. }
      rewrite (proj2 (Z.eqb_neq (mp_len a) 0)) by lia.
      assert (LE : lim a (nlimbs a - 1) = 256 ^ mp_len a). { rewrite N1. unfold lim. f_equal. lia. }
      apply wp_bind. eapply wp_for with (I := fun i s => s = (a, x)); [lia|reflexivity|intros; lia|]. intros s ->.
      apply wp_bind, wp_load; auto; [lia|].
      assert (LV : limb a (nlimbs a - 1) = mpval a). { rewrite N1. unfold limb. rewrite Z.pow_0_r, Z.div_1_r. apply Z.mod_small. lia. }
      rewrite LV. pose proof B_gt as HB.
      apply wp_bind, wp_sub_l; [unfold isl; lia|unfold isl; lia|]. intros r Hr ER. unfold isl in Hr.
      assert (U : upinv a (mpval a) (nlimbs a - 1) 0 a) by (rewrite N1; apply upinv_init; auto).
      assert (N00 : 0 < nlimbs a) by lia.
      apply wp_bind. eapply wp_up_mask; eauto.
      apply wp_bind. eapply (wp_up_store_last a (mpval a)); eauto. intros a2 U2.
      pose proof (upinv_done _ _ _ _ Ha U2 ltac:(lia)) as DD. rewrite LE in *.
      replace (0 + r mod 256 ^ mp_len a * B ^ (nlimbs a - 1)) with (r mod 256 ^ mp_len a) in DD by (rewrite N1, Z.pow_0_r; lia).
      apply wp_bind. unfold dassert_m. rewrite D. apply wp_ret. apply wp_ret.
      set (l := 256 ^ mp_len a) in *.
      assert (LD : exists q, B = l * q).
      { exists (256 ^ (LB - mp_len a)). unfold l. rewrite <- Z.pow_add_r by lia. rewrite B_256'. f_equal. lia. }
      destruct LD as [q LD].
      assert (DM : r = l * (r / l) + r mod l) by (apply Z.div_mod; lia).
      assert (MB : 0 <= r mod l < l) by (apply Z.mod_pos_bound; lia).
      assert (EM : (mpval a - x) mod l = r mod l).
      { symmetry. apply (Z.mod_unique _ _ (r / l - q * b2z (mpval a <? x))); [left; auto|]. rewrite ER. rewrite DM at 1. rewrite LD. ring. }
      rewrite EM. split; auto.
  - unfold acc. apply wp_sub_mp_l; auto. intros a' k HP. apply subpost_correct in HP. destruct HP as [H1 H2]. split; auto.
    destruct (Z.eqb_spec (mp_len a) 0) as [E|E]; auto.
    rewrite E, Z.pow_0_r in *. rewrite H2. rewrite (proj2 (Z.ltb_ge _ _)) by lia. auto.
Qed.

(** ** The statements of ThmAdd.v *)
Lemma one_more_iff : forall a b, one_more a b = true <-> (debug c = false /\ nlimbs b = nlimbs a + 1 /\ mp_len a = nlimbs a * LB).
Proof. intros a b. unfold one_more. rewrite !andb_true_iff, negb_true_iff, !Z.eqb_eq. tauto. Qed.
Lemma add_any : forall a b (z : bool) m, mp_ok a -> mp_ok b -> m = ct_add_cond_mp_mp a b (chc z) \/ z = true /\ m = ct_add_mp_mp a b ->
  let x := if z then mpval b else 0 in
  let cut := debug c = false /\ nlimbs b = nlimbs a + 1 /\ mp_len a = nlimbs a * LB in
  (nlimbs b <= nlimbs a -> yields m (fun '(a', carry) =>
     becomes a a' ((mpval a + x) mod 256 ^ mp_len a) /\
     carry = if mpval a + x <? B ^ nlimbs a then (mpval a + x) / 256 ^ mp_len a else 1)) /\
  (nlimbs a < nlimbs b -> cut -> yields m (fun '(a', carry) =>
     let sum := mpval a + x mod B ^ nlimbs a in becomes a a' (sum mod B ^ nlimbs a) /\ carry = sum / B ^ nlimbs a)) /\
  (nlimbs a < nlimbs b -> ~ cut -> panics m).
Proof.
  intros a b z m Ha Hb Hm. cbv zeta.
  assert (WP : forall P, wp (ct_add_cond_mp_mp a b (chc z)) P -> wp m P).
  { intros P H. destruct Hm as [->|[-> ->]]; auto. unfold ct_add_mp_mp. apply wp_bind, (wp_lc_new true); [reflexivity|]. exact H. }
  assert (PA : panics (ct_add_cond_mp_mp a b (chc z)) -> panics m).
  { intros H. destruct Hm as [->|[-> ->]]; auto. unfold ct_add_mp_mp. apply pan_wp, (wp_lc_new true); [reflexivity|]. exact H. }
  split; [|split].
  - intros Hn. apply wp_yields, WP. apply wp_add_cond_any; auto.
  - intros Hn Hc. apply wp_yields, WP. pose proof (add_more_limbs a b z Ha Hb Hn) as H. rewrite (proj2 (one_more_iff a b) Hc) in H. exact H.
  - intros Hn Hc. apply PA. pose proof (add_more_limbs a b z Ha Hb Hn) as H. destruct (one_more a b) eqn:E; [|exact H].
    exfalso. apply Hc, one_more_iff, E.
Qed.
Lemma sub_any : forall a b (z : bool) m, mp_ok a -> mp_ok b -> m = ct_sub_cond_mp_mp a b (chc z) \/ z = true /\ m = ct_sub_mp_mp a b ->
  let x := if z then mpval b else 0 in
  let refused := debug c = true /\ mp_len a mod LB <> 0 /\ B ^ nlimbs a < 2 * (x - mpval a) in
  let cut := debug c = false /\ nlimbs b = nlimbs a + 1 /\ mp_len a = nlimbs a * LB in
  (nlimbs b <= nlimbs a -> ~ refused -> yields m (fun '(a', borrow) =>
     becomes a a' ((mpval a - x) mod 256 ^ mp_len a) /\ borrow = if mpval a <? x then 1 else 0)) /\
  (nlimbs b <= nlimbs a -> refused -> panics m) /\
  (nlimbs a < nlimbs b -> cut -> yields m (fun '(a', borrow) =>
     let y := x mod B ^ nlimbs a in becomes a a' ((mpval a - y) mod B ^ nlimbs a) /\ borrow = if mpval a <? y then 1 else 0)) /\
  (nlimbs a < nlimbs b -> ~ cut -> panics m).
Proof.
  intros a b z m Ha Hb Hm. cbv zeta.
  assert (WP : forall P, wp (ct_sub_cond_mp_mp a b (chc z)) P -> wp m P).
  { intros P H. destruct Hm as [->|[-> ->]]; auto. unfold ct_sub_mp_mp. apply wp_bind, (wp_lc_new true); [reflexivity|]. exact H. }
  assert (PA : panics (ct_sub_cond_mp_mp a b (chc z)) -> panics m).
  { intros H. destruct Hm as [->|[-> ->]]; auto. unfold ct_sub_mp_mp. apply pan_wp, (wp_lc_new true); [reflexivity|]. exact H. }
  assert (SG : sign_ok a (if z then mpval b else 0) = true <-> ~ (debug c = true /\ mp_len a mod LB <> 0 /\ B ^ nlimbs a < 2 * ((if z then mpval b else 0) - mpval a))).
  { unfold sign_ok. rewrite negb_true_iff, <- not_true_iff_false, !andb_true_iff, negb_true_iff, Z.eqb_neq, Z.ltb_lt. tauto. }
  split; [|split; [|split]].
  - intros Hn Hr. apply wp_yields, WP. pose proof (sub_cond_acc a b z Ha Hb Hn) as H. rewrite (proj2 SG Hr) in H. exact H.
  - intros Hn Hr. apply PA. pose proof (sub_cond_acc a b z Ha Hb Hn) as H. destruct (sign_ok a (if z then mpval b else 0)) eqn:E; [|exact H].
    exfalso. apply (proj1 SG eq_refl Hr).
  - intros Hn Hc. apply wp_yields, WP. pose proof (sub_more_limbs a b z Ha Hb Hn) as H. rewrite (proj2 (one_more_iff a b) Hc) in H. exact H.
  - intros Hn Hc. apply PA. pose proof (sub_more_limbs a b z Ha Hb Hn) as H. destruct (one_more a b) eqn:E; [|exact H].
    exfalso. apply Hc, one_more_iff, E.
Qed.
Lemma limb_any : forall a x, mp_ok a -> 0 <= x < B ->
  (debug c = true -> 256 ^ mp_len a <= x -> panics (ct_add_mp_l a x) /\ panics (ct_sub_mp_l a x)) /\
  (debug c = false \/ x < 256 ^ mp_len a ->
    yields (ct_add_mp_l a x) (fun '(a', carry) =>
      becomes a a' ((mpval a + x) mod 256 ^ mp_len a) /\
      carry = if mp_len a =? 0 then 0 else if mpval a + x <? B ^ nlimbs a then (mpval a + x) / 256 ^ mp_len a else 1) /\
    yields (ct_sub_mp_l a x) (fun '(a', borrow) =>
      becomes a a' ((mpval a - x) mod 256 ^ mp_len a) /\ borrow = if mp_len a =? 0 then 0 else if mpval a <? x then 1 else 0)).
Proof.
  intros a x Ha Hx. pose proof (add_l_acc a x Ha Hx) as HA. pose proof (sub_l_acc a x Ha Hx) as HS. split.
  - intros D G. rewrite D, (proj2 (Z.leb_le _ _) G) in HA, HS. split; auto.
  - intros H. assert (E : debug c && (256 ^ mp_len a <=? x) = false). { destruct H as [->|H]; auto. rewrite (proj2 (Z.leb_gt _ _) H). apply andb_false_r. }
    rewrite E in HA, HS. split; apply wp_yields; auto.
Qed.
End Facts.
