(** Proofs about sequences of calls (ThmApp.v). *)
From Coq Require Import ZArith Znumtheory Zpow_facts List Bool Lia.
Require Import Verif.Spec Verif.Base Verif.Monad Verif.Wp Verif.ModelLimb Verif.LimbFacts Verif.LimbFacts2 Verif.LimbProofs
  Verif.ModelBuf Verif.SpecBuf Verif.BufFacts Verif.BufProofs Verif.ModelCmp Verif.ModelAdd Verif.ModelShift Verif.ModelMul Verif.ModelDiv Verif.SpecDiv
  Verif.SpecMont Verif.ModelMont Verif.SpecEuclid Verif.ModelEuclid Verif.PrimeFacts2 Verif.SpecApp
  Verif.ThmAdd Verif.ThmShift Verif.ThmMul Verif.ThmDiv Verif.ThmMont Verif.ThmGcd Verif.MontProofs Verif.ThmInvOdd Verif.ThmLcm Verif.ModelLcm.
Import ListNotations.
Open Scope Z_scope.

Lemma yields_bind : forall A C (m : M A) (f : A -> M C) (P : A -> Prop) (Q : C -> Prop),
  yields m P -> (forall a, P a -> yields (f a) Q) -> yields (bind m f) Q.
Proof.
  intros A C m f P Q (a & H & HP) HF. destruct (HF a HP) as (r & Hr & HQ). exists r. split; auto.
  unfold returns, bind in *. destruct m as [t o]. cbn in H. subst o. cbn. auto.
Qed.
Lemma yields_ret : forall A (a : A) (P : A -> Prop), P a -> yields (ret a) P.
Proof. intros. exists a. split; auto. reflexivity. Qed.
Lemma yields_mono : forall A (m : M A) (P Q : A -> Prop), yields m P -> (forall a, P a -> Q a) -> yields m Q.
Proof. intros A m P Q (a & H & HP) HQ. exists a. auto. Qed.

Section Facts.
Context {c : cfg}.

Lemma becomes_len : forall b b' v, becomes b b' v -> mp_len b' = mp_len b.
Proof. intros b b' v (_ & [_ L] & _). auto. Qed.
Lemma becomes_nl : forall b b' v, becomes b b' v -> nlimbs b' = nlimbs b.
Proof. intros b b' v (_ & S & _). apply shape_nlimbs; auto. Qed.
Lemma becomes_back : forall a a1 a2 v1 v2, mp_ok a -> becomes a a1 v1 -> becomes a1 a2 v2 -> v2 = mpval a -> a2 = a.
Proof.
  intros a a1 a2 v1 v2 Ha (H1 & S1 & E1) (H2 & S2 & E2) E. symmetry. apply mp_inj; auto.
  - eapply shape_trans; eauto.
  - congruence.
Qed.
Lemma val_pos : forall b, mp_ok b -> 0 <= mpval b < 256 ^ mp_len b.
Proof. intros; apply mpval_bound; auto. Qed.

(** ** Round trips *)
Lemma add_sub_back : forall a b, mp_ok a -> mp_ok b -> nlimbs b <= nlimbs a -> mpval b < 256 ^ mp_len a ->
  yields (let! '(a1, carry) := ct_add_mp_mp a b in let! '(a2, borrow) := ct_sub_mp_mp a1 b in ret (a2, carry, borrow))
    (fun '(a2, carry, borrow) => a2 = a /\ carry = borrow).
Proof.
  intros a b Ha Hb HN HB. pose proof (val_pos a Ha) as VA. pose proof (val_pos b Hb) as VB.
  eapply yields_bind; [apply C17_add; auto|]. intros [a1 cy] [B1 ->].
  pose proof (becomes_len _ _ _ B1) as L1. pose proof (becomes_nl _ _ _ B1) as N1. pose proof B1 as (H1 & _ & V1).
  eapply yields_bind; [apply C18_sub; auto; [lia|rewrite L1; auto]|]. intros [a2 bw] [B2 ->]. rewrite L1 in B2.
  apply yields_ret. rewrite V1 in *. set (T := 256 ^ mp_len a) in *. split.
  - eapply becomes_back; eauto. rewrite Zminus_mod_idemp_l. rewrite Z.add_simpl_r. apply Z.mod_small; auto.
  - assert (C : mpval a + mpval b < T \/ T <= mpval a + mpval b) by lia. destruct C as [C|C].
    + rewrite Z.div_small, Z.mod_small by lia. replace (mpval a + mpval b <? mpval b) with false; auto. symmetry. apply Z.ltb_ge. lia.
    + replace (mpval a + mpval b) with (mpval a + mpval b - T + 1 * T) by ring. rewrite Z.div_add, Z.mod_add, Z.div_small, Z.mod_small by lia.
      replace (_ <? _) with true; auto. symmetry. apply Z.ltb_lt. lia.
Qed.
Lemma sub_add_back : forall a b, mp_ok a -> mp_ok b -> nlimbs b <= nlimbs a -> mpval b < 256 ^ mp_len a ->
  yields (let! '(a1, borrow) := ct_sub_mp_mp a b in let! '(a2, carry) := ct_add_mp_mp a1 b in ret (a2, borrow, carry))
    (fun '(a2, borrow, carry) => a2 = a /\ carry = borrow).
Proof.
  intros a b Ha Hb HN HB. pose proof (val_pos a Ha) as VA. pose proof (val_pos b Hb) as VB.
  eapply yields_bind; [apply C18_sub; auto|]. intros [a1 cy] [B1 ->].
  pose proof (becomes_len _ _ _ B1) as L1. pose proof (becomes_nl _ _ _ B1) as N1. pose proof B1 as (H1 & _ & V1).
  eapply yields_bind; [apply C17_add; auto; [lia|rewrite L1; auto]|]. intros [a2 bw] [B2 ->]. rewrite L1 in *.
  apply yields_ret. rewrite V1 in *. set (T := 256 ^ mp_len a) in *. split.
  - eapply becomes_back; eauto. rewrite Zplus_mod_idemp_l. rewrite Z.sub_add. apply Z.mod_small; auto.
  - destruct (mpval a <? mpval b) eqn:C; [apply Z.ltb_lt in C|apply Z.ltb_ge in C].
    + replace (mpval a - mpval b) with (mpval a - mpval b + T + (-1) * T) by ring. rewrite Z.mod_add, Z.mod_small by lia.
      replace (mpval a - mpval b + T + mpval b) with (mpval a + 1 * T) by ring. rewrite Z.div_add, Z.div_small; lia.
    + rewrite Z.mod_small by lia. rewrite Z.div_small; lia.
Qed.
Lemma negate_back : forall a, mp_ok a -> yields (let! a1 := ct_negate_mp a in ct_negate_mp a1) (fun a2 => a2 = a).
Proof.
  intros a Ha. pose proof (val_pos a Ha) as VA. eapply yields_bind; [apply C18_negate; auto|]. intros a1 B1. cbv beta in B1. pose proof B1 as (H1 & _ & V1).
  eapply yields_mono; [apply C18_negate; auto|]. intros a2 B2. rewrite (becomes_len _ _ _ B1) in B2. eapply becomes_back; eauto.
  rewrite V1. set (T := 256 ^ mp_len a) in *. rewrite <- (Z.sub_0_l (_ mod _)). rewrite Zminus_mod_idemp_r. replace (0 - - mpval a) with (mpval a) by ring.
  apply Z.mod_small; auto.
Qed.
Lemma shift_back : forall a d, mp_ok a -> 0 <= d < 2 ^ UW -> mpval a * 2 ^ d < 256 ^ mp_len a ->
  yields (let! '(a1, out) := ct_lshift_mp a d in let! '(a2, out2) := ct_rshift_mp a1 d in ret (a2, out, out2))
    (fun '(a2, out, out2) => a2 = a /\ out = 0 /\ out2 = 0).
Proof.
  intros a d Ha Hd HS. pose proof (val_pos a Ha) as VA. pose proof (pow2_gt0 d ltac:(lia)) as P. pose proof B_pos as BP.
  eapply yields_bind; [apply C20_lshift; auto|]. intros [a1 o] [B1 ->]. pose proof B1 as (H1 & _ & V1).
  eapply yields_bind; [apply C21_rshift; auto|]. intros [a2 o2] [B2 ->]. rewrite V1 in *. apply yields_ret.
  rewrite (Z.mod_small (mpval a * 2 ^ d)) in * by nia. repeat split.
  - eapply becomes_back; eauto. apply Z.div_mul. lia.
  - rewrite Z.div_small by nia. reflexivity.
  - replace (mpval a * 2 ^ d * B) with (mpval a * B * 2 ^ d) by ring. rewrite Z.div_mul by lia. apply Z.mod_mul. lia.
Qed.
Lemma mod_add_sub_back : forall a b n, mp_ok a -> mp_ok b -> mp_ok n -> mp_len a = mp_len n -> mpval a < mpval n -> mpval b < mpval n ->
  yields (let! '(a1, r1) := ct_add_mod_mp_mp a b n in let! '(a2, r2) := ct_sub_mod_mp_mp a1 b n in ret (a2, r1, r2))
    (fun '(a2, r1, r2) => a2 = a /\ r1 = Ok tt /\ r2 = Ok tt).
Proof.
  intros a b n Ha Hb Hn HL HA HB. pose proof (val_pos a Ha) as VA. pose proof (val_pos b Hb) as VB.
  assert (HN : nlimbs a = nlimbs n) by (unfold nlimbs; rewrite HL; auto).
  eapply yields_bind; [apply C19_add_mod_partial; auto|]. intros [a1 r1] [[-> B1]|(_ & _ & K)]; [|lia].
  pose proof B1 as (H1 & _ & V1). assert (NP : 0 < mpval n) by lia. pose proof (Z.mod_pos_bound (mpval a + mpval b) (mpval n) NP) as MB.
  eapply yields_bind; [apply C19_sub_mod_partial; auto; [lia|left; rewrite (becomes_nl _ _ _ B1); auto]|]. intros [a2 r2] [[-> B2]|(_ & _ & K)].
  2: { rewrite (becomes_len _ _ _ B1) in K. lia. }
  apply yields_ret. repeat split. eapply becomes_back; eauto. rewrite V1, Zminus_mod_idemp_l, Z.add_simpl_r. apply Z.mod_small; lia.
Qed.

(** A product divided by one of its factors. *)
Lemma byte_len_ex : forall v, 0 < v -> exists n, byte_len v n.
Proof.
  intros v Hv. exists (Z.log2 v / 8 + 1). unfold byte_len. pose proof (Z.log2_nonneg v) as L0. pose proof (Z.log2_spec v Hv) as [L1 L2].
  pose proof (Z.div_mod (Z.log2 v) 8 ltac:(lia)) as D. pose proof (Z.mod_pos_bound (Z.log2 v) 8 ltac:(lia)) as M.
  assert (0 <= Z.log2 v / 8) by (apply Z.div_pos; lia). change 256 with (2 ^ 8). rewrite <- !Z.pow_mul_r by lia. repeat split; [lia| |].
  - eapply Z.le_trans; [|exact L1]. apply Z.pow_le_mono_r; lia.
  - eapply Z.lt_le_trans; [exact L2|]. apply Z.pow_le_mono_r; lia.
Qed.
Lemma byte_len_le : forall b n, mp_ok b -> byte_len (mpval b) n -> n <= mp_len b.
Proof.
  intros b n Hb (H1 & H2 & _). pose proof (val_pos b Hb). destruct (Z.le_gt_cases n (mp_len b)) as [|G]; auto. pose proof (mp_len_nonneg b).
  assert (256 ^ mp_len b <= 256 ^ (n - 1)) by (apply Z.pow_le_mono_r; lia). lia.
Qed.
Lemma mul_div_back : forall a l b m q, mp_ok a -> mp_ok b -> mp_ok q -> 0 <= l -> mpval a < 256 ^ l -> l + mp_len b <= mp_len a ->
  byte_len (mpval b) m -> mp_len a <= mp_len q + m -> mpval a < 256 ^ mp_len q ->
  yields (let! a1 := ct_mul_trunc_mp_mp a l b in let! d := mp_divisor_new b None in
          match d with Ok d => ct_div_mp_mp None a1 d (Some q) | Err _ => panic end)
    (fun '(res, _, rem, q') => res = Ok tt /\ becomes a rem 0 /\ exists x, q' = Some x /\ becomes q x (mpval a)).
Proof.
  intros a l b m q Ha Hb Hq Hl HA HL HM HQL HQ. pose proof (val_pos a Ha) as VA. pose proof (val_pos b Hb) as VB.
  pose proof HM as (M1 & M2 & M3). assert (BP : 0 < mpval b). { eapply Z.lt_le_trans; [|exact M2]. apply Z.pow_pos_nonneg; lia. }
  eapply yields_bind; [apply C22_mul_full; auto|]. intros a1 B1. cbv beta in B1. rewrite Z.mod_small in B1 by lia. pose proof B1 as (H1 & S1 & V1).
  destruct (C25_new c b None Hb) as [HD _]. { cbn. pose proof B_pos. lia. } cbn [dec_val] in HD. destruct (HD ltac:(lia)) as [d Hd].
  eapply yields_bind; [exists (Ok d); split; [exact Hd|]; exact (eq_refl (Ok d))|]. intros x <-. cbv beta iota.
  assert (DF : divisor_for d (mpval b)). { exists b, None. split; [auto|]. split; [cbn; pose proof B_pos; lia|]. split; [exact Hd|cbn; lia]. }
  assert (U : uval None a1 = mpval a * mpval b) by (unfold uval, uhval; rewrite V1; ring).
  eapply yields_mono; [apply (C25_div c None a1 d (mpval b) m (Some q)); auto|].
  - split; auto.
  - cbn [uhlen]. rewrite (becomes_len _ _ _ B1). lia.
  - cbn [q_fits]. rewrite U, Z.div_mul by lia. auto.
  - intros [[[res uh'] rem] q'] (-> & UO & SR & SH & SQ & RV & QV). rewrite U, Z.div_mul, Z.mod_mul in * by lia. split; auto.
    destruct uh'; [contradiction|]. destruct q' as [x|]; [|contradiction]. destruct SQ as [OX SX]. destruct UO as [OR _]. split.
    + split; [auto|]. split; [eapply shape_trans; eauto|]. unfold uval, uhval in RV. lia.
    + exists x. split; auto. split; auto.
Qed.
(** Quotient times divisor plus remainder. *)
Lemma div_mul_back : forall u v m q w, mp_ok u -> mp_ok v -> mp_ok q -> mp_ok w ->
  byte_len (mpval v) m -> mp_len u <= mp_len q + m -> mpval u / mpval v < 256 ^ mp_len q -> mp_len u <= mp_len w -> mp_len q <= mp_len w -> mpval w = 0 ->
  yields (let! d := mp_divisor_new v None in
          match d with
          | Ok d => let! '(res, _, rem, q') := ct_div_mp_mp None u d (Some q) in
                    match q' with
                    | Some q' => let! '(w1, c1) := ct_add_mp_mp w q' in let! w2 := ct_mul_trunc_mp_mp w1 (mp_len q) v in
                                 let! '(w3, c3) := ct_add_mp_mp w2 rem in ret (res, w3, c3)
                    | None => panic
                    end
          | Err _ => panic
          end)
    (fun '(res, w3, c3) => res = Ok tt /\ becomes w w3 (mpval u) /\ c3 = 0).
Proof.
  intros u v m q w Hu Hv Hq Hw HM HQL HQ HL1 HL2 HW. pose proof (val_pos u Hu) as VU. pose proof (val_pos v Hv) as VV.
  pose proof HM as (M1 & M2 & M3). assert (VP : 0 < mpval v). { eapply Z.lt_le_trans; [|exact M2]. apply Z.pow_pos_nonneg; lia. }
  destruct (C25_new c v None Hv) as [HD _]. { cbn. pose proof B_pos. lia. } cbn [dec_val] in HD. destruct (HD ltac:(lia)) as [d Hd].
  eapply yields_bind; [exists (Ok d); split; [exact Hd|]; exact (eq_refl (Ok d))|]. intros x <-. cbv beta iota.
  assert (DF : divisor_for d (mpval v)). { exists v, None. split; [auto|]. split; [cbn; pose proof B_pos; lia|]. split; [exact Hd|cbn; lia]. }
  assert (U : uval None u = mpval u) by (unfold uval, uhval; ring).
  assert (QL : mpval u / mpval v <= mpval u). { apply Z.div_le_upper_bound; nia. }
  pose proof (mp_len_nonneg q) as LQ0.
  assert (Q0 : 0 <= mpval u / mpval v) by (apply Z.div_pos; lia).
  eapply yields_bind; [apply (C25_div c None u d (mpval v) m (Some q)); auto|].
  - split; auto.
  - cbn [uhlen]. lia.
  - cbn [q_fits]. rewrite U. lia.
  - intros [[[res uh'] rem] q'] (-> & UO & SR & SH & SQ & RV & QV). rewrite U in *.
    destruct uh'; [contradiction|]. destruct q' as [x|]; [|contradiction]. destruct SQ as [OX SX]. destruct UO as [OR _]. cbn [q_is] in QV.
    unfold uval, uhval in RV. rewrite Z.mul_0_r, Z.add_0_r in RV.
    assert (T : 256 ^ mp_len q <= 256 ^ mp_len w) by (apply Z.pow_le_mono_r; lia).
    assert (T2 : 256 ^ mp_len u <= 256 ^ mp_len w) by (apply Z.pow_le_mono_r; lia).
    assert (NQ : nlimbs x <= nlimbs w). { rewrite (shape_nlimbs _ _ SX). apply ct_mp_nlimbs_mono; [apply mp_len_nonneg|lia]. }
    assert (NR : nlimbs rem <= nlimbs w). { rewrite (shape_nlimbs _ _ SR). apply ct_mp_nlimbs_mono; [apply mp_len_nonneg|lia]. }
    assert (VN : mpval v <> 0) by lia. pose proof (Z.div_mod (mpval u) (mpval v) VN) as DM. pose proof (Z.mod_pos_bound (mpval u) (mpval v) VP) as MP.
    eapply yields_bind; [apply C17_add; auto; lia|]. intros [w1 c1] [B1 _]. rewrite HW, QV, Z.add_0_l, Z.mod_small in B1 by lia. pose proof B1 as (H1 & S1 & V1).
    pose proof (becomes_len _ _ _ B1) as LE1.
    eapply yields_bind; [apply C22_mul; auto; lia|]. intros w2 B2. cbv beta in B2. rewrite V1, LE1, (Z.mod_small (_ / _)) in B2 by lia.
    rewrite Z.mod_small in B2 by nia. pose proof B2 as (H2 & S2 & V2). pose proof (becomes_len _ _ _ B2) as LE2.
    eapply yields_bind; [apply C17_add; auto; [rewrite (becomes_nl _ _ _ B2), (becomes_nl _ _ _ B1); lia|rewrite LE2, LE1; lia]|].
    intros [w3 c3] [B3 ->]. rewrite V2, LE2, LE1, RV in *. replace (mpval u / mpval v * mpval v + mpval u mod mpval v) with (mpval u) in * by lia.
    rewrite Z.mod_small, Z.div_small in * by lia. apply yields_ret. split; auto. split; auto. destruct B3 as (H3 & S3 & V3).
    split; [auto|]. split; auto. eapply shape_trans; [exact S1|]. eapply shape_trans; eauto.
Qed.

(** ** Greatest common divisor and least common multiple *)
Lemma gcd_lcm_mul : forall a b, 0 <= a -> 0 <= b -> Z.gcd a b * Z.lcm a b = a * b.
Proof.
  intros a b Ha Hb. unfold Z.lcm. pose proof (Z.gcd_nonneg a b) as G. destruct (Z.eq_dec (Z.gcd a b) 0) as [E|E].
  - apply Z.gcd_eq_0 in E. destruct E; subst. reflexivity.
  - rewrite Z.abs_eq. { rewrite Z.mul_comm, <- Z.mul_assoc, (Z.mul_comm (b / _)). rewrite <- Z_div_exact_full_2 with (a := b); auto.
      apply Z.mod_divide; auto. apply Z.gcd_divide_r. }
    apply Z.mul_nonneg_nonneg; auto. apply Z.div_pos; lia.
Qed.
Lemma gcd_lcm_product : forall a b x l0 y l1 res scr, mp_ok a -> mp_ok b -> mp_ok x -> mp_ok y -> mp_ok res -> mp_ok scr ->
  mpval x = mpval a -> mpval y = mpval b -> 0 < mp_len a -> mut_compat a b -> gcd_len_ok (Z.max (mp_len a) (mp_len b)) ->
  kind_of scr = kind_of y -> mp_len x = mp_len y -> gcd_len_ok (mp_len x) -> 0 < l0 <= mp_len x -> 0 < l1 <= mp_len y ->
  mpval x < 256 ^ l0 -> mpval y < 256 ^ l1 -> l0 + l1 <= mp_len res -> l0 + l1 <= mp_len scr ->
  (kind_of y = KNE -> (l0 + l1) mod LB = 0 /\ l0 + l1 + (ct_mp_limbs_align_len (Z.max l0 l1) - Z.max l0 l1) <= mp_len res) ->
  yields (let! '(r1, g, _) := ct_gcd_mp_mp a b in let! '(r2, m, _, _, _) := ct_lcm_mp_mp res x l0 y l1 scr in
          let! p := ct_mul_trunc_mp_mp m (l0 + l1) g in ret (r1, r2, p))
    (fun '(r1, r2, p) => r1 = Ok tt /\ r2 = Ok tt /\ becomes res p (mpval a * mpval b)).
Proof.
  intros a b x l0 y l1 res scr Ha Hb Hx Hy Hres Hscr VX VY LA MC GL KS LXY GLX L0 L1 X0 Y0 LR LS KN.
  pose proof (val_pos a Ha) as VA. pose proof (val_pos b Hb) as VB.
  assert (PB : mpval a * mpval b < 256 ^ (l0 + l1)). { rewrite Z.pow_add_r by lia. nia. }
  assert (PT : 256 ^ (l0 + l1) <= 256 ^ mp_len res) by (apply Z.pow_le_mono_r; lia).
  assert (LN : 0 <= Z.lcm (mpval a) (mpval b)) by apply Z.lcm_nonneg.
  assert (G : yields (ct_gcd_mp_mp a b) (fun '(r1, g, _) => r1 = Ok tt /\ mp_ok g /\ mpval g * Z.lcm (mpval a) (mpval b) = mpval a * mpval b /\ 0 < mpval g)).
  { destruct (Z.eq_dec (mpval a) 0) as [Ea|Ea]; [destruct (Z.eq_dec (mpval b) 0) as [Eb|Eb]|].
    - eapply yields_mono; [apply C33_gcd_both_zero; auto|]. intros [[r1 g] z] (-> & (G1 & G2 & G3) & _). rewrite G3, Ea, Eb. split; auto. split; auto. split; [reflexivity|lia].
    - eapply yields_mono; [apply C33_gcd; auto|]. intros [[r1 g] z] (-> & (G1 & G2 & G3) & _). rewrite G3. split; auto. split; auto. split; [apply gcd_lcm_mul; lia|].
      pose proof (Z.gcd_nonneg (mpval a) (mpval b)). assert (Z.gcd (mpval a) (mpval b) <> 0); [|lia]. intros E. apply Z.gcd_eq_0 in E. lia.
    - eapply yields_mono; [apply C33_gcd; auto|]. intros [[r1 g] z] (-> & (G1 & G2 & G3) & _). rewrite G3. split; auto. split; auto. split; [apply gcd_lcm_mul; lia|].
      pose proof (Z.gcd_nonneg (mpval a) (mpval b)). assert (Z.gcd (mpval a) (mpval b) <> 0); [|lia]. intros E. apply Z.gcd_eq_0 in E. lia. }
  eapply yields_bind; [exact G|]. intros [[r1 g] z] (-> & G1 & G2 & G3).
  eapply yields_bind; [apply C37_lcm_partial; auto|]. intros [[[[r2 m] x1] x2] x3] (-> & BM & _). rewrite VX, VY in BM. pose proof BM as (M1 & M2 & M3).
  assert (LL : Z.lcm (mpval a) (mpval b) <= mpval a * mpval b) by nia.
  pose proof (becomes_len _ _ _ BM) as LM.
  eapply yields_bind; [apply C22_mul; auto; lia|]. intros p BP. cbv beta in BP. apply yields_ret. split; auto. split; auto.
  rewrite M3, LM in BP. rewrite (Z.mod_small (Z.lcm _ _)) in BP by lia. rewrite Z.mul_comm, G2 in BP. rewrite Z.mod_small in BP by nia.
  destruct BP as (P1 & P2 & P3). split; auto. split; auto. eapply shape_trans; eauto.
Qed.

(** ** Modular exponentiation *)
Lemma residue_buf_compat : forall n b, residue_buf n b -> mpval b < mpval n -> mp_ok n -> len_compat b (mp_len n) /\ len_compat n (mp_len b).
Proof.
  intros n b (Hb & HL) HV Hn. pose proof (val_pos n Hn). unfold len_compat. destruct HL as [HL|(K & HL)].
  - split; left; lia.
  - split; [right; repeat split; auto; lia|left; lia].
Qed.
Lemma result_buf_fits : forall n b, residue_buf n b -> len_compat n (mp_len b).
Proof. intros n b (Hb & HL). left. destruct HL as [HL|(K & HL)]; lia. Qed.
Lemma residue_becomes : forall n b b' v, residue_buf n b -> becomes b b' v -> residue_buf n b'.
Proof. intros n b b' v (Hb & HL) (H & [K L] & V). split; auto. rewrite K, L. auto. Qed.

Lemma exp_app : forall n r x e k s, exp_modulus n -> result_buf n r -> residue_buf n x -> mpval x < mpval n -> mp_ok e -> 0 <= k -> exp_scratch n s ->
  yields (ct_exp_mod_odd_mp_mp r x n e k s) (fun '(res, r', _, _) => res = Ok tt /\ becomes r r' (mpval x ^ expo e k mod mpval n) /\ residue_buf n r' /\ mpval r' < mpval n).
Proof.
  intros n r x e k s (Hn & HO & HNL & HC & HU) (HR & HRM) HX HV He Hk (HS & HSL & HSR). pose proof HR as (HRO & _). pose proof HX as (HXO & _).
  destruct (residue_buf_compat n x HX HV Hn) as [C1 C2]. pose proof (val_pos x HXO) as VX.
  eapply yields_mono; [apply C32_exp_partial; auto|]; [apply result_buf_fits; auto|].
  intros [[[res r'] x'] s'] (-> & BR & _). split; auto. fold (expo e k) in BR. split; auto. split; [eapply residue_becomes; [exact HR|exact BR]|].
  destruct BR as (_ & _ & ->). apply Z.mod_pos_bound. lia.
Qed.
Lemma expo_nonneg : forall e k, 0 <= k -> 0 <= expo e k.
Proof. intros. unfold expo. apply Z.mod_pos_bound. apply pow2_gt0; auto. Qed.
Lemma pow_pow_mod : forall g n a b, 0 < n -> 0 <= a -> 0 <= b -> (g ^ a mod n) ^ b mod n = g ^ (a * b) mod n.
Proof. intros. rewrite <- Zpower_mod by lia. rewrite Z.pow_mul_r by lia. auto. Qed.

Lemma key_agreement : forall n g g' a ka b kb ra rb sa sb s1 s2 s3 s4, exp_modulus n ->
  residue_buf n g -> residue_buf n g' -> mpval g < mpval n -> mpval g' = mpval g -> mp_ok a -> 0 <= ka -> mp_ok b -> 0 <= kb ->
  result_buf n ra -> result_buf n rb -> result_buf n sa -> result_buf n sb ->
  exp_scratch n s1 -> exp_scratch n s2 -> exp_scratch n s3 -> exp_scratch n s4 ->
  yields (let! '(e1, pa, _, _) := ct_exp_mod_odd_mp_mp ra g n a ka s1 in
          let! '(e2, pb, _, _) := ct_exp_mod_odd_mp_mp rb g' n b kb s2 in
          let! '(e3, xa, _, _) := ct_exp_mod_odd_mp_mp sa pb n a ka s3 in
          let! '(e4, xb, _, _) := ct_exp_mod_odd_mp_mp sb pa n b kb s4 in ret ([e1; e2; e3; e4], xa, xb))
    (fun '(es, xa, xb) => es = [Ok tt; Ok tt; Ok tt; Ok tt] /\
      becomes sa xa (mpval g ^ (expo a ka * expo b kb) mod mpval n) /\ becomes sb xb (mpval g ^ (expo a ka * expo b kb) mod mpval n)).
Proof.
  intros n g g' a ka b kb ra rb sa sb s1 s2 s3 s4 Hn Hg Hg' Vg Vg' Ha Hka Hb Hkb Rra Rrb Rsa Rsb S1 S2 S3 S4.
  pose proof (expo_nonneg a ka Hka) as EA. pose proof (expo_nonneg b kb Hkb) as EB.
  assert (NP : 0 < mpval n). { destruct Hg as (Og & _). pose proof (val_pos g Og). lia. }
  eapply yields_bind; [apply exp_app; auto|]. intros [[[e1 pa] y1] z1] (-> & (_ & _ & B1) & R1 & V1).
  eapply yields_bind; [apply (exp_app n rb g' b kb s2); auto; lia|]. intros [[[e2 pb] y2] z2] (-> & (_ & _ & B2) & R2 & V2).
  eapply yields_bind; [apply (exp_app n sa pb a ka s3); auto|]. intros [[[e3 xa] y3] z3] (-> & B3 & _ & _).
  eapply yields_bind; [apply (exp_app n sb pa b kb s4); auto|]. intros [[[e4 xb] y4] z4] (-> & B4 & _ & _).
  apply yields_ret. split; auto. rewrite B1, pow_pow_mod in B4 by auto. rewrite B2, Vg', pow_pow_mod in B3 by auto. rewrite Z.mul_comm in B3. auto.
Qed.

(** Products through Montgomery form. *)
Lemma montgomery_product : forall n a b r, exp_modulus n -> residue_buf n a -> residue_buf n b -> result_buf n r ->
  yields (let! '(e1, a1) := ct_to_montgomery_form_direct_mp a n in let! '(e2, b1) := ct_to_montgomery_form_direct_mp b n in
          let! g := ct_montgomery_neg_n0_inv_mod_l_mp n in
          match g with
          | Ok g => let! '(e3, x) := ct_montgomery_mul_mod_mp_mp r a1 b1 n g in let! '(e4, y) := ct_montgomery_redc_mp x n g in ret ([e1; e2; e3; e4], y)
          | Err _ => panic
          end)
    (fun '(es, y) => es = [Ok tt; Ok tt; Ok tt; Ok tt] /\ becomes r y ((mpval a * mpval b) mod mpval n)).
Proof.
  intros n a b r (Hn & HO & HNL & HC & HU) HA HB (HR & HRM). pose proof HA as (OA & LA). pose proof HB as (OB & LB0). pose proof HR as (OR & LR).
  pose proof (result_buf_fits _ _ HA) as FA. pose proof (result_buf_fits _ _ HB) as FB. pose proof (result_buf_fits _ _ HR) as FR.
  pose proof (val_pos a OA) as VA. pose proof (val_pos b OB) as VB. pose proof (mp_len_nonneg n) as LN. pose proof LB_pos as LBP.
  assert (NP : 0 < mpval n). { pose proof (val_pos n Hn). destruct (Z.eq_dec (mpval n) 0) as [E|E]; [rewrite E in HO; discriminate|lia]. }
  assert (NZ : mpval n <> 0) by lia. set (R := mg_radix n).
  eapply yields_bind; [apply C31_direct; auto; lia|]. intros [e1 a1] [-> B1]. fold R in B1. pose proof B1 as (O1 & S1 & V1).
  eapply yields_bind; [apply C31_direct; auto; lia|]. intros [e2 b1] [-> B2]. fold R in B2. pose proof B2 as (O2 & S2 & V2).
  eapply yields_bind; [apply C29_neg_inv; auto|]. intros g0 (g & -> & Hg). cbv beta iota.
  pose proof (Z.mod_pos_bound (mpval a * R) (mpval n) NP) as M1. pose proof (Z.mod_pos_bound (mpval b * R) (mpval n) NP) as M2.
  destruct (residue_buf_compat n a1 (residue_becomes _ _ _ _ HA B1) ltac:(lia) Hn) as [C1 _].
  destruct (residue_buf_compat n b1 (residue_becomes _ _ _ _ HB B2) ltac:(lia) Hn) as [C2 _].
  assert (LN1 : 1 <= mp_len n). { destruct (Z.eq_dec (mp_len n) 0) as [E|E]; [|lia]. pose proof (val_pos n Hn) as VN. rewrite E in VN. lia. }
  eapply yields_bind; [apply C30_mul_partial; auto; try lia|].
  - rewrite (becomes_len _ _ _ B2). destruct LB0 as [?|(_ & ?)]; lia.
  - unfold mg_carry_ok in HC. pose proof B_pos. nia.
  - destruct HRM as [HRM|HRM]; [left; auto|right]. fold R in HRM |- *. rewrite V1, V2. clear - HRM M1 M2. eapply Z.le_trans; [|exact HRM]. apply Z.add_le_mono_r. apply Z.mul_le_mono_nonneg; lia.
  - intros [e3 x] (-> & v & B3 & RV). pose proof B3 as (O3 & S3 & V3). pose proof RV as (RV1 & RV2). fold R in RV2.
    pose proof (residue_becomes _ _ _ _ HR B3) as RX.
    assert (RG : mpval n * 1 <= mpval n * R). { apply Z.mul_le_mono_nonneg_l; [lia|]. unfold R, mg_radix. assert (0 <= nlimbs n) by lia. pose proof (Z.pow_pos_nonneg B (nlimbs n) B_pos H). lia. }
    eapply yields_bind; [apply C29_redc_partial; auto|].
    + left. rewrite (becomes_len _ _ _ B3). destruct LR as [?|(_ & ?)]; lia.
    + destruct RX as (_ & [LX|(KX & LX)]); [left; lia|]. destruct (Z.le_gt_cases (mp_len x) (2 * mp_len n)); [left; auto|right]. repeat split; [auto|lia|].
      rewrite V3. pose proof (val_pos n Hn). assert (256 ^ mp_len n <= 256 ^ (2 * mp_len n)) by (apply Z.pow_le_mono_r; lia). lia.
    + rewrite V3. fold R. lia.
    + intros [e4 y] (-> & w & B4 & RW). apply yields_ret. split; auto.
      assert (EV : v = (mpval a * mpval b * R) mod mpval n).
      { apply (reduced_unique c n (mpval a1 * mpval b1)); auto. split; [apply Z.mod_pos_bound; auto|]. fold R. rewrite V1, V2.
        rewrite <- Z.mul_mod by auto. rewrite Zmult_mod_idemp_l. f_equal. ring. }
      assert (EW : w = (mpval a * mpval b) mod mpval n).
      { apply (reduced_unique c n (mpval x)); auto. split; [apply Z.mod_pos_bound; auto|]. fold R. rewrite V3, EV, Zmult_mod_idemp_l, Z.mod_mod; auto. }
      rewrite <- EW. destruct B4 as (O4 & S4 & V4). split; auto. split; auto. eapply shape_trans; eauto.
Qed.

(** RSA *)
Lemma rsa_prime : forall p m k, prime p -> 0 <= k -> (p - 1 | k - 1) -> 1 <= k -> m ^ k mod p = m mod p.
Proof.
  intros p m k Hp Hk [j Hj] K1. pose proof (prime_ge_2 p Hp) as P2. destruct (Zdivide_dec p m) as [D|D].
  - assert (D2 : (p | m ^ k)). { replace k with (1 + (k - 1)) by ring. rewrite Z.pow_add_r, Z.pow_1_r by lia. apply Z.divide_mul_l. auto. }
    apply Z.mod_divide in D; [|lia]. apply Z.mod_divide in D2; [|lia]. congruence.
  - pose proof (fermat p m Hp D) as F. assert (J0 : 0 <= j) by nia.
    replace k with ((p - 1) * j + 1) by lia. rewrite Z.pow_add_r, Z.pow_1_r, Z.pow_mul_r by nia.
    rewrite Z.mul_mod, (Zpower_mod (m ^ (p - 1))), F, Z.pow_1_l, (Z.mod_small 1) by lia. rewrite Z.mul_1_l. apply Z.mod_mod. lia.
Qed.
Lemma rsa_num : forall p q m k, prime p -> prime q -> p <> q -> 1 <= k -> (p - 1 | k - 1) -> (q - 1 | k - 1) -> m ^ k mod (p * q) = m mod (p * q).
Proof.
  intros p q m k Hp Hq NE K1 Dp Dq. pose proof (prime_ge_2 p Hp) as P2. pose proof (prime_ge_2 q Hq) as Q2.
  assert (DP : (p | m ^ k - m)). { apply Z.mod_divide; [lia|]. rewrite Zminus_mod, rsa_prime by (auto; lia). rewrite Z.sub_diag. apply Z.mod_0_l. lia. }
  assert (DQ : (q | m ^ k - m)). { apply Z.mod_divide; [lia|]. rewrite Zminus_mod, rsa_prime by (auto; lia). rewrite Z.sub_diag. apply Z.mod_0_l. lia. }
  assert (RP : rel_prime p q). { apply prime_rel_prime; auto. intros D. apply prime_div_prime in D; auto. }
  assert (D : (p * q | m ^ k - m)).
  { destruct DP as [x Hx]. rewrite Hx in DQ. rewrite Z.mul_comm in DQ. apply Gauss in DQ; [|apply rel_prime_sym; auto]. destruct DQ as [y Hy]. exists y. rewrite Hx, Hy. ring. }
  destruct D as [x Hx]. replace (m ^ k) with (m + x * (p * q)) by lia. apply Z.mod_add. nia.
Qed.
Lemma rsa_round_trip : forall p q n m e ke d kd r r2 s1 s2, prime p -> prime q -> p <> q -> mpval n = p * q -> exp_modulus n ->
  (p - 1 | expo e ke * expo d kd - 1) -> (q - 1 | expo e ke * expo d kd - 1) -> 0 < expo e ke * expo d kd ->
  residue_buf n m -> mpval m < mpval n -> mp_ok e -> 0 <= ke -> mp_ok d -> 0 <= kd -> result_buf n r -> result_buf n r2 ->
  exp_scratch n s1 -> exp_scratch n s2 ->
  yields (let! '(e1, x, _, _) := ct_exp_mod_odd_mp_mp r m n e ke s1 in
          let! '(e2, y, _, _) := ct_exp_mod_odd_mp_mp r2 x n d kd s2 in ret (e1, e2, y))
    (fun '(e1, e2, y) => e1 = Ok tt /\ e2 = Ok tt /\ becomes r2 y (mpval m)).
Proof.
  intros p q n m e ke d kd r r2 s1 s2 Hp Hq NEQ HPQ Hn DP DQ KP Hm Vm He Hke Hd Hkd Hr Hr2 S1 S2.
  pose proof (expo_nonneg e ke Hke) as EA. pose proof (expo_nonneg d kd Hkd) as EB.
  assert (M0 : 0 <= mpval m). { destruct Hm as (Om & _). pose proof (val_pos m Om). lia. }
  eapply yields_bind; [apply exp_app; auto|]. intros [[[e1 x] y1] z1] (-> & (_ & _ & B1) & R1 & V1).
  eapply yields_bind; [apply (exp_app n r2 x d kd s2); auto|]. intros [[[e2 y] y2] z2] (-> & B2 & _ & _).
  apply yields_ret. split; auto. split; auto. rewrite B1, pow_pow_mod in B2 by (auto; lia). rewrite HPQ, rsa_num, <- HPQ, Z.mod_small in B2 by (auto; lia). auto.
Qed.

(** ** Inverses *)
Lemma inverse_unique : forall n x v w, 0 < n -> is_inverse n x v -> is_inverse n x w -> v = w.
Proof.
  intros n x v w Hn (Hv & Ev) (Hw & Ew).
  assert (E : (w * (x * v)) mod n = (v * (x * w)) mod n) by (f_equal; ring).
  rewrite <- Zmult_mod_idemp_r, Ev in E. rewrite <- (Zmult_mod_idemp_r (x * w)), Ew in E. rewrite !Zmult_mod_idemp_r, !Z.mul_1_r in E.
  rewrite !Z.mod_small in E; auto.
Qed.
Lemma inverse_gcd : forall n x v, 0 < n -> (x * v) mod n = 1 mod n -> Z.gcd n v = 1.
Proof.
  intros n x v Hn E. apply Zgcd_1_rel_prime. apply bezout_rel_prime.
  assert (D : (n | x * v - 1)). { apply Z.mod_divide; [lia|]. rewrite Zminus_mod, E, Z.sub_diag. apply Z.mod_0_l. lia. }
  destruct D as [k Hk]. apply (Bezout_intro n v 1 (- k) x). lia.
Qed.
Lemma inverse_sym : forall n x v, 0 < n -> (x * v) mod n = 1 mod n -> is_inverse n v (x mod n).
Proof. intros n x v Hn E. split; [apply Z.mod_pos_bound; auto|]. rewrite Zmult_mod_idemp_r, Z.mul_comm. auto. Qed.

Lemma inverse_twice : forall n x r r2 s0 s1 t0 t1, mp_ok n -> mp_ok x -> mp_ok r2 -> Z.odd (mpval n) = true -> 1 < mpval n -> mpval n <= B ^ (nlimbs n - 1) ->
  gcd_len_ok (LB * nlimbs n) -> residue_buf n r -> mut_compat x n -> len_compat n (mp_len r2) ->
  mp_ok (NE s0) -> mp_ok (NE s1) -> nlimbs n <= zlen s0 -> nlimbs n <= zlen s1 ->
  mp_ok (NE t0) -> mp_ok (NE t1) -> nlimbs n <= zlen t0 -> nlimbs n <= zlen t1 -> Z.gcd (mpval n) (mpval x) = 1 ->
  yields (let! '(e1, y, _, _, _) := ct_inv_mod_odd_mp_mp r x n s0 s1 in
          let! '(e2, z, _, _, _) := ct_inv_mod_odd_mp_mp r2 y n t0 t1 in ret (e1, e2, z))
    (fun '(e1, e2, z) => e1 = Ok tt /\ e2 = Ok tt /\ becomes r2 z (mpval x mod mpval n)).
Proof.
  intros n x r r2 s0 s1 t0 t1 Hn Hx Hr2 HO H1 HB HG HRB MC LC2 A1 A2 A3 A4 T1 T2 T3 T4 HC.
  assert (NP : 0 < mpval n) by lia. pose proof HRB as (Hr & _). pose proof (result_buf_fits _ _ HRB) as LC.
  eapply yields_bind; [apply C34_inv_odd_partial; auto|]. intros [[[[e1 y] x1] x2] x3] (-> & (V1 & E1) & BY & _). pose proof BY as (OY & SY & _).
  pose proof (residue_becomes _ _ _ _ HRB BY) as RY. destruct (residue_buf_compat n y RY ltac:(lia) Hn) as [C1 C2].
  eapply yields_bind; [apply (C34_inv_odd_partial c r2 y n t0 t1); auto; [split; auto|eapply inverse_gcd; eauto]|].
  intros [[[[e2 z] z1] z2] z3] (-> & IV & BZ & _). apply yields_ret. split; auto. split; auto.
  pose proof (inverse_unique _ _ _ _ NP IV (inverse_sym _ _ _ NP E1)) as E. rewrite E in BZ. auto.
Qed.
Lemma inverse_fermat : forall n x e k r r2 x2 s s0 s1, prime (mpval n) -> exp_modulus n -> mpval n <= B ^ (nlimbs n - 1) -> gcd_len_ok (LB * nlimbs n) ->
  residue_buf n x -> residue_buf n x2 -> mpval x2 = mpval x -> 0 < mpval x < mpval n -> mp_ok e -> 0 <= k -> expo e k = mpval n - 2 ->
  result_buf n r -> residue_buf n r2 -> exp_scratch n s ->
  mp_ok (NE s0) -> mp_ok (NE s1) -> nlimbs n <= zlen s0 -> nlimbs n <= zlen s1 ->
  yields (let! '(e1, y, _, _) := ct_exp_mod_odd_mp_mp r x n e k s in
          let! '(e2, z, _, _, _) := ct_inv_mod_odd_mp_mp r2 x2 n s0 s1 in ret (e1, e2, y, z))
    (fun '(e1, e2, y, z) => e1 = Ok tt /\ e2 = Ok tt /\ mpval y = mpval z /\ is_inverse (mpval n) (mpval x) (mpval z)).
Proof.
  intros n x e k r r2 x2 s s0 s1 HP HM HB HG RX RX2 VX2 VX He Hk HE RR RR2 HS A1 A2 A3 A4. pose proof (prime_ge_2 _ HP) as P2. pose proof HM as (Hn & HO & _).
  eapply yields_bind; [apply exp_app; auto; lia|]. intros [[[e1 y] y1] y2] (-> & (_ & _ & BY) & _ & _).
  destruct (residue_buf_compat n x2 RX2 ltac:(lia) Hn) as [C1 C2]. pose proof RX2 as (OX2 & _). pose proof RR2 as (OR2 & _).
  assert (N2 : mpval n <> 2) by (intros E; rewrite E in HO; discriminate).
  assert (ND : ~ (mpval n | mpval x)). { intros D. apply Z.divide_pos_le in D; lia. }
  eapply yields_bind; [apply (C34_inv_odd_partial c r2 x2 n s0 s1); auto; [lia|apply result_buf_fits; auto|split; auto|]|].
  { rewrite VX2. apply Zgcd_1_rel_prime. apply prime_rel_prime; auto. }
  intros [[[[e2 z] z1] z2] z3] (-> & IV & BZ & _). rewrite VX2 in IV. apply yields_ret. split; auto. split; auto. split; auto.
  apply (inverse_unique (mpval n) (mpval x)); auto; [lia|]. rewrite BY, HE. split; [apply Z.mod_pos_bound; lia|].
  rewrite Zmult_mod_idemp_r, <- Z.pow_succ_r by lia. replace (Z.succ (mpval n - 2)) with (mpval n - 1) by lia. rewrite fermat by auto. rewrite Z.mod_small; lia.
Qed.

End Facts.
