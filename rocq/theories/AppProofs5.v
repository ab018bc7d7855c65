(** Proofs about the exact outcome of testing and searching for primes (ThmApp4.v). *)
From Coq Require Import ZArith Znumtheory List Bool Lia.
Require Import Verif.Spec Verif.Base Verif.Monad Verif.Wp Verif.ModelLimb Verif.ThmLimb Verif.LimbFacts Verif.ModelBuf Verif.SpecBuf Verif.BufFacts Verif.BufProofs
  Verif.ModelAdd Verif.ModelDiv Verif.SpecDiv Verif.ModelMont Verif.SpecMont Verif.SpecMontValue Verif.SpecEuclid Verif.SpecInv Verif.SpecSteps Verif.ModelPrime Verif.SpecPrime Verif.ModelSieve Verif.SpecSieve
  Verif.SieveFacts Verif.SieveProofs Verif.SpecApp Verif.SpecApp2 Verif.SpecApp4 Verif.ThmAdd Verif.ThmDiv Verif.ThmMont Verif.ThmPrime Verif.MontProofs Verif.PrimeFacts2 Verif.PrimeFacts3 Verif.MontFine Verif.MontValue Verif.PrimeValue
  Verif.PrimeCert Verif.AppProofs Verif.AppFine Verif.AppProofs2 Verif.SpecAppWrong Verif.AppWrong.
Import ListNotations.
Open Scope Z_scope.

Section Facts.
Context {c : cfg}.

Lemma room_room : forall n r, mp_len n <= mp_len r -> room_for n (mpval n) -> mg_room r n.
Proof. intros n r L [A|A]; [left; split; auto|right]. rewrite Z.min_r by lia. exact A. Qed.
Lemma residue_nl : forall n r, residue_buf n r -> nlimbs r = nlimbs n.
Proof.
  intros n r (_ & [E|(K & E)]); [unfold nlimbs; rewrite E; auto|]. destruct r as [l|l|l]; try discriminate K. cbn [mp_len] in E. unfold nlimbs, ct_mp_nlimbs. cbn [mp_len].
  pose proof LB_pos as LP. assert (LN0 : LB <> 0) by lia. replace (zlen l * LB + LB - 1) with (zlen l * LB + (LB - 1)) by lia. rewrite Z.div_add_l, (Z.div_small (LB - 1)), Z.add_0_r by lia.
  pose proof (Z.div_mod (mp_len n + LB - 1) LB LN0) as D. pose proof (Z.mod_pos_bound (mp_len n + LB - 1) LB LP) as M. nia.
Qed.

Lemma probable_prime_value : forall rx mb s0 s1 p base, exp_modulus_any p -> 2 < mpval p -> room_for p (mpval p) -> residue_buf p base -> test_buffers p rx mb s0 s1 ->
  yields (is_probable_prime rx mb s0 s1 p base) (fun b => b = true <-> mr_passes p (mpval base)).
Proof.
  intros rx mb s0 s1 p base (Hp & HO & HNL & HU) P2 AL HB (HRX & HMB & HS0 & HS1 & L0 & L1).
  pose proof HRX as (ORX & LRX). pose proof HMB as (OMB & LMB). pose proof HB as (OB & LBs). pose proof LB_pos as LP. pose proof B_pos as BP.
  assert (PL : 0 < mp_len p). { destruct (Z.eq_dec (mp_len p) 0) as [E|E]; [|pose proof (mp_len_nonneg p); lia]. pose proof (val_pos p Hp) as V. rewrite E in V. cbn in V. lia. }
  unfold is_probable_prime.
  destruct (proj1 (C25_new c p None Hp ltac:(cbn; lia)) ltac:(cbn; lia)) as (d & Hd).
  eapply yields_bind; [eapply yields_returns with (P := fun x => x = Ok d); [exact Hd|reflexivity]|]. intros ? ->.
  eapply yields_bind; [apply unwrap_ok with (P := fun x => x = d); reflexivity|]. intros ? ->.
  assert (DF : divisor_for d (mpval p)) by (exists p, None; split; [auto|]; split; [cbn; lia|]; split; [auto|cbn; lia]).
  eapply yields_bind; [apply (C25_mod c None base d (mpval p)); [split; [auto|cbn; auto]|exact DF]|].
  intros [uh b1] (OU & SB & OS & VB). destruct uh as [uh|]; [destruct OS|]. destruct OU as [OB1 _]. unfold uval, uhval in VB. rewrite !Z.mul_0_r, !Z.add_0_r in VB.
  assert (RB1 : residue_buf p b1). { split; [auto|]. destruct SB as [K L]. rewrite K, L. auto. }
  assert (PP : 0 < mpval p) by lia.
  pose proof (Z.mod_pos_bound (mpval base) (mpval p) PP) as MB. rewrite <- VB in MB.
  eapply yields_bind; [apply (proj1 (C31_radix2 c rx p ORX Hp)); [auto|apply result_buf_fits; auto|auto]|].
  intros [e rx2] (-> & BRX). pose proof (residue_becomes _ _ _ _ HRX BRX) as RRX. pose proof BRX as (ORX2 & _ & VRX).
  eapply yields_bind; [apply unwrap_ok with (P := fun _ => True); auto|]. intros _ _.
  eapply yields_bind; [apply (proj1 (C29_neg_inv c p Hp)); auto|]. intros gr (g & -> & HG).
  eapply yields_bind; [apply unwrap_ok with (P := fun x => x = g); reflexivity|]. intros ? ->.
  set (R := mg_radix p) in *.
  assert (RP : 0 < R). { unfold R, mg_radix. apply Z.pow_pos_nonneg; [lia|]. unfold nlimbs in *. lia. }
  pose proof (Z.mod_pos_bound (R * R) (mpval p) PP) as MR. rewrite <- VRX in MR.
  assert (Q0 : 0 <= mpval p) by lia.
  destruct (residue_buf_compat p b1 RB1 ltac:(lia) Hp) as [CB1 CB2].
  destruct (residue_buf_compat p rx2 RRX ltac:(lia) Hp) as [CR1 CR2].
  assert (LRX2 : mp_len p <= mp_len rx2) by (destruct RRX as (_ & [E|(_ & E)]); lia).
  assert (LMB' : mp_len p <= mp_len mb) by (destruct LMB as [E|(_ & E)]; lia).
  eapply yields_bind; [apply (C31_to_form_value c mb b1 p g rx2); auto; [apply result_buf_fits; auto|lia|lia|apply room_room; auto]|].
  intros [e mb1] (-> & BMB). pose proof (residue_becomes _ _ _ _ HMB BMB) as RMB. pose proof BMB as (OMB1 & _ & VMB). fold R in VMB.
  eapply yields_bind; [apply unwrap_ok with (P := fun _ => True); auto|]. intros _ _.
  eapply yields_bind; [apply (C29_redc_partial c rx2 p g); auto|]; [| |].
  { left. assert (LB <= mp_len p) by (pose proof (nlimbs_spec p); nia). destruct RRX as (_ & [E|(K & E)]); lia. }
  { fold R. nia. }
  intros [e rx3] (-> & v & BR3 & HRV). pose proof (residue_becomes _ _ _ _ RRX BR3) as RR3. pose proof BR3 as (OR3 & _ & VR3).
  eapply yields_bind; [apply unwrap_ok with (P := fun _ => True); auto|]. intros _ _.
  assert (EV : v = R mod mpval p).
  { apply (C29_reduced_unique c p (mpval rx2)); auto. split; [apply Z.mod_pos_bound; lia|]. fold R. rewrite VRX, Zmult_mod_idemp_l, Z.mod_mod by lia. reflexivity. }
  pose proof (Z.mod_pos_bound R (mpval p) PP) as MR3. rewrite <- EV, <- VR3 in MR3.
  assert (MM : 0 <= mpval mb1 < mpval p) by (rewrite VMB; apply Z.mod_pos_bound; lia).
  destruct (residue_buf_compat p mb1 RMB ltac:(lia) Hp) as [CM1 CM2].
  destruct (residue_buf_compat p rx3 RR3 ltac:(lia) Hp) as [CX1 CX2].
  assert (LMB1 : mp_len p <= mp_len mb1) by (destruct RMB as (_ & [E|(_ & E)]); lia).
  assert (NX : nlimbs rx3 = nlimbs p) by (apply residue_nl; exact RR3).
  assert (MS : forall s, nlimbs p <= zlen s -> mg_room (NE s) p).
  { intros s Ls. apply room_room; auto. cbn [mp_len]. pose proof (nlimbs_spec p). nia. }
  assert (P1 : 0 < mpval p - 1) by lia. destruct (pow_odd_part (mpval p - 1) P1) as (s & o & S0 & ED & OD).
  assert (HM : forall g s o, neg_inv p g -> 0 <= s -> mpval p - 1 = 2 ^ s * o -> Z.odd o = true ->
     returns (ct_prime_test_miller_rabin_mp mb1 p rx3 s0 s1) (Ok (choice (mr_outcome p g (mpval mb1) s (R mod mpval p) (Z.to_nat (8 * mp_len p - 1)))))).
  { intros g' s' o' X1 X2 X3 X4. apply (C39_miller_rabin_value c mb1 p rx3 s0 s1 g' s' o'); auto; try lia. rewrite VR3. exact EV. }
  set (b := mr_outcome p g (mpval mb1) s (R mod mpval p) (Z.to_nat (8 * mp_len p - 1))).
  eapply yields_bind; [eapply yields_returns with (P := fun x => x = Ok (choice b)); [apply (HM g s o); auto|reflexivity]|]. intros ? ->.
  eapply yields_bind; [apply unwrap_ok with (P := fun x => x = choice b); reflexivity|]. intros ? ->.
  apply yields_ret. rewrite choice_bool. rewrite VB in VMB. subst b. split.
  - intros E. exists g, s, o. repeat (split; [auto; fail|]). fold R. rewrite <- VMB. exact E.
  - intros (g' & s' & o' & X1 & X2 & X3 & X4 & X5). fold R in X5.
    assert (G : g' = g) by (apply (neg_inv_unique p); auto). subst g'. destruct (odd_part_unique s o s' o'); auto; [lia|]. subst s'. rewrite VMB. exact X5.
Qed.

Lemma probable_prime_fine : forall rx mb s0 s1 p base, exp_modulus_any p -> 2 < mpval p -> room_for p (mpval p) -> residue_buf p base -> test_buffers p rx mb s0 s1 ->
  yields (is_probable_prime rx mb s0 s1 p base) (fun b => test_fine p (mpval base) -> (b = true <-> strong_probable_prime (mpval p) (mpval base))).
Proof.
  intros rx mb s0 s1 p base (Hp & HO & HNL & HU) P2 AL HB (HRX & HMB & HS0 & HS1 & L0 & L1).
  pose proof HRX as (ORX & LRX). pose proof HMB as (OMB & LMB). pose proof HB as (OB & LBs). pose proof LB_pos as LP. pose proof B_pos as BP.
  assert (PL : 0 < mp_len p). { destruct (Z.eq_dec (mp_len p) 0) as [E|E]; [|pose proof (mp_len_nonneg p); lia]. pose proof (val_pos p Hp) as V. rewrite E in V. cbn in V. lia. }
  unfold is_probable_prime.
  destruct (proj1 (C25_new c p None Hp ltac:(cbn; lia)) ltac:(cbn; lia)) as (d & Hd).
  eapply yields_bind; [eapply yields_returns with (P := fun x => x = Ok d); [exact Hd|reflexivity]|]. intros ? ->.
  eapply yields_bind; [apply unwrap_ok with (P := fun x => x = d); reflexivity|]. intros ? ->.
  assert (DF : divisor_for d (mpval p)) by (exists p, None; split; [auto|]; split; [cbn; lia|]; split; [auto|cbn; lia]).
  eapply yields_bind; [apply (C25_mod c None base d (mpval p)); [split; [auto|cbn; auto]|exact DF]|].
  intros [uh b1] (OU & SB & OS & VB). destruct uh as [uh|]; [destruct OS|]. destruct OU as [OB1 _]. unfold uval, uhval in VB. rewrite !Z.mul_0_r, !Z.add_0_r in VB.
  assert (RB1 : residue_buf p b1). { split; [auto|]. destruct SB as [K L]. rewrite K, L. auto. }
  assert (PP : 0 < mpval p) by lia.
  pose proof (Z.mod_pos_bound (mpval base) (mpval p) PP) as MB. rewrite <- VB in MB.
  eapply yields_bind; [apply (proj1 (C31_radix2 c rx p ORX Hp)); [auto|apply result_buf_fits; auto|auto]|].
  intros [e rx2] (-> & BRX). pose proof (residue_becomes _ _ _ _ HRX BRX) as RRX. pose proof BRX as (ORX2 & _ & VRX).
  eapply yields_bind; [apply unwrap_ok with (P := fun _ => True); auto|]. intros _ _.
  eapply yields_bind; [apply (proj1 (C29_neg_inv c p Hp)); auto|]. intros gr (g & -> & HG).
  eapply yields_bind; [apply unwrap_ok with (P := fun x => x = g); reflexivity|]. intros ? ->.
  set (R := mg_radix p) in *.
  assert (RP : 0 < R). { unfold R, mg_radix. apply Z.pow_pos_nonneg; [lia|]. unfold nlimbs in *. lia. }
  pose proof (Z.mod_pos_bound (R * R) (mpval p) PP) as MR. rewrite <- VRX in MR.
  assert (Q0 : 0 <= mpval p) by lia.
  destruct (residue_buf_compat p b1 RB1 ltac:(lia) Hp) as [CB1 CB2].
  destruct (residue_buf_compat p rx2 RRX ltac:(lia) Hp) as [CR1 CR2].
  assert (LRX2 : mp_len p <= mp_len rx2) by (destruct RRX as (_ & [E|(_ & E)]); lia).
  assert (LMB' : mp_len p <= mp_len mb) by (destruct LMB as [E|(_ & E)]; lia).
  eapply yields_bind; [apply (C31_to_form_exact c mb b1 p g rx2); auto; [apply result_buf_fits; auto|lia|lia|apply room_room; auto]|].
  intros [e mb1] (-> & vm & BMB & RVM & EVM). pose proof (residue_becomes _ _ _ _ HMB BMB) as RMB. pose proof BMB as (OMB1 & _ & VMB). fold R in EVM.
  eapply yields_bind; [apply unwrap_ok with (P := fun _ => True); auto|]. intros _ _.
  eapply yields_bind; [apply (C29_redc_partial c rx2 p g); auto|]; [| |].
  { left. assert (LB <= mp_len p) by (pose proof (nlimbs_spec p); nia). destruct RRX as (_ & [E|(K & E)]); lia. }
  { fold R. nia. }
  intros [e rx3] (-> & v & BR3 & HRV). pose proof (residue_becomes _ _ _ _ RRX BR3) as RR3. pose proof BR3 as (OR3 & _ & VR3).
  eapply yields_bind; [apply unwrap_ok with (P := fun _ => True); auto|]. intros _ _.
  assert (EV : v = R mod mpval p).
  { apply (C29_reduced_unique c p (mpval rx2)); auto. split; [apply Z.mod_pos_bound; lia|]. fold R. rewrite VRX, Zmult_mod_idemp_l, Z.mod_mod by lia. reflexivity. }
  pose proof (Z.mod_pos_bound R (mpval p) PP) as MR3. rewrite <- EV, <- VR3 in MR3.
  pose proof RVM as MM. rewrite <- VMB in MM.
  destruct (residue_buf_compat p mb1 RMB ltac:(lia) Hp) as [CM1 CM2].
  destruct (residue_buf_compat p rx3 RR3 ltac:(lia) Hp) as [CX1 CX2].
  assert (LMB1 : mp_len p <= mp_len mb1) by (destruct RMB as (_ & [E|(_ & E)]); lia).
  assert (NX : nlimbs rx3 = nlimbs p) by (apply residue_nl; exact RR3).
  assert (MS : forall s, nlimbs p <= zlen s -> mg_room (NE s) p).
  { intros s Ls. apply room_room; auto. cbn [mp_len]. pose proof (nlimbs_spec p). nia. }
  destruct (form_onto c p vm HO RVM) as [a0 Ea0]. fold R in Ea0.
  assert (exists a, vm = (a * R) mod mpval p /\ (vm = (mpval b1 * R) mod mpval p -> a = mpval base)) as (a & Ea & Eab).
  { destruct (Z.eq_dec vm ((mpval b1 * R) mod mpval p)) as [E|E]; [|exists a0; tauto]. exists (mpval base). split; auto. rewrite E, VB, Zmult_mod_idemp_l. reflexivity. }
  destruct (C39_miller_rabin_any c mb1 p rx3 s0 s1 a) as (b & HBr & HBi); auto; try lia.
  { rewrite VMB. exact Ea. }
  { rewrite VR3. exact EV. }
  eapply yields_bind; [eapply yields_returns with (P := fun x => x = Ok (choice b)); [exact HBr|reflexivity]|]. intros ? ->.
  eapply yields_bind; [apply unwrap_ok with (P := fun x => x = choice b); reflexivity|]. intros ? ->.
  apply yields_ret. rewrite choice_bool. intros [F1 F2]. rewrite <- (Eab (proj2 EVM (fine_not_lost _ _ _ ltac:(rewrite VB, VRX; exact F1)))). apply HBi. rewrite Eab; auto.
  apply EVM, fine_not_lost. rewrite VB, VRX. exact F1.
Qed.


(** Where no carry gets lost, passing is being a strong probable prime. *)
Lemma passes_strong : forall p base, exp_modulus_any p -> 2 < mpval p -> room_for p (mpval p) -> residue_buf p base -> test_fine p (mpval base) ->
  (mr_passes p (mpval base) <-> strong_probable_prime (mpval p) (mpval base)).
Proof.
  intros p base HM P2 RM HB HF. pose proof HM as (Hp & _ & NL & _).
  assert (ZO : mp_ok (NE (zrepeat 0 (nlimbs p)))).
  { destruct HM as (_ & _ & _ & HU). pose proof (nlimbs_spec p) as NS. split; [apply zrepeat_ok; apply Z.pow_pos_nonneg; [lia|pose proof LB_pos; lia]|]. cbn [mp_len]. rewrite zlen_zrepeat; lia. }
  assert (RP : residue_buf p p) by (split; [auto|left; auto]).
  assert (TB : test_buffers p p p (zrepeat 0 (nlimbs p)) (zrepeat 0 (nlimbs p))).
  { split; [auto|]. split; [auto|]. split; [auto|]. split; [auto|]. rewrite zlen_zrepeat; lia. }
  destruct (probable_prime_value _ _ _ _ _ _ HM P2 RM HB TB) as (b1 & R1 & H1). destruct (probable_prime_fine _ _ _ _ _ _ HM P2 RM HB TB) as (b2 & R2 & H2).
  unfold returns in *. rewrite R1 in R2. inversion R2; subst b2. rewrite <- H1. apply H2. exact HF.
Qed.
Lemma room_mono : forall n p q q', mp_len n = mp_len p -> 0 <= q <= q' -> room_for n q' -> room_for p q.
Proof.
  intros n p q q' L Q [A|A]; unfold room_for; rewrite <- L; [left; exact A|right]. replace (mg_radix p) with (mg_radix n) by (unfold mg_radix, nlimbs; rewrite L; auto).
  assert (0 <= mg_radix n) by (apply Z.lt_le_incl, Z.pow_pos_nonneg; [apply B_pos|apply nlimbs_nonneg]). nia.
Qed.

Lemma all_rounds_exact : forall (round : mp -> M bool) (P : mp -> Prop) bases, (forall b, In b bases -> yields (round b) (fun r => r = true <-> P b)) ->
  yields (all_rounds round bases) (fun r => r = true <-> forall b, In b bases -> P b).
Proof.
  intros round P bases. induction bases as [|b bases IH]; intros H; cbn [all_rounds].
  - apply yields_ret. split; [intros _ b []|auto].
  - eapply yields_bind; [apply H; left; auto|]. intros r Hr. cbv beta in Hr. destruct r.
    + eapply yields_mono; [apply IH; intros; apply H; right; auto|]. intros r E. rewrite E. split.
      * intros A b' [<-|I]; [apply Hr; auto|apply A; auto].
      * intros A b' I. apply A. right. auto.
    + apply yields_ret. split; [discriminate|]. intros A. apply Hr, A. left. auto.
Qed.

(** What passes does not depend on the contents of the buffer the number is put in, but on its length only. *)
Lemma passes_same : forall p p' a, mpval p = mpval p' -> mp_len p = mp_len p' -> mr_passes p a -> mr_passes p' a.
Proof.
  intros p p' a V L (g & s & d & H1 & H2 & H3 & H4 & H5). exists g, s, d. assert (N : nlimbs p = nlimbs p') by (unfold nlimbs; rewrite L; auto).
  unfold neg_inv in *. rewrite eoutcome_eq in *. unfold mg_product, mg_radix in *. rewrite V, N, L in *. auto.
Qed.
Lemma taken_becomes : forall n bases p q, becomes n p q -> (taken_for_prime n bases q <-> ~ has_small_factor (screen_limit n) q /\ forall b, In b bases -> mr_passes p (mpval b)).
Proof.
  intros n bases p q HB. pose proof (becomes_len _ _ _ HB) as L. destruct HB as (O & S & V). split; intros (H1 & H2); (split; [exact H1|]).
  - destruct H2 as (p' & HB' & H2). pose proof (becomes_len _ _ _ HB') as L'. destruct HB' as (_ & _ & V'). intros b Hb. apply (passes_same p'); [congruence|congruence|auto].
  - exists p. split; [split; auto|exact H2].
Qed.
Lemma sieved_factor : forall z l, 53 <= l -> ~ has_small_factor l z -> unsieved z.
Proof.
  intros z l Hl H q Hq D. apply H. apply wheel_primes_are in Hq. destruct Hq as [Pq Lq]. exists q. split; [auto|]. split; [destruct (limb64 c); lia|auto].
Qed.

Lemma search_loop_exact : forall k bases rx mb s0 s1 p w x a, mp_ok p -> w1_ok w (mpval p) x a -> mpval p <= a <= mpval p + 1 ->
  2 <= nlimbs p -> gcd_len_ok (LB * nlimbs p) -> a + Z.of_nat k * wheel_primorial <= 256 ^ mp_len p -> room_for p (a + Z.of_nat k * wheel_primorial) ->
  screen_limit p < a -> test_buffers p rx mb s0 s1 -> (forall b, In b bases -> residue_buf p b) ->
  yields (prime_search k bases rx mb s0 s1 p w) (fun r => match r with
    | Some p' => becomes p p' (mpval p') /\ a <= mpval p' < a + Z.of_nat k * wheel_primorial /\ taken_for_prime p bases (mpval p') /\
                 forall q, a <= q < mpval p' -> ~ taken_for_prime p bases q
    | None => forall q, a <= q < a + Z.of_nat k -> ~ taken_for_prime p bases q
    end).
Proof.
  induction k as [|k IH]; intros bases rx mb s0 s1 p w x a Hp Hw Ha HNL HGL HC HRM HSL HT HBs; cbn [prime_search].
  - apply yields_ret. intros q H. lia.
  - pose proof (screen_limit_min p HNL) as SL. pose proof prim_rng as PR. pose proof B_pos as BP. pose proof LB_pos as LP.
    pose proof (nlimbs_spec p) as NLS. assert (LL : LB < mp_len p) by nia.
    assert (RB : B < 256 ^ mp_len p).
    { unfold B, W. rewrite Z.pow_mul_r by lia. apply Z.pow_lt_mono_r; lia. }
    eapply yields_bind; [apply wp_yields with (P := fun '(d, w') => unsieved (mpval p + d) /\ a <= mpval p + d /\ (forall z, a <= z < mpval p + d -> ~ unsieved z) /\
       w1_ok w' (mpval p + d) (mpval p + d) (mpval p + d + 1)); eapply wp_lvl1_next; [exact Hw|]; intros; auto|].
    intros [d w'] (U1 & U2 & U3 & Hw').
    assert (DB : mpval p + d < a + wheel_primorial).
    { destruct (unsieved_next a) as (z & Hz & Uz). destruct (Z.lt_ge_cases z (mpval p + d)) as [L|L]; [|lia]. exfalso. apply (U3 z); auto. lia. }
    assert (NR : mpval p + d < 256 ^ mp_len p).
    { rewrite Nat2Z.inj_succ in HC. assert (0 <= Z.of_nat k * wheel_primorial) by nia. nia. }
    eapply yields_bind; [apply (C17_add_limb c p d Hp); lia|]. intros [p1 cy] (BP1 & _).
    pose proof (val_pos p Hp) as VP. rewrite Z.mod_small in BP1 by lia.
    pose proof BP1 as (OP1 & SP1 & VP1). pose proof (becomes_len _ _ _ BP1) as L1. pose proof (becomes_nl _ _ _ BP1) as N1.
    assert (SL1 : screen_limit p1 = screen_limit p) by (unfold screen_limit; rewrite N1; auto).
    rewrite Nat2Z.inj_succ in HC, HRM. assert (KW : 0 <= Z.of_nat k * wheel_primorial) by nia.
    assert (RM1 : room_for p1 (mpval p1)) by (apply (room_mono p p1 _ (a + Z.succ (Z.of_nat k) * wheel_primorial)); [auto|nia|auto]).
    assert (T1 : test_buffers p1 rx mb s0 s1).
    { destruct HT as (X1 & X2 & X3). split; [|split; [|rewrite N1; auto]]; unfold residue_buf in *; rewrite L1; auto. }
    assert (B1 : forall b, In b bases -> residue_buf p1 b).
    { intros b Hb. specialize (HBs b Hb). unfold residue_buf in *; rewrite L1; auto. }
    pose proof HT as (_ & _ & OS0 & OS1 & LS0 & LS1).
    destruct (C38_screen c p1 s0 s1) as (sb & HSb & HSi); auto; try (rewrite N1; auto). { rewrite L1. lia. }
    eapply yields_bind; [eapply yields_returns with (P := fun x => x = Ok (choice sb)); [exact HSb|reflexivity]|]. intros ? ->.
    eapply yields_bind; [apply unwrap_ok with (P := fun x => x = choice sb); reflexivity|]. intros ? ->.
    rewrite choice_bool. rewrite SL1, VP1 in HSi.
    assert (EM : exp_modulus_any p1).
    { split; [auto|]. split; [rewrite VP1; apply unsieved_odd; auto|]. split; [lia|].
      rewrite L1. unfold gcd_len_ok in HGL. assert (2 * LB <= LB * nlimbs p) by nia. lia. }
    eapply yields_bind with (P := fun good => good = true <-> taken_for_prime p bases (mpval p + d)).
    { pose proof (taken_becomes p bases p1 _ BP1) as TB. destruct sb.
      - apply yields_ret. split; [discriminate|]. intros X. apply TB in X. destruct X as [X _]. exfalso. apply X, HSi. reflexivity.
      - eapply yields_mono; [apply all_rounds_exact with (P := fun b => mr_passes p1 (mpval b))|].
        + intros b Hb. apply probable_prime_value; auto; lia.
        + intros r E. rewrite E, TB. split; [|tauto]. intros X. split; [|exact X]. intros Y. apply HSi in Y. discriminate Y. }
    intros good HG.
    assert (NS : forall q, a <= q -> taken_for_prime p bases q -> mpval p + d <= q).
    { intros q Hle [Hq _]. destruct (Z.le_gt_cases (mpval p + d) q) as [|G]; auto. exfalso. apply (U3 q); [lia|]. apply (sieved_factor q (screen_limit p)); auto. }
    destruct good.
    + apply yields_ret. rewrite VP1. split; [exact BP1|]. split; [rewrite Nat2Z.inj_succ; nia|]. split; [apply HG; reflexivity|].
      intros q Hq T. specialize (NS q ltac:(lia) T). lia.
    + assert (NP : ~ taken_for_prime p bases (mpval p + d)) by (intros X; apply HG in X; discriminate X).
      assert (RS : yields (prime_search k bases rx mb s0 s1 p1 w') (fun r => match r with
        | Some p' => becomes p1 p' (mpval p') /\ mpval p + d + 1 <= mpval p' < mpval p + d + 1 + Z.of_nat k * wheel_primorial /\ taken_for_prime p1 bases (mpval p') /\
                     forall q, mpval p + d + 1 <= q < mpval p' -> ~ taken_for_prime p1 bases q
        | None => forall q, mpval p + d + 1 <= q < mpval p + d + 1 + Z.of_nat k -> ~ taken_for_prime p1 bases q
        end)).
      { apply IH with (x := mpval p + d); auto; try (rewrite ?N1, ?L1, ?SL1; auto; lia).
        - rewrite VP1. auto.
        - apply (room_mono p p1 _ (a + Z.succ (Z.of_nat k) * wheel_primorial)); [auto|nia|auto]. }
      assert (T1' : forall q, taken_for_prime p bases q <-> taken_for_prime p1 bases q).
      { intros q. unfold taken_for_prime. rewrite SL1. split; intros (X & p2 & (Y1 & Y2 & Y3) & Z2); (split; [exact X|]); exists p2; (split; [|exact Z2]); (split; [exact Y1|]); (split; [|exact Y3]);
          destruct SP1 as [K M], Y2 as [K2 M2]; split; congruence. }
      assert (NQ : forall q, a <= q -> taken_for_prime p bases q -> mpval p + d + 1 <= q).
      { intros q Hle T. pose proof (NS q Hle T). destruct (Z.eq_dec q (mpval p + d)) as [->|]; [contradiction|lia]. }
      eapply yields_mono; [exact RS|]. intros [p'|] H.
      * destruct H as (H1 & H2 & H3 & H4). split; [|split; [rewrite Nat2Z.inj_succ; nia|split; [apply T1'; auto|]]].
        -- destruct H1 as (X1 & X2 & X3). split; [auto|]. split; [eapply shape_trans; eauto|auto].
        -- intros q Hq T. pose proof (NQ q ltac:(lia) T). apply (H4 q); [lia|]. apply T1'. auto.
      * intros q Hq T. pose proof (NQ q ltac:(lia) T). apply (H q); [lia|]. apply T1'. auto.
Qed.

Lemma search_exact : forall n k bases rx mb s0 s1, mp_ok n -> 2 <= nlimbs n -> gcd_len_ok (LB * nlimbs n) ->
  mpval n + Z.of_nat k * wheel_primorial <= 256 ^ mp_len n -> room_for n (mpval n + Z.of_nat k * wheel_primorial) -> screen_limit n < mpval n -> test_buffers n rx mb s0 s1 -> (forall b, In b bases -> residue_buf n b) ->
  yields (let! w := lvl1_start_geq_than n in prime_search k bases rx mb s0 s1 n w) (fun r => match r with
    | Some p => becomes n p (mpval p) /\ mpval n <= mpval p < mpval n + Z.of_nat k * wheel_primorial /\ taken_for_prime n bases (mpval p) /\
                forall q, mpval n <= q < mpval p -> ~ taken_for_prime n bases q
    | None => forall q, mpval n <= q < mpval n + Z.of_nat k -> ~ taken_for_prime n bases q
    end).
Proof.
  intros n k bases rx mb s0 s1 Hn HNL HGL HC HRM HSL HT HBs. pose proof (screen_limit_min n HNL) as SL.
  eapply yields_bind; [apply wp_yields with (P := fun w => w1_ok w (mpval n) (mpval n) (mpval n)); apply wp_lvl1_start; auto|].
  { intros w Hw. rewrite Z.max_l in Hw by lia. auto. }
  intros w Hw. apply search_loop_exact with (x := mpval n); auto. lia.
Qed.
Lemma digits_exist : forall b n v, 1 < b -> 0 <= v < b ^ Z.of_nat n -> exists l, digits_ok b l /\ zlen l = Z.of_nat n /\ digits_val b l = v.
Proof.
  intros b n. induction n as [|n IH]; intros v Hb Hv.
  - exists []. split; [constructor|]. split; [reflexivity|]. cbn [digits_val]. change (b ^ Z.of_nat 0) with 1 in Hv. lia.
  - rewrite Nat2Z.inj_succ, Z.pow_succ_r in Hv by lia. pose proof (Z.mod_pos_bound v b ltac:(lia)) as MB. pose proof (Z.div_mod v b ltac:(lia)) as DM.
    destruct (IH (v / b) Hb) as (l & O & L & V). { split; [apply Z.div_pos; lia|apply Z.div_lt_upper_bound; lia]. }
    exists (v mod b :: l). split; [constructor; auto|]. split; [rewrite zlen_cons; lia|]. cbn [digits_val]. rewrite V. lia.
Qed.
Lemma becomes_exists : forall n v, mp_ok n -> 0 <= v < 256 ^ mp_len n -> exists p, becomes n p v.
Proof.
  intros [l|l|l] v [O S] Hv; cbn [mp_len] in *.
  - destruct (digits_exist 256 (length l) v) as (x & X1 & X2 & X3); [lia|exact Hv|]. exists (BE (rev x)).
    assert (E : zlen (rev x) = zlen l) by (rewrite zlen_rev; exact X2).
    split; [split; [apply digits_ok_rev; auto|cbn [mp_len]; rewrite E; auto]|]. split; [split; [reflexivity|exact E]|]. cbn [mpval]. unfold be_val. rewrite rev_involutive. exact X3.
  - destruct (digits_exist 256 (length l) v) as (x & X1 & X2 & X3); [lia|exact Hv|]. exists (LE x).
    split; [split; [auto|cbn [mp_len]; change (zlen x = zlen l) in X2; rewrite X2; auto]|]. split; [split; [reflexivity|exact X2]|]. exact X3.
  - pose proof B_gt as BG. rewrite Z.mul_comm, Z.pow_mul_r, <- B_256' in Hv by (try apply zlen_nonneg; pose proof LB_pos; lia).
    destruct (digits_exist B (length l) v) as (x & X1 & X2 & X3); [lia|exact Hv|]. change (zlen x = zlen l) in X2. exists (NE x).
    split; [split; [exact X1|cbn [mp_len]; rewrite X2; auto]|]. split; [split; [reflexivity|cbn [mp_len]; rewrite X2; auto]|]. exact X3.
Qed.

Lemma search_room : forall n k bases rx mb s0 s1, mp_ok n -> 2 <= nlimbs n -> gcd_len_ok (LB * nlimbs n) ->
  (B + 1) * (mpval n + Z.of_nat k * wheel_primorial) <= B * mg_radix n ->
  mpval n + Z.of_nat k * wheel_primorial <= 256 ^ mp_len n -> room_for n (mpval n + Z.of_nat k * wheel_primorial) -> screen_limit n < mpval n -> test_buffers n rx mb s0 s1 ->
  (forall b, In b bases -> residue_buf n b /\ 0 < mpval b < mpval n) ->
  yields (let! w := lvl1_start_geq_than n in prime_search k bases rx mb s0 s1 n w) (fun r => match r with
    | Some p => becomes n p (mpval p) /\ mpval n <= mpval p /\ ~ has_small_factor (screen_limit n) (mpval p) /\
                (forall b, In b bases -> strong_probable_prime (mpval p) (mpval b)) /\ forall q, prime q -> mpval n <= q -> mpval p <= q
    | None => forall q, prime q -> mpval n <= q -> mpval n + Z.of_nat k <= q
    end).
Proof.
  intros n k bases rx mb s0 s1 Hn HNL HGL HCC HC HRM HSL HT HBs. pose proof (val_pos n Hn) as VN. pose proof B_pos as BP. pose proof prim_rng as PR. pose proof LB_pos as LP.
  assert (K0 : 0 <= Z.of_nat k * wheel_primorial) by nia. pose proof (screen_limit_min n HNL) as SL.
  set (m := mpval n + Z.of_nat k * wheel_primorial) in *.
  assert (ST : forall p q b, becomes n p q -> mpval n <= q <= m -> ~ has_small_factor (screen_limit n) q -> In b bases ->
    (mr_passes p (mpval b) <-> strong_probable_prime q (mpval b))).
  { intros p q b HB Hq HF Hb. pose proof (becomes_nl _ _ _ HB) as NL. pose proof (becomes_len _ _ _ HB) as L. destruct HB as (O & [SK _] & <-). destruct (HBs b Hb) as [[RO RL] _].
    apply passes_strong; [| | | |].
    - split; [auto|]. split; [|split; [lia|]].
      + apply unsieved_odd. apply sieved_factor with (l := screen_limit n); auto.
      + rewrite L. unfold gcd_len_ok in HGL. assert (2 * LB <= LB * nlimbs n) by nia. pose proof (nlimbs_spec n). lia.
    - lia.
    - apply (room_mono n p _ m); [auto|lia|auto].
    - split; [auto|]. rewrite L. auto.
    - apply carry_ok_test_fine; [lia|]. unfold mg_carry_ok. replace (mg_radix p) with (mg_radix n) by (unfold mg_radix; rewrite NL; auto). nia. }
  assert (TP : forall q, prime q -> mpval n <= q < m -> taken_for_prime n bases q).
  { intros q Pq Hq. assert (NF : ~ has_small_factor (screen_limit n) q).
    { intros (r & Pr & Lr & Dr). destruct (prime_div_prime r q Pr Pq Dr). lia. }
    split; [exact NF|]. destruct (becomes_exists n q Hn) as [p HB]; [lia|]. exists p. split; [exact HB|]. intros b Hb. apply (ST p q b); auto; [lia|].
    destruct (HBs b Hb) as [_ Vb]. apply prime_strong; auto; [lia|]. intros D. apply Z.divide_pos_le in D; lia. }
  eapply yields_mono; [apply search_exact; auto; intros b Hb; apply HBs; auto|]. fold m. intros [p|].
  - intros (H1 & H2 & H3 & H4). split; [auto|]. split; [lia|]. apply (taken_becomes n bases p (mpval p) H1) in H3. destruct H3 as [H3 H5]. split; [auto|]. split.
    + intros b Hb. apply (ST p (mpval p) b); auto. lia.
    + intros q Pq Hq. destruct (Z.le_gt_cases (mpval p) q) as [|G]; auto. exfalso. apply (H4 q); [lia|]. apply TP; auto. lia.
  - intros H q Pq Hq. destruct (Z.le_gt_cases (mpval n + Z.of_nat k) q) as [|G]; auto. exfalso. apply (H q); [lia|]. apply TP; auto. unfold m. nia.
Qed.
Lemma probable_prime_room : forall rx mb s0 s1 p base, exp_modulus p -> 2 < mpval p -> room_for p (mpval p) -> residue_buf p base -> test_buffers p rx mb s0 s1 ->
  yields (is_probable_prime rx mb s0 s1 p base) (fun b => b = true <-> strong_probable_prime (mpval p) (mpval base)).
Proof.
  intros rx mb s0 s1 p base (Hp & HO & HNL & HC & HU) P2 AL HB HT. eapply yields_mono; [apply probable_prime_fine; auto; split; auto|].
  intros b H. apply H, carry_ok_test_fine; auto. lia.
Qed.
(** Lengths not made of whole limbs leave the top byte of the radix free. *)
Lemma unaligned_room : forall n q, mp_len n mod LB <> 0 -> 0 <= q -> 257 * q <= 256 * 256 ^ mp_len n -> room_for n q.
Proof.
  intros n q HL Q H. right. pose proof (nlimbs_spec n) as NS. pose proof LB_pos as LP.
  assert (LT : mp_len n < nlimbs n * LB). { destruct (Z.eq_dec (mp_len n) (nlimbs n * LB)) as [E|]; [|lia]. exfalso. apply HL. rewrite E. apply Z.mod_mul. lia. }
  assert (L0 : 0 <= mp_len n) by (destruct n; cbn [mp_len]; try apply zlen_nonneg; apply Z.mul_nonneg_nonneg; [apply zlen_nonneg|lia]).
  assert (R : 256 * 256 ^ mp_len n <= mg_radix n).
  { unfold mg_radix. rewrite B_256', <- Z.pow_mul_r, <- Z.pow_succ_r by lia. apply Z.pow_le_mono_r; [lia|]. rewrite Z.mul_comm. lia. }
  assert (P : 0 < 256 ^ mp_len n) by (apply Z.pow_pos_nonneg; lia). set (L := 256 ^ mp_len n) in *. set (X := mg_radix n) in *.
  assert (q * (256 * q) <= q * X) by (apply Z.mul_le_mono_nonneg_l; [lia|nia]). nia.
Qed.
Lemma unaligned_fine : forall n q, mp_len n mod LB <> 0 -> 0 <= q -> 257 * q <= 256 * 256 ^ mp_len n -> room_for n q /\ (B + 1) * q <= B * mg_radix n.
Proof.
  intros n q HL Q H. split; [apply unaligned_room; auto|]. pose proof (nlimbs_spec n) as NS. pose proof LB_pos as LP. pose proof B_gt as BG.
  assert (LT : mp_len n < nlimbs n * LB). { destruct (Z.eq_dec (mp_len n) (nlimbs n * LB)) as [E|]; [|lia]. exfalso. apply HL. rewrite E. apply Z.mod_mul. lia. }
  assert (L0 : 0 <= mp_len n) by (destruct n; cbn [mp_len]; try apply zlen_nonneg; apply Z.mul_nonneg_nonneg; [apply zlen_nonneg|lia]).
  assert (R : 256 * 256 ^ mp_len n <= mg_radix n).
  { unfold mg_radix. rewrite B_256', <- Z.pow_mul_r, <- Z.pow_succ_r by lia. apply Z.pow_le_mono_r; [lia|]. rewrite Z.mul_comm. lia. }
  assert (P : 0 < 256 ^ mp_len n) by (apply Z.pow_pos_nonneg; lia). nia.
Qed.
End Facts.

Ltac pock f k := apply (pocklington _ f k 2); [reflexivity|auto|reflexivity|reflexivity|reflexivity|vm_compute; reflexivity|vm_compute; reflexivity].
Lemma prime_16417 : prime 16417.
Proof. apply (prime_trial _ 128); [reflexivity|reflexivity|lia|vm_compute; reflexivity]. Qed.
Lemma prime_9623 : prime 9623.
Proof. apply (prime_trial _ 98); [reflexivity|reflexivity|lia|vm_compute; reflexivity]. Qed.
Lemma missed_prime_prime : forall l64, prime (missed_prime l64).
Proof.
  intros [|]; unfold missed_prime.
  - pose proof prime_9623. assert (prime 18957311) by pock 9623 1970. assert (prime 151658489) by pock 18957311 8. assert (prime 282362324574871) by pock 151658489 1861830.
    assert (prime 503826379515677434635235093) by pock 282362324574871 1784325795852. pock 503826379515677434635235093 675396090312.
  - pose proof prime_16417. assert (prime 2429717) by pock 16417 148. assert (prime 34016039) by pock 2429717 14. assert (prime 4558149227) by pock 34016039 134. pock 4558149227 4046981166.
Qed.

(** The base -1, for limbs of [w] bits. *)
Definition missed_check (w N g s : Z) : bool :=
  let R := 2 ^ (w * 2) in
  emod w N g && (0 <=? s) && (N - 1 =? 2 ^ s * ((N - 1) / 2 ^ s)) && Z.odd ((N - 1) / 2 ^ s) &&
  negb (eoutcome w 2 N g (eprod w 2 N g (N - 1) ((R * R) mod N)) (R mod N) s (R mod N) (Z.to_nat (w * 2 - 1))).
Lemma missed_check_64 : missed_check 64 (missed_prime true) (newton (missed_prime true) 6) 3 = true.
Proof. vm_compute. reflexivity. Qed.
Lemma missed_check_32 : missed_check 32 (missed_prime false) (newton (missed_prime false) 5) 1 = true.
Proof. vm_compute. reflexivity. Qed.

Lemma missed_fails : forall (c : cfg) p, mp_ok p -> mp_len p = 2 * LB -> mpval p = missed_prime (limb64 c) -> ~ mr_passes p (mpval p - 1).
Proof.
  intros c p Hp L V (g & s & d & H1 & H2 & H3 & H4 & H5).
  assert (NL : nlimbs p = 2) by (apply nlimbs_len; auto).
  assert (E : exists g s, missed_check W (mpval p) g s = true).
  { rewrite V. unfold W, LB. destruct (limb64 c); [exists (newton (missed_prime true) 6), 3; exact missed_check_64|exists (newton (missed_prime false) 5), 1; exact missed_check_32]. }
  destruct E as (g' & s' & E). unfold missed_check in E. cbv zeta in E. repeat (apply andb_prop in E; let H := fresh "A" in destruct E as [E H]).
  rewrite <- B_eq in E, A4. rewrite Z.eqb_eq in A1, E. rewrite Z.leb_le in A2, A5. rewrite Z.ltb_lt in A4. rename A3 into C.
  assert (HG : neg_inv p g') by (split; [lia|exact E]). rewrite (neg_inv_unique p g' g C HG H1) in A.
  destruct (odd_part_unique s d s' ((mpval p - 1) / 2 ^ s')) as [-> _]; auto; [congruence|].
  pose proof (mpval_nonneg p Hp) as P0. assert (P1 : 0 < mpval p) by (destruct (Z.eq_dec (mpval p) 0) as [X|]; [rewrite X in C; discriminate C|lia]).
  rewrite eoutcome_eq, eprod_eq in H5. rewrite (Z.mod_small (mpval p - 1)) in H5 by lia.
  assert (ER : mg_radix p = 2 ^ (W * 2)) by (unfold mg_radix; rewrite NL, B_eq, <- Z.pow_mul_r by (pose proof W_pos; lia); reflexivity).
  rewrite ER, NL in H5. replace (8 * mp_len p - 1) with (W * 2 - 1) in H5 by (rewrite L; unfold W; ring).
  rewrite H5 in A. discriminate A.
Qed.

Lemma search_misses : forall (c : cfg) n k bases b rx mb s0 s1, mp_ok n -> mp_len n = 2 * LB -> mpval n = missed_prime (limb64 c) ->
  mpval n + Z.of_nat k * wheel_primorial <= mg_radix n -> test_buffers n rx mb s0 s1 -> (forall b, In b bases -> residue_buf n b) -> In b bases -> mpval b = mpval n - 1 ->
  prime (mpval n) /\
  yields (let! w := lvl1_start_geq_than n in prime_search k bases rx mb s0 s1 n w) (fun r => match r with Some p => mpval n < mpval p | None => True end).
Proof.
  intros c n k bases b rx mb s0 s1 Hn L V HC HT HBs Hb Vb. split; [rewrite V; apply missed_prime_prime|].
  assert (NL : nlimbs n = 2) by (apply nlimbs_len; auto). pose proof LB_pos as LP.
  assert (BIG : screen_limit n < mpval n).
  { rewrite V. unfold screen_limit. cbv zeta. rewrite NL. unfold LB. destruct (limb64 c); vm_compute; reflexivity. }
  assert (AL : mp_len n mod LB = 0) by (rewrite L; apply Z.mod_mul; lia). rewrite (aligned_radix n AL) in HC.
  eapply yields_mono; [apply search_exact; auto; [lia|rewrite NL; unfold LB, gcd_len_ok, UW; destruct (limb64 c), (usize64 c); vm_compute; reflexivity|left; exact AL]|].
  intros [p|]; [|auto]. intros (H1 & H2 & H3 & _). destruct (Z.eq_dec (mpval p) (mpval n)) as [E|]; [|lia]. exfalso.
  apply (taken_becomes n bases p (mpval p) H1) in H3. destruct H3 as [_ H3]. specialize (H3 b Hb). pose proof (becomes_len _ _ _ H1) as LE. destruct H1 as (O & _ & _).
  rewrite Vb, <- E in H3. revert H3. apply missed_fails; auto; congruence.
Qed.

(** * RSA keys *)
Definition key_check (r : rsa_numbers) : bool :=
  let l := Z.lcm (rsa_p r - 1) (rsa_q r - 1) in (2 <? rsa_p r) && (1 <? rsa_q r) && (0 <=? rsa_d r) && (rsa_d r <? l) && ((rsa_e r * rsa_d r) mod l =? 1).
Lemma key_check_ok : forall l64, key_check (rsa_wrong l64) = true.
Proof. intros [|]; vm_compute; reflexivity. Qed.
Lemma rsa_key_trip_wrong : forall (c : cfg) p lp q lq n n0 l l0 scr e s0 s1 s2 s3 o t e' ke kd m r r2 t1 t2,
  let w := rsa_wrong (limb64 c) in
  mp_ok p -> mp_ok q -> mpval p = rsa_p w -> mpval q = rsa_q w -> mp_ok n -> mp_len n = 2 * LB ->
  mp_ok n0 -> same_shape n n0 -> mpval n0 = mpval p -> mpval n = mpval p * mpval q ->
  mp_len p = mp_len q -> 0 < lp <= mp_len p -> 0 < lq <= mp_len q -> lp <= mp_len n -> mpval p < 256 ^ lp -> mpval q < 256 ^ lq -> gcd_len_ok (mp_len p) ->
  mp_ok l -> mp_ok l0 -> same_shape l l0 -> mpval l = Z.lcm (mpval p - 1) (mpval q - 1) -> mp_ok scr -> kind_of scr = kind_of q ->
  lp + lq <= mp_len l -> lp + lq <= mp_len scr ->
  (kind_of q = KNE -> (lp + lq) mod LB = 0 /\ lp + lq + (ct_mp_limbs_align_len (Z.max lp lq) - Z.max lp lq) <= mp_len l) ->
  mp_ok e -> mpval e = rsa_e w -> mut_compat e l -> scratch_ok l s0 -> scratch_ok l s1 -> scratch_ok l s2 -> scratch_ok l s3 -> gcd_len_ok (LB * nlimbs l) ->
  mpval l = o * 2 ^ t -> Z.odd o = true -> 0 <= t -> o <= B ^ (nlimbs l - 1) ->
  liftable (mpval e) (8 * mp_len l - 1) -> liftable o (8 * mp_len l - 1) ->
  mp_ok e' -> mpval e' = mpval e -> 8 * mp_len e' <= ke -> 8 * mp_len e <= kd ->
  residue_buf n m -> mpval m = mpval n - 2 -> result_buf n r -> result_buf n r2 -> exp_scratch n t1 -> exp_scratch n t2 ->
  (prime (mpval p) /\ prime (mpval q) /\ mpval p <> mpval q /\ Z.gcd (mpval l) (mpval e) = 1) /\
  yields (let! '(n', d) := rsa_key p lp q lq n0 l0 scr e (s0, s1, s2, s3) in
          let! '(e1, x, _, _) := ct_exp_mod_odd_mp_mp r m n' e' ke t1 in
          let! '(e2, y, _, _) := ct_exp_mod_odd_mp_mp r2 x n' d kd t2 in ret (e1, e2, y))
    (fun '(e1, e2, y) => e1 = Ok tt /\ e2 = Ok tt /\ mp_ok y /\ mpval y <> mpval m).
Proof.
  intros c p lp q lq n n0 l l0 scr e s0 s1 s2 s3 o t e' ke kd m r r2 t1 t2 w Hp Hq Vp Vq Hn LN Hn0 SN VN0 VN LPQ H1 H2 H3 H4 H5 H6 Hl Hl0 SL VL Hs Ks H7 H8 H9
    He Ve MC S0 S1 S2 S3 GL EO OO T0 OB LE LO He' Ve' Ke Kd Rm Vm Br Br2 T1 T2.
  pose proof (key_check_ok (limb64 c)) as CH. fold w in CH. pose proof (rsa_wrong_primes (limb64 c)) as [PP PQ]. fold w in PP, PQ.
  assert (NE : rsa_p w <> rsa_q w) by (unfold w; destruct (limb64 c); vm_compute; congruence).
  unfold key_check in CH. cbv zeta in CH. rewrite <- Vp, <- Vq, <- VL in CH. repeat (apply andb_prop in CH; let H := fresh "A" in destruct CH as [CH H]).
  rewrite Z.eqb_eq in A. rewrite Z.ltb_lt in A0, A2, CH. rewrite Z.leb_le in A1.
  assert (GE : Z.gcd (mpval l) (mpval e) = 1).
  { rewrite Z.gcd_comm. apply Zgcd_1_rel_prime, bezout_rel_prime. pose proof (Z.div_mod (rsa_e w * rsa_d w) (mpval l)) as D. rewrite A in D.
    apply Bezout_intro with (u := rsa_d w) (v := - (rsa_e w * rsa_d w / mpval l)). rewrite Ve. lia. }
  split. { split; [congruence|]. split; [congruence|]. split; [congruence|exact GE]. }
  pose proof (val_pos e' He') as V1. pose proof (mp_len_nonneg e') as L1. pose proof (mp_len_nonneg e) as L2.
  assert (POW : forall x k, 0 <= x -> 8 * x <= k -> 256 ^ x <= 2 ^ k).
  { intros x k X1 X2. replace 256 with (2 ^ 8) by reflexivity. rewrite <- Z.pow_mul_r by lia. apply Z.pow_le_mono_r; lia. }
  pose proof (POW _ _ L1 Ke) as K1. pose proof (POW _ _ L2 Kd) as K2. clear POW.
  eapply yields_bind; [apply (rsa_key_correct p lp q lq n n0 l l0 scr e s0 s1 s2 s3 o t); auto|].
  intros [n' d] (-> & Od & (_ & LD) & DR & DE). rewrite <- VL in DR, DE.
  assert (EDD : mpval d = rsa_d w).
  { assert (L0 : 1 < mpval l) by (destruct (Z.eq_dec (mpval l) 1) as [X|]; [rewrite X, Z.mod_1_r in A; discriminate A|lia]).
    rewrite (Z.mod_small 1) in DE by lia. rewrite Ve in DE.
    rewrite <- (Z.mod_small (mpval d) (mpval l)), <- (Z.mod_small (rsa_d w) (mpval l)) by lia.
    transitivity ((rsa_d w * (rsa_e w * mpval d)) mod mpval l).
    - replace (rsa_d w * (rsa_e w * mpval d)) with (rsa_e w * rsa_d w * mpval d) by ring. rewrite <- Zmult_mod_idemp_l, A, Z.mul_1_l. reflexivity.
    - rewrite <- Zmult_mod_idemp_r, DE, Z.mul_1_r. reflexivity. }
  pose proof (val_pos d Od) as V2. rewrite LD in V2.
  clear A DE EO GE. apply (rsa_round_trip_wrong c n m e' ke d kd r r2 t1 t2); auto; fold w; lia.
Qed.
