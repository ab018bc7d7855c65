(** Proofs about testing and searching for primes (ThmApp2.v). *)
From Coq Require Import ZArith Znumtheory List Bool Lia.
Require Import Verif.Spec Verif.Base Verif.Monad Verif.Wp Verif.ModelLimb Verif.ThmLimb Verif.LimbFacts Verif.ModelBuf Verif.SpecBuf Verif.BufFacts Verif.BufProofs
  Verif.ModelAdd Verif.ModelDiv Verif.SpecDiv Verif.ModelMont Verif.SpecMont Verif.SpecEuclid Verif.ModelEuclid Verif.ModelLcm Verif.ModelInv Verif.SpecInv Verif.ModelMul Verif.ModelPrime Verif.SpecPrime Verif.ModelSieve Verif.SpecSieve
  Verif.SieveFacts Verif.SieveProofs Verif.SpecApp Verif.SpecApp2 Verif.ThmAdd Verif.ThmMul Verif.ThmLcm Verif.ThmInvAny Verif.ThmDiv Verif.ThmMont Verif.ThmPrime Verif.MontProofs Verif.PrimeFacts2 Verif.SpecSteps Verif.InvOddFacts4 Verif.MontFine Verif.AppProofs Verif.AppFine.
Import ListNotations.
Open Scope Z_scope.

Section Facts.
Context {c : cfg}.

Lemma yields_returns : forall A (m : M A) a (P : A -> Prop), returns m a -> P a -> yields m P.
Proof. intros. exists a. auto. Qed.
Lemma unwrap_ok : forall A E (a : A) (P : A -> Prop), P a -> yields (unwrap (@Ok A E a)) P.
Proof. intros. apply yields_ret. auto. Qed.
Lemma choice_bool : forall b, negb (lc_unwrap (choice b) =? 0) = b.
Proof. intros b. change (choice b) with (chc b). rewrite lc_unwrap_chc. destruct b; reflexivity. Qed.

Lemma aligned_room : forall n r, mp_len n mod LB = 0 -> mp_len n <= mp_len r -> mg_room r n.
Proof. intros n r A L. left. split; auto. Qed.
Lemma aligned_radix : forall n, mp_len n mod LB = 0 -> mg_radix n = 256 ^ mp_len n.
Proof.
  intros n A. unfold mg_radix, nlimbs, ct_mp_nlimbs. pose proof LB_pos as LP. pose proof (mp_len_nonneg n) as L0.
  assert (LN0 : LB <> 0) by lia. pose proof (Z.div_mod (mp_len n) LB LN0) as D. rewrite A, Z.add_0_r in D. set (k := mp_len n / LB) in *.
  assert (0 <= k) by (apply Z.div_pos; lia).
  replace ((mp_len n + LB - 1) / LB) with k.
  - rewrite D. unfold B, W. change 256 with (2 ^ 8). rewrite <- !Z.pow_mul_r by lia. f_equal. lia.
  - apply Z.div_unique with (LB - 1); lia.
Qed.

Lemma probable_prime_any : forall rx mb s0 s1 p base, exp_modulus_any p -> 2 < mpval p -> mp_len p mod LB = 0 -> residue_buf p base -> test_buffers p rx mb s0 s1 ->
  yields (is_probable_prime rx mb s0 s1 p base) (fun b => test_fine p (mpval base) -> (b = true <-> strong_probable_prime (mpval p) (mpval base))).
Proof.
  intros rx mb s0 s1 p base (Hp & HO & HNL & HU) P2 AL HB (HRX & HMB & HS0 & HS1 & L0 & L1).
  pose proof HRX as (ORX & LRX). pose proof HMB as (OMB & LMB). pose proof HB as (OB & LBs). pose proof LB_pos as LP. pose proof B_pos as BP.
  assert (PL : 0 < mp_len p). { destruct (Z.eq_dec (mp_len p) 0) as [E|E]; [|pose proof (mp_len_nonneg p); lia]. pose proof (val_pos p Hp) as V. rewrite E in V. cbn in V. lia. }
  unfold is_probable_prime.
  destruct (proj1 (C25_new c p None Hp ltac:(cbn; lia)) ltac:(cbn; lia)) as (d & Hd).
  eapply yields_bind; [eapply yields_returns with (P := fun x => x = Ok d); [exact Hd|reflexivity]|]. intros ? ->.
  eapply yields_bind; [apply unwrap_ok with (P := fun x => x = d); reflexivity|]. intros ? ->.
  assert (DF : divisor_for d (mpval p)) by (exists p, None; split; [auto|]; split; [cbn; lia|]; split; [auto|cbn; lia]).
  eapply yields_bind; [apply (C25_mod c None base d (mpval p)); [split; [auto|cbn; auto]|exact DF]|].
  intros [uh b1] (OU & SB & OS & VB). destruct uh as [uh|]; [destruct OS|]. destruct OU as [OB1 _]. unfold uval, uhval in VB. rewrite !Z.mul_0_r, !Z.add_0_r in VB.
  assert (RB1 : residue_buf p b1). { split; [auto|]. destruct SB as [K L]. rewrite K, L. auto. }
  assert (PP : 0 < mpval p) by lia.
  pose proof (Z.mod_pos_bound (mpval base) (mpval p) PP) as MB. rewrite <- VB in MB.
  eapply yields_bind; [apply (proj1 (C31_radix2 c rx p ORX Hp)); [auto|apply result_buf_fits; auto|auto]|].
  intros [e rx2] (-> & BRX). pose proof (residue_becomes _ _ _ _ HRX BRX) as RRX. pose proof BRX as (ORX2 & _ & VRX).
  eapply yields_bind; [apply unwrap_ok with (P := fun _ => True); auto|]. intros _ _.
  eapply yields_bind; [apply (proj1 (C29_neg_inv c p Hp)); auto|]. intros gr (g & -> & HG).
  eapply yields_bind; [apply unwrap_ok with (P := fun x => x = g); reflexivity|]. intros ? ->.
  set (R := mg_radix p) in *.
  assert (RP : 0 < R). { unfold R, mg_radix. apply Z.pow_pos_nonneg; [lia|]. unfold nlimbs in *. lia. }
  pose proof (Z.mod_pos_bound (R * R) (mpval p) PP) as MR. rewrite <- VRX in MR.
  assert (Q0 : 0 <= mpval p) by lia.
  destruct (residue_buf_compat p b1 RB1 ltac:(lia) Hp) as [CB1 CB2].
  destruct (residue_buf_compat p rx2 RRX ltac:(lia) Hp) as [CR1 CR2].
  assert (LRX2 : mp_len p <= mp_len rx2) by (destruct RRX as (_ & [E|(_ & E)]); lia).
  assert (LMB' : mp_len p <= mp_len mb) by (destruct LMB as [E|(_ & E)]; lia).
  eapply yields_bind; [apply (C31_to_form_exact c mb b1 p g rx2); auto; [apply result_buf_fits; auto|lia|lia|apply aligned_room; auto]|].
  intros [e mb1] (-> & vm & BMB & RVM & EVM). pose proof (residue_becomes _ _ _ _ HMB BMB) as RMB. pose proof BMB as (OMB1 & _ & VMB). fold R in EVM.
  eapply yields_bind; [apply unwrap_ok with (P := fun _ => True); auto|]. intros _ _.
  eapply yields_bind; [apply (C29_redc_partial c rx2 p g); auto|]; [| |].
  { left. assert (LB <= mp_len p) by (pose proof (nlimbs_spec p); nia). destruct RRX as (_ & [E|(K & E)]); lia. }
  { fold R. nia. }
  intros [e rx3] (-> & v & BR3 & HRV). pose proof (residue_becomes _ _ _ _ RRX BR3) as RR3. pose proof BR3 as (OR3 & _ & VR3).
  eapply yields_bind; [apply unwrap_ok with (P := fun _ => True); auto|]. intros _ _.
  assert (EV : v = R mod mpval p).
  { apply (C29_reduced_unique c p (mpval rx2)); auto. split; [apply Z.mod_pos_bound; lia|]. fold R. rewrite VRX, Zmult_mod_idemp_l, Z.mod_mod by lia. reflexivity. }
  pose proof (Z.mod_pos_bound R (mpval p) PP) as MR3. rewrite <- EV, <- VR3 in MR3.
  pose proof RVM as MM. rewrite <- VMB in MM.
  destruct (residue_buf_compat p mb1 RMB ltac:(lia) Hp) as [CM1 CM2].
  destruct (residue_buf_compat p rx3 RR3 ltac:(lia) Hp) as [CX1 CX2].
  assert (LMB1 : mp_len p <= mp_len mb1) by (destruct RMB as (_ & [E|(_ & E)]); lia).
  assert (NX : nlimbs rx3 = nlimbs p).
  { destruct RR3 as (_ & [E|(K & E)]); [unfold nlimbs; rewrite E; auto|]. unfold nlimbs, ct_mp_nlimbs.
    assert (LN0 : LB <> 0) by lia. pose proof (Z.div_mod (mp_len p) LB LN0) as D. rewrite AL in D.
    assert (NL : mp_len rx3 mod LB = 0). { destruct rx3; try discriminate K. cbn. apply Z.mod_mul. lia. }
    pose proof (Z.div_mod (mp_len rx3) LB LN0) as D2. rewrite NL in D2. assert (mp_len rx3 / LB = mp_len p / LB) by nia. f_equal. lia. }
  assert (MS : forall s, nlimbs p <= zlen s -> mg_room (NE s) p).
  { intros s Ls. apply aligned_room; auto. cbn [mp_len]. pose proof (nlimbs_spec p). nia. }
  destruct (form_onto c p vm HO RVM) as [a0 Ea0]. fold R in Ea0.
  assert (exists a, vm = (a * R) mod mpval p /\ (vm = (mpval b1 * R) mod mpval p -> a = mpval base)) as (a & Ea & Eab).
  { destruct (Z.eq_dec vm ((mpval b1 * R) mod mpval p)) as [E|E]; [|exists a0; tauto]. exists (mpval base). split; auto. rewrite E, VB, Zmult_mod_idemp_l. reflexivity. }
  destruct (C39_miller_rabin_any c mb1 p rx3 s0 s1 a) as (b & HBr & HBi); auto; try lia.
  { rewrite VMB. exact Ea. }
  { rewrite VR3. exact EV. }
  eapply yields_bind; [eapply yields_returns with (P := fun x => x = Ok (choice b)); [exact HBr|reflexivity]|]. intros ? ->.
  eapply yields_bind; [apply unwrap_ok with (P := fun x => x = choice b); reflexivity|]. intros ? ->.
  apply yields_ret. rewrite choice_bool. intros [F1 F2]. rewrite <- (Eab (proj2 EVM (fine_not_lost _ _ _ ltac:(rewrite VB, VRX; exact F1)))). apply HBi. rewrite Eab; auto.
  apply EVM, fine_not_lost. rewrite VB, VRX. exact F1.
Qed.

Lemma carry_ok_test_fine : forall p a, 0 < mpval p -> mg_carry_ok p -> test_fine p a.
Proof.
  intros p a PP HC. split; [|apply carry_ok_exp_fine; auto].
  pose proof (Z.mod_pos_bound a (mpval p) PP) as MA. pose proof (Z.mod_pos_bound (mg_radix p * mg_radix p) (mpval p) PP) as MR. pose proof B_pos as BP.
  apply carry_ok_fine; try lia. unfold mg_carry_ok in HC. nia.
Qed.
Lemma probable_prime_correct : forall rx mb s0 s1 p base, exp_modulus p -> 2 < mpval p -> mp_len p mod LB = 0 -> residue_buf p base -> test_buffers p rx mb s0 s1 ->
  yields (is_probable_prime rx mb s0 s1 p base) (fun b => b = true <-> strong_probable_prime (mpval p) (mpval base)).
Proof.
  intros rx mb s0 s1 p base (Hp & HO & HNL & HC & HU) P2 AL HB HT. eapply yields_mono; [apply probable_prime_any; auto; split; auto|].
  intros b H. apply H, carry_ok_test_fine; auto. lia.
Qed.

Lemma all_rounds_any : forall (round : mp -> M bool) (F P : mp -> Prop) bases,
  (forall b, In b bases -> yields (round b) (fun r => F b -> (r = true <-> P b))) ->
  yields (all_rounds round bases) (fun r => (r = true -> forall b, In b bases -> F b -> P b) /\ ((forall b, In b bases -> F b /\ P b) -> r = true)).
Proof.
  intros round F P bases. induction bases as [|b bases IH]; intros H; cbn [all_rounds].
  - apply yields_ret. split; [intros _ b []|auto].
  - eapply yields_bind; [apply H; left; auto|]. intros r Hr. cbv beta in Hr. destruct r.
    + eapply yields_mono; [apply IH; intros; apply H; right; auto|]. intros r [E1 E2]. split.
      * intros ER b' [<-|I] HF; [apply Hr; auto|apply E1; auto].
      * intros A. apply E2. intros b' I. apply A. right. auto.
    + apply yields_ret. split; [discriminate|]. intros A. destruct (A b (or_introl eq_refl)) as [A1 A2]. apply Hr; auto.
Qed.

Lemma screen_limit_min : forall p, 2 <= nlimbs p -> 53 <= screen_limit p.
Proof.
  intros p H. unfold screen_limit. cbv zeta. assert (8 <= LB * nlimbs p). { unfold LB. destruct (limb64 c); lia. }
  destruct (Z.ltb_spec (LB * nlimbs p) 8); [lia|]. repeat match goal with |- context [if ?b then _ else _] => destruct b end; lia.
Qed.
Lemma unsieved_next : forall a, exists z, a <= z < a + wheel_primorial /\ unsieved z.
Proof.
  intros a. pose proof prim_rng as PR. set (P := wheel_primorial) in *.
  pose proof (Z.div_mod (a + P - 2) P ltac:(lia)) as D. pose proof (Z.mod_pos_bound (a + P - 2) P ltac:(lia)) as M.
  exists ((a + P - 2) / P * P + 1). split; [lia|]. apply unsieved_edge.
Qed.
Lemma unsieved_odd : forall z, unsieved z -> Z.odd z = true.
Proof.
  intros z U. destruct (Z.odd z) eqn:O; auto. exfalso. apply (U 2).
  - unfold wheel_primes. destruct (limb64 c); left; auto.
  - rewrite <- Z.negb_even in O. apply negb_false_iff in O. apply Z.even_spec in O. destruct O as [y ->]. exists y. ring.
Qed.
Lemma prime_not_wheel : forall q l, prime q -> 53 <= l -> l < q -> unsieved q.
Proof.
  intros q l Hq L1 L2. apply prime_unsieved; auto. intros I. apply wheel_primes_are in I. destruct (limb64 c); lia.
Qed.

Lemma search_loop : forall k bases rx mb s0 s1 p w x a, mp_ok p -> w1_ok w (mpval p) x a -> mpval p <= a <= mpval p + 1 ->
  2 <= nlimbs p -> mp_len p mod LB = 0 -> gcd_len_ok (LB * nlimbs p) -> a + Z.of_nat k * wheel_primorial <= mg_radix p ->
  screen_limit p < a -> test_buffers p rx mb s0 s1 -> (forall b, In b bases -> residue_buf p b /\ 0 < mpval b < a) ->
  yields (prime_search k bases rx mb s0 s1 p w) (fun r => match r with
    | Some p' => becomes p p' (mpval p') /\ a <= mpval p' < a + Z.of_nat k * wheel_primorial /\ ~ has_small_factor (screen_limit p) (mpval p') /\
                 (forall b, In b bases -> test_fine p' (mpval b) -> strong_probable_prime (mpval p') (mpval b)) /\
                 forall q, prime q -> a <= q -> candidate_fine p bases q -> mpval p' <= q
    | None => forall q, prime q -> a <= q -> candidate_fine p bases q -> a + Z.of_nat k <= q
    end).
Proof.
  induction k as [|k IH]; intros bases rx mb s0 s1 p w x a Hp Hw Ha HNL HAL HGL HC HSL HT HBs; cbn [prime_search].
  - apply yields_ret. intros q _ H _. lia.
  - pose proof (screen_limit_min p HNL) as SL. pose proof prim_rng as PR. pose proof B_pos as BP. pose proof LB_pos as LP.
    assert (LN : LB * nlimbs p = mp_len p).
    { unfold nlimbs, ct_mp_nlimbs. assert (LN0 : LB <> 0) by lia. pose proof (Z.div_mod (mp_len p) LB LN0) as D. rewrite HAL in D.
      replace (mp_len p + LB - 1) with (mp_len p / LB * LB + (LB - 1)) by lia. rewrite Z.div_add_l, (Z.div_small (LB - 1)) by lia. lia. }
    assert (RX : mg_radix p = 256 ^ mp_len p) by (apply aligned_radix; auto).
    assert (RB : B < 256 ^ mp_len p).
    { rewrite <- RX. unfold mg_radix. apply Z.lt_le_trans with (B ^ 2); [nia|]. apply Z.pow_le_mono_r; lia. }
    eapply yields_bind; [apply wp_yields with (P := fun '(d, w') => unsieved (mpval p + d) /\ a <= mpval p + d /\ (forall z, a <= z < mpval p + d -> ~ unsieved z) /\
       w1_ok w' (mpval p + d) (mpval p + d) (mpval p + d + 1)); eapply wp_lvl1_next; [exact Hw|]; intros; auto|].
    intros [d w'] (U1 & U2 & U3 & Hw').
    assert (DB : mpval p + d < a + wheel_primorial).
    { destruct (unsieved_next a) as (z & Hz & Uz). destruct (Z.lt_ge_cases z (mpval p + d)) as [L|L]; [|lia]. exfalso. apply (U3 z); auto. lia. }
    assert (NR : mpval p + d < mg_radix p).
    { rewrite Nat2Z.inj_succ in HC. assert (0 <= Z.of_nat k * wheel_primorial) by nia. nia. }
    eapply yields_bind; [apply (C17_add_limb c p d Hp); lia|]. intros [p1 cy] (BP1 & _).
    pose proof (val_pos p Hp) as VP. rewrite Z.mod_small in BP1 by (rewrite <- RX; lia).
    pose proof BP1 as (OP1 & SP1 & VP1). pose proof (becomes_len _ _ _ BP1) as L1. pose proof (becomes_nl _ _ _ BP1) as N1.
    assert (SL1 : screen_limit p1 = screen_limit p) by (unfold screen_limit; rewrite N1; auto).
    assert (RX1 : mg_radix p1 = mg_radix p) by (unfold mg_radix; rewrite N1; auto).
    assert (T1 : test_buffers p1 rx mb s0 s1).
    { destruct HT as (X1 & X2 & X3). split; [|split; [|rewrite N1; auto]]; unfold residue_buf in *; rewrite L1; auto. }
    assert (B1 : forall b, In b bases -> residue_buf p1 b /\ 0 < mpval b < a).
    { intros b Hb. destruct (HBs b Hb) as [X1 X2]. split; [unfold residue_buf in *; rewrite L1; auto|auto]. }
    pose proof HT as (_ & _ & OS0 & OS1 & LS0 & LS1).
    destruct (C38_screen c p1 s0 s1) as (sb & HSb & HSi); auto; try (rewrite N1; auto). { unfold nlimbs in HNL. rewrite L1. rewrite <- LN. unfold nlimbs. nia. }
    eapply yields_bind; [eapply yields_returns with (P := fun x => x = Ok (choice sb)); [exact HSb|reflexivity]|]. intros ? ->.
    eapply yields_bind; [apply unwrap_ok with (P := fun x => x = choice sb); reflexivity|]. intros ? ->.
    rewrite choice_bool. rewrite SL1, VP1 in HSi.
    assert (EM : exp_modulus_any p1).
    { split; [auto|]. split; [rewrite VP1; apply unsieved_odd; auto|]. split; [lia|].
      rewrite L1, <- LN. unfold gcd_len_ok in HGL. assert (2 * LB <= LB * nlimbs p) by nia. lia. }
    eapply yields_bind with (P := fun good => (good = true -> sb = false /\ forall b, In b bases -> test_fine p1 (mpval b) -> strong_probable_prime (mpval p1) (mpval b)) /\
        (sb = false -> (forall b, In b bases -> test_fine p1 (mpval b) /\ strong_probable_prime (mpval p1) (mpval b)) -> good = true)).
    { destruct sb.
      - apply yields_ret. split; discriminate.
      - eapply yields_mono; [apply all_rounds_any with (F := fun b => test_fine p1 (mpval b)) (P := fun b => strong_probable_prime (mpval p1) (mpval b))|].
        + intros b Hb. apply probable_prime_any; auto; [lia|rewrite L1; auto|apply B1; auto].
        + intros r [E1 E2]. split; [intros E; split; auto|intros _; auto]. }
    intros good [HG1 HG2].
    assert (NS : forall q, prime q -> a <= q -> mpval p + d <= q).
    { intros q Hq Hle. destruct (Z.le_gt_cases (mpval p + d) q) as [|G]; auto. exfalso. apply (U3 q); [lia|]. apply prime_not_wheel with (l := screen_limit p); auto. lia. }
    destruct good.
    + apply yields_ret. destruct (HG1 eq_refl) as [-> F]. rewrite VP1 in F |- *. split; [exact BP1|]. split; [rewrite Nat2Z.inj_succ; nia|]. split; [intros X; apply HSi in X; discriminate X|].
      split; [exact F|auto].
    + assert (NP : candidate_fine p bases (mpval p + d) -> ~ prime (mpval p + d)).
      { intros CF Hq. assert (X : false = true); [|discriminate X]. apply HG2.
        - destruct sb; auto. destruct (proj1 HSi eq_refl) as (q & Pq & Lq & Dq). destruct (prime_div_prime q (mpval p + d) Pq Hq Dq). lia.
        - intros b Hb. split; [apply (CF p1 b); auto|]. rewrite VP1. destruct (B1 b Hb) as [_ Vb].
          apply (prime_strong (mpval p + d) (mpval b)); auto; [lia|]. intros D. apply Z.divide_pos_le in D; lia. }
      assert (RS : yields (prime_search k bases rx mb s0 s1 p1 w') (fun r => match r with
        | Some p' => becomes p1 p' (mpval p') /\ mpval p + d + 1 <= mpval p' < mpval p + d + 1 + Z.of_nat k * wheel_primorial /\ ~ has_small_factor (screen_limit p1) (mpval p') /\
                     (forall b, In b bases -> test_fine p' (mpval b) -> strong_probable_prime (mpval p') (mpval b)) /\
                     forall q, prime q -> mpval p + d + 1 <= q -> candidate_fine p1 bases q -> mpval p' <= q
        | None => forall q, prime q -> mpval p + d + 1 <= q -> candidate_fine p1 bases q -> mpval p + d + 1 + Z.of_nat k <= q
        end)).
      { apply IH with (x := mpval p + d); auto; try (rewrite ?N1, ?L1, ?SL1, ?RX1; auto; lia).
        - rewrite VP1. auto.
        - intros b Hb. destruct (B1 b Hb). split; [auto|lia]. }
      assert (CF1 : forall q, candidate_fine p bases q -> candidate_fine p1 bases q).
      { intros q H p2 b (X1 & X2 & X3). apply H. split; [auto|]. split; [eapply shape_trans; eauto|auto]. }
      assert (NQ : forall q, prime q -> candidate_fine p bases q -> q <> mpval p + d) by (intros q Hq Hf ->; apply NP; auto).
      eapply yields_mono; [exact RS|]. intros [p'|] H.
      * destruct H as (H1 & H2 & H3 & H4 & H5). rewrite SL1 in H3. split; [|split; [rewrite Nat2Z.inj_succ; nia|split; [auto|split; [auto|]]]].
        -- destruct H1 as (X1 & X2 & X3). split; [auto|]. split; [eapply shape_trans; eauto|auto].
        -- intros q Hq Hle Hf. apply H5; auto. pose proof (NS q Hq Hle). pose proof (NQ q Hq Hf). lia.
      * intros q Hq Hle Hf. pose proof (NS q Hq Hle). pose proof (NQ q Hq Hf). assert (L : mpval p + d + 1 <= q) by lia. specialize (H q Hq L (CF1 q Hf)). lia.
Qed.

Lemma search_any : forall n k bases rx mb s0 s1, mp_ok n -> 2 <= nlimbs n -> mp_len n mod LB = 0 -> gcd_len_ok (LB * nlimbs n) ->
  mpval n + Z.of_nat k * wheel_primorial <= mg_radix n -> screen_limit n < mpval n -> test_buffers n rx mb s0 s1 ->
  (forall b, In b bases -> residue_buf n b /\ 0 < mpval b < mpval n) ->
  yields (let! w := lvl1_start_geq_than n in prime_search k bases rx mb s0 s1 n w) (fun r => match r with
    | Some p => becomes n p (mpval p) /\ mpval n <= mpval p < mpval n + Z.of_nat k * wheel_primorial /\ ~ has_small_factor (screen_limit n) (mpval p) /\
                (forall b, In b bases -> test_fine p (mpval b) -> strong_probable_prime (mpval p) (mpval b)) /\
                forall q, prime q -> mpval n <= q -> candidate_fine n bases q -> mpval p <= q
    | None => forall q, prime q -> mpval n <= q -> candidate_fine n bases q -> mpval n + Z.of_nat k <= q
    end).
Proof.
  intros n k bases rx mb s0 s1 Hn HNL HAL HGL HC HSL HT HBs. pose proof (screen_limit_min n HNL) as SL.
  eapply yields_bind; [apply wp_yields with (P := fun w => w1_ok w (mpval n) (mpval n) (mpval n)); apply wp_lvl1_start; auto|].
  { intros w Hw. rewrite Z.max_l in Hw by lia. auto. }
  intros w Hw. apply search_loop with (x := mpval n); auto. lia.
Qed.

Lemma search_correct : forall n k bases rx mb s0 s1, mp_ok n -> 2 <= nlimbs n -> mp_len n mod LB = 0 -> gcd_len_ok (LB * nlimbs n) ->
  (B + 1) * (mpval n + Z.of_nat k * wheel_primorial) <= B * mg_radix n -> screen_limit n < mpval n -> test_buffers n rx mb s0 s1 ->
  (forall b, In b bases -> residue_buf n b /\ 0 < mpval b < mpval n) ->
  yields (let! w := lvl1_start_geq_than n in prime_search k bases rx mb s0 s1 n w) (fun r => match r with
    | Some p => becomes n p (mpval p) /\ mpval n <= mpval p /\ ~ has_small_factor (screen_limit n) (mpval p) /\
                (forall b, In b bases -> strong_probable_prime (mpval p) (mpval b)) /\ forall q, prime q -> mpval n <= q -> mpval p <= q
    | None => forall q, prime q -> mpval n <= q -> mpval n + Z.of_nat k <= q
    end).
Proof.
  intros n k bases rx mb s0 s1 Hn HNL HAL HGL HC HSL HT HBs. pose proof (val_pos n Hn) as VN. pose proof B_pos as BP. pose proof prim_rng as PR.
  assert (K0 : 0 <= Z.of_nat k * wheel_primorial) by nia.
  assert (CF : forall p q, becomes n p q -> 0 < q <= mpval n + Z.of_nat k * wheel_primorial -> forall a, test_fine p a).
  { intros p q HB HQ a. pose proof (becomes_nl _ _ _ HB) as NL. destruct HB as (_ & _ & VP). apply carry_ok_test_fine; [lia|].
    unfold mg_carry_ok. replace (mg_radix p) with (mg_radix n) by (unfold mg_radix; rewrite NL; auto). nia. }
  pose proof (screen_limit_min n HNL) as SL.
  eapply yields_mono; [apply search_any; auto; nia|]. intros [p|]; cbv beta iota.
  - intros (H1 & H2 & H3 & H4 & H5). split; [auto|]. split; [lia|]. split; [auto|]. split.
    + intros b Hb. apply H4; auto. apply (CF p (mpval p)); auto. lia.
    + intros q Hq Hle. destruct (Z.le_gt_cases (mpval p) q) as [|G]; auto. apply H5; auto. intros p2 b HB _. apply (CF p2 q); auto. lia.
  - intros H q Hq Hle. destruct (Z.le_gt_cases (mpval n + Z.of_nat k) q) as [|G]; auto. apply H; auto. intros p2 b HB _. apply (CF p2 q); auto. nia.
Qed.

Lemma dec_correct : forall b, mp_ok b -> 0 < mpval b -> yields (ct_sub_mp_l b 1) (fun '(b', _) => becomes b b' (mpval b - 1)).
Proof.
  intros b Hb V. pose proof (val_pos b Hb) as VB. pose proof B_gt as BG.
  eapply yields_mono; [apply (C18_sub_limb c b 1 Hb); lia|]. intros [b' bw] (E & _). rewrite Z.mod_small in E by lia. exact E.
Qed.
Lemma lcm_one : forall a b, 1 < a -> 0 < b -> 1 < Z.lcm a b.
Proof.
  intros a b Ha Hb. pose proof (Z.divide_lcm_l a b) as D. pose proof (Z.lcm_nonneg a b) as N.
  assert (Z.lcm a b <> 0) by (rewrite Z.lcm_eq_0; lia). apply Z.divide_pos_le in D; lia.
Qed.

Lemma rsa_key_any : forall p lp q lq n n0 l l0 scr e s0 s1 s2 s3 o t,
  mp_ok p -> mp_ok q -> 2 < mpval p -> 1 < mpval q ->
  mp_ok n -> mp_ok n0 -> same_shape n n0 -> mpval n0 = mpval p -> mpval n = mpval p * mpval q ->
  mp_len p = mp_len q -> 0 < lp <= mp_len p -> 0 < lq <= mp_len q -> lp <= mp_len n -> mpval p < 256 ^ lp -> mpval q < 256 ^ lq -> gcd_len_ok (mp_len p) ->
  mp_ok l -> mp_ok l0 -> same_shape l l0 -> mpval l = Z.lcm (mpval p - 1) (mpval q - 1) -> mp_ok scr -> kind_of scr = kind_of q ->
  lp + lq <= mp_len l -> lp + lq <= mp_len scr ->
  (kind_of q = KNE -> (lp + lq) mod LB = 0 /\ lp + lq + (ct_mp_limbs_align_len (Z.max lp lq) - Z.max lp lq) <= mp_len l) ->
  mp_ok e -> mut_compat e l -> scratch_ok l s0 -> scratch_ok l s1 -> scratch_ok l s2 -> scratch_ok l s3 -> gcd_len_ok (LB * nlimbs l) ->
  mpval l = o * 2 ^ t -> Z.odd o = true -> 0 <= t -> residues_fit o (nlimbs l - 1) (mpval e) ->
  liftable (mpval e) (8 * mp_len l - 1) -> liftable o (8 * mp_len l - 1) -> Z.gcd (mpval l) (mpval e) = 1 ->
  yields (rsa_key p lp q lq n0 l0 scr e (s0, s1, s2, s3)) (fun '(n', d) =>
    n' = n /\ mp_ok d /\ same_shape e d /\ is_inverse (Z.lcm (mpval p - 1) (mpval q - 1)) (mpval e) (mpval d)).
Proof.
  intros p lp q lq n n0 l l0 scr e s0 s1 s2 s3 o t Hp Hq Vp Vq Hn Hn0 Sn Vn0 Vn LPQ Hlp Hlq Hlpn Bp Bq GL Hl Hl0 Sl Vl Hs Ks HL1 HL2 HK He MC S0 S1 S2 S3 GL2 El Oo Ht Bo Li1 Li2 G.
  unfold rsa_key. destruct Sn as [Kn Ln]. destruct Sl as [Kl Ll]. pose proof (val_pos n Hn) as NB.
  eapply yields_bind; [apply (C22_mul c n0 lp q); auto; lia|]. intros n' (On' & Sn' & Vn').
  assert (En : n' = n).
  { apply mp_inj; auto; [destruct Sn'; split; congruence|]. rewrite Vn', Vn0, Vn, (Z.mod_small (mpval p)) by (pose proof (val_pos p Hp); lia).
    apply Z.mod_small. rewrite <- Vn, Ln. lia. }
  subst n'. clear On' Sn' Vn'.
  eapply yields_bind; [apply (dec_correct p Hp); lia|]. intros [p1 ?] Bp1. pose proof Bp1 as (Op1 & Sp1 & Vp1). pose proof (becomes_len _ _ _ Bp1) as Lp1.
  eapply yields_bind; [apply (dec_correct q Hq); lia|]. intros [q1 ?] Bq1. pose proof Bq1 as (Oq1 & [Kq1 _] & Vq1). pose proof (becomes_len _ _ _ Bq1) as Lq1.
  eapply yields_bind; [apply (C37_lcm_partial c l0 p1 lp q1 lq scr); auto; try (rewrite ?Lp1, ?Lq1, ?Vp1, ?Vq1, ?Ll, ?Kq1; auto; lia); try congruence|].
  intros [[[[r l'] ?] ?] ?] (-> & (Ol' & Sl' & Vl') & _). rewrite Vp1, Vq1 in Vl'.
  assert (E : l' = l) by (apply mp_inj; auto; [destruct Sl'; split; congruence|congruence]). subst l'.
  eapply yields_bind; [apply unwrap_ok with (P := fun _ => True); auto|]. intros _ _.
  assert (L1 : 1 < mpval l) by (rewrite Vl; apply lcm_one; lia).
  eapply yields_bind; [apply (C36_inv_any_fits_partial c e l s0 s1 s2 s3 o t); auto|]. intros [[r d] ?] (-> & I & (Od & Sd & _) & _).
  eapply yields_bind; [apply unwrap_ok with (P := fun _ => True); auto|]. intros _ _.
  apply yields_ret. rewrite <- Vl. auto.
Qed.

Lemma spare_key : forall p q l o t, mp_ok l -> 2 < mpval p -> 1 < mpval q -> mpval l = Z.lcm (mpval p - 1) (mpval q - 1) -> mpval l = o * 2 ^ t -> 0 <= t ->
  o <= B ^ (nlimbs l - 1) -> forall x, residues_fit o (nlimbs l - 1) x.
Proof.
  intros p q l o t Hl Vp Vq Vl El Ht Bo x. assert (L1 : 1 < mpval l) by (rewrite Vl; apply lcm_one; lia). pose proof (Z.pow_pos_nonneg 2 t ltac:(lia) Ht) as PT.
  pose proof (mpval_bound_B l Hl) as VB. pose proof (nlimbs_nonneg l) as NN.
  apply spare_fit; [|split; [nia|auto]]. destruct (Z.eq_dec (nlimbs l) 0) as [E|E]; [rewrite E in VB; cbn in VB; lia|lia].
Qed.

Lemma rsa_key_correct : forall p lp q lq n n0 l l0 scr e s0 s1 s2 s3 o t,
  mp_ok p -> mp_ok q -> 2 < mpval p -> 1 < mpval q ->
  mp_ok n -> mp_ok n0 -> same_shape n n0 -> mpval n0 = mpval p -> mpval n = mpval p * mpval q ->
  mp_len p = mp_len q -> 0 < lp <= mp_len p -> 0 < lq <= mp_len q -> lp <= mp_len n -> mpval p < 256 ^ lp -> mpval q < 256 ^ lq -> gcd_len_ok (mp_len p) ->
  mp_ok l -> mp_ok l0 -> same_shape l l0 -> mpval l = Z.lcm (mpval p - 1) (mpval q - 1) -> mp_ok scr -> kind_of scr = kind_of q ->
  lp + lq <= mp_len l -> lp + lq <= mp_len scr ->
  (kind_of q = KNE -> (lp + lq) mod LB = 0 /\ lp + lq + (ct_mp_limbs_align_len (Z.max lp lq) - Z.max lp lq) <= mp_len l) ->
  mp_ok e -> mut_compat e l -> scratch_ok l s0 -> scratch_ok l s1 -> scratch_ok l s2 -> scratch_ok l s3 -> gcd_len_ok (LB * nlimbs l) ->
  mpval l = o * 2 ^ t -> Z.odd o = true -> 0 <= t -> o <= B ^ (nlimbs l - 1) ->
  liftable (mpval e) (8 * mp_len l - 1) -> liftable o (8 * mp_len l - 1) -> Z.gcd (mpval l) (mpval e) = 1 ->
  yields (rsa_key p lp q lq n0 l0 scr e (s0, s1, s2, s3)) (fun '(n', d) =>
    n' = n /\ mp_ok d /\ same_shape e d /\ is_inverse (Z.lcm (mpval p - 1) (mpval q - 1)) (mpval e) (mpval d)).
Proof.
  intros p lp q lq n n0 l l0 scr e s0 s1 s2 s3 o t Hp Hq Vp Vq Hn Hn0 Sn Vn0 Vn LPQ Hlp Hlq Hlpn Bp Bq GL Hl Hl0 Sl Vl Hs Ks HL1 HL2 HK He MC S0 S1 S2 S3 GL2 El Oo Ht Bo Li1 Li2 G.
  apply (rsa_key_any p lp q lq n n0 l l0 scr e s0 s1 s2 s3 o t); auto. apply (spare_key p q l o t); auto; lia.
Qed.

Lemma rsa_key_round_trip_any : forall p lp q lq n n0 l l0 scr e s0 s1 s2 s3 o t e' ke kd m r r2 t1 t2,
  mp_ok p -> mp_ok q -> prime (mpval p) -> prime (mpval q) -> mpval p <> mpval q -> 2 < mpval p ->
  mp_ok n0 -> same_shape n n0 -> mpval n0 = mpval p -> mpval n = mpval p * mpval q ->
  mp_len p = mp_len q -> 0 < lp <= mp_len p -> 0 < lq <= mp_len q -> lp <= mp_len n -> mpval p < 256 ^ lp -> mpval q < 256 ^ lq -> gcd_len_ok (mp_len p) ->
  mp_ok l -> mp_ok l0 -> same_shape l l0 -> mpval l = Z.lcm (mpval p - 1) (mpval q - 1) -> mp_ok scr -> kind_of scr = kind_of q ->
  lp + lq <= mp_len l -> lp + lq <= mp_len scr ->
  (kind_of q = KNE -> (lp + lq) mod LB = 0 /\ lp + lq + (ct_mp_limbs_align_len (Z.max lp lq) - Z.max lp lq) <= mp_len l) ->
  mp_ok e -> mut_compat e l -> scratch_ok l s0 -> scratch_ok l s1 -> scratch_ok l s2 -> scratch_ok l s3 -> gcd_len_ok (LB * nlimbs l) ->
  mpval l = o * 2 ^ t -> Z.odd o = true -> 0 <= t -> residues_fit o (nlimbs l - 1) (mpval e) ->
  liftable (mpval e) (8 * mp_len l - 1) -> liftable o (8 * mp_len l - 1) -> Z.gcd (mpval l) (mpval e) = 1 ->
  mp_ok e' -> mpval e' = mpval e -> 8 * mp_len e' <= ke -> 8 * mp_len e <= kd ->
  exp_modulus_any n -> residue_buf n m -> mpval m < mpval n -> result_buf n r -> result_buf n r2 -> exp_scratch n t1 -> exp_scratch n t2 ->
  exp_fine n (mpval m) e' ke -> (forall d, mp_ok d -> same_shape e d -> is_inverse (Z.lcm (mpval p - 1) (mpval q - 1)) (mpval e) (mpval d) -> exp_fine n (mpval m ^ expo e' ke mod mpval n) d kd) ->
  yields (let! '(n', d) := rsa_key p lp q lq n0 l0 scr e (s0, s1, s2, s3) in
          let! '(e1, x, _, _) := ct_exp_mod_odd_mp_mp r m n' e' ke t1 in
          let! '(e2, y, _, _) := ct_exp_mod_odd_mp_mp r2 x n' d kd t2 in ret (e1, e2, y))
    (fun '(e1, e2, y) => e1 = Ok tt /\ e2 = Ok tt /\ becomes r2 y (mpval m)).
Proof.
  intros p lp q lq n n0 l l0 scr e s0 s1 s2 s3 o t e' ke kd m r r2 t1 t2 Hp Hq Pp Pq NEQ Vp Hn0 Sn Vn0 Vn LPQ Hlp Hlq Hlpn Bp Bq GL Hl Hl0 Sl Vl Hs Ks HL1 HL2 HK He MC S0 S1 S2 S3 GL2 El Oo Ht Bo Li1 Li2 G
    He' Ve' Hke Hkd HM Hm Vm Hr Hr2 T1 T2 F1 F2.
  pose proof HM as (Hn & _). pose proof (prime_ge_2 _ Pq) as Q2.
  eapply yields_bind; [apply (rsa_key_any p lp q lq n n0 l l0 scr e s0 s1 s2 s3 o t); auto; lia|].
  intros [n' d] (-> & Od & [Kd Ld] & I).
  assert (L1 : 1 < Z.lcm (mpval p - 1) (mpval q - 1)) by (apply lcm_one; lia).
  assert (XP : forall b k, mp_ok b -> 8 * mp_len b <= k -> expo b k = mpval b).
  { intros b k Hb Hk. unfold expo. apply Z.mod_small. pose proof (val_pos b Hb). pose proof (mp_len_nonneg b).
    assert (256 ^ mp_len b <= 2 ^ k) by (change 256 with (2 ^ 8); rewrite <- Z.pow_mul_r by lia; apply Z.pow_le_mono_r; lia). lia. }
  assert (DV : (Z.lcm (mpval p - 1) (mpval q - 1) | expo e' ke * expo d kd - 1)).
  { rewrite (XP e' ke), (XP d kd), Ve' by (auto; lia). destruct I as [_ I]. apply Z.mod_divide; [lia|]. rewrite Zminus_mod, I, <- Zminus_mod. reflexivity. }
  assert (KP : 0 < expo e' ke * expo d kd).
  { rewrite (XP e' ke), (XP d kd), Ve' by (auto; lia). destruct I as [ID I]. pose proof (val_pos e He). rewrite (Z.mod_small 1) in I by lia.
    assert (mpval e * mpval d <> 0) by (intros E0; rewrite E0, Z.mod_0_l in I; lia). nia. }
  pose proof (mp_len_nonneg e'). pose proof (mp_len_nonneg e).
  specialize (F2 d Od (conj Kd Ld) I). apply (rsa_round_trip_any (mpval p) (mpval q)); auto; try lia.
  - eapply Z.divide_trans; [apply Z.divide_lcm_l|exact DV].
  - eapply Z.divide_trans; [apply Z.divide_lcm_r|exact DV].
Qed.
Lemma carry_ok_fine_exp : forall n x e k, 0 < mpval n -> mg_carry_ok n -> 0 <= x < mpval n -> exp_fine n x e k.
Proof.
  intros n x e k NP HC HX. split; [|apply carry_ok_exp_fine; auto]. pose proof (Z.mod_pos_bound (mg_radix n * mg_radix n) (mpval n) NP) as MR. pose proof B_pos as BP.
  apply carry_ok_fine; try lia. unfold mg_carry_ok in HC. nia.
Qed.
Lemma rsa_key_round_trip : forall p lp q lq n n0 l l0 scr e s0 s1 s2 s3 o t e' ke kd m r r2 t1 t2,
  mp_ok p -> mp_ok q -> prime (mpval p) -> prime (mpval q) -> mpval p <> mpval q -> 2 < mpval p ->
  mp_ok n0 -> same_shape n n0 -> mpval n0 = mpval p -> mpval n = mpval p * mpval q ->
  mp_len p = mp_len q -> 0 < lp <= mp_len p -> 0 < lq <= mp_len q -> lp <= mp_len n -> mpval p < 256 ^ lp -> mpval q < 256 ^ lq -> gcd_len_ok (mp_len p) ->
  mp_ok l -> mp_ok l0 -> same_shape l l0 -> mpval l = Z.lcm (mpval p - 1) (mpval q - 1) -> mp_ok scr -> kind_of scr = kind_of q ->
  lp + lq <= mp_len l -> lp + lq <= mp_len scr ->
  (kind_of q = KNE -> (lp + lq) mod LB = 0 /\ lp + lq + (ct_mp_limbs_align_len (Z.max lp lq) - Z.max lp lq) <= mp_len l) ->
  mp_ok e -> mut_compat e l -> scratch_ok l s0 -> scratch_ok l s1 -> scratch_ok l s2 -> scratch_ok l s3 -> gcd_len_ok (LB * nlimbs l) ->
  mpval l = o * 2 ^ t -> Z.odd o = true -> 0 <= t -> o <= B ^ (nlimbs l - 1) ->
  liftable (mpval e) (8 * mp_len l - 1) -> liftable o (8 * mp_len l - 1) -> Z.gcd (mpval l) (mpval e) = 1 ->
  mp_ok e' -> mpval e' = mpval e -> 8 * mp_len e' <= ke -> 8 * mp_len e <= kd ->
  exp_modulus n -> residue_buf n m -> mpval m < mpval n -> result_buf n r -> result_buf n r2 -> exp_scratch n t1 -> exp_scratch n t2 ->
  yields (let! '(n', d) := rsa_key p lp q lq n0 l0 scr e (s0, s1, s2, s3) in
          let! '(e1, x, _, _) := ct_exp_mod_odd_mp_mp r m n' e' ke t1 in
          let! '(e2, y, _, _) := ct_exp_mod_odd_mp_mp r2 x n' d kd t2 in ret (e1, e2, y))
    (fun '(e1, e2, y) => e1 = Ok tt /\ e2 = Ok tt /\ becomes r2 y (mpval m)).
Proof.
  intros p lp q lq n n0 l l0 scr e s0 s1 s2 s3 o t e' ke kd m r r2 t1 t2 Hp Hq Pp Pq NEQ Vp Hn0 Sn Vn0 Vn LPQ Hlp Hlq Hlpn Bp Bq GL Hl Hl0 Sl Vl Hs Ks HL1 HL2 HK He MC S0 S1 S2 S3 GL2 El Oo Ht Bo Li1 Li2 G
    He' Ve' Hke Hkd HM Hm Vm Hr Hr2 T1 T2.
  pose proof HM as (Hn & HO & HNL & HC & HU). pose proof (prime_ge_2 _ Pq) as Q2. pose proof (prime_ge_2 _ Pp) as P2.
  assert (NP : 0 < mpval n) by (rewrite Vn; nia).
  apply (rsa_key_round_trip_any p lp q lq n n0 l l0 scr e s0 s1 s2 s3 o t e' ke kd m r r2 t1 t2); auto.
  - apply (spare_key p q l o t); auto; lia.
  - split; auto.
  - pose proof Hm as (Om & _). pose proof (val_pos m Om). apply carry_ok_fine_exp; auto; lia.
  - intros d _ _ _. pose proof (Z.mod_pos_bound (mpval m ^ expo e' ke) (mpval n) NP). apply carry_ok_fine_exp; auto.
Qed.
End Facts.
