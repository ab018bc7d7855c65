(** Facts about euclid_impl.rs (ModelEuclid.v): inversion modulo odd numbers. *)
From Coq Require Import ZArith List Bool Lia Znumtheory.
Require Import Verif.Spec Verif.Base Verif.Monad Verif.Wp Verif.Wx Verif.ModelLimb Verif.LimbFacts Verif.LimbFacts2
  Verif.ModelBuf Verif.SpecBuf Verif.BufFacts Verif.BufFacts2 Verif.BufFacts3 Verif.UpFacts Verif.ModelCmp Verif.CmpFacts
  Verif.ModelAdd Verif.AddFacts Verif.AddFacts2 Verif.ModelMont Verif.SpecMont Verif.MontFacts Verif.MontFacts5 Verif.MontFacts6
  Verif.SpecEuclid Verif.ModelEuclid Verif.GcdBound Verif.SpecSteps Verif.EuclidFacts Verif.EuclidFacts2 Verif.EuclidFacts3 Verif.EuclidFacts4
  Verif.InvOddFacts Verif.InvOddFacts2 Verif.InvOddFacts3 Verif.InvOddFacts4.
Import ListNotations.
Open Scope Z_scope.

Section Facts.
Context {c : cfg}.

(** What the inversion leaves behind, see the proof of [wp_inv_impl]. *)
Definition inv_guard (n : mp) : Prop := mpval n <= B ^ (nlimbs n - 1).
Definition inv_fits (n : mp) (x : Z) : Prop := residues_fit (mpval n) (nlimbs n - 1) x.
Definition scratch_like (s s' : list Z) : Prop := mp_ok (NE s') /\ zlen s' = zlen s.

Lemma ne_like : forall s b, mp_ok b -> same_shape (NE s) b -> exists l, b = NE l /\ scratch_like s l.
Proof.
  intros s b Hb [K L]. destruct b as [l|l|l]; try discriminate. exists l. split; [auto|]. split; [auto|].
  pose proof LB_pos. cbn [mp_len] in L. apply Z.mul_cancel_r in L; lia || auto.
Qed.

Lemma ne_len : forall s, mp_len (NE s) = LB * nlimbs (NE s).
Proof.
  intros s. pose proof LB_pos. pose proof (nlimbs_spec (NE s)) as H1. pose proof (zlen_nonneg Z s). cbn [mp_len] in *.
  assert (nlimbs (NE s) = zlen s); [|lia]. destruct (Z.lt_trichotomy (nlimbs (NE s)) (zlen s)) as [L|[E|L]]; [|auto|].
  - pf (mul_le_l LB (nlimbs (NE s) + 1) (zlen s)). lia.
  - pf (mul_le_l LB (zlen s + 1) (nlimbs (NE s))). lia.
Qed.

Lemma inv_cases : forall N x r (Ff : Z), 1 < N -> 0 <= r < N -> Z.abs Ff = 1 -> (N | Ff - r * x) ->
  r <> 0 /\ is_inverse N x (if Ff <? 0 then N - r else r).
Proof.
  intros N x r Ff HN Hr HF [q Hq]. assert (R0 : r <> 0).
  { intros ->. assert (E : Ff = q * N) by lia. rewrite E, Z.abs_mul, (Z.abs_eq N) in HF by lia.
    destruct (Z.eq_dec q 0) as [->|]; [cbn in HF; lia|]. pf (mul_le_l N 1 (Z.abs q)). lia. }
  split; [auto|]. unfold is_inverse. rewrite (Z.mod_small 1) by lia. destruct (Z.ltb_spec Ff 0).
  - split; [lia|]. apply (mod_eq_of _ _ (x + q)); [lia|]. assert (Ff = -1) by lia. subst. lia.
  - split; [lia|]. apply (mod_eq_of _ _ (- q)); [lia|]. assert (Ff = 1) by lia. subst. lia.
Qed.

Lemma wp_dassert_gen : forall m (Q : unit -> Prop), (debug c = true -> wp m (fun b => b = true)) -> Q tt -> wp (dassert_m m) Q.
Proof.
  intros m Q Hm H. destruct (debug c) eqn:D; [apply wp_dassert_m; auto|]. unfold dassert_m. rewrite D. apply wp_ret. auto.
Qed.

Lemma wx_assoc : forall A C D e (m : M A) (f : A -> M C) (g : C -> M D) Q, wx e (bind (bind m f) g) Q -> wx e (bind m (fun a => bind (f a) g)) Q.
Proof. intros A C D e [t [a|]] f g Q; unfold wx, bind; cbn; auto. destruct (f a) as [t1 [b|]]; cbn; auto. Qed.
Lemma wx_dassert_b : forall e m (Q : unit -> Prop), (debug c = true -> wp m (fun b : bool => if b then Q tt else e = true)) -> (debug c = false -> Q tt) -> wx e (dassert_m m) Q.
Proof.
  intros e m Q H H'. unfold dassert_m. destruct (debug c); [|apply wx_ret; auto]. apply wx_bind. eapply wp_mono; [apply H; auto|]. cbn beta.
  intros [|] Hb; [apply wx_ret; auto|]. unfold wx. cbn. auto.
Qed.

(** What exactly comes out, and when. *)
Definition end_value (n f r : Z) : Z := if n =? 1 then 0 else if f <? 0 then n - r else r.
Lemma wx_inv_impl : forall ex result op0 n s0 s1 (Q : _ -> Prop), mp_ok result -> mp_ok op0 -> mp_ok n -> Z.odd (mpval n) = true ->
  len_compat n (mp_len result) -> mut_compat op0 n -> mp_ok (NE s0) -> mp_ok (NE s1) -> nlimbs n <= zlen s0 -> nlimbs n <= zlen s1 ->
  gcd_len_ok (LB * nlimbs n) ->
  (debug c = true -> Z.gcd (mpval n) (mpval op0) = 1 -> 1 < mpval n -> forall k d f, batches k (1, mpval n, mpval op0) = (d, f, 0) ->
     Z.abs f = 1 -> fst (residues (mpval n) (nlimbs n - 1) (mpval op0) k) = 0 -> ex = true) ->
  (forall res r' o' a b k d f, mp_ok r' -> same_shape result r' -> becomes op0 o' 0 -> scratch_like s0 a -> scratch_like s1 b ->
     batches k (1, mpval n, mpval op0) = (d, f, 0) -> Z.abs f = Z.gcd (mpval n) (mpval op0) ->
     (Z.gcd (mpval n) (mpval op0) <> 1 -> res = Err InvOperandsNotCoprime) ->
     (Z.gcd (mpval n) (mpval op0) = 1 -> res = Ok tt /\ mpval r' = end_value (mpval n) f (fst (residues (mpval n) (nlimbs n - 1) (mpval op0) k)) /\
        (debug c = true -> 1 < mpval n -> fst (residues (mpval n) (nlimbs n - 1) (mpval op0) k) <> 0)) ->
     Q (res, r', o', a, b)) ->
  wx ex (ct_inv_mod_odd_mp_mp_impl result op0 n s0 s1) Q.
Proof.
  intros ex result op0 n s0 s1 Q Or Oo On HO CR CO OS0 OS1 L0 L1 HU HD HQ. set (N := mpval n) in *. set (x := mpval op0) in *.
  destruct (odd_nlimbs n On HO) as [Hn NP]. fold N in NP. pose proof (mp_len_nonneg result) as Lr. pose proof (mp_len_nonneg n) as Ln.
  destruct (mut_nlimbs op0 n Oo On CO) as (NN & _). pose proof LB_pos as HLB. pose proof B_gt as HB. pose proof isl_0 as I0. pose proof isl_1 as I1.
  assert (C0 : len_compat n (mp_len (NE s0))) by (apply scratch_compat; auto). assert (C1 : len_compat n (mp_len (NE s1))) by (apply scratch_compat; auto).
  pose proof (mp_len_nonneg (NE s0)) as Ls0. pose proof (mp_len_nonneg (NE s1)) as Ls1. pose proof (mpval_bound n On) as BN. fold N in BN.
  unfold ct_inv_mod_odd_mp_mp_impl. apply wx_bind, wp_compat; auto. apply wx_mif; intros E; [discriminate|]. clear E.
  apply wx_assoc. apply wx_bind, wp_mut_compat; auto. apply wx_bind, wp_tick. fold (nlimbs n).
  apply wx_mif; intros E; [apply Z.ltb_lt in E; lia|]. clear E. apply wx_mif; intros E; [apply Z.ltb_lt in E; lia|]. clear E.
  apply wx_bind, wp_neg_inv; auto. intros g Hg.
  apply wx_bind, wp_copy_from; auto. { fold N. destruct (compat_nlimbs n (mp_len (NE s0)) On Ls0 C0) as [_ H]. auto. }
  intros fwf Ofw Sfw Efw. fold N in Efw. apply wx_bind. apply (wp_shrink_view (NE s0)); auto. { lia. }
  intros fw Of Kf Nf LNf Ef UNf. rewrite Efw in Ef. fold N in LNf.
  apply wx_bind, wp_clear_above; [auto|lia|]. intros uf (Ouf & Suf & Euf). apply wx_bind. apply (wp_shrink_view (NE s1)); auto.
  { rewrite Euf. apply Z.mod_pos_bound. lia. }
  intros u Ou Ku Nu LNu Eu UNu. fold N in LNu.
  apply wx_bind, wp_clear_above; [auto|lia|]. intros rf (Orf & Srf & Erf). rewrite Z.pow_0_r, Z.mod_1_r in Erf. apply wx_bind. apply (wp_shrink_view result); auto. { lia. }
  intros r Or' Kr Nr LNr Er UNr. fold N in LNr. rewrite Erf in Er.
  apply wx_bind, wp_is_one_mp; auto. fold N. rewrite lc_unwrap_chc.
  apply wx_bind, wp_clear_above; [auto|lia|]. intros u1 (Ou1 & Su1 & Eu1). rewrite Z.pow_0_r, Z.mod_1_r in Eu1.
  destruct u as [l|l|l]; try discriminate Ku. pose proof (ne_len l) as Lu. rewrite Nu in Lu. destruct fw as [lf|lf|lf]; try discriminate Kf. pose proof (ne_len lf) as Lf. rewrite Nf in Lf.
  assert (X01 : Z.lxor 1 (b2z (N =? 1)) = if N =? 1 then 0 else 1) by (destruct (N =? 1); reflexivity).
  apply wx_bind, wp_store_full; [auto|lia| |rewrite X01; destruct (N =? 1); auto|].
  { rewrite (shape_len _ _ Su1), Lu. pf (mul_le_l LB 1 (nlimbs n)). lia. }
  intros u2 (Ou2 & Su2 & Eu2). rewrite limb_vlimb, Eu1, X01, Z.pow_0_r in Eu2.
  assert (V00 : vlimb 0 0 = 0) by (unfold vlimb; rewrite Z.div_0_l, Z.mod_0_l; lia || (rewrite Z.pow_0_r; lia)). rewrite V00 in Eu2.
  pose proof (shape_trans _ _ _ Su1 Su2) as Su12.
  apply wx_bind. apply wp_gcd_ext_at with (J := Jinv r (NE l) N x (nlimbs n - 1)); auto.
  { rewrite Nf. auto. } { rewrite Ef. auto. }
  { rewrite Lf. rewrite Z.max_l; [auto|]. pose proof (nlimbs_spec op0) as NS. rewrite <- NN in NS. lia. }
  { rewrite Ef. apply keeps_J; auto. }
  { split; [auto|]. split; [auto|]. split; [apply shape_refl|]. split; [auto|]. split; [lia|]. split. { rewrite Eu2. destruct (Z.eqb_spec N 1); lia. }
    cbn [Z.to_nat residues]. rewrite Er, Eu2. f_equal. destruct (Z.eqb_spec N 1) as [->|]; [auto|]. rewrite Z.mod_small; lia. }
  intros f' g' Ff [r2 u3] ib db Of' Og' Sf' Sg' EG EF' EG' Hib EBt (Or2 & Ou3 & Sr2 & Su3 & Vr2 & Vu3 & HC). rewrite Ef in EG, EBt. fold x in EG, EBt.
  assert (BO : becomes op0 g' 0) by (split; auto).
  destruct (UNf f') as (Of3 & Sf3 & _); auto. destruct (ne_like s0 _ Of3 Sf3) as (la & Ela & Hla).
  destruct (UNu u3) as (Ou4 & Su4 & _); auto. destruct (ne_like s1 _ Ou4 Su4) as (lb & Elb & Hlb).
  rewrite Ela, Elb. cbn [limbs_of]. apply wx_bind, wp_ret. apply wx_bind, wp_ret.
  pose proof (Z.gcd_nonneg N x) as G0. assert (GZ : Z.gcd N x <> 0) by (intros H; apply Z.gcd_eq_0_l in H; lia).
  assert (GL : Z.gcd N x <= N) by (apply Z.divide_pos_le; [lia|apply Z.gcd_divide_l]).
  pose proof (mpval_bound_B n On) as BNB. fold N in BNB.
  apply wx_bind. apply wp_gcd_check; auto.
  { rewrite (shape_nlimbs _ _ Sf'). auto. }
  { intros j Hj. rewrite (shape_len _ _ Sf'), Lf. pf (mul_le_l LB (j + 1) (nlimbs n)). lia. }
  { rewrite EF', Lf. rewrite Bpow256 by lia. f_equal. f_equal. lia. }
  { lia. } { lia. }
  rewrite EG. destruct (Z.eqb_spec (Z.gcd N x) 1) as [G1|G1]; cbn [negb].
  2:{ apply wx_ret. destruct (UNr r2) as (Or5 & Sr5 & _); auto. eapply HQ; eauto. intros; contradiction. }
  assert (AF : Z.abs Ff = 1) by lia. pose proof (mpval_nonneg r2 Or2) as R2P. assert (ER : fst (residues N (nlimbs n - 1) x (Z.to_nat ib)) = mpval r2) by (rewrite <- HC; auto).
  apply wx_bindx.
  match goal with |- wx _ _ ?K => assert (HK : (debug c = true -> 1 < N -> mpval r2 <> 0) -> K tt) end.
  2:{ apply wx_dassert_b.
    - intros DT. apply wp_bind, wp_is_zero_mp; auto. rewrite lc_unwrap_chc. apply wp_mif; intros E; apply wp_ret.
      + apply HK. intros _ _ E0. rewrite E0 in E. discriminate.
      + destruct (Z.eqb_spec (mpval r2) 0) as [E0|E0]; [|discriminate]. destruct (Z.eqb_spec N 1) as [E1|E1].
        * cbn. apply HK. lia.
        * cbn. apply (HD DT G1 ltac:(clear - E1 NP; lia) (Z.to_nat ib) db Ff EBt AF). rewrite ER. auto.
    - intros DF. apply HK. congruence. }
  intros HNZ.
  rewrite lc_mask, lc_not_chc, lc_and_chc, !lc_select_chc by auto using isl_chc.
  set (z := ((Ff <? 0) && negb (N =? 1))%bool).
  assert (EM : (if N =? 1 then 0 else chc (Ff <? 0)) = chc z) by (unfold z; destruct (Ff <? 0), (N =? 1); reflexivity). rewrite EM.
  assert (EC : (if z then 1 else 0) = b2z z) by (destruct z; reflexivity). rewrite EC.
  apply wx_bind. apply wp_final_neg; auto.
  { rewrite (shape_nlimbs _ _ Sr2). auto. } { rewrite (shape_len _ _ Sr2). auto. } { fold N. lia. }
  intros r3 y0 y1 (Or3 & Sr3 & Er3). apply wx_ret. fold N in Er3. pose proof (shape_trans _ _ _ Sr2 Sr3) as Sr23. destruct (UNr r3) as (Or5 & Sr5 & Er5); auto.
  eapply HQ; eauto; [intros; contradiction|]. intros _. split; [auto|]. rewrite Er5, Er3, ER. split; [|auto].
  unfold end_value, z. destruct (N =? 1) eqn:E1; [rewrite andb_false_r; apply Z.eqb_eq in E1; lia|rewrite andb_true_r; auto].
Qed.
Lemma wp_inv_impl_any : forall result op0 n s0 s1 (Q : _ -> Prop), mp_ok result -> mp_ok op0 -> mp_ok n -> Z.odd (mpval n) = true ->
  len_compat n (mp_len result) -> mut_compat op0 n -> mp_ok (NE s0) -> mp_ok (NE s1) -> nlimbs n <= zlen s0 -> nlimbs n <= zlen s1 ->
  gcd_len_ok (LB * nlimbs n) -> (Z.gcd (mpval n) (mpval op0) = 1 -> inv_fits n (mpval op0) \/ debug c = false) ->
  (forall res r' o' a b, mp_ok r' -> same_shape result r' -> becomes op0 o' 0 -> scratch_like s0 a -> scratch_like s1 b ->
     (Z.gcd (mpval n) (mpval op0) <> 1 -> res = Err InvOperandsNotCoprime) ->
     (Z.gcd (mpval n) (mpval op0) = 1 -> res = Ok tt /\ mpval r' <= mpval n /\ (mpval n = 1 -> mpval r' = 0) /\
        (1 < mpval n -> inv_fits n (mpval op0) -> is_inverse (mpval n) (mpval op0) (mpval r'))) ->
     Q (res, r', o', a, b)) ->
  wp (ct_inv_mod_odd_mp_mp_impl result op0 n s0 s1) Q.
Proof.
  intros result op0 n s0 s1 Q Or Oo On HO CR CO OS0 OS1 L0 L1 HU HD HQ. destruct (odd_nlimbs n On HO) as [Hn NP]. pose proof (mpval_bound_B n On) as BNB.
  set (N := mpval n) in *. set (x := mpval op0) in *. set (p := nlimbs n - 1) in *. assert (Hp : 0 <= p) by (unfold p; lia). replace (nlimbs n) with (p + 1) in BNB by (unfold p; lia).
  assert (HN : 0 < N < B ^ (p + 1)) by lia.
  assert (IC : forall k d f, 1 < N -> inv_fits n x -> Z.gcd N x = 1 -> batches k (1, N, x) = (d, f, 0) -> Z.abs f = Z.gcd N x ->
     fst (residues N p x k) <> 0 /\ is_inverse N x (if f <? 0 then N - fst (residues N p x k) else fst (residues N p x k))).
  { intros k d f N1 FI G1 EB AF. pose proof (residues_cong N p x k Hp HO HN FI) as RC. rewrite EB in RC. destruct RC as [RC _].
    apply inv_cases; [auto|apply residues_range; auto|lia|auto]. }
  apply wp_wx, wx_inv_impl; auto; fold N x p.
  - intros DT G1 N1 k d f EB AF R0. destruct (HD G1) as [FI|DF]; [|congruence]. rewrite <- G1 in AF. destruct (IC k d f N1 FI G1 EB AF); contradiction.
  - intros res r' o' a b k d f A1 A2 A3 A4 A5 EB AF A6 A7. apply HQ; auto. intros G1. destruct (A7 G1) as (B1 & B2 & B3). pose proof (residues_range N p x k Hp HO HN) as [RR _].
    split; [auto|]. rewrite B2. unfold end_value. split; [destruct (N =? 1); [lia|destruct (f <? 0); lia]|]. split; [intros ->; auto|].
    intros N1 FI. destruct (Z.eqb_spec N 1); [lia|]. apply IC with (d := d); auto.
Qed.
Lemma wp_inv_impl : forall result op0 n s0 s1 (Q : _ -> Prop), mp_ok result -> mp_ok op0 -> mp_ok n -> Z.odd (mpval n) = true ->
  len_compat n (mp_len result) -> mut_compat op0 n -> mp_ok (NE s0) -> mp_ok (NE s1) -> nlimbs n <= zlen s0 -> nlimbs n <= zlen s1 ->
  gcd_len_ok (LB * nlimbs n) -> (Z.gcd (mpval n) (mpval op0) = 1 -> inv_guard n \/ debug c = false) ->
  (forall res r' o' a b, mp_ok r' -> same_shape result r' -> becomes op0 o' 0 -> scratch_like s0 a -> scratch_like s1 b ->
     (Z.gcd (mpval n) (mpval op0) <> 1 -> res = Err InvOperandsNotCoprime) ->
     (Z.gcd (mpval n) (mpval op0) = 1 -> res = Ok tt /\ mpval r' <= mpval n /\ (mpval n = 1 -> mpval r' = 0) /\
        (1 < mpval n -> inv_guard n -> is_inverse (mpval n) (mpval op0) (mpval r'))) ->
     Q (res, r', o', a, b)) ->
  wp (ct_inv_mod_odd_mp_mp_impl result op0 n s0 s1) Q.
Proof.
  intros result op0 n s0 s1 Q Or Oo On HO CR CO OS0 OS1 L0 L1 HU HD HQ. destruct (odd_nlimbs n On HO) as [Hn NP].
  assert (GF : inv_guard n -> inv_fits n (mpval op0)) by (intros G; apply spare_fit; [lia|split; [lia|exact G]]).
  apply wp_inv_impl_any; auto. { intros G1. destruct (HD G1); auto. }
  intros res r' o' a b A1 A2 A3 A4 A5 A6 A7. apply HQ; auto. intros G1. destruct (A7 G1) as (B1 & B2 & B3 & B4). split; [auto|]. split; [auto|]. split; [auto|]. intros; apply B4; auto.
Qed.
End Facts.
