(** Proofs about sequences of calls: RSA by the Chinese remainder theorem and signatures (ThmApp3.v). *)
From Coq Require Import ZArith Znumtheory Zpow_facts List Bool Lia.
Require Import Verif.Spec Verif.Base Verif.Monad Verif.Wp Verif.ModelLimb Verif.LimbFacts Verif.LimbFacts2 Verif.LimbProofs
  Verif.ModelBuf Verif.SpecBuf Verif.ThmLimb Verif.BufFacts Verif.BufProofs Verif.ModelCmp Verif.ModelAdd Verif.ModelShift Verif.ModelMul Verif.ModelDiv Verif.SpecDiv
  Verif.SpecMont Verif.ModelMont Verif.SpecEuclid Verif.SpecSteps Verif.ModelEuclid Verif.PrimeFacts2 Verif.SpecApp Verif.SpecApp2 Verif.SpecApp3
  Verif.ThmBuf Verif.ThmAdd Verif.ThmShift Verif.ThmMul Verif.ThmDiv Verif.ThmMont Verif.ThmGcd Verif.MontProofs Verif.ThmInvOdd Verif.ModelLcm Verif.MontFacts5 Verif.MontFacts6 Verif.MontFine
  Verif.AppProofs Verif.AppFine Verif.AppProofs2.
Import ListNotations.
Open Scope Z_scope.

(** Number theory. *)
Lemma pow_cong_le : forall p x a b, prime p -> 0 < b <= a -> (p - 1 | a - b) -> x ^ a mod p = x ^ b mod p.
Proof.
  intros p x a b Hp Hb [j Hj]. pose proof (prime_ge_2 p Hp) as P2. destruct (Zdivide_dec p x) as [D|D].
  - assert (X : forall k, 0 < k -> x ^ k mod p = 0).
    { intros k Hk. apply Z.mod_divide; [lia|]. replace k with (1 + (k - 1)) by ring. rewrite Z.pow_add_r, Z.pow_1_r by lia. apply Z.divide_mul_l. auto. }
    rewrite !X by lia. auto.
  - pose proof (fermat p x Hp D) as F. assert (J0 : 0 <= j) by nia.
    replace a with ((p - 1) * j + b) by lia. rewrite Z.pow_add_r, Z.pow_mul_r by nia.
    rewrite Z.mul_mod, (Zpower_mod (x ^ (p - 1))), F, Z.pow_1_l, (Z.mod_small 1) by lia. rewrite Z.mul_1_l. apply Z.mod_mod. lia.
Qed.
Lemma pow_cong : forall p x a b, prime p -> 0 < a -> 0 < b -> (p - 1 | a - b) -> x ^ a mod p = x ^ b mod p.
Proof.
  intros p x a b Hp Ha Hb D. destruct (Z_le_gt_dec b a); [apply pow_cong_le; auto; lia|]. symmetry. apply pow_cong_le; auto; [lia|].
  apply Z.divide_opp_r in D. replace (b - a) with (- (a - b)) by ring. auto.
Qed.
Lemma pow_mod_base : forall x n k, 0 < n -> 0 <= k -> (x mod n) ^ k mod n = x ^ k mod n.
Proof. intros. rewrite <- Zpower_mod by lia. auto. Qed.

(** Garner's formula. *)
Lemma crt_formula : forall p q Y v, 0 < p -> 0 < q -> rel_prime p q -> is_inverse p q v ->
  Y mod q + ((Y mod p - Y mod q) * v) mod p * q = Y mod (p * q).
Proof.
  intros p q Y v Hp Hq RP [_ Ev]. set (h := ((Y mod p - Y mod q) * v) mod p). pose proof (Z.mod_pos_bound Y q Hq) as RQ.
  assert (Hh : 0 <= h < p) by (apply Z.mod_pos_bound; auto). set (y := Y mod q + h * q).
  assert (Ry : 0 <= y < p * q) by (unfold y; nia).
  assert (DQ : (q | y - Y)). { exists (h - Y / q). pose proof (Z.div_mod Y q ltac:(lia)). unfold y. nia. }
  assert (DP : (p | y - Y)).
  { apply Z.mod_divide; [lia|]. assert (E : y mod p = Y mod p).
    { unfold y, h. rewrite <- Z.add_mod_idemp_r, Z.mul_mod_idemp_l, Z.add_mod_idemp_r by lia.
      replace (Y mod q + (Y mod p - Y mod q) * v * q) with (Y mod q + (Y mod p - Y mod q) * (q * v)) by ring.
      rewrite <- Z.add_mod_idemp_r, <- Z.mul_mod_idemp_r, Ev, Z.mul_mod_idemp_r, Z.add_mod_idemp_r by lia.
      replace (Y mod q + (Y mod p - Y mod q) * 1) with (Y mod p) by ring. apply Z.mod_mod. lia. }
    rewrite Zminus_mod, E, Z.sub_diag. apply Z.mod_0_l. lia. }
  assert (D : (p * q | y - Y)).
  { destruct DP as [a Ha]. rewrite Ha in DQ. rewrite Z.mul_comm in DQ. apply Gauss in DQ; [|apply rel_prime_sym; auto]. destruct DQ as [b Hb]. exists b. rewrite Ha, Hb. ring. }
  destruct D as [w Hw]. apply Z.mod_unique_pos with (- w); [auto|]. lia.
Qed.

Section App.
Context {c : cfg}.

Lemma residue_nlimbs : forall n b, residue_buf n b -> nlimbs b = nlimbs n.
Proof.
  intros n b (Hb & [E|(K & E)]); [unfold nlimbs; rewrite E; auto|]. destruct b as [l|l|l]; try discriminate K. rewrite nlimbs_NE. cbn [mp_len] in E.
  pose proof LB_pos as LP. pose proof (nlimbs_spec n) as S. nia.
Qed.

Lemma reduce_ok : forall u_h u_l n, u_ok u_h u_l -> mp_ok n -> 0 < mpval n -> mpval n < 256 ^ mp_len u_l ->
  yields (reduce u_h u_l n) (fun r => becomes u_l r (uval u_h u_l mod mpval n)).
Proof.
  intros u_h u_l n HU Hn NP HL. pose proof B_pos as BP. unfold reduce.
  destruct (proj1 (C25_new c n None Hn ltac:(cbn; lia)) ltac:(cbn; lia)) as (d & Hd).
  eapply yields_bind; [eapply yields_returns with (P := fun x => x = Ok d); [exact Hd|reflexivity]|]. intros ? ->.
  eapply yields_bind; [apply unwrap_ok with (P := fun x => x = d); reflexivity|]. intros ? ->.
  assert (DF : divisor_for d (mpval n)) by (exists n, None; split; [auto|]; split; [cbn; lia|]; split; [auto|cbn; lia]).
  eapply yields_bind; [apply (C25_mod c u_h u_l d (mpval n) HU DF)|]. intros [h r] (OU & SB & OS & VB).
  apply yields_ret. destruct OU as [Or Oh]. split; [auto|]. split; [auto|].
  pose proof (Z.mod_pos_bound (uval u_h u_l) (mpval n) NP) as MB. rewrite <- VB in MB |- *. unfold uval in *. pose proof (val_pos r Or) as VR.
  assert (H0 : 0 <= uhval h). { destruct h as [b|]; cbn; [|lia]. destruct Oh as [Ob _]. apply val_pos; auto. }
  destruct SB as [_ SL]. rewrite <- SL in HL. destruct (Z.eq_dec (uhval h) 0) as [E|E]; [rewrite E; lia|]. exfalso. nia.
Qed.

Lemma mul_mod_ok : forall b x y n, exp_modulus_any n -> result_buf n b -> mp_ok x -> mpval x < mpval n -> residue_buf n y -> mpval y < mpval n ->
  mg_fine n (mg_form n (mpval x)) (mpval y) ->
  yields (mul_mod b x y n) (fun r => becomes b r ((mpval x * mpval y) mod mpval n)).
Proof.
  intros b x y n (Hn & HO & HNL & HU) (HR & HRM) Ox Vx HY Vy HF. pose proof HR as (OB & LR). pose proof HY as (OY & LY). unfold mul_mod.
  assert (NP : 0 < mpval n) by (pose proof (val_pos x Ox); lia). pose proof (val_pos n Hn) as VN. set (R := mg_radix n).
  pose proof (result_buf_fits _ _ HR) as FR. pose proof LB_pos as LBP. pose proof (mp_len_nonneg n) as Ln.
  assert (LN1 : 1 <= mp_len n). { destruct (Z.eq_dec (mp_len n) 0) as [E|E]; [|lia]. rewrite E in VN. lia. }
  assert (XB : mpval x < 256 ^ mp_len b). { assert (256 ^ mp_len n <= 256 ^ mp_len b) by (apply Z.pow_le_mono_r; [lia|destruct LR as [?|(_ & ?)]; lia]). lia. }
  eapply yields_bind; [apply C04_copy_from; auto|]. intros t BT. pose proof BT as (OT & ST & VT). pose proof (residue_becomes _ _ _ _ HR BT) as RT.
  eapply yields_bind; [apply C31_direct; auto; [apply result_buf_fits; auto]|]. intros [e t1] [-> B1]. fold R in B1. pose proof B1 as (O1 & S1 & V1). rewrite VT in *.
  eapply yields_bind; [apply unwrap_ok with (P := fun _ => True); auto|]. intros _ _.
  eapply yields_bind; [apply C29_neg_inv; auto|]. intros g0 (g & -> & Hg).
  eapply yields_bind; [apply unwrap_ok with (P := fun x => x = g); reflexivity|]. intros ? ->.
  pose proof (Z.mod_pos_bound (mpval x * R) (mpval n) NP) as M1.
  destruct (residue_buf_compat n t1 (residue_becomes _ _ _ _ RT B1) ltac:(lia) Hn) as [C1 _]. destruct (residue_buf_compat n y HY Vy Hn) as [C2 _].
  eapply yields_bind; [eapply wp_yields, wp_mul_any with (Q := fun '(res, x) => res = Ok tt /\ exists v, becomes b x v /\ 0 <= v < mpval n /\ (mg_no_carry_lost t1 y n <-> mg_reduced n (mpval t1 * mpval y) v)); auto; try lia|].
  - intros r' v H1 H2 H3 _. split; auto. exists v. auto.
  - intros [e3 r] (-> & v & B3 & RV1 & RV2).
    eapply yields_bind; [apply unwrap_ok with (P := fun _ => True); auto|]. intros _ _. apply yields_ret.
    assert (EV : v = (mpval x * mpval y) mod mpval n); [|rewrite <- EV; auto].
    assert (RD : mg_reduced n (mpval t1 * mpval y) v). { apply RV2. apply fine_not_lost. unfold mg_form in HF. fold R in HF. rewrite V1. auto. }
    apply (reduced_unique c n (mpval t1 * mpval y)); auto. split; [apply Z.mod_pos_bound; auto|]. fold R. rewrite V1, !Zmult_mod_idemp_l. f_equal. ring.
Qed.

Lemma crt_main : forall p q dp kp dq kq qinv xph xpl xqh xql rp rq out s1 s2 x Y,
  prime (mpval p) -> prime (mpval q) -> mpval q < mpval p -> exp_modulus_any p -> exp_modulus_any q ->
  u_ok xph xpl -> residue_buf p xpl -> uval xph xpl = x -> u_ok xqh xql -> residue_buf q xql -> uval xqh xql = x ->
  mp_ok dp -> 0 <= kp -> mp_ok dq -> 0 <= kq -> x ^ expo dp kp mod mpval p = Y mod mpval p -> x ^ expo dq kq mod mpval q = Y mod mpval q ->
  residue_buf p qinv -> is_inverse (mpval p) (mpval q) (mpval qinv) -> result_buf p rp -> result_buf q rq -> mp_ok out -> mp_len p + mp_len q <= mp_len out ->
  exp_scratch p s1 -> exp_scratch q s2 ->
  exp_fine p (x mod mpval p) dp kp -> exp_fine q (x mod mpval q) dq kq -> mg_fine p (mg_form p ((Y mod mpval p - Y mod mpval q) mod mpval p)) (mpval qinv) ->
  yields (rsa_crt p q dp kp dq kq qinv xph xpl xqh xql rp rq out s1 s2) (fun m => becomes out m (Y mod (mpval p * mpval q))).
Proof.
  intros p q dp kp dq kq qinv xph xpl xqh xql rp rq out s1 s2 x Y PP PQ LT Mp Mq Up Rp Ep Uq Rq Eq Odp Kp Odq Kq HYp HYq RI HI Brp Brq Oo Lo S1 S2 F1 F2 F3.
  pose proof Mp as (Op & _). pose proof Mq as (Oq & _). pose proof (prime_ge_2 _ PP) as P2. pose proof (prime_ge_2 _ PQ) as Q2. unfold rsa_crt.
  assert (Pp : 0 < mpval p) by lia. assert (Pq : 0 < mpval q) by lia. pose proof (Z.mod_pos_bound x (mpval p) Pp) as Bp. pose proof (Z.mod_pos_bound x (mpval q) Pq) as Bq.
  assert (FIT : forall n b, mp_ok n -> residue_buf n b -> mpval n < 256 ^ mp_len b).
  { intros n b Hn (_ & HL). pose proof (val_pos n Hn). pose proof (mp_len_nonneg n). assert (256 ^ mp_len n <= 256 ^ mp_len b) by (apply Z.pow_le_mono_r; [lia|destruct HL as [?|(_ & ?)]; lia]). lia. }
  eapply yields_bind; [apply reduce_ok; auto; lia|]. intros xp Bxp. rewrite Ep in Bxp. pose proof Bxp as (Oxp & _ & Vxp). pose proof (residue_becomes _ _ _ _ Rp Bxp) as Rxp.
  eapply yields_bind; [apply reduce_ok; auto; lia|]. intros xq Bxq. rewrite Eq in Bxq. pose proof Bxq as (Oxq & _ & Vxq). pose proof (residue_becomes _ _ _ _ Rq Bxq) as Rxq.
  eapply yields_bind; [apply exp_app_any; auto; lia|]. intros [[[e1 m1] y1] z1] (-> & E1 & Om1 & Sm1 & Rm1 & Vm1). rewrite Vxp in E1. destruct (E1 F1) as (_ & _ & V1). clear E1.
  eapply yields_bind; [apply unwrap_ok with (P := fun _ => True); auto|]. intros _ _.
  eapply yields_bind; [apply exp_app_any; auto; lia|]. intros [[[e2 m2] y2] z2] (-> & E2 & Om2 & Sm2 & Rm2 & Vm2). rewrite Vxq in E2. destruct (E2 F2) as (_ & _ & V2). clear E2.
  eapply yields_bind; [apply unwrap_ok with (P := fun _ => True); auto|]. intros _ _.
  rewrite pow_mod_base, HYp in V1 by (try apply expo_nonneg; lia). rewrite pow_mod_base, HYq in V2 by (try apply expo_nonneg; lia).
  eapply yields_bind; [apply (C19_sub_mod_partial c m1 m2 p); auto; [lia|left; apply residue_nlimbs; auto]|].
  intros [h e3] [(-> & Bh)|(_ & _ & X)]; [|exfalso; destruct Rm1 as (_ & [?|(_ & ?)]); lia]. pose proof Bh as (Oh & Sh & Vh). rewrite V1, V2 in Vh.
  eapply yields_bind; [apply unwrap_ok with (P := fun _ => True); auto|]. intros _ _.
  pose proof (Z.mod_pos_bound (Y mod mpval p - Y mod mpval q) (mpval p) Pp) as Bhh. pose proof HI as [HIR _].
  eapply yields_bind; [apply (mul_mod_ok rp h qinv p); auto; [lia|lia|rewrite Vh; auto]|]. intros h2 Bh2. pose proof Bh2 as (Oh2 & Sh2 & Vh2). rewrite Vh, Zmult_mod_idemp_l in Vh2.
  pose proof (Z.mod_pos_bound ((Y mod mpval p - Y mod mpval q) * mpval qinv) (mpval p) Pp) as Bhq. rewrite <- Vh2 in Bhq.
  pose proof (val_pos p Op) as Vp. pose proof (val_pos q Oq) as Vq. pose proof (mp_len_nonneg p) as Lp. pose proof (mp_len_nonneg q) as Lq.
  assert (PO : 256 ^ mp_len p <= 256 ^ mp_len out) by (apply Z.pow_le_mono_r; lia). assert (QO : 256 ^ mp_len q <= 256 ^ mp_len out) by (apply Z.pow_le_mono_r; lia).
  eapply yields_bind; [apply C04_copy_from; auto; lia|]. intros o1 Bo1. pose proof Bo1 as (Oo1 & So1 & Vo1). pose proof (shape_len _ _ So1) as Lo1.
  eapply yields_bind; [apply C22_mul_full; auto; lia|]. intros o2 Bo2. pose proof Bo2 as (Oo2 & So2 & Vo2). pose proof (shape_len _ _ So2) as Lo2.
  rewrite Vo1, (Z.mod_small (mpval h2)), Vh2 in Vo2 by lia.
  assert (RPQ : rel_prime (mpval p) (mpval q)). { apply prime_rel_prime; auto. intros D. apply prime_div_prime in D; auto. lia. }
  pose proof (crt_formula (mpval p) (mpval q) Y (mpval qinv) Pp Pq RPQ HI) as CF. rewrite <- Vo2 in CF.
  pose proof (Z.mod_pos_bound Y (mpval p * mpval q) (Z.mul_pos_pos _ _ Pp Pq)) as BY.
  assert (PQO : mpval p * mpval q < 256 ^ mp_len out).
  { assert (256 ^ (mp_len p + mp_len q) <= 256 ^ mp_len out) by (apply Z.pow_le_mono_r; lia). rewrite Z.pow_add_r in H by lia. clear - H Vp Vq Pp Pq. nia. }
  pose proof (Z.mod_pos_bound Y (mpval q) Pq) as BYq.
  eapply yields_bind; [apply (C17_add c o2 m2); auto|].
  { unfold nlimbs. rewrite Lo2, Lo1. fold (nlimbs m2). rewrite (residue_nlimbs q m2 Rm2). unfold nlimbs, ct_mp_nlimbs. apply Z.div_le_mono; [apply LB_pos|lia]. }
  { rewrite Lo2, Lo1, V2. lia. }
  intros [m cy] (Bm & _). apply yields_ret. rewrite V2, Z.add_comm, CF, Lo2, Lo1, Z.mod_small in Bm by lia.
  destruct Bm as (Om & Sm & Vm). split; [auto|]. split; [|auto]. eapply shape_trans; [|exact Sm]. eapply shape_trans; eauto.
Qed.

Lemma rsa_crt_any : forall p q dp kp dq kq qinv xph xpl xqh xql rp rq out s1 s2 x d,
  prime (mpval p) -> prime (mpval q) -> mpval q < mpval p -> exp_modulus_any p -> exp_modulus_any q ->
  u_ok xph xpl -> residue_buf p xpl -> uval xph xpl = x -> u_ok xqh xql -> residue_buf q xql -> uval xqh xql = x ->
  mp_ok dp -> 0 <= kp -> mp_ok dq -> 0 <= kq -> 0 < d -> 0 < expo dp kp -> 0 < expo dq kq -> (mpval p - 1 | d - expo dp kp) -> (mpval q - 1 | d - expo dq kq) ->
  residue_buf p qinv -> is_inverse (mpval p) (mpval q) (mpval qinv) -> result_buf p rp -> result_buf q rq -> mp_ok out -> mp_len p + mp_len q <= mp_len out ->
  exp_scratch p s1 -> exp_scratch q s2 ->
  exp_fine p (x mod mpval p) dp kp -> exp_fine q (x mod mpval q) dq kq -> mg_fine p (mg_form p ((x ^ d mod mpval p - x ^ d mod mpval q) mod mpval p)) (mpval qinv) ->
  yields (rsa_crt p q dp kp dq kq qinv xph xpl xqh xql rp rq out s1 s2) (fun m => becomes out m (x ^ d mod (mpval p * mpval q))).
Proof. intros. apply crt_main with (x := x); auto; symmetry; apply pow_cong; auto. Qed.

Lemma carry_ok_fine_form : forall n x y, 0 < mpval n -> mg_carry_ok n -> 0 <= y < mpval n -> mg_fine n (mg_form n x) y.
Proof.
  intros n x y NP HC HY. unfold mg_form. pose proof (Z.mod_pos_bound (x * mg_radix n) (mpval n) NP) as MR. pose proof B_pos as BP.
  apply carry_ok_fine; try lia. unfold mg_carry_ok in HC. nia.
Qed.
Lemma exp_any_of : forall n, exp_modulus n -> exp_modulus_any n.
Proof. intros n (A & A0 & A1 & A2 & A3). split; [auto|]. split; [auto|]. split; auto. Qed.

Lemma rsa_crt_correct : forall p q dp kp dq kq qinv xph xpl xqh xql rp rq out s1 s2 x d,
  prime (mpval p) -> prime (mpval q) -> mpval q < mpval p -> exp_modulus p -> exp_modulus q ->
  u_ok xph xpl -> residue_buf p xpl -> uval xph xpl = x -> u_ok xqh xql -> residue_buf q xql -> uval xqh xql = x ->
  mp_ok dp -> 0 <= kp -> mp_ok dq -> 0 <= kq -> 0 < d -> 0 < expo dp kp -> 0 < expo dq kq -> (mpval p - 1 | d - expo dp kp) -> (mpval q - 1 | d - expo dq kq) ->
  residue_buf p qinv -> is_inverse (mpval p) (mpval q) (mpval qinv) -> result_buf p rp -> result_buf q rq -> mp_ok out -> mp_len p + mp_len q <= mp_len out ->
  exp_scratch p s1 -> exp_scratch q s2 ->
  yields (rsa_crt p q dp kp dq kq qinv xph xpl xqh xql rp rq out s1 s2) (fun m => becomes out m (x ^ d mod (mpval p * mpval q))).
Proof.
  intros p q dp kp dq kq qinv xph xpl xqh xql rp rq out s1 s2 x d PP PQ. intros. pose proof (prime_ge_2 _ PP) as P2. pose proof (prime_ge_2 _ PQ) as Q2.
  assert (Cp : mg_carry_ok p) by (match goal with H : exp_modulus p |- _ => apply H end). assert (Cq : mg_carry_ok q) by (match goal with H : exp_modulus q |- _ => apply H end).
  apply rsa_crt_any; auto using exp_any_of.
  - apply carry_ok_fine_exp; auto; [lia|apply Z.mod_pos_bound; lia].
  - apply carry_ok_fine_exp; auto; [lia|apply Z.mod_pos_bound; lia].
  - apply carry_ok_fine_form; auto; [lia|]. match goal with H : is_inverse _ _ _ |- _ => apply H end.
Qed.

Lemma rsa_crt_round_trip : forall p q n m e dp kp dq kq qinv xph xpl xqh xql rp rq out s1 s2,
  prime (mpval p) -> prime (mpval q) -> mpval q < mpval p -> exp_modulus p -> exp_modulus q -> n = mpval p * mpval q -> 0 <= m < n ->
  u_ok xph xpl -> residue_buf p xpl -> uval xph xpl = m ^ e mod n -> u_ok xqh xql -> residue_buf q xql -> uval xqh xql = m ^ e mod n ->
  mp_ok dp -> 0 <= kp -> mp_ok dq -> 0 <= kq -> 0 <= e -> 0 < e * expo dp kp -> 0 < e * expo dq kq ->
  (mpval p - 1 | e * expo dp kp - 1) -> (mpval q - 1 | e * expo dq kq - 1) ->
  residue_buf p qinv -> is_inverse (mpval p) (mpval q) (mpval qinv) -> result_buf p rp -> result_buf q rq -> mp_ok out -> mp_len p + mp_len q <= mp_len out ->
  exp_scratch p s1 -> exp_scratch q s2 ->
  yields (rsa_crt p q dp kp dq kq qinv xph xpl xqh xql rp rq out s1 s2) (fun y => becomes out y m).
Proof.
  intros p q n m e dp kp dq kq qinv xph xpl xqh xql rp rq out s1 s2 PP PQ LT Mp Mq -> Hm Up Rp Ep Uq Rq Eq Odp Kp Odq Kq Ke H1 H2 D1 D2 RI HI Brp Brq Oo Lo S1 S2.
  pose proof (prime_ge_2 _ PP) as P2. pose proof (prime_ge_2 _ PQ) as Q2. pose proof Ke as Ee. pose proof (expo_nonneg dp kp Kp) as Edp. pose proof (expo_nonneg dq kq Kq) as Edq.
  assert (Cp : mg_carry_ok p) by (apply Mp). assert (Cq : mg_carry_ok q) by (apply Mq).
  assert (YP : forall r s d, prime r -> 0 < s -> 0 <= d -> 0 < e * d -> (r - 1 | e * d - 1) -> (m ^ e mod (r * s)) ^ d mod r = m mod r).
  { intros r s d Pr Hs Hd HP D. pose proof (prime_ge_2 r Pr). rewrite <- pow_mod_base by lia.
    replace ((m ^ e mod (r * s)) mod r) with (m ^ e mod r).
    - rewrite pow_mod_base, <- Z.pow_mul_r by lia. rewrite (pow_cong r m (e * d) 1) by (auto; lia). rewrite Z.pow_1_r. auto.
    - rewrite (Z.rem_mul_r (m ^ e) r s), Z.mul_comm, Z.mod_add, Z.mod_mod by lia. auto. }
  eapply yields_mono; [apply (crt_main p q dp kp dq kq qinv xph xpl xqh xql rp rq out s1 s2 (m ^ e mod (mpval p * mpval q)) m); auto using exp_any_of; try lia|].
  - apply YP; auto. lia.
  - rewrite (Z.mul_comm (mpval p)). apply YP; auto. lia.
  - apply carry_ok_fine_exp; auto; [lia|apply Z.mod_pos_bound; lia].
  - apply carry_ok_fine_exp; auto; [lia|apply Z.mod_pos_bound; lia].
  - apply carry_ok_fine_form; auto; [lia|]. apply HI.
  - intros y By. rewrite Z.mod_small in By by lia. auto.
Qed.

(** * Signatures *)
Lemma residue_fits : forall n b, mp_ok n -> residue_buf n b -> mpval n < 256 ^ mp_len b.
Proof. intros n b Hn (_ & HL). pose proof (val_pos n Hn). pose proof (mp_len_nonneg n). assert (256 ^ mp_len n <= 256 ^ mp_len b) by (apply Z.pow_le_mono_r; [lia|destruct HL as [?|(_ & ?)]; lia]). lia. Qed.
Lemma becomes_trans : forall a b d v w, becomes a b v -> becomes b d w -> becomes a d w.
Proof. intros a b d v w (_ & S1 & _) (O2 & S2 & V2). split; [auto|]. split; [eapply shape_trans; eauto|auto]. Qed.

Lemma mul_mod_ok2 : forall b x y n, exp_modulus n -> result_buf n b -> mp_ok x -> mpval x < mpval n -> residue_buf n y -> mpval y < mpval n ->
  yields (mul_mod b x y n) (fun r => becomes b r ((mpval x * mpval y) mod mpval n)).
Proof.
  intros b x y n Mn Hb Ox Vx Ry Vy. pose proof (val_pos x Ox) as X0. pose proof Ry as (Oy & _). pose proof (val_pos y Oy) as Y0.
  apply mul_mod_ok; auto using exp_any_of. apply carry_ok_fine_form; [lia|apply Mn|lia].
Qed.

Lemma power_ok : forall b x n k s, exp_modulus n -> result_buf n b -> mp_ok x -> mpval x < mpval n -> mp_ok k -> exp_scratch n s ->
  yields (power b x n k s) (fun r => becomes b r (mpval x ^ mpval k mod mpval n)).
Proof.
  intros b x n k s Mn Hb Ox Vx Ok HS. pose proof Mn as (On & _ & _ & Cn & _). pose proof Hb as (Rb & _). pose proof Rb as (Ob & _). unfold power.
  pose proof (residue_fits n b On Rb) as FB. pose proof (val_pos x Ox) as X0. assert (NP : 0 < mpval n) by lia. pose proof (mp_len_nonneg k) as Lk. pose proof (val_pos k Ok) as Vk.
  eapply yields_bind; [apply C04_copy_from; auto; lia|]. intros t BT. pose proof BT as (OT & _ & VT).
  pose proof (residue_becomes _ _ _ _ Rb BT) as RT. eapply yields_bind; [apply exp_app_any; auto using exp_any_of; lia|]. intros [[[e r] y1] z1] (-> & E & _).
  rewrite VT in E. specialize (E (carry_ok_fine_exp n (mpval x) k (8 * mp_len k) NP Cn (conj (proj1 X0) Vx))).
  eapply yields_bind; [apply unwrap_ok with (P := fun _ => True); auto|]. intros _ _. apply yields_ret.
  unfold expo in E. rewrite (Z.mod_small (mpval k)) in E; auto. rewrite Z.pow_mul_r by lia. change (2 ^ 8) with 256. auto.
Qed.

Lemma reduce_into_ok : forall b x n, mp_ok n -> 0 < mpval n -> mp_ok x -> mpval n < 256 ^ mp_len x -> mp_ok b -> mpval n < 256 ^ mp_len b ->
  yields (reduce_into b x n) (fun r => becomes b r (mpval x mod mpval n)).
Proof.
  intros b x n On NP Ox Fx Ob Fb. unfold reduce_into. pose proof (Z.mod_pos_bound (mpval x) (mpval n) NP) as MB.
  eapply yields_bind; [apply reduce_ok; auto; split; cbn; auto|]. intros r (Or & _ & Vr). unfold uval, uhval in Vr. rewrite Z.mul_0_r, Z.add_0_r in Vr.
  rewrite <- Vr. apply C04_copy_from; auto. lia.
Qed.

Lemma inverse_ok : forall b x n s, mp_ok n -> Z.odd (mpval n) = true -> 1 < mpval n -> residue_buf n b -> mp_ok x -> mpval x < mpval n ->
  mp_ok (NE s) -> nlimbs n <= zlen s -> gcd_len_ok (LB * nlimbs n) -> mpval n <= B ^ (nlimbs n - 1) -> Z.gcd (mpval n) (mpval x) = 1 ->
  yields (inverse b x n s) (fun r => becomes b r (mpval r) /\ is_inverse (mpval n) (mpval x) (mpval r)).
Proof.
  intros b x n s On HO N1 Rb Ox Vx HS LS GL SP GC. pose proof Rb as (Ob & _). unfold inverse. pose proof (residue_fits n b On Rb) as FB.
  eapply yields_bind; [apply C04_copy_from; auto; lia|]. intros t BT. pose proof BT as (OT & _ & VT). pose proof (residue_becomes _ _ _ _ Rb BT) as RT.
  eapply yields_bind; [apply (C34_inv_odd_partial c b t n s s); auto; [apply result_buf_fits; auto|unfold mut_compat; apply residue_buf_compat; auto; lia|rewrite VT; auto]|].
  intros [[[[e r] t'] s0] s1] (-> & HI & HB & _).
  eapply yields_bind; [apply unwrap_ok with (P := fun _ => True); auto|]. intros _ _. apply yields_ret. rewrite VT in HI. auto.
Qed.

Lemma inverse_unique : forall n x v w, is_inverse n x v -> is_inverse n x w -> v = w.
Proof.
  intros n x v w [Rv Ev] [Rw Ew]. rewrite <- (Z.mod_small v n), <- (Z.mod_small w n) by lia.
  rewrite <- (Z.mul_1_r v), <- Zmult_mod_idemp_r, <- Ew, Zmult_mod_idemp_r. replace (v * (x * w)) with (x * v * w) by ring.
  rewrite <- Zmult_mod_idemp_l, Ev, Zmult_mod_idemp_l, Z.mul_1_l. auto.
Qed.

Lemma inverse_gcd : forall n x w, 1 < n -> is_inverse n x w -> Z.gcd n x = 1.
Proof.
  intros n x w N1 [_ Ew]. apply Zgcd_1_rel_prime. rewrite (Z.mod_small 1) in Ew by lia. apply rel_prime_sym, bezout_rel_prime. apply Bezout_intro with w (- ((x * w) / n)).
  pose proof (Z.div_mod (x * w) n ltac:(lia)) as D. rewrite Ew in D. lia.
Qed.

Lemma dsa_sign_ok : forall p q g x k z bp bq sp sq w, exp_modulus p -> exp_modulus q -> mpval q <= B ^ (nlimbs q - 1) -> gcd_len_ok (LB * nlimbs q) ->
  1 < mpval q < mpval p -> mp_ok g -> mpval g < mpval p -> mp_ok x -> mpval x < mpval q -> mp_ok k -> mpval k < mpval q -> mp_ok z -> mpval z < mpval q ->
  result_buf p bp -> result_buf q bq -> exp_scratch p sp -> mp_ok (NE sq) -> nlimbs q <= zlen sq -> is_inverse (mpval q) (mpval k) w ->
  yields (dsa_sign p q g x k z bp bq sp sq) (fun '(r, s) =>
    becomes bq r ((mpval g ^ mpval k mod mpval p) mod mpval q) /\ becomes bq s (w * (mpval z + mpval x * mpval r) mod mpval q)).
Proof.
  intros p q g x k z bp bq sp sq w Mp Mq SQ GL LT Og Vg Ox Vx Ok Vk Oz Vz Bp Bq Sp Osq Lsq Hw.
  pose proof Mp as (Op & _). pose proof Mq as (Oq & HOq & _). pose proof Bq as (Rbq & _). pose proof Rbq as (Obq & _). pose proof Bp as (Rbp & _). unfold dsa_sign.
  assert (Pq : 0 < mpval q) by lia. pose proof (val_pos x Ox) as X0. pose proof (val_pos z Oz) as Z0.
  eapply yields_bind; [apply power_ok; auto|]. intros v Bv. pose proof Bv as (Ov & _ & Vv). pose proof (residue_becomes _ _ _ _ Rbp Bv) as Rv. pose proof (residue_fits p v Op Rv) as Fv.
  eapply yields_bind; [apply reduce_into_ok; auto; [lia|apply residue_fits; auto]|]. intros r Br. rewrite Vv in Br. pose proof Br as (Or & _ & Vr). pose proof (residue_becomes _ _ _ _ Rbq Br) as Rr.
  pose proof (Z.mod_pos_bound (mpval g ^ mpval k mod mpval p) (mpval q) Pq) as RB. rewrite <- Vr in RB.
  pose proof (inverse_gcd _ _ _ (proj1 LT) Hw) as GC.
  eapply yields_bind; [apply inverse_ok; auto; lia|]. intros w' [Bw Hw']. pose proof (inverse_unique _ _ _ _ Hw' Hw) as EW. pose proof Bw as (Ow & _). pose proof (residue_becomes _ _ _ _ Rbq Bw) as Rw. pose proof Hw as [RW _].
  eapply yields_bind; [apply mul_mod_ok2; auto; lia|]. intros t Bt. pose proof Bt as (Ot & _ & Vt). pose proof (residue_becomes _ _ _ _ Rbq Bt) as Rt.
  pose proof (Z.mod_pos_bound (mpval x * mpval r) (mpval q) Pq) as TB. rewrite <- Vt in TB.
  eapply yields_bind; [apply (C19_add_mod_partial c t z q); auto; [lia|left; apply residue_nlimbs; auto]|].
  intros [t' e] [(-> & Bt')|(_ & _ & X)]; [|exfalso; destruct Rt as (_ & [?|(_ & ?)]); lia]. pose proof Bt' as (Ot' & _ & Vt').
  pose proof (Z.mod_pos_bound (mpval t + mpval z) (mpval q) Pq) as TB'. rewrite <- Vt' in TB'.
  eapply yields_bind; [apply unwrap_ok with (P := fun _ => True); auto|]. intros _ _.
  eapply yields_bind; [apply mul_mod_ok2; auto; lia|]. intros s Bs. apply yields_ret. split; [auto|].
  rewrite Vt', Vt, EW, Zplus_mod_idemp_l, Zmult_mod_idemp_l in Bs. replace (w * (mpval z + mpval x * mpval r)) with ((mpval x * mpval r + mpval z) * w) by ring. auto.
Qed.

Lemma dsa_verify_ok : forall p q g y z r s bp bq sp sq w, exp_modulus p -> exp_modulus q -> mpval q <= B ^ (nlimbs q - 1) -> gcd_len_ok (LB * nlimbs q) ->
  1 < mpval q < mpval p -> mp_ok g -> mpval g < mpval p -> mp_ok y -> mpval y < mpval p -> mp_ok z -> mpval z < mpval q -> mp_ok r -> mpval r < mpval q -> mp_ok s -> mpval s < mpval q ->
  result_buf p bp -> result_buf q bq -> exp_scratch p sp -> mp_ok (NE sq) -> nlimbs q <= zlen sq -> is_inverse (mpval q) (mpval s) w ->
  returns (dsa_verify p q g y z r s bp bq sp sq)
    (((mpval g ^ ((mpval z * w) mod mpval q) * mpval y ^ ((mpval r * w) mod mpval q)) mod mpval p) mod mpval q =? mpval r).
Proof.
  intros p q g y z r s bp bq sp sq w Mp Mq SQ GL LT Og Vg Oy Vy Oz Vz Or Vr Os Vs Bp Bq Sp Osq Lsq Hw.
  cut (yields (dsa_verify p q g y z r s bp bq sp sq) (fun b => b = (((mpval g ^ ((mpval z * w) mod mpval q) * mpval y ^ ((mpval r * w) mod mpval q)) mod mpval p) mod mpval q =? mpval r))).
  { intros (b & Hb & ->). auto. }
  pose proof Mp as (Op & _). pose proof Mq as (Oq & HOq & _). pose proof Bq as (Rbq & _). pose proof Rbq as (Obq & _). pose proof Bp as (Rbp & _). unfold dsa_verify.
  assert (Pq : 0 < mpval q) by lia. assert (Pp : 0 < mpval p) by lia. pose proof (val_pos z Oz) as Z0. pose proof (val_pos r Or) as R0.
  pose proof (inverse_gcd _ _ _ (proj1 LT) Hw) as GC.
  eapply yields_bind; [apply inverse_ok; auto; lia|]. intros w' [Bw Hw']. pose proof (inverse_unique _ _ _ _ Hw' Hw) as EW. pose proof Bw as (Ow & _). pose proof (residue_becomes _ _ _ _ Rbq Bw) as Rw. pose proof Hw as [RW _].
  eapply yields_bind; [apply mul_mod_ok2; auto; lia|]. intros u1 (Ou1 & _ & Vu1). rewrite EW in Vu1.
  eapply yields_bind; [apply mul_mod_ok2; auto; lia|]. intros u2 (Ou2 & _ & Vu2). rewrite EW in Vu2.
  eapply yields_bind; [apply power_ok; auto|]. intros v1 B1. pose proof B1 as (O1 & _ & V1). rewrite Vu1 in V1. pose proof (residue_becomes _ _ _ _ Rbp B1) as R1.
  eapply yields_bind; [apply power_ok; auto|]. intros v2 B2. pose proof B2 as (O2 & _ & V2). rewrite Vu2 in V2. pose proof (residue_becomes _ _ _ _ Rbp B2) as R2.
  assert (L1 : mpval v1 < mpval p) by (rewrite V1; apply Z.mod_pos_bound; auto). assert (L2 : mpval v2 < mpval p) by (rewrite V2; apply Z.mod_pos_bound; auto).
  eapply yields_bind; [apply mul_mod_ok2; auto|]. intros v Bv. pose proof Bv as (Ov & _ & Vv). rewrite V1, V2, <- Zmult_mod in Vv. pose proof (residue_becomes _ _ _ _ Rbp Bv) as Rv. pose proof (residue_fits p v Op Rv) as Fv.
  eapply yields_bind; [apply reduce_into_ok; auto; [lia|apply residue_fits; auto]|]. intros v' Bv'. pose proof Bv' as (Ov' & _ & Vv'). rewrite Vv in Vv'.
  eapply yields_bind; [eapply yields_returns with (P := fun x => x = choice (mpval v' =? mpval r)); [apply (C16_compare c v' r); auto|reflexivity]|]. intros ? ->.
  apply yields_ret. rewrite choice_bool, Vv'. auto.
Qed.

Lemma pow_order : forall p q g a b, 0 < p -> 0 < q -> g ^ q mod p = 1 mod p -> 0 <= a -> 0 <= b -> a mod q = b mod q -> g ^ a mod p = g ^ b mod p.
Proof.
  assert (X : forall p q g a, 0 < p -> 0 < q -> g ^ q mod p = 1 mod p -> 0 <= a -> g ^ a mod p = g ^ (a mod q) mod p).
  { intros p q g a Hp Hq E Ha. pose proof (Z.div_mod a q ltac:(lia)) as D. pose proof (Z.mod_pos_bound a q Hq) as MB. assert (0 <= a / q) by (apply Z.div_pos; lia).
    rewrite D at 1. rewrite Z.pow_add_r, Z.pow_mul_r by (try apply Z.mul_nonneg_nonneg; lia).
    rewrite Z.mul_mod, (Zpower_mod (g ^ q)), E, <- Zpower_mod, Z.pow_1_l, <- Z.mul_mod, Z.mul_1_l by lia. auto. }
  intros p q g a b Hp Hq E Ha Hb EM. rewrite (X p q g a), (X p q g b), EM by auto. auto.
Qed.

Lemma dsa_accepts : forall p q g x k z w w2 r s, 0 < p -> 1 < q -> 0 <= x -> 0 <= k -> 0 <= z -> 0 <= r -> g ^ q mod p = 1 mod p ->
  is_inverse q k w -> s = w * (z + x * r) mod q -> is_inverse q s w2 -> r = (g ^ k mod p) mod q ->
  ((g ^ ((z * w2) mod q) * (g ^ x mod p) ^ ((r * w2) mod q)) mod p) mod q = r.
Proof.
  intros p q g x k z w w2 r s Hp Hq Hx Hk Hz Hr HG [Rw Ew] ES [Rw2 Ew2] ER.
  pose proof (Z.mod_pos_bound (z * w2) q ltac:(lia)) as M1. pose proof (Z.mod_pos_bound (r * w2) q ltac:(lia)) as M2.
  rewrite Z.mul_mod, <- (Zpower_mod (g ^ x) _ p Hp), <- Z.mul_mod, <- Z.pow_mul_r, <- Z.pow_add_r by nia.
  rewrite (pow_order p q g _ k); [auto| | | | | |]; auto; try nia.
  rewrite Zplus_mod_idemp_l, <- Z.add_mod_idemp_r, Zmult_mod_idemp_r, Z.add_mod_idemp_r by lia.
  replace (z * w2 + x * (r * w2)) with ((z + x * r) * w2) by ring.
  (* k = k * s * w2 = (k * w) * (z + x * r) * w2 *)
  transitivity ((k * (s * w2)) mod q).
  - rewrite ES. rewrite <- (Zmult_mod_idemp_r _ k), Zmult_mod_idemp_l, Zmult_mod_idemp_r.
    replace (k * (w * (z + x * r) * w2)) with (k * w * ((z + x * r) * w2)) by ring. rewrite <- (Zmult_mod_idemp_l (k * w)), Ew, Zmult_mod_idemp_l, Z.mul_1_l. auto.
  - rewrite <- (Zmult_mod_idemp_r (s * w2)), Ew2, Zmult_mod_idemp_r, Z.mul_1_r. auto.
Qed.

Lemma inverse_exists : forall q x, prime q -> 0 < x < q -> exists w, is_inverse q x w.
Proof.
  intros q x Hq Hx. pose proof (prime_ge_2 q Hq). assert (R : rel_prime x q) by (apply rel_prime_le_prime; auto; lia).
  destruct (rel_prime_bezout _ _ R) as [u v E]. exists (u mod q). split; [apply Z.mod_pos_bound; lia|].
  rewrite Zmult_mod_idemp_r. replace (x * u) with (1 + (- v) * q) by lia. rewrite Z.mod_add by lia. auto.
Qed.

Lemma dsa_round_trip : forall p q g x y k z bp bq sp sq bp' bq' sp' sq', exp_modulus p -> exp_modulus q -> mpval q <= B ^ (nlimbs q - 1) -> gcd_len_ok (LB * nlimbs q) ->
  prime (mpval q) -> mpval q < mpval p -> mp_ok g -> mpval g < mpval p -> mpval g ^ mpval q mod mpval p = 1 ->
  mp_ok x -> mpval x < mpval q -> mp_ok y -> mpval y = mpval g ^ mpval x mod mpval p -> mp_ok k -> 0 < mpval k < mpval q -> mp_ok z -> mpval z < mpval q ->
  result_buf p bp -> result_buf q bq -> exp_scratch p sp -> mp_ok (NE sq) -> nlimbs q <= zlen sq ->
  result_buf p bp' -> result_buf q bq' -> exp_scratch p sp' -> mp_ok (NE sq') -> nlimbs q <= zlen sq' ->
  yields (dsa_sign p q g x k z bp bq sp sq) (fun '(r, s) => mpval s <> 0 -> returns (dsa_verify p q g y z r s bp' bq' sp' sq') true).
Proof.
  intros p q g x y k z bp bq sp sq bp' bq' sp' sq' Mp Mq SQ GL PQ LT Og Vg HG Ox Vx Oy Vy Ok Vk Oz Vz Bp Bq Sp Osq Lsq Bp' Bq' Sp' Osq' Lsq'.
  pose proof (prime_ge_2 _ PQ) as Q2. assert (Pq : 0 < mpval q) by lia. assert (Pp : 0 < mpval p) by lia. assert (Q1 : 1 < mpval q) by lia. assert (E1 : 1 mod mpval p = 1) by (apply Z.mod_small; lia). destruct (inverse_exists _ _ PQ Vk) as [w Hw].
  pose proof (val_pos x Ox) as X0. pose proof (val_pos z Oz) as Z0.
  eapply yields_mono; [apply (dsa_sign_ok p q g x k z bp bq sp sq w); auto; lia|]. intros [r s] [Br Bs] NZ. pose proof Br as (Or & _ & Vr). pose proof Bs as (Os & _ & Vs).
  pose proof (Z.mod_pos_bound (mpval g ^ mpval k mod mpval p) (mpval q) Pq) as RB. rewrite <- Vr in RB.
  pose proof (Z.mod_pos_bound (w * (mpval z + mpval x * mpval r)) (mpval q) Pq) as SB. rewrite <- Vs in SB.
  assert (SP : 0 < mpval s < mpval q) by (clear - SB NZ; lia). destruct (inverse_exists (mpval q) (mpval s) PQ SP) as [w2 Hw2].
  assert (Ly : mpval y < mpval p) by (rewrite Vy; apply Z.mod_pos_bound; auto).
  pose proof (dsa_verify_ok p q g y z r s bp' bq' sp' sq' w2 Mp Mq SQ GL (conj Q1 LT) Og Vg Oy Ly Oz Vz Or (proj2 RB) Os (proj2 SP) Bp' Bq' Sp' Osq' Lsq' Hw2) as HV.
  rewrite Vy, (dsa_accepts (mpval p) (mpval q) (mpval g) (mpval x) (mpval k) (mpval z) w w2 (mpval r) (mpval s)), Z.eqb_refl in HV; auto; try (apply X0); try (apply Z0); try (apply RB).
  - clear - Vk. lia.
  - rewrite E1. auto.
Qed.

(** As stated in ThmApp3.v. *)
Lemma rsa_crt_any' : forall p q dp kp dq kq qinv xph xpl xqh xql rp rq out s1 s2 x d, crt_key p q dp kp dq kq qinv -> exp_modulus_any p -> exp_modulus_any q ->
  two_parts p xph xpl x -> two_parts q xqh xql x -> crt_exponent p q dp kp dq kq d -> crt_buffers p q rp rq out s1 s2 ->
  exp_fine p (x mod mpval p) dp kp -> exp_fine q (x mod mpval q) dq kq -> mg_fine p (mg_form p ((x ^ d mod mpval p - x ^ d mod mpval q) mod mpval p)) (mpval qinv) ->
  yields (rsa_crt p q dp kp dq kq qinv xph xpl xqh xql rp rq out s1 s2) (fun m => becomes out m (x ^ d mod (mpval p * mpval q))).
Proof.
  intros p q dp kp dq kq qinv xph xpl xqh xql rp rq out s1 s2 x d (? & ? & ? & ? & ? & ? & ? & ? & ?) ? ? (? & ? & ?) (? & ? & ?) (? & ? & ? & ? & ?) (? & ? & ? & ? & ? & ?) ? ? ?.
  apply rsa_crt_any; auto.
Qed.
Lemma rsa_crt_correct' : forall p q dp kp dq kq qinv xph xpl xqh xql rp rq out s1 s2 x d, crt_key p q dp kp dq kq qinv -> exp_modulus p -> exp_modulus q ->
  two_parts p xph xpl x -> two_parts q xqh xql x -> crt_exponent p q dp kp dq kq d -> crt_buffers p q rp rq out s1 s2 ->
  yields (rsa_crt p q dp kp dq kq qinv xph xpl xqh xql rp rq out s1 s2) (fun m => becomes out m (x ^ d mod (mpval p * mpval q))).
Proof.
  intros p q dp kp dq kq qinv xph xpl xqh xql rp rq out s1 s2 x d (? & ? & ? & ? & ? & ? & ? & ? & ?) ? ? (? & ? & ?) (? & ? & ?) (? & ? & ? & ? & ?) (? & ? & ? & ? & ? & ?).
  apply rsa_crt_correct; auto.
Qed.
Lemma rsa_crt_round_trip' : forall p q dp kp dq kq qinv xph xpl xqh xql rp rq out s1 s2 m e, crt_key p q dp kp dq kq qinv -> exp_modulus p -> exp_modulus q ->
  0 <= m < mpval p * mpval q -> 0 < e -> 0 < expo dp kp -> 0 < expo dq kq -> (e * expo dp kp) mod (mpval p - 1) = 1 mod (mpval p - 1) -> (e * expo dq kq) mod (mpval q - 1) = 1 mod (mpval q - 1) ->
  two_parts p xph xpl (m ^ e mod (mpval p * mpval q)) -> two_parts q xqh xql (m ^ e mod (mpval p * mpval q)) -> crt_buffers p q rp rq out s1 s2 ->
  yields (rsa_crt p q dp kp dq kq qinv xph xpl xqh xql rp rq out s1 s2) (fun y => becomes out y m).
Proof.
  intros p q dp kp dq kq qinv xph xpl xqh xql rp rq out s1 s2 m e (PP & PQ & ? & ? & ? & ? & ? & ? & ?) ? ? ? ? ? ? E1 E2 (? & ? & ?) (? & ? & ?) (? & ? & ? & ? & ? & ?).
  pose proof (prime_ge_2 _ PP) as P2. pose proof (prime_ge_2 _ PQ) as Q2.
  assert (DV : forall a n, 0 < n -> a mod n = 1 mod n -> (n | a - 1)).
  { intros a n Hn E. apply Z.mod_divide; [lia|]. rewrite Zminus_mod, E, Z.sub_diag. apply Z.mod_0_l. lia. }
  apply (rsa_crt_round_trip p q (mpval p * mpval q) m e); auto; try (apply Z.mul_pos_pos; auto); try lia; apply DV; auto; lia.
Qed.
Lemma dsa_sign_ok' : forall p q g x k z bp bq sp sq w, dsa_group p q g -> dsa_buffers p q bp bq sp sq -> below q x -> below q k -> below q z -> is_inverse (mpval q) (mpval k) w ->
  yields (dsa_sign p q g x k z bp bq sp sq) (fun '(r, s) =>
    becomes bq r ((mpval g ^ mpval k mod mpval p) mod mpval q) /\ becomes bq s (w * (mpval z + mpval x * mpval r) mod mpval q)).
Proof. intros p q g x k z bp bq sp sq w (? & ? & ? & ? & ? & ? & ?) (? & ? & ? & ? & ?) [? ?] [? ?] [? ?] ?. apply dsa_sign_ok; auto. Qed.
Lemma dsa_verify_ok' : forall p q g y z r s bp bq sp sq w, dsa_group p q g -> dsa_buffers p q bp bq sp sq -> below p y -> below q z -> below q r -> below q s -> is_inverse (mpval q) (mpval s) w ->
  returns (dsa_verify p q g y z r s bp bq sp sq)
    (((mpval g ^ ((mpval z * w) mod mpval q) * mpval y ^ ((mpval r * w) mod mpval q)) mod mpval p) mod mpval q =? mpval r).
Proof. intros p q g y z r s bp bq sp sq w (? & ? & ? & ? & ? & ? & ?) (? & ? & ? & ? & ?) [? ?] [? ?] [? ?] [? ?] ?. apply dsa_verify_ok; auto. Qed.
Lemma dsa_round_trip' : forall p q g x y k z bp bq sp sq bp' bq' sp' sq', dsa_group p q g -> prime (mpval q) -> mpval g ^ mpval q mod mpval p = 1 ->
  dsa_buffers p q bp bq sp sq -> dsa_buffers p q bp' bq' sp' sq' -> below q x -> below q k -> 0 < mpval k -> below q z -> mp_ok y -> mpval y = mpval g ^ mpval x mod mpval p ->
  yields (dsa_sign p q g x k z bp bq sp sq) (fun '(r, s) => mpval s <> 0 -> returns (dsa_verify p q g y z r s bp' bq' sp' sq') true).
Proof.
  intros p q g x y k z bp bq sp sq bp' bq' sp' sq' (? & ? & ? & ? & [? ?] & ? & ?) ? ? (? & ? & ? & ? & ?) (? & ? & ? & ? & ?) [? ?] [? ?] ? [? ?] ? ?.
  apply dsa_round_trip; auto.
Qed.
End App.

(** A wrong signature. *)
Ltac okmp := split; [repeat constructor; vm_compute; congruence|vm_compute; reflexivity].
Lemma dsa_sign_wrong : forall (c : cfg), limb64 c = false -> asm_math c = false -> usize64 c = true ->
  exists p q g x k z bp bq sp sq w, exp_modulus p /\ exp_modulus q /\ gcd_len_ok (LB * nlimbs q) /\ 1 < mpval q < mpval p /\ below p g /\ mpval p = 42 * mpval q + 1 /\ mpval g = 2 ^ 42 mod mpval p /\
  dsa_buffers p q bp bq sp sq /\ below q x /\ below q k /\ below q z /\ is_inverse (mpval q) (mpval k) w /\
  yields (dsa_sign p q g x k z bp bq sp sq) (fun '(r, s) =>
    becomes bq r ((mpval g ^ mpval k mod mpval p) mod mpval q) /\ mp_ok s /\ mpval s < mpval q /\ mpval s <> w * (mpval z + mpval x * mpval r) mod mpval q).
Proof.
  intros [l64 am u64 d] HL HA HU. cbn in HL, HA, HU. subst l64 am u64.
  exists (NE [1450233295; 2576986086; 33]), (NE [3102363147; 3435973972]), (NE [0; 1024; 0]), (BE [57]), (BE [3]), (BE [88]), (NE [0; 0; 0]), (NE [0; 0]), [0; 0; 0], [0; 0], 9838263895166388573.
  destruct d.
  all: split; [split; [okmp|]; split; [reflexivity|]; split; [vm_compute; congruence|]; split; [vm_compute; congruence|reflexivity]|].
  all: split; [split; [okmp|]; split; [reflexivity|]; split; [vm_compute; congruence|]; split; [vm_compute; congruence|reflexivity]|].
  all: split; [reflexivity|]. all: split; [split; reflexivity|]. all: split; [split; [okmp|reflexivity]|]. all: split; [reflexivity|]. all: split; [vm_compute; reflexivity|].
  all: split; [split; [split; [split; [okmp|left; reflexivity]|left; split; [vm_compute; congruence|reflexivity]]|]; split; [split; [split; [okmp|left; reflexivity]|left; split; [vm_compute; congruence|reflexivity]]|];
    split; [split; [okmp|]; split; [vm_compute; congruence|left; split; [vm_compute; congruence|reflexivity]]|]; split; [okmp|vm_compute; congruence]|].
  all: split; [split; [okmp|reflexivity]|]. all: split; [split; [okmp|reflexivity]|]. all: split; [split; [okmp|reflexivity]|].
  all: split; [vm_compute; split; [split; congruence|reflexivity]|].
  all: exists (NE [927739324; 2165454800], NE [2617370892; 453833480]); split; [vm_compute; reflexivity|]; split; [split; [okmp|]; split; [split; reflexivity|vm_compute; reflexivity]|]; split; [okmp|]; split; [reflexivity|vm_compute; congruence].
Qed.
