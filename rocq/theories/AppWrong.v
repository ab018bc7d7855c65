(** Where Diffie-Hellman and RSA with the library go wrong: the exact values of the exponentiations involved. *)
From Coq Require Import ZArith Znumtheory List Bool Lia.
Require Import Verif.Spec Verif.Base Verif.Monad Verif.Wp Verif.ModelLimb Verif.LimbFacts Verif.LimbFacts2 Verif.ModelBuf Verif.SpecBuf Verif.BufFacts Verif.BufProofs
  Verif.ModelMont Verif.SpecMont Verif.SpecMontValue Verif.MontProofs Verif.MontFine Verif.MontValue Verif.ThmMont Verif.SpecApp Verif.SpecAppWrong Verif.PrimeCert Verif.AppProofs.
Import ListNotations.
Open Scope Z_scope.

Fixpoint epower (w k N g b e v : Z) (i : nat) : Z :=
  match i with
  | O => v
  | S j => let q := eprod w k N g v v in epower w k N g b e (if Z.testbit e (Z.of_nat j) then eprod w k N g q b else q) j
  end.
(** What exponentiation returns, checked to be the Montgomery reduction of the power. *)
Definition eexp (w k N g b e : Z) : option Z :=
  let R := 2 ^ (w * k) in
  let one := R mod N in
  let f := eprod w k N g b ((R * R) mod N) in
  let p := epower w k N g f e one (Z.to_nat (Z.log2 e + 1)) in
  let v := eprod w k N g p 1 in
  if (eprod w k N g one one =? one) && ((v * R) mod N =? p mod N) && (0 <=? v) && (v <? N) then Some v else None.
Definition emod (w N g : Z) : bool := ((N * g + 1) mod 2 ^ w =? 0) && (0 <=? g) && (g <? 2 ^ w) && Z.odd N.

Section Facts.
Context {c : cfg}.
Lemma epower_eq : forall n g b e i v, mg_power n g b e v i = epower W (nlimbs n) (mpval n) g b e v i.
Proof. intros n g b e i. induction i as [|i IH]; intros v; [auto|]. cbn [mg_power epower]. unfold mg_power_step. cbv zeta. rewrite IH, !eprod_eq. reflexivity. Qed.

Lemma exp_num : forall n g r x e k s v, exp_modulus_any n -> emod W (mpval n) g = true -> result_buf n r -> residue_buf n x -> mpval x < mpval n -> mp_ok e -> 0 <= k -> 0 < mpval e < 2 ^ k ->
  exp_scratch n s -> eexp W (nlimbs n) (mpval n) g (mpval x) (mpval e) = Some v ->
  yields (ct_exp_mod_odd_mp_mp r x n e k s) (fun '(res, r', _, _) => res = Ok tt /\ becomes r r' v /\ 0 <= v < mpval n).
Proof.
  intros n g r x e k s v (Hn & HO & HNL & HU) EM (HR & HRM) HX HV He Hk Hek (HS & HSL & HSR) EE. pose proof HR as (HRO & _). pose proof HX as (HXO & _).
  destruct (residue_buf_compat n x HX HV Hn) as [C1 C2]. pose proof (val_pos x HXO) as VX. pose proof W_pos as WP.
  unfold emod in EM. repeat (apply andb_prop in EM; let H := fresh "A" in destruct EM as [EM H]). rewrite <- B_eq in *. rewrite Z.eqb_eq in EM. rewrite Z.leb_le in A1. rewrite Z.ltb_lt in A0.
  assert (HG : neg_inv n g) by (split; auto).
  unfold eexp in EE. cbv zeta in EE. rewrite <- epower_eq, <- !eprod_eq in EE.
  assert (ER : 2 ^ (W * nlimbs n) = mg_radix n) by (unfold mg_radix; rewrite B_eq, <- Z.pow_mul_r by (try lia; apply nlimbs_nonneg); reflexivity). rewrite ER in EE.
  set (form := mg_product n g (mpval x) ((mg_radix n * mg_radix n) mod mpval n)) in *. set (one := mg_radix n mod mpval n) in *.
  set (p := mg_power n g form (mpval e) one (Z.to_nat (Z.log2 (mpval e) + 1))) in *. set (w := mg_product n g p 1) in *.
  destruct ((mg_product n g one one =? one) && ((w * mg_radix n) mod mpval n =? p mod mpval n) && (0 <=? w) && (w <? mpval n)) eqn:CH; [|discriminate]. inversion EE; subst v; clear EE.
  repeat (apply andb_prop in CH; let H := fresh "C" in destruct CH as [CH H]). rewrite Z.eqb_eq in CH, C3. rewrite Z.leb_le in C0. rewrite Z.ltb_lt in C.
  eapply yields_mono; [apply (C32_exp_value c r x n e k s g); auto; apply result_buf_fits; auto|]. cbv beta. fold form one.
  intros [[[res r'] x'] s'] (-> & _ & _ & _ & v & HB & HD). split; [auto|].
  assert (EP : mg_power n g form (mpval e) one (Z.to_nat (Z.min k (8 * mp_len e))) = p).
  { pose proof (Z.log2_spec (mpval e) (proj1 Hek)) as [L1 L2]. pose proof (Z.log2_nonneg (mpval e)) as L0. pose proof (mp_len_nonneg e) as Le. pose proof (val_pos e He) as Ve.
    replace 256 with (2 ^ 8) in Ve by reflexivity. rewrite <- Z.pow_mul_r in Ve by lia.
    assert (K1 : Z.log2 (mpval e) < k). { apply (Z.pow_lt_mono_r_iff 2); [lia|lia|]. lia. }
    assert (K2 : Z.log2 (mpval e) < 8 * mp_len e). { apply (Z.pow_lt_mono_r_iff 2); [lia|lia|]. lia. }
    replace (Z.to_nat (Z.min k (8 * mp_len e))) with (Z.to_nat (Z.log2 (mpval e) + 1) + Z.to_nat (Z.min k (8 * mp_len e) - (Z.log2 (mpval e) + 1)))%nat by lia.
    rewrite mg_power_zeros; [reflexivity|exact CH|]. intros j Hj. apply Z.bits_above_log2; lia. }
  rewrite EP in HD. replace w with v; [split; [auto|apply HD]|].
  apply (reduced_unique c n p); auto. split; auto.
Qed.
End Facts.

(** * Diffie-Hellman *)
Definition ekeys (w k N g : Z) : bool :=
  match eexp w k N g (N - 1) 2, eexp w k N g (N - 1) 3 with
  | Some pa, Some pb =>
    match eexp w k N g pb 2, eexp w k N g pa 3 with
    | Some xa, Some xb => negb (xa =? 1) && negb (xb =? 1) && ((w =? 64) || negb (xa =? xb))
    | _, _ => false
    end
  | _, _ => false
  end.
Lemma modp_checks_64 : emod 64 modp1024 (newton modp1024 6) && ekeys 64 16 modp1024 (newton modp1024 6) = true.
Proof. vm_compute. reflexivity. Qed.
Lemma modp_checks_32 : emod 32 modp1024 (newton modp1024 5) && ekeys 32 32 modp1024 (newton modp1024 5) = true.
Proof. vm_compute. reflexivity. Qed.
Lemma modp_six : (modp1024 - 1) ^ (2 * 3) mod modp1024 = 1.
Proof. vm_compute. reflexivity. Qed.

Section Wrong.
Context {c : cfg}.
Lemma exp_any_len : forall n, mp_ok n -> Z.odd (mpval n) = true -> mp_len n < 300 -> 2 * LB <= mp_len n -> exp_modulus_any n.
Proof.
  intros n Hn HO HL H2. pose proof LB_pos as LP. split; [auto|]. split; [auto|]. split.
  - pose proof (nlimbs_spec n) as [_ N2]. clear - N2 H2 LP. nia.
  - assert (LB <= 8) by (unfold LB; destruct (limb64 c); lia). assert (2 ^ 16 <= 2 ^ UW) by (apply Z.pow_le_mono_r; [lia|]; unfold UW; destruct (usize64 c); lia).
    change (2 ^ 16) with 65536 in *. lia.
Qed.
Lemma nlimbs_len : forall n k, mp_len n = k * LB -> nlimbs n = k.
Proof. intros n k E. unfold nlimbs, ct_mp_nlimbs. rewrite E. pose proof LB_pos as LP. replace (k * LB + LB - 1) with (LB - 1 + k * LB) by ring. rewrite Z.div_add, Z.div_small by lia. lia. Qed.

Lemma key_agreement_wrong : forall n g g' a ka b kb ra rb sa sb s1 s2 s3 s4, mp_ok n -> mp_len n = 128 -> mpval n = modp1024 ->
  residue_buf n g -> residue_buf n g' -> mpval g = mpval n - 1 -> mpval g' = mpval g -> mp_ok a -> mpval a = 2 -> 2 <= ka -> mp_ok b -> mpval b = 3 -> 2 <= kb ->
  result_buf n ra -> result_buf n rb -> result_buf n sa -> result_buf n sb -> exp_scratch n s1 -> exp_scratch n s2 -> exp_scratch n s3 -> exp_scratch n s4 ->
  yields (let! '(e1, pa, _, _) := ct_exp_mod_odd_mp_mp ra g n a ka s1 in
          let! '(e2, pb, _, _) := ct_exp_mod_odd_mp_mp rb g' n b kb s2 in
          let! '(e3, xa, _, _) := ct_exp_mod_odd_mp_mp sa pb n a ka s3 in
          let! '(e4, xb, _, _) := ct_exp_mod_odd_mp_mp sb pa n b kb s4 in ret ([e1; e2; e3; e4], xa, xb))
    (fun '(es, xa, xb) => es = [Ok tt; Ok tt; Ok tt; Ok tt] /\ mp_ok xa /\ mp_ok xb /\
      mpval xa <> mpval g ^ (mpval a * mpval b) mod mpval n /\ mpval xb <> mpval g ^ (mpval a * mpval b) mod mpval n /\ (limb64 c = false -> mpval xa <> mpval xb)).
Proof.
  intros n g g' a ka b kb ra rb sa sb s1 s2 s3 s4 Hn LN VN Rg Rg' Vg Vg' Oa Va Ka Ob Vb Kb Bra Brb Bsa Bsb S1 S2 S3 S4.
  assert (CH : exists gi, emod W (mpval n) gi = true /\ ekeys W (nlimbs n) (mpval n) gi = true).
  { rewrite VN. unfold W. pose proof (nlimbs_len n) as NL. unfold LB in *. destruct (limb64 c).
    - rewrite (NL 16) by lia. exists (newton modp1024 6). apply andb_prop. exact modp_checks_64.
    - rewrite (NL 32) by lia. exists (newton modp1024 5). apply andb_prop. exact modp_checks_32. }
  destruct CH as (gi & EM & EK). assert (HO : Z.odd (mpval n) = true) by (unfold emod in EM; apply andb_prop in EM; apply EM).
  assert (HM : exp_modulus_any n). { apply exp_any_len; auto; [lia|]. unfold LB. destruct (limb64 c); lia. }
  assert (SIX : (mpval n - 1) ^ (2 * 3) mod mpval n = 1) by (rewrite VN; exact modp_six).
  assert (P2 : forall k, 2 <= k -> 0 < 2 < 2 ^ k /\ 0 < 3 < 2 ^ k). { intros k Hk. assert (2 ^ 2 <= 2 ^ k) by (apply Z.pow_le_mono_r; lia). change (2 ^ 2) with 4 in *. lia. }
  unfold ekeys in EK. destruct (eexp W (nlimbs n) (mpval n) gi (mpval n - 1) 2) as [pa|] eqn:E1; [|discriminate]. destruct (eexp W (nlimbs n) (mpval n) gi (mpval n - 1) 3) as [pb|] eqn:E2; [|discriminate].
  destruct (eexp W (nlimbs n) (mpval n) gi pb 2) as [xa|] eqn:E3; [|discriminate]. destruct (eexp W (nlimbs n) (mpval n) gi pa 3) as [xb|] eqn:E4; [|discriminate].
  eapply yields_bind; [apply (exp_num n gi ra g a ka s1 pa); auto; [lia|lia|rewrite Va; apply P2; auto|rewrite Vg, Va; auto]|]. intros [[[e1 r1] y1] z1] (-> & Bpa & Lpa).
  eapply yields_bind; [apply (exp_num n gi rb g' b kb s2 pb); auto; [lia|lia|rewrite Vb; apply P2; auto|rewrite Vg', Vg, Vb; auto]|]. intros [[[e2 r2] y2] z2] (-> & Bpb & Lpb).
  pose proof Bpa as (Opa & _ & Vpa). pose proof Bpb as (Opb & _ & Vpb).
  eapply yields_bind; [apply (exp_num n gi sa r2 a ka s3 xa); auto; [eapply residue_becomes; [apply Brb|exact Bpb]|lia|lia|rewrite Va; apply P2; auto|rewrite Vpb, Va; auto]|]. intros [[[e3 r3] y3] z3] (-> & Bxa & _).
  eapply yields_bind; [apply (exp_num n gi sb r1 b kb s4 xb); auto; [eapply residue_becomes; [apply Bra|exact Bpa]|lia|lia|rewrite Vb; apply P2; auto|rewrite Vpa, Vb; auto]|]. intros [[[e4 r4] y4] z4] (-> & Bxb & _).
  apply yields_ret. destruct Bxa as (Oxa & _ & Vxa). destruct Bxb as (Oxb & _ & Vxb). rewrite Vxa, Vxb, Va, Vb, Vg, SIX.
  apply andb_prop in EK as [EK K3]. apply andb_prop in EK as [K1 K2]. apply negb_true_iff, Z.eqb_neq in K1. apply negb_true_iff, Z.eqb_neq in K2.
  split; [auto|]. split; [auto|]. split; [auto|]. split; [auto|]. split; [auto|]. intros L64. unfold W, LB in K3. rewrite L64 in K3. apply negb_true_iff, Z.eqb_neq in K3. auto.
Qed.
End Wrong.

(** * RSA *)
Lemma prime_1657 : prime 1657.
Proof. apply (prime_trial _ 41); [reflexivity|reflexivity|discriminate|vm_compute; reflexivity]. Qed.
Lemma prime_159073 : prime 159073.
Proof. apply (pocklington _ 1657 96 2); [reflexivity|exact prime_1657|reflexivity|reflexivity|reflexivity|vm_compute; reflexivity|vm_compute; reflexivity]. Qed.
Lemma prime_4772191 : prime 4772191.
Proof. apply (pocklington _ 159073 30 2); [reflexivity|exact prime_159073|reflexivity|reflexivity|reflexivity|vm_compute; reflexivity|vm_compute; reflexivity]. Qed.
Lemma prime_28633147 : prime 28633147.
Proof. apply (pocklington _ 4772191 6 2); [reflexivity|exact prime_4772191|reflexivity|reflexivity|reflexivity|vm_compute; reflexivity|vm_compute; reflexivity]. Qed.
Lemma prime_4294972051 : prime 4294972051.
Proof. apply (pocklington _ 28633147 150 2); [reflexivity|exact prime_28633147|reflexivity|reflexivity|reflexivity|vm_compute; reflexivity|vm_compute; reflexivity]. Qed.
Lemma prime_4391 : prime 4391.
Proof. apply (prime_trial _ 67); [reflexivity|reflexivity|discriminate|vm_compute; reflexivity]. Qed.
Lemma prime_114167 : prime 114167.
Proof. apply (pocklington _ 4391 26 2); [reflexivity|exact prime_4391|reflexivity|reflexivity|reflexivity|vm_compute; reflexivity|vm_compute; reflexivity]. Qed.
Lemma prime_4294962541 : prime 4294962541.
Proof. apply (pocklington _ 114167 37620 2); [reflexivity|exact prime_114167|reflexivity|reflexivity|reflexivity|vm_compute; reflexivity|vm_compute; reflexivity]. Qed.
Lemma prime_56921 : prime 56921.
Proof. apply (prime_trial _ 239); [reflexivity|reflexivity|discriminate|vm_compute; reflexivity]. Qed.
Lemma prime_113843 : prime 113843.
Proof. apply (pocklington _ 56921 2 2); [reflexivity|exact prime_56921|reflexivity|reflexivity|reflexivity|vm_compute; reflexivity|vm_compute; reflexivity]. Qed.
Lemma prime_217440131 : prime 217440131.
Proof. apply (pocklington _ 113843 1910 2); [reflexivity|exact prime_113843|reflexivity|reflexivity|reflexivity|vm_compute; reflexivity|vm_compute; reflexivity]. Qed.
Lemma prime_400998740787581 : prime 400998740787581.
Proof. apply (pocklington _ 217440131 1844180 2); [reflexivity|exact prime_217440131|reflexivity|reflexivity|reflexivity|vm_compute; reflexivity|vm_compute; reflexivity]. Qed.
Lemma prime_18446744073710301163 : prime 18446744073710301163.
Proof. apply (pocklington _ 400998740787581 46002 2); [reflexivity|exact prime_400998740787581|reflexivity|reflexivity|reflexivity|vm_compute; reflexivity|vm_compute; reflexivity]. Qed.
Lemma prime_5653 : prime 5653.
Proof. apply (prime_trial _ 76); [reflexivity|reflexivity|discriminate|vm_compute; reflexivity]. Qed.
Lemma prime_124367 : prime 124367.
Proof. apply (pocklington _ 5653 22 2); [reflexivity|exact prime_5653|reflexivity|reflexivity|reflexivity|vm_compute; reflexivity|vm_compute; reflexivity]. Qed.
Lemma prime_12934169 : prime 12934169.
Proof. apply (pocklington _ 124367 104 2); [reflexivity|exact prime_124367|reflexivity|reflexivity|reflexivity|vm_compute; reflexivity|vm_compute; reflexivity]. Qed.
Lemma prime_103473353 : prime 103473353.
Proof. apply (pocklington _ 12934169 8 2); [reflexivity|exact prime_12934169|reflexivity|reflexivity|reflexivity|vm_compute; reflexivity|vm_compute; reflexivity]. Qed.
Lemma prime_679888842463099 : prime 679888842463099.
Proof. apply (pocklington _ 103473353 6570666 2); [reflexivity|exact prime_103473353|reflexivity|reflexivity|reflexivity|vm_compute; reflexivity|vm_compute; reflexivity]. Qed.
Lemma prime_18446744073708802069 : prime 18446744073708802069.
Proof. apply (pocklington _ 679888842463099 27132 2); [reflexivity|exact prime_679888842463099|reflexivity|reflexivity|reflexivity|vm_compute; reflexivity|vm_compute; reflexivity]. Qed.

Definition etrip (w k N g m e d : Z) : bool :=
  match eexp w k N g m e with Some x => match eexp w k N g x d with Some y => negb (y =? m) | None => false end | None => false end.
Definition rsa_check (w : Z) (r : rsa_numbers) : bool :=
  let N := rsa_p r * rsa_q r in let g := newton N (if w =? 64 then 6 else 5) in
  emod w N g && etrip w 2 N g (N - 2) (rsa_e r) (rsa_d r) && ((rsa_e r * rsa_d r - 1) mod (rsa_p r - 1) =? 0) && ((rsa_e r * rsa_d r - 1) mod (rsa_q r - 1) =? 0) &&
  (0 <? rsa_e r) && (0 <? rsa_d r) && negb (rsa_p r =? rsa_q r) && (2 <? N).
Lemma rsa_check_64 : rsa_check 64 (rsa_wrong true) = true.
Proof. vm_compute. reflexivity. Qed.
Lemma rsa_check_32 : rsa_check 32 (rsa_wrong false) = true.
Proof. vm_compute. reflexivity. Qed.
Lemma rsa_wrong_primes : forall l64, prime (rsa_p (rsa_wrong l64)) /\ prime (rsa_q (rsa_wrong l64)).
Proof. intros []; [split; [exact prime_18446744073710301163|exact prime_18446744073708802069]|split; [exact prime_4294972051|exact prime_4294962541]]. Qed.

Lemma rsa_round_trip_wrong : forall (c : cfg) n m e ke d kd r r2 s1 s2,
  let w := rsa_wrong (limb64 c) in
  mp_ok n -> mp_len n = 2 * LB -> mpval n = rsa_p w * rsa_q w -> residue_buf n m -> mpval m = mpval n - 2 ->
  mp_ok e -> mpval e = rsa_e w -> 0 <= ke -> mpval e < 2 ^ ke -> mp_ok d -> mpval d = rsa_d w -> 0 <= kd -> mpval d < 2 ^ kd ->
  result_buf n r -> result_buf n r2 -> exp_scratch n s1 -> exp_scratch n s2 ->
  (prime (rsa_p w) /\ prime (rsa_q w) /\ rsa_p w <> rsa_q w /\ (rsa_p w - 1 | rsa_e w * rsa_d w - 1) /\ (rsa_q w - 1 | rsa_e w * rsa_d w - 1)) /\
  yields (let! '(e1, x, _, _) := ct_exp_mod_odd_mp_mp r m n e ke s1 in
          let! '(e2, y, _, _) := ct_exp_mod_odd_mp_mp r2 x n d kd s2 in ret (e1, e2, y))
    (fun '(e1, e2, y) => e1 = Ok tt /\ e2 = Ok tt /\ mp_ok y /\ mpval y <> mpval m).
Proof.
  intros c n m e ke d kd r r2 s1 s2 w Hn LN VN Rm Vm Oe Ve Ke Le Od Vd Kd Ld Br Br2 S1 S2.
  assert (CH : rsa_check W w = true) by (unfold W, LB, w; destruct (limb64 c); [exact rsa_check_64|exact rsa_check_32]).
  pose proof (rsa_wrong_primes (limb64 c)) as [PP PQ]. fold w in PP, PQ. pose proof (prime_ge_2 _ PP) as P2. pose proof (prime_ge_2 _ PQ) as Q2.
  unfold rsa_check in CH. cbv zeta in CH. rewrite <- VN in CH. set (g := newton (mpval n) (if W =? 64 then 6 else 5)) in *. clearbody g. clearbody w.
  do 7 (apply andb_prop in CH; let H := fresh "A" in destruct CH as [CH H]). rewrite Z.ltb_lt in A, A1, A2. rewrite Z.eqb_eq in A3, A4. apply negb_true_iff, Z.eqb_neq in A0.
  destruct (Z.eq_dec (rsa_p w) 2) as [X|NP2]. { exfalso. assert (HO : Z.odd (mpval n) = true) by (unfold emod in CH; apply andb_prop in CH; apply CH). rewrite VN, X, Z.odd_mul in HO. discriminate. }
  destruct (Z.eq_dec (rsa_q w) 2) as [X|NQ2]. { exfalso. assert (HO : Z.odd (mpval n) = true) by (unfold emod in CH; apply andb_prop in CH; apply CH). rewrite VN, X, Z.odd_mul, andb_false_r in HO. discriminate. }
  split. { split; [auto|]. split; [auto|]. split; [auto|]. split; apply Z.mod_divide; auto; lia. }
  assert (HO : Z.odd (mpval n) = true) by (unfold emod in CH; apply andb_prop in CH; apply CH). pose proof LB_pos as LP.
  assert (HM : exp_modulus_any n). { apply exp_any_len; auto; [rewrite LN; unfold LB; destruct (limb64 c)|]; lia. }
  assert (NL : nlimbs n = 2) by (apply nlimbs_len; auto).
  unfold etrip in A5. replace (eexp W 2) with (eexp W (nlimbs n)) in A5 by (rewrite NL; reflexivity). destruct (eexp W (nlimbs n) (mpval n) g (mpval n - 2) (rsa_e w)) as [x|] eqn:E1; [|discriminate]. destruct (eexp W (nlimbs n) (mpval n) g x (rsa_d w)) as [y|] eqn:E2; [|discriminate].
  apply negb_true_iff, Z.eqb_neq in A5.
  eapply yields_bind; [apply (exp_num n g r m e ke s1 x); auto; [lia|lia|rewrite Vm, Ve; auto]|]. intros [[[e1 r1] y1] z1] (-> & Bx & Lx). pose proof Bx as (Ox & _ & Vx).
  eapply yields_bind; [apply (exp_num n g r2 r1 d kd s2 y); auto; [eapply residue_becomes; [apply Br|exact Bx]|lia|lia|rewrite Vx, Vd; auto]|]. intros [[[e2 r3] y2] z2] (-> & By & Ly). pose proof By as (Oy & _ & Vy).
  apply yields_ret. split; [auto|]. split; [auto|]. split; [auto|]. rewrite Vy, Vm. auto.
Qed.
