(** Proofs about sequences of calls: inverses that do not agree (C51), and products that go wrong (C48). *)
From Coq Require Import ZArith Znumtheory Lia List Bool.
Require Import Verif.Spec Verif.Base Verif.Monad Verif.Wp Verif.ModelLimb Verif.LimbFacts Verif.LimbFacts2 Verif.LimbProofs
  Verif.ModelBuf Verif.SpecBuf Verif.BufFacts Verif.BufProofs Verif.ModelCmp Verif.ModelAdd Verif.ModelShift Verif.ModelMul Verif.ModelDiv Verif.SpecDiv
  Verif.SpecMont Verif.ModelMont Verif.SpecEuclid Verif.ModelEuclid Verif.PrimeFacts2 Verif.SpecApp
  Verif.ThmAdd Verif.ThmShift Verif.ThmMul Verif.ThmDiv Verif.ThmMont Verif.ThmGcd Verif.MontProofs Verif.ThmInvOdd Verif.ThmLcm Verif.ModelLcm Verif.AppProofs Verif.PrimeCert2 Verif.MontNear Verif.ThmApp Verif.AppProofs2 Verif.AppProofs5 Verif.MontFacts Verif.MontFine.
Import ListNotations.
Open Scope Z_scope.

Ltac okm := split; [repeat constructor; vm_compute; congruence|vm_compute; reflexivity].

Section Facts.
Context {c : cfg}.

Lemma fermat_wrong : forall n x e k r r2 x2 s s0 s1, mp_ok n -> mpval n = p25519 -> mp_len n = 32 ->
  residue_buf n x -> residue_buf n x2 -> mpval x = 50 -> mpval x2 = 50 ->
  mp_ok e -> 0 <= k -> expo e k = mpval n - 2 -> result_buf n r -> residue_buf n r2 -> exp_scratch n s ->
  mp_ok (NE s0) -> mp_ok (NE s1) -> nlimbs n <= zlen s0 -> nlimbs n <= zlen s1 ->
  prime (mpval n) /\
  yields (let! '(e1, y, _, _) := ct_exp_mod_odd_mp_mp r x n e k s in
          let! '(e2, z, _, _, _) := ct_inv_mod_odd_mp_mp r2 x2 n s0 s1 in ret (e1, e2, y, z))
    (fun '(e1, e2, y, z) => e1 = Ok tt /\ e2 = Ok tt /\ is_inverse (mpval n) (mpval x) (mpval y) /\ ~ is_inverse (mpval n) (mpval x) (mpval z)).
Proof.
  intros n x e k r r2 x2 s s0 s1 Hn VN LN RX RX2 VX VX2 He Hk HE RR RR2 HS A1 A2 A3 A4.
  assert (HP : prime (mpval n)) by (rewrite VN; exact prime_p25519). split; [exact HP|].
  pose proof LB_pos as LP. pose proof (nlimbs_spec n) as NS. rewrite LN in NS.
  assert (BIG : 50 < mpval n) by (rewrite VN; reflexivity).
  assert (NW : W * nlimbs n = 256) by (unfold W in *; destruct LB_cases as [E|E]; rewrite E in *; lia).
  assert (HO : Z.odd (mpval n) = true) by (rewrite VN; reflexivity).
  assert (HM : exp_modulus n).
  { split; [auto|]. split; [auto|]. split; [destruct LB_cases as [E|E]; rewrite E in *; lia|]. split; [apply C30_carry_ok_curves; auto|].
    rewrite LN. destruct LB_cases as [E|E]; rewrite E; unfold UW; destruct (usize64 c); reflexivity. }
  eapply yields_bind; [apply exp_app; auto; lia|]. intros [[[e1 y] y1] y2] (-> & (_ & _ & BY) & _ & _).
  destruct (residue_buf_compat n x2 RX2 ltac:(lia) Hn) as [C1 C2]. pose proof RX2 as (OX2 & _). pose proof RR2 as (OR2 & _).
  destruct (C34_inv_curves_refuted c r2 x2 n s0 s1) as (_ & _ & HI); auto; [apply result_buf_fits; auto|split; auto| |].
  { rewrite NW, VN, VX2. right. right. left. reflexivity. }
  eapply yields_bind; [exact HI|]. intros [[[[e2 z] z1] z2] z3] (-> & NI). apply yields_ret. split; auto. split; auto. rewrite VX, <- VX2. split; [|exact NI].
  rewrite BY, HE, VX2, VX. split; [apply Z.mod_pos_bound; lia|].
  rewrite Zmult_mod_idemp_r. change 50 with (50 ^ 1) at 1. rewrite <- Z.pow_add_r by lia. replace (1 + (mpval n - 2)) with (mpval n - 1) by lia. rewrite fermat; auto.
  - rewrite Z.mod_small; lia.
  - intros D. apply Z.divide_pos_le in D; lia.
Qed.

Lemma radix_inverse : forall n, mp_ok n -> Z.odd (mpval n) = true -> exists u, (u * mg_radix n) mod mpval n = 1 mod mpval n.
Proof.
  intros n Hn HO. assert (RP : rel_prime (mpval n) (mg_radix n)).
  { apply Zgcd_1_rel_prime. apply Verif.MontFacts6.radix_coprime; auto. }
  destruct (rel_prime_bezout _ _ RP) as [u v E]. exists v. replace (v * mg_radix n) with (1 + (- u) * mpval n) by lia. apply Z_mod_plus_full.
Qed.
Lemma form_onto : forall n x, mp_ok n -> Z.odd (mpval n) = true -> 0 <= x < mpval n -> exists a, 0 <= a < mpval n /\ mg_form n a = x.
Proof.
  intros n x Hn HO Hx. destruct (radix_inverse n Hn HO) as [u E]. exists ((x * u) mod mpval n). split; [apply Z.mod_pos_bound; lia|].
  unfold mg_form. rewrite Zmult_mod_idemp_l, <- Z.mul_assoc, <- Zmult_mod_idemp_r, E, Zmult_mod_idemp_r, Z.mul_1_r. apply Z.mod_small. lia.
Qed.

Lemma product_near_radix : forall n i, exp_modulus_any n -> 1 <= i -> B ^ i * B * mg_radix n + B ^ i * B ^ i * B <= (B ^ i * (B + 1) - 2) * mpval n ->
  exists x y, 0 <= x < mpval n /\ 0 <= y < mpval n /\ forall a b r, residue_buf n a -> residue_buf n b -> mpval a = x -> mpval b = y -> result_buf n r ->
  yields (let! '(e1, a1) := ct_to_montgomery_form_direct_mp a n in let! '(e2, b1) := ct_to_montgomery_form_direct_mp b n in
          let! g := ct_montgomery_neg_n0_inv_mod_l_mp n in
          match g with
          | Ok g => let! '(e3, x) := ct_montgomery_mul_mod_mp_mp r a1 b1 n g in let! '(e4, y) := ct_montgomery_redc_mp x n g in ret ([e1; e2; e3; e4], y)
          | Err _ => panic
          end)
    (fun '(es, z) => es = [Ok tt; Ok tt; Ok tt; Ok tt] /\ mpval z <> (x * y) mod mpval n).
Proof.
  intros n i HM Hi H. pose proof HM as (Hn & HO & _).
  assert (B2 : 2 < B) by (unfold B, W, LB; destruct (limb64 c); reflexivity).
  assert (BP : B <= B ^ i). { rewrite <- (Z.pow_1_r B) at 1. apply Z.pow_le_mono_r; lia. }
  pose proof (mpval_bound n Hn) as NB. assert (N0 : 0 < mpval n) by (destruct (Z.eq_dec (mpval n) 0) as [Z0|]; [rewrite Z0 in HO; discriminate HO|lia]).
  assert (P0 : 0 < B ^ i) by (clear - B2 BP; lia).
  pose proof (Z.mod_pos_bound (2 * mpval n) (B ^ i) P0) as MB.
  set (x := B ^ i * B - 1) in *. set (y := mpval n - (2 * mpval n) mod B ^ i) in *.
  assert (NR : 0 <= mpval n < mg_radix n) by (unfold mg_radix; apply mpval_bound_B; auto).
  destruct (near_arith B (B ^ i) (mg_radix n) (mpval n)) as [L1 _]; auto; [lia|].
  assert (X0 : 0 <= x < mpval n) by (unfold x; nia).
  assert (D1 : (2 * mpval n) mod B ^ i <> 0).
  { intros D0. apply Z.mod_divide in D0; [|lia]. destruct D0 as [q D0].
    assert (F : exists k, B ^ i = 4 * k).
    { exists (2 ^ (W - 2) * B ^ (i - 1)). replace i with (1 + (i - 1)) at 1 by ring. rewrite Z.pow_add_r, Z.pow_1_r by lia. rewrite Z.mul_assoc. f_equal.
      unfold B, W, LB. destruct (limb64 c); reflexivity. }
    destruct F as [k F]. rewrite F in D0. assert (mpval n = 2 * (q * k)) as D2 by lia. rewrite D2, Z.odd_mul in HO. discriminate HO. }
  assert (Y0 : 0 <= y < mpval n) by (unfold y; nia).
  destruct (becomes_exists n x Hn ltac:(lia)) as (bx & OX & _ & VX). destruct (becomes_exists n y Hn ltac:(lia)) as (by_ & OY & _ & VY).
  pose proof (near_lost n i bx by_ Hn OX OY Hi H VX VY) as [_ NL].
  assert (NF : ~ mg_fine n x y). { intros F. apply NL. apply fine_not_lost. rewrite VX, VY. exact F. }
  destruct (form_onto n x Hn HO X0) as (a & A0 & EA). destruct (form_onto n y Hn HO Y0) as (b & B0 & EB). exists a, b. split; [auto|]. split; [auto|].
  intros ba bb r RA RB VA VB RR. eapply yields_mono; [apply (C48_montgomery_product_any c n ba bb r); auto|]. intros [es z] (-> & _ & _ & _ & I). split; [reflexivity|].
  rewrite VA, VB, EA, EB in I. tauto.
Qed.
Lemma product_curves : forall n, exp_modulus_any n ->
  (mp_len n = 48 /\ mpval n = p384) \/ (mp_len n = 32 /\ mpval n = secp256k1) \/ (limb64 c = false /\ mp_len n = 32 /\ mpval n = p256) ->
  exists x y, 0 <= x < mpval n /\ 0 <= y < mpval n /\ forall a b r, residue_buf n a -> residue_buf n b -> mpval a = x -> mpval b = y -> result_buf n r ->
  yields (let! '(e1, a1) := ct_to_montgomery_form_direct_mp a n in let! '(e2, b1) := ct_to_montgomery_form_direct_mp b n in
          let! g := ct_montgomery_neg_n0_inv_mod_l_mp n in
          match g with
          | Ok g => let! '(e3, x) := ct_montgomery_mul_mod_mp_mp r a1 b1 n g in let! '(e4, y) := ct_montgomery_redc_mp x n g in ret ([e1; e2; e3; e4], y)
          | Err _ => panic
          end)
    (fun '(es, z) => es = [Ok tt; Ok tt; Ok tt; Ok tt] /\ mpval z <> (x * y) mod mpval n).
Proof.
  intros n HM H. apply (product_near_radix n (if limb64 c then 1 else 4) HM); [destruct (limb64 c); lia|].
  clear HM. unfold mg_radix, nlimbs, ct_mp_nlimbs. destruct H as [[E V]|[[E V]|[L [E V]]]]; rewrite E, V; destruct c as [l64 am u64 d]; try (cbn in L; subst l64);
    try destruct l64; vm_compute; congruence.
Qed.

Lemma gcd_lcm_wrong : debug c = false -> exists a b l0 l1 res scr, mp_ok a /\ mp_ok b /\ mp_ok res /\ mp_ok scr /\ 0 < mp_len a /\ mut_compat a b /\
  gcd_len_ok (Z.max (mp_len a) (mp_len b)) /\ kind_of scr = kind_of b /\ 0 < l0 <= mp_len a /\ 0 < l1 <= mp_len b /\
  mpval a < 256 ^ l0 /\ mpval b < 256 ^ l1 /\ l0 + l1 + LB <= mp_len res /\ l0 + l1 <= mp_len scr /\
  yields (let! '(r1, g, _) := ct_gcd_mp_mp a b in let! '(r2, m, _, _, _) := ct_lcm_mp_mp res a l0 b l1 scr in
          let! p := ct_mul_trunc_mp_mp m (l0 + l1) g in ret (r1, r2, p))
    (fun '(r1, r2, p) => r1 = Ok tt /\ r2 = Ok tt /\ mpval p <> mpval a * mpval b).
Proof.
  intros HD. exists (LE (zrepeat 255 (LB - 1))), (NE [256 ^ (LB - 1) - 1]), (LB - 1), LB, (LE (zrepeat 0 (4 * LB))), (NE [0; 0]).
  assert (H : let a := LE (zrepeat 255 (LB - 1)) in let b := NE [256 ^ (LB - 1) - 1] in let res := LE (zrepeat 0 (4 * LB)) in let scr := NE [0; 0] in
    mp_ok a /\ mp_ok b /\ mp_ok res /\ mp_ok scr /\ 0 < mp_len a /\ mut_compat a b /\ gcd_len_ok (Z.max (mp_len a) (mp_len b)) /\
    mp_len a = LB - 1 /\ mp_len b = LB /\ mp_len res = 4 * LB /\ mp_len scr = 2 * LB /\ mpval a = 256 ^ (LB - 1) - 1 /\ mpval b = 256 ^ (LB - 1) - 1 /\
    (let q := lcm_short_quotient (mpval a) (mpval b) LB (LB - 1) in byte_len (lcm_short_divisor (mpval a) (mpval b) LB (LB - 1)) (LB - 1) /\
     stored_len b (LB - 1 + LB) + stored_len b LB <= mp_len res + (LB - 1) /\ q < B ^ nlimbs res /\ 0 <= q < 256 ^ (LB - 1 + LB) /\ q * mpval a < 256 ^ mp_len res /\ q <> mpval a) /\ Z.gcd (mpval a) (mpval b) = mpval a).
  { cbv zeta. clear HD. destruct c as [l64 am u64 d]. unfold B, W, LB. cbn [limb64]. destruct l64, u64;
    (split; [okm|]; split; [okm|]; split; [okm|]; split; [okm|]; split; [vm_compute; reflexivity|];
     split; [split; [left; vm_compute; congruence|right; split; [|split]; vm_compute; reflexivity]|];
     repeat split; vm_compute; congruence). }
  cbv zeta in H. set (a := LE _) in *. set (b := NE [256 ^ _ - 1]) in *. set (res := LE (zrepeat 0 _)) in *. set (scr := NE [0; 0]) in *.
  assert (KS : kind_of scr = kind_of b) by reflexivity. clearbody a b res scr.
  destruct H as (Ha & Hb & Hr & Hs & A0 & MC & GL & LA & LBb & LR & LS & VA & VB & (BD & ST & Q1 & Q2 & Q3 & Q4) & EG).
  pose proof LB_cases as L4.
  assert (PW : 256 ^ LB = 256 * 256 ^ (LB - 1)). { replace LB with (1 + (LB - 1)) at 1 by lia. rewrite Z.pow_add_r by lia. reflexivity. }
  assert (P1 : 256 <= 256 ^ (LB - 1)) by (destruct L4 as [->| ->]; vm_compute; congruence).
  split; [auto|]. split; [auto|]. split; [auto|]. split; [auto|]. split; [auto|]. split; [auto|]. split; [auto|]. split; [auto|].
  split; [lia|]. split; [lia|]. split; [lia|]. split; [lia|]. split; [lia|]. split; [lia|].
  eapply yields_bind; [apply C33_gcd; auto; lia|]. intros [[r1 g] z] (-> & (G1 & G2 & G3) & _). rewrite EG in G3.
  pose proof (C37_lcm_first_short c res a (LB - 1) b LB scr Hr Ha Hb Hs KS MC GL) as F. rewrite LA in F. destruct F as [_ F]; try lia.
  destruct (F HD (LB - 1) BD) as [_ Y]. specialize (Y ST Q1).
  eapply yields_bind; [exact Y|]. intros [[[[r2 m] x1] x2] x3] (-> & BM & _). pose proof BM as (M1 & M2 & M3). pose proof (becomes_len _ _ _ BM) as LM.
  set (q := lcm_short_quotient (mpval a) (mpval b) LB (LB - 1)) in *. clearbody q.
  assert (QS : 256 ^ (LB - 1 + LB) <= 256 ^ mp_len res) by (apply Z.pow_le_mono_r; lia).
  rewrite Z.mod_small in M3 by lia.
  eapply yields_bind; [apply C22_mul; auto; lia|]. intros p (_ & _ & BP). cbv beta in BP. apply yields_ret. split; auto. split; auto.
  rewrite M3, G3, LM, (Z.mod_small q), Z.mod_small in BP by nia. rewrite BP, VB, <- VA. nia.
Qed.
End Facts.
