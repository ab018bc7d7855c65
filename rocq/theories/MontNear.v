(** Moduli close to the Montgomery radix: there are factors losing a carry. *)
From Coq Require Import ZArith List Bool Lia.
Require Import Verif.Spec Verif.Base Verif.Monad Verif.Wp Verif.ModelLimb Verif.LimbFacts
  Verif.ModelBuf Verif.SpecBuf Verif.BufFacts Verif.BufProofs Verif.ModelMont Verif.SpecMont Verif.MontExact.
Import ListNotations.
Open Scope Z_scope.

(** The arithmetic: [P] is the weight of the limb at which the carry gets lost, [R] the radix. *)
Lemma near_arith : forall b P R n, 2 < b -> b <= P -> 0 < n < R -> P * b * R + P * P * b <= (P * (b + 1) - 2) * n ->
  P * b <= n /\ b * R <= (P - 1) * (2 * n / P) + (b - 1) * (n - (2 * n) mod P).
Proof.
  intros b P R n Hb HP Hn H.
  assert (P0 : 0 < P) by lia. assert (PN : P <> 0) by lia.
  pose proof (Z.div_mod (2 * n) P PN) as E. pose proof (Z.mod_pos_bound (2 * n) P P0) as MB.
  set (q := 2 * n / P) in *. set (d := (2 * n) mod P) in *. clearbody q d.
  assert (U1 : P * b * R + P * P * b <= P * b * n + P * n) by nia.
  assert (U2 : b * R + P * b <= b * n + n) by nia.
  split.
  - assert (P * b < n) by nia. lia.
  - apply (Z.mul_le_mono_pos_l _ _ P); [lia|].
    assert (G : P * (P - 1) * q = (P - 1) * (2 * n - d)) by nia.
    replace (P * ((P - 1) * q + (b - 1) * (n - d))) with (P * (P - 1) * q + P * (b - 1) * (n - d)) by ring. rewrite G.
    assert (S : ((P - 1) + P * (b - 1)) * d <= P * b * P) by nia.
    nia.
Qed.

Section Facts.
Context {c : cfg}.

Lemma near_lost : forall n i op0 op1, mp_ok n -> mp_ok op0 -> mp_ok op1 -> 1 <= i ->
  B ^ i * B * mg_radix n + B ^ i * B ^ i * B <= (B ^ i * (B + 1) - 2) * mpval n ->
  mpval op0 = B ^ i * B - 1 -> mpval op1 = mpval n - (2 * mpval n) mod B ^ i ->
  B ^ i * B <= mpval n /\ ~ mg_no_carry_lost op0 op1 n.
Proof.
  intros n i op0 op1 Hn H0 H1 Hi H E0 E1.
  assert (B2 : 2 < B) by (unfold B, W, LB; destruct (limb64 c); reflexivity).
  assert (BP : B <= B ^ i). { rewrite <- (Z.pow_1_r B) at 1. apply Z.pow_le_mono_r; lia. }
  assert (NR : 0 <= mpval n < mg_radix n) by (unfold mg_radix; apply mpval_bound_B; auto).
  assert (N0 : 0 < mpval n).
  { destruct (Z.eq_dec (mpval n) 0) as [Z0|]; [|lia]. rewrite Z0, Z.mul_0_r in H.
    assert (0 < B ^ i * B * mg_radix n) by (apply Z.mul_pos_pos; [apply Z.mul_pos_pos|]; lia).
    assert (0 < B ^ i * B ^ i * B) by (apply Z.mul_pos_pos; [apply Z.mul_pos_pos|]; lia). lia. }
  destruct (near_arith B (B ^ i) (mg_radix n) (mpval n)) as [L1 L2]; auto; [lia|].
  split; auto. intros C.
  assert (PN : B ^ i <> 0) by lia. assert (BN : B <> 0) by lia.
  pose proof (Z.div_mod (2 * mpval n) (B ^ i) PN) as E.
  assert (M0 : mpval op0 mod B ^ i = B ^ i - 1).
  { rewrite E0. symmetry. apply (Z.mod_unique _ _ (B - 1)); [left; lia|ring]. }
  assert (D0 : (mpval op0 / B ^ i) mod B = B - 1).
  { rewrite E0. replace (B ^ i * B - 1) with ((B - 1) * B ^ i + (B ^ i - 1)) by ring. rewrite Z.div_add_l, Z.div_small, Z.add_0_r by lia. apply Z.mod_small; lia. }
  specialize (C i (B ^ i - 1) ((B ^ i - 1) * (2 * mpval n / B ^ i))).
  rewrite M0, D0, E1 in C.
  assert (IL : 0 <= i < nlimbs op0).
  { split; [lia|]. destruct (Z_lt_le_dec i (nlimbs op0)) as [|G]; auto. exfalso.
    pose proof (mpval_bound_B op0 H0) as MB.
    assert (B ^ nlimbs op0 <= B ^ i) by (apply Z.pow_le_mono_r; lia). rewrite E0 in MB.
    assert (B ^ i * 2 <= B ^ i * B) by (apply Z.mul_le_mono_nonneg_l; lia). lia. }
  specialize (C IL). lapply C; [clear C; intros C|lia].
  lapply C; [clear C; intros C|]. { lia. }
  replace (B ^ i * ((B ^ i - 1) * (2 * mpval n / B ^ i))) with ((B ^ i - 1) * (B ^ i * (2 * mpval n / B ^ i))) by ring.
  assert (Q : B ^ i * (2 * mpval n / B ^ i) = 2 * mpval n - (2 * mpval n) mod B ^ i) by lia. rewrite Q. ring.
Qed.
End Facts.

Lemma mul_near_radix : forall (c : cfg) n i, mp_ok n -> Z.odd (mpval n) = true -> 1 <= i ->
  B ^ i * B * mg_radix n + B ^ i * B ^ i * B <= (B ^ i * (B + 1) - 2) * mpval n ->
  exists x y, 0 <= x < mpval n /\ 0 <= y < mpval n /\
  forall r op0 op1 g, mp_ok r -> mp_ok op0 -> mp_ok op1 -> neg_inv n g -> len_compat n (mp_len r) -> len_compat op0 (mp_len n) -> len_compat op1 (mp_len n) ->
  mpval op0 = x -> mpval op1 = y ->
  yields (ct_montgomery_mul_mod_mp_mp r op0 op1 n g) (fun '(res, r') => res = Ok tt /\ exists v, becomes r r' v /\ ~ mg_reduced n (x * y) v).
Proof.
  intros c n i Hn HO Hi H. exists (B ^ i * B - 1), (mpval n - (2 * mpval n) mod B ^ i).
  assert (B2 : 2 < B) by (unfold B, W, LB; destruct (limb64 c); reflexivity).
  assert (BP : B <= B ^ i). { rewrite <- (Z.pow_1_r B) at 1. apply Z.pow_le_mono_r; lia. }
  assert (NR : 0 <= mpval n < mg_radix n) by (unfold mg_radix; apply mpval_bound_B; auto).
  assert (N0 : 0 < mpval n) by (destruct (Z.eq_dec (mpval n) 0) as [Z0|]; [rewrite Z0 in HO; discriminate HO|lia]).
  destruct (near_arith B (B ^ i) (mg_radix n) (mpval n)) as [L1 _]; auto; [lia|].
  assert (PP : 0 < B ^ i) by lia. pose proof (Z.mod_pos_bound (2 * mpval n) (B ^ i) PP) as MB.
  assert (PB : B ^ i * 1 < B ^ i * B) by (apply Z.mul_lt_mono_pos_l; lia).
  assert (D1 : (2 * mpval n) mod B ^ i <> 0).
  { intros D0. apply Z.mod_divide in D0; [|lia]. destruct D0 as [q D0].
    assert (F : exists k, B ^ i = 4 * k).
    { exists (2 ^ (W - 2) * B ^ (i - 1)). replace i with (1 + (i - 1)) at 1 by ring. rewrite Z.pow_add_r, Z.pow_1_r by lia. rewrite Z.mul_assoc. f_equal.
      unfold B, W, LB. destruct (limb64 c); reflexivity. }
    destruct F as [k F]. rewrite F in D0. assert (mpval n = 2 * (q * k)) as D2 by lia. rewrite D2, Z.odd_mul in HO. discriminate HO. }
  split; [lia|]. split; [lia|].
  intros r op0 op1 g Hr H0 H1 HG LR LA LB E0 E1.
  pose proof (near_lost n i op0 op1 Hn H0 H1 Hi H E0 E1) as [_ NL].
  rewrite <- E0, <- E1.
  apply (mul_exact c r op0 op1 n g); auto; try lia.
  left. pose proof (mpval_bound op1 H1) as BO. destruct (Z_lt_le_dec 0 (mp_len op1)) as [|G]; auto. exfalso.
  assert (ML : mp_len op1 = 0) by (pose proof (mp_len_nonneg op1); lia). rewrite ML in BO. change (256 ^ 0) with 1 in BO. lia.
Qed.

Lemma mul_top_ones : forall (c : cfg) n, mp_ok n -> Z.odd (mpval n) = true -> 3 <= nlimbs n -> mg_radix n - mg_radix n / (2 * B) <= mpval n ->
  exists x y, 0 <= x < mpval n /\ 0 <= y < mpval n /\
  forall r op0 op1 g, mp_ok r -> mp_ok op0 -> mp_ok op1 -> neg_inv n g -> len_compat n (mp_len r) -> len_compat op0 (mp_len n) -> len_compat op1 (mp_len n) ->
  mpval op0 = x -> mpval op1 = y ->
  yields (ct_montgomery_mul_mod_mp_mp r op0 op1 n g) (fun '(res, r') => res = Ok tt /\ exists v, becomes r r' v /\ ~ mg_reduced n (x * y) v).
Proof.
  intros c n Hn HO HL HT. apply (mul_near_radix c n 1); auto; [lia|].
  assert (BB : 8 < B) by (unfold B, W, LB; destruct (limb64 c); reflexivity).
  assert (BE2 : B = 2 * (B / 2)) by (unfold B, W, LB; destruct (limb64 c); reflexivity).
  assert (RE : exists q, mg_radix n = B * B * B * q /\ 0 < q).
  { exists (B ^ (nlimbs n - 3)). split; [|apply Z.pow_pos_nonneg; lia]. unfold mg_radix. replace (nlimbs n) with (3 + (nlimbs n - 3)) at 1 by ring.
    rewrite Z.pow_add_r by lia. f_equal. change 3 with (1 + 1 + 1). rewrite !Z.pow_add_r, Z.pow_1_r by lia. ring. }
  destruct RE as (q & RE & Q0). rewrite RE in *.
  assert (D : B * B * B * q / (2 * B) = B / 2 * B * q).
  { set (h := B / 2) in *. clearbody h. replace (B * B * B * q) with (h * B * q * (2 * B)) by (replace (B * B * B * q) with (2 * h * B * B * q) by (rewrite <- BE2; ring); ring).
    apply Z.div_mul. lia. }
  rewrite D in HT. set (h := B / 2) in *. clearbody h. rewrite Z.pow_1_r.
  assert (0 <= B * (B + 1) - 2) by nia.
  apply Z.le_trans with ((B * (B + 1) - 2) * (B * B * B * q - h * B * q)); [|apply Z.mul_le_mono_nonneg_l; lia].
  set (b := B) in *. clearbody b. assert (b * b * b <= b * b * b * q) by nia. subst b.
  clear - BB Q0. assert (4 < h) by lia.
  assert (E : (2 * h * (2 * h + 1) - 2) * (2 * h * (2 * h) * (2 * h) * q - h * (2 * h) * q) - (2 * h * (2 * h) * (2 * h * (2 * h) * (2 * h) * q) + 2 * h * (2 * h) * (2 * h))
    = 4 * (h * h) * (q * (2 * (h * h) - 5 * h + 1) - 2 * h)) by ring.
  assert (F : 2 * h <= 2 * (h * h) - 5 * h + 1) by nia. assert (G : 2 * h <= q * (2 * (h * h) - 5 * h + 1)) by nia.
  assert (0 <= 4 * (h * h) * (q * (2 * (h * h) - 5 * h + 1) - 2 * h)) by (apply Z.mul_nonneg_nonneg; nia). lia.
Qed.

Lemma mul_modp : forall (c : cfg) n, mp_ok n -> (mp_len n = 128 /\ mpval n = modp1024) \/ (mp_len n = 256 /\ mpval n = modp2048) ->
  exists x y, 0 <= x < mpval n /\ 0 <= y < mpval n /\
  forall r op0 op1 g, mp_ok r -> mp_ok op0 -> mp_ok op1 -> neg_inv n g -> len_compat n (mp_len r) -> len_compat op0 (mp_len n) -> len_compat op1 (mp_len n) ->
  mpval op0 = x -> mpval op1 = y ->
  yields (ct_montgomery_mul_mod_mp_mp r op0 op1 n g) (fun '(res, r') => res = Ok tt /\ exists v, becomes r r' v /\ ~ mg_reduced n (x * y) v).
Proof.
  intros c n Hn H. assert (G : Z.odd (mpval n) = true /\ 3 <= nlimbs n /\ mg_radix n - mg_radix n / (2 * B) <= mpval n).
  { unfold mg_radix, nlimbs, ct_mp_nlimbs. destruct H as [[E V]|[E V]]; rewrite E, V; clear; unfold B, W, LB; destruct (limb64 c);
    (split; [reflexivity|]); (split; [vm_compute; congruence|]); vm_compute; congruence. }
  destruct G as (G1 & G2 & G3). exact (mul_top_ones c n Hn G1 G2 G3).
Qed.

Lemma mul_curves : forall (c : cfg) n, mp_ok n ->
  (mp_len n = 48 /\ mpval n = p384) \/ (mp_len n = 32 /\ mpval n = secp256k1) \/ (limb64 c = false /\ mp_len n = 32 /\ mpval n = p256) ->
  exists x y, 0 <= x < mpval n /\ 0 <= y < mpval n /\
  forall r op0 op1 g, mp_ok r -> mp_ok op0 -> mp_ok op1 -> neg_inv n g -> len_compat n (mp_len r) -> len_compat op0 (mp_len n) -> len_compat op1 (mp_len n) ->
  mpval op0 = x -> mpval op1 = y ->
  yields (ct_montgomery_mul_mod_mp_mp r op0 op1 n g) (fun '(res, r') => res = Ok tt /\ exists v, becomes r r' v /\ ~ mg_reduced n (x * y) v).
Proof.
  intros c n Hn H.
  assert (G : exists i, 1 <= i /\ Z.odd (mpval n) = true /\ B ^ i * B * mg_radix n + B ^ i * B ^ i * B <= (B ^ i * (B + 1) - 2) * mpval n).
  { exists (if limb64 c then 1 else 4). unfold mg_radix, nlimbs, ct_mp_nlimbs. destruct H as [[E V]|[[E V]|[L [E V]]]]; rewrite E, V; revert Hn; destruct c as [l64 am u64 d]; try (cbn in L; subst l64);
    try destruct l64; intros _; (split; [cbn; lia|]); (split; [reflexivity|]); vm_compute; congruence. }
  destruct G as [i [G1 [G2 G3]]]. exact (mul_near_radix c n i Hn G2 G1 G3).
Qed.

Lemma carry_ok_curves : forall (c : cfg) n, mp_ok n -> (limb64 c = true /\ mpval n = p256) \/ mpval n = p25519 -> mg_carry_ok n.
Proof.
  intros c n Hn H. pose proof (mpval_bound_B n Hn) as MB. unfold mg_carry_ok, mg_radix.
  assert (G : B ^ (32 / LB) <= B ^ nlimbs n).
  { destruct (Z_lt_le_dec (nlimbs n) (32 / LB)) as [L|L]; [exfalso|apply Z.pow_le_mono_r; [unfold B, W, LB; destruct (limb64 c); reflexivity|exact L]].
    assert (B ^ nlimbs n <= B ^ (32 / LB - 1)) by (apply Z.pow_le_mono_r; [unfold B, W, LB; destruct (limb64 c); reflexivity|lia]).
    assert (V : 2 ^ 254 < mpval n) by (destruct H as [[_ V]|V]; rewrite V; vm_compute; reflexivity).
    assert (U : B ^ (32 / LB - 1) < 2 ^ 254) by (unfold B, W, LB; destruct (limb64 c); vm_compute; reflexivity). lia. }
  assert (B0 : 0 < B) by (unfold B, W, LB; destruct (limb64 c); reflexivity).
  apply Z.le_trans with (B * B ^ (32 / LB)); [|apply Z.mul_le_mono_nonneg_l; lia].
  clear - H. destruct H as [[L V]|V]; rewrite V; clear V; unfold B, W, LB; [rewrite L|destruct (limb64 c)]; vm_compute; congruence.
Qed.
