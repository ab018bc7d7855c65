(** Where the exact values of Montgomery products and powers are wrong. *)
From Coq Require Import ZArith Znumtheory List Bool Lia.
Require Import Verif.Spec Verif.Base Verif.Monad Verif.Wp Verif.ModelLimb Verif.LimbFacts Verif.LimbFacts2
  Verif.ModelBuf Verif.SpecBuf Verif.BufFacts Verif.BufProofs Verif.SpecMont Verif.SpecMontValue Verif.ModelMont Verif.MontFacts5 Verif.MontFacts6 Verif.MontExact Verif.MontFine.
Import ListNotations.
Open Scope Z_scope.

Lemma yields_weaken : forall A (m : M A) (P Q : A -> Prop), yields m P -> (forall a, P a -> Q a) -> yields m Q.
Proof. intros A m P Q (a & H1 & H2) H. exists a. auto. Qed.

(** The negative inverse of [n] modulo 2^(2^k). *)
Fixpoint newton (n : Z) (k : nat) : Z :=
  match k with
  | O => 1
  | S k => let y := newton n k in (y * (2 + n * y)) mod 2 ^ (2 ^ Z.of_nat (S k))
  end.

Section Facts.
Context {c : cfg}.

(** Leading zero bits of the exponent. *)
Lemma mg_power_zeros : forall n g b e v m k, mg_product n g v v = v -> (forall j, Z.of_nat m <= j -> Z.testbit e j = false) ->
  mg_power n g b e v (m + k) = mg_power n g b e v m.
Proof.
  intros n g b e v m k HV HT. induction k as [|k IH]; [rewrite Nat.add_0_r; auto|]. rewrite Nat.add_succ_r. cbn [mg_power]. rewrite HT by lia.
  unfold mg_power_step. cbv zeta iota. rewrite HV. exact IH.
Qed.

(** An evaluation by shifts and masks; only the width of limbs, the modulus and its length matter. *)
Fixpoint esum (w k N g x y : Z) (i : nat) : Z :=
  match i with
  | O => 0
  | S j =>
    let t := Z.land (esum w k N g x y j + Z.land (Z.shiftr x (w * Z.of_nat j)) (Z.ones w) * y) (Z.ones (w * (k + 1))) in
    Z.shiftr (t + Z.land (Z.land t (Z.ones w) * g) (Z.ones w) * N) w
  end.
Definition rem (a N : Z) : Z := if 0 <=? a then if a <? N then a else if a - N <? N then a - N else a mod N else a mod N.
Definition eprod (w k N g x y : Z) : Z := rem (esum w k N g x y (Z.to_nat k)) N.
Lemma rem_eq : forall a N, rem a N = a mod N.
Proof.
  intros a N. unfold rem. destruct (Z.leb_spec 0 a); [|auto]. destruct (Z.ltb_spec a N). { rewrite Z.mod_small; lia. }
  destruct (Z.ltb_spec (a - N) N); [|auto]. apply Z.mod_unique with 1; lia.
Qed.

Lemma esum_eq : forall k N g x y i, 0 <= k -> mg_sum N (B ^ k) g x y i = esum W k N g x y i.
Proof.
  intros k N g x y i Hk. pose proof W_pos as WP. induction i as [|i IH]; [auto|]. cbn [mg_sum esum]. rewrite <- IH. cbv zeta.
  rewrite !Z.land_ones by (try lia; apply Z.mul_nonneg_nonneg; lia). rewrite !Z.shiftr_div_pow2 by (try lia; apply Z.mul_nonneg_nonneg; lia).
  rewrite !Z.pow_mul_r by lia. rewrite <- !B_eq. rewrite Bpow_S by auto. rewrite Zmult_mod_idemp_l. reflexivity.
Qed.
Lemma eprod_eq : forall n g x y, mg_product n g x y = eprod W (nlimbs n) (mpval n) g x y.
Proof. intros n g x y. unfold mg_product, mg_radix, eprod. rewrite esum_eq, rem_eq by apply nlimbs_nonneg. reflexivity. Qed.
End Facts.

(** The square of the form of -1 is not that of 1, [k] being the number of limbs of [w] bits. *)
Definition square_wrong (w len N : Z) : bool :=
  let k := (8 * len) / w in
  let R := 2 ^ (w * k) in
  let g := newton N (if w =? 64 then 6 else 5) in
  let one := R mod N in
  let b := eprod w k N g (N - 1) ((R * R) mod N) in
  let v := eprod w k N g one b in
  ((N * g + 1) mod 2 ^ w =? 0) && (0 <=? g) && (g <? 2 ^ w) && (eprod w k N g one one =? one) && negb (eprod w k N g v v =? one) &&
  Z.odd N && (2 <=? k) && (1 <? N) && ((8 * len) mod w =? 0) && (len <? 300).

Lemma squares_wrong_64 : forallb (fun '(len, N) => square_wrong 64 len N) wrong_squares = true.
Proof. vm_compute; reflexivity. Qed.
Lemma squares_wrong_32 : forallb (fun '(len, N) => square_wrong 32 len N) wrong_squares = true.
Proof. vm_compute; reflexivity. Qed.

Lemma w_cases : forall (c : cfg), W = 64 \/ W = 32.
Proof. intros c. unfold W, LB. destruct (limb64 c); auto. Qed.

Lemma exp_minus_one_gen : forall (c : cfg) r op0 n e nbits s, mp_ok r -> mp_ok op0 -> mp_ok n -> mp_ok e -> mp_ok (NE s) ->
  square_wrong W (mp_len n) (mpval n) = true -> mp_len n <= mp_len r -> len_compat op0 (mp_len n) -> len_compat n (mp_len op0) -> nlimbs n <= zlen s ->
  mpval op0 = mpval n - 1 -> mpval e = 2 -> 2 <= nbits ->
  mpval op0 ^ 2 mod mpval n = 1 /\
  yields (ct_exp_mod_odd_mp_mp r op0 n e nbits s) (fun '(res, r', _, _) => res = Ok tt /\ exists v, becomes r r' v /\ 0 <= v < mpval n /\ v <> 1).
Proof.
  intros c r op0 n e nbits s Hr H0 Hn He Hs SW LR C0 C0' LS E0 Ee Hb.
  unfold square_wrong in SW. cbv zeta in SW. set (k := 8 * mp_len n / W) in *. set (g := newton (mpval n) (if W =? 64 then 6 else 5)) in *. clearbody g.
  repeat (apply andb_prop in SW; let H := fresh "A" in destruct SW as [SW H]).
  rewrite ?Z.eqb_eq, ?Z.leb_le, ?Z.ltb_lt in *. pose proof W_pos as WP. pose proof LB_pos as LP. pose proof (mp_len_nonneg n) as Ln.
  assert (EL : mp_len n = LB * k). { apply Z.div_exact in A0; [|lia]. fold k in A0. unfold W in A0. lia. }
  assert (EN : nlimbs n = k). { unfold nlimbs. apply ct_mp_nlimbs_unique; lia. }
  rewrite <- EN in *. clear EN k.
  assert (ER : 2 ^ (W * nlimbs n) = mg_radix n) by (unfold mg_radix; rewrite B_eq, <- Z.pow_mul_r by lia; reflexivity). rewrite ER in *.
  rewrite <- B_eq in *. rewrite <- !eprod_eq in *.
  set (R := mg_radix n) in *. set (N := mpval n) in *. set (one := R mod N) in *.
  assert (HG : neg_inv n g) by (split; [lia|exact SW]).
  assert (P1 : mpval op0 ^ 2 mod N = 1).
  { rewrite E0. replace ((N - 1) ^ 2) with (1 + (N - 2) * N) by ring. rewrite Z.mod_add by lia. apply Z.mod_small. lia. }
  split; [exact P1|].
  assert (UB : 16 * (mp_len n + LB) + 8 < 2 ^ UW).
  { assert (LB <= 8) by (unfold LB; destruct (limb64 c); lia). assert (2 ^ 16 <= 2 ^ UW) by (apply Z.pow_le_mono_r; [lia|]; unfold UW; destruct (usize64 c); lia).
    change (2 ^ 16) with 65536 in *. lia. }
  assert (MD : mp_len n mod LB = 0) by (rewrite EL, Z.mul_comm; apply Z.mod_mul; lia).
  assert (RR : mg_room r n) by (left; split; [auto|intros _; exact MD]).
  assert (RS : mg_room (NE s) n).
  { left. split; [|intros _; exact MD]. cbn [mp_len]. pf (mul_le_l LB (nlimbs n) (zlen s)) as X. clear - X EL. lia. }
  eapply yields_weaken; [apply (exp_value c r op0 n e nbits s g); auto; try lia; left; auto|].
  intros [[[res r'] op0'] s'] (-> & _ & _ & _ & v & HB & HR). split; [auto|]. exists v. split; [auto|]. pose proof HR as [HV HE]. split; [exact HV|]. intros ->.
  fold R N one in HE, HR. rewrite E0, Ee in HE. set (b := mg_product n g (N - 1) ((R * R) mod N)) in *.
  pose proof (mpval_bound e He) as BE. rewrite Ee in BE. assert (LE : 1 <= mp_len e). { destruct (Z.lt_ge_cases (mp_len e) 1) as [X|X]; [|auto]. pose proof (mp_len_nonneg e). replace (mp_len e) with 0 in BE by lia. cbn in BE. lia. }
  replace (Z.to_nat (Z.min nbits (8 * mp_len e))) with (2 + Z.to_nat (Z.min nbits (8 * mp_len e) - 2))%nat in HE by lia.
  rewrite mg_power_zeros in HE.
  - cbn [mg_power] in HE. unfold mg_power_step in HE. cbn in HE. rewrite A5 in HE.
    assert (VB : forall x y, mg_product n g x y mod N = mg_product n g x y) by (intros x y; unfold mg_product; fold N; apply Z.mod_mod; lia).
    rewrite VB in HE. replace (match R with 0 => 0 | Z.pos y' => Z.pos y' | Z.neg y' => Z.neg y' end) with R in HE by (destruct R; auto). fold one in HE.
    rewrite <- HE in A4. rewrite Z.eqb_refl in A4. discriminate.
  - exact A5.
  - intros j Hj. apply Z.bits_above_log2; [lia|]. change (Z.log2 2) with 1. lia.
Qed.
Lemma exp_minus_one : forall (c : cfg) r op0 n e nbits s, mp_ok r -> mp_ok op0 -> mp_ok n -> mp_ok e -> mp_ok (NE s) ->
  In (mp_len n, mpval n) wrong_squares -> mp_len n <= mp_len r -> len_compat op0 (mp_len n) -> len_compat n (mp_len op0) -> nlimbs n <= zlen s ->
  mpval op0 = mpval n - 1 -> mpval e = 2 -> 2 <= nbits ->
  mpval op0 ^ 2 mod mpval n = 1 /\
  yields (ct_exp_mod_odd_mp_mp r op0 n e nbits s) (fun '(res, r', _, _) => res = Ok tt /\ exists v, becomes r r' v /\ 0 <= v < mpval n /\ v <> 1).
Proof.
  intros c r op0 n e nbits s Hr H0 Hn He Hs HI LR C0 C0' LS E0 Ee Hb. apply exp_minus_one_gen; auto. destruct (w_cases c) as [-> | ->].
  - pose proof squares_wrong_64 as F. rewrite forallb_forall in F. apply (F _ HI).
  - pose proof squares_wrong_32 as F. rewrite forallb_forall in F. apply (F _ HI).
Qed.
