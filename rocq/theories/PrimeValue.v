(** A widely used prime the Miller-Rabin test takes for composite. *)
From Coq Require Import ZArith List Bool Lia.
Require Import Verif.Spec Verif.Base Verif.Monad Verif.Wp Verif.ModelLimb Verif.LimbFacts Verif.ModelBuf Verif.SpecBuf Verif.BufFacts Verif.BufProofs
  Verif.ModelMont Verif.SpecMont Verif.SpecMontValue Verif.MontFine Verif.MontValue Verif.ModelPrime Verif.SpecPrime Verif.PrimeFine.
Import ListNotations.
Open Scope Z_scope.

Fixpoint eoutcome (w k N g b one s v : Z) (i : nat) : bool :=
  match i with
  | O => false
  | S j =>
    let pos := Z.of_nat (S j) in
    let q := eprod w k N g v v in
    let v' := if Z.testbit N pos then eprod w k N g q b else q in
    (if pos =? s then (v' =? one) || (v' =? N - one) else if pos <? s then v' =? N - one else false) || eoutcome w k N g b one s v' j
  end.
Lemma eoutcome_eq : forall (c : cfg) p g b s i v, mr_outcome p g b s v i = eoutcome W (nlimbs p) (mpval p) g b (mg_radix p mod mpval p) s v i.
Proof.
  intros c p g b s i. induction i as [|i IH]; intros v; [auto|]. cbn [mr_outcome eoutcome]. unfold mg_power_step. cbv zeta. rewrite IH, !eprod_eq. reflexivity.
Qed.

(** Powers modulo [secp256k1], bit by bit. *)
Definition fold256 (x : Z) : Z := (2 ^ 32 + 977) * Z.shiftr x 256 + Z.land x (Z.ones 256).
Lemma fold256_eq : forall x, fold256 x mod secp256k1 = x mod secp256k1.
Proof.
  intros x. unfold fold256. rewrite Z.land_ones, Z.shiftr_div_pow2 by lia. rewrite (Z.div_mod x (2 ^ 256)) at 3 by lia.
  replace (2 ^ 256 * (x / 2 ^ 256) + x mod 2 ^ 256) with ((2 ^ 32 + 977) * (x / 2 ^ 256) + x mod 2 ^ 256 + x / 2 ^ 256 * secp256k1) by (unfold secp256k1; ring).
  rewrite Z.mod_add; [auto|discriminate].
Qed.
Fixpoint powm (a e v : Z) (k : nat) : Z :=
  match k with
  | O => v
  | S j => let q := fold256 (fold256 (v * v)) in powm a e (if Z.testbit e (Z.of_nat j) then fold256 (a * q) else q) j
  end.
Lemma powm_eq : forall a e k v, 0 <= e -> v mod secp256k1 = a ^ (e / 2 ^ Z.of_nat k) mod secp256k1 -> powm a e v k mod secp256k1 = a ^ e mod secp256k1.
Proof.
  intros a e k. induction k as [|k IH]; intros v He Hv.
  - cbn [powm]. rewrite Hv. change (2 ^ Z.of_nat 0) with 1. rewrite Z.div_1_r. auto.
  - cbn [powm]. cbv zeta. apply IH; auto. set (q := e / 2 ^ Z.of_nat (S k)) in *.
    assert (Hq : 0 <= q) by (apply Z.div_pos; [lia|apply Z.pow_pos_nonneg; lia]).
    assert (EQ : e / 2 ^ Z.of_nat k = q + q + Z.b2z (Z.testbit e (Z.of_nat k))).
    { unfold q. rewrite Z.testbit_spec' by lia. rewrite Nat2Z.inj_succ, <- Z.add_1_r, Z.pow_add_r, Z.pow_1_r, <- Z.div_div by (try lia; apply Z.pow_nonzero; lia).
      pose proof (Z.div_mod (e / 2 ^ Z.of_nat k) 2). lia. }
    assert (E2 : fold256 (fold256 (v * v)) mod secp256k1 = a ^ (q + q) mod secp256k1).
    { rewrite !fold256_eq, Z.pow_add_r, Zmult_mod, Hv, <- Zmult_mod by lia. auto. }
    rewrite EQ. destruct (Z.testbit e (Z.of_nat k)); cbn [Z.b2z].
    + rewrite fold256_eq, Z.pow_add_r, Z.pow_1_r, Z.mul_comm, <- Zmult_mod_idemp_l, E2, Zmult_mod_idemp_l by lia. auto.
    + rewrite Z.add_0_r. auto.
Qed.

Lemma secp256k1_strong : strong_probable_prime secp256k1 (-2).
Proof.
  exists 1, ((secp256k1 - 1) / 2). split; [lia|]. split; [vm_compute; reflexivity|]. split; [vm_compute; reflexivity|]. right. exists 0. split; [lia|].
  rewrite Z.pow_0_r, Z.mul_1_l. rewrite <- (powm_eq (-2) ((secp256k1 - 1) / 2) 256 1); [vm_compute; reflexivity|vm_compute; congruence|vm_compute; reflexivity].
Qed.

Definition secp_g : Z := 0xd838091dd2253531.
Lemma secp_g_inv : (secp256k1 * secp_g + 1) mod 2 ^ 64 = 0.
Proof. vm_compute. reflexivity. Qed.
Lemma secp_out : eoutcome 64 4 secp256k1 secp_g (((secp256k1 - 2) * 2 ^ 256) mod secp256k1) (2 ^ 256 mod secp256k1) 1 (2 ^ 256 mod secp256k1) 255 = false.
Proof. vm_compute. reflexivity. Qed.

Lemma secp256k1_half : secp256k1 - 1 = 2 ^ 1 * ((secp256k1 - 1) / 2).
Proof. vm_compute. reflexivity. Qed.
Lemma secp256k1_half_odd : Z.odd ((secp256k1 - 1) / 2) = true.
Proof. vm_compute. reflexivity. Qed.
Lemma minus2_form : (-2 * 2 ^ 256) mod secp256k1 = ((secp256k1 - 2) * 2 ^ 256) mod secp256k1.
Proof. vm_compute. reflexivity. Qed.

Lemma mr_secp256k1 : forall (c : cfg) base p radix s0 s1, limb64 c = true -> mp_ok base -> mp_ok p -> mp_ok radix -> mp_ok (NE s0) -> mp_ok (NE s1) ->
  mp_len p = 32 -> mpval p = secp256k1 -> len_compat base 32 -> 0 < mp_len base -> len_compat radix 32 -> nlimbs radix = 4 -> 4 <= zlen s0 -> 4 <= zlen s1 ->
  mpval base = (-2 * mg_radix p) mod mpval p -> mpval radix = mg_radix p mod mpval p ->
  returns (ct_prime_test_miller_rabin_mp base p radix s0 s1) (Ok (chc false)).
Proof.
  intros c base p radix s0 s1 L64 Hb Hp Hr H0 H1 Lp Vp Cb Lb Cr Nr L0 L1 Eb Er.
  assert (EW : W = 64) by (unfold W, LB; rewrite L64; auto). assert (EL : LB = 8) by (unfold LB; rewrite L64; auto).
  assert (EN : nlimbs p = 4) by (unfold nlimbs; rewrite Lp; apply ct_mp_nlimbs_unique; lia).
  assert (ER : mg_radix p = 2 ^ 256) by (unfold mg_radix; rewrite EN, B_eq, EW; reflexivity).
  assert (HG : neg_inv p secp_g) by (unfold neg_inv; rewrite Vp, B_eq, EW; split; [vm_compute; split; congruence|exact secp_g_inv]).
  assert (Vb : mpval base < mpval p) by (rewrite Eb; apply Z.mod_pos_bound; rewrite Vp; reflexivity).
  assert (SB : forall s, 4 <= zlen s -> mg_room (NE s) p) by (intros s Hs; left; split; [cbn [mp_len]; lia|intros _; rewrite Lp, EL; reflexivity]).
  assert (NZ : nlimbs p <= zlen s0 /\ nlimbs p <= zlen s1 /\ nlimbs radix = nlimbs p) by lia. destruct NZ as (N0 & N1 & N2).
  pose proof (mr_value c base p radix s0 s1 secp_g 1 ((secp256k1 - 1) / 2) Hb Hp Hr H0 H1) as M. rewrite Lp in M.
  specialize (M ltac:(rewrite Vp; reflexivity) ltac:(rewrite Vp; reflexivity) Vb Cb Lb Cr N2 N0 N1 Er (SB s0 L0) (SB s1 L1) HG ltac:(lia)).
  rewrite eoutcome_eq in M. rewrite EN, EW, Eb, ER, Vp in M.
  rewrite minus2_form in M. replace (Z.to_nat (8 * 32 - 1)) with 255%nat in M by reflexivity. rewrite secp_out in M.
  exact (M secp256k1_half secp256k1_half_odd).
Qed.
