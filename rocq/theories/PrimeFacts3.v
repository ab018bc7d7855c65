(** Facts about the Miller-Rabin test. *)
From Coq Require Import ZArith List Bool Lia Znumtheory.
Require Import Verif.Spec Verif.Monad Verif.Base Verif.Wp Verif.ModelLimb Verif.LimbFacts Verif.LimbFacts2 Verif.ModelBuf Verif.SpecBuf
  Verif.BufFacts Verif.BufFacts2 Verif.BufFacts3 Verif.ModelCmp Verif.CmpFacts Verif.ModelAdd Verif.AddFacts2 Verif.ModelMont Verif.SpecMont
  Verif.MontFacts5 Verif.MontFacts6 Verif.ModelPrime Verif.SpecPrime.
Import ListNotations.
Open Scope Z_scope.

Lemma land_b2z : forall x y, Z.land (b2z x) (b2z y) = b2z (x && y).
Proof. intros [] []; reflexivity. Qed.
Lemma lor_b2z : forall x y, Z.lor (b2z x) (b2z y) = b2z (x || y).
Proof. intros [] []; reflexivity. Qed.
Lemma lxor_eqb : forall x y, (Z.lxor x y =? 0) = (x =? y).
Proof.
  intros. destruct (Z.eqb_spec x y) as [->|N]; [rewrite Z.lxor_nilpotent; reflexivity|].
  apply Z.eqb_neq. intros E. apply Z.lxor_eq in E. auto.
Qed.
Lemma lxor_odd : forall v, Z.odd v = true -> Z.lxor v 1 = v - 1.
Proof.
  intros v H. assert (E : v = Z.lxor (v - 1) 1).
  { rewrite <- Z.add_nocarry_lxor; [lia|]. change 1 with (Z.ones 1) at 2. rewrite Z.land_ones by lia. change (2 ^ 1) with 2.
    rewrite Zmod_odd, Z.odd_sub, H. reflexivity. }
  rewrite E at 1. rewrite Z.lxor_assoc, Z.lxor_nilpotent, Z.lxor_0_r. reflexivity.
Qed.
Lemma div_bit : forall x j, 0 <= j -> x / 2 ^ j = 2 * (x / 2 ^ (j + 1)) + b2z (Z.testbit x j).
Proof.
  intros x j Hj. rewrite Z.pow_add_r by lia. change (2 ^ 1) with 2. rewrite <- Z.div_div by (try apply pow2_gt0; lia).
  rewrite Z.testbit_odd, Z.shiftr_div_pow2 by lia. set (y := x / 2 ^ j). pose proof (Zmod_odd y) as D. pose proof (Z.div_mod y 2 ltac:(lia)).
  destruct (Z.odd y); cbn [b2z]; lia.
Qed.

(** The condition checked at bit position [k]. *)
Definition mr_cond (p a s k : Z) : Prop :=
  let x := a ^ (p / 2 ^ k) mod p in (k = s /\ (x = 1 \/ x = p - 1)) \/ (k < s /\ x = p - 1).

Lemma odd_part_unique : forall s d s' d', 0 <= s -> 0 <= s' -> Z.odd d = true -> Z.odd d' = true -> 2 ^ s * d = 2 ^ s' * d' -> s = s' /\ d = d'.
Proof.
  assert (G : forall s d s' d', 0 <= s < s' -> Z.odd d = true -> 2 ^ s * d = 2 ^ s' * d' -> False).
  { intros s d s' d' H O E. replace s' with (s + (s' - s)) in E by lia. rewrite Z.pow_add_r, <- Z.mul_assoc in E by lia.
    apply Z.mul_reg_l in E; [|pose proof (pow2_gt0 s); lia]. subst d. replace (s' - s) with (1 + (s' - s - 1)) in O by lia.
    rewrite Z.pow_add_r, !Z.odd_mul in O by lia. discriminate. }
  intros s d s' d' Hs Hs' O O' E. destruct (Z.lt_trichotomy s s') as [L|[L|L]].
  - exfalso. eapply (G s d s' d'); eauto; lia.
  - subst. split; [auto|]. apply Z.mul_reg_l in E; auto. pose proof (pow2_gt0 s'); lia.
  - exfalso. eapply (G s' d' s d); eauto; lia.
Qed.

Lemma mr_cond_strong : forall p a s n, Z.odd p = true -> 2 < p -> p < 2 ^ n -> is_ffs (p - 1) s ->
  ((exists k, 1 <= k < n /\ mr_cond p a s k) <-> strong_probable_prime p a).
Proof.
  intros p a s n HO P2 Hn (S0 & SM & SO). pose proof (pow2_gt0 s S0) as PS.
  assert (SN : s < n).
  { apply (is_ffs_bound (p - 1)); [lia|]. split; auto. }
  set (d := (p - 1) / 2 ^ s) in *. assert (E : p - 1 = 2 ^ s * d) by (pose proof (Z.div_mod (p - 1) (2 ^ s)); unfold d; lia).
  assert (Od : Z.odd d = true) by (rewrite Zmod_odd in SO; destruct (Z.odd d); [auto|discriminate]).
  assert (S1 : 1 <= s).
  { destruct (Z.eq_dec s 0) as [->|]; [|lia]. change (2 ^ 0) with 1 in E. rewrite Z.mul_1_l in E. rewrite <- E, Z.odd_sub, HO in Od. discriminate. }
  assert (D0 : 0 < d) by (apply (Z.mul_pos_cancel_l (2 ^ s)); lia).
  assert (Q : forall k, 1 <= k <= s -> p / 2 ^ k = 2 ^ (s - k) * d).
  { intros k Hk. pose proof (pow2_gt0 k ltac:(lia)). symmetry. apply Z.div_unique with (r := 1).
    - left. split; [lia|]. replace k with (1 + (k - 1)) by lia. rewrite Z.pow_add_r by lia. pose proof (pow2_gt0 (k - 1) ltac:(lia)). change (2 ^ 1) with 2. lia.
    - rewrite Z.mul_assoc, <- Z.pow_add_r by lia. replace (k + (s - k)) with s by lia. lia. }
  split.
  - intros (k & Hk & C). exists s, d. split; [lia|]. split; [auto|]. split; [auto|]. destruct C as [[-> [C|C]]|[L C]].
    + left. rewrite Q, Z.sub_diag, Z.pow_0_r, Z.mul_1_l in C by lia. auto.
    + right. exists 0. split; [lia|]. rewrite Q, Z.sub_diag in C by lia. auto.
    + right. exists (s - k). split; [lia|]. rewrite Q in C by lia. auto.
  - intros (s' & d' & Hs' & E' & O' & C). destruct (odd_part_unique s d s' d'); auto; try congruence. subst s' d'. unfold mr_cond. destruct C as [C|(r & Hr & C)].
    + exists s. split; [lia|]. left. split; [auto|]. left. rewrite Q, Z.sub_diag, Z.pow_0_r, Z.mul_1_l by lia. auto.
    + destruct (Z.eq_dec r 0) as [->|].
      * exists s. split; [lia|]. left. split; [auto|]. right. rewrite Q, Z.sub_diag by lia. auto.
      * exists (s - r). split; [lia|]. right. split; [lia|]. rewrite Q by lia. replace (s - (s - r)) with r by lia. auto.
Qed.

Section Facts.
Context {c : cfg}.

Lemma mod_eqb_S : forall a b i, 0 <= i -> (a mod B ^ (i + 1) =? b mod B ^ (i + 1)) = (a mod B ^ i =? b mod B ^ i) && (vlimb a i =? vlimb b i).
Proof.
  intros a b i Hi. rewrite !vmod_S by auto. pf (vmod_bound a i) as Ha. pf (vmod_bound b i) as Hb.
  destruct (Z.eqb_spec (a mod B ^ i) (b mod B ^ i)) as [E|E], (Z.eqb_spec (vlimb a i) (vlimb b i)) as [F|F]; cbn [andb].
  - rewrite E, F. apply Z.eqb_refl.
  - apply Z.eqb_neq. intros X. destruct (digit_unique (B ^ i) (a mod B ^ i) (vlimb a i) (b mod B ^ i) (vlimb b i)); auto; lia.
  - apply Z.eqb_neq. intros X. destruct (digit_unique (B ^ i) (a mod B ^ i) (vlimb a i) (b mod B ^ i) (vlimb b i)); auto; lia.
  - apply Z.eqb_neq. intros X. destruct (digit_unique (B ^ i) (a mod B ^ i) (vlimb a i) (b mod B ^ i) (vlimb b i)); auto; lia.
Qed.

Lemma wp_mr_compare : forall x p r (Q : Z * Z -> Prop), mp_ok x -> mp_ok p -> mp_ok r -> nlimbs p <= nlimbs x -> nlimbs p <= nlimbs r ->
  mpval x < mpval p -> mpval r <= mpval p ->
  Q (b2z (mpval x =? mpval r), b2z (mpval x =? mpval p - mpval r)) -> wp (mr_compare x p r) Q.
Proof.
  intros x p r Q Hx Hp Hr Nx Nr Vx Vr HQ. unfold mr_compare. pose proof (nlimbs_nonneg p) as N0. pose proof B_pos as BP.
  set (D := mpval p - mpval r) in *.
  apply wp_bind. apply wp_for with (I := fun i '(o, m, k) => o = b2z (mpval x mod B ^ i =? mpval r mod B ^ i) /\ m = b2z (mpval x mod B ^ i =? D mod B ^ i) /\
    (k = 0 \/ k = 1) /\ mpval p mod B ^ i - mpval r mod B ^ i = D mod B ^ i - k * B ^ i); [lia| | |].
  - change (B ^ 0) with 1. rewrite !Z.mod_1_r. split; [reflexivity|]. split; [reflexivity|]. split; [auto|lia].
  - intros i ((o, m), k) Hi (-> & -> & Hk & E).
    apply wp_bind, wp_load; [auto|lia|]. rewrite limb_vlimb. apply wp_bind, wp_load; [auto|lia|]. rewrite limb_vlimb.
    apply wp_bind, wp_is_zero; [apply isl_lxor; apply vlimb_isl|]. rewrite lxor_eqb.
    apply wp_bind, wp_load; [auto|lia|]. rewrite limb_vlimb.
    apply wp_bind, wp_sub_b; [apply vlimb_isl|apply vlimb_isl|lia|]. intros k' w Hk' Hw EW.
    assert (X : D mod B ^ (i + 1) = D mod B ^ i + w * B ^ i /\ mpval p mod B ^ (i + 1) - mpval r mod B ^ (i + 1) = D mod B ^ (i + 1) - k' * B ^ (i + 1)).
    { assert (Y : mpval p mod B ^ (i + 1) - mpval r mod B ^ (i + 1) = (D mod B ^ i + w * B ^ i) - k' * B ^ (i + 1)).
      { rewrite !vmod_S by lia. rewrite Bpow_S by lia.
        replace (mpval p mod B ^ i + vlimb (mpval p) i * B ^ i - (mpval r mod B ^ i + vlimb (mpval r) i * B ^ i)) with
          (mpval p mod B ^ i - mpval r mod B ^ i + (vlimb (mpval p) i - vlimb (mpval r) i) * B ^ i) by ring.
        rewrite E. replace (vlimb (mpval p) i - vlimb (mpval r) i) with (w - B * k' + k) by lia. ring. }
      assert (Z0 : D mod B ^ (i + 1) = D mod B ^ i + w * B ^ i).
      { pf (Bpow_pos (i + 1)) as P1. unfold D at 1. rewrite Zminus_mod, Y. replace (D mod B ^ i + w * B ^ i - k' * B ^ (i + 1)) with (D mod B ^ i + w * B ^ i + (- k') * B ^ (i + 1)) by ring.
        rewrite Z.mod_add by lia. apply Z.mod_small. rewrite Bpow_S by lia. pf (vmod_bound D i). 
        pose proof (dig2_lt w (B ^ i) (D mod B ^ i) B). unfold isl in Hw. lia. }
      split; [auto|]. rewrite Y. lia. }
    destruct X as [X1 X2].
    assert (W1 : w = vlimb D i).
    { rewrite vmod_S in X1 by lia. pf (Bpow_pos i). apply (Z.mul_reg_r _ _ (B ^ i)); lia. }
    apply wp_bind, wp_is_zero; [apply isl_lxor; [apply vlimb_isl|auto]|]. rewrite lxor_eqb.
    apply wp_ret. rewrite !land_b2z, !mod_eqb_S by lia. rewrite W1. split; [auto|]. split; [auto|]. split; [auto|]. auto.
  - intros ((o, m), k) (-> & -> & _ & _). apply wp_ret. pose proof (mpval_bound_B p Hp). pose proof (mpval_bound_B x Hx). pose proof (mpval_bound r Hr).
    rewrite !Z.mod_small by (unfold D; lia). auto.
Qed.

Lemma inform_eq : forall n x y u v, Z.odd (mpval n) = true -> 0 < mpval n -> inform n x u -> inform n y v -> (u = v <-> x mod mpval n = y mod mpval n).
Proof.
  intros n x y u v HO HN (Hu & Eu) (Hv & Ev). split.
  - intros ->. apply radix_cancel; auto. congruence.
  - intros E. rewrite Z.mod_small in Eu, Ev by auto. rewrite Eu, Ev, Z.mul_mod, E, <- Z.mul_mod by lia. auto.
Qed.
Lemma inform_neg_one : forall n v, Z.odd (mpval n) = true -> 1 < mpval n -> inform n 1 v -> inform n (-1) (mpval n - v).
Proof.
  intros n v HO HN (Hv & Ev). assert (v <> 0).
  { intros ->. rewrite Z.mod_0_l in Ev by lia. assert (X : 0 mod mpval n = 1 mod mpval n) by (apply radix_cancel; [auto|lia|rewrite Z.mul_0_l, Z.mod_0_l by lia; auto]).
    rewrite Z.mod_0_l, Z.mod_small in X by lia. discriminate. }
  split; [lia|]. replace (mpval n - v) with (- v + 1 * mpval n) by ring. rewrite Z.mod_add by lia.
  replace (-1 * mg_radix n) with (- (1 * mg_radix n)) by ring. apply div_mod_eq; [lia|]. apply mod_eq_div in Ev; [|lia]. destruct Ev as [k Ev]. exists (- k). lia.
Qed.

Lemma eqb_iff : forall a b P, (a = b <-> P) -> ((a =? b) = true <-> P).
Proof. intros. rewrite Z.eqb_eq. auto. Qed.

Lemma wp_miller_rabin : forall base p radix s0 s1 a (Q : Monad.result Z mr_err -> Prop), mp_ok base -> mp_ok p -> mp_ok radix -> mp_ok (NE s0) -> mp_ok (NE s1) ->
  Z.odd (mpval p) = true -> 2 < mpval p -> len_compat base (mp_len p) -> 0 < mp_len base -> len_compat radix (mp_len p) -> nlimbs radix = nlimbs p ->
  nlimbs p <= zlen s0 -> nlimbs p <= zlen s1 -> inform p a (mpval base) -> inform p 1 (mpval radix) ->
  mg_carry_ok p -> mg_room (NE s0) p -> mg_room (NE s1) p ->
  (forall b, (b = true <-> strong_probable_prime (mpval p) a) -> Q (Ok (chc b))) ->
  wp (ct_prime_test_miller_rabin_mp base p radix s0 s1) Q.
Proof.
  intros base p radix s0 s1 a Q Hb Hp Hr H0 H1 HO P2 Cb Lb Cr Nr L0 L1 Fa F1 HC R0 R1 HQ. unfold ct_prime_test_miller_rabin_mp.
  pose proof (mp_len_nonneg p) as Lp. destruct (odd_nlimbs p Hp HO) as [N0 _]. pose proof (nlimbs_spec p) as NS. pose proof LB_pos as LBP.
  pose proof (mpval_bound p Hp) as BP. pose proof Fa as [Va _]. pose proof F1 as [Vr _].
  apply wp_bind, wp_test_bit; [auto|lia|]. rewrite Z.bit0_odd, HO, lc_unwrap_chc. apply wp_mif; intros E; [discriminate|]. clear E.
  apply wp_bind, wp_compat; auto. apply wp_mif; intros E; [discriminate|]. clear E. apply wp_bind, wp_dassert_lt; [auto|auto|lia|].
  apply wp_bind, wp_compat; auto. apply wp_mif; intros E; [discriminate|]. clear E. apply wp_bind, wp_dassert_lt; [auto|auto|lia|].
  fold (nlimbs p). apply wp_mif; intros E; [lia|]. clear E. apply wp_mif; intros E; [lia|]. clear E.
  pose proof (scratch_compat s0 p Hp L0) as C0. pose proof (scratch_compat s1 p Hp L1) as C1.
  assert (A0 : mp_len p <= mp_len (NE s0)). { cbn [mp_len]. pf (mul_le_l LB (nlimbs p) (zlen s0)). lia. }
  assert (PA : 256 ^ mp_len p <= 256 ^ mp_len (NE s0)) by (apply Z.pow_le_mono_r; lia).
  apply wp_bind, wp_copy_from; [auto|auto|lia|]. intros f Of Sf Ef.
  apply wp_bind, wp_shrink_to; [auto|lia|lia|]. intros m Om Km Lm Em.
  assert (SE : forall g n, same_shape (NE s0) g -> shrunk_len g n = shrunk_len (NE s0) n).
  { intros g n [K L]. unfold shrunk_len. rewrite L. destruct g; try discriminate K. auto. }
  rewrite SE in Lm by auto. pose proof (scratch_view s0 p m Hp L0 Lm) as LM. pose proof (align_rng (mp_len p) Lp) as AR.
  assert (NN : forall b, mp_len b = ct_mp_limbs_align_len (mp_len p) -> nlimbs b = nlimbs p).
  { intros b E. unfold nlimbs at 1. rewrite E. apply ct_mp_nlimbs_unique; [lia|]. unfold ct_mp_limbs_align_len. fold (nlimbs p). lia. }
  pose proof (NN m LM) as Nm.
  apply wp_bind, wp_load; [auto|lia|]. rewrite limb_vlimb, Em, Ef.
  assert (OL : Z.odd (vlimb (mpval p) 0) = true) by (rewrite vlimb0_odd; auto). rewrite lxor_odd by auto.
  pose proof (limb_lim m 0 Om ltac:(lia)) as LL. rewrite limb_vlimb, Em, Ef in LL.
  assert (V0 : vlimb (mpval p) 0 <> 0) by (intros X; rewrite X in OL; discriminate).
  apply wp_bind, wp_store; [auto|lia|lia|]. intros m1 (Om1 & Sm1 & Em1). rewrite limb_vlimb, Em, Ef, Z.pow_0_r in Em1.
  assert (EM : mpval m1 = mpval p - 1) by lia. clear Em1.
  apply wp_bind, wp_find_first_set_bit; [auto|lia|]. intros s _ HS. rewrite EM in HS.
  rewrite lc_unwrap_chc. apply wp_bind, wp_dassert; [reflexivity|].
  pose proof HS as (S0 & SM & SO).
  assert (SP : 0 < s).
  { destruct (Z.eq_dec s 0) as [->|]; [|lia]. exfalso. change (2 ^ 0) with 1 in SO. rewrite Z.div_1_r, Zmod_odd, Z.odd_sub, HO in SO. discriminate. }
  apply wp_bind, wp_dassert; [lia|].
  destruct (unshrink_spec f m1) as (Ou & Su & _); auto.
  { destruct Sm1 as [-> _]. auto. } { rewrite (shape_len _ _ Sm1), (shape_len _ _ Sf), LM. rewrite Lm in LM. unfold shrunk_len in LM. cbn [supports_unaligned] in LM.
    pose proof (mp_len_nonneg (NE s0)). rewrite Z.min_l in LM by lia. clear LM. cbn [mp_len]. unfold ct_mp_limbs_align_len. fold (nlimbs p). pf (mul_le_l LB (nlimbs p) (zlen s0)). lia. }
  pose proof (shape_trans _ _ _ Sf Su) as Su'.
  apply wp_bind, wp_copy_from; [auto|auto|rewrite (shape_len _ _ Su'); lia|]. intros g Og Sg Eg. pose proof (shape_trans _ _ _ Su' Sg) as Sg'.
  apply wp_bind, wp_shrink_to; [auto|lia|lia|]. intros bp Obp Kbp Lbp Ebp. rewrite SE in Lbp by auto. pose proof (scratch_view s0 p bp Hp L0 Lbp) as LB0.
  assert (KB : kind_of bp = KNE) by (rewrite Kbp; destruct Sg' as [-> _]; reflexivity).
  apply wp_view with (r := NE s1) (K := fun _ ps => _); auto. intros fs ps Ofs Sfs Ops Lps Kps Nps Vps _. pose proof (scratch_view s1 p ps Hp L1 Lps) as LP1.
  apply wp_bind, wp_neg_inv; [auto|auto|]. intros ng HN.
  assert (CV : forall b, mp_ok b -> kind_of b = KNE -> mp_len b = ct_mp_limbs_align_len (mp_len p) -> mpval b < mpval p -> len_compat b (mp_len p)).
  { intros b Hbb Kb LLb Vb. right. split; [auto|]. split; lia. }
  assert (CP : forall l, l = ct_mp_limbs_align_len (mp_len p) -> len_compat p l) by (intros l ->; left; lia).
  assert (RB : mg_room bp p). { apply (room_view (NE s0) bp p); auto. }
  assert (RP : mg_room ps p). { apply (room_view (NE s1) ps p); auto. }
  set (P := mpval p) in *. set (len := 8 * mp_len p).
  assert (PL : P < 2 ^ len) by (unfold len; rewrite <- pow256 by lia; lia).
  assert (LP0 : 0 < mp_len p) by (destruct (Z.eq_dec (mp_len p) 0) as [E|E]; [rewrite E in BP; cbn in BP|]; lia).
  assert (SL : s < len) by (apply (is_ffs_bound (P - 1)); [lia|auto]).
  assert (UL : isu len). { destruct Hp as [_ HU]. unfold isu, len. lia. }
  pose proof (inform_neg_one p (mpval radix) HO ltac:(fold P; lia) F1) as FN. fold P in FN.
  apply wp_bind. apply wp_for_down with (I := fun j '(x, y, t) => mp_ok x /\ same_shape bp x /\ mp_ok y /\ same_shape ps y /\
    inform p (a ^ (P / 2 ^ j)) (mpval x) /\ exists t', t = b2z t' /\ (t' = true <-> exists k, j <= k < len /\ mr_cond P a s k)); [unfold len; lia| | |].
  - split; [auto|]. split; [apply shape_refl|]. split; [auto|]. split; [apply shape_refl|]. rewrite Z.div_small by lia. rewrite Z.pow_0_r, Ebp, Eg. split; [auto|].
    exists false. split; [auto|]. split; [discriminate|]. intros (k & Hk & _). lia.
  - intros j ((x, y), t) Hj (Ox & Sx & Oy & Sy & Fx & t' & -> & Ht). pose proof Fx as [Vx _]. unfold mr_step.
    assert (Kx : kind_of x = KNE) by (destruct Sx as [-> _]; auto). assert (Lx : mp_len x = ct_mp_limbs_align_len (mp_len p)) by (rewrite (shape_len _ _ Sx); auto).
    assert (Ly : mp_len y = ct_mp_limbs_align_len (mp_len p)) by (rewrite (shape_len _ _ Sy); auto).
    apply wp_bind. eapply wp_mul_form; [exact Oy|exact Ox|exact Ox|auto|auto|exact HN|auto|apply CV; auto; lia|apply CV; auto; lia|exact Fx|exact Fx|lia|auto|apply (shape_room ps); auto|].
    intros y1 vy (Oy1 & Sy1 & Ey1) Fy1. rewrite <- Ey1 in Fy1. clear vy Ey1. cbn [unwrap]. apply wp_bind, wp_ret. pose proof Fy1 as [Vy _].
    pose proof (shape_trans _ _ _ Sy Sy1) as Sy'. assert (Ly1 : mp_len y1 = ct_mp_limbs_align_len (mp_len p)) by (rewrite (shape_len _ _ Sy'); auto).
    assert (Ky1 : kind_of y1 = KNE) by (destruct Sy' as [-> _]; rewrite Kps; auto).
    apply wp_bind. eapply wp_mul_form; [exact Ox|exact Oy1|exact Hb|auto|auto|exact HN|auto|apply CV; auto; lia|auto|exact Fy1|exact Fa|auto|auto|apply (shape_room bp); auto|].
    intros x1 vx (Ox1 & Sx1 & Ex1) Fx1. rewrite <- Ex1 in Fx1. clear vx Ex1. cbn [unwrap]. apply wp_bind, wp_ret. pose proof Fx1 as [Vx1 _].
    pose proof (shape_trans _ _ _ Sx Sx1) as Sx'. assert (Lx1 : mp_len x1 = ct_mp_limbs_align_len (mp_len p)) by (rewrite (shape_len _ _ Sx'); auto).
    apply wp_bind, wp_test_bit; [auto|lia|]. fold P. rewrite lc_not_chc.
    apply wp_bind, wp_copy_from_cond; [auto|auto|rewrite Lx1, <- Ly1; apply mpval_bound; auto|right; lia|].
    intros x2 Ox2 Sx2 Ex2. pose proof (shape_trans _ _ _ Sx' Sx2) as Sx2'. assert (Lx2 : mp_len x2 = ct_mp_limbs_align_len (mp_len p)) by (rewrite (shape_len _ _ Sx2'); auto).
    assert (Fx2 : inform p (a ^ (P / 2 ^ j)) (mpval x2)).
    { rewrite Ex2, (div_bit P j) by lia. set (q := P / 2 ^ (j + 1)) in *. assert (Hq : 0 <= q) by (apply Z.div_pos; [lia|apply pow2_gt0; lia]).
      destruct (Z.testbit P j); cbn [negb b2z].
      - rewrite Z.pow_add_r, Z.pow_1_r by lia. replace (2 * q) with (q + q) by lia. rewrite Z.pow_add_r by lia. auto.
      - rewrite Z.add_0_r. replace (2 * q) with (q + q) by lia. rewrite Z.pow_add_r by lia. auto. }
    pose proof Fx2 as [Vx2 _]. fold P in Vx2.
    apply wp_bind, wp_mr_compare; [auto|auto|auto|rewrite (NN x2); auto; lia|lia|fold P; lia|fold P; lia|].
    assert (UJ : isu j) by (unfold isu in *; lia). assert (US : isu s) by (unfold isu in *; lia).
    apply wp_bind, wp_eq_usize; [auto|auto|]. apply wp_bind, wp_lt_usize; [auto|auto|]. apply wp_ret.
    assert (I0 : isl 0) by (unfold isl; pose proof B_pos; lia). assert (IB : forall b, isl (b2z b)) by (intros b; pose proof (b2z_range b); unfold isl; pose proof B_gt; lia).
    rewrite lor_b2z, !lc_select_chc by auto.
    split; [auto|]. split; [auto|]. split; [auto|]. split; [auto|]. split; [auto|].
    exists (t' || ((j =? s) && ((mpval x2 =? mpval radix) || (mpval x2 =? P - mpval radix))) || ((j <? s) && (mpval x2 =? P - mpval radix))).
    split. { rewrite <- !lor_b2z. fold P. destruct (j =? s), (j <? s); cbn [andb b2z]; rewrite ?Z.lor_0_r, ?lor_b2z; auto. }
    assert (E1 : mpval x2 = mpval radix <-> a ^ (P / 2 ^ j) mod P = 1).
    { rewrite (inform_eq p _ 1 _ _ HO ltac:(fold P; lia) Fx2 F1). fold P. rewrite (Z.mod_small 1) by lia. tauto. }
    assert (E2 : mpval x2 = P - mpval radix <-> a ^ (P / 2 ^ j) mod P = P - 1).
    { rewrite (inform_eq p _ (-1) _ _ HO ltac:(fold P; lia) Fx2 FN). fold P. replace (-1) with (P - 1 + (-1) * P) by ring. rewrite Z.mod_add, (Z.mod_small (P - 1)) by lia. tauto. }
    rewrite !orb_true_iff, !andb_true_iff, !orb_true_iff, !Z.eqb_eq, Z.ltb_lt, E1, E2, Ht. unfold mr_cond. clear - Hj. split.
    + intros [[(k & Hk & C)|C]|C]; [exists k; split; [lia|auto]|exists j; split; [lia|auto]|exists j; split; [lia|auto]].
    + intros (k & Hk & C). destruct (Z.eq_dec k j) as [->|]; [tauto|]. left. left. exists k. split; [lia|auto].
  - intros ((x, y), t) (_ & _ & _ & _ & _ & t' & -> & Ht). apply wp_bind, (wp_lc_new t'); [auto|]. apply wp_ret, HQ. rewrite Ht.
    apply mr_cond_strong; auto.
Qed.

End Facts.
