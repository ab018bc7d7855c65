(** Facts about CtMpDivisor: scaling, quotient estimate, limb steps. *)
From Coq Require Import ZArith List Bool Lia.
Require Import Verif.Spec Verif.Monad Verif.Base Verif.Wp Verif.ModelLimb Verif.LimbFacts Verif.LimbFacts2 Verif.LDivFacts
  Verif.ModelBuf Verif.SpecBuf Verif.BufFacts Verif.BufFacts2 Verif.BufFacts3 Verif.UpFacts Verif.MulFacts Verif.ModelDiv.
Import ListNotations.
Open Scope Z_scope.

Section Facts.
Context {c : cfg}.

(** ** Scaling *)
Lemma scale_pow : forall s, 0 <= s < W -> 0 < 2 ^ s /\ 2 * 2 ^ s <= B /\ B = 2 ^ s * 2 ^ (W - s) /\ 0 < 2 ^ (W - s).
Proof.
  intros s Hs. assert (E : B = 2 ^ s * 2 ^ (W - s)) by (rewrite B_eq, <- Z.pow_add_r by lia; f_equal; lia).
  assert (0 < 2 ^ s) by (apply Z.pow_pos_nonneg; lia).
  assert (2 ^ 1 <= 2 ^ (W - s)) by (apply Z.pow_le_mono_r; lia). change (2 ^ 1) with 2 in *.
  pose proof (mul_le_l (2 ^ s) 2 (2 ^ (W - s))). lia.
Qed.

Lemma scale_split : forall val s, isl val -> 0 <= s < W ->
  val * 2 ^ s = (val * 2 ^ s) mod B + B * Z.land (val / 2 ^ ((W - s) mod W)) (2 ^ s - 1) /\
  (val * 2 ^ s) mod B <= B - 2 ^ s /\ 0 <= Z.land (val / 2 ^ ((W - s) mod W)) (2 ^ s - 1) < 2 ^ s /\
  exists t, (val * 2 ^ s) mod B = 2 ^ s * t.
Proof.
  intros val s Hv Hs. destruct (scale_pow s Hs) as (P1 & P2 & P3 & P4). unfold isl in Hv.
  assert (LM : Z.land (val / 2 ^ ((W - s) mod W)) (2 ^ s - 1) = val / 2 ^ (W - s)).
  { replace (2 ^ s - 1) with (Z.ones s) by (rewrite Z.ones_equiv; lia). rewrite land_ones_mod by lia.
    destruct (Z.eq_dec s 0) as [->|Hn].
    - rewrite Z.pow_0_r, Z.mod_1_r, Z.sub_0_r. symmetry. apply Z.div_small. rewrite <- B_eq. lia.
    - rewrite (Z.mod_small (W - s)) by lia. apply Z.mod_small. split; [apply Z.div_pos; lia|].
      apply Z.div_lt_upper_bound; lia. }
  assert (SM : (val * 2 ^ s) mod B = 2 ^ s * (val mod 2 ^ (W - s))).
  { rewrite P3, (Z.mul_comm val). rewrite Z.mul_mod_distr_l by lia. reflexivity. }
  rewrite LM, SM. pose proof (Z.mod_pos_bound val (2 ^ (W - s)) P4) as MB.
  pose proof (Z_div_mod_eq_full val (2 ^ (W - s))) as DM.
  split; [rewrite P3; set (x := 2 ^ s) in *; set (y := 2 ^ (W - s)) in *; rewrite DM at 1; ring|].
  split; [rewrite P3; pose proof (mul_le_l (2 ^ s) (val mod 2 ^ (W - s)) (2 ^ (W - s) - 1)); lia|].
  split; [split; [apply Z.div_pos; lia|apply Z.div_lt_upper_bound; lia]|eauto].
Qed.

Lemma wp_scale : forall val s carry (Q : Z * Z -> Prop), isl val -> 0 <= s < W -> 0 <= carry <= 2 ^ s ->
  (forall c' x, isl x -> 0 <= c' <= 2 ^ s -> val * 2 ^ s + carry = x + B * c' -> Q (c', x)) ->
  wp (scale_val_ val s ((W - s) mod W) (2 ^ s - 1) carry) Q.
Proof.
  intros val s carry Q Hv Hs Hc HQ. unfold scale_val_. destruct (scale_pow s Hs) as (P1 & P2 & P3 & P4).
  destruct (scale_split val s Hv Hs) as (E & L1 & L2 & t & L3). pose proof B_pos.
  assert (D1 : forall x, 0 <= x <= 2 ^ s -> wp (let! lim := lshl 1 s in ret (x <=? lim)) (fun b => b = true)).
  { intros x Hx. apply wp_bind, wp_lshl; [lia|]. apply wp_ret. rewrite Z.mul_1_l, Z.mod_small by lia. apply Z.leb_le; lia. }
  apply wp_bind, wp_dassert_m; [apply D1; auto|].
  apply wp_bind, wp_lshl; [lia|].
  assert (I0 : isl ((val * 2 ^ s) mod B)) by apply isl_mod.
  apply wp_bind, wp_add_l; [auto|unfold isl; lia|]. intros k r Hk Hr Er.
  set (lo := (val * 2 ^ s) mod B) in *. set (hi := Z.land _ _) in *.
  assert (Z0 : k = 0 \/ r = 0). { destruct Hk; [auto|right]. subst k. unfold isl in *. lia. }
  apply wp_bind, wp_dassert. { apply orb_true_iff. rewrite !Z.eqb_eq. tauto. }
  pose proof (Z.mod_pos_bound (W - s) W W_pos).
  apply wp_bind, wp_lshr; [lia|].
  apply wp_bind, wp_ladd; [lia|].
  apply wp_bind, wp_dassert_m; [apply D1; lia|].
  apply wp_ret. apply HQ; auto; [lia|]. fold hi. lia.
Qed.

(** Unscaling: limb of the quotient by 2^s. *)
Lemma wp_unscale_limb : forall s X i (Q : Z -> Prop) ldiv h t vv dd ln, 0 <= s < W -> 0 <= i -> 0 <= X -> 
  Q (vlimb (X / 2 ^ s) i) ->
  wp (unscale_val (mk_divisor vv dd ln s ((W - s) mod W) (2 ^ s - 1) ldiv h t) (vlimb X i) (vlimb X (i + 1))) Q.
Proof.
  intros s X i Q ldiv h t vv dd ln Hs Hi HX HQ. unfold unscale_val. cbn [dv_shift dv_rshift dv_mask].
  destruct (scale_pow s Hs) as (P1 & P2 & P3 & P4). pose proof B_pos. pf (Bpow_pos i).
  apply wp_bind, wp_lshr; [lia|]. pose proof (Z.mod_pos_bound (W - s) W W_pos).
  apply wp_bind, wp_lshl; [lia|]. apply wp_ret.
  replace (2 ^ s - 1) with (Z.ones s) by (rewrite Z.ones_equiv; lia). rewrite land_ones_mod by lia.
  pose proof (vlimb_isl X i) as I0. unfold isl in I0.
  assert (LB0 : 0 <= vlimb X i / 2 ^ s < 2 ^ (W - s)). { split; [apply Z.div_pos; lia|apply Z.div_lt_upper_bound; lia]. }
  pf (Z.mod_pos_bound (vlimb X (i + 1)) (2 ^ s)) as MB.
  assert (E : ((vlimb X (i + 1) mod 2 ^ s) * 2 ^ ((W - s) mod W)) mod B = (vlimb X (i + 1) mod 2 ^ s) * 2 ^ (W - s)).
  { destruct (Z.eq_dec s 0) as [->|Hn].
    - rewrite Z.pow_0_r, Z.mod_1_r. rewrite !Z.mul_0_l. apply Z.mod_0_l. lia.
    - rewrite (Z.mod_small (W - s)) by lia. apply Z.mod_small. split; [apply mul_nn; lia|].
      rewrite P3. rewrite !(Z.mul_comm _ (2 ^ (W - s))). apply mul_lt_l; lia. }
  rewrite E. rewrite lor_shift_add by lia.
  replace (_ + _) with (vlimb (X / 2 ^ s) i); auto.
  (* vlimb (X/2^s) i = X/B^i/2^s mod B *)
  assert (V1 : X / 2 ^ s / B ^ i = X / B ^ i / 2 ^ s). { rewrite !Z.div_div by lia. f_equal. apply Z.mul_comm. }
  unfold vlimb at 1. rewrite V1. rewrite vdiv_S by lia.
  pf (Z.div_pos X (B ^ (i + 1))) as NN.
  set (Y := X / B ^ (i + 1)) in *.
  assert (VY : vlimb X (i + 1) = Y mod B) by reflexivity. rewrite VY.
  assert (YM : (Y mod B) mod 2 ^ s = Y mod 2 ^ s).
  { rewrite P3. rewrite Znumtheory.Zmod_div_mod with (n := 2 ^ s) (m := 2 ^ s * 2 ^ (W - s)) (a := Y); try lia. exists (2 ^ (W - s)). lia. }
  rewrite YM. rewrite P3. replace (2 ^ s * 2 ^ (W - s) * Y) with (2 ^ (W - s) * Y * 2 ^ s) by ring.
  rewrite Z.div_add by lia. pose proof (Z_div_mod_eq_full Y (2 ^ s)) as DY.
  symmetry. apply Z.mod_unique with (q := Y / 2 ^ s).
  - left. rewrite (Z.mul_comm (Y mod 2 ^ s)). pf (Z.mod_pos_bound Y (2 ^ s)) as MY.
    pose proof (mul_le_l (2 ^ (W - s)) (Y mod 2 ^ s) (2 ^ s - 1)). pose proof (mul_nn (2 ^ (W - s)) (Y mod 2 ^ s)). lia.
  - rewrite DY at 1. ring.
Qed.

(** ** The quotient estimate *)
Lemma est_low : forall V U k v1 v2 u3 q r Bk, 0 < Bk -> 0 <= q ->
  (v1 * B + v2) * Bk <= V -> U < (u3 + 1) * Bk ->
  q * v1 + r = k -> q * v2 > B * r + (u3 - k * B) -> U < q * V.
Proof.
  intros V U k v1 v2 u3 q r Bk HB Hq HV HU E T.
  assert (u3 + 1 <= q * (v1 * B + v2)).
  { replace (q * (v1 * B + v2)) with ((q * v1) * B + q * v2) by ring. replace (q * v1) with (k - r) by lia. lia. }
  pose proof (mul_le_l Bk (u3 + 1) (q * (v1 * B + v2))). pose proof (mul_le_l q ((v1 * B + v2) * Bk) V). lia.
Qed.
Lemma est_high1 : forall V U v12 u3 q Bk, 0 < Bk -> 0 < q <= B -> B <= v12 + 1 ->
  V <= (v12 + 1) * Bk -> u3 * Bk <= U -> q * v12 <= u3 -> (q - 1) * V <= U.
Proof.
  intros V U v12 u3 q Bk HB Hq Hv HV HU T.
  pose proof (mul_le_l (q - 1) V ((v12 + 1) * Bk)).
  assert ((q - 1) * (v12 + 1) <= u3) by lia.
  pose proof (mul_le_l Bk ((q - 1) * (v12 + 1)) u3). lia.
Qed.
Lemma est_high2 : forall V U v1 u2 q Bk, 0 < Bk -> 2 <= q <= B -> B <= 2 * v1 ->
  V <= (v1 + 1) * Bk -> u2 * Bk <= U -> q * v1 <= u2 -> (q - 2) * V <= U.
Proof.
  intros V U v1 u2 q Bk HB Hq Hv HV HU T.
  pose proof (mul_le_l (q - 2) V ((v1 + 1) * Bk)).
  assert ((q - 2) * (v1 + 1) <= u2) by lia.
  pose proof (mul_le_l Bk ((q - 2) * (v1 + 1)) u2). lia.
Qed.

(** [est_ok V U q]: [q] is the quotient of [U] by [V] or one more. *)
Definition est_ok (V U q : Z) : Prop := isl q /\ (q - 1) * V <= U < (q + 1) * V.

(** [k = n - 2] with the top two limbs [v1], [v2] of [V] and the top three of
    [U]. *)
Lemma wp_estimate2 : forall d V U k u0 u1 u2 (Q : Z -> Prop),
  0 <= k -> ld_ok (dv_ldiv d) (dv_head d) -> B <= 2 * dv_head d -> isl (dv_head d) -> isl (dv_tail d) ->
  (dv_head d * B + dv_tail d) * B ^ k <= V < (dv_head d * B + dv_tail d + 1) * B ^ k ->
  isl u0 -> isl u1 -> isl u2 -> ((u0 * B + u1) * B + u2) * B ^ k <= U < ((u0 * B + u1) * B + u2 + 1) * B ^ k ->
  0 <= U < V * B ->
  (forall q, est_ok V U q -> Q q) -> wp (make_q_estimate d u0 u1 u2) Q.
Proof.
  intros d V U k u0 u1 u2 Q Hk HL HN I1 I2 HV H0 H1 H2 HU HUV HQ. unfold make_q_estimate.
  set (v1 := dv_head d) in *. set (v2 := dv_tail d) in *. pf (Bpow_pos k) as BK. pose proof B_gt as BG. set (Bk := B ^ k) in *.
  unfold isl in *.
  assert (U0 : u0 <= v1).
  { destruct (Z.le_gt_cases u0 v1); auto. exfalso.
    assert (v1 * B + v2 + 1 <= u0 * B) by (pose proof (mul_le_l B (v1 + 1) u0); lia).
    pose proof (mul_le_l (Bk * B) (v1 * B + v2 + 1) (u0 * B)). pose proof (mul_lt_l B V ((v1 * B + v2 + 1) * Bk)).
    pose proof (mul_nn Bk (u1 * B + u2)). lia. }
  apply wp_bind, wp_sub_l; unfold isl; try lia. intros uh Hr Er.
  apply wp_bind, wp_lc_new with (b := u0 <? v1); auto.
  rewrite lc_select_chc by (unfold isl; lia).
  set (ov := negb (u0 <? v1)).
  set (u_high := if u0 <? v1 then u0 else uh).
  assert (UH : u_high = if ov then 0 else u0). { unfold u_high, ov, isl in *. destruct (Z.ltb_spec u0 v1); cbn [negb b2z] in *; lia. }
  assert (UHr : 0 <= u_high < v1). { rewrite UH. unfold ov. destruct (Z.ltb_spec u0 v1); cbn [negb]; lia. }
  apply wp_bind, wp_dassert; [apply Z.ltb_lt; lia|].
  apply wp_bind. eapply wp_l_divisor_do_div; [exact HL|unfold isl; lia|exact UHr|]. intros ql r Hql Hrr Eq. cbv beta zeta. unfold isl in Hql.
  apply wp_bind, wp_dassert. { rewrite lc_unwrap_chc. destruct (Z.ltb_spec u0 v1); cbn; auto. apply Z.eqb_eq. lia. }
  rewrite lc_not_chc. fold ov. rewrite lnot_0. rewrite lc_select_chc by (unfold isl; lia).
  apply wp_bind, wp_add_l; unfold isl; try lia. intros kc rov Hkc Hrov Erov. unfold isl in Hrov.
  rewrite lc_select_chc by (unfold isl; lia).
  apply wp_bind, wp_dassert. { destruct Hkc; subst kc; [rewrite Z.land_0_l; auto|]. rewrite lnot_1. rewrite Z.land_comm. destruct B_cases as [-> | ->]; reflexivity. }
  apply wp_bind, wp_lc_new with (b := kc =? 1). { destruct Hkc; subst kc; auto. }
  rewrite lc_and_chc. set (q := if ov then B - 1 else ql). set (r' := if ov then rov else r).
  assert (Hq : 0 <= q < B) by (unfold q; destruct ov; lia).
  assert (Hr' : 0 <= r' < B) by (unfold r'; destruct ov; lia).
  set (rc := ov && (kc =? 1)).
  (* the true remainder *)
  set (R := r' + if rc then B else 0).
  assert (ER : q * v1 + R = u0 * B + u1).
  { unfold R, q, r', rc. rewrite UH in Eq. unfold ov in *. destruct (Z.ltb_spec u0 v1); cbn [negb andb] in *.
    - lia.
    - assert (u0 = v1) by lia. subst u0. destruct Hkc; subst kc; cbn; lia. }
  apply wp_bind, wp_mul_l; unfold isl; try lia. intros ph pl Hph Hpl Ep. unfold isl in Hph, Hpl.
  apply wp_bind, wp_gt_l; unfold isl; try lia.
  apply wp_bind, wp_eq_l; unfold isl; try lia.
  apply wp_bind, wp_gt_l; unfold isl; try lia.
  rewrite lc_not_chc, lc_and_chc, lc_or_chc, lc_and_chc.
  set (test := negb rc && ((r' <? ph) || (ph =? r') && (u2 <? pl))).
  assert (TE : test = true <-> v2 * q > B * R + u2).
  { unfold test, R. destruct rc; cbn [negb andb].
    - split; [discriminate|]. intros. exfalso. pose proof (mul_le_l B 0 r'). pose proof (mul_le_l v2 q B). pose proof (mul_le_l B v2 B). lia.
    - rewrite Z.add_0_r. rewrite orb_true_iff, andb_true_iff, !Z.ltb_lt, Z.eqb_eq. rewrite Ep.
      split; [intros [?|[? ?]]|intros].
      + pose proof (mul_le_l B (r' + 1) ph). lia.
      + subst. lia.
      + destruct (Z.lt_trichotomy ph r') as [L|[L|L]]; [exfalso|right; split; [auto|]|left; auto].
        * pose proof (mul_le_l B (ph + 1) r'). lia.
        * subst. lia. }
  rewrite lc_select_chc by (unfold isl; lia).
  set (u3 := (u0 * B + u1) * B + u2) in *.
  assert (V0 : 0 < V) by (pose proof (mul_le_l Bk 1 (v1 * B + v2)); pose proof (mul_le_l B 1 v1); lia).
  (* never below the quotient *)
  assert (LOW : U < (q + 1) * V).
  { destruct (bool_dec ov true) as [O|O].
    - unfold q. rewrite O. lia.
    - (* q = floor ((u0 B + u1) / v1) *)
      apply not_true_is_false in O. unfold R, r', rc, q in ER. rewrite O in ER. cbn [andb] in ER. unfold q. rewrite O.
      assert (u0 * B + u1 + 1 <= (ql + 1) * v1) by lia.
      assert ((u3 + 1) <= (ql + 1) * (v1 * B)). { unfold u3. pose proof (mul_le_l B (u0 * B + u1 + 1) ((ql + 1) * v1)). lia. }
      pose proof (mul_le_l Bk (u3 + 1) ((ql + 1) * (v1 * B))). pose proof (mul_nn v2 Bk).
      pose proof (mul_le_l (ql + 1) (v1 * B * Bk) V). lia. }
  destruct test eqn:ET.
  - destruct TE as [TE _]. specialize (TE eq_refl).
    assert (LT : U < q * V). { apply (est_low V U (u0 * B + u1) v1 v2 u3 q R Bk); try lia; unfold u3; lia. }
    assert (1 <= q). { destruct (Z.le_gt_cases 1 q); auto. assert (q = 0) by lia. subst q. rewrite H3 in LT. lia. }
    apply wp_lsub; [lia|]. apply HQ. split; [unfold isl; lia|]. split; [|lia].
    replace (q - 1 - 1) with (q - 2) by lia. destruct (Z.eq_dec q 1) as [E1|N1]; [rewrite E1; lia|].
    apply (est_high2 V U v1 (u0 * B + u1) q (Bk * B)); try lia.
    + pose proof (mul_le_l Bk (v1 * B + v2 + 1) (v1 * B + B)). lia.
    + pose proof (mul_nn u2 Bk). unfold u3 in *. lia.
    + unfold R in ER. destruct rc; lia.
  - assert (TF : v2 * q <= B * R + u2). { destruct TE as [_ TE]. destruct (Z.le_gt_cases (v2 * q) (B * R + u2)); auto. discriminate TE; lia. }
    apply wp_lsub; [lia|]. rewrite Z.sub_0_r. apply HQ. split; [unfold isl; lia|]. split; [|lia].
    destruct (Z.eq_dec q 0) as [E0|N0]; [rewrite E0; lia|].
    apply (est_high1 V U (v1 * B + v2) u3 q Bk); try lia.
    pose proof (mul_le_l B 1 v1). lia.
Qed.

(** ** The divisor object *)
Definition dval (d : mp_divisor) : Z := mpval (dv_v d) - dv_dec0 d.
Definition dvn (d : mp_divisor) : Z := ct_mp_nlimbs (dv_len d).
Definition dvV (d : mp_divisor) : Z := dval d * 2 ^ dv_shift d.
Record dv_ok (d : mp_divisor) : Prop := mk_dv_ok {
  dvo_v : mp_ok (dv_v d);
  dvo_dec : isl (dv_dec0 d);
  dvo_len : 1 <= dv_len d <= mp_len (dv_v d);
  dvo_bytes : 256 ^ (dv_len d - 1) <= dval d < 256 ^ dv_len d;
  dvo_s : 0 <= dv_shift d < W;
  dvo_rs : dv_rshift d = (W - dv_shift d) mod W;
  dvo_mask : dv_mask d = 2 ^ dv_shift d - 1;
  dvo_n : 1 <= dvn d <= nlimbs (dv_v d);
  dvo_V : dvV d < B ^ dvn d;
  dvo_ld : ld_ok (dv_ldiv d) (dv_head d);
  dvo_head : dv_head d = dvV d / B ^ (dvn d - 1);
  dvo_norm : B <= 2 * dv_head d;
  dvo_tail : dv_tail d = if 2 <=? dvn d then vlimb (dvV d) (dvn d - 2) else 0
}.

Lemma dv_pos : forall d, dv_ok d -> 0 < dval d /\ 0 < dvV d /\ dval d <= dvV d /\ dval d < B ^ dvn d.
Proof.
  intros d H. destruct (scale_pow _ (dvo_s _ H)) as (P & _). pose proof (dvo_bytes _ H) as HB. pose proof (dvo_len _ H).
  pf (p256_pos (dv_len d - 1)). assert (0 < dval d) by lia.
  assert (dval d <= dvV d) by (unfold dvV; pose proof (mul_le_l (dval d) 1 (2 ^ dv_shift d)); lia).
  pose proof (dvo_V _ H). lia.
Qed.

(** Limb [i] of the decremented divisor. *)
Definition decinv (v dec i bd : Z) : Prop := isl bd /\ v mod B ^ i + bd * B ^ i = dec + (v - dec) mod B ^ i.
Lemma decinv_init : forall v dec, isl dec -> decinv v dec 0 dec.
Proof. intros. split; auto. rewrite Z.pow_0_r, !Z.mod_1_r. lia. Qed.
Lemma limb_split : forall v i, 0 <= i -> v = v mod B ^ i + B ^ i * (vlimb v i + B * (v / B ^ (i + 1))).
Proof. intros v i Hi. rewrite <- vdiv_S by auto. pose proof (Z_div_mod_eq_full v (B ^ i)). lia. Qed.
Lemma decinv_step : forall v dec i bd r k, 0 <= i -> decinv v dec i bd -> isl r -> (k = 0 \/ k = 1) ->
  vlimb v i - bd = r - B * k -> r = vlimb (v - dec) i /\ decinv v dec (i + 1) k.
Proof.
  intros v dec i bd r k Hi [Hb E] Hr Hk Er. pf (Bpow_pos i) as BP. pose proof B_gt as BG.
  pose proof (limb_split v i Hi) as S1. pose proof (limb_split (v - dec) i Hi) as S2. pose proof (vlimb_isl (v - dec) i) as I2.
  assert (X : vlimb v i + B * (v / B ^ (i + 1)) = bd + vlimb (v - dec) i + B * ((v - dec) / B ^ (i + 1))).
  { apply Z.mul_reg_l with (p := B ^ i); [lia|]. rewrite !Z.mul_add_distr_l in *. lia. }
  destruct (digit_unique B r (v / B ^ (i + 1) - k) (vlimb (v - dec) i) ((v - dec) / B ^ (i + 1))) as [D1 D2]; auto; [lia|].
  split; auto. split; [unfold isl; lia|]. rewrite !vmod_S, Bpow_S by auto. rewrite <- D2.
  replace (vlimb v i) with (r - B * k + bd) by lia. lia.
Qed.

(** Limb [i] of the scaled divisor. *)
Definition scinv (D s i cy : Z) : Prop := 0 <= cy <= 2 ^ s /\ (D mod B ^ i) * 2 ^ s = (D * 2 ^ s) mod B ^ i + cy * B ^ i.
Lemma scinv_init : forall D s, 0 <= s -> scinv D s 0 0.
Proof. intros. pf (Z.pow_pos_nonneg 2 s). split; [lia|]. rewrite Z.pow_0_r, !Z.mod_1_r. lia. Qed.
Lemma scinv_step : forall D s i cy x k, 0 <= i -> scinv D s i cy -> isl x -> 0 <= k <= 2 ^ s ->
  vlimb D i * 2 ^ s + cy = x + B * k -> x = vlimb (D * 2 ^ s) i /\ scinv D s (i + 1) k.
Proof.
  intros D s i cy x k Hi [Hb E] Hr Hk Er. pf (Bpow_pos i) as BP. pose proof B_gt as BG.
  pose proof (limb_split D i Hi) as S1. pose proof (limb_split (D * 2 ^ s) i Hi) as S2. pose proof (vlimb_isl (D * 2 ^ s) i) as I2.
  set (V := D * 2 ^ s) in *. set (p := 2 ^ s) in *.
  assert (X : (vlimb D i + B * (D / B ^ (i + 1))) * p + cy = vlimb V i + B * (V / B ^ (i + 1))).
  { apply Z.mul_reg_l with (p := B ^ i); [lia|]. 
    assert (V = (D mod B ^ i) * p + B ^ i * ((vlimb D i + B * (D / B ^ (i + 1))) * p)) by (unfold V; rewrite S1 at 1; ring). lia. }
  destruct (digit_unique B x (k + (D / B ^ (i + 1)) * p) (vlimb V i) (V / B ^ (i + 1))) as [D1 D2]; auto; [lia|].
  split; auto. split; [auto|]. rewrite !vmod_S, Bpow_S by auto. fold p. fold V. rewrite <- D2.
  assert (vlimb D i * p = x + B * k - cy) by lia. 
  replace ((D mod B ^ i + vlimb D i * B ^ i) * p) with ((D mod B ^ i) * p + (vlimb D i * p) * B ^ i) by ring. rewrite H. lia.
Qed.
Lemma scinv_end : forall D s n cy, 0 <= n -> scinv D s n cy -> 0 <= D -> 0 <= s -> D * 2 ^ s < B ^ n -> cy = 0.
Proof.
  intros D s n cy Hn [Hb E] H0 Hs HV. pf (Z.pow_pos_nonneg 2 s). pf (Bpow_pos n).
  assert (D * 1 <= D * 2 ^ s) by (apply mul_le_l; lia).
  rewrite !Z.mod_small in E by lia. assert (cy * B ^ n = 0) by lia. nia.
Qed.

Definition dvst (d : mp_divisor) (i bd cy : Z) : Prop :=
  decinv (mpval (dv_v d)) (dv_dec0 d) i bd /\ scinv (dval d) (dv_shift d) i cy.
Lemma dvst_init : forall d, dv_ok d -> dvst d 0 (dv_dec0 d) 0.
Proof. intros d H. split; [apply decinv_init, H|apply scinv_init]. pose proof (dvo_s _ H). lia. Qed.
Lemma dvst_end : forall d bd cy, dv_ok d -> dvst d (dvn d) bd cy -> cy = 0.
Proof.
  intros d bd cy H [_ H2]. pose proof (dvo_n _ H). pose proof (dvo_s _ H). pose proof (dv_pos _ H) as (P1 & P2 & _). pose proof (dvo_V _ H).
  eapply scinv_end; eauto; lia.
Qed.

Lemma wp_dec_limb : forall v dec i bd (Q : Z * Z -> Prop), 0 <= i -> decinv v dec i bd ->
  (forall bd', (bd' = 0 \/ bd' = 1) -> decinv v dec (i + 1) bd' -> Q (bd', vlimb (v - dec) i)) ->
  wp (ct_sub_l_l (vlimb v i) bd) Q.
Proof.
  intros v dec i bd Q Hi HD HQ. apply wp_sub_l; [apply vlimb_isl|apply HD|]. intros r Hr E.
  assert (Hk : b2z (vlimb v i <? bd) = 0 \/ b2z (vlimb v i <? bd) = 1) by (destruct (_ <? _); auto).
  destruct (decinv_step v dec i bd r _ Hi HD Hr Hk E) as [-> H]. apply HQ; auto.
Qed.

Lemma wp_scale_val : forall d val carry (Q : Z * Z -> Prop), dv_ok d -> isl val -> 0 <= carry <= 2 ^ dv_shift d ->
  (forall c' x, isl x -> 0 <= c' <= 2 ^ dv_shift d -> val * 2 ^ dv_shift d + carry = x + B * c' -> Q (c', x)) ->
  wp (scale_val d val carry) Q.
Proof. intros. unfold scale_val. rewrite dvo_rs, dvo_mask by auto. apply wp_scale; auto. apply dvo_s; auto. Qed.

Lemma wp_scaled_v : forall d i bd cy (Q : Z * Z * Z -> Prop), dv_ok d -> 0 <= i < dvn d -> dvst d i bd cy ->
  (forall bd' cy', dvst d (i + 1) bd' cy' -> Q (bd', cy', vlimb (dvV d) i)) ->
  wp (scaled_v_val d i bd cy) Q.
Proof.
  intros d i bd cy Q H Hi [S1 S2] HQ. unfold scaled_v_val. pose proof (dvo_n _ H).
  apply wp_bind, wp_load; [apply H|lia|]. rewrite limb_vlimb.
  apply wp_bind, wp_dec_limb with (dec := dv_dec0 d); auto; [lia|]. intros bd' Hb' S1'.
  apply wp_bind, wp_scale_val; auto; [apply vlimb_isl|apply S2|]. intros c' x Hx Hc E. apply wp_ret.
  destruct (scinv_step _ _ i cy x c' (proj1 Hi) S2 Hx Hc E) as [-> S2']. apply HQ. split; auto.
Qed.

(** The bare limb of the divisor, scaled, with any incoming carry. *)
Lemma wp_scaled_v_raw : forall d i bd cy (Q : Z * Z * Z -> Prop), dv_ok d -> 0 <= i < dvn d ->
  decinv (mpval (dv_v d)) (dv_dec0 d) i bd -> 0 <= cy <= 2 ^ dv_shift d ->
  (forall bd' cy' x, decinv (mpval (dv_v d)) (dv_dec0 d) (i + 1) bd' -> isl x -> 0 <= cy' <= 2 ^ dv_shift d ->
    vlimb (dval d) i * 2 ^ dv_shift d + cy = x + B * cy' -> Q (bd', cy', x)) ->
  wp (scaled_v_val d i bd cy) Q.
Proof.
  intros d i bd cy Q H Hi S1 S2 HQ. unfold scaled_v_val. pose proof (dvo_n _ H).
  apply wp_bind, wp_load; [apply H|lia|]. rewrite limb_vlimb.
  apply wp_bind, wp_dec_limb with (dec := dv_dec0 d); auto; [lia|]. intros bd' Hb' S1'.
  apply wp_bind, wp_scale_val; auto; [apply vlimb_isl|]. intros c' x Hx Hc E. apply wp_ret. apply HQ; auto.
Qed.

Lemma wp_sub_qv : forall d op0 i q bd cy bo (Q : Z * Z * Z * Z -> Prop), dv_ok d -> 0 <= i < dvn d -> dvst d i bd cy ->
  isl op0 -> isl q -> isl bo ->
  (forall bd' cy' bo' x, dvst d (i + 1) bd' cy' -> isl bo' -> isl x ->
    op0 - q * vlimb (dvV d) i - bo = x - bo' * B -> Q (bd', cy', bo', x)) ->
  wp (sub_scaled_qv_val d op0 i q bd cy bo) Q.
Proof.
  intros d op0 i q bd cy bo Q H Hi S H0 Hq Hbo HQ. unfold sub_scaled_qv_val.
  apply wp_bind, wp_scaled_v; auto. intros bd' cy' S'.
  apply wp_bind, wp_mul_sub; auto; [apply vlimb_isl|]. intros h l Hh Hl E. apply wp_ret. apply HQ; auto.
Qed.

Lemma wp_add_v : forall d op0 i bd cy (b : bool) (Q : Z * Z * Z -> Prop), dv_ok d -> 0 <= i < dvn d ->
  decinv (mpval (dv_v d)) (dv_dec0 d) i bd -> isl op0 -> 0 <= cy <= 2 ^ dv_shift d -> (b = false -> cy = 0) ->
  (forall bd' cy' x, decinv (mpval (dv_v d)) (dv_dec0 d) (i + 1) bd' -> 0 <= cy' <= 2 ^ dv_shift d -> (b = false -> cy' = 0) -> isl x ->
    op0 + (if b then vlimb (dval d) i * 2 ^ dv_shift d else 0) + cy = x + cy' * B -> Q (bd', cy', x)) ->
  wp (add_scaled_v_val_cond d op0 i bd cy (chc b)) Q.
Proof.
  intros d op0 i bd cy b Q H Hi S1 H0 Hcy Hb HQ. unfold add_scaled_v_val_cond. destruct (scale_pow _ (dvo_s _ H)) as (P1 & P2 & _).
  apply wp_bind, wp_scaled_v_raw; auto. intros bd' cy' x S1' Hx Hcy' E. pose proof B_gt.
  rewrite !lc_select_chc by (unfold isl in *; lia). destruct b.
  - apply wp_bind, wp_add_l; auto. intros k r Hk Hr Er.
    assert (L : cy' + k <= 2 ^ dv_shift d). { destruct Hk; subst k; [lia|]. destruct (Z.eq_dec cy' (2 ^ dv_shift d)) as [EC|]; [|lia].
      exfalso. pose proof (vlimb_isl (dval d) i) as VI. unfold isl in *. pose proof (mul_le_l (2 ^ dv_shift d) (vlimb (dval d) i) (B - 1)).
      rewrite EC in E. lia. }
    apply wp_bind, wp_ladd; [lia|]. apply wp_ret. apply HQ; auto; try lia; try congruence.
  - specialize (Hb eq_refl). subst cy. apply wp_bind, wp_add_l; auto; [unfold isl; lia|]. intros k r Hk Hr Er. unfold isl in *.
    assert (k = 0) by lia. subst k. apply wp_bind, wp_ladd; [lia|]. apply wp_ret. apply HQ; auto; unfold isl; lia.
Qed.

Lemma dv_top : forall d, dv_ok d -> 2 <= dvn d ->
  isl (dv_head d) /\ isl (dv_tail d) /\
  (dv_head d * B + dv_tail d) * B ^ (dvn d - 2) <= dvV d < (dv_head d * B + dv_tail d + 1) * B ^ (dvn d - 2).
Proof.
  intros d H Hn. pose proof (dvo_ld _ H) as (L & _). split; [unfold isl; lia|].
  rewrite (dvo_tail _ H). rewrite (proj2 (Z.leb_le _ _) Hn). split; [apply vlimb_isl|].
  rewrite (dvo_head _ H). pf (limb_split (dvV d) (dvn d - 2)) as S. replace (dvn d - 2 + 1) with (dvn d - 1) in S by lia.
  pf (Bpow_pos (dvn d - 2)). pf (Z.mod_pos_bound (dvV d) (B ^ (dvn d - 2))). lia.
Qed.

(** The estimate for the window [U] of n + 1 limbs. *)
Lemma wp_estimate : forall d U u0 u1 u2 (Q : Z -> Prop), dv_ok d -> 0 <= U < dvV d * B ->
  u0 = vlimb U (dvn d) -> u1 = vlimb U (dvn d - 1) -> isl u2 -> (2 <= dvn d -> u2 = vlimb U (dvn d - 2)) ->
  (forall q, est_ok (dvV d) U q -> Q q) -> wp (make_q_estimate d u0 u1 u2) Q.
Proof.
  intros d U u0 u1 u2 Q H HU E0 E1 I2 E2 HQ. pose proof (dvo_ld _ H) as (L & _). pose proof (dvo_n _ H) as Hn. pose proof (dvo_V _ H) as HV. pose proof B_gt.
  assert (UB : U < B ^ (dvn d + 1)). { rewrite Bpow_S by lia. pose proof (mul_lt_l B (dvV d) (B ^ dvn d)). lia. }
  assert (T : vlimb U (dvn d) = U / B ^ dvn d). { unfold vlimb. apply Z.mod_small. pf (Bpow_pos (dvn d)). split; [apply Z.div_pos; lia|]. apply Z.div_lt_upper_bound; [lia|]. rewrite Bpow_S in UB by lia. lia. }
  pf (limb_split U (dvn d - 1)) as S1. replace (dvn d - 1 + 1) with (dvn d) in S1 by lia. rewrite <- T, <- E0, <- E1 in S1.
  assert (I0 : isl u0) by (rewrite E0; apply vlimb_isl). assert (I1 : isl u1) by (rewrite E1; apply vlimb_isl).
  destruct (Z.eq_dec (dvn d) 1) as [N1|N1].
  - rewrite N1 in *. change (1 - 1) with 0 in *. rewrite Z.pow_0_r, Z.mod_1_r in S1.
    pose proof (dvo_head _ H) as EH. rewrite N1 in EH. change (1 - 1) with 0 in EH. rewrite Z.pow_0_r, Z.div_1_r in EH.
    assert (ET : dv_tail d = 0) by (rewrite (dvo_tail _ H), N1; auto).
    apply wp_estimate2 with (V := dvV d * B) (U := U * B + u2) (k := 0); rewrite ?Z.pow_0_r, ?ET, ?EH; auto; try (unfold isl in *; lia).
    + rewrite <- EH. apply H.
    + rewrite <- EH. apply H.
    + unfold isl in *. pose proof (mul_le_l B (U + 1) (dvV d * B)). lia.
    + intros q (Q1 & Q2 & Q3). apply HQ. split; auto. unfold isl in *.
      split.
      * assert (B * ((q - 1) * dvV d) < B * (U + 1)) by lia. apply mul_lt_cancel in H1; lia.
      * assert (B * U < B * ((q + 1) * dvV d)) by lia. apply mul_lt_cancel in H1; lia.
  - destruct (dv_top d H) as (T1 & T2 & T3); [lia|].
    apply wp_estimate2 with (V := dvV d) (U := U) (k := dvn d - 2); auto; try lia.
    + apply H.
    + apply H.
    + pf (limb_split U (dvn d - 2)) as S2. replace (dvn d - 2 + 1) with (dvn d - 1) in S2 by lia. rewrite <- E2 in S2 by lia.
      assert (D1 : U / B ^ (dvn d - 1) = u1 + B * u0).
      { pf (vdiv_S U (dvn d - 1)) as D. replace (dvn d - 1 + 1) with (dvn d) in D by lia. rewrite D, <- T, <- E0, <- E1. auto. }
      rewrite D1 in S2. pf (Bpow_pos (dvn d - 2)). pf (Z.mod_pos_bound U (B ^ (dvn d - 2))). lia.
Qed.

End Facts.
