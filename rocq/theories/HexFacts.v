(** Facts about hexadecimal strings. *)
From Coq Require Import ZArith List Bool Lia.
Require Import Verif.Spec Verif.Monad Verif.Base Verif.Wp Verif.ModelLimb Verif.LimbFacts Verif.LimbFacts2
  Verif.ModelBuf Verif.SpecBuf Verif.BufFacts Verif.BufFacts2 Verif.BufFacts3 Verif.SpecHex Verif.ModelHex.
Import ListNotations.
Open Scope Z_scope.

(** ** Digit strings *)
Lemma hexdig_range : forall ch d, hexdig ch d -> 0 <= d < 16.
Proof. unfold hexdig, hexdig_lower. lia. Qed.
Lemma hexdig_fun : forall ch d d', hexdig ch d -> hexdig ch d' -> d = d'.
Proof. unfold hexdig, hexdig_lower. lia. Qed.
Lemma hexdig_lower_inj : forall ch ch' d, hexdig_lower ch d -> hexdig_lower ch' d -> ch = ch'.
Proof. unfold hexdig_lower. lia. Qed.
Lemma hex_digits_fun : forall s ds ds', hex_digits s ds -> hex_digits s ds' -> ds = ds'.
Proof.
  intros s ds ds' H. revert ds'. induction H; intros ds' H'; inversion H'; subst; auto.
  f_equal; eauto using hexdig_fun.
Qed.
Lemma hex_digits_lower_inj : forall s s' ds, hex_digits_lower s ds -> hex_digits_lower s' ds -> s = s'.
Proof.
  intros s s' ds H. revert s'. induction H; intros s' H'; inversion H'; subst; auto.
  f_equal; eauto using hexdig_lower_inj.
Qed.
Lemma hex_digits_of_lower : forall s ds, hex_digits_lower s ds -> hex_digits s ds.
Proof. intros s ds H. induction H; constructor; auto. left. auto. Qed.
Lemma hex_digits_len : forall s ds, hex_digits s ds -> zlen s = zlen ds.
Proof. intros s ds H. unfold zlen. f_equal. induction H; cbn; congruence. Qed.
Lemma hex_digits_ok : forall s ds, hex_digits s ds -> digits_ok 16 ds.
Proof. intros s ds H. induction H; constructor; eauto using hexdig_range. Qed.

Lemma val_cons : forall b d ds, digits_val b (rev (d :: ds)) = d * b ^ zlen ds + digits_val b (rev ds).
Proof. intros. cbn [rev]. rewrite digits_val_app, zlen_rev. cbn [digits_val]. lia. Qed.
Lemma val_snoc : forall b d ds, digits_val b (rev (ds ++ [d])) = d + b * digits_val b (rev ds).
Proof. intros. rewrite rev_app_distr. reflexivity. Qed.

Lemma digits_val_inj : forall b l l', 0 < b -> digits_ok b l -> digits_ok b l' -> zlen l = zlen l' ->
  digits_val b l = digits_val b l' -> l = l'.
Proof.
  intros b l l' Hb H. revert l'. induction H as [|d t Hd Ht IH]; intros l' H' HL HV.
  - destruct l'; auto. rewrite zlen_cons, zlen_nil in HL. pose proof (zlen_nonneg _ l'). lia.
  - inversion H' as [|d' t' Hd' Ht' E]; subst.
    + rewrite zlen_cons, zlen_nil in HL. pose proof (zlen_nonneg _ t). lia.
    + rewrite !zlen_cons in HL. cbn [digits_val] in HV.
      destruct (digit_unique b d (digits_val b t) d' (digits_val b t')); try lia.
      subst d'. f_equal. apply IH; auto; lia.
Qed.
Lemma rev_val_inj : forall b l l', 0 < b -> digits_ok b l -> digits_ok b l' -> zlen l = zlen l' ->
  digits_val b (rev l) = digits_val b (rev l') -> l = l'.
Proof.
  intros. rewrite <- (rev_involutive l), <- (rev_involutive l'). f_equal.
  apply digits_val_inj with b; auto using digits_ok_rev. rewrite !zlen_rev. auto.
Qed.

(** The characters and the digits of a byte. *)
Definition hexch (d : Z) : Z := if d <=? 9 then 48 + d else 97 + (d - 10).
Definition hx (v : Z) : list Z := [hexch (v / 16); hexch (v mod 16)].
Definition nib (v : Z) : list Z := [v / 16; v mod 16].

Lemma hexch_lower : forall d, 0 <= d < 16 -> hexdig_lower (hexch d) d.
Proof. intros. unfold hexch, hexdig_lower. destruct (Z.leb_spec d 9); lia. Qed.
Lemma hx_digits : forall bs, digits_ok 256 bs -> hex_digits_lower (flat_map hx bs) (flat_map nib bs).
Proof.
  intros bs H. induction H as [|v t Hv Ht IH]; [constructor|]. cbn [flat_map hx nib app].
  pose proof (Z.div_mod v 16). pose proof (Z.mod_pos_bound v 16).
  assert (0 <= v / 16 < 16) by lia.
  constructor; [apply hexch_lower; lia|]. constructor; [apply hexch_lower; lia|auto].
Qed.
Lemma nib_val : forall bs, hex_val (flat_map nib bs) = be_val bs.
Proof.
  unfold hex_val, be_val. induction bs as [|v t IH] using rev_ind; [reflexivity|].
  rewrite flat_map_app. cbn [flat_map nib app].
  replace (flat_map nib t ++ [v / 16; v mod 16]) with ((flat_map nib t ++ [v / 16]) ++ [v mod 16])
    by (rewrite <- app_assoc; reflexivity).
  rewrite !val_snoc, IH. pose proof (Z.div_mod v 16). lia.
Qed.
Lemma nib_len : forall bs, zlen (flat_map nib bs) = 2 * zlen bs.
Proof. induction bs; [reflexivity|]. cbn [flat_map nib app]. rewrite !zlen_cons. lia. Qed.
Lemma hx_len : forall bs, zlen (flat_map hx bs) = 2 * zlen bs.
Proof. induction bs; [reflexivity|]. cbn [flat_map hx app]. rewrite !zlen_cons. lia. Qed.

Section Facts.
Context {c : cfg}.

(** ** Decoding *)
Lemma nibble_some : forall ch d, nibble_from_hex ch = Some d <-> hexdig ch d.
Proof.
  intros. unfold nibble_from_hex, hexdig, hexdig_lower.
  destruct (Z.leb_spec 48 ch), (Z.leb_spec ch 57), (Z.leb_spec 97 ch), (Z.leb_spec ch 102),
    (Z.leb_spec 65 ch), (Z.leb_spec ch 70); cbn [andb]; try lia;
    (split; [intros E; try discriminate E; injection E as <-; lia | intros E; try f_equal; lia]).
Qed.
Lemma nibble_none : forall ch, nibble_from_hex ch = None -> forall d, ~ hexdig ch d.
Proof. intros ch H d Hd. apply nibble_some in Hd. congruence. Qed.

Lemma byte_from_hex_spec : forall c0 c1,
  match byte_from_hex c0 c1 with
  | Ok b => exists d0 d1, hexdig c0 d0 /\ hexdig c1 d1 /\ b = 16 * d0 + d1
  | Err e => e = InvalidHexChar /\ ((forall d, ~ hexdig c0 d) \/ (forall d, ~ hexdig c1 d))
  end.
Proof.
  intros. unfold byte_from_hex.
  destruct (nibble_from_hex c0) as [n0|] eqn:E0; [|split; auto; left; apply nibble_none; auto].
  destruct (nibble_from_hex c1) as [n1|] eqn:E1; [|split; auto; right; apply nibble_none; auto].
  apply nibble_some in E0, E1. exists n0, n1. split; [auto|split; [auto|]].
  apply hexdig_range in E0, E1. change (Z.shiftl 0 4 mod 256) with 0. rewrite Z.lor_0_l.
  rewrite Z.shiftl_mul_pow2 by lia. change (2 ^ 4) with 16.
  rewrite (Z.mod_small (n0 * 16) 256) by lia. change 16 with (2 ^ 4) at 1.
  rewrite lor_shift_add by (change (2 ^ 4) with 16; lia). change (2 ^ 4) with 16. lia.
Qed.

Lemma rev_zeros : forall b n, digits_val b (rev (zrepeat 0 n)) = 0.
Proof.
  intros. unfold zrepeat. induction (Z.to_nat n) as [|k IH]; [reflexivity|]. cbn [repeat].
  rewrite val_cons, IH. lia.
Qed.
Lemma upd_zeros : forall p tail b, 0 <= p ->
  splice (zrepeat 0 (p + 1) ++ tail) p [b] = zrepeat 0 p ++ b :: tail.
Proof.
  intros. unfold splice, zrepeat. replace (Z.to_nat (p + 1)) with (Z.to_nat p + 1)%nat by lia.
  rewrite repeat_app, <- app_assoc.
  rewrite firstn_app, repeat_length, Nat.sub_diag, firstn_all2 by (rewrite repeat_length; lia).
  cbn [firstn]. rewrite app_nil_r. f_equal. cbn [app]. f_equal.
  rewrite skipn_app, repeat_length, skipn_all2 by (rewrite repeat_length; cbn; lia).
  cbn [length]. replace (Z.to_nat p + 1 - Z.to_nat p)%nat with 1%nat by lia. reflexivity.
Qed.

(** [res] holds the bytes of the characters of [s] from [i] on. *)
Definition decoded (s : list Z) (off i : Z) (res : list Z) : Prop :=
  exists tail ds, res = zrepeat 0 (off + (i + 1) / 2) ++ tail /\ hex_digits (skipn (Z.to_nat i) s) ds /\
    2 * zlen tail = zlen s - i /\ digits_ok 256 tail /\ be_val tail = hex_val ds.

Definition bad_char (s : list Z) : Prop := ~ exists ds, hex_digits s ds.

Lemma bad_nth : forall s i, (i < length s)%nat -> (forall d, ~ hexdig (nth i s 0) d) -> bad_char s.
Proof.
  intros s i Hi H [ds Hds]. revert i Hi H. induction Hds; intros i Hi H'; [cbn in Hi; lia|].
  destruct i; cbn in *; [apply (H' y); auto|]. apply (IHHds i); auto; lia.
Qed.

Lemma skipn_nth : forall (s : list Z) i, (i < length s)%nat -> skipn i s = nth i s 0 :: skipn (S i) s.
Proof.
  induction s; intros i Hi; [cbn in Hi; lia|]. destruct i; [reflexivity|]. cbn [skipn nth].
  apply IHs. cbn in Hi. lia.
Qed.

Lemma wp_hex_pairs : forall fuel s off i res (Q : result (Z * list Z) hex_err -> Prop),
  0 <= i <= 2 * Z.of_nat fuel + 1 -> i <= zlen s -> 0 <= off -> decoded s off i res ->
  (forall i' res', 0 <= i' <= 1 -> i' <= zlen s -> (zlen s - i') mod 2 = 0 -> decoded s off i' res' -> Q (Ok (i', res'))) ->
  (bad_char s -> Q (Err InvalidHexChar)) ->
  wp (hex_pairs fuel s off i res) Q.
Proof.
  induction fuel as [|fuel IH]; intros s off i res Q Hi HL Ho HD HQ HE; cbn [hex_pairs].
  - apply wp_mif; intros E; [apply Z.ltb_lt in E; lia|]. apply Z.ltb_ge in E. apply wp_ret, HQ; try lia; auto.
    destruct HD as (tail & ds & _ & _ & HT & _). rewrite <- HT, Z.mul_comm. apply Z.mod_mul. lia.
  - apply wp_mif; intros E.
    2:{ apply Z.ltb_ge in E. apply wp_ret, HQ; try lia; auto.
        destruct HD as (tail & ds & _ & _ & HT & _). rewrite <- HT, Z.mul_comm. apply Z.mod_mul. lia. }
    apply Z.ltb_lt in E. apply wp_bind, wp_usub; [lia|].
    apply wp_bind, wp_znth; [lia|]. apply wp_bind, wp_znth; [lia|].
    assert (HLn : (Z.to_nat i <= length s)%nat) by (unfold zlen in HL; lia).
    pose proof (byte_from_hex_spec (nth (Z.to_nat (i - 2)) s 0) (nth (Z.to_nat (i - 2 + 1)) s 0)) as HB.
    destruct (byte_from_hex _ _) as [b|e].
    2:{ destruct HB as [-> HB]. apply wp_ret, HE. destruct HB as [HB|HB]; eapply bad_nth; try apply HB; lia. }
    destruct HB as (d0 & d1 & H0 & H1 & ->).
    destruct HD as (tail & ds & -> & HF & HT & HO & HV).
    pose proof (hexdig_range _ _ H0). pose proof (hexdig_range _ _ H1).
    assert (Ei : off + (i + 1) / 2 = off + (i - 2 + 1) / 2 + 1).
    { replace (i + 1) with (i - 2 + 1 + 1 * 2) by lia. rewrite Z.div_add by lia. lia. }
    assert (0 <= (i - 2 + 1) / 2) by (apply Z.div_pos; lia).
    rewrite Ei. apply wp_bind, wp_zupd.
    { rewrite zlen_app, zlen_zrepeat by lia. pose proof (zlen_nonneg _ tail). lia. }
    rewrite upd_zeros by lia.
    apply IH; try lia; auto. exists ((16 * d0 + d1) :: tail), (d0 :: d1 :: ds).
    split; [reflexivity|]. split.
    { rewrite skipn_nth by lia. constructor; auto.
      rewrite skipn_nth by lia. replace (S (Z.to_nat (i - 2))) with (Z.to_nat (i - 2 + 1)) by lia.
      constructor; auto. replace (S (Z.to_nat (i - 2 + 1))) with (Z.to_nat i) by lia. auto. }
    split; [rewrite zlen_cons; lia|]. split; [constructor; auto; lia|].
    unfold be_val, hex_val in *. rewrite !val_cons, <- HV, zlen_cons.
    pose proof (hex_digits_len _ _ HF) as HL'. rewrite zlen_skipn in HL' by auto. rewrite Z2Nat.id in HL' by lia.
    assert (HP : 256 ^ zlen tail = 16 ^ zlen ds).
    { rewrite <- HL', <- HT. rewrite Z.pow_mul_r by (pose proof (zlen_nonneg _ tail); lia). reflexivity. }
    rewrite Z.pow_add_r, Z.pow_1_r, HP by (pose proof (zlen_nonneg _ ds); lia). lia.
Qed.

Lemma wp_be_decode : forall N s, 0 <= N -> zlen s <= 2 * N ->
  wp (be_bytes_from_hexstr N s) (fun r =>
    match r with
    | Ok res => exists ds, hex_digits s ds /\ zlen res = N /\ digits_ok 256 res /\ be_val res = hex_val ds
    | Err e => e = InvalidHexChar /\ bad_char s
    end).
Proof.
  intros N s HN HL. pose proof (zlen_nonneg _ s) as H0. unfold be_bytes_from_hexstr.
  apply wp_mif; intros E; [apply Z.ltb_lt in E; lia|].
  assert (Hh : 0 <= (zlen s + 1) / 2 <= N).
  { split; [apply Z.div_pos; lia|]. assert (HH : (zlen s + 1) / 2 < N + 1) by (apply Z.div_lt_upper_bound; lia). lia. }
  apply wp_bind, wp_usub; [lia|].
  apply wp_bind. apply wp_hex_pairs; try lia.
  { unfold zlen in *. lia. }
  { exists [], []. split.
    - rewrite app_nil_r. f_equal. lia.
    - split; [rewrite skipn_all2 by (unfold zlen; lia); constructor|].
      split; [rewrite zlen_nil; lia|]. split; [constructor|reflexivity]. }
  2:{ intros Hb. apply wp_ret. auto. }
  intros i res Hi HiL HM (tail & ds & -> & HF & HT & HO & HV).
  apply wp_mif; intros E1.
  - apply Z.eqb_eq in E1. subst i. apply wp_bind, wp_znth; [lia|].
    pose proof (byte_from_hex_spec 48 (nth (Z.to_nat 0) s 0)) as HB.
    destruct (byte_from_hex _ _) as [b|e].
    2:{ destruct HB as [-> [HB|HB]].
        - exfalso. apply (HB 0). left. left. lia.
        - apply wp_ret. split; auto. apply (bad_nth s (Z.to_nat 0)); auto. unfold zlen in *. lia. }
    destruct HB as (d0 & d1 & Hd0 & Hd1 & ->).
    assert (d0 = 0) by (apply (hexdig_fun 48); auto; left; left; lia). subst d0.
    pose proof (hexdig_range _ _ Hd1).
    change ((1 + 1) / 2) with 1. apply wp_bind, wp_zupd.
    { rewrite zlen_app, zlen_zrepeat by lia. pose proof (zlen_nonneg _ tail). lia. }
    rewrite upd_zeros by lia. apply wp_ret. exists (d1 :: ds).
    split.
    { change s with (skipn 0 s) at 1. change 0%nat with (Z.to_nat 0) at 1. rewrite skipn_nth by (unfold zlen in *; lia).
      constructor; auto. }
    split.
    { rewrite zlen_app, zlen_zrepeat, zlen_cons by lia. 
      assert ((zlen s + 1) / 2 = zlen tail + 1); [|lia].
      replace (zlen s + 1) with ((zlen tail + 1) * 2) by lia. apply Z.div_mul. lia. }
    split.
    { apply digits_ok_app. split; [apply zrepeat_ok; lia|]. constructor; auto. lia. }
    unfold be_val, hex_val in *. rewrite rev_app_distr, digits_val_app. rewrite rev_zeros.
    rewrite !val_cons, <- HV.
    pose proof (hex_digits_len _ _ HF) as HL'. rewrite zlen_skipn in HL' by (unfold zlen in *; lia). rewrite Z2Nat.id in HL' by lia.
    assert (HP : 256 ^ zlen tail = 16 ^ zlen ds).
    { rewrite <- HL', <- HT. rewrite Z.pow_mul_r by (pose proof (zlen_nonneg _ tail); lia). reflexivity. }
    rewrite HP. lia.
  - apply Z.eqb_neq in E1. assert (i = 0) by lia. subst i. change ((0 + 1) / 2) with 0.
    apply wp_ret. exists ds. split; [exact HF|]. rewrite zlen_app, zlen_zrepeat by lia.
    split.
    { assert ((zlen s + 1) / 2 = zlen tail); [|lia].
      replace (zlen s + 1) with (1 + zlen tail * 2) by lia. rewrite Z.div_add by lia. reflexivity. }
    split; [apply digits_ok_app; split; [apply zrepeat_ok; lia|auto]|].
    unfold be_val, hex_val in *. rewrite rev_app_distr, digits_val_app. rewrite rev_zeros. lia.
Qed.

(** ** Encoding *)
Lemma wp_nibble : forall n (Q : Z -> Prop), 0 <= n < 16 -> Q (hexch n) -> wp (nibble_to_hexchar n) Q.
Proof.
  intros n Q Hn HQ. unfold nibble_to_hexchar, hexch in *.
  destruct (Z.leb_spec 0 n); [|lia]. destruct (Z.leb_spec n 9); cbn [andb]; [apply wp_ret; auto|].
  destruct (Z.leb_spec 10 n); [|lia]. destruct (Z.leb_spec n 15); [|lia]. apply wp_ret; auto.
Qed.
Lemma wp_fmt_byte : forall out v (Q : list Z -> Prop), 0 <= v < 256 -> Q (out ++ hx v) -> wp (fmt_byte out v) Q.
Proof.
  intros out v Q Hv HQ. unfold fmt_byte. rewrite Z.shiftr_div_pow2 by lia. change 15 with (Z.ones 4).
  rewrite Z.land_ones by lia. change (2 ^ 4) with 16.
  pose proof (Z.div_mod v 16). pose proof (Z.mod_pos_bound v 16).
  apply wp_bind, wp_nibble; [lia|]. apply wp_bind, wp_nibble; [lia|]. apply wp_ret. exact HQ.
Qed.
Lemma wp_fmt_bytes : forall bs out (Q : list Z -> Prop), digits_ok 256 bs ->
  Q (out ++ flat_map hx bs) -> wp (fmt_bytes out bs) Q.
Proof.
  intros bs out Q H. revert out. induction H as [|v t Hv Ht IH]; intros out HQ; cbn [fmt_bytes].
  - cbn in HQ. rewrite app_nil_r in HQ. apply wp_ret; auto.
  - apply wp_bind, wp_fmt_byte; auto. apply IH. cbn [flat_map] in HQ. rewrite <- app_assoc. exact HQ.
Qed.

(** ** Formatting *)
Lemma wp_fmt_l : forall out v len (Q : list Z -> Prop), isl v -> 0 <= len <= LB ->
  (forall bs, digits_ok 256 bs -> zlen bs = len -> be_val bs = v mod 256 ^ len -> Q (out ++ flat_map hx bs)) ->
  wp (fmt_l out v len) Q.
Proof.
  intros out v len Q Hv Hl HQ. unfold fmt_l.
  apply wp_for with (I := fun i o => exists bs, o = out ++ flat_map hx bs /\ digits_ok 256 bs /\ zlen bs = i /\
    be_val bs = (v / 256 ^ (len - i)) mod 256 ^ i).
  - lia.
  - exists []. rewrite app_nil_r. split; [auto|]. split; [constructor|]. split; [reflexivity|].
    change (256 ^ 0) with 1. rewrite Z.mod_1_r. reflexivity.
  - intros i o Hi (bs & -> & HO & HL & HV).
    apply wp_bind, wp_usub; [lia|]. apply wp_bind, wp_usub; [lia|].
    apply wp_bind, wp_lshr; [unfold W; lia|].
    apply wp_fmt_byte; [apply Z.mod_pos_bound; lia|].
    set (x := v / 2 ^ (8 * (len - i - 1))).
    exists (bs ++ [x mod 256]). rewrite flat_map_app. cbn [flat_map]. rewrite app_nil_r, app_assoc.
    split; [auto|]. split; [apply digits_ok_app; split; auto; constructor; [apply Z.mod_pos_bound; lia|constructor]|].
    split; [rewrite zlen_app, zlen_cons, zlen_nil; lia|].
    unfold be_val in *. rewrite val_snoc, HV.
    assert (Ex : x = v / 256 ^ (len - (i + 1))).
    { unfold x. rewrite Z.pow_mul_r by lia. change (2 ^ 8) with 256. do 2 f_equal. lia. }
    assert (Ev : v / 256 ^ (len - i) = x / 256).
    { rewrite Ex. replace (len - i) with (len - (i + 1) + 1) by lia. rewrite Z.pow_add_r, Z.pow_1_r by lia.
      apply div_mul_div; [apply pow_gt0; lia|lia]. }
    rewrite Ev, <- Ex. replace (i + 1) with (1 + i) by lia. rewrite Z.pow_add_r, Z.pow_1_r by lia.
    rewrite (mod_mul_split x 256 (256 ^ i)) by (try apply pow_gt0; lia). lia.
  - intros o (bs & -> & HO & HL & HV). apply HQ; auto. rewrite HV, Z.sub_diag.
    change (256 ^ 0) with 1. rewrite Z.div_1_r. auto.
Qed.

Notation no_us := strip_underscores (only parsing).
Definition us_ok (h : list Z) : Prop :=
  forall k, 0 <= k < zlen h -> (nth (Z.to_nat k) (rev h) 0 = underscore <-> k mod (2 * LB + 1) = 2 * LB).

Lemma hx_no_us : forall bs, digits_ok 256 bs -> Forall (fun ch => ch <> underscore) (flat_map hx bs).
Proof.
  intros bs H. apply hx_digits in H. induction H; constructor; auto.
  unfold hexdig_lower, underscore in *. lia.
Qed.
Lemma no_us_id : forall h, Forall (fun ch => ch <> underscore) h -> no_us h = h.
Proof.
  intros h H. induction H; [reflexivity|]. cbn [strip_underscores filter].
  destruct (Z.eqb_spec x underscore); [congruence|]. cbn [negb]. f_equal. exact IHForall.
Qed.

Lemma us_first : forall bs, digits_ok 256 bs -> zlen bs <= LB -> us_ok (flat_map hx bs).
Proof.
  intros bs H HL k Hk. rewrite hx_len in Hk. rewrite Z.mod_small by lia.
  split; intros E; [|lia]. exfalso. pose proof (hx_no_us bs H) as HF. rewrite Forall_forall in HF.
  apply (HF underscore); auto. apply in_rev. rewrite <- E. apply nth_In. rewrite rev_length.
  pose proof (hx_len bs) as HX. unfold zlen in *. lia.
Qed.
Lemma us_next : forall h bs, us_ok h -> digits_ok 256 bs -> zlen bs = LB -> us_ok ((h ++ [underscore]) ++ flat_map hx bs).
Proof.
  intros h bs Hh H HL k Hk. pose proof LB_pos. pose proof (hx_len bs) as HX.
  rewrite !rev_app_distr. cbn [rev app].
  rewrite !zlen_app, hx_len, zlen_cons, zlen_nil in Hk.
  destruct (Z.lt_ge_cases k (2 * LB)) as [E|E].
  - rewrite app_nth1 by (rewrite rev_length; unfold zlen in *; lia).
    assert (Hk' : 0 <= k < zlen (flat_map hx bs)) by lia.
    apply (us_first bs H ltac:(lia) k Hk').
  - rewrite app_nth2 by (rewrite rev_length; unfold zlen in *; lia).
    replace (Z.to_nat k - length (rev (flat_map hx bs)))%nat with (Z.to_nat (k - 2 * LB))
      by (rewrite rev_length; unfold zlen in *; lia).
    destruct (Z.eq_dec k (2 * LB)) as [->|N].
    + rewrite Z.sub_diag. change (Z.to_nat 0) with 0%nat. cbn [nth]. rewrite Z.mod_small by lia. tauto.
    + replace (Z.to_nat (k - 2 * LB)) with (S (Z.to_nat (k - (2 * LB + 1)))) by lia. cbn [nth].
      rewrite (Hh (k - (2 * LB + 1))) by lia.
      replace (k mod (2 * LB + 1)) with ((k - (2 * LB + 1)) mod (2 * LB + 1)); [tauto|].
      replace (k - (2 * LB + 1)) with (k + (-1) * (2 * LB + 1)) by lia. apply Z.mod_add. lia.
Qed.

Lemma wp_fmt_lower_hex : forall alt a, mp_ok a ->
  wp (fmt_lower_hex alt a) (fun o => exists h, o = (if alt then str_0x else []) ++ h /\
    (mp_len a = 0 -> h = str_empty) /\
    (mp_len a <> 0 -> us_ok h /\ exists ds, hex_digits_lower (no_us h) ds /\ zlen ds = 2 * mp_len a /\
       hex_val ds = mpval a)).
Proof.
  intros alt a Ha. pose proof LB_pos. pose proof B_pos. unfold fmt_lower_hex.
  assert (HE : mp_is_empty a = (mp_len a =? 0)).
  { destruct a as [l|l|l]; cbn; auto. destruct (Z.eqb_spec (zlen l) 0) as [->|N]; [reflexivity|].
    symmetry. apply Z.eqb_neq. lia. }
  apply wp_mif; intros E; rewrite HE in E.
  { apply Z.eqb_eq in E. apply wp_ret. exists str_empty. split; [destruct alt; reflexivity|]. split; [auto|congruence]. }
  apply Z.eqb_neq in E. pose proof (mp_len_nonneg a). pose proof (nlimbs_spec a) as HN.
  assert (HN0 : 0 < nlimbs a) by (apply nlimbs_lt; lia).
  set (N := nlimbs a) in *.
  apply wp_bind, wp_usub; [lia|]. apply wp_bind, wp_load; auto; [unfold N in *; lia|].
  apply wp_bind, wp_usub; [lia|].
  assert (HLen : (mp_len a - 1) mod LB + 1 = mp_len a - (N - 1) * LB).
  { rewrite (mod_eq_of (mp_len a - 1) LB (N - 1) (mp_len a - 1 - (N - 1) * LB)); try lia. }
  apply wp_bind, wp_fmt_l; [apply limb_isl|pose proof (Z.mod_pos_bound (mp_len a - 1) LB); lia|].
  intros bs0 HO0 HL0 HV0.
  set (pre := if alt then [48; 120] else []).
  apply wp_for with (I := fun i o => exists h bs, o = pre ++ h /\ us_ok h /\ digits_ok 256 bs /\
    no_us h = flat_map hx bs /\ zlen bs = mp_len a - (N - 1 - i) * LB /\ be_val bs = mpval a / B ^ (N - 1 - i)).
  - lia.
  - exists (flat_map hx bs0), bs0. split; [auto|]. rewrite HLen in HL0.
    split; [apply us_first; auto; lia|]. split; [auto|]. split; [apply no_us_id, hx_no_us; auto|].
    split; [lia|]. rewrite HV0, HLen, Z.sub_0_r.
    rewrite limb_vlimb. pose proof (limb_of_small (mpval a) a (mpval_bound a Ha) HN0) as HS.
    pose proof (vdiv_S (mpval a) (N - 1) ltac:(lia)) as HD. replace (N - 1 + 1) with N in HD by lia.
    rewrite (vdiv_full a N Ha ltac:(unfold N; lia)) in HD.
    rewrite HD, Z.mul_0_r, Z.add_0_r. apply Z.mod_small. split; [apply vlimb_isl|].
    fold N in HS. unfold lim in HS. rewrite Z.min_r in HS by lia. exact HS.
  - intros i o Hi (h & bs & -> & HU & HO & HF & HL & HV).
    apply wp_bind, wp_usub; [lia|]. apply wp_bind, wp_usub; [lia|].
    apply wp_bind, wp_load; auto; [fold N; lia|].
    apply wp_fmt_l; [apply limb_isl|lia|]. intros bs1 HO1 HL1 HV1.
    exists ((h ++ [95]) ++ flat_map hx bs1), (bs ++ bs1).
    split; [rewrite <- !app_assoc; reflexivity|]. split; [apply us_next; auto|].
    split; [apply digits_ok_app; auto|].
    split. { unfold strip_underscores in *. rewrite !filter_app, HF. cbn [filter negb]. 
      change (95 =? underscore) with true. cbn [negb]. rewrite app_nil_r, flat_map_app. f_equal.
      apply no_us_id, hx_no_us; auto. }
    split; [rewrite zlen_app; lia|].
    unfold be_val in *. rewrite rev_app_distr, digits_val_app, zlen_rev, HL1, HV1, HV, <- B_256'.
    rewrite Z.mod_small by apply limb_isl.
    rewrite (vdiv_S (mpval a) (N - 1 - (i + 1))) by lia. rewrite limb_vlimb.
    replace (N - 1 - (i + 1) + 1) with (N - 1 - i) by lia. replace (N - 2 - i) with (N - 1 - (i + 1)) by lia. reflexivity.
  - intros o (h & bs & -> & HU & HO & HF & HL & HV). exists h. split; [reflexivity|]. split; [congruence|]. intros _.
    split; [auto|]. exists (flat_map nib bs). rewrite HF, nib_len, nib_val, HV, HL.
    split; [apply hx_digits; auto|]. split; [lia|]. replace (N - 1 - (N - 1)) with 0 by lia. apply Z.div_1_r.
Qed.
End Facts.
