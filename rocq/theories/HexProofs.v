(** Proofs of the theorems about hexadecimal strings. *)
From Coq Require Import ZArith List Bool Lia.
Require Import Verif.Spec Verif.Monad Verif.Base Verif.Wp Verif.ModelBuf Verif.SpecBuf Verif.BufFacts Verif.LimbProofs
  Verif.SpecHex Verif.ModelHex Verif.HexFacts.
Import ListNotations.
Open Scope Z_scope.

Section Proofs.
Context {c : cfg}.

Lemma hexdig_dec : forall ch, (exists d, hexdig ch d) \/ (forall d, ~ hexdig ch d).
Proof.
  intros. destruct (nibble_from_hex ch) as [d|] eqn:E; [left; exists d; apply nibble_some; auto|right; apply nibble_none; auto].
Qed.

Lemma be_decode : forall N s, 0 <= N ->
  (2 * N < zlen s -> returns (be_bytes_from_hexstr N s) (Err InvalidHexStrLen)) /\
  (forall ds, zlen s <= 2 * N -> hex_digits s ds ->
     yields (be_bytes_from_hexstr N s) (fun r => exists bytes, r = Ok bytes /\
       zlen bytes = N /\ digits_ok 256 bytes /\ be_val bytes = hex_val ds)) /\
  (zlen s <= 2 * N -> (~ exists ds, hex_digits s ds) ->
     returns (be_bytes_from_hexstr N s) (Err InvalidHexChar)).
Proof.
  intros N s HN. split; [|split].
  - intros HL. unfold be_bytes_from_hexstr. apply Z.ltb_lt in HL. rewrite HL. reflexivity.
  - intros ds HL HD. destruct (wp_returns _ _ _ (wp_be_decode N s HN HL)) as (r & Hr & HQ).
    exists r. split; [auto|]. destruct r as [bytes|e].
    + destruct HQ as (ds' & HD' & HQ). rewrite (hex_digits_fun _ _ _ HD HD'). exists bytes. auto.
    + destruct HQ as [_ HB]. exfalso. apply HB. eauto.
  - intros HL HD. destruct (wp_returns _ _ _ (wp_be_decode N s HN HL)) as (r & Hr & HQ).
    destruct r as [bytes|e].
    + exfalso. apply HD. destruct HQ as (ds' & HD' & HQ). eauto.
    + destruct HQ as [-> _]. auto.
Qed.

Lemma decode : forall N s, 0 <= N ->
  (zlen s <> 2 * N -> returns (bytes_from_hexstr N s) (Err InvalidHexStrLen)) /\
  (forall ds, zlen s = 2 * N -> hex_digits s ds ->
     yields (bytes_from_hexstr N s) (fun r => exists bytes, r = Ok bytes /\
       zlen bytes = N /\ digits_ok 256 bytes /\ be_val bytes = hex_val ds)) /\
  (zlen s = 2 * N -> (~ exists ds, hex_digits s ds) ->
     returns (bytes_from_hexstr N s) (Err InvalidHexChar)).
Proof.
  intros N s HN. destruct (be_decode N s HN) as (_ & H1 & H2).
  unfold bytes_from_hexstr, returns, yields in *.
  destruct (Z.eqb_spec (zlen s) (2 * N)) as [E|E]; cbn [negb bind tick] in *.
  - split; [congruence|]. split.
    + intros ds _ HD. destruct (H1 ds ltac:(lia) HD) as (r & Hr & HQ). exists r. split; [|auto]. exact Hr.
    + intros _ HD. exact (H2 ltac:(lia) HD).
  - split; [reflexivity|]. split; intros; congruence.
Qed.

(** Two digits at a time: byte [k] comes from characters [2k] and [2k+1]. *)
Lemma pairs_of : forall n ds, zlen ds = 2 * Z.of_nat n -> digits_ok 16 ds ->
  exists bs, zlen bs = Z.of_nat n /\ digits_ok 256 bs /\ hex_val ds = be_val bs /\
    forall k, (k < n)%nat -> nth k bs 0 = 16 * nth (2 * k) ds 0 + nth (2 * k + 1) ds 0.
Proof.
  induction n; intros ds HL HO.
  - destruct ds; [|rewrite zlen_cons in HL; pose proof (zlen_nonneg _ ds); lia].
    exists []. split; [reflexivity|]. split; [constructor|]. split; [reflexivity|]. intros. lia.
  - destruct ds as [|d0 [|d1 ds]]; try (rewrite ?zlen_cons, zlen_nil in HL; lia).
    rewrite !zlen_cons in HL. inversion HO as [|? ? H0 HO']; subst. inversion HO' as [|? ? H1 HO'']; subst.
    destruct (IHn ds ltac:(lia) HO'') as (bs & HB & HBO & HV & HN).
    exists ((16 * d0 + d1) :: bs). split; [rewrite zlen_cons; lia|]. split; [constructor; auto; lia|]. split.
    + unfold hex_val, be_val in *. rewrite !val_cons, HV, zlen_cons.
      assert (HP : 256 ^ zlen bs = 16 ^ zlen ds).
      { rewrite HB. replace (zlen ds) with (2 * Z.of_nat n) by lia. rewrite Z.pow_mul_r by lia. reflexivity. }
      rewrite HP, Z.pow_add_r, Z.pow_1_r by (pose proof (zlen_nonneg _ ds); lia). lia.
    + intros [|k] Hk; [reflexivity|]. replace (2 * S k)%nat with (S (S (2 * k))) by lia.
      replace (S (S (2 * k)) + 1)%nat with (S (S (2 * k + 1))) by lia. cbn [nth]. apply HN. lia.
Qed.

Lemma decode_bytes : forall N s ds, 0 <= N -> zlen s = 2 * N -> hex_digits s ds ->
  yields (bytes_from_hexstr N s) (fun r => exists bytes, r = Ok bytes /\ zlen bytes = N /\
    forall k, 0 <= k < N ->
      nth (Z.to_nat k) bytes 0 = 16 * nth (Z.to_nat (2 * k)) ds 0 + nth (Z.to_nat (2 * k + 1)) ds 0).
Proof.
  intros N s ds HN HL HD. destruct (decode N s HN) as (_ & H & _).
  destruct (H ds HL HD) as (r & Hr & bytes & -> & HB & HO & HV).
  exists (Ok bytes). split; [auto|]. exists bytes. split; [auto|]. split; [auto|].
  destruct (pairs_of (Z.to_nat N) ds) as (bs & HL' & HO' & HV' & HK).
  { rewrite <- (hex_digits_len _ _ HD). lia. }
  { eapply hex_digits_ok; eauto. }
  assert (bytes = bs).
  { apply (rev_val_inj 256); auto; try lia. unfold be_val in *. congruence. }
  subst bs. intros k Hk. rewrite HK by lia. do 2 f_equal; [f_equal|]; f_equal; lia.
Qed.

Lemma encode : forall bytes, digits_ok 256 bytes ->
  yields (bytes_to_hexstr bytes) (fun h => zlen h = 2 * zlen bytes /\
    exists ds, hex_digits_lower h ds /\ hex_val ds = be_val bytes).
Proof.
  intros bytes HO. apply wp_returns. unfold bytes_to_hexstr. apply wp_fmt_bytes; auto. cbn [app].
  rewrite hx_len. split; [auto|]. exists (flat_map nib bytes). split; [apply hx_digits; auto|apply nib_val].
Qed.

Lemma roundtrip : forall bytes h, digits_ok 256 bytes -> returns (bytes_to_hexstr bytes) h ->
  returns (bytes_from_hexstr (zlen bytes) h) (Ok bytes).
Proof.
  intros bytes h HO Hh. destruct (encode bytes HO) as (h' & Hh' & HL & ds & HD & HV).
  assert (h' = h) by (unfold returns in *; congruence). subst h'.
  destruct (decode (zlen bytes) h (zlen_nonneg _ _)) as (_ & H & _).
  destruct (H ds HL (hex_digits_of_lower _ _ HD)) as (r & Hr & bytes' & -> & HL' & HO' & HV').
  assert (bytes' = bytes); [|congruence].
  apply (rev_val_inj 256); auto; try lia. unfold be_val in *. congruence.
Qed.

Lemma roundtrip_str : forall N s ds bytes, 0 <= N -> hex_digits_lower s ds ->
  returns (bytes_from_hexstr N s) (Ok bytes) -> returns (bytes_to_hexstr bytes) s.
Proof.
  intros N s ds bytes HN HD Hr. destruct (decode N s HN) as (H0 & H & _).
  destruct (Z.eq_dec (zlen s) (2 * N)) as [E|E]; [|specialize (H0 E); unfold returns in *; congruence].
  pose proof (hex_digits_of_lower _ _ HD) as HD'.
  destruct (H ds E HD') as (r & Hr' & bytes' & -> & HL & HO & HV).
  assert (bytes' = bytes) by (unfold returns in *; congruence). subst bytes'.
  destruct (encode bytes HO) as (h & Hh & HLh & ds' & Hd' & HV').
  replace s with h; [auto|]. apply (hex_digits_lower_inj _ _ ds).
  - replace ds with ds'; auto. pose proof (hex_digits_of_lower _ _ Hd') as Hd2.
    apply (rev_val_inj 16); try lia; try (eapply hex_digits_ok; eauto).
    + rewrite <- (hex_digits_len _ _ HD'), <- (hex_digits_len _ _ Hd2). lia.
    + unfold hex_val in *. congruence.
  - auto.
Qed.

Lemma decode_cnst : forall N s, 0 <= N ->
  (forall bytes, returns (bytes_from_hexstr_cnst N s) bytes <-> returns (bytes_from_hexstr N s) (Ok bytes)) /\
  (panics (bytes_from_hexstr_cnst N s) <-> ~ (zlen s = 2 * N /\ exists ds, hex_digits s ds)).
Proof.
  intros N s HN. destruct (decode N s HN) as (H0 & H1 & H2).
  unfold bytes_from_hexstr_cnst, yields, returns, panics in *.
  destruct (bytes_from_hexstr N s) as [t [[b|e]|]]; cbn in *.
  - split; [split; congruence|]. split; [discriminate|]. intros H. exfalso. apply H.
    destruct (Z.eq_dec (zlen s) (2 * N)) as [E|E]; [|specialize (H0 E); discriminate].
    split; [auto|].
    destruct (Forall_Exists_dec (fun ch => exists d, hexdig ch d)) with (l := s) as [HF|HF].
    + intros ch. destruct (nibble_from_hex ch) as [d|] eqn:En; [left; exists d; apply nibble_some; auto|].
      right. intros [d Hd]. exact (nibble_none _ En d Hd).
    + clear - HF. induction HF as [|x l [d Hd] HF [ds IH]]; [exists []; constructor|].
      exists (d :: ds). constructor; auto.
    + assert (~ exists ds, hex_digits s ds).
      { intros [ds Hds]. clear - HF Hds. induction Hds as [|x y l l' Hxy HF2 IH]; inversion HF; subst; eauto. }
      specialize (H2 E H3). discriminate.
  - split; [split; discriminate|]. split; [|auto]. intros _ [E [ds Hds]].
    destruct (H1 ds E Hds) as (r & Hr & b & -> & _). discriminate.
  - exfalso. destruct (Z.eq_dec (zlen s) (2 * N)) as [E|E]; [|specialize (H0 E); discriminate].
    assert (HH : ~ exists ds, hex_digits s ds).
    { intros [ds Hds]. destruct (H1 ds E Hds) as (r & Hr & _). discriminate. }
    specialize (H2 E HH). discriminate.
Qed.

Lemma fmt_hex : forall alternate a, mp_ok a ->
  yields (fmt_lower_hex alternate a) (fun out => exists h,
    out = (if alternate then str_0x else []) ++ h /\
    (mp_len a = 0 -> h = str_empty) /\
    (mp_len a <> 0 ->
      (forall k, 0 <= k < zlen h ->
         (nth (Z.to_nat k) (rev h) 0 = underscore <-> k mod (2 * LB + 1) = 2 * LB)) /\
      exists ds, hex_digits_lower (strip_underscores h) ds /\ zlen ds = 2 * mp_len a /\ hex_val ds = mpval a)).
Proof. intros. apply wp_returns. apply wp_fmt_lower_hex. auto. Qed.

End Proofs.
