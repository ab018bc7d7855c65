(** Theorems about hexadecimal strings (C41). *)
From Coq Require Import ZArith List Bool Lia.
Require Import Verif.Spec Verif.Monad Verif.ModelBuf Verif.SpecBuf Verif.SpecHex Verif.ModelHex Verif.HexProofs.
Import ListNotations.
Open Scope Z_scope.

(** be_bytes_from_hexstr: strings of more than 2N bytes are rejected as too
    long; otherwise, strings of hex digits of even or odd length decode to the N
    bytes of the big-endian integer they denote, and all others are rejected. *)
Theorem C41_be_decode : forall (c : cfg) N s, 0 <= N ->
  (2 * N < zlen s -> returns (be_bytes_from_hexstr N s) (Err InvalidHexStrLen)) /\
  (forall ds, zlen s <= 2 * N -> hex_digits s ds ->
     yields (be_bytes_from_hexstr N s) (fun r => exists bytes, r = Ok bytes /\
       zlen bytes = N /\ digits_ok 256 bytes /\ be_val bytes = hex_val ds)) /\
  (zlen s <= 2 * N -> (~ exists ds, hex_digits s ds) ->
     returns (be_bytes_from_hexstr N s) (Err InvalidHexChar)).
Proof. exact @be_decode. Qed.
Print Assumptions C41_be_decode.

(** bytes_from_hexstr: exactly the strings of 2N hex digits are accepted. *)
Theorem C41_decode : forall (c : cfg) N s, 0 <= N ->
  (zlen s <> 2 * N -> returns (bytes_from_hexstr N s) (Err InvalidHexStrLen)) /\
  (forall ds, zlen s = 2 * N -> hex_digits s ds ->
     yields (bytes_from_hexstr N s) (fun r => exists bytes, r = Ok bytes /\
       zlen bytes = N /\ digits_ok 256 bytes /\ be_val bytes = hex_val ds)) /\
  (zlen s = 2 * N -> (~ exists ds, hex_digits s ds) ->
     returns (bytes_from_hexstr N s) (Err InvalidHexChar)).
Proof. exact @decode. Qed.
Print Assumptions C41_decode.

(** Byte k of the result is given by the digits 2k and 2k+1. *)
Theorem C41_decode_bytes : forall (c : cfg) N s ds, 0 <= N -> zlen s = 2 * N -> hex_digits s ds ->
  yields (bytes_from_hexstr N s) (fun r => exists bytes, r = Ok bytes /\ zlen bytes = N /\
    forall k, 0 <= k < N ->
      nth (Z.to_nat k) bytes 0 = 16 * nth (Z.to_nat (2 * k)) ds 0 + nth (Z.to_nat (2 * k + 1)) ds 0).
Proof. exact @decode_bytes. Qed.
Print Assumptions C41_decode_bytes.

(** bytes_to_hexstr: two lowercase digits per byte, denoting the same integer. *)
Theorem C41_encode : forall bytes, digits_ok 256 bytes ->
  yields (bytes_to_hexstr bytes) (fun h => zlen h = 2 * zlen bytes /\
    exists ds, hex_digits_lower h ds /\ hex_val ds = be_val bytes).
Proof. exact encode. Qed.
Print Assumptions C41_encode.

(** Decoding what was encoded gives back the bytes. *)
Theorem C41_decode_encode : forall (c : cfg) bytes h, digits_ok 256 bytes ->
  returns (bytes_to_hexstr bytes) h -> returns (bytes_from_hexstr (zlen bytes) h) (Ok bytes).
Proof. exact @roundtrip. Qed.
Print Assumptions C41_decode_encode.

(** Encoding what was decoded gives back a lowercase string. *)
Theorem C41_encode_decode : forall (c : cfg) N s ds bytes, 0 <= N -> hex_digits_lower s ds ->
  returns (bytes_from_hexstr N s) (Ok bytes) -> returns (bytes_to_hexstr bytes) s.
Proof. exact @roundtrip_str. Qed.
Print Assumptions C41_encode_decode.

(** bytes_from_hexstr_cnst: same result, or a panic if there is none. *)
Theorem C41_decode_cnst : forall (c : cfg) N s, 0 <= N ->
  (forall bytes, returns (bytes_from_hexstr_cnst N s) bytes <-> returns (bytes_from_hexstr N s) (Ok bytes)) /\
  (panics (bytes_from_hexstr_cnst N s) <-> ~ (zlen s = 2 * N /\ exists ds, hex_digits s ds)).
Proof. exact @decode_cnst. Qed.
Print Assumptions C41_decode_cnst.

(** Formatting an integer in hexadecimal: two lowercase digits for each byte of
    the buffer, most significant first, an underscore between limbs; "(empty)"
    for a buffer of length zero; prefixed by "0x" in the alternate form. *)
Theorem C41_format : forall (c : cfg) alternate a, mp_ok a ->
  yields (fmt_lower_hex alternate a) (fun out => exists h,
    out = (if alternate then str_0x else []) ++ h /\
    (mp_len a = 0 -> h = str_empty) /\
    (mp_len a <> 0 ->
      (forall k, 0 <= k < zlen h ->
         (nth (Z.to_nat k) (rev h) 0 = underscore <-> k mod (2 * LB + 1) = 2 * LB)) /\
      exists ds, hex_digits_lower (strip_underscores h) ds /\ zlen ds = 2 * mp_len a /\ hex_val ds = mpval a)).
Proof. exact @fmt_hex. Qed.
Print Assumptions C41_format.

(** "7fF" decodes to 00 00 07 ff. *)
Example C41_be_decode_ex : forall c : cfg,
  hex_digits [55; 102; 70] [7; 15; 15] /\ zlen [55; 102; 70] <= 2 * 4 /\
  returns (be_bytes_from_hexstr 4 [55; 102; 70]) (Ok [0; 0; 7; 255]).
Proof.
  intros [l64 am u64 d]. split; [|split; [vm_compute; congruence|destruct u64, d; vm_compute; reflexivity]].
  repeat apply Forall2_cons; try apply Forall2_nil; unfold hexdig, hexdig_lower; lia.
Qed.
(** "7g" is refused. *)
Example C41_decode_ex : forall c : cfg,
  (~ exists ds, hex_digits [55; 103] ds) /\ returns (bytes_from_hexstr 1 [55; 103]) (Err InvalidHexChar).
Proof.
  intros [l64 am u64 d]. split; [|destruct u64, d; vm_compute; reflexivity].
  intros [ds H]. inversion H as [|? ? ? ? _ H']; subst. inversion H' as [|? ? ? ? H0 _]; subst.
  unfold hexdig, hexdig_lower in H0. lia.
Qed.
Example C41_encode_ex :
  digits_ok 256 [18; 171] /\ returns (bytes_to_hexstr [18; 171]) [49; 50; 97; 98].
Proof.
  split; [repeat constructor; vm_compute; congruence|vm_compute; reflexivity].
Qed.
(** A nine byte integer prints as two groups with 8-byte limbs. *)
Example C41_format_ex :
  let c := mkcfg true false true true in
  mp_ok (BE [1; 0; 0; 0; 0; 0; 0; 2; 171]) /\
  returns (fmt_lower_hex true (BE [1; 0; 0; 0; 0; 0; 0; 2; 171]))
    [48; 120; 48; 49; 95; 48; 48; 48; 48; 48; 48; 48; 48; 48; 48; 48; 48; 48; 50; 97; 98].
Proof.
  intros c. split; [split; [repeat constructor; vm_compute; congruence|vm_compute; reflexivity]|vm_compute; reflexivity].
Qed.
