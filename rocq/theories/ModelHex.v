(** Model of src/hexstr.rs and of the hexadecimal formatting of
    src/limbs_buffer.rs.

    Strings are lists of byte values, [[u8; N]] arrays are lists of length [N].
    Allocation failure (String::try_reserve_exact) and errors of the formatter
    the output is written to are not modelled. *)
From Coq Require Import ZArith List Bool.
Require Import Verif.Spec Verif.Monad Verif.ModelLimb Verif.ModelBuf.
Import ListNotations.
Open Scope Z_scope.

(** BytesFromHexStrError, hexstr.rs:9-13 *)
Inductive hex_err := InvalidHexStrLen | InvalidHexChar.

Section Model.
Context {c : cfg}.

(** The [match] on one character, hexstr.rs:23-29: the nibble, or None for the
    error arm. *)
Definition nibble_from_hex (ch : Z) : option Z :=
  if (48 <=? ch) && (ch <=? 57) then Some (ch - 48)
  else if (97 <=? ch) && (ch <=? 102) then Some (ch - (97 - 10))
  else if (65 <=? ch) && (ch <=? 70) then Some (ch - (65 - 10))
  else None.

(** byte_from_hex, hexstr.rs:18-34, the loop over the two characters unrolled. *)
Definition byte_from_hex (ch0 ch1 : Z) : result Z hex_err :=
  match nibble_from_hex ch0 with
  | None => Err InvalidHexChar
  | Some n0 =>
    let r := Z.lor (Z.shiftl 0 4 mod 256) n0 in
    match nibble_from_hex ch1 with
    | None => Err InvalidHexChar
    | Some n1 => Ok (Z.lor (Z.shiftl r 4 mod 256) n1)
    end
  end.

(** The while loop of be_bytes_from_hexstr, hexstr.rs:43-51.  [fuel] bounds the
    number of iterations; the caller passes the string's length. *)
Fixpoint hex_pairs (fuel : nat) (s : list Z) (off i : Z) (res : list Z)
  : M (result (Z * list Z) hex_err) :=
  mif (1 <? i) then
    match fuel with
    | O => panic
    | S fuel =>
      let! i := usub i 2 in
      let! c0 := znth s i in
      let! c1 := znth s (i + 1) in
      match byte_from_hex c0 c1 with
      | Err e => ret (Err e)
      | Ok b =>
        let! res := zupd res (off + (i + 1) / 2) b in
        hex_pairs fuel s off i res
      end
    end
  else ret (Ok (i, res)).

(** be_bytes_from_hexstr, hexstr.rs:15-60 *)
Definition be_bytes_from_hexstr (N : Z) (s : list Z) : M (result (list Z) hex_err) :=
  mif (2 * N <? zlen s) then ret (Err InvalidHexStrLen) else
  let res := zrepeat 0 N in
  let! off := usub N ((zlen s + 1) / 2) in
  let! r := hex_pairs (length s) s off (zlen s) res in
  match r with
  | Err e => ret (Err e)
  | Ok (i, res) =>
    mif (i =? 1) then
      let! c0 := znth s 0 in
      match byte_from_hex 48 c0 with
      | Err e => ret (Err e)
      | Ok b =>
        let! res := zupd res off b in
        ret (Ok res)
      end
    else ret (Ok res)
  end.

(** bytes_from_hexstr, hexstr.rs:62-69 *)
Definition bytes_from_hexstr (N : Z) (s : list Z) : M (result (list Z) hex_err) :=
  mif negb (zlen s =? 2 * N) then ret (Err InvalidHexStrLen)
  else be_bytes_from_hexstr N s.

(** bytes_from_hexstr_cnst, hexstr.rs:71-78 *)
Definition bytes_from_hexstr_cnst (N : Z) (s : list Z) : M (list Z) :=
  let! r := bytes_from_hexstr N s in
  match r with Ok res => ret res | Err _ => panic end.

(** nibble_to_hexchar, hexstr.rs:133-140 and limbs_buffer.rs:876-883 *)
Definition nibble_to_hexchar (n : Z) : M Z :=
  if (0 <=? n) && (n <=? 9) then ret (48 + n)
  else if (10 <=? n) && (n <=? 15) then ret (97 + (n - 10))
  else panic.

(** The two characters pushed for a byte, hexstr.rs:145-146; fmt_byte,
    limbs_buffer.rs:885-889.  Appends to the output [out]. *)
Definition fmt_byte (out : list Z) (v : Z) : M (list Z) :=
  let! c0 := nibble_to_hexchar (Z.shiftr v 4) in
  let! c1 := nibble_to_hexchar (Z.land v 15) in
  ret (out ++ [c0; c1]).

(** The loop of bytes_to_hexstr, hexstr.rs:144-147 *)
Fixpoint fmt_bytes (out bytes : list Z) : M (list Z) :=
  match bytes with
  | [] => ret out
  | b :: t => let! out := fmt_byte out b in fmt_bytes out t
  end.

(** bytes_to_hexstr, hexstr.rs:132-149 *)
Definition bytes_to_hexstr (bytes : list Z) : M (list Z) := fmt_bytes [] bytes.

(** fmt_l, limbs_buffer.rs:891-896 *)
Definition fmt_l (out : list Z) (v len : Z) : M (list Z) :=
  zfor 0 len (fun i out =>
    let! n := usub len i in
    let! n := usub n 1 in
    let! x := lshr v (8 * n) in
    fmt_byte out (x mod 256)) out.

(** MpUIntCommon::fmt_lower_hex, limbs_buffer.rs:875-918; [alternate] is
    Formatter::alternate, the result the characters written. *)
Definition fmt_lower_hex (alternate : bool) (a : mp) : M (list Z) :=
  let out := if alternate then [48; 120] else [] in
  mif (mp_is_empty a) then ret (out ++ [40; 101; 109; 112; 116; 121; 41]) else
  let! k := usub (nlimbs a) 1 in
  let! v := load_l a k in
  let! n := usub (mp_len a) 1 in
  let! out := fmt_l out v (n mod LB + 1) in
  zfor 0 (nlimbs a - 1) (fun i out =>
    let out := out ++ [95] in
    let! k := usub (nlimbs a) 2 in
    let! k := usub k i in
    let! v := load_l a k in
    fmt_l out v LB) out.

End Model.
