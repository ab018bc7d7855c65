(** Theorems about multiprecision integer buffers: properties C01-C09 and C42.

    A buffer [b : mp] is [BE bytes], [LE bytes] or [NE limbs]; [mpval b] is the
    integer it denotes, [mp_len b] its length in bytes (SpecBuf.v).
    [becomes b b' v]: [b'] has [b]'s representation and length and denotes [v].
    [yields m P]: [m] does not panic and its result satisfies [P].
    [choice b]: the LimbChoice for the truth value [b]. *)
From Coq Require Import ZArith List Bool Lia.
Require Import Verif.Spec Verif.Monad Verif.ModelLimb Verif.ModelBuf Verif.SpecBuf Verif.ThmLimb Verif.BufProofs
  Verif.CopyCond Verif.NativeShort Verif.AccessCopy Verif.CompAccess.
Import ListNotations.
Open Scope Z_scope.

(** ** C01: limb access agrees with the byte encoding *)

Theorem C01_load : forall (c : cfg) b i, mp_ok b -> 0 <= i -> i * LB < mp_len b ->
  returns (load_l b i) ((mpval b / B ^ i) mod B) /\
  ((i + 1) * LB <= mp_len b -> returns (load_l_full b i) ((mpval b / B ^ i) mod B)).
Proof. exact load_correct. Qed.
Print Assumptions C01_load.

Theorem C01_store : forall (c : cfg) b i v, mp_ok b -> 0 <= i -> i * LB < mp_len b ->
  0 <= v < B -> v < 256 ^ (mp_len b - i * LB) ->
  let new := mpval b + (v - (mpval b / B ^ i) mod B) * B ^ i in
  yields (store_l b i v) (fun b' => becomes b b' new) /\
  ((i + 1) * LB <= mp_len b -> yields (store_l_full b i v) (fun b' => becomes b b' new)).
Proof. exact store_correct. Qed.
Print Assumptions C01_store.

(** The same, digit by digit. *)
Theorem C01_store_digits : forall (c : cfg) b i v b', mp_ok b -> 0 <= i -> i * LB < mp_len b ->
  0 <= v < B -> v < 256 ^ (mp_len b - i * LB) -> returns (store_l b i v) b' ->
  same_shape b b' /\
  forall j, 0 <= j -> (mpval b' / B ^ j) mod B = if j =? i then v else (mpval b / B ^ j) mod B.
Proof. exact store_digits_correct. Qed.
Print Assumptions C01_store_digits.

(** ** C02: clearing bytes *)

Theorem C02_clear_bytes : forall (c : cfg) b n, mp_ok b -> 0 <= n ->
  yields (clear_bytes_above b n) (fun b' => becomes b b' (mpval b mod 256 ^ n)) /\
  (n <= mp_len b -> yields (clear_bytes_below b n) (fun b' => becomes b b' (mpval b - mpval b mod 256 ^ n))).
Proof. exact clear_bytes_correct. Qed.
Print Assumptions C02_clear_bytes.

(** Past the end of a native limb buffer clear_bytes_below leaves bytes standing
    (or panics on an empty one), unlike the byte encodings: *)
Theorem C02_clear_bytes_below_past_end_refuted : exists (c : cfg) l n r,
  mp_ok (NE l) /\ mp_len (NE l) < n /\ returns (clear_bytes_below (NE l) n) r /\ mpval r <> 0 /\
  panics (clear_bytes_below (NE []) 1).
Proof.
  exists (mkcfg true false true true), [2 ^ 63], 9, (NE [2 ^ 63]).
  split. { split; [repeat constructor; vm_compute; congruence|vm_compute; reflexivity]. }
  split; [vm_compute; reflexivity|]. split; [vm_compute; reflexivity|].
  split; [vm_compute; congruence|vm_compute; reflexivity].
Qed.
Print Assumptions C02_clear_bytes_below_past_end_refuted.

(** What clearing past the end does, exactly.  In a byte buffer, all bytes are cleared. *)
Theorem C02_clear_bytes_below_past_end_bytes : forall (c : cfg) b n, mp_ok b -> (exists l, b = BE l \/ b = LE l) -> mp_len b <= n ->
  yields (clear_bytes_below b n) (fun b' => becomes b b' 0).
Proof. exact clear_below_past_bytes'. Qed.
Print Assumptions C02_clear_bytes_below_past_end_bytes.

(** In a limb buffer, all bytes are cleared if the position is a multiple of the limb size; if not, only the low [n mod LB] bytes of the
    most significant limb are, and an empty buffer makes the call panic. *)
Theorem C02_clear_bytes_below_past_end_limbs : forall (c : cfg) l n, mp_ok (NE l) -> mp_len (NE l) < n -> n + LB < 2 ^ UW ->
  (n mod LB = 0 -> yields (clear_bytes_below (NE l) n) (fun b' => becomes (NE l) b' 0)) /\
  (n mod LB <> 0 -> l <> [] -> yields (clear_bytes_below (NE l) n)
     (fun b' => becomes (NE l) b' (mpval (NE l) - mpval (NE l) mod 256 ^ (mp_len (NE l) - LB + n mod LB)))) /\
  (n mod LB <> 0 -> l = [] -> panics (clear_bytes_below (NE l) n)).
Proof. exact clear_below_past_limbs. Qed.
Print Assumptions C02_clear_bytes_below_past_end_limbs.

(** The largest positions overflow when rounded up to limbs: a panic, but for the smallest of them in release builds. *)
Theorem C02_clear_bytes_below_huge : forall (c : cfg) l n, mp_ok (NE l) -> 0 <= n < 2 ^ UW -> 2 ^ UW <= n + LB ->
  (debug c = true -> panics (clear_bytes_below (NE l) n)) /\
  (debug c = false -> n + LB = 2 ^ UW -> yields (clear_bytes_below (NE l) n) (fun b' => becomes (NE l) b' 0)) /\
  (debug c = false -> n + LB <> 2 ^ UW -> panics (clear_bytes_below (NE l) n)).
Proof. exact clear_below_huge. Qed.
Print Assumptions C02_clear_bytes_below_huge.

(** ** C03: clearing bits *)

Theorem C03_clear_bits : forall (c : cfg) b n, mp_ok b -> 0 <= n < 2 ^ UW ->
  yields (ct_clear_bits_above_mp b n) (fun b' => becomes b b' (mpval b mod 2 ^ n)) /\
  yields (clear_bits_above_mp b n) (fun b' => becomes b b' (mpval b mod 2 ^ n)) /\
  yields (ct_clear_bits_below_mp b n) (fun b' => becomes b b' (mpval b - mpval b mod 2 ^ n)) /\
  yields (clear_bits_below_mp b n) (fun b' => becomes b b' (mpval b - mpval b mod 2 ^ n)).
Proof. exact clear_bits_correct. Qed.
Print Assumptions C03_clear_bits.

(** ** C04: copying *)

Theorem C04_copy_from : forall (c : cfg) dst src, mp_ok dst -> mp_ok src -> mpval src < 256 ^ mp_len dst ->
  yields (copy_from dst src) (fun d => becomes dst d (mpval src)).
Proof. exact copy_from_correct. Qed.
Print Assumptions C04_copy_from.

(** What is too large for the destination makes debug builds panic; release builds drop the excess. *)
Theorem C04_copy_from_large : forall (c : cfg) dst src, mp_ok dst -> mp_ok src -> 256 ^ mp_len dst <= mpval src ->
  (debug c = true -> panics (copy_from dst src)) /\
  (debug c = false -> yields (copy_from dst src) (fun d => becomes dst d (mpval src mod 256 ^ mp_len dst))).
Proof. exact copy_large. Qed.
Print Assumptions C04_copy_from_large.

(** ** C05: conditional copying *)

(** Holds unless the condition is true and the destination is longer. *)
Theorem C05_copy_from_cond_partial : forall (c : cfg) dst src cond,
  mp_ok dst -> mp_ok src -> mpval src < 256 ^ mp_len dst ->
  (cond = false \/ mp_len dst <= mp_len src) ->
  yields (copy_from_cond dst src (choice cond)) (fun d => becomes dst d (if cond then mpval src else mpval dst)).
Proof. exact copy_from_cond_correct. Qed.
Print Assumptions C05_copy_from_cond_partial.

(** Otherwise the excess is not cleared and, worse, copied bytes are lost. *)
Theorem C05_copy_from_cond_refuted : exists (c : cfg) dst src r,
  mp_ok dst /\ mp_ok src /\ mp_len src < mp_len dst /\
  returns (copy_from_cond dst src (choice true)) r /\ mpval r <> mpval src.
Proof.
  exists (mkcfg true false true true), (LE [1; 2]), (LE [3]), (LE [0; 0]).
  split. { split; [repeat constructor; vm_compute; congruence|vm_compute; reflexivity]. }
  split. { split; [repeat constructor; vm_compute; congruence|vm_compute; reflexivity]. }
  split; [vm_compute; reflexivity|]. split; [vm_compute; reflexivity|vm_compute; congruence].
Qed.
Print Assumptions C05_copy_from_cond_refuted.

(** What happens then, exactly.  If the source ends amid a limb, its last limb is
    dropped.  Otherwise it is copied, and the destination's next limb stays. *)
Theorem C05_copy_from_cond_longer : forall (c : cfg) dst src,
  mp_ok dst -> mp_ok src -> mp_len src < mp_len dst ->
  yields (copy_from_cond dst src (choice true)) (fun d => becomes dst d
    (if mp_len src mod LB =? 0
     then mpval src + (mpval dst / 256 ^ mp_len src) mod B * 256 ^ mp_len src
     else mpval src mod B ^ (mp_len src / LB))).
Proof. exact copy_longer_correct. Qed.
Print Assumptions C05_copy_from_cond_longer.

(** What is too large for the destination makes debug builds panic, even if the condition is false. *)
Theorem C05_copy_from_cond_large : forall (c : cfg) dst src cond, mp_ok dst -> mp_ok src -> 256 ^ mp_len dst <= mpval src ->
  (debug c = true -> panics (copy_from_cond dst src (choice cond))) /\
  (debug c = false -> yields (copy_from_cond dst src (choice cond))
     (fun d => becomes dst d (if cond then mpval src mod 256 ^ mp_len dst else mpval dst))).
Proof. exact copy_cond_large. Qed.
Print Assumptions C05_copy_from_cond_large.

Example ex_copy_longer : let c := mkcfg false false true true in
  let dst := BE [1; 2; 3; 4; 5; 6; 7; 8; 9; 10] in
  snd (copy_from_cond dst (LE [11; 12; 13; 14]) (choice true)) = Some (BE [0; 0; 3; 4; 5; 6; 14; 13; 12; 11]) /\
  snd (copy_from_cond dst (LE [11; 12; 13; 14; 15]) (choice true)) = Some (BE [0; 0; 0; 0; 0; 0; 14; 13; 12; 11]).
Proof. split; vm_compute; reflexivity. Qed.

(** ** C06: single bits *)

Theorem C06_test_bit : forall (c : cfg) b i, mp_ok b -> 0 <= i ->
  returns (test_bit b i) (choice (Z.testbit (mpval b) i)).
Proof. exact test_bit_correct. Qed.
Print Assumptions C06_test_bit.

Theorem C06_set_bit_to : forall (c : cfg) b i v, mp_ok b -> 0 <= i < 8 * mp_len b ->
  yields (set_bit_to b i v) (fun b' => mp_ok b' /\ same_shape b b' /\
    forall j, 0 <= j -> Z.testbit (mpval b') j = if j =? i then v else Z.testbit (mpval b) j).
Proof. exact set_bit_correct. Qed.
Print Assumptions C06_set_bit_to.

(** Past the end, the buffer remains as it is or the call panics: clearing a bit in the
    unused part of a partial limb has no effect, setting one there has none in release
    builds and panics in debug builds; so does, on native buffers even in release
    builds, any position in a limb past the end, but for the first one past the end of
    a byte buffer in release builds. *)
Theorem C06_set_bit_to_past_end : forall (c : cfg) b i v, mp_ok b -> 8 * mp_len b <= i < 2 ^ UW -> let k := i / (8 * LB) in
  let kept := k < nlimbs b /\ (v = false \/ debug c = false) \/ debug c = false /\ kind_of b <> KNE /\ k * LB = mp_len b in
  (kept -> yields (set_bit_to b i v) (fun b' => becomes b b' (mpval b))) /\ (~ kept -> panics (set_bit_to b i v)).
Proof. exact set_bit_past. Qed.
Print Assumptions C06_set_bit_to_past_end.

(** ** C07: scans *)

Theorem C07_last_set_bit : forall (c : cfg) b, mp_ok b ->
  exists n, returns (ct_find_last_set_bit_mp b) (choice (negb (mpval b =? 0)), n) /\ is_bit_width (mpval b) n.
Proof. exact mp_last_set_bit_correct. Qed.
Print Assumptions C07_last_set_bit.

Theorem C07_first_set_bit : forall (c : cfg) b, mp_ok b ->
  exists n, returns (ct_find_first_set_bit_mp b) (choice (negb (mpval b =? 0)), n) /\
    (mpval b = 0 \/ is_lowest_set_bit (mpval b) n).
Proof. exact mp_first_set_bit_correct. Qed.
Print Assumptions C07_first_set_bit.

(** [n] is the least number of limbs, respectively bytes, holding the value. *)
Theorem C07_last_set_limb_byte : forall (c : cfg) b, mp_ok b ->
  yields (find_last_set_limb b) (fun n => 0 <= n /\ forall m, 0 <= m -> (mpval b < B ^ m <-> n <= m)) /\
  yields (find_last_set_byte_mp b) (fun n => 0 <= n /\ forall m, 0 <= m -> (mpval b < 256 ^ m <-> n <= m)).
Proof. exact mp_last_set_limb_byte_correct. Qed.
Print Assumptions C07_last_set_limb_byte.

(** ** C08: conditional swap *)

Theorem C08_swap_cond : forall (c : cfg) a b cond, mp_ok a -> mp_ok b -> mp_len a = mp_len b ->
  yields (ct_swap_cond_mp a b (choice cond)) (fun '(a', b') =>
    becomes a a' (if cond then mpval b else mpval a) /\ becomes b b' (if cond then mpval a else mpval b)).
Proof. exact swap_correct. Qed.
Print Assumptions C08_swap_cond.

(** ** C09: split buffers act as one integer

    [segs] lists the segments, least significant first; [segs_val] reads them as
    one integer.  [composite_segments] are the original buffers as seen after the
    composite is dropped.  After any sequence [ops] of stores (limb index, value),
    every load agrees with the integer those stores make of the segments' one, and
    so do the buffers. *)
Theorem C09_composite : forall (c : cfg) k segs, segs_ok k segs ->
  yields (composite_new segs) (fun cs =>
    composite_segments cs = segs /\
    forall ops, Forall (fun iv => 0 <= fst iv /\ fst iv * LB < segs_len segs /\ 0 <= snd iv < B /\
                                  snd iv < 256 ^ (segs_len segs - fst iv * LB)) ops ->
      yields (fold_left (fun m iv => let! cs := m in composite_store cs (fst iv) (snd iv)) ops (ret cs)) (fun cs' =>
        let X := fold_left (fun X iv => X + (snd iv - (X / B ^ fst iv) mod B) * B ^ fst iv) ops (segs_val segs) in
        (forall i, 0 <= i -> i * LB < segs_len segs -> returns (composite_load cs' i) ((X / B ^ i) mod B)) /\
        Forall2 (fun b b' => same_shape b b' /\ mp_ok b') segs (composite_segments cs') /\
        segs_val (composite_segments cs') = X)).
Proof. exact composite_correct. Qed.
Print Assumptions C09_composite.

(** Any indices and any limb values: an access past the end panics; a value too large
    for the bytes the last limb has ([room]) panics in debug builds, and loses the bytes
    that do not fit in release builds.  Nothing else is written. *)
Theorem C09_composite_any : forall (c : cfg) k segs, segs_ok k segs ->
  let room i := 256 ^ Z.min LB (segs_len segs - i * LB) in
  let fits iv := fst iv * LB < segs_len segs /\ (debug c = true -> snd iv < room (fst iv)) in
  yields (composite_new segs) (fun cs =>
    forall ops, Forall (fun iv => 0 <= fst iv /\ 0 <= snd iv < B) ops ->
      let run := fold_left (fun m iv => let! cs := m in composite_store cs (fst iv) (snd iv)) ops (ret cs) in
      (Forall fits ops -> yields run (fun cs' =>
        let X := fold_left (fun X iv => X + (snd iv mod room (fst iv) - (X / B ^ fst iv) mod B) * B ^ fst iv) ops (segs_val segs) in
        (forall i, 0 <= i -> i * LB < segs_len segs -> returns (composite_load cs' i) ((X / B ^ i) mod B)) /\
        (forall i, segs_len segs <= i * LB -> panics (composite_load cs' i)) /\
        Forall2 (fun b b' => same_shape b b' /\ mp_ok b') segs (composite_segments cs') /\
        segs_val (composite_segments cs') = X)) /\
      (~ Forall fits ops -> panics run)).
Proof. exact composite_any. Qed.
Print Assumptions C09_composite_any.

(** Segments of 3, 0 and 2 bytes make two limbs of 4 and 1 byte; 0x1ff does not fit the second. *)
Example ex_composite_any :
  let segs := [LE [1; 2; 3]; LE []; LE [4; 5]] in
  let run d := let c := mkcfg false false true d in
    let! cs := composite_new segs in let! cs := composite_store cs 1 0x1ff in ret (composite_segments cs) in
  (let c := mkcfg false false true false in segs_ok KLE segs /\ segs_len segs = 5) /\
  snd (run false) = Some [LE [1; 2; 3]; LE []; LE [4; 0xff]] /\ snd (run true) = None.
Proof.
  split; [split; [repeat constructor; vm_compute; congruence|vm_compute; reflexivity]|].
  split; vm_compute; reflexivity.
Qed.

(** ** C42: native integers ([sz] = size in bytes) *)

Theorem C42_native_partial : forall (c : cfg) sz b, mp_ok b -> (sz = 1 \/ sz = 2 \/ sz = 4 \/ sz = 8) ->
  (sz <= mp_len b ->
   returns (try_into_native sz b) (if mpval b <? 256 ^ sz then Ok (mpval b) else Err tt)) /\
  (forall v, sz <= mp_len b -> 0 <= v < 256 ^ sz -> yields (set_to_native sz b v) (fun b' => becomes b b' v)).
Proof. exact native_correct. Qed.
Print Assumptions C42_native_partial.

(** Reading from a buffer shorter than the native type may panic although the
    value fits: an empty native buffer denotes 0, yet try_into_u8 panics; so does
    try_into_u64 with 32 bit limbs on a one-limb buffer. *)
Theorem C42_try_into_short_refuted :
  (exists c : cfg, mp_ok (NE []) /\ mpval (NE []) = 0 /\ panics (try_into_native 1 (NE []))) /\
  (exists c : cfg, mp_ok (NE [7]) /\ mpval (NE [7]) = 7 /\ panics (try_into_native 8 (NE [7]))).
Proof.
  split; [exists (mkcfg true false true false)|exists (mkcfg false false true false)];
    (split; [split; [repeat constructor; vm_compute; congruence|vm_compute; reflexivity]|]);
    split; vm_compute; reflexivity.
Qed.
Print Assumptions C42_try_into_short_refuted.

(** Exactly when: the buffer must have as many limbs as the native type, or else
    end where the native type's last limb begins and not be a native one, nor a
    little-endian one in debug mode. *)
Theorem C42_try_into : forall (c : cfg) sz b, mp_ok b -> (sz = 1 \/ sz = 2 \/ sz = 4 \/ sz = 8) ->
  let n := (sz + LB - 1) / LB in
  let works := n <= nlimbs b \/
               mp_len b = (n - 1) * LB /\ (kind_of b = KBE \/ kind_of b = KLE /\ debug c = false) in
  (works -> returns (try_into_native sz b) (if mpval b <? 256 ^ sz then Ok (mpval b) else Err tt)) /\
  (~ works -> panics (try_into_native sz b)).
Proof. exact native_short_correct. Qed.
Print Assumptions C42_try_into.

(** Storing in a buffer shorter than the native type panics in debug builds, whatever the
    value; release builds drop the excess, or panic if a limb is missing. *)
Theorem C42_set_to_short : forall (c : cfg) sz b v, mp_ok b -> (sz = 1 \/ sz = 2 \/ sz = 4 \/ sz = 8) -> mp_len b < sz -> 0 <= v < 256 ^ sz ->
  let n := (sz + LB - 1) / LB in
  let works := debug c = false /\ (n <= nlimbs b \/ mp_len b = (n - 1) * LB /\ kind_of b <> KNE) in
  (works -> yields (set_to_native sz b v) (fun b' => becomes b b' (v mod 256 ^ mp_len b))) /\
  (~ works -> panics (set_to_native sz b v)).
Proof. exact native_store_short. Qed.
Print Assumptions C42_set_to_short.

Example ex_try_into : let c := mkcfg false false true false in
  snd (try_into_native 8 (LE [1; 2; 3; 4])) = Some (Ok 0x04030201) /\
  snd (try_into_native 8 (LE [1; 2; 3; 4; 5])) = Some (Ok 0x0504030201) /\
  snd (try_into_native 8 (LE [1; 2; 3])) = None.
Proof. repeat split; vm_compute; reflexivity. Qed.

(** Concrete, non-trivial cases meeting the hypotheses above. *)
Example ex_buf : let c := mkcfg false false true true in
  let b := BE [1; 2; 3; 4; 5; 6] in
  mp_ok b /\ 1 * LB < mp_len b /\ mpval b = 0x010203040506 /\
  snd (load_l b 1) = Some 0x0102 /\ snd (store_l b 1 0xaabb) = Some (BE [0xaa; 0xbb; 3; 4; 5; 6]) /\
  snd (clear_bytes_below b 3) = Some (BE [1; 2; 3; 0; 0; 0]) /\
  snd (ct_clear_bits_above_mp b 35) = Some (BE [0; 2; 3; 4; 5; 6]) /\
  snd (copy_from (NE [9; 9]) b) = Some (NE [0x03040506; 0x0102]) /\
  segs_ok KLE [LE [1; 2; 3]; LE [4; 5]] /\
  snd (let! cs := composite_new [LE [1; 2; 3]; LE [4; 5]] in
       let! cs := composite_store cs 0 0x0d0c0b0a in ret (composite_segments cs))
    = Some [LE [0x0a; 0x0b; 0x0c]; LE [0x0d; 5]].
Proof.
  intros c b.
  split. { split; [repeat constructor; vm_compute; congruence|vm_compute; reflexivity]. }
  split; [vm_compute; reflexivity|]. split; [vm_compute; reflexivity|].
  split; [vm_compute; reflexivity|]. split; [vm_compute; reflexivity|].
  split; [vm_compute; reflexivity|]. split; [vm_compute; reflexivity|].
  split; [vm_compute; reflexivity|].
  split. { repeat constructor; vm_compute; congruence. }
  vm_compute; reflexivity.
Qed.

Example ex_buf2 : let c := mkcfg false false true false in
  let b := LE [1; 2; 3; 4; 5; 6] in let l := [0x04030201; 0x08070605] in
  mp_ok b /\ mp_ok (NE l) /\
  (** C02, past the end *)
  mp_len b <= 9 /\ snd (clear_bytes_below b 9) = Some (LE [0; 0; 0; 0; 0; 0]) /\
  mp_len (NE l) < 9 /\ 9 + LB < 2 ^ UW /\ 9 mod LB <> 0 /\ snd (clear_bytes_below (NE l) 9) = Some (NE [0; 0x08070600]) /\
  mp_len (NE l) < 12 /\ 12 mod LB = 0 /\ snd (clear_bytes_below (NE l) 12) = Some (NE [0; 0]) /\
  0 <= 2 ^ UW - 4 < 2 ^ UW /\ 2 ^ UW <= 2 ^ UW - 4 + LB /\ snd (clear_bytes_below (NE l) (2 ^ UW - 4)) = Some (NE [0; 0]) /\
  snd (clear_bytes_below (NE l) (2 ^ UW - 3)) = None /\
  (** C03 *)
  snd (ct_clear_bits_below_mp (NE l) 35) = Some (NE [0; 0x08070600]) /\ snd (clear_bits_above_mp b 33) = Some (LE [1; 2; 3; 4; 1; 0]) /\
  snd (clear_bits_below_mp b 12) = Some (LE [0; 0; 3; 4; 5; 6]) /\
  (** C05 *)
  snd (copy_from_cond (BE [9; 9; 9]) (LE [1; 2; 3; 0]) (choice true)) = Some (BE [3; 2; 1]) /\
  snd (copy_from_cond (BE [9; 9; 9]) (LE [1; 2; 3; 0]) (choice false)) = Some (BE [9; 9; 9]) /\
  (** C06 *)
  snd (test_bit b 34) = Some (choice true) /\ snd (test_bit b 33) = Some (choice false) /\ snd (test_bit b 1000) = Some (choice false) /\
  snd (set_bit_to b 33 true) = Some (LE [1; 2; 3; 4; 7; 6]) /\ snd (set_bit_to (NE l) 34 false) = Some (NE [0x04030201; 0x08070601]) /\
  (** C07 *)
  snd (ct_find_last_set_bit_mp b) = Some (choice true, 43) /\ snd (ct_find_last_set_bit_mp (BE [0; 0])) = Some (choice false, 0) /\
  snd (ct_find_first_set_bit_mp (BE [1; 0; 0; 0; 8; 0])) = Some (choice true, 11) /\
  snd (find_last_set_limb (NE [5; 0; 0])) = Some 1 /\ snd (find_last_set_byte_mp (BE [0; 0; 1; 0])) = Some 2 /\
  (** C08 *)
  mp_len (BE [1; 2; 3; 4]) = mp_len (NE [9]) /\
  snd (ct_swap_cond_mp (BE [1; 2; 3; 4]) (NE [9]) (choice true)) = Some (BE [0; 0; 0; 9], NE [0x01020304]) /\
  snd (ct_swap_cond_mp (BE [1; 2; 3; 4]) (NE [9]) (choice false)) = Some (BE [1; 2; 3; 4], NE [9]) /\
  (** C42 *)
  4 <= mp_len b /\ snd (try_into_native 4 b) = Some (Err tt) /\ snd (try_into_native 4 (BE [0; 1; 2; 3; 4])) = Some (Ok 0x01020304) /\
  snd (set_to_native 4 b 0xa0b0c0d0) = Some (LE [0xd0; 0xc0; 0xb0; 0xa0; 0; 0]).
Proof.
  intros c b l.
  repeat (split; [first [split; [repeat constructor; vm_compute; congruence|vm_compute; reflexivity]|vm_compute; congruence|vm_compute; reflexivity
    |vm_compute; split; congruence]|]).
  vm_compute. reflexivity.
Qed.

(** Numbers, bits and native integers that do not fit. *)
Example ex_buf_cut :
  (let c := mkcfg false false true false in
   returns (copy_from (BE [0; 0]) (LE [1; 2; 3])) (BE [2; 1]) /\
   returns (copy_from_cond (BE [7; 8]) (LE [1; 2; 3]) (choice false)) (BE [7; 8]) /\
   returns (set_bit_to (LE [1; 2; 3]) 24 true) (LE [1; 2; 3]) /\ returns (set_bit_to (BE [1; 2; 3; 4]) 40 true) (BE [1; 2; 3; 4]) /\
   panics (set_bit_to (LE [1; 2; 3]) 32 true) /\
   returns (set_to_native 8 (LE [0; 0; 0; 0; 0]) 0x0102030405060708) (LE [8; 7; 6; 5; 4]) /\ panics (set_to_native 8 (NE [0]) 1)) /\
  (let c := mkcfg false false true true in
   panics (copy_from_cond (BE [7; 8]) (LE [1; 2; 3]) (choice false)) /\ panics (set_bit_to (LE [1; 2; 3]) 24 true) /\
   returns (set_bit_to (LE [1; 2; 3]) 24 false) (LE [1; 2; 3]) /\ panics (set_to_native 8 (LE [0; 0; 0; 0; 0]) 1)).
Proof. repeat split; vm_compute; reflexivity. Qed.
