(** Theorems about views of the low part of a buffer and splitting buffers in two (C59), and about lengths (C60). [low_view] and [parts] are in SpecShrink.v. *)
From Coq Require Import ZArith List Lia.
Require Import Verif.Spec Verif.Monad Verif.ModelLimb Verif.ModelBuf Verif.SpecBuf Verif.SpecShrink Verif.ShrinkProofs.
Import ListNotations.
Open Scope Z_scope.

(** Shrinking a buffer to at least the length of its number gives a view of the low bytes that denotes the same number. *)
Theorem C59_shrink : forall (c : cfg) b n, mp_ok b -> 0 <= n -> mpval b < 256 ^ n -> yields (mp_shrink_to b n) (fun v => low_view b n v /\ mpval v = mpval b).
Proof. exact @shrink_ok. Qed.
Print Assumptions C59_shrink.

(** Shrinking it further panics in debug builds and cuts off the number in release builds. *)
Theorem C59_shrink_panics : forall (c : cfg) b n, mp_ok b -> 0 <= n -> debug c = true -> 256 ^ n <= mpval b -> panics (mp_shrink_to b n).
Proof. exact @shrink_panics. Qed.
Print Assumptions C59_shrink_panics.
Theorem C59_shrink_release : forall (c : cfg) b n, mp_ok b -> 0 <= n -> debug c = false -> yields (mp_shrink_to b n) (low_view b n).
Proof. exact @shrink_release. Qed.
Print Assumptions C59_shrink_release.

(** Writing to the view changes the low bytes of the buffer and nothing else: the number changes by as much as the view's does, and shrinking the buffer again shows what has been written. *)
Theorem C59_write_through : forall (c : cfg) b n v w, mp_ok b -> 0 <= n -> low_view b n v -> becomes v w (mpval w) ->
  becomes b (mp_unshrink b w) (mpval b - mpval v + mpval w) /\ low_view (mp_unshrink b w) n w.
Proof. exact @write_through. Qed.
Print Assumptions C59_write_through.

(** Splitting off the low n bytes. *)
Theorem C59_take : forall (c : cfg) b n, mp_ok b -> 0 <= n <= mp_len b -> (kind_of b = KNE -> n mod LB = 0) -> yields (mp_take b n) (fun '(hi, lo) => parts b n hi lo).
Proof. exact @take_parts. Qed.
Print Assumptions C59_take.
Theorem C59_take_panics : forall (c : cfg) b n, mp_ok b -> 0 <= n -> n + LB <= 2 ^ UW -> mp_len b < n \/ debug c = true /\ kind_of b = KNE /\ n mod LB <> 0 -> panics (mp_take b n).
Proof. exact @take_panics. Qed.
Print Assumptions C59_take_panics.
(** Native limb buffers in release builds: n is rounded up to whole limbs. *)
Theorem C59_take_rounds : forall (c : cfg) l n, mp_ok (NE l) -> 0 <= n <= mp_len (NE l) -> debug c = false ->
  yields (mp_take (NE l) n) (fun '(hi, lo) => parts (NE l) (mp_len lo) hi lo /\ mp_len lo mod LB = 0 /\ n <= mp_len lo < n + LB).
Proof. exact @take_rounds. Qed.
Print Assumptions C59_take_rounds.

(** ** C60: lengths *)

(** The number of limbs is the least that holds all bytes; a buffer is empty exactly if it has no bytes; the number fits its bytes. *)
Theorem C60_sizes : forall (c : cfg) b, mp_ok b -> (nlimbs b - 1) * LB < mp_len b <= nlimbs b * LB /\ (mp_is_empty b = true <-> mp_len b = 0) /\ 0 <= mpval b < 256 ^ mp_len b.
Proof. exact @sizes. Qed.
Print Assumptions C60_sizes.
(** A buffer's length is compatible with n if it has no more bytes or, being made of limbs, exceeds n by less than a limb with no bits set there. *)
Theorem C60_compatible : forall (c : cfg) b n, mp_ok b -> 0 <= n ->
  yields (len_is_compatible_with b n) (fun r => r = true <-> mp_len b <= n \/ kind_of b = KNE /\ mp_len b < n + LB /\ mpval b < 256 ^ n).
Proof. exact @compatible_iff. Qed.
Print Assumptions C60_compatible.
(** The elements, bytes or limbs, a buffer for n bytes needs: no fewer do. *)
Theorem C60_backing : forall (c : cfg) b n, 0 <= n -> let k := n_backing_elements_for_len b n in let s := match kind_of b with KNE => LB | _ => 1 end in (k - 1) * s < n <= k * s.
Proof. exact @backing_least. Qed.
Print Assumptions C60_backing.
(** The mask of the highest limb has the bits set there is room for. *)
Theorem C60_top_mask : forall (c : cfg) b, mp_ok b -> 0 < mp_len b -> returns (partial_high_mask b) (256 ^ (mp_len b - (nlimbs b - 1) * LB) - 1).
Proof. exact @top_mask. Qed.
Print Assumptions C60_top_mask.

(** Concrete buffers meeting the hypotheses, and what comes out. *)
Ltac okmp := split; [repeat constructor; vm_compute; congruence|vm_compute; reflexivity].
Example ex_shrink : let c := mkcfg true false true true in
  let b := BE [0; 0; 7; 1; 2] in mp_ok b /\ mpval b < 256 ^ 3 /\ 256 ^ 2 <= mpval b /\ returns (mp_shrink_to b 4) (BE [0; 7; 1; 2]) /\ panics (mp_shrink_to b 2) /\
  low_view b 4 (BE [0; 7; 1; 2]) /\ becomes (BE [0; 7; 1; 2]) (BE [9; 8; 1; 3]) 151519491 /\ mp_unshrink b (BE [9; 8; 1; 3]) = BE [0; 9; 8; 1; 3] /\
  returns (mp_take b 2) (BE [0; 0; 7], BE [1; 2]) /\ panics (mp_take (NE [5; 6]) 9).
Proof.
  cbv zeta. split; [okmp|]. split; [reflexivity|]. split; [vm_compute; congruence|]. split; [vm_compute; reflexivity|]. split; [vm_compute; reflexivity|].
  split; [split; [okmp|split; [reflexivity|split; reflexivity]]|]. split; [split; [okmp|split; [split; reflexivity|reflexivity]]|].
  split; [reflexivity|]. split; reflexivity.
Qed.
Example ex_shrink_release : let c := mkcfg true false true false in
  let b := NE [5; 6; 7] in mp_ok b /\ mp_len b = 24 /\ returns (mp_shrink_to b 9) (NE [5; 6]) /\ low_view b 9 (NE [5; 6]) /\ returns (mp_take b 9) (NE [7], NE [5; 6]).
Proof.
  cbv zeta. split; [okmp|]. split; [reflexivity|]. split; [reflexivity|]. split; [|reflexivity].
  split; [okmp|]. split; [reflexivity|]. split; [split; [reflexivity|vm_compute; split; congruence]|]. vm_compute. reflexivity.
Qed.
Example ex_lengths : let c := mkcfg true false true true in let b := NE [5; 6; 7] in let s := LE [1; 2; 3; 4; 5; 6; 7; 8; 9] in
  mp_ok b /\ mp_ok s /\ nlimbs b = 3 /\ nlimbs s = 2 /\ returns (len_is_compatible_with b 17) true /\ returns (len_is_compatible_with b 16) false /\
  returns (len_is_compatible_with s 8) false /\ n_backing_elements_for_len b 17 = 3 /\ n_backing_elements_for_len s 17 = 17 /\ returns (partial_high_mask s) 255.
Proof. cbv zeta. split; [okmp|]. split; [okmp|]. repeat split. Qed.
