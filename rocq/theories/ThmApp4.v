(** Theorems about sequences of calls, continued: what testing and searching for primes (C53) find in all cases, a prime that is missed, and RSA keys (C54) that do not
    work. [mr_passes], [taken_for_prime], [room_for] and [missed_prime] are in SpecApp4.v, [rsa_wrong] in SpecAppWrong.v, the programs in SpecApp2.v, [prime] is the standard library's. *)
From Coq Require Import ZArith Znumtheory List Lia.
Require Import Verif.Spec Verif.Monad Verif.ModelLimb Verif.ModelBuf Verif.SpecBuf Verif.SpecMont Verif.SpecMul Verif.SpecEuclid Verif.SpecPrime Verif.ModelSieve Verif.SpecSieve Verif.ModelMont Verif.SpecInv
  Verif.SpecApp Verif.SpecApp2 Verif.SpecApp4 Verif.SpecAppWrong Verif.AppProofs5.
Import ListNotations.
Open Scope Z_scope.

(** ** C53: probable primes *)

(** The test's answer for every odd candidate of two or more limbs, carries lost or not. Missing: lengths which are not a multiple of the limb
    size, with a candidate close to the maximum. *)
Theorem C53_probable_prime_value_partial : forall (c : cfg) rx mb s0 s1 p base, exp_modulus_any p -> 2 < mpval p -> room_for p (mpval p) ->
  residue_buf p base -> test_buffers p rx mb s0 s1 ->
  yields (is_probable_prime rx mb s0 s1 p base) (fun b => b = true <-> mr_passes p (mpval base)).
Proof. exact @probable_prime_value. Qed.
Print Assumptions C53_probable_prime_value_partial.

(** The search finds exactly the first number from n on that is taken for a prime. If it is given up after k candidates, none of the k numbers from n on is. *)
Theorem C53_search_value_partial : forall (c : cfg) n k bases rx mb s0 s1, mp_ok n -> 2 <= nlimbs n -> gcd_len_ok (LB * nlimbs n) ->
  mpval n + Z.of_nat k * wheel_primorial <= 256 ^ mp_len n -> room_for n (mpval n + Z.of_nat k * wheel_primorial) ->
  screen_limit n < mpval n -> test_buffers n rx mb s0 s1 -> (forall b, In b bases -> residue_buf n b) ->
  yields (let! w := lvl1_start_geq_than n in prime_search k bases rx mb s0 s1 n w) (fun r => match r with
    | Some p => becomes n p (mpval p) /\ mpval n <= mpval p < mpval n + Z.of_nat k * wheel_primorial /\ taken_for_prime n bases (mpval p) /\
                forall q, mpval n <= q < mpval p -> ~ taken_for_prime n bases q
    | None => forall q, mpval n <= q < mpval n + Z.of_nat k -> ~ taken_for_prime n bases q
    end).
Proof. exact @search_exact. Qed.
Print Assumptions C53_search_value_partial.

(** Candidates of any length: if neither carries get lost nor intermediate products outgrow the buffers, the answer is right. [room_for] holds for whole limbs, and by
    the second theorem for all other lengths and candidates up to 256/257 of the maximum, where no carries can get lost either. Missing: the other candidates. *)
Theorem C53_probable_prime_room_partial : forall (c : cfg) rx mb s0 s1 p base, exp_modulus p -> 2 < mpval p -> room_for p (mpval p) ->
  residue_buf p base -> test_buffers p rx mb s0 s1 ->
  yields (is_probable_prime rx mb s0 s1 p base) (fun b => b = true <-> strong_probable_prime (mpval p) (mpval base)).
Proof. exact @probable_prime_room. Qed.
Print Assumptions C53_probable_prime_room_partial.
Theorem C53_unaligned_room : forall (c : cfg) n q, mp_len n mod LB <> 0 -> 0 <= q -> 257 * q <= 256 * 256 ^ mp_len n -> room_for n q /\ (B + 1) * q <= B * mg_radix n.
Proof. exact @unaligned_fine. Qed.
Print Assumptions C53_unaligned_room.

(** The search, for buffers of any length. *)
Theorem C53_search_room_partial : forall (c : cfg) n k bases rx mb s0 s1, mp_ok n -> 2 <= nlimbs n -> gcd_len_ok (LB * nlimbs n) ->
  (B + 1) * (mpval n + Z.of_nat k * wheel_primorial) <= B * mg_radix n ->
  mpval n + Z.of_nat k * wheel_primorial <= 256 ^ mp_len n -> room_for n (mpval n + Z.of_nat k * wheel_primorial) ->
  screen_limit n < mpval n -> test_buffers n rx mb s0 s1 -> (forall b, In b bases -> residue_buf n b /\ 0 < mpval b < mpval n) ->
  yields (let! w := lvl1_start_geq_than n in prime_search k bases rx mb s0 s1 n w) (fun r => match r with
    | Some p => becomes n p (mpval p) /\ mpval n <= mpval p /\ ~ has_small_factor (screen_limit n) (mpval p) /\
                (forall b, In b bases -> strong_probable_prime (mpval p) (mpval b)) /\ forall q, prime q -> mpval n <= q -> mpval p <= q
    | None => forall q, prime q -> mpval n <= q -> mpval n + Z.of_nat k <= q
    end).
Proof. exact @search_room. Qed.
Print Assumptions C53_search_room_partial.

(** A prime just below a power of the limb base is not found though the search begins right there: it is either given up, whatever k, or ends at a larger number. It
    takes the base n - 1, to which every odd number above one is a strong probable prime. *)
Theorem C53_search_refuted : forall (c : cfg) n k bases b rx mb s0 s1, mp_ok n -> mp_len n = 2 * LB -> mpval n = missed_prime (limb64 c) ->
  mpval n + Z.of_nat k * wheel_primorial <= mg_radix n -> test_buffers n rx mb s0 s1 -> (forall b, In b bases -> residue_buf n b) -> In b bases -> mpval b = mpval n - 1 ->
  prime (mpval n) /\
  yields (let! w := lvl1_start_geq_than n in prime_search k bases rx mb s0 s1 n w) (fun r => match r with Some p => mpval n < mpval p | None => True end).
Proof. exact search_misses. Qed.
Print Assumptions C53_search_refuted.

(** ** C54: RSA keys *)

(** A key made from two primes with a product just below a power of the limb base: encryption and decryption of n - 2 give another message. All conditions of
    C54_rsa_key_round_trip_partial are met but the one on the modulus. *)
Theorem C54_rsa_key_round_trip_refuted : forall (c : cfg) p lp q lq n n0 l l0 scr e s0 s1 s2 s3 o t e' ke kd m r r2 t1 t2,
  let w := rsa_wrong (limb64 c) in
  mp_ok p -> mp_ok q -> mpval p = rsa_p w -> mpval q = rsa_q w -> mp_ok n -> mp_len n = 2 * LB ->
  mp_ok n0 -> same_shape n n0 -> mpval n0 = mpval p -> mpval n = mpval p * mpval q ->
  mp_len p = mp_len q -> 0 < lp <= mp_len p -> 0 < lq <= mp_len q -> lp <= mp_len n -> mpval p < 256 ^ lp -> mpval q < 256 ^ lq -> gcd_len_ok (mp_len p) ->
  mp_ok l -> mp_ok l0 -> same_shape l l0 -> mpval l = Z.lcm (mpval p - 1) (mpval q - 1) -> mp_ok scr -> kind_of scr = kind_of q ->
  lp + lq <= mp_len l -> lp + lq <= mp_len scr ->
  (kind_of q = KNE -> (lp + lq) mod LB = 0 /\ lp + lq + (ct_mp_limbs_align_len (Z.max lp lq) - Z.max lp lq) <= mp_len l) ->
  mp_ok e -> mpval e = rsa_e w -> mut_compat e l -> scratch_ok l s0 -> scratch_ok l s1 -> scratch_ok l s2 -> scratch_ok l s3 -> gcd_len_ok (LB * nlimbs l) ->
  mpval l = o * 2 ^ t -> Z.odd o = true -> 0 <= t -> o <= B ^ (nlimbs l - 1) ->
  liftable (mpval e) (8 * mp_len l - 1) -> liftable o (8 * mp_len l - 1) ->
  mp_ok e' -> mpval e' = mpval e -> 8 * mp_len e' <= ke -> 8 * mp_len e <= kd ->
  residue_buf n m -> mpval m = mpval n - 2 -> result_buf n r -> result_buf n r2 -> exp_scratch n t1 -> exp_scratch n t2 ->
  (prime (mpval p) /\ prime (mpval q) /\ mpval p <> mpval q /\ Z.gcd (mpval l) (mpval e) = 1) /\
  yields (let! '(n', d) := rsa_key p lp q lq n0 l0 scr e (s0, s1, s2, s3) in
          let! '(e1, x, _, _) := ct_exp_mod_odd_mp_mp r m n' e' ke t1 in
          let! '(e2, y, _, _) := ct_exp_mod_odd_mp_mp r2 x n' d kd t2 in ret (e1, e2, y))
    (fun '(e1, e2, y) => e1 = Ok tt /\ e2 = Ok tt /\ mp_ok y /\ mpval y <> mpval m).
Proof. exact rsa_key_trip_wrong. Qed.
Print Assumptions C54_rsa_key_round_trip_refuted.

(** Concrete buffers meeting the hypotheses. *)
Ltac okmp := split; [repeat constructor; vm_compute; congruence|vm_compute; reflexivity].
Example ex_search_misses : let c := mkcfg false false true true in
  let n := NE [4071874363; 4294967295] in let b := LE [58; 223; 179; 242; 255; 255; 255; 255] in let s := [1; 2] in
  mp_ok n /\ mp_len n = 2 * LB /\ mpval n = missed_prime (limb64 c) /\ mpval n + Z.of_nat 1 * wheel_primorial <= mg_radix n /\ test_buffers n (NE s) (NE s) s s /\
  residue_buf n b /\ mpval b = mpval n - 1 /\ screen_limit n < mpval n /\ gcd_len_ok (LB * nlimbs n) /\ exp_modulus_any n.
Proof.
  cbv zeta. split; [okmp|]. split; [reflexivity|]. split; [vm_compute; reflexivity|]. split; [vm_compute; congruence|].
  split; [split; [split; [okmp|left; reflexivity]|]; split; [split; [okmp|left; reflexivity]|]; split; [okmp|]; split; [okmp|]; split; vm_compute; congruence|].
  split; [split; [okmp|left; reflexivity]|]. split; [vm_compute; reflexivity|]. split; [vm_compute; reflexivity|]. split; [vm_compute; reflexivity|].
  split; [okmp|]. split; [reflexivity|]. split; [vm_compute; congruence|reflexivity].
Qed.
Example ex_search_room : let c := mkcfg false false true true in
  let n := BE [1; 0; 0; 0; 0; 1; 1] in let b := LE [3; 0; 0; 0; 0; 0; 0] in let r := NE [9; 9] in let s := [1; 2] in let m := mpval n + Z.of_nat 10 * wheel_primorial in
  mp_ok n /\ 2 <= nlimbs n /\ mp_len n mod LB <> 0 /\ gcd_len_ok (LB * nlimbs n) /\ 257 * m <= 256 * 256 ^ mp_len n /\ screen_limit n < mpval n /\
  test_buffers n r r s s /\ residue_buf n b /\ 0 < mpval b < mpval n /\ exp_modulus n.
Proof.
  cbv zeta. split; [okmp|]. split; [vm_compute; congruence|]. split; [vm_compute; congruence|]. split; [vm_compute; reflexivity|]. split; [vm_compute; congruence|].
  split; [vm_compute; reflexivity|].
  split; [split; [split; [okmp|right; split; [reflexivity|split; [vm_compute; congruence|reflexivity]]]|]; split; [split; [okmp|right; split; [reflexivity|split; [vm_compute; congruence|reflexivity]]]|]; split; [okmp|]; split; [okmp|]; split; vm_compute; congruence|].
  split; [split; [okmp|left; reflexivity]|]. split; [split; reflexivity|]. split; [okmp|]. split; [reflexivity|]. split; [vm_compute; congruence|]. split; [vm_compute; congruence|reflexivity].
Qed.
Example ex_rsa_key_wrong : let c := mkcfg false false true true in let w := rsa_wrong (limb64 c) in
  let p := BE [0; 0; 0; 1; 0; 0; 18; 147] in let q := LE [109; 237; 255; 255; 0; 0; 0; 0] in let n := NE [4272357271; 4294967295] in let n0 := NE [4755; 1] in
  let l := BE [0; 0; 0; 0; 8; 136; 136; 136; 119; 107; 247; 116] in let l0 := BE (zrepeat 7 12) in let e := LE [7; 0; 0; 0; 0; 0; 0; 0; 0; 0; 0; 0] in let s := [5; 5; 5] in
  let m := LE [149; 255; 166; 254; 255; 255; 255; 255] in let r := NE [6; 6] in let o := 153722867209141725 in
  (mp_ok p /\ mp_ok q /\ mpval p = rsa_p w /\ mpval q = rsa_q w /\ mp_ok n /\ mp_len n = 2 * LB /\ mp_ok n0 /\ same_shape n n0 /\ mpval n0 = mpval p /\ mpval n = mpval p * mpval q /\
   mp_len p = mp_len q /\ 0 < 5 <= mp_len p /\ 0 < 4 <= mp_len q /\ 5 <= mp_len n /\ mpval p < 256 ^ 5 /\ mpval q < 256 ^ 4 /\ gcd_len_ok (mp_len p)) /\
  (mp_ok l /\ mp_ok l0 /\ same_shape l l0 /\ mpval l = Z.lcm (mpval p - 1) (mpval q - 1) /\ mp_ok (LE (zrepeat 0 9)) /\ 5 + 4 <= mp_len l /\ kind_of q <> KNE) /\
  (mp_ok e /\ mpval e = rsa_e w /\ mut_compat e l /\ scratch_ok l s /\ gcd_len_ok (LB * nlimbs l) /\ mpval l = o * 2 ^ 2 /\ Z.odd o = true /\ o <= B ^ (nlimbs l - 1) /\
   liftable (mpval e) (8 * mp_len l - 1) /\ liftable o (8 * mp_len l - 1)) /\
  (residue_buf n m /\ mpval m = mpval n - 2 /\ result_buf n r /\ exp_scratch n [6; 6]).
Proof.
  cbv zeta.
  assert (LI : forall x, forallb (fun k => let h := limb_at (c := mkcfg false false true true) (hensel x k) 0 * limb_at (c := mkcfg false false true true) (hensel x k) 1 / 2 ^ 32 in
    h <? 2 ^ 31 - 2) [0; 1; 2; 3; 4; 5; 6]%nat = true -> liftable (c := mkcfg false false true true) x 95).
  { intros x H k Hk. rewrite forallb_forall in H.
    assert (K : (k <= 6)%nat). { destruct (Nat.le_gt_cases k 6) as [|G]; auto. exfalso. assert (2 ^ 7 <= 2 ^ Z.of_nat k) by (apply Z.pow_le_mono_r; lia). lia. }
    specialize (H k). cbv zeta in H. rewrite Z.ltb_lt in H. intros i j Hj Hn. change (limbs_for_bits _) with 3 in Hn. assert (i = 1 /\ j = 1) as [-> ->] by lia.
    cbv zeta. change (debug _) with true. cbv iota. change B with (2 ^ 32). change (1 - 1) with 0. assert (I : In k [0; 1; 2; 3; 4; 5; 6]%nat) by (cbn; lia). specialize (H I).
    change (2 ^ 32 / 2) with (2 ^ 31). lia. }
  split; [|split; [|split]].
  - split; [okmp|]. split; [okmp|]. split; [vm_compute; reflexivity|]. split; [vm_compute; reflexivity|]. split; [okmp|]. split; [reflexivity|]. split; [okmp|]. split; [split; reflexivity|]. split; [vm_compute; reflexivity|]. split; [vm_compute; reflexivity|]. split; [reflexivity|].
    split; [split; vm_compute; congruence|]. split; [split; vm_compute; congruence|]. split; [vm_compute; congruence|]. split; [reflexivity|]. split; reflexivity.
  - split; [okmp|]. split; [okmp|]. split; [split; reflexivity|]. split; [vm_compute; reflexivity|]. split; [okmp|]. split; [vm_compute; congruence|discriminate].
  - split; [okmp|]. split; [vm_compute; reflexivity|]. split; [split; left; vm_compute; congruence|]. split; [split; [okmp|vm_compute; congruence]|]. split; [reflexivity|]. split; [vm_compute; reflexivity|]. split; [reflexivity|].
    split; [vm_compute; congruence|]. split; [apply LI; vm_compute; reflexivity|apply LI; vm_compute; reflexivity].
  - split; [split; [okmp|left; reflexivity]|]. split; [vm_compute; reflexivity|].
    split; [split; [split; [okmp|left; reflexivity]|left; split; [vm_compute; congruence|reflexivity]]|].
    split; [okmp|]. split; [vm_compute; congruence|]. left. split; [vm_compute; congruence|reflexivity].
Qed.
