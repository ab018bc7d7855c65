(** C44 and C45, continued: odd moduli for which carries may get lost (C30) or residues of an inversion may not fit (C34). The
    vocabulary for comparing builds is in SpecBuild.v. *)
From Coq Require Import ZArith List Lia.
Require Import Verif.Spec Verif.Monad Verif.ModelLimb Verif.ThmLimb Verif.ModelBuf Verif.SpecBuf Verif.ModelMont Verif.SpecMont Verif.ModelEuclid Verif.SpecEuclid
  Verif.ModelPrime Verif.SpecBuild Verif.BuildProofs3.
Import ListNotations.
Open Scope Z_scope.

(** Montgomery multiplication, exponentiation and the Miller-Rabin test: right or wrong, all builds for a target agree. *)
Theorem C44_montgomery_any : forall (c1 c2 : cfg), same_target c1 c2 ->
  (forall r a b n g, @mp_ok c1 r -> @mp_ok c1 a -> @mp_ok c1 b -> @mp_ok c1 n -> Z.odd (@mpval c1 n) = true -> @neg_inv c1 n g -> @len_compat c1 n (@mp_len c1 r) ->
    @len_compat c1 a (@mp_len c1 n) -> @len_compat c1 b (@mp_len c1 n) -> @mpval c1 a < @mpval c1 n -> @mpval c1 b < @mpval c1 n -> 0 < @mp_len c1 b -> @mg_room c1 r n ->
    same_result (@ct_montgomery_mul_mod_mp_mp c1 r a b n g) (@ct_montgomery_mul_mod_mp_mp c2 r a b n g)) /\
  (forall r a n g radix e nbits s, @mp_ok c1 r -> @mp_ok c1 a -> @mp_ok c1 n -> @mp_ok c1 radix -> @mp_ok c1 e -> @mp_ok c1 (NE s) -> Z.odd (@mpval c1 n) = true -> @neg_inv c1 n g ->
    @len_compat c1 n (@mp_len c1 r) -> @nlimbs c1 n <= zlen s -> @len_compat c1 a (@mp_len c1 n) -> 0 < @mp_len c1 a -> @mpval c1 a < @mpval c1 n ->
    @len_compat c1 radix (@mp_len c1 n) -> @mpval c1 radix = @mg_radix c1 n mod @mpval c1 n -> @mg_room c1 r n -> @mg_room c1 (NE s) n -> 0 <= nbits ->
    both (@ct_montgomery_exp_mod_odd_mp_mp c1 r a n g radix e nbits s) (@ct_montgomery_exp_mod_odd_mp_mp c2 r a n g radix e nbits s) (fun x y => fst x = fst y)) /\
  (forall r a n e nbits s, @mp_ok c1 r -> @mp_ok c1 a -> @mp_ok c1 n -> @mp_ok c1 e -> @mp_ok c1 (NE s) -> Z.odd (@mpval c1 n) = true -> 2 <= @nlimbs c1 n ->
    @len_compat c1 n (@mp_len c1 r) -> @len_compat c1 a (@mp_len c1 n) -> @mpval c1 a < @mpval c1 n -> @len_compat c1 n (@mp_len c1 a) -> @nlimbs c1 n <= zlen s ->
    16 * (@mp_len c1 n + @LB c1) + 8 < 2 ^ @UW c1 -> @mg_room c1 r n -> @mg_room c1 (NE s) n -> 0 <= nbits ->
    both (@ct_exp_mod_odd_mp_mp c1 r a n e nbits s) (@ct_exp_mod_odd_mp_mp c2 r a n e nbits s) (fun x y => fst (fst x) = fst (fst y))) /\
  (forall base p radix s0 s1, @mp_ok c1 base -> @mp_ok c1 p -> @mp_ok c1 radix -> @mp_ok c1 (NE s0) -> @mp_ok c1 (NE s1) ->
    Z.odd (@mpval c1 p) = true -> 2 < @mpval c1 p -> @mpval c1 base < @mpval c1 p -> @len_compat c1 base (@mp_len c1 p) -> 0 < @mp_len c1 base -> @len_compat c1 radix (@mp_len c1 p) -> @nlimbs c1 radix = @nlimbs c1 p ->
    @nlimbs c1 p <= zlen s0 -> @nlimbs c1 p <= zlen s1 -> @mpval c1 radix = @mg_radix c1 p mod @mpval c1 p -> @mg_room c1 (NE s0) p -> @mg_room c1 (NE s1) p ->
    same_result (@ct_prime_test_miller_rabin_mp c1 base p radix s0 s1) (@ct_prime_test_miller_rabin_mp c2 base p radix s0 s1)).
Proof. exact b44_montgomery_any. Qed.
Print Assumptions C44_montgomery_any.

(** Inversion modulo any odd number: whatever one build returns, right or wrong, the other one returns, too, unless only the latter has
    debug assertions. *)
Theorem C44_inv_odd_any : forall (c1 c2 : cfg) res op0 n s0 s1, same_target c1 c2 -> (debug c2 = true -> debug c1 = true) ->
  @mp_ok c1 res -> @mp_ok c1 op0 -> @mp_ok c1 n -> Z.odd (@mpval c1 n) = true -> 1 < @mpval c1 n ->
  @len_compat c1 n (@mp_len c1 res) -> @mut_compat c1 op0 n -> @mp_ok c1 (NE s0) -> @mp_ok c1 (NE s1) -> @nlimbs c1 n <= zlen s0 -> @nlimbs c1 n <= zlen s1 ->
  @gcd_len_ok c1 (@LB c1 * @nlimbs c1 n) -> Z.gcd (@mpval c1 n) (@mpval c1 op0) = 1 ->
  forall x, returns (@ct_inv_mod_odd_mp_mp c1 res op0 n s0 s1) x ->
  exists y, returns (@ct_inv_mod_odd_mp_mp c2 res op0 n s0 s1) y /\ fst (fst x) = fst (fst y).
Proof. exact b44_inv_odd_any. Qed.
Print Assumptions C44_inv_odd_any.

(** Exponentiation: with limbs of the same width, the encodings, the width of usize and the build mode have no influence for any odd
    modulus of at least two limbs. *)
Theorem C45_exp_any : forall (c1 c2 : cfg) r1 a1 n1 e1 s1 r2 a2 n2 e2 s2 nbits, limb64 c1 = limb64 c2 ->
  @mp_ok c1 r1 -> @mp_ok c1 (NE s1) -> 2 <= @nlimbs c1 n1 ->
  @len_compat c1 n1 (@mp_len c1 r1) -> @len_compat c1 a1 (@mp_len c1 n1) -> @len_compat c1 n1 (@mp_len c1 a1) -> @nlimbs c1 n1 <= zlen s1 ->
  16 * (@mp_len c1 n1 + @LB c1) + 8 < 2 ^ @UW c1 -> @mg_room c1 r1 n1 -> @mg_room c1 (NE s1) n1 ->
  @mp_ok c2 r2 -> @mp_ok c2 (NE s2) ->
  @len_compat c2 n2 (@mp_len c2 r2) -> @len_compat c2 a2 (@mp_len c2 n2) -> @len_compat c2 n2 (@mp_len c2 a2) -> @nlimbs c2 n2 <= zlen s2 ->
  16 * (@mp_len c2 n2 + @LB c2) + 8 < 2 ^ @UW c2 -> @mg_room c2 r2 n2 -> @mg_room c2 (NE s2) n2 ->
  0 <= nbits -> Z.odd (@mpval c1 n1) = true -> @mpval c1 a1 < @mpval c1 n1 ->
  @mp_len c1 r1 = @mp_len c2 r2 -> same_int c1 a1 c2 a2 -> reencoded c1 n1 c2 n2 -> reencoded c1 e1 c2 e2 ->
  both (@ct_exp_mod_odd_mp_mp c1 r1 a1 n1 e1 nbits s1) (@ct_exp_mod_odd_mp_mp c2 r2 a2 n2 e2 nbits s2)
    (fun '(x, x', _, _) '(y, y', _, _) => x = Ok tt /\ y = Ok tt /\ reencoded c1 x' c2 y').
Proof. exact b45_exp_any. Qed.
Print Assumptions C45_exp_any.

(** The Miller-Rabin test. *)
Theorem C45_miller_rabin_any : forall (c1 c2 : cfg) base1 p1 radix1 s1 t1 base2 p2 radix2 s2 t2, limb64 c1 = limb64 c2 ->
  @mp_ok c1 (NE s1) -> @mp_ok c1 (NE t1) ->
  @len_compat c1 base1 (@mp_len c1 p1) -> 0 < @mp_len c1 base1 -> @len_compat c1 radix1 (@mp_len c1 p1) -> @nlimbs c1 radix1 = @nlimbs c1 p1 ->
  @nlimbs c1 p1 <= zlen s1 -> @nlimbs c1 p1 <= zlen t1 -> @mg_room c1 (NE s1) p1 -> @mg_room c1 (NE t1) p1 ->
  @mp_ok c2 (NE s2) -> @mp_ok c2 (NE t2) ->
  @len_compat c2 base2 (@mp_len c2 p2) -> 0 < @mp_len c2 base2 -> @len_compat c2 radix2 (@mp_len c2 p2) -> @nlimbs c2 radix2 = @nlimbs c2 p2 ->
  @nlimbs c2 p2 <= zlen s2 -> @nlimbs c2 p2 <= zlen t2 -> @mg_room c2 (NE s2) p2 -> @mg_room c2 (NE t2) p2 ->
  same_int c1 base1 c2 base2 -> same_int c1 radix1 c2 radix2 -> reencoded c1 p1 c2 p2 ->
  Z.odd (@mpval c1 p1) = true -> 2 < @mpval c1 p1 -> @mpval c1 base1 < @mpval c1 p1 -> @mpval c1 radix1 = @mg_radix c1 p1 mod @mpval c1 p1 ->
  both (@ct_prime_test_miller_rabin_mp c1 base1 p1 radix1 s1 t1) (@ct_prime_test_miller_rabin_mp c2 base2 p2 radix2 s2 t2) (fun x y => exists b, x = Ok (@choice c1 b) /\ y = Ok (@choice c2 b)).
Proof. exact b45_mr_any. Qed.
Print Assumptions C45_miller_rabin_any.

(** The width of the limbs has: modulo 2^128 - 2^64 - 1, the square of -1 is found to be 1 with limbs of 64 bits but not with
    limbs of 32 bits. *)
Theorem C45_exp_limb_width_refuted : forall (c1 c2 : cfg) r1 a1 n1 e1 s1 r2 a2 n2 e2 s2 nbits, limb64 c1 = false -> limb64 c2 = true ->
  reencoded c1 r1 c2 r2 -> reencoded c1 a1 c2 a2 -> reencoded c1 n1 c2 n2 -> reencoded c1 e1 c2 e2 -> @mp_ok c1 (NE s1) -> @mp_ok c2 (NE s2) ->
  @mp_len c1 n1 = 16 -> @mpval c1 n1 = 2 ^ 128 - 2 ^ 64 - 1 -> @mp_len c1 r1 = 16 -> @mp_len c1 a1 = 16 -> @mpval c1 a1 = @mpval c1 n1 - 1 -> @mpval c1 e1 = 2 -> 2 <= nbits ->
  4 <= zlen s1 -> 2 <= zlen s2 ->
  both (@ct_exp_mod_odd_mp_mp c1 r1 a1 n1 e1 nbits s1) (@ct_exp_mod_odd_mp_mp c2 r2 a2 n2 e2 nbits s2)
    (fun '(x, x', _, _) '(y, y', _, _) => x = Ok tt /\ y = Ok tt /\ @mpval c1 x' <> 1 /\ @mpval c2 y' = 1).
Proof. exact b45_width. Qed.
Print Assumptions C45_exp_limb_width_refuted.

(** The hypotheses are met. *)
Ltac okmp := split; [repeat constructor; vm_compute; congruence|vm_compute; reflexivity].
Example ex_width : let c1 := mkcfg false false true true in let c2 := mkcfg true true true false in
  let n := BE [255; 255; 255; 255; 255; 255; 255; 254; 255; 255; 255; 255; 255; 255; 255; 255] in
  let a := BE [255; 255; 255; 255; 255; 255; 255; 254; 255; 255; 255; 255; 255; 255; 255; 254] in
  reencoded c1 n c2 n /\ reencoded c1 a c2 a /\ reencoded c1 (LE [2]) c2 (BE [2]) /\ @mp_ok c1 (NE [0; 0; 0; 0]) /\ @mp_ok c2 (NE [0; 0]) /\
  @mp_len c1 n = 16 /\ @mpval c1 n = 2 ^ 128 - 2 ^ 64 - 1 /\ @mpval c1 a = @mpval c1 n - 1 /\ @mpval c1 (LE [2]) = 2.
Proof.
  cbv zeta. repeat (split; [first [okmp | split; [split; [okmp|split; [okmp|vm_compute; reflexivity]]|vm_compute; reflexivity] | vm_compute; reflexivity]|]). vm_compute. reflexivity.
Qed.

(** 2^64 - 59 with limbs of 32 bits loses carries; different builds, encodings and widths of usize. *)
Example ex_any : let c1 := mkcfg false false true true in let c2 := mkcfg false true false false in
  let n1 := NE [2 ^ 32 - 59; 2 ^ 32 - 1] in let n2 := BE [255; 255; 255; 255; 255; 255; 255; 197] in
  let a1 := LE [196; 255; 255; 255; 255; 255; 255; 255] in let a2 := NE [2 ^ 32 - 60; 2 ^ 32 - 1] in
  limb64 c1 = limb64 c2 /\ reencoded c1 n1 c2 n2 /\ reencoded c1 a1 c2 a2 /\ reencoded c1 (LE [2]) c2 (BE [2]) /\ @mp_ok c1 (NE [0; 0]) /\ @mp_ok c2 (NE [0; 0]) /\
  2 <= @nlimbs c1 n1 /\ Z.odd (@mpval c1 n1) = true /\ @mpval c1 a1 < @mpval c1 n1 /\ @mg_room c1 (NE [0; 0]) n1 /\ @mg_room c2 (NE [0; 0]) n2 /\ ~ @mg_carry_ok c1 n1.
Proof.
  cbv zeta. split; [reflexivity|].
  repeat (split; [first [okmp | split; [split; [okmp|split; [okmp|vm_compute; reflexivity]]|vm_compute; reflexivity]]|]).
  split; [vm_compute; congruence|]. split; [reflexivity|]. split; [reflexivity|]. split; [left; split; [vm_compute; congruence|reflexivity]|].
  split; [left; split; [vm_compute; congruence|reflexivity]|]. intros X. vm_compute in X. congruence.
Qed.
