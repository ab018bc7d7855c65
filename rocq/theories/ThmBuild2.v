(** C44 and C45, continued: division by a limb, inversion and the least common multiple. The vocabulary for comparing builds
    and encodings is in SpecBuild.v; the guards are those of the single operations' theorems (C28, C34 to C37). *)
From Coq Require Import ZArith List Bool Lia.
Require Import Verif.Spec Verif.Monad Verif.ModelLimb Verif.ModelBuf Verif.SpecBuf Verif.ModelDiv Verif.SpecDiv Verif.SpecMont
  Verif.ModelEuclid Verif.SpecEuclid Verif.ModelLcm Verif.ModelInv Verif.SpecMul Verif.SpecInv Verif.SpecBuild Verif.BuildProofs2.
Import ListNotations.
Open Scope Z_scope.

(** Division by a limb, each build using its own divisor for the same integer. *)
Theorem C44_div_limb : forall (c1 c2 : cfg), same_target c1 c2 -> forall d1 d2 v n, @limb_divisor_for c1 d1 v -> @limb_divisor_for c2 d2 v -> byte_len v n ->
  (forall u q, @mp_ok c1 u -> @q_ok c1 q -> 1 <= @mp_len c1 u ->
    match q with Some b => @mp_len c1 u + 1 <= @mp_len c1 b + n /\ @nlimbs c1 u <= @nlimbs c1 b | None => True end ->
    same_result (@ct_div_mp_l c1 u d1 q) (@ct_div_mp_l c2 u d2 q)) /\
  (forall u, @mp_ok c1 u -> same_result (@ct_mod_mp_l c1 u d1) (@ct_mod_mp_l c2 u d2)).
Proof. exact b44_div_limb. Qed.
Print Assumptions C44_div_limb.

(** Inversion modulo powers of two and modulo any number; of the latter all outcomes, the errors included. Of the former,
    nothing is claimed about the final contents of the scratch space. *)
Theorem C44_inv : forall (c1 c2 : cfg), same_target c1 c2 ->
  (forall r x e mx s, @mp_ok c1 r -> @mp_ok c1 x -> @mp_ok c1 (NE s) -> 0 < @mp_len c1 x ->
    0 <= e <= mx -> 0 < mx -> mx <= 8 * @mp_len c1 r -> mx <= 8 * (@LB c1 * zlen s) -> Z.odd (@mpval c1 x) = true ->
    (forall k v, 2 ^ Z.of_nat k < mx -> is_inverse (2 ^ (2 ^ Z.of_nat k)) (@mpval c1 x) v -> @square_ok c1 (@limbs_for_bits c1 mx) v /\ @square_ok c2 (@limbs_for_bits c2 mx) v) ->
    both (@ct_inv_mod_pow2_mp c1 r x e mx s) (@ct_inv_mod_pow2_mp c2 r x e mx s) (fun y z => fst y = fst z)) /\
  (forall op0 n s0 s1 s2 s3 m e, @mp_ok c1 op0 -> @mp_ok c1 n -> @mut_compat c1 op0 n ->
    @scratch_ok c1 n s0 -> @scratch_ok c1 n s1 -> @scratch_ok c1 n s2 -> @scratch_ok c1 n s3 -> @gcd_len_ok c1 (@LB c1 * @nlimbs c1 n) ->
    @mpval c1 n = m * 2 ^ e -> Z.odd m = true -> 0 <= e ->
    m <= @B c1 ^ (@nlimbs c1 n - 1) -> @liftable c1 (@mpval c1 op0) (8 * @mp_len c1 n - 1) -> @liftable c1 m (8 * @mp_len c1 n - 1) ->
    @liftable c2 (@mpval c1 op0) (8 * @mp_len c1 n - 1) -> @liftable c2 m (8 * @mp_len c1 n - 1) ->
    same_result (@ct_inv_mod_mp_mp c1 op0 n (s0, s1, s2, s3)) (@ct_inv_mod_mp_mp c2 op0 n (s0, s1, s2, s3))).
Proof. exact b44_inv. Qed.
Print Assumptions C44_inv.

(** Division by a limb: the same remainder, and quotients denoting the same integer. *)
Theorem C45_div_limb : forall (c1 c2 : cfg) d1 d2 v n, @limb_divisor_for c1 d1 v -> @limb_divisor_for c2 d2 v -> byte_len v n ->
  (forall u1 q1 u2 q2, reencoded c1 u1 c2 u2 -> reencoded_opt c1 q1 c2 q2 -> 1 <= @mp_len c1 u1 ->
    match q1 with Some b => @mp_len c1 u1 + 1 <= @mp_len c1 b + n | None => True end ->
    match q1, q2 with Some b1, Some b2 => @nlimbs c1 u1 <= @nlimbs c1 b1 /\ @nlimbs c2 u2 <= @nlimbs c2 b2 | _, _ => True end ->
    both (@ct_div_mp_l c1 u1 d1 q1) (@ct_div_mp_l c2 u2 d2 q2) (fun '(r, x) '(s, y) => r = Ok (@mpval c1 u1 mod v) /\ r = s /\ reencoded_opt c1 x c2 y)) /\
  (forall u1 u2, same_int c1 u1 c2 u2 -> same_result (@ct_mod_mp_l c1 u1 d1) (@ct_mod_mp_l c2 u2 d2)).
Proof. exact b45_div_limb. Qed.
Print Assumptions C45_div_limb.

(** Inversion modulo odd numbers, both calls meeting the guard of C34. *)
Theorem C45_inv_odd : forall (c1 c2 : cfg) r1 x1 n1 s1 t1 r2 x2 n2 s2 t2, @mp_ok c1 r1 -> @mp_ok c2 r2 -> @mp_len c1 r1 = @mp_len c2 r2 ->
  same_int c1 x1 c2 x2 -> reencoded c1 n1 c2 n2 -> Z.odd (@mpval c1 n1) = true -> 1 < @mpval c1 n1 -> Z.gcd (@mpval c1 n1) (@mpval c1 x1) = 1 ->
  @len_compat c1 n1 (@mp_len c1 r1) -> @mut_compat c1 x1 n1 -> @scratch_ok c1 n1 s1 -> @scratch_ok c1 n1 t1 ->
  @gcd_len_ok c1 (@LB c1 * @nlimbs c1 n1) -> @mpval c1 n1 <= @B c1 ^ (@nlimbs c1 n1 - 1) ->
  @len_compat c2 n2 (@mp_len c2 r2) -> @mut_compat c2 x2 n2 -> @scratch_ok c2 n2 s2 -> @scratch_ok c2 n2 t2 ->
  @gcd_len_ok c2 (@LB c2 * @nlimbs c2 n2) -> @mpval c2 n2 <= @B c2 ^ (@nlimbs c2 n2 - 1) ->
  both (@ct_inv_mod_odd_mp_mp c1 r1 x1 n1 s1 t1) (@ct_inv_mod_odd_mp_mp c2 r2 x2 n2 s2 t2)
    (fun '(e, y, _, _, _) '(f, z, _, _, _) => e = Ok tt /\ f = Ok tt /\ reencoded c1 y c2 z).
Proof. exact b45_inv_odd. Qed.
Print Assumptions C45_inv_odd.

(** Inversion modulo any number, both calls meeting the guard of C36. *)
Theorem C45_inv_any : forall (c1 c2 : cfg) x1 n1 a1 b1 d1 e1 x2 n2 a2 b2 d2 e2 m e,
  reencoded c1 x1 c2 x2 -> reencoded c1 n1 c2 n2 -> @mpval c1 n1 = m * 2 ^ e -> Z.odd m = true -> 0 <= e ->
  1 < @mpval c1 n1 -> Z.gcd (@mpval c1 n1) (@mpval c1 x1) = 1 ->
  @mut_compat c1 x1 n1 -> @scratch_ok c1 n1 a1 -> @scratch_ok c1 n1 b1 -> @scratch_ok c1 n1 d1 -> @scratch_ok c1 n1 e1 -> @gcd_len_ok c1 (@LB c1 * @nlimbs c1 n1) ->
  m <= @B c1 ^ (@nlimbs c1 n1 - 1) -> @liftable c1 (@mpval c1 x1) (8 * @mp_len c1 n1 - 1) -> @liftable c1 m (8 * @mp_len c1 n1 - 1) ->
  @mut_compat c2 x2 n2 -> @scratch_ok c2 n2 a2 -> @scratch_ok c2 n2 b2 -> @scratch_ok c2 n2 d2 -> @scratch_ok c2 n2 e2 -> @gcd_len_ok c2 (@LB c2 * @nlimbs c2 n2) ->
  m <= @B c2 ^ (@nlimbs c2 n2 - 1) -> @liftable c2 (@mpval c2 x2) (8 * @mp_len c2 n2 - 1) -> @liftable c2 m (8 * @mp_len c2 n2 - 1) ->
  both (@ct_inv_mod_mp_mp c1 x1 n1 (a1, b1, d1, e1)) (@ct_inv_mod_mp_mp c2 x2 n2 (a2, b2, d2, e2))
    (fun '(f, y, _) '(g, z, _) => f = Ok tt /\ g = Ok tt /\ reencoded c1 y c2 z).
Proof. exact b45_inv_any. Qed.
Print Assumptions C45_inv_any.

(** The least common multiple, both calls meeting the guard of C37. *)
Theorem C45_lcm : forall (c1 c2 : cfg) res1 a1 b1 scr1 res2 a2 b2 scr2 l0 l1, @mp_ok c1 res1 -> @mp_ok c2 res2 -> @mp_len c1 res1 = @mp_len c2 res2 ->
  reencoded c1 a1 c2 a2 -> reencoded c1 b1 c2 b2 -> @mp_len c1 a1 = @mp_len c1 b1 -> 0 < l0 <= @mp_len c1 a1 -> 0 < l1 <= @mp_len c1 b1 ->
  @mpval c1 a1 < 256 ^ l0 -> @mpval c1 b1 < 256 ^ l1 -> l0 + l1 <= @mp_len c1 res1 ->
  @mp_ok c1 scr1 -> kind_of scr1 = kind_of b1 -> @gcd_len_ok c1 (@mp_len c1 a1) -> l0 + l1 <= @mp_len c1 scr1 ->
  (kind_of b1 = KNE -> (l0 + l1) mod @LB c1 = 0 /\ l0 + l1 + (@ct_mp_limbs_align_len c1 (Z.max l0 l1) - Z.max l0 l1) <= @mp_len c1 res1) ->
  @mp_ok c2 scr2 -> kind_of scr2 = kind_of b2 -> @gcd_len_ok c2 (@mp_len c2 a2) -> l0 + l1 <= @mp_len c2 scr2 ->
  (kind_of b2 = KNE -> (l0 + l1) mod @LB c2 = 0 /\ l0 + l1 + (@ct_mp_limbs_align_len c2 (Z.max l0 l1) - Z.max l0 l1) <= @mp_len c2 res2) ->
  both (@ct_lcm_mp_mp c1 res1 a1 l0 b1 l1 scr1) (@ct_lcm_mp_mp c2 res2 a2 l0 b2 l1 scr2)
    (fun '(e, y, _, _, _) '(f, z, _, _, _) => e = Ok tt /\ f = Ok tt /\ reencoded c1 y c2 z).
Proof. exact b45_lcm. Qed.
Print Assumptions C45_lcm.

(** ** Concrete cases meeting the hypotheses *)
Ltac okmp := split; [repeat constructor; vm_compute; congruence|vm_compute; reflexivity].
Ltac re := split; [split; [okmp|split; [okmp|vm_compute; reflexivity]]|vm_compute; reflexivity].
Ltac sc := split; [okmp|vm_compute; congruence].
Definition c_dbg : cfg := mkcfg true false true true.
Definition c_rel : cfg := mkcfg true true true false.
Definition c_32 : cfg := mkcfg false false false true.

(** The inverse of 2 modulo 15, in buffers of nine bytes: two limbs of eight bytes, or three of four. *)
Example ex_inv_encodings : both (@ct_inv_mod_odd_mp_mp c_dbg (BE (zrepeat 7 9)) (BE [0; 0; 0; 0; 0; 0; 0; 0; 2]) (BE [0; 0; 0; 0; 0; 0; 0; 0; 15]) [1; 2] [3; 4])
  (@ct_inv_mod_odd_mp_mp c_32 (LE (zrepeat 1 9)) (LE [2; 0; 0; 0; 0; 0; 0; 0; 0]) (LE [15; 0; 0; 0; 0; 0; 0; 0; 0]) [1; 2; 3] [4; 5; 6])
  (fun '(e, y, _, _, _) '(f, z, _, _, _) => e = Ok tt /\ f = Ok tt /\ reencoded c_dbg y c_32 z).
Proof.
  apply (C45_inv_odd c_dbg c_32 (BE (zrepeat 7 9)) (BE [0; 0; 0; 0; 0; 0; 0; 0; 2]) (BE [0; 0; 0; 0; 0; 0; 0; 0; 15]) [1; 2] [3; 4]
    (LE (zrepeat 1 9)) (LE [2; 0; 0; 0; 0; 0; 0; 0; 0]) (LE [15; 0; 0; 0; 0; 0; 0; 0; 0]) [1; 2; 3] [4; 5; 6]);
  [split; [vm_compute; repeat constructor; congruence|vm_compute; reflexivity]|split; [vm_compute; repeat constructor; congruence|vm_compute; reflexivity]|vm_compute; reflexivity|split; [okmp|split; [okmp|vm_compute; reflexivity]]|re|vm_compute; reflexivity|vm_compute; reflexivity|vm_compute; reflexivity
  |left; vm_compute; congruence|split; left; vm_compute; congruence|sc|sc|vm_compute; reflexivity|vm_compute; congruence
  |left; vm_compute; congruence|split; left; vm_compute; congruence|sc|sc|vm_compute; reflexivity|vm_compute; congruence].
Qed.
Example ex_lcm_encodings : both (@ct_lcm_mp_mp c_dbg (BE [0; 0; 9]) (LE [4; 0]) 1 (BE [0; 6]) 1 (BE [0; 0])) (@ct_lcm_mp_mp c_32 (LE [7; 7; 7]) (BE [0; 4]) 1 (LE [6; 0]) 1 (LE [0; 0]))
  (fun '(e, y, _, _, _) '(f, z, _, _, _) => e = Ok tt /\ f = Ok tt /\ reencoded c_dbg y c_32 z).
Proof.
  apply (C45_lcm c_dbg c_32 (BE [0; 0; 9]) (LE [4; 0]) (BE [0; 6]) (BE [0; 0]) (LE [7; 7; 7]) (BE [0; 4]) (LE [6; 0]) (LE [0; 0]) 1 1);
  [okmp|okmp|reflexivity|re|re|reflexivity|split; vm_compute; congruence|split; vm_compute; congruence|vm_compute; reflexivity|vm_compute; reflexivity|vm_compute; congruence
  |okmp|reflexivity|vm_compute; reflexivity|vm_compute; congruence|discriminate|okmp|reflexivity|vm_compute; reflexivity|vm_compute; congruence|discriminate].
Qed.
(** 0x010203 divided by 10. *)
Example ex_div_limb_builds : exists d1 d2 d3, @limb_divisor_for c_dbg d1 10 /\ @limb_divisor_for c_rel d2 10 /\ @limb_divisor_for c_32 d3 10 /\ byte_len 10 1 /\
  returns (@ct_div_mp_l c_dbg (BE [1; 2; 3]) d1 (Some (LE [9; 9; 9]))) (Ok 1, Some (LE [0xcd; 0x19; 0])) /\
  returns (@ct_div_mp_l c_rel (BE [1; 2; 3]) d2 (Some (LE [9; 9; 9]))) (Ok 1, Some (LE [0xcd; 0x19; 0])) /\
  returns (@ct_div_mp_l c_32 (BE [1; 2; 3]) d3 (Some (BE [9; 9; 9]))) (Ok 1, Some (BE [0; 0x19; 0xcd])).
Proof.
  eexists. eexists. eexists.
  split; [split; [split; vm_compute; congruence|vm_compute; reflexivity]|]. split; [split; [split; vm_compute; congruence|vm_compute; reflexivity]|].
  split; [split; [split; vm_compute; congruence|vm_compute; reflexivity]|]. split; [split; [|split]; vm_compute; congruence|].
  split; [vm_compute; reflexivity|]. split; vm_compute; reflexivity.
Qed.
