(** Constant time (C43): the prime wheel sieve and the least common multiple. *)
From Coq Require Import ZArith List Bool Lia.
Require Import Verif.Spec Verif.Monad Verif.ModelLimb Verif.ModelBuf Verif.SpecBuf Verif.ModelSieve Verif.ModelLcm Verif.SpecEuclid Verif.SpecCt
  Verif.CtSieve Verif.CtLcm.
Import ListNotations.
Open Scope Z_scope.
Ltac okmp := split; [repeat constructor; vm_compute; congruence|vm_compute; reflexivity].
Ltac lguard := unfold lcm_guard; split; [okmp|]; split; [okmp|]; split; [okmp|]; split; [okmp|]; split; [reflexivity|]; cbv zeta;
  repeat split; vm_compute; try congruence; intros; congruence.

(** The search in a table of bytes behaves in the same way whatever byte is looked for. (Loads from the table itself
    are not part of the observation.) *)
Theorem C43_search : forall (c : cfg), debug c = false -> forall v val val', 0 < zlen v -> 2 * zlen v < 2 ^ UW ->
  (forall i, 0 <= i < zlen v -> 0 <= nth (Z.to_nat i) v 0 < 256) -> 0 <= val < 256 -> 0 <= val' < 256 ->
  agree (ct_find_first_ge_than v val) (ct_find_first_ge_than v val').
Proof. exact ct_search. Qed.
Print Assumptions C43_search.

(** Starting the sieve takes the same branches and accesses the same limbs whatever the lower bound is. *)
Theorem C43_sieve_start_partial : forall (c : cfg), debug c = false -> forall n n', same_shape n n' ->
  control (lvl1_start_geq_than n) = control (lvl1_start_geq_than n').
Proof. exact ct_sieve_start. Qed.
Print Assumptions C43_sieve_start_partial.

(** But a number derived from the lower bound is an operand of a hardware division. *)
Theorem C43_sieve_start_refuted : exists (c : cfg) n n', debug c = false /\ mp_ok n /\ mp_ok n' /\ same_shape n n' /\
  trace (lvl1_start_geq_than n) <> trace (lvl1_start_geq_than n').
Proof.
  exists (mkcfg false false true false), (NE [3]), (NE [4]). split; [reflexivity|]. split; [okmp|]. split; [okmp|].
  split; [split; reflexivity|]. vm_compute. congruence.
Qed.
Print Assumptions C43_sieve_start_refuted.

(** And the number of iterations made to find the next candidate depends on the bound. *)
Theorem C43_sieve_next_refuted : exists (c : cfg) n n', debug c = false /\ mp_ok n /\ mp_ok n' /\ same_shape n n' /\
  control (let! w := lvl1_start_geq_than n in lvl1_produce_next_delta w) <>
  control (let! w := lvl1_start_geq_than n' in lvl1_produce_next_delta w).
Proof.
  exists (mkcfg false false true false), (NE [23]), (NE [29]). split; [reflexivity|]. split; [okmp|]. split; [okmp|].
  split; [split; reflexivity|]. vm_compute. congruence.
Qed.
Print Assumptions C43_sieve_next_refuted.

(** The least common multiple behaves in the same way for operands whose greatest common divisors have the same number of
    bits and are divisible by the same powers of two: these determine the distances of shifts, and a shift's distance
    determines the limbs it accesses. *)
Theorem C43_lcm : forall (c : cfg), debug c = false -> forall res res' op0 op0' l0 op1 op1' l1 scr scr',
  same_shape res res' -> same_shape op0 op0' -> same_shape op1 op1' -> same_shape scr scr' ->
  lcm_guard res op0 l0 op1 l1 scr -> lcm_guard res' op0' l0 op1' l1 scr' ->
  same_twos (Z.gcd (mpval op0) (mpval op1)) (Z.gcd (mpval op0') (mpval op1')) ->
  same_bit_len (Z.gcd (mpval op0) (mpval op1)) (Z.gcd (mpval op0') (mpval op1')) ->
  trace (ct_lcm_mp_mp res op0 l0 op1 l1 scr) = trace (ct_lcm_mp_mp res' op0' l0 op1' l1 scr').
Proof. exact ct_lcm. Qed.
Print Assumptions C43_lcm.

(** For operands in native encoding, all but the indices of the limbs accessed are independent of their values, however
    large their greatest common divisor is. *)
Theorem C43_lcm_operations : forall (c : cfg), debug c = false -> forall res res' op0 op0' l0 op1 op1' l1 scr scr',
  same_shape res res' -> zlen op0 = zlen op0' -> zlen op1 = zlen op1' -> same_shape scr scr' ->
  lcm_guard res (NE op0) l0 (NE op1) l1 scr -> lcm_guard res' (NE op0') l0 (NE op1') l1 scr' ->
  operations (ct_lcm_mp_mp res (NE op0) l0 (NE op1) l1 scr) = operations (ct_lcm_mp_mp res' (NE op0') l0 (NE op1') l1 scr').
Proof. exact ct_lcm_operations. Qed.
Print Assumptions C43_lcm_operations.

(** With operands in a byte encoding they are not: a shift takes other branches for other distances. *)
Theorem C43_lcm_bytes_refuted : exists (c : cfg) res op0 op0' l0 op1 op1' l1 scr, debug c = false /\
  same_shape op0 op0' /\ same_shape op1 op1' /\ lcm_guard res op0 l0 op1 l1 scr /\ lcm_guard res op0' l0 op1' l1 scr /\
  operations (ct_lcm_mp_mp res op0 l0 op1 l1 scr) <> operations (ct_lcm_mp_mp res op0' l0 op1' l1 scr).
Proof.
  exists (mkcfg false false true false), (BE (zrepeat 0 14)), (BE [0; 0; 0; 0; 1]), (BE [1; 0; 0; 0; 0]), 5, (BE [0; 0; 0; 0; 1]), (BE [1; 0; 0; 0; 0]), 5, (BE (zrepeat 0 10)).
  split; [reflexivity|]. split; [split; reflexivity|]. split; [split; reflexivity|].
  split; [lguard|]. split; [lguard|]. vm_compute. congruence.
Qed.
Print Assumptions C43_lcm_bytes_refuted.

(** The hypotheses can be met. *)
Example ex_search_ct : let c := mkcfg true false true false in
  0 < zlen OFFSETS /\ (forall i, 0 <= i < zlen OFFSETS -> 0 <= nth (Z.to_nat i) OFFSETS 0 < 256) /\
  returns (ct_find_first_ge_than OFFSETS 0) 0 /\ returns (ct_find_first_ge_than OFFSETS 24) 7 /\ length (trace (ct_find_first_ge_than OFFSETS 24)) = 4%nat.
Proof.
  cbv zeta. split; [reflexivity|]. split; [|repeat split; vm_compute; reflexivity].
  intros i Hi. change (zlen OFFSETS) with 8 in Hi. assert (X : i = 0 \/ i = 1 \/ i = 2 \/ i = 3 \/ i = 4 \/ i = 5 \/ i = 6 \/ i = 7) by lia.
  destruct X as [X|[X|[X|[X|[X|[X|[X|X]]]]]]]; rewrite X; vm_compute; split; congruence.
Qed.
Example ex_sieve_start_ct : let c := mkcfg true false true false in
  same_shape (BE [1; 2; 3; 4; 5; 6; 7; 8; 9]) (BE [0; 0; 0; 0; 0; 0; 0; 0; 0]) /\
  (exists w, returns (lvl1_start_geq_than (BE [1; 2; 3; 4; 5; 6; 7; 8; 9])) w) /\ (exists w, returns (lvl1_start_geq_than (BE [0; 0; 0; 0; 0; 0; 0; 0; 0])) w).
Proof. cbv zeta. split; [split; reflexivity|]. split; eexists; vm_compute; reflexivity. Qed.
Example ex_lcm_ct : let c := mkcfg false false true false in
  lcm_guard (NE [0; 0; 0]) (NE [12]) 4 (NE [18]) 4 (NE [0; 0]) /\ lcm_guard (NE [1; 2; 3]) (NE [4294967295]) 4 (NE [0]) 4 (NE [3; 4]) /\
  (exists o, returns (ct_lcm_mp_mp (NE [0; 0; 0]) (NE [12]) 4 (NE [18]) 4 (NE [0; 0])) (Ok tt, NE [36; 0; 0], NE [3 * 2 ^ 30], o, NE [0; 0])) /\
  operations (ct_lcm_mp_mp (NE [0; 0; 0]) (NE [12]) 4 (NE [18]) 4 (NE [0; 0])) = operations (ct_lcm_mp_mp (NE [1; 2; 3]) (NE [4294967295]) 4 (NE [0]) 4 (NE [3; 4])).
Proof. cbv zeta. split; [lguard|]. split; [lguard|]. split; [eexists|]; vm_compute; reflexivity. Qed.
