(** Model of cmp_impl.rs: multiprecision integer comparison. *)
From Coq Require Import ZArith List Bool.
Require Import Verif.Monad Verif.ModelLimb Verif.ModelBuf.
Import ListNotations.
Open Scope Z_scope.

Section Model.
Context {c : cfg}.

(** ct_eq_mp_mp, cmp_impl.rs:20-43 *)
Definition ct_eq_mp_mp (op0 op1 : mp) : M Z :=
  let op0_nlimbs := nlimbs op0 in
  let op1_nlimbs := nlimbs op1 in
  let common_nlimbs := Z.min op0_nlimbs op1_nlimbs in
  let! is_neq := zfor 0 common_nlimbs (fun i is_neq =>
    let! op0_val := load_l op0 i in
    let! op1_val := load_l op1 i in
    ret (Z.lor is_neq (Z.lxor op0_val op1_val))) 0 in
  let! is_neq := zfor common_nlimbs op0_nlimbs (fun i is_neq =>
    let! op0_val := load_l op0 i in
    ret (Z.lor is_neq op0_val)) is_neq in
  let! is_neq := zfor common_nlimbs op1_nlimbs (fun i is_neq =>
    let! op1_val := load_l op1 i in
    ret (Z.lor is_neq op1_val)) is_neq in
  let! z := ct_is_zero_l is_neq in
  lc_new z.

(** ct_neq_mp_mp, cmp_impl.rs:170-172 *)
Definition ct_neq_mp_mp (op0 op1 : mp) : M Z :=
  let! e := ct_eq_mp_mp op0 op1 in ret (lc_not e).

(** CtLeqMpMpKernel, cmp_impl.rs:174-195; the state is [tail_is_leq]. *)
Definition leq_kernel_new : Z := 1.
(** CtLeqMpMpKernel::update, cmp_impl.rs:183-190 *)
Definition leq_kernel_update (tail_is_leq v0_val v1_val : Z) : M Z :=
  let! '(is_lt, is_eq) := ct_lt_or_eq_l_l v0_val v1_val in
  ret (Z.lor (Z.land tail_is_leq is_eq) is_lt).
(** CtLeqMpMpKernel::finish, cmp_impl.rs:192-194 *)
Definition leq_kernel_finish (tail_is_leq : Z) : M Z := lc_new tail_is_leq.

(** CtGeqMpMpKernel, cmp_impl.rs:197-215 *)
Definition geq_kernel_new : Z := leq_kernel_new.
(** CtGeqMpMpKernel::update, cmp_impl.rs:208-210 *)
Definition geq_kernel_update (st v0_val v1_val : Z) : M Z := leq_kernel_update st v1_val v0_val.
(** CtGeqMpMpKernel::finish, cmp_impl.rs:212-214 *)
Definition geq_kernel_finish (st : Z) : M Z := leq_kernel_finish st.

(** ct_leq_mp_mp, cmp_impl.rs:225-242 *)
Definition ct_leq_mp_mp (op0 op1 : mp) : M Z :=
  let op0_nlimbs := nlimbs op0 in
  let op1_nlimbs := nlimbs op1 in
  let common_nlimbs := Z.min op0_nlimbs op1_nlimbs in
  let! k := zfor 0 common_nlimbs (fun i k =>
    let! v0 := load_l op0 i in
    let! v1 := load_l op1 i in
    leq_kernel_update k v0 v1) leq_kernel_new in
  let! k := zfor common_nlimbs op0_nlimbs (fun i k =>
    let! v0 := load_l op0 i in
    leq_kernel_update k v0 0) k in
  let! k := zfor common_nlimbs op1_nlimbs (fun i k =>
    let! v1 := load_l op1 i in
    leq_kernel_update k 0 v1) k in
  leq_kernel_finish k.

(** ct_geq_mp_mp, ct_lt_mp_mp, ct_gt_mp_mp, cmp_impl.rs:464-490 *)
Definition ct_geq_mp_mp (op0 op1 : mp) : M Z := ct_leq_mp_mp op1 op0.
(** ct_lt_mp_mp, cmp_impl.rs:464-466 *)
Definition ct_lt_mp_mp (op0 op1 : mp) : M Z :=
  let! r := ct_geq_mp_mp op0 op1 in ret (lc_not r).
(** ct_gt_mp_mp, cmp_impl.rs:488-490 *)
Definition ct_gt_mp_mp (op0 op1 : mp) : M Z :=
  let! r := ct_leq_mp_mp op0 op1 in ret (lc_not r).

(** ct_is_zero_mp, cmp_impl.rs:492-499 *)
Definition ct_is_zero_mp (op0 : mp) : M Z :=
  let! is_nz := zfor 0 (nlimbs op0) (fun i is_nz =>
    let! op0_val := load_l op0 i in
    ret (Z.lor is_nz op0_val)) 0 in
  let! z := ct_is_zero_l is_nz in
  lc_new z.

(** ct_is_one_mp, cmp_impl.rs:501-515 *)
Definition ct_is_one_mp (op0 : mp) : M Z :=
  mif mp_is_empty op0 then lc_new 0 else
  let! v0 := load_l op0 0 in
  let tail_is_not_one := Z.lxor v0 1 in
  let! head_is_nz := zfor 1 (nlimbs op0) (fun i head_is_nz =>
    let! op0_val := load_l op0 i in
    ret (Z.lor head_is_nz op0_val)) 0 in
  let! z := ct_is_zero_l (Z.lor tail_is_not_one head_is_nz) in
  lc_new z.

(** ct_leq_mp_l, cmp_impl.rs:517-531 *)
Definition ct_leq_mp_l (op0 : mp) (op1 : Z) : M Z :=
  mif mp_is_empty op0 then lc_new 1 else
  let! v0 := load_l op0 0 in
  let! l0_is_leq := ct_leq_l_l v0 op1 in
  let! head_is_nz := zfor 1 (nlimbs op0) (fun i head_is_nz =>
    let! op0_val := load_l op0 i in
    ret (Z.lor head_is_nz op0_val)) 0 in
  let! z := ct_is_zero_l head_is_nz in
  let! h := lc_new z in
  ret (lc_and l0_is_leq h).

End Model.
