(** The limb layer runs in constant time. *)
From Coq Require Import ZArith List Bool Lia.
Require Import Verif.Spec Verif.Monad Verif.ModelLimb Verif.ModelBuf Verif.SpecBuf Verif.BufFacts Verif.Ct.
Import ListNotations.
Open Scope Z_scope.

Section Limb.
Context {c : cfg} {o : obs}.
Hypothesis REL : debug c = false.

(** A computation without observations. *)
Definition quiet {A} (m : M A) : Prop := exists v, m = ret v.
Lemma ct_quiet : forall (m1 m2 : M Z), quiet m1 -> quiet m2 -> ct drel m1 m2.
Proof. intros m1 m2 [v ->] [v' ->]. apply ct_ret. exact I. Qed.
Lemma q_ovf : forall n v, quiet (ovf n v).
Proof. intros. unfold ovf, quiet. rewrite REL. destruct (_ && _); eauto. Qed.
Lemma q_usub : forall a b, quiet (usub a b).
Proof. intros. unfold usub, quiet. rewrite REL. destruct (_ <=? _); eauto. Qed.
Lemma q_sub32 : forall a b, quiet (sub32 a b).
Proof. intros. unfold sub32, quiet. rewrite REL. destruct (_ <=? _); eauto. Qed.
Lemma q_shamt : forall a b, quiet (shamt a b).
Proof. intros. unfold shamt, quiet. rewrite REL. destruct (_ <? _); eauto. Qed.
Lemma ct_ovf : forall n v n' v', ct drel (ovf n v) (ovf n' v').
Proof. intros. apply ct_quiet; apply q_ovf. Qed.
Lemma ct_ladd : forall a b a' b', ct drel (ladd a b) (ladd a' b').
Proof. intros. apply ct_ovf. Qed.
Lemma ct_lsub : forall a b a' b', ct drel (lsub a b) (lsub a' b').
Proof. intros. apply ct_ovf. Qed.
Lemma ct_lmul : forall a b a' b', ct drel (lmul a b) (lmul a' b').
Proof. intros. apply ct_ovf. Qed.
Lemma ct_usub : forall a b a' b', ct drel (usub a b) (usub a' b').
Proof. intros. apply ct_quiet; apply q_usub. Qed.
Lemma ct_sub32 : forall a b a' b', ct drel (sub32 a b) (sub32 a' b').
Proof. intros. apply ct_quiet; apply q_sub32. Qed.
Lemma q_lshl : forall a b, quiet (lshl a b).
Proof. intros. unfold lshl. destruct (q_shamt W b) as [v ->]. eexists. reflexivity. Qed.
Lemma q_lshr : forall a b, quiet (lshr a b).
Proof. intros. unfold lshr. destruct (q_shamt W b) as [v ->]. eexists. reflexivity. Qed.
Lemma ct_lshl : forall a b a' b', ct drel (lshl a b) (lshl a' b').
Proof. intros. apply ct_quiet; apply q_lshl. Qed.
Lemma ct_lshr : forall a b a' b', ct drel (lshr a b) (lshr a' b').
Proof. intros. apply ct_quiet; apply q_lshr. Qed.
#[local] Hint Resolve ct_ladd ct_lsub ct_lmul ct_usub ct_sub32 ct_lshl ct_lshr : ct.

Lemma rct_lc_new : forall a a', ct drel (lc_new a) (lc_new a').
Proof. intros. unfold lc_new. ct_auto. Qed.
#[local] Hint Resolve rct_lc_new : ct.
Lemma rct_is_nonzero_l : forall a a', ct drel (ct_is_nonzero_l a) (ct_is_nonzero_l a').
Proof. intros. unfold ct_is_nonzero_l, x86_ct_is_nonzero_l, generic_ct_is_nonzero_l. ct_auto. Qed.
#[local] Hint Resolve rct_is_nonzero_l : ct.
Lemma rct_is_zero_l : forall a a', ct drel (ct_is_zero_l a) (ct_is_zero_l a').
Proof. intros. unfold ct_is_zero_l, x86_ct_is_zero_l, generic_ct_is_zero_l. ct_auto. Qed.
#[local] Hint Resolve rct_is_zero_l : ct.
Lemma rct_eq_l_l : forall a b a' b', ct drel (ct_eq_l_l a b) (ct_eq_l_l a' b').
Proof. intros. unfold ct_eq_l_l. ct_auto. Qed.
#[local] Hint Resolve rct_eq_l_l : ct.
Lemma rct_neq_l_l : forall a b a' b', ct drel (ct_neq_l_l a b) (ct_neq_l_l a' b').
Proof. intros. unfold ct_neq_l_l. ct_auto. Qed.
#[local] Hint Resolve rct_neq_l_l : ct.
Lemma rct_sub_l_l : forall a b a' b', ct drel (ct_sub_l_l a b) (ct_sub_l_l a' b').
Proof. intros. unfold ct_sub_l_l, x86_ct_sub_l_l, generic_ct_sub_l_l. ct_auto. Qed.
#[local] Hint Resolve rct_sub_l_l : ct.
Lemma rct_sub_l_l_b : forall a b d a' b' d', ct drel (ct_sub_l_l_b a b d) (ct_sub_l_l_b a' b' d').
Proof. intros. unfold ct_sub_l_l_b. ct_auto. Qed.
Lemma rct_lt_or_eq_l_l : forall a b a' b', ct drel (ct_lt_or_eq_l_l a b) (ct_lt_or_eq_l_l a' b').
Proof. intros. unfold ct_lt_or_eq_l_l. ct_auto. Qed.
Lemma rct_lt_l_l : forall a b a' b', ct drel (ct_lt_l_l a b) (ct_lt_l_l a' b').
Proof. intros. unfold ct_lt_l_l. ct_auto. Qed.
#[local] Hint Resolve rct_lt_l_l : ct.
Lemma rct_leq_l_l : forall a b a' b', ct drel (ct_leq_l_l a b) (ct_leq_l_l a' b').
Proof. intros. unfold ct_leq_l_l. ct_auto. Qed.
#[local] Hint Resolve rct_leq_l_l : ct.
Lemma rct_gt_l_l : forall a b a' b', ct drel (ct_gt_l_l a b) (ct_gt_l_l a' b').
Proof. intros. unfold ct_gt_l_l. ct_auto. Qed.
Lemma rct_geq_l_l : forall a b a' b', ct drel (ct_geq_l_l a b) (ct_geq_l_l a' b').
Proof. intros. unfold ct_geq_l_l. ct_auto. Qed.
#[local] Hint Resolve rct_geq_l_l : ct.
Lemma rct_lsb_mask_l : forall a a', ct drel (ct_lsb_mask_l a) (ct_lsb_mask_l a').
Proof. intros. unfold ct_lsb_mask_l. ct_auto. Qed.
#[local] Hint Resolve rct_lsb_mask_l : ct.
Lemma rct_l_to_hls : forall a a', ct drel (ct_l_to_hls a) (ct_l_to_hls a').
Proof. intros. unfold ct_l_to_hls. ct_auto. Qed.
#[local] Hint Resolve rct_l_to_hls : ct.
Lemma rct_add_l_l : forall a b a' b', ct drel (ct_add_l_l a b) (ct_add_l_l a' b').
Proof. intros. unfold ct_add_l_l, x86_ct_add_l_l, generic_ct_add_l_l. ct_auto. Qed.
#[local] Hint Resolve rct_add_l_l : ct.
Lemma rct_add_l_l_c : forall a b d a' b' d', ct drel (ct_add_l_l_c a b d) (ct_add_l_l_c a' b' d').
Proof. intros. unfold ct_add_l_l_c. ct_auto. Qed.
#[local] Hint Resolve rct_add_l_l_c : ct.
Lemma rct_mul_l_l : forall a b a' b', ct drel (ct_mul_l_l a b) (ct_mul_l_l a' b').
Proof. intros. unfold ct_mul_l_l, x86_ct_mul_l_l, generic_ct_mul_l_l. ct_auto. Qed.
#[local] Hint Resolve rct_mul_l_l : ct.
Lemma rct_mul_add : forall a b d e a' b' d' e',
  ct drel (ct_mul_add_l_l_l_c a b d e) (ct_mul_add_l_l_l_c a' b' d' e').
Proof. intros. unfold ct_mul_add_l_l_l_c. ct_auto. Qed.
Lemma rct_mul_sub : forall a b d e a' b' d' e',
  ct drel (ct_mul_sub_l_l_l_b a b d e) (ct_mul_sub_l_l_l_b a' b' d' e').
Proof. intros. unfold ct_mul_sub_l_l_l_b. ct_auto. Qed.

Lemma rct_fls_loop : forall n bits m v k m' v' k',
  ct drel (fls_loop n bits m v k) (fls_loop n bits m' v' k').
Proof.
  induction n as [|n IH]; intros; cbn [fls_loop]; ct_auto.
Qed.
#[local] Hint Resolve rct_fls_loop : ct.
Lemma rct_find_last_set_bit_l : forall v v', ct drel (ct_find_last_set_bit_l v) (ct_find_last_set_bit_l v').
Proof. intros. unfold ct_find_last_set_bit_l. ct_auto. Qed.
#[local] Hint Resolve rct_find_last_set_bit_l : ct.
Lemma rct_find_last_set_byte_l : forall v v', ct drel (ct_find_last_set_byte_l v) (ct_find_last_set_byte_l v').
Proof. intros. unfold ct_find_last_set_byte_l. ct_auto. Qed.
Lemma rct_ffs_loop : forall n bits m v k m' v' k',
  ct drel (ffs_loop n bits m v k) (ffs_loop n bits m' v' k').
Proof.
  induction n as [|n IH]; intros; cbn [ffs_loop]; ct_auto.
Qed.
#[local] Hint Resolve rct_ffs_loop : ct.
Lemma rct_find_first_set_bit_l : forall v v', ct drel (ct_find_first_set_bit_l v) (ct_find_first_set_bit_l v').
Proof. intros. unfold ct_find_first_set_bit_l. ct_auto. Qed.
Lemma rct_arithmetic_rshift_l : forall v s v' s',
  ct drel (ct_arithmetic_rshift_l v s) (ct_arithmetic_rshift_l v' s').
Proof. intros. unfold ct_arithmetic_rshift_l. ct_auto. Qed.
Lemma rct_inv_mod_l_loop : forall n k v r v' r',
  ct drel (inv_mod_l_loop n k v r) (inv_mod_l_loop n k v' r').
Proof. induction n as [|n IH]; intros; cbn [inv_mod_l_loop]; ct_auto. Qed.
#[local] Hint Resolve rct_inv_mod_l_loop : ct.
Lemma rct_inv_mod_l : forall v v', ct drel (ct_inv_mod_l v) (ct_inv_mod_l v').
Proof. intros. unfold ct_inv_mod_l. ct_auto. Qed.
Lemma rct_compute_m : forall v w v' w', ct drel (ct_compute_m v w) (ct_compute_m v' w').
Proof. intros. unfold ct_compute_m. ct_auto. Qed.
#[local] Hint Resolve rct_compute_m : ct.
Lemma rct_l_divisor_do_div : forall d u d' u',
  ct drel (ct_l_divisor_do_div d u) (ct_l_divisor_do_div d' u').
Proof. intros. unfold ct_l_divisor_do_div. ct_auto. Qed.
Lemma rct_eq_usize : forall a b a' b', ct drel (ct_eq_usize_usize a b) (ct_eq_usize_usize a' b').
Proof. intros. unfold ct_eq_usize_usize. ct_auto. Qed.
Lemma rct_lt_usize : forall a b a' b', ct drel (ct_lt_usize_usize a b) (ct_lt_usize_usize a' b').
Proof. intros. unfold ct_lt_usize_usize. ct_auto. Qed.
#[local] Hint Resolve rct_lt_usize : ct.
Lemma rct_leq_usize : forall a b a' b', ct drel (ct_leq_usize_usize a b) (ct_leq_usize_usize a' b').
Proof. intros. unfold ct_leq_usize_usize. ct_auto. Qed.
#[local] Hint Resolve rct_leq_usize : ct.
Lemma rct_gt_usize : forall a b a' b', ct drel (ct_gt_usize_usize a b) (ct_gt_usize_usize a' b').
Proof. intros. unfold ct_gt_usize_usize. ct_auto. Qed.
Lemma rct_geq_usize : forall a b a' b', ct drel (ct_geq_usize_usize a b) (ct_geq_usize_usize a' b').
Proof. intros. unfold ct_geq_usize_usize. ct_auto. Qed.
End Limb.
#[global] Hint Resolve
  ct_ladd ct_lsub ct_lmul ct_usub ct_sub32 ct_lshl ct_lshr rct_lc_new 
  rct_is_nonzero_l rct_is_zero_l rct_eq_l_l rct_neq_l_l rct_sub_l_l 
  rct_sub_l_l_b rct_lt_or_eq_l_l rct_lt_l_l rct_leq_l_l rct_gt_l_l rct_geq_l_l 
  rct_lsb_mask_l rct_l_to_hls rct_add_l_l rct_add_l_l_c rct_mul_l_l rct_mul_add 
  rct_mul_sub rct_fls_loop rct_find_last_set_bit_l rct_find_last_set_byte_l 
  rct_ffs_loop rct_find_first_set_bit_l rct_arithmetic_rshift_l 
  rct_inv_mod_l_loop rct_inv_mod_l rct_compute_m rct_l_divisor_do_div 
  rct_eq_usize rct_lt_usize rct_leq_usize rct_gt_usize rct_geq_usize   : ct.
