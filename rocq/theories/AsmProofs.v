(** Proofs about the inline assembly blocks (C57). *)
From Coq Require Import ZArith List Bool Lia.
Require Import Verif.Spec Verif.Monad Verif.ModelLimb Verif.ModelAsm.
Import ListNotations.
Open Scope Z_scope.

Lemma set_same : forall s r v, reg_val (set_reg s r v) r = v.
Proof. intros. cbn. destruct (reg_eq_dec r r); congruence. Qed.
Lemma set_other : forall s r v r', r <> r' -> reg_val (set_reg s r v) r' = reg_val s r'.
Proof. intros. cbn. destruct (reg_eq_dec r r'); congruence. Qed.
Lemma flags_reg : forall s a b r, reg_val (set_flags s a b) r = reg_val s r.
Proof. reflexivity. Qed.

Ltac nodup H := destruct H as [H _]; cbn in H;
  repeat match goal with H : NoDup (_ :: _) |- _ => inversion H; subst; clear H end;
  repeat match goal with H : ~ In _ _ |- _ => cbn in H end.
Ltac regs := repeat (unfold set_low_byte; rewrite ?flags_reg, ?set_same; rewrite ?set_other by (intro; subst; tauto)).
Ltac keeps := let r := fresh "r" in let H := fresh "N" in intros r H; cbn in H; regs; reflexivity.

Lemma low_byte_zero : forall b : bool, 0 - 0 mod 256 + (if b then 1 else 0) = b2z b.
Proof. destruct b; reflexivity. Qed.

Lemma asm_is_zero_ok : forall u s result v, machine_ok s -> may_allocate [] [result; v] ->
  (exists s', run u (asm_is_nonzero result v) s = Some s' /\ reg_val s' result = b2z (negb (reg_val s v =? 0)) /\ preserves_but [result] s s') /\
  (exists s', run u (asm_is_zero result v) s = Some s' /\ reg_val s' result = b2z (reg_val s v =? 0) /\ preserves_but [result] s s').
Proof.
  intros u s result v OK H. nodup H.
  split; (eexists; split; [reflexivity|]; split; [|keeps]); regs;
    rewrite Z.lxor_nilpotent, low_byte_zero; cbn [zf set_flags]; regs; rewrite Z.land_diag; reflexivity.
Qed.

Lemma asm_add_ok : forall u s carry v0 v1, machine_ok s -> may_allocate [] [carry; v0; v1] ->
  exists s', run u (asm_add carry v0 v1) s = Some s' /\ reg_val s' carry * 2 ^ 64 + reg_val s' v0 = reg_val s v0 + reg_val s v1 /\
    0 <= reg_val s' v0 < 2 ^ 64 /\ preserves_but [carry; v0] s s'.
Proof.
  intros u s carry v0 v1 OK H. nodup H. eexists. split; [reflexivity|].
  regs. rewrite Z.lxor_nilpotent, low_byte_zero. cbn [cf set_flags]. regs.
  pose proof (OK v0). pose proof (OK v1).
  split; [|split; [apply Z.mod_pos_bound; reflexivity|keeps]].
  destruct (Z.leb_spec (2 ^ 64) (reg_val s v0 + reg_val s v1)); unfold b2z.
  - rewrite <- (Z.mod_unique (reg_val s v0 + reg_val s v1) (2 ^ 64) 1 (reg_val s v0 + reg_val s v1 - 2 ^ 64)); lia.
  - rewrite Z.mod_small by lia. lia.
Qed.

Lemma asm_sub_ok : forall u s borrow v0 v1, machine_ok s -> may_allocate [] [borrow; v0; v1] ->
  exists s', run u (asm_sub borrow v0 v1) s = Some s' /\ reg_val s' v0 - reg_val s' borrow * 2 ^ 64 = reg_val s v0 - reg_val s v1 /\
    0 <= reg_val s' v0 < 2 ^ 64 /\ preserves_but [borrow; v0] s s'.
Proof.
  intros u s borrow v0 v1 OK H. nodup H. eexists. split; [reflexivity|].
  regs. rewrite Z.lxor_nilpotent, low_byte_zero. cbn [cf set_flags]. regs.
  pose proof (OK v0). pose proof (OK v1).
  split; [|split; [apply Z.mod_pos_bound; reflexivity|keeps]].
  destruct (Z.ltb_spec (reg_val s v0) (reg_val s v1)); unfold b2z.
  - rewrite <- (Z.mod_unique (reg_val s v0 - reg_val s v1) (2 ^ 64) (-1) (reg_val s v0 - reg_val s v1 + 2 ^ 64)); lia.
  - rewrite Z.mod_small by lia. lia.
Qed.

Lemma asm_mul_ok : forall u s v1, machine_ok s -> may_allocate [RAX; RDX] [v1] ->
  exists s', run u (asm_mul v1) s = Some s' /\ reg_val s' RDX * 2 ^ 64 + reg_val s' RAX = reg_val s RAX * reg_val s v1 /\
    0 <= reg_val s' RAX < 2 ^ 64 /\ 0 <= reg_val s' RDX < 2 ^ 64 /\ preserves_but [RAX; RDX] s s'.
Proof.
  intros u s v1 OK H. nodup H. eexists. split; [reflexivity|].
  regs. pose proof (OK RAX). pose proof (OK v1).
  split; [rewrite Z.mul_comm, <- Z.div_mod by discriminate; reflexivity|].
  split; [apply Z.mod_pos_bound; reflexivity|]. split; [|keeps].
  split; [apply Z.div_pos; [nia|reflexivity]|apply Z.div_lt_upper_bound; [reflexivity|nia]].
Qed.

Lemma div_fits : forall h l v, 0 <= h -> 0 <= l < 2 ^ 64 -> 0 <= v -> (v =? 0) || (2 ^ 64 <=? (h * 2 ^ 64 + l) / v) = (v <=? h).
Proof.
  intros h l v Hh Hl Hv. destruct (Z.eqb_spec v 0) as [->|NZ]; cbn [orb].
  - symmetry. apply Z.leb_le. lia.
  - apply Bool.eq_iff_eq_true. rewrite !Z.leb_le. split; intros H.
    + assert (v * 2 ^ 64 <= h * 2 ^ 64 + l). { pose proof (Z.mul_div_le (h * 2 ^ 64 + l) v ltac:(lia)). nia. }
      nia.
    + apply Z.div_le_lower_bound; nia.
Qed.

Lemma asm_div_ok : forall u s v, machine_ok s -> may_allocate [RAX; RDX] [v] ->
  let x := reg_val s RDX * 2 ^ 64 + reg_val s RAX in
  (reg_val s RDX < reg_val s v -> exists s', run u (asm_div v) s = Some s' /\
     x = reg_val s' RAX * reg_val s v + reg_val s' RDX /\ 0 <= reg_val s' RDX < reg_val s v /\
     0 <= reg_val s' RAX < 2 ^ 64 /\ preserves_but [RAX; RDX] s s') /\
  (reg_val s v <= reg_val s RDX -> run u (asm_div v) s = None).
Proof.
  intros u s v OK H x. nodup H. pose proof (OK RAX). pose proof (OK RDX). pose proof (OK v).
  pose proof (div_fits (reg_val s RDX) (reg_val s RAX) (reg_val s v) ltac:(lia) ltac:(lia) ltac:(lia)) as D.
  cbn [run step asm_div]. fold x in D |- *. rewrite D. split; intros L.
  - destruct (Z.leb_spec (reg_val s v) (reg_val s RDX)) as [?|L']; [lia|].
    eexists. split; [reflexivity|]. regs. 
    split; [rewrite Z.mul_comm; apply Z.div_mod; lia|].
    split; [apply Z.mod_pos_bound; lia|]. split; [|keeps].
    assert (reg_val s v =? 0 = false) as E by (apply Z.eqb_neq; lia). rewrite E in D. cbn [orb] in D. apply Z.leb_gt in D.
    split; [apply Z.div_pos; unfold x; lia|exact D].
  - apply Z.leb_le in L. rewrite L. reflexivity.
Qed.

Lemma asm_model_ok : forall (c : cfg) u s a b d, limb64 c = true -> asm_math c = true -> machine_ok s ->
  may_allocate [] [a; b; d] -> may_allocate [RAX; RDX] [d] ->
  (exists s', run u (asm_is_nonzero a b) s = Some s' /\ ct_is_nonzero_l (reg_val s b) = ret (reg_val s' a)) /\
  (exists s', run u (asm_is_zero a b) s = Some s' /\ ct_is_zero_l (reg_val s b) = ret (reg_val s' a)) /\
  (exists s', run u (asm_add a b d) s = Some s' /\ ct_add_l_l (reg_val s b) (reg_val s d) = ret (reg_val s' a, reg_val s' b)) /\
  (exists s', run u (asm_sub a b d) s = Some s' /\ ct_sub_l_l (reg_val s b) (reg_val s d) = ret (reg_val s' a, reg_val s' b)) /\
  (exists s', run u (asm_mul d) s = Some s' /\ ct_mul_l_l (reg_val s RAX) (reg_val s d) = ret (reg_val s' RDX, reg_val s' RAX)) /\
  (forall n, snd (nonct_l_divisor_new (reg_val s d)) = Some (Ok n) ->
     snd (nonct_l_divisor_do_div n (reg_val s RDX, reg_val s RAX)) =
     option_map (fun s' => (reg_val s' RAX, reg_val s' RDX)) (run u (asm_div d) s)).
Proof.
  intros c u s a b d L A OK H H'. assert (UA : use_asm = true) by (unfold use_asm; rewrite L, A; reflexivity).
  assert (Hab : may_allocate [] [a; b]).
  { destruct H as [H N]. cbn in *. inversion H; subst. inversion H3; subst. cbn in *. split; [|cbn; tauto].
    cbn. repeat constructor; cbn; tauto. }
  pose proof (OK a). pose proof (OK b). pose proof (OK d). pose proof (OK RAX). pose proof (OK RDX).
  split; [|split; [|split; [|split; [|split]]]].
  - destruct (proj1 (asm_is_zero_ok u s a b OK Hab)) as (s' & R & E & _). exists s'. split; [exact R|].
    unfold ct_is_nonzero_l. rewrite UA. unfold x86_ct_is_nonzero_l. rewrite Z.land_diag, E. reflexivity.
  - destruct (proj2 (asm_is_zero_ok u s a b OK Hab)) as (s' & R & E & _). exists s'. split; [exact R|].
    unfold ct_is_zero_l. rewrite UA. unfold x86_ct_is_zero_l. rewrite Z.land_diag, E. reflexivity.
  - nodup H. eexists. split; [reflexivity|]. unfold ct_add_l_l. rewrite UA. unfold x86_ct_add_l_l.
    regs. rewrite Z.lxor_nilpotent, low_byte_zero. cbn [cf set_flags]. regs.
    reflexivity.
  - nodup H. eexists. split; [reflexivity|]. unfold ct_sub_l_l. rewrite UA. unfold x86_ct_sub_l_l.
    regs. rewrite Z.lxor_nilpotent, low_byte_zero. cbn [cf set_flags]. regs. reflexivity.
  - nodup H'. eexists. split; [reflexivity|]. unfold ct_mul_l_l. rewrite UA. unfold x86_ct_mul_l_l.
    regs. reflexivity.
  - intros n Hn. unfold nonct_l_divisor_do_div. rewrite UA. unfold x86_nonct_do_div. 
    assert (E : nd_v n = reg_val s d).
    { revert Hn. unfold nonct_l_divisor_new. rewrite UA. destruct (reg_val s d =? 0); cbn; intros [= <-]; reflexivity. }
    rewrite E. pose proof (div_fits (reg_val s RDX) (reg_val s RAX) (reg_val s d) ltac:(lia) ltac:(lia) ltac:(lia)) as D.
    cbn [run step asm_div]. rewrite D. rewrite Z.ltb_antisym.
    destruct (reg_val s d <=? reg_val s RDX) eqn:LE; cbn [negb]; [reflexivity|].
    cbn -[Z.mul Z.pow Z.div Z.modulo Z.add]. reflexivity.
Qed.
