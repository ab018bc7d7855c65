(** Proofs of the statements in ThmAdd.v. *)
From Coq Require Import ZArith List Bool Lia.
Require Import Verif.Spec Verif.Base Verif.Monad Verif.Wp Verif.ModelLimb Verif.LimbFacts Verif.LimbFacts2 Verif.LimbProofs Verif.ThmLimb
  Verif.ModelBuf Verif.SpecBuf Verif.BufFacts Verif.BufFacts2 Verif.BufFacts3 Verif.BufProofs Verif.UpFacts Verif.ModelCmp Verif.CmpFacts Verif.ModelAdd Verif.AddFacts Verif.AddFacts2.
Import ListNotations.
Open Scope Z_scope.

Lemma compare_correct : forall (c : cfg) a b, mp_ok a -> mp_ok b ->
  returns (ct_eq_mp_mp a b) (choice (mpval a =? mpval b)) /\
  returns (ct_neq_mp_mp a b) (choice (negb (mpval a =? mpval b))) /\
  returns (ct_lt_mp_mp a b) (choice (mpval a <? mpval b)) /\
  returns (ct_leq_mp_mp a b) (choice (mpval a <=? mpval b)) /\
  returns (ct_gt_mp_mp a b) (choice (mpval b <? mpval a)) /\
  returns (ct_geq_mp_mp a b) (choice (mpval b <=? mpval a)).
Proof.
  intros c a b Ha Hb. repeat split; apply wp_ret_eq.
  - apply wp_eq_mp; auto. - apply wp_neq_mp; auto. - apply wp_lt_mp; auto.
  - apply wp_leq_mp; auto. - apply wp_gt_mp; auto. - apply wp_geq_mp; auto.
Qed.
Lemma compare_small_correct : forall (c : cfg) a, mp_ok a ->
  returns (ct_is_zero_mp a) (choice (mpval a =? 0)) /\
  returns (ct_is_one_mp a) (choice (mpval a =? 1)) /\
  (forall l, 0 <= l < B -> returns (ct_leq_mp_l a l) (choice (mpval a <=? l))).
Proof.
  intros c a Ha. split; [|split; [|intros l Hl]]; apply wp_ret_eq.
  - apply wp_is_zero_mp; auto. - apply wp_is_one_mp; auto. - apply wp_leq_mp_l; auto.
Qed.

Lemma addpost_correct : forall (c : cfg) a x b k, addpost a x b k ->
  becomes a b ((mpval a + x) mod 256 ^ mp_len a) /\ k = (mpval a + x) / 256 ^ mp_len a.
Proof.
  intros c a x b k (Hk & V & (O & S & E) & EV). pose proof (mpval_bound b O) as BV. rewrite (shape_len _ _ S), E in BV.
  assert ((mpval a + x) mod 256 ^ mp_len a = V) by (symmetry; apply (Z.mod_unique _ _ k); lia).
  split; [split; [auto|split; [auto|lia]]|]. apply (Z.div_unique _ _ k V); lia.
Qed.
Lemma subpost_correct : forall (c : cfg) a x b k, subpost a x b k ->
  becomes a b ((mpval a - x) mod 256 ^ mp_len a) /\ k = if mpval a <? x then 1 else 0.
Proof.
  intros c a x b k (Hk & V & (O & S & E) & EV). pose proof (mpval_bound b O) as BV. rewrite (shape_len _ _ S), E in BV.
  assert ((mpval a - x) mod 256 ^ mp_len a = V) by (symmetry; apply (Z.mod_unique _ _ (- k)); lia).
  split; [split; [auto|split; [auto|lia]]|]. destruct (Z.ltb_spec (mpval a) x); destruct Hk as [->| ->]; lia.
Qed.
Lemma add_correct : forall (c : cfg) a b, mp_ok a -> mp_ok b -> nlimbs b <= nlimbs a -> mpval b < 256 ^ mp_len a ->
  yields (ct_add_mp_mp a b) (fun '(a', carry) =>
    becomes a a' ((mpval a + mpval b) mod 256 ^ mp_len a) /\ carry = (mpval a + mpval b) / 256 ^ mp_len a).
Proof. intros. apply wp_yields, wp_add_mp; auto. intros. apply addpost_correct; auto. Qed.
Lemma add_cond_correct : forall (c : cfg) a b (z : bool), mp_ok a -> mp_ok b -> nlimbs b <= nlimbs a ->
  (z = true -> mpval b < 256 ^ mp_len a) ->
  yields (ct_add_cond_mp_mp a b (choice z)) (fun '(a', carry) =>
    let sum := mpval a + (if z then mpval b else 0) in
    becomes a a' (sum mod 256 ^ mp_len a) /\ carry = sum / 256 ^ mp_len a).
Proof. intros. apply wp_yields, wp_add_cond; auto. intros. apply addpost_correct; auto. Qed.
Lemma add_l_correct : forall (c : cfg) a x, mp_ok a -> 0 <= x < B -> x < 256 ^ mp_len a ->
  yields (ct_add_mp_l a x) (fun '(a', carry) =>
    becomes a a' ((mpval a + x) mod 256 ^ mp_len a) /\ carry = (mpval a + x) / 256 ^ mp_len a).
Proof. intros. apply wp_yields, wp_add_mp_l; auto. intros. apply addpost_correct; auto. Qed.
Lemma sub_correct : forall (c : cfg) a b, mp_ok a -> mp_ok b -> nlimbs b <= nlimbs a -> mpval b < 256 ^ mp_len a ->
  yields (ct_sub_mp_mp a b) (fun '(a', borrow) =>
    becomes a a' ((mpval a - mpval b) mod 256 ^ mp_len a) /\ borrow = if mpval a <? mpval b then 1 else 0).
Proof. intros. apply wp_yields, wp_sub_mp; auto. intros. apply subpost_correct; auto. Qed.
Lemma sub_cond_correct : forall (c : cfg) a b (z : bool), mp_ok a -> mp_ok b -> nlimbs b <= nlimbs a ->
  (z = true -> mpval b < 256 ^ mp_len a) ->
  yields (ct_sub_cond_mp_mp a b (choice z)) (fun '(a', borrow) =>
    let x := if z then mpval b else 0 in
    becomes a a' ((mpval a - x) mod 256 ^ mp_len a) /\ borrow = if mpval a <? x then 1 else 0).
Proof. intros. apply wp_yields, wp_sub_cond; auto. intros. apply subpost_correct; auto. Qed.
Lemma sub_l_correct : forall (c : cfg) a x, mp_ok a -> 0 <= x < B -> x < 256 ^ mp_len a ->
  yields (ct_sub_mp_l a x) (fun '(a', borrow) =>
    becomes a a' ((mpval a - x) mod 256 ^ mp_len a) /\ borrow = if mpval a <? x then 1 else 0).
Proof. intros. apply wp_yields, wp_sub_mp_l; auto. intros. apply subpost_correct; auto. Qed.
Lemma negate_correct : forall (c : cfg) a, mp_ok a ->
  yields (ct_negate_mp a) (fun a' => becomes a a' ((- mpval a) mod 256 ^ mp_len a)) /\
  (forall z, yields (ct_negate_cond_mp a (choice z)) (fun a' => becomes a a' (if z then (- mpval a) mod 256 ^ mp_len a else mpval a))).
Proof. intros. split; [|intros z]; apply wp_yields; [apply wp_negate|apply wp_negate_cond]; auto. Qed.

Lemma add_mod_correct : forall (c : cfg) a b n, mp_ok a -> mp_ok b -> mp_ok n -> mpval a < mpval n -> mpval b < mpval n ->
  nlimbs a = nlimbs n \/ mpval a + mpval b < B ^ nlimbs n ->
  yields (ct_add_mod_mp_mp a b n) (fun '(a', r) =>
    (r = Ok tt /\ becomes a a' ((mpval a + mpval b) mod mpval n)) \/
    (r = Err InconsistentOperandLengths /\ a' = a /\ mp_len a < mp_len n)).
Proof. intros. apply wp_yields, wp_add_mod; auto. Qed.
Lemma sub_mod_correct : forall (c : cfg) a b n, mp_ok a -> mp_ok b -> mp_ok n -> mpval a < mpval n -> mpval b < mpval n ->
  nlimbs a = nlimbs n \/ mpval b <= mpval a ->
  yields (ct_sub_mod_mp_mp a b n) (fun '(a', r) =>
    (r = Ok tt /\ becomes a a' ((mpval a - mpval b) mod mpval n)) \/
    (r = Err InconsistentOperandLengths /\ a' = a /\ mp_len a < mp_len n)).
Proof. intros. apply wp_yields, wp_sub_mod; auto. Qed.
Lemma negate_mod_correct : forall (c : cfg) a n, mp_ok a -> mp_ok n -> mpval a < mpval n ->
  yields (ct_negate_mod_mp a n) (fun '(a', r) =>
    (r = Ok tt /\ becomes a a' ((- mpval a) mod mpval n)) \/
    (r = Err InconsistentOperandLengths /\ a' = a /\ mp_len a < mp_len n)).
Proof. intros. apply wp_yields, wp_negate_mod; auto. Qed.

Lemma longer_room : forall (c : cfg) a n, nlimbs n <= nlimbs a -> nlimbs a <> nlimbs n -> 2 * B ^ nlimbs n <= 256 ^ mp_len a.
Proof.
  intros c a n H1 H2. pose proof (nlimbs_nonneg n). assert (HL : 0 <= nlimbs n < nlimbs a) by lia. pose proof (nlimbs_lt a (nlimbs n) (proj1 HL)). rewrite Bpow256 by lia.
  apply Z.le_trans with (256 ^ (nlimbs n * LB + 1)); [|apply Z.pow_le_mono_r; lia]. pose proof LB_pos. rewrite Z.pow_add_r by nia.
  assert (0 < 256 ^ (nlimbs n * LB)) by (apply Z.pow_pos_nonneg; nia). lia.
Qed.
Lemma add_mod_longer : forall (c : cfg) a b n, mp_ok a -> mp_ok b -> mp_ok n -> mpval a < mpval n -> mpval b < mpval n ->
  nlimbs a <> nlimbs n -> B ^ nlimbs n <= mpval a + mpval b ->
  yields (ct_add_mod_mp_mp a b n) (fun '(a', r) =>
    (r = Ok tt /\ becomes a a' (mpval a + mpval b - mpval n - B ^ nlimbs n + 256 ^ mp_len a) /\ mpval a' <> (mpval a + mpval b) mod mpval n) \/
    (r = Err InconsistentOperandLengths /\ a' = a /\ mp_len a < mp_len n)).
Proof.
  intros c a b n Ha Hb Hn HA HX NE HG. apply wp_yields, wp_add_mod_gen; auto. intros a' r [[E H]|H] HR; [left|right; auto].
  destruct (HR E) as [NN NF]. pose proof (longer_room c a n NN NE) as LR. pose proof (mpval_bound_B n Hn) as BN. pose proof (mpval_nonneg a Ha) as A0. pose proof (mpval_nonneg b Hb) as B0.
  assert (EV : add_mod_value a b n = mpval a + mpval b - mpval n - B ^ nlimbs n + 256 ^ mp_len a).
  { unfold add_mod_value. destruct (Z.eqb_spec (nlimbs a) (nlimbs n)); [lia|]. destruct (Z.ltb_spec (mpval a + mpval b) (B ^ nlimbs n)); [lia|].
    destruct (Z.leb_spec (mpval n) (mpval a + mpval b)); [|lia]. cbn [orb].
    symmetry. apply (Z.mod_unique _ _ (-1)); lia. }
  rewrite EV in H. split; [auto|]. split; [auto|]. destruct H as (_ & _ & ->).
  assert (P : 0 < mpval n) by lia. pose proof (Z.mod_pos_bound (mpval a + mpval b) (mpval n) P). lia.
Qed.
Lemma sub_mod_longer : forall (c : cfg) a b n, mp_ok a -> mp_ok b -> mp_ok n -> mpval a < mpval n -> mpval b < mpval n ->
  nlimbs a <> nlimbs n -> mpval a < mpval b ->
  yields (ct_sub_mod_mp_mp a b n) (fun '(a', r) =>
    (r = Ok tt /\ becomes a a' (mpval a - mpval b + mpval n + B ^ nlimbs n) /\ mpval a' <> (mpval a - mpval b) mod mpval n) \/
    (r = Err InconsistentOperandLengths /\ a' = a /\ mp_len a < mp_len n)).
Proof.
  intros c a b n Ha Hb Hn HA HX NE HG. apply wp_yields, wp_sub_mod_gen; auto. intros a' r [[E H]|H] HR; [left|right; auto].
  destruct (HR E) as [NN NF]. pose proof (longer_room c a n NN NE) as LR. pose proof (mpval_bound_B n Hn) as BN. pose proof (mpval_nonneg a Ha) as A0. pose proof (mpval_nonneg b Hb) as B0.
  assert (EV : sub_mod_value a b n = mpval a - mpval b + mpval n + B ^ nlimbs n).
  { unfold sub_mod_value. destruct (Z.eqb_spec (nlimbs a) (nlimbs n)); [lia|]. destruct (Z.ltb_spec (mpval a) (mpval b)); [|lia]. rewrite Z.mod_small; lia. }
  rewrite EV in H. split; [auto|]. split; [auto|]. destruct H as (_ & _ & ->).
  assert (P : 0 < mpval n) by lia. pose proof (Z.mod_pos_bound (mpval a - mpval b) (mpval n) P). lia.
Qed.
