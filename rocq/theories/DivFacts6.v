(** Loops over a sliding division window. *)
From Coq Require Import ZArith List Bool Lia.
Require Import Verif.Spec Verif.Monad Verif.Base Verif.Wp Verif.ModelLimb Verif.LimbFacts Verif.LimbFacts2 Verif.LDivFacts
  Verif.ModelBuf Verif.SpecBuf Verif.BufFacts Verif.BufFacts2 Verif.BufFacts3 Verif.CompFacts Verif.UpFacts Verif.ShiftFacts Verif.MulFacts
  Verif.ModelDiv Verif.SpecDiv Verif.DivFacts Verif.DivFacts2 Verif.DivFacts3 Verif.DivFacts4.
Import ListNotations.
Open Scope Z_scope.

Lemma wp_for_step : forall S lo hi (body : Z -> S -> M S) s (Q : S -> Prop), lo < hi ->
  wp (body lo s) (fun s' => wp (zfor (lo + 1) hi body s') Q) -> wp (zfor lo hi body s) Q.
Proof.
  intros S lo hi body s Q H HW. unfold zfor. destruct (Z.to_nat (hi - lo)) as [|m] eqn:E; [lia|]. cbn [for_aux].
  apply wp_bind, wp_tick. apply wp_bind. eapply wp_mono; [exact HW|]. cbn beta. intros a Ha. unfold zfor in Ha.
  replace (Z.to_nat (hi - (lo + 1))) with m in Ha by lia. exact Ha.
Qed.

Section Facts.
Context {c : cfg}.

Lemma upd_limb : forall T k x, 0 <= k -> isl x -> vlimb (T + (x - vlimb T k) * B ^ k) k = x.
Proof.
  intros T k x Hk Hx. pf (Bpow_pos k) as BP. pose proof B_pos. unfold vlimb at 1. rewrite Z.div_add by lia. pf (vdiv_S T k) as E. rewrite E.
  replace (vlimb T k + B * (T / B ^ (k + 1)) + (x - vlimb T k)) with (x + T / B ^ (k + 1) * B) by ring.
  rewrite Z.mod_add by lia. apply Z.mod_small, Hx.
Qed.
Lemma upd_mod : forall T k x, 0 <= k -> (T + (x - vlimb T k) * B ^ k) mod B ^ k = T mod B ^ k.
Proof. intros T k x Hk. pf (Bpow_pos k). apply Z.mod_add. lia. Qed.
Lemma upd_mod_S : forall T k x, 0 <= k -> isl x -> (T + (x - vlimb T k) * B ^ k) mod B ^ (k + 1) = T mod B ^ k + x * B ^ k.
Proof. intros T k x Hk Hx. rewrite vmod_S, upd_limb, upd_mod by auto. ring. Qed.

(** A buffer whose first [m] limbs are full; storing a limb below keeps what is above. *)
Lemma store_mod_S : forall b b' i x, 0 <= i -> isl x -> store_post b i x b' -> mpval b' mod B ^ (i + 1) = mpval b mod B ^ i + x * B ^ i.
Proof. intros b b' i x Hi Hx H. rewrite vmod_S by auto. rewrite (store_mod b b' i x) by auto. rewrite <- limb_vlimb, (store_limb b b' i x) by auto. ring. Qed.

(** The subtraction of q * V from a window that moves by one limb at the same time. *)
Lemma wp_shsub : forall d Y q b0 m nx0 (P : mp * Z * Z * Z * Z -> Prop), dv_ok d -> 0 <= m <= dvn d -> mp_ok b0 -> m * LB <= mp_len b0 ->
  mpval b0 mod B ^ m = (Y / B) mod B ^ m -> isl q -> nx0 = vlimb Y 0 ->
  (forall b' bd cy bo T, mp_ok b' -> same_shape b0 b' -> mpval b' / B ^ m = mpval b0 / B ^ m -> mpval b' mod B ^ m = T mod B ^ m ->
    dvst d m bd cy -> isl bo -> subinv Y q (dvV d) 0 m bo T -> P (b', vlimb Y m, bd, cy, bo)) ->
  wp (zfor 0 m (fun i '(r_out, next_u_val, v_decrement_borrow, scaled_v_carry, borrow) =>
        let u_val := next_u_val in
        let! next_u_val := load_l_full r_out i in
        let! '(v_decrement_borrow, scaled_v_carry, borrow, u_val) :=
          sub_scaled_qv_val d u_val i q v_decrement_borrow scaled_v_carry borrow in
        let! r_out := store_l_full r_out i u_val in
        ret (r_out, next_u_val, v_decrement_borrow, scaled_v_carry, borrow))
       (b0, nx0, dv_dec0 d, 0, 0)) P.
Proof.
  intros d Y q b0 m nx0 P Hd Hm Hb HL HY Hq HX HP. pose proof LB_pos as LP.
  eapply wp_for with (I := fun i '(b, nx, bd, cy, bo) => mp_ok b /\ same_shape b0 b /\ mpval b / B ^ i = mpval b0 / B ^ i /\ nx = vlimb Y i /\
    dvst d i bd cy /\ isl bo /\ exists T, mpval b mod B ^ i = T mod B ^ i /\ subinv Y q (dvV d) 0 i bo T).
  { lia. }
  { split; auto. split; [apply shape_refl|]. split; auto. split; auto. split; [apply dvst_init; auto|]. split; [apply isl_0|]. exists Y.
    split; [rewrite Z.pow_0_r, !Z.mod_1_r; auto|apply subinv_init]. }
  { intros i [[[[b nx] bd] cy] bo] Hi (O & S & E1 & -> & DS & Ib & T & E2 & SI). cbv zeta.
    assert (FL : (i + 1) * LB <= mp_len b). { rewrite (shape_len _ _ S). assert ((i + 1) * LB <= m * LB) by (apply Z.mul_le_mono_nonneg_r; lia). lia. }
    apply wp_bind, wp_load_full; [auto|lia|auto|].
    assert (EL : limb b i = vlimb Y (i + 1)).
    { rewrite limb_vlimb. rewrite (vlimb_ext_div _ (mpval b0) i i) by (auto; lia). rewrite (vlimb_ext_mod _ (Y / B) i m) by (auto; lia).
      rewrite <- (limb_of_div Y (i + 1) 1) by lia. rewrite Z.pow_1_r. f_equal. lia. }
    rewrite EL. apply wp_bind, wp_sub_qv; auto; [lia|apply vlimb_isl|]. intros bd' cy' bo' x DS' Ib' Ix Ex.
    apply wp_bind, wp_store_full; auto; [lia|]. intros b' SP. apply wp_ret.
    split; [apply SP|]. split; [eapply shape_trans; [eauto|apply SP]|].
    split. { rewrite (store_div b b' i x) by (auto; lia). apply div_ext_S; auto. lia. }
    split; auto. split; auto. split; auto.
    assert (ET : vlimb T (i + 0) = vlimb Y i). { destruct SI as [_ SI]. apply (vlimb_ext_div T Y (i + 0) (i + 0)) in SI; [|lia]. rewrite SI. f_equal. lia. }
    exists (T + (x - vlimb T (i + 0)) * B ^ (i + 0)). split.
    - rewrite (store_mod_S b b' i x) by (auto; lia). rewrite Z.add_0_r in *. rewrite upd_mod_S by (auto; lia). rewrite E2. auto.
    - apply subinv_step with (bo := bo); auto; lia. }
  intros [[[[b nx] bd] cy] bo] (O & S & E1 & -> & DS & Ib & T & E2 & SI). eapply HP; eauto.
Qed.

(** The conditional addition of V to a window. *)
Lemma wp_winadd : forall d (b : bool) T1 b0 m (P : mp * Z * Z -> Prop), dv_ok d -> 0 <= m <= dvn d -> mp_ok b0 -> m * LB <= mp_len b0 ->
  mpval b0 mod B ^ m = T1 mod B ^ m ->
  (forall b' bd cy T, mp_ok b' -> same_shape b0 b' -> mpval b' / B ^ m = mpval b0 / B ^ m -> mpval b' mod B ^ m = T mod B ^ m ->
    decinv (mpval (dv_v d)) (dv_dec0 d) m bd -> 0 <= cy <= 2 ^ dv_shift d -> (b = false -> cy = 0) -> addinv T1 (dval d) (dv_shift d) b 0 m cy T -> P (b', bd, cy)) ->
  wp (zfor 0 m (fun i '(r_out, v_decrement_borrow, carry) =>
        let! u_val := load_l_full r_out i in
        let! '(v_decrement_borrow, carry, u_val) :=
          add_scaled_v_val_cond d u_val i v_decrement_borrow carry (chc b) in
        let! r_out := store_l_full r_out i u_val in
        ret (r_out, v_decrement_borrow, carry)) (b0, dv_dec0 d, 0)) P.
Proof.
  intros d z T1 b0 m P Hd Hm Hb HL HY HP. pose proof LB_pos as LP. destruct (scale_pow _ (dvo_s _ Hd)) as (P1 & _).
  eapply wp_for with (I := fun i '(b, bd, cy) => mp_ok b /\ same_shape b0 b /\ mpval b / B ^ i = mpval b0 / B ^ i /\
    decinv (mpval (dv_v d)) (dv_dec0 d) i bd /\ 0 <= cy <= 2 ^ dv_shift d /\ (z = false -> cy = 0) /\
    exists T, mpval b mod B ^ i = T mod B ^ i /\ addinv T1 (dval d) (dv_shift d) z 0 i cy T).
  { lia. }
  { split; auto. split; [apply shape_refl|]. split; auto. split; [apply decinv_init, Hd|]. split; [lia|]. split; auto. exists T1.
    split; [rewrite Z.pow_0_r, !Z.mod_1_r; auto|apply addinv_init]. }
  { intros i [[b bd] cy] Hi (O & S & E1 & DI & Cy & Cz & T & E2 & AI).
    assert (FL : (i + 1) * LB <= mp_len b). { rewrite (shape_len _ _ S). assert ((i + 1) * LB <= m * LB) by (apply Z.mul_le_mono_nonneg_r; lia). lia. }
    apply wp_bind, wp_load_full; [auto|lia|auto|].
    assert (EL : limb b i = vlimb T (i + 0)).
    { rewrite limb_vlimb, Z.add_0_r. rewrite (vlimb_ext_div _ (mpval b0) i i) by (auto; lia). rewrite (vlimb_ext_mod _ T1 i m) by (auto; lia).
      destruct AI as [_ AI]. rewrite Z.add_0_r in AI. symmetry. apply (vlimb_ext_div T T1 i i); auto. lia. }
    rewrite EL. apply wp_bind, wp_add_v; auto; [lia|apply vlimb_isl|]. intros bd' cy' x DI' Cy' Cz' Ix Ex.
    apply wp_bind, wp_store_full; auto; [lia|]. intros b' SP. apply wp_ret.
    split; [apply SP|]. split; [eapply shape_trans; [eauto|apply SP]|].
    split. { rewrite (store_div b b' i x) by (auto; lia). apply div_ext_S; auto. lia. }
    split; auto. split; auto. split; auto.
    exists (T + (x - vlimb T (i + 0)) * B ^ (i + 0)). split.
    - rewrite (store_mod_S b b' i x) by (auto; lia). rewrite Z.add_0_r in *. rewrite upd_mod_S by (auto; lia). rewrite E2. auto.
    - apply addinv_step with (cy := cy); auto; lia. }
  intros [[b bd] cy] (O & S & E1 & DI & Cy & Cz & T & E2 & AI). eapply HP; eauto.
Qed.

Lemma rems_dvd : forall U D s j e, 0 < D -> 0 <= e <= j -> (2 ^ s * U) mod B ^ e = 0 -> rems U D s j mod B ^ e = 0.
Proof.
  intros U D s j e HD He HU. unfold rems. pf (Bpow_pos e). pf (Bpow_pos j).
  pose proof (Z_div_mod_eq_full U (D * B ^ j)) as DM. set (h := U / (D * B ^ j)) in *. set (r := U mod (D * B ^ j)) in *.
  replace (2 ^ s * r) with (2 ^ s * U + - (2 ^ s * h * D * B ^ (j - e)) * B ^ e).
  - rewrite Z.mod_add by lia. auto.
  - rewrite DM. replace (B ^ j) with (B ^ (j - e) * B ^ e); [ring|]. rewrite <- Z.pow_add_r by lia. f_equal. lia.
Qed.
End Facts.
