(** Proofs of the theorems in ThmDiv.v and ThmDiv2.v on quotients which fit the limbs, but not the bytes of their buffer. *)
From Coq Require Import ZArith List Bool Lia.
Require Import Verif.Spec Verif.Monad Verif.Base Verif.Wp Verif.Pan Verif.Wx Verif.ModelLimb Verif.LimbFacts Verif.LimbFacts2 Verif.ModelBuf Verif.SpecBuf
  Verif.BufFacts Verif.BufFacts2 Verif.BufFacts3 Verif.BufProofs Verif.ModelDiv Verif.SpecDiv Verif.DivFacts Verif.DivFacts2 Verif.DivFacts3 Verif.DivFacts4
  Verif.DivFacts8 Verif.DivFacts12 Verif.DivProofs.
Import ListNotations.
Open Scope Z_scope.

Lemma middle_bad : forall (c : cfg) b Qv, 256 ^ mp_len b <= Qv < B ^ nlimbs b -> debug c = true -> qgood (Some b) Qv -> False.
Proof. intros c b Qv H D [G|[G _]]; cbn in *; [lia|congruence]. Qed.
Lemma middle_good : forall (c : cfg) b Qv, 256 ^ mp_len b <= Qv < B ^ nlimbs b -> debug c = false -> qgood (Some b) Qv.
Proof. intros c b Qv H D. right. split; [auto|lia]. Qed.
Lemma middle_over : forall (c : cfg) b Qv, 256 ^ mp_len b <= Qv < B ^ nlimbs b -> qover (Some b) Qv -> False.
Proof. intros c b Qv H G. cbn in G. lia. Qed.

Lemma div_middle : forall (c : cfg) u_h u_l d D n b, u_ok u_h u_l -> divisor_for d D -> byte_len D n -> mp_ok b ->
  let U := uval u_h u_l in mp_len u_l + uhlen u_h <= mp_len b + n -> 256 ^ mp_len b <= U / D < B ^ nlimbs b ->
  (debug c = true -> panics (ct_div_mp_mp u_h u_l d (Some b))) /\
  (debug c = false -> yields (ct_div_mp_mp u_h u_l d (Some b)) (fun '(res, u_h', u_l', q') =>
    res = Ok tt /\ u_ok u_h' u_l' /\ same_shape u_l u_l' /\ o_same u_h u_h' /\ o_same (Some b) q' /\
    uval u_h' u_l' = U mod D /\ q_is q' ((U / D) mod 256 ^ mp_len b))).
Proof.
  intros c u_h u_l d D n b Hu Hd Hn Hq U HL HM. apply divisor_ok in Hd. destruct Hd as [Hd E].
  pose proof (divisor_len _ _ _ Hd E Hn) as EL. subst D. split; intros DB.
  - apply wx_pan, wx_div_mp_mp; auto.
    + lia.
    + intros _ G. exfalso. exact (middle_bad _ _ _ HM DB G).
    + intros _ G. exfalso. exact (middle_over _ _ _ HM G).
  - apply wp_yields, wp_wx, wx_div_mp_mp; auto.
    + right. left. apply middle_good; auto.
    + intros SH. lia.
    + intros _ _ u_h' u_l' q' H1 H2 H3 H4 H5 H6. split; auto. split; [|auto 10].
      split; auto. destruct Hu as [Hu1 Hu2], H2 as [K1 _]. destruct u_h, u_h'; cbn in *; try contradiction; auto. destruct H3 as [O3 [K3 _]], Hu2. split; auto. congruence.
    + intros _ G. exfalso. exact (middle_over _ _ _ HM G).
Qed.

Lemma pow2_middle : forall (c : cfg) k r d D n b, 0 <= k -> pow2_exp_ok k -> mp_ok r -> divisor_for d D -> byte_len D n -> mp_ok b ->
  let U := 2 ^ k in let len := k / 8 + 1 in
  Z.min n len <= mp_len r -> len <= mp_len b + n -> 256 ^ mp_len b <= U / D < B ^ nlimbs b ->
  (debug c = true -> panics (ct_div_pow2_mp k r d (Some b))) /\
  (debug c = false -> yields (ct_div_pow2_mp k r d (Some b)) (fun '(res, r', q') =>
    res = Ok tt /\ becomes r r' (U mod D) /\ o_same (Some b) q' /\ q_is q' ((U / D) mod 256 ^ mp_len b))).
Proof.
  intros c k r d D n b Hk Hk8 Hr Hd Hn Hq U len HR HL HM. apply divisor_ok in Hd. destruct Hd as [Hd E].
  pose proof (divisor_len _ _ _ Hd E Hn) as EL. subst D. split; intros DB.
  - apply wx_pan, wx_div_pow2; auto; rewrite ?EL; fold U len.
    + lia.
    + intros _ SH. lia.
    + intros _ _ G. exfalso. exact (middle_bad _ _ _ HM DB G).
    + intros _ _ G. exfalso. exact (middle_over _ _ _ HM G).
  - apply wp_yields, wp_wx, wx_div_pow2; auto; rewrite ?EL; fold U len.
    + right. right. left. apply middle_good; auto.
    + intros SH. lia.
    + intros _ SH. lia.
    + intros _ _ _ r' q' H1 H2 H3 H4 H5. split; auto. split; [|auto]. split; auto.
    + intros _ _ G. exfalso. exact (middle_over _ _ _ HM G).
Qed.

Lemma lsh_middle : forall (c : cfg) u a e d D n b, mp_ok u -> 0 <= a <= mp_len u -> mpval u < 256 ^ a -> 0 <= e -> a + e + LB < 2 ^ UW ->
  divisor_for d D -> byte_len D n -> mp_ok b ->
  let U := mpval u * 256 ^ e in
  Z.min n (a + e) <= mp_len u -> a + e <= mp_len b + n -> 256 ^ mp_len b <= U / D < B ^ nlimbs b ->
  (debug c = true -> panics (ct_div_lshifted_mp_mp u a e d (Some b))) /\
  (debug c = false -> yields (ct_div_lshifted_mp_mp u a e d (Some b)) (fun '(res, u', q') =>
    res = Ok tt /\ becomes u u' (U mod D) /\ o_same (Some b) q' /\ q_is q' ((U / D) mod 256 ^ mp_len b))).
Proof.
  intros c u a e d D n b Hu Ha Hua He He8 Hd Hn Hq U HR HL HM. apply divisor_ok in Hd. destruct Hd as [Hd E].
  pose proof (divisor_len _ _ _ Hd E Hn) as EL. subst D. split; intros DB.
  - apply wx_pan, wx_div_lsh; auto; rewrite ?EL; fold U; try lia.
    + intros _ _ G. exfalso. exact (middle_bad _ _ _ HM DB G).
    + intros _ _ G. exfalso. exact (middle_over _ _ _ HM G).
  - apply wp_yields, wp_wx, wx_div_lsh; auto; rewrite ?EL; fold U; try lia.
    + right. right. left. apply middle_good; auto.
    + intros _ _ _ r' q' H1 H2 H3 H4 H5. split; auto. split; [|auto]. split; auto.
    + intros _ _ G. exfalso. exact (middle_over _ _ _ HM G).
Qed.
