(** Numbers for which inversion modulo odd numbers (euclid_impl.rs, ModelEuclid.v) goes wrong. *)
From Coq Require Import ZArith List Bool Lia.
Require Import Verif.Spec Verif.Base Verif.Monad Verif.Wp Verif.LimbFacts Verif.ModelLimb Verif.ModelBuf Verif.SpecBuf Verif.BufFacts Verif.SpecMont
  Verif.SpecEuclid Verif.SpecSteps Verif.ModelEuclid Verif.InvOddProofs Verif.FitCheck.
Import ListNotations.
Open Scope Z_scope.

(** Only the width of limbs matters. *)
Lemma steps_width : forall (c c' : cfg) k n p st r u, limb64 c = limb64 c' -> @run c k n p st r u = @run c' k n p st r u.
Proof.
  intros c c' k n p st r u H. assert (EW : @W c = @W c') by (unfold W, LB; rewrite H; auto). assert (EB : @B c = @B c') by (unfold B; rewrite EW; auto).
  revert st r u. induction k as [|k IH]; intros st r u; [auto|]. cbn [run]. rewrite EW. destruct (steps_rows (Z.to_nat (@W c' - 2)) st) as [[st' [[a b] s]] [[e h] t]].
  rewrite IH. unfold row_residue, read_back. rewrite EB. auto.
Qed.
Lemma goes_wrong_width : forall (c c' : cfg) k n p x, limb64 c = limb64 c' -> @goes_wrong c k n p x = @goes_wrong c' k n p x.
Proof. intros c c' k n p x H. unfold goes_wrong. rewrite (steps_width c c'); auto. Qed.

Definition w64 : cfg := mkcfg true false true false.
Definition w32 : cfg := mkcfg false false true false.
Lemma wrong_64 : forallb (fun '(b, n, x) => goes_wrong (c := w64) (if b =? 384 then 13 else 9) n (b / 64 - 1) x) (wrong_inverses true) = true.
Proof. vm_compute. reflexivity. Qed.
Lemma wrong_32 : forallb (fun '(b, n, x) => goes_wrong (c := w32) (if b =? 384 then 26 else 18) n (b / 32 - 1) x) (wrong_inverses false) = true.
Proof. vm_compute. reflexivity. Qed.
Lemma wrong_coprime : forall l, forallb (fun '(b, n, x) => Z.odd n && (1 <? n) && (Z.gcd n x =? 1) && (b <=? 384)) (wrong_inverses l) = true.
Proof. intros [|]; vm_compute; reflexivity. Qed.

Section S.
Context {c : cfg}.

(** Buffers of one limb. *)
Lemma one_limb_ok : forall v, isl v -> mp_ok (NE [v]).
Proof.
  intros v Hv. split; [constructor; [exact Hv|constructor]|]. unfold mp_len, zlen, LB, UW. cbn [length]. destruct (limb64 c), (usize64 c); reflexivity.
Qed.
Lemma one_limb_val : forall v, isl v -> mpval (NE [v]) = v.
Proof. intros v Hv. unfold mpval. cbn. unfold isl in Hv. ring_simplify. auto. Qed.
Lemma one_limb_n : forall v, nlimbs (NE [v]) = 1.
Proof. intros v. unfold nlimbs, ct_mp_nlimbs, mp_len, zlen, LB. cbn [length]. destruct (limb64 c); reflexivity. Qed.
Lemma run_at : forall k n x d f r u, 1 < n -> run k n 0 (1, n, x) 0 1 = ((d, f, 0), (r, u)) -> batches k (1, n, x) = (d, f, 0) /\ fst (residues n 0 x k) = r.
Proof.
  intros k n x d f r u Hn H. pose proof (run_eq k 0 n 0 x) as E. cbn [batches residues fst snd Nat.add] in E. rewrite (Z.mod_small 1) in E by lia. rewrite E in H.
  apply pair_equal_spec in H. destruct H as [H1 H2]. rewrite H2. auto.
Qed.
Definition all_fine (result op0 n : mp) (s0 s1 : list Z) : Prop := mp_ok result /\ mp_ok op0 /\ mp_ok n /\ Z.odd (mpval n) = true /\ 1 < mpval n /\
  len_compat n (mp_len result) /\ mut_compat op0 n /\ mp_ok (NE s0) /\ mp_ok (NE s1) /\ nlimbs n <= zlen s0 /\ nlimbs n <= zlen s1 /\
  gcd_len_ok (LB * nlimbs n) /\ Z.gcd (mpval n) (mpval op0) = 1.
Lemma one_limb_fine : forall n x, 1 < n < B -> 0 <= x < B -> Z.odd n = true -> Z.gcd n x = 1 -> all_fine (NE [0]) (NE [x]) (NE [n]) [0] [0].
Proof.
  intros n x Hn Hx HO HG. assert (I0 : isl 0) by (pose proof B_gt; unfold isl; lia). assert (In : isl n) by (unfold isl; lia). assert (Ix : isl x) by (unfold isl; lia).
  assert (CL : forall a b, len_compat (NE [a]) (mp_len (NE [b]))) by (intros a b; left; unfold mp_len, zlen; cbn [length]; lia).
  assert (MC : mut_compat (NE [x]) (NE [n])) by (split; apply CL).
  assert (GL : gcd_len_ok (LB * 1)) by (unfold gcd_len_ok, LB, UW; destruct (limb64 c), (usize64 c); reflexivity). assert (Z1 : zlen [0] = 1) by reflexivity.
  unfold all_fine. rewrite (one_limb_n n), (one_limb_val n), (one_limb_val x), Z1 by auto. repeat (split; [solve [auto using one_limb_ok|lia]|]). auto.
Qed.

Lemma rejects_at : forall k n x d f u, 1 < n < B -> 0 <= x < B -> Z.odd n = true -> Z.gcd n x = 1 -> run k n 0 (1, n, x) 0 1 = ((d, f, 0), (0, u)) -> (f <? 0) = false ->
  if debug c then panics (ct_inv_mod_odd_mp_mp (NE [0]) (NE [x]) (NE [n]) [0] [0])
  else yields (ct_inv_mod_odd_mp_mp (NE [0]) (NE [x]) (NE [n]) [0] [0]) (fun '(res, _, _, _, _) => res = Err InvOperandsNotCoprime).
Proof.
  intros k n x d f u Hn Hx HO HG HR HF. destruct (one_limb_fine n x Hn Hx HO HG) as (A1 & A2 & A3 & A4 & A5 & A6 & A7 & A8 & A9 & A10 & A11 & A12 & A13).
  assert (En : mpval (NE [n]) = n) by (apply one_limb_val; unfold isl; lia). assert (Ex : mpval (NE [x]) = x) by (apply one_limb_val; unfold isl; lia).
  destruct (run_at k n x d f 0 u ltac:(lia) HR) as [EB ER].
  destruct (inv_odd_exact (NE [0]) (NE [x]) (NE [n]) [0] [0] k d f) as [P Y]; auto; [rewrite En, Ex; auto|]. rewrite (one_limb_n n), En, Ex, HF in *. change (1 - 1) with 0 in *. rewrite ER in *.
  destruct (debug c); [apply P; auto|]. destruct Y as ([[[[res r'] o'] a] b] & R & H); [auto|]. exists (res, r', o', a, b). split; [auto|]. destruct H as [H _]. rewrite Z.eqb_refl in H. auto.
Qed.
Lemma unreduced_at : forall k n x d f u, 1 < n < B -> 0 <= x < B -> Z.odd n = true -> Z.gcd n x = 1 -> run k n 0 (1, n, x) 0 1 = ((d, f, 0), (0, u)) -> (f <? 0) = true ->
  debug c = false -> yields (ct_inv_mod_odd_mp_mp (NE [0]) (NE [x]) (NE [n]) [0] [0]) (fun '(res, result', _, _, _) => res = Ok tt /\ mpval result' = mpval (NE [n])).
Proof.
  intros k n x d f u Hn Hx HO HG HR HF HD. destruct (one_limb_fine n x Hn Hx HO HG) as (A1 & A2 & A3 & A4 & A5 & A6 & A7 & A8 & A9 & A10 & A11 & A12 & A13).
  assert (En : mpval (NE [n]) = n) by (apply one_limb_val; unfold isl; lia). assert (Ex : mpval (NE [x]) = x) by (apply one_limb_val; unfold isl; lia).
  destruct (run_at k n x d f 0 u ltac:(lia) HR) as [EB ER].
  destruct (inv_odd_exact (NE [0]) (NE [x]) (NE [n]) [0] [0] k d f) as [_ Y]; auto; [rewrite En, Ex; auto|]. rewrite (one_limb_n n), En, Ex, HF in *. change (1 - 1) with 0 in *. rewrite ER, Z.sub_0_r in *.
  destruct Y as ([[[[res r'] o'] a] b] & R & H); [auto|]. exists (res, r', o', a, b). split; [auto|]. destruct H as (H & (_ & _ & HV) & _). destruct (Z.eqb_spec n 0); [lia|]. auto.
Qed.

Lemma inv_odd_rejects : exists result op0 n s0 s1, mp_ok result /\ mp_ok op0 /\ mp_ok n /\ Z.odd (mpval n) = true /\ 1 < mpval n /\
  len_compat n (mp_len result) /\ mut_compat op0 n /\ mp_ok (NE s0) /\ mp_ok (NE s1) /\ nlimbs n <= zlen s0 /\ nlimbs n <= zlen s1 /\
  gcd_len_ok (LB * nlimbs n) /\ Z.gcd (mpval n) (mpval op0) = 1 /\
  if debug c then panics (ct_inv_mod_odd_mp_mp result op0 n s0 s1)
  else yields (ct_inv_mod_odd_mp_mp result op0 n s0 s1) (fun '(res, _, _, _, _) => res = Err InvOperandsNotCoprime).
Proof.
  assert (X : exists k n x d f u, 1 < n < B /\ 0 <= x < B /\ Z.odd n = true /\ Z.gcd n x = 1 /\ run k n 0 (1, n, x) 0 1 = ((d, f, 0), (0, u)) /\ (f <? 0) = false).
  { unfold B, W, LB. destruct (limb64 c) eqn:EC.
    - exists 3%nat, 18446744073709550571, 10432560523983104677. rewrite (steps_width c w64) by auto. do 3 eexists. split; [split; reflexivity|]. split; [split; [discriminate|reflexivity]|]. split; [reflexivity|]. split; [vm_compute; reflexivity|]. split; vm_compute; reflexivity.
    - exists 3%nat, 4294967287, 1908874350. rewrite (steps_width c w32) by auto. do 3 eexists. split; [split; reflexivity|]. split; [split; [discriminate|reflexivity]|]. split; [reflexivity|]. split; [vm_compute; reflexivity|]. split; vm_compute; reflexivity. }
  destruct X as (k & n & x & d & f & u & Hn & Hx & HO & HG & HR & HF). exists (NE [0]), (NE [x]), (NE [n]), [0], [0]. pose proof (one_limb_fine n x Hn Hx HO HG) as AF. unfold all_fine in AF.
  repeat (split; [apply AF|]). eapply rejects_at; eauto.
Qed.
Lemma inv_odd_unreduced : debug c = false -> exists result op0 n s0 s1, mp_ok result /\ mp_ok op0 /\ mp_ok n /\ Z.odd (mpval n) = true /\ 1 < mpval n /\
  len_compat n (mp_len result) /\ mut_compat op0 n /\ mp_ok (NE s0) /\ mp_ok (NE s1) /\ nlimbs n <= zlen s0 /\ nlimbs n <= zlen s1 /\
  gcd_len_ok (LB * nlimbs n) /\ Z.gcd (mpval n) (mpval op0) = 1 /\
  yields (ct_inv_mod_odd_mp_mp result op0 n s0 s1) (fun '(res, result', _, _, _) => res = Ok tt /\ mpval result' = mpval n).
Proof.
  intros HD. assert (X : exists k n x d f u, 1 < n < B /\ 0 <= x < B /\ Z.odd n = true /\ Z.gcd n x = 1 /\ run k n 0 (1, n, x) 0 1 = ((d, f, 0), (0, u)) /\ (f <? 0) = true).
  { unfold B, W, LB. destruct (limb64 c) eqn:EC.
    - exists 2%nat, 18446744073709550631, 8165259305723212259. rewrite (steps_width c w64) by auto. do 3 eexists. split; [split; reflexivity|]. split; [split; [discriminate|reflexivity]|]. split; [reflexivity|]. split; [vm_compute; reflexivity|]. split; vm_compute; reflexivity.
    - exists 3%nat, 4294966715, 2964340194. rewrite (steps_width c w32) by auto. do 3 eexists. split; [split; reflexivity|]. split; [split; [discriminate|reflexivity]|]. split; [reflexivity|]. split; [vm_compute; reflexivity|]. split; vm_compute; reflexivity. }
  destruct X as (k & n & x & d & f & u & Hn & Hx & HO & HG & HR & HF). exists (NE [0]), (NE [x]), (NE [n]), [0], [0]. pose proof (one_limb_fine n x Hn Hx HO HG) as AF. unfold all_fine in AF.
  repeat (split; [apply AF|]). eapply unreduced_at; eauto.
Qed.

Lemma curves_go_wrong : forall n x, In (W * nlimbs n, mpval n, x) (wrong_inverses (limb64 c)) ->
  Z.odd (mpval n) = true /\ 1 < mpval n /\ Z.gcd (mpval n) x = 1 /\ gcd_len_ok (LB * nlimbs n) /\ exists K, goes_wrong K (mpval n) (nlimbs n - 1) x = true.
Proof.
  intros n x HI. pose proof (proj1 (forallb_forall _ _) (wrong_coprime (limb64 c)) _ HI) as HC. cbn beta iota in HC.
  apply andb_true_iff in HC. destruct HC as [HC HB]. apply andb_true_iff in HC. destruct HC as [HC HG]. apply andb_true_iff in HC. destruct HC as [HO HN].
  apply Z.ltb_lt in HN. apply Z.eqb_eq in HG. apply Z.leb_le in HB. split; [auto|]. split; [auto|]. split; [auto|].
  assert (EL : LB * nlimbs n * 8 = W * nlimbs n) by (unfold W, LB; destruct (limb64 c); lia).
  split. { unfold gcd_len_ok. unfold UW. destruct (usize64 c); [change (2 ^ 64) with 18446744073709551616|change (2 ^ 32) with 4294967296]; lia. }
  exists (if (W * nlimbs n =? 384)%Z then if limb64 c then 13 else 26 else if limb64 c then 9 else 18)%nat.
  assert (EP : nlimbs n - 1 = W * nlimbs n / W - 1) by (rewrite Z.mul_comm, Z.div_mul; [auto|unfold W, LB; destruct (limb64 c); lia]). rewrite EP.
  destruct (limb64 c) eqn:EC.
  - rewrite (goes_wrong_width c w64) by auto. pose proof (proj1 (forallb_forall _ _) wrong_64 _ HI) as HW. cbn beta iota in HW. replace (W * nlimbs n / W) with (W * nlimbs n / 64) by (f_equal; unfold W, LB; rewrite EC; auto). exact HW.
  - rewrite (goes_wrong_width c w32) by auto. pose proof (proj1 (forallb_forall _ _) wrong_32 _ HI) as HW. cbn beta iota in HW. replace (W * nlimbs n / W) with (W * nlimbs n / 32) by (f_equal; unfold W, LB; rewrite EC; auto). exact HW.
Qed.

Lemma inv_curves_wrong : forall result op0 n s0 s1, mp_ok result -> mp_ok op0 -> mp_ok n ->
  len_compat n (mp_len result) -> mut_compat op0 n -> mp_ok (NE s0) -> mp_ok (NE s1) -> nlimbs n <= zlen s0 -> nlimbs n <= zlen s1 ->
  In (W * nlimbs n, mpval n, mpval op0) (wrong_inverses (limb64 c)) ->
  Z.odd (mpval n) = true /\ Z.gcd (mpval n) (mpval op0) = 1 /\
  yields (ct_inv_mod_odd_mp_mp result op0 n s0 s1) (fun '(res, result', _, _, _) =>
    res = Ok tt /\ ~ is_inverse (mpval n) (mpval op0) (mpval result')).
Proof.
  intros result op0 n s0 s1 Or Oo On CR CO OS0 OS1 L0 L1 HI. destruct (curves_go_wrong n (mpval op0) HI) as (HO & HN & HG & GL & K & HW). split; [auto|]. split; [auto|].
  apply (inv_odd_wrong K); auto.
Qed.
End S.
