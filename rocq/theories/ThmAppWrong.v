(** Sequences of calls going wrong without any error being reported: Diffie-Hellman with the group number 2 of RFC 2409 (C49) and RSA with a modulus just
    below a power of the limb base (C50, C55). The former hold in every configuration, for all encodings and buffers. [modp1024] is in SpecMont.v, [rsa_wrong] in
    SpecAppWrong.v. *)
From Coq Require Import ZArith Znumtheory List Lia.
Require Import Verif.Spec Verif.Monad Verif.ModelLimb Verif.ModelBuf Verif.SpecBuf Verif.SpecMont Verif.ModelMont Verif.SpecApp Verif.SpecApp2 Verif.SpecApp3 Verif.SpecAppWrong Verif.AppWrong Verif.CrtWrong.
Import ListNotations.
Open Scope Z_scope.

Ltac okmp := split; [repeat constructor; vm_compute; congruence|vm_compute; reflexivity].

(** The parties begin with n - 1 and choose 2 and 3. Neither gets the right key, and with limbs of 32 bits they get different ones. *)
Theorem C49_key_agreement_refuted : forall (c : cfg) n g g' a ka b kb ra rb sa sb s1 s2 s3 s4, mp_ok n -> mp_len n = 128 -> mpval n = modp1024 ->
  residue_buf n g -> residue_buf n g' -> mpval g = mpval n - 1 -> mpval g' = mpval g -> mp_ok a -> mpval a = 2 -> 2 <= ka -> mp_ok b -> mpval b = 3 -> 2 <= kb ->
  result_buf n ra -> result_buf n rb -> result_buf n sa -> result_buf n sb -> exp_scratch n s1 -> exp_scratch n s2 -> exp_scratch n s3 -> exp_scratch n s4 ->
  yields (let! '(e1, pa, _, _) := ct_exp_mod_odd_mp_mp ra g n a ka s1 in
          let! '(e2, pb, _, _) := ct_exp_mod_odd_mp_mp rb g' n b kb s2 in
          let! '(e3, xa, _, _) := ct_exp_mod_odd_mp_mp sa pb n a ka s3 in
          let! '(e4, xb, _, _) := ct_exp_mod_odd_mp_mp sb pa n b kb s4 in ret ([e1; e2; e3; e4], xa, xb))
    (fun '(es, xa, xb) => es = [Ok tt; Ok tt; Ok tt; Ok tt] /\ mp_ok xa /\ mp_ok xb /\
      mpval xa <> mpval g ^ (mpval a * mpval b) mod mpval n /\ mpval xb <> mpval g ^ (mpval a * mpval b) mod mpval n /\ (limb64 c = false -> mpval xa <> mpval xb)).
Proof. exact @key_agreement_wrong. Qed.
Print Assumptions C49_key_agreement_refuted.

(** The message n - 2 encrypted and decrypted with matching exponents is another one. *)
Theorem C50_rsa_round_trip_refuted : forall (c : cfg) n m e ke d kd r r2 s1 s2,
  let w := rsa_wrong (limb64 c) in
  mp_ok n -> mp_len n = 2 * LB -> mpval n = rsa_p w * rsa_q w -> residue_buf n m -> mpval m = mpval n - 2 ->
  mp_ok e -> mpval e = rsa_e w -> 0 <= ke -> mpval e < 2 ^ ke -> mp_ok d -> mpval d = rsa_d w -> 0 <= kd -> mpval d < 2 ^ kd ->
  result_buf n r -> result_buf n r2 -> exp_scratch n s1 -> exp_scratch n s2 ->
  (prime (rsa_p w) /\ prime (rsa_q w) /\ rsa_p w <> rsa_q w /\ (rsa_p w - 1 | rsa_e w * rsa_d w - 1) /\ (rsa_q w - 1 | rsa_e w * rsa_d w - 1)) /\
  yields (let! '(e1, x, _, _) := ct_exp_mod_odd_mp_mp r m n e ke s1 in
          let! '(e2, y, _, _) := ct_exp_mod_odd_mp_mp r2 x n d kd s2 in ret (e1, e2, y))
    (fun '(e1, e2, y) => e1 = Ok tt /\ e2 = Ok tt /\ mp_ok y /\ mpval y <> mpval m).
Proof. exact @rsa_round_trip_wrong. Qed.
Print Assumptions C50_rsa_round_trip_refuted.

(** So is one decrypted by the Chinese remainder theorem, if one of the primes is just below a power of the limb base. Everything C55 asks for but
    C30's guard on [p] is met. *)
Theorem C55_round_trip_refuted : forall (c : cfg), asm_math c = false -> usize64 c = true -> let w := crt_wrong (limb64 c) in
  let p := NE (w_p w) in let q := NE (w_q w) in let d := BE [w_d w] in let xh := Some (NE [w_xh w]) in let xl := NE (w_x w) in let r := NE [0; 0] in let out := NE [0; 0; 0; 0] in
  crt_key p q d 3 d 3 (NE (w_qinv w)) /\ exp_modulus_any p /\ exp_modulus_any q /\ 0 <= w_m w < mpval p * mpval q /\ 0 < w_e w /\ 0 < expo d 3 /\
  (w_e w * expo d 3) mod (mpval p - 1) = 1 mod (mpval p - 1) /\ (w_e w * expo d 3) mod (mpval q - 1) = 1 mod (mpval q - 1) /\
  two_parts p xh xl (w_m w ^ w_e w mod (mpval p * mpval q)) /\ two_parts q xh xl (w_m w ^ w_e w mod (mpval p * mpval q)) /\
  crt_buffers p q r r out [0; 0] [0; 0] /\
  yields (rsa_crt p q d 3 d 3 (NE (w_qinv w)) xh xl xh xl r r out [0; 0] [0; 0]) (fun y => mpval y <> w_m w).
Proof. exact crt_wrong_facts. Qed.
Print Assumptions C55_round_trip_refuted.

(** Concrete buffers meeting the hypotheses. *)
Example ex_key_agreement_wrong : let c := mkcfg true true true true in
  let n := BE [255; 255; 255; 255; 255; 255; 255; 255; 201; 15; 218; 162; 33; 104; 194; 52; 196; 198; 98; 139; 128; 220; 28; 209; 41; 2; 78; 8; 138; 103; 204; 116; 2; 11; 190; 166; 59; 19; 155; 34; 81; 74; 8; 121; 142; 52; 4; 221; 239; 149; 25; 179; 205; 58; 67; 27; 48; 43; 10; 109; 242; 95; 20; 55; 79; 225; 53; 109; 109; 81; 194; 69; 228; 133; 181; 118; 98; 94; 126; 198; 244; 76; 66; 233; 166; 55; 237; 107; 11; 255; 92; 182; 244; 6; 183; 237; 238; 56; 107; 251; 90; 137; 159; 165; 174; 159; 36; 17; 124; 75; 31; 230; 73; 40; 102; 81; 236; 230; 83; 129; 255; 255; 255; 255; 255; 255; 255; 255] in
  let g := NE [18446744073709551614; 5271575865890067329; 12582815541414797286; 17165588707022577573; 864511594326308845; 17603518614767922539; 16466767132611215046; 5755940542857986629; 3470879405153129527; 17263733006627652379; 5857503583518590173; 147421033984662306; 2955010104097229940; 14179128828124470481; 14488038916154245684; 18446744073709551615] in let r := NE (zrepeat 1 16) in
  mp_ok n /\ mp_len n = 128 /\ mpval n = modp1024 /\ residue_buf n g /\ mpval g = mpval n - 1 /\ mp_ok (BE [2]) /\ mp_ok (LE [3]) /\ result_buf n r /\ exp_scratch n (zrepeat 1 16).
Proof.
  cbv zeta. split; [okmp|]. split; [reflexivity|]. split; [vm_compute; reflexivity|]. split; [split; [okmp|left; reflexivity]|]. split; [vm_compute; reflexivity|].
  split; [okmp|]. split; [okmp|]. split; [split; [split; [okmp|left; reflexivity]|left; split; [vm_compute; congruence|reflexivity]]|].
  split; [okmp|]. split; [vm_compute; congruence|left; split; [vm_compute; congruence|reflexivity]].
Qed.
Example ex_rsa_wrong : let c := mkcfg false false true true in
  let n := NE [4272357271; 4294967295] in let m := LE [149; 255; 166; 254; 255; 255; 255; 255] in let d := BE [1; 56; 19; 129; 53; 161; 181; 163] in let r := BE [1; 2; 3; 4; 5; 6; 7; 8] in
  mp_ok n /\ mp_len n = 2 * LB /\ mpval n = rsa_p (rsa_wrong false) * rsa_q (rsa_wrong false) /\ residue_buf n m /\ mpval m = mpval n - 2 /\
  mp_ok (BE [7]) /\ mpval (BE [7]) < 2 ^ 8 /\ mp_ok d /\ mpval d = rsa_d (rsa_wrong false) /\ mpval d < 2 ^ 64 /\ result_buf n r /\ exp_scratch n [1; 1] /\
  option_map (fun '(_, x, _, _) => x) (snd (ct_exp_mod_odd_mp_mp r m n (BE [7]) 8 [1; 1])) <> Some (BE [255; 255; 255; 255; 254; 166; 255; 23]).
Proof.
  cbv zeta. split; [okmp|]. split; [reflexivity|]. split; [vm_compute; reflexivity|]. split; [split; [okmp|left; reflexivity]|]. split; [vm_compute; reflexivity|].
  split; [okmp|]. split; [vm_compute; reflexivity|]. split; [okmp|]. split; [vm_compute; reflexivity|]. split; [vm_compute; reflexivity|].
  split; [split; [split; [okmp|left; reflexivity]|left; split; [vm_compute; congruence|reflexivity]]|].
  split; [split; [okmp|]; split; [vm_compute; congruence|left; split; [vm_compute; congruence|reflexivity]]|]. vm_compute. congruence.
Qed.
