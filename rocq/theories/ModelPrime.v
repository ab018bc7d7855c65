(** Model of the compositeness screening and of the Miller-Rabin primality test in src/prime_impl.rs, lines 22-356. The
    scratch buffers' final contents, which are unspecified, are not returned. *)
From Coq Require Import ZArith List Bool String Ascii.
Require Import Verif.Spec Verif.Monad Verif.ModelLimb Verif.ModelBuf Verif.ModelCmp Verif.ModelAdd Verif.ModelMont Verif.ModelEuclid Verif.ModelHex.
Import ListNotations.
Open Scope list_scope.
Open Scope Z_scope.

(** The byte values of a string literal, prime_impl.rs:24-91. *)
Definition bytes_of (s : string) : list Z := map (fun a => Z.of_N (N_of_ascii a)) (list_ascii_of_string s).
(** The value of a byte array constant evaluated at compile time, prime_impl.rs:24-91; a panic there would fail the build. *)
Definition const_bytes (m : M (list Z)) : list Z := match snd m with Some v => v | None => [] end.

(** CtCompositeTestSmallPrimeGcdMpError, prime_impl.rs:105-108 *)
Inductive screen_err := ScreenInsufficientScratchSpace.
(** CtPrimeTestMillerRabinMpError, prime_impl.rs:245-251 *)
Inductive mr_err := MrInvalidCandidate | MrInsufficientScratchSpace | MrInconsistentBaseLength | MrInconsistentMgRadixModPLength.

Section Model.
Context {c : cfg}.

(** SMALL_ODD_PRIME_PRODUCT_8 up to SMALL_ODD_PRIME_PRODUCT_2048, prime_impl.rs:22-91. *)
Definition SMALL_ODD_PRIME_PRODUCT_8 : list Z := const_bytes (bytes_from_hexstr_cnst 1 (bytes_of (
   "69")%string)).
(** SMALL_ODD_PRIME_PRODUCT_16, prime_impl.rs:26-28 *)
Definition SMALL_ODD_PRIME_PRODUCT_16 : list Z := const_bytes (bytes_from_hexstr_cnst 2 (bytes_of (
   "3aa7")%string)).
(** SMALL_ODD_PRIME_PRODUCT_32, prime_impl.rs:30-32 *)
Definition SMALL_ODD_PRIME_PRODUCT_32 : list Z := const_bytes (bytes_from_hexstr_cnst 4 (bytes_of (
   "c0cfd797")%string)).
(** SMALL_ODD_PRIME_PRODUCT_64, prime_impl.rs:34-36 *)
Definition SMALL_ODD_PRIME_PRODUCT_64 : list Z := const_bytes (bytes_from_hexstr_cnst 8 (bytes_of (
   "e221f97c30e94e1d")%string)).
(** SMALL_ODD_PRIME_PRODUCT_128, prime_impl.rs:38-41 *)
Definition SMALL_ODD_PRIME_PRODUCT_128 : list Z := const_bytes (bytes_from_hexstr_cnst 16 (bytes_of (
   "5797d47c51681549d734e4fc4c3eaf7f")%string)).
(** SMALL_ODD_PRIME_PRODUCT_256, prime_impl.rs:43-48 *)
Definition SMALL_ODD_PRIME_PRODUCT_256 : list Z := const_bytes (bytes_from_hexstr_cnst 32 (bytes_of (
   "dbf05b6f5654b3c0f524355143958688" ++
   "9f155887819aed2ac05b93352be98677")%string)).
(** SMALL_ODD_PRIME_PRODUCT_512, prime_impl.rs:50-57 *)
Definition SMALL_ODD_PRIME_PRODUCT_512 : list Z := const_bytes (bytes_from_hexstr_cnst 64 (bytes_of (
   "106aa9fb7646fa6eb0813c28c5d5f09f" ++
   "077ec3ba238bfb99c1b631a203e81187" ++
   "233db117cbc384056ef04659a4a11de4" ++
   "9f7ecb29bada8f980decece92e30c48f")%string)).
(** SMALL_ODD_PRIME_PRODUCT_1024, prime_impl.rs:59-70 *)
Definition SMALL_ODD_PRIME_PRODUCT_1024 : list Z := const_bytes (bytes_from_hexstr_cnst 128 (bytes_of (
   "02c85ff870f24be80f62b1ba6c20bd72" ++
   "b837efdf121206d87db56b7d69fa4c02" ++
   "1c107c3ca206fe8fa7080ef576effc82" ++
   "f9b10f5750656b7794b16afd70996e91" ++
   "aef6e0ad15e91b071ac9b24d98b233ad" ++
   "86ee055518e58e56638ef18bac5c74cb" ++
   "35bbb6e5dae2783dd1c0ce7dec4fc70e" ++
   "5186d411df36368f061aa36011f30179")%string)).
(** SMALL_ODD_PRIME_PRODUCT_2048, prime_impl.rs:72-91 *)
Definition SMALL_ODD_PRIME_PRODUCT_2048 : list Z := const_bytes (bytes_from_hexstr_cnst 256 (bytes_of (
   "2465a7bd85011e1c9e0527929fff268c" ++
   "82ef7efa416863baa5acdb0971dba0cc" ++
   "ac3ee4999345029f2cf810b99e406aac" ++
   "5fce5dd69d1c717daea5d18ab913f456" ++
   "505679bc91c57d46d9888857862b36e2" ++
   "ede2e473c1f0ab359da25271affe15ff" ++
   "240e299d0b04f4cd0e4d7c0e47b1a7ba" ++
   "007de89aae848fd5bdcd7f9815564eb0" ++
   "60ae14f19cb50c291f0bbd8ed1c4c7f8" ++
   "fc5fba51662001939b532d92dac844a8" ++
   "431d400c832d039f5f900b278a75219c" ++
   "2986140c79045d7759540854c31504dc" ++
   "56f1df5eebe7bee447658b917bf696d6" ++
   "927f2e2428fbeb340e515cb9835d6387" ++
   "1be8bbe09cf13445799f2e6778815157" ++
   "1a93b4c1eee55d1b9072e0b2f5c4607f")%string)).

(** SMALL_ODD_PRIME_PRODUCTS, prime_impl.rs:93-103 *)
Definition SMALL_ODD_PRIME_PRODUCTS : list (list Z) :=
  [SMALL_ODD_PRIME_PRODUCT_8; SMALL_ODD_PRIME_PRODUCT_16; SMALL_ODD_PRIME_PRODUCT_32; SMALL_ODD_PRIME_PRODUCT_64;
   SMALL_ODD_PRIME_PRODUCT_128; SMALL_ODD_PRIME_PRODUCT_256; SMALL_ODD_PRIME_PRODUCT_512; SMALL_ODD_PRIME_PRODUCT_1024;
   SMALL_ODD_PRIME_PRODUCT_2048].

(** The selection loop, prime_impl.rs:128-134: [i] is the loop's counter. *)
Fixpoint select_product (i : nat) (p_len_aligned : Z) : M nat :=
  match i with
  | O => ret O
  | S i =>
    mif (zlen (nth i SMALL_ODD_PRIME_PRODUCTS []) <=? p_len_aligned) then ret i
    else select_product i p_len_aligned
  end.

(** ct_composite_test_small_prime_gcd_mp, prime_impl.rs:110-155 *)
Definition ct_composite_test_small_prime_gcd_mp (p : mp) (scratch0 scratch1 : list Z) : M (result Z screen_err) :=
  mif mp_is_empty p then (let! t := lc_new 1 in ret (Ok t)) else
  let p_nlimbs := ct_mp_nlimbs (mp_len p) in
  mif (zlen scratch0 <? p_nlimbs) then ret (Err ScreenInsufficientScratchSpace) else
  mif (zlen scratch1 <? p_nlimbs) then ret (Err ScreenInsufficientScratchSpace) else
  let p_len_aligned := p_nlimbs * LB in
  let! i := select_product (List.length SMALL_ODD_PRIME_PRODUCTS) p_len_aligned in
  let small_prime_product := nth i SMALL_ODD_PRIME_PRODUCTS [] in
  let! gcd := clear_bytes_above (NE scratch0) p_len_aligned in
  let! gcd := mp_shrink_to gcd p_len_aligned in
  let! gcd := copy_from gcd (BE small_prime_product) in
  let! p_work_scratch := copy_from (NE scratch1) p in
  let! p_work_scratch := mp_shrink_to p_work_scratch p_len_aligned in
  let! '(r, gcd, _) := ct_gcd_odd_mp_mp gcd p_work_scratch in
  match r with
  | Err _ => panic
  | Ok _ =>
    let! gcd_is_one := ct_is_one_mp gcd in
    let! p_is_odd := test_bit p 0 in
    ret (Ok (lc_or (lc_not gcd_is_one) (lc_not p_is_odd)))
  end.

(** The comparison of the current power against 1 and -1 in Montgomery form, prime_impl.rs:320-331. *)
Definition mr_compare (base_pow p mg_radix_mod_p : mp) : M (Z * Z) :=
  let! '(is_one, is_minus_one, _) := zfor 0 (nlimbs p) (fun i '(is_one, is_minus_one, neg_one_borrow) =>
    let! one_val := load_l mg_radix_mod_p i in
    let! base_pow_val := load_l base_pow i in
    let! z := ct_is_zero_l (Z.lxor base_pow_val one_val) in
    let is_one := Z.land is_one z in
    let! p_val := load_l p i in
    let! '(neg_one_borrow, minus_one_val) := ct_sub_l_l_b p_val one_val neg_one_borrow in
    let! z := ct_is_zero_l (Z.lxor base_pow_val minus_one_val) in
    let is_minus_one := Z.land is_minus_one z in
    ret (is_one, is_minus_one, neg_one_borrow)) (1, 1, 0) in
  ret (is_one, is_minus_one).

(** One iteration of the main loop, prime_impl.rs:307-353, at the bit position [pos]. *)
Definition mr_step (mg_base p mg_radix_mod_p : mp) (neg_p0_inv_mod_l first_set_bit_pos pos : Z) (s : mp * mp * Z) : M (mp * mp * Z) :=
  let '(base_pow, pow_scratch, is_probable_prime) := s in
  let! r := ct_montgomery_mul_mod_mp_mp pow_scratch base_pow base_pow p neg_p0_inv_mod_l in
  let! pow_scratch := unwrap r in
  let! r := ct_montgomery_mul_mod_mp_mp base_pow pow_scratch mg_base p neg_p0_inv_mod_l in
  let! base_pow := unwrap r in
  let! bit := test_bit p pos in
  let! base_pow := copy_from_cond base_pow pow_scratch (lc_not bit) in
  let! '(is_one, is_minus_one) := mr_compare base_pow p mg_radix_mod_p in
  let! bit_pos_eq_first_set := ct_eq_usize_usize pos first_set_bit_pos in
  let is_probable_prime := Z.lor is_probable_prime (lc_select bit_pos_eq_first_set 0 (Z.lor is_one is_minus_one)) in
  let! bit_pos_below_first_set := ct_lt_usize_usize pos first_set_bit_pos in
  let is_probable_prime := Z.lor is_probable_prime (lc_select bit_pos_below_first_set 0 is_minus_one) in
  ret (base_pow, pow_scratch, is_probable_prime).

(** ct_prime_test_miller_rabin_mp, prime_impl.rs:253-356 *)
Definition ct_prime_test_miller_rabin_mp (mg_base p mg_radix_mod_p : mp) (scratch0 scratch1 : list Z) : M (result Z mr_err) :=
  let! odd := test_bit p 0 in
  mif (lc_unwrap odd =? 0) then ret (Err MrInvalidCandidate) else
  let! compat := len_is_compatible_with mg_base (mp_len p) in
  mif negb compat then ret (Err MrInconsistentBaseLength) else
  dassert_lt mg_base p ;;
  let! compat := len_is_compatible_with mg_radix_mod_p (mp_len p) in
  mif negb compat then ret (Err MrInconsistentMgRadixModPLength) else
  dassert_lt mg_radix_mod_p p ;;
  let p_nlimbs := ct_mp_nlimbs (mp_len p) in
  mif (zlen scratch0 <? p_nlimbs) then ret (Err MrInsufficientScratchSpace) else
  mif (zlen scratch1 <? p_nlimbs) then ret (Err MrInsufficientScratchSpace) else
  let! s0 := copy_from (NE scratch0) p in
  let! p_minus_one := mp_shrink_to s0 (mp_len p) in
  let! v := load_l p_minus_one 0 in
  let! p_minus_one := store_l p_minus_one 0 (Z.lxor v 1) in
  let! '(is_nonzero, first_set_bit_pos) := ct_find_first_set_bit_mp p_minus_one in
  dassert (negb (lc_unwrap is_nonzero =? 0)) ;;
  dassert (0 <? first_set_bit_pos) ;;
  let! base_pow := copy_from (mp_unshrink s0 p_minus_one) mg_radix_mod_p in
  let! base_pow := mp_shrink_to base_pow (mp_len p) in
  let! pow_scratch := clear_bytes_above (NE scratch1) (mp_len p) in
  let! pow_scratch := mp_shrink_to pow_scratch (mp_len p) in
  let! neg := ct_montgomery_neg_n0_inv_mod_l_mp p in
  match neg with
  | Err _ => dassert false ;; ret (Err MrInvalidCandidate)
  | Ok neg_p0_inv_mod_l =>
    let! '(_, _, is_probable_prime) :=
      zfor_down 1 (8 * mp_len p) (mr_step mg_base p mg_radix_mod_p neg_p0_inv_mod_l first_set_bit_pos) (base_pow, pow_scratch, 0) in
    let! r := lc_new is_probable_prime in
    ret (Ok r)
  end.

End Model.
