(** Model of the prime wheel sieve in src/prime_impl.rs, lines 505-836. Each [&mut] argument is returned updated. *)
From Coq Require Import ZArith List Bool.
Require Import Verif.Spec Verif.Monad Verif.ModelLimb Verif.ModelBuf Verif.ModelCmp Verif.ModelDiv.
Import ListNotations.
Open Scope Z_scope.

(** FIRST_PRIMES, prime_impl.rs:505 *)
Definition FIRST_PRIMES : list Z := [2; 3; 5; 7; 11; 13; 17; 19; 23; 29; 31; 37; 41; 43; 47].

(** A Rust [loop] or [while] such as those at prime_impl.rs:550-580 and 804: the body either continues with a new state ([inl]) or breaks with a value ([inr]). At most 2^k
    iterations are run. *)
Fixpoint loop_pow {A R} (k : nat) (body : A -> M (A + R)) (a : A) : M (A + R) :=
  match k with
  | O => body a
  | S k => let! r := loop_pow k body a in
           match r with inl a => loop_pow k body a | inr v => ret (inr v) end
  end.
(** The loop (prime_impl.rs:550-580, 804) is given 2^64 iterations, more than any of the loops below run for; needing more of them counts as a panic, so
    that a theorem excluding panics shows them to suffice. *)
Definition mloop {A R} (body : A -> M (A + R)) (a : A) : M R :=
  let! r := loop_pow 64 body a in
  match r with inl _ => panic | inr v => ret v end.

(** The value of a constant evaluated at compile time, such as those at prime_impl.rs:625, 644-650 and 775-776; a panic there would fail the build. *)
Definition const_eval (m : M Z) : Z := match snd m with Some v => v | None => -1 end.

Section Model.
Context {c : cfg}.

(** One iteration of the search, prime_impl.rs:515-529. *)
Definition ct_find_step (v : list Z) (val : Z) (s : Z * Z * Z) : M (Z * Z * Z + Z) :=
  let '(lb, ub, r) := s in
  mif (1 <? r) then
    let m := lb + (r + 1) / 2 in
    let! i := usub m 1 in
    let! p := znth v i in
    let! pivot_is_lt := ct_lt_l_l p val in
    let r_odd := Z.land r 1 in
    let! x := usub ub m in
    let! y := usub m lb in
    dassert (x + r_odd =? y) ;;
    let! z := usub m r_odd in
    let lb := lc_select_usize pivot_is_lt lb z in
    let ub := lc_select_usize pivot_is_lt m ub in
    let! r := usub ub lb in
    ret (inl (lb, ub, r))
  else ret (inr lb).

(** ct_find_first_ge_than, prime_impl.rs:507-532.  [*v.iter().last().unwrap()] is read in debug builds only. *)
Definition ct_find_first_ge_than (v : list Z) (val : Z) : M Z :=
  dassert_m (let! i := usub (zlen v) 1 in let! x := znth v i in ret (val <=? x)) ;;
  let ub := zlen v in
  let! r := usub ub 0 in
  mloop (ct_find_step v val) (0, ub, r).

(** One iteration of the search, prime_impl.rs:558-568. *)
Definition cnst_find_step (v : list Z) (val : Z) (s : Z * Z * Z) : M (Z * Z * Z + Z) :=
  let '(lb, ub, r) := s in
  mif (1 <? r) then
    let m := lb + (r + 1) / 2 in
    let! i := usub m 1 in
    let! p := znth v i in
    let! '(lb, ub) := (mif (p <? val) then ret (m, ub) else ret (lb, m)) in
    let! r := usub ub lb in
    ret (inl (lb, ub, r))
  else ret (inr lb).

(** cnst_find_first_ge_than, prime_impl.rs:550-571 *)
Definition cnst_find_first_ge_than (v : list Z) (val : Z) : M Z :=
  dassert (negb (zlen v =? 0)) ;;
  dassert_m (let! i := usub (zlen v) 1 in let! x := znth v i in ret (val <=? x)) ;;
  let ub := zlen v in
  let! r := usub ub 0 in
  mloop (cnst_find_step v val) (0, ub, r).

(** The loop of first_primes_primorial_nfactors_for_max, prime_impl.rs:591-598, over the primes left to visit. *)
Fixpoint nfactors_loop (l : list Z) (max prod n : Z) : M Z :=
  match l with
  | [] => ret n
  | next_p :: l =>
    mif (max / next_p <? prod) then ret n
    else let! prod := lmul prod next_p in nfactors_loop l max prod (n + 1)
  end.
(** first_primes_primorial_nfactors_for_max, prime_impl.rs:588-601 *)
Definition first_primes_primorial_nfactors_for_max (max : Z) : M Z := nfactors_loop FIRST_PRIMES max 1 0.

(** first_primes_primorial, prime_impl.rs:603-612 *)
Definition first_primes_primorial (n : Z) : M Z :=
  dassert_m (let! k := first_primes_primorial_nfactors_for_max (B - 1) in ret (n <=? k)) ;;
  zfor 0 n (fun i prod => let! p := znth FIRST_PRIMES i in lmul prod p) 1.

(** ** Level 0 *)

(** PrimeWheelSieveLvl0, prime_impl.rs:614-618 *)
Record lvl0 := mk_lvl0 { w0_next_index : Z; w0_last_offset : Z; w0_next_offset_delta : Z }.

(** PRIMORIAL_NFACTORS, PRIMORIAL, NOFFSETS, OFFSETS, MAX_OFFSET, offset_delta_at_wrap, prime_impl.rs:624-654. The
    compile-time assertion of lines 627-642 is part of NOFFSETS. *)
Definition L0_NFACTORS : Z := 3.
(** PRIMORIAL, prime_impl.rs:625 *)
Definition L0_PRIMORIAL : Z := const_eval (first_primes_primorial L0_NFACTORS) mod 256.
(** NOFFSETS, prime_impl.rs:644-647, with the assertion of 637-641 *)
Definition L0_NOFFSETS : Z := const_eval (
  let! p := znth FIRST_PRIMES L0_NFACTORS in
  assert (L0_PRIMORIAL <? p * p) ;;
  let! i := cnst_find_first_ge_than FIRST_PRIMES L0_PRIMORIAL in
  let! d := usub i L0_NFACTORS in
  ret (d + 1)).
(** OFFSETS, prime_impl.rs:649 *)
Definition OFFSETS : list Z := [1; 7; 11; 13; 17; 19; 23; 29].
(** MAX_OFFSET, prime_impl.rs:650 *)
Definition MAX_OFFSET : Z := const_eval (let! i := usub L0_NOFFSETS 1 in znth OFFSETS i).
(** offset_delta_at_wrap, prime_impl.rs:652-654 *)
Definition offset_delta_at_wrap : M Z := ovf 8 (L0_PRIMORIAL - MAX_OFFSET).

(** Rust's [%] on LimbType, prime_impl.rs:659,822: panics on zero, not constant time. *)
Definition lmodhw (a b : Z) : M Z := tick (EDiv a b) ;; if b =? 0 then panic else ret (a mod b).

(** PrimeWheelSieveLvl0::start_geq_than, prime_impl.rs:656-673 *)
Definition lvl0_start_geq_than (lower_bound : Z) : M lvl0 :=
  let! r := lmodhw lower_bound L0_PRIMORIAL in
  let offset_lower_bound := r mod 256 in
  dassert_m (let! i := usub L0_NOFFSETS 1 in let! x := znth OFFSETS i in let! y := ovf 8 (L0_PRIMORIAL - 1) in ret (x =? y)) ;;
  let! offset_index := ct_find_first_ge_than OFFSETS offset_lower_bound in
  ret (mk_lvl0 offset_index offset_lower_bound 0).

(** PrimeWheelSieveLvl0::advance, prime_impl.rs:682-689 *)
Definition lvl0_advance (w : lvl0) : M lvl0 :=
  let last_index := w0_next_index w in
  let next_index := w0_next_index w + 1 in
  let! wrapped := ct_eq_usize_usize next_index L0_NOFFSETS in
  let next_index := lc_select_usize wrapped next_index 0 in
  let! o := znth OFFSETS last_index in
  let last_offset := lc_select wrapped o 0 mod 256 in
  let! d := offset_delta_at_wrap in
  let next_offset_delta := lc_select wrapped 0 d mod 256 in
  ret (mk_lvl0 next_index last_offset next_offset_delta).

(** PrimeWheelSieveLvl0::produce_next_delta, prime_impl.rs:675-680 *)
Definition lvl0_produce_next_delta (w : lvl0) : M (Z * lvl0) :=
  let! next_offset := znth OFFSETS (w0_next_index w) in
  let! x := ovf 8 (next_offset + w0_next_offset_delta w) in
  let! delta := ovf 8 (x - w0_last_offset w) in
  let! w := lvl0_advance w in
  ret (delta, w).

(** ** Level 1: PrimeWheelSieve *)

(** PrimeWheelSieveLvl1, prime_impl.rs:768-772 *)
Record lvl1 := mk_lvl1 { w1_lvl0_wheel : lvl0; w1_last_offset : Z; w1_last_offset_delta : Z }.

(** PRIMORIAL_NFACTORS, PRIMORIAL, prime_impl.rs:775-776 *)
Definition L1_NFACTORS : Z := const_eval (first_primes_primorial_nfactors_for_max (B - 1)).
(** PRIMORIAL, prime_impl.rs:776 *)
Definition L1_PRIMORIAL : Z := const_eval (first_primes_primorial L1_NFACTORS).

(** PrimeWheelSieveLvl1::start_geq_than, prime_impl.rs:778-798 *)
Definition lvl1_start_geq_than (lower_bound : mp) : M lvl1 :=
  let! d := ct_l_divisor_nonct_new L1_PRIMORIAL in
  match d with
  | Err _ => panic
  | Ok d =>
    let! offset_lower_bound := ct_mod_mp_l lower_bound d in
    let! lower_bound_leq_one := ct_leq_mp_l lower_bound 1 in
    let last_offset_delta := lc_select lower_bound_leq_one 0 (lwsub 2 offset_lower_bound) in
    let! offset_lower_bound := ladd offset_lower_bound last_offset_delta in
    let! lvl0_wheel := lvl0_start_geq_than offset_lower_bound in
    ret (mk_lvl1 lvl0_wheel offset_lower_bound (last_offset_delta mod 256))
  end.

(** The check against the remaining factors, prime_impl.rs:816-824. *)
Fixpoint not_coprime_loop (factors : list Z) (next_offset is_not_coprime : Z) : M Z :=
  match factors with
  | [] => tick (EBr false) ;; ret is_not_coprime
  | factor :: factors =>
    tick (EBr true) ;;
    let! rem := lmodhw next_offset factor in
    let! z := ct_eq_l_l rem 0 in
    not_coprime_loop factors next_offset (lc_or is_not_coprime z)
  end.

(** One iteration of the loop, prime_impl.rs:804-829; the state is (self.lvl0_wheel, next_offset, last_offset) and the
    value at the break (self.lvl0_wheel, next_offset, last_offset, next_offset_delta). *)
Definition lvl1_step (self_last_offset : Z) (s : lvl0 * Z * Z) : M (lvl0 * Z * Z + lvl0 * Z * Z * Z) :=
  let '(w, next_offset, last_offset) := s in
  let! '(lvl0_delta, w) := lvl0_produce_next_delta w in
  let! next_offset := ladd next_offset lvl0_delta in
  let! wrapped := ct_geq_l_l next_offset L1_PRIMORIAL in
  let next_offset := lc_select wrapped next_offset (lwsub next_offset L1_PRIMORIAL) in
  let last_offset := lc_select wrapped last_offset 0 in
  let! x := lsub L1_PRIMORIAL self_last_offset in
  let next_offset_delta := lc_select wrapped 0 x in
  let! is_not_coprime := lc_new 0 in
  let! is_not_coprime := not_coprime_loop (skipn (Z.to_nat L0_NFACTORS) (firstn (Z.to_nat L1_NFACTORS) FIRST_PRIMES))
                           next_offset is_not_coprime in
  mif (negb (lc_unwrap is_not_coprime =? 0)) then ret (inl (w, next_offset, last_offset))
  else ret (inr (w, next_offset, last_offset, next_offset_delta)).

(** PrimeWheelSieveLvl1::produce_next_delta, prime_impl.rs:800-835 *)
Definition lvl1_produce_next_delta (self : lvl1) : M (Z * lvl1) :=
  let! '(w, next_offset, last_offset, next_offset_delta) :=
    mloop (lvl1_step (w1_last_offset self)) (w1_lvl0_wheel self, w1_last_offset self, w1_last_offset self) in
  let last_offset_delta := w1_last_offset_delta self in
  let! x := ladd next_offset next_offset_delta in
  let! y := lsub last_offset last_offset_delta in
  let! delta := lsub x y in
  ret (delta, mk_lvl1 w next_offset 0).

(** A caller's successive calls of produce_next_delta() on one wheel. *)
Fixpoint lvl1_produce_deltas (n : nat) (self : lvl1) : M (list Z * lvl1) :=
  match n with
  | O => ret ([], self)
  | S n => let! '(d, self) := lvl1_produce_next_delta self in
           let! '(ds, self) := lvl1_produce_deltas n self in
           ret (d :: ds, self)
  end.
End Model.
