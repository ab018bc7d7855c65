(** Two RSA moduli just below a power of the limb base, for limbs of 64 and 32 bits: their factors and matching exponents. *)
From Coq Require Import ZArith List.
Require Import Verif.Spec.
Import ListNotations.
Open Scope Z_scope.

Record rsa_numbers := { rsa_p : Z; rsa_q : Z; rsa_e : Z; rsa_d : Z }.
Definition rsa_wrong (l64 : bool) : rsa_numbers :=
  if l64 then {| rsa_p := 2 ^ 64 + 749547; rsa_q := 2 ^ 64 - 749547; rsa_e := 5; rsa_d := 2001660981887873314273418345426637665 |}
  else {| rsa_p := 2 ^ 32 + 4755; rsa_q := 2 ^ 32 - 4755; rsa_e := 7; rsa_d := 87841638405223843 |}.

(** For C55: the limbs of two primes [p] and [q] and of the inverse of [q] modulo [p], a message, the two low limbs and the high limb of its ciphertext, the
    exponents of encryption and decryption. The primes [p] are 2^128 - 18705 and 2^64 - 189. *)
Record crt_numbers := { w_p : list Z; w_q : list Z; w_qinv : list Z; w_m : Z; w_x : list Z; w_xh : Z; w_e : Z; w_d : Z }.
Definition crt_wrong (l64 : bool) : crt_numbers :=
  if l64 then {| w_p := [18446744073709532911; 18446744073709551615]; w_q := [23; 0]; w_qinv := [7218291159277640060; 10426420563401050913]; w_m := 7826494439181584659657615970930668433145; w_x := [18446744073709121399; 18446744073709551615]; w_xh := 22; w_e := 3208376602397419798368960584356671531643; w_d := 7 |}
  else {| w_p := [4294967107; 4294967295]; w_q := [23; 0]; w_qinv := [2054114613; 4108229587]; w_m := 424275113695319682789; w_x := [4294962947; 4294967295]; w_xh := 22; w_e := 162331347848644052549; w_d := 5 |}.
