(* Model of spffl/intmath/is_prime.cpp. Definitions only. *)
From Verif Require Import Base MPrimes16.
Open Scope Z_scope.

(* is_prime.cpp:20-24 and 49-53: `if (n == -n) return false; else if (n<0) n = -n;`
   (-n is undefined for INT_MIN). *)
Definition prime_abs (n : Z) : res Z :=
  m <- ineg n ;; Ok (if n <? 0 then m else n).

(* is_prime.cpp:34-39: for (d = 3, q = n; d <= q; d += 2) ...   State (d, q). *)
Definition trial_step (n : Z) (s : Z * Z) : res ((Z * Z) + bool) :=
  let '(d, q) := s in
  if d <=? q then
    q' <- idiv n d ;;
    p <- imul q' d ;;
    if n =? p then Ok (inr false)
    else d' <- iadd d 2 ;; Ok (inl (d', q'))
  else Ok (inr true).

(* is_prime.cpp:17-42.  The zero case `n == -n` returns false like n <= 1. *)
Definition isprime_trial (n : Z) : res bool :=
  n <- prime_abs n ;;
  if n <=? 1 then Ok false
  else if n <=? 3 then Ok true
  else if Z.land n 1 =? 0 then Ok false
  else loop (Z.to_nat (Z.sqrt n + 3)) (trial_step n) (3, n).

(* is_prime.cpp:60-72: for (i = 0; i < numprimes16; i++).  All unsigned. *)
Fixpoint table_loop (ps : list Z) (un : Z) : bool :=
  match ps with
  | [] => true
  | p :: ps' =>
      if un mod p =? 0 then un =? p
      else if u32 (p * p) >? un then true
      else table_loop ps' un
  end.

(* is_prime.cpp:45-73 *)
Definition isprime_table (n : Z) : res bool :=
  n <- prime_abs n ;;
  if n <=? 1 then Ok false else Ok (table_loop primes_16 n).

(* is_prime.cpp:76-79 *)
Definition is_prime (n : Z) : res bool := isprime_table n.

(* is_prime.cpp:82-93 *)
Definition nth_prime (n : Z) : res Z :=
  if n >? Z.of_nat (length primes_16) then Exn
  else if n <? 1 then Exn
  else match nth_error primes_16 (Z.to_nat (n - 1)) with Some p => Ok p | None => UB end.
