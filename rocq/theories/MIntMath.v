(* Model of spffl/intmath: int_gcd.cpp, int_power.cpp, int_sqrt.cpp,
   int_totient.cpp, log10.cpp, log2.cpp. Definitions only. *)
From Verif Require Import Base.
Open Scope Z_scope.

(* spffl/intmath/int_gcd.cpp:29-36.  One turn of the while(1) loop on (a,b). *)
Definition gcd_step (s : Z * Z) : res ((Z * Z) + Z) :=
  let '(a, b) := s in
  r <- imod a b ;;
  if r =? 0 then Ok (inr b) else Ok (inl (b, r)).

(* Fuel: the product a*b at least halves on each turn after the first. *)
Definition gcd_fuel (a b : Z) : nat := Z.to_nat (Z.log2 (Z.abs a * Z.abs b) + 3).

(* spffl/intmath/int_gcd.cpp:12-39 *)
Definition int_gcd (a b : Z) : res Z :=
  if a =? 0 then Ok b
  else if b =? 0 then Ok a
  else
    a <- (if a <? 0 then ineg a else Ok a) ;;
    b <- (if b <? 0 then ineg b else Ok b) ;;
    loop (gcd_fuel a b) gcd_step (a, b).

(* spffl/intmath/int_gcd.cpp:42-81.  State: (mprime, m, nprime, n, c, d). *)
Definition ext_gcd_step (s : Z * Z * Z * Z * Z * Z)
  : res ((Z * Z * Z * Z * Z * Z) + (Z * Z * Z)) :=
  let '(mprime, m, nprime, n, c, d) := s in
  q <- idiv c d ;;
  r <- imod c d ;;
  if r =? 0 then Ok (inr (d, m, n))
  else
    qm <- imul q m ;;
    m' <- isub mprime qm ;;
    qn <- imul q n ;;
    n' <- isub nprime qn ;;
    Ok (inl (m, m', n, n', d, r)).

(* Returns (d, m, n): the return value and the two reference parameters. *)
Definition int_ext_gcd (a b : Z) : res (Z * Z * Z) :=
  loop (gcd_fuel a b) ext_gcd_step (1, 0, 0, 1, a, b).

(* spffl/intmath/int_gcd.cpp:84 *)
Definition int_lcm (a b : Z) : res Z :=
  p <- imul a b ;;
  g <- int_gcd a b ;;
  idiv p g.

(* spffl/intmath/int_power.cpp:11-23.  State (e, b2, rv); e is reduced by an
   unsigned shift, so a negative e becomes e + 2^32 first. *)
Definition power_step (s : Z * Z * Z) : res ((Z * Z * Z) + Z) :=
  let '(e, b2, rv) := s in
  if e =? 0 then Ok (inr rv)
  else
    rv <- (if Z.odd e then imul rv b2 else Ok rv) ;;
    b2' <- imul b2 b2 ;;
    Ok (inl (u32 e / 2, b2', rv)).
Definition int_power (b e : Z) : res Z := loop 34 power_step (e, b, 1).

(* spffl/intmath/int_sqrt.cpp:26-28: number of base-4 digits of n. *)
Fixpoint half_log_loop (fuel : nat) (nsv half_log : Z) : res Z :=
  match fuel with
  | O => Div
  | S k => if nsv =? 0 then Ok half_log else half_log_loop k (nsv / 4) (half_log + 1)
  end.

(* spffl/intmath/int_sqrt.cpp:33-46.  All quantities are unsigned 32 bit. *)
Definition sqrt_step (want_ceil : bool) (n : Z) (s : Z * Z * Z) : res ((Z * Z * Z) + Z) :=
  let '(lower, upper, diff) := s in
  if diff >? 0 then
    let half_diff := diff / 2 in
    let middle := u32 (lower + half_diff) in
    let middle_sq := u32 (middle * middle) in
    if middle_sq =? n then Ok (inr middle)
    else if middle_sq <? n then Ok (inl (u32 (lower + half_diff), upper, half_diff))
    else Ok (inl (lower, u32 (upper - half_diff), half_diff))
  else Ok (inr (if want_ceil then upper else lower)).

(* spffl/intmath/int_sqrt.cpp:14-55.  `1 << half_log` is an int shift. *)
Definition int_sqrt (want_ceil : bool) (n : Z) : res Z :=
  if n <? 0 then Exn
  else if n =? 0 then Ok 0
  else
    half_log <- half_log_loop 20 n 0 ;;
    lower <- chk (2 ^ (half_log - 1)) ;;
    let upper := u32 (lower * 2) in
    let diff := u32 (upper - lower) in
    loop 40 (sqrt_step want_ceil n) (lower, upper, diff).
Definition int_sqrt_ceil (n : Z) := int_sqrt true n.
Definition int_sqrt_floor (n : Z) := int_sqrt false n.

(* spffl/intmath/int_totient.cpp:11-23 *)
Fixpoint totient_loop (k : nat) (n i phi : Z) : res Z :=
  match k with
  | O => Ok phi
  | S k' =>
      g <- int_gcd n i ;;
      phi' <- (if g =? 1 then iadd phi 1 else Ok phi) ;;
      totient_loop k' n (i + 1) phi'
  end.
Definition int_totient (n : Z) : res Z := totient_loop (Z.to_nat (n - 1)) n 1 0.

(* spffl/intmath/log10.cpp:5-14 (unsigned argument) *)
Fixpoint log10_loop (fuel : nat) (n rv : Z) : res Z :=
  match fuel with
  | O => Div
  | S k => if n >? 0 then log10_loop k (n / 10) (rv + 1) else Ok rv
  end.
Definition calc_log10_unsigned_floor (n : Z) : res Z := log10_loop 12 (n / 10) 0.

(* ---------------------------------------------------------------- *)
(* spffl/intmath/log2.cpp:11-23 *)
Definition u4_table : list Z := [0;0;1;1;2;2;2;2;3;3;3;3;3;3;3;3].
Definition l4_table : list Z := [0;0;1;0;2;0;1;0;3;0;1;0;2;0;1;0].
Definition tab (t : list Z) (i : Z) : res Z :=
  match nth_error t (Z.to_nat i) with Some v => Ok v | None => UB end.

(* spffl/intmath/log2.cpp: `if (upper) {rv += k; n = upper} else n &= mask` *)
Definition msb_half (k : Z) (s : Z * Z) : Z * Z :=
  let '(n, rv) := s in
  let upper := Z.shiftr n k in
  if upper =? 0 then (Z.land n (2 ^ k - 1), rv) else (upper, rv + k).
(* log2.cpp:26-53 *)
Definition find_msb_16 (n : Z) : res Z :=
  let '(n, rv) := msb_half 4 (msb_half 8 (n, 0)) in
  t <- tab u4_table n ;; Ok (rv + t).
(* log2.cpp:56-102 *)
Definition find_msb_32 (n : Z) : res Z :=
  let '(n, rv) := msb_half 4 (msb_half 8 (msb_half 16 (n, 0))) in
  t <- tab u4_table n ;; Ok (rv + t).
(* log2.cpp:105-116 *)
Definition find_msb_64 (n : Z) : res Z :=
  let upper := u32 (Z.shiftr n 32) in
  if upper =? 0 then find_msb_32 (u32 n)
  else r <- find_msb_32 upper ;; Ok (r + 32).

(* log2.cpp: `lower = n & mask; if (lower) n = lower; else {n >>= k; rv += k}` *)
Definition lsb_half (k : Z) (s : Z * Z) : Z * Z :=
  let '(n, rv) := s in
  let lower := Z.land n (2 ^ k - 1) in
  if lower =? 0 then (Z.shiftr n k, rv + k) else (lower, rv).
(* log2.cpp:119-149 *)
Definition find_lsb_32 (n : Z) : res Z :=
  let '(n, rv) := lsb_half 4 (lsb_half 8 (lsb_half 16 (n, 0))) in
  t <- tab l4_table n ;; Ok (rv + t).
(* log2.cpp:152-159 *)
Definition find_lsb_64 (n : Z) : res Z :=
  let lower := u32 n in
  if lower =? 0 then r <- find_lsb_32 (u32 (Z.shiftr n 32)) ;; Ok (r + 32)
  else find_lsb_32 lower.

(* log2.cpp:162-165 *)
Definition calc_log2_unsigned_floor (n : Z) : res Z := find_msb_32 n.
(* log2.cpp:167-175 *)
Definition calc_log2_unsigned_ceil (n : Z) : res Z :=
  l <- find_msb_32 n ;;
  if u32 (Z.shiftl 1 l) =? n then Ok l else Ok (l + 1).
(* log2.cpp:178-191 *)
Definition calc_log2_unsigned_ll_floor (n : Z) : res Z := find_msb_64 n.
Definition calc_log2_unsigned_ll_ceil (n : Z) : res Z :=
  l <- find_msb_64 n ;;
  if Z.shiftl 1 l mod 18446744073709551616 =? n then Ok l else Ok (l + 1).
