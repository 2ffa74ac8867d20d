(* Final theorems for spffl/intmath (integers) and spffl/factorization/int_factor. *)
From Verif Require Import Base MIntMath MPrimes16 MPrime MFac PIntMath PIntMath2 PPrime PFac.
From Coq Require Import Znumtheory.
Open Scope Z_scope.

(* ---- C01 ---- *)
Theorem C01_gcd (a b : Z) : Z.abs a <= INT_MAX -> Z.abs b <= INT_MAX ->
  exists g, int_gcd a b = Ok g /\
    (g | a) /\ (g | b) /\ (forall d, (d | a) -> (d | b) -> (d | g)) /\
    (g = 0 <-> a = 0 /\ b = 0) /\
    ((a <> 0 /\ b <> 0) \/ (0 <= a /\ 0 <= b) -> 0 <= g).
Proof. exact (int_gcd_spec a b). Qed.
Example C01_ex : Z.abs (-84) <= INT_MAX /\ Z.abs 36 <= INT_MAX /\ int_gcd (-84) 36 = Ok 12.
Proof. repeat split; vm_compute; congruence. Qed.
(* The arguments left out: the most negative int. *)
Theorem C01_gcd_int_min (b : Z) : b <> 0 -> int_gcd INT_MIN b = UB.
Proof. intros Hb. unfold int_gcd. replace (b =? 0) with false by lia. reflexivity. Qed.

(* ---- C02 ---- *)
Theorem C02_ext_gcd (a b : Z) : b <> 0 -> Z.abs a <= INT_MAX -> Z.abs b <= INT_MAX ->
  exists g m n, int_ext_gcd a b = Ok (g, m, n) /\ a * m + b * n = g /\ Z.abs g = Z.gcd a b
    /\ Z.abs m <= Z.abs b /\ Z.abs n <= Z.max 1 (Z.abs a).
Proof. exact (int_ext_gcd_gen a b). Qed.
Theorem C02_ext_gcd_pos (a b : Z) : 0 < a <= INT_MAX -> 0 < b <= INT_MAX ->
  exists m n, int_ext_gcd a b = Ok (Z.gcd a b, m, n) /\ a * m + b * n = Z.gcd a b.
Proof. exact (int_ext_gcd_pos a b). Qed.
Theorem C02_ext_gcd_zero (a : Z) : int_ext_gcd a 0 = UB.
Proof. exact (int_ext_gcd_zero a). Qed.
Theorem C02_lcm (a b : Z) : 0 < a <= INT_MAX -> 0 < b <= INT_MAX -> a * b <= INT_MAX ->
  int_lcm a b = Ok (Z.lcm a b).
Proof. exact (int_lcm_pos a b). Qed.
Example C02_ex : int_ext_gcd 240 46 = Ok (2, -9, 47) /\ int_lcm 12 18 = Ok 36.
Proof. split; vm_compute; reflexivity. Qed.

(* ---- C03 ---- *)
Theorem C03_sqrt_floor (n : Z) : 0 <= n <= INT_MAX ->
  exists r, int_sqrt_floor n = Ok r /\ 0 <= r /\ r * r <= n < (r + 1) * (r + 1).
Proof. exact (int_sqrt_ok false n). Qed.
Theorem C03_sqrt_ceil (n : Z) : 0 <= n <= INT_MAX ->
  exists r, int_sqrt_ceil n = Ok r /\ 0 <= r /\ n <= r * r /\ forall x, 0 <= x -> n <= x * x -> r <= x.
Proof. exact (int_sqrt_ok true n). Qed.
Theorem C03_sqrt_neg (c : bool) (n : Z) : n < 0 -> int_sqrt c n = Exn.
Proof. intros H. unfold int_sqrt. replace (n <? 0) with true by lia. reflexivity. Qed.
Example C03_ex : int_sqrt_floor 2147395600 = Ok 46340 /\ int_sqrt_floor 2147395599 = Ok 46339
  /\ int_sqrt_ceil 2147395601 = Ok 46341 /\ int_sqrt_ceil 0 = Ok 0.
Proof. repeat split; vm_compute; reflexivity. Qed.

(* ---- C04 ---- *)
(* The claim as stated fails: 2^16 fits, but the squaring after the last
   multiplication computes 2^32. *)
Theorem C04_power_refuted : exists b e, 0 <= e /\ Z.abs (b ^ e) <= INT_MAX /\ int_power b e = UB.
Proof. exists 2, 16. repeat split; vm_compute; congruence. Qed.
(* Exactly when it holds. *)
Theorem C04_power_exact (b e : Z) : 1 <= e <= INT_MAX ->
  (Z.abs b ^ (2 ^ (Z.log2 e + 1)) <= INT_MAX -> int_power b e = Ok (b ^ e)) /\
  (INT_MAX < Z.abs b ^ (2 ^ (Z.log2 e + 1)) -> int_power b e = UB).
Proof. exact (int_power_iff b e). Qed.
Theorem C04_power_zero (b : Z) : int_power b 0 = Ok 1.
Proof. reflexivity. Qed.
Example C04_ex : int_power (-3) 7 = Ok (-2187) /\ Z.abs (-3) ^ (2 ^ (Z.log2 7 + 1)) <= INT_MAX.
Proof. split; vm_compute; congruence. Qed.

(* ---- C05 ---- *)
Theorem C05_totient (n : Z) : 2 <= n <= INT_MAX ->
  exists l, NoDup l /\ (forall x, In x l <-> 0 <= x < n /\ exists y, (x * y) mod n = 1 mod n) /\
            int_totient n = Ok (Z.of_nat (length l)).
Proof. exact (int_totient_units n). Qed.
Theorem C05_totient_one_refuted :
  exists l, NoDup l /\ (forall x, In x l <-> 0 <= x < 1 /\ exists y, (x * y) mod 1 = 1 mod 1) /\
            int_totient 1 <> Ok (Z.of_nat (length l)).
Proof.
  exists [0]. split; [repeat constructor; intros []|]. split; [|vm_compute; discriminate].
  intros x. split; [intros [<-|[]]; split; [lia|exists 0; reflexivity]|intros [H _]; left; lia].
Qed.
Example C05_ex : int_totient 36 = Ok 12.
Proof. vm_compute. reflexivity. Qed.

(* ---- C06 ---- *)
Theorem C06_is_prime (n : Z) : Z.abs n <= INT_MAX ->
  exists b, is_prime n = Ok b /\ (b = true <-> prime (Z.abs n)).
Proof. exact (isprime_table_ok n). Qed.
Theorem C06_trial (n : Z) : Z.abs n <= INT_MAX ->
  exists b, isprime_trial n = Ok b /\ (b = true <-> prime (Z.abs n)).
Proof. exact (isprime_trial_ok n). Qed.
Theorem C06_agree (n : Z) : Z.abs n <= INT_MAX -> isprime_trial n = isprime_table n.
Proof. exact (isprime_agree n). Qed.
Theorem C06_nth_prime (k : Z) : 1 <= k <= 6542 ->
  exists p l, nth_prime k = Ok p /\ prime p /\ NoDup l /\
    (forall q, In q l <-> prime q /\ q < p) /\ Z.of_nat (length l) = k - 1.
Proof. exact (nth_prime_ok k). Qed.
Theorem C06_nth_prime_reject (k : Z) : k < 1 \/ 6542 < k -> nth_prime k = Exn.
Proof. exact (nth_prime_reject k). Qed.
Example C06_ex : is_prime 2147483647 = Ok true /\ is_prime (-15) = Ok false
  /\ isprime_trial 65537 = Ok true /\ nth_prime 6542 = Ok 65521.
Proof. repeat split; vm_compute; reflexivity. Qed.

(* ---- C07 ---- *)
Theorem C07_factor (n : Z) : n <> 0 -> Z.abs n <= INT_MAX ->
  exists g, int_factor n = Ok g /\
    (forall p c, In (p, c) (facs g) -> prime p /\ 1 <= c) /\ increasing (map fst (facs g)) /\
    Z.abs (unit_value (funit g)) = 1 /\ unit_value (funit g) * fac_value (facs g) = n.
Proof. exact (int_factor_full n). Qed.
Theorem C07_factor_int_min : int_factor INT_MIN = UB.
Proof. vm_compute. reflexivity. Qed.
Theorem C07_factor_zero : int_factor 0 = Ok (mkfac [] (Some 0)).
Proof. reflexivity. Qed.
Example C07_ex : int_factor (-1572888) = Ok (mkfac [(2,3); (3,1); (65537,1)] (Some (-1))).
Proof. vm_compute. reflexivity. Qed.

(* ---- C08 ---- *)
Theorem C08_msb32 (n : Z) : 0 < n < 2^32 -> find_msb_32 n = Ok (Z.log2 n).
Proof. exact (find_msb_32_ok n). Qed.
Theorem C08_msb64 (n : Z) : 0 < n < 2^64 -> find_msb_64 n = Ok (Z.log2 n).
Proof. exact (find_msb_64_ok n). Qed.
Theorem C08_lsb32 (n : Z) : 0 < n < 2^32 -> exists r, find_lsb_32 n = Ok r /\ lowest_bit n r.
Proof. exact (find_lsb_32_ok n). Qed.
Theorem C08_lsb64 (n : Z) : 0 < n < 2^64 -> exists r, find_lsb_64 n = Ok r /\ lowest_bit n r.
Proof. exact (find_lsb_64_ok n). Qed.
Theorem C08_log2_ceil (n : Z) : 0 < n < 2^32 ->
  exists r, calc_log2_unsigned_ceil n = Ok r /\ 0 <= r /\ n <= 2 ^ r /\ forall k, 0 <= k -> n <= 2^k -> r <= k.
Proof. exact (log2_ceil_ok n). Qed.
Theorem C08_log2_ll_ceil (n : Z) : 0 < n < 2^64 ->
  exists r, calc_log2_unsigned_ll_ceil n = Ok r /\ 0 <= r /\ n <= 2 ^ r /\ forall k, 0 <= k -> n <= 2^k -> r <= k.
Proof. exact (log2_ll_ceil_ok n). Qed.
Theorem C08_log10 (n : Z) : 0 < n < 2^32 ->
  exists r, calc_log10_unsigned_floor n = Ok r /\ 0 <= r /\ 10 ^ r <= n < 10 ^ (r + 1).
Proof. exact (log10_ok n). Qed.
Example C08_ex : find_msb_64 1311768467463790320 = Ok 60 /\ find_lsb_64 4503599627370496 = Ok 52
  /\ calc_log2_unsigned_ll_ceil (2^63+1) = Ok 64 /\ calc_log10_unsigned_floor 4294967295 = Ok 9.
Proof. repeat split; vm_compute; reflexivity. Qed.

Print Assumptions C01_gcd. Print Assumptions C01_gcd_int_min.
Print Assumptions C02_ext_gcd. Print Assumptions C02_ext_gcd_pos. Print Assumptions C02_ext_gcd_zero. Print Assumptions C02_lcm.
Print Assumptions C03_sqrt_floor. Print Assumptions C03_sqrt_ceil. Print Assumptions C03_sqrt_neg.
Print Assumptions C04_power_refuted. Print Assumptions C04_power_exact. Print Assumptions C04_power_zero.
Print Assumptions C05_totient. Print Assumptions C05_totient_one_refuted.
Print Assumptions C06_is_prime. Print Assumptions C06_trial. Print Assumptions C06_agree.
Print Assumptions C06_nth_prime. Print Assumptions C06_nth_prime_reject.
Print Assumptions C07_factor. Print Assumptions C07_factor_int_min. Print Assumptions C07_factor_zero.
Print Assumptions C08_msb32. Print Assumptions C08_msb64. Print Assumptions C08_lsb32. Print Assumptions C08_lsb64.
Print Assumptions C08_log2_ceil. Print Assumptions C08_log2_ll_ceil. Print Assumptions C08_log10.
