(* Final theorems for the command-line program cli/spiff: the commands on integers (C94) and the choice of the command (C96). *)
From Verif Require Import Base MIntMath MPrimes16 MPrime MFac MIntmod MF2Poly MMatCli MTextIO MList MUnits MRandom MSpiff.
From Verif Require Import PIntMath PIntMath2 PPrime PFac PFacGen PFacInt PropInt PropCont PMatCli5 PPolyText PPolyText8 PTextIO3 PSpiff PSpiff2 PSpiff3.
From Coq Require Import Ascii String Znumtheory Lia.
Import ListNotations.
Open Scope Z_scope.
Local Notation length := List.length.
Local Notation walk := MSpiff.walk.

Section Run.
(* the commands that are not modelled, qsort, and the random numbers: any *)
Context (other : string -> list text -> prog Z) (qs : list (intmod * Z) -> list (intmod * Z)) {St : Type} (draw : St -> Z * St) (s0 : St).
(* the output and the exit status of spiff with a command and its arguments *)
Local Notation run name args := (spiff other qs draw s0 (txt name :: args)).

Definition ends (f : fin Z) : status :=
  match f with Val _ => Status 0 | Exit c => Status c | Throw => Status 0 | Undef => Undefined | Forever => Endless end.
Lemma run_known name args : teq (txt name) "-l" = false -> find_group lookup_groups name = true ->
  run name args = (fst (handler other qs draw s0 name args), ends (snd (handler other qs draw s0 name args))).
Proof.
  intros H1 H2. unfold spiff, try_main. rewrite H1. unfold txt. rewrite string_of_list_ascii_of_string, H2. reflexivity.
Qed.
Lemma run_eq name args (h : list text -> prog Z) : teq (txt name) "-l" = false -> find_group lookup_groups name = true ->
  handler other qs draw s0 name args = h args -> run name args = (fst (h args), ends (snd (h args))).
Proof. intros H1 H2 H3. rewrite (run_known _ _ H1 H2), H3. reflexivity. Qed.
Ltac known n h := rewrite (run_eq n _ h eq_refl eq_refl eq_refl).

(* ---- z_gcd ---- *)
(* prints an h whose divisors are exactly the common divisors of the arguments; not negative if no argument is, and
   positive if two arguments are not 0 *)
Theorem C94_gcd args vs : args <> [] -> Forall2 int_text args vs -> Forall (fun v => Z.abs v <= INT_MAX) vs ->
  exists h, run "z_gcd" args = (line (put_int h), Status 0) /\ (forall d, (d | h) <-> Forall (fun v => (d | v)) vs) /\
    (Forall (fun v => 0 <= v) vs -> 0 <= h) /\ ((2 <= length (filter (fun v => negb (v =? 0)%Z) vs))%nat -> 0 < h).
Proof.
  intros Hn H B. destruct H as [|s v args vs Hs H]; [congruence|]. inversion B as [|? ? Bv Bs]; subst.
  destruct (folded_gcd vs Bs v Bv) as (h & E & D & _ & P & _). exists h. known "z_gcd" z_gcd_main.
  rewrite (gcd_main_fold _ _ _ Hs), (fold_main_ok _ _ _ _ _ _ Hs H E). split; [reflexivity|]. split; [|split].
  - intros d. rewrite D. split; [intros [K1 K2]; constructor; assumption|intros K; inversion K; auto].
  - intros K. inversion K. auto.
  - exact (folded_gcd2 vs Bs v Bv h E).
Qed.
(* ... and negative for the single argument -6, and for the arguments 0 and -6. *)
Theorem C94_gcd_sign_refuted : run "z_gcd" [txt "-6"] = (line (txt "-6"), Status 0) /\ run "z_gcd" [txt "0"; txt "-6"] = (line (txt "-6"), Status 0).
Proof. split; vm_compute; reflexivity. Qed.
(* -e: Bezout's identity, if the products in it fit *)
Theorem C94_ext_gcd s1 s2 a b : int_text s1 a -> int_text s2 b -> b <> 0 -> Z.abs a * Z.abs b <= INT_MAX -> Z.abs a <= INT_MAX -> Z.abs b <= INT_MAX ->
  exists g r s, run "z_gcd" [txt "-e"; s1; s2] = (bezout_line g r a s b, Status 0) /\ a * r + b * s = g /\ Z.abs g = Z.gcd a b.
Proof.
  intros H1 H2 Hb B Ba Bb. destruct (C02_ext_gcd a b Hb Ba Bb) as (g & r & s & E & Hg & G & Lr & Ls). exists g, r, s.
  split; [|split; assumption]. known "z_gcd" z_gcd_main. rewrite (ext_main _ _ _ _ _ _ _ H1 H2 E).
  assert (Lg : Z.abs g <= Z.abs b).
  { rewrite G. rewrite <- (Z.gcd_abs_r a b). apply Z.divide_pos_le; [lia|]. apply Z.gcd_divide_r. }
  rewrite ext_check; [rewrite emit_ret; reflexivity|exact Hg| | |lia].
  - rewrite Z.abs_mul. nia.
  - rewrite Z.abs_mul. nia.
Qed.
(* With 0 as the second argument: undefined.  With two large arguments: undefined, after the line is printed. *)
Theorem C94_ext_gcd_zero_refuted s1 s2 a : int_text s1 a -> int_text s2 0 -> run "z_gcd" [txt "-e"; s1; s2] = ([], Undefined).
Proof.
  intros H1 H2. known "z_gcd" z_gcd_main. unfold z_gcd_main. change (teq (txt "-e") "-e") with true. cbv iota. unfold z_ext_gcd_main.
  rewrite (arg_int_ok _ _ H1), pb_ret, (arg_int_ok _ _ H2), pb_ret, C02_ext_gcd_zero. reflexivity.
Qed.
Theorem C94_ext_gcd_overflow_refuted :
  run "z_gcd" [txt "-e"; txt "1000000007"; txt "998244353"] = (bezout_line 1 (-4915446) 1000000007 4924091 998244353, Undefined).
Proof. vm_compute. reflexivity. Qed.

(* ---- z_lcm ---- *)
Theorem C94_lcm args vs : args <> [] -> Forall2 int_text args vs -> Forall (fun v => 0 < v) vs -> prod vs <= INT_MAX ->
  exists h, run "z_lcm" args = (line (put_int h), Status 0) /\ 0 < h /\ (forall m, (h | m) <-> Forall (fun v => (v | m)) vs).
Proof.
  intros Hn H P B. destruct H as [|s v args vs Hs H]; [congruence|]. inversion P as [|? ? Pv Ps]; subst.
  exists (fold_left Z.lcm vs v). known "z_lcm" z_lcm_main. unfold z_lcm_main.
  rewrite (fold_main_ok int_lcm s v args vs _ Hs H (folded_lcm vs Ps v Pv B)). split; [reflexivity|].
  clear - Pv Ps. revert v Pv. induction Ps as [|w vs Hw _ IH]; intros v Pv; cbn [fold_left].
  - split; [exact Pv|]. intros m. split; [intros K; repeat constructor; exact K|intros K; inversion K; assumption].
  - assert (L : 0 < Z.lcm v w).
    { pose proof (Z.lcm_nonneg v w). assert (Z.lcm v w <> 0); [|lia]. rewrite Z.lcm_eq_0. lia. }
    destruct (IH _ L) as [K1 K2]. split; [exact K1|]. intros m. rewrite K2. split; intros K.
    + inversion K as [|? ? D Ds]; subst. repeat constructor; auto.
      * apply Z.divide_trans with (Z.lcm v w); [apply Z.divide_lcm_l|exact D].
      * apply Z.divide_trans with (Z.lcm v w); [apply Z.divide_lcm_r|exact D].
    + inversion K as [|? ? D1 Ds]; subst. inversion Ds as [|? ? D2 Ds']; subst. constructor; [|exact Ds']. apply Z.lcm_least; assumption.
Qed.
(* The product need not fit for the result to fit: undefined. *)
Theorem C94_lcm_overflow_refuted : run "z_lcm" [txt "100000"; txt "100000"] = ([], Undefined).
Proof. vm_compute. reflexivity. Qed.
Theorem C94_lcm_zero_refuted : run "z_lcm" [txt "0"; txt "0"] = ([], Undefined).
Proof. vm_compute. reflexivity. Qed.

(* ---- z_totient, z_test_prime: a line for each argument ---- *)
Theorem C94_totient args vs : args <> [] -> Forall2 int_text args vs -> Forall (fun v => 2 <= v <= INT_MAX) vs ->
  exists ts, run "z_totient" args = (report ": " vs ts, Status 0) /\
    Forall2 (fun n t => exists l, NoDup l /\ (forall x, In x l <-> 0 <= x < n /\ exists y, (x * y) mod n = 1 mod n) /\ t = put_int (Z.of_nat (length l))) vs ts.
Proof.
  intros Hn H B.
  destruct (rel_list (fun n t => exists l, NoDup l /\ (forall x, In x l <-> 0 <= x < n /\ exists y, (x * y) mod n = 1 mod n) /\
    int_totient n = Ok (Z.of_nat (length l)) /\ t = put_int (Z.of_nat (length l))) vs) as [ts Hts].
  { intros n Hi. rewrite Forall_forall in B. destruct (C05_totient n (B n Hi)) as (l & K1 & K2 & K3). exists (put_int (Z.of_nat (length l))), l. auto. }
  exists ts. known "z_totient" z_totient_main. rewrite (totient_ok args vs ts Hn H); [split; [reflexivity|]|].
  - revert Hts. apply F2_impl. intros n t (l & K1 & K2 & K3 & K4). exists l. auto.
  - revert Hts. apply F2_impl. intros n t (l & K1 & K2 & K3 & K4). eexists. split; eassumption.
Qed.
Theorem C94_test_prime args vs : Forall2 int_text args vs -> Forall (fun v => Z.abs v <= INT_MAX) vs ->
  exists ts, run "z_test_prime" args = (report ": " vs ts, Status 0) /\
    Forall2 (fun n t => prime (Z.abs n) /\ t = txt "PRIME" \/ ~ prime (Z.abs n) /\ t = txt "not prime") vs ts.
Proof.
  intros H B.
  destruct (rel_list (fun n t => exists b, is_prime n = Ok b /\ (b = true <-> prime (Z.abs n)) /\ t = txt (if b : bool then "PRIME" else "not prime")) vs) as [ts Hts].
  { intros n Hi. rewrite Forall_forall in B. destruct (C06_is_prime n (B n Hi)) as (b & K1 & K2). eexists; exists b; auto. }
  exists ts. known "z_test_prime" z_test_prime_main. rewrite (test_prime_ok args vs ts H); [split; [reflexivity|]|].
  - revert Hts. apply F2_impl. intros n t (b & _ & K1 & ->). destruct b; [left|right]; (split; [|reflexivity]).
    + apply K1. reflexivity.
    + intros K. apply K1 in K. discriminate.
  - revert Hts. apply F2_impl. intros n t (b & K1 & _ & K3). exists b. auto.
Qed.

(* ---- the primes by number: the name of the command is what the source calls the function ---- *)
Theorem C94_nth_prime args (rs : list (Z * Z)) : args <> [] -> Forall2 (fun s r => range_text s (fst r) (snd r)) args rs ->
  Forall (fun r => 1 <= fst r /\ snd r <= 6542) rs ->
  exists pss, run "spffl::intmath::nth_prime" args = (List.concat (map (fun p => line (put_int p)) (List.concat pss)), Status 0) /\
    Forall2 (fun r ps => length ps = Z.to_nat (snd r - fst r + 1) /\ forall i p, nth_error ps i = Some p -> kth_prime (fst r + Z.of_nat i) p) rs pss.
Proof.
  intros Hn H B. destruct (nth_prime_ok args rs Hn H B) as (pss & E & K). exists pss. split; [|exact K].
  known "spffl::intmath::nth_prime" nth_prime_main. rewrite E. reflexivity.
Qed.
(* Beyond the table: the exception is caught, and the status is that of success. *)
Theorem C94_nth_prime_reject_refuted s lo hi : range_text s lo hi -> lo <= hi -> lo < 1 \/ 6542 < hi ->
  snd (run "spffl::intmath::nth_prime" [s]) = Status 0.
Proof.
  intros H L B. known "spffl::intmath::nth_prime" nth_prime_main. cbn [snd nth_prime_main each]. rewrite (range_ok _ _ _ H), pb_ret. cbn [fst snd].
  assert (K : snd (primes_from (Z.to_nat (hi - lo + 1)) lo) = Throw) by (apply primes_from_throw; lia).
  destruct (primes_from (Z.to_nat (hi - lo + 1)) lo) as [t f]. cbn [snd] in K. subst f. reflexivity.
Qed.
Theorem C94_nth_prime_name_refuted args : run "nth_prime" args = ([], Status 0).
Proof. reflexivity. Qed.

(* ---- z_list ---- *)
Definition progression (w d n : Z) : text := List.concat (map (fun i => line (put_int (w + Z.of_nat i * d))) (seq 0 (Z.to_nat n))).
(* one value; n values from w on; n values from w on with difference d: if the value after the last one fits *)
Theorem C94_list s1 s2 s3 w n d : int_text s1 w -> int_text s2 n -> int_text s3 d ->
  (w + 1 <= INT_MAX -> run "z_list" [s1] = (progression w 1 1, Status 0)) /\
  (w + Z.max 0 n <= INT_MAX -> run "z_list" [s1; s2] = (progression w 1 n, Status 0)) /\
  (INT_MIN <= w + Z.max 0 n * d <= INT_MAX -> run "z_list" [s1; s2; s3] = (progression w d n, Status 0)).
Proof.
  intros H1 H2 H3. pose proof (proj2 (scan_ok _ _ H1)) as B1.
  assert (E : forall k e, (INT_MIN <= w + Z.max 0 k * e <= INT_MAX) -> (walk (Z.to_nat k) w e ;~~ ret 0) = (progression w e k, Val 0)).
  { intros k e K. rewrite walk_ok; [rewrite pb_val; apply emit_ret|]. intros i Hi.    assert (Hk : 0 <= i <= Z.max 0 k) by lia. set (m := Z.max 0 k) in *. clearbody m. clear - K Hk B1. destruct (Z_le_dec 0 e) as [L|L].
    - assert (0 <= i * e <= m * e) by nia. lia.
    - assert (m * e <= i * e <= 0) by nia. lia. }
  known "z_list" z_list_main. known "z_list" z_list_main. known "z_list" z_list_main. cbn [z_list_main].
  rewrite (arg_int_ok _ _ H1), !pb_ret, (arg_int_ok _ _ H2), !pb_ret, (arg_int_ok _ _ H3), !pb_ret.
  split; [|split]; intros K.
  - change 1%nat with (Z.to_nat 1). rewrite E by lia. reflexivity.
  - rewrite E by lia. reflexivity.
  - rewrite E by lia. reflexivity.
Qed.
(* ... and if it does not fit: undefined, though every value to be printed may be an int. *)
Theorem C94_list_overflow_refuted s1 s2 s3 w n d : int_text s1 w -> int_text s2 n -> int_text s3 d -> 0 < n ->
  ~ (INT_MIN <= w + n * d <= INT_MAX) -> snd (run "z_list" [s1; s2; s3]) = Undefined.
Proof.
  intros H1 H2 H3 Hn K. known "z_list" z_list_main. cbn [z_list_main snd].
  rewrite (arg_int_ok _ _ H1), !pb_ret, (arg_int_ok _ _ H2), !pb_ret, (arg_int_ok _ _ H3), !pb_ret.
  assert (E : snd (walk (Z.to_nat n) w d) = Undef).
  { apply walk_ub; [exact (proj2 (scan_ok _ _ H1))|]. exists n. split; [lia|exact K]. }
  destruct (walk (Z.to_nat n) w d) as [t f]. cbn [snd] in E. subst f. reflexivity.
Qed.
Theorem C94_list_last_refuted : run "z_list" [txt "2147483647"] = (line (txt "2147483647"), Undefined).
Proof. vm_compute. reflexivity. Qed.

(* ---- z_factor ---- *)
Theorem C94_factor args vs : Forall2 int_text args vs -> Forall (fun v => v <> 0 /\ Z.abs v <= INT_MAX) vs ->
  exists fss, run "z_factor" args = (report " = " vs (map (fun p => unwords (factor_words (fst p) (snd p))) (combine vs fss)), Status 0) /\
    Forall2 factorization vs fss.
Proof.
  intros H B.
  destruct (rel_list (fun v fs => exists f, int_factor v = Ok f /\ facs f = fs /\ factorization v fs /\
    put_facinfo put_int f = unwords (factor_words v fs) /\ unfactor int_fops f 1 = Ok v) vs) as [fss Hf].
  { intros v Hi. rewrite Forall_forall in B. destruct (B v Hi) as [B1 B2]. destruct (factor_run v B1 B2) as (f & K1 & K2 & K3 & K4).
    exists (facs f), f. auto. }
  exists fss. split; [|revert Hf; apply F2_impl; intros v fs (f & _ & _ & K & _); exact K].
  known "z_factor" z_factor_main. rewrite (factor_main args vs (map (fun p => unwords (factor_words (fst p) (snd p))) (combine vs fss)) H); [reflexivity|].
  clear - Hf. induction Hf as [|v fs vs fss (f & K1 & K2 & K3 & K4 & K5) _ IH]; cbn [combine map]; constructor; [|exact IH].
  exists f. cbn [fst snd]. auto.
Qed.
Theorem C94_factor_int_min_refuted : run "z_factor" [txt "-2147483648"] = ([], Undefined).
Proof. vm_compute. reflexivity. Qed.

(* ---- z_divisors ---- *)
Theorem C94_divisors args vs : args <> [] -> Forall2 int_text args vs -> Forall (fun v => v <> 0 /\ v * v <= INT_MAX) vs ->
  exists dss, run "z_divisors" args = (report ": " vs (map (fun ds => unwords (map put_int ds)) dss), Status 0) /\
    Forall2 (fun n ds => increasing ds /\ forall d, In d ds <-> 0 < d /\ (d | n)) vs dss.
Proof.
  intros Hn H B.
  destruct (rel_list (fun n ds => exists f, int_factor n = Ok f /\ get_all_divisors int_fops f 1 = Ok ds /\ increasing ds /\
    forall d, In d ds <-> 0 < d /\ (d | n)) vs) as [dss Hd].
  { intros n Hi. rewrite Forall_forall in B. destruct (B n Hi) as [B1 B2]. destruct (C42_int_divisors n B1 B2) as (f & ds & K). exists ds, f. exact K. }
  exists dss. split; [|revert Hd; apply F2_impl; intros n ds (f & _ & _ & K); exact K].
  known "z_divisors" z_divisors_main. rewrite (divisors_main false args vs (map (fun ds => unwords (map put_int ds)) dss) Hn H); [reflexivity|].
  clear - Hd. induction Hd as [|n ds vs dss (f & K1 & K2 & _) _ IH]; cbn [map]; constructor; [|exact IH].
  exists f. split; [exact K1|]. left. exists ds. auto.
Qed.
(* -mp: the quotients by primes; ... *)
Theorem C94_maximal args vs : args <> [] -> Forall2 int_text args vs -> Forall (fun v => 2 <= Z.abs v <= INT_MAX) vs ->
  exists dss, run "z_divisors" (txt "-mp" :: args) = (report ": " vs (map (fun ds => unwords (map put_int ds)) dss), Status 0) /\
    Forall2 (fun n ds => increasing ds /\ forall d, In d ds <-> exists p, prime p /\ n = p * d) vs dss.
Proof.
  intros Hn H B.
  destruct (rel_list (fun n ds => exists f, int_factor n = Ok f /\ get_maximal_proper_divisors int_fops f 1 = Ok (Some ds) /\ increasing ds /\
    forall d, In d ds <-> exists p, prime p /\ n = p * d) vs) as [dss Hd].
  { intros n Hi. rewrite Forall_forall in B. destruct (C42_int_maximal n (B n Hi)) as (f & ds & K). exists ds, f. exact K. }
  exists dss. split; [|revert Hd; apply F2_impl; intros n ds (f & _ & _ & K); exact K].
  known "z_divisors" z_divisors_main. rewrite (divisors_main true args vs (map (fun ds => unwords (map put_int ds)) dss) Hn H); [reflexivity|].
  clear - Hd. induction Hd as [|n ds vs dss (f & K1 & K2 & _) _ IH]; cbn [map]; constructor; [|exact IH].
  exists f. split; [exact K1|]. left. exists ds. auto.
Qed.
(* ... 1 and -1 have none *)
Theorem C94_maximal_unit s v : int_text s v -> v = 1 \/ v = -1 -> run "z_divisors" [txt "-mp"; s] = (line (txt "(none)"), Status 0).
Proof.
  intros H Hv. known "z_divisors" z_divisors_main.
  rewrite (divisors_main true [s] [v] [txt "(none)"]); [reflexivity|discriminate|repeat constructor; exact H|].
  constructor; [|constructor]. destruct Hv as [-> | ->]; eexists; (split; [vm_compute; reflexivity|]); right; repeat split; vm_compute; reflexivity.
Qed.
Theorem C94_divisors_overflow_refuted : run "z_divisors" [txt "65536"] = ([], Undefined).
Proof. vm_compute. reflexivity. Qed.

(* ---- wrong arguments ---- *)
(* No arguments: the usage and status 1; but not for z_test_prime and z_factor. *)
Theorem C94_no_arguments name : In name ["z_gcd"; "z_lcm"; "z_totient"; "spffl::intmath::nth_prime"; "z_list"; "z_divisors"]%string ->
  run name [] = ([], Status 1).
Proof. cbn [In]. intros [<-|[<-|[<-|[<-|[<-|[<-|[]]]]]]]; reflexivity. Qed.
Theorem C94_no_arguments_refuted : run "z_test_prime" [] = ([], Status 0) /\ run "z_factor" [] = ([], Status 0).
Proof. split; reflexivity. Qed.
(* A first argument that is no number: the usage and status 1. *)
Theorem C94_no_number name s rest : no_number s -> teq s "-e" = false -> teq s "-mp" = false ->
  In name ["z_gcd"; "z_lcm"; "z_totient"; "z_test_prime"; "z_factor"; "z_divisors"]%string -> run name (s :: rest) = ([], Status 1).
Proof.
  intros H E1 E2. cbn [In]. intros [<-|[<-|[<-|[<-|[<-|[<-|[]]]]]]].
  - known "z_gcd" z_gcd_main. cbn [z_gcd_main]. rewrite E1. cbn [z_fold_main]. rewrite (arg_int_none _ H). reflexivity.
  - known "z_lcm" z_lcm_main. unfold z_lcm_main. cbn [z_fold_main]. rewrite (arg_int_none _ H). reflexivity.
  - known "z_totient" z_totient_main. cbn [z_totient_main each]. rewrite (arg_int_none _ H). reflexivity.
  - known "z_test_prime" z_test_prime_main. unfold z_test_prime_main. cbn [each]. rewrite (arg_int_none _ H). reflexivity.
  - known "z_factor" z_factor_main. unfold z_factor_main. cbn [each]. rewrite (arg_int_none _ H). reflexivity.
  - known "z_divisors" z_divisors_main. unfold z_divisors_main. rewrite E2. cbn [each]. rewrite (arg_int_none _ H). reflexivity.
Qed.
(* A later one stops z_gcd without output. *)
Theorem C94_gcd_no_number pre vs s post : Forall2 int_text pre vs -> Forall (fun v => Z.abs v <= INT_MAX) vs -> pre <> [] -> no_number s ->
  run "z_gcd" (pre ++ s :: post) = ([], Status 1).
Proof.
  intros H B Hn Hs. known "z_gcd" z_gcd_main. destruct pre as [|s' pre]; [congruence|]. inversion H as [|? v ? ws Hv H']; subst.
  cbn [app]. rewrite (gcd_main_fold _ _ _ Hv). change (s' :: pre ++ s :: post)%list with ((s' :: pre) ++ s :: post)%list.
  rewrite (fold_main_bad _ _ _ _ _ H Hs); [reflexivity|]. intros v' ws' K. injection K as <- <-. inversion B as [|? ? B1 B2]; subst.
  destruct (folded_gcd ws B2 v B1) as (h & E & _). exists h. exact E.
Qed.
(* In z_totient it stops the run after the lines of the arguments before it. *)
Theorem C94_partial_output_refuted : run "z_totient" [txt "36"; txt "x"] = (line (txt "36: 12"), Status 1).
Proof. vm_compute. reflexivity. Qed.

Example C94_ex :
  run "z_gcd" [txt "-84"; txt " +36"; txt "60x"] = (line (txt "12"), Status 0) /\
  run "z_gcd" [txt "-e"; txt "240"; txt "46"] = (line (txt "2 = -9 * 240 + 47 * 46"), Status 0) /\
  run "z_lcm" [txt "4"; txt "6"; txt "10"] = (line (txt "60"), Status 0) /\
  run "z_totient" [txt "36"; txt "7"] = ((line (txt "36: 12") ++ line (txt "7: 6"))%list, Status 0) /\
  run "z_test_prime" [txt "65521"] = (line (txt "PRIME"), Status 0) /\
  run "spffl::intmath::nth_prime" [txt "3-5"; txt "1"] = ((line (txt "5") ++ line (txt "7") ++ line (txt "11") ++ line (txt "2"))%list, Status 0) /\
  run "z_list" [txt "5"; txt "3"; txt "-2"] = ((line (txt "5") ++ line (txt "3") ++ line (txt "1"))%list, Status 0) /\
  run "z_factor" [txt "-360"; txt "7"] = ((line (txt "-360 = -1 2^3 3^2 5") ++ line (txt "7 = 7"))%list, Status 0) /\
  run "z_divisors" [txt "12"] = (line (txt "1 2 3 4 6 12"), Status 0) /\
  run "z_divisors" [txt "-mp"; txt "-12"] = (line (txt "-6 -4"), Status 0) /\
  run "z_gcd" [txt "x"] = ([], Status 1).
Proof. repeat split; vm_compute; reflexivity. Qed.

(* ---------------------------------------------------------------- C96: spiff_main.cpp *)
(* the names of the commands, as the program lists them *)
Definition names : list string := List.concat (map snd lookup_groups).
Lemma find_name_in l n : find_name l n = true <-> In n l.
Proof.
  induction l as [|x l IH]; cbn [find_name In]; [split; [discriminate|intros []]|]. destruct (String.eqb_spec n x) as [->|K]; [split; auto|].
  rewrite IH. split; [auto|intros [->|H]; [congruence|exact H]].
Qed.
Lemma find_group_in l n : find_group l n = true <-> In n (List.concat (map snd l)).
Proof.
  induction l as [|[g ns] l IH]; cbn [find_group List.concat map snd In]; [split; [discriminate|intros []]|]. rewrite in_app_iff, <- IH, <- find_name_in.
  destruct (find_name ns n); split; auto; intros [H|H]; [discriminate|exact H].
Qed.
(* A name that is listed runs its handler: the output is the handler's; the status is 0 whatever the handler returns and
   also if it throws. *)
Theorem C96_dispatch name args : In name names -> name <> "-l"%string ->
  let h := handler other qs draw s0 name args in
  fst (run name args) = fst h /\
  (forall v, snd h = Val v -> snd (run name args) = Status 0) /\ (snd h = Throw -> snd (run name args) = Status 0) /\
  (forall c, snd h = Exit c -> snd (run name args) = Status c) /\ (snd h = Undef -> snd (run name args) = Undefined).
Proof.
  intros H N. cbn zeta. rewrite run_known.
  - cbn [fst snd]. split; [reflexivity|]. split; [intros v ->; reflexivity|]. split; [intros ->; reflexivity|]. split; [intros c ->|intros ->]; reflexivity.
  - unfold teq, txt. rewrite string_of_list_ascii_of_string. apply String.eqb_neq. exact N.
  - apply find_group_in. exact H.
Qed.
(* No name is listed twice, and none begins with a minus sign; so the table has one handler for each name. *)
Theorem C96_names : NoDup names /\ length names = 136%nat /\ (forall n, In n names -> String.prefix "-" n = false).
Proof.
  split; [|split; [vm_compute; reflexivity|]].
  - assert (D : forall l : list string, (fix nd l := match l with [] => true | x :: l => negb (existsb (String.eqb x) l) && nd l end) l = true -> NoDup l).
    { induction l as [|x l IH]; intros E; [constructor|]. apply andb_prop in E. destruct E as [E1 E2]. constructor; [|exact (IH E2)].
      intros K. apply Bool.negb_true_iff in E1. assert (X : existsb (String.eqb x) l = true) by (apply existsb_exists; exists x; split; [exact K|apply String.eqb_refl]).
      congruence. }
    apply D. vm_compute. reflexivity.
  - intros n H. assert (E : forallb (fun n => negb (String.prefix "-" n)) names = true) by (vm_compute; reflexivity).
    rewrite forallb_forall in E. apply Bool.negb_true_iff. exact (E n H).
Qed.
(* -l lists the groups with the names, and nothing else; further arguments are ignored *)
Definition listing : text :=
  List.concat (map (fun g => (line (txt (fst g) ++ txt ":") ++ List.concat (map (fun n => line (txt "  " ++ txt n)) (snd g)))%list) lookup_groups).
Theorem C96_list args : run "-l" args = (listing, Status 0).
Proof. vm_compute. reflexivity. Qed.
Theorem C96_no_command : spiff other qs draw s0 [] = ([], Status 1).
Proof. reflexivity. Qed.
(* Any other command: nothing on standard output and the status of success. *)
Theorem C96_unknown_refuted name args : ~ In name names -> name <> "-l"%string -> run name args = ([], Status 0).
Proof.
  intros H N. unfold spiff, try_main.
  replace (teq (txt name) "-l") with false by (symmetry; unfold teq, txt; rewrite string_of_list_ascii_of_string; apply String.eqb_neq; exact N).
  unfold txt. rewrite string_of_list_ascii_of_string. destruct (find_group lookup_groups name) eqn:E; [apply find_group_in in E; contradiction|reflexivity].
Qed.
Example C96_ex : In "z_gcd"%string names /\ ~ In "nth_prime"%string names /\ ~ In "z_mod"%string names /\ run "z_mod" [txt "7"] = ([], Status 0) /\
  firstn 33 (fst (run "-l" [])) = (line (txt "Integers:") ++ line (txt "  z_op") ++ line (txt "  z_gcd") ++ line (txt "  z_lcm"))%list.
Proof.
  repeat split; try (vm_compute; reflexivity).
  - apply find_group_in. reflexivity.
  - intros K. apply find_group_in in K. discriminate.
  - intros K. apply find_group_in in K. discriminate.
Qed.
End Run.

Print Assumptions C94_gcd. Print Assumptions C94_ext_gcd. Print Assumptions C94_lcm. Print Assumptions C94_totient.
Print Assumptions C94_test_prime. Print Assumptions C94_nth_prime. Print Assumptions C94_list. Print Assumptions C94_factor.
Print Assumptions C94_divisors. Print Assumptions C94_maximal. Print Assumptions C94_no_number. Print Assumptions C94_gcd_no_number.
Print Assumptions C96_dispatch. Print Assumptions C96_names. Print Assumptions C96_list. Print Assumptions C96_unknown_refuted.
