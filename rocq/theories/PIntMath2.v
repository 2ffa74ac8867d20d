(* Proofs about MIntMath: totient, log10, log2. *)
From Verif Require Import Base MIntMath PIntMath.
From Coq Require Import Znumtheory.
Open Scope Z_scope.

(* ---------------------------------------------------------------- totient *)
Fixpoint zrange (k : nat) (i : Z) : list Z :=
  match k with O => [] | S k' => i :: zrange k' (i+1) end.

Lemma zrange_in k : forall i x, In x (zrange k i) <-> i <= x < i + Z.of_nat k.
Proof. induction k as [|k IH]; intros i x; cbn [zrange In]; [lia|]. rewrite IH. lia. Qed.
Lemma zrange_nodup k : forall i, NoDup (zrange k i).
Proof. induction k as [|k IH]; intros i; cbn [zrange]; constructor; [rewrite zrange_in; lia|apply IH]. Qed.
Lemma zrange_length k : forall i, length (zrange k i) = k.
Proof. induction k; intros; cbn; auto. Qed.

Definition coprimes (n : Z) : list Z := filter (fun i => Z.gcd n i =? 1) (zrange (Z.to_nat (n-1)) 1).

Lemma totient_loop_ok k : forall n i phi, 0 < n <= INT_MAX -> 1 <= i -> i + Z.of_nat k <= n -> 0 <= phi < i ->
  totient_loop k n i phi = Ok (phi + Z.of_nat (length (filter (fun i => Z.gcd n i =? 1) (zrange k i)))).
Proof.
  induction k as [|k IH]; intros n i phi Hn Hi Hk Hphi; cbn [totient_loop zrange filter].
  - cbn [length]. rewrite Z.add_0_r. reflexivity.
  - rewrite int_gcd_nonneg, bind_ok by lia.
    destruct (Z.gcd n i =? 1) eqn:E.
    + unfold iadd. rewrite chk_ok by (unfold INT_MIN, INT_MAX in *; lia). rewrite bind_ok, IH by lia.
      f_equal. cbn [length]. lia.
    + rewrite bind_ok, IH by lia. reflexivity.
Qed.

Lemma int_totient_ok n : 1 <= n <= INT_MAX -> int_totient n = Ok (Z.of_nat (length (coprimes n))).
Proof. intros Hn. unfold int_totient. rewrite totient_loop_ok by lia. reflexivity. Qed.

Lemma coprimes_in n x : In x (coprimes n) <-> 1 <= x < n /\ Z.gcd n x = 1.
Proof. unfold coprimes. rewrite filter_In, zrange_in. lia. Qed.
Lemma coprimes_nodup n : NoDup (coprimes n).
Proof. apply NoDup_filter, zrange_nodup. Qed.

(* x is invertible modulo n. *)
Definition unit_mod (n x : Z) : Prop := exists y, (x * y) mod n = 1 mod n.

Lemma unit_mod_gcd n x : 1 <= n -> unit_mod n x <-> Z.gcd n x = 1.
Proof.
  intros Hn. split.
  - intros [y Hy].
    assert (Hdiv : (n | x * y - 1)) by (apply Z.mod_divide; [lia|]; rewrite Zminus_mod, Hy, Z.sub_diag; apply Z.mod_0_l; lia).
    destruct Hdiv as [k Hk].
    apply Z.bezout_1_gcd. exists (-k), y. lia.
  - intros Hg. destruct (Z.gcd_bezout n x 1 Hg) as (u & v & Huv).
    exists v. replace (x * v) with (1 + (-u) * n) by lia. apply Z.mod_add. lia.
Qed.

Lemma int_totient_units n : 2 <= n <= INT_MAX ->
  exists l, NoDup l /\ (forall x, In x l <-> 0 <= x < n /\ unit_mod n x) /\
            int_totient n = Ok (Z.of_nat (length l)).
Proof.
  intros Hn. exists (coprimes n). split; [apply coprimes_nodup|]. split; [|apply int_totient_ok; lia].
  intros x. rewrite coprimes_in, unit_mod_gcd by lia. split; intros [H1 H2]; (split; [|exact H2]).
  - lia.
  - destruct (Z.eq_dec x 0) as [->|]; [rewrite Z.gcd_0_r in H2; lia|lia].
Qed.

(* ---------------------------------------------------------------- log10 *)
Lemma log10_loop_ok fuel : forall n rv, 0 <= n < 10 ^ (Z.of_nat fuel - 1) -> (1 <= fuel)%nat ->
  exists k, log10_loop fuel n rv = Ok (rv + k) /\ 0 <= k /\ n < 10 ^ k /\ (0 < n -> 1 <= k /\ 10 ^ (k-1) <= n) /\ (n = 0 -> k = 0).
Proof.
  induction fuel as [|f IH]; intros n rv Hn Hf; [lia|]. cbn [log10_loop].
  destruct (n >? 0) eqn:E.
  - destruct f as [|f]; [change (Z.of_nat 1 - 1) with 0 in Hn; change (10^0) with 1 in Hn; lia|].
    destruct (IH (n/10) (rv+1)) as (k & Ek & Hk & H1 & H2 & H3); [|lia|].
    + split; [apply Z.div_pos; lia|].
      replace (Z.of_nat (S (S f)) - 1) with (Z.succ (Z.of_nat (S f) - 1)) in Hn by lia.
      rewrite Z.pow_succ_r in Hn by lia. apply Z.div_lt_upper_bound; lia.
    + exists (k+1). rewrite Ek. split; [f_equal; lia|]. split; [lia|].
      assert (Hp : 10 ^ (k+1) = 10 * 10^k) by (rewrite Z.pow_add_r by lia; lia).
      split; [rewrite Hp; clear -H1; lia|]. split; [|lia]. intros _. split; [lia|].
      replace (k+1-1) with k by lia.
      destruct (Z.eq_dec (n/10) 0) as [H0|H0].
      * rewrite (H3 H0). change (10^0) with 1. lia.
      * destruct H2 as [Hk1 H2]; [assert (0 <= n/10) by (apply Z.div_pos; lia); lia|].
        replace (10^k) with (10 * 10^(k-1)) by (rewrite <- Z.pow_succ_r by lia; f_equal; lia).
        clear -H2. lia.
  - exists 0. rewrite Z.add_0_r. split; [reflexivity|]. change (10^0) with 1. lia.
Qed.

Lemma log10_ok n : 0 < n < 4294967296 ->
  exists r, calc_log10_unsigned_floor n = Ok r /\ 0 <= r /\ 10 ^ r <= n < 10 ^ (r+1).
Proof.
  intros Hn. unfold calc_log10_unsigned_floor.
  destruct (log10_loop_ok 12 (n/10) 0) as (k & Ek & Hk & H1 & H2 & H3); [|lia|].
  { change (10 ^ (Z.of_nat 12 - 1)) with 100000000000. lia. }
  exists k. rewrite Ek. split; [reflexivity|]. split; [exact Hk|].
  assert (Hp : 10 ^ (k+1) = 10 * 10^k) by (rewrite Z.pow_add_r by lia; lia).
  split; [|rewrite Hp; clear -H1; lia].
  destruct (Z.eq_dec (n/10) 0) as [H0|H0].
  - rewrite (H3 H0). change (10^0) with 1. lia.
  - destruct H2 as [Hk1 H2]; [assert (0 <= n/10) by (apply Z.div_pos; lia); lia|].
    replace (10^k) with (10 * 10^(k-1)) by (rewrite <- Z.pow_succ_r by lia; f_equal; lia).
    clear -H2. lia.
Qed.

(* ---------------------------------------------------------------- log2: msb *)
Lemma msb_half_ok k n rv : 0 < k -> 0 < n < 2 ^ (2*k) ->
  exists n' rv', msb_half k (n, rv) = (n', rv') /\ 0 < n' < 2 ^ k /\ rv' + Z.log2 n' = rv + Z.log2 n.
Proof.
  intros Hk Hn. unfold msb_half. rewrite Z.shiftr_div_pow2 by lia.
  assert (Hp : 2 ^ (2*k) = 2^k * 2^k) by (replace (2*k) with (k+k) by lia; apply Z.pow_add_r; lia).
  assert (Hpos : 0 < 2^k) by (apply Z.pow_pos_nonneg; lia).
  destruct (n / 2^k =? 0) eqn:E.
  - apply Z.eqb_eq in E. apply Z.div_small_iff in E; [|lia].
    replace (2^k - 1) with (Z.ones k) by (rewrite Z.ones_equiv; lia).
    rewrite Z.land_ones by lia. rewrite Z.mod_small by lia. exists n, rv. split; [reflexivity|]. lia.
  - apply Z.eqb_neq in E. exists (n / 2^k), (rv + k). split; [reflexivity|].
    assert (0 <= n / 2^k) by (apply Z.div_pos; lia).
    split; [split; [lia|apply Z.div_lt_upper_bound; [lia|rewrite <- Hp; lia]]|].
    rewrite <- Z.shiftr_div_pow2 by lia. rewrite Z.log2_shiftr by lia.
    rewrite <- Z.shiftr_div_pow2 in * by lia.
    destruct (Z.le_gt_cases k (Z.log2 n)); [lia|].
    exfalso. apply E. rewrite Z.shiftr_eq_0; lia.
Qed.

Lemma u4_table_ok n : 0 < n < 16 -> tab u4_table n = Ok (Z.log2 n).
Proof.
  intros H.
  assert (Hc : n = 1 \/ n = 2 \/ n = 3 \/ n = 4 \/ n = 5 \/ n = 6 \/ n = 7 \/ n = 8 \/ n = 9 \/ n = 10 \/ n = 11 \/ n = 12 \/ n = 13 \/ n = 14 \/ n = 15) by lia.
  repeat (destruct Hc as [->|Hc]; [reflexivity|]). subst; reflexivity.
Qed.

Lemma find_msb_16_ok n : 0 < n < 2^16 -> find_msb_16 n = Ok (Z.log2 n).
Proof.
  intros Hn. unfold find_msb_16.
  destruct (msb_half_ok 8 n 0) as (n1 & r1 & E1 & H1 & L1); [lia|exact Hn|].
  destruct (msb_half_ok 4 n1 r1) as (n2 & r2 & E2 & H2 & L2); [lia|exact H1|].
  rewrite E1, E2. rewrite u4_table_ok by exact H2. rewrite bind_ok. f_equal; lia.
Qed.

Lemma find_msb_32_ok n : 0 < n < 2^32 -> find_msb_32 n = Ok (Z.log2 n).
Proof.
  intros Hn. unfold find_msb_32.
  destruct (msb_half_ok 16 n 0) as (n0 & r0 & E0 & H0 & L0); [lia|exact Hn|].
  destruct (msb_half_ok 8 n0 r0) as (n1 & r1 & E1 & H1 & L1); [lia|exact H0|].
  destruct (msb_half_ok 4 n1 r1) as (n2 & r2 & E2 & H2 & L2); [lia|exact H1|].
  rewrite E0, E1, E2. rewrite u4_table_ok by exact H2. rewrite bind_ok. f_equal; lia.
Qed.

Lemma find_msb_64_ok n : 0 < n < 2^64 -> find_msb_64 n = Ok (Z.log2 n).
Proof.
  intros Hn. unfold find_msb_64. rewrite Z.shiftr_div_pow2 by lia.
  change (2^64) with 18446744073709551616 in Hn.
  assert (Hu : u32 (n / 2^32) = n / 2^32).
  { unfold u32. apply Z.mod_small. change (2^32) with 4294967296. lia. }
  rewrite Hu. destruct (n / 2^32 =? 0) eqn:E.
  - apply Z.eqb_eq in E. apply Z.div_small_iff in E; [|lia]. change (2^32) with 4294967296 in E.
    assert (Hl : u32 n = n) by (unfold u32; apply Z.mod_small; lia).
    rewrite Hl. apply find_msb_32_ok. change (2^32) with 4294967296. lia.
  - apply Z.eqb_neq in E. rewrite find_msb_32_ok by (change (2^32) with 4294967296 in *; lia).
    rewrite bind_ok. f_equal. rewrite <- Z.shiftr_div_pow2 in * by lia. rewrite Z.log2_shiftr by lia.
    destruct (Z.le_gt_cases 32 (Z.log2 n)); [lia|]. exfalso. apply E. rewrite Z.shiftr_eq_0; lia.
Qed.

(* ---------------------------------------------------------------- log2: lsb *)
(* r is the position of the lowest set bit of n *)
Definition lowest_bit (n r : Z) : Prop :=
  0 <= r /\ Z.testbit n r = true /\ forall i, 0 <= i < r -> Z.testbit n i = false.

Lemma lowest_bit_land k n r : 0 < k -> lowest_bit (Z.land n (2^k-1)) r -> lowest_bit n r.
Proof.
  intros Hk (H0 & H1 & H2).
  replace (2^k - 1) with (Z.ones k) in * by (rewrite Z.ones_equiv; lia).
  rewrite Z.land_spec in H1. apply andb_prop in H1 as [Hn Ho].
  assert (Hr : r < k). { destruct (Z.lt_ge_cases r k); [assumption|]. rewrite Z.ones_spec_high in Ho by lia. discriminate. }
  split; [exact H0|]. split; [exact Hn|]. intros i Hi. specialize (H2 i Hi).
  rewrite Z.land_spec, Z.ones_spec_low, andb_true_r in H2 by lia. exact H2.
Qed.

Lemma lowest_bit_shift k n r : 0 < k -> Z.land n (2^k-1) = 0 -> lowest_bit (Z.shiftr n k) r -> lowest_bit n (r + k).
Proof.
  intros Hk Hl (H0 & H1 & H2).
  replace (2^k - 1) with (Z.ones k) in * by (rewrite Z.ones_equiv; lia).
  rewrite Z.shiftr_spec in H1 by lia. split; [lia|]. split; [exact H1|].
  intros i Hi. destruct (Z.lt_ge_cases i k) as [Hik|Hik].
  - assert (Hb : Z.testbit (Z.land n (Z.ones k)) i = false) by (rewrite Hl; apply Z.bits_0).
    rewrite Z.land_spec, Z.ones_spec_low, andb_true_r in Hb by lia. exact Hb.
  - specialize (H2 (i-k)). rewrite Z.shiftr_spec in H2 by lia. replace (i - k + k) with i in H2 by lia. apply H2; lia.
Qed.

Lemma lsb_half_ok k n rv : 0 < k -> 0 < n < 2 ^ (2*k) ->
  exists n' rv', lsb_half k (n, rv) = (n', rv') /\ 0 < n' < 2 ^ k /\
    (forall r, lowest_bit n' r -> lowest_bit n (r + (rv' - rv))).
Proof.
  intros Hk Hn. unfold lsb_half.
  assert (Hpos : 0 < 2^k) by (apply Z.pow_pos_nonneg; lia).
  assert (Hp : 2 ^ (2*k) = 2^k * 2^k) by (replace (2*k) with (k+k) by lia; apply Z.pow_add_r; lia).
  assert (Hm : Z.land n (2^k-1) = n mod 2^k).
  { replace (2^k - 1) with (Z.ones k) by (rewrite Z.ones_equiv; lia). apply Z.land_ones; lia. }
  destruct (Z.land n (2^k-1) =? 0) eqn:E.
  - apply Z.eqb_eq in E. exists (Z.shiftr n k), (rv+k). split; [reflexivity|]. split.
    + rewrite Z.shiftr_div_pow2 by lia. rewrite Hm in E. split.
      * assert (0 <= n / 2^k) by (apply Z.div_pos; lia).
        destruct (Z.eq_dec (n/2^k) 0) as [H0|]; [|lia]. exfalso.
        rewrite (Z.div_mod n (2^k)), H0, E in Hn by lia. lia.
      * apply Z.div_lt_upper_bound; lia.
    + intros r Hr. replace (rv + k - rv) with k by lia. apply lowest_bit_shift; assumption.
  - apply Z.eqb_neq in E. exists (Z.land n (2^k-1)), rv. split; [reflexivity|]. split.
    + rewrite Hm in *. pose proof (Z.mod_pos_bound n (2^k) Hpos). lia.
    + intros r Hr. replace (r + (rv - rv)) with r by lia. apply (lowest_bit_land k); assumption.
Qed.

Lemma l4_table_ok n : 0 < n < 16 -> exists r, tab l4_table n = Ok r /\ lowest_bit n r.
Proof.
  intros H.
  assert (Hc : n = 1 \/ n = 2 \/ n = 3 \/ n = 4 \/ n = 5 \/ n = 6 \/ n = 7 \/ n = 8 \/ n = 9 \/ n = 10 \/ n = 11 \/ n = 12 \/ n = 13 \/ n = 14 \/ n = 15) by lia.
  assert (Hlow : forall n r, 0 <= r <= 3 -> Z.testbit n r = true -> (0 < r -> Z.testbit n 0 = false) ->
     (1 < r -> Z.testbit n 1 = false) -> (2 < r -> Z.testbit n 2 = false) -> lowest_bit n r).
  { intros n0 r Hr T0 T1 T2 T3. split; [lia|]. split; [exact T0|]. intros i Hi.
    assert (Hi' : i = 0 \/ i = 1 \/ i = 2) by lia. destruct Hi' as [->|[->| ->]]; [apply T1|apply T2|apply T3]; lia. }
  repeat (destruct Hc as [->|Hc];
    [eexists; split; [reflexivity|apply Hlow; [lia|reflexivity|intros; reflexivity || lia|intros; reflexivity || lia|intros; reflexivity || lia]]|]).
  subst. eexists; split; [reflexivity|apply Hlow; [lia|reflexivity|intros; lia|intros; lia|intros; lia]].
Qed.

Lemma find_lsb_32_ok n : 0 < n < 2^32 -> exists r, find_lsb_32 n = Ok r /\ lowest_bit n r.
Proof.
  intros Hn. unfold find_lsb_32.
  destruct (lsb_half_ok 16 n 0) as (n0 & r0 & E0 & H0 & L0); [lia|exact Hn|].
  destruct (lsb_half_ok 8 n0 r0) as (n1 & r1 & E1 & H1 & L1); [lia|exact H0|].
  destruct (lsb_half_ok 4 n1 r1) as (n2 & r2 & E2 & H2 & L2); [lia|exact H1|].
  destruct (l4_table_ok n2 H2) as (r & Er & Hr).
  rewrite E0, E1, E2, Er, bind_ok. exists (r2 + r). split; [reflexivity|].
  apply L2, L1, L0 in Hr. replace (r2 + r) with (r + (r2 - r1) + (r1 - r0) + (r0 - 0)) by lia. exact Hr.
Qed.

Lemma find_lsb_64_ok n : 0 < n < 2^64 -> exists r, find_lsb_64 n = Ok r /\ lowest_bit n r.
Proof.
  intros Hn. unfold find_lsb_64.
  assert (Hu : u32 n = Z.land n (2^32 - 1)).
  { replace (2^32-1) with (Z.ones 32) by reflexivity. rewrite Z.land_ones by lia. reflexivity. }
  assert (Hm : u32 n = n mod 2^32) by reflexivity.
  change (2^64) with (2^32*2^32) in Hn.
  destruct (u32 n =? 0) eqn:E.
  - apply Z.eqb_eq in E.
    assert (Hs : u32 (Z.shiftr n 32) = Z.shiftr n 32).
    { unfold u32. rewrite Z.shiftr_div_pow2 by lia. apply Z.mod_small. change (2^32) with 4294967296 in *. lia. }
    rewrite Hs. destruct (find_lsb_32_ok (Z.shiftr n 32)) as (r & Er & Hr).
    { rewrite Z.shiftr_div_pow2 by lia. rewrite Hm in E. change (2^32) with 4294967296 in *. lia. }
    rewrite Er, bind_ok. eexists; split; [reflexivity|]. apply lowest_bit_shift; [lia| |exact Hr].
    rewrite <- Hu. exact E.
  - apply Z.eqb_neq in E. destruct (find_lsb_32_ok (u32 n)) as (r & Er & Hr).
    { rewrite Hm in *. change (2^32) with 4294967296 in *. lia. }
    rewrite Er. eexists; split; [reflexivity|]. rewrite Hu in Hr. eapply lowest_bit_land; [|exact Hr]. lia.
Qed.

Lemma log2_ceil_ok n : 0 < n < 2^32 ->
  exists r, calc_log2_unsigned_ceil n = Ok r /\ 0 <= r /\ n <= 2 ^ r /\ forall k, 0 <= k -> n <= 2^k -> r <= k.
Proof.
  intros Hn. unfold calc_log2_unsigned_ceil. rewrite find_msb_32_ok by exact Hn. rewrite bind_ok.
  pose proof (Z.log2_spec n (proj1 Hn)) as Hs. pose proof (Z.log2_nonneg n) as Hnn.
  rewrite Z.shiftl_mul_pow2, Z.mul_1_l by lia.
  assert (Hu : u32 (2 ^ Z.log2 n) = 2 ^ Z.log2 n).
  { unfold u32. apply Z.mod_small. change (2^32) with 4294967296 in Hn. pose proof (Z.pow_pos_nonneg 2 (Z.log2 n)). lia. }
  rewrite Hu. destruct (Z.eqb_spec (2 ^ Z.log2 n) n) as [He|He].
  - eexists; split; [reflexivity|]. split; [lia|]. split; [lia|]. intros k Hk Hnk.
    destruct (Z.le_gt_cases (Z.log2 n) k); [assumption|]. exfalso.
    assert (2^k < 2 ^ Z.log2 n) by (apply Z.pow_lt_mono_r; lia). lia.
  - eexists; split; [reflexivity|]. split; [lia|]. split; [unfold Z.succ in Hs; lia|]. intros k Hk Hnk.
    destruct (Z.le_gt_cases (Z.log2 n + 1) k); [assumption|]. exfalso.
    assert (2^k <= 2 ^ Z.log2 n) by (apply Z.pow_le_mono_r; lia). lia.
Qed.

Lemma log2_ll_ceil_ok n : 0 < n < 2^64 ->
  exists r, calc_log2_unsigned_ll_ceil n = Ok r /\ 0 <= r /\ n <= 2 ^ r /\ forall k, 0 <= k -> n <= 2^k -> r <= k.
Proof.
  intros Hn. unfold calc_log2_unsigned_ll_ceil. rewrite find_msb_64_ok by exact Hn. rewrite bind_ok.
  pose proof (Z.log2_spec n (proj1 Hn)) as Hs. pose proof (Z.log2_nonneg n) as Hnn.
  rewrite Z.shiftl_mul_pow2, Z.mul_1_l by lia.
  assert (Hu : 2 ^ Z.log2 n mod 18446744073709551616 = 2 ^ Z.log2 n).
  { apply Z.mod_small. change (2^64) with 18446744073709551616 in Hn. pose proof (Z.pow_pos_nonneg 2 (Z.log2 n)). lia. }
  rewrite Hu. destruct (Z.eqb_spec (2 ^ Z.log2 n) n) as [He|He].
  - eexists; split; [reflexivity|]. split; [lia|]. split; [lia|]. intros k Hk Hnk.
    destruct (Z.le_gt_cases (Z.log2 n) k); [assumption|]. exfalso.
    assert (2^k < 2 ^ Z.log2 n) by (apply Z.pow_lt_mono_r; lia). lia.
  - eexists; split; [reflexivity|]. split; [lia|]. split; [unfold Z.succ in Hs; lia|]. intros k Hk Hnk.
    destruct (Z.le_gt_cases (Z.log2 n + 1) k); [assumption|]. exfalso.
    assert (2^k <= 2 ^ Z.log2 n) by (apply Z.pow_le_mono_r; lia). lia.
Qed.
