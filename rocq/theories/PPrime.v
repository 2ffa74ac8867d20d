(* Proofs: the prime table is exactly the primes below 2^16; primality tests. *)
From Verif Require Import Base MPrimes16 MPrime PIntMath.
From Coq Require Import Znumtheory Sorted.
Open Scope Z_scope.

(* Scan a list of candidate divisors while p*p <= n. *)
Fixpoint has_div (ps : list Z) (n : Z) : bool :=
  match ps with
  | [] => false
  | p :: t => if p * p >? n then false else if n mod p =? 0 then true else has_div t n
  end.

(* Walk n, n+1, ... alongside the remaining table. *)
Fixpoint walk (k : nat) (n : Z) (rest : list Z) : bool :=
  match k with
  | O => match rest with [] => true | _ => false end
  | S k' =>
      match rest with
      | p :: t => if p =? n then negb (has_div primes_16 n) && walk k' (n+1) t
                  else has_div primes_16 n && walk k' (n+1) rest
      | [] => has_div primes_16 n && walk k' (n+1) []
      end
  end.

Lemma walk_all : walk (Z.to_nat 65534) 2 primes_16 = true.
Proof. vm_compute. reflexivity. Qed.

Fixpoint sortedb (lo : Z) (l : list Z) : bool :=
  match l with [] => true | x :: t => (lo <? x) && sortedb x t end.
Lemma table_sorted : sortedb 1 primes_16 = true.
Proof. vm_compute. reflexivity. Qed.

Lemma sortedb_gt l : forall lo x, sortedb lo l = true -> In x l -> lo < x.
Proof.
  induction l as [|y t IH]; intros lo x H Hin; [destruct Hin|].
  cbn [sortedb] in H. apply andb_prop in H as [H1 H2]. destruct Hin as [->|Hin]; [lia|].
  specialize (IH y x H2 Hin). lia.
Qed.

Lemma walk_spec k : forall n rest, walk k n rest = true -> sortedb (n-1) rest = true ->
  (forall x, In x rest -> n <= x < n + Z.of_nat k) /\
  (forall x, n <= x < n + Z.of_nat k -> (In x rest <-> has_div primes_16 x = false)).
Proof.
  induction k as [|k IH]; intros n rest H Hs; cbn [walk] in H.
  - destruct rest; [|discriminate]. split; [intros x []|intros x Hx; lia].
  - destruct rest as [|p t].
    + apply andb_prop in H as [H1 H2]. destruct (IH _ _ H2 eq_refl) as [I1 I2].
      split; [intros x []|]. intros x Hx. destruct (Z.eq_dec x n) as [->|].
      * rewrite H1. split; [intros []|discriminate].
      * apply I2. lia.
    + cbn [sortedb] in Hs. apply andb_prop in Hs as [Hs1 Hs2].
      destruct (p =? n) eqn:E.
      * apply Z.eqb_eq in E; subst p. apply andb_prop in H as [H1 H2].
        destruct (IH (n+1) t H2) as [I1 I2]; [replace (n+1-1) with n by lia; exact Hs2|].
        split.
        -- intros x [->|Hx]; [lia|specialize (I1 x Hx); lia].
        -- intros x Hx. destruct (Z.eq_dec x n) as [->|].
           ++ split; [intros _; destruct (has_div _ _); [discriminate|reflexivity]|intros _; left; reflexivity].
           ++ rewrite <- I2 by lia. cbn [In]. split; [intros [->|]; [lia|assumption]|auto].
      * apply andb_prop in H as [H1 H2].
        destruct (IH (n+1) (p :: t) H2) as [I1 I2].
        { cbn [sortedb]. apply andb_true_intro. split; [lia|exact Hs2]. }
        split.
        -- intros x Hx. specialize (I1 x Hx). lia.
        -- intros x Hx. destruct (Z.eq_dec x n) as [->|].
           ++ rewrite H1. split; [|discriminate]. intros Hin. specialize (I1 n Hin). lia.
           ++ apply I2. lia.
Qed.

Lemma walk_spec_all :
  (forall x, In x primes_16 -> 2 <= x < 65536) /\
  (forall x, 2 <= x < 65536 -> (In x primes_16 <-> has_div primes_16 x = false)).
Proof.
  destruct (walk_spec _ _ _ walk_all table_sorted) as [H1 H2].
  rewrite Z2Nat.id in H1, H2 by (apply Z.leb_le; reflexivity).
  change (2 + 65534) with 65536 in H1, H2. split; assumption.
Qed.
Lemma table_bounds x : In x primes_16 -> 2 <= x < 65536.
Proof. apply (proj1 walk_spec_all). Qed.
Lemma table_has_div x : 2 <= x < 65536 -> (In x primes_16 <-> has_div primes_16 x = false).
Proof. apply (proj2 walk_spec_all). Qed.

Lemma has_div_true ps n : (forall p, In p ps -> 2 <= p) -> has_div ps n = true ->
  exists p, In p ps /\ p * p <= n /\ (p | n).
Proof.
  induction ps as [|p t IH]; cbn [has_div]; intros Hps H; [discriminate|].
  destruct (p * p >? n) eqn:E1; [discriminate|].
  destruct (n mod p =? 0) eqn:E2.
  - exists p. split; [left; reflexivity|]. split; [lia|]. apply Z.mod_divide; [|lia].
    specialize (Hps p (or_introl eq_refl)). lia.
  - destruct IH as (q & Hq & H1 & H2); [intros; apply Hps; right; assumption|exact H|].
    exists q. split; [right; assumption|auto].
Qed.

Lemma has_div_found ps : forall lo n p, sortedb lo ps = true -> 0 <= lo -> In p ps -> p * p <= n -> (p | n) -> has_div ps n = true.
Proof.
  induction ps as [|q t IH]; intros lo n p Hs Hlo Hin Hpp Hdiv; [destruct Hin|].
  cbn [sortedb] in Hs. apply andb_prop in Hs as [Hs1 Hs2]. cbn [has_div].
  assert (Hqp : q <= p). { destruct Hin as [->|Hin]; [lia|]. apply (sortedb_gt t q p Hs2) in Hin. lia. }
  replace (q * q >? n) with false by nia.
  destruct (n mod q =? 0) eqn:E2; [reflexivity|].
  destruct Hin as [->|Hin].
  - apply Z.mod_divide in Hdiv; lia.
  - apply (IH q n p); auto. lia.
Qed.

(* Number theory: a composite number has a prime divisor at most its square root. *)
Lemma composite_small_prime n : 1 < n -> ~ prime n -> exists q, prime q /\ (q | n) /\ q * q <= n.
Proof.
  intros Hn. assert (Hn0 : 0 <= n) by lia. revert n Hn0 Hn.
  apply (Z_lt_induction (fun n => 1 < n -> ~ prime n -> exists q, prime q /\ (q | n) /\ q * q <= n)).
  intros n IH Hn Hp.
  destruct (not_prime_divide n Hn Hp) as (d & Hd & [e He]).
  assert (He1 : 1 < e < n) by nia.
  assert (Hm : exists m, 1 < m < n /\ (m | n) /\ m * m <= n).
  { destruct (Z.le_gt_cases d e).
    - exists d. split; [lia|]. split; [exists e; lia|]. nia.
    - exists e. split; [lia|]. split; [exists d; lia|]. nia. }
  destruct Hm as (m & Hm1 & Hm2 & Hm3).
  destruct (prime_dec m) as [Hpm|Hpm].
  - exists m. auto.
  - destruct (IH m) as (q & Hq1 & Hq2 & Hq3); [lia|lia|exact Hpm|].
    exists q. split; [exact Hq1|]. split; [eapply Z.divide_trans; eassumption|]. lia.
Qed.

Lemma prime_no_small_div n q : prime n -> 2 <= q -> (q | n) -> q = n.
Proof.
  intros Hp Hq Hd. destruct (prime_divisors n Hp q Hd) as [H|[H|[H|H]]]; destruct Hp; lia.
Qed.

Theorem table_primes n : In n primes_16 <-> prime n /\ n < 65536.
Proof.
  split.
  - intros Hin. pose proof (table_bounds n Hin) as Hb. split; [|lia].
    destruct (prime_dec n) as [Hp|Hp]; [exact Hp|exfalso].
    (* the small prime divisor is in the table by completeness of has_div *)
      destruct (composite_small_prime n) as (q & Hq & Hqn & Hqq); [lia|exact Hp|].
      assert (Hq2 : 2 <= q) by (destruct Hq; lia).
      assert (Hqlt : q < n) by nia.
      assert (Hqin : In q primes_16).
      { apply table_has_div; [lia|]. destruct (has_div primes_16 q) eqn:E; [|reflexivity]. exfalso.
        apply has_div_true in E; [|intros p Hp'; apply table_bounds in Hp'; lia].
        destruct E as (p & Hp1 & Hp2 & Hp3). assert (p = q) by (apply prime_no_small_div; auto; apply table_bounds in Hp1; lia).
        subst. nia. }
      apply table_has_div in Hin; [|lia].
      rewrite (has_div_found primes_16 1 n q table_sorted) in Hin; auto; [discriminate|lia].
  - intros [Hp Hlt]. assert (Hn : 2 <= n) by (destruct Hp; lia).
    apply table_has_div; [lia|]. destruct (has_div primes_16 n) eqn:E; [|reflexivity]. exfalso.
    apply has_div_true in E; [|intros p Hp'; apply table_bounds in Hp'; lia].
    destruct E as (p & Hp1 & Hp2 & Hp3). assert (p = n) by (apply prime_no_small_div; auto; apply table_bounds in Hp1; lia).
    subst. nia.
Qed.

Lemma prime_abs_ok n : Z.abs n <= INT_MAX -> prime_abs n = Ok (Z.abs n).
Proof.
  intros H. unfold prime_abs, ineg. rewrite chk_abs by lia. rewrite bind_ok. f_equal.
  destruct (n <? 0) eqn:E; lia.
Qed.

Lemma table_loop_false ps n : (forall p, In p ps -> prime p) -> table_loop ps n = false -> 0 < n -> ~ prime n.
Proof.
  induction ps as [|p t IH]; cbn [table_loop]; intros Hps H Hn Hp; [discriminate|].
  assert (Hpp : prime p) by (apply Hps; left; reflexivity).
  destruct (n mod p =? 0) eqn:E.
  - assert (p = n). { apply prime_no_small_div; [exact Hp|destruct Hpp; lia|]. apply Z.mod_divide; [destruct Hpp; lia|lia]. }
    lia.
  - destruct (u32 (p*p) >? n); [discriminate|]. apply IH; auto. intros; apply Hps; right; assumption.
Qed.

Lemma table_loop_true ps : forall lo n, sortedb lo ps = true ->
  (forall q, lo < q -> q < 65536 -> prime q -> In q ps) ->
  (forall q, In q ps -> prime q /\ q < 65536) ->
  (forall q, prime q -> q <= lo -> ~ (q | n)) ->
  1 < n <= INT_MAX -> table_loop ps n = true -> prime n.
Proof.
  induction ps as [|p t IH]; intros lo n Hs Hall Hpr Hno Hn H.
  - destruct (prime_dec n) as [Hp|Hp]; [exact Hp|exfalso].
    destruct (composite_small_prime n) as (q & Hq & Hqn & Hqq); [lia|exact Hp|].
    destruct (Z.le_gt_cases q lo) as [Hl|Hl]; [exact (Hno q Hq Hl Hqn)|].
    apply (Hall q); [lia| |exact Hq]. unfold INT_MAX in Hn. destruct Hq. nia.
  - cbn [sortedb] in Hs. apply andb_prop in Hs as [Hs1 Hs2].
    destruct (Hpr p (or_introl eq_refl)) as [Hpp Hplt]. assert (Hp2 : 2 <= p) by (destruct Hpp; lia).
    cbn [table_loop] in H. destruct (n mod p =? 0) eqn:E.
    + assert (n = p) by lia. subst; exact Hpp.
    + assert (Hnd : ~ (p | n)) by (intros Hd; apply Z.mod_divide in Hd; lia).
      assert (Hno' : forall q, prime q -> q <= p -> ~ (q | n)).
      { intros q Hq Hqp Hqn. destruct (Z.eq_dec q p) as [->|]; [exact (Hnd Hqn)|].
        destruct (Z.le_gt_cases q lo) as [Hl|Hl]; [exact (Hno q Hq Hl Hqn)|].
        assert (Hin : In q (p :: t)) by (apply Hall; [lia|lia|exact Hq]).
        destruct Hin as [->|Hin]; [lia|]. apply (sortedb_gt t p q Hs2) in Hin. lia. }
      destruct (u32 (p*p) >? n) eqn:E2.
      * assert (Hu : u32 (p*p) = p*p) by (unfold u32; apply Z.mod_small; nia).
        destruct (prime_dec n) as [Hp|Hp]; [exact Hp|exfalso].
        destruct (composite_small_prime n) as (q & Hq & Hqn & Hqq); [lia|exact Hp|].
        destruct (Z.le_gt_cases q p) as [Hl|Hl]; [exact (Hno' q Hq Hl Hqn)|]. nia.
      * apply (IH p n Hs2); auto.
        -- intros q Hq Hq' Hqp. assert (Hin : In q (p :: t)) by (apply Hall; [lia|lia|exact Hqp]).
           destruct Hin as [->|Hin]; [lia|exact Hin].
        -- intros q Hq. apply Hpr. right; exact Hq.
Qed.

Lemma isprime_table_ok n : Z.abs n <= INT_MAX ->
  exists b, isprime_table n = Ok b /\ (b = true <-> prime (Z.abs n)).
Proof.
  intros Hn. unfold isprime_table. rewrite prime_abs_ok, bind_ok by exact Hn.
  set (m := Z.abs n) in *. destruct (m <=? 1) eqn:E.
  - exists false. split; [reflexivity|]. split; [discriminate|]. intros Hp; destruct Hp; lia.
  - eexists; split; [reflexivity|]. split.
    + intros H. apply (table_loop_true primes_16 1 m table_sorted); auto.
      * intros q H1 H2 H3. apply table_primes. auto.
      * intros q Hq. apply table_primes. exact Hq.
      * intros q Hq Hq1 _. destruct Hq; lia.
      * lia.
    + intros Hp. destruct (table_loop primes_16 m) eqn:E2; [reflexivity|exfalso].
      apply table_loop_false in E2; auto; [|lia]. intros p Hin. apply table_primes in Hin. tauto.
Qed.

Lemma isprime_trial_ok n : Z.abs n <= INT_MAX ->
  exists b, isprime_trial n = Ok b /\ (b = true <-> prime (Z.abs n)).
Proof.
  intros Hn. unfold isprime_trial. rewrite prime_abs_ok, bind_ok by exact Hn.
  set (m := Z.abs n) in *. destruct (m <=? 1) eqn:E1.
  { exists false. split; [reflexivity|]. split; [discriminate|]. intros Hp; destruct Hp; lia. }
  destruct (m <=? 3) eqn:E2.
  { exists true. split; [reflexivity|]. split; [|reflexivity]. intros _.
    assert (Hm : m = 2 \/ m = 3) by lia. destruct Hm as [->| ->]; [apply prime_2|apply prime_3]. }
  destruct (Z.land m 1 =? 0) eqn:E3.
  { exists false. split; [reflexivity|]. split; [discriminate|]. intros Hp.
    change 1 with (Z.ones 1) in E3. rewrite Z.land_ones in E3 by lia. change (2^1) with 2 in E3.
    assert (2 = m). { apply prime_no_small_div; [exact Hp|lia|]. apply Z.mod_divide; lia. } lia. }
  assert (Hodd : m mod 2 = 1).
  { change 1 with (Z.ones 1) in E3 at 1. rewrite Z.land_ones in E3 by lia. change (2^1) with 2 in E3. lia. }
  pose proof (Z.sqrt_spec m) as Hsq. pose proof (Z.sqrt_nonneg m) as Hsq0.
  apply (loop_total (trial_step m)
    (fun s => let '(d, q) := s in
      3 <= d /\ d mod 2 = 1 /\ (forall k, 2 <= k < d -> ~ (k | m)) /\
      ((d = 3 /\ q = m) \/ (5 <= d /\ q = m / (d-2) /\ (d-4)*(d-4) <= m)))
    (fun s => let '(d, _) := s in Z.to_nat (Z.sqrt m + 5 - d))
    (fun b => b = true <-> prime m)).
  - intros [d q] (Hd & Hdo & Hno & Hq). unfold trial_step.
    assert (Hds : d <= Z.sqrt m + 4).
    { destruct Hq as [[-> _]|(Hq1 & _ & Hq3)]; [lia|].
      assert (Z.sqrt ((d-4)*(d-4)) <= Z.sqrt m) by (apply Z.sqrt_le_mono; lia).
      rewrite Z.sqrt_square in H by lia. lia. }
    destruct (d <=? q) eqn:E.
    + assert (Hdb : d * (d - 2) <= m).
      { destruct Hq as [[-> _]|(Hq1 & Hq2 & Hq3)]; [lia|].
        pose proof (Z.mul_div_le m (d-2)). assert (d <= m/(d-2)) by lia. clear -H H0 Hq1. nia. }
      rewrite idiv_pos by lia. rewrite bind_ok.
      assert (Hqd : 0 <= m / d * d <= m).
      { split; [apply Z.mul_nonneg_nonneg; [apply Z.div_pos|]; lia|]. rewrite Z.mul_comm. apply Z.mul_div_le. lia. }
      unfold imul. rewrite chk_ok by (unfold INT_MIN, INT_MAX in *; lia). rewrite bind_ok.
      destruct (m =? m / d * d) eqn:E4.
      * right. exists false. split; [reflexivity|]. split; [discriminate|]. intros Hp.
        assert (Hdm : d = m). { apply prime_no_small_div; [exact Hp|lia|]. exists (m/d). lia. }
        destruct Hq as [[Hq1 Hq2]|(Hq1 & Hq2 & _)]; [lia|].
        assert (m / (d-2) < m). { apply Z.div_lt; lia. } lia.
      * left. assert (Hndd : ~ (d | m)).
        { intros [z Hz]. rewrite Hz in E4. rewrite Z.div_mul in E4 by lia. lia. }
        assert (Hd46 : d <= 46343) by (clear -Hdb Hn Hd; unfold INT_MAX in Hn; fold m in Hn; clearbody m; nia).
        unfold iadd. rewrite chk_ok by (unfold INT_MIN, INT_MAX in *; lia). rewrite bind_ok.
        exists (d+2, m/d). split; [reflexivity|]. split.
        -- split; [lia|]. split; [lia|]. split.
           ++ intros k Hk Hkm. destruct (Z.lt_ge_cases k d); [exact (Hno k ltac:(lia) Hkm)|].
              destruct (Z.eq_dec k d) as [->|]; [exact (Hndd Hkm)|].
              assert (k = d + 1) by lia. subst k.
              assert (H2k : (2 | d+1)) by (apply Z.mod_divide; lia).
              assert (H2m : (2 | m)) by (eapply Z.divide_trans; eassumption).
              apply Z.mod_divide in H2m; lia.
           ++ right. split; [lia|]. split; [f_equal; lia|]. replace (d + 2 - 4) with (d-2) by lia. clear -Hdb Hd. nia.
        -- lia.
    + right. exists true. split; [reflexivity|]. split; [|reflexivity]. intros _.
      destruct (prime_dec m) as [Hp|Hp]; [exact Hp|exfalso].
      destruct (composite_small_prime m) as (r & Hr & Hrm & Hrr); [lia|exact Hp|].
      assert (Hr2 : 2 <= r) by (destruct Hr; lia).
      destruct (Z.lt_ge_cases r d) as [Hl|Hl]; [exact (Hno r ltac:(lia) Hrm)|].
      destruct Hq as [[Hq1 Hq2]|(Hq1 & Hq2 & _)]; [lia|].
      assert (Hlt : m < (d-2) * d). { assert (m / (d-2) < d) by lia. apply Z.div_lt_upper_bound in H || idtac. pose proof (Z.mul_succ_div_gt m (d-2)). nia. }
      nia.
  - split; [lia|]. split; [reflexivity|]. split; [|left; split; reflexivity].
    intros k Hk Hkm. assert (k = 2) by lia. subst. apply Z.mod_divide in Hkm; lia.
  - lia.
Qed.

Lemma sortedb_nodup l : forall lo, sortedb lo l = true -> NoDup l.
Proof.
  induction l as [|x t IH]; intros lo H; [constructor|].
  cbn [sortedb] in H. apply andb_prop in H as [H1 H2]. constructor; [|eapply IH; exact H2].
  intros Hin. apply (sortedb_gt t x x H2) in Hin. lia.
Qed.

Lemma sortedb_firstn l : forall lo i, sortedb lo l = true -> sortedb lo (firstn i l) = true.
Proof.
  induction l as [|x t IH]; intros lo i H; [destruct i; reflexivity|].
  cbn [sortedb] in H. apply andb_prop in H as [H1 H2]. destruct i as [|i]; [reflexivity|].
  cbn [firstn sortedb]. rewrite H1. apply IH. exact H2.
Qed.

Lemma sortedb_split l : forall lo i p, sortedb lo l = true -> nth_error l i = Some p ->
  forall q, In q (firstn i l) <-> In q l /\ q < p.
Proof.
  induction l as [|x t IH]; intros lo i p H Hi q; [destruct i; discriminate|].
  cbn [sortedb] in H. apply andb_prop in H as [H1 H2].
  destruct i as [|i]; cbn [nth_error firstn] in *.
  - inversion Hi; subst. split; [intros []|]. intros [[->|Hq] Hlt]; [lia|].
    apply (sortedb_gt t p q H2) in Hq. lia.
  - cbn [In]. rewrite (IH x i p H2 Hi q).
    assert (Hxp : x < p) by (apply (sortedb_gt t x p H2); eapply nth_error_In; exact Hi).
    split; [intros [->|[Hq Hlt]]; auto|intros [[->|Hq] Hlt]; auto].
Qed.

Lemma nth_prime_ok k : 1 <= k <= 6542 ->
  exists p l, nth_prime k = Ok p /\ prime p /\ NoDup l /\ (forall q, In q l <-> prime q /\ q < p) /\ Z.of_nat (length l) = k - 1.
Proof.
  intros Hk. unfold nth_prime.
  assert (Hlen : Z.of_nat (length primes_16) = 6542) by reflexivity.
  rewrite Hlen. replace (k >? 6542) with false by lia. replace (k <? 1) with false by lia.
  destruct (nth_error primes_16 (Z.to_nat (k-1))) as [p|] eqn:E.
  - exists p, (firstn (Z.to_nat (k-1)) primes_16). split; [reflexivity|].
    assert (Hin : In p primes_16) by (eapply nth_error_In; exact E).
    pose proof (proj1 (table_primes p) Hin) as [Hp Hlt].
    split; [exact Hp|]. split.
    { apply (sortedb_nodup _ 1). apply sortedb_firstn. exact table_sorted. }
    split.
    + intros q. rewrite (sortedb_split primes_16 1 _ p table_sorted E). rewrite table_primes. intuition lia.
    + rewrite firstn_length. lia.
  - apply nth_error_None in E. lia.
Qed.

Lemma nth_prime_reject k : k < 1 \/ 6542 < k -> nth_prime k = Exn.
Proof.
  intros H. unfold nth_prime. change (Z.of_nat (length primes_16)) with 6542.
  destruct (k >? 6542) eqn:E; [reflexivity|]. replace (k <? 1) with true by lia. reflexivity.
Qed.

Lemma isprime_agree n : Z.abs n <= INT_MAX -> isprime_trial n = isprime_table n.
Proof.
  intros Hn. destruct (isprime_trial_ok n Hn) as (b & E & Hb). destruct (isprime_table_ok n Hn) as (c & E' & Hc).
  rewrite E, E'. f_equal. destruct b, c; try reflexivity; [symmetry|]; tauto.
Qed.
