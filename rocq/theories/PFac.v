(* Proofs about int_factor. *)
From Verif Require Import Base MPrimes16 MPrime MFac PIntMath PPrime.
From Coq Require Import Znumtheory.
Open Scope Z_scope.

(* Specification: the number represented by a list of (factor, multiplicity). *)
Definition fac_value (l : list (Z * Z)) : Z := fold_right (fun p acc => fst p ^ snd p * acc) 1 l.
Fixpoint increasing (l : list Z) : Prop :=
  match l with
  | x :: ((y :: _) as t) => x < y /\ increasing t
  | _ => True
  end.

Lemma fac_value_app l1 l2 : fac_value (l1 ++ l2) = fac_value l1 * fac_value l2.
Proof.
  unfold fac_value. induction l1 as [|p t IH]; cbn [app fold_right]; [lia|]. rewrite IH. ring.
Qed.

Lemma increasing_snoc l x : increasing l -> (forall y, In y l -> y < x) -> increasing (l ++ [x]).
Proof.
  induction l as [|a t IH]; intros H Hlt; cbn [app increasing]; [exact I|].
  destruct t as [|b t]; cbn [app].
  - split; [apply Hlt; left; reflexivity|exact I].
  - destruct H as [H1 H2]. split; [exact H1|]. apply IH; [exact H2|]. intros y Hy; apply Hlt; right; exact Hy.
Qed.

Lemma insert_last l e c : (forall p, In p l -> fst p < e) -> insert_list int_fops l e c = Ok (l ++ [(e, c)]).
Proof.
  induction l as [|[x k] t IH]; intros H; cbn [insert_list app]; [reflexivity|].
  specialize (H (x, k) (or_introl eq_refl)) as Hx. cbn [fst] in Hx.
  cbn [f_eqb f_ltb int_fops]. replace (e =? x) with false by lia. replace (e <? x) with false by lia.
  rewrite IH; [reflexivity|]. intros p Hp; apply H; right; exact Hp.
Qed.

Lemma divide_out_ok fuel : forall n p c, 2 <= p -> 1 <= n <= INT_MAX -> n < 2 ^ (Z.of_nat fuel - 1) -> (1 <= fuel)%nat ->
  exists n' k, divide_out fuel n p c = Ok (n', c + k) /\ 0 <= k /\ n = p ^ k * n' /\ ~ (p | n') /\ 1 <= n' <= n /\ ((p | n) -> 1 <= k).
Proof.
  induction fuel as [|f IH]; intros n p c Hp Hn Hlt Hf; [lia|].
  cbn [divide_out]. rewrite imod_pos, bind_ok by lia.
  destruct (n mod p =? 0) eqn:E.
  - rewrite idiv_pos, bind_ok by lia.
    assert (Hnp : n = p * (n / p)) by (apply Z_div_exact_2; lia).
    assert (Hq : 1 <= n / p) by nia.
    destruct f as [|f].
    { change (Z.of_nat 1 - 1) with 0 in Hlt. change (2^0) with 1 in Hlt. lia. }
    destruct (IH (n/p) p (c+1)) as (n' & k & Ek & Hk & Hv & Hnd & Hn' & _); [lia|nia| |lia|].
    + replace (Z.of_nat (S (S f)) - 1) with (Z.succ (Z.of_nat (S f) - 1)) in Hlt by lia.
      rewrite Z.pow_succ_r in Hlt by lia. nia.
    + exists n', (k+1). rewrite Ek. split; [do 2 f_equal; lia|]. split; [lia|]. split.
      * rewrite Z.pow_add_r, Z.pow_1_r by lia. rewrite Hnp at 1. rewrite Hv at 1. ring.
      * split; [exact Hnd|]. split; [nia|]. lia.
  - exists n, 0. rewrite Z.add_0_r. split; [reflexivity|]. split; [lia|]. split; [lia|].
    assert (Hnd : ~ (p | n)) by (intros Hd; apply Z.mod_divide in Hd; lia).
    split; [exact Hnd|]. split; [lia|]. intros Hd; contradiction.
Qed.

Definition good_facs (l : list (Z * Z)) : Prop :=
  (forall p, In p l -> prime (fst p) /\ 1 <= snd p) /\ increasing (map fst l).

Lemma good_snoc l p c : good_facs l -> prime p -> 1 <= c -> (forall q, In q l -> fst q < p) -> good_facs (l ++ [(p, c)]).
Proof.
  intros [H1 H2] Hp Hc Hlt. split.
  - intros q Hq. apply in_app_or in Hq as [Hq|[<-|[]]]; [auto|]. split; assumption.
  - rewrite map_app. apply increasing_snoc; [exact H2|]. intros y Hy. apply in_map_iff in Hy as (q & <- & Hq). auto.
Qed.

Lemma factor_loop_ok ps : forall lo n f,
  sortedb lo ps = true -> (forall p, In p ps -> prime p /\ p < 65536) ->
  (forall q, prime q -> (q | n) -> In q ps \/ 65536 <= q) ->
  (forall q, In q (facs f) -> fst q <= lo) -> 1 <= lo < 65536 ->
  good_facs (facs f) -> 1 <= n <= INT_MAX ->
  exists g, factor_loop ps n f = Ok g /\ funit g = funit f /\ good_facs (facs g) /\
            fac_value (facs g) = fac_value (facs f) * n.
Proof.
  induction ps as [|p t IH]; intros lo n f Hs Hpr Hdiv Hle Hlo Hg Hn; cbn [factor_loop].
  - destruct (n =? 1) eqn:E.
    + exists f. assert (n = 1) by lia. subst n. rewrite Z.mul_1_r. auto.
    + assert (Hpn : prime n).
      { destruct (prime_dec n) as [H|H]; [exact H|exfalso].
        destruct (composite_small_prime n) as (q & Hq & Hqn & Hqq); [lia|exact H|].
        destruct (Hdiv q Hq Hqn) as [[]|Hbig]. unfold INT_MAX in Hn. nia. }
      assert (Hbig : 65536 <= n) by (destruct (Hdiv n Hpn (Z.divide_refl n)) as [[]|]; assumption).
      assert (Hall : forall q, In q (facs f) -> fst q < n) by (intros q Hq; specialize (Hle q Hq); lia).
      unfold insert_factor. rewrite insert_last, bind_ok by exact Hall.
      eexists; split; [reflexivity|]. cbn [facs funit]. split; [reflexivity|]. split.
      * apply good_snoc; auto; lia.
      * rewrite fac_value_app. cbn [fac_value fold_right fst snd]. rewrite Z.pow_1_r. ring.
  - destruct (n =? 1) eqn:E.
    + exists f. assert (n = 1) by lia. subst n. rewrite Z.mul_1_r. auto.
    + cbn [sortedb] in Hs. apply andb_prop in Hs as [Hs1 Hs2].
      assert (Hpp : prime p) by (apply Hpr; left; reflexivity).
      assert (Hps : p < 65536) by (apply Hpr; left; reflexivity).
      assert (Hp2 : 2 <= p) by (destruct Hpp; lia).
      rewrite imod_pos, bind_ok by lia.
      destruct (n mod p =? 0) eqn:E2.
      * assert (Hpn : (p | n)) by (apply Z.mod_divide; lia).
        destruct (divide_out_ok 34 n p 0) as (n' & k & Ek & Hk & Hv & Hnd & Hn' & Hk1); [lia|lia| |lia|].
        { change (2 ^ (Z.of_nat 34 - 1)) with 8589934592. unfold INT_MAX in Hn; lia. }
        specialize (Hk1 Hpn). rewrite Ek, bind_ok. rewrite Z.add_0_l.
        assert (Hall : forall q, In q (facs f) -> fst q < p) by (intros q Hq; specialize (Hle q Hq); lia).
        unfold insert_factor. rewrite insert_last, !bind_ok by exact Hall.
        destruct (IH p n' (mkfac (facs f ++ [(p, k)]) (funit f))) as (g & Eg & Hu & Hgg & Hval); auto.
           ++ intros q Hq; apply Hpr; right; exact Hq.
           ++ intros q Hq Hqn'. destruct (Hdiv q Hq) as [[Heq|Hin]|Hb]; [rewrite Hv; apply Z.divide_mul_r; exact Hqn'| | |].
              ** subst q. contradiction.
              ** left; exact Hin.
              ** right; exact Hb.
           ++ cbn [facs]. intros q Hq. apply in_app_or in Hq as [Hq|[<-|[]]]; [apply Hall in Hq; lia|cbn [fst]; lia].
           ++ lia.
           ++ cbn [facs]. apply good_snoc; auto.
           ++ lia.
           ++ exists g. split; [exact Eg|]. split; [rewrite Hu; reflexivity|]. split; [exact Hgg|].
              rewrite Hval. cbn [facs].
              rewrite fac_value_app. cbn [fac_value fold_right fst snd]. rewrite Hv. ring.
      * apply (IH p n f); auto.
        -- intros q Hq; apply Hpr; right; exact Hq.
        -- intros q Hq Hqn. destruct (Hdiv q Hq Hqn) as [[<-|Hin]|Hb]; auto.
           exfalso. apply Z.mod_divide in Hqn; lia.
        -- intros q Hq. specialize (Hle q Hq). lia.
        -- lia.
Qed.

Lemma good_nil : good_facs [].
Proof. split; [intros p []|exact I]. Qed.

Lemma int_factor_pos n : 1 <= n <= INT_MAX -> forall f, facs f = [] ->
  exists g, factor_loop primes_16 n f = Ok g /\ funit g = funit f /\ good_facs (facs g) /\ fac_value (facs g) = n.
Proof.
  intros Hn f Hf. destruct (factor_loop_ok primes_16 1 n f) as (g & H1 & H2 & H3 & H4).
  - exact table_sorted.
  - intros p Hp. apply table_primes. exact Hp.
  - intros q Hq Hqn. destruct (Z_lt_le_dec q 65536); [left; apply table_primes; auto|right; assumption].
  - rewrite Hf. intros q [].
  - lia.
  - rewrite Hf. apply good_nil.
  - exact Hn.
  - exists g. split; [exact H1|]. split; [exact H2|]. split; [exact H3|]. rewrite H4, Hf. cbn [fac_value fold_right]. lia.
Qed.

Definition unit_value (u : option Z) : Z := match u with Some v => v | None => 1 end.

Lemma int_factor_ok n : n <> 0 -> Z.abs n <= INT_MAX ->
  exists g, int_factor n = Ok g /\ good_facs (facs g) /\
    Z.abs (unit_value (funit g)) = 1 /\ unit_value (funit g) * fac_value (facs g) = n.
Proof.
  intros Hn0 Hn. unfold int_factor.
  destruct ((-1 <=? n) && (n <=? 1)) eqn:E.
  - cbn [insert_unit fac_empty funit facs]. eexists; split; [reflexivity|]. cbn [facs funit unit_value fac_value fold_right].
    split; [apply good_nil|]. lia.
  - destruct (n <? 0) eqn:E2.
    + cbn [insert_unit fac_empty funit facs bind]. unfold ineg. rewrite chk_abs by lia. rewrite bind_ok.
      destruct (int_factor_pos (-n)) with (f := mkfac [] (Some (-1))) as (g & H1 & H2 & H3 & H4); [lia|reflexivity|].
      exists g. split; [exact H1|]. split; [exact H3|]. rewrite H2, H4. cbn [funit unit_value]. lia.
    + destruct (int_factor_pos n) with (f := @fac_empty Z) as (g & H1 & H2 & H3 & H4); [lia|reflexivity|].
      exists g. split; [exact H1|]. split; [exact H3|]. rewrite H2, H4. cbn [funit unit_value fac_empty]. lia.
Qed.

Lemma int_factor_full n : n <> 0 -> Z.abs n <= INT_MAX ->
  exists g, int_factor n = Ok g /\
    (forall p c, In (p, c) (facs g) -> prime p /\ 1 <= c) /\ increasing (map fst (facs g)) /\
    Z.abs (unit_value (funit g)) = 1 /\ unit_value (funit g) * fac_value (facs g) = n.
Proof.
  intros H0 Hn. destruct (int_factor_ok n H0 Hn) as (g & E & [H1 H2] & H3 & H4). exists g.
  split; [exact E|]. split; [intros p c Hin; exact (H1 (p, c) Hin)|]. auto.
Qed.
