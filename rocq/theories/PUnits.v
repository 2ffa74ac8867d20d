(* Orders and baby-step/giant-step tables: the parts shared by the two unit groups, and
   the units modulo an integer. *)
From Verif Require Import Base MIntMath MIntmod MFac MUnits PIntMath PIntMath2 PIntmod PFac PFacInt.
From Coq Require Import Znumtheory Permutation Sorted.
Open Scope Z_scope.

Lemma increasing_cons l : forall z, increasing (z :: l) -> increasing l /\ Forall (Z.lt z) l.
Proof.
  induction l as [|a l IH]; intros z H; [split; constructor|].
  destruct H as [H1 H2]. split; [exact H2|]. constructor; [exact H1|].
  destruct (IH a H2) as [_ F]. eapply Forall_impl; [|exact F]. intros b Hb. cbn in Hb. lia.
Qed.

(* ---------------------------------------------------------------- least exponents *)
Section Least.
Variable P : Z -> bool.
Definition least_exp (k : Z) : Prop := 0 < k /\ P k = true /\ forall j, 0 < j < k -> P j = false.
Lemma least_uniq j k : least_exp j -> least_exp k -> j = k.
Proof.
  intros (J1 & J2 & J3) (K1 & K2 & K3).
  destruct (Z.lt_trichotomy j k) as [H|[H|H]]; [|exact H|].
  - rewrite K3 in J2 by lia. discriminate.
  - rewrite J3 in K2 by lia. discriminate.
Qed.
Lemma least_exists n : 0 < n -> P n = true -> exists k, least_exp k /\ k <= n.
Proof.
  intros Hn.
  assert (G : forall b : nat, forall n, 0 < n <= Z.of_nat b -> P n = true -> exists k, least_exp k /\ k <= n).
  { induction b as [|b IH]; intros m Hm HP; [lia|].
    assert (D : (forall j, 0 < j < m -> P j = false) \/ exists j, 0 < j < m /\ P j = true).
    { clear IH HP. assert (D : forall c : nat, Z.of_nat c < m -> (forall j, 0 < j <= Z.of_nat c -> P j = false) \/ exists j, 0 < j < m /\ P j = true).
      { induction c as [|c IHc]; intros Hc; [left; intros; lia|].
        destruct IHc as [L|R]; [lia| |right; exact R].
        destruct (P (Z.of_nat (S c))) eqn:E; [right; exists (Z.of_nat (S c)); split; [lia|exact E]|].
        left. intros j Hj. destruct (Z.eq_dec j (Z.of_nat (S c))) as [->|Hne]; [exact E|]. apply L; lia. }
      destruct (D (Z.to_nat (m - 1)) ltac:(lia)) as [L|R]; [left|right; exact R]. intros j Hj. apply L; lia. }
    destruct D as [L|(j & Hj & HPj)].
    - exists m. split; [|lia]. split; [lia|]. split; [exact HP|exact L].
    - destruct (IH j ltac:(lia) HPj) as (k & Hk & Hle). exists k. split; [exact Hk|lia]. }
  intros HP. apply (G (Z.to_nat n) n); [lia|exact HP].
Qed.
(* exponents of an element of a group *)
Hypothesis P0 : P 0 = true.
Hypothesis PA : forall a b, 0 <= a -> 0 <= b -> P a = true -> P (a + b) = P b.
Lemma P_mul k q : 0 <= q -> 0 < k -> P k = true -> P (q * k) = true.
Proof.
  intros Hq Hk HP. rewrite <- (Z2Nat.id q Hq). generalize (Z.to_nat q). clear q Hq.
  induction n as [|n IH]; [exact P0|].
  replace (Z.of_nat (S n) * k) with (k + Z.of_nat n * k) by lia.
  rewrite PA by (lia || assumption). exact IH.
Qed.
Lemma least_div k n : least_exp k -> 0 <= n -> (P n = true <-> (k | n)).
Proof.
  intros (K1 & K2 & K3) Hn. split.
  - intros HP. destruct (Z.eq_dec (n mod k) 0) as [E|E]; [apply Z.mod_divide; lia|].
    assert (B := Z.mod_pos_bound n k K1).
    rewrite (Z.div_mod n k) in HP by lia.
    rewrite PA in HP; [|apply Z.mul_nonneg_nonneg; [lia|apply Z.div_pos; lia]|lia|rewrite Z.mul_comm; apply P_mul; [apply Z.div_pos; lia|lia|exact K2]].
    rewrite K3 in HP by lia. discriminate.
  - intros (q & ->). apply P_mul; [nia|exact K1|exact K2].
Qed.

Lemma order_loop_first {A} (exp : Z -> res A) is_one ds :
  increasing ds -> (forall d, In d ds -> exists ap, exp d = Ok ap /\ is_one ap = Ok (P d)) ->
  (exists d, In d ds /\ P d = true) ->
  exists d, order_loop exp is_one ds = Ok d /\ In d ds /\ P d = true /\ forall e, In e ds -> P e = true -> d <= e.
Proof.
  induction ds as [|d t IH]; intros Hs He [x [Hx HP]]; [destruct Hx|].
  cbn [order_loop]. destruct (He d (or_introl eq_refl)) as (ap & -> & Hap). rewrite bind_ok, Hap, bind_ok.
  destruct (increasing_cons _ _ Hs) as [Ht Hd].
  destruct (P d) eqn:E.
  - exists d. split; [reflexivity|]. split; [left; reflexivity|]. split; [exact E|].
    intros e [<-|Hin] _; [lia|]. rewrite Forall_forall in Hd. specialize (Hd e Hin). lia.
  - destruct IH as (d' & E1 & E2 & E3 & E4); [exact Ht|intros; apply He; right; assumption| |].
    + exists x. destruct Hx as [->|Hx]; [congruence|]. split; assumption.
    + exists d'. split; [exact E1|]. split; [right; exact E2|]. split; [exact E3|].
      intros e [<-|Hin] HPe; [congruence|]. apply E4; assumption.
Qed.
Lemma order_loop_least {A} (exp : Z -> res A) is_one ds n : 0 < n -> P n = true ->
  increasing ds -> (forall d, In d ds <-> 0 < d /\ (d | n)) ->
  (forall d, 0 < d <= n -> exists ap, exp d = Ok ap /\ is_one ap = Ok (P d)) ->
  exists k, order_loop exp is_one ds = Ok k /\ least_exp k /\ (k | n).
Proof.
  intros Hn HP Hs Hd He. destruct (least_exists n Hn HP) as (k & Hk & Hkn).
  assert (Hdiv := proj1 (least_div k n Hk ltac:(lia)) HP).
  destruct (order_loop_first exp is_one ds Hs) as (d & E1 & E2 & E3 & E4).
  - intros d Hin. apply Hd in Hin as [H1 H2]. apply He. split; [exact H1|]. apply Z.divide_pos_le; assumption.
  - exists k. split; [apply Hd; split; [apply Hk|exact Hdiv]|apply Hk].
  - exists d. split; [exact E1|]. assert (d = k).
    { assert (d <= k) by (apply E4; [apply Hd; split; [apply Hk|exact Hdiv]|apply Hk]).
      apply Hd in E2. destruct (Z.eq_dec d k) as [->|Hne]; [reflexivity|].
      destruct Hk as (_ & _ & K3). rewrite K3 in E3 by lia. discriminate. }
    subst d. split; [exact Hk|exact Hdiv].
Qed.
End Least.

(* ---------------------------------------------------------------- tables *)
Section Tables.
Context {A : Type} (mul : A -> A -> res A) (eqb ltb : A -> A -> res bool).

Lemma log_table_from_ok (X : nat -> A) step : forall cnt s,
  (forall i, (s <= i < s + cnt)%nat -> mul (X i) step = Ok (X (S i))) ->
  log_table_from mul cnt (X s) step (Z.of_nat s + 1) = Ok (map (fun i => (X i, Z.of_nat i)) (seq (S s) cnt)).
Proof.
  induction cnt as [|n IH]; intros s H; [reflexivity|].
  cbn [log_table_from seq map]. rewrite H by lia. rewrite bind_ok.
  replace (Z.of_nat s + 1 + 1) with (Z.of_nat (S s) + 1) by lia.
  rewrite IH by (intros; apply H; lia). rewrite bind_ok.
  replace (Z.of_nat s + 1) with (Z.of_nat (S s)) by lia. reflexivity.
Qed.
Lemma log_table_ok (X : nat -> A) step k : (0 < k)%nat ->
  (forall i, (S i < k)%nat -> mul (X i) step = Ok (X (S i))) ->
  log_table mul k (X 0%nat) step = Ok (map (fun i => (X i, Z.of_nat i)) (seq 0 k)).
Proof.
  intros Hk H. destruct k as [|n]; [lia|]. cbn [log_table].
  change 1 with (Z.of_nat 0 + 1). rewrite log_table_from_ok by (intros; apply H; lia). reflexivity.
Qed.

(* what is assumed of qsort, on arrays of elements of V *)
Definition sorts (V : A -> Prop) (qs : list (A * Z) -> list (A * Z)) : Prop :=
  forall l, (forall x, In x l -> V (fst x)) ->
    Permutation l (qs l) /\ StronglySorted (fun x y => ltb (fst y) (fst x) = Ok false) (qs l).

Variables (V : A -> Prop) (v : A -> N).
Hypothesis eqb_ok : forall x y, V x -> V y -> eqb x y = Ok (N.eqb (v x) (v y)).
Hypothesis ltb_ok : forall x y, V x -> V y -> ltb x y = Ok (N.ltb (v x) (v y)).

Lemma log_scan_ok k : forall la lg,
  (forall x, In x la -> V (fst x)) -> (forall x, In x lg -> V (fst x)) ->
  StronglySorted (fun x y => ltb (fst y) (fst x) = Ok false) la ->
  StronglySorted (fun x y => ltb (fst y) (fst x) = Ok false) lg ->
  (exists x y, In x la /\ In y lg /\ v (fst x) = v (fst y) /\
     log_scan eqb ltb k la lg = Ok (to_int (u32 (snd x + u32 (snd y * k)))))
  \/ (log_scan eqb ltb k la lg = Ok (-1) /\ forall x y, In x la -> In y lg -> v (fst x) <> v (fst y)).
Proof.
  induction la as [|[x i] la IH]; intros lg Ha Hg Sa Sg.
  { right. split; [destruct lg; reflexivity|intros ? ? []]. }
  induction lg as [|[y j] lg IHg].
  { right. split; [reflexivity|intros ? ? _ []]. }
  cbn [log_scan].
  assert (Vx : V x) by exact (Ha (x, i) (or_introl eq_refl)).
  assert (Vy : V y) by exact (Hg (y, j) (or_introl eq_refl)).
  rewrite eqb_ok by assumption. rewrite bind_ok.
  destruct (N.eqb_spec (v x) (v y)) as [E|E].
  { left. exists (x, i), (y, j). split; [left; reflexivity|]. split; [left; reflexivity|]. split; [exact E|reflexivity]. }
  rewrite ltb_ok by assumption. rewrite bind_ok.
  inversion Sa as [|? ? Sa' Fa]; subst. inversion Sg as [|? ? Sg' Fg]; subst.
  rewrite Forall_forall in Fa, Fg. cbn [fst] in Fa, Fg.
  destruct (N.ltb_spec (v x) (v y)) as [L|L].
  - destruct (IH ((y, j) :: lg)) as [(x' & y' & I1 & I2 & I3 & I4)|[I1 I2]].
    + intros z Hz; apply Ha; right; exact Hz.
    + exact Hg.
    + exact Sa'.
    + exact Sg.
    + left. exists x', y'. split; [right; exact I1|]. split; [exact I2|]. split; [exact I3|exact I4].
    + right. split; [exact I1|]. intros x' y' [<-|Hx'] Hy'; [|apply I2; assumption]. cbn [fst].
      destruct Hy' as [<-|Hy']; [cbn; lia|].
      specialize (Fg _ Hy'). rewrite ltb_ok in Fg by (try exact Vy; apply Hg; right; exact Hy').
      injection Fg as Fg. apply N.ltb_ge in Fg. lia.
  - destruct IHg as [(x' & y' & I1 & I2 & I3 & I4)|[I1 I2]].
    + intros z Hz; apply Hg; right; exact Hz.
    + exact Sg'.
    + left. exists x', y'. split; [exact I1|]. split; [right; exact I2|]. split; [exact I3|exact I4].
    + right. split; [exact I1|]. intros x' y' Hx' [<-|Hy']; [|apply I2; assumption]. cbn [fst].
      destruct Hx' as [<-|Hx']; [cbn; lia|].
      specialize (Fa _ Hx'). rewrite ltb_ok in Fa by (try exact Vx; apply Ha; right; exact Hx').
      injection Fa as Fa. apply N.ltb_ge in Fa. lia.
Qed.

Lemma log_search_ok qs (X Y : nat -> A) k ginv gk : sorts V qs -> (0 < k)%nat -> Z.of_nat k * Z.of_nat k <= 2 ^ 31 ->
  (forall i, (i < k)%nat -> V (X i) /\ V (Y i)) ->
  (forall i, (S i < k)%nat -> mul (X i) ginv = Ok (X (S i)) /\ mul (Y i) gk = Ok (Y (S i))) ->
  (exists i j, (i < k)%nat /\ (j < k)%nat /\ v (X i) = v (Y j) /\
     log_search mul eqb ltb qs (Z.of_nat k) (X 0%nat) (Y 0%nat) ginv gk = Ok (Z.of_nat (i + j * k)))
  \/ (log_search mul eqb ltb qs (Z.of_nat k) (X 0%nat) (Y 0%nat) ginv gk = Exn /\
      forall i j, (i < k)%nat -> (j < k)%nat -> v (X i) <> v (Y j)).
Proof.
  intros Hqs Hk Hkk HV Hmul. unfold log_search. rewrite Nat2Z.id.
  rewrite (log_table_ok X) by (try exact Hk; intros i Hi; apply Hmul; exact Hi).
  rewrite (log_table_ok Y) by (try exact Hk; intros i Hi; apply Hmul; exact Hi).
  rewrite !bind_ok.
  set (la := map _ _). set (lg := map (fun i => (Y i, _)) _).
  assert (Ha : forall x, In x la <-> exists i, (i < k)%nat /\ x = (X i, Z.of_nat i)).
  { intros x. unfold la. rewrite in_map_iff. split; intros (i & H1 & H2); exists i.
    - apply in_seq in H2. split; [lia|symmetry; exact H1].
    - split; [symmetry; exact H2|apply in_seq; lia]. }
  assert (Hg : forall x, In x lg <-> exists i, (i < k)%nat /\ x = (Y i, Z.of_nat i)).
  { intros x. unfold lg. rewrite in_map_iff. split; intros (i & H1 & H2); exists i.
    - apply in_seq in H2. split; [lia|symmetry; exact H1].
    - split; [symmetry; exact H2|apply in_seq; lia]. }
  assert (VA : forall x, In x la -> V (fst x)) by (intros x Hx; apply Ha in Hx as (i & H1 & ->); apply HV; exact H1).
  assert (VG : forall x, In x lg -> V (fst x)) by (intros x Hx; apply Hg in Hx as (i & H1 & ->); apply HV; exact H1).
  destruct (Hqs la VA) as [Pa Sa]. destruct (Hqs lg VG) as [Pg Sg].
  destruct (log_scan_ok (Z.of_nat k) (qs la) (qs lg)) as [(x & y & I1 & I2 & I3 & I4)|[I1 I2]].
  - intros x Hx. apply VA. apply (Permutation_in _ (Permutation_sym Pa)). exact Hx.
  - intros x Hx. apply VG. apply (Permutation_in _ (Permutation_sym Pg)). exact Hx.
  - exact Sa.
  - exact Sg.
  - left. apply (Permutation_in _ (Permutation_sym Pa)) in I1. apply (Permutation_in _ (Permutation_sym Pg)) in I2.
    apply Ha in I1 as (i & Hi & ->). apply Hg in I2 as (j & Hj & ->). cbn [fst snd] in I3, I4.
    exists i, j. split; [exact Hi|]. split; [exact Hj|]. split; [exact I3|].
    rewrite I4, bind_ok.
    assert (B : 0 <= Z.of_nat j * Z.of_nat k /\ Z.of_nat i + Z.of_nat j * Z.of_nat k < 2 ^ 31) by nia.
    assert (E : to_int (u32 (Z.of_nat i + u32 (Z.of_nat j * Z.of_nat k))) = Z.of_nat (i + j * k)).
    { unfold u32, to_int. change (2^31) with 2147483648 in *. rewrite !Z.mod_small by lia.
      replace (_ <? _) with true by lia. rewrite Nat2Z.inj_add, Nat2Z.inj_mul. reflexivity. }
    rewrite E. replace (_ =? -1) with false by lia. reflexivity.
  - right. rewrite I1, bind_ok. split; [reflexivity|].
    intros i j Hi Hj. apply (I2 (X i, Z.of_nat i) (Y j, Z.of_nat j)).
    + apply (Permutation_in _ Pa). apply Ha. exists i. split; [exact Hi|reflexivity].
    + apply (Permutation_in _ Pg). apply Hg. exists j. split; [exact Hj|reflexivity].
Qed.
End Tables.
