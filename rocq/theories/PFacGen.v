(* Proofs about the generic factorization record (MFac), for any element type
   whose operations implement a commutative monoid M. *)
From Verif Require Import Base MFac.
From Coq Require Import Permutation Lia.
Open Scope Z_scope.

Section Monoid.
Context {M : Type} (mul : M -> M -> M) (one : M).
Fixpoint mpow (x : M) (n : nat) : M := match n with O => one | S k => mul x (mpow x k) end.
Definition mdiv (x y : M) : Prop := exists z, y = mul x z.
Record comm_monoid : Prop := {
  cm_assoc : forall x y z, mul x (mul y z) = mul (mul x y) z;
  cm_comm : forall x y, mul x y = mul y x;
  cm_one : forall x, mul one x = x }.
(* x is prime: not invertible, cancellable, and divides a factor of any product it divides. *)
Record prime_elt (x : M) : Prop := {
  pe_cancel : forall a b, mul x a = mul x b -> a = b;
  pe_nonunit : ~ mdiv x one;
  pe_prime : forall a b, mdiv x (mul a b) -> mdiv x a \/ mdiv x b }.

Hypothesis CM : comm_monoid.
Lemma cm_one_r x : mul x one = x.
Proof. rewrite (cm_comm CM). apply (cm_one CM). Qed.
Lemma cm_swap x y z : mul x (mul y z) = mul y (mul x z).
Proof. rewrite !(cm_assoc CM). rewrite (cm_comm CM x y). reflexivity. Qed.
Lemma mpow_add x a b : mpow x (a + b) = mul (mpow x a) (mpow x b).
Proof. induction a as [|a IH]; cbn [Nat.add mpow]; [rewrite (cm_one CM); reflexivity|]. rewrite IH. apply (cm_assoc CM). Qed.
Lemma mpow_1 x : mpow x 1 = x.
Proof. apply cm_one_r. Qed.
Lemma mpow_mul_base x y n : mpow (mul x y) n = mul (mpow x n) (mpow y n).
Proof.
  induction n as [|n IH]; cbn [mpow]; [rewrite (cm_one CM); reflexivity|]. rewrite IH.
  rewrite <- !(cm_assoc CM). f_equal. apply cm_swap.
Qed.
Lemma mpow_one n : mpow one n = one.
Proof. induction n as [|n IH]; cbn [mpow]; [reflexivity|]. rewrite IH. apply (cm_one CM). Qed.
Lemma mpow_sq x n : mpow (mul x x) n = mpow x (2 * n).
Proof. rewrite mpow_mul_base. replace (2 * n)%nat with (n + n)%nat by lia. rewrite mpow_add. reflexivity. Qed.
Lemma mdiv_refl x : mdiv x x.
Proof. exists one. rewrite cm_one_r. reflexivity. Qed.
Lemma mdiv_trans x y z : mdiv x y -> mdiv y z -> mdiv x z.
Proof. intros [a ->] [b ->]. exists (mul a b). rewrite (cm_assoc CM). reflexivity. Qed.
Lemma mdiv_mul_l x y : mdiv x (mul x y).
Proof. exists y. reflexivity. Qed.
Lemma mdiv_mul_r x y : mdiv x (mul y x).
Proof. exists y. apply (cm_comm CM). Qed.
Lemma mdiv_mul x y a b : mdiv x a -> mdiv y b -> mdiv (mul x y) (mul a b).
Proof.
  intros [u ->] [v ->]. exists (mul u v). rewrite <- !(cm_assoc CM). f_equal. apply cm_swap.
Qed.
Lemma mdiv_pow x a b : (a <= b)%nat -> mdiv (mpow x a) (mpow x b).
Proof. intros H. exists (mpow x (b - a)). rewrite <- mpow_add. f_equal. lia. Qed.

(* Products of powers. *)
Fixpoint vval (xs : list M) (v : list nat) : M :=
  match xs, v with x :: xs', k :: v' => mul (mpow x k) (vval xs' v') | _, _ => one end.
Definition bounded (cs v : list nat) : Prop := Forall2 (fun c k => (k <= c)%nat) cs v.

Lemma vval_bounded xs : forall cs v, length xs = length cs -> bounded cs v -> mdiv (vval xs v) (vval xs cs).
Proof.
  induction xs as [|x xs IH]; intros cs v Hl Hb.
  - destruct Hb; [|discriminate]. apply mdiv_refl.
  - destruct Hb as [|c k cs v Hk Hb]; [discriminate|]. cbn [vval]. apply mdiv_mul; [apply mdiv_pow, Hk|]. apply IH; [|exact Hb].
    cbn in Hl. lia.
Qed.

(* A prime divides a power product only if it divides one of the bases. *)
Lemma prime_div_pow x y n : prime_elt x -> mdiv x (mpow y n) -> mdiv x y.
Proof.
  intros Hx. induction n as [|n IH]; cbn [mpow]; intros H; [exfalso; exact (pe_nonunit x Hx H)|].
  apply (pe_prime x Hx) in H as [H|H]; auto.
Qed.
Lemma prime_div_vval x xs v : prime_elt x -> mdiv x (vval xs v) -> exists y, In y xs /\ mdiv x y.
Proof.
  intros Hx. revert v. induction xs as [|y xs IH]; intros v H.
  - exfalso. exact (pe_nonunit x Hx H).
  - destruct v as [|k v]; [exfalso; exact (pe_nonunit x Hx H)|]. cbn [vval] in H.
    apply (pe_prime x Hx) in H as [H|H].
    + exists y. split; [left; reflexivity|]. eapply prime_div_pow; eassumption.
    + destruct (IH v H) as (z & Hz & Hd). exists z. split; [right; exact Hz|exact Hd].
Qed.

(* Distinct primes: none divides another. *)
Fixpoint indep (xs : list M) : Prop :=
  match xs with
  | [] => True
  | x :: t => prime_elt x /\ (forall y, In y t -> ~ mdiv x y) /\ indep t
  end.

Lemma pow_cancel x a b R S : prime_elt x -> ~ mdiv x R -> ~ mdiv x S ->
  mul (mpow x a) R = mul (mpow x b) S -> a = b /\ R = S.
Proof.
  intros Hx HR HS. revert b. induction a as [|a IH]; intros b H; destruct b as [|b].
  - cbn [mpow] in H. rewrite !(cm_one CM) in H. auto.
  - exfalso. apply HR. cbn [mpow] in H. rewrite (cm_one CM) in H. rewrite H, <- (cm_assoc CM). apply mdiv_mul_l.
  - exfalso. apply HS. cbn [mpow] in H. rewrite (cm_one CM) in H. rewrite <- H, <- (cm_assoc CM). apply mdiv_mul_l.
  - cbn [mpow] in H. rewrite <- !(cm_assoc CM) in H. apply (pe_cancel x Hx) in H. apply IH in H. destruct H; auto.
Qed.

Lemma vval_inj xs : indep xs -> forall v w, length v = length xs -> length w = length xs -> vval xs v = vval xs w -> v = w.
Proof.
  induction xs as [|x xs IH]; intros Hi v w Hv Hw H; (destruct v as [|k v]; [|]); (destruct w as [|j w]; [|]); try reflexivity; try discriminate.
  destruct Hi as (Hx & Hd & Hi). cbn [vval] in H.
  assert (HN : forall u, ~ mdiv x (vval xs u)).
  { intros u Hu. destruct (prime_div_vval x xs u Hx Hu) as (y & Hy & Hxy). exact (Hd y Hy Hxy). }
  destruct (pow_cancel x k j (vval xs v) (vval xs w) Hx (HN v) (HN w) H) as [-> H2]. f_equal. apply IH; auto; cbn in *; lia.
Qed.

(* Every divisor of a power product is a power product, up to an invertible factor. *)
Definition inv_elt (u : M) : Prop := mdiv u one.
Lemma pow_div x c : forall d R, prime_elt x -> mdiv d (mul (mpow x c) R) ->
  exists k d', (k <= c)%nat /\ d = mul (mpow x k) d' /\ mdiv d' R.
Proof.
  induction c as [|c IH]; intros d R Hx H.
  - exists O, d. cbn [mpow] in *. rewrite (cm_one CM) in H. rewrite (cm_one CM). auto.
  - destruct H as [e He]. cbn [mpow] in He. rewrite <- (cm_assoc CM) in He.
    assert (Hxd : mdiv x (mul d e)) by (rewrite <- He; apply mdiv_mul_l).
    apply (pe_prime x Hx) in Hxd as [[d1 ->]|[e1 ->]].
    + rewrite <- (cm_assoc CM) in He. apply (pe_cancel x Hx) in He.
      destruct (IH d1 R Hx) as (k & d' & Hk & Hd & Hr); [exists e; exact He|].
      exists (S k), d'. split; [lia|]. split; [|exact Hr]. cbn [mpow]. rewrite <- (cm_assoc CM), <- Hd. reflexivity.
    + rewrite (cm_swap d x e1) in He. apply (pe_cancel x Hx) in He.
      destruct (IH d R Hx) as (k & d' & Hk & Hd & Hr); [exists e1; exact He|].
      exists k, d'. split; [lia|]. auto.
Qed.
Lemma vval_div xs : indep xs -> forall cs d, length cs = length xs -> mdiv d (vval xs cs) ->
  exists v u, bounded cs v /\ inv_elt u /\ d = mul u (vval xs v).
Proof.
  induction xs as [|x xs IH]; intros Hi cs d Hl H.
  - destruct cs; [|discriminate]. exists [], d. split; [constructor|]. split; [exact H|]. cbn. rewrite cm_one_r. reflexivity.
  - destruct cs as [|c cs]; [discriminate|]. destruct Hi as (Hx & _ & Hi). cbn [vval] in H.
    destruct (pow_div x c d (vval xs cs) Hx H) as (k & d' & Hk & -> & Hd').
    destruct (IH Hi cs d') as (v & u & Hv & Hu & ->); [cbn in Hl; lia|exact Hd'|].
    exists (k :: v), u. split; [constructor; assumption|]. split; [exact Hu|]. cbn [vval]. apply cm_swap.
Qed.
End Monoid.

(* ---------------------------------------------------------------- *)
Section FacGen.
Context {A M : Type} (F : fops A) (V : A -> Prop) (I : A -> M) (mul : M -> M -> M) (one : M) (fits : M -> Prop).
Notation mpow := (mpow mul one).
Notation mdiv := (mdiv mul).
Notation vval := (vval mul one).

(* The operations of the element type implement the monoid on valid elements,
   as long as the result fits. *)
Record fac_spec : Prop := {
  fs_cm : comm_monoid mul one;
  fs_div : forall x y, fits (mul x y) -> fits x;
  fs_mul : forall x y, V x -> V y -> fits (mul (I x) (I y)) -> exists z, f_mul F x y = Ok z /\ V z /\ I z = mul (I x) (I y);
  fs_inj : forall x y, V x -> V y -> I x = I y -> x = y;
  fs_eqb : forall x y, V x -> V y -> (f_eqb F x y = true <-> x = y);
  fs_irr : forall x, V x -> f_ltb F x x = false;
  fs_trans : forall x y z, V x -> V y -> V z -> f_ltb F x y = true -> f_ltb F y z = true -> f_ltb F x z = true;
  fs_total : forall x y, V x -> V y -> f_ltb F x y = true \/ x = y \/ f_ltb F y x = true }.
Hypothesis FS : fac_spec.
Let CM := fs_cm FS.

Lemma fits_div x y : mdiv x y -> fits y -> fits x.
Proof. intros [z ->]. apply (fs_div FS). Qed.

(* ------------------------------------------------ insertion *)
Fixpoint sorted_strict (l : list A) : Prop :=
  match l with
  | [] => True
  | x :: t => (forall y, In y t -> f_ltb F x y = true) /\ sorted_strict t
  end.
Definition count_of (l : list (A * Z)) (x : A) : Z :=
  fold_right (fun p acc => (if f_eqb F x (fst p) then snd p else 0) + acc) 0 l.
Definition total (l : list (A * Z)) : Z := fold_right (fun p acc => snd p + acc) 0 l.
Definition lval (l : list (A * Z)) : M :=
  fold_right (fun p acc => mul (mpow (I (fst p)) (Z.to_nat (snd p))) acc) one l.
Definition entries_ok (l : list (A * Z)) : Prop := Forall (fun p => V (fst p) /\ 0 <= snd p) l.

Lemma total_nonneg l : entries_ok l -> 0 <= total l.
Proof. induction 1 as [|p t [_ H] _ IH]; cbn [total fold_right]; unfold total in *; lia. Qed.
Lemma V_In l x : entries_ok l -> In x (map fst l) -> V x.
Proof. intros H Hx. apply in_map_iff in Hx as (p & <- & Hp). unfold entries_ok in H. rewrite Forall_forall in H. apply (H p Hp). Qed.

Lemma insert_list_ok l e c : entries_ok l -> V e -> 0 <= c -> total l + c <= INT_MAX -> sorted_strict (map fst l) ->
  exists l', insert_list F l e c = Ok l' /\ entries_ok l' /\ sorted_strict (map fst l') /\
    (forall x, In x (map fst l') <-> x = e \/ In x (map fst l)) /\
    total l' = total l + c /\
    (forall x, V x -> count_of l' x = count_of l x + (if f_eqb F x e then c else 0)) /\
    lval l' = mul (mpow (I e) (Z.to_nat c)) (lval l).
Proof.
  intros Hl He Hc. induction l as [|[x k] t IH]; intros Ht Hs; cbn [insert_list].
  - eexists; split; [reflexivity|]. split; [constructor; [split; assumption|constructor]|].
    split; [cbn; split; [intros y []|exact Logic.I]|]. split; [intros y; cbn; intuition congruence|].
    split; [cbn [total fold_right snd]; lia|]. split; [intros y Hy; cbn; lia|]. cbn [lval fold_right fst snd]. reflexivity.
  - inversion Hl as [|? ? [Hx Hk] Hlt]; subst. cbn [fst snd] in Hx, Hk.
    assert (Htn : 0 <= total t) by (apply total_nonneg, Hlt).
    cbn [total fold_right snd] in Ht. fold (total t) in Ht.
    destruct (f_eqb F e x) eqn:E.
    + apply (fs_eqb FS) in E; [|assumption..]. subst x.
      unfold iadd. rewrite chk_ok, bind_ok by (unfold INT_MIN; lia).
      eexists; split; [reflexivity|]. split; [constructor; [split; cbn; [assumption|lia]|assumption]|].
      split; [exact Hs|]. split; [intros y; cbn; intuition congruence|]. split; [cbn [total fold_right snd]; unfold total; lia|].
      split; [intros y Hy; cbn [count_of fold_right fst snd]; destruct (f_eqb F y e); lia|].
      cbn [lval fold_right fst snd]. rewrite Z2Nat.inj_add by assumption. rewrite Nat.add_comm, mpow_add by exact CM.
      rewrite <- (cm_assoc _ _ CM). reflexivity.
    + destruct (f_ltb F e x) eqn:E2.
      * eexists; split; [reflexivity|]. split; [constructor; [split; assumption|exact Hl]|].
        split.
        { cbn [map sorted_strict fst]. split; [|exact Hs]. intros y [<-|Hy]; [exact E2|].
          destruct Hs as [Hs1 _]. eapply (fs_trans FS) with x; auto. eapply V_In; eassumption. }
        split; [intros y; cbn; intuition congruence|]. split; [cbn [total fold_right snd]; lia|].
        split; [intros y Hy; cbn [count_of fold_right fst snd]; lia|]. reflexivity.
      * destruct Hs as [Hs1 Hs2]. destruct (IH Hlt) as (l' & El & Hl' & Hs' & Hin & Htot & Hcnt & Hval); [lia|exact Hs2|].
        rewrite El, bind_ok. eexists; split; [reflexivity|]. split; [constructor; [split; assumption|assumption]|].
        split.
        { cbn [map sorted_strict fst]. split; [|exact Hs']. intros y Hy. apply Hin in Hy as [->|Hy]; [|apply Hs1, Hy].
          destruct (fs_total FS e x He Hx) as [H|[H|H]]; [congruence| |exact H].
          apply (fs_eqb FS) in H; [congruence|assumption..]. }
        split; [intros y; cbn [map In fst]; rewrite Hin; tauto|].
        split; [cbn [total fold_right snd]; fold (total l'); fold (total t); lia|].
        split; [intros y Hy; cbn [count_of fold_right fst snd]; fold (count_of l' y); rewrite Hcnt by exact Hy; unfold count_of; lia|].
        cbn [lval fold_right fst snd]. fold (lval l'). rewrite Hval. apply (cm_swap mul one CM).
Qed.

Lemma insert_all_ok h : forall f, entries_ok (facs f) -> sorted_strict (map fst (facs f)) -> entries_ok h ->
  total (facs f) + total h <= INT_MAX ->
  exists g, insert_all F f h = Ok g /\ funit g = funit f /\ entries_ok (facs g) /\ sorted_strict (map fst (facs g)) /\
    (forall x, In x (map fst (facs g)) <-> In x (map fst (facs f)) \/ In x (map fst h)) /\
    (forall x, V x -> count_of (facs g) x = count_of (facs f) x + count_of h x) /\
    lval (facs g) = mul (lval h) (lval (facs f)).
Proof.
  induction h as [|[e c] h IH]; intros f Hf Hs Hh Ht; cbn [insert_all].
  - exists f. split; [reflexivity|]. split; [reflexivity|]. split; [assumption|]. split; [assumption|].
    split; [intros x; cbn; tauto|]. split; [intros; cbn; lia|]. cbn. rewrite (cm_one _ _ CM). reflexivity.
  - inversion Hh as [|? ? [He Hc] Hh']; subst. cbn [fst snd] in He, Hc. pose proof (total_nonneg h Hh') as Hth.
    cbn [total fold_right snd] in Ht. fold (total h) in Ht.
    destruct (insert_list_ok (facs f) e c) as (l' & El & Hl' & Hs' & Hin & Htot & Hcnt & Hval); try assumption; [lia|].
    unfold insert_factor. rewrite El, !bind_ok.
    destruct (IH (mkfac l' (funit f))) as (g & Eg & Hu & Hg & Hgs & Hgin & Hgc & Hgv); cbn [facs]; try assumption; [lia|].
    cbn [facs funit] in *. exists g. split; [exact Eg|]. split; [exact Hu|]. split; [exact Hg|]. split; [exact Hgs|].
    split; [intros x; rewrite Hgin, Hin; cbn [map In fst]; intuition congruence|].
    split; [intros x Hx; rewrite Hgc, Hcnt by exact Hx; cbn [count_of fold_right fst snd]; unfold count_of; lia|].
    rewrite Hgv, Hval. cbn [lval fold_right fst snd]. fold (lval h). rewrite (cm_assoc _ _ CM). f_equal. apply (cm_comm _ _ CM).
Qed.

(* ------------------------------------------------ unfactor *)
Lemma mul_times_ok k : forall x acc, V x -> V acc -> fits (mul (I acc) (mpow (I x) k)) ->
  exists z, mul_times F k x acc = Ok z /\ V z /\ I z = mul (I acc) (mpow (I x) k).
Proof.
  induction k as [|k IH]; intros x acc Hx Ha Hf; cbn [mul_times].
  - exists acc. split; [reflexivity|]. split; [exact Ha|]. cbn [PFacGen.mpow]. rewrite (cm_one_r _ _ CM). reflexivity.
  - cbn [PFacGen.mpow] in Hf. rewrite (cm_assoc _ _ CM) in Hf.
    destruct (fs_mul FS acc x Ha Hx) as (z & Ez & Hz & Iz); [eapply (fs_div FS); exact Hf|].
    rewrite Ez, bind_ok. destruct (IH x z Hx Hz) as (w & Ew & Hw & Iw); [rewrite Iz; exact Hf|].
    exists w. split; [exact Ew|]. split; [exact Hw|]. rewrite Iw, Iz. cbn [PFacGen.mpow]. rewrite (cm_assoc _ _ CM). reflexivity.
Qed.

Lemma unfactor_list_ok one_ l : V one_ -> I one_ = one -> entries_ok l -> forall rv, V rv -> fits (mul (I rv) (lval l)) ->
  exists z, unfactor_list F one_ l rv = Ok z /\ V z /\ I z = mul (I rv) (lval l).
Proof.
  intros Ho Io. induction l as [|[x c] t IH]; intros Hl rv Hr Hf; cbn [unfactor_list].
  - exists rv. cbn. rewrite (cm_one_r _ _ CM). auto.
  - inversion Hl as [|? ? [Hx Hc] Hlt]; subst. cbn [fst snd] in *. cbn [lval fold_right fst snd] in Hf. fold (lval t) in Hf.
    rewrite (cm_assoc _ _ CM) in Hf.
    assert (Hf1 : fits (mul (I rv) (mpow (I x) (Z.to_nat c)))) by (eapply (fs_div FS); exact Hf).
    destruct (mul_times_ok (Z.to_nat c) x one_ Hx Ho) as (fp & Efp & Hfp & Ifp).
    { rewrite Io, (cm_one _ _ CM). eapply fits_div; [apply (mdiv_mul_r _ _ CM)|exact Hf1]. }
    rewrite Efp, bind_ok. rewrite Io, (cm_one _ _ CM) in Ifp.
    destruct (fs_mul FS rv fp Hr Hfp) as (rv' & Erv & Hrv' & Irv'); [rewrite Ifp; exact Hf1|].
    rewrite Erv, bind_ok. rewrite Ifp in Irv'.
    destruct (IH Hlt rv' Hrv') as (z & Ez & Hz & Iz); [rewrite Irv'; exact Hf|].
    exists z. split; [exact Ez|]. split; [exact Hz|]. rewrite Iz, Irv'. cbn [lval fold_right fst snd]. rewrite (cm_assoc _ _ CM). reflexivity.
Qed.

Definition uval (u : option A) : M := match u with Some x => I x | None => one end.
Definition unit_ok (u : option A) : Prop := match u with Some x => V x | None => True end.

Lemma unfactor_ok f one_ : V one_ -> I one_ = one -> entries_ok (facs f) -> unit_ok (funit f) ->
  fits (mul (uval (funit f)) (lval (facs f))) ->
  exists z, unfactor F f one_ = Ok z /\ V z /\ I z = mul (uval (funit f)) (lval (facs f)).
Proof.
  intros Ho Io Hl Hu Hf. unfold unfactor. destruct (funit f) as [u|]; cbn [uval unit_ok] in *.
  - destruct (fs_mul FS one_ u Ho Hu) as (rv & Er & Hr & Ir).
    { rewrite Io, (cm_one _ _ CM). eapply (fs_div FS); exact Hf. }
    rewrite Er, bind_ok. rewrite Io, (cm_one _ _ CM) in Ir.
    destruct (unfactor_list_ok one_ (facs f) Ho Io Hl rv Hr) as (z & Ez & Hz & Iz); [rewrite Ir; exact Hf|].
    exists z. rewrite Iz, Ir. auto.
  - rewrite bind_ok. destruct (unfactor_list_ok one_ (facs f) Ho Io Hl one_ Ho) as (z & Ez & Hz & Iz); [rewrite Io; exact Hf|].
    exists z. rewrite Iz, Io. auto.
Qed.

(* ------------------------------------------------ powers *)
(* x is non-zero and x/x is one. *)
Definition regular (x : A) : Prop :=
  (exists z, f_sub F x x = Ok z /\ f_eqb F x z = false) /\ (exists o, f_div F x x = Ok o /\ V o /\ I o = one).

Lemma tf_loop_ok fuel : forall e xp rv, 0 <= e <= INT_MAX -> V xp -> V rv ->
  (1 <= fuel)%nat -> e < 2 ^ (Z.of_nat fuel - 1) ->
  fits (mul (I rv) (mpow (I xp) (Z.to_nat e))) -> fits (mpow (I xp) (2 * Z.to_nat e)) ->
  exists z, loop fuel (tf_step F) (e, xp, rv) = Ok z /\ V z /\ I z = mul (I rv) (mpow (I xp) (Z.to_nat e)).
Proof.
  induction fuel as [|f IH]; intros e xp rv He Hxp Hrv Hfu Hlt Hf1 Hf2; [lia|].
  cbn [loop]. unfold tf_step at 1. destruct (e =? 0) eqn:E0.
  - apply Z.eqb_eq in E0. subst e. exists rv. cbn [Z.to_nat PFacGen.mpow]. rewrite (cm_one_r _ _ CM). auto.
  - apply Z.eqb_neq in E0. set (n := Z.to_nat e) in *. set (h := Z.to_nat (e / 2)).
    assert (Hn : (n = 2 * h + (if Z.odd e then 1 else 0))%nat).
    { unfold n, h. pose proof (Z.div2_odd e) as Hd. rewrite Z.div2_div in Hd. destruct (Z.odd e); cbn [Z.b2z] in Hd; lia. }
    assert (Hn1 : (1 <= n)%nat) by (unfold n; lia).
    assert (Erv : exists rv', (if Z.odd e then f_mul F rv xp else Ok rv) = Ok rv' /\ V rv' /\
              I rv' = mul (I rv) (mpow (I xp) (if Z.odd e then 1 else 0))).
    { destruct (Z.odd e).
      - destruct (fs_mul FS rv xp Hrv Hxp) as (z & Ez & Hz & Iz).
        { eapply fits_div; [|exact Hf1]. apply (mdiv_mul _ _ CM); [apply (mdiv_refl _ _ CM)|].
          rewrite <- (mpow_1 _ _ CM (I xp)) at 1. apply (mdiv_pow _ _ CM). exact Hn1. }
        exists z. rewrite (mpow_1 _ _ CM). auto.
      - exists rv. cbn [PFacGen.mpow]. rewrite (cm_one_r _ _ CM). auto. }
    destruct Erv as (rv' & Erv & Hrv' & Irv'). rewrite Erv, bind_ok.
    destruct (fs_mul FS xp xp Hxp Hxp) as (xp' & Exp & Hxp' & Ixp').
    { eapply fits_div; [|exact Hf2].
      assert (Hsq : mul (I xp) (I xp) = mpow (I xp) 2) by (cbn [PFacGen.mpow]; rewrite (cm_one_r _ _ CM); reflexivity).
      rewrite Hsq. apply (mdiv_pow _ _ CM). lia. }
    rewrite Exp, bind_ok.
    assert (Eu : u32 e / 2 = e / 2) by (unfold u32; rewrite Z.mod_small; [reflexivity|unfold INT_MAX in He; lia]).
    rewrite Eu. destruct f as [|f]; [change (Z.of_nat 1 - 1) with 0 in Hlt; cbn in Hlt; lia|].
    assert (Hpow : mul (I rv') (mpow (I xp') h) = mul (I rv) (mpow (I xp) n)).
    { rewrite Irv', Ixp', (mpow_sq _ _ CM), <- (cm_assoc _ _ CM), <- (mpow_add _ _ CM). do 2 f_equal. lia. }
    destruct (IH (e/2) xp' rv') as (z & Ez & Hz & Iz); try assumption.
    + lia.
    + lia.
    + replace (Z.of_nat (S (S f)) - 1) with (Z.succ (Z.of_nat (S f) - 1)) in Hlt by lia.
      rewrite Z.pow_succ_r in Hlt by lia. lia.
    + fold h. rewrite Hpow. exact Hf1.
    + fold h. rewrite Ixp', (mpow_sq _ _ CM). eapply fits_div; [|exact Hf2]. apply (mdiv_pow _ _ CM). lia.
    + exists z. split; [exact Ez|]. split; [exact Hz|]. rewrite Iz. exact Hpow.
Qed.

Lemma tf_exp_ok x e : V x -> regular x -> 0 <= e <= INT_MAX -> fits (mpow (I x) (2 * Z.to_nat e)) ->
  exists z, tf_exp F x e = Ok z /\ V z /\ I z = mpow (I x) (Z.to_nat e).
Proof.
  intros Hx [(z0 & E0 & N0) (o & Eo & Ho & Io)] He Hf. unfold tf_exp. rewrite E0, bind_ok, N0, Eo, bind_ok.
  destruct (e =? 0) eqn:Ee.
  - apply Z.eqb_eq in Ee. subst e. exists o. auto.
  - replace (e <? 0) with false by lia.
    destruct (tf_loop_ok 34 e x o He Hx Ho) as (z & Ez & Hz & Iz).
    + lia.
    + change (2 ^ (Z.of_nat 34 - 1)) with 8589934592. unfold INT_MAX in He. lia.
    + rewrite Io, (cm_one _ _ CM). eapply fits_div; [|exact Hf]. apply (mdiv_pow _ _ CM). lia.
    + exact Hf.
    + exists z. rewrite Iz, Io, (cm_one _ _ CM). auto.
Qed.

(* ------------------------------------------------ divisors *)
Definition keys (l : list (A * Z)) : list M := map (fun p => I (fst p)) l.
Definition counts (l : list (A * Z)) : list nat := map (fun p => Z.to_nat (snd p)) l.
Fixpoint ndiv (l : list (A * Z)) : Z := match l with [] => 1 | (_, c) :: t => (c + 1) * ndiv t end.
Fixpoint digits (l : list (A * Z)) (k : Z) : list nat :=
  match l with [] => [] | (_, c) :: t => Z.to_nat (k mod (c + 1)) :: digits t (k / (c + 1)) end.

Lemma lval_vval l : lval l = vval (keys l) (counts l).
Proof. induction l as [|[x c] t IH]; [reflexivity|]. cbn. unfold lval in IH. rewrite IH. reflexivity. Qed.
Lemma ndiv_pos l : entries_ok l -> 1 <= ndiv l.
Proof. induction 1 as [|[x c] t [_ H] _ IH]; cbn [ndiv snd] in *; nia. Qed.

Lemma digits_bounded l : entries_ok l -> forall k, bounded (counts l) (digits l k).
Proof.
  induction 1 as [|[x c] t [_ Hc] _ IH]; intros k; cbn [counts map digits]; constructor; [|apply IH].
  cbn [snd] in *. pose proof (Z.mod_pos_bound k (c+1)). lia.
Qed.
Lemma digits_inj l : entries_ok l -> forall j k, 0 <= j < ndiv l -> 0 <= k < ndiv l -> digits l j = digits l k -> j = k.
Proof.
  induction 1 as [|[x c] t [_ Hc] Ht IH]; intros j k Hj Hk H; cbn [ndiv digits snd] in *; [lia|].
  injection H as H1 H2. pose proof (Z.mod_pos_bound j (c+1) ltac:(lia)). pose proof (Z.mod_pos_bound k (c+1) ltac:(lia)).
  assert (Hd : forall z, 0 <= z < (c+1) * ndiv t -> 0 <= z / (c+1) < ndiv t).
  { intros z Hz. split; [apply Z.div_pos; lia|apply Z.div_lt_upper_bound; lia]. }
  apply IH in H2; try (apply Hd; assumption).
  rewrite (Z.div_mod j (c+1)), (Z.div_mod k (c+1)) by lia. assert (j mod (c+1) = k mod (c+1)) by lia. congruence.
Qed.
Lemma digits_surj l : entries_ok l -> forall v, bounded (counts l) v -> exists k, 0 <= k < ndiv l /\ digits l k = v.
Proof.
  induction 1 as [|[x c] t [_ Hc] Ht IH]; intros v Hv; cbn [counts map] in Hv.
  - inversion Hv; subst. exists 0. split; [cbn; lia|reflexivity].
  - inversion Hv as [|? d ? v' Hd Hv']; subst. cbn [snd] in *. destruct (IH v' Hv') as (k & Hk & Ek).
    exists (Z.of_nat d + (c+1) * k). cbn [ndiv digits].
    assert (Hd' : 0 <= Z.of_nat d < c + 1) by lia.
    split; [nia|]. f_equal.
    + rewrite Z.mul_comm, Z.mod_add, Z.mod_small by lia. lia.
    + rewrite Z.mul_comm, Z.div_add, Z.div_small by lia. exact Ek.
Qed.

Lemma num_div_ok l : entries_ok l -> forall rv, 1 <= rv -> rv * ndiv l <= INT_MAX -> num_div_list l rv = Ok (rv * ndiv l).
Proof.
  induction 1 as [|[x c] t [_ Hc] Ht IH]; intros rv Hrv Hm; cbn [num_div_list ndiv snd] in *.
  - f_equal. lia.
  - pose proof (ndiv_pos t Ht) as Hp. unfold iadd, imul.
    assert (Hc2 : c + 1 <= rv * ((c+1) * ndiv t)) by (clear -Hrv Hp Hc; nia).
    rewrite chk_ok, bind_ok by (unfold INT_MIN, INT_MAX in *; lia).
    assert (Hr2 : 1 <= rv * (c+1) <= rv * ((c+1) * ndiv t)) by (clear -Hrv Hp Hc; nia).
    rewrite chk_ok, bind_ok by (unfold INT_MIN, INT_MAX in *; lia).
    rewrite IH by (clear -Hr2 Hm; nia). f_equal. ring.
Qed.

Lemma kth_div_ok l : entries_ok l -> Forall (fun p => regular (fst p)) l -> Forall (fun p => snd p < INT_MAX) l ->
  fits (mul (lval l) (lval l)) -> forall k rv, 0 <= k <= INT_MAX -> V rv -> fits (mul (I rv) (lval l)) ->
  exists z, kth_div_list F l k rv = Ok z /\ V z /\ I z = mul (I rv) (vval (keys l) (digits l k)).
Proof.
  induction l as [|[x c] t IH]; intros Hl Hr Hc Hf k rv Hk Hrv Hfr; cbn [kth_div_list].
  - exists rv. cbn. rewrite (cm_one_r _ _ CM). auto.
  - inversion Hl as [|? ? [Hx Hc0] Hlt]; subst. inversion Hr as [|? ? Hx1 Hrt]; subst. inversion Hc as [|? ? Hc1 Hct]; subst.
    cbn [fst snd] in *. unfold iadd. rewrite chk_ok, bind_ok by (unfold INT_MIN, INT_MAX in *; lia).
    assert (Hmod : imod k (c+1) = Ok (k mod (c+1))).
    { unfold imod. replace (c + 1 =? 0) with false by lia. rewrite Z.quot_div_nonneg, Z.rem_mod_nonneg by lia.
      assert (0 <= k / (c+1) <= k) by (split; [apply Z.div_pos; lia|apply Z.div_le_upper_bound; nia]).
      unfold in_int. replace (_ && _) with true by (unfold INT_MIN; lia). reflexivity. }
    assert (Hdiv : idiv k (c+1) = Ok (k / (c+1))).
    { unfold idiv. replace (c + 1 =? 0) with false by lia. rewrite Z.quot_div_nonneg by lia.
      assert (0 <= k / (c+1) <= k) by (split; [apply Z.div_pos; lia|apply Z.div_le_upper_bound; nia]).
      apply chk_ok. unfold INT_MIN. lia. }
    rewrite Hmod, bind_ok, Hdiv, bind_ok.
    set (d := k mod (c+1)) in *. assert (Hd : 0 <= d < c + 1) by (apply Z.mod_pos_bound; lia).
    assert (Hk' : 0 <= k / (c+1) <= INT_MAX) by (split; [apply Z.div_pos; lia|]; assert (k / (c+1) <= k) by (apply Z.div_le_upper_bound; nia); lia).
    cbn [lval fold_right fst snd] in Hf, Hfr. fold (lval t) in Hf, Hfr. set (X := mpow (I x) (Z.to_nat c)) in *.
    assert (HXX : mdiv (mpow (I x) (2 * Z.to_nat d)) (mul X X)).
    { unfold X. rewrite <- (mpow_add _ _ CM). apply (mdiv_pow _ _ CM). lia. }
    assert (HX : mdiv (mpow (I x) (Z.to_nat d)) X) by (apply (mdiv_pow _ _ CM); lia).
    assert (HfXX : fits (mul X X)).
    { eapply fits_div; [|exact Hf]. apply (mdiv_mul _ _ CM); apply mdiv_mul_l. }
    destruct (tf_exp_ok x d Hx Hx1) as (y & Ey & Hy & Iy); [lia|eapply fits_div; [exact HXX|exact HfXX]|].
    rewrite Ey, bind_ok. rewrite (cm_assoc _ _ CM) in Hfr.
    destruct (fs_mul FS rv y Hrv Hy) as (rv' & Erv & Hrv' & Irv').
    { rewrite Iy. eapply fits_div; [|eapply (fs_div FS); exact Hfr]. apply (mdiv_mul _ _ CM); [apply (mdiv_refl _ _ CM)|exact HX]. }
    rewrite Erv, bind_ok.
    destruct (IH Hlt Hrt Hct) with (k := k / (c+1)) (rv := rv') as (z & Ez & Hz & Iz); try assumption.
    + eapply fits_div; [|exact Hf]. apply (mdiv_mul _ _ CM); apply (mdiv_mul_r _ _ CM).
    + rewrite Irv', Iy. eapply fits_div; [|exact Hfr]. apply (mdiv_mul _ _ CM); [|apply (mdiv_refl _ _ CM)].
      apply (mdiv_mul _ _ CM); [apply (mdiv_refl _ _ CM)|exact HX].
    + exists z. split; [exact Ez|]. split; [exact Hz|]. rewrite Iz, Irv', Iy. cbn [keys map digits fst vval PFacGen.vval].
      fold d. rewrite (cm_assoc _ _ CM). reflexivity.
Qed.

Fixpoint zfrom (n : nat) (k : Z) : list Z := match n with O => [] | S n' => k :: zfrom n' (k+1) end.
Lemma zfrom_in n : forall k x, In x (zfrom n k) <-> k <= x < k + Z.of_nat n.
Proof. induction n as [|n IH]; intros k x; cbn [zfrom In]; [lia|]. rewrite IH. lia. Qed.
Lemma zfrom_nodup n : forall k, NoDup (zfrom n k).
Proof. induction n as [|n IH]; intros k; cbn [zfrom]; constructor; [rewrite zfrom_in; lia|apply IH]. Qed.

Lemma ins_sorted_perm x l : Permutation (x :: l) (ins_sorted F x l).
Proof.
  induction l as [|y t IH]; cbn [ins_sorted]; [reflexivity|]. destruct (f_ltb F y x); [|reflexivity].
  etransitivity; [apply perm_swap|]. constructor. exact IH.
Qed.
Lemma sort_perm l : Permutation l (sort F l).
Proof. induction l as [|x t IH]; [reflexivity|]. cbn [sort fold_right]. etransitivity; [|apply ins_sorted_perm]. constructor. exact IH. Qed.
(* Non-decreasing: no later element is smaller. *)
Fixpoint sorted_le (l : list A) : Prop :=
  match l with [] => True | x :: t => (forall y, In y t -> f_ltb F y x = false) /\ sorted_le t end.
Lemma ltb_asym x y : V x -> V y -> f_ltb F x y = true -> f_ltb F y x = false.
Proof.
  intros Hx Hy H. destruct (f_ltb F y x) eqn:E; [|reflexivity].
  pose proof (fs_irr FS x Hx) as Hi.
  rewrite <- Hi. symmetry. eapply (fs_trans FS) with y; auto.
Qed.
Lemma ins_sorted_le x l : V x -> Forall V l -> sorted_le l -> sorted_le (ins_sorted F x l).
Proof.
  intros Hx. induction l as [|y t IH]; intros Hl Hs; cbn [ins_sorted].
  - split; [intros y []|exact Logic.I].
  - inversion Hl as [|? ? Hy Ht]; subst. destruct Hs as [Hs1 Hs2]. destruct (f_ltb F y x) eqn:E.
    + split; [|apply IH; assumption]. intros z Hz. apply Permutation_in with (l' := x :: t) in Hz; [|symmetry; apply ins_sorted_perm].
      destruct Hz as [<-|Hz]; [apply ltb_asym; assumption|apply Hs1, Hz].
    + split; [|split; assumption]. intros z [<-|Hz]; [exact E|].
      assert (Vz : V z) by (rewrite Forall_forall in Ht; apply Ht, Hz).
      destruct (f_ltb F z x) eqn:E2; [|reflexivity].
      specialize (Hs1 z Hz).
      destruct (fs_total FS y z Hy Vz) as [H|[H|H]]; [|subst; congruence|congruence].
      rewrite (fs_trans FS y z x) in E; auto.
Qed.
Lemma sort_le l : Forall V l -> sorted_le (sort F l).
Proof.
  induction 1 as [|x t Hx Ht IH]; [exact Logic.I|]. cbn [sort fold_right]. apply ins_sorted_le; [exact Hx| |exact IH].
  rewrite Forall_forall in *. intros y Hy. apply Ht. eapply Permutation_in; [symmetry; apply sort_perm|exact Hy].
Qed.

Lemma divisors_from_ok f one_ (P : Z -> A -> Prop) n : forall k,
  (forall j, k <= j < k + Z.of_nat n -> exists d, get_kth_divisor F f j one_ = Ok d /\ P j d) ->
  exists ds, divisors_from F f one_ n k = Ok ds /\ Forall2 P (zfrom n k) ds.
Proof.
  induction n as [|n IH]; intros k H; cbn [divisors_from zfrom].
  - exists []. split; [reflexivity|constructor].
  - destruct (H k) as (d & Ed & Pd); [lia|]. rewrite Ed, bind_ok. destruct (IH (k+1)) as (ds & Eds & Pds); [intros j Hj; apply H; lia|].
    rewrite Eds, bind_ok. exists (d :: ds). split; [reflexivity|]. constructor; assumption.
Qed.

Lemma NoDup_map_inj {X Y} (g : X -> Y) l : (forall x y, In x l -> In y l -> g x = g y -> x = y) -> NoDup l -> NoDup (map g l).
Proof.
  intros Hi Hn. induction Hn as [|x t Hx Ht IH]; cbn [map]; constructor.
  - intros H. apply in_map_iff in H as (y & Hy1 & Hy2). apply Hx. rewrite <- (Hi y x); [exact Hy2|right; exact Hy2|left; reflexivity|exact Hy1].
  - apply IH. intros; apply Hi; auto; right; assumption.
Qed.
Lemma Forall2_map_l {X Y W} (g : X -> Y) (P : Y -> W -> Prop) l m : Forall2 (fun x w => P (g x) w) l m -> Forall2 P (map g l) m.
Proof. induction 1; cbn; constructor; auto. Qed.

(* One entry for each choice of exponents, and the output is sorted. *)
Theorem all_divisors_ok f one_ : V one_ -> I one_ = one ->
  entries_ok (facs f) -> Forall (fun p => regular (fst p)) (facs f) -> Forall (fun p => snd p < INT_MAX) (facs f) ->
  (facs f = [] -> funit f <> None) -> ndiv (facs f) <= INT_MAX -> fits (mul (lval (facs f)) (lval (facs f))) ->
  exists ds ds0 L, get_all_divisors F f one_ = Ok ds /\ Permutation ds0 ds /\ sorted_le ds /\
    NoDup L /\ (forall v, In v L <-> bounded (counts (facs f)) v) /\
    Forall2 (fun v d => V d /\ I d = vval (keys (facs f)) v) L ds0.
Proof.
  intros Ho Io Hl Hr Hc Hne Hnd Hf. pose proof (ndiv_pos (facs f) Hl) as Hpos.
  assert (Hlv : fits (lval (facs f))) by (eapply (fs_div FS); exact Hf).
  assert (Hkth : forall j, 0 <= j < 0 + Z.of_nat (Z.to_nat (ndiv (facs f))) -> exists d, get_kth_divisor F f j one_ = Ok d /\
     (V d /\ I d = vval (keys (facs f)) (digits (facs f) j))).
  { intros j Hj. rewrite Z2Nat.id in Hj by lia. unfold get_kth_divisor.
    destruct (kth_div_ok (facs f) Hl Hr Hc Hf j one_) as (d & Ed & Hd & Id); [lia|exact Ho|rewrite Io, (cm_one _ _ CM); exact Hlv|].
    rewrite Io, (cm_one _ _ CM) in Id. exists d. split; [|auto].
    destruct (facs f) as [|p t]; [|exact Ed]. destruct (funit f); [exact Ed|exfalso; apply Hne; reflexivity]. }
  destruct (divisors_from_ok f one_ _ _ 0 Hkth) as (ds & Eds & Pds).
  exists (sort F ds), ds, (map (digits (facs f)) (zfrom (Z.to_nat (ndiv (facs f))) 0)).
  split.
  { assert (End : num_div_list (facs f) 1 = Ok (ndiv (facs f))) by (rewrite num_div_ok by (try assumption; lia); f_equal; lia).
    unfold get_all_divisors, get_num_divisors. destruct (facs f) as [|p t] eqn:Ef.
    - destruct (funit f); [|exfalso; apply Hne; reflexivity]. rewrite End, bind_ok, Eds. reflexivity.
    - destruct (funit f); rewrite End, bind_ok, Eds; reflexivity. }
  split; [apply sort_perm|]. split.
  { apply sort_le. clear -Pds. induction Pds as [|? ? ? ? [H _] _ IH]; constructor; assumption. }
  split.
  { apply NoDup_map_inj; [|apply zfrom_nodup]. intros x y Hx Hy. rewrite zfrom_in in Hx, Hy. rewrite Z2Nat.id in Hx, Hy by lia.
    apply digits_inj; [exact Hl|lia..]. }
  split.
  { intros v. rewrite in_map_iff. split.
    - intros (k & <- & _). apply digits_bounded, Hl.
    - intros Hv. destruct (digits_surj (facs f) Hl v Hv) as (k & Hk & Ek). exists k. split; [exact Ek|]. apply zfrom_in. rewrite Z2Nat.id; lia. }
  apply Forall2_map_l. exact Pds.
Qed.

(* With distinct primes: no repetition, and exactly the divisors up to an
   invertible factor. *)
Theorem all_divisors_prime f one_ : V one_ -> I one_ = one ->
  entries_ok (facs f) -> Forall (fun p => regular (fst p)) (facs f) -> Forall (fun p => snd p < INT_MAX) (facs f) ->
  (facs f = [] -> funit f <> None) -> ndiv (facs f) <= INT_MAX -> fits (mul (lval (facs f)) (lval (facs f))) ->
  indep mul one (keys (facs f)) ->
  exists ds, get_all_divisors F f one_ = Ok ds /\ sorted_le ds /\ NoDup ds /\ Z.of_nat (length ds) = ndiv (facs f) /\ (forall d, In d ds -> V d /\ mdiv (I d) (lval (facs f))) /\ (forall v, bounded (counts (facs f)) v -> exists d, In d ds /\ I d = vval (keys (facs f)) v) /\ (forall m, mdiv m (lval (facs f)) -> exists u d, In d ds /\ inv_elt mul one u /\ m = mul u (I d)).
Proof.
  intros Ho Io Hl Hr Hc Hne Hnd Hf Hi.
  destruct (all_divisors_ok f one_ Ho Io Hl Hr Hc Hne Hnd Hf) as (ds & ds0 & L & E & Hp & Hs & HL & HLb & H2).
  assert (Hlen : length (counts (facs f)) = length (keys (facs f))) by (unfold counts, keys; rewrite !map_length; reflexivity).
  assert (Hbl : forall v, In v L -> length v = length (keys (facs f))).
  { intros v Hv. apply HLb in Hv. rewrite <- Hlen. symmetry. clear -Hv. induction Hv; cbn; congruence. }
  assert (Hin1 : forall v, In v L -> exists d, In d ds0 /\ V d /\ I d = vval (keys (facs f)) v).
  { clear -H2. induction H2 as [|v d L ds0 [Hv Hd] _ IH]; intros w Hw; [destruct Hw|].
    destruct Hw as [<-|Hw]; [exists d; split; [left; reflexivity|auto]|].
    destruct (IH w Hw) as (d' & Hd' & ?). exists d'. split; [right; exact Hd'|auto]. }
  assert (Hin2 : forall d, In d ds0 -> exists v, In v L /\ V d /\ I d = vval (keys (facs f)) v).
  { clear -H2. induction H2 as [|v d L ds0 [Hv Hd] _ IH]; intros w Hw; [destruct Hw|].
    destruct Hw as [<-|Hw]; [exists v; split; [left; reflexivity|auto]|].
    destruct (IH w Hw) as (d' & Hd' & ?). exists d'. split; [right; exact Hd'|auto]. }
  exists ds. split; [exact E|]. split; [exact Hs|]. split; [|split; [|split; [|split]]].
  - eapply Permutation_NoDup; [exact Hp|].
    clear -H2 HL Hbl Hi CM. induction H2 as [|v d L ds0 [Hv Hd] H2 IH]; [constructor|].
    inversion HL as [|? ? Hn HL']; subst. constructor; [|apply IH; [exact HL'|intros w Hw; apply Hbl; right; exact Hw]].
    intros Hin. apply Hn.
    assert (Hex : exists w, In w L /\ I d = vval (keys (facs f)) w).
    { clear -H2 Hin. induction H2 as [|w e L ds0 [Hw He] _ IH]; [destruct Hin|].
      destruct Hin as [->|Hin]; [exists w; split; [left; reflexivity|exact He]|]. destruct (IH Hin) as (w' & ? & ?). exists w'. split; [right; assumption|assumption]. }
    destruct Hex as (w & Hw & Ew). replace v with w; [exact Hw|].
    apply (vval_inj mul one CM (keys (facs f)) Hi); [apply Hbl; right; exact Hw|apply Hbl; left; reflexivity|congruence].
  - rewrite <- (Permutation_length Hp).
    assert (Hll : length ds0 = length L) by (clear -H2; induction H2; cbn; congruence). rewrite Hll.
    (* L lists the same vectors as the digits of 0 .. ndiv-1. *)
    pose proof (ndiv_pos (facs f) Hl) as Hpos.
    set (L' := map (digits (facs f)) (zfrom (Z.to_nat (ndiv (facs f))) 0)).
    assert (HL' : NoDup L').
    { apply NoDup_map_inj; [|apply zfrom_nodup]. intros x y Hx Hy. rewrite zfrom_in in Hx, Hy. rewrite Z2Nat.id in Hx, Hy by lia.
      apply digits_inj; [exact Hl|lia..]. }
    assert (HP : Permutation L L').
    { apply NoDup_Permutation; [exact HL|exact HL'|]. intros v. rewrite HLb. unfold L'. rewrite in_map_iff. split.
      - intros Hv. destruct (digits_surj (facs f) Hl v Hv) as (k & Hk & Ek). exists k. split; [exact Ek|]. apply zfrom_in. rewrite Z2Nat.id; lia.
      - intros (k & <- & _). apply digits_bounded, Hl. }
    rewrite (Permutation_length HP). unfold L'. rewrite map_length.
    assert (Hz : forall n k, length (zfrom n k) = n) by (induction n as [|n IHn]; intros k; cbn [zfrom length]; [reflexivity|rewrite IHn; reflexivity]).
    rewrite Hz, Z2Nat.id by lia. reflexivity.
  - intros d Hd. apply (Permutation_in d (Permutation_sym Hp)) in Hd. destruct (Hin2 d Hd) as (v & Hv & Vd & Id).
    split; [exact Vd|]. rewrite Id, lval_vval. apply (vval_bounded mul one CM); [symmetry; exact Hlen|apply HLb, Hv].
  - intros v Hv. apply HLb in Hv. destruct (Hin1 v Hv) as (d & Hd & _ & Id). exists d. split; [apply (Permutation_in d Hp), Hd|exact Id].
  - intros m Hm. rewrite lval_vval in Hm. destruct (vval_div mul one CM (keys (facs f)) Hi (counts (facs f)) m Hlen Hm) as (v & u & Hv & Hu & ->).
    apply HLb in Hv. destruct (Hin1 v Hv) as (d & Hd & _ & Id). exists u, d. split; [apply (Permutation_in d Hp), Hd|]. rewrite Id. auto.
Qed.

(* ------------------------------------------------ maximal proper divisors *)
Lemma dec_entries l : forall k, Forall (fun p => V (fst p) /\ 1 <= snd p) l -> entries_ok (dec_count l k).
Proof.
  induction l as [|[x c] t IH]; intros k H; cbn [dec_count]; [destruct k; constructor|].
  inversion H as [|? ? [Hx Hc] Ht]; subst. cbn [fst snd] in *. destruct k as [|k].
  - constructor; [cbn; split; [exact Hx|lia]|]. eapply Forall_impl; [|exact Ht]. cbn. intros p [? ?]; split; [assumption|lia].
  - constructor; [cbn; split; [exact Hx|lia]|]. apply IH, Ht.
Qed.
Lemma dec_lval l : forall k x c, nth_error l k = Some (x, c) -> 1 <= c -> lval l = mul (I x) (lval (dec_count l k)).
Proof.
  induction l as [|[y b] t IH]; intros k x c H Hc; [destruct k; discriminate|]. destruct k as [|k]; cbn [nth_error dec_count] in *.
  - injection H as -> ->. cbn [lval fold_right fst snd]. rewrite (cm_assoc _ _ CM). f_equal.
    replace (Z.to_nat c) with (S (Z.to_nat (c - 1))) by lia. reflexivity.
  - cbn [lval fold_right fst snd]. fold (lval t). rewrite (IH k x c H Hc). apply (cm_swap mul one CM).
Qed.

Theorem max_proper_divisors_ok f one_ : V one_ -> I one_ = one -> unit_ok (funit f) ->
  Forall (fun p => V (fst p) /\ 1 <= snd p) (facs f) -> facs f <> [] ->
  fits (mul (uval (funit f)) (lval (facs f))) ->
  exists ds ds0, get_maximal_proper_divisors F f one_ = Ok (Some ds) /\ Permutation ds0 ds /\ sorted_le ds /\
    Forall2 (fun p d => V d /\ mul (I (fst p)) (I d) = mul (uval (funit f)) (lval (facs f))) (facs f) ds0.
Proof.
  intros Ho Io Hu Hl Hne Hf.
  assert (Hgen : forall n k, (k + n <= length (facs f))%nat -> exists ds, mpd_from F f one_ n k = Ok ds /\
     Forall2 (fun p d => V d /\ mul (I (fst p)) (I d) = mul (uval (funit f)) (lval (facs f))) (firstn n (skipn k (facs f))) ds).
  { induction n as [|n IH]; intros k Hk; cbn [mpd_from].
    - exists []. split; [reflexivity|]. cbn. constructor.
    - destruct (nth_error (facs f) k) as [[x c]|] eqn:Ek; [|apply nth_error_None in Ek; lia].
      assert (Hxc : V x /\ 1 <= c) by (rewrite Forall_forall in Hl; exact (Hl (x, c) (nth_error_In _ _ Ek))).
      destruct Hxc as [Hx Hc]. pose proof (dec_lval (facs f) k x c Ek Hc) as Hdl.
      destruct (unfactor_ok (mkfac (dec_count (facs f) k) (funit f)) one_ Ho Io) as (d & Ed & Hd & Id); cbn [facs funit].
      + apply dec_entries, Hl.
      + exact Hu.
      + eapply fits_div; [|exact Hf]. rewrite Hdl. apply (mdiv_mul _ _ CM); [apply (mdiv_refl _ _ CM)|apply (mdiv_mul_r _ _ CM)].
      + rewrite Ed, bind_ok. destruct (IH (S k)) as (ds & Eds & Pds); [lia|]. rewrite Eds, bind_ok.
        exists (d :: ds). split; [reflexivity|].
        assert (Es : skipn k (facs f) = (x, c) :: skipn (S k) (facs f)).
        { clear -Ek. revert k Ek. induction (facs f) as [|y t IHt]; intros k Ek; destruct k; cbn in Ek; try discriminate.
          - injection Ek as ->. reflexivity.
          - cbn [skipn]. apply IHt, Ek. }
        rewrite Es. cbn [firstn]. constructor; [|exact Pds]. split; [exact Hd|]. cbn [fst facs funit] in *. rewrite Id, Hdl. apply (cm_swap mul one CM). }
  destruct (Hgen (length (facs f)) 0%nat) as (ds & Eds & Pds); [lia|]. cbn [skipn] in Pds. rewrite firstn_all in Pds.
  exists (sort F ds), ds. split.
  { unfold get_maximal_proper_divisors. destruct (facs f) as [|p t] eqn:Ef; [congruence|]. cbn [length] in *.
    destruct (funit f); rewrite Eds, bind_ok; reflexivity. }
  split; [apply sort_perm|]. split; [|exact Pds].
  apply sort_le. clear -Pds. induction Pds as [|? ? ? ? [H _] _ IH]; constructor; assumption.
Qed.

(* ------------------------------------------------ merge *)
Theorem merge_ok f g : entries_ok (facs f) -> sorted_strict (map fst (facs f)) -> entries_ok (facs g) ->
  unit_ok (funit f) -> unit_ok (funit g) -> total (facs f) + total (facs g) <= INT_MAX ->
  fits (mul (uval (funit f)) (uval (funit g))) ->
  exists h, merge F f g = Ok h /\ entries_ok (facs h) /\ unit_ok (funit h) /\ sorted_strict (map fst (facs h)) /\
    (forall x, V x -> count_of (facs h) x = count_of (facs f) x + count_of (facs g) x) /\
    uval (funit h) = mul (uval (funit f)) (uval (funit g)) /\ lval (facs h) = mul (lval (facs f)) (lval (facs g)).
Proof.
  intros Hf Hs Hg Uf Ug Ht Hfit. unfold merge.
  destruct (insert_all_ok (facs g) f Hf Hs Hg Ht) as (h & Eh & Hu & Hh & Hhs & _ & Hc & Hv). rewrite Eh, bind_ok.
  rewrite (cm_comm _ _ CM) in Hv. rewrite Hu. destruct (funit g) as [v|]; destruct (funit f) as [u|]; cbn [uval unit_ok] in *.
  - destruct (fs_mul FS u v Uf Ug Hfit) as (w & Ew & Hw & Iw). rewrite Ew, bind_ok.
    eexists; split; [reflexivity|]. cbn [facs funit unit_ok uval]. repeat split; assumption.
  - eexists; split; [reflexivity|]. cbn [facs funit unit_ok uval]. rewrite (cm_one _ _ CM). repeat split; assumption.
  - exists h. rewrite Hu. cbn [unit_ok uval]. rewrite (cm_one_r _ _ CM). repeat split; assumption.
  - exists h. rewrite Hu. cbn [unit_ok uval]. rewrite (cm_one_r _ _ CM). repeat split; assumption.
Qed.

End FacGen.
