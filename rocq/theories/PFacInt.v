(* The factorization record over int. *)
From Verif Require Import Base MPrimes16 MPrime MFac PIntMath PPrime PFac PFacGen.
From Coq Require Import Znumtheory Permutation Lia.
Open Scope Z_scope.

Definition int_ok (x : Z) : Prop := Z.abs x <= INT_MAX.
Definition int_fits (x : Z) : Prop := x <> 0 /\ Z.abs x <= INT_MAX.
Notation idz := (fun x : Z => x).

Lemma int_cm : comm_monoid Z.mul 1.
Proof. constructor; intros; ring. Qed.

Lemma int_spec : fac_spec int_fops int_ok idz Z.mul 1 int_fits.
Proof.
  constructor; cbn [int_fops f_mul f_div f_sub f_eqb f_ltb]; unfold int_ok, int_fits.
  - exact int_cm.
  - intros x y [H1 H2]. rewrite Z.abs_mul in H2. assert (x <> 0 /\ y <> 0) as [Hx Hy] by (clear -H1; split; intros ->; apply H1; ring).
    split; [exact Hx|]. clear -Hy H2. pose proof (Z.abs_nonneg x). assert (1 <= Z.abs y) by lia. nia.
  - intros x y _ _ [H1 H2]. exists (x * y). split; [unfold imul; apply chk_abs; lia|]. auto.
  - auto.
  - intros x y _ _. apply Z.eqb_eq.
  - intros x _. apply Z.ltb_irrefl.
  - intros x y z _ _ _ H1 H2. lia.
  - intros x y _ _. lia.
Qed.

Lemma int_regular x : x <> 0 -> int_ok x -> regular int_fops int_ok idz 1 x.
Proof.
  intros Hx Hr. unfold int_ok in Hr. split.
  - exists 0. cbn [int_fops f_sub f_eqb]. unfold isub. rewrite Z.sub_diag. split; [reflexivity|lia].
  - exists 1. cbn [int_fops f_div]. unfold idiv. replace (x =? 0) with false by lia. rewrite Z.quot_same by exact Hx.
    split; [reflexivity|]. split; [unfold int_ok, INT_MAX; lia|reflexivity].
Qed.

Lemma mpow_Zpow x n : mpow Z.mul 1 x n = x ^ Z.of_nat n.
Proof. induction n as [|n IH]; cbn [mpow]; [reflexivity|]. rewrite IH, Nat2Z.inj_succ, Z.pow_succ_r by lia. reflexivity. Qed.
Lemma lval_fac_value l : Forall (fun p => 0 <= snd p) l -> lval idz Z.mul 1 l = fac_value l.
Proof.
  induction 1 as [|[x c] t Hc _ IH]; [reflexivity|]. cbn [lval fac_value fold_right fst snd] in *. unfold lval, fac_value in IH.
  rewrite IH, mpow_Zpow, Z2Nat.id by exact Hc. reflexivity.
Qed.
Lemma entries_Forall l : entries_ok int_ok l -> Forall (fun p => 0 <= snd p) l.
Proof. intros H. eapply Forall_impl; [|exact H]. intros p [_ Hp]. exact Hp. Qed.

Lemma sorted_strict_inc l : sorted_strict int_fops l <-> increasing l.
Proof.
  induction l as [|x t IH]; [cbn; tauto|]. cbn [sorted_strict]. rewrite IH. destruct t as [|y t]; [cbn; intuition|].
  cbn [increasing]. split.
  - intros [H1 H2]. split; [|exact H2]. specialize (H1 y (or_introl eq_refl)). cbn in H1. lia.
  - intros [H1 H2]. split; [|exact H2]. cbn [int_fops f_ltb].
    assert (Hall : forall l z, increasing (z :: l) -> forall w, In w l -> z < w).
    { clear. induction l as [|a l IHl]; intros z Hz w Hw; [destruct Hw|]. cbn [increasing] in Hz. destruct Hw as [<-|Hw]; [lia|].
      destruct Hz as [Hz1 Hz2]. specialize (IHl a Hz2 w Hw). lia. }
    intros z [<-|Hz]; [lia|]. pose proof (Hall t y H2 z Hz). lia.
Qed.
Lemma sorted_le_inc l : NoDup l -> sorted_le int_fops l -> increasing l.
Proof.
  intros Hn Hs. apply sorted_strict_inc. induction l as [|x t IH]; [exact Logic.I|].
  inversion Hn as [|? ? Hx Ht]; subst. destruct Hs as [H1 H2]. split; [|apply IH; assumption].
  intros y Hy. specialize (H1 y Hy). cbn [int_fops f_ltb] in *. assert (x <> y) by (intros ->; contradiction). lia.
Qed.

(* --- C41 --- *)
Definition mult (l : list (Z * Z)) (x : Z) : Z := fold_right (fun p acc => (if x =? fst p then snd p else 0) + acc) 0 l.
Lemma int_history h : (forall x c, In (x, c) h -> x <> 0 /\ Z.abs x <= INT_MAX /\ 0 <= c) ->
  fold_right (fun p acc => snd p + acc) 0 h <= INT_MAX -> Z.abs (fac_value h) <= INT_MAX ->
  exists f, insert_all int_fops fac_empty h = Ok f /\ increasing (map fst (facs f)) /\
    (forall x, In x (map fst (facs f)) <-> In x (map fst h)) /\
    (forall x, Z.abs x <= INT_MAX -> mult (facs f) x = mult h x) /\
    unfactor int_fops f 1 = Ok (fac_value h).
Proof.
  intros Hh Ht Hv.
  assert (He : entries_ok int_ok h).
  { unfold entries_ok. rewrite Forall_forall. intros [x c] Hin. destruct (Hh x c Hin) as (? & ? & ?). split; assumption. }
  assert (Hnz : fac_value h <> 0).
  { clear -Hh. induction h as [|[x c] t IH]; [discriminate|]. cbn [fac_value fold_right fst snd]. unfold fac_value in IH.
    destruct (Hh x c (or_introl eq_refl)) as (H1 & _ & H2). apply Z.neq_mul_0. split; [apply Z.pow_nonzero; assumption|].
    apply IH. intros y d Hy. apply Hh. right; exact Hy. }
  destruct (insert_all_ok int_fops int_ok idz Z.mul 1 int_fits int_spec h fac_empty) as (f & Ef & Hu & Hf & Hs & Hin & Hc & Hl).
  - constructor.
  - exact Logic.I.
  - exact He.
  - cbn [facs fac_empty total fold_right]. exact Ht.
  - exists f. split; [exact Ef|]. split; [apply sorted_strict_inc, Hs|]. cbn [facs fac_empty] in *.
    split; [intros x; rewrite Hin; cbn; tauto|].
    split; [intros x Hx; specialize (Hc x Hx); exact Hc|].
    cbn [lval fold_right] in Hl. rewrite Z.mul_1_r in Hl. rewrite (lval_fac_value h) in Hl by apply entries_Forall, He.
    destruct (unfactor_ok int_fops int_ok idz Z.mul 1 int_fits int_spec f 1) as (z & Ez & _ & Iz).
    + unfold int_ok, INT_MAX; lia.
    + reflexivity.
    + exact Hf.
    + rewrite Hu. exact Logic.I.
    + rewrite Hu, Hl. cbn [uval funit fac_empty]. rewrite Z.mul_1_l. split; assumption.
    + rewrite Ez, Iz, Hu, Hl. cbn [uval funit fac_empty]. rewrite Z.mul_1_l. reflexivity.
Qed.

(* --- C42 --- *)
Lemma int_prime_elt p : prime p -> prime_elt Z.mul 1 p.
Proof.
  intros Hp. pose proof (prime_ge_2 p Hp) as H2. constructor.
  - intros a b H. apply Z.mul_reg_l in H; lia.
  - intros [z Hz]. clear -H2 Hz. assert (z = 0 \/ z <= -1 \/ 1 <= z) as [->|[H|H]] by lia; nia.
  - intros a b [z Hz]. assert (Hd : (p | a * b)) by (exists z; lia).
    apply prime_mult in Hd as [[c Hc]|[c Hc]]; [left|right|exact Hp]; exists c; lia.
Qed.

Lemma int_indep l : (forall p c, In (p, c) l -> prime p) -> increasing (map fst l) -> indep Z.mul 1 (keys idz l).
Proof.
  intros Hp Hs. apply sorted_strict_inc in Hs. induction l as [|[p c] t IH]; [exact Logic.I|]. cbn [keys map indep fst].
  destruct Hs as [H1 H2]. cbn [int_fops f_ltb fst] in H1. split; [apply int_prime_elt, (Hp p c); left; reflexivity|].
  split; [|apply IH; [intros q d Hq; apply (Hp q d); right; exact Hq|exact H2]].
  intros q Hq [z Hz]. pose proof Hq as Hq'. apply in_map_iff in Hq as ([q' d] & Eq & Hq). cbn in Eq. subst q'.
  assert (Hpp : prime p) by (apply (Hp p c); left; reflexivity). assert (Hqp : prime q) by (apply (Hp q d); right; exact Hq).
  assert (Hdv : (p | q)) by (exists z; lia). apply prime_div_prime in Hdv; [|assumption..].
  specialize (H1 q Hq'). lia.
Qed.

Lemma ndiv_le_value l : (forall p c, In (p, c) l -> prime p /\ 1 <= c) -> 1 <= ndiv l <= fac_value l /\
  forall p c, In (p, c) l -> p <= fac_value l /\ c < fac_value l.
Proof.
  induction l as [|[p c] t IH]; intros H; [cbn; split; [lia|intros p c []]|].
  destruct IH as [IH1 IH2]; [intros q d Hq; apply H; right; exact Hq|]. destruct (H p c (or_introl eq_refl)) as [Hp Hc].
  cbn [ndiv fac_value fold_right fst snd]. fold (fac_value t). set (W := fac_value t) in *.
  pose proof (prime_ge_2 p Hp) as H2.
  assert (Hcp : c + 1 <= p ^ c).
  { assert (Hg : forall k : nat, Z.of_nat k + 1 <= p ^ Z.of_nat k).
    { clear -H2. induction k as [|k IHk]; [cbn; lia|]. rewrite Nat2Z.inj_succ, Z.pow_succ_r by lia. nia. }
    specialize (Hg (Z.to_nat c)). rewrite Z2Nat.id in Hg by lia. lia. }
  assert (Hpp : p <= p ^ c).
  { replace c with (Z.succ (c - 1)) by lia. rewrite Z.pow_succ_r by lia. assert (0 < p ^ (c-1)) by (apply Z.pow_pos_nonneg; lia). nia. }
  set (P := p ^ c) in *. clearbody P W. split; [clear -IH1 Hcp Hc; nia|].
  intros q d [E|Hq].
  - injection E as <- <-. clear -Hcp Hpp Hc IH1. nia.
  - destruct (IH2 q d Hq). clear -IH1 H0 H1 Hcp Hc. nia.
Qed.

Lemma unit_inv u : inv_elt Z.mul 1 u -> u = 1 \/ u = -1.
Proof. intros [z Hz]. apply Z.eq_mul_1 with z. lia. Qed.

Lemma fac_value_pos l : (forall p c, In (p, c) l -> prime p /\ 1 <= c) -> 1 <= fac_value l.
Proof. intros H. destruct (ndiv_le_value l H) as [H1 _]. lia. Qed.

Lemma good_entries l : (forall p c, In (p, c) l -> prime p /\ 1 <= c) -> fac_value l <= INT_MAX ->
  Forall (fun p => int_ok (fst p) /\ 1 <= snd p) l.
Proof.
  intros H Hv. rewrite Forall_forall. intros [p c] Hin. destruct (H p c Hin) as [Hp Hc]. pose proof (prime_ge_2 p Hp).
  destruct (ndiv_le_value l H) as [_ Hl]. destruct (Hl p c Hin). unfold int_ok. cbn [fst snd]. lia.
Qed.
Lemma good_entries0 l : Forall (fun p => int_ok (fst p) /\ 1 <= snd p) l -> entries_ok int_ok l.
Proof. intros H. eapply Forall_impl; [|exact H]. intros p [? ?]. split; [assumption|lia]. Qed.

Lemma int_all_divisors n : n <> 0 -> n * n <= INT_MAX ->
  exists f ds, int_factor n = Ok f /\ get_all_divisors int_fops f 1 = Ok ds /\ increasing ds /\
    (forall d, In d ds <-> 0 < d /\ (d | n)).
Proof.
  intros Hn Hnn. destruct (Z.eq_dec n 1) as [->|Hn1].
  { exists (mkfac [] (Some 1)), [1]. split; [reflexivity|]. split; [reflexivity|]. split; [exact Logic.I|].
    intros d. split; [intros [<-|[]]; split; [lia|apply Z.divide_refl]|]. intros [Hd Hd1]. left. apply Z.divide_1_r in Hd1. lia. }
  assert (Hna : Z.abs n <= INT_MAX) by (clear -Hnn Hn; nia).
  destruct (int_factor_full n Hn Hna) as (f & Ef & Hp & Hs & Hu & Hval). exists f.
  set (W := fac_value (facs f)) in *. pose proof (fac_value_pos (facs f) Hp) as HW1. fold W in HW1.
  assert (HWn : Z.abs n = W) by (rewrite <- Hval, Z.abs_mul, Hu; lia).
  assert (HW : W * W <= INT_MAX) by (rewrite <- HWn, <- Z.abs_mul; clear -Hnn; nia).
  pose proof (ndiv_le_value (facs f) Hp) as [Hnd Hcs]. fold W in Hnd, Hcs.
  assert (He : entries_ok int_ok (facs f)) by (apply good_entries0, good_entries; [exact Hp|fold W; lia]).
  assert (Hlv : lval idz Z.mul 1 (facs f) = W) by (apply lval_fac_value, entries_Forall, He).
  destruct (all_divisors_prime int_fops int_ok idz Z.mul 1 int_fits int_spec f 1) as (ds & Eds & Hsd & Hnd2 & Hlen & Hdv & _ & Hcomp).
  - unfold int_ok, INT_MAX; lia.
  - reflexivity.
  - exact He.
  - rewrite Forall_forall. intros [p c] Hin. destruct (Hp p c Hin) as [Hpp _]. apply prime_ge_2 in Hpp. cbn [fst].
    apply int_regular; [lia|]. unfold int_ok. destruct (Hcs p c Hin). lia.
  - rewrite Forall_forall. intros [p c] Hin. cbn [snd]. destruct (Hcs p c Hin). lia.
  - intros E0. assert (Hun : unit_value (funit f) = n) by (unfold W in Hval; rewrite E0 in Hval; cbn in Hval; lia).
    destruct (funit f); [discriminate|]. cbn in Hun. congruence.
  - lia.
  - rewrite Hlv. unfold int_fits. split; [clear -HW1; nia|]. rewrite Z.abs_eq; [exact HW|clear -HW1; nia].
  - apply int_indep; [intros p c Hin; apply (Hp p c Hin)|exact Hs].
  - exists ds. split; [exact Ef|]. split; [exact Eds|]. split; [apply sorted_le_inc; assumption|].
    assert (Hpos : forall d, In d ds -> 0 < d).
    { destruct (all_divisors_ok int_fops int_ok idz Z.mul 1 int_fits int_spec f 1) as (ds' & ds0 & L & Eds' & Hperm & _ & _ & _ & H2).
      - unfold int_ok, INT_MAX; lia.
      - reflexivity.
      - exact He.
      - rewrite Forall_forall. intros [p c] Hin. destruct (Hp p c Hin) as [Hpp _]. apply prime_ge_2 in Hpp. cbn [fst].
        apply int_regular; [lia|]. unfold int_ok. destruct (Hcs p c Hin). lia.
      - rewrite Forall_forall. intros [p c] Hin. cbn [snd]. destruct (Hcs p c Hin). lia.
      - intros E0. assert (Hun : unit_value (funit f) = n) by (unfold W in Hval; rewrite E0 in Hval; cbn in Hval; lia).
        destruct (funit f); [discriminate|]. cbn in Hun. congruence.
      - lia.
      - rewrite Hlv. unfold int_fits. split; [clear -HW1; nia|]. rewrite Z.abs_eq; [exact HW|clear -HW1; nia].
      - assert (ds' = ds) by congruence. subst ds'. intros d Hd. apply (Permutation_in d (Permutation_sym Hperm)) in Hd.
        assert (Hvp : forall xs v, Forall (fun x => 0 < x) xs -> 0 < vval Z.mul 1 xs v).
        { clear. intros xs v H. revert v. induction H as [|x t Hx _ IH]; intros v; [cbn; lia|]. destruct v as [|k v]; [cbn; lia|].
          cbn [vval]. rewrite mpow_Zpow. apply Z.mul_pos_pos; [apply Z.pow_pos_nonneg; lia|apply IH]. }
        assert (Hk : Forall (fun x => 0 < x) (keys idz (facs f))).
        { unfold keys. rewrite Forall_forall. intros x Hx. apply in_map_iff in Hx as ([p c] & <- & Hin). cbn [fst].
          destruct (Hp p c Hin) as [Hpp _]. apply prime_ge_2 in Hpp. lia. }
        clear -H2 Hd Hvp Hk. induction H2 as [|v e L ds0 [_ He] _ IH]; [destruct Hd|]. destruct Hd as [<-|Hd]; [rewrite He; apply Hvp, Hk|apply IH, Hd]. }
    assert (Hdiv : forall d, (d | n) <-> (d | W)).
    { intros d. rewrite <- HWn. symmetry. apply Z.divide_abs_r. }
    intros d. rewrite Hdiv. split.
    + intros Hd. split; [apply Hpos, Hd|]. destruct (Hdv d Hd) as [_ [z Hz]]. rewrite Hlv in Hz. exists z. lia.
    + intros [Hd0 [z Hz]]. destruct (Hcomp d) as (u & e & He1 & Hu1 & ->); [exists z; rewrite Hlv; lia|].
      apply unit_inv in Hu1. pose proof (Hpos e He1). replace (u * e) with e; [exact He1|]. clear -Hd0 Hu1 H. destruct Hu1; subst; lia.
Qed.

Lemma int_max_divisors n : 2 <= Z.abs n <= INT_MAX ->
  exists f ds, int_factor n = Ok f /\ get_maximal_proper_divisors int_fops f 1 = Ok (Some ds) /\ increasing ds /\
    (forall d, In d ds <-> exists p, prime p /\ n = p * d).
Proof.
  intros Hn. destruct (int_factor_full n ltac:(lia) ltac:(lia)) as (f & Ef & Hp & Hs & Hu & Hval). exists f.
  set (W := fac_value (facs f)) in *. pose proof (fac_value_pos (facs f) Hp) as HW1. fold W in HW1.
  assert (HWn : Z.abs n = W) by (rewrite <- Hval, Z.abs_mul, Hu; lia).
  assert (He1 : Forall (fun p => int_ok (fst p) /\ 1 <= snd p) (facs f)) by (apply good_entries; [exact Hp|fold W; lia]).
  assert (He : entries_ok int_ok (facs f)) by (apply good_entries0, He1).
  assert (Hlv : lval idz Z.mul 1 (facs f) = W) by (apply lval_fac_value, entries_Forall, He).
  assert (Huv : uval idz 1 (funit f) = unit_value (funit f)) by (destruct (funit f); reflexivity).
  destruct (max_proper_divisors_ok int_fops int_ok idz Z.mul 1 int_fits int_spec f 1) as (ds & ds0 & Eds & Hperm & Hsd & H2).
  - unfold int_ok, INT_MAX; lia.
  - reflexivity.
  - destruct (funit f) as [u|]; [|exact Logic.I]. cbn in Hu |- *. unfold int_ok, INT_MAX. lia.
  - exact He1.
  - intros E0. unfold W in HWn. rewrite E0 in HWn. cbn in HWn. lia.
  - rewrite Hlv, Huv, Hval. unfold int_fits. lia.
  - rewrite Hlv, Huv, Hval in H2. exists ds. split; [exact Ef|]. split; [exact Eds|].
    assert (Hin : forall d, In d ds <-> exists p, prime p /\ n = p * d).
    { intros d. split.
      - intros Hd. apply (Permutation_in d (Permutation_sym Hperm)) in Hd.
        assert (Hx : exists p c, In (p, c) (facs f) /\ p * d = n).
        { clear -H2 Hd. induction H2 as [|[p c] e l ds0 [_ He] _ IH]; [destruct Hd|]. destruct Hd as [<-|Hd].
          - exists p, c. split; [left; reflexivity|exact He].
          - destruct (IH Hd) as (q & b & Hq & Eq). exists q, b. split; [right; exact Hq|exact Eq]. }
        destruct Hx as (p & c & Hpc & Epd). exists p. split; [apply (Hp p c Hpc)|lia].
      - intros (p & Hpp & Epd). pose proof (prime_ge_2 p Hpp) as Hp2. apply (Permutation_in d Hperm).
        assert (Hpk : exists c, In (p, c) (facs f)).
        { assert (Hdv : mdiv Z.mul p (vval Z.mul 1 (keys idz (facs f)) (counts (facs f)))).
          { rewrite <- (lval_vval idz Z.mul 1), Hlv. exists (d * Z.sgn n). rewrite <- HWn. clear -Epd Hp2. rewrite <- (Z.sgn_abs n).
            pose proof (Z.abs_sgn n). rewrite Z.mul_assoc, <- Epd. rewrite Z.sgn_abs. pose proof (Z.sgn_abs n). lia. }
          apply (prime_div_vval Z.mul 1 ) in Hdv; [|apply int_prime_elt, Hpp].
          destruct Hdv as (q & Hq & [z Hz]). unfold keys in Hq. apply in_map_iff in Hq as ([q' c] & E & Hq). cbn in E. subst q'.
          exists c. assert (Epq : p = q); [|rewrite Epq; exact Hq]. apply prime_div_prime; [exact Hpp|apply (Hp q c Hq)|exists z; lia]. }
        destruct Hpk as (c & Hpc).
        clear -H2 Hpc Epd Hp2. induction H2 as [|[q b] e l ds0 [_ Eq] _ IH]; [destruct Hpc|]. destruct Hpc as [E|Hpc].
        + injection E as -> ->. left. cbn [fst] in Eq. rewrite Epd in Eq. apply Z.mul_reg_l in Eq; [exact Eq|lia].
        + right. apply IH, Hpc. }
    split; [|exact Hin]. apply sorted_le_inc; [|exact Hsd]. eapply Permutation_NoDup; [exact Hperm|].
    assert (Hnk : NoDup (map fst (facs f))).
    { apply sorted_strict_inc in Hs. clear -Hs. induction (map fst (facs f)) as [|x t IH]; constructor.
      - intros Hin. destruct Hs as [H _]. specialize (H x Hin). cbn in H. lia.
      - apply IH. apply Hs. }
    assert (Hn0 : n <> 0) by lia. clear -H2 Hnk Hn0. induction H2 as [|[p c] e l ds0 [_ He] H2 IH]; [constructor|].
    cbn [map] in Hnk. apply NoDup_cons_iff in Hnk as [Hx Hn]. constructor; [|apply IH, Hn].
    intros Hin. apply Hx. cbn [fst] in *.
    assert (Hex : exists q b, In (q, b) l /\ q * e = p * e).
    { rewrite He. clear -H2 Hin. induction H2 as [|[q b] g l ds0 [_ Hg] _ IH]; [destruct Hin|]. destruct Hin as [->|Hin].
      - exists q, b. split; [left; reflexivity|exact Hg].
      - destruct (IH Hin) as (q' & b' & ? & ?). exists q', b'. split; [right; assumption|assumption]. }
    destruct Hex as (q & b & Hq & Eq). assert (q = p) by (clear -Eq Hn0 He; assert (e <> 0) by (intros ->; lia); apply Z.mul_reg_r in Eq; lia).
    subst q. apply in_map_iff. exists (p, b). split; [reflexivity|exact Hq].
Qed.
