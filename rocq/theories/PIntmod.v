(* Proofs about MIntmod. *)
From Verif Require Import Base MIntMath MIntmod PIntMath PIntMath2.
From Coq Require Import Znumtheory Permutation Zpow_facts.
Open Scope Z_scope.

(* Canonical value of Z/m. *)
Definition canon (a : intmod) : Prop := 0 <= residue a < modulus a.
Definition MAXM : Z := 46341.     (* floor(sqrt(2^31-1)) + 1 *)

Lemma in_int_MAXM x y : 0 <= x < MAXM -> 0 <= y < MAXM -> 0 <= x * y <= INT_MAX.
Proof. unfold MAXM, INT_MAX. intros. nia. Qed.

Lemma im_make_ok r m : 1 <= m <= INT_MAX -> Z.abs r <= INT_MAX -> im_make r m = Ok (mkim (r mod m) m).
Proof.
  intros Hm Hr. unfold im_make. replace (m <=? 0) with false by lia.
  rewrite imod_sym, bind_ok by lia.
  assert (Hrem : Z.rem r m = if (0 <=? r) || (r mod m =? 0) then r mod m else r mod m - m).
  { destruct (0 <=? r) eqn:E; cbn [orb].
    - apply Z.rem_mod_nonneg; lia.
    - replace r with (- (-r)) by lia. rewrite Z.rem_opp_l', Z.rem_mod_nonneg by lia.
      destruct (- - r mod m =? 0) eqn:E2.
      + apply Z.eqb_eq in E2. rewrite E2. rewrite Z.opp_involutive in E2.
        apply Z.mod_opp_l_z in E2; [|lia]. lia.
      + rewrite Z.opp_involutive in *. rewrite Z.mod_opp_l_nz; lia. }
  pose proof (Z.mod_pos_bound r m).
  destruct ((0 <=? r) || (r mod m =? 0)) eqn:E.
  - rewrite Hrem. replace (r mod m <? 0) with false by lia. reflexivity.
  - rewrite Hrem. replace (r mod m - m <? 0) with true by lia. unfold iadd.
    rewrite chk_ok by (unfold INT_MIN, INT_MAX in *; lia). rewrite bind_ok. do 2 f_equal. lia.
Qed.

Lemma check_moduli_ok a b : 0 < modulus a -> modulus a = modulus b -> check_moduli a b = Ok tt.
Proof.
  intros H1 H2. unfold check_moduli, check_modulus. rewrite <- H2.
  replace (modulus a =? 0) with false by lia. rewrite !bind_ok. rewrite Z.eqb_refl. reflexivity.
Qed.
Lemma check_modulus_ok a : 0 < modulus a -> check_modulus a = Ok tt.
Proof. intros H. unfold check_modulus. replace (modulus a =? 0) with false by lia. reflexivity. Qed.
Lemma check_moduli_mixed a b : modulus a <> modulus b -> check_moduli a b = Exn.
Proof.
  intros H. unfold check_moduli, check_modulus.
  destruct (modulus a =? 0); [reflexivity|]. destruct (modulus b =? 0); [reflexivity|].
  rewrite !bind_ok. replace (modulus a =? modulus b) with false by lia. reflexivity.
Qed.

Section Ring.
Variables (m : Z).
Hypothesis Hm : 1 <= m <= MAXM.
Let HmI : 1 <= m <= INT_MAX. Proof. unfold MAXM, INT_MAX in *. lia. Qed.

Lemma im_add_ok x y : 0 <= x < m -> 0 <= y < m -> im_add (mkim x m) (mkim y m) = Ok (mkim ((x + y) mod m) m).
Proof.
  intros Hx Hy. unfold im_add. rewrite check_moduli_ok by (cbn; lia). rewrite bind_ok. cbn [residue modulus].
  unfold iadd. rewrite chk_ok by (unfold MAXM, INT_MIN, INT_MAX in *; lia). rewrite bind_ok.
  apply im_make_ok; [lia|]. unfold MAXM, INT_MAX in *; lia.
Qed.
Lemma im_sub_ok x y : 0 <= x < m -> 0 <= y < m -> im_sub (mkim x m) (mkim y m) = Ok (mkim ((x - y) mod m) m).
Proof.
  intros Hx Hy. unfold im_sub. rewrite check_moduli_ok by (cbn; lia). rewrite bind_ok. cbn [residue modulus].
  unfold iadd, isub. rewrite chk_ok by (unfold MAXM, INT_MIN, INT_MAX in *; lia). rewrite bind_ok.
  rewrite chk_ok by (unfold MAXM, INT_MIN, INT_MAX in *; lia). rewrite bind_ok.
  rewrite im_make_ok by (unfold MAXM, INT_MAX in *; lia).
  do 2 f_equal. replace (m + x - y) with (x - y + 1 * m) by lia. apply Z.mod_add. lia.
Qed.
Lemma im_neg_ok x : 0 <= x < m -> im_neg (mkim x m) = Ok (mkim ((- x) mod m) m).
Proof.
  intros Hx. unfold im_neg. rewrite check_modulus_ok by (cbn; lia). rewrite bind_ok. cbn [residue modulus].
  unfold isub. rewrite chk_ok by (unfold MAXM, INT_MIN, INT_MAX in *; lia). rewrite bind_ok.
  rewrite im_make_ok by (unfold MAXM, INT_MAX in *; lia).
  do 2 f_equal. replace (m - x) with (- x + 1 * m) by lia. apply Z.mod_add. lia.
Qed.
Lemma im_mul_ok x y : 0 <= x < m -> 0 <= y < m -> im_mul (mkim x m) (mkim y m) = Ok (mkim ((x * y) mod m) m).
Proof.
  intros Hx Hy. unfold im_mul. rewrite check_moduli_ok by (cbn; lia). rewrite bind_ok. cbn [residue modulus].
  pose proof (in_int_MAXM x y ltac:(lia) ltac:(lia)) as Hxy.
  unfold imul. rewrite chk_ok by (unfold INT_MIN, INT_MAX in *; lia). rewrite bind_ok.
  apply im_make_ok; [lia|]. lia.
Qed.
Lemma im_add_int_ok x v : 0 <= x < m -> INT_MIN <= v <= INT_MAX - m -> im_add_int (mkim x m) v = Ok (mkim ((x + v) mod m) m) \/ (x = 0 /\ v = INT_MIN).
Proof.
  intros Hx Hv. destruct (Z.eq_dec (x + v) INT_MIN); [right; lia|left].
  unfold im_add_int. cbn [residue modulus].
  unfold iadd. rewrite chk_ok by (unfold MAXM, INT_MIN, INT_MAX in *; lia). rewrite bind_ok.
  apply im_make_ok; [lia|]. unfold MAXM, INT_MIN, INT_MAX in *; lia.
Qed.

Lemma im_exp_loop fuel : forall e xp rv, 0 <= e <= INT_MAX -> 0 <= xp < m -> 0 <= rv < m -> e < 2 ^ (Z.of_nat fuel - 1) -> (1 <= fuel)%nat ->
  loop fuel (im_exp_step m) (e, xp, rv) = Ok ((rv * xp ^ e) mod m).
Proof.
  induction fuel as [|f IH]; intros e xp rv He Hxp Hrv Hlt Hf; [lia|].
  cbn [loop]. unfold im_exp_step at 1. destruct (e =? 0) eqn:E.
  - apply Z.eqb_eq in E; subst e. rewrite Z.pow_0_r, Z.mul_1_r, Z.mod_small by lia. reflexivity.
  - pose proof (in_int_MAXM rv xp ltac:(lia) ltac:(lia)) as H1.
    pose proof (in_int_MAXM xp xp ltac:(lia) ltac:(lia)) as H2.
    assert (E1 : (if Z.odd e then p <- imul rv xp ;; imod p m else Ok rv) = Ok (if Z.odd e then (rv * xp) mod m else rv)).
    { destruct (Z.odd e); [|reflexivity]. unfold imul. rewrite chk_ok by (unfold INT_MIN, INT_MAX in *; lia).
      rewrite bind_ok. apply imod_pos; lia. }
    rewrite E1, bind_ok. unfold imul. rewrite chk_ok by (unfold INT_MIN, INT_MAX in *; lia). rewrite bind_ok.
    rewrite imod_pos, bind_ok by lia. rewrite sq_u32 by lia.
    destruct f as [|f]. { change (Z.of_nat 1 - 1) with 0 in Hlt. change (2^0) with 1 in Hlt. lia. }
    rewrite IH.
    + f_equal. pose proof (Z.div2_odd e) as Hdo. rewrite Z.div2_div in Hdo.
      assert (Hpow : (rv * xp ^ e) mod m = ((if Z.odd e then (rv*xp) mod m else rv) * ((xp*xp) mod m) ^ (e/2)) mod m).
      { rewrite Hdo at 1. assert (Hb : 0 <= Z.b2z (Z.odd e)) by (destruct (Z.odd e); cbn; lia).
        assert (Hh : 0 <= e / 2) by (apply Z.div_pos; lia).
        rewrite Z.pow_add_r by lia.
        rewrite Z.pow_mul_r by lia. rewrite Z.pow_2_r.
        rewrite <- (Z.mul_mod_idemp_r _ (((xp*xp) mod m) ^ (e/2))) by lia.
        rewrite <- Zpower_mod by lia. rewrite Z.mul_mod_idemp_r by lia.
        destruct (Z.odd e); cbn [Z.b2z].
        - rewrite Z.pow_1_r. rewrite Z.mul_mod_idemp_l by lia. f_equal. ring.
        - rewrite Z.pow_0_r. f_equal. ring. }
      symmetry. exact Hpow.
    + split; [apply Z.div_pos; lia|]. lia.
    + apply Z.mod_pos_bound; lia.
    + destruct (Z.odd e); [apply Z.mod_pos_bound; lia|lia].
    + replace (Z.of_nat (S (S f)) - 1) with (Z.succ (Z.of_nat (S f) - 1)) in Hlt by lia.
      rewrite Z.pow_succ_r in Hlt by lia. lia.
    + lia.
Qed.

Lemma im_zero_ok : im_make 0 m = Ok (mkim 0 m).
Proof. rewrite im_make_ok by (unfold INT_MAX in *; lia). rewrite Z.mod_0_l by lia. reflexivity. Qed.
Lemma im_one_ok : im_make 1 m = Ok (mkim (1 mod m) m).
Proof. apply im_make_ok; [lia|]. unfold INT_MAX; lia. Qed.
Lemma im_eqb_ok x y : im_eqb (mkim x m) (mkim y m) = Ok (x =? y).
Proof.
  unfold im_eqb. rewrite !check_modulus_ok by (cbn; lia). rewrite !bind_ok. cbn [residue modulus].
  rewrite Z.eqb_refl, andb_true_r. reflexivity.
Qed.

Lemma im_exp_gen_pos inv x e : 0 <= x < m -> 0 < e <= INT_MAX -> im_exp_gen inv (mkim x m) e = Ok (mkim (x ^ e mod m) m).
Proof.
  intros Hx He. unfold im_exp_gen. rewrite check_modulus_ok by (cbn; lia). rewrite bind_ok. cbn [modulus residue].
  rewrite im_zero_ok, bind_ok, im_one_ok, bind_ok, im_eqb_ok, bind_ok.
  replace (e =? 0) with false by lia. replace (e <? 0) with false by lia. rewrite bind_ok. cbn [residue].
  rewrite im_exp_loop; [| lia | lia | apply Z.mod_pos_bound; lia | | lia].
  - rewrite bind_ok. rewrite Z.mul_mod_idemp_l by lia. rewrite Z.mul_1_l. reflexivity.
  - change (2 ^ (Z.of_nat 34 - 1)) with 8589934592. unfold INT_MAX in He. lia.
Qed.
Lemma im_exp_gen_0 inv x : 0 <= x < m -> im_exp_gen inv (mkim x m) 0 = if x =? 0 then Exn else Ok (mkim (1 mod m) m).
Proof.
  intros Hx. unfold im_exp_gen. rewrite check_modulus_ok by (cbn; lia). rewrite bind_ok. cbn [modulus residue].
  rewrite im_zero_ok, bind_ok, im_one_ok, bind_ok, im_eqb_ok, bind_ok.
  replace (0 =? 0) with true by lia. reflexivity.
Qed.
Lemma im_exp_gen_neg inv x e : 0 <= x < m -> INT_MIN < e < 0 ->
  im_exp_gen inv (mkim x m) e =
  if x =? 0 then Exn else (i <- inv ;; rv <- loop 34 (im_exp_step m) (-e, residue i, 1 mod m) ;; Ok (mkim rv m)).
Proof.
  intros Hx He. unfold im_exp_gen. rewrite check_modulus_ok by (cbn; lia). rewrite bind_ok. cbn [modulus residue].
  rewrite im_zero_ok, bind_ok, im_one_ok, bind_ok, im_eqb_ok, bind_ok.
  replace (e =? 0) with false by lia. replace (e <? 0) with true by lia.
  destruct (x =? 0); [reflexivity|]. unfold ineg. rewrite chk_ok by (unfold INT_MIN, INT_MAX in *; lia). rewrite bind_ok.
  destruct inv as [i| | |]; reflexivity.
Qed.
End Ring.

(* ---------------------------------------------------------------- Euler *)
Definition zprod (l : list Z) : Z := fold_right Z.mul 1 l.

Lemma zprod_perm l l' : Permutation l l' -> zprod l = zprod l'.
Proof. induction 1; cbn [zprod fold_right] in *; unfold zprod in *; lia. Qed.

Lemma zprod_map_mul n r l : 0 < n -> zprod (map (fun x => (r * x) mod n) l) mod n = (r ^ Z.of_nat (length l) * zprod l) mod n.
Proof.
  intros Hn. induction l as [|x t IH]; [reflexivity|].
  cbn [map zprod fold_right length]. fold (zprod (map (fun x => (r*x) mod n) t)). fold (zprod t).
  rewrite Z.mul_mod_idemp_l by lia.
  rewrite <- Z.mul_mod_idemp_r, IH, Z.mul_mod_idemp_r by lia.
  f_equal. rewrite Nat2Z.inj_succ, Z.pow_succ_r by lia. ring.
Qed.

Lemma gcd_1_mul n a b : Z.gcd n a = 1 -> Z.gcd n b = 1 -> Z.gcd n (a * b) = 1.
Proof. intros Ha Hb. apply Zgcd_1_rel_prime. apply rel_prime_mult; apply Zgcd_1_rel_prime; assumption. Qed.

Lemma zprod_coprime n l : (forall x, In x l -> Z.gcd n x = 1) -> Z.gcd n (zprod l) = 1.
Proof.
  induction l as [|x t IH]; intros H; [cbn; apply Z.gcd_1_r|].
  cbn [zprod fold_right]. apply gcd_1_mul; [apply H; left; reflexivity|]. apply IH. intros; apply H; right; assumption.
Qed.

Lemma cancel_mod n a b c : 0 < n -> Z.gcd n c = 1 -> (a * c) mod n = (b * c) mod n -> a mod n = b mod n.
Proof.
  intros Hn Hc H.
  assert (Hd : (n | (a - b) * c)).
  { apply Z.mod_divide; [lia|]. rewrite Z.mul_sub_distr_r, Zminus_mod, H, Z.sub_diag. apply Z.mod_0_l; lia. }
  assert (Hd2 : (n | a - b)) by (apply Gauss with c; [rewrite Z.mul_comm; exact Hd|apply Zgcd_1_rel_prime; exact Hc]).
  destruct Hd2 as [k Hk]. replace a with (b + k * n) by lia. apply Z.mod_add. lia.
Qed.

Lemma euler n r : 2 <= n -> Z.gcd n r = 1 -> r ^ Z.of_nat (length (coprimes n)) mod n = 1.
Proof.
  intros Hn Hr. set (l := coprimes n).
  assert (Hperm : Permutation (map (fun x => (r * x) mod n) l) l).
  { apply NoDup_Permutation_bis.
    - assert (Hnd : NoDup l) by apply coprimes_nodup.
      assert (Hinj : forall x y, In x l -> In y l -> (r*x) mod n = (r*y) mod n -> x = y).
      { intros x y Hx Hy H. apply coprimes_in in Hx, Hy. rewrite (Z.mul_comm r x), (Z.mul_comm r y) in H.
        apply cancel_mod in H; [|lia|exact Hr]. rewrite !Z.mod_small in H by lia. exact H. }
      clear -Hnd Hinj. induction l as [|x t IH]; cbn [map]; constructor.
      + intros Hin. apply in_map_iff in Hin as (y & Hy1 & Hy2).
        assert (x = y) by (apply Hinj; [left; reflexivity|right; exact Hy2|congruence]). subst y.
        inversion Hnd; contradiction.
      + apply IH; [inversion Hnd; assumption|]. intros; apply Hinj; auto; right; assumption.
    - rewrite map_length. lia.
    - intros y Hy. apply in_map_iff in Hy as (x & <- & Hx). apply coprimes_in in Hx as [Hx1 Hx2]. apply coprimes_in.
      assert (Hg : Z.gcd n ((r*x) mod n) = 1).
      { rewrite Z.gcd_comm, Z.gcd_mod by lia. apply gcd_1_mul; assumption. }
      split; [|exact Hg]. pose proof (Z.mod_pos_bound (r*x) n).
      destruct (Z.eq_dec ((r*x) mod n) 0) as [E|]; [|lia]. rewrite E, Z.gcd_0_r in Hg. lia. }
  pose proof (zprod_map_mul n r l ltac:(lia)) as H. rewrite (zprod_perm _ _ Hperm) in H.
  rewrite <- (Z.mod_small 1 n) by lia. apply (cancel_mod n _ _ (zprod l)); [lia| |].
  - apply zprod_coprime. intros x Hx. apply coprimes_in in Hx. tauto.
  - rewrite Z.mul_1_l. symmetry. exact H.
Qed.

(* ---------------------------------------------------------------- recip *)
Definition cache_valid (c : cache) : Prop :=
  2 <= fst c <= INT_MAX /\ snd c = Z.of_nat (length (coprimes (fst c))) \/ fst c = 1 /\ snd c = 0.

Lemma filter_len {A} (f : A -> bool) l : (length (filter f l) <= length l)%nat.
Proof. induction l as [|x t IH]; cbn; [lia|]. destruct (f x); cbn; lia. Qed.
Lemma coprimes_le n : 1 <= n -> 0 <= Z.of_nat (length (coprimes n)) <= n - 1.
Proof.
  intros Hn. split; [lia|]. unfold coprimes.
  pose proof (filter_len (fun i => Z.gcd n i =? 1) (zrange (Z.to_nat (n-1)) 1)) as H.
  rewrite zrange_length in H. lia.
Qed.
Lemma coprimes_ge2 n : 3 <= n -> 2 <= Z.of_nat (length (coprimes n)).
Proof.
  intros Hn.
  assert (H : Nat.le (length [1; n-1]) (length (coprimes n))).
  { apply NoDup_incl_length.
    - constructor; [intros [E|[]]; lia|]. constructor; [intros []|constructor].
    - intros x [<-|[<-|[]]]; apply coprimes_in; (split; [lia|]).
      + apply Z.gcd_1_r.
      + rewrite Z.gcd_comm. apply Z.bezout_1_gcd. exists (-1), 1. lia. }
  cbn [length] in H. lia.
Qed.

Lemma cache_init_valid : cache_valid cache_init.
Proof. left. split; [unfold INT_MAX; cbn; lia|reflexivity]. Qed.

Lemma cache_get_ok c m : cache_valid c -> 1 <= m <= INT_MAX ->
  exists phi, cache_get c m = Ok (m, phi) /\ phi = Z.of_nat (length (coprimes m)) /\ cache_valid (m, phi).
Proof.
  intros Hc Hm. unfold cache_get.
  assert (Hval : cache_valid (m, Z.of_nat (length (coprimes m)))).
  { destruct (Z.eq_dec m 1) as [->|]; [right; split; reflexivity|left; cbn [fst snd]; split; [lia|reflexivity]]. }
  destruct (m =? fst c) eqn:E.
  - exists (snd c). apply Z.eqb_eq in E. rewrite E.
    assert (Hs : snd c = Z.of_nat (length (coprimes (fst c)))).
    { destruct Hc as [[_ H]|[H1 H2]]; [exact H|]. rewrite H1, H2. reflexivity. }
    split; [f_equal; destruct c; reflexivity|]. split; [exact Hs|]. rewrite Hs, <- E. exact Hval.
  - rewrite int_totient_ok, bind_ok by lia. eexists; split; [reflexivity|]. split; [reflexivity|exact Hval].
Qed.

Lemma im_recip_ok c m x : cache_valid c -> 2 <= m <= MAXM -> 0 <= x < m ->
  (Z.gcd m x = 1 /\ exists y, im_recip c (mkim x m) = Ok (Some (mkim y m)) /\ 0 <= y < m /\ (x * y) mod m = 1)
  \/ (Z.gcd m x <> 1 /\ im_recip c (mkim x m) = Ok None).
Proof.
  intros Hc Hm Hx. unfold im_recip. rewrite check_modulus_ok by (cbn; lia). rewrite bind_ok. cbn [modulus residue].
  destruct (m =? 2) eqn:E2.
  - apply Z.eqb_eq in E2. subst m. assert (Hx' : x = 0 \/ x = 1) by lia. destruct Hx' as [->| ->].
    + right. split; [cbn; lia|reflexivity].
    + left. split; [reflexivity|]. exists 1. repeat split; lia.
  - assert (Hm3 : 3 <= m) by lia.
    destruct (cache_get_ok c m Hc) as (phi & Eg & Hphi & _); [unfold MAXM, INT_MAX in *; lia|].
    rewrite Eg, bind_ok. cbn [snd]. unfold im_recip_phi.
    pose proof (coprimes_ge2 m Hm3) as Hge. pose proof (coprimes_le m ltac:(lia)) as Hle. rewrite <- Hphi in Hge, Hle.
    unfold isub. rewrite chk_ok by (unfold MAXM, INT_MIN, INT_MAX in *; lia). rewrite bind_ok.
    rewrite (im_exp_gen_pos m) by (unfold MAXM, INT_MAX in *; lia). rewrite bind_ok. cbn [residue modulus].
    pose proof (Z.mod_pos_bound (x ^ (phi-1)) m ltac:(lia)) as Hb.
    pose proof (in_int_MAXM x (x ^ (phi-1) mod m) ltac:(lia) ltac:(lia)) as Hi.
    unfold imul. rewrite chk_ok by (unfold INT_MIN, INT_MAX in *; lia). rewrite bind_ok.
    rewrite imod_pos, bind_ok by lia.
    destruct ((x * (x ^ (phi-1) mod m)) mod m =? 1) eqn:E.
    + left. split.
      * apply unit_mod_gcd; [lia|]. exists (x ^ (phi-1) mod m). rewrite (Z.mod_small 1) by lia. lia.
      * eexists; split; [reflexivity|]. split; lia.
    + right. split; [|reflexivity]. intros Hg. apply Z.eqb_neq in E. apply E.
      rewrite Z.mul_mod_idemp_r by lia. replace (x * x ^ (phi-1)) with (x ^ phi).
      * rewrite Hphi. apply euler; [lia|exact Hg].
      * rewrite <- Z.pow_succ_r by lia. f_equal. lia.
Qed.

Lemma im_recip_cache_valid c a : cache_valid c -> 1 <= modulus a <= INT_MAX -> cache_valid (im_recip_cache c a).
Proof.
  intros Hc Ha. unfold im_recip_cache. destruct (_ || _); [exact Hc|].
  destruct (cache_get_ok c (modulus a) Hc Ha) as (phi & E & _ & Hv). rewrite E. exact Hv.
Qed.

(* The statics after any history of reciprocal calls. *)
Definition cache_after (hist : list intmod) : cache := fold_left im_recip_cache hist cache_init.
Lemma cache_after_valid hist : (forall a, In a hist -> 1 <= modulus a <= INT_MAX) -> cache_valid (cache_after hist).
Proof.
  unfold cache_after. assert (H0 := cache_init_valid). revert H0. generalize cache_init.
  induction hist as [|a t IH]; intros c Hc H; cbn [fold_left]; [exact Hc|].
  apply IH; [|intros; apply H; right; assumption]. apply im_recip_cache_valid; [exact Hc|apply H; left; reflexivity].
Qed.

Lemma im_div_ok c m x y : cache_valid c -> 2 <= m <= MAXM -> 0 <= x < m -> 0 <= y < m ->
  (Z.gcd m y = 1 /\ exists q, im_div c (mkim x m) (mkim y m) = Ok (mkim q m) /\ 0 <= q < m /\ (q * y) mod m = x)
  \/ (Z.gcd m y <> 1 /\ im_div c (mkim x m) (mkim y m) = Exn).
Proof.
  intros Hc Hm Hx Hy. unfold im_div. rewrite check_moduli_ok by (cbn; lia). rewrite bind_ok.
  destruct (im_recip_ok c m y Hc Hm Hy) as [(Hg & i & Ei & Hi & Hyi)|(Hg & Ei)]; rewrite Ei, bind_ok.
  - left. split; [exact Hg|]. rewrite im_mul_ok by (try lia; assumption). eexists; split; [reflexivity|].
    split; [apply Z.mod_pos_bound; lia|]. rewrite Z.mul_mod_idemp_l by lia.
    replace (x * i * y) with (x * (y * i)) by ring. rewrite <- Z.mul_mod_idemp_r, Hyi, Z.mul_1_r, Z.mod_small by lia. reflexivity.
  - right. auto.
Qed.

Lemma im_exp_neg_ok c m x e : cache_valid c -> 2 <= m <= MAXM -> 0 <= x < m -> INT_MIN < e < 0 ->
  (Z.gcd m x = 1 /\ exists y, im_exp c (mkim x m) e = Ok (mkim y m) /\ 0 <= y < m /\ (y * x ^ (-e)) mod m = 1)
  \/ (Z.gcd m x <> 1 /\ im_exp c (mkim x m) e = Exn).
Proof.
  intros Hc Hm Hx He. unfold im_exp. rewrite (im_exp_gen_neg m) by lia. cbn [modulus].
  rewrite (im_one_ok m) by lia. rewrite bind_ok.
  destruct (x =? 0) eqn:E0.
  { apply Z.eqb_eq in E0. subst x. right. split; [rewrite Z.gcd_0_r; lia|reflexivity]. }
  rewrite (Z.mod_small 1) by lia.
  destruct (im_div_ok c m 1 x Hc Hm ltac:(lia) Hx) as [(Hg & q & Eq & Hq & Hqx)|(Hg & Eq)]; rewrite Eq.
  - left. split; [exact Hg|]. rewrite bind_ok. cbn [residue].
    rewrite im_exp_loop; [| lia | unfold INT_MIN, INT_MAX in *; lia | lia | lia | | lia].
    + rewrite bind_ok. eexists; split; [reflexivity|]. split; [apply Z.mod_pos_bound; lia|].
      rewrite Z.mul_1_l. rewrite Z.mul_mod_idemp_l by lia. rewrite <- Z.pow_mul_l.
      rewrite Zpower_mod, Hqx by lia. rewrite Z.pow_1_l by lia. apply Z.mod_small; lia.
    + change (2 ^ (Z.of_nat 34 - 1)) with 8589934592. unfold INT_MIN in He. lia.
  - right. auto.
Qed.

(* ---------------------------------------------------------------- overflow boundary *)
Lemma chk_dec z : (INT_MIN <= z <= INT_MAX -> chk z = Ok z) /\ (z < INT_MIN \/ INT_MAX < z -> chk z = UB).
Proof. split; [apply chk_ok|]. intros H. unfold chk, in_int. replace (_ && _) with false by lia. reflexivity. Qed.

Lemma im_mul_overflow m x y : 1 <= m <= INT_MAX -> 0 <= x < m -> 0 <= y < m ->
  (x * y <= INT_MAX -> im_mul (mkim x m) (mkim y m) = Ok (mkim ((x * y) mod m) m)) /\
  (INT_MAX < x * y -> im_mul (mkim x m) (mkim y m) = UB).
Proof.
  intros Hm Hx Hy. unfold im_mul. rewrite check_moduli_ok by (cbn; lia). rewrite bind_ok. cbn [residue modulus].
  unfold imul. assert (0 <= x * y) by nia. split; intros H1.
  - rewrite chk_ok, bind_ok by (unfold INT_MIN, INT_MAX in *; lia). apply im_make_ok; lia.
  - rewrite (proj2 (chk_dec _)) by lia. reflexivity.
Qed.
Lemma im_add_overflow m x y : 1 <= m <= INT_MAX -> 0 <= x < m -> 0 <= y < m ->
  (x + y <= INT_MAX -> im_add (mkim x m) (mkim y m) = Ok (mkim ((x + y) mod m) m)) /\
  (INT_MAX < x + y -> im_add (mkim x m) (mkim y m) = UB).
Proof.
  intros Hm Hx Hy. unfold im_add. rewrite check_moduli_ok by (cbn; lia). rewrite bind_ok. cbn [residue modulus].
  unfold iadd. split; intros H1.
  - rewrite chk_ok, bind_ok by (unfold INT_MIN, INT_MAX in *; lia). apply im_make_ok; lia.
  - rewrite (proj2 (chk_dec _)) by lia. reflexivity.
Qed.

Lemma im_sub_int_ok m x v : 1 <= m <= MAXM -> 0 <= x < m -> - (INT_MAX - 2 * MAXM) <= v <= INT_MAX ->
  im_sub_int (mkim x m) v = Ok (mkim ((x - v) mod m) m).
Proof.
  intros Hm Hx Hv. unfold im_sub_int. cbn [residue modulus]. unfold iadd, isub.
  rewrite chk_ok, bind_ok by (unfold MAXM, INT_MIN, INT_MAX in *; lia).
  rewrite chk_ok, bind_ok by (unfold MAXM, INT_MIN, INT_MAX in *; lia).
  rewrite im_make_ok by (unfold MAXM, INT_MIN, INT_MAX in *; lia).
  do 2 f_equal. replace (m + x - v) with (x - v + 1 * m) by lia. apply Z.mod_add. lia.
Qed.
Lemma im_mul_int_ok m x v : 1 <= m <= INT_MAX -> 0 <= x < m -> Z.abs (x * v) <= INT_MAX ->
  im_mul_int (mkim x m) v = Ok (mkim ((x * v) mod m) m).
Proof.
  intros Hm Hx Hv. unfold im_mul_int. cbn [residue modulus]. unfold imul.
  rewrite chk_abs, bind_ok by exact Hv. apply im_make_ok; assumption.
Qed.
Lemma im_add_int_ok' m x v : 1 <= m <= MAXM -> 0 <= x < m -> INT_MIN < v <= INT_MAX - MAXM ->
  im_add_int (mkim x m) v = Ok (mkim ((x + v) mod m) m).
Proof.
  intros Hm Hx Hv. destruct (im_add_int_ok m Hm x v Hx) as [H|[_ H]]; [unfold MAXM, INT_MIN, INT_MAX in *; lia|exact H|lia].
Qed.

Lemma im_exp_ok c m x e : 1 <= m <= MAXM -> 0 <= x < m -> 0 < e <= INT_MAX -> im_exp c (mkim x m) e = Ok (mkim (x ^ e mod m) m).
Proof. intros. unfold im_exp. apply im_exp_gen_pos; assumption. Qed.
Lemma im_exp_0 c m x : 1 <= m <= MAXM -> 0 <= x < m -> im_exp c (mkim x m) 0 = if x =? 0 then Exn else Ok (mkim (1 mod m) m).
Proof. intros. unfold im_exp. apply im_exp_gen_0; assumption. Qed.
Lemma im_exp_zero_neg c m e : 1 <= m <= MAXM -> e < 0 -> im_exp c (mkim 0 m) e = Exn.
Proof.
  intros Hm He. unfold im_exp, im_exp_gen. rewrite check_modulus_ok by (cbn; lia). rewrite bind_ok. cbn [modulus residue].
  rewrite im_zero_ok, bind_ok, im_one_ok, bind_ok, im_eqb_ok, bind_ok by exact Hm.
  replace (e =? 0) with false by lia. replace (e <? 0) with true by lia. reflexivity.
Qed.
Lemma im_exp_int_min c m x : 2 <= m <= MAXM -> 0 < x < m -> im_exp c (mkim x m) INT_MIN = UB.
Proof.
  intros Hm Hx. unfold im_exp, im_exp_gen. rewrite check_modulus_ok by (cbn; lia). rewrite bind_ok. cbn [modulus residue].
  rewrite im_zero_ok, bind_ok, im_one_ok, bind_ok, im_eqb_ok, bind_ok by lia.
  replace (x =? 0) with false by lia. reflexivity.
Qed.

Lemma mixed_all c a b : modulus a <> modulus b ->
  im_add a b = Exn /\ im_sub a b = Exn /\ im_mul a b = Exn /\ im_div c a b = Exn /\ im_mod c a b = Exn /\
  im_ltb a b = Exn /\ im_leb a b = Exn /\ im_gtb a b = Exn /\ im_geb a b = Exn.
Proof.
  intros H. unfold im_add, im_sub, im_mul, im_div, im_mod, im_ltb, im_leb, im_gtb, im_geb.
  rewrite check_moduli_mixed by exact H. repeat split.
Qed.
Lemma eqb_spec a b : 0 < modulus a -> 0 < modulus b -> exists t, im_eqb a b = Ok t /\ (t = true <-> a = b).
Proof.
  intros Ha Hb. unfold im_eqb. rewrite !check_modulus_ok by assumption. rewrite !bind_ok. eexists; split; [reflexivity|].
  destruct a as [r m], b as [r' m']. cbn [residue modulus].
  split; [intros H; f_equal; lia|intros [= -> ->]; lia].
Qed.
Lemma order_spec a b : 0 < modulus a -> modulus a = modulus b ->
  im_ltb a b = Ok (residue a <? residue b) /\ im_leb a b = Ok (residue a <=? residue b) /\
  im_gtb a b = Ok (residue b <? residue a) /\ im_geb a b = Ok (residue b <=? residue a).
Proof.
  intros H1 H2. unfold im_ltb, im_leb, im_gtb, im_geb. rewrite check_moduli_ok by assumption. rewrite !bind_ok.
  repeat split; f_equal; lia.
Qed.
Lemma im_make_reject r m : m <= 0 -> im_make r m = Exn.
Proof. intros H. unfold im_make. replace (m <=? 0) with true by lia. reflexivity. Qed.
Lemma im_recip_indep c1 c2 m x : cache_valid c1 -> cache_valid c2 -> 1 <= m <= INT_MAX ->
  im_recip c1 (mkim x m) = im_recip c2 (mkim x m).
Proof.
  intros H1 H2 Hm. unfold im_recip. rewrite check_modulus_ok by (cbn; lia). rewrite !bind_ok. cbn [modulus residue].
  destruct (m =? 2); [reflexivity|].
  destruct (cache_get_ok c1 m H1 Hm) as (p1 & E1 & P1 & _). destruct (cache_get_ok c2 m H2 Hm) as (p2 & E2 & P2 & _).
  rewrite E1, E2, !bind_ok. cbn [snd]. congruence.
Qed.
Lemma maxm_int m : 1 <= m <= MAXM -> 1 <= m <= INT_MAX.
Proof. unfold MAXM, INT_MAX. lia. Qed.
