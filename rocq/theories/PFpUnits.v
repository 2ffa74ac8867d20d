(* The unit group of the integers modulo m. *)
From Verif Require Import Base MIntMath MIntmod MFac MUnits PIntMath PIntMath2 PIntmod PFac PFacInt PUnits.
From Coq Require Import Znumtheory Zpow_facts Permutation Sorted.
Open Scope Z_scope.
Ltac Zify.zify_post_hook ::= idtac.

Definition unit_mod (m x : Z) : Prop := 0 <= x < m /\ Z.gcd m x = 1.
(* k is the order of x modulo m *)
Definition order_mod (m x k : Z) : Prop :=
  0 < k /\ x ^ k mod m = 1 mod m /\ forall j, 0 < j < k -> x ^ j mod m <> 1 mod m.

Section M.
Variable m : Z.
Hypothesis Hm : 2 <= m <= MAXM.
Let P (x e : Z) : bool := x ^ e mod m =? 1 mod m.

Lemma P_0 x : P x 0 = true.
Proof. unfold P. rewrite Z.pow_0_r, Z.eqb_refl. reflexivity. Qed.
Lemma P_add x a b : 0 <= a -> 0 <= b -> P x a = true -> P x (a + b) = P x b.
Proof.
  intros Ha Hb H. unfold P in *. apply Z.eqb_eq in H. rewrite Z.pow_add_r by assumption.
  rewrite Z.mul_mod, H, <- Z.mul_mod, Z.mul_1_l by lia. reflexivity.
Qed.
Lemma least_order x k : least_exp (P x) k <-> order_mod m x k.
Proof.
  unfold least_exp, order_mod, P. split; intros (H1 & H2 & H3); (split; [exact H1|]).
  - split; [apply Z.eqb_eq; exact H2|]. intros j Hj. apply Z.eqb_neq. apply H3; exact Hj.
  - split; [apply Z.eqb_eq; exact H2|]. intros j Hj. apply Z.eqb_neq. apply H3; exact Hj.
Qed.

Lemma in_coprimes x : In x (coprimes m) <-> unit_mod m x.
Proof.
  unfold unit_mod. rewrite coprimes_in. split.
  - intros [H1 H2]. split; [lia|exact H2].
  - intros [H1 H2]. destruct (Z.eq_dec x 0) as [->|Hx]; [|split; [lia|exact H2]].
    rewrite Z.gcd_0_r in H2. lia.
Qed.
Lemma phi_val : exists phi, int_totient m = Ok phi /\ phi = Z.of_nat (length (coprimes m)) /\ 1 <= phi <= m - 1.
Proof.
  exists (Z.of_nat (length (coprimes m))). split; [apply int_totient_ok; unfold MAXM, INT_MAX in *; lia|]. split; [reflexivity|].
  split; [|apply coprimes_le; lia].
  assert (In 1 (coprimes m)) by (apply in_coprimes; split; [lia|apply Z.gcd_1_r]).
  destruct (coprimes m); [contradiction|cbn [length]; lia].
Qed.
Lemma unit_pow x e : unit_mod m x -> 0 <= e -> Z.gcd m (x ^ e) = 1.
Proof.
  intros [_ H] He. pattern e. apply natlike_ind; [apply Z.gcd_1_r| |exact He].
  intros n Hn IH. rewrite Z.pow_succ_r by exact Hn. apply gcd_1_mul; assumption.
Qed.
Lemma euler_P x phi : unit_mod m x -> phi = Z.of_nat (length (coprimes m)) -> P x phi = true.
Proof. intros [H1 H2] ->. unfold P. rewrite euler by (lia || assumption). rewrite Z.mod_small by lia. reflexivity. Qed.

Lemma fp_order_unit c x : unit_mod m x ->
  exists k, fp_order c (mkim x m) = Ok k /\ order_mod m x k /\ (k | Z.of_nat (length (coprimes m))).
Proof.
  intros Hx. pose proof Hx as [Hx1 Hx2]. unfold fp_order. cbn [residue modulus].
  destruct (int_gcd_spec x m) as (g & E & G1 & G2 & G3 & _ & G5); [unfold MAXM, INT_MAX in *; lia..|].
  rewrite E, bind_ok.
  assert (Hg : g = 1).
  { assert (D : (g | 1)) by (rewrite <- Hx2; apply Z.gcd_greatest; assumption).
    assert (0 <= g) by (apply G5; right; lia). apply Z.divide_1_r in D. lia. }
  subst g. replace (negb (1 =? 1)) with false by reflexivity.
  destruct phi_val as (phi & Ephi & Hphi & Bphi). rewrite Ephi, bind_ok.
  destruct (int_all_divisors phi) as (f & ds & E1 & E2 & E3 & E4); [lia|unfold MAXM, INT_MAX in *; nia|].
  rewrite E1, bind_ok, E2, bind_ok. rewrite im_one_ok by lia. rewrite bind_ok.
  destruct (order_loop_least (P x) (P_0 x) (P_add x) (im_exp c (mkim x m)) (fun ap => im_eqb ap (mkim (1 mod m) m)) ds phi)
    as (k & R1 & R2 & R3).
  - lia.
  - apply euler_P; assumption.
  - exact E3.
  - exact E4.
  - intros d Hd. exists (mkim (x ^ d mod m) m). split; [apply im_exp_ok; unfold MAXM, INT_MAX in *; lia|]. apply im_eqb_ok. lia.
  - exists k. split; [exact R1|]. split; [apply least_order; exact R2|]. rewrite <- Hphi. exact R3.
Qed.
Lemma fp_order_nonunit c x : 0 <= x < m -> Z.gcd m x <> 1 -> fp_order c (mkim x m) = Exn.
Proof.
  intros Hx Hn. unfold fp_order. cbn [residue modulus].
  destruct (int_gcd_spec x m) as (g & E & G1 & G2 & G3 & _); [unfold MAXM, INT_MAX in *; lia..|].
  rewrite E, bind_ok. destruct (Z.eqb_spec g 1) as [->|Hg]; [|reflexivity].
  exfalso. apply Hn. assert (D : (Z.gcd m x | 1)) by (apply G3; [apply Z.gcd_divide_r|apply Z.gcd_divide_l]).
  pose proof (Z.gcd_nonneg m x). apply Z.divide_1_r in D. lia.
Qed.

(* ---------------------------------------------------------------- generators *)
Definition generates (g : Z) : Prop := forall y, unit_mod m y -> exists k, 0 <= k /\ g ^ k mod m = y.

Lemma pow_cancel x a b : unit_mod m x -> 0 <= a -> 0 <= b -> x ^ (a + b) mod m = x ^ a mod m -> x ^ b mod m = 1 mod m.
Proof.
  intros Hx Ha Hb H. apply (cancel_mod m _ _ (x ^ a)); [lia|apply unit_pow; assumption|].
  rewrite Z.mul_1_l, <- H, <- Z.pow_add_r by assumption. f_equal. f_equal. lia.
Qed.
Lemma pow_order x k e : order_mod m x k -> 0 <= e -> x ^ e mod m = x ^ (e mod k) mod m.
Proof.
  intros Hk He. pose proof Hk as (K1 & K2 & _). rewrite (Z.div_mod e k) at 1 by lia.
  assert (Q : 0 <= e / k) by (apply Z.div_pos; lia). assert (B := Z.mod_pos_bound e k K1).
  rewrite Z.pow_add_r by nia.
  assert (E := P_mul (P x) (P_0 x) (P_add x) k (e / k) Q K1). unfold P in E.
  rewrite Z.mul_comm with (n := k).
  rewrite Z.mul_mod, (proj1 (Z.eqb_eq _ _) (E ltac:(lia))), <- Z.mul_mod, Z.mul_1_l by lia. reflexivity.
Qed.
Definition powers (x k : Z) : list Z := map (fun i => x ^ Z.of_nat i mod m) (seq 0 (Z.to_nat k)).
Lemma powers_NoDup x k : unit_mod m x -> order_mod m x k -> NoDup (powers x k).
Proof.
  intros Hx (K1 & K2 & K3). unfold powers.
  assert (G : forall l, NoDup l -> (forall i, In i l -> (i < Z.to_nat k)%nat) -> NoDup (map (fun i => x ^ Z.of_nat i mod m) l)).
  { induction l as [|i t IH]; intros Hn Hl; [constructor|]. inversion Hn; subst. cbn [map]. constructor.
    - intros Hin. apply in_map_iff in Hin as (j & Ej & Hj).
      assert (i <> j) by (intros ->; contradiction).
      assert (Hi := Hl i (or_introl eq_refl)). assert (Hj' := Hl j (or_intror Hj)).
      destruct (Nat.lt_trichotomy i j) as [L|[L|L]]; [|contradiction|].
      + refine (K3 (Z.of_nat j - Z.of_nat i) _ _); [clear - Hi Hj' L; lia|]. apply (pow_cancel x (Z.of_nat i)); [assumption|lia|lia|].
        replace (_ + _) with (Z.of_nat j) by lia. exact Ej.
      + refine (K3 (Z.of_nat i - Z.of_nat j) _ _); [clear - Hi Hj' L; lia|]. apply (pow_cancel x (Z.of_nat j)); [assumption|lia|lia|].
        replace (_ + _) with (Z.of_nat i) by lia. symmetry; exact Ej.
    - apply IH; [assumption|]. intros j Hj. apply Hl. right. exact Hj. }
  apply G; [apply seq_NoDup|]. intros i Hi. apply in_seq in Hi. lia.
Qed.
Lemma powers_In x k y : In y (powers x k) <-> exists i, 0 <= i < k /\ x ^ i mod m = y.
Proof.
  unfold powers. rewrite in_map_iff. split.
  - intros (i & E & H). apply in_seq in H. exists (Z.of_nat i). split; [lia|exact E].
  - intros (i & H & E). exists (Z.to_nat i). rewrite Z2Nat.id by lia. split; [exact E|]. apply in_seq. lia.
Qed.
Lemma pow_unit x e : unit_mod m x -> 0 <= e -> unit_mod m (x ^ e mod m).
Proof.
  intros Hx He. split; [apply Z.mod_pos_bound; lia|]. rewrite Z.gcd_comm, Z.gcd_mod by lia. apply unit_pow; assumption.
Qed.
Lemma order_generates x k : unit_mod m x -> order_mod m x k -> (k | Z.of_nat (length (coprimes m))) ->
  (k = Z.of_nat (length (coprimes m)) <-> generates x).
Proof.
  intros Hx Hk Hd. pose proof Hk as (K1 & _ & _).
  assert (Hincl : incl (powers x k) (coprimes m)).
  { intros y Hy. apply powers_In in Hy as (i & Hi & <-). apply in_coprimes. apply pow_unit; [exact Hx|lia]. }
  assert (Hlen : length (powers x k) = Z.to_nat k) by (unfold powers; rewrite map_length, seq_length; reflexivity).
  split.
  - intros E y Hy. apply in_coprimes in Hy.
    assert (Hinc2 : incl (coprimes m) (powers x k)).
    { apply NoDup_length_incl; [apply powers_NoDup; assumption| |exact Hincl]. rewrite Hlen. lia. }
    apply Hinc2 in Hy. apply powers_In in Hy as (i & Hi & <-). exists i. split; [lia|reflexivity].
  - intros Hg.
    assert (Hinc2 : incl (coprimes m) (powers x k)).
    { intros y Hy. apply in_coprimes in Hy. destruct (Hg y Hy) as (e & He & <-). apply powers_In.
      exists (e mod k). split; [apply Z.mod_pos_bound; lia|]. symmetry. apply pow_order; assumption. }
    assert (L := NoDup_incl_length (coprimes_nodup m) Hinc2). rewrite Hlen in L.
    assert (k <= Z.of_nat (length (coprimes m))); [|lia].
    apply Z.divide_pos_le; [|exact Hd]. destruct phi_val as (phi & _ & Hphi & Bphi). lia.
Qed.

Lemma fp_gen_loop_ok c phi : phi = Z.of_nat (length (coprimes m)) -> forall cnt gres, 1 <= gres -> gres + Z.of_nat cnt = m ->
  (forall x, unit_mod m x -> x < gres -> ~ generates x) ->
  (exists g, fp_gen_loop c cnt m phi gres = Ok (Some (mkim g m)) /\ unit_mod m g /\ generates g /\
     forall x, unit_mod m x -> generates x -> g <= x)
  \/ (fp_gen_loop c cnt m phi gres = Ok None /\ forall x, unit_mod m x -> ~ generates x).
Proof.
  intros Hphi. induction cnt as [|n IH]; intros gres Hg Hc Hlow.
  { right. split; [reflexivity|]. intros x Hx. apply Hlow; [exact Hx|]. destruct Hx; lia. }
  cbn [fp_gen_loop].
  destruct (int_gcd_spec gres m) as (d & E & G1 & G2 & G3 & _ & G5); [unfold MAXM, INT_MAX in *; lia..|].
  rewrite E, bind_ok.
  assert (Hd : d = 1 <-> Z.gcd m gres = 1).
  { split.
    - intros ->. assert (D : (Z.gcd m gres | 1)) by (apply G3; [apply Z.gcd_divide_r|apply Z.gcd_divide_l]).
      pose proof (Z.gcd_nonneg m gres). apply Z.divide_1_r in D. lia.
    - intros H. assert (D : (d | 1)) by (rewrite <- H; apply Z.gcd_greatest; assumption).
      assert (0 <= d) by (apply G5; right; lia). apply Z.divide_1_r in D. lia. }
  destruct (Z.eqb_spec d 1) as [E1|E1]; cbn [negb].
  - rewrite im_make_ok, bind_ok by (unfold MAXM, INT_MAX in *; lia). rewrite Z.mod_small by lia.
    assert (Hu : unit_mod m gres) by (split; [lia|apply Hd; exact E1]).
    destruct (fp_order_unit c gres Hu) as (k & Ek & Hk & Hdv). rewrite Ek, bind_ok.
    assert (Hiff := order_generates gres k Hu Hk Hdv).
    destruct (Z.eqb_spec k phi) as [Ep|Ep].
    + left. exists gres. split; [reflexivity|]. split; [exact Hu|]. split; [apply Hiff; lia|].
      intros x Hx Hgx. destruct (Z_lt_le_dec x gres) as [L|L]; [|exact L]. exfalso. exact (Hlow x Hx L Hgx).
    + apply IH; [lia|lia|]. intros x Hx Hl. destruct (Z.eq_dec x gres) as [->|Hne]; [|apply Hlow; [exact Hx|lia]].
      intros Hgen. apply Ep. rewrite Hphi. apply Hiff. exact Hgen.
  - apply IH; [lia|lia|]. intros x Hx Hl. destruct (Z.eq_dec x gres) as [->|Hne]; [|apply Hlow; [exact Hx|lia]].
    exfalso. apply E1. apply Hd. apply Hx.
Qed.
Lemma fp_find_generator_ok c :
  (exists g, fp_find_generator c m = Ok (Some (mkim g m)) /\ unit_mod m g /\ generates g /\
     forall x, unit_mod m x -> generates x -> g <= x)
  \/ (fp_find_generator c m = Ok None /\ forall x, unit_mod m x -> ~ generates x).
Proof.
  unfold fp_find_generator. destruct phi_val as (phi & -> & Hphi & _). rewrite bind_ok.
  apply fp_gen_loop_ok; [exact Hphi|lia|lia|]. intros x [Hx Hg] Hl. replace x with 0 in Hg by lia. rewrite Z.gcd_0_r in Hg. lia.
Qed.

(* ---------------------------------------------------------------- logarithms *)
Definition valid_im (x : intmod) : Prop := modulus x = m /\ 0 <= residue x < m.
Lemma valid_eqb x y : valid_im x -> valid_im y -> im_eqb x y = Ok (N.eqb (Z.to_N (residue x)) (Z.to_N (residue y))).
Proof.
  destruct x as [x mx], y as [y my]. intros [E1 H1] [E2 H2]. cbn [residue modulus] in *. subst.
  rewrite im_eqb_ok by lia. f_equal. destruct (Z.eqb_spec x y), (N.eqb_spec (Z.to_N x) (Z.to_N y)); lia.
Qed.
Lemma valid_ltb x y : valid_im x -> valid_im y -> im_ltb x y = Ok (N.ltb (Z.to_N (residue x)) (Z.to_N (residue y))).
Proof.
  destruct x as [x mx], y as [y my]. intros [E1 H1] [E2 H2]. cbn [residue modulus] in *. subst.
  unfold im_ltb. rewrite check_moduli_ok by (cbn; lia). rewrite bind_ok. cbn [residue].
  f_equal. destruct (Z.ltb_spec x y), (N.ltb_spec (Z.to_N x) (Z.to_N y)); lia.
Qed.
Lemma mul_table a s i : 0 <= s < m ->
  im_mul (mkim ((a * s ^ Z.of_nat i) mod m) m) (mkim s m) = Ok (mkim ((a * s ^ Z.of_nat (S i)) mod m) m).
Proof.
  intros Hs. rewrite im_mul_ok by (try apply Z.mod_pos_bound; lia). do 2 f_equal.
  rewrite Z.mul_mod_idemp_l by lia. f_equal. rewrite Nat2Z.inj_succ, Z.pow_succ_r by lia. ring.
Qed.

Lemma fp_log_nonunit c qs g a : cache_valid c -> 0 <= g < m -> Z.gcd m g <> 1 -> fp_log c qs (mkim g m) a = Exn.
Proof.
  intros Hc Hg Hn. unfold fp_log, int_sqrt_ceil. cbn [modulus].
  destruct (int_sqrt_ok true m) as (k & -> & _); [unfold MAXM, INT_MAX in *; lia|]. rewrite bind_ok.
  destruct (im_recip_ok c m g Hc Hm Hg) as [[H _]|[_ ->]]; [contradiction|]. reflexivity.
Qed.
Lemma fp_log_ok c qs g a : cache_valid c -> sorts im_ltb valid_im qs -> unit_mod m g -> 0 <= a < m ->
  (exists e, fp_log c qs (mkim g m) (mkim a m) = Ok e /\ 0 <= e < Z.of_nat (length (coprimes m)) /\ g ^ e mod m = a)
  \/ (fp_log c qs (mkim g m) (mkim a m) = Exn /\ forall e, 0 <= e -> g ^ e mod m <> a).
Proof.
  intros Hc Hqs Hu Ha. pose proof Hu as [Hg Hg1]. unfold fp_log, int_sqrt_ceil. cbn [modulus].
  destruct (int_sqrt_ok true m) as (k & -> & K0 & K1 & K2); [unfold MAXM, INT_MAX in *; lia|]. rewrite bind_ok.
  destruct (im_recip_ok c m g Hc Hm Hg) as [[_ (h & -> & Hh & Hgh)]|[H _]]; [|contradiction].
  rewrite bind_ok.
  assert (K3 : k <= 216) by (apply K2; [lia|unfold MAXM in *; lia]).
  assert (K4 : 0 < k) by nia.
  rewrite im_exp_ok by (unfold MAXM, INT_MAX in *; lia). rewrite bind_ok.
  assert (Hc' := im_recip_cache_valid c (mkim g m) Hc ltac:(cbn; unfold MAXM, INT_MAX in *; lia)).
  destruct (im_div_ok _ m g g Hc' Hm Hg Hg) as [[_ (one & -> & Ho & Ho1)]|[H _]]; [|contradiction].
  rewrite bind_ok.
  assert (E1 : one = 1 mod m).
  { rewrite <- (Z.mod_small one m) by exact Ho. apply (cancel_mod m _ _ g); [lia|exact Hg1|].
    rewrite Ho1, Z.mul_1_l, Z.mod_small by exact Hg. reflexivity. }
  set (gk := g ^ k mod m). assert (Hgk : 0 <= gk < m) by (apply Z.mod_pos_bound; lia).
  set (X := fun i : nat => mkim ((a * h ^ Z.of_nat i) mod m) m).
  set (Y := fun i : nat => mkim ((1 * gk ^ Z.of_nat i) mod m) m).
  assert (EX : mkim a m = X 0%nat). { unfold X. cbn [Z.of_nat]. rewrite Z.pow_0_r, Z.mul_1_r, Z.mod_small by lia. reflexivity. }
  assert (EY : mkim one m = Y 0%nat). { unfold Y. cbn [Z.of_nat]. rewrite Z.pow_0_r, Z.mul_1_r, E1. reflexivity. }
  rewrite EX, EY.
  assert (Hm0 : m <> 0) by (clear - Hm; lia).
  assert (key : forall i j : nat, Z.to_N (residue (X i)) = Z.to_N (residue (Y j)) <-> g ^ (Z.of_nat i + Z.of_nat j * k) mod m = a).
  { intros i j. unfold X, Y. cbn [residue].
    assert (Bx := Z.mod_pos_bound (a * h ^ Z.of_nat i) m ltac:(clear - Hm; lia)).
    assert (By := Z.mod_pos_bound (1 * gk ^ Z.of_nat j) m ltac:(clear - Hm; lia)).
    assert (Hi0 := Nat2Z.is_nonneg i). assert (Hj0 := Nat2Z.is_nonneg j).
    assert (Hjk : 0 <= Z.of_nat j * k) by (apply Z.mul_nonneg_nonneg; assumption).
    assert (Egk : (1 * gk ^ Z.of_nat j) mod m = g ^ (Z.of_nat j * k) mod m).
    { rewrite Z.mul_1_l. unfold gk. rewrite <- Zpower_mod by (clear - Hm; lia). rewrite <- Z.pow_mul_r by assumption.
      rewrite Z.mul_comm. reflexivity. }
    assert (Ehg : (h ^ Z.of_nat i * g ^ Z.of_nat i) mod m = 1 mod m).
    { rewrite <- Z.pow_mul_l, Zpower_mod by (clear - Hm; lia). rewrite (Z.mul_comm h g), Hgh, Z.pow_1_l by assumption. reflexivity. }
    assert (Hgi : Z.gcd m (g ^ Z.of_nat i) = 1) by (apply unit_pow; assumption).
    assert (Lhs : ((a * h ^ Z.of_nat i) * g ^ Z.of_nat i) mod m = a).
    { rewrite <- Z.mul_assoc. rewrite <- Z.mul_mod_idemp_r by exact Hm0. rewrite Ehg, Z.mul_mod_idemp_r by exact Hm0.
      rewrite Z.mul_1_r. apply Z.mod_small. exact Ha. }
    assert (Rhs : (g ^ (Z.of_nat j * k) * g ^ Z.of_nat i) mod m = g ^ (Z.of_nat i + Z.of_nat j * k) mod m).
    { rewrite <- Z.pow_add_r by assumption. rewrite Z.add_comm. reflexivity. }
    rewrite Egk in *. split.
    - intros H. apply Z2N.inj in H; [|apply Bx|apply By]. rewrite <- Rhs, <- Lhs.
      rewrite <- Z.mul_mod_idemp_l by exact Hm0. rewrite <- H. apply Z.mul_mod_idemp_l. exact Hm0.
    - intros H. f_equal. apply (cancel_mod m _ _ (g ^ Z.of_nat i)); [clear - Hm; lia|exact Hgi|]. rewrite Lhs, Rhs. symmetry; exact H. }
  destruct phi_val as (phi & Ephi & Hphi & Bphi).
  assert (L := log_search_ok im_mul im_eqb im_ltb valid_im (fun x => Z.to_N (residue x)) valid_eqb valid_ltb qs X Y (Z.to_nat k) (mkim h m) (mkim gk m) Hqs).
  rewrite Z2Nat.id in L by exact K0.
  destruct L as [(i & j & Hi & Hj & Hv & ->)|[-> Hv]].
  - clear - K4; lia.
  - change (2^31) with 2147483648. clear - K4 K3; nia.
  - intros i Hi. split; (split; [reflexivity|]); apply Z.mod_pos_bound; clear - Hm; lia.
  - intros i Hi. split; apply mul_table; assumption.
  - left. rewrite bind_ok, Ephi, bind_ok. apply key in Hv.
    assert (B0 : 0 <= Z.of_nat i + Z.of_nat j * k) by (clear - K0; nia).
    assert (B1 : Z.of_nat i + Z.of_nat j * k <= INT_MAX) by (unfold INT_MAX; clear - K0 K3 Hi Hj; nia).
    rewrite Nat2Z.inj_add, Nat2Z.inj_mul, Z2Nat.id by exact K0. set (e := _ + _) in *.
    rewrite imod_pos by (unfold MAXM, INT_MAX in *; clear - B0 B1 Bphi Hm; lia). eexists. split; [reflexivity|].
    rewrite <- Hphi. split; [apply Z.mod_pos_bound; clear - Bphi; lia|].
    assert (Ep := euler_P g phi Hu Hphi).
    assert (Q : 0 <= e / phi) by (apply Z.div_pos; clear - B0 Bphi; lia).
    assert (B := Z.mod_pos_bound e phi ltac:(clear - Bphi; lia)).
    assert (Em := P_mul (P g) (P_0 g) (P_add g) phi (e / phi) Q ltac:(clear - Bphi; lia) Ep). apply Z.eqb_eq in Em.
    rewrite <- Hv. rewrite (Z.div_mod e phi) at 2 by (clear - Bphi; lia).
    rewrite Z.pow_add_r by (clear - B Q Bphi; nia). rewrite <- Z.mul_mod_idemp_l by exact Hm0.
    rewrite (Z.mul_comm phi), Em, Z.mul_mod_idemp_l, Z.mul_1_l by exact Hm0. reflexivity.
  - right. split; [reflexivity|]. intros e He Hea.
    destruct (fp_order_unit c g Hu) as (o & _ & Ho2 & Hod). pose proof Ho2 as (O1 & _ & _).
    assert (Hop : o <= phi) by (rewrite Hphi; apply Z.divide_pos_le; [clear - Hphi Bphi; lia|exact Hod]).
    rewrite (pow_order g o e Ho2 He) in Hea. set (e0 := e mod o) in *.
    assert (B := Z.mod_pos_bound e o O1). fold e0 in B. clearbody e0.
    assert (B1 := Z.mod_pos_bound e0 k K4). assert (D1 : 0 <= e0 / k) by (apply Z.div_pos; [apply B|exact K4]).
    assert (D2 : e0 / k < k) by (apply Z.div_lt_upper_bound; [exact K4|clear - B Hop Bphi K1; lia]).
    apply (Hv (Z.to_nat (e0 mod k)) (Z.to_nat (e0 / k))); [clear - B1 K0; lia|clear - D1 D2; lia|]. apply key.
    rewrite !Z2Nat.id by (apply B1 || exact D1). rewrite <- Hea. f_equal. f_equal.
    rewrite (Z.div_mod e0 k) at 3 by (clear - K4; lia). ring.
Qed.
(* different moduli *)
Lemma fp_log_mixed c qs g a : cache_valid c -> 0 <= g < m -> modulus a <> m -> fp_log c qs (mkim g m) a = Exn.
Proof.
  intros Hc Hg Hne. destruct (Z.eq_dec (Z.gcd m g) 1) as [Hg1|Hn]; [|apply fp_log_nonunit; assumption].
  unfold fp_log, int_sqrt_ceil. cbn [modulus].
  destruct (int_sqrt_ok true m) as (k & -> & K0 & K1 & K2); [unfold MAXM, INT_MAX in *; lia|]. rewrite bind_ok.
  destruct (im_recip_ok c m g Hc Hm Hg) as [[_ (h & -> & Hh & Hgh)]|[H _]]; [|contradiction].
  rewrite bind_ok. assert (K3 : k <= 216) by (apply K2; [lia|unfold MAXM in *; lia]).
  assert (K4 : 1 < k) by nia.
  rewrite im_exp_ok by (unfold MAXM, INT_MAX in *; lia). rewrite bind_ok.
  assert (Hc' := im_recip_cache_valid c (mkim g m) Hc ltac:(cbn; unfold MAXM, INT_MAX in *; lia)).
  destruct (im_div_ok _ m g g Hc' Hm Hg Hg) as [[_ (one & -> & Ho & Ho1)]|[H _]]; [|contradiction].
  rewrite bind_ok. unfold log_search. destruct (Z.to_nat k) as [|[|n]] eqn:E; [lia|lia|].
  cbn [log_table log_table_from]. unfold im_mul at 1. rewrite check_moduli_mixed by exact Hne. reflexivity.
Qed.
End M.
Ltac Zify.zify_post_hook ::= Z.div_mod_to_equations.
