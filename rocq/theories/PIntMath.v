(* Proofs about MIntMath. *)
From Verif Require Import Base MIntMath.
From Coq Require Import Znumtheory.
Open Scope Z_scope.

Lemma chk_abs z : Z.abs z <= INT_MAX -> chk z = Ok z.
Proof. intros H. apply chk_ok. unfold INT_MIN, INT_MAX in *. lia. Qed.

Lemma imod_pos a b : 0 <= a <= INT_MAX -> 0 < b -> imod a b = Ok (a mod b).
Proof.
  intros Ha Hb. unfold imod. destruct (b =? 0) eqn:E; [lia|].
  assert (Hq : Z.quot a b = a / b) by (apply Z.quot_div_nonneg; lia).
  assert (0 <= a / b <= a) by (split; [apply Z.div_pos; lia | apply Z.div_le_upper_bound; nia]).
  unfold in_int, INT_MIN, INT_MAX in *. rewrite Hq.
  destruct (_ && _) eqn:E2; [|lia]. rewrite Z.rem_mod_nonneg by lia. reflexivity.
Qed.

Lemma idiv_pos a b : 0 <= a <= INT_MAX -> 0 < b -> idiv a b = Ok (a / b).
Proof.
  intros Ha Hb. unfold idiv. destruct (b =? 0) eqn:E; [lia|].
  rewrite Z.quot_div_nonneg by lia. apply chk_ok.
  assert (0 <= a / b <= a) by (split; [apply Z.div_pos; lia | apply Z.div_le_upper_bound; nia]).
  unfold INT_MIN, INT_MAX in *; lia.
Qed.

(* Symmetric range on which |x| is representable. *)
Lemma imod_sym a b : Z.abs a <= INT_MAX -> b <> 0 -> imod a b = Ok (Z.rem a b).
Proof.
  intros Ha Hb. unfold imod. destruct (b =? 0) eqn:E; [lia|].
  assert (Z.abs (Z.quot a b) <= Z.abs a).
  { rewrite <- Z.quot_abs by lia. rewrite Z.quot_div_nonneg by lia.
    apply Z.div_le_upper_bound; nia. }
  unfold in_int, INT_MIN, INT_MAX in *. destruct (_ && _) eqn:E2; [reflexivity|lia].
Qed.
Lemma idiv_sym a b : Z.abs a <= INT_MAX -> b <> 0 -> idiv a b = Ok (Z.quot a b).
Proof.
  intros Ha Hb. unfold idiv. destruct (b =? 0) eqn:E; [lia|].
  assert (Z.abs (Z.quot a b) <= Z.abs a).
  { rewrite <- Z.quot_abs by lia. rewrite Z.quot_div_nonneg by lia.
    apply Z.div_le_upper_bound; nia. }
  apply chk_ok. unfold INT_MIN, INT_MAX in *. lia.
Qed.

(* ---------------------------------------------------------------- gcd *)
Definition gcd_mu (s : Z * Z) : nat :=
  let '(a, b) := s in Z.to_nat (Z.log2 (a * b) + (if a <? b then 1 else 0)).

Lemma gcd_mu_dec a b : 0 < a -> 0 < b -> a mod b <> 0 -> Nat.lt (gcd_mu (b, a mod b)) (gcd_mu (a, b)).
Proof.
  intros Ha Hb Hr. unfold gcd_mu.
  pose proof (Z.mod_pos_bound a b Hb) as Hm.
  set (r := a mod b) in *.
  destruct (b <? r) eqn:E1; [lia|].
  destruct (a <? b) eqn:E2.
  - assert (r = a) by (unfold r; apply Z.mod_small; lia).
    rewrite H. rewrite (Z.mul_comm b a). pose proof (Z.log2_nonneg (a*b)). lia.
  - assert (Hle : 2 * (b * r) <= a * b).
    { assert (r <= a - b). { unfold r. rewrite Z.mod_eq by lia. assert (1 <= a / b) by (apply Z.div_le_lower_bound; lia). nia. }
      nia. }
    assert (Hlog : Z.log2 (2 * (b*r)) <= Z.log2 (a*b)) by (apply Z.log2_le_mono; exact Hle).
    rewrite Z.log2_double in Hlog by nia. pose proof (Z.log2_nonneg (b*r)). lia.
Qed.

Lemma gcd_loop_ok a b :
  0 < a <= INT_MAX -> 0 < b <= INT_MAX ->
  loop (gcd_fuel a b) gcd_step (a, b) = Ok (Z.gcd a b).
Proof.
  intros Ha Hb.
  destruct (loop_total gcd_step
    (fun s => let '(x, y) := s in 0 < x <= INT_MAX /\ 0 < y <= INT_MAX /\ Z.gcd x y = Z.gcd a b)
    gcd_mu (fun r => r = Z.gcd a b)) with (fuel := gcd_fuel a b) (s := (a, b)) as [r [Hr He]].
  - intros [x y] [Hx [Hy Hg]]. unfold gcd_step. rewrite imod_pos, bind_ok by lia.
    destruct (x mod y =? 0) eqn:E.
    + right. exists y; split; [reflexivity|]. rewrite <- Hg.
      symmetry. rewrite Z.gcd_comm. rewrite <- Z.gcd_mod by lia.
      replace (x mod y) with 0 by lia. simpl. lia.
    + left. exists (y, x mod y). split; [reflexivity|]. split.
      * pose proof (Z.mod_pos_bound x y). split; [lia|]. split; [lia|].
        rewrite <- Hg. rewrite Z.gcd_comm. rewrite Z.gcd_mod by lia. apply Z.gcd_comm.
      * apply gcd_mu_dec; lia.
  - repeat split; lia.
  - unfold gcd_mu, gcd_fuel. rewrite !Z.abs_eq by lia. pose proof (Z.log2_nonneg (a*b)). destruct (a <? b); lia.
  - rewrite Hr, He. reflexivity.
Qed.

Lemma int_gcd_nonzero a b : a <> 0 -> b <> 0 -> Z.abs a <= INT_MAX -> Z.abs b <= INT_MAX ->
  int_gcd a b = Ok (Z.gcd a b).
Proof.
  intros Ha Hb Ha' Hb'. unfold int_gcd.
  destruct (a =? 0) eqn:E1; [lia|]. destruct (b =? 0) eqn:E2; [lia|].
  assert (H1 : (if a <? 0 then ineg a else Ok a) = Ok (Z.abs a)).
  { destruct (a <? 0) eqn:E3; [unfold ineg; rewrite chk_ok by (unfold INT_MIN, INT_MAX in *; lia)|]; f_equal; lia. }
  assert (H2 : (if b <? 0 then ineg b else Ok b) = Ok (Z.abs b)).
  { destruct (b <? 0) eqn:E3; [unfold ineg; rewrite chk_ok by (unfold INT_MIN, INT_MAX in *; lia)|]; f_equal; lia. }
  rewrite H1, bind_ok, H2, bind_ok.
  rewrite gcd_loop_ok by lia. rewrite Z.gcd_abs_l, Z.gcd_abs_r. reflexivity.
Qed.

(* General form: up to sign. *)
Lemma int_gcd_abs a b : Z.abs a <= INT_MAX -> Z.abs b <= INT_MAX ->
  exists g, int_gcd a b = Ok g /\ Z.abs g = Z.gcd a b.
Proof.
  intros Ha Hb. destruct (Z.eq_dec a 0) as [->|Hza].
  - exists b; split; reflexivity.
  - destruct (Z.eq_dec b 0) as [->|Hzb].
    + exists a; split; [|rewrite Z.gcd_0_r; reflexivity].
      unfold int_gcd. destruct (a =? 0) eqn:E; [lia|]. reflexivity.
    + exists (Z.gcd a b); split; [apply int_gcd_nonzero; auto|]. pose proof (Z.gcd_nonneg a b); lia.
Qed.

Lemma int_gcd_nonneg a b : 0 <= a <= INT_MAX -> 0 <= b <= INT_MAX -> int_gcd a b = Ok (Z.gcd a b).
Proof.
  intros Ha Hb. destruct (int_gcd_abs a b) as [g [E H]]; try lia.
  rewrite E. f_equal. rewrite <- H. symmetry. apply Z.abs_eq.
  unfold int_gcd in E. destruct (a =? 0) eqn:E1.
  - inversion E; lia.
  - destruct (b =? 0) eqn:E2; [inversion E; lia|].
    destruct (a <? 0) eqn:E3; [lia|]. destruct (b <? 0) eqn:E4; [lia|].
    cbn [bind] in E. rewrite gcd_loop_ok in E by lia. inversion E. apply Z.gcd_nonneg.
Qed.

Lemma int_gcd_spec a b : Z.abs a <= INT_MAX -> Z.abs b <= INT_MAX ->
  exists g, int_gcd a b = Ok g /\
    (g | a) /\ (g | b) /\ (forall d, (d | a) -> (d | b) -> (d | g)) /\
    (g = 0 <-> a = 0 /\ b = 0) /\
    ((a <> 0 /\ b <> 0) \/ (0 <= a /\ 0 <= b) -> 0 <= g).
Proof.
  intros Ha Hb. destruct (int_gcd_abs a b Ha Hb) as [g [E H]]. exists g. split; [exact E|].
  assert (Hd : forall d, (d | Z.abs g) <-> (d | g)) by (intros; split; [apply Z.divide_abs_r|apply Z.divide_abs_r]).
  split; [apply Z.divide_abs_l; rewrite H; apply Z.gcd_divide_l|].
  split; [apply Z.divide_abs_l; rewrite H; apply Z.gcd_divide_r|].
  split; [intros d H1 H2; apply Hd; rewrite H; apply Z.gcd_greatest; assumption|].
  split.
  - split.
    + intros ->. simpl in H. symmetry in H. split; [eapply Z.gcd_eq_0_l|eapply Z.gcd_eq_0_r]; eassumption.
    + intros [-> ->]. simpl in H. lia.
  - intros [[H1 H2]|[H1 H2]].
    + rewrite int_gcd_nonzero in E by assumption. inversion E. apply Z.gcd_nonneg.
    + rewrite int_gcd_nonneg in E by lia. inversion E. apply Z.gcd_nonneg.
Qed.

(* ---------------------------------------------------------------- ext gcd *)
Definition eg_mu (s : Z * Z * Z * Z * Z * Z) : nat :=
  let '(_, _, _, _, c, d) := s in gcd_mu (Z.abs c, Z.abs d).

Definition eg_inv (a b : Z) (s : Z * Z * Z * Z * Z * Z) : Prop :=
  let '(mp, m, np, n, c, d) := s in
  d <> 0 /\ Z.abs c <= INT_MAX /\ Z.abs d <= INT_MAX /\
  a * mp + b * np = c /\ a * m + b * n = d /\
  Z.abs m * Z.abs c + Z.abs mp * Z.abs d <= Z.abs b /\
  Z.abs n * Z.abs c + Z.abs np * Z.abs d <= Z.abs a /\
  Z.gcd c d = Z.gcd a b /\
  (c <> 0 \/ (m = 0 /\ n = 1)).

Lemma cofactor_step x xp c d q r B :
  Z.abs c = Z.abs q * Z.abs d + Z.abs r -> d <> 0 ->
  Z.abs x * Z.abs c + Z.abs xp * Z.abs d <= B ->
  Z.abs (xp - q * x) * Z.abs d + Z.abs x * Z.abs r <= B /\
  Z.abs (q * x) <= B /\ Z.abs (xp - q * x) <= B.
Proof.
  intros Hc Hd HB.
  assert (H1 : Z.abs (xp - q*x) <= Z.abs xp + Z.abs q * Z.abs x) by (rewrite <- Z.abs_mul; lia).
  assert (H2 : Z.abs (q*x) = Z.abs q * Z.abs x) by apply Z.abs_mul.
  assert (HD : 1 <= Z.abs d) by lia.
  rewrite Hc in HB. rewrite H2.
  pose proof (Z.abs_nonneg q) as Nq; pose proof (Z.abs_nonneg x) as Nx;
  pose proof (Z.abs_nonneg xp) as Nxp; pose proof (Z.abs_nonneg r) as Nr.
  pose proof (Z.abs_nonneg (xp - q*x)) as Ny.
  generalize dependent (Z.abs (xp - q*x)); intros Y H1 NY. clear H2 Hc Hd.
  generalize dependent (Z.abs q); generalize dependent (Z.abs x); generalize dependent (Z.abs xp);
  generalize dependent (Z.abs d); generalize dependent (Z.abs r).
  clear x xp c d q r. intros R NR D HD XP NXP X NX Q NQ HY HB.
  assert (E1 : Y * D <= (XP + Q * X) * D) by (apply Z.mul_le_mono_nonneg_r; lia).
  assert (E2 : (XP + Q*X)*D + X*R = X*(Q*D+R)+XP*D) by ring.
  assert (E3 : 0 <= X * R) by (apply Z.mul_nonneg_nonneg; lia).
  assert (E4 : Q * X * 1 <= Q * X * D) by (apply Z.mul_le_mono_nonneg_l; [apply Z.mul_nonneg_nonneg|]; lia).
  assert (E5 : 0 <= XP * D) by (apply Z.mul_nonneg_nonneg; lia).
  assert (E6 : Y * 1 <= Y * D) by (apply Z.mul_le_mono_nonneg_l; lia).
  repeat split; lia.
Qed.

Lemma quot_rem_abs c d : d <> 0 -> Z.abs c = Z.abs (Z.quot c d) * Z.abs d + Z.abs (Z.rem c d).
Proof.
  intros Hd. rewrite <- Z.quot_abs, <- Z.rem_abs by lia.
  rewrite Z.mul_comm. apply Z.quot_rem'.
Qed.

Lemma int_ext_gcd_gen a b : b <> 0 -> Z.abs a <= INT_MAX -> Z.abs b <= INT_MAX ->
  exists g m n, int_ext_gcd a b = Ok (g, m, n) /\ a * m + b * n = g /\ Z.abs g = Z.gcd a b
    /\ Z.abs m <= Z.abs b /\ Z.abs n <= Z.max 1 (Z.abs a).
Proof.
  intros Hb Ha' Hb'. unfold int_ext_gcd.
  destruct (loop_total ext_gcd_step (eg_inv a b) eg_mu
    (fun r => let '(g, m, n) := r in a * m + b * n = g /\ Z.abs g = Z.gcd a b
      /\ Z.abs m <= Z.abs b /\ Z.abs n <= Z.max 1 (Z.abs a)))
    with (fuel := gcd_fuel a b) (s := (1, 0, 0, 1, a, b)) as [r [Hr He]].
  - intros [[[[[mp m] np] n] c] d] (Hd & Hc & Hdm & H1 & H2 & Bm & Bn & Hg & Hz).
    unfold ext_gcd_step. rewrite idiv_sym, imod_sym by assumption. rewrite !bind_ok.
    pose proof (quot_rem_abs c d Hd) as Hqr.
    pose proof (Z.quot_rem' c d) as Hqr'.
    set (q := Z.quot c d) in *. set (r := Z.rem c d) in *.
    destruct (cofactor_step _ _ _ _ _ _ _ Hqr Hd Bm) as (Sm1 & Sm2 & Sm3).
    destruct (cofactor_step _ _ _ _ _ _ _ Hqr Hd Bn) as (Sn1 & Sn2 & Sn3).
    destruct (r =? 0) eqn:E.
    + right. exists (d, m, n). split; [reflexivity|]. split; [exact H2|]. split.
      * rewrite <- Hg. assert (Hr0 : r = 0) by (apply Z.eqb_eq; exact E). rewrite Hr0 in Hqr'.
        rewrite Hqr'. replace (d * q + 0) with (q * d) by ring.
        rewrite Z.gcd_comm. symmetry. rewrite <- Z.gcd_abs_l, <- Z.gcd_abs_r, Z.abs_mul, (Z.mul_comm (Z.abs q)).
        rewrite Z.gcd_mul_diag_l; [reflexivity|apply Z.abs_nonneg].
      * split.
        -- destruct Hz as [Hcz|[-> ->]]; [|clear; lia].
           clear -Bm Hcz. pose proof (Z.abs_nonneg m). pose proof (Z.abs_nonneg mp). pose proof (Z.abs_nonneg d).
           assert (1 <= Z.abs c) by lia. clear Hcz. generalize dependent (Z.abs c). intros. nia.
        -- destruct Hz as [Hcz|[-> ->]]; [|clear; lia].
           clear -Bn Hcz. pose proof (Z.abs_nonneg n). pose proof (Z.abs_nonneg np). pose proof (Z.abs_nonneg d).
           assert (1 <= Z.abs c) by lia. clear Hcz. apply Z.le_trans with (Z.abs a); [|apply Z.le_max_r].
           generalize dependent (Z.abs c). intros. nia.
    + left. exists (m, mp - q*m, n, np - q*n, d, r).
      unfold imul, isub.
      rewrite chk_abs by (eapply Z.le_trans; [exact Sm2|exact Hb']).
      rewrite bind_ok. rewrite chk_abs by (eapply Z.le_trans; [exact Sm3|exact Hb']).
      rewrite bind_ok. rewrite chk_abs by (eapply Z.le_trans; [exact Sn2|exact Ha']).
      rewrite bind_ok. rewrite chk_abs by (eapply Z.le_trans; [exact Sn3|exact Ha']).
      rewrite bind_ok. split; [reflexivity|].
      assert (Hrz : r <> 0) by (apply Z.eqb_neq; exact E).
      assert (Hda : 0 < Z.abs d) by (apply Z.abs_pos; exact Hd).
      assert (Hra : Z.abs r = Z.abs c mod Z.abs d).
      { unfold r. rewrite <- Z.rem_abs by exact Hd. apply Z.rem_mod_nonneg; [apply Z.abs_nonneg|exact Hda]. }
      split.
      * assert (Z.abs r < Z.abs d) by (rewrite Hra; apply Z.mod_pos_bound; exact Hda).
        split; [exact Hrz|]. split; [exact Hdm|]. split; [clear -H Hdm; lia|]. split; [exact H2|].
        split. { replace (a * (mp - q*m) + b * (np - q*n)) with ((a*mp+b*np) - q*(a*m+b*n)) by ring. rewrite H1, H2. clear -Hqr'. lia. }
        split; [exact Sm1|]. split; [exact Sn1|]. split; [|left; exact Hd].
        rewrite <- Hg. rewrite <- (Z.gcd_abs_l d), <- (Z.gcd_abs_r _ r), Hra.
        rewrite (Z.gcd_comm (Z.abs d)), Z.gcd_mod by (clear -Hda; lia). rewrite Z.gcd_abs_l, Z.gcd_abs_r. apply Z.gcd_comm.
      * unfold eg_mu. rewrite Hra. apply gcd_mu_dec; [|exact Hda|].
        -- apply Z.abs_pos. intros Hc0. unfold r in Hrz. rewrite Hc0 in Hrz. rewrite Z.rem_0_l in Hrz by exact Hd. congruence.
        -- rewrite <- Hra. clear -Hrz. lia.
  - repeat split; try lia; cbn -[Z.mul]; lia.
  - unfold eg_mu, gcd_mu, gcd_fuel. pose proof (Z.log2_nonneg (Z.abs a * Z.abs b)). destruct (Z.abs a <? Z.abs b); lia.
  - destruct r as [[g m] n]. exists g, m, n. tauto.
Qed.

(* ---------------------------------------------------------------- lcm *)
Lemma int_lcm_pos a b : 0 < a <= INT_MAX -> 0 < b <= INT_MAX -> a * b <= INT_MAX ->
  int_lcm a b = Ok (Z.lcm a b).
Proof.
  intros Ha Hb Hab. unfold int_lcm, imul.
  rewrite chk_ok by (unfold INT_MIN, INT_MAX in *; nia).
  rewrite bind_ok, int_gcd_nonneg, bind_ok by lia.
  assert (Hg : 0 < Z.gcd a b).
  { pose proof (Z.gcd_nonneg a b). assert (Z.gcd a b <> 0) by (intros E; apply Z.gcd_eq_0_l in E; lia). lia. }
  rewrite idiv_pos by nia. f_equal. unfold Z.lcm.
  rewrite Z.divide_div_mul_exact by (try lia; apply Z.gcd_divide_r).
  rewrite Z.abs_eq; [reflexivity|]. apply Z.mul_nonneg_nonneg; [lia|]. apply Z.div_pos; lia.
Qed.

(* ---------------------------------------------------------------- power *)
Definition last_square (b e : Z) : Z := Z.abs b ^ (2 ^ (Z.log2 e + 1)).

Lemma log2_half e : 2 <= e -> Z.log2 e = Z.log2 (e / 2) + 1.
Proof.
  intros He. rewrite <- Z.div2_div. rewrite (Z.div2_odd e) at 1.
  assert (1 <= Z.div2 e) by (rewrite Z.div2_div; lia).
  destruct (Z.odd e); cbn [Z.b2z]; [rewrite Z.log2_succ_double|rewrite Z.add_0_r, Z.log2_double]; lia.
Qed.

Lemma last_square_half b e : 2 <= e -> last_square (b*b) (e/2) = last_square b e.
Proof.
  intros He. unfold last_square. rewrite (log2_half e He).
  pose proof (Z.log2_nonneg (e/2)).
  rewrite Z.abs_mul, <- Z.pow_2_r, <- Z.pow_mul_r by (try apply Z.pow_nonneg; lia).
  f_equal. rewrite <- Z.pow_succ_r by lia. f_equal; lia.
Qed.

Lemma square_le_last b e : 1 <= e -> Z.abs (b*b) <= last_square b e.
Proof.
  intros He. unfold last_square. rewrite Z.abs_mul, <- Z.pow_2_r.
  pose proof (Z.log2_nonneg e).
  assert (H2 : 2 <= 2 ^ (Z.log2 e + 1)).
  { change 2 with (2^1) at 1. apply Z.pow_le_mono_r; lia. }
  destruct (Z.eq_dec b 0) as [->|].
  - cbn [Z.abs]. rewrite Z.pow_0_l by lia. apply Z.pow_nonneg; lia.
  - apply Z.pow_le_mono_r; lia.
Qed.

Lemma pow_fits b e rv : 1 <= e -> Z.abs rv <= Z.max 1 (Z.abs b) -> (b = 0 -> Z.abs rv <= 1) ->
  Z.abs (rv * b) <= Z.max 1 (Z.abs (b * b)).
Proof.
  intros He H H0. rewrite !Z.abs_mul. pose proof (Z.abs_nonneg rv). pose proof (Z.abs_nonneg b).
  destruct (Z.eq_dec b 0) as [->|Hb]; [cbn [Z.abs]; lia|].
  assert (1 <= Z.abs b) by lia. rewrite Z.max_r in H by lia.
  apply Z.le_trans with (Z.abs b * Z.abs b); [|lia]. apply Z.mul_le_mono_nonneg_r; lia.
Qed.

Lemma sq_u32 e : 1 <= e <= INT_MAX -> u32 e / 2 = e / 2.
Proof. intros H. unfold u32, INT_MAX in *. rewrite Z.mod_small by lia. reflexivity. Qed.

Lemma power_loop_char fuel : forall e b2 rv,
  1 <= e <= INT_MAX -> Z.abs rv <= Z.max 1 (Z.abs b2) -> Z.log2 e + 1 < Z.of_nat fuel ->
  loop fuel power_step (e, b2, rv) =
  if last_square b2 e <=? INT_MAX then Ok (rv * b2 ^ e) else UB.
Proof.
  induction fuel as [|n IH]; intros e b2 rv He Hrv Hf; [pose proof (Z.log2_nonneg e); lia|].
  cbn [loop]. unfold power_step.
  replace (e =? 0) with false by lia.
  set (rv1 := if Z.odd e then rv * b2 else rv).
  assert (Hrv1 : Z.abs rv1 <= Z.max 1 (Z.abs (b2 * b2))).
  { unfold rv1; destruct (Z.odd e).
    - apply (pow_fits _ 1); [lia|exact Hrv|intros ->; cbn [Z.abs] in Hrv; lia].
    - rewrite Z.abs_mul. clear -Hrv. pose proof (Z.abs_nonneg b2). nia. }
  pose proof (square_le_last b2 e (proj1 He)) as Hsq.
  destruct (Z.leb_spec (Z.abs (b2*b2)) INT_MAX) as [Hfit|Hnofit].
  - assert (E1 : (if Z.odd e then imul rv b2 else Ok rv) = Ok rv1).
    { unfold rv1, imul; destruct (Z.odd e) eqn:Eo; [|reflexivity]. apply chk_abs.
      assert (E : rv1 = rv * b2) by (unfold rv1; try rewrite Eo; reflexivity). rewrite <- E.
      unfold INT_MAX in *; lia. }
    rewrite E1, bind_ok. unfold imul. rewrite chk_abs by exact Hfit. rewrite bind_ok.
    rewrite sq_u32 by exact He.
    destruct (Z.eq_dec e 1) as [->|He1].
    + destruct n as [|n]; [cbn in Hf; lia|]. cbn [loop]. unfold power_step. change (1/2 =? 0) with true.
      cbv iota. unfold rv1. change (Z.odd 1) with true. cbv iota.
      assert (E : last_square b2 1 = Z.abs (b2*b2)).
      { unfold last_square. change (2 ^ (Z.log2 1 + 1)) with 2. rewrite Z.abs_mul. apply Z.pow_2_r. }
      rewrite E. replace (Z.abs (b2*b2) <=? INT_MAX) with true by lia. rewrite Z.pow_1_r. reflexivity.
    + rewrite IH.
      * rewrite last_square_half by lia. destruct (last_square b2 e <=? INT_MAX); [|reflexivity].
        f_equal. rewrite <- Z.pow_2_r, <- Z.pow_mul_r by lia.
        unfold rv1. rewrite <- Z.div2_div. rewrite (Z.div2_odd e) at 3.
        destruct (Z.odd e); cbn [Z.b2z].
        -- rewrite Z.pow_add_r, Z.pow_1_r by (rewrite ?Z.div2_div; lia). ring.
        -- rewrite Z.add_0_r. reflexivity.
      * lia.
      * exact Hrv1.
      * rewrite (log2_half e) in Hf by lia. lia.
  - replace (last_square b2 e <=? INT_MAX) with false by lia.
    destruct (if Z.odd e then imul rv b2 else Ok rv) as [z| | |] eqn:E.
    + rewrite bind_ok. unfold imul. rewrite chk_ub; [reflexivity|].
      rewrite Z.abs_eq in Hnofit by (apply Z.square_nonneg). unfold INT_MAX, INT_MIN in *; lia.
    + destruct (Z.odd e); unfold imul, chk in E; [destruct (in_int _)|]; discriminate.
    + reflexivity.
    + destruct (Z.odd e); unfold imul, chk in E; [destruct (in_int _)|]; discriminate.
Qed.

Lemma int_power_char b e : 0 <= e <= INT_MAX ->
  int_power b e = if e =? 0 then Ok 1
                  else if last_square b e <=? INT_MAX then Ok (b ^ e) else UB.
Proof.
  intros He. unfold int_power. destruct (e =? 0) eqn:E.
  - apply Z.eqb_eq in E; subst. reflexivity.
  - rewrite power_loop_char.
    + destruct (_ <=? _); [rewrite Z.mul_1_l|]; reflexivity.
    + lia.
    + change (Z.abs 1) with 1. lia.
    + assert (Z.log2 e <= Z.log2 INT_MAX) by (apply Z.log2_le_mono; lia).
      change (Z.log2 INT_MAX) with 30 in *. lia.
Qed.

(* ---------------------------------------------------------------- sqrt *)
Lemma half_log_loop_ok fuel : forall n h, 0 <= n -> 0 <= h -> n < 4 ^ (Z.of_nat fuel - 1) -> (1 <= fuel)%nat ->
  exists k, half_log_loop fuel n h = Ok (h + k) /\ 0 <= k /\ n < 4 ^ k /\ (0 < n -> 4 ^ (k - 1) <= n /\ 1 <= k).
Proof.
  induction fuel as [|f IH]; intros n h Hn Hh Hb Hf; [lia|].
  cbn [half_log_loop]. destruct (n =? 0) eqn:E.
  - exists 0. rewrite Z.add_0_r. split; [reflexivity|]. split; [lia|]. change (4^0) with 1. split; lia.
  - destruct f as [|f].
    { change (Z.of_nat 1 - 1) with 0 in Hb. change (4^0) with 1 in Hb. lia. }
    destruct (IH (n/4) (h+1)) as (k & Ek & Hk & Hlt & Hge).
    + apply Z.div_pos; lia.
    + lia.
    + replace (Z.of_nat (S (S f)) - 1) with (Z.succ (Z.of_nat (S f) - 1)) in Hb by lia.
      rewrite Z.pow_succ_r in Hb by lia. apply Z.div_lt_upper_bound; lia.
    + lia.
    + exists (k+1). split; [rewrite Ek; f_equal; lia|]. split; [lia|].
      assert (Hp : 4 ^ (k+1) = 4 * 4^k) by (rewrite Z.pow_add_r by lia; lia).
      split; [rewrite Hp; clear -Hlt; lia|]. intros _. split; [|lia].
      replace (k+1-1) with k by lia.
      destruct (Z.eq_dec (n/4) 0) as [H0|H0].
      * assert (k = 0).
        { destruct (Z.eq_dec k 0); [assumption|].
          exfalso. assert (h + 1 + k = h + 1) as Hc; [|lia].
          cbn [half_log_loop] in Ek. rewrite H0 in Ek. cbn in Ek. inversion Ek. lia. }
        subst. change (4^0) with 1. lia.
      * destruct Hge as [Hge Hk1]; [assert (0 <= n/4) by (apply Z.div_pos; lia); lia|].
        replace (4^k) with (4 * 4^(k-1)) by (rewrite <- Z.pow_succ_r by lia; f_equal; lia).
        clear -Hge. lia.
Qed.

Definition sqrt_inv (n : Z) (s : Z * Z * Z) : Prop :=
  let '(lo, up, diff) := s in
  1 <= lo /\ up <= 65536 /\ lo < up /\ lo * lo <= n < up * up /\
  ((exists j, 0 <= j /\ diff = 2 ^ j /\ up = lo + diff) \/
   (diff = 0 /\ up = lo + 1 /\ lo * lo < n)).

Definition sqrt_post (want_ceil : bool) (n r : Z) : Prop :=
  0 <= r /\
  if want_ceil then n <= r * r /\ forall x, 0 <= x -> n <= x * x -> r <= x
  else r * r <= n < (r+1)*(r+1).

Lemma int_sqrt_ok c n : 0 <= n <= INT_MAX -> exists r, int_sqrt c n = Ok r /\ sqrt_post c n r.
Proof.
  intros Hn. unfold int_sqrt. replace (n <? 0) with false by lia.
  destruct (n =? 0) eqn:E0.
  { exists 0. split; [reflexivity|]. apply Z.eqb_eq in E0; subst. split; [lia|].
    destruct c; split; try lia. }
  destruct (half_log_loop_ok 20 n 0) as (k & Ek & Hk & Hlt & Hge); try lia.
  { change (4 ^ (Z.of_nat 20 - 1)) with 274877906944. unfold INT_MAX in Hn; lia. }
  destruct Hge as [Hge Hk1]; [lia|].
  rewrite Ek, bind_ok. rewrite Z.add_0_l.
  assert (Hk16 : k - 1 <= 15).
  { destruct (Z.le_gt_cases (k-1) 15); [assumption|].
    assert (4^16 <= 4^(k-1)) by (apply Z.pow_le_mono_r; lia).
    change (4^16) with 4294967296 in *. unfold INT_MAX in Hn; lia. }
  set (h := k - 1) in *.
  assert (Hlo : 1 <= 2^h <= 32768).
  { split; [change 1 with (2^0); apply Z.pow_le_mono_r; lia|].
    change 32768 with (2^15); apply Z.pow_le_mono_r; lia. }
  rewrite chk_ok by (unfold INT_MIN, INT_MAX; lia). rewrite bind_ok.
  assert (Hu : u32 (2^h * 2) = 2^h * 2) by (unfold u32; apply Z.mod_small; lia).
  rewrite Hu. assert (Hdf : u32 (2^h*2 - 2^h) = 2^h) by (unfold u32; rewrite Z.mod_small; lia).
  rewrite Hdf.
  assert (H4 : 4^h = 2^h * 2^h) by (change 4 with (2*2); apply Z.pow_mul_l).
  assert (H4k : 4^k = 4 * 4^h) by (unfold h; rewrite <- Z.pow_succ_r by lia; f_equal; lia).
  apply (loop_total (sqrt_step c n) (sqrt_inv n)
     (fun s => let '(_, _, d) := s in if d =? 0 then 0%nat else Z.to_nat (Z.log2 d + 1)) (sqrt_post c n)).
  - intros [[lo up] diff] (H1 & H2 & H3 & H5 & HD). unfold sqrt_step.
    destruct HD as [(j & Hj & Hd & Hup)|(Hd & Hup & Hl)].
    + assert (Hdp : 0 < diff) by (rewrite Hd; apply Z.pow_pos_nonneg; lia).
      replace (diff >? 0) with true by lia.
      assert (Hm : u32 (lo + diff/2) = lo + diff / 2) by (unfold u32; apply Z.mod_small; lia).
      rewrite Hm.
      assert (Hms : u32 ((lo + diff/2)*(lo+diff/2)) = (lo + diff/2)*(lo+diff/2)).
      { unfold u32; apply Z.mod_small. assert (1 <= lo + diff/2 <= 65535) by lia.
        clear -H. generalize dependent (lo + diff/2). intros z Hz; nia. }
      rewrite Hms.
      assert (Hupb : u32 (up - diff/2) = up - diff/2) by (unfold u32; apply Z.mod_small; lia).
      rewrite Hupb.
      destruct (Z.eqb_spec ((lo + diff/2)*(lo+diff/2)) n) as [He|He].
      * right. eexists; split; [reflexivity|]. rewrite <- He. split; [lia|].
        assert (Hp : 1 <= lo + diff/2) by lia. clear -Hp. generalize dependent (lo + diff/2). intros z Hz.
        destruct c; [split; [lia|intros x Hx Hxx; nia]|nia].
      * left. set (half := diff/2) in *.
        assert (Hhalf : (j = 0 /\ half = 0 /\ diff = 1) \/ (1 <= j /\ half = 2^(j-1) /\ diff = 2 * half)).
        { destruct (Z.eq_dec j 0) as [->|Hj0].
          - left. change (2^0) with 1 in Hd. split; [reflexivity|]. split; [unfold half; rewrite Hd; reflexivity|exact Hd].
          - right. assert (Hd2 : diff = 2 * 2^(j-1)) by (rewrite Hd, <- Z.pow_succ_r by lia; f_equal; lia).
            assert (half = 2^(j-1)). { unfold half. rewrite Hd2, Z.mul_comm, Z.div_mul by lia. reflexivity. }
            split; [lia|]. split; [assumption|lia]. }
        assert (Hmu : Nat.lt (if half =? 0 then 0%nat else Z.to_nat (Z.log2 half + 1)) (if diff =? 0 then 0%nat else Z.to_nat (Z.log2 diff + 1))).
        { destruct Hhalf as [(_ & -> & ->)|(Hj1 & Hh & Hdd)]; [cbn; lia|].
          assert (0 < half) by (rewrite Hh; apply Z.pow_pos_nonneg; lia).
          replace (half =? 0) with false by lia. replace (diff =? 0) with false by lia.
          rewrite Hdd, Z.log2_double by lia. pose proof (Z.log2_nonneg half). lia. }
        destruct (Z.ltb_spec ((lo+half)*(lo+half)) n) as [Hl|Hl].
        -- eexists; split; [reflexivity|]. split; [|exact Hmu].
           destruct Hhalf as [(_ & Hh & Hdd)|(Hj1 & Hh & Hdd)].
           ++ rewrite Hh in *. rewrite Z.add_0_r in *. repeat split; try lia.
           ++ assert (0 < half) by (rewrite Hh; apply Z.pow_pos_nonneg; lia).
              repeat split; try lia. left. exists (j-1). repeat split; lia.
        -- eexists; split; [reflexivity|]. split; [|exact Hmu].
           destruct Hhalf as [(_ & Hh & Hdd)|(Hj1 & Hh & Hdd)].
           ++ rewrite Hh in *. rewrite Z.add_0_r in *. exfalso; lia.
           ++ assert (0 < half) by (rewrite Hh; apply Z.pow_pos_nonneg; lia).
              replace (up - half) with (lo + half) by lia.
              repeat split; try lia. left. exists (j-1). repeat split; lia.
    + right. subst diff. cbn [Z.gtb Z.compare]. eexists; split; [reflexivity|].
      unfold sqrt_post. subst up. destruct c.
      * split; [lia|]. split; [lia|]. intros x Hx Hxx. nia.
      * split; lia.
  - repeat split; try lia. left. exists h. repeat split; lia.
  - replace (2^h =? 0) with false by lia. rewrite Z.log2_pow2 by lia. lia.
Qed.

(* Positive arguments: the divisor returned is the non-negative gcd. *)
Definition eg_pos (s : Z * Z * Z * Z * Z * Z) : Prop :=
  let '(_, _, _, _, c, d) := s in 0 <= c /\ 0 < d.

Lemma ext_gcd_step_pos s : eg_pos s ->
  match ext_gcd_step s with
  | Ok (inl s') => eg_pos s'
  | Ok (inr (g, _, _)) => 0 < g
  | _ => True
  end.
Proof.
  destruct s as [[[[[mp m] np] n] c] d]. intros [Hc Hd]. unfold ext_gcd_step.
  destruct (idiv c d) as [q| | |]; cbn [bind]; try exact I.
  unfold imod. destruct (d =? 0); [exact I|]. destruct (in_int (Z.quot c d)); cbn [bind]; [|exact I].
  destruct (Z.rem c d =? 0) eqn:E; [exact Hd|].
  destruct (imul q m); cbn [bind]; try exact I. destruct (isub mp _); cbn [bind]; try exact I.
  destruct (imul q n); cbn [bind]; try exact I. destruct (isub np _); cbn [bind]; try exact I.
  pose proof (Z.rem_bound_pos c d Hc Hd). cbn. lia.
Qed.

Lemma ext_gcd_loop_pos fuel : forall s g m n, eg_pos s -> loop fuel ext_gcd_step s = Ok (g, m, n) -> 0 < g.
Proof.
  induction fuel as [|f IH]; intros s g m n Hs E; cbn [loop] in E; [discriminate|].
  pose proof (ext_gcd_step_pos s Hs) as H. destruct (ext_gcd_step s) as [[s'|[[g' m'] n']]| | |]; cbn [bind] in E; try discriminate.
  - eapply IH; eassumption.
  - injection E as -> -> ->. exact H.
Qed.

Lemma int_ext_gcd_pos a b : 0 < a <= INT_MAX -> 0 < b <= INT_MAX ->
  exists m n, int_ext_gcd a b = Ok (Z.gcd a b, m, n) /\ a * m + b * n = Z.gcd a b.
Proof.
  intros Ha Hb. destruct (int_ext_gcd_gen a b) as (g & m & n & E & Hbz & Hg & _); [lia..|].
  assert (Hp : 0 < g) by (eapply (ext_gcd_loop_pos _ (1, 0, 0, 1, a, b)); [split; lia|exact E]).
  assert (Heq : g = Z.gcd a b) by (clear -Hg Hp; lia). rewrite Heq in E, Hbz. exists m, n. split; assumption.
Qed.

Lemma int_ext_gcd_zero a : int_ext_gcd a 0 = UB.
Proof.
  unfold int_ext_gcd, gcd_fuel. replace (Z.abs a * Z.abs 0) with 0 by (cbn [Z.abs]; lia). reflexivity.
Qed.

Lemma int_power_iff b e : 1 <= e <= INT_MAX ->
  (Z.abs b ^ (2 ^ (Z.log2 e + 1)) <= INT_MAX -> int_power b e = Ok (b ^ e)) /\
  (INT_MAX < Z.abs b ^ (2 ^ (Z.log2 e + 1)) -> int_power b e = UB).
Proof.
  intros He. rewrite int_power_char by lia. replace (e =? 0) with false by lia. unfold last_square.
  generalize (Z.abs b ^ 2 ^ (Z.log2 e + 1)). intros x. split; intros H.
  - replace (x <=? INT_MAX) with true by lia. reflexivity.
  - replace (x <=? INT_MAX) with false by lia. reflexivity.
Qed.
