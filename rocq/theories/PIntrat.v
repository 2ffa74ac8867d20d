(* Proofs about MIntrat. *)
From Verif Require Import Base MIntMath MIntrat PIntMath.
From Coq Require Import Znumtheory QArith Qpower Lia.
Open Scope Z_scope.

Definition lowest (a : intrat) : Prop := 0 < denom a /\ Z.gcd (numer a) (denom a) = 1.
Definition toQ (a : intrat) : Q := Qmake (numer a) (Z.to_pos (denom a)).
Definition inr_ (z : Z) : Prop := Z.abs z <= INT_MAX.

Lemma gcd_pos_den n d : Z.abs n <= INT_MAX -> 0 < d <= INT_MAX -> int_gcd n d = Ok (Z.gcd n d).
Proof.
  intros Hn Hd. destruct (int_gcd_abs n d Hn ltac:(lia)) as (g & E & Hg).
  destruct (int_gcd_spec n d Hn ltac:(lia)) as (g' & E' & _ & _ & _ & _ & Hpos).
  rewrite E in E'. injection E' as <-. rewrite E. f_equal.
  assert (0 <= g) by (apply Hpos; destruct (Z.eq_dec n 0); [right|left]; lia). clear -Hg H. lia.
Qed.

Lemma simplify_ok n d : d <> 0 -> Z.abs n <= INT_MAX -> Z.abs d <= INT_MAX ->
  exists a, simplify n d = Ok a /\ lowest a /\ numer a * d = n * denom a /\ Z.abs (numer a) <= Z.abs n /\ denom a <= Z.abs d.
Proof.
  intros Hd0 Hn Hd. unfold simplify. replace (d =? 0) with false by lia.
  set (s := if d <? 0 then -1 else 1).
  assert (Hs : s = 1 \/ s = -1) by (unfold s; destruct (d <? 0); auto).
  assert (En : (if d <? 0 then ineg n else Ok n) = Ok (s * n)).
  { unfold s. destruct (d <? 0); [unfold ineg; rewrite chk_abs by lia|]; f_equal; lia. }
  assert (Ed : (if d <? 0 then ineg d else Ok d) = Ok (s * d)).
  { unfold s. destruct (d <? 0); [unfold ineg; rewrite chk_abs by lia|]; f_equal; lia. }
  rewrite En, bind_ok, Ed, bind_ok.
  assert (Hsd : 0 < s * d <= INT_MAX /\ s * d = Z.abs d) by (unfold s; destruct (d <? 0) eqn:E; lia).
  assert (Hsn : Z.abs (s * n) = Z.abs n) by lia.
  set (n1 := s * n) in *. set (d1 := s * d) in *.
  rewrite gcd_pos_den, bind_ok by lia.
  assert (Hg : 0 < Z.gcd n1 d1).
  { pose proof (Z.gcd_nonneg n1 d1). assert (Z.gcd n1 d1 <> 0); [|lia]. intros E. apply Z.gcd_eq_0_r in E. lia. }
  set (g := Z.gcd n1 d1) in *.
  destruct (Z.gcd_divide_l n1 d1) as [x Hx]. destruct (Z.gcd_divide_r n1 d1) as [y Hy]. fold g in Hx, Hy.
  rewrite idiv_sym, bind_ok by lia. rewrite idiv_sym, bind_ok by lia.
  assert (Qx : Z.quot n1 g = x) by (rewrite Hx; apply Z.quot_mul; lia).
  assert (Qy : Z.quot d1 g = y) by (rewrite Hy; apply Z.quot_mul; lia).
  rewrite Qx, Qy. exists (mkrat x y). split; [reflexivity|]. cbn [numer denom].
  assert (Hy0 : 0 < y) by nia.
  split; [|split; [|split]].
  - split; [exact Hy0|]. cbn [numer denom].
    assert (Hgg : g = g * Z.gcd x y).
    { unfold g at 1. rewrite Hx, Hy at 1. rewrite (Z.mul_comm x g), (Z.mul_comm y g), Z.gcd_mul_mono_l. lia. }
    pose proof (Z.gcd_nonneg x y). nia.
  - unfold n1, d1 in *. destruct Hs as [Hs|Hs]; rewrite Hs in *; nia.
  - rewrite <- Hsn, Hx, Z.abs_mul. nia.
  - destruct Hsd as [_ Hsd]. rewrite <- Hsd, Hy. nia.
Qed.

Lemma simplify_id n d : 0 < d <= INT_MAX -> Z.abs n <= INT_MAX -> Z.gcd n d = 1 -> simplify n d = Ok (mkrat n d).
Proof.
  intros Hd Hn Hg. unfold simplify. replace (d =? 0) with false by lia. replace (d <? 0) with false by lia.
  rewrite !bind_ok. rewrite gcd_pos_den, bind_ok, Hg by lia.
  rewrite !idiv_sym, !bind_ok by lia. rewrite !Z.quot_1_r. reflexivity.
Qed.

Lemma toQ_eq a (p q : Z) : 0 < q -> 0 < denom a -> numer a * q = p * denom a -> (toQ a == Qmake p (Z.to_pos q))%Q.
Proof. intros Hq Ha H. unfold toQ, Qeq. cbn [Qnum Qden]. rewrite !Z2Pos.id by assumption. exact H. Qed.

(* Two rationals in lowest terms are equal iff they are the same pair. *)
Lemma lowest_unique a b : lowest a -> lowest b -> (toQ a == toQ b)%Q -> a = b.
Proof.
  intros [Ha1 Ha2] [Hb1 Hb2] H. unfold toQ, Qeq in H. cbn [Qnum Qden] in H. rewrite !Z2Pos.id in H by assumption.
  destruct a as [n d], b as [n' d']. cbn [numer denom] in *.
  assert (D1 : (d | d')).
  { apply Gauss with n; [exists n'; lia|]. apply Zgcd_1_rel_prime. rewrite Z.gcd_comm. exact Ha2. }
  assert (D2 : (d' | d)).
  { apply Gauss with n'; [exists n; lia|]. apply Zgcd_1_rel_prime. rewrite Z.gcd_comm. exact Hb2. }
  assert (d = d') by (apply Z.divide_antisym_nonneg; lia || assumption). subst d'. f_equal. nia.
Qed.

Lemma rat_make_ok n d : Z.abs n <= INT_MAX -> Z.abs d <= INT_MAX -> d <> 0 ->
  exists r, rat_make n d = Ok r /\ lowest r /\ (toQ r * inject_Z d == inject_Z n)%Q.
Proof.
  intros Hn Hd H0. destruct (simplify_ok n d H0 Hn Hd) as (r & E & Hl & Hx & _). exists r. split; [exact E|]. split; [exact Hl|].
  destruct Hl as [Hl _]. unfold toQ, Qeq, Qmult, inject_Z. cbn [Qnum Qden]. rewrite Pos.mul_1_r, Z2Pos.id by exact Hl. lia.
Qed.

Section Ops.
Variables a b : intrat.
Hypothesis Ha : lowest a.
Hypothesis Hb : lowest b.
Let Da : 0 < denom a. Proof. exact (proj1 Ha). Qed.
Let Db : 0 < denom b. Proof. exact (proj1 Hb). Qed.
Hypothesis Hdd : denom a * denom b <= INT_MAX.

Lemma rat_add_ok : inr_ (numer a * denom b) -> inr_ (denom a * numer b) -> inr_ (numer a * denom b + denom a * numer b) ->
  exists r, rat_add a b = Ok r /\ lowest r /\ (toQ r == toQ a + toQ b)%Q.
Proof.
  unfold inr_. intros H1 H2 H3. unfold rat_add, imul, iadd. rewrite !chk_abs, bind_ok by assumption. rewrite !bind_ok. rewrite chk_abs, bind_ok by assumption.
  rewrite chk_abs, bind_ok by (rewrite Z.abs_eq; nia).
  destruct (simplify_ok (numer a * denom b + denom a * numer b) (denom a * denom b)) as (r & E & Hl & Hx & _); [nia|assumption|nia|].
  exists r. split; [exact E|]. split; [exact Hl|]. destruct Hl as [Hl _].
  unfold toQ, Qeq, Qplus. cbn [Qnum Qden]. rewrite Pos2Z.inj_mul, !Z2Pos.id by assumption. lia.
Qed.
Lemma rat_sub_ok : inr_ (numer a * denom b) -> inr_ (denom a * numer b) -> inr_ (numer a * denom b - denom a * numer b) ->
  exists r, rat_sub a b = Ok r /\ lowest r /\ (toQ r == toQ a - toQ b)%Q.
Proof.
  unfold inr_. intros H1 H2 H3. unfold rat_sub, imul, isub. rewrite !chk_abs, bind_ok by assumption. rewrite !bind_ok. rewrite chk_abs, bind_ok by assumption.
  rewrite chk_abs, bind_ok by (rewrite Z.abs_eq; nia).
  destruct (simplify_ok (numer a * denom b - denom a * numer b) (denom a * denom b)) as (r & E & Hl & Hx & _); [nia|assumption|nia|].
  exists r. split; [exact E|]. split; [exact Hl|]. destruct Hl as [Hl _].
  unfold toQ, Qeq, Qminus, Qplus, Qopp. cbn [Qnum Qden]. rewrite Pos2Z.inj_mul, !Z2Pos.id by assumption. lia.
Qed.
Lemma rat_mul_ok : inr_ (numer a * numer b) ->
  exists r, rat_mul a b = Ok r /\ lowest r /\ (toQ r == toQ a * toQ b)%Q.
Proof.
  unfold inr_. intros H1. unfold rat_mul, imul. rewrite !chk_abs, bind_ok by assumption. rewrite chk_abs, bind_ok by (rewrite Z.abs_eq; nia).
  destruct (simplify_ok (numer a * numer b) (denom a * denom b)) as (r & E & Hl & Hx & _); [nia|assumption|nia|].
  exists r. split; [exact E|]. split; [exact Hl|]. destruct Hl as [Hl _].
  unfold toQ, Qeq, Qmult. cbn [Qnum Qden]. rewrite Pos2Z.inj_mul, !Z2Pos.id by assumption. lia.
Qed.
End Ops.

Lemma rat_div_ok a b : lowest a -> lowest b -> inr_ (numer a * denom b) -> inr_ (denom a * numer b) ->
  if numer b =? 0 then rat_div a b = Exn
  else exists r, rat_div a b = Ok r /\ lowest r /\ (toQ r == toQ a / toQ b)%Q.
Proof.
  unfold inr_. intros Ha Hb H1 H2. unfold rat_div, imul. rewrite !chk_abs, !bind_ok by assumption.
  destruct (numer b =? 0) eqn:E0.
  - apply Z.eqb_eq in E0. rewrite E0, Z.mul_0_r. reflexivity.
  - apply Z.eqb_neq in E0. pose proof (proj1 Ha) as Da. pose proof (proj1 Hb) as Db.
    destruct (simplify_ok (numer a * denom b) (denom a * numer b)) as (r & E & Hl & Hx & _); [nia|assumption|assumption|].
    exists r. split; [exact E|]. split; [exact Hl|]. destruct Hl as [Hl _].
    assert (Hbn : ~ (toQ b == 0)%Q).
    { unfold toQ, Qeq. cbn. lia. }
    assert (Hm : (toQ r * toQ b == toQ a)%Q).
    { unfold toQ, Qeq, Qmult. cbn [Qnum Qden]. rewrite Pos2Z.inj_mul, !Z2Pos.id by assumption. lia. }
    rewrite <- Hm. field. exact Hbn.
Qed.
Lemma rat_neg_ok a : lowest a -> inr_ (numer a) -> exists r, rat_neg a = Ok r /\ lowest r /\ (toQ r == - toQ a)%Q.
Proof.
  intros [H1 H2] Hr. unfold rat_neg, ineg. rewrite chk_abs, bind_ok by (unfold inr_ in Hr; lia).
  eexists; split; [reflexivity|]. split; [split; cbn; [exact H1|rewrite Z.gcd_opp_l; exact H2]|]. reflexivity.
Qed.
Lemma rat_mod_ok a b : lowest b -> inr_ (denom b * denom b) -> inr_ (numer b * denom b) ->
  rat_mod a b = if numer b =? 0 then Exn else Ok (mkrat 0 1).
Proof.
  intros Hb Hd Hn. unfold inr_ in *. pose proof (proj1 Hb) as Db.
  destruct (rat_sub_ok b b Hb Hb) as (r & E & Hl & Hx); unfold inr_; try (unfold INT_MAX in *; lia).
  unfold rat_mod. rewrite E, bind_ok.
  assert (Hr : r = mkrat 0 1).
  { apply lowest_unique; [exact Hl|split; [cbn; lia|reflexivity]|]. rewrite Hx. unfold Qminus. rewrite Qplus_opp_r. reflexivity. }
  subst r. unfold rat_eqb. cbn [numer denom]. destruct (numer b =? 0) eqn:E0; cbn [andb]; [|reflexivity].
  destruct Hb as [_ Hb]. apply Z.eqb_eq in E0. rewrite E0, Z.gcd_0_l in Hb. replace (denom b =? 1) with true by lia. reflexivity.
Qed.

(* ---------------------------------------------------------------- comparison *)
Lemma rat_cmp_ok a b : lowest a -> lowest b -> inr_ (numer a * denom b) -> inr_ (denom a * numer b) ->
  exists lt le gt ge, rat_ltb a b = Ok lt /\ rat_leb a b = Ok le /\ rat_gtb a b = Ok gt /\ rat_geb a b = Ok ge /\
   (lt = true <-> (toQ a < toQ b)%Q) /\ (le = true <-> (toQ a <= toQ b)%Q) /\
   (gt = true <-> (toQ b < toQ a)%Q) /\ (ge = true <-> (toQ b <= toQ a)%Q).
Proof.
  intros [Ha _] [Hb _] H1 H2. unfold inr_ in *.
  unfold rat_ltb, rat_leb, rat_gtb, rat_geb, rat_cross, imul. rewrite !chk_abs by assumption. rewrite !bind_ok.
  do 4 eexists. do 4 (split; [reflexivity|]).
  unfold Qlt, Qle, toQ. cbn [Qnum Qden]. rewrite !Z2Pos.id by assumption.
  clear H1 H2. rewrite (Z.mul_comm (denom a) (numer b)).
  generalize (numer a * denom b) (numer b * denom a). intros x y.
  repeat split; lia.
Qed.
Lemma rat_eqb_ok a b : lowest a -> lowest b -> (rat_eqb a b = true <-> (toQ a == toQ b)%Q).
Proof.
  intros Ha Hb. split.
  - intros H. assert (a = b) by (destruct a, b; unfold rat_eqb in H; cbn in H; f_equal; lia). subst. reflexivity.
  - intros H. apply lowest_unique in H; try assumption. subst. unfold rat_eqb. lia.
Qed.
Lemma rat_eqb_int_ok a v : lowest a -> (rat_eqb_int a v = true <-> (toQ a == inject_Z v)%Q).
Proof.
  intros Ha. assert (Hv : lowest (mkrat v 1)) by (split; cbn; [lia|apply Z.gcd_1_r]).
  change (inject_Z v) with (toQ (mkrat v 1)). rewrite <- rat_eqb_ok by assumption.
  unfold rat_eqb_int, rat_eqb. cbn [numer denom]. lia.
Qed.

(* ---------------------------------------------------------------- exp *)
Lemma gcd1_mul_l a b n : Z.gcd a n = 1 -> Z.gcd b n = 1 -> Z.gcd (a * b) n = 1.
Proof.
  intros Ha Hb. rewrite Z.gcd_comm. apply Zgcd_1_rel_prime. apply rel_prime_mult; apply Zgcd_1_rel_prime; rewrite Z.gcd_comm; assumption.
Qed.
Lemma gcd1_mul_r a b n : Z.gcd n a = 1 -> Z.gcd n b = 1 -> Z.gcd n (a * b) = 1.
Proof. intros. rewrite Z.gcd_comm. apply gcd1_mul_l; rewrite Z.gcd_comm; assumption. Qed.

Lemma rat_mul_cop p q r s : 0 < q * s <= INT_MAX -> Z.abs (p * r) <= INT_MAX -> Z.gcd (p*r) (q*s) = 1 ->
  rat_mul (mkrat p q) (mkrat r s) = Ok (mkrat (p * r) (q * s)).
Proof.
  intros H1 H2 H3. unfold rat_mul, imul. cbn [numer denom]. rewrite chk_abs, bind_ok by exact H2.
  rewrite chk_abs, bind_ok by (clear -H1; lia). apply simplify_id; assumption.
Qed.

Lemma rat_exp_loop fuel : forall e p q r s,
  1 <= e <= INT_MAX -> 0 < q -> 0 < s <= q -> Z.abs r <= Z.max 1 (Z.abs p) ->
  Z.gcd p q = 1 -> Z.gcd r s = 1 -> Z.gcd r q = 1 -> Z.gcd p s = 1 ->
  last_square p e <= INT_MAX -> last_square q e <= INT_MAX -> Z.log2 e + 1 < Z.of_nat fuel ->
  loop fuel rat_exp_step (e, mkrat p q, mkrat r s) = Ok (mkrat (r * p ^ e) (s * q ^ e)).
Proof.
  induction fuel as [|f IH]; intros e p q r s He Hq Hs Hr G1 G2 G3 G4 Lp Lq Hf; [pose proof (Z.log2_nonneg e); lia|].
  cbn [loop]. unfold rat_exp_step at 1. replace (e =? 0) with false by lia.
  pose proof (square_le_last p e ltac:(lia)) as Sp. pose proof (square_le_last q e ltac:(lia)) as Sq.
  assert (Fr : Z.abs (r * p) <= Z.max 1 (Z.abs (p * p))).
  { apply (pow_fits p e r); [lia|exact Hr|]. intros ->. cbn [Z.abs] in Hr. lia. }
  assert (Fs : 0 < s * q <= q * q) by (clear -Hq Hs; nia).
  assert (Fq : 0 < q * q <= INT_MAX) by (clear -Hq Lq Sq; rewrite Z.abs_eq in Sq; nia).
  assert (Fp : Z.abs (p * p) <= INT_MAX) by (clear -Sp Lp; lia).
  assert (Frp : Z.abs (r * p) <= INT_MAX) by (clear -Fr Fp; unfold INT_MAX in *; lia).
  assert (Gpp : Z.gcd (p * p) (q * q) = 1) by (apply gcd1_mul_l; apply gcd1_mul_r; assumption).
  assert (Gps : Z.gcd (r * p) (s * q) = 1) by (apply gcd1_mul_l; apply gcd1_mul_r; assumption).
  assert (E1 : (if Z.odd e then rat_mul (mkrat r s) (mkrat p q) else Ok (mkrat r s)) =
               Ok (if Z.odd e then mkrat (r*p) (s*q) else mkrat r s)).
  { destruct (Z.odd e); [|reflexivity]. apply rat_mul_cop; [clear -Fs Fq; lia|exact Frp|exact Gps]. }
  rewrite E1, bind_ok, (rat_mul_cop p q p q Fq Fp Gpp), bind_ok.
  rewrite sq_u32 by exact He.
  assert (Hval : forall x y, x * y ^ e = (if Z.odd e then x * y else x) * (y * y) ^ (e / 2)).
  { intros x y. pose proof (Z.div2_odd e) as Hdo. rewrite Z.div2_div in Hdo.
    assert (Hh : 0 <= e / 2) by (apply Z.div_pos; lia).
    assert (Hb : 0 <= Z.b2z (Z.odd e)) by (destruct (Z.odd e); cbn; lia).
    rewrite Hdo at 1. rewrite Z.pow_add_r by (clear -Hh Hb; lia).
    rewrite Z.pow_mul_r by lia. rewrite Z.pow_2_r. destruct (Z.odd e); cbn [Z.b2z].
    - rewrite Z.pow_1_r. ring.
    - rewrite Z.pow_0_r. ring. }
  rewrite (Hval r p), (Hval s q).
  assert (E : (if Z.odd e then mkrat (r*p) (s*q) else mkrat r s) = mkrat (if Z.odd e then r * p else r) (if Z.odd e then s * q else s))
    by (destruct (Z.odd e); reflexivity).
  rewrite E.
  destruct (Z.eq_dec e 1) as [->|Hne].
  - cbn [Z.odd]. change (1/2) with 0. rewrite !Z.pow_0_r, !Z.mul_1_r.
    destruct f; [cbn in Hf; lia|]. reflexivity.
  - assert (H2 : 2 <= e) by lia. apply IH.
    + split; [|clear -He; lia]. clear -H2. lia.
    + lia.
    + destruct (Z.odd e); [exact Fs|]. clear -Hs Hq. nia.
    + destruct (Z.odd e); [exact Fr|]. clear -Hr. nia.
    + exact Gpp.
    + destruct (Z.odd e); assumption.
    + destruct (Z.odd e); [apply gcd1_mul_l; apply gcd1_mul_r; assumption|apply gcd1_mul_r; assumption].
    + destruct (Z.odd e); [apply gcd1_mul_l; apply gcd1_mul_r; assumption|apply gcd1_mul_l; assumption].
    + rewrite last_square_half by exact H2. exact Lp.
    + rewrite last_square_half by exact H2. exact Lq.
    + rewrite (log2_half e H2) in Hf. lia.
Qed.

Lemma log2_int e : 1 <= e <= INT_MAX -> Z.log2 e + 1 < Z.of_nat 34.
Proof.
  intros He. assert (Z.log2 e <= Z.log2 INT_MAX) by (apply Z.log2_le_mono; lia). change (Z.log2 INT_MAX) with 30 in H. lia.
Qed.

Lemma rat_exp_pos a e : lowest a -> 1 <= e <= INT_MAX ->
  last_square (numer a) e <= INT_MAX -> last_square (denom a) e <= INT_MAX ->
  rat_exp a e = Ok (mkrat (numer a ^ e) (denom a ^ e)).
Proof.
  intros [H1 H2] He L1 L2. unfold rat_exp. change (rat_of_int 0) with (Ok (mkrat 0 1)). change (rat_of_int 1) with (Ok (mkrat 1 1)).
  rewrite !bind_ok. replace (e =? 0) with false by lia. replace (e <? 0) with false by lia.
  destruct a as [p q]. cbn [numer denom] in *.
  rewrite rat_exp_loop; [|exact He|exact H1|lia|lia|exact H2|reflexivity|apply Z.gcd_1_l|apply Z.gcd_1_r|exact L1|exact L2|exact (log2_int e He)].
  do 2 f_equal; apply Z.mul_1_l.
Qed.

Lemma rat_exp_neg a e : lowest a -> INT_MIN < e < 0 -> numer a <> 0 ->
  last_square (numer a) (-e) <= INT_MAX -> last_square (denom a) (-e) <= INT_MAX ->
  rat_exp a e = Ok (if numer a <? 0 then mkrat ((- denom a) ^ (-e)) ((- numer a) ^ (-e)) else mkrat (denom a ^ (-e)) (numer a ^ (-e))).
Proof.
  intros [H1 H2] He Hn L1 L2. unfold rat_exp. change (rat_of_int 0) with (Ok (mkrat 0 1)). change (rat_of_int 1) with (Ok (mkrat 1 1)).
  rewrite !bind_ok. replace (e =? 0) with false by lia. replace (e <? 0) with true by lia.
  destruct a as [p q]. cbn [numer denom] in *. unfold rat_eqb. cbn [numer denom]. replace (p =? 0) with false by lia. cbn [andb].
  unfold ineg. rewrite chk_abs, bind_ok by (unfold INT_MIN, INT_MAX in *; lia).
  pose proof (square_le_last p (-e) ltac:(lia)) as Sp. pose proof (square_le_last q (-e) ltac:(lia)) as Sq.
  assert (Ap : Z.abs p <= INT_MAX) by (clear -Sp L1 Hn; nia).
  assert (Aq : Z.abs q <= INT_MAX) by (clear -Sq L2 H1; nia).
  set (s := if p <? 0 then -1 else 1).
  assert (Ediv : rat_div (mkrat 1 1) (mkrat p q) = Ok (mkrat (s * q) (s * p))).
  { unfold rat_div, imul. cbn [numer denom]. rewrite chk_abs, bind_ok by lia. rewrite chk_abs, bind_ok by lia.
    rewrite !Z.mul_1_l. destruct (p <? 0) eqn:Ep; unfold s.
    - unfold simplify. replace (p =? 0) with false by lia. rewrite Ep. unfold ineg. rewrite !chk_abs by lia. rewrite !bind_ok.
      rewrite gcd_pos_den, bind_ok by lia. rewrite Z.gcd_opp_l, Z.gcd_opp_r, Z.gcd_comm, H2.
      rewrite !idiv_sym, !bind_ok by lia. rewrite !Z.quot_1_r. do 2 f_equal; lia.
    - rewrite simplify_id by (rewrite ?(Z.gcd_comm q p); try assumption; lia). do 2 f_equal; lia. }
  rewrite Ediv, bind_ok.
  assert (Hls : forall x, last_square (s * x) (-e) = last_square x (-e)).
  { intros x. unfold last_square. f_equal. unfold s. destruct (p <? 0); lia. }
  assert (Hgs : Z.gcd (s * q) (s * p) = 1).
  { unfold s. destruct (p <? 0); rewrite Z.gcd_comm; [|rewrite !Z.mul_1_l; exact H2].
    replace (-1 * p) with (- p) by lia. replace (-1 * q) with (-q) by lia. rewrite Z.gcd_opp_l, Z.gcd_opp_r. exact H2. }
  assert (Hsp : 0 < s * p) by (unfold s; destruct (p <? 0) eqn:Ep; lia).
  assert (He' : 1 <= - e <= INT_MAX) by (clear -He; unfold INT_MIN, INT_MAX in *; lia).
  rewrite rat_exp_loop; [|exact He'|exact Hsp|clear -Hsp; lia|clear; lia|exact Hgs|reflexivity|apply Z.gcd_1_l|apply Z.gcd_1_r
    |rewrite Hls; exact L2|rewrite Hls; exact L1|exact (log2_int _ He')].
  rewrite !Z.mul_1_l. unfold s. destruct (p <? 0); do 2 f_equal; f_equal; clear; lia.
Qed.

Lemma rat_exp_0 a : rat_exp a 0 = if rat_eqb a (mkrat 0 1) then Exn else Ok (mkrat 1 1).
Proof. reflexivity. Qed.
Lemma rat_exp_zero_neg e : e < 0 -> rat_exp (mkrat 0 1) e = Exn.
Proof.
  intros He. unfold rat_exp. change (rat_of_int 0) with (Ok (mkrat 0 1)). change (rat_of_int 1) with (Ok (mkrat 1 1)).
  rewrite !bind_ok. replace (e =? 0) with false by lia. replace (e <? 0) with true by lia. reflexivity.
Qed.

Lemma Qpower_Z a (e : Z) : 0 < denom a -> 1 <= e -> (toQ (mkrat (numer a ^ e) (denom a ^ e)) == Qpower (toQ a) e)%Q.
Proof.
  intros Ha He. destruct e as [|p|p]; try lia. unfold Qpower, Qpower_positive.
  assert (Hgen : forall x y : Z, 0 < y -> (toQ (mkrat (x ^ Zpos p) (y ^ Zpos p)) == Qpower_positive (toQ (mkrat x y)) p)%Q).
  { intros x y Hy. revert x y Hy. induction p as [|p IH] using Pos.peano_ind; intros x y Hy.
    - rewrite !Z.pow_1_r. reflexivity.
    - rewrite Pos2Z.inj_succ, !Z.pow_succ_r by lia.
      assert (Hs : (Qpower_positive (toQ (mkrat x y)) (Pos.succ p) == toQ (mkrat x y) * Qpower_positive (toQ (mkrat x y)) p)%Q).
      { rewrite <- Pos.add_1_l. rewrite Qpower_plus_positive. reflexivity. }
      rewrite Hs, <- IH by (lia || assumption). unfold toQ, Qeq, Qmult. cbn [Qnum Qden numer denom].
      assert (0 < y ^ Zpos p) by (apply Z.pow_pos_nonneg; lia).
      rewrite Pos2Z.inj_mul, !Z2Pos.id by nia. ring. }
  destruct a as [x y]. cbn [numer denom] in *. apply Hgen. exact Ha.
Qed.

From Coq Require Import Zpow_facts.
Lemma lowest_pow p q e : 0 < q -> 0 <= e -> Z.gcd p q = 1 -> lowest (mkrat (p ^ e) (q ^ e)).
Proof.
  intros Hq He Hg. split; cbn [numer denom]; [apply Z.pow_pos_nonneg; assumption|].
  apply Zgcd_1_rel_prime. apply rel_prime_Zpower; try assumption. apply Zgcd_1_rel_prime, Hg.
Qed.

Lemma rat_exp_Q a e : lowest a -> - INT_MAX <= e <= INT_MAX -> e <> 0 -> (e < 0 -> numer a <> 0) ->
  last_square (numer a) (Z.abs e) <= INT_MAX -> last_square (denom a) (Z.abs e) <= INT_MAX ->
  exists r, rat_exp a e = Ok r /\ lowest r /\ (toQ r == Qpower (toQ a) e)%Q.
Proof.
  intros Ha He H0 Hn L1 L2. destruct Ha as [Ha1 Ha2] eqn:EHa. clear EHa.
  destruct (Z.lt_trichotomy e 0) as [Hneg|[->|Hpos]]; [|congruence|].
  - rewrite Z.abs_neq in L1, L2 by (clear -Hneg; lia).
    rewrite rat_exp_neg; [|split; assumption|unfold INT_MIN, INT_MAX in *; clear -He Hneg; lia|exact (Hn Hneg)|exact L1|exact L2].
    specialize (Hn Hneg). set (f := - e) in *.
    assert (Hf : 1 <= f) by (unfold f; clear -Hneg; lia).
    set (b := if numer a <? 0 then mkrat (- denom a) (- numer a) else mkrat (denom a) (numer a)).
    assert (Hb : lowest b).
    { unfold b. destruct (numer a <? 0) eqn:E; split; cbn [numer denom];
      rewrite ?Z.gcd_opp_l, ?Z.gcd_opp_r; rewrite 1?Z.gcd_comm; try exact Ha2; clear -E Hn; lia. }
    exists (mkrat (numer b ^ f) (denom b ^ f)). split; [unfold b; destruct (numer a <? 0); reflexivity|].
    destruct Hb as [Hb1 Hb2]. split; [apply lowest_pow; [exact Hb1|clear -Hf; lia|exact Hb2]|].
    rewrite Qpower_Z by assumption.
    assert (Hinv : (toQ b == / toQ a)%Q).
    { assert (Hm : (toQ b * toQ a == 1)%Q).
      { unfold toQ, Qeq, Qmult. cbn [Qnum Qden]. rewrite Pos2Z.inj_mul, !Z2Pos.id by assumption.
        unfold b. destruct (numer a <? 0); cbn [numer denom]; ring. }
      assert (Hna : ~ (toQ a == 0)%Q) by (unfold toQ, Qeq; cbn; clear -Hn; lia).
      rewrite <- (Qmult_1_l (/ toQ a)), <- Hm. field. exact Hna. }
    rewrite Hinv. replace e with (- f) by (unfold f; clear; lia). rewrite Qpower_opp. apply Qinv_power.
  - rewrite Z.abs_eq in L1, L2 by (clear -Hpos; lia).
    rewrite rat_exp_pos; [|split; assumption|clear -Hpos He; lia|exact L1|exact L2].
    eexists; split; [reflexivity|]. split; [apply lowest_pow; [exact Ha1|clear -Hpos; lia|exact Ha2]|].
    apply Qpower_Z; [exact Ha1|clear -Hpos; lia].
Qed.
