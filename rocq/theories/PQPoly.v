(* The rationals of MIntrat as elements of the field of rationals: without any hypothesis
   on sizes, every operation is undefined (int overflow) or gives the right value in lowest
   terms.  Hence the same for the polynomials, through PMono. *)
From Verif Require Import Base MIntMath MIntrat MMat MPoly MCyclo PIntMath PIntrat PMono.
From Coq Require Import Lia.
Open Scope Z_scope.

Lemma chk_inv z y : chk z = Ok y -> y = z /\ INT_MIN <= z <= INT_MAX.
Proof. unfold chk, in_int. destruct (_ && _)%bool eqn:E; intros H; [|discriminate]. injection H as <-. lia. Qed.
Lemma chk_or z : chk z = UB \/ (chk z = Ok z /\ INT_MIN <= z <= INT_MAX).
Proof. unfold chk. destruct (in_int z) eqn:E; [right|left; reflexivity]. split; [reflexivity|]. unfold in_int in E. lia. Qed.

Lemma simplify_upto n d : d <> 0 -> INT_MIN <= n <= INT_MAX -> INT_MIN <= d <= INT_MAX ->
  simplify n d = UB \/ exists a, simplify n d = Ok a /\ lowest a /\ numer a * d = n * denom a.
Proof.
  intros Hd Hn Hd'. destruct (Z.eq_dec d INT_MIN) as [->|N1].
  { left. unfold simplify. change (INT_MIN =? 0) with false. change (INT_MIN <? 0) with true. cbv iota.
    change (ineg INT_MIN) with (@UB Z). unfold ineg. destruct (chk_or (- n)) as [->|[-> _]]; reflexivity. }
  destruct (Z.eq_dec n INT_MIN) as [->|N2].
  { left. unfold simplify. replace (d =? 0) with false by lia. change (ineg INT_MIN) with (@UB Z). destruct (d <? 0) eqn:E; [reflexivity|].
    cbn [bind]. unfold int_gcd. change (INT_MIN =? 0) with false. replace (d =? 0) with false by lia.
    change (INT_MIN <? 0) with true. cbv iota. change (ineg INT_MIN) with (@UB Z). reflexivity. }
  right. destruct (simplify_ok n d Hd) as (a & E & Hl & Hx & _).
  - clear - Hn N2. unfold INT_MIN, INT_MAX in *. lia.
  - clear - Hd' N1. unfold INT_MIN, INT_MAX in *. lia.
  - exists a. auto.
Qed.

Section Ops.
Variables a b : intrat.
Hypothesis Ha : lowest a.
Hypothesis Hb : lowest b.
Let Da : 0 < denom a. Proof. exact (proj1 Ha). Qed.
Let Db : 0 < denom b. Proof. exact (proj1 Hb). Qed.
Definition upto (r : res intrat) (N D : Z) : Prop :=
  r = UB \/ exists z, r = Ok z /\ lowest z /\ numer z * D = N * denom z.

Lemma add_upto : upto (rat_add a b) (numer a * denom b + denom a * numer b) (denom a * denom b).
Proof.
  unfold rat_add, imul, iadd, upto.
  destruct (chk_or (numer a * denom b)) as [->|[-> H1]]; [left; reflexivity|cbn [bind]].
  destruct (chk_or (denom a * numer b)) as [->|[-> H2]]; [left; reflexivity|cbn [bind]].
  destruct (chk_or (numer a * denom b + denom a * numer b)) as [->|[-> H3]]; [left; reflexivity|cbn [bind]].
  destruct (chk_or (denom a * denom b)) as [->|[-> H4]]; [left; reflexivity|cbn [bind]].
  apply simplify_upto; [nia|exact H3|exact H4].
Qed.
Lemma sub_upto : upto (rat_sub a b) (numer a * denom b - denom a * numer b) (denom a * denom b).
Proof.
  unfold rat_sub, imul, isub, upto.
  destruct (chk_or (numer a * denom b)) as [->|[-> H1]]; [left; reflexivity|cbn [bind]].
  destruct (chk_or (denom a * numer b)) as [->|[-> H2]]; [left; reflexivity|cbn [bind]].
  destruct (chk_or (numer a * denom b - denom a * numer b)) as [->|[-> H3]]; [left; reflexivity|cbn [bind]].
  destruct (chk_or (denom a * denom b)) as [->|[-> H4]]; [left; reflexivity|cbn [bind]].
  apply simplify_upto; [nia|exact H3|exact H4].
Qed.
Lemma mul_upto : upto (rat_mul a b) (numer a * numer b) (denom a * denom b).
Proof.
  unfold rat_mul, imul, upto.
  destruct (chk_or (numer a * numer b)) as [->|[-> H1]]; [left; reflexivity|cbn [bind]].
  destruct (chk_or (denom a * denom b)) as [->|[-> H4]]; [left; reflexivity|cbn [bind]].
  apply simplify_upto; [nia|exact H1|exact H4].
Qed.
Lemma div_upto : numer b <> 0 -> upto (rat_div a b) (numer a * denom b) (denom a * numer b).
Proof.
  intros Hb0. unfold rat_div, imul, upto.
  destruct (chk_or (numer a * denom b)) as [->|[-> H1]]; [left; reflexivity|cbn [bind]].
  destruct (chk_or (denom a * numer b)) as [->|[-> H4]]; [left; reflexivity|cbn [bind]].
  apply simplify_upto; [nia|exact H1|exact H4].
Qed.
Lemma div_zero : numer b = 0 -> rat_div a b = UB \/ rat_div a b = Exn.
Proof.
  intros Hb0. unfold rat_div, imul. rewrite Hb0, Z.mul_0_r.
  destruct (chk_or (numer a * denom b)) as [->|[-> H1]]; [left; reflexivity|cbn [bind]]. right. reflexivity.
Qed.
Lemma neg_upto : upto (rat_neg a) (- numer a) (denom a).
Proof.
  unfold rat_neg, ineg, upto. destruct (chk_or (- numer a)) as [->|[-> H]]; [left; reflexivity|cbn [bind]]. right.
  eexists. split; [reflexivity|]. split; [split; cbn; [exact Da|rewrite Z.gcd_opp_l; exact (proj2 Ha)]|]. cbn. reflexivity.
Qed.
Lemma cmp_upto : same q_kops a b = UB \/ same q_kops a b = Ok (numer a * denom b =? denom a * numer b).
Proof.
  unfold same, q_kops. cbn [k_ltb k_gtb]. unfold rat_ltb, rat_gtb, rat_cross, imul.
  destruct (chk_or (numer a * denom b)) as [->|[-> H1]]; [left; reflexivity|cbn [bind]].
  destruct (chk_or (denom a * numer b)) as [->|[-> H2]]; [left; reflexivity|cbn [bind]].
  right. generalize (numer a * denom b) (denom a * numer b). intros x y. destruct (x <? y) eqn:E; f_equal; lia.
Qed.
End Ops.
Lemma of_int_ok v : INT_MIN < v <= INT_MAX -> rat_of_int v = Ok (mkrat v 1).
Proof. intros H. apply simplify_id; [unfold INT_MAX; lia|unfold INT_MIN, INT_MAX in *; lia|apply Z.gcd_1_r]. Qed.
Lemma same_refl a b : same q_kops a a = Ok b -> b = true.
Proof.
  unfold same, q_kops. cbn [k_ltb k_gtb]. unfold rat_ltb, rat_gtb, rat_cross, imul. rewrite (Z.mul_comm (denom a)).
  destruct (chk_or (numer a * denom a)) as [->|[-> H1]]; cbn [bind]; [discriminate|].
  rewrite Z.ltb_irrefl. intros H. injection H as <-. lia.
Qed.
