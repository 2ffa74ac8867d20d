(* Polynomials with rational coefficients: the operations of MCyclo.q_kops are below (PMono)
   operations that form a field with comparisons in the sense of PPoly. *)
From Verif Require Import Base MIntMath MIntrat MMat MPoly MCyclo PIntMath PIntrat PMono PMat PPoly PPoly2 PPoly3 PQPoly.
From mathcomp Require Import all_ssreflect ssralg ssrint rat poly polydiv ssrnum zify ssrZ.
Require Import Lia.
Set Implicit Arguments.
Unset Strict Implicit.
Unset Printing Implicit Defensive.
Import GRing.Theory ListNotations Num.Theory.
Delimit Scope Z_scope with coqZ.
Local Open Scope ring_scope.
Local Infix "<~" := le_res (at level 70).

Definition iz (z : Z) : rat := (int_of_Z z)%:~R.
Lemma izD x y : iz (Z.add x y) = iz x + iz y.
Proof. by rewrite /iz -intrD -(rmorphD [rmorphism of int_of_Z]). Qed.
Lemma izN x : iz (Z.opp x) = - iz x.
Proof. by rewrite /iz -mulrNz -(rmorphN [rmorphism of int_of_Z]). Qed.
Lemma izB x y : iz (Z.sub x y) = iz x - iz y.
Proof. by rewrite -izN -izD. Qed.
Lemma izM x y : iz (Z.mul x y) = iz x * iz y.
Proof. by rewrite /iz -intrM -(rmorphM [rmorphism of int_of_Z]). Qed.
Lemma iz_inj : injective iz.
Proof. by move=> x y /intr_inj /(can_inj int_of_ZK). Qed.
Lemma iz0 : iz 0%coqZ = 0. Proof. by []. Qed.
Lemma iz1 : iz 1%coqZ = 1. Proof. by []. Qed.
Lemma iz_eq0 z : (iz z == 0) = Z.eqb z 0.
Proof. by apply/eqP/Z.eqb_spec => [h|->] //; apply: iz_inj; rewrite h iz0. Qed.
Lemma iz_neq0 z : z <> 0%coqZ -> iz z != 0.
Proof. by rewrite iz_eq0 => /Z.eqb_spec. Qed.

(* the rational number a pair stands for, and the pair standing for a rational number *)
Definition qv (a : intrat) : rat := iz (numer a) / iz (denom a).
Definition qenc (r : rat) : intrat := mkrat (Z_of_int (numq r)) (Z_of_int (denq r)).
Lemma qv_enc r : qv (qenc r) = r.
Proof. by rewrite /qv /iz /= !Z_of_intK divq_num_den. Qed.
Lemma low_den a : lowest a -> iz (denom a) != 0.
Proof. by case=> h _; apply: iz_neq0; clear - h; lia. Qed.
Lemma qv_cross a N D : lowest a -> D <> 0%coqZ -> (numer a * D = N * denom a)%coqZ -> qv a = iz N / iz D.
Proof.
move=> /low_den ha /iz_neq0 hD h; apply/eqP; rewrite /qv eqr_div //; by rewrite -!izM h.
Qed.
Lemma low_enc r : lowest (qenc r).
Proof.
split; rewrite /qenc /=; first by have := denq_gt0 r; lia.
have := coprime_num_den r; rewrite /coprime => /eqP h.
have := Z.gcd_nonneg (Z_of_int (numq r)) (Z_of_int (denq r)); set g := Z.gcd _ _ => hg.
have [x hx] := Z.gcd_divide_l (Z_of_int (numq r)) (Z_of_int (denq r)).
have [y hy] := Z.gcd_divide_r (Z_of_int (numq r)) (Z_of_int (denq r)).
have d1 : (Z.to_nat g %| `|numq r|)%N.
  by apply/dvdnP; exists (Z.abs_nat x); move: hx hg; rewrite -/g; clear; nia.
have d2 : (Z.to_nat g %| `|denq r|)%N.
  by apply/dvdnP; exists (Z.abs_nat y); move: hy hg; rewrite -/g; clear; nia.
have : (Z.to_nat g %| 1)%N by rewrite -h dvdn_gcd d1 d2.
by rewrite dvdn1 => /eqP; move: hg; clear; lia.
Qed.
Lemma qv_inj x y : lowest x -> lowest y -> qv x = qv y -> x = y.
Proof.
move=> hx hy h; apply: lowest_unique => //; rewrite /toQ /QArith_base.Qeq /=.
rewrite !Z2Pos.id; [|by case: hx|by case: hy].
move/eqP: h; rewrite /qv eqr_div ?low_den // -!izM => /eqP /iz_inj; clear; lia.
Qed.
Lemma enc_qv x : lowest x -> qenc (qv x) = x.
Proof. by move=> hx; apply: qv_inj => //; [exact: low_enc|exact: qv_enc]. Qed.

(* the right value where the code overflows *)
Definition up (r : res intrat) (v : rat) : res intrat := if r is UB then Ok (qenc v) else r.
Lemma le_up r v : r <~ up r v.
Proof. by case: r => [x| | |]; [right|right|left|right]. Qed.
Definition upq (r : res intrat) (v : rat) : Prop := r = UB \/ exists z, r = Ok z /\ lowest z /\ qv z = v.
Lemma upq_up r v : upq r v -> exists z, up r v = Ok z /\ lowest z /\ qv z = v.
Proof.
case=> [->|[z [-> hz]]]; last by exists z.
by exists (qenc v); split=> //; split; [exact: low_enc|exact: qv_enc].
Qed.
Lemma upto_upq r N D v : upto r N D -> D <> 0%coqZ -> v = iz N / iz D -> upq r v.
Proof. by move=> h hD ->; case: h => [->|[z [-> [hz hx]]]]; [left|right; exists z; split=> //; split=> //; exact: qv_cross hx]. Qed.

Lemma qadd x y : lowest x -> lowest y -> upq (rat_add x y) (qv x + qv y).
Proof.
move=> hx hy; apply: upto_upq (add_upto _ _ hx hy) _ _.
  by case: hx hy => [h1 _] [h2 _]; clear - h1 h2; nia.
by rewrite /qv addf_div ?low_den // izD !izM; congr (_ / _); rewrite [iz (numer y) * _]mulrC.
Qed.
Lemma qsub x y : lowest x -> lowest y -> upq (rat_sub x y) (qv x - qv y).
Proof.
move=> hx hy; apply: upto_upq (sub_upto _ _ hx hy) _ _.
  by case: hx hy => [h1 _] [h2 _]; clear - h1 h2; nia.
by rewrite /qv -mulNr addf_div ?low_den // izB !izM mulNr; congr ((_ - _) / _); rewrite [iz (numer y) * _]mulrC.
Qed.
Lemma qmul x y : lowest x -> lowest y -> upq (rat_mul x y) (qv x * qv y).
Proof.
move=> hx hy; apply: upto_upq (mul_upto _ _ hx hy) _ _.
  by case: hx hy => [h1 _] [h2 _]; clear - h1 h2; nia.
by rewrite /qv mulf_div !izM.
Qed.
Lemma qv_neq0 x : qv x != 0 -> numer x <> 0%coqZ.
Proof. by move=> h e; move: h; rewrite /qv e iz0 mul0r eqxx. Qed.
Lemma qv_eq0 x : lowest x -> (qv x == 0) = Z.eqb (numer x) 0.
Proof. by move=> /low_den h; rewrite /qv mulf_eq0 invr_eq0 (negbTE h) orbF iz_eq0. Qed.
Lemma qdiv x y : lowest x -> lowest y -> qv y != 0 -> upq (rat_div x y) (qv x / qv y).
Proof.
move=> hx hy /qv_neq0 h0; apply: upto_upq (div_upto _ _ hx h0) _ _.
  by case: hx hy => [h1 _] [h2 _]; clear - h1 h0; nia.
by rewrite /qv invf_div mulf_div !izM.
Qed.
Lemma qneg x : lowest x -> upq (rat_neg x) (- qv x).
Proof.
move=> hx; apply: upto_upq (neg_upto _ hx) _ _; first by case: hx => [h _]; clear - h; lia.
by rewrite /qv izN mulNr.
Qed.
Lemma low_int v : lowest (mkrat v 1).
Proof. by split=> /=; [|rewrite Z.gcd_1_r]. Qed.
Lemma qv_int v : qv (mkrat v 1) = iz v.
Proof. by rewrite /qv /= iz1 divr1. Qed.
Lemma qint v : (INT_MIN < v <= INT_MAX)%coqZ -> upq (rat_of_int v) (iz v).
Proof. by move=> h; right; exists (mkrat v 1); rewrite of_int_ok //; split=> //; split; [exact: low_int|exact: qv_int]. Qed.
Lemma qrecip x : lowest x -> qv x != 0 -> upq (rat_div (mkrat 1 1) x) (qv x)^-1.
Proof. by move=> hx h0; have := qdiv (low_int 1) hx h0; rewrite qv_int iz1 mul1r. Qed.

Lemma qexp_loop n e x r : (0 <= e < 2 ^ Z.of_nat n)%coqZ -> (e <= INT_MAX)%coqZ -> lowest x -> lowest r ->
  upq (loop n.+1 rat_exp_step (e, x, r)) (qv r * qv x ^+ Z.to_nat e).
Proof.
elim: n e x r => [|n IH] e x r he hM hx hr.
  have -> : e = 0%coqZ by move: he; clear; rewrite /=; lia.
  by right; exists r; rewrite expr0 mulr1.
have {IH} IH := IH; rewrite (_ : loop n.+2 rat_exp_step (e, x, r) = match rat_exp_step (e, x, r) with
  | Ok (inl s') => loop n.+1 rat_exp_step s' | Ok (inr r) => Ok r | Exn => Exn | UB => UB | Div => Div end) //.
rewrite {1}/rat_exp_step; case: Z.eqb_spec => [->|he0]; first by right; exists r; rewrite expr0 mulr1.
have hE : e = Z.add (Z.mul 2 (e / 2)) (Z.b2z (Z.odd e)) by rewrite -Z.div2_div; exact: Z.div2_odd.
have hu : u32 e = e by rewrite /u32 Z.mod_small //; move: he hM; rewrite /INT_MAX; clear; lia.
rewrite hu.
have h2 : (0 <= e / 2 < 2 ^ Z.of_nat n)%coqZ.
  split; first by apply: Z.div_pos; move: he; clear; lia.
  by apply: Z.div_lt_upper_bound => //; move: he; rewrite Nat2Z.inj_succ Z.pow_succ_r; clear; lia.
have h3 : (e / 2 <= INT_MAX)%coqZ by apply: Z.div_le_upper_bound => //; move: hM; rewrite /INT_MAX; clear; lia.
have hn : Z.to_nat e = (Z.to_nat (e / 2) * 2 + Z.odd e)%N.
  rewrite {1}hE; move: (proj1 h2); generalize (e / 2)%coqZ; case: (Z.odd e); rewrite /Z.b2z; clear => z hz; lia.
set rv := if Z.odd e then _ else _.
have hrv : upq rv (qv r * qv x ^+ Z.odd e).
  by rewrite /rv; case: (Z.odd e); [rewrite expr1; exact: qmul | right; exists r; rewrite expr0 mulr1].
case: hrv => [->|[r' [-> [hr' vr']]]]; first by left.
rewrite bind_ok; case: (qmul hx hx) => [->|[x' [-> [hx' vx']]]]; first by left.
rewrite bind_ok; have := IH _ _ _ h2 h3 hx' hr'.
by rewrite vx' vr' -mulrA -expr2 -exprM -exprD hn addnC mulnC.
Qed.
Lemma zexp x (e : Z) : (0 <= e)%coqZ -> x ^ (int_of_Z e) = x ^+ Z.to_nat e :> rat.
Proof. by move=> he; rewrite -[in LHS](Z2Nat.id e he) (_ : int_of_Z _ = (Z.to_nat e)%:Z) // -(Z_of_intK (Z.to_nat e)). Qed.
Lemma qexp x e : lowest x -> qv x != 0 -> (INT_MIN < e <= INT_MAX)%coqZ -> upq (rat_exp x e) (qv x ^ int_of_Z e).
Proof.
move=> hx h0 he; rewrite /rat_exp !of_int_ok // !bind_ok.
have e0 : rat_eqb x (mkrat 0 1) = false.
  by apply/andP=> -[/Z.eqb_eq /= h _]; exact: qv_neq0 h0 h.
rewrite e0; case: Z.eqb_spec => [->|he0].
  by right; exists (mkrat 1 1).
case: Z.ltb_spec => he1.
  have -> : ineg e = Ok (- e)%coqZ.
    by rewrite /ineg /chk (_ : in_int _ = true) //; move: he; rewrite /in_int /INT_MIN /INT_MAX; clear; lia.
  rewrite bind_ok; case: (qrecip hx h0) => [->|[y [-> [hy vy]]]]; first by left.
  rewrite bind_ok.
  have [||||->|[z [-> [hz vz]]]] := @qexp_loop 33 (- e)%coqZ y (mkrat 1 1); try exact: low_int; try done.
  - by move: he he1; rewrite /INT_MIN /INT_MAX; clear; lia.
  - by move: he he1; rewrite /INT_MIN /INT_MAX; clear; lia.
  - by left.
  right; exists z; split=> //; split=> //; rewrite vz qv_int mul1r vy exprVn -zexp; last by move: he1; clear; lia.
  by rewrite (rmorphN [rmorphism of int_of_Z]) /= -invr_expz invrK.
have := @qexp_loop 33 e x (mkrat 1 1); rewrite qv_int mul1r -zexp //; apply.
- by move: he he1; rewrite /INT_MIN /INT_MAX; clear; lia.
- by case: he.
- exact: hx.
exact: low_int.
Qed.

(* a numbering of the pairs *)
Definition qkey (x : intrat) : nat := pickle (int_of_Z (numer x), int_of_Z (denom x)).
Lemma qkey_inj : injective qkey.
Proof.
move=> [a b] [c d] h; have [] : (int_of_Z a, int_of_Z b) = (int_of_Z c, int_of_Z d) by apply: (pcan_inj (@pickleK _)) h.
by move=> /(can_inj int_of_ZK) -> /(can_inj int_of_ZK) ->.
Qed.
Definition qcmp (s : intrat -> intrat -> bool) (x y : intrat) : res bool :=
  Ok (if same q_kops x y is Ok true then false else s x y).
Definition q_up : kops intrat :=
  mkkops (mkcops (fun x y => up (rat_add x y) (qv x + qv y)) (fun x y => up (rat_sub x y) (qv x - qv y))
                 (fun x y => up (rat_mul x y) (qv x * qv y)) (fun x y => up (rat_div x y) (qv x / qv y))
                 (fun x => up (rat_neg x) (- qv x)) (fun a b => Ok (rat_eqb a b)))
    (fun x => r <- up (one <- rat_of_int 1 ;; rat_div one x) (qv x)^-1 ;; Ok (Some r))%res
    (fun x e => up (rat_exp x e) (qv x ^ int_of_Z e))
    (qcmp (fun x y => qkey x < qkey y)%N) (qcmp (fun x y => qkey y < qkey x)%N)
    (fun _ v => up (rat_of_int v) (iz v))
    (fun x v => Ok (rat_eqb_int x v)) (fun _ => Exn) rat_default.

Lemma q_kle : kle q_kops q_up.
Proof.
split; rewrite /q_kops /q_up /=; try by move=> *; exact: le_up.
- by move=> x y; right.
- move=> x; rewrite /=.
  by case: (rat_div _ x) => [z| | |]; [right|right|left|right].
- by move=> x v; right.
- move=> x y; rewrite {2}/same /= /qcmp.
  have [->|[b hb]] : same q_kops x y = UB \/ exists b, same q_kops x y = Ok b.
  + by case: (cmp_upto x y) => ->; [left|right; eexists].
  + by left.
  rewrite hb; right; case: b hb => hb; first by [].
  case h1 : (qkey x < qkey y)%N; first by [].
  case h2 : (qkey y < qkey x)%N; first by [].
  have /qkey_inj e : qkey x = qkey y by move: h1 h2; case: ltngtP.
  by move: hb; rewrite e => /same_refl.
by move=> x y; rewrite /qcmp; do 2 eexists.
Qed.
Lemma rat_eqbE x y : rat_eqb x y = true <-> x = y.
Proof. by case: x y => a b [c d]; rewrite /rat_eqb /=; split=> [/andP[/Z.eqb_eq -> /Z.eqb_eq ->]|[-> ->]] //; rewrite !Z.eqb_refl. Qed.
Lemma same_low x y : lowest x -> lowest y -> same q_kops x y = Ok true -> x = y.
Proof.
move=> hx hy; case: (cmp_upto x y) => -> // [/Z.eqb_eq h].
apply: qv_inj => //; apply/eqP; rewrite /qv eqr_div ?low_den // -!izM h; apply/eqP; congr iz; clear; lia.
Qed.
Lemma qcmpE (s : nat -> nat -> bool) x y : lowest x -> lowest y -> s (qkey x) (qkey x) = false ->
  qcmp (fun x y => s (qkey x) (qkey y)) x y = Ok (s (qkey x) (qkey y)).
Proof.
move=> hx hy h0; rewrite /qcmp; case e : (same q_kops x y) => [[]| | |] //.
by rewrite -(same_low hx hy e) h0.
Qed.
Lemma q_spec : kspec q_up lowest qv qkey.
Proof.
split; rewrite /q_up /=.
- split=> /=.
  + by move=> x y hx hy; apply: upq_up; exact: qadd.
  + by move=> x y hx hy; apply: upq_up; exact: qsub.
  + by move=> x y hx hy; apply: upq_up; exact: qmul.
  + by move=> x hx; apply: upq_up; exact: qneg.
  + by move=> x y hx hy h0; apply: upq_up; exact: qdiv.
  + move=> x y hx hy; congr Ok; apply/idP/eqP => [/rat_eqbE -> //|/(qv_inj hx hy) ->]; exact/rat_eqbE.
- exact: qv_inj.
- move=> x hx h0.
  by have [z [-> hz]] := upq_up (qrecip hx h0); exists z.
- by move=> x v hx hv; apply: upq_up; exact: qint.
- by move=> x e hx h0 he; apply: upq_up; exact: qexp.
- move=> x hx; congr Ok; rewrite qv_eq0 // /rat_eqb_int; case: (Z.eqb_spec (numer x) 0) => [e|]; last by rewrite andbF.
  by case: hx; rewrite e Z.gcd_0_l => h1 h2; rewrite andbT; apply/Z.eqb_eq; clear - h1 h2; lia.
- move=> x hx; congr Ok; rewrite -[1]iz1 -qv_int; apply/idP/eqP.
    by case: x hx => a b hx; rewrite /rat_eqb_int /= => /andP[/Z.eqb_eq -> /Z.eqb_eq ->].
  by move=> /(qv_inj hx (low_int 1)) ->.
- by move=> x y hx hy; exact: (@qcmpE (fun a b => (a < b)%N) x y hx hy (ltnn _)).
- by move=> x y hx hy; exact: (@qcmpE (fun a b => (b < a)%N) x y hx hy (ltnn _)).
by move=> x y _ _; exact: qkey_inj.
Qed.
