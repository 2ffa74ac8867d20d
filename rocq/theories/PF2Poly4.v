(* GF(2) polynomials: derivative, square root, evaluation; residues modulo a polynomial. *)
From Verif Require Import Base MIntMath MMat MBits PBits MF2Poly PPow PF2Poly PF2Poly3.
From mathcomp Require Import all_ssreflect fingroup perm all_algebra ssrZ.
From Verif Require Import PBits3 PF2Poly2.
Set Implicit Arguments.
Unset Strict Implicit.
Unset Printing Implicit Defensive.
Import GRing.Theory.
Delimit Scope Z_scope with coqZ.
Local Open Scope ring_scope.

Lemma natF2 n : n%:R = Ib (odd n) :> 'F_2.
Proof.
elim: n => [|n IH]; first by rewrite mulr0n.
by rewrite mulrS IH /=; case: (odd n) => /=; apply/val_inj.
Qed.
Lemma even_nat n : Nat.even n = ~~ odd n.
Proof.
have : Nat.even n = ~~ odd n /\ Nat.even n.+1 = odd n; last by case.
by elim: n => [|n [h1 h2]] //=; split=> //; rewrite ?h2 ?h1 ?negbK.
Qed.
Lemma deriv_P a p : isW a p -> exists l, f2_deriv a = Ok l /\ isP l p^`().
Proof.
move=> [hw <-]; have [l [-> [hc hb]]] := deriv_ok _ hw; exists l; split=> //; split=> //.
apply/polyP=> i; rewrite coef_deriv !coefPl hb even_nat -mulr_natr natF2 /= -Ib_and.
by rewrite andbC.
Qed.

Lemma sqr_coef (p : {poly 'F_2}) : forall i, (p ^+ 2)`_i = if odd i then 0 else p`_i./2.
Proof.
elim/poly_ind: p => [|p c IH] i; first by rewrite expr0n /= !coef0 if_same.
have -> : (p * 'X + c%:P) ^+ 2 = p ^+ 2 * 'X^2 + c%:P.
  rewrite sqrrD mulr2n addF2 addr0 exprMn -rmorphX /=; congr (_ + _%:P).
  by case: (Ib_surj c) => -[] <-; apply/val_inj.
rewrite coefD coefMXn coefC; case: i => [|[|i]] //=.
- by rewrite add0r coefD coefMX coefC eqxx add0r.
- by rewrite addr0.
- rewrite addr0 subn2 /= IH negbK; case: (odd i) => //.
  by rewrite coefD coefMX coefC /= addr0.
Qed.
Lemma sqrt_P a p : isW a p -> exists r, f2_sqrt a = Ok r /\
  match r with
  | Some l => exists q, isP l q /\ q ^+ 2 = p
  | None => forall q, q ^+ 2 <> p
  end.
Proof.
move=> [hw <-]; have [r [-> hr]] := sqrt_ok _ hw; exists r; split=> //.
case: r hr => [l [hc [ho hb]]|[j hj]].
  exists (P l); split=> //; apply/polyP=> i; rewrite sqr_coef.
  have := odd_double_half i; case: (odd i) => /= [e|]; rewrite !coefPl.
    suff -> : bitl a i = false by [].
    by rewrite -(ho i./2); congr (bitl a _); rewrite -{1}e -muln2; lia.
  by rewrite hb add0n => e; congr (Ib (bitl a _)); rewrite -{2}e -muln2; lia.
move=> q e; move: (f_equal (fun p : {poly _} => p`_(Nat.add (Nat.mul 2 j) 1)) e).
rewrite coefPl hj sqr_coef.
have -> : odd (Nat.add (Nat.mul 2 j) 1).
  have -> : Nat.add (Nat.mul 2 j) 1 = (j.*2).+1 by rewrite -muln2; lia.
  by rewrite /= odd_double.
by move/(@Ib_inj false true).
Qed.

Lemma Ib_xsum s : Ib (xsum s) = \sum_(b <- s) Ib b.
Proof. by elim: s => [|b s IH] /=; rewrite ?big_nil // big_cons Ib_xor IH. Qed.
Lemma eval_P a p c : isW a p -> (64 * Z.of_nat (length a) <= INT_MAX)%coqZ ->
  exists b : bool, f2_eval a c = Ok (Z.b2z b) /\ Ib b = p.[Ib (Z.odd c)].
Proof.
move=> [hw <-] hl; rewrite /f2_eval; case: (Z.odd c).
  rewrite zcount_ok //; eexists; split; first by [].
  rewrite Ib_xsum -[X in _ = _.[X]]/1 horner_poly.
  change (List.map (bitl a) (List.seq 0 (Nat.mul 64 (length a)))) with (seq.map (bitl a) (iota 0 (Nat.mul 64 (length a)))).
  rewrite big_map.
  rewrite -(big_mkord xpredT (fun i => Ib (bitl a i) * 1 ^+ i)) /index_iota subn0.
  by apply: eq_bigr => i _; rewrite expr1n mulr1.
case: hw => h0 hw; rewrite rdw_ok // bind_ok; exists (bitl a 0); split.
  congr Ok; rewrite /bitl /=.
  change 1%num with (N.ones 1); rewrite N.land_ones -N.bit0_mod.
  by case: N.testbit.
by rewrite -[X in _ = _.[X]]/0 horner_coef0 coefPl.
Qed.

(* ---------------------------------------------------------------- residues *)
Definition isM (a : fpmod) (r m : {poly 'F_2}) : Prop :=
  isP (pm_res a) r /\ isP (pm_mod a) m /\ (size r < size m)%N.

Lemma isM_m0 a r m : isM a r m -> m != 0.
Proof. by case=> _ [_ h]; rewrite -size_poly_gt0; apply: leq_ltn_trans h. Qed.
Lemma isM_mod a r m : isM a r m -> (r %% m)%R = r.
Proof. by case=> _ [_ h]; rewrite modp_small. Qed.
Lemma isM_uniq a b r m : isM a r m -> isM b r m -> a = b.
Proof.
case: a b => [x y] [x' y'] [/= h1 [h2 _]] [/= h3 [h4 _]].
by rewrite (isP_uniq h1 h3) (isP_uniq h2 h4).
Qed.
Lemma isM_inj a r m r' m' : isM a r m -> isM a r' m' -> r = r' /\ m = m'.
Proof. by move=> [[_ <-] [[_ <-] _]] [[_ <-] [[_ <-] _]]. Qed.

Lemma make_L l lm p m : isL l p -> isP lm m -> m != 0 ->
  exists a, pm_make l lm = Ok a /\ isM a (p %% m)%R m.
Proof.
move=> hl hm m0; rewrite /pm_make; have [c [-> hc]] := mod_L hl (isP_L hm) m0.
by rewrite bind_ok; eexists; split; first by []; split=> //; split=> //; exact: size_mod_lt.
Qed.
Lemma make_zero l lm p : isL l p -> isW lm 0 -> pm_make l lm = Exn.
Proof. by move=> hl hm; rewrite /pm_make /f2_mod (quot_rem_zero (isL_W hl).1 hm). Qed.
Lemma check_ok a b r s m m' : isM a r m -> isM b s m' -> pm_check a b = if m == m' then Ok tt else Exn.
Proof.
move=> [_ [ha _]] [_ [hb _]]; rewrite /pm_check (neqb_P (isP_W ha) (isP_W hb)) bind_ok.
by case: eqP.
Qed.
Section Two.
Variables (a b : fpmod) (r s m : {poly 'F_2}).
Hypotheses (ha : isM a r m) (hb : isM b s m).
Let m0 := isM_m0 ha.
Let hm : isP (pm_mod a) m := ha.2.1.
Lemma pm_add_ok : exists c, pm_add a b = Ok c /\ isM c (r + s) m.
Proof.
rewrite /pm_add (check_ok ha hb) eqxx bind_ok.
have [c [-> hc]] := add_W (isP_W ha.1) (isP_W hb.1); rewrite bind_ok.
have [d [-> hd]] := make_L (isP_L hc) hm m0; exists d; split=> //.
by move: hd; rewrite modpD (isM_mod ha) (isM_mod hb).
Qed.
Lemma pm_sub_ok : exists c, pm_sub a b = Ok c /\ isM c (r - s) m.
Proof.
rewrite /pm_sub (check_ok ha hb) eqxx bind_ok.
have [c [-> hc]] := sub_W (isP_W ha.1) (isP_W hb.1); rewrite bind_ok.
have [d [-> hd]] := make_L (isP_L hc) hm m0; exists d; split=> //.
by move: hd; rewrite modpD modpN (isM_mod ha) (isM_mod hb).
Qed.
Lemma pm_neg_ok : exists c, pm_neg a = Ok c /\ isM c (- r) m.
Proof.
rewrite /pm_neg; have [d [-> hd]] := make_L (isP_L ha.1) hm m0; exists d; split=> //.
by move: hd; rewrite (isM_mod ha) oppF2.
Qed.
Lemma pm_mul_ok : exists c, pm_mul a b = Ok c /\ isM c ((r * s) %% m)%R m.
Proof.
rewrite /pm_mul (check_ok ha hb) eqxx bind_ok.
have [c [-> hc]] := mul_L ha.1 (isP_L hb.1); rewrite bind_ok.
by have [d [-> hd]] := make_L hc hm m0; exists d.
Qed.
Lemma pm_eqb_ok : pm_eqb a b = Ok (r == s).
Proof.
rewrite /pm_eqb (neqb_P (isP_W ha.1) (isP_W hb.1)) bind_ok; case: eqP => //= _.
by rewrite (neqb_P (isP_W hm) (isP_W hb.2.1)) bind_ok eqxx.
Qed.
Lemma pm_recip_unit : coprimep r m -> exists c t, pm_recip a = Ok (Some c) /\ isM c t m /\ ((r * t) %% m = 1 %% m)%R.
Proof.
move=> hcop; rewrite /pm_recip.
have [d [x [y [-> [hd [px [py [hx [hy hB]]]]]]]]] := ext_gcd_L (isP_L ha.1) (isP_L hm).
have hg : gcdp r m = 1 by apply: eqp_F2; rewrite -size_poly_eq1 -coprimep_def.
rewrite bind_ok (degree_thm (isL_W hd)) hg size_poly1 bind_ok /=.
have [c [-> hc]] := make_L (isP_L hx) hm m0; rewrite bind_ok.
exists c, (px %% m)%R; split=> //; split=> //.
by rewrite modp_mul -hg -hB modpD modp_mull addr0 mulrC.
Qed.
Lemma pm_recip_nonunit : ~~ coprimep r m -> pm_recip a = Ok None.
Proof.
move=> hcop; rewrite /pm_recip.
have [d [x [y [-> [hd _]]]]] := ext_gcd_L (isP_L ha.1) (isP_L hm).
rewrite bind_ok (degree_thm (isL_W hd)) bind_ok.
have g0 : gcdp r m != 0 by rewrite gcdp_eq0 negb_and m0 orbT.
case: Nat.eqb_spec => // e; case/negP: hcop.
by rewrite coprimep_def (size_nz g0) e.
Qed.
End Two.
Lemma isM_1 lm m : isP lm m -> m != 0 -> exists a, pm_make (f2_of_int 1) lm = Ok a /\ isM a (1 %% m)%R m.
Proof. move=> hm m0; exact: make_L (isP_L isP1) hm m0. Qed.
Lemma pm_mul_int_ok a r m k : isM a r m -> exists c, pm_mul_int a k = Ok c /\ isM c (Ib (Z.odd k) *: r) m.
Proof.
move=> ha; rewrite /pm_mul_int; case: (Z.odd k); first by exists a; rewrite scale1r.
by have [c [-> hc]] := pm_sub_ok ha ha; exists c; rewrite scale0r -(subrr r).
Qed.

Lemma coprime_inv (r m t : {poly 'F_2}) : (1 < size m)%N -> ((r * t) %% m = 1 %% m)%R -> coprimep r m.
Proof.
move=> hm h; have h1 : ((r * t) %% m = 1)%R by rewrite h modp_small // size_poly1.
apply/coprimepP => d hdr hdm.
have : d %| 1.
  by rewrite -h1 -(dvdp_mod _ hdm) dvdp_mulr.
by rewrite dvdp1 -size_poly_eq1.
Qed.

Section Div.
Variables (a b : fpmod) (r s m : {poly 'F_2}).
Hypotheses (ha : isM a r m) (hb : isM b s m).
(* the quotient is the unique residue that times the divisor gives the dividend *)
Lemma pm_div_unit : coprimep s m -> exists c t, pm_div a b = Ok c /\ isM c t m /\ ((t * s) %% m)%R = r.
Proof.
move=> hc; rewrite /pm_div (check_ok ha hb) eqxx bind_ok.
have [bi [t [-> [ht e]]]] := pm_recip_unit hb hc; rewrite bind_ok.
have [c [-> hcc]] := pm_mul_ok ha ht; exists c, ((r * t) %% m)%R; split=> //; split=> //.
by rewrite mulrC modp_mul mulrCA -modp_mul e modp_mul mulr1 (isM_mod ha).
Qed.
Lemma pm_div_nonunit : ~~ coprimep s m -> pm_div a b = Exn.
Proof.
by move=> hc; rewrite /pm_div (check_ok ha hb) eqxx bind_ok (pm_recip_nonunit hb hc) bind_ok.
Qed.
Lemma pm_rem_unit : coprimep s m -> exists c, pm_rem a b = Ok c /\ isM c 0 m.
Proof.
move=> hc; rewrite /pm_rem (check_ok ha hb) eqxx bind_ok.
have [bi [t [-> _]]] := pm_recip_unit hb hc; rewrite bind_ok.
by have [c [-> h]] := pm_sub_ok ha ha; exists c; rewrite -(subrr r).
Qed.
Lemma pm_rem_nonunit : ~~ coprimep s m -> pm_rem a b = Exn.
Proof.
by move=> hc; rewrite /pm_rem (check_ok ha hb) eqxx bind_ok (pm_recip_nonunit hb hc) bind_ok.
Qed.
End Div.
Lemma pm_mixed a b r s m m' : isM a r m -> isM b s m' -> m != m' ->
  pm_add a b = Exn /\ pm_sub a b = Exn /\ pm_mul a b = Exn /\ pm_div a b = Exn /\ pm_rem a b = Exn /\
  pm_ltb a b = Exn /\ pm_leb a b = Exn /\ pm_gtb a b = Exn /\ pm_geb a b = Exn /\ pm_eqb a b = Ok false.
Proof.
move=> ha hb /negbTE e.
rewrite /pm_add /pm_sub /pm_mul /pm_div /pm_rem /pm_ltb /pm_leb /pm_gtb /pm_geb (check_ok ha hb) e.
do 9 (split=> //).
rewrite /pm_eqb (neqb_P (isP_W ha.1) (isP_W hb.1)) bind_ok; case: eqP => //= _.
by rewrite (neqb_P (isP_W ha.2.1) (isP_W hb.2.1)) bind_ok e.
Qed.

(* powers *)
Definition mulmod (lm x y : fpoly) : res fpoly := p <- f2_mul x y ;; f2_mod p lm.
Lemma pm_loop_eq lm fuel : forall s, (0 <= s.1.1 <= INT_MAX)%coqZ ->
  loop fuel (pm_exp_step lm) s = loop fuel (pow_step (mulmod lm)) s.
Proof.
elim: fuel => [|f IH] //= [[e x] r] /= he; rewrite /pm_exp_step /pow_step /mulmod.
case: Z.eqb => //; case: (if Z.odd e then _ else _) => // r'.
rewrite !bind_ok; case: (f2_mul x x) => //= x1; case: (f2_mod x1 lm) => //= x'.
have -> : u32 e = e by rewrite /u32 Z.mod_small //; rewrite /INT_MAX in he; lia.
by apply: IH => /=; split; [apply: Z.div_pos; lia|apply: Z.div_le_upper_bound; rewrite /INT_MAX in he *; lia].
Qed.
Lemma modp_mull2 (p q m : {poly 'F_2}) : (((p %% m) * q) %% m = (p * q) %% m)%R.
Proof. by rewrite mulrC modp_mul mulrC. Qed.
Lemma mpow_mod (m x y : {poly 'F_2}) n :
  mpow (fun p q => (p * q) %% m)%R x n (y %% m)%R = ((y * x ^+ n) %% m)%R.
Proof.
elim: n y => [|n IH] y /=; first by rewrite expr0 mulr1.
by rewrite modp_mull2 IH exprS mulrA.
Qed.
Lemma pm_pow_loop lm m l p l1 e : isP lm m -> m != 0 -> isP l p -> (size p < size m)%N -> isP l1 (1 %% m)%R ->
  (0 <= e <= INT_MAX)%coqZ ->
  exists c, loop 34 (pm_exp_step lm) (e, l, l1) = Ok c /\ isP c (p ^+ Z.to_nat e %% m)%R /\
    (size (p ^+ Z.to_nat e %% m)%R < size m)%N.
Proof.
move=> hm m0 hl hp h1 he; rewrite pm_loop_eq //.
have [|||||||c [-> hc]] := @pow_loop_ok fpoly {poly 'F_2} (mulmod lm) (fun l p => isP l p /\ (size p < size m)%N)
    (fun p q => (p * q) %% m)%R _ _ 34 e l p l1 (1 %% m)%R.
- move=> x y q r [hx sx] [hy sy]; rewrite /mulmod; have [z [-> hz]] := mul_L hx (isP_L hy).
  rewrite bind_ok; have [w [-> hw]] := mod_L hz (isP_L hm) m0.
  by exists w; split=> //; split=> //; exact: size_mod_lt.
- by move=> x y z; rewrite modp_mull2 modp_mul mulrA.
- by [].
- by split=> //; exact: size_mod_lt.
- by [].
- exact: (Z.le_lt_trans _ INT_MAX _ (proj2 he)).
- by lia.
- by exists c; split=> //; move: hc; rewrite mpow_mod mul1r.
Qed.

Section Exp.
Variables (a : fpmod) (r m : {poly 'F_2}).
Hypothesis (ha : isM a r m).
Let m0 := isM_m0 ha.
Let hm : isP (pm_mod a) m := ha.2.1.
Lemma pm_exp_pos e : (0 <= e <= INT_MAX)%coqZ -> (e <> 0)%coqZ \/ r != 0 ->
  exists c, pm_exp a e = Ok c /\ isM c (r ^+ Z.to_nat e %% m)%R m.
Proof.
move=> he hne; rewrite /pm_exp.
have [z [-> hz]] := make_L (isP_L isP0) hm m0; rewrite bind_ok.
have [o [-> ho]] := make_L (isP_L isP1) hm m0; rewrite bind_ok.
case: Z.eqb_spec => h0.
  rewrite (pm_eqb_ok ha hz) bind_ok mod0p; case: hne => [//|/negbTE ->].
  by exists o; rewrite h0 expr0.
case: Z.ltb_spec => [|_]; first lia.
rewrite bind_ok.
have [c [-> [hc1 hc2]]] := pm_pow_loop hm m0 ha.1 ha.2.2 ho.1 he.
by rewrite bind_ok; eexists; split; first by [].
Qed.
Lemma pm_exp_00 : r = 0 -> pm_exp a 0 = Exn.
Proof.
move=> r0; rewrite /pm_exp.
have [z [-> hz]] := make_L (isP_L isP0) hm m0; rewrite bind_ok.
have [o [-> ho]] := make_L (isP_L isP1) hm m0; rewrite bind_ok /=.
by rewrite (pm_eqb_ok ha hz) bind_ok mod0p r0 eqxx.
Qed.
Lemma pm_exp_neg e : (- INT_MAX <= e < 0)%coqZ -> r != 0 -> coprimep r m ->
  exists c t u, pm_exp a e = Ok c /\ isM c t m /\ ((r * u) %% m = 1 %% m)%R /\ (t = u ^+ Z.to_nat (- e) %% m)%R.
Proof.
move=> he r0 hcop; rewrite /pm_exp.
have [z [-> hz]] := make_L (isP_L isP0) hm m0; rewrite bind_ok.
have [o [-> ho]] := make_L (isP_L isP1) hm m0; rewrite bind_ok.
case: Z.eqb_spec => h0; first lia.
case: Z.ltb_spec => [_|]; last lia.
rewrite (pm_eqb_ok ha hz) bind_ok mod0p (negbTE r0).
have -> : ineg e = Ok (- e)%coqZ by rewrite /ineg chk_ok //; rewrite /INT_MAX /INT_MIN in he *; lia.
rewrite bind_ok.
have [c [t [-> [ht e1]]]] := pm_div_unit ho ha hcop; rewrite bind_ok bind_ok.
have he2 : (0 <= - e <= INT_MAX)%coqZ by lia.
have [d [-> [hd1 hd2]]] := pm_pow_loop hm m0 ht.1 ht.2.2 ho.1 he2.
rewrite bind_ok; eexists; exists (t ^+ Z.to_nat (- e) %% m)%R, t; split; first by [].
by do !split=> //; rewrite mulrC e1.
Qed.
Lemma pm_exp_neg_nonunit e : (INT_MIN <= e < 0)%coqZ -> r = 0 \/ (~~ coprimep r m /\ (e <> INT_MIN)%coqZ) -> pm_exp a e = Exn.
Proof.
move=> he hr; rewrite /pm_exp.
have [z [-> hz]] := make_L (isP_L isP0) hm m0; rewrite bind_ok.
have [o [-> ho]] := make_L (isP_L isP1) hm m0; rewrite bind_ok.
case: Z.eqb_spec => h0; first lia.
case: Z.ltb_spec => [_|]; last lia.
rewrite (pm_eqb_ok ha hz) bind_ok mod0p; case: eqVneq => // r0.
case: hr => [hr|[hcop hne]]; first by rewrite hr eqxx in r0.
have -> : ineg e = Ok (- e)%coqZ by rewrite /ineg chk_ok //; rewrite /INT_MAX /INT_MIN in he hne *; lia.
by rewrite bind_ok (pm_div_nonunit ho ha hcop).
Qed.
End Exp.
