(* The number of residues modulo a polynomial over a finite field that are coprime to it. *)
From mathcomp Require Import all_ssreflect fingroup perm all_algebra.
Set Implicit Arguments.
Unset Strict Implicit.
Unset Printing Implicit Defensive.
Import GRing.Theory.
Local Open Scope ring_scope.

Section Phi.
Variable F : finFieldType.
Let q := #|F|.
(* residues modulo p: polynomials of degree below that of p, as coefficient vectors *)
Definition phi (p : {poly F}) : nat := #|[set v : 'rV[F]_(size p).-1 | coprimep p (rVpoly v)]|.

Lemma card_rV n : #|[set: 'rV[F]_n]| = (q ^ n)%N.
Proof. by rewrite cardsT card_matrix mul1n. Qed.
Lemma rVpoly_size n (v : 'rV[F]_n) : (size (rVpoly v) <= n)%N.
Proof. exact: size_poly. Qed.
Lemma rV_mod n (p : {poly F}) (h : {poly F}) : p != 0 -> (size p).-1 = n -> (size (h %% p)%R <= n)%N.
Proof. by move=> p0 <-; rewrite -ltnS prednK ?size_poly_gt0 // ltn_modp. Qed.
Lemma sizeM (p r : {poly F}) : p != 0 -> r != 0 -> (size (p * r)%R).-1 = ((size p).-1 + (size r).-1)%N.
Proof.
move=> p0 r0; rewrite size_mul //; move: p0 r0; rewrite -!size_poly_gt0.
by case: (size p) => // a; case: (size r) => // b _ _; rewrite addSn addnS.
Qed.

Lemma phi_mul (p r : {poly F}) : coprimep p r -> p != 0 -> r != 0 -> phi (p * r) = (phi p * phi r)%N.
Proof.
move=> cpr p0 r0; set n := (size (p * r)).-1; set a := (size p).-1; set b := (size r).-1.
have en : n = (a + b)%N by rewrite /n sizeM.
pose f (v : 'rV[F]_n) : 'rV[F]_a * 'rV[F]_b := (poly_rV (rVpoly v %% p), poly_rV (rVpoly v %% r)).
have f1 v : rVpoly (f v).1 = rVpoly v %% p by rewrite poly_rV_K // rV_mod.
have f2 v : rVpoly (f v).2 = rVpoly v %% r by rewrite poly_rV_K // rV_mod.
have finj : injective f.
  move=> u v e; have e1 : rVpoly u %% p = rVpoly v %% p by rewrite -!f1 e.
  have e2 : rVpoly u %% r = rVpoly v %% r by rewrite -!f2 e.
  have d1 : p %| rVpoly u - rVpoly v by rewrite /dvdp modpD modpN e1 subrr.
  have d2 : r %| rVpoly u - rVpoly v by rewrite /dvdp modpD modpN e2 subrr.
  have d3 : p * r %| rVpoly u - rVpoly v by rewrite Gauss_dvdp // d1.
  have hs : (size (rVpoly u - rVpoly v)%R < size (p * r)%R)%N.
    rewrite -[size (p * r)%R]prednK ?size_poly_gt0 ?mulf_neq0 // ltnS -/n.
    by apply: leq_trans (size_add _ _) _; rewrite geq_max size_opp !rVpoly_size.
  apply: (can_inj (@rVpolyK _ _)); apply/eqP; rewrite -subr_eq0; apply/eqP.
  by rewrite -(modp_small hs); apply/eqP.
have fbij : bijective f.
  apply: inj_card_bij => //; rewrite card_prod !card_matrix !mul1n -expnD en //.
rewrite {1}/phi -/n /phi -/a -/b -cardsX -(on_card_preimset (f := f)); last first.
  by case: fbij => g g1 g2; exists g => x _ //; rewrite ?g1 ?g2.
apply: eq_card => v; rewrite !inE f1 f2 !coprimep_modr coprimepMl //.
Qed.

Lemma irr_coprime (p h : {poly F}) : irreducible_poly p -> coprimep p h = ~~ (p %| h).
Proof.
move=> [p1 hi]; have p0 : p != 0 by rewrite -size_poly_gt0 ltnW.
apply/idP/idP => [c|nd].
  apply/negP => d; move: c => /coprimepP /(_ p (dvdpp _) d) /eqp_size; rewrite size_poly1 => e.
  by rewrite e in p1.
apply/coprimepP => g g1 g2; rewrite -size_poly_eq1; apply: contraNT nd => hs.
by have := hi g hs g1; move/eqp_dvdl => <-.
Qed.

Lemma phi_pow (p : {poly F}) e : irreducible_poly p ->
  phi (p ^+ e.+1) = (q ^ ((size p).-1 * e) * (q ^ (size p).-1 - 1))%N.
Proof.
move=> hp; have [p1 _] := hp; have p0 : p != 0 by rewrite -size_poly_gt0 ltnW.
set d := (size p).-1; have hd : size p = d.+1 by rewrite prednK // ltnW.
have es k : (size (p ^+ k)).-1 = (d * k)%N.
  elim: k => [|k IH]; first by rewrite expr0 size_poly1 muln0.
  by rewrite exprS sizeM ?expf_neq0 // IH mulnS.
rewrite /phi; move: (es e.+1); set n := (size (p ^+ e.+1)).-1 => en.
have -> : [set v : 'rV_n | coprimep (p ^+ e.+1) (rVpoly v)] = ~: [set v | p %| rVpoly v].
  by apply/setP => v; rewrite !inE coprimep_pexpl // irr_coprime.
pose g (w : 'rV[F]_(d * e)) : 'rV[F]_n := poly_rV (p * rVpoly w).
have hg w : rVpoly (g w) = p * rVpoly w.
  rewrite poly_rV_K // en; have [->|w0] := eqVneq (rVpoly w) 0; first by rewrite mulr0 size_poly0.
  by rewrite size_mul // hd addSn /= mulnS leq_add2l rVpoly_size.
have ginj : injective g.
  move=> u v h; apply: (can_inj (@rVpolyK _ _)); apply: (mulfI p0); by rewrite -!hg h.
have -> : [set v : 'rV_n | p %| rVpoly v] = g @: setT.
  apply/setP => v; rewrite inE; apply/idP/imsetP => [|[w _ ->]]; last by rewrite hg dvdp_mulr.
  move=> h; have hv : rVpoly v = p * (rVpoly v %/ p) by rewrite mulrC divpK.
  have hsz : (size (rVpoly v %/ p)%R <= d * e)%N.
    rewrite size_divp // hd /= leq_subLR -mulnS -en; exact: rVpoly_size.
  exists (poly_rV (rVpoly v %/ p)) => //; apply: (can_inj (@rVpolyK _ _)).
  by rewrite hg poly_rV_K.
rewrite cardsCs setCK card_imset // card_rV card_matrix mul1n en.
by rewrite mulnBr muln1 -expnD addnC mulnS.
Qed.

Lemma phi1 : phi 1 = 1%N.
Proof.
rewrite /phi (_ : [set _ | _] = setT); last by apply/setP => v; rewrite !inE coprime1p.
by rewrite card_rV size_poly1.
Qed.
Lemma phi_le (p : {poly F}) : (phi p <= q ^ (size p).-1)%N.
Proof. by rewrite -card_rV subset_leq_card // subsetT. Qed.
End Phi.
