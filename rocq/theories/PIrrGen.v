(* Over every finite field there are irreducible polynomials of every positive degree. *)
From mathcomp Require Import all_ssreflect fingroup perm all_algebra cyclic falgebra fieldext finfield separable galois cyclotomic.
Set Implicit Arguments.
Unset Strict Implicit.
Unset Printing Implicit Defensive.
Import GRing.Theory.
Import FinVector.
Local Open Scope ring_scope.

Lemma ext_exists (F : finFieldType) n : (0 < n)%N ->
  exists L : fieldExtType F, \dim {:L} = n.
Proof.
move=> n0; set Q := #|F|; have q1 : (1 < Q)%N := finRing_gt1 _.
pose m := (Q ^ n)%N; have m_gt1: (m > 1)%N by rewrite (ltn_exp2l 0).
have m_gt0 := ltnW m_gt1; have m1_gt0: (m.-1 > 0)%N by rewrite -ltnS prednK.
have [p pp cF] := finCharP F.
have hQ0 : (Q%:R = 0 :> F).
  have [k e] : exists k, Q = (p ^ k)%N by eexists; exact: card_primeChar cF.
  move: q1; rewrite e natrX (charf0 cF) expr0n; by case: k {e}.
pose q (R : ringType) : {poly R} := 'X^m - 'X; have Dq (R : ringType): q R = ('X^m.-1 - 1) * ('X - 0).
  by rewrite subr0 mulrBl mul1r -exprSr prednK.
have /FinSplittingFieldFor[/= L splitLq]: q [ringType of F] != 0.
  by rewrite Dq monic_neq0 // rpredM // ?monicX ?subr0 ?monicX // monic_Xn_sub_1.
rewrite rmorphB rmorphX /= map_polyX -/(q L) in splitLq.
have hQL : (Q%:R = 0 :> L) by rewrite -(rmorph_nat [rmorphism of in_alg L]) hQ0 rmorph0.
pose Fm := FinFieldExtType L; exists L.
have /finField_galois_generator[/= a _ Da]: (1 <= {:L})%VS by apply: sub1v.
pose Em := fixedSpace (a ^+ n)%g; rewrite dimv1 expn1 in Da.
have{splitLq} [zs DqL defL] := splitLq.
have Uzs: uniq zs.
  rewrite -separable_prod_XsubC -(eqp_separable DqL) Dq separable_root andbC.
  rewrite /root !hornerE subr_eq0 eq_sym hornerXn expr0n gtn_eqF ?oner_eq0 //=.
  rewrite cyclotomic.separable_Xn_sub_1 // -subn1 natrB // subr_eq0.
  by rewrite natrX hQL expr0n gtn_eqF // eq_sym oner_eq0.
suffices hc : #|Fm| = m.
  have := @card_vspace F Fm _ {:L}%VS; rewrite card_vspacef [X in X = _ -> _]hc => /esym/eqP.
  by rewrite eqn_exp2l // => /eqP.
suffices /eq_card->: Fm =i zs.
  apply: succn_inj; rewrite (card_uniqP _) //= -(size_prod_XsubC _ id).
  by rewrite -(eqp_size DqL) size_addl size_polyXn // size_opp size_polyX.
have in_zs: zs =i Em.
  move=> z; rewrite -root_prod_XsubC -(eqp_root DqL) (sameP fixedSpaceP eqP).
  rewrite /root !hornerE subr_eq0 /= hornerXn /m; congr (_ == z).
  elim: (n) => [|i IHi]; first by rewrite gal_id.
  by rewrite expgSr expnSr exprM IHi galM ?Da ?memvf.
suffices defEm: Em = {:L}%VS by move=> z; rewrite in_zs defEm memvf.
apply/eqP; rewrite eqEsubv subvf -defL -[Em]subfield_closed agenvS //.
by rewrite subv_add sub1v; apply/span_subvP=> z; rewrite in_zs.
Qed.

Lemma irr_exists_gen (F : finFieldType) n : (0 < n)%N ->
  exists q : {poly F}, [/\ size q = n.+1, q \is monic & irreducible_poly q].
Proof.
move=> n0; have [L hdim] := ext_exists F n0; pose F0 := FinFieldExtType L.
have /cyclicP [z hz] := field_unit_group_cyclic [group of [set: {unit F0}]].
pose g : L := FinRing.uval z.
have hfull : <<1; g>>%VS = fullv.
  apply/eqP; rewrite eqEsubv subvf /=; apply/subvP => x _.
  have [->|x0] := eqVneq x 0; first by apply: mem0v.
  have xu : (x : F0) \is a GRing.unit by rewrite unitfE.
  have : FinRing.unit F0 xu \in [set: {unit F0}] by rewrite inE.
  rewrite /= hz => /cycleP [i /(congr1 (FinRing.uval)) /=].
  rewrite FinRing.val_unitX => ->.
  have -> : (FinRing.uval z : F0) ^+ i = g ^+ i by [].
  by apply: rpredX; apply: memv_adjoin.
have hdeg : adjoin_degree 1%AS g = n.
  by have := dim_Fadjoin 1%AS g; rewrite dimv1 muln1 => <-; rewrite hfull hdim.
have /polyOver1P [q hq] := minPolyOver 1%AS g.
have hsz : size q = n.+1 by rewrite -hdeg -size_minPoly hq size_map_poly.
exists q; split=> //.
  by rewrite -(map_monic [rmorphism of in_alg L]) -hq monic_minPoly.
split; first by rewrite hsz.
move=> r hr hd; have hd' : map_poly (in_alg L) r %| minPoly 1%AS g by rewrite hq dvdp_map.
have hpo : map_poly (in_alg L) r \is a polyOver 1%VS by apply/polyOver1P; exists r.
have /orP [h|h] := minPoly_irr hpo hd'.
  by rewrite -(eqp_map [rmorphism of in_alg L]) -hq.
by move: h; rewrite -size_poly_eq1 size_map_poly (negbTE hr).
Qed.
