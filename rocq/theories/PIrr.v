(* Over a prime field there are irreducible polynomials of every positive degree. *)
From mathcomp Require Import all_ssreflect fingroup perm all_algebra cyclic falgebra fieldext finfield separable.
Set Implicit Arguments.
Unset Strict Implicit.
Unset Printing Implicit Defensive.
Import GRing.Theory.
Local Open Scope ring_scope.

Lemma irr_exists p n : prime p -> (0 < n)%N ->
  exists q : {poly 'F_p}, [/\ size q = n.+1, q \is monic & irreducible_poly q].
Proof.
move=> pp n0; have [F0 cF0 cardF] := PrimePowerField pp n0.
pose L := primeChar_fieldExtType cF0.
have hdim : \dim {:L} = n.
  by have := primeChar_dimf cF0; rewrite [#|_|]cardF pfactorK.
have /cyclicP [z hz] := field_unit_group_cyclic [group of [set: {unit F0}]].
pose g : L := FinRing.uval z.
have hfull : <<1; g>>%VS = fullv.
  apply/eqP; rewrite eqEsubv subvf /=; apply/subvP => x _.
  have [->|x0] := eqVneq x 0; first by apply: mem0v.
  have xu : (x : F0) \is a GRing.unit by rewrite unitfE.
  have : FinRing.unit F0 xu \in [set: {unit F0}] by rewrite inE.
  rewrite /= hz => /cycleP [i /(congr1 (FinRing.uval)) /=].
  rewrite FinRing.val_unitX => ->.
  have -> : (FinRing.uval z : F0) ^+ i = g ^+ i by [].
  by apply: rpredX; apply: memv_adjoin.
have hdeg : adjoin_degree 1%AS g = n.
  by have := dim_Fadjoin 1%AS g; rewrite dimv1 muln1 => <-; rewrite hfull hdim.
have /polyOver1P [q hq] := minPolyOver 1%AS g.
have hsz : size q = n.+1 by rewrite -hdeg -size_minPoly hq size_map_poly.
exists q; split=> //.
  by rewrite -(map_monic [rmorphism of in_alg L]) -hq monic_minPoly.
split; first by rewrite hsz.
move=> r hr hd; have hd' : map_poly (in_alg L) r %| minPoly 1%AS g by rewrite hq dvdp_map.
have hpo : map_poly (in_alg L) r \is a polyOver 1%VS by apply/polyOver1P; exists r.
have /orP [h|h] := minPoly_irr hpo hd'.
  by rewrite -(eqp_map [rmorphism of in_alg L]) -hq.
by move: h; rewrite -size_poly_eq1 size_map_poly (negbTE hr).
Qed.
