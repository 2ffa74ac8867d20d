(* Powers of residues modulo a polynomial over a finite field: Euler's theorem, orders,
   generators of the unit group. *)
From mathcomp Require Import all_ssreflect fingroup perm all_algebra cyclic falgebra fieldext finfield separable.
From Verif Require Import PPhi PIrr.
Set Implicit Arguments.
Unset Strict Implicit.
Unset Printing Implicit Defensive.
Import GRing.Theory.
Local Open Scope ring_scope.

Section Euler.
Variable F : finFieldType.
Variable p : {poly F}.
Hypothesis p0 : p != 0.
Local Notation n := (size p).-1.
Let U : {set 'rV[F]_n} := [set v | coprimep p (rVpoly v)].

Lemma modp_eq (a b : {poly F}) : (a %% p == b %% p) = (p %| a - b).
Proof. by rewrite /dvdp modpD modpN subr_eq0. Qed.
Lemma coprime_cancel (a b c : {poly F}) : coprimep p c -> (a * c) %% p = (b * c) %% p -> a %% p = b %% p.
Proof.
by move=> h /eqP; rewrite modp_eq -mulrBl Gauss_dvdpl // -modp_eq => /eqP.
Qed.
Lemma rV_residue (h : {poly F}) : rVpoly (poly_rV (h %% p) : 'rV[F]_n) = h %% p.
Proof. by rewrite poly_rV_K // rV_mod. Qed.
Lemma rV_small (v : 'rV[F]_n) : rVpoly v %% p = rVpoly v.
Proof. by rewrite modp_small //; apply: leq_ltn_trans (rVpoly_size v) _; rewrite -ltnS prednK ?size_poly_gt0. Qed.

Lemma euler (r : {poly F}) : coprimep p r -> r ^+ phi p %% p = 1 %% p.
Proof.
move=> cr; pose f (v : 'rV[F]_n) : 'rV[F]_n := poly_rV ((r * rVpoly v) %% p).
have fE v : rVpoly (f v) = (r * rVpoly v) %% p by rewrite rV_residue.
have finj : injective f.
  move=> u v e; have : (rVpoly u * r) %% p = (rVpoly v * r) %% p by rewrite ![_ * r]mulrC -!fE e.
  by move/(coprime_cancel cr); rewrite !rV_small => /(can_inj (@rVpolyK _ _)).
have fU : f @: U = U.
  apply/eqP; rewrite eqEcard card_imset // leqnn andbT; apply/subsetP => w /imsetP [v hv ->].
  by rewrite inE fE coprimep_modr coprimepMr cr; rewrite inE in hv.
have e1 : \prod_(v in U) rVpoly v = \prod_(v in U) rVpoly (f v).
  by rewrite -{1}fU big_imset // => u v _ _; apply: finj.
have e2 : \prod_(v in U) rVpoly (f v) %% p = (r ^+ phi p * \prod_(v in U) rVpoly v) %% p.
  have -> : r ^+ phi p * \prod_(v in U) rVpoly v = \prod_(v in U) (r * rVpoly v).
    by rewrite big_split /= prodr_const.
  elim/big_rec2: _ => [//|v a b _ e]; rewrite fE -modp_mul e modp_mul mulrC modp_mul mulrC //.
have cP : coprimep p (\prod_(v in U) rVpoly v).
  by elim/big_rec: _ => [|v a hv ha]; rewrite ?coprimep1 // coprimepMr ha andbT; rewrite inE in hv.
by apply: (coprime_cancel cP); rewrite -e2 -e1 mul1r.
Qed.

(* the residue r has order k *)
Definition has_order (r : {poly F}) (k : nat) : Prop :=
  [/\ (0 < k)%N, r ^+ k %% p = 1 %% p & forall j, (0 < j < k)%N -> r ^+ j %% p <> 1 %% p].
Definition generates (r : {poly F}) : Prop := forall h, coprimep p h -> exists j, h %% p = r ^+ j %% p.

Lemma pow_modn (r : {poly F}) k j : r ^+ k %% p = 1 %% p -> r ^+ j %% p = r ^+ (j %% k) %% p.
Proof.
move=> e; rewrite {1}(divn_eq j k) exprD mulnC exprM mulrC -modp_mul.
have -> : ((r ^+ k) ^+ (j %/ k)) %% p = 1 %% p.
  elim: (_ %/ _)%N => [|i IH]; first by rewrite expr0.
  by rewrite exprS -modp_mul IH modp_mul mulr1.
by rewrite modp_mul mulr1.
Qed.
Lemma order_div (r : {poly F}) k j : has_order r k -> (r ^+ j %% p == 1 %% p) = (k %| j)%N.
Proof.
move=> [k0 hk hm]; rewrite (pow_modn j hk) /dvdn.
case: (posnP (j %% k)) => [->|hj]; first by rewrite expr0 !eqxx.
apply/negbTE/eqP; apply: hm; by rewrite hj ltn_mod.
Qed.
Lemma coprimeX (r : {poly F}) j : coprimep p r -> coprimep p (r ^+ j).
Proof. by move=> h; elim: j => [|j IH]; rewrite ?expr0 ?coprimep1 // exprS coprimepMr h. Qed.

Lemma order_generates (r : {poly F}) k : coprimep p r -> has_order r k -> k = phi p <-> generates r.
Proof.
move=> cr ho; have [k0 hk hm] := ho.
pose f (i : 'I_k) : 'rV[F]_n := poly_rV (r ^+ i %% p).
have fE i : rVpoly (f i) = r ^+ i %% p by rewrite rV_residue.
have finj : injective f.
  have hlt (i j : 'I_k) : f i = f j -> (i <= j)%N -> i = j.
    move=> e hij; apply: val_inj; apply/eqP; rewrite eqn_leq hij /=.
    have e1 : r ^+ i %% p = r ^+ j %% p by rewrite -!fE e.
    have : r ^+ (j - i) %% p = 1 %% p.
      apply: (coprime_cancel (coprimeX i cr)); rewrite mul1r -exprD subnK //.
    by move/eqP; rewrite (order_div _ ho) => /dvdn_leq; case: (posnP (j - i)) => [/eqP|h /(_ isT)];
       rewrite ?subn_eq0 // leqNgt (leq_ltn_trans (leq_subr _ _) (ltn_ord j)).
  by move=> i j e; case/orP: (leq_total i j) => h; [apply: hlt|apply/esym/hlt].
have fU : f @: [set: 'I_k] \subset U.
  by apply/subsetP => w /imsetP [i _ ->]; rewrite inE fE coprimep_modr coprimeX.
have fcard : #|f @: [set: 'I_k]| = k by rewrite card_imset // cardsT card_ord.
have inU h : coprimep p h -> poly_rV (h %% p) \in U by move=> c; rewrite inE rV_residue coprimep_modr.
split=> [e h ch|hg].
  have eU : f @: [set: 'I_k] = U by apply/eqP; rewrite eqEcard fU fcard e /=.
  have := inU h ch; rewrite -eU => /imsetP [i _ /(congr1 rVpoly)]; rewrite rV_residue fE => ->; by exists i.
apply/eqP; rewrite -fcard eqn_leq subset_leq_card //=; apply: subset_leq_card.
apply/subsetP => w hw; rewrite inE in hw; have [j hj] := hg _ hw.
apply/imsetP; exists (Ordinal (ltn_pmod j k0)) => //.
by apply: (can_inj (@rVpolyK _ _)); rewrite fE /= -(pow_modn j hk) -hj rV_small.
Qed.
Lemma phi_gt0 : (0 < phi p)%N.
Proof. by apply/card_gt0P; exists (poly_rV (1 %% p)); rewrite inE rV_residue coprimep_modr coprimep1. Qed.
Lemma order_exists (r : {poly F}) : coprimep p r -> exists k, has_order r k /\ (k %| phi p)%N.
Proof.
move=> cr; have hex : exists k, (0 < k)%N && (r ^+ k %% p == 1 %% p).
  by exists (phi p); rewrite phi_gt0 /=; apply/eqP; apply: euler.
case: (ex_minnP hex) => k /andP [k0 /eqP hk] hm; exists k.
have ho : has_order r k.
  split=> // j /andP [j0 hj] e; have := hm j; rewrite j0 e eqxx => /(_ isT); by rewrite leqNgt hj.
by split=> //; rewrite -(order_div _ ho); apply/eqP; apply: euler.
Qed.
End Euler.

(* the unit group of a field is cyclic *)
Lemma gen_exists (F : finFieldType) (p : {poly F}) : irreducible_poly p ->
  exists g, coprimep p g /\ generates p g.
Proof.
move=> hirr; have [L hdim [z hz hfull]] := irredp_FAdjoin hirr.
pose ev (h : {poly F}) : L := (map_poly (in_alg L) h).[z].
have evB a b : ev (a - b) = ev a - ev b by rewrite /ev rmorphB hornerD hornerN.
have evM a b : ev (a * b) = ev a * ev b by rewrite /ev rmorphM hornerM.
have evD a b : ev (a + b) = ev a + ev b by rewrite /ev rmorphD hornerD.
have ev1 : ev 1 = 1 by rewrite /ev rmorph1 hornerC.
have evX a j : ev (a ^+ j) = ev a ^+ j by elim: j => [|j IH]; rewrite ?expr0 // !exprS evM IH.
have evp : ev p = 0 by apply/eqP; apply: hz.
have ev0 h : coprimep p h = (ev h != 0).
  apply/idP/idP => [/Bezout_eq1_coprimepP [[u v] /= e]|h0].
    apply: contra_eqN ev1 => /eqP e0; rewrite -e evD !evM evp e0 !mulr0 addr0.
    by rewrite eq_sym oner_eq0.
  rewrite irr_coprime //; apply: contraNN h0 => /dvdpP [q ->]; by rewrite evM evp mulr0.
pose FL := FinFieldExtType L.
have /cyclicP [w hw] := field_unit_group_cyclic [group of [set: {unit FL}]].
have pw (x : L) : x != 0 -> exists j, x = (FinRing.uval w : L) ^+ j.
  move=> x0; have xu : (x : FL) \is a GRing.unit by rewrite unitfE.
  have : FinRing.unit FL xu \in [set: {unit FL}] by rewrite inE.
  rewrite /= hw => /cycleP [j /(congr1 (FinRing.uval)) /=]; rewrite FinRing.val_unitX => e; by exists j.
have : (FinRing.uval w : L) \in <<1; z>>%VS by rewrite hfull memvf.
move=> /Fadjoin_polyP [g' hg' eg]; have /polyOver1P [g hg] := hg'.
have eg2 : ev g = FinRing.uval w by rewrite /ev -hg -eg.
exists g; split=> [|h].
  by rewrite ev0 eg2 -unitfE; exact: (valP w).
rewrite ev0 => /pw [j ej]; exists j; apply/eqP; rewrite modp_eq.
rewrite -[_ %| _]negbK -irr_coprime // ev0 negbK evB evX eg2 -ej subrr //.
Qed.

(* primitive polynomials exist *)
Lemma prim_exists p n : prime p -> (0 < n)%N ->
  exists q : {poly 'F_p}, [/\ size q = n.+1, q \is monic, irreducible_poly q & coprimep q 'X /\ generates q 'X].
Proof.
move=> pp n0; have [F0 cF0 cardF] := PrimePowerField pp n0.
pose L := primeChar_fieldExtType cF0.
have hdim : \dim {:L} = n.
  by have := primeChar_dimf cF0; rewrite [#|_|]cardF pfactorK.
have /cyclicP [z hz] := field_unit_group_cyclic [group of [set: {unit F0}]].
pose g : L := FinRing.uval z.
have pw (x : L) : x != 0 -> exists i, x = g ^+ i.
  move=> x0; have xu : (x : F0) \is a GRing.unit by rewrite unitfE.
  have : FinRing.unit F0 xu \in [set: {unit F0}] by rewrite inE.
  rewrite /= hz => /cycleP [i /(congr1 (FinRing.uval)) /=].
  by rewrite FinRing.val_unitX => ->; exists i.
have g0 : g != 0 by have := valP z; rewrite unitfE.
have hfull : <<1; g>>%VS = fullv.
  apply/eqP; rewrite eqEsubv subvf /=; apply/subvP => x _.
  have [->|x0] := eqVneq x 0; first by apply: mem0v.
  by have [i ->] := pw _ x0; apply: rpredX; apply: memv_adjoin.
have hdeg : adjoin_degree 1%AS g = n.
  by have := dim_Fadjoin 1%AS g; rewrite dimv1 muln1 => <-; rewrite hfull hdim.
have /polyOver1P [q hq] := minPolyOver 1%AS g.
have hsz : size q = n.+1 by rewrite -hdeg -size_minPoly hq size_map_poly.
have hirr : irreducible_poly q.
  split; first by rewrite hsz.
  move=> r hr hd; have hd' : map_poly (in_alg L) r %| minPoly 1%AS g by rewrite hq dvdp_map.
  have hpo : map_poly (in_alg L) r \is a polyOver 1%VS by apply/polyOver1P; exists r.
  have /orP [h|h] := minPoly_irr hpo hd'.
    by rewrite -(eqp_map [rmorphism of in_alg L]) -hq.
  by move: h; rewrite -size_poly_eq1 size_map_poly (negbTE hr).
have hdv (h : {poly 'F_p}) : (q %| h) = ((map_poly (in_alg L) h).[g] == 0).
  rewrite -(dvdp_map [rmorphism of in_alg L]) -hq; apply/idP/eqP => [hd|e].
    by have /dvdpP [u ->] := hd; rewrite hornerM (eqP (root_minPoly _ _ : _ == 0)) mulr0.
  by apply: minPoly_dvdp; [apply/polyOver1P; exists h|apply/eqP].
exists q; split=> //.
  by rewrite -(map_monic [rmorphism of in_alg L]) -hq monic_minPoly.
split; first by rewrite irr_coprime // hdv map_polyX hornerX.
move=> h; rewrite irr_coprime // hdv => /pw [i ei]; exists i; apply/eqP.
by rewrite modp_eq hdv rmorphB hornerD hornerN /= map_polyXn hornerXn ei subrr.
Qed.
