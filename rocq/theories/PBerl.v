(* Berlekamp's algorithm: the mathematics, over any finite field F with q elements.

   K f h: h has degree below that of f and h^q = h modulo f. *)
From mathcomp Require Import all_ssreflect fingroup perm all_algebra finfield separable.
Set Implicit Arguments.
Unset Strict Implicit.
Unset Printing Implicit Defensive.
Import GRing.Theory.
Local Open Scope ring_scope.

Section Math.
Variable F : finFieldType.
Let q := #|F|.
Implicit Types (f g h u v : {poly F}).

Lemma exists_char : exists p, [/\ prime p, p \in [char F] & p.-nat q].
Proof.
have [p p_pr hp] := finCharP F; exists p; split=> //.
by have := card_primeChar hp; rewrite /q => ->; rewrite pnatX pnat_id ?orbT.
Qed.
Lemma frobD g h : (g + h) ^+ q = g ^+ q + h ^+ q.
Proof.
have [p [p_pr hp hq]] := exists_char.
apply: exprDn_char; apply: sub_in_pnat hq => x _; rewrite inE => /eqP ->.
by rewrite char_lalg.
Qed.
Lemma q_gt0 : (0 < q)%N.
Proof. by apply/card_gt0P; exists 0. Qed.
Lemma frob_comp h : h ^+ q = h \Po 'X^q.
Proof.
elim/poly_ind: h => [|h c IH]; first by rewrite comp_poly0 expr0n (gtn_eqF q_gt0).
by rewrite frobD exprMn IH comp_poly_MXaddC -rmorphX /= expf_card.
Qed.

Definition K f h : Prop := (size h < size f)%N /\ f %| h ^+ q - h.

Lemma K_const f c : (1 < size f)%N -> K f c%:P.
Proof.
move=> hf; split; first by rewrite (leq_ltn_trans (size_polyC_leq1 _)).
by rewrite -rmorphX /= expf_card subrr dvdp0.
Qed.
Lemma prod_h h : h ^+ q - h = \prod_(c : F) (h - c%:P).
Proof.
have := f_equal (fun p => p \Po h) (finField_genPoly F); rewrite rmorphB rmorphX /= comp_polyX => ->.
rewrite rmorph_prod /=; apply: eq_bigr => c _.
by rewrite rmorphB /= comp_polyX comp_polyC.
Qed.
Lemma K_dvd f h g c : g %| h - c%:P -> g %| h ^+ q - h.
Proof. by move=> hd; rewrite prod_h (bigD1 c) //= dvdp_mulr. Qed.

Lemma coprimep_prod (I : finType) (G : I -> {poly F}) f :
  (forall i, coprimep f (G i)) -> coprimep f (\prod_i G i).
Proof.
move=> h; elim/big_ind: _ => //; first exact: coprimep1.
by move=> u v hu hv; rewrite coprimepMr hu.
Qed.
(* a non-constant h in K splits f *)
Lemma K_split f h : (1 < size f)%N -> K f h -> (1 < size h)%N ->
  exists c, (1 < size (gcdp f (h - c%:P)) < size f)%N.
Proof.
move=> hf [hs hd] h1; have f0 : f != 0 by rewrite -size_poly_gt0; apply: ltnW.
case: (pickP (fun c : F => ~~ coprimep f (h - c%:P))) => [c hc|hall].
  exists c; have hdl := dvdp_gcdl f (h - c%:P).
  have g0 : gcdp f (h - c%:P) != 0 by rewrite gcdp_eq0 negb_and f0.
  rewrite ltn_neqAle eq_sym -coprimep_def hc size_poly_gt0 g0 /=.
  rewrite ltn_neqAle dvdp_leq // andbT; apply/negP=> /eqP e.
  have : f %| h - c%:P.
    rewrite -(eqp_dvdl _ (_ : gcdp f (h - c%:P) %= f)) ?dvdp_gcdr //.
    by rewrite -dvdp_size_eqp ?e.
  have hsz : size (h - c%:P) = size h by rewrite size_addl // size_opp (leq_ltn_trans (size_polyC_leq1 _)).
  move/dvdp_leq; rewrite hsz -size_poly_gt0 hsz; move/(_ (ltnW h1)).
  by rewrite leqNgt hs.
have /coprimepP : coprimep f (h ^+ q - h).
  by rewrite prod_h; apply: coprimep_prod => c; have := hall c => /negbFE.
move/(_ f (dvdpp f) hd); rewrite -size_poly_eq1 => /eqP e.
by rewrite e in hf.
Qed.

(* Chinese remainders *)
Lemma crt2 u v : coprimep u v -> exists h, u %| h /\ v %| h - 1.
Proof.
case/Bezout_eq1_coprimepP => -[a b] /= e; exists (a * u); split; first exact: dvdp_mull.
by rewrite -e opprD addNKr dvdpNr dvdp_mull.
Qed.
Lemma K_idem f u v : f = u * v -> f != 0 -> coprimep u v -> exists h, [/\ K f h, u %| h & v %| h - 1].
Proof.
move=> ef f0 huv; have [h [h1 h2]] := crt2 huv; exists (h %% f).
have hu : u %| h %% f by rewrite -(dvdp_mod _ (_ : u %| f)) // ef dvdp_mulr.
have hv : v %| h %% f - 1.
  have -> : h %% f - 1 = (h - 1) - h %/ f * f by rewrite {2}(divp_eq h f) [_ * f + _]addrC -!addrA; congr (_ + _); rewrite addrCA subrr addr0.
  by rewrite dvdp_sub // ef !dvdp_mull.
split=> //; split; first by rewrite ltn_modp.
have hc : coprimep u v := huv.
rewrite {1}ef Gauss_dvdp // (@K_dvd f _ u 0) ?subr0 //.
by rewrite (@K_dvd f _ v 1).
Qed.

Definition sqfree f := separable_poly f.
Lemma sqfree_mul u v : sqfree (u * v) -> [/\ sqfree u, sqfree v & coprimep u v].
Proof. by rewrite /sqfree separable_mul => /and3P. Qed.

(* reducible: a product of two non-constant factors *)
Lemma irreducibleP f : (1 < size f)%N ->
  (forall u v, f = u * v -> (1 < size u)%N -> (1 < size v)%N -> False) -> irreducible_poly f.
Proof.
move=> hf h; split=> // g hg hgf; have f0 : f != 0 by rewrite -size_poly_gt0; apply: ltnW.
have g0 : g != 0 by apply: contraNneq f0 => e; move: hgf; rewrite e dvd0p.
have ef := divpK hgf.
have v0 : f %/ g != 0 by apply: contraNneq f0 => e; rewrite -ef e mul0r.
rewrite -dvdp_size_eqp //; have [//|hne] := eqVneq (size g) (size f).
exfalso; apply: (h (f %/ g) g); rewrite ?ef //.
  by rewrite size_divp // ltn_subRL addn1 prednK ?size_poly_gt0 // ltn_neqAle hne dvdp_leq.
by rewrite ltn_neqAle eq_sym hg size_poly_gt0.
Qed.

(* if K contains only constants then f is irreducible *)
Lemma K1_irreducible f : (1 < size f)%N -> sqfree f -> (forall h, K f h -> (size h <= 1)%N) -> irreducible_poly f.
Proof.
move=> hf sf hK; apply: irreducibleP => // u v e hu hv.
have f0 : f != 0 by rewrite -size_poly_gt0; apply: ltnW.
have [_ _ cuv] : [/\ sqfree u, sqfree v & coprimep u v] by apply: sqfree_mul; rewrite -e.
have [h [hk h1 h2]] := K_idem e f0 cuv.
have /size1_polyC eh := hK h hk.
have h0 : h = 0.
  apply/eqP; apply: contraTT hu => hne; rewrite -leqNgt.
  by apply: leq_trans (dvdp_leq hne h1) (hK h hk).
move: h2; rewrite h0 sub0r dvdpNr dvdp1 => /eqP e2.
by rewrite e2 in hv.
Qed.
Lemma dvd_const u (c : F) : (1 < size u)%N -> u %| c%:P -> c = 0.
Proof.
move=> hu hd; apply/eqP; apply: contraTT hu => hc; rewrite -leqNgt.
have := dvdp_leq _ hd; rewrite polyC_eq0 hc => /(_ isT) h.
by apply: leq_trans h (size_polyC_leq1 _).
Qed.
(* if K is spanned by 1 and h, the two factors h gives are irreducible *)
Lemma K2_irreducible f h c f1 f2 : (1 < size f)%N -> sqfree f ->
  (forall h0, K f h0 -> exists a b : F, h0 = a%:P + b *: h) ->
  f1 %= gcdp f (h - c%:P) -> f = f1 * f2 -> (1 < size f1)%N -> (1 < size f2)%N ->
  irreducible_poly f1 /\ irreducible_poly f2.
Proof.
move=> hf sf hK e1 ef h1 h2; have f0 : f != 0 by rewrite -size_poly_gt0; apply: ltnW.
have [sf1 sf2 c12] : [/\ sqfree f1, sqfree f2 & coprimep f1 f2] by apply: sqfree_mul; rewrite -ef.
have hf1 : f1 %| h - c%:P by rewrite (eqp_dvdl _ e1) dvdp_gcdr.
split; apply: irreducibleP => // u v e hu hv.
  have [_ _ cuv] : [/\ sqfree u, sqfree v & coprimep u v] by apply: sqfree_mul; rewrite -e.
  have cv : coprimep (u * f2) v.
    rewrite coprimepMl cuv /= coprimep_sym.
    by apply: coprimep_dvdr c12; rewrite e dvdp_mull.
  have ef' : f = (u * f2) * v by rewrite ef e -!mulrA [v * f2]mulrC.
  have [h0 [hk hd1 hd2]] := K_idem ef' f0 cv.
  have [a [b eh0]] := hK h0 hk.
  have hcong : f1 %| h0 - (a + b * c)%:P.
    by rewrite eh0 polyCD polyCM opprD addrACA subrr add0r -mul_polyC -mulrBr dvdp_mull.
  have z : a + b * c = 0.
    apply: (dvd_const hu); rewrite -(dvdp_subr _ (_ : u %| h0)) //; last by apply: dvdp_trans hd1; rewrite dvdp_mulr.
    by apply: dvdp_trans hcong; rewrite e dvdp_mulr.
  have o : a + b * c - 1 = 0.
    apply: (dvd_const hv); rewrite polyCB.
    have -> : (a + b * c)%:P - 1%:P = (h0 - 1%:P) - (h0 - (a + b * c)%:P).
      by rewrite opprB [RHS]addrC addrA subrK.
    by rewrite dvdp_sub //; apply: dvdp_trans hcong; rewrite e dvdp_mull.
  by move: o; rewrite z sub0r => /eqP; rewrite oppr_eq0 oner_eq0.
have [_ _ cuv] : [/\ sqfree u, sqfree v & coprimep u v] by apply: sqfree_mul; rewrite -e.
have cu1 : coprimep f1 u by apply: coprimep_dvdl c12; rewrite e dvdp_mulr.
have cv : coprimep (u * f1) v.
  rewrite coprimepMl cuv /=.
  by apply: coprimep_dvdl c12; rewrite e dvdp_mull.
have ef' : f = (u * f1) * v by rewrite ef e mulrA [f1 * u]mulrC.
have [h0 [hk hd1 hd2]] := K_idem ef' f0 cv.
have [a [b eh0]] := hK h0 hk.
have hcong : f1 %| h0 - (a + b * c)%:P.
  by rewrite eh0 polyCD polyCM opprD addrACA subrr add0r -mul_polyC -mulrBr dvdp_mull.
have z : a + b * c = 0.
  apply: (dvd_const h1); rewrite -(dvdp_subr _ (_ : f1 %| h0)) //.
  by apply: dvdp_trans hd1; rewrite dvdp_mull.
have eh : h0 = b *: (h - c%:P).
  rewrite eh0 scalerBr addrC; congr (_ + _).
  by rewrite -mul_polyC -polyCM -polyCN; congr _%:P; apply/eqP; rewrite -addr_eq0 z.
have b0 : b != 0.
  apply: contraTneq hv => b0; move: hd2; rewrite eh b0 scale0r sub0r dvdpNr dvdp1 => /eqP ->.
  by [].
have hu1 : u %| f1.
  rewrite (eqp_dvdr _ e1) dvdp_gcd ef' -mulrA dvdp_mulr //=.
  have : u %| h0 by apply: dvdp_trans hd1; rewrite dvdp_mulr.
  by rewrite eh dvdpZr.
move: cu1; rewrite coprimep_sym => /coprimepP /(_ u (dvdpp u) hu1); rewrite -size_poly_eq1 => /eqP e3.
by rewrite e3 in hu.
Qed.
End Math.

(* The matrix of h |-> h^q - h modulo f.  Coefficients are listed from the highest down. *)
Section Mx.
Variables (F : finFieldType) (n : nat).
Let q := #|F|.
Definition toP (v : 'rV[F]_n) : {poly F} := \sum_(i < n) v 0 (rev_ord i) *: 'X^i.
Definition ofP (h : {poly F}) : 'rV[F]_n := \row_j h`_(rev_ord j).
Lemma coef_toP v (i : 'I_n) : (toP v)`_i = v 0 (rev_ord i).
Proof.
rewrite /toP coef_sum (bigD1 i) //= coefZ coefXn eqxx mulr1 big1 ?addr0 // => j hj.
by rewrite coefZ coefXn eq_sym (negbTE (_ : j != i :> nat)) ?mulr0.
Qed.
Lemma size_toP v : (size (toP v) <= n)%N.
Proof.
apply: leq_trans (size_sum _ _ _) _; apply/bigmax_leqP => i _.
by apply: leq_trans (size_scale_leq _ _) _; rewrite size_polyXn.
Qed.
Lemma toP_ofP (h : {poly F}) : (size h <= n)%N -> toP (ofP h) = h.
Proof.
move=> hs; apply/polyP=> i; case: (ltnP i n) => hi; last first.
  by rewrite (nth_default _ (leq_trans hs hi)) (nth_default _ (leq_trans (size_toP _) hi)).
by rewrite (coef_toP _ (Ordinal hi)) mxE rev_ordK.
Qed.
Lemma ofP_toP v : ofP (toP v) = v.
Proof. by apply/rowP=> j; rewrite mxE coef_toP rev_ordK. Qed.
Lemma toP_inj : injective toP.
Proof. exact: can_inj ofP_toP. Qed.
Lemma toP0 : toP 0 = 0.
Proof. by rewrite /toP big1 // => i _; rewrite mxE scale0r. Qed.
Lemma toPD u v : toP (u + v) = toP u + toP v.
Proof. by rewrite /toP -big_split; apply: eq_bigr => i _; rewrite mxE scalerDl. Qed.
Lemma toPZ c v : toP (c *: v) = c *: toP v.
Proof. by rewrite /toP scaler_sumr; apply: eq_bigr => i _; rewrite mxE scalerA. Qed.

Variable f : {poly F}.
Hypothesis hf : size f = n.+1.
Definition BMx : 'M[F]_n := \matrix_(i, j) (('X^(q * rev_ord j) %% f)`_(rev_ord i)) - 1%:M.

Lemma modp_sum (I : finType) (G : I -> {poly F}) : (\sum_i G i) %% f = \sum_i (G i %% f).
Proof. by elim/big_rec2: _ => [|i x y _ <-]; rewrite ?mod0p // modpD. Qed.
Lemma BMx_ker (v : 'rV[F]_n) : (BMx *m v^T == 0) = (f %| toP v ^+ q - toP v).
Proof.
have f0 : f != 0 by rewrite -size_poly_gt0 hf.
set h := toP v.
have hm : h %% f = h by rewrite modp_small // hf ltnS size_toP.
have hq : h ^+ q = \sum_(i < n) h`_i *: 'X^(q * i).
  rewrite {1}/q frob_comp /h {1}/toP rmorph_sum /=; apply: eq_bigr => i _.
  by rewrite coef_toP comp_polyZ rmorphX /= comp_polyX exprM.
have e i : (BMx *m v^T) (rev_ord i) 0 = (h ^+ q %% f - h)`_i.
  rewrite coefB (coef_toP v i) mulmxBl mul1mx mxE mxE [(- v^T) _ _]mxE [v^T _ _]mxE; congr (_ - _).
  rewrite hq modp_sum coef_sum (reindex_inj rev_ord_inj); apply: eq_bigr => j _.
  by rewrite !mxE !rev_ordK modpZl coefZ (coef_toP v j) mulrC.
have -> : (f %| h ^+ q - h) = (h ^+ q %% f - h == 0).
  by rewrite /dvdp modpD modpN hm.
apply/eqP/eqP=> [h0|h0].
  apply/polyP=> i; rewrite coef0; case: (ltnP i n) => hi.
    by rewrite -(e (Ordinal hi)) h0 mxE.
  rewrite nth_default //; apply: leq_trans (size_add _ _) _; rewrite geq_max size_opp.
  rewrite (leq_trans (size_toP v) hi) andbT (leq_trans _ hi) // -ltnS -hf.
  by rewrite ltn_modp.
by apply/matrixP=> i j; rewrite ord1 -(rev_ordK i) e h0 coef0 mxE.
Qed.

Lemma BMx_K (v : 'rV[F]_n) : (BMx *m v^T == 0) <-> K f (toP v).
Proof.
rewrite BMx_ker /K -/q; split=> [h|[_ h]] //; split=> //.
by rewrite hf ltnS size_toP.
Qed.

(* k: rows forming a basis of the kernel of BMx *)
Variables (d : nat) (k : 'M[F]_(d, n)).
Hypothesis hfree : row_free k.
Hypothesis hker : forall v : 'rV[F]_n, (v <= k)%MS = (BMx *m v^T == 0).
Hypothesis hn : (0 < n)%N.
Lemma f_gt1 : (1 < size f)%N.
Proof. by rewrite hf ltnS. Qed.
Lemma K_row h : K f h -> (ofP h <= k)%MS.
Proof. by move=> hk; rewrite hker; apply/BMx_K; rewrite toP_ofP //; case: hk; rewrite hf ltnS. Qed.
Lemma row_K i : K f (toP (row i k)).
Proof. by apply/BMx_K; rewrite -hker row_sub. Qed.
Let v1 := ofP 1.
Lemma toP_v1 : toP v1 = 1.
Proof. by rewrite toP_ofP // size_poly1. Qed.
Lemma v1_neq0 : v1 != 0.
Proof. by apply/eqP=> e; have := toP_v1; rewrite e toP0 => /eqP; rewrite eq_sym oner_eq0. Qed.
Lemma v1_sub : (v1 <= k)%MS.
Proof. by apply: K_row; have := K_const 1 f_gt1. Qed.
Lemma d_gt0 : (0 < d)%N.
Proof.
rewrite lt0n; apply/eqP=> e; move: (mxrankS v1_sub).
by rewrite rank_rV v1_neq0 /= (eqP hfree) e.
Qed.
(* one basis row: f is irreducible *)
Lemma ker1_irreducible : d = 1%N -> sqfree f -> irreducible_poly f.
Proof.
move=> d1 sf; apply: K1_irreducible f_gt1 sf _ => h hk.
have hr : (k <= v1)%MS.
  by rewrite -(mxrank_leqif_sup v1_sub) rank_rV v1_neq0 (eqP hfree); apply/eqP; rewrite d1.
have /sub_rVP [c hc] := submx_trans (K_row hk) hr.
have hs : (size h <= n)%N by case: hk; rewrite hf ltnS.
by rewrite -(toP_ofP hs) hc toPZ toP_v1 -mul_polyC mulr1 size_polyC_leq1.
Qed.
(* at least two basis rows: one of them is not a constant *)
Lemma ker2_nonconst : (1 < d)%N -> exists i, (1 < size (toP (row i k)))%N.
Proof.
move=> d2; case: (pickP (fun i => 1 < size (toP (row i k)))%N) => [i hi|hall]; first by exists i.
have : (k <= v1)%MS.
  apply/row_subP=> i; have /negbT := hall i; rewrite -leqNgt => /size1_polyC e.
  apply/sub_rVP; exists (toP (row i k))`_0; apply: toP_inj.
  by rewrite toPZ toP_v1 -mul_polyC mulr1.
by move/mxrankS; rewrite (eqP hfree) rank_rV v1_neq0 leqNgt d2.
Qed.
Lemma ker2_span i : d = 2%N -> (1 < size (toP (row i k)))%N ->
  forall h0, K f h0 -> exists a b : F, h0 = a%:P + b *: toP (row i k).
Proof.
move=> d2 hi h0 hk0; set w := row i k in hi *.
have hs : (col_mx v1 w <= k)%MS by rewrite -addsmxE addsmx_sub v1_sub row_sub.
have hfree2 : row_free (col_mx v1 w).
  apply/row_freeP; apply/row_freeP; rewrite -kermx_eq0; apply/rowV0P => z /sub_kermxP.
  rewrite -{1}(hsubmxK z) mul_row_col => hz.
  have := f_equal toP hz; rewrite toPD toP0 (mx11_scalar (lsubmx z)) (mx11_scalar (rsubmx z)) !mul_scalar_mx !toPZ toP_v1.
  set a := lsubmx z 0 0; set b := rsubmx z 0 0; move=> e.
  have b0 : b = 0.
    apply/eqP; apply: contraTT hi => hb; rewrite -leqNgt.
    have -> : toP w = (- (b^-1 * a))%:P.
      apply: (scalerI hb); rewrite -[RHS]mul_polyC -polyCM mulrN mulrA divff // mul1r.
      by apply/eqP; rewrite polyCN -addr_eq0 addrC; move: e; rewrite -mul_polyC mulr1 => ->.
    by rewrite size_polyC_leq1.
  have a0 : a = 0.
    move: e; rewrite b0 scale0r addr0 -mul_polyC mulr1 => /eqP.
    by rewrite polyC_eq0 => /eqP.
  rewrite -(hsubmxK z) (mx11_scalar (lsubmx z)) (mx11_scalar (rsubmx z)) -/a -/b a0 b0.
  by rewrite raddf0 row_mx0.
have hr : (k <= col_mx v1 w)%MS.
  by rewrite -(mxrank_leqif_sup hs) (eqP hfree2) (eqP hfree); apply/eqP; rewrite d2.
have /submxP [z hz] := submx_trans (K_row hk0) hr.
move: hz; rewrite -{1}(hsubmxK z) mul_row_col (mx11_scalar (lsubmx z)) (mx11_scalar (rsubmx z)) !mul_scalar_mx => hz.
exists (lsubmx z 0 0), (rsubmx z 0 0).
have hs0 : (size h0 <= n)%N by case: hk0; rewrite hf ltnS.
by rewrite -(toP_ofP hs0) hz toPD !toPZ toP_v1 -mul_polyC mulr1.
Qed.
End Mx.
