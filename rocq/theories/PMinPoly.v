(* Minimal and characteristic polynomials of the residues modulo an irreducible polynomial
   over a finite field. *)
From mathcomp Require Import all_ssreflect fingroup perm all_algebra falgebra fieldext finfield separable.
Set Implicit Arguments.
Unset Strict Implicit.
Unset Printing Implicit Defensive.
Import GRing.Theory.
Import FinVector.
Local Open Scope ring_scope.

Section Min.
Variables (F : finFieldType) (m : {poly F}).
Hypothesis mi : irreducible_poly m.
Let Q := #|F|.

(* P is the minimal polynomial of the residue of a modulo m *)
Definition is_minpoly (a P : {poly F}) : Prop :=
  P \is monic /\ forall g : {poly F}, (m %| g \Po a) = (P %| g).

Lemma minpoly_uniq a P P' : is_minpoly a P -> is_minpoly a P' -> P = P'.
Proof.
move=> [h1 h2] [h1' h2']; apply/eqP; rewrite -eqp_monic //; apply/andP; split.
  by rewrite -h2 h2'.
by rewrite -h2' h2.
Qed.

Lemma Frob_hornerF (L : fieldExtType F) (g : {poly F}) (x : L) k :
  (map_poly (in_alg L) g).[x] ^+ (Q ^ k) = (map_poly (in_alg L) g).[x ^+ (Q ^ k)].
Proof.
have [p pp cF] := finCharP F.
have cL : p \in [char L] by rewrite inE pp -(rmorph_nat [rmorphism of in_alg L]) (charf0 cF) rmorph0 eqxx.
have [e he] : exists e, Q = (p ^ e)%N by eexists; exact: card_primeChar cF.
have addX (u v : L) : (u + v) ^+ (Q ^ k) = u ^+ (Q ^ k) + v ^+ (Q ^ k).
  by rewrite he -expnM; rewrite exprDn_char ?pnatX ?pnat_id ?(eq_pnat _ (charf_eq cL)) ?pnatX ?pnat_id //.
have fixF (c : F) : c ^+ (Q ^ k) = c.
  by elim: k {addX} => [|k IH]; rewrite ?expr1 // expnS exprM expf_card.
elim/poly_ind: g => [|g c IH]; first by rewrite rmorph0 !horner0 expr0n expn_eq0 -[Q]prednK ?finRing_gt1 // ltnW // finRing_gt1.
rewrite rmorphD rmorphM /= map_polyX map_polyC !hornerE addX exprMn IH.
by rewrite -rmorphX fixF.
Qed.

Theorem minpoly_ex a : exists P : {poly F}, [/\ is_minpoly a P, irreducible_poly P,
  ((size P).-1 %| (size m).-1)%N,
  a ^+ (Q ^ (size P).-1) %% m = a %% m &
  forall k, (0 < k)%N -> a ^+ (Q ^ k) %% m = a %% m -> ((size P).-1 <= k)%N].
Proof.
have [L hdim [z hz hfull]] := irredp_FAdjoin mi.
pose f := [rmorphism of in_alg L].
pose ev (h : {poly F}) : L := (map_poly (in_alg L) h).[z].
have evB x y : ev (x - y) = ev x - ev y by rewrite /ev rmorphB hornerD hornerN.
have evM x y : ev (x * y) = ev x * ev y by rewrite /ev rmorphM hornerM.
have evD x y : ev (x + y) = ev x + ev y by rewrite /ev rmorphD hornerD.
have ev1 : ev 1 = 1 by rewrite /ev rmorph1 hornerC.
have evX x j : ev (x ^+ j) = ev x ^+ j by elim: j => [|j IH]; rewrite ?expr0 // !exprS evM IH.
have evm : ev m = 0 by apply/eqP; apply: hz.
have ev0 h : (m %| h) = (ev h == 0).
  apply/idP/idP => [/dvdpP [r ->]|/eqP h0]; first by rewrite evM evm mulr0.
  case: (boolP (coprimep m h)) => [/Bezout_eq1_coprimepP [[u v] /= e]|nc].
    by move: ev1; rewrite -e evD !evM evm h0 !mulr0 addr0 => /eqP; rewrite eq_sym oner_eq0.
  have [_ hm] := mi; have := hm _ _ (dvdp_gcdl m h); rewrite -coprimep_def => /(_ nc).
  by move=> /eqp_dvdl <-; apply: dvdp_gcdr.
have evmod x y : x %% m = y %% m <-> ev x = ev y.
  split=> [e|e].
    have h g : ev g = ev (g %% m) by rewrite {1}(divp_eq g m) evD evM evm mulr0 add0r.
    by rewrite h e -h.
  apply/eqP; rewrite -subr_eq0 -modpN -modpD -/(m %| _) ev0 evB e subrr //.
pose al := ev a; pose d := adjoin_degree 1%AS al.
have evc g : ev (g \Po a) = (map_poly (in_alg L) g).[al].
  by rewrite /ev (map_comp_poly f) horner_comp.
have /polyOver1P [P hP] := minPolyOver 1%AS al.
have sP : size P = d.+1 by rewrite -(size_map_poly f) -hP size_minPoly.
have dd : \dim <<1; al>> = d by rewrite dim_Fadjoin dimv1 muln1.
exists P; split.
- split; first by rewrite -(map_monic f) -hP monic_minPoly.
  move=> g; rewrite ev0 evc -(dvdp_map f) -hP; apply/idP/idP => [h|/dvdpP [r ->]].
    by apply: minPoly_dvdp => //; apply/polyOver1P; exists g.
  by rewrite hornerM; have /rootP -> := root_minPoly 1%AS al; rewrite mulr0.
- split; first by rewrite sP ltnS adjoin_degree_gt0 || rewrite sP ltnS -dd adim_gt0.
  move=> r hr hd; have hd' : map_poly (in_alg L) r %| minPoly 1%AS al by rewrite hP dvdp_map.
  have hpo : map_poly (in_alg L) r \is a polyOver 1%VS by apply/polyOver1P; exists r.
  have /orP [h|h] := minPoly_irr hpo hd'; first by rewrite -(eqp_map f) -hP.
  by move: h; rewrite -size_poly_eq1 size_map_poly (negbTE hr).
- by rewrite sP -hdim -dd /=; apply: (@field_dimS _ L <<1; al>>%AS {:L}%AS); apply: subvf.
- apply/evmod; rewrite evX sP /= -dd -/al; apply/eqP.
  by rewrite -(Fermat's_little_theorem <<1; al>>%AS); apply: memv_adjoin.
move=> k k0 /evmod; rewrite evX -/al => hk; rewrite sP /=.
have q1 : (1 < Q)%N := finRing_gt1 _.
pose FL := FinFieldExtType L; pose K := <<1; al>>%VS.
have cK := @card_vspace F FL _ K; rewrite dd -/Q in cK.
rewrite -(leq_exp2l _ _ q1) -cK cardE.
pose X : {poly L} := 'X^(Q ^ k) - 'X.
have qk : (1 < Q ^ k)%N by rewrite -(expn0 Q) ltn_exp2l.
have sX : size X = (Q ^ k).+1.
  by rewrite /X size_addl size_polyXn // size_opp size_polyX ltnS.
rewrite -ltnS -sX; apply: max_poly_roots.
- by rewrite -size_poly_gt0 sX.
- apply/allP => x; rewrite mem_enum => /Fadjoin_polyP [g' hg' ->].
  have /polyOver1P [g ->] := hg'.
  by rewrite /root !hornerE hornerXn Frob_hornerF hk subrr.
exact: enum_uniq.
Qed.
End Min.

(* ---- the matrix of multiplication *)
Section Char.
Variables (F : finFieldType) (m : {poly F}).
Variable n : nat.
Hypotheses (mi : irreducible_poly m) (hn : (size m).-1 = n).
Definition mul_mx (a : {poly F}) : 'M[F]_n := \matrix_(i, j) ((a * 'X^j) %% m)`_i.

Lemma m0 : m != 0. Proof. by case: mi => h _; rewrite -size_poly_gt0 ltnW. Qed.
Lemma mod_size (x : {poly F}) : (size (x %% m)%R <= n)%N.
Proof. by case: mi => h _; rewrite -hn -ltnS (ltn_predK h) ltn_modp m0. Qed.
Lemma mod_eq (x y : {poly F}) : (forall i : 'I_n, (x %% m)`_i = (y %% m)`_i) -> x %% m = y %% m.
Proof.
move=> h; apply/polyP=> i; case: (ltnP i n) => hi; first exact: (h (Ordinal hi)).
by rewrite !nth_default // (leq_trans (mod_size _)).
Qed.
Lemma sum_mod (x : {poly F}) : \sum_(k < n) (x %% m)`_k *: 'X^k = x %% m.
Proof. by rewrite -poly_def; apply/polyP=> i; rewrite coef_poly; case: ltnP => // h; rewrite nth_default // (leq_trans (mod_size _)). Qed.
Lemma modMr (x y : {poly F}) : (x * (y %% m)) %% m = (x * y) %% m.
Proof. by rewrite {2}(divp_eq y m) mulrDr mulrA modpD modp_mull add0r. Qed.
Lemma mod_sum (I : Type) (r : seq I) (E : I -> {poly F}) : (\sum_(i <- r) E i) %% m = \sum_(i <- r) (E i %% m).
Proof. by elim/big_rec2: _ => [|i x y _ <-]; rewrite ?mod0p ?modpD. Qed.

Lemma mul_mxM x y : mul_mx (x * y) = mul_mx x *m mul_mx y.
Proof.
apply/matrixP=> i j; rewrite !mxE -mulrA -modMr -(sum_mod (y * 'X^j)) mulr_sumr mod_sum coef_sum.
by apply: eq_bigr => k _; rewrite !mxE -scalerAr modpZl coefZ mulrC.
Qed.
Lemma mul_mxD x y : mul_mx (x + y) = mul_mx x + mul_mx y.
Proof. by apply/matrixP=> i j; rewrite !mxE mulrDl modpD coefD. Qed.
Lemma mul_mxC c : mul_mx c%:P = c%:M.
Proof.
apply/matrixP=> i j; rewrite !mxE mul_polyC modpZl coefZ modp_small ?coefXn; last first.
  by case: mi => h _; rewrite size_polyXn -[X in (_ < X)%N](ltn_predK h) ltnS hn.
by rewrite -val_eqE eq_sym mulr_natr eq_sym.
Qed.
Lemma mul_mx_inj x : mul_mx x = 0 -> m %| x.
Proof.
move=> /matrixP h; have h1 : (0 < n)%N by case: mi => h1 _; rewrite -hn -ltnS (ltn_predK h1).
rewrite /dvdp -[0](mod0p m); apply/eqP; apply: mod_eq => i.
by have := h i (Ordinal h1); rewrite !mxE expr0 mulr1 mod0p coef0.
Qed.
End Char.

Section Power.
Variables (F : finFieldType) (P : {poly F}).
Hypotheses (Pm : P \is monic) (Pi : irreducible_poly P).
Lemma root_power (f : {poly F}) : f \is monic ->
  (forall (L : fieldExtType F) (w : L), root (map_poly (in_alg L) f) w -> root (map_poly (in_alg L) P) w) ->
  exists k, f = P ^+ k.
Proof.
have [k hk] := ubnP (size f); elim: k f hk => // k IH f hk fm hr.
have f0 : f != 0 by apply: monic_neq0.
case: (ltnP 1 (size f)) => f1; last first.
  have e1 : size f = 1%N by apply/eqP; rewrite eqn_leq f1 size_poly_gt0.
  by exists 0%N; move/monicP: fm; rewrite expr0 {2}[f]size1_polyC // lead_coefE e1 => /= ->.
have hP : P %| f.
  have [L0 [zs hz _]] := FinSplittingFieldFor f0.
  pose L : fieldExtType F := galois.SplittingField.fieldExtType L0; rewrite -/L in zs hz.
  case: zs hz => [|w zs] hz.
    by move: hz; rewrite big_nil => /eqp_size; rewrite size_map_poly size_poly1 => e; rewrite e in f1.
  have hw : root (map_poly (in_alg L) f) w by rewrite (eqp_root hz) root_prod_XsubC inE eqxx.
  have hw' := hr L w hw; case: Pi => P1 hP; case: (boolP (coprimep P f)) => [/Bezout_eq1_coprimepP [[u v] /= e]|nc].
    have : (map_poly (in_alg L) (u * P + v * f)).[w] = 1 by rewrite e rmorph1 hornerC.
    rewrite rmorphD !rmorphM hornerD !hornerM; move/rootP: hw => ->; move/rootP: hw' => ->.
    by rewrite !mulr0 addr0 => /eqP; rewrite eq_sym oner_eq0.
  have := hP _ _ (dvdp_gcdl P f); rewrite -coprimep_def => /(_ nc).
  by move=> /eqp_dvdl <-; apply: dvdp_gcdr.
have [g eg] := dvdpP _ _ hP.
have gm : g \is monic by move: fm; rewrite eg monicMr.
have [|||j ej] := IH g.
- have g0 : g != 0 by apply: monic_neq0.
  case: Pi => P1 _; move: hk; rewrite eg size_mul ?monic_neq0 //.
  case: (size P) P1 => [|[|s]] // _; rewrite !addnS /= !ltnS => hk; apply: leq_ltn_trans hk; rewrite leq_addr //.
- exact: gm.
- by move=> L w hw; apply: hr; rewrite eg rmorphM rootM hw.
by exists j.+1; rewrite eg ej exprSr.
Qed.
End Power.

Theorem char_mul_mx (F : finFieldType) (m a P : {poly F}) n : irreducible_poly m -> (size m).-1 = n ->
  is_minpoly m a P -> irreducible_poly P ->
  char_poly (mul_mx m n a) = P ^+ (n %/ (size P).-1).
Proof.
move=> mi hn [Pm hP] Pi.
have [j ej] : exists j, char_poly (mul_mx m n a) = P ^+ j; last first.
  have := size_char_poly (mul_mx m n a); rewrite ej => /(congr1 predn); rewrite size_exp /=.
  by case: Pi => P1 _ <-; rewrite mulKn // -ltnS (ltn_predK P1).
apply: root_power => //; first exact: char_poly_monic.
move=> L w; have n0 : (0 < n)%N by case: mi => m1 _; rewrite -hn -ltnS (ltn_predK m1).
case: n n0 hn => // n' _ hn hw.
pose f := [rmorphism of in_alg L].
have h0 (g : {poly F}) : horner_mx (mul_mx m n'.+1 a) g = mul_mx m n'.+1 (g \Po a).
  elim/poly_ind: g => [|g c IH]; first by rewrite rmorph0 comp_poly0 -polyC0 (mul_mxC mi hn) rmorph0.
  rewrite rmorphD rmorphM /= horner_mx_X horner_mx_C IH comp_polyD comp_polyM comp_polyX comp_polyC.
  by rewrite mul_mxD (mul_mxM mi hn) (mul_mxC mi hn).
have hd : mxminpoly (mul_mx m n'.+1 a) %| P.
  apply: mxminpoly_min; rewrite h0; apply/matrixP=> i k; rewrite !mxE.
  have : m %| P \Po a by rewrite hP.
  move=> hm; have -> : ((P \Po a) * 'X^k) %% m = 0 by apply/eqP; apply: (dvdp_mulr _ hm).
  by rewrite coef0.
have hw2 : root (map_poly f (mxminpoly (mul_mx m n'.+1 a))) w.
  by rewrite -mxminpoly_map root_mxminpoly -map_char_poly.
have /dvdpP [q e] := hd; by rewrite e rmorphM rootM hw2 orbT.
Qed.
