(* The cyclotomic polynomials exist: there are polynomials with integer coefficients whose
   products over the divisors of n are x^n - 1. *)
From mathcomp Require Import all_ssreflect ssralg ssrint rat poly polydiv ssrnum separable.
Set Implicit Arguments.
Unset Strict Implicit.
Unset Printing Implicit Defensive.
Import GRing.Theory Num.Theory.
Local Open Scope ring_scope.

Section Q.
Local Notation X1 n := ('X^n - 1 : {poly rat}).
Fixpoint tab (n : nat) : seq {poly rat} :=
  if n is n'.+1 then let t := tab n' in rcons t (X1 n' %/ \prod_(d <- divisors n' | (d < n')%N) nth 1 t d) else [::].
Definition phi n := nth 1 (tab n.+1) n.
Lemma size_tab n : size (tab n) = n.
Proof. by elim: n => //= n IH; rewrite size_rcons IH. Qed.
Lemma nth_tab n k : (k < n)%N -> nth 1 (tab n) k = phi k.
Proof.
elim: n => // n IH; rewrite ltnS leq_eqVlt => /orP[/eqP ->//|h].
by rewrite /= nth_rcons size_tab h; exact: IH.
Qed.
Lemma phiE n : phi n = X1 n %/ \prod_(d <- divisors n | (d < n)%N) phi d.
Proof.
rewrite /phi /= nth_rcons size_tab ltnn eqxx; congr (_ %/ _); apply: eq_bigr => d hd; exact: nth_tab.
Qed.

Lemma dvd_gcd (p : {poly rat}) a b : (0 < a)%N -> p %| X1 a -> p %| X1 b -> p %| X1 (gcdn a b).
Proof.
move=> a0 ha hb; have mul c k : p %| X1 c -> p %| X1 (k * c)%N.
  move=> h; apply: dvdp_trans h _; rewrite mulnC exprM -{2}(expr1n _ k) subrXX; exact: dvdp_mulr.
case: (egcdnP b a0) => u v e _.
have -> : X1 (gcdn a b) = X1 (u * a)%N - X1 (v * b)%N * 'X^(gcdn a b).
  by rewrite e exprD mulrBl mul1r opprB [RHS]addrC addrA subrK.
by apply: dvdp_sub; [exact: mul|apply: dvdp_mulr; exact: mul].
Qed.
Lemma prod_dvd (s : seq nat) (f : nat -> {poly rat}) Q : uniq s ->
  (forall d, d \in s -> f d %| Q) -> {in s &, forall d e, d != e -> coprimep (f d) (f e)} -> \prod_(d <- s) f d %| Q.
Proof.
elim: s => [|x s IH] /=; first by rewrite big_nil dvd1p.
case/andP=> hx hu hd hc; rewrite big_cons Gauss_dvdp.
  rewrite hd ?mem_head //=; apply: IH => //; first by move=> d h; apply: hd; rewrite in_cons h orbT.
  by move=> d e h1 h2; apply: hc; rewrite in_cons ?h1 ?h2 orbT.
have : all (fun d => coprimep (f x) (f d)) s.
  apply/allP=> d h; apply: hc; rewrite ?mem_head // ?in_cons ?h ?orbT //; by apply/eqP=> e; rewrite e h in hx.
elim: {IH hu hd hc hx} s => [|y s IH] /=; first by rewrite big_nil coprimep1.
by case/andP=> h1 /IH h2; rewrite big_cons coprimepMr h1.
Qed.

Lemma split k : (0 < k)%N -> \prod_(d <- divisors k) phi d = phi k * \prod_(d <- divisors k | (d < k)%N) phi d.
Proof.
move=> k0; rewrite (bigD1_seq k) /= ?divisors_uniq -?dvdn_divisors //; congr (_ * _).
rewrite big_seq_cond [RHS]big_seq_cond; apply: eq_bigl => d; case hd : (d \in _) => //=.
by rewrite -dvdn_divisors // in hd; rewrite ltn_neqAle (dvdn_leq k0 hd) andbT.
Qed.
Lemma phi_prod n : (0 < n)%N -> \prod_(d <- divisors n) phi d = X1 n.
Proof.
elim/ltn_ind: n => n IH n0.
have X0 k : (0 < k)%N -> X1 k != 0 by move=> k0; rewrite -size_poly_eq0 size_Xn_sub_1.
have sep k : (0 < k)%N -> separable_poly (X1 k).
  move=> k0; apply/coprimepP => r r1; rewrite derivB derivXn derivC subr0 -scaler_nat dvdpZr ?pnatr_eq0 -?lt0n // => r2.
  rewrite -size_poly_eq1 -dvdp1.
  have -> : 1 = 'X * 'X^k.-1 - X1 k by rewrite -exprS prednK // opprB addrC subrK.
  by apply: dvdp_sub => //; exact: dvdp_mull.
have dX d : (0 < d < n)%N -> phi d %| X1 d.
  by case/andP=> d0 dn; rewrite -(IH _ dn d0) split // dvdp_mulr.
(* phi d and x^g - 1 are coprime for proper divisors g of d *)
have cop d g : (0 < d < n)%N -> (g %| d)%N -> (g < d)%N -> coprimep (phi d) (X1 g).
  case/andP=> d0 dn hg gd; have g0 := dvdn_gt0 d0 hg.
  have := sep _ d0; rewrite -(IH _ dn d0) split //.
  rewrite (bigID (fun x => x %| g)%N) /=.
  have -> : \prod_(i <- divisors d | (i < d)%N && (i %| g)%N) phi i = X1 g.
    rewrite -(IH _ (ltn_trans gd dn) g0) -big_filter; apply: perm_big; apply: uniq_perm.
    - by rewrite filter_uniq ?divisors_uniq.
    - exact: divisors_uniq.
    move=> x; rewrite mem_filter -!dvdn_divisors //; case hx : (x %| g)%N; rewrite ?andbF // andbT.
    by rewrite (dvdn_trans hx hg) andbT; apply: leq_ltn_trans (dvdn_leq g0 hx) gd.
  by rewrite mulrA separable_mul => /and3P[]; rewrite separable_mul => /and3P[].
have cc d e : (0 < d < n)%N -> (0 < e < n)%N -> (gcdn d e < d)%N -> coprimep (phi d) (phi e).
  move=> hd he hg; apply/coprimepP => r r1 r2.
  have /coprimepP := cop d (gcdn d e) hd (dvdn_gcdl _ _) hg; apply=> //.
  by apply: dvd_gcd; [case/andP: hd | exact: dvdp_trans r1 (dX _ hd) | exact: dvdp_trans r2 (dX _ he)].
rewrite split // phiE divpK // -big_filter; apply: prod_dvd.
- by rewrite filter_uniq ?divisors_uniq.
- move=> d; rewrite mem_filter -dvdn_divisors // => /andP[dn hd]; have d0 := dvdn_gt0 n0 hd.
  apply: dvdp_trans (dX d _) _; first by rewrite d0.
  by case/dvdnP: hd => k ->; rewrite mulnC exprM -{2}(expr1n _ k) subrXX dvdp_mulr.
move=> d e; rewrite !mem_filter -!dvdn_divisors // => /andP[dn hd] /andP[en he] de.
have d0 := dvdn_gt0 n0 hd; have e0 := dvdn_gt0 n0 he.
have [hg|hg] := ltnP (gcdn d e) d; first by apply: cc; rewrite ?d0 ?e0.
rewrite coprimep_sym; apply: cc; rewrite ?d0 ?e0 //= gcdnC.
have gd : gcdn d e = d by apply/eqP; rewrite eqn_leq hg (dvdn_leq d0) // dvdn_gcdl.
rewrite gd ltn_neqAle de (dvdn_leq e0) //; by rewrite -gd dvdn_gcdr.
Qed.
End Q.

Definition pZ : {poly int} -> {poly rat} := map_poly intr.
Lemma pZ_inj : injective pZ.
Proof. by apply: map_inj_poly => //; exact: intr_inj. Qed.
Lemma pZX n : pZ ('X^n - 1) = 'X^n - 1.
Proof. by rewrite /pZ rmorphB /= map_polyXn rmorph1. Qed.

Lemma phi_int n : (0 < n)%N -> exists p, pZ p = phi n /\ p \is monic.
Proof.
elim/ltn_ind: n => n IH n0.
have [M [hM mM]] : exists M, pZ M = \prod_(d <- divisors n | (d < n)%N) phi d /\ M \is monic.
  rewrite -big_filter; have : all (fun d => 0 < d < n)%N [seq d <- divisors n | (d < n)%N].
    by apply/allP=> d; rewrite mem_filter -dvdn_divisors // => /andP[-> /(dvdn_gt0 n0) ->].
  elim: [seq _ <- _ | _] => [|d s IHs] /=; first by exists 1; rewrite big_nil /pZ rmorph1 monic1.
  case/andP=> /andP[d0 dn] /IHs[M [hM mM]]; have [p [hp mp]] := IH d dn d0.
  by exists (p * M); rewrite big_cons -hp -hM /pZ rmorphM /= monicMl.
have e : 'X^n - 1 = phi n * pZ M.
  by rewrite hM -(phi_prod n0) split.
have M0 : pZ M != 0 by apply/eqP=> h; move: mM; rewrite (pZ_inj (etrans h (esym (rmorph0 [rmorphism of pZ])))) monicE lead_coef0 eq_sym oner_eq0.
have hq := Pdiv.RingMonic.rdivp_eq mM ('X^n - 1 : {poly int}).
set q := Pdiv.CommonRing.rdivp _ _ in hq; set r := Pdiv.CommonRing.rmodp _ _ in hq.
have sr : (size r < size M)%N by apply: Pdiv.CommonRing.ltn_rmodpN0; apply/eqP=> h; move: mM; rewrite h monicE lead_coef0 eq_sym oner_eq0.
have spZ p : size (pZ p) = size p by rewrite /pZ size_map_inj_poly //; exact: intr_inj.
have r0 : pZ r = 0.
  have h : pZ M %| pZ r.
    rewrite (_ : pZ r = (phi n - pZ q) * pZ M) ?dvdp_mull //.
    by rewrite mulrBl -e -pZX {1}hq /pZ rmorphD rmorphM /= addrC addKr.
  by apply/eqP; apply: contraTT sr => h0; rewrite -leqNgt -!spZ; exact: dvdp_leq.
have eq : phi n = pZ q.
  by apply: (mulIf M0); rewrite -e -pZX {1}hq {1}/pZ rmorphD rmorphM /= -/(pZ r) r0 addr0.
exists q; split=> //; have hq' : 'X^n - 1 = q * M by rewrite {1}hq (pZ_inj (etrans r0 (esym (rmorph0 [rmorphism of pZ])))) addr0.
by rewrite -(monicMr _ mM) -hq' monic_Xn_sub_1.
Qed.

Theorem cyclotomic_exist : exists P : nat -> {poly int}, forall n, (0 < n)%N -> \prod_(d <- divisors n) P d = 'X^n - 1.
Proof.
exists (fun n => map_poly numq (phi n)) => n n0; apply: pZ_inj; rewrite pZX -(phi_prod n0) {1}/pZ rmorph_prod.
rewrite big_seq [RHS]big_seq; apply: eq_bigr => d; rewrite -dvdn_divisors // => hd.
have [p [<- _]] := phi_int (dvdn_gt0 n0 hd); apply/polyP=> i.
by rewrite !coef_map_id0 // numq_int.
Qed.
