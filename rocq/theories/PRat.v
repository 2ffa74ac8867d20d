(* Fractions of polynomials (MRat.v) as elements of the field of fractions. *)
From Verif Require Import Base MIntMath MIntmod MMat MBits MF2Poly MPoly MLinalg MRat.
From mathcomp Require Import all_ssreflect all_algebra fraction ssrZ.
From Verif Require Import PMat PFp PPoly PPoly2 PPoly3 PEd.
Set Implicit Arguments.
Unset Strict Implicit.
Unset Printing Implicit Defensive.
Import GRing.Theory.
Delimit Scope Z_scope with coqZ.
Local Open Scope ring_scope.

(* Euclid's algorithm: the last divisor that leaves no remainder *)
Section Eu.
Variable F : fieldType.
Implicit Types p q r k : {poly F}.
Inductive Eu : {poly F} -> {poly F} -> {poly F} -> Prop :=
| Eu0 p : Eu p 0 p
| EuS p q r : q != 0 -> Eu q (p %% q) r -> Eu p q r.

Lemma Eu_det p q r r' : Eu p q r -> Eu p q r' -> r = r'.
Proof.
move=> h; elim: h r' => {p q r} [p|p q r q0 _ IH] r' h.
  by inversion h as [|? ? ? h0]; subst=> //; rewrite eqxx in h0.
by inversion h as [|? ? ? h0 h1]; subst; [rewrite eqxx in q0 | exact: IH].
Qed.
Lemma Eu_ex p q : exists r, Eu p q r.
Proof.
have [n] := ubnP (size q); elim: n p q => // n IH p q hq.
case: (eqVneq q 0) => [->|q0]; first by exists p; constructor.
have [r hr] : exists r, Eu q (p %% q) r.
  by apply: IH; apply: leq_trans (_ : size q <= n)%N; rewrite ?ltn_modp.
by exists r; constructor.
Qed.
Lemma Eu_gcd p q r : Eu p q r -> r %= gcdp p q.
Proof.
elim=> {p q r} [p|p q r q0 _ IH]; first by rewrite gcdp0 eqpxx.
by apply: eqp_trans IH _; apply: eqp_trans (gcdp_modr _ _) (gcdpC _ _).
Qed.
Lemma modp_mull2l k p q : k != 0 -> (k * p) %% (k * q) = k * (p %% q).
Proof.
move=> k0; case: (eqVneq q 0) => [->|q0]; first by rewrite mulr0 !modp0.
by apply: (addrI (k * q * (p %/ q))); rewrite {1}mulrC -{1}(divp_pmul2l _ k0 q0) -divp_eq -mulrA -mulrDr (mulrC q) -divp_eq.
Qed.
Lemma Eu_mul k p q r : k != 0 -> Eu p q r -> Eu (k * p) (k * q) (k * r).
Proof.
move=> k0; elim=> {p q r} [p|p q r q0 _ IH]; first by rewrite mulr0; constructor.
by constructor; [rewrite mulf_neq0 | rewrite modp_mull2l].
Qed.
Lemma Eu_red k p q : k != 0 -> Eu (k * p) (k * q) k -> Eu p q 1.
Proof.
move=> k0 h; have [r hr] := Eu_ex p q; have := Eu_det h (Eu_mul k0 hr).
by rewrite -{1}[k]mulr1 => /(mulfI k0) ->.
Qed.
Lemma Eu_coprime p q : Eu p q 1 -> coprimep p q.
Proof. by move=> /Eu_gcd; rewrite coprimep_def eqp_sym => /eqp_size ->; rewrite size_poly1. Qed.
Lemma Eu_1 p : Eu p 1 1.
Proof. by constructor; [exact: oner_neq0 | rewrite modp1; constructor]. Qed.
Lemma Eu_uniq p q p' q' : q != 0 -> q' != 0 -> Eu p q 1 -> Eu p' q' 1 -> p * q' = p' * q -> p = p' /\ q = q'.
Proof.
move=> q0 q0' h h' e; have c := Eu_coprime h; have c' := Eu_coprime h'.
have d1 : q %| q'.
  have : q %| p * q' by rewrite e dvdp_mulIr.
  by rewrite Gauss_dvdpr // coprimep_sym.
have [u eu] := dvdpP _ _ d1.
have eu0 : u != 0 by apply: contraNneq q0' => u0; rewrite eu u0 mul0r.
have ep : p' = u * p by apply: (mulIf q0); rewrite -e eu; rewrite mulrCA mulrA.
have := Eu_mul eu0 h; rewrite -ep -eu mulr1 => /(Eu_det h') e1.
by rewrite ep eu -e1 !mul1r.
Qed.
End Eu.

(* what is needed from the polynomials; S: proper representations, L: representations that
   may occur as intermediate results *)
Record rspec (A : Type) (o : cops A) (gcd : A -> A -> res A) (isz : A -> res bool) (pse : A -> Z -> res A)
    (F : fieldType) (S L : A -> {poly F} -> Prop) : Prop := {
  rs_SL : forall a p, S a p -> L a p;
  rs_uniq : forall a b p, S a p -> S b p -> a = b;
  rs_inj : forall a p q, S a p -> S a q -> p = q;
  rs_add : forall a b p q, L a p -> L b q -> exists c, c_add o a b = Ok c /\ S c (p + q);
  rs_sub : forall a b p q, L a p -> L b q -> exists c, c_sub o a b = Ok c /\ S c (p - q);
  rs_mul : forall a b p q, S a p -> S b q -> exists c, c_mul o a b = Ok c /\ L c (p * q);
  rs_div : forall a b p q, L a p -> L b q -> q != 0 -> exists c, c_div o a b = Ok c /\ S c (p %/ q);
  rs_gcd : forall a b p q, L a p -> L b q -> exists d r, [/\ gcd a b = Ok d, L d r & Eu p q r];
  rs_eqb : forall a b p q, L a p -> L b q -> c_eqb o a b = Ok (p == q);
  rs_isz : forall a p, L a p -> isz a = Ok (p == 0);
  rs_pse0 : forall a p, S a p -> exists c, pse a 0%coqZ = Ok c /\ S c 0;
  rs_pse1 : forall a p, S a p -> exists c, pse a 1%coqZ = Ok c /\ S c 1
}.

Section Q.
Variables (A : Type) (o : cops A) (gcd : A -> A -> res A) (isz : A -> res bool) (pse : A -> Z -> res A)
  (F : fieldType) (S L : A -> {poly F} -> Prop).
Hypothesis sp : rspec o gcd isz pse S L.
Local Notation K := {fraction {poly F}}.
Local Notation "p %:F" := (FracField.tofrac p).

(* r is the object for the fraction x *)
Definition isQ (r : qrat A) (x : K) : Prop :=
  exists n d, [/\ S (r_num r) n, S (r_den r) d, d != 0, Eu n d 1 & x = n%:F / d%:F].

Lemma frac_eq (n d n' d' : {poly F}) : d != 0 -> d' != 0 -> (n%:F / d%:F == n'%:F / d'%:F) = (n * d' == n' * d).
Proof. by move=> d0 d0'; rewrite -(tofrac_eq (n * d')) !tofracM eqr_div ?tofrac_eq0. Qed.
Lemma isQ_fun r x y : isQ r x -> isQ r y -> x = y.
Proof.
move=> [n [d [h1 h2 _ _ ->]]] [n' [d' [h1' h2' _ _ ->]]].
by rewrite (rs_inj sp h1 h1') (rs_inj sp h2 h2').
Qed.
Lemma isQ_uniq r r' x : isQ r x -> isQ r' x -> r = r'.
Proof.
case: r r' => [a b] [a' b'] [n [d [/= h1 h2 d0 hE ->]]] [n' [d' [/= h1' h2' d0' hE' /eqP]]].
rewrite frac_eq // => /eqP e; have [en ed] := Eu_uniq d0 d0' hE hE' e.
by rewrite -en in h1'; rewrite -ed in h2'; rewrite (rs_uniq sp h1 h1') (rs_uniq sp h2 h2').
Qed.
Lemma isQ_dne r x : isQ r x -> exists n d, [/\ S (r_num r) n, S (r_den r) d, d != 0, d%:F != 0 & x = n%:F / d%:F].
Proof. by move=> [n [d [h1 h2 d0 _ ->]]]; exists n, d; split=> //; rewrite tofrac_eq0. Qed.

Lemma simplify_ok a b n d : L a n -> L b d -> d != 0 ->
  exists r, q_simplify o gcd isz (mkrat a b) = Ok r /\ isQ r (n%:F / d%:F).
Proof.
move=> ha hb d0; rewrite /q_simplify /= (rs_isz sp hb) bind_ok (negbTE d0).
have [g [k [-> hg hE]]] := rs_gcd sp ha hb; rewrite bind_ok.
have k0 : k != 0.
  apply: contraNneq d0 => k0; have := Eu_gcd hE; rewrite k0 eqp_sym eqp0 gcdp_eq0 => /andP [_ ->] //.
have [c1 [-> h1]] := rs_div sp ha hg k0; rewrite bind_ok.
have [c2 [-> h2]] := rs_div sp hb hg k0; rewrite bind_ok.
have kn : k %| n by rewrite (eqp_dvdl _ (Eu_gcd hE)) dvdp_gcdl.
have kd : k %| d by rewrite (eqp_dvdl _ (Eu_gcd hE)) dvdp_gcdr.
have en : n = k * (n %/ k) by rewrite mulrC divpK.
have ed : d = k * (d %/ k) by rewrite mulrC divpK.
have d1 : d %/ k != 0 by apply: contraNneq d0 => e; rewrite ed e mulr0.
exists (mkrat c1 c2); split=> //; exists (n %/ k), (d %/ k); split=> //.
  by apply: (Eu_red k0); rewrite -en -ed.
by apply/eqP; rewrite frac_eq // {1}en {2}ed -mulrA mulrCA.
Qed.
Lemma simplify_0 a b d : L b d -> d = 0 -> q_simplify o gcd isz (mkrat a b) = Exn.
Proof. by move=> hb e; rewrite /q_simplify /= (rs_isz sp hb) bind_ok e eqxx. Qed.
Lemma qmake_ok a b n d : S a n -> S b d ->
  if d == 0 then q_make o gcd isz a b = Exn else exists r, q_make o gcd isz a b = Ok r /\ isQ r (n%:F / d%:F).
Proof.
move=> ha hb; rewrite /q_make; case: eqP => [e|/eqP d0]; first exact: simplify_0 (rs_SL sp hb) e.
exact: simplify_ok (rs_SL sp ha) (rs_SL sp hb) d0.
Qed.
Lemma qpoly_ok a n : S a n -> exists r, q_poly o gcd isz pse a = Ok r /\ isQ r n%:F.
Proof.
move=> ha; rewrite /q_poly; have [c [-> hc]] := rs_pse1 sp ha; rewrite bind_ok.
have [r [-> hr]] := simplify_ok (rs_SL sp ha) (rs_SL sp hc) (oner_neq0 _).
by exists r; split=> //; move: hr; rewrite tofrac1 divr1.
Qed.
Lemma qadd_ok r s x y : isQ r x -> isQ s y -> exists t, q_add o gcd isz r s = Ok t /\ isQ t (x + y).
Proof.
move=> /isQ_dne [n [d [h1 h2 d0 D0 ->]]] /isQ_dne [n' [d' [h1' h2' d0' D0' ->]]]; rewrite /q_add.
have [c1 [-> g1]] := rs_mul sp h1 h2'; have [c2 [-> g2]] := rs_mul sp h2 h1'; rewrite !bind_ok.
have [c3 [-> g3]] := rs_add sp g1 g2; have [c4 [-> g4]] := rs_mul sp h2 h2'; rewrite !bind_ok.
have [t [-> ht]] := simplify_ok (rs_SL sp g3) g4 (mulf_neq0 d0 d0'); exists t; split=> //.
by rewrite addf_div // -!tofracM -tofracD [n' * d]mulrC.
Qed.
Lemma qsub_ok r s x y : isQ r x -> isQ s y -> exists t, q_sub o gcd isz r s = Ok t /\ isQ t (x - y).
Proof.
move=> /isQ_dne [n [d [h1 h2 d0 D0 ->]]] /isQ_dne [n' [d' [h1' h2' d0' D0' ->]]]; rewrite /q_sub.
have [c1 [-> g1]] := rs_mul sp h1 h2'; have [c2 [-> g2]] := rs_mul sp h2 h1'; rewrite !bind_ok.
have [c3 [-> g3]] := rs_sub sp g1 g2; have [c4 [-> g4]] := rs_mul sp h2 h2'; rewrite !bind_ok.
have [t [-> ht]] := simplify_ok (rs_SL sp g3) g4 (mulf_neq0 d0 d0'); exists t; split=> //.
by rewrite -mulNr addf_div // mulNr -!tofracM -tofracB [n' * d]mulrC.
Qed.
Lemma qmul_ok r s x y : isQ r x -> isQ s y -> exists t, q_mul o gcd isz r s = Ok t /\ isQ t (x * y).
Proof.
move=> /isQ_dne [n [d [h1 h2 d0 D0 ->]]] /isQ_dne [n' [d' [h1' h2' d0' D0' ->]]]; rewrite /q_mul.
have [c1 [-> g1]] := rs_mul sp h1 h1'; have [c2 [-> g2]] := rs_mul sp h2 h2'; rewrite !bind_ok.
have [t [-> ht]] := simplify_ok g1 g2 (mulf_neq0 d0 d0'); exists t; split=> //.
by rewrite mulf_div -!tofracM.
Qed.
Lemma qdiv_ok r s x y : isQ r x -> isQ s y ->
  if y == 0 then q_div o gcd isz r s = Exn else exists t, q_div o gcd isz r s = Ok t /\ isQ t (x / y).
Proof.
move=> /isQ_dne [n [d [h1 h2 d0 D0 ->]]] /isQ_dne [n' [d' [h1' h2' d0' D0' ->]]]; rewrite /q_div.
have [c1 [-> g1]] := rs_mul sp h1 h2'; have [c2 [-> g2]] := rs_mul sp h2 h1'; rewrite !bind_ok.
rewrite mulf_eq0 invr_eq0 (negbTE D0') orbF tofrac_eq0; case: eqP => [e|/eqP n0].
  by apply: simplify_0 g2 _; rewrite e mulr0.
have [t [-> ht]] := simplify_ok g1 g2 (mulf_neq0 d0 n0); exists t; split=> //.
by rewrite invf_div mulf_div -!tofracM.
Qed.
Lemma neqb_ok a b p q : L a p -> L b q -> c_neqb o a b = Ok (p != q).
Proof. by move=> ha hb; rewrite /c_neqb (rs_eqb sp ha hb). Qed.
Lemma qeqb_ok r s x y : isQ r x -> isQ s y -> q_eqb o r s = Ok (x == y).
Proof.
move=> [n [d [h1 h2 d0 hE ->]]] [n' [d' [h1' h2' d0' hE' ->]]]; rewrite /q_eqb.
rewrite (neqb_ok (rs_SL sp h1) (rs_SL sp h1')) (neqb_ok (rs_SL sp h2) (rs_SL sp h2')) !bind_ok frac_eq // negbK.
case: eqP => [en|ne] /=.
  case: eqP => [->|ne]; first by rewrite en eqxx.
  by congr Ok; apply/esym/negbTE/eqP => e; have [_] := Eu_uniq d0 d0' hE hE' e.
by congr Ok; apply/esym/negbTE/eqP => e; have [] := Eu_uniq d0 d0' hE hE' e.
Qed.
Lemma qeqp_ok r x a p : isQ r x -> S a p -> q_eq_poly o pse r a = Ok (x == p%:F).
Proof.
move=> [n [d [h1 h2 d0 hE ->]]] ha; rewrite /q_eq_poly; have [c [-> hc]] := rs_pse1 sp h1; rewrite bind_ok.
rewrite (neqb_ok (rs_SL sp h2) (rs_SL sp hc)) bind_ok (rs_eqb sp (rs_SL sp h1) (rs_SL sp ha)).
have -> : (n%:F / d%:F == p%:F) = (n * 1 == p * d).
  by rewrite -(frac_eq n p d0 (oner_neq0 _)) tofrac1 divr1.
rewrite mulr1; case: eqP => [->|ne] /=; first by rewrite mulr1.
congr Ok; apply/esym/negbTE/eqP => e.
by have [|_] := Eu_uniq d0 (oner_neq0 _) hE (Eu_1 p); rewrite ?mulr1.
Qed.
Lemma qmod_ok r s x y : isQ r x -> isQ s y ->
  if y == 0 then q_mod o gcd isz r s = Exn else exists t, q_mod o gcd isz r s = Ok t /\ isQ t 0.
Proof.
move=> hr hs; rewrite /q_mod; have [t [-> ht]] := qsub_ok hs hs; rewrite bind_ok subrr in ht *.
by rewrite (qeqb_ok hs ht) bind_ok; case: eqP => // _; exists t.
Qed.
Lemma qpse0_ok r x : isQ r x -> exists t, q_pse o gcd isz pse r 0 = Ok t /\ isQ t 0.
Proof.
move=> [n [d [h1 _ _ _ _]]]; rewrite /q_pse; have [c [-> hc]] := rs_pse0 sp h1; rewrite bind_ok.
by have := qpoly_ok hc; rewrite tofrac0.
Qed.
Lemma qpse1_ok r x : isQ r x -> exists t, q_pse o gcd isz pse r 1 = Ok t /\ isQ t 1.
Proof.
move=> [n [d [h1 _ _ _ _]]]; rewrite /q_pse; have [c [-> hc]] := rs_pse1 sp h1; rewrite bind_ok.
by have := qpoly_ok hc; rewrite tofrac1.
Qed.
Lemma qloop_ok l p one e : isQ l p -> isQ one 1 -> (0 <= e <= INT_MAX)%coqZ ->
  exists r, loop 34 (q_exp_step o gcd isz) (e, l, one) = Ok r /\ isQ r (p ^+ Z.to_nat e).
Proof.
move=> hl h1 he; pose mu (s : Z * qrat A * qrat A) := if Z.eqb s.1.1 0 then 0%N else (Z.to_nat (Z.log2 s.1.1)).+1.
have [|||r [er hr]] := loop_total (q_exp_step o gcd isz) (fun s => exists X Y, isQ s.1.2 X /\ isQ s.2 Y /\
    (0 <= s.1.1 <= INT_MAX)%coqZ /\ Y * X ^+ Z.to_nat s.1.1 = p ^+ Z.to_nat e)
  mu (fun r => isQ r (p ^+ Z.to_nat e)) _ 34 (e, l, one).
- move=> [[k xp] rv] [X [Y [/= hx [hy [hk hE]]]]].
  case: Z.eqb_spec => [k0|k0]; first by right; exists rv; rewrite -hE k0 expr0 mulr1.
  left; have [xp' [ex hx']] := qmul_ok hx hx.
  have hu : (u32 k / 2 = k / 2)%coqZ by rewrite /u32 Z.mod_small //; rewrite /INT_MAX in hk; clear - hk; lia.
  have hk2 : Z.to_nat k = (Z.odd k + (Z.to_nat (k / 2)).*2)%N.
    rewrite {1}(Z.div_mod k 2 ltac:(by [])) Zmod_odd -muln2 -multE -plusE.
    by clear - hk k0; case: (Z.odd k); lia.
  have hmu : (mu (k / 2, xp', rv)%coqZ < mu (k, xp, rv))%coq_nat.
    rewrite /mu /=; clear - hk k0; case: Z.eqb_spec => [_|k20]; case: Z.eqb_spec => //; try lia.
    have := Z.log2_spec k ltac:(lia); have := Z.log2_spec (k / 2) ltac:(lia).
    have h2 : (Z.log2 (k / 2) < Z.log2 k)%coqZ.
      have := Z.log2_double (k / 2) ltac:(lia).
      have := Z.log2_le_mono (2 * (k / 2)) k ltac:(lia); lia.
    have := Z.log2_nonneg (k / 2); lia.
  have hb : (0 <= k / 2 <= INT_MAX)%coqZ by rewrite /INT_MAX in hk *; clear - hk; lia.
  case: (boolP (Z.odd k)) => hodd.
    have [rv' [er hr]] := qmul_ok hy hx; rewrite er bind_ok ex bind_ok hu; eexists; split; first by [].
    split=> //; exists (X * X), (Y * X); split=> //; split=> //; split=> //=.
    by rewrite -hE hk2 hodd exprD expr1 -mul2n exprM expr2 mulrA.
  rewrite bind_ok ex bind_ok hu; eexists; split; first by [].
  split=> //; exists (X * X), Y; split=> //; split=> //; split=> //=.
  by rewrite -hE hk2 (negbTE hodd) add0n -mul2n exprM expr2.
- by exists p, 1; rewrite /= mul1r.
- rewrite /mu /=; clear - he; case: Z.eqb_spec => [_|h]; first by lia.
  have := Z.log2_le_mono e INT_MAX ltac:(lia); rewrite (_ : Z.log2 INT_MAX = 30%coqZ) //; lia.
by exists r.
Qed.
Lemma qexp_pos r x e : isQ r x -> (0 < e <= INT_MAX)%coqZ -> exists t, q_exp o gcd isz pse r e = Ok t /\ isQ t (x ^+ Z.to_nat e).
Proof.
move=> hr he; rewrite /q_exp; have [t0 [-> h0]] := qpse0_ok hr; have [t1 [-> h1]] := qpse1_ok hr; rewrite !bind_ok.
have -> : Z.eqb e 0 = false by clear - he; lia.
have -> : Z.ltb e 0 = false by clear - he; lia.
by rewrite bind_ok; apply: qloop_ok => //; clear - he; lia.
Qed.
Lemma qexp_0 r x : isQ r x ->
  if x == 0 then q_exp o gcd isz pse r 0 = Exn else exists t, q_exp o gcd isz pse r 0 = Ok t /\ isQ t 1.
Proof.
move=> hr; rewrite /q_exp; have [t0 [-> h0]] := qpse0_ok hr; have [t1 [-> h1]] := qpse1_ok hr; rewrite !bind_ok.
by rewrite (qeqb_ok hr h0) /=; case: eqP => // _; exists t1.
Qed.
Lemma qexp_neg r x e : isQ r x -> (- INT_MAX <= e < 0)%coqZ ->
  if x == 0 then q_exp o gcd isz pse r e = Exn else exists t, q_exp o gcd isz pse r e = Ok t /\ isQ t (x^-1 ^+ Z.to_nat (- e)).
Proof.
move=> hr he; rewrite /q_exp; have [t0 [-> h0]] := qpse0_ok hr; have [t1 [-> h1]] := qpse1_ok hr; rewrite !bind_ok.
have -> : Z.eqb e 0 = false by clear - he; lia.
have -> : Z.ltb e 0 = true by clear - he; lia.
rewrite (qeqb_ok hr h0) bind_ok; case: eqP => // /eqP x0.
have := qdiv_ok h1 hr; rewrite (negbTE x0) div1r => -[inv [ei hi]].
rewrite /ineg /chk; have -> : in_int (- e) = true by rewrite /in_int /INT_MIN; move: he; rewrite /INT_MAX; clear; lia.
by rewrite bind_ok ei !bind_ok; apply: qloop_ok => //; clear - he; lia.
Qed.
Lemma qexp_min r x : isQ r x -> x != 0 -> q_exp o gcd isz pse r INT_MIN = UB.
Proof.
move=> hr x0; rewrite /q_exp; have [t0 [-> h0]] := qpse0_ok hr; have [t1 [-> h1]] := qpse1_ok hr; rewrite !bind_ok.
by rewrite (qeqb_ok hr h0) (negbTE x0).
Qed.
Lemma qcmp_ok f r s x y : isQ r x -> isQ s y -> exists n d n' d' a b,
  [/\ d != 0, d' != 0, x = n%:F / d%:F, y = n'%:F / d'%:F & [/\ S (r_num r) n, S (r_den r) d, S (r_num s) n' & S (r_den s) d']] /\
  [/\ q_cmp o f r s = f a b, L a (n * d') & L b (d * n')].
Proof.
move=> /isQ_dne [n [d [h1 h2 d0 D0 ->]]] /isQ_dne [n' [d' [h1' h2' d0' D0' ->]]]; rewrite /q_cmp.
have [c1 [-> g1]] := rs_mul sp h1 h2'; have [c2 [-> g2]] := rs_mul sp h2 h1'; rewrite !bind_ok.
by exists n, d, n', d', c1, c2.
Qed.
End Q.

(* the object for a fraction, computed from any representative *)
Section Enc.
Variable F : fieldType.
Local Notation K := {fraction {poly F}}.
Local Notation "p %:F" := (FracField.tofrac p).
Fixpoint eu n (p q : {poly F}) : {poly F} :=
  if n is n'.+1 then (if q == 0 then p else eu n' q (p %% q)) else p.
Lemma eu_Eu n (p q : {poly F}) : (size q < n)%N -> Eu p q (eu n p q).
Proof.
elim: n p q => // n IH p q h /=; case: eqP => [->|/eqP q0]; first by constructor.
by constructor=> //; apply: IH; apply: leq_trans (_ : size q <= n)%N; rewrite ?ltn_modp.
Qed.
Definition qpair (x : K) : {poly F} * {poly F} :=
  let r := frac (repr x) in let g := eu (size r.2).+1 r.1 r.2 in (r.1 %/ g, r.2 %/ g).
Definition qnum (x : K) := (qpair x).1.
Definition qden (x : K) := (qpair x).2.
Lemma frac_repr (x : K) : (frac (repr x)).2 != 0 /\ x = (frac (repr x)).1%:F / (frac (repr x)).2%:F.
Proof.
have d0 := denom_ratioP (repr x); split=> //.
apply: (mulIf (x := (frac (repr x)).2%:F)); first by rewrite tofrac_eq0.
rewrite divfK ?tofrac_eq0 // -{1}[x]reprK; unlock FracField.tofrac; rewrite -[LHS]FracField.pi_mul.
apply/eqmodP; rewrite /= FracField.equivfE /FracField.mulf !numden_Ratio ?mulf_neq0 ?oner_neq0 //.
by rewrite !mulr1 mulrC.
Qed.
Lemma qpairP x : [/\ qden x != 0, Eu (qnum x) (qden x) 1 & x = (qnum x)%:F / (qden x)%:F].
Proof.
have [d0 ex] := frac_repr x; rewrite /qden /qnum /qpair; set n := (frac (repr x)).1 in ex *; set d := (frac (repr x)).2 in d0 ex *.
have hE : Eu n d (eu (size d).+1 n d) by apply: eu_Eu.
move: hE; set k := eu _ _ _ => hE.
have k0 : k != 0.
  apply: contraNneq d0 => k0; have := Eu_gcd hE; rewrite k0 eqp_sym eqp0 gcdp_eq0 => /andP [_ ->] //.
have kn : k %| n by rewrite (eqp_dvdl _ (Eu_gcd hE)) dvdp_gcdl.
have kd : k %| d by rewrite (eqp_dvdl _ (Eu_gcd hE)) dvdp_gcdr.
have en : n = k * (n %/ k) by rewrite mulrC divpK.
have ed : d = k * (d %/ k) by rewrite mulrC divpK.
have d1 : d %/ k != 0 by apply: contraNneq d0 => e; rewrite ed e mulr0.
split=> //=; first by apply: (Eu_red k0); rewrite -en -ed.
by rewrite ex; apply/eqP; rewrite frac_eq // {1}en {2}ed -mulrA mulrCA.
Qed.
Lemma qpair_eq x n d : d != 0 -> Eu n d 1 -> x = n%:F / d%:F -> qnum x = n /\ qden x = d.
Proof.
move=> d0 hE e; have [d1 hE' e'] := qpairP x; have : (qnum x)%:F / (qden x)%:F == n%:F / d%:F by rewrite -e -e'.
by rewrite frac_eq // => /eqP h; apply: Eu_uniq.
Qed.

Variables (A : Type) (o : cops A) (gcd : A -> A -> res A) (isz : A -> res bool) (pse : A -> Z -> res A)
  (S L : A -> {poly F} -> Prop) (enc : {poly F} -> A).
Hypothesis sp : rspec o gcd isz pse S L.
Hypothesis encS : forall f, S (enc f) f.
Definition qenc (x : K) : qrat A := mkrat (enc (qnum x)) (enc (qden x)).
Lemma qencP x : isQ S (qenc x) x.
Proof. by have [h1 h2 h3] := qpairP x; exists (qnum x), (qden x); split=> //; exact: encS. Qed.
Lemma qencE r x : isQ S r x -> r = qenc x.
Proof. by move=> h; apply: (isQ_uniq sp h (qencP x)). Qed.
Lemma e_make n d : q_make o gcd isz (enc n) (enc d) = if d == 0 then Exn else Ok (qenc (n%:F / d%:F)).
Proof. by have := qmake_ok sp (encS n) (encS d); case: eqP => // _ [r [-> /qencE ->]]. Qed.
Lemma e_poly n : q_poly o gcd isz pse (enc n) = Ok (qenc n%:F).
Proof. by have [r [-> /qencE ->]] := qpoly_ok sp (encS n). Qed.
Lemma e_ring x y : q_add o gcd isz (qenc x) (qenc y) = Ok (qenc (x + y)) /\ q_sub o gcd isz (qenc x) (qenc y) = Ok (qenc (x - y)) /\
  q_mul o gcd isz (qenc x) (qenc y) = Ok (qenc (x * y)).
Proof.
have [r [-> /qencE ->]] := qadd_ok sp (qencP x) (qencP y); have [s [-> /qencE ->]] := qsub_ok sp (qencP x) (qencP y).
by have [t [-> /qencE ->]] := qmul_ok sp (qencP x) (qencP y).
Qed.
Lemma e_div x y : q_div o gcd isz (qenc x) (qenc y) = if y == 0 then Exn else Ok (qenc (x / y)).
Proof. by have := qdiv_ok sp (qencP x) (qencP y); case: eqP => // _ [r [-> /qencE ->]]. Qed.
Lemma e_mod x y : q_mod o gcd isz (qenc x) (qenc y) = if y == 0 then Exn else Ok (qenc 0).
Proof. by have := qmod_ok sp (qencP x) (qencP y); case: eqP => // _ [r [-> /qencE ->]]. Qed.
Lemma e_eqb x y : q_eqb o (qenc x) (qenc y) = Ok (x == y).
Proof. exact: (qeqb_ok sp (qencP x) (qencP y)). Qed.
Lemma e_eqp x p : q_eq_poly o pse (qenc x) (enc p) = Ok (x == p%:F).
Proof. exact: (qeqp_ok sp (qencP x) (encS p)). Qed.
Lemma e_exp x e : (- INT_MAX <= e <= INT_MAX)%coqZ -> q_exp o gcd isz pse (qenc x) e =
  if (e <=? 0)%coqZ && (x == 0) then Exn else Ok (qenc (if (e <? 0)%coqZ then x^-1 ^+ Z.to_nat (- e) else x ^+ Z.to_nat e)).
Proof.
move=> he; case: (Z.ltb_spec e 0) => h0.
  have -> : (e <=? 0)%coqZ by clear - h0; lia.
  have h : (- INT_MAX <= e < 0)%coqZ by clear - h0 he; lia.
  by have := qexp_neg sp (qencP x) h; case: eqP => // _ [r [-> /qencE ->]].
case: (Z.leb_spec e 0) => h1.
  have -> : e = 0%coqZ by clear - h0 h1; lia.
  by have := qexp_0 sp (qencP x); case: eqP => // _ [r [-> /qencE ->]].
have h : (0 < e <= INT_MAX)%coqZ by clear - h1 he; lia.
by have [r [-> /qencE ->]] := qexp_pos sp (qencP x) h.
Qed.
Lemma e_exp_min x : x != 0 -> q_exp o gcd isz pse (qenc x) INT_MIN = UB.
Proof. exact: (qexp_min sp (qencP x)). Qed.
Lemma e_cmp f x y : exists a b, [/\ q_cmp o f (qenc x) (qenc y) = f a b, L a (qnum x * qden y) & L b (qden x * qnum y)].
Proof.
rewrite /q_cmp /=; have [a [-> ha]] := rs_mul sp (encS (qnum x)) (encS (qden y)); rewrite bind_ok.
by have [b [-> hb]] := rs_mul sp (encS (qden x)) (encS (qnum y)); rewrite bind_ok; exists a, b.
Qed.
Lemma e_inj x y : qenc x = qenc y -> x = y.
Proof. by move=> e; apply: (isQ_fun sp (qencP x)); rewrite e; exact: qencP. Qed.
End Enc.
