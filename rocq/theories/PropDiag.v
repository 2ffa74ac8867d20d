(* Final theorems for the diagonalizability test of spffl/linalg/f2_polymod_linear_algebra.cpp
   and for matrix plus and minus scalar of tmatrix.h.

   G1 is a finite field of characteristic 2 presented by an irreducible polynomial (PF2n.v);
   gf_el is the object for a field element, mx_enc gf_el the object for a matrix.
   can_diagonalize A (PDiag.v) says that P A P^-1 is a diagonal matrix for some invertible P
   over the field of the entries of A. *)
From Verif Require Import Base MIntMath MMat MFac MF2Poly MF2Fac MPoly MUnits MF2nPoly MLinalg MConvert MList MDiag.
From Verif Require Import PIntMath PF2Poly PUnits PSort PF2Poly3.
From mathcomp Require Import all_ssreflect fingroup perm all_algebra cyclic zify ssrZ separable.
From Verif Require Import PMat PFp PBits3 PF2Poly2 PF2Poly4 PPoly PPoly2 PF2n PF2Tot PLinalg2 PEd PConvert PDiag PDiag2.
From Verif Require Import PropMat PropF2Fac PropUnits PropF2nPoly PropF2nFac PropLinalg PropConvert.
Set Implicit Arguments.
Unset Strict Implicit.
Unset Printing Implicit Defensive.
Import GRing.Theory.
Delimit Scope Z_scope with coqZ.
Local Open Scope ring_scope.

(* ---- matrix plus scalar, matrix minus scalar: the scalar is added to the diagonal *)
Theorem C88_plus_scalar : forall (A : Type) (o : cops A) (F : fieldType) (V : A -> Prop) (I : A -> F),
  cspec o V I -> forall n t (a : 'M[F]_n) e c, mat_is V I t a -> elem_is V I e c ->
  exists t', mat_plus_scalar o t e = Ok t' /\ mat_is V I t' (a + c%:M).
Proof. by move=> A o F V I sp n t a e c h he; apply: plus_scalar_ok. Qed.
Theorem C88_minus_scalar : forall (A : Type) (o : cops A) (F : fieldType) (V : A -> Prop) (I : A -> F),
  cspec o V I -> forall n t (a : 'M[F]_n) e c, mat_is V I t a -> elem_is V I e c ->
  exists t', mat_minus_scalar o t e = Ok t' /\ mat_is V I t' (a - c%:M).
Proof. by move=> A o F V I sp n t a e c h he; apply: minus_scalar_ok. Qed.
Theorem C88_scalar_nonsquare : forall (A : Type) (o : cops A) (F : fieldType) (V : A -> Prop) (I : A -> F) m n t (a : 'M[F]_(m, n)) e,
  mat_is V I t a -> m <> n -> mat_plus_scalar o t e = Exn /\ mat_minus_scalar o t e = Exn.
Proof.
by move=> A o F V I m n t a e h /eqP/negPf hn; rewrite /mat_plus_scalar /mat_minus_scalar (sqE h) hn.
Qed.

(* ---- the test *)
Lemma gf_deg (G : gf2) : (0 < (size (gf_m G)).-1)%N.
Proof. by case: (gf_irr G); case: (size _) => [|[]]. Qed.
Lemma char_neq0 (F : fieldType) n (A : 'M[F]_n) : char_poly A != 0.
Proof. exact/monic_neq0/char_poly_monic. Qed.
Lemma irr_prod (F : fieldType) (T : Type) (h : {poly F}) (g : T -> {poly F}) (k : T -> nat) (s : seq T) : irreducible_poly h ->
  h %| \prod_(e <- s) g e ^+ k e -> exists2 e, List.In e s & h %| g e.
Proof.
move=> hi; elim: s => [|e s IH]; first by rewrite big_nil dvdp1; case: hi => h1 _ /eqP e; rewrite e in h1.
rewrite big_cons; have [hg _|nh] := boolP (h %| g e); first by exists e => //; left.
rewrite Gauss_dvdpr; last first.
  apply: coprimep_expr; rewrite /coprimep; apply/negPn/negP => h1.
  by case: hi => _ /(_ _ h1 (dvdp_gcdl _ _)) ee; rewrite -(eqp_dvdl _ ee) dvdp_gcdr in nh.
by move=> /IH [x xs hx]; exists x => //; right.
Qed.
Lemma InP (T : eqType) (x : T) l : List.In x l -> x \in l.
Proof. by elim: l => [//|y l IH] /= [->|/IH h]; rewrite inE ?eqxx // h orbT. Qed.

Lemma fst_inj (T : eqType) (U : eqType) (s : seq (T * U)) x y : uniq [seq e.1 | e <- s] -> x \in s -> y \in s -> x.1 = y.1 -> x = y.
Proof.
elim: s => [//|z s IH] /= /andP [nz us]; rewrite !inE => /orP [/eqP ->|hx] /orP [/eqP ->|hy] // e.
- by case/negP: nz; rewrite e; apply: (map_f (fun e => e.1)).
- by case/negP: nz; rewrite -e; apply: (map_f (fun e => e.1)).
- exact: IH.
Qed.
Section Split.
Variable G : gf2.
Hypothesis hd : (Z.of_nat (size (gf_m G)).-1 <= 30)%coqZ.
Local Notation L := (gf_L G).
Lemma tail_ok n (B : 'M[L]_n.+1) (lm : fpoly) : (Z.of_nat n.+2 <= INT_MAX)%coqZ ->
  (forall h, irreducible_poly h -> h %| char_poly B -> size h = 2%N) ->
  exists b (ev : seq L) l, [/\
    (ext_finfo <- f2n_factor (g2_enc (char_poly B)) ;;
     nev <- count_linear ext_finfo ;;
     ev0 <- new_vec pm_dflt (Z.of_nat nev) ;;
     '(rv, ev) <- collect_eigen ext_finfo nev ev0 ;;
     rv <- compare_nullities ext_finfo nev ev (mx_enc (@gf_el G) B) rv ;; Ok (rv, lm, ev)) = Ok (b, lm, [seq gf_el a | a <- ev]),
    uniq ev, forall a, (a \in ev) = eigenvalue B a, char_poly B = \prod_(a <- l) ('X - a%:P) & (b = true <-> can_diagonalize B)].
Proof.
move=> hn hs; have sz : size (char_poly B) = n.+2 by rewrite size_char_poly.
have [|fin [-> [s [hf hg us _ ef]]]] := C68_factor_partial hd (char_neq0 B); first by rewrite sz.
rewrite bind_ok; move: ef; rewrite (monicP (char_poly_monic B)) scale1r => ef.
have lin e : e \in s -> size e.1 = 2%N.
  case: e => g m he; have [mg ig m0] := hg _ _ he; apply: hs => //=.
  rewrite ef (big_rem (g, m)) //=; apply: dvdp_mulr; apply: dvdp_exp => //.
rewrite (count_ok hf lin) bind_ok.
have s0 : (0 < size s)%N.
  by case: (s) ef sz => [|//]; rewrite big_nil => ->; rewrite size_poly1.
rewrite /new_vec; have -> : (Z.of_nat (size s) <=? 0)%coqZ = false by move: s0; clear; lia.
rewrite bind_ok Nat2Z.id (collect_ok hf lin); last by rewrite -lengthE repeat_length.
rewrite bind_ok (compare_ok hf) bind_ok andTb.
have gE e : e \in s -> e.1 = 'X - (e.1`_0)%:P.
  move=> he; have s2 := lin _ he; case: e he s2 => g m he /= s2; have [mg _ _] := hg _ _ he.
  rewrite -polyCN (oppr_char2 (char2L G) g`_0); apply/polyP => -[|[|i]].
  - by rewrite coefD coefX coefC add0r.
  - by rewrite coefD coefX coefC addr0; move/monicP: mg; rewrite lead_coefE s2.
  by rewrite coefD coefX coefC addr0 nth_default // s2.
pose s' := [seq ((e : {poly L} * nat).1`_0, e.2) | e <- s].
have us' : uniq [seq e.1 | e <- s'].
  rewrite -map_comp map_inj_in_uniq; first exact: (map_uniq us).
  move=> x y hx hy /= exy; have e1 : x.1 = y.1 by rewrite (gE _ hx) (gE _ hy) exy.
  exact: fst_inj us hx hy e1.
have hs' : char_poly B = \prod_(e <- s') ('X - e.1%:P) ^+ e.2.
  by rewrite ef big_map !big_seq; apply: eq_bigr => e /gE {1}->.
exists (all (fun e : {poly L} * nat => (n.+1 - \rank (B - (e.1`_0)%:M)%R)%N == e.2) s), [seq e.1 | e <- s'], (flatten [seq nseq e.2 e.1 | e <- s']); split.
- by rewrite /s' -map_comp.
- exact: us'.
- move=> a; rewrite eigenvalue_root_char hs'; apply/mapP/idP => [[e he ->]|].
    rewrite -dvdp_XsubCl (big_rem e) //= dvdp_mulr //; apply: dvdp_exp => //.
    by case/mapP: he => -[g m] he ->; have [] := hg _ _ he.
  rewrite -dvdp_XsubCl => /(irr_prod (irredp_XsubC a)) [e /InP he]; rewrite dvdp_XsubCl root_XsubC => /eqP ->.
  by exists e.
- exact: rep_prod.
- by rewrite (diag_criterion us' hs') all_map.
Qed.
End Split.

(* A generator as found by the library generates the field *)
Lemma gen_gen (G : gf2) (g : fpmod) (p : {poly 'F_2}) : isM g p (gf_m G) -> coprimep (gf_m G) p ->
  (forall h, coprimep (gf_m G) h -> exists j, h %% gf_m G = p ^+ j %% gf_m G) ->
  exists2 a : gf_L G, g = gf_el a & generates a.
Proof.
move=> hg cp hj; pose ev (r : {poly 'F_2}) := (map_poly (gf_emb G) r).[gf_z G].
have evm r : ev (r %% gf_m G) = ev r.
  rewrite {2}(divp_eq r (gf_m G)) /ev rmorphD rmorphM hornerD hornerM; have /rootP -> := gf_root G.
  by rewrite mulr0 add0r.
exists (ev p); first exact: (C62_elements G).2 hg.
split.
  have [[u v] /= uv] := Bezout_eq1_coprimepP _ _ cp; apply/eqP => e0.
  have := congr1 ev uv; rewrite /ev rmorphD !rmorphM hornerD !hornerM rmorph1 hornerC.
  have /rootP -> := gf_root G; rewrite -/(ev p) e0 !mulr0 addr0 => /eqP; by rewrite eq_sym oner_eq0.
move=> a a0; have [r hr er] := gf_elP a.
have r0 : r != 0 by apply: contraNneq a0 => r0; rewrite -er r0 rmorph0 horner0.
have [|j ej] := hj r; first by rewrite coprimep_sym; apply: irr_coprime (gf_irr G) r0 _; case: hr => _ [].
by exists j; rewrite -er -/(ev r) -evm ej evm /ev rmorphX horner_exp.
Qed.

Lemma ith_sq (F : fieldType) (h g : {poly F}) : irreducible_poly h -> irreducible_poly g -> h %| g -> size h = size g.
Proof. by move=> [h1 _] [_ hg] /hg e; apply: eqp_size; apply: e; rewrite neq_ltn h1 orbT. Qed.

Theorem C88_diagonalizable_partial : forall (G1 : gf2) t qs qsv n (A : 'M[gf_L G1]_n.+1) d,
  qsort_ok (gf_m G1) qs -> (forall m, vsort_ok m qsv) -> (Z.of_nat n.+2 <= INT_MAX)%coqZ ->
  (0 < d)%N -> (forall h, irreducible_poly h -> h %| char_poly A -> ((size h).-1 %| d)%N) ->
  ((size (gf_m G1)).-1 * d <= 30)%N ->
  exists (G2 : gf2) (f : {rmorphism gf_L G1 -> gf_L G2}) b lm (ev : seq (gf_L G2)),
  [/\ f2_polymod_matrix_is_diagonalizable (Some t) qs qsv (mx_enc (@gf_el G1) A) = Ok (b, lm, [seq gf_el a | a <- ev]),
      isP lm (gf_m G2) /\ ((size (gf_m G2)).-1 %| (size (gf_m G1)).-1 * d)%N,
      uniq ev /\ (forall a, (a \in ev) = eigenvalue (map_mx f A) a),
      exists l, char_poly (map_mx f A) = \prod_(a <- l) ('X - a%:P) &
      (b = true <-> can_diagonalize (map_mx f A))].
Proof.
move=> G1 t qs qsv n A d hq hv hn d0 hd1 hnd.
set n1 := (size (gf_m G1)).-1 in hnd *; have n10 : (0 < n1)%N by exact: gf_deg.
have d30 : (d <= 30)%N by apply: leq_trans hnd; exact: leq_pmull.
have n130 : (n1 <= 30)%N by apply: leq_trans hnd; exact: leq_pmulr.
have hd : (Z.of_nat (size (gf_m G1)).-1 <= 30)%coqZ by move: n130; rewrite -/n1; clear; lia.
rewrite /f2_polymod_matrix_is_diagonalizable C49_f2n_char_poly bind_ok.
have sz : size (char_poly A) = n.+2 by rewrite size_char_poly.
have [|fin [ef [s [hf hg us _ es]]]] := C68_factor_partial hd (char_neq0 A); first by rewrite sz.
rewrite {1}ef bind_ok; move: es; rewrite (monicP (char_poly_monic A)) scale1r => es.
have dvs e : e \in s -> irreducible_poly e.1 /\ e.1 %| char_poly A.
  case: e => g m he; have [mg ig m0] := hg _ _ he; split=> //=.
  by rewrite es (big_rem (g, m)) //=; apply: dvdp_mulr; apply: dvdp_exp.
have [|l [-> l0 ld hl]] := lcm_ok hf d0 d30.
  move=> e he; have [ig dg] := dvs e he; rewrite hd1 // andbT.
  by case: (ig); case: (size _) => [|[]].
rewrite bind_ok.
have hl' h : irreducible_poly h -> h %| char_poly A -> ((size h).-1 %| l)%N.
  move=> ih; rewrite es => /(irr_prod ih) [e /InP he hh].
  by rewrite (ith_sq ih (dvs e he).1 hh); exact: hl.
have [x [ex hx]] := RM_el (mx_enc_RM (S := R (Vg (gf_m G1)) (@Ig _ (gf_emb G1) (gf_z G1))) A (@elR G1)) (ltn0Sn n) (ltn0Sn n).
rewrite ex bind_ok; rewrite (Rel hx); move: (mx_fun A 0 0) => a0.
have [r hr _] := gf_elP a0; have [_ [hm _]] := hr.
rewrite (degree_thm (isP_W hm)) bind_ok -/n1.
have ln30 : (l * n1 <= 30)%N by apply: leq_trans hnd; rewrite mulnC leq_mul // dvdn_leq.
have b30 k : (k <= 30)%N -> (Z.of_nat k <= INT_MAX)%coqZ by rewrite /INT_MAX; clear; lia.
rewrite /imul -Nat2Z.inj_mul chk_ok; last by split; [rewrite /INT_MIN; clear; lia|exact: b30].
rewrite bind_ok.
have [e1|l1] := eqVneq l 1%N.
  rewrite e1 [(Z.of_nat 1 =? 1)%coqZ]/= !bind_ok.
  have [h ih dh|b [ev [ls [-> uev hev els hb]]]] := tail_ok hd (B := A) (pm_mod (gf_el a0)) hn.
    by have := hl' h ih dh; rewrite e1 dvdn1; case: (size h) => [|[|[]]].
  exists G1, [rmorphism of idfun], b, (pm_mod (gf_el a0)), ev.
  have -> : map_mx [rmorphism of idfun] A = A by apply/matrixP => i j; rewrite mxE.
  by split=> //; [split=> //; exact: dvdn_mulr|exists ls].
have -> : (Z.of_nat l =? 1)%coqZ = false by move: l1; clear; lia.
have l2 : (1 < l)%N by move: l0 l1; clear; case: (l) => [|[]].
have dim2 : (1 < l * n1)%N by apply: leq_trans l2 _; exact: leq_pmulr.
have [lm [p [-> hp sp ip _]]] := C29_find_irreducible_partial t dim2 (b30 _ ln30).
rewrite bind_ok; have n115 : (Z.of_nat (size (gf_m G1)).-1 <= 15)%coqZ.
  have : (2 * n1 <= 30)%N by apply: leq_trans ln30; exact: leq_mul.
  by rewrite -/n1; clear; lia.
have [g [q [-> hg1 cq hgen _]]] := C56_generator_partial t hm (gf_irr G1) n115; rewrite bind_ok.
have [g1 -> gg1] := gen_gen hg1 cq hgen.
have [G2 eG2] := C62_field ip; rewrite -eG2 in hp sp.
have dim : (size (gf_m G2)).-1 = (l * n1)%N by rewrite sp.
have hd2 : (Z.of_nat (size (gf_m G2)).-1 <= 30)%coqZ by rewrite dim; move: ln30; clear; lia.
have := C83_field hp hq (hv (gf_m G2)) hd hd2 gg1; rewrite dim -/n1 dvdn_mull // => -[g2 [f [-> _ _ [_ cp cm]]]].
rewrite bind_ok cp bind_ok cm // !bind_ok map_char_poly.
have [h ih|b [ev [ls [-> uev hev els hb]]]] := tail_ok hd2 (B := map_mx f A) lm hn.
  rewrite -map_char_poly es rmorph_prod; under eq_bigr => i _ do rewrite rmorphX.
  move=> /(irr_prod ih) [e /InP he hh].
  apply: (splits (e := l) _ (dvs e he).1 (hl e he) ih hh).
  by rewrite !gf_card dim -expnM mulnC.
exists G2, f, b, lm, ev; split=> //; last by exists ls.
by split=> //; rewrite dim mulnC dvdn_pmul2l.
Qed.

(* ---- the answer does not depend on the extension chosen: true exactly when the matrix can
   be diagonalized over some field that contains the field of its entries, and exactly when
   its minimal polynomial has no repeated roots *)
Lemma diag_sep (F : fieldType) n (B : 'M[F]_n.+1) : can_diagonalize B -> separable_poly (mxminpoly B).
Proof.
case=> P Pu hP; have [|rs urs hrs] := (@diagonalizableP F n B).1.
  by exists P => //; rewrite /simmx_to_for conjumx.
by apply: dvdp_separable hrs _; rewrite separable_prod_XsubC.
Qed.
Lemma sep_diag (F : fieldType) n (B : 'M[F]_n.+1) l : char_poly B = \prod_(a <- l) ('X - a%:P) ->
  separable_poly (mxminpoly B) -> can_diagonalize B.
Proof.
move=> hl hs; suff : exists2 P : 'M_n.+1, P \in unitmx & diagonalizable_for P B.
  by case=> P Pu; rewrite /simmx_to_for conjumx // => hP; exists P.
apply: (@diagonalizableP F n B).2; have := mxminpoly_dvd_char B; rewrite hl.
case/dvdp_prod_XsubC => m; set l' := mask m l => e; exists l'.
  by rewrite -separable_prod_XsubC -(eqp_separable e).
by rewrite (eqp_dvdl _ e).
Qed.
Theorem C88_extension_partial : forall (G1 : gf2) t qs qsv n (A : 'M[gf_L G1]_n.+1) d,
  qsort_ok (gf_m G1) qs -> (forall m, vsort_ok m qsv) -> (Z.of_nat n.+2 <= INT_MAX)%coqZ ->
  (0 < d)%N -> (forall h, irreducible_poly h -> h %| char_poly A -> ((size h).-1 %| d)%N) ->
  ((size (gf_m G1)).-1 * d <= 30)%N ->
  exists b lm ev,
  [/\ f2_polymod_matrix_is_diagonalizable (Some t) qs qsv (mx_enc (@gf_el G1) A) = Ok (b, lm, ev),
      (b = true <-> exists (K : fieldType) (f : {rmorphism gf_L G1 -> K}), can_diagonalize (map_mx f A)) &
      (b = true <-> separable_poly (mxminpoly A))].
Proof.
move=> G1 t qs qsv n A d hq hv hn d0 hd1 hnd.
have [G2 [f [b [lm [ev [-> _ _ [l hl] hb]]]]]] := C88_diagonalizable_partial t hq hv hn d0 hd1 hnd.
have any (K : fieldType) (h : {rmorphism gf_L G1 -> K}) : can_diagonalize (map_mx h A) -> separable_poly (mxminpoly A).
  by move/diag_sep; rewrite mxminpoly_map separable_map.
have back : separable_poly (mxminpoly A) -> can_diagonalize (map_mx f A).
  by move=> hs; apply: sep_diag hl _; rewrite mxminpoly_map separable_map.
exists b, lm, [seq gf_el a | a <- ev]; split=> //.
  split=> [/hb h|[K [h hK]]]; first by exists (gf_L G2), f.
  by apply/hb/back; exact: any hK.
by split=> [/hb /any|/back /hb].
Qed.
Theorem C88_nonsquare : forall (G : gf2) tm qs qsv m n (A : 'M[gf_L G]_(m, n)), m <> n ->
  f2_polymod_matrix_is_diagonalizable tm qs qsv (mx_enc (@gf_el G) A) = Exn.
Proof. by move=> G tm qs qsv m n A h; rewrite /f2_polymod_matrix_is_diagonalizable C49_f2n_nonsquare. Qed.

(* ---- a vector over GF(2)[x]/(m) from an integer: the digits to the base 2^(deg m), most
   significant first, each digit read as the bits of a residue (extends C75) *)
Section Digits.
Variables (lm : fpoly) (m : {poly 'F_2}).
Hypothesis hm : isP lm m.
Local Notation d := (size m).-1.
Hypothesis d0 : (0 < d)%N.
Hypothesis d30 : (Z.of_nat d <= 30)%coqZ.
Local Notation T := (2 ^ Z.of_nat d)%coqZ.
Lemma T_bounds : (2 <= T <= 2 ^ 30)%coqZ.
Proof.
split; first by rewrite -[X in (X <= _)%coqZ]/(2 ^ 1)%coqZ; apply: Z.pow_le_mono_r => //; move: d0; clear; lia.
exact: Z.pow_le_mono_r.
Qed.
Lemma word_make (w : Z) : (0 <= w < T)%coqZ -> pm_make (f2_from_base_rep (Z.to_N (w mod 2 ^ 64))) lm = Ok (mkpm [:: Z.to_N w] lm).
Proof.
move=> hw; have [_ hT] := T_bounds.
rewrite Z.mod_small; last by move: hw hT; change (2 ^ 30)%coqZ with 1073741824%coqZ; change (2 ^ 64)%coqZ with 18446744073709551616%coqZ; clear; lia.
have m0 : m != 0 by rewrite -size_poly_gt0; move: d0; clear; case: (size m).
have hP : isP [:: Z.to_N w] (P [:: Z.to_N w]).
  split=> //; apply: PropF2Poly.canon1; change (2 ^ 64)%num with 18446744073709551616%num.
  by move: hw hT; change (2 ^ 30)%coqZ with 1073741824%coqZ; clear; lia.
have [a [-> ha]] := make_L (isP_L hP) hm m0.
have sP : (size (P [:: Z.to_N w]) <= d)%N.
  apply/(valN_lt _ hP).2; rewrite /valN N.mul_0_r N.add_0_r; apply/N2Z.inj_lt.
  by rewrite N2Z.inj_pow nat_N_Z Z2N.id; [case: hw|case: hw].
move: ha; rewrite modp_small; last by rewrite -(prednK (_ : 0 < size m)%N) ?size_poly_gt0 // ltnS.
case: a => r mm [/= h1 [h2 _]]; congr (Ok (mkpm _ _)).
  exact: (PropF2Poly.C22_unique h1 hP).2.
exact: (PropF2Poly.C22_unique h2 hm).2.
Qed.
Lemma ft_digits_ok n b : (0 <= b <= INT_MAX)%coqZ -> exists v, [/\ ft_digits T lm b n = Ok v, length v = n &
  forall i, (i < n)%N -> elt v i = Ok (mkpm [:: Z.to_N ((b / T ^ Z.of_nat (n - 1 - i)) mod T)] lm)].
Proof.
have [T2 T30] := T_bounds.
have T0 : (0 < T)%coqZ by move: T2; clear; lia.
elim: n b => [|n IH] b hb; first by exists [::].
have b0 : (0 <= b)%coqZ by case: hb.
have hr : Z.rem b T = (b mod T)%coqZ by exact: Z.rem_mod_nonneg.
have hq : Z.quot b T = (b / T)%coqZ by exact: Z.quot_div_nonneg.
have hw := Z.mod_pos_bound b T T0.
have hb' : (0 <= b / T <= INT_MAX)%coqZ.
  split; first exact: Z.div_pos.
  by apply: Z.le_trans hb.2; apply: Z.div_le_upper_bound => //; move: T2 b0; clear; nia.
have [v [ev lv hv]] := IH _ hb'.
have hii : in_int (b / T) = true by rewrite /in_int; move: hb'; clear; rewrite /INT_MIN; lia.
cbn [ft_digits]; rewrite /imod /idiv; have -> : Z.eqb T 0 = false by move: T0; clear; lia.
rewrite hq hii hr bind_ok word_make // bind_ok /chk hii bind_ok ev bind_ok; eexists; split; first reflexivity.
  by rewrite List.app_length lv /= plusE addn1.
move=> i hi; rewrite /elt; case: (ltnP i n) => h.
  rewrite List.nth_error_app1; last by rewrite lv; apply/ltP.
  have := hv i h; rewrite /elt => ->; congr (Ok (mkpm [:: Z.to_N (_ mod _)] _)).
  have -> : (n.+1 - 1 - i = (n - 1 - i).+1)%N by clear - h; lia.
  rewrite Nat2Z.inj_succ Z.pow_succ_r; last exact: Nat2Z.is_nonneg.
  by rewrite Z.div_div //; [move: T0; clear; lia|apply: Z.pow_pos_nonneg => //; exact: Nat2Z.is_nonneg].
rewrite List.nth_error_app2; last by rewrite lv; apply/leP.
have e : i = n by apply/eqP; rewrite eqn_leq h -ltnS hi.
by rewrite e lv Nat.sub_diag /= subn1 subnn Z.pow_0_r Z.div_1_r.
Qed.
End Digits.
Theorem C75_f2m_vector : forall lm (m : {poly 'F_2}) b len, isP lm m -> (0 < (size m).-1)%N -> (Z.of_nat (size m).-1 <= 30)%coqZ ->
  (0 <= b <= INT_MAX)%coqZ -> (0 < len)%N ->
  exists v, [/\ ft_vector_from_base_rep b lm len = Ok v, length v = len &
  forall i, (i < len)%N ->
    elt v i = Ok (mkpm [:: Z.to_N ((b / (2 ^ Z.of_nat (size m).-1) ^ Z.of_nat (len - 1 - i)) mod 2 ^ Z.of_nat (size m).-1)] lm)].
Proof.
move=> lm m b [|n] // hm d0 d30 hb _; rewrite /ft_vector_from_base_rep [Nat.eqb _ _]/= (degree_thm (isP_W hm)) bind_ok.
by rewrite ishl1_ok // bind_ok PF2Tot.Zpow_nat; exact: ft_digits_ok.
Qed.
Theorem C75_f2m_empty : forall b lm, ft_vector_from_base_rep b lm 0 = Exn.
Proof. by []. Qed.

(* GF(4) as GF(2)[x]/(x^2+x+1): a matrix with irreducible characteristic polynomial, its
   eigenvalues in GF(16); a Jordan block; two diagonalizable matrices; the digits of 27 *)
Definition m4 (a b c d : N) : tmat fpmod :=
  mkmat [:: [:: mkpm [:: a] [:: 7%num]; mkpm [:: b] [:: 7%num]]; [:: mkpm [:: c] [:: 7%num]; mkpm [:: d] [:: 7%num]]] 2.
Example C88_ex :
  f2_polymod_matrix_is_diagonalizable (Some 0%num) (isort pm_ltb) vsort (m4 0 2 1 1) =
    Ok (true, [:: 19%num], [:: mkpm [:: 2%num] [:: 19%num]; mkpm [:: 3%num] [:: 19%num]]) /\
  f2_polymod_matrix_is_diagonalizable (Some 0%num) (isort pm_ltb) vsort (m4 1 2 0 1) =
    Ok (false, [:: 7%num], [:: mkpm [:: 1%num] [:: 7%num]]) /\
  f2_polymod_matrix_is_diagonalizable (Some 0%num) (isort pm_ltb) vsort (m4 1 2 0 3) =
    Ok (true, [:: 7%num], [:: mkpm [:: 1%num] [:: 7%num]; mkpm [:: 3%num] [:: 7%num]]) /\
  f2_polymod_matrix_is_diagonalizable (Some 0%num) (isort pm_ltb) vsort (m4 1 0 0 1) =
    Ok (true, [:: 7%num], [:: mkpm [:: 1%num] [:: 7%num]]) /\
  mat_plus_scalar (k_c f2n_kops) (m4 0 2 1 1) (mkpm [:: 2%num] [:: 7%num]) = Ok (m4 2 2 1 3) /\
  ft_vector_from_base_rep 27 [:: 7%num] 3 = Ok [:: mkpm [:: 1%num] [:: 7%num]; mkpm [:: 2%num] [:: 7%num]; mkpm [:: 3%num] [:: 7%num]].
Proof. by vm_compute. Qed.

Print Assumptions C88_plus_scalar.
Print Assumptions C88_minus_scalar.
Print Assumptions C88_scalar_nonsquare.
Print Assumptions C88_diagonalizable_partial.
Print Assumptions C88_extension_partial.
Print Assumptions C88_nonsquare.
Print Assumptions C75_f2m_vector.
Print Assumptions C75_f2m_empty.
