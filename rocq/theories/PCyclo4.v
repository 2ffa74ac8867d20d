(* Reductions of rational polynomials modulo p, into GF(2^n) and into GF(2)[x]. *)
From Verif Require Import Base MIntMath MIntmod MIntrat MMat MF2Poly MPoly MF2nPoly MCyclo PIntMath PIntmod PIntrat PF2Poly.
From mathcomp Require Import all_ssreflect all_algebra finfield ssrZ zify.
From Verif Require Import PBits3 PF2Poly2 PF2Poly3 PF2Poly4 PMat PFp PPoly PPoly2 PPoly3 PPoly4 PFpPoly PF2n PropF2Poly PropFpPoly PropF2nPoly PropLinalg.
From Verif Require Import PQPoly PQPoly2 PCyclo PCyclo3.
Require Import Lia.
Set Implicit Arguments.
Unset Strict Implicit.
Unset Printing Implicit Defensive.
Import GRing.Theory ListNotations Num.Theory.
Delimit Scope Z_scope with coqZ.
Local Open Scope ring_scope.

(* the image of a rational number in a field whose characteristic does not divide the denominator *)
Definition red (F : fieldType) (r : rat) : F := (numq r)%:~R / (denq r)%:~R.
(* the coefficients of a polynomial, constant term first; one zero for the zero polynomial *)
Definition qseq (f : {poly rat}) : seq rat := if f == 0 then [:: 0] else polyseq f.
(* the polynomial of the images of the coefficients *)
Definition redp (F : fieldType) (f : {poly rat}) : {poly F} := \poly_(i < size f) red F f`_i.

Lemma qpencE f : qpenc f = [seq qenc a | a <- qseq f]. Proof. by []. Qed.
Lemma qseq_gt0 f : (0 < size (qseq f))%N.
Proof. by rewrite /qseq; case: eqP => // /eqP h; rewrite size_poly_gt0. Qed.
Lemma qseq_nth f i : nth 0 (qseq f) i = f`_i.
Proof. by rewrite /qseq; case: eqP => // ->; rewrite coef0; case: i => [|[]]. Qed.

(* numerator and denominator fit in an int and are not INT_MIN *)
Definition int_rat (r : rat) : bool := (Z.leb (Z.abs (Z_of_int (numq r))) INT_MAX && Z.leb (Z_of_int (denq r)) INT_MAX)%B.

Lemma fill_map (A : Type) (o : kops A) (V : A -> Prop) (conv : intrat -> res A) (F : Type) (el : F -> A) (g : rat -> F) (bad : rat -> bool) (f : {poly rat}) :
  (forall z, V z -> exists z1, k_int o (k_dflt o) 0 = Ok z1 /\ c_eqb (k_c o) z z1 = Ok false) ->
  (forall x, V (el x)) -> (forall r, (~~ int_rat r /\ conv (qenc r) = UB) \/ conv (qenc r) = if bad r then Exn else Ok (el (g r))) ->
  (~~ all int_rat (qseq f) /\ fill o conv (qpenc f) = UB) \/
  fill o conv (qpenc f) = if has bad (qseq f) then Exn else Ok [seq el (g a) | a <- qseq f].
Proof.
move=> hd hV hc; have sz : size (qpenc f) = size (qseq f) by rewrite qpencE size_map.
have nE i : (i < size (qseq f))%N -> nth rat_default (qpenc f) i = qenc (nth 0 (qseq f) i) by move=> h; rewrite qpencE (nth_map 0).
have [||[i]|[r [-> h]]] := fill_ok (q := qpenc f) hd (conv := conv); rewrite ?sz.
- exact: qseq_gt0.
- move=> i y hi; rewrite nE //; case: (hc (nth 0 (qseq f) i)) => [[_ ->]//|->]; case: (bad _) => // -[<-]; exact: hV.
- move=> hi; rewrite nE //; case: (hc (nth 0 (qseq f) i)) => [[h ->]|->].
    case=> [[_ ->]|[[//]|[//]]]; left; split=> //; apply: contra h => /allP; apply; exact: mem_nth.
  case e: (bad _) => -[[//]|[[//]|[//]]].
  by move=> _ ->; right; rewrite (_ : has _ _) //; apply/(has_nthP 0); exists i.
right; move: h; rewrite qpencE; elim: (qseq f) r => [|a s IH] r h; inversion h; subst => //.
move: H1; case: (hc a) => [[_ ->]//|->] /=; case: (bad a) => //= -[<-].
by have := IH _ H3; case: (has bad s) => // -[->].
Qed.

Section Fp.
Variable p : nat.
Hypothesis pp : prime p.
Local Notation P := (Z.of_nat p).
Hypothesis hP : (P <= 46341)%coqZ.
Variable c : cache.
Hypothesis hc : cache_valid c.

Lemma make_any z : ((INT_MAX < Z.abs z)%coqZ /\ im_make z P = UB) \/ im_make z P = Ok (fp_el (izr p z)).
Proof.
have hP2 := P2 pp hP; have hM : (MAXM <= INT_MAX)%coqZ by [].
have hm := Z.mod_pos_bound z P ltac:(clear - hP2; lia).
have [hz|hz] := Z.le_gt_cases (Z.abs z) INT_MAX.
  right; rewrite im_make_ok //; first by rewrite /fp_el -izr_mod // izr_val //; case: hm.
  by clear - hP2 hM; lia.
rewrite /im_make; have -> : Z.leb P 0 = false by clear - hP2; lia.
rewrite /imod; case: (Z.eqb_spec P 0) => [h|_]; first by exfalso; clear - h hP2; lia.
case: ifP => _; last by left; split=> //; apply: Z.gt_lt.
right.
have rb := Z.rem_bound_abs z P ltac:(clear - hP2; lia).
have e1 : exists k, z = (P * k + Z.rem z P)%coqZ by exists (Z.quot z P); apply: Z.quot_rem'; clear - hP2; lia.
have e2 : (z = P * (z / P) + z mod P)%coqZ by apply: Z.div_mod; clear - hP2; lia.
rewrite bind_ok (_ : (if _ then _ else _) = Ok (z mod P)%coqZ).
  by rewrite bind_ok /fp_el -izr_mod // izr_val //; case: hm.
move: rb e1 e2 hm; move: (Z.rem z P) (z mod P)%coqZ (z / P)%coqZ => a b d rb [k e1] e2 hm.
have ek : (P * (k - d) = b - a)%coqZ by clear - e1 e2; lia.
case: (Z.ltb_spec a 0) => ha.
  have k1 : (k - d = 1)%coqZ by move: (k - d)%coqZ ek => t ek; clear - hm rb ha ek hP2; nia.
  have bE : b = (a + P)%coqZ by clear - k1 ek; nia.
  by rewrite /iadd /chk bE; case: ifP => //; clear - hm bE hP2 hM; rewrite /in_int /INT_MIN /INT_MAX /MAXM in hP2 *; lia.
have k1 : (k - d = 0)%coqZ by move: (k - d)%coqZ ek => t ek; clear - hm rb ha ek hP2; nia.
by congr Ok; clear - k1 ek; nia.
Qed.
Lemma elR' (a : 'F_p) : R (Vp p) (Ip p) (fp_el a) a.
Proof. exact: (PropFpPoly.elR pp). Qed.
Lemma rat_conv r : (~~ int_rat r /\ intmod_from_rat c (qenc r) P = UB) \/ intmod_from_rat c (qenc r) P = if (denq r)%:~R == 0 :> 'F_p then Exn else Ok (fp_el (red [fieldType of 'F_p] r)).
Proof.
rewrite /intmod_from_rat /int_rat /=.
case: (make_any (Z_of_int (numq r))) => [[h ->]|->]; first by left; split=> //; apply/negP => /andP[h1 _]; clear - h h1; lia.
rewrite bind_ok.
case: (make_any (Z_of_int (denq r))) => [[h ->]|->].
  by left; split=> //; apply/negP => /andP[_ h1]; have := denq_gt0 r; clear - h h1; lia.
right; rewrite bind_ok /izr !Z_of_intK.
set n : 'F_p := (numq r)%:~R; set d : 'F_p := (denq r)%:~R.
have hP2 := P2 pp hP.
have [[_ [/= n0 n1]] nI] := elR' n; have [[_ [/= d0 d1]] dI] := elR' d.
have [[g [q [e [hq e2]]]]|[g e]] := im_div_ok c P (Z.of_nat n) (Z.of_nat d) hc hP2 (conj n0 n1) (conj d0 d1).
  have hd : d != 0.
    apply/eqP => h; move: g; rewrite h /= Z.gcd_0_r => g; clear - g hP2; lia.
  rewrite (negbTE hd) /fp_el e /red -/n -/d; congr Ok; congr mkim.
  have := congr1 (izr p) e2; rewrite izr_mod // izrM !izr_nat !natr_Zp => e3.
  by rewrite -e3 mulfK // izr_val //; clear - hq; lia.
case: ifP => // /negbT hd; case: g; apply: (gcd_unit pp) => //.
by rewrite izr_nat natr_Zp.
Qed.
Lemma fp_red f : (~~ all int_rat (qseq f) /\ fp_poly_from_qpoly c (qpenc f) P = UB) \/
  fp_poly_from_qpoly c (qpenc f) P =
  if has (fun r => (denq r)%:~R == 0 :> 'F_p) (qseq f) then Exn else Ok [seq fp_el (red [fieldType of 'F_p] a) | a <- qseq f].
Proof.
apply: (@fill_map _ (im_kops c) (Vp p) (fun x => intmod_from_rat c x P) _ (@fp_el p)).
- by move=> z hz; exact: (im_dflt_all c pp hP hz).1.
- by move=> x; case: (elR' x).
- exact: rat_conv.
Qed.
End Fp.

Lemma for_ext (S : Type) (b1 b2 : nat -> S -> res S) n i s : (forall k s, b1 k s = b2 k s) -> for_up n i b1 s = for_up n i b2 s.
Proof. by move=> h; elim: n i s => [|n IH] i s //=; rewrite h; case: (b2 i s) => //=. Qed.

Section Fg.
Variable G : gf2.
Local Notation L := (gf_L G).
Variable c : cache.
Hypothesis hc : cache_valid c.
Variable im : fpoly.
Hypothesis him : isP im (gf_m G).

Lemma cast_L (z : int) : z%:~R = gf_emb G z%:~R. Proof. by rewrite rmorph_int. Qed.
Lemma den_L (z : int) : (z%:~R == 0 :> L) = (z%:~R == 0 :> 'F_2).
Proof. by rewrite cast_L fmorph_eq0. Qed.
Lemma rat_conv_g r : (~~ int_rat r /\ (b <- intmod_from_rat c (qenc r) 2 ;; pm_prime_subfield_element (residue b) im)%res = UB) \/
  (b <- intmod_from_rat c (qenc r) 2 ;; pm_prime_subfield_element (residue b) im)%res =
  if (denq r)%:~R == 0 :> L then Exn else Ok (gf_el (red [fieldType of L] r)).
Proof.
have h2 : (Z.of_nat 2 <= 46341)%coqZ by [].
case: (@rat_conv 2 isT h2 c hc r) => [[h e]|e]; [left; split=> //; by rewrite -[2%coqZ]/(Z.of_nat 2) e|right].
rewrite -[2%coqZ]/(Z.of_nat 2) e den_L; case: eqP => // /eqP hd.
rewrite bind_ok /pm_prime_subfield_element.
have [x [-> [hV hI]]] := V_int (gf_irr G) (gf_root G) (Z.of_nat (red [fieldType of 'F_2] r)) him.
rewrite [LHS]/=; congr Ok; apply: (@PropF2nPoly.Rel G); split=> //; rewrite hI /red.
have hk (k : nat) : int_of_Z (Z.of_nat k) = k%:Z by rewrite -(Z_of_intK k).
by rewrite hk cast_L -pmulrn natr_Zp fmorph_div !rmorph_int.
Qed.
Lemma f2n_red f : (~~ all int_rat (qseq f) /\ f2n_poly_from_qpoly c (qpenc f) im = UB) \/
  f2n_poly_from_qpoly c (qpenc f) im =
  if has (fun r => (denq r)%:~R == 0 :> L) (qseq f) then Exn else Ok [seq gf_el (red [fieldType of L] a) | a <- qseq f].
Proof.
have -> : f2n_poly_from_qpoly c (qpenc f) im = fill f2n_kops (fun x => (b <- intmod_from_rat c x 2 ;; pm_prime_subfield_element (residue b) im)%res) (qpenc f).
  rewrite /f2n_poly_from_qpoly /fill; apply: for_ext => i rv; rewrite /fbody.
  by case: (gp_get_coeff _ _ _) => //= x; case: (intmod_from_rat _ _ _).
apply: (@fill_map _ f2n_kops (Vg (gf_m G)) _ _ (@gf_el G)).
- by move=> z hz; exact: (f2n_dflt_all hz).1.
- by move=> x; case: (PropF2nPoly.elR x).
- exact: rat_conv_g.
Qed.
End Fg.

Lemma odd_F2 (z : int) : z%:~R = Ib (Z.odd (Z_of_int z)) :> 'F_2.
Proof.
by rewrite -int_F2 Z_of_intK.
Qed.
Definition even_den (r : rat) : bool := (denq r)%:~R == 0 :> 'F_2.
Lemma bit_conv r : bit_from_rat (qenc r) = if even_den r then Exn else Ok (red [fieldType of 'F_2] r == 1).
Proof.
rewrite /bit_from_rat /even_den /red /= !odd_F2; case: (Z.odd (Z_of_int (denq r))) => //=.
by case: (Z.odd _).
Qed.
Lemma Ib_eq1 (x : 'F_2) : Ib (x == 1) = x.
Proof. by have [b <-] := Ib_surj x; case: b. Qed.

Section F2.
Variable f : {poly rat}.
Local Notation d := (size (qseq f)).-1.
Local Notation g := (red [fieldType of 'F_2]).
Let body := fun (i : nat) (rv : fpoly) => (x <- gp_get_coeff q_kops (qpenc f) (Z.of_nat (gp_degree (qpenc f) - i)) ;; b <- bit_from_rat x ;; set_coeff rv (Z.of_nat (gp_degree (qpenc f) - i)) b)%res.
Lemma f2_fillE : f2_poly_from_q_poly (qpenc f) = for_up (size (qseq f)) 0 body (f2_of_int 0).
Proof. by rewrite /f2_poly_from_q_poly lengthE {1}qpencE size_map. Qed.
Lemma dE : gp_degree (qpenc f) = d.
Proof. by rewrite /gp_degree lengthE qpencE size_map minusE subn1. Qed.
Lemma body_E i rv : (i <= d)%N -> body i rv = if even_den f`_(d - i) then Exn else set_coeff rv (Z.of_nat (d - i)) (g f`_(d - i) == 1).
Proof.
move=> hi; have s0 := qseq_gt0 f; rewrite /body dE get_ok ?bind_ok; last by rewrite qpencE size_map; clear - s0; lia.
have hk : (d - i < size (qseq f))%N by clear - s0; lia.
rewrite qpencE (nth_map 0) // qseq_nth bit_conv.
by case: (even_den _) => //; rewrite bind_ok.
Qed.
Lemma f2_red : (size f <= 31)%N -> f2_poly_from_q_poly (qpenc f) =
  if has even_den (qseq f) then Exn else Ok (f2_enc (redp [fieldType of 'F_2] f)).
Proof.
move=> hs; have s0 := qseq_gt0 f; have hd : (d <= 30)%N.
  by rewrite /qseq; case: eqP => [_|_] //; move: (size f) hs; clear; case=> [|n] //.
have ltk k : (d - k < size (qseq f))%N by clear - s0; lia.
pose Pi i : {poly 'F_2} := \poly_(j < d.+1) (if (d < j + i)%N then g f`_j else 0).
have main n i rv : (i + n = size (qseq f))%N -> isP rv (Pi i) ->
  (has even_den (qseq f) /\ for_up n i body rv = Exn) \/ (exists r, for_up n i body rv = Ok r /\ isP r (Pi (size (qseq f))) /\ forall j, (i <= j < size (qseq f))%N -> ~~ even_den f`_(d - j)).
  elim: n i rv => [|n IH] i rv e hI /=.
    right; exists rv; rewrite -e addn0; split=> //; split=> // j /andP[h1 h2]; exfalso; clear - h1 h2; lia.
  have hi : (i <= d)%N by clear - e; lia.
  rewrite body_E //; case ev: (even_den _).
    left; split=> //; apply/hasP; exists f`_(d - i) => //; rewrite -qseq_nth; apply: mem_nth; exact: ltk.
  have hm : (Nat.modulo (d - i) 64 < 31)%coq_nat by rewrite Nat.mod_small; clear - hd; lia.
  have [a' [p' [-> ha hk hj]]] := C55_set_coeff_partial (g f`_(d - i) == 1) hI hm.
  rewrite bind_ok; have p'E : p' = Pi i.+1.
    apply/polyP=> j; case: (j =P (d - i)%N) => [->|ne].
      have c1 : (d - i < d.+1)%N by clear; lia.
      have c2 : (d < d - i + i.+1)%N by clear - hi; lia.
      by rewrite hk Ib_eq1 coef_poly c1 c2.
    rewrite hj; last by apply/eqP.
    rewrite !coef_poly; case hjd: (j < d.+1)%N; last by [].
    have -> : (d < j + i.+1)%N = (d < j + i)%N by clear - ne hjd hi; lia.
    by [].
  rewrite p'E in ha; case: (IH i.+1 a' _ ha); [by rewrite -e addSnnS|by left|].
  move=> [r [er [hr hb]]]; right; exists r; split=> //; split=> // j /andP[h1 h2].
  case: (i =P j) => [<-|ne]; first by rewrite ev.
  by apply: hb; clear - h1 h2 ne; lia.
have P0 : isP (f2_of_int 0) (Pi 0%N).
  rewrite (_ : Pi 0%N = (Ib (Z.odd 0))%:P); first exact: isP_int.
  by apply/polyP=> j; rewrite coef_poly addn0 coefC if_same; case: ifP => // h; rewrite (_ : (d < j)%N = false) //; clear - h; lia.
rewrite f2_fillE; case: (main (size (qseq f)) 0%N (f2_of_int 0) (add0n _) P0) => [[-> ->]//|[r [-> [hr hb]]]].
have -> : has even_den (qseq f) = false.
  apply/negbTE/hasPn => x /(nthP 0) [j]; rewrite -[size _]/(size (qseq f)) => hj <-.
  have hjd : (j <= d)%N by clear - hj; lia.
  by rewrite qseq_nth -(subKn hjd); apply: hb; clear - s0; lia.
congr Ok; apply: f2_encE; rewrite (_ : redp _ _ = Pi (size (qseq f))) //.
apply/polyP=> j; rewrite !coef_poly; have [e|ne] := eqVneq f 0.
  by rewrite e size_poly0 coef0 /=; case: ifP => //; case: ifP => // _ _; rewrite /red mul0r.
have sE : size (qseq f) = size f by rewrite /qseq (negbTE ne).
rewrite prednK ?sE ?size_poly_gt0 //; case hj: (j < size f)%N; last by [].
by rewrite leq_addl.
Qed.
(* the defect: bit positions from 32 up are set by shifting the int 1 *)
Lemma set_ub (l : fpoly) (k : nat) b : (32 <= Nat.modulo k 64)%coq_nat -> b || (Nat.div k 64 < size l)%N -> set_coeff l (Z.of_nat k) b = UB.
Proof.
move=> hk hb; rewrite /set_coeff; have -> : Z.ltb (Z.of_nat k) 0 = false by clear; lia.
rewrite Nat2Z.id lengthE.
have -> : (Nat.leb (size l) (Nat.div k 64) && ~~ b)%B = false.
  by case: b hb => /= hb; rewrite ?andbF // andbT; apply/Nat.leb_gt; apply/ltP.
set l1 := (if _ then _ else _); have hl : (Nat.div k 64 < List.length l1)%coq_nat.
  by rewrite /l1; case: Nat.leb_spec => h; [rewrite extend_length; lia|rewrite lengthE].
rewrite PBits.rdw_ok // bind_ok /int_bit.
have -> : Nat.ltb (Nat.modulo k 64) 31 = false by apply/Nat.ltb_ge; lia.
by have -> : Nat.eqb (Nat.modulo k 64) 31 = false by apply/Nat.eqb_neq; lia.
Qed.
Lemma f2_red_ub : (33 <= size f)%N -> Nat.modulo (size f).-1 64 <> 31%N -> ~~ has even_den (qseq f) -> red [fieldType of 'F_2] (lead_coef f) != 0 ->
  f2_poly_from_q_poly (qpenc f) = UB.
Proof.
move=> hs hm he hl; have f0 : f != 0 by rewrite -size_poly_gt0; apply: leq_trans hs.
have sE : size (qseq f) = size f by rewrite /qseq (negbTE f0).
have dn i : even_den f`_(d - i) = false.
  apply/negbTE; move/hasPn: he; apply; rewrite -qseq_nth; apply: mem_nth; move: (qseq_gt0 f); clear; rewrite -[size _]/(size (qseq f)); lia.
have top : g f`_d == 1.
  have : lead_coef f = f`_d by rewrite sE.
  move: hl => /[swap] ->; have [b <-] := Ib_surj (g f`_d); by case: b.
rewrite f2_fillE; case en : (size (qseq f)) => [|n]; first by move: hs; rewrite -sE en.
rewrite [for_up _ _ _ _]/=; rewrite body_E // dn subn0 top.
have [h32|h32] := leqP 32 (Nat.modulo d 64); first by rewrite set_ub //; lia.
have hm' : (Nat.modulo d 64 < 31)%coq_nat by rewrite sE in h32 *; move: hs hm h32; clear; lia.
have [a [ea ha]] : exists a, set_coeff (f2_of_int 0) (Z.of_nat d) true = Ok a /\ canon a /\ bitl a d = true.
  have [a [ea [hc hb]]] := PF2Poly3.set_coeff_ok (f2_of_int 0) d true (of_int_canon 0) hm'.
  by exists a; split=> //; split=> //; rewrite hb Nat.eqb_refl.
rewrite ea bind_ok {ea}.
have d64 : (64 <= d)%N by rewrite leqNgt; apply/negP => h; move: h32; rewrite Nat.mod_small; rewrite sE in h *; clear - hs h; lia.
(* the steps down to position 64 * (d / 64) succeed, the next one shifts by 63 *)
have main m i rv : (i + m = d.+1)%N -> (0 < i)%N -> (d - i >= 64 * (Nat.div d 64) - 1)%N -> canon rv /\ bitl rv d = true -> for_up m i body rv = UB.
  elim: m i rv => [|m IH] i rv e i0 hi [hc hb].
    by exfalso; have := Nat.div_mod d 64; clear - e hi d64 i0; lia.
  rewrite [for_up _ _ _ _]/= body_E; last by clear - e; lia.
  rewrite dn; have lrv : (Nat.div d 64 < size rv)%N.
    by have := bitl_lt _ _ hb; rewrite lengthE => h; apply/ltP; apply: Nat.div_lt_upper_bound; clear - h; lia.
  have dm := Nat.div_mod d 64.
  have [h|h] := leqP (64 * Nat.div d 64)%N (d - i)%N.
    have hk : (Nat.modulo (d - i) 64 < 31)%coq_nat.
      have -> : (d - i = (Nat.modulo d 64 - i) + Nat.div d 64 * 64)%N by clear - dm h; lia.
      by rewrite Nat.mod_add // Nat.mod_small; clear - hm'; lia.
    have [a' [-> [hc' hb']]] := PF2Poly3.set_coeff_ok rv (d - i) (g f`_(d - i) == 1) hc hk.
    rewrite bind_ok; apply: IH => //; [by rewrite -e addSnnS|by clear - h i0; lia|split=> //].
    by rewrite hb'; case: Nat.eqb_spec => // ee; exfalso; clear - ee i0 d64; lia.
  have q1 : (1 <= Nat.div d 64)%coq_nat by apply: Nat.div_le_lower_bound; clear - d64; lia.
  rewrite set_ub //.
    have -> : (d - i = 63 + (Nat.div d 64 - 1) * 64)%N by clear - h hi q1; lia.
    by rewrite Nat.mod_add // Nat.mod_small; clear; lia.
  apply/orP; right; apply: leq_ltn_trans lrv; apply/leP; apply: Nat.div_le_mono; clear; lia.
apply: main => //; [by rewrite add1n en|have := Nat.div_mod d 64; clear - d64; lia].
Qed.
End F2.
