(* The search for the lowest irreducible GF(2) polynomial of a given degree. *)
From Verif Require Import Base MIntMath MMat MBits MFac PBits PBits2 MF2Poly MF2Fac PPow PF2Poly PF2Fac1 PFacGen.
From mathcomp Require Import all_ssreflect fingroup perm all_algebra finfield separable ssrZ.
From Verif Require Import PLin PLin2 PLin3 PMat PMat2 PMat3 PropMat PBits3 PF2Poly2 PF2Poly3 PF2Poly4 PBerl PFacPoly PF2Fac2 PF2Fac3 PIrr.
From Verif Require PropF2Poly.
Set Implicit Arguments.
Unset Strict Implicit.
Unset Printing Implicit Defensive.
Import GRing.Theory.
Delimit Scope Z_scope with coqZ.
Local Open Scope ring_scope.

Lemma isP_exists (p : {poly 'F_2}) : exists l, isP l p.
Proof.
move: {2}(size p) (leqnn (size p)) => n; elim: n p => [|n IH] p hs.
  by exists (f2_of_int 0); move: hs; rewrite leqn0 size_poly_eq0 => /eqP ->; exact: isP0.
have [p0|p0] := eqVneq p 0; first by apply: IH; rewrite p0 size_poly0.
set k := (size p).-1; have hk : p`_k = 1 := lead_F2 p0.
have hq : (size (p - 'X^k)%R <= k)%N.
  apply/leq_sizeP => j hj; rewrite coefB coefXn; case: eqP => [->|ne]; first by rewrite hk subrr.
  rewrite subr0 nth_default //; rewrite -(prednK (_ : 0 < size p)%N) ?size_poly_gt0 // -/k.
  by rewrite ltn_neqAle hj andbT eq_sym; apply/eqP.
have [|l hl] := IH (p - 'X^k).
  by apply: leq_trans hq _; rewrite -ltnS -(prednK (_ : 0 < size p)%N) ?size_poly_gt0 // in hs *.
have [|l' [_ hl']] := set_bit_P (k := k) hl; first by rewrite coefB coefXn eqxx hk subrr.
by exists l'; rewrite subrK in hl'.
Qed.

Lemma lead_at (p : {poly 'F_2}) d : size p = d.+1 -> p`_d = 1.
Proof. by move=> h; have := lead_F2 (_ : p != 0); rewrite lead_coefE h => ->; rewrite -?size_poly_gt0 ?h. Qed.

Lemma coef_valN l p i : isP l p -> p`_i = Ib (N.testbit (valN l) (N.of_nat i)).
Proof. by move=> [[[_ h] _] <-]; rewrite coefPl valN_bit. Qed.

Lemma N_bit_ge v d j : (v < 2 ^ d)%num -> (d <= j)%num -> N.testbit v j = false.
Proof.
move=> h hj; have [->|h0] := N.eq_dec v 0; first by rewrite N.bits_0.
apply: N.bits_above_log2; apply: N.lt_le_trans hj; apply/(N.log2_lt_pow2 v d) => //; lia.
Qed.
Lemma N_bit_lt v d : (forall j, (d <= j)%num -> N.testbit v j = false) -> (v < 2 ^ d)%num.
Proof.
move=> h; have [->|h0] := N.eq_dec v 0; first by apply/N.neq_0_lt_0; apply: N.pow_nonzero.
apply/(N.log2_lt_pow2 v d); first by lia.
by apply/N.lt_nge => hj; have := h _ hj; rewrite N.bit_log2.
Qed.
Lemma N_bit_le v d : N.testbit v d = true -> (2 ^ d <= v)%num.
Proof. by move=> h; apply/N.le_ngt => hlt; rewrite (N_bit_ge hlt) in h; lia. Qed.
Lemma N_bit_top v d : (2 ^ d <= v)%num -> (v < 2 ^ N.succ d)%num -> N.testbit v d = true.
Proof.
move=> h1 h2; have h0 : (0 < v)%num by apply: N.lt_le_trans h1; apply/N.neq_0_lt_0; apply: N.pow_nonzero.
by rewrite -(N.log2_unique v d) ?N.bit_log2 //; lia.
Qed.

Lemma valN_size l p d : isP l p -> size p = d.+1 <-> (2 ^ N.of_nat d <= valN l < 2 ^ N.of_nat d.+1)%num.
Proof.
move=> hl; split.
  move=> hs; split.
    by apply: N_bit_le; apply: (@Ib_inj _ true); rewrite -(coef_valN d hl) lead_at.
  apply: N_bit_lt => j hj; rewrite -(N2Nat.id j); apply: (@Ib_inj _ false); rewrite -(coef_valN _ hl).
  rewrite nth_default // hs; apply/leP; lia.
move=> [h1 h2]; apply/eqP; rewrite eqn_leq; apply/andP; split.
  apply/leq_sizeP => j hj; rewrite (coef_valN j hl) (N_bit_ge h2) //; move/leP: hj; lia.
rewrite ltnNge; apply/negP => /leq_sizeP /(_ d (leqnn _)); rewrite (coef_valN d hl) N_bit_top //.
by move: h2; rewrite (_ : N.of_nat d.+1 = N.succ (N.of_nat d)) //; lia.
Qed.

Lemma irr_odd l p d : isP l p -> size p = d.+1 -> (1 < d)%N -> irreducible_poly p -> N.odd (valN l) = true.
Proof.
move=> hl hs hd [_ hi]; have := coef_valN 0 hl; rewrite /= N.bit0_odd.
case: N.odd => // h0; have := hi 'X; rewrite size_polyX => /(_ isT).
have -> : 'X %| p by rewrite -['X]subr0 -(polyC0 [ringType of 'F_2]) dvdp_XsubCl rootE horner_coef0 h0.
by move=> /(_ isT) /eqp_size; rewrite size_polyX hs => -[e]; rewrite -e in hd.
Qed.

Lemma find_irr_thm m d : (1 < d)%N -> (Z.of_nat d <= INT_MAX)%coqZ ->
  exists r p, [/\ f2_find_irreducible (Some m) (Z.of_nat d) = Ok r, isP r p, size p = d.+1, irreducible_poly p &
    forall l q, isP l q -> size q = d.+1 -> irreducible_poly q -> f2_ltb l r = Ok false].
Proof.
move=> hd hmax; have [q [hq1 _ hq2]] := irr_exists (isT : prime 2) (ltnW hd).
have [t ht] := isP_exists q.
pose Inv (rv : fpoly) := exists p, [/\ isP rv p, size p = d.+1, N.odd (valN rv) = true, (valN rv <= valN t)%num &
   forall l q, isP l q -> size q = d.+1 -> irreducible_poly q -> (valN rv <= valN l)%num].
pose mu (rv : fpoly) := N.to_nat (valN t - valN rv).
have [|l1 [e1 h1]] := set_bit_P (k := d) isP0; first by rewrite coef0.
rewrite add0r in h1.
have [|l2 [e2 h2]] := set_bit_P (k := 0) h1; first by rewrite coefXn; case: d hd {Inv hmax hq1 h1 e1}.
rewrite /f2_find_irreducible e1 bind_ok -[0%coqZ]/(Z.of_nat 0) e2 bind_ok.
have -> : (Z.of_nat d <? 1)%coqZ = false by apply/Z.ltb_ge; move/ltP: hd; lia.
rewrite Nat2Z.id.
have hs2 : size ('X^d + 'X^0 : {poly 'F_2}) = d.+1.
  by rewrite size_addl size_polyXn // size_polyXn ltnS; case: d hd {Inv hmax hq1 h1 e1 h2 e2}.
have hmin l q' : isP l q' -> size q' = d.+1 -> irreducible_poly q' -> (valN l2 <= valN l)%num.
  move=> hl hs hi; apply: N.ldiff_le; apply: N.bits_inj => j; rewrite N.ldiff_spec N.bits_0 -(N2Nat.id j).
  set i := N.to_nat j; have := coef_valN i h2; have := coef_valN i hl; rewrite coefD !coefXn.
  case: (N.testbit (valN l) _); rewrite ?andbF //; case: (N.testbit (valN l2) _) => //=.
  have [->|n1] := eqVneq i d; first by rewrite (lead_at hs) => /(@Ib_inj true false).
  have [->|n2] := eqVneq i 0%N; last by rewrite add0r => _ /(@Ib_inj false true).
  by have := irr_odd hl hs hd hi; rewrite -N.bit0_odd (coef_valN 0 hl) /= => -> /(@Ib_inj true false).
have [|||r [er [p [hp hs hi hl]]]] := @loop_total fpoly fpoly (f2_irr_step (Some m) d) Inv mu
   (fun r => exists p, [/\ isP r p, size p = d.+1, irreducible_poly p & forall l q, isP l q -> size q = d.+1 -> irreducible_poly q -> (valN r <= valN l)%num]) _ (S (Nat.pow 2 d)) l2.
- move=> rv [p [hp hs ho ht1 hm]]; rewrite /f2_irr_step (degree_thm (isP_W hp)) bind_ok hs /= Nat.eqb_refl.
  have [|b [-> hb]] := irreducible_thm m hp; first by rewrite hs.
  rewrite bind_ok; case: b hb => hb; first by right; exists rv; split=> //; exists p; split=> //; apply/hb.
  left; have [r1 [p1 [-> g1 v1]]] := PropF2Poly.C54_increment hp; rewrite bind_ok.
  have [r2 [p2 [-> g2 v2]]] := PropF2Poly.C54_increment g1; rewrite bind_ok.
  have key l q' : isP l q' -> size q' = d.+1 -> irreducible_poly q' -> (valN r2 <= valN l)%num.
    move=> hl hs' hi'; have := hm _ _ hl hs' hi'; have hol := irr_odd hl hs' hd hi'.
    have hne : valN rv <> valN l by move=> e; have := (PropF2Poly.C54_value_unique hp hl).1 e => e'; rewrite -e' in hi'; have := hb.2 hi'.
    have hne2 : valN r1 <> valN l by move=> e; move: hol; rewrite -e v1 N.add_1_r N.odd_succ -N.negb_odd ho.
    by lia.
  have kt := key _ _ ht hq1 hq2.
  exists r2; split=> //; split; last by rewrite /mu; lia.
  exists p2; split=> //.
    apply/(valN_size d g2); have := (valN_size d hp).1 hs; have := (valN_size d ht).1 hq1; lia.
  by rewrite v2 v1 -N.add_assoc N.odd_add ho.
- exists ('X^d + 'X^0); split=> //; last exact: hmin ht hq1 hq2.
  by have := coef_valN 0 h2; rewrite coefD !coefXn /= N.bit0_odd eq_sym; case: d hd {Inv hmax hq1 h1 e1 h2 e2 hs2 hmin} => // d' _; case: N.odd.
- rewrite /mu; have := (valN_size d h2).1 hs2; have := (valN_size d ht).1 hq1.
  rewrite (_ : N.of_nat d.+1 = N.succ (N.of_nat d)) ?N.pow_succ_r'; last by lia.
  have -> : Nat.pow 2 d = N.to_nat (2 ^ N.of_nat d) by rewrite N2Nat.inj_pow Nat2N.id.
  by lia.
exists r, p; split=> // l q' h3 h4 h5; have [-> _ _ _] := PropF2Poly.C54_order h3 hp.
by congr Ok; apply/N.ltb_ge; apply: hl h3 h4 h5.
Qed.
