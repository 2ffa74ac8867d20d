(* minimal_polynomial and characteristic_polynomial for f2_polymod_t: the matrix is a bit
   matrix. *)
From Verif Require Import Base MIntMath MIntmod MMat MBits PBits PBits2 MFac MF2Poly MPoly MPolymod MPolyFac MLinalg PF2Poly.
From mathcomp Require Import all_ssreflect fingroup perm all_algebra ssrZ finfield.
From Verif Require Import PMat PFp PBits3 PF2Poly2 PF2Poly4 PLin PLin2 PLin3 PMat2 PF2Fac2 PEd PLinalg PMinPoly PMinPoly2.
Set Implicit Arguments.
Unset Strict Implicit.
Unset Printing Implicit Defensive.
Import GRing.Theory.
Delimit Scope Z_scope with coqZ.
Local Open Scope ring_scope.
Local Notation F2 := [finFieldType of 'F_2].

Lemma ker_F2 d e (P : {poly 'F_2}) (k : 'M['F_2]_(e, d.+1)) : P \is monic -> size P = d.+1 -> row_free k ->
  (forall v : 'rV['F_2]_d.+1, (v <= k)%MS = (P %| rVpoly v)) -> e = 1%N /\ forall i j, k i j = P`_j.
Proof.
move=> Pm sP hf hk; pose Pv : 'rV['F_2]_d.+1 := poly_rV P.
have PvK : rVpoly Pv = P by rewrite poly_rV_K // sP.
have P0 : P != 0 by apply: monic_neq0.
have hrow i : exists c, row i k = c *: Pv.
  have : (row i k <= k)%MS by apply: row_sub.
  rewrite hk => /dvdpP [c ec]; exists c`_0.
  have sc : (size c <= 1)%N.
    have [->|c0] := eqVneq c 0; first by rewrite size_poly0.
    have := size_poly d.+1 (fun k' => if insub k' is Some k'' then row i k 0 k'' else 0).
    by rewrite -/(rVpoly (row i k)) ec size_mul // sP addnS /= -[d.+1]add1n leq_add2r.
  by rewrite -(rVpolyK (row i k)) ec {1}[c]size1_polyC // mul_polyC linearZ.
have e1 : e = 1%N.
  move/eqP: (hf) => <-; have eB : (k == Pv)%MS.
    apply/andP; split; last by rewrite hk PvK dvdpp.
    by apply/row_subP => i; have [c ->] := hrow i; apply: scalemx_sub.
  by rewrite (eqmxP eB) rank_rV; case: eqP => // e0; move/eqP: P0; case; rewrite -PvK e0 linear0.
split=> // i j; have [c hc] := hrow i.
have c1 : c = 1.
  have [b eb] := Ib_surj c; rewrite -eb in hc *; case: b eb hc => // _ hc.
  have h0 : delta_mx 0 i *m k = 0 *m k :> 'rV_d.+1 by rewrite -rowE hc mul0mx scale0r.
  have /rowP/(_ i) := row_free_inj hf h0.
  by rewrite !mxE !eqxx => /eqP; rewrite oner_eq0.
by have /rowP/(_ j) := hc; rewrite c1 scale1r !mxE.
Qed.

(* rows of an mr x n bit matrix and its entries *)
Definition RB mr n (rows : list bvec) (M : nat -> nat -> bool) : Prop :=
  exists L, [/\ BM rows L, rect n L, length L = mr & forall i j, (i < mr)%N -> (j < n)%N -> bent L i j = M i j].
Lemma RB_set mr n rows M i j b : RB mr n rows M -> (i < mr)%N -> (j < n)%N ->
  exists rows', bm_set rows i j b = Ok rows' /\ RB mr n rows' (fun i' j' => if (i' == i) && (j' == j) then b else M i' j').
Proof.
move=> [L [h1 h2 h3 h4]] hi hj.
have hi' : (i < length L)%coq_nat by rewrite h3; apply/ltP.
have hj' : (j < n)%coq_nat by apply/ltP.
have [rows' [L' [-> [g1 [g2 [g3 g4]]]]]] := set_full n rows L i j b h1 h2 hi' hj'.
exists rows'; split=> //; exists L'; split=> //; first by rewrite g3.
by move=> x y hx hy; rewrite g4 !eqbE h4.
Qed.
Lemma RB_ext mr n rows M M' : RB mr n rows M -> (forall i j, (i < mr)%N -> (j < n)%N -> M i j = M' i j) -> RB mr n rows M'.
Proof. by move=> [L [h1 h2 h3 h4]] h; exists L; split=> // i j hi hj; rewrite h4 // h. Qed.
Lemma RB_new mr n : (0 < mr)%N -> (0 < n)%N -> exists t, bm_new mr n = Ok t /\ RB mr n (bm_rows t) (fun _ _ => false).
Proof.
move=> /ltP hm /ltP hn; have [t [-> [h1 [h2 [h3 _]]]]] := bm_new_ok mr n hm hn; exists t; split=> //.
exists (List.repeat (List.repeat false n) mr); split=> // i j /ltP hi /ltP hj; rewrite /bent.
by rewrite nth_repeat_lt // nth_repeat_lt.
Qed.

Section Res.
Variables (tm : option N) (a : fpmod) (r m P : {poly 'F_2}).
Local Notation isM := PF2Poly4.isM.
Hypotheses (ha : isM a r m) (mi : irreducible_poly m) (hP : is_minpoly (F := F2) m r P) (Pi : irreducible_poly P).
Let d := (size P).-1.
Let n := (size m).-1.
Hypotheses (nm : (Z.of_nat n <= INT_MAX)%coqZ) (dn : (d %| n)%N)
  (hd : r ^+ (2 ^ d) %% m = r %% m) (dmin : forall k, (0 < k)%N -> r ^+ (2 ^ k) %% m = r %% m -> (d <= k)%N).
Hypothesis (htm : fill_allowed tm d.+1).
Let m0 := isM_m0 ha.

Lemma d_gt0 : (0 < d)%N. Proof. by case: Pi => h _; rewrite /d -ltnS (ltn_predK h). Qed.
Lemma n_gt0 : (0 < n)%N. Proof. by case: mi => h _; rewrite /n -ltnS (ltn_predK h). Qed.
Lemma d_le : (d <= n)%N. Proof. exact: dvdn_leq n_gt0 dn. Qed.
Lemma rm : r %% m = r. Proof. exact: isM_mod ha. Qed.

Lemma frob_len_ok : f2_frobenius_length a = Ok (Z.of_nat d).
Proof.
have hdn := d_le; rewrite /f2_frobenius_length (degree_thm (isP_W ha.2.1)) bind_ok -/n.
apply: (@frob_search (fun k => r ^+ (2 ^ k) %% m = r %% m) _ _ (fun k s => isM s (r ^+ (2 ^ k) %% m) m)) => //.
- exact: d_gt0.
- by lia.
- move=> k s hk hs; rewrite /f2_frob_step.
  have [s' [e hs']] := pm_mul_ok hs hs.
  have he : ((r ^+ (2 ^ k) %% m) * (r ^+ (2 ^ k) %% m) %% m)%R = (r ^+ (2 ^ k.+1) %% m)%R.
    by rewrite -expr2 modp_exp expnSr exprM.
  rewrite he in hs'; exists s'; split=> //.
  rewrite /iadd chk_ok; last by rewrite /INT_MIN; lia.
  rewrite !bind_ok e !bind_ok (pm_eqb_ok hs' ha) !bind_ok.
  have -> : (Z.of_nat k + 1)%coqZ = Z.of_nat k.+1 by lia.
  by case: eqP => h; [left|right]; rewrite rm.
- by rewrite expn0 expr1 rm.
have h : (n < 2 ^ n)%N by apply: ltn_expl.
apply: (leq_trans hdn); apply: (leq_trans (ltnW h)).
rewrite (_ : Nat.pow 2 n = 2 ^ n)%N //.
by elim: (n) => // k IH; rewrite expnS -IH.
Qed.

Definition pow_bit i j : bool := (r ^+ j %% m)`_i != 0.
Lemma bitl_P l p i : isP l p -> bitl l i = (p`_i != 0).
Proof. by move=> [_ <-]; rewrite coefPl; case: bitl. Qed.
Lemma fill_ok rows one : RB n d.+1 rows (fun _ _ => false) -> isM one (1 %% m) m ->
  exists rows' ap, for_up (d + 1) 0
      (fun j s => let '(rows, ap) := s in
         rows' <- for_up n 0
           (fun i rows => b <- bit_at (pm_res ap) (Z.of_nat i) ;; bm_set rows i j b) rows ;;
         ap' <- pm_mul ap a ;; Ok (rows', ap'))%res (rows, one) = Ok (rows', ap) /\ RB n d.+1 rows' pow_bit.
Proof.
move=> hr ho.
have [||[rows' ap'] [e [h1 h2]]] := @for_up_ok _ (fun j s => let '(rows, ap) := s in
         rows' <- for_up n 0
           (fun i rows => b <- bit_at (pm_res ap) (Z.of_nat i) ;; bm_set rows i j b) rows ;;
         ap' <- pm_mul ap a ;; Ok (rows', ap'))%res
   (fun j s => RB n d.+1 s.1 (fun i j' => if (j' < j)%N then pow_bit i j' else false) /\ isM s.2 (r ^+ j %% m) m)
   (Nat.add d 1) 0 (rows, one).
- move=> j [rw ap] /andP [_ hj] /= [hrw hap].
  have hj' : (j < d.+1)%N by move: hj; rewrite add0n plusE addn1.
  have [||rw' [-> hrw']] := @for_up_ok _ (fun i rows => b <- bit_at (pm_res ap) (Z.of_nat i) ;; bm_set rows i j b)%res
     (fun k rows => RB n d.+1 rows (fun i j' => if (j' < j)%N || (j' == j) && (i < k)%N then pow_bit i j' else false)) n 0 rw.
  + move=> k rw1 /andP [_ hk] h1; rewrite add0n in hk.
    rewrite bit_at_ok bind_ok (bitl_P _ hap.1).
    have [rw2 [-> h2]] := RB_set ((r ^+ j %% m)`_k != 0) h1 hk hj'; exists rw2; split=> //.
    apply: RB_ext h2 _ => i j' hi hj2; rewrite /pow_bit ltnS.
    have [->|ne] := eqVneq j' j; last by rewrite ?andbF ?orbF.
    rewrite ltnn /= andbT; have [->|ne] := eqVneq i k; first by rewrite leqnn.
    by rewrite [(i <= k)%N]leq_eqVlt (negbTE ne).
  + by apply: RB_ext hrw _ => i j' hi hj2; rewrite ltn0 andbF orbF.
  rewrite bind_ok; have [ap' [-> hap']] := pm_mul_ok hap ha; rewrite bind_ok.
  exists (rw', ap'); split=> //; split=> /=.
    apply: RB_ext hrw' _ => i j' hi hj2; rewrite add0n hi andbT ltnS [in RHS]leq_eqVlt orbC //.
  by rewrite exprSr -PPolymod.modp_mull2.
- by split=> //=; rewrite expr0.
exists rows', ap'; split; first exact: e.
by apply: RB_ext h1 _ => i j hi hj; rewrite add0n plusE addn1 hj.
Qed.

Theorem min_poly_ok : exists l, f2_minimal_polynomial tm a = Ok l /\ isP l P.
Proof.
have [Pm _] := hP; have sP : size P = d.+1 by case: Pi => h _; rewrite /d (ltn_predK h).
rewrite /f2_minimal_polynomial /pm_prime_subfield_element.
have [u [-> hu]] := isM_1 ha.2.1 m0; rewrite bind_ok (degree_thm (isP_W ha.2.1)) bind_ok -/n frob_len_ok bind_ok Nat2Z.id.
have ed : Nat.add d 1 = d.+1 by rewrite plusE addn1.
have d1 : (0 < Nat.add d 1)%N by rewrite ed.
have [t [-> ht]] := RB_new n_gt0 d1; rewrite bind_ok; rewrite ed in ht.
have [rows [ap [-> [L [h1 h2 h3 h4]]]]] := fill_ok ht hu.
rewrite bind_ok ed.
pose Am : 'M['F_2]_(n, d.+1) := \matrix_(i, j) pow_ent (F := F2) r m i j.
have hA : bmat_is (mkbm rows d.+1) Am.
  exists L; split=> // i j; rewrite mxE h4 // /pow_bit /pow_ent.
  by case: (Ib_surj (r ^+ j %% m)`_i) => -[] <-.
have [k [-> hk]] := bm_kernel_thm n_gt0 (ltn0Sn d) hA (or_introl erefl) htm; rewrite bind_ok.
have HK (v : 'rV['F_2]_d.+1) : (Am *m v^T == 0) = (P %| rVpoly v).
  rewrite -(pow_ker (F := F2) mi hP) -/d -/n; congr (_ *m _ == 0).
  by apply/matrixP=> i j; rewrite !mxE tab_ent.
case: k hk => [B [k [_ [LB [hB hBe]] hfree hspan]]|h]; last first.
  have := HK (poly_rV P); rewrite poly_rV_K ?sP // dvdpp => /eqP/h e0.
  have : poly_rV P = 0 :> 'rV['F_2]_d.+1 by apply: trmx_inj; rewrite e0 trmx0.
  move/(congr1 rVpoly); rewrite poly_rV_K ?sP // linear0 => e; by move: sP; rewrite e size_poly0.
have [e1 hkP] := ker_F2 Pm sP hfree (fun v => etrans (hspan v) (HK v)).
have Pd : P`_d = 1 by have /monicP := Pm; rewrite lead_coefE sP.
have {hBe} hBe j : (j < d.+1)%N -> Ib (bent LB 0 j) = P`_j.
  move=> hj; have h0 : (0 < d.+1 - \rank Am)%N by rewrite e1.
  by have := hBe (Ordinal h0) (Ordinal hj); rewrite hkP.
have [hB1 [hB2 [hB3 hB4]]] := hB; rewrite e1 in hB3.
rewrite (bm_rank_rr_ok _ _ _ _ hB) bind_ok.
have -> : nzprefix LB = 1%N.
  case: LB hB3 hBe {hB hB1 hB2} => [|x []] //= _ hBe.
  have := hBe d (ltnSn d); rewrite /bent /= Pd => hx.
  case e: first_true => [y|] //; have := first_true_none_inv _ e d => h.
  by move: hx; rewrite h => /eqP.
rewrite /=.
have hget j : (j < d.+1)%N -> bm_get (bm_rows B) 0 j = Ok (bent LB 0 j).
  by move=> /ltP hj; apply: (bm_get_ok _ _ _ hB1 hB2) => //; rewrite hB3; apply/ltP.
have [||l [e hl]] := @for_up_ok _ (fun j p => b <- bm_get (bm_rows B) 0 j ;; (if b : bool then set_bit p (Z.of_nat j) else Ok p))%res
  (fun j l => isP l (\poly_(i < j) P`_i)) d.+1 0 (f2_of_int 0).
- move=> j l /andP [_ hj] hl; rewrite add0n in hj; rewrite hget // bind_ok.
  have e : \poly_(i < j.+1) P`_i = \poly_(i < j) P`_i + P`_j *: 'X^j.
    apply/polyP=> i; rewrite coefD coefZ coefXn !coef_poly ltnS.
    by case: ltngtP => h; rewrite ?mulr1 ?mulr0 ?addr0 ?add0r // h.
  have := hBe j hj; rewrite e; case: bent => <-; last by exists l; rewrite scale0r addr0.
  have [|l' [-> hl']] := set_bit_P (k := j) hl; first by rewrite coef_poly ltnn.
  by exists l'; rewrite scale1r.
- by rewrite poly_def big_ord0; apply: isP0.
exists l; split; first exact: e.
suff -> : P = \poly_(i < 0 + d.+1) P`_i by [].
by rewrite add0n -sP coefK.
Qed.

Theorem char_poly_res_ok : exists l, f2_characteristic_polynomial tm a = Ok l /\ isP l (char_poly (mul_mx (F := F2) m n r)).
Proof.
have [l [e hl]] := min_poly_ok; rewrite /f2_characteristic_polynomial e bind_ok (degree_thm (isP_W ha.2.1)) bind_ok -/n frob_len_ok bind_ok.
have d0 := d_gt0; have hdn := d_le.
rewrite (char_mul_mx (F := F2) mi (erefl n) hP Pi) -/d.
rewrite /idiv; have -> : (Z.of_nat d =? 0)%coqZ = false by lia.
have eq1 : (Z.of_nat n ÷ Z.of_nat d)%coqZ = Z.of_nat (n %/ d)%N.
  have [k ek] := dvdnP dn; rewrite ek mulnK // Nat2Z.inj_mul Z.quot_mul //; lia.
have hle : (n %/ d <= n)%N := leq_div n d.
rewrite eq1 chk_ok; last by rewrite /INT_MIN; lia.
rewrite bind_ok; have P0 : P != 0 by case: hP => h _; apply: monic_neq0.
have hx : (0 <= Z.of_nat (n %/ d) <= INT_MAX)%coqZ by lia.
have [l' [-> hl']] := exp_P hl P0 hx.
by exists l'; move: hl'; rewrite Nat2Z.id.
Qed.
End Res.
