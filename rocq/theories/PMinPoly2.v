(* minimal_polynomial and characteristic_polynomial of min_char_polys.cpp. *)
From Verif Require Import Base MIntMath MIntmod MMat MBits MFac MF2Poly MPoly MPolymod MPolyFac MLinalg PF2Poly.
From mathcomp Require Import all_ssreflect fingroup perm all_algebra ssrZ finfield.
From Verif Require Import PMat PFp PBits3 PF2Poly2 PLin PLin2 PLin3 PMat2 PPoly PPoly2 PPoly3 PPolymod PEd PF2Fac2 PLinalg PMinPoly.
Set Implicit Arguments.
Unset Strict Implicit.
Unset Printing Implicit Defensive.
Import GRing.Theory.
Delimit Scope Z_scope with coqZ.
Local Open Scope ring_scope.

(* ---- the kernel *)
Section Ker.
Variables (F : fieldType) (n d : nat) (P : {poly F}) (rows : seq (seq F)) (pv : seq nat).
Hypotheses (Pm : P \is monic) (sP : size P = d.+1).
Hypotheses (Hs : shape n d.+1 rows) (Hr : rref n d.+1 rows pv).
Hypothesis HK : forall v : 'rV[F]_d.+1, (lmx n d.+1 rows *m v^T == 0) = (P %| rVpoly v).

Lemma ker_coef : size pv = d /\ forall j, (j < d.+1)%N -> ent (kbasis d.+1 rows pv) 0 j = P`_j.
Proof.
set r := size pv; set B := lmx (d.+1 - r) d.+1 (kbasis d.+1 rows pv).
pose Pv : 'rV[F]_d.+1 := poly_rV P.
have PvK : rVpoly Pv = P by rewrite poly_rV_K // sP.
have hB v : (v <= B)%MS = (P %| rVpoly v) by rewrite /B (kbasis_span Hr) HK.
have P0 : P != 0 by apply: monic_neq0.
have eB : (B == Pv)%MS.
  apply/andP; split; last by rewrite hB PvK dvdpp.
  apply/row_subP => i; have : (row i B <= B)%MS by apply: row_sub.
  rewrite hB => /dvdpP [c e].
  have sc : (size c <= 1)%N.
    have [->|c0] := eqVneq c 0; first by rewrite size_poly0.
    have := size_poly d.+1 (fun k => if insub k is Some k' then row i B 0 k' else 0).
    rewrite -/(rVpoly (row i B)) e size_mul // sP addnS /= -add1n leq_add2r; apply.
  rewrite -(rVpolyK (row i B)) e [c]size1_polyC // mul_polyC linearZ /= -/Pv.
  by apply: scalemx_sub.
have rB : (d.+1 - r)%N = 1%N.
  have := kbasis_free Hr; rewrite /row_free -/r -/B => /eqP <-.
  rewrite (eqmxP eB) rank_rV; case: eqP => // e.
  by move/eqP: P0; case; rewrite -PvK e linear0.
have hr : r = d by lia.
split=> //.
have h0 : (0 < d.+1 - r)%N by rewrite rB.
have [hf nf] := free_prop Hr h0.
set f := nth 0%N (frees d.+1 pv) 0 in hf nf.
have ef : ent (kbasis d.+1 rows pv) 0 f = 1 by rewrite (kbasis_ent Hr h0 hf) eqxx.
have [c hc] : exists c, forall j, (j < d.+1)%N -> ent (kbasis d.+1 rows pv) 0 j = c * P`_j.
  have : (row (Ordinal h0) B <= Pv)%MS by rewrite -(eqmxP eB) row_sub.
  case/sub_rVP => c e; exists c => j hj.
  by have /rowP/(_ (Ordinal hj)) := e; rewrite !mxE.
have Pd : P`_d = 1 by have /monicP := Pm; rewrite lead_coefE sP.
have ed : ent (kbasis d.+1 rows pv) 0 d = c by rewrite hc ?Pd ?mulr1.
suff c1 : c = 1 by move=> j hj; rewrite hc // c1 mul1r.
have [e|ne] := eqVneq f d; first by move: ef; rewrite e ed.
have hfd : (f < d)%N by move: hf ne; rewrite ltnS leq_eqVlt => /orP[/eqP ->|//]; rewrite eqxx.
have c0 : c = 0.
  rewrite -ed (kbasis_ent Hr h0 (ltnSn d)) -/f eq_sym (negbTE ne).
  case: ifP => // hd; have hi : (index d pv < size pv)%N by rewrite index_mem.
  by rewrite (ech_before (rref_ech Hr) hi) ?oppr0 // nth_index.
by move: ef; rewrite hc // c0 mul0r => /eqP; rewrite eq_sym oner_eq0.
Qed.
End Ker.

(* ---- frobenius_length as a search *)
Lemma frob_search (Q : nat -> Prop) (S : Type) (step : Z * S -> res ((Z * S) + Z)) (St : nat -> S -> Prop) d :
  (0 < d)%N -> (Z.of_nat d <= INT_MAX)%coqZ ->
  Q d -> (forall k, (0 < k)%N -> Q k -> (d <= k)%N) ->
  (forall k s, (k < d)%N -> St k s -> exists s', St k.+1 s' /\
     ((Q k.+1 /\ step (Z.of_nat k, s) = Ok (inr (Z.of_nat k.+1))) \/ (~ Q k.+1 /\ step (Z.of_nat k, s) = Ok (inl (Z.of_nat k.+1, s'))))) ->
  forall fuel s, St 0%N s -> (d <= fuel)%N -> loop fuel step (0%coqZ, s) = Ok (Z.of_nat d).
Proof.
move=> d0 dm hQ hmin hstep fuel s hs hf.
have [||| r [-> ->] //] := @loop_total _ _ step (fun st => exists k, [/\ (k < d)%N, st.1 = Z.of_nat k & St k st.2])
  (fun st => (d - Z.to_nat st.1 - 1)%N) (fun r => r = Z.of_nat d) _ fuel (0%coqZ, s).
- move=> [_ t] /= [k [hk -> ht]]; have [t' [ht' [[hq e]|[hq e]]]] := hstep k t hk ht.
    right; exists (Z.of_nat k.+1); split=> //; congr Z.of_nat; apply/eqP; rewrite eqn_leq hk hmin //.
  left; exists (Z.of_nat k.+1, t'); split=> //.
  have hk1 : (k.+1 < d)%N.
    by move: hk; rewrite leq_eqVlt => /orP [/eqP e1|//]; case: hq; rewrite e1.
  split; first by exists k.+1.
  by apply/ltP; rewrite /= Nat2Z.id SuccNat2Pos.id_succ; lia.
- by exists 0%N.
- by apply/ltP => /=; lia.
Qed.

Lemma modp_exp (K : fieldType) (x m : {poly K}) k : (x %% m) ^+ k %% m = x ^+ k %% m.
Proof. by elim: k => [|k IH] //; rewrite !exprS PPolymod.modp_mull2 -[LHS]modp_mul IH modp_mul. Qed.

Section Gen.
Variables (A : Type) (o : kops A) (F : finFieldType) (V : A -> Prop) (I : A -> F) (kv : A -> nat).
Hypothesis spec : kspec o V I kv.
Hypothesis dflt : forall z, V z -> exists z1, k_int o (k_dflt o) 0 = Ok z1 /\ c_eqb (k_c o) z z1 = Ok false.
Let sc := ks_c spec.
Local Notation R := (R V I).
Local Notation Rr := (Rr V I).
Local Notation Rm := (Rm V I).
Local Notation isG := (isG V I).
Local Notation isM := (isM V I).
Local Notation rep := (rep V I).

Lemma F2_nth (T U : Type) (S : T -> U -> Prop) u0 : forall (l : seq T) (s : seq U), size l = size s ->
  (forall i x, List.nth_error l i = Some x -> S x (nth u0 s i)) -> Forall2 S l s.
Proof.
elim=> [|x l IH] [|y s] //= [hs] h.
constructor; first exact: (h 0%N).
by apply: IH => // i z hz; apply: (h i.+1).
Qed.
Lemma RM_rep t m n (M : nat -> nat -> F) : RM R m n (t_rows t) M -> t_nc t = n ->
  rep t m n [seq [seq M i j | j <- iota 0 n] | i <- iota 0 m].
Proof.
move=> [hs h] hn; split=> //; last first.
  split; first by rewrite size_map size_iota.
  by move=> i hi; rewrite (nth_map 0%N) ?size_iota // size_map size_iota.
apply: (F2_nth (u0 := [::])); first by rewrite size_map size_iota.
move=> i r hr; have hi := nth_error_lt hr; rewrite hs in hi.
have [hs2 h2] := h i r hr; rewrite (nth_map 0%N) ?size_iota // nth_iota // add0n.
apply: (F2_nth (u0 := 0)); first by rewrite size_map size_iota.
move=> j x hx; have hj := nth_error_lt hx; rewrite hs2 in hj.
by rewrite (nth_map 0%N) ?size_iota // nth_iota //; apply: h2.
Qed.
Lemma rep_elx t m n M i j : rep t m n M -> (i < m)%N -> (j < n)%N ->
  exists x, elx (t_rows t) i j = Ok x /\ R x (ent M i j).
Proof.
move=> h hi hj; have [x [e hx]] := rep_el h hi hj; exists x; split=> //.
by move: e; rewrite /el /rowat /elx; case: nth_error.
Qed.

Lemma isG_single x (c : F) : R x c -> isG [:: x] c%:P.
Proof.
move=> h; rewrite /PPoly.isG /cseq polyC_eq0 polyseqC; case: eqP h => [->|_] h /=; by constructor.
Qed.

Section Res.
Variables (a : gmod A) (r m : {poly F}) (P : {poly F}).
Hypotheses (ha : isM a r m) (mi : irreducible_poly m) (hP : is_minpoly m r P) (Pi : irreducible_poly P).
Let Q := #|F|.
Hypothesis Qm : (Z.of_nat Q <= INT_MAX)%coqZ.
Let d := (size P).-1.
Let n := (size m).-1.
Hypotheses (nm : (Z.of_nat n <= INT_MAX)%coqZ) (dn : (d %| n)%N)
  (hd : r ^+ (Q ^ d) %% m = r %% m) (dmin : forall k, (0 < k)%N -> r ^+ (Q ^ k) %% m = r %% m -> (d <= k)%N).

Lemma d_gt0 : (0 < d)%N. Proof. by case: Pi => h _; rewrite /d -ltnS (ltn_predK h). Qed.
Lemma n_gt0 : (0 < n)%N. Proof. by case: mi => h _; rewrite /n -ltnS (ltn_predK h). Qed.
Lemma d_le : (d <= n)%N. Proof. exact: dvdn_leq n_gt0 dn. Qed.
Lemma rm : r %% m = r. Proof. exact: isM_mod ha. Qed.
Lemma q_gt1 : (1 < Q)%N. Proof. exact: finRing_gt1. Qed.

Lemma frob_len_ok : gm_frobenius_length o (Z.of_nat Q) a = Ok (Z.of_nat d).
Proof.
have hdn := d_le; have q1 := q_gt1.
rewrite /gm_frobenius_length (degG ha.2.1) -/n Nat2Z.id.
apply: (@frob_search (fun k => r ^+ (Q ^ k) %% m = r %% m) _ _ (fun k s => isM s (r ^+ (Q ^ k) %% m) m)) => //.
- exact: d_gt0.
- by lia.
- move=> k s hk hs; rewrite /gm_frob_step.
  have hq : (0 <= Z.of_nat Q <= INT_MAX)%coqZ by lia.
  have hq0 : (Z.of_nat Q <> 0)%coqZ \/ r ^+ (Q ^ k) %% m != 0 by left; lia.
  have [s' [e hs']] := gexp_pos spec hs hq hq0.
  have he : (r ^+ (Q ^ k) %% m) ^+ Z.to_nat (Z.of_nat Q) %% m = r ^+ (Q ^ k.+1) %% m.
    by rewrite Nat2Z.id modp_exp expnSr exprM.
  rewrite he in hs'; exists s'; split=> //.
  rewrite /iadd chk_ok; last by rewrite /INT_MIN; lia.
  rewrite !bind_ok e !bind_ok (geqb_ok spec hs' ha) !bind_ok.
  have -> : (Z.of_nat k + 1)%coqZ = Z.of_nat k.+1 by lia.
  by case: eqP => h; [left|right]; rewrite rm.
- by rewrite expn0 expr1 rm.
have h : (n < Q ^ n)%N by apply: ltn_expl.
apply: (leq_trans hdn); apply: (leq_trans (ltnW h)).
rewrite (_ : Nat.pow Q n = Q ^ n)%N //.
by elim: (n) => //= k ->; rewrite expnS.
Qed.

Definition pow_ent i j : F := (r ^+ j %% m)`_i.
Lemma fill_ok rows zero one : RM R n d.+1 rows (fun _ _ => 0) -> R zero 0 -> isM one (1 %% m) m ->
  exists rows' ap, for_up (d + 1) 0
      (fun j s => let '(rows, ap) := s in
         rows' <- for_up n 0
           (fun i rows => c <- gp_get_coeff o (gm_res ap) (Z.of_nat i) ;; setx rows i j c) rows ;;
         ap' <- gm_mul o ap a ;; Ok (rows', ap'))%res (rows, one) = Ok (rows', ap) /\ RM R n d.+1 rows' pow_ent.
Proof.
move=> hr hz ho.
have [||[rows' ap'] [e [h1 h2]]] := @for_up_ok _ (fun j s => let '(rows, ap) := s in
         rows' <- for_up n 0
           (fun i rows => c <- gp_get_coeff o (gm_res ap) (Z.of_nat i) ;; setx rows i j c) rows ;;
         ap' <- gm_mul o ap a ;; Ok (rows', ap'))%res
   (fun j s => RM R n d.+1 s.1 (fun i j' => if (j' < j)%N then pow_ent i j' else 0) /\ isM s.2 (r ^+ j %% m) m)
   (Nat.add d 1) 0 (rows, one).
- move=> j [rw ap] /andP [_ hj] /= [hrw hap].
  have hj' : (j < d.+1)%N by move: hj; rewrite add0n plusE addn1.
  have [||rw' [-> hrw']] := @for_up_ok _ (fun i rows => c <- gp_get_coeff o (gm_res ap) (Z.of_nat i) ;; setx rows i j c)%res
     (fun k rows => RM R n d.+1 rows (fun i j' => if (j' < j)%N || (j' == j) && (i < k)%N then pow_ent i j' else 0)) n 0 rw.
  + move=> k rw1 /andP [_ hk] h1; rewrite add0n in hk.
    have [x [-> hx]] := get_coeff_ok spec k hap.1; rewrite bind_ok.
    have [rw2 [-> h2]] := RM_setx h1 hk hj' hx; exists rw2; split=> //.
    apply: RM_ext h2 _ => i j' hi hj2; rewrite /pow_ent ltnS.
    have [->|ne] := eqVneq j' j; last by rewrite ?andbF ?orbF; case: (i == k).
    rewrite ltnn /=; have [->|ne] := eqVneq i k; first by rewrite leqnn.
    by rewrite [(i <= k)%N]leq_eqVlt (negbTE ne).
  + by apply: RM_ext hrw _ => i j' hi hj2; rewrite ltn0 andbF orbF.
  rewrite bind_ok; have [ap' [-> hap']] := gmul_ok spec hap ha; rewrite bind_ok.
  exists (rw', ap'); split=> //; split=> /=.
    apply: RM_ext hrw' _ => i j' hi hj2; rewrite add0n hi andbT ltnS [in RHS]leq_eqVlt orbC //.
  by rewrite exprSr -PPolymod.modp_mull2.
- by split=> //=; rewrite expr0.
exists rows', ap'; split; first exact: e.
by apply: RM_ext h1 _ => i j hi hj; rewrite add0n plusE addn1 hj.
Qed.

Lemma pow_ker (v : 'rV[F]_d.+1) :
  (lmx n d.+1 [seq [seq pow_ent i j | j <- iota 0 d.+1] | i <- iota 0 n] *m v^T == 0) = (P %| rVpoly v).
Proof.
have [_ <-] := hP.
have e i : (i < n)%N -> ((rVpoly v \Po r) %% m)`_i = \sum_(j < d.+1) pow_ent i j * v 0 j.
  move=> hi; have -> : rVpoly v = \sum_(j < d.+1) v 0 j *: 'X^j.
    by rewrite /rVpoly poly_def; apply: eq_bigr => j _; rewrite valK.
  rewrite (raddf_sum [additive of comp_poly r]) /= mod_sum coef_sum.
  by apply: eq_bigr => j _; rewrite comp_polyZ rmorphX /= comp_polyX modpZl coefZ mulrC.
have hs x : (size (x %% m)%R <= n)%N := mod_size mi (erefl n) x.
apply/eqP/idP => [/matrixP h|h].
  apply/eqP/polyP=> i; rewrite coef0; case: (ltnP i n) => hi; last by rewrite nth_default // (leq_trans (hs _)).
  rewrite e //; have := h (Ordinal hi) 0; rewrite !mxE => e0; rewrite -[RHS]e0.
  by apply: eq_bigr => j _; rewrite !mxE tab_ent.
apply/matrixP=> i k; rewrite !mxE; move/eqP: h => h.
have := e i (ltn_ord i); rewrite h coef0 => e0; rewrite [RHS]e0.
by apply: eq_bigr => j _; rewrite !mxE tab_ent // ord1.
Qed.

Theorem min_poly_ok : exists l, gm_minimal_polynomial o (Z.of_nat Q) a = Ok l /\ isG l P.
Proof.
have [Pm _] := hP; have sP : size P = d.+1 by case: Pi => h _; rewrite /d (ltn_predK h).
rewrite /gm_minimal_polynomial (degG ha.2.1) -/n.
have [u [-> hu]] := gint1_ok spec ha; rewrite bind_ok.
have [a0 [-> ha0]] := get_coeff_ok spec 0 ha.1; rewrite bind_ok.
have [zero [-> hz]] := kint0 spec ha0; have [one [-> h1]] := kint1 spec ha0; rewrite !bind_ok frob_len_ok bind_ok Nat2Z.id.
have d1 : (0 < Nat.add d 1)%N by rewrite plusE addn1.
have [|t [-> ht htn]] := @RM_tab _ _ R n (Nat.add d 1) (fun _ _ => Ok zero) (fun _ _ => 0) n_gt0 d1; first by exists zero.
have ed : Nat.add d 1 = d.+1 by rewrite plusE addn1.
rewrite ed in ht htn.
rewrite bind_ok; have [rows [ap [-> hrows]]] := fill_ok ht hz hu.
rewrite bind_ok ed.
set L := [seq [seq pow_ent i j | j <- iota 0 d.+1] | i <- iota 0 n].
have hrep : rep (mkmat rows d.+1) n d.+1 L by apply: RM_rep.
have [pv [hs hr]] := kernel_ok spec.(ks_c) n_gt0 (ltn0Sn d) hrep hz h1.
have hsL : shape n d.+1 L by case: hrep.
have [pv2 [_ _ hred]] := prech_ok hsL.
have HK (v : 'rV[F]_d.+1) : (lmx n d.+1 (prech d.+1 L) *m v^T == 0) = (P %| rVpoly v).
  by rewrite -pow_ker (reduces_ker _ hred).
have [epv hB] := ker_coef Pm sP hr HK.
rewrite epv (ltn_eqF (ltnSn d)) => -[B [-> hBr]]; rewrite bind_ok.
have e1 : (d.+1 - d)%N = 1%N by rewrite subSn // subnn.
rewrite e1 in hBr.
have hcount : count (has (fun x : F => x != 0)) (kbasis d.+1 (prech d.+1 L) pv) = 1%N.
  have [_ [hk _] _] := hBr; move: hk hB; case: (kbasis _ _ _) => [|x []] //= _ hB.
  suff -> : has (fun x : F => x != 0) x by [].
  have Pd : P`_d = 1 by have /monicP := Pm; rewrite lead_coefE sP.
  have := hB d (ltnSn d); rewrite /ent /= Pd => hx.
  apply/(has_nthP 0); exists d; last by rewrite hx oner_eq0.
  rewrite ltnNge; apply/negP => h; move: hx; rewrite nth_default // => /eqP.
  by rewrite eq_sym oner_eq0.
rewrite (rank_rr_ok spec.(ks_c) (ltn0Sn 0) (ltn0Sn d) hBr) bind_ok hcount /=.
have [x0 [e0 hx0]] := rep_elx hBr (ltn0Sn 0) (ltn0Sn d).
rewrite e0 bind_ok {1}/gp_set_coeff /=.
have [z1 [-> ez1]] := dflt hx0.1; rewrite bind_ok /= ez1 !bind_ok.
have [||l [-> hl]] := @for_up_ok _ (fun j p => x <- elx (t_rows B) 0 j ;; gp_set_coeff o p (Z.of_nat j) x)%res
  (fun j l => isG l (\poly_(i < j) P`_i)) d 1 [:: x0].
- move=> j l /andP [hj1 hj2] hl; have [x [-> hx]] := rep_elx hBr (ltn0Sn 0) (hj2 : (j < d.+1)%N).
  rewrite bind_ok; have [l' [-> hl']] := set_coeff_ok spec j hl hx; exists l'; split=> //.
  suff -> : \poly_(i < j.+1) P`_i = \poly_(i < j) P`_i + (ent (kbasis d.+1 (prech d.+1 L) pv) 0 j - (\poly_(i < j) P`_i)`_j) *: 'X^j by [].
  rewrite hB //; apply/polyP=> i; rewrite coefD coefZ coefXn !coef_poly ltnn subr0.
  by rewrite ltnS; case: ltngtP => h; rewrite ?mulr1 ?mulr0 ?addr0 ?add0r // h.
- rewrite poly_def big_ord1 expr0 alg_polyC -(hB 0%N) //; apply: isG_single.
  exact: hx0.
exists l; split=> //.
suff -> : P = \poly_(i < 1 + d) P`_i by [].
by rewrite add1n -sP coefK.
Qed.

Theorem char_poly_res_ok : exists l, gm_characteristic_polynomial o (Z.of_nat Q) a = Ok l /\ isG l (char_poly (mul_mx m n r)).
Proof.
have [l [e hl]] := min_poly_ok; rewrite /gm_characteristic_polynomial e bind_ok frob_len_ok bind_ok (degG ha.2.1) -/n.
have d0 := d_gt0; have hdn := d_le.
rewrite (char_mul_mx mi (erefl n) hP Pi) -/d.
rewrite /idiv; have -> : (Z.of_nat d =? 0)%coqZ = false by lia.
have eq1 : (Z.of_nat n ÷ Z.of_nat d)%coqZ = Z.of_nat (n %/ d)%N.
  have [k ek] := dvdnP dn; rewrite ek mulnK // Nat2Z.inj_mul Z.quot_mul //; lia.
have hle : (n %/ d <= n)%N := leq_div n d.
rewrite eq1 chk_ok; last by rewrite /INT_MIN; lia.
rewrite bind_ok; have [||l' [-> hl']] := exp_ok spec hl (e := Z.of_nat (n %/ d)); first by case: Pi.
  by lia.
by exists l'; move: hl'; rewrite Nat2Z.id.
Qed.
End Res.
End Gen.
