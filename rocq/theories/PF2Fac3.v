(* The top level of GF(2) factorization: the recursion, factor, is_irreducible. *)
From Verif Require Import Base MIntMath MMat MBits MFac PBits PBits2 MF2Poly MF2Fac PPow PF2Poly PF2Fac1 PFacGen.
From mathcomp Require Import all_ssreflect fingroup perm all_algebra finfield separable ssrZ.
From Verif Require Import PLin PLin2 PLin3 PMat PMat2 PMat3 PropMat PBits3 PF2Poly2 PF2Poly3 PF2Poly4 PBerl PFacPoly PF2Fac2.
Set Implicit Arguments.
Unset Strict Implicit.
Unset Printing Implicit Defensive.
Import GRing.Theory.
Delimit Scope Z_scope with coqZ.
Local Open Scope ring_scope.

Lemma deriv0_sqr (p : {poly 'F_2}) : p^`() = 0 -> exists q, q ^+ 2 = p.
Proof.
move=> h; exists (\poly_(i < size p) p`_(i.*2)); apply/polyP => i; rewrite sqr_coef coef_poly.
have ho j : odd j -> p`_j = 0.
  case: j => [//|j] /= hj; have := congr1 (fun r : {poly 'F_2} => r`_j) h.
  by rewrite /= coef_deriv coef0 -mulr_natr natF2 /= hj mulr1.
case: ifP => [/ho ->|/negbT he] //; have e : i./2.*2 = i by rewrite -{2}(odd_double_half i) (negbTE he).
by rewrite e; case: ltnP => // hs; rewrite nth_default //; apply: leq_trans hs _; rewrite -{2}e -addnn leq_addr.
Qed.

Lemma separable_gcd (p : {poly 'F_2}) : gcdp p p^`() = 1 -> sqfree (F := F2) p.
Proof. by move=> h; rewrite /sqfree /separable_poly coprimep_def h size_poly1. Qed.

Lemma pre_ok m recurse fuel : forall l p, isP l p -> (1 < size p)%N -> (size p <= fuel)%N ->
  spec recurse p (f2_pre fuel (Some m) recurse l).
Proof.
elim: fuel => [|fuel IH] l p hl hp hfuel; first by move: (leq_trans hp hfuel).
have p0 := sz_pos hp.
have [d [ed hd]] := deriv_P (isP_W hl).
have [g [eg hg]] := gcd_L (isP_L hl) (isP_L hd).
have g0 : gcdp p p^`() != 0 by rewrite gcdp_eq0 (negbTE p0).
have pre : forall fin, f2_pre fuel.+1 (Some m) recurse l fin =
   if gcdp p p^`() == 1 then f2_berl (Some m) (f2_pre fuel (Some m) recurse) recurse l fin
   else dz <- f2_eq_int d 0 ;;
          if dz : bool then
            s <- f2_sqrt l ;;
            match s with
            | None => Exn
            | Some s =>
                sfin <- f2_pre fuel (Some m) recurse s fac_empty ;;
                deg <- f2_degree l ;;
                sfin <- (if Nat.ltb 0 deg then exp_all f2_fops sfin 2 else Ok sfin) ;;
                MFac.merge f2_fops fin sfin
            end
          else
            q <- f2_div l g ;;
            fin1 <- f2_pre fuel (Some m) recurse g fin ;;
            f2_pre fuel (Some m) recurse q fin1.
  move=> fin; cbn [f2_pre]; rewrite ed bind_ok eg bind_ok (eq_0_P (isL_W hg)) bind_ok (negbTE g0).
  by rewrite (eq_1_P (isL_W hg)) bind_ok.
have [g1|g1] := eqVneq (gcdp p p^`()) 1.
  apply: (@spec_ext _ _ (f2_berl (Some m) (f2_pre fuel (Some m) recurse) recurse l)).
    by move=> fin; rewrite pre g1 eqxx.
  apply: berl_ok => //; first exact: separable_gcd.
  by move=> l' p' h1 h2 h3; apply: IH => //; rewrite -ltnS; apply: leq_trans hfuel.
have [d0|d0] := eqVneq p^`() 0; last first.
  have hgP := isL_nz hg g0.
  have [q [eq hq]] := div_L (isP_L hl) hg g0.
  have ep : p = gcdp p p^`() * (p %/ gcdp p p^`()) by rewrite mulrC divpK // dvdp_gcdl.
  have hg1 := sz1 g0 g1.
  have hq1 : (1 < size (p %/ gcdp p p^`())%R)%N.
    rewrite size_divp //.
    have h2 : (size (gcdp p p^`()) <= size p^`())%N by apply: dvdp_leq => //; apply: dvdp_gcdr.
    have h1 := leq_ltn_trans h2 (lt_size_deriv p0).
    by rewrite ltn_subRL addn1 prednK // (ltn_trans _ hg1).
  have [s1 s2] := size_lt_mul hg1 hq1; rewrite -ep in s1 s2.
  rewrite {1}ep; apply: spec_ext (spec_comp hg1 hq1 (spec_0 (IH _ _ hgP hg1 _)) (spec_0 (IH _ _ hq hq1 _))).
  - move=> fin; rewrite pre (negbTE g1) (eq_0_P (isP_W hd)) bind_ok (negbTE d0) eq bind_ok //.
  - by rewrite -ltnS; apply: leq_trans s1 hfuel.
  - by rewrite -ltnS; apply: leq_trans s2 hfuel.
have [r [er hr]] := sqrt_P (isP_W hl).
case: r er hr => [s|] er hr; last by have [q hq] := deriv0_sqr d0; case: (hr q).
case: hr => q [hs ep].
have hq1 : (1 < size q)%N.
  have q0 : q != 0 by apply: contraNneq p0 => e; rewrite -ep e expr0n.
  apply: sz1 => //; apply: contraTneq hp => e; by rewrite -ep e expr1n size_poly1.
have [s1 _] := size_lt_mul hq1 hq1; rewrite -expr2 ep in s1.
have hspec : spec recurse q (f2_pre fuel (Some m) recurse s) by apply: IH => //; rewrite -ltnS; apply: leq_trans s1 hfuel.
move=> fin hf ht.
have hsz := size_mulF2 (sz_pos hq1) (sz_pos hq1); rewrite -expr2 ep in hsz.
have hpq := pred_pos hq1; have hpp := pred_pos hp; have hft := FI_total hf.
have [|sf [c [e1 h1 u1 v1 [t1 [c1 _]]]]] := hspec fac_empty (FI_empty _ _ _ _); first by rewrite (_ : ftotal _ = 0%coqZ) //; move: ht hft hpq hpp hsz; clear; lia.
have et : ftotal sf = c by rewrite t1 /ftotal /=.
have [||sf2 [e2 h2 u2 v2 t2]] := @exp_all_ok _ _ f2_fops V2 P f2_fac_spec (Q2 recurse) sf 2 h1 u1; [lia|lia|].
have [|f' [e3 h3 u3 v3 t3]] := merge_FI f2_fac_spec hf h2 u2; first by lia.
exists f', (2 * c)%coqZ; split=> //.
- rewrite pre (negbTE g1) (eq_0_P (isP_W hd)) bind_ok d0 eqxx er bind_ok e1 bind_ok (degree_thm (isP_W hl)) bind_ok.
  have -> : Nat.ltb 0 (size p).-1 = true by apply/Nat.ltb_lt; lia.
  by rewrite e2 bind_ok.
- by rewrite v3 v2 v1 /fprod big_nil mul1r -ep.
- split; first by rewrite t3 t2 et; lia.
  split; first by lia.
  split; first by lia.
  by move=> hi; case: (red_mul hq1 hq1); rewrite -expr2 ep.
Qed.

(* ---------------------------------------------------------------- the entry points *)
(* the product the result stands for: unit (if any) times the factors *)
Definition fac_val (fin : facinfo fpoly) : {poly 'F_2} :=
  (if funit fin is Some u then P u else 1) * \prod_(e <- facs fin) P e.1 ^+ Z.to_nat e.2.
(* what a user may expect of a factorization of p *)
Definition factorization (p : {poly 'F_2}) (fin : facinfo fpoly) : Prop :=
  [/\ forall e c, List.In (e, c) (facs fin) -> isP e (P e) /\ irreducible_poly (P e) /\ (1 <= c)%coqZ,
      List.NoDup (List.map (fun e => P e.1) (facs fin)),
      forall u, funit fin = Some u -> isP u 1
    & fac_val fin = p].

Lemma fuel_nat k : (k <= Nat.mul 64 (Nat.add (Nat.div k 64) 1))%coq_nat.
Proof. by have := Nat.div_mod k 64 (fun e => ltac:(discriminate)); have := Nat.mod_upper_bound k 64 (fun e => ltac:(discriminate)); lia. Qed.
Lemma fuel_ok l p : isP l p -> (size p <= f2_pre_fuel l)%N.
Proof.
move=> hl; rewrite /f2_pre_fuel (len_P hl); apply: leq_trans (leqSpred _) _; rewrite ltnS.
exact/leP/fuel_nat.
Qed.

Lemma sorted_NoDup (l : list fpoly) : List.Forall V2 l -> sorted_strict f2_fops l -> List.NoDup (List.map P l).
Proof.
elim: l => [|a l IH] hv hs; first by apply: List.NoDup_nil.
case: hs => h1 h2; have va := List.Forall_inv hv; have vl := List.Forall_inv_tail hv.
apply: List.NoDup_cons; last exact: IH.
move=> /List.in_map_iff [b [e hb]]; have := h1 _ hb.
have vb : V2 b by apply: (proj1 (List.Forall_forall _ _) vl).
have -> : b = a by apply: (fs_inj _ _ _ _ _ _ f2_fac_spec).
have [[wa _] _] := va; by rewrite f2_ltbE // N.ltb_irrefl.
Qed.
Lemma FI_factorization p fin : FI2 true fin -> funit fin = None -> fprod2 (facs fin) = p -> factorization p fin.
Proof.
move=> [h1 h2] hu hp; split.
- move=> e c hin; have [v q h] := proj1 (List.Forall_forall _ _) h1 _ hin.
  by split=> //; case: v.
- rewrite -(List.map_map fst P); apply: sorted_NoDup h2.
  apply/List.Forall_forall => x /List.in_map_iff [[y c] [<- hin]].
  by have [v _ _] := proj1 (List.Forall_forall _ _) h1 _ hin.
- by rewrite hu.
- by rewrite /fac_val hu mul1r -hp.
Qed.

Lemma size1_F2 (p : {poly 'F_2}) : p != 0 -> ~~ (1 < size p)%N -> p = 1.
Proof. by move=> p0; case: (eqVneq p 1) => // p1; rewrite sz1. Qed.

Lemma factor_thm m l p : isP l p -> p != 0 -> (Z.of_nat (size p).-1 <= INT_MAX)%coqZ ->
  exists fin, f2_factor (Some m) l = Ok fin /\ factorization p fin.
Proof.
move=> hl p0 hd; rewrite /f2_factor (degree_thm (isP_W hl)) bind_ok.
case: (boolP (1 < size p)%N) => hp.
  have -> : Nat.eqb (size p).-1 0 = false by have := pred_pos hp; case: (size p).-1 => [|k] h //; lia.
  have [|fin [c [-> h1 h2 h3 _]]] := pre_ok (recurse := true) m hl hp (fuel_ok hl) (FI_empty _ _ _ _).
    by rewrite (_ : ftotal _ = 0%coqZ).
  by exists fin; split=> //; apply: FI_factorization => //; rewrite h3 /fprod big_nil mul1r.
have p1 := size1_F2 p0 hp; rewrite p1 size_poly1 /=.
eexists; split; first reflexivity; split=> //=.
- by apply: List.NoDup_nil.
- by move=> u [<-]; rewrite -p1.
- by rewrite /fac_val /= big_nil mulr1 -p1; case: hl.
Qed.

Lemma irreducible_thm m l p : isP l p -> (Z.of_nat (size p).-1 <= INT_MAX)%coqZ ->
  exists b, f2_is_irreducible (Some m) l = Ok b /\ (b = true <-> irreducible_poly p).
Proof.
move=> hl hd; rewrite /f2_is_irreducible (degree_thm (isP_W hl)) bind_ok.
case: (boolP (1 < size p)%N) => hp; last first.
  have -> : (size p).-1 = 0%N by move: hp; case: (size p) => [|[|k]].
  by exists false; split=> //; split=> // -[h _]; rewrite h in hp.
have hpp := pred_pos hp.
have -> : Nat.eqb (size p).-1 0 = false by case: (size p).-1 hpp => [|k] h //; lia.
case: (Nat.eqb_spec (size p).-1 1) => h1.
  exists true; split=> //; split=> // _; apply: lin_irr.
  by move: hp h1; case: (size p) => [|[|k]] //= _ ->.
have [|fin [c [-> h2 h3 _ [h4 [h5 h6]]]]] := pre_ok (recurse := false) m hl hp (fuel_ok hl) (FI_empty _ _ _ _).
  by rewrite (_ : ftotal _ = 0%coqZ).
rewrite bind_ok; eexists; split; first reflexivity.
rewrite Z.eqb_eq -h6.
have -> : get_num_factors fin = ftotal fin by rewrite /ftotal -total_count.
by rewrite h4 (_ : ftotal fac_empty = 0%coqZ).
Qed.

(* with the mask undefined the kernel step is undefined behaviour whenever it is reached *)
Lemma berl_ub rec recurse lf f fin : isP lf f -> (1 < size f)%N -> sqfree (F := F2) f -> ~ irreducible_poly f ->
  ((size f).-1 %% 64)%N <> 0%N -> f2_berl None rec recurse lf fin = UB.
Proof.
move=> Hf Hf1 Hsq hred h64; set n := (size f).-1 in h64 *.
have f0 := sz_pos Hf1; have hsz : size f = n.+1 by apply: size_nz.
have hn : (0 < n)%N by rewrite -ltnS -hsz.
have n2 : (1 < n)%N.
  by rewrite ltn_neqAle hn andbT eq_sym; apply/eqP => e; apply: hred; apply: lin_irr; rewrite hsz e.
have hd := degree_thm (isP_W Hf).
have [xx [e1 h1]] := mul_L isP_X (isP_L isP_X).
have [x2 [e2 h2]] := mod_L h1 (isP_L Hf) f0; rewrite -expr2 in h2.
have [BI [rows [rows' [e3 e4 e5 h5]]]] := BI_ok rec Hf Hf1 h2.
have [t [b [e6 h6 h7 e7]]] := rect_rank hn hn h5.
rewrite /f2_berl hd bind_ok e1 bind_ok e2 bind_ok -/n e3 bind_ok.
have -> : Nat.ltb n 2 = false by apply/Nat.ltb_ge; apply/leP.
rewrite e4 bind_ok e5 bind_ok e6 bind_ok e7 bind_ok h7.
pose k := row_base (kermx b^T).
have hk : forall v : 'rV['F_2]_n, (v <= k)%MS = (BMx (F := F2) n f *m v^T == 0).
  move=> v; rewrite -(eqmx_ker v h7) /k eq_row_base -(trmx_eq0 (b *m v^T)) trmx_mul trmxK.
  by apply/sub_kermxP/eqP.
have dk : \rank (kermx b^T) = (n - \rank b)%N by rewrite mxrank_ker mxrank_tr.
have dpos := d_gt0 hsz (row_base_free _) hk hn.
case: (Nat.eqb_spec (Nat.sub n (\rank b)) 1) => [d1|d1].
  by case: hred; apply: (ker1_irreducible hsz (row_base_free _) hk hn _ Hsq); rewrite dk.
rewrite (bm_kernel_ub_thm hn hn _ h6) //.
by rewrite -subn_gt0 -dk.
Qed.
Lemma pre_ub recurse fuel l p fin : isP l p -> (1 < size p)%N -> sqfree (F := F2) p -> ~ irreducible_poly p ->
  ((size p).-1 %% 64)%N <> 0%N -> f2_pre fuel.+1 None recurse l fin = UB.
Proof.
move=> hl hp hs hi h64; have p0 := sz_pos hp.
have [d [ed hd]] := deriv_P (isP_W hl).
have [g [eg hg]] := gcd_L (isP_L hl) (isP_L hd).
have g1 : gcdp p p^`() = 1.
  have g0 : gcdp p p^`() != 0 by rewrite gcdp_eq0 (negbTE p0).
  by apply: size1_F2 => //; move: hs; rewrite /sqfree /separable_poly coprimep_def => /eqP ->.
cbn [f2_pre]; rewrite ed bind_ok eg bind_ok (eq_0_P (isL_W hg)) bind_ok (eq_1_P (isL_W hg)) bind_ok g1 oner_eq0 eqxx.
by apply: (berl_ub _ _ _ hl).
Qed.
Lemma factor_ub l p : isP l p -> separable_poly p -> (1 < size p)%N -> ~ irreducible_poly p -> ((size p).-1 %% 64)%N <> 0%N ->
  f2_factor None l = UB /\ f2_is_irreducible None l = UB.
Proof.
move=> hl hs hp hi h64; rewrite /f2_factor /f2_is_irreducible (degree_thm (isP_W hl)) !bind_ok.
have hpp := pred_pos hp.
have -> : Nat.eqb (size p).-1 0 = false by case: (size p).-1 hpp => [|k] h //; lia.
rewrite !(pre_ub _ _ _ hl) //; split=> //; case: (Nat.eqb_spec (size p).-1 1) => h1 //.
by case: hi; apply: lin_irr; move: hp h1; case: (size p) => [|[|k]] //= _ ->.
Qed.
