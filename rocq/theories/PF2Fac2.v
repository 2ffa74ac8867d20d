(* Factorization of GF(2) polynomials. *)
From Verif Require Import Base MIntMath MMat MBits MFac PBits PBits2 MF2Poly MF2Fac PPow PF2Poly PF2Fac1 PFacGen.
From mathcomp Require Import all_ssreflect fingroup perm all_algebra finfield separable ssrZ.
From Verif Require Import PLin PLin2 PLin3 PMat PMat2 PMat3 PropMat PBits3 PF2Poly2 PF2Poly3 PF2Poly4 PBerl PFacPoly.
From Verif Require PropF2Poly.
Set Implicit Arguments.
Unset Strict Implicit.
Unset Printing Implicit Defensive.
Import GRing.Theory.
Delimit Scope Z_scope with coqZ.
Local Open Scope ring_scope.

Notation F2 := [finFieldType of 'F_2].
Lemma cardF2 : #|F2| = 2%N.
Proof. by rewrite card_Fp. Qed.
Lemma K2E (f h : {poly 'F_2}) : K (F := F2) f h <-> (size h < size f)%N /\ f %| h ^+ 2 - h.
Proof. by rewrite /K cardF2. Qed.

Lemma sz1 (p : {poly 'F_2}) : p != 0 -> p != 1 -> (1 < size p)%N.
Proof.
move=> p0 p1; rewrite ltn_neqAle size_poly_gt0 p0 andbT eq_sym; apply: contra p1 => /eqP e.
have := size1_polyC (eq_leq e) => ep; rewrite ep; move: (lead_F2 p0).
by rewrite lead_coefE e => ->.
Qed.
Lemma coprime_h1 (h : {poly 'F_2}) : coprimep h (h + 1).
Proof.
apply/Bezout_eq1_coprimepP; exists (1, 1) => /=.
by rewrite !mul1r addrA addF2 add0r.
Qed.
Lemma sqr1_F2 (h : {poly 'F_2}) : (h + 1) * (h + 1) = h * h + 1.
Proof. by rewrite -!expr2 sqrrD mulr1 expr1n mulr2n addF2 addr0. Qed.
Lemma split2 (f h : {poly 'F_2}) : f != 0 -> f %| h ^+ 2 - h -> f = gcdp f h * gcdp f (h + 1).
Proof.
move=> f0 hd; apply: eqp_F2; apply/andP; split; last first.
  rewrite Gauss_dvdp ?dvdp_gcdl //.
  by apply: coprimep_dvdl (dvdp_gcdr _ _) _; apply: coprimep_dvdr (dvdp_gcdr _ _) (coprime_h1 h).
set f1 := gcdp f h.
have f10 : f1 != 0 by rewrite gcdp_eq0 (negbTE f0).
have ef : f = f1 * (f %/ f1) by rewrite mulrC divpK // dvdp_gcdl.
have eh : h = f1 * (h %/ f1) by rewrite mulrC divpK // dvdp_gcdr.
have hg : f %/ f1 %| h + 1.
  have hc : coprimep (f %/ f1) (h %/ f1) by apply: coprimep_div_gcd; rewrite f0.
  rewrite -(Gauss_dvdpr _ hc) -(dvdp_mul2l _ _ f10) -ef mulrA -eh.
  by move: hd; rewrite expr2 subF2 mulrDr mulr1.
rewrite [X in X %| _]ef dvdp_mul // dvdp_gcd hg andbT.
by rewrite [X in _ %| X]ef dvdp_mull.
Qed.

(* ---------------------------------------------------------------- records of polynomials *)
Definition V2 (l : fpoly) : Prop := canon l /\ P l != 0.
Lemma f2_ltbE a b : wok a -> wok b -> f_ltb f2_fops a b = N.ltb (valN a) (valN b).
Proof.
move=> ha hb; rewrite /= /f2_ltb (cmp_valN _ _ ha hb) bind_ok /= /N.ltb.
by case: N.compare.
Qed.
Lemma f2_fac_spec : fac_spec f2_fops V2 P *%R 1 (fun _ => True).
Proof.
split.
- split; [exact: mulrA|exact: mulrC|exact: mul1r].
- by [].
- move=> x y [cx x0] [cy y0] _; have [c [e [h1 h2]]] := mul_P (conj cx erefl) (conj cy erefl) x0 y0.
  by exists c; split=> //; split=> //; split=> //; rewrite h2 mulf_neq0.
- by move=> x y [cx _] [cy _]; apply: P_inj.
- move=> x y [cx _] [cy _] /=; rewrite (eqb_P (isP_W (conj cx erefl)) (isP_W (conj cy erefl))) /=.
  by split=> [/eqP /(P_inj cx cy)|->] //; rewrite eqxx.
- by move=> x [[hx _] _]; rewrite f2_ltbE // N.ltb_irrefl.
- move=> x y z [[hx _] _] [[hy _] _] [[hz _] _]; rewrite !f2_ltbE // !N.ltb_lt; lia.
- move=> x y [cx _] [cy _]; have [hx hy] := (proj1 cx, proj1 cy); rewrite !f2_ltbE // !N.ltb_lt.
  have [h|[h|h]] : (valN x < valN y \/ valN x = valN y \/ valN y < valN x)%num by lia.
  - by left.
  - by right; left; apply: valN_inj.
  - by right; right.
Qed.

Definition Q2 (recurse : bool) (p : {poly 'F_2}) : Prop :=
  if recurse then irreducible_poly p else (1 < size p)%N.
Notation FI2 r := (FI f2_fops V2 P (Q2 r)).
Notation fprod2 := (fprod P).

Definition spec0 (r : bool) (p : {poly 'F_2}) (run : facinfo fpoly -> res (facinfo fpoly)) : Prop :=
  forall fin, FI2 r fin -> (ftotal fin + Z.of_nat (size p).-1 <= INT_MAX)%coqZ ->
  exists fin' c, [/\ run fin = Ok fin', FI2 r fin', funit fin' = funit fin,
    fprod2 (facs fin') = fprod2 (facs fin) * p &
    ftotal fin' = (ftotal fin + c)%coqZ /\ (1 <= c <= Z.of_nat (size p).-1)%coqZ].
Definition spec (r : bool) (p : {poly 'F_2}) (run : facinfo fpoly -> res (facinfo fpoly)) : Prop :=
  forall fin, FI2 r fin -> (ftotal fin + Z.of_nat (size p).-1 <= INT_MAX)%coqZ ->
  exists fin' c, [/\ run fin = Ok fin', FI2 r fin', funit fin' = funit fin,
    fprod2 (facs fin') = fprod2 (facs fin) * p &
    ftotal fin' = (ftotal fin + c)%coqZ /\ (1 <= c <= Z.of_nat (size p).-1)%coqZ /\ (c = 1%coqZ <-> irreducible_poly p)].
Lemma spec_0 r p run : spec r p run -> spec0 r p run.
Proof.
by move=> h fin h1 h2; have [f' [c [e1 e2 e3 e4 [e5 [e6 _]]]]] := h _ h1 h2; exists f', c; split.
Qed.
Lemma spec_ext r p run run' : (forall fin, run fin = run' fin) -> spec r p run -> spec r p run'.
Proof. by move=> e h fin h1 h2; have [f' [c hh]] := h _ h1 h2; exists f', c; rewrite -e. Qed.
Lemma spec_fin r p run' : (forall fin, exists2 run, spec r p run & run fin = run' fin) -> spec r p run'.
Proof. by move=> h fin h1 h2; have [run hs e] := h fin; have [f' [c hh]] := hs _ h1 h2; exists f', c; rewrite -e. Qed.

Lemma red_mul (R : fieldType) (a b : {poly R}) : (1 < size a)%N -> (1 < size b)%N -> ~ irreducible_poly (a * b).
Proof.
move=> ha hb [_ h]; have a0 : a != 0 by rewrite -size_poly_gt0; apply: ltnW.
have b0 : b != 0 by rewrite -size_poly_gt0; apply: ltnW.
have := h a; rewrite dvdp_mulr // => /(_ _ isT) hh.
have /eqp_size : a %= a * b by apply: hh; rewrite neq_ltn ha orbT.
rewrite size_mul // => e; move: hb ha e; case: (size b) => [//|[//|k]] _ _ e.
have : (size a < (size a + k.+2).-1)%N by rewrite addnS /= addnS ltnS leq_addr.
by rewrite -e ltnn.
Qed.
Lemma size_mul1 (R : fieldType) (a b : {poly R}) : a != 0 -> b != 0 -> (size (a * b)).-1 = ((size a).-1 + (size b).-1)%N.
Proof.
move=> a0 b0; rewrite size_mul //; move: a0 b0; rewrite -!size_poly_gt0.
by case: (size a) => // m; case: (size b) => // n; rewrite addnS addSn.
Qed.
Lemma size_mulF2 (a b : {poly 'F_2}) : a != 0 -> b != 0 ->
  Z.of_nat (size (a * b)).-1 = (Z.of_nat (size a).-1 + Z.of_nat (size b).-1)%coqZ.
Proof. by move=> a0 b0; rewrite size_mul1 // -plusE Nat2Z.inj_add. Qed.
Lemma sz_pos (R : ringType) (a : {poly R}) : (1 < size a)%N -> a != 0.
Proof. by move=> h; rewrite -size_poly_gt0; apply: ltnW. Qed.
Lemma pred_pos n : (1 < n)%N -> (1 <= Z.of_nat n.-1)%coqZ.
Proof. by case: n => [//|[//|n]] _ /=; lia. Qed.

Lemma size_lt_mul (a b : {poly 'F_2}) : (1 < size a)%N -> (1 < size b)%N ->
  (size a < size (a * b)%R)%N /\ (size b < size (a * b)%R)%N.
Proof.
move=> ha hb; rewrite size_mul ?sz_pos //; move: ha hb; case: (size a) => [|[|x]] //; case: (size b) => [|[|y]] // _ _.
by rewrite !addSn !addnS /= !ltnS leq_addr leq_addl.
Qed.
Lemma spec_comp r (a b : {poly 'F_2}) run1 run2 : (1 < size a)%N -> (1 < size b)%N -> spec0 r a run1 -> spec0 r b run2 ->
  spec r (a * b) (fun fin => x <- run1 fin ;; run2 x).
Proof.
move=> ha hb h1 h2 fin hf; rewrite size_mulF2 ?sz_pos // => ht.
have pa := pred_pos ha; have pb := pred_pos hb.
have [|f1 [c1 [-> i1 u1 p1 [t1 b1]]]] := h1 fin hf; first by lia.
have [|f2 [c2 [e2 i2 u2 p2 [t2 b2]]]] := h2 f1 i1; first by lia.
exists f2, (c1 + c2)%coqZ; rewrite bind_ok; split=> //; first by rewrite u2.
  by rewrite p2 p1 mulrA.
split; first by lia.
split; first by lia.
by split=> [hc|/red_mul]; [lia|move=> /(_ ha hb)].
Qed.
Lemma V2_of l p : isP l p -> p != 0 -> V2 l.
Proof. by move=> [h1 h2] h; split=> //; rewrite h2. Qed.
Lemma spec_ins0 r l p : isP l p -> (1 < size p)%N -> Q2 r p -> spec0 r p (fun fin => insert_factor f2_fops fin l 1).
Proof.
move=> hl hp hq fin hf ht; have hpp := pred_pos hp; have [h1 h2] := hl.
have [|||f' [e1 e2 e3 e4 e5]] := ins_ok f2_fac_spec (c := 1%coqZ) hf (V2_of hl (sz_pos hp)); rewrite ?h2 //.
  lia.
by exists f', 1%coqZ; split=> //; rewrite e4 h2 expr1.
Qed.
Lemma spec_ins r l p : isP l p -> (1 < size p)%N -> irreducible_poly p -> spec r p (fun fin => insert_factor f2_fops fin l 1).
Proof.
move=> hl hp hi fin hf ht; have hq : Q2 r p by rewrite /Q2; case: r hf.
have hpp := pred_pos hp; have [h1 h2] := hl.
have [|||f' [e1 e2 e3 e4 e5]] := ins_ok f2_fac_spec (c := 1%coqZ) hf (V2_of hl (sz_pos hp)); rewrite ?h2 //.
  lia.
by exists f', 1%coqZ; split=> //; rewrite e4 h2 expr1.
Qed.

Lemma rect_rank m n t (a : 'M['F_2]_(m, n)) : (0 < m)%N -> (0 < n)%N -> bmat_is t a ->
  exists t' (b : 'M['F_2]_(m, n)), [/\ bm_rech t = Ok t', bmat_is t' b, (a :=: b)%MS & bm_rank_rr t' = Ok (\rank a)].
Proof.
move=> Hm Hn ha; have [t' [b [e1 h1 _ h2]]] := bm_rech_thm Hm Hn ha.
exists t', b; split=> //.
case: ha => L [hb he]; have hm := brep_mat_is hb he.
have /ltP Hm' := Hm; have /ltP Hn' := Hn.
have [t2 [L' [e1' [h1' e2]]]] := bm_rech_ok _ _ _ _ hb Hm' Hn'.
move: e1'; rewrite e1 => -[E]; rewrite -E in h1'.
rewrite (bm_rank_rr_ok _ _ _ _ h1').
case/mat_is_rep: hm => M hM hMa.
have [t3 [e3 h3]] := rech_ok bit_cspec Hm Hn hM.
move: e3; rewrite e2 => -[E3]; rewrite -E3 in h3.
have [pv [hs hr hred]] := prech_ok (let: And3 _ s _ := hM in s).
have [_ ->] := zrl_ech h3 (rref_ech hr).
by rewrite -(ech_rank (rref_ech hr)) -hMa; congr Ok; rewrite (reduces_eqmx hred).
Qed.

(* ---------------------------------------------------------------- one row of the null space *)
Lemma fv_ok d n t (k : 'M['F_2]_(d, n)) (i : 'I_d) : bmat_is t k ->
  exists r h, [/\ brow (bm_rows t) i = Ok r, f2_from_vector r n = Ok h & isP h (toP (F := F2) (row i k))].
Proof.
case=> L [[hB [hR [hL hn]]] he].
have hi : (i < length L)%coq_nat by rewrite hL; apply/ltP.
have [r [er hr]] := brow_ok _ _ hB i hi.
have hlen : length (List.nth i L nil) = n by apply: hR.
have [h [eh [hc hb]]] := from_vector_ok r _ n hr hlen.
exists r, h; split=> //; split=> //; apply/polyP=> j; rewrite coefPl hb.
case: (ltnP j n) => hj; last first.
  have -> : Nat.ltb j n = false by apply/Nat.ltb_ge; apply/leP.
  by rewrite nth_default // (leq_trans (size_toP _)).
have -> : Nat.ltb j n = true by apply/Nat.ltb_lt; apply/ltP.
rewrite (coef_toP _ (Ordinal hj)) mxE -he; congr (Ib (List.nth _ _ _)) => /=.
rewrite -minusE; lia.
Qed.

Section Rows.
Variables (rec : fpoly -> facinfo fpoly -> res (facinfo fpoly)) (recurse : bool) (lf : fpoly) (f : {poly 'F_2}).
Variables (n d : nat) (basis : list bvec) (hs : nat -> {poly 'F_2}) (fin : facinfo fpoly).
Hypotheses (Hf : isP lf f) (f1 : (1 < size f)%N).
Hypothesis Hrow : forall i, (i < d)%N ->
  exists r h, [/\ brow basis i = Ok r, f2_from_vector r n = Ok h, isP h (hs i) & K (F := F2) f (hs i)].
Lemma rows_ok cnt : forall row, (row + cnt)%N = d -> (exists i, (row <= i < d)%N /\ (1 < size (hs i))%N) ->
  exists i l1 l2, [/\ (i < d)%N, (1 < size (hs i))%N, isP l1 (gcdp f (hs i)), isP l2 (gcdp f (hs i + 1)) &
    (1 < size (gcdp f (hs i)))%N /\ (1 < size (gcdp f (hs i + 1)))%N /\
    f2_berl_rows cnt rec recurse lf n d basis row fin =
      if (Nat.eqb d 2) || ~~ recurse then
        fin1 <- insert_factor f2_fops fin l1 1 ;; insert_factor f2_fops fin1 l2 1
      else fin1 <- rec l1 fin ;; rec l2 fin1].
Proof.
have f0 := sz_pos f1.
elim: cnt => [|cnt IH] row hrow [i [hi hsi]].
  by move: hi; rewrite -hrow addn0; case: ltngtP => //; rewrite andbC.
have hrd : (row < d)%N by rewrite -hrow addnS ltnS leq_addr.
have [r [h [er eh hh hK]]] := Hrow hrd; cbn [f2_berl_rows]; rewrite er bind_ok eh bind_ok.
have /K2E [hsz hdv] := hK.
have [hc [-> hhc]] := add_W (isP_W hh) (isP_W isP1); rewrite bind_ok.
have [hh2 [-> hhh]] := mul_L hh (isP_L hh); rewrite bind_ok.
have [c1 [-> hc1]] := mod_L hhh (isP_L Hf) f0; rewrite bind_ok.
have [hc2 [-> hhc2]] := mul_L hhc (isP_L hhc); rewrite bind_ok.
have [c2 [-> hhc3]] := mod_L hhc2 (isP_L Hf) f0; rewrite bind_ok.
have em : (hs row * hs row %% f = hs row)%R.
  rewrite -[RHS](modp_small hsz) -expr2; apply/eqP; rewrite -subr_eq0 -modpN -modpD.
  exact: hdv.
have em2 : ((hs row + 1) * (hs row + 1) %% f = hs row + 1)%R.
  rewrite sqr1_F2.
  by rewrite modpD em (modp_small (p := 1)) // size_poly1.
rewrite (neqb_P (isP_W hh) (isP_W hc1)) em eqxx bind_ok.
rewrite (neqb_P (isP_W hhc) (isP_W hhc3)) em2 eqxx bind_ok /=.
have [l1 [-> hl1]] := gcd_L (isP_L Hf) (isP_L hh); rewrite bind_ok.
have [l2 [-> hl2]] := gcd_L (isP_L Hf) (isP_L hhc); rewrite bind_ok.
rewrite (eq_1_P (isL_W hl1)) bind_ok (eq_1_P (isL_W hl2)) bind_ok.
have g10 : gcdp f (hs row) != 0 by rewrite gcdp_eq0 (negbTE f0).
have g20 : gcdp f (hs row + 1) != 0 by rewrite gcdp_eq0 (negbTE f0).
case: ifP => [hone|/negbT]; last first.
  rewrite negb_or => /andP [n1 n2].
  exists row, l1, l2; split=> //; try exact: isL_nz.
    rewrite ltnNge; apply/negP => /size1_polyC ec.
    have [b eb] := Ib_surj (hs row)`_0; rewrite -eb in ec.
    case: b {eb} ec => ec; [move: n1|move: n2]; rewrite ec ?add0r (eqp_F2 (gcdp1 f)) ?eqxx //.
  split; first exact: sz1.
  split; first exact: sz1.
  by [].
have hne : (size (hs row) <= 1)%N.
  rewrite leqNgt; apply/negP => hgt; have [c /andP [hg1 hg2]] := K_split (F := F2) f1 hK hgt.
  have ef := split2 f0 hdv.
  have [b eb] := Ib_surj c; rewrite -eb in hg1 hg2.
  case: b eb hg1 hg2 => eb; rewrite ?subr0 ?subF2 => hg1 hg2.
    case/orP: hone => /eqP e1; last by rewrite e1 size_poly1 in hg1.
    by move: hg2; rewrite {2}ef e1 mul1r ltnn.
  case/orP: hone => /eqP e1; first by rewrite e1 size_poly1 in hg1.
  by move: hg2; rewrite {2}ef e1 mulr1 ltnn.
apply: IH; first by rewrite addSnnS.
exists i; split=> //; case/andP: hi => h1 h2; rewrite h2 andbT ltn_neqAle h1 andbT.
by apply/eqP => e; move: hsi; rewrite -e ltnNge hne.
Qed.
End Rows.

(* ---------------------------------------------------------------- Berlekamp's algorithm *)
Lemma isP_X : isP (f2_of_int2 1 0) 'X.
Proof.
have e : Ib true *: 'X + (Ib false)%:P = 'X :> {poly 'F_2} by rewrite scale1r polyC0 addr0.
by have [h _] := PropF2Poly.ints_thm 0 1 0; rewrite -e.
Qed.

Lemma lin_irr (R : fieldType) (p : {poly R}) : size p = 2%N -> irreducible_poly p.
Proof.
move=> hp; split; first by rewrite hp.
move=> g hg hd; have p0 : p != 0 by rewrite -size_poly_gt0 hp.
rewrite -dvdp_size_eqp // hp eqn_leq; have := dvdp_leq p0 hd; rewrite hp => -> /=.
rewrite ltn_neqAle eq_sym hg size_poly_gt0; apply: contraNneq p0 => e.
by move: hd; rewrite e dvd0p.
Qed.

Section Berl.
Variables (m : N) (rec : fpoly -> facinfo fpoly -> res (facinfo fpoly)) (recurse : bool) (lf : fpoly) (f : {poly 'F_2}).
Hypotheses (Hf : isP lf f) (Hf1 : (1 < size f)%N).
Let f0 : f != 0 := sz_pos Hf1.
Let n := (size f).-1.
Let hsz : size f = n.+1. Proof. exact: size_nz. Qed.
Let hn : (0 < n)%N. Proof. by rewrite -ltnS -hsz. Qed.

Fixpoint xs (x2 : fpoly) (j : nat) : fpoly :=
  match j with
  | O => f2_of_int 1
  | S k => match (p <- f2_mul (xs x2 k) x2 ;; f2_mod p lf) with Ok r => r | _ => nil end
  end.
Lemma xs_ok x2 : isP x2 ('X^2 %% f) -> forall j, isP (xs x2 j) ('X^(2 * j) %% f) /\
  exists p, f2_mul (xs x2 j) x2 = Ok p /\ f2_mod p lf = Ok (xs x2 j.+1).
Proof.
move=> h2; have hstep j : isP (xs x2 j) ('X^(2 * j) %% f) ->
   exists p, [/\ f2_mul (xs x2 j) x2 = Ok p, f2_mod p lf = Ok (xs x2 j.+1) & isP (xs x2 j.+1) ('X^(2 * j.+1) %% f)].
  move=> hj; have [p [e1 hp]] := mul_L hj (isP_L h2).
  have [r [e2 hr]] := mod_L hp (isP_L Hf) f0.
  exists p; rewrite /= e1 bind_ok e2; split=> //.
  by rewrite mulnS addnC exprD -modp_mul -modp_mull2.
elim=> [|j [hj [p hp]]].
  have h1 : isP (xs x2 0) ('X^(2 * 0) %% f).
    by rewrite muln0 expr0 modp_small ?size_poly1 //; apply: isP1.
  by split=> //; have [p [e1 e2 _]] := hstep _ h1; exists p.
have [p' [_ _ h3]] := hstep _ hj.
by split=> //; have [p2 [e1 e2 _]] := hstep _ h3; exists p2.
Qed.

Lemma BI_ok x2 : isP x2 ('X^2 %% f) -> exists BI rows rows', [/\ bm_new n n = Ok BI,
   f2_fill_B n lf x2 (bm_rows BI) = Ok rows, f2_sub_I n rows = Ok rows' & bmat_is (mkbm rows' (bm_nc BI)) (BMx (F := F2) n f)].
Proof.
move=> h2; have /ltP hn' := hn.
have [BI [eB [hB [hR [hL hc]]]]] := bm_new_ok n n hn' hn'.
have [||rows [L1 [e1 [hb1 he1]]]] := @fill_B_ok n lf x2 (bm_rows BI) _ (xs x2) (conj hB (conj hR hL)); first by [].
  by move=> j hj; have [_] := xs_ok h2 j.
have [rows' [L2 [e2 [[hB2 [hR2 hL2]] he2]]]] := sub_I_ok n rows L1 hb1.
exists BI, rows, rows'; split=> //; exists L2; split=> // i j.
have hi : (i < n)%coq_nat by apply/ltP. have hj : (j < n)%coq_nat by apply/ltP.
rewrite he2 // he1 // !mxE; have [[_ E] _] := xs_ok h2 (Nat.sub (Nat.sub n 1) j).
have hrev (u : 'I_n) : Nat.sub (Nat.sub n 1) u = rev_ord u by rewrite /= -!minusE; lia.
rewrite !hrev in E *; rewrite cardF2 -E coefPl.
have -> : (i == j)%:R = Ib (Nat.eqb i j) :> 'F_2.
  case: eqP => [->|ne]; first by rewrite Nat.eqb_refl.
  by rewrite (_ : Nat.eqb i j = false) //; apply/Nat.eqb_neq => e; apply: ne; apply: val_inj.
by case: bitl; case: Nat.eqb; apply/eqP.
Qed.


(* what the prefix of berlekamp computes *)
Lemma berl_pre : (1 < n)%N -> exists t (b : 'M['F_2]_n), [/\ bmat_is t b, (BMx (F := F2) n f :=: b)%MS &
  forall fin, f2_berl (Some m) rec recurse lf fin =
    let dimker := (n - \rank b)%N in
    if Nat.eqb dimker 1 then insert_factor f2_fops fin lf 1
    else
      got <- bm_kernel (Some m) t bm_null ;;
      match got with
      | None => Exn
      | Some basis =>
          if negb (Nat.eqb (bm_nr basis) dimker) then Exn
          else f2_berl_rows dimker rec recurse lf n dimker (bm_rows basis) 0 fin
      end].
Proof.
move=> n2; have hd := degree_thm (isP_W Hf).
have [xx [e1 h1]] := mul_L isP_X (isP_L isP_X).
have [x2 [e2 h2]] := mod_L h1 (isP_L Hf) f0; rewrite -expr2 in h2.
have [BI [rows [rows' [e3 e4 e5 h5]]]] := BI_ok h2.
have [t [b [e6 h6 h7 e7]]] := rect_rank hn hn h5.
exists t, b; split=> // fin; rewrite /f2_berl hd bind_ok e1 bind_ok e2 bind_ok -/n e3 bind_ok.
have -> : Nat.ltb n 2 = false by apply/Nat.ltb_ge; apply/leP.
by rewrite e4 bind_ok e5 bind_ok e6 bind_ok e7 bind_ok h7.
Qed.

Lemma eqmx_ker k (a b : 'M['F_2]_k) (v : 'rV['F_2]_k) : (a :=: b)%MS -> (b *m v^T == 0) = (a *m v^T == 0).
Proof.
move=> h; have /submxP [D ea] : (a <= b)%MS by rewrite h.
have /submxP [E eb] : (b <= a)%MS by rewrite h.
apply/eqP/eqP => e; first by rewrite ea -mulmxA e mulmx0.
by rewrite eb -mulmxA e mulmx0.
Qed.

Hypothesis Hsq : sqfree (F := F2) f.
Hypothesis Hrec : forall l p, isP l p -> (1 < size p)%N -> (size p < size f)%N -> spec recurse p (rec l).
Lemma berl_ok : spec recurse f (f2_berl (Some m) rec recurse lf).
Proof.
case: (ltnP 1 n) => n2; last first.
  have n1 : n = 1%N by apply/eqP; rewrite eqn_leq n2 hn.
  have hirr : irreducible_poly f by apply: lin_irr; rewrite hsz n1.
  apply: spec_ext (spec_ins (r := recurse) Hf Hf1 hirr) => fin.
  have hd := degree_thm (isP_W Hf).
  have [xx [e1 h1]] := mul_L isP_X (isP_L isP_X).
  have [x2 [e2 h2]] := mod_L h1 (isP_L Hf) f0; rewrite -expr2 in h2.
  have [BI [rows [rows' [e3 _ _ _]]]] := BI_ok h2.
  by rewrite /f2_berl hd bind_ok e1 bind_ok e2 bind_ok -/n e3 bind_ok n1.
have [t [b [ht hb he]]] := berl_pre n2.
have hker (v : 'rV['F_2]_n) : (b *m v^T == 0) = (BMx (F := F2) n f *m v^T == 0) := eqmx_ker v hb.
case: (Nat.eqb_spec (n - \rank b)%N 1) => [d1|d1].
  suff hirr : irreducible_poly f.
    by apply: spec_ext (spec_ins (r := recurse) Hf Hf1 hirr) => fin; rewrite he /= d1.
  pose k := row_base (kermx b^T).
  have hk : forall v : 'rV['F_2]_n, (v <= k)%MS = (BMx (F := F2) n f *m v^T == 0).
    move=> v; rewrite -hker /k eq_row_base -(trmx_eq0 (b *m v^T)) trmx_mul trmxK.
    by apply/sub_kermxP/eqP.
  apply: (ker1_irreducible hsz (row_base_free _) hk hn _ Hsq).
  by rewrite mxrank_ker mxrank_tr.
have [r [er hr]] := bm_kernel_thm hn hn ht (or_introl erefl : bm_any bm_null) (I : fill_allowed (Some m) n).
case: r er hr => [basis|] er hr; last first.
  have h1 := K_const (F := F2) (f := f) 1 Hf1.
  have e1 : toP (F := F2) (ofP n (1 : {poly F2})) = 1 by rewrite toP_ofP // size_poly1.
  have hz : BMx (F := F2) n f *m (ofP n (1 : {poly F2}))^T == 0 by apply/(BMx_K hsz); rewrite e1.
  move: hz; rewrite -hker => /eqP /hr /(congr1 trmx); rewrite trmxK trmx0 => e2.
  by move: e1; rewrite e2 toP0 => /eqP; rewrite eq_sym oner_eq0.
case: hr => k [dpos hk hfree hkk].
have hkk' (v : 'rV['F_2]_n) : (v <= k)%MS = (BMx (F := F2) n f *m v^T == 0) by rewrite hkk hker.
have d2 : (1 < n - \rank b)%N.
  by have := d_gt0 hsz hfree hkk' hn; rewrite leq_eqVlt => /orP [/eqP e|] //; case: d1.
have [i hi] := ker2_nonconst hfree hn d2.
pose hs (j : nat) := if insub j is Some j' then toP (F := F2) (row (j' : 'I_(n - \rank b)%N) k) else 0.
have hsE (j : 'I_(n - \rank b)%N) : hs j = toP (F := F2) (row j k) by rewrite /hs valK.
have hrow j : (j < n - \rank b)%N -> exists r h, [/\ brow (bm_rows basis) j = Ok r, f2_from_vector r n = Ok h, isP h (hs j) & K (F := F2) f (hs j)].
  move=> hj; have [r [h [q1 q2 q3]]] := fv_ok (Ordinal hj) hk.
  exists r, h; rewrite (hsE (Ordinal hj)); split=> //.
  exact: (row_K hsz hkk').
apply: spec_fin => fin.
have [i' [l1 [l2 [hi' hsi hl1 hl2 [g1 [g2 eqr]]]]]] : exists i l1 l2, [/\ (i < n - \rank b)%N, (1 < size (hs i))%N, isP l1 (gcdp f (hs i)), isP l2 (gcdp f (hs i + 1)) &
    (1 < size (gcdp f (hs i)))%N /\ (1 < size (gcdp f (hs i + 1)))%N /\
    f2_berl (Some m) rec recurse lf fin =
      if (Nat.eqb (n - \rank b)%N 2) || ~~ recurse then
        fin1 <- insert_factor f2_fops fin l1 1 ;; insert_factor f2_fops fin1 l2 1
      else fin1 <- rec l1 fin ;; rec l2 fin1].
  have hex : exists j, (0 <= j < n - \rank b)%N /\ (1 < size (hs j))%N by exists i; rewrite ltn_ord hsE.
  have hnr : bm_nr basis = (n - \rank b)%N by case: hk => L [[hB [hR [hL hn0]]] _]; rewrite /bm_nr (Forall2_len _ _ _ hB).
  have [i' [l1 [l2 [a1 a2 a3 a4 [a5 [a6 a7]]]]]] := rows_ok rec recurse fin Hf Hf1 hrow (add0n _) hex.
  exists i', l1, l2; split=> //; split=> //; split=> //.
  by rewrite he /= er bind_ok hnr Nat.eqb_refl (introF (Nat.eqb_spec _ _) d1) /= a7.
have [hK1 hK2] : K (F := F2) f (hs i') by have [r [h [_ _ _ hK]]] := hrow _ hi'.
have ef : f = gcdp f (hs i') * gcdp f (hs i' + 1) by apply: split2 => //; have [] := (K2E f (hs i')).1 (conj hK1 hK2).
set a := gcdp f (hs i') in hl1 g1 ef *; set c := gcdp f (hs i' + 1) in hl2 g2 ef *.
have hsm : (size a < size f)%N /\ (size c < size f)%N.
  by rewrite ef; apply: size_lt_mul.
case hor: (Nat.eqb (n - \rank b)%N 2 || ~~ recurse); last first.
  rewrite {1}ef; eexists; first exact: (spec_comp g1 g2 (spec_0 (Hrec hl1 g1 hsm.1)) (spec_0 (Hrec hl2 g2 hsm.2))).
  by rewrite eqr hor.
have [q1 q2] : Q2 recurse a /\ Q2 recurse c.
  case hd2: (Nat.eqb (n - \rank b)%N 2) hor => /= hor; last by move: hor; rewrite /Q2; case: recurse.
  have /Nat.eqb_spec e2 := hd2.
  have hspan := ker2_span hsz hfree hkk' hn (i := Ordinal hi') e2; rewrite -hsE /= in hspan.
  have he1 : a %= gcdp f (hs i' - 0%:P) by rewrite polyC0 subr0 eqpxx.
  have [w1 w2] := K2_irreducible Hf1 Hsq (hspan hsi) he1 ef g1 g2.
  by rewrite /Q2; case: recurse.
rewrite {1}ef; eexists; first exact: (spec_comp g1 g2 (spec_ins0 hl1 g1 q1) (spec_ins0 hl2 g2 q2)).
by rewrite eqr hor.
Qed.
End Berl.
