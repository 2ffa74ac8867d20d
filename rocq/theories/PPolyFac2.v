(* Factorization over a finite field (MPolyFac.v): correctness of the whole algorithm. *)
From Verif Require Import Base MIntMath MMat MFac MPoly MF2Fac MPolyFac PFacGen.
From mathcomp Require Import all_ssreflect fingroup perm all_algebra finfield separable ssrZ.
From Verif Require Import PLin PLin2 PLin3 PMat PMat2 PMat3 PropMat PPoly PPoly2 PPoly3 PPoly4 PBerl PFacPoly PPolyFac.
From Verif Require PF2Fac2.
Set Implicit Arguments.
Unset Strict Implicit.
Unset Printing Implicit Defensive.
Import GRing.Theory.
Delimit Scope Z_scope with coqZ.
Local Open Scope ring_scope.

Section Pre.
Variables (A : Type) (o : kops A) (F : finFieldType) (V : A -> Prop) (I : A -> F) (kv : A -> nat).
Hypothesis spec : kspec o V I kv.
Hypothesis dflt : forall z, R V I z 0 -> exists z1, k_int o (k_dflt o) 0 = Ok z1 /\ c_eqb (k_c o) z z1 = Ok false.
Local Notation q := #|F|.
Hypothesis kvq : forall x, V x -> (kv x < q)%N.
Hypothesis kv0 : forall x, V x -> (kv x == 0)%N = (I x == 0).
Variables (fp : facpar A) (cst : Z -> F) (pc : nat).
Hypothesis fs : fspec V I fp cst pc.
Let sc := ks_c spec.
Local Notation R := (R V I).
Local Notation Rr := (Rr V I).
Local Notation isG := (isG V I).
Local Notation gpoly := (@MPoly.gpoly A).
Local Notation VG := (VG V I).
Local Notation Gp := (Gp I).
Local Notation FS := (gp_fac_spec spec kvq kv0).

Definition Qf (recurse : bool) (p : {poly F}) : Prop :=
  p \is monic /\ if recurse then irreducible_poly p else (1 < size p)%N.
Local Notation FIG r := (FI (gp_fops o) VG Gp (Qf r)).
Local Notation fprodG := (fprod Gp).

Definition gspec0 (r : bool) (p : {poly F}) (run : facinfo gpoly -> res (facinfo gpoly)) : Prop :=
  forall fin, FIG r fin -> (ftotal fin + Z.of_nat (size p).-1 <= INT_MAX)%coqZ ->
  exists fin' c, [/\ run fin = Ok fin', FIG r fin', funit fin' = funit fin,
    fprodG (facs fin') = fprodG (facs fin) * p &
    ftotal fin' = (ftotal fin + c)%coqZ /\ (1 <= c <= Z.of_nat (size p).-1)%coqZ].
Definition gspec (r : bool) (p : {poly F}) (run : facinfo gpoly -> res (facinfo gpoly)) : Prop :=
  forall fin, FIG r fin -> (ftotal fin + Z.of_nat (size p).-1 <= INT_MAX)%coqZ ->
  exists fin' c, [/\ run fin = Ok fin', FIG r fin', funit fin' = funit fin,
    fprodG (facs fin') = fprodG (facs fin) * p &
    ftotal fin' = (ftotal fin + c)%coqZ /\ (1 <= c <= Z.of_nat (size p).-1)%coqZ /\ (c = 1%coqZ <-> irreducible_poly p)].
Lemma spec_0 r p run : gspec r p run -> gspec0 r p run.
Proof.
by move=> h fin h1 h2; have [f' [c [e1 e2 e3 e4 [e5 [e6 _]]]]] := h _ h1 h2; exists f', c; split.
Qed.
Lemma spec_ext r p run run' : (forall fin, run fin = run' fin) -> gspec r p run -> gspec r p run'.
Proof. by move=> e h fin h1 h2; have [f' [c hh]] := h _ h1 h2; exists f', c; rewrite -e. Qed.
Lemma spec_fin r p run' : (forall fin, exists2 run, gspec r p run & run fin = run' fin) -> gspec r p run'.
Proof. by move=> h fin h1 h2; have [run hs e] := h fin; have [f' [c hh]] := hs _ h1 h2; exists f', c; rewrite -e. Qed.

Lemma size_mulF (a b : {poly F}) : a != 0 -> b != 0 ->
  Z.of_nat (size (a * b)).-1 = (Z.of_nat (size a).-1 + Z.of_nat (size b).-1)%coqZ.
Proof. by move=> a0 b0; rewrite PF2Fac2.size_mul1 // -plusE Nat2Z.inj_add. Qed.
Local Notation sz_pos := PF2Fac2.sz_pos.
Lemma pred_pos (p : {poly F}) : (1 < size p)%N -> (1 <= Z.of_nat (size p).-1)%coqZ.
Proof. exact: PF2Fac2.pred_pos. Qed.
Lemma size_lt_mul (a b : {poly F}) : (1 < size a)%N -> (1 < size b)%N ->
  (size a < size (a * b)%R)%N /\ (size b < size (a * b)%R)%N.
Proof.
move=> ha hb; rewrite size_mul ?sz_pos //; move: ha hb; case: (size a) => [|[|x]] //; case: (size b) => [|[|y]] // _ _.
by rewrite !addSn !addnS /= !ltnS leq_addr leq_addl.
Qed.
Lemma spec_comp r (a b : {poly F}) run1 run2 : (1 < size a)%N -> (1 < size b)%N -> gspec0 r a run1 -> gspec0 r b run2 ->
  gspec r (a * b) (fun fin => x <- run1 fin ;; run2 x).
Proof.
move=> ha hb h1 h2 fin hf; rewrite size_mulF ?sz_pos // => ht.
have pa := pred_pos ha; have pb := pred_pos hb.
have [|f1 [c1 [-> i1 u1 p1 [t1 b1]]]] := h1 fin hf; first by slia.
have [|f2 [c2 [e2 i2 u2 p2 [t2 b2]]]] := h2 f1 i1; first by slia.
exists f2, (c1 + c2)%coqZ; rewrite bind_ok; split=> //; first by rewrite u2.
  by rewrite p2 p1 mulrA.
split; first by slia.
split; first by slia.
by split=> [hc|/PF2Fac2.red_mul]; [slia|move=> /(_ ha hb)].
Qed.
Lemma spec_ins0 r l p : isG l p -> (1 < size p)%N -> Qf r p -> gspec0 r p (fun fin => insert_factor (gp_fops o) fin l 1).
Proof.
move=> hl hp hq fin hf ht; have hpp := pred_pos hp; have h2 := isG_Gp hl.
have [|||f' [e1 e2 e3 e4 e5]] := ins_ok FS (c := 1%coqZ) hf (VG_of hl (sz_pos hp)); rewrite ?h2 //.
  lia.
by exists f', 1%coqZ; split=> //; rewrite e4 h2 expr1.
Qed.
Lemma spec_ins r l p : isG l p -> (1 < size p)%N -> p \is monic -> irreducible_poly p ->
  gspec r p (fun fin => insert_factor (gp_fops o) fin l 1).
Proof.
move=> hl hp hm hi fin hf ht; have hq : Qf r p by rewrite /Qf; case: r hf.
have hpp := pred_pos hp; have h2 := isG_Gp hl.
have [|||f' [e1 e2 e3 e4 e5]] := ins_ok FS (c := 1%coqZ) hf (VG_of hl (sz_pos hp)); rewrite ?h2 //.
  lia.
by exists f', 1%coqZ; split=> //; rewrite e4 h2 expr1.
Qed.

Lemma rect_rank m n t (a : 'M[F]_(m, n)) : (0 < m)%N -> (0 < n)%N -> mat_is V I t a ->
  exists t' (b : 'M[F]_(m, n)), [/\ row_echelon_form (k_c o) t = Ok t', mat_is V I t' b, (a :=: b)%MS & get_rank_rr (k_c o) t' = Ok (\rank a)].
Proof.
move=> Hm Hn /mat_is_rep [M hM <-].
have [t' [e h]] := rech_ok sc Hm Hn hM.
have [pv [hs hr hred]] := prech_ok (let: And3 _ s _ := hM in s).
exists t', (lmx m n (prech n M)); split=> //; [exact: rep_mat_is | exact: reduces_eqmx |].
rewrite (rank_rr_ok sc Hm Hn h) (ech_count hs (rref_ech hr)) -(ech_rank (rref_ech hr)).
by congr Ok; rewrite (reduces_eqmx hred).
Qed.

Lemma fv_ok d n t (k : 'M[F]_(d, n)) (i : 'I_d) : (0 < n)%N -> mat_is V I t k ->
  exists r h, [/\ rowat (t_rows t) i = Ok r, gp_from_vector o r n = Ok h & isG h (toP (row i k))].
Proof.
move=> n0 /mat_is_rep [M [hR hs hc] <-].
have [r [er [hr sr']]] := Rm_row hR hs (ltn_ord i).
have sr : size (nth [::] M i) = n by rewrite -(F2_size hr).
have [h [p [eh hh hp]]] := from_vector_ok spec dflt kvq kv0 hr sr n0.
exists r, h; split=> //; suff -> : toP (row i (lmx d n M)) = p by [].
apply/polyP => j; rewrite hp; case: ltnP => hj.
  rewrite (coef_toP _ (Ordinal hj)) mxE lmxE /ent /=; congr (nth _ _ _); lia.
by rewrite nth_default // (leq_trans (size_toP _)).
Qed.

(* ---------------------------------------------------------------- the search for a factor *)
Section Rows.
Variables (lf : gpoly) (f : {poly F}) (n : nat).
Hypotheses (Hf : isG lf f) (f1 : (1 < size f)%N).
Lemma deg_pos l (p : {poly F}) : isG l p -> Nat.ltb 0 (gp_degree l) = (1 < size p)%N.
Proof. by move=> h; rewrite (degG h); case: (size p) => [|[|k]]. Qed.
Lemma deg_lt l p l' p' : isG l p -> isG l' p' -> (1 < size p)%N -> Nat.ltb (gp_degree l) (gp_degree l') = (size p < size p')%N.
Proof. by move=> h h' hp; rewrite (degG h) (degG h') ltbE; lia. Qed.

Lemma consts_ok lh h : isG lh h -> forall cnt z, (0 <= z)%coqZ -> (z + Z.of_nat cnt)%coqZ = Z.of_nat q ->
  exists r, gp_berl_consts o fp cnt lf lh z = Ok r /\
    match r with
    | Some l1 => exists g c, [/\ isG l1 g, g %= gcdp f (h - c%:P) & (1 < size g < size f)%N]
    | None => forall z', (z <= z' < Z.of_nat q)%coqZ -> ~~ (1 < size (gcdp f (h - (cst z')%:P)) < size f)%N
    end.
Proof.
move=> hh; elim=> [|cnt IH] z hz hq.
  by exists None; split=> // z' h'; move: hq; change (Z.of_nat 0) with 0%coqZ; lia.
cbn [gp_berl_consts]; rewrite Nat2Z.inj_succ in hq.
have [|lc [-> hlc]] := fcst_ok fs (z := z) Hf; first by lia.
rewrite bind_ok; have [hc [-> hhc]] := sub_ok spec hh hlc; rewrite bind_ok.
have [l1 [g [-> [hl1 hg]]]] := gcd_ok spec Hf hhc; rewrite bind_ok (deg_pos hl1).
have esz := eqp_size hg.
case: (boolP (1 < size g)%N) => /= g1; last first.
  have [||r [-> hr]] := IH (z + 1)%coqZ; [lia|lia|].
  exists r; split=> //; case: r hr => [l2|] // hr z' h'.
  case: (Z.eq_dec z' z) => [->|ne]; last by apply: hr; case: h' => h1 h2; split; [clear - h1 ne; lia | exact: h2].
  by rewrite -esz (negbTE g1).
rewrite (deg_lt hl1 Hf g1); case: (boolP (size g < size f)%N) => /= g2.
  by exists (Some l1); split=> //; exists g, (cst z); rewrite g1 g2.
have [||r [-> hr]] := IH (z + 1)%coqZ; [lia|lia|].
exists r; split=> //; case: r hr => [l2|] // hr z' h'.
case: (Z.eq_dec z' z) => [->|ne]; last by apply: hr; case: h' => h1 h2; split; [clear - h1 ne; lia | exact: h2].
by rewrite -esz (negbTE g2) andbF.
Qed.
Lemma consts_const (h : {poly F}) c g : (size h <= 1)%N -> g %= gcdp f (h - c%:P) -> ~~ (1 < size g < size f)%N.
Proof.
move=> /size1_polyC -> /eqp_size ->; rewrite -polyCB.
have [->|h0] := eqVneq (h`_0 - c) 0; first by rewrite polyC0 gcdp0 ltnn andbF.
have /eqP -> : size (gcdp f (h`_0 - c)%:P) == 1%N; last by [].
by rewrite size_poly_eq1; apply: eqp_trans (gcdp1 f); apply: eqp_gcdr; rewrite -size_poly_eq1 size_polyC h0.
Qed.

Variables (d : nat) (basis : list (list A)) (hs : nat -> {poly F}).
Hypothesis Hrow : forall i, (i < d)%N ->
  exists r h, [/\ rowat basis i = Ok r, gp_from_vector o r n = Ok h, isG h (hs i) & K f (hs i)].
Lemma rows_ok cnt : forall row, (row + cnt)%N = d -> (exists i, (row <= i < d)%N /\ (1 < size (hs i))%N) ->
  exists l1 g i c, [/\ gp_berl_rows o fp cnt (Z.of_nat q) lf n basis row = Ok (Some l1), isG l1 g,
    (i < d)%N /\ (1 < size (hs i))%N, g %= gcdp f (hs i - c%:P) & (1 < size g < size f)%N].
Proof.
have f0 := sz_pos f1.
elim: cnt => [|cnt IH] row hrow [i [hi hsi]].
  by move: hi; rewrite -hrow addn0; case: ltngtP => //; rewrite andbC.
have hrd : (row < d)%N by rewrite -hrow addnS ltnS leq_addr.
have [r [h [er eh hh hK]]] := Hrow hrd; cbn [gp_berl_rows]; rewrite er bind_ok eh bind_ok.
have skip : (size (hs row) <= 1)%N -> exists l1 g i c, [/\ gp_berl_rows o fp cnt (Z.of_nat q) lf n basis row.+1 = Ok (Some l1), isG l1 g,
    (i < d)%N /\ (1 < size (hs i))%N, g %= gcdp f (hs i - c%:P) & (1 < size g < size f)%N].
  move=> hne; apply: IH; first by rewrite addSnnS.
  exists i; split=> //; case/andP: hi => h1 h2; rewrite h2 andbT ltn_neqAle h1 andbT.
  by apply/eqP => e; move: hsi; rewrite -e ltnNge hne.
rewrite (eq1_ok spec hh) bind_ok; case: eqP => [e1|_].
  by apply: skip; rewrite e1 size_poly1.
rewrite Nat2Z.id; have [||rc [-> hrc]] := consts_ok hh (cnt := q) (z := 0); [lia|lia|rewrite bind_ok].
case: rc hrc => [l1 [g [c [hl hg hsz]]]|hno].
  exists l1, g, row, c; split=> //; split=> //; rewrite ltnNge; apply/negP => hne.
  by have := consts_const hne hg; rewrite hsz.
apply: skip; rewrite leqNgt; apply/negP => hgt.
have [c hcs] := K_split f1 hK hgt.
have [z hz ez] := fcst_surj fs c; have := hno z ltac:(lia).
by rewrite ez hcs.
Qed.
End Rows.

(* ---------------------------------------------------------------- Berlekamp's algorithm *)
Section Berl.
Variables (rec : gpoly -> facinfo gpoly -> res (facinfo gpoly)) (recurse : bool) (lf : gpoly) (f : {poly F}).
Hypotheses (Hf : isG lf f) (Hf1 : (1 < size f)%N) (Hm : f \is monic).
Let f0 : f != 0 := sz_pos Hf1.
Let n := (size f).-1.
Let hsz : size f = n.+1. Proof. by rewrite /n prednK // ltnW. Qed.
Let hn : (0 < n)%N. Proof. by rewrite -ltnS -hsz. Qed.

Lemma berl_pre : (1 < n)%N -> exists t (b : 'M[F]_n) zero one, [/\ mat_is V I t b, (BMx n f :=: b)%MS, R zero 0, R one 1 &
  forall fin, gp_berl o fp rec recurse lf fin =
    let dimker := (n - \rank b)%N in
    if Nat.eqb dimker 1 then insert_factor (gp_fops o) fin lf 1
    else
      got <- get_kernel_basis (k_c o) t zero one ;;
      match got with
      | None => Exn
      | Some basis =>
          if negb (Nat.eqb (t_nr basis) dimker) then Exn
          else
            r <- gp_berl_rows o fp dimker (Z.of_nat q) lf n (t_rows basis) 0 ;;
            match r with
            | None => Exn
            | Some f1 =>
                f2 <- gp_div o lf f1 ;;
                f1 <- gp_monic o f1 ;;
                f2 <- gp_monic o f2 ;;
                if (Nat.eqb dimker 2) || negb recurse then
                  fin1 <- insert_factor (gp_fops o) fin f1 1 ;; insert_factor (gp_fops o) fin1 f2 1
                else
                  fin1 <- rec f1 fin ;; rec f2 fin1
            end
      end].
Proof.
move=> n2; have hd := degG Hf.
have [c0 [e0 [v0 i0]]] := isG_get0 Hf.
have [//|zero [ez [vz iz]]] := ks_int spec (v := 0) v0.
have [//|one [eo [vo io]]] := ks_int spec (v := 1) v0.
have hz : R zero 0 by []. have ho : R one 1 by [].
have [x [ex hx]] := linear_ok spec ho hz; rewrite scale1r polyC0 addr0 in hx.
have [po [eo' hpo]] := const_ok spec ho.
have [xq [exq hxq]] := xq_ok spec Hf hsz hn hx.
have hsq : sq n (List.repeat (List.repeat (k_dflt o) n) n).
  by split=> [|r /(repeat_spec _ _ _) ->]; rewrite repeat_length.
have [rows [e1 h1 h2]] := fill_ok spec dflt kvq kv0 Hf hsz hn hpo hxq hsq.
have [rows' [e2 h3]] := sub_I_ok spec dflt kvq kv0 hsz hn ho h1 h2.
have [t [b [e3 h4 h5 e4]]] := rect_rank hn hn h3.
exists t, b, zero, one; split=> // fin.
rewrite /gp_berl hd -/n (fq_ok fs Hf) bind_ok e0 bind_ok ez bind_ok eo bind_ok ex bind_ok eo' bind_ok exq bind_ok.
have -> : Nat.eqb n 0 = false by apply/Nat.eqb_neq; lia.
have -> : Nat.ltb n 2 = false by apply/Nat.ltb_ge; apply/leP.
by rewrite e1 bind_ok e2 bind_ok e3 bind_ok e4 bind_ok h5.
Qed.

Lemma eqmx_ker k (a b : 'M[F]_k) (v : 'rV[F]_k) : (a :=: b)%MS -> (b *m v^T == 0) = (a *m v^T == 0).
Proof.
move=> h; have /submxP [D ea] : (a <= b)%MS by rewrite h.
have /submxP [E eb] : (b <= a)%MS by rewrite h.
apply/eqP/eqP => e; first by rewrite ea -mulmxA e mulmx0.
by rewrite eb -mulmxA e mulmx0.
Qed.

Hypothesis Hsq : sqfree f.
Hypothesis Hrec : forall l p, isG l p -> (1 < size p)%N -> p \is monic -> (size p < size f)%N -> gspec recurse p (rec l).
Lemma berl_ok : gspec recurse f (gp_berl o fp rec recurse lf).
Proof.
case: (ltnP 1 n) => n2; last first.
  have n1 : n = 1%N by apply/eqP; rewrite eqn_leq n2 hn.
  have hirr : irreducible_poly f by apply: PF2Fac2.lin_irr; rewrite hsz n1.
  apply: spec_ext (spec_ins (r := recurse) Hf Hf1 Hm hirr) => fin.
  have [c0 [e0 [v0 i0]]] := isG_get0 Hf.
  have [//|zero [ez [vz iz]]] := ks_int spec (v := 0) v0.
  have [//|one [eo [vo io]]] := ks_int spec (v := 1) v0.
  have hz : R zero 0 by []. have ho : R one 1 by [].
  have [x [ex hx]] := linear_ok spec ho hz; rewrite scale1r polyC0 addr0 in hx.
  have [po [eo' hpo]] := const_ok spec ho.
  have [xq [exq hxq]] := xq_ok spec Hf hsz hn hx.
  by rewrite /gp_berl (degG Hf) -/n (fq_ok fs Hf) bind_ok e0 bind_ok ez bind_ok eo bind_ok ex bind_ok eo' bind_ok exq bind_ok n1.
have [t [b [zero [one [ht hb hz ho he]]]]] := berl_pre n2.
have hker (v : 'rV[F]_n) : (b *m v^T == 0) = (BMx n f *m v^T == 0) := eqmx_ker v hb.
case: (Nat.eqb_spec (n - \rank b)%N 1) => [d1|d1].
  suff hirr : irreducible_poly f.
    by apply: spec_ext (spec_ins (r := recurse) Hf Hf1 Hm hirr) => fin; rewrite he /= d1.
  pose k := row_base (kermx b^T).
  have hk : forall v : 'rV[F]_n, (v <= k)%MS = (BMx n f *m v^T == 0).
    move=> v; rewrite -hker /k eq_row_base -(trmx_eq0 (b *m v^T)) trmx_mul trmxK.
    by apply/sub_kermxP/eqP.
  apply: (ker1_irreducible hsz (row_base_free _) hk hn _ Hsq).
  by rewrite mxrank_ker mxrank_tr.
have [r [er hr]] := kernel_thm sc hn hn ht hz ho.
case: r er hr => [basis|] er hr; last first.
  have h1 := K_const (f := f) 1 Hf1.
  have e1 : toP (ofP n (1 : {poly F})) = 1 by rewrite toP_ofP // size_poly1.
  have hzz : BMx n f *m (ofP n (1 : {poly F}))^T == 0 by apply/(BMx_K hsz); rewrite e1.
  move: hzz; rewrite -hker => /eqP /hr /(congr1 trmx); rewrite trmxK trmx0 => e2.
  by move: e1; rewrite e2 toP0 => /eqP; rewrite eq_sym oner_eq0.
case: hr => k [dpos hk hfree hkk].
have hkk' (v : 'rV[F]_n) : (v <= k)%MS = (BMx n f *m v^T == 0) by rewrite hkk hker.
have d2 : (1 < n - \rank b)%N.
  by have := d_gt0 hsz hfree hkk' hn; rewrite leq_eqVlt => /orP [/eqP e|] //; case: d1.
have [i hi] := ker2_nonconst hfree hn d2.
pose hs (j : nat) := if insub j is Some j' then toP (row (j' : 'I_(n - \rank b)%N) k) else 0.
have hsE (j : 'I_(n - \rank b)%N) : hs j = toP (row j k) by rewrite /hs valK.
have hrow j : (j < n - \rank b)%N -> exists r h, [/\ rowat (t_rows basis) j = Ok r, gp_from_vector o r n = Ok h, isG h (hs j) & K f (hs j)].
  move=> hj; have [r [h [q1 q2 q3]]] := fv_ok (Ordinal hj) hn hk.
  exists r, h; rewrite (hsE (Ordinal hj)); split=> //.
  exact: (row_K hsz hkk').
have hex : exists j, (0 <= j < n - \rank b)%N /\ (1 < size (hs j))%N by exists i; rewrite ltn_ord hsE.
have hnr : t_nr basis = (n - \rank b)%N by case: hk.
have [l1 [g [i' [c [erows hl1 [hi' hsi] hg /andP [g1 g2]]]]]] := rows_ok Hf Hf1 hrow (add0n _) hex.
have g0 := sz_pos g1.
have gdv : g %| f by rewrite (eqp_dvdl _ hg) dvdp_gcdl.
have [l2 [e2 hl2]] := div_ok spec Hf hl1 g0.
have ef : f = g * (f %/ g) by rewrite mulrC divpK.
have u0 : f %/ g != 0 by apply: contraNneq f0 => e; rewrite ef e mulr0.
have u1 : (1 < size (f %/ g)%R)%N.
  rewrite size_divp // ltn_subRL addn1 prednK // ?(ltn_trans _ g1) //.
have [l1' [e1' hl1']] := monic_ok spec hl1 g0.
have [l2' [e2' hl2']] := monic_ok spec hl2 u0.
have efm : f = monicp g * monicp (f %/ g) by rewrite -monicpM -ef monicp_id.
move: hl1' hl2' efm; set a := monicp g; set w := monicp _ => hl1' hl2' efm.
have a1 : (1 < size a)%N by rewrite size_monicp.
have w1 : (1 < size w)%N by rewrite size_monicp.
have am : a \is monic by apply: monicp_monic.
have wm : w \is monic by apply: monicp_monic.
have hsm : (size a < size f)%N /\ (size w < size f)%N.
  by rewrite efm; apply: size_lt_mul.
have eqr fin : gp_berl o fp rec recurse lf fin =
      if (Nat.eqb (n - \rank b)%N 2) || ~~ recurse then
        fin1 <- insert_factor (gp_fops o) fin l1' 1 ;; insert_factor (gp_fops o) fin1 l2' 1
      else fin1 <- rec l1' fin ;; rec l2' fin1.
  by rewrite he /= er bind_ok hnr Nat.eqb_refl (introF (Nat.eqb_spec _ _) d1) /= erows bind_ok e2 bind_ok e1' bind_ok e2' bind_ok.
case hor: (Nat.eqb (n - \rank b)%N 2 || ~~ recurse); last first.
  rewrite {1}efm; apply: spec_ext (spec_comp a1 w1 (spec_0 (Hrec hl1' a1 am hsm.1)) (spec_0 (Hrec hl2' w1 wm hsm.2))) => fin.
  by rewrite eqr hor.
have [q1 q2] : Qf recurse a /\ Qf recurse w.
  case hd2: (Nat.eqb (n - \rank b)%N 2) hor => /= hor; last by move: hor; rewrite /Qf; case: recurse.
  have /Nat.eqb_spec e2s := hd2.
  have hspan := ker2_span hsz hfree hkk' hn (i := Ordinal hi') e2s; rewrite -hsE /= in hspan.
  have he1 : a %= gcdp f (hs i' - c%:P) by apply: eqp_trans hg; apply: monicp_eqp.
  have [w1' w2'] := K2_irreducible Hf1 Hsq (hspan hsi) he1 efm a1 w1.
  by rewrite /Qf; case: recurse.
rewrite {1}efm; apply: spec_ext (spec_comp a1 w1 (spec_ins0 hl1' a1 q1) (spec_ins0 hl2' w1 q2)) => fin.
by rewrite eqr hor.
Qed.
End Berl.

(* ---------------------------------------------------------------- the recursion *)
Lemma pc_prime : prime pc. Proof. exact: charf_prime (fchar fs). Qed.
Lemma pc_dvd : (pc %| q)%N.
Proof.
have e : q = (pc ^ logn pc q)%N := card_primeChar (fchar fs).
have := finRing_gt1 [finRingType of F]; rewrite e; case: (logn pc q) => [|k]; first by rewrite expn0.
by rewrite expnS dvdn_mulr.
Qed.
Definition frt (a : F) : F := a ^+ (q %/ pc).
Lemma frtK a : frt a ^+ pc = a.
Proof. by rewrite /frt -exprM divnK ?pc_dvd // expf_card. Qed.
Lemma deriv0_pow (p : {poly F}) : p^`() = 0 -> exists g, g ^+ pc = p.
Proof.
move=> h; exists (\poly_(i < size p) frt (p`_(i * pc))); apply/polyP => j.
rewrite (coef_expchar (fchar fs)); case: ifP => [/dvdnP [k ->]|hj].
  rewrite mulnK ?prime_gt0 ?pc_prime // coef_poly; case: ltnP => hk; first by rewrite frtK.
  rewrite expr0n (gtn_eqF (prime_gt0 pc_prime)) nth_default //.
  by apply: leq_trans hk _; rewrite leq_pmulr // prime_gt0 // pc_prime.
case: j hj => [|j] hj; first by rewrite dvdn0 in hj.
have := congr1 (fun r : {poly F} => r`_j) h; rewrite /= coef_deriv coef0 -mulr_natr => /eqP.
by rewrite mulf_eq0 -(dvdn_charf (fchar fs)) hj orbF => /eqP.
Qed.

Ltac gnia := repeat match goal with |- context [Z.of_nat ?x] => move: (Z.of_nat x) => ? | |- context [ftotal ?x] => move: (ftotal x) => ? end; nia.
Lemma pre_ok recurse fuel : forall l p, isG l p -> (1 < size p)%N -> p \is monic -> (size p <= fuel)%N ->
  (Z.of_nat (size p) <= INT_MAX)%coqZ -> gspec recurse p (gp_pre o fp fuel recurse l).
Proof.
elim: fuel => [|fuel IH] l p hl hp hm hfuel hmax; first by move: (leq_trans hp hfuel).
have p0 := sz_pos hp.
have [d [ed hd]] := deriv_ok spec hl hmax.
have [lg [g [eg [hlg hg]]]] := gcd_ok spec hl hd.
have g0 : g != 0 by rewrite -size_poly_eq0 (eqp_size hg) size_poly_eq0 gcdp_eq0 (negbTE p0).
have smax (u : {poly F}) : (size u <= size p)%N -> (Z.of_nat (size u) <= INT_MAX)%coqZ.
  by move=> /leP /Nat2Z.inj_le h; apply: Z.le_trans h hmax.
have pre : forall fin, gp_pre o fp fuel.+1 recurse l fin =
   if (size g <= 1)%N then gp_berl o fp (gp_pre o fp fuel recurse) recurse l fin
   else if p^`() == 0 then
          s <- fp_root fp l ;;
          match s with
          | None => Exn
          | Some s =>
              sfin <- gp_pre o fp fuel recurse s fac_empty ;;
              sfin <- exp_all (gp_fops o) sfin (Z.of_nat pc) ;;
              MFac.merge (gp_fops o) fin sfin
          end
        else
          q <- gp_div o l lg ;;
          g <- gp_monic o lg ;;
          q <- gp_monic o q ;;
          fin1 <- gp_pre o fp fuel recurse g fin ;;
          gp_pre o fp fuel recurse q fin1.
  move=> fin; cbn [gp_pre]; rewrite ed bind_ok eg bind_ok (eq0_ok spec hlg) bind_ok (negbTE g0) (degG hlg).
  have -> : Nat.eqb (size g).-1 0 = (size g <= 1)%N by case: (size g) => [|[|k]].
  case: ifP => // _; rewrite (eq0_ok spec hd) bind_ok; case: ifP => // _.
  rewrite (fchar_ok fs hl) bind_ok (deg_pos hl) hp; by [].
case: (leqP (size g) 1) => g1.
  apply: (@spec_ext _ _ (gp_berl o fp (gp_pre o fp fuel recurse) recurse l)).
    by move=> fin; rewrite pre g1.
  apply: berl_ok => //.
    by rewrite /sqfree /separable_poly coprimep_def -(eqp_size hg) eqn_leq g1 size_poly_gt0.
  by move=> l' p' h1 h2 h3 h4; apply: IH => //; [rewrite -ltnS; apply: leq_trans hfuel | apply/smax/ltnW].
have [d0|d0] := eqVneq p^`() 0; last first.
  have gdv : g %| p by rewrite (eqp_dvdl _ hg) dvdp_gcdl.
  have [lq [eq hlq]] := div_ok spec hl hlg g0.
  have ep : p = g * (p %/ g) by rewrite mulrC divpK.
  have u0 : p %/ g != 0 by apply: contraNneq p0 => e; rewrite ep e mulr0.
  have hq1 : (1 < size (p %/ g)%R)%N.
    rewrite size_divp //.
    have h2 : (size g <= size p^`())%N by apply: dvdp_leq => //; rewrite (eqp_dvdl _ hg) dvdp_gcdr.
    have h1 := leq_ltn_trans h2 (lt_size_deriv p0).
    by rewrite ltn_subRL addn1 prednK // (ltn_trans _ g1).
  have [l1 [e1 hl1]] := monic_ok spec hlg g0.
  have [l2 [e2 hl2]] := monic_ok spec hlq u0.
  have epm : p = monicp g * monicp (p %/ g) by rewrite -monicpM -ep monicp_id.
  have a1 : (1 < size (monicp g))%N by rewrite size_monicp.
  have w1 : (1 < size (monicp (p %/ g)))%N by rewrite size_monicp.
  have [s1 s2] := size_lt_mul a1 w1; rewrite -epm in s1 s2.
  rewrite {1}epm; apply: spec_ext (spec_comp a1 w1 (spec_0 (IH _ _ hl1 a1 (monicp_monic g0) _ _)) (spec_0 (IH _ _ hl2 w1 (monicp_monic u0) _ _))).
  - by move=> fin; rewrite pre leqNgt g1 (negbTE d0) eq bind_ok e1 bind_ok e2 bind_ok.
  - by rewrite -ltnS; apply: leq_trans s1 hfuel.
  - exact/smax/ltnW.
  - by rewrite -ltnS; apply: leq_trans s2 hfuel.
  - exact/smax/ltnW.
have [[s [h [er [hs ep]]]]|[_ hno]] := froot_ok fs hl; last by have [h hh] := deriv0_pow d0; case: (hno h).
have pc2 := prime_gt1 pc_prime.
have h0 : h != 0 by apply: contraNneq p0 => e; rewrite -ep e expr0n (gtn_eqF (ltnW pc2)).
have h1 : (1 < size h)%N.
  rewrite ltnNge; apply: contraTN hp => /size1_polyC e; rewrite -ep e -rmorphX /= -leqNgt; exact: size_polyC_leq1.
have eszp : ((size p).-1 = (size h).-1 * pc)%N by rewrite -ep size_exp.
have hlt : (size h < size p)%N.
  move: eszp h1 pc2 hp; clear; case: (size p) => [|u] // /= ->; case: (size h) => [|[|v]] //= _ hh _.
  by rewrite ltnS ltn_Pmulr.
have hmh : h \is monic.
  have /eqP := hm; rewrite -ep lead_coef_exp => e.
  rewrite monicE.
  have : GRing.Frobenius_aut (fchar fs) (lead_coef h - 1) == 0 by rewrite rmorphB rmorph1 /= GRing.Frobenius_autE e subrr.
  by rewrite fmorph_eq0 subr_eq0.
have hspec : gspec recurse h (gp_pre o fp fuel recurse s).
  by apply: IH => //; [rewrite -ltnS; apply: leq_trans hlt hfuel | apply/smax/ltnW].
move=> fin hf ht.
have hpq := pred_pos h1; have hpp := pred_pos hp; have hft := FI_total hf.
have hszz : Z.of_nat (size p).-1 = (Z.of_nat (size h).-1 * Z.of_nat pc)%coqZ by rewrite eszp -multE Nat2Z.inj_mul.
have hpc2 : (2 <= Z.of_nat pc)%coqZ by move: pc2; clear; lia.
have [|sf [c [e1 h2 u1 v1 [t1 [c1 _]]]]] := hspec fac_empty (FI_empty _ _ _ _).
  rewrite (_ : ftotal _ = 0%coqZ) //; move: ht hft hpq hpp hszz hpc2; clear; gnia.
have et : ftotal sf = c by rewrite t1 /ftotal /=.
have [||sf2 [e2 h3 u2 v2 t2]] := @exp_all_ok _ _ (gp_fops o) VG Gp FS (Qf recurse) sf (Z.of_nat pc) h2 u1.
- by move: hpc2; clear; lia.
- by rewrite et; move: c1 hszz hpc2 ht hft; clear; gnia.
have [|f' [e3 h4 u3 v3 t3]] := merge_FI FS hf h3 u2.
  by rewrite t2 et; move: c1 hszz hpc2 ht hft; clear; gnia.
exists f', (c * Z.of_nat pc)%coqZ; split=> //.
- by rewrite pre leqNgt g1 d0 eqxx er bind_ok e1 bind_ok e2 bind_ok.
- by rewrite v3 v2 v1 /fprod big_nil mul1r Nat2Z.id ep.
- split; first by rewrite t3 t2 et.
  split; first by move: c1 hszz hpc2; clear; gnia.
  split; first by move: c1 hpc2; clear; gnia.
  move=> hi; case: (PF2Fac2.red_mul h1 (b := h ^+ pc.-1)); last by rewrite -exprS prednK ?ep // ltnW.
  rewrite -subn_gt0 subn1 size_exp muln_gt0; move: h1 pc2; clear; case: (size h) => [|[|v]] //= _; lia.
Qed.
End Pre.
