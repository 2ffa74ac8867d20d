(* Consequences of echelon shape: back substitution, rank, kernel, determinant,
   inverse and linear systems over an arbitrary field. *)
From mathcomp Require Import all_ssreflect fingroup perm all_algebra.
From Verif Require Import PLin.
Set Implicit Arguments.
Unset Strict Implicit.
Unset Printing Implicit Defensive.
Import GRing.Theory.
Local Open Scope ring_scope.

Lemma sorted_gap (pv : seq nat) i k : sorted ltn pv -> (i <= k < size pv)%N ->
  (nth 0 pv i + (k - i) <= nth 0 pv k)%N.
Proof.
move=> hs /andP[]; elim: k => [|k IH].
  by rewrite leqn0 => /eqP->; rewrite subnn addn0.
rewrite leq_eqVlt => /orP[/eqP-> _|hik hk]; first by rewrite subnn addn0.
have h1 := IH hik (ltnW hk).
have h2 : (nth 0 pv k < nth 0 pv k.+1)%N.
  by apply: (sorted_ltn_nth ltn_trans 0%N hs) => //; rewrite inE // ltnW.
by rewrite subSn // addnS; apply: leq_ltn_trans h2.
Qed.

Section Lin2.
Variable F : fieldType.
Implicit Types rows : seq (seq F).
Local Notation nz := (fun x : F => x != 0).

Section Ech.
Variables (m n : nat) (rows : seq (seq F)) (pv : seq nat).
Hypotheses (Hs : shape m n rows) (He : ech m n rows pv n).
Let r := size pv.

Lemma ech_mono i k : (i < k < r)%N -> (nth 0 pv i < nth 0 pv k)%N.
Proof.
case/andP=> h1 h2; apply: (sorted_ltn_nth ltn_trans 0%N (ech_sorted He)) => //.
by rewrite inE; apply: ltn_trans h2.
Qed.

Lemma ech_zero_below i l j : (i < r)%N -> (i < l < m)%N -> (j <= nth 0%N pv i)%N ->
  ent rows l j = 0.
Proof.
move=> hi /andP[hil hl] hj; case: (ltnP l r) => h.
  by apply: (ech_before He) => //; apply: leq_ltn_trans hj _; apply: ech_mono; rewrite hil.
apply: (ech_rest He); first by rewrite h.
by apply: leq_ltn_trans hj (ech_lt He hi).
Qed.

Lemma ech_row_size i : (i < m)%N -> size (nth [::] rows i) = n.
Proof. by case: Hs => _; apply. Qed.

Lemma ech_r_le : (r <= m)%N. Proof. exact: ech_size He. Qed.

Lemma ech_lead i : (i < r)%N -> find nz (nth [::] rows i) = nth 0%N pv i.
Proof.
move=> hi; have hm := leq_trans hi ech_r_le.
have hlt := ech_lt He hi.
case: (ltngtP (find nz (nth [::] rows i)) (nth 0%N pv i)) => // h.
  have := @nth_find _ 0 nz (nth [::] rows i).
  rewrite has_find ech_row_size // (ltn_trans h hlt) => /(_ isT).
  by rewrite -/(ent rows i _) (ech_before He hi h) eqxx.
have := before_find 0 h.
by rewrite -/(ent rows i _) (ech_one He hi) oner_eq0.
Qed.

Lemma ech_no_lead i : (r <= i < m)%N -> find nz (nth [::] rows i) = n.
Proof.
case/andP=> h1 h2; rewrite -[RHS](ech_row_size h2); apply: hasNfind.
apply/hasPn => x /(nthP 0)[j hj <-]; rewrite negbK; apply/eqP.
by apply: (ech_rest He); rewrite ?h1 // -(ech_row_size h2).
Qed.

Lemma ech_has i : (i < m)%N -> has nz (nth [::] rows i) = (i < r)%N.
Proof.
move=> hi; rewrite has_find ech_row_size //; case: (ltnP i r) => h.
  by rewrite ech_lead // (ech_lt He).
by rewrite ech_no_lead ?h // ltnn.
Qed.

(* number of non-zero rows *)
Lemma ech_count : count (has nz) rows = r.
Proof.
have Hm : size rows = m by case: Hs.
rewrite -(cat_take_drop r rows) count_cat.
have -> : count (has nz) (take r rows) = r.
  have hsz : size (take r rows) = r by rewrite size_takel // Hm ech_r_le.
  apply/eqP; rewrite -{2}hsz -all_count; apply/(all_nthP [::]) => i; rewrite hsz => hi.
  by rewrite nth_take // ech_has // (leq_trans hi ech_r_le).
suff -> : count (has nz) (drop r rows) = 0%N by rewrite addn0.
apply/eqP; rewrite -leqn0 leqNgt -has_count; apply/hasPn => x /(nthP [::])[i].
rewrite size_drop Hm ltn_subRL => hi <-; rewrite nth_drop ech_has // -leqNgt.
exact: leq_addr.
Qed.

Definition selr : 'M[F]_(r, m) := \matrix_(i, k) ((i : nat) == k)%:R.

Lemma selr_mul k (B : 'M[F]_(m, k)) i j (hi : (i < m)%N) (hir : (i < r)%N) :
  (selr *m B) (Ordinal hir) j = B (Ordinal hi) j.
Proof.
rewrite mxE (bigD1 (Ordinal hi)) //= big1 ?addr0.
  by rewrite mxE /= eqxx mul1r.
move=> l nl; rewrite mxE /=; have /negbTE-> : i != l; last by rewrite mul0r.
by apply: contra nl => /eqP e; apply/eqP/val_inj.
Qed.

Lemma ech_rank : \rank (lmx m n rows) = r.
Proof.
set A := lmx m n rows.
have hr i : (i < r)%N -> (i < m)%N by move=> h; apply: leq_trans ech_r_le.
apply/eqP; rewrite eqn_leq; apply/andP; split.
  have -> : A = selr^T *m (selr *m A).
    apply/matrixP => i j; rewrite [RHS]mxE.
    case: (ltnP i r) => hi.
      rewrite (bigD1 (Ordinal hi)) //= big1 ?addr0.
        by rewrite (selr_mul _ _ (hr _ hi)) !mxE /= eqxx mul1r.
      move=> l nl; rewrite 2!mxE; have /negbTE-> : (l : nat) != i; last by rewrite mul0r.
      by apply: contra nl => /eqP e; apply/eqP/val_inj.
    rewrite big1; first by rewrite mxE (ech_rest He) ?hi /=.
    move=> l _; rewrite 2!mxE; have /negbTE-> : (l : nat) != i; last by rewrite mul0r.
    by rewrite neq_ltn (leq_trans (ltn_ord l) hi).
  apply: leq_trans (mxrankM_maxr _ _) _; apply: rank_leq_row.
pose T : 'M[F]_(n, r) := \matrix_(j, l) ((j : nat) == nth 0%N pv l)%:R.
have d1 : \det ((selr *m A) *m T) = 1.
  have hE i l : ((selr *m A) *m T) i l = ent rows i (nth 0%N pv l).
    have hl := ech_lt He (ltn_ord l).
    rewrite mxE (bigD1 (Ordinal hl)) //= big1 ?addr0.
      rewrite [T _ _]mxE /= eqxx mulr1; case: i => i hi.
      by rewrite (selr_mul _ _ (hr _ hi)) mxE.
    move=> j nj; rewrite [T _ _]mxE /=; have /negbTE-> : (j : nat) != nth 0%N pv l; last by rewrite mulr0.
    by apply: contra nj => /eqP e; apply/eqP/val_inj.
  rewrite -det_tr det_trig.
    by apply: big1 => i _; rewrite mxE hE (ech_one He).
  apply/is_trig_mxP => i j hij; rewrite mxE hE (ech_before He) //.
  by apply: ech_mono; rewrite hij ltn_ord.
have u1 : (selr *m A) *m T \in unitmx by rewrite unitmxE d1 unitr1.
rewrite -{1}(mxrank_unit u1); apply: leq_trans (mxrankM_maxl _ _) _.
exact: mxrankM_maxr.
Qed.

(* pivots are the columns 0,1,... when they all fit *)
Lemma ech_pv_id i : (i < r)%N -> (nth 0%N pv r.-1 < r)%N -> nth 0%N pv i = i.
Proof.
move=> hi hl.
have r0 : (0 < r)%N by apply: leq_ltn_trans hi.
have h1 := @sorted_gap pv 0 i (ech_sorted He); rewrite subn0 in h1.
have {}h1 : (i <= nth 0%N pv i)%N.
  by apply: leq_trans (h1 _); [rewrite leq_addl | rewrite hi].
have hi' : (i <= r.-1)%N by rewrite -ltnS prednK.
have h2 := @sorted_gap pv i r.-1 (ech_sorted He).
have {}h2 := leq_ltn_trans (h2 _) hl.
have {}h2 : (nth 0 pv i + (r.-1 - i) < r)%N by apply: h2; rewrite hi' -/r ltn_predL.
apply/eqP; rewrite eqn_leq h1 andbT.
by rewrite -(leq_add2r (r.-1 - i)) subnKC // -ltnS prednK.
Qed.

End Ech.

(* ---- determinant *)
Lemma ech_det n rows pv : shape n n rows -> ech n n rows pv n ->
  \det (lmx n n rows) = \prod_(i < n) ent rows i i.
Proof.
move=> Hs He; rewrite -det_tr det_trig.
  by apply: eq_bigr => i _; rewrite !mxE.
apply/is_trig_mxP => i j hij; rewrite !mxE.
case: (ltnP j (size pv)) => h; last by rewrite (ech_rest He) ?h /=.
apply: (ech_before He) => //; apply: (leq_trans hij).
have := @sorted_gap pv 0 j (ech_sorted He); rewrite h subn0 => /(_ isT).
by apply: leq_trans; rewrite leq_addl.
Qed.

(* ---- back substitution *)
Fixpoint clr (row : seq F) (below : seq (seq F)) : seq F :=
  match below with
  | [::] => row
  | b :: bs =>
      let q := find nz b in
      if (q < size b)%N then
        let x := nth 0 row q in
        clr (if x == 0 then row else cmb row 1 b (x / nth 0 b q)) bs
      else row
  end.
Fixpoint pback rows : seq (seq F) :=
  match rows with
  | [::] => [::]
  | row :: bs => clr row bs :: pback bs
  end.

Lemma size_pback rows : size (pback rows) = size rows.
Proof. by elim: rows => //= row bs ->. Qed.
Lemma nth_pback rows i : (i < size rows)%N ->
  nth [::] (pback rows) i = clr (nth [::] rows i) (drop i.+1 rows).
Proof.
elim: rows i => //= row bs IH [|i] hi /=; first by rewrite drop0.
by rewrite IH.
Qed.

Record rref m n rows (pv : seq nat) : Prop := {
  rref_ech : ech m n rows pv n;
  rref_above : forall i k, (i < k)%N -> (k < size pv)%N -> ent rows i (nth 0%N pv k) = 0
}.

Section Back.
Variables (m n : nat) (rows : seq (seq F)) (pv : seq nat).
Hypotheses (Hs : shape m n rows) (He : ech m n rows pv n).
Let r := size pv.
Let Hm : size rows = m. Proof. by case: Hs. Qed.

Lemma clr_ok d : forall k row, (k + d = m)%N -> size row = n ->
  size (clr row (drop k rows)) = n /\
  (forall l, (k <= l < r)%N -> nth 0 (clr row (drop k rows)) (nth 0%N pv l) = 0) /\
  exists c : nat -> F, forall j,
    nth 0 (clr row (drop k rows)) j = nth 0 row j - \sum_(k <= l < m) c l * ent rows l j.
Proof.
elim: d => [|d IH] k row Hk Hr.
  rewrite addn0 in Hk; rewrite drop_oversize ?Hm ?Hk //=; split=> //; split.
    move=> l /andP[h1 h2]; move: (leq_trans h2 (ech_size He)).
    by rewrite ltnNge h1.
  by exists (fun _ => 0) => j; rewrite big_geq // subr0.
have hk : (k < m)%N by rewrite -Hk -addSnnS leq_addr.
have Hk' : (k.+1 + d = m)%N by rewrite addSnnS.
rewrite (drop_nth [::]) ?Hm //=.
have hsz := ech_row_size Hs hk; rewrite hsz.
case: (ltnP k r) => hr.
  rewrite (ech_lead Hs He) // (ech_lt He) //.
  rewrite -/(ent rows k _) (ech_one He) // divr1.
  set x := nth 0 row _.
  set row' := (if _ then _ else _).
  have hr' : size row' = n.
    by rewrite /row'; case: eqP => // _; rewrite size_cmb ?Hr ?hsz.
  have hE j : nth 0 row' j = nth 0 row j - x * ent rows k j.
    rewrite /row'; case: eqP => [->|_]; first by rewrite mul0r subr0.
    by rewrite ent_cmb ?Hr ?hsz // mulr1 mulrC.
  have [h1 [h2 [c h3]]] := IH k.+1 row' Hk' hr'.
  split=> //; split.
    move=> l /andP[]; rewrite leq_eqVlt => /orP[/eqP<- _|hl1 hl2]; last by apply: h2; rewrite hl1.
    rewrite h3 hE (ech_one He) // mulr1 subrr sub0r big_nat big1 ?oppr0 // => l' /andP[hl1 hl2].
    by rewrite (ech_zero_below He hr) ?mulr0 ?hl1.
  exists (fun l => if l == k then x else c l) => j.
  rewrite h3 hE [in RHS]big_ltn // eqxx opprD addrA; congr (_ - _).
  by apply: eq_big_nat => l /andP[hl _]; rewrite gtn_eqF.
rewrite (ech_no_lead Hs He) ?hr // ltnn; split=> //; split.
  by move=> l /andP[h1 h2]; have := leq_ltn_trans h1 h2; rewrite ltnNge hr.
exists (fun _ => 0) => j; rewrite big1 ?subr0 // => l _; exact: mul0r.
Qed.

Lemma pback_shape : shape m n (pback rows).
Proof.
split; first by rewrite size_pback.
move=> i hi; rewrite nth_pback ?Hm //.
have [||h _] := @clr_ok (m - i.+1) i.+1 (nth [::] rows i) => //.
  by rewrite subnKC.
exact: (ech_row_size Hs).
Qed.

Lemma pback_ent i : (i < m)%N ->
  (forall l, (i < l < r)%N -> ent (pback rows) i (nth 0%N pv l) = 0) /\
  exists c : nat -> F, forall j,
    ent (pback rows) i j = ent rows i j - \sum_(i.+1 <= l < m) c l * ent rows l j.
Proof.
move=> hi; have [||_ [h1 [c h2]]] := @clr_ok (m - i.+1) i.+1 (nth [::] rows i).
- by rewrite subnKC.
- exact: (ech_row_size Hs).
split=> [l hl|]; first by rewrite /ent nth_pback ?Hm // h1.
by exists c => j; rewrite /ent nth_pback ?Hm // h2.
Qed.

Lemma pback_rref : rref m n (pback rows) pv.
Proof.
have keep i j : (i < m)%N -> (forall l, (i < l < m)%N -> ent rows l j = 0) ->
    ent (pback rows) i j = ent rows i j.
  move=> hi h; have [_ [c ->]] := pback_ent hi.
  rewrite big_nat big1 ?subr0 // => l hl; by rewrite h ?mulr0.
have rm i : (i < r)%N -> (i < m)%N by move=> h; apply: leq_trans (ech_size He).
split.
  split; try by case: He.
  - move=> i hi; rewrite keep ?rm ?(ech_one He) // => l hl.
    by apply: (ech_zero_below He hi).
  - move=> i j hi hj; rewrite keep ?rm ?(ech_before He) // => l hl.
    by apply: (ech_zero_below He hi) => //; rewrite ltnW.
  - move=> i j /andP[h1 h2] hj; rewrite keep ?(ech_rest He) ?h1 // => l /andP[hl1 hl2].
    by apply: (ech_rest He) => //; rewrite hl2 (leq_trans h1) // ltnW.
move=> i k hik hk; have hi : (i < m)%N by apply: ltn_trans hik (rm _ hk).
by have [-> //] := pback_ent hi; rewrite hik.
Qed.

(* choose the coefficients as one unitriangular matrix *)
Lemma pback_mx : exists2 E : 'M[F]_m, \det E = 1 & lmx m n (pback rows) = E *m lmx m n rows.
Proof.
have hc (i : 'I_m) : exists c : {ffun 'I_m -> F}, forall j,
    ent (pback rows) i j = ent rows i j - \sum_(l < m | (i < l)%N) c l * ent rows l j.
  have [_ [c hc]] := pback_ent (ltn_ord i).
  exists [ffun l : 'I_m => c l] => j; rewrite hc; congr (_ - _).
  rewrite (big_nat_widenl _ 0%N) //= big_mkord.
  by apply: eq_big => l //; rewrite ffunE.
have {hc} [c hc] := fin_all_exists hc.
exists (\matrix_(i, l) (if i == l then 1 else if (i < l)%N then - c i l else 0)).
  rewrite -det_tr det_trig; first by apply: big1 => i _; rewrite !mxE eqxx.
  apply/is_trig_mxP => i l hil; rewrite !mxE -val_eqE /= (gtn_eqF hil).
  by rewrite ltnNge (ltnW hil).
apply/matrixP => i j; rewrite lmxE hc [RHS]mxE [RHS](bigD1 i) //= !mxE eqxx mul1r; congr (_ + _).
rewrite -sumrN big_mkcond [RHS]big_mkcond /=; apply: eq_bigr => l _; rewrite !mxE.
rewrite -!val_eqE /=; case: ltngtP => //= h; rewrite ?mul0r //.
by rewrite mulNr.
Qed.

End Back.

(* ---- kernel basis from a reduced matrix *)
Section Ker.
Variables (m n : nat) (rows : seq (seq F)) (pv : seq nat).
Hypotheses (Hs : shape m n rows) (Hr : rref m n rows pv).
Let r := size pv.
Let He := rref_ech Hr.

Definition frees (n0 : nat) (pv0 : seq nat) := [seq j <- iota 0 n0 | j \notin pv0].
Definition kvec (n0 : nat) rows0 (pv0 : seq nat) (f : nat) : seq F :=
  mkseq (fun j => if j == f then 1
                  else if j \in pv0 then - ent rows0 (index j pv0) f else 0) n0.
Definition kbasis (n0 : nat) rows0 (pv0 : seq nat) := [seq kvec n0 rows0 pv0 f | f <- frees n0 pv0].

Lemma pv_uniq : uniq pv.
Proof. exact: (sorted_uniq ltn_trans ltnn (ech_sorted He)). Qed.
Lemma pv_lt j : j \in pv -> (j < n)%N.
Proof. by case/(nthP 0%N) => i hi <-; apply: (ech_lt He). Qed.

Lemma size_frees : size (frees n pv) = (n - r)%N.
Proof.
rewrite size_filter; have := count_predC (mem pv) (iota 0 n); rewrite size_iota.
have -> : count (mem pv) (iota 0 n) = r.
  rewrite -size_filter; apply: perm_size; apply: uniq_perm.
  - by rewrite filter_uniq // iota_uniq.
  - exact: pv_uniq.
  move=> j; rewrite mem_filter mem_iota /= add0n.
  by apply: andb_idr => /pv_lt.
by move=> e; rewrite -[X in (X - _)%N]e addKn; apply: eq_count.
Qed.

Lemma rref_delta i k : (i < m)%N -> (k < r)%N -> ent rows i (nth 0%N pv k) = (i == k)%:R.
Proof.
move=> hi hk; case: ltngtP => h.
- exact: (rref_above Hr).
- by apply: (ech_zero_below He hk); rewrite ?h.
- by rewrite h (ech_one He).
Qed.

Lemma kbasis_shape : shape (n - r) n (kbasis n rows pv).
Proof.
split; first by rewrite size_map size_frees.
move=> i hi; rewrite (nth_map 0%N) ?size_frees //; exact: size_mkseq.
Qed.

Lemma kbasis_ent i j : (i < n - r)%N -> (j < n)%N ->
  ent (kbasis n rows pv) i j =
  if j == nth 0%N (frees n pv) i then 1
  else if j \in pv then - ent rows (index j pv) (nth 0%N (frees n pv) i) else 0.
Proof.
move=> hi hj; rewrite /ent (nth_map 0%N) ?size_frees // nth_mkseq //.
Qed.

Lemma free_prop i : (i < n - r)%N ->
  (nth 0%N (frees n pv) i < n)%N /\ nth 0%N (frees n pv) i \notin pv.
Proof.
move=> hi; have := mem_nth 0%N (s := frees n pv) (n := i); rewrite size_frees => /(_ hi).
by rewrite mem_filter mem_iota add0n /= => /andP[-> ->].
Qed.

Lemma kbasis_ann : lmx m n rows *m (lmx (n - r) n (kbasis n rows pv))^T = 0.
Proof.
apply/matrixP => k i; rewrite !mxE.
have [hf nf] := free_prop (ltn_ord i).
set f := nth 0%N (frees n pv) i in hf nf.
case: (ltnP k r) => hk; last first.
  by apply: big1 => j _; rewrite mxE (ech_rest He) ?hk ?mul0r /=.
have hp := ech_lt He hk.
have npf : nth 0%N pv k != f by apply: contra nf => /eqP<-; exact: mem_nth.
rewrite (bigD1 (Ordinal hf)) //= (bigD1 (Ordinal hp)) //=; last first.
rewrite !mxE !kbasis_ent //= -/f eqxx (negbTE npf) mem_nth // index_uniq ?pv_uniq //.
rewrite (ech_one He) // mulr1 mul1r addrA subrr add0r.
apply: big1 => j /andP[j1 j2]; rewrite !mxE kbasis_ent // -/f.
have /negbTE-> : (j : nat) != f by apply: contra j1 => /eqP e; apply/eqP/val_inj.
case: ifP => [/(nthP 0%N)[l hl e]|_]; last by rewrite mulr0.
rewrite -e rref_delta //; case: eqP => [e2|_]; last by rewrite mul0r.
by case/negP: j2; apply/eqP/val_inj; rewrite /= -e -e2.
Qed.

Lemma kbasis_free : row_free (lmx (n - r) n (kbasis n rows pv)).
Proof.
apply/row_freeP; exists (\matrix_(j, i) ((j : nat) == nth 0%N (frees n pv) i)%:R).
apply/matrixP => i k; rewrite !mxE.
have [hf nf] := free_prop (ltn_ord k).
rewrite (bigD1 (Ordinal hf)) //= big1 ?addr0.
  rewrite !mxE kbasis_ent //= eqxx mulr1 (negbTE nf).
  rewrite nth_uniq ?size_frees //; last by rewrite filter_uniq // iota_uniq.
  by rewrite eq_sym -val_eqE; case: eqP.
move=> j nj; rewrite !mxE; have /negbTE-> : (j : nat) != nth 0%N (frees n pv) k; last by rewrite mulr0.
by apply: contra nj => /eqP e; apply/eqP/val_inj.
Qed.

Lemma kbasis_span (v : 'rV[F]_n) :
  (v <= lmx (n - r) n (kbasis n rows pv))%MS = (lmx m n rows *m v^T == 0).
Proof.
set A := lmx m n rows; set B := lmx _ _ _.
have sBK : (B <= kermx A^T)%MS.
  by apply/sub_kermxP; rewrite -[B]trmxK -trmx_mul kbasis_ann trmx0.
have eBK : (B == kermx A^T)%MS.
  rewrite sBK andTb -(mxrank_leqif_sup sBK) eq_sym mxrank_ker mxrank_tr (ech_rank He).
  by rewrite eq_sym; exact: kbasis_free.
rewrite (eqmxP eBK); apply/sub_kermxP/eqP => h.
  by rewrite -[A]trmxK -trmx_mul h trmx0.
by rewrite -[v]trmxK -trmx_mul h trmx0.
Qed.

End Ker.
End Lin2.
