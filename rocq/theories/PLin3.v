(* Inverse and linear systems by row reduction, over an arbitrary field. *)
From mathcomp Require Import all_ssreflect fingroup perm all_algebra.
From Verif Require Import PLin PLin2.
Set Implicit Arguments.
Unset Strict Implicit.
Unset Printing Implicit Defensive.
Import GRing.Theory.
Local Open Scope ring_scope.

Section Lin3.
Variable F : fieldType.
Implicit Types rows : seq (seq F).

Lemma ech0 m n rows : ech m n rows [::] 0.
Proof. by split. Qed.

Definition prech n rows := pback (prr n rows 0 0 1).1.

Lemma prech_ok m n rows : shape m n rows ->
  exists pv, [/\ shape m n (prech n rows), rref m n (prech n rows) pv &
                 reduces (lmx m n rows) (lmx m n (prech n rows))].
Proof.
move=> Hs.
have [pv [h1 h2 [E uE [hE _]]]] :=
  @prr_ok F n rows 0 0 1 m n [::] Hs (erefl _) (ech0 _ _ _) (add0n n).
exists pv; split; [exact: pback_shape h2 | exact: pback_rref|].
apply: (@reduces_trans _ _ _ _ (lmx m n (prr n rows 0 0 1).1)).
  by exists E.
have [E' d hE'] := pback_mx h1 h2; exists E' => //.
by rewrite unitmxE d unitr1.
Qed.

Lemma prr_det n rows : shape n n rows -> 
  \det (lmx n n rows) =
  (prr n rows 0 0 1).2 * \prod_(i < n) ent (prr n rows 0 0 1).1 i i.
Proof.
move=> Hs.
have [pv [h1 h2 [E uE [hE hs]]]] :=
  @prr_ok F n rows 0 0 1 n n [::] Hs (erefl _) (ech0 _ _ _) (add0n n).
by rewrite -(ech_det h1 h2) hE det_mulmx mulrA -hs mul1r.
Qed.

Lemma rref_square_I n rows pv k : shape n k rows -> rref n k rows pv -> (n <= k)%N ->
  (lmx n n rows \in unitmx) = (lmx n n rows == 1%:M).
Proof.
move=> Hs Hr hk; have He := rref_ech Hr.
apply/idP/eqP => [u|->]; last exact: unitmx1.
case: (posnP n) => [n0|npos].
  by apply/matrixP => i; exfalso; case: i => i; rewrite n0.
(* every row is non-zero within the first n columns *)
have nzr i : (i < n)%N -> exists2 j, (j < n)%N & ent rows i j != 0.
  move=> hi; have : row (Ordinal hi) (lmx n n rows) != 0.
    apply/eqP => h; have := mulmxV u; move/(congr1 (row (Ordinal hi))).
    rewrite row_mul h mul0mx => /rowP/(_ (Ordinal hi)); rewrite !mxE eqxx /=.
    by move/eqP; rewrite eq_sym oner_eq0.
  case/rV0Pn => j; rewrite !mxE => h; by exists j.
have hsz : size pv = n.
  apply/eqP; rewrite eqn_leq (ech_size He) /= leqNgt; apply/negP => h.
  have [j hj] := nzr _ h; rewrite (ech_rest He) ?eqxx //.
    by rewrite leqnn h.
  exact: leq_trans hj hk.
have hl : (nth 0%N pv (size pv).-1 < size pv)%N.
  have hn : (n.-1 < n)%N by rewrite prednK.
  have [j hj] := nzr _ hn; rewrite hsz; apply: contraR; rewrite -leqNgt => h.
  by rewrite (ech_before He) ?hsz //; apply: leq_trans h.
apply/matrixP => i j; rewrite !mxE.
have hid : nth 0%N pv j = j by apply: (ech_pv_id He) => //; rewrite hsz.
rewrite -{1}hid.
by rewrite (rref_delta Hr) ?hsz.
Qed.

(* [A | I] reduces to [L | R] *)
Section Inverse.
Variables (n : nat) (A : 'M[F]_n) (B : seq (seq F)) (pv : seq nat).
Hypotheses (Hs : shape n (n + n) B) (Hr : rref n (n + n) B pv)
           (Hred : reduces (row_mx A 1%:M) (lmx n (n + n) B)).
Definition rpart : 'M[F]_n := \matrix_(i, j) ent B i (n + j).

Lemma inv_parts : exists2 E : 'M[F]_n, E \in unitmx & lmx n n B = E *m A /\ rpart = E.
Proof.
case: Hred => E uE hE; exists E => //; rewrite mul_mx_row mulmx1 in hE.
split; apply/matrixP => i j; move/matrixP: hE.
  by move/(_ i (lshift n j)); rewrite row_mxEl => <-; rewrite !mxE.
by move/(_ i (rshift n j)); rewrite row_mxEr => <-; rewrite !mxE.
Qed.

Lemma inv_iff : (A \in unitmx) = (lmx n n B == 1%:M).
Proof.
rewrite -(rref_square_I Hs Hr) ?leq_addr //.
by have [E uE [-> _]] := inv_parts; rewrite unitmx_mul uE.
Qed.

Lemma inv_val : lmx n n B = 1%:M -> rpart *m A = 1%:M /\ A *m rpart = 1%:M.
Proof.
have [E uE [-> ->]] := inv_parts => h; split=> //; exact: mulmx1C.
Qed.
End Inverse.

(* [A | b] reduces to [.. | c] *)
Section Solve.
Variables (m n : nat) (A : 'M[F]_(m, n)) (b : 'cV[F]_m) (B : seq (seq F)) (pv : seq nat).
Hypotheses (Hs : shape m (n + 1) B) (Hr : rref m (n + 1) B pv)
           (Hred : reduces (row_mx A b) (lmx m (n + 1) B)) (Hrk : \rank A = n).
Definition sol : 'cV[F]_n := \matrix_(i, j) ent B i n.

Lemma solve_rank_iff : (size pv == n) <-> exists x : 'cV[F]_n, A *m x = b.
Proof.
have He := rref_ech Hr.
have hr : \rank (row_mx A b) = size pv.
  by rewrite (reduces_eqmx Hred) (ech_rank He).
have sAT : ((A^T)%R <= (row_mx A b)^T)%MS.
  by rewrite tr_row_mx -addsmxE addsmxSl.
have -> : (size pv == n) = (\rank A^T == \rank (row_mx A b)^T).
  by rewrite !mxrank_tr hr Hrk eq_sym.
rewrite (mxrank_leqif_sup sAT).2 tr_row_mx -addsmxE addsmx_sub submx_refl /=.
split.
  case/submxP => D hD; exists D^T; apply: trmx_inj.
  by rewrite trmx_mul trmxK hD.
by case=> x <-; rewrite trmx_mul submxMl.
Qed.

Lemma solve_val : size pv = n -> A *m sol = b.
Proof.
move=> hsz; have He := rref_ech Hr.
have [E uE hE] := Hred.
have hL : lmx m n B = E *m A.
  apply/matrixP => i j; move/matrixP: hE => /(_ i (lshift 1 j)).
  by rewrite mul_mx_row row_mxEl => <-; rewrite !mxE.
have hR : \matrix_(i < m, j < 1) ent B i n = E *m b.
  apply/matrixP => i j; move/matrixP: hE => /(_ i (rshift n j)).
  by rewrite mul_mx_row row_mxEr => <-; rewrite !mxE /= ord1 addn0.
case: (posnP n) => [n0|npos].
  (* no unknowns: every row of B is zero *)
  have : E *m b = 0.
    rewrite -hR; apply/matrixP => i j; rewrite !mxE.
    by apply: (ech_rest He); rewrite ?hsz ?addn1 // n0 /=.
  move=> h; have -> : b = 0 by rewrite -(mul1mx b) -(mulVmx uE) -mulmxA h mulmx0.
  by apply/matrixP => i j; rewrite !mxE big1 // => k; have := ltn_ord k; rewrite {2}n0.
have hl : (nth 0%N pv (size pv).-1 < size pv)%N.
  rewrite hsz ltnNge; apply/negP => hge.
  (* otherwise the left part has rank < n *)
  have hlast : forall j, (j < n)%N -> ent B n.-1 j = 0.
    by move=> j hj; apply: (ech_before He); rewrite ?hsz ?prednK //; apply: leq_trans hge.
  have : (\rank (lmx m n B) <= n.-1)%N.
    pose S : 'M[F]_(m, n.-1) := \matrix_(i, k) ((i : nat) == k)%:R.
    suff -> : lmx m n B = S *m lmx n.-1 n B.
      by apply: leq_trans (mxrankM_maxr _ _) _; apply: rank_leq_row.
    apply/matrixP => i j; rewrite [RHS]mxE lmxE; case: (ltnP i n.-1) => hi.
      rewrite (bigD1 (Ordinal hi)) //= big1 ?addr0; first by rewrite !mxE eqxx mul1r.
      move=> k nk; rewrite mxE; have /negbTE-> : (i : nat) != k; last by rewrite mul0r.
      by apply: contra nk => /eqP e; apply/eqP/val_inj.
    rewrite big1; last first.
      move=> k _; rewrite mxE; have /negbTE-> : (i : nat) != k; last by rewrite mul0r.
      by rewrite neq_ltn (leq_trans (ltn_ord k) hi) orbT.
    move: hi; rewrite leq_eqVlt => /orP[/eqP<-|hi]; first exact: hlast.
    apply: (ech_rest He); last by rewrite addn1 ltnS ltnW.
    by rewrite hsz -(prednK npos) hi ltn_ord.
  rewrite hL (eqmxMfull _ _) ?row_full_unit // Hrk.
  by rewrite leqNgt prednK // leqnn.
have hid i : (i < n)%N -> nth 0%N pv i = i by move=> hi; apply: (ech_pv_id He) => //; rewrite hsz.
have hLx : lmx m n B *m sol = E *m b.
  rewrite -hR; apply/matrixP => i j; rewrite [LHS]mxE [RHS]mxE.
  have hd (k : 'I_n) : ent B i k = ((i : nat) == k)%:R.
    by rewrite -{1}(hid k (ltn_ord k)) (rref_delta Hr) ?hsz.
  case: (ltnP i n) => hi.
    rewrite (bigD1 (Ordinal hi)) //= big1 ?addr0; first by rewrite lmxE hd /= eqxx mul1r mxE.
    move=> k nk; rewrite lmxE hd; have /negbTE-> : (i : nat) != k; last by rewrite mul0r.
    by apply: contra nk => /eqP e; apply/eqP/val_inj.
  rewrite big1; first by symmetry; apply: (ech_rest He); rewrite ?hsz ?hi ?addn1 /=.
  move=> k _; rewrite lmxE hd; have /negbTE-> : (i : nat) != k; last by rewrite mul0r.
  by rewrite neq_ltn (leq_trans (ltn_ord k) hi) orbT.
rewrite hL -mulmxA in hLx.
by rewrite -[A *m sol]mul1mx -(mulVmx uE) -mulmxA hLx mulmxA mulVmx // mul1mx.
Qed.

End Solve.

(* full column rank means solutions are unique *)
Lemma rank_inj m n (A : 'M[F]_(m, n)) (x y : 'cV[F]_n) : \rank A = n -> A *m x = A *m y -> x = y.
Proof.
move=> hr h; have : row_free A^T by rewrite /row_free mxrank_tr hr.
move/row_free_inj => hi; apply: trmx_inj; apply: hi.
by rewrite -!trmx_mul h.
Qed.

(* less than full column rank: solutions, if any, are not unique *)
Lemma rank_notinj m n (A : 'M[F]_(m, n)) (b : 'cV[F]_m) x : \rank A != n -> A *m x = b ->
  exists2 y : 'cV[F]_n, y != x & A *m y = b.
Proof.
move=> hr hx; have : kermx A^T != 0.
  by rewrite kermx_eq0 /row_free mxrank_tr.
case/rowV0Pn => v /sub_kermxP hv nv; exists (x + v^T).
  by rewrite addrC -subr_eq0 addrK trmx_eq0.
by rewrite mulmxDr hx -[A]trmxK -trmx_mul hv trmx0 addr0.
Qed.

End Lin3.
