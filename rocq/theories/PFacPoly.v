(* Factorization records whose elements are polynomials over a field. *)
From Verif Require Import Base MIntMath MFac PFacGen.
From mathcomp Require Import all_ssreflect all_algebra ssrZ.
Set Implicit Arguments.
Unset Strict Implicit.
Unset Printing Implicit Defensive.
Import GRing.Theory.
Delimit Scope Z_scope with coqZ.
Local Open Scope ring_scope.

Section FacPoly.
Variables (R : fieldType) (A : Type) (O : fops A) (V : A -> Prop) (I : A -> {poly R}).
Hypothesis FS : fac_spec O V I *%R 1 (fun _ => True).
Let fs_eqb_ := @fs_eqb _ _ _ _ _ _ _ _ FS.
Let fs_irr_ := @fs_irr _ _ _ _ _ _ _ _ FS.
Variable Q : {poly R} -> Prop.

Definition fprod (l : list (A * Z)) : {poly R} := \prod_(e <- l) I e.1 ^+ Z.to_nat e.2.
Definition entry_ok (e : A * Z) : Prop := [/\ V e.1, Q (I e.1) & Z.le 1 e.2].
Definition FI (fin : facinfo A) : Prop :=
  List.Forall entry_ok (facs fin) /\ sorted_strict O (List.map fst (facs fin)).
Definition ftotal (fin : facinfo A) : Z := PFacGen.total (facs fin).

Lemma mpowE (x : {poly R}) n : PFacGen.mpow *%R 1 x n = x ^+ n.
Proof. by elim: n => [|n IH] //=; rewrite exprS IH. Qed.
Lemma lval_fprod l : lval I *%R 1 l = fprod l.
Proof. by rewrite /fprod; elim: l => [|e l IH]; rewrite ?big_nil // big_cons /= IH mpowE. Qed.
Lemma fprod_cons e l : fprod (e :: l) = I e.1 ^+ Z.to_nat e.2 * fprod l.
Proof. by rewrite /fprod big_cons. Qed.
Lemma FI_entries l : List.Forall entry_ok l -> entries_ok V l.
Proof. move=> h; apply: List.Forall_impl h => e [hv _ h1]; split=> //; lia. Qed.
Lemma FI_empty : FI fac_empty.
Proof. by split=> //; apply: List.Forall_nil. Qed.
Lemma total_count : forall l, get_num_factors (mkfac l (None : option A)) = PFacGen.total l.
Proof. by elim=> [//|[x c] l IH] /=; rewrite -IH. Qed.
Lemma total_cons x c (l : list (A * Z)) : PFacGen.total ((x, c) :: l) = (c + PFacGen.total l)%coqZ.
Proof. by []. Qed.
Lemma count_cons z j l y : count_of O ((z, j) :: l) y = ((if f_eqb O y z then j else 0) + count_of O l y)%coqZ.
Proof. by []. Qed.
Lemma FI_total fin : FI fin -> (0 <= ftotal fin)%coqZ.
Proof. by move=> [h _]; apply: total_nonneg; apply: FI_entries h. Qed.
Lemma in_keys (l : list (A * Z)) x : List.In x (List.map fst l) -> exists c, List.In (x, c) l.
Proof. by move=> /List.in_map_iff [[y c] [/= <- h]]; exists c. Qed.

Lemma ins_ok fin e c : FI fin -> V e -> Q (I e) -> (1 <= c)%coqZ -> (ftotal fin + c <= INT_MAX)%coqZ ->
  exists fin', [/\ insert_factor O fin e c = Ok fin', FI fin', funit fin' = funit fin,
    fprod (facs fin') = fprod (facs fin) * I e ^+ Z.to_nat c & ftotal fin' = (ftotal fin + c)%coqZ].
Proof.
move=> [h1 h2] ve qe hc ht; rewrite /insert_factor.
have [|l' [-> [h3 [h4 [h5 [h6 [h7 h8]]]]]]] := @insert_list_ok _ _ O V I _ _ _ FS _ e c (FI_entries h1) ve _ ht h2; first by lia.
rewrite bind_ok; eexists; split; [reflexivity| |reflexivity| |exact: h6]; last first.
  by rewrite -!lval_fprod h8 mpowE mulrC.
split=> //=; apply/List.Forall_forall => -[y k] hy.
have hin : List.In y (List.map fst l') by apply/List.in_map_iff; exists (y, k).
have vy : V y by case: (proj1 (List.Forall_forall _ _) h3 _ hy).
have hcnt : (1 <= k)%coqZ /\ Q (I y).
  have hk : count_of O l' y = k.
    elim: {+}l' h3 h4 hy {h5 h6 h7 h8 hin} => [//|[z j] l IH] h3 h4 hy; rewrite count_cons.
    have vz : V z by case: (List.Forall_inv h3).
    case: hy => [[ez ej]|hy].
      subst z j; have -> : f_eqb O y y = true by apply/fs_eqb_.
      have -> : count_of O l y = 0%coqZ.
        have hall : forall w, List.In w l -> f_eqb O y w.1 = false.
          move=> w hw; apply/negbTE/negP => /fs_eqb_ e1.
          have vw : V w.1 by case: (proj1 (List.Forall_forall _ _) h3 _ (or_intror hw)).
          have := e1 vy vw => ew; case: h4 => h4 _.
          have hh : List.In w.1 (List.map fst l) by apply/List.in_map_iff; exists w.
          by have := h4 _ hh; rewrite -ew fs_irr_.
        elim: l hall {IH h3 h4} => [//|[w u] l IH] hall; rewrite count_cons IH; last by move=> v hv; apply: hall; right.
        by rewrite (hall (w, u)) //; left.
      lia.
    case: h4 => h4 h4'.
    have hne : f_eqb O y z = false.
      apply/negbTE/negP => /fs_eqb_ e1; have ew := e1 vy vz; subst z.
      have hh : List.In y (List.map fst l) by apply/List.in_map_iff; exists (y, k).
      by have := h4 _ hh; rewrite fs_irr_.
    rewrite hne.
    by rewrite (IH (List.Forall_inv_tail h3) h4' hy).
  have e7 := h7 _ vy; rewrite hk in e7.
  case/h5: hin => [ey|hin].
    subst y; have he : f_eqb O e e = true by apply/fs_eqb_.
    rewrite he in e7; split=> //.
    have hnn : (0 <= count_of O (facs fin) e)%coqZ.
      elim: (facs fin) h1 => [|[z j] l IH] h1; rewrite ?count_cons; first by [].
      move: (List.Forall_inv h1) => [_ _ /= hj]; have := IH (List.Forall_inv_tail h1).
      by case: (f_eqb O e z); lia.
    lia.
  have [j hj] := in_keys hin; move/List.Forall_forall: (h1) => /(_ _ hj) [_ /= qy hj1]; split=> //.
  have hge : (1 <= count_of O (facs fin) y)%coqZ.
    elim: (facs fin) h1 hj {h2 h5 h6 h7 h8 ht e7 hin} => [//|[z i] l IH] h1 hj; rewrite count_cons.
    move: (List.Forall_inv h1) => [vz _ /= hi].
    have hnn : (0 <= count_of O l y)%coqZ.
      elim: {+}l (List.Forall_inv_tail h1) => [|[w u] l2 IH'] h1'; rewrite ?count_cons; first by [].
      move: (List.Forall_inv h1') => [_ _ /= hu]; have := IH' (List.Forall_inv_tail h1').
      by case: (f_eqb O y w); lia.
    case: hj => [[ez _]|hj].
      subst z.
      have -> : f_eqb O y y = true by apply/fs_eqb_.
      lia.
    have hh := IH (List.Forall_inv_tail h1) hj.
    by case: (f_eqb O y z); lia.
  by case: (f_eqb O y e) e7; lia.
by split=> //; case: hcnt.
Qed.

Lemma ins_all_ok h : forall fin, FI fin -> List.Forall entry_ok h -> (ftotal fin + PFacGen.total h <= INT_MAX)%coqZ ->
  exists fin', [/\ insert_all O fin h = Ok fin', FI fin', funit fin' = funit fin,
    fprod (facs fin') = fprod (facs fin) * fprod h & ftotal fin' = (ftotal fin + PFacGen.total h)%coqZ].
Proof.
elim: h => [|[x c] h IH] fin hf hh ht /=.
  by exists fin; split=> //; rewrite ?Z.add_0_r // /fprod big_nil mulr1.
move: (List.Forall_inv hh) => [/= vx qx hc]; move: (List.Forall_inv_tail hh) => hh'.
have hn := total_nonneg _ _ (FI_entries hh').
rewrite total_cons in ht.
have [|f1 [-> hf1 u1 p1 t1]] := ins_ok hf vx qx hc; first by lia.
rewrite bind_ok; have [|f2 [-> hf2 u2 p2 t2]] := IH _ hf1 hh'; first by rewrite t1; lia.
exists f2; split=> //; first by rewrite u2.
  by rewrite p2 p1 fprod_cons mulrA.
by rewrite t2 t1 -/(PFacGen.total h); lia.
Qed.

Lemma scale_ok l k : List.Forall entry_ok l -> (1 <= k)%coqZ -> (PFacGen.total l * k <= INT_MAX)%coqZ ->
  exists l', [/\ scale_counts l k = Ok l', List.Forall entry_ok l', PFacGen.total l' = (PFacGen.total l * k)%coqZ,
     List.map fst l' = List.map fst l & fprod l' = fprod l ^+ Z.to_nat k].
Proof.
elim: l => [|[x c] l IH] hl hk ht /=.
  by exists nil; split=> //; rewrite /fprod big_nil expr1n.
move: (List.Forall_inv hl) => [/= vx qx hc]; move: (List.Forall_inv_tail hl) => hl'.
have hn := total_nonneg _ _ (FI_entries hl').
rewrite total_cons in ht.
have [|l' [e1 h1 h2 h3 h4]] := IH hl' hk; first by nia.
have -> : imul c k = Ok (c * k)%coqZ.
  have hb : (0 <= c * k <= INT_MAX)%coqZ by nia.
  by rewrite /imul chk_ok //; rewrite /INT_MIN; lia.
rewrite bind_ok e1 bind_ok; eexists; split; [reflexivity| | | |].
- by constructor=> //; split=> //=; nia.
- by change (c * k + PFacGen.total l' = (c + PFacGen.total l) * k)%coqZ; rewrite h2; lia.
- by rewrite /= h3.
rewrite !fprod_cons /= h4 exprMn -exprM; congr (_ ^+ _ * _).
by rewrite Z2Nat.inj_mul //; lia.
Qed.

Lemma exp_all_ok fin k : FI fin -> funit fin = None -> (1 <= k)%coqZ -> (ftotal fin * k <= INT_MAX)%coqZ ->
  exists fin', [/\ exp_all O fin k = Ok fin', FI fin', funit fin' = None,
    fprod (facs fin') = fprod (facs fin) ^+ Z.to_nat k & ftotal fin' = (ftotal fin * k)%coqZ].
Proof.
move=> [h1 h2] hu hk ht; rewrite /exp_all hu bind_ok.
have [l' [-> h3 h4 h5 h6]] := scale_ok h1 hk ht.
by rewrite bind_ok; eexists; split; [reflexivity| | | |] => //; split=> //=; rewrite h5.
Qed.

Lemma merge_FI fin g : FI fin -> FI g -> funit g = None -> (ftotal fin + ftotal g <= INT_MAX)%coqZ ->
  exists fin', [/\ MFac.merge O fin g = Ok fin', FI fin', funit fin' = funit fin,
    fprod (facs fin') = fprod (facs fin) * fprod (facs g) & ftotal fin' = (ftotal fin + ftotal g)%coqZ].
Proof.
move=> hf [hg _] hu ht; rewrite /MFac.merge.
have [f1 [-> h1 h2 h3 h4]] := ins_all_ok hf hg ht.
by rewrite bind_ok hu; exists f1.
Qed.
End FacPoly.
