(* Bit matrices as matrices over the field with two elements. *)
From Verif Require Import Base MIntMath MMat MBits PPow PBits PBits2.
From mathcomp Require Import all_ssreflect fingroup perm all_algebra ssrZ.
From Verif Require Import PLin PLin2 PLin3 PMat PMat2 PMat3 PropMat.
Set Implicit Arguments.
Unset Strict Implicit.
Unset Printing Implicit Defensive.
Import GRing.Theory.
Delimit Scope Z_scope with coqZ.
Local Open Scope ring_scope.

Definition Vb (b : bool) : Prop := True.
Definition Ib (b : bool) : 'F_2 := (b : nat)%:R.
Lemma Ib_xor x y : Ib (xorb x y) = Ib x + Ib y.
Proof. by case: x; case: y; apply/eqP. Qed.
Lemma Ib_and x y : Ib (andb x y) = Ib x * Ib y.
Proof. by case: x; case: y; apply/eqP. Qed.
Lemma Ib_inj : injective Ib.
Proof. by case; case. Qed.
Lemma Ib_sub x y : Ib x - Ib y = Ib x + Ib y.
Proof. by case: x; case: y; apply/eqP. Qed.
Lemma Ib_opp x : - Ib x = Ib x.
Proof. by case: x; apply/eqP. Qed.
Lemma Ib_surj (x : 'F_2) : exists b, Ib b = x.
Proof. by case: x => [[|[|k]] hk] //; [exists false|exists true]; apply: val_inj. Qed.

Lemma bit_cspec : @cspec bool bit_ops [fieldType of 'F_2] Vb Ib.
Proof.
split.
- by move=> x y _ _; exists (xorb x y); rewrite Ib_xor.
- by move=> x y _ _; exists (xorb x y); rewrite Ib_xor Ib_sub.
- by move=> x y _ _; exists (andb x y); rewrite Ib_and.
- by move=> x _; exists x; rewrite Ib_opp.
- move=> x y _ _; case: y => // _; exists x; split=> //; split=> //.
  by rewrite [Ib true](_ : _ = 1) ?divr1.
- by move=> x y _ _; rewrite (inj_eq Ib_inj); case: x; case: y.
Qed.

(* what a bit matrix object stands for *)
Definition bmat_is m n (t : bmat) (a : 'M['F_2]_(m, n)) : Prop :=
  exists L, brep t m n L /\ forall (i : 'I_m) (j : 'I_n), Ib (bent L i j) = a i j.
Definition bvec_is n (v : bvec) (x : 'cV['F_2]_n) : Prop :=
  exists l, B v l /\ length l = n /\ forall i : 'I_n, Ib (nth false l i) = x i 0.

Lemma nthE T (l : seq T) d k : List.nth k l d = nth d l k.
Proof. by elim: l k => [|x l IH] [|k] //=. Qed.

Section Conv.
Variables (m n : nat).
Lemma brep_mat_is t L (a : 'M['F_2]_(m, n)) : brep t m n L ->
  (forall (i : 'I_m) (j : 'I_n), Ib (bent L i j) = a i j) -> mat_is Vb Ib (mkmat L n) a.
Proof.
case=> [hB [hR [hL hn]]] he; split=> //=.
- by move=> r /(In_nth _ _ [::])[i [hi <-]]; apply: hR.
- move=> i j; exists (bent L i j); split; last by split.
  by apply: (el_ok _ _ hR); [rewrite hL; apply/ltP|apply/ltP].
Qed.
Lemma mat_is_ent L (a : 'M['F_2]_(m, n)) : rect n L -> mat_is Vb Ib (mkmat L n) a ->
  forall (i : 'I_m) (j : 'I_n), Ib (bent L i j) = a i j.
Proof.
move=> hR [/= _ hm _ he] i j; have [x [e [_ <-]]] := he i j.
by move: e; rewrite (el_ok _ _ hR) ?hm => [[->]||]//; apply/ltP.
Qed.
Lemma brep_bmat_is t L (a : 'M['F_2]_(m, n)) : brep t m n L -> mat_is Vb Ib (mkmat L n) a -> bmat_is t a.
Proof. by move=> h h'; exists L; split=> //; apply: mat_is_ent => //; case: h => _ []. Qed.
End Conv.

Lemma zrl (L : list (list bool)) : forall r, (forall i, (i < size L)%N ->
   (if first_true (nth [::] L i) is Some _ then true else false) = (i < r)%N) ->
  zero_rows_last L /\ ((r <= size L)%N -> nzprefix L = r).
Proof.
rewrite /zero_rows_last; elim: L => [|l L IH] r H /=; first by split=> //; rewrite leqn0 => /eqP.
have := H 0%N isT; rewrite /=; case E: (first_true l) => [k|] h0.
  have [|h1 h2] := IH r.-1.
    by move=> i hi; rewrite (H i.+1) //; case: (r) h0 => // r'.
  by rewrite /= h1; split=> // hr; rewrite -h1 h2; case: (r) h0 hr.
have r0 : r = 0%N by case: (r) h0.
split; last by rewrite r0.
have : forall l', List.In l' L -> (if first_true l' is Some _ then true else false) = false.
  move=> l' /(In_nth _ _ [::])[i [/ltP hi <-]]; rewrite nthE.
  by have := H i.+1 hi; rewrite /= => ->; rewrite r0.
elim: (L) => [//|x L' IH'] /= h; rewrite h; last by left.
by apply: IH' => y hy; apply: h; right.
Qed.

Lemma zrl_ech m n L M pv : rep Vb Ib (mkmat L n) m n M -> ech m n M pv n ->
  zero_rows_last L /\ nzprefix L = size pv.
Proof.
case=> /= h hs _ he.
have hsz : size L = m by rewrite (F2_size h); case: hs.
have [|h1 h2] := @zrl L (size pv); last by split=> //; apply: h2; rewrite hsz (ech_size he).
move=> i; rewrite hsz => hi.
rewrite -(ech_has hs he hi).
have hr : Rr Vb Ib (nth [::] L i) (nth [::] M i) by apply: (F2_nth _ _ h); case: hs => ->.
elim: hr => [//|x y l l' [_ <-] _ IH] /=; rewrite -IH.
by case: x => //=; case: (first_true l).
Qed.

Section Rect.
Variables (m n : nat).
Hypotheses (Hm : (0 < m)%N) (Hn : (0 < n)%N).
Let Hm' : (0 < m)%coq_nat. Proof. exact/ltP. Qed.
Let Hn' : (0 < n)%coq_nat. Proof. exact/ltP. Qed.

Lemma bm_rech_thm t (a : 'M['F_2]_(m, n)) : bmat_is t a ->
  exists t' (b : 'M['F_2]_(m, n)), [/\ bm_rech t = Ok t', bmat_is t' b, is_rref b & (a :=: b)%MS].
Proof.
case=> L [h he]; have hm := brep_mat_is h he.
have [t' [L' [e1 [h1 e2]]]] := bm_rech_ok _ _ _ _ h Hm' Hn'.
have [t2 [b [e3 h3 h4 h5]]] := rech_thm bit_cspec Hm Hn hm.
move: e3; rewrite e2 => -[E]; rewrite -E in h3.
by exists t', b; split=> //; apply: brep_bmat_is h3.
Qed.

Lemma bm_rank_thm t (a : 'M['F_2]_(m, n)) : bmat_is t a -> bm_rank t = Ok (\rank a).
Proof.
case=> L [h he]; have hm := brep_mat_is h he.
have [c [ec hc]] := bm_copy_ok _ _ _ _ h.
have [t1 [L1 [e1 [h1 e2]]]] := bm_rr_ok _ _ _ _ hc Hm' Hn'.
rewrite /bm_rank ec bind_ok e1 bind_ok (bm_rank_rr_ok _ _ _ _ h1).
case/mat_is_rep: hm => M hM <-.
have [t2 [e3 h3]] := rr_ok bit_cspec Hm Hn hM.
move: e3; rewrite e2 => -[E]; rewrite -E in h3; case: hM => _ hs _.
have [pv [hs1 hech [P uP [hP _]]]] :=
  @prr_ok _ n M 0 0 1 m n [::] hs (erefl _) (ech0 _ _ _) (add0n n).
have [_ ->] := zrl_ech h3 hech; congr Ok.
by rewrite -(ech_rank hech) hP (eqmxMfull _ _) // row_full_unit.
Qed.

Lemma rech_zrl t L (a : 'M['F_2]_(m, n)) : brep t m n L -> mat_is Vb Ib (mkmat L n) a ->
  forall L', row_echelon_form bit_ops (mkmat L n) = Ok (mkmat L' n) -> zero_rows_last L'.
Proof.
move=> h /mat_is_rep[M hM _] L' eL.
have [t2 [e3 h3]] := rech_ok bit_cspec Hm Hn hM.
move: e3; rewrite eL => -[E]; rewrite -E in h3.
have [pv [hs hr _]] := prech_ok (let: And3 _ s _ := hM in s).
by have [] := zrl_ech h3 (rref_ech hr).
Qed.

Lemma bm_kernel_thm tm t (a : 'M['F_2]_(m, n)) rbas : bmat_is t a -> bm_any rbas -> fill_allowed tm n ->
  exists r, bm_kernel tm t rbas = Ok r /\
    match r with
    | None => forall v : 'cV['F_2]_n, a *m v = 0 -> v = 0
    | Some t' => exists k : 'M['F_2]_(n - \rank a, n),
        [/\ (0 < n - \rank a)%N, bmat_is t' k, row_free k &
            forall v : 'rV['F_2]_n, (v <= k)%MS = (a *m v^T == 0)]
    end.
Proof.
case=> L [h he] hb hf; have hm := brep_mat_is h he.
have [r [er hr]] := @kernel_thm _ _ _ _ _ bit_cspec m n Hm Hn _ _ false true hm (conj I erefl) (conj I erefl).
have [r' [er' hr']] := bm_kernel_ok _ _ _ _ _ _ _ h Hm' Hn' hf hb (rech_zrl h hm) er.
exists r'; split=> //; case: r er hr hr' => [k|] er; case: r' er' => [k'|] er' // [k0 [h1 h2 h3 h4]] [hc hk].
exists k0; split=> //; case: (h2) => _ hl _ _.
rewrite hl in hk; apply: brep_bmat_is hk _.
have -> : mkmat (t_rows k) n = k by case: (k) hc => rows nc /= ->.
exact: h2.
Qed.

Lemma bm_kernel_ub_thm t (a : 'M['F_2]_(m, n)) rbas : bmat_is t a -> (n %% 64)%N <> 0%N -> (\rank a < n)%N ->
  bm_kernel None t rbas = UB.
Proof.
case=> L [h he] h64 hrk; have hm := brep_mat_is h he.
have [r [er hr]] := @kernel_thm _ _ _ _ _ bit_cspec m n Hm Hn _ _ false true hm (conj I erefl) (conj I erefl).
case: r er hr => [k|] er hr.
  apply: (bm_kernel_ub _ _ _ _ _ _ h Hm' Hn' _ (rech_zrl h hm) er) => h0; apply: h64.
  by rewrite {1}(Nat.div_mod n 64) // h0 plusE multE addn0 modnMr.
have : kermx a^T != 0.
  by rewrite -mxrank_eq0 mxrank_ker mxrank_tr subn_eq0 -ltnNge.
case/rowV0Pn => v /sub_kermxP hv /eqP nv; case: nv.
apply: trmx_inj; rewrite trmx0; apply: hr.
by apply: trmx_inj; rewrite trmx_mul trmxK hv trmx0.
Qed.
End Rect.

Lemma bm_det_thm n t (a : 'M['F_2]_n) : (0 < n)%N -> bmat_is t a ->
  exists d, bm_det t = Ok d /\ Ib d = \sum_(s : 'S_n) (-1) ^+ s * \prod_(i < n) a i (s i).
Proof.
move=> hn [L [h he]]; have hm := brep_mat_is h he.
have [d [e [_ hd]]] := det_thm bit_cspec hn hm.
by exists d; split=> //; apply: (bm_det_ok _ _ _ _ h _ e); apply/ltP.
Qed.

Lemma xsum_sum k (f : nat -> bool) : Ib (xsum (List.map f (List.seq 0 k))) = \sum_(i < k) Ib (f i).
Proof.
elim: k => [|k IH]; first by rewrite big_ord0.
by rewrite seq_S map_app xsum_app Ib_xor IH big_ord_recr /= xorb_false_r.
Qed.

Lemma tabf_bmat_is m n t f (a : 'M['F_2]_(m, n)) : brep t m n (tabf m n f) ->
  (forall (i : 'I_m) (j : 'I_n), Ib (f i j) = a i j) -> bmat_is t a.
Proof.
by move=> h he; exists (tabf m n f); split=> // i j; rewrite tabf_bent ?he //; apply/ltP.
Qed.

Lemma bm_mul_thm tm m n k t u (a : 'M['F_2]_(m, n)) (b : 'M['F_2]_(n, k)) :
  (0 < m)%N -> (0 < n)%N -> (0 < k)%N -> fill_allowed tm k -> bmat_is t a -> bmat_is u b ->
  exists w, bm_mul tm t u = Ok w /\ bmat_is w (a *m b).
Proof.
move=> /ltP hm /ltP hn /ltP hk hf [L [h he]] [L' [h' he']].
have [w [e hw]] := bm_mul_ok tm _ _ _ _ _ _ _ h h' hm hn hk hf.
exists w; split=> //; apply: (tabf_bmat_is hw) => i j; rewrite mxE /mulent xsum_sum.
by apply: eq_bigr => l _; rewrite Ib_and he he'.
Qed.

Lemma bm_transpose_thm m n t (a : 'M['F_2]_(m, n)) : (0 < m)%N -> (0 < n)%N -> bmat_is t a ->
  exists w, bm_transpose t = Ok w /\ bmat_is w a^T.
Proof.
move=> /ltP hm /ltP hn [L [h he]]; have [w [e hw]] := bm_transpose_ok _ _ _ _ h hm hn.
by exists w; split=> //; apply: (tabf_bmat_is hw) => i j; rewrite mxE he.
Qed.

Lemma bm_add_thm m n t u (a b : 'M['F_2]_(m, n)) : (0 < m)%N -> (0 < n)%N -> bmat_is t a -> bmat_is u b ->
  exists w, bm_add t u = Ok w /\ bmat_is w (a + b).
Proof.
move=> /ltP hm /ltP hn [L [h he]] [L' [h' he']]; have [w [e hw]] := bm_add_ok _ _ _ _ _ _ h h' hm hn.
by exists w; split=> //; apply: (tabf_bmat_is hw) => i j; rewrite mxE Ib_xor he he'.
Qed.

Lemma bm_exp_thm tm n t (a : 'M['F_2]_n) e : (0 < n)%N -> fill_allowed tm n -> bmat_is t a ->
  Z.le 1 e -> Z.le e INT_MAX ->
  exists w, bm_exp tm t e = Ok (Some w) /\ bmat_is w (iter (Z.to_nat e) (mulmx a) 1%:M).
Proof.
move=> hn hf ht h1 h2; have hn' : (0 < n)%coq_nat by apply/ltP.
have [L [h he]] := ht; case: (h) => hB [_ [hL hnc]].
rewrite /bm_exp /bm_nr (Forall2_len _ _ _ hB) hL hnc Nat.eqb_refl.
have [J [-> hJ]] := bm_make_I_ok _ _ _ h; rewrite bind_ok.
have -> : Z.geb e 1 = true by rewrite Z.geb_leb; apply/Z.leb_le.
rewrite /bm_posexp; have [c [-> hc]] := bm_copy_ok _ _ _ _ h; rewrite bind_ok.
have [c' [-> hc']] := bm_copy_ok _ _ _ _ hJ; rewrite bind_ok.
rewrite posexp_loop_eq; last by split=> //; apply: Z.le_trans h1.
have mulok x y a1 b1 : @bmat_is n n x a1 -> @bmat_is n n y b1 ->
   exists z, bm_mulassign tm x y = Ok z /\ bmat_is z (a1 *m b1).
  move=> [L1 [k1 e1]] [L2 [k2 e2]]; have [z [ez hz]] := bm_mulassign_ok tm _ _ _ _ _ k1 k2 hn' hf.
  exists z; split=> //; apply: (tabf_bmat_is hz) => i j; rewrite mxE /mulent xsum_sum.
  by apply: eq_bigr => l _; rewrite Ib_and e1 e2.
have hpow a1 k y : mpow mulmx a1 k y = y *m iter k (mulmx a1) 1%:M :> 'M['F_2]_n.
  elim: k y => [|k IH] y /=; first by rewrite mulmx1.
  by rewrite IH -mulmxA.
have [|||||r [e1 hr]] := @pow_loop_ok _ _ (bm_mulassign tm) (@bmat_is n n) mulmx mulok (@mulmxA _ n n n n) 34 e c a c' 1%:M.
- by exists L.
- by apply: (tabf_bmat_is hc') => i j; rewrite mxE eqbE.
- by split=> //; apply: Z.le_trans h1.
- by apply: (Z.le_lt_trans _ _ _ h2).
- by apply/leP.
rewrite e1 bind_ok; exists r; split=> //.
by move: hr; rewrite hpow mul1mx.
Qed.

Lemma bm_mul_vec_thm tm m n t v (a : 'M['F_2]_(m, n)) (x : 'cV['F_2]_n) : (0 < m)%N -> fill_allowed tm m ->
  bmat_is t a -> bvec_is v x -> exists w, bm_mul_vec tm t v = Ok w /\ bvec_is w (a *m x).
Proof.
move=> hm hf [L [h he]] [l [hl [sl el]]].
have hm' : (0 < m)%coq_nat by apply/ltP.
have [w [e hw]] := bm_mul_vec_ok tm _ _ _ _ _ _ h hl sl hm' hf.
exists w; split=> //; eexists; split; first exact: hw.
split; first by rewrite map_length seq_length.
move=> i; rewrite -nthE nth_map_seq; last by apply/ltP.
rewrite xsum_sum mxE; apply: eq_bigr => j _.
by rewrite Ib_and he nthE el.
Qed.
