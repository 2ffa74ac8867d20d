(* Final theorems for spffl/containers/tmatrix.h over an arbitrary field.

   [cspec o V I] (PMat.v) says that the element operations o, on the valid element
   values V, compute the field operations of F under the reading I.  [mat_is V I t a]
   says that the matrix object t has the dimensions of a, valid elements, and reads
   as the mathcomp matrix a.  The residues modulo a prime satisfy cspec (C38_fp). *)
From Verif Require Import Base MIntMath MIntmod MMat PIntMath PIntMath2 PIntmod.
From mathcomp Require Import all_ssreflect fingroup perm all_algebra ssrZ.
From Verif Require Import PLin PLin2 PLin3 PMat PMat2 PMat3 PFp.
Set Implicit Arguments.
Unset Strict Implicit.
Unset Printing Implicit Defensive.
Import GRing.Theory.
Delimit Scope Z_scope with coqZ.
Local Open Scope ring_scope.

Section MatIs.
Variables (A : Type) (F : fieldType) (V : A -> Prop) (I : A -> F).

Definition elem_is (x : A) (c : F) : Prop := V x /\ I x = c.
Definition mat_is m n (t : tmat A) (a : 'M[F]_(m, n)) : Prop :=
  [/\ t_nc t = n, length (t_rows t) = m,
      (forall r, List.In r (t_rows t) -> length r = n) &
      forall (i : 'I_m) (j : 'I_n), exists x, el (t_rows t) i j = Ok x /\ elem_is x (a i j)].
Definition vec_is n (v : list A) (a : 'cV[F]_n) : Prop :=
  length v = n /\ forall i : 'I_n, exists x, elt v i = Ok x /\ elem_is x (a i 0).

Lemma rep_mat_is m n t M : rep V I t m n M -> @mat_is m n t (lmx m n M).
Proof.
move=> h; split; first by case: h.
- exact: (rep_nr h).
- case: h => h [sM lM] _ r /(In_nth _ _ [::])[i [hi <-]].
  have hi' : (i < m)%N by rewrite -sM -(F2_size h); apply/ltP.
  have [r' [e [_ sr]]] := Rm_row h (conj sM lM) hi'.
  move: e; rewrite /rowat (nth_error_nth' [::]) -?lengthE; last by apply/ltP.
  have hN T (l : seq T) d k : List.nth k l d = nth d l k by elim: l k => [|x l IH] [|k] //=.
  by move=> -[e]; rewrite hN e.
- by move=> i j; rewrite lmxE; apply: rep_el h _ _.
Qed.

Lemma mat_is_rep m n t (a : 'M[F]_(m, n)) : mat_is t a -> exists2 M, rep V I t m n M & lmx m n M = a.
Proof.
case=> hc hr hl he.
have hN T (l : seq T) d k : List.nth k l d = nth d l k by elim: l k => [|x l IH] [|k] //=.
exists [seq [seq I x | x <- r] | r <- t_rows t]; last first.
  apply/matrixP => i j; rewrite lmxE; have [x [e [_ <-]]] := he i j.
  move: e; rewrite /el /rowat /ent (nth_error_nth' [::]) -?lengthE ?hr //= /elt.
  rewrite (nth_map [::]) -?lengthE ?hr //.
  have hj : (j < size (nth [::] (t_rows t) i))%N.
    by rewrite -lengthE hl // -hN; apply: nth_In; apply/ltP; rewrite hr.
  by rewrite (nth_error_nth' x) // => -[e]; rewrite (nth_map x) // e.
split=> //; last first.
  split; first by rewrite size_map -lengthE hr.
  move=> i hi; rewrite (nth_map [::]); last by rewrite -lengthE hr.
  rewrite size_map -lengthE -hN.
  by apply: hl; apply: nth_In; apply/ltP; rewrite hr.
have hV r x : List.In r (t_rows t) -> List.In x r -> V x.
  move=> hin hx.
  have [i [hi ei]] := In_nth _ _ [::] hin; have [j [hj ej]] := In_nth _ _ x hx.
  have hi' : (i < m)%N by rewrite -hr; apply/ltP.
  have hj' : (j < n)%N by rewrite -(hl r hin); apply/ltP.
  have [y [e [vy _]]] := he (Ordinal hi') (Ordinal hj').
  move: e; rewrite /el /rowat (nth_error_nth' [::]) -?lengthE ?hr //= -hN ei.
  by rewrite /elt (nth_error_nth' x) -?lengthE ?(hl r hin) // => -[]; rewrite -hN ej => ->.
elim: (t_rows t) hV => [|r l IH] hV; constructor; last by apply: IH => r' x h; apply: hV; right.
have {IH} : forall x, List.In x r -> V x by move=> x; apply: hV; left.
by elim: r {hV} => [|x r IH] h; constructor; [split=> //; apply: h; left|apply: IH => y hy; apply: h; right].
Qed.

Lemma mat_is_ex m n t (a : 'M[F]_(m, n)) : mat_is t a <-> exists M, rep V I t m n M /\ lmx m n M = a.
Proof.
split=> [/mat_is_rep[M h e]|[M [h <-]]]; [by exists M | exact: rep_mat_is].
Qed.

Lemma vec_is_rep n v (a : 'cV[F]_n) : vec_is v a -> exists s, [/\ Rr V I v s, size s = n & colv n s = a].
Proof.
case=> hl he.
exists [seq I x | x <- v]; split; last first.
- apply/matrixP => i j; rewrite !mxE ord1; have [x [e [_ <-]]] := he i.
  by move: e; rewrite /elt (nth_error_nth' x) -?lengthE ?hl // => -[e]; rewrite (nth_map x) -?lengthE ?hl // e.
- by rewrite size_map.
have hV x : List.In x v -> V x.
  move=> hx; have [j [hj ej]] := In_nth _ _ x hx.
  have hj' : (j < n)%N by rewrite -hl; apply/ltP.
  have [y [e [vy _]]] := he (Ordinal hj'); move: e.
  have hN T (l : seq T) d k : List.nth k l d = nth d l k by elim: l k => [|z l IH] [|k] //=.
  by rewrite /elt (nth_error_nth' x) -?lengthE ?hl // => -[]; rewrite -hN ej => ->.
by elim: (v) hV => [|x r IH] h; constructor; [split=> //; apply: h; left|apply: IH => y hy; apply: h; right].
Qed.
Lemma rep_vec_is n v s : Rr V I v s -> size s = n -> @vec_is n v (colv n s).
Proof.
move=> h hs; split; first by rewrite lengthE (F2_size h).
move=> i; rewrite mxE.
have hi : (i < size v)%N by rewrite (F2_size h) hs.
case E : v hi => [//|x0 v'] hi; rewrite -E in hi *.
exists (nth x0 v i); rewrite /elt (nth_error_nth' x0) //; split=> //.
by apply: (F2_nth _ _ h); rewrite hs.
Qed.
End MatIs.

(* reduced row echelon form; pv lists the pivot columns *)
Definition is_rref (F : fieldType) m n (b : 'M[F]_(m, n)) : Prop :=
  exists pv : seq nat, [/\ sorted ltn pv, all (fun c => c < n)%N pv, (size pv <= m)%N &
    forall (i : 'I_m) (j : 'I_n),
      [/\ (size pv <= i)%N -> b i j = 0,
          (i < size pv)%N -> (j < nth 0%N pv i)%N -> b i j = 0 &
          forall k, (k < size pv)%N -> j = nth 0%N pv k :> nat -> b i j = (i == k :> nat)%:R]].

Section Thms.
Variables (A : Type) (o : cops A) (F : fieldType) (V : A -> Prop) (I : A -> F).
Hypothesis spec : cspec o V I.
Local Notation elem_is := (elem_is V I).
Local Notation mat_is := (mat_is V I).
Local Notation vec_is := (vec_is V I).

Section Rect.
Variables (m n : nat).
Hypotheses (Hm : (0 < m)%N) (Hn : (0 < n)%N).

Lemma rech_thm t (a : 'M[F]_(m, n)) : mat_is t a ->
  exists t' (b : 'M[F]_(m, n)), [/\ row_echelon_form o t = Ok t', mat_is t' b, is_rref b & (a :=: b)%MS].
Proof.
case/mat_is_rep => M h <-; have [t' [e h']] := rech_ok spec Hm Hn h.
have [pv [hs hr hred]] := prech_ok (let: And3 _ s _ := h in s).
exists t', (lmx m n (prech n M)); split=> //; [exact: rep_mat_is | | exact: reduces_eqmx].
have he := rref_ech hr.
exists pv; split; [exact: ech_sorted he | | exact: ech_size he |].
  by apply/allP => c /(nthP 0%N)[i hi <-]; apply: (ech_lt he).
move=> i j; rewrite lmxE; split.
- by move=> hi; apply: (ech_rest he); rewrite ?hi /=.
- by move=> hi hj; apply: (ech_before he).
- by move=> k hk ->; apply: (rref_delta hr).
Qed.

Lemma rank_thm t (a : 'M[F]_(m, n)) : mat_is t a -> get_rank o t = Ok (\rank a).
Proof. by case/mat_is_rep => M h <-; apply: (rank_ok spec Hm Hn h). Qed.

Lemma kernel_thm t (a : 'M[F]_(m, n)) zero one : mat_is t a -> elem_is zero 0 -> elem_is one 1 ->
  exists r, get_kernel_basis o t zero one = Ok r /\
    match r with
    | None => forall v : 'cV[F]_n, a *m v = 0 -> v = 0
    | Some t' => exists k : 'M[F]_(n - \rank a, n), 
        [/\ (0 < n - \rank a)%N, mat_is t' k, row_free k &
            forall v : 'rV[F]_n, (v <= k)%MS = (a *m v^T == 0)]
    end.
Proof.
case/mat_is_rep => M h <- hz ho; have [pv [hs hr]] := kernel_ok spec Hm Hn h hz ho.
have [pv' [hs' hr' hred]] := prech_ok (let: And3 _ s _ := h in s).
have hrk : size pv = \rank (lmx m n M).
  by rewrite -(ech_rank (rref_ech hr)) (reduces_eqmx hred).
case: eqP => [hsz e|/eqP hsz].
  exists None; split=> // v hv; apply: (rank_inj (A := lmx m n M)); first by rewrite -hrk.
  by rewrite hv mulmx0.
case=> t' [e h']; exists (Some t'); split=> //; rewrite -hrk.
exists (lmx (n - size pv) n (kbasis n (prech n M) pv)); split.
- rewrite subn_gt0 ltn_neqAle hsz /= hrk; exact: rank_leq_col.
- exact: rep_mat_is.
- exact: kbasis_free hr.
- move=> v; rewrite (kbasis_span hr); exact/esym/reduces_ker.
Qed.

Lemma solve_thm t (a : 'M[F]_(m, n)) v (b : 'cV[F]_m) : mat_is t a -> vec_is v b ->
  exists r, solve_unique o t v = Ok r /\
    match r with
    | Some w => exists x : 'cV[F]_n, vec_is w x /\ forall y : 'cV[F]_n, a *m y = b <-> y = x
    | None => ~ exists x : 'cV[F]_n, forall y : 'cV[F]_n, a *m y = b <-> y = x
    end.
Proof.
case/mat_is_rep => M h <- /vec_is_rep[s [hs ss <-]].
have [r [e hr]] := solve_ok spec Hm Hn h hs ss; exists r; split=> //.
case: r {e} hr => [x [xs [h1 h2 h3]]|hn [x hx]].
  by exists (colv n xs); split=> //; apply: rep_vec_is.
by apply: hn; exists x; split; [apply/hx | move=> y /hx].
Qed.

Lemma matvec_thm t (a : 'M[F]_(m, n)) v (b : 'cV[F]_n) : mat_is t a -> vec_is v b ->
  exists w, mat_vec o t v = Ok w /\ vec_is w (a *m b).
Proof.
case/mat_is_rep => M h <- /vec_is_rep[s [hs ss <-]].
have [w [ws [e h1 h2 h3]]] := mat_vec_ok spec Hm Hn h hs ss.
by exists w; split=> //; rewrite -h3; apply: rep_vec_is.
Qed.

Lemma entry_thm t u (a b : 'M[F]_(m, n)) c (d : F) : mat_is t a -> mat_is u b -> elem_is c d ->
  [/\ exists w, mat_add o t u = Ok w /\ mat_is w (a + b),
      exists w, mat_sub o t u = Ok w /\ mat_is w (a - b),
      exists w, mat_neg o t = Ok w /\ mat_is w (- a),
      exists w, mat_smul o t c = Ok w /\ mat_is w (d *: a) &
      exists w, mat_transpose t = Ok w /\ mat_is w a^T].
Proof.
case/mat_is_rep => M h <- /mat_is_rep[N h' <-] hc; split.
- have [w [P [e hw <-]]] := add_ok spec Hm Hn h h'; exists w; split=> //; exact: rep_mat_is.
- have [w [P [e hw <-]]] := sub_ok spec Hm Hn h h'; exists w; split=> //; exact: rep_mat_is.
- have [w [P [e hw <-]]] := neg_ok spec Hm Hn h; exists w; split=> //; exact: rep_mat_is.
- have [w [P [e hw <-]]] := smul_ok spec Hm Hn h hc; exists w; split=> //; exact: rep_mat_is.
- have [w [P [e hw <-]]] := transpose_ok Hm Hn h; exists w; split=> //; exact: rep_mat_is.
Qed.

Lemma mul_thm k t u (a : 'M[F]_(m, n)) (b : 'M[F]_(n, k)) : (0 < k)%N -> mat_is t a -> mat_is u b ->
  exists w, mat_mul o t u = Ok w /\ mat_is w (a *m b).
Proof.
move=> hk /mat_is_rep[M h <-] /mat_is_rep[N h' <-].
have [w [P [e hw <-]]] := mul_ok spec Hm Hn hk h h'; exists w; split=> //; exact: rep_mat_is.
Qed.
End Rect.

Section Sq.
Variable n : nat.
Hypothesis Hn : (0 < n)%N.

Lemma det_thm t (a : 'M[F]_n) : mat_is t a ->
  exists d, mat_det o t = Ok d /\ elem_is d (\sum_(s : 'S_n) (-1) ^+ s * \prod_(i < n) a i (s i)).
Proof. by case/mat_is_rep => M h <-; apply: (det_ok spec Hn h). Qed.

Lemma inverse_thm dflt t0 t (a : 'M[F]_n) : mat_is t a ->
  exists b t', [/\ mat_inverse o dflt t t0 = Ok (b, t'), b = (\det a != 0) &
    b -> exists c : 'M[F]_n, [/\ mat_is t' c, a *m c = 1%:M & c *m a = 1%:M]].
Proof.
case/mat_is_rep => M h <-; have [b [t' [e [h1 h2]]]] := inverse_ok spec dflt t0 Hn h.
exists b, t'; split=> //; first by rewrite h1 unitmxE unitfE.
case/h2 => N [hN e1 e2]; exists (lmx n n N); split=> //; exact: rep_mat_is.
Qed.

Lemma paste_thm k t u (a : 'M[F]_n) (b : 'M[F]_(n, k)) dflt : mat_is t a -> mat_is u b ->
  exists w, mat_paste dflt t u = Ok w /\ mat_is w (row_mx a b).
Proof.
case/mat_is_rep => M h <- /mat_is_rep[N h' <-].
have [w [e hw]] := paste_ok dflt Hn h h'; exists w; split=> //.
by rewrite -paste_lmx; [exact: rep_mat_is | case: h | case: h'].
Qed.

Lemma mxpow0 k : mxpow (0 : 'M[F]_n) k.+1 = 0.
Proof. by rewrite /mxpow /= mul0mx. Qed.

Lemma exp_thm dflt t (a : 'M[F]_n) (e : Z) : mat_is t a -> Z.lt INT_MIN e -> Z.le e INT_MAX ->
  [/\ Z.lt 0 e -> exists r, mat_exp o dflt t e = Ok (Some r) /\ mat_is r (mxpow a (Z.to_nat e)),
      Z.le e 0 -> \det a != 0 -> exists r, mat_exp o dflt t e = Ok (Some r) /\
          mat_is r (mxpow (invmx a) (Z.to_nat (Z.opp e))),
      Z.le e 0 -> \det a = 0 -> a != 0 -> mat_exp o dflt t e = Ok None &
      Z.le e 0 -> a = 0 -> mat_exp o dflt t e = Exn].
Proof.
case/mat_is_rep => M h <- h0 h1; have [H1 H2 H3 H4] := exp_ok spec dflt Hn h h0 h1.
have fin r (c : 'M[F]_n) : repx V I r c -> mat_is r c.
  by case=> N [hN <-]; apply: rep_mat_is.
split=> //.
- move=> he; have [r [er [h2 h3]]] := H1 he; exists r; split=> //; apply: fin.
  case: (lmx n n M =P 0) => [e0|/eqP]; last exact: h2.
  have [k ->] : exists k, Z.to_nat e = k.+1 by exists (Z.to_nat e).-1; lia.
  by rewrite e0 mxpow0 -e0; apply: h3.
- move=> he hd; have [|r [er hr]] := H2 he; first by rewrite unitmxE unitfE.
  by exists r; split=> //; apply: fin.
- move=> he hd na; apply: H3 => //; by rewrite unitmxE unitfE hd eqxx.
Qed.
End Sq.
End Thms.

(* ---- C38 ---- *)
Theorem C38_row_echelon (A : Type) (o : cops A) (F : fieldType) (V : A -> Prop) (I : A -> F) :
  cspec o V I -> forall m n t (a : 'M[F]_(m, n)), (0 < m)%N -> (0 < n)%N -> mat_is V I t a ->
  exists t' (b : 'M[F]_(m, n)), [/\ row_echelon_form o t = Ok t', mat_is V I t' b, is_rref b & (a :=: b)%MS].
Proof. exact (fun s m n t a hm hn => rech_thm s hm hn (t := t) (a := a)). Qed.
Theorem C38_rank (A : Type) (o : cops A) (F : fieldType) (V : A -> Prop) (I : A -> F) :
  cspec o V I -> forall m n t (a : 'M[F]_(m, n)), (0 < m)%N -> (0 < n)%N -> mat_is V I t a ->
  get_rank o t = Ok (\rank a).
Proof. exact (fun s m n t a hm hn => rank_thm s hm hn (t := t) (a := a)). Qed.
(* residues modulo a prime are a field in the sense used above, after any history of
   reciprocal calls, and every element of the field is represented *)
Theorem C38_fp (p : nat) (hist : list intmod) : prime p -> Z.le (Z.of_nat p) 46341 ->
  (forall a, List.In a hist -> Z.le 1 (modulus a) /\ Z.le (modulus a) INT_MAX) ->
  @cspec _ (im_ops (cache_after hist)) [fieldType of 'F_p] (Vp p) (Ip p) /\
  (forall x : 'F_p, Vp p (fp_of x) /\ Ip p (fp_of x) = x) /\
  (forall a b, Vp p a -> Vp p b -> Ip p a = Ip p b -> a = b).
Proof.
exact (fun pp hp hh => conj (im_cspec pp (cache_after_valid hist hh) hp)
  (conj (fun x => conj (fp_of_V pp x) (fp_of_I x)) (fun a b => @Ip_inj p pp a b))).
Qed.

(* ---- C39 ---- *)
Theorem C39_kernel (A : Type) (o : cops A) (F : fieldType) (V : A -> Prop) (I : A -> F) :
  cspec o V I -> forall m n t (a : 'M[F]_(m, n)) zero one, (0 < m)%N -> (0 < n)%N -> mat_is V I t a ->
  elem_is V I zero 0 -> elem_is V I one 1 ->
  exists r, get_kernel_basis o t zero one = Ok r /\
    match r with
    | None => forall v : 'cV[F]_n, a *m v = 0 -> v = 0
    | Some t' => exists k : 'M[F]_(n - \rank a, n), 
        [/\ (0 < n - \rank a)%N, mat_is V I t' k, row_free k &
            forall v : 'rV[F]_n, (v <= k)%MS = (a *m v^T == 0)]
    end.
Proof. exact (fun s m n t a z i hm hn => kernel_thm s hm hn (t := t) (a := a) (zero := z) (one := i)). Qed.

(* ---- C40 ---- *)
Theorem C40_det (A : Type) (o : cops A) (F : fieldType) (V : A -> Prop) (I : A -> F) :
  cspec o V I -> forall n t (a : 'M[F]_n), (0 < n)%N -> mat_is V I t a ->
  exists d, mat_det o t = Ok d /\ elem_is V I d (\sum_(s : 'S_n) (-1) ^+ s * \prod_(i < n) a i (s i)).
Proof. exact (fun s n t a hn => det_thm s hn (t := t) (a := a)). Qed.
Theorem C40_inverse (A : Type) (o : cops A) (F : fieldType) (V : A -> Prop) (I : A -> F) :
  cspec o V I -> forall n dflt t0 t (a : 'M[F]_n), (0 < n)%N -> mat_is V I t a ->
  exists b t', [/\ mat_inverse o dflt t t0 = Ok (b, t'), b = (\det a != 0) &
    b -> exists c : 'M[F]_n, [/\ mat_is V I t' c, a *m c = 1%:M & c *m a = 1%:M]].
Proof. exact (fun s n d t0 t a hn => inverse_thm s hn d t0 (t := t) (a := a)). Qed.
Theorem C40_solve (A : Type) (o : cops A) (F : fieldType) (V : A -> Prop) (I : A -> F) :
  cspec o V I -> forall m n t (a : 'M[F]_(m, n)) v (b : 'cV[F]_m), (0 < m)%N -> (0 < n)%N ->
  mat_is V I t a -> vec_is V I v b ->
  exists r, solve_unique o t v = Ok r /\
    match r with
    | Some w => exists x : 'cV[F]_n, vec_is V I w x /\ forall y : 'cV[F]_n, a *m y = b <-> y = x
    | None => ~ exists x : 'cV[F]_n, forall y : 'cV[F]_n, a *m y = b <-> y = x
    end.
Proof. exact (fun s m n t a v b hm hn => solve_thm s hm hn (t := t) (a := a) (v := v) (b := b)). Qed.

(* ---- C51 ---- *)
Theorem C51_arith (A : Type) (o : cops A) (F : fieldType) (V : A -> Prop) (I : A -> F) :
  cspec o V I -> forall m n t u (a b : 'M[F]_(m, n)) c (d : F), (0 < m)%N -> (0 < n)%N ->
  mat_is V I t a -> mat_is V I u b -> elem_is V I c d ->
  [/\ exists w, mat_add o t u = Ok w /\ mat_is V I w (a + b),
      exists w, mat_sub o t u = Ok w /\ mat_is V I w (a - b),
      exists w, mat_neg o t = Ok w /\ mat_is V I w (- a),
      exists w, mat_smul o t c = Ok w /\ mat_is V I w (d *: a) &
      exists w, mat_transpose t = Ok w /\ mat_is V I w a^T].
Proof. exact (fun s m n t u a b c d hm hn => entry_thm s hm hn (t := t) (u := u) (a := a) (b := b) (c := c) (d := d)). Qed.
Theorem C51_mul (A : Type) (o : cops A) (F : fieldType) (V : A -> Prop) (I : A -> F) :
  cspec o V I -> forall m n k t u (a : 'M[F]_(m, n)) (b : 'M[F]_(n, k)), (0 < m)%N -> (0 < n)%N -> (0 < k)%N ->
  mat_is V I t a -> mat_is V I u b -> exists w, mat_mul o t u = Ok w /\ mat_is V I w (a *m b).
Proof. exact (fun s m n k t u a b hm hn hk => mul_thm s hm hn hk (t := t) (u := u) (a := a) (b := b)). Qed.
Theorem C51_mul_vec (A : Type) (o : cops A) (F : fieldType) (V : A -> Prop) (I : A -> F) :
  cspec o V I -> forall m n t (a : 'M[F]_(m, n)) v (b : 'cV[F]_n), (0 < m)%N -> (0 < n)%N ->
  mat_is V I t a -> vec_is V I v b -> exists w, mat_vec o t v = Ok w /\ vec_is V I w (a *m b).
Proof. exact (fun s m n t a v b hm hn => matvec_thm s hm hn (t := t) (a := a) (v := v) (b := b)). Qed.
Theorem C51_exp (A : Type) (o : cops A) (F : fieldType) (V : A -> Prop) (I : A -> F) :
  cspec o V I -> forall n dflt t (a : 'M[F]_n) (e : Z), (0 < n)%N -> mat_is V I t a ->
  Z.lt INT_MIN e -> Z.le e INT_MAX ->
  [/\ Z.lt 0 e -> exists r, mat_exp o dflt t e = Ok (Some r) /\ mat_is V I r (iter (Z.to_nat e) (mulmx a) 1%:M),
      Z.le e 0 -> \det a != 0 -> exists r, mat_exp o dflt t e = Ok (Some r) /\
          mat_is V I r (iter (Z.to_nat (Z.opp e)) (mulmx (invmx a)) 1%:M),
      Z.le e 0 -> \det a = 0 -> a != 0 -> mat_exp o dflt t e = Ok None &
      Z.le e 0 -> a = 0 -> mat_exp o dflt t e = Exn].
Proof. exact (fun s n d t a e hn => exp_thm s hn d (t := t) (a := a) (e := e)). Qed.
Theorem C51_paste_square (A : Type) (F : fieldType) (V : A -> Prop) (I : A -> F) 
  n k dflt t u (a : 'M[F]_n) (b : 'M[F]_(n, k)) : (0 < n)%N ->
  mat_is V I t a -> mat_is V I u b -> exists w, mat_paste dflt t u = Ok w /\ mat_is V I w (row_mx a b).
Proof. exact (fun hn => paste_thm hn dflt (t := t) (u := u) (a := a) (b := b)). Qed.
(* Pasting onto a matrix that is not square overwrites its last columns: the second
   block is written at column offset num_rows. *)
Theorem C51_paste_refuted :
  mat_paste (mkim (-1) 0) (mkmat [:: [:: mkim 1 5; mkim 2 5]] 2) (mkmat [:: [:: mkim 3 5]] 1)
  = Ok (mkmat [:: [:: mkim 1 5; mkim 3 5; mkim (-1) 0]] 3).
Proof. reflexivity. Qed.

Definition ex_r (l : list Z) : list intmod := List.map (fun x => mkim x 7) l.
Definition ex_a : tmat intmod := mkmat (List.map ex_r [:: [:: 1; 2; 3]; [:: 2; 4; 6]; [:: 1; 0; 5]]%coqZ) 3.
Definition ex_b : tmat intmod := mkmat (List.map ex_r [:: [:: 0; 2]; [:: 3; 4]]%coqZ) 2.
Definition ex_o := im_ops cache_init.
Example C38_ex : prime 7 /\ row_echelon_form ex_o ex_a =
    Ok (mkmat (List.map ex_r [:: [:: 1; 0; 5]; [:: 0; 1; 6]; [:: 0; 0; 0]]%coqZ) 3)
  /\ get_rank ex_o ex_a = Ok 2%N.
Proof. by split=> //; split; vm_compute. Qed.
Example C39_ex : get_kernel_basis ex_o ex_a (mkim 0 7) (mkim 1 7) =
    Ok (Some (mkmat (List.map ex_r [:: [:: 2; 1; 1]]%coqZ) 3))
  /\ get_kernel_basis ex_o ex_b (mkim 0 7) (mkim 1 7) = Ok None.
Proof. by split; vm_compute. Qed.
Example C40_ex : mat_det ex_o ex_b = Ok (mkim 1 7) /\ mat_det ex_o ex_a = Ok (mkim 0 7) /\
  mat_inverse ex_o im_default ex_b ex_b = Ok (true, mkmat (List.map ex_r [:: [:: 4; 5]; [:: 4; 0]]%coqZ) 2) /\
  solve_unique ex_o ex_b (ex_r [:: 1; 1]%coqZ) = Ok (Some (ex_r [:: 2; 4]%coqZ)).
Proof. by repeat split; vm_compute. Qed.
Example C51_ex : mat_exp ex_o im_default ex_b (Zneg 2) =
  Ok (Some (mkmat (List.map ex_r [:: [:: 1; 6]; [:: 2; 6]]%coqZ) 2)).
Proof. by vm_compute. Qed.

Print Assumptions C38_row_echelon. Print Assumptions C38_rank. Print Assumptions C38_fp.
Print Assumptions C39_kernel. Print Assumptions C40_det. Print Assumptions C40_inverse. Print Assumptions C40_solve.
Print Assumptions C51_arith. Print Assumptions C51_mul. Print Assumptions C51_mul_vec. Print Assumptions C51_exp.
Print Assumptions C51_paste_square. Print Assumptions C51_paste_refuted.
