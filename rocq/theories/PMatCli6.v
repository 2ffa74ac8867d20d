(* Matrices over a field: the operators of the matrix evaluator that PropMat.v does not cover.  Uniqueness of the reduced
   row echelon form. *)
From Verif Require Import Base MIntMath MIntmod MMat MMatCli.
From mathcomp Require Import all_ssreflect fingroup perm all_algebra ssrZ.
From Verif Require Import PLin PLin2 PLin3 PMat PMat2 PMat3 PropMat.
Set Implicit Arguments.
Unset Strict Implicit.
Unset Printing Implicit Defensive.
Import GRing.Theory.
Local Open Scope ring_scope.

(* row echelon form with leading ones; pv lists the pivot columns *)
Definition is_ref (F : fieldType) m n (b : 'M[F]_(m, n)) : Prop :=
  exists pv : seq nat, [/\ sorted ltn pv, all (fun c => c < n)%N pv, (size pv <= m)%N &
    forall (i : 'I_m) (j : 'I_n),
      [/\ (size pv <= i)%N -> b i j = 0,
          (i < size pv)%N -> (j < nth 0%N pv i)%N -> b i j = 0 &
          (i < size pv)%N -> j = nth 0%N pv i :> nat -> b i j = 1]].
Definition fliph (F : fieldType) m n (a : 'M[F]_(m, n)) : 'M[F]_(m, n) := \matrix_(i, j) a i (rev_ord j).
Definition fliphv (F : fieldType) m n (a : 'M[F]_(m, n)) : 'M[F]_(m, n) := \matrix_(i, j) a (rev_ord i) (rev_ord j).

Section Uniq.
Variables (F : fieldType) (m m' n : nat).
Implicit Types (v : 'rV[F]_n).
(* the column of the first non-zero entry *)
Definition leads v (c : nat) : Prop := exists j : 'I_n, [/\ j = c :> nat, v 0 j != 0 & forall k : 'I_n, (k < c)%N -> v 0 k = 0].

Definition rrefp k (b : 'M[F]_(k, n)) (pv : seq nat) : Prop :=
  [/\ sorted ltn pv, all (fun c => c < n)%N pv, (size pv <= k)%N &
    forall (i : 'I_k) (j : 'I_n),
      [/\ (size pv <= i)%N -> b i j = 0,
          (i < size pv)%N -> (j < nth 0%N pv i)%N -> b i j = 0 &
          forall l, (l < size pv)%N -> j = nth 0%N pv l :> nat -> b i j = (i == l :> nat)%:R]].

Lemma pv_mono pv i j : sorted ltn pv -> (i <= j)%N -> (j < size pv)%N -> (nth 0 pv i <= nth 0 pv j)%N.
Proof.
move=> h hij hj; have := sorted_leq_nth leq_trans leqnn 0%N (s := pv) => /(_ (sub_sorted (fun a b => @ltnW a b) h)).
by apply; rewrite ?inE // (leq_ltn_trans hij).
Qed.
Lemma leads_pv k (b : 'M[F]_(k, n)) pv c : rrefp b pv -> c \in pv <-> exists v, (v <= b)%MS /\ leads v c.
Proof.
case=> hs /allP hl hk hb; split=> [|[v [/submxP[d ->] [j [ej nz hz]]]]].
  case/(nthP 0%N) => i hi ec.
  have him : (i < k)%N by apply: leq_trans hk.
  have hc : (c < n)%N by apply: hl; rewrite -ec; apply: mem_nth.
  exists (row (Ordinal him) b); split; first exact: row_sub.
  exists (Ordinal hc); split=> //.
    by have [_ _ h] := hb (Ordinal him) (Ordinal hc); rewrite mxE (h i) //= eqxx oner_eq0.
  by move=> l hlt; rewrite mxE; have [_ h _] := hb (Ordinal him) l; apply: h => //=; rewrite ec.
(* the first coefficient that is not zero among the pivot rows *)
have [i hi] : exists i : 'I_k, (i < size pv)%N && (d 0 i != 0).
  case: (pickP (fun i : 'I_k => (i < size pv)%N && (d 0 i != 0))) => [i hi|h]; first by exists i.
  case/eqP: nz; rewrite mxE; apply: big1 => i _; have := h i; case: (ltnP i (size pv)) => hi /=.
    by move/negbFE/eqP => ->; rewrite mul0r.
  by move=> _; have [-> //] := hb i j; rewrite mulr0.
pose P (x : nat) := [exists i : 'I_k, [&& i == x :> nat, (i < size pv)%N & d 0 i != 0]].
have hP : exists x, P x by exists i; apply/existsP; exists i; rewrite eqxx.
case: (ex_minnP hP) => x /existsP[x' /and3P[/eqP ex hx dx]] hmin.
have hn : (nth 0 pv x' < n)%N by apply: hl; apply: mem_nth.
have val (l : 'I_n) : (d *m b) 0 l = \sum_i d 0 i * b i l by rewrite mxE.
have vx : (d *m b) 0 (Ordinal hn) = d 0 x'.
  rewrite val (bigD1 x') //= big1 ?addr0.
    by have [_ _ h] := hb x' (Ordinal hn); rewrite (h x') //= eqxx mulr1.
  move=> l nl; have [_ _ h] := hb l (Ordinal hn); rewrite (h x') //=.
  by rewrite val_eqE (negbTE nl) mulr0.
have before (l : 'I_n) : (l < nth 0 pv x')%N -> (d *m b) 0 l = 0.
  move=> hlt; rewrite val; apply: big1 => y _; case: (d 0 y =P 0) => [->|/eqP dy]; first by rewrite mul0r.
  case: (ltnP y (size pv)) => hy; last by have [-> //] := hb y l; rewrite mulr0.
  have hxy : (x' <= y)%N by rewrite ex; apply: hmin; apply/existsP; exists y; rewrite eqxx hy dy.
  have [_ h _] := hb y l; rewrite h ?mulr0 //; apply: (leq_trans hlt); exact: pv_mono.
have -> : c = nth 0%N pv x'; last exact: mem_nth.
case: (ltngtP c (nth 0%N pv x')) => // hc.
  by case/eqP: nz; apply: before; rewrite ej.
by have := hz (Ordinal hn) hc; rewrite vx => e; rewrite e eqxx in dx.
Qed.

Lemma rref_uniqp (b : 'M[F]_(m, n)) (b' : 'M[F]_(m', n)) pv pv' : rrefp b pv -> rrefp b' pv' -> (b :=: b')%MS -> pv = pv'.
Proof.
move=> h h' e; apply: (irr_sorted_eq ltn_trans ltnn); [by case: h|by case: h'|].
by move=> c; apply/idP/idP => /[dup] hc; [move/(leads_pv _ h)|move/(leads_pv _ h')] => -[v [hv hl]];
  [apply/(leads_pv _ h')|apply/(leads_pv _ h)]; exists v; split=> //; [rewrite -e|rewrite e].
Qed.
End Uniq.
Lemma rref_uniq (F : fieldType) m n (b b' : 'M[F]_(m, n)) : is_rref b -> is_rref b' -> (b :=: b')%MS -> b = b'.
Proof.
case=> pv h [pv' h'] e; have epv := rref_uniqp h h' e; subst pv'.
case: h => hs /allP hl hk hb; case: h' => _ _ _ hb'.
apply/matrixP => i j; case: (ltnP i (size pv)) => hi; last by have [-> // _ _] := hb i j; have [-> //] := hb' i j.
have /submxP[d ed] : (row i b' <= b)%MS by rewrite e; exact: row_sub.
have hd (k : 'I_m) : (k < size pv)%N -> d 0 k = (i == k)%:R.
  move=> hk'; have hn : (nth 0 pv k < n)%N by apply: hl; apply: mem_nth.
  have /rowP /(_ (Ordinal hn)) := ed; rewrite !mxE (bigD1 k) //= big1 ?addr0; last first.
    by move=> l nl; have [_ _ h] := hb l (Ordinal hn); rewrite (h k) //= val_eqE (negbTE nl) mulr0.
  have [_ _ h] := hb k (Ordinal hn); rewrite (h k) //= eqxx mulr1.
  by have [_ _ h'] := hb' i (Ordinal hn); rewrite (h' k) //= val_eqE.
have /rowP /(_ j) := ed; rewrite !mxE => ->; rewrite (bigD1 i) //= hd // eqxx mul1r big1 ?addr0 //.
move=> k nk; case: (ltnP k (size pv)) => hk'; last by have [-> //] := hb k j; rewrite mulr0.
by rewrite hd // eq_sym (negbTE nk) mul0r.
Qed.

Section Ops.
Variables (A : Type) (o : cops A) (F : fieldType) (V : A -> Prop) (I : A -> F).
Hypothesis spec : cspec o V I.
Local Notation elem_is := (elem_is V I).
Local Notation mat_is := (mat_is V I).
Local Notation vec_is := (vec_is V I).
Local Notation rep := (rep V I).

Lemma mat_nr m n t (a : 'M[F]_(m, n)) : mat_is t a -> t_nr t = m. Proof. by case. Qed.
Lemma mat_nc m n t (a : 'M[F]_(m, n)) : mat_is t a -> t_nc t = n. Proof. by case. Qed.

Section Rect.
Variables (m n : nat).
Hypotheses (Hm : (0 < m)%N) (Hn : (0 < n)%N).

Lemma ech_ref k (M : seq (seq F)) pv : ech k n M pv n -> is_ref (lmx k n M).
Proof.
move=> he; exists pv; split; [exact: ech_sorted he | | exact: ech_size he |].
  by apply/allP => c /(nthP 0%N)[i hi <-]; apply: (ech_lt he).
move=> i j; rewrite lmxE; split.
- by move=> hi; apply: (ech_rest he); rewrite ?hi /=.
- by move=> hi hj; apply: (ech_before he).
- by move=> hi ->; apply: (ech_one he).
Qed.
Lemma rr_thm t (a : 'M[F]_(m, n)) : mat_is t a ->
  exists t' (b : 'M[F]_(m, n)), [/\ row_reduce_below o t = Ok t', mat_is t' b, is_ref b & (a :=: b)%MS].
Proof.
case/mat_is_rep => M h <-; have [t' [e h']] := rr_ok spec Hm Hn h.
have [pv [h1 h2 [E uE [hE _]]]] := @prr_ok F n M 0 0 1 m n [::] (let: And3 _ s _ := h in s) (erefl _) (ech0 _ _ _) (add0n n).
exists t', (lmx m n (prr n M 0 0 1).1); split=> //; [exact: rep_mat_is | exact: (ech_ref h2) |].
by apply: reduces_eqmx; exists E.
Qed.

(* the first rows *)
Lemma rep_take t M r : rep t m n M -> (r <= m)%N -> rep (mkmat (firstn r (t_rows t)) (t_nc t)) r n (take r M).
Proof.
case=> h [h1 h2] h3 hr; split=> //=; last first.
  split; first by rewrite size_take h1; case: ltngtP hr.
  by move=> i hi; rewrite nth_take // h2 // (leq_trans hi).
have {h1 h2 h3 hr} : Rm V I (t_rows t) M by [].
elim: r (t_rows t) M {h} => [|r IH] l M h; first by rewrite take0; constructor.
case: h => [|x y l1 l2 hx hh] /=; constructor=> //; exact: IH.
Qed.
Lemma ech_take (M : seq (seq F)) pv : shape m n M -> ech m n M pv n -> ech (size pv) n (take (size pv) M) pv n.
Proof.
move=> hs he.
have te i j : (i < size pv)%N -> ent (take (size pv) M) i j = ent M i j by move=> hi; rewrite /ent nth_take.
case: he => h1 h2 h3 h4 h5 h6 h7; split=> //.
- by move=> i hi; rewrite te // h5.
- by move=> i j hi hj; rewrite te // h6.
by move=> i j; case: (ltnP i (size pv)) => [/[dup] hi|] //; rewrite ?ltnNge => h /andP[]; rewrite ?h // leqNgt hi.
Qed.
Lemma take_eqmx (M : seq (seq F)) pv : shape m n M -> ech m n M pv n -> (lmx m n M :=: lmx (size pv) n (take (size pv) M))%MS.
Proof.
move=> hs he; apply/eqmxP/andP; split; apply/row_subP => i.
  case: (ltnP i (size pv)) => hi; last first.
    suff -> : row i (lmx m n M) = 0 by exact: sub0mx.
    by apply/rowP => j; rewrite !mxE (ech_rest he) // hi /=.
  rewrite (_ : row i _ = row (Ordinal hi) (lmx (size pv) n (take (size pv) M))); first exact: row_sub.
  by apply/rowP => j; rewrite !mxE /ent /= nth_take.
have hi : (i < m)%N by apply: leq_trans (ech_size he).
rewrite (_ : row i _ = row (Ordinal hi) (lmx m n M)); first exact: row_sub.
by apply/rowP => j; rewrite !mxE /ent /= nth_take.
Qed.
Lemma rrnz_thm t (a : 'M[F]_(m, n)) : mat_is t a ->
  exists r, get_rr_non_zero_rows o t = Ok r /\
    match r with
    | None => a = 0
    | Some t' => exists b : 'M[F]_(\rank a, n), [/\ (0 < \rank a)%N, mat_is t' b, is_ref b & (a :=: b)%MS]
    end.
Proof.
case/mat_is_rep => M h <-; have [t' [e h']] := rr_ok spec Hm Hn h; rewrite /get_rr_non_zero_rows e bind_ok.
have [pv [h1 h2 [E uE [hE _]]]] := @prr_ok F n M 0 0 1 m n [::] (let: And3 _ s _ := h in s) (erefl _) (ech0 _ _ _) (add0n n).
rewrite (rank_rr_ok spec Hm Hn h') bind_ok (ech_count h1 h2).
have eE : (lmx m n M :=: lmx m n (prr n M 0 0 1).1)%MS by apply: reduces_eqmx; exists E.
have hr : size pv = \rank (lmx m n M) by rewrite -(ech_rank h2) eE.
rewrite eqbE; case: eqP => [e0|/eqP ne]; [exists None|exists (Some (mkmat (firstn (size pv) (t_rows t')) (t_nc t')))]; split=> //.
  by apply/eqP; rewrite -mxrank_eq0 -hr e0.
rewrite -hr; exists (lmx (size pv) n (take (size pv) (prr n M 0 0 1).1)); split.
- by rewrite lt0n.
- apply: rep_mat_is; apply: rep_take => //; exact: ech_size h2.
- exact: (ech_ref (ech_take h1 h2)).
exact: eqmx_trans eE (take_eqmx h1 h2).
Qed.
Lemma rref_take (M : seq (seq F)) pv : shape m n M -> rref m n M pv -> is_rref (lmx (size pv) n (take (size pv) M)).
Proof.
move=> hs hr; have he := rref_ech hr; have he' := ech_take hs he.
exists pv; split=> //; [exact: ech_sorted he | |].
  by apply/allP => c /(nthP 0%N)[i hi <-]; apply: (ech_lt he).
move=> i j; rewrite lmxE; split.
- by rewrite leqNgt ltn_ord.
- by move=> hi hj; apply: (ech_before he').
move=> k hk ->; rewrite -(rref_delta hr _ hk); last by apply: leq_trans (ech_size he).
by rewrite /ent nth_take.
Qed.
Lemma rechnz_thm t (a : 'M[F]_(m, n)) : mat_is t a ->
  exists r, get_rech_non_zero_rows o t = Ok r /\
    match r with
    | None => a = 0
    | Some t' => exists b : 'M[F]_(\rank a, n), [/\ (0 < \rank a)%N, mat_is t' b, is_rref b & (a :=: b)%MS]
    end.
Proof.
case/mat_is_rep => M h <-; have [t' [e h']] := rech_ok spec Hm Hn h; rewrite /get_rech_non_zero_rows e bind_ok.
have [pv [h1 hr2 hred]] := prech_ok (let: And3 _ s _ := h in s); have h2 := rref_ech hr2.
rewrite (rank_rr_ok spec Hm Hn h') bind_ok (ech_count h1 h2).
have eE := reduces_eqmx hred.
have hr : size pv = \rank (lmx m n M) by rewrite -(ech_rank h2) eE.
rewrite eqbE; case: eqP => [e0|/eqP ne]; [exists None|exists (Some (mkmat (firstn (size pv) (t_rows t')) (t_nc t')))]; split=> //.
  by apply/eqP; rewrite -mxrank_eq0 -hr e0.
rewrite -hr; exists (lmx (size pv) n (take (size pv) (prech n M))); split.
- by rewrite lt0n.
- apply: rep_mat_is; apply: rep_take => //; exact: ech_size h2.
- exact: rref_take.
exact: eqmx_trans eE (take_eqmx h1 h2).
Qed.

Lemma tab_mat f (g : 'M[F]_(m, n)) : (forall (i : 'I_m) (j : 'I_n), exists x, f (i : nat) (j : nat) = Ok x /\ elem_is x (g i j)) ->
  exists t, tab m n f = Ok t /\ mat_is t g.
Proof.
move=> h; pose g' i j := match insub i, insub j with Some i, Some j => g i j | _, _ => 0 end.
have [|t [e ht]] := @tab_ok _ _ V I m n f g' Hm Hn.
  by move=> i j hi hj; rewrite /g' !insubT; exact: (h (Ordinal hi) (Ordinal hj)).
exists t; split=> //; rewrite (_ : g = lmx m n [seq [seq g' i j | j <- iota 0 n] | i <- iota 0 m]); first exact: rep_mat_is.
by rewrite tab_lmx; apply/matrixP => i j; rewrite mxE /g' !valK.
Qed.
Lemma mat_el t (a : 'M[F]_(m, n)) (i : 'I_m) (j : 'I_n) : mat_is t a -> exists x, el (t_rows t) i j = Ok x /\ elem_is x (a i j).
Proof. by case. Qed.
Lemma fliph_thm t (a : 'M[F]_(m, n)) : mat_is t a -> exists w, flip_horiz t = Ok w /\ mat_is w (fliph a).
Proof.
move=> h; rewrite /flip_horiz (mat_nr h) (mat_nc h); apply: tab_mat => i j.
have -> : (n - j - 1 = rev_ord j)%coq_nat by rewrite /= !minusE -subnDA addn1.
by have [x [e hx]] := mat_el i (rev_ord j) h; exists x; rewrite mxE.
Qed.
Lemma fliphv_thm t (a : 'M[F]_(m, n)) : mat_is t a -> exists w, flip_horiz_vert t = Ok w /\ mat_is w (fliphv a).
Proof.
move=> h; rewrite /flip_horiz_vert (mat_nr h) (mat_nc h); apply: tab_mat => i j.
have -> : (n - j - 1 = rev_ord j)%coq_nat by rewrite /= !minusE -subnDA addn1.
have -> : (m - i - 1 = rev_ord i)%coq_nat by rewrite /= !minusE -subnDA addn1.
by have [x [e hx]] := mat_el (rev_ord i) (rev_ord j) h; exists x; rewrite mxE.
Qed.

Lemma eq_loop_ok u v s s' : Rr V I u s -> Rr V I v s' -> size s = size s' -> vec_eqb o u v = Ok (s == s').
Proof.
move=> h h' e; rewrite /vec_eqb !lengthE (F2_size h) (F2_size h') e eqbE eqxx.
elim: h v s' h' e => [|x y l l' hx _ IH] v s' h'; first by case: h'.
case: h' => //= x' y' k k' hx' hk [e]; rewrite (R_eqb spec hx hx') bind_ok eqseq_cons.
by case: (y == y') => //=; apply: IH.
Qed.
Lemma eqb_thm t u (a b : 'M[F]_(m, n)) : mat_is t a -> mat_is u b -> mat_eqb o t u = Ok (a == b).
Proof.
move=> h h'; rewrite /mat_eqb (mat_nr h) (mat_nr h') (mat_nc h) (mat_nc h') !eqbE !eqxx /=.
case/mat_is_rep: h => M [hM hs _] <-; case/mat_is_rep: h' => N [hN hs' _] <-.
have inI x : List.In x (List.seq 0 m) -> (x < m)%N.
  by move/in_seq => [_ h]; apply/ltP; move: h; rewrite Nat.add_0_l.
rewrite (forallM_ok (g := fun i => nth [::] M i == nth [::] N i)); last first.
  move=> i /inI hi; have [r [-> [hr sr]]] := Rm_row hM hs hi; have [r' [-> [hr' sr']]] := Rm_row hN hs' hi.
  by rewrite !bind_ok; apply: eq_loop_ok => //; case: hs => _ -> //; case: hs' => _ -> //.
congr Ok; rewrite seqE; apply/allP/eqP => [h|e i].
  apply/matrixP => i j; rewrite !mxE /ent.
  have hi : (i : nat) \in iota 0 m by rewrite mem_iota add0n /=.
  by rewrite (eqP (h _ hi)).
rewrite mem_iota add0n => /= hi; apply/eqP/(@eq_from_nth _ 0); first by case: hs => _ -> //; case: hs' => _ -> //.
move=> j; case: (hs) => _ -> // hj.
by have /matrixP/(_ (Ordinal hi) (Ordinal hj)) := e; rewrite !mxE.
Qed.

(* the test of a kernel basis *)
Lemma mat_row k t (b : 'M[F]_(k, n)) r : mat_is t b -> List.In r (t_rows t) -> exists i : 'I_k, vec_is r (row i b)^T.
Proof.
case=> hc hr hl he hin; have [i [hi ei]] := In_nth _ _ [::] hin.
have hik : (i < k)%N by rewrite -hr; apply/ltP.
exists (Ordinal hik); split; first exact: hl.
move=> j; have [x [e hx]] := he (Ordinal hik) j; exists x; rewrite !mxE; split=> //.
move: e; rewrite /el /rowat (nth_error_nth' [::]) -?lengthE ?hr //=.
have hN T (l : seq T) d k' : List.nth k' l d = nth d l k' by elim: l k' => [|z l IH] [|k'] //=.
by rewrite -hN ei.
Qed.
Lemma check_ker_thm k t u (a : 'M[F]_(m, n)) (b : 'M[F]_(k, n)) : mat_is t a -> mat_is u b ->
  (forall i, a *m (row i b)^T = 0) -> check_kernel_basis o t u = Ok tt.
Proof.
move=> h hu hk; rewrite /check_kernel_basis.
have [z [-> hz]] : exists z, get_zero o (t_rows t) = Ok z /\ R V I z 0.
  by case/mat_is_rep: h => M [hM hs _] _; exact: (get_zero_ok spec hM hs Hm Hn).
rewrite bind_ok.
have {hu} : forall r, List.In r (t_rows u) -> exists i : 'I_k, vec_is r (row i b)^T by move=> r; exact: mat_row.
elim: (t_rows u) => [|r l IH] hr //=.
have [i hi] := hr r (or_introl erefl).
have [w [-> hw]] := matvec_thm spec Hm Hn h hi; rewrite bind_ok.
rewrite (forallM_ok (g := fun=> true)); last first.
  move=> x hx; rewrite hk in hw; case: hw => hl he.
  have [j [hj ej]] := In_nth _ _ x hx; have hj' : (j < m)%N by rewrite -hl; apply/ltP.
  have [y [ey [vy iy]]] := he (Ordinal hj'); rewrite mxE in iy.
  have exy : x = y.
    have hN T (q : seq T) d k' : List.nth k' q d = nth d q k' by elim: q k' => [|z' q IHq] [|k'] //=.
    by move: ey; rewrite /elt (nth_error_nth' x) -?lengthE ?hl //= -hN ej => -[].
  have hx0 : R V I x 0 by rewrite exy.
  by rewrite (R_eqb spec hx0 hz) eqxx.
by rewrite bind_ok all_predT bind_ok; apply: IH => r' h'; apply: hr; right.
Qed.
End Rect.

Lemma check_inv_thm n t u (a b : 'M[F]_n) : (0 < n)%N -> mat_is t a -> mat_is u b -> a *m b = 1%:M -> b *m a = 1%:M ->
  check_inverse o t u = Ok tt.
Proof.
move=> hn h h' e1 e2; rewrite /check_inverse.
have [w [-> hw]] := mul_thm spec hn hn hn h h'; rewrite bind_ok.
have [w' [-> hw']] := mul_thm spec hn hn hn h' h; rewrite bind_ok.
have isI x (c : 'M[F]_n) : mat_is x c -> c = 1%:M -> mat_is_I o x = Ok true.
  by case/mat_is_rep => M hM <- ec; rewrite (is_I_ok spec hn hM) ec eqxx.
by rewrite (isI _ _ hw e1) bind_ok (isI _ _ hw' e2) bind_ok.
Qed.
End Ops.
