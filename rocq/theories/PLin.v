(* Gaussian elimination over an arbitrary field, as pure functions on lists of
   rows, and its correctness against mathcomp's matrices.  Shared by the proofs
   about tmatrix.h and bit_matrix_t.cpp. *)
From mathcomp Require Import all_ssreflect fingroup perm all_algebra.
Set Implicit Arguments.
Unset Strict Implicit.
Unset Printing Implicit Defensive.
Import GRing.Theory.
Local Open Scope ring_scope.

Section Lin.
Variable F : fieldType.
Implicit Types rows : seq (seq F).

Definition ent rows i j : F := nth 0 (nth [::] rows i) j.
Definition shape m n rows := size rows = m /\ (forall i, (i < m)%N -> size (nth [::] rows i) = n).
Definition lmx m n rows : 'M[F]_(m, n) := \matrix_(i, j) ent rows i j.

(* ---- row operations *)
Definition piv rows top left : nat := (top + find (fun r : seq F => (nth 0 r left != 0)%R) (drop top rows))%N.
Definition swp rows a b :=
  set_nth [::] (set_nth [::] rows a (nth [::] rows b)) b (nth [::] rows a).
Definition scl (c : F) (r : seq F) := [seq x * c | x <- r].
Definition cmb (r : seq F) (a : F) (t : seq F) (b : F) : seq F :=
  [seq p.1 * a - p.2 * b | p <- zip r t].

Definition pstep rows top left p :=
  let rows1 := swp rows top p in
  let lead := ent rows1 top left in
  let trow := scl lead^-1 (nth [::] rows1 top) in
  mkseq (fun i => if (i < top)%N then nth [::] rows1 i
                  else if i == top then trow
                  else cmb (nth [::] rows1 i) 1 trow (ent rows1 i left)) (size rows).

Fixpoint prr k rows top left (s : F) : seq (seq F) * F :=
  match k with
  | 0 => (rows, s)
  | k'.+1 =>
      if (top < size rows)%N then
        let p := piv rows top left in
        if (p < size rows)%N then
          prr k' (pstep rows top left p) top.+1 left.+1
              ((if p == top then s else - s) * ent rows p left)
        else prr k' rows top left.+1 s
      else (rows, s)
  end.

(* ---- basic facts *)
Lemma lmxE m n rows i j : lmx m n rows i j = ent rows i j.
Proof. by rewrite mxE. Qed.

Lemma nth_swp rows a b i : (a < size rows)%N -> (b < size rows)%N ->
  nth [::] (swp rows a b) i =
  if i == b then nth [::] rows a else if i == a then nth [::] rows b else nth [::] rows i.
Proof. by move=> ha hb; rewrite /swp !nth_set_nth /= !nth_set_nth /=. Qed.

Lemma size_swp rows a b : (a < size rows)%N -> (b < size rows)%N ->
  size (swp rows a b) = size rows.
Proof.
move=> ha hb; rewrite /swp !size_set_nth.
by rewrite (maxn_idPr ha) (maxn_idPr hb).
Qed.

Lemma ent_scl c r j : nth 0 (scl c r) j = nth 0 r j * c.
Proof.
case: (ltnP j (size r)) => h; first by rewrite (nth_map 0).
by rewrite !nth_default ?size_map // mul0r.
Qed.

Lemma size_cmb r a t b : size r = size t -> size (cmb r a t b) = size r.
Proof. by move=> h; rewrite size_map size_zip h minnn. Qed.

Lemma ent_cmb r a t b j : size r = size t ->
  nth 0 (cmb r a t b) j = nth 0 r j * a - nth 0 t j * b.
Proof.
move=> h; case: (ltnP j (size r)) => hj.
  by rewrite (nth_map (0, 0)) ?size_zip -?h ?minnn // nth_zip.
by rewrite !nth_default ?size_cmb -?h // !mul0r subr0.
Qed.

Lemma piv_ge rows top left : (top <= piv rows top left)%N.
Proof. by rewrite leq_addr. Qed.

Lemma piv_nz rows top left : (piv rows top left < size rows)%N ->
  ent rows (piv rows top left) left != 0.
Proof.
rewrite /piv /ent => h.
set f := find _ _ in h *.
have hf : (f < size (drop top rows))%N.
  by rewrite size_drop ltn_subRL.
have := @nth_find _ [::] (fun r : seq F => nth 0 r left != 0) (drop top rows).
by rewrite has_find -/f hf nth_drop => /(_ isT).
Qed.

Lemma piv_before rows top left i : (top <= i < piv rows top left)%N -> ent rows i left = 0.
Proof.
case/andP=> h1 h2.
have := @before_find _ [::] (fun r : seq F => nth 0 r left != 0) (drop top rows) (i - top).
rewrite nth_drop subnKC // => /(_ _)/negbFE/eqP; apply.
by rewrite ltn_subLR // /piv in h2 *.
Qed.

(* ---- one elimination step *)
Section Step.
Variables (m n : nat) (rows : seq (seq F)) (top left p : nat).
Hypotheses (Hs : shape m n rows) (Htop : (top <= p)%N) (Hp : (p < m)%N).

Let Hm : size rows = m. Proof. by case: Hs. Qed.
Let Ht : (top < size rows)%N. Proof. by rewrite Hm (leq_ltn_trans Htop). Qed.
Let Hp' : (p < size rows)%N. Proof. by rewrite Hm. Qed.

Lemma size_swp_row i : (i < m)%N -> size (nth [::] (swp rows top p) i) = n.
Proof.
move=> hi; rewrite nth_swp //; case: Hs => _ h.
by case: eqP => _; [apply: h; rewrite -Hm | case: eqP => _; apply: h].
Qed.

Lemma pstep_shape : shape m n (pstep rows top left p).
Proof.
split; first by rewrite size_mkseq.
move=> i hi; rewrite nth_mkseq ?Hm //.
have ht : (top < m)%N by rewrite -Hm.
case: ltnP => _; first exact: size_swp_row.
case: eqP => _; first by rewrite size_map size_swp_row.
by rewrite size_cmb ?size_map !size_swp_row.
Qed.

Lemma pstep_ent i j : (i < m)%N ->
  let rows1 := swp rows top p in
  ent (pstep rows top left p) i j =
  if (i < top)%N then ent rows1 i j
  else if i == top then ent rows1 top j * (ent rows1 top left)^-1
  else ent rows1 i j - ent rows1 i left * (ent rows1 top left)^-1 * ent rows1 top j.
Proof.
move=> hi /=; rewrite {1}/ent nth_mkseq ?Hm //.
case: ltnP => // _; case: eqP => _; first by rewrite ent_scl.
have ht : (top < m)%N by rewrite -Hm.
rewrite ent_cmb ?size_map ?size_swp_row // mulr1 ent_scl.
rewrite -/(ent _ i j) -/(ent _ top j); congr (_ - _).
by rewrite mulrC [ent _ top j * _]mulrC mulrA.
Qed.

Lemma swp_ent i j : ent (swp rows top p) i j =
  ent rows (if i == p then top else if i == top then p else i) j.
Proof. by rewrite /ent nth_swp //; case: eqP => // _; case: eqP. Qed.

Definition elim_mx (ot : 'I_m) (lead : F) (w : 'I_m -> F) : 'M[F]_m :=
  diag_mx (\row_i (if i == ot then lead^-1 else 1)) -
  (\col_i (if (ot < i)%N then w i * lead^-1 else 0)) *m (delta_mx 0 ot : 'M_(1, m)).

Lemma elim_mxE ot lead w k (B : 'M_(m, k)) i j :
  (elim_mx ot lead w *m B) i j =
  (if i == ot then lead^-1 else 1) * B i j -
  (if (ot < i)%N then w i * lead^-1 else 0) * B ot j.
Proof.
by rewrite /elim_mx mulmxBl -mulmxA -rowE mul_diag_mx !mxE big_ord1 !mxE.
Qed.

Lemma elim_mx_ent ot lead w i j :
  elim_mx ot lead w i j =
  (if i == ot then lead^-1 else 1) * (i == j)%:R -
  (if (ot < i)%N then w i * lead^-1 else 0) * (ot == j)%:R.
Proof.
rewrite -[elim_mx _ _ _]mulmx1 elim_mxE !mxE //.
Qed.

Lemma det_elim_mx ot lead w : \det (elim_mx ot lead w) = lead^-1.
Proof.
rewrite det_trig.
  rewrite (bigD1 ot) //= big1 ?mulr1.
    by rewrite elim_mx_ent eqxx ltnn mul0r subr0 mulr1.
  move=> i ni; rewrite elim_mx_ent (negbTE ni) eqxx mulr1.
  by rewrite eq_sym (negbTE ni) mulr0 subr0.
apply/is_trig_mxP => i j hij; rewrite elim_mx_ent.
have -> : (i == j) = false by apply/negbTE; apply: contraL hij => /eqP->; rewrite ltnn.
rewrite mulr0 sub0r; case: ltnP => h; rewrite ?mul0r ?oppr0 //.
have -> : (ot == j) = false; last by rewrite mulr0 oppr0.
by apply/negbTE; apply: contraL h => /eqP->; rewrite -leqNgt ltnW.
Qed.

Lemma pstep_mx (op ot : 'I_m) : op = p :> nat -> ot = top :> nat ->
  let lead := ent rows p left in
  exists w, lmx m n (pstep rows top left p) = elim_mx ot lead w *m xrow ot op (lmx m n rows).
Proof.
move=> eop eot lead.
exists (fun i => ent (swp rows top p) i left).
apply/matrixP => i j; rewrite elim_mxE mxE pstep_ent //.
have hx k : xrow ot op (lmx m n rows) k j = ent (swp rows top p) k j.
  rewrite !mxE swp_ent; congr (ent _ _ _).
  case: tpermP => [->|->|h1 h2].
  - by rewrite eot eop; case: eqP => [->//|_]; rewrite eqxx.
  - by rewrite eop eqxx eot.
  - have /negbTE-> : (k : nat) != p by rewrite -eop; apply/eqP => /val_inj.
    by have /negbTE-> : (k : nat) != top by rewrite -eot; apply/eqP => /val_inj.
have hl : ent (swp rows top p) top left = lead.
  by rewrite swp_ent; case: eqP => [->//|_]; rewrite eqxx.
rewrite !hx hl -val_eqE /= eot.
case: ltngtP => hi.
- by rewrite mul0r subr0 mul1r.
- by rewrite mul1r.
- by rewrite hi mul0r subr0 mulrC.
Qed.

End Step.

(* ---- echelon shape *)
(* pv lists the pivot columns of the first rows; everything below is zero in
   columns < bound *)
Record ech m n rows (pv : seq nat) (bound : nat) : Prop := {
  ech_size : (size pv <= m)%N;
  ech_sorted : sorted ltn pv;
  ech_lt : forall i, (i < size pv)%N -> (nth 0%N pv i < n)%N;
  ech_bound : forall i, (i < size pv)%N -> (nth 0%N pv i < bound)%N;
  ech_one : forall i, (i < size pv)%N -> ent rows i (nth 0%N pv i) = 1;
  ech_before : forall i j, (i < size pv)%N -> (j < nth 0%N pv i)%N -> ent rows i j = 0;
  ech_rest : forall i j, (size pv <= i < m)%N -> (j < bound)%N -> ent rows i j = 0
}.

(* relation between input and output of a reduction *)
Definition reduces m n (A B : 'M[F]_(m, n)) :=
  exists2 E : 'M[F]_m, E \in unitmx & B = E *m A.

Lemma reduces_refl m n (A : 'M[F]_(m, n)) : reduces A A.
Proof. by exists 1%:M; rewrite ?unitmx1 ?mul1mx. Qed.
Lemma reduces_trans m n (A B C : 'M[F]_(m, n)) : reduces A B -> reduces B C -> reduces A C.
Proof.
case=> E1 u1 ->; case=> E2 u2 ->; exists (E2 *m E1); last by rewrite mulmxA.
by rewrite unitmx_mul u1 u2.
Qed.

Lemma reduces_eqmx m n (A B : 'M[F]_(m, n)) : reduces A B -> (A :=: B)%MS.
Proof. by case=> E u ->; apply: eqmx_sym; apply: eqmxMfull; rewrite row_full_unit. Qed.

Lemma reduces_ker m n (A B : 'M[F]_(m, n)) (x : 'cV[F]_n) : reduces A B ->
  (A *m x == 0) = (B *m x == 0).
Proof.
case=> E u ->; rewrite -mulmxA; apply/eqP/eqP => [->|h]; first by rewrite mulmx0.
by rewrite -[A *m x]mul1mx -(mulVmx u) -mulmxA h mulmx0.
Qed.


(* ---- the whole forward elimination *)
Lemma prr_ok k : forall rows top left s m n pv,
  shape m n rows -> size pv = top -> ech m n rows pv left -> (left + k = n)%N ->
  exists pv', [/\ shape m n (prr k rows top left s).1,
    ech m n (prr k rows top left s).1 pv' n &
    exists2 E : 'M[F]_m, E \in unitmx &
      lmx m n (prr k rows top left s).1 = E *m lmx m n rows /\
      s = (prr k rows top left s).2 * \det E].
Proof.
elim: k => [|k IH] rows top left s m n pv Hs Hpv He Hk /=.
  rewrite addn0 in Hk; exists pv; split=> //; first by move: He; rewrite Hk.
  by exists 1%:M; rewrite ?unitmx1 ?mul1mx ?det1 ?mulr1.
have Hm : size rows = m by case: Hs.
have Hln : (left < n)%N by rewrite -Hk -addSnnS leq_addr.
have Hk' : (left.+1 + k = n)%N by rewrite addSnnS.
case: ltnP => Htop; last first.
  exists pv; split=> //.
  - case: He => h1 h2 h3 h4 h5 h6 h7; split=> // i j.
    by rewrite Hpv -Hm ltnNge => /andP[h]; rewrite (leq_trans Htop h).
  - by exists 1%:M; rewrite ?unitmx1 ?mul1mx ?det1 ?mulr1.
set p := piv rows top left.
have Hge : (top <= p)%N by exact: piv_ge.
case: ltnP => Hp; last first.
  apply: (IH _ _ _ _ _ _ pv) => //.
  case: He => h1 h2 h3 h4 h5 h6 h7; split=> //.
    by move=> i hi; apply: ltnW; apply: h4.
  move=> i j hi; rewrite ltnS leq_eqVlt => /orP[/eqP->|hj]; last exact: h7.
  case/andP: hi => hi1 hi2; apply: (@piv_before _ top); rewrite -Hpv hi1 /=.
  by rewrite -Hm in hi2; rewrite Hpv; apply: (leq_trans hi2).
have nz : ent rows p left != 0 by exact: piv_nz.
have Hpm : (p < m)%N by rewrite -Hm.
have Htm : (top < m)%N by rewrite -Hm.
set s' := _ * _.
have [||||pv' [A1 A2 [E uE [EA Es]]]] := IH (pstep rows top left p) top.+1 left.+1 s' m n (rcons pv left).
- exact: pstep_shape.
- by rewrite size_rcons Hpv.
- have sE i j : ent (swp rows top p) i j =
      ent rows (if i == p then top else if i == top then p else i) j.
    by apply: (swp_ent (m := m) (n := n)).
  have stop j : ent (swp rows top p) top j = ent rows p j.
    by rewrite sE; case: eqP => [<-//|_]; rewrite eqxx.
  case: He => h1 h2 h3 h4 h5 h6 h7; split.
  + by rewrite size_rcons Hpv.
  + case: pv Hpv h1 h2 h3 h4 h5 h6 h7 => //= a l Hpv h1 h2 h3 h4 h5 h6 h7.
    rewrite rcons_path h2 /=.
    by rewrite (last_nth 0%N); apply: h4 => /=.
  + move=> i; rewrite size_rcons Hpv nth_rcons Hpv ltnS => hi.
    by case: (ltnP i top) => hi'; [apply: h3; rewrite Hpv | rewrite (_ : i == top) // eqn_leq hi hi'].
  + move=> i; rewrite size_rcons Hpv nth_rcons Hpv ltnS => hi.
    case: (ltnP i top) => hi'; first by apply: ltnW; apply: h4; rewrite Hpv.
    by rewrite (_ : i == top) // eqn_leq hi hi'.
  + move=> i; rewrite size_rcons Hpv nth_rcons Hpv ltnS => hi.
    have him : (i < m)%N by apply: leq_ltn_trans Htm.
    rewrite (pstep_ent left Hs) //.
    case: (ltnP i top) => hi'.
      rewrite sE (ltn_eqF hi') (ltn_eqF (leq_trans hi' Hge)).
      by apply: h5; rewrite Hpv.
    by rewrite (_ : i == top) ?eqn_leq ?hi ?hi' // !stop divff.
  + move=> i j; rewrite size_rcons Hpv nth_rcons Hpv ltnS => hi.
    have him : (i < m)%N by apply: leq_ltn_trans Htm.
    rewrite (pstep_ent left Hs) //.
    case: (ltnP i top) => hi'.
      move=> hj; rewrite sE (ltn_eqF hi') (ltn_eqF (leq_trans hi' Hge)).
      by apply: h6; rewrite ?Hpv.
    rewrite (_ : i == top) ?eqn_leq ?hi ?hi' // !stop => hj.
    by rewrite h7 ?mul0r // Hpv Hge.
  + move=> i j; rewrite size_rcons Hpv => /andP[hi him] hj.
    rewrite (pstep_ent left Hs) //.
    rewrite ltnNge (ltnW hi) /= (gtn_eqF hi) !stop.
    move: hj; rewrite ltnS leq_eqVlt => /orP[/eqP->|hj].
      by rewrite -mulrA mulVf // mulr1 subrr.
    rewrite [ent rows p j]h7 ?Hpv ?Hge // mulr0 subr0 sE.
    by apply: h7 => //; rewrite Hpv; case: ifP => [|_]; rewrite ?leqnn //;
       case: ifP => _; rewrite ?Hge // (ltnW hi).
- exact: Hk'.
exists pv'; split=> //.
have [w Ew] := pstep_mx left Hs Hge Hpm (erefl (nat_of_ord (Ordinal Hpm))) (erefl (nat_of_ord (Ordinal Htm))).
set ot := Ordinal Htm in Ew; set op := Ordinal Hpm in Ew.
set L := elim_mx _ _ _ in Ew.
have dL : \det L = (ent rows p left)^-1 by exact: det_elim_mx.
exists (E *m (L *m tperm_mx ot op)).
  rewrite !unitmx_mul uE unitmx_perm andbT /=.
  by rewrite unitmxE dL unitrV unitfE.
split; first by rewrite EA Ew xrowE !mulmxA.
rewrite !det_mulmx [RHS]mulrA -Es dL det_perm odd_tperm /s' mulrA mulfK //.
rewrite -val_eqE /= eq_sym.
by case: eqP => _; rewrite ?expr0 ?expr1 ?mulr1 // mulrNN mulr1.
Qed.

End Lin.
