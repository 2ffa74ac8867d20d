(* Inverse, linear solve, products and powers of the matrix model. *)
From Verif Require Import Base MMat PIntMath PPow.
From mathcomp Require Import all_ssreflect fingroup perm all_algebra.
From Verif Require Import PLin PLin2 PLin3 PMat PMat2.
Set Implicit Arguments.
Unset Strict Implicit.
Unset Printing Implicit Defensive.
Import GRing.Theory.
Local Open Scope ring_scope.

Lemma write_at_app (T : Type) (l : list T) : forall pre mid post,
  size mid = size l -> write_at (pre ++ mid ++ post) (size pre) l = Ok (pre ++ l ++ post).
Proof.
elim: l => [|x l IH] pre [|y mid] post //= [] h.
rewrite /setelt ltbE lengthE size_cat /= -addSnnS leq_addr bind_ok.
have -> : upd (pre ++ y :: mid ++ post) (size pre) x = rcons pre x ++ mid ++ post.
  by elim: pre {IH} => [|z pre IH] //=; rewrite -IH.
by rewrite -(size_rcons pre x) IH // cat_rcons.
Qed.

Section Refine3.
Variables (A : Type) (o : cops A) (F : fieldType) (V : A -> Prop) (I : A -> F).
Hypothesis spec : cspec o V I.
Local Notation R := (R V I).
Local Notation Rr := (Rr V I).
Local Notation Rm := (Rm V I).
Local Notation rep := (rep V I).
Implicit Types M N : seq (seq F).

Lemma F2_shape rows M m n : Rm rows M -> shape m n M ->
  Forall2 (fun r s => Rr r s /\ size s = n) rows M.
Proof.
move=> h [<- hl]; elim: h hl => [|r s rs ss hr _ IH] hl; first by constructor.
constructor; first by split=> //; apply: (hl 0%N).
by apply: IH => i hi; apply: (hl i.+1).
Qed.

Lemma repeat_cat (d : A) a b : repeat d (a + b) = repeat d a ++ repeat d b.
Proof. by elim: a => //= a ->. Qed.
Lemma size_repeat (d : A) a : size (repeat d a) = a.
Proof. by rewrite -lengthE repeat_length. Qed.

(* paste of two matrices with as many columns as rows on the left *)
Lemma paste_ok d t u n k M N : (0 < n)%N -> rep t n n M -> rep u n k N ->
  exists w, mat_paste d t u = Ok w /\ rep w n (n + k) [seq p.1 ++ p.2 | p <- zip M N].
Proof.
move=> hn ht hu; rewrite /mat_paste (rep_nr ht) (rep_nr hu) !eqbE eqxx.
have ct : t_nc t = n by case: ht.
have cu : t_nc u = k by case: hu.
rewrite ct cu (gtn_eqF hn) addn_eq0 (gtn_eqF hn) /=.
case: ht => hM [sM lM] _; case: hu => hN [sN lN] _.
have [x x' y y' [hx sx] [hy sy]|rows [e h]] := @map2M_ok _ _ _ _ _ _ _ _ Rr
  (fun r r' => r1 <- write_at (repeat d (n + k)) 0 r ;; write_at r1 n r')%res
  (fun r r' => r ++ r') _ _ _ _ (F2_shape hM (conj sM lM)) (F2_shape hN (conj sN lN)).
  exists (x ++ y).
  have ex : size x = n by rewrite (F2_size hx).
  have ey : size y = k by rewrite (F2_size hy).
  rewrite repeat_cat.
  have := @write_at_app A x [::] (repeat d n) (repeat d k); rewrite size_repeat ex => /(_ erefl) /= ->.
  rewrite bind_ok; split; last exact: F2_cat.
  have := @write_at_app A y x (repeat d k) [::]; rewrite size_repeat ey !cats0 ex.
  by apply.
rewrite e /=; exists (mkmat rows (n + k)%N); split=> //; split=> //.
split; first by rewrite size_map size_zip sM sN minnn.
move=> i hi; rewrite (nth_map ([::], [::])) ?size_zip ?sM ?sN ?minnn //.
by rewrite nth_zip ?sM ?sN //= size_cat lM // lN.
Qed.

Lemma paste_lmx n k M N m : shape m n M -> shape m k N ->
  lmx m (n + k) [seq p.1 ++ p.2 | p <- zip M N] = row_mx (lmx m n M) (lmx m k N).
Proof.
move=> [sM lM] [sN lN]; apply/matrixP => i j; rewrite !mxE /ent.
have hi : (i < size (zip M N))%N by rewrite size_zip sM sN minnn.
rewrite (nth_map ([::], [::])) // nth_zip ?sM ?sN //= nth_cat lM //.
case: splitP => l e; rewrite !mxE e ?ltn_ord //.
by rewrite addKn.
Qed.

Lemma paste_vector_ok t v m n M s : (0 < m)%N -> rep t m n M -> Rr v s -> size s = m ->
  exists w, paste_vector t v = Ok w /\ rep w m (n + 1) [seq p.1 ++ [:: p.2] | p <- zip M s].
Proof.
move=> hm ht hv ss; rewrite /paste_vector (rep_nr ht) !eqbE lengthE (F2_size hv) ss eqxx.
rewrite (gtn_eqF hm).
case: ht => hM [sM lM] ->; eexists; split; first by [].
rewrite addn1; split=> //=.
  elim: hM v s hv {sM lM ss} => [|r s0 rs ss0 hr _ IH] v s hv /=.
    by case: s hv => *; constructor.
  case: hv => [|x y v' s' hx hv'] /=; first by constructor.
  constructor; last exact: IH.
  by apply: F2_cat => //=; constructor.
split; first by rewrite size_map size_zip sM ss minnn.
move=> i hi; rewrite (nth_map ([::], 0)) ?size_zip ?sM ?ss ?minnn //.
by rewrite nth_zip ?sM ?ss //= size_cat lM // addn1.
Qed.

Definition colv m (s : seq F) : 'cV[F]_m := \col_i nth 0 s i.

Lemma paste_vector_lmx m n M s : shape m n M -> size s = m ->
  lmx m (n + 1) [seq p.1 ++ [:: p.2] | p <- zip M s] = row_mx (lmx m n M) (colv m s).
Proof.
move=> [sM lM] ss; apply/matrixP => i j; rewrite !mxE /ent.
have hi : (i < size (zip M s))%N by rewrite size_zip sM ss minnn.
rewrite (nth_map ([::], 0)) // nth_zip ?sM ?ss //= nth_cat lM //.
case: splitP => l e; rewrite !mxE e ?ltn_ord //.
by rewrite addKn ord1.
Qed.

(* ---- identity *)
Lemma make_I_ok t n M zero one : (0 < n)%N -> rep t n n M -> R zero 0 -> R one 1 ->
  exists w N, [/\ mat_make_I t zero one = Ok w, rep w n n N & lmx n n N = 1%:M].
Proof.
move=> hn ht hz ho; rewrite /mat_make_I /is_square (rep_nr ht) (_ : t_nc t = n); last by case: ht.
rewrite eqbE eqxx.
have [|w [e h]] := @tab_ok _ _ V I n n (fun i j => Ok (if Nat.eqb i j then one else zero))
    (fun i j => (i == j)%:R) hn hn.
  by move=> i j _ _; rewrite eqbE; case: eqP => _; [exists one | exists zero].
exists w; eexists; split; [exact: e | exact: h|].
by rewrite tab_lmx; apply/matrixP => i j; rewrite !mxE.
Qed.

Lemma forallM_ok (B : Type) (f : B -> res bool) (g : B -> bool) l :
  (forall x, List.In x l -> f x = Ok (g x)) -> forallM f l = Ok (all g l).
Proof.
elim: l => //= x l IH h; rewrite h; last by left.
rewrite bind_ok; case: (g x) => //=; apply: IH => y hy; apply: h; by right.
Qed.

Lemma is_I_ok t n M : (0 < n)%N -> rep t n n M -> mat_is_I o t = Ok (lmx n n M == 1%:M).
Proof.
move=> hn ht; rewrite /mat_is_I /is_square (rep_nr ht) (_ : t_nc t = n); last by case: ht.
rewrite eqbE eqxx; case: (ht) => hM hs _.
have [z [-> hz]] := get_zero_ok spec hM hs hn hn; rewrite bind_ok.
have [f [-> hf]] := find_one_ok spec hM hs hn hn; rewrite bind_ok.
case: f hf => [one [_ ho]|hf]; last first.
  rewrite zero_lmx //; case: (n) hn => // n' _; congr Ok.
  by rewrite eq_sym oner_eq0.
have inI x : List.In x (List.seq 0 n) -> (x < n)%N.
  by move/in_seq => [_ h]; apply/ltP; move: h; rewrite Nat.add_0_l.
rewrite (forallM_ok (g := fun i => ent M i i == 1)); last first.
  move=> i /inI hi; have [x [-> hx]] := rep_el ht hi hi.
  by rewrite bind_ok (R_eqb spec hx ho).
rewrite bind_ok.
rewrite (forallM_ok (g := fun i => all (fun j => (i == j) || (ent M i j == 0)) (iota 0 n))); last first.
  move=> i /inI hi; rewrite -seqE; apply: forallM_ok => j /inI hj.
  rewrite eqbE; case: eqP => //= _; have [x [-> hx]] := rep_el ht hi hj.
  by rewrite bind_ok (R_eqb spec hx hz).
rewrite seqE.
have -> : (if all (fun i => ent M i i == 1) (iota 0 n)
  then Ok (all (fun i => all (fun j => (i == j) || (ent M i j == 0)) (iota 0 n)) (iota 0 n))
  else Ok false) = Ok (all (fun i => ent M i i == 1) (iota 0 n) && 
                       all (fun i => all (fun j => (i == j) || (ent M i j == 0)) (iota 0 n)) (iota 0 n)).
  by case: ifP.
congr Ok; apply/idP/eqP => [/andP[/allP h1 /allP h2]|h].
  apply/matrixP => i j; rewrite !mxE; case: (i =P j) => [->|/eqP nij].
    by apply/eqP; apply: h1; rewrite mem_iota add0n /=.
  have /h2/allP : (i : nat) \in iota 0 n by rewrite mem_iota add0n /=.
  move/(_ j); rewrite mem_iota add0n /= => /(_ (ltn_ord j)) /orP[]; last by move/eqP.
  by move=> /eqP e; case/eqP: nij; apply: val_inj.
have hE i j : (i < n)%N -> (j < n)%N -> ent M i j = (i == j)%:R.
  by move=> hi hj; have /matrixP /(_ (Ordinal hi) (Ordinal hj)) := h; rewrite !mxE.
apply/andP; split; apply/allP => i; rewrite mem_iota add0n /= => hi.
  by rewrite hE // eqxx.
apply/allP => j; rewrite mem_iota add0n /= => hj.
by rewrite hE //; case: eqP => //=.
Qed.

Lemma split_ok t m n k M : (0 < m)%N -> (0 < n)%N -> (0 < k)%N -> rep t m (n + k) M ->
  exists l r, [/\ mat_split t n = Ok (l, r), 
    rep l m n [seq [seq ent M i j | j <- iota 0 n] | i <- iota 0 m] &
    rep r m k [seq [seq ent M i (n + j) | j <- iota 0 k] | i <- iota 0 m]].
Proof.
move=> hm hn hk ht; rewrite /mat_split (rep_nr ht) (_ : t_nc t = (n + k)%N); last by case: ht.
rewrite lebE -[X in (_ <= X)%N]addn0 leq_add2l leqNgt hk /=.
have -> : (n + k - n)%coq_nat = k by rewrite minusE addKn.
have [|l [-> hl]] := @tab_ok _ _ V I m n (fun i j => el (t_rows t) i j) (ent M) hm hn.
  move=> i j hi hj; apply: (rep_el ht) => //; exact: ltn_addr.
rewrite bind_ok.
have [|r [-> hr]] := @tab_ok _ _ V I m k (fun i j => el (t_rows t) i (n + j)%coq_nat) (fun i j => ent M i (n + j)) hm hk.
  by move=> i j hi hj; rewrite plusE; apply: (rep_el ht) => //; rewrite ltn_add2l.
by exists l, r.
Qed.

Lemma inverse_ok d t n M r0 : (0 < n)%N -> rep t n n M ->
  exists b r, mat_inverse o d t r0 = Ok (b, r) /\ b = (lmx n n M \in unitmx) /\
   (b -> exists N, [/\ rep r n n N, lmx n n N *m lmx n n M = 1%:M & lmx n n M *m lmx n n N = 1%:M]).
Proof.
move=> hn ht; case: (ht) => hM hs hc.
rewrite /mat_inverse.
have [z [-> hz]] := get_zero_ok spec hM hs hn hn; rewrite bind_ok.
rewrite {1}/is_square (rep_nr ht) hc eqbE eqxx.
have [f [-> hf]] := find_one_ok spec hM hs hn hn; rewrite bind_ok.
case: f hf => [one [_ ho]|hf]; last first.
  exists false, r0; split=> //; split=> //; rewrite zero_lmx //.
  by case: (n) hn => // n' _; rewrite unitmxE det0 unitr0.
have [I' [N [-> hI eI]]] := make_I_ok hn ht hz ho; rewrite bind_ok.
have [w [-> hw]] := paste_ok d hn ht hI; rewrite bind_ok.
have h2n : (0 < n + n)%N by rewrite addn_gt0 hn.
have [w' [-> hw']] := rech_ok spec hn h2n hw; rewrite bind_ok.
have [l [r [-> hl hr]]] := split_ok hn hn hn hw'; rewrite bind_ok.
rewrite (is_I_ok hn hl) bind_ok.
set B := prech _ _ in hw' hl hr *.
have [pv [hs1 hr1 hred]] := prech_ok (let: And3 _ h _ := hw in h).
rewrite -/B in hs1 hr1 hred.
have hred' : reduces (row_mx (lmx n n M) 1%:M) (lmx n (n + n) B).
  by rewrite -eI -paste_lmx //; case: hI.
rewrite tab_lmx.
have -> : \matrix_(i, j) ent B i j = lmx n n B by apply/matrixP => i j; rewrite !mxE.
eexists; eexists; split; first by [].
rewrite -(inv_iff hs1 hr1 hred'); split=> // u.
eexists; split; first exact: hr.
  have /eqP hI' : lmx n n B == 1%:M by rewrite -(inv_iff hs1 hr1 hred').
  by have [h1 h2] := inv_val hred' hI'; rewrite tab_lmx -[\matrix_(_, _) _]/(rpart n B).
have /eqP hI' : lmx n n B == 1%:M by rewrite -(inv_iff hs1 hr1 hred').
by have [h1 h2] := inv_val hred' hI'; rewrite tab_lmx -[\matrix_(_, _) _]/(rpart n B).
Qed.

(* ---- solve *)
Lemma solve_ok t v m n M s : (0 < m)%N -> (0 < n)%N -> rep t m n M -> Rr v s -> size s = m ->
  exists r, solve_unique o t v = Ok r /\
   match r with
   | Some x => exists xs, [/\ Rr x xs, size xs = n &
                 forall y : 'cV_n, lmx m n M *m y = colv m s <-> y = colv n xs]
   | None => ~ exists x : 'cV_n, lmx m n M *m x = colv m s /\
                 forall y, lmx m n M *m y = colv m s -> y = x
   end.
Proof.
move=> hm hn ht hv ss; case: (ht) => hM hs hc.
have hno : \rank (lmx m n M) != n ->
   ~ exists x : 'cV_n, lmx m n M *m x = colv m s /\ forall y, lmx m n M *m y = colv m s -> y = x.
  move=> hr [x [hx hu]]; have [y ny hy] := rank_notinj hr hx.
  by case/eqP: ny; apply: hu.
rewrite /solve_unique (rep_nr ht) hc ltbE.
case: ltnP => hlt.
  exists None; split=> //; apply: hno.
  by apply: contraTneq hlt => <-; rewrite -leqNgt rank_leq_row.
rewrite (rank_ok spec hm hn ht) bind_ok eqbE.
case: eqP => [hr|/eqP hr]; last by exists None; split=> //; apply: hno.
rewrite /solve_unique_full_rank.
have [w [-> hw]] := paste_vector_ok hm ht hv ss; rewrite bind_ok.
have hn1 : (0 < n + 1)%N by rewrite addn1.
have [w' [-> hw']] := rech_ok spec hm hn1 hw; rewrite bind_ok.
rewrite (rank_rr_ok spec hm hn1 hw') bind_ok hc eqbE.
have [pv [hs1 hr1 hred]] := prech_ok (let: And3 _ h _ := hw in h).
set B := prech _ _ in hw' hs1 hr1 hred *.
have hred' : reduces (row_mx (lmx m n M) (colv m s)) (lmx m (n + 1) B).
  by rewrite -paste_vector_lmx.
rewrite (ech_count hs1 (rref_ech hr1)).
have hiff := solve_rank_iff hr1 hred' hr.
case: eqP => hsz; last first.
  exists None; split=> // -[x [hx _]]; apply: hsz; apply/eqP; apply/hiff; by exists x.
rewrite eqbE (gtn_eqF hn).
have [|x [-> hx]] := @mapM_iota_ok _ _ R (fun i => el (t_rows w') i n) (fun i => ent B i n) n 0.
  move=> i; rewrite add0n /= => hi; apply: (rep_el hw'); last by rewrite addn1.
  exact: leq_trans hlt.
rewrite bind_ok; exists (Some x); split=> //; exists [seq ent B i n | i <- iota 0 n].
split=> //; first by rewrite size_map size_iota.
have esol : colv n [seq ent B i n | i <- iota 0 n] = sol n B.
  apply/matrixP => i j; rewrite !mxE (nth_map 0%N) ?size_iota // nth_iota //.
have hval := solve_val hr1 hred' hr hsz.
move=> y; rewrite esol; split=> [hy|->]; last exact: hval.
by apply: (rank_inj hr); rewrite hval.
Qed.

(* ---- matrix-vector product, entrywise operations *)
Lemma mat_vec_ok t v m n M s : (0 < m)%N -> (0 < n)%N -> rep t m n M -> Rr v s -> size s = n ->
  exists w ws, [/\ mat_vec o t v = Ok w, Rr w ws, size ws = m & colv m ws = lmx m n M *m colv n s].
Proof.
move=> hm hn ht hv ss; case: (ht) => hM hs hc.
rewrite /mat_vec hc eqbE lengthE (F2_size hv) ss eqxx.
have [z [-> hz]] := get_zero_ok spec hM hs hm hn; rewrite bind_ok.
have dot r a : Rr r a -> forall v s, Rr v s -> size a = size s -> forall z b, R z b ->
   exists y, foldM (fun acc xy => p <- c_mul o xy.1 xy.2 ;; c_add o acc p)%res (combine r v) z = Ok y /\
             R y (b + \sum_(i < size a) nth 0 a i * nth 0 s i).
  elim=> [|x c r' a' hx _ IH] v' s' hv'.
    by case: hv' => // _ z' b hb; exists z'; rewrite big_ord0 addr0.
  case: hv' => // y d v'' s'' hy hv'' [hsz] z' b hb /=.
  have [p [-> hp]] := R_mul spec hx hy; rewrite bind_ok.
  have [q [-> hq]] := R_add spec hb hp; rewrite bind_ok.
  have [y' [-> hy']] := IH _ _ hv'' hsz _ _ hq; exists y'; split=> //.
  by rewrite big_ord_recl /= addrA.
have [r a [hr sa]|w [-> hw]] := @mapM_ok _ _ _ _ _ R
    (fun r => foldM (fun acc xy => p <- c_mul o xy.1 xy.2 ;; c_add o acc p)%res (combine r v) z)
    (fun a => \sum_(i < n) nth 0 a i * nth 0 s i) _ _ (F2_shape hM hs).
  have [|y [ey hy]] := dot _ _ hr _ _ hv _ _ _ hz; first by rewrite sa.
  by exists y; split; [exact: ey | move: hy; rewrite add0r sa].
case: hs => sM lM.
exists w; eexists; split; [by [] | exact: hw | by rewrite size_map |].
apply/matrixP => i j; rewrite !mxE (nth_map [::]) ?sM //.
by apply: eq_bigr => k _; rewrite !mxE.
Qed.

Lemma ew2_ok (f : A -> A -> res A) (g : F -> F -> F) t u m n M N : (0 < m)%N -> (0 < n)%N ->
  (forall x y a b, R x a -> R y b -> exists z, f x y = Ok z /\ R z (g a b)) ->
  rep t m n M -> rep u m n N ->
  exists w, tab m n (fun i j => x <- el (t_rows t) i j ;; y <- el (t_rows u) i j ;; f x y)%res = Ok w /\
   rep w m n [seq [seq g (ent M i j) (ent N i j) | j <- iota 0 n] | i <- iota 0 m].
Proof.
move=> hm hn hf ht hu; apply: tab_ok => // i j hi hj.
have [x [-> hx]] := rep_el ht hi hj; have [y [-> hy]] := rep_el hu hi hj.
exact: hf.
Qed.

Lemma add_ok t u m n M N : (0 < m)%N -> (0 < n)%N -> rep t m n M -> rep u m n N ->
  exists w P, [/\ mat_add o t u = Ok w, rep w m n P & lmx m n P = lmx m n M + lmx m n N].
Proof.
move=> hm hn ht hu; rewrite /mat_add (rep_nr ht) (rep_nr hu).
rewrite (_ : t_nc t = n); last by case: ht.
rewrite (_ : t_nc u = n); last by case: hu.
rewrite !eqbE !eqxx.
have [w [e hw]] := ew2_ok hm hn (R_add spec) ht hu.
exists w; eexists; split; [exact: e | exact: hw |].
by rewrite tab_lmx; apply/matrixP => i j; rewrite !mxE.
Qed.
Lemma sub_ok t u m n M N : (0 < m)%N -> (0 < n)%N -> rep t m n M -> rep u m n N ->
  exists w P, [/\ mat_sub o t u = Ok w, rep w m n P & lmx m n P = lmx m n M - lmx m n N].
Proof.
move=> hm hn ht hu; rewrite /mat_sub (rep_nr ht) (rep_nr hu).
rewrite (_ : t_nc t = n); last by case: ht.
rewrite (_ : t_nc u = n); last by case: hu.
rewrite !eqbE !eqxx.
have [w [e hw]] := ew2_ok hm hn (R_sub spec) ht hu.
exists w; eexists; split; [exact: e | exact: hw |].
by rewrite tab_lmx; apply/matrixP => i j; rewrite !mxE.
Qed.
Lemma neg_ok t m n M : (0 < m)%N -> (0 < n)%N -> rep t m n M ->
  exists w P, [/\ mat_neg o t = Ok w, rep w m n P & lmx m n P = - lmx m n M].
Proof.
move=> hm hn ht; rewrite /mat_neg (rep_nr ht) (_ : t_nc t = n); last by case: ht.
have [|w [e hw]] := @tab_ok _ _ V I m n (fun i j => x <- el (t_rows t) i j ;; c_neg o x)%res
   (fun i j => - ent M i j) hm hn.
  by move=> i j hi hj; have [x [-> hx]] := rep_el ht hi hj; apply: R_neg.
exists w; eexists; split; [exact: e | exact: hw |].
by rewrite tab_lmx; apply/matrixP => i j; rewrite !mxE.
Qed.
Lemma smul_ok t m n M c a : (0 < m)%N -> (0 < n)%N -> rep t m n M -> R c a ->
  exists w P, [/\ mat_smul o t c = Ok w, rep w m n P & lmx m n P = a *: lmx m n M].
Proof.
move=> hm hn ht hc; rewrite /mat_smul (rep_nr ht) (_ : t_nc t = n); last by case: ht.
have [|w [e hw]] := @tab_ok _ _ V I m n (fun i j => x <- el (t_rows t) i j ;; c_mul o x c)%res
   (fun i j => ent M i j * a) hm hn.
  by move=> i j hi hj; have [x [-> hx]] := rep_el ht hi hj; apply: R_mul.
exists w; eexists; split; [exact: e | exact: hw |].
by rewrite tab_lmx; apply/matrixP => i j; rewrite !mxE mulrC.
Qed.
Lemma transpose_ok t m n M : (0 < m)%N -> (0 < n)%N -> rep t m n M ->
  exists w P, [/\ mat_transpose t = Ok w, rep w n m P & lmx n m P = (lmx m n M)^T].
Proof.
move=> hm hn ht; rewrite /mat_transpose (rep_nr ht) (_ : t_nc t = n); last by case: ht.
have [|w [e hw]] := @tab_ok _ _ V I n m (fun j i => el (t_rows t) i j)
   (fun j i => ent M i j) hn hm.
  by move=> i j hi hj; apply: (rep_el ht).
exists w; eexists; split; [exact: e | exact: hw |].
by rewrite tab_lmx; apply/matrixP => i j; rewrite !mxE.
Qed.

(* ---- powers *)
Definition mxpow n (a : 'M[F]_n) (k : nat) : 'M[F]_n := iter k (mulmx a) 1%:M.
Lemma mxpowS n (a : 'M[F]_n) k : mxpow a k.+1 = mxpow a k *m a.
Proof. by elim: k => [|k IH]; [rewrite /mxpow /= mulmx1 mul1mx | rewrite {2}/mxpow /= -/(mxpow a k) -mulmxA -IH]. Qed.

Definition repx n (t : tmat A) (a : 'M[F]_n) := exists M, rep t n n M /\ lmx n n M = a.

Lemma posexp_ok n t M u e : (0 < n)%N -> rep t n n M -> repx u (1%:M : 'M_n) ->
  Z.le 0 e -> Z.le e INT_MAX ->
  exists r, posexp o t e u = Ok r /\ repx r (mxpow (lmx n n M) (Z.to_nat e)).
Proof.
move=> hn ht hu h0 h1.
have mulok a b x y : repx a x -> repx b y -> exists c, mat_mul o a b = Ok c /\ repx c (x *m y : 'M_n).
  case=> Ma [ha <-] [Mb [hb <-]]; have [w [P [e' hw eP]]] := mul_ok spec hn hn hn ha hb.
  by exists w; split=> //; exists P.
have hpow a k y : mpow mulmx a k y = y *m mxpow a k :> 'M_n.
  elim: k y => [|k IH] y /=; first by rewrite mulmx1.
  by rewrite IH -mulmxA.
have [|||||r [e1 h]] := @pow_loop_ok _ _ (mat_mul o) (@repx n) mulmx mulok (@mulmxA F n n n n) 34 e t (lmx n n M) u 1%:M.
- by exists M.
- exact: hu.
- by split.
- by apply: (Z.le_lt_trans _ _ _ h1).
- by apply/leP.
exists r; split; first exact: e1.
by move: h; rewrite hpow mul1mx.
Qed.

Lemma exp_ok d t n M e : (0 < n)%N -> rep t n n M -> Z.lt INT_MIN e -> Z.le e INT_MAX ->
  let a := lmx n n M in
  [/\ Z.lt 0 e -> exists r, mat_exp o d t e = Ok (Some r) /\ 
        (a != 0 -> repx r (mxpow a (Z.to_nat e))) /\ (a = 0 -> repx r a),
   Z.le e 0 -> a \in unitmx ->
     exists r, mat_exp o d t e = Ok (Some r) /\ repx r (mxpow (invmx a) (Z.to_nat (Z.opp e))),
   Z.le e 0 -> a != 0 -> a \notin unitmx -> mat_exp o d t e = Ok None &
   Z.le e 0 -> a = 0 -> mat_exp o d t e = Exn].
Proof.
move=> hn ht h0 h1 a; case: (ht) => hM hs hc.
rewrite /mat_exp {1 2 3 4}/is_square (rep_nr ht) hc eqbE eqxx.
have [z [-> hz]] := get_zero_ok spec hM hs hn hn; rewrite bind_ok.
have [f [-> hf]] := find_one_ok spec hM hs hn hn; rewrite bind_ok.
case: f hf => [one [hnz ho]|hf]; last first.
  have a0 : a = 0 by apply: zero_lmx.
  have au : (a \in unitmx) = false.
    by rewrite a0; case: (n) hn => // n' _; rewrite unitmxE det0 unitr0.
  rewrite au a0 eqxx; split=> //.
  - move=> he; exists t; rewrite (_ : Z.leb e 0 = false); last by apply/Z.leb_gt.
    by split=> //; split=> // _; exists M; split=> //.
  - by move=> he _; rewrite (_ : Z.leb e 0 = true) //; apply/Z.leb_le.
have na : a != 0.
  have [i [j [hi [hj nz]]]] := nonzeroP hs hnz.
  apply/eqP => /matrixP /(_ (Ordinal hi) (Ordinal hj)); rewrite !mxE.
  by move/eqP: nz.
have [I' [N [-> hI eI]]] := make_I_ok hn ht hz ho; rewrite bind_ok.
have hI' : repx I' (1%:M : 'M_n) by exists N.
rewrite na; split=> //; last by move/eqP: na.
- move=> he; rewrite (_ : Z.geb e 1 = true); last by rewrite Z.geb_leb; apply/Z.leb_le; lia.
  have [r [-> hr]] := posexp_ok hn ht hI' (Z.lt_le_incl _ _ he) h1; rewrite bind_ok.
  exists r; split=> //; split=> // a0; by move/eqP: na.
- move=> he u; rewrite (_ : Z.geb e 1 = false); last by rewrite Z.geb_leb; apply/Z.leb_gt; lia.
  have [b [r [-> [hb hr]]]] := inverse_ok d (mkmat [::] 0%N) hn ht; rewrite bind_ok.
  rewrite -/a u in hb; rewrite {}hb in hr *; have [N' [hN' e1 e2]] := hr isT.
  have eN : lmx n n N' = invmx a by rewrite -[LHS]mulmx1 -(mulmxV u) mulmxA e1 mul1mx.
  case: (Z.eqb_spec e 0) => [e0|ne].
    by exists I'; split=> //; rewrite e0.
  rewrite /ineg chk_ok; last by move: h0 he; rewrite /INT_MIN /INT_MAX; lia.
  rewrite bind_ok (_ : Z.eqb e (Z.opp e) = false); last by apply/Z.eqb_neq; lia.
  have [||r' [-> hr']] := @posexp_ok n r N' I' (Z.opp e) hn hN' hI'.
  - by lia.
  - by move: h0; rewrite /INT_MIN /INT_MAX; lia.
  by rewrite bind_ok; exists r'; rewrite -eN.
- move=> he _ nu; rewrite (_ : Z.geb e 1 = false); last by rewrite Z.geb_leb; apply/Z.leb_gt; lia.
  have [b [r [-> [hb hr]]]] := inverse_ok d (mkmat [::] 0%N) hn ht; rewrite bind_ok.
  by rewrite -/a (negbTE nu) in hb; rewrite hb.
Qed.

End Refine3.
