(* Row reduction, echelon form, rank, kernel, determinant, inverse and solve of the
   matrix model, against mathcomp matrices. *)
From Verif Require Import Base MMat.
From mathcomp Require Import all_ssreflect fingroup perm all_algebra.
From Verif Require Import PLin PLin2 PLin3 PMat.
Set Implicit Arguments.
Unset Strict Implicit.
Unset Printing Implicit Defensive.
Import GRing.Theory.
Local Open Scope ring_scope.

Lemma foldM_iota_ok (B : Type) (f : B -> nat -> res B) (Inv : nat -> B -> Prop) k : forall i b,
  (forall j b, (i <= j < i + k)%N -> Inv j b -> exists b', f b j = Ok b' /\ Inv j.+1 b') ->
  Inv i b -> exists b', foldM f (List.seq i k) b = Ok b' /\ Inv (i + k)%N b'.
Proof.
elim: k => [|k IH] i b hf hi /=; first by exists b; rewrite addn0.
have [|b' [e h]] := hf i b _ hi; first by rewrite leqnn -addSnnS leq_addr.
rewrite e /=; have [|b'' [e' h']] := IH i.+1 b' _ h.
  by move=> j c /andP[h1 h2] hc; apply: hf => //; rewrite ltnW //= -addSnnS.
by exists b''; rewrite -addSnnS.
Qed.

Lemma mapM_iota_ok (B C : Type) (Q : B -> C -> Prop) (f : nat -> res B) (g : nat -> C) k : forall i,
  (forall j, (i <= j < i + k)%N -> exists z, f j = Ok z /\ Q z (g j)) ->
  exists r, mapM f (List.seq i k) = Ok r /\ Forall2 Q r (map g (iota i k)).
Proof.
elim: k => [|k IH] i hf /=; first by exists [::].
have [|z [e h]] := hf i; first by rewrite leqnn -addSnnS leq_addr.
have [|r [e' h']] := IH i.+1.
  by move=> j /andP[h1 h2]; apply: hf => //; rewrite ltnW //= -addSnnS.
by exists (z :: r); rewrite e /= e'; split=> //; constructor.
Qed.

Section Pure.
Variable F : fieldType.
Implicit Types M : seq (seq F).

Lemma zeroM_ent M i j : ~~ nonzero M -> ent M i j = 0.
Proof.
move=> hz; apply/eqP; apply: contraR hz => nz; apply/hasP; exists (ent M i j) => //.
have hi : (i < size M)%N.
  by rewrite ltnNge; apply: contra nz => h; rewrite /ent [nth _ M i]nth_default // nth_nil.
apply/flattenP; exists (nth [::] M i); apply: mem_nth => //.
by rewrite ltnNge; apply: contra nz => h; rewrite /ent nth_default.
Qed.

Lemma prr_zero k : forall M top left s, ~~ nonzero M -> (prr k M top left s).1 = M.
Proof.
elim: k => //= k IH M top left s hz; case: ltnP => // ht.
case: ltnP => hp; last exact: IH.
by have := piv_nz hp; rewrite zeroM_ent ?eqxx.
Qed.

Lemma cmb_sub (s u : seq F) a : [seq p.1 - p.2 | p <- zip s (scl a u)] = cmb s 1 u a.
Proof. by rewrite /cmb /scl; elim: s u => [|x s IH] [|y u] //=; rewrite IH mulr1. Qed.

Definition Mrect m n M := shape m n M.

Lemma zero_lmx m n M : ~~ nonzero M -> lmx m n M = 0.
Proof. by move=> h; apply/matrixP => i j; rewrite !mxE zeroM_ent. Qed.
End Pure.

Section Refine2.
Variables (A : Type) (o : cops A) (F : fieldType) (V : A -> Prop) (I : A -> F).
Hypothesis spec : cspec o V I.
Local Notation R := (R V I).
Local Notation Rr := (Rr V I).
Local Notation Rm := (Rm V I).
Implicit Types M : seq (seq F).

(* a model matrix represents the m x n list matrix M *)
Definition rep (t : tmat A) (m n : nat) M := [/\ Rm (t_rows t) M, shape m n M & t_nc t = n].

Lemma rep_nr t m n M : rep t m n M -> t_nr t = m.
Proof. by case=> h [<- _] _; rewrite /t_nr lengthE (F2_size h). Qed.

Section Dim.
Variables (m n : nat).
Hypotheses (Hm : (0 < m)%N) (Hn : (0 < n)%N).

Lemma prr_shape k M top left s : shape m n M -> shape m n (prr k M top left s).1.
Proof.
elim: k M top left s => //= k IH M top left s hs.
have hsz : size M = m by case: hs.
case: ltnP => // ht; case: ltnP => hp; last exact: IH.
apply: IH; apply: pstep_shape => //; [exact: piv_ge | by rewrite -hsz].
Qed.

Lemma rrs_ok t M : rep t m n M ->
  exists t' s, [/\ row_reduce_below_with_scalar o t = Ok (t', s),
    rep t' m n (prr n M 0 0 1).1 &
    R s (if nonzero M then (prr n M 0 0 1).2 else 0)].
Proof.
move=> [h hs hc]; have [z [ez hz]] := get_zero_ok spec h hs Hm Hn.
rewrite /row_reduce_below_with_scalar ez bind_ok.
have [f [ef hf]] := find_one_ok spec h hs Hm Hn; rewrite ef bind_ok.
case: f {ef} hf => [one|].
  case=> hnz ho; rewrite hnz.
  have [mo [emo hmo]] := R_sub spec hz ho; rewrite emo bind_ok sub0r in hmo *.
  have [rows' [s' [e [h1 h2]]]] := rr_loop_ok spec h hs hz ho hmo ho (add0n n) (ltnSn n) (leq0n m).
  rewrite hc e bind_ok; exists (mkmat rows' n), s'; split=> //; split=> //.
  exact: prr_shape.
move=> hnz; rewrite (negbTE hnz) prr_zero //.
by exists t, z; split=> //; split.
Qed.

Lemma rr_ok t M : rep t m n M ->
  exists t', row_reduce_below o t = Ok t' /\ rep t' m n (prr n M 0 0 1).1.
Proof.
move=> h; have [t' [s [e h1 h2]]] := rrs_ok h; rewrite /row_reduce_below e /=.
by exists t'.
Qed.

Lemma back_row_ok k : forall rows M zero row row2,
  Rm rows M -> shape m n M -> R zero 0 -> (row < row2)%N -> (row2 + k = m)%N ->
  exists rows', [/\ back_row o k rows zero row row2 = Ok rows',
    Rm rows' (set_nth [::] M row (clr (nth [::] M row) (drop row2 M))) &
    shape m n (set_nth [::] M row (clr (nth [::] M row) (drop row2 M)))].
Proof.
have hid M row : (row < size M)%N -> set_nth [::] M row (nth [::] M row) = M.
  move=> hr; apply: (@eq_from_nth _ [::]).
    by rewrite size_set_nth; apply/maxn_idPr.
  by move=> i _; rewrite nth_set_nth /=; case: eqP => [->|].
elim: k => [|k IH] rows M zero row row2 h hs hz hlt hk.
  rewrite addn0 in hk; exists rows; have hsz : size M = m by case: hs.
  by rewrite drop_oversize ?hsz ?hk //= hid // hsz -hk.
have hsz : size M = m by case: hs.
have sM i : (i < m)%N -> size (nth [::] M i) = n by case: hs => _; apply.
have h2 : (row2 < m)%N by rewrite -hk -addSnnS leq_addr.
have hr : (row < m)%N by apply: ltn_trans h2.
rewrite /back_row -/back_row.
have [r2 [e2 [hr2 s2]]] := Rm_row h hs h2; rewrite e2 bind_ok.
rewrite (Rr_leader spec hr2 hz) bind_ok (drop_nth [::]) ?hsz //=.
set b := nth [::] M row2 in hr2 *.
rewrite -has_find; case: ifP => hb; last first.
  by exists rows; rewrite hid ?hsz.
set q := find _ b.
have hq : (q < n)%N by rewrite -(sM row2 h2) -has_find.
have [lv [elv hlv]] : exists lv, elt r2 q = Ok lv /\ R lv (nth 0 b q).
  have [x [ex hx]] := Rm_el h hs h2 hq; exists x; split=> //.
  by move: ex; rewrite /el e2.
rewrite elv bind_ok.
have [cv [ecv hcv]] := Rm_el h hs hr hq; rewrite ecv bind_ok.
rewrite (R_eqb spec hcv hz) bind_ok -/(ent M row q).
case: eqP => hx.
  by apply: (IH _ M) => //; [apply: ltnW | rewrite addSnnS].
have nzb : nth 0 b q != 0 by apply: (nth_find 0 hb).
have [mul [em hmul]] := R_div spec hcv hlv nzb; rewrite em bind_ok.
have [sc [esc hsc]] := Rr_mult_by spec hr2 hmul.
rewrite (_ : row_smul o r2 mul = mult_by o r2 mul) // esc bind_ok.
have [r [er [hrr sr]]] := Rm_row h hs hr; rewrite er bind_ok.
have [|r' [er' hr']] := Rr_sub spec hrr hsc; first by rewrite size_map !sM.
rewrite er' bind_ok cmb_sub in hr' *.
set row' := cmb _ _ _ _ in hr' *.
have hs' : size row' = n by rewrite size_cmb !sM.
have [rows' [e' [h' hsh']]] := Rm_setrow h hs hr hr' hs'; rewrite e' bind_ok.
have [||rows'' [e'' h'' hsh'']] := IH rows' _ zero row row2.+1 h' hsh' hz.
- exact: ltnW.
- by rewrite addSnnS.
exists rows''; split=> //; move: h'' hsh''; rewrite nth_set_nth /= eqxx set_set_nth eqxx.
- rewrite (_ : drop row2.+1 (set_nth _ _ _ _) = drop row2.+1 M) //.
  apply: (@eq_from_nth _ [::]); rewrite !size_drop size_set_nth (maxn_idPr _) ?hsz //.
  move=> i _; rewrite !nth_drop nth_set_nth /= gtn_eqF //.
  by apply: leq_trans (leq_addr _ _); apply: ltnW.
- rewrite (_ : drop row2.+1 (set_nth _ _ _ _) = drop row2.+1 M) //.
  apply: (@eq_from_nth _ [::]); rewrite !size_drop size_set_nth (maxn_idPr _) ?hsz //.
  move=> i _; rewrite !nth_drop nth_set_nth /= gtn_eqF //.
  by apply: leq_trans (leq_addr _ _); apply: ltnW.
Qed.

Lemma rech_ok t M : rep t m n M ->
  exists t', row_echelon_form o t = Ok t' /\ rep t' m n (prech n M).
Proof.
move=> hrep; have [t1 [e1 h1]] := rr_ok hrep; rewrite /row_echelon_form e1 bind_ok.
have nr1 := rep_nr h1.
case: h1 => h1 hs1 hc1.
have [z [ez hz]] := get_zero_ok spec h1 hs1 Hm Hn; rewrite ez bind_ok nr1.
set M1 := (prr _ _ _ _ _).1 in h1 hs1.
have hsz : size M1 = m by case: hs1.
pose Inv i rows := exists Mi, [/\ Rm rows Mi, shape m n Mi &
  forall k, nth [::] Mi k = if (k < i)%N && (k < m)%N then clr (nth [::] M1 k) (drop k.+1 M1) else nth [::] M1 k].
have [||rows [er [Mi [hMi hsi hE]]]] :=
    @foldM_iota_ok _ (fun rows row => back_row o (length rows - row.+1) rows z row row.+1)
      Inv m 0 (t_rows t1).
- move=> j rows; rewrite add0n /= => hj [Mi [hMi hsi hE]].
  rewrite lengthE (F2_size hMi) (_ : size Mi = m); last by case: hsi.
  have [|rows' [e' h' hs']] := back_row_ok hMi hsi hz (ltnSn j) (k := m - j.+1).
    by rewrite subnKC.
  exists rows'; split; first exact: e'.
  eexists; split; [exact: h' | exact: hs' |] => k; rewrite nth_set_nth /=.
  case: eqP => [->|/eqP nkj]; last first.
    by rewrite hE ltnS [in RHS]leq_eqVlt (negbTE nkj).
  rewrite ltnSn hj /= hE ltnn /=; congr clr.
  have hsi' : size Mi = m by case: hsi.
  have -> : drop j.+1 Mi = drop j.+1 M1; last by [].
  apply: (@eq_from_nth _ [::]); first by rewrite !size_drop hsi' hsz.
  by move=> i _; rewrite !nth_drop hE ltnNge (leq_trans (leqnSn j)) ?leq_addr.
- by exists M1; split=> // k; rewrite ltn0.
rewrite er bind_ok hc1; exists (mkmat rows n); split=> //.
have -> : prech n M = Mi.
  apply: (@eq_from_nth _ [::]); first by rewrite size_pback; case: hsi => ->.
  move=> i; rewrite size_pback hsz => hi; rewrite nth_pback ?hsz // hE.
  by rewrite add0n hi.
by split.
Qed.

Lemma rank_rr_ok t M : rep t m n M ->
  get_rank_rr o t = Ok (count (has (fun x => x != 0)) M).
Proof.
case=> h hs hc; have [z [ez hz]] := get_zero_ok spec h hs Hm Hn.
rewrite /get_rank_rr ez bind_ok hc.
have hall : forall k, (k < size M)%N -> size (nth [::] M k) = n by case: hs => ->.
have aux : forall rows M acc, Rm rows M -> (forall k, (k < size M)%N -> size (nth [::] M k) = n) ->
   foldM (fun rank r => l <- find_nz o (firstn n r) z ;;
      Ok (match l with Some _ => rank.+1 | None => rank end))%res rows acc
   = Ok (acc + count (has (fun x => x != 0%R)) M)%N.
  move=> rows' M' acc hM; elim: hM acc => [|r s l l' hr _ IH] acc hk.
    by rewrite /= addn0.
  have sr : size r = n by rewrite (F2_size hr); apply: (hk 0%N).
  rewrite /= (_ : firstn n r = r); last by rewrite -sr -lengthE firstn_all.
  have [f [-> hf]] := Rr_find_nz spec hr hz; rewrite /=.
  rewrite IH; last by move=> k hk'; apply: (hk k.+1).
  case: f hf => [x [-> _]|/negbTE ->] //=; by rewrite addSnnS.
by rewrite (aux _ M).
Qed.

Lemma rank_ok t M : rep t m n M -> get_rank o t = Ok (\rank (lmx m n M)).
Proof.
move=> hrep; have [t1 [e1 h1]] := rr_ok hrep; rewrite /get_rank e1 bind_ok.
rewrite (rank_rr_ok h1); case: hrep => _ hs _.
have [pv [hs1 he [E uE [hE _]]]] :=
  @prr_ok F n M 0 0 1 m n [::] hs (erefl _) (ech0 _ _ _) (add0n n).
rewrite (ech_count hs1 he) -(ech_rank he) hE.
by rewrite (eqmxMfull _ _) // row_full_unit.
Qed.

(* ---- kernel *)
Lemma flags_ok rows M pv zero k : Rm rows M -> shape m n M -> rref m n M pv -> R zero 0 ->
  (k <= size pv)%N ->
  exists fl, free_flags o rows n k zero = Ok fl /\ size fl = n /\
    forall j, (j < n)%N -> nth false fl j = (j \notin take k pv).
Proof.
move=> h hs hr hz hk; have he := rref_ech hr.
pose Inv i (fl : seq bool) := size fl = n /\ forall j, (j < n)%N -> nth false fl j = (j \notin take i pv).
have [||fl [e [h1 h2]]] := @foldM_iota_ok _ (fun fl i => r <- rowat rows i ;; lp <- find_leader_pos o r zero ;;
           match lp with
           | Some p => if (p <? length fl)%coq_nat then Ok (upd fl p false) else UB
           | None => Ok fl
           end)%res Inv k 0 (repeat true n).
- move=> i fl; rewrite add0n /= => hi [h1 h2].
  have hip : (i < size pv)%N by apply: leq_trans hk.
  have him : (i < m)%N by apply: leq_trans (ech_size he).
  have [r [er [hrr sr]]] := Rm_row h hs him; rewrite er bind_ok.
  rewrite (Rr_leader spec hrr hz) bind_ok (ech_has hs he him) hip.
  rewrite (ech_lead hs he hip) ltbE lengthE h1 (ech_lt he hip).
  exists (upd fl (nth 0%N pv i) false); split=> //; split.
    by rewrite -lengthE upd_length.
  move=> j hj; have := upd_nth fl (nth 0%N pv i) false j false.
  rewrite (_ : List.nth j _ false = nth false (upd fl (nth 0%N pv i) false) j); last first.
    by move: (upd fl _ _) => l; elim: l j {hj} => [|x l IH] [|j] //=; apply: IH.
  move=> ->; rewrite (_ : List.nth j fl false = nth false fl j); last first.
    by elim: (fl) j {hj} => [|x l IH] [|j] //=; apply: IH.
  rewrite eqbE ltbE lengthE h1 (ech_lt he hip) andbT h2 //.
  rewrite (take_nth 0%N) // mem_rcons inE negb_or.
  by case: eqP.
- split; first by rewrite -lengthE repeat_length.
  move=> j hj; rewrite take0 /=.
  by elim: (n) j hj => [|n' IH] [|j] //= hj; apply: IH.
by exists fl; split.
Qed.

Lemma free_indices_ok fl pv : size fl = n ->
  (forall j, (j < n)%N -> nth false fl j = (j \notin pv)) -> free_indices fl = frees n pv.
Proof.
move=> h1 h2; rewrite /free_indices lengthE h1 seqE /frees.
have -> : forall p l, List.filter p l = seq.filter p l by move=> T p; elim=> //= x l ->.
apply: eq_in_filter => j; rewrite mem_iota add0n /= => hj; rewrite -h2 //.
by elim: (fl) j {hj} => [|x l IH] [|j] //=; apply: IH.
Qed.

Lemma kernel_row_ok rows M pv zero one f : Rm rows M -> shape m n M -> rref m n M pv ->
  R zero 0 -> R one 1 -> (f < n)%N -> f \notin pv ->
  exists r, kernel_row o rows n (size pv) zero one f = Ok r /\ Rr r (kvec n M pv f).
Proof.
move=> h hs hr hz ho hf nf; have he := rref_ech hr.
pose kv i := mkseq (fun j => if j == f then 1 : F
   else if (j \in take i pv) then - ent M (index j pv) f else 0) n.
pose Inv i r := Rr r (kv i).
rewrite /kernel_row /setelt lengthE -lengthE repeat_length ltbE hf bind_ok.
have [||r [e hrr]] := @foldM_iota_ok _ (fun b j =>
           x <- el rows j f ;; z <- c_eqb o x zero ;;
           if (z : bool) then Ok b
           else
             r <- rowat rows j ;; lp <- find_leader_pos o r zero ;;
             match lp with
             | Some dep => nx <- c_neg o x ;; setelt b dep nx
             | None => UB
             end)%res Inv (size pv) 0 (upd (repeat zero n) f one).
- move=> i r; rewrite add0n /= => hi hInv.
  have him : (i < m)%N by apply: leq_trans (ech_size he).
  have [x [ex hx]] := Rm_el h hs him hf; rewrite ex bind_ok.
  rewrite (R_eqb spec hx hz) bind_ok.
  have hstep : kv i.+1 = set_nth 0 (kv i) (nth 0%N pv i) (- ent M i f).
    have hsz : size (set_nth 0 (kv i) (nth 0%N pv i) (- ent M i f)) = n.
      by rewrite size_set_nth size_mkseq; apply/maxn_idPr; apply: (ech_lt he).
    apply: (@eq_from_nth _ 0); first by rewrite hsz size_mkseq.
    move=> j; rewrite size_mkseq => hj; rewrite nth_set_nth /= !nth_mkseq //.
    rewrite (take_nth 0%N) // mem_rcons inE.
    case: (j =P f) => [->|nj].
      by case: eqP => // e; case/negP: nf; rewrite e mem_nth.
    case: (j =P nth 0%N pv i) => [->|_] //=.
    by rewrite index_uniq // (pv_uniq hr).
  case: eqP => hx0.
    exists r; split=> //; rewrite /Inv hstep hx0 oppr0.
    rewrite (_ : set_nth _ _ _ _ = kv i) //.
    have hsz : size (set_nth 0 (kv i) (nth 0%N pv i) 0) = n.
      by rewrite size_set_nth size_mkseq; apply/maxn_idPr; apply: (ech_lt he).
    apply: (@eq_from_nth _ 0); first by rewrite hsz size_mkseq.
    move=> j _; rewrite nth_set_nth /=; case: eqP => // ->.
    rewrite nth_mkseq ?(ech_lt he) //; case: eqP => [e|_]; first by case/negP: nf; rewrite -e mem_nth.
    case: ifP => // hin; exfalso; move: hin.
    case/(nthP 0%N) => l; rewrite size_take => hl; rewrite nth_take; last by move: hl; case: ifP => //; rewrite ltnNge => /negbFE h1 h2; apply: leq_trans h2 h1.
    move/eqP; rewrite nth_uniq ?(pv_uniq hr) //.
      by move/eqP => e; move: hl; rewrite hi e ltnn.
    by move: hl; rewrite hi => hl; apply: ltn_trans hi.
  have [r2 [er2 [hrr2 sr2]]] := Rm_row h hs him; rewrite er2 bind_ok.
  rewrite (Rr_leader spec hrr2 hz) bind_ok (ech_has hs he him) hi (ech_lead hs he hi).
  have [nx [enx hnx]] := R_neg spec hx; rewrite enx bind_ok /setelt ltbE lengthE.
  rewrite (F2_size hInv) size_mkseq (ech_lt he hi).
  eexists; split; first by [].
  by rewrite /Inv hstep; apply: F2_upd => //; rewrite size_mkseq (ech_lt he hi).
- rewrite /Inv (_ : kv 0%N = set_nth 0 (nseq n 0) f 1).
    apply: F2_upd => //; last by rewrite size_nseq.
    by elim: (n) => //= n' IH; constructor.
  have hsz : size (set_nth 0 (nseq n 0) f (1 : F)) = n.
    by rewrite size_set_nth size_nseq; apply/maxn_idPr.
  apply: (@eq_from_nth _ 0); first by rewrite hsz size_mkseq.
  move=> j; rewrite size_mkseq => hj; rewrite nth_set_nth /= nth_mkseq // take0 /=.
  by rewrite nth_nseq hj.
exists r; split; first exact: e.
by move: hrr; rewrite /Inv add0n /kv take_size.
Qed.

Lemma kernel_ok t M zero one : rep t m n M -> R zero 0 -> R one 1 ->
  exists pv, [/\ shape m n (prech n M), rref m n (prech n M) pv &
  if size pv == n then get_kernel_basis o t zero one = Ok None
  else exists t', get_kernel_basis o t zero one = Ok (Some t') /\
                  rep t' (n - size pv) n (kbasis n (prech n M) pv)].
Proof.
move=> hrep hz ho; have [t1 [e1 h1]] := rech_ok hrep.
have hs : shape m n M by case: hrep.
have [pv [hs1 hr1 _]] := prech_ok hs; exists pv; split=> //.
have he := rref_ech hr1.
rewrite /get_kernel_basis e1 bind_ok (rank_rr_ok h1) bind_ok (ech_count hs1 he).
have c1 : t_nc t1 = n by case: h1.
have c : t_nc t = n by case: hrep.
have hle : (size pv <= n)%N.
  by rewrite -(ech_rank he) rank_leq_col.
rewrite c1 c ltbE ltnNge hle /= eqbE subn_eq0 eqn_leq hle /=.
case: leqP => hlt //.
have hR1 : Rm (t_rows t1) (prech n M) by case: h1.
have [fl [ef [hfl1 hfl2]]] := flags_ok hR1 hs1 hr1 hz (leqnn (size pv)).
rewrite ef bind_ok (free_indices_ok (pv := pv)) //; last first.
  by move=> j hj; rewrite hfl2 // take_size.
have [|r [er hrr]] := @mapM_iota_ok _ _ Rr (fun i => match List.nth_error (frees n pv) i with
                           | Some f => kernel_row o (t_rows t1) n (size pv) zero one f
                           | None => UB
                           end) (fun i => kvec n (prech n M) pv (nth 0%N (frees n pv) i)) (n - size pv) 0.
  move=> i; rewrite add0n /= => hi.
  rewrite (nth_error_nth' 0%N) ?(size_frees hr1) //.
  have [hf nf] := free_prop hr1 hi.
  by have [r [e hrr]] := kernel_row_ok hR1 hs1 hr1 hz ho hf nf; exists r.
rewrite er bind_ok; exists (mkmat r n); split=> //; split=> //=.
  rewrite /kbasis; move: hrr; congr Forall2.
  apply: (@eq_from_nth _ [::]); first by rewrite !size_map size_iota (size_frees hr1).
  move=> i; rewrite size_map size_iota => hi.
  rewrite (nth_map 0%N) ?size_iota // nth_iota // add0n.
  by rewrite (nth_map 0%N) ?(size_frees hr1).
exact: (kbasis_shape hr1).
Qed.

End Dim.

(* ---- tabulated matrices *)
Lemma tab_ok m n f (g : nat -> nat -> F) : (0 < m)%N -> (0 < n)%N ->
  (forall i j, (i < m)%N -> (j < n)%N -> exists x, f i j = Ok x /\ R x (g i j)) ->
  exists t, tab m n f = Ok t /\ rep t m n [seq [seq g i j | j <- iota 0 n] | i <- iota 0 m].
Proof.
move=> hm hn hf; rewrite /tab !eqbE !(gtn_eqF hm) (gtn_eqF hn) /=.
have [|r [e hr]] := @mapM_iota_ok _ _ Rr (fun i => mapM (fun j => f i j) (List.seq 0 n))
    (fun i => [seq g i j | j <- iota 0 n]) m 0.
  move=> i; rewrite add0n /= => hi.
  by apply: (mapM_iota_ok (Q := R)) => j; rewrite add0n /= => hj; apply: hf.
rewrite e /=; exists (mkmat r n); split=> //; split=> //.
split; first by rewrite size_map size_iota.
by move=> i hi; rewrite (nth_map 0%N) ?size_iota // size_map size_iota.
Qed.

Lemma tab_ent m n (g : nat -> nat -> F) i j : (i < m)%N -> (j < n)%N ->
  ent [seq [seq g i j | j <- iota 0 n] | i <- iota 0 m] i j = g i j.
Proof.
move=> hi hj; rewrite /ent (nth_map 0%N) ?size_iota // nth_iota // add0n.
by rewrite (nth_map 0%N) ?size_iota // nth_iota.
Qed.

Lemma tab_lmx m n (g : nat -> nat -> F) :
  lmx m n [seq [seq g i j | j <- iota 0 n] | i <- iota 0 m] = \matrix_(i, j) g i j.
Proof. by apply/matrixP => i j; rewrite !mxE tab_ent. Qed.

Lemma rep_el t m n M i j : rep t m n M -> (i < m)%N -> (j < n)%N ->
  exists x, el (t_rows t) i j = Ok x /\ R x (ent M i j).
Proof. by case=> h hs _; apply: Rm_el. Qed.

Lemma sum_foldM (f : A -> nat -> res A) (g : nat -> F) k acc a : R acc a ->
  (forall x b i, (i < k)%N -> R x b -> exists y, f x i = Ok y /\ R y (b + g i)) ->
  exists y, foldM f (List.seq 0 k) acc = Ok y /\ R y (a + \sum_(i < k) g i).
Proof.
move=> ha hf.
have [||y [e hy]] := @foldM_iota_ok _ f (fun i y => R y (a + \sum_(j < i) g j)) k 0 acc.
- move=> j x; rewrite add0n /= => hj hx.
  have [y [ey hy]] := hf x _ j hj hx; exists y; split=> //.
  by rewrite big_ord_recr /= addrA.
- by rewrite big_ord0 addr0.
by exists y.
Qed.

(* ---- determinant *)
Lemma det_ok t n M : (0 < n)%N -> rep t n n M ->
  exists d, mat_det o t = Ok d /\ R d (\det (lmx n n M)).
Proof.
move=> hn hrep; rewrite /mat_det /is_square (rep_nr hrep) (_ : t_nc t = n); last by case: hrep.
rewrite eqbE eqxx; have [t' [s [e h1 hs]]] := rrs_ok hn hn hrep; rewrite e bind_ok.
have [||d [ed hd]] := @foldM_iota_ok _ (fun d i => x <- el (t_rows t') i i ;; c_mul o d x)%res
  (fun i d => R d ((if nonzero M then (prr n M 0 0 1).2 else 0) *
                   \prod_(j < i) ent (prr n M 0 0 1).1 j j)) n 0 s.
- move=> j b; rewrite add0n /= => hj hb; have [x [ex hx]] := rep_el h1 hj hj.
  rewrite ex bind_ok; have [y [ey hy]] := R_mul spec hb hx; exists y; split=> //.
  by rewrite big_ord_recr /= mulrA.
- by rewrite big_ord0 mulr1.
exists d; split=> //; rewrite add0n in hd; case: hrep => _ hsh _.
case: ifP hd => hnz; first by rewrite prr_det.
rewrite mul0r zero_lmx ?hnz //; case: (n) hn => // n' _ hd; by rewrite det0.
Qed.

(* ---- matrix product *)
Lemma mul_ok t u m n k M N : (0 < m)%N -> (0 < n)%N -> (0 < k)%N -> rep t m n M -> rep u n k N ->
  exists w P, [/\ mat_mul o t u = Ok w, rep w m k P & lmx m k P = lmx m n M *m lmx n k N].
Proof.
move=> hm hn hk ht hu; rewrite /mat_mul (rep_nr hu) (rep_nr ht).
have ct : t_nc t = n by case: ht.
have cu : t_nc u = k by case: hu.
rewrite ct cu eqbE eqxx.
have [z [ez hz]] : exists z, get_zero o (t_rows t) = Ok z /\ R z 0.
  by case: ht => h hs _; apply: get_zero_ok h hs hm hn.
rewrite ez bind_ok.
have [|w [ew hw]] := @tab_ok m k (fun i j =>
   foldM (fun acc l => x <- el (t_rows t) i l ;; y <- el (t_rows u) l j ;;
                       p <- c_mul o x y ;; c_add o acc p)%res (List.seq 0 n) z)
   (fun i j => \sum_(l < n) ent M i l * ent N l j) hm hk.
  move=> i j hi hj.
  have [|y [ey hy]] := @sum_foldM (fun acc l => x <- el (t_rows t) i l ;; y <- el (t_rows u) l j ;;
                       p <- c_mul o x y ;; c_add o acc p)%res (fun l => ent M i l * ent N l j) n z 0 hz.
    move=> acc b l hl hacc; have [x [ex hx]] := rep_el ht hi hl; rewrite ex bind_ok.
    have [y [ey hy]] := rep_el hu hl hj; rewrite ey bind_ok.
    by have [p [ep hp]] := R_mul spec hx hy; rewrite ep bind_ok; apply: R_add.
  by exists y; rewrite add0r in hy.
exists w; eexists; split; [exact: ew | exact: hw |].
by rewrite tab_lmx; apply/matrixP => i j; rewrite !mxE; apply: eq_bigr => l _; rewrite !mxE.
Qed.

End Refine2.
