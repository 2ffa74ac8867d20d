(* The division-free elimination of tmatrix.h computes determinants over polynomials. *)
From Verif Require Import Base MMat MLinalg.
From mathcomp Require Import all_ssreflect fingroup perm all_algebra ssrZ.
From Verif Require Import PMat.
Set Implicit Arguments.
Unset Strict Implicit.
Unset Printing Implicit Defensive.
Import GRing.Theory.
Local Open Scope ring_scope.

(* The element type represents polynomials over a field.  S: values that may be used
   everywhere; L: values that may not be used as a left factor if they are zero. *)
Record espec (A : Type) (o : cops A) (gcd md : A -> A -> res A) (F : fieldType)
    (S L : A -> {poly F} -> Prop) : Prop := {
  es_SL : forall a p, S a p -> L a p;
  es_LS : forall a p, L a p -> p != 0 -> S a p;
  es_sub : forall a b p q, L a p -> L b q -> exists c, c_sub o a b = Ok c /\ S c (p - q);
  es_mul : forall a b p q, S a p -> L b q -> exists c, c_mul o a b = Ok c /\ L c (p * q);
  es_div : forall a b p q, L a p -> L b q -> q != 0 -> exists c, c_div o a b = Ok c /\ S c (p %/ q);
  es_mod : forall a b p q, L a p -> L b q -> q != 0 -> exists c, md a b = Ok c /\ S c (p %% q);
  es_gcd : forall a b p q, L a p -> L b q -> exists d r, [/\ gcd a b = Ok d, L d r & r %= gcdp p q];
  es_eqb : forall a b p q, L a p -> L b q -> c_eqb o a b = Ok (p == q)
}.

Section Lists.
Lemma nth_error_lt (T : Type) (l : seq T) i x : List.nth_error l i = Some x -> (i < size l)%N.
Proof. by elim: l i => [|y l IH] [|i] //= /IH. Qed.
Lemma nth_error_ex (T : Type) (l : seq T) i : (i < size l)%N -> exists x, List.nth_error l i = Some x.
Proof. by elim: l i => [|y l IH] [|i] //=; [exists y|apply: IH]. Qed.
Lemma nth_error_upd (T : Type) (l : seq T) i x k : (i < size l)%N ->
  List.nth_error (upd l i x) k = if k == i then Some x else List.nth_error l k.
Proof.
rewrite /upd; elim: l i k => [|y l IH] [|i] [|k] //= h.
by rewrite IH.
Qed.
Lemma mapM_nth (T U : Type) (f : T -> res U) : forall (l : seq T) (Q : nat -> U -> Prop),
  (forall j x, List.nth_error l j = Some x -> exists y, f x = Ok y /\ Q j y) ->
  exists l', [/\ mapM f l = Ok l', size l' = size l & forall j y, List.nth_error l' j = Some y -> Q j y].
Proof.
elim=> [|x l IH] Q h /=; first by exists [::]; split=> // -[].
have [y [-> hy]] := h 0%N x erefl; rewrite bind_ok.
have [|l' [-> hs hq]] := IH (fun j => Q j.+1); first by move=> j z hz; apply: (h j.+1).
by exists (y :: l'); split=> //=; [rewrite hs|case=> [|j] z /=; [case=> <-|apply: hq]].
Qed.
Lemma map2M_nth (T T' U : Type) (f : T -> T' -> res U) : forall (l : seq T) (l2 : seq T') (Q : nat -> U -> Prop),
  size l = size l2 ->
  (forall j x x', List.nth_error l j = Some x -> List.nth_error l2 j = Some x' -> exists y, f x x' = Ok y /\ Q j y) ->
  exists l', [/\ map2M f l l2 = Ok l', size l' = size l & forall j y, List.nth_error l' j = Some y -> Q j y].
Proof.
elim=> [|x l IH] [|x2 l2] Q //= hs0 h; first by exists [::]; split=> // -[].
have [y [-> hy]] := h 0%N x x2 erefl erefl; rewrite bind_ok.
case: hs0 => hs0.
have [|l' [-> hs hq]] := IH l2 (fun j => Q j.+1) hs0; first by move=> j z z' hz hz'; apply: (h j.+1).
by exists (y :: l'); split=> //=; [rewrite hs|case=> [|j] z /=; [case=> <-|apply: hq]].
Qed.
End Lists.

(* The rows of an m x n matrix object and the entries they represent. *)
Section Rel.
Variables (A U : Type) (S : A -> U -> Prop) (m n : nat).
Implicit Types (M : nat -> nat -> U) (rows : list (list A)).
Definition RowM (r : list A) (v : nat -> U) :=
  size r = n /\ forall j x, List.nth_error r j = Some x -> S x (v j).
Definition RM rows M := size rows = m /\ forall i r, List.nth_error rows i = Some r -> RowM r (M i).

Lemma RM_row rows M i : RM rows M -> (i < m)%N -> exists r, rowat rows i = Ok r /\ RowM r (M i).
Proof.
case=> hs h hi; rewrite -hs in hi; have [r e] := nth_error_ex hi.
by exists r; rewrite /rowat e; split=> //; apply: h.
Qed.
Lemma RM_el rows M i j : RM rows M -> (i < m)%N -> (j < n)%N -> exists x, el rows i j = Ok x /\ S x (M i j).
Proof.
move=> h hi hj; have [r [e [hs hr]]] := RM_row h hi; rewrite /el e bind_ok /elt.
rewrite -hs in hj; have [x ex] := nth_error_ex hj.
by exists x; rewrite ex; split=> //; apply: hr.
Qed.
Lemma RM_elx rows M i j : RM rows M -> (i < m)%N -> (j < n)%N -> exists x, elx rows i j = Ok x /\ S x (M i j).
Proof.
move=> h hi hj; have [x [e hx]] := RM_el h hi hj; exists x; split=> //; rewrite -e /elx /el /rowat.
by case: (List.nth_error rows i) (@nth_error_ex _ rows i) => // [[]] //; rewrite (proj1 h).
Qed.
Lemma RM_set rows M i r M' : RM rows M -> (i < m)%N -> RowM r (M' i) ->
  (forall k j, (k < m)%N -> k != i -> M' k j = M k j) ->
  exists rows', setrow rows i r = Ok rows' /\ RM rows' M'.
Proof.
case=> hs h hi hr hM; exists (upd rows i r).
have ltb : (i <? length rows)%coq_nat by rewrite ltbE lengthE hs.
rewrite /setrow ltb; split=> //; split; first by rewrite -lengthE upd_length lengthE.
move=> k s; rewrite nth_error_upd ?hs //; case: eqP => [->[<-]//|/eqP hk e].
have [h1 h2] := h _ _ e; split=> // j x ex; rewrite hM //; first exact: h2.
by rewrite -hs; apply: nth_error_lt e.
Qed.
Lemma RM_setx rows M i j x u : RM rows M -> (i < m)%N -> (j < n)%N -> S x u ->
  exists rows', setx rows i j x = Ok rows' /\ RM rows' (fun k l => if (k == i) && (l == j) then u else M k l).
Proof.
move=> [hs h] hi hj hx; rewrite /setx.
have hi' : (i < size rows)%N by rewrite hs.
have [r er] := nth_error_ex hi'; rewrite er; have [sr hr] := h _ _ er.
have ltb : (j <? length r)%coq_nat by rewrite ltbE lengthE sr.
rewrite /setelt ltb bind_ok; eexists; split; first reflexivity.
split; first by rewrite -lengthE upd_length lengthE.
move=> k s; rewrite nth_error_upd //; case: eqP => [-> [<-]|_ e]; last first.
  by have [h1 h2] := h _ _ e; split.
split; first by rewrite -lengthE upd_length lengthE.
by move=> l y; rewrite nth_error_upd ?sr //; case: eqP => [_ [<-]//|_]; apply: hr.
Qed.
Lemma RM_ext rows M M' : RM rows M -> (forall i j, (i < m)%N -> (j < n)%N -> M i j = M' i j) -> RM rows M'.
Proof.
case=> hs h e; split=> // i r er; have [h1 h2] := h _ _ er; split=> // j x ex; rewrite -e; first exact: h2.
  by rewrite -hs; apply: nth_error_lt er.
by rewrite -h1; apply: nth_error_lt ex.
Qed.
Lemma RM_tab (f : nat -> nat -> res A) M : (0 < m)%N -> (0 < n)%N ->
  (forall i j, (i < m)%N -> (j < n)%N -> exists x, f i j = Ok x /\ S x (M i j)) ->
  exists t, [/\ tab m n f = Ok t, RM (t_rows t) M & t_nc t = n].
Proof.
move=> m0 n0 h; rewrite /tab !eqbE !gtn_eqF //= !seqE.
have iotaE k j x : List.nth_error (iota 0 k) j = Some x -> (j < k)%N /\ x = j.
  move=> e; have := nth_error_lt e; rewrite size_iota => hj; split=> //.
  by move: e; rewrite (@nth_error_nth' _ 0%N) ?size_iota // nth_iota // add0n => -[].
have [|rows [-> sr hr]] := @mapM_nth _ _ (fun i => mapM (fun j => f i j) (iota 0 n)) (iota 0 m)
   (fun i r => RowM r (M i)).
  move=> i _ /iotaE [hi ->].
  have [|r [-> sr hr]] := @mapM_nth _ _ (fun j => f i j) (iota 0 n) (fun j x => S x (M i j)).
    by move=> j _ /iotaE [hj ->]; apply: h.
  by exists r; split=> //; split=> //; rewrite sr size_iota.
by rewrite bind_ok; eexists; split; first reflexivity; split=> //=; rewrite sr size_iota.
Qed.
End Rel.

Section Ed.
Variables (A : Type) (o : cops A) (gcd md : A -> A -> res A) (dflt : A) (F : fieldType).
Variables (S L : A -> {poly F} -> Prop).
Hypothesis sp : espec o gcd md S L.
Variable n : nat.
Implicit Types (M : nat -> nat -> {poly F}) (rows : list (list A)).

Definition mxn M : 'M[{poly F}]_n := \matrix_(i, j) M i j.
Local Notation RowM := (RowM S n).
Local Notation RM := (RM S n n).

Lemma neqbP a b p q : L a p -> L b q -> c_neqb o a b = Ok (p != q).
Proof. by move=> ha hb; rewrite /c_neqb (es_eqb sp ha hb). Qed.

(* ---- determinants *)
Lemma row'_eq M M' (i0 : 'I_n) : (forall k j, (k < n)%N -> (j < n)%N -> k != i0 -> M' k j = M k j) ->
  row' i0 (mxn M') = row' i0 (mxn M).
Proof. by move=> h; apply/matrixP=> k j; rewrite !mxE h // eq_sym neq_lift. Qed.
Lemma det_scale M M' g i : (i < n)%N -> (forall j, (j < n)%N -> M i j = g * M' i j) ->
  (forall k j, (k < n)%N -> (j < n)%N -> k != i -> M' k j = M k j) -> \det (mxn M) = g * \det (mxn M').
Proof.
move=> hi h1 h2; rewrite (@determinant_multilinear _ _ (mxn M) (mxn M') (mxn M') (Ordinal hi) g 0).
- by rewrite mul0r addr0.
- by apply/rowP=> j; rewrite !mxE /= h1 // mul0r addr0.
- by apply: row'_eq => k j hk hj /h2; apply.
- by apply: row'_eq => k j hk hj /h2; apply.
Qed.
Lemma det_comb M M' a b i t : (i < n)%N -> (t < n)%N -> t != i ->
  (forall j, (j < n)%N -> M' i j = a * M i j - b * M t j) ->
  (forall k j, (k < n)%N -> (j < n)%N -> k != i -> M' k j = M k j) -> \det (mxn M') = a * \det (mxn M).
Proof.
move=> hi ht hti h1 h2; pose C k j := if k == i then M t j else M k j.
rewrite (@determinant_multilinear _ _ (mxn M') (mxn M) (mxn C) (Ordinal hi) a (- b)).
- rewrite [\det (mxn C)](@determinant_alternate _ _ _ (Ordinal hi) (Ordinal ht)) ?mulr0 ?addr0 //.
    by rewrite eq_sym.
  by move=> j; rewrite !mxE /C /= eqxx (negbTE hti).
- by apply/rowP=> j; rewrite !mxE /= /C eqxx h1 // mulNr.
- by apply: row'_eq => k j hk hj hki; rewrite h2.
- by apply: row'_eq => k j hk hj hki; rewrite /C (negbTE hki) h2.
Qed.
Definition sw a b (k : nat) := if k == a then b else if k == b then a else k.
Lemma det_swap M a b : (a < n)%N -> (b < n)%N -> a != b ->
  \det (mxn (fun k j => M (sw a b k) j)) = - \det (mxn M).
Proof.
move=> ha hb hab; have -> : mxn (fun k j => M (sw a b k) j) = row_perm (tperm (Ordinal ha) (Ordinal hb)) (mxn M).
  apply/matrixP=> k j; rewrite !mxE permE /= /sw -!val_eqE /=.
  by case: eqP => // _; case: eqP.
by rewrite row_permE det_mulmx det_perm odd_tperm -val_eqE /= hab expr1 mulN1r.
Qed.

(* ---- row gcds *)
Lemma foldM_gcd (v : nat -> {poly F}) : forall (t : list A) (k : nat) b bp, L b bp ->
  (forall j x, List.nth_error t j = Some x -> L x (v (k + j)%N)) ->
  exists g gp, [/\ foldM gcd t b = Ok g, L g gp, gp %| bp &
    forall j, (j < size t)%N -> gp %| v (k + j)%N].
Proof.
elim=> [|x t IH] k b bp hb h /=; first by exists b, bp; split.
have hx := h 0%N x erefl; rewrite addn0 in hx.
have [d [r [-> hd hr]]] := es_gcd sp hb hx; rewrite bind_ok.
have [|g [gp [-> hg h1 h2]]] := IH k.+1 d r hd.
  by move=> j y hy; rewrite addSnnS; apply: (h j.+1).
have h3 : gp %| gcdp bp (v k) by rewrite -(eqp_dvdr _ hr).
rewrite dvdp_gcd in h3; case/andP: h3 => h3 h4.
exists g, gp; split=> // -[|j]; first by rewrite addn0.
by rewrite ltnS => hj; rewrite addnS -addSn; apply: h2.
Qed.
Lemma vgcd_ok r v : RowM r v -> (0 < n)%N -> exists g gp, [/\ vgcd gcd r = Ok g, L g gp &
  forall j, (j < n)%N -> gp %| v j].
Proof.
case=> hs h n0; case: r hs h => [|x t] /= hs h; first by rewrite -hs in n0.
have hx : L x (v 0%N) by apply: (es_SL sp); apply: (h 0%N).
have [|g [gp [e hg h1 h2]]] := @foldM_gcd v t 1%N x _ hx.
  by move=> j y hy; apply: (es_SL sp); apply: (h j.+1).
exists g, gp; split=> // -[//|j]; rewrite -hs ltnS => hj; exact: (h2 j).
Qed.

Lemma ed_norm_ok rows M zero i sn s : RM rows M -> (i < n)%N -> L zero 0 -> L sn s -> s != 0 ->
  exists rows' sn' M' s', [/\ ed_norm o gcd zero rows i sn = Ok (rows', sn'), RM rows' M', L sn' s',
    s' != 0 & [/\ s' * \det (mxn M') = s * \det (mxn M),
    forall k j, k != i -> M' k j = M k j &
    forall j, (j < n)%N -> (M' i j == 0) = (M i j == 0)]].
Proof.
move=> h hi hz hsn s0; have n0 : (0 < n)%N by case: (n) hi.
have [r [e hr]] := RM_row h hi; rewrite /ed_norm e bind_ok.
have [g [gp [-> hg hd]]] := vgcd_ok hr n0; rewrite bind_ok (neqbP hg hz) bind_ok.
case: eqP => [_|/eqP g0] /=; first by exists rows, sn, M, s.
pose M' k j := if k == i then M i j %/ gp else M k j.
have [|r' [er' sr' hr']] := @mapM_nth _ _ (fun x => c_div o x g) r (fun j y => S y (M' i j)).
  move=> j x ex; case: (hr) => sr hrj.
  have hx := es_SL sp (hrj _ _ ex); have [c [-> hc]] := es_div sp hx hg g0; exists c; split=> //.
  by rewrite /M' eqxx.
rewrite /vdiv er' bind_ok.
have [||rows' [-> hrows']] := @RM_set _ _ S n n rows M i r' M' h hi.
- by split=> //; rewrite sr'; case: hr.
- by move=> k j _; rewrite /M' => /negbTE ->.
rewrite bind_ok; have [sn' [-> hsn']] := es_mul sp (es_LS sp hsn s0) hg; rewrite bind_ok.
have eM j : (j < n)%N -> M i j = gp * M' i j.
  by move=> hj; rewrite /M' eqxx mulrC divpK // hd.
exists rows', sn', M', (s * gp); split=> //; first by rewrite mulf_neq0.
split.
- rewrite -mulrA; congr (_ * _); symmetry; apply: det_scale hi eM _.
  by move=> k j _ _; rewrite /M' => /negbTE ->.
- by move=> k j; rewrite /M' => /negbTE ->.
- by move=> j hj; rewrite (eM j hj) mulf_eq0 (negbTE g0).
Qed.

Lemma ed_cancel_ok zero sn sd s d : L zero 0 -> L sn s -> L sd d -> s != 0 -> d != 0 ->
  exists sn' sd' s' d', [/\ ed_cancel o gcd zero sn sd = Ok (sn', sd'), L sn' s', L sd' d', s' != 0 &
   d' != 0 /\ forall D x, D * d = s * x -> D * d' = s' * x].
Proof.
move=> hz hn hd s0 d0; rewrite /ed_cancel; have [g [gp [-> hg eg]]] := es_gcd sp hn hd.
rewrite bind_ok (neqbP hg hz) bind_ok; case: eqP => [_|/eqP g0] /=; first by exists sn, sd, s, d.
have [a [-> ha]] := es_div sp hn hg g0; have [b [-> hb]] := es_div sp hd hg g0.
rewrite !bind_ok.
have es : s %/ gp * gp = s by apply: divpK; rewrite (eqp_dvdl _ eg) dvdp_gcdl.
have ed : d %/ gp * gp = d by apply: divpK; rewrite (eqp_dvdl _ eg) dvdp_gcdr.
exists a, b, (s %/ gp), (d %/ gp); split=> //; try by apply: (es_SL sp).
- by apply: contraNneq s0 => h; rewrite -es h mul0r.
split; first by apply: contraNneq d0 => h; rewrite -ed h mul0r.
move=> D x; rewrite -{1}es -{1}ed mulrA [s %/ gp * gp * x]mulrAC => /(mulIf g0); exact.
Qed.

Lemma ed_clear_ok k : forall rows M zero sn sd s d lead top left cur D,
  RM rows M -> L zero 0 -> L sn s -> L sd d -> s != 0 -> d != 0 -> L lead (M top left) -> M top left != 0 ->
  (left < n)%N -> (top < cur)%N -> (cur + k = n)%N -> D * d = s * \det (mxn M) ->
  exists rows' sn' sd' M' s' d', [/\ ed_clear o gcd k zero rows sn sd lead top left cur = Ok (rows', sn', sd'),
    RM rows' M', L sn' s' /\ L sd' d', s' != 0 /\ d' != 0 &
    [/\ D * d' = s' * \det (mxn M'),
        forall i j, (i < cur)%N -> M' i j = M i j,
        forall i, (cur <= i < n)%N -> M' i left = 0 &
        forall i j, (i < n)%N -> (j < n)%N -> M top j = 0 -> M i j = 0 -> M' i j = 0]].
Proof.
elim: k => [|k IH] rows M zero sn sd s d lead top left cur D h hz hn hd s0 d0 hl l0 hln htc hk eD /=.
  exists rows, sn, sd, M, s, d; split=> //; split=> // i.
  by rewrite addn0 in hk; rewrite hk; case/andP=> h1; rewrite ltnNge h1.
have hc : (cur < n)%N by rewrite -hk -addSnnS leq_addr.
have ht : (top < n)%N by apply: ltn_trans hc.
have ntc : top != cur by rewrite ltn_eqF.
have [rows1 [sn1 [M1 [s1 [-> h1 hn1 s10 [e1 f1 g1]]]]]] := ed_norm_ok h hc hz hn s0; rewrite bind_ok.
have et1 j : M1 top j = M top j by apply: f1.
have [cl [-> hcl]] := RM_el h1 hc hln; rewrite bind_ok.
have hcl' := es_SL sp hcl.
have [lg [lp [-> hlg elg]]] := es_gcd sp hl hcl'; rewrite bind_ok.
have lp0 : lp != 0 by apply: contraNneq l0 => e; move: elg; rewrite e eqp_sym eqp0 gcdp_eq0 => /andP [].
have [tm [-> htm]] := es_div sp hcl' hlg lp0; rewrite bind_ok.
have [cm [-> hcm]] := es_div sp hl hlg lp0; rewrite bind_ok.
have ecl : M1 cur left %/ lp * lp = M1 cur left by apply: divpK; rewrite (eqp_dvdl _ elg) dvdp_gcdr.
have eld : M top left %/ lp * lp = M top left by apply: divpK; rewrite (eqp_dvdl _ elg) dvdp_gcdl.
set tmp := M1 cur left %/ lp in htm ecl; set cmp := M top left %/ lp in hcm eld.
have cm0 : cmp != 0 by apply: contraNneq l0 => e; rewrite -eld e mul0r.
have [r [-> hr]] := RM_row h1 hc; rewrite bind_ok.
have [t [-> htr]] := RM_row h1 ht; rewrite bind_ok.
pose M2 i j := if i == cur then cmp * M1 cur j - tmp * M1 top j else M1 i j.
have := hr; case=> sr hrj; have := htr; case=> st htj.
rewrite /accum_row_mul eqbE !lengthE sr st eqxx.
have [||r' [-> sr' hr']] := @map2M_nth _ _ _ (fun x y => xa <- c_mul o x cm ;; yb <- c_mul o y tm ;; c_sub o xa yb)
   r t (fun j y => S y (M2 cur j)).
- by rewrite sr st.
- move=> j x y ex ey; have [xa [-> hxa]] := es_mul sp (hrj _ _ ex) (es_SL sp hcm).
  have [yb [-> hyb]] := es_mul sp (htj _ _ ey) (es_SL sp htm); rewrite !bind_ok.
  have [z [-> hzz]] := es_sub sp hxa hyb; exists z; split=> //.
  by rewrite /M2 eqxx [cmp * _]mulrC [tmp * _]mulrC.
rewrite bind_ok.
have [||rows2 [-> h2]] := @RM_set _ _ S n n rows1 M1 cur r' M2 h1 hc.
- by split=> //; rewrite sr'.
- by move=> i j _; rewrite /M2 => /negbTE ->.
rewrite bind_ok.
have [sd2 [-> hsd2]] := es_mul sp (es_LS sp hd d0) (es_SL sp hcm); rewrite bind_ok.
have [rows3 [sn3 [M3 [s3 [-> h3 hn3 s30 [e3 f3 g3]]]]]] := ed_norm_ok h2 hc hz hn1 s10; rewrite bind_ok.
have [|sn4 [sd4 [s4 [d4 [-> hn4 hd4 s40 [d40 e4]]]]]] := ed_cancel_ok hz hn3 hsd2 s30; first by rewrite mulf_neq0.
rewrite bind_ok.
have et3 j : M3 top j = M top j by rewrite f3 // /M2 (negbTE ntc).
have e2 : \det (mxn M2) = cmp * \det (mxn M1).
  apply: (@det_comb M1 M2 cmp tmp cur top) => //; first by move=> j _; rewrite /M2 eqxx.
  by move=> i j _ _; rewrite /M2 => /negbTE ->.
have z3 : M3 cur left = 0.
  apply/eqP; rewrite g3 // /M2 eqxx et1 -ecl -eld.
  by rewrite mulrCA subrr.
have [||||||rows' [sn' [sd' [M' [s' [d' [E h' hL' h0' [a1 a2 a3 a4]]]]]]]] :=
  IH rows3 M3 zero sn4 sd4 s4 d4 lead top left cur.+1 D h3 hz hn4 hd4 s40 d40.
- by rewrite et3.
- by rewrite et3.
- exact: hln.
- exact: ltnW.
- by rewrite addSnnS.
- by apply: e4; rewrite e3 e2 [s1 * _]mulrCA e1 -eD mulrA mulrC.
exists rows', sn', sd', M', s', d'; split=> //; split=> //.
- move=> i j hi; rewrite a2 ?(ltnW hi) //; last by apply: ltnW.
  have hic : i != cur by rewrite ltn_eqF.
  by rewrite f3 // /M2 (negbTE hic) f1.
- move=> i /andP [hi1 hi2]; have [e|hne] := eqVneq i cur; last first.
    by apply: a3; rewrite hi2 andbT ltn_neqAle eq_sym hne.
  by rewrite e a2.
- move=> i j hi hj zt zi; apply: a4; rewrite ?et3 //.
  have [e|hne] := eqVneq i cur; last by rewrite f3 // /M2 (negbTE hne) f1.
  rewrite e; apply/eqP; rewrite g3 // /M2 eqxx et1 zt.
  have : M1 cur j == 0 by rewrite g1 // -e zi.
  by move/eqP->; rewrite !mulr0 subr0.
Qed.

Lemma ed_piv_ok k : forall rows M zero left pr, RM rows M -> L zero 0 -> (left < n)%N -> (pr + k = n)%N ->
  exists p, ed_piv o k rows zero left pr = Ok p /\
    match p with
    | Some i => [/\ (pr <= i < n)%N & M i left != 0]
    | None => forall i, (pr <= i < n)%N -> M i left = 0
    end.
Proof.
elim: k => [|k IH] rows M zero left pr h hz hl hk /=.
  by exists None; split=> // i; rewrite addn0 in hk; rewrite hk; case/andP=> h1; rewrite ltnNge h1.
have hpr : (pr < n)%N by rewrite -hk -addSnnS leq_addr.
have [x [-> hx]] := RM_el h hpr hl; rewrite bind_ok (neqbP (es_SL sp hx) hz) bind_ok.
case: eqP => [e|/eqP e] /=; last by exists (Some pr); split=> //; rewrite leqnn hpr.
have [|p [-> hp]] := IH rows M zero left pr.+1 h hz hl; first by rewrite addSnnS.
exists p; split=> //; case: p hp => [i [/andP[h1 h2] h3]|hp].
  by split=> //; rewrite h2 andbT ltnW.
move=> i /andP[]; rewrite leq_eqVlt => /orP [/eqP <- //|h1] h2; apply: hp; exact/andP.
Qed.
Lemma swap_ok rows M a b : RM rows M -> (a < n)%N -> (b < n)%N -> a != b ->
  exists rows', swaprows rows a b = Ok rows' /\ RM rows' (fun k j => M (sw a b k) j).
Proof.
move=> h ha hb hab; have [ra [ea hra]] := RM_row h ha; have [rb [eb hrb]] := RM_row h hb.
rewrite /swaprows ea eb !bind_ok eqbE !lengthE (proj1 hra) (proj1 hrb) eqxx.
pose M1 k j := if k == a then M b j else M k j.
have [||r1 [-> h1]] := @RM_set _ _ S n n rows M a rb M1 h ha; rewrite /M1 ?eqxx //.
  by move=> k j _ /negbTE ->.
rewrite bind_ok; have [||r2 [-> h2]] := @RM_set _ _ S n n r1 M1 b ra (fun k j => M (sw a b k) j) h1 hb.
- have -> : sw a b b = a by rewrite /sw eqxx eq_sym (negbTE hab).
  exact: hra.
- move=> k j _ hkb; rewrite /sw /M1 (negbTE hkb); by case: eqP.
by exists r2.
Qed.

(* the first k diagonal entries below t are not zero, the others are *)
Definition dk M k t := (k <= t)%N /\ (forall i, (i < k)%N -> M i i != 0) /\ forall i, (k <= i < t)%N -> M i i = 0.
Definition upper M := forall i j, (i < n)%N -> (j < i)%N -> M i j = 0.
Lemma ed_loop_ok fuel : forall rows M zero sn sd s d top left D,
  RM rows M -> L zero 0 -> L sn s -> L sd d -> s != 0 -> d != 0 ->
  D * d = s * \det (mxn M) -> (top <= left)%N -> (left <= n)%N -> (n - left < fuel)%N ->
  (forall i j, (top <= i < n)%N -> (j < left)%N -> M i j = 0) ->
  (forall i j, (i < top)%N -> (i < n)%N -> (j < i)%N -> M i j = 0) -> (top <= n)%N ->
  (exists k, dk M k top /\ ((k < top)%N -> (top < left)%N)) ->
  exists rows' sn' sd' M' s' d', [/\ ed_loop o gcd fuel n zero rows sn sd top left = Ok (rows', sn', sd'),
    RM rows' M', L sn' s' /\ L sd' d', s' != 0 /\ d' != 0 &
    D * d' = s' * \det (mxn M') /\ upper M' /\ exists k, dk M' k n].
Proof.
elim: fuel => [|f IH] // rows M zero sn sd s d top left D h hz hn hd s0 d0 eD htl hln hf z1 z2 hto [kk [[k1 [k2 k3]] k4]].
rewrite /ed_loop -/ed_loop; rewrite !ltbE lengthE (proj1 h).
have [hlt|hge] := ltnP left n; last first.
  rewrite andbF; exists rows, sn, sd, M, s, d; split=> //; split=> //; split=> [i j hi hj|].
    have [hit|hti] := ltnP i top; first exact: z2.
    by apply: z1; rewrite ?hti // (leq_trans hj) // (leq_trans (ltnW hi)).
  exists kk; split; first exact: leq_trans k1 hto; split=> // i /andP [hi1 hi2].
  have [hit|hti] := ltnP i top; first by apply: k3; rewrite hi1.
  by apply: z1; rewrite ?hti // (leq_trans hi2).
have [htn|hnt] := ltnP top n; last first.
  exists rows, sn, sd, M, s, d; split=> //; split=> //; split=> [i j hi hj|].
    by apply: z2 => //; apply: leq_trans hi hnt.
  have e : top = n by apply/eqP; rewrite eqn_leq hto.
  by exists kk; rewrite -e.
rewrite /=.
have esub : (top + (n - top) = n)%N by rewrite subnKC // ltnW.
have [p [-> hp]] := ed_piv_ok h hz hlt esub; rewrite bind_ok.
case: p hp => [pr [/andP[hp1 hp2] hp3]|hp]; last first.
  apply: (IH rows M zero sn sd s d top left.+1 D) => //.
  - exact: leqW.
  - by rewrite subnS prednK ?subn_gt0 // -ltnS.
  - move=> i j hi; rewrite ltnS leq_eqVlt => /orP [/eqP ->|]; [exact: hp|exact: z1].
  - by exists kk; split=> // hk; apply: leqW; exact: k4.
rewrite eqbE.
have [rows1 [sn1 [M1 [s1 [-> h1 hn1 [s10 e1 hl1] [y1 y2]]]]]] : exists rows1 sn1 M1 s1,
   [/\ (if top == pr then Ok (rows, sn) else
       rows' <- swaprows rows top pr;; sn' <- c_sub o zero sn;; Ok (rows', sn')) = Ok (rows1, sn1),
     RM rows1 M1, L sn1 s1, [/\ s1 != 0, D * d = s1 * \det (mxn M1) & M1 top left != 0] &
     (forall i j, (top <= i < n)%N -> (j < left)%N -> M1 i j = 0) /\
     (forall i j, (i < top)%N -> M1 i j = M i j)].
  have [e|hne] := eqVneq top pr; first by exists rows, sn, M, s; split=> //; rewrite e.
  have [rows' [-> h']] := swap_ok h htn hp2 hne; rewrite bind_ok.
  have [sn' [-> hsn']] := es_sub sp hz hn; rewrite bind_ok sub0r in hsn' *.
  exists rows', sn', (fun k j => M (sw top pr k) j), (- s); split=> //; first exact: (es_SL sp).
    split; first by rewrite oppr_eq0.
      by rewrite det_swap // mulrNN.
    by rewrite /sw eqxx.
  split=> i j.
    move=> /andP[hi1 hi2] hj; rewrite /sw; case: eqP => _; first by apply: z1; rewrite ?hp1.
    by case: eqP => _; apply: z1; rewrite ?leqnn ?hi1.
  move=> hi; rewrite /sw ltn_eqF // ltn_eqF //; exact: leq_trans hi hp1.
rewrite bind_ok.
have [rows2 [sn2 [M2 [s2 [-> h2 hn2 s20 [e2 f2 g2]]]]]] := ed_norm_ok h1 htn hz hn1 s10; rewrite bind_ok.
have [lead [-> hlead]] := RM_el h2 htn hlt; rewrite bind_ok.
have hlead' := es_SL sp hlead.
rewrite (neqbP hlead' hz) bind_ok g2 // hl1.
have esub2 : (top.+1 + (n - top.+1) = n)%N by rewrite subnKC.
rewrite lengthE (proj1 h2).
have [||rows3 [sn3 [sd3 [M3 [s3 [d3 [-> h3 [hn3 hd3] [s30 d30] [b1 b2 b3 b4]]]]]]]] :=
  ed_clear_ok (D := D) h2 hz hn2 hd s20 d0 hlead' _ hlt (ltnSn top) esub2.
- by rewrite g2.
- by rewrite e2.
rewrite bind_ok.
apply: (IH rows3 M3 zero sn3 sd3 s3 d3 top.+1 left.+1 D) => //.
- by rewrite subnS prednK ?subn_gt0 // -ltnS.
- move=> i j /andP [hi1 hi2]; rewrite ltnS leq_eqVlt => /orP [/eqP ->|hj]; first by apply: b3; rewrite hi1.
  have hjn : (j < n)%N by apply: ltn_trans hlt.
  apply: b4 => //.
    by apply/eqP; rewrite g2 // y1 // leqnn htn.
  by rewrite f2 ?y1 ?(ltnW hi1) // gtn_eqF.
- move=> i j; rewrite ltnS leq_eqVlt => hi hin hj.
  have hij : (i <= top)%N by case/orP: hi => [/eqP->//|/ltnW].
  have hjn : (j < n)%N by apply: ltn_trans hin.
  rewrite b2 //; case/orP: hi => [/eqP ei|hi].
    by rewrite ei in hj *; apply/eqP; rewrite g2 // y1 ?leqnn ?htn // (leq_trans hj).
  by rewrite f2 ?y2 ?z2 // ltn_eqF.
have old i : (i < top)%N -> M3 i i = M i i.
  by move=> hi; rewrite b2 ?(ltnW hi) ?(ltn_trans hi) // f2 ?y2 // ltn_eqF.
have [htl'|hle] := ltnP top left.
  exists kk; split; last by move=> _; rewrite ltnS.
  split; first exact: leqW; split=> i hi.
    by rewrite old ?k2 // (leq_trans hi).
  case/andP: hi => hi1; rewrite ltnS leq_eqVlt => /orP [/eqP ->|hi2]; last by rewrite old // k3 // hi1.
  by rewrite b2 //; apply/eqP; rewrite g2 // y1 // leqnn htn.
have etl : top = left by apply/eqP; rewrite eqn_leq htl.
have ek : kk = top by apply/eqP; rewrite eqn_leq k1 /= leqNgt; apply/negP => /k4; rewrite -etl ltnn.
exists top.+1; split; last by rewrite ltnn.
split=> //; split=> i hi; last by case/andP: hi => a b; move: (leq_trans b a); rewrite ltnn.
move: hi; rewrite ltnS leq_eqVlt => /orP [/eqP ->|hi]; last by rewrite old // k2 // ek.
by rewrite b2 // g2 // {2}etl.
Qed.

Lemma find_nz_ok zero : L zero 0 -> forall l : list A, (forall x, List.In x l -> exists p, S x p) ->
  exists r, find_nz o l zero = Ok r /\
    match r with
    | Some a => exists p, S a p /\ p != 0
    | None => forall x p, List.In x l -> S x p -> p = 0
    end.
Proof.
move=> hz; elim=> [|x l IH] h /=; first by exists None.
have [p hp] := h x (or_introl erefl).
rewrite (neqbP (es_SL sp hp) hz) bind_ok; case: eqP => [p0|/eqP p0] /=; last by exists (Some x); split=> //; exists p.
have [|r [-> hr]] := IH; first by move=> y hy; apply: h; right.
exists r; split=> //; case: r hr => // hr y q [<-|hy] hq; last exact: hr hq.
have hq' := es_SL sp hq.
have := es_eqb sp (es_SL sp hp) hz; rewrite (es_eqb sp hq' hz) p0 eqxx => -[]; exact/eqP.
Qed.
Lemma find_one_okE rows M : RM rows M -> (0 < n)%N -> exists zero r,
  [/\ get_zero o rows = Ok zero, S zero 0, find_one o rows = Ok r &
    match r with
    | Some one => S one 1
    | None => mxn M = 0
    end].
Proof.
move=> h n0; have [x [e hx]] := RM_el h n0 n0.
have [zero [ez hz]] := es_sub sp (es_SL sp hx) (es_SL sp hx); rewrite subrr in hz.
have eg : get_zero o rows = Ok zero by rewrite /get_zero e bind_ok.
have [|r [er hr]] := find_nz_ok (es_SL sp hz) (l := List.concat rows).
  move=> y /List.in_concat [r [hr hy]].
  have [i ei] := List.In_nth_error _ _ hr; have [j ej] := List.In_nth_error _ _ hy.
  by exists (M i j); case: (proj2 h _ _ ei) => _; apply.
have ef : find_one o rows = match r with
  | Some a => one <- c_div o a a ;; Ok (Some one) | None => Ok None end by rewrite /find_one eg bind_ok er bind_ok.
case: r er hr ef => [a|] er hr ef.
  case: hr => p [hp p0]; have hp' := es_SL sp hp; have [one [eo ho]] := es_div sp hp' hp' p0.
  rewrite eo bind_ok divpp // in ef ho.
  by exists zero, (Some one).
exists zero, None; split=> //; apply/matrixP=> i j; rewrite !mxE.
have hi : (i < size rows)%N by rewrite (proj1 h).
have [s es] := nth_error_ex hi; have [ss hs] := proj2 h _ _ es.
have hj : (j < size s)%N by rewrite ss.
have [y ey] := nth_error_ex hj.
apply: (hr y); last exact: hs ey.
apply/List.in_concat; exists s; split; [exact: List.nth_error_In es|exact: List.nth_error_In ey].
Qed.

Lemma prod_diag M k dn s : forall rows, RM rows M -> (k <= n)%N -> L dn s ->
  ((forall a p, L a p -> S a p) \/ s * \prod_(0 <= i < k) M i i != 0) ->
  exists d, foldM (fun d i => x <- el rows i i ;; c_mul o d x) (iota 0 k) dn = Ok d /\
    L d (s * \prod_(0 <= i < k) M i i).
Proof.
move=> rows h; elim: k => [|k IH] hk hd hc; first by exists dn; rewrite big_geq // mulr1.
have [|||d [e hd']] := IH.
- exact: ltnW.
- exact: hd.
- case: hc => [hc|hc]; [by left|right]; apply: contraNneq hc.
  by rewrite big_nat_recr //= mulrA => ->; rewrite mul0r.
have foldM_cat (f : A -> nat -> res A) l1 l2 b : foldM f (l1 ++ l2) b = bind (foldM f l1 b) (foldM f l2).
  by elim: l1 b => //= z l1 IHl b; case: (f b z) => //= b'; rewrite IHl.
rewrite -addn1 iotaD add0n foldM_cat e bind_ok /=.
have [x [-> hx]] := RM_el h hk hk; rewrite bind_ok.
have hS : S d (s * \prod_(0 <= i < k) M i i).
  case: hc => [hc|hc]; first exact: hc.
  apply: (es_LS sp hd'); apply: contraNneq hc.
  by rewrite big_nat_recr //= mulrA => ->; rewrite mul0r.
have [c [-> hc']] := es_mul sp hS (es_SL sp hx); rewrite bind_ok.
by exists c; split=> //; rewrite addn1 big_nat_recr //= mulrA.
Qed.

Lemma prod_diag_z M k t dn s : forall rows, RM rows M -> dk M k t -> (t <= n)%N -> L dn s -> s != 0 ->
  (forall a b, L a 0 -> S b 0 -> exists c, c_mul o a b = Ok c /\ L c 0) ->
  exists d, foldM (fun d i => x <- el rows i i ;; c_mul o d x) (iota 0 t) dn = Ok d /\
    L d (s * \prod_(0 <= i < t) M i i).
Proof.
move=> rows h [k1 [k2 k3]] ht hd s0 hz.
have [|d1 [e1 hd1]] := @prod_diag M k dn s rows h (leq_trans k1 ht) hd.
  right; rewrite mulf_neq0 // big_mkord; apply/prodf_neq0 => i _; exact: k2.
have foldM_cat (f : A -> nat -> res A) l1 l2 b : foldM f (l1 ++ l2) b = bind (foldM f l1 b) (foldM f l2).
  by elim: l1 b => //= z l1 IHl b; case: (f b z) => //= b'; rewrite IHl.
have pz : forall m z, (k + m <= t)%N -> L z 0 ->
   exists d, foldM (fun d i => x <- el rows i i ;; c_mul o d x) (iota (t - m) m) z = Ok d /\ L d 0.
  elim=> [|m IH] z hm hz0 /=; first by exists z.
  have h1 : (t - m.+1 < n)%N by lia.
  have [x [-> hx]] := RM_el h h1 h1; rewrite bind_ok; rewrite k3 in hx; last by lia.
  have [c [-> hc]] := hz _ _ hz0 hx; rewrite bind_ok.
  have -> : (t - m.+1).+1 = (t - m)%N by lia.
  by apply: IH => //; lia.
have -> : iota 0 t = iota 0 k ++ iota k (t - k) by rewrite -iotaD subnKC.
rewrite foldM_cat e1 bind_ok.
case: (posnP (t - k)%N) => [e0|hpos].
  have -> : t = k by lia.
  by rewrite subnn; exists d1.
have -> : \prod_(0 <= i < t) M i i = 0.
  have hkt : (k < t)%N by lia.
  by rewrite big_mkord (bigD1 (Ordinal hkt)) //= k3 ?mul0r // leqnn.
rewrite mulr0 -(prednK hpos) /=.
have h1 : (k < n)%N by lia.
have [x [-> hx]] := RM_el h h1 h1; rewrite bind_ok.
have hS : S d1 (s * \prod_(0 <= i < k) M i i).
  by apply: (es_LS sp hd1); rewrite mulf_neq0 // big_mkord; apply/prodf_neq0 => i _; exact: k2.
have [c [-> hc]] := es_mul sp hS (es_SL sp hx); rewrite bind_ok k3 ?mulr0 in hc *; last by lia.
have -> : k.+1 = (t - (t - k).-1)%N by lia.
by apply: pz => //; lia.
Qed.

Lemma det_upper M : upper M -> \det (mxn M) = \prod_(0 <= i < n) M i i.
Proof.
move=> hu; rewrite -det_tr det_trig.
  by rewrite big_mkord; apply: eq_bigr => i _; rewrite !mxE.
by apply/is_trig_mxP=> i j hij; rewrite !mxE hu.
Qed.

Theorem ed_det_ok (m : tmat A) M : RM (t_rows m) M -> t_nc m = n -> (0 < n)%N -> mxn M != 0 ->
  ((forall a p, L a p -> S a p) \/ (forall a b, L a 0 -> S b 0 -> exists c, c_mul o a b = Ok c /\ L c 0)) ->
  exists d, ed_det o gcd md dflt m = Ok d /\ S d (\det (mxn M)).
Proof.
move=> h hnc n0 m0 hc; rewrite /ed_det /is_square /t_nr lengthE (proj1 h) hnc eqbE eqxx /ed_row_reduce.
have [zero [r [-> hz -> hr]]] := find_one_okE h n0; rewrite !bind_ok.
case: r hr => [one ho|]; last by move=> e; rewrite e eqxx in m0.
rewrite hnc.
have ho' := es_SL sp ho.
have e1 : \det (mxn M) * 1 = 1 * \det (mxn M) by rewrite mulr1 mul1r.
have e2 : (n - 0 < n.+1)%N by rewrite ltnS leq_subr.
have k00 : dk M 0 0 by split=> //; split=> // i; rewrite andbF.
have [rows' [sn' [sd' [M' [s' [d' [-> h' [hs' hd'] [s0' d0'] [eD [hu [k hk]]]]]]]]]] :=
  @ed_loop_ok n.+1 (t_rows m) M zero one one 1 1 0%N 0%N (\det (mxn M)) h (es_SL sp hz) ho' ho' (oner_neq0 _) (oner_neq0 _)
   e1 isT (leq0n _) e2 (fun i j _ (k : (j < 0)%N) => ltac:(by [])) (fun i j (k : (i < 0)%N) => ltac:(by [])) (leq0n n)
   (ex_intro _ 0%N (conj k00 (fun k : (0 < 0)%N => k))).
rewrite !bind_ok /= seqE.
have [dn [-> hdn]] : exists d, foldM (fun d i => x <- el rows' i i ;; c_mul o d x) (iota 0 n) sn' = Ok d /\
    L d (s' * \prod_(0 <= i < n) M' i i).
  case: hc => hc; last exact: (prod_diag_z h' hk (leqnn n) hs' s0' hc).
  by apply: (prod_diag h' (leqnn _) hs'); left.
rewrite -(det_upper hu) -eD in hdn; rewrite bind_ok.
have [z2 [-> hz2]] := es_sub sp hdn hdn; rewrite subrr in hz2; rewrite bind_ok.
have [rm [-> hrm]] := es_mod sp hdn hd' d0'; rewrite modp_mull in hrm; rewrite bind_ok.
have [qt [-> hqt]] := es_div sp hdn hd' d0'; rewrite mulpK // in hqt; rewrite bind_ok.
rewrite (neqbP (es_SL sp hrm) (es_SL sp hz2)) eqxx bind_ok.
by exists qt.
Qed.

Lemma find_nz_zero zero : L zero 0 -> forall l, (forall x, List.In x l -> S x 0) -> find_nz o l zero = Ok None.
Proof.
move=> hz; elim=> [//|x l IH] h /=; rewrite (neqbP (es_SL sp (h x (or_introl erefl))) hz) bind_ok eqxx /=.
by apply: IH => y hy; apply: h; right.
Qed.
(* the zero matrix: the denominator is the default value *)
Theorem ed_det_zero (m : tmat A) M : RM (t_rows m) M -> t_nc m = n -> (0 < n)%N -> mxn M = 0 ->
  (forall a b, S a 0 -> S b 0 -> exists c, c_mul o a b = Ok c /\ S c 0) -> (forall a, S a 0 -> md a dflt = Exn) ->
  ed_det o gcd md dflt m = Exn.
Proof.
move=> h hnc n0 m0 hm hd; rewrite /ed_det /is_square /t_nr lengthE (proj1 h) hnc eqbE eqxx /ed_row_reduce.
have hM i j : (i < n)%N -> (j < n)%N -> M i j = 0.
  by move=> hi hj; have /matrixP/(_ (Ordinal hi) (Ordinal hj)) := m0; rewrite !mxE.
have [zero [r [ez hz er _]]] := find_one_okE h n0.
have : find_one o (t_rows m) = Ok None.
  rewrite /find_one ez bind_ok (find_nz_zero (es_SL sp hz)) ?bind_ok // => x /List.in_concat [s [hs hx]].
  have [i ei] := List.In_nth_error _ _ hs; have [j ej] := List.In_nth_error _ _ hx.
  have [ss hS] := proj2 h _ _ ei; have := hS _ _ ej; rewrite hM //.
    by rewrite -(proj1 h); apply: nth_error_lt ei.
  by rewrite -ss; apply: nth_error_lt ej.
move=> ->; rewrite ez !bind_ok /=.
have [d [-> hd0]] : exists d, foldM (fun d i => x <- el (t_rows m) i i ;; c_mul o d x) (iota 0 n) zero = Ok d /\ S d 0.
  have : forall l z, (forall i, i \in l -> (i < n)%N) -> S z 0 ->
     exists d, foldM (fun d i => x <- el (t_rows m) i i ;; c_mul o d x) l z = Ok d /\ S d 0.
    elim=> [|i l IH] z hl hz0 /=; first by exists z.
    have hi : (i < n)%N by apply: hl; rewrite mem_head.
    have [x [-> hx]] := RM_el h hi hi; rewrite bind_ok; rewrite hM // in hx.
    have [c [-> hc]] := hm _ _ hz0 hx; rewrite bind_ok.
    by apply: IH => // j hj; apply: hl; rewrite inE hj orbT.
  by apply=> // i; rewrite mem_iota.
rewrite bind_ok; have [z2 [-> hz2]] := es_sub sp (es_SL sp hd0) (es_SL sp hd0); rewrite !bind_ok.
by rewrite hd.
Qed.
End Ed.
