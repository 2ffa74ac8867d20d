(* Proofs about the model in MDiag.v: matrix plus and minus scalar, the eigenvalues read off
   a factorization into linear factors, and the comparison of nullities. *)
From Verif Require Import Base MIntMath MMat MFac MF2Poly MF2Fac MPoly MUnits MF2nPoly MLinalg MConvert MList MDiag.
From Verif Require Import PIntMath PF2Poly PUnits PSort.
From mathcomp Require Import all_ssreflect fingroup perm all_algebra cyclic zify ssrZ separable.
From Verif Require Import PMat PFp PBits3 PF2Poly2 PF2Poly4 PPoly PPoly2 PF2n PLinalg2 PEd PConvert PDiag.
From Verif Require Import PropMat PropF2nPoly PropF2nFac PropLinalg PropConvert.
Set Implicit Arguments.
Unset Strict Implicit.
Unset Printing Implicit Defensive.
Import GRing.Theory.
Delimit Scope Z_scope with coqZ.
Local Open Scope ring_scope.

Section Scalar.
Variables (A : Type) (o : cops A) (F : fieldType) (V : A -> Prop) (I : A -> F) (spec : cspec o V I).
Local Notation R := (R V I).

Lemma mat_is_RM m n t (a : 'M[F]_(m, n)) : mat_is V I t a -> RM R m n (t_rows t) (mx_fun a).
Proof.
case=> hc hr hl he; split; first by rewrite -lengthE.
move=> i r er; have hi : (i < m)%N by have := nth_error_lt er; rewrite -lengthE hr.
have hn : size r = n by rewrite -lengthE; apply: hl; exact: nth_error_In er.
split=> // j x ex; have hj : (j < n)%N by have := nth_error_lt ex; rewrite hn.
have [y [e hy]] := he (Ordinal hi) (Ordinal hj).
rewrite /mx_fun !insubT; move: e; rewrite /el /rowat /= er bind_ok /elt ex => -[->].
by case: hy => hv hI; split=> //; rewrite hI; congr (a _ _); apply: val_inj.
Qed.
Lemma RM_mat_is m n t M : RM R m n (t_rows t) M -> t_nc t = n -> mat_is V I t (\matrix_(i < m, j < n) M i j).
Proof.
move=> h hn; split=> //; first by rewrite lengthE; case: h.
  by case: h => hs hr r /(In_nth_error _ _) [i er]; rewrite lengthE; case: (hr _ _ er).
by move=> i j; rewrite mxE; have [x [e hx]] := RM_el h (ltn_ord i) (ltn_ord j); exists x.
Qed.

Lemma diag_loop n (op : A -> A -> res A) (f : F -> F) e rows M :
  (forall x a, R x a -> exists y, op x e = Ok y /\ R y (f a)) -> RM R n n rows M ->
  exists rows', for_up n 0 (diag_step op e) rows = Ok rows' /\
    RM R n n rows' (fun i j => if i == j then f (M i j) else M i j).
Proof.
move=> hop h0.
pose Inv k rows := RM R n n rows (fun i j => if (i == j) && (i < k)%N then f (M i j) else M i j).
have [||rows' [e1 h1]] := @for_ok _ (diag_step op e) Inv n rows.
- by apply: RM_ext h0 _ => i j _ _; rewrite ltn0 andbF.
- move=> k t hk ht; rewrite /diag_step; have [x [-> hx]] := RM_elx ht hk hk; rewrite bind_ok.
  rewrite eqxx ltnn /= in hx; have [y [-> hy]] := hop _ _ hx; rewrite bind_ok.
  have [t' [-> h']] := RM_setx ht hk hk hy; exists t'; split=> //.
  apply: RM_ext h' _ => i j _ _;  have [->|ne] /= := eqVneq i k; last by rewrite ltnS (leq_eqVlt i) (negPf ne).
  by rewrite ltnn leqnn andbF andbT [k == j]eq_sym; have [->|] := eqVneq j k.
exists rows'; split=> //; apply: RM_ext h1 _ => i j hi _; by rewrite hi andbT.
Qed.

Lemma scalar_ok (op : A -> A -> res A) (f : F -> F) n t (a : 'M[F]_n) e :
  (forall x u, R x u -> exists y, op x e = Ok y /\ R y (f u)) -> mat_is V I t a ->
  exists t', bind (for_up (t_nr t) 0 (diag_step op e) (t_rows t)) (fun rows => Ok (mkmat rows (t_nc t))) = Ok t' /\
    mat_is V I t' (\matrix_(i, j) if i == j then f (a i j) else a i j).
Proof.
move=> hop h; have hM := mat_is_RM h; case: (h) => hc hr _ _.
rewrite /t_nr hr; have [rows [-> h']] := diag_loop hop hM; rewrite bind_ok; eexists; split; first reflexivity.
have := @RM_mat_is n n (mkmat rows (t_nc t)) _ h' hc; congr mat_is; apply/matrixP => i j; rewrite !mxE.
by rewrite /mx_fun !valK.
Qed.
Lemma sqE m n t (a : 'M[F]_(m, n)) : mat_is V I t a -> is_square t = (m == n).
Proof. by case=> hc hr _ _; rewrite /is_square /t_nr hc hr; apply/Nat.eqb_spec/eqP. Qed.
Lemma plus_scalar_ok n t (a : 'M[F]_n) e c : mat_is V I t a -> elem_is V I e c ->
  exists t', mat_plus_scalar o t e = Ok t' /\ mat_is V I t' (a + c%:M).
Proof.
move=> h he; rewrite /mat_plus_scalar (sqE h) eqxx.
have [|t' [-> ht]] := @scalar_ok (c_add o) (fun u => u + c) n t a e _ h.
  by move=> x u hx; exact: (R_add spec hx he).
exists t'; split=> //; move: ht; congr mat_is; apply/matrixP => i j; rewrite !mxE.
by case: eqP => _; rewrite ?addr0.
Qed.
Lemma minus_scalar_ok n t (a : 'M[F]_n) e c : mat_is V I t a -> elem_is V I e c ->
  exists t', mat_minus_scalar o t e = Ok t' /\ mat_is V I t' (a - c%:M).
Proof.
move=> h he; rewrite /mat_minus_scalar (sqE h) eqxx.
have [|t' [-> ht]] := @scalar_ok (c_sub o) (fun u => u - c) n t a e _ h.
  by move=> x u hx; exact: (R_sub spec hx he).
exists t'; split=> //; move: ht; congr mat_is; apply/matrixP => i j; rewrite !mxE.
by case: eqP => _; rewrite ?subr0.
Qed.
End Scalar.

(* ---- a field in which the polynomial splits *)
Section Tail.
Variable G : gf2.
Hypothesis hd : (Z.of_nat (size (gf_m G)).-1 <= 30)%coqZ.
Local Notation L := (gf_L G).
Local Notation V := (Vg (gf_m G)).
Local Notation I := (@Ig L (gf_emb G) (gf_z G)).
Local Notation enc := (@g2_enc G).
Local Notation el := (@gf_el G).
Let sp : kspec f2n_kops V I kg := f2n_kspec (gf_irr G) (gf_root G) (gf_card G).

Lemma enc_mat_is m n (B : 'M[L]_(m, n)) : mat_is V I (mx_enc el B) B.
Proof.
have h := mx_enc_RM (S := R V I) B (@elR G).
have := @RM_mat_is _ _ V I m n (mx_enc el B) _ h erefl; congr mat_is.
by apply/matrixP => i j; rewrite mxE /mx_fun !valK.
Qed.
Lemma degE (g : {poly L}) : gp_degree (enc g) = (size g).-1.
Proof. by have h := encG g; rewrite /gp_degree lengthE (isG_size h) minusE subn1; case: (size g) => [|[]]. Qed.

Section Fin.
Variables (s : seq ({poly L} * nat)) (fin : facinfo (list fpmod)).
Hypothesis hf : facs fin = [seq (enc e.1, Z.of_nat e.2) | e <- s].
Local Notation x0 := ((0 : {poly L}), 0%N).
Lemma nfacs : length (facs fin) = size s. Proof. by rewrite hf lengthE size_map. Qed.
Lemma ith_fac k : (k < size s)%N -> get_ith_factor fin (Z.of_nat k) = Ok (enc (nth x0 s k).1).
Proof.
move=> hk; rewrite /get_ith_factor nfacs.
have -> : (Z.of_nat k <? 0)%coqZ || (Z.of_nat k >=? Z.of_nat (size s))%coqZ = false by move: hk; clear; lia.
by rewrite Nat2Z.id hf (nth_error_nth' (enc 0, 0%coqZ)) ?size_map // (nth_map x0).
Qed.
Lemma ith_cnt k : (k < size s)%N -> get_ith_count fin (Z.of_nat k) = Ok (Z.of_nat (nth x0 s k).2).
Proof.
move=> hk; rewrite /get_ith_count nfacs.
have -> : (Z.of_nat k <? 0)%coqZ || (Z.of_nat k >=? Z.of_nat (size s))%coqZ = false by move: hk; clear; lia.
by rewrite Nat2Z.id hf (nth_error_nth' (enc 0, 0%coqZ)) ?size_map // (nth_map x0).
Qed.

(* the least common multiple of the degrees *)
Lemma zlcm a b : (0 < a)%N -> (0 < b)%N -> Z.lcm (Z.of_nat a) (Z.of_nat b) = Z.of_nat (lcmn a b).
Proof.
move=> a0 b0; have dv (x y : nat) : (x %| y)%N -> (Z.of_nat x | Z.of_nat y)%coqZ.
  by case/dvdnP => k ->; exists (Z.of_nat k); rewrite Nat2Z.inj_mul.
apply: Z.divide_antisym_nonneg; [exact: Z.lcm_nonneg|exact: Nat2Z.is_nonneg| |].
  by apply: Z.lcm_least; apply: dv; [exact: dvdn_lcml|exact: dvdn_lcmr].
set l := Z.lcm _ _; have l0 : (0 <= l)%coqZ by exact: Z.lcm_nonneg.
rewrite -(Z2Nat.id l l0); apply: dv.
have vd (x : nat) : (Z.of_nat x | l)%coqZ -> (x %| Z.to_nat l)%N.
  case=> k e; apply/dvdnP; exists (Z.to_nat k).
  case: x e => [|x] e; first by rewrite muln0; move: e; clear; lia.
  have k0 : (0 <= k)%coqZ by move: e l0; clear; nia.
  by rewrite e Z2Nat.inj_mul // ?Nat2Z.id //; exact: Nat2Z.is_nonneg.
by rewrite dvdn_lcm !vd //; [exact: Z.divide_lcm_r|exact: Z.divide_lcm_l].
Qed.
Lemma lcm_ok d : (0 < d)%N -> (d <= 30)%N -> (forall e, e \in s -> (0 < (size e.1).-1)%N && ((size e.1).-1 %| d)%N) ->
  exists l : nat, [/\ degree_lcm fin = Ok (Z.of_nat l), (0 < l)%N, (l %| d)%N & forall e, e \in s -> ((size e.1).-1 %| l)%N].
Proof.
move=> d0 d30 hs; rewrite /degree_lcm nfacs.
pose Inv k (z : Z) := exists l : nat, [/\ z = Z.of_nat l, (0 < l)%N, (l %| d)%N &
  forall j, (j < k)%N -> ((size (nth x0 s j).1).-1 %| l)%N].
have [||z [-> [l [-> l0 ld hl]]]] := @for_ok _ (fun i l => f <- get_ith_factor fin (Z.of_nat i) ;; int_lcm l (Z.of_nat (gp_degree f))) Inv (size s) 1%coqZ.
- by exists 1%N; split.
- move=> k z hk [l [-> l0 ld hl]]; rewrite ith_fac // bind_ok degE.
  set g := (size _).-1; have /andP [g0 gd] : (0 < g)%N && (g %| d)%N by apply: hs; exact: mem_nth.
  have l30 : (l <= 30)%N by apply: leq_trans (dvdn_leq d0 ld) d30.
  have g30 : (g <= 30)%N by apply: leq_trans (dvdn_leq d0 gd) d30.
  have lg : (l * g <= 900)%N by apply: (@leq_trans (30 * 30)%N); [exact: leq_mul|].
  have bd x : (x <= 900)%N -> (Z.of_nat x <= INT_MAX)%coqZ by move=> hx; rewrite /INT_MAX; move: hx; clear; lia.
  rewrite int_lcm_pos ?zlcm //; last 1 first.
  - by rewrite -Nat2Z.inj_mul; exact: bd.
  - eexists; split; first reflexivity; exists (lcmn l g); split=> //; first by rewrite lcmn_gt0 l0 g0.
      by rewrite dvdn_lcm ld gd.
    move=> j; rewrite ltnS leq_eqVlt => /orP [/eqP ->|/hl h]; first exact: dvdn_lcmr.
    exact: dvdn_trans h (dvdn_lcml _ _).
  - split; first by move: l0; clear; lia.
    by apply: bd; apply: leq_trans l30 _.
  - split; first by move: g0; clear; lia.
    by apply: bd; apply: leq_trans g30 _.
exists l; split=> // e he; rewrite -(nth_index x0 he); apply: hl; by rewrite index_mem.
Qed.

Hypothesis lin : forall e, e \in s -> size e.1 = 2%N.
Local Notation ev := [seq (e : {poly L} * nat).1`_0 | e <- s].
Lemma szn k : (k < size s)%N -> size (nth x0 s k).1 = 2%N.
Proof. by move=> hk; apply: lin; exact: mem_nth. Qed.
Lemma count_ok : count_linear fin = Ok (size s).
Proof.
rewrite /count_linear nfacs.
have [||z [-> ->]] := @for_ok _ (fun i nev => f <- get_ith_factor fin (Z.of_nat i) ;; Ok (if Nat.eqb (gp_degree f) 1 then nev.+1 else nev)) (fun k z => z = k) (size s) 0%N => //.
by move=> k z hk ->; rewrite ith_fac // bind_ok degE szn //=; exists k.+1.
Qed.
Lemma collect_ok ev0 : size ev0 = size s -> collect_eigen fin (size s) ev0 = Ok (true, map el ev).
Proof.
move=> h0; rewrite /collect_eigen.
pose Inv k (z : bool * list fpmod) := [/\ z.1 = true, size z.2 = size s & forall j, (j < k)%N -> List.nth_error z.2 j = Some (el (nth x0 s j).1`_0)].
have [||[b z] [-> [/= -> sz hz]]] := @for_ok _ (fun i z => let '(rv, ev) := z in
       f <- get_ith_factor fin (Z.of_nat i) ;;
       if Nat.eqb (gp_degree f) 1 then c <- gp_get_coeff f2n_kops f 0 ;; ev' <- setelt ev i c ;; Ok (rv, ev')
       else Ok (false, ev)) Inv (size s) (true, ev0).
- by split.
- move=> k [b z] hk [/= -> sz hz]; rewrite ith_fac // bind_ok degE szn //= t_get bind_ok /setelt.
  have -> : Nat.ltb k (length z) by rewrite ltbE lengthE sz.
  rewrite bind_ok; eexists; split; first reflexivity; split=> //=.
    by rewrite -lengthE upd_length lengthE.
  move=> j; rewrite ltnS leq_eqVlt nth_error_upd ?sz // => /orP [/eqP ->|hj]; first by rewrite eqxx.
  by rewrite (ltn_eqF hj); exact: hz.
congr (Ok (_, _)).
have ext (W : Type) (l l' : list W) : size l = size l' -> (forall i, (i < size l)%N -> List.nth_error l i = List.nth_error l' i) -> l = l'.
  elim: l l' => [|x l IH] [|y l'] //= [e] h; have [->] := h 0%N isT; congr (_ :: _); apply: IH => // i hi; exact: (h i.+1 hi).
apply: ext; first by rewrite !size_map.
move=> i; rewrite sz => hi; rewrite hz // (nth_error_nth' (el 0)) ?size_map //.
by rewrite -map_comp (nth_map x0).
Qed.
Lemma compare_ok n (B : 'M[L]_n.+1) rv : compare_nullities fin (size s) (map el ev) (mx_enc el B) rv =
  Ok (rv && all (fun e : {poly L} * nat => (n.+1 - \rank (B - (e.1`_0)%:M)%R)%N == e.2) s).
Proof.
rewrite /compare_nullities; set P := fun e : {poly L} * nat => _ == e.2.
have [||z [-> ->]] := @for_ok _ (fun i rv =>
       e <- elt (map el ev) i ;;
       Me <- mat_minus_scalar (k_c f2n_kops) (mx_enc el B) e ;;
       rank <- get_rank (k_c f2n_kops) Me ;;
       mult <- get_ith_count fin (Z.of_nat i) ;;
       Ok (if (Z.of_nat (t_nr (mx_enc el B)) - Z.of_nat rank =? mult)%coqZ then rv else false)) (fun k z => z = rv && all P (take k s)) (size s) rv.
- by rewrite take0 andbT.
- move=> k z hk ->; rewrite {1}/elt (nth_error_nth' (el 0)) ?size_map // -map_comp (nth_map x0) // bind_ok.
  have [t' [-> ht]] := minus_scalar_ok (ks_c sp) (enc_mat_is B) (elR (nth x0 s k).1`_0).
  rewrite bind_ok (C38_rank (ks_c sp) _ _ ht) // bind_ok ith_cnt // bind_ok; eexists; split; first reflexivity.
  rewrite (take_nth x0) // all_rcons /P /=.
  have -> : t_nr (mx_enc el B) = n.+1 by rewrite /t_nr lengthE size_map size_enum_ord.
  have := rank_leq_row (B - ((nth x0 s k).1`_0)%:M); set r := \rank _ => hr.
  have -> : (Z.of_nat n.+1 - Z.of_nat r =? Z.of_nat (nth x0 s k).2)%coqZ = ((n.+1 - r)%N == (nth x0 s k).2).
    by move: hr; clear; lia.
  by case: eqP; rewrite /= ?andbF.
by rewrite take_size.
Qed.
End Fin.
End Tail.
