(* Extended gcd, powers, derivative, evaluation, coefficient access, order and
   enumeration of the generic polynomial model. *)
From Verif Require Import Base MMat MPoly.
From mathcomp Require Import all_ssreflect fingroup perm all_algebra ssrZ.
From Verif Require Import PMat PPoly PPoly2.
Set Implicit Arguments.
Unset Strict Implicit.
Unset Printing Implicit Defensive.
Import GRing.Theory.
Delimit Scope Z_scope with coqZ.
Local Open Scope ring_scope.

Section Ref3.
Variables (A : Type) (o : kops A) (F : fieldType) (V : A -> Prop) (I : A -> F) (kv : A -> nat).
Hypothesis spec : kspec o V I kv.
Let sc := ks_c spec.
Local Notation R := (R V I).
Local Notation Rr := (Rr V I).
Local Notation isG := (isG V I).
Local Notation isW := (isW V I).

Lemma modp_aux (C D : {poly F}) : C - C %/ D * D = C %% D.
Proof. by rewrite {1}(divp_eq C D) addrC addKr. Qed.
Lemma ext_gcd_ok l p m q : isG l p -> isG m q -> q != 0 ->
  exists d u v D U W, gp_ext_gcd o l m = Ok (d, u, v) /\ isG d D /\ isG u U /\ isG v W /\
    D %= gcdp p q /\ U * p + W * q = D.
Proof.
move=> hl hm q0; rewrite /gp_ext_gcd.
have [one [e1 h1]] := int1_ok spec hl; have [zero [e0 h0]] := int0_ok spec hl; rewrite e1 bind_ok e0 bind_ok.
pose Inv (st : list A * list A * list A * list A * list A * list A) := let '(mp, np, rm, rn, c, d) := st in
  exists Mp Np Rm Rn C D, isG mp Mp /\ isG np Np /\ isG rm Rm /\ isG rn Rn /\ isG c C /\ isG d D /\
    D != 0 /\ gcdp C D %= gcdp p q /\ Mp * p + Np * q = C /\ Rm * p + Rn * q = D.
have [|||[[d u] v] [e [D [U [W [hd [hu [hv [hg hb]]]]]]]]] := loop_total (ext_step o) Inv (fun st => size st.2)
  (fun r : list A * list A * list A => exists D U W, isG r.1.1 D /\ isG r.1.2 U /\ isG r.2 W /\
       D %= gcdp p q /\ U * p + W * q = D) _ (length m).+1 (one, zero, zero, one, l, m).
- move=> [[[[[mp np] rm] rn] c] d] [Mp [Np [Rm [Rn [C [D [hmp [hnp [hrm [hrn [hc [hd [D0 [hg [eC eD]]]]]]]]]]]]]]].
  have [qt [r [e [hq hr]]]] := quot_rem_ok spec hc hd D0.
  rewrite /ext_step e bind_ok (eq0_ok spec hr) bind_ok; case: eqP => [r0|/eqP r0].
    right; exists (d, rm, rn); split=> //; exists D, Rm, Rn; split=> //; split=> //; split=> //; split=> //.
    apply: eqp_trans hg; rewrite eqp_sym; apply: dvdp_gcd_idr; by rewrite /dvdp r0.
  have [qm [eqm hqm]] := mul_ok spec hq hrm; have [rm' [erm hrm']] := sub_ok spec hmp hqm.
  have [qn [eqn hqn]] := mul_ok spec hq hrn; have [rn' [ern hrn']] := sub_ok spec hnp hqn.
  rewrite eqm bind_ok erm bind_ok eqn bind_ok ern bind_ok; left; eexists; split; first by []; split.
    exists Rm, Rn, (Mp - C %/ D * Rm), (Np - C %/ D * Rn), D, (C %% D).
    do 8!(split=> //).
      by apply: eqp_trans hg; apply: eqp_trans (gcdp_modr _ _) (gcdpC _ _).
    split=> //; have -> : C %% D = C - C %/ D * D by rewrite modp_aux.
    by move: (C %/ D) => Q; rewrite -eC -eD !mulrBl mulrDr opprD !mulrA addrACA.
  rewrite /= (isG_size hd) (isG_size hr); have := ltn_modp C D; rewrite D0 => hlt.
  have : (0 < size (C %% D)%R)%N by rewrite lt0n size_poly_eq0.
  by move=> h2; rewrite !(maxn_idPr _) //; [apply/ltP | apply: leq_ltn_trans hlt].
- exists 1, 0, 0, 1, p, q; do 8!(split=> //); first exact: eqpxx.
  by rewrite !mul1r !mul0r addr0 add0r.
- by rewrite /= -lengthE; lia.
by exists d, u, v, D, U, W.
Qed.
Lemma ext_gcd_0 l p m : isG l p -> isG m 0 -> gp_ext_gcd o l m = Exn.
Proof.
move=> hl hm; rewrite /gp_ext_gcd.
have [one [e1 h1]] := int1_ok spec hl; have [zero [e0 h0]] := int0_ok spec hl; rewrite e1 bind_ok e0 bind_ok.
by cbn [loop]; rewrite /ext_step (quot_rem_0 spec hl hm).
Qed.

(* ---- powers *)
Lemma exp_loop_ok l p one e : isG l p -> isG one 1 -> (0 <= e <= INT_MAX)%coqZ ->
  exists r, loop 34 (exp_step o) (e, l, one) = Ok r /\ isG r (p ^+ Z.to_nat e).
Proof.
move=> hl h1 he.
pose mu (s : Z * list A * list A) : nat := let k := s.1.1 in if Z.eqb k 0 then 0%N else (Z.to_nat (Z.log2 k) + 1)%coq_nat.
have [|||r [er hr]] := loop_total (exp_step o) (fun s => exists X Y, isG s.1.2 X /\ isG s.2 Y /\
    (0 <= s.1.1 <= INT_MAX)%coqZ /\ Y * X ^+ Z.to_nat s.1.1 = p ^+ Z.to_nat e)
  mu (fun r => isG r (p ^+ Z.to_nat e)) _ 34 (e, l, one).
- move=> [[k xp] rv] [X [Y [/= hx [hy [hk hE]]]]].
  case: Z.eqb_spec => [k0|k0]; first by right; exists rv; rewrite -hE k0 expr0 mulr1.
  left; have [xp' [ex hx']] := mul_ok spec hx hx.
  have hu : (u32 k / 2 = k / 2)%coqZ by rewrite /u32 Z.mod_small //; rewrite /INT_MAX in hk; lia.
  have hk2 : Z.to_nat k = (Z.odd k + (Z.to_nat (k / 2)).*2)%N.
    rewrite {1}(Z.div_mod k 2 ltac:(by [])) Zmod_odd -muln2 -multE -plusE.
    by case: (Z.odd k); lia.
  have hmu : (mu (k / 2, xp', rv)%coqZ < mu (k, xp, rv))%coq_nat.
    rewrite /mu /=; case: Z.eqb_spec => [_|k20]; case: Z.eqb_spec => //; try lia.
    have := Z.log2_spec k ltac:(lia); have := Z.log2_spec (k / 2) ltac:(lia).
    have h2 : (Z.log2 (k / 2) < Z.log2 k)%coqZ.
      have := Z.log2_double (k / 2) ltac:(lia).
      have := Z.log2_le_mono (2 * (k / 2)) k ltac:(lia); lia.
    have := Z.log2_nonneg (k / 2); lia.
  have hb : (0 <= k / 2 <= INT_MAX)%coqZ by rewrite /INT_MAX in hk *; lia.
  case: (boolP (Z.odd k)) => hodd.
    have [rv' [er hr]] := mul_ok spec hy hx; rewrite er bind_ok ex bind_ok hu; eexists; split; first by [].
    split=> //; exists (X * X), (Y * X); split=> //; split=> //; split=> //=.
    by rewrite -hE hk2 hodd exprD expr1 -mul2n exprM expr2 mulrA.
  rewrite bind_ok ex bind_ok hu; eexists; split; first by [].
  split=> //; exists (X * X), Y; split=> //; split=> //; split=> //=.
  by rewrite -hE hk2 (negbTE hodd) add0n -mul2n exprM expr2.
- by exists p, 1; rewrite /= mul1r.
- rewrite /mu /=; case: Z.eqb_spec => [_|h]; first by lia.
  have := Z.log2_le_mono e INT_MAX ltac:(lia); rewrite (_ : Z.log2 INT_MAX = 30%coqZ) //; lia.
by exists r.
Qed.
Lemma exp_ok l p e : isG l p -> (1 < size p)%N -> (0 <= e <= INT_MAX)%coqZ ->
  exists r, gp_exp o l e = Ok r /\ isG r (p ^+ Z.to_nat e).
Proof.
move=> hl sp he; rewrite /gp_exp; have [zero [e0 h0]] := int0_ok spec hl; have [one [e1 h1]] := int1_ok spec hl.
rewrite e0 bind_ok e1 bind_ok (eqb_ok spec hl h0) bind_ok.
have -> : (p == 0) = false by rewrite -size_poly_eq0; case: (size p) sp.
rewrite /gp_degree lengthE eqbE (isG_size hl) (maxn_idPr (ltnW sp)) minusE subn1.
have -> : ((size p).-1 == 0)%N = false by case: (size p) sp => [|[|k]].
have -> : Z.ltb e 0 = false by lia.
exact: exp_loop_ok.
Qed.
Lemma exp_neg l p e : isG l p -> (1 < size p)%N -> (e < 0)%coqZ -> gp_exp o l e = Exn.
Proof.
move=> hl sp he; rewrite /gp_exp; have [zero [e0 h0]] := int0_ok spec hl; have [one [e1 h1]] := int1_ok spec hl.
rewrite e0 bind_ok e1 bind_ok (eqb_ok spec hl h0) bind_ok.
have -> : (p == 0) = false by rewrite -size_poly_eq0; case: (size p) sp.
rewrite /gp_degree lengthE eqbE (isG_size hl) (maxn_idPr (ltnW sp)) minusE subn1.
have -> : ((size p).-1 == 0)%N = false by case: (size p) sp => [|[|k]].
by have -> : Z.ltb e 0 = true by lia.
Qed.
Lemma exp_const l c e : isG l c%:P -> c != 0 -> (INT_MIN < e <= INT_MAX)%coqZ ->
  exists r, gp_exp o l e = Ok r /\ isG r (c ^ int_of_Z e)%:P.
Proof.
move=> hl c0 he; rewrite /gp_exp; have [zero [e0 h0]] := int0_ok spec hl; have [one [e1 h1]] := int1_ok spec hl.
rewrite e0 bind_ok e1 bind_ok (eqb_ok spec hl h0) bind_ok polyC_eq0 (negbTE c0).
rewrite /gp_degree lengthE eqbE (isG_size hl) size_polyC c0 /=.
have [x [ex [vx ix]]] := isG_get0 hl; rewrite ex bind_ok; rewrite coefC /= in ix.
have [//|z [ez [vz iz]]] := ks_exp spec vx _ he; first by rewrite ix.
by rewrite ez bind_ok -ix; apply: (const_ok spec).
Qed.
Lemma exp_zero l e : isG l 0 ->
  (if Z.leb e 0 then gp_exp o l e = Exn else exists r, gp_exp o l e = Ok r /\ isG r 0).
Proof.
move=> hl; rewrite /gp_exp; have [zero [e0 h0]] := int0_ok spec hl; have [one [e1 h1]] := int1_ok spec hl.
rewrite e0 bind_ok e1 bind_ok (eqb_ok spec hl h0) bind_ok eqxx.
case: (Z.leb_spec e 0) => h.
  by case: (Z.eqb_spec e 0) => // h2; case: (Z.ltb_spec e 0) => // h3; lia.
have -> : Z.eqb e 0 = false by lia.
by have -> : Z.ltb e 0 = false; [lia | exists zero].
Qed.

(* ---- derivative *)
Lemma int_of_nat k : ((int_of_Z (Z.of_nat k))%:~R : F) = k%:R.
Proof. by rewrite (_ : int_of_Z (Z.of_nat k) = k%:Z) // -(Z_of_intK k). Qed.
Lemma deriv_l_ok c0 l s i : V c0 -> Rr l s -> (Z.of_nat (i + size s) <= INT_MAX)%coqZ ->
  exists r, deriv_l o c0 l (Z.of_nat i) = Ok r /\ Rr r (mkseq (fun j => nth 0 s j *+ (i + j)) (size s)).
Proof.
move=> hc h; elim: h i => [|x a l1 s1 hx _ IH] i hi; first by exists [::]; split=> //; constructor.
have hv : (INT_MIN < Z.of_nat i <= INT_MAX)%coqZ.
  by move: hi; rewrite /INT_MIN -plusE /= => hi; clear - hi; lia.
have [k [ek [vk ik]]] := ks_int spec hc hv; rewrite int_of_nat in ik.
have [y [ey hy]] := R_mul sc hx (conj vk ik).
have [|r [er hr]] := IH i.+1; first by move: hi; rewrite /= addnS.
rewrite /deriv_l -/(deriv_l o) ek bind_ok ey bind_ok.
rewrite (_ : Z.of_nat i + 1 = Z.of_nat i.+1)%coqZ; last by lia.
rewrite er bind_ok; exists (y :: r); split=> //.
rewrite (_ : mkseq _ _ = a *+ i :: mkseq (fun j => nth 0 s1 j *+ (i.+1 + j)) (size s1)).
  by constructor=> //; rewrite -mulr_natr.
rewrite /mkseq /= addn0 -[iota 1 _]/(iota (1 + 0)%N _) iotaDl -map_comp; congr cons; apply: eq_map => j /=.
by rewrite addSn addnS.
Qed.
Lemma deriv_ok l p : isG l p -> (Z.of_nat (size p) <= INT_MAX)%coqZ -> exists r, gp_deriv o l = Ok r /\ isG r p^`().
Proof.
move=> hl hs; case: (leqP (size p) 1) => sp.
  have [x [el hx]] := isG_1 hl sp; rewrite el /=.
  rewrite el in hl; have [r [er hr]] := int0_ok spec hl; rewrite er; exists r; split=> //.
  by rewrite (size1_polyC sp) derivC.
have [x [y [t el]]] := isG_2 hl sp; rewrite el in hl *.
have p0 : p != 0 by rewrite -size_poly_eq0; case: (size p) sp.
have hl' : Rr [:: x, y & t] (polyseq p) by move: hl; rewrite /PPoly.isG /cseq (negbTE p0).
case ep : (polyseq p) hl' => [|a s] hl'; first by inversion hl'.
inversion hl' as [|? ? ? ? [vx ix] hs']; subst.
rewrite /gp_deriv.
have ssp : size p = (size s).+1 by rewrite ep.
have [|r [er hr]] := deriv_l_ok (i := 1) vx hs'; first by move: hs; rewrite ssp add1n.
rewrite er bind_ok; apply: (recompute_ok spec); exists (mkseq (fun j => nth 0 s j *+ (1 + j)) (size s)); split=> //.
split; last by rewrite size_mkseq -ltnS -ssp.
apply/polyP=> k; rewrite coef_deriv coef_Poly ep /=; case: (ltnP k (size s)) => hk.
  by rewrite nth_mkseq // add1n.
by rewrite !nth_default ?mul0rn // size_mkseq.
Qed.

(* ---- evaluation *)
Lemma Poly_rcons (s : seq F) a : Poly (rcons s a) = Poly s + a *: 'X^(size s).
Proof.
elim: s => [|x s IH]; first by rewrite Poly_cons /= mul0r expr0 alg_polyC.
by rewrite rcons_cons !Poly_cons IH mulrDl -scalerAl -exprSr addrAC.
Qed.
Lemma horner_down_ok x c l s y b : R x c -> Rr l s -> R y b ->
  exists r, horner_down o x y l = Ok r /\ R r (b * c ^+ size s + (Poly (rev s)).[c]).
Proof.
move=> hx h; elim: h y b => [|z a l1 s1 hz _ IH] y b hy.
  by exists y; split=> //; rewrite /= horner0 addr0 mulr1.
have [w [ew hw]] := R_mul sc hy hx; have [v [ev hv]] := R_add sc hw hz.
have [r [er hr]] := IH _ _ hv; rewrite /horner_down -/(horner_down o) ew bind_ok ev bind_ok er.
exists r; split=> //; move: hr; congr PMat.R; rewrite /= exprS mulrDl mulrA -addrA; congr (_ + _).
by rewrite rev_cons Poly_rcons hornerD hornerZ hornerXn size_rev addrC.
Qed.
Lemma eval_ok l p x c : isG l p -> R x c -> exists r, gp_eval o l x = Ok r /\ R r p.[c].
Proof.
move=> hl hx; rewrite /gp_eval -(cseqP p); have h := F2_rev hl.
case es : (rev (cseq p)) h => [|a s] h.
  by have := cseq_ge1 p; rewrite -size_rev es.
inversion h as [|y b l1 s1 hy h1 e1]; subst.
have [r [er hr]] := horner_down_ok hx h1 hy; exists r; split=> //.
move: hr; congr PMat.R; rewrite -[in RHS](revK (cseq p)) es rev_cons Poly_rcons.
by rewrite hornerD hornerZ hornerXn size_rev addrC.
Qed.

(* ---- coefficients *)
Lemma get_coeff_ok l p k : isG l p -> exists x, gp_get_coeff o l (Z.of_nat k) = Ok x /\ R x p`_k.
Proof.
move=> hl; rewrite /gp_get_coeff; have -> : Z.ltb (Z.of_nat k) 0 = false by slia.
have := cseq_ge1 p; rewrite /gp_degree lengthE (F2_size hl) minusE => s0.
case: Z.ltb_spec => h.
  have [x [ex hx]] := isG_get0 hl; rewrite ex bind_ok; have [z [ez hz]] := R_sub sc hx hx.
  exists z; split=> //; move: hz; rewrite subrr -cseq_coef nth_default //; slia.
by rewrite Nat2Z.id -cseq_coef; apply: getk_ok hl _; slia.
Qed.
Lemma get_coeff_neg l k : (k < 0)%coqZ -> gp_get_coeff o l k = Exn.
Proof. by rewrite /gp_get_coeff => /Z.ltb_lt ->. Qed.
Lemma set_coeff_neg l k x : (k < 0)%coqZ -> gp_set_coeff o l k x = Exn.
Proof. by rewrite /gp_set_coeff => /Z.ltb_lt ->. Qed.

Lemma Rr_repeat x a n : R x a -> Rr (List.repeat x n) (nseq n a).
Proof. by move=> h; elim: n => [|n IH]; constructor. Qed.

Lemma isG_last l s p : Rr l s -> Poly s = p -> (0 < size s)%N -> (size s == 1)%N || (last 1 s != 0) -> isG l p.
Proof.
move=> hl <- s0; rewrite /PPoly.isG /cseq; case/orP => [|h].
  case: s hl s0 => [|a [|]] // hl _ _; rewrite Poly_cons /= mul0r add0r polyC_eq0.
  by case: eqP => [a0|/eqP a0]; [rewrite a0 in hl | rewrite polyseqC a0].
rewrite (PolyK (c := 1)) //; case: eqP => // e.
by have e' := PolyK h; rewrite e polyseq0 in e'; rewrite -e' in s0.
Qed.

Lemma set_coeff_ok l p k x c : isG l p -> R x c ->
  exists r, gp_set_coeff o l (Z.of_nat k) x = Ok r /\ isG r (p + (c - p`_k) *: 'X^k).
Proof.
move=> hl hx; rewrite /gp_set_coeff; have -> : Z.ltb (Z.of_nat k) 0 = false by slia.
have [a0 [e0 [v0 i0]]] := isG_get0 hl; rewrite e0 bind_ok.
have [//|z [ez [vz iz]]] := ks_int spec (v := 0) v0; rewrite ez bind_ok Nat2Z.id.
have hz : R z 0 by [].
have s0 := cseq_ge1 p; rewrite /gp_degree !lengthE (F2_size hl) !minusE ltbE eqbE.
rewrite (R_eqb sc hx hz) !bind_ok.
case: ltnP => hk.
  set s := cseq p ++ nseq (k - size (cseq p)) 0 ++ [:: c].
  have hr : Rr (l ++ List.repeat z (k - size (cseq p)) ++ [:: x]) s.
    apply: F2_cat => //; apply: F2_cat; first exact: Rr_repeat.
    by constructor => //; constructor.
  have ps : Poly s = p + (c - p`_k) *: 'X^k.
    apply/polyP=> j; rewrite coefD coefZ coefXn coef_Poly -!cseq_coef /s nth_cat.
    case: (ltnP j (size (cseq p))) => hj.
      by rewrite (_ : (j == k) = false) ?mulr0 ?addr0 //; apply/eqP; slia.
    rewrite nth_cat size_nseq nth_nseq if_same [nth 0 (cseq p) j]nth_default // add0r.
    rewrite [nth 0 (cseq p) k]nth_default ?subr0; last by slia.
    case: ltnP => hj2; first by rewrite (_ : (j == k) = false) ?mulr0 //; apply/eqP; slia.
    case: eqP => [->|hjk]; first by rewrite mulr1 subnn.
    by rewrite mulr0 nth_default //=; slia.
  have ss : (0 < size s)%N by rewrite size_cat; slia.
  case: eqP => [c0|/eqP c0]; first by apply: (recompute_ok spec); exists s.
  exists (l ++ List.repeat z (k - size (cseq p)) ++ [:: x]); split=> //; apply: isG_last hr _ _ _ => //.
  by rewrite /s !last_cat /= c0 orbT.
have hks : (k < size (cseq p))%N by slia.
have [r [er hr]] := setk_ok hl hks hx; rewrite er bind_ok.
have ps : Poly (set_nth 0 (cseq p) k c) = p + (c - p`_k) *: 'X^k by rewrite Poly_set // cseqP cseq_coef.
have ss : (0 < size (set_nth 0%R (cseq p) k c))%N by rewrite size_set.
case: eqP => [ek|nk].
  case: eqP => [c0|/eqP c0]; first by apply: (recompute_ok spec); exists (set_nth 0 (cseq p) k c).
  exists r; split=> //; apply: isG_last hr _ _ _ => //.
  apply/orP; right.
  rewrite -nth_last size_set // (set_nth_default 0) ?size_set ?ltn_predL //.
  by rewrite nth_set_nth /= ek subn1 eqxx.
exists r; split=> //; apply: isG_last hr _ _ _ => //; apply/orP; right.
rewrite -nth_last size_set // (set_nth_default 0) ?size_set ?ltn_predL //.
rewrite nth_set_nth /= (_ : (_ == k) = false); last by apply/eqP; slia.
have sp : (1 < size p)%N by move: hks nk hk; rewrite size_cseq; slia.
rewrite cseq_coef size_cseq (maxn_idPr (ltnW sp)) -/(lead_coef p) lead_coef_eq0.
by rewrite -size_poly_eq0; case: (size p) sp.
Qed.

(* ---- multiplication by x *)
Lemma promote_ok l p : isG l p -> p != 0 -> exists r, gp_promote o l = Ok r /\ isG r (p * 'X).
Proof.
move=> hl p0; have [x [ex hx]] := isG_get0 hl.
case: l hl ex => [//|a l] hl [ea]; subst a; rewrite /=; have [z [ez hz]] := R_sub sc hx hx; rewrite ez bind_ok.
exists [:: z, x & l]; split=> //; apply: (@isG_last _ (0 :: polyseq p)).
- constructor; first by rewrite -(subrr p`_0).
  by move: hl; rewrite /PPoly.isG /cseq (negbTE p0).
- by rewrite Poly_cons polyseqK addr0.
- by [].
by rewrite /= -nth_last -/(lead_coef p) lead_coef_eq0 p0 orbT.
Qed.
Lemma promote_add_ok l p x c : isG l p -> p != 0 -> R x c ->
  exists r, gp_promote_and_add o l x = Ok r /\ isG r (p * 'X + c%:P).
Proof.
move=> hl p0 hx; rewrite /gp_promote_and_add; have [r [er hr]] := promote_ok hl p0; rewrite er bind_ok.
have hr' : Rr r (0 :: polyseq p).
  move: hr; rewrite /PPoly.isG /cseq mulf_eq0 polyX_eq0 (negbTE p0) /=.
  by rewrite polyseqMX.
have [|r' [er' hr'']] := setk_ok (i := 0) hr' _ hx; first by [].
exists r'; split=> //; apply: isG_last hr'' _ _ _ => //; first by rewrite /= cons_poly_def polyseqK.
rewrite /= -nth_last (set_nth_default 0) ?ltn_predL ?lt0n ?size_poly_eq0 //.
by rewrite -/(lead_coef p) lead_coef_eq0 p0 orbT.
Qed.

(* ---- order and enumeration, over a finite field *)
Section Order.
Variable q : nat.
Hypothesis q2 : (1 < q)%N.
Hypothesis kvq : forall x, V x -> (kv x < q)%N.
Hypothesis kv0 : forall x, V x -> (kv x == 0)%N = (I x == 0).
Definition gval (l : list A) : nat := foldr (fun x v => kv x + q * v)%N 0%N l.

Lemma gval_rcons l x : gval (rcons l x) = (gval l + q ^ size l * kv x)%N.
Proof.
elim: l => [|y l IH] /=; first by rewrite muln0 addn0 add0n expn0 mul1n.
by rewrite IH mulnDr addnA expnS mulnA.
Qed.
Lemma gval_lt l : Forall V l -> (gval l < q ^ size l)%N.
Proof.
elim=> [|x l1 vx _ IH] /=; first by rewrite expn0.
rewrite expnS; have := kvq vx; set k := kv x; set g := gval l1 in IH *; set n := (q ^ _)%N in IH *.
move=> hk; apply: leq_trans (_ : q + q * g <= _)%N; first by rewrite ltn_add2r.
by rewrite -mulnS leq_mul2l IH orbT.
Qed.
Definition dsgn (a b : nat) : Z := if (a < b)%N then (-1)%coqZ else if (b < a)%N then 1%coqZ else 0%coqZ.
Lemma dir_top_val l m : Forall V l -> Forall V m -> size l = size m ->
  dir_top o (List.rev l) (List.rev m) = Ok (dsgn (gval l) (gval m)).
Proof.
have aux (g h n x y : nat) : (g < n -> h < n -> dsgn (g + n * x) (h + n * y) =
    if x < y then (-1)%coqZ else if y < x then 1%coqZ else dsgn g h)%N.
  rewrite /dsgn => hg hh; case: (ltngtP x y) => [hxy|hxy|->].
  - suff -> : (g + n * x < h + n * y)%N by [].
    apply: leq_trans (_ : n * x.+1 <= _)%N; first by rewrite mulnS ltn_add2r.
    by apply: leq_trans (leq_addl _ _); rewrite leq_mul2l hxy orbT.
  - suff h2 : (h + n * y < g + n * x)%N by rewrite h2 ltnNge (ltnW h2).
    apply: leq_trans (_ : n * y.+1 <= _)%N; first by rewrite mulnS ltn_add2r.
    by apply: leq_trans (leq_addl _ _); rewrite leq_mul2l hxy orbT.
  - by rewrite !ltn_add2r.
elim/last_ind: l m => [|l x IH] m; first by case: m.
elim/last_ind: m => [|m y _]; first by rewrite size_rcons.
rewrite !size_rcons -!cats1 => /Forall_app[hl hx] /Forall_app[hm hy] [e].
inversion hx as [|? ? vx _]; inversion hy as [|? ? vy _]; subst.
rewrite !List.rev_app_distr /= (ks_ltb spec vx vy) (ks_gtb spec vx vy) !bind_ok IH //.
rewrite !cats1 !gval_rcons e aux; [by case: (ltngtP (kv x) (kv y)) | by rewrite -e gval_lt | exact: gval_lt].
Qed.
Lemma Rr_V l s : Rr l s -> Forall V l.
Proof. by elim=> [|x a l1 s1 [vx _] _ IH]; constructor. Qed.
Lemma Rr_map l : Forall V l -> Rr l (map I l).
Proof. by elim=> [|x l1 vx _ IH]; constructor. Qed.
Lemma isG_lead l p : isG l p -> (1 < size l)%N -> exists l1 x, l = rcons l1 x /\ V x /\ I x != 0.
Proof.
move=> hl sl; have sp : (1 < size p)%N by move: sl; rewrite (isG_size hl) leq_max ltnn.
case/lastP: l hl sl => [//|l x] hl sl; exists l, x; split=> //.
have p0 : p != 0 by rewrite -size_poly_eq0; case: (size p) sp.
have hl' : Rr (rcons l x) (polyseq p) by move: hl; rewrite /PPoly.isG /cseq (negbTE p0).
have := F2_nth x 0 hl' (i := size l); rewrite -(F2_size hl') size_rcons ltnSn nth_rcons ltnn eqxx.
move=> /(_ isT) [vx ->]; split=> //.
have -> : size l = (size p).-1 by have := F2_size hl'; rewrite size_rcons => <-.
by rewrite -/(lead_coef p) lead_coef_eq0.
Qed.
Lemma gval_len l p m r : isG l p -> isG m r -> (size l < size m)%N -> (gval l < gval m)%N.
Proof.
move=> hl hm h; have sm : (1 < size m)%N by apply: leq_ltn_trans h; rewrite (isG_size hl) leq_max.
have [m1 [x [e [vx ix]]]] := isG_lead hm sm; apply: leq_trans (gval_lt (Rr_V hl)) _.
rewrite e gval_rcons; apply: leq_trans (leq_addl _ _); rewrite e size_rcons ltnS in h.
apply: leq_trans (leq_pexp2l (ltnW q2) h) _; rewrite leq_pmulr // lt0n kv0 //.
Qed.
Lemma dir_val l p m r : isG l p -> isG m r -> gp_dir o l m = Ok (dsgn (gval l) (gval m)).
Proof.
move=> hl hm; rewrite /gp_dir !lengthE !ltbE; case: (ltngtP (size l) (size m)) => h.
- by rewrite /dsgn (gval_len hl hm h).
- by have h' := gval_len hm hl h; rewrite /dsgn h' ltnNge (ltnW h').
by apply: dir_top_val; [apply: Rr_V hl | apply: Rr_V hm |].
Qed.
Lemma cmp_val l p m r : isG l p -> isG m r ->
  gp_eqb o l m = Ok (gval l == gval m) /\ gp_neqb o l m = Ok (gval l != gval m) /\
  gp_ltb o l m = Ok (gval l < gval m)%N /\ gp_gtb o l m = Ok (gval l > gval m)%N /\
  gp_leb o l m = Ok (gval l <= gval m)%N /\ gp_geb o l m = Ok (gval l >= gval m)%N.
Proof.
move=> hl hm; rewrite /gp_eqb /gp_neqb /gp_ltb /gp_gtb /gp_leb /gp_geb (dir_val hl hm) !bind_ok /dsgn.
by case: (ltngtP (gval l) (gval m)).
Qed.

Hypothesis next_ok : forall x, V x -> if (kv x < q.-1)%N
  then exists z, k_next o x = Ok (Some z) /\ V z /\ kv z = (kv x).+1 else k_next o x = Ok None.
Hypothesis kv1 : forall x, V x -> I x = 1 -> kv x = 1%N.
Lemma inc_l_ok zero l : R zero 0 -> Forall V l -> exists r c, inc_l o zero l = Ok (r, c) /\ Forall V r /\
  size r = size l /\ (if c then r = nseq (size l) zero /\ (gval l).+1 = q ^ size l
    else gval r = (gval l).+1 /\ (last zero r = last zero l \/ I (last zero r) != 0%R))%N.
Proof.
move=> hz; have [vz iz] := hz; elim=> [|x l1 vx hl [r [c [e [hr [sr hc]]]]]] /=; first by exists [::], true.
have := next_ok vx; case: ltnP => hx; last first.
  move=> ->; rewrite bind_ok e bind_ok; exists (zero :: r), c; split=> //; split; first by constructor.
  split; first by rewrite /= sr.
  have kz : kv zero = 0%N by apply/eqP; rewrite kv0 // iz.
  have kx : kv x = q.-1 by have := kvq vx; lia.
  case: c e hc => e [h1 h2].
    rewrite h1 kx; split=> //; rewrite expnS -h2 mulnS -addSn prednK //; exact: ltnW.
  split; first by rewrite /= kz add0n h1 kx mulnS -addSn prednK //; exact: ltnW.
  case: l1 h1 {hl e} h2 sr => [|y l1] h1 h2 sr; first by move: h1; rewrite (size0nil sr).
  case: r hr h1 h2 sr => [//|z' r] hr h1 h2 sr.
  by move: h2 => /=; case=> [->|]; [left | right].
move=> [z [ez [vz' kz]]]; rewrite ez bind_ok; exists (z :: l1), false; split=> //; split; first by constructor.
split=> //; rewrite /= kz; split=> //; case: l1 {hl e sr hc} => [|y l1] /=; last by left.
by right; rewrite -kv0 // kz.
Qed.
Lemma isG_map l x : Forall V (rcons l x) -> (size l == 0)%N || (I x != 0) -> isG (rcons l x) (Poly (map I (rcons l x))).
Proof.
move=> h h2; apply: isG_last (Rr_map h) _ _ _ => //; rewrite size_map size_rcons //.
by rewrite map_rcons last_rcons.
Qed.
Lemma increment_ok l p : isG l p -> exists r p', gp_increment o l = Ok r /\ isG r p' /\ gval r = (gval l).+1.
Proof.
move=> hl; rewrite /gp_increment; have [a0 [e0 [v0 i0]]] := isG_get0 hl; rewrite e0 bind_ok.
have [//|z [ez [vz iz]]] := ks_int spec (v := 0) v0; rewrite ez bind_ok.
have [//|u [eu [vu iu]]] := ks_int spec (v := 1) v0; rewrite eu bind_ok.
have hz : R z 0 by []. have hu : R u 1 by [].
have [r [c [e [hr [sr hc]]]]] := inc_l_ok hz (Rr_V hl); rewrite e bind_ok /=.
have sl : (0 < size l)%N by rewrite (isG_size hl) leq_max.
case: c e hc => e [h1 h2]; last first.
  exists r, (Poly (map I r)); split=> //; split=> //.
  case/lastP: r hr sr {e h1} h2 => [|r x] hr sr h2; first by rewrite -sr in sl.
  apply: isG_map => //; case: eqP => // /eqP nr; rewrite last_rcons in h2; case: h2 => //= ->.
  have [|l1 [y [-> [vy iy]]]] := isG_lead hl; first by rewrite -sr size_rcons ltnS lt0n.
  by rewrite last_rcons.
rewrite /gp_set_coeff /gp_degree !lengthE minusE.
rewrite (_ : Z.add _ 1 = Z.of_nat (size l)); last by lia.
rewrite (_ : Z.ltb _ 0 = false); last by lia.
have -> : getk r 0 = Ok z by rewrite h1; case: (size l) sl.
have [//|z' [ez' [vz' iz']]] := ks_int spec (v := 0) vz; rewrite bind_ok ez' bind_ok Nat2Z.id ltbE sr subn1 ltn_predL sl.
have hz' : R z' 0 by [].
rewrite (R_eqb sc hu hz') bind_ok oner_eq0 subnn /=.
have hv : Forall V (rcons r u) by rewrite -cats1; apply/Forall_app; split=> //; constructor.
have -> : List.app r [:: u] = rcons r u by rewrite -cats1.
exists (rcons r u), (Poly (map I (rcons r u))); split=> //; split; first by apply: isG_map; rewrite // iu oner_eq0 orbT.
rewrite gval_rcons h2 sr (kv1 vu iu) muln1 h1; suff -> : gval (nseq (size l) z) = 0%N by [].
have kz : kv z = 0%N by apply/eqP; rewrite kv0 // iz.
by elim: (size l) => //= n ->; rewrite kz muln0.
Qed.
End Order.
End Ref3.
