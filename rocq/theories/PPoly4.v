(* p-th roots in the generic polynomial model *)
From Verif Require Import Base MMat MPoly.
From mathcomp Require Import all_ssreflect fingroup perm all_algebra ssrZ.
From Verif Require Import PMat PPoly PPoly2 PPoly3.
Set Implicit Arguments.
Unset Strict Implicit.
Unset Printing Implicit Defensive.
Import GRing.Theory.
Delimit Scope Z_scope with coqZ.
Local Open Scope ring_scope.

Section Ref4.
Variables (A : Type) (o : kops A) (F : fieldType) (V : A -> Prop) (I : A -> F) (kv : A -> nat).
Hypothesis spec : kspec o V I kv.
Let sc := ks_c spec.
Local Notation R := (R V I).
Local Notation Rr := (Rr V I).
Local Notation isG := (isG V I).
Local Notation isW := (isW V I).
Hypothesis dflt : forall z, R z 0 -> exists z1, k_int o (k_dflt o) 0 = Ok z1 /\ c_eqb (k_c o) z z1 = Ok false.
Variable pn : nat.
Hypothesis pn2 : (1 < pn)%N.
Variables (root : A -> res A) (rt : F -> F).
Hypothesis rootP : forall x a, R x a -> exists y, root x = Ok y /\ R y (rt a).
Hypothesis rt0 : rt 0 = 0.

Definition czero (s : seq F) cnt i := all (fun j => nth 0 s j == 0) (iota i cnt).
Lemma chunk_zero_ok zero l s cnt i : Rr l s -> R zero 0 -> (0 < size s)%N ->
  chunk_zero o cnt zero l i = Ok (czero s cnt i).
Proof.
move=> hl hz s0; rewrite /czero; elim: cnt i => [//|n IH] i; rewrite /= /gp_degree lengthE (F2_size hl) minusE ltbE.
case: ltnP => hi.
  rewrite nth_default ?eqxx /=; last by slia.
  congr Ok; apply/esym/allP=> j; rewrite mem_iota => /andP[hj _]; rewrite nth_default //; slia.
have [x [ex hx]] := getk_ok hl (i := i) ltac:(slia); rewrite ex bind_ok.
rewrite (R_neqb sc hx hz) bind_ok IH.
by case: eqP.
Qed.

Lemma root_loop_ok zero l s cnt di out u : Rr l s -> R zero 0 -> (0 < size s)%N -> Rr out u -> size u = size s ->
  (cnt == 0)%N || ((di + cnt).-1 * pn < size s)%N ->
  if all (fun i => czero s pn.-1 (i * pn).+1) (iota di cnt)
  then exists r, root_loop o cnt pn root zero l out di = Ok (Some r) /\
         Rr r (mkseq (fun i => if (di <= i < di + cnt)%N then rt (nth 0 s (i * pn)) else nth 0 u i) (size u))
  else root_loop o cnt pn root zero l out di = Ok None.
Proof.
move=> hl hz s0; elim: cnt di out u => [|n IH] di out u hu su hcnt.
  exists out; split=> //; rewrite (_ : mkseq _ _ = u) //.
  rewrite -[RHS](mkseq_nth 0) /mkseq; apply: eq_map => i; case: ifP => // h; lia.
rewrite /= in hcnt; have hd : (di * pn < size s)%N.
  apply: leq_ltn_trans hcnt; rewrite leq_mul2r; apply/orP; right; lia.
have [x [ex hx]] := getk_ok hl hd; have [y [ey hy]] := rootP hx.
have hdu : (di < size u)%N by rewrite su; apply: leq_ltn_trans hd; rewrite leq_pmulr //; lia.
have [out' [eo ho]] := setk_ok hu hdu hy.
rewrite [root_loop _ _ _ _ _ _ _ _]/= ex bind_ok ey bind_ok eo bind_ok (chunk_zero_ok _ _ hl hz s0) bind_ok.
rewrite minusE subn1 plusE multE addn1 /=.
case: (czero _ _ _) => //=.
have su' : size (set_nth 0 u di (rt (nth 0 s (di * pn)))) = size s by rewrite size_set.
have := IH di.+1 _ _ ho su'; rewrite addSnnS hcnt orbT => /(_ isT).
case: all => // -[r [er hr]]; exists r; split=> //.
move: hr; congr (PMat.Rr V I r); rewrite su' -su /mkseq; apply: eq_map => i.
rewrite nth_set_nth /= addnS; case: (ltngtP di i) => h /=.
- by [].
- by [].
- by rewrite -h ltnS leq_addr.
Qed.

Lemma czeroP (s : seq F) d : (0 < size s)%N -> d = (size s - 1)%N ->
  reflect (forall j, ~~ (pn %| j)%N -> nth 0 s j = 0) (all (fun i => czero s pn.-1 (i * pn).+1) (iota 0 (d %/ pn + 1))).
Proof.
move=> s0 ed; apply: (iffP allP) => [h j hj|h i hi].
  case: (leqP (size s) j) => hs; first by rewrite nth_default.
  have := h (j %/ pn)%N; rewrite mem_iota add0n addn1 ltnS leq_div2r /=; last by slia.
  move=> /(_ isT)/allP/(_ j) h2; apply/eqP; apply: h2; rewrite mem_iota.
  have p0 : (0 < pn)%N by exact: ltnW.
  have hm : (0 < j %% pn)%N by rewrite lt0n.
  have hm2 := ltn_pmod j p0.
  rewrite {2 3}(divn_eq j pn); apply/andP; split; clear - hm hm2 p0; lia.
apply/allP=> j; rewrite mem_iota => /andP[h1 h2]; rewrite h //.
apply/negP=> /dvdnP[k ek]; move: h1 h2; rewrite ek -(addn1 (i * pn)) -addnA add1n prednK; last exact: ltnW.
rewrite -mulSnr addn1 !ltn_mul2r; clear - pn2; lia.
Qed.

Lemma size_repeat (T : Type) (x : T) n : size (List.repeat x n) = n.
Proof. by elim: n => //= n ->. Qed.
Lemma size_upd (T : Type) (l : list T) i x : size (upd l i x) = size l.
Proof. exact: upd_length. Qed.
Lemma nth_upd (T : Type) (l : list T) i x j d : nth d (upd l i x) j = if (j == i) && (i < size l)%N then x else nth d l j.
Proof.
have hN T' (l' : seq T') d' k : List.nth k l' d' = nth d' l' k by elim: l' k => [|y l' IH] [|k] //=.
by rewrite -!hN upd_nth eqbE ltbE.
Qed.
Lemma root_ok l p : isG l p ->
  (exists r, gp_root o pn root l = Ok (Some r) /\ (forall j, ~~ (pn %| j)%N -> p`_j = 0) /\
      isG r (\poly_(i < size p) rt p`_(i * pn))) \/
  (gp_root o pn root l = Ok None /\ exists j, ~~ (pn %| j)%N /\ p`_j != 0).
Proof.
move=> hl; rewrite /gp_root; have [a0 [e0 [v0 i0]]] := isG_get0 hl; rewrite e0 bind_ok.
have [//|z [ez [vz iz]]] := ks_int spec (v := 0) v0; rewrite ez bind_ok.
have hz : R z 0 by []. have [z1 [ez1 eb]] := dflt hz.
set s := cseq p in hl *; have s0 : (0 < size s)%N := cseq_ge1 p.
rewrite /gp_degree lengthE (F2_size hl) minusE; set d := (size s - 1)%N.
have [out0 [eo0 so0]] : exists out0, gp_set_coeff o [:: k_dflt o] (Z.of_nat d) z = Ok out0 /\ size out0 = d.+1 /\ nth z out0 d = z.
  rewrite /gp_set_coeff; have -> : Z.ltb (Z.of_nat d) 0 = false by lia.
  rewrite /= ez1 bind_ok Nat2Z.id ltbE eb !bind_ok /gp_degree /= eqbE.
  case: (posnP d) => [->|hd]; first by exists [:: z].
  eexists; split; first by [].
  rewrite /= size_cat size_repeat /= minusE; split; first by clear - hd; lia.
  case: (d) hd => [//|k] _; rewrite /= subn1 /=.
  by rewrite nth_cat size_repeat ltnn subnn.
rewrite eo0 bind_ok.
have [||out [eo [so ho]]] := @for_ok _ (fun i out => setk out (d - 1 - i)%coq_nat z)
  (fun i out => size out = d.+1 /\ forall j, (d - i <= j <= d)%N -> nth z out j = z) d out0.
- by split; [case: so0 | move=> j; rewrite subn0 => /andP[h1 h2]; rewrite (_ : j = d); [case: so0 | apply/eqP; rewrite eqn_leq h1 h2]].
- move=> i out hi [so ho]; rewrite /setk lengthE ltbE so !minusE.
  have -> : (d - 1 - i < d.+1)%N by clear - hi; lia.
  eexists; split; first by []; rewrite size_upd; split=> // j hj; rewrite nth_upd so.
  case: eqP => [->|hne] /=; first by case: ifP => // h; clear - h hi; lia.
  apply: ho; clear - hj hne hi; lia.
rewrite eo bind_ok.
have hout : Rr out (nseq d.+1 0).
  rewrite (_ : out = nseq d.+1 z); first by elim: (d.+1) => [|n IH]; constructor.
  apply: (@eq_from_nth _ z); first by rewrite size_nseq.
  move=> j; rewrite so => hj; rewrite nth_nseq hj; apply: ho.
  by rewrite subnn /= -ltnS.
have sd : d.+1 = size s by rewrite /d; clear - s0; slia.
have := root_loop_ok (cnt := (d %/ pn + 1)%N) (di := 0%N) hl hz s0 hout.
rewrite size_nseq sd addn1 add0n succnK => /(_ erefl).
have hdd : (d %/ pn * pn < size s)%N by rewrite -sd ltnS leq_trunc_div.
rewrite hdd orbT => /(_ isT).
have -> : Nat.add (Nat.div d pn) 1 = (d %/ pn).+1.
  rewrite plusE addn1; congr S; apply/esym; apply: (@Nat.div_unique d pn (d %/ pn) (d %% pn)).
    by apply/ltP; rewrite ltn_mod ltnW.
  by rewrite multE plusE mulnC -divn_eq.
have hall := czeroP s0 (erefl d); rewrite -/d addn1 in hall.
case: (boolP (all _ _)) => hb; last first.
  move=> er; right; rewrite er; split=> //; case/allPn: hb => i hi /allPn[j hj nz].
  exists j; rewrite -cseq_coef; split=> //; move: hj; rewrite mem_iota => /andP[h1 h2].
  apply/negP=> /dvdnP[k ek]; move: h1 h2; rewrite ek -(addn1 (i * pn)) -addnA add1n prednK; last exact: ltnW.
  rewrite -mulSnr addn1 !ltn_mul2r; clear - pn2; lia.
have hz0 := elimT hall hb.
  move=> [r [er hr]]; rewrite er bind_ok; left.
  have [|r' [er' hr']] := recompute_ok spec (l := r) (p := \poly_(i < size p) rt p`_(i * pn)).
    exists (mkseq (fun i => if (0 <= i < (d %/ pn).+1)%N then rt (nth 0 s (i * pn)) else nth 0 (nseq (size s) 0) i) (size s)).
    split=> //; rewrite size_mkseq; split=> //; apply/polyP=> i; rewrite coef_Poly coef_poly.
    case: (ltnP i (size s)) => hi; last first.
      rewrite nth_default ?size_mkseq //; case: ifP => // hi2.
      by move: hi hi2; rewrite /s size_cseq; clear; slia.
    rewrite nth_mkseq // nth_nseq if_same /= ltnS /s cseq_coef.
    case: (leqP i (d %/ pn)) => hdi.
      case: ltnP => // hip; rewrite nth_default ?rt0 //; apply: leq_trans hip _; rewrite leq_pmulr //; exact: ltnW.
    rewrite [p`_(i * pn)]nth_default ?rt0 ?if_same //.
    have : (d < i * pn)%N by rewrite -ltn_divLR //; exact: ltnW.
    by move: sd; rewrite /s size_cseq; clear; slia.
  rewrite er' bind_ok; exists r'; split=> //; split=> // j hj; rewrite -cseq_coef; exact: hz0.
Qed.
End Ref4.

Section Frob.
Variables (F : fieldType) (p : nat).
Hypothesis charF : p \in [char F].
Lemma coef_expchar (q : {poly F}) j : (q ^+ p)`_j = if (p %| j)%N then q`_(j %/ p) ^+ p else 0.
Proof.
have pp : prime p := charf_prime charF. have p0 := prime_gt0 pp.
have charP : p \in [char {poly F}] by apply: (rmorph_char [rmorphism of (@polyC F)]).
rewrite -(Frobenius_autE charP) -{1}(coefK q) poly_def rmorph_sum /= coef_sum.
under eq_bigr do rewrite Frobenius_autE exprZn -exprM coefZ coefXn.
case: ifP => [/dvdnP[k ->]|h].
  rewrite mulnK //; case: (ltnP k (size q)) => hk.
    rewrite (bigD1 (Ordinal hk)) //= eqxx mulr1 big1 ?addr0 // => i ne.
    by rewrite eqn_mul2r (gtn_eqF p0) /= eq_sym (_ : (nat_of_ord i == k) = false) ?mulr0 //; apply/negbTE.
  rewrite [q`_k]nth_default // expr0n (gtn_eqF p0) big1 // => i _.
  rewrite eqn_mul2r (gtn_eqF p0) /= (_ : (k == i) = false) ?mulr0 //; apply/eqP=> e.
  by have := ltn_ord i; rewrite -e ltnNge hk.
by rewrite big1 // => i _; case: eqP => [e|_]; rewrite ?mulr0 //; move: h; rewrite e dvdn_mull.
Qed.
End Frob.
