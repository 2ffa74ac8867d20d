(* The polynomial classes meet the requirements of PRat.v. *)
From Verif Require Import Base MIntMath MIntmod MMat MBits MF2Poly MPoly MLinalg MRat PF2Poly.
From mathcomp Require Import all_ssreflect all_algebra fraction ssrZ.
From Verif Require Import PMat PFp PBits2 PBits3 PF2Poly2 PF2Poly4 PPoly PPoly2 PPoly3 PEd PLinalg PRat.
Set Implicit Arguments.
Unset Strict Implicit.
Unset Printing Implicit Defensive.
Import GRing.Theory.
Delimit Scope Z_scope with coqZ.
Local Open Scope ring_scope.

Lemma eqpF2 (p q : {poly 'F_2}) : p %= q -> p = q.
Proof.
move=> /eqpP [[c1 c2] /= /andP [h1 h2] e].
have one (c : 'F_2) : c != 0 -> c = 1 by case: (Ib_surj c) => -[] <-.
by move: e; rewrite (one _ h1) (one _ h2) !scale1r.
Qed.
Lemma f2_rspec : rspec f2p_cops f2_gcd f2q_isz f2q_pse isP isL.
Proof.
split.
- exact: isP_L.
- by move=> a b p; apply: isP_uniq.
- by move=> a p q [_ <-] [_ <-].
- by move=> a b p q ha hb; apply: (add_W (isL_W ha) (isL_W hb)).
- by move=> a b p q ha hb; apply: (sub_W (isL_W ha) (isL_W hb)).
- by move=> a b p q ha hb; apply: (mul_L ha (isP_L hb)).
- exact: (es_div f2_espec).
- move=> a b p q ha hb; have [d [e h]] := gcd_L ha hb; exists d, (gcdp p q); split=> //.
  by have [r hr] := Eu_ex p q; rewrite -(eqpF2 (Eu_gcd hr)).
- exact: (es_eqb f2_espec).
- by move=> a p ha; apply: eq_0_P (isL_W ha).
- by move=> a p _; exists (f2_of_int 0); split=> //; exact: isP0.
- by move=> a p _; exists (f2_of_int 1); split=> //; exact: isP1.
Qed.

Section Gp.
Variables (A : Type) (o : kops A) (F : fieldType) (V : A -> Prop) (I : A -> F) (kv : A -> nat).
Hypothesis spec : kspec o V I kv.
Local Notation isG := (isG V I).
Lemma gcd_eu l p m q : isG l p -> isG m q -> exists r d, [/\ gp_gcd o l m = Ok r, isG r d & Eu p q d].
Proof.
move=> hl hm; rewrite /gp_gcd (eq0_ok spec hl) bind_ok; case: eqP => [->|/eqP p0].
  exists m, q; split=> //; case: (eqVneq q 0) => [->|q0]; first by constructor.
  by constructor=> //; rewrite mod0p; constructor.
rewrite (eq0_ok spec hm) bind_ok; case: eqP => [->|/eqP q0].
  by exists l, p; split=> //; constructor.
have [|||r [e [d [hd hg]]]] := loop_total (gcd_step o)
  (fun st => exists a b, isG st.1 a /\ isG st.2 b /\ b != 0 /\ (forall d, Eu a b d -> Eu p q d))
  (fun st => size st.2) (fun r => exists d, isG r d /\ Eu p q d) _ (length m).+1 (l, m).
- move=> [c d] [a [b [/= ha [hb [b0 hg]]]]].
  have [qt [rm [e [hq hr]]]] := quot_rem_ok spec ha hb b0.
  rewrite e bind_ok (eq0_ok spec hr) bind_ok; case: eqP => [r0|/eqP r0].
    right; exists d; split=> //; exists b; split=> //; apply: hg; constructor=> //.
    by rewrite r0; constructor.
  left; exists (d, rm); split=> //; split.
    exists b, (a %% b); split=> //; split=> //; split=> // g hE; apply: hg; by constructor.
  rewrite /= (isG_size hb) (isG_size hr); have := ltn_modp a b; rewrite b0 => hlt.
  have : (0 < size (a %% b)%R)%N by rewrite lt0n size_poly_eq0.
  by move=> h1; rewrite !(maxn_idPr _) //; [apply/ltP | apply: leq_ltn_trans hlt].
- by exists p, q.
- by rewrite /= -lengthE; slia.
by exists r, d.
Qed.
Lemma gp_rspec : rspec (gp_cops o) (gp_gcd o) (gq_isz o) (gp_int o) isG isG.
Proof.
split=> //.
- by move=> a b p ha hb; apply: (isG_uniq spec ha hb).
- by move=> a p q ha hb; apply: (isG_fun ha hb).
- by move=> a b p q ha hb; have [c [e hc]] := PPoly.add_ok spec ha hb; exists c.
- by move=> a b p q ha hb; have [c [e hc]] := PPoly.sub_ok spec ha hb; exists c.
- by move=> a b p q ha hb; have [c [e hc]] := PPoly.mul_ok spec ha hb; exists c.
- by move=> a b p q ha hb q0; apply: (div_ok spec ha hb q0).
- by move=> a b p q ha hb; apply: gcd_eu.
- by move=> a b p q ha hb; apply: (eqb_ok spec ha hb).
- by move=> a p ha; apply: (eq0_ok spec ha).
- by move=> a p ha; have [c [-> hc]] := int0_ok spec ha; exists c.
- by move=> a p ha; have [c [-> hc]] := int1_ok spec ha; exists c.
Qed.
End Gp.
