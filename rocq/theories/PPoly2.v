(* Comparison, division, gcd of the generic polynomial model. *)
From Verif Require Import Base MMat MPoly.
From mathcomp Require Import all_ssreflect fingroup perm all_algebra ssrZ.
From Verif Require Import PMat PPoly.
Set Implicit Arguments.
Unset Strict Implicit.
Unset Printing Implicit Defensive.
Import GRing.Theory.
Delimit Scope Z_scope with coqZ.
Local Open Scope ring_scope.

Section Ref2.
Variables (A : Type) (o : kops A) (F : fieldType) (V : A -> Prop) (I : A -> F) (kv : A -> nat).
Hypothesis spec : kspec o V I kv.
Let sc := ks_c spec.
Local Notation R := (R V I).
Local Notation Rr := (Rr V I).
Local Notation isG := (isG V I).
Local Notation isW := (isW V I).

Lemma dir_top_ok l s m t : Rr l s -> Rr m t -> size s = size t ->
  exists d, dir_top o l m = Ok d /\ (Z.eqb d 0) = (s == t).
Proof.
move=> h; elim: h m t => [|x a l1 s1 [vx ix] hl IH] m t hm e.
  by case: hm e => //; exists 0%coqZ.
case: hm e => [//|y b m1 t1 [vy iy] hm] /= [e].
have [d [ed hd]] := IH _ _ hm e.
rewrite (ks_ltb spec vx vy) bind_ok (ks_gtb spec vx vy) bind_ok eqseq_cons.
case: (ltngtP (kv x) (kv y)) => h.
- exists (-1)%coqZ; split=> //; apply/esym/negbTE; rewrite negb_and; apply/orP; left; apply/eqP=> ab.
  by move: h; rewrite (ks_inj spec vx vy) ?ltnn // ix iy.
- exists 1%coqZ; split=> //; apply/esym/negbTE; rewrite negb_and; apply/orP; left; apply/eqP=> ab.
  by move: h; rewrite (ks_inj spec vx vy) ?ltnn // ix iy.
exists d; split=> //; rewrite hd -ix -iy (ks_kv spec vx vy h) eqxx //.
Qed.

Lemma cseq_inj : injective (@cseq F).
Proof. by move=> p q e; rewrite -(cseqP p) e cseqP. Qed.

Lemma dir_ok l p m q : isG l p -> isG m q -> exists d, gp_dir o l m = Ok d /\ (Z.eqb d 0) = (p == q).
Proof.
move=> h1 h2; rewrite /gp_dir !lengthE !ltbE (F2_size h1) (F2_size h2).
case: (ltngtP (size (cseq p)) (size (cseq q))) => h.
- by exists (-1)%coqZ; split=> //; apply/esym/eqP=> e; move: h; rewrite e ltnn.
- by exists 1%coqZ; split=> //; apply/esym/eqP=> e; move: h; rewrite e ltnn.
have [|d [e hd]] := dir_top_ok (F2_rev h1) (F2_rev h2); first by rewrite !size_rev.
by exists d; split=> //; rewrite hd (inj_eq (can_inj revK)) (inj_eq cseq_inj).
Qed.
Lemma eqb_ok l p m q : isG l p -> isG m q -> gp_eqb o l m = Ok (p == q).
Proof. by move=> h1 h2; have [d [e h]] := dir_ok h1 h2; rewrite /gp_eqb e bind_ok h. Qed.
Lemma neqb_ok l p m q : isG l p -> isG m q -> gp_neqb o l m = Ok (p != q).
Proof. by move=> h1 h2; have [d [e h]] := dir_ok h1 h2; rewrite /gp_neqb e bind_ok h. Qed.

Lemma isG_1 l p : isG l p -> (size p <= 1)%N -> exists x, l = [:: x] /\ R x p`_0.
Proof.
move=> h sp; have := isG_size h; rewrite (maxn_idPl sp); case: l h => [|x [|//]] //= h _.
exists x; split=> //; rewrite -cseq_coef; move: h; rewrite /PPoly.isG; move=> h; inversion h; subst.
by [].
Qed.
Lemma isG_2 l p : isG l p -> (1 < size p)%N -> exists x y t, l = [:: x, y & t].
Proof. 
move=> h sp; have := isG_size h; rewrite (maxn_idPr (ltnW sp)).
by case: l h => [|x [|y t]] // h e; rewrite -e in sp; last by exists x, y, t.
Qed.
Lemma eq0_ok l p : isG l p -> gp_eq_int o l 0 = Ok (p == 0).
Proof.
move=> h; case: (leqP (size p) 1) => sp.
  have [x [-> [vx ix]]] := isG_1 h sp; rewrite /= (ks_is0 spec vx) ix.
  by rewrite [in RHS](size1_polyC sp) polyC_eq0.
have [x [y [t ->]]] := isG_2 h sp => /=; congr Ok; apply/esym/eqP=> p0.
by rewrite p0 size_poly0 in sp.
Qed.
Lemma eq1_ok l p : isG l p -> gp_eq_int o l 1 = Ok (p == 1).
Proof.
move=> h; case: (leqP (size p) 1) => sp.
  have [x [-> [vx ix]]] := isG_1 h sp; rewrite /= (ks_is1 spec vx) ix.
  by rewrite [in RHS](size1_polyC sp) -polyC1 (inj_eq (@polyC_inj _)).
have [x [y [t ->]]] := isG_2 h sp => /=; congr Ok; apply/esym/eqP=> p0.
by rewrite p0 size_poly1 in sp.
Qed.

(* ---- division *)
Lemma sub_shift_ok l s m t k : Rr l s -> Rr m t -> (k + size t <= size s)%N ->
  exists r u, sub_shift o l m k = Ok r /\ Rr r u /\ size u = size s /\ Poly u = Poly s - 'X^k * Poly t.
Proof.
move=> hl hm hk; rewrite /sub_shift lengthE (F2_size hm).
have [||r [e [u [hu [su pu]]]]] := @for_ok _ (fun i rem => x <- getk rem (k + i)%coq_nat;; y <- getk m i;;
     z <- c_sub (k_c o) x y;; setk rem (k + i)%coq_nat z)
  (fun i r => exists u, Rr r u /\ size u = size s /\ Poly u = Poly s - 'X^k * Poly (take i t)) (size t) l.
- by exists s; split=> //; split=> //; rewrite take0 mulr0 subr0.
- move=> i r hi [u [hu [su pu]]].
  have hik : (k + i < size u)%N by rewrite su; apply: leq_trans hk; rewrite ltn_add2l.
  have [x [ex hx]] := getk_ok hu hik; have [y [ey hy]] := getk_ok hm hi.
  have [z [ez hz]] := R_sub sc hx hy; have [r' [e' h']] := setk_ok hu hik hz.
  rewrite ex bind_ok ey bind_ok ez bind_ok; exists r'; split=> //.
  exists (set_nth 0 u (k + i) (nth 0 u (k + i) - nth 0 t i)); split=> //.
  rewrite size_set // Poly_set // pu Poly_take //; split=> //.
  by rewrite [nth 0 u _ - _ - _]addrAC subrr add0r mulrDr opprD addrA -scalerAr -exprD scaleNr.
by exists r, u; rewrite take_size in pu.
Qed.

Lemma quot_rem_ok l p m q : isG l p -> isG m q -> q != 0 ->
  exists a b, gp_quot_rem o l m = Ok (a, b) /\ isG a (p %/ q) /\ isG b (p %% q).
Proof.
move=> hl hm q0; have [a0 [e0 h0]] := isG_get0 hl; rewrite /gp_quot_rem e0 bind_ok.
have [z [ez hz]] := R_sub sc h0 h0; rewrite ez bind_ok; rewrite subrr in hz.
have [zp [ezp hzp]] := const_ok spec hz; rewrite ezp bind_ok.
rewrite (eqb_ok hm hzp) bind_ok polyC0 (negbTE q0) (eqb_ok hl hzp) bind_ok polyC0.
rewrite !lengthE ltbE (isG_size hl) (isG_size hm).
have sq : (0 < size q)%N by rewrite lt0n size_poly_eq0.
rewrite (maxn_idPr sq).
case: ifP => [hsmall|/norP[p0]].
  have [r [er hr]] := int0_ok spec hl; rewrite er bind_ok; exists r, l; split=> //.
  case/orP: hsmall => [/eqP p0|hs]; first by rewrite p0 div0p mod0p; rewrite p0 in hl.
  have hs' : (size p < size q)%N by apply: leq_ltn_trans hs; rewrite leq_max leqnn orbT.
  by rewrite divp_small // modp_small.
have sp : (0 < size p)%N by rewrite lt0n size_poly_eq0.
rewrite (maxn_idPr sp) -leqNgt => hsz.
have hm' : Rr m (polyseq q) by move: hm; rewrite /PPoly.isG /cseq (negbTE q0).
have hl' : Rr l (polyseq p) by move: hl; rewrite /PPoly.isG /cseq (negbTE p0).
rewrite !minusE.
have [x [ex hx]] := getk_ok hm' (i := (size q - 1)%N) ltac:(by rewrite subn1 ltn_predL).
rewrite ex bind_ok; rewrite subn1 in hx.
have lq0 : lead_coef q != 0 by rewrite lead_coef_eq0.
have [vx ix] := hx; have [//|dl [er [vd id]]] := ks_recip spec vx; first by rewrite ix.
rewrite er bind_ok; set ms := (size p - size q)%N.
have id' : R dl (lead_coef q)^-1 by split=> //; rewrite id ix.
have [||[qt rm] [e [qs [rs [hq [hr [sqs [srs [pe szr]]]]]]]]] := @for_ok _ (div_step o m dl ms)
  (fun i st => exists qs rs, Rr st.1 qs /\ Rr st.2 rs /\ size qs = i /\ size rs = size p /\
     p = Poly qs * 'X^(ms.+1 - i) * q + Poly rs /\ (size (Poly rs) <= size p - i)%N) ms.+1 ([::], l).
- exists [::], (polyseq p); split; first by constructor.
  by rewrite /= mul0r mul0r add0r polyseqK subn0.
- move=> i [qt rm] hi [qs [rs [/= hq [hr [sqs [srs [pe szr]]]]]]].
  rewrite /div_step !lengthE (F2_size hm') !minusE !plusE; set sh := (ms - i)%N.
  have hpos : (sh + (size q - 1))%N = (size p - i.+1)%N by rewrite /sh /ms; slia.
  have [rl [erl hrl]] := getk_ok hr (i := (sh + (size q - 1))%N) ltac:(by rewrite srs hpos ltn_subrL sp).
  rewrite erl bind_ok; have [mu [emu hmu]] := R_mul sc hrl id'; rewrite emu bind_ok.
  set c := _ / _ in hmu.
  have [dm [edm hdm]] := mulc_ok spec hm hmu; rewrite edm bind_ok.
  have [|rm' [rs' [e' [hr' [srs' prs']]]]] := sub_shift_ok (k := sh) hr hdm.
    have hmx : (maxn 1 (size (c *: q)) <= size q)%N by rewrite geq_max sq size_scale_leq.
    rewrite srs size_cseq; apply: leq_trans (_ : sh + size q <= _)%N; first by rewrite leq_add2l.
    by rewrite /sh /ms; clear -hi hsz; slia.
  rewrite e' bind_ok; exists (mu :: qt, rm'); split=> //.
  exists (c :: qs), rs'; split; first by constructor.
  split=> //; split; first by rewrite /= sqs.
  split; first by rewrite srs'.
  have hn : (ms.+1 - i = sh.+1)%N by rewrite /sh; slia.
  have hpe : p = Poly (c :: qs) * 'X^sh * q + Poly rs'.
    rewrite Poly_cons prs' cseqP pe hn exprS mulrDl mulrDl -!addrA -!mulrA; congr (_ + _).
    by rewrite mul_polyC -!scalerAr addrCA subrr addr0.
  rewrite (_ : ms.+1 - i.+1 = sh)%N ?subSS //; split=> //.
  apply/leq_sizeP=> j hj; rewrite prs' cseqP coefB coefXnM.
  case: (ltngtP j (size p - i.+1)) => hj2; first by rewrite leqNgt hj2 in hj.
    have -> : (Poly rs)`_j = 0 by apply/(leq_sizeP _ _ szr); slia.
    rewrite sub0r; case: ifP => hjs; first by rewrite oppr0.
    rewrite coefZ nth_default ?mulr0 ?oppr0 //.
    by move: hj2; rewrite -hpos; slia.
  rewrite coef_Poly hj2 -hpos coefZ.
  have -> : (sh + (size q - 1) < sh)%N = false by slia.
  have -> : (sh + (size q - 1) - sh = (size q).-1)%N by slia.
  by rewrite /c divfK // subrr.
rewrite /= in hq hr; rewrite e bind_ok.
rewrite subnn expr0 mulr1 in pe.
have szr' : (size (Poly rs) < size q)%N.
  apply: leq_ltn_trans szr _; rewrite /ms; slia.
have hdiv : Poly qs = p %/ q.
  by rewrite [in RHS]pe divpD mulpK // (divp_small szr') addr0.
have hmod : Poly rs = p %% q.
  by rewrite [in RHS]pe modpD modp_mull add0r modp_small.
have d0 : p %/ q != 0 by rewrite -size_poly_eq0 size_divp // subn_eq0 -ltnNge; apply: leq_trans hsz; rewrite prednK.
have lastq : last 1 qs != 0.
  apply/eqP=> hlast.
  have hs1 : size (p %/ q) = ms.+1 by rewrite size_divp // /ms -subSn // -[in RHS](prednK sq) subSS.
  have : (p %/ q)`_ms = 0.
    rewrite -hdiv coef_Poly -[ms]/(ms.+1.-1) -sqs nth_last.
    by case: (qs) sqs hlast => // a qs' _ /=.
  by move/eqP; rewrite -[ms]/(ms.+1.-1) -hs1 -/(lead_coef _) lead_coef_eq0 (negbTE d0).
have hq' : isG qt (p %/ q).
  by rewrite /PPoly.isG /cseq (negbTE d0) -hdiv (PolyK (c := 1)).
have [top [et ht]] := getk_ok hq (i := ms) ltac:(by rewrite sqs).
rewrite et bind_ok (R_eqb sc ht hz) bind_ok -[ms]/(ms.+1.-1) -sqs nth_last.
rewrite (_ : last 0 qs == 0 = false); last first.
  by case: (qs) sqs lastq => // a qs' _ /= /negbTE.
have [|r [err hrr]] := recompute_ok spec (l := rm) (p := p %% q).
  by exists rs; rewrite hmod srs.
by rewrite err bind_ok; exists qt, r.
Qed.

Lemma quot_rem_0 l p m : isG l p -> isG m 0 -> gp_quot_rem o l m = Exn.
Proof.
move=> hl hm; have [a0 [e0 h0]] := isG_get0 hl; rewrite /gp_quot_rem e0 bind_ok.
have [z [ez hz]] := R_sub sc h0 h0; rewrite ez bind_ok; rewrite subrr in hz.
have [zp [ezp hzp]] := const_ok spec hz; rewrite ezp bind_ok.
by rewrite (eqb_ok hm hzp) bind_ok polyC0 eqxx.
Qed.
Lemma div_ok l p m q : isG l p -> isG m q -> q != 0 -> exists a, gp_div o l m = Ok a /\ isG a (p %/ q).
Proof. by move=> h1 h2 q0; have [a [b [e [ha hb]]]] := quot_rem_ok h1 h2 q0; exists a; rewrite /gp_div e. Qed.
Lemma mod_ok l p m q : isG l p -> isG m q -> q != 0 -> exists a, gp_mod o l m = Ok a /\ isG a (p %% q).
Proof. by move=> h1 h2 q0; have [a [b [e [ha hb]]]] := quot_rem_ok h1 h2 q0; exists b; rewrite /gp_mod e. Qed.

(* ---- gcd *)
Lemma gcd_ok l p m q : isG l p -> isG m q ->
  exists r d, gp_gcd o l m = Ok r /\ isG r d /\ d %= gcdp p q.
Proof.
move=> hl hm; rewrite /gp_gcd (eq0_ok hl) bind_ok; case: eqP => [->|/eqP p0].
  by exists m, q; rewrite gcd0p eqpxx.
rewrite (eq0_ok hm) bind_ok; case: eqP => [->|/eqP q0].
  by exists l, p; rewrite gcdp0 eqpxx.
have [|||r [e [d [hd hg]]]] := loop_total (gcd_step o)
  (fun st => exists a b, isG st.1 a /\ isG st.2 b /\ b != 0 /\ gcdp a b %= gcdp p q)
  (fun st => size st.2) (fun r => exists d, isG r d /\ d %= gcdp p q) _ (length m).+1 (l, m).
- move=> [c d] [a [b [/= ha [hb [b0 hg]]]]].
  have [qt [rm [e [hq hr]]]] := quot_rem_ok ha hb b0.
  rewrite e bind_ok (eq0_ok hr) bind_ok; case: eqP => [r0|/eqP r0].
    right; exists d; split=> //; exists b; split=> //; apply: eqp_trans hg.
    by rewrite eqp_sym; apply: dvdp_gcd_idr; rewrite /dvdp r0.
  left; exists (d, rm); split=> //; split.
    exists b, (a %% b); split=> //; split=> //; split=> //.
    by apply: eqp_trans hg; apply: eqp_trans (gcdp_modr _ _) (gcdpC _ _).
  rewrite /= (isG_size hb) (isG_size hr); have := ltn_modp a b; rewrite b0 => hlt.
  have : (0 < size (a %% b)%R)%N by rewrite lt0n size_poly_eq0.
  by move=> h1; rewrite !(maxn_idPr _) //; [apply/ltP | apply: leq_ltn_trans hlt].
- by exists p, q; split=> //; split=> //; split=> //; apply: eqpxx.
- by rewrite /= -lengthE; slia.
by exists r, d.
Qed.
End Ref2.
