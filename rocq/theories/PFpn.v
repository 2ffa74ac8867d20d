(* The residue classes of F_p[x] modulo an irreducible polynomial are the elements of a finite
   field; fp_polymod_t coefficients satisfy the requirements of PPoly.v, but for the unary
   minus, which is undefined on classes of non-constant polynomials. *)
From Verif Require Import Base MIntMath MIntmod MMat MPoly MPolymod MFpnPoly PIntMath PIntMath2 PIntmod.
From mathcomp Require Import all_ssreflect fingroup perm all_algebra ssrZ.
From mathcomp Require Import falgebra fieldext finfield.
From Verif Require Import PMat PFp PFpGen PPoly PPoly2 PPoly3 PPoly4 PFpPoly PPolymod PropFpPoly PropFpPolymod.
From Verif Require PF2n PMono.
Set Implicit Arguments.
Unset Strict Implicit.
Unset Printing Implicit Defensive.
Import GRing.Theory FinVector.
Delimit Scope Z_scope with coqZ.
Local Open Scope ring_scope.

(* A finite field generated by a root of an irreducible polynomial gq_m over 'F_p, with the
   objects gq_el that represent its elements: the class of r modulo gq_m represents the value
   of r at the root. *)
Record gfq (p : nat) := MkGq {
  gq_m : {poly 'F_p};
  gq_L : finFieldType;
  gq_emb : {rmorphism 'F_p -> gq_L};
  gq_z : gq_L;
  gq_el : gq_L -> fpc;
  gq_irr : irreducible_poly gq_m;
  gq_root : root (map_poly gq_emb gq_m) gq_z;
  gq_card : #|gq_L| = (p ^ (size gq_m).-1)%N;
  gq_elP : forall a, exists2 r, gq_el a = fp_menc gq_m r & (map_poly gq_emb r).[gq_z] = a
}.

Section Ev.
Variable p : nat.
Hypothesis pp : prime p.
Variables (m : {poly 'F_p}) (L : finFieldType) (emb : {rmorphism 'F_p -> L}) (z : L).
Hypothesis mirr : irreducible_poly m.
Hypothesis mroot : root (map_poly emb m) z.
Hypothesis mcard : #|L| = (p ^ (size m).-1)%N.
Definition ev (r : {poly 'F_p}) : L := (map_poly emb r).[z].
Lemma evD r s : ev (r + s) = ev r + ev s. Proof. by rewrite /ev rmorphD hornerD. Qed.
Lemma evB r s : ev (r - s) = ev r - ev s. Proof. by rewrite /ev rmorphB hornerD hornerN. Qed.
Lemma evN r : ev (- r) = - ev r. Proof. by rewrite /ev rmorphN hornerN. Qed.
Lemma evM r s : ev (r * s) = ev r * ev s. Proof. by rewrite /ev rmorphM hornerM. Qed.
Lemma ev0 : ev 0 = 0. Proof. by rewrite /ev rmorph0 horner0. Qed.
Lemma ev1 : ev 1 = 1. Proof. by rewrite /ev rmorph1 hornerC. Qed.
Lemma evX r n : ev (r ^+ n) = ev r ^+ n.
Proof. by elim: n => [|n IH]; rewrite ?expr0 ?ev1 // !exprS evM IH. Qed.
Lemma evC c : ev c%:P = emb c. Proof. by rewrite /ev map_polyC hornerC. Qed.
Lemma ev_mod r : ev (r %% m) = ev r.
Proof.
rewrite {2}(divp_eq r m) evD evM; have -> : ev m = 0 by apply/eqP.
by rewrite mulr0 add0r.
Qed.
Implicit Types r s : {poly 'F_p}.
Lemma ev_eq0 r : (size r < size m)%N -> (ev r == 0) = (r == 0).
Proof.
move=> hr; apply/eqP/eqP => [h|->]; last exact: ev0.
apply/eqP; apply: contraT => r0.
have /Bezout_eq1_coprimepP [[u v] /= e] := PF2n.irr_coprime mirr r0 hr.
have : ev 1 = 0.
  by rewrite -e evD !evM h mulr0 add0r (_ : ev m = 0) ?mulr0 //; apply/eqP.
by move/eqP; rewrite ev1 oner_eq0.
Qed.
Lemma ev_inj r s : (size r < size m)%N -> (size s < size m)%N -> ev r = ev s -> r = s.
Proof.
move=> hr hs e; apply/eqP; rewrite -subr_eq0 -ev_eq0 ?evB ?e ?subrr //.
by apply: leq_ltn_trans (size_add _ _) _; rewrite size_opp gtn_max hr.
Qed.
Lemma msz : (1 < size m)%N. Proof. by case: mirr. Qed.
Lemma m_neq0 : m != 0. Proof. by rewrite -size_poly_gt0; apply: ltnW msz. Qed.
Lemma rV_lt (v : 'rV['F_p]_(size m).-1) : (size (rVpoly v) < size m)%N.
Proof. by apply: leq_ltn_trans (size_poly _ _) _; rewrite prednK ?size_poly_gt0 ?m_neq0. Qed.
Lemma ev_surj a : exists2 r : {poly 'F_p}, (size r < size m)%N & ev r = a.
Proof.
pose f (v : 'rV['F_p]_(size m).-1) := ev (rVpoly v).
have finj : injective f.
  by move=> v w /(ev_inj (rV_lt v) (rV_lt w)) e; rewrite -[v]rVpolyK -[w]rVpolyK e.
have : a \in codom f.
  by apply: inj_card_onto => //; rewrite mcard card_matrix card_Fp // mul1n.
by case/codomP => v ->; exists (rVpoly v) => //; exact: rV_lt.
Qed.
End Ev.

(* every irreducible polynomial gives such a field *)
Lemma gfq_exists p (m : {poly 'F_p}) : prime p -> irreducible_poly m -> exists G : gfq p, gq_m G = m.
Proof.
move=> pp hm; have [L hdim [z hz hfull]] := irredp_FAdjoin hm.
pose F := FinFieldExtType L.
pose emb : {rmorphism 'F_p -> F} := [rmorphism of in_alg L].
have hc : #|F| = (p ^ (size m).-1)%N.
  have := @card_vspace [finFieldType of 'F_p] F _ {:L}%VS; rewrite card_vspacef => ->.
  by rewrite card_Fp // -hdim.
have hex (a : F) : exists x : fpc, exists2 r, x = fp_menc m r & (map_poly emb r).[z] = a.
  have [r hr <-] := @ev_surj p pp m F emb z hm hz hc a.
  by exists (fp_menc m r), r.
have [el hel] := fin_all_exists hex.
by exists (@MkGq p m F emb z el hm hz hc hel).
Qed.

(* fp_polymod_t with a unary minus that is right where the real one is undefined *)
Section Neg.
Variable c : cache.
Definition neg' (x : fpc) : res fpc :=
  match gm_res x with
  | [:: _] => gm_neg (im_kops c) x
  | _ => z <- gm_int (im_kops c) x 0 ;; gm_sub (im_kops c) z x
  end.
Definition fpn_kops' : kops fpc :=
  mkkops (mkcops (gm_add (im_kops c)) (gm_sub (im_kops c)) (gm_mul (im_kops c)) (gm_div (im_kops c)) neg' (gm_eqb (im_kops c)))
    (gm_recip (im_kops c)) (gm_exp (im_kops c)) (gm_ltb (im_kops c)) (gm_gtb (im_kops c)) (gm_int (im_kops c)) (gm_eq_int (im_kops c))
    fpn_next fpn_dflt.
Import PMono.
Lemma neg_le x : gm_neg (im_kops c) x <~ neg' x.
Proof.
rewrite /neg' /gm_neg; case: x => [[|a [|b l]] m] /=; try by left.
exact: le_refl.
Qed.
Lemma sub_le a b : gp_sub (fpn_kops c) a b <~ gp_sub fpn_kops' a b.
Proof.
apply: le_bind => [|x]; last exact: le_refl.
elim: a b => [|x a IH] [|y b] /=; try exact: le_refl.
  by apply: le_bind => [|x]; [exact: neg_le | elim: b x => [|y' b IH] x /=; [exact: le_refl | apply: le_bind => [|w]; [|exact: le_refl]; apply: le_bind => [|u]; [exact: neg_le | exact: IH]]].
by apply: le_bind => [|x0]; [exact: le_refl | apply: le_bind => [|x1]; [exact: IH | exact: le_refl]].
Qed.
End Neg.

Section Coef.
Variable p : nat.
Hypothesis pp : prime p.
Hypothesis hP : (Z.of_nat p <= 46341)%coqZ.
Variable c : cache.
Hypothesis hc : cache_valid c.
Variables (m : {poly 'F_p}) (L : finFieldType) (emb : {rmorphism 'F_p -> L}) (z : L).
Hypothesis mirr : irreducible_poly m.
Hypothesis mroot : root (map_poly emb m) z.
Hypothesis mcard : #|L| = (p ^ (size m).-1)%N.
Implicit Types r s : {poly 'F_p}.
Local Notation ev := (ev emb z).
Local Notation oi := (im_kops c).
Local Notation isM := (isM (Vp p) (Ip p)).
Let sp := im_kspec pp hP hc.
Let m0 := m_neq0 mirr.
Definition Vq (x : fpc) : Prop := exists r, isM x r m.
Definition Iq (x : fpc) : L := ev (Poly (map (@Ip p) (gm_res x))).
Definition kq (x : fpc) : nat := gval rv p (gm_res x).
Local Notation d := (size m).-1.

Lemma isG_Poly l r : isG (Vp p) (Ip p) l r -> Poly (map (@Ip p) l) = r.
Proof.
move=> h; rewrite -[RHS]cseqP; congr Poly; move: h; rewrite /isG.
by move: (cseq r) => s; elim=> {l s} [//|x a l s [_ <-] _ /= ->].
Qed.
Lemma Iq_ev x r : isM x r m -> Iq x = ev r. Proof. by case=> h _; rewrite /Iq (isG_Poly h). Qed.
Lemma VqI x r : isM x r m -> forall a, ev r = a -> Vq x /\ Iq x = a.
Proof. by move=> h a <-; split; [exists r | exact: Iq_ev]. Qed.
Lemma ok1 (e : res fpc) r a : (exists x, e = Ok x /\ isM x r m) -> ev r = a -> exists x, e = Ok x /\ Vq x /\ Iq x = a.
Proof. by case=> x [-> h] hr; exists x; split=> //; exact: VqI h _ hr. Qed.
Lemma cast_emb v : (int_of_Z v)%:~R = emb ((int_of_Z v)%:~R).
Proof. by rewrite rmorph_int. Qed.
Lemma Iq_inj x y : Vq x -> Vq y -> Iq x = Iq y -> x = y.
Proof.
move=> [r hr] [s hs]; rewrite (Iq_ev hr) (Iq_ev hs) => /(ev_inj mirr mroot hr.2.2 hs.2.2) e.
by apply: (isM_uniq sp) hr _; rewrite e.
Qed.
Lemma coprime_nz x r : isM x r m -> Iq x != 0 -> r != 0 /\ coprimep r m.
Proof.
move=> h; rewrite (Iq_ev h) (ev_eq0 mirr mroot h.2.2) => r0; split=> //.
exact: PF2n.irr_coprime mirr r0 h.2.2.
Qed.
Lemma ev_inv r t : ev r != 0 -> (r * t) %% m = 1 %% m -> ev t = (ev r)^-1.
Proof.
move=> r0 /(congr1 ev); rewrite !(ev_mod mroot) evM ev1 => e; apply: (mulfI r0); by rewrite e mulfV.
Qed.
Lemma neg'_ok x r : isM x r m -> exists y, neg' c x = Ok y /\ isM y (- r) m.
Proof.
move=> hr; have hs := isG_size hr.1; rewrite /neg'.
have alt : exists y, (z0 <- gm_int oi x 0;; gm_sub oi z0 x) = Ok y /\ isM y (- r) m.
  have [w [-> hw]] := gint0_ok sp hr; rewrite bind_ok; have [y [-> hy]] := gsub_ok sp hw hr.
  by exists y; rewrite sub0r in hy.
case e : (gm_res x) hs => [|a [|b l]] //= hs; apply: (gneg_ok sp hr).
by have := leq_maxr 1 (size r); rewrite -hs.
Qed.

Lemma fpn_cspec : cspec (k_c (fpn_kops' c)) Vq Iq.
Proof.
split.
- move=> x y [r hr] [s hs]; apply: ok1 (gadd_ok sp hr hs) _; by rewrite evD (Iq_ev hr) (Iq_ev hs).
- move=> x y [r hr] [s hs]; apply: ok1 (gsub_ok sp hr hs) _; by rewrite evB (Iq_ev hr) (Iq_ev hs).
- move=> x y [r hr] [s hs]; apply: ok1 (gmul_ok sp hr hs) _; by rewrite (ev_mod mroot) evM (Iq_ev hr) (Iq_ev hs).
- move=> x [r hr]; apply: ok1 (neg'_ok hr) _; by rewrite evN (Iq_ev hr).
- move=> x y [r hr] [s hs] nz; have [s0 hcp] := coprime_nz hs nz.
  rewrite /=; have [k [t [-> [ht e]]]] := gdiv_unit sp hr hs hcp; exists k; split=> //; apply: VqI ht _ _.
  rewrite (Iq_ev hr) -e (ev_mod mroot) evM (Iq_ev hs) mulfK // -(Iq_ev hs) //.
- by move=> x y [r hr] [s hs]; rewrite /= (geqb_ok sp hr hs) (Iq_ev hr) (Iq_ev hs); congr Ok;
    apply/eqP/eqP => [->//|/(ev_inj mirr mroot hr.2.2 hs.2.2)].
Qed.
Lemma kq_num x r : isM x r m -> kq x = fp_num r.
Proof. by case=> h _; rewrite /kq (Genc pp hP hc h) num_gval. Qed.
Lemma kq_inj x y : Vq x -> Vq y -> kq x = kq y -> x = y.
Proof.
move=> [r hr] [s hs]; rewrite (kq_num hr) (kq_num hs) => /(num_inj pp hP hc) e.
by apply: (isM_uniq sp) hr _; rewrite e.
Qed.
Lemma int_nat n : int_of_Z (Z.of_nat n) = n%:Z. Proof. by rewrite -(Z_of_intK n). Qed.
Lemma Vint x v : Vq x -> (INT_MIN < v <= INT_MAX)%coqZ -> exists y, gm_int oi x v = Ok y /\ Vq y /\ Iq y = (int_of_Z v)%:~R.
Proof. by move=> [r hr] hv; apply: ok1 (gint_ok sp hr hv) _; rewrite (ev_mod mroot) evC cast_emb. Qed.
Lemma fpn_kspec : kspec (fpn_kops' c) Vq Iq kq.
Proof.
split.
- exact: fpn_cspec.
- exact: Iq_inj.
- move=> x [r hr] nz; have [r0 hcp] := coprime_nz hr nz.
  rewrite /=; have [k [t [-> [ht e]]]] := grecip_unit sp hr hcp; exists k; split=> //; apply: VqI ht _ _.
  by rewrite (Iq_ev hr) in nz *; exact: ev_inv.
- by move=> x v vx hv; exact: Vint.
- move=> x e [r hr] nz he; rewrite [k_exp _]/=; have [r0 hcp] := coprime_nz hr nz; rewrite (Iq_ev hr) in nz *.
  case: (Z.lt_ge_cases e 0) => h.
    have [|k [t [u [-> [ht [h1 h2]]]]]] := gexp_neg sp hr _ r0 hcp (e := e); first by move: he; rewrite /INT_MIN /INT_MAX; clear - h; lia.
    exists k; split=> //; apply: VqI ht _ _; rewrite h2 (ev_mod mroot) evX (ev_inv nz h1).
    have [n en] : exists n, e = (- Z.of_nat n)%coqZ by exists (Z.to_nat (- e)); lia.
    by rewrite en (rmorphN [rmorphism of int_of_Z]) /= int_nat -exprnN Z.opp_involutive Nat2Z.id exprVn.
  have [||k [-> hk]] := gexp_pos sp hr (e := e); first by move: he; clear - h; lia.
    by right.
  exists k; split=> //; apply: VqI hk _ _; rewrite (ev_mod mroot) evX.
  by rewrite -{2}(Z2Nat.id e h) int_nat.
- by move=> x [r hr]; rewrite [k_isint _]/= /gm_eq_int (eq0_ok sp hr.1) (Iq_ev hr) (ev_eq0 mirr mroot hr.2.2).
- move=> x [r hr]; rewrite [k_isint _]/= /gm_eq_int (eq1_ok sp hr.1) (Iq_ev hr); congr Ok.
  apply/eqP/eqP => [->|]; first exact: ev1.
  by rewrite -(ev1 emb z) => /(ev_inj mirr mroot hr.2.2); apply; rewrite size_poly1 (msz mirr).
- move=> x y [r hr] [s hs]; rewrite [k_ltb _]/= /gm_ltb (check_ok sp hr hs) bind_ok (kq_num hr) (kq_num hs).
  rewrite (Genc pp hP hc hr.1) (Genc pp hP hc hs.1); by have [_ [_ [-> _]]] := t_cmp pp hP hc r s.
- move=> x y [r hr] [s hs]; rewrite [k_gtb _]/= /gm_gtb (check_ok sp hr hs) bind_ok (kq_num hr) (kq_num hs).
  rewrite (Genc pp hP hc hr.1) (Genc pp hP hc hs.1); by have [_ [_ [_ [-> _]]]] := t_cmp pp hP hc r s.
- exact: kq_inj.
Qed.
End Coef.
