(* Final theorems for spffl/polynomials/fpn_poly_t.cpp: polynomials over GF(p^n), p a prime
   with p <= 46341.

   A [gfq p] (PFpn.v) is a finite field L with p^n elements generated by a root z of an
   irreducible polynomial gq_m of degree n over 'F_p; gq_el a is the fp_polymod_t object whose
   residue, evaluated at z, is a.  C85_field says that there is one for every irreducible
   polynomial, C85_elements that gq_el is the correspondence between the elements of L and
   the objects with modulus gq_m.

   [gq_enc G f] is the object that represents the mathcomp polynomial f over L: the list of
   its coefficients, constant term first, without zero leading coefficients; one zero for
   f = 0.  c is any state reachable for the cache inside intmod_t::recip (C10). *)
From Verif Require Import Base MIntMath MIntmod MMat MPoly MPolymod MFpnPoly PIntMath PIntMath2 PIntmod.
From mathcomp Require Import all_ssreflect fingroup perm all_algebra ssrZ.
From mathcomp Require Import finfield.
From Verif Require Import PMat PFp PFpGen PPoly PPoly2 PPoly3 PPoly4 PFpPoly PPolymod PFpn.
From Verif Require PropFpPoly PropFpPolymod PMono.
Set Implicit Arguments.
Unset Strict Implicit.
Unset Printing Implicit Defensive.
Import GRing.Theory.
Delimit Scope Z_scope with coqZ.
Local Open Scope ring_scope.

Definition gq_enc (p : nat) (G : gfq p) (f : {poly gq_L G}) : list fpc :=
  [seq gq_el a | a <- (if f == 0 then [:: 0] else polyseq f)].
(* the number of a field element: its residue read in base p *)
Definition gq_val (p : nat) (G : gfq p) (a : gq_L G) : nat := gval rv p (gm_res (gq_el a)).
(* the base-p^n value of a polynomial *)
Definition gq_num (p : nat) (G : gfq p) (f : {poly gq_L G}) : nat :=
  (\sum_(i < size f) gq_val (f`_i)%R * #|gq_L G| ^ i)%N.
(* the elements of the prime field *)
Definition gq_prime (p : nat) (G : gfq p) (a : gq_L G) : bool := [exists k : 'F_p, a == gq_emb G k].

(* the routines that do not use the unary minus of the coefficients *)
Section Same.
Variable c : cache.
Local Notation o := (fpn_kops c).
Local Notation o' := (fpn_kops' c).
Lemma same_recompute : gp_recompute o = gp_recompute o'. Proof. by []. Qed.
Lemma same_add : gp_add o = gp_add o'. Proof. by []. Qed.
Lemma same_mul : gp_mul o = gp_mul o'. Proof. by []. Qed.
Lemma same_quot_rem : gp_quot_rem o = gp_quot_rem o'. Proof. by []. Qed.
Lemma same_mod : gp_mod o = gp_mod o'. Proof. by []. Qed.
Lemma same_gcd : gp_gcd o = gp_gcd o'. Proof. by []. Qed.
Lemma same_exp : gp_exp o = gp_exp o'. Proof. by []. Qed.
Lemma same_set : gp_set_coeff o = gp_set_coeff o'. Proof. by []. Qed.
Import PMono.
Lemma ext_le a b : gp_ext_gcd o a b <~ gp_ext_gcd o' a b.
Proof.
apply: le_bind => [|one]; first exact: le_refl.
apply: le_bind => [|zero]; first exact: le_refl.
apply: le_loop => -[[[[[mp np] rm] rn] x] d]; rewrite /ext_step same_quot_rem same_mul.
apply: le_bind => [|qr]; first exact: le_refl.
apply: le_bind => [|[]]; try exact: le_refl.
apply: le_bind => [|qm]; first exact: le_refl.
apply: le_bind => [|rm']; first exact: sub_le.
apply: le_bind => [|qn]; first exact: le_refl.
by apply: le_bind => [|rn']; [exact: sub_le | exact: le_refl].
Qed.
(* the subtrahend is not longer *)
Lemma sub_same a b : (size b <= size a)%N -> gp_sub o a b = gp_sub o' a b.
Proof.
rewrite /gp_sub => h; suff -> : sub_l o a b = sub_l o' a b by [].
elim: a b h => [|x a IH] [|y b] //= h; by rewrite IH.
Qed.
End Same.

Lemma last_keep (A : Type) (o : kops A) (l : seq A) (x z c0 : A) : c_neqb (k_c o) x z = Ok true ->
  (r <- trim_top o z (List.rev (rcons l x)) ;; match r with [::] => Ok [:: c0] | _ => Ok (List.rev r) end) = Ok (rcons l x).
Proof.
move=> h; have -> : List.rev (rcons l x) = x :: List.rev l by rewrite -cats1 -[cat _ _]/(app _ _) List.rev_app_distr.
by rewrite /= h /= List.rev_involutive -cats1.
Qed.

Section T.
Variable p : nat.
Hypothesis pp : prime p.
Hypothesis hP : (Z.of_nat p <= 46341)%coqZ.
Variable c : cache.
Hypothesis hc : cache_valid c.
Variable G : gfq p.
Local Notation L := (gq_L G).
Local Notation m := (gq_m G).
Local Notation V := (Vq m).
Local Notation I := (@Iq p L (gq_emb G) (gq_z G)).
Local Notation oi := (im_kops c).
Local Notation o := (fpn_kops c).
Local Notation o' := (fpn_kops' c).
Local Notation enc := (@gq_enc p G).
Local Notation el := (@gq_el p G).
Let sp : kspec o' V I (kq p) := fpn_kspec pp hP hc (gq_irr G) (gq_root G) (gq_card G).
Let si := im_kspec pp hP hc.
Let mnz := m_neq0 (gq_irr G).
Implicit Types f g h : {poly L}.

Lemma el_M a : exists r, isM (Vp p) (Ip p) (el a) r m /\ ev (gq_emb G) (gq_z G) r = a.
Proof.
have [r -> <-] := gq_elP a; exists (r %% m); split; last exact: (ev_mod (gq_root G)).
exact: PropFpPolymod.mencM.
Qed.
Lemma elR a : R V I (el a) a.
Proof. by have [r [h e]] := el_M a; exact: (VqI h e). Qed.
Lemma encG f : isG V I (enc f) f.
Proof.
rewrite /isG /enc -/(cseq f); elim: (cseq f) => [|a s IH] /=; constructor => //; exact: elR.
Qed.
Lemma Genc l f : isG V I l f -> l = enc f.
Proof. by move=> h; apply: (isG_uniq sp h (encG f)). Qed.
Lemma Rel x a : R V I x a -> x = el a.
Proof. by case=> vx ix; have [v i] := elR a; apply: (ks_inj sp) => //; rewrite i. Qed.
Lemma okG (e : res gpoly) f : (exists r, e = Ok r /\ isG V I r f) -> e = Ok (enc f).
Proof. by case=> r [-> h]; rewrite (Genc h). Qed.
Lemma okR e a : (exists r, e = Ok r /\ R V I r a) -> e = Ok (el a).
Proof. by case=> r [-> h]; rewrite (Rel h). Qed.
Lemma enc_inj : injective enc.
Proof. by move=> f g e; apply: isG_fun (encG f) _; rewrite e; apply: encG. Qed.
Lemma size_enc f : size (enc f) = maxn 1 (size f).
Proof. exact: isG_size (encG f). Qed.

Lemma t_ring f g a :
  gp_add o (enc f) (enc g) = Ok (enc (f + g)) /\
  gp_mul o (enc f) (enc g) = Ok (enc (f * g)) /\
  gp_addc o (enc f) (el a) = Ok (enc (f + a%:P)) /\ gp_subc o (enc f) (el a) = Ok (enc (f - a%:P)) /\
  gp_mulc o (enc f) (el a) = Ok (enc (a *: f)) /\
  (a != 0 -> gp_divc o (enc f) (el a) = Ok (enc (a^-1 *: f))).
Proof.
have hf := encG f; have hg := encG g; have ha := elR a.
split; first by rewrite same_add; apply: okG (add_ok sp hf hg).
split; first by rewrite same_mul; apply: okG (mul_ok sp hf hg).
split; first by apply: okG (addc_ok sp hf ha).
split; first by apply: okG (subc_ok sp hf ha).
split; first by apply: okG (mulc_ok sp hf ha).
by move=> a0; apply: okG (divc_ok sp hf ha a0).
Qed.
Lemma t_coef a b :
  gm_add oi (el a) (el b) = Ok (el (a + b)) /\ gm_sub oi (el a) (el b) = Ok (el (a - b)) /\
  gm_mul oi (el a) (el b) = Ok (el (a * b)) /\ (b != 0 -> gm_div oi (el a) (el b) = Ok (el (a / b))) /\
  gm_eqb oi (el a) (el b) = Ok (a == b).
Proof.
have [va ia] := elR a; have [vb ib] := elR b; have sc := ks_c sp.
split; first by apply: okR; have := cs_add sc va vb; rewrite ia ib.
split; first by apply: okR; have := cs_sub sc va vb; rewrite ia ib.
split; first by apply: okR; have := cs_mul sc va vb; rewrite ia ib.
split; first by move=> b0; apply: okR; have := cs_div sc va vb; rewrite ia ib; apply.
by have := cs_eqb sc va vb; rewrite ia ib.
Qed.
Lemma t_make a b d : gp_const o (el a) = Ok (enc a%:P) /\ gp_linear o (el a) (el b) = Ok (enc (a *: 'X + b%:P)) /\
  gp_quadratic o (el a) (el b) (el d) = Ok (enc (a *: 'X^2 + b *: 'X + d%:P)).
Proof.
split; first by apply: okG (const_ok sp (elR a)).
split; first by apply: okG (linear_ok sp (elR a) (elR b)).
by apply: okG (quadratic_ok sp (elR a) (elR b) (elR d)).
Qed.
Lemma t_int f v : (INT_MIN < v <= INT_MAX)%coqZ -> gp_int o (enc f) v = Ok (enc ((int_of_Z v)%:~R)%:P).
Proof. by move=> hv; apply: okG (int_ok sp (encG f) hv). Qed.
Lemma t_quot f g : g != 0 -> gp_quot_rem o (enc f) (enc g) = Ok (enc (f %/ g), enc (f %% g)).
Proof.
rewrite same_quot_rem.
by move=> h; have [a [b [e [h1 h2]]]] := quot_rem_ok sp (encG f) (encG g) h; rewrite e (Genc h1) (Genc h2).
Qed.
Lemma t_quot0 f : gp_quot_rem o (enc f) (enc 0) = Exn.
Proof. rewrite same_quot_rem; exact: (quot_rem_0 sp (encG f) (encG 0)). Qed.
Lemma t_gcd f g : exists d, gp_gcd o (enc f) (enc g) = Ok (enc d) /\ d %= gcdp f g.
Proof. by rewrite same_gcd; have [r [d [e [h1 h2]]]] := gcd_ok sp (encG f) (encG g); exists d; rewrite e (Genc h1). Qed.
Lemma t_exp f e : (1 < size f)%N -> (0 <= e <= INT_MAX)%coqZ -> gp_exp o (enc f) e = Ok (enc (f ^+ Z.to_nat e)).
Proof. by rewrite same_exp => h he; apply: okG (exp_ok sp (encG f) h he). Qed.
Lemma t_exp_neg f e : (1 < size f)%N -> (e < 0)%coqZ -> gp_exp o (enc f) e = Exn.
Proof. by rewrite same_exp => h he; exact: (exp_neg sp (encG f) h he). Qed.
Lemma t_exp_const a e : a != 0 -> (INT_MIN < e <= INT_MAX)%coqZ -> gp_exp o (enc a%:P) e = Ok (enc (a ^ int_of_Z e)%:P).
Proof. by rewrite same_exp => h he; apply: okG (exp_const sp (encG _) h he). Qed.
Lemma t_exp_zero e : gp_exp o (enc 0) e = if Z.leb e 0 then Exn else Ok (enc 0).
Proof. by rewrite same_exp; have := exp_zero sp e (encG 0); case: ifP => // _ h; apply: okG h. Qed.
Lemma t_eval f a : gp_eval o (enc f) (el a) = Ok (el f.[a]).
Proof. by apply: okR (eval_ok sp (encG f) (elR a)). Qed.
Lemma t_get f k : gp_get_coeff o (enc f) k = if Z.ltb k 0 then Exn else Ok (el f`_(Z.to_nat k)).
Proof.
case: Z.ltb_spec => h; first exact: get_coeff_neg.
by rewrite -{1}(Z2Nat.id k h); apply: okR (get_coeff_ok sp _ (encG f)).
Qed.
Lemma t_set f k a : gp_set_coeff o (enc f) k (el a) =
  if Z.ltb k 0 then Exn else Ok (enc (f + (a - f`_(Z.to_nat k)) *: 'X^(Z.to_nat k))).
Proof.
rewrite same_set; case: Z.ltb_spec => h; first exact: set_coeff_neg.
by rewrite -{1}(Z2Nat.id k h); apply: okG (set_coeff_ok sp _ (encG f) (elR a)).
Qed.
Lemma t_promote f a : f != 0 -> gp_promote o (enc f) = Ok (enc (f * 'X)) /\
  gp_promote_and_add o (enc f) (el a) = Ok (enc (f * 'X + a%:P)).
Proof.
by move=> h; split; [apply: okG (promote_ok sp (encG f) h) | apply: okG (promote_add_ok sp (encG f) h (elR a))].
Qed.

(* extended gcd: undefined or right *)
Lemma t_ext f g : g != 0 -> gp_ext_gcd o (enc f) (enc g) = UB \/
  exists d u v, gp_ext_gcd o (enc f) (enc g) = Ok (enc d, enc u, enc v) /\ d %= gcdp f g /\ u * f + v * g = d.
Proof.
move=> h; have [->|->] := ext_le c (enc f) (enc g); first by left.
right; have [a [b [d [D [U [W [e [h1 [h2 [h3 [h4 h5]]]]]]]]]]] := ext_gcd_ok sp (encG f) (encG g) h.
by exists D, U, W; rewrite e (Genc h1) (Genc h2) (Genc h3).
Qed.

(* unary minus of a coefficient and of a polynomial *)
Lemma prime_size a r : isM (Vp p) (Ip p) (el a) r m -> ev (gq_emb G) (gq_z G) r = a -> gq_prime a = (size r <= 1)%N.
Proof.
move=> hr ea; apply/existsP/idP => [[k /eqP ek]|h].
  have : r = k%:P; last by move=> ->; exact: size_polyC_leq1.
  apply: (ev_inj (gq_irr G) (gq_root G) hr.2.2); last by rewrite ea ek evC.
  by apply: leq_ltn_trans (size_polyC_leq1 k) _; exact: msz (gq_irr G).
by exists r`_0; rewrite -ea {1}(size1_polyC h) evC.
Qed.
Lemma t_neg_coef a : gm_neg oi (el a) = if gq_prime a then Ok (el (- a)) else UB.
Proof.
have [r [hr ea]] := el_M a; rewrite (prime_size hr ea); case: leqP => h; last exact: (gneg_ub _ hr h).
by apply: okR; have [y [-> hy]] := gneg_ok si hr h; exists y; split=> //; apply: (VqI hy); rewrite evN ea.
Qed.
Lemma t_neg'_coef a : neg' c (el a) = Ok (el (- a)).
Proof. by apply: okR; have [va ia] := elR a; have := cs_neg (ks_c sp) va; rewrite ia. Qed.
Lemma negs (s : seq L) : mapM (c_neg (k_c o)) (map el s) =
  if all (@gq_prime p G) s then mapM (c_neg (k_c o')) (map el s) else UB.
Proof.
elim: s => [//|a s IH]; rewrite [map _ _]/= [all _ _]/= [LHS]/= [mapM (c_neg (k_c o')) _]/=.
rewrite t_neg_coef t_neg'_coef; case: (gq_prime a) => //=.
by move: IH => /= ->; case: (all _ s).
Qed.
Lemma subs (s t : seq L) : sub_l o (map el s) (map el t) =
  if all (@gq_prime p G) (drop (size s) t) then sub_l o' (map el s) (map el t) else UB.
Proof.
elim: s t => [|a s IH] [|b t]; [by [] | exact: (negs (b :: t)) | by [] |].
rewrite [drop _ _]/= [LHS]/= [sub_l o' _ _]/=; have [_ [-> _]] := t_coef a b.
by rewrite !bind_ok; move: (IH t) => /= ->; case: (all _ _).
Qed.
Lemma sub_list f g : gp_sub o (enc f) (enc g) = if all (@gq_prime p G) (drop (maxn 1 (size f)) g) then Ok (enc (f - g)) else UB.
Proof.
have -> : all (@gq_prime p G) (drop (maxn 1 (size f)) g) = all (@gq_prime p G) (drop (size (cseq f)) (cseq g)).
  rewrite size_cseq /cseq; case: eqP => [->|//]; rewrite polyseq0 /=.
  by case: (maxn 1 (size f)) (leq_maxl 1 (size f)).
rewrite /gp_sub /enc -[map _ _]/(map el (cseq f)) -[map _ (if g == 0 then _ else _)]/(map el (cseq g)) subs.
case: ifP => // _; rewrite same_recompute; exact: okG (sub_ok sp (encG f) (encG g)).
Qed.
Lemma t_sub f g : (forall i, (maxn 1 (size f) <= i)%N -> gq_prime g`_i) -> gp_sub o (enc f) (enc g) = Ok (enc (f - g)).
Proof.
move=> h; rewrite sub_list (_ : all _ _) //; apply/(all_nthP 0) => i hi.
by rewrite nth_drop; apply: h; exact: leq_addr.
Qed.
Lemma prime0 : gq_prime (0 : L).
Proof. by apply/existsP; exists 0; rewrite rmorph0. Qed.
Lemma t_sub_ub f g i : (maxn 1 (size f) <= i)%N -> ~~ gq_prime g`_i -> gp_sub o (enc f) (enc g) = UB.
Proof.
move=> hi hn; rewrite sub_list (_ : all _ _ = false) //; apply/negbTE/negP => /(all_nthP 0) h.
have hg : (i < size g)%N by rewrite ltnNge; apply: contra hn => /(nth_default 0) ->; exact: prime0.
have := h (i - maxn 1 (size f))%N; rewrite nth_drop subnKC // (negbTE hn) => k; apply: notF; apply: k.
by rewrite size_drop ltn_sub2r //; exact: leq_ltn_trans hi hg.
Qed.
Lemma t_neg f : gp_neg o (enc f) = if (size f <= 1)%N && gq_prime f`_0 then Ok (enc (- f)) else UB.
Proof.
case: leqP => h /=; last exact: (neg_ub _ (encG f) h).
have e : cseq f = [:: f`_0].
  rewrite (size1_polyC h) coefC eqxx /cseq polyC_eq0; case: eqP => [->//|/eqP h0]; by rewrite polyseqC h0.
rewrite /enc -[map _ _]/(map el (cseq f)) e /gp_neg /= t_neg_coef; case: ifP => // _; rewrite bind_ok.
have -> : [:: el (- f`_0)] = enc (- f) by apply: Genc; have [r [e1 h1]] := neg_ok sp (encG f) h;
  move: e1; rewrite /enc -[map _ _]/(map el (cseq f)) e /gp_neg /= t_neg'_coef bind_ok => -[->].
by [].
Qed.

(* order *)
Lemma L_gt1 : (1 < #|L|)%N.
Proof.
by rewrite gq_card -{1}(expn0 p) ltn_exp2l ?prime_gt1 //; have := msz (gq_irr G); case: (size m) => [|[]].
Qed.
Lemma kqlt x : V x -> (kq p x < #|L|)%N.
Proof.
move=> [r hr]; rewrite gq_card /kq.
have hV : List.Forall (Vp p) (gm_res x).
  by case: hr => h _; move: h; rewrite /isG; elim=> [|u a l s [vu _] _ IH]; constructor.
have hlt : (gval rv p (gm_res x) < p ^ size (gm_res x))%N by apply: gval_lt hV; exact: rv_lt.
apply: leq_trans hlt _; rewrite leq_exp2l ?prime_gt1 //.
rewrite (isG_size hr.1) geq_max; have := msz (gq_irr G); have := hr.2.2; case: (size m) => [|[|k]] //.
Qed.
Lemma num0 (r : {poly 'F_p}) : (PropFpPoly.fp_num r == 0)%N = (r == 0).
Proof.
apply/eqP/eqP => [h|->]; last by rewrite /PropFpPoly.fp_num size_poly0 big_ord0.
by apply: (PropFpPoly.num_inj pp hP hc); rewrite h /PropFpPoly.fp_num size_poly0 big_ord0.
Qed.
Lemma kq0 x : V x -> (kq p x == 0)%N = (I x == 0).
Proof.
move=> [r hr]; rewrite (Iq_ev _ _ hr) (ev_eq0 (gq_irr G) (gq_root G) hr.2.2) (kq_num pp hP hc hr).
exact: num0.
Qed.
Lemma num_gval f : gval (kq p) #|L| (enc f) = gq_num f.
Proof.
have h (s : seq L) : gval (kq p) #|L| (map el s) = (\sum_(i < size s) gq_val (s`_i)%R * #|L| ^ i)%N.
  elim: s => [|a s IH]; first by rewrite big_ord0.
  rewrite big_ord_recl /= expn0 muln1 -/(gval (kq p) _ _) IH big_distrr /=; congr (_ + _)%N.
  by apply: eq_bigr => i _; rewrite /bump /= add1n expnS mulnCA.
rewrite /gq_num /enc -[map _ _]/(map el _) h; case: eqP => [->|//].
rewrite size_poly0 big_ord0 big_ord_recl big_ord0 /= addn0 expn0 muln1.
have [v0 i0] := elR 0; apply/eqP; rewrite -[gq_val 0]/(kq p (el 0)) (kq0 v0) i0; exact/eqP.
Qed.
Lemma t_cmp f g :
  gp_eqb o (enc f) (enc g) = Ok (f == g) /\ gp_neqb o (enc f) (enc g) = Ok (f != g) /\
  gp_ltb o (enc f) (enc g) = Ok (gq_num f < gq_num g)%N /\ gp_gtb o (enc f) (enc g) = Ok (gq_num g < gq_num f)%N /\
  gp_leb o (enc f) (enc g) = Ok (gq_num f <= gq_num g)%N /\ gp_geb o (enc f) (enc g) = Ok (gq_num g <= gq_num f)%N.
Proof.
have := cmp_val sp L_gt1 kqlt kq0 (encG f) (encG g); rewrite !num_gval.
case=> _ [_ h]; split; first exact: (eqb_ok sp (encG f) (encG g)).
by split; first exact: (neqb_ok sp (encG f) (encG g)).
Qed.
Lemma num_inj : injective (@gq_num p G).
Proof.
move=> f g e; have := cmp_val sp L_gt1 kqlt kq0 (encG f) (encG g); rewrite !num_gval.
by case=> h _; move: h; rewrite (eqb_ok sp (encG f) (encG g)) e eqxx => -[/eqP].
Qed.

(* products with an integer modulo p scale the moduli of the coefficients *)
Definition scmod (k : 'F_p) (a : L) : fpc := mkgm (gm_res (el a)) (PropFpPoly.fp_enc (k *: m)).
Lemma el_mod a : gm_mod (el a) = PropFpPoly.fp_enc m.
Proof. by have [r [[_ [h _]] _]] := el_M a; exact: (PropFpPoly.Genc pp hP hc h). Qed.
Lemma mul_coef a k : gm_mul_coef oi (el a) (PropFpPoly.fp_el k) = Ok (scmod k a).
Proof.
rewrite /gm_mul_coef el_mod.
by have [_ [_ [_ [_ [_ [-> _]]]]]] := PropFpPoly.t_ring pp hP hc m 0 k; rewrite bind_ok.
Qed.
Lemma scmod1 a : scmod 1 a = el a.
Proof. by rewrite /scmod scale1r -(el_mod a); case: (el a). Qed.
Lemma scmod_M k a : k != 0 -> exists r, isM (Vp p) (Ip p) (scmod k a) r (k *: m) /\ ev (gq_emb G) (gq_z G) r = a.
Proof.
move=> k0; have [r [hr ea]] := el_M a; exists r; split=> //; split; first exact: hr.1.
by split; [exact: PropFpPoly.encG | rewrite size_scale //; exact: hr.2.2].
Qed.
Lemma scmods k (s : seq L) : mapM (fun x => gm_mul_coef oi x (PropFpPoly.fp_el k)) (map el s) = Ok (map (scmod k) s).
Proof. by elim: s => [//|a s IH] /=; rewrite mul_coef bind_ok IH bind_ok. Qed.
Lemma head_last (f : {poly L}) : f != 0 -> exists s a, cseq f = rcons s a /\ a != 0.
Proof.
move=> f0; rewrite /cseq (negbTE f0).
have : last 0 f != 0 by rewrite -nth_last -lead_coefE lead_coef_eq0.
have : (0 < size f)%N by rewrite size_poly_gt0.
case: (lastP (polyseq f)) => [//|s a] _; rewrite last_rcons => a0; by exists s, a.
Qed.
Lemma t_mul_intmod f k : k != 0 -> fpn_mul_intmod c (enc f) (PropFpPoly.fp_el k) = Ok (map (scmod k) (cseq f)).
Proof.
move=> k0; rewrite /fpn_mul_intmod /enc -[map _ _]/(map el (cseq f)) scmods bind_ok.
rewrite /gp_recompute; have [a0 [s es]] : exists a s, cseq f = a :: s.
  by case: (cseq f) (cseq_ge1 f) => [//|a s] _; exists a, s.
rewrite {1}es [map _ _]/= [getk _ _]/= bind_ok.
have [r [hr ea]] := scmod_M a0 k0; have [w [ew hw]] := gsub_ok si hr hr; rewrite subrr in hw.
rewrite [c_sub _]/= ew bind_ok.
case: (altP (f =P 0)) => [f0|f0].
  move: es; rewrite f0 /cseq eqxx => -[e1 e2]; rewrite -e1 in ea hr ew *; rewrite /= /c_neqb [c_eqb _]/=.
  have r0 : r = 0.
    by apply/eqP; rewrite -(ev_eq0 (gq_irr G) (gq_root G)) ?ea ?eqxx //; have := hr.2.2; rewrite size_scale.
  by rewrite (geqb_ok si hr hw) r0 eqxx.
have [u [b [eu b0]]] := head_last f0; rewrite eu map_rcons.
have [t [ht eb]] := scmod_M b k0; rewrite last_keep // /c_neqb [c_eqb _]/= (geqb_ok si ht hw).
suff -> : (t == 0) = false by [].
by apply/negbTE; rewrite -(ev_eq0 (gq_irr G) (gq_root G)) ?eb //; have := ht.2.2; rewrite size_scale.
Qed.
Lemma t_mul_intmod0 f : fpn_mul_intmod c (enc f) (PropFpPoly.fp_el (0 : 'F_p)) = Exn.
Proof.
rewrite /fpn_mul_intmod /enc -[map _ _]/(map el (cseq f)) scmods bind_ok.
rewrite /gp_recompute; have [a0 [s es]] : exists a s, cseq f = a :: s.
  by case: (cseq f) (cseq_ge1 f) => [//|a s] _; exists a, s.
rewrite {1}es [map _ _]/= [getk _ _]/= bind_ok [c_sub _]/= /gm_sub /gm_check /scmod /= scale0r.
have h0 := PropFpPoly.encG pp (0 : {poly 'F_p}).
rewrite (neqb_ok si h0 h0) bind_ok eqxx; have [r [hr _]] := el_M a0.
by have [x [-> hx]] := sub_ok si hr.1 hr.1; rewrite bind_ok (make_0 si hx h0).
Qed.

(* the characteristic *)
Lemma t_char f : fpn_characteristic (enc f) = Ok (Z.of_nat p).
Proof.
rewrite /fpn_characteristic; have [x [-> [[r hr] _]]] := isG_get0 (encG f); rewrite bind_ok.
by have [y [-> hy]] := isG_get0 hr.1; rewrite bind_ok (PropFpPoly.Rel pp hy).
Qed.
(* the square root for characteristic p never returns *)
Lemma t_root f : fpn_pth_root c (enc f) = Exn.
Proof.
rewrite /fpn_pth_root t_char bind_ok /gp_root; have [x [-> [vx _]]] := isG_get0 (encG f); rewrite bind_ok.
have [//|y [-> hy]] := ks_int (v := 0) sp vx; rewrite bind_ok /gp_set_coeff.
by case: Z.ltb_spec.
Qed.
(* the derivative *)
Lemma deriv_s (s : seq L) (i : nat) : (Z.of_nat i + Z.of_nat (size s) <= INT_MAX)%coqZ ->
  fpn_deriv_l c (Z.of_nat p) (map el s) (Z.of_nat i) = Ok (mkseq (fun j => scmod (i + j)%:R s`_j) (size s)).
Proof.
elim: s i => [//|a s IH] i hi; rewrite [map _ _]/= [fpn_deriv_l _ _ _ _]/=.
have [|x [-> hx]] := V_make pp hP (z := Z.of_nat i).
  by move: hi; rewrite /= /INT_MIN; lia.
rewrite bind_ok (PropFpPoly.Rel pp hx) mul_coef bind_ok.
have -> : (Z.of_nat i + 1)%coqZ = Z.of_nat i.+1 by lia.
rewrite IH; last by move: hi; rewrite [size (_ :: _)]/= !Nat2Z.inj_succ; clear; lia.
rewrite bind_ok /mkseq [size _]/= [iota 0 _]/= [map _ (_ :: _)]/= addn0 int_nat; congr (Ok (_ :: _)).
rewrite -[X in _ = map _ X]/(iota (1 + 0) (size s)) (iotaDl 1 0) -map_comp; apply: eq_map => j /=; by rewrite add1n addSnnS.
Qed.
Lemma t_deriv f : (1 < size f)%N -> (Z.of_nat (size f) <= INT_MAX)%coqZ ->
  fpn_deriv c (enc f) = Ok (mkseq (fun i => scmod (i.+1)%:R f`_i.+1) (size f).-1).
Proof.
move=> h1 hs; have f0 : f != 0 by rewrite -size_poly_gt0; exact: ltnW.
have hch := t_char f; rewrite /fpn_deriv; move: hch.
rewrite /enc (negbTE f0) -[map _ _]/(map el f); have [u [b [eu b0]]] := head_last f0.
move: eu; rewrite /cseq (negbTE f0); move: h1 hs; case: (polyseq f) => [//|a [//|a1 s]] _ hs eu hch.
rewrite -[map el _]/(el a :: el a1 :: map el s) in hch *; rewrite hch bind_ok.
rewrite -[el a1 :: map el s]/(map el (a1 :: s)) -[1%coqZ]/(Z.of_nat 1).
rewrite deriv_s; last by move: hs; rewrite [size (a :: _)]/= [size (a1 :: _)]/= !Nat2Z.inj_succ; clear; lia.
rewrite bind_ok -[(size (a :: _)).-1]/(size (a1 :: s)).
rewrite (_ : mkseq (fun i => scmod (i.+1)%:R (a :: a1 :: s)`_i.+1) _ = mkseq (fun j => scmod (1 + j)%:R (a1 :: s)`_j) (size (a1 :: s))) //.
rewrite /gp_recompute [getk _ _]/= bind_ok addn0 scmod1 [c_sub _]/=.
have [_ [-> _]] := t_coef a1 a1; rewrite subrr bind_ok.
rewrite [size _]/= /mkseq -[(size s).+1]addn1 iotaD map_cat [map _ (iota _ 1)]/= cats1 add0n last_keep //.
have -> : (a1 :: s)`_(size s) = b.
  by rewrite -[size s]/((size (a1 :: s)).-1) nth_last -[b](last_rcons 0 u) -eu.
have [r [hr er]] := el_M b; have [t [ht et]] := el_M 0.
rewrite /c_neqb [c_eqb _]/= /gm_eqb [gm_res (scmod _ _)]/= (neqb_ok si hr.1 ht.1) bind_ok.
suff -> : r != t by [].
by apply/eqP => e; move/eqP: b0; apply; rewrite -er e et.
Qed.
End T.

Section Final.
Variables (p : nat) (c : cache).
Hypothesis pp : prime p.
Hypothesis hP : (Z.of_nat p <= 46341)%coqZ.
Hypothesis hc : cache_valid c.
Variable G : gfq p.
Local Notation L := (gq_L G).
Local Notation enc := (@gq_enc p G).
Local Notation el := (@gq_el p G).
Local Notation oi := (im_kops c).
Local Notation o := (fpn_kops c).

(* C85: the coefficients are the elements of the field *)
Theorem C85_elements : injective el /\
  forall r : {poly 'F_p}, PropFpPolymod.fp_menc (gq_m G) r = el (map_poly (gq_emb G) r).[gq_z G].
Proof.
split=> [a b e|r].
  by have [_ <-] := elR pp a; have [_ <-] := elR pp b; rewrite e.
apply: (Rel pp hP hc); have h := PropFpPolymod.mencM pp r (m_neq0 (gq_irr G)).
by apply: (VqI h); exact: (ev_mod (gq_root G)).
Qed.
Theorem C85_coefficients : forall a b : L,
  gm_add oi (el a) (el b) = Ok (el (a + b)) /\ gm_sub oi (el a) (el b) = Ok (el (a - b)) /\
  gm_mul oi (el a) (el b) = Ok (el (a * b)) /\ (b != 0 -> gm_div oi (el a) (el b) = Ok (el (a / b))) /\
  gm_eqb oi (el a) (el b) = Ok (a == b).
Proof. exact: (t_coef pp hP hc). Qed.
(* ring operations and operations with a coefficient *)
Theorem C85_ring : forall (f g : {poly L}) (a : L),
  gp_add o (enc f) (enc g) = Ok (enc (f + g)) /\
  gp_mul o (enc f) (enc g) = Ok (enc (f * g)) /\
  gp_addc o (enc f) (el a) = Ok (enc (f + a%:P)) /\ gp_subc o (enc f) (el a) = Ok (enc (f - a%:P)) /\
  gp_mulc o (enc f) (el a) = Ok (enc (a *: f)) /\
  (a != 0 -> gp_divc o (enc f) (el a) = Ok (enc (a^-1 *: f))).
Proof. exact: (t_ring pp hP hc). Qed.
Theorem C85_canonical : injective enc.
Proof. exact: (enc_inj pp). Qed.
(* the difference is right if the coefficients of g that have no counterpart in f are in the
   prime field, and undefined otherwise: they are negated by the unary minus of fp_polymod_t *)
Theorem C85_sub_partial : forall f g : {poly L}, (forall i, (maxn 1 (size f) <= i)%N -> gq_prime g`_i) ->
  gp_sub o (enc f) (enc g) = Ok (enc (f - g)).
Proof. exact: (t_sub pp hP hc). Qed.
Corollary C85_sub_degree_partial : forall f g : {poly L}, (size g <= maxn 1 (size f))%N ->
  gp_sub o (enc f) (enc g) = Ok (enc (f - g)).
Proof.
move=> f g h; apply: C85_sub_partial => i hi; rewrite nth_default; first exact: prime0.
exact: leq_trans h hi.
Qed.
Theorem C85_sub_refuted : forall (f g : {poly L}) i, (maxn 1 (size f) <= i)%N -> ~~ gq_prime g`_i ->
  gp_sub o (enc f) (enc g) = UB.
Proof. exact: (t_sub_ub pp hP hc). Qed.
(* unary minus: of constants in the prime field only *)
Theorem C85_neg_partial : forall f : {poly L}, (size f <= 1)%N -> gq_prime f`_0 -> gp_neg o (enc f) = Ok (enc (- f)).
Proof. by move=> f h1 h2; rewrite (t_neg pp hP hc) h1 h2. Qed.
Theorem C85_neg_refuted : forall f : {poly L}, (1 < size f)%N || ~~ gq_prime f`_0 -> gp_neg o (enc f) = UB.
Proof. by move=> f h; rewrite (t_neg pp hP hc) leqNgt; case: (1 < size f)%N h => //= /negbTE ->. Qed.
Theorem C85_make : forall a b d : L, gp_const o (el a) = Ok (enc a%:P) /\
  gp_linear o (el a) (el b) = Ok (enc (a *: 'X + b%:P)) /\
  gp_quadratic o (el a) (el b) (el d) = Ok (enc (a *: 'X^2 + b *: 'X + d%:P)).
Proof. exact: (t_make pp hP hc). Qed.
(* integers, from an object or from the modulus of the coefficients *)
Theorem C85_int : forall (f : {poly L}) v, (INT_MIN < v <= INT_MAX)%coqZ ->
  gp_int o (enc f) v = Ok (enc ((int_of_Z v)%:~R)%:P) /\
  fpn_int_mod c v (PropFpPoly.fp_enc (gq_m G)) = Ok (enc ((int_of_Z v)%:~R)%:P).
Proof.
move=> f v hv; split; first exact: (t_int pp hP hc).
rewrite /fpn_int_mod (PropFpPoly.t_get pp hP hc) bind_ok [modulus _]/=.
have [x [-> hx]] := V_make pp hP hv; rewrite bind_ok.
have si := im_kspec pp hP hc; have [l [-> hl]] := const_ok si hx; rewrite bind_ok.
have [k [-> hk]] := make_ok si hl (PropFpPoly.encG pp _) (m_neq0 (gq_irr G)); rewrite bind_ok.
have -> : k = el ((int_of_Z v)%:~R); last by have [-> _] := t_make pp hP hc ((int_of_Z v)%:~R : L) 0 0.
by apply: (Rel pp hP hc); apply: (VqI hk); rewrite (ev_mod (gq_root G)) evC -cast_emb.
Qed.
Theorem C85_characteristic : forall f : {poly L}, fpn_characteristic (enc f) = Ok (Z.of_nat p).
Proof. exact: (t_char pp). Qed.
Theorem C85_exp : forall (f : {poly L}) e, (1 < size f)%N -> (0 <= e <= INT_MAX)%coqZ ->
  gp_exp o (enc f) e = Ok (enc (f ^+ Z.to_nat e)).
Proof. exact: (t_exp pp hP hc). Qed.
Theorem C85_exp_negative : forall (f : {poly L}) e, (1 < size f)%N -> (e < 0)%coqZ -> gp_exp o (enc f) e = Exn.
Proof. exact: (t_exp_neg pp hP hc). Qed.
Theorem C85_exp_const : forall (a : L) e, a != 0 -> (INT_MIN < e <= INT_MAX)%coqZ ->
  gp_exp o (enc a%:P) e = Ok (enc (a ^ int_of_Z e)%:P).
Proof. exact: (t_exp_const pp hP hc). Qed.
Theorem C85_exp_zero : forall e, gp_exp o (enc 0) e = if Z.leb e 0 then Exn else Ok (enc 0).
Proof. exact: (t_exp_zero pp hP hc G). Qed.
(* division and gcd *)
Theorem C85_quot_rem : forall f g : {poly L}, g != 0 ->
  exists q r, gp_quot_rem o (enc f) (enc g) = Ok (enc q, enc r) /\ f = q * g + r /\ (size r < size g)%N /\
    gp_div o (enc f) (enc g) = Ok (enc q) /\ gp_mod o (enc f) (enc g) = Ok (enc r).
Proof.
move=> f g g0; exists (f %/ g), (f %% g); have e := t_quot pp hP hc f g0.
by rewrite /gp_div /gp_mod e -divp_eq ltn_modp.
Qed.
Theorem C85_quot_rem_zero : forall f : {poly L}, gp_quot_rem o (enc f) (enc 0) = Exn.
Proof. exact: (t_quot0 pp hP hc). Qed.
Theorem C85_gcd : forall f g : {poly L}, exists d, gp_gcd o (enc f) (enc g) = Ok (enc d) /\
    d %| f /\ d %| g /\ forall h : {poly L}, h %| f -> h %| g -> h %| d.
Proof.
move=> f g; have [d [e h]] := t_gcd pp hP hc f g; exists d; split=> //.
rewrite !(eqp_dvdl _ h) dvdp_gcdl dvdp_gcdr; split=> //; split=> // k h1 h2.
by rewrite (eqp_dvdr _ h) dvdp_gcd h1.
Qed.
(* missing: it may be undefined, see C85_ext_gcd_refuted *)
Theorem C85_ext_gcd_partial : forall f g : {poly L}, g != 0 -> gp_ext_gcd o (enc f) (enc g) = UB \/
  exists d u v, gp_ext_gcd o (enc f) (enc g) = Ok (enc d, enc u, enc v) /\
    u * f + v * g = d /\ d %| f /\ d %| g.
Proof.
move=> f g g0; have [->|[d [u [v [e [h1 h2]]]]]] := t_ext pp hP hc f g0; first by left.
right; exists d, u, v; split=> //; split=> //.
by rewrite !(eqp_dvdl _ h1) dvdp_gcdl dvdp_gcdr.
Qed.
(* order *)
Theorem C85_compare : forall f g : {poly L},
  gp_eqb o (enc f) (enc g) = Ok (f == g) /\ gp_neqb o (enc f) (enc g) = Ok (f != g) /\
  gp_ltb o (enc f) (enc g) = Ok (gq_num f < gq_num g)%N /\ gp_gtb o (enc f) (enc g) = Ok (gq_num g < gq_num f)%N /\
  gp_leb o (enc f) (enc g) = Ok (gq_num f <= gq_num g)%N /\ gp_geb o (enc f) (enc g) = Ok (gq_num g <= gq_num f)%N.
Proof. exact: (t_cmp pp hP hc). Qed.
Theorem C85_num_injective : injective (@gq_num p G).
Proof. exact: (num_inj pp hP hc). Qed.
(* evaluation, coefficients *)
Theorem C85_eval : forall (f : {poly L}) (a : L), gp_eval o (enc f) (el a) = Ok (el f.[a]).
Proof. exact: (t_eval pp hP hc). Qed.
Theorem C85_get_coeff : forall (f : {poly L}) k, gp_get_coeff o (enc f) k = if Z.ltb k 0 then Exn else Ok (el f`_(Z.to_nat k)).
Proof. exact: (t_get pp hP hc). Qed.
Theorem C85_set_coeff : forall (f : {poly L}) k (a : L), (0 <= k)%coqZ ->
  exists g, gp_set_coeff o (enc f) k (el a) = Ok (enc g) /\
    forall i, g`_i = if i == Z.to_nat k then a else f`_i.
Proof.
move=> f k a hk; eexists; split; first by rewrite (t_set pp hP hc) //; case: Z.ltb_spec => //; lia.
move=> i; rewrite coefD coefZ coefXn; case: eqP => [->|_]; last by rewrite mulr0 addr0.
by rewrite mulr1 addrC subrK.
Qed.
Theorem C85_set_coeff_negative : forall (f : {poly L}) k (a : L), (k < 0)%coqZ ->
  gp_set_coeff o (enc f) k (el a) = Exn.
Proof. move=> f k a; exact: set_coeff_neg. Qed.
Theorem C85_promote_partial : forall (f : {poly L}) (a : L), f != 0 -> gp_promote o (enc f) = Ok (enc (f * 'X)) /\
  gp_promote_and_add o (enc f) (el a) = Ok (enc (f * 'X + a%:P)).
Proof. exact: (t_promote pp hP hc). Qed.

(* C86: the derivative.  Constants and linear polynomials have the right one. *)
Theorem C86_deriv_partial : forall f : {poly L}, (size f <= 2)%N -> fpn_deriv c (enc f) = Ok (enc f^`()).
Proof.
move=> f hf; case: (leqP (size f) 1) => h1.
  have -> : f^`() = 0 by rewrite (size1_polyC h1) derivC.
  have s1 : size (enc f) = 1%N by rewrite size_enc // (maxn_idPl h1).
  have hv : (INT_MIN < 0 <= INT_MAX)%coqZ by [].
  have := t_int pp hP hc f hv.
  by rewrite /fpn_deriv; case: (enc f) s1 => [|x [|]].
have sf : size f = 2%N by apply/eqP; rewrite eqn_leq hf.
rewrite (t_deriv pp hP hc) // sf // (_ : mkseq _ _ = [:: scmod 1 f`_1]) // (scmod1 pp hP hc).
have -> : f^`() = (f`_1)%:P.
  apply/polyP => i; rewrite coef_deriv coefC; case: i => [|i] //=; rewrite nth_default ?mul0rn // sf //.
suff e : [:: el f`_1] = enc (f`_1)%:P by rewrite e.
by rewrite /gq_enc polyC_eq0; case: eqP => [->//|/eqP h0]; rewrite polyseqC h0.
Qed.
(* in degree two or more the result is not a polynomial over the field at all: the factor i
   multiplies the modulus of the coefficient, not its residue *)
Theorem C86_deriv_behaviour : forall f : {poly L}, (1 < size f)%N -> (Z.of_nat (size f) <= INT_MAX)%coqZ ->
  exists r, fpn_deriv c (enc f) = Ok r /\ size r = (size f).-1 /\
  forall i, (i < size r)%N -> nth fpn_dflt r i = mkgm (gm_res (el f`_i.+1)) (PropFpPoly.fp_enc ((i.+1)%:R *: gq_m G)).
Proof.
move=> f h1 h2; eexists; split; first exact: (t_deriv pp hP hc).
by rewrite size_mkseq; split=> // i hi; rewrite nth_mkseq.
Qed.
Theorem C86_deriv_refuted : forall f : {poly L}, (2 < size f)%N -> (Z.of_nat (size f) <= INT_MAX)%coqZ ->
  forall g : {poly L}, fpn_deriv c (enc f) <> Ok (enc g).
Proof.
move=> f h1 h2 g; rewrite (t_deriv pp hP hc) //; last exact: ltnW.
case=> e; have hs : (1 < size (enc g))%N by rewrite -e size_mkseq; case: (size f) h1 => [|[|[]]].
move: e => /(congr1 (fun l => gm_mod (nth fpn_dflt l 1))); rewrite nth_mkseq; last by case: (size f) h1 => [|[|[]]].
have -> : gm_mod (nth fpn_dflt (enc g) 1) = PropFpPoly.fp_enc (gq_m G).
  move: hs; rewrite /gq_enc size_map => hs; rewrite (nth_map 0) //; exact: (el_mod pp hP hc).
move=> /(PropFpPoly.enc_inj pp) /eqP; rewrite -subr_eq0 -{2}(scale1r (gq_m G)) -scalerBl.
rewrite scaler_eq0 (negbTE (m_neq0 (gq_irr G))) orbF.
by rewrite -[X in X - _]/(1 + 1) addrK oner_eq0.
Qed.
(* the product with an integer modulo p likewise; 0 throws *)
Theorem C86_mul_intmod_partial : forall f : {poly L}, fpn_mul_intmod c (enc f) (PropFpPoly.fp_el (1 : 'F_p)) = Ok (enc f).
Proof.
move=> f; rewrite (t_mul_intmod pp hP hc) ?oner_neq0 // /gq_enc -/(cseq f); congr Ok.
by apply: eq_map => a; exact: (scmod1 pp hP hc).
Qed.
Theorem C86_mul_intmod_refuted : forall (f : {poly L}) (k : 'F_p), k != 1 ->
  forall g : {poly L}, fpn_mul_intmod c (enc f) (PropFpPoly.fp_el k) <> Ok (enc g).
Proof.
move=> f k k1 g; case: (altP (k =P 0)) => [->|k0]; first by rewrite (t_mul_intmod0 pp hP hc).
rewrite (t_mul_intmod pp hP hc) // => -[] /(congr1 (fun l => gm_mod (nth fpn_dflt l 0))).
rewrite /gq_enc -/(cseq g) (nth_map 0) ?cseq_ge1 // (nth_map 0) ?cseq_ge1 // (el_mod pp hP hc).
move=> /(PropFpPoly.enc_inj pp) /eqP; rewrite -subr_eq0 -{2}(scale1r (gq_m G)) -scalerBl.
by rewrite scaler_eq0 (negbTE (m_neq0 (gq_irr G))) orbF subr_eq0 (negbTE k1).
Qed.
Theorem C86_mul_intmod_zero : forall f : {poly L}, fpn_mul_intmod c (enc f) (PropFpPoly.fp_el (0 : 'F_p)) = Exn.
Proof. exact: (t_mul_intmod0 pp hP hc). Qed.
(* p-th roots throw for every polynomial, p-th power or not *)
Theorem C86_pth_root_refuted : forall f : {poly L}, fpn_pth_root c (enc f) = Exn.
Proof. exact: (t_root pp hP hc). Qed.
End Final.

(* every irreducible polynomial gives such a field *)
Theorem C85_field : forall (p : nat) (m : {poly 'F_p}), prime p -> irreducible_poly m -> exists G : gfq p, gq_m G = m.
Proof. exact: gfq_exists. Qed.
(* an element is in the prime field exactly if it is a root of x^p - x *)
Theorem C85_prime_field : forall (p : nat) (G : gfq p) (a : gq_L G), prime p -> gq_prime a = (a ^+ p == a).
Proof.
move=> p G a pp; have frob (k : 'F_p) : k ^+ p = k by rewrite -{2}(expf_card k) card_Fp.
apply/existsP/eqP => [[k /eqP ->]|h]; first by rewrite -rmorphX frob.
apply/existsP; apply: contraT => /existsPn hk.
pose s := a :: [seq gq_emb G k | k : 'F_p].
have us : uniq s.
  rewrite /s /= map_inj_uniq ?enum_uniq ?andbT; last exact: fmorph_inj.
  by apply/negP => /mapP [k _ e]; have := hk k; rewrite e eqxx.
have p1 := prime_gt1 pp.
have sz : size ('X^p - 'X : {poly gq_L G}) = p.+1.
  by rewrite size_addl ?size_polyXn // size_opp size_polyX ltnS.
have nz : ('X^p - 'X : {poly gq_L G}) != 0 by rewrite -size_poly_gt0 sz.
have := max_poly_roots nz _ us; rewrite sz /s /= size_map -cardE card_Fp // ltnn; apply.
apply/andP; split; first by rewrite /root !hornerE hornerXn h subrr.
by apply/allP => x /mapP [k _ ->]; rewrite /root !hornerE hornerXn -rmorphX frob subrr.
Qed.
(* enumeration is not implemented *)
Theorem C86_unimplemented : forall (l : list fpc) b m, fpn_increment l = Exn /\ fpn_from_base_rep b m = Exn.
Proof. by []. Qed.
(* polynomials over different fields are rejected *)
Theorem C85_mixed : forall (p : nat) c (G H : gfq p) (f : {poly gq_L G}) (g : {poly gq_L H}),
  prime p -> (Z.of_nat p <= 46341)%coqZ -> cache_valid c -> gq_m G <> gq_m H ->
  gp_add (fpn_kops c) (gq_enc f) (gq_enc g) = Exn /\ gp_sub (fpn_kops c) (gq_enc f) (gq_enc g) = Exn.
Proof.
move=> p c G H f g pp hP hc ne; rewrite /gq_enc -!/(cseq _) /gp_add /gp_sub.
case: (cseq f) (cseq_ge1 f) => [//|a s] _; case: (cseq g) (cseq_ge1 g) => [//|b t] _ /=.
have [r [hr _]] := el_M pp a; have [u [hu _]] := el_M pp b.
have hne : gq_m G != gq_m H by apply/eqP.
by have [-> [-> _]] := gmixed (im_kspec pp hP hc) hr hu hne.
Qed.

(* ---- concrete cases over GF(9) = F_3[z]/(z^2+1): (a, b) stands for a + b z *)
Definition e3 (l : list Z) : list intmod := List.map (fun a => mkim a 3) l.
Definition e9 (ab : Z * Z) : fpc := mkgm (if Z.eqb ab.2 0 then e3 [:: ab.1] else e3 [:: ab.1; ab.2]) (e3 [:: 1; 0; 1]%coqZ).
Definition p9 (l : list (Z * Z)) : list fpc := List.map e9 l.
Local Notation k9 := (fpn_kops cache_init).
Example C85_ex :
  gp_add k9 (p9 [:: (1, 2); (2, 1)]%coqZ) (p9 [:: (2, 2); (1, 2)]%coqZ) = Ok (p9 [:: (0, 1)]%coqZ) /\
  gp_mul k9 (p9 [:: (0, 1); (1, 0)]%coqZ) (p9 [:: (0, 2); (1, 0)]%coqZ) = Ok (p9 [:: (1, 0); (0, 0); (1, 0)]%coqZ) /\
  gp_sub k9 (p9 [:: (0, 1); (1, 1)]%coqZ) (p9 [:: (0, 2)]%coqZ) = Ok (p9 [:: (0, 2); (1, 1)]%coqZ) /\
  gp_sub k9 (p9 [:: (0, 1)]%coqZ) (p9 [:: (0, 2); (1, 0)]%coqZ) = Ok (p9 [:: (0, 2); (2, 0)]%coqZ) /\
  gp_sub k9 (p9 [:: (0, 1)]%coqZ) (p9 [:: (0, 2); (1, 1)]%coqZ) = UB /\
  gp_quot_rem k9 (p9 [:: (1, 0); (0, 0); (1, 0)]%coqZ) (p9 [:: (1, 1); (0, 1)]%coqZ) =
    Ok (p9 [:: (1, 1); (0, 2)]%coqZ, p9 [:: (1, 1)]%coqZ) /\
  gp_gcd k9 (p9 [:: (1, 0); (0, 0); (1, 0)]%coqZ) (p9 [:: (0, 1); (1, 0)]%coqZ) = Ok (p9 [:: (0, 1); (1, 0)]%coqZ).
Proof. by vm_compute. Qed.
(* the extended gcd is undefined for polynomials as small as x^2 + 1 and (z+1)x + z *)
Theorem C85_ext_gcd_refuted :
  gp_ext_gcd k9 (p9 [:: (1, 0); (0, 0); (1, 0)]%coqZ) (p9 [:: (1, 1); (0, 1)]%coqZ) = UB.
Proof. by vm_compute. Qed.
Example C86_ex :
  fpn_deriv cache_init (p9 [:: (1, 0); (1, 2)]%coqZ) = Ok (p9 [:: (1, 2)]%coqZ) /\
  (* x^2: the coefficient of x is 1 modulo 2(z^2+1) instead of 2 modulo z^2+1 *)
  fpn_deriv cache_init (p9 [:: (0, 0); (0, 0); (1, 0)]%coqZ) =
    Ok [:: e9 (0, 0)%coqZ; mkgm (e3 [:: 1%coqZ]) (e3 [:: 2; 0; 2]%coqZ)] /\
  fpn_mul_intmod cache_init (p9 [:: (1, 2)]%coqZ) (mkim 2 3) = Ok [:: mkgm (e3 [:: 1; 2]%coqZ) (e3 [:: 2; 0; 2]%coqZ)] /\
  (* x^3 + 1 is the cube of x + 1 *)
  fpn_pth_root cache_init (p9 [:: (1, 0); (0, 0); (0, 0); (1, 0)]%coqZ) = Exn.
Proof. by vm_compute. Qed.
Example C85_field_ex : exists G : gfq 3, gq_m G = 'X^2 + 1.
Proof.
apply: C85_field => //; have sz : size ('X^2 + 1 : {poly 'F_3}) = 3%N by rewrite size_addl size_polyXn // size_poly1.
apply/cubic_irreducible; first by rewrite sz.
by move=> x; rewrite /root hornerD hornerXn hornerC; case: x => [[|[|[|]]] //= h].
Qed.

Print Assumptions C85_elements.
Print Assumptions C85_ring.
Print Assumptions C85_sub_partial.
Print Assumptions C85_sub_refuted.
Print Assumptions C85_quot_rem.
Print Assumptions C85_ext_gcd_partial.
Print Assumptions C85_ext_gcd_refuted.
Print Assumptions C85_compare.
Print Assumptions C85_field.
Print Assumptions C85_prime_field.
Print Assumptions C86_deriv_refuted.
Print Assumptions C86_mul_intmod_refuted.
Print Assumptions C86_pth_root_refuted.
