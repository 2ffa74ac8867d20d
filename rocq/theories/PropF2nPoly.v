(* Final theorems for spffl/polynomials/f2n_poly_t.cpp: polynomials over GF(2^n).

   A [gf2] (PF2n.v) is a finite field L with 2^n elements generated by a root z of an
   irreducible polynomial gf_m of degree n over GF(2); gf_el a is the f2_polymod_t object
   whose residue, evaluated at z, is a.  C62_field says that there is one for every
   irreducible polynomial, C62_elements that gf_el is the correspondence between the
   elements of L and the objects with modulus gf_m.

   [g2_enc G f] is the object that represents the mathcomp polynomial f over L: the list
   of its coefficients, constant term first, without zero leading coefficients; one zero
   for f = 0. *)
From Verif Require Import Base MIntMath MIntmod MMat MF2Poly MF2Fac MPoly MPolyFac MF2nPoly PF2Poly.
From mathcomp Require Import all_ssreflect fingroup perm all_algebra ssrZ.
From mathcomp Require Import finfield.
From Verif Require Import PBits3 PF2Poly2 PF2Poly3 PF2Poly4 PF2Irr PMat PFp PPoly PPoly2 PPoly3 PPoly4 PF2n.
From Verif Require PropF2Poly PropF2Fac.
Set Implicit Arguments.
Unset Strict Implicit.
Unset Printing Implicit Defensive.
Import GRing.Theory.
Delimit Scope Z_scope with coqZ.
Local Open Scope ring_scope.

Definition g2_enc (G : gf2) (f : {poly gf_L G}) : list fpmod :=
  [seq gf_el a | a <- (if f == 0 then [:: 0] else polyseq f)].
(* the number of a field element: the bits of its residue read as a binary number *)
Definition g2_val (G : gf2) (a : gf_L G) : nat := N.to_nat (valN (pm_res (gf_el a))).
(* the base-2^n value of a polynomial *)
Definition g2_num (G : gf2) (f : {poly gf_L G}) : nat :=
  (\sum_(i < size f) g2_val (f`_i)%R * #|gf_L G| ^ i)%N.

Section T.
Variable G : gf2.
Local Notation L := (gf_L G).
Local Notation m := (gf_m G).
Local Notation V := (Vg m).
Local Notation I := (@Ig L (gf_emb G) (gf_z G)).
Local Notation o := f2n_kops.
Local Notation enc := (@g2_enc G).
Local Notation el := (@gf_el G).
Let sp : kspec o V I kg := f2n_kspec (gf_irr G) (gf_root G) (gf_card G).
Implicit Types f g h : {poly L}.

Lemma L_gt1 : (1 < #|L|)%N.
Proof.
rewrite gf_card -[(_).-1](@prednK) ?d_gt0 //; last exact: gf_irr.
by rewrite expnS; case: (2 ^ _)%N (expn_gt0 2 (size m).-2) => // k _; rewrite mul2n -addnn addnS.
Qed.
Lemma kglt x : V x -> (kg x < #|L|)%N. Proof. exact: kg_lt (gf_irr G) (gf_card G) x. Qed.
Lemma kg0 x : V x -> (kg x == 0)%N = (I x == 0). Proof. exact: kg_0 (gf_irr G) (gf_root G) (gf_card G) x. Qed.
Lemma kg1 x : V x -> I x = 1 -> kg x = 1%N. Proof. exact: kg_1 (gf_irr G) (gf_root G) x. Qed.
Lemma knext x : V x -> if (kg x < #|L|.-1)%N
  then exists y, k_next f2n_kops x = Ok (Some y) /\ V y /\ kg y = (kg x).+1 else k_next f2n_kops x = Ok None.
Proof. exact: f2n_next_ok (gf_irr G) (gf_root G) (gf_card G) x. Qed.
Lemma elR a : R V I (el a) a.
Proof. by have [r h e] := gf_elP a; exact: VgI h _ e. Qed.
Lemma encG f : isG V I (enc f) f.
Proof.
rewrite /isG /enc -/(cseq f); elim: (cseq f) => [|a s IH] /=; constructor => //; exact: elR.
Qed.
Lemma Genc l f : isG V I l f -> l = enc f.
Proof. by move=> h; apply: (isG_uniq sp h (encG f)). Qed.
Lemma Rel x a : R V I x a -> x = el a.
Proof. by case=> vx ix; have [v i] := elR a; apply: (Ig_inj (gf_irr G) (gf_root G)) => //; rewrite i. Qed.
Lemma okG (e : res gpoly) f : (exists r, e = Ok r /\ isG V I r f) -> e = Ok (enc f).
Proof. by case=> r [-> h]; rewrite (Genc h). Qed.
Lemma okR e a : (exists r, e = Ok r /\ R V I r a) -> e = Ok (el a).
Proof. by case=> r [-> h]; rewrite (Rel h). Qed.

Lemma t_ring f g a :
  gp_add o (enc f) (enc g) = Ok (enc (f + g)) /\ gp_sub o (enc f) (enc g) = Ok (enc (f - g)) /\
  gp_mul o (enc f) (enc g) = Ok (enc (f * g)) /\
  gp_addc o (enc f) (el a) = Ok (enc (f + a%:P)) /\ gp_subc o (enc f) (el a) = Ok (enc (f - a%:P)) /\
  gp_mulc o (enc f) (el a) = Ok (enc (a *: f)) /\
  (a != 0 -> gp_divc o (enc f) (el a) = Ok (enc (a^-1 *: f))).
Proof.
have hf := encG f; have hg := encG g; have ha := elR a.
split; first by apply: okG (add_ok sp hf hg).
split; first by apply: okG (sub_ok sp hf hg).
split; first by apply: okG (mul_ok sp hf hg).
split; first by apply: okG (addc_ok sp hf ha).
split; first by apply: okG (subc_ok sp hf ha).
split; first by apply: okG (mulc_ok sp hf ha).
by move=> a0; apply: okG (divc_ok sp hf ha a0).
Qed.
Lemma t_make a b d : gp_const o (el a) = Ok (enc a%:P) /\ gp_linear o (el a) (el b) = Ok (enc (a *: 'X + b%:P)) /\
  gp_quadratic o (el a) (el b) (el d) = Ok (enc (a *: 'X^2 + b *: 'X + d%:P)).
Proof.
split; first by apply: okG (const_ok sp (elR a)).
split; first by apply: okG (linear_ok sp (elR a) (elR b)).
by apply: okG (quadratic_ok sp (elR a) (elR b) (elR d)).
Qed.
Lemma t_int f v : (INT_MIN < v <= INT_MAX)%coqZ -> gp_int o (enc f) v = Ok (enc ((int_of_Z v)%:~R)%:P).
Proof. by move=> hv; apply: okG (int_ok sp (encG f) hv). Qed.
Lemma t_neg f : (size f <= 1)%N -> gp_neg o (enc f) = Ok (enc (- f)).
Proof. by move=> h; apply: okG (neg_ok sp (encG f) h). Qed.
Lemma t_neg_ub f : (1 < size f)%N -> gp_neg o (enc f) = UB.
Proof. by move=> h; exact: (neg_ub _ (encG f) h). Qed.
Lemma t_quot f g : g != 0 -> gp_quot_rem o (enc f) (enc g) = Ok (enc (f %/ g), enc (f %% g)).
Proof.
by move=> h; have [a [b [e [h1 h2]]]] := quot_rem_ok sp (encG f) (encG g) h; rewrite e (Genc h1) (Genc h2).
Qed.
Lemma t_quot0 f : gp_quot_rem o (enc f) (enc 0) = Exn.
Proof. exact: (quot_rem_0 sp (encG f) (encG 0)). Qed.
Lemma t_gcd f g : exists d, gp_gcd o (enc f) (enc g) = Ok (enc d) /\ d %= gcdp f g.
Proof. by have [r [d [e [h1 h2]]]] := gcd_ok sp (encG f) (encG g); exists d; rewrite e (Genc h1). Qed.
Lemma t_ext f g : g != 0 -> exists d u v, gp_ext_gcd o (enc f) (enc g) = Ok (enc d, enc u, enc v) /\
  d %= gcdp f g /\ u * f + v * g = d.
Proof.
move=> h; have [a [b [d [D [U [W [e [h1 [h2 [h3 [h4 h5]]]]]]]]]]] := ext_gcd_ok sp (encG f) (encG g) h.
by exists D, U, W; rewrite e (Genc h1) (Genc h2) (Genc h3).
Qed.
Lemma t_ext0 f : gp_ext_gcd o (enc f) (enc 0) = Exn.
Proof. exact: (ext_gcd_0 sp (encG f) (encG 0)). Qed.
Lemma t_exp f e : (1 < size f)%N -> (0 <= e <= INT_MAX)%coqZ -> gp_exp o (enc f) e = Ok (enc (f ^+ Z.to_nat e)).
Proof. by move=> h he; apply: okG (exp_ok sp (encG f) h he). Qed.
Lemma t_exp_neg f e : (1 < size f)%N -> (e < 0)%coqZ -> gp_exp o (enc f) e = Exn.
Proof. by move=> h he; exact: (exp_neg sp (encG f) h he). Qed.
Lemma t_exp_const a e : a != 0 -> (INT_MIN < e <= INT_MAX)%coqZ -> gp_exp o (enc a%:P) e = Ok (enc (a ^ int_of_Z e)%:P).
Proof. by move=> h he; apply: okG (exp_const sp (encG _) h he). Qed.
Lemma t_exp_zero e : gp_exp o (enc 0) e = if Z.leb e 0 then Exn else Ok (enc 0).
Proof. by have := exp_zero sp e (encG 0); case: ifP => // _ h; apply: okG h. Qed.
Lemma t_deriv f : (Z.of_nat (size f) <= INT_MAX)%coqZ -> gp_deriv o (enc f) = Ok (enc f^`()).
Proof. by move=> h; apply: okG (deriv_ok sp (encG f) h). Qed.
Lemma t_eval f a : gp_eval o (enc f) (el a) = Ok (el f.[a]).
Proof. by apply: okR (eval_ok sp (encG f) (elR a)). Qed.
Lemma t_get f k : gp_get_coeff o (enc f) k = if Z.ltb k 0 then Exn else Ok (el f`_(Z.to_nat k)).
Proof.
case: Z.ltb_spec => h; first exact: get_coeff_neg.
by rewrite -{1}(Z2Nat.id k h); apply: okR (get_coeff_ok sp _ (encG f)).
Qed.
Lemma t_set f k a : gp_set_coeff o (enc f) k (el a) =
  if Z.ltb k 0 then Exn else Ok (enc (f + (a - f`_(Z.to_nat k)) *: 'X^(Z.to_nat k))).
Proof.
case: Z.ltb_spec => h; first exact: set_coeff_neg.
by rewrite -{1}(Z2Nat.id k h); apply: okG (set_coeff_ok sp _ (encG f) (elR a)).
Qed.
Lemma t_promote f a : f != 0 -> gp_promote o (enc f) = Ok (enc (f * 'X)) /\
  gp_promote_and_add o (enc f) (el a) = Ok (enc (f * 'X + a%:P)).
Proof.
by move=> h; split; [apply: okG (promote_ok sp (encG f) h) | apply: okG (promote_add_ok sp (encG f) h (elR a))].
Qed.
Lemma enc_inj : injective enc.
Proof. by move=> f g e; apply: isG_fun (encG f) _; rewrite e; apply: encG. Qed.
Lemma t_root f : (Z.of_nat (size m).-1 <= 31)%coqZ ->
  (exists g, f2n_square_root (enc f) = Ok (Some (enc g)) /\ g ^+ 2 = f) \/
  (f2n_square_root (enc f) = Ok None /\ forall g, g ^+ 2 <> f).
Proof.
move=> hd; have [[r [g [e [h1 h2]]]]|h] := f2n_square_root_ok (gf_irr G) (gf_root G) (gf_card G) hd (encG f); [left | by right].
by exists g; rewrite e (Genc h1).
Qed.

(* order *)
Lemma num_gval f : gval kg #|L| (enc f) = g2_num f.
Proof.
have h (s : seq L) : gval kg #|L| (map el s) = (\sum_(i < size s) g2_val (s`_i)%R * #|L| ^ i)%N.
  elim: s => [|a s IH]; first by rewrite big_ord0.
  rewrite big_ord_recl /= expn0 muln1 -/(gval kg _ _) IH big_distrr /=; congr (_ + _)%N.
  by apply: eq_bigr => i _; rewrite /bump /= add1n expnS mulnCA.
rewrite /g2_num /enc -[map _ _]/(map el _) h; case: eqP => [->|//].
rewrite size_poly0 big_ord0 big_ord_recl big_ord0 /= addn0 expn0 muln1.
have [v0 i0] := elR 0; apply/eqP; rewrite -[g2_val 0]/(kg (el 0)) (kg0 v0) i0; exact/eqP.
Qed.
Lemma t_cmp f g :
  gp_eqb o (enc f) (enc g) = Ok (f == g) /\ gp_neqb o (enc f) (enc g) = Ok (f != g) /\
  gp_ltb o (enc f) (enc g) = Ok (g2_num f < g2_num g)%N /\ gp_gtb o (enc f) (enc g) = Ok (g2_num g < g2_num f)%N /\
  gp_leb o (enc f) (enc g) = Ok (g2_num f <= g2_num g)%N /\ gp_geb o (enc f) (enc g) = Ok (g2_num g <= g2_num f)%N.
Proof.
have := cmp_val sp L_gt1 kglt kg0 (encG f) (encG g); rewrite !num_gval.
case=> _ [_ h]; split; first exact: (eqb_ok sp (encG f) (encG g)).
by split; first exact: (neqb_ok sp (encG f) (encG g)).
Qed.
Lemma num_inj : injective (@g2_num G).
Proof.
move=> f g e; have := cmp_val sp L_gt1 kglt kg0 (encG f) (encG g); rewrite !num_gval.
by case=> h _; move: h; rewrite (eqb_ok sp (encG f) (encG g)) e eqxx => -[/eqP].
Qed.
Lemma t_inc f : exists g, gp_increment o (enc f) = Ok (enc g) /\ g2_num g = (g2_num f).+1.
Proof.
have [r [g [e [h1 h2]]]] := increment_ok sp L_gt1 kglt kg0 knext kg1 (encG f).
by exists g; rewrite e (Genc h1); move: h2; rewrite (Genc h1) !num_gval.
Qed.
End T.

Section Final.
Variable G : gf2.
Local Notation L := (gf_L G).
Local Notation enc := (@g2_enc G).
Local Notation el := (@gf_el G).
Local Notation o := f2n_kops.

(* C62: ring operations and operations with a coefficient. *)
Theorem C62_ring : forall (f g : {poly L}) (a : L),
  gp_add o (enc f) (enc g) = Ok (enc (f + g)) /\ gp_sub o (enc f) (enc g) = Ok (enc (f - g)) /\
  gp_mul o (enc f) (enc g) = Ok (enc (f * g)) /\
  gp_addc o (enc f) (el a) = Ok (enc (f + a%:P)) /\ gp_subc o (enc f) (el a) = Ok (enc (f - a%:P)) /\
  gp_mulc o (enc f) (el a) = Ok (enc (a *: f)) /\
  (a != 0 -> gp_divc o (enc f) (el a) = Ok (enc (a^-1 *: f))).
Proof. exact: t_ring. Qed.
(* every polynomial has exactly one representing object *)
Theorem C62_canonical : injective enc.
Proof. exact: enc_inj. Qed.
(* the constructors from ints: c0, c1 x + c0, c2 x^2 + c1 x + c0; an int stands for its
   value in the prime subfield *)
Theorem C62_make_int : forall lm c2 c1 c0, isP lm (gf_m G) ->
  forall k : Z -> L, (forall v, k v = if Z.odd v then 1 else 0) ->
  f2n_make1 c0 lm = Ok (enc (k c0)%:P) /\
  f2n_make2 c1 c0 lm = Ok (enc (k c1 *: 'X + (k c0)%:P)) /\
  f2n_make3 c2 c1 c0 lm = Ok (enc (k c2 *: 'X^2 + k c1 *: 'X + (k c0)%:P)).
Proof.
move=> lm c2 c1 c0 hm k hk; rewrite /f2n_make1 /f2n_make2 /f2n_make3.
have hk' v : k v = (int_of_Z v)%:~R.
  by rewrite hk (cast_emb (gf_emb G)); case: Z.odd => /=; rewrite ?rmorph1 ?rmorph0.
have [x2 [-> k2]] := V_int (gf_irr G) (gf_root G) c2 hm; have [x1 [-> k1]] := V_int (gf_irr G) (gf_root G) c1 hm.
have [x0 [-> k0]] := V_int (gf_irr G) (gf_root G) c0 hm.
rewrite !bind_ok (Rel k2) (Rel k1) (Rel k0) -!hk'.
have [e1 [e2 _]] := t_make (k c1) (k c0) 0.
have [e3 _] := t_make (k c0) 0 0.
by have [_ [_ e4]] := t_make (k c2) (k c1) (k c0).
Qed.
Theorem C62_make : forall a b d : L, gp_const o (el a) = Ok (enc a%:P) /\
  gp_linear o (el a) (el b) = Ok (enc (a *: 'X + b%:P)) /\
  gp_quadratic o (el a) (el b) (el d) = Ok (enc (a *: 'X^2 + b *: 'X + d%:P)).
Proof. exact: t_make. Qed.
Theorem C62_int : forall (f : {poly L}) v, (INT_MIN < v <= INT_MAX)%coqZ -> gp_int o (enc f) v = Ok (enc ((int_of_Z v)%:~R)%:P).
Proof. exact: t_int. Qed.
(* unary minus: correct on constants only; otherwise it writes outside the array *)
Theorem C62_neg_partial : forall f : {poly L}, (size f <= 1)%N -> gp_neg o (enc f) = Ok (enc (- f)).
Proof. exact: t_neg. Qed.
Theorem C62_neg_refuted : forall f : {poly L}, (1 < size f)%N -> gp_neg o (enc f) = UB.
Proof. exact: t_neg_ub. Qed.
(* powers *)
Theorem C62_exp : forall (f : {poly L}) e, (1 < size f)%N -> (0 <= e <= INT_MAX)%coqZ ->
  gp_exp o (enc f) e = Ok (enc (f ^+ Z.to_nat e)).
Proof. exact: t_exp. Qed.
Theorem C62_exp_negative : forall (f : {poly L}) e, (1 < size f)%N -> (e < 0)%coqZ -> gp_exp o (enc f) e = Exn.
Proof. exact: t_exp_neg. Qed.
Theorem C62_exp_const : forall (a : L) e, a != 0 -> (INT_MIN < e <= INT_MAX)%coqZ ->
  gp_exp o (enc a%:P) e = Ok (enc (a ^ int_of_Z e)%:P).
Proof. exact: t_exp_const. Qed.
Theorem C62_exp_zero : forall e, gp_exp o (enc 0) e = if Z.leb e 0 then Exn else Ok (enc 0).
Proof. exact: t_exp_zero. Qed.

(* C63: division and gcd *)
Theorem C63_quot_rem : forall f g : {poly L}, g != 0 ->
  exists q r, gp_quot_rem o (enc f) (enc g) = Ok (enc q, enc r) /\ f = q * g + r /\ (size r < size g)%N /\
    gp_div o (enc f) (enc g) = Ok (enc q) /\ gp_mod o (enc f) (enc g) = Ok (enc r).
Proof.
move=> f g g0; exists (f %/ g), (f %% g); have e := t_quot f g0.
by rewrite /gp_div /gp_mod e -divp_eq ltn_modp.
Qed.
Theorem C63_quot_rem_zero : forall f : {poly L}, gp_quot_rem o (enc f) (enc 0) = Exn.
Proof. exact: t_quot0. Qed.
(* greatest with respect to divisibility; not normalised to be monic *)
Theorem C63_gcd : forall f g : {poly L}, exists d, gp_gcd o (enc f) (enc g) = Ok (enc d) /\
    d %| f /\ d %| g /\ forall h : {poly L}, h %| f -> h %| g -> h %| d.
Proof.
move=> f g; have [d [e h]] := t_gcd f g; exists d; split=> //.
rewrite !(eqp_dvdl _ h) dvdp_gcdl dvdp_gcdr; split=> //; split=> // k h1 h2.
by rewrite (eqp_dvdr _ h) dvdp_gcd h1.
Qed.
Theorem C63_ext_gcd_partial : forall f g : {poly L}, g != 0 -> exists d u v, gp_ext_gcd o (enc f) (enc g) = Ok (enc d, enc u, enc v) /\
    u * f + v * g = d /\ d %| f /\ d %| g.
Proof.
move=> f g g0; have [d [u [v [e [h1 h2]]]]] := t_ext f g0; exists d, u, v; split=> //; split=> //.
by rewrite !(eqp_dvdl _ h1) dvdp_gcdl dvdp_gcdr.
Qed.
Theorem C63_ext_gcd_refuted : forall f : {poly L}, gp_ext_gcd o (enc f) (enc 0) = Exn.
Proof. exact: t_ext0. Qed.

(* C64: order and enumeration *)
Theorem C64_compare : forall f g : {poly L},
  gp_eqb o (enc f) (enc g) = Ok (f == g) /\ gp_neqb o (enc f) (enc g) = Ok (f != g) /\
  gp_ltb o (enc f) (enc g) = Ok (g2_num f < g2_num g)%N /\ gp_gtb o (enc f) (enc g) = Ok (g2_num g < g2_num f)%N /\
  gp_leb o (enc f) (enc g) = Ok (g2_num f <= g2_num g)%N /\ gp_geb o (enc f) (enc g) = Ok (g2_num g <= g2_num f)%N.
Proof. exact: t_cmp. Qed.
Theorem C64_num_injective : injective (@g2_num G).
Proof. exact: (num_inj). Qed.
Theorem C64_increment : forall f : {poly L}, exists g, gp_increment o (enc f) = Ok (enc g) /\ g2_num g = (g2_num f).+1.
Proof. exact: t_inc. Qed.
(* C65: derivative, evaluation, coefficient access *)
Theorem C65_deriv : forall f : {poly L}, (Z.of_nat (size f) <= INT_MAX)%coqZ -> gp_deriv o (enc f) = Ok (enc f^`()).
Proof. exact: t_deriv. Qed.
Theorem C65_eval : forall (f : {poly L}) (a : L), gp_eval o (enc f) (el a) = Ok (el f.[a]).
Proof. exact: t_eval. Qed.
Theorem C65_get_coeff : forall (f : {poly L}) k, gp_get_coeff o (enc f) k = if Z.ltb k 0 then Exn else Ok (el f`_(Z.to_nat k)).
Proof. exact: t_get. Qed.
(* the new polynomial has the coefficient a at k and the old ones elsewhere *)
Theorem C65_set_coeff : forall (f : {poly L}) k (a : L), (0 <= k)%coqZ ->
  exists g, gp_set_coeff o (enc f) k (el a) = Ok (enc g) /\
    forall i, g`_i = if i == Z.to_nat k then a else f`_i.
Proof.
move=> f k a hk; eexists; split; first by rewrite t_set //; case: Z.ltb_spec => //; lia.
move=> i; rewrite coefD coefZ coefXn; case: eqP => [->|_]; last by rewrite mulr0 addr0.
by rewrite mulr1 addrC subrK.
Qed.
Theorem C65_set_coeff_negative : forall (f : {poly L}) k (a : L), (k < 0)%coqZ ->
  gp_set_coeff o (enc f) k (el a) = Exn.
Proof. move=> f k a; exact: set_coeff_neg. Qed.
Theorem C65_promote_partial : forall (f : {poly L}) (a : L), f != 0 -> gp_promote o (enc f) = Ok (enc (f * 'X)) /\
  gp_promote_and_add o (enc f) (el a) = Ok (enc (f * 'X + a%:P)).
Proof. exact: t_promote. Qed.
(* C66: square roots.  A polynomial over GF(2^n) is a square exactly if its derivative is
   zero, and then the coefficients have square roots too. *)
Theorem C66_square_root_partial : (Z.of_nat (size (gf_m G)).-1 <= 31)%coqZ -> forall f : {poly L},
  (exists g, f2n_square_root (enc f) = Ok (Some (enc g)) /\ g ^+ 2 = f) \/
  (f2n_square_root (enc f) = Ok None /\ forall g : {poly L}, g ^+ 2 <> f).
Proof. move=> hd f; exact: t_root. Qed.
End Final.

(* the correspondence between field elements and objects *)
Theorem C62_field : forall m : {poly 'F_2}, irreducible_poly m -> exists G : gf2, gf_m G = m.
Proof. exact: gf2_exists. Qed.
Theorem C62_elements : forall G : gf2, injective (@gf_el G) /\
  forall x r, isM x r (gf_m G) -> x = gf_el (map_poly (gf_emb G) r).[gf_z G].
Proof.
move=> G; split=> [a b e|x r h].
  by have [_ <-] := elR a; have [_ <-] := elR b; rewrite e.
by apply: Rel; exact: VgI h _ _.
Qed.
(* polynomials over different fields are rejected *)
Theorem C62_mixed : forall (G H : gf2) (f : {poly gf_L G}) (g : {poly gf_L H}), gf_m G <> gf_m H ->
  gp_add f2n_kops (g2_enc f) (g2_enc g) = Exn /\ gp_sub f2n_kops (g2_enc f) (g2_enc g) = Exn.
Proof.
move=> G H f g ne; rewrite /g2_enc -!/(cseq _) /gp_add /gp_sub.
case: (cseq f) (cseq_ge1 f) => [//|a s] _; case: (cseq g) (cseq_ge1 g) => [//|b t] _ /=.
have [r hr _] := gf_elP a; have [u hu _] := gf_elP b.
have hne : gf_m G != gf_m H by apply/eqP.
by have [-> [-> _]] := pm_mixed hr hu hne.
Qed.
(* x times the zero polynomial has a representation with a zero leading coefficient, and
   then does not compare equal to zero *)
Theorem C65_promote_refuted : forall G : gf2,
  exists l, gp_promote f2n_kops (g2_enc (0 : {poly gf_L G})) = Ok l /\
    gp_eqb f2n_kops l (g2_enc (0 : {poly gf_L G})) = Ok false.
Proof.
move=> G; rewrite /g2_enc eqxx /=.
have [r hr _] := gf_elP (0 : gf_L G).
by have [c [-> _]] := pm_sub_ok hr hr; eexists.
Qed.
(* the exponent 1 << (n-1) of the square root of a coefficient does not fit *)
Theorem C66_square_root_refuted : forall G : gf2, (32 < Z.of_nat (size (gf_m G)).-1)%coqZ ->
  forall f : {poly gf_L G}, f2n_square_root (g2_enc f) = UB.
Proof.
move=> G hd f; rewrite /f2n_square_root; have [x0 [e0 [[r0 hr0] _]]] := isG_get0 (encG f).
rewrite e0 bind_ok (degree_thm (isP_W hr0.2.1)) bind_ok /ishl1.
by have -> : ((Z.of_nat (size (gf_m G)).-1 - 1 <? 0) || (31 <? Z.of_nat (size (gf_m G)).-1 - 1))%coqZ = true by lia.
Qed.

(* ---- concrete cases over GF(4) = GF(2)[z]/(z^2+z+1) and GF(8); an element is written as
   the number of its residue *)
Definition e4 (l : list N) : list fpmod := List.map (fun w => mkpm [:: w] [:: 7%num]) l.
Definition e8 (l : list N) : list fpmod := List.map (fun w => mkpm [:: w] [:: 11%num]) l.
Example C62_ex :
  gp_mul f2n_kops (e4 [:: 2; 3]%num) (e4 [:: 3; 1]%num) = Ok (e4 [:: 1; 0; 3]%num) /\
  gp_add f2n_kops (e8 [:: 2; 3; 5]%num) (e8 [:: 2; 1; 5]%num) = Ok (e8 [:: 0; 2]%num) /\
  gp_neg f2n_kops (e4 [:: 2; 3]%num) = UB /\
  f2n_make2 (-1) 2 [:: 7%num] = Ok (e4 [:: 0; 1]%num) /\
  gp_exp f2n_kops (e8 [:: 2; 1]%num) 8 = Ok (e8 [:: 2; 0; 0; 0; 0; 0; 0; 0; 1]%num) /\
  gp_add f2n_kops (e8 [:: 2; 3; 5]%num) (e4 [:: 1%num]) = Exn.
Proof. by vm_compute. Qed.
Lemma sz7 : size ('X^2 + 'X + 1 : {poly 'F_2}) = 3%N.
Proof. by rewrite -addrA size_addl size_polyXn // -[1]/(1%:P) size_XaddC. Qed.
Lemma p7_irr : irreducible_poly ('X^2 + 'X + 1 : {poly 'F_2}).
Proof.
have [|b [e h]] := PropF2Fac.C29_is_irreducible_partial 0%num PropF2Poly.p7; first by rewrite sz7.
by apply/h; move: e; vm_compute => -[<-].
Qed.
Example C62_field_ex : exists G : gf2, gf_m G = 'X^2 + 'X + 1.
Proof. by apply: C62_field; exact: p7_irr. Qed.
Example C63_ex :
  gp_quot_rem f2n_kops (e4 [:: 0; 2; 3; 1]%num) (e4 [:: 2; 3]%num) = Ok (e4 [:: 3; 0; 2]%num, e4 [:: 1%num]) /\
  gp_gcd f2n_kops (e4 [:: 1; 0; 1]%num) (e4 [:: 2; 2]%num) = Ok (e4 [:: 2; 2]%num) /\
  gp_ext_gcd f2n_kops (e4 [:: 1; 1]%num) (e4 [:: 0%num]) = Exn.
Proof. by vm_compute. Qed.
Example C64_ex :
  gp_increment f2n_kops (e4 [:: 3; 3]%num) = Ok (e4 [:: 0; 0; 1]%num) /\
  gp_increment f2n_kops (e8 [:: 7; 3]%num) = Ok (e8 [:: 0; 4]%num) /\
  gp_ltb f2n_kops (e8 [:: 6; 1]%num) (e8 [:: 0; 2]%num) = Ok true.
Proof. by vm_compute. Qed.
Example C65_ex :
  gp_deriv f2n_kops (e8 [:: 1; 2; 3; 4]%num) = Ok (e8 [:: 2; 0; 4]%num) /\
  gp_eval f2n_kops (e8 [:: 1; 2; 3]%num) (mkpm [:: 2%num] [:: 11%num]) = Ok (mkpm [:: 2%num] [:: 11%num]) /\
  gp_set_coeff f2n_kops (e4 [:: 2; 1]%num) 3 (mkpm [:: 3%num] [:: 7%num]) = Ok (e4 [:: 2; 1; 0; 3]%num) /\
  gp_promote f2n_kops (e4 [:: 0%num]) = Ok (e4 [:: 0; 0]%num).
Proof. by vm_compute. Qed.
Example C66_ex :
  f2n_square_root (e8 [:: 2; 0; 3]%num) = Ok (Some (e8 [:: 6; 7]%num)) /\
  f2n_square_root (e8 [:: 2; 1; 3]%num) = Ok None.
Proof. by vm_compute. Qed.

Print Assumptions C62_ring.
Print Assumptions C62_field.
Print Assumptions C62_elements.
Print Assumptions C62_exp.
Print Assumptions C63_quot_rem.
Print Assumptions C63_ext_gcd_partial.
Print Assumptions C64_increment.
Print Assumptions C65_set_coeff.
Print Assumptions C66_square_root_partial.
