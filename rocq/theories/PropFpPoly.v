(* Final theorems for spffl/polynomials/fp_poly_t.cpp over F_p, p a prime with p*p
   representable (p <= 46341).

   [fp_enc f] is the object that represents the mathcomp polynomial f over 'F_p: the list
   of its coefficients, each as its least non-negative residue with modulus p, constant
   term first, without zero leading coefficients; one zero for f = 0.
   c is any state reachable for the cache inside intmod_t::recip (C10). *)
From Verif Require Import Base MIntMath MIntmod MMat MPoly PIntMath PIntMath2 PIntmod.
From mathcomp Require Import all_ssreflect fingroup perm all_algebra ssrZ.
From mathcomp Require Import finfield.
From Verif Require Import PMat PFp PFpGen PPoly PPoly2 PPoly3 PPoly4 PFpPoly.
Set Implicit Arguments.
Unset Strict Implicit.
Unset Printing Implicit Defensive.
Import GRing.Theory.
Delimit Scope Z_scope with coqZ.
Local Open Scope ring_scope.

Definition fp_enc (p : nat) (f : {poly 'F_p}) : list intmod :=
  [seq mkim (Z.of_nat (nat_of_ord a)) (Z.of_nat p) | a <- (if f == 0 then [:: 0] else polyseq f)].
Definition fp_el (p : nat) (a : 'F_p) : intmod := mkim (Z.of_nat (nat_of_ord a)) (Z.of_nat p).
(* the base-p value of a polynomial *)
Definition fp_num (p : nat) (f : {poly 'F_p}) : nat := (\sum_(i < size f) nat_of_ord (f`_i)%R * p ^ i)%N.

Section T.
Variable p : nat.
Hypothesis pp : prime p.
Hypothesis hP : (Z.of_nat p <= 46341)%coqZ.
Variable c : cache.
Hypothesis hc : cache_valid c.
Local Notation V := (Vp p).
Local Notation I := (Ip p).
Local Notation o := (im_kops c).
Local Notation enc := (@fp_enc p).
Local Notation el := (@fp_el p).
Let sp := im_kspec pp hP hc.
Implicit Types f g h : {poly 'F_p}.

Lemma elR a : R V I (el a) a.
Proof. by split; [exact: (fp_of_V pp a) | exact: (fp_of_I a)]. Qed.
Lemma encG f : isG V I (enc f) f.
Proof.
rewrite /isG /enc -/(cseq f); elim: (cseq f) => [|a s IH] /=; constructor => //; exact: elR.
Qed.
Lemma Genc l f : isG V I l f -> l = enc f.
Proof. by move=> h; apply: (isG_uniq sp h (encG f)). Qed.
Lemma Rel x a : R V I x a -> x = el a.
Proof. by case=> vx ix; have [v i] := elR a; apply: (Ip_inj pp) => //; rewrite i. Qed.
Lemma okG (e : res gpoly) f : (exists r, e = Ok r /\ isG V I r f) -> e = Ok (enc f).
Proof. by case=> r [-> h]; rewrite (Genc h). Qed.
Lemma okR e a : (exists r, e = Ok r /\ R V I r a) -> e = Ok (el a).
Proof. by case=> r [-> h]; rewrite (Rel h). Qed.

Lemma t_ring f g a :
  gp_add o (enc f) (enc g) = Ok (enc (f + g)) /\ gp_sub o (enc f) (enc g) = Ok (enc (f - g)) /\
  gp_mul o (enc f) (enc g) = Ok (enc (f * g)) /\
  gp_addc o (enc f) (el a) = Ok (enc (f + a%:P)) /\ gp_subc o (enc f) (el a) = Ok (enc (f - a%:P)) /\
  gp_mulc o (enc f) (el a) = Ok (enc (a *: f)) /\
  (a != 0 -> gp_divc o (enc f) (el a) = Ok (enc (a^-1 *: f))).
Proof.
have hf := encG f; have hg := encG g; have ha := elR a.
split; first by apply: okG (add_ok sp hf hg).
split; first by apply: okG (sub_ok sp hf hg).
split; first by apply: okG (mul_ok sp hf hg).
split; first by apply: okG (addc_ok sp hf ha).
split; first by apply: okG (subc_ok sp hf ha).
split; first by apply: okG (mulc_ok sp hf ha).
by move=> a0; apply: okG (divc_ok sp hf ha a0).
Qed.
Lemma t_make a b d : gp_const o (el a) = Ok (enc a%:P) /\ gp_linear o (el a) (el b) = Ok (enc (a *: 'X + b%:P)) /\
  gp_quadratic o (el a) (el b) (el d) = Ok (enc (a *: 'X^2 + b *: 'X + d%:P)).
Proof.
split; first by apply: okG (const_ok sp (elR a)).
split; first by apply: okG (linear_ok sp (elR a) (elR b)).
by apply: okG (quadratic_ok sp (elR a) (elR b) (elR d)).
Qed.
Lemma t_int f v : (INT_MIN < v <= INT_MAX)%coqZ -> gp_int o (enc f) v = Ok (enc ((int_of_Z v)%:~R)%:P).
Proof. by move=> hv; apply: okG (int_ok sp (encG f) hv). Qed.
Lemma t_neg f : (size f <= 1)%N -> gp_neg o (enc f) = Ok (enc (- f)).
Proof. by move=> h; apply: okG (neg_ok sp (encG f) h). Qed.
Lemma t_neg_ub f : (1 < size f)%N -> gp_neg o (enc f) = UB.
Proof. by move=> h; exact: (neg_ub _ (encG f) h). Qed.
Lemma t_quot f g : g != 0 -> gp_quot_rem o (enc f) (enc g) = Ok (enc (f %/ g), enc (f %% g)).
Proof.
by move=> h; have [a [b [e [h1 h2]]]] := quot_rem_ok sp (encG f) (encG g) h; rewrite e (Genc h1) (Genc h2).
Qed.
Lemma t_quot0 f : gp_quot_rem o (enc f) (enc 0) = Exn.
Proof. exact: (quot_rem_0 sp (encG f) (encG 0)). Qed.
Lemma t_gcd f g : exists d, gp_gcd o (enc f) (enc g) = Ok (enc d) /\ d %= gcdp f g.
Proof. by have [r [d [e [h1 h2]]]] := gcd_ok sp (encG f) (encG g); exists d; rewrite e (Genc h1). Qed.
Lemma t_ext f g : g != 0 -> exists d u v, gp_ext_gcd o (enc f) (enc g) = Ok (enc d, enc u, enc v) /\
  d %= gcdp f g /\ u * f + v * g = d.
Proof.
move=> h; have [a [b [d [D [U [W [e [h1 [h2 [h3 [h4 h5]]]]]]]]]]] := ext_gcd_ok sp (encG f) (encG g) h.
by exists D, U, W; rewrite e (Genc h1) (Genc h2) (Genc h3).
Qed.
Lemma t_ext0 f : gp_ext_gcd o (enc f) (enc 0) = Exn.
Proof. exact: (ext_gcd_0 sp (encG f) (encG 0)). Qed.
Lemma t_exp f e : (1 < size f)%N -> (0 <= e <= INT_MAX)%coqZ -> gp_exp o (enc f) e = Ok (enc (f ^+ Z.to_nat e)).
Proof. by move=> h he; apply: okG (exp_ok sp (encG f) h he). Qed.
Lemma t_exp_neg f e : (1 < size f)%N -> (e < 0)%coqZ -> gp_exp o (enc f) e = Exn.
Proof. by move=> h he; exact: (exp_neg sp (encG f) h he). Qed.
Lemma t_exp_const a e : a != 0 -> (INT_MIN < e <= INT_MAX)%coqZ -> gp_exp o (enc a%:P) e = Ok (enc (a ^ int_of_Z e)%:P).
Proof. by move=> h he; apply: okG (exp_const sp (encG _) h he). Qed.
Lemma t_exp_zero e : gp_exp o (enc 0) e = if Z.leb e 0 then Exn else Ok (enc 0).
Proof. by have := exp_zero sp e (encG 0); case: ifP => // _ h; apply: okG h. Qed.
Lemma t_deriv f : (Z.of_nat (size f) <= INT_MAX)%coqZ -> gp_deriv o (enc f) = Ok (enc f^`()).
Proof. by move=> h; apply: okG (deriv_ok sp (encG f) h). Qed.
Lemma t_eval f a : gp_eval o (enc f) (el a) = Ok (el f.[a]).
Proof. by apply: okR (eval_ok sp (encG f) (elR a)). Qed.
Lemma t_get f k : gp_get_coeff o (enc f) k = if Z.ltb k 0 then Exn else Ok (el f`_(Z.to_nat k)).
Proof.
case: Z.ltb_spec => h; first exact: get_coeff_neg.
by rewrite -{1}(Z2Nat.id k h); apply: okR (get_coeff_ok sp _ (encG f)).
Qed.
Lemma t_set f k a : gp_set_coeff o (enc f) k (el a) =
  if Z.ltb k 0 then Exn else Ok (enc (f + (a - f`_(Z.to_nat k)) *: 'X^(Z.to_nat k))).
Proof.
case: Z.ltb_spec => h; first exact: set_coeff_neg.
by rewrite -{1}(Z2Nat.id k h); apply: okG (set_coeff_ok sp _ (encG f) (elR a)).
Qed.
Lemma t_promote f a : f != 0 -> gp_promote o (enc f) = Ok (enc (f * 'X)) /\
  gp_promote_and_add o (enc f) (el a) = Ok (enc (f * 'X + a%:P)).
Proof.
by move=> h; split; [apply: okG (promote_ok sp (encG f) h) | apply: okG (promote_add_ok sp (encG f) h (elR a))].
Qed.
Lemma enc_inj : injective enc.
Proof. by move=> f g e; apply: isG_fun (encG f) _; rewrite e; apply: encG. Qed.
Lemma t_root f : (exists g, fp_pth_root c (enc f) = Ok (Some (enc g)) /\ g ^+ p = f) \/
  (fp_pth_root c (enc f) = Ok None /\ forall g, g ^+ p <> f).
Proof.
have [[r [g [e [h1 h2]]]]|h] := pth_root_ok pp hP hc (encG f); [left | by right].
by exists g; rewrite e (Genc h1).
Qed.

(* order *)
Lemma num_gval f : gval rv p (enc f) = fp_num f.
Proof.
have h (s : seq 'F_p) : gval rv p (map el s) = (\sum_(i < size s) nat_of_ord (s`_i)%R * p ^ i)%N.
  elim: s => [|a s IH]; first by rewrite big_ord0.
  rewrite big_ord_recl /= expn0 muln1 -/(gval rv p _) IH big_distrr /= /rv /= Nat2Z.id; congr (_ + _)%N.
  by apply: eq_bigr => i _; rewrite /bump /= add1n expnS mulnCA.
rewrite /fp_num /enc -[map _ _]/(map el _) h; case: eqP => [->|//].
by rewrite size_poly0 big_ord0 big_ord_recl big_ord0 /= mul0n.
Qed.
Lemma t_cmp f g :
  gp_eqb o (enc f) (enc g) = Ok (f == g) /\ gp_neqb o (enc f) (enc g) = Ok (f != g) /\
  gp_ltb o (enc f) (enc g) = Ok (fp_num f < fp_num g)%N /\ gp_gtb o (enc f) (enc g) = Ok (fp_num g < fp_num f)%N /\
  gp_leb o (enc f) (enc g) = Ok (fp_num f <= fp_num g)%N /\ gp_geb o (enc f) (enc g) = Ok (fp_num g <= fp_num f)%N.
Proof.
have := cmp_val sp (prime_gt1 pp) (@rv_lt p) (@rv_0 p pp) (encG f) (encG g); rewrite !num_gval.
case=> _ [_ h]; split; first exact: (eqb_ok sp (encG f) (encG g)).
by split; first exact: (neqb_ok sp (encG f) (encG g)).
Qed.
Lemma num_inj : injective (@fp_num p).
Proof.
move=> f g e; have := cmp_val sp (prime_gt1 pp) (@rv_lt p) (@rv_0 p pp) (encG f) (encG g); rewrite !num_gval.
by case=> h _; move: h; rewrite (eqb_ok sp (encG f) (encG g)) e eqxx => -[/eqP].
Qed.
Lemma t_inc f : exists g, gp_increment o (enc f) = Ok (enc g) /\ fp_num g = (fp_num f).+1.
Proof.
have [r [g [e [h1 h2]]]] := increment_ok sp (prime_gt1 pp) (@rv_lt p) (@rv_0 p pp) (im_next_ok pp hP c) (@rv_1 p pp hP) (encG f).
by exists g; rewrite e (Genc h1); move: h2; rewrite (Genc h1) !num_gval.
Qed.
Lemma t_base b : (0 <= b <= INT_MAX)%coqZ -> exists f, fp_from_base_rep b (Z.of_nat p) = Ok (enc f) /\ Z.of_nat (fp_num f) = b.
Proof.
move=> hb; have [r [f [e [h1 h2]]]] := base_rep_ok pp hP hb; exists f; rewrite e (Genc h1).
by move: h2; rewrite (Genc h1) num_gval.
Qed.
End T.

Lemma t_mixed (p q : nat) (f : {poly 'F_p}) (g : {poly 'F_q}) c : prime p -> prime q -> p <> q ->
  gp_add (im_kops c) (fp_enc f) (fp_enc g) = Exn /\ gp_sub (im_kops c) (fp_enc f) (fp_enc g) = Exn.
Proof.
move=> pp pq ne; have ne' : Z.of_nat p <> Z.of_nat q by move/Nat2Z.inj.
rewrite /fp_enc -!/(cseq _) /gp_add /gp_sub.
case: (cseq f) (cseq_ge1 f) => [//|a s] _; case: (cseq g) (cseq_ge1 g) => [//|b t] _ /=.
by rewrite /im_add /im_sub !check_moduli_mixed.
Qed.

Section Final.
Variables (p : nat) (c : cache).
Local Notation enc := (@fp_enc p).
Local Notation el := (@fp_el p).
Local Notation o := (im_kops c).

(* C33: ring operations and operations with a coefficient. *)
Theorem C33_ring : prime p -> (Z.of_nat p <= 46341)%coqZ -> cache_valid c ->
  forall (f g : {poly 'F_p}) (a : 'F_p),
  gp_add o (enc f) (enc g) = Ok (enc (f + g)) /\ gp_sub o (enc f) (enc g) = Ok (enc (f - g)) /\
  gp_mul o (enc f) (enc g) = Ok (enc (f * g)) /\
  gp_addc o (enc f) (el a) = Ok (enc (f + a%:P)) /\ gp_subc o (enc f) (el a) = Ok (enc (f - a%:P)) /\
  gp_mulc o (enc f) (el a) = Ok (enc (a *: f)) /\
  (a != 0 -> gp_divc o (enc f) (el a) = Ok (enc (a^-1 *: f))).
Proof. move=> pp hP hc; exact: (t_ring pp hP hc). Qed.
(* every polynomial has exactly one representing object *)
Theorem C33_canonical : prime p -> injective enc.
Proof. exact: enc_inj. Qed.
(* the constructors from ints: c0, c1 x + c0, c2 x^2 + c1 x + c0, reduced modulo p *)
Theorem C33_make_int : prime p -> (Z.of_nat p <= 46341)%coqZ -> cache_valid c ->
  forall c2 c1 c0, (INT_MIN < c2 <= INT_MAX)%coqZ -> (INT_MIN < c1 <= INT_MAX)%coqZ -> (INT_MIN < c0 <= INT_MAX)%coqZ ->
  forall k : Z -> 'F_p, (forall z, k z = (int_of_Z z)%:~R) ->
  fp_make1 c c0 (Z.of_nat p) = Ok (enc (k c0)%:P) /\
  fp_make2 c c1 c0 (Z.of_nat p) = Ok (enc (k c1 *: 'X + (k c0)%:P)) /\
  fp_make3 c c2 c1 c0 (Z.of_nat p) = Ok (enc (k c2 *: 'X^2 + k c1 *: 'X + (k c0)%:P)).
Proof.
move=> pp hP hc c2 c1 c0 h2 h1 h0 k hk; rewrite /fp_make1 /fp_make2 /fp_make3.
have [x2 [-> k2]] := V_make pp hP h2; have [x1 [-> k1]] := V_make pp hP h1; have [x0 [-> k0]] := V_make pp hP h0.
rewrite !bind_ok (Rel pp k2) (Rel pp k1) (Rel pp k0) -!hk.
have [e1 [e2 _]] := t_make pp hP hc (k c1) (k c0) 0.
have [e3 _] := t_make pp hP hc (k c0) 0 0.
by have [_ [_ e4]] := t_make pp hP hc (k c2) (k c1) (k c0).
Qed.
Theorem C33_make : prime p -> (Z.of_nat p <= 46341)%coqZ -> cache_valid c ->
  forall a b d : 'F_p, gp_const o (el a) = Ok (enc a%:P) /\
  gp_linear o (el a) (el b) = Ok (enc (a *: 'X + b%:P)) /\
  gp_quadratic o (el a) (el b) (el d) = Ok (enc (a *: 'X^2 + b *: 'X + d%:P)).
Proof. move=> pp hP hc; exact: (t_make pp hP hc). Qed.
Theorem C33_int : prime p -> (Z.of_nat p <= 46341)%coqZ -> cache_valid c ->
  forall (f : {poly 'F_p}) v, (INT_MIN < v <= INT_MAX)%coqZ -> gp_int o (enc f) v = Ok (enc ((int_of_Z v)%:~R)%:P).
Proof. move=> pp hP hc; exact: (t_int pp hP hc). Qed.
(* unary minus: correct on constants only; otherwise it writes outside the array *)
Theorem C33_neg_partial : prime p -> (Z.of_nat p <= 46341)%coqZ -> cache_valid c ->
  forall f : {poly 'F_p}, (size f <= 1)%N -> gp_neg o (enc f) = Ok (enc (- f)).
Proof. move=> pp hP hc; exact: (t_neg pp hP hc). Qed.
Theorem C33_neg_refuted : prime p -> forall f : {poly 'F_p}, (1 < size f)%N -> gp_neg o (enc f) = UB.
Proof. move=> pp; exact: (t_neg_ub pp). Qed.
(* powers *)
Theorem C33_exp : prime p -> (Z.of_nat p <= 46341)%coqZ -> cache_valid c ->
  forall (f : {poly 'F_p}) e, (1 < size f)%N -> (0 <= e <= INT_MAX)%coqZ ->
  gp_exp o (enc f) e = Ok (enc (f ^+ Z.to_nat e)).
Proof. move=> pp hP hc; exact: (t_exp pp hP hc). Qed.
Theorem C33_exp_negative : prime p -> (Z.of_nat p <= 46341)%coqZ -> cache_valid c ->
  forall (f : {poly 'F_p}) e, (1 < size f)%N -> (e < 0)%coqZ -> gp_exp o (enc f) e = Exn.
Proof. move=> pp hP hc; exact: (t_exp_neg pp hP hc). Qed.
Theorem C33_exp_const : prime p -> (Z.of_nat p <= 46341)%coqZ -> cache_valid c ->
  forall (a : 'F_p) e, a != 0 -> (INT_MIN < e <= INT_MAX)%coqZ ->
  gp_exp o (enc a%:P) e = Ok (enc (a ^ int_of_Z e)%:P).
Proof. move=> pp hP hc; exact: (t_exp_const pp hP hc). Qed.
Theorem C33_exp_zero : prime p -> (Z.of_nat p <= 46341)%coqZ -> cache_valid c ->
  forall e, gp_exp o (enc 0) e = if Z.leb e 0 then Exn else Ok (enc 0).
Proof. move=> pp hP hc; exact: (t_exp_zero pp hP hc). Qed.

(* C34: division and gcd *)
Theorem C34_quot_rem : prime p -> (Z.of_nat p <= 46341)%coqZ -> cache_valid c ->
  forall f g : {poly 'F_p}, g != 0 ->
  exists q r, gp_quot_rem o (enc f) (enc g) = Ok (enc q, enc r) /\ f = q * g + r /\ (size r < size g)%N /\
    gp_div o (enc f) (enc g) = Ok (enc q) /\ gp_mod o (enc f) (enc g) = Ok (enc r).
Proof.
move=> pp hP hc f g g0; exists (f %/ g), (f %% g); have e := t_quot pp hP hc f g0.
by rewrite /gp_div /gp_mod e -divp_eq ltn_modp.
Qed.
Theorem C34_quot_rem_zero : prime p -> (Z.of_nat p <= 46341)%coqZ -> cache_valid c ->
  forall f : {poly 'F_p}, gp_quot_rem o (enc f) (enc 0) = Exn.
Proof. move=> pp hP hc; exact: (t_quot0 pp hP hc). Qed.
(* greatest with respect to divisibility; not normalised to be monic *)
Theorem C34_gcd : prime p -> (Z.of_nat p <= 46341)%coqZ -> cache_valid c ->
  forall f g : {poly 'F_p}, exists d, gp_gcd o (enc f) (enc g) = Ok (enc d) /\
    d %| f /\ d %| g /\ forall h : {poly 'F_p}, h %| f -> h %| g -> h %| d.
Proof.
move=> pp hP hc f g; have [d [e h]] := t_gcd pp hP hc f g; exists d; split=> //.
rewrite !(eqp_dvdl _ h) dvdp_gcdl dvdp_gcdr; split=> //; split=> // k h1 h2.
by rewrite (eqp_dvdr _ h) dvdp_gcd h1.
Qed.
Theorem C34_ext_gcd_partial : prime p -> (Z.of_nat p <= 46341)%coqZ -> cache_valid c ->
  forall f g : {poly 'F_p}, g != 0 -> exists d u v, gp_ext_gcd o (enc f) (enc g) = Ok (enc d, enc u, enc v) /\
    u * f + v * g = d /\ d %| f /\ d %| g.
Proof.
move=> pp hP hc f g g0; have [d [u [v [e [h1 h2]]]]] := t_ext pp hP hc f g0; exists d, u, v; split=> //; split=> //.
by rewrite !(eqp_dvdl _ h1) dvdp_gcdl dvdp_gcdr.
Qed.
Theorem C34_ext_gcd_refuted : prime p -> (Z.of_nat p <= 46341)%coqZ -> cache_valid c ->
  forall f : {poly 'F_p}, gp_ext_gcd o (enc f) (enc 0) = Exn.
Proof. move=> pp hP hc; exact: (t_ext0 pp hP hc). Qed.

(* C58: order, enumeration and integer encoding *)
Theorem C58_compare : prime p -> (Z.of_nat p <= 46341)%coqZ -> cache_valid c ->
  forall f g : {poly 'F_p},
  gp_eqb o (enc f) (enc g) = Ok (f == g) /\ gp_neqb o (enc f) (enc g) = Ok (f != g) /\
  gp_ltb o (enc f) (enc g) = Ok (fp_num f < fp_num g)%N /\ gp_gtb o (enc f) (enc g) = Ok (fp_num g < fp_num f)%N /\
  gp_leb o (enc f) (enc g) = Ok (fp_num f <= fp_num g)%N /\ gp_geb o (enc f) (enc g) = Ok (fp_num g <= fp_num f)%N.
Proof. move=> pp hP hc; exact: (t_cmp pp hP hc). Qed.
Theorem C58_num_injective : prime p -> (Z.of_nat p <= 46341)%coqZ -> cache_valid c -> injective (@fp_num p).
Proof. move=> pp hP hc; exact: (num_inj pp hP hc). Qed.
Theorem C58_increment : prime p -> (Z.of_nat p <= 46341)%coqZ -> cache_valid c ->
  forall f : {poly 'F_p}, exists g, gp_increment o (enc f) = Ok (enc g) /\ fp_num g = (fp_num f).+1.
Proof. move=> pp hP hc; exact: (t_inc pp hP hc). Qed.
Theorem C58_from_base_rep : prime p -> (Z.of_nat p <= 46341)%coqZ -> cache_valid c ->
  forall b, (0 <= b <= INT_MAX)%coqZ ->
  exists f, fp_from_base_rep b (Z.of_nat p) = Ok (enc f) /\ Z.of_nat (fp_num f) = b.
Proof. move=> pp hP hc; exact: (t_base pp hP hc). Qed.

(* C59: derivative, evaluation, coefficient access, p-th roots *)
Theorem C59_deriv : prime p -> (Z.of_nat p <= 46341)%coqZ -> cache_valid c ->
  forall f : {poly 'F_p}, (Z.of_nat (size f) <= INT_MAX)%coqZ -> gp_deriv o (enc f) = Ok (enc f^`()).
Proof. move=> pp hP hc; exact: (t_deriv pp hP hc). Qed.
Theorem C59_eval : prime p -> (Z.of_nat p <= 46341)%coqZ -> cache_valid c ->
  forall (f : {poly 'F_p}) (a : 'F_p), gp_eval o (enc f) (el a) = Ok (el f.[a]).
Proof. move=> pp hP hc; exact: (t_eval pp hP hc). Qed.
Theorem C59_get_coeff : prime p -> (Z.of_nat p <= 46341)%coqZ -> cache_valid c ->
  forall (f : {poly 'F_p}) k, gp_get_coeff o (enc f) k = if Z.ltb k 0 then Exn else Ok (el f`_(Z.to_nat k)).
Proof. move=> pp hP hc; exact: (t_get pp hP hc). Qed.
(* the new polynomial has the coefficient a at k and the old ones elsewhere *)
Theorem C59_set_coeff : prime p -> (Z.of_nat p <= 46341)%coqZ -> cache_valid c ->
  forall (f : {poly 'F_p}) k (a : 'F_p), (0 <= k)%coqZ ->
  exists g, gp_set_coeff o (enc f) k (el a) = Ok (enc g) /\
    forall i, g`_i = if i == Z.to_nat k then a else f`_i.
Proof.
move=> pp hP hc f k a hk; eexists; split; first by rewrite t_set //; case: Z.ltb_spec => //; lia.
move=> i; rewrite coefD coefZ coefXn; case: eqP => [->|_]; last by rewrite mulr0 addr0.
by rewrite mulr1 addrC subrK.
Qed.
Theorem C59_set_coeff_negative : forall (f : {poly 'F_p}) k (a : 'F_p), (k < 0)%coqZ ->
  gp_set_coeff o (enc f) k (el a) = Exn.
Proof. move=> f k a; exact: set_coeff_neg. Qed.
Theorem C59_promote_partial : prime p -> (Z.of_nat p <= 46341)%coqZ -> cache_valid c ->
  forall (f : {poly 'F_p}) (a : 'F_p), f != 0 -> gp_promote o (enc f) = Ok (enc (f * 'X)) /\
  gp_promote_and_add o (enc f) (el a) = Ok (enc (f * 'X + a%:P)).
Proof. move=> pp hP hc; exact: (t_promote pp hP hc). Qed.
Theorem C59_pth_root : prime p -> (Z.of_nat p <= 46341)%coqZ -> cache_valid c ->
  forall f : {poly 'F_p},
  (exists g, fp_pth_root c (enc f) = Ok (Some (enc g)) /\ g ^+ p = f) \/
  (fp_pth_root c (enc f) = Ok None /\ forall g : {poly 'F_p}, g ^+ p <> f).
Proof. move=> pp hP hc; exact: (t_root pp hP hc). Qed.
End Final.

(* polynomials over different primes are rejected *)
Theorem C33_mixed : forall (p q : nat) (f : {poly 'F_p}) (g : {poly 'F_q}) c, prime p -> prime q -> p <> q ->
  gp_add (im_kops c) (fp_enc f) (fp_enc g) = Exn /\ gp_sub (im_kops c) (fp_enc f) (fp_enc g) = Exn.
Proof. exact: t_mixed. Qed.
(* x times the zero polynomial has a representation with a zero leading coefficient, and
   then does not compare equal to zero *)
Theorem C59_promote_refuted : forall (p : nat) c, prime p -> (Z.of_nat p <= 46341)%coqZ -> cache_valid c ->
  exists l, gp_promote (im_kops c) (fp_enc (0 : {poly 'F_p})) = Ok l /\
    gp_eqb (im_kops c) l (fp_enc (0 : {poly 'F_p})) = Ok false.
Proof.
move=> p c pp hP hc; rewrite /fp_enc eqxx /=; have hP2 := P2 pp hP.
rewrite im_sub_ok //; try by clear - hP2; lia.
by eexists.
Qed.
(* from_base_rep with m = 1 never gets past its digit count, and m = 0 divides by zero *)
Theorem C58_base_one_refuted : forall b fuel, (0 < b <= INT_MAX)%coqZ -> loop fuel (base_len_step 1) (b, 0%N) = Div.
Proof.
move=> b fuel hb; move: (0%N) => n; elim: fuel n => [//|k IH] n; cbn [loop].
rewrite /base_len_step; have -> : Z.eqb b 0 = false by lia.
rewrite /idiv /= Z.quot_1_r chk_ok; last by rewrite /INT_MIN; lia.
by rewrite bind_ok IH.
Qed.
Theorem C58_base_zero_refuted : forall b, (0 <= b <= INT_MAX)%coqZ -> fp_from_base_rep b 0 = UB.
Proof.
move=> b hb; rewrite /fp_from_base_rep; case: Z.eqb_spec => [->//|h].
change 34%N with (S 33%N); cbn [loop]; rewrite /base_len_step; have -> : Z.eqb b 0 = false by lia.
by [].
Qed.

(* ---- concrete cases over F_7 and F_2 *)
Definition im7 (l : list Z) : list intmod := List.map (fun r => mkim r 7) l.
Example C33_ex :
  gp_mul (im_kops cache_init) (im7 [:: 3; 0; 5]%coqZ) (im7 [:: 1; 2]%coqZ) = Ok (im7 [:: 3; 6; 5; 3]%coqZ) /\
  gp_add (im_kops cache_init) (im7 [:: 3; 0; 5]%coqZ) (im7 [:: 4; 1; 2]%coqZ) = Ok (im7 [:: 0; 1]%coqZ) /\
  gp_neg (im_kops cache_init) (im7 [:: 3; 1]%coqZ) = UB /\
  fp_make2 cache_init (-1) 9 7 = Ok (im7 [:: 2; 6]%coqZ) /\
  gp_exp (im_kops cache_init) (im7 [:: 1; 1]%coqZ) 7 = Ok (im7 [:: 1; 0; 0; 0; 0; 0; 0; 1]%coqZ).
Proof. by vm_compute. Qed.
Example C33_enc_ex : fp_enc (1 : {poly 'F_7}) = im7 [:: 1%coqZ] /\ prime 7.
Proof. by rewrite /fp_enc oner_eq0 polyseq1. Qed.
Example C34_ex :
  gp_quot_rem (im_kops cache_init) (im7 [:: 1; 2; 3; 4]%coqZ) (im7 [:: 2; 3]%coqZ) = Ok (im7 [:: 5; 4; 6]%coqZ, im7 [:: 5%coqZ]) /\
  gp_gcd (im_kops cache_init) (im7 [:: 6; 0; 1]%coqZ) (im7 [:: 5; 2]%coqZ) = Ok (im7 [:: 5; 2]%coqZ) /\
  gp_ext_gcd (im_kops cache_init) (im7 [:: 1; 1]%coqZ) (im7 [:: 0%coqZ]) = Exn.
Proof. by vm_compute. Qed.
Example C58_ex :
  fp_from_base_rep 100 7 = Ok (im7 [:: 2; 0; 2]%coqZ) /\
  gp_increment (im_kops cache_init) (im7 [:: 6; 6]%coqZ) = Ok (im7 [:: 0; 0; 1]%coqZ) /\
  gp_ltb (im_kops cache_init) (im7 [:: 6; 1]%coqZ) (im7 [:: 0; 2]%coqZ) = Ok true.
Proof. by vm_compute. Qed.
Example C59_ex :
  gp_deriv (im_kops cache_init) (im7 [:: 1; 2; 3; 4]%coqZ) = Ok (im7 [:: 2; 6; 5]%coqZ) /\
  gp_eval (im_kops cache_init) (im7 [:: 1; 2; 3]%coqZ) (mkim 2 7) = Ok (mkim 3 7) /\
  fp_pth_root cache_init (im7 [:: 2; 0; 0; 0; 0; 0; 0; 3]%coqZ) = Ok (Some (im7 [:: 2; 3]%coqZ)) /\
  fp_pth_root cache_init (im7 [:: 2; 1]%coqZ) = Ok None /\
  gp_set_coeff (im_kops cache_init) (im7 [:: 2; 1]%coqZ) 3 (mkim 4 7) = Ok (im7 [:: 2; 1; 0; 4]%coqZ) /\
  gp_promote (im_kops cache_init) (im7 [:: 0%coqZ]) = Ok (im7 [:: 0; 0]%coqZ).
Proof. by vm_compute. Qed.

Print Assumptions C33_ring.
Print Assumptions C33_exp.
Print Assumptions C34_quot_rem.
Print Assumptions C34_ext_gcd_partial.
Print Assumptions C58_increment.
Print Assumptions C59_pth_root.
