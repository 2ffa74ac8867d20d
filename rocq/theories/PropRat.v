(* Final theorems for spffl/rationals: f2_polyrat_t (C48), fp_polyrat_t and f2n_polyrat_t
   (C76).

   A rational function is an element of mathcomp's field of fractions of {poly F}; p%:F is
   the polynomial p in it.  [qenc enc x] is the object that represents x: the pair
   (enc (qnum x), enc (qden x)); the theorems ..._lowest_terms say what qnum and qden are
   and ..._canonical that no two rational functions share an object.
   f2_enc, fp_enc, g2_enc are the objects for polynomials of PropLinalg.v, PropFpPoly.v,
   PropF2nPoly.v; valN, fp_num, g2_num the numbers by which polynomials are ordered
   (C54, C58, C64). *)
From Verif Require Import Base MIntMath MIntmod MMat MBits MF2Poly MPoly MF2nPoly MLinalg MRat PF2Poly PF2Poly3 PIntmod.
From mathcomp Require Import all_ssreflect all_algebra fraction ssrZ finfield.
From Verif Require Import PMat PFp PBits2 PBits3 PF2Poly2 PF2Poly4 PPoly PPoly2 PPoly3 PFpPoly PF2n PEd PLinalg PRat PRat2.
From Verif Require PropF2Poly.
From Verif Require Import PropFpPoly PropF2nPoly PropLinalg.
Set Implicit Arguments.
Unset Strict Implicit.
Unset Printing Implicit Defensive.
Import GRing.Theory.
Delimit Scope Z_scope with coqZ.
Local Open Scope ring_scope.
Local Notation "p %:F" := (FracField.tofrac p).
Local Notation F2 := [finFieldType of 'F_2].

Lemma ok_inj T (a b : T) : Ok a = Ok b -> a = b. Proof. by case. Qed.
Lemma lowest (F : fieldType) (x : {fraction {poly F}}) :
  [/\ qden x != 0, coprimep (qnum x) (qden x) & x = (qnum x)%:F / (qden x)%:F].
Proof. by have [h1 h2 h3] := qpairP x; split=> //; exact: Eu_coprime h2. Qed.
Lemma cross_eq (F : fieldType) (x y : {fraction {poly F}}) : (qnum x * qden y == qden x * qnum y) = (x == y).
Proof.
have [h1 _ h3] := qpairP x; have [h1' _ h3'] := qpairP y.
by rewrite {3}h3 {3}h3' frac_eq // [qden x * _]mulrC.
Qed.
(* n/d in lowest terms with n, d unique up to a common constant factor *)
Lemma lowest_scale (F : fieldType) (n d : {poly F}) : d != 0 -> coprimep n d ->
  exists c : F, [/\ c != 0, qnum (n%:F / d%:F) = c *: n & qden (n%:F / d%:F) = c *: d].
Proof.
move=> d0 cp; have [g hg] := Eu_ex n d.
have /size_poly1P [k k0 eg] : size g == 1%N by rewrite (eqp_size (Eu_gcd hg)) -coprimep_def.
exists k^-1; have k1 : k^-1 != 0 by rewrite invr_eq0.
suff [] : qnum (n%:F / d%:F) = k^-1 *: n /\ qden (n%:F / d%:F) = k^-1 *: d by split.
apply: qpair_eq; first by rewrite scaler_eq0 negb_or k1.
  have kp : (k^-1)%:P != 0 :> {poly F} by rewrite polyC_eq0.
  by have := Eu_mul kp hg; rewrite !mul_polyC eg -alg_polyC scalerA mulVf // scale1r.
apply/eqP; rewrite frac_eq ?scaler_eq0 ?negb_or ?k1 //.
by rewrite -scalerAr -scalerAl mulrC.
Qed.

(* ---------------------------------------------------------------- C48 *)
Section C48.
Local Notation K := {fraction {poly 'F_2}}.
Implicit Types (x y : K) (n d : {poly 'F_2}).
Local Notation qe := (qenc f2_enc).
Let sp := f2_rspec.
Theorem C48_lowest_terms x : [/\ qden x != 0, coprimep (qnum x) (qden x) & x = (qnum x)%:F / (qden x)%:F].
Proof. exact: lowest. Qed.
Theorem C48_representation n d : d != 0 -> coprimep n d -> qe (n%:F / d%:F) = mkrat (f2_enc n) (f2_enc d).
Proof.
move=> d0 cp; have [c [c0 e1 e2]] := lowest_scale d0 cp; rewrite /qenc e1 e2.
by rewrite (_ : c = 1) ?scale1r //; case: (Ib_surj c) c0 => -[] <-.
Qed.
Theorem C48_canonical : injective qe.
Proof. by move=> x y; exact: (e_inj sp f2_encP). Qed.
Theorem C48_make n d : f2q_make (f2_enc n) (f2_enc d) = if d == 0 then Exn else Ok (qe (n%:F / d%:F)).
Proof. exact: (e_make sp f2_encP). Qed.
Theorem C48_poly n : f2q_poly (f2_enc n) = Ok (qe n%:F).
Proof. exact: (e_poly sp f2_encP). Qed.
Theorem C48_ring x y : f2q_add (qe x) (qe y) = Ok (qe (x + y)) /\ f2q_sub (qe x) (qe y) = Ok (qe (x - y)) /\
  f2q_mul (qe x) (qe y) = Ok (qe (x * y)).
Proof. exact: (e_ring sp f2_encP). Qed.
Theorem C48_neg x : f2q_neg (qe x) = Ok (qe (- x)).
Proof.
rewrite /f2q_neg /q_neg /= /f2_neg; congr Ok; apply: (qencE sp f2_encP).
have -> : - x = x; last exact: (qencP f2_encP).
have [_ _ e] := qpairP x; rewrite e -mulNr -raddfN /=.
by rewrite oppF2.
Qed.
Theorem C48_div x y : f2q_div (qe x) (qe y) = if y == 0 then Exn else Ok (qe (x / y)).
Proof. exact: (e_div sp f2_encP). Qed.
Theorem C48_mod x y : f2q_mod (qe x) (qe y) = if y == 0 then Exn else Ok (qe 0).
Proof. exact: (e_mod sp f2_encP). Qed.
Theorem C48_eq x y n : f2q_eqb (qe x) (qe y) = Ok (x == y) /\ f2q_eq_poly (qe x) (f2_enc n) = Ok (x == n%:F).
Proof. exact (conj (e_eqb sp f2_encP x y) (e_eqp sp f2_encP x n)). Qed.
Theorem C48_exp x e : (- INT_MAX <= e <= INT_MAX)%coqZ ->
  f2q_exp (qe x) e = if (e <=? 0)%coqZ && (x == 0) then Exn
                     else Ok (qe (if (e <? 0)%coqZ then x^-1 ^+ Z.to_nat (- e) else x ^+ Z.to_nat e)).
Proof. exact: (e_exp sp f2_encP). Qed.
Theorem C48_exp_min_refuted x : x != 0 -> f2q_exp (qe x) INT_MIN = UB.
Proof. exact: (e_exp_min sp f2_encP). Qed.
(* comparison: by the numbers of the cross products *)
Lemma valN_enc l n : isL l n -> valN l = valN (f2_enc n).
Proof.
move=> [w [e _]]; have h := f2_encP n; apply: valN_ext => //; first exact: (proj1 (proj1 h)).
move=> i; have e' := proj2 h; have : (P l)`_i = (P (f2_enc n))`_i by rewrite e e'.
by rewrite !coefPl => /Ib_inj.
Qed.
Theorem C48_compare x y :
  let a := valN (f2_enc (qnum x * qden y)) in let b := valN (f2_enc (qden x * qnum y)) in
  [/\ f2q_ltb (qe x) (qe y) = Ok (a <? b)%num, f2q_leb (qe x) (qe y) = Ok (a <=? b)%num,
      f2q_gtb (qe x) (qe y) = Ok (b <? a)%num & f2q_geb (qe x) (qe y) = Ok (b <=? a)%num].
Proof.
move=> a b; have H f : exists u v, q_cmp f2p_cops f (qe x) (qe y) = f u v /\
    f2_cmp u v = Ok (N.compare a b).
  have [u [v [e hu hv]]] := e_cmp sp f2_encP f x y; exists u, v; split=> //.
  by rewrite cmp_valN ?(valN_enc hu) ?(valN_enc hv) //; [case: hu|case: hv].
rewrite /f2q_ltb /f2q_leb /f2q_gtb /f2q_geb /q_ltb /q_leb /q_gtb /q_geb; split.
- by have [u [v [-> e]]] := H f2_ltb; rewrite /f2_ltb e bind_ok /N.ltb; case: N.compare.
- by have [u [v [-> e]]] := H f2_leb; rewrite /f2_leb e bind_ok /N.leb; case: N.compare.
- by have [u [v [-> e]]] := H f2_gtb; rewrite /f2_gtb e bind_ok /N.ltb N.compare_antisym; case: N.compare.
- by have [u [v [-> e]]] := H f2_geb; rewrite /f2_geb e bind_ok /N.leb N.compare_antisym; case: N.compare.
Qed.
Lemma valN_enc_inj n d : valN (f2_enc n) = valN (f2_enc d) -> n = d.
Proof.
move=> e; have h1 := f2_encP n; have h2 := f2_encP d.
have e' := valN_inj _ _ (proj1 h1) (proj1 h2) e.
by rewrite -(proj2 h1) -(proj2 h2) e'.
Qed.
(* of two distinct rational functions at least one is less than the other *)
Theorem C48_compare_total x y : f2q_leb (qe x) (qe y) = Ok true \/ f2q_geb (qe x) (qe y) = Ok true.
Proof.
have [_ -> _ ->] := C48_compare x y; rewrite -/(is_true _).
set a := valN _; set b := valN _.
by have [h|h] := N.le_ge_cases a b; [left|right]; congr Ok; apply/N.leb_le.
Qed.
Theorem C48_compare_eq x y : f2q_leb (qe x) (qe y) = Ok true -> f2q_geb (qe x) (qe y) = Ok true -> x = y.
Proof.
have [_ -> _ ->] := C48_compare x y => -[/N.leb_le h1] [/N.leb_le h2].
by apply/eqP; rewrite -cross_eq; apply/eqP/valN_enc_inj/N.le_antisymm.
Qed.
Theorem C48_order_refuted : exists x y z,
  [/\ f2q_ltb (qe x) (qe y) = Ok true, f2q_ltb (qe y) (qe z) = Ok true & f2q_ltb (qe x) (qe z) = Ok false].
Proof.
pose q (a b : N) : K := (P [:: a])%:F / (P [:: b])%:F.
have Q (a b : N) : (a < 2 ^ 64)%num -> (b < 2 ^ 64)%num -> f2q_make [:: a] [:: b] = Ok (mkrat [:: a] [:: b]) ->
  qe (q a b) = mkrat [:: a] [:: b].
  move=> ha hb; have e1 : [:: a] = f2_enc (P [:: a]) by apply: f2_encE; split=> //; exact: PropF2Poly.canon1.
  have e2 : [:: b] = f2_enc (P [:: b]) by apply: f2_encE; split=> //; exact: PropF2Poly.canon1.
  by have := C48_make (P [:: a]) (P [:: b]); rewrite -e1 -e2 => -> h; move: h; case: eqP => // _ h; apply: ok_inj h.
by exists (q 1 1)%num, (q 3 2)%num, (q 5 7)%num; rewrite !Q //; vm_compute.
Qed.
End C48.

(* ---------------------------------------------------------------- C76, generic part *)
Section GenR.
Variables (A : Type) (o : kops A) (F : fieldType) (V : A -> Prop) (I : A -> F) (kv : A -> nat).
Hypothesis spec : kspec o V I kv.
Variable enc : {poly F} -> list A.
Local Notation isG := (isG V I).
Hypotheses (encG : forall f, isG (enc f) f) (Genc : forall l f, isG l f -> l = enc f).
Local Notation K := {fraction {poly F}}.
Local Notation qe := (qenc enc).
Let sp := gp_rspec spec.
Lemma gr_inj : injective qe. Proof. by move=> x y; exact: (e_inj sp encG). Qed.
Lemma gr_make (n d : {poly F}) : gq_make o (enc n) (enc d) = if d == 0 then Exn else Ok (qe (n%:F / d%:F)).
Proof. exact: (e_make sp encG). Qed.
Lemma gr_poly (n : {poly F}) : gq_poly o (enc n) = Ok (qe n%:F).
Proof. exact: (e_poly sp encG). Qed.
Lemma gr_ring (x y : K) : gq_add o (qe x) (qe y) = Ok (qe (x + y)) /\ gq_sub o (qe x) (qe y) = Ok (qe (x - y)) /\
  gq_mul o (qe x) (qe y) = Ok (qe (x * y)).
Proof. exact: (e_ring sp encG). Qed.
Lemma gr_div (x y : K) : gq_div o (qe x) (qe y) = (if y == 0 then Exn else Ok (qe (x / y))) /\
  gq_mod o (qe x) (qe y) = if y == 0 then Exn else Ok (qe 0).
Proof. exact (conj (e_div sp encG x y) (e_mod sp encG x y)). Qed.
Lemma gr_eq (x y : K) n : gq_eqb o (qe x) (qe y) = Ok (x == y) /\ gq_eq_poly o (qe x) (enc n) = Ok (x == n%:F).
Proof. exact (conj (e_eqb sp encG x y) (e_eqp sp encG x n)). Qed.
Lemma gr_exp (x : K) e : (- INT_MAX <= e <= INT_MAX)%coqZ ->
  gq_exp o (qe x) e = if (e <=? 0)%coqZ && (x == 0) then Exn
                      else Ok (qe (if (e <? 0)%coqZ then x^-1 ^+ Z.to_nat (- e) else x ^+ Z.to_nat e)).
Proof. exact: (e_exp sp encG). Qed.
Lemma gr_exp_min (x : K) : x != 0 -> gq_exp o (qe x) INT_MIN = UB.
Proof. exact: (e_exp_min sp encG). Qed.
Lemma gr_cmp f (x y : K) : q_cmp (gp_cops o) f (qe x) (qe y) = f (enc (qnum x * qden y)) (enc (qden x * qnum y)).
Proof. by have [a [b [-> ha hb]]] := e_cmp sp encG f x y; rewrite (Genc ha) (Genc hb). Qed.
Lemma gr_neg (x : K) : gq_neg o (qe x) =
  if (size (qnum x) <= 1)%N then Ok (mkrat (enc (- qnum x)) (enc (qden x))) else UB.
Proof.
rewrite /gq_neg /q_neg /=; case: leqP => h; last by rewrite (neg_ub o (encG _) h).
by have [r [-> hr]] := neg_ok spec (encG (qnum x)) h; rewrite bind_ok (Genc hr).
Qed.
(* the constructor accepts exactly the pairs it does not change *)
Lemma gr_of n d : d != 0 -> gq_make o (enc n) (enc d) = Ok (mkrat (enc n) (enc d)) -> qe (n%:F / d%:F) = mkrat (enc n) (enc d).
Proof. by move=> /negbTE h; rewrite gr_make h => e; apply: ok_inj e. Qed.
End GenR.

(* ---------------------------------------------------------------- C76, GF(p) *)
Section C76fp.
Variables (p : nat) (c : cache).
Local Notation enc := (@fp_enc p).
Local Notation qe := (qenc enc).
Local Notation o := (im_kops c).
Local Notation K := {fraction {poly 'F_p}}.
Theorem C76_fp_lowest_terms (x : K) : prime p ->
  [/\ qden x != 0, coprimep (qnum x) (qden x) & x = (qnum x)%:F / (qden x)%:F].
Proof. move=> _; exact: lowest. Qed.
Theorem C76_fp_canonical : prime p -> (Z.of_nat p <= 46341)%coqZ -> cache_valid c -> injective qe.
Proof. move=> pp hP hc; exact: (gr_inj (im_kspec pp hP hc) (PropFpPoly.encG pp)). Qed.
Theorem C76_fp_make : prime p -> (Z.of_nat p <= 46341)%coqZ -> cache_valid c -> forall n d : {poly 'F_p},
  gq_make o (enc n) (enc d) = (if d == 0 then Exn else Ok (qe (n%:F / d%:F))) /\ gq_poly o (enc n) = Ok (qe n%:F).
Proof.
move=> pp hP hc n d; split; first exact: (gr_make (im_kspec pp hP hc) (PropFpPoly.encG pp)).
exact: (gr_poly (im_kspec pp hP hc) (PropFpPoly.encG pp)).
Qed.
Theorem C76_fp_ring : prime p -> (Z.of_nat p <= 46341)%coqZ -> cache_valid c -> forall x y : K,
  gq_add o (qe x) (qe y) = Ok (qe (x + y)) /\ gq_sub o (qe x) (qe y) = Ok (qe (x - y)) /\
  gq_mul o (qe x) (qe y) = Ok (qe (x * y)).
Proof. move=> pp hP hc; exact: (gr_ring (im_kspec pp hP hc) (PropFpPoly.encG pp)). Qed.
Theorem C76_fp_div : prime p -> (Z.of_nat p <= 46341)%coqZ -> cache_valid c -> forall x y : K,
  gq_div o (qe x) (qe y) = (if y == 0 then Exn else Ok (qe (x / y))) /\
  gq_mod o (qe x) (qe y) = if y == 0 then Exn else Ok (qe 0).
Proof. move=> pp hP hc; exact: (gr_div (im_kspec pp hP hc) (PropFpPoly.encG pp)). Qed.
Theorem C76_fp_eq : prime p -> (Z.of_nat p <= 46341)%coqZ -> cache_valid c -> forall (x y : K) n,
  gq_eqb o (qe x) (qe y) = Ok (x == y) /\ gq_eq_poly o (qe x) (enc n) = Ok (x == n%:F).
Proof. move=> pp hP hc; exact: (gr_eq (im_kspec pp hP hc) (PropFpPoly.encG pp)). Qed.
Theorem C76_fp_exp : prime p -> (Z.of_nat p <= 46341)%coqZ -> cache_valid c -> forall (x : K) e,
  (- INT_MAX <= e <= INT_MAX)%coqZ ->
  gq_exp o (qe x) e = if (e <=? 0)%coqZ && (x == 0) then Exn
                      else Ok (qe (if (e <? 0)%coqZ then x^-1 ^+ Z.to_nat (- e) else x ^+ Z.to_nat e)).
Proof. move=> pp hP hc; exact: (gr_exp (im_kspec pp hP hc) (PropFpPoly.encG pp)). Qed.
Theorem C76_fp_exp_min_refuted : prime p -> (Z.of_nat p <= 46341)%coqZ -> cache_valid c -> forall x : K,
  x != 0 -> gq_exp o (qe x) INT_MIN = UB.
Proof. move=> pp hP hc; exact: (gr_exp_min (im_kspec pp hP hc) (PropFpPoly.encG pp)). Qed.
Theorem C76_fp_compare : prime p -> (Z.of_nat p <= 46341)%coqZ -> cache_valid c -> forall x y : K,
  let a := fp_num (qnum x * qden y) in let b := fp_num (qden x * qnum y) in
  [/\ gq_ltb o (qe x) (qe y) = Ok (a < b)%N, gq_leb o (qe x) (qe y) = Ok (a <= b)%N,
      gq_gtb o (qe x) (qe y) = Ok (b < a)%N, gq_geb o (qe x) (qe y) = Ok (b <= a)%N & (a == b) = (x == y)].
Proof.
move=> pp hP hc x y a b; have H f := gr_cmp (im_kspec pp hP hc) (PropFpPoly.encG pp) (@PropFpPoly.Genc p pp hP c hc) f x y.
rewrite /gq_ltb /gq_leb /gq_gtb /gq_geb /q_ltb /q_leb /q_gtb /q_geb !H.
have [_ [_ [h1 [h2 [h3 h4]]]]] := PropFpPoly.C58_compare pp hP hc (qnum x * qden y) (qden x * qnum y).
by split=> //; rewrite -cross_eq; apply: inj_eq; exact: (PropFpPoly.C58_num_injective pp hP hc).
Qed.
(* unary minus gives a fraction equal to -x for constant numerators only, and in that case
   the pair need not be the one that represents -x *)
Theorem C76_fp_neg_partial : prime p -> (Z.of_nat p <= 46341)%coqZ -> cache_valid c -> forall x : K,
  gq_neg o (qe x) = (if (size (qnum x) <= 1)%N then Ok (mkrat (enc (- qnum x)) (enc (qden x))) else UB) /\
  - x = (- qnum x)%:F / (qden x)%:F.
Proof.
move=> pp hP hc x; split; last by rewrite raddfN /= mulNr; have [_ _ {1}->] := lowest x.
exact: (gr_neg (im_kspec pp hP hc) (PropFpPoly.encG pp) (@PropFpPoly.Genc p pp hP c hc)).
Qed.
End C76fp.

Lemma rat7 b d : (0 <= b <= INT_MAX)%coqZ -> (0 < d <= INT_MAX)%coqZ -> forall n m,
  fp_from_base_rep b 7 = Ok n -> fp_from_base_rep d 7 = Ok m ->
  gq_make (im_kops cache_init) n m = Ok (mkrat n m) ->
  exists x : {fraction {poly 'F_7}}, qenc (@fp_enc 7) x = mkrat n m.
Proof.
have pp : prime 7 by []. have hP : (Z.of_nat 7 <= 46341)%coqZ by [].
have hc : cache_valid cache_init by exact: cache_init_valid.
move=> hb hd n m.
have [f [ef _]] := PropFpPoly.C58_from_base_rep pp hP hc hb.
have hd' : (0 <= d <= INT_MAX)%coqZ by clear - hd; lia.
have [g [eg ng]] := PropFpPoly.C58_from_base_rep pp hP hc hd'.
rewrite -[7%coqZ]/(Z.of_nat 7) ef eg => e1 e2 h.
move: (ok_inj e1) (ok_inj e2) h => <- <- h; exists (f%:F / g%:F).
apply: (gr_of (im_kspec pp hP hc) (PropFpPoly.encG pp)) h.
apply/eqP => g0; move: ng; rewrite g0 /fp_num size_poly0 big_ord0 => e; clear - e hd; lia.
Qed.
(* 1/x over GF(7): - (1/x) is stored as 6/x, 0 - 1/x as 1/6x, and == says they differ *)
Theorem C76_fp_neg_refuted : exists (x : {fraction {poly 'F_7}}) a b,
  [/\ gq_neg (im_kops cache_init) (qenc (@fp_enc 7) x) = Ok a,
      gq_sub (im_kops cache_init) (qenc (@fp_enc 7) x) (qenc (@fp_enc 7) x) = Ok b /\
      (exists d, gq_sub (im_kops cache_init) b (qenc (@fp_enc 7) x) = Ok d /\ gq_eqb (im_kops cache_init) a d = Ok false) &
      exists d, gq_add (im_kops cache_init) a (qenc (@fp_enc 7) x) = Ok d /\ gq_eqb (im_kops cache_init) d b = Ok true].
Proof.
have [x ex] : exists x : {fraction {poly 'F_7}}, qenc (@fp_enc 7) x = mkrat (im7 [:: 1%coqZ]) (im7 [:: 0; 1]%coqZ).
  by apply: (@rat7 1 7); vm_compute.
exists x, (mkrat (im7 [:: 6%coqZ]) (im7 [:: 0; 1]%coqZ)), (mkrat (im7 [:: 0%coqZ]) (im7 [:: 1%coqZ])); rewrite ex; split.
- by vm_compute.
- split; first by vm_compute.
  by exists (mkrat (im7 [:: 1%coqZ]) (im7 [:: 0; 6]%coqZ)); split; vm_compute.
by exists (mkrat (im7 [:: 0%coqZ]) (im7 [:: 1%coqZ])); split; vm_compute.
Qed.
(* the relation < has a cycle: x/(6x+1) < x/(5x+2) < 4x/(5x+4) < x/(6x+1) *)
Theorem C76_fp_order_refuted : exists x y z : {fraction {poly 'F_7}},
  [/\ gq_ltb (im_kops cache_init) (qenc (@fp_enc 7) x) (qenc (@fp_enc 7) y) = Ok true,
      gq_ltb (im_kops cache_init) (qenc (@fp_enc 7) y) (qenc (@fp_enc 7) z) = Ok true &
      gq_ltb (im_kops cache_init) (qenc (@fp_enc 7) z) (qenc (@fp_enc 7) x) = Ok true].
Proof.
have [x ex] : exists x : {fraction {poly 'F_7}}, qenc (@fp_enc 7) x = mkrat (im7 [:: 0; 1]%coqZ) (im7 [:: 1; 6]%coqZ).
  by apply: (@rat7 7 43); vm_compute.
have [y ey] : exists y : {fraction {poly 'F_7}}, qenc (@fp_enc 7) y = mkrat (im7 [:: 0; 1]%coqZ) (im7 [:: 2; 5]%coqZ).
  by apply: (@rat7 7 37); vm_compute.
have [z ez] : exists z : {fraction {poly 'F_7}}, qenc (@fp_enc 7) z = mkrat (im7 [:: 0; 4]%coqZ) (im7 [:: 4; 5]%coqZ).
  by apply: (@rat7 28 39); vm_compute.
by exists x, y, z; rewrite ex ey ez; vm_compute.
Qed.

(* ---------------------------------------------------------------- C76, GF(2^n) *)
Section C76g2.
Variable G : gf2.
Local Notation L := (gf_L G).
Local Notation enc := (@g2_enc G).
Local Notation qe := (qenc enc).
Local Notation o := f2n_kops.
Local Notation K := {fraction {poly L}}.
Let sp : kspec f2n_kops (Vg (gf_m G)) (@Ig L (gf_emb G) (gf_z G)) kg := f2n_kspec (gf_irr G) (gf_root G) (gf_card G).
Theorem C76_f2n_lowest_terms (x : K) :
  [/\ qden x != 0, coprimep (qnum x) (qden x) & x = (qnum x)%:F / (qden x)%:F].
Proof. exact: lowest. Qed.
Theorem C76_f2n_canonical : injective qe.
Proof. exact: (gr_inj sp (@PropF2nPoly.encG G)). Qed.
Theorem C76_f2n_make : forall n d : {poly L},
  gq_make o (enc n) (enc d) = (if d == 0 then Exn else Ok (qe (n%:F / d%:F))) /\ gq_poly o (enc n) = Ok (qe n%:F).
Proof. exact (fun n d => conj (gr_make sp (@PropF2nPoly.encG G) n d) (gr_poly sp (@PropF2nPoly.encG G) n)). Qed.
Theorem C76_f2n_ring : forall x y : K,
  gq_add o (qe x) (qe y) = Ok (qe (x + y)) /\ gq_sub o (qe x) (qe y) = Ok (qe (x - y)) /\
  gq_mul o (qe x) (qe y) = Ok (qe (x * y)).
Proof. exact: (gr_ring sp (@PropF2nPoly.encG G)). Qed.
Theorem C76_f2n_div : forall x y : K,
  gq_div o (qe x) (qe y) = (if y == 0 then Exn else Ok (qe (x / y))) /\
  gq_mod o (qe x) (qe y) = if y == 0 then Exn else Ok (qe 0).
Proof. exact: (gr_div sp (@PropF2nPoly.encG G)). Qed.
Theorem C76_f2n_eq : forall (x y : K) n,
  gq_eqb o (qe x) (qe y) = Ok (x == y) /\ gq_eq_poly o (qe x) (enc n) = Ok (x == n%:F).
Proof. exact: (gr_eq sp (@PropF2nPoly.encG G)). Qed.
Theorem C76_f2n_exp : forall (x : K) e, (- INT_MAX <= e <= INT_MAX)%coqZ ->
  gq_exp o (qe x) e = if (e <=? 0)%coqZ && (x == 0) then Exn
                      else Ok (qe (if (e <? 0)%coqZ then x^-1 ^+ Z.to_nat (- e) else x ^+ Z.to_nat e)).
Proof. exact: (gr_exp sp (@PropF2nPoly.encG G)). Qed.
Theorem C76_f2n_exp_min_refuted : forall x : K, x != 0 -> gq_exp o (qe x) INT_MIN = UB.
Proof. exact: (gr_exp_min sp (@PropF2nPoly.encG G)). Qed.
Theorem C76_f2n_compare : forall x y : K,
  let a := g2_num (qnum x * qden y) in let b := g2_num (qden x * qnum y) in
  [/\ gq_ltb o (qe x) (qe y) = Ok (a < b)%N, gq_leb o (qe x) (qe y) = Ok (a <= b)%N,
      gq_gtb o (qe x) (qe y) = Ok (b < a)%N, gq_geb o (qe x) (qe y) = Ok (b <= a)%N & (a == b) = (x == y)].
Proof.
move=> x y a b; have H f := gr_cmp sp (@PropF2nPoly.encG G) (@PropF2nPoly.Genc G) f x y.
rewrite /gq_ltb /gq_leb /gq_gtb /gq_geb /q_ltb /q_leb /q_gtb /q_geb !H.
have [_ [_ [h1 [h2 [h3 h4]]]]] := PropF2nPoly.C64_compare (qnum x * qden y) (qden x * qnum y).
by split=> //; rewrite -cross_eq; apply: inj_eq; exact: PropF2nPoly.C64_num_injective.
Qed.
(* missing: numerators of positive degree, where the result is undefined *)
Theorem C76_f2n_neg_partial : forall x : K, (size (qnum x) <= 1)%N -> gq_neg o (qe x) = Ok (qe (- x)).
Proof.
move=> x h; rewrite (gr_neg sp (@PropF2nPoly.encG G) (@PropF2nPoly.Genc G)) h /qenc.
have n2 (f : {poly L}) : - f = f.
  by apply/polyP=> i; rewrite coefN (oppr_char2 (char2 (gf_emb G))).
suff -> : - x = x by rewrite n2.
by have [_ _ e] := lowest x; rewrite e -mulNr -raddfN /= n2.
Qed.
Theorem C76_f2n_neg_refuted : forall x : K, (1 < size (qnum x))%N -> gq_neg o (qe x) = UB.
Proof.
by move=> x h; rewrite (gr_neg sp (@PropF2nPoly.encG G) (@PropF2nPoly.Genc G)) leqNgt h.
Qed.
End C76g2.

Example C48_ex :
  f2q_make [:: 6%num] [:: 5%num] = Ok (mkrat [:: 2%num] [:: 3%num]) /\
  f2q_add (mkrat [:: 1%num] [:: 2%num]) (mkrat [:: 1%num] [:: 3%num]) = Ok (mkrat [:: 1%num] [:: 6%num]) /\
  f2q_mul (mkrat [:: 2%num] [:: 3%num]) (mkrat [:: 3%num] [:: 7%num]) = Ok (mkrat [:: 2%num] [:: 7%num]) /\
  f2q_div (mkrat [:: 2%num] [:: 3%num]) (mkrat [:: 0%num] [:: 1%num]) = Exn /\
  f2q_exp (mkrat [:: 2%num] [:: 3%num]) (-2) = Ok (mkrat [:: 5%num] [:: 4%num]) /\
  f2q_ltb (mkrat [:: 1%num] [:: 2%num]) (mkrat [:: 2%num] [:: 3%num]) = Ok true.
Proof. by vm_compute. Qed.
Example C76_ex :
  gq_make (im_kops cache_init) (im7 [:: 6; 0; 1]%coqZ) (im7 [:: 5; 2]%coqZ) =
    gq_make (im_kops cache_init) (im7 [:: 3; 3]%coqZ) (im7 [:: 6%coqZ]) /\
  gq_add (im_kops cache_init) (mkrat (im7 [:: 1%coqZ]) (im7 [:: 0; 1]%coqZ)) (mkrat (im7 [:: 1%coqZ]) (im7 [:: 1; 1]%coqZ)) =
    Ok (mkrat (im7 [:: 3; 6]%coqZ) (im7 [:: 0; 3; 3]%coqZ)) /\
  gq_mul f2n_kops (mkrat (e4 [:: 1%num]) (e4 [:: 0; 2]%num)) (mkrat (e4 [:: 0; 3]%num) (e4 [:: 1%num])) =
    Ok (mkrat (e4 [:: 2%num]) (e4 [:: 1%num])) /\
  gq_neg f2n_kops (mkrat (e4 [:: 0; 3]%num) (e4 [:: 1%num])) = UB.
Proof. by vm_compute. Qed.
Print Assumptions C48_ring.
Print Assumptions C48_exp.
Print Assumptions C48_order_refuted.
Print Assumptions C76_fp_ring.
Print Assumptions C76_fp_neg_refuted.
Print Assumptions C76_f2n_compare.
