(* Final theorems: polynomials with rational coefficients (q_poly_t), the cyclotomic
   polynomials and their table of remembered results, and the reductions to GF(2), GF(p),
   GF(2^n) (C80-C82).

   The coefficients are pairs of C++ ints, so a computation may overflow.  [ubor r v] says
   that r is either undefined behaviour (some int operation overflowed) or v.

   Vocabulary.  [qenc r] is the object that holds the rational number r: numerator and
   positive denominator without a common factor.  [qpenc f] is the object that holds the
   polynomial f: the list of the coefficients, constant term first, without zero leading
   coefficients; one zero for f = 0. *)
From Verif Require Import Base MIntMath MIntmod MIntrat MMat MF2Poly MPoly MF2nPoly MCyclo PIntMath PIntmod PIntrat PMono PF2Poly.
From mathcomp Require Import all_ssreflect all_algebra finfield ssrZ zify.
From Verif Require Import PBits3 PF2Poly2 PF2Poly4 PMat PFp PPoly PPoly2 PPoly3 PPoly4 PFpPoly PF2n PropF2Poly PropFpPoly PropF2nPoly PropLinalg.
From Verif Require Import PQPoly PQPoly2 PCyclo PCyclo2 PCyclo3 PCyclo4.
Require Import Lia.
Set Implicit Arguments.
Unset Strict Implicit.
Unset Printing Implicit Defensive.
Import GRing.Theory ListNotations Num.Theory.
Delimit Scope Z_scope with coqZ.
Local Open Scope ring_scope.
Local Infix "<~" := le_res (at level 70).
Local Notation o := q_kops.
Local Notation enc := qpenc.
Implicit Types (f g : {poly rat}) (a b : rat).

(* C80: arithmetic *)
Theorem C80_ring : forall f g a,
  ubor (gp_add o (enc f) (enc g)) (Ok (enc (f + g))) /\ ubor (gp_sub o (enc f) (enc g)) (Ok (enc (f - g))) /\
  ubor (gp_mul o (enc f) (enc g)) (Ok (enc (f * g))) /\
  ubor (gp_addc o (enc f) (qenc a)) (Ok (enc (f + a%:P))) /\ ubor (gp_subc o (enc f) (qenc a)) (Ok (enc (f - a%:P))) /\
  ubor (gp_mulc o (enc f) (qenc a)) (Ok (enc (a *: f))) /\
  (a != 0 -> ubor (gp_divc o (enc f) (qenc a)) (Ok (enc (a^-1 *: f)))).
Proof.
move=> f g a; have hf := qpG f; have hg := qpG g; have ha := qR a.
split; first exact: uG (m_add _ _ q_kle _ _) (add_ok q_spec hf hg).
split; first exact: uG (m_sub _ _ q_kle _ _) (sub_ok q_spec hf hg).
split; first exact: uG (m_mul _ _ q_kle _ _) (mul_ok q_spec hf hg).
split; first exact: uG (m_addc _ _ q_kle _ _) (addc_ok q_spec hf ha).
split; first exact: uG (m_subc _ _ q_kle _ _) (subc_ok q_spec hf ha).
split; first exact: uG (m_mulc _ _ q_kle _ _) (mulc_ok q_spec hf ha).
by move=> a0; exact: uG (m_divc _ _ q_kle _ _) (divc_ok q_spec hf ha a0).
Qed.
Theorem C80_division : forall f g, g != 0 ->
  ubor (gp_quot_rem o (enc f) (enc g)) (Ok (enc (f %/ g), enc (f %% g))) /\
  ubor (gp_div o (enc f) (enc g)) (Ok (enc (f %/ g))) /\ ubor (gp_mod o (enc f) (enc g)) (Ok (enc (f %% g))).
Proof.
move=> f g g0; split; last split.
- have [x [y [e [hx hy]]]] := quot_rem_ok q_spec (qpG f) (qpG g) g0.
  by have := uB (m_quot_rem _ _ q_kle _ _) e; rewrite (Gqp hx) (Gqp hy).
- exact: uG (m_div _ _ q_kle _ _) (div_ok q_spec (qpG f) (qpG g) g0).
- exact: uG (m_mod _ _ q_kle _ _) (mod_ok q_spec (qpG f) (qpG g) g0).
Qed.
Theorem C80_division_by_zero : forall f, ubor (gp_quot_rem o (enc f) (enc 0)) Exn /\
  ubor (gp_div o (enc f) (enc 0)) Exn /\ ubor (gp_mod o (enc f) (enc 0)) Exn.
Proof.
move=> f; have h := uB (m_quot_rem _ _ q_kle _ _) (quot_rem_0 q_spec (qpG f) (qpG 0)).
by rewrite /gp_div /gp_mod; case: h => ->; do !split; by [left|right].
Qed.
Theorem C80_gcd : forall f g,
  (exists d, d %= gcdp f g /\ ubor (gp_gcd o (enc f) (enc g)) (Ok (enc d))) /\
  (g != 0 -> exists d u v, d %= gcdp f g /\ u * f + v * g = d /\
     ubor (gp_ext_gcd o (enc f) (enc g)) (Ok (enc d, enc u, enc v))).
Proof.
move=> f g; split.
  have [r [d [e [h1 h2]]]] := gcd_ok q_spec (qpG f) (qpG g); exists d; split=> //.
  by have := uB (m_gcd _ _ q_kle _ _) e; rewrite (Gqp h1).
move=> h; have [a [b [d [D [U [W [e [h1 [h2 [h3 [h4 h5]]]]]]]]]]] := ext_gcd_ok q_spec (qpG f) (qpG g) h.
exists D, U, W; split=> //; split=> //.
by have := uB (m_ext_gcd _ _ q_kle _ _) e; rewrite (Gqp h1) (Gqp h2) (Gqp h3).
Qed.
Theorem C80_powers : forall f e, (1 < size f)%N ->
  ((0 <= e <= INT_MAX)%coqZ -> ubor (gp_exp o (enc f) e) (Ok (enc (f ^+ Z.to_nat e)))) /\
  ((e < 0)%coqZ -> ubor (gp_exp o (enc f) e) Exn).
Proof.
move=> f e hf; split=> he; first exact: uG (m_exp _ _ q_kle _ _) (exp_ok q_spec (qpG f) hf he).
exact: uB (m_exp _ _ q_kle _ _) (exp_neg q_spec (qpG f) hf he).
Qed.
Theorem C80_values : forall f a,
  ubor (gp_eval o (enc f) (qenc a)) (Ok (qenc f.[a])) /\
  ((Z.of_nat (size f) <= INT_MAX)%coqZ -> ubor (gp_deriv o (enc f)) (Ok (enc f^`()))).
Proof.
move=> f a; split; first exact: uR (m_eval _ _ q_kle _ _) (eval_ok q_spec (qpG f) (qR a)).
by move=> h; exact: uG (m_deriv _ _ q_kle _) (deriv_ok q_spec (qpG f) h).
Qed.
Theorem C80_compare : forall f g, ubor (gp_eqb o (enc f) (enc g)) (Ok (f == g)) /\ ubor (gp_neqb o (enc f) (enc g)) (Ok (f != g)).
Proof.
move=> f g; split; first exact: uB (m_eqb _ _ q_kle _ _) (eqb_ok q_spec (qpG f) (qpG g)).
exact: uB (m_pneqb _ _ q_kle _ _) (neqb_ok q_spec (qpG f) (qpG g)).
Qed.
Theorem C80_coefficients : forall f a k,
  ubor (gp_get_coeff o (enc f) k) (if Z.ltb k 0 then Exn else Ok (qenc f`_(Z.to_nat k))) /\
  ubor (gp_set_coeff o (enc f) k (qenc a)) (if Z.ltb k 0 then Exn else Ok (enc (f + (a - f`_(Z.to_nat k)) *: 'X^(Z.to_nat k)))).
Proof.
move=> f a k; case: (Z.ltb_spec k 0) => h.
  by rewrite get_coeff_neg // set_coeff_neg //; split; right.
rewrite -{1 3}(Z2Nat.id k h); split; last exact: set_upto.
exact: uR (m_get_coeff _ _ q_kle _ _) (get_coeff_ok q_spec _ (qpG f)).
Qed.
(* the defect: unary minus allocates room for one coefficient only *)
Theorem C80_negate_refuted : forall f, (1 < size f)%N -> gp_neg o (enc f) = UB.
Proof. by move=> f h; exact: (neg_ub _ (qpG f) h). Qed.
Theorem C80_negate_constant : forall a, ubor (gp_neg o (enc a%:P)) (Ok (enc (- a%:P))).
Proof. by move=> a; exact: uG (m_neg _ _ q_kle _) (neg_ok q_spec (qpG _) (size_polyC_leq1 a)). Qed.

(* C81: cyclotomic polynomials *)
Definition is_cyclotomic (P : nat -> {poly int}) : Prop := forall n, (0 < n)%N -> \prod_(d <- divisors n) P d = 'X^n - 1.
(* the table of remembered results after any sequence of calls that returned *)
Inductive reach : memo -> Prop :=
| reach_start : reach memo_init
| reach_call m n m' q : reach m -> (n <= INT_MAX)%coqZ -> get_cyclo_qpoly m n = Ok (m', q) -> reach m'.

Theorem C81_exist : exists P, is_cyclotomic P.
Proof. exact: cyclotomic_exist. Qed.
Lemma divs_split n : (0 < n)%N -> perm_eq (divisors n) (n :: filter (fun d => d < n)%N (divisors n)).
Proof.
move=> n0; apply: uniq_perm; rewrite ?divisors_uniq //= ?mem_filter ?ltnn ?filter_uniq ?divisors_uniq // => d.
rewrite inE mem_filter -!dvdn_divisors //; case: (d =P n) => [->|ne] /=; first by rewrite dvdnn.
by case hd: (d %| n)%N; rewrite ?andbF // andbT; have := dvdn_leq n0 hd; rewrite leq_eqVlt; case/orP=> // /eqP.
Qed.
Lemma cyc_neq0 P n : is_cyclotomic P -> (0 < n)%N -> P n != 0.
Proof.
move=> hP n0; apply/eqP => h; have := hP n n0; rewrite (perm_big _ (divs_split n0)) big_cons /= h mul0r => e.
by have := monic_neq0 (monic_Xn_sub_1 [ringType of int] n0); rewrite -e eqxx.
Qed.
Theorem C81_unique : forall P Q, is_cyclotomic P -> is_cyclotomic Q -> forall n, (0 < n)%N -> P n = Q n.
Proof.
move=> P Q hP hQ n; elim/ltn_ind: n => n IH n0.
have := hP n n0; rewrite -(hQ n n0) !(perm_big _ (divs_split n0)) !big_cons.
have -> : \prod_(j <- filter (fun d => d < n)%N (divisors n)) P j = \prod_(j <- filter (fun d => d < n)%N (divisors n)) Q j.
  rewrite big_seq [RHS]big_seq; apply: eq_bigr => d; rewrite mem_filter -dvdn_divisors // => /andP[h1 h2].
  by apply: IH => //; exact: dvdn_gt0 h2.
apply: mulIf; rewrite prodf_seq_neq0; apply/allP => d; rewrite mem_filter -dvdn_divisors // => /andP[h1 h2].
by apply: (cyc_neq0 hQ); exact: dvdn_gt0 h2.
Qed.
Lemma cyc_rat P : is_cyclotomic P -> forall n, (0 < n)%N -> \prod_(d <- divisors n) pZ (P d) = 'X^n - 1.
Proof. by move=> hP n n0; rewrite -pZX -(hP n n0) /pZ rmorph_prod. Qed.
Lemma reach_ok P m : is_cyclotomic P -> reach m -> memo_ok (fun n => pZ (P n)) m.
Proof.
move=> hP; elim=> [|m1 n m' q _ IH hn e]; first exact: memo_init_ok.
have := get_upto (cyc_rat hP) IH hn; rewrite e; case: ifP => // _; case=> // -[m2 [[-> _]]] //.
Qed.
Theorem C81_value : forall P, is_cyclotomic P -> forall m n, reach m -> (n <= INT_MAX)%coqZ ->
  if (n <? 1)%coqZ then get_cyclo_qpoly m n = Exn
  else get_cyclo_qpoly m n = UB \/ exists m', get_cyclo_qpoly m n = Ok (m', enc (map_poly intr (P (Z.to_nat n)))) /\ reach m'.
Proof.
move=> P hP m n hm hn; have := get_upto (cyc_rat hP) (reach_ok hP hm) hn.
case: ifP => // _ [h|[m' [e _]]]; [by left|right; exists m'; split=> //].
exact: reach_call hm hn e.
Qed.
(* the answer does not depend on the calls made before *)
Theorem C81_history : forall m1 m2 n m1' m2' q1 q2, reach m1 -> reach m2 -> (n <= INT_MAX)%coqZ ->
  get_cyclo_qpoly m1 n = Ok (m1', q1) -> get_cyclo_qpoly m2 n = Ok (m2', q2) -> q1 = q2.
Proof.
move=> m1 m2 n m1' m2' q1 q2 h1 h2 hn e1 e2; have [P hP] := C81_exist.
have := C81_value hP h1 hn; have := C81_value hP h2 hn; rewrite e1 e2.
by case: ifP => // _ [//|[x [[_ ->] _]]] [//|[y [[_ ->] _]]].
Qed.

(* C82: reductions.  [red F r] is the image of the rational number r in the field F, and
   [redp F f] the polynomial of the images of the coefficients of f (PCyclo4). *)
Local Notation dens f P := (has (fun r => P r) (qseq f)).
Definition in_ints f : bool := all int_rat (qseq f).
(* a rational number modulo a prime *)
Theorem C82_residue : forall (p : nat) c r, prime p -> (Z.of_nat p <= 46341)%coqZ -> cache_valid c -> int_rat r ->
  intmod_from_rat c (qenc r) (Z.of_nat p) = if (denq r)%:~R == 0 :> 'F_p then Exn else Ok (@fp_el p ((numq r)%:~R / (denq r)%:~R)).
Proof. by move=> p c r pp hp hc hr; case: (rat_conv pp hp hc r) => // -[h _]; rewrite hr in h. Qed.
Theorem C82_bit : forall r, bit_from_rat (qenc r) = if (denq r)%:~R == 0 :> 'F_2 then Exn else Ok ((numq r)%:~R / (denq r)%:~R == 1 :> 'F_2).
Proof. exact: bit_conv. Qed.
(* a polynomial modulo a prime: the coefficients are right, but the leading zeros stay *)
Theorem C82_mod_p : forall (p : nat) c f, prime p -> (Z.of_nat p <= 46341)%coqZ -> cache_valid c -> in_ints f ->
  fp_poly_from_qpoly c (enc f) (Z.of_nat p) =
  if has (fun r => (denq r)%:~R == 0 :> 'F_p) (qseq f) then Exn else Ok [seq fp_el (red [fieldType of 'F_p] a) | a <- qseq f].
Proof. by move=> p c f pp hp hc hf; case: (fp_red pp hp hc f) => // -[h _]; rewrite /in_ints in hf; rewrite hf in h. Qed.
Lemma seq_red (F : fieldType) (A : Type) (el : F -> A) f : (size f <= 1)%N \/ red F (lead_coef f) != 0 ->
  [seq el (red F a) | a <- qseq f] = [seq el a | a <- (if redp F f == 0 then [:: 0] else polyseq (redp F f))].
Proof.
have r0 : red F 0 = 0 by rewrite /red mul0r.
have cf i : (redp F f)`_i = red F f`_i.
  by rewrite coef_poly; case: ltnP => // h; rewrite nth_default // r0.
move=> h; rewrite /qseq; case: (f =P 0) => [->|/eqP f0].
  have -> : redp F 0 = 0 by apply/polyP=> i; rewrite coef_poly size_poly0 ltn0 coef0.
  by rewrite eqxx /= r0.
have [l0|l0] := eqVneq (red F (lead_coef f)) 0.
  case: h => [h|]; last by rewrite l0 eqxx.
  have s1 : size f = 1%N by apply/eqP; rewrite eqn_leq h size_poly_gt0.
  have -> : redp F f = 0.
    apply/polyP=> i; rewrite cf coef0; case: i => [|i]; first by move: l0; rewrite lead_coefE s1.
    by rewrite nth_default // s1.
  by rewrite eqxx /=; case: (polyseq f) s1 l0 (lead_coefE f) => [|x [|y s]] //= _ l0 e; rewrite e in l0; rewrite l0.
have sz : size (redp F f) = size f.
  by rewrite size_poly_eq // -lead_coefE.
have -> : (redp F f == 0) = false by rewrite -size_poly_eq0 sz size_poly_eq0 (negbTE f0).
apply: (@eq_from_nth _ (el 0)); rewrite !size_map ?sz // => i hi.
by rewrite !(nth_map 0) ?sz // cf.
Qed.
Theorem C82_mod_p_proper : forall (p : nat) c f, prime p -> (Z.of_nat p <= 46341)%coqZ -> cache_valid c -> in_ints f ->
  ~~ has (fun r => (denq r)%:~R == 0 :> 'F_p) (qseq f) -> (size f <= 1)%N \/ red [fieldType of 'F_p] (lead_coef f) != 0 ->
  fp_poly_from_qpoly c (enc f) (Z.of_nat p) = Ok (fp_enc (redp [fieldType of 'F_p] f)).
Proof.
move=> p c f pp hp hc hf hd hl; rewrite C82_mod_p // (negbTE hd); congr Ok.
exact: (@seq_red [fieldType of 'F_p] _ (@fp_el p) f hl).
Qed.
(* the defect: when the leading coefficient is a multiple of p the result is not the object
   of any polynomial *)
Theorem C82_mod_p_refuted : exists f, [/\ in_ints f, ~~ has (fun r => (denq r)%:~R == 0 :> 'F_3) (qseq f) &
  forall c, cache_valid c -> exists l, fp_poly_from_qpoly c (enc f) 3 = Ok l /\ forall g : {poly 'F_3}, l <> fp_enc g].
Proof.
pose f : {poly rat} := (3%:Q)%:P * 'X + 1.
have fE : polyseq f = [:: 1; 3%:Q].
  have -> : f = cons_poly 1 (3%:Q)%:P by rewrite cons_poly_def polyC1.
  by rewrite polyseq_cons nil_poly polyC_eq0 /= polyseqC.
have f0 : f != 0 by rewrite -size_poly_gt0 fE.
have qE : qseq f = [:: 1; 3%:Q] by rewrite /qseq (negbTE f0) fE.
have hi : in_ints f by rewrite /in_ints qE; vm_compute.
have hd : ~~ has (fun r => (denq r)%:~R == 0 :> 'F_3) (qseq f) by rewrite qE; vm_compute.
exists f; split=> // c hc; rewrite (@C82_mod_p 3 c f isT) // (negbTE hd); eexists; split; first by [].
move=> g; rewrite qE [map _ _]/=.
have -> : red [fieldType of 'F_3] 3%:Q = 0 by rewrite /red (numq_int 3) (denq_int 3); apply/eqP; vm_compute.
have -> : fp_el (0 : 'F_3) = mkim 0 3 by [].
rewrite /fp_enc; case: (g =P 0) => [//|/eqP g0].
case eg : (polyseq g) => [|x [|y [|z s]]] // [_ e].
have := lead_coef_eq0 g; rewrite lead_coefE eg /= (negbTE g0) => /negbT; case/negP.
by apply/eqP; apply: val_inj; rewrite /=; clear - e; lia.
Qed.
Theorem C82_gf2n : forall (G : gf2) c im f, cache_valid c -> isP im (gf_m G) -> in_ints f ->
  f2n_poly_from_qpoly c (enc f) im =
  if has (fun r => (denq r)%:~R == 0 :> gf_L G) (qseq f) then Exn else Ok [seq gf_el (red [fieldType of gf_L G] a) | a <- qseq f].
Proof. by move=> G c im f hc hm hf; case: (f2n_red hc hm f) => // -[h _]; rewrite /in_ints in hf; rewrite hf in h. Qed.
Theorem C82_gf2n_proper : forall (G : gf2) c im f, cache_valid c -> isP im (gf_m G) -> in_ints f ->
  ~~ has (fun r => (denq r)%:~R == 0 :> gf_L G) (qseq f) -> (size f <= 1)%N \/ red [fieldType of gf_L G] (lead_coef f) != 0 ->
  f2n_poly_from_qpoly c (enc f) im = Ok (@g2_enc G (redp [fieldType of gf_L G] f)).
Proof.
move=> G c im f hc hm hf hd hl; rewrite (@C82_gf2n G) // (negbTE hd); congr Ok.
exact: (@seq_red [fieldType of gf_L G] _ (@gf_el G) f hl).
Qed.
Theorem C82_gf2_partial : forall f, (size f <= 31)%N -> f2_poly_from_q_poly (enc f) =
  if has (fun r => (denq r)%:~R == 0 :> 'F_2) (qseq f) then Exn else Ok (f2_enc (redp [fieldType of 'F_2] f)).
Proof. exact: f2_red. Qed.
(* the defect: from degree 32 up the reduction to GF(2) shifts an int by 32 bits or more *)
Theorem C82_gf2_refuted : forall f, (33 <= size f)%N -> Nat.modulo (size f).-1 64 <> 31%N ->
  ~~ has (fun r => (denq r)%:~R == 0 :> 'F_2) (qseq f) -> red [fieldType of 'F_2] (lead_coef f) != 0 ->
  f2_poly_from_q_poly (enc f) = UB.
Proof. exact: f2_red_ub. Qed.

Lemma cyc_lead P n (F : fieldType) : is_cyclotomic P -> (0 < n)%N -> (lead_coef (P n))%:~R != 0 :> F.
Proof.
move=> hP n0; have := congr1 lead_coef (hP n n0); rewrite (perm_big _ (divs_split n0)) big_cons /= lead_coefM.
rewrite (monicP (monic_Xn_sub_1 [ringType of int] n0)) => e.
apply/eqP => h; have := congr1 (fun z : int => z%:~R : F) e; rewrite intrM h mul0r => /esym/eqP.
by rewrite oner_eq0.
Qed.
Lemma red_int (F : fieldType) (z : int) : red F (z%:~R) = z%:~R.
Proof. by rewrite /red numq_int denq_int divr1. Qed.
Lemma redp_int (F : fieldType) (p : {poly int}) : redp F (pZ p) = map_poly intr p.
Proof.
apply/polyP=> i; rewrite coef_poly !coef_map /=.
rewrite /pZ size_map_inj_poly //; last exact: intr_inj.
by case: ltnP => h; [rewrite red_int|rewrite (nth_default 0 h)].
Qed.
Lemma lead_pZ (p : {poly int}) : lead_coef (pZ p) = (lead_coef p)%:~R.
Proof. by rewrite /pZ lead_coef_map_inj //; exact: intr_inj. Qed.
Lemma size_pZ (p : {poly int}) : size (pZ p) = size p.
Proof. by rewrite /pZ size_map_inj_poly //; exact: intr_inj. Qed.
Lemma qseq_int (p : {poly int}) r : r \in qseq (pZ p) -> exists z : int, r = z%:~R.
Proof. by move/(nthP 0) => [i _ <-]; rewrite qseq_nth coef_map; eexists. Qed.
Lemma den_int (F : fieldType) (p : {poly int}) : has (fun r => (denq r)%:~R == 0 :> F) (qseq (pZ p)) = false.
Proof. by apply/negbTE/hasPn => r /qseq_int[z ->]; rewrite denq_int oner_eq0. Qed.

(* the cyclotomic polynomials over GF(p), GF(2^n) and GF(2) *)
Theorem C82_cyclotomic_p : forall P, is_cyclotomic P -> forall (p : nat) c m n, prime p -> (Z.of_nat p <= 46341)%coqZ -> cache_valid c ->
  reach m -> (0 < n <= INT_MAX)%coqZ ->
  get_cyclo_fp_poly c m n (Z.of_nat p) = UB \/
  exists m', reach m' /\ get_cyclo_fp_poly c m n (Z.of_nat p) = Ok (m', @fp_enc p (map_poly intr (P (Z.to_nat n)))).
Proof.
move=> P hP p c m n pp hp hc hm hn; have := C81_value hP hm (proj2 hn); rewrite /get_cyclo_fp_poly.
have -> : (n <? 1)%coqZ = false by clear - hn; lia.
have n0 : (0 < Z.to_nat n)%N by clear - hn; lia.
case=> [->|[m' [-> hm']]]; [by left|rewrite bind_ok -/(pZ _)].
case: (fp_red pp hp hc (pZ (P (Z.to_nat n)))) => [[_ ->]|]; first by left.
rewrite den_int => ->; right; exists m'; split=> //; rewrite bind_ok; congr (Ok (_, _)).
rewrite -redp_int; apply: (@seq_red [fieldType of 'F_p] _ (@fp_el p)); right.
by rewrite lead_pZ red_int; exact: cyc_lead.
Qed.
Theorem C82_cyclotomic_2n : forall P, is_cyclotomic P -> forall (G : gf2) im c m n, isP im (gf_m G) -> cache_valid c ->
  reach m -> (0 < n <= INT_MAX)%coqZ ->
  get_cyclo_f2n_poly c m n im = UB \/
  exists m', reach m' /\ get_cyclo_f2n_poly c m n im = Ok (m', @g2_enc G (map_poly intr (P (Z.to_nat n)))).
Proof.
move=> P hP G im c m n him hc hm hn; have := C81_value hP hm (proj2 hn); rewrite /get_cyclo_f2n_poly.
have -> : (n <? 1)%coqZ = false by clear - hn; lia.
have n0 : (0 < Z.to_nat n)%N by clear - hn; lia.
case=> [->|[m' [-> hm']]]; [by left|rewrite bind_ok -/(pZ _)].
case: (f2n_red hc him (pZ (P (Z.to_nat n)))) => [[_ ->]|]; first by left.
rewrite den_int => ->; right; exists m'; split=> //; rewrite bind_ok; congr (Ok (_, _)).
rewrite -redp_int; apply: (@seq_red [fieldType of gf_L G] _ (@gf_el G)); right.
by rewrite lead_pZ red_int; exact: cyc_lead.
Qed.
Theorem C82_cyclotomic_2_partial : forall P, is_cyclotomic P -> forall m n, reach m -> (0 < n <= INT_MAX)%coqZ -> (size (P (Z.to_nat n)) <= 31)%N ->
  get_cyclo_f2_poly m n = UB \/
  exists m', reach m' /\ get_cyclo_f2_poly m n = Ok (m', f2_enc (map_poly intr (P (Z.to_nat n)))).
Proof.
move=> P hP m n hm hn hs; have := C81_value hP hm (proj2 hn); rewrite /get_cyclo_f2_poly.
have -> : (n <? 1)%coqZ = false by clear - hn; lia.
case=> [->|[m' [-> hm']]]; [by left|rewrite bind_ok -/(pZ _)].
rewrite C82_gf2_partial ?size_pZ // den_int bind_ok redp_int.
by right; exists m'.
Qed.
(* the defect: no cyclotomic polynomial of degree 32 or more can be had over GF(2) *)
Theorem C82_cyclotomic_2_refuted : forall P, is_cyclotomic P -> forall m n, reach m -> (0 < n <= INT_MAX)%coqZ -> (33 <= size (P (Z.to_nat n)))%N ->
  Nat.modulo (size (P (Z.to_nat n))).-1 64 <> 31%N -> get_cyclo_f2_poly m n = UB.
Proof.
move=> P hP m n hm hn hs h31; have := C81_value hP hm (proj2 hn); rewrite /get_cyclo_f2_poly.
have -> : (n <? 1)%coqZ = false by clear - hn; lia.
have n0 : (0 < Z.to_nat n)%N by clear - hn; lia.
case=> [->//|[m' [-> hm']]]; rewrite bind_ok -/(pZ _) C82_gf2_refuted ?size_pZ ?den_int //.
by rewrite lead_pZ red_int; exact: cyc_lead.
Qed.
Theorem C82_cyclotomic_reject : forall m n p c im, reach m -> (n < 1)%coqZ ->
  get_cyclo_fp_poly c m n p = Exn /\ get_cyclo_f2n_poly c m n im = Exn /\ get_cyclo_f2_poly m n = Exn.
Proof.
move=> m n p c im hm hn; have [P hP] := C81_exist.
have hM : (n <= INT_MAX)%coqZ by move: hn; rewrite /INT_MAX; clear; lia.
have := C81_value hP hm hM; have -> : (n <? 1)%coqZ = true by clear - hn; lia.
by move=> e; rewrite /get_cyclo_fp_poly /get_cyclo_f2n_poly /get_cyclo_f2_poly e.
Qed.

(* examples *)
Definition zq (l : list Z) : qpoly := [seq mkrat z 1 | z <- l].
Definition zr (l : list (Z * Z)) : qpoly := [seq mkrat z.1 z.2 | z <- l].
Definition okv {T} (r : res (memo * T)) : res T := (' (_, x) <- r ;; Ok x)%res.
Example C80_ex :
  [/\ gp_add o (zr [:: (1, 2); (1, 3)]%coqZ) (zr [:: (1, 3); (-1, 3)]%coqZ) = Ok (zr [:: (5, 6)]%coqZ),
      gp_mul o (zr [:: (1, 2); (1, 3)]%coqZ) (zr [:: (1, 2); (-1, 3)]%coqZ) = Ok (zr [:: (1, 4); (0, 1); (-1, 9)]%coqZ),
      gp_quot_rem o (zr [:: (1, 4); (0, 1); (-1, 9)]%coqZ) (zr [:: (1, 2); (1, 3)]%coqZ) = Ok (zr [:: (1, 2); (-1, 3)]%coqZ, zr [:: (0, 1)]%coqZ),
      gp_gcd o (zq [:: -1; 0; 1]%coqZ) (zq [:: 1; 2; 1]%coqZ) = Ok (zq [:: -2; -2]%coqZ) &
      gp_deriv o (zr [:: (1, 4); (0, 1); (-1, 9)]%coqZ) = Ok (zr [:: (0, 1); (-2, 9)]%coqZ)].
Proof. by split; vm_compute. Qed.
Example C80_ex2 : gp_eval o (zr [:: (1, 4); (0, 1); (-1, 9)]%coqZ) (mkrat 3 2) = Ok (mkrat 0 1) /\
  gp_exp o (zr [:: (1, 2); (1, 3)]%coqZ) 2 = Ok (zr [:: (1, 4); (1, 3); (1, 9)]%coqZ) /\
  gp_mul o (zq [:: 65536; 1]%coqZ) (zq [:: 65536; 1]%coqZ) = UB.
Proof. by split; [|split]; vm_compute. Qed.
Example C81_ex :
  [/\ okv (get_cyclo_qpoly memo_init 12) = Ok (zq [:: 1; 0; -1; 0; 1]%coqZ),
      okv (get_cyclo_qpoly memo_init 30) = Ok (zq [:: 1; 1; 0; -1; -1; -1; 0; 1; 1]%coqZ),
      (' (m, _) <- get_cyclo_qpoly memo_init 12 ;; okv (get_cyclo_qpoly m 6))%res = Ok (zq [:: 1; -1; 1]%coqZ) &
      (q <- okv (get_cyclo_qpoly memo_init 105) ;; gp_get_coeff o q 7)%res = Ok (mkrat (-2) 1)].
Proof. by split; vm_compute. Qed.
Example C82_ex :
  [/\ okv (get_cyclo_f2_poly memo_init 7) = Ok [:: 127%num],
      okv (get_cyclo_fp_poly (0, 0)%coqZ memo_init 10 5) = Ok [seq mkim z 5 | z <- [:: 1; 4; 1; 4; 1]%coqZ],
      fp_poly_from_qpoly (0, 0)%coqZ (zr [:: (1, 2); (2, 3)]%coqZ) 5 = Ok [:: mkim 3 5; mkim 4 5],
      fp_poly_from_qpoly (0, 0)%coqZ (zr [:: (1, 5); (2, 3)]%coqZ) 5 = Exn &
      get_cyclo_f2_poly memo_init 37 = UB].
Proof. by split; vm_compute. Qed.
Print Assumptions C80_ring.
Print Assumptions C80_division.
Print Assumptions C80_division_by_zero.
Print Assumptions C80_gcd.
Print Assumptions C80_powers.
Print Assumptions C80_values.
Print Assumptions C80_compare.
Print Assumptions C80_coefficients.
Print Assumptions C80_negate_refuted.
Print Assumptions C80_negate_constant.
Print Assumptions C81_exist.
Print Assumptions C81_unique.
Print Assumptions C81_value.
Print Assumptions C81_history.
Print Assumptions C82_residue.
Print Assumptions C82_bit.
Print Assumptions C82_mod_p.
Print Assumptions C82_mod_p_proper.
Print Assumptions C82_mod_p_refuted.
Print Assumptions C82_gf2n.
Print Assumptions C82_gf2n_proper.
Print Assumptions C82_gf2_partial.
Print Assumptions C82_gf2_refuted.
Print Assumptions C82_cyclotomic_p.
Print Assumptions C82_cyclotomic_2n.
Print Assumptions C82_cyclotomic_2_partial.
Print Assumptions C82_cyclotomic_2_refuted.
Print Assumptions C82_cyclotomic_reject.
