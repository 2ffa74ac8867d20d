(* Final theorems for spffl/linalg/f2_polymod_convert.cpp: the change from the residues
   modulo one irreducible polynomial to the residues modulo another.

   G1 and G2 are finite fields of characteristic 2 presented by irreducible polynomials
   (PF2n.v; C62_field says there is one for every irreducible polynomial); gf_el is the
   object for a field element, g2_enc the object for a polynomial, mx_enc gf_el the object
   for a matrix.  A root of P (a polynomial over GF(2)) in the field L is meant when
   root (map_poly (gf_emb G) P) is written. *)
From Verif Require Import Base MIntMath MMat MF2Poly MPoly MUnits MF2nPoly MLinalg MConvert PF2Poly PUnits PSort.
From Coq Require Import Permutation Sorted.
From mathcomp Require Import all_ssreflect fingroup perm all_algebra cyclic ssrZ finfield.
From Verif Require Import PMat PFp PBits3 PF2Poly2 PF2Poly4 PPoly PPoly2 PF2n PF2Log PLinalg2 PConvert.
From Verif Require Import PropF2nPoly PropUnits.
Set Implicit Arguments.
Unset Strict Implicit.
Unset Printing Implicit Defensive.
Import GRing.Theory.
Delimit Scope Z_scope with coqZ.
Local Open Scope ring_scope.

(* g generates the nonzero elements of the field *)
Definition generates (G : gf2) (g : gf_L G) : Prop := g != 0 /\ forall a : gf_L G, a != 0 -> exists e, a = g ^+ e.
(* the assumptions made on the C library's qsort, for residues modulo m *)
Definition qsort_ok (m : {poly 'F_2}) (qs : list (fpmod * Z) -> list (fpmod * Z)) : Prop :=
  sorts pm_ltb (fun x => exists r, isM x r m) qs.
Definition vsort_ok (m : {poly 'F_2}) (qsv : list fpmod -> list fpmod) : Prop :=
  vsorts (fun x => exists r, isM x r m) qsv.
(* an object for every element: what the conversions do, given by one map of the fields *)
Definition converts (G1 G2 : gf2) qs (g1 : gf_L G1) (g2 : gf_L G2) (f : gf_L G1 -> gf_L G2) : Prop :=
  [/\ forall a, convert_scalar qs (gf_el g1) (gf_el g2) (gf_el a) = Ok (gf_el (f a)),
      forall p, convert_poly qs (gf_el g1) (gf_el g2) (g2_enc p) = Ok (g2_enc (map_poly f p)) &
      forall m n (A : 'M_(m, n)), (0 < m)%N -> (0 < n)%N ->
        convert_matrix qs (gf_el g1) (gf_el g2) (mx_enc (@gf_el G1) A) = Ok (mx_enc (@gf_el G2) (map_mx f A))].

Lemma gen_degree (G : gf2) (g : gf_L G) P : generates g -> P \is monic -> min_over g P -> (size P).-1 = (size (gf_m G)).-1.
Proof.
move=> [g0 gen] mP hP; have [Q [mQ Qi hQ dn [pd _]]] := minL g.
have eQ : Q = P by exact: (min_uniq mQ mP hQ hP).
rewrite eQ in dn pd Qi.
have n0 : (0 < (size (gf_m G)).-1)%N by case: (gf_irr G); case: (size _) => [|[]].
have d0 : (0 < (size P).-1)%N by case: Qi; case: (size _) => [|[]].
set d := (size P).-1 in dn pd d0 *; apply/eqP; rewrite eqn_leq (dvdn_leq n0 dn) /=.
have fixall (a : gf_L G) : a ^+ (2 ^ d) = a.
  have [->|a0] := eqVneq a 0; first by rewrite expr0n expn_eq0.
  by have [e ->] := gen a a0; rewrite exprAC pd.
have X0 : 'X^(2 ^ d) - 'X != 0 :> {poly gf_L G}.
  rewrite subr_eq0; apply/eqP => /(congr1 (fun p : {poly gf_L G} => size p)); rewrite size_polyXn size_polyX => -[].
  by case: (d) d0 => // k _ /eqP; rewrite expnS; case: (2 ^ k)%N (expn_gt0 2 k) => // j _; rewrite mulnS.
have := max_poly_roots X0 _ (enum_uniq (gf_L G)); rewrite -cardE gf_card => h.
have : (2 ^ (size (gf_m G)).-1 < size ('X^(2 ^ d) - 'X : {poly gf_L G})%R)%N.
  by apply: h; apply/allP => a _; rewrite rootE hornerD hornerN hornerXn hornerX fixall subrr.
rewrite size_addl ?size_opp size_polyXn ?size_polyX; last first.
  by rewrite ltnS; case: (d) d0 => // k _; rewrite expnS; case: (2 ^ k)%N (expn_gt0 2 k) => // j _; rewrite mulnS.
by rewrite ltnS leq_exp2l.
Qed.

(* ---- a generator is sent to the root of its minimal polynomial with the smallest bits,
   whenever the minimal polynomial has a root at all *)
Theorem C83_prep : forall (G1 G2 : gf2) qsv lm (g1 : gf_L G1) (P : {poly 'F_2}),
  isP lm (gf_m G2) -> vsort_ok (gf_m G2) qsv ->
  (Z.of_nat (size (gf_m G2)).-1 <= 30)%coqZ -> (Z.of_nat (size (gf_m G1)) <= INT_MAX)%coqZ ->
  P \is monic -> (forall g : {poly 'F_2}, root (map_poly (gf_emb G1) g) g1 = (P %| g)) ->
  if ((size P).-1 %| (size (gf_m G2)).-1)%N
  then exists g2 : gf_L G2,
    [/\ convert_prep qsv (gf_el g1) lm = Ok (Some (gf_el g2)), root (map_poly (gf_emb G2) P) g2 &
        forall b : gf_L G2, root (map_poly (gf_emb G2) P) b -> (g2_val g2 <= g2_val b)%N]
  else convert_prep qsv (gf_el g1) lm = Ok None /\ forall b : gf_L G2, ~~ root (map_poly (gf_emb G2) P) b.
Proof.
move=> G1 G2 qsv lm g1 P hlm hq h2 h1 mP hP.
have Pi : irreducible_poly P.
  have [Q [mQ Qi hQ _ _]] := minL g1; by rewrite -(min_uniq mQ mP hQ hP).
have := prep_ok mP Pi hP hlm h2 h1 hq; case: ifP => // nd ->; split=> // b; apply/negP => hb.
have [|//|_] := count_roots Pi mP hb (s := enum (root (map_poly (gf_emb G2) P))); last by rewrite nd.
  exact: enum_uniq.
by move=> a; rewrite mem_enum.
Qed.

(* ---- when g1 generates the first field: success exactly when the first field is
   isomorphic to a subfield of the second, and then scalars, polynomials and matrices are
   all converted by one and the same field homomorphism, the one with g1 |-> g2 *)
Theorem C83_field : forall (G1 G2 : gf2) qs qsv lm (g1 : gf_L G1),
  isP lm (gf_m G2) -> qsort_ok (gf_m G1) qs -> vsort_ok (gf_m G2) qsv ->
  (Z.of_nat (size (gf_m G1)).-1 <= 30)%coqZ -> (Z.of_nat (size (gf_m G2)).-1 <= 30)%coqZ -> generates g1 ->
  if ((size (gf_m G1)).-1 %| (size (gf_m G2)).-1)%N
  then exists (g2 : gf_L G2) (f : {rmorphism gf_L G1 -> gf_L G2}),
    [/\ convert_prep qsv (gf_el g1) lm = Ok (Some (gf_el g2)), f g1 = g2, injective f & converts qs g1 g2 f]
  else convert_prep qsv (gf_el g1) lm = Ok None.
Proof.
move=> G1 G2 qs qsv lm g1 hlm hq hqv h1 h2 hg; have [P [mP Pi hP dn _]] := minL g1.
have h1' : (Z.of_nat (size (gf_m G1)) <= INT_MAX)%coqZ.
  by move: h1; rewrite /INT_MAX; clear; move: (size _) => x; lia.
have := prep_ok mP Pi hP hlm h2 h1' hqv; rewrite (gen_degree hg mP hP); case: ifP => // _ [g2 [e r2 _]].
case: hg => g0 gen; exists g2, (phi gen hP r2); split=> //; [exact: phi_g|exact: fmorph_inj|split].
- exact: scalar_ok.
- exact: poly_ok.
exact: matrix_ok.
Qed.
(* ---- the same for any image chosen by the caller: any root of the minimal polynomial *)
Theorem C83_root : forall (G1 G2 : gf2) qs (g1 : gf_L G1) (g2 : gf_L G2),
  qsort_ok (gf_m G1) qs -> (Z.of_nat (size (gf_m G1)).-1 <= 30)%coqZ -> generates g1 ->
  (forall g : {poly 'F_2}, root (map_poly (gf_emb G1) g) g1 -> root (map_poly (gf_emb G2) g) g2) ->
  exists f : {rmorphism gf_L G1 -> gf_L G2}, f g1 = g2 /\ converts qs g1 g2 f.
Proof.
move=> G1 G2 qs g1 g2 hq h1 [g0 gen] hr; have [P [mP Pi hP dn _]] := minL g1.
have r2 : root (map_poly (gf_emb G2) P) g2 by apply: hr; rewrite hP.
exists (phi gen hP r2); split; [exact: phi_g|split].
- exact: scalar_ok.
- exact: poly_ok.
exact: matrix_ok.
Qed.
(* ---- between fields of the same size, converting back gives the element started from *)
Theorem C83_roundtrip : forall (G1 G2 : gf2) qs1 qs2 (g1 : gf_L G1) (g2 : gf_L G2),
  qsort_ok (gf_m G1) qs1 -> qsort_ok (gf_m G2) qs2 ->
  (Z.of_nat (size (gf_m G1)).-1 <= 30)%coqZ -> size (gf_m G1) = size (gf_m G2) -> generates g1 ->
  (forall g : {poly 'F_2}, root (map_poly (gf_emb G1) g) g1 -> root (map_poly (gf_emb G2) g) g2) ->
  forall a : gf_L G1, exists b : gf_L G2, convert_scalar qs1 (gf_el g1) (gf_el g2) (gf_el a) = Ok (gf_el b) /\
                      convert_scalar qs2 (gf_el g2) (gf_el g1) (gf_el b) = Ok (gf_el a).
Proof.
move=> G1 G2 qs1 qs2 g1 g2 hq1 hq2 h1 hs hg hr a.
have [f [fg [hf _ _]]] := C83_root hq1 h1 hg hr.
have [k kf fk] : bijective f.
  apply: inj_card_bij; first exact: fmorph_inj.
  by rewrite !gf_card hs.
have fe (r : {poly 'F_2}) c : f (map_poly (gf_emb G1) r).[c] = (map_poly (gf_emb G2) r).[f c].
  rewrite -horner_map -map_poly_comp; congr (horner _ _); apply: eq_map_poly => u /=.
  have [-> |->] : u = 0 \/ u = 1 by case: u => -[|[|]] // i; [left|right]; apply: val_inj.
    by rewrite !rmorph0.
  by rewrite !rmorph1.
have hg2 : generates g2.
  case: hg => g0 gen; split; first by rewrite -fg fmorph_eq0.
  move=> b b0; have [|e ee] := gen (k b); first by apply: contraNneq b0 => kb; rewrite -(fk b) kb rmorph0.
  by exists e; rewrite -(fk b) ee rmorphX fg.
have hr' g : root (map_poly (gf_emb G2) g) g2 -> root (map_poly (gf_emb G1) g) g1.
  by rewrite /root -fg -fe fmorph_eq0.
have h2 : (Z.of_nat (size (gf_m G2)).-1 <= 30)%coqZ by rewrite -hs.
have [f' [fg' [hf' _ _]]] := C83_root hq2 h2 hg2 hr'.
exists (f a); rewrite hf hf'; split=> //; congr (Ok (gf_el _)).
case: hg => g0 gen; have [->|a0] := eqVneq a 0; first by rewrite !rmorph0.
by have [e ->] := gen a a0; rewrite !rmorphX fg fg'.
Qed.

Lemma scalar_pre (G1 G2 : gf2) qs (g1 : gf_L G1) (g2 : gf_L G2) : exists z1 z2, R (Vg (gf_m G1)) (@Ig _ (gf_emb G1) (gf_z G1)) z1 0 /\
  forall x, convert_scalar qs (gf_el g1) (gf_el g2) x =
    (e <- pm_eqb x z1 ;; if e : bool then Ok z2 else k <- f2_log qs (gf_el g1) x ;; pm_exp (gf_el g2) k)%res.
Proof.
have sp1 := f2n_kspec (gf_irr G1) (gf_root G1) (gf_card G1).
have sp2 := f2n_kspec (gf_irr G2) (gf_root G2) (gf_card G2).
have R1 := elR g1; have R2 := elR g2.
have [z1 [h1 k1]] := R_sub (ks_c sp1) R1 R1; have [z2 [h2 _]] := R_sub (ks_c sp2) R2 R2.
exists z1, z2; split; first by rewrite subrr in k1.
by move=> x; rewrite /convert_scalar; have /= -> := h1; have /= -> := h2; rewrite !bind_ok.
Qed.

(* ---- what is refused: an element that is not a power of g1, an element with another
   modulus, and g1 = 0 *)
Theorem C83_reject : forall (G1 G2 : gf2) qs (g1 : gf_L G1) (g2 : gf_L G2),
  qsort_ok (gf_m G1) qs -> (Z.of_nat (size (gf_m G1)).-1 <= 30)%coqZ ->
  (forall a : gf_L G1, a != 0 -> (g1 = 0 \/ forall e, a <> g1 ^+ e) -> convert_scalar qs (gf_el g1) (gf_el g2) (gf_el a) = Exn) /\
  (forall x r m, isM x r m -> m <> gf_m G1 -> convert_scalar qs (gf_el g1) (gf_el g2) x = Exn).
Proof.
move=> G1 G2 qs g1 g2 hq h1; have [z1 [z2 [k1 E]]] := scalar_pre qs g1 g2.
have sp1 := f2n_kspec (gf_irr G1) (gf_root G1) (gf_card G1).
have [r hr er] := gf_elP g1; split.
  move=> a a0 hno; rewrite E; have /= -> := R_eqb (ks_c sp1) (elR a) k1; rewrite bind_ok (negbTE a0).
  have [r0|rn0] := eqVneq r 0.
    rewrite (f2_log_nonunit (isM_m0 hr) qs _ hr h1) // r0 coprime0p -size_poly_eq1.
    by case: (gf_irr G1) => s1 _; rewrite neq_ltn s1 orbT.
  have hc := irr_coprime (gf_irr G1) rn0 hr.2.2; have [s hs es] := gf_elP a.
  have [[e [_ [he _]]]|[-> //]] := f2_log_ok (isM_m0 hr) hq hr hs h1 hc.
  have ea : a = g1 ^+ e.
    by rewrite -es -er -/(ev (gf_emb G1) (gf_z G1) s) -he (ev_mod (gf_root G1)) evX.
  case: hno => [g0|/(_ e) //]; exfalso; apply/negP: rn0; rewrite negbK.
  by rewrite -(ev_eq0 (gf_irr G1) (gf_root G1) hr.2.2) /ev er g0.
move=> x s m hx ne; rewrite E; have [s1 hz1] : exists r, isM z1 r (gf_m G1) by case: k1.
have /eqP ne' : m <> gf_m G1 by [].
have [_ [_ [_ [_ [_ [_ [_ [_ [_ ->]]]]]]]]] := pm_mixed hx hz1 ne'; rewrite bind_ok.
rewrite (f2_log_mixed (isM_m0 hr) qs hr hx) //; first by rewrite eq_sym.
by case: (gf_irr G1).
Qed.

(* ---- a first field of degree 31 or more: the logarithm fails, so no nonzero element can
   be converted *)
Theorem C83_degree_refuted : forall (G1 G2 : gf2) qs (g1 : gf_L G1) (g2 : gf_L G2) (a : gf_L G1), a != 0 ->
  ((size (gf_m G1)).-1 = 31%N -> convert_scalar qs (gf_el g1) (gf_el g2) (gf_el a) = Exn) /\
  ((31 < (size (gf_m G1)).-1)%N -> convert_scalar qs (gf_el g1) (gf_el g2) (gf_el a) = UB).
Proof.
move=> G1 G2 qs g1 g2 a a0; have [z1 [z2 [k1 E]]] := scalar_pre qs g1 g2.
have sp1 := f2n_kspec (gf_irr G1) (gf_root G1) (gf_card G1).
rewrite E; have /= -> := R_eqb (ks_c sp1) (elR a) k1; rewrite bind_ok (negbTE a0).
have [r hr er] := gf_elP g1; have [h31 h32] := C32_f2_log_refuted qs (gf_el a) hr.
by split=> h; [rewrite (h31 h)|rewrite (h32 h)].
Qed.

(* ---- the hypotheses can be met *)
Definition vsort (l : list fpmod) : list fpmod := List.map fst (isort pm_ltb (List.map (fun x => (x, 0%coqZ)) l)).
Theorem C83_sorting_exists : forall m : {poly 'F_2}, qsort_ok m (isort pm_ltb) /\ vsort_ok m vsort.
Proof.
move=> m; have h : qsort_ok m (isort pm_ltb).
  by have [//|_ h] := @C32_sorting_exists 2 m.
split=> // l hl; have [|pp ss] := h (List.map (fun x => (x, 0%coqZ)) l).
  by move=> x /List.in_map_iff [y [<- hy]]; exact: hl.
split.
  have := Permutation_map fst pp; rewrite List.map_map /= List.map_id; exact.
rewrite /vsort; elim: ss => [|x t _ IH /Forall_forall hx] /=; constructor=> //.
apply/Forall_forall => y /List.in_map_iff [w [<- hw]]; exact: hx.
Qed.
Theorem C83_generators_exist : forall G : gf2, exists g : gf_L G, generates g.
Proof.
move=> G; have /cyclicP [w hw] := field_unit_group_cyclic [group of [set: {unit gf_L G}]].
exists (val w); split; first by rewrite -unitfE; exact: (valP w).
move=> a; rewrite -unitfE => ua; have : FinRing.unit _ ua \in <[w]>%g by rewrite -hw inE.
by case/cycleP => e /(congr1 val) /= ->; exists e; rewrite FinRing.val_unitX.
Qed.

(* x mod x^4+x+1 generates GF(16); its image modulo x^4+x^3+1 is x^2+x; nothing
   modulo x^3+x+1; x^2+x generates the subfield GF(4) and has an image modulo x^2+x+1 *)
Definition c16 (r : N) : fpmod := mkpm [:: r] [:: 19%num].
Definition d16 (r : N) : fpmod := mkpm [:: r] [:: 25%num].
Example C83_ex :
  convert_prep vsort (c16 2) [:: 25%num] = Ok (Some (d16 6)) /\
  convert_scalar (isort pm_ltb) (c16 2) (d16 6) (c16 3) = Ok (d16 7) /\
  convert_scalar (isort pm_ltb) (c16 2) (d16 6) (c16 0) = Ok (d16 0) /\
  convert_scalar (isort pm_ltb) (c16 4) (d16 6) (d16 1) = Exn /\
  convert_poly (isort pm_ltb) (c16 2) (d16 6) [:: c16 0; c16 2; c16 1] = Ok [:: d16 0; d16 6; d16 1] /\
  convert_prep vsort (c16 2) [:: 11%num] = Ok None /\
  convert_prep vsort (c16 6) [:: 7%num] = Ok (Some (mkpm [:: 2%num] [:: 7%num])).
Proof. by vm_compute. Qed.

Print Assumptions C83_prep.
Print Assumptions C83_field.
Print Assumptions C83_root.
Print Assumptions C83_roundtrip.
Print Assumptions C83_reject.
Print Assumptions C83_degree_refuted.
Print Assumptions C83_sorting_exists.
Print Assumptions C83_generators_exist.
