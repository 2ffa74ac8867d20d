(* C28-C30: factoring GF(2) polynomials. *)
From Verif Require Import Base MIntMath MMat MBits MFac PBits PBits2 MF2Poly MF2Fac PPow PF2Poly PF2Fac1 PFacGen.
From mathcomp Require Import all_ssreflect fingroup perm all_algebra finfield separable ssrZ.
From Verif Require Import PLin PLin2 PLin3 PMat PMat2 PMat3 PropMat PBits3 PF2Poly2 PF2Poly3 PF2Poly4 PBerl PFacPoly PF2Fac2 PF2Fac3 PIrr PF2Irr PPhi PF2Tot.
From Verif Require PropF2Poly.
Set Implicit Arguments.
Unset Strict Implicit.
Unset Printing Implicit Defensive.
Import GRing.Theory.
Delimit Scope Z_scope with coqZ.
Local Open Scope ring_scope.

(* ---- C28 ---- *)
Theorem C28_factor_partial m l p : isP l p -> p != 0 -> (Z.of_nat (size p).-1 <= INT_MAX)%coqZ ->
  exists fin, f2_factor (Some m) l = Ok fin /\
    [/\ forall e c, List.In (e, c) (facs fin) -> isP e (P e) /\ irreducible_poly (P e) /\ (1 <= c)%coqZ,
        List.NoDup (List.map (fun e => P e.1) (facs fin)),
        forall u, funit fin = Some u -> isP u 1
      & (if funit fin is Some u then P u else 1) * \prod_(e <- facs fin) P e.1 ^+ Z.to_nat e.2 = p].
Proof. exact (@factor_thm m l p). Qed.
(* read strictly, the mask computed by the bit vectors of the null space is undefined *)
Theorem C28_factor_refuted l p : isP l p -> separable_poly p -> (1 < size p)%N -> ~ irreducible_poly p ->
  ((size p).-1 %% 64)%N <> 0%N -> f2_factor None l = UB.
Proof. by move=> h1 h2 h3 h4 h5; exact (proj1 (factor_ub h1 h2 h3 h4 h5)). Qed.

(* x^2 + x = x (x + 1) *)
Lemma toN_X2_X : PropF2Poly.toN ('X^2 + 'X) 6.
Proof.
move=> i; rewrite coefD coefXn coefX; case: i => [|[|[|i]]]; try exact/val_inj.
rewrite N.bits_above_log2; first by apply/val_inj.
by change (N.log2 6) with 2%num; lia.
Qed.
Definition p6 := PropF2Poly.isP_word (erefl : (6 < 2 ^ 64)%num) toN_X2_X.
Lemma X2_X : 'X^2 + 'X = 'X * ('X + 1) :> {poly 'F_2}.
Proof. by rewrite mulrDr mulr1 expr2. Qed.
Lemma sz_X1 : size ('X + 1 : {poly 'F_2}) = 2%N.
Proof. by rewrite size_XaddC. Qed.
Example C28_ex :
  (exists fin, f2_factor (Some 0%num) [:: 6%num] = Ok fin /\ facs fin = [:: ([:: 2%num], 1%coqZ); ([:: 3%num], 1%coqZ)]) /\
  f2_factor None [:: 6%num] = UB /\
  (exists fin, f2_factor (Some 0%num) [:: 84%num] = Ok fin /\
     facs fin = [:: ([:: 2%num], 2%coqZ); ([:: 7%num], 2%coqZ)]) /\
  (isP [:: 6%num] ('X^2 + 'X) /\ ('X^2 + 'X : {poly 'F_2}) != 0 /\ ~ irreducible_poly ('X^2 + 'X : {poly 'F_2}) /\
   separable_poly ('X^2 + 'X : {poly 'F_2})).
Proof.
split; first by eexists; vm_compute.
split; first by vm_compute.
split; first by eexists; vm_compute.
split; first exact: p6.
split; first by rewrite X2_X -size_poly_gt0 size_mul ?polyX_eq0 -?size_poly_gt0 ?sz_X1 ?size_polyX.
split; first by rewrite X2_X; apply: red_mul; rewrite ?sz_X1 ?size_polyX.
rewrite /separable_poly derivD derivXn derivX /= mulr2n addF2 add0r.
exact: coprimep1.
Qed.

(* ---- C29 ---- *)
Theorem C29_is_irreducible_partial m l p : isP l p -> (Z.of_nat (size p).-1 <= INT_MAX)%coqZ ->
  exists b, f2_is_irreducible (Some m) l = Ok b /\ (b = true <-> irreducible_poly p).
Proof. exact (@irreducible_thm m l p). Qed.
Theorem C29_is_irreducible_refuted l p : isP l p -> separable_poly p -> (1 < size p)%N -> ~ irreducible_poly p ->
  ((size p).-1 %% 64)%N <> 0%N -> f2_is_irreducible None l = UB.
Proof. by move=> h1 h2 h3 h4 h5; exact (proj2 (factor_ub h1 h2 h3 h4 h5)). Qed.
(* the search: lowest in the order of the comparison operators *)
Theorem C29_find_irreducible_partial m d : (1 < d)%N -> (Z.of_nat d <= INT_MAX)%coqZ ->
  exists r p, [/\ f2_find_irreducible (Some m) (Z.of_nat d) = Ok r, isP r p, size p = d.+1, irreducible_poly p &
    forall l q, isP l q -> size q = d.+1 -> irreducible_poly q -> f2_ltb l r = Ok false].
Proof. exact (@find_irr_thm m d). Qed.
Theorem C29_find_irreducible_nonpositive tm d : (d < 1)%coqZ -> f2_find_irreducible tm d = Exn.
Proof.
move=> h; rewrite /f2_find_irreducible.
case: (Z.ltb_spec d 0) => h0; first by rewrite /set_bit (introT (Z.ltb_spec0 _ _) h0).
by have -> : d = 0%coqZ by lia.
Qed.
(* degree 1: x + 1 is returned although x is lower *)
Theorem C29_find_irreducible_degree1_refuted tm : exists r l p, 
  [/\ f2_find_irreducible tm 1 = Ok r, isP l p, size p = 2%N, irreducible_poly p & f2_ltb l r = Ok true].
Proof.
exists [:: 3%num], (f2_of_int2 1 0), 'X; split; [by case: tm; vm_compute|exact: isP_X|exact: size_polyX| |by vm_compute].
by apply: lin_irr; rewrite size_polyX.
Qed.
Example C29_ex :
  f2_is_irreducible (Some 0%num) [:: 7%num] = Ok true /\ f2_is_irreducible (Some 0%num) [:: 5%num] = Ok false /\
  f2_is_irreducible (Some 0%num) [:: 19%num] = Ok true /\ f2_is_irreducible (Some 0%num) [:: 21%num] = Ok false /\
  f2_is_irreducible None [:: 6%num] = UB /\ f2_find_irreducible (Some 0%num) 4 = Ok [:: 19%num].
Proof. by vm_compute. Qed.

(* ---- C30 ---- *)
Theorem C30_totient_partial m l p : isP l p -> p != 0 -> (Z.of_nat (size p).-1 <= 30)%coqZ ->
  f2_totient (Some m) l = Ok (Z.of_nat
    #|[set v : 'rV['F_2]_(size p).-1 | [exists w : 'rV['F_2]_(size p).-1, p %| rVpoly v * rVpoly w - 1]]|).
Proof. exact (@totient_units m l p). Qed.
Theorem C30_totient_range m l p : isP l p -> irreducible_poly p -> (30 < Z.of_nat (size p).-1 <= INT_MAX)%coqZ ->
  f2_totient (Some m) l = UB.
Proof. exact (@totient_big m l p). Qed.
Theorem C30_totient_refuted l p : isP l p -> separable_poly p -> (1 < size p)%N -> ~ irreducible_poly p ->
  ((size p).-1 %% 64)%N <> 0%N -> f2_totient None l = UB.
Proof. by move=> h1 h2 h3 h4 h5; rewrite /f2_totient; have [-> _] := factor_ub h1 h2 h3 h4 h5. Qed.
Example C30_ex : f2_totient (Some 0%num) [:: 84%num] = Ok 24%coqZ /\ f2_totient (Some 0%num) [:: 19%num] = Ok 15%coqZ /\
  f2_totient (Some 0%num) [:: (2 ^ 31 + 9)%num] = UB /\ isP [:: 6%num] ('X^2 + 'X).
Proof. by do 3 (split; first by vm_compute); exact: p6. Qed.


Print Assumptions C28_factor_partial.
Print Assumptions C28_factor_refuted.
Print Assumptions C29_is_irreducible_partial.
Print Assumptions C29_is_irreducible_refuted.
Print Assumptions C29_find_irreducible_partial.
Print Assumptions C29_find_irreducible_nonpositive.
Print Assumptions C29_find_irreducible_degree1_refuted.
Print Assumptions C30_totient_partial.
Print Assumptions C30_totient_range.
Print Assumptions C30_totient_refuted.
