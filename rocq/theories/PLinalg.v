(* Characteristic polynomials and companion matrices. *)
From Verif Require Import Base MIntMath MIntmod MMat MBits MFac MF2Poly MPoly MPolyFac MLinalg PF2Poly.
From mathcomp Require Import all_ssreflect fingroup perm all_algebra ssrZ.
From Verif Require Import PMat PFp PBits3 PF2Poly2 PPoly PPoly2 PPoly3 PEd PF2Fac2.
Set Implicit Arguments.
Unset Strict Implicit.
Unset Printing Implicit Defensive.
Import GRing.Theory.
Delimit Scope Z_scope with coqZ.
Local Open Scope ring_scope.

Lemma for_up_ok (T : Type) (body : nat -> T -> res T) (Inv : nat -> T -> Prop) n i s :
  (forall k t, (i <= k < i + n)%N -> Inv k t -> exists t', body k t = Ok t' /\ Inv k.+1 t') ->
  Inv i s -> exists s', for_up n i body s = Ok s' /\ Inv (i + n)%N s'.
Proof.
move=> h hi; apply: for_up_inv => // k t [/leP h1 /ltP h2]; apply: h.
by rewrite h1.
Qed.

(* ---- the matrix with the coefficients in its first row *)
Section Companion.
Variable F : fieldType.
Definition comp_ent (c : nat -> F) n i j : F := if i == 0%N then - c (n - 1 - j)%N else (j.+1 == i)%:R.
Definition compmx (c : nat -> F) n : 'M[F]_n := \matrix_(i, j) comp_ent c n i j.
Definition comp_pol (c : nat -> F) n : {poly F} := 'X^n + \poly_(i < n) c i.

Lemma comp_pol_coef c n i : (comp_pol c n)`_i = if (i < n)%N then c i else (i == n)%:R.
Proof. by rewrite coefD coefXn coef_poly; case: ltngtP => h //; rewrite ?add0r ?addr0. Qed.
Lemma comp_pol_size c n : size (comp_pol c n) = n.+1.
Proof. by rewrite size_addl size_polyXn // ltnS size_poly. Qed.
Lemma comp_pol_monic c n : comp_pol c n \is monic.
Proof. by rewrite monicE lead_coefE comp_pol_size comp_pol_coef ltnn eqxx. Qed.
Lemma comp_pol_id (f : {poly F}) : f \is monic -> (1 < size f)%N -> comp_pol (fun i => f`_i) (size f).-1 = f.
Proof.
move=> fm f1; apply/polyP=> i; rewrite comp_pol_coef.
case: ltngtP => // h; first by rewrite nth_default // -(ltn_predK f1).
by rewrite h -lead_coefE (monicP fm).
Qed.

Lemma char_comp c n : (0 < n)%N -> char_poly (compmx c n) = comp_pol c n.
Proof.
case: n => // n _; set f := comp_pol c n.+1.
have fm : f \is monic := comp_pol_monic c n.+1.
have sf : size f = n.+2 := comp_pol_size c n.+1.
have h := companionmxK fm.
have fc i : f`_i = if (i < n.+1)%N then c i else (i == n.+1)%:R by rewrite comp_pol_coef.
clearbody f.
have {h} h : char_poly (\matrix_(i < n.+1, j < n.+1) (if i == n :> nat then - f`_j else (i.+1 == j :> nat)%:R)) = f.
  move: h; rewrite /companionmx sf /=; exact.
rewrite -[RHS]h /char_poly.
have -> : char_poly_mx (compmx c n.+1) = row_perm (perm (@rev_ord_inj n.+1))
   (col_perm (perm (@rev_ord_inj n.+1)) (char_poly_mx
   (\matrix_(i < n.+1, j < n.+1) (if i == n :> nat then - f`_j else (i.+1 == j :> nat)%:R)))).
  apply/matrixP=> i j; rewrite !mxE !permE (inj_eq (@rev_ord_inj n.+1)) /comp_ent /= !subSS; congr (_ - _%:P).
  have hi : (i <= n)%N by rewrite -ltnS.
  have hj : (j <= n)%N by rewrite -ltnS.
  have -> : (n - i == n)%N = (nat_of_ord i == 0)%N.
    by apply/eqP/eqP; lia.
  case: eqP => [_|/eqP i0]; first by rewrite fc ?subSS ?subn0 ltnS leq_subr.
  by congr (_%:R); apply/eqP/eqP; lia.
by rewrite row_permE col_permE !det_mulmx !det_perm odd_permV mulrCA -expr2 sqrr_sign mulr1.
Qed.
End Companion.

(* ---- over GF(p) and GF(2^n) *)
Section Gen.
Variables (A : Type) (o : kops A) (F : fieldType) (V : A -> Prop) (I : A -> F) (kv : A -> nat).
Hypothesis spec : kspec o V I kv.
Let sc := ks_c spec.
Local Notation R := (R V I).
Local Notation isG := (isG V I).

Lemma gp_espec : espec (gp_cops o) (gp_gcd o) (gp_mod o) isG isG.
Proof.
split=> //=.
- by move=> a b p q; apply: (sub_ok spec).
- by move=> a b p q; apply: (mul_ok spec).
- by move=> a b p q; apply: (div_ok spec).
- by move=> a b p q; apply: (mod_ok spec).
- by move=> a b p q ha hb; have [r [d [h1 [h2 h3]]]] := gcd_ok spec ha hb; exists r, d.
- by move=> a b p q; apply: (eqb_ok spec).
Qed.
Theorem gp_ed_det_ok n (m : tmat (list A)) (M : nat -> nat -> {poly F}) : RM isG n n (t_rows m) M -> t_nc m = n -> (0 < n)%N ->
  mxn n M != 0 -> exists d, gp_ed_det o m = Ok d /\ isG d (\det (mxn n M)).
Proof. by move=> h1 h2 h3 h4; apply: (ed_det_ok _ gp_espec h1 h2 h3 h4); left. Qed.

Lemma degG l (p : {poly F}) : isG l p -> gp_degree l = (size p).-1.
Proof. by move=> h; rewrite /gp_degree lengthE (F2_size h) size_cseq; case: (size p) => // k; rewrite minusE subn1; case: k. Qed.
Lemma kint x a v : R x a -> (INT_MIN < v <= INT_MAX)%coqZ -> exists z, k_int o x v = Ok z /\ R z (int_of_Z v)%:~R.
Proof. by move=> [hx _] hv; have [z [-> [h1 h2]]] := ks_int spec hx hv; exists z. Qed.
Lemma kint0 x a : R x a -> exists z, k_int o x 0 = Ok z /\ R z 0.
Proof. by move=> h; exact: (kint h). Qed.
Lemma kint1 x a : R x a -> exists z, k_int o x 1 = Ok z /\ R z 1.
Proof. by move=> h; have [|z [e hz]] := @kint x a 1%coqZ h; [by []|exists z]. Qed.

Theorem gp_char_poly_ok n (t : tmat A) (M : nat -> nat -> F) : RM R n n (t_rows t) M -> t_nc t = n -> (0 < n)%N ->
  exists d, gp_char_poly o t = Ok d /\ isG d (char_poly (\matrix_(i < n, j < n) M i j)).
Proof.
move=> h hn n0; rewrite /gp_char_poly /is_square /t_nr lengthE (proj1 h) hn eqbE eqxx.
have [a [-> ha]] := RM_elx h n0 n0; rewrite bind_ok.
have [c1 [-> hc1]] := kint1 ha; have [c0 [-> hc0]] := kint0 ha; rewrite !bind_ok.
have [x [-> hx]] := linear_ok spec hc1 hc0; rewrite bind_ok polyC0 addr0 scale1r in hx *.
pose E i j := - (M i j)%:P + (if i == j then 'X else 0) : {poly F}.
have [|m [-> hm hmn]] := @RM_tab _ _ isG n n (fun i j =>
   x0 <- elx (t_rows t) i j ;; q <- gp_const o x0 ;; q <- gp_neg o q ;;
   if (i =? j)%coq_nat then gp_add o q x else Ok q) E n0 n0.
  move=> i j hi hj; have [y [-> hy]] := RM_elx h hi hj; rewrite bind_ok.
  have [q [-> hq]] := const_ok spec hy; rewrite bind_ok.
  have [|q' [-> hq']] := neg_ok spec hq; first by rewrite size_polyC leq_b1.
  rewrite bind_ok eqbE /E; case: eqP => _; last by exists q'; rewrite addr0.
  by have [z [-> hz]] := add_ok spec hq' hx; exists z.
rewrite bind_ok.
have eE : mxn n E = char_poly_mx (\matrix_(i < n, j < n) M i j).
  by apply/matrixP=> i j; rewrite !mxE /E -val_eqE addrC; case: eqP; rewrite ?mulr1n ?mulr0n.
have [|d [-> hd]] := gp_ed_det_ok hm hmn n0.
  apply: contraNneq (monic_neq0 (char_poly_monic (\matrix_(i < n, j < n) M i j))) => e.
  by rewrite /char_poly -eE e -(prednK n0) det0.
by exists d; rewrite eE in hd.
Qed.

Theorem gp_companion_ok l f : isG l f -> (1 < size f)%N ->
  exists t, [/\ gp_companion_matrix o l = Ok t, t_nc t = (size f).-1 &
    RM R (size f).-1 (size f).-1 (t_rows t) (comp_ent (fun i => f`_i) (size f).-1)].
Proof.
move=> h f1; rewrite /gp_companion_matrix (degG h).
set n := (size f).-1; have n0 : (0 < n)%N by rewrite /n -ltnS (ltn_predK f1).
have [a0 [ea0 ha0]] : exists x, getk l 0 = Ok x /\ R x f`_0.
  have [x [e hx]] := get_coeff_ok spec 0 h; exists x; split=> //.
  by move: e; rewrite /gp_get_coeff /= (degG h) /=; case: (Z.ltb_spec (Z.of_nat (size f).-1) 0) => //; lia.
rewrite ea0 bind_ok; have [zero [-> hz]] := kint0 ha0; have [one [-> ho]] := kint1 ha0; rewrite !bind_ok.
have [|t [-> ht htn]] := @RM_tab _ _ R n n (fun _ _ => Ok zero) (fun _ _ => 0) n0 n0; first by exists zero.
rewrite bind_ok.
have [||t1 [-> h1]] := @for_up_ok _ (fun i rows => setx rows i (Nat.sub i 1) one)
   (fun k rows => RM R n n rows (fun i j => ((j.+1 == i) && (i < k)%N)%:R)) (Nat.sub n 1) 1 (t_rows t).
  - move=> k rows /andP[hk1 hk2] hr.
    have hkn : (k < n)%N by move: hk2; rewrite !minusE; lia.
    have hkn' : (k - 1 < n)%N by lia.
    have [rows' [-> hr']] := RM_setx hr hkn hkn' ho; exists rows'; split=> //.
    apply: RM_ext hr' _ => i j hi hj; case: eqP => [->|/eqP ne] /=; last first.
      by congr (_%:R); rewrite ltnS [(i <= k)%N]leq_eqVlt (negbTE ne).
    case: eqP => [->|/eqP nj]; first by rewrite ltnS leqnn andbT subn1 prednK // eqxx.
    by rewrite ltnn andbF ltnS leqnn andbT; case: eqP => // e; move: nj; rewrite -e subn1 eqxx.
  apply: RM_ext ht _ => i j hi hj; case: eqP => //= e; rewrite -e ltnS ltn0.
  by [].
rewrite bind_ok.
pose Q k i j := if i == 0%N then (if (n - k <= j)%N then - f`_(n - 1 - j)%N else 0) else ((j.+1 == i))%:R : F.
have [||t2 [-> h2]] := @for_up_ok _ (fun i rows => x <- gp_get_coeff o l (Z.of_nat i) ;; y <- c_neg (k_c o) x ;;
   setx rows 0 (Nat.sub (Nat.sub n 1) i) y) (fun k rows => RM R n n rows (Q k)) n 0 t1.
  - move=> k rows /andP[hk1 hk2] hr; have [x [-> hx]] := get_coeff_ok spec k h; rewrite bind_ok.
    have [y [-> hy]] := R_neg sc hx; rewrite bind_ok.
    have hkn' : (n - 1 - k < n)%N by lia.
    have [rows' [-> hr']] := RM_setx hr n0 hkn' hy; exists rows'; split=> //.
    apply: RM_ext hr' _ => i j hi hj; rewrite /Q; case: eqP => //= _.
    case: eqP => [->|/eqP nj].
      have -> : (n - k.+1 <= n - 1 - k)%N by lia.
      by congr (- f`__); lia.
    have -> : (n - k.+1 <= j)%N = (n - k <= j)%N by move/eqP: nj => nj; lia.
    by [].
  - apply: RM_ext h1 _ => i j hi hj; rewrite /Q; have -> : (n - 0 <= j)%N = false by lia.
    case: (i =P 0%N) => [->|/eqP i0]; first by [].
    have -> : (i < 1 + Nat.sub n 1)%N by rewrite minusE; lia.
    by rewrite andbT.
rewrite bind_ok; eexists; split; first reflexivity; first by [].
by apply: RM_ext h2 _ => i j hi hj; rewrite /Q /comp_ent add0n subnn /=.
Qed.
Lemma gp_companion_const l f : isG l f -> (size f <= 1)%N -> gp_companion_matrix o l = Exn.
Proof.
move=> h f1; rewrite /gp_companion_matrix (degG h).
have [a0 [ea0 ha0]] : exists x, getk l 0 = Ok x /\ R x f`_0.
  have [x [e hx]] := get_coeff_ok spec 0 h; exists x; split=> //.
  by move: e; rewrite /gp_get_coeff /= (degG h) /=; case: (Z.ltb_spec (Z.of_nat (size f).-1) 0) => //; lia.
rewrite ea0 bind_ok; have [zero [-> hz]] := kint0 ha0; have [one [-> ho]] := kint1 ha0; rewrite !bind_ok.
by case: (size f) f1 => [|[]].
Qed.
End Gen.

(* ---- over GF(2) *)
Section F2.
Definition Rb (b : bool) (x : 'F_2) : Prop := x = Ib b.
Lemma f2_espec : espec f2p_cops f2_gcd f2_mod isP isL.
Proof.
split=> //=.
- exact: isP_L.
- exact: isL_nz.
- by move=> a b p q ha hb; apply: (sub_W (isL_W ha) (isL_W hb)).
- by move=> a b p q; apply: mul_L.
- by move=> a b p q; apply: div_L.
- by move=> a b p q; apply: mod_L.
- by move=> a b p q ha hb; have [d [e h]] := gcd_L ha hb; exists d, (gcdp p q); split=> //; apply: eqpxx.
- by move=> a b p q ha hb; apply: (eqb_P (isL_W ha) (isL_W hb)).
Qed.
Lemma f2_mul_0 a b : isL a 0 -> isP b 0 -> exists c, f2_mul a b = Ok c /\ isL c 0.
Proof.
move=> ha hb; have -> : b = f2_of_int 0 by apply: (isP_uniq hb isP0).
rewrite /f2_mul (degree_thm (isL_W ha)) bind_ok (degree_thm (isP_W isP0)) bind_ok size_poly0 /=.
have [||l' [e _]] := @PF2Poly.promote_k_ok 1 a; [by split; lia|exact: (proj1 ha)|].
by rewrite /promote_1 e; exists (f2_of_int 0); split=> //; apply: isP_L isP0.
Qed.
Theorem f2_ed_det_ok n (m : tmat fpoly) (M : nat -> nat -> {poly 'F_2}) : RM isP n n (t_rows m) M -> t_nc m = n -> (0 < n)%N ->
  mxn n M != 0 -> exists d, f2_ed_det m = Ok d /\ isP d (\det (mxn n M)).
Proof. by move=> h1 h2 h3 h4; apply: (ed_det_ok _ f2_espec h1 h2 h3 h4); right=> a b; exact: f2_mul_0. Qed.

Theorem f2_char_poly_ok n (t : tmat bool) (M : nat -> nat -> 'F_2) : RM Rb n n (t_rows t) M -> t_nc t = n -> (0 < n)%N ->
  exists d, f2_char_poly t = Ok d /\ isP d (char_poly (\matrix_(i < n, j < n) M i j)).
Proof.
move=> h hn n0; rewrite /f2_char_poly /is_square /t_nr lengthE (proj1 h) hn eqbE eqxx.
pose E i j := (M i j)%:P - (if i == j then 'X else 0) : {poly 'F_2}.
have [|m [-> hm hmn]] := @RM_tab _ _ isP n n (fun i j =>
   x0 <- elx (t_rows t) i j ;; (let q := f2_of_int (bitv x0) in
   if (i =? j)%coq_nat then f2_sub q (f2_of_int2 1 0) else Ok q)) E n0 n0.
  move=> i j hi hj; have [y [-> hy]] := RM_elx h hi hj; rewrite bind_ok.
  have hq : isP (f2_of_int (bitv y)) (M i j)%:P by rewrite hy; have := isP_int (bitv y); case: (y).
  rewrite eqbE /E /=; case: eqP => _; last by exists (f2_of_int (bitv y)); rewrite subr0.
  by have [z [-> hz]] := sub_W (isP_W hq) (isP_W isP_X); exists z.
rewrite bind_ok.
have eE : mxn n E = char_poly_mx (\matrix_(i < n, j < n) M i j).
  apply/matrixP=> i j; rewrite !mxE /E -val_eqE !subF2 addrC; case: eqP; by rewrite ?mulr1n ?mulr0n.
have [|d [-> hd]] := f2_ed_det_ok hm hmn n0.
  apply: contraNneq (monic_neq0 (char_poly_monic (\matrix_(i < n, j < n) M i j))) => e.
  by rewrite /char_poly -eE e -(prednK n0) det0.
by exists d; rewrite eE in hd.
Qed.

Theorem f2_companion_ok l f : isP l f -> (1 < size f)%N ->
  exists t, [/\ f2_companion_matrix l = Ok t, t_nc t = (size f).-1 &
    RM Rb (size f).-1 (size f).-1 (t_rows t) (comp_ent (fun i => f`_i) (size f).-1)].
Proof.
move=> h f1; rewrite /f2_companion_matrix (degree_thm (isP_W h)) bind_ok.
set n := (size f).-1; have n0 : (0 < n)%N by rewrite /n -ltnS (ltn_predK f1).
have [|t [-> ht htn]] := @RM_tab _ _ Rb n n (fun _ _ => Ok false) (fun _ _ => 0) n0 n0; first by exists false.
rewrite bind_ok.
have [||t1 [-> h1]] := @for_up_ok _ (fun i rows => setx rows i (Nat.sub i 1) true)
   (fun k rows => RM Rb n n rows (fun i j => ((j.+1 == i) && (i < k)%N)%:R)) (Nat.sub n 1) 1 (t_rows t).
  - move=> k rows /andP[hk1 hk2] hr.
    have hkn : (k < n)%N by move: hk2; rewrite !minusE; lia.
    have hkn' : (k - 1 < n)%N by lia.
    have ho : Rb true 1 by [].
    have [rows' [-> hr']] := RM_setx hr hkn hkn' ho; exists rows'; split=> //.
    apply: RM_ext hr' _ => i j hi hj; case: eqP => [->|/eqP ne] /=; last first.
      by congr (_%:R); rewrite ltnS [(i <= k)%N]leq_eqVlt (negbTE ne).
    case: eqP => [->|/eqP nj]; first by rewrite ltnS leqnn andbT subn1 prednK // eqxx.
    by rewrite ltnn andbF ltnS leqnn andbT; case: eqP => // e; move: nj; rewrite -e subn1 eqxx.
  apply: RM_ext ht _ => i j hi hj; case: eqP => //= e; rewrite -e ltnS ltn0.
  by [].
rewrite bind_ok.
pose Q k i j := if i == 0%N then (if (n - k <= j)%N then - f`_(n - 1 - j)%N else 0) else ((j.+1 == i))%:R : 'F_2.
have [||t2 [-> h2]] := @for_up_ok _ (fun i rows => b <- bit_at l (Z.of_nat i) ;;
   (if b : bool then setx rows 0 (Nat.sub (Nat.sub n 1) i) true else Ok rows)) (fun k rows => RM Rb n n rows (Q k)) n 0 t1.
  - move=> k rows /andP[hk1 hk2] hr; rewrite bit_at_ok bind_ok.
    have hkn' : (n - 1 - k < n)%N by lia.
    have hfk : f`_k = Ib (bitl l k) by rewrite -coefPl (proj2 h).
    case: ifP => hb.
      have ho : Rb true (- f`_k).
        by rewrite /Rb hfk hb Ib_opp.
      have [rows' [-> hr']] := RM_setx hr n0 hkn' ho; exists rows'; split=> //.
      apply: RM_ext hr' _ => i j hi hj; rewrite /Q; case: eqP => //= _.
      case: eqP => [->|/eqP nj].
        have -> : (n - k.+1 <= n - 1 - k)%N by lia.
        by congr (- f`__); lia.
      have -> : (n - k.+1 <= j)%N = (n - k <= j)%N by move/eqP: nj => nj; lia.
      by [].
    exists rows; split=> //; apply: RM_ext hr _ => i j hi hj; rewrite /Q; case: eqP => //= _.
    have [e|/eqP nj] := (j =P (n - 1 - k)%N).
      have -> : (n - k.+1 <= j)%N by lia.
      have -> : (n - k <= j)%N = false by lia.
      have -> : (n - 1 - j)%N = k by lia.
      by rewrite hfk hb oppr0.
    have -> : (n - k.+1 <= j)%N = (n - k <= j)%N by move/eqP: nj => nj; lia.
    by [].
  - apply: RM_ext h1 _ => i j hi hj; rewrite /Q; have -> : (n - 0 <= j)%N = false by lia.
    case: (i =P 0%N) => [->|/eqP i0]; first by [].
    have -> : (i < 1 + Nat.sub n 1)%N by rewrite minusE; lia.
    by rewrite andbT.
rewrite bind_ok; eexists; split; first reflexivity; first by [].
by apply: RM_ext h2 _ => i j hi hj; rewrite /Q /comp_ent add0n subnn /=.
Qed.
Lemma f2_companion_const l f : isP l f -> (size f <= 1)%N -> f2_companion_matrix l = Exn.
Proof.
move=> h f1; rewrite /f2_companion_matrix (degree_thm (isP_W h)) bind_ok.
by case: (size f) f1 => [|[]].
Qed.
End F2.
