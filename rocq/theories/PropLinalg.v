(* Final theorems for spffl/linalg: f2_linear_algebra.cpp, fp_linear_algebra.cpp,
   f2_polymod_linear_algebra.cpp:19-85, min_char_polys.cpp, and for the division-free
   determinant of spffl/containers/tmatrix.h.

   [mx_enc el A] is the tmatrix object whose entry in row i and column j is el (A i j);
   fp_el, gf_el, fp_enc, g2_enc, fp_menc, g2_menc are the objects for field elements,
   polynomials and residue classes of PropFpPoly.v, PropF2nPoly.v, PropFpPolymod.v,
   PropF2nPolymod.v; [isP l f] and [isM a r m] are those of PropF2Poly.v.

   char_poly, \det, monic, irreducible_poly, horner_mx are mathcomp's;
   [g \Po a] is g evaluated at a, so m %| g \Po a says that the residue class of a
   modulo m is a root of g. *)
From Verif Require Import Base MIntMath MIntmod MMat MBits MF2Poly MPoly MPolymod MPolyFac MF2nPoly MLinalg PF2Poly PIntmod.
From mathcomp Require Import all_ssreflect fingroup perm all_algebra ssrZ finfield.
From Verif Require Import PMat PFp PBits2 PBits3 PF2Poly2 PF2Poly4 PPoly PPoly2 PPoly3 PPolymod PLin PMat2 PFpPoly PF2n PEd PLinalg PLinalg2 PMinPoly.
From Verif Require Import PF2Tot.
From Verif Require PMinPoly2 PMinPoly3 PropF2Poly PropF2Fac.
From Verif Require Import PropFpPoly PropFpPolymod PropF2nPoly PropF2nPolymod.
Set Implicit Arguments.
Unset Strict Implicit.
Unset Printing Implicit Defensive.
Import GRing.Theory.
Delimit Scope Z_scope with coqZ.
Local Open Scope ring_scope.
Local Notation F2 := [finFieldType of 'F_2].

(* the companion matrix used by the library: the coefficients in the first row, ones below
   the diagonal *)
Definition companion_mx (F : ringType) (f : {poly F}) n : 'M[F]_n :=
  \matrix_(i, j) (if (nat_of_ord i == 0)%N then - f`_(n - 1 - j) else (j.+1 == i :> nat)%:R).
(* the matrix of the multiplication by a on the polynomials modulo m, basis 1, x, x^2, ... *)
Definition mult_mx (F : fieldType) (m a : {poly F}) n : 'M[F]_n := \matrix_(i, j) ((a * 'X^j) %% m)`_i.

Lemma companion_comp (F : fieldType) (f : {poly F}) n : companion_mx f n = compmx (fun i => f`_i) n.
Proof. by apply/matrixP=> i j; rewrite !mxE. Qed.
Lemma companion_char (F : fieldType) (f : {poly F}) n : f \is monic -> size f = n.+2 -> char_poly (companion_mx f n.+1) = f.
Proof.
move=> fm sf; rewrite companion_comp char_comp //; have := comp_pol_id fm; rewrite sf /=; exact.
Qed.

(* ---------------------------------------------------------------- generic part *)
Section Gen.
Variables (A : Type) (o : kops A) (F : fieldType) (V : A -> Prop) (I : A -> F) (kv : A -> nat).
Hypothesis spec : kspec o V I kv.
Variables (el : F -> A) (enc : {poly F} -> list A).
Local Notation R := (R V I).
Local Notation isG := (isG V I).
Hypotheses (elR : forall a, R (el a) a) (Rel : forall x a, R x a -> x = el a)
  (encG : forall f, isG (enc f) f) (Genc : forall l f, isG l f -> l = enc f).
Lemma g_char n (M : 'M[F]_n.+1) : gp_char_poly o (mx_enc el M) = Ok (enc (char_poly M)).
Proof.
have [d [-> hd]] := gp_char_poly_ok spec (mx_enc_RM (S := R) M elR) (erefl _) (ltn0Sn n).
by rewrite (Genc hd) mx_funE.
Qed.
Lemma g_char_rect m n (M : 'M[F]_(m, n)) : m <> n -> gp_char_poly o (mx_enc el M) = Exn.
Proof.
by move=> ne; rewrite /gp_char_poly /is_square /t_nr /mx_enc /= lengthE size_map size_enum_ord eqbE; case: eqP.
Qed.
Lemma g_comp (f : {poly F}) : (1 < size f)%N -> gp_companion_matrix o (enc f) = Ok (mx_enc el (companion_mx f (size f).-1)).
Proof.
move=> hf; have [t [-> hn ht]] := gp_companion_ok spec (encG f) hf; congr Ok.
by rewrite (RM_mx_enc Rel ht hn) companion_comp.
Qed.
Lemma g_comp_const (f : {poly F}) : (size f <= 1)%N -> gp_companion_matrix o (enc f) = Exn.
Proof. by move=> hf; apply: (gp_companion_const spec (encG f) hf). Qed.
Lemma g_det n (M : 'M[{poly F}]_n.+1) : M != 0 -> gp_ed_det o (mx_enc enc M) = Ok (enc (\det M)).
Proof.
move=> h; have [|d [-> hd]] := gp_ed_det_ok spec (mx_enc_RM (S := isG) M encG) (erefl _) (ltn0Sn n).
  by rewrite /mxn mx_funE.
by rewrite (Genc hd) /mxn mx_funE.
Qed.
Hypothesis dl : forall z, V z -> k_ltb o (k_dflt o) z = Exn.
Lemma g_det0 n : gp_ed_det o (mx_enc enc (0 : 'M_n.+1)) = Exn.
Proof.
apply: (ed_det_zero (gp_espec spec) (mx_enc_RM (S := isG) _ encG) (erefl _) (ltn0Sn n)).
- by apply/matrixP=> i j; rewrite !mxE /mx_fun; case: insub => // ?; case: insub => // ?; rewrite mxE.
- move=> a b ha hb; have [c [e hc]] := PPoly.mul_ok spec ha hb; exists c; split=> //; by rewrite mulr0 in hc.
move=> a ha; rewrite /gp_mod /gp_quot_rem; have [x [-> hx]] := isG_get0 ha; rewrite bind_ok.
have [z [-> hz]] := R_sub (ks_c spec) hx hx; rewrite bind_ok; rewrite subrr in hz.
have [c [-> hc]] := const_ok spec hz; rewrite bind_ok.
have -> : c = [:: z].
  have [c' [e' hc']] : exists c', c' = [:: z] /\ isG c' 0 by exists [:: z]; split=> //; rewrite /isG /cseq eqxx; constructor.
  by rewrite -e'; apply: (isG_uniq spec) hc' => //; rewrite polyC0 in hc.
by rewrite /gp_eqb /gp_dir /= dl //; case: hz.
Qed.
End Gen.

Section GenF.
Variables (A : Type) (o : kops A) (F : finFieldType) (V : A -> Prop) (I : A -> F) (kv : A -> nat).
Hypothesis spec : kspec o V I kv.
Variable (enc : {poly F} -> list A).
Local Notation isG := (isG V I).
Local Notation isM := (isM V I).
Hypothesis Genc : forall l f, isG l f -> l = enc f.
Hypothesis dflt : forall z, V z -> exists z1, k_int o (k_dflt o) 0 = Ok z1 /\ c_eqb (k_c o) z z1 = Ok false.
Hypothesis Qm : (Z.of_nat #|F| <= INT_MAX)%coqZ.
Lemma g_min a r m : isM a (r %% m) m -> irreducible_poly m -> (Z.of_nat (size m).-1 <= INT_MAX)%coqZ ->
  exists P : {poly F}, [/\ P \is monic, forall g : {poly F}, (m %| g \Po r) = (P %| g),
    gm_minimal_polynomial o (Z.of_nat #|F|) a = Ok (enc P),
    gm_characteristic_polynomial o (Z.of_nat #|F|) a = Ok (enc (P ^+ ((size m).-1 %/ (size P).-1))) &
    P ^+ ((size m).-1 %/ (size P).-1) = char_poly (mult_mx m r (size m).-1)].
Proof.
move=> ha mi nm; have [P [hP Pi dn hd dmin]] := minpoly_ex mi (r %% m).
exists P; have hP' : is_minpoly m r P.
  case: hP => h1 h2; split=> // g; rewrite -h2.
  have e : m %| (g \Po r) - (g \Po (r %% m)).
    have [q eq] : exists q, r = r %% m + q * m by exists (r %/ m); rewrite {1}(divp_eq r m) addrC.
    rewrite {1}eq; elim/poly_ind: g {h2} => [|g c IH]; first by rewrite !comp_poly0 subrr dvdp0.
    rewrite !comp_polyD !comp_polyM !comp_polyX !comp_polyC opprD addrACA subrr addr0.
    have -> : (g \Po (r %% m + q * m)) * (r %% m + q * m) - (g \Po (r %% m)) * (r %% m) =
       ((g \Po (r %% m + q * m)) - (g \Po (r %% m))) * (r %% m) + (g \Po (r %% m + q * m)) * q * m.
      by rewrite mulrDr mulrBl mulrA addrAC.
    by apply: dvdp_add; [apply: dvdp_mulr; exact: IH | apply: dvdp_mull].
  by rewrite -[g \Po r](subrK (g \Po (r %% m))) dvdp_addr.
split; [by case: hP'|by case: hP'| | |].
- by have [l [-> hl]] := PMinPoly2.min_poly_ok spec dflt ha mi hP Pi Qm nm dn hd dmin; rewrite (Genc hl).
- have [l [-> hl]] := PMinPoly2.char_poly_res_ok spec dflt ha mi hP Pi Qm nm dn hd dmin.
  by rewrite (Genc hl) (char_mul_mx mi (erefl _) hP Pi).
by rewrite -[mult_mx _ _ _]/(mul_mx m (size m).-1 r) (char_mul_mx mi (erefl _) hP' Pi).
Qed.
Lemma g_frob a r m : isM a (r %% m) m -> irreducible_poly m -> (Z.of_nat (size m).-1 <= INT_MAX)%coqZ ->
  exists d, [/\ gm_frobenius_length o (Z.of_nat #|F|) a = Ok (Z.of_nat d), (0 < d)%N, m %| r ^+ (#|F| ^ d) - r &
    forall k, (0 < k)%N -> m %| r ^+ (#|F| ^ k) - r -> (d <= k)%N].
Proof.
move=> ha mi nm; have [P [hP Pi dn hd dmin]] := minpoly_ex mi (r %% m).
have E k : (m %| r ^+ (#|F| ^ k) - r) = ((r %% m) ^+ (#|F| ^ k) %% m == r %% m %% m).
  by rewrite /dvdp modpD modpN subr_eq0 PMinPoly2.modp_exp modp_mod.
exists (size P).-1; split.
- exact: (PMinPoly2.frob_len_ok spec ha mi Pi Qm nm dn hd dmin).
- exact: (PMinPoly2.d_gt0 Pi).
- by rewrite E hd.
by move=> k k0; rewrite E => /eqP; apply: dmin.
Qed.
Lemma g_frob_nil a r m k fuel v : isM a (r %% m) m -> m %| r ^+ k -> ~~ (m %| r) ->
  loop fuel (gm_frob_step o (Z.of_nat #|F|) a) (0%coqZ, a) <> Ok v.
Proof.
move=> ha hk nd; have q1 : (1 < #|F|)%N := finRing_gt1 F.
have nf j : (0 < j)%N -> ((r ^+ (#|F| ^ j) %% m)%R == (r %% m)%R) = false.
  move=> j0; apply/negP => /eqP e.
  have it t : (r ^+ (#|F| ^ (j * t)) %% m)%R = (r %% m)%R.
    elim: t => [|t IH]; first by rewrite muln0 expr1.
    by rewrite mulnS expnD exprM -PMinPoly2.modp_exp e PMinPoly2.modp_exp.
  move: nd; rewrite /dvdp -(it k) -/(dvdp _ _); apply/negP/negPn.
  have hle : (k <= #|F| ^ (j * k))%N.
    apply: leq_trans (ltnW (ltn_expl k q1)) _; rewrite leq_exp2l //; exact: leq_pmull.
  by rewrite -(subnK hle) exprD dvdp_mull.
suff : forall fuel j s, isM s (r ^+ (#|F| ^ j) %% m) m -> loop fuel (gm_frob_step o (Z.of_nat #|F|) a) (Z.of_nat j, s) <> Ok v.
  by move=> h; apply: (h fuel 0%N a); rewrite expn0 expr1.
elim=> [//|f IH] j s hs; cbn [loop]; rewrite {1}/gm_frob_step /iadd /chk; case: in_int => //.
have hq : (0 <= Z.of_nat #|F| <= INT_MAX)%coqZ by lia.
have hq0 : (Z.of_nat #|F| <> 0)%coqZ by lia.
have [s' [-> hs']] := gexp_pos spec hs hq (or_introl hq0); rewrite !bind_ok.
rewrite Nat2Z.id PMinPoly2.modp_exp -exprM -expnSr in hs'.
rewrite (geqb_ok spec hs' ha) bind_ok nf //.
have -> : (Z.of_nat j + 1)%coqZ = Z.of_nat j.+1 by lia.
exact: IH.
Qed.
End GenF.

(* ---------------------------------------------------------------- GF(2) *)
Definition bit_el (a : 'F_2) : bool := a != 0.
Lemma bit_elR a : Rb (bit_el a) a.
Proof. by rewrite /Rb /bit_el; case: (Ib_surj a) => -[] <-. Qed.
Lemma Rb_el b a : Rb b a -> b = bit_el a.
Proof. by move=> ->; rewrite /bit_el; case: b. Qed.
Lemma f2_min tm a r m : PF2Poly4.isM a r m -> irreducible_poly m -> (Z.of_nat (size m).-1 <= INT_MAX)%coqZ ->
  exists P : {poly 'F_2}, [/\ P \is monic, forall g : {poly 'F_2}, (m %| g \Po r) = (P %| g),
    exists l, f2_minimal_polynomial (Some tm) a = Ok l /\ isP l P,
    exists l, f2_characteristic_polynomial (Some tm) a = Ok l /\ isP l (P ^+ ((size m).-1 %/ (size P).-1)) &
    P ^+ ((size m).-1 %/ (size P).-1) = char_poly (mult_mx m r (size m).-1)].
Proof.
move=> ha mi nm; have [P [hP Pi dn hd dmin]] := minpoly_ex (F := F2) mi r.
have c2 : #|F2| = 2%N by rewrite card_Fp.
rewrite c2 in hd dmin.
exists P; split; [by case: hP|by case: hP| | |].
- exact: (PMinPoly3.min_poly_ok (tm := Some tm) ha mi hP Pi nm dn hd dmin I).
- have [l [-> hl]] := PMinPoly3.char_poly_res_ok (tm := Some tm) ha mi hP Pi nm dn hd dmin I.
  by exists l; split=> //; move: hl; rewrite (char_mul_mx (F := F2) mi (erefl _) hP Pi).
by rewrite -[mult_mx _ _ _]/(mul_mx (F := F2) m (size m).-1 r) (char_mul_mx (F := F2) mi (erefl _) hP Pi).
Qed.
Lemma f2_frob a r m : PF2Poly4.isM a r m -> irreducible_poly m -> (Z.of_nat (size m).-1 <= INT_MAX)%coqZ ->
  exists d, [/\ f2_frobenius_length a = Ok (Z.of_nat d), (0 < d)%N, m %| r ^+ (2 ^ d) - r &
    forall k, (0 < k)%N -> m %| r ^+ (2 ^ k) - r -> (d <= k)%N].
Proof.
move=> ha mi nm; have [P [hP Pi dn hd dmin]] := minpoly_ex (F := F2) mi r.
have c2 : #|F2| = 2%N by rewrite card_Fp.
rewrite c2 in hd dmin.
have E k : (m %| r ^+ (2 ^ k) - r) = (r ^+ (2 ^ k) %% m == r %% m) by rewrite /dvdp modpD modpN subr_eq0.
exists (size P).-1; split.
- exact: (PMinPoly3.frob_len_ok ha mi Pi nm dn hd dmin).
- exact: (PMinPoly3.d_gt0 Pi).
- by rewrite E hd.
by move=> k k0; rewrite E => /eqP; apply: dmin.
Qed.
Lemma f2_frob_nil a r m k fuel v : PF2Poly4.isM a r m -> m %| r ^+ k -> ~~ (m %| r) ->
  loop fuel (f2_frob_step a) (0%coqZ, a) <> Ok v.
Proof.
move=> ha hk nd; have rm : r %% m = r := PF2Poly4.isM_mod ha.
have nf j : (0 < j)%N -> ((r ^+ (2 ^ j) %% m)%R == r) = false.
  move=> j0; apply/negP => /eqP e.
  have it t : (r ^+ (2 ^ (j * t)) %% m)%R = r.
    elim: t => [|t IH]; first by rewrite muln0 expr1.
    by rewrite mulnS expnD exprM -PMinPoly2.modp_exp e.
  move: nd; rewrite /dvdp -{1}(it k) modp_mod -/(dvdp _ _); apply/negP/negPn.
  have hle : (k <= 2 ^ (j * k))%N.
    apply: leq_trans (ltnW (ltn_expl k (isT : (1 < 2)%N))) _; rewrite leq_exp2l //; exact: leq_pmull.
  by rewrite -(subnK hle) exprD dvdp_mull.
suff : forall fuel j s, PF2Poly4.isM s (r ^+ (2 ^ j) %% m) m -> loop fuel (f2_frob_step a) (Z.of_nat j, s) <> Ok v.
  by move=> h; apply: (h fuel 0%N a); rewrite expn0 expr1 rm.
elim=> [//|f IH] j s hs; cbn [loop]; rewrite {1}/f2_frob_step /iadd /chk; case: in_int => //.
have [s' [-> hs']] := pm_mul_ok hs hs; rewrite !bind_ok.
rewrite -expr2 PMinPoly2.modp_exp -exprM -expnSr in hs'.
rewrite (pm_eqb_ok hs' ha) bind_ok nf //.
have -> : (Z.of_nat j + 1)%coqZ = Z.of_nat j.+1 by lia.
exact: IH.
Qed.
Lemma isP_zero_uniq l : isP l 0 -> l = f2_of_int 0.
Proof. by move=> h; apply: (isP_uniq h); exact: isP0. Qed.
Lemma f2_det0 n rows : RM isP n.+1 n.+1 rows (fun _ _ => 0) -> f2_ed_det (mkmat rows n.+1) = Exn.
Proof.
move=> h; apply: (ed_det_zero f2_espec (m := mkmat rows n.+1) h (erefl _) (ltn0Sn n)).
- by apply/matrixP=> i j; rewrite !mxE.
- move=> a b /isP_zero_uniq -> /isP_zero_uniq ->; exists (f2_of_int 0); split; [by vm_compute|exact: isP0].
by move=> a /isP_zero_uniq ->.
Qed.
(* bits of an integer, the most significant first *)
Lemma f2_digits_ok b len : length (f2_digits b len) = len /\
  forall i, (i < len)%N -> elt (f2_digits b len) i = Ok (Z.testbit b (Z.of_nat (len - 1 - i))).
Proof.
elim: len b => [|n IH] b; first by split.
have [h1 h2] := IH (Z.shiftr b 1); split; first by rewrite /= List.app_length h1 /= plusE addn1.
move=> i hi; rewrite /= /elt; case: (ltnP i n) => h.
  rewrite List.nth_error_app1; last by rewrite h1; apply/ltP.
  have := h2 i h; rewrite /elt => ->; rewrite Z.shiftr_spec; last by lia.
  by congr (Ok (Z.testbit _ _)); lia.
rewrite List.nth_error_app2; last by rewrite h1; apply/leP.
have -> : i = n by lia.
by rewrite h1 Nat.sub_diag /= -Z.bit0_odd; congr (Ok (Z.testbit _ _)); lia.
Qed.
Lemma f2_rows_ok b nr nc : length (f2_digit_rows b nr nc) = nr /\
  forall i, (i < nr)%N -> rowat (f2_digit_rows b nr nc) i = Ok (f2_digits (Z.shiftr b (Z.of_nat (nc * (nr - 1 - i)))) nc).
Proof.
elim: nr b => [|n IH] b; first by split.
have [h1 h2] := IH (Z.shiftr b (Z.of_nat nc)); split; first by rewrite /= List.app_length h1 /= plusE addn1.
move=> i hi; rewrite /= /rowat; case: (ltnP i n) => h.
  rewrite List.nth_error_app1; last by rewrite h1; apply/ltP.
  have := h2 i h; rewrite /rowat => ->; rewrite Z.shiftr_shiftr; last exact: Nat2Z.is_nonneg.
  congr (Ok (f2_digits (Z.shiftr _ _) _)); have -> : (n.+1 - 1 - i = (n - 1 - i).+1)%N by lia.
  by rewrite mulnS; lia.
rewrite List.nth_error_app2; last by rewrite h1; apply/leP.
have -> : i = n by lia.
rewrite h1 Nat.sub_diag /=; have -> : (n.+1 - 1 - n = 0)%N by lia.
by rewrite muln0 Z.shiftr_0_r.
Qed.
Lemma fp_digits_ok p b len : (1 <= p <= INT_MAX)%coqZ -> (0 <= b <= INT_MAX)%coqZ -> exists v, [/\ fp_digits p b len = Ok v, length v = len &
  forall i, (i < len)%N -> elt v i = Ok (mkim ((b / p ^ Z.of_nat (len - 1 - i)) mod p) p)].
Proof.
move=> hp; elim: len b => [|n IH] b hb; first by exists [::].
have hr : Z.rem b p = (b mod p)%coqZ by apply: Z.rem_mod_nonneg; lia.
have hq : Z.quot b p = (b / p)%coqZ by apply: Z.quot_div_nonneg; lia.
have hm := Z.mod_pos_bound b p ltac:(lia).
have hb' : (0 <= b / p <= INT_MAX)%coqZ.
  split; first by apply: Z.div_pos; lia.
  by apply: Z.le_trans (_ : (b <= INT_MAX)%coqZ); [apply: Z.div_le_upper_bound; nia | lia].
have [v [ev lv hv]] := IH _ hb'.
have hii : in_int (b / p) = true by rewrite /in_int; move: hb'; rewrite /INT_MIN; lia.
cbn [fp_digits]; rewrite /imod /idiv; have -> : Z.eqb p 0 = false by lia.
rewrite hq hii hr bind_ok im_make_ok; [|clear - hp; lia|clear - hp hm; rewrite /INT_MIN; lia].
rewrite bind_ok /chk hii bind_ok ev bind_ok; eexists; split; first reflexivity.
  by rewrite List.app_length lv /= plusE addn1.
move=> i hi; rewrite /elt; case: (ltnP i n) => h.
  rewrite List.nth_error_app1; last by rewrite lv; apply/ltP.
  have := hv i h; rewrite /elt => ->; congr (Ok (mkim _ _)).
  have -> : (n.+1 - 1 - i = (n - 1 - i).+1)%N by clear - h; lia.
  rewrite Nat2Z.inj_succ Z.pow_succ_r; last exact: Nat2Z.is_nonneg.
  by rewrite Z.div_div //; [clear - hp; lia|apply: Z.pow_pos_nonneg; clear - hp; lia].
rewrite List.nth_error_app2; last by rewrite lv; apply/leP.
have -> : i = n by clear - h hi; lia.
rewrite lv Nat.sub_diag /=; have -> : (n.+1 - 1 - n = 0)%N by clear; lia.
by rewrite /= Z.div_1_r Z.mod_mod //; clear - hp; lia.
Qed.

Lemma im_dflt_all p c z : prime p -> (Z.of_nat p <= 46341)%coqZ -> Vp p z ->
  (exists z1, k_int (im_kops c) (k_dflt (im_kops c)) 0 = Ok z1 /\ c_eqb (k_c (im_kops c)) z z1 = Ok false) /\
  k_ltb (im_kops c) (k_dflt (im_kops c)) z = Exn.
Proof.
move=> pp hp; have p1 := prime_gt1 pp; case: z => z m [/= -> hz]; split.
  exists (mkim 0 1); split=> //; rewrite /im_eqb !check_modulus_ok //=; last by lia.
  by congr Ok; apply/andP=> -[_ /Z.eqb_eq]; lia.
rewrite -[LHS]/(im_ltb (mkim 0 1) (mkim z (Z.of_nat p))) /im_ltb check_moduli_mixed //= => e; lia.
Qed.
Lemma f2n_dflt_all (G : gf2) z : Vg (gf_m G) z ->
  (exists z1, k_int f2n_kops (k_dflt f2n_kops) 0 = Ok z1 /\ c_eqb (k_c f2n_kops) z z1 = Ok false) /\
  k_ltb f2n_kops (k_dflt f2n_kops) z = Exn.
Proof.
move=> [r hr].
have h1 : PF2Poly4.isM (mkpm (f2_of_int 0) (f2_of_int 1)) 0 1 by split; [exact: isP0 | split; [exact: isP1 | rewrite size_poly0 size_poly1]].
have ne : gf_m G != 1 by apply/eqP => e; have := msz (gf_irr G); rewrite e size_poly1.
split.
  exists (mkpm (f2_of_int 0) (f2_of_int 1)); split; first by vm_compute.
  rewrite [c_eqb _]/=; by have [_ [_ [_ [_ [_ [_ [_ [_ [_ ->]]]]]]]]] := pm_mixed hr h1 ne.
rewrite eq_sym in ne; rewrite -[LHS]/(pm_ltb (mkpm (f2_of_int 0) (f2_of_int 1)) z); by have [_ [_ [_ [_ [_ [-> _]]]]]] := pm_mixed h1 hr ne.
Qed.

Section FpL.
Variables (p : nat) (c : cache).
Hypotheses (pp : prime p) (hP : (Z.of_nat p <= 46341)%coqZ) (hc : cache_valid c).
Local Notation enc := (@fp_enc p).
Local Notation el := (@fp_el p).
Local Notation menc := (@fp_menc p).
Let sp := im_kspec pp hP hc.
Let elR a : R (Vp p) (Ip p) (el a) a := PropFpPoly.elR pp a.
Let Rel x a : R (Vp p) (Ip p) x a -> x = el a := @PropFpPoly.Rel p pp x a.
Let encG f : isG (Vp p) (Ip p) (enc f) f := PropFpPoly.encG pp f.
Let Genc l f : isG (Vp p) (Ip p) l f -> l = enc f := @PropFpPoly.Genc p pp hP c hc l f.
Let F := [finFieldType of 'F_p].
Lemma fp_card : Z.of_nat #|F| = Z.of_nat p. Proof. by rewrite card_Fp. Qed.
Lemma fp_qE (m r : {poly 'F_p}) : fp_q_of (menc m r) = Ok (Z.of_nat p).
Proof. by rewrite /fp_q_of /=; have [x [-> [[e _] _]]] := isG_get0 (encG (r %% m)); rewrite bind_ok e. Qed.
Lemma fp_Qm : (Z.of_nat #|F| <= INT_MAX)%coqZ. Proof. by rewrite fp_card /INT_MAX; lia. Qed.
Lemma fp_min (m r : {poly 'F_p}) : irreducible_poly m -> (Z.of_nat (size m).-1 <= INT_MAX)%coqZ ->
  exists P : {poly 'F_p}, [/\ P \is monic, forall g : {poly 'F_p}, (m %| g \Po r) = (P %| g),
    fp_minimal_polynomial c (menc m r) = Ok (enc P),
    fp_characteristic_polynomial c (menc m r) = Ok (enc (P ^+ ((size m).-1 %/ (size P).-1))) &
    P ^+ ((size m).-1 %/ (size P).-1) = char_poly (mult_mx m r (size m).-1)].
Proof.
move=> mi nm; have m0 : m != 0 by case: mi => h _; rewrite -size_poly_gt0 ltnW.
rewrite /fp_minimal_polynomial /fp_characteristic_polynomial fp_qE !bind_ok -fp_card.
exact: (g_min (F := F) sp Genc (fun z hz => (im_dflt_all c pp hP hz).1) fp_Qm (PropFpPolymod.mencM pp r m0) mi nm).
Qed.
Lemma fp_frob (m r : {poly 'F_p}) : irreducible_poly m -> (Z.of_nat (size m).-1 <= INT_MAX)%coqZ ->
  exists d, [/\ fp_frobenius_length c (menc m r) = Ok (Z.of_nat d), (0 < d)%N, m %| r ^+ (p ^ d) - r &
    forall k, (0 < k)%N -> m %| r ^+ (p ^ k) - r -> (d <= k)%N].
Proof.
move=> mi nm; have m0 : m != 0 by case: mi => h _; rewrite -size_poly_gt0 ltnW.
rewrite /fp_frobenius_length fp_qE !bind_ok -fp_card.
by have := g_frob (F := F) sp fp_Qm (PropFpPolymod.mencM pp r m0) mi nm; rewrite (_ : #|F| = p) // card_Fp.
Qed.
Lemma fp_frob_nil (m r : {poly 'F_p}) k fuel v : m != 0 -> m %| r ^+ k -> ~~ (m %| r) ->
  fp_q_of (menc m r) = Ok (Z.of_nat p) /\
  loop fuel (gm_frob_step (im_kops c) (Z.of_nat p) (menc m r)) (0%coqZ, menc m r) <> Ok v.
Proof.
move=> m0 hk nd; split; first exact: fp_qE.
by have := g_frob_nil (F := F) (fuel := fuel) (v := v) sp Genc fp_Qm (PropFpPolymod.mencM pp r m0) hk nd; rewrite fp_card.
Qed.
End FpL.

Section F2nL.
Variable G : gf2.
Local Notation L := (gf_L G).
Local Notation V := (Vg (gf_m G)).
Local Notation I := (@Ig L (gf_emb G) (gf_z G)).
Local Notation enc := (@g2_enc G).
Local Notation el := (@gf_el G).
Local Notation menc := (@g2_menc G).
Let sp : kspec f2n_kops V I kg := f2n_kspec (gf_irr G) (gf_root G) (gf_card G).
Hypothesis hd : (Z.of_nat (size (gf_m G)).-1 <= 30)%coqZ.
Lemma g2_card : (Z.of_nat #|L| <= INT_MAX)%coqZ.
Proof. by rewrite gf_card /INT_MAX; have := pow30 hd; lia. Qed.
Lemma g2_qE (m r : {poly L}) : f2n_q_of (menc m r) = Ok (Z.of_nat #|L|).
Proof.
rewrite /f2n_q_of /f2n_q /=; have [x [-> [[r0 hr0] _]]] := isG_get0 (PropF2nPoly.encG (r %% m)).
by rewrite bind_ok (degree_thm (isP_W hr0.2.1)) bind_ok ishl1_ok // gf_card.
Qed.
Lemma g2_min (m r : {poly L}) : irreducible_poly m -> (Z.of_nat (size m).-1 <= INT_MAX)%coqZ ->
  exists P : {poly L}, [/\ P \is monic, forall g : {poly L}, (m %| g \Po r) = (P %| g),
    f2nm_minimal_polynomial (menc m r) = Ok (enc P),
    f2nm_characteristic_polynomial (menc m r) = Ok (enc (P ^+ ((size m).-1 %/ (size P).-1))) &
    P ^+ ((size m).-1 %/ (size P).-1) = char_poly (mult_mx m r (size m).-1)].
Proof.
move=> mi nm; have m0 : m != 0 by case: mi => h _; rewrite -size_poly_gt0 ltnW.
rewrite /f2nm_minimal_polynomial /f2nm_characteristic_polynomial g2_qE !bind_ok.
exact: (g_min sp (@PropF2nPoly.Genc G) (fun z hz => (f2n_dflt_all hz).1) g2_card (PropF2nPolymod.mencM r m0) mi nm).
Qed.
Lemma g2_frob (m r : {poly L}) : irreducible_poly m -> (Z.of_nat (size m).-1 <= INT_MAX)%coqZ ->
  exists d, [/\ f2nm_frobenius_length (menc m r) = Ok (Z.of_nat d), (0 < d)%N, m %| r ^+ (#|L| ^ d) - r &
    forall k, (0 < k)%N -> m %| r ^+ (#|L| ^ k) - r -> (d <= k)%N].
Proof.
move=> mi nm; have m0 : m != 0 by case: mi => h _; rewrite -size_poly_gt0 ltnW.
rewrite /f2nm_frobenius_length g2_qE !bind_ok.
exact: (g_frob sp g2_card (PropF2nPolymod.mencM r m0) mi nm).
Qed.
End F2nL.

(* ================================================================ C49 *)
Theorem C49_fp_char_poly : forall p c, prime p -> (Z.of_nat p <= 46341)%coqZ -> cache_valid c ->
  forall n (A : 'M['F_p]_n.+1), fp_char_poly c (mx_enc (@fp_el p) A) = Ok (fp_enc (char_poly A)).
Proof.
move=> p c pp hP hc n A.
exact: (g_char (im_kspec pp hP hc) (PropFpPoly.elR pp) (@PropFpPoly.Genc p pp hP c hc) A).
Qed.
Theorem C49_fp_nonsquare : forall p c m n (A : 'M['F_p]_(m, n)), m <> n -> fp_char_poly c (mx_enc (@fp_el p) A) = Exn.
Proof. by move=> p c m n A; apply: g_char_rect. Qed.
Theorem C49_fp_companion : forall p c, prime p -> (Z.of_nat p <= 46341)%coqZ -> cache_valid c ->
  forall f : {poly 'F_p}, fp_companion_matrix c (fp_enc f) =
    if (1 < size f)%N then Ok (mx_enc (@fp_el p) (companion_mx f (size f).-1)) else Exn.
Proof.
move=> p c pp hP hc f; case: ltnP => h.
  exact: (g_comp (im_kspec pp hP hc) (@PropFpPoly.Rel p pp) (PropFpPoly.encG pp) h).
exact: (g_comp_const (im_kspec pp hP hc) (PropFpPoly.encG pp) h).
Qed.
(* a monic polynomial is the characteristic polynomial of its companion matrix, and
   annihilates it *)
Theorem C49_companion_char : forall (F : fieldType) n (f : {poly F}), f \is monic -> size f = n.+2 ->
  char_poly (companion_mx f n.+1) = f /\ horner_mx (companion_mx f n.+1) f = 0.
Proof.
move=> F n f fm sf; have e := companion_char fm sf; split=> //.
by rewrite -{2}e; exact: Cayley_Hamilton.
Qed.
Theorem C49_fp_roundtrip : forall p c, prime p -> (Z.of_nat p <= 46341)%coqZ -> cache_valid c ->
  forall f : {poly 'F_p}, f \is monic -> (1 < size f)%N ->
  bind (fp_companion_matrix c (fp_enc f)) (fp_char_poly c) = Ok (fp_enc f).
Proof.
move=> p c pp hP hc f fm hf; rewrite C49_fp_companion // hf bind_ok.
case e : (size f) hf => [|[|n]] // _.
by rewrite [(_).-1]/= C49_fp_char_poly // companion_char.
Qed.
Theorem C49_f2n_char_poly : forall (G : gf2) n (A : 'M[gf_L G]_n.+1),
  f2n_char_poly (mx_enc (@gf_el G) A) = Ok (g2_enc (char_poly A)).
Proof.
move=> G n A.
exact: (g_char (f2n_kspec (gf_irr G) (gf_root G) (gf_card G)) (@PropF2nPoly.elR G) (@PropF2nPoly.Genc G) A).
Qed.
Theorem C49_f2n_nonsquare : forall (G : gf2) m n (A : 'M[gf_L G]_(m, n)), m <> n -> f2n_char_poly (mx_enc (@gf_el G) A) = Exn.
Proof. by move=> G m n A; apply: g_char_rect. Qed.
Theorem C49_f2n_companion : forall (G : gf2) (f : {poly gf_L G}), f2n_companion_matrix (g2_enc f) =
    if (1 < size f)%N then Ok (mx_enc (@gf_el G) (companion_mx f (size f).-1)) else Exn.
Proof.
move=> G f; case: ltnP => h.
  exact: (g_comp (f2n_kspec (gf_irr G) (gf_root G) (gf_card G)) (@PropF2nPoly.Rel G) (@PropF2nPoly.encG G) h).
exact: (g_comp_const (f2n_kspec (gf_irr G) (gf_root G) (gf_card G)) (@PropF2nPoly.encG G) h).
Qed.
Theorem C49_f2n_roundtrip : forall (G : gf2) (f : {poly gf_L G}), f \is monic -> (1 < size f)%N ->
  bind (f2n_companion_matrix (g2_enc f)) f2n_char_poly = Ok (g2_enc f).
Proof.
move=> G f fm hf; rewrite C49_f2n_companion hf bind_ok.
case e : (size f) hf => [|[|n]] // _.
by rewrite [(_).-1]/= C49_f2n_char_poly companion_char.
Qed.
Theorem C49_f2_char_poly : forall n (A : 'M['F_2]_n.+1),
  exists l, f2_char_poly (mx_enc bit_el A) = Ok l /\ isP l (char_poly A).
Proof.
move=> n A; have := f2_char_poly_ok (mx_enc_RM (S := Rb) A bit_elR) (erefl _) (ltn0Sn n).
by rewrite mx_funE.
Qed.
Theorem C49_f2_nonsquare : forall m n (A : 'M['F_2]_(m, n)), m <> n -> f2_char_poly (mx_enc bit_el A) = Exn.
Proof.
move=> m n A ne; rewrite /f2_char_poly /is_square /t_nr /mx_enc /= lengthE size_map size_enum_ord eqbE; by case: eqP.
Qed.
Theorem C49_f2_companion : forall l (f : {poly 'F_2}), isP l f -> f2_companion_matrix l =
    if (1 < size f)%N then Ok (mx_enc bit_el (companion_mx f (size f).-1)) else Exn.
Proof.
move=> l f h; case: ltnP => hf; last exact: f2_companion_const h hf.
have [t [-> hn ht]] := f2_companion_ok h hf; congr Ok.
by rewrite (RM_mx_enc Rb_el ht hn) companion_comp.
Qed.
Theorem C49_f2_roundtrip : forall l (f : {poly 'F_2}), isP l f -> (1 < size f)%N ->
  bind (f2_companion_matrix l) f2_char_poly = Ok l.
Proof.
move=> l f h hf; rewrite (C49_f2_companion h) hf bind_ok.
have fm : f \is monic.
  apply/monicP; have : lead_coef f != 0 by rewrite lead_coef_eq0 -size_poly_gt0 ltnW.
  by case: (Ib_surj (lead_coef f)) => -[] <-.
case e : (size f) hf => [|[|n]] // _.
rewrite [(_).-1]/=; have [d [-> hd]] := C49_f2_char_poly (companion_mx f n.+1).
by rewrite companion_char // in hd; congr Ok; apply: isP_uniq hd h.
Qed.

(* ================================================================ C50 *)
(* P is monic and its multiples are exactly the polynomials with the given element as a
   root; in particular it has the least degree among the non-zero ones *)
Theorem C50_f2_minimal : forall w a (r m : {poly 'F_2}), PF2Poly4.isM a r m -> irreducible_poly m ->
  (Z.of_nat (size m).-1 <= INT_MAX)%coqZ ->
  exists P : {poly 'F_2}, [/\ P \is monic, forall g : {poly 'F_2}, (m %| g \Po r) = (P %| g),
    exists l, f2_minimal_polynomial (Some w) a = Ok l /\ isP l P,
    exists l, f2_characteristic_polynomial (Some w) a = Ok l /\ isP l (P ^+ ((size m).-1 %/ (size P).-1)) &
    P ^+ ((size m).-1 %/ (size P).-1) = char_poly (mult_mx m r (size m).-1)].
Proof. exact f2_min. Qed.
Theorem C50_fp_minimal : forall p c, prime p -> (Z.of_nat p <= 46341)%coqZ -> cache_valid c ->
  forall m r : {poly 'F_p}, irreducible_poly m -> (Z.of_nat (size m).-1 <= INT_MAX)%coqZ ->
  exists P : {poly 'F_p}, [/\ P \is monic, forall g : {poly 'F_p}, (m %| g \Po r) = (P %| g),
    fp_minimal_polynomial c (fp_menc m r) = Ok (fp_enc P),
    fp_characteristic_polynomial c (fp_menc m r) = Ok (fp_enc (P ^+ ((size m).-1 %/ (size P).-1))) &
    P ^+ ((size m).-1 %/ (size P).-1) = char_poly (mult_mx m r (size m).-1)].
Proof. exact fp_min. Qed.
(* the size of the base field must fit an int: degree at most 30 *)
Theorem C50_f2n_minimal_partial : forall G : gf2, (Z.of_nat (size (gf_m G)).-1 <= 30)%coqZ ->
  forall m r : {poly gf_L G}, irreducible_poly m -> (Z.of_nat (size m).-1 <= INT_MAX)%coqZ ->
  exists P : {poly gf_L G}, [/\ P \is monic, forall g : {poly gf_L G}, (m %| g \Po r) = (P %| g),
    f2nm_minimal_polynomial (g2_menc m r) = Ok (g2_enc P),
    f2nm_characteristic_polynomial (g2_menc m r) = Ok (g2_enc (P ^+ ((size m).-1 %/ (size P).-1))) &
    P ^+ ((size m).-1 %/ (size P).-1) = char_poly (mult_mx m r (size m).-1)].
Proof. exact g2_min. Qed.
(* the polynomial that C50_*_minimal describe is unique and irreducible *)
Theorem C50_unique : forall (F : fieldType) (m r P Q : {poly F}), P \is monic -> Q \is monic ->
  (forall g : {poly F}, (m %| g \Po r) = (P %| g)) -> (forall g : {poly F}, (m %| g \Po r) = (Q %| g)) -> P = Q.
Proof.
move=> F m r P Q h1 h1' h2 h2'; apply/eqP; rewrite -eqp_monic //; apply/andP; split.
  by rewrite -h2 h2'.
by rewrite -h2' h2.
Qed.
Theorem C50_irreducible : forall (F : fieldType) (m r P : {poly F}), irreducible_poly m -> P \is monic ->
  (forall g : {poly F}, (m %| g \Po r) = (P %| g)) -> irreducible_poly P.
Proof.
move=> F m r P mi Pm h; have P0 := monic_neq0 Pm; split.
  rewrite ltnNge; apply/negP => s1; have e1 : P = 1.
    by move: Pm; rewrite [P]size1_polyC // monicE lead_coefC => /eqP ->.
  have := h 1; rewrite e1 dvd1p comp_polyC dvdp1; case: mi => + _; by case: (size m) => [|[]].
move=> q q1 qd; have [u eu] := dvdpP _ _ qd.
have : m %| P \Po r by rewrite h dvdpp.
rewrite {1}eu comp_polyM => hm.
have : (m %| u \Po r) || (m %| q \Po r).
  case: (boolP (m %| u \Po r)) => //= nu; move: hm; rewrite Gauss_dvdpr //.
  case: mi => sm hi; rewrite /coprimep; apply: contraT => h1.
  have := hi _ h1 (dvdp_gcdl m (u \Po r)); rewrite eqp_sym => /eqp_dvdl e.
  by move: nu; rewrite e dvdp_gcdr.
rewrite !h => /orP [hu|hq]; last by rewrite /eqp qd hq.
have u0 : u != 0 by apply: contraNneq P0 => e; rewrite eu e mul0r.
have q0 : q != 0 by apply: contraNneq P0 => e; rewrite eu e mulr0.
have := dvdp_leq u0 hu; rewrite {1}eu size_mul //.
move: u0 q0 q1; rewrite -!size_poly_gt0; clear; move: (size u) (size q) => a b a0 b0 /eqP b1 h.
by exfalso; move: h; rewrite -ltnS prednK ?addn_gt0 ?a0 //; lia.
Qed.
(* the number of times the q-th power map has to be applied to come back *)
Theorem C50_f2_frobenius : forall a (r m : {poly 'F_2}), PF2Poly4.isM a r m -> irreducible_poly m ->
  (Z.of_nat (size m).-1 <= INT_MAX)%coqZ ->
  exists d, [/\ f2_frobenius_length a = Ok (Z.of_nat d), (0 < d)%N, m %| r ^+ (2 ^ d) - r &
    forall k, (0 < k)%N -> m %| r ^+ (2 ^ k) - r -> (d <= k)%N].
Proof. exact f2_frob. Qed.
Theorem C50_fp_frobenius : forall p c, prime p -> (Z.of_nat p <= 46341)%coqZ -> cache_valid c ->
  forall m r : {poly 'F_p}, irreducible_poly m -> (Z.of_nat (size m).-1 <= INT_MAX)%coqZ ->
  exists d, [/\ fp_frobenius_length c (fp_menc m r) = Ok (Z.of_nat d), (0 < d)%N, m %| r ^+ (p ^ d) - r &
    forall k, (0 < k)%N -> m %| r ^+ (p ^ k) - r -> (d <= k)%N].
Proof. exact fp_frob. Qed.
Theorem C50_f2n_frobenius_partial : forall G : gf2, (Z.of_nat (size (gf_m G)).-1 <= 30)%coqZ ->
  forall m r : {poly gf_L G}, irreducible_poly m -> (Z.of_nat (size m).-1 <= INT_MAX)%coqZ ->
  exists d, [/\ f2nm_frobenius_length (g2_menc m r) = Ok (Z.of_nat d), (0 < d)%N, m %| r ^+ (#|gf_L G| ^ d) - r &
    forall k, (0 < k)%N -> m %| r ^+ (#|gf_L G| ^ k) - r -> (d <= k)%N].
Proof. exact g2_frob. Qed.
(* modulo a reducible m with a nilpotent residue the search never succeeds: whatever the
   number of iterations, no value is returned *)
Theorem C50_f2_nilpotent_refuted : forall a (r m : {poly 'F_2}) k fuel v, PF2Poly4.isM a r m -> m %| r ^+ k -> ~~ (m %| r) ->
  loop fuel (f2_frob_step a) (0%coqZ, a) <> Ok v.
Proof. exact f2_frob_nil. Qed.
Theorem C50_fp_nilpotent_refuted : forall p c, prime p -> (Z.of_nat p <= 46341)%coqZ -> cache_valid c ->
  forall (m r : {poly 'F_p}) k fuel v, m != 0 -> m %| r ^+ k -> ~~ (m %| r) ->
  fp_q_of (fp_menc m r) = Ok (Z.of_nat p) /\
  loop fuel (gm_frob_step (im_kops c) (Z.of_nat p) (fp_menc m r)) (0%coqZ, fp_menc m r) <> Ok v.
Proof. exact fp_frob_nil. Qed.

(* ================================================================ C73 *)
(* the f2_poly_t object for a polynomial over GF(2), by Horner's rule *)
Definition f2_enc (f : {poly 'F_2}) : fpoly :=
  foldr (fun c l => match (l' <- promote_1 l ;; f2_add l' (f2_of_int (bitv (bit_el c)))) with Ok l' => l' | _ => l end)
    (f2_of_int 0) f.
Lemma f2_encP f : isP (f2_enc f) f.
Proof.
rewrite /f2_enc -{2}[f]polyseqK; elim: (polyseq f) => [|c s IH] /=; first exact: isP0.
have [l1 [-> h1]] := promote1_P IH; rewrite bind_ok.
have hq : isP (f2_of_int (bitv (bit_el c))) c%:P.
  by have := isP_int (bitv (bit_el c)); rewrite /bit_el; case: (Ib_surj c) => -[] <-.
have [l2 [-> h2]] := add_W (isP_W h1) (isP_W hq); by rewrite cons_poly_def.
Qed.
Lemma f2_encE l f : isP l f -> l = f2_enc f.
Proof. by move=> h; apply: isP_uniq h (f2_encP f). Qed.
Theorem C73_f2_objects : forall l (f : {poly 'F_2}), isP l f <-> l = f2_enc f.
Proof. by move=> l f; split=> [|->]; [exact: f2_encE | exact: f2_encP]. Qed.
Theorem C73_f2_det : forall n (M : 'M[{poly 'F_2}]_n.+1), M != 0 -> f2_ed_det (mx_enc f2_enc M) = Ok (f2_enc (\det M)).
Proof.
move=> n M h; have [|d [-> hd]] := f2_ed_det_ok (mx_enc_RM (S := isP) M f2_encP) (erefl _) (ltn0Sn n).
  by rewrite /mxn mx_funE.
by rewrite (f2_encE hd) /mxn mx_funE.
Qed.
Theorem C73_fp_det : forall p c, prime p -> (Z.of_nat p <= 46341)%coqZ -> cache_valid c ->
  forall n (M : 'M[{poly 'F_p}]_n.+1), M != 0 -> gp_ed_det (im_kops c) (mx_enc (@fp_enc p) M) = Ok (fp_enc (\det M)).
Proof.
move=> p c pp hP hc n M.
exact: (g_det (im_kspec pp hP hc) (PropFpPoly.encG pp) (@PropFpPoly.Genc p pp hP c hc)).
Qed.
Theorem C73_f2n_det : forall (G : gf2) n (M : 'M[{poly gf_L G}]_n.+1), M != 0 ->
  gp_ed_det f2n_kops (mx_enc (@g2_enc G) M) = Ok (g2_enc (\det M)).
Proof.
move=> G n M.
exact: (g_det (f2n_kspec (gf_irr G) (gf_root G) (gf_card G)) (@PropF2nPoly.encG G) (@PropF2nPoly.Genc G)).
Qed.
Theorem C73_f2_zero_refuted : forall n, f2_ed_det (mx_enc f2_enc (0 : 'M_n.+1)) = Exn.
Proof.
move=> n; apply: (f2_det0 (n := n)); have h := mx_enc_RM (S := isP) (0 : 'M_n.+1) f2_encP.
have e : mx_fun (0 : 'M[{poly 'F_2}]_n.+1) =2 fun _ _ => 0.
  by move=> i j; rewrite /mx_fun; case: insub => // ?; case: insub => // ?; rewrite mxE.
by apply: (RM_ext h) => i j _ _; exact: e.
Qed.
Theorem C73_fp_zero_refuted : forall p c, prime p -> (Z.of_nat p <= 46341)%coqZ -> cache_valid c ->
  forall n, gp_ed_det (im_kops c) (mx_enc (@fp_enc p) (0 : 'M_n.+1)) = Exn.
Proof.
move=> p c pp hP hc n.
exact: (g_det0 (im_kspec pp hP hc) (PropFpPoly.encG pp) (fun z hz => (im_dflt_all c pp hP hz).2)).
Qed.
Theorem C73_f2n_zero_refuted : forall (G : gf2) n, gp_ed_det f2n_kops (mx_enc (@g2_enc G) (0 : 'M_n.+1)) = Exn.
Proof.
move=> G n.
exact: (g_det0 (f2n_kspec (gf_irr G) (gf_root G) (gf_card G)) (@PropF2nPoly.encG G) (fun z hz => (f2n_dflt_all hz).2)).
Qed.
Theorem C73_nonsquare : forall (A : Type) (o : cops A) gcd md dflt (F : ringType) (el : F -> A) m n (M : 'M[F]_(m, n)), m <> n ->
  ed_det o gcd md dflt (mx_enc el M) = Exn.
Proof.
by move=> A o gcd md dflt F el m n M ne; rewrite /ed_det /is_square /t_nr /mx_enc /= lengthE size_map size_enum_ord eqbE; case: eqP.
Qed.

(* ================================================================ C74 *)
(* the same polynomials with their coefficients in the field itself *)
Theorem C74_products : forall (G : gf2) (a : gf_L G), exists P : {poly 'F_2},
  [/\ P \is monic, forall g : {poly 'F_2}, root (map_poly (gf_emb G) g) a = (P %| g),
      f2m_min_poly (gf_el a) = Ok (g2_enc (map_poly (gf_emb G) P)) &
      f2m_char_poly (gf_el a) = Ok (g2_enc (map_poly (gf_emb G) P ^+ ((size (gf_m G)).-1 %/ (size P).-1)))].
Proof.
move=> G a; have [r hr er] := gf_elP a.
have [P [hP Pi dn hd dmin]] := minpoly_ex (F := F2) (gf_irr G) r.
have c2 : #|F2| = 2%N by rewrite card_Fp.
rewrite c2 in hd dmin; exists P.
have [[l1 [e1 h1]] [l2 [e2 h2]]] := f2m_ok hr hP Pi dn hd dmin.
split; [by case: hP| | |].
- by move=> g; rewrite -(proj2 hP) -er -/(ev _ _ _) ev_root.
- by rewrite e1 (PropF2nPoly.Genc h1).
by rewrite e2 (PropF2nPoly.Genc h2) rmorphX.
Qed.
(* and they split over the field: the conjugates of a are the roots *)
Theorem C74_conjugates : forall (G : gf2) (a : gf_L G) (P : {poly 'F_2}) k,
  (forall g : {poly 'F_2}, root (map_poly (gf_emb G) g) a = (P %| g)) -> root (map_poly (gf_emb G) P) (a ^+ (2 ^ k)).
Proof. by move=> G a P k h; apply: frob_root; rewrite h. Qed.

(* ================================================================ C75 *)
(* entries of vectors and matrices made from an integer: the digits, most significant first *)
Theorem C75_f2_vector : forall b len, (0 < len)%N -> exists v, [/\ f2_vector_from_base_rep b len = Ok v, length v = len &
  forall i, (i < len)%N -> elt v i = Ok (Z.testbit b (Z.of_nat (len - 1 - i)))].
Proof.
move=> b [|n] // _; have [h1 h2] := f2_digits_ok b n.+1.
by exists (f2_digits b n.+1); split.
Qed.
Theorem C75_f2_matrix : forall b nr nc, (0 < nr)%N -> (0 < nc)%N -> exists t,
  [/\ f2_matrix_from_base_rep b nr nc = Ok t, t_nr t = nr, t_nc t = nc &
  forall i j, (i < nr)%N -> (j < nc)%N -> elx (t_rows t) i j = Ok (Z.testbit b (Z.of_nat (nc * (nr - 1 - i) + (nc - 1 - j))))].
Proof.
move=> b [|r] [|c] // _ _; have [h1 h2] := f2_rows_ok b r.+1 c.+1.
exists (mkmat (f2_digit_rows b r.+1 c.+1) c.+1); split=> // i j hi hj.
have := h2 i hi; rewrite /rowat /elx [t_rows _]/=; case: nth_error => // row [->].
have [_ ->] := f2_digits_ok (Z.shiftr b (Z.of_nat (c.+1 * (r.+1 - 1 - i)))) c.+1; last exact: hj.
rewrite Z.shiftr_spec; last exact: Nat2Z.is_nonneg.
by rewrite -Nat2Z.inj_add plusE addnC.
Qed.
Theorem C75_fp_vector : forall p b len, (1 <= p <= INT_MAX)%coqZ -> (0 <= b <= INT_MAX)%coqZ -> (0 < len)%N ->
  exists v, [/\ fp_vector_from_base_rep b p len = Ok v, length v = len &
  forall i, (i < len)%N -> elt v i = Ok (mkim ((b / p ^ Z.of_nat (len - 1 - i)) mod p) p)].
Proof. by move=> p b [|n] // hp hb _; exact: (fp_digits_ok n.+1 hp hb). Qed.
Theorem C75_empty : forall b p nr nc, f2_vector_from_base_rep b 0 = Exn /\ fp_vector_from_base_rep b p 0 = Exn /\
  f2_matrix_from_base_rep b 0 nc = Exn /\ f2_matrix_from_base_rep b nr 0 = Exn.
Proof. by move=> b p [|nr] [|nc]. Qed.

(* ================================================================ examples *)
Example C49_ex :
  f2_char_poly (mkmat [:: [:: true; true]; [:: true; false]] 2) = Ok [:: 7%num] /\
  f2_companion_matrix [:: 11%num] = Ok (mkmat [:: [:: false; true; true]; [:: true; false; false]; [:: false; true; false]] 3) /\
  fp_companion_matrix cache_init (im7 [:: 3; 2; 1]%coqZ) = Ok (mkmat [:: im7 [:: 5; 4]%coqZ; im7 [:: 1; 0]%coqZ] 2) /\
  fp_char_poly cache_init (mkmat [:: im7 [:: 5; 4]%coqZ; im7 [:: 1; 0]%coqZ] 2) = Ok (im7 [:: 3; 2; 1]%coqZ) /\
  f2n_char_poly (mkmat [:: e4 [:: 2; 3]%num; e4 [:: 1; 1]%num] 2) = Ok (e4 [:: 1; 3; 1]%num) /\
  f2n_companion_matrix (e4 [:: 1%num]) = Exn.
Proof. by vm_compute. Qed.
Example C50_ex :
  f2_minimal_polynomial (Some 0%num) (mkpm [:: 6%num] [:: 19%num]) = Ok [:: 7%num] /\
  f2_characteristic_polynomial (Some 0%num) (mkpm [:: 6%num] [:: 19%num]) = Ok [:: 21%num] /\
  f2_frobenius_length (mkpm [:: 6%num] [:: 19%num]) = Ok 2%coqZ /\
  f2_frobenius_length (mkpm [:: 2%num] [:: 4%num]) = Div /\
  fp_minimal_polynomial cache_init (m7 [:: 3; 1]%coqZ [:: 1; 0; 1]%coqZ) = Ok (im7 [:: 3; 1; 1]%coqZ) /\
  fp_characteristic_polynomial cache_init (m7 [:: 3]%coqZ [:: 1; 0; 1]%coqZ) = Ok (im7 [:: 2; 1; 1]%coqZ) /\
  f2nm_minimal_polynomial (mkgm (e4 [:: 2; 1]%num) (e4 [:: 2; 1; 1]%num)) = Ok (e4 [:: 3; 1; 1]%num) /\
  f2nm_characteristic_polynomial (mkgm (e4 [:: 2]%num) (e4 [:: 2; 1; 1]%num)) = Ok (e4 [:: 3; 0; 1]%num).
Proof. by vm_compute. Qed.
Example C73_ex :
  f2_ed_det (mkmat [:: [:: [:: 3%num]; [:: 2%num]]; [:: [:: 5%num]; [:: 7%num]]] 2) = Ok [:: 3%num] /\
  f2_ed_det (mkmat [:: [:: [:: 3%num]; [:: 5%num]]; [:: [:: 3%num]; [:: 5%num]]] 2) = Ok [:: 0%num] /\
  gp_ed_det (im_kops cache_init) (mkmat [:: [:: im7 [:: 1; 2]%coqZ; im7 [:: 3]%coqZ]; [:: im7 [:: 0; 1]%coqZ; im7 [:: 5; 0; 1]%coqZ]] 2)
    = Ok (im7 [:: 5; 0; 1; 2]%coqZ) /\
  f2_ed_det (mkmat [:: [:: [:: 0%num]]] 1) = Exn.
Proof. by vm_compute. Qed.
Example C74_ex :
  f2m_min_poly (mkpm [:: 6%num] [:: 19%num]) = Ok (List.map (fun w => mkpm [:: w] [:: 19%num]) [:: 1; 1; 1]%num) /\
  f2m_char_poly (mkpm [:: 6%num] [:: 19%num]) = Ok (List.map (fun w => mkpm [:: w] [:: 19%num]) [:: 1; 0; 1; 0; 1]%num).
Proof. by vm_compute. Qed.
Example C75_ex :
  fp_vector_from_base_rep 100 7 4 = Ok (im7 [:: 0; 2; 0; 2]%coqZ) /\
  f2_vector_from_base_rep 6 4 = Ok [:: false; true; true; false] /\
  f2_matrix_from_base_rep 6 2 2 = Ok (mkmat [:: [:: false; true]; [:: true; false]] 2) /\
  f2_vector_from_base_rep (-2) 3 = Ok [:: true; true; false].
Proof. by vm_compute. Qed.

Print Assumptions C49_fp_char_poly.
Print Assumptions C50_f2_minimal.
Print Assumptions C73_f2_det.
Print Assumptions C74_products.
Print Assumptions C75_fp_vector.
