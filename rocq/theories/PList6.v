(* Listings over GF(p). *)
From Verif Require Import Base MIntMath MIntmod MMat MF2Poly MF2Fac MFac MPoly MPolymod MPolyFac MList PIntMath PIntMath2 PIntmod PFacGen.
From mathcomp Require Import all_ssreflect all_algebra ssrZ finfield.
From Verif Require Import PMat PFp PPoly PPoly2 PPoly3 PFpPoly PropFpPoly PPhi PList PList2 PList5.
From Verif Require PropFpPolymod PropFpFac PList3.
Set Implicit Arguments.
Unset Strict Implicit.
Unset Printing Implicit Defensive.
Import GRing.Theory.
Delimit Scope Z_scope with coqZ.
Local Open Scope ring_scope.

Definition pow_fits (q e : Z) : bool := ((e =? 0) || (q ^ (2 ^ (Z.log2 e + 1)) <=? INT_MAX))%coqZ.
Lemma Zpow_of_nat q k : Z.of_nat (q ^ k)%N = (Z.of_nat q ^ Z.of_nat k)%coqZ.
Proof.
by elim: k => // k IH; rewrite expnS -multE Nat2Z.inj_mul IH Nat2Z.inj_succ Z.pow_succ_r //; clear; lia.
Qed.
Lemma pow_nat q e : (Z.of_nat e <= INT_MAX)%coqZ ->
  int_power (Z.of_nat q) (Z.of_nat e) = if pow_fits (Z.of_nat q) (Z.of_nat e) then Ok (Z.of_nat (q ^ e)%N) else UB.
Proof.
move=> he; rewrite /pow_fits; case: e he => [//|e] he.
have -> : (Z.of_nat e.+1 =? 0)%coqZ = false by clear; lia.
have [h1 h2] := int_power_iff (Z.of_nat q) (Z.of_nat e.+1) (conj (ltac:(lia) : (1 <= Z.of_nat e.+1)%coqZ) he).
rewrite Z.abs_eq in h1 h2; try (clear; lia); rewrite /=.
case: Z.leb_spec => h; last exact: h2.
by rewrite h1 // Zpow_of_nat.
Qed.
Lemma fits_bound q e : (2 <= q)%coqZ -> (0 <= e)%coqZ -> pow_fits q e -> (q ^ e <= INT_MAX)%coqZ /\ (1 <= e -> q ^ (e + 1) <= INT_MAX)%coqZ.
Proof.
move=> hq he /orP [/Z.eqb_eq ->|/Z.leb_le h]; first by split; [rewrite Z.pow_0_r|lia].
case: (Z.eq_dec e 0) => [->|h0]; first by rewrite Z.pow_0_r; split; [|lia].
have [h1 h2] := Z.log2_spec e (ltac:(lia) : (0 < e)%coqZ).
have h3 : (q ^ (e + 1) <= INT_MAX)%coqZ.
  apply: Z.le_trans h; apply: Z.pow_le_mono_r; first by lia.
  by rewrite -Z.add_1_r in h2; move: h2; clear; lia.
split=> // ; apply: Z.le_trans h3; apply: Z.pow_le_mono_r; lia.
Qed.
Lemma fits_double q e : (1 <= q)%coqZ -> (0 <= e)%coqZ -> (q ^ (2 * e) <= INT_MAX)%coqZ -> pow_fits q e.
Proof.
move=> hq he h; rewrite /pow_fits; case: Z.eqb_spec => //= h0; apply/Z.leb_le.
apply: Z.le_trans h; apply: Z.pow_le_mono_r; first by lia.
have [h1 _] := Z.log2_spec e (ltac:(lia) : (0 < e)%coqZ).
by rewrite Z.pow_add_r ?Z.pow_1_r; [lia|exact: Z.log2_nonneg|].
Qed.
Lemma fits_mono q e k : (2 <= q)%coqZ -> (0 <= k <= e)%coqZ -> pow_fits q e -> pow_fits q k.
Proof.
move=> hq hk /orP [/Z.eqb_eq he|/Z.leb_le h]; first by rewrite /pow_fits (_ : (k =? 0)%coqZ = true) //; lia.
rewrite /pow_fits; case: Z.eqb_spec => //= h0; apply/Z.leb_le; apply: Z.le_trans h.
apply: Z.pow_le_mono_r; first by lia.
apply: Z.pow_le_mono_r; first by lia.
have := Z.log2_le_mono k e; lia.
Qed.
Lemma fits_deg q e : (2 <= q)%coqZ -> (0 <= e)%coqZ -> pow_fits q e -> (e < INT_MAX)%coqZ.
Proof.
move=> hq he h; have [_ h1] := fits_bound hq he h.
case: (Z.eq_dec e 0) => [->//|h0]; have h2 := h1 (ltac:(lia)).
have h3 : (2 ^ (e + 1) <= INT_MAX)%coqZ by apply: Z.le_trans h2; apply: Z.pow_le_mono_l; lia.
by have := Z.pow_gt_lin_r 2 (e + 1) erefl (ltac:(lia)); lia.
Qed.
(* 1 + q + ... + q^n < q^(n+1) *)
Lemma geo_lt q n : (1 < q)%N -> (\sum_(k < n.+1) q ^ k < q ^ n.+1)%N.
Proof.
move=> h; elim: n => [|n IH]; first by rewrite big_ord_recl big_ord0 expn0 expn1 addn0.
rewrite big_ord_recr /= [(q ^ n.+2)%N]expnS; apply: (@leq_trans (2 * q ^ n.+1)); last by rewrite leq_mul2r h orbT.
by rewrite mul2n -addnn ltn_add2r.
Qed.
Lemma unitP (F : fieldType) (m f : {poly F}) : reflect (exists w, m %| f * w - 1) (coprimep m f).
Proof.
apply: (iffP (Bezout_eq1_coprimepP m f)) => [[[a b] /= e]|[w /dvdpP [u hu]]].
  exists b; apply/dvdpP; exists (- a); by rewrite -e [b * f]mulrC opprD addrCA subrr addr0 mulNr.
by exists (- u, w) => /=; rewrite mulNr -hu opprB [w * f]mulrC subrK.
Qed.

Section T.
Variable p : nat.
Hypothesis pp : prime p.
Hypothesis hP : (Z.of_nat p <= 46341)%coqZ.
Variable c : cache.
Hypothesis hc : cache_valid c.
Local Notation V := (Vp p).
Local Notation I := (Ip p).
Local Notation o := (im_kops c).
Local Notation enc := (@fp_enc p).
Local Notation el := (@fp_el p).
Local Notation num := (@fp_num p).
Local Notation F := (Fp_finFieldType p).
Let sp := im_kspec pp hP hc.
Lemma cardF : #|F| = p. Proof. exact: card_Fp. Qed.
Let vq (a : 'F_p) : (nat_of_ord a < p)%N. Proof. by have := ltn_ord a; rewrite [X in (_ < X)%N](Fp_cast pp). Qed.
Let v0 (a : 'F_p) : (nat_of_ord a == 0)%N = (a == 0). Proof. by []. Qed.
Let v1 : nat_of_ord (1 : 'F_p) = 1%N. Proof. by []. Qed.
Lemma fp_num_size f n : (num f < p ^ n)%N = (size f <= n)%N.
Proof. exact: (@numv_size _ p (fun a : 'F_p => nat_of_ord a) (prime_gt0 pp) vq v0). Qed.
Lemma fp_num_Xn n : num 'X^n = (p ^ n)%N.
Proof. exact: (@numv_Xn _ p (fun a : 'F_p => nat_of_ord a) v0 v1). Qed.
Lemma fp_num_0 : num 0 = 0%N. Proof. exact: numv_0. Qed.
Let Hlt f g : gp_ltb o (enc f) (enc g) = Ok (num f < num g)%N.
Proof. by have [_ [_ [-> _]]] := C58_compare pp hP hc f g. Qed.
Let ninj : injective num := C58_num_injective pp hP hc.
Let nsize (f : {poly F}) n : (num f < #|F| ^ n)%N = (size f <= n)%N. Proof. rewrite cardF; exact: fp_num_size. Qed.
Let nXn n : num ('X^n : {poly F}) = (#|F| ^ n)%N. Proof. rewrite cardF; exact: fp_num_Xn. Qed.
Let p2 : (2 <= Z.of_nat p)%coqZ. Proof. by move/ltP: (prime_gt1 pp); clear; lia. Qed.
Lemma fp_list_ok deg : (Z.of_nat deg <= INT_MAX)%coqZ ->
  if pow_fits (Z.of_nat p) (Z.of_nat deg) then
    exists s : seq {poly 'F_p}, [/\ sorted ltn [seq num f | f <- s], forall f, (f \in s) = (size f == deg.+1),
      size s = ((p - 1) * p ^ deg)%N & fp_poly_list c (Z.of_nat p) (Z.of_nat deg) = Ok [seq enc f | f <- s]]
  else fp_poly_list c (Z.of_nat p) (Z.of_nat deg) = UB.
Proof.
move=> hd; rewrite /fp_poly_list /isub chk_ok; last by rewrite /INT_MIN /INT_MAX; lia.
rewrite bind_ok pow_nat //; case hf : (pow_fits _ _) => //.
have hf' : pow_fits (Z.of_nat p) (Z.of_nat deg) by [].
have [b1 b2] := fits_bound p2 (Zle_0_nat deg) hf'.
have hlt := fits_deg p2 (Zle_0_nat deg) hf'.
have pd : (0 < Z.of_nat p ^ Z.of_nat deg)%coqZ by apply: Z.pow_pos_nonneg; lia.
rewrite bind_ok /imul Zpow_of_nat chk_ok; last first.
  split; first by rewrite /INT_MIN; nia.
  case: (Z.eq_dec (Z.of_nat deg) 0) => h0; first by rewrite h0 Z.pow_0_r /INT_MAX; lia.
  apply: Z.le_trans (b2 (ltac:(lia))); rewrite Z.pow_add_r ?Z.pow_1_r; lia.
have [//|zero [-> hz]] := V_make pp hP (z := 0); have [//|one [-> ho]] := V_make pp hP (z := 1).
have e : ((Z.of_nat p - 1) * Z.of_nat p ^ Z.of_nat deg)%coqZ = Z.of_nat ((#|F| - 1) * #|F| ^ deg)%N.
  by rewrite cardF -multE Nat2Z.inj_mul Zpow_of_nat -minusE; congr Z.mul; move/ltP: (prime_gt1 pp); clear; lia.
rewrite !bind_ok e.
have [s [h1 h2 h3 h4]] := @gp_list_ok _ _ F _ _ _ sp enc num (@encG p pp) (@Genc p pp hP c hc) ninj Hlt (C58_increment pp hP hc)
  nsize nXn fp_num_0 zero one hz ho deg hlt.
by exists s; split=> //; rewrite h3 cardF.
Qed.
Lemma fp_get0 f : exists c0, getk (enc f) 0 = Ok c0 /\ modulus c0 = Z.of_nat p.
Proof. by have [x [-> [[hm _] _]]] := isG_get0 (encG pp f); exists x. Qed.
Lemma fp_deg f : gp_degree (enc f) = (size f).-1.
Proof. rewrite /gp_degree lengthE (isG_size (encG pp f)); case: (size f) => [|n] //; rewrite (maxn_idPr _) // minusE subn1 //. Qed.

Variable m : {poly 'F_p}.
Hypothesis m0 : m != 0.
Local Notation menc := (PropFpPolymod.fp_menc m).
Lemma fp_card_row n : #|{: 'rV[F]_n}| = (p ^ n)%N.
Proof. by rewrite PList3.card_row cardF. Qed.
Lemma fp_nel ty : (Z.of_nat (size m) <= INT_MAX)%coqZ ->
  ty = LIST_ALL /\ pow_fits (Z.of_nat p) (Z.of_nat (size m).-1) \/
  (Z.of_nat p ^ (2 * Z.of_nat (size m).-1) <= INT_MAX)%coqZ /\ (ty = LIST_UNITS \/ ty = LIST_NON_UNITS) ->
  (match ty with
          | LIST_ALL => int_power (Z.of_nat p) (Z.of_nat (size m).-1)
          | LIST_UNITS => fp_totient c (enc m)
          | LIST_NON_UNITS => a <- int_power (Z.of_nat p) (Z.of_nat (size m).-1) ;; t <- fp_totient c (enc m) ;; isub a t
          | _ => Exn
          end) = Ok (Z.of_nat #|[set v : 'rV[F]_(size m).-1 | lpred (m : {poly F}) ty (rVpoly v)]|).
Proof.
move=> hm; have hd : (Z.of_nat (size m).-1 <= INT_MAX)%coqZ by move: hm; clear; lia.
case=> [[-> hf]|[hb hty]].
  rewrite pow_nat // hf /lpred; congr (Ok (Z.of_nat _)); rewrite -fp_card_row.
  by rewrite cardsE; apply: eq_card => v; rewrite !inE.
have hf : pow_fits (Z.of_nat p) (Z.of_nat (size m).-1) by apply: fits_double => //; clear -p2; lia.
have et := PropFpFac.C61_totient_partial pp hP hc m0 hb; rewrite PropFpFac.units_phi // in et.
case: hty => ->; first by rewrite et.
rewrite pow_nat // hf et !bind_ok /isub.
have hle : (phi (m : {poly F}) <= p ^ (size m).-1)%N by rewrite -fp_card_row /phi; exact: max_card.
have [hbd _] := fits_bound p2 (Zle_0_nat _) hf.
rewrite chk_ok; last by rewrite Zpow_of_nat /INT_MIN; move/leP: hle; rewrite -Zpow_of_nat in hbd *; move: hbd; clear; lia.
rewrite /lpred (PList3.card_non _ (coprimep (m : {poly F}))) cardF; congr Ok; rewrite -minusE Nat2Z.inj_sub //; exact/leP.
Qed.
Lemma fp_polymod_list_ok ty : (Z.of_nat (size m) <= INT_MAX)%coqZ ->
  ty = LIST_ALL /\ pow_fits (Z.of_nat p) (Z.of_nat (size m).-1) \/
  (Z.of_nat p ^ (2 * Z.of_nat (size m).-1) <= INT_MAX)%coqZ /\ (ty = LIST_UNITS \/ ty = LIST_NON_UNITS) ->
  exists s : seq {poly 'F_p},
  [/\ sorted ltn [seq num f | f <- s], forall f, (f \in s) = (size f < size m)%N && lpred (m : {poly F}) ty f &
    fp_polymod_list c (enc m) ty = if (0 < size s)%N then Ok [seq menc f | f <- s] else Exn].
Proof.
move=> hm hty; rewrite /fp_polymod_list; have [c0 [-> hc0]] := fp_get0 m; rewrite bind_ok hc0 fp_deg (fp_nel hm hty) bind_ok.
have [//|zero [-> hz]] := V_make pp hP (z := 0); have [//|one [-> ho]] := V_make pp hP (z := 1); rewrite !bind_ok Nat2Z.id.
have [s [h1 h2 h3 h4]] := @gp_res_ok _ _ F _ _ _ sp enc num (@encG p pp) (@Genc p pp hP c hc) ninj Hlt (C58_increment pp hP hc)
  nsize nXn fp_num_0 zero one hz ho m m0 ty _ erefl.
exists s; split=> //; rewrite h3 PList3.pow_expn; move: h4; rewrite cardF.
exact.
Qed.
Lemma fp_polymod_all_ub : (Z.of_nat (size m) <= INT_MAX)%coqZ -> ~~ pow_fits (Z.of_nat p) (Z.of_nat (size m).-1) ->
  fp_polymod_list c (enc m) LIST_ALL = UB.
Proof.
move=> hm hf; rewrite /fp_polymod_list; have [c0 [-> hc0]] := fp_get0 m; rewrite bind_ok hc0 fp_deg pow_nat ?(negbTE hf) //.
by move: hm; clear; lia.
Qed.
Lemma fp_polymod_bad ty : ty = LIST_MULTIPLES \/ ty = LIST_REL_PRIME -> fp_polymod_list c (enc m) ty = Exn.
Proof. by rewrite /fp_polymod_list; have [c0 [-> hc0]] := fp_get0 m; case=> ->. Qed.
End T.
