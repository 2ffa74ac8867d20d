(* Listings over GF(2^n). *)
From Verif Require Import Base MIntMath MIntmod MMat MBits MF2Poly MF2Fac MFac MPoly MPolymod MPolyFac MF2nPoly MList PFacGen PF2Poly.
From mathcomp Require Import all_ssreflect all_algebra ssrZ finfield.
From Verif Require Import PBits3 PF2Poly2 PF2Poly4 PMat PFp PPoly PPoly2 PPoly3 PF2n PropF2nPoly PPhi PList PList2 PList5 PList6.
From Verif Require PropF2nPolymod PropF2nFac PList3 PF2Tot PropLinalg.
Set Implicit Arguments.
Unset Strict Implicit.
Unset Printing Implicit Defensive.
Import GRing.Theory.
Delimit Scope Z_scope with coqZ.
Local Open Scope ring_scope.

Section T.
Variable G : gf2.
Hypothesis hn : (Z.of_nat (size (gf_m G)).-1 <= 30)%coqZ.
Local Notation L := (gf_L G).
Local Notation V := (Vg (gf_m G)).
Local Notation I := (@Ig L (gf_emb G) (gf_z G)).
Local Notation o := f2n_kops.
Local Notation enc := (@g2_enc G).
Local Notation el := (@gf_el G).
Local Notation num := (@g2_num G).
Local Notation n := (size (gf_m G)).-1.
Let sp : kspec o V I kg := f2n_kspec (gf_irr G) (gf_root G) (gf_card G).
Let v0 (a : L) : (g2_val a == 0)%N = (a == 0).
Proof. by have [h e] := elR a; rewrite -[in RHS]e -(kg0 h). Qed.
Let v1 : g2_val (1 : L) = 1%N.
Proof. by have [h e] := elR (1 : L); have := kg1 h e. Qed.
Let vq (a : L) : (g2_val a < #|L|)%N. Proof. by have [h e] := elR a; have := kglt h. Qed.
Let nsize (f : {poly L}) k : (num f < #|L| ^ k)%N = (size f <= k)%N.
Proof. exact: (@numv_size _ #|L| (@g2_val G) (ltnW (L_gt1 G)) vq v0). Qed.
Let nXn k : num 'X^k = (#|L| ^ k)%N.
Proof. exact: (@numv_Xn _ #|L| (@g2_val G) v0 v1). Qed.
Let n0 : num 0 = 0%N. Proof. exact: numv_0. Qed.
Let Hlt f g : gp_ltb o (enc f) (enc g) = Ok (num f < num g)%N.
Proof. by have [_ [_ [-> _]]] := C64_compare f g. Qed.
Let ninj : injective num := @C64_num_injective G.
Let q2 : (2 <= Z.of_nat #|L|)%coqZ. Proof. by move/ltP: (L_gt1 G); clear; lia. Qed.
Lemma g2_list_ok deg : (Z.of_nat deg <= INT_MAX)%coqZ ->
  if pow_fits (2 ^ Z.of_nat n) (Z.of_nat deg) then
    exists s : seq {poly L}, [/\ sorted ltn [seq num f | f <- s], forall f, (f \in s) = (size f == deg.+1),
      size s = ((#|L| - 1) * #|L| ^ deg)%N & f2n_poly_list (PropLinalg.f2_enc (gf_m G)) (Z.of_nat deg) = Ok [seq enc f | f <- s]]
  else f2n_poly_list (PropLinalg.f2_enc (gf_m G)) (Z.of_nat deg) = UB.
Proof.
move=> hd; rewrite -PF2Tot.Zpow_nat -(gf_card G).
rewrite /f2n_poly_list (degree_thm (PList3.encW (gf_m G))) bind_ok PF2Tot.ishl1_ok // bind_ok.
have h30 := PF2Tot.pow30 hn; rewrite -(gf_card G) in h30 *.
rewrite /isub chk_ok; last by rewrite /INT_MIN /INT_MAX; move: h30; clear; lia.
rewrite bind_ok pow_nat //; case hf : (pow_fits _ _) => //.
have hf' : pow_fits (Z.of_nat #|L|) (Z.of_nat deg) by [].
have [b1 b2] := fits_bound q2 (Zle_0_nat deg) hf'.
have hlt := fits_deg q2 (Zle_0_nat deg) hf'.
have pd : (0 < Z.of_nat #|L| ^ Z.of_nat deg)%coqZ by apply: Z.pow_pos_nonneg; move: q2; clear; lia.
rewrite bind_ok /imul Zpow_of_nat chk_ok; last first.
  split; first by rewrite /INT_MIN; move: q2 pd; clear; nia.
  case: (Z.eq_dec (Z.of_nat deg) 0) => h0; first by rewrite h0 Z.pow_0_r /INT_MAX; move: h30; clear; lia.
  apply: Z.le_trans (b2 (ltac:(lia))); rewrite Z.pow_add_r ?Z.pow_1_r; move: q2 pd; clear; lia.
have [zero [-> hz]] := V_int (gf_irr G) (gf_root G) 0 (PropLinalg.f2_encP (gf_m G)).
have [one [-> ho]] := V_int (gf_irr G) (gf_root G) 1 (PropLinalg.f2_encP (gf_m G)).
have e : ((Z.of_nat #|L| - 1) * Z.of_nat #|L| ^ Z.of_nat deg)%coqZ = Z.of_nat ((#|L| - 1) * #|L| ^ deg)%N.
  by rewrite -multE Nat2Z.inj_mul Zpow_of_nat -minusE; congr Z.mul; move/ltP: (L_gt1 G); clear; lia.
rewrite !bind_ok e.
have [s [h1 h2 h3 h4]] := @gp_list_ok _ _ L _ _ _ sp enc num (@encG G) (@Genc G) ninj Hlt (@C64_increment G)
  nsize nXn n0 zero one hz ho deg hlt.
by exists s; split.
Qed.
Lemma g2_get0 f : exists c0, getk (enc f) 0 = Ok c0 /\ V c0 /\ pm_mod c0 = PropLinalg.f2_enc (gf_m G).
Proof.
have [x [-> [[r hr] _]]] := isG_get0 (encG f); exists x; split=> //; split; first by exists r.
exact: PropLinalg.f2_encE hr.2.1.
Qed.
Lemma g2_deg f : gp_degree (enc f) = (size f).-1.
Proof. by rewrite /gp_degree lengthE (isG_size (encG f)); case: (size f) => [|k] //; rewrite (maxn_idPr _) // minusE subn1. Qed.

Variable m : {poly L}.
Hypothesis m0 : m != 0.
Local Notation menc := (PropF2nPolymod.g2_menc m).
Local Notation D := (Z.of_nat (size m).-1 * Z.of_nat n)%coqZ.
Lemma shl_ok : (D <= 30)%coqZ -> imul (Z.of_nat (size m).-1) (Z.of_nat n) = Ok D /\ ishl1 D = Ok (Z.of_nat (#|L| ^ (size m).-1)%N).
Proof.
move=> h; split; first by rewrite /imul chk_ok // /INT_MIN /INT_MAX; move: h; clear; nia.
by rewrite -Nat2Z.inj_mul PF2Tot.ishl1_ok ?Nat2Z.inj_mul // gf_card -expnM mulnC.
Qed.
Lemma g2_nel ty : ty = LIST_ALL /\ (D <= 30)%coqZ \/ (2 * D <= 30)%coqZ /\ (ty = LIST_UNITS \/ ty = LIST_NON_UNITS) ->
  (match ty with
          | LIST_ALL => k <- imul (Z.of_nat (size m).-1) (Z.of_nat n) ;; ishl1 k
          | LIST_UNITS => f2n_totient (enc m)
          | LIST_NON_UNITS =>
              k <- imul (Z.of_nat (size m).-1) (Z.of_nat n) ;; a <- ishl1 k ;;
              t <- f2n_totient (enc m) ;; isub a t
          | _ => Exn
          end) = Ok (Z.of_nat #|[set v : 'rV[L]_(size m).-1 | lpred m ty (rVpoly v)]|).
Proof.
case=> [[-> hD]|[hD hty]].
  have [-> e] := shl_ok hD; rewrite bind_ok e /lpred; congr (Ok (Z.of_nat _)); rewrite -PList3.card_row.
  by rewrite cardsE; apply: eq_card => v; rewrite !inE.
have hD1 : (D <= 30)%coqZ by move: hD; clear; nia.
have et := PropF2nFac.C70_totient_partial hn m0; rewrite PropF2nFac.units_phi // in et.
have {}et := et (ltac:(move: hD; clear; nia)).
case: hty => ->; first by rewrite et.
have [-> e] := shl_ok hD1; rewrite bind_ok e et !bind_ok /isub.
have hle : (phi m <= #|L| ^ (size m).-1)%N by rewrite -PList3.card_row /phi; exact: max_card.
rewrite chk_ok; last first.
  rewrite gf_card -expnM; have := @PF2Tot.pow30 (n * (size m).-1).
  rewrite -multE Nat2Z.inj_mul Z.mul_comm => /(_ hD1); move: hle; rewrite gf_card -expnM => /leP; rewrite /INT_MIN /INT_MAX -multE.
  by clear; lia.
rewrite /lpred (PList3.card_non _ (coprimep m)); congr Ok; rewrite -minusE Nat2Z.inj_sub //; exact/leP.
Qed.
Lemma g2_polymod_list_ok ty : ty = LIST_ALL /\ (D <= 30)%coqZ \/ (2 * D <= 30)%coqZ /\ (ty = LIST_UNITS \/ ty = LIST_NON_UNITS) ->
  exists s : seq {poly L},
  [/\ sorted ltn [seq num f | f <- s], forall f, (f \in s) = (size f < size m)%N && lpred m ty f &
    f2n_polymod_list (enc m) ty = if (0 < size s)%N then Ok [seq menc f | f <- s] else Exn].
Proof.
move=> hty; rewrite /f2n_polymod_list; have [c0 [-> [hc0 ec]]] := g2_get0 m; rewrite bind_ok ec g2_deg.
rewrite (degree_thm (PList3.encW (gf_m G))) bind_ok (g2_nel hty) bind_ok.
have [//|zero [-> hz]] := ks_int sp hc0 (v := 0); have [//|one [-> ho]] := ks_int sp hc0 (v := 1); rewrite !bind_ok.
have [s [h1 h2 h3 h4]] := @gp_res_ok _ _ L _ _ _ sp enc num (@encG G) (@Genc G) ninj Hlt (@C64_increment G)
  nsize nXn n0 zero one hz ho m m0 ty _ erefl.
exists s; split=> //; rewrite h3 !PList3.pow_expn -gf_card.
exact: h4.
Qed.
Lemma g2_polymod_bad ty : ty = LIST_MULTIPLES \/ ty = LIST_REL_PRIME -> f2n_polymod_list (enc m) ty = Exn.
Proof.
rewrite /f2n_polymod_list; have [c0 [-> [hc0 ec]]] := g2_get0 m; rewrite bind_ok ec (degree_thm (PList3.encW (gf_m G))).
by case=> ->.
Qed.
End T.
