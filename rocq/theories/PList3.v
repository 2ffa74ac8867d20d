(* Listings over GF(2) and Z/p. *)
From Verif Require Import Base MIntMath MIntmod MMat MBits MF2Poly MF2Fac MList PF2Poly PIntMath.
From mathcomp Require Import all_ssreflect all_algebra finfield ssrZ.
From Verif Require Import PMat PBits3 PF2Poly2 PF2Poly3 PF2Irr PF2Tot PPhi PPoly PList PList2 PropLinalg.
From Verif Require PropF2Poly.
Set Implicit Arguments.
Unset Strict Implicit.
Unset Printing Implicit Defensive.
Import GRing.Theory.
Delimit Scope Z_scope with coqZ.
Local Open Scope ring_scope.
Local Notation F2 := [finFieldType of 'F_2].
Local Notation enc := f2_enc.

(* the value of a polynomial over GF(2) at 2, as an integer *)
Definition f2_num (f : {poly 'F_2}) : nat := N.to_nat (valN (enc f)).
Lemma f2_num_inj : injective f2_num.
Proof. by move=> f g /N2Nat.inj /(PropF2Poly.C54_value_unique (f2_encP f) (f2_encP g)). Qed.
Lemma f2_Hlt f g : f2_ltb (enc f) (enc g) = Ok (f2_num f < f2_num g)%N.
Proof.
have [-> _ _ _] := PropF2Poly.C54_order (f2_encP f) (f2_encP g); congr Ok.
by rewrite /f2_num; case: ltP => h; [apply/N.ltb_lt|apply/N.ltb_ge]; lia.
Qed.
Lemma f2_Hinc f : exists g, f2_increment (enc f) = Ok (enc g) /\ f2_num g = (f2_num f).+1.
Proof.
have [a [g [-> ha hv]]] := PropF2Poly.C54_increment (f2_encP f).
exists g; rewrite -(f2_encE ha); split=> //; rewrite /f2_num -(f2_encE ha) hv; lia.
Qed.
Lemma to_nat_pow n : N.to_nat (2 ^ N.of_nat n) = (2 ^ n)%N.
Proof. by rewrite N2Nat.inj_pow Nat2N.id; elim: n => // n IH; rewrite expnS Nat.pow_succ_r' IH. Qed.
Lemma pow_expn q n : Nat.pow q n = (q ^ n)%N.
Proof. by elim: n => // n IH; rewrite expnS Nat.pow_succ_r' IH. Qed.
Lemma f2_num_size f n : (f2_num f < 2 ^ n)%N = (size f <= n)%N.
Proof.
have he := f2_encP f; rewrite -to_nat_pow /f2_num; apply/idP/idP => h.
  apply/leq_sizeP => j hj; rewrite (coef_valN j he) (@N_bit_ge _ (N.of_nat n)) //.
    by move/ltP: h; lia.
  by move/leP: hj; lia.
suff : (valN (enc f) < 2 ^ N.of_nat n)%num by move=> h2; apply/ltP; lia.
apply: N_bit_lt => j hj; rewrite -(N2Nat.id j); apply: (@Ib_inj _ false); rewrite -(coef_valN _ he).
by rewrite nth_default //; apply: leq_trans h _; apply/leP; lia.
Qed.
Lemma f2_num_Xn n : f2_num 'X^n = (2 ^ n)%N.
Proof.
have he := f2_encP 'X^n; rewrite -to_nat_pow /f2_num; congr N.to_nat; apply: N.bits_inj => j.
apply: Ib_inj; rewrite -{1}(N2Nat.id j) -(coef_valN _ he) coefXn N.pow2_bits_eqb.
have -> : (N.of_nat n =? j)%num = (N.to_nat j == n); last by case: eqP.
by case: eqP => h; [apply/N.eqb_eq|apply/N.eqb_neq]; lia.
Qed.
Lemma f2_num_0 : f2_num 0 = 0%N.
Proof. by rewrite /f2_num -(f2_encE isP0). Qed.
Lemma f2_num_1 : f2_num 1 = 1%N.
Proof. by rewrite /f2_num -(f2_encE isP1). Qed.

Lemma f2_setX n : set_bit (f2_of_int 0) (Z.of_nat n) = Ok (enc 'X^n).
Proof.
have [|l [-> hl]] := set_bit_P (k := n) isP0; first by rewrite coef0.
by rewrite add0r in hl; rewrite (f2_encE hl).
Qed.

Lemma f2_list_ok deg : (Z.of_nat deg <= 30)%coqZ -> exists s : seq {poly 'F_2},
  [/\ sorted ltn [seq f2_num f | f <- s], forall f, (f \in s) = (size f == deg.+1), size s = (2 ^ deg)%N &
      f2_poly_list (Z.of_nat deg) = Ok [seq enc f | f <- s]].
Proof.
move=> hd; have nq : (0 < 2 ^ deg)%N by rewrite expn_gt0.
have [rv [erv srv]] := new_vec_ok [:: 0%num] nq.
have [|s [es us ms hs]] := @enum_ok _ _ _ enc f2_num f2_ltb f2_increment (f2_num 'X^deg.+1) f2_num_inj f2_Hlt (fun f _ => f2_Hinc f)
  (fun r => Ok (Some r)) (fun f => Some (enc f)) 'X^deg.+1 (leqnn _) (fun f _ => erefl) (Z.to_nat (Z.of_nat (2 ^ deg)%N)).+1 'X^deg rv.
  by rewrite !f2_num_Xn Nat2Z.id expnS mul2n -addnn addnK.
have sz : size s = (2 ^ deg)%N by rewrite -(size_map f2_num) es size_iota !f2_num_Xn expnS mul2n -addnn addnK.
exists s; split=> //.
    by rewrite es; exact: iota_ltn_sorted.
  by move=> f; rewrite ms f2_num_Xn f2_num_Xn leqNgt !f2_num_size -ltnNge andbC eqn_leq.
rewrite /f2_poly_list ishl1_ok // bind_ok erv bind_ok f2_setX bind_ok /iadd chk_ok; last by rewrite /INT_MIN /INT_MAX; lia.
rewrite bind_ok (_ : Z.of_nat deg + 1 = Z.of_nat deg.+1)%coqZ; last by lia.
rewrite f2_setX bind_ok hs /=.
have -> : pmap (fun f => Some (enc f)) s = [seq enc f | f <- s] by elim: (s) => //= x t ->.
by rewrite size_map sz srv leqnn bind_ok drop_oversize ?srv // cats0.
Qed.

Section Mod.
Variable m : {poly 'F_2}.
Hypothesis m0 : m != 0.
Definition f2_menc (m f : {poly 'F_2}) : fpmod := mkpm (enc (f %% m)) (enc m).
Lemma encL f : isL (enc f) f. Proof. exact: isP_L (f2_encP f). Qed.
Lemma encW f : PF2Poly2.isW (enc f) f. Proof. exact: isP_W (f2_encP f). Qed.
Lemma f2_store_ok f : pm_make (enc f) (enc m) = Ok (f2_menc m f).
Proof. by rewrite /pm_make; have [c [-> hc]] := mod_L (encL f) (encL m) m0; rewrite bind_ok (f2_encE hc). Qed.
Lemma f2_unit_ok r d : isL r d -> f2_unit_gcd r = Ok (size d == 1%N).
Proof.
move=> hr; rewrite /f2_unit_gcd (degree_thm (isL_W hr)) bind_ok eqbE.
case e : (size d) => [|[|k]] //=; last first.
  by rewrite (neqb_P (isL_W hr) (isP_W isP0)) -size_poly_eq0 e.
by rewrite (neqb_P (isL_W hr) (isP_W isP0)) -size_poly_eq0 e.
Qed.
Lemma f2_gcd_unit f g : exists d, f2_gcd (enc f) (enc g) = Ok d /\ f2_unit_gcd d = Ok (coprimep g f).
Proof.
have [d [-> hd]] := gcd_L (encL f) (encL g); exists d; split=> //.
by rewrite (f2_unit_ok hd) coprimep_sym coprimep_def.
Qed.
Lemma f2_res_gen (P : pred {poly 'F_2}) sel nel : (forall f, sel (enc f) = Ok (if P f then Some (f2_menc m f) else None)) ->
  let cnt := #|[set v : 'rV['F_2]_(size m).-1 | P (rVpoly v)]| in
  nel = Z.of_nat cnt -> exists s : seq {poly 'F_2},
  [/\ sorted ltn [seq f2_num f | f <- s], forall f, (f \in s) = (size f < size m)%N && P f, size s = cnt &
    (rv <- new_vec pm_dflt nel ;;
     max <- set_bit (f2_of_int 0) (Z.of_nat (size m).-1) ;;
     '(rv, _) <- MList.enum f2_ltb f2_increment (S (Nat.pow 2 (size m).-1)) (f2_of_int 0) max sel rv ;;
     Ok rv) = if (0 < cnt)%N then Ok [seq f2_menc m f | f <- s] else Exn].
Proof.
move=> hsel cnt ->; set d := (size m).-1.
have dm : size m = d.+1 by rewrite prednK // size_poly_gt0.
have H rv := @enum_res F2 _ _ _ _ _ _ _ f2_num_inj f2_Hlt f2_Hinc f2_num_size f2_num_Xn f2_num_0 P _ _ d rv (fun (f : {poly 'F_2}) (_ : (size f <= d)%N) => hsel f).
case: (posnP cnt) => hc.
  have [s [us ms sz _]] := H [::]; exists s.
  split=> //; first by move=> f; rewrite ms dm.
  by rewrite hc.
have [rv [erv srv]] := new_vec_ok pm_dflt hc; have [s [us ms sz hs]] := H rv.
exists s; split=> //; first by move=> f; rewrite ms dm.
rewrite erv !bind_ok f2_setX bind_ok pow_expn (f2_encE isP0) hs sz srv leqnn bind_ok drop_oversize ?srv //.
by rewrite cats0.
Qed.
Definition f2_lpred (ty : sp_list_type) (f : {poly 'F_2}) : bool :=
  match ty with LIST_UNITS => coprimep m f | LIST_NON_UNITS => ~~ coprimep m f | _ => true end.
Lemma card_row (F : finFieldType) n : #|{: 'rV[F]_n}| = (#|F| ^ n)%N.
Proof. by rewrite card_matrix mul1n. Qed.
Lemma f2_card : #|F2| = 2%N. Proof. by rewrite card_ord. Qed.
Lemma f2_card_row n : #|{: 'rV['F_2]_n}| = (2 ^ n)%N.
Proof. by rewrite (card_row F2) f2_card. Qed.
Lemma card_non (F : finFieldType) n (P : pred {poly F}) :
  #|[set v : 'rV[F]_n | ~~ P (rVpoly v)]| = (#|F| ^ n - #|[set v : 'rV[F]_n | P (rVpoly v)]|)%N.
Proof.
rewrite -card_row [LHS]cardsCs; congr (_ - _)%N; by apply: eq_card => v; rewrite !inE negbK.
Qed.
Lemma f2_list_nel t ty : (Z.of_nat (size m).-1 <= 30)%coqZ ->
  ty = LIST_ALL \/ (exists t', t = Some t') /\ (ty = LIST_UNITS \/ ty = LIST_NON_UNITS) ->
  (match ty with
          | LIST_ALL => ishl1 (Z.of_nat (size m).-1)
          | LIST_UNITS => f2_totient t (enc m)
          | LIST_NON_UNITS => a <- ishl1 (Z.of_nat (size m).-1) ;; t <- f2_totient t (enc m) ;; isub a t
          | _ => Exn
          end) = Ok (Z.of_nat #|[set v : 'rV['F_2]_(size m).-1 | f2_lpred ty (rVpoly v)]|).
Proof.
move=> hd ht; have h30 := pow30 hd; case: ht => [->|[[t' ->]]].
  rewrite ishl1_ok // /f2_lpred; congr (Ok (Z.of_nat _)); rewrite -f2_card_row.
  by rewrite cardsE; apply: eq_card => v; rewrite !inE.
have et := totient_thm t' (f2_encP m) m0 hd.
case=> ->; first by rewrite et.
rewrite ishl1_ok // et !bind_ok /isub.
have hle : (phi2 m <= 2 ^ (size m).-1)%N by rewrite -f2_card_row /phi; exact: max_card.
rewrite chk_ok; last by rewrite /INT_MIN /INT_MAX; move/leP: hle; lia.
rewrite /f2_lpred (card_non (F := F2) _ (coprimep m)) f2_card; congr Ok; rewrite -minusE Nat2Z.inj_sub //; exact/leP.
Qed.
Lemma f2_polymod_list_ok t ty : (Z.of_nat (size m).-1 <= 30)%coqZ ->
  ty = LIST_ALL \/ (exists t', t = Some t') /\ (ty = LIST_UNITS \/ ty = LIST_NON_UNITS) ->
  exists s : seq {poly 'F_2},
  [/\ sorted ltn [seq f2_num f | f <- s], forall f, (f \in s) = (size f < size m)%N && f2_lpred ty f &
    f2_polymod_list t (enc m) ty = if (0 < size s)%N then Ok [seq f2_menc m f | f <- s] else Exn].
Proof.
move=> hd ht; have en := f2_list_nel hd ht.
rewrite /f2_polymod_list (degree_thm (encW m)) bind_ok en bind_ok {en}.
case: ht => [->|[_ [->|->]]].
- have [f|s [h1 h2 <- h4]] := @f2_res_gen xpredT (fun r => x <- pm_make r (enc m) ;; Ok (Some x)) _ _ erefl.
    by rewrite f2_store_ok.
  by exists s.
- have [f|s [h1 h2 <- h4]] := @f2_res_gen (coprimep m) (fun r => g <- f2_gcd r (enc m) ;; u <- f2_unit_gcd g ;;
    if u : bool then x <- pm_make r (enc m) ;; Ok (Some x) else Ok None) _ _ erefl.
    by have [d [-> e]] := f2_gcd_unit f m; rewrite bind_ok e bind_ok f2_store_ok; case: ifP.
  by exists s.
have [f|s [h1 h2 <- h4]] := @f2_res_gen (fun f => ~~ coprimep m f) (fun r => g <- f2_gcd r (enc m) ;; u <- f2_unit_gcd g ;;
    if u : bool then Ok None else x <- pm_make r (enc m) ;; Ok (Some x)) _ _ erefl.
  by have [d [-> e]] := f2_gcd_unit f m; rewrite bind_ok e bind_ok f2_store_ok; case: ifP.
by exists s.
Qed.

Lemma trim_ok (E : Type) (a b : seq E) : trim_vec (a ++ b) (size a) = if (0 < size a)%N then Ok a else Exn.
Proof.
rewrite /trim_vec !ltbE lengthE size_cat ltnS leqn0 [X in _ || X]ltnNge leq_addr orbF.
have -> : firstn (size a) (a ++ b) = a by rewrite -lengthE firstn_app Nat.sub_diag firstn_O firstn_all app_nil_r.
by case: (size a).
Qed.
Definition f2_gpred (g : {poly 'F_2}) (ty : sp_list_type) (f : {poly 'F_2}) : bool :=
  match ty with LIST_MULTIPLES => gcdp m g %| f | LIST_REL_PRIME => coprimep (gcdp m g) f | _ => false end.
Lemma f2_glist_ok g ty : (Z.of_nat (size m).-1 <= 30)%coqZ ->
  exists s : seq {poly 'F_2},
  [/\ sorted ltn [seq f2_num f | f <- s], forall f, (f \in s) = (size f < size m)%N && f2_gpred g ty f &
    f2_polymod_glist (f2_menc m g) ty = if (0 < size s)%N then Ok [seq f2_menc m f | f <- s] else Exn].
Proof.
move=> hd; rewrite /f2_polymod_glist /=.
have [gr [-> hg]] := gcd_L (encL m) (encL (g %% m)).
have eg : gcdp m (g %% m) = gcdp m g by apply: eqp_F2; exact: gcdp_modr.
have g0 : gcdp m g != 0 by rewrite gcdp_eq0 negb_and m0.
rewrite eg in hg; have hgP := isL_nz hg g0; rewrite (f2_encE hgP) bind_ok (degree_thm (encW m)) bind_ok ishl1_ok // bind_ok.
have nq : (0 < 2 ^ (size m).-1)%N by rewrite expn_gt0.
have [rv [-> srv]] := new_vec_ok pm_dflt nq; rewrite bind_ok f2_setX bind_ok.
have dm : size m = (size m).-1.+1 by rewrite prednK // size_poly_gt0.
have H P sel : (forall f, sel (enc f) = Ok (if P f then Some (f2_menc m f) else None)) -> exists s : seq {poly 'F_2},
  [/\ sorted ltn [seq f2_num f | f <- s], forall f, (f \in s) = (size f < size m)%N && P f &
  ('(rv, nel) <- MList.enum f2_ltb f2_increment (S (Nat.pow 2 (size m).-1)) (f2_of_int 0) (enc 'X^(size m).-1) sel rv ;;
    trim_vec rv nel) = if (0 < size s)%N then Ok [seq f2_menc m f | f <- s] else Exn].
  move=> hsel; have [s [h1 h2 h3 h4]] := @enum_res F2 _ _ _ _ _ _ _ f2_num_inj f2_Hlt f2_Hinc f2_num_size f2_num_Xn f2_num_0 P _ _ (size m).-1 rv (fun (f : {poly 'F_2}) _ => hsel f).
  exists s; split=> //; first by move=> f; rewrite h2 [in RHS]dm.
  rewrite pow_expn (f2_encE isP0) h4 srv.
  have -> : (size s <= 2 ^ (size m).-1)%N by rewrite h3 -f2_card_row; exact: max_card.
  by rewrite bind_ok -(size_map (f2_menc m) s) trim_ok.
case: ty => //.
- by exists [::]; split=> //; move=> f; rewrite andbF.
- by exists [::]; split=> //; move=> f; rewrite andbF.
- by exists [::]; split=> //; move=> f; rewrite andbF.
- apply: H => f; have [c [-> hc]] := mod_L (encL f) (encL (gcdp m g)) g0; rewrite bind_ok.
  by rewrite (eqb_P (isP_W hc) (isP_W isP0)) bind_ok f2_store_ok /= -/(dvdp _ _); case: ifP.
apply: H => f; have [d [-> e]] := f2_gcd_unit f (gcdp m g); rewrite bind_ok e bind_ok f2_store_ok /f2_gpred.
by case: coprimep.
Qed.
End Mod.
