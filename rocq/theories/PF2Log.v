(* Discrete logarithms in GF(2)[x]/(m). *)
From Verif Require Import Base MIntMath MMat MBits MFac PIntMath PBits PBits2 MF2Poly MF2Fac MUnits PPow PF2Poly PF2Fac1 PFacGen PFacInt PUnits.
From mathcomp Require Import all_ssreflect fingroup perm all_algebra finfield separable ssrZ.
From Verif Require Import PLin PLin2 PLin3 PMat PMat2 PMat3 PropMat PBits3 PF2Poly2 PF2Poly3 PF2Poly4 PBerl PFacPoly PF2Fac2 PF2Fac3 PIrr PF2Irr PPhi PF2Tot PEuler PF2Units.
From Verif Require PropF2Poly.
Set Implicit Arguments.
Unset Strict Implicit.
Unset Printing Implicit Defensive.
Import GRing.Theory.
Delimit Scope Z_scope with coqZ.
Local Open Scope ring_scope.
Local Notation F2 := [finFieldType of 'F_2].

Section Log.
Variable m : {poly 'F_2}.
Hypothesis m0 : m != 0.
Definition validM (x : fpmod) : Prop := exists r, isM x r m.
Lemma valid_eqb x y : validM x -> validM y -> pm_eqb x y = Ok (N.eqb (valN (pm_res x)) (valN (pm_res y))).
Proof.
move=> [r hx] [s hy]; rewrite (pm_eqb_ok hx hy); congr Ok.
have [h1 h2] := PropF2Poly.C54_value_unique hx.1 hy.1.
by apply/eqP/N.eqb_spec.
Qed.
Lemma valid_ltb x y : validM x -> validM y -> pm_ltb x y = Ok (N.ltb (valN (pm_res x)) (valN (pm_res y))).
Proof.
move=> [r hx] [s hy]; rewrite /pm_ltb (check_ok hx hy) eqxx bind_ok.
by have [-> _ _ _] := PropF2Poly.C54_order hx.1 hy.1.
Qed.

(* the table of x * s^i *)
Fixpoint tab (x s : fpmod) (i : nat) : fpmod :=
  if i is i'.+1 then (if pm_mul (tab x s i') s is Ok y then y else x) else x.
Lemma tab_ok x s a h : isM x a m -> isM s h m -> forall i,
  isM (tab x s i) ((a * h ^+ i) %% m)%R m /\ pm_mul (tab x s i) s = Ok (tab x s i.+1).
Proof.
move=> hx hs; have st i : isM (tab x s i) ((a * h ^+ i) %% m)%R m -> pm_mul (tab x s i) s = Ok (tab x s i.+1) /\ isM (tab x s i.+1) ((a * h ^+ i.+1) %% m)%R m.
  move=> hi /=; have [c [-> hc]] := pm_mul_ok hi hs; split=> //.
  by move: hc; rewrite modp_mull2 -mulrA -exprSr.
elim=> [|i [IH _]]; last by have [_ h1] := st i IH; split=> //; have [] := st _ h1.
have h0 : isM (tab x s 0) ((a * h ^+ 0) %% m)%R m by rewrite expr0 mulr1 (isM_mod hx).
by split=> //; have [] := st _ h0.
Qed.

Lemma log_pre (g : fpmod) r : isM g r m -> (Z.of_nat (size m).-1 <= 30)%coqZ ->
  exists n k : Z, [/\ ishl1 (Z.of_nat (size m).-1) = Ok n, int_sqrt_ceil n = Ok k, (0 < k <= 32768)%coqZ,
    n = Z.of_nat (2 ^ (size m).-1)%N & (n <= k * k)%coqZ].
Proof.
move=> hg hd; have hp := pow30 hd.
have [|k [ek [k0 [k1 k2]]]] := int_sqrt_ok true (Z.of_nat (2 ^ (size m).-1)%N).
  by move: hp; rewrite -[(2 ^ 30)%coqZ]/(1073741824%coqZ) /INT_MAX; lia.
exists (Z.of_nat (2 ^ (size m).-1)%N), k; split=> //; first exact: ishl1_ok.
split; first by move: k0 k1 hp; clear; nia.
by apply: k2 => //; move: hp; rewrite -[(2 ^ 30)%coqZ]/(1073741824%coqZ); clear; lia.
Qed.

Lemma f2_log_nonunit qs g r a : isM g r m -> (Z.of_nat (size m).-1 <= 30)%coqZ -> ~~ coprimep r m -> f2_log qs g a = Exn.
Proof.
move=> hg hd hc; have [n [k [e1 e2 _ _ _]]] := log_pre hg hd; have [_ [hm _]] := hg.
by rewrite /f2_log (degree_thm (isP_W hm)) bind_ok e1 bind_ok e2 bind_ok (pm_recip_nonunit hg hc).
Qed.

Lemma f2_log_ok qs g r a s : sorts pm_ltb validM qs -> isM g r m -> isM a s m -> (Z.of_nat (size m).-1 <= 30)%coqZ -> coprimep r m ->
  (exists e, f2_log qs g a = Ok (Z.of_nat e) /\ (r ^+ e %% m)%R = s /\ (Z.of_nat e <= INT_MAX)%coqZ)
  \/ (f2_log qs g a = Exn /\ forall e, (r ^+ e %% m)%R <> s).
Proof.
move=> hqs hg ha hd hc; have [n [k [e1 e2 hk en hnk]]] := log_pre hg hd; have [_ [hm _]] := hg.
rewrite /f2_log (degree_thm (isP_W hm)) bind_ok e1 bind_ok e2 bind_ok.
have [gi [h [-> [hgi hh]]]] := pm_recip_unit hg hc; rewrite bind_ok.
have [||gk [-> hgk]] := pm_exp_pos hg (e := k); [by rewrite /INT_MAX; lia|by left; lia|].
rewrite bind_ok.
have [one [o [-> [ho ho1]]]] := pm_div_unit hg hg hc; rewrite bind_ok.
have hc' : coprimep m r by rewrite coprimep_sym.
have eo : o = 1 %% m.
  have := @coprime_cancel F2 m o 1 r hc'; rewrite (isM_mod ho) => -> //.
  by rewrite ho1 mul1r (isM_mod hg).
have key i j : (valN (pm_res (tab a gi i)) = valN (pm_res (tab one gk j))) <-> (r ^+ (i + j * Z.to_nat k) %% m)%R = s.
  have [hX _] := tab_ok ha hgi i; have [hY _] := tab_ok ho hgk j.
  rewrite (PropF2Poly.C54_value_unique hX.1 hY.1).
  have cri : coprimep m (r ^+ i) by apply: coprimeX.
  have ehr : ((h * r) ^+ i %% m)%R = 1 %% m.
    by rewrite -(powmod (h * r)) [h * r]mulrC hh powmod expr1n.
  have lhs : (((s * h ^+ i) %% m * r ^+ i) %% m)%R = s.
    by rewrite modp_mull2 -mulrA -exprMn -modp_mul ehr modp_mul mulr1 (isM_mod ha).
  have rhs : (((o * (r ^+ Z.to_nat k %% m) ^+ j) %% m * r ^+ i) %% m)%R = (r ^+ (i + j * Z.to_nat k) %% m)%R.
    rewrite modp_mull2 eo -mulrA modp_mull2 mul1r mulrC -modp_mul powmod modp_mul -exprM -exprD.
    by rewrite mulnC.
  split=> [e|e]; first by rewrite -rhs -e lhs.
  have := @coprime_cancel F2 m (s * h ^+ i) (o * (r ^+ Z.to_nat k %% m)%R ^+ j) (r ^+ i) cri; apply.
  by rewrite -modp_mull2 lhs -[in RHS]modp_mull2 rhs e.
have L := @log_search_ok fpmod pm_mul pm_eqb pm_ltb validM (fun x => valN (pm_res x)) valid_eqb valid_ltb qs (tab a gi) (tab one gk) (Z.to_nat k) gi gk hqs.
rewrite Z2Nat.id in L; last by lia.
have [||||[i [j [hi [hj [hv el]]]]]|[el hv]] := L.
- lia.
- by rewrite -[(2 ^ 31)%coqZ]/(2147483648%coqZ); move: hk; clear; nia.
- by move=> i _; have [h1 _] := tab_ok ha hgi i; have [h2 _] := tab_ok ho hgk i; split; eexists; [exact: h1|exact: h2].
- by move=> i _; have [_ h1] := tab_ok ha hgi i; have [_ h2] := tab_ok ho hgk i.
- left; exists (i + j * Z.to_nat k)%N; split=> //; split; first exact/key.
  by move: hi hj hk; rewrite -plusE -multE /INT_MAX; clear; nia.
right; split=> // e he; have [q [hq hqd]] := order_exists (F := F2) m0 hc'.
have [q0 hq1 _] := hq; have hql : (q <= phi (F := F2) m)%N by apply: dvdn_leq => //; exact: phi_gt0.
have he0 : (r ^+ (e %% q) %% m)%R = s by rewrite -(pow_modn (F := F2) e hq1).
set e0 := (e %% q)%N in he0; have he1 : (e0 < q)%N by rewrite ltn_mod.
have hlt : (Z.of_nat e0 < k * k)%coqZ.
  have := phi_pow2 (m := m) (d := Z.of_nat (size m).-1); move/leP: hql; move/ltP: he1; rewrite -Zpow_nat -en.
  by move: hnk; clear; move=> h1 h2 h3 h4; have := h4 (Z.le_refl _); lia.
set kk := Z.to_nat k in key hv *; have ekk : k = Z.of_nat kk by rewrite /kk Z2Nat.id; lia.
have kk0 : (0 < kk)%N by apply/ltP; lia.
apply: (hv (e0 %% kk)%N (e0 %/ kk)%N).
- by apply/ltP; rewrite ltn_mod.
- by apply/ltP; rewrite ltn_divLR //; apply/ltP; rewrite -multE; move: hlt; rewrite ekk -Nat2Z.inj_mul; lia.
by apply/key; rewrite addnC -divn_eq.
Qed.

Lemma f2_log_mixed qs g r a s m' : isM g r m -> isM a s m' -> m != m' -> (Z.of_nat (size m).-1 <= 30)%coqZ -> (1 < size m)%N ->
  f2_log qs g a = Exn.
Proof.
move=> hg ha hne hd hs; have [hc|hc] := boolP (coprimep r m); last exact: f2_log_nonunit hg hd hc.
have [n [k [e1 e2 hk en hnk]]] := log_pre hg hd; have [_ [hm _]] := hg.
rewrite /f2_log (degree_thm (isP_W hm)) bind_ok e1 bind_ok e2 bind_ok.
have [gi [h [-> [hgi hh]]]] := pm_recip_unit hg hc; rewrite bind_ok.
have [||gk [-> hgk]] := pm_exp_pos hg (e := k); [by rewrite /INT_MAX; lia|by left; lia|].
rewrite bind_ok.
have [one [o [-> [ho ho1]]]] := pm_div_unit hg hg hc; rewrite bind_ok /log_search.
have h2n : (2 <= n)%coqZ.
  rewrite en; have : (2 ^ 1 <= 2 ^ (size m).-1)%N by rewrite leq_exp2l //; case: (size m) hs => [|[|]].
  by rewrite expn1 => /leP; lia.
have : (1 < k)%coqZ by nia.
move=> k1; have [k' ->] : exists k', Z.to_nat k = k'.+2 by exists (Z.to_nat k - 2)%coq_nat; lia.
have hne' : m' != m by rewrite eq_sym.
by have [_ [_ [e3 _]]] := pm_mixed ha hgi hne'; rewrite /= e3.
Qed.
End Log.
