(* Factorization over a finite field (MPolyFac.v): the entry points. *)
From Verif Require Import Base MIntMath MMat MFac MPoly MF2Fac MPolyFac PIntMath PFacGen.
From mathcomp Require Import all_ssreflect fingroup perm all_algebra finfield separable ssrZ.
From Verif Require Import PLin PLin2 PLin3 PMat PMat2 PMat3 PropMat PPoly PPoly2 PPoly3 PPoly4 PBerl PFacPoly PPolyFac PPolyFac2 PPhi.
From Verif Require PF2Fac2.
Set Implicit Arguments.
Unset Strict Implicit.
Unset Printing Implicit Defensive.
Import GRing.Theory.
Delimit Scope Z_scope with coqZ.
Local Open Scope ring_scope.

Section Top.
Variables (A : Type) (o : kops A) (F : finFieldType) (V : A -> Prop) (I : A -> F) (kv : A -> nat).
Hypothesis spec : kspec o V I kv.
Hypothesis dflt : forall z, R V I z 0 -> exists z1, k_int o (k_dflt o) 0 = Ok z1 /\ c_eqb (k_c o) z z1 = Ok false.
Local Notation q := #|F|.
Hypothesis kvq : forall x, V x -> (kv x < q)%N.
Hypothesis kv0 : forall x, V x -> (kv x == 0)%N = (I x == 0).
Variables (fp : facpar A) (cst : Z -> F) (pc : nat).
Hypothesis fs : fspec V I fp cst pc.
Let sc := ks_c spec.
Local Notation R := (R V I).
Local Notation Rr := (Rr V I).
Local Notation isG := (isG V I).
Local Notation gpoly := (@MPoly.gpoly A).
Local Notation VG := (VG V I).
Local Notation Gp := (Gp I).
Local Notation FS := (gp_fac_spec spec kvq kv0).
Local Notation FIG r := (FI (gp_fops o) VG Gp (Qf r)).
Local Notation fprodG := (fprod Gp).

(* what a user may expect of a factorization of p *)
Definition gfactorization (p : {poly F}) (fin : facinfo gpoly) : Prop :=
  [/\ forall e c, List.In (e, c) (facs fin) -> [/\ isG e (Gp e), Gp e \is monic, irreducible_poly (Gp e) & (1 <= c)%coqZ],
      List.NoDup (List.map (fun e => Gp e.1) (facs fin)),
      (if funit fin is Some u then isG u (lead_coef p)%:P else lead_coef p = 1)
    & lead_coef p *: \prod_(e <- facs fin) Gp e.1 ^+ Z.to_nat e.2 = p].

Lemma sorted_NoDup (l : list gpoly) : List.Forall VG l -> sorted_strict (gp_fops o) l -> List.NoDup (List.map Gp l).
Proof.
elim: l => [|a l IH] hv hs; first by apply: List.NoDup_nil.
case: hs => h1 h2; have va := List.Forall_inv hv; have vl := List.Forall_inv_tail hv.
apply: List.NoDup_cons; last exact: IH.
move=> /List.in_map_iff [b [e hb]]; have := h1 _ hb.
have vb : VG b by apply: (proj1 (List.Forall_forall _ _) vl).
have -> : b = a by apply: (fs_inj _ _ _ _ _ _ FS).
by rewrite (fs_irr _ _ _ _ _ _ FS).
Qed.

Lemma FI_gfac p fin : FIG true fin -> (if funit fin is Some u then isG u (lead_coef p)%:P else lead_coef p = 1) ->
  lead_coef p *: fprodG (facs fin) = p -> gfactorization p fin.
Proof.
move=> [h1 h2] hu hp; split=> //.
- move=> e c hin; have [v [q1 q2] h] := proj1 (List.Forall_forall _ _) h1 _ hin.
  by split=> //; case: v.
- rewrite -(List.map_map fst Gp); apply: sorted_NoDup h2.
  apply/List.Forall_forall => x /List.in_map_iff [[y c] [<- hin]].
  by have [v _ _] := proj1 (List.Forall_forall _ _) h1 _ hin.
Qed.

Lemma fuel_ok l p : isG l p -> (size p <= gp_pre_fuel l)%N.
Proof. by move=> h; rewrite /gp_pre_fuel lengthE (isG_size h) leqW // leq_maxr. Qed.
Lemma deg0 (p : {poly F}) : Nat.eqb (size p).-1 0 = ~~ (1 < size p)%N.
Proof. by case: (size p) => [|[|k]]. Qed.
Lemma pre_run recurse l p fin : isG l p -> (1 < size p)%N -> p \is monic -> (Z.of_nat (size p) <= INT_MAX)%coqZ ->
  facs fin = [::] -> exists fin' c, [/\ gp_pre o fp (gp_pre_fuel l) recurse l fin = Ok fin', FIG recurse fin', funit fin' = funit fin,
    fprodG (facs fin') = p & ftotal fin' = c /\ (c = 1%coqZ <-> irreducible_poly p)].
Proof.
move=> hl hp hm hmax hf0.
have hfi : FIG recurse fin by rewrite /FI hf0; split=> //; apply: List.Forall_nil.
have ht0 : ftotal fin = 0%coqZ by rewrite /ftotal hf0.
have hle : (Z.of_nat (size p).-1 <= INT_MAX)%coqZ.
  by apply: Z.le_trans hmax; apply: inj_le; apply/leP; apply: leq_pred.
have hb : (ftotal fin + Z.of_nat (size p).-1 <= INT_MAX)%coqZ by rewrite ht0.
have [f' [c [e1 e2 e3 e4 [e5 [_ e6]]]]] := pre_ok spec dflt kvq kv0 fs (recurse := recurse) hl hp hm (fuel_ok hl) hmax hfi hb.
by exists f', c; split=> //; [rewrite e4 hf0 /fprod big_nil mul1r | rewrite e5 ht0].
Qed.

Lemma factor_ok l p : isG l p -> p != 0 -> (Z.of_nat (size p) <= INT_MAX)%coqZ ->
  exists fin, gp_factor o fp l = Ok fin /\ gfactorization p fin.
Proof.
move=> hl p0 hmax; rewrite /gp_factor.
have [c0 [e0 [v0 i0]]] := isG_get0 hl; rewrite e0 bind_ok.
have [//|zero [ez [vz iz]]] := ks_int spec (v := 0) v0; rewrite ez bind_ok.
have [//|one [eo [vo io]]] := ks_int spec (v := 1) v0; rewrite eo bind_ok.
have hz : R zero 0 by []. have ho : R one 1 by [].
have lc0 : lead_coef p != 0 by rewrite lead_coef_eq0.
rewrite (degG hl) deg0; case: (boolP (1 < size p)%N) => hp /=; last first.
  have ep : p = (lead_coef p)%:P.
    have e : p = (p`_0)%:P by apply: size1_polyC; rewrite leqNgt.
    by rewrite {2}e lead_coefC.
  eexists; split; first reflexivity; split=> //=.
  - by apply: List.NoDup_nil.
  - by rewrite -ep.
  - by rewrite big_nil alg_polyC -ep.
have [x [-> hx]] := get_coeff_ok spec (size p).-1 hl; rewrite bind_ok -/(lead_coef p) in hx *.
rewrite (R_neqb sc hx hz) bind_ok (R_neqb sc hx ho) bind_ok lc0 /=.
have [e1|n1] := eqVneq (lead_coef p) 1 => /=.
  have hm : p \is monic by rewrite monicE e1.
  have [f' [c [e1' e2 e3 e4 _]]] := pre_run true (fin := fac_empty) hl hp hm hmax erefl.
  by exists f'; split=> //; apply: FI_gfac => //; rewrite ?e3 //= e1 scale1r.
have [u [-> hu]] := const_ok spec hx; rewrite bind_ok /insert_unit /=.
have [l' [-> hl']] := divc_ok spec hl hx lc0; rewrite bind_ok -/(monicp p) in hl' *.
have sm : size (monicp p) = size p := size_monicp p.
have [||f' [c [e1' e2 e3 e4 _]]] := pre_run true (fin := mkfac [::] (Some u)) hl' _ (monicp_monic p0) _ erefl.
- by rewrite sm.
- by rewrite sm.
exists f'; split=> //; apply: FI_gfac => //; rewrite ?e3 //= e4 /monicp scalerA mulfV // scale1r //.
Qed.
(* zero *)
Lemma factor_0 l : isG l 0 -> gp_factor o fp l = Ok (mkfac [::] (Some l)).
Proof.
move=> hl; rewrite /gp_factor; have [c0 [e0 [v0 i0]]] := isG_get0 hl; rewrite e0 bind_ok.
have [//|zero [ez _]] := ks_int spec (v := 0) v0; rewrite ez bind_ok.
have [//|one [eo _]] := ks_int spec (v := 1) v0; rewrite eo bind_ok.
by rewrite (degG hl) size_poly0.
Qed.

Lemma irreducible_ok l p : isG l p -> (Z.of_nat (size p) <= INT_MAX)%coqZ ->
  exists b, gp_is_irreducible o fp l = Ok b /\ (b = true <-> irreducible_poly p).
Proof.
move=> hl hmax; rewrite /gp_is_irreducible (degG hl) deg0.
case: (boolP (1 < size p)%N) => hp; rewrite [~~ _]/=; last first.
  by exists false; split=> //; split=> // -[h _]; rewrite h in hp.
case: (Nat.eqb_spec (size p).-1 1) => h1.
  exists true; split=> //; split=> // _; apply: PF2Fac2.lin_irr.
  by move: hp h1; case: (size p) => [|[|k]] //= _ ->.
have p0 := PF2Fac2.sz_pos hp.
have [l' [-> hl']] := monic_ok spec hl p0; rewrite bind_ok.
have sm : size (monicp p) = size p := size_monicp p.
have [||f' [c [e1 e2 e3 e4 [e5 e6]]]] := pre_run false (fin := fac_empty) hl' _ (monicp_monic p0) _ erefl.
- by rewrite sm.
- by rewrite sm.
rewrite e1 bind_ok; eexists; split; first reflexivity.
have hirr : irreducible_poly (monicp p) <-> irreducible_poly p.
  have he := monicp_eqp p0; have he' : p %= monicp p by rewrite eqp_sym.
  split; move=> [h2 h3]; split; [by rewrite -sm| |by rewrite sm|] => r hr hd.
    by apply: (eqp_trans _ he); apply: h3; rewrite // (eqp_dvdr _ he).
  by apply: (eqp_trans _ he'); apply: h3; rewrite // (eqp_dvdr _ he').
rewrite Z.eqb_eq -hirr -e6 -e5.
by have -> : get_num_factors f' = ftotal f' by rewrite /ftotal -total_count.
Qed.
(* ---------------------------------------------------------------- the totient *)
Definition entG (e : gpoly * Z) : Prop := [/\ isG e.1 (Gp e.1), Gp e.1 \is monic, irreducible_poly (Gp e.1) & (1 <= e.2)%coqZ].
Lemma irr_neq (p r : {poly F}) : p \is monic -> r \is monic -> irreducible_poly p -> irreducible_poly r -> p <> r -> coprimep p r.
Proof.
move=> mp mr hp hr hne; rewrite irr_coprime //; apply/negP => hd; case: hr => h1 hi; apply: hne; apply/eqP.
rewrite -eqp_monic //; apply: hi => //; apply/eqP => e; case: hp; by rewrite e.
Qed.
Lemma copr_rest x l : x \is monic -> irreducible_poly x -> List.Forall entG l -> ~ List.In x (List.map (fun e => Gp e.1) l) ->
  coprimep x (fprodG l).
Proof.
move=> mx hx; elim: l => [|e l IH] hl hn; first by rewrite /fprod big_nil coprimep1.
rewrite fprod_cons coprimepMr; have [h1 h2 h3 h4] := List.Forall_inv hl.
rewrite IH ?andbT; [|exact: List.Forall_inv_tail hl|by move=> h; apply: hn; right].
by apply: coprimep_expr; apply: irr_neq => // e1; apply: hn; left.
Qed.
Lemma fprod_neq0 l : List.Forall entG l -> fprodG l != 0.
Proof.
elim: l => [|e l IH] hl; first by rewrite /fprod big_nil oner_neq0.
rewrite fprod_cons mulf_neq0 ?IH //; last exact: List.Forall_inv_tail hl.
by have [_ _ [h _] _] := List.Forall_inv hl; rewrite expf_neq0 // PF2Fac2.sz_pos.
Qed.
Lemma size_expF (p : {poly F}) k : p != 0 -> (size (p ^+ k)).-1 = ((size p).-1 * k)%N.
Proof. by move=> _; rewrite size_exp. Qed.

Lemma Zpow_nat k : Z.of_nat (q ^ k) = (Z.of_nat q ^ Z.of_nat k)%coqZ.
Proof. by elim: k => [//|k IH]; rewrite expnS Nat2Z.inj_mul IH -Z.pow_succ_r ?Nat2Z.inj_succ //; lia. Qed.

Lemma q_gt1 : (2 <= Z.of_nat q)%coqZ. Proof. by have /ltP := q2 F; clear; lia. Qed.
(* the powers the loop computes *)
Lemma power_ok k D : (k <= D)%N -> (Z.of_nat (q ^ (2 * D)) <= INT_MAX)%coqZ -> int_power (Z.of_nat q) (Z.of_nat k) = Ok (Z.of_nat (q ^ k)%N).
Proof.
move=> hk hD; have hq := @q_gt1.
case: k hk => [|k] hk; first by [].
have hlog := Z.log2_spec (Z.of_nat k.+1) ltac:(lia).
have hpos : (0 <= Z.log2 (Z.of_nat k.+1))%coqZ := Z.log2_nonneg _.
have h2 : (2 ^ (Z.log2 (Z.of_nat k.+1) + 1) <= Z.of_nat (2 * D))%coqZ.
  rewrite Z.pow_add_r // Z.pow_1_r; move/leP: hk; move: hlog; clear; lia.
have hr : (Z.of_nat q ^ (2 ^ (Z.log2 (Z.of_nat k.+1) + 1)) <= INT_MAX)%coqZ.
  apply: Z.le_trans hD; rewrite Zpow_nat; apply: Z.pow_le_mono_r => //; move: hq; clear; lia.
have hkm : (Z.of_nat k.+1 <= INT_MAX)%coqZ.
  apply: Z.le_trans hD; rewrite Zpow_nat; apply: Z.le_trans (_ : (2 ^ Z.of_nat k.+1 <= _)%coqZ); last first.
    apply: Z.le_trans (_ : (2 ^ Z.of_nat (2 * D) <= _)%coqZ).
      by apply: Z.pow_le_mono_r => //; move/leP: hk; clear; lia.
    by apply: Z.pow_le_mono_l; move: hq; clear; lia.
  by apply: Z.lt_le_incl; apply: Z.pow_gt_lin_r; lia.
have [|h _] := int_power_iff (Z.of_nat q) (Z.of_nat k.+1); first by split=> //; clear; lia.
rewrite h ?Zpow_nat // Z.abs_eq //; move: hq; clear; lia.
Qed.
Lemma inI x M : (0 <= x)%coqZ -> (x <= M)%coqZ -> (M <= INT_MAX)%coqZ -> (INT_MIN <= x <= INT_MAX)%coqZ.
Proof. by rewrite /INT_MIN; move=> h1 h2 h3; split; [apply: Z.le_trans h1 | apply: Z.le_trans h3]. Qed.
Lemma qpow_pos k : (1 <= Z.of_nat (q ^ k)%N)%coqZ.
Proof. have /ltP : (0 < q ^ k)%N by rewrite expn_gt0 (ltnW (q2 F)). by clear; lia. Qed.
Lemma qpow_mono a b : (a <= b)%N -> (Z.of_nat (q ^ a)%N <= Z.of_nat (q ^ b)%N)%coqZ.
Proof. by move=> h; apply: inj_le; apply/leP; rewrite leq_pexp2l // (ltnW (q2 F)). Qed.

Lemma tot_loop_ok N l : (Z.of_nat (q ^ (2 * N)) <= INT_MAX)%coqZ -> List.Forall entG l -> List.NoDup (List.map (fun e => Gp e.1) l) ->
  forall rv a, (1 <= rv)%coqZ -> (rv <= Z.of_nat (q ^ a)%N)%coqZ -> (a + (size (fprodG l)).-1 <= N)%N ->
  gp_tot_loop (Z.of_nat q) l rv = Ok (rv * Z.of_nat (phi (fprodG l)))%coqZ.
Proof.
move=> hN; elim: l => [|[e c] l IH] hl hnd rv a h1 h2 h3.
  by rewrite /fprod big_nil phi1 Z.mul_1_r.
have [/= hP hm hirr hc] := List.Forall_inv hl; have hl' := List.Forall_inv_tail hl.
have [hn hnd'] := proj1 (List.NoDup_cons_iff _ _) hnd.
have p0 : Gp e != 0 by case: hirr => h _; apply: PF2Fac2.sz_pos.
pose k := Z.to_nat (c - 1); have ec : Z.to_nat c = k.+1 by rewrite /k; move: hc; clear; lia.
have ek : c = Z.of_nat k.+1 by rewrite -ec; move: hc; clear; lia.
set d := (size (Gp e)).-1.
set D := (size (fprodG l)).-1.
have l0 := fprod_neq0 hl'.
have es : (size (fprodG ((e, c) :: l))).-1 = (d * k.+1 + D)%N.
  by rewrite fprod_cons /= ec sizeM ?expf_neq0 // size_expF.
rewrite es in h3.
have ephi : phi (fprodG ((e, c) :: l)) = (phi (Gp e ^+ k.+1) * phi (fprodG l))%N.
  rewrite fprod_cons /= ec phi_mul ?expf_neq0 //.
  by apply: coprimep_expl; apply: copr_rest.
have hphi := phi_pow k hirr; rewrite -/d in hphi.
have hle := phi_le (Gp e ^+ k.+1); rewrite size_expF // -/d in hle.
have hdkN : (a + d * k.+1 <= N)%N by apply: leq_trans h3; rewrite addnA leq_addr.
have hdN : (d <= N)%N by apply: leq_trans hdkN; apply: leq_trans (leq_addl _ _); rewrite leq_pmulr.
have hdkN' : (d * k <= N)%N by apply: leq_trans hdkN; apply: leq_trans (leq_addl _ _); rewrite mulnS leq_addl.
have d0 : (0 < d)%N by case: hirr => h _; rewrite /d; case: (size (Gp e)) h => [|[|z]].
have hNm : (Z.of_nat (q ^ N)%N <= INT_MAX)%coqZ by apply: Z.le_trans hN; apply: qpow_mono; rewrite mul2n -addnn leq_addr.
have bN z : (0 <= z)%coqZ -> (z <= Z.of_nat (q ^ N)%N)%coqZ -> (INT_MIN <= z <= INT_MAX)%coqZ by move=> ha hb; apply: inI hNm.
have small z : (z <= N)%N -> (Z.of_nat z <= Z.of_nat (q ^ N)%N)%coqZ.
  by move=> hz; apply: inj_le; apply/leP; apply: leq_trans hz _; apply: ltnW; apply: ltn_expl; exact: q2.
have hkN : (k <= N)%N by apply: leq_trans hdkN'; rewrite leq_pmull.
have hpos : (1 <= Z.of_nat (phi (Gp e ^+ k.+1)))%coqZ.
  have : (0 < phi (Gp e ^+ k.+1))%N.
    by rewrite hphi muln_gt0 expn_gt0 (ltnW (q2 F)) /= subn_gt0 -{1}(expn0 q) ltn_exp2l // q2.
  by move/ltP; clear; lia.
have hle' : (Z.of_nat (phi (Gp e ^+ k.+1)) <= Z.of_nat (q ^ (d * k.+1)))%coqZ by apply: inj_le; apply/leP.
have hbig : (rv * Z.of_nat (phi (Gp e ^+ k.+1)) <= Z.of_nat (q ^ (a + d * k.+1))%N)%coqZ.
  rewrite expnD Nat2Z.inj_mul; apply: Z.mul_le_mono_nonneg => //; move: h1 hpos; clear; lia.
have hadN := qpow_mono hdkN.
cbn [gp_tot_loop]; rewrite (degG hP) -/d.
have -> : isub c 1 = Ok (Z.of_nat k).
  rewrite /isub chk_ok ?ek; first by congr Ok; clear; lia.
  by apply: bN; have := small _ hkN; clear; lia.
rewrite bind_ok.
have -> : imul (Z.of_nat d) (Z.of_nat k) = Ok (Z.of_nat (d * k)%N).
  by rewrite /imul -Nat2Z.inj_mul chk_ok //; apply: bN; [clear; lia|exact: small].
rewrite bind_ok (power_ok hdkN' hN) bind_ok (power_ok hdN hN) bind_ok.
have -> : isub (Z.of_nat (q ^ d)%N) 1 = Ok (Z.of_nat (q ^ d - 1)%N).
  have hp1 := @qpow_pos d; have hpN := qpow_mono hdN.
  rewrite /isub chk_ok; first by congr Ok; move: hp1; clear; lia.
  by apply: bN; move: hp1 hpN; clear; lia.
rewrite bind_ok.
have -> : imul (Z.of_nat (q ^ (d * k))%N) (Z.of_nat (q ^ d - 1)%N) = Ok (Z.of_nat (phi (Gp e ^+ k.+1))).
  rewrite /imul -Nat2Z.inj_mul -[muln _ _]/(muln _ _) (_ : Nat.mul _ _ = phi (Gp e ^+ k.+1)) ?hphi // -hphi chk_ok //.
  have hle2 : (Z.of_nat (phi (Gp e ^+ k.+1)) <= rv * Z.of_nat (phi (Gp e ^+ k.+1)))%coqZ by move: h1 hpos; clear; nia.
  by apply: bN; move: hle2 hpos hbig hadN; clear; lia.
rewrite bind_ok.
have -> : imul rv (Z.of_nat (phi (Gp e ^+ k.+1))) = Ok (rv * Z.of_nat (phi (Gp e ^+ k.+1)))%coqZ.
  rewrite /imul chk_ok //; apply: bN; last exact: Z.le_trans hadN.
  by move: h1 hpos; clear; nia.
rewrite bind_ok (IH hl' hnd' _ (a + d * k.+1)%N) //.
- by rewrite ephi Nat2Z.inj_mul Z.mul_assoc.
- by move: h1 hpos; clear; nia.
- by rewrite -addnA.
Qed.

Lemma phiZ (p : {poly F}) (c : F) : c != 0 -> phi (c *: p) = phi p.
Proof.
move=> c0; rewrite /phi size_scale //; apply: eq_card => v; rewrite !inE.
by rewrite coprimepZl.
Qed.
Lemma fac_prod l p fin : isG l p -> p != 0 -> gfactorization p fin -> phi (fprodG (facs fin)) = phi p /\ size (fprodG (facs fin)) = size p.
Proof.
move=> hl p0 [_ _ _ h4]; have lc0 : lead_coef p != 0 by rewrite lead_coef_eq0.
have e : lead_coef p *: fprodG (facs fin) = p := h4.
by split; [rewrite -(phiZ _ lc0) e | rewrite -(size_scale _ lc0) e].
Qed.
Lemma totient_ok l p : isG l p -> p != 0 -> (Z.of_nat (q ^ (2 * (size p).-1)) <= INT_MAX)%coqZ ->
  gp_totient o fp l = Ok (Z.of_nat (phi p)).
Proof.
move=> hl p0 hd.
have hmax : (Z.of_nat (size p) <= INT_MAX)%coqZ.
  apply: Z.le_trans hd; apply: inj_le; apply/leP.
  have sp : (0 < size p)%N by rewrite size_poly_gt0.
  rewrite -(prednK sp); apply: leq_trans (ltn_expl _ (q2 F)) _; rewrite leq_pexp2l ?(ltnW (q2 F)) //= mul2n -addnn leq_addr //.
have [fin [e hf]] := factor_ok hl p0 hmax.
have [e1 e2] := fac_prod hl p0 hf; case: hf => [h1 h2 h3 h4].
rewrite /gp_totient (fq_ok fs hl) bind_ok e bind_ok; have hent : List.Forall entG (facs fin).
  by apply/List.Forall_forall => -[x c] hin; have := h1 _ _ hin.
by rewrite (tot_loop_ok hd hent h2 (a := 0)) ?add0n ?e1 ?e2 // Z.mul_1_l.
Qed.

(* an irreducible polynomial: one factor *)
Lemma irr_facs l p fin : isG l p -> irreducible_poly p -> gfactorization p fin ->
  exists x t, [/\ facs fin = (x, 1%coqZ) :: t, isG x (monicp p) & t = [::]].
Proof.
move=> hl hirr [h1 h2 h3 h4]; have [hp hi] := hirr; have p0 := PF2Fac2.sz_pos hp.
have lc0 : lead_coef p != 0 by rewrite lead_coef_eq0.
have em : fprodG (facs fin) = monicp p by rewrite /monicp -{2}h4 scalerA mulVf // scale1r.
have hdv x c t : facs fin = (x, c) :: t -> (1 <= c)%coqZ -> Gp x %| monicp p.
  move=> ef hc; rewrite -em ef fprod_cons /=; have -> : Z.to_nat c = (Z.to_nat (c - 1)).+1 by move: hc; clear; lia.
  by rewrite exprS -mulrA dvdp_mulr.
have sm := size_monicp p.
case ef: (facs fin) h1 h2 em => [|[x c] t] h1 h2 em; first by move: hp; rewrite -sm -em /fprod big_nil size_poly1.
have [hx mx ix hc] := h1 x c (or_introl erefl).
have ex : Gp x = monicp p.
  apply/eqP; rewrite -eqp_monic ?monicp_monic //; apply: eqp_trans (_ : Gp x %= p) _.
    apply: hi; first by case: ix => h _; rewrite neq_ltn h orbT.
    by rewrite -(eqp_dvdr _ (monicp_eqp p0)); apply: hdv ef hc.
  by rewrite eqp_sym monicp_eqp.
have m0 : monicp p != 0 by rewrite -size_poly_gt0 sm ltnW.
have hent : List.Forall entG ((x, c) :: t).
  by apply/List.Forall_forall => -[y d] hin; have := h1 _ _ hin.
have l0 := fprod_neq0 (List.Forall_inv_tail hent).
have es : ((size p).-1 * Z.to_nat c + (size (fprodG t)).-1 = (size p).-1)%N.
  by rewrite -{2}sm -em fprod_cons /= sizeM ?expf_neq0 ?ex // size_expF // sm.
have hs1 : (0 < (size p).-1)%N by case: (size p) hp => [|[|k]].
have c1 : Z.to_nat c = 1%N.
  apply/eqP; rewrite eqn_leq; apply/andP; split; last by apply/leP; move: hc; clear; lia.
  rewrite leqNgt; apply/negP => h; move/eqP: es; apply/negP; rewrite neq_ltn; apply/orP; right.
  by apply: leq_trans (leq_addr _ _); rewrite -{1}[(size p).-1]muln1 ltn_mul2l hs1.
have st : (size (fprodG t)).-1 = 0%N by apply/eqP; rewrite -(eqn_add2l ((size p).-1 * Z.to_nat c)) es c1 muln1 addn0.
exists x, t; split.
- by congr cons; congr pair; move: c1 hc; clear; lia.
- by rewrite -ex.
case: t h1 {h2 em ef es hdv} hent l0 st => [//|[y d] t] h1 hent l0 st.
have [hy my iy hd] := h1 y d (or_intror (or_introl erefl)).
move: st; rewrite fprod_cons /= sizeM ?size_expF; [|by case: iy => h _; apply: PF2Fac2.sz_pos|..].
- have -> : Z.to_nat d = (Z.to_nat (d - 1)).+1 by move: hd; clear; lia.
  by rewrite mulnS; case: iy => h _; case: (size (Gp y)) h => [|[|z]].
- by case: iy => h _; rewrite expf_neq0 // PF2Fac2.sz_pos.
- by have := fprod_neq0 (List.Forall_inv_tail (List.Forall_inv_tail hent)).
Qed.
Lemma totient_irr l p : isG l p -> irreducible_poly p -> (Z.of_nat (size p) <= INT_MAX)%coqZ ->
  gp_totient o fp l =
    if (Z.of_nat q ^ (2 ^ (Z.log2 (Z.of_nat (size p).-1) + 1)) <=? INT_MAX)%coqZ
    then Ok (Z.of_nat q ^ Z.of_nat (size p).-1 - 1)%coqZ else UB.
Proof.
move=> hl hirr hmax; have [hp _] := hirr; have p0 := PF2Fac2.sz_pos hp.
have [fin [e hf]] := factor_ok hl p0 hmax; have [x [t [ef hx et]]] := irr_facs hl hirr hf.
have hq := @q_gt1.
rewrite /gp_totient (fq_ok fs hl) bind_ok e bind_ok ef et; cbn [gp_tot_loop].
rewrite (degG hx) size_monicp (_ : isub 1 1 = Ok 0%coqZ) // bind_ok {1}/imul Z.mul_0_r (_ : chk 0 = Ok 0%coqZ) // bind_ok.
rewrite (_ : int_power _ 0 = Ok 1%coqZ) // bind_ok.
have hd : (1 <= Z.of_nat (size p).-1)%coqZ by apply: pred_pos.
have hdm : (Z.of_nat (size p).-1 <= INT_MAX)%coqZ by apply: Z.le_trans hmax; apply: inj_le; apply/leP; apply: leq_pred.
have [h1 h2] := int_power_iff (Z.of_nat q) _ (conj hd hdm).
rewrite (Z.abs_eq (Z.of_nat q)) in h1 h2; last by move: hq; clear; lia.
case: Z.leb_spec => hb; last by rewrite h2.
rewrite h1 // bind_ok.
have hle : (Z.of_nat q ^ Z.of_nat (size p).-1 <= INT_MAX)%coqZ.
  apply: Z.le_trans hb; apply: Z.pow_le_mono_r; first by move: hq; clear; lia.
  have [_ hl2] := Z.log2_spec (Z.of_nat (size p).-1) ltac:(move: hd; clear; lia).
  by move: hl2; rewrite Z.add_1_r; clear; lia.
have hpos : (1 <= Z.of_nat q ^ Z.of_nat (size p).-1)%coqZ.
  by rewrite -Zpow_nat; apply: qpow_pos.
have hI z : (0 <= z)%coqZ -> (z <= Z.of_nat q ^ Z.of_nat (size p).-1)%coqZ -> (INT_MIN <= z <= INT_MAX)%coqZ by move=> ha hb'; apply: inI hle.
rewrite /isub chk_ok ?bind_ok; last by apply: hI; move: hpos; clear; lia.
rewrite /imul Z.mul_1_l chk_ok ?bind_ok; last by apply: hI; move: hpos; clear; lia.
by rewrite Z.mul_1_l chk_ok ?bind_ok //; apply: hI; move: hpos; clear; lia.
Qed.

(* ---------------------------------------------------------------- the search *)
Hypothesis next_ok : forall x, V x -> if (kv x < q.-1)%N
  then exists z, k_next o x = Ok (Some z) /\ V z /\ kv z = (kv x).+1 else k_next o x = Ok None.
Hypothesis kv1 : forall x, V x -> I x = 1 -> kv x = 1%N.
Hypothesis kvE : forall x y, V x -> V y -> kv x = kv y -> x = y.
Local Notation gv := (gval kv q).

Lemma gv_top l p d : isG l p -> size p = d.+1 -> (0 < d)%N ->
  exists l1 x, [/\ l = rcons l1 x, size l1 = d, R x (lead_coef p), (gv l1 < q ^ d)%N & (0 < kv x)%N].
Proof.
move=> hl hs d0; have sl : size l = d.+1 by rewrite (isG_size hl) hs; apply/maxn_idPr.
have p0 : p != 0 by rewrite -size_poly_gt0 hs.
case/lastP: l hl sl => [//|l x] hl sl; exists l, x; rewrite size_rcons in sl; case: sl => sl.
have hl' : Rr (rcons l x) (polyseq p) by move: hl; rewrite /PPoly.isG /cseq (negbTE p0).
have hx : R x (lead_coef p).
  have := F2_nth x 0 hl' (i := size l); rewrite -(F2_size hl') size_rcons ltnSn nth_rcons ltnn eqxx.
  by move=> /(_ isT); rewrite lead_coefE hs sl.
split=> //.
- rewrite -sl; apply: (gval_lt kvq); have := Rr_V hl'; rewrite -cats1 => /Forall_app; tauto.
- by case: hx => vx ix; rewrite lt0n kv0 // ix lead_coef_eq0.
Qed.
Lemma gv_size l p d : isG l p -> (0 < d)%N -> size p = d.+1 <-> (q ^ d <= gv l < q ^ d.+1)%N.
Proof.
have h1 e m r : isG m r -> size r = e.+1 -> (0 < e)%N -> (q ^ e <= gv m < q ^ e.+1)%N.
  move=> hm hs e0; have [l1 [x [e1 sl hx hlt hk]]] := gv_top hm hs e0.
  apply/andP; split; first by rewrite e1 gval_rcons sl; apply: leq_trans (leq_addl _ _); rewrite leq_pmulr.
  have -> : e.+1 = size m by rewrite (isG_size hm) hs; symmetry; apply/maxn_idPr.
  by apply: (gval_lt kvq); apply: Rr_V hm.
move=> hl d0; split; first by move=> hs; exact: h1 hl hs d0.
move=> /andP [ha hb].
case: (leqP (size p) 1) => hp.
  have : (gv l < q ^ size l)%N by apply: (gval_lt kvq); apply: Rr_V hl.
  rewrite (isG_size hl) (maxn_idPl hp) => h; have := leq_ltn_trans ha h.
  by rewrite ltn_exp2l ?q2 // ltnS leqn0 => /eqP e; rewrite e in d0.
have sp : size p = (size p).-1.+1 by rewrite prednK // ltnW.
have e0 : (0 < (size p).-1)%N by rewrite -ltnS -sp.
have /andP [hc hd] := h1 _ _ _ hl sp e0.
have := leq_ltn_trans ha hd; have := leq_ltn_trans hc hb; rewrite !ltn_exp2l ?q2 // !ltnS => x1 x2.
by rewrite sp; congr S; apply/eqP; rewrite eqn_leq x1 x2.
Qed.
Lemma gv_Xn n l : Rr l (rcons (nseq n 0) 1) -> gv l = (q ^ n)%N.
Proof.
elim: n l => [|n IH] l h /=; inversion h as [|x a l1 s [vx ix] h2]; subst.
  inversion h2; subst; by rewrite /= muln0 addn0 kv1.
have k0 : kv x = 0%N by apply/eqP; rewrite kv0 // ix.
by rewrite /= IH // k0 add0n expnS.
Qed.
Lemma irr_c0 (p : {poly F}) d : size p = d.+1 -> (1 < d)%N -> irreducible_poly p -> p`_0 != 0.
Proof.
move=> hs hd [_ hi]; apply/negP => /eqP h0; have := hi 'X; rewrite size_polyX => /(_ isT).
have -> : 'X %| p by rewrite -['X]subr0 -(polyC0 [ringType of F]) dvdp_XsubCl rootE horner_coef0 h0.
by move=> /(_ isT) /eqp_size; rewrite size_polyX hs => -[e]; rewrite -e in hd.
Qed.

Lemma find_ok zero one d fuel t tq : R zero 0 -> R one 1 -> (1 < d)%N -> (Z.of_nat d.+1 <= INT_MAX)%coqZ -> (q ^ d < fuel)%N ->
  isG t tq -> size tq = d.+1 -> tq \is monic -> irreducible_poly tq ->
  exists r p, [/\ gp_find_irr o fp fuel zero one (Z.of_nat d) = Ok r, isG r p, size p = d.+1, p \is monic /\ irreducible_poly p &
    forall l p', isG l p' -> size p' = d.+1 -> irreducible_poly p' -> gp_ltb o l r = Ok false].
Proof.
move=> hz ho hd hmax hfuel ht hst hmt hit; have d0 : (0 < d)%N by apply: ltnW.
have [l0 [e0 h0]] := const_ok spec hz; rewrite polyC0 in h0.
have [l1 [e1 h1]] := set_coeff_ok spec d h0 ho; rewrite coef0 subr0 add0r scale1r in h1.
rewrite /gp_find_irr e0 bind_ok e1 bind_ok.
have -> : (Z.of_nat d <? 1)%coqZ = false by apply/Z.ltb_ge; move/ltP: d0; clear; lia.
rewrite Nat2Z.id.
have hs1 : size ('X^d : {poly F}) = d.+1 by rewrite size_polyXn.
have v1 : gv l1 = (q ^ d)%N.
  apply: gv_Xn; move: h1; rewrite /PPoly.isG /cseq polyseqXn (_ : ('X^d == 0) = false) //.
  by apply/negbTE; rewrite -size_poly_gt0 hs1.
have monic_gv l p : isG l p -> size p = d.+1 -> (p \is monic) = (gv l < 2 * q ^ d)%N.
  move=> hl hs; have [m [x [-> sm [vx ix] hlt hk]]] := gv_top hl hs d0.
  have [vo io] := ho; have k1 := kv1 vo io.
  rewrite gval_rcons sm monicE -ix; apply/eqP/idP => [e|].
    by rewrite kv1 // muln1 mul2n -addnn ltn_add2r.
  move=> h; have hle : (kv x <= 1)%N.
    rewrite leqNgt; apply/negP => h2; move: h; rewrite ltnNge => /negP; apply.
    by apply: leq_trans (leq_addl _ _); rewrite mulnC leq_mul2l h2 orbT.
  have ek : kv x = kv one by rewrite k1; apply/eqP; rewrite eqn_leq hle hk.
  by rewrite (kvE vx vo ek).
pose Inv (rv : gpoly) := exists p, [/\ isG rv p, size p = d.+1, (gv rv <= gv t)%N &
   forall l p', isG l p' -> size p' = d.+1 -> irreducible_poly p' -> (gv rv <= gv l)%N].
have htm : (gv t < 2 * q ^ d)%N by rewrite -(monic_gv _ _ ht hst).
have [|||r [er [p [hp hs hm hi hl]]]] := @loop_total gpoly gpoly (gp_irr_step o fp zero d) Inv (fun rv => (gv t - gv rv)%N)
   (fun r => exists p, [/\ isG r p, size p = d.+1, p \is monic, irreducible_poly p &
      forall l p', isG l p' -> size p' = d.+1 -> irreducible_poly p' -> (gv r <= gv l)%N]) _ fuel l1.
- move=> rv [p [hp hs ht1 hm]]; rewrite /gp_irr_step (degG hp) hs /= Nat.eqb_refl.
  have [x [ex hx]] := get_coeff_ok spec 0 hp; rewrite ex bind_ok (R_neqb sc hx hz) bind_ok.
  have [|b [eb hb]] := irreducible_ok hp; first by rewrite hs.
  have -> : (if p`_0 != 0 then gp_is_irreducible o fp rv else Ok false) = Ok b.
    rewrite eb; case: eqP => // c0; case: b hb {eb} => // hb.
    by have := irr_c0 hs hd (hb.1 erefl); rewrite c0 eqxx.
  rewrite bind_ok; case: b eb hb => eb hb.
    right; exists rv; split=> //; exists p; split=> //; last exact/hb.
    by rewrite (monic_gv _ _ hp hs); apply: leq_ltn_trans ht1 htm.
  left; have [r1 [p1 [-> [g1 w1]]]] := increment_ok spec (q2 F) kvq kv0 next_ok kv1 hp; rewrite bind_ok.
  have key l p' : isG l p' -> size p' = d.+1 -> irreducible_poly p' -> (gv r1 <= gv l)%N.
    move=> hl hs' hi'; rewrite w1 ltn_neqAle (hm _ _ hl hs' hi') andbT.
    apply/negP => /eqP e; have [ee _] := cmp_val spec (q2 F) kvq kv0 hp hl.
    have := eqb_ok spec hp hl; rewrite ee e eqxx => -[/esym/eqP e']; rewrite -e' in hi'.
    by have := hb.2 hi'.
  have kt := key _ _ ht hst hit.
  exists r1; split=> //; split.
    exists p1; split=> //; apply/(gv_size g1 d0); have /andP [a1 a2] := (gv_size hp d0).1 hs.
    rewrite w1 (leq_trans a1 (leqnSn _)) -w1; have /andP [_ b2] := (gv_size ht d0).1 hst.
    exact: leq_ltn_trans kt b2.
  by apply/ltP; rewrite w1 in kt *; apply: ltn_sub2l.
- exists 'X^d; split=> //.
    by rewrite v1; have /andP [] := (gv_size ht d0).1 hst.
  by move=> l p' hl hs' _; rewrite v1; have /andP [] := (gv_size hl d0).1 hs'.
- apply/ltP; rewrite v1; apply: leq_ltn_trans hfuel; rewrite leq_subLR addnn -mul2n; exact: ltnW.
exists r, p; split=> // l p' h3 h4 h5; have [_ [_ [-> _]]] := cmp_val spec (q2 F) kvq kv0 h3 hp.
by congr Ok; apply/negbTE; rewrite -leqNgt; apply: hl h3 h4 h5.
Qed.
End Top.
