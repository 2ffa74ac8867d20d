(* The totient of a GF(2) polynomial counts the residues coprime to it. *)
From Verif Require Import Base MIntMath MMat MBits MFac PBits PBits2 MF2Poly MF2Fac PPow PF2Poly PF2Fac1 PFacGen.
From mathcomp Require Import all_ssreflect fingroup perm all_algebra finfield separable ssrZ.
From Verif Require Import PLin PLin2 PLin3 PMat PMat2 PMat3 PropMat PBits3 PF2Poly2 PF2Poly3 PF2Poly4 PBerl PFacPoly PF2Fac2 PF2Fac3 PPhi.
Set Implicit Arguments.
Unset Strict Implicit.
Unset Printing Implicit Defensive.
Import GRing.Theory.
Delimit Scope Z_scope with coqZ.
Local Open Scope ring_scope.

Notation phi2 := (phi (F := F2)).

Lemma irr_neq (p r : {poly 'F_2}) : irreducible_poly p -> irreducible_poly r -> p <> r -> coprimep p r.
Proof.
move=> hp hr hne; rewrite (irr_coprime (F := F2)) //; apply/negP => hd; case: hr => h1 hi; apply: hne; apply: eqp_F2.
by apply: hi => //; apply/eqP => e; case: hp; rewrite e.
Qed.

(* an entry: irreducible, positive multiplicity *)
Definition ent (e : fpoly * Z) : Prop := [/\ isP e.1 (P e.1), irreducible_poly (P e.1) & (1 <= e.2)%coqZ].
Lemma copr_rest x l : irreducible_poly x -> List.Forall ent l -> ~ List.In x (List.map (fun e => P e.1) l) ->
  coprimep x (fprod2 l).
Proof.
move=> hx; elim: l => [|e l IH] hl hn; first by rewrite /fprod big_nil coprimep1.
rewrite fprod_cons coprimepMr; have [h1 h2 h3] := List.Forall_inv hl.
rewrite IH ?andbT; [|exact: List.Forall_inv_tail hl|by move=> h; apply: hn; right].
by apply: coprimep_expr; apply: irr_neq => // e1; apply: hn; left.
Qed.
Lemma fprod_neq0 l : List.Forall ent l -> fprod2 l != 0.
Proof.
elim: l => [|e l IH] hl; first by rewrite /fprod big_nil oner_neq0.
rewrite fprod_cons mulf_neq0 ?IH //; last exact: List.Forall_inv_tail hl.
by have [_ [h _] _] := List.Forall_inv hl; rewrite expf_neq0 // sz_pos.
Qed.

Lemma size_expF2 (p : {poly 'F_2}) k : p != 0 -> (size (p ^+ k)).-1 = ((size p).-1 * k)%N.
Proof.
move=> p0; elim: k => [|k IH]; first by rewrite expr0 size_poly1 muln0.
by rewrite exprS (sizeM (F := F2)) ?expf_neq0 // IH mulnS.
Qed.
Lemma phi_powF2 (p : {poly 'F_2}) k : irreducible_poly p ->
  phi2 (p ^+ k.+1) = (2 ^ ((size p).-1 * k) * (2 ^ (size p).-1 - 1))%N.
Proof. by move=> h; rewrite phi_pow // cardF2. Qed.

Lemma Zpow_nat k : Z.of_nat (2 ^ k) = (2 ^ Z.of_nat k)%coqZ.
Proof. by elim: k => [//|k IH]; rewrite expnS Nat2Z.inj_mul IH -[Z.of_nat 2]/2%coqZ -Z.pow_succ_r ?Nat2Z.inj_succ //; lia. Qed.

Lemma ishl1_ok k : (Z.of_nat k <= 30)%coqZ -> ishl1 (Z.of_nat k) = Ok (Z.of_nat (2 ^ k)%N).
Proof.
move=> h; rewrite /ishl1.
have -> : (Z.of_nat k <? 0)%coqZ = false by apply/Z.ltb_ge; lia.
have -> : (31 <? Z.of_nat k)%coqZ = false by apply/Z.ltb_ge; lia.
have -> : (Z.of_nat k =? 31)%coqZ = false by apply/Z.eqb_neq; lia.
by rewrite Zpow_nat.
Qed.

Lemma in30 x : (0 <= x)%coqZ -> (x <= 2 ^ 30)%coqZ -> (INT_MIN <= x <= INT_MAX)%coqZ.
Proof. by rewrite /INT_MIN /INT_MAX; lia. Qed.
Lemma pow30 k : (Z.of_nat k <= 30)%coqZ -> (1 <= Z.of_nat (2 ^ k)%N <= 2 ^ 30)%coqZ.
Proof.
move=> h; rewrite Zpow_nat; split; last by apply: Z.pow_le_mono_r.
by have := Z.pow_pos_nonneg 2 (Z.of_nat k) erefl (Zle_0_nat k); lia.
Qed.

Lemma tot_loop_ok l : List.Forall ent l -> List.NoDup (List.map (fun e => P e.1) l) ->
  forall rv a, (1 <= rv)%coqZ -> (rv <= Z.of_nat (2 ^ a)%N)%coqZ -> (Z.of_nat (a + (size (fprod2 l)).-1)%N <= 30)%coqZ ->
  f2_tot_loop l rv = Ok (rv * Z.of_nat (phi2 (fprod2 l)))%coqZ.
Proof.
elim: l => [|[e c] l IH] hl hnd rv a h1 h2 h3.
  by rewrite /fprod big_nil phi1 Z.mul_1_r.
have [/= hP hirr hc] := List.Forall_inv hl; have hl' := List.Forall_inv_tail hl.
have [hn hnd'] := proj1 (List.NoDup_cons_iff _ _) hnd.
have p0 : P e != 0 by case: hirr => h _; apply: sz_pos.
pose k := Z.to_nat (c - 1); have ec : Z.to_nat c = k.+1 by rewrite /k; lia.
have ek : c = Z.of_nat k.+1 by rewrite -ec; lia.
set d := (size (P e)).-1.
set D := (size (fprod2 l)).-1.
have l0 := fprod_neq0 hl'.
have es : (size (fprod2 ((e, c) :: l))).-1 = (d * k.+1 + D)%N.
  by rewrite fprod_cons /= ec (sizeM (F := F2)) ?expf_neq0 // size_expF2.
rewrite es in h3.
have ephi : phi2 (fprod2 ((e, c) :: l)) = (phi2 (P e ^+ k.+1) * phi2 (fprod2 l))%N.
  rewrite fprod_cons /= ec phi_mul ?expf_neq0 //.
  by apply: coprimep_expl; apply: copr_rest.
have hphi := phi_powF2 k hirr; rewrite -/d in hphi.
have hle := phi_le (F := F2) (P e ^+ k.+1); rewrite cardF2 size_expF2 // -/d in hle.
have hd30 : (Z.of_nat d <= 30)%coqZ by move: h3; rewrite mulnS; lia.
have hdk30 : (Z.of_nat (d * k)%N <= 30)%coqZ by move: h3; rewrite mulnS; lia.
have d0 : (0 < d)%N by case: hirr => h _; rewrite /d; case: (size (P e)) h => [|[|z]].
have hk30 : (Z.of_nat k <= 30)%coqZ by have /leP := leq_pmull k d0; move: hdk30; clear; lia.
have b1 := pow30 hd30; have b2 := pow30 hdk30.
have b3 : (1 <= Z.of_nat (2 ^ (a + d * k.+1))%N <= 2 ^ 30)%coqZ by apply: pow30; move: h3; lia.
have hpos : (1 <= Z.of_nat (phi2 (P e ^+ k.+1)))%coqZ.
  have : (0 < phi2 (P e ^+ k.+1))%N.
    rewrite hphi muln_gt0 expn_gt0 /= subn_gt0 -{1}(expn0 2) ltn_exp2l //.
  by move/ltP; lia.
have hbig : (rv * Z.of_nat (phi2 (P e ^+ k.+1)) <= Z.of_nat (2 ^ (a + d * k.+1))%N)%coqZ.
  rewrite expnD Nat2Z.inj_mul; apply: Z.mul_le_mono_nonneg => //; [lia|lia|].
  by move/leP: hle; lia.
cbn [f2_tot_loop]; rewrite (degree_thm (isP_W hP)) -/d bind_ok.
have -> : isub c 1 = Ok (Z.of_nat k) by rewrite /isub chk_ok ?ek; [congr Ok; lia|apply: in30; lia].
rewrite bind_ok.
have -> : imul (Z.of_nat d) (Z.of_nat k) = Ok (Z.of_nat (d * k)%N).
  by rewrite /imul -Nat2Z.inj_mul chk_ok //; apply: in30; lia.
rewrite bind_ok !ishl1_ok // !bind_ok.
have -> : isub (Z.of_nat (2 ^ d)%N) 1 = Ok (Z.of_nat (2 ^ d - 1)%N).
  by rewrite /isub chk_ok; [congr Ok; lia|apply: in30; lia].
rewrite bind_ok.
have -> : imul (Z.of_nat (2 ^ (d * k))%N) (Z.of_nat (2 ^ d - 1)%N) = Ok (Z.of_nat (phi2 (P e ^+ k.+1))).
  rewrite /imul -Nat2Z.inj_mul -[muln _ _]/(muln _ _) (_ : Nat.mul _ _ = phi2 (P e ^+ k.+1)) ?hphi // -hphi chk_ok //.
  have hle2 : (Z.of_nat (phi2 (P e ^+ k.+1)) <= rv * Z.of_nat (phi2 (P e ^+ k.+1)))%coqZ by move: h1 hpos; clear; nia.
  by apply: in30; move: hle2 hpos hbig b3; clear; lia.
rewrite bind_ok.
have -> : imul rv (Z.of_nat (phi2 (P e ^+ k.+1))) = Ok (rv * Z.of_nat (phi2 (P e ^+ k.+1)))%coqZ.
  by rewrite /imul chk_ok //; apply: in30; move: h1 hpos hbig b3; clear; nia.
rewrite bind_ok (IH hl' hnd' _ (a + d * k.+1)%N) //.
- by rewrite ephi Nat2Z.inj_mul Z.mul_assoc.
- by move: h1 hpos; clear; nia.
- by move: h3; rewrite addnA.
Qed.

Lemma totient_thm m l p : isP l p -> p != 0 -> (Z.of_nat (size p).-1 <= 30)%coqZ ->
  f2_totient (Some m) l = Ok (Z.of_nat (phi2 p)).
Proof.
move=> hl p0 hd; have [|fin [e [h1 h2 h3 h4]]] := factor_thm m hl p0; first by rewrite /INT_MAX; lia.
rewrite /f2_totient e bind_ok; have hent : List.Forall ent (facs fin).
  by apply/List.Forall_forall => -[x c] hin; have [a1 [a2 a3]] := h1 _ _ hin.
have ep : fprod2 (facs fin) = p.
  rewrite -h4 /fac_val; case: (funit fin) h3 => [u|] h3; last by rewrite mul1r.
  by have [_ ->] := h3 _ erefl; rewrite mul1r.
by rewrite (tot_loop_ok hent h2 (a := 0)) ?ep ?add0n // Z.mul_1_l.
Qed.

(* invertible residues *)
Definition units_count (p : {poly 'F_2}) : nat :=
  #|[set v : 'rV['F_2]_(size p).-1 | [exists w : 'rV['F_2]_(size p).-1, p %| rVpoly v * rVpoly w - 1]]|.
Lemma units_phi (p : {poly 'F_2}) : p != 0 -> units_count p = phi2 p.
Proof.
move=> p0; rewrite /units_count /phi; apply: eq_card => v; rewrite !inE.
apply/existsP/idP => [[w hw]|hc].
  apply/Bezout_eq1_coprimepP; have /dvdpP [u hu] := hw.
  exists (- u, rVpoly w) => /=; rewrite mulNr -hu opprB addrC [rVpoly w * _]mulrC addrCA subrr addr0 //.
have [[a b] /= hab] := Bezout_eq1_coprimepP _ _ hc.
exists (poly_rV (b %% p)); rewrite poly_rV_K; last by apply: (rV_mod (F := F2)).
rewrite /dvdp modpD modpN modp_mul -modpN -modpD -/(dvdp _ _).
apply/dvdpP; exists (- a); by rewrite -hab [b * _]mulrC opprD addrC subrK mulNr.
Qed.
Lemma totient_units m l p : isP l p -> p != 0 -> (Z.of_nat (size p).-1 <= 30)%coqZ ->
  f2_totient (Some m) l = Ok (Z.of_nat (units_count p)).
Proof. by move=> hl p0 hd; rewrite units_phi // (totient_thm m hl). Qed.

(* beyond that the int arithmetic overflows, e.g. for every irreducible polynomial *)
Lemma totient_big m l p : isP l p -> irreducible_poly p -> (30 < Z.of_nat (size p).-1 <= INT_MAX)%coqZ ->
  f2_totient (Some m) l = UB.
Proof.
move=> hl hirr hd; have [hp _] := hirr; have p0 := sz_pos hp.
have [|fin [e [h1 h2 h3 h4]]] := factor_thm m hl p0; first by lia.
rewrite /f2_totient e bind_ok.
have ep : fprod2 (facs fin) = p.
  rewrite -h4 /fac_val; case: (funit fin) h3 => [u|] h3; last by rewrite mul1r.
  by have [_ ->] := h3 _ erefl; rewrite mul1r.
case: (facs fin) ep h1 => [|[x c] t] ep h1; first by move: hp; rewrite -ep /fprod big_nil size_poly1.
have [hx [ix hc]] := h1 x c (or_introl erefl).
have ex : P x = p.
  apply: eqp_F2; case: hirr => _; apply; first by case: ix => h _; rewrite neq_ltn h orbT.
  rewrite -ep fprod_cons /=; have -> : Z.to_nat c = (Z.to_nat (c - 1)).+1 by lia.
  by rewrite exprS -mulrA dvdp_mulr.
have ec : c = 1%coqZ.
  have hd2 : P x ^+ Z.to_nat c %| p by rewrite -[X in _ %| X]ep fprod_cons dvdp_mulr.
  have := dvdp_leq p0 hd2; rewrite ex => hle.
  have hpp := pred_pos hp.
  have : ((size p).-1 * Z.to_nat c <= (size p).-1)%N.
    by rewrite -size_expF2 //; move: hle; case: (size (p ^+ _)) => [|a]; case: (size p) hp => [|b].
  rewrite -{2}[(size p).-1]muln1 leq_mul2l => /orP [/eqP h0|]; first by lia.
  by move/leP; lia.
cbn [f2_tot_loop]; rewrite (degree_thm (isP_W hx)) bind_ok ex ec.
rewrite (_ : isub 1 1 = Ok 0%coqZ) // bind_ok {1}/imul Z.mul_0_r (_ : chk 0 = Ok 0%coqZ) // bind_ok.
rewrite (_ : ishl1 0 = Ok 1%coqZ) // bind_ok /ishl1.
have -> : (Z.of_nat (size p).-1 <? 0)%coqZ = false by apply/Z.ltb_ge; lia.
case: (Z.ltb_spec 31 (Z.of_nat (size p).-1)) => h31 //=.
by have -> : Z.of_nat (size p).-1 = 31%coqZ by lia.
Qed.
