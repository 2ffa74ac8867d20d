(* The unit group of GF(2)[x]/(m). *)
From Verif Require Import Base MIntMath MMat MBits MFac PIntMath PBits PBits2 MF2Poly MF2Fac MUnits PPow PF2Poly PF2Fac1 PFacGen PFacInt PUnits.
From Verif Require PFac.
From Coq Require Znumtheory.
From mathcomp Require Import all_ssreflect fingroup perm all_algebra finfield separable ssrZ.
From Verif Require Import PLin PLin2 PLin3 PMat PMat2 PMat3 PropMat PBits3 PF2Poly2 PF2Poly3 PF2Poly4 PBerl PFacPoly PF2Fac2 PF2Fac3 PIrr PF2Irr PPhi PF2Tot PEuler.
From Verif Require PropF2Poly PFp.
Set Implicit Arguments.
Unset Strict Implicit.
Unset Printing Implicit Defensive.
Import GRing.Theory.
Delimit Scope Z_scope with coqZ.
Local Open Scope ring_scope.

Local Notation F2 := [finFieldType of 'F_2].
Local Notation phi2 p := (@phi F2 p).

Lemma gcd_unit l lm r m : isP l r -> isP lm m -> exists g, f2_gcd l lm = Ok g /\ f2_neqb g (f2_of_int 1) = Ok (~~ coprimep r m).
Proof.
move=> hl hm; have [g [-> hg]] := gcd_L (isP_L hl) (isP_L hm); exists g; split=> //.
rewrite (neqb_P (isL_W hg) (isP_W isP1)); congr Ok; congr negb.
by rewrite coprimep_def size_poly_eq1; apply/eqP/idP => [->|h]; [exact: eqpxx|apply: eqp_F2].
Qed.

Section M.
Variables (a : fpmod) (r m : {poly 'F_2}).
Hypothesis ha : isM a r m.
Let m0 : m != 0 := isM_m0 ha.
Let pw (d : Z) : bool := r ^+ Z.to_nat d %% m == 1 %% m.
Lemma pw_0 : pw 0 = true.
Proof. by rewrite /pw expr0 eqxx. Qed.
Lemma pw_add x y : (0 <= x)%coqZ -> (0 <= y)%coqZ -> pw x = true -> pw (x + y) = pw y.
Proof.
move=> hx hy /eqP e; rewrite /pw Z2Nat.inj_add // plusE exprD mulrC -modp_mul e modp_mul mulr1 //.
Qed.
Lemma least_order k : least_exp pw k -> has_order m r (Z.to_nat k).
Proof.
move=> [h1 [/eqP h2 h3]]; split=> //; first by apply/ltP; lia.
move=> j /andP [/ltP j0 /ltP hj] e; have := h3 (Z.of_nat j); rewrite /pw Nat2Z.id e eqxx; lia.
Qed.

Lemma exp_one one : isM one (1 %% m) m -> forall d, (0 < d <= INT_MAX)%coqZ -> exists ap, pm_exp a d = Ok ap /\ pm_eqb ap one = Ok (pw d).
Proof.
move=> ho d hd; have [||c [-> hc]] := pm_exp_pos ha (e := d); [by lia|by left; lia|].
by exists c; split=> //; rewrite (pm_eqb_ok hc ho).
Qed.

Lemma order_thm t : coprimep r m -> (Z.of_nat (size m).-1 <= 30)%coqZ -> (Z.of_nat (phi2 m) * Z.of_nat (phi2 m) <= INT_MAX)%coqZ ->
  exists k, f2_order (Some t) a = Ok (Z.of_nat k) /\ has_order m r k.
Proof.
move=> hc hd hphi; have [hr [hm _]] := ha; rewrite /f2_order.
have [g [-> eg]] := gcd_unit hr hm; rewrite bind_ok eg bind_ok hc /=.
rewrite (totient_thm t hm) // bind_ok.
have ph0 : (0 < Z.of_nat (phi2 m))%coqZ by have := phi_gt0 (F := F2) m0 => /ltP; lia.
have [||f [ds [e1 [e2 [h1 h2]]]]] := int_all_divisors (Z.of_nat (phi2 m)); [by lia|by []|].
rewrite e1 bind_ok e2 bind_ok; have [one [-> ho]] := isM_1 hm m0; rewrite bind_ok.
have ep : pw (Z.of_nat (phi2 m)) = true.
  by rewrite /pw Nat2Z.id; apply/eqP; apply: (euler (F := F2) m0); rewrite coprimep_sym.
have [|k [-> [hk _]]] := order_loop_least pw pw_0 pw_add (pm_exp a) (fun ap => pm_eqb ap one) ds _ ph0 ep h1 h2.
  move=> d hd'; apply: exp_one => //; split; first by lia.
  move: hphi hd' ph0; clear; nia.
exists (Z.to_nat k); split; last exact: least_order.
by rewrite Z2Nat.id //; case: hk; lia.
Qed.
Lemma order_nonunit tm : ~~ coprimep r m -> f2_order tm a = Exn.
Proof.
move=> hc; have [hr [hm _]] := ha; rewrite /f2_order.
by have [g [-> eg]] := gcd_unit hr hm; rewrite bind_ok eg bind_ok hc.
Qed.
End M.


Lemma phi_pow2 (m : {poly 'F_2}) d : (Z.of_nat (size m).-1 <= d)%coqZ -> (Z.of_nat (phi2 m) <= 2 ^ d)%coqZ.
Proof.
move=> h; have := phi_le (F := F2) m; rewrite card_Fp // => /leP /inj_le; rewrite Zpow_nat => h2.
by apply: Z.le_trans h2 _; apply: Z.pow_le_mono_r.
Qed.
(* degrees for which the powers computed for the divisors fit *)
Lemma phi_small (m : {poly 'F_2}) : (Z.of_nat (size m).-1 <= 15)%coqZ -> (Z.of_nat (phi2 m) * Z.of_nat (phi2 m) <= INT_MAX)%coqZ.
Proof.
move=> h; have := phi_pow2 h; have := Nat2Z.is_nonneg (phi2 m); rewrite /INT_MAX -[(2 ^ 15)%coqZ]/(32768%coqZ); clear; nia.
Qed.

(* ---------------------------------------------------------------- primitivity *)
Lemma prim_loop_ok A (P : Z -> bool) (ex : Z -> res A) one ds :
  (forall d, List.In d ds -> exists ap, ex d = Ok ap /\ one ap = Ok (P d)) ->
  prim_loop ex one ds = Ok (~~ List.existsb P ds).
Proof.
elim: ds => [|d t IH] h //=; have [|ap [-> e]] := h d; first by left.
rewrite bind_ok e bind_ok; case: (P d) => //=; apply: IH => x hx; apply: h; by right.
Qed.

(* r has order n iff it has no smaller exponent of the form n / prime *)
Lemma order_maximal (m r : {poly 'F_2}) (n : Z) : m != 0 -> coprimep m r -> n = Z.of_nat (phi2 m) ->
  (forall q, Znumtheory.prime q -> Z.divide q n -> r ^+ Z.to_nat (n / q) %% m <> 1 %% m) <-> generates m r.
Proof.
move=> m0 hc en; have [k [ho hk]] := order_exists (F := F2) m0 hc.
have hp0 := phi_gt0 (F := F2) m0.
rewrite -(order_generates (F := F2) m0 hc ho); split=> [h|ek q hq hd /eqP].
  apply/eqP; rewrite eqn_dvd hk /=; apply/negPn/negP => hnd.
  have /dvdnP [c hcc] := hk; have c1 : (1 < c)%N.
    case: c hcc => [|[|c]] // e; first by rewrite e in hp0.
    by rewrite mul1n in e; rewrite e dvdnn in hnd.
  pose q := pdiv c; have pq : prime q by apply: pdiv_prime.
  have /dvdnP [c' hc'] := pdiv_dvd c.
  have hn : n = (Z.of_nat (c' * k) * Z.of_nat q)%coqZ.
    by rewrite en hcc -Nat2Z.inj_mul multE hc' -/q mulnAC.
  have q0 : Z.of_nat q <> 0%coqZ by have := prime_gt0 pq => /ltP; lia.
  apply: (h (Z.of_nat q)); first exact: PFp.primeZ.
    by exists (Z.of_nat (c' * k)).
  rewrite hn Z.div_mul // Nat2Z.id; apply/eqP.
  by rewrite (order_div _ ho) dvdn_mull.
rewrite (order_div _ ho) ek; have [c ec] := hd; have q2 : (2 <= q)%coqZ by case: hq; lia.
have hn : (0 < n)%coqZ by move/ltP: hp0; lia.
rewrite ec Z.div_mul; last by lia.
have c0 : (0 < c)%coqZ by nia.
by move/dvdn_leq => /(_ _) /leP h; have := h (introT ltP _); nia.
Qed.

Theorem primitive_thm t l m : isP l m -> (Z.of_nat (size m).-1 <= 30)%coqZ ->
  exists b, f2_is_primitive (Some t) l = Ok b /\ (b = true <-> coprimep m 'X /\ generates m 'X).
Proof.
move=> hl hd; rewrite /f2_is_primitive.
have [g [-> eg]] := gcd_unit isP_X hl; rewrite bind_ok eg bind_ok.
case: (boolP (coprimep 'X m)) => hc /=; last first.
  by exists false; split=> //; split=> // -[h]; rewrite coprimep_sym h in hc.
have hc' : coprimep m 'X by rewrite coprimep_sym.
have m0 : m != 0 by apply: contraTneq hc => ->; rewrite coprimep0 -size_poly_eq1 size_polyX.
have [one [-> ho]] := make_L (isP_L isP1) hl m0; rewrite bind_ok.
have [x [-> hx]] := make_L (isP_L isP_X) hl m0; rewrite bind_ok.
rewrite (totient_thm t hl) // bind_ok.
set n := Z.of_nat (phi2 m); have hp0 := phi_gt0 (F := F2) m0.
have hn : (0 < n <= INT_MAX)%coqZ.
  by have := phi_pow2 hd; rewrite -[(2 ^ 30)%coqZ]/(1073741824%coqZ); move/ltP: hp0; rewrite /INT_MAX /n; lia.
have epw d : (('X %% m) ^+ d %% m)%R = 'X^d %% m.
  by elim: d => [|d IH]; rewrite ?expr0 // !exprS modp_mull2 -modp_mul IH modp_mul.
pose pw (d : Z) : bool := 'X^(Z.to_nat d) %% m == 1 %% m.
have hex d : (0 < d <= INT_MAX)%coqZ -> exists ap, pm_exp x d = Ok ap /\ pm_eqb ap one = Ok (pw d).
  by move=> h; have [ap [e1 e2]] := exp_one hx ho h; exists ap; split=> //; rewrite e2 epw.
case: (Z.eq_dec n 1) => [e1|n1].
  rewrite e1 /=; exists true; split=> //; split=> // _; split=> //.
  apply/(order_maximal m0 hc' (erefl : n = _)) => q hq; rewrite e1 => /Z.divide_1_r.
  by case: hq => hq _; lia.
have [|f [ds [e1 [e2 [h1 h2]]]]] := int_max_divisors n; first by lia.
rewrite e1 bind_ok e2 bind_ok (prim_loop_ok (P := pw)); last first.
  move=> d /h2 [q [hq e]]; apply: hex; case: hq => hq _.
  by move: hn hq e; clear; nia.
rewrite bind_ok negbK.
have hiff := order_maximal m0 hc' (erefl : n = _).
have hdiv q d : Znumtheory.prime q -> n = (q * d)%coqZ -> (n / q)%coqZ = d.
  by move=> [hq _] ->; rewrite Z.mul_comm Z.div_mul //; lia.
case: (boolP (List.existsb pw ds)) => hb.
  exists false; split=> //; split=> // -[_ /hiff h].
  have /List.existsb_exists [d [hin hp]] := hb; have /h2 [q [hq e]] := hin.
  by have := h q hq (ex_intro _ d _); rewrite (hdiv _ _ hq e) => /(_ _); case; [rewrite Z.mul_comm|apply/eqP].
have [|ap [-> eap]] := hex n; first by [].
rewrite bind_ok eap bind_ok.
have -> : pw n = true by rewrite /pw /n Nat2Z.id; apply/eqP; apply: (euler (F := F2) m0).
exists true; split=> //; split=> // _; split=> //; apply/hiff => q hq [d e].
have e' : n = (q * d)%coqZ by rewrite Z.mul_comm.
rewrite (hdiv _ _ hq e') => hp; move/negP: hb; apply; apply/List.existsb_exists; exists d.
by split; [apply/h2; exists q|apply/eqP].
Qed.

(* ---------------------------------------------------------------- period *)
Lemma mod_coprime (p m : {poly 'F_2}) : coprimep (p %% m)%R m = coprimep p m.
Proof. by rewrite coprimep_sym coprimep_modr coprimep_sym. Qed.
Lemma powmod (p m : {poly 'F_2}) d : ((p %% m) ^+ d %% m)%R = (p ^+ d %% m)%R.
Proof. by elim: d => [|d IH]; rewrite ?expr0 // !exprS modp_mull2 -modp_mul IH modp_mul. Qed.
Lemma order_mod (m r : {poly 'F_2}) k : has_order m (r %% m)%R k <-> has_order m r k.
Proof.
split=> -[h1 h2 h3]; split=> //; rewrite ?powmod // in h2 *; move=> j hj; have := h3 j hj; by rewrite powmod.
Qed.
Lemma period_thm t l m : isP l m -> m != 0 -> (Z.of_nat (size m).-1 <= 15)%coqZ ->
  if coprimep m 'X then exists k, f2_period (Some t) l = Ok (Z.of_nat k) /\ has_order m 'X k
  else f2_period (Some t) l = Ok 0%coqZ.
Proof.
move=> hl m0 hd; rewrite /f2_period.
have [g [-> eg]] := gcd_unit isP_X hl; rewrite bind_ok eg bind_ok.
have -> : coprimep m 'X = coprimep 'X m by rewrite coprimep_sym.
case hc: (coprimep 'X m) => //=; have [x [-> hx]] := make_L (isP_L isP_X) hl m0; rewrite bind_ok.
have [|||k [-> hk]] := order_thm hx t; [by rewrite mod_coprime|by lia|exact: phi_small|].
by exists k; split=> //; exact: (order_mod m 'X k).1 hk.
Qed.

(* ---------------------------------------------------------------- search for primitive polynomials *)
Definition prim (m : {poly 'F_2}) : Prop := coprimep m 'X /\ generates m 'X.
Lemma prim_odd l p d : isP l p -> size p = d.+1 -> prim p -> N.odd (valN l) = true.
Proof.
move=> hl hs [hc _]; have := coef_valN 0 hl; rewrite /= N.bit0_odd.
case: N.odd => // h0; have hx : 'X %| p by rewrite -['X]subr0 -(polyC0 [ringType of 'F_2]) dvdp_XsubCl rootE horner_coef0 h0.
by move: hc => /coprimepP /(_ _ hx (dvdpp _)) /eqp_size; rewrite size_polyX size_poly1.
Qed.

Definition wanted (need_irr : bool) (p : {poly 'F_2}) : Prop := prim p /\ (need_irr = true -> irreducible_poly p).
Lemma find_prim_thm t d ni : (0 < d)%N -> (Z.of_nat d <= 30)%coqZ ->
  exists r p, [/\ f2_find_prim (Some t) (Z.of_nat d) ni = Ok r, isP r p, size p = d.+1, wanted ni p &
    forall l q, isP l q -> size q = d.+1 -> wanted ni q -> f2_ltb l r = Ok false].
Proof.
move=> hd hmax; have [q [hq1 _ hq3 hq2]] := prim_exists (isT : prime 2) hd.
have hq : wanted ni q by split.
have [tt ht] := isP_exists q.
pose Post (r : fpoly) := exists p, [/\ isP r p, size p = d.+1, wanted ni p &
   forall l q, isP l q -> size q = d.+1 -> wanted ni q -> (valN r <= valN l)%num].
pose Inv (rv : fpoly) := exists p, [/\ isP rv p, size p = d.+1, (valN rv <= valN tt)%num &
   forall l q, isP l q -> size q = d.+1 -> wanted ni q -> (valN rv <= valN l)%num].
pose mu (rv : fpoly) := N.to_nat (valN tt - valN rv).
have [|l1 [e1 h1]] := set_bit_P (k := d) isP0; first by rewrite coef0.
rewrite add0r in h1.
have [|l2 [e2 h2]] := set_bit_P (k := 0) h1; first by rewrite coefXn; case: d hd {Inv Post hmax hq1 h1 e1}.
rewrite /f2_find_prim e1 bind_ok -[0%coqZ]/(Z.of_nat 0) e2 bind_ok.
have -> : (Z.of_nat d <? 1)%coqZ = false by apply/Z.ltb_ge; move/ltP: hd; lia.
rewrite Nat2Z.id.
have hs2 : size ('X^d + 'X^0 : {poly 'F_2}) = d.+1.
  by rewrite size_addl size_polyXn // size_polyXn ltnS; case: d hd {Inv Post hmax hq1 h1 e1 h2 e2}.
have hmin l q' : isP l q' -> size q' = d.+1 -> wanted ni q' -> (valN l2 <= valN l)%num.
  move=> hl hs [hi _]; apply: N.ldiff_le; apply: N.bits_inj => j; rewrite N.ldiff_spec N.bits_0 -(N2Nat.id j).
  set i := N.to_nat j; have := coef_valN i h2; have := coef_valN i hl; rewrite coefD !coefXn.
  case: (N.testbit (valN l) _); rewrite ?andbF //; case: (N.testbit (valN l2) _) => //=.
  have [->|n1] := eqVneq i d; first by rewrite (lead_at hs) => /(@Ib_inj true false).
  have [->|n2] := eqVneq i 0%N; last by rewrite add0r => _ /(@Ib_inj false true).
  by have := prim_odd hl hs hi; rewrite -N.bit0_odd (coef_valN 0 hl) /= => -> /(@Ib_inj true false).
have [|||r [er [p [hp hs hi hl]]]] := @loop_total fpoly fpoly (f2_prim_step (Some t) d ni) Inv mu Post _ (S (Nat.pow 2 d)) l2.
- move=> rv [p [hp hs ht1 hm]]; rewrite /f2_prim_step (degree_thm (isP_W hp)) bind_ok hs /= Nat.eqb_refl.
  have [|b [-> hb]] := primitive_thm t hp; first by rewrite hs.
  rewrite bind_ok.
  have [c [-> hc]] : exists c, (if b then if ~~ ni then Ok true else f2_is_irreducible (Some t) rv else Ok false) = Ok c /\ (c = true <-> wanted ni p).
    case: b hb => hb; last by exists false; split=> //; split=> // -[/hb].
    case eni: ni => /=; last by exists true; split=> //; split=> // _; split=> //; apply/hb.
    have [|c [-> hc]] := irreducible_thm t hp; first by rewrite hs /INT_MAX; lia.
    exists c; split=> //; split=> [/hc hi|[_ /(_ erefl) /hc //]]; split=> //; exact/hb.
  rewrite bind_ok; case: c hc => hc; first by right; exists rv; split=> //; exists p; split=> //; apply/hc.
  left; have [r1 [p1 [-> g1 v1]]] := PropF2Poly.C54_increment hp; rewrite bind_ok.
  have key l q' : isP l q' -> size q' = d.+1 -> wanted ni q' -> (valN r1 <= valN l)%num.
    move=> hl hs' hi'; have := hm _ _ hl hs' hi'.
    have hne : valN rv <> valN l by move=> e; have := (PropF2Poly.C54_value_unique hp hl).1 e => e'; rewrite -e' in hi'; have := hc.2 hi'.
    by lia.
  have kt := key _ _ ht hq1 hq.
  exists r1; split=> //; split; last by rewrite /mu; lia.
  exists p1; split=> //.
  apply/(valN_size d g1); have := (valN_size d hp).1 hs; have := (valN_size d ht).1 hq1; lia.
- by exists ('X^d + 'X^0); split=> //; exact: hmin ht hq1 hq.
- rewrite /mu; have := (valN_size d h2).1 hs2; have := (valN_size d ht).1 hq1.
  rewrite (_ : N.of_nat d.+1 = N.succ (N.of_nat d)) ?N.pow_succ_r'; last by lia.
  have -> : Nat.pow 2 d = N.to_nat (2 ^ N.of_nat d) by rewrite N2Nat.inj_pow Nat2N.id.
  by lia.
exists r, p; split=> // l q' h3 h4 h5; have [-> _ _ _] := PropF2Poly.C54_order h3 hp.
by congr Ok; apply/N.ltb_ge; apply: hl h3 h4 h5.
Qed.

(* ---------------------------------------------------------------- search for a generator *)
Lemma find_gen_irr t l m : isP l m -> irreducible_poly m -> (Z.of_nat (size m).-1 <= 15)%coqZ ->
  exists g p, [/\ f2_find_generator (Some t) l = Ok (Some g), isM g p m, coprimep m p, generates m p &
    forall b q, isM b q m -> coprimep m q -> generates m q -> f2_ltb (pm_res b) (pm_res g) = Ok false].
Proof.
move=> hl hirr hd; have [hsz _] := hirr; have m0 : m != 0 by rewrite -size_poly_gt0 ltnW.
have [gg [cg hg]] := gen_exists (F := F2) hirr.
set d := (size m).-1 in hd *.
have hd1 : (0 < d)%N by rewrite /d; case: (size m) hsz => [|[|k]].
have hsm : size m = d.+1 by rewrite /d prednK // size_poly_gt0.
rewrite /f2_find_generator (degree_thm (isP_W hl)) bind_ok -/d.
have -> : Nat.ltb d 1 = false by apply/Nat.ltb_ge; apply/leP.
rewrite (totient_thm t hl) //; last by lia.
rewrite bind_ok.
have gen_mod p : generates m (p %% m)%R <-> generates m p.
  by split=> h q hq; have [j ej] := h q hq; exists j; rewrite ej powmod.
have cop_mod p : coprimep m (p %% m)%R = coprimep m p by rewrite coprimep_modr.
have [tt ht] := isP_exists (gg %% m)%R.
have htt : (size (gg %% m)%R < size m)%N by rewrite ltn_modp.
pose isgen (p : {poly 'F_2}) := [/\ (size p < size m)%N, coprimep m p & generates m p].
have hgt : isgen (gg %% m)%R by split=> //; [rewrite cop_mod|apply/gen_mod].
pose Inv (rv : fpoly) := exists p, [/\ isP rv p, p != 0, (valN rv <= valN tt)%num &
   forall l q, isP l q -> isgen q -> (valN rv <= valN l)%num].
pose Post (o : option fpmod) := exists g p, [/\ o = Some g, isM g p m, coprimep m p, generates m p &
   forall l q, isP l q -> isgen q -> (valN (pm_res g) <= valN l)%num].
pose mu (rv : fpoly) := N.to_nat (valN tt - valN rv).
have szlt rv p : isP rv p -> (valN rv <= valN tt)%num -> (size p <= d)%N.
  move=> hp hv; case e: (size p) => [//|k]; have := (valN_size k hp).1 e => -[hk _].
  rewrite ltnNge; apply/negP => hdk; have e2 : (2 ^ N.of_nat d <= valN tt)%num.
    apply: N.le_trans hv; apply: N.le_trans hk; apply: N.pow_le_mono_r => //; move/leP: hdk; lia.
  have : (valN tt < 2 ^ N.of_nat d)%num; last by lia.
  apply: N_bit_lt => j hj; rewrite -(N2Nat.id j); apply: (@Ib_inj _ false); rewrite -(coef_valN _ ht).
  rewrite nth_default //; rewrite hsm ltnS in htt; apply: leq_trans htt _; apply/leP; lia.
have pos0 (q : {poly 'F_2}) lq : isP lq q -> isgen q -> (1 <= valN lq)%num.
  move=> hq [_ hc _]; have : valN lq <> 0%num; last by lia.
  move=> e; have q0 : q = 0.
    apply/polyP => i; by rewrite (coef_valN i hq) e N.bits_0 coef0.
  by move: hc; rewrite q0 coprimep0 -size_poly_eq1 hsm eqSS; case: d hd1 {hd hsm szlt Inv htt hgt}.
have [|||r [er [g [p [eo h1 h2 h3 h4]]]]] := @loop_total fpoly (option fpmod) (f2_gen_step (Some t) l d (Z.of_nat (phi2 m))) Inv mu Post _ (S (Nat.pow 2 d)) (f2_of_int 1).
- move=> rv [p [hp p0 hv hm]]; rewrite /f2_gen_step (degree_thm (isP_W hp)) bind_ok.
  have hs := szlt _ _ hp hv.
  have -> : Nat.ltb (size p).-1 d = true.
    by apply/Nat.ltb_lt; apply/ltP; rewrite prednK // size_poly_gt0.
  have hpm : (size p < size m)%N by rewrite hsm ltnS.
  have [b [-> hb]] := make_L (isP_L hp) hl m0; rewrite bind_ok.
  rewrite (modp_small hpm) in hb.
  have cp : coprimep m p.
    rewrite irr_coprime //; apply/negP => /dvdp_leq; rewrite p0 => /(_ isT); by rewrite leqNgt hpm.
  have [|||k [-> hk]] := order_thm hb t; [by rewrite coprimep_sym|by lia|exact: phi_small|].
  rewrite bind_ok; have hiff := order_generates (F := F2) m0 cp hk.
  case: Z.eqb_spec => [/Nat2Z.inj /hiff hgen|ne].
    right; exists (Some b); split=> //; exists b, p; split=> // l' q' hl' hq'.
    have -> : pm_res b = rv by case: hb => hb _; rewrite (isP_uniq hb hp).
    exact: hm hl' hq'.
  have ngen : ~ generates m p by move=> /hiff e; apply: ne; rewrite e.
  have [r1 [p1 [-> g1 v1]]] := PropF2Poly.C54_increment hp; rewrite bind_ok.
  have key l' q' : isP l' q' -> isgen q' -> (valN r1 <= valN l')%num.
    move=> hl' hq'; have := hm _ _ hl' hq'.
    have hne : valN rv <> valN l'.
      by move=> e; have := (PropF2Poly.C54_value_unique hp hl').1 e => e'; apply: ngen; rewrite e'; case: hq'.
    by lia.
  have kt := key _ _ ht hgt.
  left; exists r1; split=> //; split; last by rewrite /mu; lia.
  exists p1; split=> //; apply/eqP => p10.
  by have := (PropF2Poly.C54_value_unique g1 isP0).2 p10; rewrite v1 /=; lia.
- exists 1; split; [exact: isP1|exact: oner_neq0|exact: pos0 ht hgt|].
  by move=> l' q' hl' hq'; apply: pos0 hl' hq'.
- rewrite /mu; have hv : (valN tt < 2 ^ N.of_nat d)%num.
    apply: N_bit_lt => j hj; rewrite -(N2Nat.id j); apply: (@Ib_inj _ false); rewrite -(coef_valN _ ht).
    rewrite nth_default //; rewrite hsm ltnS in htt; apply: leq_trans htt _; apply/leP; lia.
  have -> : Nat.pow 2 d = N.to_nat (2 ^ N.of_nat d) by rewrite N2Nat.inj_pow Nat2N.id.
  by lia.
rewrite er eo; exists g, p; split=> // b q hb hc hgq; have [hbr _] := hb; have [hgr _] := h1.
have [-> _ _ _] := PropF2Poly.C54_order hbr hgr; congr Ok; apply/N.ltb_ge; apply: h4 hbr _.
by split=> //; case: hb => _ [].
Qed.
