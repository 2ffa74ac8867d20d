(* Modulo a prime a generator exists, so the generator search succeeds. *)
From Verif Require Import Base MIntMath MIntmod MFac MUnits PIntMath PIntMath2 PIntmod PFac PFacInt PUnits PFpUnits.
From mathcomp Require Import all_ssreflect fingroup perm all_algebra cyclic finfield ssrZ.
From Verif Require Import PMat PFp.
Set Implicit Arguments.
Unset Strict Implicit.
Unset Printing Implicit Defensive.
Import GRing.Theory.
Delimit Scope Z_scope with coqZ.
Local Open Scope ring_scope.

Section G.
Variable p : nat.
Hypothesis pp : prime p.
Local Notation P := (Z.of_nat p).

Lemma izrX x k : izr p (Z.pow x (Z.of_nat k)) = izr p x ^+ k.
Proof.
elim: k => [|k IH]; first by rewrite expr0.
by rewrite Nat2Z.inj_succ Z.pow_succ_r ?izrM ?IH ?exprS //; lia.
Qed.

Lemma gen_fp : exists g, unit_mod P g /\ PFpUnits.generates P g.
Proof.
have p1 := prime_gt1 pp.
have /cyclicP [w hw] := field_unit_group_cyclic [group of [set: {unit 'F_p}]].
pose g : 'F_p := FinRing.uval w.
have pw (x : 'F_p) : x != 0 -> exists j, x = g ^+ j.
  move=> x0; have xu : x \is a GRing.unit by rewrite unitfE.
  have : FinRing.unit _ xu \in [set: {unit 'F_p}] by rewrite inE.
  rewrite /= hw => /cycleP [j /(congr1 (FinRing.uval)) /=]; rewrite FinRing.val_unitX => e; by exists j.
have g0 : g != 0 by rewrite -unitfE; exact: (valP w).
have hgl : (Z.of_nat (g : nat) < P)%coqZ by have [_ [_ /=]] := fp_of_V pp g.
exists (Z.of_nat (g : nat)); split.
  split; first by lia.
  apply/Znumtheory.Zgcd_1_rel_prime/Znumtheory.prime_rel_prime; first exact: primeZ.
  move=> hd; have := Z.divide_pos_le P (Z.of_nat (g : nat)).
  have : (0 < Z.of_nat (g : nat))%coqZ; last by move=> h1 h2; have := h2 h1 hd; lia.
  have : (g : nat) <> 0%N by move=> e; case/eqP: g0; apply/val_inj.
  lia.
move=> y [hy gy]; have [|j ej] := pw (izr p y).
  have y0 : (0 < y)%coqZ.
    by case: (Z.eq_dec y 0) => [e|]; [rewrite e Z.gcd_0_r in gy|]; lia.
  by rewrite -(izr0 p) izr_eq //; [apply/negP => /Z.eqb_eq| | |]; lia.
exists (Z.of_nat j); split; first by lia.
have hb := Z.mod_pos_bound (Z.of_nat g ^ Z.of_nat j) P.
apply: (izr_inj pp) => //; try lia.
by rewrite izr_mod // izrX izr_nat natr_Zp -ej.
Qed.
End G.

Lemma primeN (p : Z) : Znumtheory.prime p -> prime (Z.to_nat p).
Proof.
move=> hp; have p2 := Znumtheory.prime_ge_2 _ hp; apply/primeP; split; first by apply/ltP; lia.
move=> d /dvdnP [k e]; have : Z.divide (Z.of_nat d) p.
  by exists (Z.of_nat k); rewrite -Nat2Z.inj_mul multE -e Z2Nat.id; lia.
move=> /(Znumtheory.prime_divisors _ hp) h; apply/orP.
by case: h => [|[|[|]]] h; [lia|left; apply/eqP; lia|right; apply/eqP; lia|lia].
Qed.

Lemma fp_find_generator_prime c p : Znumtheory.prime p -> (p <= MAXM)%coqZ ->
  exists g, [/\ fp_find_generator c p = Ok (Some (mkim g p)), unit_mod p g, PFpUnits.generates p g
    & forall x, unit_mod p x -> PFpUnits.generates p x -> (g <= x)%coqZ].
Proof.
move=> hp hm; have p2 := Znumtheory.prime_ge_2 _ hp.
have [|[g [h1 [h2 [h3 h4]]]]|[_ h]] := @fp_find_generator_ok p _ c; [lia|by exists g|].
have [g] := gen_fp (primeN hp); rewrite Z2Nat.id; last by lia.
by move=> [h1 h2]; case: (h g h1).
Qed.
