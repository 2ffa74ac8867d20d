(* The lists of residues of PropList.v, over the integers. *)
From Verif Require Import Base MIntMath MIntmod MList PIntMath PIntMath2 PIntmod PFac.
From mathcomp Require Import all_ssreflect all_algebra ssrZ.
From Verif Require Import PList4 PropList.
Set Implicit Arguments.
Unset Strict Implicit.
Unset Printing Implicit Defensive.
Delimit Scope Z_scope with coqZ.

(* l: the residues r modulo m with P r, in increasing order *)
Definition residues (m : Z) (P : Z -> Prop) (l : list Z) : Prop :=
  increasing l /\ forall r, List.In r l <-> (0 <= r < m)%coqZ /\ P r.

Lemma inc_of_nat (s : seq nat) : sorted ltn s -> increasing (List.map Z.of_nat s).
Proof. by elim: s => [|x [|y s] IH] //= /andP[/ltP h1 h2]; split; [lia|exact: IH]. Qed.
Lemma bridge (p : nat) (P : nat -> Prop) (Q : Z -> Prop) r :
  (forall k, P k <-> (k < p)%N /\ Q (Z.of_nat k)) -> lists id P (iel p) r ->
  exists l, r = Ok (List.map (fun x => mkim x (Z.of_nat p)) l) /\ residues (Z.of_nat p) Q l.
Proof.
move=> h [s [_ hs hin ->]]; exists (List.map Z.of_nat s); split; first by rewrite List.map_map.
split; first by apply: inc_of_nat; rewrite map_id in hs.
move=> x; rewrite List.in_map_iff; split.
- case=> k [<- hk]; have {hk} hk : k \in s by elim: s hk {hs hin} => //= a s IH [->|/IH hk]; rewrite inE ?eqxx ?hk ?orbT.
  by move/hin/h: hk => [/ltP h1 h2]; split=> //; lia.
- case=> hx hq; exists (Z.to_nat x); split; first by rewrite Z2Nat.id; lia.
  have : Z.to_nat x \in s.
    by apply/hin/h; rewrite Z2Nat.id; [split=> //; apply/ltP; lia|lia].
  by elim: s {hs hin} => //= a s IH; rewrite inE => /orP[/eqP->|/IH]; [left|right].
Qed.
Lemma to_natural (m : Z) : (0 <= m)%coqZ -> exists p, m = Z.of_nat p. Proof. by move=> h; exists (Z.to_nat m); rewrite Z2Nat.id. Qed.
Lemma unit_iff p k : (1 < p)%N -> (exists y, ((Z.of_nat k * y) mod Z.of_nat p = 1)%coqZ) <-> Z.gcd (Z.of_nat p) (Z.of_nat k) = 1%coqZ.
Proof. by move=> h; rewrite -copP // /cop; split=> /Z.eqb_spec. Qed.

Lemma all_residues m : (1 <= m <= INT_MAX)%coqZ ->
  exists l, intmod_list m LIST_ALL = Ok (List.map (fun x => mkim x m) l) /\ residues m (fun _ => True) l.
Proof.
move=> hm; have [p e] : exists p, m = Z.of_nat p by apply: to_natural; lia.
subst m; have p0 : (0 < p)%N by apply/ltP; lia.
apply: bridge (C47_int_all p0 (proj2 hm)).
by move=> k; split=> [|[]].
Qed.
Lemma unit_residues m : (2 <= m <= INT_MAX)%coqZ ->
  exists l, intmod_list m LIST_UNITS = Ok (List.map (fun x => mkim x m) l) /\ residues m (fun r => Z.gcd m r = 1%coqZ) l.
Proof.
move=> hm; have [p e] : exists p, m = Z.of_nat p by apply: to_natural; lia.
have p1 : (1 < p)%N by apply/ltP; lia.
subst m; apply: bridge (C47_int_units p1 (proj2 hm)).
by move=> k; rewrite unit_iff.
Qed.
Lemma nonunit_residues m : (2 <= m <= INT_MAX)%coqZ ->
  exists l, intmod_list m LIST_NON_UNITS = Ok (List.map (fun x => mkim x m) l) /\ residues m (fun r => Z.gcd m r <> 1%coqZ) l.
Proof.
move=> hm; have [p e] : exists p, m = Z.of_nat p by apply: to_natural; lia.
have p1 : (1 < p)%N by apply/ltP; lia.
subst m; apply: bridge (C47_int_nonunits p1 (proj2 hm)).
by move=> k; rewrite unit_iff.
Qed.
Lemma multiple_residues m g : (1 <= m <= INT_MAX)%coqZ -> (0 <= g < m)%coqZ ->
  exists l, intmod_glist (mkim g m) LIST_MULTIPLES = Ok (List.map (fun x => mkim x m) l) /\ residues m (fun r => exists w, ((w * g) mod m = r)%coqZ) l.
Proof.
move=> hm hg; have [p e] : exists p, m = Z.of_nat p by apply: to_natural; lia.
have [k f] : exists k, g = Z.of_nat k by apply: to_natural; lia.
subst m g; have kp : (k < p)%N by apply/ltP; lia.
apply: bridge (C78_int_multiples kp (proj2 hm)).
by [].
Qed.
Lemma rel_prime_residues m g : (1 <= m <= INT_MAX)%coqZ -> (0 <= g < m)%coqZ ->
  exists l, intmod_glist (mkim g m) LIST_REL_PRIME = Ok (List.map (fun x => mkim x m) l) /\
    residues m (fun r => forall d, (0 <= d)%coqZ -> Z.divide d m -> Z.divide d g -> Z.divide d r -> d = 1%coqZ) l.
Proof.
move=> hm hg; have [p e] : exists p, m = Z.of_nat p by apply: to_natural; lia.
have [k f] : exists k, g = Z.of_nat k by apply: to_natural; lia.
subst m g; have kp : (k < p)%N by apply/ltP; lia.
apply: bridge (C78_int_rel_prime kp (proj2 hm)).
have dv a b : (a %| b)%N <-> Z.divide (Z.of_nat a) (Z.of_nat b).
  split; first by case/dvdnP=> q ->; exists (Z.of_nat q); rewrite mulnE; lia.
  move=> h; apply/dvdnP; case: a h => [|a] h.
    by exists 0%N; case: h => q; rewrite Z.mul_0_r; lia.
  case: h => q h; exists (Z.to_nat q); rewrite mulnE; nia.
move=> r; split; case=> h1 h2; split=> //.
- move=> d /to_natural[d' ->] /dv D1 /dv D2 /dv D3; by rewrite (h2 _ D1 D2 D3).
- move=> d /dv D1 /dv D2 /dv D3; have := h2 _ (Zle_0_nat d) D1 D2 D3; lia.
Qed.
