(* Tuples and projective points over GF(2)[x]/(m) and GF(p)[x]/(m). *)
From Verif Require Import Base MIntMath MIntmod MMat MF2Poly MF2Fac MFac MPoly MPolymod MPolyFac MList PIntMath PIntMath2 PIntmod PFacGen PF2Poly.
From mathcomp Require Import all_ssreflect all_algebra ssrZ finfield.
From Verif Require Import PMat PFp PPoly PPoly2 PPoly3 PBits3 PF2Poly2 PFpPoly PropFpPoly PropLinalg PList PList2 PList3 PList5 PList6.
From Verif Require PropFpPolymod PF2Tot.
Set Implicit Arguments.
Unset Strict Implicit.
Unset Printing Implicit Defensive.
Import GRing.Theory.
Delimit Scope Z_scope with coqZ.
Local Open Scope ring_scope.

(* S: the points of the projective space of dimension n over F[x]/(m), each by the
   representative whose last non-zero coordinate is 1 *)
Definition proj_points (F : fieldType) (m : {poly F}) (n : nat) (S : seq (seq {poly F})) : Prop :=
  uniq S /\
  (forall w, w \in S -> size w = n.+1 /\ (forall f, f \in w -> (size f < size m)%N) /\
     exists k, nth 0 w k = 1 /\ forall j, (k < j)%N -> nth 0 w j = 0) /\
  forall v : seq {poly F}, size v = n.+1 -> (forall f, f \in v -> (size f < size m)%N) -> (exists2 f, f \in v & f != 0) ->
    exists (w : seq {poly F}) (c : {poly F}), [/\ w \in S, c != 0, (size c < size m)%N, v = [seq (c * f) %% m | f <- w] &
      forall (w' : seq {poly F}) (c' : {poly F}), w' \in S -> (size c' < size m)%N -> v = [seq (c' * f) %% m | f <- w'] -> w' = w /\ c' = c].
(* S: all n-tuples of residues *)
Definition all_tuples (F : fieldType) (m : {poly F}) (n : nat) (S : seq (seq {poly F})) : Prop :=
  uniq S /\ forall v : seq {poly F}, v \in S <-> size v = n /\ forall f, f \in v -> (size f < size m)%N.

Lemma sum_fits q n : (1 < q)%N -> pow_fits (Z.of_nat q) (Z.of_nat n) -> (Z.of_nat (\sum_(k < n.+1) q ^ k)%N <= INT_MAX)%coqZ.
Proof.
move=> q1 hf; case: n hf => [|n] hf; first by rewrite big_ord_recl big_ord0 expn0.
have q2 : (2 <= Z.of_nat q)%coqZ by move/ltP: q1; clear; lia.
have [_ h] := fits_bound q2 (Zle_0_nat _) hf; have {}h := h (ltac:(lia)).
have hg := ltP (geo_lt n.+1 q1); move: h; rewrite -[1%coqZ]/(Z.of_nat 1) -Nat2Z.inj_add -Zpow_of_nat plusE addn1.
by move: hg; clear; move: (\sum_(k < n.+2) q ^ k)%N (q ^ n.+2)%N => a b; lia.
Qed.

Section G.
Variables (F : fieldType) (m : {poly F}) (s : seq {poly F}).
Hypotheses (us : uniq s) (hs : forall f, (f \in s) = (size f < size m)%N) (m1 : (1 < size m)%N).
Let s0 : (0 < size s)%N. Proof. by have : 0 \in s; [rewrite hs size_poly0 ltnW|case: (s)]. Qed.
Lemma tups_all n : all_tuples m n (tups 0 s n).
Proof.
split; first exact: tups_uniq.
move=> v; rewrite mem_tups //; split=> [/andP [/eqP h1 /allP h2]|[-> h2]].
  by split=> // f hf; rewrite -hs; exact: h2.
by rewrite eqxx /=; apply/allP => f hf; rewrite /= hs h2.
Qed.
Lemma pts_all n : irreducible_poly m -> proj_points m n (pts 0 s 0 1 n).
Proof.
move=> mi; have hz : 0 \in s by rewrite hs size_poly0 ltnW.
have ho : 1 \in s by rewrite hs size_poly1.
split; first by apply: pts_uniq => //; exact: oner_neq0.
split=> [w|v sv av [f hf f0]].
  rewrite mem_pts // => /and3P [/eqP h1 /allP h2 /existsP [[k hk] /= h3]]; split=> //; split=> [f hf|].
    by rewrite -hs; exact: h2.
  by exists k; apply/(drop_pt h1 hk).
have [|| w [c [h1 [h2 h3] h4 h5]]] := proj_ok mi hs sv; last by exists w, c; split.
  by apply/allP => g hg; exact: av.
by apply/hasP; exists f.
Qed.
End G.

Section F2.
Variable m : {poly 'F_2}.
Hypothesis m1 : (1 < size m)%N.
Let m0 : m != 0. Proof. by rewrite -size_poly_gt0 ltnW. Qed.
Local Notation d := (size m).-1.
Let q2 : (2 <= Z.of_nat (2 ^ d)%N)%coqZ.
Proof.
have : (2 ^ 1 <= 2 ^ d)%N by rewrite leq_exp2l // -ltnS prednK // ltnW.
by move/leP; move: (2 ^ d)%N => x; clear; lia.
Qed.
Let q1 : (1 < 2 ^ d)%N. Proof. by apply/ltP; move: q2; clear; lia. Qed.
Lemma f2_all : (Z.of_nat d <= 30)%coqZ -> exists s : seq {poly 'F_2},
  [/\ uniq s, forall f, (f \in s) = (size f < size m)%N, size s = (2 ^ d)%N & f2_polymod_list None (f2_enc m) LIST_ALL = Ok [seq f2_menc m f | f <- s]].
Proof.
move=> hd; have [|s [h1 h2 h3]] := @f2_polymod_list_ok m m0 None LIST_ALL hd; first by left.
have us := sorted_num_uniq f2_num_inj h1.
have h2' f : (f \in s) = (size f < size m)%N by rewrite h2 andbT.
have sz : size s = (2 ^ d)%N.
  rewrite (count_rV (F := [finFieldType of 'F_2]) (n := d) (P := xpredT) us).
    by rewrite -f2_card_row cardsE; apply: eq_card => v; rewrite !inE.
  by move=> f; rewrite h2' andbT; move: m1; case: (size m).
by exists s; split=> //; rewrite h3 sz ltnW.
Qed.
Lemma f2_An_ok n : (Z.of_nat d <= 30)%coqZ -> (0 < n)%N -> (Z.of_nat n <= INT_MAX)%coqZ ->
  if pow_fits (2 ^ Z.of_nat d) (Z.of_nat n)
  then exists S, all_tuples m n S /\ f2_polymod_An_list (f2_enc m) (Z.of_nat n) = Ok (mkmat [seq [seq f2_menc m f | f <- v] | v <- S] n)
  else f2_polymod_An_list (f2_enc m) (Z.of_nat n) = UB.
Proof.
move=> hd n0 hn; rewrite /f2_polymod_An_list (degree_thm (encW m)) bind_ok PF2Tot.ishl1_ok // bind_ok pow_nat //.
rewrite -PF2Tot.Zpow_nat; case hf : (pow_fits _ _) => //.
have [s [us hs sz e]] := f2_all hd.
exists (tups 0 s n); split; first exact: tups_all.
have [hb _] := fits_bound q2 (Zle_0_nat _) hf; rewrite -Zpow_of_nat in hb.
rewrite bind_ok (_ : ((_ <=? 0) || _)%coqZ = false); last first.
  have hp : (0 < (2 ^ d) ^ n)%N by rewrite expn_gt0 ltnW.
  by move/ltP: hp; move/ltP: n0; clear; move: ((2 ^ d) ^ n)%N => x; lia.
rewrite e bind_ok -sz (An_ok 0) ?sz //; first by rewrite ltnW.
by have := PF2Tot.pow30 hd; rewrite /INT_MAX; clear; lia.
Qed.
Lemma f2_Pn_ok n : irreducible_poly m -> (Z.of_nat d <= 30)%coqZ -> (Z.of_nat n <= INT_MAX)%coqZ ->
  pow_fits (2 ^ Z.of_nat d) (Z.of_nat n) ->
  exists S, proj_points m n S /\ f2_polymod_Pn_list (f2_enc m) (Z.of_nat n) = Ok (mkmat [seq [seq f2_menc m f | f <- v] | v <- S] n.+1).
Proof.
move=> mi hd hn; rewrite -PF2Tot.Zpow_nat => hf.
have [s [us hs sz e]] := f2_all hd.
exists (pts 0 s 0 1 n); split; first exact: pts_all.
rewrite /f2_polymod_Pn_list (degree_thm (encW m)) bind_ok PF2Tot.ishl1_ok // bind_ok e bind_ok.
rewrite /pm_prime_subfield_element (f2_encE isP0) (f2_encE isP1) !f2_store_ok // !bind_ok.
have -> : (Z.of_nat n <? 0)%coqZ = false by clear; lia.
rewrite Nat2Z.id -sz (Pn_rows_ok 0) ?sz //; first by rewrite ltnW.
- by have := PF2Tot.pow30 hd; rewrite /INT_MAX; clear; lia.
- move=> k hk; rewrite pow_nat; last by move/leP: hk; move: hn; clear; lia.
  by rewrite (fits_mono q2 _ hf) //; move/leP: hk; clear; lia.
exact: sum_fits.
Qed.
End F2.

Section Fp.
Variable p : nat.
Hypothesis pp : prime p.
Hypothesis hP : (Z.of_nat p <= 46341)%coqZ.
Variable c : cache.
Hypothesis hc : cache_valid c.
Variable m : {poly 'F_p}.
Hypothesis m1 : (1 < size m)%N.
Hypothesis hm : (Z.of_nat (size m) <= INT_MAX)%coqZ.
Local Notation F := (Fp_finFieldType p).
Let m0 : m != 0. Proof. by rewrite -size_poly_gt0 ltnW. Qed.
Local Notation d := (size m).-1.
Local Notation menc := (PropFpPolymod.fp_menc m).
Let q1 : (1 < p ^ d)%N.
Proof.
have h : (p ^ 1 <= p ^ d)%N by rewrite leq_exp2l ?prime_gt1 // -ltnS prednK // ltnW.
by apply: leq_trans h; rewrite expn1 prime_gt1.
Qed.
Let q2 : (2 <= Z.of_nat (p ^ d)%N)%coqZ. Proof. by move/ltP: q1; move: (p ^ d)%N => x; clear; lia. Qed.
Let p2 : (2 <= Z.of_nat p)%coqZ. Proof. by move/ltP: (prime_gt1 pp); clear; lia. Qed.
Lemma fp_all : pow_fits (Z.of_nat p) (Z.of_nat d) -> exists s : seq {poly 'F_p},
  [/\ uniq s, forall f, (f \in s) = (size f < size m)%N, size s = (p ^ d)%N & fp_polymod_list c (@fp_enc p m) LIST_ALL = Ok [seq menc f | f <- s]].
Proof.
move=> hd; have [|s [h1 h2 h3]] := @fp_polymod_list_ok p pp hP c hc m m0 LIST_ALL hm; first by left.
have us := sorted_num_uniq (C58_num_injective pp hP hc) h1.
have h2' f : (f \in s) = (size f < size m)%N by rewrite h2 andbT.
have sz : size s = (p ^ d)%N.
  rewrite (count_rV (F := F) (n := d) (P := xpredT) us).
    by rewrite -(fp_card_row pp) cardsE; apply: eq_card => v; rewrite !inE.
  by move=> f; rewrite h2' andbT; move: m1; case: (size m).
by exists s; split=> //; rewrite h3 sz ltnW.
Qed.
Lemma fp_An_ok n : pow_fits (Z.of_nat p) (Z.of_nat d) -> (0 < n)%N -> (Z.of_nat n <= INT_MAX)%coqZ ->
  if pow_fits (Z.of_nat p ^ Z.of_nat d) (Z.of_nat n)
  then exists S, all_tuples m n S /\ fp_polymod_An_list c (@fp_enc p m) (Z.of_nat n) = Ok (mkmat [seq [seq menc f | f <- v] | v <- S] n)
  else fp_polymod_An_list c (@fp_enc p m) (Z.of_nat n) = UB.
Proof.
move=> hd n0 hn; rewrite /fp_polymod_An_list; have [c0 [-> hc0]] := fp_get0 pp m.
rewrite bind_ok hc0 (fp_deg pp) pow_nat; last by move: hm; clear; lia.
rewrite hd bind_ok pow_nat // -Zpow_of_nat; case hf : (pow_fits _ _) => //.
have [s [us hs sz e]] := fp_all hd.
exists (tups 0 s n); split; first exact: tups_all.
have [hb _] := fits_bound q2 (Zle_0_nat _) hf; rewrite -Zpow_of_nat in hb.
have [hb1 _] := fits_bound p2 (Zle_0_nat _) hd; rewrite -Zpow_of_nat in hb1.
rewrite bind_ok (_ : ((_ <=? 0) || _)%coqZ = false); last first.
  have hp : (0 < (p ^ d) ^ n)%N by rewrite expn_gt0 ltnW.
  by move/ltP: hp; move/ltP: n0; clear; move: ((p ^ d) ^ n)%N => x; lia.
by rewrite e bind_ok -sz (An_ok 0) ?sz // ltnW.
Qed.
Lemma fp_Pn_ok n : irreducible_poly m -> pow_fits (Z.of_nat p) (Z.of_nat d) -> (Z.of_nat n <= INT_MAX)%coqZ ->
  pow_fits (Z.of_nat p ^ Z.of_nat d) (Z.of_nat n) ->
  exists S, proj_points m n S /\ fp_polymod_Pn_list c (@fp_enc p m) (Z.of_nat n) = Ok (mkmat [seq [seq menc f | f <- v] | v <- S] n.+1).
Proof.
move=> mi hd hn; rewrite -Zpow_of_nat => hf.
have [s [us hs sz e]] := fp_all hd.
have [hb1 _] := fits_bound p2 (Zle_0_nat _) hd; rewrite -Zpow_of_nat in hb1.
exists (pts 0 s 0 1 n); split; first exact: pts_all.
rewrite /fp_polymod_Pn_list; have [c0 [-> hc0]] := fp_get0 pp m.
rewrite bind_ok hc0 (fp_deg pp) pow_nat; last by move: hm; clear; lia.
rewrite hd bind_ok e bind_ok.
have [//|_ ->] := PropFpPolymod.C35_int (conj pp (conj hP hc)) m0 0 (v := 0).
have [//|_ ->] := PropFpPolymod.C35_int (conj pp (conj hP hc)) m0 0 (v := 1).
rewrite !bind_ok (_ : (Z.of_nat n <? 0)%coqZ = false); last by clear; lia.
rewrite Nat2Z.id -sz (Pn_rows_ok 0) ?sz //; first by rewrite ltnW.
- move=> k hk; rewrite pow_nat; last by move/leP: hk; move: hn; clear; lia.
  by rewrite (fits_mono q2 _ hf) //; move/leP: hk; clear; lia.
exact: sum_fits.
Qed.
End Fp.
