(* The reductions of rational polynomials (MCyclo, qff.cpp). *)
From Verif Require Import Base MIntMath MIntmod MIntrat MMat MF2Poly MPoly MF2nPoly MCyclo PIntMath PIntmod PIntrat.
From mathcomp Require Import all_ssreflect all_algebra ssrZ zify.
From Verif Require Import PMat PFp PPoly PPoly2 PPoly3 PPoly4 PFpPoly PQPoly PQPoly2 PCyclo.
Require Import Lia.
Set Implicit Arguments.
Unset Strict Implicit.
Unset Printing Implicit Defensive.
Import GRing.Theory ListNotations Num.Theory.
Delimit Scope Z_scope with coqZ.
Local Open Scope ring_scope.

Lemma get_ok (q : qpoly) k : (k < size q)%N -> gp_get_coeff q_kops q (Z.of_nat k) = Ok (nth rat_default q k).
Proof.
move=> h; rewrite /gp_get_coeff /gp_degree lengthE minusE.
have -> : Z.ltb (Z.of_nat k) 0 = false by clear; lia.
have -> : Z.ltb (Z.of_nat (size q - 1)) (Z.of_nat k) = false by clear - h; lia.
by rewrite Nat2Z.id /getk (nth_error_nth' rat_default).
Qed.
Lemma F2_of_nth (T U : Type) (P : T -> U -> Prop) x0 y0 (l : seq T) (s : seq U) : size l = size s ->
  (forall i, (i < size s)%N -> P (nth x0 l i) (nth y0 s i)) -> Forall2 P l s.
Proof.
elim: l s => [|x l IH] [|y s] //= [e] h; constructor; first exact: (h 0%N).
by apply: IH => // i hi; exact: (h i.+1).
Qed.
Lemma F2_nth (T U : Type) (P : T -> U -> Prop) x0 y0 (l : seq T) (s : seq U) i : Forall2 P l s ->
  (i < size s)%N -> P (nth x0 l i) (nth y0 s i).
Proof. by move=> h; elim: h i => [|x y l' s' h0 _ IH] [|i] //= hi; exact: IH. Qed.
Lemma F2_sz (T U : Type) (P : T -> U -> Prop) (l : seq T) (s : seq U) : Forall2 P l s -> size l = size s.
Proof. by elim=> //= x y l' s' _ _ ->. Qed.

Section Fill.
Variables (A : Type) (o : kops A) (V : A -> Prop).
Hypothesis dflt : forall z, V z -> exists z1, k_int o (k_dflt o) 0 = Ok z1 /\ c_eqb (k_c o) z z1 = Ok false.
Variable conv : intrat -> res A.
Definition fbody (q : qpoly) (i : nat) (rv : list A) : res (list A) :=
  (x <- gp_get_coeff q_kops q (Z.of_nat (gp_degree q - i)) ;; b <- conv x ;;
   gp_set_coeff o rv (Z.of_nat (gp_degree q - i)) b)%res.
Definition fill (q : qpoly) : res (list A) := for_up (List.length q) 0 (fbody q) [k_dflt o].
Definition fails (r : res A) (r' : res (list A)) : Prop := (r = UB /\ r' = UB) \/ (r = Exn /\ r' = Exn) \/ (r = Div /\ r' = Div).

Lemma fill_ok (q : qpoly) : (0 < size q)%N ->
  (forall i y, (i < size q)%N -> conv (nth rat_default q i) = Ok y -> V y) ->
  (exists2 i, (i < size q)%N & fails (conv (nth rat_default q i)) (fill q)) \/
  exists r, fill q = Ok r /\ Forall2 (fun x y => conv x = Ok y) q r.
Proof.
move=> q0 cv; rewrite /fill lengthE; set body := fbody q; set d := (size q).-1.
have dE : gp_degree q = d by rewrite /gp_degree lengthE minusE subn1.
pose ub r := exists2 i, (i < size q)%N & fails (conv (nth rat_default q i)) r.
pose Inv i rv := if i == 0%N then rv = [:: k_dflt o] else
  [/\ size rv = size q, ((i <= d)%N -> nth (k_dflt o) rv 0 = k_dflt o) & forall j, (d < j + i)%N -> (j <= d)%N -> conv (nth rat_default q j) = Ok (nth (k_dflt o) rv j)].
have step k rv : (0 <= k < 0 + size q)%N -> Inv k rv -> ub (body k rv) \/ exists rv', body k rv = Ok rv' /\ Inv k.+1 rv'.
  rewrite leq0n add0n /= => hk hI; rewrite /body /fbody dE.
  have hdk : (d - k < size q)%N by rewrite /d; clear - hk; lia.
  rewrite get_ok // bind_ok.
  have [[y hy]|nok] : (exists y, conv (nth rat_default q (d - k)) = Ok y) \/ fails (conv (nth rat_default q (d - k))) (b <- conv (nth rat_default q (d - k)) ;; gp_set_coeff o rv (Z.of_nat (d - k)) b)%res.
    by rewrite /fails; case: (conv _) => [y| | |]; [left; exists y|right; right; left|right; left|right; right; right].
    2: by left; exists (d - k)%N.
  have [z1 [ez1 ez2]] := dflt (cv _ _ hdk hy).
  rewrite hy bind_ok; right.
  rewrite /gp_set_coeff; have -> : Z.ltb (Z.of_nat (d - k)) 0 = false by clear; lia.
  rewrite Nat2Z.id.
  move: hI; rewrite /Inv; case: eqP => [k0 ->|k0 [szr h0 hR]].
    rewrite /= ez1 bind_ok k0 subn0 /gp_degree /=; have [d0|d0] := posnP d.
      rewrite d0 /= ez2 bind_ok /=; eexists; split; first by [].
      split=> [||j hj1 hj2].
      - by move: d0 q0; rewrite /d /=; clear; lia.
      - by move=> h; exfalso; clear - h d0 k0; lia.
      - have -> : j = 0%N by clear - hj2 d0; lia.
        by move: hy; rewrite k0 d0.
    have -> : Nat.ltb 0 d = true by apply/Nat.ltb_lt; clear - d0; lia.
    rewrite ez2 bind_ok; eexists; split; first by [].
    have szr : size (k_dflt o :: (List.repeat z1 (d - 1) ++ [:: y])) = size q.
      by rewrite /= size_cat size_repeat /= /d; clear - d0; rewrite /d in d0; lia.
    split=> //= j hj1 hj2; have -> : j = d by clear - hj1 hj2; lia.
    move: hy; rewrite k0 subn0; case: (d) d0 => [//|e] _ ->.
    have -> : (e.+1 - 1)%coq_nat = e by clear; lia.
    by rewrite /= nth_cat size_repeat ltnn subnn.
  have rv0 : getk rv 0 = Ok (k_dflt o).
    by rewrite /getk (nth_error_nth' (k_dflt o)) ?szr // h0 //; rewrite /d; clear - hk; lia.
  rewrite rv0 bind_ok ez1 bind_ok /gp_degree lengthE szr minusE subn1 -/d.
  have -> : Nat.ltb d (d - k) = false by apply/Nat.ltb_ge; clear; lia.
  have -> : setk rv (d - k) y = Ok (upd rv (d - k) y).
    by rewrite /setk lengthE szr; case: Nat.ltb_spec => // h; exfalso; clear - h hdk; lia.
  rewrite bind_ok; have -> : Nat.eqb (d - k) d = false.
    by apply/Nat.eqb_neq; move: hk k0; rewrite /d; clear; lia.
  eexists; split; first by []; split; first by rewrite size_upd.
    move=> hk1; rewrite nth_upd h0; last by clear - hk1; lia.
    by case: eqP => // e; exfalso; clear - e hk1; lia.
  move=> j hj1 hj2; rewrite nth_upd szr hdk andbT; case: eqP => [->//|ne].
  by apply: hR => //; clear - hj1 hj2 ne; lia.
have main n i rv : (i + n = size q)%N -> Inv i rv -> ub (for_up n i body rv) \/ exists r, for_up n i body rv = Ok r /\ Inv (size q) r.
  elim: n i rv => [|n IH] i rv e hI /=; first by right; exists rv; rewrite -e addn0.
  have [|[j hj u]|[r [-> hr]]] := step i rv _ hI; first by clear - e; lia.
    left; exists j => //.
    by case: u => [[e1 ->]|[[e1 ->]|[e1 ->]]]; [left|right; left|right; right].
  by rewrite bind_ok; apply: IH => //; rewrite -e addSnnS.
have [//|h|[r [er hr]]] := main (size q) 0%N [:: k_dflt o] (add0n _); [by left|right].
exists r; split=> //; move: hr; rewrite /Inv; case: eqP => [e|_ [szr _ hR]]; first by move: q0; rewrite e.
apply: (@F2_of_nth _ _ _ rat_default (k_dflt o)); first by rewrite szr.
by move=> j; rewrite szr => hj; apply: hR; move: hj; rewrite /d; clear; lia.
Qed.
End Fill.
