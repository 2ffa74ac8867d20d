(* Listings of polynomials and of residue classes. *)
From Verif Require Import Base MIntMath MIntmod MMat MBits MF2Poly MPoly MPolymod MF2nPoly MList PF2Poly.
From mathcomp Require Import all_ssreflect all_algebra finalg finfield ssrZ.
From Verif Require Import PMat PPoly PPoly2 PPoly3 PList.
Set Implicit Arguments.
Unset Strict Implicit.
Unset Printing Implicit Defensive.
Import GRing.Theory.
Delimit Scope Z_scope with coqZ.
Local Open Scope ring_scope.

(* base-q values *)
Section Num.
Variables (F : ringType) (q : nat) (v : F -> nat).
Hypotheses (q0 : (0 < q)%N) (vq : forall c, (v c < q)%N) (v0 : forall c, (v c == 0)%N = (c == 0)) (v1 : v 1 = 1%N).
Definition numv (f : {poly F}) : nat := (\sum_(i < size f) v f`_i * q ^ i)%N.
Lemma sum_lt n (g : nat -> nat) : (forall i, (g i < q)%N) -> (\sum_(i < n) g i * q ^ i < q ^ n)%N.
Proof.
move=> hg; elim: n => [|n IH]; first by rewrite big_ord0 expn0.
rewrite big_ord_recr /= expnS; apply: leq_trans (_ : q ^ n + g n * q ^ n <= _)%N.
  by rewrite ltn_add2r.
by rewrite -mulSn leq_mul2r; apply/orP; right.
Qed.
Lemma numv_size f n : (numv f < q ^ n)%N = (size f <= n)%N.
Proof.
have [h|h] := leqP (size f) n.
  set b := (_ < _)%N; have -> // : b; rewrite /b {b}.
  apply: (@leq_trans (q ^ size f)%N); first by apply: (@sum_lt (size f) (fun i => v f`_i)).
  by rewrite leq_pexp2l.
apply/negbTE; rewrite -leqNgt /numv.
case e : (size f) h => [|k] //; rewrite ltnS => hk; rewrite big_ord_recr /=.
apply: leq_trans (leq_addl _ _); apply: (@leq_trans (q ^ k)%N); first by rewrite leq_pexp2l.
rewrite leq_pmull // lt0n v0; have -> : k = (size f).-1 by rewrite e.
by rewrite -/(lead_coef f) lead_coef_eq0 -size_poly_eq0 e.
Qed.
Lemma numv_Xn n : numv 'X^n = (q ^ n)%N.
Proof.
rewrite /numv size_polyXn big_ord_recr /= coefXn eqxx v1 mul1n big1 // => i _.
rewrite coefXn; have -> : (i == n :> nat) = false by apply/negbTE; rewrite neq_ltn ltn_ord.
by have /eqP -> : (v 0 == 0)%N by rewrite v0.
Qed.
Lemma numv_0 : numv 0 = 0%N. Proof. by rewrite /numv size_poly0 big_ord0. Qed.
End Num.

Lemma count_rV (F : finFieldType) n (P : pred {poly F}) (s : seq {poly F}) : uniq s ->
  (forall f, (f \in s) = (size f <= n)%N && P f) -> size s = #|[set v : 'rV[F]_n | P (rVpoly v)]|.
Proof.
move=> us hs; rewrite cardE -(size_map (@rVpoly F n)); apply/perm_size/uniq_perm => //.
  by rewrite map_inj_uniq ?enum_uniq //; exact: (can_inj (@rVpolyK F n)).
move=> f; rewrite hs; apply/andP/mapP => [[h1 h2]|[v]].
  by exists (poly_rV f); rewrite ?mem_enum ?inE poly_rV_K.
by rewrite mem_enum inE => hv ->; split=> //; exact: size_poly.
Qed.

Lemma new_vec_ok (E : Type) (d : E) n : (0 < n)%N -> exists rv, new_vec d (Z.of_nat n) = Ok rv /\ size rv = n.
Proof.
move=> h; rewrite /new_vec; have -> : (Z.of_nat n <=? 0)%coqZ = false by lia.
by eexists; split; first by []; rewrite Nat2Z.id -lengthE repeat_length.
Qed.
Lemma pmap_some (T E : Type) (f : T -> E) (P : pred T) s :
  pmap (fun x => if P x then Some (f x) else None) s = [seq f x | x <- s & P x].
Proof. by elim: s => //= x s ->; case: ifP. Qed.

(* all polynomials of degree below d that satisfy P, in increasing order *)
Section EnumRes.
Variables (F : finFieldType) (R E : Type) (enc : {poly F} -> R) (num : {poly F} -> nat) (ltb : R -> R -> res bool) (inc : R -> res R) (q : nat).
Hypothesis num_inj : injective num.
Hypothesis Hlt : forall f g, ltb (enc f) (enc g) = Ok (num f < num g)%N.
Hypothesis Hinc : forall f, exists g, inc (enc f) = Ok (enc g) /\ num g = (num f).+1.
Hypothesis num_size : forall f n, (num f < q ^ n)%N = (size f <= n)%N.
Hypothesis num_Xn : forall n, num 'X^n = (q ^ n)%N.
Hypothesis num_0 : num 0 = 0%N.
Lemma iota_sub (T : eqType) (f : T -> nat) (P : pred T) s a b : [seq f x | x <- s] = iota a b -> sorted ltn [seq f x | x <- s & P x].
Proof.
move=> e; apply: (subseq_sorted ltn_trans (map_subseq f (filter_subseq P s))); rewrite e; exact: iota_ltn_sorted.
Qed.
Lemma sorted_num_uniq s : sorted ltn [seq num f | f <- s] -> uniq s.
Proof. by move/(sorted_uniq ltn_trans ltnn); rewrite (map_inj_uniq num_inj). Qed.
Lemma enum_res (P : pred {poly F}) (st : {poly F} -> E) sel d rv :
  (forall f : {poly F}, (size f <= d)%N -> sel (enc f) = Ok (if P f then Some (st f) else None)) -> exists s : seq {poly F},
  [/\ sorted ltn [seq num f | f <- s], forall f, (f \in s) = (size f <= d)%N && P f,
      size s = #|[set v : 'rV[F]_d | P (rVpoly v)]| &
    MList.enum ltb inc (S (q ^ d)) (enc 0) (enc 'X^d) sel rv =
      if (size s <= size rv)%N then Ok ([seq st f | f <- s] ++ drop (size s) rv, size s) else Exn].
Proof.
move=> hsel.
have hs f : (num f < num 'X^d)%N -> sel (enc f) = Ok (if P f then Some (st f) else None).
  by rewrite num_Xn num_size; exact: hsel.
have [|s [es us ms he]] := @enum_ok _ _ _ enc num ltb inc (num 'X^d) num_inj Hlt (fun f _ => Hinc f)
  sel (fun f => if P f then Some (st f) else None) 'X^d (leqnn _) hs (S (q ^ d)) 0 rv.
  by rewrite num_0 subn0 num_Xn.
have hm f : (f \in filter P s) = (size f <= d)%N && P f by rewrite mem_filter ms num_0 /= num_Xn num_size andbC.
exists (filter P s); split=> //; first exact: iota_sub es.
  by rewrite (count_rV (filter_uniq _ us) hm).
by rewrite he pmap_some /= !size_map.
Qed.
End EnumRes.

Section Gp.
Variables (A : Type) (o : kops A) (F : finFieldType) (V : A -> Prop) (I : A -> F) (kv : A -> nat).
Hypothesis spec : kspec o V I kv.
Local Notation R := (R V I).
Local Notation isG := (isG V I).
Variables (enc : {poly F} -> list A) (num : {poly F} -> nat).
Hypotheses (encG : forall f, isG (enc f) f) (Genc : forall l f, isG l f -> l = enc f).
Let q := #|F|.
Hypothesis num_inj : injective num.
Hypothesis Hlt : forall f g, gp_ltb o (enc f) (enc g) = Ok (num f < num g)%N.
Hypothesis Hinc : forall f, exists g, gp_increment o (enc f) = Ok (enc g) /\ num g = (num f).+1.
Hypothesis num_size : forall f n, (num f < q ^ n)%N = (size f <= n)%N.
Hypothesis num_Xn : forall n, num 'X^n = (q ^ n)%N.
Hypothesis num_0 : num 0 = 0%N.

Variables (zero one : A).
Hypotheses (hz : R zero 0) (ho : R one 1).
Lemma const0 : gp_const o zero = Ok (enc 0).
Proof. by have [l [-> hl]] := const_ok spec hz; rewrite polyC0 in hl; rewrite (Genc hl). Qed.
Lemma setX n : gp_set_coeff o (enc 0) (Z.of_nat n) one = Ok (enc 'X^n).
Proof.
have [r [-> hr]] := set_coeff_ok spec n (encG 0) ho.
by move: hr; rewrite coef0 subr0 scale1r add0r => /Genc ->.
Qed.
Lemma gp_list_ok deg : (Z.of_nat deg < INT_MAX)%coqZ -> exists s : seq {poly F},
  [/\ sorted ltn [seq num f | f <- s], forall f, (f \in s) = (size f == deg.+1),
      size s = ((q - 1) * q ^ deg)%N & gp_list o zero one (Z.of_nat deg) (Z.of_nat ((q - 1) * q ^ deg)%N) = Ok [seq enc f | f <- s]].
Proof.
move=> hd; have q1 : (1 < q)%N by exact: finRing_gt1.
have nq : (0 < (q - 1) * q ^ deg)%N by rewrite muln_gt0 subn_gt0 q1 expn_gt0 ltnW.
have [rv [erv srv]] := new_vec_ok [:: k_dflt o] nq.
have [|s [es us ms hs]] := @enum_ok _ _ _ enc num (gp_ltb o) (gp_increment o) (num 'X^deg.+1) num_inj Hlt (fun f _ => Hinc f)
  (fun r => Ok (Some r)) (fun f => Some (enc f)) 'X^deg.+1 (leqnn _) (fun f _ => erefl) (Z.to_nat (Z.of_nat ((q - 1) * q ^ deg)%N)).+1 'X^deg rv.
  by rewrite !num_Xn Nat2Z.id expnS mulnBl mul1n.
have sz : size s = ((q - 1) * q ^ deg)%N by rewrite -(size_map num) es size_iota !num_Xn expnS mulnBl mul1n.
exists s; split=> //.
    by rewrite es; exact: iota_ltn_sorted.
  by move=> f; rewrite ms num_Xn num_Xn leqNgt !num_size -ltnNge andbC eqn_leq.
rewrite /gp_list erv const0 !bind_ok setX bind_ok /iadd chk_ok; last by rewrite /INT_MIN; lia.
rewrite bind_ok (_ : Z.of_nat deg + 1 = Z.of_nat deg.+1)%coqZ; last by lia.
rewrite setX bind_ok hs /=.
have -> : pmap (fun f => Some (enc f)) s = [seq enc f | f <- s] by elim: (s) => //= x t ->.
by rewrite size_map sz srv leqnn bind_ok drop_oversize ?srv // cats0.
Qed.

Variable m : {poly F}.
Hypothesis m0 : m != 0.
Let menc f := mkgm (enc (f %% m)) (enc m).
Lemma store_ok f : gm_make o (enc f) (enc m) = Ok (menc f).
Proof. by rewrite /gm_make; have [r [-> hr]] := mod_ok spec (encG f) (encG m) m0; rewrite bind_ok (Genc hr). Qed.
Lemma unit_ok f : (g <- gp_gcd o (enc f) (enc m) ;; gp_unit_gcd o g zero) = Ok (coprimep m f).
Proof.
have [r [d [-> [hr hg]]]] := gcd_ok spec (encG f) (encG m); rewrite bind_ok /gp_unit_gcd.
have sd : (size d == 1%N) = coprimep m f by rewrite coprimep_sym coprimep_def (eqp_size hg).
have d0 : d != 0.
  apply: contraNneq m0 => d0; move: hg; rewrite d0 eqp_sym eqp0 gcdp_eq0 => /andP [_] //.
rewrite /gp_degree lengthE (isG_size hr) -sd eqbE (maxn_idPr _) ?size_poly_gt0 //.
case: (size d) (size_poly_eq0 d) d0 => [|[|k]] //= e d0.
  by move: d0; rewrite -e.
by have [l [-> hl]] := const_ok spec hz; rewrite bind_ok (neqb_ok spec hr hl) polyC0 d0.
Qed.
Definition lpred (ty : sp_list_type) (f : {poly F}) : bool :=
  match ty with LIST_UNITS => coprimep m f | LIST_NON_UNITS => ~~ coprimep m f | _ => true end.
Lemma res_gen (P : pred {poly F}) sel dfl nel : (forall f, sel (enc f) = Ok (if P f then Some (menc f) else None)) ->
  let cnt := #|[set v : 'rV[F]_(size m).-1 | P (rVpoly v)]| in
  nel = Z.of_nat cnt -> exists s : seq {poly F},
  [/\ sorted ltn [seq num f | f <- s], forall f, (f \in s) = (size f < size m)%N && P f, size s = cnt &
    (rv <- new_vec dfl nel ;;
     min <- gp_const o zero ;; max <- gp_const o zero ;;
     max <- gp_set_coeff o max (Z.of_nat (size m).-1) one ;;
     '(rv, _) <- MList.enum (gp_ltb o) (gp_increment o) (S (q ^ (size m).-1)) min max sel rv ;;
     Ok rv) = if (0 < cnt)%N then Ok [seq menc f | f <- s] else Exn].
Proof.
move=> hsel cnt ->; set d := (size m).-1.
have dm : size m = d.+1 by rewrite prednK // size_poly_gt0.
have H rv := enum_res num_inj Hlt Hinc num_size num_Xn num_0 rv (fun (f : {poly F}) (_ : (size f <= d)%N) => hsel f).
case: (posnP cnt) => hc.
  have [s [us ms sz _]] := H [::]; exists s.
  split=> //; first by move=> f; rewrite ms dm.
  by rewrite hc.
have [rv [erv srv]] := new_vec_ok dfl hc; have [s [us ms sz hs]] := H rv.
exists s; split=> //; first by move=> f; rewrite ms dm.
rewrite erv const0 !bind_ok setX bind_ok hs sz srv leqnn bind_ok drop_oversize ?srv //.
by rewrite cats0.
Qed.
Lemma gp_res_ok ty nel : let cnt := #|[set v : 'rV[F]_(size m).-1 | lpred ty (rVpoly v)]| in
  nel = Z.of_nat cnt -> exists s : seq {poly F},
  [/\ sorted ltn [seq num f | f <- s], forall f, (f \in s) = (size f < size m)%N && lpred ty f, size s = cnt &
    gp_residues o (enc m) zero one (size m).-1 (q ^ (size m).-1) nel ty = if (0 < cnt)%N then Ok [seq menc f | f <- s] else Exn].
Proof.
have hu f : exists g, gp_gcd o (enc f) (enc m) = Ok g /\ gp_unit_gcd o g zero = Ok (coprimep m f).
  by have := unit_ok f; case: (gp_gcd _ _ _) => // g e; exists g.
case: ty => cnt e.
- by apply: (@res_gen xpredT (fun r => x <- gm_make o r (enc m) ;; Ok (Some x))) => // f; rewrite store_ok.
- apply: (@res_gen (coprimep m) (fun r => g <- gp_gcd o r (enc m) ;; u <- gp_unit_gcd o g zero ;;
    if u : bool then x <- gm_make o r (enc m) ;; Ok (Some x) else Ok None)) => // f.
  by have [g [-> e2]] := hu f; rewrite bind_ok e2 bind_ok store_ok bind_ok; case: coprimep.
- apply: (@res_gen (fun f => ~~ coprimep m f) (fun r => g <- gp_gcd o r (enc m) ;; u <- gp_unit_gcd o g zero ;;
    if u : bool then Ok None else x <- gm_make o r (enc m) ;; Ok (Some x))) => // f.
  by have [g [-> e2]] := hu f; rewrite bind_ok e2 bind_ok store_ok bind_ok; case: coprimep.
- by apply: (@res_gen xpredT (fun r => x <- gm_make o r (enc m) ;; Ok (Some x))) => // f; rewrite store_ok.
by apply: (@res_gen xpredT (fun r => x <- gm_make o r (enc m) ;; Ok (Some x))) => // f; rewrite store_ok.
Qed.
End Gp.
