(* Divisors of polynomials over a field, from their factorization records. *)
From Verif Require Import Base MIntMath MFac PFacGen.
From Coq Require Import Permutation.
From mathcomp Require Import all_ssreflect all_algebra ssrZ zify.
From Verif Require Import PFacPoly.
Set Implicit Arguments.
Unset Strict Implicit.
Unset Printing Implicit Defensive.
Import GRing.Theory.
Delimit Scope Z_scope with coqZ.
Local Open Scope ring_scope.
Local Notation length := List.length.

Section Div.
Variables (K : fieldType) (A : Type) (O : fops A) (V : A -> Prop) (I : A -> {poly K}).
Hypothesis FS : fac_spec O V I *%R 1 (fun _ => True).
Local Notation mdv := (PFacGen.mdiv (M := {poly K}) *%R).
Lemma mdvP (x y : {poly K}) : mdv x y <-> x %| y.
Proof.
split=> [[z ->]|/dvdpP[z ->]]; first exact: dvdp_mulr.
by exists z; rewrite mulrC.
Qed.
Lemma irr_prime (p : {poly K}) : irreducible_poly p -> PFacGen.prime_elt *%R 1 p.
Proof.
move=> hp; have p0 : p != 0 by rewrite -size_poly_gt0; apply: ltnW; case: hp.
split.
- by move=> a b /(mulfI p0).
- by move/mdvP; rewrite dvdp1 => /eqP h; case: hp; rewrite h.
- move=> a b /mdvP h; have [ha|ha] := boolP (p %| a); first by left; apply/mdvP.
  suff hc : coprimep p a by right; apply/mdvP; rewrite -(Gauss_dvdpr b hc).
  rewrite /coprimep; case: (eqVneq (size (gcdp p a)) 1%N) => [//|h1]; exfalso.
  have h2 : gcdp p a %= p by case: hp => _ /(_ (gcdp p a)); apply=> //; exact: dvdp_gcdl.
  by move: ha; rewrite -(eqp_dvdl _ h2) dvdp_gcdr.
Qed.
(* the entries of a record: distinct monic irreducible polynomials *)
Definition good (l : list (A * Z)) : Prop :=
  List.Forall (fun e => [/\ V e.1, irreducible_poly (I e.1), I e.1 \is monic, regular O V I 1 e.1 & (1 <= e.2 < INT_MAX)%coqZ]) l /\
  List.NoDup (List.map (fun e => I e.1) l).
Lemma good_cons e l : good (e :: l) -> good l.
Proof. by move=> [h1 h2]; inversion h1; inversion h2; split. Qed.
Lemma good_indep l : good l -> indep *%R 1 (keys I l).
Proof.
elim: l => [|e l IH] // h; have hl := good_cons h; case: h => h1 h2; inversion h1 as [|x1 x2 [he1 he2 he3 _ _] x4 x5]; inversion h2; subst.
split; first exact: irr_prime; split; last exact: IH.
move=> y hy /mdvP hd; have [e' [ey he']] := proj1 (List.in_map_iff _ _ _) hy.
have hf := proj1 (List.Forall_forall _ _) x4; have [_ hi hm _ _] := hf _ he'; rewrite -ey in hd hy.
case: hi => hs hh; have : I e.1 %= I e'.1 by apply: hh => //; rewrite neq_ltn; case: he2 => ->; rewrite orbT.
by rewrite eqp_monic // => /eqP h3; apply: H2; rewrite h3.
Qed.
Lemma vval_monic l v : good l -> vval *%R 1 (keys I l) v \is monic.
Proof.
elim: l v => [|e l IH] [|k v] h /=; try exact: monic1.
have hl := good_cons h; case: h => h1 _; inversion h1 as [|x1 x2 [he1 he2 he3 _ _] x4 x5]; subst.
by rewrite mpowE rpredM ?rpredX ?IH.
Qed.
Lemma monic_inv (u d m : {poly K}) : d \is monic -> m \is monic -> PFacGen.inv_elt *%R 1 u -> m = u * d -> m = d.
Proof.
move=> hd hm /mdvP; rewrite dvdp1 => hu e; apply/eqP; rewrite -eqp_monic // e.
by rewrite -[X in _ %= X]mul1r eqp_mul2r ?monic_neq0 // -size_poly_eq1.
Qed.
Lemma divisors_gen f one_ : V one_ -> I one_ = 1 -> good (facs f) -> (facs f = [::] -> funit f <> None) ->
  (ndiv (facs f) <= INT_MAX)%coqZ ->
  exists ds, [/\ get_all_divisors O f one_ = Ok ds, sorted_le O ds /\ List.NoDup ds, List.Forall V ds &
    forall d, List.In d (List.map I ds) <-> d \is monic /\ d %| fprod I (facs f)].
Proof.
move=> ho io hg hne hn; have hi := good_indep hg; case: (hg) => hf _.
have e1 : entries_ok V (facs f) by apply: List.Forall_impl hf => e [h1 _ _ _ h2]; split=> //; lia.
have e2 : List.Forall (fun p => regular O V I 1 (fst p)) (facs f) by apply: List.Forall_impl hf => e [].
have e3 : List.Forall (fun p => (snd p < INT_MAX)%coqZ) (facs f) by apply: List.Forall_impl hf => e [_ _ _ _]; lia.
have [ds [ds0 [L [E [hp [hs [hL [hLb h2]]]]]]]] := all_divisors_ok _ _ _ _ _ _ FS f one_ ho io e1 e2 e3 hne hn Logic.I.
have [ds' [E' [_ [hnd [_ [hin [_ hdiv]]]]]]] := all_divisors_prime _ _ _ _ _ _ FS f one_ ho io e1 e2 e3 hne hn Logic.I hi.
move: E'; rewrite E => -[e']; subst ds'; exists ds; split=> //.
  by apply/List.Forall_forall=> d /hin[].
have mon d : List.In d ds -> I d \is monic.
  move=> /(Permutation_in _ (Permutation_sym hp)) hd; clear - hd h2 hg.
  elim: h2 hd => [|v x l l' [_ e] _ IH] //= [<-|/IH //]; rewrite e; exact: vval_monic.
have lv : lval I *%R 1 (facs f) = fprod I (facs f) by exact: lval_fprod.
move=> d; split.
- by move=> /List.in_map_iff[x [<- hx]]; split; [exact: mon|apply/mdvP; rewrite -lv; case: (hin x hx)].
- move=> [hm /mdvP]; rewrite -lv => /hdiv[u [x [hx [hu hd]]]]; apply/List.in_map_iff; exists x; split=> //.
  exact/esym/(monic_inv (mon x hx) hm hu).
Qed.
Lemma maximal_gen f one_ : V one_ -> I one_ = 1 -> good (facs f) -> unit_ok V (funit f) -> facs f <> [::] ->
  (forall u, funit f = Some u -> size (I u) = 1%N) ->
  exists ds, [/\ get_maximal_proper_divisors O f one_ = Ok (Some ds), sorted_le O ds /\ List.NoDup ds, List.Forall V ds &
    forall d, List.In d (List.map I ds) <-> exists q, [/\ q \is monic, irreducible_poly q & q * d = uval I 1 (funit f) * fprod I (facs f)]].
Proof.
move=> ho io hg hu hne hu1; case: (hg) => hf hnd.
have e1 : List.Forall (fun p => V (fst p) /\ (1 <= snd p)%coqZ) (facs f) by apply: List.Forall_impl hf => e [h1 _ _ _ h2]; split=> //; lia.
have [ds [ds0 [E [hp [hs h2]]]]] := max_proper_divisors_ok _ _ _ _ _ _ FS f one_ ho io hu e1 hne Logic.I.
have lv : lval I *%R 1 (facs f) = fprod I (facs f) by exact: lval_fprod.
rewrite lv in h2; set m := _ * fprod _ _ in h2 *; exists ds.
have n0 : m != 0.
  rewrite mulf_neq0 //; first by case e : (funit f) => [u|] /=; rewrite ?oner_eq0 // -size_poly_gt0 (hu1 u e).
  rewrite /fprod; clear - hf; elim: hf => [|e l [_ [h _] _ _ _] _ IH]; rewrite ?big_nil ?oner_eq0 // big_cons mulf_neq0 // expf_neq0 //.
  by rewrite -size_poly_gt0; apply: ltnW.
split=> //.
- split=> //; apply: (Permutation_NoDup hp); clear - h2 hnd n0.
  elim: h2 hnd => [|e d l l' [_ h] h2 IH] hnd; first exact: List.NoDup_nil.
  inversion hnd; subst; constructor; last exact: IH.
  move=> hd; apply: H1; clear IH H2 hnd; elim: h2 hd => [|e' d' l1 l2 [_ h'] _ IH] //= [e1|hd]; last by right; exact: IH.
  left; subst d'; have d0 : I d != 0 by apply: contraNneq n0 => d0; rewrite -h d0 mulr0.
  by apply: (mulIf d0); rewrite h h'.
- apply/List.Forall_forall=> d /(Permutation_in _ (Permutation_sym hp)); clear - h2.
  by elim: h2 => [|e x l l' [h _] _ IH] //= [<-|/IH].
- move=> d; split.
  + move=> /List.in_map_iff[x [<- /(Permutation_in _ (Permutation_sym hp)) hx]]; clear - h2 hx hf.
    elim: h2 hf hx => [|e y l l' [_ h] _ IH] hf //=; inversion hf as [|x1 x2 [_ hi hm _ _] hl]; subst.
    by move=> [<-|/(IH hl) //]; exists (I e.1).
  + move=> [q [hm hq hd]]; have [e he hqe] : exists2 e, List.In e (facs f) & q = I e.1.
      have : q %| fprod I (facs f).
        have : q %| m by rewrite -hd dvdp_mulr.
        rewrite /m; case e : (funit f) => [u|] /=; last by rewrite mul1r.
        have eu : I u * fprod I (facs f) %= fprod I (facs f) by rewrite -[X in _ %= X]mul1r eqp_mulr // -size_poly_eq1 (hu1 u e).
        by rewrite (eqp_dvdr _ eu).
      clear - hf hm hq; rewrite /fprod; elim: hf => [|e l [_ hi hme _ _] _ IH]; first by rewrite big_nil dvdp1 => /eqP h; case: hq; rewrite h.
      rewrite big_cons => hdv; have [h1|h1] : q %| I e.1 ^+ Z.to_nat e.2 \/ q %| \prod_(j <- l) I j.1 ^+ Z.to_nat j.2.
        have [_ _ pr] := irr_prime hq; have := pr _ _ (proj2 (mdvP _ _) hdv); by move=> [/mdvP|/mdvP]; [left|right].
      * exists e; first by left.
        have h2 : q %| I e.1 by apply/mdvP; apply: (prime_div_pow _ _ _ _ (Z.to_nat e.2) (irr_prime hq)); rewrite mpowE; apply/mdvP.
        case: hi => hs /(_ q) hh; apply/eqP; rewrite -eqp_monic //; apply: hh => //; by case: hq => h3 _; rewrite neq_ltn h3 orbT.
      * by have [e' h3 h4] := IH h1; exists e' => //; right.
    have [x hx hxe] : exists2 x, List.In x ds0 & I e.1 * I x = m.
      clear - h2 he; elim: h2 he => [|e' x l l' [_ h] _ IH] //= [<-|/IH[y h1 h3]]; first by exists x => //; left.
      by exists y => //; right.
    apply/List.in_map_iff; exists x; split; last exact: (Permutation_in _ hp).
    have q0 : q != 0 by rewrite monic_neq0.
    by apply: (mulfI q0); rewrite hd hqe hxe.
Qed.
Lemma ndiv_le l : List.Forall (fun e : A * Z => (1 <= e.2)%coqZ) l -> (ndiv l <= 2 ^ PFacGen.total l)%coqZ /\ (0 <= PFacGen.total l)%coqZ.
Proof.
move=> H; elim: H => {l} [|[x c] l /= h hl [IH1 IH2]]; first by vm_compute.
rewrite /= -/(PFacGen.total l); split; last lia.
have h2 : (c + 1 <= 2 ^ c)%coqZ by clear -h; have := Z.pow_gt_lin_r 2 c; lia.
rewrite Z.pow_add_r //; last lia.
have : (0 <= ndiv l)%coqZ by clear -hl; elim: hl => [|[y d] l' /= h _ IH] //; apply: Z.mul_nonneg_nonneg => //; lia.
by nia.
Qed.
Lemma total_size l : List.Forall (fun e => irreducible_poly (I e.1) /\ (1 <= e.2)%coqZ) l ->
  (PFacGen.total l <= Z.of_nat (size (fprod I l)).-1)%coqZ /\ fprod I l != 0.
Proof.
move=> H; elim: H => {l} [|e l [[hs _] h] _ [IH n0]]; first by rewrite /fprod big_nil size_poly1 oner_eq0.
rewrite fprod_cons /= -/(PFacGen.total l); have e0 : I e.1 != 0 by rewrite -size_poly_gt0 ltnW.
split; last by rewrite mulf_neq0 // expf_neq0.
have h1 : ((size (I e.1)).-1 * Z.to_nat e.2 + (size (fprod I l)).-1 = (size (I e.1 ^+ Z.to_nat e.2 * fprod I l)%R).-1)%N.
  rewrite size_mul ?expf_neq0 // -size_exp; move: n0; rewrite -size_poly_gt0.
  have : (0 < size (I e.1 ^+ Z.to_nat e.2)%R)%N by rewrite size_poly_gt0 expf_neq0.
  by case: (size _) => // a _; case: (size _) => // b _; rewrite addnS.
rewrite -h1; move: hs; case: (size (I e.1)) => [|[|k]] //= _; rewrite mulSn; move: (k * Z.to_nat e.2)%N IH => j; move: (size (fprod I l)).-1 => s; clear - h; lia.
Qed.
End Div.
