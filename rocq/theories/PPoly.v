(* The generic polynomial model of MPoly.v computes in F[X], for coefficient types that
   behave as the field F. *)
From Verif Require Import Base MMat MPoly.
From mathcomp Require Import all_ssreflect fingroup perm all_algebra ssrZ.
From Verif Require Import PMat.
Set Implicit Arguments.
Unset Strict Implicit.
Unset Printing Implicit Defensive.
Import GRing.Theory.
Delimit Scope Z_scope with coqZ.
Local Open Scope ring_scope.

Record kspec (A : Type) (o : kops A) (F : fieldType) (V : A -> Prop) (I : A -> F) (kv : A -> nat) : Prop := {
  ks_c : cspec (k_c o) V I;
  ks_inj : forall x y, V x -> V y -> I x = I y -> x = y;
  ks_recip : forall x, V x -> I x != 0 -> exists z, k_recip o x = Ok (Some z) /\ V z /\ I z = (I x)^-1;
  ks_int : forall x v, V x -> (INT_MIN < v <= INT_MAX)%coqZ ->
             exists z, k_int o x v = Ok z /\ V z /\ I z = (int_of_Z v)%:~R;
  ks_exp : forall x e, V x -> I x != 0 -> (INT_MIN < e <= INT_MAX)%coqZ ->
             exists z, k_exp o x e = Ok z /\ V z /\ I z = I x ^ (int_of_Z e);
  ks_is0 : forall x, V x -> k_isint o x 0 = Ok (I x == 0);
  ks_is1 : forall x, V x -> k_isint o x 1 = Ok (I x == 1);
  ks_ltb : forall x y, V x -> V y -> k_ltb o x y = Ok (kv x < kv y)%N;
  ks_gtb : forall x y, V x -> V y -> k_gtb o x y = Ok (kv y < kv x)%N;
  ks_kv : forall x y, V x -> V y -> kv x = kv y -> x = y
}.

(* lia, seeing through the different forms of the type in size s *)
Ltac norm_size :=
  repeat match goal with
  | |- context [@size ?T ?s] =>
      let U := type of s in
      lazymatch U with list ?T' =>
        tryif constr_eq T T' then fail else change (@size T s) with (@size T' s) end
  | H : context [@size ?T ?s] |- _ =>
      let U := type of s in
      lazymatch U with list ?T' =>
        tryif constr_eq T T' then fail else change (@size T s) with (@size T' s) in H end
  end.
Ltac slia := norm_size; lia.

Section PolyFacts.
Variable F : fieldType.
Implicit Types (p q : {poly F}) (s t : seq F).
Definition cseq p : seq F := if p == 0 then [:: 0] else polyseq p.
Lemma cseqP p : Poly (cseq p) = p.
Proof. by rewrite /cseq; case: eqP => [->|_]; rewrite ?polyseqK //= cons_poly_def mul0r add0r. Qed.
Lemma size_cseq p : size (cseq p) = maxn 1 (size p).
Proof.
rewrite /cseq; case: eqP => [->|/eqP h]; first by rewrite size_poly0.
by symmetry; apply/maxn_idPr; rewrite lt0n size_poly_eq0.
Qed.
Lemma cseq_ge1 p : (0 < size (cseq p))%N. Proof. by rewrite size_cseq leq_max. Qed.
Lemma cseq_coef p i : nth 0 (cseq p) i = p`_i.
Proof. by rewrite -{2}(cseqP p) coef_Poly. Qed.
Lemma Poly_cons (x : F) s : Poly (x :: s) = Poly s * 'X + x%:P.
Proof. by rewrite /= cons_poly_def. Qed.
Lemma Poly_set s i (v : F) : (i < size s)%N ->
  Poly (set_nth 0 s i v) = Poly s + (v - nth 0 s i) *: 'X^i.
Proof.
move=> hi; apply/polyP=> k; rewrite coefD coefZ coefXn !coef_Poly nth_set_nth /=.
by case: eqP => [->|_]; rewrite /= ?mulr1 ?mulr0 ?addr0 // addrC subrK.
Qed.
Lemma Poly_take s i : (i < size s)%N -> Poly (take i.+1 s) = Poly (take i s) + nth 0 s i *: 'X^i.
Proof.
move=> hi; apply/polyP=> k; rewrite coefD coefZ coefXn !coef_Poly.
case: (ltngtP k i) => [h|h|->]; rewrite /= ?mulr0 ?mulr1 ?addr0.
- by rewrite !nth_take // (ltn_trans h).
- by rewrite !nth_default ?addr0 // size_take; case: ifP => // h'; rewrite ?ltnS // ?(ltnW h) //; lia.
- by rewrite nth_take // [X in X + _]nth_default ?add0r // size_take hi.
Qed.
End PolyFacts.

Lemma for_ok S (body : nat -> S -> res S) (Inv : nat -> S -> Prop) n s :
  Inv 0%N s ->
  (forall k t, (k < n)%N -> Inv k t -> exists t', body k t = Ok t' /\ Inv k.+1 t') ->
  exists s', for_up n 0 body s = Ok s' /\ Inv n s'.
Proof.
move=> h0 h; have [|//|s' [e hs]] := for_up_inv body Inv n 0 s; last by exists s'.
by move=> k t hk; apply: h; apply/ltP; lia.
Qed.
Lemma for_bind S B (body : nat -> S -> res S) (Inv : nat -> S -> Prop) n s (k : S -> res B) (Q : B -> Prop) :
  Inv 0%N s ->
  (forall k t, (k < n)%N -> Inv k t -> exists t', body k t = Ok t' /\ Inv k.+1 t') ->
  (forall s', Inv n s' -> exists r, k s' = Ok r /\ Q r) ->
  exists r, bind (for_up n 0 body s) k = Ok r /\ Q r.
Proof. by move=> h0 h hk; have [s' [e hs]] := for_ok h0 h; rewrite e bind_ok; apply: hk. Qed.

Section Ref.
Variables (A : Type) (o : kops A) (F : fieldType) (V : A -> Prop) (I : A -> F) (kv : A -> nat).
Hypothesis spec : kspec o V I kv.
Let sc := ks_c spec.
Local Notation R := (R V I).
Local Notation Rr := (Rr V I).

(* l are the coefficients of p, without a zero leading one (except for p = 0) *)
Definition isG (l : list A) (p : {poly F}) := Rr l (cseq p).
Definition isW (l : list A) (p : {poly F}) := exists s, Rr l s /\ Poly s = p /\ (0 < size s)%N.

Lemma isG_W l p : isG l p -> isW l p.
Proof. by move=> h; exists (cseq p); rewrite cseqP cseq_ge1. Qed.
Lemma isG_size l p : isG l p -> size l = maxn 1 (size p).
Proof. by move=> h; rewrite (F2_size h) size_cseq. Qed.
Lemma Rr_inj l l' s : Rr l s -> Rr l' s -> l = l'.
Proof.
move=> h; elim: h l' => [|x a l1 s1 [vx ix] _ IH] l' h'; inversion h' as [|y b l2 s2 [vy iy] h2]; subst=> //.
by congr cons; [apply: (ks_inj spec) | apply: IH].
Qed.
Lemma isG_uniq l l' p : isG l p -> isG l' p -> l = l'. Proof. exact: Rr_inj. Qed.
Lemma Rr_fun l s s' : Rr l s -> Rr l s' -> s = s'.
Proof.
move=> h; elim: h s' => [|x a l1 s1 [vx ix] _ IH] s' h'; inversion h' as [|y b l2 s2 [vy iy] h2]; subst=> //.
by congr cons; apply: IH.
Qed.
Lemma isG_fun l p q : isG l p -> isG l q -> p = q.
Proof. by move=> h1 h2; rewrite -(cseqP p) (Rr_fun h1 h2) cseqP. Qed.

Lemma getk_ok l s i : Rr l s -> (i < size s)%N -> exists x, getk l i = Ok x /\ R x (nth 0 s i).
Proof.
move=> h hi; have hs := F2_size h; rewrite /getk.
case: l h hs => [|x0 l] h hs; first by rewrite -hs in hi.
exists (nth x0 (x0 :: l) i); rewrite (nth_error_nth' x0) ?hs //; split=> //.
exact: (F2_nth _ _ h).
Qed.
Lemma setk_ok l s i x a : Rr l s -> (i < size s)%N -> R x a ->
  exists l', setk l i x = Ok l' /\ Rr l' (set_nth 0 s i a).
Proof.
move=> h hi hx; rewrite /setk lengthE ltbE (F2_size h) hi; exists (upd l i x); split=> //.
exact: F2_upd.
Qed.
Lemma size_set s i (a : F) : (i < size s)%N -> size (set_nth 0 s i a) = size s.
Proof. by move=> h; rewrite size_set_nth; apply/maxn_idPr. Qed.

Lemma trim_top_ok zero rl rs : R zero 0 -> Rr rl rs ->
  exists r s, trim_top o zero rl = Ok r /\ Rr r s /\ Poly (rev s) = Poly (rev rs) /\ head 1 s != 0.
Proof.
move=> hz; elim=> [|x a l s hx hl [r [s' [e [h1 [h2 h3]]]]]] /=.
  by exists [::], [::]; split=> //; split; [constructor | split=> //; apply: oner_neq0].
rewrite (R_neqb sc hx hz) bind_ok; case: eqP => [a0|/eqP a0] /=.
  exists r, s'; split=> //; split=> //; split=> //; rewrite h2 rev_cons -cats1 a0.
  apply/polyP=> i; rewrite !coef_Poly nth_cat; case: ltnP => // h.
  by rewrite [LHS]nth_default //; case: (i - _)%N => [|[|]].
exists (x :: l), (a :: s); split=> //; split; [by constructor | by []].
Qed.

Lemma F2_rev (T U : Type) (P : T -> U -> Prop) l l' : Forall2 P l l' -> Forall2 P (List.rev l) (rev l').
Proof.
elim=> [|x y l1 l2 h _ IH]; first by constructor.
by rewrite /= rev_cons -cats1; apply: F2_cat => //; constructor => //; constructor.
Qed.

Lemma recompute_ok l p : isW l p -> exists r, gp_recompute o l = Ok r /\ isG r p.
Proof.
case=> s [hl [ps s0]]; rewrite /gp_recompute.
have [c0 [e0 h0]] := getk_ok hl s0; rewrite e0 bind_ok.
have [z [ez hz]] := R_sub sc h0 h0; rewrite ez bind_ok; rewrite subrr in hz.
have [r [t [er [hr [pt ht]]]]] := trim_top_ok hz (F2_rev hl); rewrite er bind_ok.
rewrite revK ps in pt.
case: r t hr pt ht {er} => [|x r] t hr pt ht.
  exists [:: c0]; split=> //; inversion hr; subst t.
  rewrite /isG /cseq -pt eqxx; constructor; last by constructor.
  suff -> : (0 : F) = nth 0 s 0 by [].
  by rewrite -coef_Poly ps -pt coef0.
exists (List.rev (x :: r)); split=> //.
case: t hr pt ht => [|a t] hr pt ht; first by inversion hr.
have nz : p != 0.
  apply/eqP=> p0; move: ht => /= /eqP; case.
  have := congr1 (fun q : {poly F} => q`_(size t)) pt; rewrite p0 coef0 coef_Poly rev_cons nth_rcons size_rev ltnn eqxx.
  by [].
rewrite /isG /cseq (negbTE nz) -pt (PolyK (c := 0)); first exact: F2_rev.
by rewrite rev_cons last_rcons.
Qed.

Lemma const_ok x a : R x a -> exists r, gp_const o x = Ok r /\ isG r a%:P.
Proof.
move=> h; apply: recompute_ok; exists [:: a]; split; last by rewrite Poly_cons /= mul0r add0r.
by constructor=> //; constructor.
Qed.
Lemma linear_ok x a y b : R x a -> R y b -> exists r, gp_linear o x y = Ok r /\ isG r (a *: 'X + b%:P).
Proof.
move=> h h'; apply: recompute_ok; exists [:: b; a]; split; first by constructor=> //; constructor=> //; constructor.
by rewrite !Poly_cons /= mul0r add0r mul_polyC.
Qed.
Lemma quadratic_ok x a y b z c : R x a -> R y b -> R z c ->
  exists r, gp_quadratic o x y z = Ok r /\ isG r (a *: 'X^2 + b *: 'X + c%:P).
Proof.
move=> h h' h''; apply: recompute_ok; exists [:: c; b; a].
split; first by constructor=> //; constructor=> //; constructor=> //; constructor.
by rewrite !Poly_cons /= mul0r add0r mulrDl -!mul_polyC -mulrA -expr2.
Qed.

Lemma isG_get0 l p : isG l p -> exists x, getk l 0 = Ok x /\ R x p`_0.
Proof. by move=> h; rewrite -cseq_coef; apply: getk_ok h (cseq_ge1 p). Qed.
Lemma isW_get0 l p : isW l p -> exists x, getk l 0 = Ok x /\ R x p`_0.
Proof. by case=> s [h [<- s0]]; rewrite coef_Poly; apply: getk_ok. Qed.

Lemma int_ok l p v : isG l p -> (INT_MIN < v <= INT_MAX)%coqZ ->
  exists r, gp_int o l v = Ok r /\ isG r ((int_of_Z v)%:~R)%:P.
Proof.
move=> h hv; have [x [e [hx ix]]] := isG_get0 h; rewrite /gp_int e bind_ok.
have [z [ez [hz iz]]] := ks_int spec hx hv; rewrite ez bind_ok; exact: const_ok.
Qed.
Lemma int0_ok l p : isG l p -> exists r, gp_int o l 0 = Ok r /\ isG r 0.
Proof. by move=> h; have [//|r [e hr]] := int_ok (v := 0) h; exists r. Qed.
Lemma int1_ok l p : isG l p -> exists r, gp_int o l 1 = Ok r /\ isG r 1.
Proof. by move=> h; have [//|r [e hr]] := int_ok (v := 1) h; exists r. Qed.

(* ---- sums *)
Lemma add_l_ok l s m t : Rr l s -> Rr m t ->
  exists r u, add_l o l m = Ok r /\ Rr r u /\ Poly u = Poly s + Poly t /\ size u = maxn (size s) (size t).
Proof.
move=> h; elim: h m t => [|x a l1 s1 hx hl IH] m t hm.
  by exists m, t; rewrite add0r max0n; split; [case: m hm | ].
case: hm => [|y b m1 t1 hy hm].
  by exists (x :: l1), (a :: s1); rewrite addr0 maxn0; split=> //; split=> //; constructor.
have [z [ez hz]] := R_add sc hx hy; have [r [u [e [hr [hu su]]]]] := IH _ _ hm.
exists (z :: r), (a + b :: u); rewrite /add_l -/(add_l o) ez bind_ok e bind_ok; split=> //; split; first by constructor.
by rewrite !Poly_cons hu /= su maxnSS polyCD mulrDl addrACA.
Qed.
Lemma add_ok l p m q : isG l p -> isG m q -> exists r, gp_add o l m = Ok r /\ isG r (p + q).
Proof.
move=> hl hm; have [r [u [e [hr [hu su]]]]] := add_l_ok hl hm; rewrite /gp_add e bind_ok.
by apply: recompute_ok; exists u; rewrite hu !cseqP su leq_max cseq_ge1.
Qed.
Lemma sub_l_ok l s m t : Rr l s -> Rr m t ->
  exists r u, sub_l o l m = Ok r /\ Rr r u /\ Poly u = Poly s - Poly t /\ size u = maxn (size s) (size t).
Proof.
move=> h; elim: h m t => [|x a l1 s1 hx hl IH] m t hm.
  have [r [e hr]] := mapM_ok hm (g := fun a : F => - a) (fun x y => @R_neg _ _ _ _ _ sc x y).
  exists r, [seq - a | a <- t]; rewrite sub0r max0n size_map; split; first by case: m hm e.
  split=> //; split=> //; apply/polyP=> i; rewrite coefN !coef_Poly.
  case: (ltnP i (size t)) => hi; first by rewrite (nth_map 0).
  by rewrite !nth_default ?oppr0 ?size_map.
case: hm => [|y b m1 t1 hy hm].
  by exists (x :: l1), (a :: s1); rewrite subr0 maxn0; split=> //; split=> //; constructor.
have [z [ez hz]] := R_sub sc hx hy; have [r [u [e [hr [hu su]]]]] := IH _ _ hm.
exists (z :: r), (a - b :: u); rewrite /sub_l -/(sub_l o) ez bind_ok e bind_ok; split=> //; split; first by constructor.
by rewrite !Poly_cons hu /= su maxnSS polyCB mulrBl opprD addrACA.
Qed.
Lemma sub_ok l p m q : isG l p -> isG m q -> exists r, gp_sub o l m = Ok r /\ isG r (p - q).
Proof.
move=> hl hm; have [r [u [e [hr [hu su]]]]] := sub_l_ok hl hm; rewrite /gp_sub e bind_ok.
by apply: recompute_ok; exists u; rewrite hu !cseqP su leq_max cseq_ge1.
Qed.
Lemma neg_ok l p : isG l p -> (size p <= 1)%N -> exists r, gp_neg o l = Ok r /\ isG r (- p).
Proof.
move=> h sp; have := isG_size h; rewrite (maxn_idPl sp); case: l h => [|x [|//]] //= h _.
have hx : R x p`_0 by rewrite -cseq_coef; move: h; rewrite /isG; move=> h; inversion h.
have [y [e hy]] := R_neg sc hx; rewrite e bind_ok; exists [:: y]; split=> //.
rewrite /isG (_ : cseq (- p) = [:: - p`_0]); first by constructor=> //; constructor.
rewrite (size1_polyC sp) -polyCN coefC /= /cseq polyC_eq0; case: eqP => [->//|/eqP h0].
by rewrite polyseqC h0.
Qed.
Lemma neg_ub l p : isG l p -> (1 < size p)%N -> gp_neg o l = UB.
Proof. by move=> h sp; have := isG_size h; rewrite (maxn_idPr (ltnW sp)); case: l {h} => [|x [|y l]] //= e; rewrite -e in sp. Qed.

(* ---- products *)
Lemma mul_ok l p m q : isG l p -> isG m q -> exists r, gp_mul o l m = Ok r /\ isG r (p * q).
Proof.
move=> hl hm; have [a0 [e0 h0]] := isG_get0 hl; rewrite /gp_mul e0 bind_ok.
have [z [ez hz]] := R_sub sc h0 h0; rewrite ez bind_ok; rewrite subrr in hz.
rewrite !lengthE (F2_size hl) (F2_size hm) plusE minusE.
set s := cseq p in hl *; set t := cseq q in hm *.
have s0 : (0 < size s)%N := cseq_ge1 p. have t0 : (0 < size t)%N := cseq_ge1 q.
set n := (size s + size t - 1)%N.
have hz0 : Rr (List.repeat z n) (nseq n 0).
  by elim: n => [|k IH]; constructor.
apply: (for_bind (Inv := fun i r => exists u, Rr r u /\ size u = n /\ Poly u = Poly (take i s) * Poly t)).
- exists (nseq n 0); split=> //; split; first by rewrite size_nseq.
  by rewrite take0 mul0r; apply/polyP=> k; rewrite coef_Poly coef0 nth_nseq if_same.
- move=> i r hi [u [hu [su pu]]].
  have hIn : exists s', for_up (size t) 0 (fun j r => x <- getk l i;; y <- getk m j;; p0 <- c_mul (k_c o) x y;;
       c <- getk r (i + j);; s0 <- c_add (k_c o) c p0;; setk r (i + j) s0) r = Ok s' /\
     exists u, Rr s' u /\ size u = n /\ Poly u = Poly (take i s) * Poly t + (nth 0 s i *: 'X^i) * Poly (take (size t) t).
    apply: (for_ok (Inv := fun j r => exists u, Rr r u /\ size u = n /\
        Poly u = Poly (take i s) * Poly t + (nth 0 s i *: 'X^i) * Poly (take j t))).
      by exists u; split=> //; split=> //; rewrite take0 mulr0 addr0.
    move=> j r' hj [u' [hu' [su' pu']]].
    have [x [ex hx]] := getk_ok hl hi; have [y [ey hy]] := getk_ok hm hj.
    have hij : (i + j < size u')%N by rewrite su' /n; lia.
    have [c [ec hc]] := getk_ok hu' hij; have [pr [ep hp]] := R_mul sc hx hy.
    have [sm [es hs]] := R_add sc hc hp; have [r'' [e'' h'']] := setk_ok hu' hij hs.
    rewrite ex bind_ok ey bind_ok ep bind_ok ec bind_ok es bind_ok; exists r''; split=> //.
    exists (set_nth 0 u' (i + j) (nth 0 u' (i + j) + nth 0 s i * nth 0 t j)); split=> //.
    rewrite size_set // Poly_set // pu' Poly_take // mulrDr addrA; split=> //; congr (_ + _).
    by rewrite addrC addKr -scalerAl -scalerAr scalerA exprD.
  have [r' [er [u' [hu' [su' pu']]]]] := hIn; exists r'; split=> //; exists u'; split=> //; split=> //.
  by rewrite pu' take_size Poly_take // mulrDl.
move=> r [u [hu [su pu]]]; apply: recompute_ok; exists u; split=> //.
by rewrite pu take_size !cseqP su; split=> //; rewrite /n; lia.
Qed.

Lemma Poly_map_mulr s (c : F) : Poly [seq x * c | x <- s] = c *: Poly s.
Proof.
apply/polyP=> i; rewrite coefZ !coef_Poly; case: (ltnP i (size s)) => h.
  by rewrite (nth_map 0) // mulrC.
by rewrite !nth_default ?mulr0 ?size_map.
Qed.
Lemma mulc_ok l p x c : isG l p -> R x c -> exists r, gp_mulc o l x = Ok r /\ isG r (c *: p).
Proof.
move=> h hx; rewrite /gp_mulc.
have [y b hy|r [e hr]] := mapM_ok h (f := fun y => c_mul (k_c o) y x) (g := fun a : F => a * c) (Q := R).
  exact: R_mul.
rewrite e bind_ok; apply: recompute_ok; exists [seq a * c | a <- cseq p]; split=> //.
by rewrite size_map cseq_ge1 Poly_map_mulr cseqP.
Qed.
Lemma divc_ok l p x c : isG l p -> R x c -> c != 0 -> exists r, gp_divc o l x = Ok r /\ isG r (c^-1 *: p).
Proof.
move=> h hx c0; rewrite /gp_divc.
have [y b hy|r [e hr]] := mapM_ok h (f := fun y => c_div (k_c o) y x) (g := fun a : F => a / c) (Q := R).
  exact: R_div.
rewrite e bind_ok; apply: recompute_ok; exists [seq a / c | a <- cseq p]; split=> //.
by rewrite size_map cseq_ge1 Poly_map_mulr cseqP.
Qed.
Lemma addc_ok l p x c : isG l p -> R x c -> exists r, gp_addc o l x = Ok r /\ isG r (p + c%:P).
Proof.
move=> h hx; have [a0 [e0 h0]] := isG_get0 h; rewrite /gp_addc e0 bind_ok.
have [s [es hs]] := R_add sc h0 hx; rewrite es bind_ok.
have [r [er hr]] := setk_ok h (cseq_ge1 p) hs; rewrite er bind_ok; apply: recompute_ok.
exists (set_nth 0 (cseq p) 0 (p`_0 + c)); split=> //; rewrite size_set ?cseq_ge1 //; split=> //.
by rewrite Poly_set ?cseq_ge1 // cseqP cseq_coef addrAC subrr add0r expr0 alg_polyC.
Qed.
Lemma subc_ok l p x c : isG l p -> R x c -> exists r, gp_subc o l x = Ok r /\ isG r (p - c%:P).
Proof.
move=> h hx; have [a0 [e0 h0]] := isG_get0 h; rewrite /gp_subc e0 bind_ok.
have [s [es hs]] := R_sub sc h0 hx; rewrite es bind_ok.
have [r [er hr]] := setk_ok h (cseq_ge1 p) hs; rewrite er bind_ok; apply: recompute_ok.
exists (set_nth 0 (cseq p) 0 (p`_0 - c)); split=> //; rewrite size_set ?cseq_ge1 //; split=> //.
by rewrite Poly_set ?cseq_ge1 // cseqP cseq_coef addrAC subrr add0r expr0 alg_polyC polyCN.
Qed.
End Ref.
