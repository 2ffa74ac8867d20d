(* The generic residue class model of MPolymod.v computes in F[X]/(m), m any non-zero polynomial. *)
From Verif Require Import Base MIntMath MMat MPoly MPolymod.
From mathcomp Require Import all_ssreflect fingroup perm all_algebra ssrZ.
From Verif Require Import PPow PMat PPoly PPoly2 PPoly3.
Set Implicit Arguments.
Unset Strict Implicit.
Unset Printing Implicit Defensive.
Import GRing.Theory.
Delimit Scope Z_scope with coqZ.
Local Open Scope ring_scope.

Section RefM.
Variables (A : Type) (o : kops A) (F : fieldType) (V : A -> Prop) (I : A -> F) (kv : A -> nat).
Hypothesis spec : kspec o V I kv.
Let sc := ks_c spec.
Local Notation R := (R V I).
Local Notation isG := (isG V I).
Implicit Types (r s m : {poly F}).

Definition isM (a : gmod A) r m := isG (gm_res a) r /\ isG (gm_mod a) m /\ (size r < size m)%N.
Lemma isM_m0 a r m : isM a r m -> m != 0.
Proof. by case=> _ [_ h]; apply: contraTneq h => ->; rewrite size_poly0. Qed.
Lemma isM_mod a r m : isM a r m -> r %% m = r.
Proof. by case=> _ [_ h]; apply: modp_small. Qed.
Lemma isM_uniq a b r m : isM a r m -> isM b r m -> a = b.
Proof. by case: a b => [x y] [z w] [/= h1 [h2 _]] [/= h3 [h4 _]]; rewrite (isG_uniq spec h1 h3) (isG_uniq spec h2 h4). Qed.

Lemma make_ok l r lm m : isG l r -> isG lm m -> m != 0 -> exists a, gm_make o l lm = Ok a /\ isM a (r %% m) m.
Proof.
move=> hl hm m0; rewrite /gm_make; have [x [e hx]] := mod_ok spec hl hm m0; rewrite e bind_ok.
by exists (mkgm x lm); split=> //; split=> //; split=> //; rewrite ltn_modp.
Qed.
Lemma make_0 l r lm : isG l r -> isG lm 0 -> gm_make o l lm = Exn.
Proof. by move=> hl hm; rewrite /gm_make /gp_mod (quot_rem_0 spec hl hm). Qed.
Lemma check_ok a b r s m : isM a r m -> isM b s m -> gm_check o a b = Ok tt.
Proof. by move=> [_ [h _]] [_ [h' _]]; rewrite /gm_check (neqb_ok spec h h') bind_ok eqxx. Qed.
Lemma check_mixed a b r s m m' : isM a r m -> isM b s m' -> m != m' -> gm_check o a b = Exn.
Proof. by move=> [_ [h _]] [_ [h' _]] n; rewrite /gm_check (neqb_ok spec h h') bind_ok n. Qed.

Lemma gint_ok a r m v : isM a r m -> (INT_MIN < v <= INT_MAX)%coqZ ->
  exists b, gm_int o a v = Ok b /\ isM b (((int_of_Z v)%:~R)%:P %% m) m.
Proof.
move=> ha hv; rewrite /gm_int; have [x [e hx]] := int_ok spec ha.1 hv; rewrite e bind_ok.
exact: make_ok hx ha.2.1 (isM_m0 ha).
Qed.
Lemma gint_mod_ok lm m v : isG lm m -> m != 0 -> (INT_MIN < v <= INT_MAX)%coqZ ->
  exists b, gm_int_mod o lm v = Ok b /\ isM b (((int_of_Z v)%:~R)%:P %% m) m.
Proof.
move=> hm m0 hv; rewrite /gm_int_mod; have [x [e hx]] := int_ok spec hm hv; rewrite e bind_ok.
exact: make_ok hx hm m0.
Qed.
Lemma gint0_ok a r m : isM a r m -> exists b, gm_int o a 0 = Ok b /\ isM b 0 m.
Proof. by move=> ha; have [//|b [e h]] := gint_ok (v := 0) ha; exists b; split=> //; rewrite mod0p in h. Qed.
Lemma gint1_ok a r m : isM a r m -> exists b, gm_int o a 1 = Ok b /\ isM b (1 %% m) m.
Proof. by move=> ha; have [//|b [e h]] := gint_ok (v := 1) ha; exists b; split. Qed.

Section Two.
Variables (a b : gmod A) (r s m : {poly F}).
Hypotheses (ha : isM a r m) (hb : isM b s m).
Let m0 := isM_m0 ha.
Lemma gadd_ok : exists c, gm_add o a b = Ok c /\ isM c (r + s) m.
Proof.
rewrite /gm_add (check_ok ha hb) bind_ok; have [x [e hx]] := add_ok spec ha.1 hb.1; rewrite e bind_ok.
have [c [ec hc]] := make_ok hx ha.2.1 m0; exists c; split=> //.
by rewrite modpD (isM_mod ha) (isM_mod hb) in hc.
Qed.
Lemma gsub_ok : exists c, gm_sub o a b = Ok c /\ isM c (r - s) m.
Proof.
rewrite /gm_sub (check_ok ha hb) bind_ok; have [x [e hx]] := sub_ok spec ha.1 hb.1; rewrite e bind_ok.
have [c [ec hc]] := make_ok hx ha.2.1 m0; exists c; split=> //.
by rewrite modpD modpN (isM_mod ha) (isM_mod hb) in hc.
Qed.
Lemma gmul_ok : exists c, gm_mul o a b = Ok c /\ isM c ((r * s) %% m) m.
Proof.
rewrite /gm_mul (check_ok ha hb) bind_ok; have [x [e hx]] := mul_ok spec ha.1 hb.1; rewrite e bind_ok.
exact: make_ok hx ha.2.1 m0.
Qed.
Lemma geqb_ok : gm_eqb o a b = Ok (r == s).
Proof.
rewrite /gm_eqb (neqb_ok spec ha.1 hb.1) bind_ok; case: eqP => //= _.
by rewrite (neqb_ok spec ha.2.1 hb.2.1) bind_ok eqxx.
Qed.
End Two.
Lemma gneg_ok a r m : isM a r m -> (size r <= 1)%N -> exists c, gm_neg o a = Ok c /\ isM c (- r) m.
Proof.
move=> ha h; rewrite /gm_neg; have [x [e hx]] := neg_ok spec ha.1 h; rewrite e bind_ok.
have [c [ec hc]] := make_ok hx ha.2.1 (isM_m0 ha); exists c; split=> //.
by rewrite modpN (isM_mod ha) in hc.
Qed.
Lemma gneg_ub a r m : isM a r m -> (1 < size r)%N -> gm_neg o a = UB.
Proof. by move=> ha h; rewrite /gm_neg (neg_ub o ha.1 h). Qed.
Lemma gmixed a b r s m m' : isM a r m -> isM b s m' -> m != m' ->
  gm_add o a b = Exn /\ gm_sub o a b = Exn /\ gm_mul o a b = Exn /\ gm_div o a b = Exn /\ gm_rem o a b = Exn /\
  gm_ltb o a b = Exn /\ gm_leb o a b = Exn /\ gm_gtb o a b = Exn /\ gm_geb o a b = Exn /\ gm_eqb o a b = Ok false.
Proof.
move=> ha hb n; rewrite /gm_add /gm_sub /gm_mul /gm_div /gm_rem /gm_ltb /gm_leb /gm_gtb /gm_geb (check_mixed ha hb n).
by rewrite /gm_eqb (neqb_ok spec ha.1 hb.1) bind_ok (neqb_ok spec ha.2.1 hb.2.1) bind_ok n; case: eqP.
Qed.

(* repeated addition *)
Lemma rep_add_ok a r m n b s : isM a r m -> isM b s m ->
  exists c, for_up n 0 (fun _ rv => gm_add o rv a) b = Ok c /\ isM c (s + r *+ n) m.
Proof.
move=> ha hb; apply: (for_ok (Inv := fun i c => isM c (s + r *+ i) m)); first by rewrite mulr0n addr0.
move=> k t _ ht; have [c [e hc]] := gadd_ok ht ha; exists c; split=> //.
by rewrite mulrSr addrA.
Qed.
Lemma imod_rem k p : (0 < p)%coqZ -> (INT_MIN <= k <= INT_MAX)%coqZ -> imod k p = Ok (Z.rem k p).
Proof.
move=> hp hk; rewrite /imod; have -> : Z.eqb p 0 = false by lia.
suff -> : in_int (k ÷ p)%coqZ by [].
rewrite /in_int /INT_MIN /INT_MAX in hk *.
have h1 : (k ÷ p <= 2147483647)%coqZ.
  case: (Z_lt_le_dec k 0) => h0; first by have := Z.quot_opp_l k p ltac:(lia); have := Z.quot_pos (- k) p ltac:(lia) ltac:(lia); lia.
  by have := Z.quot_le_mono k (2147483647) p; have := Z.quot_le_upper_bound k p 2147483647; nia.
have h2 : (-2147483648 <= k ÷ p)%coqZ.
  case: (Z_lt_le_dec k 0) => h0; last by have := Z.quot_pos k p ltac:(lia) ltac:(lia); lia.
  have := Z.quot_opp_l k p ltac:(lia); have := Z.quot_le_upper_bound (- k) p 2147483648; nia.
by lia.
Qed.
Lemma gmul_int_pos p a r m k : isM a r m -> (0 < p <= INT_MAX)%coqZ -> (0 <= k <= INT_MAX)%coqZ ->
  exists c, gm_mul_int o p a k = Ok c /\ isM c (r *+ Z.to_nat (k mod p)) m.
Proof.
move=> ha hp hk; rewrite /gm_mul_int.
have -> : imod k p = Ok (k mod p)%coqZ.
  by rewrite imod_rem ?Z.rem_mod_nonneg //; rewrite /INT_MIN; lia.
rewrite bind_ok; have hm := Z.mod_pos_bound k p ltac:(lia).
case: Z.eqb_spec => [->|n0]; first by have [c [e hc]] := gsub_ok ha ha; exists c; rewrite subrr in hc.
have [c [e hc]] := rep_add_ok (Z.to_nat (k mod p - 1)) ha ha; exists c; split=> //.
rewrite -mulrS in hc; rewrite (_ : Z.to_nat _ = (Z.to_nat (k mod p - 1)).+1) //.
by move: (Z.modulo k p) hm n0 => x hx hn; lia.
Qed.
(* a negative multiplier that is not a multiple of p leaves the object unchanged *)
Lemma gmul_int_neg p a k : (0 < p <= INT_MAX)%coqZ -> (INT_MIN < k < 0)%coqZ -> (Z.rem k p <> 0)%coqZ ->
  gm_mul_int o p a k = Ok a.
Proof.
move=> hp hk hr; rewrite /gm_mul_int.
have -> : imod k p = Ok (Z.rem k p)%coqZ.
  by apply: imod_rem; rewrite /INT_MIN /INT_MAX in hk *; lia.
rewrite bind_ok; case: Z.eqb_spec => // _.
have : (Z.rem k p <= 0)%coqZ by apply: (Z.rem_nonpos k p); lia.
by case: (Z.rem k p) => [|q|q] //.
Qed.
Lemma gmul_fpn_ok a r m k : isM a r m -> exists c, gm_mul_int_fpn o a k = Ok c /\ isM c (r *+ Z.to_nat k) m.
Proof.
move=> ha; rewrite /gm_mul_int_fpn; have [z [e hz]] := gsub_ok ha ha; rewrite e bind_ok.
by have [c [ec hc]] := rep_add_ok (Z.to_nat k) ha hz; exists c; rewrite subrr add0r in hc.
Qed.
Lemma gmul_f2n_ok a r m k : isM a r m -> exists c, gm_mul_int_f2n o a k = Ok c /\ isM c (if Z.odd k then r else 0) m.
Proof.
move=> ha; rewrite /gm_mul_int_f2n; case: ifP => _; first by exists a.
by have [z [e hz]] := gsub_ok ha ha; exists z; rewrite subrr in hz.
Qed.
(* the product with a coefficient multiplies the modulus *)
Lemma gmul_coef_ok a r m x c : isM a r m -> R x c -> exists b, gm_mul_coef o a x = Ok b /\
  isG (gm_res b) r /\ isG (gm_mod b) (c *: m).
Proof.
move=> ha hx; rewrite /gm_mul_coef; have [l [e hl]] := mulc_ok spec ha.2.1 hx; rewrite e bind_ok.
by eexists; split; first by []; split=> //; exact: ha.1.
Qed.

(* reciprocals *)
Lemma grecip_unit a r m : isM a r m -> coprimep r m ->
  exists b t, gm_recip o a = Ok (Some b) /\ isM b t m /\ (r * t) %% m = 1 %% m.
Proof.
move=> ha cp; have m0 := isM_m0 ha; rewrite /gm_recip.
have [d [u [v [D [U [W [e [hd [hu [hv [hD hE]]]]]]]]]]] := ext_gcd_ok spec ha.1 ha.2.1 m0; rewrite e bind_ok.
have sD : size D = 1%N.
  by rewrite (eqp_size hD); apply/eqP; move: cp; rewrite /coprimep.
rewrite /gp_degree lengthE eqbE (isG_size hd) sD /=.
have [c [ec hc]] := get_coeff_ok spec 0 hd; rewrite -[0%coqZ]/(Z.of_nat 0) ec bind_ok.
have c0 : D`_0 != 0 by have := lead_coef_eq0 D; rewrite lead_coefE sD /= -size_poly_eq0 sD => ->.
have [|ci [eci [vci ici]]] := ks_recip spec hc.1; first by rewrite hc.2.
have [s' [es hs]] := mulc_ok spec hu (conj vci ici : R ci _); rewrite hc.2 in hs.
rewrite eci bind_ok es bind_ok; have [b [eb hb]] := make_ok hs ha.2.1 m0; rewrite eb bind_ok.
exists b, ((D`_0)^-1 *: U %% m); split=> //; split=> //.
rewrite modp_mul -scalerAr (mulrC r) -(addrK (W * m) (U * r)) hE -mulNr.
rewrite scalerDr scalerAl modpD modp_mull addr0 {2}(size1_polyC (p := D)) ?sD //.
by rewrite -mul_polyC -polyCM mulVf.
Qed.
Lemma grecip_nonunit a r m : isM a r m -> ~~ coprimep r m -> gm_recip o a = Ok None.
Proof.
move=> ha ncp; have m0 := isM_m0 ha; rewrite /gm_recip.
have [d [u [v [D [U [W [e [hd [hu [hv [hD hE]]]]]]]]]]] := ext_gcd_ok spec ha.1 ha.2.1 m0; rewrite e bind_ok.
have sD : (1 < size D)%N.
  rewrite (eqp_size hD) ltn_neqAle eq_sym; move: ncp; rewrite /coprimep => -> /=.
  by rewrite lt0n size_poly_eq0 gcdp_eq0 (negbTE m0) andbF.
rewrite /gp_degree lengthE eqbE (isG_size hd) (maxn_idPr (ltnW sD)) minusE.
by case: (size D) sD => [|[|k]].
Qed.
Lemma coprime_inv r t m : (1 < size m)%N -> (r * t) %% m = 1 %% m -> coprimep r m.
Proof.
move=> sm e; apply/(coprimepP) => d hr hm.
have : d %| (r * t) %% m by rewrite -dvdp_mod // dvdp_mulr.
by rewrite e modp_small ?size_poly1 // dvdp1 size_poly_eq1.
Qed.
Lemma gdiv_unit a b r s m : isM a r m -> isM b s m -> coprimep s m ->
  exists c t, gm_div o a b = Ok c /\ isM c t m /\ (t * s) %% m = r.
Proof.
move=> ha hb cp; rewrite /gm_div (check_ok ha hb) bind_ok.
have [bi [t [e [ht h]]]] := grecip_unit hb cp; rewrite e bind_ok.
have [c [ec hc]] := gmul_ok ha ht; exists c, ((r * t) %% m); split=> //; split=> //.
by rewrite mulrC modp_mul mulrCA -modp_mul h modp_mul mulr1 (isM_mod ha).
Qed.
Lemma gdiv_nonunit a b r s m : isM a r m -> isM b s m -> ~~ coprimep s m -> gm_div o a b = Exn /\ gm_rem o a b = Exn.
Proof. by move=> ha hb cp; rewrite /gm_div /gm_rem (check_ok ha hb) bind_ok (grecip_nonunit hb cp). Qed.
Lemma grem_unit a b r s m : isM a r m -> isM b s m -> coprimep s m -> exists c, gm_rem o a b = Ok c /\ isM c 0 m.
Proof.
move=> ha hb cp; rewrite /gm_rem (check_ok ha hb) bind_ok.
have [bi [t [e [ht h]]]] := grecip_unit hb cp; rewrite e bind_ok.
by have [c [ec hc]] := gsub_ok ha ha; exists c; rewrite subrr in hc.
Qed.

(* powers *)
Definition gmulmod lm x y := p <- gp_mul o x y ;; gp_mod o p lm.
Lemma gloop_eq lm fuel : forall st, loop fuel (gm_exp_step o lm) st = loop fuel (pow_step (gmulmod lm)) st.
Proof.
elim: fuel => [|f IH] //= [[e x] r] /=; rewrite /gm_exp_step /pow_step /gmulmod.
case: Z.eqb => //; case: (if Z.odd e then _ else _) => // r'.
rewrite !bind_ok; case: (gp_mul o x x) => //= x1; case: (gp_mod o x1 lm) => //= x'.
Qed.
Lemma modp_mull2 (p q m : {poly F}) : ((p %% m) * q) %% m = (p * q) %% m.
Proof. by rewrite mulrC modp_mul mulrC. Qed.
Lemma mpow_mod (m x y : {poly F}) n :
  mpow (fun p q => (p * q) %% m) x n (y %% m) = (y * x ^+ n) %% m.
Proof.
elim: n y => [|n IH] y /=; first by rewrite expr0 mulr1.
by rewrite modp_mull2 IH exprS mulrA.
Qed.
Lemma gpow_loop lm m l p l1 e : isG lm m -> m != 0 -> isG l p -> isG l1 (1 %% m) ->
  (0 <= e <= INT_MAX)%coqZ ->
  exists c, loop 34 (gm_exp_step o lm) (e, l, l1) = Ok c /\ isG c (p ^+ Z.to_nat e %% m).
Proof.
move=> hm m0 hl h1 he; rewrite gloop_eq.
have [|||||||c [-> hc]] := @pow_loop_ok (list A) {poly F} (gmulmod lm) isG
    (fun p q => (p * q) %% m) _ _ 34 e l p l1 (1 %% m).
- move=> x y q r hx hy; rewrite /gmulmod; have [z [-> hz]] := mul_ok spec hx hy.
  by rewrite bind_ok; have [w [-> hw]] := mod_ok spec hz hm m0; exists w.
- by move=> x y z; rewrite modp_mull2 modp_mul mulrA.
- by [].
- by [].
- by [].
- exact: (Z.le_lt_trans _ INT_MAX _ (proj2 he)).
- by lia.
- by exists c; split=> //; move: hc; rewrite mpow_mod mul1r.
Qed.
Section Exp.
Variables (a : gmod A) (r m : {poly F}).
Hypothesis (ha : isM a r m).
Let m0 := isM_m0 ha.
Let hm : isG (gm_mod a) m := ha.2.1.
Lemma gexp_pos e : (0 <= e <= INT_MAX)%coqZ -> (e <> 0)%coqZ \/ r != 0 ->
  exists c, gm_exp o a e = Ok c /\ isM c (r ^+ Z.to_nat e %% m) m.
Proof.
move=> he hne; rewrite /gm_exp.
have [z [-> hz]] := gint0_ok ha; rewrite bind_ok.
have [u [-> hu]] := gint1_ok ha; rewrite bind_ok.
case: Z.eqb_spec => h0.
  rewrite (geqb_ok ha hz) bind_ok; case: hne => [//|/negbTE ->].
  by exists u; rewrite h0 expr0.
case: Z.ltb_spec => [|_]; first lia.
rewrite bind_ok; have [c [-> hc]] := gpow_loop hm m0 ha.1 hu.1 he.
by rewrite bind_ok; eexists; split; first by []; split=> //; split=> //; rewrite ltn_modp.
Qed.
Lemma gexp_00 : r = 0 -> gm_exp o a 0 = Exn.
Proof.
move=> r0; rewrite /gm_exp; have [z [-> hz]] := gint0_ok ha; rewrite bind_ok.
have [u [-> hu]] := gint1_ok ha; rewrite bind_ok (_ : Z.eqb 0 0 = true) //.
by rewrite (geqb_ok ha hz) bind_ok r0 eqxx.
Qed.
Lemma gexp_neg0 e : r = 0 -> (e < 0)%coqZ -> gm_exp o a e = Exn.
Proof.
move=> r0 he; rewrite /gm_exp; have [z [-> hz]] := gint0_ok ha; rewrite bind_ok.
have [u [-> hu]] := gint1_ok ha; rewrite bind_ok (_ : Z.eqb e 0 = false); last lia.
rewrite (_ : Z.ltb e 0 = true); last lia.
by rewrite (geqb_ok ha hz) bind_ok r0 eqxx.
Qed.
Lemma gexp_neg e : (- INT_MAX <= e < 0)%coqZ -> r != 0 -> coprimep r m ->
  exists c t u, gm_exp o a e = Ok c /\ isM c t m /\ (r * u) %% m = 1 %% m /\ t = u ^+ Z.to_nat (- e) %% m.
Proof.
move=> he r0 cp; rewrite /gm_exp; have [z [-> hz]] := gint0_ok ha; rewrite bind_ok.
have [u [-> hu]] := gint1_ok ha; rewrite bind_ok (_ : Z.eqb e 0 = false); last lia.
rewrite (_ : Z.ltb e 0 = true); last lia.
rewrite (geqb_ok ha hz) bind_ok (negbTE r0).
have -> : ineg e = Ok (- e)%coqZ by rewrite /ineg chk_ok // /INT_MIN; rewrite /INT_MAX in he *; lia.
rewrite bind_ok; have [iv [t [-> [ht h]]]] := gdiv_unit hu ha cp; rewrite bind_ok bind_ok.
have [|c [-> hc]] := gpow_loop hm m0 ht.1 hu.1 (e := (- e)%coqZ); first by rewrite /INT_MAX in he *; lia.
rewrite bind_ok; exists (mkgm c (gm_mod a)), (t ^+ Z.to_nat (- e) %% m), t; split=> //; split.
  by split=> //; split=> //; rewrite ltn_modp.
by split=> //; rewrite mulrC.
Qed.
Lemma gexp_neg_nonunit e : (- INT_MAX <= e < 0)%coqZ -> ~~ coprimep r m -> gm_exp o a e = Exn.
Proof.
move=> he cp; case: (altP (r =P 0)) => [r0|r0]; first by apply: gexp_neg0 => //; lia.
rewrite /gm_exp; have [z [-> hz]] := gint0_ok ha; rewrite bind_ok.
have [u [-> hu]] := gint1_ok ha; rewrite bind_ok (_ : Z.eqb e 0 = false); last lia.
rewrite (_ : Z.ltb e 0 = true); last lia.
rewrite (geqb_ok ha hz) bind_ok (negbTE r0).
have -> : ineg e = Ok (- e)%coqZ by rewrite /ineg chk_ok // /INT_MIN; rewrite /INT_MAX in he *; lia.
by rewrite bind_ok; have [-> _] := gdiv_nonunit hu ha cp.
Qed.
Lemma gexp_min : r != 0 -> gm_exp o a INT_MIN = UB.
Proof.
move=> r0; rewrite /gm_exp; have [z [-> hz]] := gint0_ok ha; rewrite bind_ok.
have [u [-> hu]] := gint1_ok ha; rewrite bind_ok (_ : Z.eqb INT_MIN 0 = false) //.
by rewrite (_ : Z.ltb INT_MIN 0 = true) // (geqb_ok ha hz) bind_ok (negbTE r0).
Qed.
End Exp.
End RefM.
