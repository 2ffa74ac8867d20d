(* Final theorems for spffl/polynomials/fp_polymod_t.cpp: residue classes F_p[x]/(m) for
   every non-zero modulus m (irreducible or not, monic or not), p a prime with p <= 46341.

   [fp_menc m f] is the object for the class of f modulo m: the remainder of f, of degree
   below that of m, together with m, both in the representation of PropFpPoly.v.
   c is any state reachable for the cache inside intmod_t::recip (C10). *)
From Verif Require Import Base MIntMath MIntmod MMat MPoly MPolymod PIntMath PIntMath2 PIntmod.
From mathcomp Require Import all_ssreflect fingroup perm all_algebra ssrZ.
From mathcomp Require Import finfield.
From Verif Require Import PMat PFp PFpGen PPoly PPoly2 PPoly3 PPoly4 PFpPoly PPolymod PropFpPoly.
Set Implicit Arguments.
Unset Strict Implicit.
Unset Printing Implicit Defensive.
Import GRing.Theory.
Delimit Scope Z_scope with coqZ.
Local Open Scope ring_scope.

Definition fp_menc (p : nat) (m f : {poly 'F_p}) : gmod intmod := mkgm (fp_enc (f %% m)) (fp_enc m).

Section T.
Variable p : nat.
Hypothesis pp : prime p.
Hypothesis hP : (Z.of_nat p <= 46341)%coqZ.
Variable c : cache.
Hypothesis hc : cache_valid c.
Local Notation V := (Vp p).
Local Notation I := (Ip p).
Local Notation o := (im_kops c).
Local Notation enc := (@fp_enc p).
Local Notation menc := (@fp_menc p).
Local Notation el := (@fp_el p).
Let sp := im_kspec pp hP hc.
Implicit Types f g h m : {poly 'F_p}.

Lemma mencM m f : m != 0 -> isM V I (menc m f) (f %% m) m.
Proof. by move=> m0; split; [exact: encG|split; [exact: encG|rewrite ltn_modp]]. Qed.
Lemma Mmenc a r m : isM V I a r m -> a = menc m r.
Proof.
move=> h; apply: (isM_uniq sp h); have := @mencM m r (isM_m0 h).
by rewrite (isM_mod h).
Qed.
Lemma menc_mod m f : menc m (f %% m) = menc m f.
Proof. by rewrite /fp_menc modp_mod. Qed.
Lemma okM (e : res (gmod intmod)) m f : (exists a, e = Ok a /\ isM V I a (f %% m) m) -> e = Ok (menc m f).
Proof. by case=> a [-> h]; rewrite (Mmenc h) menc_mod. Qed.

Section M.
Variable m : {poly 'F_p}.
Hypothesis m0 : m != 0.
Let hM f := @mencM m f m0.
Lemma q_make f : gm_make o (enc f) (enc m) = Ok (menc m f).
Proof. by apply: okM (make_ok sp (encG pp f) (encG pp m) m0). Qed.
Lemma q_ring f g :
  gm_add o (menc m f) (menc m g) = Ok (menc m (f + g)) /\ gm_sub o (menc m f) (menc m g) = Ok (menc m (f - g)) /\
  gm_mul o (menc m f) (menc m g) = Ok (menc m (f * g)) /\ gm_eqb o (menc m f) (menc m g) = Ok (m %| f - g).
Proof.
split; first by apply: okM; rewrite modpD; apply: (gadd_ok sp).
split; first by apply: okM; rewrite modpD modpN; apply: (gsub_ok sp).
split; first by apply: okM; rewrite -modp_mul -modp_mull2; apply: (gmul_ok sp).
by rewrite (geqb_ok sp (hM f) (hM g)) /dvdp modpD modpN subr_eq0.
Qed.
Lemma q_int f v : (INT_MIN < v <= INT_MAX)%coqZ ->
  gm_int o (menc m f) v = Ok (menc m ((int_of_Z v)%:~R)%:P) /\ gm_int_mod o (enc m) v = Ok (menc m ((int_of_Z v)%:~R)%:P).
Proof.
move=> hv; split; first by apply: okM (gint_ok sp (hM f) hv).
by apply: okM (gint_mod_ok sp (encG pp m) m0 hv).
Qed.
Lemma q_neg f : (size (f %% m)%R <= 1)%N -> gm_neg o (menc m f) = Ok (menc m (- f)).
Proof. by move=> h; apply: okM; rewrite modpN; apply: (gneg_ok sp). Qed.
Lemma q_neg_ub f : (1 < size (f %% m)%R)%N -> gm_neg o (menc m f) = UB.
Proof. by move=> h; exact: (gneg_ub _ (hM f) h). Qed.
Lemma q_mul_int f k : (0 <= k <= INT_MAX)%coqZ -> gm_mul_int o (Z.of_nat p) (menc m f) k = Ok (menc m (f *+ Z.to_nat k)).
Proof.
move=> hk; apply: okM; have p0 : (0 < Z.of_nat p)%coqZ by have := prime_gt0 pp; lia.
have [|//|a [e h]] := gmul_int_pos sp (p := Z.of_nat p) (k := k) (hM f); first by rewrite /INT_MAX; lia.
exists a; split=> //; move: h; have -> n : f %% m *+ n = (f *+ n) %% m.
  by elim: n => [|n IH]; rewrite ?mulr0n ?mod0p // !mulrS modpD IH.
rewrite (_ : f *+ Z.to_nat (k mod Z.of_nat p) = f *+ Z.to_nat k) //.
have ek : Z.to_nat k = (Z.to_nat (k / Z.of_nat p) * p + Z.to_nat (k mod Z.of_nat p))%N.
  have := Z.div_mod k (Z.of_nat p) ltac:(lia); have := Z.mod_pos_bound k (Z.of_nat p) p0.
  have := Z.div_pos k (Z.of_nat p) (proj1 hk) p0.
  move: (Z.div k _) (Z.modulo k _) => x y hx hy ez; rewrite -multE -plusE; clear - ez hx hy p0; nia.
have hch : p \in [char {poly 'F_p}] by rewrite char_lalg; exact: char_Fp.
rewrite [in RHS]ek mulrnDr mulrnA -(mulr_natr (f *+ _) p).
by rewrite (charf0 hch) mulr0 add0r.
Qed.
Lemma q_mul_int_neg f k : (INT_MIN < k < 0)%coqZ -> (k mod Z.of_nat p <> 0)%coqZ ->
  gm_mul_int o (Z.of_nat p) (menc m f) k = Ok (menc m f).
Proof.
move=> hk hr; have p0 : (0 < Z.of_nat p)%coqZ by have := prime_gt0 pp; lia.
apply: gmul_int_neg => //; first by rewrite /INT_MAX; lia.
move=> h; apply: hr; apply/Z.mod_divide; first lia.
by apply/Z.rem_divide; first lia.
Qed.
Lemma q_mul_coef f a : gm_mul_coef o (menc m f) (el a) = Ok (mkgm (enc (f %% m)) (enc (a *: m))).
Proof.
have [b [-> [h1 h2]]] := gmul_coef_ok sp (hM f) (elR pp a).
by case: b h1 h2 => [x y] /= h1 h2; rewrite (Genc pp hP hc h1) (Genc pp hP hc h2).
Qed.
Lemma cop_mod f : coprimep (f %% m) m = coprimep f m.
Proof. by rewrite coprimep_modl. Qed.
Lemma q_recip f : if coprimep f m then exists u, gm_recip o (menc m f) = Ok (Some (menc m u)) /\ m %| f * u - 1
  else gm_recip o (menc m f) = Ok None.
Proof.
case: ifPn => h; last by apply: (grecip_nonunit sp (hM f)); rewrite cop_mod.
have [|b [t [e [h1 h2]]]] := grecip_unit sp (hM f); first by rewrite cop_mod.
exists t; rewrite e (Mmenc h1); split=> //.
by rewrite /dvdp modpD modpN subr_eq0 -h2 modp_mull2.
Qed.
Lemma q_div f g : if coprimep g m then exists u, gm_div o (menc m f) (menc m g) = Ok (menc m u) /\ m %| u * g - f
  else gm_div o (menc m f) (menc m g) = Exn.
Proof.
case: ifPn => h; last by have [|//] := gdiv_nonunit sp (hM f) (hM g); rewrite cop_mod.
have [|b [t [e [h1 h2]]]] := gdiv_unit sp (hM f) (hM g); first by rewrite cop_mod.
exists t; rewrite e (Mmenc h1); split=> //.
by rewrite /dvdp modpD modpN subr_eq0 -h2 modp_mul.
Qed.
Lemma q_rem f g : gm_rem o (menc m f) (menc m g) = if coprimep g m then Ok (menc m 0) else Exn.
Proof.
case: ifPn => h; last by have [|//] := gdiv_nonunit sp (hM f) (hM g); rewrite cop_mod.
by apply: okM; rewrite mod0p; apply: (grem_unit sp (hM f) (hM g)); rewrite cop_mod.
Qed.
Lemma modpX f n : (f %% m) ^+ n %% m = f ^+ n %% m.
Proof. by elim: n => [//|n IH]; rewrite !exprS modp_mull2 -modp_mul IH modp_mul. Qed.
Lemma q_exp f e : (0 <= e <= INT_MAX)%coqZ -> (e <> 0)%coqZ \/ ~~ (m %| f) ->
  gm_exp o (menc m f) e = Ok (menc m (f ^+ Z.to_nat e)).
Proof. by move=> he hn; apply: okM; rewrite -modpX; apply: (gexp_pos sp (hM f)). Qed.
Lemma q_exp_zero f e : m %| f -> (e <= 0)%coqZ -> gm_exp o (menc m f) e = Exn.
Proof.
move=> /eqP h he; case: (Z.eq_dec e 0) => [->|ne]; first by apply: (gexp_00 sp (hM f)).
by apply: (gexp_neg0 sp (hM f)) => //; lia.
Qed.
Lemma q_exp_neg f e : (- INT_MAX <= e < 0)%coqZ -> ~~ (m %| f) ->
  if coprimep f m then exists u, gm_exp o (menc m f) e = Ok (menc m (u ^+ Z.to_nat (- e))) /\ m %| f * u - 1
  else gm_exp o (menc m f) e = Exn.
Proof.
move=> he nd; case: ifPn => h; last by apply: (gexp_neg_nonunit sp (hM f)) => //; rewrite cop_mod.
have [//||a [t [u [e' [h1 [h2 h3]]]]]] := gexp_neg sp (hM f) he; first by rewrite cop_mod.
exists u; rewrite e' (Mmenc h1) h3 menc_mod; split=> //.
by rewrite /dvdp modpD modpN subr_eq0 -h2 modp_mull2.
Qed.
Lemma q_exp_min f : ~~ (m %| f) -> gm_exp o (menc m f) INT_MIN = UB.
Proof. by move=> h; apply: (gexp_min sp (hM f)). Qed.
Lemma q_cmp f g :
  gm_ltb o (menc m f) (menc m g) = Ok (fp_num (f %% m) < fp_num (g %% m))%N /\
  gm_leb o (menc m f) (menc m g) = Ok (fp_num (f %% m) <= fp_num (g %% m))%N /\
  gm_gtb o (menc m f) (menc m g) = Ok (fp_num (g %% m) < fp_num (f %% m))%N /\
  gm_geb o (menc m f) (menc m g) = Ok (fp_num (g %% m) <= fp_num (f %% m))%N.
Proof.
rewrite /gm_ltb /gm_leb /gm_gtb /gm_geb (check_ok sp (hM f) (hM g)) !bind_ok.
by have [_ [_ [h1 [h2 [h3 h4]]]]] := t_cmp pp hP hc (f %% m) (g %% m).
Qed.
Lemma q_eq_int f : gm_eq_int o (menc m f) 0 = Ok (m %| f) /\ gm_eq_int o (menc m f) 1 = Ok (f %% m == 1).
Proof. by split; [exact: (eq0_ok sp (encG pp _))|exact: (eq1_ok sp (encG pp _))]. Qed.
End M.
Lemma q_make0 f : gm_make o (enc f) (enc 0) = Exn.
Proof. exact: (make_0 sp (encG pp f) (encG pp 0)). Qed.
Lemma q_mixed m n f g : m != 0 -> n != 0 -> m != n ->
  gm_add o (menc m f) (menc n g) = Exn /\ gm_sub o (menc m f) (menc n g) = Exn /\ gm_mul o (menc m f) (menc n g) = Exn /\
  gm_div o (menc m f) (menc n g) = Exn /\ gm_rem o (menc m f) (menc n g) = Exn /\
  gm_ltb o (menc m f) (menc n g) = Exn /\ gm_leb o (menc m f) (menc n g) = Exn /\ gm_gtb o (menc m f) (menc n g) = Exn /\
  gm_geb o (menc m f) (menc n g) = Exn /\ gm_eqb o (menc m f) (menc n g) = Ok false.
Proof. by move=> m0 n0; apply: (gmixed sp (mencM f m0) (mencM g n0)). Qed.
Lemma menc_inj m f g : m != 0 -> menc m f = menc m g <-> m %| f - g.
Proof.
move=> m0; rewrite /dvdp modpD modpN subr_eq0; split=> [[/(enc_inj pp) ->]|/eqP e]; rewrite ?eqxx //.
by rewrite /fp_menc e.
Qed.
End T.

Section Final.
Variables (p : nat) (c : cache).
Local Notation enc := (@fp_enc p).
Local Notation menc := (@fp_menc p).
Local Notation el := (@fp_el p).
Local Notation o := (im_kops c).
Local Notation ok := (prime p /\ (Z.of_nat p <= 46341)%coqZ /\ cache_valid c).

(* the constructor reduces; a zero modulus is rejected *)
Theorem C35_make : ok -> forall f m : {poly 'F_p}, m != 0 ->
  gm_make o (enc f) (enc m) = Ok (menc m f) /\ (size (f %% m)%R < size m)%N.
Proof. by move=> [pp [hP hc]] f m m0; rewrite (q_make pp hP hc m0) ltn_modp. Qed.
Theorem C35_make_zero : ok -> forall f : {poly 'F_p}, gm_make o (enc f) (enc 0) = Exn.
Proof. by move=> [pp [hP hc]] f; exact: (q_make0 pp hP hc). Qed.
(* two objects are the same exactly if the classes are *)
Theorem C35_canonical : ok -> forall f g m : {poly 'F_p}, m != 0 -> menc m f = menc m g <-> m %| f - g.
Proof. by move=> [pp _] f g m; exact: (menc_inj pp). Qed.
Theorem C35_ring : ok -> forall m : {poly 'F_p}, m != 0 -> forall f g : {poly 'F_p},
  gm_add o (menc m f) (menc m g) = Ok (menc m (f + g)) /\ gm_sub o (menc m f) (menc m g) = Ok (menc m (f - g)) /\
  gm_mul o (menc m f) (menc m g) = Ok (menc m (f * g)) /\ gm_eqb o (menc m f) (menc m g) = Ok (m %| f - g).
Proof. by move=> [pp [hP hc]] m m0; exact: (q_ring pp hP hc m0). Qed.
Theorem C35_int : ok -> forall m : {poly 'F_p}, m != 0 -> forall (f : {poly 'F_p}) v, (INT_MIN < v <= INT_MAX)%coqZ ->
  gm_int o (menc m f) v = Ok (menc m ((int_of_Z v)%:~R)%:P) /\ gm_int_mod o (enc m) v = Ok (menc m ((int_of_Z v)%:~R)%:P).
Proof. by move=> [pp [hP hc]] m m0; exact: (q_int pp hP hc m0). Qed.
Theorem C35_recip : ok -> forall m : {poly 'F_p}, m != 0 -> forall f : {poly 'F_p},
  if coprimep f m then exists u, gm_recip o (menc m f) = Ok (Some (menc m u)) /\ m %| f * u - 1
  else gm_recip o (menc m f) = Ok None.
Proof. by move=> [pp [hP hc]] m m0; exact: (q_recip pp hP hc m0). Qed.
(* coprimality is invertibility *)
Theorem C35_unit_iff : forall m f : {poly 'F_p}, coprimep f m <-> exists u, m %| f * u - 1.
Proof.
move=> m f; split=> [/Bezout_eq1_coprimepP [[u v] /= e]|[u /dvdpP [v e]]].
  by exists u; rewrite -e mulrC opprD addNKr -mulNr dvdp_mull.
by apply/Bezout_eq1_coprimepP; exists (u, - v); rewrite /= mulNr -e mulrC opprB addrC subrK.
Qed.
Theorem C35_div : ok -> forall m : {poly 'F_p}, m != 0 -> forall f g : {poly 'F_p},
  if coprimep g m then exists u, gm_div o (menc m f) (menc m g) = Ok (menc m u) /\ m %| u * g - f
  else gm_div o (menc m f) (menc m g) = Exn.
Proof. by move=> [pp [hP hc]] m m0; exact: (q_div pp hP hc m0). Qed.
Theorem C35_rem : ok -> forall m : {poly 'F_p}, m != 0 -> forall f g : {poly 'F_p},
  gm_rem o (menc m f) (menc m g) = if coprimep g m then Ok (menc m 0) else Exn.
Proof. by move=> [pp [hP hc]] m m0; exact: (q_rem pp hP hc m0). Qed.
Theorem C35_exp : ok -> forall m : {poly 'F_p}, m != 0 -> forall (f : {poly 'F_p}) e,
  (0 <= e <= INT_MAX)%coqZ -> (e <> 0)%coqZ \/ ~~ (m %| f) -> gm_exp o (menc m f) e = Ok (menc m (f ^+ Z.to_nat e)).
Proof. by move=> [pp [hP hc]] m m0; exact: (q_exp pp hP hc m0). Qed.
Theorem C35_exp_zero : ok -> forall m : {poly 'F_p}, m != 0 -> forall (f : {poly 'F_p}) e,
  m %| f -> (e <= 0)%coqZ -> gm_exp o (menc m f) e = Exn.
Proof. by move=> [pp [hP hc]] m m0; exact: (q_exp_zero pp hP hc m0). Qed.
Theorem C35_exp_negative : ok -> forall m : {poly 'F_p}, m != 0 -> forall (f : {poly 'F_p}) e,
  (- INT_MAX <= e < 0)%coqZ -> ~~ (m %| f) ->
  if coprimep f m then exists u, gm_exp o (menc m f) e = Ok (menc m (u ^+ Z.to_nat (- e))) /\ m %| f * u - 1
  else gm_exp o (menc m f) e = Exn.
Proof. by move=> [pp [hP hc]] m m0; exact: (q_exp_neg pp hP hc m0). Qed.
Theorem C35_exp_min_refuted : ok -> forall m : {poly 'F_p}, m != 0 -> forall f : {poly 'F_p}, ~~ (m %| f) ->
  gm_exp o (menc m f) INT_MIN = UB.
Proof. by move=> [pp [hP hc]] m m0; exact: (q_exp_min pp hP hc m0). Qed.
Theorem C35_mixed : ok -> forall m n f g : {poly 'F_p}, m != 0 -> n != 0 -> m != n ->
  gm_add o (menc m f) (menc n g) = Exn /\ gm_sub o (menc m f) (menc n g) = Exn /\ gm_mul o (menc m f) (menc n g) = Exn /\
  gm_div o (menc m f) (menc n g) = Exn /\ gm_rem o (menc m f) (menc n g) = Exn /\
  gm_ltb o (menc m f) (menc n g) = Exn /\ gm_leb o (menc m f) (menc n g) = Exn /\ gm_gtb o (menc m f) (menc n g) = Exn /\
  gm_geb o (menc m f) (menc n g) = Exn /\ gm_eqb o (menc m f) (menc n g) = Ok false.
Proof. by move=> [pp [hP hc]]; exact: (q_mixed pp hP hc). Qed.
Theorem C35_compare : ok -> forall m : {poly 'F_p}, m != 0 -> forall f g : {poly 'F_p},
  gm_ltb o (menc m f) (menc m g) = Ok (fp_num (f %% m) < fp_num (g %% m))%N /\
  gm_leb o (menc m f) (menc m g) = Ok (fp_num (f %% m) <= fp_num (g %% m))%N /\
  gm_gtb o (menc m f) (menc m g) = Ok (fp_num (g %% m) < fp_num (f %% m))%N /\
  gm_geb o (menc m f) (menc m g) = Ok (fp_num (g %% m) <= fp_num (f %% m))%N.
Proof. by move=> [pp [hP hc]] m m0; exact: (q_cmp pp hP hc m0). Qed.
Theorem C35_eq_int : ok -> forall m : {poly 'F_p}, m != 0 -> forall f : {poly 'F_p},
  gm_eq_int o (menc m f) 0 = Ok (m %| f) /\ gm_eq_int o (menc m f) 1 = Ok (f %% m == 1).
Proof. by move=> [pp [hP hc]] m _; exact: (q_eq_int pp hP hc m). Qed.
(* unary minus: correct for constant residues only *)
Theorem C35_neg_partial : ok -> forall m : {poly 'F_p}, m != 0 -> forall f : {poly 'F_p},
  (size (f %% m)%R <= 1)%N -> gm_neg o (menc m f) = Ok (menc m (- f)).
Proof. by move=> [pp [hP hc]] m m0; exact: (q_neg pp hP hc m0). Qed.
Theorem C35_neg_refuted : ok -> forall m : {poly 'F_p}, m != 0 -> forall f : {poly 'F_p},
  (1 < size (f %% m)%R)%N -> gm_neg o (menc m f) = UB.
Proof. by move=> [pp [hP hc]] m m0; exact: (q_neg_ub pp c m0). Qed.
(* integer multiples: correct for non-negative factors; a negative factor that is not a
   multiple of p returns the operand unchanged *)
Theorem C35_mul_int_partial : ok -> forall m : {poly 'F_p}, m != 0 -> forall (f : {poly 'F_p}) k,
  (0 <= k <= INT_MAX)%coqZ -> gm_mul_int o (Z.of_nat p) (menc m f) k = Ok (menc m (f *+ Z.to_nat k)).
Proof. by move=> [pp [hP hc]] m m0; exact: (q_mul_int pp hP hc m0). Qed.
Theorem C35_mul_int_negative_refuted : ok -> forall m : {poly 'F_p}, m != 0 -> forall (f : {poly 'F_p}) k,
  (INT_MIN < k < 0)%coqZ -> (k mod Z.of_nat p <> 0)%coqZ ->
  gm_mul_int o (Z.of_nat p) (menc m f) k = Ok (menc m f).
Proof. by move=> [pp [hP hc]] m m0; exact: (q_mul_int_neg pp hP c m0). Qed.
(* multiplication by a field element scales the modulus and leaves the residue alone; the
   result is not the product unless the factor is 1, and is no object of the same ring *)
Theorem C35_mul_coef_refuted : ok -> forall m : {poly 'F_p}, m != 0 -> forall (f : {poly 'F_p}) (a : 'F_p),
  gm_mul_coef o (menc m f) (el a) = Ok (mkgm (enc (f %% m)) (enc (a *: m))) /\
  (gm_mul_coef o (menc m f) (el a) = Ok (menc m (a *: f)) <-> a = 1).
Proof.
move=> [pp [hP hc]] m m0 f a; have e := q_mul_coef pp hP hc m0 f a; split=> //; rewrite e; split=> [[_ /(enc_inj pp) h]|->].
  have := congr1 lead_coef h; rewrite lead_coefZ => h2.
  by apply: (mulIf (x := lead_coef m)); rewrite ?lead_coef_eq0 // mul1r.
by rewrite !scale1r.
Qed.
End Final.

(* x + 3 modulo the reducible x^2 + 6 over F_7, and modulo the irreducible x^2 + 1 *)
Definition m7 (r m : list Z) : gmod intmod := mkgm (im7 r) (im7 m).
Example C35_ex :
  gm_make (im_kops cache_init) (im7 [:: 3; 1; 2]%coqZ) (im7 [:: 1; 0; 1]%coqZ) = Ok (m7 [:: 1; 1]%coqZ [:: 1; 0; 1]%coqZ) /\
  gm_mul (im_kops cache_init) (m7 [:: 3; 1]%coqZ [:: 1; 0; 1]%coqZ) (m7 [:: 2; 5]%coqZ [:: 1; 0; 1]%coqZ)
    = Ok (m7 [:: 1; 3]%coqZ [:: 1; 0; 1]%coqZ) /\
  gm_recip (im_kops cache_init) (m7 [:: 3; 1]%coqZ [:: 1; 0; 1]%coqZ) = Ok (Some (m7 [:: 1; 2]%coqZ [:: 1; 0; 1]%coqZ)) /\
  gm_mul (im_kops cache_init) (m7 [:: 3; 1]%coqZ [:: 1; 0; 1]%coqZ) (m7 [:: 1; 2]%coqZ [:: 1; 0; 1]%coqZ)
    = Ok (m7 [:: 1%coqZ] [:: 1; 0; 1]%coqZ) /\
  gm_recip (im_kops cache_init) (m7 [:: 1; 1]%coqZ [:: 6; 0; 1]%coqZ) = Ok None /\
  gm_exp (im_kops cache_init) (m7 [:: 3; 1]%coqZ [:: 1; 0; 1]%coqZ) 48 = Ok (m7 [:: 1%coqZ] [:: 1; 0; 1]%coqZ) /\
  gm_exp (im_kops cache_init) (m7 [:: 3; 1]%coqZ [:: 1; 0; 1]%coqZ) (-1) = Ok (m7 [:: 1; 2]%coqZ [:: 1; 0; 1]%coqZ) /\
  gm_mul_int (im_kops cache_init) 7 (m7 [:: 3; 1]%coqZ [:: 1; 0; 1]%coqZ) (-1) = Ok (m7 [:: 3; 1]%coqZ [:: 1; 0; 1]%coqZ) /\
  gm_mul_coef (im_kops cache_init) (m7 [:: 3; 1]%coqZ [:: 1; 0; 1]%coqZ) (mkim 2 7) = Ok (m7 [:: 3; 1]%coqZ [:: 2; 0; 2]%coqZ).
Proof. by vm_compute. Qed.

Print Assumptions C35_ring.
Print Assumptions C35_recip.
Print Assumptions C35_exp_negative.
Print Assumptions C35_mul_coef_refuted.
