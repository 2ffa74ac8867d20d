(* Final theorems for spffl/polynomials/fpn_polymod_t.cpp: residue classes GF(p^n)[x]/(m) for
   every non-zero modulus m (irreducible or not, monic or not), p a prime with p <= 46341.

   [gq_menc m f] is the object for the class of f modulo m: the remainder of f, of degree
   below that of m, together with m, both in the representation of PropFpnPoly.v.
   c is any state reachable for the cache inside intmod_t::recip (C10). *)
From Verif Require Import Base MIntMath MIntmod MMat MPoly MPolymod MFpnPoly PIntMath PIntMath2 PIntmod.
From mathcomp Require Import all_ssreflect fingroup perm all_algebra ssrZ.
From mathcomp Require Import finfield.
From Verif Require Import PMat PFp PFpGen PPoly PPoly2 PPoly3 PPoly4 PFpPoly PPolymod PFpn PropFpnPoly PMono.
Set Implicit Arguments.
Unset Strict Implicit.
Unset Printing Implicit Defensive.
Import GRing.Theory.
Delimit Scope Z_scope with coqZ.
Local Open Scope ring_scope.

Definition gq_menc (p : nat) (G : gfq p) (m f : {poly gq_L G}) : gmod fpc := mkgm (gq_enc (f %% m)) (gq_enc m).

(* what does not use the unary minus of the coefficients; the rest is undefined or the same *)
Section Same.
Variable c : cache.
Local Notation o := (fpn_kops c).
Local Notation o' := (fpn_kops' c).
Lemma same_make : gm_make o = gm_make o'. Proof. by []. Qed.
Lemma same_gadd : gm_add o = gm_add o'. Proof. by []. Qed.
Lemma same_gmul : gm_mul o = gm_mul o'. Proof. by []. Qed.
Lemma same_gint : gm_int o = gm_int o'. Proof. by []. Qed.
Lemma le_recip a : gm_recip o a <~ gm_recip o' a.
Proof.
apply: le_bind => [|[[g s] t]]; first exact: ext_le.
by right.
Qed.
Lemma le_gdiv a b : gm_div o a b <~ gm_div o' a b.
Proof.
apply: le_bind => [|_]; first by right.
by apply: le_bind => [|x]; [exact: le_recip | right].
Qed.
Lemma gsub_same a : gm_sub o a a = gm_sub o' a a.
Proof. by rewrite /gm_sub sub_same. Qed.
Lemma le_rem a b : gm_rem o a b <~ gm_rem o' a b.
Proof.
apply: le_bind => [|_]; first by right.
by apply: le_bind => [|[x|]]; [exact: le_recip | right; exact: gsub_same | right].
Qed.
Lemma le_gexp a e : gm_exp o a e <~ gm_exp o' a e.
Proof.
rewrite /gm_exp same_gint; apply: le_bind => [|zero]; first by right.
apply: le_bind => [|one]; first by right.
case: Z.eqb; first by right.
apply: le_bind => [|[xp e']]; last by right.
case: Z.ltb; last by right.
apply: le_bind => [|z]; first by right.
case: z; first exact: le_refl.
apply: le_bind => [|ne]; first by right.
by apply: le_bind => [|inv]; [exact: le_gdiv | right].
Qed.
Lemma exp_same a e : (0 <= e)%coqZ -> gm_exp o a e = gm_exp o' a e.
Proof. by move=> he; rewrite /gm_exp; case: Z.ltb_spec; last by []; lia. Qed.
End Same.

Section T.
Variable p : nat.
Hypothesis pp : prime p.
Hypothesis hP : (Z.of_nat p <= 46341)%coqZ.
Variable c : cache.
Hypothesis hc : cache_valid c.
Variable G : gfq p.
Local Notation L := (gq_L G).
Local Notation V := (Vq (gq_m G)).
Local Notation I := (@Iq p L (gq_emb G) (gq_z G)).
Local Notation o := (fpn_kops c).
Local Notation o' := (fpn_kops' c).
Local Notation enc := (@gq_enc p G).
Local Notation menc := (@gq_menc p G).
Local Notation el := (@gq_el p G).
Let sp : kspec o' V I (kq p) := fpn_kspec pp hP hc (gq_irr G) (gq_root G) (gq_card G).
Let encG := encG pp (G := G).
Implicit Types f g h m : {poly L}.

Lemma mencM m f : m != 0 -> isM V I (menc m f) (f %% m) m.
Proof. by move=> m0; split; [exact: encG|split; [exact: encG|rewrite ltn_modp]]. Qed.
Lemma Mmenc a r m : isM V I a r m -> a = menc m r.
Proof.
move=> h; apply: (isM_uniq sp h); have := @mencM m r (isM_m0 h).
by rewrite (isM_mod h).
Qed.
Lemma menc_mod m f : menc m (f %% m) = menc m f.
Proof. by rewrite /gq_menc modp_mod. Qed.
Lemma okM (e : res (gmod fpc)) m f : (exists a, e = Ok a /\ isM V I a (f %% m) m) -> e = Ok (menc m f).
Proof. by case=> a [-> h]; rewrite (Mmenc h) menc_mod. Qed.

Section M.
Variable m : {poly L}.
Hypothesis m0 : m != 0.
Let hM f := @mencM m f m0.
Lemma q_make f : gm_make o (enc f) (enc m) = Ok (menc m f).
Proof. by apply: okM (make_ok sp (encG f) (encG m) m0). Qed.
Lemma q_ring f g :
  gm_add o (menc m f) (menc m g) = Ok (menc m (f + g)) /\
  gm_mul o (menc m f) (menc m g) = Ok (menc m (f * g)) /\ gm_eqb o (menc m f) (menc m g) = Ok (m %| f - g).
Proof.
split; first by rewrite same_gadd; apply: okM; rewrite modpD; apply: (gadd_ok sp).
split; first by rewrite same_gmul; apply: okM; rewrite -modp_mul -modp_mull2; apply: (gmul_ok sp).
by have := geqb_ok sp (hM f) (hM g); rewrite /dvdp modpD modpN subr_eq0.
Qed.
Lemma q_sub f g : (forall i, (maxn 1 (size (f %% m)%R) <= i)%N -> gq_prime (g %% m)`_i) ->
  gm_sub o (menc m f) (menc m g) = Ok (menc m (f - g)).
Proof.
move=> h; rewrite /gm_sub (_ : gm_check o _ _ = Ok tt); last exact: (check_ok sp (hM f) (hM g)).
rewrite bind_ok (t_sub pp hP hc h) bind_ok q_make /gq_menc; congr (Ok (mkgm (gq_enc _) _)).
by rewrite !modpD !modpN !modp_mod.
Qed.
Lemma q_sub_ub f g i : (maxn 1 (size (f %% m)%R) <= i)%N -> ~~ gq_prime (g %% m)`_i ->
  gm_sub o (menc m f) (menc m g) = UB.
Proof.
move=> h1 h2; rewrite /gm_sub (_ : gm_check o _ _ = Ok tt); last exact: (check_ok sp (hM f) (hM g)).
by rewrite bind_ok (t_sub_ub pp hP hc h1 h2).
Qed.
Lemma q_int f v : (INT_MIN < v <= INT_MAX)%coqZ ->
  gm_int o (menc m f) v = Ok (menc m ((int_of_Z v)%:~R)%:P) /\ fpn_pm_int_mod c v (enc m) = Ok (menc m ((int_of_Z v)%:~R)%:P).
Proof.
move=> hv; split; first by rewrite same_gint; apply: okM (gint_ok sp (hM f) hv).
rewrite /fpn_pm_int_mod (t_get pp hP hc) bind_ok (el_mod pp hP hc).
by have [_ ->] := C85_int pp hP hc m hv; rewrite bind_ok q_make.
Qed.
Lemma q_neg f : gm_neg o (menc m f) = if (size (f %% m)%R <= 1)%N && gq_prime (f %% m)`_0 then Ok (menc m (- f)) else UB.
Proof.
rewrite /gm_neg (t_neg pp hP hc); case: ifP => // _; rewrite bind_ok q_make /gq_menc.
by rewrite modpN modp_mod modpN.
Qed.
Lemma q_mul_int f k : gm_mul_int_fpn o (menc m f) k = Ok (menc m (f *+ Z.to_nat k)).
Proof.
apply: okM; rewrite (_ : f *+ _ %% m = (f %% m) *+ Z.to_nat k); last first.
  by elim: (Z.to_nat k) => [|n IH]; rewrite ?mulr0n ?mod0p // !mulrS modpD IH.
rewrite /gm_mul_int_fpn gsub_same; exact: (gmul_fpn_ok sp k (hM f)).
Qed.
Lemma cop_mod f : coprimep (f %% m) m = coprimep f m.
Proof. by rewrite coprimep_modl. Qed.
Lemma q_recip f : gm_recip o (menc m f) = UB \/
  if coprimep f m then exists u, gm_recip o (menc m f) = Ok (Some (menc m u)) /\ m %| f * u - 1
  else gm_recip o (menc m f) = Ok None.
Proof.
have [->|->] := le_recip c (menc m f); [by left | right].
case: ifPn => h; last by apply: (grecip_nonunit sp (hM f)); rewrite cop_mod.
have [|b [t [e [h1 h2]]]] := grecip_unit sp (hM f); first by rewrite cop_mod.
exists t; rewrite e (Mmenc h1); split=> //.
by rewrite /dvdp modpD modpN subr_eq0 -h2 modp_mull2.
Qed.
Lemma q_div f g : gm_div o (menc m f) (menc m g) = UB \/
  if coprimep g m then exists u, gm_div o (menc m f) (menc m g) = Ok (menc m u) /\ m %| u * g - f
  else gm_div o (menc m f) (menc m g) = Exn.
Proof.
have [->|->] := le_gdiv c (menc m f) (menc m g); [by left | right].
case: ifPn => h; last by have [|//] := gdiv_nonunit sp (hM f) (hM g); rewrite cop_mod.
have [|b [t [e [h1 h2]]]] := gdiv_unit sp (hM f) (hM g); first by rewrite cop_mod.
exists t; rewrite e (Mmenc h1); split=> //.
by rewrite /dvdp modpD modpN subr_eq0 -h2 modp_mul.
Qed.
Lemma q_rem f g : gm_rem o (menc m f) (menc m g) = UB \/
  gm_rem o (menc m f) (menc m g) = if coprimep g m then Ok (menc m 0) else Exn.
Proof.
have [->|->] := le_rem c (menc m f) (menc m g); [by left | right].
case: ifPn => h; last by have [|//] := gdiv_nonunit sp (hM f) (hM g); rewrite cop_mod.
by apply: okM; rewrite mod0p; apply: (grem_unit sp (hM f) (hM g)); rewrite cop_mod.
Qed.
Lemma modpX f n : (f %% m) ^+ n %% m = f ^+ n %% m.
Proof. by elim: n => [//|n IH]; rewrite !exprS modp_mull2 -modp_mul IH modp_mul. Qed.
Lemma q_exp f e : (0 <= e <= INT_MAX)%coqZ -> (e <> 0)%coqZ \/ ~~ (m %| f) ->
  gm_exp o (menc m f) e = Ok (menc m (f ^+ Z.to_nat e)).
Proof. by move=> he hn; rewrite exp_same; last exact: proj1 he; apply: okM; rewrite -modpX; apply: (gexp_pos sp (hM f)). Qed.
Lemma q_exp_zero f e : m %| f -> (e <= 0)%coqZ -> gm_exp o (menc m f) e = Exn.
Proof.
move=> /eqP h he; case: (Z.eq_dec e 0) => [->|ne].
  by rewrite exp_same //; apply: (gexp_00 sp (hM f)).
rewrite /gm_exp same_gint; have [z [-> hz]] := gint0_ok sp (hM f); rewrite bind_ok.
have [u [-> hu]] := gint1_ok sp (hM f); rewrite bind_ok (_ : Z.eqb e 0 = false); last by move: ne; clear; lia.
rewrite (_ : Z.ltb e 0 = true); last by move: ne he; clear; lia.
have e0 := geqb_ok sp (hM f) hz; rewrite h eqxx in e0.
by change (gm_eqb o (menc m f) z = Ok true) in e0; rewrite ?e0.
Qed.
Lemma q_exp_neg f e : (- INT_MAX <= e < 0)%coqZ -> ~~ (m %| f) -> gm_exp o (menc m f) e = UB \/
  if coprimep f m then exists u, gm_exp o (menc m f) e = Ok (menc m (u ^+ Z.to_nat (- e))) /\ m %| f * u - 1
  else gm_exp o (menc m f) e = Exn.
Proof.
move=> H nd; have [->|->] := le_gexp c (menc m f) e; [by left | right].
case: ifPn => h; last by apply: (gexp_neg_nonunit sp (hM f)) => //; rewrite cop_mod.
have [//||a [t [u [e' [h1 [h2 h3]]]]]] := gexp_neg sp (hM f) H; first by rewrite cop_mod.
exists u; rewrite e' (Mmenc h1) h3 menc_mod; split=> //.
by rewrite /dvdp modpD modpN subr_eq0 -h2 modp_mull2.
Qed.
Lemma q_exp_min f : ~~ (m %| f) -> gm_exp o (menc m f) INT_MIN = UB.
Proof. by move=> h; have [//|->] := le_gexp c (menc m f) INT_MIN; apply: (gexp_min sp (hM f)). Qed.
Lemma q_cmp f g :
  gm_ltb o (menc m f) (menc m g) = Ok (gq_num (f %% m) < gq_num (g %% m))%N /\
  gm_leb o (menc m f) (menc m g) = Ok (gq_num (f %% m) <= gq_num (g %% m))%N /\
  gm_gtb o (menc m f) (menc m g) = Ok (gq_num (g %% m) < gq_num (f %% m))%N /\
  gm_geb o (menc m f) (menc m g) = Ok (gq_num (g %% m) <= gq_num (f %% m))%N.
Proof.
rewrite /gm_ltb /gm_leb /gm_gtb /gm_geb (_ : gm_check o _ _ = Ok tt); last exact: (check_ok sp (hM f) (hM g)).
rewrite !bind_ok.
by have [_ [_ [h1 [h2 [h3 h4]]]]] := t_cmp pp hP hc (f %% m) (g %% m).
Qed.
Lemma q_eq_int f : gm_eq_int o (menc m f) 0 = Ok (m %| f) /\ gm_eq_int o (menc m f) 1 = Ok (f %% m == 1).
Proof. by split; [exact: (eq0_ok sp (encG _))|exact: (eq1_ok sp (encG _))]. Qed.
End M.
Lemma q_make0 f : gm_make o (enc f) (enc 0) = Exn.
Proof. exact: (make_0 sp (encG f) (encG 0)). Qed.
Lemma q_mixed m n f g : m != 0 -> n != 0 -> m != n ->
  gm_add o (menc m f) (menc n g) = Exn /\ gm_sub o (menc m f) (menc n g) = Exn /\ gm_mul o (menc m f) (menc n g) = Exn /\
  gm_div o (menc m f) (menc n g) = Exn /\ gm_rem o (menc m f) (menc n g) = Exn /\
  gm_ltb o (menc m f) (menc n g) = Exn /\ gm_leb o (menc m f) (menc n g) = Exn /\ gm_gtb o (menc m f) (menc n g) = Exn /\
  gm_geb o (menc m f) (menc n g) = Exn /\ gm_eqb o (menc m f) (menc n g) = Ok false.
Proof.
move=> m0 n0 mn; have := gmixed sp (mencM f m0) (mencM g n0) mn.
move=> [h1 [h2 [h3 [h4 [h5 [h6 [h7 [h8 [h9 h10]]]]]]]]].
have hk : gm_check o (menc m f) (menc n g) = Exn.
  exact: (check_mixed sp (mencM f m0) (mencM g n0) mn).
split; first by rewrite /gm_add hk.
split; first by rewrite /gm_sub hk.
split; first by rewrite /gm_mul hk.
split; first by rewrite /gm_div hk.
split; first by rewrite /gm_rem hk.
by [].
Qed.
Lemma menc_inj m f g : m != 0 -> menc m f = menc m g <-> m %| f - g.
Proof.
move=> m0; rewrite /dvdp modpD modpN subr_eq0; split=> [[/enc_inj ->]|/eqP e]; rewrite ?eqxx //.
by rewrite /gq_menc e.
Qed.
End T.

Section Final.
Variables (p : nat) (c : cache).
Hypothesis pp : prime p.
Hypothesis hP : (Z.of_nat p <= 46341)%coqZ.
Hypothesis hc : cache_valid c.
Variable G : gfq p.
Local Notation L := (gq_L G).
Local Notation enc := (@gq_enc p G).
Local Notation menc := (@gq_menc p G).
Local Notation el := (@gq_el p G).
Local Notation o := (fpn_kops c).

(* the constructor reduces; a zero modulus is rejected *)
Theorem C87_make : forall f m : {poly L}, m != 0 ->
  gm_make o (enc f) (enc m) = Ok (menc m f) /\ (size (f %% m)%R < size m)%N.
Proof. by move=> f m m0; rewrite (q_make pp hP hc m0) ltn_modp. Qed.
Theorem C87_make_zero : forall f : {poly L}, gm_make o (enc f) (enc 0) = Exn.
Proof. by move=> f; exact: (q_make0 pp hP hc). Qed.
(* two objects are the same exactly if the classes are *)
Theorem C87_canonical : forall f g m : {poly L}, m != 0 -> menc m f = menc m g <-> m %| f - g.
Proof. by move=> f g m; exact: menc_inj. Qed.
Theorem C87_ring : forall m : {poly L}, m != 0 -> forall f g : {poly L},
  gm_add o (menc m f) (menc m g) = Ok (menc m (f + g)) /\
  gm_mul o (menc m f) (menc m g) = Ok (menc m (f * g)) /\ gm_eqb o (menc m f) (menc m g) = Ok (m %| f - g).
Proof. by move=> m m0; exact: (q_ring pp hP hc m0). Qed.
(* subtraction: right exactly if the coefficients of the subtrahend's residue
   beyond the length of the minuend's lie in the prime field *)
Theorem C87_sub_partial : forall m : {poly L}, m != 0 -> forall f g : {poly L},
  (forall i, (maxn 1 (size (f %% m)%R) <= i)%N -> gq_prime (g %% m)`_i) ->
  gm_sub o (menc m f) (menc m g) = Ok (menc m (f - g)).
Proof. by move=> m m0; exact: (q_sub pp hP hc m0). Qed.
Theorem C87_sub_refuted : forall m : {poly L}, m != 0 -> forall (f g : {poly L}) i,
  (maxn 1 (size (f %% m)%R) <= i)%N -> ~~ gq_prime (g %% m)`_i -> gm_sub o (menc m f) (menc m g) = UB.
Proof. by move=> m m0; exact: (q_sub_ub pp hP hc m0). Qed.
Theorem C87_int : forall m : {poly L}, m != 0 -> forall (f : {poly L}) v, (INT_MIN < v <= INT_MAX)%coqZ ->
  gm_int o (menc m f) v = Ok (menc m ((int_of_Z v)%:~R)%:P) /\ fpn_pm_int_mod c v (enc m) = Ok (menc m ((int_of_Z v)%:~R)%:P).
Proof. by move=> m m0; exact: (q_int pp hP hc m0). Qed.
Theorem C87_recip_partial : forall m : {poly L}, m != 0 -> forall f : {poly L}, gm_recip o (menc m f) = UB \/
  if coprimep f m then exists u, gm_recip o (menc m f) = Ok (Some (menc m u)) /\ m %| f * u - 1
  else gm_recip o (menc m f) = Ok None.
Proof. by move=> m m0; exact: (q_recip pp hP hc m0). Qed.
(* coprimality is invertibility *)
Theorem C87_unit_iff : forall m f : {poly L}, coprimep f m <-> exists u, m %| f * u - 1.
Proof.
move=> m f; split=> [/Bezout_eq1_coprimepP [[u v] /= e]|[u /dvdpP [v e]]].
  by exists u; rewrite -e mulrC opprD addNKr -mulNr dvdp_mull.
by apply/Bezout_eq1_coprimepP; exists (u, - v); rewrite /= mulNr -e mulrC opprB addrC subrK.
Qed.
Theorem C87_div_partial : forall m : {poly L}, m != 0 -> forall f g : {poly L}, gm_div o (menc m f) (menc m g) = UB \/
  if coprimep g m then exists u, gm_div o (menc m f) (menc m g) = Ok (menc m u) /\ m %| u * g - f
  else gm_div o (menc m f) (menc m g) = Exn.
Proof. by move=> m m0; exact: (q_div pp hP hc m0). Qed.
Theorem C87_rem_partial : forall m : {poly L}, m != 0 -> forall f g : {poly L}, gm_rem o (menc m f) (menc m g) = UB \/
  gm_rem o (menc m f) (menc m g) = if coprimep g m then Ok (menc m 0) else Exn.
Proof. by move=> m m0; exact: (q_rem pp hP hc m0). Qed.
Theorem C87_exp : forall m : {poly L}, m != 0 -> forall (f : {poly L}) e,
  (0 <= e <= INT_MAX)%coqZ -> (e <> 0)%coqZ \/ ~~ (m %| f) -> gm_exp o (menc m f) e = Ok (menc m (f ^+ Z.to_nat e)).
Proof. by move=> m m0; exact: (q_exp pp hP hc m0). Qed.
Theorem C87_exp_zero : forall m : {poly L}, m != 0 -> forall (f : {poly L}) e,
  m %| f -> (e <= 0)%coqZ -> gm_exp o (menc m f) e = Exn.
Proof. by move=> m m0; exact: (q_exp_zero pp hP hc m0). Qed.
Theorem C87_exp_negative_partial : forall m : {poly L}, m != 0 -> forall (f : {poly L}) e,
  (- INT_MAX <= e < 0)%coqZ -> ~~ (m %| f) -> gm_exp o (menc m f) e = UB \/
  if coprimep f m then exists u, gm_exp o (menc m f) e = Ok (menc m (u ^+ Z.to_nat (- e))) /\ m %| f * u - 1
  else gm_exp o (menc m f) e = Exn.
Proof. by move=> m m0; exact: (q_exp_neg pp hP hc m0). Qed.
Theorem C87_exp_min_refuted : forall m : {poly L}, m != 0 -> forall f : {poly L}, ~~ (m %| f) ->
  gm_exp o (menc m f) INT_MIN = UB.
Proof. by move=> m m0; exact: (q_exp_min pp hP hc m0). Qed.
Theorem C87_mixed : forall m n f g : {poly L}, m != 0 -> n != 0 -> m != n ->
  gm_add o (menc m f) (menc n g) = Exn /\ gm_sub o (menc m f) (menc n g) = Exn /\ gm_mul o (menc m f) (menc n g) = Exn /\
  gm_div o (menc m f) (menc n g) = Exn /\ gm_rem o (menc m f) (menc n g) = Exn /\
  gm_ltb o (menc m f) (menc n g) = Exn /\ gm_leb o (menc m f) (menc n g) = Exn /\ gm_gtb o (menc m f) (menc n g) = Exn /\
  gm_geb o (menc m f) (menc n g) = Exn /\ gm_eqb o (menc m f) (menc n g) = Ok false.
Proof. exact: (q_mixed pp hP hc). Qed.
Theorem C87_compare : forall m : {poly L}, m != 0 -> forall f g : {poly L},
  gm_ltb o (menc m f) (menc m g) = Ok (gq_num (f %% m) < gq_num (g %% m))%N /\
  gm_leb o (menc m f) (menc m g) = Ok (gq_num (f %% m) <= gq_num (g %% m))%N /\
  gm_gtb o (menc m f) (menc m g) = Ok (gq_num (g %% m) < gq_num (f %% m))%N /\
  gm_geb o (menc m f) (menc m g) = Ok (gq_num (g %% m) <= gq_num (f %% m))%N.
Proof. by move=> m m0; exact: (q_cmp pp hP hc m0). Qed.
Theorem C87_eq_int : forall m : {poly L}, m != 0 -> forall f : {poly L},
  gm_eq_int o (menc m f) 0 = Ok (m %| f) /\ gm_eq_int o (menc m f) 1 = Ok (f %% m == 1).
Proof. by move=> m _; exact: (q_eq_int pp hP hc m). Qed.
(* unary minus: right exactly for constant residues lying in the prime field *)
Theorem C87_neg_partial : forall m : {poly L}, m != 0 -> forall f : {poly L},
  (size (f %% m)%R <= 1)%N -> gq_prime (f %% m)`_0 -> gm_neg o (menc m f) = Ok (menc m (- f)).
Proof. by move=> m m0 f h1 h2; rewrite (q_neg pp hP hc m0) h1 h2. Qed.
Theorem C87_neg_refuted : forall m : {poly L}, m != 0 -> forall f : {poly L},
  (1 < size (f %% m)%R)%N || ~~ gq_prime (f %% m)`_0 -> gm_neg o (menc m f) = UB.
Proof. by move=> m m0 f h; rewrite (q_neg pp hP hc m0) leqNgt; move: h; case: ltnP => //= _ /negbTE ->. Qed.
(* integer multiples: right for k >= 0; a negative k gives the class of 0 *)
Theorem C87_mul_int_partial : forall m : {poly L}, m != 0 -> forall (f : {poly L}) k, (0 <= k)%coqZ ->
  gm_mul_int_fpn o (menc m f) k = Ok (menc m (f *~ int_of_Z k)).
Proof.
move=> m m0 f k hk; rewrite (q_mul_int pp hP hc m0); congr (Ok (menc m _)).
by rewrite -[in RHS](Z2Nat.id k hk) int_nat.
Qed.
Theorem C87_mul_int_refuted : forall m : {poly L}, m != 0 -> forall (f : {poly L}) k, (k < 0)%coqZ ->
  gm_mul_int_fpn o (menc m f) k = Ok (menc m 0).
Proof.
move=> m m0 f k hk; rewrite (q_mul_int pp hP hc m0) (_ : Z.to_nat k = 0%N) ?mulr0n //.
by move: hk; clear; lia.
Qed.
End Final.

(* GF(9)[x] modulo the irreducible x^2 - (z+1) *)
Definition m9 (r : list (Z * Z)) : gmod fpc := mkgm (p9 r) (p9 [:: (2, 2); (0, 0); (1, 0)]%coqZ).
Local Notation k9 := (fpn_kops cache_init).
Example C87_ex :
  gm_make k9 (p9 [:: (0, 1); (0, 0); (1, 0)]%coqZ) (p9 [:: (2, 2); (0, 0); (1, 0)]%coqZ) = Ok (m9 [:: (1, 2)]%coqZ) /\
  gm_mul k9 (m9 [:: (0, 1); (1, 1)]%coqZ) (m9 [:: (0, 2); (1, 0)]%coqZ) = Ok (m9 [:: (1, 2); (1, 0)]%coqZ) /\
  gm_recip k9 (m9 [:: (0, 0); (1, 0)]%coqZ) = Ok (Some (m9 [:: (0, 0); (2, 1)]%coqZ)) /\
  gm_div k9 (m9 [:: (1, 0)]%coqZ) (m9 [:: (0, 0); (1, 0)]%coqZ) = Ok (m9 [:: (0, 0); (2, 1)]%coqZ) /\
  gm_exp k9 (m9 [:: (0, 1); (1, 1)]%coqZ) 80 = Ok (m9 [:: (1, 0)]%coqZ) /\
  gm_mul_int_fpn k9 (m9 [:: (0, 1); (1, 1)]%coqZ) 2 = Ok (m9 [:: (0, 2); (2, 2)]%coqZ).
Proof. by vm_compute. Qed.
(* the reciprocal, hence the quotient, the remainder and the inverse power by
   z + (z+1)x, an invertible element, are undefined *)
Theorem C87_recip_refuted :
  gm_recip k9 (m9 [:: (0, 1); (1, 1)]%coqZ) = UB /\
  gm_div k9 (m9 [:: (1, 0)]%coqZ) (m9 [:: (0, 1); (1, 1)]%coqZ) = UB /\
  gm_rem k9 (m9 [:: (1, 0)]%coqZ) (m9 [:: (0, 1); (1, 1)]%coqZ) = UB /\
  gm_exp k9 (m9 [:: (0, 1); (1, 1)]%coqZ) (-1) = UB.
Proof. by vm_compute. Qed.

Print Assumptions C87_ring.
Print Assumptions C87_recip_partial.
Print Assumptions C87_exp.
Print Assumptions C87_exp_negative_partial.
Print Assumptions C87_mul_int_refuted.
Print Assumptions C87_recip_refuted.
