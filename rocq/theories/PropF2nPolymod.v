(* Final theorems for spffl/polynomials/f2n_polymod_t.cpp: residue classes GF(2^n)[x]/(m)
   for every non-zero modulus m (irreducible or not, monic or not).

   [g2_menc m f] is the object for the class of f modulo m: the remainder of f, of degree
   below that of m, together with m, both in the representation of PropF2nPoly.v. *)
From Verif Require Import Base MIntMath MIntmod MMat MF2Poly MF2Fac MPoly MPolymod MF2nPoly PF2Poly.
From mathcomp Require Import all_ssreflect fingroup perm all_algebra ssrZ.
From mathcomp Require Import finfield.
From Verif Require Import PF2Poly2 PF2Poly4 PMat PFp PPoly PPoly2 PPoly3 PPoly4 PF2n PPolymod PropF2nPoly.
Set Implicit Arguments.
Unset Strict Implicit.
Unset Printing Implicit Defensive.
Import GRing.Theory.
Delimit Scope Z_scope with coqZ.
Local Open Scope ring_scope.

Definition g2_menc (G : gf2) (m f : {poly gf_L G}) : gmod fpmod := mkgm (g2_enc (f %% m)) (g2_enc m).

Section T.
Variable G : gf2.
Local Notation L := (gf_L G).
Local Notation V := (Vg (gf_m G)).
Local Notation I := (@Ig L (gf_emb G) (gf_z G)).
Local Notation o := f2n_kops.
Local Notation enc := (@g2_enc G).
Local Notation menc := (@g2_menc G).
Local Notation el := (@gf_el G).
Let sp : kspec o V I kg := f2n_kspec (gf_irr G) (gf_root G) (gf_card G).
Implicit Types f g h m : {poly L}.

Lemma mencM m f : m != 0 -> isM V I (menc m f) (f %% m) m.
Proof. by move=> m0; split; [exact: encG|split; [exact: encG|rewrite ltn_modp]]. Qed.
Lemma Mmenc a r m : isM V I a r m -> a = menc m r.
Proof.
move=> h; apply: (isM_uniq sp h); have := @mencM m r (isM_m0 h).
by rewrite (isM_mod h).
Qed.
Lemma menc_mod m f : menc m (f %% m) = menc m f.
Proof. by rewrite /g2_menc modp_mod. Qed.
Lemma okM (e : res (gmod fpmod)) m f : (exists a, e = Ok a /\ isM V I a (f %% m) m) -> e = Ok (menc m f).
Proof. by case=> a [-> h]; rewrite (Mmenc h) menc_mod. Qed.

Section M.
Variable m : {poly L}.
Hypothesis m0 : m != 0.
Let hM f := @mencM m f m0.
Lemma q_make f : gm_make o (enc f) (enc m) = Ok (menc m f).
Proof. by apply: okM (make_ok sp (encG f) (encG m) m0). Qed.
Lemma q_ring f g :
  gm_add o (menc m f) (menc m g) = Ok (menc m (f + g)) /\ gm_sub o (menc m f) (menc m g) = Ok (menc m (f - g)) /\
  gm_mul o (menc m f) (menc m g) = Ok (menc m (f * g)) /\ gm_eqb o (menc m f) (menc m g) = Ok (m %| f - g).
Proof.
split; first by apply: okM; rewrite modpD; apply: (gadd_ok sp).
split; first by apply: okM; rewrite modpD modpN; apply: (gsub_ok sp).
split; first by apply: okM; rewrite -modp_mul -modp_mull2; apply: (gmul_ok sp).
by rewrite (geqb_ok sp (hM f) (hM g)) /dvdp modpD modpN subr_eq0.
Qed.
Lemma q_int f v : (INT_MIN < v <= INT_MAX)%coqZ ->
  gm_int o (menc m f) v = Ok (menc m ((int_of_Z v)%:~R)%:P) /\ f2n_mod_int v (enc m) = Ok (menc m ((int_of_Z v)%:~R)%:P).
Proof.
move=> hv; split; first by apply: okM (gint_ok sp (hM f) hv).
rewrite /f2n_mod_int t_get /=; have [r hr _] := gf_elP (m`_0); rewrite /f2n_make1.
have [x0 [-> k0]] := V_int (gf_irr G) (gf_root G) v hr.2.1; rewrite bind_ok (Rel k0).
by have [-> _] := t_make ((int_of_Z v)%:~R : L) 0 0; rewrite bind_ok q_make.
Qed.
Lemma q_neg f : (size (f %% m)%R <= 1)%N -> gm_neg o (menc m f) = Ok (menc m (- f)).
Proof. by move=> h; apply: okM; rewrite modpN; apply: (gneg_ok sp). Qed.
Lemma q_neg_ub f : (1 < size (f %% m)%R)%N -> gm_neg o (menc m f) = UB.
Proof. by move=> h; exact: (gneg_ub _ (hM f) h). Qed.
Lemma q_mul_int f k : f2n_mod_mul_int (menc m f) k = Ok (menc m (f *~ int_of_Z k)).
Proof.
have e (x : {poly L}) : x *~ int_of_Z k = if Z.odd k then x else 0.
  rewrite -scaler_int (cast_emb (gf_emb G)); case: Z.odd => /=; by rewrite ?rmorph1 ?rmorph0 ?scale1r ?scale0r.
rewrite e /f2n_mod_mul_int /gm_mul_int_f2n; case: Z.odd => //.
by have [_ [-> _]] := q_ring f f; rewrite subrr.
Qed.
Lemma cop_mod f : coprimep (f %% m) m = coprimep f m.
Proof. by rewrite coprimep_modl. Qed.
Lemma q_recip f : if coprimep f m then exists u, gm_recip o (menc m f) = Ok (Some (menc m u)) /\ m %| f * u - 1
  else gm_recip o (menc m f) = Ok None.
Proof.
case: ifPn => h; last by apply: (grecip_nonunit sp (hM f)); rewrite cop_mod.
have [|b [t [e [h1 h2]]]] := grecip_unit sp (hM f); first by rewrite cop_mod.
exists t; rewrite e (Mmenc h1); split=> //.
by rewrite /dvdp modpD modpN subr_eq0 -h2 modp_mull2.
Qed.
Lemma q_div f g : if coprimep g m then exists u, gm_div o (menc m f) (menc m g) = Ok (menc m u) /\ m %| u * g - f
  else gm_div o (menc m f) (menc m g) = Exn.
Proof.
case: ifPn => h; last by have [|//] := gdiv_nonunit sp (hM f) (hM g); rewrite cop_mod.
have [|b [t [e [h1 h2]]]] := gdiv_unit sp (hM f) (hM g); first by rewrite cop_mod.
exists t; rewrite e (Mmenc h1); split=> //.
by rewrite /dvdp modpD modpN subr_eq0 -h2 modp_mul.
Qed.
Lemma q_rem f g : gm_rem o (menc m f) (menc m g) = if coprimep g m then Ok (menc m 0) else Exn.
Proof.
case: ifPn => h; last by have [|//] := gdiv_nonunit sp (hM f) (hM g); rewrite cop_mod.
by apply: okM; rewrite mod0p; apply: (grem_unit sp (hM f) (hM g)); rewrite cop_mod.
Qed.
Lemma modpX f n : (f %% m) ^+ n %% m = f ^+ n %% m.
Proof. by elim: n => [//|n IH]; rewrite !exprS modp_mull2 -modp_mul IH modp_mul. Qed.
Lemma q_exp f e : (0 <= e <= INT_MAX)%coqZ -> (e <> 0)%coqZ \/ ~~ (m %| f) ->
  gm_exp o (menc m f) e = Ok (menc m (f ^+ Z.to_nat e)).
Proof. by move=> he hn; apply: okM; rewrite -modpX; apply: (gexp_pos sp (hM f)). Qed.
Lemma q_exp_zero f e : m %| f -> (e <= 0)%coqZ -> gm_exp o (menc m f) e = Exn.
Proof.
move=> /eqP h he; case: (Z.eq_dec e 0) => [->|ne]; first by apply: (gexp_00 sp (hM f)).
by apply: (gexp_neg0 sp (hM f)) => //; lia.
Qed.
Lemma q_exp_neg f e : (- INT_MAX <= e < 0)%coqZ -> ~~ (m %| f) ->
  if coprimep f m then exists u, gm_exp o (menc m f) e = Ok (menc m (u ^+ Z.to_nat (- e))) /\ m %| f * u - 1
  else gm_exp o (menc m f) e = Exn.
Proof.
move=> he nd; case: ifPn => h; last by apply: (gexp_neg_nonunit sp (hM f)) => //; rewrite cop_mod.
have [//||a [t [u [e' [h1 [h2 h3]]]]]] := gexp_neg sp (hM f) he; first by rewrite cop_mod.
exists u; rewrite e' (Mmenc h1) h3 menc_mod; split=> //.
by rewrite /dvdp modpD modpN subr_eq0 -h2 modp_mull2.
Qed.
Lemma q_exp_min f : ~~ (m %| f) -> gm_exp o (menc m f) INT_MIN = UB.
Proof. by move=> h; apply: (gexp_min sp (hM f)). Qed.
Lemma q_cmp f g :
  gm_ltb o (menc m f) (menc m g) = Ok (g2_num (f %% m) < g2_num (g %% m))%N /\
  gm_leb o (menc m f) (menc m g) = Ok (g2_num (f %% m) <= g2_num (g %% m))%N /\
  gm_gtb o (menc m f) (menc m g) = Ok (g2_num (g %% m) < g2_num (f %% m))%N /\
  gm_geb o (menc m f) (menc m g) = Ok (g2_num (g %% m) <= g2_num (f %% m))%N.
Proof.
rewrite /gm_ltb /gm_leb /gm_gtb /gm_geb (check_ok sp (hM f) (hM g)) !bind_ok.
by have [_ [_ [h1 [h2 [h3 h4]]]]] := t_cmp (f %% m) (g %% m).
Qed.
Lemma q_eq_int f : gm_eq_int o (menc m f) 0 = Ok (m %| f) /\ gm_eq_int o (menc m f) 1 = Ok (f %% m == 1).
Proof. by split; [exact: (eq0_ok sp (encG _))|exact: (eq1_ok sp (encG _))]. Qed.
End M.
Lemma q_make0 f : gm_make o (enc f) (enc 0) = Exn.
Proof. exact: (make_0 sp (encG f) (encG 0)). Qed.
Lemma q_mixed m n f g : m != 0 -> n != 0 -> m != n ->
  gm_add o (menc m f) (menc n g) = Exn /\ gm_sub o (menc m f) (menc n g) = Exn /\ gm_mul o (menc m f) (menc n g) = Exn /\
  gm_div o (menc m f) (menc n g) = Exn /\ gm_rem o (menc m f) (menc n g) = Exn /\
  gm_ltb o (menc m f) (menc n g) = Exn /\ gm_leb o (menc m f) (menc n g) = Exn /\ gm_gtb o (menc m f) (menc n g) = Exn /\
  gm_geb o (menc m f) (menc n g) = Exn /\ gm_eqb o (menc m f) (menc n g) = Ok false.
Proof. by move=> m0 n0; apply: (gmixed sp (mencM f m0) (mencM g n0)). Qed.
Lemma menc_inj m f g : m != 0 -> menc m f = menc m g <-> m %| f - g.
Proof.
move=> m0; rewrite /dvdp modpD modpN subr_eq0; split=> [[/enc_inj ->]|/eqP e]; rewrite ?eqxx //.
by rewrite /g2_menc e.
Qed.
End T.

Section Final.
Variable G : gf2.
Local Notation L := (gf_L G).
Local Notation enc := (@g2_enc G).
Local Notation menc := (@g2_menc G).
Local Notation el := (@gf_el G).
Local Notation o := f2n_kops.

(* the constructor reduces; a zero modulus is rejected *)
Theorem C67_make : forall f m : {poly L}, m != 0 ->
  gm_make o (enc f) (enc m) = Ok (menc m f) /\ (size (f %% m)%R < size m)%N.
Proof. by move=> f m m0; rewrite (q_make m0) ltn_modp. Qed.
Theorem C67_make_zero : forall f : {poly L}, gm_make o (enc f) (enc 0) = Exn.
Proof. by move=> f; exact: (q_make0). Qed.
(* two objects are the same exactly if the classes are *)
Theorem C67_canonical : forall f g m : {poly L}, m != 0 -> menc m f = menc m g <-> m %| f - g.
Proof. by move=> f g m; exact: menc_inj. Qed.
Theorem C67_ring : forall m : {poly L}, m != 0 -> forall f g : {poly L},
  gm_add o (menc m f) (menc m g) = Ok (menc m (f + g)) /\ gm_sub o (menc m f) (menc m g) = Ok (menc m (f - g)) /\
  gm_mul o (menc m f) (menc m g) = Ok (menc m (f * g)) /\ gm_eqb o (menc m f) (menc m g) = Ok (m %| f - g).
Proof. by move=> m m0; exact: (q_ring m0). Qed.
Theorem C67_int : forall m : {poly L}, m != 0 -> forall (f : {poly L}) v, (INT_MIN < v <= INT_MAX)%coqZ ->
  gm_int o (menc m f) v = Ok (menc m ((int_of_Z v)%:~R)%:P) /\ f2n_mod_int v (enc m) = Ok (menc m ((int_of_Z v)%:~R)%:P).
Proof. by move=> m m0; exact: (q_int m0). Qed.
Theorem C67_recip : forall m : {poly L}, m != 0 -> forall f : {poly L},
  if coprimep f m then exists u, gm_recip o (menc m f) = Ok (Some (menc m u)) /\ m %| f * u - 1
  else gm_recip o (menc m f) = Ok None.
Proof. by move=> m m0; exact: (q_recip m0). Qed.
(* coprimality is invertibility *)
Theorem C67_unit_iff : forall m f : {poly L}, coprimep f m <-> exists u, m %| f * u - 1.
Proof.
move=> m f; split=> [/Bezout_eq1_coprimepP [[u v] /= e]|[u /dvdpP [v e]]].
  by exists u; rewrite -e mulrC opprD addNKr -mulNr dvdp_mull.
by apply/Bezout_eq1_coprimepP; exists (u, - v); rewrite /= mulNr -e mulrC opprB addrC subrK.
Qed.
Theorem C67_div : forall m : {poly L}, m != 0 -> forall f g : {poly L},
  if coprimep g m then exists u, gm_div o (menc m f) (menc m g) = Ok (menc m u) /\ m %| u * g - f
  else gm_div o (menc m f) (menc m g) = Exn.
Proof. by move=> m m0; exact: (q_div m0). Qed.
Theorem C67_rem : forall m : {poly L}, m != 0 -> forall f g : {poly L},
  gm_rem o (menc m f) (menc m g) = if coprimep g m then Ok (menc m 0) else Exn.
Proof. by move=> m m0; exact: (q_rem m0). Qed.
Theorem C67_exp : forall m : {poly L}, m != 0 -> forall (f : {poly L}) e,
  (0 <= e <= INT_MAX)%coqZ -> (e <> 0)%coqZ \/ ~~ (m %| f) -> gm_exp o (menc m f) e = Ok (menc m (f ^+ Z.to_nat e)).
Proof. by move=> m m0; exact: (q_exp m0). Qed.
Theorem C67_exp_zero : forall m : {poly L}, m != 0 -> forall (f : {poly L}) e,
  m %| f -> (e <= 0)%coqZ -> gm_exp o (menc m f) e = Exn.
Proof. by move=> m m0; exact: (q_exp_zero m0). Qed.
Theorem C67_exp_negative : forall m : {poly L}, m != 0 -> forall (f : {poly L}) e,
  (- INT_MAX <= e < 0)%coqZ -> ~~ (m %| f) ->
  if coprimep f m then exists u, gm_exp o (menc m f) e = Ok (menc m (u ^+ Z.to_nat (- e))) /\ m %| f * u - 1
  else gm_exp o (menc m f) e = Exn.
Proof. by move=> m m0; exact: (q_exp_neg m0). Qed.
Theorem C67_exp_min_refuted : forall m : {poly L}, m != 0 -> forall f : {poly L}, ~~ (m %| f) ->
  gm_exp o (menc m f) INT_MIN = UB.
Proof. by move=> m m0; exact: (q_exp_min m0). Qed.
Theorem C67_mixed : forall m n f g : {poly L}, m != 0 -> n != 0 -> m != n ->
  gm_add o (menc m f) (menc n g) = Exn /\ gm_sub o (menc m f) (menc n g) = Exn /\ gm_mul o (menc m f) (menc n g) = Exn /\
  gm_div o (menc m f) (menc n g) = Exn /\ gm_rem o (menc m f) (menc n g) = Exn /\
  gm_ltb o (menc m f) (menc n g) = Exn /\ gm_leb o (menc m f) (menc n g) = Exn /\ gm_gtb o (menc m f) (menc n g) = Exn /\
  gm_geb o (menc m f) (menc n g) = Exn /\ gm_eqb o (menc m f) (menc n g) = Ok false.
Proof. exact: (q_mixed). Qed.
Theorem C67_compare : forall m : {poly L}, m != 0 -> forall f g : {poly L},
  gm_ltb o (menc m f) (menc m g) = Ok (g2_num (f %% m) < g2_num (g %% m))%N /\
  gm_leb o (menc m f) (menc m g) = Ok (g2_num (f %% m) <= g2_num (g %% m))%N /\
  gm_gtb o (menc m f) (menc m g) = Ok (g2_num (g %% m) < g2_num (f %% m))%N /\
  gm_geb o (menc m f) (menc m g) = Ok (g2_num (g %% m) <= g2_num (f %% m))%N.
Proof. by move=> m m0; exact: (q_cmp m0). Qed.
Theorem C67_eq_int : forall m : {poly L}, m != 0 -> forall f : {poly L},
  gm_eq_int o (menc m f) 0 = Ok (m %| f) /\ gm_eq_int o (menc m f) 1 = Ok (f %% m == 1).
Proof. by move=> m _; exact: (q_eq_int m). Qed.
(* unary minus: correct for constant residues only *)
Theorem C67_neg_partial : forall m : {poly L}, m != 0 -> forall f : {poly L},
  (size (f %% m)%R <= 1)%N -> gm_neg o (menc m f) = Ok (menc m (- f)).
Proof. by move=> m m0; exact: (q_neg m0). Qed.
Theorem C67_neg_refuted : forall m : {poly L}, m != 0 -> forall f : {poly L},
  (1 < size (f %% m)%R)%N -> gm_neg o (menc m f) = UB.
Proof. by move=> m m0; exact: (q_neg_ub m0). Qed.
(* integer multiples, negative ones included *)
Theorem C67_mul_int : forall m : {poly L}, m != 0 -> forall (f : {poly L}) k,
  f2n_mod_mul_int (menc m f) k = Ok (menc m (f *~ int_of_Z k)).
Proof. by move=> m m0; exact: (q_mul_int m0). Qed.
End Final.


(* GF(4)[x] modulo the irreducible x^2 + x + z and modulo the reducible x^2 + z *)
Definition m4 (r m : list N) : gmod fpmod := mkgm (e4 r) (e4 m).
Example C67_ex :
  gm_make f2n_kops (e4 [:: 3; 1; 2]%num) (e4 [:: 2; 1; 1]%num) = Ok (m4 [:: 0; 3]%num [:: 2; 1; 1]%num) /\
  gm_mul f2n_kops (m4 [:: 3; 1]%num [:: 2; 1; 1]%num) (m4 [:: 2; 3]%num [:: 2; 1; 1]%num)
    = Ok (m4 [:: 0; 3]%num [:: 2; 1; 1]%num) /\
  gm_recip f2n_kops (m4 [:: 3; 1]%num [:: 2; 1; 1]%num) = Ok (Some (m4 [:: 3; 2]%num [:: 2; 1; 1]%num)) /\
  gm_recip f2n_kops (m4 [:: 3; 1]%num [:: 2; 0; 1]%num) = Ok None /\
  gm_exp f2n_kops (m4 [:: 3; 1]%num [:: 2; 1; 1]%num) 15 = Ok (m4 [:: 1%num] [:: 2; 1; 1]%num) /\
  f2n_mod_mul_int (m4 [:: 3; 1]%num [:: 2; 1; 1]%num) (-1) = Ok (m4 [:: 3; 1]%num [:: 2; 1; 1]%num) /\
  gm_neg f2n_kops (m4 [:: 3; 1]%num [:: 2; 1; 1]%num) = UB.
Proof. by vm_compute. Qed.

Print Assumptions C67_ring.
Print Assumptions C67_recip.
Print Assumptions C67_exp_negative.
Print Assumptions C67_mul_int.
