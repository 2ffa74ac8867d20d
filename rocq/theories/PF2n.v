(* The residue classes of GF(2)[x] modulo an irreducible polynomial are the elements of a
   finite field; f2_polymod_t coefficients satisfy the requirements of PPoly.v. *)
From Verif Require Import Base MIntMath MIntmod MMat MBits PBits MF2Poly MF2Fac MPoly MPolyFac MF2nPoly PPow PF2Poly.
From mathcomp Require Import all_ssreflect fingroup perm all_algebra ssrZ.
From mathcomp Require Import falgebra fieldext finfield.
From Verif Require Import PBits3 PF2Poly2 PF2Poly3 PF2Poly4 PMat PPoly PPoly2 PPoly3 PPoly4 PPolyFac PF2Irr PF2Tot PFp PIrrGen.
From Verif Require PropF2Poly.
Set Implicit Arguments.
Unset Strict Implicit.
Unset Printing Implicit Defensive.
Import GRing.Theory FinVector.
Delimit Scope Z_scope with coqZ.
Local Open Scope ring_scope.

(* A finite field generated by a root of an irreducible polynomial gf_m over GF(2), with the
   objects gf_el that represent its elements: the object with residue r and modulus gf_m
   represents the value of r at the root. *)
Record gf2 := MkGf {
  gf_m : {poly 'F_2};
  gf_L : finFieldType;
  gf_emb : {rmorphism 'F_2 -> gf_L};
  gf_z : gf_L;
  gf_el : gf_L -> fpmod;
  gf_irr : irreducible_poly gf_m;
  gf_root : root (map_poly gf_emb gf_m) gf_z;
  gf_card : #|gf_L| = (2 ^ (size gf_m).-1)%N;
  gf_elP : forall a, exists2 r, isM (gf_el a) r gf_m & (map_poly gf_emb r).[gf_z] = a
}.

Lemma irr_coprime (F : fieldType) (r m : {poly F}) : irreducible_poly m -> r != 0 -> (size r < size m)%N -> coprimep r m.
Proof.
move=> [hs hi] r0 hr; rewrite /coprimep; apply/negPn/negP => h.
have /hi : size (gcdp r m) != 1%N by []. move/(_ (dvdp_gcdr _ _)) => e.
have : m %| r by rewrite -(eqp_dvdl _ e) dvdp_gcdl.
by move/(dvdp_leq r0); rewrite leqNgt hr.
Qed.

Section Ev.
Variables (m : {poly 'F_2}) (L : finFieldType) (emb : {rmorphism 'F_2 -> L}) (z : L).
Hypothesis mirr : irreducible_poly m.
Hypothesis mroot : root (map_poly emb m) z.
Hypothesis mcard : #|L| = (2 ^ (size m).-1)%N.
Definition ev (r : {poly 'F_2}) : L := (map_poly emb r).[z].
Lemma evD r s : ev (r + s) = ev r + ev s. Proof. by rewrite /ev rmorphD hornerD. Qed.
Lemma evB r s : ev (r - s) = ev r - ev s. Proof. by rewrite /ev rmorphB hornerD hornerN. Qed.
Lemma evN r : ev (- r) = - ev r. Proof. by rewrite /ev rmorphN hornerN. Qed.
Lemma evM r s : ev (r * s) = ev r * ev s. Proof. by rewrite /ev rmorphM hornerM. Qed.
Lemma ev0 : ev 0 = 0. Proof. by rewrite /ev rmorph0 horner0. Qed.
Lemma ev1 : ev 1 = 1. Proof. by rewrite /ev rmorph1 hornerC. Qed.
Lemma evX r n : ev (r ^+ n) = ev r ^+ n.
Proof. by elim: n => [|n IH]; rewrite ?expr0 ?ev1 // !exprS evM IH. Qed.
Lemma evC c : ev c%:P = emb c. Proof. by rewrite /ev map_polyC hornerC. Qed.
Lemma ev_mod r : ev (r %% m) = ev r.
Proof.
rewrite {2}(divp_eq r m) evD evM; have -> : ev m = 0 by apply/eqP.
by rewrite mulr0 add0r.
Qed.
Implicit Types r s : {poly 'F_2}.
Lemma ev_eq0 r : (size r < size m)%N -> (ev r == 0) = (r == 0).
Proof.
move=> hr; apply/eqP/eqP => [h|->]; last exact: ev0.
apply/eqP; apply: contraT => r0.
have /Bezout_eq1_coprimepP [[u v] /= e] := irr_coprime mirr r0 hr.
have : ev 1 = 0.
  by rewrite -e evD !evM h mulr0 add0r (_ : ev m = 0) ?mulr0 //; apply/eqP.
by move/eqP; rewrite ev1 oner_eq0.
Qed.
Lemma ev_inj r s : (size r < size m)%N -> (size s < size m)%N -> ev r = ev s -> r = s.
Proof.
move=> hr hs e; apply/eqP; rewrite -subr_eq0 -ev_eq0 ?evB ?e ?subrr //.
by apply: leq_ltn_trans (size_add _ _) _; rewrite size_opp gtn_max hr.
Qed.
Lemma msz : (1 < size m)%N. Proof. by case: mirr. Qed.
Lemma m_neq0 : m != 0. Proof. by rewrite -size_poly_gt0; apply: ltnW msz. Qed.
Lemma rV_lt (v : 'rV['F_2]_(size m).-1) : (size (rVpoly v) < size m)%N.
Proof. by apply: leq_ltn_trans (size_poly _ _) _; rewrite prednK ?size_poly_gt0 ?m_neq0. Qed.
Lemma ev_surj a : exists2 r : {poly 'F_2}, (size r < size m)%N & ev r = a.
Proof.
pose f (v : 'rV['F_2]_(size m).-1) := ev (rVpoly v).
have finj : injective f.
  by move=> v w /(ev_inj (rV_lt v) (rV_lt w)) e; rewrite -[v]rVpolyK -[w]rVpolyK e.
have : a \in codom f.
  by apply: inj_card_onto => //; rewrite mcard card_matrix card_Fp // mul1n.
by case/codomP => v ->; exists (rVpoly v) => //; exact: rV_lt.
Qed.
End Ev.

(* ---- numbers *)
Lemma valN_lt l p d : isP l p -> (size p <= d)%N <-> (valN l < 2 ^ N.of_nat d)%num.
Proof.
move=> hl; split=> [/leq_sizeP h|h].
  apply: N_bit_lt => j hj; rewrite -(N2Nat.id j); apply: (@Ib_inj _ false); rewrite -(coef_valN _ hl) h //.
  by apply/leP; lia.
by apply/leq_sizeP => j /leP hj; rewrite (coef_valN j hl) (N_bit_ge h) //; lia.
Qed.
Lemma valN_X l d : isP l 'X^d -> valN l = (2 ^ N.of_nat d)%num.
Proof.
move=> hl; apply: N.bits_inj => j; rewrite N.pow2_bits_eqb -(N2Nat.id j); apply: Ib_inj.
rewrite -(coef_valN _ hl) coefXn; case: N.eqb_spec => [/Nat2N.inj ->|ne]; first by rewrite eqxx.
by case: eqP => // e; case: ne; rewrite e.
Qed.

Section Coef.
Variables (m : {poly 'F_2}) (L : finFieldType) (emb : {rmorphism 'F_2 -> L}) (z : L).
Hypothesis mirr : irreducible_poly m.
Hypothesis mroot : root (map_poly emb m) z.
Hypothesis mcard : #|L| = (2 ^ (size m).-1)%N.
Implicit Types r s : {poly 'F_2}.
Local Notation ev := (ev emb z).
Definition Vg (x : fpmod) : Prop := exists r, isM x r m.
Definition Ig (x : fpmod) : L := ev (P (pm_res x)).
Definition kg (x : fpmod) : nat := N.to_nat (valN (pm_res x)).
Local Notation d := (size m).-1.

Lemma Ig_ev x r : isM x r m -> Ig x = ev r. Proof. by case=> -[_ <-]. Qed.
Lemma VgI c r : isM c r m -> forall a, ev r = a -> Vg c /\ Ig c = a.
Proof. by move=> h a <-; split; [exists r | exact: Ig_ev]. Qed.
Lemma ok1 (e : res fpmod) r a : (exists c, e = Ok c /\ isM c r m) -> ev r = a -> exists c, e = Ok c /\ Vg c /\ Ig c = a.
Proof. by case=> c [-> h] hr; exists c; split=> //; exact: VgI h _ hr. Qed.
Lemma int_F2 v : (int_of_Z v)%:~R = Ib (Z.odd v) :> 'F_2.
Proof.
have e : v = (2 * (v / 2) + Z.b2z (Z.odd v))%coqZ by rewrite {1}(Z.div_mod v 2) // Zdiv.Zmod_odd; case: Z.odd.
rewrite {1}e (rmorphD [rmorphism of int_of_Z]) (rmorphM [rmorphism of int_of_Z]) /= intrD intrM.
rewrite (_ : (int_of_Z 2)%:~R = 0 :> 'F_2); last exact/val_inj.
by rewrite mul0r add0r; case: (Z.odd v); apply/val_inj.
Qed.
Lemma cast_emb v : (int_of_Z v)%:~R = emb (Ib (Z.odd v)).
Proof. by rewrite -int_F2 rmorph_int. Qed.
Lemma V_int v lm : isP lm m -> exists c, pm_make (f2_of_int v) lm = Ok c /\ Vg c /\ Ig c = (int_of_Z v)%:~R.
Proof.
move=> hm; apply: ok1 (make_L (isP_L (isP_int v)) hm (m_neq0 mirr)) _.
by rewrite (ev_mod mroot) evC cast_emb.
Qed.
Lemma Ig_inj x y : Vg x -> Vg y -> Ig x = Ig y -> x = y.
Proof.
move=> [r hr] [s hs]; rewrite (Ig_ev hr) (Ig_ev hs) => /(ev_inj mirr mroot hr.2.2 hs.2.2) e.
by apply: isM_uniq hr _; rewrite e.
Qed.
Lemma coprime_nz x r : isM x r m -> Ig x != 0 -> r != 0 /\ coprimep r m.
Proof.
move=> h; rewrite (Ig_ev h) (ev_eq0 mirr mroot h.2.2) => r0; split=> //.
exact: irr_coprime mirr r0 h.2.2.
Qed.
Lemma ev_inv r t : ev r != 0 -> (r * t) %% m = 1 %% m -> ev t = (ev r)^-1.
Proof.
move=> r0 /(congr1 ev); rewrite !(ev_mod mroot) evM ev1 => e; apply: (mulfI r0); by rewrite e mulfV.
Qed.
Lemma kg_lt x : Vg x -> (kg x < #|L|)%N.
Proof.
move=> [r h]; rewrite mcard /kg.
have /(proj1 (valN_lt _ h.1)) : (size r <= d)%N by rewrite -ltnS prednK ?size_poly_gt0 ?(m_neq0 mirr) //; exact: h.2.2.
move: (valN _) => n; rewrite -(N2Nat.id n) => hn; apply/ltP; have := Zpow_nat d.
have := N2Z.inj_pow 2 (N.of_nat d); move: hn; rewrite nat_N_Z; clear.
move: (2 ^ d)%N => k; lia.
Qed.

Lemma f2n_cspec : cspec (k_c f2n_kops) Vg Ig.
Proof.
split.
- move=> x y [r hr] [s hs]; apply: ok1 (pm_add_ok hr hs) _; by rewrite evD (Ig_ev hr) (Ig_ev hs).
- move=> x y [r hr] [s hs]; apply: ok1 (pm_sub_ok hr hs) _; by rewrite evB (Ig_ev hr) (Ig_ev hs).
- move=> x y [r hr] [s hs]; apply: ok1 (pm_mul_ok hr hs) _; by rewrite (ev_mod mroot) evM (Ig_ev hr) (Ig_ev hs).
- move=> x [r hr]; apply: ok1 (pm_neg_ok hr) _; by rewrite evN (Ig_ev hr).
- move=> x y [r hr] [s hs] nz; have [s0 hc] := coprime_nz hs nz.
  rewrite /=; have [c [t [-> [ht e]]]] := pm_div_unit hr hs hc; exists c; split=> //; apply: VgI ht _ _.
  rewrite (Ig_ev hr) -e (ev_mod mroot) evM (Ig_ev hs) mulfK // -(Ig_ev hs) //.
- by move=> x y [r hr] [s hs]; rewrite /= (pm_eqb_ok hr hs) (Ig_ev hr) (Ig_ev hs); congr Ok;
    apply/eqP/eqP => [->//|/(ev_inj mirr mroot hr.2.2 hs.2.2)].
Qed.
Lemma ltb_ok x y : Vg x -> Vg y -> pm_ltb x y = Ok (kg x < kg y)%N.
Proof.
move=> [r hr] [s hs]; rewrite /pm_ltb (check_ok hr hs) eqxx bind_ok /f2_ltb cmp_valN; last 2 first.
- by case: hr => -[[]].
- by case: hs => -[[]].
rewrite bind_ok /kg; congr Ok; case: N.compare_spec => h; symmetry; apply/ltP; lia.
Qed.
Lemma gtb_ok x y : Vg x -> Vg y -> pm_gtb x y = Ok (kg y < kg x)%N.
Proof.
move=> [r hr] [s hs]; rewrite /pm_gtb (check_ok hr hs) eqxx bind_ok /f2_gtb cmp_valN; last 2 first.
- by case: hr => -[[]].
- by case: hs => -[[]].
rewrite bind_ok /kg; congr Ok; case: N.compare_spec => h; symmetry; apply/ltP; lia.
Qed.
Lemma int_nat n : int_of_Z (Z.of_nat n) = n%:Z. Proof. by rewrite -(Z_of_intK n). Qed.
Lemma kg_inj x y : Vg x -> Vg y -> kg x = kg y -> x = y.
Proof.
move=> [r hr] [s hs] e; have e' : pm_res x = pm_res y by apply: valN_inj; [case: hr => -[] | case: hs => -[] | move: e; rewrite /kg; lia].
have er : r = s by apply: isP_fun hr.1 _; rewrite e'; exact: hs.1.
by apply: isM_uniq hr _; rewrite er.
Qed.
Lemma f2n_kspec : kspec f2n_kops Vg Ig kg.
Proof.
split.
- exact: f2n_cspec.
- exact: Ig_inj.
- move=> x [r hr] nz; have [r0 hc] := coprime_nz hr nz.
  rewrite /=; have [c [t [-> [ht e]]]] := pm_recip_unit hr hc; exists c; split=> //; apply: VgI ht _ _.
  by rewrite (Ig_ev hr) in nz *; exact: ev_inv.
- by move=> x v [r hr] _; apply: V_int; case: hr => _ [].
- move=> x e [r hr] nz he; rewrite [k_exp _]/=; have [r0 hc] := coprime_nz hr nz; rewrite (Ig_ev hr) in nz *.
  case: (Z.lt_ge_cases e 0) => h.
    have [|c [t [u [-> [ht [h1 h2]]]]]] := pm_exp_neg hr _ r0 hc (e := e); first by move: he; rewrite /INT_MIN /INT_MAX; clear - h; lia.
    exists c; split=> //; apply: VgI ht _ _; rewrite h2 (ev_mod mroot) evX (ev_inv nz h1).
    have [n en] : exists n, e = (- Z.of_nat n)%coqZ by exists (Z.to_nat (- e)); lia.
    by rewrite en (rmorphN [rmorphism of int_of_Z]) /= int_nat -exprnN Z.opp_involutive Nat2Z.id exprVn.
  have [||c [-> hcc]] := pm_exp_pos hr (e := e); first by move: he; clear - h; lia.
    by right.
  exists c; split=> //; apply: VgI hcc _ _; rewrite (ev_mod mroot) evX.
  by rewrite -{2}(Z2Nat.id e h) int_nat.
- by move=> x [r hr]; rewrite /= (eq_0_P (isP_W hr.1)) (Ig_ev hr) (ev_eq0 mirr mroot hr.2.2).
- move=> x [r hr]; rewrite /= (eq_1_P (isP_W hr.1)) (Ig_ev hr); congr Ok.
  apply/eqP/eqP => [->|]; first exact: ev1.
  by rewrite -(ev1 emb z) => /(ev_inj mirr mroot hr.2.2); apply; rewrite size_poly1 (msz mirr).
- exact: ltb_ok.
- exact: gtb_ok.
- exact: kg_inj.
Qed.
Lemma kg_0 x : Vg x -> (kg x == 0)%N = (Ig x == 0).
Proof.
move=> [r hr]; rewrite (Ig_ev hr) (ev_eq0 mirr mroot hr.2.2) -size_poly_eq0 -(leqn0 (size r)) /kg.
have [h1 h2] := valN_lt 0%N hr.1; rewrite -[(2 ^ _)%num]/1%num in h1 h2.
by apply/eqP/idP => [h|/h1]; [apply: h2 | ]; lia.
Qed.
Lemma kg_1 x : Vg x -> Ig x = 1 -> kg x = 1%N.
Proof.
move=> [r hr]; rewrite (Ig_ev hr) -(ev1 emb z) => /(ev_inj mirr mroot hr.2.2) e.
have r1 : r = 1 by apply: e; rewrite size_poly1 (msz mirr).
by rewrite /kg (@valN_X _ 0%N) // expr0 -r1; case: hr.
Qed.
Lemma f2n_next_ok x : Vg x -> if (kg x < #|L|.-1)%N
  then exists y, k_next f2n_kops x = Ok (Some y) /\ Vg y /\ kg y = (kg x).+1 else k_next f2n_kops x = Ok None.
Proof.
move=> vx; have [r hr] := vx; have hm := hr.2.1.
rewrite /= /f2n_next (degree_thm (isP_W hm)) bind_ok.
have [|mx [-> hmx]] := set_bit_P (k := d) isP0; first by rewrite coef0.
rewrite add0r in hmx; rewrite bind_ok.
have hw : wok (pm_res x) by case: hr => -[[]].
have [r' [-> [w' [ev' ca]]]] := PF2Poly3.increment_ok _ hw; rewrite bind_ok.
have hr' : isP r' (P r') by split=> //; apply: ca; case: hr => -[].
rewrite (neqb_P (isP_W hr') (isP_W hmx)) bind_ok.
have vX := valN_X hmx.
have hq : #|L| = N.to_nat (2 ^ N.of_nat d).
  rewrite mcard; have := Zpow_nat d; have := N2Z.inj_pow 2 (N.of_nat d); rewrite nat_N_Z; lia.
have hlt := kg_lt vx; rewrite hq /kg in hlt *.
case: ltnP => hl.
  have hs : (size (P r') < size m)%N.
    rewrite -(prednK (_ : 0 < size m)%N) ?size_poly_gt0 ?(m_neq0 mirr) // ltnS.
    apply: (proj2 (valN_lt _ hr')); rewrite ev'; move/ltP: hl; lia.
  have -> : (P r' != 'X^d) by apply/eqP => e; move: hs; rewrite e size_polyXn prednK ?ltnn // size_poly_gt0 (m_neq0 mirr).
  have [y [-> hy]] := make_L (isP_L hr') hm (m_neq0 mirr); rewrite bind_ok modp_small // in hy *.
  exists y; split=> //; split; first by exists (P r').
  by rewrite (isP_uniq hy.1 hr') ev'; lia.
suff -> : P r' = 'X^d by rewrite eqxx.
have -> : r' = mx by apply: valN_inj; [case: hr' | case: hmx | rewrite vX ev'; move/leP: hl; move/ltP: hlt; lia].
by case: hmx.
Qed.
Lemma f2n_dflt x : R Vg Ig x 0 -> exists z1, k_int f2n_kops (k_dflt f2n_kops) 0 = Ok z1 /\ c_eqb (k_c f2n_kops) x z1 = Ok false.
Proof.
move=> [[r hr] _]; exists (mkpm (f2_of_int 0) (f2_of_int 1)); split; first by vm_compute.
have h1 : isM (mkpm (f2_of_int 0) (f2_of_int 1)) 0 1 by split; [exact: isP0 | split; [exact: isP1 | rewrite size_poly0 size_poly1]].
have ne : m != 1 by apply/eqP => e; have := msz mirr; rewrite e size_poly1.
rewrite [c_eqb _]/=; by have [_ [_ [_ [_ [_ [_ [_ [_ [_ ->]]]]]]]]] := pm_mixed hr h1 ne.
Qed.


Local Notation isG := (isG Vg Ig).
Lemma char2 : 2%N \in [char L].
Proof. by rewrite (fmorph_char emb) char_Fp. Qed.
Lemma d_gt0 : (0 < d)%N. Proof. by rewrite -ltnS prednK ?(msz mirr) // ltnW // (msz mirr). Qed.
Lemma f2n_square_root_ok l (f : {poly L}) : (Z.of_nat d <= 31)%coqZ -> isG l f ->
  (exists h g, f2n_square_root l = Ok (Some h) /\ isG h g /\ g ^+ 2 = f) \/
  (f2n_square_root l = Ok None /\ forall g : {poly L}, g ^+ 2 <> f).
Proof.
move=> hd hl; rewrite /f2n_square_root; have [x0 [e0 [[r0 hr0] _]]] := isG_get0 hl.
rewrite e0 bind_ok (degree_thm (isP_W hr0.2.1)) bind_ok.
have -> : (Z.of_nat d - 1)%coqZ = Z.of_nat d.-1 by have := d_gt0; lia.
rewrite ishl1_ok; last by have := d_gt0; clear - hd; lia.
rewrite bind_ok.
pose rt (a : L) := a ^+ (2 ^ d.-1)%N.
have rt2 a : rt a ^+ 2 = a by rewrite /rt -exprM -expnSr prednK ?d_gt0 // -mcard expf_card.
have hp := pow30 (k := d.-1) ltac:(clear - hd; lia).
have hr x a : R Vg Ig x a -> exists y, (fun x => pm_exp x (Z.of_nat (2 ^ d.-1)%N)) x = Ok y /\ R Vg Ig y (rt a).
  move=> [[r hr] <-]; have [||c [-> hc]] := pm_exp_pos hr (e := Z.of_nat (2 ^ d.-1)%N).
  - by rewrite /INT_MAX; clear - hp; lia.
  - by left; clear - hp; lia.
  by exists c; split=> //; apply: VgI hc _ _; rewrite (ev_mod mroot) evX Nat2Z.id (Ig_ev hr).
have rt0 : rt 0 = 0 by rewrite /rt expr0n; case: eqP => // e; move: (expn_gt0 2 d.-1); rewrite e.
have cc (g : {poly L}) j : (g ^+ 2)`_j = if (2 %| j)%N then g`_(j %/ 2) ^+ 2 else 0 by rewrite (coef_expchar char2).
have [[r [er [hz hg]]]|[er [j [hj nz]]]] := root_ok f2n_kspec f2n_dflt (isT : (1 < 2)%N) hr rt0 hl.
  left; exists r, (\poly_(i < size f) rt f`_(i * 2)); rewrite er; split=> //; split=> //; apply/polyP=> j; rewrite cc.
  case: ifP => [/dvdnP[k ->]|/negbT h]; last by rewrite hz.
  rewrite mulnK // coef_poly; case: ltnP => [_|h]; first exact: rt2.
  by rewrite expr0n /= nth_default //; apply: leq_trans h _; exact: leq_pmulr.
right; rewrite er; split=> // g hg; move: nz; rewrite -hg cc (negbTE hj); by rewrite eqxx.
Qed.
Definition gcst (n : Z) : L := ev (P (f2_from_base_rep (Z.to_N n))).
Lemma f2n_fs : (Z.of_nat d <= 30)%coqZ -> fspec Vg Ig f2n_facpar gcst 2.
Proof.
move=> hd; have hp := pow30 hd; split.
- move=> l p hl; rewrite /= /f2n_q; have [x0 [-> [[r0 hr0] _]]] := isG_get0 hl.
  by rewrite bind_ok (degree_thm (isP_W hr0.2.1)) bind_ok ishl1_ok // mcard.
- by rewrite mcard /INT_MAX; clear - hp; lia.
- move=> l p n hl; rewrite mcard => hn; rewrite /=; have [x0 [-> [[r0 hr0] _]]] := isG_get0 hl; rewrite bind_ok.
  have hP : isP (f2_from_base_rep (Z.to_N n)) (P (f2_from_base_rep (Z.to_N n))).
    by split=> //; apply: PropF2Poly.canon1; change (2 ^ 64)%num with 18446744073709551616%num; clear - hn hp; lia.
  have [c [-> hc]] := make_L (isP_L hP) hr0.2.1 (m_neq0 mirr); rewrite bind_ok.
  by apply: (const_ok f2n_kspec); apply: VgI hc _ _; rewrite (ev_mod mroot).
- move=> a; have [r hr <-] := ev_surj mirr mroot mcard a; have [l hl] := isP_exists r.
  have /(proj1 (valN_lt _ hl)) hv : (size r <= d)%N by rewrite -ltnS prednK ?size_poly_gt0 ?(m_neq0 mirr).
  have hk : (Z.of_N (valN l) < Z.of_nat #|L|)%coqZ.
    rewrite mcard Zpow_nat; have := N2Z.inj_pow 2 (N.of_nat d); rewrite nat_N_Z; clear - hv; lia.
  exists (Z.of_N (valN l)); first by split=> //; clear; lia.
  rewrite /gcst N2Z.id (_ : f2_from_base_rep (valN l) = l); first by case: hl => _ ->.
  apply: valN_inj; last by rewrite /=; clear; lia.
    by apply: PropF2Poly.canon1; move: hk; rewrite mcard; change (2 ^ 64)%num with 18446744073709551616%num; clear - hp; lia.
  by case: hl.
- by [].
- exact: char2.
- by move=> l p hl; apply: f2n_square_root_ok => //; clear - hd; lia.
Qed.
End Coef.

(* every irreducible polynomial gives such a field *)
Lemma gf2_exists m : irreducible_poly m -> exists G : gf2, gf_m G = m.
Proof.
move=> hm; have [L hdim [z hz hfull]] := irredp_FAdjoin hm.
pose F := FinFieldExtType L.
pose emb : {rmorphism 'F_2 -> F} := [rmorphism of in_alg L].
have hc : #|F| = (2 ^ (size m).-1)%N.
  have := @card_vspace [finFieldType of 'F_2] F _ {:L}%VS; rewrite card_vspacef => ->.
  by rewrite card_Fp // -hdim.
have [lm hlm] := isP_exists m.
have hex (a : F) : exists x : fpmod, exists2 r, isM x r m & (map_poly emb r).[z] = a.
  have [r hr <-] := @ev_surj m F emb z hm hz hc a; have [l hl] := isP_exists r.
  by exists (mkpm l lm), r.
have [el hel] := fin_all_exists hex.
by exists (@MkGf m F emb z el hm hz hc hel).
Qed.
