(* Final theorems for spffl/units/f2n_polymod_units.cpp: the units of GF(2^n)[x]/(m).
   [g2_enc] and [g2_menc] are as in PropF2nPoly.v and PropF2nPolymod.v. *)
From Verif Require Import Base MIntMath MIntmod MMat MFac MF2Poly MF2Fac MPoly MPolymod MPolyFac MUnits MF2nPoly PIntMath PFacGen PFacInt PUnits PSort PF2Poly.
From mathcomp Require Import all_ssreflect fingroup perm all_algebra ssrZ.
From mathcomp Require Import finfield separable.
From Verif Require Import PF2Poly2 PF2Poly3 PF2Poly4 PMat PFp PPoly PPoly2 PPoly3 PPoly4 PF2n PFacPoly PPolyFac PPolyFac2 PPolyFac3 PIrrGen PPhi PEuler PPolymod PropF2nPoly PropF2nPolymod PropF2nFac.
From Verif Require PF2Fac2 PF2Tot PropF2Poly.
Set Implicit Arguments.
Unset Strict Implicit.
Unset Printing Implicit Defensive.
Import GRing.Theory.
Delimit Scope Z_scope with coqZ.
Local Open Scope ring_scope.

Section T.
Variable G : gf2.
Local Notation L := (gf_L G).
Local Notation n := (size (gf_m G)).-1.
Local Notation V := (Vg (gf_m G)).
Local Notation I := (@Ig L (gf_emb G) (gf_z G)).
Local Notation o := f2n_kops.
Local Notation enc := (@g2_enc G).
Local Notation menc := (@g2_menc G).
Let sp : kspec o V I kg := f2n_kspec (gf_irr G) (gf_root G) (gf_card G).
Implicit Types f g h m : {poly L}.

Lemma eqb_pow m f g : m != 0 -> gm_eqb o (menc m f) (menc m g) = Ok (f %% m == g %% m).
Proof. by move=> m0; have [_ [_ [_ ->]]] := q_ring m0 f g; rewrite -modp_eq. Qed.
Lemma mod_coprime m f : coprimep (f %% m)%R m = coprimep f m.
Proof. by rewrite coprimep_sym coprimep_modr coprimep_sym. Qed.
Lemma powmod m f d : ((f %% m) ^+ d %% m)%R = (f ^+ d %% m)%R.
Proof. by elim: d => [|d IH]; rewrite ?expr0 // !exprS modp_mull2 -modp_mul IH modp_mul. Qed.
Lemma pol1 m : gp_int o (enc m) 1 = Ok (enc 1).
Proof. by rewrite t_int //; congr (Ok (enc _)); rewrite -[int_of_Z 1]/(1%:Z) polyC1. Qed.

Lemma gcd_monic f m : m != 0 -> exists x g, gp_gcd o (enc f) (enc m) = Ok x /\ gp_monic o x = Ok (enc g) /\
  (g == 1) = coprimep f m.
Proof.
move=> m0; have [d [-> hd]] := t_gcd f m; exists (enc d).
have d0 : d != 0 by rewrite -size_poly_eq0 (eqp_size hd) size_poly_eq0 gcdp_eq0 negb_and m0 orbT.
have [r [-> hr]] := monic_ok sp (encG d) d0; exists (monicp d); rewrite (Genc hr); split=> //; split=> //.
rewrite coprimep_def -(eqp_size hd); apply/eqP/idP => [e|/eqP hs].
  by have := size_monicp d; rewrite e size_poly1 => <-.
have := monicp_monic d0; move/monicP; rewrite /lead_coef size_monicp hs /= => e.
by rewrite [LHS]size1_polyC ?size_monicp ?hs // e.
Qed.
Lemma order_nonunit m f : m != 0 -> ~~ coprimep f m -> f2n_order (menc m f) = Exn.
Proof.
move=> m0 hc; rewrite /f2n_order /=; have [x [g [e1 [e2 hg]]]] := gcd_monic (f %% m) m0.
rewrite e1 bind_ok e2 bind_ok pol1 bind_ok {x e1 e2}.
by have [_ [-> _]] := t_cmp g 1; rewrite bind_ok hg mod_coprime hc.
Qed.

Section M.
Hypothesis n30 : (Z.of_nat n <= 30)%coqZ.
Variables m f : {poly L}.
Hypothesis m0 : m != 0.
Hypothesis hn : (Z.of_nat n * Z.of_nat (size m).-1 <= 15)%coqZ.
Lemma phi_tot : f2n_totient (enc m) = Ok (Z.of_nat (phi m)).
Proof. by rewrite t_totient // ?units_phi //; move: hn; clear; lia. Qed.
Lemma phi_small : (0 < Z.of_nat (phi m) <= 32768)%coqZ.
Proof.
split; first by have := phi_gt0 m0 => /ltP; clear; lia.
have := phi_le m => /leP /inj_le; rewrite Zcard => h; apply: Z.le_trans h _.
by rewrite -[32768%coqZ]/(2 ^ 15)%coqZ; apply: Z.pow_le_mono_r.
Qed.
Let pw (d : Z) : bool := f ^+ Z.to_nat d %% m == 1 %% m.
Lemma pw_0 : pw 0 = true.
Proof. by rewrite /pw expr0 eqxx. Qed.
Lemma pw_add x y : (0 <= x)%coqZ -> (0 <= y)%coqZ -> pw x = true -> pw (x + y) = pw y.
Proof.
move=> hx hy /eqP e; rewrite /pw Z2Nat.inj_add // plusE exprD mulrC -modp_mul e modp_mul mulr1 //.
Qed.
Lemma least_order k : least_exp pw k -> has_order m f (Z.to_nat k).
Proof.
move=> [h1 [/eqP h2 h3]]; split=> //; first by apply/ltP; lia.
move=> j /andP [/ltP j0 /ltP hj] e; have := h3 (Z.of_nat j); rewrite /pw Nat2Z.id e eqxx; lia.
Qed.
Lemma order_thm : coprimep f m -> exists k, f2n_order (menc m f) = Ok (Z.of_nat k) /\ has_order m f k.
Proof.
move=> hc; rewrite /f2n_order /=; have [x [g [e1 [e2 hg]]]] := gcd_monic (f %% m) m0.
rewrite e1 bind_ok e2 bind_ok pol1 bind_ok {x e1 e2}.
have [_ [-> _]] := t_cmp g 1; rewrite bind_ok hg mod_coprime hc /= phi_tot bind_ok.
have [ph0 ph1] := phi_small.
have [||fc [ds [e1 [e2 [h1 h2]]]]] := int_all_divisors (Z.of_nat (phi m)).
- by move: ph0; clear; lia.
- by move: ph0 ph1; rewrite /INT_MAX; clear; nia.
rewrite e1 bind_ok e2 bind_ok q_make // bind_ok.
have ep : pw (Z.of_nat (phi m)) = true.
  by rewrite /pw Nat2Z.id; apply/eqP; apply: euler => //; rewrite coprimep_sym.
have [|k [-> [hk _]]] := order_loop_least pw pw_0 pw_add (gm_exp o (menc m f)) (fun ap => gm_eqb o ap (menc m 1)) ds _ ph0 ep h1 h2.
  move=> d hd'; exists (menc m (f ^+ Z.to_nat d)); rewrite q_exp //.
  - by rewrite eqb_pow.
  - by move: ph1 hd'; rewrite /INT_MAX; clear; lia.
  - by left; move: hd'; clear; lia.
exists (Z.to_nat k); split; last exact: least_order.
by rewrite Z2Nat.id //; case: hk; lia.
Qed.
End M.

(* ---- generators *)
Lemma num0 : g2_num (0 : {poly L}) = 0%N.
Proof. by rewrite /g2_num size_poly0 big_ord0. Qed.
Lemma num1 : g2_num (1 : {poly L}) = 1%N.
Proof.
rewrite /g2_num size_poly1 big_ord_recl big_ord0 addn0 expn0 muln1 coef1 /=.
by have [v i] := elR (1 : L); exact: (kg1 v i).
Qed.
Lemma num_eq0 f : (g2_num f == 0)%N = (f == 0).
Proof. by apply/eqP/eqP => [e|->]; [apply: num_inj; rewrite num0|exact: num0]. Qed.
Lemma num_size f d : (0 < d)%N -> (size f <= d)%N = (g2_num f < #|L| ^ d)%N.
Proof.
have q1 := L_gt1 G.
have lt f' : (g2_num f' < #|L| ^ size f')%N.
  case: (eqVneq f' 0) => [->|f0]; first by rewrite num0 size_poly0.
  rewrite -num_gval; have := gval_lt (@kglt G) (Rr_V (encG f')).
  by rewrite /g2_enc size_map (negbTE f0).
move=> d0; apply/idP/idP => [h|h].
  by apply: leq_trans (lt f) _; rewrite leq_exp2l.
rewrite leqNgt; apply/negP => hs; case e: (size f) => [|k]; first by rewrite e in hs.
have k0 : (0 < k)%N by rewrite e in hs; apply: leq_trans d0 _.
have /(proj1 (gv_size (@kglt G) (@kg0 G) (encG f) k0)) : size f = k.+1 by [].
rewrite num_gval => /andP [h1 _].
have := leq_ltn_trans h1 h; rewrite ltn_exp2l //; rewrite e ltnS in hs; by rewrite ltnNge hs.
Qed.
Lemma find_gen_irr m : irreducible_poly m -> (Z.of_nat n * Z.of_nat (size m).-1 <= 15)%coqZ ->
  exists g, [/\ f2n_find_generator (enc m) = Ok (Some (menc m g)), (size g < size m)%N, coprimep g m, generates m g &
    forall h, (size h < size m)%N -> coprimep h m -> generates m h -> (g2_num g <= g2_num h)%N].
Proof.
move=> hirr hn; have [hsz _] := hirr; have m0 : m != 0 by rewrite -size_poly_gt0 ltnW.
have n30 : (Z.of_nat n <= 30)%coqZ.
  have : (1 <= Z.of_nat (size m).-1)%coqZ by case: (size m) hsz => [|[|k]] // _; clear; lia.
  move: hn; clear; nia.
have [gg [cg hg]] := gen_exists hirr.
set d := (size m).-1 in hn *.
have hd1 : (0 < d)%N by rewrite /d; case: (size m) hsz => [|[|k]].
have hsm : size m = d.+1 by rewrite /d prednK // size_poly_gt0.
rewrite /f2n_find_generator pol1 bind_ok (degG (encG m)) -/d.
have -> : Nat.ltb d 1 = false by apply/Nat.ltb_ge; apply/leP.
rewrite phi_tot // bind_ok.
have [x0 [-> [[r0 hr0] _]]] := isG_get0 (encG m); rewrite bind_ok (degree_thm (isP_W hr0.2.1)) bind_ok.
have gen_mod p : generates m (p %% m)%R <-> generates m p.
  by split=> h q hq; have [j ej] := h q hq; exists j; rewrite ej powmod.
pose tt : {poly L} := (gg %% m)%R.
pose isgen (p : {poly L}) := [/\ (size p < size m)%N, coprimep p m & generates m p].
have hgt : isgen tt by split; [rewrite ltn_modp|rewrite mod_coprime coprimep_sym|apply/gen_mod].
pose Inv (rv : gpoly) := exists p : {poly L}, [/\ rv = enc p, p != 0, (g2_num p <= g2_num tt)%N &
   forall q, isgen q -> (g2_num p <= g2_num q)%N].
pose Post (x : option (gmod fpmod)) := exists g : {poly L}, [/\ x = Some (menc m g), isgen g &
   forall q, isgen q -> (g2_num g <= g2_num q)%N].
pose mu (rv : gpoly) := (g2_num tt - gval kg #|L| rv)%N.
have ttd : (g2_num tt < #|L| ^ d)%N by rewrite -num_size //; case: hgt; rewrite hsm ltnS.
have [|||r [-> [g [-> [k1 k2 k3] k4]]]] := @loop_total gpoly (option (gmod fpmod)) (f2n_gen_step (enc m) (Z.of_nat (phi m))) Inv mu Post _
   (S (Nat.pow (Nat.pow 2 n) d)) (enc 1); last by exists g; split=> // h h1 h2 h3; apply: k4.
- move=> rv [p [-> p0 hv hm]]; rewrite /f2n_gen_step !(degG (encG _)) -/d.
  have hs : (size p <= d)%N by rewrite num_size //; apply: leq_ltn_trans ttd.
  have -> : Nat.ltb (size p).-1 d = true.
    by apply/Nat.ltb_lt; apply/ltP; rewrite prednK // size_poly_gt0.
  rewrite q_make // bind_ok.
  have hpm : (size p < size m)%N by rewrite hsm ltnS.
  have cp : coprimep p m by apply: PF2n.irr_coprime.
  have [k [-> hk]] := order_thm n30 m0 hn cp; rewrite bind_ok.
  have cp' : coprimep m p by rewrite coprimep_sym.
  have hiff := order_generates m0 cp' hk.
  case: Z.eqb_spec => [/Nat2Z.inj /hiff hgen|ne].
    by right; exists (Some (menc m p)); split=> //; exists p; split.
  have ngen : ~ generates m p by move=> /hiff e; apply: ne; rewrite e.
  have [p1 [-> v1]] := t_inc p; rewrite bind_ok; left; exists (enc p1); split=> //.
  have key (q : {poly L}) : isgen q -> (g2_num p1 <= g2_num q)%N.
    move=> hq; rewrite v1 ltn_neqAle hm // andbT; apply/eqP => /num_inj e.
    by apply: ngen; rewrite e; case: hq.
  have kt := key _ hgt; split; last by rewrite /mu !num_gval v1; rewrite v1 in kt; apply/ltP; move/leP: kt; clear; lia.
  by exists p1; split=> //; apply/eqP => p10; move: v1; rewrite p10 num0.
- exists 1; split=> //; first exact: oner_neq0.
    by rewrite num1 lt0n num_eq0; case: hgt => _ + _; apply: contraTneq => ->; rewrite coprime0p -size_poly_eq1 hsm; case: d hd1 {Inv mu Post hsm ttd hn}.
  move=> q [_ hc _]; rewrite num1 lt0n num_eq0; apply: contraTneq hc => ->; rewrite coprime0p -size_poly_eq1 hsm; by case: d hd1 {Inv mu Post hsm ttd hn}.
have pwE a b : Nat.pow a b = (a ^ b)%N by elim: b => [|k IH] //=; rewrite IH expnS.
apply/ltP; rewrite /mu !pwE -gf_card ltnS; apply: leq_trans (leq_subr _ _) _; exact: ltnW.
Qed.

(* the search stops with an exception at the first element that is not a unit *)
Lemma loop_exn A B (step : A -> res (A + B)) (Inv : A -> Prop) (mu : A -> nat) :
  (forall s, Inv s -> step s = Exn \/ exists s', [/\ step s = Ok (inl s'), Inv s' & (mu s' < mu s)%N]) ->
  forall fuel s, Inv s -> (mu s < fuel)%N -> loop fuel step s = Exn.
Proof.
move=> h; elim=> [|k IH] s hs hm //=; have [->//|[s' [-> h1 h2]]] := h s hs.
by apply: IH => //; apply: leq_trans h2 hm.
Qed.
Lemma find_gen_exn m h : (1 < size m)%N -> (Z.of_nat n <= 30)%coqZ -> (Z.of_nat n * Z.of_nat (size m).-1 <= 15)%coqZ ->
  h != 0 -> (size h < size m)%N -> ~~ coprimep h m ->
  (forall g, (size g < size m)%N -> coprimep g m -> generates m g -> (g2_num h < g2_num g)%N) ->
  f2n_find_generator (enc m) = Exn.
Proof.
move=> hsz n30 hn h0 hs hc hgen; have m0 : m != 0 by rewrite -size_poly_gt0 ltnW.
set d := (size m).-1 in hn *.
have hd1 : (0 < d)%N by rewrite /d; case: (size m) hsz => [|[|k]].
have hsm : size m = d.+1 by rewrite /d prednK // size_poly_gt0.
rewrite /f2n_find_generator pol1 bind_ok (degG (encG m)) -/d.
have -> : Nat.ltb d 1 = false by apply/Nat.ltb_ge; apply/leP.
rewrite phi_tot // bind_ok.
have [x0 [-> [[r0 hr0] _]]] := isG_get0 (encG m); rewrite bind_ok (degree_thm (isP_W hr0.2.1)) bind_ok.
pose Inv (rv : gpoly) := exists p : {poly L}, [/\ rv = enc p, p != 0 & (g2_num p <= g2_num h)%N].
pose mu (rv : gpoly) := (g2_num h - gval kg #|L| rv)%N.
have hhd : (g2_num h < #|L| ^ d)%N by rewrite -num_size // -ltnS -hsm.
apply: (@loop_exn _ _ _ Inv mu).
- move=> rv [p [-> p0 hv]]; rewrite /f2n_gen_step !(degG (encG _)) -/d.
  have hps : (size p <= d)%N by rewrite num_size //; apply: leq_ltn_trans hhd.
  have -> : Nat.ltb (size p).-1 d = true.
    by apply/Nat.ltb_lt; apply/ltP; rewrite prednK // size_poly_gt0.
  rewrite q_make // bind_ok.
  have hpm : (size p < size m)%N by rewrite hsm ltnS.
  have [cp|cp] := boolP (coprimep p m); last by left; rewrite order_nonunit.
  have [k [-> hk]] := order_thm n30 m0 hn cp; rewrite bind_ok.
  have cp' : coprimep m p by rewrite coprimep_sym.
  have hiff := order_generates m0 cp' hk.
  case: Z.eqb_spec => [/Nat2Z.inj /hiff hg|ne].
    by have := hgen p hpm cp hg; rewrite ltnNge hv.
  have [p1 [-> v1]] := t_inc p; rewrite bind_ok; right; exists (enc p1).
  have hlt : (g2_num p < g2_num h)%N.
    by rewrite ltn_neqAle hv andbT; apply/eqP => /num_inj e; move: hc; rewrite -e cp.
  split=> //.
    exists p1; split=> //; first by apply/eqP => p10; move: v1; rewrite p10 num0.
    by rewrite v1.
  by rewrite /mu !num_gval v1; apply/ltP; move/ltP: hlt; clear; lia.
- exists 1; split=> //; first exact: oner_neq0.
  by rewrite num1 lt0n num_eq0.
have pwE a b : Nat.pow a b = (a ^ b)%N by elim: b => [|k IH] //=; rewrite IH expnS.
by rewrite /mu !pwE -gf_card ltnS; apply: leq_trans (leq_subr _ _) _; exact: ltnW.
Qed.
Lemma find_gen_X2 : (2 * Z.of_nat n <= 15)%coqZ -> f2n_find_generator (enc ('X^2)) = Exn.
Proof.
move=> hn; have sX : size ('X^2 : {poly L}) = 3%N by rewrite size_polyXn.
apply: (@find_gen_exn _ 'X).
- by rewrite sX.
- by move: hn; clear; lia.
- by rewrite sX -[Z.of_nat 3.-1]/(2%coqZ); move: hn; clear; lia.
- by rewrite polyX_eq0.
- by rewrite sX size_polyX.
- by rewrite coprimep_sym coprimep_pexpl // coprimepp size_polyX.
move=> g hs hc hg; have nX : (g2_num ('X : {poly L}) = #|L| ^ 1)%N.
  rewrite /g2_num size_polyX !big_ord_recl big_ord0 !coefX /= expn0 expn1 muln1 addn0.
  have [v0 i0] := elR (0 : L); have [v1 i1] := elR (1 : L).
  have e0 : kg (gf_el (0 : L)) = 0%N by apply/eqP; rewrite (kg0 v0) i0.
  rewrite -[g2_val 0]/(kg (gf_el (0 : L))) -[g2_val 1]/(kg (gf_el (1 : L))) e0 (kg1 v1 i1).
  by rewrite add0n mul1n.
have [h1|h1] := leqP (size g) 1.
  have hu : coprimep ('X^2 : {poly L}) ('X + 1).
    by apply: coprimep_expl; apply/coprimepP => e e1 e2; rewrite -size_poly_eq1 -dvdp1 -(dvdp_addr _ e1).
  have [j ej] := hg _ hu; have := ej; rewrite modp_small; last by rewrite sX -[1]/(1%:P) size_XaddC.
  have gC := size1_polyC h1; rewrite gC -rmorphX modp_small /=; last by rewrite sX (leq_ltn_trans (size_polyC_leq1 _)).
  by move/(congr1 (fun p : {poly L} => p`_1)); rewrite coefD coefX coef1 coefC /= addr0 => /eqP; rewrite oner_eq0.
have nXg : (#|L| ^ 1 <= g2_num g)%N by rewrite leqNgt -num_size // -ltnNge.
rewrite ltn_neqAle nX nXg andbT -nX; apply/eqP => /num_inj e; move: hc.
by rewrite -e coprimep_sym; apply/negP; rewrite coprimep_pexpl // coprimepp size_polyX.
Qed.

(* ---- logarithms: the search covers the exponents below the square of k, where k is the
   rounded-up square root of 2^(deg m) *)
Section Log.
Variable m : {poly L}.
Hypothesis m0 : m != 0.
Definition validG (x : gmod fpmod) : Prop := exists f, x = menc m f.
Definition vG (x : gmod fpmod) : N := N.of_nat (gval kg #|L| (gm_res x)).
Lemma validG_eqb x y : validG x -> validG y -> gm_eqb o x y = Ok (N.eqb (vG x) (vG y)).
Proof.
move=> [f ->] [g ->]; rewrite eqb_pow // /vG !num_gval; congr Ok.
by apply/eqP/N.eqb_spec => [->|/Nat2N.inj /num_inj].
Qed.
Lemma validG_ltb x y : validG x -> validG y -> gm_ltb o x y = Ok (N.ltb (vG x) (vG y)).
Proof.
move=> [f ->] [g ->]; have [-> _] := q_cmp m0 f g; rewrite /vG !num_gval; congr Ok.
by apply/ltP/N.ltb_spec0; lia.
Qed.
Lemma log_pre d : (Z.of_nat d <= 30)%coqZ ->
  exists k : Z, [/\ ishl1 (Z.of_nat d) = Ok (Z.of_nat (2 ^ d)), int_sqrt_ceil (Z.of_nat (2 ^ d)) = Ok k, (0 < k <= 32768)%coqZ,
    (Z.of_nat (2 ^ d) <= k * k)%coqZ & ((k - 1) * (k - 1) < Z.of_nat (2 ^ d))%coqZ].
Proof.
move=> hd; have hp := PF2Tot.pow30 hd.
have [|k [ek [k0 [k1 k2]]]] := int_sqrt_ok true (Z.of_nat (2 ^ d)%N).
  by move: hp; rewrite -[(2 ^ 30)%coqZ]/(1073741824%coqZ) /INT_MAX; lia.
exists k; have hp' := hp; rewrite -[(2 ^ 30)%coqZ]/(1073741824%coqZ) in hp'.
have kle : (k <= 32768)%coqZ by apply: k2 => //; move: hp'; clear; lia.
have kpos : (0 < k)%coqZ by move: k0 k1 hp'; clear; nia.
split=> //; first exact: PF2Tot.ishl1_ok.
apply: (proj1 (Z.nle_gt _ _)) => hle; have : (k <= k - 1)%coqZ by apply: k2 => //; move: kpos; clear; lia.
by clear; lia.
Qed.

(* the table of x * s^i *)
Lemma tab_mul f g : gm_mul o (menc m f) (menc m g) = Ok (menc m (f * g)).
Proof. by have [_ [_ [-> _]]] := q_ring m0 f g. Qed.
Lemma log_nonunit qs f a : (Z.of_nat (size m).-1 <= 30)%coqZ -> ~~ coprimep f m -> f2n_log qs (menc m f) a = Exn.
Proof.
move=> hd hc; have [k [e1 e2 _ _ _]] := log_pre hd.
rewrite /f2n_log [gm_mod _]/= (degG (encG m)) e1 bind_ok e2 bind_ok.
by have := q_recip m0 f; rewrite (negbTE hc) => ->.
Qed.
Lemma log_thm : (Z.of_nat (size m).-1 <= 30)%coqZ ->
  exists2 N : nat, (2 ^ (size m).-1 <= N)%N /\ (forall k : nat, (2 ^ (size m).-1 <= k * k -> N <= k * k)%N) &
  forall qs f g, sorts (gm_ltb o) validG qs -> coprimep f m ->
  (exists e, [/\ f2n_log qs (menc m f) (menc m g) = Ok (Z.of_nat e), (f ^+ e %% m)%R = (g %% m)%R & (e < N)%N])
  \/ (f2n_log qs (menc m f) (menc m g) = Exn /\ forall e, (e < N)%N -> (f ^+ e %% m)%R <> (g %% m)%R).
Proof.
move=> hd; have [k [e1 e2 hk hk1 hk2]] := log_pre hd.
set kk := Z.to_nat k; have ekk : k = Z.of_nat kk by rewrite /kk Z2Nat.id; lia.
exists (kk * kk)%N.
  split; first by apply/leP; move: hk1; rewrite ekk -Nat2Z.inj_mul -multE; clear; lia.
  move=> j /leP hj; rewrite leq_mul //; apply/leP; move: hk2 hj; rewrite ekk; rewrite -!multE; move: (2 ^ _)%N; clear; nia.
move=> qs f g hqs hc; rewrite /f2n_log [gm_mod _]/= (degG (encG m)) e1 bind_ok e2 bind_ok.
have := q_recip m0 f; rewrite hc => -[h [-> hh]]; rewrite bind_ok.
rewrite q_exp //; [|by rewrite /INT_MAX; lia|by left; lia].
rewrite bind_ok -/kk.
have := q_div m0 f f; rewrite hc => -[u [-> hu]]; rewrite bind_ok.
have hc' : coprimep m f by rewrite coprimep_sym.
have eu : (u %% m)%R = 1 %% m.
  by apply: (coprime_cancel hc'); rewrite mul1r; apply/eqP; rewrite modp_eq.
have ehf : ((f * h) %% m)%R = 1 %% m by apply/eqP; rewrite modp_eq.
have key i j : (vG (menc m (g * h ^+ i)) = vG (menc m (u * (f ^+ kk) ^+ j))) <-> (f ^+ (i + j * kk) %% m)%R = (g %% m)%R.
  have -> : (vG (menc m (g * h ^+ i)) = vG (menc m (u * (f ^+ kk) ^+ j))) <-> ((g * h ^+ i) %% m = (u * (f ^+ kk) ^+ j) %% m)%R.
    by rewrite /vG !num_gval; split=> [/Nat2N.inj /num_inj|->].
  have cri : coprimep m (f ^+ i) by apply: coprimeX.
  have ehr : ((h * f) ^+ i %% m)%R = 1 %% m.
    by rewrite -(powmod _ (h * f)) [h * f]mulrC ehf powmod expr1n.
  have lhs : ((g * h ^+ i * f ^+ i) %% m)%R = (g %% m)%R.
    by rewrite -mulrA -exprMn -modp_mul ehr modp_mul mulr1.
  have rhs : ((u * (f ^+ kk) ^+ j * f ^+ i) %% m)%R = (f ^+ (i + j * kk) %% m)%R.
    by rewrite -mulrA -modp_mull2 eu modp_mull2 mul1r mulrC -exprM -exprD mulnC.
  split=> [e|e]; first by rewrite -rhs -modp_mull2 -e modp_mull2 lhs.
  by apply: (coprime_cancel cri); rewrite lhs rhs e.
have LS := @log_search_ok (gmod fpmod) (gm_mul o) (gm_eqb o) (gm_ltb o) validG vG validG_eqb validG_ltb qs
  (fun i => menc m (g * h ^+ i)) (fun j => menc m (u * (f ^+ kk) ^+ j)) kk (menc m h) (menc m (f ^+ kk)) hqs.
rewrite ekk; rewrite !expr0 !mulr1 in LS.
have [||||[i [j [hi [hj [hv el]]]]]|[el hv]] := LS.
- lia.
- by rewrite -[(2 ^ 31)%coqZ]/(2147483648%coqZ); move: hk; rewrite ekk; clear; nia.
- by move=> i _; split; eexists.
- by move=> i _; rewrite !tab_mul -!mulrA -!exprSr.
- left; exists (i + j * kk)%N; split=> //; first exact/key.
  by apply/ltP; move: hi hj; rewrite -plusE -multE; clear; nia.
right; split=> // e he ee.
have kk0 : (0 < kk)%N by apply/ltP; lia.
apply: (hv (e %% kk)%N (e %/ kk)%N).
- by apply/ltP; rewrite ltn_mod.
- by apply/ltP; rewrite ltn_divLR.
by apply/key; rewrite addnC -divn_eq.
Qed.
Lemma log_deg31 qs f a : (size m).-1 = 31%N -> f2n_log qs (menc m f) a = Exn.
Proof. by move=> hd; rewrite /f2n_log [gm_mod _]/= (degG (encG m)) hd; vm_compute. Qed.
Lemma log_deg32 qs f a : (31 < (size m).-1)%N -> f2n_log qs (menc m f) a = UB.
Proof.
move=> /ltP hd; rewrite /f2n_log [gm_mod _]/= (degG (encG m)) /ishl1.
by have -> : ((Z.of_nat (size m).-1 <? 0) || (31 <? Z.of_nat (size m).-1))%coqZ = true by lia.
Qed.
End Log.
End T.

Section Final.
Variable G : gf2.
Local Notation L := (gf_L G).
Local Notation n := (size (gf_m G)).-1.
Local Notation enc := (@g2_enc G).
Local Notation menc := (@g2_menc G).

(* ---- C71: orders and generators.  Units, orders and generators of GF(2^n)[x]/(m) in polynomial terms: *)
Definition g2_order (m f : {poly L}) (k : nat) : Prop :=
  [/\ (0 < k)%N, (f ^+ k %% m)%R = (1 %% m)%R & forall j, (0 < j < k)%N -> (f ^+ j %% m)%R <> (1 %% m)%R].
Definition g2_generates (m f : {poly L}) : Prop := forall h : {poly L}, coprimep m h -> exists j, (h %% m)%R = (f ^+ j %% m)%R.
Theorem C71_order_partial : forall m : {poly L}, m != 0 -> (Z.of_nat n <= 30)%coqZ ->
  (Z.of_nat n * Z.of_nat (size m).-1 <= 15)%coqZ -> forall f : {poly L}, coprimep f m ->
  exists k, f2n_order (menc m f) = Ok (Z.of_nat k) /\ g2_order m f k.
Proof. by move=> m m0 h1 h2 f hc; exact: (order_thm h1 m0 h2 hc). Qed.
Theorem C71_order_nonunit : forall m f : {poly L}, m != 0 -> ~~ coprimep f m -> f2n_order (menc m f) = Exn.
Proof. exact: (@order_nonunit G). Qed.
(* the generator with the smallest number *)
Theorem C71_find_generator_partial : forall m : {poly L}, irreducible_poly m -> (Z.of_nat n * Z.of_nat (size m).-1 <= 15)%coqZ ->
  exists g : {poly L}, [/\ f2n_find_generator (enc m) = Ok (Some (menc m g)), (size g < size m)%N, coprimep g m, g2_generates m g &
    forall h : {poly L}, (size h < size m)%N -> coprimep h m -> g2_generates m h -> (g2_num g <= g2_num h)%N].
Proof. exact: (@find_gen_irr G). Qed.
Theorem C71_find_generator_constant : forall m : {poly L}, (size m <= 1)%N -> f2n_find_generator (enc m) = Exn.
Proof.
move=> m hm; rewrite /f2n_find_generator pol1 bind_ok (degG (encG m)).
by case: (size m) hm => [|[|]].
Qed.
(* no generator exists modulo x^2 if n > 1; the documented outcome is a false result, the call throws *)
Theorem C71_find_generator_refuted : (2 * Z.of_nat n <= 15)%coqZ -> f2n_find_generator (enc 'X^2) = Exn.
Proof. exact: (@find_gen_X2 G). Qed.

(* ---- C72: logarithms.  qs is the C library's qsort with the comparison by number. *)
Theorem C72_log_partial : forall (m : {poly L}) qs, m != 0 -> sorts (gm_ltb f2n_kops) (fun x => exists f, x = menc m f) qs ->
  (Z.of_nat (size m).-1 <= 30)%coqZ -> forall f g : {poly L}, coprimep f m ->
  (exists e, f2n_log qs (menc m f) (menc m g) = Ok (Z.of_nat e) /\ (f ^+ e %% m)%R = (g %% m)%R)
  \/ (f2n_log qs (menc m f) (menc m g) = Exn /\ forall e, (e < 2 ^ (size m).-1)%N -> (f ^+ e %% m)%R <> (g %% m)%R).
Proof.
move=> m qs m0 hqs hd f g hc; have [N [h1 _] hl] := log_thm m0 hd.
have [[e [h2 h3 _]]|[h2 h3]] := hl qs f g hqs hc; first by left; exists e.
by right; split=> // e he; apply: h3; apply: leq_trans he h1.
Qed.
Theorem C72_log_refuted : forall (m : {poly L}) qs, irreducible_poly m ->
  sorts (gm_ltb f2n_kops) (fun x => exists f, x = menc m f) qs ->
  (Z.of_nat (size m).-1 <= 30)%coqZ -> (2 <= (n - 1) * (size m).-1)%N ->
  exists (f : {poly L}) e, coprimep f m /\ f2n_log qs (menc m f) (menc m (f ^+ e)) = Exn.
Proof.
move=> m qs hirr hqs hd hn; have [hsz _] := hirr; have m0 : m != 0 by rewrite -size_poly_gt0 ltnW.
have [f [hc hg]] := gen_exists hirr; have hc' : coprimep f m by rewrite coprimep_sym.
have [k [hk _]] := order_exists m0 hc; have ek := proj2 (order_generates m0 hc hk) hg.
have [N [hN1 hN2] hl] := log_thm m0 hd; set d := (size m).-1 in hN1 hN2 hn.
have ephi : phi m = (#|L| ^ d - 1)%N by have := phi_pow 0 hirr; rewrite expr1 muln0 expn0 mul1n.
have hNk : (N < k)%N.
  have h1 : (N <= 2 ^ d.+1)%N.
    have e2 : (2 ^ uphalf d * 2 ^ uphalf d = 2 ^ (uphalf d).*2)%N by rewrite -expnD addnn.
    apply: leq_trans (hN2 (2 ^ uphalf d)%N _) _; rewrite e2 leq_exp2l //.
      by rewrite -{1}(odd_double_half d) uphalf_half doubleD leq_add2r; case: odd.
    by rewrite -{2}(odd_double_half d) uphalf_half doubleD -addSn leq_add2r; case: odd.
  have h2 : (2 ^ d.+2 <= #|L| ^ d)%N.
    rewrite gf_card -expnM leq_exp2l //; apply: leq_trans (_ : ((n - 1) * d + d <= _)%N).
      by rewrite -addn2 addnC leq_add2r.
    by case: (n) hn => [|a] //; rewrite subSS subn0 mulSn addnC.
  have h3 : (2 <= 2 ^ d.+1)%N by rewrite -{1}(expn1 2) leq_exp2l.
  rewrite ek ephi; apply: leq_ltn_trans h1 _; rewrite ltn_subRL; apply: leq_trans h2.
  rewrite (expnS 2 d.+1) mul2n -addnn; move: h3; move: (2 ^ d.+1)%N => x h3.
  by rewrite ltn_add2r.
exists f, N; split=> //; have [[e [_ h1 h2]]|[//]] := hl qs f (f ^+ N) hqs hc'.
have [k0 _ hmin] := hk; exfalso; apply: (hmin (N - e)%N).
  by rewrite subn_gt0 h2 (leq_ltn_trans (leq_subr _ _) hNk).
by apply: (coprime_cancel (coprimeX e hc)); rewrite mul1r -exprD subnK // ltnW.
Qed.
Theorem C72_log_nonunit : forall (m f : {poly L}) qs a, m != 0 -> (Z.of_nat (size m).-1 <= 30)%coqZ -> ~~ coprimep f m ->
  f2n_log qs (menc m f) a = Exn.
Proof. by move=> m f qs a m0; exact: (@log_nonunit G m m0 qs f a). Qed.
Theorem C72_log_large_refuted : forall (m f : {poly L}) qs a, 
  ((size m).-1 = 31%N -> f2n_log qs (menc m f) a = Exn) /\ ((31 < (size m).-1)%N -> f2n_log qs (menc m f) a = UB).
Proof. move=> m f qs a; split=> h.
  by apply: log_deg31 => //; apply/eqP => e; rewrite e size_poly0 in h.
by apply: log_deg32 => //; apply/eqP => e; rewrite e size_poly0 in h. Qed.
(* the assumption on qsort can be met *)
Theorem C72_sorting_exists : forall m : {poly L}, m != 0 ->
  sorts (gm_ltb f2n_kops) (fun x => exists f, x = menc m f) (isort (gm_ltb f2n_kops)).
Proof. by move=> m m0; exact: (isort_sorts _ _ (@vG G) (@validG_ltb G m m0)). Qed.
End Final.

(* GF(4)[x] modulo x^2 + x + z, group order 15: the log of z to the base x is 5, beyond the search *)
Example C71_ex :
  f2n_order (m4 [:: 0; 1]%num [:: 2; 1; 1]%num) = Ok 15%coqZ /\
  f2n_order (m4 [:: 3%num] [:: 2; 1; 1]%num) = Ok 3%coqZ /\
  f2n_order (m4 [:: 0; 1]%num [:: 0; 1; 1]%num) = Exn /\
  f2n_find_generator (e4 [:: 2; 1; 1]%num) = Ok (Some (m4 [:: 0; 1]%num [:: 2; 1; 1]%num)) /\
  f2n_find_generator (e4 [:: 0; 0; 1]%num) = Exn /\
  exists G : gf2, (Z.of_nat (size (gf_m G)).-1 * 2 <= 15)%coqZ /\ exists m : {poly gf_L G}, size m = 3%N /\ irreducible_poly m.
Proof.
do 5 (split; first by vm_compute).
have [G hG] := C62_field p7_irr; exists G; split; first by rewrite hG sz7; vm_compute.
by have [f [h1 _ h2]] := irr_exists_gen [finFieldType of gf_L G] (isT : (0 < 2)%N); exists f.
Qed.
Example C72_ex :
  f2n_log (isort (gm_ltb f2n_kops)) (m4 [:: 0; 1]%num [:: 2; 1; 1]%num) (m4 [:: 2; 1]%num [:: 2; 1; 1]%num) = Ok 2%coqZ /\
  gm_exp f2n_kops (m4 [:: 0; 1]%num [:: 2; 1; 1]%num) 5 = Ok (m4 [:: 2%num] [:: 2; 1; 1]%num) /\
  f2n_log (isort (gm_ltb f2n_kops)) (m4 [:: 0; 1]%num [:: 2; 1; 1]%num) (m4 [:: 2%num] [:: 2; 1; 1]%num) = Exn /\
  exists G : gf2, (2 <= ((size (gf_m G)).-1 - 1) * 2)%N.
Proof.
do 3 (split; first by vm_compute).
by have [G hG] := C62_field p7_irr; exists G; rewrite hG sz7.
Qed.

Print Assumptions C71_order_partial.
Print Assumptions C71_order_nonunit.
Print Assumptions C71_find_generator_partial.
Print Assumptions C71_find_generator_refuted.
Print Assumptions C72_log_partial.
Print Assumptions C72_log_refuted.
Print Assumptions C72_log_nonunit.
Print Assumptions C72_log_large_refuted.
Print Assumptions C72_sorting_exists.
