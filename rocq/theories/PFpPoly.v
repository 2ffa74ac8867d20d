(* The intmod coefficients satisfy the requirements of PPoly.v *)
From Verif Require Import Base MIntMath MIntmod MMat MPoly PIntMath PIntMath2 PIntmod.
From Coq Require Import Znumtheory.
From mathcomp Require Import all_ssreflect fingroup perm all_algebra ssrZ.
From mathcomp Require Import finfield.
From Verif Require Import PMat PFp PFpGen PPoly PPoly2 PPoly3 PPoly4.
Set Implicit Arguments.
Unset Strict Implicit.
Unset Printing Implicit Defensive.
Import GRing.Theory.
Delimit Scope Z_scope with coqZ.
Local Open Scope ring_scope.

Section FpK.
Variable p : nat.
Hypothesis pp : prime p.
Local Notation P := (Z.of_nat p).
Hypothesis hP : (P <= 46341)%coqZ.
Variable c : cache.
Hypothesis hc : cache_valid c.
Local Notation V := (Vp p).
Local Notation I := (Ip p).
Definition rv (x : intmod) : nat := Z.to_nat (residue x).

Lemma P2 : (2 <= P <= MAXM)%coqZ.
Proof. by rewrite /MAXM; have := prime_gt1 pp; clear - hP; lia. Qed.
Lemma gcd_unit x : (0 <= x < P)%coqZ -> izr p x != 0 -> Z.gcd P x = 1%coqZ.
Proof.
move=> hx nz; apply/Zgcd_1_rel_prime; apply: prime_rel_prime; first exact: primeZ.
move=> hd; have x0 : x = 0%coqZ.
  by case: (Z.eq_dec x 0) => // h4; have := Z.divide_pos_le P x ltac:(lia) hd; lia.
by rewrite x0 in nz; case/eqP: nz.
Qed.
Lemma V_make z : (INT_MIN < z <= INT_MAX)%coqZ ->
  exists x, im_make z P = Ok x /\ V x /\ I x = (int_of_Z z)%:~R.
Proof.
move=> hz; have [h2 h3] := P2; rewrite im_make_ok; last 2 first.
- by move: h2 h3; rewrite /MAXM /INT_MAX; clear; lia.
- by move: hz; rewrite /INT_MIN /INT_MAX; clear; lia.
eexists; split; first by []; split; last by rewrite /Ip /= izr_mod.
by split=> //; rewrite /canon /=; apply: Z.mod_pos_bound; lia.
Qed.

Lemma im_kspec : kspec (im_kops c) V I rv.
Proof.
have hP2 := P2.
have hP1 : (1 <= P <= MAXM)%coqZ by clear - hP2; lia.
have hP0 : (0 < P)%coqZ by clear - hP2; lia.
split.
- exact: (im_cspec pp hc hP).
- by move=> x y hx hy; apply: (Ip_inj pp).
- move=> [x mx] [/= -> hx] nz.
  have [[hg [y [e [hy eq]]]]|[hg e]] := im_recip_ok c P x hc hP2 hx; last first.
    by case: hg; apply: gcd_unit.
  exists (mkim y P); split=> //; split=> //; rewrite /Ip /=; apply: (mulfI nz).
  by rewrite mulfV // /Ip /= -izrM -(izr_mod pp) eq izr1.
- by move=> [x mx] v [/= -> hx] hv; apply: V_make.
- move=> [x mx] e [/= -> hx] nz he; rewrite /Ip /= in nz *.
  case: (Z.lt_trichotomy e 0) => [e0|[e0|e0]].
  + have [[hg [y [eq [hy eqy]]]]|[hg e']] := im_exp_neg_ok c P x e hc hP2 hx ltac:(lia).
      exists (mkim y P); split=> //; split=> //=.
      have [n en] : exists n, e = (- Z.of_nat n)%coqZ by exists (Z.to_nat (- e)); lia.
      rewrite en (rmorphN [rmorphism of int_of_Z]) /= (_ : int_of_Z (Z.of_nat n) = n%:Z); last by rewrite -(Z_of_intK n).
      rewrite -exprnN; apply: (mulIf (expf_neq0 n nz)); rewrite mulVf ?expf_neq0 //.
      by rewrite -izrX // -izrM -(izr_mod pp) -[Z.of_nat n]Z.opp_involutive -en eqy.
    by case: hg; apply: gcd_unit.
  + rewrite e0 im_exp_0 //.
    have -> : Z.eqb x 0 = false by apply/Z.eqb_neq=> x0; rewrite x0 eqxx in nz.
    by eexists; split; first by []; split; [split=> //; apply: Z.mod_pos_bound | rewrite /= izr_mod].
  + rewrite im_exp_ok //; last by lia.
    eexists; split; first by []; split; first by split=> //; apply: Z.mod_pos_bound.
    rewrite /= izr_mod //.
    have [n en] : exists n, e = Z.of_nat n by exists (Z.to_nat e); lia.
    by rewrite en izrX // (_ : int_of_Z (Z.of_nat n) = n%:Z) // -(Z_of_intK n).
- move=> [x mx] [/= -> [/= h1 h2]]; rewrite /Ip /= -(izr0 p) izr_eq //.
- move=> [x mx] [/= -> [/= h1 h2]]; rewrite /Ip /= -(izr1 p) izr_eq //; clear - hP2; lia.
- move=> [x mx] [y my] [/= -> [/= h1 h2]] [/= -> [/= h3 h4]].
  rewrite /im_ltb check_moduli_ok //= /rv /=; congr Ok; apply/idP/idP; clear - h1 h3; lia.
- move=> [x mx] [y my] [/= -> [/= h1 h2]] [/= -> [/= h3 h4]].
  rewrite /im_gtb check_moduli_ok //= /rv /=; congr Ok; apply/idP/idP; clear - h1 h3; lia.
- move=> [x mx] [y my] [/= -> [/= h1 h2]] [/= -> [/= h3 h4]]; rewrite /rv /= => e.
  by congr mkim; clear - e h1 h3; lia.
Qed.

Lemma rv_lt x : V x -> (rv x < p)%N.
Proof. by case: x => x m [/= -> [/= h1 h2]]; rewrite /rv /=; clear - h1 h2; lia. Qed.
Lemma rv_0 x : V x -> (rv x == 0)%N = (I x == 0).
Proof.
case: x => x m [/= -> [/= h1 h2]]; rewrite /rv /= /Ip /= -(izr0 p) izr_eq //.
  by apply/idP/idP; clear - h1; lia.
by clear - h1 h2; lia.
Qed.
Lemma rv_1 x : V x -> I x = 1 -> rv x = 1%N.
Proof.
case: x => x m [/= -> [/= h1 h2]]; rewrite /rv /= /Ip /= -(izr1 p) => h.
have hP2 := P2; have -> : x = 1%coqZ by apply: (izr_inj pp) h => //; clear - hP2; lia.
by [].
Qed.
Lemma im_next_ok x : V x -> if (rv x < p.-1)%N
  then exists z, k_next (im_kops c) x = Ok (Some z) /\ V z /\ rv z = (rv x).+1 else k_next (im_kops c) x = Ok None.
Proof.
have hP2 := P2; have hP1 : (1 <= P <= MAXM)%coqZ by clear - hP2; lia.
case: x => x m [/= -> [/= h1 h2]]; rewrite /rv /= /im_next /=.
rewrite im_one_ok // bind_ok Z.mod_small; last by clear - hP2; lia.
case: ltnP => h.
  have -> : Z.ltb x (P - 1) = true by apply/Z.ltb_lt; clear - h h1; lia.
  rewrite im_add_ok //; last by clear - hP2; lia.
  rewrite bind_ok; eexists; split; first by []; rewrite Z.mod_small; last by clear - h h1; lia.
  by split; [split=> //=; split=> /=; clear - h h1; lia | rewrite /=; clear - h1; lia].
by have -> : Z.ltb x (P - 1) = false by apply/Z.ltb_ge; clear - h h1 hP2; lia.
Qed.


Local Notation isG := (isG V I).
Lemma pth_root_ok l (f : {poly 'F_p}) : isG l f ->
  (exists r g, fp_pth_root c l = Ok (Some r) /\ isG r g /\ g ^+ p = f) \/
  (fp_pth_root c l = Ok None /\ forall g : {poly 'F_p}, g ^+ p <> f).
Proof.
have p0 := prime_gt0 pp. have hP2 := P2.
have fr (a : 'F_p) : a ^+ p = a by have := expf_card a; rewrite card_Fp.
have cc (g : {poly 'F_p}) j : (g ^+ p)`_j = if (p %| j)%N then g`_(j %/ p) else 0.
  by rewrite (coef_expchar (char_Fp pp)) fr.
move=> hl; rewrite /fp_pth_root; have [[x0 m0] [e0 [[/= em hx] _]]] := isG_get0 hl.
rewrite e0 bind_ok /= em Nat2Z.id.
have hd z : R V I z 0 -> exists z1, k_int (im_kops c) (k_dflt (im_kops c)) 0 = Ok z1 /\ c_eqb (k_c (im_kops c)) z z1 = Ok false.
  case: z => z m [[/= -> hz] _]; exists (mkim 0 1); split=> //; rewrite /im_eqb !check_modulus_ok //=; last by clear - hP2; lia.
  by congr Ok; apply/andP=> -[_ /Z.eqb_eq]; clear - hP2; lia.
have hr x a : R V I x a -> exists y, (fun x : intmod => Ok x) x = Ok y /\ R V I y ((@id 'F_p) a) by move=> h; exists x.
have [[r [er [hz hg]]]|[er [j [hj nz]]]] := root_ok im_kspec hd (prime_gt1 pp) hr (erefl _) hl.
  left; exists r, (\poly_(i < size f) f`_(i * p)); rewrite er; split=> //; split=> //; apply/polyP=> j; rewrite cc.
  case: ifP => [/dvdnP[k ->]|/negbT h]; last by rewrite hz.
  rewrite mulnK // coef_poly; case: ltnP => // h; rewrite nth_default //; apply: leq_trans h _; exact: leq_pmulr.
right; rewrite er; split=> // g hg; move: nz; rewrite -hg cc (negbTE hj); by rewrite eqxx.
Qed.

(* ---- from_base_rep *)
Lemma base_digits_ok n b : (0 <= b <= INT_MAX)%coqZ -> (b < P ^ Z.of_nat n)%coqZ ->
  exists r, base_digits n b P = Ok r /\ Forall V r /\ size r = n /\ Z.of_nat (gval rv p r) = b.
Proof.
have hP2 := P2; elim: n b => [|n IH] b hb hn; first by exists [::]; split=> //; split=> //; split=> //=; move: hn hb; clear; rewrite /=; lia.
rewrite /base_digits -/base_digits /imod /idiv.
have -> : Z.eqb P 0 = false by clear - hP2; lia.
have hq : Z.quot b P = (b / P)%coqZ by apply: Z.quot_div_nonneg; clear - hP2 hb; lia.
have hr : Z.rem b P = (b mod P)%coqZ by apply: Z.rem_mod_nonneg; clear - hP2 hb; lia.
have hd := Z.div_mod b P ltac:(clear - hP2; lia); have hm := Z.mod_pos_bound b P ltac:(clear - hP2; lia).
have hb' : (0 <= b / P <= INT_MAX)%coqZ.
  split; first by apply: Z.div_pos; clear - hP2 hb; lia.
  by apply: Z.le_trans (_ : (b <= INT_MAX)%coqZ); [apply: Z.div_le_upper_bound; clear - hP2 hb; nia | case: hb].
have hii : in_int (b / P) = true by rewrite /in_int; move: hb'; rewrite /INT_MIN; clear; lia.
rewrite hq hii bind_ok /chk hii hr.
have [|x [ex [vx ix]]] := V_make (z := (b mod P)%coqZ).
  move: hP2 hm; rewrite /INT_MIN /INT_MAX /MAXM; clear; lia.
rewrite im_make_ok in ex; last 2 first.
- move: hP2; rewrite /MAXM /INT_MAX; clear; lia.
- move: hP2 hm; rewrite /MAXM /INT_MAX; clear; lia.
rewrite im_make_ok; last 2 first.
- move: hP2; rewrite /MAXM /INT_MAX; clear; lia.
- move: hP2 hm; rewrite /MAXM /INT_MAX; clear; lia.
rewrite ex !bind_ok; have [|r [er [hV [sr hg]]]] := IH (b / P)%coqZ hb'.
  move: hn; rewrite Nat2Z.inj_succ Z.pow_succ_r; last by clear; lia.
  move=> hn; apply: Z.div_lt_upper_bound => //; clear - hP2; lia.
rewrite er bind_ok; exists (x :: r); split=> //; split; first by constructor.
split; first by rewrite /= sr.
case: ex => <-; rewrite [gval _ _ _]/= -/(gval rv p r) Nat2Z.inj_add Nat2Z.inj_mul hg /rv /= Z.mod_mod; last by clear - hP2; lia.
rewrite Z2Nat.id; last by clear - hm; lia.
by rewrite Z.add_comm -hd.
Qed.
Lemma base_len_ok b : (0 < b <= INT_MAX)%coqZ ->
  exists n, loop 34 (base_len_step P) (b, 0%N) = Ok n /\ (P ^ (Z.of_nat n - 1) <= b < P ^ Z.of_nat n)%coqZ /\ (0 < n)%N.
Proof.
move=> hb; have hP2 := P2.
pose mu (s : Z * nat) : nat := if Z.eqb s.1 0 then 0%N else (Z.to_nat (Z.log2 s.1) + 1)%coq_nat.
have [|||n [en hn]] := loop_total (base_len_step P)
  (fun s => (0 <= s.1 <= INT_MAX)%coqZ /\ s.1 = (b / P ^ Z.of_nat s.2)%coqZ /\ (s.2 = 0%N \/ (P ^ (Z.of_nat s.2 - 1) <= b)%coqZ))
  mu (fun n => (P ^ (Z.of_nat n - 1) <= b < P ^ Z.of_nat n)%coqZ /\ (0 < n)%N) _ 34 (b, 0%N).
- move=> [t n] [/= ht [et hn]]; case: Z.eqb_spec => [t0|t0].
    right; exists n; split=> //; rewrite t0 in et.
    have hpos : (0 < P ^ Z.of_nat n)%coqZ by apply: Z.pow_pos_nonneg; clear - hP2; lia.
    have hlt : (b < P ^ Z.of_nat n)%coqZ.
      have := Z.div_mod b (P ^ Z.of_nat n) ltac:(clear - hpos; lia); rewrite -et Z.mul_0_r Z.add_0_l.
      by have := Z.mod_pos_bound b (P ^ Z.of_nat n) hpos; clear; lia.
    case: hn => [n0|hn]; last first.
      split=> //; case: (posnP n) => // n0; move: hlt; rewrite n0 (Z.pow_0_r P); clear - hb; lia.
    by move: hlt; rewrite n0 (Z.pow_0_r P); clear - hb; lia.
  left; rewrite /idiv; have -> : Z.eqb P 0 = false by clear - hP2; lia.
  have hq : Z.quot t P = (t / P)%coqZ by apply: Z.quot_div_nonneg; clear - hP2 ht; lia.
  have hlt : (t / P < t)%coqZ by apply: Z.div_lt; clear - hP2 ht t0; lia.
  have hge : (0 <= t / P)%coqZ by apply: Z.div_pos; clear - hP2 ht; lia.
  have hii : in_int (t / P) = true by rewrite /in_int; move: ht hlt hge; rewrite /INT_MIN; clear; lia.
  rewrite /chk hq hii bind_ok; eexists; split; first by []; split.
    split; first by rewrite /=; clear - ht hlt hge; lia.
    split; first by change ((t / P = b / P ^ Z.of_nat n.+1)%coqZ); rewrite et Nat2Z.inj_succ Z.pow_succ_r ?Zdiv_Zdiv; [rewrite Z.mul_comm | apply: Z.pow_nonneg; clear - hP2; lia | clear - hP2; lia | clear; lia].
    right; change ((P ^ (Z.of_nat n.+1 - 1) <= b)%coqZ); rewrite Nat2Z.inj_succ Z.sub_1_r Z.pred_succ.
    have hpos : (0 < P ^ Z.of_nat n)%coqZ by apply: Z.pow_pos_nonneg; clear - hP2; lia.
    have := Z.mul_div_le b (P ^ Z.of_nat n) hpos; rewrite -et; clear - t0 ht hpos; nia.
  rewrite /mu /=; case: (Z.eqb_spec t 0) => // _; case: Z.eqb_spec => [_|h0]; first by clear; lia.
  have h2 : (Z.log2 (t / P) < Z.log2 t)%coqZ.
    have := Z.log2_double (t / P) ltac:(clear - h0 hge; lia).
    have h3 : (2 * (t / P) <= t)%coqZ by have := Z.mul_div_le t P ltac:(clear - hP2; lia); clear - hP2 hge; nia.
    have := Z.log2_le_mono (2 * (t / P)) t h3; clear; lia.
  by have := Z.log2_nonneg (t / P); clear - h2; lia.
- by split; [clear - hb; rewrite /=; lia | split; [rewrite /= Z.div_1_r | left]].
- rewrite /mu /=; case: Z.eqb_spec => [_|h]; first by clear; lia.
  have := Z.log2_le_mono b INT_MAX ltac:(clear - hb; lia); rewrite (_ : Z.log2 INT_MAX = 30%coqZ) //; clear; lia.
by exists n; case: hn.
Qed.
Lemma base_rep_ok b : (0 <= b <= INT_MAX)%coqZ ->
  exists r f, fp_from_base_rep b P = Ok r /\ isG r f /\ Z.of_nat (gval rv p r) = b.
Proof.
move=> hb; have hP2 := P2; rewrite /fp_from_base_rep; case: Z.eqb_spec => [b0|b0].
  have [|r [er [hV [sr hg]]]] := base_digits_ok (n := 1) hb; first by rewrite b0 Z.pow_1_r; clear - hP2; lia.
  rewrite bind_ok er; exists r, (Poly (map I r)); split=> //; split=> //.
  case/lastP: r er hV sr hg => [//|r x] _ hV sr _; apply: (isG_map hV); rewrite size_rcons in sr.
  by case: sr => ->.
have [|n [en [[hn1 hn2] n0]]] := base_len_ok (b := b); first by clear - hb b0; lia.
rewrite en bind_ok; have [r [er [hV [sr hg]]]] := base_digits_ok hb hn2.
rewrite er; exists r, (Poly (map I r)); split=> //; split=> //.
case/lastP: r er hV sr hg => [|r x] _ hV sr hg; first by rewrite -sr in n0.
apply: (isG_map hV); have hx : V x by move: hV; rewrite -cats1 => /Forall_app[_ h]; inversion h.
rewrite -(rv_0 hx); apply/orP; right; apply/eqP=> x0.
move: hg; rewrite gval_rcons x0 muln0 addn0 => hg.
have hVr : Forall V r by move: hV; rewrite -cats1 => /Forall_app[].
have := gval_lt (q := p) rv_lt hVr; rewrite size_rcons in sr => hlt.
have : (Z.of_nat (gval rv p r) < P ^ Z.of_nat (size r))%coqZ.
  rewrite -Nat2Z.inj_pow; apply/Nat2Z.inj_lt; move/ltP: hlt.
  by rewrite (_ : Nat.pow p (size r) = p ^ size r)%N //; elim: (size r) => //= k ->; rewrite expnS.
by move: hn1; rewrite -sr Nat2Z.inj_succ Z.sub_1_r Z.pred_succ hg; clear; lia.
Qed.
End FpK.
