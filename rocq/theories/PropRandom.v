(* Final theorems for spffl/random and the random searches (MRandom.v).

   The source is any type of states with any function draw; word draw s is the 32-bit word
   drawn in state s, next draw s the state after it, so that the k-th word after s is
   word draw (iter k (next draw) s).  bit17 draw s k is bit number 17 of that word.
   f2_enc, fp_enc, g2_enc are the objects for polynomials over GF(2), F_p, GF(2^n). *)
From Verif Require Import Base MIntMath MIntmod MMat MF2Poly MF2Fac MUnits MPoly MPolymod MPolyFac MF2nPoly MMisc MRandom.
From Verif Require Import PIntMath PIntMath2 PIntmod PF2Poly.
From mathcomp Require Import all_ssreflect fingroup perm all_algebra ssrZ.
From mathcomp Require Import finfield.
From Verif Require Import PBits3 PF2Poly2 PF2Poly3 PF2Poly4 PMat PFp PFpGen PPoly PPoly2 PPoly3 PFpPoly PF2n PPolymod PRandom.
From Verif Require PMisc PropF2Poly PropF2Fac PropUnits PropFpPoly PropFpPolymod PropFpFac PropF2nPoly PropF2nPolymod PropF2nFac PropLinalg.
Set Implicit Arguments.
Unset Strict Implicit.
Unset Printing Implicit Defensive.
Import GRing.Theory.
Delimit Scope Z_scope with coqZ.
Local Open Scope ring_scope.
Notation f2_enc := PropLinalg.f2_enc.
Notation fp_enc := PropFpPoly.fp_enc.
Notation fp_menc := PropFpPolymod.fp_menc.
Notation g2_enc := PropF2nPoly.g2_enc.
Notation g2_menc := PropF2nPolymod.g2_menc.

(* a polynomial of degree d with the coefficients c d, ..., c 1 and the leading one c 0, or
   1 if that is zero *)
Definition rndF (F : fieldType) (d : nat) (c : nat -> F) : {poly F} :=
  (if c 0%N == 0 then 1 else c 0%N) *: 'X^d + \sum_(i < d) c (d - i)%N *: 'X^i.
(* the class modulo p of the k-th word, read as an int *)
Definition cfp (p : nat) (St : Type) (draw : St -> Z * St) (s : St) (k : nat) : 'F_p :=
  (int_of_Z (to_int (word draw (iter k (next draw) s))))%:~R.
(* the element of GF(2^n) made from the n words that follow the first k * n words *)
Definition cf2n (G : gf2) (St : Type) (draw : St -> Z * St) (s : St) (k : nat) : gf_L G :=
  let n := (size (gf_m G)).-1 in (map_poly (gf_emb G) (rnd2 draw n (iter (k * n) (next draw) s))).[gf_z G].

Lemma rndF_size (F : fieldType) d (c : nat -> F) : size (rndF d c) = d.+1.
Proof.
rewrite /rndF; set a := (if _ then _ else _).
have a0 : a != 0 by rewrite /a; case: (eqVneq (c 0%N) 0) => // _; rewrite oner_neq0.
rewrite size_addl size_scale ?size_polyXn // ltnS; apply: (leq_trans (size_sum _ _ _)).
apply/bigmax_leqP => i _; apply: (leq_trans (size_scale_leq _ _)); by rewrite size_polyXn.
Qed.
Lemma rndF_lead (F : fieldType) d (c : nat -> F) : lead_coef (rndF d c) = (rndF d c)`_d.
Proof. by rewrite lead_coefE rndF_size. Qed.
Lemma monic_scale (F : fieldType) (f : {poly F}) : f != 0 ->
  [/\ (lead_coef f)^-1 *: f \is monic, size ((lead_coef f)^-1 *: f) = size f & (lead_coef f)^-1 *: f %= f].
Proof.
move=> f0; have l0 : (lead_coef f)^-1 != 0 by rewrite invr_eq0 lead_coef_eq0.
split; last by rewrite eqp_scale.
  by rewrite monicE lead_coefZ mulVf // lead_coef_eq0.
by rewrite size_scale.
Qed.

Lemma irr_eqp (F : fieldType) (f g : {poly F}) : f %= g -> irreducible_poly f -> irreducible_poly g.
Proof.
move=> e [s1 h]; split; first by rewrite -(eqp_size e).
by move=> q q1 hq; apply: (eqp_trans _ e); apply: h => //; rewrite (eqp_dvdr _ e).
Qed.
Lemma degG (A : Type) (F : fieldType) (V : A -> Prop) (I : A -> F) l f : isG V I l f -> gp_degree l = (size f).-1.
Proof. by move=> h; rewrite /gp_degree lengthE (isG_size h) minusE subn1; case: (size f) => [|[]]. Qed.

Section Search.
Context {A : Type} (o : kops A) {F : fieldType} (V : A -> Prop) (I : A -> F) (kv : A -> nat).
Hypothesis sp : kspec o V I kv.
Variables (St : Type) (gen : St -> res (gpoly (A := A) * St)) (irr : gpoly (A := A) -> res bool) (zero : A).
Variables (cand : St -> {poly F}) (nxt : St -> St) (d : nat).
Hypothesis h0 : R V I zero 0.
Hypothesis genE : forall s, exists l, gen s = Ok (l, nxt s) /\ isG V I l (cand s).
Hypothesis irrE : forall l f, isG V I l f -> size f = d.+1 -> exists b, irr l = Ok b /\ (b = true <-> irreducible_poly f).
Hypothesis szE : forall s, size (cand s) = d.+1.
Variable enc : {poly F} -> gpoly (A := A).
Hypothesis encE : forall l f, isG V I l f -> l = enc f.
Definition good (f : {poly F}) : Prop := f`_0 != 0 /\ irreducible_poly f.
Lemma irr_try s : exists ob, gp_irr_try o gen irr zero (Z.of_nat d) s = Ok (ob, nxt s) /\
  ((ob = Some (enc ((lead_coef (cand s))^-1 *: cand s)) /\ good (cand s)) \/ (ob = None /\ ~ good (cand s))).
Proof.
rewrite /gp_irr_try; have [l [-> hl]] := genE s; rewrite bind_ok.
have [x [-> hx]] := get_coeff_ok sp 0 hl; rewrite bind_ok (R_eqb (ks_c sp) hx h0) bind_ok.
case: eqP => e; first by exists None; split=> //; right; split=> // -[]; rewrite e eqxx.
have [b [-> hb]] := irrE hl (szE s); rewrite bind_ok; case: b hb => hb; last first.
  by exists None; split=> //; right; split=> // -[_ /hb].
have [y [-> hy]] := get_coeff_ok sp d hl; rewrite bind_ok.
have el : (cand s)`_d = lead_coef (cand s) by rewrite lead_coefE szE.
have l0 : (cand s)`_d != 0 by rewrite el lead_coef_eq0 -size_poly_gt0 szE.
have [r [-> hr]] := divc_ok sp hl hy l0; rewrite bind_ok (encE hr) el.
by eexists; split; first by []; left; split=> //; split; [apply/eqP | apply/hb].
Qed.
End Search.

(* ================================================================ GF(2) *)
Theorem C84_f2_poly : forall (St : Type) (draw : St -> Z * St) (d : nat) (s : St),
  f2_poly_random draw (Z.of_nat d) s = Ok (f2_enc ('X^d + \sum_(i < d) (bit17 draw s (d.-1 - i))%:R *: 'X^i), iter d (next draw) s).
Proof. by move=> St draw d s; have [l [-> hl]] := f2_poly_random_ok draw d s; rewrite (PropLinalg.f2_encE hl). Qed.
Theorem C84_f2_poly_neg : forall (St : Type) (draw : St -> Z * St) (d : Z) (s : St),
  (d < 0)%coqZ -> f2_poly_random draw d s = Exn.
Proof. by move=> St draw d s; exact: f2_poly_random_neg. Qed.
Lemma enc2_inj : injective f2_enc.
Proof. by move=> f g e; apply: isP_fun (PropLinalg.f2_encP f) _; rewrite e; apply: PropLinalg.f2_encP. Qed.
Lemma f2bit (a : 'F_2) : a = (a != 0)%:R.
Proof. by case: a => -[|[|]] // h; apply: val_inj. Qed.
Lemma bit_f2 (b : bool) : ((b%:R : 'F_2) != 0) = b.
Proof. by case: b. Qed.
Lemma rev_ltd i d : (i < d)%N -> (d.-1 - i < d)%N. Proof. by case: d => // n _; rewrite ltnS leq_subr. Qed.
Lemma le_pred i d : (i < d)%N -> (i <= d.-1)%N. Proof. by case: d. Qed.
(* the polynomials of degree d correspond one to one to the patterns of d bits *)
Theorem C84_f2_poly_uniform : forall (d : nat) (f : {poly 'F_2}), size f = d.+1 ->
  exists b : 'I_d -> bool, forall (St : Type) (draw : St -> Z * St) (s : St),
  (exists s', f2_poly_random draw (Z.of_nat d) s = Ok (f2_enc f, s')) <-> (forall k : 'I_d, bit17 draw s k = b k).
Proof.
move=> d f sz; exists (fun k : 'I_d => f`_(d.-1 - k) != 0) => St draw s; split=> [[s']|h].
  rewrite C84_f2_poly => -[/enc2_inj <- _] k; rewrite -/(rnd2 draw d s) rnd2_coef ?bit_f2 ?rev_ltd ?subKn //; exact: le_pred.
exists (iter d (next draw) s); rewrite C84_f2_poly -/(rnd2 draw d s); congr (Ok (f2_enc _, _)).
apply/polyP => i; case: (ltngtP i d) => hi.
- rewrite rnd2_coef //; have hk := rev_ltd hi.
  rewrite (h (Ordinal hk)) /= subKn; last exact: le_pred.
  by rewrite -f2bit.
- by rewrite !nth_default // ?rnd2_size ?sz.
have l0 (g : {poly 'F_2}) : size g = d.+1 -> g`_d = 1.
  move=> sg; have : lead_coef g != 0 by rewrite lead_coef_eq0 -size_poly_gt0 sg.
  by rewrite lead_coefE sg /= [g`_d]f2bit => /negbTE; case: (g`_d != 0) => //=; rewrite mulr0n eqxx.
by rewrite hi !l0 // rnd2_size.
Qed.
Theorem C84_f2_polymod : forall (St : Type) (draw : St -> Z * St) (m : {poly 'F_2}) (s : St), (1 < size m)%N ->
  let n := (size m).-1 in
  f2_polymod_random draw (f2_enc m) s =
  Ok (mkpm (f2_enc (('X^n + \sum_(i < n) (bit17 draw s (n.-1 - i))%:R *: 'X^i) %% m)) (f2_enc m), iter n (next draw) s).
Proof.
move=> St draw m s h n; have [a [-> ha]] := f2_polymod_random_ok draw s (PropLinalg.f2_encP m) h.
congr (Ok (_, _)); case: a ha => r lm [/= h1 [h2 _]].
by rewrite (PropLinalg.f2_encE h1) (PropLinalg.f2_encE h2).
Qed.
Theorem C84_f2_polymod_small : forall (St : Type) (draw : St -> Z * St) (m : {poly 'F_2}) (s : St), (size m <= 1)%N ->
  f2_polymod_random draw (f2_enc m) s = Exn.
Proof. by move=> St draw m s h; apply: f2_polymod_random_small (PropLinalg.f2_encP m) h. Qed.
(* each residue class arises from exactly one pattern of bits *)
Theorem C84_f2_polymod_uniform : forall (m r : {poly 'F_2}), (1 < size m)%N -> (size r < size m)%N ->
  exists b : 'I_(size m).-1 -> bool, forall (St : Type) (draw : St -> Z * St) (s : St),
  (exists s', f2_polymod_random draw (f2_enc m) s = Ok (mkpm (f2_enc r) (f2_enc m), s')) <->
  (forall k : 'I_(size m).-1, bit17 draw s k = b k).
Proof.
move=> m r h hr; set n := (size m).-1.
have sm : size m = n.+1 by rewrite /n prednK // ltnW.
(* m and X^n + ... have the same leading term, so the remainder is the difference *)
have key (g : {poly 'F_2}) : size g = n.+1 -> g %% m = g - m.
  move=> sg; have lead (q : {poly 'F_2}) : size q = n.+1 -> q`_n = 1.
    move=> sq; have : lead_coef q != 0 by rewrite lead_coef_eq0 -size_poly_gt0 sq.
    by rewrite lead_coefE sq /= [q`_n]f2bit => /negbTE; case: (q`_n != 0) => //=; rewrite mulr0n eqxx.
  have hs : (size (g - m)%R < size m)%N.
    rewrite sm ltnS; apply/leq_sizeP => j; rewrite leq_eqVlt => /orP [/eqP <-|hj].
      by rewrite coefB !lead // subrr.
    by rewrite coefB !nth_default ?subrr // ?sm ?sg.
  by rewrite -{1}[g](subrK m) modpD modpp addr0 modp_small.
have [|b hb] := @C84_f2_poly_uniform n (r + m).
  by rewrite addrC size_addl.
exists b => St draw s; rewrite -hb; split=> -[s' e]; exists s'; move: e.
  rewrite C84_f2_polymod // -/n C84_f2_poly -/(rnd2 draw n s) key ?rnd2_size // => -[/enc2_inj <- ->].
  by rewrite subrK.
rewrite C84_f2_polymod // -/n C84_f2_poly -/(rnd2 draw n s) key ?rnd2_size // => -[/enc2_inj -> ->].
by rewrite addrK.
Qed.
(* ---- search for an irreducible polynomial: the k-th candidate is the k-th random
   polynomial with the constant term made one; the first irreducible candidate is returned *)
Definition cand2 (St : Type) (draw : St -> Z * St) (d : nat) (s : St) : {poly 'F_2} :=
  let f := rnd2 draw d s in f + (1 - f`_0)%:P.
Lemma set_bit0 l (f : {poly 'F_2}) : isP l f -> exists l', set_bit l 0 = Ok l' /\ isP l' (f + (1 - f`_0)%:P).
Proof.
move=> [hc hf]; have [l' [e [hw [hb hcc]]]] := set_bit_ok l 0%N (proj1 hc).
exists l'; split; first exact: e.
split; first exact: hcc.
rewrite -hf; apply/polyP=> i; rewrite coefD coefC !coefPl hb.
case: i => [|i] /=; last by rewrite addr0.
by rewrite addrC subrK.
Qed.
Lemma cand2_size St (draw : St -> Z * St) d s : (0 < d)%N -> size (cand2 draw d s) = d.+1.
Proof.
move=> d0; rewrite /cand2 size_addl ?rnd2_size //.
by apply: (leq_ltn_trans (size_polyC_leq1 _)); rewrite ltnS.
Qed.
Lemma cand2_0 St (draw : St -> Z * St) d s : (cand2 draw d s)`_0 = 1.
Proof. by rewrite /cand2 coefD coefC /= addrC subrK. Qed.
Lemma f2_try St (draw : St -> Z * St) t d s : (0 < d)%N -> (Z.of_nat d <= INT_MAX)%coqZ ->
  exists ob, f2_irr_try draw (Some t) (Z.of_nat d) s = Ok (ob, iter d (next draw) s) /\
  ((ob = Some (f2_enc (cand2 draw d s)) /\ irreducible_poly (cand2 draw d s)) \/ (ob = None /\ ~ irreducible_poly (cand2 draw d s))).
Proof.
move=> d0 hd; rewrite /f2_irr_try; have [l [-> hl]] := f2_poly_random_ok draw d s; rewrite bind_ok.
have [l' [-> hl']] := set_bit0 hl; rewrite bind_ok.
have [|b [-> hb]] := PropF2Fac.C29_is_irreducible_partial t hl'.
  by rewrite -/(cand2 draw d s) cand2_size.
rewrite bind_ok; case: b hb => hb; [exists (Some l') | exists None]; split=> //; [left | right].
  by split; [rewrite (PropLinalg.f2_encE hl') | apply/hb].
by split=> // /hb.
Qed.
Theorem C84_f2_irr : forall (St : Type) (draw : St -> Z * St) (t : N) (d fuel : nat) (s : St),
  (0 < d)%N -> (Z.of_nat d <= INT_MAX)%coqZ ->
  let cand k := cand2 draw d (iter (k * d) (next draw) s) in
  (exists k, [/\ (k < fuel)%N, irreducible_poly (cand k), (forall j, (j < k)%N -> ~ irreducible_poly (cand j)) &
     f2_poly_random_irreducible draw (Some t) fuel (Z.of_nat d) s = Ok (f2_enc (cand k), iter (k.+1 * d) (next draw) s)]) \/
  ((forall k, (k < fuel)%N -> ~ irreducible_poly (cand k)) /\
   f2_poly_random_irreducible draw (Some t) fuel (Z.of_nat d) s = Div).
Proof.
move=> St draw t d fuel s d0 hd cand; rewrite /f2_poly_random_irreducible.
have -> : Z.ltb (Z.of_nat d) 1 = false by apply/Z.ltb_ge; case: d d0 {hd cand} => // n _; rewrite Nat2Z.inj_succ; have := Nat2Z.is_nonneg n; clear; lia.
have := until_spec (fun s' => f2_try draw t s' d0 hd) fuel s.
case=> [[k [hk hg hj ->]]|[hn ->]]; [left; exists k | right]; rewrite /cand.
  by split=> // [|j lj|]; [rewrite iterM | rewrite iterM; exact: hj | rewrite !iterM].
by split=> // k hk; rewrite iterM; exact: hn.
Qed.
Theorem C84_f2_irr_result : forall (St : Type) (draw : St -> Z * St) (t : N) (d fuel : nat) (s : St),
  (0 < d)%N -> (Z.of_nat d <= INT_MAX)%coqZ ->
  f2_poly_random_irreducible draw (Some t) fuel (Z.of_nat d) s = Div \/
  exists f k, [/\ f2_poly_random_irreducible draw (Some t) fuel (Z.of_nat d) s = Ok (f2_enc f, iter (k * d) (next draw) s),
    size f = d.+1, irreducible_poly f & f`_0 = 1].
Proof.
move=> St draw t d fuel s d0 hd; have [[k [_ hi _ ->]]|[_ ->]] := C84_f2_irr draw t fuel s d0 hd; last by left.
by right; eexists; exists k.+1; split=> //; [exact: cand2_size | exact: cand2_0].
Qed.
(* every irreducible polynomial other than x is returned at once for some words *)
Theorem C84_f2_irr_reach : forall (d : nat) (f : {poly 'F_2}), size f = d.+1 -> irreducible_poly f -> f`_0 = 1 ->
  (Z.of_nat d <= INT_MAX)%coqZ -> exists b : 'I_d -> bool, forall (St : Type) (draw : St -> Z * St) (t : N) (fuel : nat) (s : St),
  (forall k : 'I_d, bit17 draw s k = b k) -> (0 < fuel)%N ->
  f2_poly_random_irreducible draw (Some t) fuel (Z.of_nat d) s = Ok (f2_enc f, iter d (next draw) s).
Proof.
move=> d f sf fi f0 hd; have d0 : (0 < d)%N by case: fi; rewrite sf.
have [b hb] := C84_f2_poly_uniform sf; exists b => St draw t fuel s hs h.
have [s' e] := proj2 (hb St draw s) hs.
have ef : cand2 draw d s = f.
  by move: e; rewrite C84_f2_poly => -[/enc2_inj e _]; rewrite /cand2 /rnd2 e f0 subrr addr0.
have := C84_f2_irr draw t fuel s d0 hd; case=> [[k [hk _ hj ->]]|[hn _]]; last first.
  by case: (hn 0%N h); rewrite mul0n ef.
case: k hk hj => [|k] hk hj; first by rewrite mul0n mul1n ef.
by case: (hj 0%N) => //; rewrite mul0n ef.
Qed.
Theorem C84_f2_irr_neg : forall (St : Type) (draw : St -> Z * St) t fuel (d : Z) (s : St),
  (d < 1)%coqZ -> f2_poly_random_irreducible draw t fuel d s = Exn.
Proof. by move=> St draw t fuel d s; rewrite /f2_poly_random_irreducible => /Z.ltb_lt ->. Qed.

(* ---- search for a polynomial modulo which x generates the units *)
Definition x_generates (m : {poly 'F_2}) : Prop := coprimep m 'X /\ forall h, coprimep m h -> exists j, h %% m = 'X ^+ j %% m.
Definition wanted (need_irr : bool) (m : {poly 'F_2}) : Prop := x_generates m /\ (need_irr -> irreducible_poly m).
Lemma prim_try St (draw : St -> Z * St) t d ni s : (0 < d)%N -> (Z.of_nat d <= 30)%coqZ ->
  exists ob, f2_prim_try draw (Some t) (Z.of_nat d) ni s = Ok (ob, iter d (next draw) s) /\
  ((ob = Some (f2_enc (rnd2 draw d s)) /\ wanted ni (rnd2 draw d s)) \/ (ob = None /\ ~ wanted ni (rnd2 draw d s))).
Proof.
move=> d0 hd; rewrite /f2_prim_try; have [l [-> hl]] := f2_poly_random_ok draw d s; rewrite bind_ok.
have [|b [-> hb]] := PropUnits.C31_primitive_partial t hl; first by rewrite rnd2_size.
rewrite bind_ok; case: b hb => hb; last by exists None; split=> //; right; split=> // -[/hb].
have hp : x_generates (rnd2 draw d s) by apply/hb.
case: ni => /=; last first.
  by exists (Some l); split=> //; left; rewrite (PropLinalg.f2_encE hl).
have [|b [-> hb2]] := PropF2Fac.C29_is_irreducible_partial t hl.
  by rewrite rnd2_size; apply: Z.le_trans hd _.
rewrite bind_ok; case: b hb2 => hb2; [exists (Some l) | exists None]; split=> //; [left | right].
  by rewrite (PropLinalg.f2_encE hl); split=> //; split=> // _; apply/hb2.
by split=> // -[_ /(_ isT) /hb2].
Qed.
Theorem C84_f2_prim_partial : forall (St : Type) (draw : St -> Z * St) (t : N) (d fuel : nat) (need_irr : bool) (s : St),
  (0 < d)%N -> (Z.of_nat d <= 30)%coqZ ->
  let cand k := rnd2 draw d (iter (k * d) (next draw) s) in
  (exists k, [/\ (k < fuel)%N, wanted need_irr (cand k), (forall j, (j < k)%N -> ~ wanted need_irr (cand j)) &
     f2_poly_random_prim draw (Some t) fuel (Z.of_nat d) need_irr s = Ok (f2_enc (cand k), iter (k.+1 * d) (next draw) s)]) \/
  ((forall k, (k < fuel)%N -> ~ wanted need_irr (cand k)) /\
   f2_poly_random_prim draw (Some t) fuel (Z.of_nat d) need_irr s = Div).
Proof.
move=> St draw t d fuel ni s d0 hd cand; rewrite /f2_poly_random_prim.
have -> : Z.ltb (Z.of_nat d) 1 = false by apply/Z.ltb_ge; case: d d0 {hd cand} => // n _; rewrite Nat2Z.inj_succ; have := Nat2Z.is_nonneg n; clear; lia.
have := until_spec (fun s' => prim_try draw t ni s' d0 hd) fuel s.
case=> [[k [hk hg hj ->]]|[hn ->]]; [left; exists k | right]; rewrite /cand.
  by split=> // [|j lj|]; [rewrite iterM | rewrite iterM; exact: hj | rewrite !iterM].
by split=> // k hk; rewrite iterM; exact: hn.
Qed.
Theorem C84_f2_prim_result_partial : forall (St : Type) (draw : St -> Z * St) (t : N) (d fuel : nat) (need_irr : bool) (s : St),
  (0 < d)%N -> (Z.of_nat d <= 30)%coqZ ->
  f2_poly_random_prim draw (Some t) fuel (Z.of_nat d) need_irr s = Div \/
  exists f k, [/\ f2_poly_random_prim draw (Some t) fuel (Z.of_nat d) need_irr s = Ok (f2_enc f, iter (k * d) (next draw) s),
    size f = d.+1, x_generates f & need_irr -> irreducible_poly f].
Proof.
move=> St draw t d fuel ni s d0 hd; have [[k [_ [h1 h2] _ ->]]|[_ ->]] := C84_f2_prim_partial draw t fuel ni s d0 hd; last by left.
by right; eexists; exists k.+1; split=> //; exact: rnd2_size.
Qed.
Theorem C84_f2_prim_neg : forall (St : Type) (draw : St -> Z * St) t fuel (d : Z) b (s : St),
  (d < 1)%coqZ -> f2_poly_random_prim draw t fuel d b s = Exn.
Proof. by move=> St draw t fuel d b s; rewrite /f2_poly_random_prim => /Z.ltb_lt ->. Qed.

(* ================================================================ F_p *)
Theorem C84_intmod : forall (St : Type) (draw : St -> Z * St) (m : Z) (s : St), (2 <= m <= INT_MAX)%coqZ ->
  intmod_random draw m s = Ok (mkim (to_int (word draw s) mod m) m, next draw s).
Proof.
move=> St draw m s hm; rewrite /intmod_random; have -> : Z.ltb m 2 = false by apply/Z.ltb_ge; case: hm.
have hr := to_int_range draw s; rewrite /get_random_int; move: hr; rewrite /word /next; case: (draw s) => w s' hr.
by rewrite im_make_any // bind_ok.
Qed.
Theorem C84_intmod_small : forall (St : Type) (draw : St -> Z * St) (m : Z) (s : St), (m < 2)%coqZ -> intmod_random draw m s = Exn.
Proof. by move=> St draw m s; rewrite /intmod_random => /Z.ltb_lt ->. Qed.
(* both halves of a 64-bit number are successive words *)
Theorem C84_uint64 : forall (St : Type) (draw : St -> Z * St) (s : St),
  get_random_uint64 draw s = ((word draw (next draw s) * 2 ^ 32 + word draw s)%coqZ, next draw (next draw s)).
Proof.
move=> St draw s; have e s' : get_random_uint32 draw s' = (word draw s', next draw s').
  by rewrite /get_random_uint32 /get_random_int /word /next; case: (draw s') => w s1; rewrite to_int_u32.
rewrite /get_random_uint64 !e; congr (_, _).
have h := Z.mod_pos_bound (fst (draw s)) (2 ^ 32) ltac:(lia); rewrite -/(word draw s) in h.
rewrite Z.shiftl_mul_pow2 //; move: (word draw (next draw s)) => hi.
have dis : Z.land (hi * 2 ^ 32) (word draw s) = 0%coqZ.
  apply/Z.bits_inj' => n hn; rewrite Z.land_spec Z.bits_0.
  case: (Z_lt_le_dec n 32) => hl; first by rewrite Z.mul_pow2_bits_low.
  case: (Z.eq_dec (word draw s) 0) => [->|hne]; first by rewrite Z.bits_0 andbF.
  rewrite (Z.bits_above_log2 (word draw s)) ?andbF //; first by case: h.
  apply: Z.lt_le_trans hl; apply: (proj1 (Z.log2_lt_pow2 _ _ _)); first by clear - h hne; lia.
  by case: h.
by rewrite -Z.lxor_lor // -Z.add_nocarry_lxor.
Qed.
Section Fp.
Variables (p : nat) (c : cache) (St : Type) (draw : St -> Z * St).
Hypothesis pp : prime p.
Hypothesis hP : (Z.of_nat p <= 46341)%coqZ.
Hypothesis hc : cache_valid c.
Local Notation V := (Vp p).
Local Notation I := (Ip p).
Local Notation P := (Z.of_nat p).
Let sp := im_kspec pp hP hc.
Lemma Prange : (2 <= P <= INT_MAX)%coqZ.
Proof. by have [h1 h2] := P2 pp hP; split=> //; apply: Z.le_trans h2 _. Qed.
Lemma fp_coeff s : exists x, intmod_random draw P s = Ok (x, next draw s) /\ R V I x (cfp p draw s 0).
Proof.
rewrite C84_intmod; last exact: Prange.
eexists; split; first by []; split; last by rewrite /Ip /= izr_mod.
by split=> //; rewrite /canon /=; apply: Z.mod_pos_bound; have := Prange; clear; lia.
Qed.
Lemma fp_zero : exists z, im_make 0 P = Ok z /\ R V I z 0.
Proof. by have [|z [e h]] := V_make pp hP (z := 0%coqZ); [split | exists z]. Qed.
Lemma fp_one : exists z, im_make 1 P = Ok z /\ R V I z 1.
Proof. by have [|z [e h]] := V_make pp hP (z := 1%coqZ); [split | exists z]. Qed.
Lemma fp_random_G d s : exists l, fp_poly_random draw c P (Z.of_nat d) s = Ok (l, iter d.+1 (next draw) s) /\
  isG V I l (rndF d (cfp p draw s)).
Proof.
rewrite /fp_poly_random; have -> : Z.ltb (Z.of_nat d) 0 = false by apply/Z.ltb_ge; exact: Nat2Z.is_nonneg.
have [z [-> hz]] := fp_zero; have [u [-> hu]] := fp_one; rewrite !bind_ok.
have [l [-> hl]] := const_ok sp hz; rewrite bind_ok Nat2Z.id.
have [r [-> hr]] := random_ok sp fp_coeff hz hu d s hl.
by exists r.
Qed.
Theorem C84_fp_poly : forall d s,
  fp_poly_random draw c P (Z.of_nat d) s = Ok (fp_enc (rndF d (cfp p draw s)), iter d.+1 (next draw) s).
Proof. by move=> d s; have [l [-> h]] := fp_random_G d s; rewrite (PropFpPoly.Genc pp hP hc h). Qed.
Theorem C84_fp_poly_neg : forall d s, (d < 0)%coqZ -> fp_poly_random draw c P d s = Exn.
Proof. by move=> d s; rewrite /fp_poly_random => /Z.ltb_lt ->. Qed.
Theorem C84_fp_polymod : forall (m : {poly 'F_p}) s, (1 < size m)%N ->
  fp_polymod_random draw c (fp_enc m) s = Ok (fp_menc m (rndF (size m).-1 (cfp p draw s)), iter (size m) (next draw) s).
Proof.
move=> m s h; have m0 : m != 0 by rewrite -size_poly_gt0 ltnW.
have hm := PropFpPoly.encG pp m; rewrite /fp_polymod_random (degG hm).
have -> : Nat.ltb (size m).-1 1 = false by apply/Nat.ltb_ge; case: (size m) h => [|[]] // n _; apply/leP.
have -> : getk (fp_enc m) 0 = Ok (PropFpPoly.fp_el (m`_0)).
  by rewrite /PropFpPoly.fp_enc (negbTE m0); case: (polyseq m) h.
rewrite bind_ok /= C84_fp_poly bind_ok (PropFpPolymod.q_make pp hP hc m0) bind_ok.
by rewrite prednK // ltnW.
Qed.
Theorem C84_fp_polymod_small : forall (m : {poly 'F_p}) s, (size m <= 1)%N -> fp_polymod_random draw c (fp_enc m) s = Exn.
Proof.
move=> m s h; have hm := PropFpPoly.encG pp m; rewrite /fp_polymod_random (degG hm).
by case: (size m) h => [|[]].
Qed.
(* the k-th candidate is the k-th random polynomial; the first one that is irreducible and
   has non-zero constant term is made monic and returned *)
Theorem C84_fp_irr_partial : forall (d fuel : nat) (s : St), (0 < d)%N -> (Z.of_nat d < INT_MAX)%coqZ ->
  let cand k := rndF d (cfp p draw (iter (k * d.+1) (next draw) s)) in
  (exists k, [/\ (k < fuel)%N, good (cand k), (forall j, (j < k)%N -> ~ good (cand j)) &
     fp_poly_random_irr draw c fuel P (Z.of_nat d) s =
     Ok (fp_enc ((lead_coef (cand k))^-1 *: cand k), iter (k.+1 * d.+1) (next draw) s)]) \/
  ((forall k, (k < fuel)%N -> ~ good (cand k)) /\ fp_poly_random_irr draw c fuel P (Z.of_nat d) s = Div).
Proof.
move=> d fuel s d0 hd cand; rewrite /fp_poly_random_irr; have [z [-> hz]] := fp_zero; rewrite bind_ok.
have -> : Z.ltb (Z.of_nat d) 1 = false by apply/Z.ltb_ge; case: d d0 {hd cand} => // n _; rewrite Nat2Z.inj_succ; have := Nat2Z.is_nonneg n; clear; lia.
have irrE l f : isG V I l f -> size f = d.+1 -> exists b, fp_is_irreducible c l = Ok b /\ (b = true <-> irreducible_poly f).
  move=> hl sz; rewrite (PropFpPoly.Genc pp hP hc hl); apply: PropFpFac.C36_is_irreducible_partial => //.
  by rewrite sz Nat2Z.inj_succ; apply/Z.le_succ_l.
have := until_spec (cand := fun s => rndF d (cfp p draw s)) (good := @good _) (out := fun f : {poly 'F_p} => fp_enc ((lead_coef f)^-1 *: f))
  (irr_try sp hz (fun s => fp_random_G d s) irrE (fun s => rndF_size d (cfp p draw s)) (PropFpPoly.Genc pp hP hc)) fuel s.
case=> [[k [hk hg hj ->]]|[hn ->]]; [left; exists k | right]; rewrite /cand.
  by split=> // [|j lj|]; [rewrite iterM | rewrite iterM; exact: hj | rewrite !iterM].
by split=> // k hk; rewrite iterM; exact: hn.
Qed.
Theorem C84_fp_irr_result_partial : forall (d fuel : nat) (s : St), (0 < d)%N -> (Z.of_nat d < INT_MAX)%coqZ ->
  fp_poly_random_irr draw c fuel P (Z.of_nat d) s = Div \/
  exists (f : {poly 'F_p}) k, fp_poly_random_irr draw c fuel P (Z.of_nat d) s = Ok (fp_enc f, iter (k * d.+1) (next draw) s) /\
    [/\ size f = d.+1, f \is monic, irreducible_poly f & f`_0 != 0].
Proof.
move=> d fuel s d0 hd; have [[k [_ [h1 h2] _ ->]]|[_ ->]] := C84_fp_irr_partial fuel s d0 hd; last by left.
right; eexists; exists k.+1; split; first by [].
set f := rndF _ _ in h1 h2 *; have f0 : f != 0 by rewrite -size_poly_gt0 rndF_size.
have [hm hs he] := monic_scale f0; split=> //; first by rewrite hs rndF_size.
  by apply: (irr_eqp _ h2); rewrite eqp_sym.
by rewrite coefZ mulf_neq0 // invr_eq0 lead_coef_eq0.
Qed.
Theorem C84_fp_irr_neg : forall fuel (d : Z) (s : St), (d < 1)%coqZ -> fp_poly_random_irr draw c fuel P d s = Exn.
Proof.
move=> fuel d s h; rewrite /fp_poly_random_irr; have [z [-> hz]] := fp_zero; rewrite bind_ok.
by move/Z.ltb_lt: h => ->.
Qed.
End Fp.

(* ================================================================ GF(2^n) *)
Section F2n.
Variables (G : gf2) (St : Type) (draw : St -> Z * St).
Local Notation L := (gf_L G).
Local Notation V := (Vg (gf_m G)).
Local Notation I := (@Ig L (gf_emb G) (gf_z G)).
Local Notation n := (size (gf_m G)).-1.
Let sp : kspec f2n_kops V I kg := f2n_kspec (gf_irr G) (gf_root G) (gf_card G).
Lemma f2n_coeff lm s : isP lm (gf_m G) ->
  exists x, f2_polymod_random draw lm s = Ok (x, iter n (next draw) s) /\ R V I x (cf2n G draw s 0).
Proof.
move=> hm; have h1 : (1 < size (gf_m G))%N by case: (gf_irr G).
have [x [-> hx]] := f2_polymod_random_ok draw s hm h1; exists x; split=> //.
by apply: VgI hx _ _; rewrite (ev_mod (gf_root G)) /cf2n mul0n.
Qed.
Lemma f2n_random_G lm d s : isP lm (gf_m G) ->
  exists l, f2n_poly_random draw lm (Z.of_nat d) s = Ok (l, iter (d.+1 * n) (next draw) s) /\ isG V I l (rndF d (cf2n G draw s)).
Proof.
move=> hm; rewrite /f2n_poly_random; have -> : Z.ltb (Z.of_nat d) 0 = false by apply/Z.ltb_ge; exact: Nat2Z.is_nonneg.
have [z [-> hz]] := V_int (gf_irr G) (gf_root G) 0%coqZ hm; have [u [-> hu]] := V_int (gf_irr G) (gf_root G) 1%coqZ hm; rewrite !bind_ok.
have [l [-> hl]] := const_ok sp hz; rewrite bind_ok Nat2Z.id.
have [r [-> hr]] := random_ok sp (fun s => f2n_coeff s hm) hz hu d s hl.
exists r; rewrite iterM; split=> //; congr (isG _ _ _ _): hr; rewrite /rndF; congr (_ + _).
by apply: eq_bigr => i _; rewrite /cf2n mul0n [in RHS]iterM.
Qed.
Theorem C84_f2n_poly : forall d s,
  f2n_poly_random draw (f2_enc (gf_m G)) (Z.of_nat d) s = Ok (g2_enc (rndF d (cf2n G draw s)), iter (d.+1 * n) (next draw) s).
Proof.
by move=> d s; have [l [-> h]] := f2n_random_G d s (PropLinalg.f2_encP (gf_m G)); rewrite (PropF2nPoly.Genc h).
Qed.
Theorem C84_f2n_poly_neg : forall d s, (d < 0)%coqZ -> f2n_poly_random draw (f2_enc (gf_m G)) d s = Exn.
Proof. by move=> d s; rewrite /f2n_poly_random => /Z.ltb_lt ->. Qed.
Theorem C84_f2n_polymod : forall (m : {poly L}) s, m != 0 ->
  f2n_polymod_random draw (f2_enc (gf_m G)) (g2_enc m) s =
  Ok (g2_menc m (rndF (size m).-1 (cf2n G draw s)), iter (size m * n) (next draw) s).
Proof.
move=> m s m0; have hm := PropF2nPoly.encG m; rewrite /f2n_polymod_random (degG hm) C84_f2n_poly bind_ok.
by rewrite (PropF2nPolymod.q_make m0) bind_ok prednK // size_poly_gt0.
Qed.
Theorem C84_f2n_polymod_0 : forall s, f2n_polymod_random draw (f2_enc (gf_m G)) (g2_enc (0 : {poly L})) s = Exn.
Proof.
move=> s; have hm := PropF2nPoly.encG (0 : {poly L}); rewrite /f2n_polymod_random (degG hm) size_poly0 C84_f2n_poly bind_ok.
by rewrite (make_0 sp (PropF2nPoly.encG _) hm).
Qed.
Theorem C84_f2n_irr_partial : forall (d fuel : nat) (s : St), (Z.of_nat n <= 30)%coqZ -> (0 < d)%N -> (Z.of_nat d < INT_MAX)%coqZ ->
  let cand k := rndF d (cf2n G draw (iter (k * (d.+1 * n)) (next draw) s)) in
  (exists k, [/\ (k < fuel)%N, good (cand k), (forall j, (j < k)%N -> ~ good (cand j)) &
     f2n_poly_random_irr draw fuel (f2_enc (gf_m G)) (Z.of_nat d) s =
     Ok (g2_enc ((lead_coef (cand k))^-1 *: cand k), iter (k.+1 * (d.+1 * n)) (next draw) s)]) \/
  ((forall k, (k < fuel)%N -> ~ good (cand k)) /\ f2n_poly_random_irr draw fuel (f2_enc (gf_m G)) (Z.of_nat d) s = Div).
Proof.
move=> d fuel s hn0 d0 hd cand; rewrite /f2n_poly_random_irr; have hm := PropLinalg.f2_encP (gf_m G).
have [z [-> hz]] := V_int (gf_irr G) (gf_root G) 0%coqZ hm; rewrite bind_ok.
have -> : Z.ltb (Z.of_nat d) 1 = false by apply/Z.ltb_ge; case: d d0 {hd cand} => // k _; rewrite Nat2Z.inj_succ; have := Nat2Z.is_nonneg k; clear; lia.
have irrE l f : isG V I l f -> size f = d.+1 -> exists b, f2n_is_irreducible l = Ok b /\ (b = true <-> irreducible_poly f).
  move=> hl sz; rewrite (PropF2nPoly.Genc hl); apply: PropF2nFac.C68_is_irreducible_partial => //.
  by rewrite sz Nat2Z.inj_succ; apply/Z.le_succ_l.
have := until_spec (cand := fun s => rndF d (cf2n G draw s)) (good := @good _) (out := fun f : {poly L} => g2_enc ((lead_coef f)^-1 *: f))
  (irr_try sp hz (fun s => f2n_random_G d s hm) irrE (fun s => rndF_size d (cf2n G draw s)) (@PropF2nPoly.Genc G)) fuel s.
case=> [[k [hk hg hj ->]]|[hn ->]]; [left; exists k | right]; rewrite /cand.
  by split=> // [|j lj|]; [rewrite iterM | rewrite iterM; exact: hj | rewrite [in RHS]iterM [in RHS](iterM k.+1)].
by split=> // k hk; rewrite iterM; exact: hn.
Qed.
Theorem C84_f2n_irr_result_partial : forall (d fuel : nat) (s : St), (Z.of_nat n <= 30)%coqZ -> (0 < d)%N -> (Z.of_nat d < INT_MAX)%coqZ ->
  f2n_poly_random_irr draw fuel (f2_enc (gf_m G)) (Z.of_nat d) s = Div \/
  exists (f : {poly L}) k,
    f2n_poly_random_irr draw fuel (f2_enc (gf_m G)) (Z.of_nat d) s = Ok (g2_enc f, iter (k * (d.+1 * n)) (next draw) s) /\
    [/\ size f = d.+1, f \is monic, irreducible_poly f & f`_0 != 0].
Proof.
move=> d fuel s hn d0 hd; have [[k [_ [h1 h2] _ ->]]|[_ ->]] := C84_f2n_irr_partial fuel s hn d0 hd; last by left.
right; eexists; exists k.+1; split; first by [].
set f := rndF _ _ in h1 h2 *; have f0 : f != 0 by rewrite -size_poly_gt0 rndF_size.
have [hm hs he] := monic_scale f0; split=> //; first by rewrite hs rndF_size.
  by apply: (irr_eqp _ h2); rewrite eqp_sym.
by rewrite coefZ mulf_neq0 // invr_eq0 lead_coef_eq0.
Qed.
Theorem C84_f2n_irr_neg : forall fuel (d : Z) (s : St), (d < 1)%coqZ -> f2n_poly_random_irr draw fuel (f2_enc (gf_m G)) d s = Exn.
Proof.
move=> fuel d s h; rewrite /f2n_poly_random_irr; have hm := PropLinalg.f2_encP (gf_m G).
have [z [-> hz]] := V_int (gf_irr G) (gf_root G) 0%coqZ hm; rewrite bind_ok.
by move/Z.ltb_lt: h => ->.
Qed.
End F2n.

(* ---- the library's own generator as the source: the words are its outputs *)
Theorem C84_source : forall s, PMisc.state32 s ->
  word psdes_draw s = Z.of_N (snd (psdes_hash_64 s)) /\ next psdes_draw s = psdes_next s /\ PMisc.state32 (psdes_next s).
Proof.
move=> s hs; split; last by split=> //; exact: PMisc.next_state.
rewrite /word [fst _]/=; apply: Z.mod_small; split; first exact: N2Z.is_nonneg.
have [_ h] : PMisc.state32 (psdes_hash_64 s) by exact: PMisc.hash_state.
by move: h; rewrite /PMisc.word32 => h; have /N2Z.inj_lt := h.
Qed.

(* ================================================================ cases *)
Definition ex_draw (s : Z) : Z * Z := ((s * 131072)%coqZ, (s + 1)%coqZ).
Example C84_ex_bits : f2_poly_random ex_draw 3 5%coqZ = Ok ([:: 13%num], 8%coqZ) /\
  f2_poly_random_irreducible ex_draw (Some 0%num) 5 3 5%coqZ = Ok ([:: 13%num], 8%coqZ) /\
  f2_poly_random_irreducible ex_draw (Some 0%num) 5 4 1%coqZ = Div /\ f2_poly_random ex_draw (-1) 5%coqZ = Exn.
Proof. by vm_compute. Qed.
Example C84_ex : f2_poly_random_irreducible psdes_draw (Some 0%num) 20 4 (0%num, 1%num) = Ok ([:: 31%num], (0%num, 5%num)) /\
  f2_poly_random_prim psdes_draw (Some 0%num) 20 4 true (0%num, 1%num) = Ok ([:: 25%num], (0%num, 21%num)) /\
  intmod_random psdes_draw 10 (0%num, 1%num) = Ok (mkim 9 10, (0%num, 2%num)) /\
  fp_poly_random psdes_draw cache_init 5 3 (0%num, 1%num) = Ok ([:: mkim 4 5; mkim 1 5; mkim 3 5; mkim 4 5], (0%num, 5%num)) /\
  fp_poly_random_irr psdes_draw cache_init 20 5 2 (0%num, 1%num) = Ok ([:: mkim 4 5; mkim 2 5; mkim 1 5], (0%num, 4%num)) /\
  f2n_poly_random psdes_draw [:: 7%num] 3 (0%num, 1%num) =
    Ok ([:: mkpm [:: 3%num] [:: 7%num]; mkpm [:: 0%num] [:: 7%num]; mkpm [:: 0%num] [:: 7%num]; mkpm [:: 1%num] [:: 7%num]], (0%num, 9%num)) /\
  f2n_poly_random_irr psdes_draw 20 [:: 7%num] 2 (0%num, 1%num) =
    Ok ([:: mkpm [:: 3%num] [:: 7%num]; mkpm [:: 3%num] [:: 7%num]; mkpm [:: 1%num] [:: 7%num]], (0%num, 19%num)) /\
  cache_valid cache_init.
Proof. by do 7 (split; first by vm_compute); exact: cache_init_valid. Qed.

Print Assumptions C84_f2_poly.
Print Assumptions C84_f2_poly_neg.
Print Assumptions C84_f2_poly_uniform.
Print Assumptions C84_f2_polymod.
Print Assumptions C84_f2_polymod_small.
Print Assumptions C84_f2_polymod_uniform.
Print Assumptions C84_f2_irr.
Print Assumptions C84_f2_irr_result.
Print Assumptions C84_f2_irr_reach.
Print Assumptions C84_f2_irr_neg.
Print Assumptions C84_f2_prim_partial.
Print Assumptions C84_f2_prim_result_partial.
Print Assumptions C84_f2_prim_neg.
Print Assumptions C84_intmod.
Print Assumptions C84_intmod_small.
Print Assumptions C84_uint64.
Print Assumptions C84_fp_poly.
Print Assumptions C84_fp_poly_neg.
Print Assumptions C84_fp_polymod.
Print Assumptions C84_fp_polymod_small.
Print Assumptions C84_fp_irr_partial.
Print Assumptions C84_fp_irr_result_partial.
Print Assumptions C84_fp_irr_neg.
Print Assumptions C84_f2n_poly.
Print Assumptions C84_f2n_poly_neg.
Print Assumptions C84_f2n_polymod.
Print Assumptions C84_f2n_polymod_0.
Print Assumptions C84_f2n_irr_partial.
Print Assumptions C84_f2n_irr_result_partial.
Print Assumptions C84_f2n_irr_neg.
Print Assumptions C84_source.
