(* Factorization over a finite field (MPolyFac.v): the pieces of Berlekamp's algorithm. *)
From Verif Require Import Base MIntMath MMat MFac MPoly MF2Fac MPolyFac PFacGen.
From mathcomp Require Import all_ssreflect fingroup perm all_algebra finfield separable ssrZ.
From Verif Require Import PLin PLin2 PLin3 PMat PMat2 PMat3 PropMat PPoly PPoly2 PPoly3 PPoly4 PBerl PFacPoly.
Set Implicit Arguments.
Unset Strict Implicit.
Unset Printing Implicit Defensive.
Import GRing.Theory.
Delimit Scope Z_scope with coqZ.
Local Open Scope ring_scope.

(* what the parameters of the factorization have to be *)
Record fspec (A : Type) (F : finFieldType) (V : A -> Prop) (I : A -> F) (fp : facpar A) (cst : Z -> F) (pc : nat) : Prop := {
  fq_ok : forall l p, isG V I l p -> fp_q fp l = Ok (Z.of_nat #|F|);
  fq_max : (Z.of_nat #|F| <= INT_MAX)%coqZ;
  fcst_ok : forall l p z, isG V I l p -> (0 <= z < Z.of_nat #|F|)%coqZ ->
              exists r, fp_cst fp l z = Ok r /\ isG V I r (cst z)%:P;
  fcst_surj : forall a : F, exists2 z, (0 <= z < Z.of_nat #|F|)%coqZ & cst z = a;
  fchar_ok : forall l p, isG V I l p -> fp_char fp l = Ok (Z.of_nat pc);
  fchar : pc \in [char F];
  froot_ok : forall l p, isG V I l p ->
     (exists r g, fp_root fp l = Ok (Some r) /\ isG V I r g /\ g ^+ pc = p) \/
     (fp_root fp l = Ok None /\ forall g : {poly F}, g ^+ pc <> p)
}.

Lemma modp_mull2 (F : fieldType) (a b f : {poly F}) : (a %% f * b) %% f = (a * b) %% f.
Proof. by rewrite [in LHS]mulrC modp_mul mulrC. Qed.

Section PF.
Variables (A : Type) (o : kops A) (F : finFieldType) (V : A -> Prop) (I : A -> F) (kv : A -> nat).
Hypothesis spec : kspec o V I kv.
Hypothesis dflt : forall z, R V I z 0 -> exists z1, k_int o (k_dflt o) 0 = Ok z1 /\ c_eqb (k_c o) z z1 = Ok false.
Let q := #|F|.
Hypothesis kvq : forall x, V x -> (kv x < q)%N.
Hypothesis kv0 : forall x, V x -> (kv x == 0)%N = (I x == 0).
Let sc := ks_c spec.
Local Notation R := (R V I).
Local Notation Rr := (Rr V I).
Local Notation isG := (isG V I).
Local Notation gpoly := (@MPoly.gpoly A).

Lemma q2 : (1 < q)%N. Proof. exact: finRing_gt1. Qed.
Lemma degG l p : isG l p -> gp_degree l = (size p).-1.
Proof. by move=> h; rewrite /gp_degree lengthE (isG_size h) minusE; case: (size p) => [|[|n]]; rewrite // /maxn /= subn1. Qed.

Definition Gp (l : gpoly) : {poly F} := Poly (map I l).
Lemma isG_Gp l p : isG l p -> Gp l = p.
Proof.
move=> h; rewrite /Gp -[RHS]cseqP; congr Poly; rewrite /PPoly.isG in h.
by elim: h => [|x a l1 s [_ <-] _ IH] //=; rewrite IH.
Qed.
Definition VG (l : gpoly) : Prop := isG l (Gp l) /\ Gp l != 0.
Lemma VG_of l p : isG l p -> p != 0 -> VG l.
Proof. by move=> h h0; rewrite /VG (isG_Gp h). Qed.
Lemma ok_trueE b : ok_true (Ok b) = b. Proof. by case: b. Qed.

Lemma gp_fac_spec : fac_spec (gp_fops o) VG Gp *%R 1 (fun _ => True).
Proof.
have lt x y : VG x -> VG y -> f_ltb (gp_fops o) x y = (gval kv q x < gval kv q y)%N.
  by move=> [hx _] [hy _] /=; have [_ [_ [-> _]]] := cmp_val spec q2 kvq kv0 hx hy; rewrite ok_trueE.
have eqv x y : VG x -> VG y -> gval kv q x = gval kv q y -> x = y.
  move=> [hx _] [hy _] h; have [e _] := cmp_val spec q2 kvq kv0 hx hy.
  have := eqb_ok spec hx hy; rewrite e h eqxx => -[/esym/eqP e2].
  by move: hy; rewrite -e2 => hy; apply: (isG_uniq spec hx hy).
split.
- by split=> *; rewrite ?mulrA ?mul1r ?mulr1 // mulrC.
- by [].
- move=> x y [hx x0] [hy y0] _ /=; have [r [-> hr]] := mul_ok spec hx hy.
  by exists r; split=> //; rewrite /VG (isG_Gp hr); split=> //; split=> //; rewrite mulf_neq0.
- by move=> x y [hx _] [hy _] e; rewrite e in hx; apply: (isG_uniq spec hx hy).
- move=> x y [hx x0] [hy y0] /=; rewrite (eqb_ok spec hx hy) ok_trueE.
  split=> [/eqP e|->]; last by rewrite eqxx.
  by rewrite e in hx; apply: (isG_uniq spec hx hy).
- by move=> x hx; rewrite lt // ltnn.
- by move=> x y z hx hy hz; rewrite !lt // => h1 h2; apply: ltn_trans h2.
- move=> x y hx hy; rewrite !lt //; case: (ltngtP (gval kv q x) (gval kv q y)) => h; [by left|by right; right|right; left].
  exact: eqv.
Qed.

Definition monicp (p : {poly F}) := (lead_coef p)^-1 *: p.
Lemma monic_ok l p : isG l p -> p != 0 -> exists r, gp_monic o l = Ok r /\ isG r (monicp p).
Proof.
move=> h p0; rewrite /gp_monic (degG h); have [x [-> hx]] := get_coeff_ok spec (size p).-1 h.
rewrite bind_ok; apply: (divc_ok spec h hx); by rewrite -/(lead_coef p) lead_coef_eq0.
Qed.
Lemma monicp_monic p : p != 0 -> monicp p \is monic.
Proof. by move=> p0; rewrite monicE /monicp lead_coefZ mulVf // lead_coef_eq0. Qed.
Lemma monicp_eqp p : p != 0 -> monicp p %= p.
Proof. by move=> p0; rewrite /monicp eqp_scale // invr_eq0 lead_coef_eq0. Qed.
Lemma monicp_id p : p \is monic -> monicp p = p.
Proof. by rewrite monicE /monicp => /eqP ->; rewrite invr1 scale1r. Qed.
Lemma size_monicp p : size (monicp p) = size p.
Proof.
have [->|p0] := eqVneq p 0; first by rewrite /monicp scaler0.
by apply: eqp_size; apply: monicp_eqp.
Qed.
Lemma monicpM p r : monicp (p * r) = monicp p * monicp r.
Proof. by rewrite /monicp lead_coefM invfM -scalerAl -scalerAr scalerA. Qed.

(* ---------------------------------------------------------------- the vector of a null space row *)
Lemma from_vector_ok v n s : Rr v s -> size s = n -> (0 < n)%N ->
  exists h p, [/\ gp_from_vector o v n = Ok h, isG h p & forall j, p`_j = if (j < n)%N then nth 0 s (n - 1 - j) else 0].
Proof.
move=> hv hs n0.
have hel i : (i < n)%N -> exists x, elt v i = Ok x /\ R x (nth 0 s i).
  move=> hi; have [x [e hx]] := getk_ok (V := V) (I := I) hv (i := i) ltac:(rewrite hs; exact: hi).
  by exists x; split=> //; move: e; rewrite /getk /elt; case: (nth_error v i).
have [v0 [e0 hv0]] := hel 0%N n0.
rewrite /gp_from_vector e0 bind_ok.
have [z [ez hz]] := R_sub sc hv0 hv0; rewrite ez bind_ok subrr in hz *.
have [z1 [e1 e2]] := dflt hz.
rewrite /gp_set_coeff /= e1 bind_ok e2 bind_ok.
have hz0 : isG [:: z] 0 by rewrite /PPoly.isG /cseq eqxx; constructor.
have [|k t hk [p [hp hc]]|h [e [p [hp hc]]]] := for_ok (Inv := fun i h => exists p, isG h p /\ forall j, p`_j = if (n - i <= j < n)%N then nth 0 s (n - 1 - j) else 0)
  (body := fun i f => x <- elt v i ;; gp_set_coeff o f (Z.of_nat (Nat.sub (Nat.sub n 1) i)) x) (n := n) (s := [:: z]).
- exists 0; split=> // j; rewrite coef0 subn0; case: ifP => // /andP [h1 h2].
  by move: (leq_ltn_trans h1 h2); rewrite ltnn.
- have [x [ex hx]] := hel _ hk; rewrite ex bind_ok.
  have [r [er hr]] := set_coeff_ok spec (Nat.sub (Nat.sub n 1) k) hp hx.
  exists r; split=> //; eexists; split; first exact: hr.
  move=> j; rewrite coefD coefZ coefXn !hc !minusE.
  have [-> | hne] := eqVneq j (n - 1 - k)%N.
    have -> : (n - k <= n - 1 - k < n)%N = false by lia.
    have -> : (n - k.+1 <= n - 1 - k < n)%N = true by lia.
    by rewrite add0r subr0 mulr1; congr (nth _ _ _); lia.
  have -> : (n - k.+1 <= j < n)%N = (n - k <= j < n)%N by lia.
  by rewrite mulr0 addr0.
exists h, p; split=> // j; rewrite hc subnn.
by [].
Qed.

(* ---------------------------------------------------------------- the matrix *)
Lemma nth_error_upd T (l : list T) i x j : nth_error (upd l i x) j =
  if (j == i) && (i < length l)%N then Some x else nth_error l j.
Proof. by elim: l i j => [|y l IH] [|i] [|j] //=; rewrite ?andbF // IH eqSS ltnS. Qed.
Definition sq n (rows : list (list A)) := length rows = n /\ forall r, List.In r rows -> length r = n.
Lemma mset_ok n rows i j x : sq n rows -> (i < n)%N -> (j < n)%N ->
  exists rows', [/\ mset rows i j x = Ok rows', sq n rows' &
    forall i' j', el rows' i' j' = if (i' == i) && (j' == j) then Ok x else el rows i' j'].
Proof.
move=> [hl hr] hi hj.
have [r er] : exists r, nth_error rows i = Some r.
  by case E : (nth_error rows i) => [r|]; [exists r | move/nth_error_None: E; rewrite hl; move/ltP: hi; lia].
have hlr := hr r (nth_error_In _ _ er).
rewrite /mset /rowat er bind_ok /setelt /setrow hlr hl.
have -> : Nat.ltb j n = true by apply/Nat.ltb_lt/ltP.
have -> : Nat.ltb i n = true by apply/Nat.ltb_lt/ltP.
rewrite bind_ok; eexists; split; first by [].
  split; first by rewrite upd_length.
  move=> r1 h1; have [k] := In_nth_error _ _ h1; rewrite nth_error_upd hl; case: ifP => _; first by case=> <-; rewrite upd_length.
  by move=> e; apply: (hr _ (nth_error_In _ _ e)).
move=> i' j'; rewrite /el /rowat nth_error_upd hl hi andbT; case: eqP => [->|_] //=.
rewrite er !bind_ok /elt nth_error_upd hlr hj andbT; by case: eqP.
Qed.

Section Fill.
Variables (lf : gpoly) (f : {poly F}) (n : nat).
Hypotheses (Hf : isG lf f) (Hf1 : size f = n.+1) (n0 : (0 < n)%N).
Let f0 : f != 0. Proof. by rewrite -size_poly_eq0 Hf1. Qed.

Lemma xq_ok lx : isG lx 'X -> exists r, gp_xq o lf lx (Z.of_nat q) = Ok r /\ isG r ('X^q %% f).
Proof.
move=> hx; rewrite /gp_xq Nat2Z.id.
have hq2 := q2.
have [||r [e hr]] := for_up_inv (fun _ xp => p <- gp_mul o xp lx ;; gp_mod o p lf)
    (fun i h => (i = 1%N /\ h = lx) \/ isG h ('X^i %% f)) (Nat.sub q 1) 1 lx; last first.
- exists r; split=> //; case: hr => [[h1 _]|].
    by move: h1 hq2; rewrite -?plusE -?minusE; lia.
  by have -> : Nat.add 1 (Nat.sub q 1) = q by move: hq2; lia.
- by left.
move=> k t _ ht.
have [p [hp ep]] : exists p, isG t p /\ p * 'X %% f = 'X^k.+1 %% f.
  case: ht => [[-> ->]|ht]; first by exists 'X; rewrite -expr2.
  by eexists; split; first exact: ht; rewrite modp_mull2 -exprSr.
have [u [eu hu]] := mul_ok spec hp hx; rewrite eu bind_ok.
have [w [-> hw]] := mod_ok spec hu Hf f0.
by exists w; split=> //; right; rewrite -ep.
Qed.

(* entry (n-1-i, n-1-j) is coefficient i of X^(q j) mod f *)
Definition filled (j : nat) (rows : list (list A)) := forall i j', (i < n)%N -> (j' < j)%N ->
  exists x, el rows (n - 1 - i)%N (n - 1 - j')%N = Ok x /\ R x (('X^(q * j') %% f)`_i).
Lemma fill_ok one xq rows : isG one 1 -> isG xq ('X^q %% f) -> sq n rows ->
  exists rows', [/\ gp_fill_B o n lf one xq rows = Ok rows', sq n rows' & filled n rows'].
Proof.
move=> h1 hxq hs; rewrite /gp_fill_B.
match goal with |- context [for_up n 0 ?b (rows, one)] => set body := b end.
have [||[r xs] [e [hs' hf' _]]] := for_ok (Inv := fun j s => [/\ sq n s.1, filled j s.1 & isG s.2 ('X^(q * j) %% f)]) (body := body) (n := n) (s := (rows, one)).
- split=> //=.
  by rewrite muln0 expr0 modp_small // Hf1 size_poly1.
- move=> j [rs xpi] hj [/= hs1 hf1 hx].
  have [||rs' [e1 [hs2 hf2 hnew]]] := for_ok (Inv := fun i rs => [/\ sq n rs, filled j rs &
      forall i', (i' < i)%N -> exists x, el rs (n - 1 - i')%N (n - 1 - j)%N = Ok x /\ R x (('X^(q * j) %% f)`_i')])
    (body := fun i rows => c <- gp_get_coeff o xpi (Z.of_nat i) ;; mset rows (Nat.sub (Nat.sub n 1) i) (Nat.sub (Nat.sub n 1) j) c) (n := n) (s := rs).
  + by [].
  + move=> i t hi [ht hft hnt]; have [x [-> hxx]] := get_coeff_ok spec i hx; rewrite bind_ok !minusE.
    have [||t' [et ht' helt]] := mset_ok (i := (n - 1 - i)%N) (j := (n - 1 - j)%N) x ht; first by lia.
      by lia.
    exists t'; split=> //; split=> //.
    * move=> i1 j1 hi1 hj1; have [y [ey hy]] := hft _ _ hi1 hj1; exists y; rewrite helt.
      by have -> : (n - 1 - j1 == n - 1 - j)%N = false; [lia | rewrite andbF].
    * move=> i1; rewrite ltnS leq_eqVlt => /orP [/eqP ->|hi1]; first by exists x; rewrite helt !eqxx.
      have [y [ey hy]] := hnt _ hi1; exists y; rewrite helt.
      by have -> : (n - 1 - i1 == n - 1 - i)%N = false by lia.
  rewrite /body e1 bind_ok.
  have [p [-> hp]] := mul_ok spec hx hxq; rewrite bind_ok.
  have [w [-> hw]] := mod_ok spec hp Hf f0; rewrite bind_ok.
  exists (rs', w); split=> //; split=> //=.
    move=> i1 j1 hi1; rewrite ltnS leq_eqVlt => /orP [/eqP ->|hj1]; last exact: hf2.
    exact: hnew.
  by move: hw; rewrite modp_mul modp_mull2 -exprD mulnS addnC.
by rewrite e bind_ok; exists r.
Qed.
Lemma sub_I_ok one rows : R one 1 -> sq n rows -> filled n rows ->
  exists rows', gp_sub_I o n one rows = Ok rows' /\ mat_is V I (mkmat rows' n) (BMx n f).
Proof.
move=> h1 hs hf; rewrite /gp_sub_I.
have [||r [e [hs' hr]]] := for_ok (Inv := fun k rs => sq n rs /\ forall i j : 'I_n,
    exists x, el rs i j = Ok x /\ R x (('X^(q * rev_ord j) %% f)`_(rev_ord i) - ((i == j) && (i < k)%N)%:R))
  (body := fun i rows => x <- el rows i i ;; y <- c_sub (k_c o) x one ;; mset rows i i y) (n := n) (s := rows).
- split=> // i j; have [x [ex hx]] := hf (rev_ord i) (rev_ord j) (ltn_ord _) (ltn_ord _).
  exists x; rewrite andbF subr0; split=> //; rewrite -ex /=; have := ltn_ord i; have := ltn_ord j.
  by move=> u v; congr (el _ _ _); lia.
- move=> k t hk [ht hel]; have [x [ex hx]] := hel (Ordinal hk) (Ordinal hk).
  rewrite [el t k k]ex bind_ok; rewrite eqxx ltnn subr0 in hx.
  have [y [-> hy]] := R_sub sc hx h1; rewrite bind_ok.
  have [t' [et ht' helt]] := mset_ok y ht hk hk.
  exists t'; split=> //; split=> // i j; rewrite helt.
  case: (eqVneq (i : nat) k) => [ei|ni] /=.
    have -> : i = Ordinal hk by apply: val_inj.
    case: (eqVneq (j : nat) k) => [ej|nj] /=.
      have -> : j = Ordinal hk by apply: val_inj.
      by exists y; rewrite eqxx ltnS leqnn.
    have [z [ez hz]] := hel (Ordinal hk) j; exists z; rewrite [el t _ _]ez; split=> //.
    have -> : (Ordinal hk == j) = false by apply/eqP => e; case/eqP: nj; rewrite -e.
    by move: hz; have -> : (Ordinal hk == j) = false by apply/eqP => e; case/eqP: nj; rewrite -e.
  have [z [ez hz]] := hel i j; exists z; split=> //.
  by rewrite ltnS leq_eqVlt (negbTE ni).
exists r; split=> //; split=> //; try by case: hs'.
move=> i j; have [x [ex hx]] := hr i j; exists x; split=> //.
by rewrite ltn_ord andbT in hx; rewrite !mxE.
Qed.
End Fill.
End PF.
