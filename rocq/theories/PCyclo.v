(* Cyclotomic polynomials (MCyclo): every call is undefined (int overflow) or right, for
   every state of the memo table. *)
From Verif Require Import Base MIntMath MIntrat MMat MPoly MCyclo PIntMath PIntrat PMono PMat PPoly PPoly2 PPoly3 PQPoly PQPoly2.
From mathcomp Require Import all_ssreflect ssralg ssrint rat poly polydiv ssrnum zify ssrZ.
Require Import Lia.
Set Implicit Arguments.
Unset Strict Implicit.
Unset Printing Implicit Defensive.
Import GRing.Theory ListNotations Num.Theory.
Delimit Scope Z_scope with coqZ.
Local Open Scope ring_scope.
Local Infix "<~" := le_res (at level 70).
Local Notation QG := (isG lowest qv).

(* the coefficients, constant term first, each in lowest terms *)
Definition qpenc (p : {poly rat}) : qpoly := [seq qenc a | a <- (if p == 0 then [:: 0] else polyseq p)].
Lemma qR a : R lowest qv (qenc a) a.
Proof. by split; [exact: low_enc|exact: qv_enc]. Qed.
Lemma qpG p : QG (qpenc p) p.
Proof. rewrite /isG /qpenc -/(cseq p); elim: (cseq p) => [|a s IH] /=; constructor => //; exact: qR. Qed.
Lemma Gqp l p : QG l p -> l = qpenc p.
Proof. by move=> h; apply: (isG_uniq q_spec h (qpG p)). Qed.
Lemma Rq x a : R lowest qv x a -> x = qenc a.
Proof. by case=> vx <-; rewrite enc_qv. Qed.

Definition ubor {T} (r : res T) (v : res T) : Prop := r = UB \/ r = v.
Lemma uG (r r' : res qpoly) p : r <~ r' -> (exists x, r' = Ok x /\ QG x p) -> ubor r (Ok (qpenc p)).
Proof. by case=> -> [x [h hx]]; [left|right; rewrite h (Gqp hx)]. Qed.
Lemma uR (r r' : res intrat) a : r <~ r' -> (exists x, r' = Ok x /\ R lowest qv x a) -> ubor r (Ok (qenc a)).
Proof. by case=> -> [x [h hx]]; [left|right; rewrite h (Rq hx)]. Qed.
Lemma uB (T : Type) (r r' : res T) v : r <~ r' -> r' = v -> ubor r v.
Proof. by case=> ->; [left|right]. Qed.

Lemma for_upto S (body : nat -> S -> res S) (Inv : nat -> S -> Prop) n i s :
  (forall k t, (i <= k < i + n)%N -> Inv k t -> body k t = UB \/ exists t', body k t = Ok t' /\ Inv k.+1 t') ->
  Inv i s -> for_up n i body s = UB \/ exists s', for_up n i body s = Ok s' /\ Inv (i + n)%N s'.
Proof.
elim: n i s => [|n IH] i s h hi /=; first by right; exists s; rewrite addn0.
have [|->|[t [-> ht]]] := h i s _ hi; [|by left|]; first by rewrite leqnn addnS ltnS leq_addr.
rewrite bind_ok -addSnnS; apply: IH => // k u hk; apply: h; by case/andP: hk => h1 h2; rewrite (ltnW h1) -addSnnS.
Qed.

Lemma q_of_int_ok v : (INT_MIN < v <= INT_MAX)%coqZ -> q_of_int v = Ok (qpenc (iz v)%:P).
Proof.
move=> hv; rewrite /q_of_int of_int_ok // bind_ok.
have hx : R lowest qv (mkrat v 1) (iz v) by split; [exact: low_int|exact: qv_int].
have e : gp_const q_kops (mkrat v 1) <> UB.
  have c1 : chk v = Ok v by rewrite /chk (_ : in_int v = true) //; move: hv; rewrite /in_int /INT_MIN /INT_MAX; clear; lia.
  have es : rat_sub (mkrat v 1) (mkrat v 1) = Ok (mkrat 0 1).
    by rewrite /rat_sub /imul /isub; cbn [numer denom]; rewrite Z.mul_1_r Z.mul_1_l c1 !bind_ok Z.sub_diag.
  rewrite /gp_const /gp_recompute /getk; cbn [List.nth_error]; rewrite bind_ok; cbn [c_sub k_c q_kops]; rewrite es bind_ok.
  by cbn; case: (rat_eqb _ _).
by case: (uG (m_const _ _ q_kle (mkrat v 1)) (const_ok q_spec hx)).
Qed.
Lemma set_upto p k a : ubor (gp_set_coeff q_kops (qpenc p) (Z.of_nat k) (qenc a)) (Ok (qpenc (p + (a - p`_k) *: 'X^k))).
Proof. exact: uG (m_set_coeff _ _ q_kle _ _ _) (set_coeff_ok q_spec _ (qpG p) (qR a)). Qed.
Lemma qenc_int v : qenc (iz v) = mkrat v 1.
Proof. by apply: qv_inj; [exact: low_enc|exact: low_int|rewrite qv_enc qv_int]. Qed.

Section Phi.
Variable Phi : nat -> {poly rat}.
Hypothesis hPhi : forall n, (0 < n)%N -> \prod_(d <- divisors n) Phi d = 'X^n - 1.

Definition memo_ok (m : memo) : Prop := forall k p, List.nth k m None = Some p -> p = qpenc (Phi k).
Lemma memo_init_ok : memo_ok memo_init.
Proof. by move=> k p; rewrite /memo_init; do 17?[case: k => [//|k]]; case: k. Qed.
Lemma memo_get_ok m n p : memo_ok m -> memo_get m n = Some p -> p = qpenc (Phi (Z.to_nat n)).
Proof. by move=> hm; rewrite /memo_get; case: ifP => // _; exact: hm. Qed.
Lemma nth_updN (T : Type) (l : list T) i x j d : List.nth j (upd l i x) d = if (j == i) && (i < size l)%N then x else List.nth j l d.
Proof. by elim: l i j => [|y l IH] [|i] [|j] //=; rewrite ?andbF // IH. Qed.
Lemma memo_set_ok m n : memo_ok m -> memo_ok (memo_set m n (qpenc (Phi (Z.to_nat n)))).
Proof.
move=> hm k p; rewrite /memo_set; case: ifP => _; last exact: hm.
by rewrite nth_updN; case: ifP => [/andP[/eqP -> _] [<-]|_]; [|exact: hm].
Qed.

Lemma Phi_neq0 n : (0 < n)%N -> Phi n != 0.
Proof.
move=> h; have : 'X^n - 1 != 0 :> {poly rat} by rewrite -size_poly_eq0 size_Xn_sub_1.
rewrite -(hPhi h) => /eqP hp; apply/eqP => e; apply: hp; apply/eqP; rewrite prodf_seq_eq0.
by apply/hasP; exists n; [rewrite -dvdn_divisors|rewrite e eqxx].
Qed.
Definition rest (n d : nat) : {poly rat} := \prod_(e <- divisors n | (d <= e)%N) Phi e.
Lemma rest1 n : (0 < n)%N -> rest n 1 = 'X^n - 1.
Proof.
move=> h; rewrite -(hPhi h) /rest.
rewrite big_seq_cond [RHS]big_seq_cond; apply: eq_bigl => e; rewrite andbT; case he : (e \in _) => //=.
by rewrite (dvdn_gt0 h) // dvdn_divisors.
Qed.
Lemma rest_skip n d : (0 < n)%N -> ~~ (d %| n)%N -> rest n d = rest n d.+1.
Proof.
move=> h hd; rewrite /rest big_seq_cond [RHS]big_seq_cond; apply: eq_bigl => e; case he : (e \in _) => //=.
by rewrite leq_eqVlt; case: eqP => // e'; move: hd; rewrite dvdn_divisors // e' he.
Qed.
Lemma rest_step n d : (0 < n)%N -> (d %| n)%N -> rest n d = Phi d * rest n d.+1.
Proof.
move=> h hd; rewrite /rest big_mkcond (bigD1_seq d) /=.
- rewrite leqnn; congr (_ * _); rewrite big_mkcond [RHS]big_mkcond; apply: eq_bigr => e _.
  by rewrite ltn_neqAle eq_sym; case: (d == e).
- by rewrite -dvdn_divisors.
- exact: divisors_uniq.
Qed.
Lemma rest_last n : (0 < n)%N -> rest n n = Phi n.
Proof.
move=> h; rewrite rest_step // /rest big_seq_cond big1 ?mulr1 // => e /andP[he hl].
by move: he; rewrite -dvdn_divisors // => /(dvdn_leq h); rewrite leqNgt hl.
Qed.
Lemma rest_neq0 n d : (0 < n)%N -> rest n d != 0.
Proof.
move=> h; apply/eqP => /eqP; rewrite /rest prodf_seq_eq0 => /hasP[e he /andP[_ /eqP h0]].
have e0 : (0 < e)%N by apply: (dvdn_gt0 h); rewrite dvdn_divisors.
by have := Phi_neq0 e0; rewrite h0 eqxx.
Qed.

Lemma binomial_upto n : (0 < n)%N ->
  ubor (q_binomial (mkrat 1 1) (Z.of_nat n) (mkrat (-1) 1) 0) (Ok (qpenc ('X^n - 1))).
Proof.
move=> h; rewrite /q_binomial q_of_int_ok // bind_ok -!qenc_int iz0 polyC0.
case: (set_upto 0 n (iz 1)) => ->; first by left.
rewrite bind_ok coef0 subr0 add0r iz1 scale1r.
have := set_upto 'X^n 0 (iz (-1)); rewrite coefXn expr0 alg_polyC.
have -> : (0 == n)%N = false by rewrite eq_sym; apply/negbTE; rewrite -lt0n.
by rewrite subr0 (_ : iz (-1) = -1) // polyCN.
Qed.
Lemma self_upto p q : q != 0 -> ubor (q_quot_rem_self (qpenc (q * p)) (qpenc q)) (Ok (qpenc p, qpenc 0)) \/ p = 0.
Proof.
move=> q0; case: (eqVneq p 0) => [->|p0]; [by right|left].
have [a [b [e [ha hb]]]] := quot_rem_ok q_spec (qpG (q * p)) (qpG q) q0.
rewrite /q_quot_rem_self; case: (uB (m_quot_rem _ _ q_kle _ _) e) => ->; first by left.
right; rewrite bind_ok (Gqp ha) (Gqp hb) mulKp // modp_mulr.
have sz f : List.length (qpenc f) = maxn 1 (size f) by exact: isG_size (qpG f).
case: (PeanoNat.Nat.ltb_spec) => //; rewrite !sz size_mul //; have := size_poly_eq0 p; rewrite (negbTE p0).
by move: (size p) (size q) => x y; clear; lia.
Qed.

Lemma rem_dvd n d : (0 < n)%N -> (0 < d)%N -> (Z.of_nat n <= INT_MAX)%coqZ ->
  exists r, imod (Z.of_nat n) (Z.of_nat d) = Ok r /\ Z.eqb r 0 = (d %| n)%N.
Proof.
move=> hn hd hM; exists (Z.rem (Z.of_nat n) (Z.of_nat d)); rewrite /imod.
have -> : Z.eqb (Z.of_nat d) 0 = false by clear - hd; lia.
have -> : in_int (Z.quot (Z.of_nat n) (Z.of_nat d)) = true.
  rewrite Z.quot_div_nonneg; try by clear - hn hd; lia.
  have h1 : (0 <= Z.of_nat n / Z.of_nat d)%coqZ by apply: Z.div_pos; clear - hn hd; lia.
  have h2 : (Z.of_nat n / Z.of_nat d <= INT_MAX)%coqZ.
    by apply: Z.div_le_upper_bound; [clear - hd; lia|move: hM hd; rewrite /INT_MAX; clear; nia].
  by move: h1 h2; rewrite /in_int /INT_MIN /INT_MAX; generalize (Z.of_nat n / Z.of_nat d)%coqZ; clear; lia.
split=> //; rewrite Z.rem_mod_nonneg; try by clear - hn hd; lia.
apply/idP/dvdnP => [/Z.eqb_eq h|[k ->]]; last first.
  apply/Z.eqb_eq.
  by rewrite -multE Nat2Z.inj_mul Z.mod_mul //; clear - hd; lia.
have [q hq] := proj1 (Z.mod_divide (Z.of_nat n) (Z.of_nat d) ltac:(clear - hd; lia)) h.
by exists (Z.to_nat q); clear - hq hd hn; nia.
Qed.

Lemma cyclo_upto fuel m n : memo_ok m -> (0 < n < fuel)%N -> (Z.of_nat n <= INT_MAX)%coqZ ->
  cyclo_rec fuel m (Z.of_nat n) = UB \/ exists m', cyclo_rec fuel m (Z.of_nat n) = Ok (m', qpenc (Phi n)) /\ memo_ok m'.
Proof.
elim: fuel m n => [|fuel IH] m n hm; first by rewrite ltn0 andbF.
rewrite ltnS => /andP[n0 nf] nM; rewrite /cyclo_rec -/cyclo_rec q_of_int_ok // bind_ok.
have -> : Z.ltb (Z.of_nat n) 1 = false by clear - n0; lia.
case eg : (memo_get m (Z.of_nat n)) => [p|].
  by right; exists m; rewrite (memo_get_ok hm eg) Nat2Z.id.
case: Z.eqb_spec => [n1|n1].
  have {n1} n1 : n = 1%N by clear - n1; lia.
  have -> : q_linear_int 1 (-1) = Ok (qpenc (Phi n)).
    have -> : Phi n = (1 : rat) *: 'X + (-1)%:P by have := hPhi (isT : (0 < 1)%N); rewrite n1 big_seq1 expr1 scale1r polyCN.
    rewrite /q_linear_int !of_int_ok // !bind_ok.
    have h1 : R lowest qv (mkrat 1 1) 1 by split; [exact: low_int|exact: qv_int].
    have h2 : R lowest qv (mkrat (-1) 1) (-1) by split; [exact: low_int|exact: (qv_int (-1))].
    by case: (uG (m_linear _ _ q_kle (mkrat 1 1) (mkrat (-1) 1)) (linear_ok q_spec h1 h2)).
  rewrite bind_ok; right; eexists; split; first by [].
  by rewrite -{2}(Nat2Z.id n); exact: memo_set_ok.
rewrite !of_int_ok // !bind_ok.
case: (binomial_upto n0) => ->; first by left.
rewrite bind_ok -(rest1 n0) Nat2Z.id minusE.
set body := fun d s => _.
have [|||[[m' rv] [-> [/= hm' ->]]]] := @for_upto _ body (fun d s => memo_ok s.1 /\ s.2 = qpenc (rest n d)) (n - 1) 1 (m, qpenc (rest n 1)).
- move=> d [m1 rv] hd [/= hm1 ->]; rewrite /body.
  have hd1 : (0 < d < n)%N by clear - hd n0; lia.
  have [r [-> er]] := @rem_dvd n d n0 (proj1 (andP hd1)) nM; rewrite bind_ok er.
  case: ifP => hdn; last by right; eexists; split; [by []|split=> //=; rewrite rest_skip // hdn].
  set cd := match memo_get m1 _ with Some p => _ | None => _ end.
  have [->|[m2 [-> hm2]]] : cd = UB \/ exists m2, cd = Ok (m2, qpenc (Phi d)) /\ memo_ok m2.
  + rewrite /cd; case eg1 : (memo_get m1 _) => [p|]; first by right; exists m1; rewrite (memo_get_ok hm1 eg1) Nat2Z.id.
    by apply: IH => //; [clear - hd1 nf; lia|clear - hd1 nM; lia].
  + by left.
  rewrite bind_ok rest_step //.
  have [|h0] := self_upto (rest n d.+1) (Phi_neq0 (proj1 (andP hd1))); last by have := rest_neq0 d.+1 n0; rewrite h0 eqxx.
  case=> ->; first by left.
  rewrite bind_ok; case: (uB (m_pneqb _ _ q_kle _ _) (neqb_ok q_spec (qpG 0) (qpG (iz 0)%:P))) => ->; first by left.
  by rewrite bind_ok iz0 polyC0 eqxx /=; right; eexists.
- by [].
- by move=> ->; left.
rewrite (_ : 1 + (n - 1) = n)%N; last by clear - n0; lia.
rewrite rest_last //; right; eexists; split; first by [].
by rewrite -{2}(Nat2Z.id n); exact: memo_set_ok.
Qed.
Lemma get_upto m n : memo_ok m -> (n <= INT_MAX)%coqZ ->
  if (n <? 1)%coqZ then get_cyclo_qpoly m n = Exn
  else get_cyclo_qpoly m n = UB \/ exists m', get_cyclo_qpoly m n = Ok (m', qpenc (Phi (Z.to_nat n))) /\ memo_ok m'.
Proof.
move=> hm nM; case: Z.ltb_spec => hn.
  by rewrite /get_cyclo_qpoly /cyclo_rec q_of_int_ok // bind_ok; have -> : Z.ltb n 1 = true by clear - hn; lia.
have := @cyclo_upto (Z.to_nat n).+1 m (Z.to_nat n) hm; rewrite Z2Nat.id; last by clear - hn; lia.
by apply=> //; clear - hn; lia.
Qed.
End Phi.
