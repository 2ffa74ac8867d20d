(* Proofs for MRandom.v: draws, loops over the coefficients, the searches. *)
From Verif Require Import Base MIntMath MIntmod MMat MF2Poly MF2Fac MUnits MPoly MPolymod MPolyFac MF2nPoly MRandom.
From Verif Require Import PIntMath PIntMath2 PIntmod PF2Poly.
From mathcomp Require Import all_ssreflect fingroup perm all_algebra ssrZ zify.
From mathcomp Require Import finfield.
From Verif Require Import PBits3 PF2Poly2 PF2Poly3 PF2Poly4 PMat PFp PPoly PPoly2 PPoly3.
Set Implicit Arguments.
Unset Strict Implicit.
Unset Printing Implicit Defensive.
Import GRing.Theory.
Delimit Scope Z_scope with coqZ.
Local Open Scope ring_scope.

Section Until.
Variables (St B : Type) (try : St -> res (option B * St)) (b : St -> option B) (nxt : St -> St).
Hypothesis tryE : forall s, try s = Ok (b s, nxt s).
Lemma until_some fuel s k r : (k < fuel)%N -> b (iter k nxt s) = Some r -> (forall j, (j < k)%N -> b (iter j nxt s) = None) ->
  until fuel try s = Ok (r, iter k.+1 nxt s).
Proof.
elim: fuel s k => // fuel IH s k hk hb hn; rewrite /until /= /until_step tryE bind_ok.
case: k hk hb hn => [|k] hk hb hn; first by rewrite hb.
rewrite (hn 0%N) //; rewrite iterSr in hb; rewrite iterSr; apply: IH => // j hj.
by rewrite -iterSr; exact: hn.
Qed.
Lemma until_none fuel s : (forall j, (j < fuel)%N -> b (iter j nxt s) = None) -> until fuel try s = Div.
Proof.
elim: fuel s => // fuel IH s hn; rewrite /until /= /until_step tryE bind_ok (hn 0%N) //.
by apply: IH => j hj; rewrite -iterSr; exact: hn.
Qed.
End Until.

Section Gen.
Context {A : Type} (o : kops A) {F : fieldType} (V : A -> Prop) (I : A -> F) (kv : A -> nat).
Hypothesis sp : kspec o V I kv.
Local Notation isG := (isG V I).
Local Notation R := (R V I).
Variables (St : Type) (coeff : St -> res (A * St)) (cf : St -> F) (nxt : St -> St).
Hypothesis coeffE : forall s, exists x, coeff s = Ok (x, nxt s) /\ R x (cf s).
Variables zero one : A.
Hypothesis h0 : R zero 0.
Hypothesis h1 : R one 1.

Lemma gloop k deg l f s : (k <= deg)%N -> isG l f -> (forall i, (i < k)%N -> f`_i = 0) ->
  exists r, gp_random_loop o coeff deg k zero one l s = Ok (r, iter k nxt s) /\
    isG r (f + \sum_(i < k) cf (iter (k.-1 - i) nxt s) *: 'X^i).
Proof.
elim: k l f s => [|k IH] l f s hk hl hf; first by exists l; rewrite /= big_ord0 addr0.
rewrite [gp_random_loop _ _ _ _ _ _ _ _]/=; have [x [-> hx]] := coeffE s; rewrite bind_ok.
have -> : Nat.eqb k deg = false by apply/Nat.eqb_neq; clear -hk; lia.
rewrite bind_ok; have [r [-> hr]] := PPoly3.set_coeff_ok sp k hl hx; rewrite bind_ok.
rewrite hf // subr0 in hr.
have [|i hi|r' [-> hr']] := IH r _ (nxt s) _ hr; first exact: ltnW.
  by rewrite coefD coefZ coefXn (hf i (ltnW _)) ?ltnS // (ltn_eqF hi) mulr0 addr0.
exists r'; rewrite -iterSr; split=> //.
rewrite big_ord_recr /= subnn /= addrA -addrA [cf s *: _ + _]addrC addrA in hr' *.
congr (isG _ _): hr'; congr (_ + _ + _); apply: eq_bigr => i _.
rewrite -iterSr; have -> : (k.-1 - i).+1 = (k - i)%N by case: i => i hi /=; clear -hi; lia.
by [].
Qed.
Lemma random_ok deg l s : isG l 0 ->
  let lead := if cf s == 0 then 1 else cf s in
  exists r, gp_random_loop o coeff deg deg.+1 zero one l s = Ok (r, iter deg.+1 nxt s) /\
    isG r (lead *: 'X^deg + \sum_(i < deg) cf (iter (deg - i) nxt s) *: 'X^i).
Proof.
move=> hl lead; rewrite [gp_random_loop _ _ _ _ _ _ _ _]/=; have [x [-> hx]] := coeffE s; rewrite bind_ok.
rewrite Nat.eqb_refl (R_eqb (ks_c sp) hx h0) !bind_ok.
set y := (if _ then one else x); have hy : R y lead by rewrite /y /lead; case: eqP.
have [r [-> hr]] := PPoly3.set_coeff_ok sp deg hl hy; rewrite bind_ok.
rewrite coef0 subr0 add0r in hr.
have [//|i hi|r' [-> hr']] := gloop (k := deg) (deg := deg) (nxt s) _ hr.
  by rewrite coefZ coefXn (ltn_eqF hi) mulr0.
exists r'; rewrite -iterSr; split=> //.
congr (isG _ _): hr'; congr (_ + _); apply: eq_bigr => i _.
rewrite -iterSr; have -> : (deg.-1 - i).+1 = (deg - i)%N by case: i => i hi /=; clear -hi; lia.
by [].
Qed.
End Gen.

(* ================================================================ draws *)
Section Src.
Variables (St : Type) (draw : St -> Z * St).
Definition word (s : St) : Z := (fst (draw s) mod 2 ^ 32)%coqZ.
Definition next (s : St) : St := snd (draw s).
(* bit number 17 of the k-th word after state s *)
Definition bit17 (s : St) (k : nat) : bool := Z.testbit (word (iter k next s)) 17.
Definition rnd2 (d : nat) (s : St) : {poly 'F_2} := 'X^d + \sum_(i < d) (bit17 s (d.-1 - i))%:R *: 'X^i.

Lemma to_int_u32 w : u32 (to_int (u32 w)) = (w mod 2 ^ 32)%coqZ.
Proof.
rewrite /u32 /to_int; case: Z.ltb => //; first exact: Z.mod_mod.
by rewrite Zminus_mod Z_mod_same_full Z.sub_0_r !Z.mod_mod.
Qed.
Lemma land17 w : Z.eqb (Z.land (Z.shiftr w 17) 1) 0 = ~~ Z.testbit w 17.
Proof.
have e : Z.testbit w 17 = Z.testbit (Z.land (Z.shiftr w 17) 1) 0.
  by rewrite Z.land_spec Z.shiftr_spec // andbT.
have e2 : Z.land (Z.shiftr w 17) 1 = Z.b2z (Z.odd (Z.shiftr w 17)).
  by rewrite (Z.land_ones _ 1) // Zmod_odd; case: (Z.odd _).
by rewrite e e2; case: (Z.odd _).
Qed.
Lemma rnd2_size d s : size (rnd2 d s) = d.+1.
Proof.
rewrite /rnd2 size_addl size_polyXn // ltnS; apply: (leq_trans (size_sum _ _ _)).
apply/bigmax_leqP => i _; apply: (leq_trans (size_scale_leq _ _)); by rewrite size_polyXn.
Qed.
Lemma rnd2_coef d s i : (i < d)%N -> (rnd2 d s)`_i = (bit17 s (d.-1 - i))%:R.
Proof.
move=> hi; rewrite /rnd2 coefD coefXn (ltn_eqF hi) add0r coef_sum (bigD1 (Ordinal hi)) //= coefZ coefXn eqxx mulr1.
rewrite big1 ?addr0 // => j /eqP hj; rewrite coefZ coefXn; case: eqP => [e|_]; last by rewrite mulr0.
by case: hj; apply: val_inj.
Qed.
Lemma f2_loopS k l s : f2_random_loop draw k.+1 l s =
  (r <- (if Z.eqb (Z.land (Z.shiftr (word s) 17) 1) 0 then Ok l else set_bit l (Z.of_nat k)) ;;
   f2_random_loop draw k r (next s)).
Proof.
cbn [f2_random_loop]; rewrite /get_random_uint32 /get_random_int /word /next; case: (draw s) => w s'.
by rewrite to_int_u32.
Qed.
Lemma f2_loop k l f s : isP l f -> (forall i, (i < k)%N -> f`_i = 0) ->
  exists r, f2_random_loop draw k l s = Ok (r, iter k next s) /\
    isP r (f + \sum_(i < k) (bit17 s (k.-1 - i))%:R *: 'X^i).
Proof.
elim: k l f s => [|k IH] l f s hl hf; first by exists l; rewrite /= big_ord0 addr0.
rewrite f2_loopS land17.
have [l' [e hl']] : exists l', (if ~~ Z.testbit (word s) 17 then Ok l else set_bit l (Z.of_nat k)) = Ok l' /\
    isP l' (f + (bit17 s 0)%:R *: 'X^k).
  rewrite /bit17 [iter 0 _ _]/=; case: (Z.testbit (word s) 17); rewrite [~~ _]/=; last by exists l; rewrite mulr0n scale0r addr0.
  by rewrite mulr1n scale1r; exact: set_bit_P hl (hf k (ltnSn k)).
rewrite e bind_ok; have [i hi|r [-> hr]] := IH l' _ (next s) hl'.
  by rewrite coefD coefZ coefXn (ltn_eqF hi) mulr0 addr0 hf // ltnS ltnW.
exists r; rewrite -iterSr; split=> //.
rewrite big_ord_recr /= subnn addrA -addrA [_ *: 'X^k + _]addrC addrA in hr *.
congr (isP _ _): hr; congr (_ + _ + _); apply: eq_bigr => i _.
rewrite /bit17 -iterSr; have -> : (k.-1 - i).+1 = (k - i)%N by case: i => i hi /=; clear -hi; lia.
by [].
Qed.
Lemma f2_poly_random_ok d s : exists l, f2_poly_random draw (Z.of_nat d) s = Ok (l, iter d next s) /\ isP l (rnd2 d s).
Proof.
rewrite /f2_poly_random; have -> : Z.ltb (Z.of_nat d) 0 = false by apply/Z.ltb_ge; exact: Nat2Z.is_nonneg.
have h0 : isP (f2_of_int 0) 0 by exact: isP0.
have [|l [-> hl]] := set_bit_P (k := d) h0; first by rewrite coef0.
rewrite bind_ok add0r in hl *; rewrite Nat2Z.id.
have [i hi|r [-> hr]] := f2_loop (k := d) s hl; first by rewrite coefXn (ltn_eqF hi).
by exists r.
Qed.
Lemma f2_poly_random_neg d s : (d < 0)%coqZ -> f2_poly_random draw d s = Exn.
Proof. by rewrite /f2_poly_random => /Z.ltb_lt ->. Qed.
Lemma f2_polymod_random_ok lm m s : isP lm m -> (1 < size m)%N ->
  exists a, f2_polymod_random draw lm s = Ok (a, iter (size m).-1 next s) /\ isM a (rnd2 (size m).-1 s %% m) m.
Proof.
move=> hm h; rewrite /f2_polymod_random (degree_thm (isP_W hm)) bind_ok.
have -> : Nat.ltb (size m).-1 1 = false by apply/Nat.ltb_ge; case: (size m) h => [|[]] // n _; lia.
have [l [-> hl]] := f2_poly_random_ok (size m).-1 s; rewrite bind_ok.
have m0 : m != 0 by rewrite -size_poly_gt0 ltnW.
have [a [-> ha]] := make_L (isP_L hl) hm m0; by rewrite bind_ok; exists a.
Qed.
Lemma f2_polymod_random_small lm m s : isP lm m -> (size m <= 1)%N -> f2_polymod_random draw lm s = Exn.
Proof.
move=> hm h; rewrite /f2_polymod_random (degree_thm (isP_W hm)) bind_ok.
by case: (size m) h => [|[]].
Qed.

(* ---------------------------------------------------------------- intmod *)
Lemma to_int_range s : (INT_MIN <= to_int (word s) <= INT_MAX)%coqZ.
Proof.
have := Z.mod_pos_bound (fst (draw s)) (2 ^ 32) ltac:(lia); rewrite -/(word s).
by rewrite /to_int /INT_MIN /INT_MAX; case: Z.ltb_spec => ? ?; lia.
Qed.
End Src.
Lemma im_make_any r m : (2 <= m <= INT_MAX)%coqZ -> (INT_MIN <= r <= INT_MAX)%coqZ -> im_make r m = Ok (mkim (r mod m) m).
Proof.
move=> hm hr; case: (Z.eq_dec r INT_MIN) => [->|n]; last first.
  by apply: im_make_ok; rewrite /INT_MIN /INT_MAX in n hr hm *; lia.
have -> : INT_MIN = Z.opp 2147483648 by [].
have [d0 d1] : (0 <= 2147483648 / m <= 1073741824)%coqZ.
  split; first by apply: Z.div_pos; lia.
  by have := Z.div_le_compat_l 2147483648 2 m; rewrite (_ : 2147483648 / 2 = 1073741824)%coqZ //; apply; lia.
have [m0 m1] : (0 <= 2147483648 mod m < m)%coqZ by apply: Z.mod_pos_bound; lia.
rewrite /im_make /imod Z.quot_opp_l ?Z.rem_opp_l; try lia.
rewrite Z.quot_div_nonneg ?Z.rem_mod_nonneg; try lia.
have -> : Z.leb m 0 = false by apply/Z.leb_gt; lia.
have -> : Z.eqb m 0 = false by apply/Z.eqb_neq; lia.
have -> : in_int (- (2147483648 / m)) = true.
  by rewrite /in_int; apply/andP; split; apply/Z.leb_le; rewrite /INT_MIN /INT_MAX; lia.
rewrite bind_ok; case: (Z.eqb_spec (2147483648 mod m) 0) => e.
  by rewrite Z_mod_zero_opp_full // e.
rewrite Z_mod_nz_opp_full //; have -> : Z.ltb (- (2147483648 mod m)) 0 = true by apply/Z.ltb_lt; lia.
rewrite /iadd chk_ok ?bind_ok; last by rewrite /INT_MIN /INT_MAX in hm *; lia.
by congr (Ok (mkim _ _)); lia.
Qed.

(* ================================================================ a search, as a whole *)
Lemma until_spec (St B T : Type) (try : St -> res (option B * St)) (nxt : St -> St) (cand : St -> T) (good : T -> Prop) (out : T -> B) :
  (forall s, exists ob, try s = Ok (ob, nxt s) /\ ((ob = Some (out (cand s)) /\ good (cand s)) \/ (ob = None /\ ~ good (cand s)))) ->
  forall fuel s,
  (exists k, [/\ (k < fuel)%N, good (cand (iter k nxt s)), (forall j, (j < k)%N -> ~ good (cand (iter j nxt s))) &
     until fuel try s = Ok (out (cand (iter k nxt s)), iter k.+1 nxt s)]) \/
  ((forall k, (k < fuel)%N -> ~ good (cand (iter k nxt s))) /\ until fuel try s = Div).
Proof.
move=> H fuel s; pose b s := match try s with Ok (ob, _) => ob | _ => None end.
have tryE s' : try s' = Ok (b s', nxt s') by rewrite /b; have [ob [-> _]] := H s'.
have bP s' : if isSome (b s') then b s' = Some (out (cand s')) /\ good (cand s') else b s' = None /\ ~ good (cand s').
  by rewrite /b; have [ob [-> [[-> h]|[-> h]]]] := H s'.
case: (boolP [exists k : 'I_fuel, isSome (b (iter k nxt s))]) => [/existsP [k hk]|/existsPn hn]; last first.
  have hn' j : (j < fuel)%N -> ~~ isSome (b (iter j nxt s)) by move=> hj; have := hn (Ordinal hj).
  right; split=> [j hj|]; first by have := bP (iter j nxt s); rewrite (negbTE (hn' j hj)) => -[].
  by apply: (until_none tryE) => j hj; have := bP (iter j nxt s); rewrite (negbTE (hn' j hj)) => -[].
left; have ex : exists k, isSome (b (iter k nxt s)) by exists k.
case: (ex_minnP ex) => n hb hmin; exists n.
have hj j : (j < n)%N -> b (iter j nxt s) = None /\ ~ good (cand (iter j nxt s)).
  by move=> hj; have := bP (iter j nxt s); case: ifP => // h; have := hmin _ h; rewrite leqNgt hj.
have := bP (iter n nxt s); rewrite hb => -[eb hg].
have hlt : (n < fuel)%N by apply: leq_ltn_trans (hmin _ hk) (ltn_ord k).
by split=> // [j /hj []//|]; apply: (until_some tryE) => // j /hj [].
Qed.
