(* Final theorems for spffl/polynomials/f2_poly_t and f2_polymod_t.

   {poly 'F_2} is the ring of polynomials over the field with two elements; [size p] is the
   degree plus one (0 for the zero polynomial).
   [isP l p]: the object l (an array of 64-bit words without superfluous leading words)
   holds the polynomial p.  [isW l p]: the same, superfluous zero words allowed.
   [isM a r m]: the residue object a holds the residue r, of degree below that of m, modulo m.
   [valN l]: the integer whose binary digits are the coefficients of l. *)
From Verif Require Import Base MIntMath MMat MBits PBits MF2Poly PPow PF2Poly PF2Poly3.
From mathcomp Require Import all_ssreflect fingroup perm all_algebra ssrZ.
From Verif Require Import PBits3 PF2Poly2 PF2Poly4.
Set Implicit Arguments.
Unset Strict Implicit.
Unset Printing Implicit Defensive.
Import GRing.Theory.
Delimit Scope Z_scope with coqZ.
Local Open Scope ring_scope.

(* concrete polynomials for the examples *)
Lemma canon1 (w : N) : (w < 2 ^ 64)%num -> canon [:: w].
Proof.
move=> h; split; last by left.
split; first by apply/leP.
by case=> [|[|k]] /=; apply/w64_lt.
Qed.
Definition toN (p : {poly 'F_2}) (w : N) : Prop := forall i, p`_i = Ib (N.testbit w (N.of_nat i)).
Lemma isP_word w p : (w < 2 ^ 64)%num -> toN p w -> isP [:: w] p.
Proof.
move=> h hp; split; first exact: canon1.
apply/polyP=> i; rewrite coefPl hp -(@valN_bit [:: w]) /=; first by rewrite N.add_0_r.
by case=> [|[|k]] /=; apply/w64_lt.
Qed.
Lemma toN_X2_1 : toN ('X^2 + 1) 5.
Proof.
move=> i; rewrite coefD coefXn coef1; case: i => [|[|[|i]]]; try exact/val_inj.
rewrite N.bits_above_log2; first by apply/val_inj.
by change (N.log2 5) with 2%num; lia.
Qed.
Lemma toN_X_1 : toN ('X + 1) 3.
Proof.
move=> i; rewrite coefD coefX coef1; case: i => [|[|i]]; try exact/val_inj.
rewrite N.bits_above_log2; first by apply/val_inj.
by change (N.log2 3) with 1%num; lia.
Qed.
Lemma toN_X2_X_1 : toN ('X^2 + 'X + 1) 7.
Proof.
move=> i; rewrite !coefD coefXn coefX coef1; case: i => [|[|[|i]]]; try exact/val_inj.
rewrite N.bits_above_log2; first by apply/val_inj.
by change (N.log2 7) with 2%num; lia.
Qed.
Definition p3 := isP_word (erefl : (3 < 2 ^ 64)%num) toN_X_1.
Definition p5 := isP_word (erefl : (5 < 2 ^ 64)%num) toN_X2_1.
Definition p7 := isP_word (erefl : (7 < 2 ^ 64)%num) toN_X2_X_1.

(* ---- C22: ring operations ---- *)
Theorem C22_int v : isP (f2_of_int v) (Ib (Z.odd v))%:P.
Proof. exact (isP_int v). Qed.
Lemma ints_thm c2 c1 c0 :
  isP (f2_of_int2 c1 c0) (Ib (Z.odd c1) *: 'X + (Ib (Z.odd c0))%:P) /\
  isP (f2_of_int3 c2 c1 c0) (Ib (Z.odd c2) *: 'X^2 + Ib (Z.odd c1) *: 'X + (Ib (Z.odd c0))%:P).
Proof.
have hz c : bitZ c = N.b2n (Z.odd c).
  by rewrite /bitZ Z.land_comm -[1%coqZ]/(Z.ones 1) Z.land_comm Z.land_ones // -Z.bit0_mod Z.bit0_odd; case: Z.odd.
rewrite /f2_of_int2 /f2_of_int3 !hz; split; apply: isP_word.
- by case: (Z.odd c1); case: (Z.odd c0).
- move=> i; rewrite !coefD coefZ coefX coefC.
  case: i => [|[|i]]; last first.
    rewrite N.bits_above_log2; first by rewrite mulr0 addr0.
    by case: (Z.odd c1); case: (Z.odd c0) => /=; lia.
  by case: (Z.odd c1); case: (Z.odd c0); apply/eqP.
  by case: (Z.odd c1); case: (Z.odd c0); apply/eqP.
- by case: (Z.odd c2); case: (Z.odd c1); case: (Z.odd c0).
- move=> i; rewrite !coefD !coefZ coefXn coefX coefC.
  case: i => [|[|[|i]]]; last first.
    rewrite N.bits_above_log2; first by rewrite !mulr0 !addr0.
    by case: (Z.odd c2); case: (Z.odd c1); case: (Z.odd c0) => /=; lia.
  by case: (Z.odd c2); case: (Z.odd c1); case: (Z.odd c0); apply/eqP.
  by case: (Z.odd c2); case: (Z.odd c1); case: (Z.odd c0); apply/eqP.
  by case: (Z.odd c2); case: (Z.odd c1); case: (Z.odd c0); apply/eqP.
Qed.
(* constructors from two or three coefficients, the leading one first *)
Theorem C22_ints c2 c1 c0 :
  isP (f2_of_int2 c1 c0) (Ib (Z.odd c1) *: 'X + (Ib (Z.odd c0))%:P) /\
  isP (f2_of_int3 c2 c1 c0) (Ib (Z.odd c2) *: 'X^2 + Ib (Z.odd c1) *: 'X + (Ib (Z.odd c0))%:P).
Proof. exact (ints_thm c2 c1 c0). Qed.
Theorem C22_base_rep (w : N) : (w < 2 ^ 64)%num -> exists p, isP (f2_from_base_rep w) p /\
  forall i : nat, p`_i = Ib (N.testbit w (N.of_nat i)).
Proof.
move=> h; exists (P [:: w]); split; first by split=> //; exact: canon1.
move=> i; rewrite coefPl -(@valN_bit [:: w]) /=; first by rewrite N.add_0_r.
by case=> [|[|k]] /=; apply/w64_lt.
Qed.
Theorem C22_mul_int a p k : isP a p -> isP (f2_mul_int a k) (Ib (Z.odd k) *: p) /\ isP (f2_neg a) (- p).
Proof.
move=> h; split; last by rewrite oppF2.
by rewrite /f2_mul_int; case: (Z.odd k); rewrite ?scale1r ?scale0r //; exact: isP0.
Qed.
(* the stored form determines the polynomial and is determined by it *)
Theorem C22_unique a b p q : isP a p -> isP b q -> (a = b <-> p = q).
Proof.
move=> ha hb; split=> [e|e]; first by move: ha hb => [_ <-] [_ <-]; rewrite e.
by apply: (isP_uniq ha); rewrite e.
Qed.
Theorem C22_eq a b p q : isW a p -> isW b q -> f2_eqb a b = Ok (p == q) /\ f2_neqb a b = Ok (p != q).
Proof. exact (fun ha hb => conj (eqb_P ha hb) (neqb_P ha hb)). Qed.
Theorem C22_eq_int a p v : isW a p -> f2_eq_int a v = Ok (p == (Ib (Z.odd v))%:P).
Proof. exact (@eq_int_P a p v). Qed.
Theorem C22_degree a p : isW a p -> f2_degree a = Ok (size p).-1.
Proof. exact (@degree_thm a p). Qed.
Theorem C22_add a b p q : isW a p -> isW b q ->
  (exists c, f2_add a b = Ok c /\ isP c (p + q)) /\ (exists c, f2_sub a b = Ok c /\ isP c (p - q)).
Proof. exact (fun ha hb => conj (add_W ha hb) (sub_W ha hb)). Qed.
(* the product is always the right polynomial; it is in canonical form unless it is zero *)
Theorem C22_mul a b p q : isP a p -> isP b q ->
  exists c, [/\ f2_mul a b = Ok c, isW c (p * q) & p * q != 0 -> isP c (p * q)].
Proof.
by move=> ha hb; have [c [e h]] := mul_L ha (isP_L hb); exists c; split=> //; [exact: isL_W|exact: isL_nz].
Qed.
Theorem C22_mul_degree a b p q : isP a p -> isP b q -> p != 0 -> q != 0 ->
  exists c da db, [/\ f2_mul a b = Ok c, f2_degree a = Ok da, f2_degree b = Ok db & f2_degree c = Ok (da + db)%N].
Proof.
move=> ha hb p0 q0; have [c [e h]] := mul_P ha hb p0 q0; exists c, (size p).-1, (size q).-1.
split=> //; rewrite ?(degree_thm (isP_W ha)) ?(degree_thm (isP_W hb)) ?(degree_thm (isP_W h)) //.
by rewrite size_mul // (size_nz p0) (size_nz q0) addSn addnS.
Qed.
(* x^128 times zero is a zero that occupies three words; as a left factor it is accessed
   out of bounds *)
Theorem C22_mul_refuted : exists a b c d, [/\ canon a, canon b /\ canon d, f2_mul a b = Ok c, ~ canon c & f2_mul c d = UB].
Proof.
exists [:: 0%num; 0%num; 1%num], [:: 0%num], [:: 0%num; 0%num; 0%num], [:: 1%num]; split.
- split; last by right.
  split; first by apply/leP.
  by case=> [|[|[|[|k]]]] /=; apply/w64_lt.
- by split; exact: canon1.
- by vm_compute.
- by case=> _ [].
- by vm_compute.
Qed.
Example C22_ex : f2_mul [:: 3%num] [:: 3%num] = Ok [:: 5%num] /\ isP [:: 3%num] ('X + 1) /\ isP [:: 5%num] ('X^2 + 1).
Proof. by split; [vm_compute|split; [exact: p3|exact: p5]]. Qed.

(* ---- C23: division ---- *)
Theorem C23_quot_rem a b p q : isP a p -> isP b q -> q != 0 ->
  exists u v pu pv, [/\ quot_and_rem a b = Ok (u, v), isP u pu, isP v pv, p = pu * q + pv & (size pv < size q)%N].
Proof.
move=> ha hb q0; have [u [v [e [hu hv]]]] := quot_rem_L (isP_L ha) (isP_L hb) q0.
by exists u, v, (p %/ q), (p %% q)%R; split=> //; [exact: divp_eq|exact: size_mod_lt].
Qed.
Theorem C23_unique (p q u v u' v' : {poly 'F_2}) : (size v < size q)%N -> (size v' < size q)%N ->
  u * q + v = u' * q + v' -> u = u' /\ v = v'.
Proof.
move=> h h' e; have [e1 e2] := @divp_modpP _ (u * q + v) u q v erefl h.
by have [e3 e4] := @divp_modpP _ (u * q + v) u' q v' e h'; rewrite e1 e3 e2 e4.
Qed.
Theorem C23_div_mod a b p q : isP a p -> isP b q -> q != 0 ->
  exists u v pu pv, [/\ f2_div a b = Ok u, f2_mod a b = Ok v, isP u pu /\ isP v pv, p = pu * q + pv & (size pv < size q)%N].
Proof.
move=> ha hb q0; have [u [e hu]] := div_L (isP_L ha) (isP_L hb) q0.
have [v [e' hv]] := mod_L (isP_L ha) (isP_L hb) q0.
by exists u, v, (p %/ q), (p %% q)%R; split=> //; [exact: divp_eq|exact: size_mod_lt].
Qed.
Theorem C23_zero_divisor a b p : isW a p -> isW b 0 -> quot_and_rem a b = Exn /\ f2_div a b = Exn /\ f2_mod a b = Exn.
Proof. by move=> ha hb; rewrite /f2_div /f2_mod (quot_rem_zero ha.1 hb). Qed.
Example C23_ex : quot_and_rem [:: 5%num] [:: 7%num] = Ok ([:: 1%num], [:: 2%num]) /\
  isP [:: 5%num] ('X^2 + 1) /\ isP [:: 7%num] ('X^2 + 'X + 1).
Proof. by split; [vm_compute|split; [exact: p5|exact: p7]]. Qed.

(* ---- C24: greatest common divisors ---- *)
Definition is_gcd (p q g : {poly 'F_2}) : Prop :=
  (exists u, p = u * g) /\ (exists v, q = v * g) /\
  forall d, (exists u, p = u * d) -> (exists v, q = v * d) -> exists w, g = w * d.
Lemma is_gcd_gcdp p q : is_gcd p q (gcdp p q).
Proof.
split; first by exists (p %/ gcdp p q); rewrite divpK // dvdp_gcdl.
split; first by exists (q %/ gcdp p q); rewrite divpK // dvdp_gcdr.
move=> d [u eu] [v ev]; exists (gcdp p q %/ d); rewrite divpK // dvdp_gcd.
by rewrite eu ev !dvdp_mull.
Qed.
Theorem C24_gcd a b p q : isP a p -> isP b q -> p != 0 \/ q != 0 ->
  exists d g, [/\ f2_gcd a b = Ok d, isP d g & is_gcd p q g].
Proof.
move=> ha hb h0; have [d [e hd]] := gcd_L (isP_L ha) (isP_L hb); exists d, (gcdp p q); split=> //; last exact: is_gcd_gcdp.
by apply: (isL_nz hd); rewrite gcdp_eq0 negb_and; apply/orP.
Qed.
Theorem C24_gcd_zero a b : isP a 0 -> isP b 0 -> exists d, f2_gcd a b = Ok d /\ isW d 0.
Proof.
by move=> ha hb; have [d [e hd]] := gcd_L (isP_L ha) (isP_L hb); exists d; split=> //; move: (isL_W hd); rewrite gcd0p.
Qed.
Theorem C24_ext_gcd a b p q : isP a p -> isP b q -> p != 0 \/ q != 0 ->
  exists d s t g ps pt, [/\ f2_ext_gcd a b = Ok (d, s, t), isP d g, is_gcd p q g,
    isP s ps /\ isP t pt & ps * p + pt * q = g].
Proof.
move=> ha hb h0; have [d [s [t [e [hd [ps [pt [hs [ht h]]]]]]]]] := ext_gcd_L (isP_L ha) (isP_L hb).
exists d, s, t, (gcdp p q), ps, pt; split=> //; last exact: is_gcd_gcdp.
by apply: (isL_nz hd); rewrite gcdp_eq0 negb_and; apply/orP.
Qed.
Example C24_ex : f2_ext_gcd [:: 7%num] [:: 5%num] = Ok ([:: 1%num], [:: 2%num], [:: 3%num]) /\
  f2_gcd [:: 5%num] [:: 3%num] = Ok [:: 3%num].
Proof. by split; vm_compute. Qed.

(* ---- C25: text ---- *)
Theorem C25_print a p : isP a p -> exists s, f2_print a = Ok s /\ hex_value s = valN a /\ s <> nil /\
  List.Forall (fun c => is_xdigit c = true /\ is_blank c = false) s.
Proof. exact (fun h => print_ok a (proj1 (proj1 h))). Qed.
(* [stops rest]: what follows in the stream does not start with a hexadecimal digit *)
Theorem C25_round_trip a p rest : isP a p -> stops rest ->
  exists s, f2_print a = Ok s /\ f2_read (s ++ rest) = Ok (a, false, rest).
Proof. exact (fun h hr => round_trip a rest (proj1 h) hr). Qed.
Theorem C25_from_string a p : isP a p ->
  exists s, f2_print a = Ok s /\ f2_of_string s = Ok a /\ f2_from_string s = Ok (a, true).
Proof.
move=> h; have [s [e h2]] := round_trip a nil (proj1 h) I; exists s; rewrite List.app_nil_r in h2.
by rewrite /f2_of_string /f2_from_string h2 !bind_ok.
Qed.
Theorem C25_read bl s rest : List.Forall (fun c => is_blank c = true) bl ->
  List.Forall (fun c => is_xdigit c = true) s -> s <> nil -> stops rest ->
  exists l, f2_read (bl ++ s ++ rest) = Ok (l, false, rest) /\ canon l /\ valN l = hex_value s.
Proof. exact (@read_ok bl s rest). Qed.
Theorem C25_read_fail bl rest : List.Forall (fun c => is_blank c = true) bl -> stops rest ->
  (match rest with nil => True | c :: _ => is_blank c = false end) ->
  f2_read (bl ++ rest) = Ok (f2_of_int 0, true, rest).
Proof. exact (@read_fail bl rest). Qed.
(* "1b" *)
Example C25_ex : f2_print [:: 27%num] = Ok [:: 49%coqZ; 98%coqZ] /\ f2_from_string [:: 49%coqZ; 98%coqZ] = Ok ([:: 27%num], true)
  /\ f2_print [:: 5%num; 1%num] = Ok (49%coqZ :: nseq 15 48%coqZ ++ [:: 53%coqZ]).
Proof. by do 2 (split; first by vm_compute); vm_compute. Qed.

(* ---- C26: powers, derivative, square root, evaluation ---- *)
Theorem C26_exp a p e : isP a p -> p != 0 -> (0 <= e <= INT_MAX)%coqZ ->
  exists c, f2_exp a e = Ok c /\ isP c (p ^+ Z.to_nat e).
Proof. exact (@exp_P a p e). Qed.
Theorem C26_exp_zero a e : isP a 0 -> f2_exp a e = if Z.leb e 0 then Exn else Ok (f2_of_int 0).
Proof. exact (fun h => @exp_zero a e (isP_W h)). Qed.
Theorem C26_exp_negative a p e : isP a p -> (1 < size p)%N -> (e < 0)%coqZ -> f2_exp a e = Exn.
Proof. exact (@exp_neg a p e). Qed.
Theorem C26_deriv a p : isP a p -> exists l, f2_deriv a = Ok l /\ isP l p^`().
Proof. exact (fun h => deriv_P (isP_W h)). Qed.
Theorem C26_sqrt a p : isP a p -> exists r, f2_sqrt a = Ok r /\
  match r with
  | Some l => exists q, isP l q /\ q ^+ 2 = p
  | None => forall q, q ^+ 2 <> p
  end.
Proof. exact (fun h => sqrt_P (isP_W h)). Qed.
(* evaluation at an int: only its parity matters; degree small enough for a bit count in int *)
Theorem C26_eval a p c : isP a p -> (64 * Z.of_nat (length a) <= INT_MAX)%coqZ ->
  exists b : bool, f2_eval a c = Ok (Z.b2z b) /\ Ib b = p.[Ib (Z.odd c)].
Proof. exact (fun h => @eval_P a p c (isP_W h)). Qed.
Lemma eval_bit_P a p c : isP a p -> (64 * Z.of_nat (length a) <= INT_MAX)%coqZ ->
  exists b : bool, f2_eval_bit a c = Ok b /\ Ib b = p.[Ib c].
Proof.
move=> h hl; rewrite /f2_eval_bit; have [b [-> hb]] := eval_P (Z.b2z c) (isP_W h) hl.
by rewrite bind_ok; exists b; split; [case: b hb|rewrite hb; clear; case: c].
Qed.
Theorem C26_eval_bit a p c : isP a p -> (64 * Z.of_nat (length a) <= INT_MAX)%coqZ ->
  exists b : bool, f2_eval_bit a c = Ok b /\ Ib b = p.[Ib c].
Proof. exact (@eval_bit_P a p c). Qed.
Example C26_ex : f2_exp [:: 3%num] 4 = Ok [:: 17%num] /\ f2_deriv [:: 7%num] = Ok [:: 1%num] /\
  f2_sqrt [:: 5%num] = Ok (Some [:: 3%num]) /\ f2_sqrt [:: 7%num] = Ok None /\ f2_eval [:: 7%num] 1 = Ok 1%coqZ.
Proof. by do 4 (split; first by vm_compute); vm_compute. Qed.

(* ---- C27: residues ---- *)
Theorem C27_make l lm p m : isP l p -> isP lm m -> m != 0 -> exists a, pm_make l lm = Ok a /\ isM a (p %% m)%R m.
Proof. exact (fun hl => make_L (isP_L hl)). Qed.
Theorem C27_make_zero l lm p : isP l p -> isP lm 0 -> pm_make l lm = Exn.
Proof. exact (fun hl hm => make_zero (isP_L hl) (isP_W hm)). Qed.
(* residue objects are equal exactly if they hold the same residue and modulus *)
Theorem C27_unique a b r m : isM a r m -> isM b r m -> a = b.
Proof. exact (@isM_uniq a b r m). Qed.
Theorem C27_ring a b r s m : isM a r m -> isM b s m ->
  [/\ exists c, pm_add a b = Ok c /\ isM c (r + s) m, exists c, pm_sub a b = Ok c /\ isM c (r - s) m,
      exists c, pm_neg a = Ok c /\ isM c (- r) m, exists c, pm_mul a b = Ok c /\ isM c ((r * s) %% m)%R m
    & pm_eqb a b = Ok (r == s)].
Proof. exact (fun ha hb => And5 (pm_add_ok ha hb) (pm_sub_ok ha hb) (pm_neg_ok ha) (pm_mul_ok ha hb) (pm_eqb_ok ha hb)). Qed.
Theorem C27_mul_int a r m k : isM a r m -> exists c, pm_mul_int a k = Ok c /\ isM c (Ib (Z.odd k) *: r) m.
Proof. exact (@pm_mul_int_ok a r m k). Qed.
Theorem C27_recip a r m : isM a r m -> (1 < size m)%N ->
  (exists c t, pm_recip a = Ok (Some c) /\ isM c t m /\ ((r * t) %% m = 1)%R) <-> coprimep r m.
Proof.
move=> ha hm; split=> [[c [t [_ [_ e]]]]|hc].
  by apply: (coprime_inv hm (t := t)); rewrite e modp_small // size_poly1.
have [c [t [e [ht h]]]] := pm_recip_unit ha hc; exists c, t; split=> //; split=> //.
by rewrite h modp_small // size_poly1.
Qed.
Theorem C27_recip_none a r m : isM a r m -> pm_recip a = Ok None <-> ~~ coprimep r m.
Proof.
move=> ha; split; last exact: pm_recip_nonunit.
move=> e; apply/negP=> hc; have [c [t [e' _]]] := pm_recip_unit ha hc.
by rewrite e in e'.
Qed.
Theorem C27_div a b r s m : isM a r m -> isM b s m ->
  if coprimep s m then exists c t, [/\ pm_div a b = Ok c, isM c t m & ((t * s) %% m)%R = r] else pm_div a b = Exn.
Proof.
move=> ha hb; case: ifPn => hc; last exact (pm_div_nonunit ha hb hc).
by have [c [t [e [h1 h2]]]] := pm_div_unit ha hb hc; exists c, t.
Qed.
Theorem C27_mixed_moduli a b r s m m' : isM a r m -> isM b s m' -> m != m' ->
  pm_add a b = Exn /\ pm_sub a b = Exn /\ pm_mul a b = Exn /\ pm_div a b = Exn /\ pm_rem a b = Exn /\
  pm_ltb a b = Exn /\ pm_leb a b = Exn /\ pm_gtb a b = Exn /\ pm_geb a b = Exn /\ pm_eqb a b = Ok false.
Proof. exact (@pm_mixed a b r s m m'). Qed.
Theorem C27_exp a r m e : isM a r m -> (0 <= e <= INT_MAX)%coqZ -> (e <> 0)%coqZ \/ r != 0 ->
  exists c, pm_exp a e = Ok c /\ isM c (r ^+ Z.to_nat e %% m)%R m.
Proof. exact (fun h => @pm_exp_pos a r m h e). Qed.
Theorem C27_exp_0_0 a m : isM a 0 m -> pm_exp a 0 = Exn.
Proof. exact (fun h => pm_exp_00 h erefl). Qed.
(* negative exponents: a power of the reciprocal; an exception for non-units *)
Theorem C27_exp_negative a r m e : isM a r m -> (- INT_MAX <= e < 0)%coqZ -> (1 < size m)%N ->
  if coprimep r m then
    exists c t u, [/\ pm_exp a e = Ok c, isM c t m, ((r * u) %% m = 1)%R & (t = u ^+ Z.to_nat (- e) %% m)%R]
  else pm_exp a e = Exn.
Proof.
move=> ha he hm; case: ifPn => hc; last first.
  by apply: (pm_exp_neg_nonunit ha); [rewrite /INT_MAX /INT_MIN in he *; lia|right; split=> //; rewrite /INT_MAX /INT_MIN in he *; lia].
have r0 : r != 0.
  by apply: contraTneq hc => ->; rewrite coprime0p -size_poly_eq1; move: hm; case: (size m) => [|[|k]].
have [c [t [u [e1 [h1 [h2 h3]]]]]] := pm_exp_neg ha he r0 hc; exists c, t, u; split=> //.
by rewrite h2 modp_small // size_poly1.
Qed.
Theorem C27_exp_min_refuted a m r : isM a r m -> r != 0 -> pm_exp a INT_MIN = UB.
Proof.
move=> ha r0; rewrite /pm_exp.
have [z [-> hz]] := make_L (isP_L isP0) ha.2.1 (isM_m0 ha); rewrite bind_ok.
have [o [-> ho]] := make_L (isP_L isP1) ha.2.1 (isM_m0 ha); rewrite bind_ok.
by rewrite (pm_eqb_ok ha hz) bind_ok mod0p (negbTE r0).
Qed.
Theorem C27_round_trip a a' r r' m rest : isM a r m -> isM a' r' m -> stops rest ->
  exists s, pm_print a = Ok s /\ pm_read a' (s ++ rest) = Ok (a, false, rest).
Proof.
move=> ha ha' hr; rewrite /pm_print (degree_thm (isP_W ha.2.1)) bind_ok.
have [s [-> e]] := dprint_round (pm_res a) (Z.of_nat (size m).-1 - 1) rest ha.1.1 hr.
exists s; split=> //; rewrite /pm_read e bind_ok.
have [c [-> hc]] := mod_L (isP_L ha.1) (isP_L ha'.2.1) (isM_m0 ha'); rewrite bind_ok.
rewrite (isM_mod ha) in hc; congr (Ok (_, _, _)).
by apply: (@isM_uniq _ _ r m) => //; split=> //; split; [exact: ha'.2.1|exact: ha.2.2].
Qed.
(* x+1 modulo the irreducible x^2+x+1: reciprocal x *)
Example C27_ex : isM (mkpm [:: 3%num] [:: 7%num]) ('X + 1) ('X^2 + 'X + 1) /\
  pm_recip (mkpm [:: 3%num] [:: 7%num]) = Ok (Some (mkpm [:: 2%num] [:: 7%num])) /\
  pm_exp (mkpm [:: 3%num] [:: 7%num]) (-1) = Ok (mkpm [:: 2%num] [:: 7%num]) /\
  pm_recip (mkpm [:: 3%num] [:: 5%num]) = Ok None.
Proof.
split; last by do 2 (split; first by vm_compute); vm_compute.
split; first exact: p3. split; first exact: p7.
by rewrite -[X in 'X + X]polyC1 size_XaddC -addrA size_addl size_polyXn // -[X in 'X + X]polyC1 size_XaddC.
Qed.

(* ---- C54: order and increment ---- *)
Theorem C54_order a b p q : isP a p -> isP b q ->
  [/\ f2_ltb a b = Ok (valN a <? valN b)%num, f2_leb a b = Ok (valN a <=? valN b)%num,
      f2_gtb a b = Ok (valN b <? valN a)%num & f2_geb a b = Ok (valN b <=? valN a)%num].
Proof.
move=> [[ha _] _] [[hb _] _]; rewrite /f2_ltb /f2_leb /f2_gtb /f2_geb (cmp_valN _ _ ha hb) !bind_ok.
rewrite !N.ltb_antisym N.leb_compare N.leb_compare (N.compare_antisym (valN a) (valN b)).
by case: (valN a ?= valN b)%num.
Qed.
(* the order is decided at the highest coefficient where the two differ *)
Theorem C54_order_coef a b p q k : isP a p -> isP b q -> p`_k = 0 -> q`_k = 1 ->
  (forall j, (k < j)%N -> p`_j = q`_j) -> f2_ltb a b = Ok true.
Proof.
move=> ha hb pk qk hj; have [-> _ _ _] := C54_order ha hb; congr Ok; apply/N.ltb_lt.
move: ha hb pk qk hj => [[[_ wa] _] <-] [[[_ wb] _] <-]; rewrite !coefPl => pk qk hj.
apply: (N_lt_bits _ _ (N.of_nat k)).
- by rewrite valN_bit //; apply: (@Ib_inj _ false); rewrite pk.
- by rewrite valN_bit //; apply: (@Ib_inj _ true); rewrite qk.
move=> j hk; rewrite -(N2Nat.id j) !valN_bit //; apply: Ib_inj; rewrite -!coefPl; apply: hj; apply/ltP; lia.
Qed.
(* counting: repeated increment from zero visits every polynomial once, in increasing order *)
Theorem C54_increment a p : isP a p -> exists a' p', [/\ f2_increment a = Ok a', isP a' p' & valN a' = (valN a + 1)%num].
Proof.
move=> [hc _]; have [a' [e [hw [hv hcc]]]] := increment_ok a (proj1 hc).
by exists a', (P a'); split=> //; split=> //; exact: hcc.
Qed.
Theorem C54_value_unique a b p q : isP a p -> isP b q -> (valN a = valN b <-> p = q).
Proof.
move=> ha hb; split=> [e|e].
  by have e2 := valN_inj _ _ ha.1 hb.1 e; move: ha hb => [_ <-] [_ <-]; rewrite e2.
by rewrite (isP_uniq ha (l' := b)) // e.
Qed.
Example C54_ex : f2_increment [:: N.ones 64] = Ok [:: 0%num; 1%num] /\ f2_ltb [:: 7%num] [:: 0%num; 1%num] = Ok true /\
  isP [:: 7%num] ('X^2 + 'X + 1).
Proof. by do 2 (split; first by vm_compute); exact: p7. Qed.

(* ---- C55: reading and writing single coefficients ---- *)
Theorem C55_bit_at a p (k : nat) : isW a p -> exists b, bit_at a (Z.of_nat k) = Ok b /\ Ib b = p`_k.
Proof. by move=> [_ <-]; exists (bitl a k); rewrite bit_at_ok coefPl. Qed.
Theorem C55_bit_at_negative a k : (k < 0)%coqZ -> bit_at a k = Ok false /\ set_bit a k = Exn.
Proof. by move=> h; rewrite /bit_at /set_bit; case: Z.ltb_spec => //; lia. Qed.
Theorem C55_set_bit a p (k : nat) : isP a p ->
  exists a' p', [/\ set_bit a (Z.of_nat k) = Ok a', isP a' p', p'`_k = 1 & forall i, i != k -> p'`_i = p`_i].
Proof.
move=> [hc <-]; have [a' [e [_ [hb hcc]]]] := set_bit_ok a k (proj1 hc).
exists a', (P a'); split=> //; [by split=> //; apply: hcc| |].
  by rewrite coefPl hb Nat.eqb_refl.
by move=> i /eqP h; rewrite !coefPl hb; case: Nat.eqb_spec.
Qed.
(* positions whose place within the word is below 31 *)
Theorem C55_set_coeff_partial a p (k : nat) b : isP a p -> (Nat.modulo k 64 < 31)%coq_nat ->
  exists a' p', [/\ set_coeff a (Z.of_nat k) b = Ok a', isP a' p', p'`_k = Ib b & forall i, i != k -> p'`_i = p`_i].
Proof.
move=> [hc <-] hk; have [a' [e [hcc hb]]] := set_coeff_ok a k b hc hk.
exists a', (P a'); split=> //.
  by rewrite coefPl hb Nat.eqb_refl.
by move=> i /eqP h; rewrite !coefPl hb; case: Nat.eqb_spec.
Qed.
Theorem C55_set_coeff_refuted :
  (exists a, canon a /\ set_coeff a 32 true = UB) /\
  (exists a a', [/\ canon a, set_coeff a 31 true = Ok a', bit_at a 40 = Ok false & bit_at a' 40 = Ok true]).
Proof.
split; first by exists [:: 1%num]; split; [exact: canon1|vm_compute].
by eexists [:: 1%num], _; split; [exact: canon1|vm_compute; reflexivity|vm_compute|vm_compute].
Qed.
Example C55_ex : set_coeff [:: 5%num] 64 true = Ok [:: 5%num; 1%num] /\ set_coeff [:: 5%num; 1%num] 64 false = Ok [:: 5%num] /\
  isP [:: 5%num] ('X^2 + 1).
Proof. by do 2 (split; first by vm_compute); exact: p5. Qed.
Print Assumptions C22_int.
Print Assumptions C22_unique.
Print Assumptions C22_eq.
Print Assumptions C22_eq_int.
Print Assumptions C22_degree.
Print Assumptions C22_add.
Print Assumptions C22_mul.
Print Assumptions C22_mul_degree.
Print Assumptions C22_mul_refuted.
Print Assumptions C23_quot_rem.
Print Assumptions C23_unique.
Print Assumptions C23_div_mod.
Print Assumptions C23_zero_divisor.
Print Assumptions C24_gcd.
Print Assumptions C24_gcd_zero.
Print Assumptions C24_ext_gcd.
Print Assumptions C25_print.
Print Assumptions C25_round_trip.
Print Assumptions C25_from_string.
Print Assumptions C25_read.
Print Assumptions C25_read_fail.
Print Assumptions C26_exp.
Print Assumptions C26_exp_zero.
Print Assumptions C26_exp_negative.
Print Assumptions C26_deriv.
Print Assumptions C26_sqrt.
Print Assumptions C26_eval.
Print Assumptions C26_eval_bit.
Print Assumptions C27_make.
Print Assumptions C27_make_zero.
Print Assumptions C27_unique.
Print Assumptions C27_ring.
Print Assumptions C27_mul_int.
Print Assumptions C27_recip.
Print Assumptions C27_recip_none.
Print Assumptions C27_div.
Print Assumptions C27_mixed_moduli.
Print Assumptions C27_exp.
Print Assumptions C27_exp_0_0.
Print Assumptions C27_exp_negative.
Print Assumptions C27_exp_min_refuted.
Print Assumptions C27_round_trip.
Print Assumptions C54_order.
Print Assumptions C54_order_coef.
Print Assumptions C54_increment.
Print Assumptions C54_value_unique.
Print Assumptions C55_bit_at.
Print Assumptions C55_bit_at_negative.
Print Assumptions C55_set_bit.
Print Assumptions C55_set_coeff_partial.
Print Assumptions C55_set_coeff_refuted.
Print Assumptions C22_ints.
Print Assumptions C22_base_rep.
Print Assumptions C22_mul_int.
