(* GF(2) polynomials: the word-level routines compute in {poly 'F_2}. *)
From Verif Require Import Base MIntMath MMat MBits PBits MF2Poly PPow PF2Poly.
From mathcomp Require Import all_ssreflect fingroup perm all_algebra ssrZ.
From Verif Require Import PBits3.
Set Implicit Arguments.
Unset Strict Implicit.
Unset Printing Implicit Defensive.
Import GRing.Theory.
Delimit Scope Z_scope with coqZ.
Local Open Scope ring_scope.

(* the polynomial a word array stands for *)
Definition P (l : fpoly) : {poly 'F_2} := \poly_(i < 64 * length l) Ib (bitl l i).

Lemma coefPl l i : (P l)`_i = Ib (bitl l i).
Proof.
rewrite coef_poly; case: ltnP => // h; rewrite bitl_ge //; exact/leP.
Qed.
Lemma P_ext l l' : (forall i, bitl l i = bitl l' i) -> P l = P l'.
Proof. by move=> h; apply/polyP=> i; rewrite !coefPl h. Qed.
Lemma P_inj_bits l l' : P l = P l' -> forall i, bitl l i = bitl l' i.
Proof. by move=> h i; apply: Ib_inj; rewrite -!coefPl h. Qed.
Lemma P_inj l l' : canon l -> canon l' -> P l = P l' -> l = l'.
Proof. by move=> c c' h; apply: canon_eq => //; apply: P_inj_bits. Qed.

(* reduced representation of a polynomial *)
Definition isP (l : fpoly) (p : {poly 'F_2}) : Prop := canon l /\ P l = p.
Definition isW (l : fpoly) (p : {poly 'F_2}) : Prop := wok l /\ P l = p.
Lemma isP_W l p : isP l p -> isW l p. Proof. by case=> -[]. Qed.
Lemma isP_fun l p q : isP l p -> isP l q -> p = q. Proof. by move=> [_ <-] [_ <-]. Qed.
Lemma isP_uniq l l' p : isP l p -> isP l' p -> l = l'.
Proof. by move=> [c <-] [c' h]; apply: P_inj. Qed.

Lemma oppF2 (p : {poly 'F_2}) : - p = p.
Proof.
apply/polyP=> i; rewrite coefN; case: (Ib_surj p`_i) => b <-; exact: Ib_opp.
Qed.
Lemma addF2 (p : {poly 'F_2}) : p + p = 0.
Proof. by rewrite -{2}(oppF2 p) subrr. Qed.
Lemma subF2 (p q : {poly 'F_2}) : p - q = p + q.
Proof. by rewrite oppF2. Qed.

Lemma isP_int v : isP (f2_of_int v) (Ib (Z.odd v))%:P.
Proof.
split; first exact: of_int_canon.
apply/polyP=> i; rewrite coefPl coefC of_int_bit.
by case: i => [|i] //=; case: Z.odd.
Qed.
Lemma isP0 : isP (f2_of_int 0) 0.
Proof. by have := isP_int 0; rewrite /= [Ib false](_ : _ = 0) // polyC0. Qed.
Lemma isP1 : isP (f2_of_int 1) 1.
Proof. by have := isP_int 1; rewrite /= [Ib true](_ : _ = 1) // polyC1. Qed.

Lemma bz_P l : (forall i, bitl l i = false) <-> P l = 0.
Proof.
split=> h.
- by apply/polyP=> i; rewrite coefPl h coef0.
- by move=> i; apply: Ib_inj; rewrite -coefPl h coef0.
Qed.

(* degree *)
Lemma degree_P l : wok l -> f2_degree l = Ok (size (P l)).-1.
Proof.
move=> hl; apply: degree_is => //; split.
- move=> i /ltP hi; apply: Ib_inj; rewrite -coefPl nth_default //.
  by case: (size _) hi.
- case: (posnP (size (P l)).-1) => [|h]; [by right|left].
  have hs : P l != 0 by rewrite -size_poly_gt0; case: (size _) h.
  apply: Ib_inj; rewrite -coefPl; move: hs; rewrite -lead_coef_eq0 /lead_coef.
  by case: (Ib_surj (P l)`_(size (P l)).-1) => -[] <-.
Qed.
Lemma isdeg_P l : wok l -> isdeg l (size (P l)).-1.
Proof. by move=> hl; case: (degree_ok _ hl) => d []; rewrite degree_P // => -[<-]. Qed.
Lemma degree_thm l p : isW l p -> f2_degree l = Ok (size p).-1.
Proof. by case=> hl <-; apply: degree_P. Qed.
Lemma len_P l p : isP l p -> length l = Nat.add (Nat.div (size p).-1 64) 1.
Proof. by move=> [hc <-]; rewrite (canon_len _ _ hc (isdeg_P (proj1 hc))). Qed.
Lemma len_isP l p : isW l p -> length l = Nat.add (Nat.div (size p).-1 64) 1 -> isP l p.
Proof. by move=> [hl <-] h; split=> //; apply: (len_canon _ _ hl (isdeg_P hl)). Qed.

(* representations that occur: reduced, or zero with spare words *)
Definition isL (l : fpoly) (p : {poly 'F_2}) : Prop := wok l /\ P l = p /\ (canon l \/ p = 0).
Lemma isP_L l p : isP l p -> isL l p. Proof. by move=> [c h]; split; [exact: (proj1 c)|split=> //; left]. Qed.
Lemma isL_W l p : isL l p -> isW l p. Proof. by case=> ? []. Qed.
Lemma isL_nz l p : isL l p -> p != 0 -> isP l p.
Proof. by move=> [w [h [c|->]]] //; rewrite eqxx. Qed.

(* addition *)
Lemma add_W a b p q : isW a p -> isW b q -> exists c, f2_add a b = Ok c /\ isP c (p + q).
Proof.
move=> [ha <-] [hb <-]; case: (add_ok _ _ ha hb) => c [-> [hc h]]; exists c; split=> //; split=> //.
by apply/polyP=> i; rewrite coefD !coefPl h Ib_xor.
Qed.
Lemma sub_W a b p q : isW a p -> isW b q -> exists c, f2_sub a b = Ok c /\ isP c (p - q).
Proof. by rewrite subF2; apply: add_W. Qed.

(* shifts *)
Lemma promote1_P l p : isP l p -> exists l', promote_1 l = Ok l' /\ isP l' (p * 'X).
Proof.
move=> [hc <-]; rewrite /promote_1.
have [//||l' [-> [hw [hb hcc]]]] := @promote_k_ok 1 l; [by split; lia|exact: (proj1 hc)|].
exists l'; split=> //; split; first exact: hcc.
apply/polyP=> i; rewrite coefMX !coefPl hb.
by case: i => [|i] //=; rewrite Nat.sub_0_r.
Qed.
Lemma promote_n_W l p n : isW l p -> exists l', promote_n l n = Ok l' /\ isW l' (p * 'X^n).
Proof.
move=> [hw <-]; have [l' [-> [hw' [_ hb]]]] := promote_n_ok _ n _ hw (isdeg_P hw).
exists l'; split=> //; split=> //; apply/polyP=> i; rewrite coefMXn !coefPl hb.
by case: (Nat.ltb_spec i n) => [/ltP -> //|/leP]; rewrite ltnNge => ->.
Qed.
Lemma demote_W l p : isW l p -> exists l', demote_1 l = Ok l' /\ wok l' /\ (forall i, (P l')`_i = p`_i.+1)
  /\ (canon l -> canon l').
Proof.
move=> [hw <-]; have [l' [-> [hw' [hb hc]]]] := demote_ok _ hw.
by exists l'; split=> //; split=> //; split=> // i; rewrite !coefPl hb.
Qed.
Lemma set_bit_P l p k : isP l p -> p`_k = 0 -> exists l', set_bit l (Z.of_nat k) = Ok l' /\ isP l' (p + 'X^k).
Proof.
move=> [hc <-] h0; have [l' [-> [hw [hb hcc]]]] := set_bit_ok _ k (proj1 hc).
exists l'; split=> //; split; first exact: hcc.
apply/polyP=> i; rewrite coefD coefXn !coefPl hb.
case: (Nat.eqb_spec i k) => [->|/eqP/negbTE -> /=]; last by rewrite addr0.
by rewrite -coefPl h0 add0r eqxx.
Qed.

(* multiplication *)
Lemma poly_recr (R : ringType) (p : {poly R}) i : \poly_(t < i.+1) p`_t = \poly_(t < i) p`_t + p`_i *: 'X^i.
Proof. by rewrite !poly_def big_ord_recr. Qed.
Lemma poly_all (R : ringType) (p : {poly R}) i : (size p <= i)%N -> \poly_(t < i) p`_t = p.
Proof.
move=> h; apply/polyP=> j; rewrite coef_poly; case: ltnP => // hj; rewrite nth_default //.
exact: leq_trans hj.
Qed.
Lemma mul_gen a b p q : isP a p -> isW b q ->
  exists c, f2_mul a b = Ok c /\ isW c (p * q) /\ length c = Nat.add (Nat.div (Nat.add (size p).-1 (size q).-1) 64) 1.
Proof.
move=> ha hb; rewrite /f2_mul (degree_thm (isP_W ha)) bind_ok (degree_thm hb) bind_ok.
set da := (size p).-1; set db := (size q).-1.
set n := Nat.div _ _.
have hn : n = Nat.add (Nat.div (Nat.add da db) 64) 1.
  by rewrite /n -[in X in Nat.add _ X](Nat.mul_1_l 64) Nat.div_add //; lia.
match goal with |- context [for_up _ _ ?b _] => set (body := b) end.
have [||[out ash] [-> [/= hlen [hout hash]]]] := @for_up_inv (fpoly * fpoly) body
  (fun i s => length s.1 = n /\ isW s.1 (p * \poly_(t < i) q`_t) /\ isP s.2 (p * 'X^i)) (S db) 0 (repeat 0%num n, a).
- move=> i [o s] hi [/= hlen [ho hs]].
  rewrite bit_at_ok bind_ok.
  have hc : Ib (bitl b i) = q`_i by case: hb => _ <-; rewrite coefPl.
  have [s' [es' hs']] := promote1_P hs.
  have hs2 : isP s' (p * 'X^i.+1) by rewrite exprSr mulrA.
  case eb: (bitl b i); last first.
    rewrite bind_ok es' bind_ok; eexists; split; first reflexivity.
    by split=> //; split=> //=; rewrite poly_recr -hc eb scale0r addr0.
  have hl : (length s <= length o)%coq_nat.
    rewrite hlen hn (len_P hs); apply: Plus.plus_le_compat_r; apply: Nat.div_le_mono => //.
    have [->|pn0] := eqVneq p 0; first by rewrite mul0r size_poly0; lia.
    rewrite (size_Mmonic pn0 (monicXn _ _)) size_polyXn /da.
    have : (0 < size p)%N by rewrite size_poly_gt0.
    by case: (size p) => // k _; rewrite addnS addSn /= -/db -plusE; lia.
  have [o' [eo' [lo' wo']]] := xor_into_ok o s hl.
  rewrite eo' bind_ok es' bind_ok; eexists; split; first reflexivity.
  split=> /=; first by rewrite lo'.
  split=> //; split.
    split; first by rewrite lo' hlen hn; lia.
    by move=> k; rewrite wo'; apply: w64_lxor; [exact: (proj2 (proj1 ho))|exact: (proj2 (proj1 (proj1 hs)))].
  rewrite poly_recr -hc eb [Ib true](_ : _ = 1) // scale1r mulrDr.
  case: ho => _ <-; case: hs => _ <-; apply/polyP=> k; rewrite coefD !coefPl -Ib_xor; congr Ib.
  by rewrite /bitl wo' N.lxor_spec.
- split=> //=; first by rewrite repeat_length.
  rewrite expr0 mulr1; split=> //; split.
    by split; [rewrite repeat_length hn; lia|move=> k; rewrite nth_repeat0; apply: w64_0].
  rewrite poly_def big_ord0 mulr0; apply/bz_P => i.
  by rewrite /bitl nth_repeat0 N.bits_0.
- exists out; split=> //; split; last by rewrite hlen hn.
  move: hout; rewrite poly_all //.
  by rewrite /db; case: (size q).
Qed.
Lemma mul_P a b p q : isP a p -> isP b q -> p != 0 -> q != 0 -> exists c, f2_mul a b = Ok c /\ isP c (p * q).
Proof.
move=> ha hb p0 q0; have [c [-> [hc hl]]] := mul_gen ha (isP_W hb).
exists c; split=> //; apply: len_isP => //; rewrite hl; congr Nat.add; congr Nat.div.
have h1 : (0 < size p)%N by rewrite size_poly_gt0.
have h2 : (0 < size q)%N by rewrite size_poly_gt0.
rewrite size_mul //; case: (size p) h1 => // k _; case: (size q) h2 => // k' _.
by rewrite addSn addnS.
Qed.
Lemma mul_L a b p q : isP a p -> isL b q -> exists c, f2_mul a b = Ok c /\ isL c (p * q).
Proof.
move=> ha hb; have [c [ec [hc hl]]] := mul_gen ha (isL_W hb).
exists c; split=> //; case: hc => hw he; split=> //; split=> //.
have [->|p0] := eqVneq p 0; first by right; rewrite mul0r.
have [->|q0] := eqVneq q 0; first by right; rewrite mulr0.
have [c' [ec' [hc' _]]] := mul_P ha (isL_nz hb q0) p0 q0.
by move: ec; rewrite ec' => -[<-]; left.
Qed.

(* division *)
Lemma w0_zero l : wok l -> ((size (P l)).-1 =? 0)%N && (List.nth 0 l 0%num =? 0)%num = (P l == 0).
Proof.
move=> hl; apply/idP/eqP.
- case/andP=> /Nat.eqb_eq h0 /N.eqb_eq hw.
  have : (size (P l) <= 1)%N by case: (size _) h0 => [|[|k]].
  move/size1_polyC => ->; rewrite coefPl (_ : bitl l 0 = false) ?polyC0 //.
  by rewrite /bitl /= hw.
- move=> h; rewrite h size_poly0 /=; apply/N.eqb_eq.
  have -> : 0%num = List.nth 0 (f2_of_int 0) 0%num by [].
  apply: bitl_words => //; first exact: (proj1 (proj1 isP0)).
  by apply: P_inj_bits; rewrite h (proj2 isP0).
Qed.
Lemma size_nz (R : ringType) (p : {poly R}) : p != 0 -> size p = (size p).-1.+1.
Proof. by rewrite -size_poly_gt0; case: (size p). Qed.
Lemma lead_F2 (p : {poly 'F_2}) : p != 0 -> lead_coef p = 1.
Proof. by rewrite -lead_coef_eq0; case: (Ib_surj (lead_coef p)) => -[] <-. Qed.
Lemma quot_rem_L a b p q : isL a p -> isL b q -> q != 0 ->
  exists u v, quot_and_rem a b = Ok (u, v) /\ isP u (p %/ q) /\ isP v (p %% q).
Proof.
move=> ha hb q0; have hbw := isL_W hb; have haw := isL_W ha.
rewrite /quot_and_rem (degree_thm hbw) bind_ok rdw_ok ?bind_ok; last exact: (proj1 (proj1 hb)).
move: (w0_zero (proj1 hb)); rewrite (proj2 hbw) => ->; rewrite (negbTE q0).
rewrite (degree_thm haw) bind_ok rdw_ok ?bind_ok; last exact: (proj1 (proj1 ha)).
move: (w0_zero (proj1 ha)); rewrite (proj2 haw) => ->.
case: ifP => [/eqP p0|/negbT p0].
  by exists (f2_of_int 0), (f2_of_int 0); rewrite p0 div0p mod0p; split=> //; split; exact: isP0.
have sp := size_nz p0; have sq := size_nz q0.
case: (Nat.ltb_spec (size p).-1 (size q).-1) => [/ltP h|/leP h].
  exists (f2_of_int 0), a; have hlt : (size p < size q)%N by rewrite sp sq ltnS.
  by rewrite divp_small // modp_small //; split=> //; split; [exact: isP0|exact: isL_nz].
rewrite minusE; set db := (size q).-1 in h sq *; set k0 := ((size p).-1 - db)%N.
have [sd [-> hsd]] := promote_n_W k0 hbw; rewrite bind_ok.
match goal with |- context [for_down _ ?b _] => set (body := b) end.
have [||[[rem quot] sd'] [-> [/= hsum [hsz [hrem [hq hc]]]]]] := @for_down_inv (fpoly * fpoly * fpoly) body
  (fun n s => P s.1.1 + P s.1.2 * q = p /\ (size (P s.1.1) <= n + db)%N /\
     (wok s.1.1 /\ (n = k0.+1 /\ P s.1.2 = 0 \/ canon s.1.1)) /\
     (canon s.1.2 /\ forall i, (i < n)%N -> (P s.1.2)`_i = 0) /\
     (wok s.2 /\ (forall m, n = m.+1 -> P s.2 = q * 'X^m))) (S k0) (a, f2_of_int 0, sd).
- move=> i [[rem quot] sd1] hi [/= hsum [hsz [[hrem hrc] [[hqc hq0] [hsw hsd1]]]]].
  rewrite bit_at_ok bind_ok.
  have {hsd1} hsP : P sd1 = q * 'X^i by apply: hsd1.
  have [sd2 [-> [hw2 [hb2 _]]]] := demote_W (conj hsw (erefl (P sd1))).
  have hsd2 : forall m, i = m.+1 -> P sd2 = q * 'X^m.
    move=> m em; apply/polyP=> j; rewrite hb2 hsP em !coefMXn ltnS subSS.
    by [].
  have hib : Ib (bitl rem (Nat.add i db)) = (P rem)`_(i + db) by rewrite coefPl.
  case eb: (bitl rem (Nat.add i db)); last first.
    rewrite bind_ok; eexists; split; first by [].
    split=> //; split.
      apply/leq_sizeP => j hj; move: hj; rewrite leq_eqVlt => /orP[/eqP <-|hj].
        by rewrite -hib eb.
      by apply: nth_default; apply: leq_trans hsz _.
    split; last by split; [split=> // j hj; apply: hq0; apply: leq_trans hj _|].
    split=> //; right; case: hrc => // -[[ei] hquot].
    exfalso; have : (P rem)`_(i + db) = 0 by rewrite -hib eb.
    rewrite ei /k0 subnK // => hl0.
    have hlow : (size (P rem) <= (size p).-1)%N.
      apply/leq_sizeP => j hj; move: hj; rewrite leq_eqVlt => /orP[/eqP <- //|hj].
      apply: nth_default; apply: leq_trans hsz _.
      by rewrite ei /k0 addSn subnK.
    move: hsum hlow; rewrite hquot mul0r addr0 => ->; rewrite {1}sp ltnn //.
  have [r2 [-> hr2]] := sub_W (conj hrem (erefl (P rem))) (conj hsw (erefl (P sd1))).
  have [q2 [-> hq2]] := @set_bit_P quot (P quot) i (conj hqc erefl) (hq0 i (ltnSn i)).
  rewrite !bind_ok; eexists; split; first by [].
  split=> /=.
    by rewrite (proj2 hr2) (proj2 hq2) hsP mulrDl [q * _]mulrC addrACA addNr addr0.
  split.
    rewrite (proj2 hr2) hsP; apply/leq_sizeP => j hj; move: hj; rewrite leq_eqVlt => /orP[/eqP <-|hj].
      rewrite coefB -hib eb coefMXn ltnNge leq_addr /= addKn.
      by rewrite (_ : q`_db = 1) ?subrr //; exact: (lead_F2 q0).
    rewrite coefB coefMXn ltnNge (leq_trans (leq_addr db i) (ltnW hj)) /=.
    rewrite [(P rem)`_j]nth_default; last exact: leq_trans hsz _.
    by rewrite nth_default ?subrr // sq ltn_subRL.
  split; first by split; [exact: (proj1 (proj1 hr2))|right; exact: (proj1 hr2)].
  split=> //; split; first exact: (proj1 hq2).
  move=> j hj; rewrite (proj2 hq2) coefD coefXn (ltn_eqF hj) addr0; apply: hq0.
  exact: ltnW.
- split=> /=.
    by rewrite (proj2 isP0) mul0r addr0 (proj2 haw).
  split; first by rewrite (proj2 haw) sp addSn /k0 subnK.
  split; first by split; [exact: (proj1 ha)|left; split=> //; exact: (proj2 isP0)].
  split; first by split; [exact: (proj1 isP0)|move=> i _; rewrite (proj2 isP0) coef0].
  by split; [exact: (proj1 hsd)|move=> m [<-]; exact: (proj2 hsd)].
- have hlt : (size (P rem) < size q)%N by rewrite sq ltnS.
  have [h1 h2] := divp_modpP (esym (etrans (addrC _ _) hsum)) hlt.
  exists quot, rem; split=> //; split; first by split=> //; exact: (proj1 hq).
  by split=> //; case: hrem => _ [[]|].
Qed.
Lemma quot_rem_zero a b : wok a -> isW b 0 -> quot_and_rem a b = Exn.
Proof.
move=> ha hb; rewrite /quot_and_rem (degree_thm hb) bind_ok rdw_ok ?bind_ok; last exact: (proj1 (proj1 hb)).
by move: (w0_zero (proj1 hb)); rewrite (proj2 hb) eqxx => ->.
Qed.
Lemma div_L a b p q : isL a p -> isL b q -> q != 0 -> exists c, f2_div a b = Ok c /\ isP c (p %/ q).
Proof.
by move=> ha hb h; rewrite /f2_div; have [u [v [-> [hu _]]]] := quot_rem_L ha hb h; exists u.
Qed.
Lemma mod_L a b p q : isL a p -> isL b q -> q != 0 -> exists c, f2_mod a b = Ok c /\ isP c (p %% q).
Proof.
by move=> ha hb h; rewrite /f2_mod; have [u [v [-> [_ hv]]]] := quot_rem_L ha hb h; exists v.
Qed.

(* comparison with constants and each other *)
Lemma eq_int_P l p v : isW l p -> f2_eq_int l v = Ok (p == (Ib (Z.odd v))%:P).
Proof.
move=> [hl <-]; have [b [-> hb]] := eq_int_ok _ v hl; congr Ok; apply/idP/eqP.
- by move/hb=> h; rewrite -(proj2 (isP_int v)); apply: P_ext.
- by move=> h; apply/hb; apply: P_inj_bits; rewrite h (proj2 (isP_int v)).
Qed.
Lemma eq_0_P l p : isW l p -> f2_eq_int l 0 = Ok (p == 0).
Proof. by move/(@eq_int_P _ _ 0) => ->; rewrite /= [Ib false](_ : _ = 0) // polyC0. Qed.
Lemma eq_1_P l p : isW l p -> f2_eq_int l 1 = Ok (p == 1).
Proof. by move/(@eq_int_P _ _ 1) => ->; rewrite /= [Ib true](_ : _ = 1) // polyC1. Qed.
Lemma eqb_P a b p q : isW a p -> isW b q -> f2_eqb a b = Ok (p == q).
Proof.
move=> [ha <-] [hb <-]; have [r [-> hr]] := eqb_ok _ _ ha hb; congr Ok; apply/idP/eqP.
- by move/hb || move/hr=> h; apply: P_ext.
- by move=> h; apply/hr; apply: P_inj_bits.
Qed.
Lemma neqb_P a b p q : isW a p -> isW b q -> f2_neqb a b = Ok (p != q).
Proof. by move=> ha hb; rewrite /f2_neqb (eqb_P ha hb). Qed.

(* gcd: over GF(2) associates are equal *)
Lemma eqp_F2 (p q : {poly 'F_2}) : p %= q -> p = q.
Proof.
have [->|p0] := eqVneq p 0; first by rewrite eqp_sym eqp0 => /eqP.
case/eqpP=> -[c1 c2] /= /andP[]; case: (Ib_surj c1) => -[] <- // _; case: (Ib_surj c2) => -[] <- // _.
by rewrite [Ib true](_ : _ = 1) // !scale1r.
Qed.
Lemma size_mod_lt (p q : {poly 'F_2}) : q != 0 -> (size (p %% q)%R < size q)%N.
Proof. by move=> h; rewrite ltn_modp. Qed.
Lemma len_size l p : isW l p -> (size p <= 64 * length l)%N.
Proof. by move=> [_ <-]; apply: size_poly. Qed.
Lemma gcd_fuel_ok (a b : fpoly) q : isW b q -> (size (P (a, b).2)%R < gcd_fuel b)%coq_nat.
Proof.
move=> hb; rewrite /= (proj2 hb); apply/ltP; rewrite /gcd_fuel ltnS.
exact: leq_trans (len_size hb) (leqnSn _).
Qed.
Lemma gcd_L a b p q : isL a p -> isL b q -> exists d, f2_gcd a b = Ok d /\ isL d (gcdp p q).
Proof.
move=> ha hb; rewrite /f2_gcd (eq_0_P (isL_W ha)) bind_ok.
have [->|p0] := eqVneq p 0; first by exists b; rewrite gcd0p.
rewrite (eq_0_P (isL_W hb)) bind_ok.
have [->|q0] := eqVneq q 0; first by exists a; rewrite gcdp0.
have [|||d [-> hd]] := @loop_total (fpoly * fpoly) fpoly gcd_step
  (fun s => exists c d, isP s.1 c /\ isP s.2 d /\ d != 0 /\ gcdp c d = gcdp p q)
  (fun s => size (P s.2)) (fun d => isP d (gcdp p q)) _ (gcd_fuel b) (a, b).
- move=> [c d] [/= pc [pd [hc [hd [d0 hg]]]]]; rewrite /gcd_step.
  have [u [v [-> [hu hv]]]] := quot_rem_L (isP_L hc) (isP_L hd) d0.
  rewrite bind_ok (eq_0_P (isP_W hv)) bind_ok.
  have hg2 : gcdp pd (pc %% pd) = gcdp p q.
    by rewrite -hg; apply: eqp_F2; apply: eqp_trans (gcdp_modr _ _) (gcdpC _ _).
  case: eqP => [e|/eqP ne]; [right|left].
    by exists d; split=> //; rewrite -hg2 e gcdp0.
  exists (d, v); split=> //; split; first by exists pd, (pc %% pd).
  by rewrite /= (proj2 hv) (proj2 hd); apply/ltP; exact: size_mod_lt.
- by exists p, q; split; [exact: isL_nz|split; [exact: isL_nz|]].
- exact: gcd_fuel_ok (isL_W hb).
- by exists d; split=> //; exact: isP_L.
Qed.

Lemma ext_gcd_L a b p q : isL a p -> isL b q -> exists d s t, f2_ext_gcd a b = Ok (d, s, t) /\
  isL d (gcdp p q) /\ exists ps pt, isP s ps /\ isP t pt /\ ps * p + pt * q = gcdp p q.
Proof.
move=> ha hb; rewrite /f2_ext_gcd (eq_0_P (isL_W ha)) bind_ok.
have [->|p0] := eqVneq p 0.
  exists b, (f2_of_int 0), (f2_of_int 1); rewrite gcd0p; split=> //; split=> //.
  by exists 0, 1; rewrite mulr0 add0r mul1r; split; [exact: isP0|split; [exact: isP1|]].
rewrite (eq_0_P (isL_W hb)) bind_ok.
have [->|q0] := eqVneq q 0.
  exists a, (f2_of_int 1), (f2_of_int 0); rewrite gcdp0; split=> //; split=> //.
  by exists 1, 0; rewrite mulr0 addr0 mul1r; split; [exact: isP1|split; [exact: isP0|]].
have [|||[[d s] t] [-> hd]] := @loop_total (fpoly * fpoly * fpoly * fpoly * fpoly * fpoly) (fpoly * fpoly * fpoly) ext_step
  (fun s => let: (c, d, mp, np, rm, rn) := s in
     exists pc pd qm qn pm pn, isP c pc /\ isP d pd /\ pd != 0 /\ gcdp pc pd = gcdp p q /\
       isP mp qm /\ isP np qn /\ isP rm pm /\ isP rn pn /\ qm * p + qn * q = pc /\ pm * p + pn * q = pd)
  (fun s => let: (c, d, mp, np, rm, rn) := s in size (P d))
  (fun r => let: (d, s, t) := r in isP d (gcdp p q) /\
       exists ps pt, isP s ps /\ isP t pt /\ ps * p + pt * q = gcdp p q) _ (gcd_fuel b)
  (a, b, f2_of_int 1, f2_of_int 0, f2_of_int 0, f2_of_int 1).
- move=> [[[[[c d] mp] np] rm] rn] [pc [pd [qm [qn [pm [pn [hc [hd [d0 [hg [hqm [hqn [hpm [hpn [e1 e2]]]]]]]]]]]]]]].
  rewrite /ext_step.
  have [u [v [-> [hu hv]]]] := quot_rem_L (isP_L hc) (isP_L hd) d0.
  rewrite bind_ok (eq_0_P (isP_W hv)) bind_ok.
  have hg2 : gcdp pd (pc %% pd) = gcdp p q.
    by rewrite -hg; apply: eqp_F2; apply: eqp_trans (gcdp_modr _ _) (gcdpC _ _).
  case: eqP => [e|/eqP ne]; [right|left].
    exists (d, rm, rn); split=> //; rewrite -hg2 e gcdp0; split=> //.
    by exists pm, pn.
  have [w1 [-> [hw1 _]]] := mul_gen hu (isP_W hpm); rewrite bind_ok.
  have [w2 [-> hw2]] := sub_W (isP_W hqm) hw1; rewrite bind_ok.
  have [w3 [-> [hw3 _]]] := mul_gen hu (isP_W hpn); rewrite bind_ok.
  have [w4 [-> hw4]] := sub_W (isP_W hqn) hw3; rewrite bind_ok.
  eexists; split; first by [].
  split; last by rewrite (proj2 hv) (proj2 hd); apply/ltP; exact: size_mod_lt.
  exists pd, (pc %% pd), pm, pn, (qm - pc %/ pd * pm), (qn - pc %/ pd * pn).
  do 9 (split=> //).
  rewrite !mulrBl addrACA e1 -opprD -!mulrA -mulrDr e2 {1}(divp_eq pc pd).
  by rewrite addrC addrK || rewrite addrAC subrr add0r.
- exists p, q, 1, 0, 0, 1; split; first exact: isL_nz.
  split; first exact: isL_nz.
  do 2 (split=> //).
  by rewrite !mul1r !mul0r addr0 add0r; do 4 (split; [(exact isP1 || exact isP0)|]).
- exact: (gcd_fuel_ok a (isL_W hb)).
- by exists d, s, t; case: hd => hd h; split=> //; split=> //; exact: isP_L.
Qed.

(* powers *)
Lemma exp_loop_eq fuel : forall s, (0 <= s.1.1 <= INT_MAX)%coqZ ->
  loop fuel f2_exp_step s = loop fuel (pow_step f2_mul) s.
Proof.
elim: fuel => [|f IH] //= [[e x] r] /= he; rewrite /f2_exp_step /pow_step.
case: Z.eqb => //; case: (if Z.odd e then _ else _) => // r'.
rewrite !bind_ok; case: (f2_mul x x) => //= x'.
have -> : u32 e = e by rewrite /u32 Z.mod_small //; rewrite /INT_MAX in he; lia.
by apply: IH => /=; split; [apply: Z.div_pos; lia|apply: Z.div_le_upper_bound; rewrite /INT_MAX in he *; lia].
Qed.
Lemma mpow_expr (R : comRingType) (x y : R) n : mpow *%R x n y = y * x ^+ n.
Proof. by elim: n y => [|n IH] y /=; rewrite ?expr0 ?mulr1 // IH exprS mulrA. Qed.
Lemma exp_P a p e : isP a p -> p != 0 -> (0 <= e <= INT_MAX)%coqZ ->
  exists c, f2_exp a e = Ok c /\ isP c (p ^+ Z.to_nat e).
Proof.
move=> ha p0 he; rewrite /f2_exp (degree_thm (isP_W ha)) bind_ok (eqb_P (isP_W ha) (isP_W isP0)) bind_ok (negbTE p0).
case: Nat.eqb_spec => h1.
  exists (f2_of_int 1); split=> //; have -> : p = 1; last by rewrite expr1n; exact: isP1.
  have : (size p <= 1)%N by rewrite (size_nz p0) h1.
  move/size1_polyC => hp; move: p0; rewrite hp polyC_eq0; case: (Ib_surj p`_0) => -[] <- //.
case: Z.ltb_spec => [|_]; first lia.
rewrite exp_loop_eq //.
have [|||||||c [-> hc]] := @pow_loop_ok fpoly {poly 'F_2} f2_mul (fun l p => isP l p /\ p != 0) *%R _ _ 34 e a p (f2_of_int 1) 1.
- move=> x y q r [hx x0] [hy y0]; have [z [-> hz]] := mul_P hx hy x0 y0.
  by exists z; split=> //; split=> //; rewrite mulf_neq0.
- exact: mulrA.
- by [].
- by split; [exact: isP1|exact: oner_neq0].
- by [].
- exact: (Z.le_lt_trans _ INT_MAX _ (proj2 he)).
- by lia.
- by exists c; split=> //; move: hc; rewrite mpow_expr mul1r; case.
Qed.
Lemma exp_zero a e : isW a 0 -> f2_exp a e = if Z.leb e 0 then Exn else Ok (f2_of_int 0).
Proof. by move=> ha; rewrite /f2_exp (degree_thm ha) bind_ok (eqb_P ha (isP_W isP0)) bind_ok eqxx. Qed.
Lemma exp_neg a p e : isP a p -> (1 < size p)%N -> (e < 0)%coqZ -> f2_exp a e = Exn.
Proof.
move=> ha p1 he; rewrite /f2_exp (degree_thm (isP_W ha)) bind_ok (eqb_P (isP_W ha) (isP_W isP0)) bind_ok.
have -> : (p == 0) = false by apply/negbTE; rewrite -size_poly_gt0; apply: ltnW.
case: Nat.eqb_spec => h1; first by move: p1 h1; case: (size p) => [|[|k]].
by case: Z.ltb_spec => //; lia.
Qed.
