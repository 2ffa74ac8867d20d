(* Commands of spiff on polynomials over GF(2): numbers and texts of polynomials, operations on them. *)
From Verif Require Import Base MIntMath MFac MIntmod MBits MF2Poly MF2Fac MTextIO MPolyText MUnits MList MSpiff MSpiff2.
From Verif Require Import PF2Poly PF2Poly3 PSpiff PSpiff2 PSpiff3 PSpiff7.
From mathcomp Require Import all_ssreflect all_algebra ssrZ zify.
From Verif Require Import PF2Poly2 PF2Poly4 PropLinalg.
From Verif Require PropF2Poly.
Set Implicit Arguments.
Unset Strict Implicit.
Unset Printing Implicit Defensive.
Import GRing.Theory.
Delimit Scope Z_scope with coqZ.
Local Open Scope ring_scope.
Local Notation length := List.length.

(* sum of 2^i over the exponents i of p *)
Definition f2_number (p : {poly 'F_2}) : N := foldr (fun c n => (N.b2n (c != 0)%R + 2 * n)%num) 0%num p.
Definition f2_tx (p : {poly 'F_2}) : text := hex (f2_number p).
(* the text of an argument that means p *)
Definition f2_rd (s : text) (p : {poly 'F_2}) : Prop := hex_text s (f2_number p).
Lemma number_bit p i : N.testbit (f2_number p) (N.of_nat i) = (p`_i != 0).
Proof.
rewrite /f2_number; elim: (polyseq p) i => [|c s IH] i; first by rewrite nth_nil eqxx [foldr _ _ _]/= N.bits_0.
rewrite [foldr _ _ _]/=; set n := foldr _ _ _ in IH *; rewrite N.add_comm; case: i => [|i].
- by rewrite -[N.of_nat 0]/0%num N.testbit_0_r.
- by rewrite Nat2N.inj_succ N.testbit_succ_r IH.
Qed.
Lemma F2_case (c : 'F_2) : c = 0 \/ c = 1.
Proof. by case: c => -[|[|m]] h //; [left|right]; exact/val_inj. Qed.
Lemma number_enc p : valN (f2_enc p) = f2_number p.
Proof.
have [[[h0 hw] hc] hp] := f2_encP p; apply: N.bits_inj => i; rewrite -(N2Nat.id i) valN_bit // number_bit.
by have := coefPl (f2_enc p) (N.to_nat i); rewrite hp => ->; case: (bitl _ _).
Qed.
Lemma number_inj p q : f2_number p = f2_number q -> p = q.
Proof.
move=> h; apply/polyP=> i; have := number_bit p i; rewrite h number_bit.
by case: (F2_case p`_i) => ->; case: (F2_case q`_i) => ->; rewrite ?eqxx ?oner_eq0.
Qed.
Lemma f2_arg s p : f2_rd s p -> arg_f2 s = ret (f2_enc p).
Proof.
move=> h; have [l [-> [hc hv]]] := arg_f2_ok _ _ h; congr (ret _).
by apply: (valN_inj _ _ hc (f2_encP p).1); rewrite hv number_enc.
Qed.
Lemma f2_shw p : show_f2 (f2_enc p) = MSpiff.print (f2_tx p).
Proof. by rewrite /show_f2 /print_res (f2_put_hex _ (f2_encP p).1) number_enc pb_ok. Qed.
Lemma f2_meaning s p q : f2_rd s p -> f2_rd s q -> p = q.
Proof.
move=> /f2_arg h /f2_arg; rewrite h => -[e]; apply: (isP_fun (f2_encP p)); rewrite e; exact: f2_encP.
Qed.
Lemma enc0 : f2_enc 0 = f2_of_int 0. Proof. by rewrite /f2_enc polyseq0. Qed.

(* ---- operations ---- *)
Lemma f2_deg_enc p : f2_degree (f2_enc p) = Ok (size p).-1.
Proof. exact: degree_thm (isP_W (f2_encP p)). Qed.
Lemma f2_gcd_enc p q : f2_gcd (f2_enc p) (f2_enc q) = Ok (f2_enc (gcdp p q)).
Proof.
have [h0|h0] := eqVneq (gcdp p q) 0.
  by move: h0 => /eqP; rewrite gcdp_eq0 => /andP[/eqP-> /eqP->]; rewrite gcd0p enc0; vm_compute.
have [d [-> hd]] := gcd_L (isP_L (f2_encP p)) (isP_L (f2_encP q)); congr Ok; exact: f2_encE (isL_nz hd h0).
Qed.
Lemma f2_ext_enc p q : exists r s, f2_ext_gcd (f2_enc p) (f2_enc q) = Ok (f2_enc (gcdp p q), f2_enc r, f2_enc s) /\
  r * p + s * q = gcdp p q.
Proof.
have [h0|h0] := eqVneq (gcdp p q) 0.
  move: h0 => /eqP; rewrite gcdp_eq0 => /andP[/eqP-> /eqP->].
  have [d [s [t [e [_ [ps [pt [hs [ht h]]]]]]]]] := ext_gcd_L (isP_L (f2_encP 0)) (isP_L (f2_encP 0)).
  exists ps, pt; split=> //; rewrite -(f2_encE hs) -(f2_encE ht); move: e; rewrite gcd0p enc0.
  have [x [y E]] : exists x y, f2_ext_gcd (f2_of_int 0) (f2_of_int 0) = Ok (f2_of_int 0, x, y) by do 2 eexists; vm_compute.
  by rewrite E => -[_ -> ->].
have [d [s [t [e [hd [ps [pt [hs [ht h]]]]]]]]] := ext_gcd_L (isP_L (f2_encP p)) (isP_L (f2_encP q)).
by exists ps, pt; rewrite e (f2_encE (isL_nz hd h0)) (f2_encE hs) (f2_encE ht).
Qed.
(* the least common multiple, up to units *)
Definition lcmq (K : fieldType) (p q : {poly K}) := (p * q) %/ gcdp p q.
Lemma gcdp_n0 (K : fieldType) (p q : {poly K}) : p != 0 \/ q != 0 -> gcdp p q != 0.
Proof. by move=> h; rewrite gcdp_eq0 negb_and; case: h => ->; rewrite ?orbT. Qed.
Lemma lcmq_dvd (K : fieldType) (p q m : {poly K}) : p != 0 \/ q != 0 -> (lcmq p q %| m) = (p %| m) && (q %| m).
Proof.
move=> /gcdp_n0 h0; have e : lcmq p q * gcdp p q = p * q by rewrite /lcmq divpK // dvdp_mull // dvdp_gcdr.
apply/idP/andP=> [h1|[h1 h2]].
- split; apply: dvdp_trans h1.
  + by rewrite /lcmq -divp_mulA ?dvdp_gcdr // dvdp_mulr.
  + by rewrite /lcmq mulrC -divp_mulA ?dvdp_gcdl // dvdp_mulr.
- rewrite -(dvdp_mul2r _ _ h0) e -(eqp_dvdr _ (gcdp_mul2l m p q)) dvdp_gcd; apply/andP; split.
  + by rewrite [p * q]mulrC dvdp_mul.
  + by rewrite dvdp_mul.
Qed.
Lemma lcmq_eq0 (K : fieldType) (p q : {poly K}) : p != 0 \/ q != 0 -> (lcmq p q == 0) = (p == 0) || (q == 0).
Proof.
move=> /gcdp_n0 h0; have e : lcmq p q * gcdp p q = p * q by rewrite /lcmq divpK // dvdp_mull // dvdp_gcdr.
by rewrite -[LHS]orbF -(negbTE h0) -mulf_eq0 e mulf_eq0.
Qed.
Lemma f2_lcm_enc p q : p != 0 \/ q != 0 -> f2_lcm (f2_enc p) (f2_enc q) = Ok (f2_enc (lcmq p q)).
Proof.
move=> h; rewrite /f2_lcm; have [x [-> hx]] := mul_L (f2_encP p) (isP_L (f2_encP q)); rewrite bind_ok f2_gcd_enc bind_ok.
have h0 : gcdp p q != 0 by rewrite gcdp_eq0 negb_and; case: h => ->; rewrite ?orbT.
have [d [-> hd]] := div_L hx (isP_L (f2_encP (gcdp p q))) h0; congr Ok; exact: f2_encE.
Qed.
Lemma f2_lcm_00 : f2_lcm (f2_enc 0) (f2_enc 0) = Exn.
Proof. by rewrite enc0; vm_compute. Qed.
