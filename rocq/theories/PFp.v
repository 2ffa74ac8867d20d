(* The residues modulo a prime p, as intmod values, behave as the field 'F_p. *)
From Verif Require Import Base MIntMath MIntmod MMat PIntMath PIntMath2 PIntmod.
From Coq Require Import Znumtheory.
From mathcomp Require Import all_ssreflect fingroup perm all_algebra ssrZ.
From Verif Require Import PMat.
Set Implicit Arguments.
Unset Strict Implicit.
Unset Printing Implicit Defensive.
Import GRing.Theory.
Delimit Scope Z_scope with coqZ.
Local Open Scope ring_scope.

Lemma primeZ (p : nat) : prime p -> Znumtheory.prime (Z.of_nat p).
Proof.
move=> pp; apply/prime_alt; have p1 := prime_gt1 pp; split; first by lia.
move=> k hk [q hq].
have : (Z.to_nat k %| p)%N.
  apply/dvdnP; exists (Z.to_nat q); rewrite -multE.
  have hq0 : Z.le 0 q by nia.
  apply: Nat2Z.inj; rewrite Nat2Z.inj_mul !Z2Nat.id //; lia.
move/primeP: pp => [_ /[apply] /orP[]/eqP e]; lia.
Qed.

Section Fp.
Variable p : nat.
Hypothesis pp : prime p.
Local Notation P := (Z.of_nat p).

Definition izr (z : Z) : 'F_p := (int_of_Z z)%:~R.

Lemma izrD x y : izr (Z.add x y) = izr x + izr y.
Proof. by rewrite /izr -intrD -(rmorphD [rmorphism of int_of_Z]). Qed.
Lemma izrN x : izr (Z.opp x) = - izr x.
Proof. by rewrite /izr -mulrNz -(rmorphN [rmorphism of int_of_Z]). Qed.
Lemma izrB x y : izr (Z.sub x y) = izr x - izr y.
Proof. by rewrite -izrN -izrD. Qed.
Lemma izrM x y : izr (Z.mul x y) = izr x * izr y.
Proof. by rewrite /izr -intrM -(rmorphM [rmorphism of int_of_Z]). Qed.
Lemma izr_nat k : izr (Z.of_nat k) = k%:R.
Proof. 
rewrite /izr (_ : int_of_Z (Z.of_nat k) = k%:Z) //.
by rewrite -(Z_of_intK k).
Qed.
Lemma izr0 : izr 0 = 0. Proof. by []. Qed.
Lemma izr1 : izr 1 = 1. Proof. by []. Qed.
Lemma izrP : izr P = 0.
Proof. by rewrite izr_nat; apply: charf0; apply: char_Fp. Qed.
Lemma izr_mod z : izr (Z.modulo z P) = izr z.
Proof.
have hP : P <> 0%coqZ by have := prime_gt0 pp; lia.
by rewrite [in RHS](Z.div_mod z P hP) izrD izrM izrP mul0r add0r.
Qed.

Lemma izr_val x : Z.le 0 x -> Z.lt x P -> Z.of_nat (izr x : nat) = x.
Proof.
move=> h0 h1; rewrite -{1}(Z2Nat.id x h0) izr_nat val_Fp_nat //.
by rewrite modn_small ?Z2Nat.id //; lia.
Qed.
Lemma izr_inj x y : Z.le 0 x -> Z.lt x P -> Z.le 0 y -> Z.lt y P -> izr x = izr y -> x = y.
Proof. by move=> h1 h2 h3 h4 e; rewrite -(izr_val h1 h2) e izr_val. Qed.
Lemma izr_eq x y : Z.le 0 x -> Z.lt x P -> Z.le 0 y -> Z.lt y P -> (izr x == izr y) = Z.eqb x y.
Proof.
move=> h1 h2 h3 h4; apply/eqP/idP => [/(izr_inj h1 h2 h3 h4)->|/Z.eqb_eq -> //].
exact: Z.eqb_refl.
Qed.

(* the representation of 'F_p used by the code *)
Definition Vp (a : intmod) : Prop := modulus a = P /\ canon a.
Definition Ip (a : intmod) : 'F_p := izr (residue a).
(* every element of 'F_p is represented *)
Definition fp_of (x : 'F_p) : intmod := mkim (Z.of_nat (x : nat)) P.
Lemma fp_of_V x : Vp (fp_of x).
Proof.
split=> //; rewrite /canon /=; have := ltn_ord x; rewrite [X in (_ < X)%N]Fp_cast //; lia.
Qed.
Lemma fp_of_I x : Ip (fp_of x) = x.
Proof. by rewrite /Ip /= izr_nat natr_Zp. Qed.
Lemma Ip_inj a b : Vp a -> Vp b -> Ip a = Ip b -> a = b.
Proof.
case: a => ra ma; case: b => rb mb [/= -> [/= h1 h2]] [/= -> [/= h3 h4]] e.
by congr mkim; apply: izr_inj e.
Qed.

Definition im_ops (c : cache) : cops intmod :=
  mkcops im_add im_sub im_mul (im_div c) im_neg im_eqb.

Lemma im_cspec c : cache_valid c -> Z.le P 46341 -> @cspec _ (im_ops c) [fieldType of 'F_p] Vp Ip.
Proof.
move=> hc hP; have p1 := prime_gt1 pp.
have hP1 : (1 <= P <= MAXM)%coqZ by rewrite /MAXM; lia.
have hP2 : (2 <= P <= MAXM)%coqZ by rewrite /MAXM; lia.
have fin z : Vp (mkim (Z.modulo z P) P).
  by split=> //; rewrite /canon /=; apply: Z.mod_pos_bound; lia.
have mk (z : Z) : Ip (mkim (Z.modulo z P) P) = izr z by rewrite /Ip /= izr_mod.
split.
- move=> [x mx] [y my] [/= -> hx] [/= -> hy]; eexists; split; first exact: im_add_ok.
  by split; [exact: fin | rewrite mk izrD].
- move=> [x mx] [y my] [/= -> hx] [/= -> hy]; eexists; split; first exact: im_sub_ok.
  by split; [exact: fin | rewrite mk izrB].
- move=> [x mx] [y my] [/= -> hx] [/= -> hy]; eexists; split; first exact: im_mul_ok.
  by split; [exact: fin | rewrite mk izrM].
- move=> [x mx] [/= -> hx]; eexists; split; first exact: im_neg_ok.
  by split; [exact: fin | rewrite mk izrN].
- move=> [x mx] [y my] [/= -> hx] [/= -> hy] nz.
  have [[hg [q [e [hq eq]]]]|[hg e]] := im_div_ok c P x y hc hP2 hx hy.
    exists (mkim q P); split=> //; split; first by split.
    by rewrite /Ip /= -eq izr_mod izrM mulfK.
  case: hg; apply/Zgcd_1_rel_prime; apply: prime_rel_prime; first exact: primeZ.
  move=> hd; have y0 : y = 0%coqZ.
    by case: hy => /= h3 h4; have := Z.divide_pos_le P y; lia.
  by rewrite y0 in nz; case/eqP: nz.
- move=> [x mx] [y my] [/= -> [/= h1 h2]] [/= -> [/= h3 h4]].
  rewrite /im_eqb /check_modulus /=.
  have -> : Z.eqb P 0 = false by apply/Z.eqb_neq; lia.
  by rewrite /= Z.eqb_refl andbT /Ip /= izr_eq.
Qed.
End Fp.
