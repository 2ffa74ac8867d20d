(* Final theorems for spffl/factorization/fp_poly_factor.cpp and the totient of
   polynomials over F_p (p prime, p*p representable).  [fp_enc] is as in PropFpPoly.v. *)
From Verif Require Import Base MIntMath MIntmod MMat MFac MPoly MPolyFac PIntMath PIntMath2 PIntmod PFacGen.
From mathcomp Require Import all_ssreflect fingroup perm all_algebra ssrZ.
From mathcomp Require Import finfield separable.
From Verif Require Import PMat PFp PFpGen PPoly PPoly2 PPoly3 PPoly4 PFpPoly PropFpPoly PFacPoly PPolyFac PPolyFac2 PPolyFac3 PIrr PPhi.
From Verif Require PF2Fac2.
Set Implicit Arguments.
Unset Strict Implicit.
Unset Printing Implicit Defensive.
Import GRing.Theory.
Delimit Scope Z_scope with coqZ.
Local Open Scope ring_scope.

(* number of residue classes modulo f that have a multiplicative inverse; the classes are
   represented by the polynomials of degree less than that of f, written as vectors *)
Definition fp_units (p : nat) (f : {poly 'F_p}) : nat :=
  #|[set v : 'rV['F_p]_(size f).-1 | [exists w : 'rV['F_p]_(size f).-1, f %| rVpoly v * rVpoly w - 1]]|.

Section T.
Variable p : nat.
Hypothesis pp : prime p.
Hypothesis hP : (Z.of_nat p <= 46341)%coqZ.
Variable c : cache.
Hypothesis hc : cache_valid c.
Local Notation V := (Vp p).
Local Notation I := (Ip p).
Local Notation o := (im_kops c).
Local Notation enc := (@fp_enc p).
Local Notation el := (@fp_el p).
Local Notation F := (Fp_finFieldType p).
Let sp := im_kspec pp hP hc.
Implicit Types f g h : {poly 'F_p}.

Lemma cardF : #|F| = p. Proof. exact: card_Fp. Qed.
Lemma kvq x : V x -> (rv x < #|F|)%N. Proof. rewrite cardF; exact: rv_lt. Qed.
Lemma kv0 x : V x -> (rv x == 0)%N = (I x == 0). Proof. exact: (@rv_0 p pp). Qed.
Lemma kv1 x : V x -> I x = 1 -> rv x = 1%N. Proof. exact: (@rv_1 p pp hP). Qed.
Lemma kvE x y : V x -> V y -> rv x = rv y -> x = y.
Proof. case: x y => [x m] [y n] [/= -> [/= h1 h2]] [/= -> [/= h3 h4]]; rewrite /rv /= => e; congr mkim; move: e h1 h3; clear; lia. Qed.
Lemma next_ok x : V x -> if (rv x < #|F|.-1)%N
  then exists z, k_next o x = Ok (Some z) /\ V z /\ rv z = (rv x).+1 else k_next o x = Ok None.
Proof. rewrite cardF; exact: (im_next_ok pp hP c). Qed.
Lemma dflt z : R V I z 0 -> exists z1, k_int o (k_dflt o) 0 = Ok z1 /\ c_eqb (k_c o) z z1 = Ok false.
Proof.
have hP2 := P2 pp hP.
case: z => z m [[/= -> hz] _]; exists (mkim 0 1); split=> //; rewrite /im_eqb !check_modulus_ok //=; last by clear - hP2; lia.
by congr Ok; apply/andP=> -[_ /Z.eqb_eq]; clear - hP2; lia.
Qed.
Definition cst (z : Z) : F := (int_of_Z z)%:~R.
Lemma fs : fspec V I (im_facpar c) cst p.
Proof.
have hP2 := P2 pp hP.
have hq l f : isG V I l f -> bind (getk l 0) (fun c0 => Ok (modulus c0)) = Ok (Z.of_nat p).
  by move=> h; have [x [-> [[hm _] _]]] := isG_get0 h; rewrite bind_ok hm.
split.
- by rewrite cardF.
- by rewrite cardF /INT_MAX; move: hP2; rewrite /MAXM; clear; lia.
- move=> l f z h hz; apply: (int_ok sp h); move: hz; rewrite cardF /INT_MIN /INT_MAX; move: hP2; rewrite /MAXM; clear; lia.
- move=> a; exists (Z.of_nat (nat_of_ord a)).
    by rewrite cardF; have := ltn_ord a; rewrite {2}Fp_cast // => /ltP; clear; lia.
  by have := fp_of_I a; rewrite /Ip /izr /=.
- exact: hq.
- exact: char_Fp.
- move=> l f h; exact: (pth_root_ok pp hP hc h).
Qed.

(* fin describes the factorization of f: the pairs in s are the distinct monic irreducible
   factors with their multiplicities, the unit is the leading coefficient (or absent when
   that is one), and multiplying everything out gives f *)
Definition is_factorization f (fin : facinfo (list intmod)) : Prop :=
  exists s : seq ({poly 'F_p} * nat),
  [/\ facs fin = [seq (enc e.1, Z.of_nat e.2) | e <- s],
      forall g m, (g, m) \in s -> [/\ g \is monic, irreducible_poly g & (0 < m)%N],
      uniq [seq e.1 | e <- s],
      funit fin = Some (enc (lead_coef f)%:P) \/ (funit fin = None /\ lead_coef f = 1)
    & f = lead_coef f *: \prod_(e <- s) e.1 ^+ e.2].

Lemma Forall_mapE (T U : Type) (a b : T -> U) l : List.Forall (fun x => a x = b x) l -> map a l = map b l.
Proof. by elim=> [|x l' h _ IH] //=; rewrite h IH. Qed.
Lemma NoDup_uniq (T : eqType) (l : seq T) : List.NoDup l -> uniq l.
Proof.
elim: l => [//|x l IH] h /=; have [h1 h2] := (List.NoDup_cons_iff x l).1 h; rewrite (IH h2) andbT.
apply/negP => hx; apply: h1; elim: l hx {IH h h2} => [//|y l IH]; rewrite inE => /orP [/eqP ->|h]; first by left.
by right; apply: IH.
Qed.
Lemma mapIn (T : Type) (U : eqType) (a : T -> U) l y : y \in map a l -> exists2 x, List.In x l & y = a x.
Proof.
elim: l => [//|x l IH] /=; rewrite inE => /orP [/eqP ->|/IH [z h ->]]; first by exists x; [left|].
by exists z; [right|].
Qed.
Lemma t_factor f : f != 0 -> (Z.of_nat (size f) <= INT_MAX)%coqZ ->
  exists fin, fp_factor c (enc f) = Ok fin /\ is_factorization f fin.
Proof.
move=> f0 hm; have [fin [e [h1 h2 h3 h4]]] := factor_ok sp dflt kvq kv0 fs (encG pp f) f0 hm.
exists fin; split=> //; exists [seq (Gp I e.1, Z.to_nat e.2) | e <- facs fin]; split.
- rewrite -map_comp -[LHS]map_id; apply: Forall_mapE; apply/List.Forall_forall => -[l m] hin.
  have [k1 _ _ k4] := h1 _ _ hin; rewrite /= -(Genc pp hP hc k1) Z2Nat.id //; move: k4; clear; lia.
- move=> g m /mapIn [[l n] hin' [-> ->]].
  have [k1 k2 k3 k4] := h1 _ _ hin'; split=> //; apply/ltP; move: k4; clear; lia.
- rewrite -map_comp; exact: NoDup_uniq h2.
- by case: (funit fin) h3 => [u /(Genc pp hP hc) ->|->]; [left | right].
- by rewrite big_map -[LHS]h4.
Qed.
Lemma t_factor0 : fp_factor c (enc 0) = Ok (mkfac [::] (Some (enc 0))).
Proof. exact: (factor_0 sp _ (encG pp 0)). Qed.
Lemma t_irreducible f : (Z.of_nat (size f) <= INT_MAX)%coqZ ->
  exists b, fp_is_irreducible c (enc f) = Ok b /\ (b = true <-> irreducible_poly f).
Proof. move=> hm; exact: (irreducible_ok sp dflt kvq kv0 fs (encG pp f) hm). Qed.

Lemma t_find d : (1 < d)%N -> (Z.of_nat d < INT_MAX)%coqZ -> exists f,
  [/\ fp_find_irr c (Z.of_nat p) (Z.of_nat d) = Ok (enc f), size f = d.+1, f \is monic, irreducible_poly f &
      forall g, size g = d.+1 -> irreducible_poly g -> (fp_num f <= fp_num g)%N].
Proof.
move=> hd hm; have [t [ht1 ht2 ht3]] := irr_exists pp (ltnW hd).
rewrite /fp_find_irr.
have [//|zero [-> hz]] := V_make pp hP (z := 0); have [//|one [-> ho]] := V_make pp hP (z := 1); rewrite !bind_ok.
have [||r [f [er hr hs [mf irf] hmin]]] := @find_ok _ _ _ _ _ _ sp dflt kvq kv0 _ _ _ fs next_ok kv1 kvE zero one d
    (S (Nat.pow (Z.to_nat (Z.of_nat p)) (Z.to_nat (Z.of_nat d)))) _ _ hz ho hd _ _ (encG pp t) ht1 ht2 ht3.
- by move: hm; clear; lia.
- by rewrite cardF !Nat2Z.id -[Nat.pow p d]/(Nat.pow p d) (_ : Nat.pow p d = (p ^ d)%N) //; elim: (d) => [|k IH] //=; rewrite IH expnS.
exists f; rewrite er (Genc pp hP hc hr); split=> // g h1 h2.
have := hmin _ _ (encG pp g) h1 h2; rewrite (Genc pp hP hc hr).
have [_ [_ [-> _]]] := t_cmp pp hP hc g f; case=> /negbT; by rewrite -leqNgt.
Qed.
Lemma t_find_low z : (z < 1)%coqZ -> fp_find_irr c (Z.of_nat p) z = Exn.
Proof.
move=> h; rewrite /fp_find_irr.
have [//|zero [-> hz]] := V_make pp hP (z := 0); have [//|one [-> ho]] := V_make pp hP (z := 1); rewrite !bind_ok /gp_find_irr.
have [l0 [-> h0]] := const_ok sp hz; rewrite bind_ok polyC0 in h0 *.
rewrite (Genc pp hP hc h0) (Rel pp ho) (t_set pp hP hc).
case: ifP => // _; rewrite bind_ok.
by have -> : (z <? 1)%coqZ = true by apply/Z.ltb_lt.
Qed.

Lemma units_phi f : f != 0 -> fp_units f = phi f.
Proof.
move=> f0; rewrite /fp_units /phi; apply: eq_card => v; rewrite !inE.
apply/existsP/idP => [[w hw]|hcp].
  apply/Bezout_eq1_coprimepP; have /dvdpP [u hu] := hw.
  exists (- u, rVpoly w) => /=; rewrite mulNr -hu opprB addrC [rVpoly w * _]mulrC addrCA subrr addr0 //.
have [[a b] /= hab] := Bezout_eq1_coprimepP _ _ hcp.
exists (poly_rV (b %% f)); rewrite poly_rV_K; last by apply: (rV_mod (F := F)).
rewrite /dvdp modpD modpN modp_mul -modpN -modpD -/(dvdp _ _).
apply/dvdpP; exists (- a); by rewrite -hab [b * _]mulrC opprD addrC subrK mulNr.
Qed.
Lemma t_totient f : f != 0 -> (Z.of_nat p ^ (2 * Z.of_nat (size f).-1) <= INT_MAX)%coqZ ->
  fp_totient c (enc f) = Ok (Z.of_nat (fp_units f)).
Proof.
move=> f0 hm; rewrite (units_phi f0); apply: (totient_ok sp dflt kvq kv0 fs (encG pp f) f0).
rewrite Zpow_nat cardF -multE Nat2Z.inj_mul //.
Qed.
Lemma t_totient_irr f : irreducible_poly f -> (Z.of_nat (size f) <= INT_MAX)%coqZ ->
  fp_totient c (enc f) =
    if (Z.of_nat p ^ (2 ^ (Z.log2 (Z.of_nat (size f).-1) + 1)) <=? INT_MAX)%coqZ
    then Ok (Z.of_nat p ^ Z.of_nat (size f).-1 - 1)%coqZ else UB.
Proof.
move=> hi hm; have := totient_irr sp dflt kvq kv0 fs (encG pp f) hi hm; by rewrite cardF.
Qed.
End T.

Section Final.
Variables (p : nat) (c : cache).
Local Notation enc := (@fp_enc p).

(* C36 *)
Theorem C36_factor_partial : prime p -> (Z.of_nat p <= 46341)%coqZ -> cache_valid c ->
  forall f : {poly 'F_p}, f != 0 -> (Z.of_nat (size f) <= INT_MAX)%coqZ ->
  exists fin, fp_factor c (enc f) = Ok fin /\ is_factorization f fin.
Proof. move=> pp hP hc; exact: (t_factor pp hP hc). Qed.
(* zero: no factors, unit zero *)
Theorem C36_factor_zero : prime p -> (Z.of_nat p <= 46341)%coqZ -> cache_valid c ->
  fp_factor c (enc 0) = Ok (mkfac [::] (Some (enc 0))).
Proof. move=> pp hP hc; exact: (t_factor0 pp hP hc). Qed.
Theorem C36_is_irreducible_partial : prime p -> (Z.of_nat p <= 46341)%coqZ -> cache_valid c ->
  forall f : {poly 'F_p}, (Z.of_nat (size f) <= INT_MAX)%coqZ ->
  exists b, fp_is_irreducible c (enc f) = Ok b /\ (b = true <-> irreducible_poly f).
Proof. move=> pp hP hc; exact: (t_irreducible pp hP hc). Qed.

(* C60 *)
Theorem C60_find_irr_partial : prime p -> (Z.of_nat p <= 46341)%coqZ -> cache_valid c ->
  forall d, (1 < d)%N -> (Z.of_nat d < INT_MAX)%coqZ -> exists f : {poly 'F_p},
  [/\ fp_find_irr c (Z.of_nat p) (Z.of_nat d) = Ok (enc f), size f = d.+1, f \is monic, irreducible_poly f &
      forall g : {poly 'F_p}, size g = d.+1 -> irreducible_poly g -> (fp_num f <= fp_num g)%N].
Proof. move=> pp hP hc; exact: (t_find pp hP hc). Qed.
Theorem C60_find_irr_nonpositive : prime p -> (Z.of_nat p <= 46341)%coqZ -> cache_valid c ->
  forall d, (d < 1)%coqZ -> fp_find_irr c (Z.of_nat p) d = Exn.
Proof. move=> pp hP hc; exact: (t_find_low pp hP hc). Qed.

(* C61 *)
Theorem C61_totient_partial : prime p -> (Z.of_nat p <= 46341)%coqZ -> cache_valid c ->
  forall f : {poly 'F_p}, f != 0 -> (Z.of_nat p ^ (2 * Z.of_nat (size f).-1) <= INT_MAX)%coqZ ->
  fp_totient c (enc f) = Ok (Z.of_nat (fp_units f)).
Proof. move=> pp hP hc; exact: (t_totient pp hP hc). Qed.
(* an irreducible polynomial of degree d: p^d - 1 if p^(2^(floor(log2 d)+1)) is representable,
   undefined behaviour otherwise *)
Theorem C61_totient_irreducible : prime p -> (Z.of_nat p <= 46341)%coqZ -> cache_valid c ->
  forall f : {poly 'F_p}, irreducible_poly f -> (Z.of_nat (size f) <= INT_MAX)%coqZ ->
  fp_totient c (enc f) =
    if (Z.of_nat p ^ (2 ^ (Z.log2 (Z.of_nat (size f).-1) + 1)) <=? INT_MAX)%coqZ
    then Ok (Z.of_nat p ^ Z.of_nat (size f).-1 - 1)%coqZ else UB.
Proof. move=> pp hP hc; exact: (t_totient_irr pp hP hc). Qed.
End Final.

(* degree 1: the search returns x + 1 although x is lower and irreducible *)
Lemma fp_encX : fp_enc ('X : {poly 'F_7}) = im7 [:: 0; 1]%coqZ.
Proof. by rewrite /fp_enc polyX_eq0 polyseqX. Qed.
Theorem C60_find_irr_degree1_refuted : exists c (r : list intmod) (g : {poly 'F_7}),
  [/\ cache_valid c, fp_find_irr c 7 1 = Ok r, size g = 2%N, irreducible_poly g &
      gp_ltb (im_kops c) (fp_enc g) r = Ok true].
Proof.
exists cache_init, (im7 [:: 1; 1]%coqZ), 'X; split.
- exact: cache_init_valid.
- by vm_compute.
- exact: size_polyX.
- by apply: PF2Fac2.lin_irr; rewrite size_polyX.
- by rewrite fp_encX; vm_compute.
Qed.
(* the totient of an irreducible quadratic over F_257 is representable but not computed *)
Theorem C61_totient_refuted : exists f : {poly 'F_257}, irreducible_poly f /\ size f = 3%N /\
  forall c, cache_valid c -> fp_totient c (fp_enc f) = UB.
Proof.
have pp : prime 257 by vm_compute.
have [f [h1 _ h2]] := irr_exists pp (isT : (0 < 2)%N).
exists f; split; first exact: h2.
split; first exact: h1.
move=> c hc; have e := C61_totient_irreducible pp (_ : (Z.of_nat 257 <= 46341)%coqZ) hc h2; rewrite h1 in e.
rewrite e; [by vm_compute|by vm_compute|by vm_compute].
Qed.

(* x^2 + 1 over F_7 is irreducible; 3 (x+1)^2 (x^2+1); x^7 - 2 = (x + 5)^7 *)
Example C36_ex :
  fp_factor cache_init (im7 [:: 3; 6; 6; 6; 3]%coqZ) =
    Ok (mkfac [:: (im7 [:: 1; 1]%coqZ, 2%coqZ); (im7 [:: 1; 0; 1]%coqZ, 1%coqZ)] (Some (im7 [:: 3%coqZ]))) /\
  fp_factor cache_init (im7 [:: 5; 0; 0; 0; 0; 0; 0; 1]%coqZ) = Ok (mkfac [:: (im7 [:: 5; 1]%coqZ, 7%coqZ)] None) /\
  fp_is_irreducible cache_init (im7 [:: 1; 0; 1]%coqZ) = Ok true /\
  fp_is_irreducible cache_init (im7 [:: 6; 0; 1]%coqZ) = Ok false /\
  ((1 : {poly 'F_7}) != 0 /\ (Z.of_nat (size (1%R : {poly 'F_7})) <= INT_MAX)%coqZ).
Proof. by do 4 (split; first by vm_compute); rewrite oner_neq0 size_poly1. Qed.
Example C60_ex : fp_find_irr cache_init 7 2 = Ok (im7 [:: 1; 0; 1]%coqZ) /\
  fp_find_irr cache_init 7 0 = Exn /\ fp_find_irr cache_init 7 1 = Ok (im7 [:: 1; 1]%coqZ).
Proof. by vm_compute. Qed.
Example C61_ex : fp_totient cache_init (im7 [:: 1; 0; 1]%coqZ) = Ok 48%coqZ /\
  fp_totient cache_init (im7 [:: 3; 6; 6; 6; 3]%coqZ) = Ok 2016%coqZ /\
  (Z.of_nat 7 ^ (2 * 2) <= INT_MAX)%coqZ.
Proof. by vm_compute. Qed.

Print Assumptions C36_factor_partial.
Print Assumptions C36_is_irreducible_partial.
Print Assumptions C60_find_irr_partial.
Print Assumptions C60_find_irr_nonpositive.
Print Assumptions C60_find_irr_degree1_refuted.
Print Assumptions C61_totient_partial.
Print Assumptions C61_totient_irreducible.
Print Assumptions C61_totient_refuted.
