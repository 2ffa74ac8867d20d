(* C47, C77, C78, C79: listings of polynomials, residues, multiples, tuples and projective points. *)
From Verif Require Import Base MIntMath MIntmod MMat MF2Poly MF2Fac MFac MPoly MPolymod MPolyFac MF2nPoly MList PIntMath PIntMath2 PIntmod PFacGen PF2Poly.
From mathcomp Require Import all_ssreflect all_algebra ssrZ finfield.
From Verif Require Import PMat PFp PPoly PPoly2 PPoly3 PBits3 PF2Poly2 PF2n PFpPoly PropFpPoly PropF2nPoly PropLinalg PList PList2 PList3 PList4 PList5 PList6 PList7 PList8.
From Verif Require PropFpPolymod PropF2nPolymod PropF2nPoly PF2Tot.
Set Implicit Arguments.
Unset Strict Implicit.
Unset Printing Implicit Defensive.
Import GRing.Theory.
Delimit Scope Z_scope with coqZ.
Delimit Scope N_scope with num.
Local Open Scope ring_scope.

(* the result r is the vector of the objects e f for all f with P f, each f exactly once and in
   increasing order of num f *)
Definition lists (T : eqType) (E : Type) (num : T -> nat) (P : T -> Prop) (e : T -> E) (r : res (seq E)) : Prop :=
  exists s : seq T, [/\ uniq s, sorted ltn [seq num f | f <- s], forall f, f \in s <-> P f & r = Ok [seq e f | f <- s]].
(* f is invertible modulo m *)
Definition unit_poly (F : fieldType) (m f : {poly F}) : Prop := exists w : {poly F}, m %| f * w - 1.
Lemma lists_of (T : eqType) (E : Type) (num : T -> nat) (P : T -> Prop) (Q : pred T) (e : T -> E) r s :
  injective num -> sorted ltn [seq num f | f <- s] -> (forall f, (f \in s) = Q f) -> (forall f, Q f <-> P f) ->
  r = (if (0 < size s)%N then Ok [seq e f | f <- s] else Exn) -> (exists f, P f) -> lists num P e r.
Proof.
move=> ni h1 h2 h3 h4 [f hf]; exists s; split=> //.
- by apply: (@map_uniq _ _ num); exact: sorted_uniq ltn_trans ltnn _ h1.
- by move=> g; rewrite h2.
by have : f \in s; [rewrite h2; apply/h3|move: h4; case: (s)].
Qed.
Lemma unit_small (F : fieldType) (m : {poly F}) : m != 0 -> exists2 f : {poly F}, (size f < size m)%N & unit_poly m f.
Proof.
move=> m0; exists (1 %% m); first by rewrite ltn_modp.
by exists 1; rewrite mulr1 -opprB dvdpNr {1}(divp_eq 1 m) addrK dvdp_mulIr.
Qed.
Lemma multP (F : fieldType) (m g f : {poly F}) : (gcdp m g %| f) <-> (exists w : {poly F}, m %| f - w * g).
Proof.
split=> [h|[w h]].
  have [[u v] /= e] := Bezoutp m g; move: h; rewrite -(eqp_dvdl _ e) => /dvdpP [k ->].
  by exists (k * v); rewrite mulrDr !mulrA addrK dvdp_mull.
have h1 : gcdp m g %| f - w * g by exact: dvdp_trans (dvdp_gcdl _ _) h.
by rewrite -[f](subrK (w * g)) dvdp_add // dvdp_mull // dvdp_gcdr.
Qed.
Lemma relP (F : fieldType) (m g f : {poly F}) :
  coprimep (gcdp m g) f <-> (forall d : {poly F}, d %| m -> d %| g -> d %| f -> d %= 1).
Proof.
split=> [/coprimepP h d h1 h2 h3|h]; first by apply: h => //; rewrite dvdp_gcd h1.
by apply/coprimepP => d; rewrite dvdp_gcd => /andP [h1 h2] h3; exact: h.
Qed.

Lemma InP (T : eqType) (x : T) s : List.In x s <-> x \in s.
Proof.
elim: s => [|y s IH] //=; rewrite inE; split=> [[->|/IH ->]|/orP [/eqP ->|/IH]]; rewrite ?eqxx ?orbT //; first by left.
by right.
Qed.
Lemma copP p r : (1 < p)%N -> cop p r <-> exists y, ((Z.of_nat r * y) mod Z.of_nat p = 1)%coqZ.
Proof.
move=> /ltP p1; have h : (1 <= Z.of_nat p)%coqZ by clear - p1; lia.
have := unit_mod_gcd _ (Z.of_nat r) h; rewrite /PIntMath2.unit_mod Z.mod_1_l; last by clear - p1; lia.
by move=> ->; rewrite /cop; split=> /Z.eqb_spec.
Qed.
Lemma int_multP p g r : (r < p)%N ->
  ((Z.of_nat r mod Z.gcd (Z.of_nat p) (Z.of_nat g) = 0) <-> exists w, (w * Z.of_nat g) mod Z.of_nat p = Z.of_nat r)%coqZ.
Proof.
move=> /ltP rp; have p0 : (0 < Z.of_nat p)%coqZ by clear - rp; lia.
have g0 : Z.gcd (Z.of_nat p) (Z.of_nat g) <> 0%coqZ by move/Z.gcd_eq_0_l; clear - p0; lia.
rewrite Z.mod_divide //; split=> [[k hk]|[w hw]].
  have [a [b e]] := Z.gcd_bezout (Z.of_nat p) (Z.of_nat g) _ erefl; exists (k * b)%coqZ.
  symmetry; apply: (Z.mod_unique_pos _ _ (- (k * a))%coqZ); first by clear - rp; lia.
  by rewrite hk -e; clear; lia.
apply: (Z.divide_trans _ (w * Z.of_nat g - Z.of_nat p * (w * Z.of_nat g / Z.of_nat p))%coqZ).
  apply: Z.divide_sub_r; first exact: Z.divide_mul_r (Z.gcd_divide_r _ _).
  exact: Z.divide_mul_l (Z.gcd_divide_l _ _).
by rewrite -hw Z.mod_eq; [exact: Z.divide_refl|clear - p0; lia].
Qed.
Lemma int_relP p g r :
  (Z.gcd (Z.of_nat r) (Z.gcd (Z.of_nat p) (Z.of_nat g)) = 1)%coqZ <-> (forall d : nat, d %| p -> d %| g -> d %| r -> d = 1)%N.
Proof.
have dv d x : (d %| x)%N <-> (Z.of_nat d | Z.of_nat x)%coqZ.
  split=> [/dvdnP [k ->]|[k hk]]; first by exists (Z.of_nat k); rewrite -Nat2Z.inj_mul multE.
  case: d hk => [|d] hk; first by rewrite dvd0n; apply/eqP; move: hk; clear; lia.
  apply/dvdnP; exists (Z.to_nat k); rewrite -multE; apply: Nat2Z.inj; rewrite Nat2Z.inj_mul Z2Nat.id //.
  by clear - hk; nia.
split=> [h d /dv h1 /dv h2 /dv h3|h].
  have h4 : (Z.of_nat d | 1)%coqZ by rewrite -h; apply: Z.gcd_greatest => //; exact: Z.gcd_greatest.
  by move: (Z.divide_1_r_nonneg _ (Zle_0_nat d) h4); clear; lia.
have G0 := Z.gcd_nonneg (Z.of_nat r) (Z.gcd (Z.of_nat p) (Z.of_nat g)).
rewrite -(Z2Nat.id _ G0) [Z.to_nat _]h //; apply/dv; rewrite Z2Nat.id //.
- exact: Z.divide_trans (Z.gcd_divide_r _ _) (Z.gcd_divide_l _ _).
- exact: Z.divide_trans (Z.gcd_divide_r _ _) (Z.gcd_divide_r _ _).
exact: Z.gcd_divide_l.
Qed.

(* ------------------------------------------------------------------ C47 *)
(* all polynomials over GF(2) of one degree *)
Theorem C47_f2_poly : forall deg : nat, (Z.of_nat deg <= 30)%coqZ ->
  lists f2_num (fun f => size f = deg.+1) f2_enc (f2_poly_list (Z.of_nat deg)).
Proof.
move=> deg hd; have [s [h1 h2 h3 h4]] := f2_list_ok hd; exists s; split=> //; first by have := sorted_num_uniq f2_num_inj h1.
by move=> f; rewrite h2; split=> /eqP.
Qed.
(* beyond degree 30 nothing is listed *)
Theorem C47_f2_poly_bad : forall deg : Z, (deg < 0 \/ 31 <= deg)%coqZ ->
  f2_poly_list deg = if (deg =? 31)%coqZ then Exn else UB.
Proof.
move=> deg h; rewrite /f2_poly_list /ishl1; case: (Z.eqb_spec deg 31) => [->|h1] //.
by have -> : ((deg <? 0) || (31 <? deg))%coqZ = true by clear - h h1; lia.
Qed.
(* all residues modulo m *)
Theorem C47_f2_all : forall m : {poly 'F_2}, m != 0 -> (Z.of_nat (size m).-1 <= 30)%coqZ -> forall t,
  lists f2_num (fun f => (size f < size m)%N) (f2_menc m) (f2_polymod_list t (f2_enc m) LIST_ALL).
Proof.
move=> m m0 hd t; have [|s [h1 h2 h3]] := @f2_polymod_list_ok m m0 t LIST_ALL hd; first by left.
apply: (lists_of f2_num_inj h1 h2 _ h3); first by move=> f; rewrite andbT.
by exists 0; rewrite size_poly0 size_poly_gt0.
Qed.
Theorem C47_f2_units : forall m : {poly 'F_2}, m != 0 -> (Z.of_nat (size m).-1 <= 30)%coqZ -> forall t,
  lists f2_num (fun f => (size f < size m)%N /\ unit_poly m f) (f2_menc m) (f2_polymod_list (Some t) (f2_enc m) LIST_UNITS).
Proof.
move=> m m0 hd t; have [|s [h1 h2 h3]] := @f2_polymod_list_ok m m0 (Some t) LIST_UNITS hd.
  by right; split; [exists t|left].
apply: (lists_of f2_num_inj h1 h2 _ h3).
  by move=> f; split=> [/andP [? /unitP ?]|[? ?]] //; apply/andP; split=> //; apply/unitP.
by have [f ? ?] := unit_small m0; exists f.
Qed.
Theorem C47_f2_nonunits : forall m : {poly 'F_2}, (1 < size m)%N -> (Z.of_nat (size m).-1 <= 30)%coqZ -> forall t,
  lists f2_num (fun f => (size f < size m)%N /\ ~ unit_poly m f) (f2_menc m) (f2_polymod_list (Some t) (f2_enc m) LIST_NON_UNITS).
Proof.
move=> m m1 hd t; have m0 : m != 0 by rewrite -size_poly_gt0 ltnW.
have [|s [h1 h2 h3]] := @f2_polymod_list_ok m m0 (Some t) LIST_NON_UNITS hd.
  by right; split; [exists t|right].
apply: (lists_of f2_num_inj h1 h2 _ h3).
  by move=> f; split=> [/andP [? /unitP ?]|[? ?]] //; apply/andP; split=> //; apply/unitP.
exists 0; split; first by rewrite size_poly0 ltnW.
by move/unitP; rewrite coprimep0 => h; move: m1; rewrite (eqp_size h) size_poly1.
Qed.
(* modulo a non-zero constant every residue is a unit: the list would be empty, which no vector can be *)
Theorem C47_f2_nonunits_const : forall m : {poly 'F_2}, size m = 1%N -> forall t,
  f2_polymod_list (Some t) (f2_enc m) LIST_NON_UNITS = Exn.
Proof.
move=> m m1 t; have m0 : m != 0 by rewrite -size_poly_gt0 m1.
have [||s [h1 h2 ->]] := @f2_polymod_list_ok m m0 (Some t) LIST_NON_UNITS; first by rewrite m1.
  by right; split; [exists t|right].
case: s h1 h2 => //= f s _ h; have := h f; rewrite inE eqxx /= m1 ltnS => /esym /andP [h1].
have e : m %= 1 by rewrite -size_poly_eq1 m1.
by rewrite /f2_lpred (eqp_coprimepl _ e) coprime1p.
Qed.
Theorem C47_f2_bad : forall m t ty, ty = LIST_MULTIPLES \/ ty = LIST_REL_PRIME -> f2_polymod_list t (f2_enc m) ty = Exn.
Proof. by move=> m t ty h; rewrite /f2_polymod_list (degree_thm (encW m)) bind_ok; case: h => ->. Qed.
(* Z/p *)
Theorem C47_int_all : forall p : nat, (0 < p)%N -> (Z.of_nat p <= INT_MAX)%coqZ ->
  lists id (fun r => (r < p)%N) (iel p) (intmod_list (Z.of_nat p) LIST_ALL).
Proof.
move=> p p0 hp; exists (iota 0 p); split; first exact: iota_uniq.
- by rewrite map_id; exact: iota_ltn_sorted.
- by move=> r; rewrite mem_iota.
by rewrite intmod_list_ok //; [rewrite (_ : filter _ _ = iota 0 p) //; exact/all_filterP/allP|left].
Qed.
Theorem C47_int_units : forall p : nat, (1 < p)%N -> (Z.of_nat p <= INT_MAX)%coqZ ->
  lists id (fun r => (r < p)%N /\ exists y, ((Z.of_nat r * y) mod Z.of_nat p = 1)%coqZ) (iel p) (intmod_list (Z.of_nat p) LIST_UNITS).
Proof.
move=> p p1 hp; exists (filter (cop p) (iota 0 p)); split; first exact/filter_uniq/iota_uniq.
- by rewrite map_id; apply: (sorted_filter ltn_trans); exact: iota_ltn_sorted.
- move=> r; rewrite mem_filter mem_iota /= add0n -(copP r p1).
  by split=> [/andP []|[-> ->]].
by rewrite intmod_list_ok //; [exact: ltnW|right; split=> //; left].
Qed.
Theorem C47_int_nonunits : forall p : nat, (1 < p)%N -> (Z.of_nat p <= INT_MAX)%coqZ ->
  lists id (fun r => (r < p)%N /\ ~ exists y, ((Z.of_nat r * y) mod Z.of_nat p = 1)%coqZ) (iel p) (intmod_list (Z.of_nat p) LIST_NON_UNITS).
Proof.
move=> p p1 hp; exists (filter (fun r => ~~ cop p r) (iota 0 p)); split; first exact/filter_uniq/iota_uniq.
- by rewrite map_id; apply: (sorted_filter ltn_trans); exact: iota_ltn_sorted.
- move=> r; rewrite mem_filter mem_iota /= add0n -(copP r p1).
  by split=> [/andP [/negP ? ?]|[-> ?]] //; rewrite andbT; apply/negP.
by rewrite intmod_list_ok //; [exact: ltnW|right; split=> //; right].
Qed.
(* modulo 1: the only residue 0 is a unit, but the unit listing throws and the listing of
   the non-units returns an element that belongs to no modulus *)
Theorem C47_int_one_refuted : intmod_list 1 LIST_UNITS = Exn /\ intmod_list 1 LIST_NON_UNITS = Ok [:: mkim (-1) 0].
Proof. by []. Qed.
Theorem C47_int_bad : forall p ty, (p <= 0)%coqZ /\ ty = LIST_ALL \/ ty = LIST_MULTIPLES \/ ty = LIST_REL_PRIME -> intmod_list p ty = Exn.
Proof. by move=> p ty [[h ->]|[|] ->] //; rewrite /intmod_list bind_ok /new_vec (_ : (p <=? 0)%coqZ = true) //; clear - h; lia. Qed.

(* ------------------------------------------------------------------ C77 *)
Section Fp.
Variables (p : nat) (c : cache).
Local Notation ok := (prime p /\ (Z.of_nat p <= 46341)%coqZ /\ cache_valid c).
Local Notation enc := (@fp_enc p).
Local Notation menc := (@PropFpPolymod.fp_menc p).
Local Notation num := (@fp_num p).
(* the polynomials of one degree: all of them, whatever the leading coefficient; exactly when p^(2^k) fits in
   an int, where 2^k is the smallest power of 2 above the degree *)
Theorem C77_fp_poly : ok -> forall deg : nat, (Z.of_nat deg <= INT_MAX)%coqZ ->
  if pow_fits (Z.of_nat p) (Z.of_nat deg)
  then lists num (fun f => size f = deg.+1) enc (fp_poly_list c (Z.of_nat p) (Z.of_nat deg))
  else fp_poly_list c (Z.of_nat p) (Z.of_nat deg) = UB.
Proof.
move=> [pp [hP hc]] deg hd; have := fp_list_ok pp hP hc hd; case: ifP => // hf [s [h1 h2 h3 h4]].
exists s; split=> //; first by have := sorted_num_uniq (C58_num_injective pp hP hc) h1.
by move=> f; rewrite h2; split=> /eqP.
Qed.
(* the header promises the monic ones only *)
Theorem C77_fp_monics_refuted : ok -> (2 < p)%N -> forall deg : nat, (Z.of_nat deg <= INT_MAX)%coqZ -> pow_fits (Z.of_nat p) (Z.of_nat deg) ->
  exists l f, [/\ fp_poly_list c (Z.of_nat p) (Z.of_nat deg) = Ok l, List.In (enc f) l & f \isn't monic].
Proof.
move=> h p2 deg hd hf; have := C77_fp_poly h hd; rewrite hf => -[s [_ _ h2 h3]]; have [pp [hP hc]] := h.
have n2 : (2%:R : 'F_p) != 0.
  by rewrite -(dvdn_charf (char_Fp pp)) gtnNdvd.
have hs : size ((2%:R : 'F_p) *: 'X^deg) = deg.+1 by rewrite size_scale // size_polyXn.
exists [seq enc f | f <- s], ((2%:R : 'F_p) *: 'X^deg); split=> //.
  by apply: List.in_map; apply/InP; apply/h2.
rewrite monicE lead_coefZ lead_coefXn mulr1 -subr_eq0 (_ : 2%:R - 1 = 1 :> 'F_p) ?oner_eq0 //.
by rewrite (natrD _ 1 1) addrK.
Qed.
Theorem C77_fp_all : ok -> forall m : {poly 'F_p}, m != 0 -> (Z.of_nat (size m) <= INT_MAX)%coqZ ->
  if pow_fits (Z.of_nat p) (Z.of_nat (size m).-1)
  then lists num (fun f => (size f < size m)%N) (menc m) (fp_polymod_list c (enc m) LIST_ALL)
  else fp_polymod_list c (enc m) LIST_ALL = UB.
Proof.
move=> [pp [hP hc]] m m0 hm; case: ifP => hf; last by apply: fp_polymod_all_ub => //; rewrite hf.
have [|s [h1 h2 h3]] := @fp_polymod_list_ok p pp hP c hc m m0 LIST_ALL hm; first by left.
apply: (lists_of (C58_num_injective pp hP hc) h1 h2 _ h3); first by move=> f; rewrite andbT.
by exists 0; rewrite size_poly0 size_poly_gt0.
Qed.
Theorem C77_fp_units : ok -> forall m : {poly 'F_p}, m != 0 -> (Z.of_nat (size m) <= INT_MAX)%coqZ ->
  (Z.of_nat p ^ (2 * Z.of_nat (size m).-1) <= INT_MAX)%coqZ ->
  lists num (fun f => (size f < size m)%N /\ unit_poly m f) (menc m) (fp_polymod_list c (enc m) LIST_UNITS).
Proof.
move=> [pp [hP hc]] m m0 hm hf.
have [|s [h1 h2 h3]] := @fp_polymod_list_ok p pp hP c hc m m0 LIST_UNITS hm; first by right; split=> //; left.
apply: (lists_of (C58_num_injective pp hP hc) h1 h2 _ h3).
  by move=> f; split=> [/andP [? /unitP ?]|[? ?]] //; apply/andP; split=> //; apply/unitP.
by have [f ? ?] := unit_small m0; exists f.
Qed.
Theorem C77_fp_nonunits : ok -> forall m : {poly 'F_p}, (1 < size m)%N -> (Z.of_nat (size m) <= INT_MAX)%coqZ ->
  (Z.of_nat p ^ (2 * Z.of_nat (size m).-1) <= INT_MAX)%coqZ ->
  lists num (fun f => (size f < size m)%N /\ ~ unit_poly m f) (menc m) (fp_polymod_list c (enc m) LIST_NON_UNITS).
Proof.
move=> [pp [hP hc]] m m1 hm hf; have m0 : m != 0 by rewrite -size_poly_gt0 ltnW.
have [|s [h1 h2 h3]] := @fp_polymod_list_ok p pp hP c hc m m0 LIST_NON_UNITS hm; first by right; split=> //; right.
apply: (lists_of (C58_num_injective pp hP hc) h1 h2 _ h3).
  by move=> f; split=> [/andP [? /unitP ?]|[? ?]] //; apply/andP; split=> //; apply/unitP.
exists 0; split; first by rewrite size_poly0 ltnW.
by move/unitP; rewrite coprimep0 => h; move: m1; rewrite (eqp_size h) size_poly1.
Qed.
Theorem C77_fp_bad : ok -> forall (m : {poly 'F_p}) ty, m != 0 -> ty = LIST_MULTIPLES \/ ty = LIST_REL_PRIME -> fp_polymod_list c (enc m) ty = Exn.
Proof. by move=> [pp [hP hc]] m ty m0 h; exact: fp_polymod_bad. Qed.
End Fp.
Section G2.
Variable G : gf2.
Local Notation L := (gf_L G).
Local Notation n := (size (gf_m G)).-1.
Local Notation enc := (@g2_enc G).
Local Notation menc := (@PropF2nPolymod.g2_menc G).
Local Notation num := (@g2_num G).
Theorem C77_f2n_poly : (Z.of_nat n <= 30)%coqZ -> forall deg : nat, (Z.of_nat deg <= INT_MAX)%coqZ ->
  if pow_fits (2 ^ Z.of_nat n) (Z.of_nat deg)
  then lists num (fun f => size f = deg.+1) enc (f2n_poly_list (f2_enc (gf_m G)) (Z.of_nat deg))
  else f2n_poly_list (f2_enc (gf_m G)) (Z.of_nat deg) = UB.
Proof.
move=> hn deg hd; have := g2_list_ok hn hd; case: ifP => // hf [s [h1 h2 h3 h4]].
exists s; split=> //; first by have := sorted_num_uniq (@C64_num_injective G) h1.
by move=> f; rewrite h2; split=> /eqP.
Qed.
Theorem C77_f2n_all : (Z.of_nat n <= 30)%coqZ -> forall m : {poly L}, m != 0 -> (Z.of_nat (size m).-1 * Z.of_nat n <= 30)%coqZ ->
  lists num (fun f => (size f < size m)%N) (menc m) (f2n_polymod_list (enc m) LIST_ALL).
Proof.
move=> hn m m0 hm.
have [|s [h1 h2 h3]] := @g2_polymod_list_ok G hn m m0 LIST_ALL; first by left.
apply: (lists_of (@C64_num_injective G) h1 h2 _ h3); first by move=> f; rewrite andbT.
by exists 0; rewrite size_poly0 size_poly_gt0.
Qed.
Theorem C77_f2n_units : (Z.of_nat n <= 30)%coqZ -> forall m : {poly L}, m != 0 -> (2 * (Z.of_nat (size m).-1 * Z.of_nat n) <= 30)%coqZ ->
  lists num (fun f => (size f < size m)%N /\ unit_poly m f) (menc m) (f2n_polymod_list (enc m) LIST_UNITS).
Proof.
move=> hn m m0 hm.
have [|s [h1 h2 h3]] := @g2_polymod_list_ok G hn m m0 LIST_UNITS; first by right; split=> //; left.
apply: (lists_of (@C64_num_injective G) h1 h2 _ h3).
  by move=> f; split=> [/andP [? /unitP ?]|[? ?]] //; apply/andP; split=> //; apply/unitP.
by have [f ? ?] := unit_small m0; exists f.
Qed.
Theorem C77_f2n_nonunits : (Z.of_nat n <= 30)%coqZ -> forall m : {poly L}, (1 < size m)%N -> (2 * (Z.of_nat (size m).-1 * Z.of_nat n) <= 30)%coqZ ->
  lists num (fun f => (size f < size m)%N /\ ~ unit_poly m f) (menc m) (f2n_polymod_list (enc m) LIST_NON_UNITS).
Proof.
move=> hn m m1 hm; have m0 : m != 0 by rewrite -size_poly_gt0 ltnW.
have [|s [h1 h2 h3]] := @g2_polymod_list_ok G hn m m0 LIST_NON_UNITS; first by right; split=> //; right.
apply: (lists_of (@C64_num_injective G) h1 h2 _ h3).
  by move=> f; split=> [/andP [? /unitP ?]|[? ?]] //; apply/andP; split=> //; apply/unitP.
exists 0; split; first by rewrite size_poly0 ltnW.
by move/unitP; rewrite coprimep0 => h; move: m1; rewrite (eqp_size h) size_poly1.
Qed.
Theorem C77_f2n_bad : (Z.of_nat n <= 30)%coqZ -> forall (m : {poly L}) ty, m != 0 -> ty = LIST_MULTIPLES \/ ty = LIST_REL_PRIME -> f2n_polymod_list (enc m) ty = Exn.
Proof. by move=> hn m ty m0 h; exact: g2_polymod_bad. Qed.
End G2.

(* ------------------------------------------------------------------ C78 *)
Theorem C78_f2_multiples : forall m g : {poly 'F_2}, m != 0 -> (Z.of_nat (size m).-1 <= 30)%coqZ ->
  lists f2_num (fun f => (size f < size m)%N /\ exists w : {poly 'F_2}, m %| f - w * g) (f2_menc m) (f2_polymod_glist (f2_menc m g) LIST_MULTIPLES).
Proof.
move=> m g m0 hd; have [s [h1 h2 h3]] := f2_glist_ok m0 g LIST_MULTIPLES hd.
apply: (lists_of f2_num_inj h1 h2 _ h3).
  by move=> f; rewrite -multP; split=> [/andP|] // [? ?]; exact/andP.
by exists 0; rewrite size_poly0 size_poly_gt0 m0; split=> //; exists 0; rewrite mul0r subr0 dvdp0.
Qed.
Theorem C78_f2_rel_prime : forall m g : {poly 'F_2}, m != 0 -> (Z.of_nat (size m).-1 <= 30)%coqZ ->
  lists f2_num (fun f => (size f < size m)%N /\ forall d : {poly 'F_2}, d %| m -> d %| g -> d %| f -> d %= 1) (f2_menc m)
    (f2_polymod_glist (f2_menc m g) LIST_REL_PRIME).
Proof.
move=> m g m0 hd; have [s [h1 h2 h3]] := f2_glist_ok m0 g LIST_REL_PRIME hd.
apply: (lists_of f2_num_inj h1 h2 _ h3).
  by move=> f; rewrite -relP; split=> [/andP|] // [? ?]; exact/andP.
exists (1 %% m); rewrite ltn_modp m0; split=> // d dm _ /= hd1.
by rewrite -size_poly_eq1 -dvdp1 (dvdp_mod 1 dm).
Qed.
Theorem C78_f2_bad : forall (m g : {poly 'F_2}) ty, m != 0 -> (Z.of_nat (size m).-1 <= 30)%coqZ ->
  ty = LIST_ALL \/ ty = LIST_UNITS \/ ty = LIST_NON_UNITS -> f2_polymod_glist (f2_menc m g) ty = Exn.
Proof.
move=> m g ty m0 hd h; have [s [h1 h2 ->]] := f2_glist_ok m0 g ty hd.
case: s h1 h2 => //= f s _ h2; have := h2 f; rewrite inE eqxx /= => /esym /andP [_].
by case: h => [|[|]] ->.
Qed.
Theorem C78_int_multiples : forall p g : nat, (g < p)%N -> (Z.of_nat p <= INT_MAX)%coqZ ->
  lists id (fun r => (r < p)%N /\ exists w, ((w * Z.of_nat g) mod Z.of_nat p = Z.of_nat r)%coqZ) (iel p) (intmod_glist (iel p g) LIST_MULTIPLES).
Proof.
move=> p g gp hp; have p0 : (0 < p)%N by case: (p) gp.
have e := intmod_glist_ok p0 hp LIST_MULTIPLES gp.
apply: (lists_of (Q := fun r => (r < p)%N && igpred p g LIST_MULTIPLES r) _ _ _ _ e) => //.
- by rewrite map_id; apply: (sorted_filter ltn_trans); exact: iota_ltn_sorted.
- by move=> r; rewrite mem_filter mem_iota andbC.
- move=> r; split=> [/andP [h1 /Z.eqb_spec h2]|[h1 h2]].
    by split=> //; apply/int_multP.
  by apply/andP; split=> //; apply/Z.eqb_spec/int_multP.
by exists 0%N; split=> //; exists 0%coqZ.
Qed.
Theorem C78_int_rel_prime : forall p g : nat, (g < p)%N -> (Z.of_nat p <= INT_MAX)%coqZ ->
  lists id (fun r => (r < p)%N /\ forall d : nat, (d %| p -> d %| g -> d %| r -> d = 1)%N) (iel p) (intmod_glist (iel p g) LIST_REL_PRIME).
Proof.
move=> p g gp hp; have p0 : (0 < p)%N by case: (p) gp.
have e := intmod_glist_ok p0 hp LIST_REL_PRIME gp.
apply: (lists_of (Q := fun r => (r < p)%N && igpred p g LIST_REL_PRIME r) _ _ _ _ e) => //.
- by rewrite map_id; apply: (sorted_filter ltn_trans); exact: iota_ltn_sorted.
- by move=> r; rewrite mem_filter mem_iota andbC.
- move=> r; split=> [/andP [h1 /Z.eqb_spec h2]|[h1 h2]].
    by split=> //; apply/int_relP.
  by apply/andP; split=> //; apply/Z.eqb_spec/int_relP.
case: (ltngtP 1%N p) => [h|h|<-]; last by exists 0%N; split=> // d; rewrite dvdn1 => /eqP.
  by exists 1%N; split=> // d _ _; rewrite dvdn1 => /eqP.
by move: p0 h; case: (p) => [|[|]].
Qed.
Theorem C78_int_bad : forall (p g : nat) ty, (g < p)%N -> (Z.of_nat p <= INT_MAX)%coqZ ->
  ty = LIST_ALL \/ ty = LIST_UNITS \/ ty = LIST_NON_UNITS -> intmod_glist (iel p g) ty = Exn.
Proof.
move=> p g ty gp hp h; have p0 : (0 < p)%N by case: (p) gp.
rewrite intmod_glist_ok //= (_ : filter _ _ = [::]) //.
by rewrite (_ : igpred p g ty = pred0) ?filter_pred0 //; case: h => [|[|]] ->.
Qed.

(* ------------------------------------------------------------------ C79 *)
(* all_tuples, proj_points: PList8.v *)
Theorem C79_f2_tuples : forall m : {poly 'F_2}, (1 < size m)%N -> (Z.of_nat (size m).-1 <= 30)%coqZ ->
  forall n : nat, (0 < n)%N -> (Z.of_nat n <= INT_MAX)%coqZ ->
  if pow_fits (2 ^ Z.of_nat (size m).-1) (Z.of_nat n)
  then exists S, all_tuples m n S /\ f2_polymod_An_list (f2_enc m) (Z.of_nat n) = Ok (mkmat [seq [seq f2_menc m f | f <- v] | v <- S] n)
  else f2_polymod_An_list (f2_enc m) (Z.of_nat n) = UB.
Proof. by move=> m m1 hd n; exact: f2_An_ok. Qed.
Theorem C79_f2_points : forall m : {poly 'F_2}, irreducible_poly m -> (Z.of_nat (size m).-1 <= 30)%coqZ ->
  forall n : nat, (Z.of_nat n <= INT_MAX)%coqZ -> pow_fits (2 ^ Z.of_nat (size m).-1) (Z.of_nat n) ->
  exists S, proj_points m n S /\ f2_polymod_Pn_list (f2_enc m) (Z.of_nat n) = Ok (mkmat [seq [seq f2_menc m f | f <- v] | v <- S] n.+1).
Proof. by move=> m mi hd n; apply: f2_Pn_ok => //; case: mi. Qed.
Section Fp2.
Variables (p : nat) (c : cache).
Local Notation ok := (prime p /\ (Z.of_nat p <= 46341)%coqZ /\ cache_valid c).
Local Notation enc := (@fp_enc p).
Local Notation menc := (@PropFpPolymod.fp_menc p).
Theorem C79_fp_tuples : ok -> forall m : {poly 'F_p}, (1 < size m)%N -> (Z.of_nat (size m) <= INT_MAX)%coqZ ->
  pow_fits (Z.of_nat p) (Z.of_nat (size m).-1) -> forall n : nat, (0 < n)%N -> (Z.of_nat n <= INT_MAX)%coqZ ->
  if pow_fits (Z.of_nat p ^ Z.of_nat (size m).-1) (Z.of_nat n)
  then exists S, all_tuples m n S /\ fp_polymod_An_list c (enc m) (Z.of_nat n) = Ok (mkmat [seq [seq menc m f | f <- v] | v <- S] n)
  else fp_polymod_An_list c (enc m) (Z.of_nat n) = UB.
Proof. by move=> [pp [hP hc]] m m1 hm hd n; exact: fp_An_ok. Qed.
Theorem C79_fp_points : ok -> forall m : {poly 'F_p}, irreducible_poly m -> (Z.of_nat (size m) <= INT_MAX)%coqZ ->
  pow_fits (Z.of_nat p) (Z.of_nat (size m).-1) -> forall n : nat, (Z.of_nat n <= INT_MAX)%coqZ ->
  pow_fits (Z.of_nat p ^ Z.of_nat (size m).-1) (Z.of_nat n) ->
  exists S, proj_points m n S /\ fp_polymod_Pn_list c (enc m) (Z.of_nat n) = Ok (mkmat [seq [seq menc m f | f <- v] | v <- S] n.+1).
Proof. by move=> [pp [hP hc]] m mi hm hd n hn; apply: fp_Pn_ok => //; case: mi. Qed.
End Fp2.
Theorem C79_f2_bad : forall (m : {poly 'F_2}), m != 0 -> (Z.of_nat (size m).-1 <= 30)%coqZ ->
  f2_polymod_An_list (f2_enc m) 0 = Exn /\ forall n, (n < 0)%coqZ -> f2_polymod_Pn_list (f2_enc m) n = Exn.
Proof.
move=> m m0 hd; split=> [|n hn].
  by rewrite /f2_polymod_An_list (degree_thm (encW m)) bind_ok PF2Tot.ishl1_ok.
have [s [_ _ _ e]] := C47_f2_all m0 hd None.
rewrite /f2_polymod_Pn_list (degree_thm (encW m)) bind_ok PF2Tot.ishl1_ok // bind_ok e bind_ok.
rewrite /pm_prime_subfield_element (f2_encE isP0) (f2_encE isP1) !f2_store_ok // !bind_ok.
by have -> : (n <? 0)%coqZ = true by clear - hn; lia.
Qed.

Definition p2 (r m : N) : fpmod := mkpm [:: r] [:: m].
Example C47_ex :
  f2_poly_list 2 = Ok [:: [:: 4%num]; [:: 5%num]; [:: 6%num]; [:: 7%num]] /\
  f2_polymod_list (Some 1%num) [:: 5%num] LIST_UNITS = Ok [:: p2 1 5; p2 2 5] /\
  f2_polymod_list (Some 1%num) [:: 5%num] LIST_NON_UNITS = Ok [:: p2 0 5; p2 3 5] /\
  intmod_list 6 LIST_UNITS = Ok [:: mkim 1 6; mkim 5 6] /\
  intmod_list 6 LIST_NON_UNITS = Ok [:: mkim 0 6; mkim 2 6; mkim 3 6; mkim 4 6].
Proof. by vm_compute. Qed.
Definition im3 (l : list Z) : list intmod := List.map (fun r => mkim r 3) l.
Definition m3 (r m : list Z) : gmod intmod := mkgm (im3 r) (im3 m).
(* x^2 + 2 = (x + 1)(x + 2) over GF(3); pow_fits fails for 7^12, which fits in 64 bits only, and
   for 7^9, which would fit in 32 bits *)
Example C77_ex :
  pow_fits 3 2 = true /\ pow_fits 7 9 = false /\
  fp_poly_list cache_init 3 1 = Ok [:: im3 [:: 0; 1]; im3 [:: 1; 1]; im3 [:: 2; 1]; im3 [:: 0; 2]; im3 [:: 1; 2]; im3 [:: 2; 2]]%coqZ /\
  fp_polymod_list cache_init (im3 [:: 2; 0; 1]%coqZ) LIST_UNITS =
    Ok [:: m3 [:: 1] [:: 2; 0; 1]; m3 [:: 2] [:: 2; 0; 1]; m3 [:: 0; 1] [:: 2; 0; 1]; m3 [:: 0; 2] [:: 2; 0; 1]]%coqZ /\
  f2n_poly_list [:: 7%num] 0 = Ok [:: e4 [:: 1]; e4 [:: 2]; e4 [:: 3]]%num /\
  f2n_polymod_list (e4 [:: 1; 1]%num) LIST_NON_UNITS = Ok [:: mkgm (e4 [:: 0%num]) (e4 [:: 1; 1]%num)].
Proof. by vm_compute. Qed.
Example C78_ex :
  f2_polymod_glist (p2 3 5) LIST_MULTIPLES = Ok [:: p2 0 5; p2 3 5] /\
  f2_polymod_glist (p2 3 5) LIST_REL_PRIME = Ok [:: p2 1 5; p2 2 5] /\
  intmod_glist (mkim 4 6) LIST_MULTIPLES = Ok [:: mkim 0 6; mkim 2 6; mkim 4 6] /\
  intmod_glist (mkim 4 6) LIST_REL_PRIME = Ok [:: mkim 1 6; mkim 3 6; mkim 5 6].
Proof. by vm_compute. Qed.
Example C79_ex :
  f2_polymod_An_list [:: 2%num] 2 = Ok (mkmat [:: [:: p2 0 2; p2 0 2]; [:: p2 0 2; p2 1 2]; [:: p2 1 2; p2 0 2]; [:: p2 1 2; p2 1 2]] 2) /\
  f2_polymod_Pn_list [:: 7%num] 1 =
    Ok (mkmat [:: [:: p2 1 7; p2 0 7]; [:: p2 0 7; p2 1 7]; [:: p2 1 7; p2 1 7]; [:: p2 2 7; p2 1 7]; [:: p2 3 7; p2 1 7]] 2) /\
  fp_polymod_Pn_list cache_init (im3 [:: 1; 1]%coqZ) 1 =
    Ok (mkmat [:: [:: m3 [:: 1] [:: 1; 1]; m3 [:: 0] [:: 1; 1]]; [:: m3 [:: 0] [:: 1; 1]; m3 [:: 1] [:: 1; 1]];
                  [:: m3 [:: 1] [:: 1; 1]; m3 [:: 1] [:: 1; 1]]; [:: m3 [:: 2] [:: 1; 1]; m3 [:: 1] [:: 1; 1]]]%coqZ 2) /\
  pow_fits 4 1 = true /\ pow_fits 4 12 = false.
Proof. by vm_compute. Qed.
(* the hypotheses of the GF(2) point listing *)
Example C79_ex_hyp : exists m : {poly 'F_2}, irreducible_poly m /\ (Z.of_nat (size m).-1 <= 30)%coqZ /\
  pow_fits (2 ^ Z.of_nat (size m).-1) 3.
Proof. by exists ('X^2 + 'X + 1); split; [exact: PropF2nPoly.p7_irr|rewrite PropF2nPoly.sz7]. Qed.
Print Assumptions C47_f2_poly.
Print Assumptions C47_f2_units.
Print Assumptions C47_int_units.
Print Assumptions C77_fp_poly.
Print Assumptions C77_f2n_units.
Print Assumptions C78_f2_multiples.
Print Assumptions C78_int_rel_prime.
Print Assumptions C79_f2_tuples.
Print Assumptions C79_fp_points.
