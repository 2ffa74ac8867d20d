(* Final theorems for spffl/factorization/f2n_poly_factor.cpp and f2n_poly_totient.cpp:
   polynomials over GF(2^n), n <= 30.  [g2_enc] is as in PropF2nPoly.v. *)
From Verif Require Import Base MIntMath MIntmod MMat MFac MF2Poly MF2Fac MPoly MPolyFac MF2nPoly PFacGen PF2Poly.
From mathcomp Require Import all_ssreflect fingroup perm all_algebra ssrZ.
From mathcomp Require Import finfield separable.
From Verif Require Import PBits3 PF2Poly2 PF2Poly3 PF2Poly4 PMat PFp PPoly PPoly2 PPoly3 PPoly4 PF2n PFacPoly PPolyFac PPolyFac2 PPolyFac3 PIrrGen PPhi PropF2nPoly.
From Verif Require PF2Fac2 PF2Tot PropF2Poly.
Set Implicit Arguments.
Unset Strict Implicit.
Unset Printing Implicit Defensive.
Import GRing.Theory.
Delimit Scope Z_scope with coqZ.
Local Open Scope ring_scope.

(* number of residue classes modulo f that have a multiplicative inverse; the classes are
   represented by the polynomials of degree less than that of f, written as vectors *)
Definition g2_units (G : gf2) (f : {poly gf_L G}) : nat :=
  #|[set v : 'rV[gf_L G]_(size f).-1 | [exists w : 'rV[gf_L G]_(size f).-1, f %| rVpoly v * rVpoly w - 1]]|.

Section T.
Variable G : gf2.
Hypothesis hd : (Z.of_nat (size (gf_m G)).-1 <= 30)%coqZ.
Local Notation L := (gf_L G).
Local Notation V := (Vg (gf_m G)).
Local Notation I := (@Ig L (gf_emb G) (gf_z G)).
Local Notation o := f2n_kops.
Local Notation enc := (@g2_enc G).
Local Notation el := (@gf_el G).
Local Notation F := L.
Let sp : kspec o V I kg := f2n_kspec (gf_irr G) (gf_root G) (gf_card G).
Let fs : fspec V I f2n_facpar (gcst (gf_emb G) (gf_z G)) 2 := f2n_fs (gf_irr G) (gf_root G) (gf_card G) hd.
Lemma dflt x : R V I x 0 -> exists z1, k_int o (k_dflt o) 0 = Ok z1 /\ c_eqb (k_c o) x z1 = Ok false.
Proof. exact: f2n_dflt (gf_irr G) x. Qed.
Lemma kvE x y : V x -> V y -> kg x = kg y -> x = y. Proof. exact: (ks_kv sp). Qed.
Implicit Types f g h : {poly L}.

(* fin describes the factorization of f: the pairs in s are the distinct monic irreducible
   factors with their multiplicities, the unit is the leading coefficient (or absent when
   that is one), and multiplying everything out gives f *)
Definition is_factorization f (fin : facinfo (list fpmod)) : Prop :=
  exists s : seq ({poly L} * nat),
  [/\ facs fin = [seq (enc e.1, Z.of_nat e.2) | e <- s],
      forall g m, (g, m) \in s -> [/\ g \is monic, irreducible_poly g & (0 < m)%N],
      uniq [seq e.1 | e <- s],
      funit fin = Some (enc (lead_coef f)%:P) \/ (funit fin = None /\ lead_coef f = 1)
    & f = lead_coef f *: \prod_(e <- s) e.1 ^+ e.2].

Lemma Forall_mapE (T U : Type) (a b : T -> U) l : List.Forall (fun x => a x = b x) l -> map a l = map b l.
Proof. by elim=> [|x l' h _ IH] //=; rewrite h IH. Qed.
Lemma NoDup_uniq (T : eqType) (l : seq T) : List.NoDup l -> uniq l.
Proof.
elim: l => [//|x l IH] h /=; have [h1 h2] := (List.NoDup_cons_iff x l).1 h; rewrite (IH h2) andbT.
apply/negP => hx; apply: h1; elim: l hx {IH h h2} => [//|y l IH]; rewrite inE => /orP [/eqP ->|h]; first by left.
by right; apply: IH.
Qed.
Lemma mapIn (T : Type) (U : eqType) (a : T -> U) l y : y \in map a l -> exists2 x, List.In x l & y = a x.
Proof.
elim: l => [//|x l IH] /=; rewrite inE => /orP [/eqP ->|/IH [z h ->]]; first by exists x; [left|].
by exists z; [right|].
Qed.
Lemma t_factor f : f != 0 -> (Z.of_nat (size f) <= INT_MAX)%coqZ ->
  exists fin, f2n_factor (enc f) = Ok fin /\ is_factorization f fin.
Proof.
move=> f0 hm; have [fin [e [h1 h2 h3 h4]]] := factor_ok sp dflt (@kglt G) (@kg0 G) fs (encG f) f0 hm.
exists fin; split=> //; exists [seq (Gp I e.1, Z.to_nat e.2) | e <- facs fin]; split.
- rewrite -map_comp -[LHS]map_id; apply: Forall_mapE; apply/List.Forall_forall => -[l m] hin.
  have [k1 _ _ k4] := h1 _ _ hin; rewrite /= -(Genc k1) Z2Nat.id //; move: k4; clear; lia.
- move=> g m /mapIn [[l n] hin' [-> ->]].
  have [k1 k2 k3 k4] := h1 _ _ hin'; split=> //; apply/ltP; move: k4; clear; lia.
- rewrite -map_comp; exact: NoDup_uniq h2.
- by case: (funit fin) h3 => [u /(Genc) ->|->]; [left | right].
- by rewrite big_map -[LHS]h4.
Qed.
Lemma t_factor0 : f2n_factor (enc 0) = Ok (mkfac [::] (Some (enc 0))).
Proof. exact: (factor_0 sp _ (encG 0)). Qed.
Lemma t_irreducible f : (Z.of_nat (size f) <= INT_MAX)%coqZ ->
  exists b, f2n_is_irreducible (enc f) = Ok b /\ (b = true <-> irreducible_poly f).
Proof. move=> hm; exact: (irreducible_ok sp dflt (@kglt G) (@kg0 G) fs (encG f) hm). Qed.

Lemma t_find lm d : isP lm (gf_m G) -> (1 < d)%N -> (Z.of_nat d < INT_MAX)%coqZ -> exists f,
  [/\ f2n_find_irr lm (Z.of_nat d) = Ok (enc f), size f = d.+1, f \is monic, irreducible_poly f &
      forall g, size g = d.+1 -> irreducible_poly g -> (g2_num f <= g2_num g)%N].
Proof.
move=> hlm h1 hm; have [t [ht1 ht2 ht3]] := irr_exists_gen [finFieldType of L] (ltnW h1).
rewrite /f2n_find_irr.
have [zero [-> hz]] := V_int (gf_irr G) (gf_root G) 0 hlm; have [one [-> ho]] := V_int (gf_irr G) (gf_root G) 1 hlm; rewrite !bind_ok.
rewrite (degree_thm (isP_W hlm)) bind_ok.
have [||r [f [er hr hs [mf irf] hmin]]] := @find_ok _ _ _ _ _ _ sp dflt (@kglt G) (@kg0 G) _ _ _ fs (@knext G) (@kg1 G) kvE zero one d
    (S (Nat.pow (Nat.pow 2 (size (gf_m G)).-1) (Z.to_nat (Z.of_nat d)))) _ _ hz ho h1 _ _ (encG t) ht1 ht2 ht3.
- by move: hm; clear; lia.
- rewrite gf_card Nat2Z.id; have pw a b : Nat.pow a b = (a ^ b)%N by elim: b => [|k IH] //=; rewrite IH expnS.
  by rewrite !pw.
exists f; rewrite er (Genc hr); split=> // g k1 k2.
have := hmin _ _ (encG g) k1 k2; rewrite (Genc hr).
have [_ [_ [-> _]]] := t_cmp g f; case=> /negbT; by rewrite -leqNgt.
Qed.
Lemma t_find_low lm v : isP lm (gf_m G) -> (v < 1)%coqZ -> f2n_find_irr lm v = Exn.
Proof.
move=> hlm h; rewrite /f2n_find_irr.
have [zero [-> hz]] := V_int (gf_irr G) (gf_root G) 0 hlm; have [one [-> ho]] := V_int (gf_irr G) (gf_root G) 1 hlm; rewrite !bind_ok.
rewrite (degree_thm (isP_W hlm)) bind_ok /gp_find_irr.
have [l0 [-> h0]] := const_ok sp hz; rewrite bind_ok polyC0 in h0 *.
rewrite (Genc h0) (Rel ho) t_set.
case: ifP => // _; rewrite bind_ok.
by have -> : (v <? 1)%coqZ = true by apply/Z.ltb_lt.
Qed.

Lemma units_phi f : f != 0 -> g2_units f = phi f.
Proof.
move=> f0; rewrite /g2_units /phi; apply: eq_card => v; rewrite !inE.
apply/existsP/idP => [[w hw]|hcp].
  apply/Bezout_eq1_coprimepP; have /dvdpP [u hu] := hw.
  exists (- u, rVpoly w) => /=; rewrite mulNr -hu opprB addrC [rVpoly w * _]mulrC addrCA subrr addr0 //.
have [[a b] /= hab] := Bezout_eq1_coprimepP _ _ hcp.
exists (poly_rV (b %% f)); rewrite poly_rV_K; last by apply: (rV_mod (F := F)).
rewrite /dvdp modpD modpN modp_mul -modpN -modpD -/(dvdp _ _).
apply/dvdpP; exists (- a); by rewrite -hab [b * _]mulrC opprD addrC subrK mulNr.
Qed.
Lemma Zcard k : Z.of_nat (#|L| ^ k)%N = (2 ^ (Z.of_nat (size (gf_m G)).-1 * Z.of_nat k))%coqZ.
Proof. by rewrite gf_card -expnM PF2Tot.Zpow_nat -multE Nat2Z.inj_mul. Qed.
Lemma t_totient f : f != 0 -> (2 * (Z.of_nat (size (gf_m G)).-1 * Z.of_nat (size f).-1) <= 30)%coqZ ->
  f2n_totient (enc f) = Ok (Z.of_nat (g2_units f)).
Proof.
move=> f0 hm; rewrite (units_phi f0); apply: (totient_ok sp dflt (@kglt G) (@kg0 G) fs (encG f) f0).
rewrite Zcard /INT_MAX -multE Nat2Z.inj_mul.
have h := Z.pow_le_mono_r 2 (Z.of_nat (size (gf_m G)).-1 * (Z.of_nat 2 * Z.of_nat (size f).-1)) 30 ltac:(lia) ltac:(lia).
by apply: Z.le_trans h _; vm_compute.
Qed.
Lemma t_totient_irr f : irreducible_poly f -> (Z.of_nat (size f) <= INT_MAX)%coqZ ->
  f2n_totient (enc f) =
    if (2 ^ (Z.of_nat (size (gf_m G)).-1 * 2 ^ (Z.log2 (Z.of_nat (size f).-1) + 1)) <=? INT_MAX)%coqZ
    then Ok (2 ^ (Z.of_nat (size (gf_m G)).-1 * Z.of_nat (size f).-1) - 1)%coqZ else UB.
Proof.
move=> hi hm; have := totient_irr sp dflt (@kglt G) (@kg0 G) fs (encG f) hi hm.
have -> : Z.of_nat #|L| = (2 ^ Z.of_nat (size (gf_m G)).-1)%coqZ by rewrite -[#|L|]expn1 Zcard Z.mul_1_r.
rewrite -!Z.pow_mul_r //; try lia.
Qed.

(* the distinct roots *)
Definition lroots (s : seq ({poly L} * nat)) : seq L :=
  map (fun e => - (e.1 : {poly L})`_0) (filter (fun e => size (e.1 : {poly L}) == 2%N) s).
Lemma roots_loop_ok (s : seq ({poly L} * nat)) : (forall g v, (g, v) \in s -> g \is monic) ->
  f2n_roots_loop [seq (enc e.1, Z.of_nat e.2) | e <- s] = Ok (map el (lroots s)).
Proof.
elim: s => [//|[g v] s IH] hs; rewrite /= (degG (encG g)).
have hg : g \is monic by apply: (hs g v); rewrite inE eqxx.
have {}IH : f2n_roots_loop [seq (enc e.1, Z.of_nat e.2) | e <- s] = Ok (map el (lroots s)).
  by apply: IH => g' v' h; apply: (hs g' v'); rewrite inE h orbT.
have -> : Nat.eqb (size g).-1 1 = (size g == 2%N).
  by case: (size g) => [|[|[|k]]].
rewrite /lroots /=; case: eqP => hsz //; rewrite !t_get /=.
have c1 : g`_1 = 1 by move/monicP: hg; rewrite /lead_coef hsz.
have [n [en [vn hn]]] := cs_neg (ks_c sp) (elR g`_0).1; rewrite /= in en; rewrite en bind_ok.
have [|r [er hr]] := cs_div (ks_c sp) vn (elR g`_1).1; first by rewrite (elR _).2 c1 oner_neq0.
rewrite /= in er; rewrite er bind_ok IH bind_ok; congr (Ok (_ :: _)); apply: Rel.
by move: hr; rewrite hn !(elR _).2 c1 divr1.
Qed.
Lemma root_prod (s : seq ({poly L} * nat)) a : (forall g v, (g, v) \in s -> (0 < v)%N) ->
  root (\prod_(e <- s) e.1 ^+ e.2) a = has (fun e => root e.1 a) s.
Proof.
elim: s => [|[g v] s IH] hs; first by rewrite big_nil /root hornerC oner_eq0.
rewrite big_cons rootM /= IH; last by move=> g' v' h; apply: (hs g' v'); rewrite inE h orbT.
have : (0 < v)%N by apply: (hs g v); rewrite inE eqxx.
by move=> v0; rewrite /root horner_exp expf_eq0 v0.
Qed.
Lemma t_roots f : f != 0 -> (Z.of_nat (size f) <= INT_MAX)%coqZ ->
  exists s : seq L, [/\ f2n_roots (enc f) = Ok (if s is [::] then None else Some [seq el a | a <- s]), uniq s &
    forall a, (a \in s) = root f a].
Proof.
move=> f0 hm; have [fin [e [s [h1 h2 h3 h4 h5]]]] := t_factor f0 hm.
have hmon g v : (g, v) \in s -> g \is monic by case/h2.
exists (lroots s); split.
- rewrite /f2n_roots e bind_ok h1 (roots_loop_ok hmon) bind_ok.
  by case: (lroots s).
- rewrite /lroots map_inj_in_uniq; first by apply: filter_uniq; apply: (map_uniq h3).
  move=> [g v] [g' v']; rewrite !mem_filter /= => /andP [/eqP k1 i1] /andP [/eqP k2 i2] /oppr_inj k0.
  have lin (x : {poly L}) : x \is monic -> size x = 2%N -> x = 'X + (x`_0)%:P.
    move=> /monicP xm xs; apply/polyP=> -[|[|j]]; rewrite coefD coefX coefC /= ?add0r ?addr0 //.
      by rewrite -[RHS]xm /lead_coef xs.
    by rewrite nth_default ?xs.
  have eg : g = g' by rewrite (lin g (hmon _ _ i1) k1) (lin g' (hmon _ _ i2) k2) k0.
  congr pair => //; rewrite -eg in i2 => {k0 k1 k2 g' eg}.
  elim: s h3 i1 i2 {h1 h2 h5 hmon} => [//|[x y] s IH] /= /andP [hx hu]; rewrite !inE => /orP [/eqP [e1 e2]|i1] /orP [/eqP [e3 e4]|i2].
  + by rewrite e2 e4.
  + by case/negP: hx; rewrite -e1; apply/mapP; exists (g, v').
  + by case/negP: hx; rewrite -e3; apply/mapP; exists (g, v).
  + exact: IH.
move=> a; rewrite {1}h5 rootZ ?lead_coef_eq0 // root_prod; last by move=> g v /h2 [].
apply/mapP/hasP => [[[g v]]|[[g v] hg hr]].
  rewrite mem_filter /= => /andP [/eqP hs hg] ->; exists (g, v) => //=.
  have /monicP hl := hmon _ _ hg; rewrite /root horner_coef hs !big_ord_recl big_ord0 /= expr0 mulr1 addr0 expr1.
  by move: hl; rewrite /lead_coef hs /= => ->; rewrite mul1r subrr.
have [hgm [hg1 hgi] _] := h2 _ _ hg.
have hs : size g = 2%N.
  have : 'X - a%:P %| g by rewrite -root_factor_theorem.
  move/hgi; rewrite size_XsubC => /(_ isT) /eqp_size; by rewrite size_XsubC.
exists (g, v); rewrite ?mem_filter /= ?hs ?hg //.
move/monicP: hgm; rewrite /lead_coef hs /= => hl.
move: hr; rewrite /root horner_coef hs !big_ord_recl big_ord0 /= expr0 mulr1 addr0 expr1 hl mul1r addrC addr_eq0 => /eqP <- //.
Qed.
End T.

Section Final.
Variable G : gf2.
Hypothesis hd : (Z.of_nat (size (gf_m G)).-1 <= 30)%coqZ.
Local Notation L := (gf_L G).
Local Notation enc := (@g2_enc G).
Local Notation el := (@gf_el G).

(* C68 *)
Theorem C68_factor_partial : forall f : {poly L}, f != 0 -> (Z.of_nat (size f) <= INT_MAX)%coqZ ->
  exists fin, f2n_factor (enc f) = Ok fin /\ is_factorization f fin.
Proof. exact: (t_factor hd). Qed.
(* zero: no factors, unit zero *)
Theorem C68_factor_zero : f2n_factor (enc 0) = Ok (mkfac [::] (Some (enc 0))).
Proof. exact: t_factor0. Qed.
Theorem C68_is_irreducible_partial : forall f : {poly L}, (Z.of_nat (size f) <= INT_MAX)%coqZ ->
  exists b, f2n_is_irreducible (enc f) = Ok b /\ (b = true <-> irreducible_poly f).
Proof. exact: (t_irreducible hd). Qed.
(* the roots in the coefficient field, each once; false if there are none *)
Theorem C68_roots_partial : forall f : {poly L}, f != 0 -> (Z.of_nat (size f) <= INT_MAX)%coqZ ->
  exists s : seq L, [/\ f2n_roots (enc f) = Ok (if s is [::] then None else Some [seq el a | a <- s]), uniq s &
    forall a, (a \in s) = root f a].
Proof. exact: (t_roots hd). Qed.

(* C69 *)
Theorem C69_find_irr_partial : forall lm, isP lm (gf_m G) ->
  forall d, (1 < d)%N -> (Z.of_nat d < INT_MAX)%coqZ -> exists f : {poly L},
  [/\ f2n_find_irr lm (Z.of_nat d) = Ok (enc f), size f = d.+1, f \is monic, irreducible_poly f &
      forall g : {poly L}, size g = d.+1 -> irreducible_poly g -> (g2_num f <= g2_num g)%N].
Proof. move=> lm hlm d; exact: (t_find hd hlm). Qed.
Theorem C69_find_irr_nonpositive : forall lm, isP lm (gf_m G) ->
  forall d, (d < 1)%coqZ -> f2n_find_irr lm d = Exn.
Proof. move=> lm hlm d; exact: (t_find_low hlm). Qed.

(* C70 *)
Theorem C70_totient_partial : forall f : {poly L}, f != 0 ->
  (2 * (Z.of_nat (size (gf_m G)).-1 * Z.of_nat (size f).-1) <= 30)%coqZ ->
  f2n_totient (enc f) = Ok (Z.of_nat (g2_units f)).
Proof. exact: (t_totient hd). Qed.
(* an irreducible polynomial of degree d over GF(2^n): 2^(n*d) - 1 if
   2^(n*2^(floor(log2 d)+1)) is representable, undefined behaviour otherwise *)
Theorem C70_totient_irreducible : forall f : {poly L}, irreducible_poly f -> (Z.of_nat (size f) <= INT_MAX)%coqZ ->
  f2n_totient (enc f) =
    if (2 ^ (Z.of_nat (size (gf_m G)).-1 * 2 ^ (Z.log2 (Z.of_nat (size f).-1) + 1)) <=? INT_MAX)%coqZ
    then Ok (2 ^ (Z.of_nat (size (gf_m G)).-1 * Z.of_nat (size f).-1) - 1)%coqZ else UB.
Proof. exact: (t_totient_irr hd). Qed.
End Final.

(* degree 1: the search returns x + 1 although x is lower and irreducible *)
Lemma el_word (G : gf2) (w : N) (r : {poly 'F_2}) : gf_m G = 'X^2 + 'X + 1 -> isP [:: w] r -> (size r < 3)%N ->
  gf_el (map_poly (gf_emb G) r).[gf_z G] = mkpm [:: w] [:: 7%num].
Proof.
move=> hG hw hs; symmetry; apply: (C62_elements G).2; split=> //=; rewrite hG; split; first exact: PropF2Poly.p7.
by rewrite sz7.
Qed.
Theorem C69_find_irr_degree1_refuted : exists (G : gf2) lm (r : list fpmod) (g : {poly gf_L G}),
  [/\ isP lm (gf_m G), f2n_find_irr lm 1 = Ok r, size g = 2%N, irreducible_poly g &
      gp_ltb f2n_kops (g2_enc g) r = Ok true].
Proof.
have [G hG] := C62_field p7_irr; exists G, [:: 7%num], (e4 [:: 1; 1]%num), 'X; split.
- by rewrite hG; exact: PropF2Poly.p7.
- by vm_compute.
- exact: size_polyX.
- by apply: PF2Fac2.lin_irr; rewrite size_polyX.
have e0 : gf_el (0 : gf_L G) = mkpm [:: 0%num] [:: 7%num].
  by have := el_word hG isP0; rewrite size_poly0 map_polyC /= rmorph0 horner0 => ->.
have e1 : gf_el (1 : gf_L G) = mkpm [:: 1%num] [:: 7%num].
  by have := el_word hG isP1; rewrite size_poly1 rmorph1 hornerC => ->.
by rewrite /g2_enc polyX_eq0 polyseqX /= e0 e1; vm_compute.
Qed.
(* the totient of an irreducible quadratic over GF(2^8) is representable but not computed *)
Theorem C70_totient_refuted : exists (G : gf2) (f : {poly gf_L G}), size (gf_m G) = 9%N /\ irreducible_poly f /\
  size f = 3%N /\ f2n_totient (g2_enc f) = UB.
Proof.
have [m [m1 _ m2]] := irr_exists_gen (Fp_finFieldType 2) (isT : (0 < 8)%N).
have [G hG] := C62_field m2.
have [f [h1 _ h2]] := irr_exists_gen [finFieldType of gf_L G] (isT : (0 < 2)%N).
exists G, f; rewrite hG; split; first exact: m1.
split; first exact: h2. split; first exact: h1.
rewrite C70_totient_irreducible //.
- by rewrite hG m1 h1; vm_compute.
- by rewrite hG m1; vm_compute.
- by rewrite h1; vm_compute.
Qed.
(* for n >= 32 the field size 1 << n is undefined *)
Theorem C70_totient_field_refuted : forall G : gf2, (31 < Z.of_nat (size (gf_m G)).-1)%coqZ ->
  forall f : {poly gf_L G}, f2n_totient (g2_enc f) = UB.
Proof.
move=> G hd f; rewrite /f2n_totient /gp_totient /= /f2n_q; have [x0 [e0 [[r0 hr0] _]]] := isG_get0 (encG f).
rewrite e0 bind_ok (degree_thm (isP_W hr0.2.1)) bind_ok /ishl1.
by have -> : ((Z.of_nat (size (gf_m G)).-1 <? 0) || (31 <? Z.of_nat (size (gf_m G)).-1))%coqZ = true by lia.
Qed.

(* over GF(4): z (x+1)^2 (x^2+x+z); over GF(8): (x+z)^8 *)
Example C68_ex :
  f2n_factor (e4 [:: 3; 2; 1; 2; 2]%num) =
    Ok (mkfac [:: (e4 [:: 1; 1]%num, 2%coqZ); (e4 [:: 2; 1; 1]%num, 1%coqZ)] (Some (e4 [:: 2%num]))) /\
  f2n_factor (e8 [:: 2; 0; 0; 0; 0; 0; 0; 0; 1]%num) = Ok (mkfac [:: (e8 [:: 2; 1]%num, 8%coqZ)] None) /\
  f2n_is_irreducible (e4 [:: 2; 1; 1]%num) = Ok true /\
  f2n_is_irreducible (e4 [:: 1; 1; 1]%num) = Ok false /\
  f2n_roots (e4 [:: 1; 1; 1]%num) = Ok (Some (e4 [:: 2; 3]%num)) /\
  f2n_roots (e4 [:: 2; 1; 1]%num) = Ok None.
Proof. by vm_compute. Qed.
Example C69_ex : f2n_find_irr [:: 7%num] 2 = Ok (e4 [:: 2; 1; 1]%num) /\
  f2n_find_irr [:: 7%num] 0 = Exn /\ f2n_find_irr [:: 7%num] 1 = Ok (e4 [:: 1; 1]%num).
Proof. by vm_compute. Qed.
Example C70_ex : f2n_totient (e4 [:: 2; 1; 1]%num) = Ok 15%coqZ /\
  f2n_totient (e4 [:: 3; 2; 1; 2; 2]%num) = Ok 180%coqZ /\
  exists G : gf2, (2 * (Z.of_nat (size (gf_m G)).-1 * 4) <= 30)%coqZ.
Proof.
split; first by vm_compute. split; first by vm_compute.
by have [G hG] := C62_field p7_irr; exists G; rewrite hG sz7; vm_compute.
Qed.

Print Assumptions C68_factor_partial.
Print Assumptions C68_is_irreducible_partial.
Print Assumptions C68_roots_partial.
Print Assumptions C69_find_irr_partial.
Print Assumptions C69_find_irr_degree1_refuted.
Print Assumptions C70_totient_partial.
Print Assumptions C70_totient_irreducible.
Print Assumptions C70_totient_refuted.
