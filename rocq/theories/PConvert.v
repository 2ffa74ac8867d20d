(* Changing from one modulus to another: f2_polymod_convert.cpp. *)
From Verif Require Import Base MIntMath MMat MF2Poly MPoly MUnits MF2nPoly MLinalg MConvert PF2Poly PUnits.
From Coq Require Import Permutation Sorted.
From mathcomp Require Import all_ssreflect fingroup perm all_algebra ssrZ finfield.
From Verif Require Import PMat PMat2 PFp PBits3 PF2Poly2 PF2Poly4 PPoly PPoly2 PPoly3 PF2n PF2Log PLinalg PLinalg2 PMinPoly.
From Verif Require PList PropF2nPoly PropF2nFac PropLinalg PMinPoly2.
Set Implicit Arguments.
Unset Strict Implicit.
Unset Printing Implicit Defensive.
Import GRing.Theory.
Delimit Scope Z_scope with coqZ.
Local Open Scope ring_scope.
Local Notation F2 := [finFieldType of 'F_2].
Local Notation enc := PropF2nPoly.g2_enc.

(* P is the minimal polynomial over GF(2) of the element a *)
Definition min_over (G : gf2) (a : gf_L G) (P : {poly 'F_2}) : Prop :=
  forall g : {poly 'F_2}, root (map_poly (gf_emb G) g) a = (P %| g).

Section One.
Variable G : gf2.
Local Notation L := (gf_L G).
Local Notation emb := (gf_emb G).
Local Notation n := (size (gf_m G)).-1.

Lemma minL (a : L) : exists P : {poly 'F_2}, [/\ P \is monic, irreducible_poly P, min_over a P, ((size P).-1 %| n)%N &
  a ^+ (2 ^ (size P).-1) = a /\ forall k, (0 < k)%N -> a ^+ (2 ^ k) = a -> ((size P).-1 <= k)%N].
Proof.
have [r hr er] := gf_elP a.
have [P [hP Pi dn hd dmin]] := minpoly_ex (F := F2) (gf_irr G) r.
have c2 : #|F2| = 2%N by rewrite card_Fp.
rewrite c2 in hd dmin; exists P; split=> //; first by case: hP.
  by move=> g; exact: (root_P er hP).
split; first exact: (pow_d er hd).
move=> k k0 hk; apply: dmin => //; apply/eqP; rewrite -(pow_a er) hk //.
Qed.
Lemma min_uniq (a : L) P Q : P \is monic -> Q \is monic -> min_over a P -> min_over a Q -> P = Q.
Proof.
move=> mP mQ h1 h2; apply/eqP; rewrite -eqp_monic //; apply/andP; split.
  by rewrite -h1 h2 dvdpp.
by rewrite -h2 h1 dvdpp.
Qed.
Lemma emb_root P (a : L) : min_over a P -> root (map_poly emb P) a.
Proof. by move=> ->; exact: dvdpp. Qed.
(* a polynomial irreducible over GF(2) with a root in L: the root determines it *)
Lemma irr_min P (b : L) : irreducible_poly P -> P \is monic -> root (map_poly emb P) b -> min_over b P.
Proof.
move=> Pi mP hb; have [Q [mQ Qi hQ _ _]] := minL b.
have dQ : Q %| P by rewrite -hQ.
case: Pi => sP /(_ Q) h; have sQ : size Q != 1%N by case: Qi => sQ _; rewrite neq_ltn sQ orbT.
suff -> : P = Q by [].
by apply/eqP; rewrite -eqp_monic // eqp_sym; exact: h.
Qed.

(* the roots of such a polynomial are the d conjugates of one of them *)
Lemma count_roots P (b : L) (s : seq L) : irreducible_poly P -> P \is monic -> root (map_poly emb P) b ->
  uniq s -> (forall a, (a \in s) = root (map_poly emb P) a) -> size s = (size P).-1 /\ ((size P).-1 %| n)%N.
Proof.
move=> Pi mP hb us hs; have [Q [mQ _ hQ dn [pd dmin]]] := minL b.
have eQ : Q = P by apply: (min_uniq mQ mP hQ); exact: irr_min.
rewrite eQ in dn pd dmin; split=> //; apply/eqP; rewrite eqn_leq; apply/andP; split.
  have P0 : map_poly emb P != 0 by rewrite map_poly_eq0 monic_neq0.
  have := max_poly_roots P0 _ us; rewrite size_map_poly => h.
  rewrite -ltnS prednK ?size_poly_gt0 ?monic_neq0 //; apply: h; apply/allP => a; by rewrite hs.
have ub : uniq [seq b ^+ (2 ^ k) | k <- iota 0 (size P).-1].
  rewrite map_inj_in_uniq ?iota_uniq // => i j; rewrite !mem_iota !add0n /=.
  have W i' j' : (i' < j')%N -> (j' < (size P).-1)%N -> b ^+ (2 ^ i') != b ^+ (2 ^ j').
    move=> hij hj; apply/eqP => e.
    have /dmin : b ^+ (2 ^ (j' - i')) = b.
      have F2i c k : (c : L) ^+ (2 ^ k) = b ^+ (2 ^ k) -> c = b.
        move/eqP; rewrite -subr_eq0; elim: k c => [|k IH] c; first by rewrite !expr1 subr_eq0 => /eqP.
        have D2 (u v : L) : u ^+ 2 - v ^+ 2 = (u - v) ^+ 2.
          by rewrite -!(Frobenius_autE (char2L G)) rmorphB.
        by rewrite expnSr !exprM D2 expf_eq0 => /andP [_ /IH].
      apply: (@F2i _ i'); rewrite -exprM -expnD subnK ?e // ltnW //.
    rewrite subn_gt0 => /(_ hij); rewrite leqNgt; apply/negP; rewrite negbK.
    by apply: leq_ltn_trans hj; exact: leq_subr.
  move=> hi hj e; case: (ltngtP i j) => // h.
    by have := W _ _ h hj; rewrite e eqxx.
  by have := W _ _ h hi; rewrite e eqxx.
have := uniq_leq_size ub (s2 := s); rewrite size_map size_iota; apply.
by move=> a /mapP [k _ ->]; rewrite hs; apply: frob_root.
Qed.
End One.

(* ---- the roots in another field *)
Lemma has_root (G1 G2 : gf2) (a : gf_L G1) (P : {poly 'F_2}) : min_over a P -> P \is monic -> irreducible_poly P ->
  ((size P).-1 %| (size (gf_m G2)).-1)%N -> exists b : gf_L G2, root (map_poly (gf_emb G2) P) b.
Proof.
move=> hP mP Pi /dvdnP [k ek]; set n := (size (gf_m G2)).-1 in ek.
have [Q [mQ _ hQ _ [pd _]]] := minL a.
have eQ : Q = P by exact: (min_uniq mQ mP hQ hP).
rewrite eQ in pd.
have an : a ^+ (2 ^ n) = a.
  rewrite ek mulnC; elim: k {ek} => [|k IH]; first by rewrite muln0 expr1.
  by rewrite mulnS expnD exprM pd.
have dP : P %| 'X^(2 ^ n) - 'X.
  by rewrite -hP rmorphB /= map_polyXn map_polyX rootE hornerD hornerN hornerXn hornerX an subrr.
have : map_poly (gf_emb G2) P %| \prod_(x : gf_L G2) ('X - x%:P).
  rewrite -finField_genPoly gf_card -/n; have : map_poly (gf_emb G2) P %| map_poly (gf_emb G2) ('X^(2 ^ n) - 'X) by rewrite dvdp_map.
  by rewrite rmorphB /= map_polyXn map_polyX.
have sP : (1 < size (map_poly (gf_emb G2) P))%N by rewrite size_map_poly; case: Pi.
move=> hd.
have [//|hn] := boolP [exists b, root (map_poly (gf_emb G2) P) b]; first by move/existsP.
have : coprimep (map_poly (gf_emb G2) P) (\prod_(x : gf_L G2) ('X - x%:P)).
  rewrite coprimep_sym; elim/big_ind: _ => [|p q h1 h2|x _]; first exact: coprime1p.
    by rewrite coprimepMl h1.
  rewrite coprimep_sym coprimep_XsubC; apply: contra hn => h; apply/existsP; by exists x.
rewrite coprimep_def => /eqP e; have : map_poly (gf_emb G2) P %| gcdp (map_poly (gf_emb G2) P) (\prod_(x : gf_L G2) ('X - x%:P)).
  by rewrite dvdp_gcd dvdpp.
move/dvdp_leq; rewrite -size_poly_eq0 e => /(_ isT); by rewrite leqNgt sP.
Qed.

(* ---- the field homomorphism that sends a generator to a root of its minimal polynomial *)
Section Hom.
Variables (G1 G2 : gf2) (g1 : gf_L G1) (g2 : gf_L G2) (P : {poly 'F_2}).
Local Notation L1 := (gf_L G1).
Local Notation L2 := (gf_L G2).
Local Notation e1 := (gf_emb G1).
Local Notation e2 := (gf_emb G2).
Hypothesis gen : forall a : L1, a != 0 -> exists e, a = g1 ^+ e.
Hypothesis hP : min_over g1 P.
Hypothesis r2 : root (map_poly e2 P) g2.
Lemma gen' (a : L1) : exists r : {poly 'F_2}, (map_poly e1 r).[g1] == a.
Proof.
have [->|a0] := eqVneq a 0; first by exists 0; rewrite rmorph0 horner0.
by have [e ->] := gen a0; exists 'X^e; rewrite map_polyXn hornerXn.
Qed.
Definition phi_def (a : L1) : L2 := (map_poly e2 (xchoose (gen' a))).[g2].
Lemma phi_eval r : phi_def (map_poly e1 r).[g1] = (map_poly e2 r).[g2].
Proof.
rewrite /phi_def; set s := xchoose _.
have /eqP es : (map_poly e1 s).[g1] == (map_poly e1 r).[g1] by exact: (xchooseP (gen' _)).
have : root (map_poly e1 (s - r)) g1 by rewrite rmorphB rootE hornerD hornerN es subrr.
rewrite hP => /dvdpP [q eq]; apply/eqP; rewrite -subr_eq0 -hornerN -hornerD -rmorphB eq rmorphM hornerM.
by move/eqP: r2 => ->; rewrite mulr0.
Qed.
Lemma phi_add : additive phi_def.
Proof.
move=> a b; have [r /eqP <-] := gen' a; have [s /eqP <-] := gen' b.
by rewrite -hornerN -hornerD -rmorphB !phi_eval rmorphB hornerD hornerN.
Qed.
Lemma phi_mul : multiplicative phi_def.
Proof.
split; last by have := phi_eval 1; rewrite !rmorph1 !hornerC.
move=> a b; have [r /eqP <-] := gen' a; have [s /eqP <-] := gen' b.
by rewrite -hornerM -rmorphM !phi_eval rmorphM hornerM.
Qed.
Definition phi : {rmorphism L1 -> L2} := RMorphism (GRing.RMorphism.Class phi_add phi_mul).
Lemma phi_g : phi g1 = g2.
Proof. by rewrite /= -[in LHS](hornerX g1) -(map_polyX e1) phi_eval map_polyX hornerX. Qed.
End Hom.


Lemma In_map (T : eqType) (B : Type) (f : T -> B) (s : seq T) y : In y [seq f a | a <- s] <-> exists2 a, a \in s & y = f a.
Proof.
elim: s => [|x s IH] /=; first by split=> // -[].
split=> [[<-|/IH [a ha ->]]|[a]]; [by exists x; rewrite ?mem_head|by exists a; rewrite // inE ha orbT|].
by rewrite inE => /orP [/eqP -> ->|ha ey]; [left|right; apply/IH; exists a].
Qed.

(* what is assumed of tvector::sort *)
Definition vsorts (V : fpmod -> Prop) (qsv : list fpmod -> list fpmod) : Prop :=
  forall l, (forall x, In x l -> V x) ->
    Permutation l (qsv l) /\ StronglySorted (fun x y => pm_ltb y x = Ok false) (qsv l).

Lemma mapseq (F K : fieldType) (e : {rmorphism F -> K}) (f : {poly F}) : polyseq (map_poly e f) = [seq e c | c <- polyseq f].
Proof.
apply: (@eq_from_nth _ 0); rewrite size_map_poly ?size_map // => i hi.
by rewrite coef_map (nth_map 0).
Qed.

Lemma mapM_enum (T : Type) n (g : nat -> res T) (h : 'I_n -> T) : (forall j : 'I_n, g j = Ok (h j)) ->
  mapM g (List.seq 0 n) = Ok [seq h j | j <- enum 'I_n].
Proof.
move=> hg; have -> : List.seq 0 n = [seq val j | j <- enum 'I_n].
  by rewrite val_enum_ord; elim: n 0%N {h hg} => [|n IH] i //=; rewrite IH.
by elim: (enum 'I_n) => [|j e IH] //=; rewrite hg bind_ok IH.
Qed.
Lemma tab_mx (T : Type) (U : ringType) (en : U -> T) m n (A : 'M[U]_(m, n)) (f : nat -> nat -> res T) : (0 < m)%N -> (0 < n)%N ->
  (forall (i : 'I_m) (j : 'I_n), f i j = Ok (en (A i j))) -> MMat.tab m n f = Ok (mx_enc en A).
Proof.
move=> hm hn hf; rewrite /MMat.tab !eqbE !gtn_eqF //=.
by rewrite (@mapM_enum _ m _ (fun i => [seq en (A i j) | j <- enum 'I_n])) // => i; apply: mapM_enum => j; exact: hf.
Qed.
Lemma el_mx (T : Type) (U : ringType) (en : U -> T) m n (A : 'M[U]_(m, n)) (i : 'I_m) (j : 'I_n) :
  MMat.el (t_rows (mx_enc en A)) i j = Ok (en (A i j)).
Proof.
rewrite /MMat.el /rowat (nth_error_nth' [seq en (A i j) | j <- enum 'I_n]); last by rewrite size_map size_enum_ord.
rewrite bind_ok (nth_map i) ?size_enum_ord // nth_ord_enum /elt (nth_error_nth' (en (A i j))); last by rewrite size_map size_enum_ord.
by rewrite (nth_map j) ?size_enum_ord // nth_ord_enum.
Qed.

Section Code.
Variables (G1 G2 : gf2).
Local Notation L1 := (gf_L G1).
Local Notation L2 := (gf_L G2).
Local Notation e1 := (gf_emb G1).
Local Notation e2 := (gf_emb G2).
Local Notation m1 := (gf_m G1).
Local Notation m2 := (gf_m G2).
Let sp2 : kspec f2n_kops (Vg m2) (@Ig L2 e2 (gf_z G2)) kg := f2n_kspec (gf_irr G2) (gf_root G2) (gf_card G2).
Let sp1 : kspec f2n_kops (Vg m1) (@Ig L1 e1 (gf_z G1)) kg := f2n_kspec (gf_irr G1) (gf_root G1) (gf_card G1).

Lemma change_el lm c : isP lm m2 -> pm_change_modulus lm (gf_el (e1 c)) = Ok (gf_el (e2 c)).
Proof.
move=> hm; have [r hr er] := gf_elP (e1 c).
have sc : (size (c%:P : {poly 'F_2}) < size m1)%N.
  by apply: leq_ltn_trans (size_polyC_leq1 _) _; case: (gf_irr G1).
have {}er : r = c%:P by apply: (PF2n.ev_inj (gf_irr G1) (gf_root G1) hr.2.2 sc); rewrite evC -er.
rewrite er in hr; rewrite -[pm_change_modulus _ _]/(pm_make (pm_res (gf_el (e1 c))) lm).
have [y [-> hy]] := make_L (isP_L hr.1) hm (m_neq0 (gf_irr G2)).
congr Ok; apply: PropF2nPoly.Rel; apply: VgI hy _ _.
by rewrite (ev_mod (gf_root G2)) evC.
Qed.
Lemma change_ok lm (P : {poly 'F_2}) : isP lm m2 ->
  f2n_change_modulus lm (enc (map_poly e1 P)) = Ok (enc (map_poly e2 P)).
Proof.
move=> hm; rewrite /f2n_change_modulus /enc !map_poly_eq0.
have [_|P0] := eqVneq P 0.
  by have := change_el 0 hm; rewrite !rmorph0 /= => ->.
rewrite !mapseq; elim: (polyseq P) => [|c s IH] //=; by rewrite (change_el _ hm) bind_ok IH.
Qed.

Variables (g1 : L1) (P : {poly 'F_2}).
Hypotheses (mP : P \is monic) (Pi : irreducible_poly P) (hP : min_over g1 P).
Lemma prep_ok qsv lm : isP lm m2 -> (Z.of_nat (size m2).-1 <= 30)%coqZ -> (Z.of_nat (size m1) <= INT_MAX)%coqZ ->
  vsorts (Vg m2) qsv ->
  if ((size P).-1 %| (size m2).-1)%N
  then exists g2 : L2, [/\ convert_prep qsv (gf_el g1) lm = Ok (Some (gf_el g2)), root (map_poly e2 P) g2 &
         forall b : L2, root (map_poly e2 P) b -> (PropF2nPoly.g2_val g2 <= PropF2nPoly.g2_val b)%N]
  else convert_prep qsv (gf_el g1) lm = Ok None.
Proof.
move=> hm hd hs hq.
have [Q [mQ hQ eQ _]] := PropLinalg.C74_products g1.
have eQP : Q = P by exact: (min_uniq mQ mP hQ hP).
rewrite eQP in eQ; rewrite /convert_prep eQ bind_ok (change_ok _ hm) bind_ok.
have P0 : map_poly e2 P != 0 by rewrite map_poly_eq0 monic_neq0.
have sPm : (Z.of_nat (size (map_poly e2 P)) <= INT_MAX)%coqZ.
  rewrite size_map_poly; have [Q' [mQ' Qi' hQ' dn _]] := minL g1.
  have eQ' : Q' = P by exact: (min_uniq mQ' mP hQ' hP).
  rewrite eQ' in dn; have n0 : (0 < (size m1).-1)%N by case: (gf_irr G1); case: (size m1) => [|[]].
  have := dvdn_leq n0 dn; move: hs n0; clear; move: (size m1) (size P) => x y; lia.
have [s [es us hs']] := PropF2nFac.t_roots hd P0 sPm.
rewrite es bind_ok.
have [[b sb _]|sn] : (exists2 b, b \in s & True) \/ s = [::] by case: (s) => [|b s']; [right|left; exists b; rewrite ?mem_head].
  have [ss ->] := count_roots Pi mP (etrans (esym (hs' b)) sb) us hs'.
  have -> : (if s is [::] then None else Some [seq gf_el a | a <- s]) = Some [seq gf_el a | a <- s] by case: (s) sb.
  have eg : gp_degree (enc (map_poly e2 P)) = (size P).-1.
    by rewrite /gp_degree lengthE /enc size_map (negbTE P0) size_map_poly minusE subn1.
  rewrite eg lengthE size_map ss eqbE eqxx /=.
  have [|pp pss] := hq [seq gf_el a | a <- s].
    move=> x /In_map [a _ ->]; by have [r hr _] := gf_elP a; exists r.
  move: pp pss; case: (qsv _) => [|x t].
    by move=> /Permutation_length; case: (s) sb.
  move=> pp pss; have [_ /(proj1 (Forall_forall _ _)) hx] := StronglySorted_inv pss.
  have inv y : In y (x :: t) -> exists2 a, a \in s & y = gf_el a.
    by move=> /(Permutation_in _ (Permutation_sym pp)) /In_map.
  have [g2 g2s eg2] := inv x (or_introl erefl).
  exists g2; split; [by rewrite /elt /= eg2|by rewrite -hs'|].
  move=> c hc; have : In (gf_el c) (x :: t).
    by apply: (Permutation_in _ pp); apply/In_map; exists c; rewrite ?hs'.
  have VV (a : L2) : Vg m2 (gf_el a) by have [r hr _] := gf_elP a; exists r.
  case=> [ec|/hx]; first by rewrite /PropF2nPoly.g2_val -ec eg2.
  have /= := ks_ltb sp2 (VV c) (VV g2); rewrite eg2 => -> -[/negbT]; by rewrite -leqNgt.
rewrite sn; case: ifP => // hdv; have [b hb] := has_root hP mP Pi hdv.
by move: hb; rewrite -hs' sn.
Qed.

(* ---- elements *)
Variable qs : list (fpmod * Z) -> list (fpmod * Z).
Hypothesis hqs : sorts pm_ltb (fun x => exists r, isM x r m1) qs.
Hypothesis hd1 : (Z.of_nat (size m1).-1 <= 30)%coqZ.
Hypothesis g1n0 : g1 != 0.
Hypothesis gen : forall a : L1, a != 0 -> exists e, a = g1 ^+ e.
Variable g2 : L2.
Hypothesis r2 : root (map_poly e2 P) g2.
Local Notation ph := (phi gen hP r2).
Lemma g2n0 : g2 != 0. Proof. by rewrite -(phi_g gen hP r2) fmorph_eq0. Qed.
Lemma scalar_ok a : convert_scalar qs (gf_el g1) (gf_el g2) (gf_el a) = Ok (gf_el (ph a)).
Proof.
rewrite /convert_scalar; move: (phi_g gen hP r2) g2n0; move: ph => f fg gn0.
have R1 := PropF2nPoly.elR g1; have R2 := PropF2nPoly.elR g2; have Ra := PropF2nPoly.elR a.
have [z1 [/= -> h1]] := R_sub (ks_c sp1) R1 R1; have [z2 [/= -> h2]] := R_sub (ks_c sp2) R2 R2.
rewrite !bind_ok; have /= -> := R_eqb (ks_c sp1) Ra h1; rewrite bind_ok subrr.
have [a0|a0] := eqVneq a 0.
  by congr Ok; apply: PropF2nPoly.Rel; move: h2; rewrite subrr a0 rmorph0.
have [r hr er] := gf_elP g1; have [s hs es] := gf_elP a.
have rn0 : r != 0 by apply: contraNneq g1n0 => e; rewrite -er e rmorph0 horner0.
have hc := irr_coprime (gf_irr G1) rn0 hr.2.2.
have [[e [-> [he hb]]]|[_ no]] := f2_log_ok (isM_m0 hr) hqs hr hs hd1 hc; last first.
  have [e ee] := gen a0; exfalso; apply: (no e); apply: (PF2n.ev_inj (gf_irr G1) (gf_root G1)); [exact: size_mod_lt (isM_m0 hr)|exact: hs.2.2|].
  by rewrite (ev_mod (gf_root G1)) evX /ev er es.
rewrite bind_ok; have [v2 i2] := R2; have n2 : Ig e2 (gf_z G2) (gf_el g2) != 0 by rewrite i2 gn0.
have [|w [/= -> [vw iw]]] := ks_exp sp2 (e := Z.of_nat e) v2 n2; first by move: hb; rewrite /INT_MIN; lia.
congr Ok; apply: PropF2nPoly.Rel; split=> //; rewrite iw i2 int_nat.
have ea : a = g1 ^+ e.
  by rewrite -es -er -/(ev e1 (gf_z G1) s) -he (ev_mod (gf_root G1)) evX.
by rewrite -fg ea rmorphX exprnP.
Qed.

(* ---- polynomials.  After k steps the first k coefficients are residues modulo m2, the
   others still residues modulo m1. *)
Definition mixed (s : seq L1) k : list fpmod := [seq gf_el (ph a) | a <- take k s] ++ [seq gf_el a | a <- drop k s].
Lemma mixed_size s k : (k <= size s)%N -> size (mixed s k) = size s.
Proof. by move=> h; rewrite /mixed size_cat !size_map size_takel // size_drop subnKC. Qed.
Lemma mixed_step s k : (k < size s)%N -> upd (mixed s k) k (gf_el (ph s`_k)) = mixed s k.+1.
Proof.
move=> h; have tk : size (take k s) = k by rewrite size_takel // ltnW.
rewrite PList.upd_cat; last by rewrite mixed_size // ltnW.
rewrite /mixed take_cat drop_cat !size_map tk ltnn subnn take0 cats0.
rewrite ltnNge leqnSn /= subSnn (drop_nth 0 h) /= drop0.
by rewrite (take_nth 0 h) map_rcons cat_rcons.
Qed.
Lemma mixed_zero s k : (0 < size s)%N -> (k <= size s)%N -> exists2 a0, List.nth_error (mixed s k) 0 = Some a0 &
  exists z r m, [/\ pm_make (f2_of_int 0) (pm_mod a0) = Ok z, isM z r m & r = 0].
Proof.
have Z (G : gf2) (a : gf_L G) : exists z r m, [/\ pm_make (f2_of_int 0) (pm_mod (gf_el a)) = Ok z, isM z r m & r = 0].
  have [r hr _] := gf_elP a; have [z [e hz]] := make_L (isP_L (isP_int 0)) hr.2.1 (isM_m0 hr).
  by exists z, 0, (gf_m G); split=> //; move: hz; rewrite polyC0 mod0p.
by case: s => // a s _; case: k => [|k] hk; eexists; try reflexivity; exact: Z.
Qed.
Lemma poly_ok f : convert_poly qs (gf_el g1) (gf_el g2) (enc f) = Ok (enc (map_poly ph f)).
Proof.
have Ef : enc f = mixed (cseq f) 0 by rewrite /mixed take0 drop0.
have s0 := cseq_ge1 f.
have eph : mixed (cseq f) (size (cseq f)) = enc (map_poly ph f).
  rewrite /mixed take_size drop_size cats0 /enc map_poly_eq0 /cseq; case: (f == 0).
    by rewrite -[in RHS](rmorph0 ph).
  by rewrite mapseq -map_comp.
rewrite /convert_poly -eph.
have [|//|l [-> ->]] := @for_up_inv _ (convert_poly_body qs (gf_el g1) (gf_el g2) (enc f)) (fun k l => l = mixed (cseq f) k) (gp_degree (enc f)).+1 0 (enc f).
  move=> k t [_ hk] ->.
  have {}hk : (k < size (cseq f))%N.
    apply/ltP; move: hk; rewrite /gp_degree lengthE Ef mixed_size // minusE; move: s0; clear; move: (size _) => x; lia.
  rewrite /convert_poly_body; have [x [-> hx]] := PPoly3.get_coeff_ok sp1 k (PropF2nPoly.encG f); rewrite bind_ok.
  rewrite (PropF2nPoly.Rel hx) scalar_ok bind_ok.
  exists (mixed (cseq f) k.+1); split=> //.
  rewrite /gp_set_coeff (_ : Z.ltb _ _ = false); last by apply/Z.ltb_ge; lia.
  have [a0 h0 [z [rz [mz [ez hz rz0]]]]] := mixed_zero s0 (ltnW hk).
  rewrite /getk h0 bind_ok [k_int _ _ _]ez bind_ok Nat2Z.id /gp_degree lengthE (mixed_size (ltnW hk)).
  rewrite (_ : Nat.ltb _ _ = false); last by rewrite ltbE minusE; apply/negbTE; rewrite -leqNgt; move: hk; clear; move: (size _) => y; lia.
  rewrite /setk lengthE (mixed_size (ltnW hk)) (_ : Nat.ltb _ _ = true); last by rewrite ltbE.
  rewrite -cseq_coef (mixed_step hk) bind_ok eqbE; case: eqP => [kl|//].
  have [rc hc ec] := gf_elP (ph (cseq f)`_k).
  rewrite /= /pm_eqb (neqb_P (isP_W hc.1) (isP_W hz.1)) bind_ok rz0; case: eqP => [rc0|//].
  rewrite (neqb_P (isP_W hc.2.1) (isP_W hz.2.1)) bind_ok; case: eqP => [_|//] /=.
  have c0 : (cseq f)`_k = 0 by apply/eqP; rewrite -(fmorph_eq0 ph) -ec rc0 rmorph0 horner0.
  have f0 : f = 0.
    move: kl c0; rewrite /cseq; case: eqP => // /eqP f0; rewrite minusE subn1 => -> /eqP.
    by rewrite -/(lead_coef f) lead_coef_eq0 (negbTE f0).
  have k0 : k = 0%N by move: kl; rewrite f0 /cseq eqxx.
  rewrite k0 f0 /cseq eqxx; have [+ _] := PropF2nPoly.t_make (ph 0) 0 0.
  by rewrite /gp_const /mixed => ->; rewrite rmorph0 polyC0 /enc eqxx -[in LHS](rmorph0 ph).
congr (Ok (mixed _ _)); rewrite /gp_degree lengthE Ef mixed_size //; move: s0; clear; rewrite minusE; move: (size _) => x; lia.
Qed.

(* ---- matrices *)
Lemma matrix_ok m n (A : 'M[L1]_(m, n)) : (0 < m)%N -> (0 < n)%N ->
  convert_matrix qs (gf_el g1) (gf_el g2) (mx_enc (@gf_el G1) A) = Ok (mx_enc (@gf_el G2) (map_mx ph A)).
Proof.
move=> hm hn; rewrite /convert_matrix /t_nr lengthE size_map size_enum_ord.
by apply: tab_mx => // i j; rewrite el_mx bind_ok scalar_ok mxE.
Qed.
End Code.
