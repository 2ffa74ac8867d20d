(* Encodings of matrices, and the product form of the characteristic and minimal polynomials
   of an element of GF(2^n). *)
From Verif Require Import Base MIntMath MIntmod MMat MBits MF2Poly MPoly MPolymod MF2nPoly MLinalg PF2Poly PIntmod.
From mathcomp Require Import all_ssreflect fingroup perm all_algebra ssrZ finfield.
From Verif Require Import PMat PFp PBits3 PF2Poly2 PF2Poly4 PPoly PPoly2 PPolymod PLin PMat2 PF2n PEd PLinalg PMinPoly.
Set Implicit Arguments.
Unset Strict Implicit.
Unset Printing Implicit Defensive.
Import GRing.Theory.
Delimit Scope Z_scope with coqZ.
Local Open Scope ring_scope.

Section Enc.
Variables (T : Type) (U : ringType) (el : U -> T) (S : T -> U -> Prop).
Definition mx_enc m n (A : 'M[U]_(m, n)) : tmat T :=
  mkmat [seq [seq el (A i j) | j <- enum 'I_n] | i <- enum 'I_m] n.
Definition mx_fun m n (A : 'M[U]_(m, n)) (i j : nat) : U :=
  if insub i is Some i' then if insub j is Some j' then A i' j' else 0 else 0.
Lemma mx_funE m n (A : 'M[U]_(m, n)) : \matrix_(i < m, j < n) mx_fun A i j = A.
Proof. by apply/matrixP=> i j; rewrite mxE /mx_fun !valK. Qed.
Lemma nth_error_map_enum n (V : Type) (g : 'I_n -> V) i x :
  List.nth_error [seq g j | j <- enum 'I_n] i = Some x -> exists h : (i < n)%N, x = g (Ordinal h).
Proof.
move=> e; have hi : (i < n)%N.
  by apply/ltP; rewrite -[n]size_enum_ord -(size_map g) -lengthE; apply/List.nth_error_Some; rewrite e.
exists hi; move: e; rewrite (nth_error_nth' (g (Ordinal hi))); last by rewrite size_map size_enum_ord.
rewrite (nth_map (Ordinal hi)) ?size_enum_ord // => -[<-]; congr g; apply: val_inj; rewrite /= nth_enum_ord //.
Qed.
Lemma mx_enc_RM m n (A : 'M[U]_(m, n)) : (forall a, S (el a) a) -> RM S m n (t_rows (mx_enc A)) (mx_fun A).
Proof.
move=> h; split; first by rewrite size_map size_enum_ord.
move=> i r er; have [hi ->] := nth_error_map_enum er; split; first by rewrite size_map size_enum_ord.
move=> j x ex; have [hj ->] := nth_error_map_enum ex; rewrite /mx_fun !insubT //=.
Qed.
Lemma RM_mx_enc m n (t : tmat T) (M : nat -> nat -> U) : (forall x a, S x a -> x = el a) ->
  RM S m n (t_rows t) M -> t_nc t = n -> t = mx_enc (\matrix_(i < m, j < n) M i j).
Proof.
case: t => rows nc h [hs hr] /= hn; rewrite /mx_enc hn; congr mkmat.
have ext (W : Type) (l l' : list W) : (forall i, List.nth_error l i = List.nth_error l' i) -> l = l'.
  elim: l l' => [|x l IH] [|y l'] //= e; try by have := e 0%N.
  by have [->] := e 0%N; rewrite (IH l') // => i; exact: (e i.+1).
have en V' k (g : 'I_k -> V') i : List.nth_error [seq g j | j <- enum 'I_k] i = omap g (insub i).
  case: (boolP (i < k)%N) => hi; last first.
    by rewrite insubN //=; apply/List.nth_error_None/leP; rewrite lengthE size_map size_enum_ord leqNgt.
  rewrite insubT /= (nth_error_nth' (g (Ordinal hi))); last by rewrite size_map size_enum_ord.
  rewrite (nth_map (Ordinal hi)) ?size_enum_ord //; congr (Some (g _)); apply: val_inj; by rewrite /= nth_enum_ord.
apply: (ext _ _ _) => i; rewrite en; case: (boolP (i < m)%N) => hi; last first.
  by rewrite insubN //=; apply/List.nth_error_None/leP; rewrite lengthE hs leqNgt.
rewrite insubT /=; have [r er] : exists r, List.nth_error rows i = Some r by apply: nth_error_ex; rewrite hs.
rewrite er; congr Some; have [sr hx] := hr _ _ er; apply: (ext _ _ _) => j; rewrite en.
case: (boolP (j < n)%N) => hj; last first.
  by rewrite insubN //=; apply/List.nth_error_None/leP; rewrite lengthE sr leqNgt.
rewrite insubT /=; have [x ex] : exists x, List.nth_error r j = Some x by apply: nth_error_ex; rewrite sr.
by rewrite ex (h _ _ (hx _ _ ex)) mxE.
Qed.
End Enc.

Section Prod.
Variable G : gf2.
Local Notation L := (gf_L G).
Local Notation m := (gf_m G).
Local Notation emb := (gf_emb G).
Local Notation z := (gf_z G).
Local Notation V := (Vg m).
Local Notation I := (@Ig L emb z).
Local Notation o := f2n_kops.
Local Notation F2 := [finFieldType of 'F_2].
Let mirr := gf_irr G.
Let sp : kspec o V I kg := f2n_kspec (gf_irr G) (gf_root G) (gf_card G).
Let n := (size m).-1.

Lemma ev_eq r s : (ev emb z r == ev emb z s) = (m %| r - s).
Proof.
have m0 : m != 0 by case: mirr => h _; rewrite -size_poly_gt0 ltnW.
rewrite /dvdp modpD modpN subr_eq0; apply/eqP/eqP => [e|e].
  by apply: (PF2n.ev_inj mirr (gf_root G)); rewrite ?ltn_modp // !(ev_mod (gf_root G)).
by rewrite -(ev_mod (gf_root G)) e (ev_mod (gf_root G)).
Qed.
Lemma ev0 : ev emb z 0 = 0. Proof. by rewrite -polyC0 evC rmorph0. Qed.
Lemma ev_root (g r : {poly 'F_2}) : root (map_poly emb g) (ev emb z r) = (m %| g \Po r).
Proof. by rewrite rootE /ev -horner_comp -map_comp_poly -/(ev emb z _) -ev0 ev_eq subr0. Qed.
Lemma char2L : 2%N \in [char L]. Proof. by rewrite (fmorph_char emb) char_Fp. Qed.
Lemma frob_root (g : {poly 'F_2}) (a : L) k : root (map_poly emb g) a -> root (map_poly emb g) (a ^+ (2 ^ k)).
Proof.
elim: k => [|k IH]; first by rewrite expn0 expr1.
move=> /IH h; rewrite expnSr exprM; move: (a ^+ _) h => b.
have e : (map_poly emb g).[b ^+ 2] = (map_poly emb g).[b] ^+ 2.
  elim/poly_ind: g {IH} => [|g c IHg]; first by rewrite rmorph0 !horner0 expr0n.
  have c2 : c ^+ 2 = c by have := expf_card (c : F2); rewrite card_Fp.
  have D2 (u v : L) : (u + v) ^+ 2 = u ^+ 2 + v ^+ 2 by rewrite -!(Frobenius_autE char2L) rmorphD.
  have ec : emb c ^+ 2 = emb c by rewrite -rmorphX c2.
  by rewrite rmorphD rmorphM /= map_polyX map_polyC !hornerD !hornerM !hornerX !hornerC IHg D2 exprMn ec.
by rewrite /root e expf_eq0.
Qed.

Section El.
Variables (a : L) (r P : {poly 'F_2}).
Hypotheses (ra : ev emb z r = a) (hP : is_minpoly (F := F2) m r P) (Pi : irreducible_poly P).
Let d := (size P).-1.
Hypotheses (dn : (d %| n)%N) (hd : r ^+ (2 ^ d) %% m = r %% m)
  (dmin : forall k, (0 < k)%N -> r ^+ (2 ^ k) %% m = r %% m -> (d <= k)%N).
Lemma n_gt0 : (0 < n)%N. Proof. by case: mirr => h _; rewrite /n -ltnS (ltn_predK h). Qed.
Lemma d_gt0 : (0 < d)%N. Proof. by case: Pi => h _; rewrite /d -ltnS (ltn_predK h). Qed.
Lemma pow_a k : (a ^+ (2 ^ k) == a) = (r ^+ (2 ^ k) %% m == r %% m).
Proof. by rewrite -ra -evX ev_eq /dvdp modpD modpN subr_eq0. Qed.
Lemma pow_d : a ^+ (2 ^ d) = a. Proof. by apply/eqP; rewrite pow_a hd. Qed.
Lemma pow_lt k : (0 < k)%N -> (k < d)%N -> a ^+ (2 ^ k) != a.
Proof. by move=> k0 hk; rewrite pow_a; apply/eqP => /(dmin k0); rewrite leqNgt hk. Qed.
Lemma root_P g : root (map_poly emb g) a = (P %| g).
Proof. by rewrite -ra ev_root (proj2 hP). Qed.
Definition fprod k : {poly L} := \prod_(i < k) ('X - (a ^+ (2 ^ i))%:P).
Lemma fprodS k : fprod k.+1 = fprod k * ('X - (a ^+ (2 ^ k))%:P).
Proof. by rewrite /fprod big_ord_recr. Qed.
Lemma fprod_min : fprod d = map_poly emb P.
Proof.
have Pm : map_poly emb P \is monic by rewrite map_monic; case: hP.
rewrite /fprod -(big_mkord xpredT (fun i => 'X - (a ^+ (2 ^ i))%:P)) /=.
rewrite -(big_map (fun i => a ^+ (2 ^ i)) xpredT (fun b => 'X - b%:P)).
have e1 : size (map_poly emb P) = (size [seq a ^+ (2 ^ i) | i <- index_iota 0 d]).+1.
  by rewrite size_map_poly size_map size_iota subn0 /d prednK //; case: Pi => h _; apply: ltnW.
have e2 : all (root (map_poly emb P)) [seq a ^+ (2 ^ i) | i <- index_iota 0 d].
  by apply/allP=> _ /mapP [k _ ->]; apply: frob_root; rewrite root_P dvdpp.
have e3 : uniq_roots [seq a ^+ (2 ^ i) | i <- index_iota 0 d].
  rewrite uniq_rootsE map_inj_in_uniq ?iota_uniq // => i j; rewrite !mem_index_iota /= => hi hj.
  have W i' j' : (i' <= j')%N -> (j' < d)%N -> a ^+ (2 ^ i') = a ^+ (2 ^ j') -> i' = j'.
    move=> hij hj' e; case: (ltngtP i' j') hij => // h _.
    have hk : (0 < d - j' + i' < d)%N by lia.
    case/andP: hk => k0 k1; have := pow_lt k0 k1; rewrite addnC expnD exprM e -exprM -expnD subnKC; last by lia.
    by rewrite pow_d eqxx.
  by case: (leqP i j) => h e; [apply: W | apply/esym; apply: W => //; lia].
by rewrite [RHS](all_roots_prod_XsubC e1 e2 e3) (monicP Pm) scale1r.
Qed.
Lemma fprod_per k : fprod (k * d) = fprod d ^+ k.
Proof.
have per i j : a ^+ (2 ^ (i * d + j)) = a ^+ (2 ^ j).
  by elim: i => [|i IH]; rewrite ?mul0n // mulSn -addnA expnD exprM pow_d IH.
elim: k => [|k IH]; first by rewrite mul0n /fprod big_ord0.
rewrite exprSr -IH mulSn addnC /fprod big_split_ord /=; congr (_ * _).
by apply: eq_bigr => i _; rewrite per.
Qed.

Local Notation R := (R V I).
Local Notation isG := (isG V I).
Variables (x one : fpmod).
Hypotheses (hx : R x a) (h1 : R one 1).
Lemma step_ok rv ap k : isG rv (fprod k) -> R ap (a ^+ (2 ^ k)) ->
  exists fc rv' ap', [/\ gp_linear o one ap = Ok fc, gp_mul o rv fc = Ok rv', pm_mul ap ap = Ok ap',
    isG rv' (fprod k.+1) & R ap' (a ^+ (2 ^ k.+1)) /\ pm_eqb ap' x = Ok (a ^+ (2 ^ k.+1) == a)].
Proof.
move=> hr ha; have [fc [e1 hf]] := linear_ok sp h1 ha.
have [rv' [e2 hr']] := PPoly.mul_ok sp hr hf.
have [ap' [e3 hap]] := R_mul (ks_c sp) ha ha.
have hap' : R ap' (a ^+ (2 ^ k.+1)) by rewrite expnSr exprM expr2.
exists fc, rv', ap'; split=> //.
  by move: hr'; rewrite fprodS scale1r -polyCN (oppr_char2 char2L).
split=> //; by have := cs_eqb (ks_c sp) (proj1 hap') (proj1 hx); rewrite (proj2 hap') (proj2 hx).
Qed.
Lemma min_loop t k rv ap i fuel : (k + t.+1 = d)%N -> (k + i = n)%N -> (t < fuel)%N -> isG rv (fprod k) -> R ap (a ^+ (2 ^ k)) ->
  exists l, loop fuel (f2m_com_step true x one) (i, rv, ap) = Ok l /\ isG l (fprod d).
Proof.
have hdn := dvdn_leq n_gt0 dn.
elim: t k rv ap i fuel => [|t IH] k rv ap [|i] [|fuel] // hk hi hf hr ha; try by lia.
  cbn [loop]; rewrite /f2m_com_step; have [fc [rv' [ap' [-> e1 e2 hr' [ha' e3]]]]] := step_ok hr ha.
  rewrite bind_ok e1 bind_ok e2 bind_ok e3 bind_ok.
  have -> : k.+1 = d by lia.
  by rewrite pow_d eqxx; exists rv'; split=> //; move: hr'; have -> : k.+1 = d by lia.
cbn [loop]; rewrite {1}/f2m_com_step; have [fc [rv' [ap' [-> e1 e2 hr' [ha' e3]]]]] := step_ok hr ha.
rewrite bind_ok e1 bind_ok e2 bind_ok e3 bind_ok.
have -> : (a ^+ (2 ^ k.+1) == a) = false by apply/negbTE/pow_lt; lia.
by apply: (IH k.+1) => //; lia.
Qed.
Lemma char_loop i k rv ap fuel : (k + i = n)%N -> (i < fuel)%N -> isG rv (fprod k) -> R ap (a ^+ (2 ^ k)) ->
  exists l, loop fuel (f2m_com_step false x one) (i, rv, ap) = Ok l /\ isG l (fprod n).
Proof.
elim: i k rv ap fuel => [|i IH] k rv ap [|fuel] // hi hf hr ha.
  by exists rv; split=> //; move: hr; have -> : k = n by lia.
cbn [loop]; rewrite {1}/f2m_com_step; have [fc [rv' [ap' [-> e1 e2 hr' [ha' e3]]]]] := step_ok hr ha.
rewrite bind_ok e1 bind_ok e2 !bind_ok.
by apply: (IH k.+1) => //; lia.
Qed.
End El.

Theorem f2m_ok (x : fpmod) r P : PF2Poly4.isM x r m -> is_minpoly (F := F2) m r P -> irreducible_poly P ->
  ((size P).-1 %| n)%N -> r ^+ (2 ^ (size P).-1) %% m = r %% m ->
  (forall k, (0 < k)%N -> r ^+ (2 ^ k) %% m = r %% m -> ((size P).-1 <= k)%N) ->
  (exists l, f2m_min_poly x = Ok l /\ isG V I l (map_poly emb P)) /\
  (exists l, f2m_char_poly x = Ok l /\ isG V I l (map_poly emb (P ^+ (n %/ (size P).-1)))).
Proof.
move=> hx hP Pi dn hd dmin; have hR : R V I x (ev emb z r) := VgI hx erefl.
have d0 := d_gt0 Pi; have hdn := dvdn_leq n_gt0 dn.
rewrite /f2m_min_poly /f2m_char_poly /f2m_char_or_min_poly (degree_thm (isP_W hx.2.1)) !bind_ok -/n.
have [one [-> hone]] := V_int mirr (gf_root G) 1 hx.2.1; rewrite !bind_ok.
have h1 : R V I one 1 by [].
have [rv [-> hrv]] := const_ok sp h1; rewrite !bind_ok.
have hrv0 : isG V I rv (fprod (ev emb z r) 0) by rewrite /fprod big_ord0.
have hR0 : R V I x (ev emb z r ^+ (2 ^ 0)) by rewrite expn0 expr1.
split.
  have k1 : (0 + (size P).-1.-1.+1)%N = (size P).-1 by rewrite add0n prednK.
  have k2 : ((size P).-1.-1 < n.+1)%N by lia.
  have [l [-> hl]] := min_loop (erefl _) dn hd dmin hR h1 k1 (add0n n) k2 hrv0 hR0.
  by exists l; split=> //; move: hl; rewrite (fprod_min (erefl _) hP Pi dn hd dmin).
have [l [-> hl]] := char_loop dn dmin hR h1 (add0n n) (ltnSn n) hrv0 hR0.
exists l; split=> //; move: hl; rewrite rmorphX /= -(fprod_min (erefl _) hP Pi dn hd dmin).
by rewrite -(fprod_per (erefl _) hd) divnK.
Qed.
End Prod.
