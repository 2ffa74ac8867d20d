(* Commands of spiff on polynomials over a finite field, for the fields of p and of 2^n elements alike. *)
From Verif Require Import Base MIntMath MMat MFac MPoly MPolyFac MTextIO MSpiff MSpiff2.
From Verif Require Import PSpiff PSpiff2 PSpiff3 PSpiff7 PFacGen.
From mathcomp Require Import all_ssreflect all_algebra finfield ssrZ zify.
From Verif Require Import PMat PPoly PPoly2 PPoly3 PFacPoly PPolyFac PPolyFac2 PPolyFac3 PSpiff8 PSpiff9.
From Verif Require PF2Fac2.
Set Implicit Arguments.
Unset Strict Implicit.
Unset Printing Implicit Defensive.
Import GRing.Theory.
Delimit Scope Z_scope with coqZ.
Local Open Scope ring_scope.
Local Notation length := List.length.
Local Notation Forall2 := List.Forall2.
Local Notation Forall := List.Forall.
Local Notation In := List.In.

Lemma mapIn (T : Type) (U : eqType) (a : T -> U) l y : y \in map a l -> exists2 x, In x l & y = a x.
Proof.
elim: l => [//|x l IH] /=; rewrite inE => /orP [/eqP ->|/IH [z h ->]]; first by exists x; [left|].
by exists z; [right|].
Qed.

Lemma total_ge (T : Type) (l : list (T * Z)) e : Forall (fun e => (1 <= e.2)%coqZ) l -> In e l -> (e.2 <= PFacGen.total l)%coqZ.
Proof.
move=> hf; elim: hf e => [|e l' h hl IH] //= e' [<-|/IH]; rewrite -/(PFacGen.total l').
- suff : (0 <= PFacGen.total l')%coqZ by lia.
  by clear - hl; elim: hl => [|x l'' h _ IH] //=; rewrite -/(PFacGen.total l''); lia.
- lia.
Qed.

Section Notions.
Variables (K : fieldType) (num : {poly K} -> nat) (tx : {poly K} -> text).
(* fs: the monic irreducible factors of p with their exponents, in the order of the numbers num; with the leading coefficient
   they give p *)
Definition factors_of (p : {poly K}) (fs : list ({poly K} * Z)) : Prop :=
  [/\ forall q k, In (q, k) fs -> [/\ q \is monic, irreducible_poly q & (1 <= k)%coqZ],
      sorted ltn [seq num f.1 | f <- fs], p = 0 -> fs = nil & lead_coef p *: \prod_(f <- fs) f.1 ^+ Z.to_nat f.2 = p].
(* the leading coefficient is printed unless it is 1 and there are factors *)
Definition unit_of (p : {poly K}) : option {poly K} := if (1 < size p)%N && (lead_coef p == 1) then None else Some (lead_coef p)%:P.
Definition factor_line (p : {poly K}) (fs : list ({poly K} * Z)) : text :=
  unwords ((if unit_of p is Some u then [:: tx u] else [::]) ++ List.map (pword tx) fs)%list.
End Notions.

Section Gen.
Variables (A : Type) (o : kops A) (F : finFieldType) (V : A -> Prop) (I : A -> F) (kv : A -> nat).
Hypothesis spec : kspec o V I kv.
Hypothesis dflt : forall z, R V I z 0 -> exists z1, k_int o (k_dflt o) 0 = Ok z1 /\ c_eqb (k_c o) z z1 = Ok false.
Local Notation q := #|F|.
Hypothesis kvq : forall x, V x -> (kv x < q)%N.
Hypothesis kv0 : forall x, V x -> (kv x == 0)%N = (I x == 0).
Variables (fp : facpar A) (cst : Z -> F) (pc : nat).
Hypothesis fs : fspec V I fp cst pc.
Local Notation isG := (PPoly.isG V I).
Local Notation VG := (PPolyFac.VG V I).
Local Notation Gp := (PPolyFac.Gp I).
Local Notation FS := (gp_fac_spec spec kvq kv0).
Variables (enc : {poly F} -> list A) (num : {poly F} -> nat).
Hypothesis encG : forall p, isG (enc p) p.
Hypothesis hnum : forall p, gval kv q (enc p) = num p.
Variables (arg : text -> prog (list A)) (shw : list A -> prog unit) (rd : text -> {poly F} -> Prop) (tx : {poly F} -> text).
Hypothesis Harg : forall s x, rd s x -> arg s = ret (enc x).
Hypothesis Hshw : forall x, shw (enc x) = MSpiff.print (tx x).

Lemma Genc l p : isG l p -> l = enc p. Proof. by move=> h; exact: (isG_uniq spec h (encG p)). Qed.
Lemma Gp_enc p : Gp (enc p) = p. Proof. exact: isG_Gp (encG p). Qed.
Lemma enc_Gp l : VG l -> enc (Gp l) = l. Proof. by case=> h _; exact/esym/Genc. Qed.
Lemma VG_enc p : p != 0 -> VG (enc p). Proof. exact: VG_of (encG p). Qed.
Lemma degree_enc p : gp_degree (enc p) = (size p).-1. Proof. exact: degG (encG p). Qed.
Lemma ltb_enc p r : f_ltb (gp_fops o) (enc p) (enc r) = (num p < num r)%N.
Proof. by have [_ [_ [e _]]] := cmp_val spec (q2 F) kvq kv0 (encG p) (encG r); rewrite /= e ok_trueE !hnum. Qed.
Lemma num_inj p r : num p = num r -> p = r.
Proof.
move=> h; have [e _] := cmp_val spec (q2 F) kvq kv0 (encG p) (encG r).
by move: e; rewrite (eqb_ok spec (encG p) (encG r)) !hnum h eqxx => -[/eqP].
Qed.

(* ---- gcd and lcm ---- *)
Lemma gcd_enc p r : exists d, gp_gcd o (enc p) (enc r) = Ok (enc d) /\ forall h : {poly F}, h %| d <-> h %| p /\ h %| r.
Proof.
have [l [d [-> [hl hd]]]] := gcd_ok spec (encG p) (encG r); exists d; rewrite (Genc hl); split=> // h.
by rewrite (eqp_dvdr _ hd) dvdp_gcd; split=> /andP.
Qed.
Lemma ext_enc p r : r != 0 -> exists d u v, [/\ gp_ext_gcd o (enc p) (enc r) = Ok (enc d, enc u, enc v), u * p + v * r = d &
  forall h : {poly F}, h %| d <-> h %| p /\ h %| r].
Proof.
move=> r0; have [d [u [v [D [U [W [-> [h1 [h2 [h3 [hd e]]]]]]]]]]] := ext_gcd_ok spec (encG p) (encG r) r0.
exists D, U, W; rewrite (Genc h1) (Genc h2) (Genc h3); split=> // h.
by rewrite (eqp_dvdr _ hd) dvdp_gcd; split=> /andP.
Qed.
Definition glcm (p r : {poly F}) : {poly F} := if gp_lcm o (enc p) (enc r) is Ok l then Gp l else 0.
Lemma lcm_enc p r : p != 0 \/ r != 0 -> gp_lcm o (enc p) (enc r) = Ok (enc (glcm p r)) /\ glcm p r %= lcmq p r.
Proof.
move=> h; have h0 := gcdp_n0 h; rewrite /glcm /gp_lcm; have [x [-> hx]] := mul_ok spec (encG p) (encG r); rewrite bind_ok.
have [l [d [-> [hl hd]]]] := gcd_ok spec (encG p) (encG r); rewrite bind_ok.
have d0 : d != 0 by apply: contraNneq h0 => e; move: hd; rewrite e eqp_sym eqp0.
have [y [-> hy]] := div_ok spec hx hl d0; rewrite (isG_Gp hy) (Genc hy); split=> //.
have dv : d %| p * r by rewrite (eqp_dvdl _ hd) dvdp_mulr // dvdp_gcdl.
have gv : gcdp p r %| p * r by rewrite dvdp_mulr // dvdp_gcdl.
rewrite -(eqp_mul2r _ _ d0) divpK //; apply: (@eqp_trans _ (lcmq p r * gcdp p r)); first by rewrite /lcmq divpK // eqpxx.
by rewrite eqp_mull // eqp_sym.
Qed.
Lemma lcm_00 : gp_lcm o (enc 0) (enc 0) = Exn.
Proof.
rewrite /gp_lcm; have [x [-> hx]] := mul_ok spec (encG 0) (encG 0); rewrite bind_ok.
have [l [d [-> [hl hd]]]] := gcd_ok spec (encG 0) (encG 0); rewrite bind_ok.
have d0 : d = 0 by move: hd; rewrite gcd0p eqp0 => /eqP.
by rewrite /gp_div (quot_rem_0 spec hx (_ : isG l 0)) // -d0.
Qed.
Lemma lcm_main args ps : args <> nil -> Forall2 rd args ps -> (length (List.filter (fun p => p == 0%R) ps) <= 1)%N ->
  exists m, fold_main arg shw (gp_lcm o) args = (line (tx m), Val 0%coqZ) /\ forall n, m %| n <-> Forall (fun p => p %| n) ps.
Proof.
move=> hn h hz; inversion h as [|s p args' ps' hs hargs e1 e2]; subst; first by [].
have g0 p1 p2 : p1 != 0 \/ p2 != 0 -> (glcm p1 p2 == 0) = (p1 == 0) || (p2 == 0).
  by move=> h0; have [_ he] := lcm_enc h0; rewrite -(lcmq_eq0 h0) -!eqp0 (eqp_ltrans he).
have hpre : forall i y, List.nth_error ps' i = Some y -> List.fold_left glcm (List.firstn i ps') p != 0 \/ y != 0.
  move: hz; clear - g0; elim: ps' p => [|r l IH] p hz i y; first by case: i.
  case: i => [[<-]|i].
    by move: hz => /=; case: eqP; case: eqP => //; [right|left|left].
  rewrite [List.nth_error _ _]/= [List.fold_left _ _ _]/= => hy; apply: IH hy.
  by move: hz => /=; case: eqP => [->|hp]; case: eqP => [->|hq] //=; rewrite g0; rewrite ?eqxx ?orbT //=;
    try (by left; apply/eqP); try (by right; apply/eqP); rewrite ?(introF eqP hp) ?(introF eqP hq).
exists (List.fold_left glcm ps' p); split.
  exact: (fold_main_ok arg shw enc rd tx Harg Hshw _ glcm _ (fun a b h => (lcm_enc h).1) _ _ _ _ hs hargs hpre).
move=> n; move: hpre; clear - spec encG; elim: (ps') (p) => [|r l IH] p1 hpre; first by split=> [h1|h1]; [constructor|inversion h1; subst].
rewrite [List.fold_left _ _ _]/= IH; last by move=> i y; exact: (hpre (S i)).
have h0 := hpre O _ erefl; have [_ he] := lcm_enc h0; split=> h1; inversion h1 as [|x1 x2 h2 h3]; subst.
  by move: h2; rewrite (eqp_dvdl _ he) lcmq_dvd // => /andP[h4 h5]; constructor=> //; constructor.
by inversion h3 as [|x1 x2 h4 h5]; subst; constructor=> //; rewrite (eqp_dvdl _ he) lcmq_dvd // h2.
Qed.

(* ---- factors ---- *)
Definition enc1 (f : {poly F} * Z) : list A * Z := (enc f.1, f.2).
Definition record_of p fs : facinfo (list A) := mkfac (List.map enc1 fs) (option_map enc (unit_of p)).
Local Notation FIG := (FI (gp_fops o) VG Gp (Qf true)).
Definition dec1 (e : list A * Z) : {poly F} * Z := (Gp e.1, e.2).
Lemma map_enc1 l : Forall (fun e => VG e.1) l -> List.map enc1 (List.map dec1 l) = l.
Proof. by elim=> [|[x c] l' h _ IH] //=; rewrite IH /enc1 /dec1 /= enc_Gp. Qed.
Lemma FI_factors (p : {poly F}) fin : p != 0 -> FIG fin -> lead_coef p *: fprod Gp (facs fin) = p ->
  factors_of num p (List.map dec1 (facs fin)) /\ List.map enc1 (List.map dec1 (facs fin)) = facs fin.
Proof.
move=> p0 [h1 h2] hp; have hv : Forall (fun e => VG e.1) (facs fin) by apply: List.Forall_impl h1 => e [].
split; last exact: map_enc1.
split.
- move=> r k /List.in_map_iff[e [[<- <-] he]]; by have [_ [h3 h4] h5] := proj1 (List.Forall_forall _ _) h1 e he.
- rewrite -[List.map _ _]/[seq dec1 e | e <- facs fin] -map_comp; clear - hv h2 hnum encG spec kvq kv0.
  elim: hv h2 => [|e l he hl IH] //= [h1 h2]; rewrite path_sortedE; last exact: ltn_trans.
  rewrite IH // andbT; apply/allP => n /mapIn[e' he' ->] /=.
  have h3 := enc_Gp he; have h4 := enc_Gp (proj1 (List.Forall_forall _ _) hl e' he').
  by have := ltb_enc (Gp e.1) (Gp e'.1); rewrite h3 h4 => <-; exact: h1 (List.in_map fst _ _ he').
- by move=> e; rewrite e eqxx in p0.
- by rewrite big_map; rewrite /fprod in hp.
Qed.
Lemma factor_enc (p : {poly F}) : (Z.of_nat (size p) <= INT_MAX)%coqZ ->
  exists l, gp_factor o fp (enc p) = Ok (record_of p l) /\ factors_of num p l.
Proof.
move=> hmax; have hl := encG p; rewrite /gp_factor.
have [c0 [e0 [v0 i0]]] := isG_get0 hl; rewrite e0 bind_ok.
have [//|zero [ez [vz iz]]] := ks_int spec (v := 0) v0; rewrite ez bind_ok.
have [//|one [eo [vo io]]] := ks_int spec (v := 1) v0; rewrite eo bind_ok.
have hz : R V I zero 0 by []. have ho : R V I one 1 by [].
rewrite (degG hl) deg0; case: (boolP (1 < size p)%N) => hp /=; last first.
  have ep : p = (lead_coef p)%:P.
    have e : p = (p`_0)%:P by apply: size1_polyC; rewrite leqNgt.
    by rewrite {2}e lead_coefC.
  exists nil; rewrite /record_of /unit_of (negbTE hp) /insert_unit /= -ep; split=> //.
  by split=> //; rewrite big_nil alg_polyC -ep.
have p0 : p != 0 := PF2Fac2.sz_pos hp; have lc0 : lead_coef p != 0 by rewrite lead_coef_eq0.
have [x [-> hx]] := get_coeff_ok spec (size p).-1 hl; rewrite bind_ok -/(lead_coef p) in hx *.
have sc := ks_c spec.
rewrite (R_neqb sc hx hz) bind_ok (R_neqb sc hx ho) bind_ok lc0 /= /record_of /unit_of hp.
have [e1|n1] := eqVneq (lead_coef p) 1 => /=.
  have hm : p \is monic by rewrite monicE e1.
  have [f' [c [e1' e2 e3 e4 _]]] := pre_run spec dflt kvq kv0 fs true (fin := fac_empty) hl hp hm hmax erefl.
  have [|h1 h2] := FI_factors p0 e2; first by rewrite e4 e1 scale1r.
  by exists (List.map dec1 (facs f')); rewrite h2; split=> //; apply: (etrans e1'); case: (f') e3 => ? ? /= ->.
have [u [-> hu]] := const_ok spec hx; rewrite bind_ok /insert_unit /=.
have [l' [-> hl']] := divc_ok spec hl hx lc0; rewrite bind_ok -/(monicp p) in hl' *.
have sm : size (monicp p) = size p := size_monicp p.
have [||f' [c [e1' e2 e3 e4 _]]] := pre_run spec dflt kvq kv0 fs true (fin := mkfac [::] (Some u)) hl' _ (monicp_monic p0) _ erefl.
- by rewrite sm.
- by rewrite sm.
have [|h1 h2] := FI_factors p0 e2; first by rewrite e4 /monicp scalerA mulfV // scale1r.
by exists (List.map dec1 (facs f')); rewrite h2; split=> //; apply: (etrans e1'); case: (f') e3 => ? ? /= ->; rewrite (Genc hu).
Qed.
Lemma facinfo_enc p l : show_facinfo shw (record_of p l) = (factor_line tx p l, Val tt).
Proof. exact: (facinfo_ok shw enc tx Hshw). Qed.
Lemma fprod_enc (l : list ({poly F} * Z)) : fprod Gp (List.map enc1 l) = \prod_(f <- l) f.1 ^+ Z.to_nat f.2.
Proof. by rewrite /fprod; elim: l => [|f l IH]; rewrite ?big_nil //= !big_cons IH Gp_enc. Qed.
Variable one : list A.
Hypothesis hone : one = enc 1.
Lemma one_ok : VG one /\ Gp one = 1.
Proof. by rewrite hone Gp_enc; split=> //; apply: VG_enc; rewrite oner_eq0. Qed.
Lemma uval_unit (p : {poly F}) l : p != 0 -> uval Gp 1 (funit (record_of p l)) = (lead_coef p)%:P.
Proof. by move=> p0; rewrite /= /unit_of; case: ifP => /= [/andP[_ /eqP ->]|_]; rewrite ?Gp_enc. Qed.
Lemma unit_enc_ok (p : {poly F}) l : p != 0 -> unit_ok VG (funit (record_of p l)).
Proof. by move=> p0; rewrite /= /unit_of; case: ifP => //= _; apply: VG_enc; rewrite polyC_eq0 lead_coef_eq0. Qed.
Lemma irr_n0 (r : {poly F}) : irreducible_poly r -> r != 0.
Proof. by case=> h _; exact: PF2Fac2.sz_pos h. Qed.
(* the check that follows *)
Lemma unfactor_enc p l : factors_of num p l -> unfactor (gp_fops o) (record_of p l) one = Ok (enc p).
Proof.
move=> [h1 _ h3' h3]; have [p0|p0] := eqVneq p 0.
  have l0 := h3' p0.
  rewrite l0 /unfactor /= /unit_of p0 size_poly0 /= lead_coef0 hone.
  have [x [-> hx]] := mul_ok spec (encG 1) (encG 0%:P); by rewrite /= (Genc hx) polyC0 mulr0.
have [ho io] := one_ok.
have [||z [-> [hz1 hz2]]] := unfactor_ok _ _ _ _ _ _ FS (record_of p l) one ho io _ (unit_enc_ok l p0).
- apply/List.Forall_forall=> e /List.in_map_iff[[r k] [<- /h1[_ hq hc]]]; split; last by rewrite /=; lia.
  by apply: VG_enc; exact: irr_n0.
- by [].
have : Gp z = p by rewrite hz2 uval_unit // lval_fprod fprod_enc mul_polyC h3.
by move=> e; congr Ok; rewrite -(enc_Gp hz1) e.
Qed.
(* ---- divisors ---- *)
Lemma regular_enc (r : {poly F}) : r != 0 -> regular (gp_fops o) VG Gp 1 (enc r).
Proof.
move=> r0; split.
- have [z [e hz]] := sub_ok spec (encG r) (encG r); exists z; split=> //.
  by rewrite /= (eqb_ok spec (encG r) hz) ok_trueE subrr (negbTE r0).
- have [z [e hz]] := div_ok spec (encG r) (encG r) r0; exists z; split=> //; rewrite divpp // in hz.
  by rewrite (isG_Gp hz); split=> //; apply: (VG_of hz); rewrite oner_eq0.
Qed.
Lemma fst_nodup (l : list ({poly F} * Z)) : sorted ltn [seq num f.1 | f <- l] -> List.NoDup (List.map fst l).
Proof.
elim: l => [|f l IH] /=; first by constructor.
rewrite path_sortedE; last exact: ltn_trans.
move=> /andP[/allP h1 h2]; constructor; last exact: IH.
move=> /List.in_map_iff[g [e hg]]; have : num g.1 \in [seq num f.1 | f <- l].
  elim: l hg {IH h1 h2} => [//|g' l IH] /= [->|/IH h]; by rewrite inE ?eqxx // h orbT.
by move=> /h1 /=; rewrite e ltnn.
Qed.
Lemma fst_enc1 (l : list ({poly F} * Z)) : List.map (fun e => Gp e.1) (List.map enc1 l) = List.map fst l.
Proof. by rewrite List.map_map; apply: List.map_ext => f; rewrite /= Gp_enc. Qed.
Lemma good_enc (p : {poly F}) l : p != 0 -> factors_of num p l -> (Z.of_nat (size p).-1 <= 30)%coqZ ->
  good (gp_fops o) VG Gp (List.map enc1 l) /\ (ndiv (List.map enc1 l) <= INT_MAX)%coqZ.
Proof.
move=> p0 [h1 h2 _ h3] hd.
have hf : Forall (fun e => irreducible_poly (Gp e.1) /\ (1 <= e.2)%coqZ) (List.map enc1 l).
  by apply/List.Forall_forall=> e /List.in_map_iff[[r c] [<- /h1[_ hq hc]]]; rewrite /= Gp_enc.
have [ht _] := total_size (I := Gp) hf; rewrite fprod_enc in ht.
have esz : size (\prod_(f <- l) f.1 ^+ Z.to_nat f.2) = size p by rewrite -[in RHS]h3 size_scale // lead_coef_eq0.
rewrite esz in ht.
have [hn h0] : (ndiv (List.map enc1 l) <= 2 ^ PFacGen.total (List.map enc1 l))%coqZ /\ (0 <= PFacGen.total (List.map enc1 l))%coqZ.
  by apply: ndiv_le; apply: List.Forall_impl hf => e [].
have b : (2 ^ PFacGen.total (List.map enc1 l) <= 2 ^ 30)%coqZ by apply: Z.pow_le_mono_r => //; exact: Z.le_trans ht hd.
split; last by move: b; change (2 ^ 30)%coqZ with 1073741824%coqZ; change INT_MAX with 2147483647%coqZ; lia.
split; last by rewrite fst_enc1; exact: fst_nodup.
have cb : forall e, In e (List.map enc1 l) -> (e.2 <= PFacGen.total (List.map enc1 l))%coqZ.
  by move=> e he; apply: (@total_ge _ (List.map enc1 l)) => //; apply: List.Forall_impl hf => x [].
apply/List.Forall_forall=> e he; have := cb e he; move/List.in_map_iff: he => [[r c] [<- /h1[hm hq hc]]] /= hb.
have q1 := irr_n0 hq.
split=> //; rewrite ?Gp_enc //; [exact: VG_enc|exact: regular_enc|].
have t30 := Z.le_trans _ _ _ hb (Z.le_trans _ _ _ ht hd); change INT_MAX with 2147483647%coqZ; clear - hc t30; lia.
Qed.
Lemma sorted_num ds : List.NoDup ds -> sorted_le (gp_fops o) (List.map enc ds) -> sorted ltn [seq num d | d <- ds].
Proof.
elim: ds => [|d ds IH] //= hnd [h1 h2]; inversion hnd; subst; rewrite path_sortedE; last exact: ltn_trans.
rewrite IH // andbT; apply/allP => n /mapIn[x hx ->].
have : (num x < num d)%N = false by rewrite -ltb_enc; exact: (h1 _ (List.in_map enc _ _ hx)).
move=> /negbT; rewrite -leqNgt leq_eqVlt => /orP[/eqP/num_inj e|//]; by exfalso; apply: H1; rewrite e.
Qed.
Lemma map_enc_Gp l : Forall VG l -> List.map enc (List.map Gp l) = l.
Proof. by elim=> [|x l' h _ IH] //=; rewrite IH enc_Gp. Qed.
Lemma nodup_Gp ds : Forall VG ds -> List.NoDup ds -> List.NoDup (List.map Gp ds).
Proof.
move=> hv hnd; elim: hnd hv => [|x l hx hl IH] hv /=; first by constructor.
inversion hv as [|x1 x2 hc hvl]; subst; constructor; last exact: IH.
move=> /List.in_map_iff[y [e hy]]; apply: hx; have hy' := proj1 (List.Forall_forall _ _) hvl y hy.
by rewrite -(enc_Gp hc) -e enc_Gp.
Qed.
Lemma fs_nil (p : {poly F}) l : p != 0 -> factors_of num p l -> l = nil <-> (size p <= 1)%N.
Proof.
move=> p0 [h1 _ _ h3]; split=> [e|e].
  by rewrite -h3 e big_nil alg_polyC size_polyC lead_coef_eq0 p0.
case E : l h1 h3 => [//|[r c] l'] h1 h3; have [_ [hq _] hc] := h1 r c (or_introl erefl).
have : (r %| p) by rewrite -h3 dvdpZr ?lead_coef_eq0 // big_cons dvdp_mulr //= -{1}[r]expr1 dvdp_exp2l //; lia.
by move=> /(dvdp_leq p0) h; have := leq_trans hq (leq_trans h e); rewrite ltnn.
Qed.
(* all monic divisors *)
Lemma divisors_enc (p : {poly F}) l : p != 0 -> factors_of num p l -> (Z.of_nat (size p).-1 <= 30)%coqZ ->
  exists ds, [/\ get_all_divisors (gp_fops o) (record_of p l) one = Ok (List.map enc ds), sorted ltn [seq num d | d <- ds] &
    forall d, In d ds <-> d \is monic /\ d %| p].
Proof.
move=> p0 hf hd; have [hg hn] := good_enc p0 hf hd; have [ho io] := one_ok; case: (hf) => h1 _ _ h3.
have hne : facs (record_of p l) = [::] -> funit (record_of p l) <> None.
  rewrite /= => e; have e' : l = nil by case: (l) e. 
  by move/(fs_nil p0 hf): e'; rewrite /unit_of leqNgt => /negbTE ->.
have [ds [E [hs hnd] hv hin]] := divisors_gen (f := record_of p l) FS ho io hg hne hn.
exists (List.map Gp ds); rewrite (map_enc_Gp hv); split=> //.
- by apply: sorted_num; [exact: nodup_Gp|rewrite map_enc_Gp].
- by move=> d; rewrite hin fprod_enc -{1}h3 dvdpZr // lead_coef_eq0.
Qed.
(* the largest proper ones *)
Lemma maximal_enc (p : {poly F}) l : p != 0 -> factors_of num p l -> (Z.of_nat (size p).-1 <= 30)%coqZ ->
  if (size p <= 1)%N then get_maximal_proper_divisors (gp_fops o) (record_of p l) one = Ok None
  else exists ds, [/\ get_maximal_proper_divisors (gp_fops o) (record_of p l) one = Ok (Some (List.map enc ds)), sorted ltn [seq num d | d <- ds] &
    forall d, In d ds <-> exists q, [/\ q \is monic, irreducible_poly q & q * d = p]].
Proof.
move=> p0 hf hd; have [hg hn] := good_enc p0 hf hd; have [ho io] := one_ok; case: (hf) => h1 _ _ h3.
have fs0 := fs_nil p0 hf; case: leqP => e; first by rewrite /record_of (proj2 fs0 e) /unit_of ltnNge e.
have hne : facs (record_of p l) <> [::].
  rewrite /= => e'; have /fs0 h : l = nil by case: (l) e'.
  by move: e; rewrite ltnNge h.
have hu1 : forall u, funit (record_of p l) = Some u -> size (Gp u) = 1%N.
  by move=> u; rewrite /= /unit_of; case: ifP => //= _ [<-]; rewrite Gp_enc size_polyC lead_coef_eq0 p0.
have [ds [E [hs hnd] hv hin]] := maximal_gen (f := record_of p l) FS ho io hg (unit_enc_ok l p0) hne hu1.
exists (List.map Gp ds); rewrite (map_enc_Gp hv); split=> //.
- by apply: sorted_num; [exact: nodup_Gp|rewrite map_enc_Gp].
- by move=> d; rewrite hin uval_unit // fprod_enc mul_polyC h3.
Qed.
End Gen.
