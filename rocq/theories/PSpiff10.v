(* Commands of spiff on polynomials over GF(2): factors and divisors. *)
From Verif Require Import Base MIntMath MFac MIntmod MBits MF2Poly MF2Fac MTextIO MPolyText MUnits MList MSpiff MSpiff2.
From Verif Require Import PF2Poly PF2Poly3 PSpiff PSpiff2 PSpiff3 PSpiff7 PFacGen.
From mathcomp Require Import all_ssreflect all_algebra ssrZ zify.
From Verif Require Import PF2Poly2 PF2Poly4 PFacPoly PF2Fac1 PF2Fac2 PF2Fac3 PropLinalg PSpiff8 PSpiff9.
From Verif Require PropF2Poly.
Set Implicit Arguments.
Unset Strict Implicit.
Unset Printing Implicit Defensive.
Import GRing.Theory.
Delimit Scope Z_scope with coqZ.
Local Open Scope ring_scope.
Local Notation length := List.length.

(* the factors, in increasing order of their numbers *)
Fixpoint ascending (ns : list N) : Prop :=
  match ns with n :: ms => (forall m, List.In m ms -> (n < m)%num) /\ ascending ms | nil => True end.
Definition f2_factors (p : {poly 'F_2}) (fs : list ({poly 'F_2} * Z)) : Prop :=
  [/\ forall q c, List.In (q, c) fs -> irreducible_poly q /\ (1 <= c)%coqZ,
      ascending (List.map (fun f => f2_number f.1) fs) & \prod_(f <- fs) f.1 ^+ Z.to_nat f.2 = p].
Definition enc1 (f : {poly 'F_2} * Z) : fpoly * Z := (f2_enc f.1, f.2).
Definition f2_unit (p : {poly 'F_2}) : option {poly 'F_2} := if p == 1 then Some 1 else None.
Definition f2_record (p : {poly 'F_2}) fs : facinfo fpoly := mkfac (List.map enc1 fs) (option_map f2_enc (f2_unit p)).

Lemma monic_F2 (p : {poly 'F_2}) : p != 0 -> p \is monic.
Proof. by rewrite -lead_coef_eq0 monicE; case: (F2_case (lead_coef p)) => ->; rewrite ?eqxx. Qed.
Lemma V2_enc p : p != 0 -> V2 (f2_enc p).
Proof. by move=> h; have [h1 h2] := f2_encP p; split=> //; rewrite h2. Qed.
Lemma P_enc p : P (f2_enc p) = p. Proof. by case: (f2_encP p). Qed.
Lemma enc_P l : canon l -> f2_enc (P l) = l.
Proof. by move=> h; apply/esym/f2_encE. Qed.
Lemma ltb_enc p q : f_ltb f2_fops (f2_enc p) (f2_enc q) = N.ltb (f2_number p) (f2_number q).
Proof. by rewrite f2_ltbE ?number_enc //; [case: (f2_encP p) => -[]|case: (f2_encP q) => -[]]. Qed.
Lemma enc_inj p q : f2_enc p = f2_enc q -> p = q.
Proof. by move=> h; rewrite -(P_enc p) h P_enc. Qed.
Lemma map_enc_P l : List.Forall V2 l -> List.map f2_enc (List.map P l) = l.
Proof. by elim=> [|x l' [h _] _ IH] //=; rewrite IH enc_P. Qed.
Lemma map_enc1 l : List.Forall (fun e => V2 e.1) l -> List.map enc1 (List.map (fun e : fpoly * Z => (P e.1, e.2)) l) = l.
Proof. by elim=> [|[x c] l' [h _] _ IH] //=; rewrite IH /enc1 /= enc_P. Qed.
Lemma fprod_map (fs : list ({poly 'F_2} * Z)) : fprod P (List.map enc1 fs) = \prod_(f <- fs) f.1 ^+ Z.to_nat f.2.
Proof. by rewrite /fprod; elim: fs => [|f fs IH]; rewrite ?big_nil //= !big_cons IH P_enc. Qed.

Lemma f2_factor_enc m (p : {poly 'F_2}) : p != 0 -> (Z.of_nat (size p).-1 <= INT_MAX)%coqZ ->
  exists fs, f2_factor (Some m) (f2_enc p) = Ok (f2_record p fs) /\ f2_factors p fs.
Proof.
move=> p0 hd; rewrite /f2_factor f2_deg_enc bind_ok /f2_record /f2_unit.
case: (boolP (1 < size p)%N) => hp.
  have -> : Nat.eqb (size p).-1 0 = false by have := pred_pos hp; case: (size p).-1 => [|k] h //; lia.
  have -> : (p == 1) = false by apply/eqP=> h; move: hp; rewrite h size_poly1.
  have [|fin [c [-> [h1 h1'] h2 h3 _]]] := pre_ok (recurse := true) m (f2_encP p) hp (fuel_ok (f2_encP p)) (FI_empty _ _ _ _).
    by rewrite (_ : ftotal _ = 0%coqZ).
  have hv : List.Forall (fun e => V2 e.1) (facs fin) by apply: List.Forall_impl h1 => e [].
  exists (List.map (fun e => (P e.1, e.2)) (facs fin)); split; first by rewrite map_enc1 //; move: h2; case: (fin) => l u /= ->.
  split.
  - move=> q k /List.in_map_iff[e [[<- <-] he]]; move: (proj1 (List.Forall_forall _ _) h1 e he) => [_ hi hc]; by split.
  - rewrite List.map_map; clear - h1' hv; elim: hv h1' => [|e l [hc _] hl IH] //= [h1 h2]; split; last exact: IH.
    move=> n /List.in_map_iff[e' [<- he']]; have [hc' _] := proj1 (List.Forall_forall _ _) hl e' he'.
    by apply/N.ltb_lt; rewrite -ltb_enc !enc_P //; exact: (h1 _ (List.in_map fst _ _ he')).
  - by rewrite -fprod_map map_enc1 // h3 /fprod big_nil mul1r.
have p1 := size1_F2 p0 hp; rewrite p1 size_poly1 eqxx /=; exists nil; split=> //.
by split=> //; rewrite big_nil.
Qed.
(* the check that follows *)
Lemma f2_unfactor_enc p fs : p != 0 -> f2_factors p fs -> unfactor f2_fops (f2_record p fs) (f2_of_int 1) = Ok (f2_enc p).
Proof.
move=> p0 [h1 _ h3].
have e1 : f2_of_int 1 = f2_enc 1 by apply: f2_encE; exact: isP_int.
have [|||||z [-> [hz1 hz2]]] := unfactor_ok _ _ _ _ _ _ f2_fac_spec (f2_record p fs) (f2_of_int 1).
- by rewrite e1; apply: V2_enc; rewrite oner_eq0.
- by rewrite e1 P_enc.
- apply/List.Forall_forall=> e /List.in_map_iff[[q c] [<- /h1[hq hc]]]; split; last by rewrite /=; lia.
  by apply: V2_enc; rewrite -size_poly_gt0; apply: ltnW; case: hq.
- by rewrite /= /f2_unit; case: eqP => //= _; apply: V2_enc; rewrite oner_eq0.
- by [].
have : P z = p.
  rewrite hz2 /= lval_fprod fprod_map h3 /f2_unit; case: eqP => /= [->|_]; by rewrite ?P_enc mul1r.
by move=> e; congr Ok; rewrite -(enc_P (proj1 hz1)) e.
Qed.
Lemma V2_one : V2 (f2_of_int 1) /\ P (f2_of_int 1) = 1.
Proof.
have e1 : f2_of_int 1 = f2_enc 1 by apply: f2_encE; exact: isP_int.
by rewrite e1 P_enc; split=> //; apply: V2_enc; rewrite oner_eq0.
Qed.
Lemma f2_regular (q : {poly 'F_2}) : (1 < size q)%N -> regular f2_fops V2 P 1 (f2_enc q).
Proof.
move=> hq; have q0 := sz_pos hq; split.
- have [c [e hc]] := add_W (isP_W (f2_encP q)) (isP_W (f2_encP q)).
  exists c; split; first exact: e.
  have z : q + q = 0 by rewrite -{2}(oppF2 q) subrr.
  by rewrite /= (eqb_P (isP_W (f2_encP q)) (isP_W hc)) /= z; apply/negbTE.
- have [c [e hc]] := div_L (isP_L (f2_encP q)) (isP_L (f2_encP q)) q0; exists c; split; first exact: e.
  rewrite divpp // in hc; case: hc => h1 h2; split=> //; split=> //; by rewrite h2 oner_eq0.
Qed.
Lemma asc_nodup (fs : list ({poly 'F_2} * Z)) : ascending (List.map (fun f => f2_number f.1) fs) -> List.NoDup (List.map fst fs).
Proof.
elim: fs => [|f fs IH] /=; first by constructor.
move=> [h1 h2]; constructor; last exact: IH.
move=> /List.in_map_iff[g [e hg]]; have := h1 _ (List.in_map (fun f => f2_number f.1) _ _ hg); rewrite e; lia.
Qed.
Lemma in_enc1 (fs : list ({poly 'F_2} * Z)) : List.map (fun e => P e.1) (List.map enc1 fs) = List.map fst fs.
Proof. by rewrite List.map_map; apply: List.map_ext => f; rewrite /= P_enc. Qed.
Lemma f2_good (p : {poly 'F_2}) fs : p != 0 -> f2_factors p fs -> (Z.of_nat (size p).-1 <= 30)%coqZ ->
  good f2_fops V2 P (List.map enc1 fs) /\ (ndiv (List.map enc1 fs) <= INT_MAX)%coqZ.
Proof.
move=> p0 [h1 h2 h3] hd.
have hf : List.Forall (fun e => irreducible_poly (P e.1) /\ (1 <= e.2)%coqZ) (List.map enc1 fs).
  by apply/List.Forall_forall=> e /List.in_map_iff[[q c] [<- /h1[hq hc]]]; rewrite /= P_enc.
have [ht _] := total_size (I := P) hf; rewrite fprod_map h3 in ht.
have [hn h0] : (ndiv (List.map enc1 fs) <= 2 ^ PFacGen.total (List.map enc1 fs))%coqZ /\ (0 <= PFacGen.total (List.map enc1 fs))%coqZ.
  by apply: ndiv_le; apply: List.Forall_impl hf => e [].
have b : (2 ^ PFacGen.total (List.map enc1 fs) <= 2 ^ 30)%coqZ by apply: Z.pow_le_mono_r => //; exact: Z.le_trans ht hd.
split; last by move: b; change (2 ^ 30)%coqZ with 1073741824%coqZ; change INT_MAX with 2147483647%coqZ; lia.
split; last by rewrite in_enc1; exact: asc_nodup.
have cb : forall e, List.In e (List.map enc1 fs) -> (e.2 <= PFacGen.total (List.map enc1 fs))%coqZ.
  clear - hf; elim: hf => [|e l [_ h] hl IH] //= e' [<-|/IH]; rewrite -/(PFacGen.total l).
  - suff : (0 <= PFacGen.total l)%coqZ by lia.
    by clear - hl; elim: hl => [|x l' [_ h] _ IH] //=; rewrite -/(PFacGen.total l'); lia.
  - lia.
apply/List.Forall_forall=> e he; have := cb e he; move/List.in_map_iff: he => [[q c] [<- /h1[hq hc]]] /= hb.
have q1 : (1 < size q)%N by case: hq.
split=> //; rewrite ?P_enc //; [exact: V2_enc (sz_pos q1)|exact: monic_F2 (sz_pos q1)|exact: f2_regular|].
have t30 := Z.le_trans _ _ _ ht hd; change INT_MAX with 2147483647%coqZ; clear - hb hc t30; lia.
Qed.
Lemma sorted_asc ds : List.NoDup ds -> sorted_le f2_fops (List.map f2_enc ds) -> ascending (List.map f2_number ds).
Proof.
elim: ds => [|d ds IH] //= hnd [h1 h2]; inversion hnd; subst; split; last exact: IH.
move=> n /List.in_map_iff[x [<- hx]]; have h : (f2_number d <= f2_number x)%num by apply/N.ltb_ge; rewrite -ltb_enc; exact: (h1 _ (List.in_map f2_enc _ _ hx)).
have [e|] : (f2_number d = f2_number x \/ f2_number d < f2_number x)%num by lia.
- by exfalso; apply: H1; rewrite (number_inj e).
- by [].
Qed.
Lemma nodup_P ds : List.Forall V2 ds -> List.NoDup ds -> List.NoDup (List.map P ds).
Proof.
move=> hv hnd; elim: hnd hv => [|x l hx hl IH] hv /=; first by constructor.
inversion hv as [|x1 x2 [hc _] hvl]; subst; constructor; last exact: IH.
move=> /List.in_map_iff[y [e hy]]; apply: hx; have [hy' _] := proj1 (List.Forall_forall _ _) hvl y hy.
by rewrite -(enc_P hc) -e enc_P.
Qed.
(* all divisors *)
Lemma f2_divisors_enc (p : {poly 'F_2}) fs : p != 0 -> f2_factors p fs -> (Z.of_nat (size p).-1 <= 30)%coqZ ->
  exists ds, [/\ get_all_divisors f2_fops (f2_record p fs) (f2_of_int 1) = Ok (List.map f2_enc ds), ascending (List.map f2_number ds) &
    forall d, List.In d ds <-> d %| p].
Proof.
move=> p0 hf hd; have [hg hn] := f2_good p0 hf hd; have [ho io] := V2_one; case: (hf) => h1 _ h3.
have hne : facs (f2_record p fs) = [::] -> funit (f2_record p fs) <> None.
  rewrite /= => e; have e' : fs = nil by case: (fs) e. 
  by move: h3; rewrite e' big_nil => <-; rewrite /f2_unit eqxx.
have [ds [E [hs hnd] hv hin]] := divisors_gen (f := f2_record p fs) f2_fac_spec ho io hg hne hn.
exists (List.map P ds); rewrite (map_enc_P hv); split=> //.
- by apply: sorted_asc; [exact: nodup_P|rewrite map_enc_P].
- move=> d; rewrite hin fprod_map h3; split=> [[]|h] //; split=> //; apply: monic_F2.
  by apply: contraNneq p0 => e; move: h; rewrite e dvd0p.
Qed.
(* the largest proper ones *)
Lemma f2_maximal_enc (p : {poly 'F_2}) fs : p != 0 -> f2_factors p fs -> (Z.of_nat (size p).-1 <= 30)%coqZ ->
  if p == 1 then get_maximal_proper_divisors f2_fops (f2_record p fs) (f2_of_int 1) = Ok None
  else exists ds, [/\ get_maximal_proper_divisors f2_fops (f2_record p fs) (f2_of_int 1) = Ok (Some (List.map f2_enc ds)), ascending (List.map f2_number ds) &
    forall d, List.In d ds <-> exists q, irreducible_poly q /\ q * d = p].
Proof.
move=> p0 hf hd; have [hg hn] := f2_good p0 hf hd; have [ho io] := V2_one; case: (hf) => h1 _ h3.
have fs0 : fs = nil <-> p = 1.
  split=> [e|e]; first by move: h3; rewrite e big_nil.
  case E : fs h1 h3 => [//|[q c] fs'] h1 h3; have [[hq _] hc] := h1 q c (or_introl erefl).
  have : (q %| p) by rewrite -h3 big_cons dvdp_mulr //= -{1}[q]expr1 dvdp_exp2l //; lia.
  by rewrite e dvdp1 => /eqP h; rewrite h in hq.
rewrite /f2_record /f2_unit; case: eqP => [e|e] /=; first by rewrite (proj2 fs0 e).
have hne : facs (f2_record p fs) <> [::] by rewrite /= => e'; apply: e; apply/fs0; case: (fs) e'.
have eu : f2_unit p = None by rewrite /f2_unit; case: eqP.
have hu : unit_ok V2 (funit (f2_record p fs)) by rewrite /= eu.
have hu1 : forall u, funit (f2_record p fs) = Some u -> size (P u) = 1%N by rewrite /= eu.
have [ds [E [hs hnd] hv hin]] := maximal_gen (f := f2_record p fs) f2_fac_spec ho io hg hu hne hu1.
move: E; rewrite /f2_record eu => E; exists (List.map P ds); rewrite (map_enc_P hv); split=> //.
- by apply: sorted_asc; [exact: nodup_P|rewrite map_enc_P].
- move=> d; rewrite hin /= eu /= mul1r fprod_map h3; split=> [[q [_ h]]|[q [hq h]]]; first by exists q.
  by exists q; split=> //; apply: monic_F2; apply: contraNneq p0 => e'; rewrite -h e' mul0r.
Qed.
