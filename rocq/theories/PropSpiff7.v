(* Final theorems for the commands of cli/spiff on residue classes of polynomials over GF(p) (C101). *)
From Verif Require Import Base MIntMath MFac MIntmod MBits MF2Poly MMat MPoly MPolymod MPolyFac MLinalg MTextIO MPolyText MList MUnits MRandom MSpiff MSpiff2 MSpiff3 MSpiff4.
From Verif Require Import PIntMath PIntmod PMatCli5 PPolyText PSpiff PSpiff2 PSpiff3 PSpiff5 PSpiff7 PSpiff14.
From Coq Require Import Ascii String.
From mathcomp Require Import all_ssreflect all_algebra finfield ssrZ zify.
From Verif Require Import PMat PFp PPoly PPoly2 PPoly3 PFpPoly PropFpPoly PropFpPolymod PropLinalg PPolyText2 PPolyText3 PPolyText4 PSpiff12 PSpiff16 PropSpiff4 PRandom PropRandom.
From Verif Require PLinalg PropSpiff PropSpiff3 PropF2nPoly PropList PropPolyText PList6 PPhi PEuler.
Set Implicit Arguments.
Unset Strict Implicit.
Unset Printing Implicit Defensive.
Import GRing.Theory.
Delimit Scope Z_scope with coqZ.
Local Open Scope ring_scope.
Local Notation length := List.length.
Local Notation Forall2 := List.Forall2.
Local Notation Forall := List.Forall.
Local Notation In := List.In.

(* the residues of the coefficients of f mod m below the degree of m, the highest first, at least one; with commas between if p has
   two digits or more *)
Definition fpm_tx (p : nat) (m f : {poly 'F_p}) : text :=
  put_sep (if (9 < p)%N then [:: ","%char] else [::]) [seq res_tx ((f %% m)`_i) | i <- rev (iota 0 (maxn 1 (size m).-1))].

Section Run.
Variables (p : nat) (c : cache).
Hypothesis pp : prime p.
Hypothesis hP : (Z.of_nat p <= 46341)%coqZ.
Hypothesis hc : cache_valid c.
Context (qsi : list (intmod * Z) -> list (intmod * Z)) (qs : list (gmod fpmod * Z) -> list (gmod fpmod * Z)) (St : Type)
  (draw : St -> Z * St) (s0 : St) (other : string -> list text -> prog Z).
Local Notation run name args := (spiff (class_handler2 c qs draw s0 other) qsi draw s0 (txt name :: args)).
Local Notation P := (Z.of_nat p).
Local Notation o := (im_kops c).
Local Notation enc := (@fp_enc p).
Local Notation rd := (@fp_text p).
Local Notation num := (@fp_num p).
Local Notation ok := (ok pp hP hc).
Ltac known n h := rewrite (@PropSpiff.run_eq _ qsi St draw s0 n _ h erefl erefl erefl).

Lemma fpm_shw (m f : {poly 'F_p}) : m != 0 -> fpm_put (fp_menc m f) = Ok (fpm_tx m f).
Proof.
move=> m0; rewrite /fpm_put /fp_menc; cbn [gm_res gm_mod]; have [x [-> e]] := enc_head (f %% m); rewrite bind_ok e /fpm_tx /comma; congr (Ok (put_sep _ _)).
  by case: (Z.ltb_spec 9 P); case: ltnP => //; lia.
rewrite /pad -(pad_coefs (t0 := [:: "0"%char]) (m := m) (f := f %% m)) ?ltn_modp //.
rewrite /fp_enc -!/(cseq _) -/(@size _ _) !List.map_length.
by rewrite List.map_rev PropSpiff3.mapE -map_comp revE -map_rev.
Qed.

(* ---- texts ---- *)
Theorem C101_text (m f : {poly 'F_p}) : m != 0 -> rd (fpm_tx m f) (f %% m).
Proof.
move=> m0; have [k e] := fpm_put_eq m f; move: e; rewrite fpm_shw // => -[->].
have hz := zeros_small pp k (enc_small pp (f %% m)).
have := vtext_text pp hP hc _ hz; rewrite vals_zeros; apply.
by move=> /List.app_eq_nil [_]; exact: enc_ne.
Qed.
(* the text depends on the class only, and tells it *)
Theorem C101_text_class (m f g : {poly 'F_p}) : m != 0 -> fpm_tx m f = fpm_tx m g <-> m %| f - g.
Proof.
move=> m0; rewrite -mod_eq; split=> [e|/eqP e]; last by rewrite /fpm_tx e.
by apply/eqP; have h := C101_text g m0; rewrite -e in h; exact: (PropPolyText.C92_fp_meaning ok (C101_text f m0) h).
Qed.

(* the order of a unit *)
Lemma phi_bound (m : {poly 'F_p}) : (PPhi.phi m <= p ^ (size m).-1)%N.
Proof. by rewrite /PPhi.phi; apply: leq_trans (max_card _) _; rewrite card_matrix mul1n (PropFpFac.cardF pp). Qed.
Lemma loopS (S R : Type) n (step : S -> res (S + R)) s : loop n.+1 step s =
  match step s with Ok (inl s') => loop n step s' | Ok (inr r) => Ok r | Exn => Exn | UB => UB | Div => Div end.
Proof. by []. Qed.
Section Ord.
Variables (m f : {poly 'F_p}) (k : nat).
Hypothesis m0 : m != 0.
Hypothesis hk : least_exp m f k.
Local Notation menc := (fp_menc m).
Lemma ord_step j : (Z.of_nat j < INT_MAX)%coqZ -> (0 < j)%N ->
  fp_ord_step c (menc f) (menc 1) (Z.of_nat j, menc (f ^+ j)) =
  if m %| f ^+ j - 1 then Ok (inr (Z.of_nat j)) else Ok (inl (Z.of_nat j.+1, menc (f ^+ j.+1))).
Proof.
move=> hj j0; have [_ [_ [e1 _]]] := PropFpPolymod.C35_ring ok m0 (f ^+ j) f; have [_ [_ [_ e2]]] := PropFpPolymod.C35_ring ok m0 (f ^+ j) 1.
rewrite /fp_ord_step e2 bind_ok; case: ifP => // _; rewrite e1 bind_ok /iadd /chk.
have -> : in_int (Z.of_nat j + 1)%coqZ = true by rewrite /in_int; apply/andP; split; apply/Z.leb_spec0; move: hj; rewrite /INT_MIN /INT_MAX; clear; lia.
by rewrite bind_ok exprSr; congr (Ok (inl (_, _))); clear; lia.
Qed.
Lemma ord_loop i j fuel : (i + j = k)%N -> (0 < j)%N -> (i < fuel)%N -> (Z.of_nat k <= INT_MAX)%coqZ ->
  loop fuel (fp_ord_step c (menc f) (menc 1)) (Z.of_nat j, menc (f ^+ j)) = Ok (Z.of_nat k).
Proof.
have [k0 h1 h2] := hk; elim: i j fuel => [|i IH] j [|fuel] // e j0 hf hI.
  rewrite add0n in e; subst j; rewrite loopS /fp_ord_step.
  by have [_ [_ [_ ->]]] := PropFpPolymod.C35_ring ok m0 (f ^+ k) 1; rewrite bind_ok h1.
have lt : (j < k)%N by rewrite -e; clear; lia.
rewrite loopS ord_step //; last by move/ltP: lt; move: hI; clear; lia.
rewrite (negbTE (h2 j _)) ?j0 //; apply: IH => //; by rewrite addnS -addSn.
Qed.
Lemma ord_over i j fuel : (Z.of_nat (i + j) = INT_MAX)%coqZ -> (0 < j)%N -> (i < fuel)%N -> (INT_MAX < Z.of_nat k)%coqZ ->
  loop fuel (fp_ord_step c (menc f) (menc 1)) (Z.of_nat j, menc (f ^+ j)) = UB.
Proof.
have [k0 h1 h2] := hk; elim: i j fuel => [|i IH] j [|fuel] // e j0 hf hI.
  rewrite add0n in e; have jk : (j < k)%N by apply/ltP; move: e hI; clear; lia.
  rewrite loopS /fp_ord_step; have [_ [_ [_ ->]]] := PropFpPolymod.C35_ring ok m0 (f ^+ j) 1; rewrite bind_ok (negbTE (h2 j _)) ?j0 //.
  by have [_ [_ [-> _]]] := PropFpPolymod.C35_ring ok m0 (f ^+ j) f; rewrite bind_ok e.
have jk : (j < k)%N by apply/ltP; move: e hI; rewrite -plusE; clear; lia.
rewrite loopS ord_step //; last by move: e; rewrite -plusE; clear; lia.
by rewrite (negbTE (h2 j _)) ?j0 //; apply: IH => //; rewrite addnS -addSn.
Qed.
Lemma ord_unit : coprimep m f.
Proof.
have [k0 h1 _] := hk; rewrite coprimep_sym; apply/inverse_coprime; exists (f ^+ k.-1).
by rewrite -exprS prednK.
Qed.
Lemma ord_small : (k <= p ^ (size m).-1)%N.
Proof.
have [k0 h1 h2] := hk; have [k' [[a1 a2 a3] a4]] := PEuler.order_exists m0 ord_unit.
have le : (k <= k')%N.
  rewrite leqNgt; apply/negP => lt; have := h2 k'; rewrite a1 lt -mod_eq a2 eqxx => /(_ isT); by [].
apply: leq_trans le _; apply: leq_trans (phi_bound m); apply: dvdn_leq a4.
by apply: PEuler.phi_gt0.
Qed.
Lemma ord_val : fp_ord c P (enc m) (menc f) = if (Z.of_nat k <=? INT_MAX)%coqZ then Ok (Z.of_nat k) else UB.
Proof.
rewrite /fp_ord.
have [//|z [-> hz]] := V_make pp hP (z := 0%coqZ); rewrite bind_ok; have [l [-> hl]] := const_ok (im_kspec pp hP hc) hz; rewrite (PropFpPoly.Genc pp hP hc hl) bind_ok.
have [-> _] := PropFpPolymod.C35_make ok ((0 : 'F_p)%:P) m0; rewrite bind_ok.
have [//|z1 [-> hz1]] := V_make pp hP (z := 1%coqZ); rewrite bind_ok; have [l1 [-> hl1]] := const_ok (im_kspec pp hP hc) hz1; rewrite (PropFpPoly.Genc pp hP hc hl1) bind_ok.
have [-> _] := PropFpPolymod.C35_make ok ((1 : 'F_p)%:P) m0; rewrite bind_ok polyC1.
have -> : S (Nat.pow (Z.to_nat P) (gp_degree (enc m))) = (p ^ (size m).-1).+1.
  by rewrite Nat2Z.id (PLinalg.degG (PropFpPoly.encG pp m)); congr S; elim: (_.-1) => //= n ->; rewrite expnS.
have [k0 _ _] := hk; have hs := ord_small; case: Z.leb_spec => hI.
  by rewrite -[f in (_, menc f)]expr1; apply: (@ord_loop k.-1 1) => //; [rewrite addn1 prednK|rewrite ltnS; apply: leq_trans hs; exact: leq_pred].
have [N hN] : exists N, (INT_MAX - 1)%coqZ = Z.of_nat N by apply: Z_of_nat_complete.
rewrite -[f in (_, menc f)]expr1; apply: (@ord_over N 1) => //.
  by rewrite -plusE Nat2Z.inj_add -hN; clear; lia.
by rewrite ltnS; apply: leq_trans hs; apply/leP; move: hI hN; clear; lia.
Qed.
End Ord.

Section Mod.
(* the texts of p and of the modulus m *)
Variables (m : {poly 'F_p}) (s1 sm : text).
Hypotheses (m0 : m != 0) (h1 : int_text s1 P) (hm : rd sm m).
Local Notation menc := (fp_menc m).
Local Notation tx := (fpm_tx m).
Local Notation d := (Z.of_nat (size m).-1).
Lemma H1 : arg_int s1 = ret P. Proof. exact: (arg_int_ok _ _ h1). Qed.
Lemma H2 : arg_fp c P sm = ret (enc m). Proof. exact: (Harg pp hP hc hm). Qed.
Lemma H3 s f : rd s f -> arg_fpm c (enc m) s = ret (menc f).
Proof. by move=> h; rewrite /arg_fpm (PropPolyText.C92_fpm_read ok m0 h). Qed.
Lemma Hs f : show_fpm (menc f) = MSpiff.print (tx f).
Proof. by rewrite /show_fpm /print_res (fpm_shw f m0) pb_ok. Qed.

(* ---- fp_pm_list ---- *)
Lemma list_run opt ty l : arg_type opt = ret ty -> fp_polymod_list c (enc m) ty = Ok (List.map menc l) ->
  run "fp_pm_list" [:: opt; s1; sm] = (lines_of tx l, Status 0).
Proof. by move=> a b; known "fp_pm_list" (fp_pm_list_main c); rewrite /fp_pm_list_main (two_list Hs H1 H2 a b). Qed.
Theorem C101_list_all : (Z.of_nat (size m) <= INT_MAX)%coqZ ->
  if PList6.pow_fits P d then exists l, residues num m (fun _ => True) l /\ run "fp_pm_list" [:: txt "-a"; s1; sm] = (lines_of tx l, Status 0)
  else run "fp_pm_list" [:: txt "-a"; s1; sm] = ([::], Undefined).
Proof.
move=> hs; have := PropList.C77_fp_all ok m0 hs; case: ifP => _ h.
  by have [l [a b]] := res_lists_all h; exists l; split=> //; apply: (list_run _ b).
by known "fp_pm_list" (fp_pm_list_main c); rewrite /fp_pm_list_main /two_list_main pb_ret (arg12_ok H1 H2) pb_ret h.
Qed.
Theorem C101_list_units : (Z.of_nat (size m) <= INT_MAX)%coqZ -> (P ^ (2 * d) <= INT_MAX)%coqZ ->
  exists l, residues num m (has_inverse m) l /\ run "fp_pm_list" [:: txt "-u"; s1; sm] = (lines_of tx l, Status 0).
Proof. by move=> hs hd; have [l [a b]] := res_lists (PropList.C77_fp_units ok m0 hs hd); exists l; split=> //; apply: (list_run _ b). Qed.
Theorem C101_list_nonunits : (1 < size m)%N -> (Z.of_nat (size m) <= INT_MAX)%coqZ -> (P ^ (2 * d) <= INT_MAX)%coqZ ->
  exists l, residues num m (fun f => ~ has_inverse m f) l /\ run "fp_pm_list" [:: txt "-nu"; s1; sm] = (lines_of tx l, Status 0).
Proof. by move=> m1 hs hd; have [l [a b]] := res_lists (PropList.C77_fp_nonunits ok m1 hs hd); exists l; split=> //; apply: (list_run _ b). Qed.
(* ---- fp_pm_tbl ---- *)
Lemma tbl_run opt k u : fp_kind (enc m) opt = ret k ->
  k_table show_fpm (gm_add o) (gm_sub o) (gm_mul o) (gm_div o) (fun _ _ => Exn) (fp_polymod_list c (enc m)) k = (u, Val tt) ->
  run "fp_pm_tbl" [:: s1; sm; opt] = (u, Status 0).
Proof. by move=> a b; known "fp_pm_tbl" (fp_pm_tbl_main c); rewrite /fp_pm_tbl_main (two_tbl H1 H2 a b). Qed.
Theorem C101_table_all : (Z.of_nat (size m) <= INT_MAX)%coqZ -> PList6.pow_fits P d -> exists l, [/\ residues num m (fun _ => True) l,
  run "fp_pm_tbl" [:: s1; sm; txt "+"] = (grid tx (fun a b => a + b) l, Status 0),
  run "fp_pm_tbl" [:: s1; sm; txt "-"] = (grid tx (fun a b => a - b) l, Status 0),
  run "fp_pm_tbl" [:: s1; sm; txt "*"] = (grid tx (fun a b => a * b) l, Status 0) &
  run "fp_pm_tbl" [:: s1; sm; txt "."] = (grid tx (fun a b => a * b) l, Status 0)].
Proof.
move=> hs hf; have := PropList.C77_fp_all ok m0 hs; rewrite hf => h; have [l [a b]] := res_lists_all h.
exists l; split=> //; (eapply tbl_run; first reflexivity); rewrite /k_table b pb_ok; apply: (grid_ok show_fpm menc tx Hs) => x y _ _;
  by have [k1 [k2 [k3 _]]] := PropFpPolymod.C35_ring ok m0 x y.
Qed.
Theorem C101_table_units : (Z.of_nat (size m) <= INT_MAX)%coqZ -> (P ^ (2 * d) <= INT_MAX)%coqZ -> exists l f, [/\ residues num m (has_inverse m) l,
  run "fp_pm_tbl" [:: s1; sm; txt "u*"] = (grid tx (fun a b => a * b) l, Status 0),
  run "fp_pm_tbl" [:: s1; sm; txt "u."] = (grid tx (fun a b => a * b) l, Status 0),
  run "fp_pm_tbl" [:: s1; sm; txt "/"] = (grid tx f l, Status 0) &
  forall a b, In a l -> In b l -> m %| f a b * b - a].
Proof.
move=> hs hd; have [l [a b]] := res_lists (PropList.C77_fp_units ok m0 hs hd).
have hu y : In y l -> coprimep y m by move=> /(proj2 a)[_ /inverse_coprime].
have hq x y : exists u : {poly 'F_p}, coprimep y m ==> (m %| u * y - x).
  by have := PropFpPolymod.C35_div ok m0 x y; case: ifP => hy; [move=> [u [_ hu']]; exists u|move=> _; exists 0].
have [q dq] : exists q : {poly 'F_p} -> {poly 'F_p} -> {poly 'F_p}, forall x y, coprimep y m -> m %| q x y * y - x.
  by exists (fun x y => xchoose (hq x y)) => x y hy; exact: (implyP (xchooseP (hq x y)) hy).
exists l, q; split=> // [| | |x y _ /hu]; last exact: dq.
- by (eapply tbl_run; first reflexivity); rewrite /k_table b pb_ok; apply: (grid_ok show_fpm menc tx Hs) => x y _ _; have [_ [_ [k3 _]]] := PropFpPolymod.C35_ring ok m0 x y.
- by (eapply tbl_run; first reflexivity); rewrite /k_table b pb_ok; apply: (grid_ok show_fpm menc tx Hs) => x y _ _; have [_ [_ [k3 _]]] := PropFpPolymod.C35_ring ok m0 x y.
(eapply tbl_run; first reflexivity); rewrite /k_table b pb_ok; apply: (grid_ok show_fpm menc tx Hs) => x y _ /hu hy.
have := PropFpPolymod.C35_div ok m0 x y; rewrite hy => -[u [-> hu']]; congr Ok; apply/(PropFpPolymod.C35_canonical ok) => //.
have hc' : coprimep m y by rewrite coprimep_sym.
rewrite -(Gauss_dvdpl _ hc'); have -> : (u - q x y) * y = (u * y - x) - (q x y * y - x) by rewrite mulrBl opprB addrA subrK.
by rewrite dvdp_sub // dq.
Qed.
(* the tables of logarithms are not offered, nor any other *)
Theorem C101_table_other opt : ~ In opt [:: txt "+"; txt "-"; txt "*"; txt "."; txt "u*"; txt "u."; txt "/"] ->
  run "fp_pm_tbl" [:: s1; sm; opt] = ([::], Status 1).
Proof.
move=> h; known "fp_pm_tbl" (fp_pm_tbl_main c); rewrite /fp_pm_tbl_main /two_tbl_main (arg12_ok H1 H2) pb_ret.
have no w : In (txt w) [:: txt "+"; txt "-"; txt "*"; txt "."; txt "u*"; txt "u."; txt "/"] -> teq opt w = false.
  move=> hw; rewrite /teq; case: (String.eqb_spec (string_of_list_ascii opt) w) => // e; case: h; move: hw.
  by rewrite -e /txt list_ascii_of_string_of_list_ascii.
rewrite /fp_kind !no //=; tauto.
Qed.
(* ---- fp_pm_ord: the least positive exponent k with f^k = 1 modulo m, ... ---- *)
Theorem C101_order s f k : rd s f -> least_exp m f k ->
  run "fp_pm_ord" [:: s1; sm; s] = if (Z.of_nat k <=? INT_MAX)%coqZ then (line (put_int (Z.of_nat k)), Status 0) else ([::], Undefined).
Proof.
move=> hs hk; known "fp_pm_ord" (fp_pm_ord_main c); rewrite /fp_pm_ord_main H1 pb_ret H2 pb_ret (H3 hs) pb_ret.
have := PropFpPolymod.C35_recip ok m0 f; rewrite coprimep_sym (ord_unit hk) => -[u [-> _]]; rewrite pb_ok (ord_val m0 hk).
by case: ifP => _ //; rewrite pb_ok /show pb_print /nl pb_print emit_emit emit_ret.
Qed.
(* ... which exists exactly if f has an inverse; for the others the command prints 0 *)
Theorem C101_order_exists f : has_inverse m f <-> exists k, least_exp m f k.
Proof.
split=> [/inverse_coprime|[k hk]]; last by apply/inverse_coprime; rewrite coprimep_sym (ord_unit hk).
rewrite coprimep_sym => h; have [k [[a1 a2 a3] _]] := PEuler.order_exists m0 h; exists k; split=> //; first by rewrite -mod_eq a2.
by move=> j /a3 /eqP; rewrite mod_eq.
Qed.
Theorem C101_order_nonunit s f : rd s f -> ~ has_inverse m f -> run "fp_pm_ord" [:: s1; sm; s] = (line (txt "0"), Status 0).
Proof.
move=> hs hf; known "fp_pm_ord" (fp_pm_ord_main c); rewrite /fp_pm_ord_main H1 pb_ret H2 pb_ret (H3 hs) pb_ret.
have := PropFpPolymod.C35_recip ok m0 f; case: ifP => [/inverse_coprime|_ ->] //.
Qed.
(* ---- fp_pm_min_pol, fp_pm_ch_pol ---- *)
Theorem C101_min_pol_partial args fs : irreducible_poly m -> (d <= INT_MAX)%coqZ -> args <> nil -> Forall2 rd args fs ->
  exists ps, Forall2 (min_pol m) fs ps /\ run "fp_pm_min_pol" (s1 :: sm :: args) = (listing tx (many fs) ": " fs (List.map (@fp_tx p) ps), Status 0).
Proof.
move=> mi hd hn ha.
have [||ps [a b]] := @PropSpiff3.F_choose _ _ (fun f q => fp_minimal_polynomial c (menc f) = Ok (enc q)) (min_pol m) (fun _ => True) fs.
- by elim: (fs) => [|x l IH]; constructor.
- by move=> f _; have [q [k1 k2 k3 _ _]] := C50_fp_minimal pp hP hc f mi hd; exists q.
exists ps; split=> //; known "fp_pm_min_pol" (fp_pm_min_pol_main c).
by rewrite /fp_pm_min_pol_main (two_pol H3 (Hshw pp draw s0) Hs H1 H2 hn ha a).
Qed.
Theorem C101_ch_pol_partial args fs : irreducible_poly m -> (d <= INT_MAX)%coqZ -> args <> nil -> Forall2 rd args fs ->
  run "fp_pm_ch_pol" (s1 :: sm :: args) =
    (listing tx (many fs) ": " fs (List.map (fun f => fp_tx (char_poly (mult_mx m f (size m).-1))) fs), Status 0).
Proof.
move=> mi hd hn ha.
have [||ps [a b]] := @PropSpiff3.F_choose _ _ (fun f q => fp_characteristic_polynomial c (menc f) = Ok (enc q)) (fun f q => q = char_poly (mult_mx m f (size m).-1)) (fun _ => True) fs.
- by elim: (fs) => [|x l IH]; constructor.
- by move=> f _; have [q [_ _ _ k4 k5]] := C50_fp_minimal pp hP hc f mi hd; eexists; rewrite k4; split; [reflexivity|exact: k5].
known "fp_pm_ch_pol" (fp_pm_ch_pol_main c); rewrite /fp_pm_ch_pol_main (two_pol H3 (Hshw pp draw s0) Hs H1 H2 hn ha a).
have -> : ps = List.map (fun f => char_poly (mult_mx m f (size m).-1)) fs by elim: b => //= f q l1 l2 -> _ ->.
by rewrite List.map_map.
Qed.
(* ---- fp_pm_random ---- *)
Theorem C101_random sn n : (1 < size m)%N -> int_text sn n ->
  run "fp_pm_random" [:: s1; sm; sn] = (lines_of (fun j => tx (rndF (size m).-1 (cfp p draw (iter (j * size m) (next draw) s0)))) (List.seq 0 (Z.to_nat n)), Status 0).
Proof.
move=> m1 hn; known "fp_pm_random" (fp_pm_random_main c draw s0); rewrite /fp_pm_random_main.
rewrite (two_random Hs H1 H2 (st := fun j => iter (j * size m) (next draw) s0) (cl := fun j => rndF (size m).-1 (cfp p draw (iter (j * size m) (next draw) s0))) hn) //.
by move=> j; rewrite (PropRandom.C84_fp_polymod draw pp hP hc) // mulSn iterD.
Qed.
Theorem C101_random_one : run "fp_pm_random" [:: s1; sm] = run "fp_pm_random" [:: s1; sm; txt "1"].
Proof. by known "fp_pm_random" (fp_pm_random_main c draw s0); known "fp_pm_random" (fp_pm_random_main c draw s0). Qed.
End Mod.
(* modulo a constant there is one residue, but none is printed, and the status is that of success *)
Theorem C101_random_small_refuted s1 sm (m : {poly 'F_p}) : int_text s1 P -> rd sm m -> (size m <= 1)%N -> run "fp_pm_random" [:: s1; sm] = ([::], Status 0).
Proof.
move=> h1 hm h; known "fp_pm_random" (fp_pm_random_main c draw s0); rewrite /fp_pm_random_main /two_random_main (H1 h1) pb_ret (H2 hm) pb_ret /=.
by rewrite PropRandom.C84_fp_polymod_small.
Qed.
(* the modulus 0 is refused by an exception: nothing is printed and the status is that of success *)
Theorem C101_zero_modulus_refuted s1 sm s f : int_text s1 P -> rd sm 0 -> rd s f ->
  Forall (fun name => run name [:: s1; sm; s] = ([::], Status 0)) [:: "fp_pm_ord"; "fp_pm_ch_pol"; "fp_pm_min_pol"]%string.
Proof.
move=> h1 hm hs; have e : fpm_scan c s (enc 0) = Exn.
  rewrite /fpm_scan; have [x [-> ex]] := @enc_head p 0; rewrite bind_ok ex (fp_scan_text pp hP hc hs) bind_ok /=.
  by rewrite (PropFpPolymod.C35_make_zero ok).
by repeat constructor; [known "fp_pm_ord" (fp_pm_ord_main c)|known "fp_pm_ch_pol" (fp_pm_ch_pol_main c)|known "fp_pm_min_pol" (fp_pm_min_pol_main c)];
  rewrite /fp_pm_ord_main /fp_pm_ch_pol_main /fp_pm_min_pol_main /two_pol_main /arg12 (H1 h1) pb_ret (H2 hm) pb_ret /per_calc /each /arg_fpm e.
Qed.
(* a text that is refused for a residue *)
Theorem C101_bad_residue s1 sm m s : int_text s1 P -> rd sm m -> fp_bad p s ->
  Forall (fun name => run name [:: s1; sm; s] = ([::], Status 1)) [:: "fp_pm_ord"; "fp_pm_ch_pol"; "fp_pm_min_pol"]%string.
Proof.
move=> h1 hm hs; have e : arg_fpm c (enc m) s = usage.
  rewrite /arg_fpm /fpm_scan; have [x [-> ex]] := @enc_head p m; rewrite bind_ok ex; have okp : PropPolyText.ok p c by split.
  case: hs => [[ts1 [vs [w [ts2 [k1 k2 k3 k4 k5]]]]]|[k1 k2 k3]].
    by have [l ->] := PropPolyText.C92_fp_reject okp k1 k2 k3 k4 k5.
  by have [l ->] := PropPolyText.C92_fp_reject_digit okp k1 k2 k3.
by repeat constructor; [known "fp_pm_ord" (fp_pm_ord_main c)|known "fp_pm_ch_pol" (fp_pm_ch_pol_main c)|known "fp_pm_min_pol" (fp_pm_min_pol_main c)];
  rewrite /fp_pm_ord_main /fp_pm_ch_pol_main /fp_pm_min_pol_main /two_pol_main /arg12 (H1 h1) pb_ret (H2 hm) pb_ret /per_calc /each e.
Qed.
Theorem C101_no_arguments s t : Forall (fun name => run name [::] = ([::], Status 1) /\ run name [:: s] = ([::], Status 1))
    [:: "fp_pm_list"; "fp_pm_tbl"; "fp_pm_ord"; "fp_pm_ch_pol"; "fp_pm_min_pol"; "fp_pm_random"]%string /\
  Forall (fun name => run name [:: s; t] = ([::], Status 1)) [:: "fp_pm_list"; "fp_pm_tbl"; "fp_pm_ord"; "fp_pm_ch_pol"; "fp_pm_min_pol"]%string.
Proof. by split; repeat constructor. Qed.
(* a text that is no number for p, or one that is refused for the modulus *)
Theorem C101_bad_modulus s1 s t : no_number s1 \/ (int_text s1 P /\ fp_bad p s) ->
  Forall (fun name => run name [:: s1; s; t] = ([::], Status 1)) [:: "fp_pm_tbl"; "fp_pm_ord"; "fp_pm_ch_pol"; "fp_pm_min_pol"; "fp_pm_random"]%string /\
  run "fp_pm_list" [:: txt "-a"; s1; s] = ([::], Status 1).
Proof.
move=> h; have e : arg12 arg_int (arg_fp c) s1 s = usage.
  by rewrite /arg12; case: h => [h|[h k]]; [rewrite (arg_int_none _ h)|rewrite (H1 h) pb_ret (Hbad pp hP hc k)].
split; last by known "fp_pm_list" (fp_pm_list_main c); rewrite /fp_pm_list_main /two_list_main pb_ret e.
repeat constructor; [known "fp_pm_tbl" (fp_pm_tbl_main c)|known "fp_pm_ord" (fp_pm_ord_main c)|known "fp_pm_ch_pol" (fp_pm_ch_pol_main c)|
  known "fp_pm_min_pol" (fp_pm_min_pol_main c)|known "fp_pm_random" (fp_pm_random_main c draw s0)].
- by rewrite /fp_pm_tbl_main /two_tbl_main e.
- by rewrite /fp_pm_ord_main; move: e; rewrite /arg12; case: h => [h|[h k]]; [rewrite (arg_int_none _ h)|rewrite (H1 h) !pb_ret (Hbad pp hP hc k)].
- by rewrite /fp_pm_ch_pol_main /two_pol_main e.
- by rewrite /fp_pm_min_pol_main /two_pol_main e.
by rewrite /fp_pm_random_main /two_random_main; case: h => [h|[h k]]; [rewrite (arg_int_none _ h)|rewrite (H1 h) pb_ret (Hbad pp hP hc k)].
Qed.
End Run.

(* moduli x^2 + 1, x^2 + 2x and x + 2 over GF(3), x^2 + x + 1 over GF(2), x^2 + 1 over GF(11) *)
Example C101_ex : let d := fun s : Z => (s, ((s * 5 + 1) mod 1024)%coqZ) in
  let run name args := let '(t, st) := spiff (class_handler2 cache_init (fun l => l) d 50%coqZ (fun _ _ => usage)) (fun l => l) d 0%coqZ
    (txt name :: List.map txt args) in (string_of_list_ascii t, st) in
  let nl := String "010"%char "" in
  [/\ [/\ run "fp_pm_list" [:: "-a"; "3"; "101"]%string = (("00" ++ nl ++ "01" ++ nl ++ "02" ++ nl ++ "10" ++ nl ++ "11" ++ nl ++ "12" ++ nl ++ "20" ++ nl ++ "21" ++ nl ++ "22" ++ nl)%string, Status 0),
       run "fp_pm_list" [:: "-u"; "2"; "101"]%string = (("01" ++ nl ++ "10" ++ nl)%string, Status 0),
       run "fp_pm_list" [:: "-nu"; "3"; "120"]%string = (("00" ++ nl ++ "10" ++ nl ++ "12" ++ nl ++ "20" ++ nl ++ "21" ++ nl)%string, Status 0) &
       run "fp_pm_tbl" [:: "3"; "12"; "-"]%string = (("0 2 1" ++ nl ++ "1 0 2" ++ nl ++ "2 1 0" ++ nl)%string, Status 0)],
     [/\ run "fp_pm_tbl" [:: "2"; "111"; "+"]%string = (("00 01 10 11" ++ nl ++ "01 00 11 10" ++ nl ++ "10 11 00 01" ++ nl ++ "11 10 01 00" ++ nl)%string, Status 0),
       run "fp_pm_tbl" [:: "2"; "111"; "u*"]%string = (("01 10 11" ++ nl ++ "10 11 01" ++ nl ++ "11 01 10" ++ nl)%string, Status 0),
       run "fp_pm_tbl" [:: "2"; "111"; "/"]%string = (("01 11 10" ++ nl ++ "10 01 11" ++ nl ++ "11 10 01" ++ nl)%string, Status 0) &
       run "fp_pm_tbl" [:: "2"; "111"; "log"]%string = (("")%string, Status 1)],
     [/\ run "fp_pm_ord" [:: "3"; "101"; "11"]%string = (("8" ++ nl)%string, Status 0),
       run "fp_pm_ord" [:: "3"; "120"; "10"]%string = (("0" ++ nl)%string, Status 0) &
       run "fp_pm_ord" [:: "3"; "0"; "11"]%string = (("")%string, Status 0)],
     [/\ run "fp_pm_ch_pol" [:: "3"; "101"; "2"; "11"]%string = (("02: 121" ++ nl ++ "11: 112" ++ nl)%string, Status 0),
       run "fp_pm_min_pol" [:: "3"; "101"; "2"; "11"]%string = (("02: 11" ++ nl ++ "11: 112" ++ nl)%string, Status 0),
       run "fp_pm_min_pol" [:: "11"; "1,0,1"; "2"; "3,4"]%string = (("0,2: 1,9" ++ nl ++ "3,4: 1,3,3" ++ nl)%string, Status 0) &
       run "fp_pm_random" [:: "3"; "1001"; "3"]%string = (("210" ++ nl ++ "211" ++ nl ++ "211" ++ nl)%string, Status 0)] &
     [/\ prime 2, irreducible_poly ('X^2 + 'X + 1 : {poly 'F_2}), fp_text (txt "111") ('X^2 + 'X + 1 : {poly 'F_2}) &
       PList6.pow_fits 2 2]].
Proof.
split; [by split; vm_compute|by split; vm_compute|by split; vm_compute|by split; vm_compute|].
split=> //; first exact: PropF2nPoly.p7_irr.
have -> : 'X^2 + 'X + 1 = Poly (rev [seq (int_of_Z (dig x))%:~R | x <- txt "111"]) :> {poly 'F_2}.
  by apply/polyP => -[|[|[|i]]]; rewrite coef_Poly !coefD coefXn coefX coef1 /= ?nth_nil ?add0r ?addr0.
by apply: fp_text_digits => //; repeat constructor.
Qed.

Print Assumptions C101_text.
Print Assumptions C101_text_class.
Print Assumptions C101_list_all.
Print Assumptions C101_list_units.
Print Assumptions C101_list_nonunits.
Print Assumptions C101_table_all.
Print Assumptions C101_table_units.
Print Assumptions C101_table_other.
Print Assumptions C101_order.
Print Assumptions C101_order_exists.
Print Assumptions C101_order_nonunit.
Print Assumptions C101_min_pol_partial.
Print Assumptions C101_ch_pol_partial.
Print Assumptions C101_random.
Print Assumptions C101_random_one.
Print Assumptions C101_random_small_refuted.
Print Assumptions C101_zero_modulus_refuted.
Print Assumptions C101_bad_residue.
Print Assumptions C101_no_arguments.
Print Assumptions C101_bad_modulus.
Print Assumptions C101_ex.
