(* Final theorems for the commands of cli/spiff on residue classes of polynomials over GF(2^n) (C102). *)
From Verif Require Import Base MIntMath MFac MIntmod MBits MF2Poly MMat MPoly MPolymod MF2nPoly MPolyFac MLinalg MTextIO MPolyText MList MUnits MRandom MSpiff MSpiff2 MSpiff3 MSpiff4.
From Verif Require Import PF2Poly PF2Poly3 PIntMath PIntmod PSort PUnits PMatCli5 PPolyText PPolyText6 PSpiff PSpiff2 PSpiff3 PSpiff5 PSpiff7 PSpiff14.
From Coq Require Import Ascii String.
From mathcomp Require Import all_ssreflect all_algebra finfield ssrZ zify.
From Verif Require Import PMat PPoly PPoly2 PPoly3 PF2Poly2 PF2Poly4 PF2n PropF2nPoly PropF2nPolymod PropLinalg PPolyText2 PPolyText3 PPolyText7 PSpiff8 PSpiff12 PSpiff13 PSpiff16 PropSpiff5 PRandom PropRandom PropF2nUnits.
From Verif Require PropSpiff PropSpiff3 PropList PropPolyText PList6 PPolyFac PropF2Poly.
Set Implicit Arguments.
Unset Strict Implicit.
Unset Printing Implicit Defensive.
Import GRing.Theory.
Delimit Scope Z_scope with coqZ.
Local Open Scope ring_scope.
Local Notation length := List.length.
Local Notation Forall2 := List.Forall2.
Local Notation Forall := List.Forall.
Local Notation In := List.In.

(* the hexadecimal numbers of the coefficients of f mod m below the degree of m, the highest first, at least one; with colons between *)
Definition g2m_tx (G : gf2) (m f : {poly gf_L G}) : text :=
  put_sep [:: ":"%char] [seq el_tx ((f %% m)`_i) | i <- rev (iota 0 (maxn 1 (size m).-1))].

Section Run.
Variable G : gf2.
Context (c : cache) (qsi : list (intmod * Z) -> list (intmod * Z)) (qs : list (gmod fpmod * Z) -> list (gmod fpmod * Z)) (St : Type)
  (draw : St -> Z * St) (s0 : St) (other : string -> list text -> prog Z).
Local Notation run name args := (spiff (class_handler2 c qs draw s0 other) qsi draw s0 (txt name :: args)).
Local Notation L := (gf_L G).
Local Notation b := (gf_m G).
Local Notation n := (size (gf_m G)).-1.
Local Notation o := f2n_kops.
Local Notation enc := (@g2_enc G).
Local Notation rd := (@g2_text G).
Local Notation num := (@g2_num G).
Local Notation at_root r := ((map_poly (gf_emb G) r).[gf_z G]).
Ltac known n h := rewrite (@PropSpiff.run_eq _ qsi St draw s0 n _ h erefl erefl erefl).

Lemma el_tx0 : el_tx (0 : L) = [:: "0"%char].
Proof.
have [v0 i0] := elR (0 : L); rewrite /el_tx.
have e : g2_val (0 : L) == 0%N by rewrite -[g2_val (0 : L)]/(kg (gf_el (0 : L))) (kg0 v0) i0.
by rewrite (eqP e).
Qed.
Lemma g2m_shw (m f : {poly L}) : m != 0 -> f2nm_put (g2_menc m f) = Ok (g2m_tx m f).
Proof.
move=> m0; rewrite /f2nm_put /g2_menc; cbn [gm_res gm_mod]; have [a [l ea]] := g2_head (f %% m); rewrite {1}ea [getk _ _]/= bind_ok.
have [r [_ -> _]] := el_res a; rewrite colon_eq bind_ok g2_rev put_els bind_ok /g2m_tx /pad -(pad_coefs (t0 := [:: "0"%char]) (m := m) (f := f %% m)) ?ltn_modp //; last exact: el_tx0.
by rewrite /g2_enc -!/(cseq _) !List.map_length.
Qed.
(* ---- texts ---- *)
Theorem C102_text (m f : {poly L}) : m != 0 -> rd (g2m_tx m f) (f %% m).
Proof.
move=> m0; rewrite /g2m_tx; set N := maxn 1 _.
have [ts [rs [e h2 h3 h4 h5]]] := put_f2s [seq (f %% m)`_i | i <- rev (iota 0 N)].
move: e; rewrite put_els -map_comp => -[e]; exists ts, rs; rewrite [map _ _]e; split=> //; [exact: put_sep_spread|by apply: xd_ok => //; constructor| |].
  move=> k; move: e; rewrite k => /(congr1 size); rewrite size_map size_rev size_iota /N; by case: (_.-1) => // -[].
rewrite h5 -map_rev revK; apply/polyP=> i; rewrite coef_Poly; case: (ltnP i N) => hi.
  by rewrite (nth_map 0%N) ?size_iota // nth_iota.
rewrite [RHS]nth_default ?nth_default ?size_map ?size_iota //.
apply: leq_trans hi; have : (size (f %% m)%R < size m)%N by rewrite ltn_modp.
by rewrite /N; case: (size m) => //= k; rewrite ltnS => /leq_trans; apply; exact: leq_maxr.
Qed.
(* the text depends on the class only, and tells it *)
Theorem C102_text_class (m f g : {poly L}) : m != 0 -> g2m_tx m f = g2m_tx m g <-> m %| f - g.
Proof.
move=> m0; rewrite -mod_eq; split=> [e|/eqP e]; last by rewrite /g2m_tx e.
by apply/eqP; have h := C102_text g m0; rewrite -e in h; exact: (g2_meaning (C102_text f m0) h).
Qed.

(* sb: the text of the modulus of the field *)
Variable sb : text.
Hypothesis hb : f2_rd sb b.
Lemma H1 : arg_f2 sb = ret (f2_enc b). Proof. exact: (f2_arg hb). Qed.
Section Mod.
Variables (m : {poly L}) (sm : text).
Hypotheses (m0 : m != 0) (hm : rd sm m).
Local Notation menc := (g2_menc m).
Local Notation tx := (g2m_tx m).
Local Notation d := (Z.of_nat (size m).-1).
Local Notation N := (Z.of_nat n).
Lemma H2 : arg_f2n (f2_enc b) sm = ret (enc m). Proof. exact: g2_arg. Qed.
Lemma H3 s f : rd s f -> arg_f2nm (enc m) s = ret (menc f).
Proof. by move=> [ts [rs [h1 h2 h3 h4 ->]]]; rewrite /arg_f2nm (PropPolyText.C92_f2nm_read m0 h1 h2 h3 h4). Qed.
Lemma Hs f : show_f2nm (menc f) = MSpiff.print (tx f).
Proof. by rewrite /show_f2nm /print_res (g2m_shw f m0) pb_ok. Qed.

(* ---- f2n_pm_list ---- *)
Lemma list_run opt ty l : arg_type opt = ret ty -> f2n_polymod_list (enc m) ty = Ok (List.map menc l) ->
  run "f2n_pm_list" [:: opt; sb; sm] = (lines_of tx l, Status 0).
Proof. by move=> h1 h2; known "f2n_pm_list" f2n_pm_list_main; rewrite /f2n_pm_list_main (two_list Hs H1 H2 h1 h2). Qed.
Theorem C102_list_all_partial : (N <= 30)%coqZ -> (d * N <= 30)%coqZ ->
  exists l, residues num m (fun _ => True) l /\ run "f2n_pm_list" [:: txt "-a"; sb; sm] = (lines_of tx l, Status 0).
Proof. by move=> hn hd; have [l [h1 h2]] := res_lists_all (PropList.C77_f2n_all hn m0 hd); exists l; split=> //; apply: (list_run _ h2). Qed.
Theorem C102_list_units_partial : (N <= 30)%coqZ -> (2 * (d * N) <= 30)%coqZ ->
  exists l, residues num m (has_inverse m) l /\ run "f2n_pm_list" [:: txt "-u"; sb; sm] = (lines_of tx l, Status 0).
Proof. by move=> hn hd; have [l [h1 h2]] := res_lists (PropList.C77_f2n_units hn m0 hd); exists l; split=> //; apply: (list_run _ h2). Qed.
Theorem C102_list_nonunits_partial : (1 < size m)%N -> (N <= 30)%coqZ -> (2 * (d * N) <= 30)%coqZ ->
  exists l, residues num m (fun f => ~ has_inverse m f) l /\ run "f2n_pm_list" [:: txt "-nu"; sb; sm] = (lines_of tx l, Status 0).
Proof. by move=> m1 hn hd; have [l [h1 h2]] := res_lists (PropList.C77_f2n_nonunits hn m1 hd); exists l; split=> //; apply: (list_run _ h2). Qed.
(* ---- f2n_pm_tbl ---- *)
Local Notation kind s := (kind_of (arg_f2nm (enc m)) (f2n_gen (enc m)) s).
Lemma tbl_run opt k u : kind opt = ret k ->
  k_table show_f2nm (gm_add o) (gm_sub o) (gm_mul o) (gm_div o) (f2n_log qs) (f2n_polymod_list (enc m)) k = (u, Val tt) ->
  run "f2n_pm_tbl" [:: sb; sm; opt] = (u, Status 0).
Proof. by move=> h1 h2; known "f2n_pm_tbl" (f2n_pm_tbl_main qs); rewrite /f2n_pm_tbl_main (two_tbl H1 H2 h1 h2). Qed.
Theorem C102_table_all_partial : (N <= 30)%coqZ -> (d * N <= 30)%coqZ -> exists l, [/\ residues num m (fun _ => True) l,
  run "f2n_pm_tbl" [:: sb; sm; txt "+"] = (grid tx (fun f g => f + g) l, Status 0),
  run "f2n_pm_tbl" [:: sb; sm; txt "-"] = (grid tx (fun f g => f - g) l, Status 0),
  run "f2n_pm_tbl" [:: sb; sm; txt "*"] = (grid tx (fun f g => f * g) l, Status 0) &
  run "f2n_pm_tbl" [:: sb; sm; txt "."] = (grid tx (fun f g => f * g) l, Status 0)].
Proof.
move=> hn hd; have [l [h1 h2]] := res_lists_all (PropList.C77_f2n_all hn m0 hd).
exists l; split=> //; (eapply tbl_run; first reflexivity); rewrite /k_table h2 pb_ok; apply: (grid_ok show_f2nm menc tx Hs) => x y _ _;
  by have [k1 [k2 [k3 _]]] := C67_ring m0 x y.
Qed.
Lemma quo_choose : exists q : {poly L} -> {poly L} -> {poly L}, forall x y, coprimep y m -> m %| q x y * y - x /\ gm_div o (menc x) (menc y) = Ok (menc (q x y)).
Proof.
have hq x y : exists u : {poly L}, coprimep y m ==> (m %| u * y - x).
  by have := C67_div m0 x y; case: ifP => hy; [move=> [u [_ hu']]; exists u|move=> _; exists 0].
have [q dq] : exists q : {poly L} -> {poly L} -> {poly L}, forall x y, coprimep y m -> m %| q x y * y - x.
  by exists (fun x y => xchoose (hq x y)) => x y hy; exact: (implyP (xchooseP (hq x y)) hy).
exists q => x y hy; split; first exact: dq.
have := C67_div m0 x y; rewrite hy => -[u [-> hu']]; congr Ok; apply/C67_canonical => //.
have hc' : coprimep m y by rewrite coprimep_sym.
rewrite -(Gauss_dvdpl _ hc'); have -> : (u - q x y) * y = (u * y - x) - (q x y * y - x) by rewrite mulrBl opprB addrA subrK.
by rewrite dvdp_sub // dq.
Qed.
Theorem C102_table_units_partial : (N <= 30)%coqZ -> (2 * (d * N) <= 30)%coqZ -> exists l f, [/\ residues num m (has_inverse m) l,
  run "f2n_pm_tbl" [:: sb; sm; txt "u*"] = (grid tx (fun f g => f * g) l, Status 0),
  run "f2n_pm_tbl" [:: sb; sm; txt "u."] = (grid tx (fun f g => f * g) l, Status 0),
  run "f2n_pm_tbl" [:: sb; sm; txt "/"] = (grid tx f l, Status 0) &
  forall x y, In x l -> In y l -> m %| f x y * y - x].
Proof.
move=> hn hd; have [l [h1 h2]] := res_lists (PropList.C77_f2n_units hn m0 hd).
have hu y : In y l -> coprimep y m by move=> /(proj2 h1)[_ /inverse_coprime].
have [q dq] := quo_choose; exists l, q; split=> // [| | |x y _ /hu /(dq x)[]] //.
- by (eapply tbl_run; first reflexivity); rewrite /k_table h2 pb_ok; apply: (grid_ok show_f2nm menc tx Hs) => x y _ _; have [_ [_ [k3 _]]] := C67_ring m0 x y.
- by (eapply tbl_run; first reflexivity); rewrite /k_table h2 pb_ok; apply: (grid_ok show_f2nm menc tx Hs) => x y _ _; have [_ [_ [k3 _]]] := C67_ring m0 x y.
by (eapply tbl_run; first reflexivity); rewrite /k_table h2 pb_ok; apply: (grid_ok show_f2nm menc tx Hs) => x y _ /hu /(dq x)[].
Qed.
(* the assumption made on the sorting function of the C library *)
Definition g2_qsort_ok (qs : list (gmod fpmod * Z) -> list (gmod fpmod * Z)) : Prop := sorts (gm_ltb o) (fun x => exists f, x = menc f) qs.
(* e is the exponent of a power of g *)
Definition g2_log (g f : {poly L}) (e : Z) : Prop := (0 <= e)%coqZ /\ m %| f - g ^+ Z.to_nat e.
(* f is a power of g with an exponent that the search is sure to reach *)
Definition reached (g f : {poly L}) : Prop := exists j, (j < 2 ^ (size m).-1)%N /\ m %| f - g ^+ j.
Lemma log_val g f : g2_qsort_ok qs -> (d <= 30)%coqZ -> coprimep m g -> reached g f -> exists e, f2n_log qs (menc g) (menc f) = Ok e /\ g2_log g f e.
Proof.
move=> hq hd hc [j [hj hf]]; have hc' : coprimep g m by rewrite coprimep_sym.
have [[e [h1 h2]]|[_ h]] := C72_log_partial m0 hq hd f hc'; last first.
  by case: (h j hj); apply/eqP; rewrite eq_sym mod_eq.
by exists (Z.of_nat e); rewrite h1; split=> //; split; [exact: Zle_0_nat|rewrite Nat2Z.id -mod_eq h2].
Qed.
Lemma logs_val g l : g2_qsort_ok qs -> (d <= 30)%coqZ -> coprimep m g -> (forall f, In f l -> reached g f) ->
  exists es, Forall2 (g2_log g) l es /\ Forall2 (fun f e => f2n_log qs (menc g) (menc f) = Ok e) l es.
Proof.
move=> hq hd hc hl; elim: l hl => [|f l IH] hl; first by exists [::]; split; constructor.
have [|es [h1 h2]] := IH; first by move=> x hx; apply: hl; right.
have [|e [k1 k2]] := log_val hq hd hc (hl f _); first by left.
by exists (e :: es); split; constructor.
Qed.
Lemma kind_log sg g : rd sg g -> kind (txt "log:" ++ sg)%list = ret (KLog (menc g)) /\ kind (txt "alog:" ++ sg)%list = ret (KAlog (menc g)).
Proof. by move=> hg; split; cbn; rewrite (H3 hg); case: (string_of_list_ascii sg). Qed.
Lemma units_small : (2 * (d * N) <= 30)%coqZ -> (d <= 30)%coqZ.
Proof.
have n1 : (1 <= N)%coqZ by have [k _] := gf_irr G; case: (size b) k => [|[|k]] // _; clear; lia.
by move=> h; have := Nat2Z.is_nonneg (size m).-1; move: n1 h; clear; nia.
Qed.
(* logarithms, if the search reaches all of them, ... *)
Theorem C102_table_log_partial sg g : rd sg g -> g2_qsort_ok qs -> (N <= 30)%coqZ -> (2 * (d * N) <= 30)%coqZ -> coprimep m g ->
  (forall f, coprimep m f -> reached g f) ->
  exists l es, [/\ residues num m (has_inverse m) l, Forall2 (g2_log g) l es & run "f2n_pm_tbl" [:: sb; sm; (txt "log:" ++ sg)%list] = (log_text tx l es, Status 0)].
Proof.
move=> hs hq hn hd hc hg; have [l [h1 h2]] := res_lists (PropList.C77_f2n_units hn m0 hd).
have [|es [h3 h4]] := logs_val (l := l) hq (units_small hd) hc.
  by move=> f /(proj2 h1)[_ /inverse_coprime]; rewrite coprimep_sym; exact: hg.
by exists l, es; split=> //; apply: (tbl_run (kind_log hs).1); exact: (table_log show_f2nm menc tx Hs).
Qed.
(* ... and powers of the unit g: as many as there are units *)
Lemma tbl_alog opt g : (N <= 30)%coqZ -> (2 * (d * N) <= 30)%coqZ -> coprimep m g -> kind opt = ret (KAlog (menc g)) ->
  exists l, residues num m (has_inverse m) l /\ run "f2n_pm_tbl" [:: sb; sm; opt] = (alog_text tx (fun k => g ^+ k) (length l), Status 0).
Proof.
move=> hn hd hc ho; have [l [h1 h2]] := res_lists (PropList.C77_f2n_units hn m0 hd); exists l; split=> //; apply: (tbl_run ho).
refine (table_alog _ show_f2nm menc rd tx H3 Hs (gm_add o) (gm_sub o) (gm_mul o) (gm_div o) (f2n_log qs) (f2n_polymod_list (enc m)) g (fun k => g ^+ k) l h2 _ _) => [|k]; last first.
  by have [_ [_ [-> _]]] := C67_ring m0 (g ^+ k) g; rewrite exprSr.
have hc' : coprimep g m by rewrite coprimep_sym.
have := C67_div m0 g g; rewrite hc' => -[u [-> h]]; congr Ok; apply/C67_canonical => //; rewrite expr0.
by move: h; have -> : u * g - g = (u - 1) * g by [rewrite mulrBl mul1r]; rewrite Gauss_dvdpl.
Qed.
Theorem C102_table_alog_partial sg g : rd sg g -> (N <= 30)%coqZ -> (2 * (d * N) <= 30)%coqZ -> coprimep m g ->
  exists l, residues num m (has_inverse m) l /\ run "f2n_pm_tbl" [:: sb; sm; (txt "alog:" ++ sg)%list] = (alog_text tx (fun k => g ^+ k) (length l), Status 0).
Proof. by move=> hs hn hd hg; apply: tbl_alog => //; have [] := kind_log hs. Qed.
(* ---- the generator with the lowest number ---- *)
Lemma gen_val : irreducible_poly m -> (N * d <= 15)%coqZ -> exists g, f2n_find_generator (enc m) = Ok (Some (menc g)) /\ lowest_root num m g.
Proof.
move=> mi hd; have [g [h1 h2 h3 h4 h5]] := C71_find_generator_partial mi hd; exists g; split=> //; split=> // [|q hq [k1 k2]].
  split=> [|f /h4[j h]]; first by rewrite coprimep_sym.
  by exists j; rewrite -mod_eq h.
apply: h5 => //; first by rewrite coprimep_sym.
by move=> f /k2[j h]; exists j; apply/eqP; rewrite mod_eq.
Qed.
Theorem C102_table_found_partial : irreducible_poly m -> (N * d <= 15)%coqZ -> exists g, lowest_root num m g /\
  exists l, residues num m (has_inverse m) l /\ run "f2n_pm_tbl" [:: sb; sm; txt "alog"] = (alog_text tx (fun k => g ^+ k) (length l), Status 0).
Proof.
move=> mi hd; have [g [h1 h2]] := gen_val mi hd; have [_ [h3 _] _] := h2; exists g; split=> //.
have d1 : (1 <= d)%coqZ by have [k _] := mi; case: (size m) k => [|[|k]] // _; clear; lia.
apply: tbl_alog => //.
- by move: hd d1; clear; nia.
- by move: hd; clear; nia.
by rewrite /kind_of /= /f2n_gen h1 pb_ok pb_ret.
Qed.
(* ---- f2n_pm_ord ---- *)
Lemma order_val f : (N <= 30)%coqZ -> coprimep m f -> (N * d <= 15)%coqZ -> exists k, f2n_order (menc f) = Ok (Z.of_nat k) /\ least_exp m f k.
Proof.
move=> hn hc hd; have hc' : coprimep f m by rewrite coprimep_sym.
have [k [h1 [h2 h3 h4]]] := C71_order_partial m0 hn hd hc'; exists k; split=> //; split=> // [|j hj]; first by rewrite -mod_eq h3.
by rewrite -mod_eq; apply/eqP; exact: h4.
Qed.
Theorem C102_order_partial args fs : (N <= 30)%coqZ -> (N * d <= 15)%coqZ -> args <> nil -> Forall2 rd args fs -> Forall (coprimep m) fs ->
  exists ks, Forall2 (least_exp m) fs ks /\
    run "f2n_pm_ord" (sb :: sm :: args) = (listing tx (many fs) ": " fs (List.map (fun k => put_int (Z.of_nat k)) ks), Status 0).
Proof.
move=> hn hd hne ha hc.
have [ks [h1 h2]] := PropSpiff3.F_choose hc (fun f hf => order_val hn hf hd).
exists ks; split=> //; known "f2n_pm_ord" f2n_pm_ord_main.
have -> : f2n_pm_ord_main (sb :: sm :: args) = (per (arg_f2nm (enc m)) show_f2nm (several args) ": " (fun a => k <~ call (f2n_order a) ;~ show k ;~~ nl) args ;~~ ret 0%coqZ).
  by case: args hne {ha} => // a args _; rewrite /f2n_pm_ord_main (arg12_ok H1 H2) pb_ret.
rewrite (several_many _ _ _ ha) (per_ok _ _ menc rd tx H3 Hs _ _ _ _ _ (List.map (fun k => put_int (Z.of_nat k)) ks) ha) ?pb_val ?emit_ret //.
apply: PropSpiff3.F2_map; by apply: PropSpiff3.F2_in h1 _ => f k /= ->; rewrite pb_ok.
Qed.
(* an argument that is not prime to m: nothing is printed, and the status is that of success *)
Theorem C102_order_nonunit_refuted s f : rd s f -> ~ has_inverse m f -> run "f2n_pm_ord" [:: sb; sm; s] = ([::], Status 0).
Proof.
move=> hs hf; known "f2n_pm_ord" f2n_pm_ord_main; rewrite /f2n_pm_ord_main (arg12_ok H1 H2) pb_ret /per /= (H3 hs) pb_ret.
by rewrite C71_order_nonunit //; apply/negP => /inverse_coprime.
Qed.
(* ---- f2n_pm_log ---- *)
Theorem C102_log_partial sg g args fs : rd sg g -> g2_qsort_ok qs -> (d <= 30)%coqZ -> coprimep m g -> args <> nil -> Forall2 rd args fs ->
  Forall (reached g) fs ->
  exists es, Forall2 (g2_log g) fs es /\ run "f2n_pm_log" (sb :: sm :: sg :: args) = (listing tx (many fs) ": " fs (List.map put_int es), Status 0).
Proof.
move=> hg hq hd hc hn ha hp; have [|es [h1 h2]] := logs_val (l := fs) hq hd hc; first exact/List.Forall_forall.
exists es; split=> //; known "f2n_pm_log" (f2n_pm_log_main qs).
have -> : f2n_pm_log_main qs (sb :: sm :: sg :: args) =
  (per (arg_f2nm (enc m)) show_f2nm (several args) ": " (fun a => e <~ call (f2n_log qs (menc g) a) ;~ show e ;~~ nl) args ;~~ ret 0%coqZ).
  by case: args hn {ha} => // a args _; rewrite /f2n_pm_log_main (arg12_ok H1 H2) pb_ret (H3 hg) pb_ret.
rewrite (several_many _ _ _ ha) (per_ok _ _ menc rd tx H3 Hs _ _ _ _ _ (List.map put_int es) ha) ?pb_val ?emit_ret //.
apply: PropSpiff3.F2_map; by apply: PropSpiff3.F2_in h2 _ => f e /= ->; rewrite pb_ok.
Qed.
(* a base that is no unit: nothing is printed, and the status is that of success *)
Theorem C102_log_nonunit_refuted sg g s f : rd sg g -> rd s f -> (d <= 30)%coqZ -> ~ has_inverse m g -> run "f2n_pm_log" [:: sb; sm; sg; s] = ([::], Status 0).
Proof.
move=> hg hs hd hc; known "f2n_pm_log" (f2n_pm_log_main qs); rewrite /f2n_pm_log_main (arg12_ok H1 H2) pb_ret (H3 hg) pb_ret /per /= (H3 hs) pb_ret.
by rewrite C72_log_nonunit //; apply/negP => /inverse_coprime.
Qed.
(* logarithms that exist, but are not found: for every irreducible m but the smallest *)
Theorem C102_log_refuted : irreducible_poly m -> g2_qsort_ok qs -> (d <= 30)%coqZ -> (2 <= (n - 1) * (size m).-1)%N ->
  exists g e, coprimep m g /\ run "f2n_pm_log" [:: sb; sm; g2m_tx m g; g2m_tx m (g ^+ e)] = ([::], Status 0).
Proof.
move=> mi hq hd hn; have [g [e [h1 h2]]] := C72_log_refuted mi hq hd hn; exists g, e; split; first by rewrite coprimep_sym.
known "f2n_pm_log" (f2n_pm_log_main qs); rewrite /f2n_pm_log_main (arg12_ok H1 H2) pb_ret (H3 (C102_text g m0)) pb_ret /per /= (H3 (C102_text (g ^+ e) m0)) pb_ret.
have red f : menc (f %% m) = menc f by rewrite /g2_menc modp_mod.
by rewrite !red h2.
Qed.
(* degree 32 and more: undefined behaviour *)
Theorem C102_log_large_refuted sg g s f : rd sg g -> rd s f -> (31 < (size m).-1)%N -> run "f2n_pm_log" [:: sb; sm; sg; s] = ([::], Undefined).
Proof.
move=> hg hs hd; known "f2n_pm_log" (f2n_pm_log_main qs); rewrite /f2n_pm_log_main (arg12_ok H1 H2) pb_ret (H3 hg) pb_ret /per /= (H3 hs) pb_ret.
by have [_ /(_ hd) ->] := C72_log_large_refuted m g qs (menc f).
Qed.
(* ---- f2n_pm_min_pol, f2n_pm_ch_pol ---- *)
Theorem C102_min_pol_partial args fs : (N <= 30)%coqZ -> irreducible_poly m -> (d <= INT_MAX)%coqZ -> args <> nil -> Forall2 rd args fs ->
  exists ps, Forall2 (min_pol m) fs ps /\ run "f2n_pm_min_pol" (sb :: sm :: args) = (listing tx (many fs) ": " fs (List.map (@g2_tx G) ps), Status 0).
Proof.
move=> hN mi hd hn ha.
have [||ps [h1 h2]] := @PropSpiff3.F_choose _ _ (fun f q => f2nm_minimal_polynomial (menc f) = Ok (enc q)) (min_pol m) (fun _ => True) fs.
- by elim: (fs) => [|x l IH]; constructor.
- by move=> f _; have [q [k1 k2 k3 _ _]] := C50_f2n_minimal_partial hN f mi hd; exists q.
exists ps; split=> //; known "f2n_pm_min_pol" f2n_pm_min_pol_main.
by rewrite /f2n_pm_min_pol_main (two_pol H3 (@g2_shw G) Hs H1 H2 hn ha h1).
Qed.
Theorem C102_ch_pol_partial args fs : (N <= 30)%coqZ -> irreducible_poly m -> (d <= INT_MAX)%coqZ -> args <> nil -> Forall2 rd args fs ->
  run "f2n_pm_ch_pol" (sb :: sm :: args) =
    (listing tx (many fs) ": " fs (List.map (fun f => g2_tx (char_poly (mult_mx m f (size m).-1))) fs), Status 0).
Proof.
move=> hN mi hd hn ha.
have [||ps [h1 h2]] := @PropSpiff3.F_choose _ _ (fun f q => f2nm_characteristic_polynomial (menc f) = Ok (enc q)) (fun f q => q = char_poly (mult_mx m f (size m).-1)) (fun _ => True) fs.
- by elim: (fs) => [|x l IH]; constructor.
- by move=> f _; have [q [_ _ _ k4 k5]] := C50_f2n_minimal_partial hN f mi hd; eexists; rewrite k4; split; [reflexivity|exact: k5].
known "f2n_pm_ch_pol" f2n_pm_ch_pol_main; rewrite /f2n_pm_ch_pol_main (two_pol H3 (@g2_shw G) Hs H1 H2 hn ha h1).
have -> : ps = List.map (fun f => char_poly (mult_mx m f (size m).-1)) fs by elim: h2 => //= f q l1 l2 -> _ ->.
by rewrite List.map_map.
Qed.
(* ---- f2n_pm_random ---- *)
Theorem C102_random sn k : int_text sn k ->
  run "f2n_pm_random" [:: sb; sm; sn] = (lines_of (fun j => tx (rndF (size m).-1 (cf2n G draw (iter (j * (size m * n)) (next draw) s0)))) (List.seq 0 (Z.to_nat k)), Status 0).
Proof.
move=> hn; known "f2n_pm_random" (f2n_pm_random_main draw s0); rewrite /f2n_pm_random_main.
rewrite (two_random Hs H1 H2 (st := fun j => iter (j * (size m * n)) (next draw) s0) (cl := fun j => rndF (size m).-1 (cf2n G draw (iter (j * (size m * n)) (next draw) s0))) hn) //.
by move=> j; rewrite C84_f2n_polymod // [in RHS]mulSn iterD.
Qed.
Theorem C102_random_one : run "f2n_pm_random" [:: sb; sm] = run "f2n_pm_random" [:: sb; sm; txt "1"].
Proof. by known "f2n_pm_random" (f2n_pm_random_main draw s0); known "f2n_pm_random" (f2n_pm_random_main draw s0). Qed.
End Mod.
(* ---- f2n_pm_find_gen ---- *)
Lemma gens_ok sev rv args ms gs : Forall2 rd args ms -> Forall (fun m => m != 0) ms -> Forall2 (fun m g => f2n_find_generator (enc m) = Ok (Some (g2_menc m g))) ms gs ->
  f2n_find_gens (f2_enc b) sev rv args = (listing (@g2_tx G) sev ": " ms (List.map (fun p => g2m_tx p.1 p.2) (List.combine ms gs)), Val rv).
Proof.
move=> h; elim: h gs => [|s m args' ms' hs _ IH] gs h0 hg; inversion hg as [|? g ? gs' h1 h2]; subst=> //=.
inversion h0 as [|? ? k1 k2]; subst.
rewrite (g2_arg hs) pb_ret h1 pb_ok (Hs k1) (IH _ k2 h2).
have -> : label sev (show_f2n (enc m)) ": " = ((if sev then g2_tx m ++ txt ": " else [::])%list, Val tt) by rewrite /label; case: sev {IH}; rewrite ?g2_shw.
rewrite pb_val /nl pb_print pb_print !emit_emit /listing /= emit_pair; congr (_, _); rewrite /line -!List.app_assoc //.
Qed.
Theorem C102_find_gen_partial args ms : args <> nil -> Forall2 rd args ms -> Forall (fun m => irreducible_poly m /\ (Z.of_nat n * Z.of_nat (size m).-1 <= 15)%coqZ) ms ->
  exists gs, Forall2 (lowest_root num) ms gs /\
    run "f2n_pm_find_gen" (sb :: args) = (listing (@g2_tx G) (many ms) ": " ms (List.map (fun p => g2m_tx p.1 p.2) (List.combine ms gs)), Status 0).
Proof.
move=> hn ha hi.
have [m [mi hd]|gs [h1 h2]] := @PropSpiff3.F_choose _ _ (fun m g => f2n_find_generator (enc m) = Ok (Some (g2_menc m g))) (lowest_root num) _ _ hi.
  by have [g [k1 k2]] := gen_val mi hd; exists g.
exists gs; split=> //; known "f2n_pm_find_gen" f2n_pm_find_gen_main.
have -> : f2n_pm_find_gen_main (sb :: args) = f2n_find_gens (f2_enc b) (several args) 0 args by case: args hn {ha} => // a args _; rewrite /f2n_pm_find_gen_main H1 pb_ret.
rewrite (several_many _ _ _ ha) (gens_ok _ _ ha _ h1) //.
by apply: List.Forall_impl hi => m [[k _] _]; rewrite -size_poly_gt0 ltnW.
Qed.
(* there is no generator modulo x^2 if n > 1, but that is not reported; nor is that a constant is no modulus for generators *)
Theorem C102_find_gen_refuted sm m : rd sm m -> (m = 'X^2 /\ (2 * Z.of_nat n <= 15)%coqZ) \/ (size m <= 1)%N -> run "f2n_pm_find_gen" [:: sb; sm] = ([::], Status 0).
Proof.
move=> hm h; known "f2n_pm_find_gen" f2n_pm_find_gen_main; rewrite /f2n_pm_find_gen_main H1 pb_ret /= (H2 hm) pb_ret /=.
by case: h => [[-> hn]|hs]; [rewrite C71_find_generator_refuted|rewrite C71_find_generator_constant].
Qed.
(* the modulus 0: nothing is printed, and the status is that of success *)
Theorem C102_zero_modulus_refuted sm s f : rd sm 0 -> rd s f ->
  Forall (fun name => run name [:: sb; sm; s] = ([::], Status 0)) [:: "f2n_pm_ord"; "f2n_pm_ch_pol"; "f2n_pm_min_pol"]%string /\ run "f2n_pm_random" [:: sb; sm] = ([::], Status 0).
Proof.
move=> hm hs; split; last first.
  by known "f2n_pm_random" (f2n_pm_random_main draw s0); rewrite /f2n_pm_random_main /two_random_main H1 pb_ret (H2 hm) pb_ret /= C84_f2n_polymod_0.
have e : arg_f2nm (enc 0) s = ([::], Throw).
  rewrite /arg_f2nm; move: hs => [ts [rs [h1 h2 h3 h4 _]]]; rewrite /f2nm_scan.
  have [a [l ea]] := g2_head (0 : {poly L}); rewrite {1}ea [getk _ _]/= bind_ok; have [r [_ -> _]] := el_res a.
  by rewrite (f2n_scan_ok G h1 h2 h3 h4) bind_ok /mod_from C67_make_zero.
by repeat constructor; [known "f2n_pm_ord" f2n_pm_ord_main|known "f2n_pm_ch_pol" f2n_pm_ch_pol_main|known "f2n_pm_min_pol" f2n_pm_min_pol_main];
  rewrite /f2n_pm_ord_main /f2n_pm_ch_pol_main /f2n_pm_min_pol_main /two_pol_main (arg12_ok H1 (H2 hm)) pb_ret /per /per_calc /each e.
Qed.
Theorem C102_no_arguments s t : Forall (fun name => run name [::] = ([::], Status 1) /\ run name [:: s] = ([::], Status 1))
    [:: "f2n_pm_list"; "f2n_pm_tbl"; "f2n_pm_ord"; "f2n_pm_find_gen"; "f2n_pm_log"; "f2n_pm_ch_pol"; "f2n_pm_min_pol"; "f2n_pm_random"]%string /\
  Forall (fun name => run name [:: s; t] = ([::], Status 1)) [:: "f2n_pm_list"; "f2n_pm_tbl"; "f2n_pm_ord"; "f2n_pm_log"; "f2n_pm_ch_pol"; "f2n_pm_min_pol"]%string.
Proof. by split; repeat constructor. Qed.
(* a text without a hexadecimal number for the modulus of the field, or one that is refused for the modulus *)
Theorem C102_bad_modulus s1 s2 t : no_hex s1 \/ (s1 = sb /\ g2_bad s2) ->
  Forall (fun name => run name [:: s1; s2; t] = ([::], Status 1)) [:: "f2n_pm_tbl"; "f2n_pm_ord"; "f2n_pm_find_gen"; "f2n_pm_ch_pol"; "f2n_pm_min_pol"; "f2n_pm_random"]%string /\
  run "f2n_pm_list" [:: txt "-a"; s1; s2] = ([::], Status 1) /\ run "f2n_pm_log" [:: s1; s2; t; t] = ([::], Status 1).
Proof.
move=> h; have e : arg12 arg_f2 arg_f2n s1 s2 = usage.
  by rewrite /arg12; case: h => [h|[-> k]]; [rewrite (arg_f2_no _ h)|rewrite H1 pb_ret (Hbad G k)].
split; last by split; [known "f2n_pm_list" f2n_pm_list_main; rewrite /f2n_pm_list_main /two_list_main pb_ret e|known "f2n_pm_log" (f2n_pm_log_main qs); rewrite /f2n_pm_log_main e].
repeat constructor; [known "f2n_pm_tbl" (f2n_pm_tbl_main qs)|known "f2n_pm_ord" f2n_pm_ord_main|known "f2n_pm_find_gen" f2n_pm_find_gen_main|known "f2n_pm_ch_pol" f2n_pm_ch_pol_main|
  known "f2n_pm_min_pol" f2n_pm_min_pol_main|known "f2n_pm_random" (f2n_pm_random_main draw s0)].
- by rewrite /f2n_pm_tbl_main /two_tbl_main e.
- by rewrite /f2n_pm_ord_main e.
- by rewrite /f2n_pm_find_gen_main; case: h => [h|[-> k]]; [rewrite (arg_f2_no _ h)|rewrite H1 pb_ret /= (Hbad G k)].
- by rewrite /f2n_pm_ch_pol_main /two_pol_main e.
- by rewrite /f2n_pm_min_pol_main /two_pol_main e.
by rewrite /f2n_pm_random_main /two_random_main; case: h => [h|[-> k]]; [rewrite (arg_f2_no _ h)|rewrite H1 pb_ret (Hbad G k)].
Qed.
(* a text that is refused for a residue *)
Theorem C102_bad_residue sm m s t g : rd sm m -> g2_bad s ->
  Forall (fun name => run name [:: sb; sm; s] = ([::], Status 1)) [:: "f2n_pm_ord"; "f2n_pm_ch_pol"; "f2n_pm_min_pol"]%string /\
  run "f2n_pm_log" [:: sb; sm; s; t] = ([::], Status 1) /\ (m != 0 -> rd t g -> run "f2n_pm_log" [:: sb; sm; t; s] = ([::], Status 1)) /\
  Forall (fun o => run "f2n_pm_tbl" [:: sb; sm; (txt o ++ s)%list] = ([::], Status 1)) [:: "log:"; "alog:"]%string.
Proof.
move=> hm hs; have e : arg_f2nm (enc m) s = usage.
  rewrite /arg_f2nm; move: hs => [ts1 [rs [b0 [u [ts2 [h1 h2 h3 h4 [h5 h6]]]]]]]; rewrite /f2nm_scan.
  have [a [l ea]] := g2_head m; rewrite {1}ea [getk _ _]/= bind_ok; have [r [_ -> _]] := el_res a.
  by have [l' ->] := PropPolyText.C92_f2n_reject G h1 h2 h3 h4 h5 h6.
split.
  by repeat constructor; [known "f2n_pm_ord" f2n_pm_ord_main|known "f2n_pm_ch_pol" f2n_pm_ch_pol_main|known "f2n_pm_min_pol" f2n_pm_min_pol_main];
    rewrite /f2n_pm_ord_main /f2n_pm_ch_pol_main /f2n_pm_min_pol_main /two_pol_main (arg12_ok H1 (H2 hm)) pb_ret /per /per_calc /each e.
split; first by known "f2n_pm_log" (f2n_pm_log_main qs); rewrite /f2n_pm_log_main (arg12_ok H1 (H2 hm)) pb_ret e.
split; first by move=> m0 ht; known "f2n_pm_log" (f2n_pm_log_main qs); rewrite /f2n_pm_log_main (arg12_ok H1 (H2 hm)) pb_ret (H3 m0 ht) pb_ret /per /= e.
have k o : kind_of (arg_f2nm (enc m)) (f2n_gen (enc m)) (txt o ++ s)%list = usage -> run "f2n_pm_tbl" [:: sb; sm; (txt o ++ s)%list] = ([::], Status 1).
  by move=> ek; known "f2n_pm_tbl" (f2n_pm_tbl_main qs); rewrite /f2n_pm_tbl_main /two_tbl_main (arg12_ok H1 (H2 hm)) pb_ret ek.
by apply: List.Forall_cons; [|apply: List.Forall_cons; last exact: List.Forall_nil]; apply: k; cbn; rewrite e; case: (string_of_list_ascii s).
Qed.
End Run.

(* over GF(4) modulo x + z, x^2 and x^2 + x + z; over GF(2) modulo x^2 + x + 1; the sorting is by insertion *)
Example C102_ex : let d := fun s : Z => (s, ((s * 5 + 1) mod 1024)%coqZ) in
  let run name args := let '(t, st) := spiff (class_handler2 cache_init (isort (gm_ltb f2n_kops)) d 50%coqZ (fun _ _ => usage)) (fun l => l) d 0%coqZ
    (txt name :: List.map txt args) in (string_of_list_ascii t, st) in
  let nl := String "010"%char "" in
  [/\ [/\ run "f2n_pm_list" [:: "-a"; "3"; "1:1:1"]%string = (("0:0" ++ nl ++ "0:1" ++ nl ++ "1:0" ++ nl ++ "1:1" ++ nl)%string, Status 0),
       run "f2n_pm_list" [:: "-u"; "7"; "1:0:0"]%string = (("0:1" ++ nl ++ "0:2" ++ nl ++ "0:3" ++ nl ++ "1:1" ++ nl ++ "1:2" ++ nl ++ "1:3" ++ nl ++ "2:1" ++ nl ++ "2:2" ++ nl ++ "2:3" ++ nl ++ "3:1" ++ nl ++ "3:2" ++ nl ++ "3:3" ++ nl)%string, Status 0) &
       run "f2n_pm_list" [:: "-nu"; "7"; "1:0:0"]%string = (("0:0" ++ nl ++ "1:0" ++ nl ++ "2:0" ++ nl ++ "3:0" ++ nl)%string, Status 0)],
     [/\ run "f2n_pm_tbl" [:: "7"; "1:2"; "+"]%string = (("0 1 2 3" ++ nl ++ "1 0 3 2" ++ nl ++ "2 3 0 1" ++ nl ++ "3 2 1 0" ++ nl)%string, Status 0),
       run "f2n_pm_tbl" [:: "7"; "1:2"; "u*"]%string = (("1 2 3" ++ nl ++ "2 3 1" ++ nl ++ "3 1 2" ++ nl)%string, Status 0),
       run "f2n_pm_tbl" [:: "7"; "1:2"; "/"]%string = (("1 3 2" ++ nl ++ "2 1 3" ++ nl ++ "3 2 1" ++ nl)%string, Status 0),
       run "f2n_pm_tbl" [:: "3"; "1:1:1"; "log:1:0"]%string = (("element power" ++ nl ++ "------- -----" ++ nl ++ "0:1 0" ++ nl ++ "1:0 1" ++ nl ++ "1:1 2" ++ nl)%string, Status 0) &
       run "f2n_pm_tbl" [:: "7"; "1:2"; "alog"]%string = (("power element" ++ nl ++ "----- -------" ++ nl ++ "0 1" ++ nl ++ "1 2" ++ nl ++ "2 3" ++ nl)%string, Status 0)],
     [/\ run "f2n_pm_ord" [:: "7"; "1:1:2"; "1:0"; "3"]%string = (("1:0: 15" ++ nl ++ "0:3: 3" ++ nl)%string, Status 0),
       run "f2n_pm_ord" [:: "7"; "1:1:0"; "1:0"]%string = (("")%string, Status 0),
       run "f2n_pm_find_gen" [:: "7"; "1:1:2"; "1:2"]%string = (("1:1:2: 1:0" ++ nl ++ "1:2: 2" ++ nl)%string, Status 0) &
       run "f2n_pm_find_gen" [:: "7"; "1:0:0"]%string = (("")%string, Status 0)],
     [/\ run "f2n_pm_log" [:: "7"; "1:1:2"; "1:0"; "1:2"; "1"]%string = (("1:2: 2" ++ nl ++ "0:1: 0" ++ nl)%string, Status 0),
       run "f2n_pm_log" [:: "7"; "1:1:2"; "1:0"; "2"]%string = (("")%string, Status 0),
       run "f2n_pm_ch_pol" [:: "7"; "1:1:2"; "1:0"; "3"]%string = (("1:0: 1:1:2" ++ nl ++ "0:3: 1:0:2" ++ nl)%string, Status 0),
       run "f2n_pm_min_pol" [:: "7"; "1:1:2"; "1:0"; "3"]%string = (("1:0: 1:1:2" ++ nl ++ "0:3: 1:3" ++ nl)%string, Status 0) &
       run "f2n_pm_random" [:: "7"; "1:1:2"; "3"]%string = (("0:2" ++ nl ++ "0:2" ++ nl ++ "0:2" ++ nl)%string, Status 0)] &
     exists G : gf2, [/\ gf_m G = 'X^2 + 'X + 1, f2_rd (txt "7") (gf_m G), g2_text (txt "1:0") ('X : {poly gf_L G}), irreducible_poly ('X : {poly gf_L G}) &
       forall m : {poly gf_L G}, m != 0 -> g2_qsort_ok m (isort (gm_ltb f2n_kops))]].
Proof.
split; [by split; vm_compute|by split; vm_compute|by split; vm_compute|by split; vm_compute|].
have [G e] := C62_field PropF2nPoly.p7_irr; exists G; split=> //.
- rewrite e /f2_rd -number_enc -(f2_encE PropF2Poly.p7); exists nil, (txt "7"), nil; split=> //; split; first by constructor.
  by split; first by repeat constructor.
- have := C99_text ('X : {poly gf_L G}); rewrite /g2_tx polyX_eq0 polyseqX.
  have e1 : el_tx (1 : gf_L G) = txt "1".
    by rewrite /el_tx; have [h e1] := elR (1 : gf_L G); have -> : g2_val (1 : gf_L G) = 1%N by have := kg1 h e1.
  by rewrite /= el_tx0 e1.
- by apply: PF2Fac2.lin_irr; rewrite size_polyX.
by move=> m m0; exact: C72_sorting_exists.
Qed.

Print Assumptions C102_text.
Print Assumptions C102_text_class.
Print Assumptions C102_list_all_partial.
Print Assumptions C102_list_units_partial.
Print Assumptions C102_list_nonunits_partial.
Print Assumptions C102_table_all_partial.
Print Assumptions C102_table_units_partial.
Print Assumptions C102_table_log_partial.
Print Assumptions C102_table_alog_partial.
Print Assumptions C102_table_found_partial.
Print Assumptions C102_order_partial.
Print Assumptions C102_order_nonunit_refuted.
Print Assumptions C102_log_partial.
Print Assumptions C102_log_nonunit_refuted.
Print Assumptions C102_log_refuted.
Print Assumptions C102_log_large_refuted.
Print Assumptions C102_min_pol_partial.
Print Assumptions C102_ch_pol_partial.
Print Assumptions C102_random.
Print Assumptions C102_random_one.
Print Assumptions C102_find_gen_partial.
Print Assumptions C102_find_gen_refuted.
Print Assumptions C102_zero_modulus_refuted.
Print Assumptions C102_no_arguments.
Print Assumptions C102_bad_modulus.
Print Assumptions C102_bad_residue.
Print Assumptions C102_ex.
