(* Final theorems for the commands of cli/spiff on residue classes of polynomials over GF(2) (C100). *)
From Verif Require Import Base MIntMath MFac MIntmod MBits MF2Poly MF2Fac MLinalg MTextIO MPolyText MList MUnits MConvert MRandom MSpiff MSpiff2 MSpiff3.
From Verif Require Import PF2Poly PF2Poly3 PUnits PSort PMatCli5 PPolyText PSpiff PSpiff2 PSpiff3 PSpiff7 PSpiff14.
From Coq Require Import Ascii String.
From mathcomp Require Import all_ssreflect all_algebra ssrZ zify.
From Verif Require Import PF2Poly2 PF2Poly4 PF2n PSpiff8 PSpiff10 PSpiff13 PSpiff15 PList3 PPolyText7 PropLinalg PRandom.
From Verif Require PropSpiff PropSpiff3 PropUnits PropList PropRandom PropConvert PropF2nPoly PropF2Poly.
Set Implicit Arguments.
Unset Strict Implicit.
Unset Printing Implicit Defensive.
Import GRing.Theory.
Delimit Scope Z_scope with coqZ.
Local Open Scope ring_scope.
Local Notation length := List.length.
Local Notation Forall2 := List.Forall2.
Local Notation Forall := List.Forall.
Local Notation In := List.In.

(* every f prime to m is a power of g modulo m *)
Definition generator (m g : {poly 'F_2}) : Prop := coprimep m g /\ forall f, coprimep m f -> exists j, m %| f - g ^+ j.
(* the one with the lowest number *)
Definition lowest_generator (m g : {poly 'F_2}) : Prop :=
  [/\ (size g < size m)%N, generator m g & forall q : {poly 'F_2}, (size q < size m)%N -> generator m q -> (f2_number g <= f2_number q)%num].
(* k is the least positive exponent with f^k = 1 modulo m *)
Definition order_of (m f : {poly 'F_2}) (k : nat) : Prop :=
  [/\ (0 < k)%N, m %| f ^+ k - 1 & forall j, (0 < j < k)%N -> ~~ (m %| f ^+ j - 1)].
(* f has an inverse modulo m *)
Definition invertible (m f : {poly 'F_2}) : Prop := exists w, m %| f * w - 1.
(* the residues with the property P, in increasing order of their numbers *)
Definition all_classes (m : {poly 'F_2}) (P : {poly 'F_2} -> Prop) (l : list {poly 'F_2}) : Prop :=
  sorted ltn [seq N.to_nat (f2_number f) | f <- l] /\ forall f, In f l <-> (size f < size m)%N /\ P f.
(* the assumption made on the sorting function of the C library *)
Definition qsort_ok (m : {poly 'F_2}) qs : Prop := sorts pm_ltb (fun x => exists r, isM x r m) qs.

Lemma mod_eq (m a b : {poly 'F_2}) : (a %% m == b %% m) = (m %| a - b).
Proof. by rewrite -subr_eq0 -modpN -modpD. Qed.
Lemma mod_pow (m f : {poly 'F_2}) k : (f %% m) ^+ k %% m = f ^+ k %% m.
Proof. by elim: k => [|k IH]; rewrite ?expr0 // !exprS mulrC modp_mul mulrC -modp_mul IH modp_mul. Qed.
Lemma inE_In (T : eqType) (x : T) l : x \in l <-> In x l.
Proof. by elim: l => //= y l [h1 h2]; rewrite inE; split=> [/orP[/eqP ->|/h1]|[->|/h2 ->]]; [left|right|rewrite eqxx|rewrite orbT]. Qed.
Lemma num_number f : f2_num f = N.to_nat (f2_number f). Proof. by rewrite /f2_num number_enc. Qed.
Lemma lists_classes (m : {poly 'F_2}) (P : {poly 'F_2} -> Prop) r : PropList.lists f2_num (fun f => (size f < size m)%N /\ P f) (f2_menc m) r ->
  exists l, all_classes m P l /\ r = Ok (List.map (f2_menc m) l).
Proof.
move=> [s [_ h2 h3 h4]]; exists s; split=> //; split=> [|f]; last by rewrite -h3 inE_In.
by rewrite -(eq_map num_number).
Qed.

Section Run.
Context (t : N) (qsi : list (intmod * Z) -> list (intmod * Z)) (qs : list (fpmod * Z) -> list (fpmod * Z)) (qsv : list fpmod -> list fpmod)
  (St : Type) (draw : St -> Z * St) (s0 : St) (other : string -> list text -> prog Z).
Local Notation run name args := (spiff (class_handler (Some t) qs qsv draw s0 other) qsi draw s0 (txt name :: args)).
Ltac known n h := rewrite (@PropSpiff.run_eq _ qsi St draw s0 n _ h erefl erefl erefl).
Local Notation tm := (Some t).

(* ---- texts: the number of a residue in hexadecimal, with as many digits as needed for residues modulo m; given as an argument it means
   that residue, as does every text of a polynomial that differs by a multiple of m ---- *)
Theorem C100_text m f : m != 0 -> f2_rd (cls_tx m f) (f %% m) /\ length (cls_tx m f) = maxn 1 (((size m).-1 + 3) %/ 4).
Proof. by move=> m0; split; [exact: cls_round|exact: cls_len]. Qed.
Theorem C100_text_class (m f g : {poly 'F_2}) : m != 0 -> cls_tx m f = cls_tx m g <-> m %| f - g.
Proof.
move=> m0; rewrite -mod_eq; split=> [e|/eqP e]; last by rewrite /cls_tx e.
by apply/eqP; have h := cls_round m g; rewrite -e in h; exact: (f2_meaning (cls_round m f) h).
Qed.

Section Mod.
Variables (m : {poly 'F_2}) (sm : text).
Hypotheses (m0 : m != 0) (hm : f2_rd sm m).
Local Notation enc := (f2_menc m).
Local Notation tx := (cls_tx m).
Local Notation d := (Z.of_nat (size m).-1).
Local Notation Harg := (cls_arg m0).
Local Notation Hshw := (cls_shw m).

(* ---- f2_pm_list ---- *)
Lemma list_run o ty l : arg_type o = ret ty -> f2_polymod_list tm (f2_enc m) ty = Ok (List.map enc l) ->
  run "f2_pm_list" [:: o; sm] = (lines_of tx l, Status 0).
Proof.
move=> h1 h2; known "f2_pm_list" (f2_pm_list_main tm); rewrite /f2_pm_list_main h1 pb_ret (f2_arg hm) pb_ret h2 pb_ok.
by rewrite (lines_ok show_pm enc tx Hshw) pb_val emit_ret.
Qed.
Theorem C100_list_all : (d <= 30)%coqZ -> exists l, all_classes m (fun _ => True) l /\ run "f2_pm_list" [:: txt "-a"; sm] = (lines_of tx l, Status 0).
Proof.
move=> hd; have [|l [h1 h2]] := @lists_classes m (fun _ => True) (f2_polymod_list tm (f2_enc m) LIST_ALL).
  by have [s [k1 k2 k3 k4]] := PropList.C47_f2_all m0 hd tm; exists s; split=> // f; split=> [/k3|[/k3]].
by exists l; split=> //; apply: list_run h2.
Qed.
Theorem C100_list_units : (d <= 30)%coqZ -> exists l, all_classes m (invertible m) l /\ run "f2_pm_list" [:: txt "-u"; sm] = (lines_of tx l, Status 0).
Proof.
move=> hd; have [l [h1 h2]] := lists_classes (PropList.C47_f2_units m0 hd t).
by exists l; split=> //; apply: list_run h2.
Qed.
Theorem C100_list_nonunits : (1 < size m)%N -> (d <= 30)%coqZ ->
  exists l, all_classes m (fun f => ~ invertible m f) l /\ run "f2_pm_list" [:: txt "-nu"; sm] = (lines_of tx l, Status 0).
Proof.
move=> m1 hd; have [l [h1 h2]] := lists_classes (PropList.C47_f2_nonunits m1 hd t).
by exists l; split=> //; apply: list_run h2.
Qed.
Lemma glist_run o ty sg g l : (o = txt "-m" /\ ty = LIST_MULTIPLES) \/ (o = txt "-rp" /\ ty = LIST_REL_PRIME) -> f2_rd sg g ->
  f2_polymod_glist (enc g) ty = Ok (List.map enc l) -> run "f2_pm_list" [:: o; sg; sm] = (lines_of tx l, Status 0).
Proof.
move=> ho hg h2; known "f2_pm_list" (f2_pm_list_main tm); rewrite /f2_pm_list_main.
have -> : (if teq o "-m" then ret LIST_MULTIPLES else if teq o "-rp" then ret LIST_REL_PRIME else usage) = ret ty by case: ho => -[-> ->].
by rewrite pb_ret (f2_arg hm) pb_ret (Harg hg) pb_ret h2 pb_ok (lines_ok show_pm enc tx Hshw) pb_val emit_ret.
Qed.
Theorem C100_list_multiples sg g : f2_rd sg g -> (d <= 30)%coqZ ->
  exists l, all_classes m (fun f => exists w, m %| f - w * g) l /\ run "f2_pm_list" [:: txt "-m"; sg; sm] = (lines_of tx l, Status 0).
Proof.
move=> hg hd; have [l [h1 h2]] := lists_classes (PropList.C78_f2_multiples g m0 hd).
by exists l; split=> //; apply: (glist_run _ hg h2); left.
Qed.
Theorem C100_list_rel_prime sg g : f2_rd sg g -> (d <= 30)%coqZ ->
  exists l, all_classes m (fun f => forall h : {poly 'F_2}, h %| m -> h %| g -> h %| f -> h %= 1) l /\ run "f2_pm_list" [:: txt "-rp"; sg; sm] = (lines_of tx l, Status 0).
Proof.
move=> hg hd; have [l [h1 h2]] := lists_classes (PropList.C78_f2_rel_prime g m0 hd).
by exists l; split=> //; apply: (glist_run _ hg h2); right.
Qed.
(* degree 31: nothing, and the status of success; beyond: undefined behaviour *)
Theorem C100_list_refuted : ((size m).-1 = 31%N -> run "f2_pm_list" [:: txt "-a"; sm] = ([::], Status 0)) /\
  ((31 < (size m).-1)%N -> run "f2_pm_list" [:: txt "-a"; sm] = ([::], Undefined)).
Proof.
split=> h; known "f2_pm_list" (f2_pm_list_main tm); rewrite /f2_pm_list_main pb_ret (f2_arg hm) pb_ret /f2_polymod_list f2_deg_enc bind_ok.
  by rewrite h.
by rewrite /ishl1 (introT (Z.ltb_spec0 31 _)) ?orbT //; move/ltP: h; clear; lia.
Qed.
(* ---- f2_pm_tbl ---- *)
Lemma tbl_run o k u : kind_of (arg_pm (f2_enc m)) (f2_gen tm (f2_enc m)) o = ret k ->
  k_table show_pm pm_add pm_sub pm_mul pm_div (f2_log qs) (f2_polymod_list tm (f2_enc m)) k = (u, Val tt) ->
  run "f2_pm_tbl" [:: sm; o] = (u, Status 0).
Proof. by move=> h1 h2; known "f2_pm_tbl" (f2_pm_tbl_main tm qs); rewrite /f2_pm_tbl_main (f2_arg hm) pb_ret h1 pb_ret h2 pb_val emit_ret. Qed.
Theorem C100_table_all : (d <= 30)%coqZ -> exists l, [/\ all_classes m (fun _ => True) l,
  run "f2_pm_tbl" [:: sm; txt "+"] = (grid tx (fun a b => a + b) l, Status 0),
  run "f2_pm_tbl" [:: sm; txt "-"] = (grid tx (fun a b => a - b) l, Status 0),
  run "f2_pm_tbl" [:: sm; txt "*"] = (grid tx (fun a b => a * b) l, Status 0) &
  run "f2_pm_tbl" [:: sm; txt "."] = (grid tx (fun a b => a * b) l, Status 0)].
Proof.
move=> hd; have [|l [h1 h2]] := @lists_classes m (fun _ => True) (f2_polymod_list tm (f2_enc m) LIST_ALL).
  by have [s [k1 k2 k3 k4]] := PropList.C47_f2_all m0 hd tm; exists s; split=> // f; split=> [/k3|[/k3]].
exists l; split=> //; (eapply tbl_run; first reflexivity); rewrite /k_table h2 pb_ok; apply: (grid_ok show_pm enc tx Hshw) => a b _ _;
  by [exact: cls_add|exact: cls_sub|exact: cls_mul].
Qed.
Theorem C100_table_units : (d <= 30)%coqZ -> exists l f, [/\ all_classes m (invertible m) l,
  run "f2_pm_tbl" [:: sm; txt "u*"] = (grid tx (fun a b => a * b) l, Status 0),
  run "f2_pm_tbl" [:: sm; txt "u."] = (grid tx (fun a b => a * b) l, Status 0),
  run "f2_pm_tbl" [:: sm; txt "/"] = (grid tx f l, Status 0) &
  forall a b, In a l -> In b l -> m %| f a b * b - a].
Proof.
move=> hd; have [l [h1 h2]] := lists_classes (PropList.C47_f2_units m0 hd t).
have hu b : In b l -> coprimep m b by move=> /(proj2 h1)[_ /PList6.unitP].
exists l, (quo m); split=> // [| | |a b _ /hu hb]; last by have [_] := cls_div m0 a hb.
- by (eapply tbl_run; first reflexivity); rewrite /k_table h2 pb_ok; apply: (grid_ok show_pm enc tx Hshw) => a b _ _; exact: cls_mul.
- by (eapply tbl_run; first reflexivity); rewrite /k_table h2 pb_ok; apply: (grid_ok show_pm enc tx Hshw) => a b _ _; exact: cls_mul.
by (eapply tbl_run; first reflexivity); rewrite /k_table h2 pb_ok; apply: (grid_ok show_pm enc tx Hshw) => a b _ /hu hb; have [] := cls_div m0 a hb.
Qed.
(* e is the exponent of a power of g *)
Definition is_log (g f : {poly 'F_2}) (e : Z) : Prop := (0 <= e)%coqZ /\ m %| f - g ^+ Z.to_nat e.
Lemma log_val g f : qsort_ok m qs -> (d <= 30)%coqZ -> coprimep m g ->
  (exists e, f2_log qs (enc g) (enc f) = Ok e /\ is_log g f e) \/ (f2_log qs (enc g) (enc f) = Exn /\ forall e, ~~ (m %| f - g ^+ e)).
Proof.
move=> hq hd hc; have hc' : coprimep (g %% m) m by rewrite coprimep_modl coprimep_sym.
have [[e [h1 [h2 h3]]]|[h1 h2]] := PropUnits.C32_f2_log_partial (menc_isM m0 g) (menc_isM m0 f) hd hq hc'; [left|right].
  by exists (Z.of_nat e); rewrite h1; split=> //; split; [exact: Zle_0_nat|rewrite Nat2Z.id -mod_eq -h2 mod_pow].
by split=> // e; rewrite -mod_eq; apply/negP => /eqP h; apply: (h2 e); rewrite mod_pow.
Qed.
Lemma logs_val g l : qsort_ok m qs -> (d <= 30)%coqZ -> coprimep m g -> (forall f, In f l -> exists j, m %| f - g ^+ j) ->
  exists es, Forall2 (is_log g) l es /\ Forall2 (fun f e => f2_log qs (enc g) (enc f) = Ok e) l es.
Proof.
move=> hq hd hc hl; elim: l hl => [|f l IH] hl; first by exists [::]; split; constructor.
have [|es [h1 h2]] := IH; first by move=> x hx; apply: hl; right.
have [|j hj] := hl f; first by left.
have [[e [k1 k2]]|[_ k]] := log_val f hq hd hc; first by exists (e :: es); split; constructor.
by have := k j; rewrite hj.
Qed.
Lemma tbl_log o g : qsort_ok m qs -> (d <= 30)%coqZ -> generator m g -> kind_of (arg_pm (f2_enc m)) (f2_gen tm (f2_enc m)) o = ret (KLog (enc g)) ->
  exists l es, [/\ all_classes m (invertible m) l, Forall2 (is_log g) l es & run "f2_pm_tbl" [:: sm; o] = (log_text tx l es, Status 0)].
Proof.
move=> hq hd [hc hg] ho; have [l [h1 h2]] := lists_classes (PropList.C47_f2_units m0 hd t).
have [|es [h3 h4]] := logs_val (l := l) hq hd hc; first by move=> f /(proj2 h1)[_ /PList6.unitP]; exact: hg.
by exists l, es; split=> //; apply: (tbl_run ho); exact: (table_log show_pm enc tx Hshw).
Qed.
Lemma tbl_alog o g : (d <= 30)%coqZ -> coprimep m g -> kind_of (arg_pm (f2_enc m)) (f2_gen tm (f2_enc m)) o = ret (KAlog (enc g)) ->
  exists l, all_classes m (invertible m) l /\ run "f2_pm_tbl" [:: sm; o] = (alog_text tx (fun k => g ^+ k) (length l), Status 0).
Proof.
move=> hd hc ho; have [l [h1 h2]] := lists_classes (PropList.C47_f2_units m0 hd t).
exists l; split=> //; apply: (tbl_run ho); refine (table_alog _ show_pm enc f2_rd tx Harg Hshw pm_add pm_sub pm_mul pm_div (f2_log qs) (f2_polymod_list tm (f2_enc m)) g (fun k => g ^+ k) l h2 _ _) => [|k]; last by rewrite cls_mul // exprSr.
have [-> h] := cls_div m0 g hc; congr Ok; rewrite expr0 -(menc_red m (quo m g g)) -(menc_red m 1); congr f2_menc; apply/eqP; rewrite mod_eq.
move: h; have -> : quo m g g * g - g = (quo m g g - 1) * g by rewrite mulrBl mul1r.
by rewrite Gauss_dvdpl.
Qed.
Lemma kind_log sg g : f2_rd sg g -> kind_of (arg_pm (f2_enc m)) (f2_gen tm (f2_enc m)) (txt "log:" ++ sg)%list = ret (KLog (enc g)) /\
  kind_of (arg_pm (f2_enc m)) (f2_gen tm (f2_enc m)) (txt "alog:" ++ sg)%list = ret (KAlog (enc g)).
Proof. by move=> hg; split; cbn; rewrite (Harg hg); case: (string_of_list_ascii sg). Qed.
(* logarithms to the generator g, ... *)
Theorem C100_table_log sg g : f2_rd sg g -> qsort_ok m qs -> (d <= 30)%coqZ -> generator m g ->
  exists l es, [/\ all_classes m (invertible m) l, Forall2 (is_log g) l es & run "f2_pm_tbl" [:: sm; (txt "log:" ++ sg)%list] = (log_text tx l es, Status 0)].
Proof. by move=> hs hq hd hg; apply: tbl_log => //; have [] := kind_log hs. Qed.
(* ... and powers of the unit g: as many as there are units *)
Theorem C100_table_alog sg g : f2_rd sg g -> (d <= 30)%coqZ -> coprimep m g ->
  exists l, all_classes m (invertible m) l /\ run "f2_pm_tbl" [:: sm; (txt "alog:" ++ sg)%list] = (alog_text tx (fun k => g ^+ k) (length l), Status 0).
Proof. by move=> hs hd hg; apply: tbl_alog => //; have [] := kind_log hs. Qed.
(* ---- the lowest generator ---- *)
Lemma gen_val : irreducible_poly m -> (d <= 15)%coqZ -> exists g, lowest_generator m g /\ f2_find_generator tm (f2_enc m) = Ok (Some (enc g)).
Proof.
move=> mi hd; have [g [p [h1 h2 h3 h4 h5]]] := PropUnits.C56_generator_partial t (f2_encP m) mi hd.
have gen q : (coprimep m q /\ forall h, coprimep m h -> exists j, h %% m = q ^+ j %% m) <-> generator m q.
  by split=> -[k1 k2]; split=> // h /k2[j]; exists j; [rewrite -mod_eq; exact/eqP|apply/eqP; rewrite mod_eq].
have [_ [_ sp]] := h2; exists p; split; last by rewrite h1 (isM_menc m0 h2).
split=> [//||q sq /gen[k1 k2]]; first by apply/gen.
have hq : isM (enc q) q m by have := menc_isM m0 q; rewrite modp_small.
have := h5 _ _ hq k1 k2; rewrite (isM_menc m0 h2) /= !modp_small // (f2_Hlt q p) => -[] /negbT; rewrite -leqNgt !num_number => /leP; clear; lia.
Qed.
Theorem C100_table_found_partial : qsort_ok m qs -> irreducible_poly m -> (d <= 15)%coqZ -> exists g, [/\ lowest_generator m g,
  exists l es, [/\ all_classes m (invertible m) l, Forall2 (is_log g) l es & run "f2_pm_tbl" [:: sm; txt "log"] = (log_text tx l es, Status 0)] &
  exists l, all_classes m (invertible m) l /\ run "f2_pm_tbl" [:: sm; txt "alog"] = (alog_text tx (fun k => g ^+ k) (length l), Status 0)].
Proof.
move=> hq mi hd; have [g [h1 h2]] := gen_val mi hd; have [_ h3 _] := h1; have hd' : (d <= 30)%coqZ by move: hd; clear; lia.
exists g; split=> //; [apply: tbl_log => //|apply: tbl_alog => //; first by case: h3];
  by rewrite /kind_of /= /f2_gen h2 pb_ok pb_ret.
Qed.
(* ---- f2_pm_ord ---- *)
Lemma order_val f : coprimep m f -> (d <= 15)%coqZ -> exists k, f2_order tm (enc f) = Ok (Z.of_nat k) /\ order_of m f k.
Proof.
move=> hc hd; have hc' : coprimep (f %% m) m by rewrite coprimep_modl coprimep_sym.
have [k [h1 [h2 h3 h4]]] := PropUnits.C31_order_partial t (menc_isM m0 f) hc' hd; exists k; split=> //; split=> // [|j hj].
  by rewrite -mod_eq -mod_pow h3.
by rewrite -mod_eq -mod_pow; apply/eqP; exact: h4.
Qed.
Theorem C100_order_partial args fs : (d <= 15)%coqZ -> args <> nil -> Forall2 f2_rd args fs -> Forall (coprimep m) fs ->
  exists ks, Forall2 (order_of m) fs ks /\
    run "f2_pm_ord" (sm :: args) = (listing tx (many fs) ": " fs (List.map (fun k => put_int (Z.of_nat k)) ks), Status 0).
Proof.
move=> hd hn ha hc.
have [ks [h1 h2]] := PropSpiff3.F_choose hc (fun f hf => order_val hf hd).
exists ks; split=> //; known "f2_pm_ord" (f2_pm_ord_main tm).
have -> : f2_pm_ord_main tm (sm :: args) = (per (arg_pm (f2_enc m)) show_pm (several args) ": " (fun a => k <~ call (f2_order tm a) ;~ show k ;~~ nl) args ;~~ ret 0%coqZ).
  by case: args hn {ha} => // a args _; rewrite /f2_pm_ord_main (f2_arg hm) pb_ret.
rewrite (several_many _ _ _ ha) (per_ok _ _ enc f2_rd tx Harg Hshw _ _ _ _ _ (List.map (fun k => put_int (Z.of_nat k)) ks) ha) ?pb_val ?emit_ret //.
apply: PropSpiff3.F2_map; by apply: PropSpiff3.F2_in h1 _ => f k /= ->; rewrite pb_ok.
Qed.
(* a text that is no element: the lines before it, and the status of failure *)
Theorem C100_order_bad_partial args fs s post : (d <= 15)%coqZ -> Forall2 f2_rd args fs -> Forall (coprimep m) fs -> no_hex s ->
  exists ks, Forall2 (order_of m) fs ks /\
    run "f2_pm_ord" (sm :: args ++ s :: post)%list = (listing tx (several (args ++ s :: post)%list) ": " fs (List.map (fun k => put_int (Z.of_nat k)) ks), Status 1).
Proof.
move=> hd ha hc hs.
have [ks [h1 h2]] := PropSpiff3.F_choose hc (fun f hf => order_val hf hd).
exists ks; split=> //; known "f2_pm_ord" (f2_pm_ord_main tm).
have -> : f2_pm_ord_main tm (sm :: args ++ s :: post)%list = (per (arg_pm (f2_enc m)) show_pm (several (args ++ s :: post)%list) ": " (fun a => k <~ call (f2_order tm a) ;~ show k ;~~ nl) (args ++ s :: post)%list ;~~ ret 0%coqZ).
  by case: (args) => [|a l]; rewrite /f2_pm_ord_main /= (f2_arg hm) pb_ret.
rewrite (per_bad _ _ enc f2_rd tx Harg Hshw _ _ _ _ _ (List.map (fun k => put_int (Z.of_nat k)) ks) _ _ ha _ (pm_arg_no _ hs)) //.
apply: PropSpiff3.F2_map; by apply: PropSpiff3.F2_in h1 _ => f k /= ->; rewrite pb_ok.
Qed.
(* the other commands that read elements *)
Theorem C100_bad_element s s1 l : no_hex s -> Forall (fun name => run name (sm :: s :: l) = ([::], Status 1)) [:: "f2_pm_ord"; "f2_pm_ch_pol"; "f2_pm_min_pol"]%string /\
  run "f2_pm_log" (sm :: s :: s1 :: l) = ([::], Status 1).
Proof.
move=> h; have e := pm_arg_no (f2_enc m) h; split; last by known "f2_pm_log" (f2_pm_log_main qs); rewrite /f2_pm_log_main (f2_arg hm) pb_ret e.
by repeat constructor; [known "f2_pm_ord" (f2_pm_ord_main tm)|known "f2_pm_ch_pol" (f2_pm_ch_pol_main tm)|known "f2_pm_min_pol" (f2_pm_min_pol_main tm)];
  rewrite /f2_pm_ord_main /f2_pm_ch_pol_main /f2_pm_min_pol_main /f2_pm_pol_main (f2_arg hm) pb_ret /per_calc /per /= e.
Qed.
(* an argument that is not prime to m: the lines before it, and the status of success *)
Theorem C100_order_nonunit_refuted s f : f2_rd s f -> ~~ coprimep m f -> run "f2_pm_ord" [:: sm; s] = ([::], Status 0).
Proof.
move=> hs hc; known "f2_pm_ord" (f2_pm_ord_main tm); rewrite /f2_pm_ord_main (f2_arg hm) pb_ret /per /= (Harg hs) pb_ret.
have hc' : ~~ coprimep (f %% m) m by rewrite coprimep_modl coprimep_sym.
by rewrite (PropUnits.C31_order_nonunit tm (menc_isM m0 f) hc').
Qed.
(* ---- f2_pm_log ---- *)
Theorem C100_log_partial sg g args fs : f2_rd sg g -> qsort_ok m qs -> (d <= 30)%coqZ -> coprimep m g -> args <> nil -> Forall2 f2_rd args fs ->
  Forall (fun f => exists j, m %| f - g ^+ j) fs ->
  exists es, Forall2 (is_log g) fs es /\ run "f2_pm_log" (sm :: sg :: args) = (listing tx (many fs) ": " fs (List.map put_int es), Status 0).
Proof.
move=> hg hq hd hc hn ha hp; have [|es [h1 h2]] := logs_val (l := fs) hq hd hc; first exact/List.Forall_forall.
exists es; split=> //; known "f2_pm_log" (f2_pm_log_main qs).
have -> : f2_pm_log_main qs (sm :: sg :: args) =
  (per (arg_pm (f2_enc m)) show_pm (several args) ": " (fun a => e <~ call (f2_log qs (enc g) a) ;~ show e ;~~ nl) args ;~~ ret 0%coqZ).
  by case: args hn {ha} => // a args _; rewrite /f2_pm_log_main (f2_arg hm) pb_ret (Harg hg) pb_ret.
rewrite (several_many _ _ _ ha) (per_ok _ _ enc f2_rd tx Harg Hshw _ _ _ _ _ (List.map put_int es) ha) ?pb_val ?emit_ret //.
apply: PropSpiff3.F2_map; by apply: PropSpiff3.F2_in h2 _ => f e /= ->; rewrite pb_ok.
Qed.
(* no logarithm, or a base that is no unit: nothing printed, and the status of success *)
Theorem C100_log_none_refuted sg g s f : f2_rd sg g -> f2_rd s f -> qsort_ok m qs -> (d <= 30)%coqZ -> (forall j, ~~ (m %| f - g ^+ j)) \/ ~~ coprimep m g ->
  run "f2_pm_log" [:: sm; sg; s] = ([::], Status 0).
Proof.
move=> hg hs hq hd hno; known "f2_pm_log" (f2_pm_log_main qs); rewrite /f2_pm_log_main (f2_arg hm) pb_ret (Harg hg) pb_ret /per /= (Harg hs) pb_ret.
suff -> : f2_log qs (enc g) (enc f) = Exn by [].
have [hc|hc] := boolP (coprimep m g); last first.
  by apply: PropUnits.C32_f2_log_nonunit (menc_isM m0 g) hd _; rewrite coprimep_modl coprimep_sym.
case: hno => [hno|]; last by rewrite hc.
have [[e [_ [h0 h1]]]|[//]] := log_val f hq hd hc.
by have := hno (Z.to_nat e); rewrite h1.
Qed.
(* degree 32 and more: undefined behaviour *)
Theorem C100_log_refuted sg g s f : f2_rd sg g -> f2_rd s f -> (31 < (size m).-1)%N -> run "f2_pm_log" [:: sm; sg; s] = ([::], Undefined).
Proof.
move=> hg hs hd; known "f2_pm_log" (f2_pm_log_main qs); rewrite /f2_pm_log_main (f2_arg hm) pb_ret (Harg hg) pb_ret /per /= (Harg hs) pb_ret.
by have [_ /(_ hd) ->] := PropUnits.C32_f2_log_refuted qs (enc f) (menc_isM m0 g).
Qed.
(* ---- f2_pm_min_pol, f2_pm_ch_pol ---- *)
(* q is the minimal polynomial of f modulo m *)
Definition minimal (f q : {poly 'F_2}) : Prop := q \is monic /\ forall g : {poly 'F_2}, (m %| g \Po (f %% m)) = (q %| g).
Lemma pol_run F name args fs qs' : (forall args, handler (class_handler (Some t) qs qsv draw s0 other) qsi draw s0 name args = f2_pm_pol_main F args) ->
  teq (txt name) "-l" = false -> find_group lookup_groups name = true -> args <> nil -> Forall2 f2_rd args fs ->
  Forall2 (fun f q => F (enc f) = Ok (f2_enc q)) fs qs' -> run name (sm :: args) = (listing tx (many fs) ": " fs (List.map f2_tx qs'), Status 0).
Proof.
move=> h1 h2 h3 hn ha hq; rewrite (PropSpiff.run_eq _ _ _ _ _ _ (f2_pm_pol_main F)) //.
have -> : f2_pm_pol_main F (sm :: args) = (per_calc (arg_pm (f2_enc m)) show_pm show_f2 (several args) F args ;~~ ret 0%coqZ).
  by case: args hn {ha} => // a args _; rewrite /f2_pm_pol_main (f2_arg hm) pb_ret.
by rewrite (several_many _ _ _ ha) (calc_ok _ _ enc f2_rd tx Harg Hshw show_f2 f2_enc f2_tx _ _ _ _ _ f2_shw ha hq) pb_val emit_ret.
Qed.
Theorem C100_min_pol_partial args fs : irreducible_poly m -> (d <= INT_MAX)%coqZ -> args <> nil -> Forall2 f2_rd args fs ->
  exists qs', Forall2 minimal fs qs' /\ run "f2_pm_min_pol" (sm :: args) = (listing tx (many fs) ": " fs (List.map f2_tx qs'), Status 0).
Proof.
move=> mi hd hn ha.
have [||qs' [h1 h2]] := @PropSpiff3.F_choose _ _ (fun f q => f2_minimal_polynomial tm (enc f) = Ok (f2_enc q)) minimal (fun _ => True) fs.
- by elim: (fs) => [|a l IH]; constructor.
- move=> f _; have [q [k1 k2 [l [k3 k4]] _ _]] := C50_f2_minimal t (menc_isM m0 f) mi hd.
  by exists q; rewrite k3 (f2_encE k4).
by exists qs'; split=> //; apply: (pol_run _ _ _ hn ha h1).
Qed.
Theorem C100_ch_pol_partial args fs : irreducible_poly m -> (d <= INT_MAX)%coqZ -> args <> nil -> Forall2 f2_rd args fs ->
  run "f2_pm_ch_pol" (sm :: args) = (listing tx (many fs) ": " fs (List.map (fun f => f2_tx (char_poly (mult_mx m (f %% m) (size m).-1))) fs), Status 0).
Proof.
move=> mi hd hn ha; rewrite -(List.map_map _ f2_tx); apply: (pol_run _ _ _ hn ha) => //.
elim: (fs) => [|f l IH]; constructor=> //.
by have [q [k1 k2 _ [l' [k3 k4]] <-]] := C50_f2_minimal t (menc_isM m0 f) mi hd; rewrite k3 (f2_encE k4).
Qed.
(* ---- f2_pm_random: the residues of polynomials of the degree of m whose coefficients are random bits ---- *)
Definition rnd_class (j : nat) : {poly 'F_2} :=
  let n := (size m).-1 in let s := iter (j * n) (next draw) s0 in 'X^n + \sum_(i < n) (bit17 draw s (n.-1 - i))%:R *: 'X^i.
Theorem C100_random sn k : (1 < size m)%N -> int_text sn k ->
  run "f2_pm_random" [:: sm; sn] = (lines_of (fun j => tx (rnd_class j)) (List.seq 0 (Z.to_nat k)), Status 0).
Proof.
move=> m1 hn; known "f2_pm_random" (f2_pm_random_main draw s0); rewrite /f2_pm_random_main (f2_arg hm) pb_ret (arg_int_ok _ _ hn) pb_ret.
set n := (size m).-1.
rewrite (times_ok _ _ _ (fun j => iter (j * n) (next draw) s0) (fun j => line (tx (rnd_class j)))) //; first by rewrite pb_val emit_ret.
move=> i _; rewrite PropRandom.C84_f2_polymod // pb_ok [fst _]/= [snd _]/= -/(f2_menc m _) Hshw pb_print /nl pb_print emit_emit.
have -> : iter ((i + 1)%coq_nat * n) (next draw) s0 = iter n (next draw) (iter (i * n) (next draw) s0).
  by rewrite -iterD; congr iter; rewrite -plusE mulnDl mul1n addnC.
by rewrite emit_ret.
Qed.
Theorem C100_random_one : run "f2_pm_random" [:: sm] = run "f2_pm_random" [:: sm; txt "1"].
Proof. by known "f2_pm_random" (f2_pm_random_main draw s0); known "f2_pm_random" (f2_pm_random_main draw s0). Qed.
End Mod.
(* ---- f2_pm_find_gen ---- *)
Lemma gens_ok sev rv args ms gs : Forall2 f2_rd args ms -> Forall2 (fun m g => f2_find_generator tm (f2_enc m) = Ok (Some (f2_menc m g))) ms gs ->
  f2_find_gens tm sev rv args = (listing f2_tx sev ": " ms (List.map (fun p => cls_tx p.1 p.2) (List.combine ms gs)), Val rv).
Proof.
move=> h; elim: h gs => [|s m args' ms' hs _ IH] gs hg; inversion hg as [|? g ? gs' h1 h2]; subst=> //=.
rewrite (f2_arg hs) pb_ret h1 pb_ok (cls_shw m) (IH _ h2).
have -> : label sev (show_f2 (f2_enc m)) ": " = ((if sev then f2_tx m ++ txt ": " else [::])%list, Val tt) by rewrite /label; case: sev {IH}; rewrite ?f2_shw.
rewrite pb_val /nl pb_print pb_print !emit_emit /listing /= emit_pair; congr (_, _); rewrite /line -!List.app_assoc //.
Qed.
Theorem C100_find_gen_partial args ms : args <> nil -> Forall2 f2_rd args ms -> Forall (fun m => irreducible_poly m /\ (Z.of_nat (size m).-1 <= 15)%coqZ) ms ->
  exists gs, Forall2 lowest_generator ms gs /\
    run "f2_pm_find_gen" args = (listing f2_tx (many ms) ": " ms (List.map (fun p => cls_tx p.1 p.2) (List.combine ms gs)), Status 0).
Proof.
move=> hn ha hi.
have [m [mi hd]|gs [h1 h2]] := @PropSpiff3.F_choose _ _ (fun m g => f2_find_generator tm (f2_enc m) = Ok (Some (f2_menc m g))) lowest_generator _ _ hi.
  by have [|g [k1 k2]] := gen_val _ mi hd; [have [k _] := mi; rewrite -size_poly_gt0 ltnW|exists g].
exists gs; split=> //; known "f2_pm_find_gen" (f2_pm_find_gen_main tm).
have -> : f2_pm_find_gen_main tm args = f2_find_gens tm (several args) 0 args by case: args hn {ha}.
by rewrite (several_many _ _ _ ha) (gens_ok _ _ ha h1).
Qed.

(* ---- f2_pm_convert: from GF(2)[x]/m1 to GF(2)[x]/m2, by one homomorphism for all arguments: x is sent to a root c of m1 modulo m2 ---- *)
Definition vsort_ok (m : {poly 'F_2}) (qv : list fpmod -> list fpmod) : Prop := PConvert.vsorts (fun x => exists r, isM x r m) qv.
Lemma conv_val (m1 m2 : {poly 'F_2}) : irreducible_poly m1 -> irreducible_poly m2 -> (Z.of_nat (size m1).-1 <= 15)%coqZ -> (Z.of_nat (size m2).-1 <= 30)%coqZ ->
  qsort_ok m1 qs -> vsort_ok m2 qsv -> exists g, f2_find_generator tm (f2_enc m1) = Ok (Some (f2_menc m1 g)) /\
  if ((size m1).-1 %| (size m2).-1)%N then exists c h, [/\ m2 %| m1 \Po c, convert_prep qsv (f2_menc m1 g) (f2_enc m2) = Ok (Some (f2_menc m2 h)) &
    forall f, convert_scalar qs (f2_menc m1 g) (f2_menc m2 h) (f2_menc m1 f) = Ok (f2_menc m2 (f \Po c))]
  else convert_prep qsv (f2_menc m1 g) (f2_enc m2) = Ok None.
Proof.
move=> i1 i2 h1 h2 q1 q2; have [k1 _] := i1; have m10 : m1 != 0 by rewrite -size_poly_gt0 ltnW.
have [g [[_ [gc gg] _] eg]] := gen_val m10 i1 h1; exists g; split=> //.
have [G1 E1] := PropF2nPoly.C62_field i1; have [G2 E2] := PropF2nPoly.C62_field i2.
move: i1 i2 h1 h2 q1 q2 m10 gc gg {eg k1}; rewrite -E1 -E2 => i1 i2 h1 h2 q1 q2 m10 gc gg.
pose ev1 := ev (gf_emb G1) (gf_z G1); pose ev2 := ev (gf_emb G2) (gf_z G2).
have dz f : (gf_m G1 %| f) = (ev1 f == 0).
  by rewrite /ev1 -(ev_mod (gf_root G1)) (ev_eq0 i1 (gf_root G1)) ?ltn_modp.
have gen : PropConvert.generates (ev1 g).
  split; first by rewrite -dz; apply/negP => h; have := i1.1; rewrite -(eqp_size (dvdp_gcd_idl h)) (eqP gc).
  move=> a a0; have [r hr er] := gf_elP a; have hn : ev1 r != 0 by rewrite /ev1 /ev er.
  have [|j hj] := gg r; last by exists j; rewrite -er; apply/eqP; move: hj; rewrite dz /ev1 evB evX subr_eq0.
  by rewrite coprimep_sym; apply: irr_coprime i1 _ _; [apply: contraNneq hn => ->; rewrite /ev1 ev0|case: hr => _ []].
have h1' : (Z.of_nat (size (gf_m G1)).-1 <= 30)%coqZ by move: h1; clear; lia.
have := PropConvert.C83_field (f2_encP (gf_m G2)) q1 q2 h1' h2 gen; rewrite (el_f2 G1 g).
case: ifP => // _ [b [f [k1 k2 k3 [k4 _ _]]]].
have [h hh eh] := gf_elP b; have [c hc ec] := gf_elP (f (gf_z G1)).
have fe (r : {poly 'F_2}) : f (ev1 r) = ev2 (r \Po c).
  rewrite /ev1 /ev2 /ev map_comp_poly horner_comp ec -horner_map -map_poly_comp; congr (horner _ _); apply: eq_map_poly => u /=.
  have [-> |->] : u = 0 \/ u = 1 by case: u => -[|[|]] // i; [left|right]; apply: val_inj.
    by rewrite !rmorph0.
  by rewrite !rmorph1.
exists c, h; split.
- have e1 : ev1 (gf_m G1) = 0 by apply/eqP; rewrite -dz.
  have e0 : ev2 (gf_m G1 \Po c) = 0 by rewrite -fe e1 rmorph0.
  by move/eqP: e0; rewrite /ev2 -(ev_mod (gf_root G2)) (ev_eq0 i2 (gf_root G2)) ?ltn_modp -?size_poly_gt0 ?(ltnW i2.1).
- by rewrite k1 (el_f2 G2 h) eh.
by move=> r; rewrite (el_f2 G2 h) eh (el_f2 G1 r) k4 (el_f2 G2 (r \Po c)); congr (Ok (gf_el _)); exact: fe.
Qed.
Theorem C100_convert_partial s1 m1 s2 m2 : f2_rd s1 m1 -> f2_rd s2 m2 -> irreducible_poly m1 -> irreducible_poly m2 ->
  (Z.of_nat (size m1).-1 <= 15)%coqZ -> (Z.of_nat (size m2).-1 <= 30)%coqZ -> qsort_ok m1 qs -> vsort_ok m2 qsv ->
  ((size m1).-1 %| (size m2).-1)%N ->
  exists c, m2 %| m1 \Po c /\ forall args fs, args <> nil -> Forall2 f2_rd args fs -> run "f2_pm_convert" (s1 :: s2 :: args) =
    (listing (cls_tx m1) (many fs) ": " fs (List.map (fun f => cls_tx m2 (f \Po c)) fs), Status 0).
Proof.
move=> hs1 hs2 i1 i2 d1 d2 q1 q2 dv; have [g [eg]] := conv_val i1 i2 d1 d2 q1 q2; rewrite dv => -[c [h [k1 k2 k3]]].
exists c; split=> // args fs hn ha; known "f2_pm_convert" (f2_pm_convert_main tm qs qsv).
have m10 : m1 != 0 by rewrite -size_poly_gt0 ltnW // i1.1.
have -> : f2_pm_convert_main tm qs qsv (s1 :: s2 :: args) =
  (per_calc (arg_pm (f2_enc m1)) show_pm show_pm (several args) (convert_scalar qs (f2_menc m1 g) (f2_menc m2 h)) args ;~~ ret 0%coqZ).
  by case: args hn {ha} => // a args _; rewrite /f2_pm_convert_main (f2_arg hs1) pb_ret (f2_arg hs2) pb_ret /f2_gen eg pb_ok pb_ret k2 pb_ok pb_ret.
rewrite (several_many _ _ _ ha) (calc_ok _ _ _ f2_rd _ (cls_arg m10) (cls_shw m1) show_pm (f2_menc m2) (cls_tx m2) _ _ _ _ (List.map (fun f => f \Po c) fs) (cls_shw m2) ha).
  by rewrite pb_val emit_ret List.map_map.
by elim: (fs) => [|f l IH]; constructor.
Qed.
Theorem C100_convert_none s1 m1 s2 m2 s args : f2_rd s1 m1 -> f2_rd s2 m2 -> irreducible_poly m1 -> irreducible_poly m2 ->
  (Z.of_nat (size m1).-1 <= 15)%coqZ -> (Z.of_nat (size m2).-1 <= 30)%coqZ -> qsort_ok m1 qs -> vsort_ok m2 qsv ->
  ~~ ((size m1).-1 %| (size m2).-1)%N -> run "f2_pm_convert" (s1 :: s2 :: s :: args) = ([::], Status 1).
Proof.
move=> hs1 hs2 i1 i2 d1 d2 q1 q2 dv; have [g [eg]] := conv_val i1 i2 d1 d2 q1 q2; rewrite (negbTE dv) => k2.
known "f2_pm_convert" (f2_pm_convert_main tm qs qsv); rewrite /f2_pm_convert_main (f2_arg hs1) pb_ret (f2_arg hs2) pb_ret /f2_gen eg pb_ok pb_ret k2 pb_ok.
by [].
Qed.
(* ---- what the commands do not handle ---- *)
(* the usage of f2_pm_list shows the option in brackets; without it the command is rejected *)
Theorem C100_list_default_refuted s : run "f2_pm_list" [:: s] = ([::], Status 1).
Proof. by known "f2_pm_list" (f2_pm_list_main tm). Qed.
(* modulus 0: nothing is printed, and the exit status is that of success *)
Theorem C100_zero_modulus_refuted sm s f : f2_rd sm 0 -> f2_rd s f ->
  run "f2_pm_ord" [:: sm; s] = ([::], Status 0) /\ run "f2_pm_list" [:: txt "-a"; sm] = ([::], Status 0).
Proof.
move=> hm hs; split; [known "f2_pm_ord" (f2_pm_ord_main tm)|known "f2_pm_list" (f2_pm_list_main tm)];
  rewrite /f2_pm_ord_main /f2_pm_list_main ?pb_ret (f2_arg hm) pb_ret; last by rewrite enc0.
rewrite /per /=; suff -> : arg_pm (f2_enc 0) s = ([::], Throw) by [].
have [rest e] := codes_read hs; rewrite /arg_pm /pm_from_string e bind_ok.
by rewrite (PropF2Poly.C27_make_zero (f2_encP f) (f2_encP 0)).
Qed.
(* a constant modulus: no random residue *)
Theorem C100_random_small_refuted sm m : f2_rd sm m -> (size m <= 1)%N -> run "f2_pm_random" [:: sm] = ([::], Status 0).
Proof.
move=> hm h; known "f2_pm_random" (f2_pm_random_main draw s0); rewrite /f2_pm_random_main (f2_arg hm) pb_ret /=.
by rewrite PropRandom.C84_f2_polymod_small.
Qed.
(* x modulo x^17 + x^3 + 1 has an order, but computing it overflows *)
Theorem C100_order_refuted : exists m f sm s, [/\ f2_rd sm m, f2_rd s f, coprimep m f, size m = 18%N & run "f2_pm_ord" [:: sm; s] = ([::], Undefined)].
Proof.
have [a [r [m [h1 h2 h3 h4]]]] := PropUnits.C31_order_refuted.
have m0 : m != 0 by rewrite -size_poly_gt0 h3.
exists m, r, (f2_tx m), (f2_tx r); split=> //; [exact: PropSpiff3.C97_text|exact: PropSpiff3.C97_text|by rewrite coprimep_sym|].
known "f2_pm_ord" (f2_pm_ord_main tm); rewrite /f2_pm_ord_main (f2_arg (PropSpiff3.C97_text m)) pb_ret /per /= (cls_arg m0 (PropSpiff3.C97_text r)) pb_ret.
by rewrite -(isM_menc m0 h1) h4.
Qed.
(* x^2: x + 1 generates the units, but it is not found *)
Theorem C100_find_gen_refuted : exists m g sm, [/\ f2_rd sm m, generator m g & run "f2_pm_find_gen" [:: sm] = ([::], Status 0)].
Proof.
have [l [m [p [h1 h2 h3 h4]]]] := PropUnits.C56_generator_refuted.
exists m, p, (f2_tx m); split; [exact: PropSpiff3.C97_text|split=> // h /h3[j e]; exists j; rewrite -mod_eq; exact/eqP|].
known "f2_pm_find_gen" (f2_pm_find_gen_main tm); rewrite /f2_pm_find_gen_main /f2_find_gens (f2_arg (PropSpiff3.C97_text m)) pb_ret.
by rewrite -(f2_encE h1) h4.
Qed.
Theorem C100_no_arguments s : Forall (fun name => run name [::] = ([::], Status 1)) [:: "f2_pm_list"; "f2_pm_tbl"; "f2_pm_ord"; "f2_pm_find_gen"; "f2_pm_log"; "f2_pm_ch_pol"; "f2_pm_min_pol"; "f2_pm_convert"; "f2_pm_random"]%string /\
  Forall (fun name => run name [:: s] = ([::], Status 1)) [:: "f2_pm_list"; "f2_pm_tbl"; "f2_pm_ord"; "f2_pm_log"; "f2_pm_ch_pol"; "f2_pm_min_pol"; "f2_pm_convert"]%string.
Proof. by split; repeat constructor. Qed.
Theorem C100_bad_modulus s s1 s2 : no_hex s ->
  Forall (fun name => run name [:: s; s1; s2] = ([::], Status 1)) [:: "f2_pm_ord"; "f2_pm_find_gen"; "f2_pm_log"; "f2_pm_ch_pol"; "f2_pm_min_pol"; "f2_pm_convert"]%string /\
  run "f2_pm_list" [:: txt "-a"; s] = ([::], Status 1) /\ run "f2_pm_tbl" [:: s; s1] = ([::], Status 1) /\ run "f2_pm_random" [:: s] = ([::], Status 1).
Proof.
move=> h; have e := arg_f2_no _ h; split; last (split; [|split]).
- by repeat constructor; [known "f2_pm_ord" (f2_pm_ord_main tm)|known "f2_pm_find_gen" (f2_pm_find_gen_main tm)|known "f2_pm_log" (f2_pm_log_main qs)|known "f2_pm_ch_pol" (f2_pm_ch_pol_main tm)|
    known "f2_pm_min_pol" (f2_pm_min_pol_main tm)|known "f2_pm_convert" (f2_pm_convert_main tm qs qsv)];
  rewrite /f2_pm_ord_main /f2_pm_find_gen_main /f2_find_gens /f2_pm_log_main /f2_pm_ch_pol_main /f2_pm_min_pol_main /f2_pm_pol_main /f2_pm_convert_main e.
- by known "f2_pm_list" (f2_pm_list_main tm); rewrite /f2_pm_list_main e.
- by known "f2_pm_tbl" (f2_pm_tbl_main tm qs); rewrite /f2_pm_tbl_main e.
by known "f2_pm_random" (f2_pm_random_main draw s0); rewrite /f2_pm_random_main e.
Qed.
End Run.

(* moduli x^2 + x + 1, x^2 + 1, x^2 + x, x^4 + x + 1, ...; the sorting is by insertion *)
Example C100_ex : let d := fun s : Z => (s, ((s * 5 + 1) mod 1024)%coqZ) in
  let run name args := let '(t, st) := spiff (class_handler (Some 0%num) (isort pm_ltb) PropConvert.vsort d 50%coqZ (fun _ _ => usage)) (fun l => l) d 0%coqZ
    (txt name :: List.map txt args) in (string_of_list_ascii t, st) in
  let nl := String "010"%char "" in
  [/\ [/\ run "f2_pm_list" [:: "-a"; "5"]%string = (("0" ++ nl ++ "1" ++ nl ++ "2" ++ nl ++ "3" ++ nl)%string, Status 0),
       run "f2_pm_list" [:: "-nu"; "4"]%string = (("0" ++ nl ++ "2" ++ nl)%string, Status 0),
       run "f2_pm_list" [:: "-m"; "2"; "6"]%string = (("0" ++ nl ++ "2" ++ nl)%string, Status 0) &
       run "f2_pm_list" [:: "-rp"; "2"; "6"]%string = (("1" ++ nl ++ "3" ++ nl)%string, Status 0)],
     [/\ run "f2_pm_tbl" [:: "7"; "+"]%string = (("0 1 2 3" ++ nl ++ "1 0 3 2" ++ nl ++ "2 3 0 1" ++ nl ++ "3 2 1 0" ++ nl)%string, Status 0),
       run "f2_pm_tbl" [:: "7"; "u*"]%string = (("1 2 3" ++ nl ++ "2 3 1" ++ nl ++ "3 1 2" ++ nl)%string, Status 0),
       run "f2_pm_tbl" [:: "7"; "/"]%string = (("1 3 2" ++ nl ++ "2 1 3" ++ nl ++ "3 2 1" ++ nl)%string, Status 0),
       run "f2_pm_tbl" [:: "7"; "log"]%string = (("element power" ++ nl ++ "------- -----" ++ nl ++ "1 0" ++ nl ++ "2 1" ++ nl ++ "3 2" ++ nl)%string, Status 0) &
       run "f2_pm_tbl" [:: "7"; "alog:3"]%string = (("power element" ++ nl ++ "----- -------" ++ nl ++ "0 1" ++ nl ++ "1 3" ++ nl ++ "2 2" ++ nl)%string, Status 0)],
     [/\ run "f2_pm_ord" [:: "11b"; "2"; "3"; "101"]%string = (("02: 51" ++ nl ++ "03: 255" ++ nl ++ "1a: 255" ++ nl)%string, Status 0),
       run "f2_pm_ord" [:: "6"; "2"]%string = (""%string, Status 0),
       run "f2_pm_find_gen" [:: "1f"; "13"]%string = (("1f: 3" ++ nl ++ "13: 2" ++ nl)%string, Status 0),
       run "f2_pm_log" [:: "13"; "2"; "7"; "e"]%string = (("7: 10" ++ nl ++ "e: 11" ++ nl)%string, Status 0) &
       run "f2_pm_log" [:: "13"; "6"; "2"]%string = (""%string, Status 0)],
     [/\ run "f2_pm_ch_pol" [:: "13"; "2"; "6"]%string = (("2: 13" ++ nl ++ "6: 15" ++ nl)%string, Status 0),
       run "f2_pm_min_pol" [:: "13"; "2"; "6"]%string = (("2: 13" ++ nl ++ "6: 7" ++ nl)%string, Status 0),
       run "f2_pm_convert" [:: "b"; "d"; "2"; "3"; "a"]%string = (("2: 3" ++ nl ++ "3: 2" ++ nl ++ "1: 1" ++ nl)%string, Status 0),
       run "f2_pm_convert" [:: "7"; "b"; "2"]%string = (""%string, Status 1) &
       run "f2_pm_random" [:: "13"; "3"]%string = (("3" ++ nl ++ "3" ++ nl ++ "3" ++ nl)%string, Status 0)] &
     [/\ forall m, qsort_ok m (isort pm_ltb) /\ vsort_ok m PropConvert.vsort, irreducible_poly ('X^2 + 'X + 1 : {poly 'F_2}) &
       f2_rd (txt "7") ('X^2 + 'X + 1)]].
Proof.
split; [by split; vm_compute|by split; vm_compute|by split; vm_compute|by split; vm_compute|].
split; [exact: PropConvert.C83_sorting_exists|exact: PropF2nPoly.p7_irr|].
rewrite /f2_rd -number_enc -(f2_encE PropF2Poly.p7); exists nil, (txt "7"), nil; split=> //; split; first by constructor.
by split; first by repeat constructor.
Qed.

Print Assumptions C100_text.
Print Assumptions C100_text_class.
Print Assumptions C100_list_all.
Print Assumptions C100_list_units.
Print Assumptions C100_list_nonunits.
Print Assumptions C100_list_multiples.
Print Assumptions C100_list_rel_prime.
Print Assumptions C100_list_refuted.
Print Assumptions C100_table_all.
Print Assumptions C100_table_units.
Print Assumptions C100_table_log.
Print Assumptions C100_table_alog.
Print Assumptions C100_table_found_partial.
Print Assumptions C100_order_partial.
Print Assumptions C100_order_bad_partial.
Print Assumptions C100_bad_element.
Print Assumptions C100_order_nonunit_refuted.
Print Assumptions C100_log_partial.
Print Assumptions C100_log_none_refuted.
Print Assumptions C100_log_refuted.
Print Assumptions C100_min_pol_partial.
Print Assumptions C100_ch_pol_partial.
Print Assumptions C100_random.
Print Assumptions C100_random_one.
Print Assumptions C100_find_gen_partial.
Print Assumptions C100_convert_partial.
Print Assumptions C100_convert_none.
Print Assumptions C100_list_default_refuted.
Print Assumptions C100_zero_modulus_refuted.
Print Assumptions C100_random_small_refuted.
Print Assumptions C100_order_refuted.
Print Assumptions C100_find_gen_refuted.
Print Assumptions C100_no_arguments.
Print Assumptions C100_bad_modulus.
Print Assumptions C100_ex.
