(* Final theorems for the commands of cli/spiff that reduce polynomials with integer coefficients to GF(2), GF(p), GF(2^n) (C103). *)
From Verif Require Import Base MIntMath MFac MIntmod MMat MF2Poly MF2nPoly MPoly MPolyFac MIntrat MCyclo MLinalg MTextIO MPolyText MList MRandom MSpiff MSpiff2.
From Verif Require Import PF2Poly PF2Poly3 PIntMath PIntmod PMatCli5 PPolyText PSpiff PSpiff2 PSpiff3 PSpiff5 PSpiff7 PPolyText6 PPolyText8.
From Coq Require Import Ascii String.
From mathcomp Require Import all_ssreflect all_algebra finfield ssrZ zify.
From Verif Require Import PMat PPoly PPoly2 PPoly3 PPolyFac PFp PFpPoly PF2Poly2 PF2Poly4 PF2n PropF2nPoly PropFpPoly PropLinalg PPolyText2 PPolyText3 PPolyText4 PPolyText7 PPolyText9 PPolyText10 PSpiff8 PropSpiff3 PSpiff11 PSpiff12 PSpiff13.
From Verif Require Import PQPoly PQPoly2 PCyclo PCyclo2 PCyclo3 PCyclo4 PropCyclo.
From Verif Require PropSpiff PropSpiff4 PropSpiff5 PropPolyText.
Set Implicit Arguments.
Unset Strict Implicit.
Unset Printing Implicit Defensive.
Import GRing.Theory.
Delimit Scope Z_scope with coqZ.
Local Open Scope ring_scope.
Local Notation length := List.length.
Local Notation Forall2 := List.Forall2.
Local Notation Forall := List.Forall.
Local Notation In := List.In.

(* a polynomial with integer coefficients written out, the leading coefficient first: integers with one or more commas between, or,
   without a comma, one digit for each coefficient *)
Definition zp_text (s : text) (f : {poly int}) : Prop :=
  (exists ts vs, [/\ spread ","%char ts s, ~ In "000"%char s /\ In ","%char s, ts <> nil, Forall2 int_text ts vs &
     Forall (fun v => INT_MIN < v)%coqZ vs /\ f = Poly (rev [seq int_of_Z v | v <- vs])]) \/
  [/\ Forall digit s, s <> nil & f = Poly (rev [seq int_of_Z (MMatCli.digit_val x) | x <- s])].
(* the coefficients, constant term first; one zero for the polynomial 0 *)
Definition zcoefs (f : {poly int}) : seq int := if f == 0 then [:: 0] else polyseq f.

Lemma qseq_pZ f : qseq (pZ f) = [seq a%:~R | a <- zcoefs f].
Proof.
have i : injective (intr : int -> rat) by exact: intr_inj.
have e : (pZ f == 0) = (f == 0) by rewrite -!size_poly_eq0 size_pZ.
rewrite /qseq /zcoefs e; case: eqP => // _; apply: (@eq_from_nth _ 0); first by rewrite size_map size_pZ.
by move=> j hj; rewrite size_pZ in hj; rewrite coef_map (nth_map 0).
Qed.
Lemma enc_pZ f : qpenc (pZ f) = [seq whole (Z_of_int a) | a <- zcoefs f].
Proof. by rewrite qpencE qseq_pZ -map_comp; apply: eq_map => a; rewrite /= /qenc numq_int denq_int. Qed.
Lemma trim_enc (w : seq int) l : trimmed [seq whole (Z_of_int a) | a <- w] l -> l = qpenc (pZ (Poly w)).
Proof.
move=> [k [e [hl ht]]]; rewrite enc_pZ.
pose W (a : int) := whole (Z_of_int a).
have iW : injective W by move=> a b [] /(can_inj Z_of_intK).
have eu : l = map W (take (length l) w).
  by rewrite map_take -/W e; elim: (l) => [|x l' {1}->] //=; rewrite take0.
have ew : drop (length l) w = nseq k 0.
  apply: (inj_map iW); rewrite map_drop -/W e; elim: (l) => //=; rewrite drop0; elim: (k) => //= k' ->.
  by [].
move: eu; set u := take _ _ => eu.
have -> : Poly w = Poly u.
  by rewrite -[w](cat_take_drop (length l)) ew -/u; apply/polyP=> i; rewrite !coef_Poly nth_cat; case: ltnP => // h; rewrite nth_nseq (nth_default 0 h); case: ifP.
rewrite {1}eu -/W; congr map; rewrite /zcoefs.
have hu : (0 < size u)%N by move: hl; rewrite eu; case: (u).
have [h0|h0] := eqVneq (last 1 u) 0; last first.
  rewrite (PolyK (c := 1)) //; case: eqP => // h1; have := congr1 (fun f : {poly int} => polyseq f) h1; rewrite (PolyK (c := 1)) // polyseq0 => h2.
  by rewrite h2 in hu.
have h1 : size u = 1%N.
  case: ht => [h|[]]; first by rewrite -(size_map W) -eu -h; elim: (l) => //= x l' ->.
  rewrite eu; case: (u) hu h0 => // x u' _ /= h0.
  by rewrite -[whole 0]/(W 0) -h0; elim: u' x {h0} => //= y u' IH x; rewrite -IH; case: (u').
by case: (u) h1 h0 => [|x [|]] //= _ ->; rewrite /= cons_poly_def mul0r add0r eqxx.
Qed.

Lemma digit_bound x : digit x -> (0 <= MMatCli.digit_val x <= 9)%coqZ.
Proof. by rewrite /digit /MMatCli.digit_val; clear; lia. Qed.
Lemma small_ints (w : seq int) : all (fun a => Z.leb (Z.abs (Z_of_int a)) INT_MAX) w -> in_ints (pZ (Poly w)).
Proof.
move=> /allP h; rewrite /in_ints qseq_pZ all_map; apply/allP => a; rewrite /int_rat /= numq_int denq_int /zcoefs => ha.
rewrite andbT; case: eqP ha => [_|_ /(nthP 0)[i hi <-]]; first by rewrite inE => /eqP->.
rewrite coef_Poly; have hw : (i < size w)%N by apply: leq_trans hi (size_Poly w).
by apply: h; exact: mem_nth.
Qed.
Lemma whole_rev (X : Type) (g : X -> Z) (s : seq X) :
  [seq whole (Z_of_int a) | a <- rev [seq int_of_Z (g x) | x <- s]] = rev [seq whole (g x) | x <- s].
Proof. by rewrite map_rev -map_comp; congr rev; apply: eq_map => x /=; rewrite int_of_ZK. Qed.
Lemma zp_read s f : zp_text s f -> q_scan s = Ok (Read (qpenc (pZ f))) /\ in_ints (pZ f).
Proof.
case=> [[ts [vs [h1 [h2 h3] h4 h5 [h6 ->]]]]|[h1 h2 ->]].
  have [l [-> h]] := PropPolyText.C92_q_read h1 h2 h4 h5 h3 h6; split.
    by congr (Ok (Read _)); apply: trim_enc; move: h; rewrite revE mapE whole_rev.
  apply: small_ints; rewrite all_rev all_map; elim: h5 h6 => // w v ts' vs' hv _ IH h6; inversion h6; subst; rewrite /= IH // andbT int_of_ZK.
  by move: hv => [? [? [? [? [_ [_ [_ [_ [_ [_ hv]]]]]]]]]]; move: H1 hv; rewrite /INT_MIN /INT_MAX; clear; lia.
have [l [-> h]] := PropPolyText.C92_q_read_digits h1 h2; split.
  by congr (Ok (Read _)); apply: trim_enc; move: h; rewrite revE mapE whole_rev.
apply: small_ints; rewrite all_rev all_map; elim: h1 => // x l' hx _ IH; rewrite /= IH andbT int_of_ZK.
by have := digit_bound hx; rewrite /INT_MAX; clear; lia.
Qed.

Lemma qp_each (X : Type) (conv : qpoly -> res X) (shw : X -> prog unit) (out : {poly int} -> text) (Q : {poly int} -> Prop) args fs :
  (forall f, Q f -> in_ints (pZ f) -> exists r, conv (qpenc (pZ f)) = Ok r /\ shw r = MSpiff.print (out f)) ->
  Forall2 zp_text args fs -> Forall Q fs ->
  each (fun s => q <~ arg_scan (q_scan s) ;~ f <~ call (conv q) ;~ shw f ;~~ nl) args = (lines_of out fs, Val tt).
Proof.
move=> hQ; elim=> [|s f l k hs _ IH] hq //; inversion hq; subst; rewrite /lines_of /= -/(lines_of _ _) IH //.
have [-> hi] := zp_read hs; have [r [h1 h2]] := hQ _ H1 hi.
by rewrite [arg_scan _]/= pb_ret h1 pb_ok h2 !pb_print.
Qed.
(* a text without a comma and with a character that is no digit *)
Definition zp_bad (s : text) : Prop := exists t1 x t2, [/\ s = (t1 ++ x :: t2)%list, Forall digit t1, ~ digit x, ~ In ","%char s & ~ In "000"%char s].
Lemma zp_refuse s : zp_bad s -> arg_scan (q_scan s) = usage.
Proof. by move=> [t1 [x [t2 [-> h1 h2 h3 h4]]]]; have [l ->] := PropPolyText.C92_q_reject h1 h2 h3 h4. Qed.
Lemma qp_each_bad (X : Type) (conv : qpoly -> res X) (shw : X -> prog unit) (out : {poly int} -> text) (Q : {poly int} -> Prop) args fs s post :
  (forall f, Q f -> in_ints (pZ f) -> exists r, conv (qpenc (pZ f)) = Ok r /\ shw r = MSpiff.print (out f)) ->
  Forall2 zp_text args fs -> Forall Q fs -> zp_bad s ->
  each (fun s => q <~ arg_scan (q_scan s) ;~ f <~ call (conv q) ;~ shw f ;~~ nl) (args ++ s :: post)%list = (lines_of out fs, Exit 1).
Proof.
move=> hQ; elim=> [|s' f l k hs _ IH] hq hb; first by rewrite /= (zp_refuse hb).
inversion hq; subst; rewrite /lines_of /= -/(lines_of _ _) IH //.
have [-> hi] := zp_read hs; have [r [h1 h2]] := hQ _ H1 hi.
by rewrite [arg_scan _]/= pb_ret h1 pb_ok h2 !pb_print.
Qed.
(* the texts of the coefficients, the leading one first *)
Definition raw_tx (X : Type) (sep : text) (tx : X -> text) (s : seq X) : text := put_sep sep [seq tx a | a <- rev s].
Lemma put_sep_len sep (ts : seq text) t : (size (put_sep sep ts) <= size (put_sep sep (t :: ts)))%N.
Proof. by case: ts => [|u ts] //=; rewrite !size_cat; lia. Qed.
Lemma put_sep_longer sep (ts : seq text) t : ts <> nil -> t <> nil -> (size (put_sep sep ts) < size (put_sep sep (t :: ts)))%N.
Proof. by case: ts => [|u ts] // _; case: t => // x t _ /=; rewrite !size_cat /=; lia. Qed.

(* over any field: the leading coefficients that vanish stay *)
Section Zeros.
Variables (F : fieldType) (sep : text) (tx : F -> text).
Hypothesis tx0 : forall a, tx a <> nil.
Local Notation rd f := (map_poly intr f : {poly F}).
Definition short_tx (f : {poly F}) : text := raw_tx sep tx (if f == 0 then [:: 0] else polyseq f).
Lemma raw_proper (f : {poly int}) : (size f <= 1)%N \/ (lead_coef f)%:~R != 0 :> F -> raw_tx sep tx [seq a%:~R | a <- zcoefs f] = short_tx (rd f).
Proof.
move=> h; rewrite /short_tx /raw_tx; congr (put_sep _ [seq _ | _ <- rev _]).
have := @seq_red F F id (pZ f); rewrite lead_pZ red_int size_pZ redp_int map_id => <- //.
by rewrite qseq_pZ -map_comp; apply: eq_map => a /=; rewrite red_int.
Qed.
Lemma raw_longer (f : {poly int}) : (1 < size f)%N -> (lead_coef f)%:~R = 0 :> F -> (size (short_tx (rd f)) < size (raw_tx sep tx [seq (a%:~R : F) | a <- zcoefs f]))%N.
Proof.
move=> h0 h1; have f0 : f != 0 by rewrite -size_poly_gt0 ltnW.
rewrite /short_tx; set s := (if rd f == 0 then _ else _); rewrite /raw_tx /zcoefs (negbTE f0).
have [k hk] : exists k, [seq (a%:~R : F) | a <- f] = s ++ nseq k.+1 0.
  have hs : (size s < size f)%N.
    rewrite /s; case: eqP => // e; rewrite ltn_neqAle size_poly andbT; apply/eqP => k.
    have : lead_coef (rd f) != 0 by rewrite lead_coef_eq0; apply/eqP.
    by rewrite lead_coefE k coef_map; move: h1; rewrite lead_coefE => /= ->; rewrite eqxx.
  have sn i : s`_i = (f`_i)%:~R.
    have <- : (rd f)`_i = (f`_i)%:~R by rewrite coef_map.
    by rewrite /s; case: eqP => // ->; rewrite coef0; case: i => [|[]].
  exists (size f - size s).-1; rewrite prednK ?subn_gt0 //; apply: (@eq_from_nth _ 0).
    by rewrite size_map size_cat size_nseq subnKC // ltnW.
  move=> i; rewrite size_map => hi; rewrite (nth_map 0) // nth_cat; case: ltnP => hj; first by rewrite sn.
  by rewrite nth_nseq if_same -sn nth_default.
have s0 : s <> nil by rewrite /s; case: eqP => // e j; apply: e; apply/eqP; rewrite -size_poly_eq0 j.
have rn : rev (nseq k.+1 (0 : F)) = nseq k.+1 0.
  apply: (@eq_from_nth _ 0); rewrite size_rev // size_nseq => i hi; rewrite nth_rev size_nseq // !nth_nseq hi.
  by rewrite (_ : (k.+1 - i.+1 < k.+1)%N); [|clear - hi; lia].
rewrite hk rev_cat rn map_cat map_nseq.
have : [seq tx a | a <- rev s] <> nil by move/(congr1 size); rewrite size_map size_rev; case: (s) s0.
elim: k {hk rn} => [|k IH] hn; first by apply: put_sep_longer.
exact: leq_trans (IH hn) (put_sep_len _ _ _).
Qed.
End Zeros.

Lemma put_int_ne v : put_int v <> nil.
Proof.
have h k : forall n acc, acc <> nil \/ (0 < k)%N -> digits k n acc <> nil.
  elim: k => [|k IH] n acc; [by case|move=> _; rewrite [digits _ _ _]/=].
  by case: Z.ltb => //; apply: IH; left.
by rewrite /put_int; case: Z.ltb => //; apply: h; right.
Qed.
Lemma hex_ne v : hex v <> nil.
Proof. by move/(congr1 (@List.length _)); rewrite hex_len. Qed.

Section Run.
Context (tm : option N) (c : cache) (other : string -> list text -> prog Z) (qs : list (intmod * Z) -> list (intmod * Z)) (St : Type)
  (draw : St -> Z * St) (fuel : nat) (s0 : St).
Hypothesis hc : cache_valid c.
Local Notation run name args := (spiff (poly_handler tm c draw fuel s0 other) qs draw s0 (txt name :: args)).
Ltac known n h := rewrite (@PropSpiff.run_eq _ qs St draw s0 n _ h erefl erefl erefl).

Lemma all_true (X : Type) (l : list X) : Forall (fun _ => True) l.
Proof. by elim: l => [|x l IH]; constructor. Qed.
(* ---- f2_p_qp ---- *)
Lemma h2_ok (f : {poly int}) : (size f <= 31)%N -> in_ints (pZ f) -> exists r, f2_poly_from_q_poly (qpenc (pZ f)) = Ok r /\ show_f2 r = MSpiff.print (f2_tx (map_poly intr f)).
Proof. by move=> hf _; exists (f2_enc (map_poly intr f)); rewrite C82_gf2_partial ?size_pZ // den_int redp_int; split=> //; exact: f2_shw. Qed.
Theorem C103_mod_2_partial args fs : args <> nil -> Forall2 zp_text args fs -> Forall (fun f : {poly int} => (size f <= 31)%N) fs ->
  run "f2_p_qp" args = (lines_of (fun f => f2_tx (map_poly intr f)) fs, Status 0).
Proof.
move=> hn ha hs; known "f2_p_qp" f2_p_qp_main.
have -> : f2_p_qp_main args = (each (fun s => q <~ arg_scan (q_scan s) ;~ f <~ call (f2_poly_from_q_poly q) ;~ show_f2 f ;~~ nl) args ;~~ ret 0%coqZ).
  by case: (args) hn.
by rewrite (qp_each h2_ok ha hs) pb_val emit_ret.
Qed.
Theorem C103_mod_2_stop args fs s post : Forall2 zp_text args fs -> Forall (fun f : {poly int} => (size f <= 31)%N) fs -> zp_bad s ->
  run "f2_p_qp" (args ++ s :: post)%list = (lines_of (fun f => f2_tx (map_poly intr f)) fs, Status 1).
Proof.
move=> ha hs hb; known "f2_p_qp" f2_p_qp_main.
have -> l : f2_p_qp_main (args ++ s :: l)%list = (each (fun s => q <~ arg_scan (q_scan s) ;~ f <~ call (f2_poly_from_q_poly q) ;~ show_f2 f ;~~ nl) (args ++ s :: l)%list ;~~ ret 0%coqZ).
  by case: (args).
by rewrite (qp_each_bad _ h2_ok ha hs hb).
Qed.
(* from degree 32 on *)
Theorem C103_mod_2_refuted s (f : {poly int}) : zp_text s f -> (33 <= size f)%N -> Nat.modulo (size f).-1 64 <> 31%N -> (lead_coef f)%:~R != 0 :> 'F_2 ->
  run "f2_p_qp" [:: s] = ([::], Undefined).
Proof.
move=> hs h1 h2 h3; known "f2_p_qp" f2_p_qp_main; rewrite /f2_p_qp_main /= (proj1 (zp_read hs)) [arg_scan _]/= pb_ret.
by rewrite C82_gf2_refuted ?size_pZ ?den_int ?lead_pZ ?red_int.
Qed.
(* ---- fp_p_qp ---- *)
Section P.
Variable p : nat.
Hypothesis pp : prime p.
Hypothesis hP : (Z.of_nat p <= 46341)%coqZ.
Variable sm : text.
Hypothesis hm : int_text sm (Z.of_nat p).
Local Notation comma := (if (9 < p)%N then [:: ","%char] else [::]).
(* the residues of the coefficients, the leading one first; with commas between if p has two digits or more *)
Definition fp_raw (f : {poly int}) : text := put_sep comma [seq PropSpiff4.res_tx (a%:~R : 'F_p) | a <- rev (zcoefs f)].
Lemma fp_rawE f : fp_raw f = raw_tx comma (@PropSpiff4.res_tx p) [seq a%:~R | a <- zcoefs f].
Proof. by rewrite /fp_raw /raw_tx -map_rev -map_comp. Qed.
Lemma fp_put_els (s : seq 'F_p) : (0 < size s)%N -> fp_put [seq fp_el a | a <- s] = Ok (raw_tx comma (@PropSpiff4.res_tx p) s).
Proof.
move=> h; rewrite /fp_put; have -> : getk [seq fp_el a | a <- s] 0 = Ok (fp_el (head 0 s)) by case: (s) h.
rewrite bind_ok /raw_tx; congr (Ok (put_sep _ _)).
  by rewrite /MPolyText.comma /=; case: (Z.ltb_spec 9 (Z.of_nat p)); case: ltnP => //; lia.
by rewrite revE -map_rev mapE -map_comp.
Qed.
Lemma fp_ok f : True -> in_ints (pZ f) -> exists r, fp_poly_from_qpoly c (qpenc (pZ f)) (Z.of_nat p) = Ok r /\ show_fp r = MSpiff.print (fp_raw f).
Proof.
move=> _ hi; rewrite (@C82_mod_p p c _ pp hP hc hi) den_int; eexists; split; first by reflexivity.
rewrite /show_fp /print_res qseq_pZ -map_comp.
have -> : [seq (@fp_el p \o red [fieldType of 'F_p] \o intr) a | a <- zcoefs f] = [seq fp_el a | a <- [seq (a%:~R : 'F_p) | a <- zcoefs f]].
  by rewrite -map_comp; apply: eq_map => a /=; rewrite red_int.
rewrite fp_put_els ?pb_ok ?fp_rawE // size_map /zcoefs.
by case: eqP => // /eqP; rewrite size_poly_gt0.
Qed.
Lemma fp_main args : args <> nil -> fp_p_qp_main c (sm :: args) =
  (each (fun s => q <~ arg_scan (q_scan s) ;~ f <~ call (fp_poly_from_qpoly c q (Z.of_nat p)) ;~ show_fp f ;~~ nl) args ;~~ ret 0%coqZ).
Proof. by case: args => // a l _; rewrite /fp_p_qp_main (arg_int_ok _ _ hm) pb_ret. Qed.
Theorem C103_mod_p args fs : args <> nil -> Forall2 zp_text args fs -> run "fp_p_qp" (sm :: args) = (lines_of fp_raw fs, Status 0).
Proof. by move=> hn ha; known "fp_p_qp" (fp_p_qp_main c); rewrite (fp_main hn) (qp_each fp_ok ha (all_true fs)) pb_val emit_ret. Qed.
(* the leading coefficients are no multiples of p: the text of the reduced polynomial *)
Theorem C103_mod_p_proper args fs : args <> nil -> Forall2 zp_text args fs ->
  Forall (fun f : {poly int} => (size f <= 1)%N \/ (lead_coef f)%:~R != 0 :> 'F_p) fs ->
  run "fp_p_qp" (sm :: args) = (lines_of (fun f => PropSpiff4.fp_tx (map_poly intr f : {poly 'F_p})) fs, Status 0).
Proof.
move=> hn ha hl; rewrite (C103_mod_p hn ha); congr pair; elim: hl => // f l h _ IH; rewrite /lines_of /= -!/(lines_of _ _) IH.
by rewrite fp_rawE; have -> := raw_proper comma (@PropSpiff4.res_tx p) h.
Qed.
Theorem C103_mod_p_refuted s (f : {poly int}) : zp_text s f -> (1 < size f)%N -> (lead_coef f)%:~R = 0 :> 'F_p ->
  run "fp_p_qp" [:: sm; s] = (line (fp_raw f), Status 0) /\ fp_raw f <> PropSpiff4.fp_tx (map_poly intr f : {poly 'F_p}).
Proof.
move=> hs h1 h2; split; first by rewrite (@C103_mod_p [:: s] [:: f]) // ?/lines_of /= ?List.app_nil_r //; constructor.
move=> e; have := @raw_longer [fieldType of 'F_p] comma (@PropSpiff4.res_tx p) (fun a : 'F_p => @put_int_ne _) f h1 h2.
by rewrite -fp_rawE e /short_tx ltnn.
Qed.
(* the first text that is refused ends the command *)
Theorem C103_mod_p_stop args fs s post : Forall2 zp_text args fs -> zp_bad s -> run "fp_p_qp" (sm :: args ++ s :: post)%list = (lines_of fp_raw fs, Status 1).
Proof. by move=> ha hb; known "fp_p_qp" (fp_p_qp_main c); rewrite fp_main; [rewrite (qp_each_bad _ fp_ok ha (all_true fs) hb)|case: (args)]. Qed.
End P.
(* ---- f2n_p_qp ---- *)
Section N.
Variable G : gf2.
Local Notation L := (gf_L G).
Variable sm : text.
Hypothesis hm : f2_rd sm (gf_m G).
(* the images of the coefficients, which are 0 or 1, the leading one first, with colons between *)
Definition g2_raw (f : {poly int}) : text := put_sep [:: ":"%char] [seq el_tx (a%:~R : L) | a <- rev (zcoefs f)].
Lemma g2_rawE f : g2_raw f = raw_tx [:: ":"%char] (@el_tx G) [seq a%:~R | a <- zcoefs f].
Proof. by rewrite /g2_raw /raw_tx -map_rev -map_comp. Qed.
Lemma g2_put_els (s : seq L) : (0 < size s)%N -> f2n_put [seq gf_el a | a <- s] = Ok (raw_tx [:: ":"%char] (@el_tx G) s).
Proof.
move=> h; rewrite /f2n_put; have -> : getk [seq gf_el a | a <- s] 0 = Ok (gf_el (head 0 s)) by case: (s) h.
have [r [_ e _]] := el_res (head 0 s); rewrite bind_ok e colon_eq bind_ok revE -map_rev -mapE put_els bind_ok.
by [].
Qed.
Lemma g2_ok f : True -> in_ints (pZ f) -> exists r, f2n_poly_from_qpoly c (qpenc (pZ f)) (f2_enc (gf_m G)) = Ok r /\ show_f2n r = MSpiff.print (g2_raw f).
Proof.
move=> _ hi; rewrite (@C82_gf2n G c _ _ hc (f2_encP _) hi) den_int; eexists; split; first by reflexivity.
rewrite /show_f2n /print_res qseq_pZ -map_comp.
have -> : [seq (@gf_el G \o red [fieldType of L] \o intr) a | a <- zcoefs f] = [seq gf_el a | a <- [seq (a%:~R : L) | a <- zcoefs f]].
  by rewrite -map_comp; apply: eq_map => a /=; rewrite red_int.
rewrite g2_put_els ?pb_ok ?g2_rawE // size_map /zcoefs.
by case: eqP => // /eqP; rewrite size_poly_gt0.
Qed.
Lemma g2_main args : args <> nil -> f2n_p_qp_main c (sm :: args) =
  (each (fun s => q <~ arg_scan (q_scan s) ;~ f <~ call (f2n_poly_from_qpoly c q (f2_enc (gf_m G))) ;~ show_f2n f ;~~ nl) args ;~~ ret 0%coqZ).
Proof. by case: args => // a l _; rewrite /f2n_p_qp_main (f2_arg hm) pb_ret. Qed.
Theorem C103_gf2n args fs : args <> nil -> Forall2 zp_text args fs -> run "f2n_p_qp" (sm :: args) = (lines_of g2_raw fs, Status 0).
Proof. by move=> hn ha; known "f2n_p_qp" (f2n_p_qp_main c); rewrite (g2_main hn) (qp_each g2_ok ha (all_true fs)) pb_val emit_ret. Qed.
Theorem C103_gf2n_proper args fs : args <> nil -> Forall2 zp_text args fs ->
  Forall (fun f : {poly int} => (size f <= 1)%N \/ (lead_coef f)%:~R != 0 :> L) fs ->
  run "f2n_p_qp" (sm :: args) = (lines_of (fun f => g2_tx (map_poly intr f : {poly L})) fs, Status 0).
Proof.
move=> hn ha hl; rewrite (C103_gf2n hn ha); congr pair; elim: hl => // f l h _ IH; rewrite /lines_of /= -!/(lines_of _ _) IH.
by rewrite g2_rawE; have -> := raw_proper [:: ":"%char] (@el_tx G) h.
Qed.
Theorem C103_gf2n_refuted s (f : {poly int}) : zp_text s f -> (1 < size f)%N -> (lead_coef f)%:~R = 0 :> L ->
  run "f2n_p_qp" [:: sm; s] = (line (g2_raw f), Status 0) /\ g2_raw f <> g2_tx (map_poly intr f : {poly L}).
Proof.
move=> hs h1 h2; split; first by rewrite (@C103_gf2n [:: s] [:: f]) // ?/lines_of /= ?List.app_nil_r //; constructor.
move=> e; have := @raw_longer [fieldType of L] [:: ":"%char] (@el_tx G) (fun a : L => @hex_ne _) f h1 h2.
by rewrite -g2_rawE e /short_tx ltnn.
Qed.
Theorem C103_gf2n_stop args fs s post : Forall2 zp_text args fs -> zp_bad s -> run "f2n_p_qp" (sm :: args ++ s :: post)%list = (lines_of g2_raw fs, Status 1).
Proof. by move=> ha hb; known "f2n_p_qp" (f2n_p_qp_main c); rewrite g2_main; [rewrite (qp_each_bad _ g2_ok ha (all_true fs) hb)|case: (args)]. Qed.
End N.
(* no polynomial *)
Theorem C103_no_arguments s : run "f2_p_qp" [::] = ([::], Status 1) /\
  Forall (fun name => run name [::] = ([::], Status 1) /\ run name [:: s] = ([::], Status 1)) [:: "fp_p_qp"; "f2n_p_qp"]%string.
Proof. by split; [|repeat constructor]. Qed.
Theorem C103_bad_modulus s1 s : (no_number s1 -> run "fp_p_qp" [:: s1; s] = ([::], Status 1)) /\ (no_hex s1 -> run "f2n_p_qp" [:: s1; s] = ([::], Status 1)).
Proof.
split=> h; first by known "fp_p_qp" (fp_p_qp_main c); rewrite /fp_p_qp_main (arg_int_none _ h).
by known "f2n_p_qp" (f2n_p_qp_main c); rewrite /f2n_p_qp_main (arg_f2_no _ h).
Qed.
(* commas only: a pointer to released memory is used *)
Theorem C103_separators_refuted s : Forall (eq ","%char) s -> s <> nil -> run "f2_p_qp" [:: s] = ([::], Undefined).
Proof.
by move=> h h0; known "f2_p_qp" f2_p_qp_main; rewrite /f2_p_qp_main /= PropPolyText.C92_q_separators_refuted.
Qed.
End Run.

(* one text stands for one polynomial *)
Theorem C103_text_unique s f g : zp_text s f -> zp_text s g -> f = g.
Proof.
move=> /zp_read[h1 _] /zp_read[]; rewrite h1 => -[e] _; apply: pZ_inj.
have := congr1 (map qv) e; rewrite !qpencE -!map_comp; under eq_map do rewrite /= qv_enc; under [in RHS]eq_map do rewrite /= qv_enc.
rewrite !map_id => h; apply/polyP=> i; have := congr1 (fun l => nth 0 l i) h; by rewrite !qseq_nth.
Qed.

(* x^2 - 3x + 14 modulo 2, 7 and over GF(4); 3x + 1 modulo 3, where the leading coefficient vanishes and its zero stays *)
Example C103_ex : let d := fun s : Z => (s, ((s * 5 + 1) mod 1024)%coqZ) in
  let run name args := let '(t, st) := spiff (poly_handler None cache_init d 50 50%coqZ (fun _ _ => usage)) (fun l => l) d 0%coqZ
    (txt name :: List.map txt args) in (string_of_list_ascii t, st) in
  let nl := String "010"%char "" in
  [/\ run "f2_p_qp" [:: "1,-3,14"; "1011"]%string = (("6" ++ nl ++ "b" ++ nl)%string, Status 0),
      run "fp_p_qp" [:: "7"; "1,-3,14"]%string = (("140" ++ nl)%string, Status 0) /\ run "fp_p_qp" [:: "11"; "1,-3,14"]%string = (("1,8,3" ++ nl)%string, Status 0),
      run "f2n_p_qp" [:: "7"; "1,-3,14"]%string = (("1:1:0" ++ nl)%string, Status 0),
      run "fp_p_qp" [:: "3"; "31"; "3x"]%string = (("01" ++ nl)%string, Status 1) &
      [/\ zp_text (txt "31") (Poly [:: 1%:Z; 3%:Z]), zp_bad (txt "3x"), (lead_coef (Poly [:: 1%:Z; 3%:Z]))%:~R = 0 :> 'F_3 & (1 < size (Poly [:: 1%:Z; 3%:Z]))%N]].
Proof.
have e : polyseq (Poly [:: 1%:Z; 3%:Z]) = [:: 1%:Z; 3%:Z] by rewrite (PolyK (c := 0)).
split; [by vm_compute|by split; vm_compute|by vm_compute|by vm_compute|split].
- by right; split=> //; repeat constructor.
- exists (txt "3"), "x"%char, nil; split=> //.
  + by repeat constructor.
  + by move=> [_ /Nat.leb_le].
  + by case=> [|[|[]]].
  + by case=> [|[|[]]].
- by rewrite lead_coefE e; apply/val_inj.
by rewrite e.
Qed.

Print Assumptions C103_mod_2_partial.
Print Assumptions C103_mod_2_stop.
Print Assumptions C103_mod_2_refuted.
Print Assumptions C103_mod_p.
Print Assumptions C103_mod_p_proper.
Print Assumptions C103_mod_p_refuted.
Print Assumptions C103_mod_p_stop.
Print Assumptions C103_gf2n.
Print Assumptions C103_gf2n_proper.
Print Assumptions C103_gf2n_refuted.
Print Assumptions C103_gf2n_stop.
Print Assumptions C103_no_arguments.
Print Assumptions C103_bad_modulus.
Print Assumptions C103_separators_refuted.
Print Assumptions C103_text_unique.
Print Assumptions C103_ex.
