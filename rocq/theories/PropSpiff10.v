(* Final theorems for the commands q_cyclotomic, f2_random, fpn_p_gcd and fpn_p_qp of cli/spiff and for the program cli/gcd (C104). *)
From Verif Require Import Base MIntMath MFac MIntmod MIntrat MMat MPoly MPolymod MFpnPoly MCyclo MTextIO MPolyText MUnits MRandom MSpiff MSpiff2 MSpiff5.
From Verif Require Import PIntMath PIntmod PMatCli5 PPolyText PSpiff PSpiff2 PSpiff3 PSpiff5 PSpiff7 PPolyText8.
From Coq Require Import Ascii String.
From mathcomp Require Import all_ssreflect all_algebra finfield ssrZ zify.
From Verif Require Import PMat PPoly PPoly2 PPoly3 PPolyFac PFp PFpPoly PFpn PPolymod PropFpPoly PropFpPolymod PropLinalg PPolyText2 PPolyText3 PPolyText4 PSpiff11 PSpiff12 PRandom PropRandom.
From Verif Require Import PQPoly PQPoly2 PCyclo PCyclo2 PCyclo3 PCyclo4 PropCyclo PropSpiff9.
From Verif Require Import PropSpiff3.
From Verif Require PPolyText10 PropInt PropSpiff PropSpiff4 PropPolyText PropFpnPoly.
Set Implicit Arguments.
Unset Strict Implicit.
Unset Printing Implicit Defensive.
Import GRing.Theory.
Delimit Scope Z_scope with coqZ.
Local Open Scope ring_scope.
Local Notation length := List.length.
Local Notation Forall2 := List.Forall2.
Local Notation Forall := List.Forall.
Local Notation In := List.In.

(* the coefficients of an integer polynomial, the leading one first, with commas between *)
Definition zp_tx (f : {poly int}) : text := put_sep [:: ","%char] [seq put_int (Z_of_int a) | a <- rev (zcoefs f)].
Lemma q_put_pZ f : q_put (qpenc (pZ f)) = zp_tx f.
Proof.
rewrite /q_put /zp_tx enc_pZ revE -map_rev mapE -map_comp; congr (put_sep _ _); apply: eq_map => a.
by rewrite /rat_put /= List.app_nil_r.
Qed.
Lemma text_int s v : int_text s v -> (INT_MIN <= v <= INT_MAX)%coqZ.
Proof. by move=> [? [? [? [? [_ [_ [_ [_ [_ [_ hv]]]]]]]]]]. Qed.

Section Run.
Context (c : cache) (qs : list (intmod * Z) -> list (intmod * Z)) (St : Type) (draw : St -> Z * St) (s0 : St) (other : string -> list text -> prog Z).
Local Notation run name args := (spiff (more_handler c draw s0 other) qs draw s0 (txt name :: args)).
Ltac known n h := rewrite (@PropSpiff.run_eq _ qs St draw s0 n _ h erefl erefl erefl).

(* ---- q_cyclotomic ---- *)
Section Cyclo.
Variable Phi : nat -> {poly int}.
Hypothesis hPhi : is_cyclotomic Phi.
Local Notation tx := (fun n => zp_tx (Phi (Z.to_nat n))).
Lemma cyclos_step m s n l : reach m -> int_text s n -> (1 <= n)%coqZ -> cyclos m (s :: l) = ([::], Undef) \/
  exists m', reach m' /\ cyclos m (s :: l) = (line (tx n) ++ fst (cyclos m' l), snd (cyclos m' l))%list.
Proof.
move=> hm hs hn; rewrite [cyclos _ _]/= (arg_int_ok _ _ hs) pb_ret.
have := C81_value hPhi hm (proj2 (text_int hs)); have -> : (n <? 1)%coqZ = false by clear - hn; lia.
case=> [->|[m' [-> hm']]]; [by left|right; exists m'; split=> //].
rewrite pb_ok [snd _]/= [fst _]/= -/(pZ _) q_put_pZ /nl !pb_print /emit /line.
by rewrite [fst (_, _)]/= [snd (_, _)]/= -List.app_assoc.
Qed.
(* missing: the computation may overflow an int; then the lines before it have been printed *)
Lemma cyclos_all m args ns rest : reach m -> Forall2 int_text args ns -> Forall (fun n => 1 <= n)%coqZ ns ->
  (exists k, (k < size ns)%N /\ cyclos m (args ++ rest)%list = (lines_of tx (take k ns), Undef)) \/
  exists m', reach m' /\ cyclos m (args ++ rest)%list = ((lines_of tx ns ++ fst (cyclos m' rest))%list, snd (cyclos m' rest)).
Proof.
move=> hm ha; elim: ha m hm => [|s n l k hs _ IH] m hm hn.
  by right; exists m; split=> //=; case: (cyclos m rest).
inversion hn; subst; case: (cyclos_step (l ++ rest)%list hm hs H1) => [e|[m' [hm' e]]].
  by left; exists 0%N; split=> //; rewrite [cyclos _ _]e.
case: (IH m' hm' H2) => [[j [hj e']]|[m2 [hm2 e']]].
  by left; exists j.+1; split=> //; rewrite [cyclos _ _]e e'.
right; exists m2; split=> //; rewrite [cyclos _ _]e e' /lines_of /= -!/(lines_of _ _).
by rewrite List.app_assoc.
Qed.
Lemma cyclo_cons args : args <> nil -> q_cyclo_main args = cyclos memo_init args.
Proof. by case: args. Qed.
Theorem C104_cyclotomic_partial args ns : args <> nil -> Forall2 int_text args ns -> Forall (fun n => 1 <= n)%coqZ ns ->
  run "q_cyclotomic" args = (lines_of tx ns, Status 0) \/
  exists k, (k < size ns)%N /\ run "q_cyclotomic" args = (lines_of tx (take k ns), Undefined).
Proof.
move=> hn ha h1; known "q_cyclotomic" q_cyclo_main; rewrite (cyclo_cons hn) -[args]List.app_nil_r.
case: (cyclos_all [::] reach_start ha h1) => [[k [hk ->]]|[m' [_ ->]]]; first by right; exists k.
by left; rewrite /= List.app_nil_r.
Qed.
(* a number below 1: the command ends there, with the status of success *)
Theorem C104_cyclotomic_refuted args ns s n post : Forall2 int_text args ns -> Forall (fun n => 1 <= n)%coqZ ns -> int_text s n -> (n < 1)%coqZ ->
  run "q_cyclotomic" (args ++ s :: post)%list = (lines_of tx ns, Status 0) \/
  exists k, (k < size ns)%N /\ run "q_cyclotomic" (args ++ s :: post)%list = (lines_of tx (take k ns), Undefined).
Proof.
move=> ha h1 hs hn; known "q_cyclotomic" q_cyclo_main; rewrite cyclo_cons; last by case: (args).
case: (cyclos_all (s :: post)%list reach_start ha h1) => [[k [hk ->]]|[m' [hm' ->]]]; first by right; exists k.
left; rewrite [cyclos _ (_ :: _)]/= (arg_int_ok _ _ hs) pb_ret.
have := C81_value hPhi hm' (proj2 (text_int hs)); have -> : (n <? 1)%coqZ = true by clear - hn; lia.
by move=> ->; rewrite /= List.app_nil_r.
Qed.
Theorem C104_cyclotomic_stop args ns s post : Forall2 int_text args ns -> Forall (fun n => 1 <= n)%coqZ ns -> no_number s ->
  run "q_cyclotomic" (args ++ s :: post)%list = (lines_of tx ns, Status 1) \/
  exists k, (k < size ns)%N /\ run "q_cyclotomic" (args ++ s :: post)%list = (lines_of tx (take k ns), Undefined).
Proof.
move=> ha h1 hs; known "q_cyclotomic" q_cyclo_main; rewrite cyclo_cons; last by case: (args).
case: (cyclos_all (s :: post)%list reach_start ha h1) => [[k [hk ->]]|[m' [hm' ->]]]; first by right; exists k.
by left; rewrite [cyclos _ (_ :: _)]/= (arg_int_none _ hs) /= List.app_nil_r.
Qed.
End Cyclo.

(* ---- f2_random ---- *)
(* the lowest bit of each word of the generator *)
Definition bit_tx (k : nat) : text := if Z.odd (fst (draw (iter k (next draw) s0))) then txt "1" else txt "0".
Lemma low_bit w : Z.land (to_int (u32 w)) 1 = (if Z.odd w then 1 else 0)%coqZ.
Proof.
rewrite (Z.land_ones _ 1) // /to_int /u32 -Z.bit0_odd.
have e : (Z.b2z (Z.testbit w 0) = w mod 2)%coqZ by rewrite Z.bit0_mod.
have -> : ((if Z.testbit w 0 then 1 else 0) = w mod 2)%coqZ by rewrite -e; case: Z.testbit.
have h : ((w mod 2 ^ 32) mod 2 = w mod 2)%coqZ.
  by rewrite -Znumtheory.Zmod_div_mod //; exists (2 ^ 31)%coqZ.
case: Z.ltb => //; rewrite -h -[in RHS](Z_mod_plus_full _ (- 2 ^ 31)).
by congr Z.modulo; clear; lia.
Qed.
Lemma bits_ok n : times n (fun s => let '(w, s) := get_random_int draw s in show (Z.land w 1) ;~~ nl ;~~ ret s) s0 =
  (lines_of bit_tx (List.seq 0 n), Val (iter n (next draw) s0)).
Proof.
rewrite (times_ok _ _ _ (fun k => iter k (next draw) s0) (fun k => line (bit_tx k))) // => i _.
rewrite Nat.add_1_r [iter i.+1 _ _]/= /bit_tx /next /get_random_int; case: (draw _) => w s /=.
by rewrite low_bit; case: (Z.odd w).
Qed.
Theorem C104_random : run "f2_random" [::] = (line (bit_tx 0), Status 0) /\
  forall s n, int_text s n -> run "f2_random" [:: s] = (lines_of bit_tx (List.seq 0 (Z.to_nat n)), Status 0).
Proof.
split=> [|s n h]; known "f2_random" (f2_random_main draw s0); rewrite /f2_random_main.
  by rewrite bits_ok pb_val emit_ret /lines_of /= List.app_nil_r.
by rewrite (arg_int_ok _ _ h) pb_ret bits_ok pb_val emit_ret.
Qed.
Theorem C104_usage s s1 s2 s3 s4 s5 l : [/\ run "q_cyclotomic" [::] = ([::], Status 1), run "f2_random" (s1 :: s2 :: l) = ([::], Status 1),
    no_number s -> run "f2_random" [:: s] = ([::], Status 1) &
  [/\ Forall (fun args => run "fpn_p_gcd" args = ([::], Status 1)) [:: [::]; [:: s1]; [:: s1; s2]; [:: s1; s2; s3]],
    run "fpn_p_gcd" (s :: s1 :: s2 :: s3 :: s4 :: s5 :: l) = ([::], Status 1),
    s <> txt "-e" -> run "fpn_p_gcd" [:: s; s1; s2; s3; s4] = ([::], Status 1) &
    Forall (fun args => run "fpn_p_qp" args = ([::], Status 1)) [:: [::]; [:: s1]; [:: s1; s2]]]].
Proof.
split=> //; first by move=> h; known "f2_random" (f2_random_main draw s0); rewrite /f2_random_main (arg_int_none _ h).
split=> //; [by repeat constructor| |by repeat constructor].
move=> h; known "fpn_p_gcd" (fpn_p_gcd_main c); rewrite /fpn_p_gcd_main.
have -> : teq s "-e" = false; last by [].
rewrite /teq; case: String.eqb_spec => // e; case: h.
by rewrite /txt -e list_ascii_of_string_of_list_ascii.
Qed.

(* ---- GF(p^n) ---- *)
Section Fpn.
Variable p : nat.
Hypothesis pp : prime p.
Hypothesis hP : (Z.of_nat p <= 46341)%coqZ.
Hypothesis hc : cache_valid c.
Variable G : gfq p.
Local Notation P := (Z.of_nat p).
Local Notation L := (gq_L G).
Local Notation m := (gq_m G).
Local Notation enc := (@PropFpnPoly.gq_enc p G).
Local Notation el := (@gq_el p G).
Local Notation o := (fpn_kops c).
Local Notation at_root r := ((map_poly (gq_emb G) r).[gq_z G]).
Lemma ok : PropPolyText.ok p c. Proof. by split. Qed.
(* the polynomial of degree less than n that takes the value a at the generating element *)
Lemma rep_ex (a : L) : exists r : {poly 'F_p}, (size r < size m)%N && (at_root r == a).
Proof. by have [r [_ h1 h2]] := el_menc a; exists r; rewrite h1 h2 /=. Qed.
Definition rep (a : L) : {poly 'F_p} := xchoose (rep_ex a).
(* the texts of these, that of the leading coefficient first, with colons between *)
Definition qn_tx (f : {poly L}) : text := put_sep [:: ":"%char] [seq PropSpiff4.fp_tx (rep a) | a <- rev (if f == 0 then [:: 0] else polyseq f)].
(* words between colons, each the text of a polynomial over GF(p) that takes the value of the coefficient at the generating element *)
Definition qn_rd (s : text) (f : {poly L}) : Prop := exists ts rs, [/\ spread ":"%char ts s, ~ In "000"%char s, ts <> nil, Forall2 (@fp_word p) ts rs &
  f = Poly (rev [seq at_root r | r <- rs])].
Lemma rep_el a : gm_res (el a) = fp_enc (rep a).
Proof.
have /andP[h1 /eqP h2] := xchooseP (rep_ex a).
suff -> : el a = fp_menc m (rep a) by rewrite /fp_menc /= modp_small.
symmetry; apply: (PropFpnPoly.Rel pp hP hc); apply: (VqI (PropFpPolymod.mencM pp _ (m_neq0 (gq_irr G)))).
by rewrite (ev_mod (gq_root G)).
Qed.
Lemma qn_shw f : show_fpn (enc f) = MSpiff.print (qn_tx f).
Proof.
rewrite /show_fpn /print_res /fpn_put enc_rev.
have -> s : mapM (fun a => fp_put (gm_res a)) (List.map el s) = Ok [seq PropSpiff4.fp_tx (rep a) | a <- s].
  by elim: s => //= a s ->; rewrite rep_el (PropSpiff4.put_enc pp draw s0) bind_ok.
by rewrite bind_ok pb_ok.
Qed.
Lemma qn_arg s f : qn_rd s f -> arg_fpn c (fp_enc m) s = ret (enc f).
Proof. by move=> [ts [rs [h1 h2 h3 h4 ->]]]; rewrite /arg_fpn (PropPolyText.C92_fpn_read ok G h1 h2 h3 h4). Qed.
Variables sp sm : text.
Hypothesis hp : int_text sp P.
Hypothesis hm : fp_text sm m.
Lemma im_ok : arg_im c sp sm = ret (fp_enc m).
Proof. by rewrite /arg_im (arg_int_ok _ _ hp) pb_ret (PropSpiff4.Harg pp hP hc hm). Qed.

(* the text printed for a polynomial, given as an argument, means that polynomial *)
Theorem C104_text f : qn_rd (qn_tx f) f.
Proof.
have hw a : [/\ PropSpiff4.fp_tx (rep a) <> nil, Forall (fun x => dc x = true) (PropSpiff4.fp_tx (rep a)) & fp_text (PropSpiff4.fp_tx (rep a)) (rep a)].
  by have [t [h1 h2 h3 h4]] := fp_put_text pp hP hc (rep a); move: h1; rewrite (PropSpiff4.put_enc pp draw s0) => -[->].
set cs := if f == 0 then [:: 0] else polyseq f.
have h1 : Forall (PPolyText.word ":"%char) [seq PropSpiff4.fp_tx (rep a) | a <- rev cs].
  elim: (rev cs) => [|a l IH]; constructor=> //; have [k1 k2 k3] := hw a; split=> //.
  by move=> /(proj1 (List.Forall_forall _ _) k2) /dc_not [_ [_ [_ []]]].
have h2 : Forall (Forall (fun x => dc x = true)) [seq PropSpiff4.fp_tx (rep a) | a <- rev cs].
  by elim: (rev cs) => [|a l IH]; constructor=> //; have [] := hw a.
have h3 : (0 < size cs)%N by rewrite /cs; case: eqP => // /eqP; rewrite size_poly_gt0.
exists [seq PropSpiff4.fp_tx (rep a) | a <- rev cs], [seq rep a | a <- rev cs]; split.
- exact: put_sep_spread.
- exact: words_ok.
- by move/(congr1 size); rewrite size_map size_rev; case: (cs) h3.
- elim: (rev cs) => [|a l IH]; constructor=> //; have [k1 k2 k3] := hw a.
  by exists nil, (PropSpiff4.fp_tx (rep a)); split=> //; constructor.
- rewrite -map_comp (eq_map (f2 := id)) ?map_id ?revK; last by move=> a /=; have /andP[_ /eqP] := xchooseP (rep_ex a).
  by rewrite /cs; case: eqP => [->|_]; [apply/polyP=> -[|[|i]]; rewrite coef_Poly coef0|rewrite polyseqK].
Qed.
Theorem C104_gcd s1 s2 f g : qn_rd s1 f -> qn_rd s2 g -> exists d, run "fpn_p_gcd" [:: sp; sm; s1; s2] = (line (qn_tx d), Status 0) /\
  forall h, h %| d <-> h %| f /\ h %| g.
Proof.
move=> h1 h2; have [d [e [d1 [d2 d3]]]] := PropFpnPoly.C85_gcd pp hP hc f g; exists d; split; last first.
  by move=> h; split=> [k|[k1 k2]]; [split; [exact: dvdp_trans k d1|exact: dvdp_trans k d2]|exact: d3].
known "fpn_p_gcd" (fpn_p_gcd_main c); rewrite /fpn_p_gcd_main im_ok pb_ret (qn_arg h1) pb_ret (qn_arg h2) pb_ret e pb_ok qn_shw.
by rewrite pb_print /nl pb_print emit_ret.
Qed.
(* missing: it may be undefined, see C104_ext_gcd_refuted *)
Theorem C104_ext_gcd_partial s1 s2 f g : qn_rd s1 f -> qn_rd s2 g -> g != 0 ->
  run "fpn_p_gcd" [:: txt "-e"; sp; sm; s1; s2] = ([::], Undefined) \/
  exists d u v, [/\ run "fpn_p_gcd" [:: txt "-e"; sp; sm; s1; s2] =
      (line (qn_tx d ++ txt " = " ++ qn_tx u ++ txt " * " ++ qn_tx f ++ txt " + " ++ qn_tx v ++ txt " * " ++ qn_tx g)%list, Status 0),
    u * f + v * g = d & forall h, h %| d <-> h %| f /\ h %| g].
Proof.
move=> h1 h2 g0; known "fpn_p_gcd" (fpn_p_gcd_main c); rewrite /fpn_p_gcd_main; change (teq (txt "-e") "-e") with true; cbv iota.
rewrite im_ok pb_ret (qn_arg h1) pb_ret (qn_arg h2) pb_ret.
have [->|[d [u [v [-> [hb [d1 d2]]]]]]] := PropFpnPoly.C85_ext_gcd_partial pp hP hc f g0; [by left|right; exists d, u, v; split=> //].
  by rewrite pb_ok (bezout_ok _ _ _ qn_shw) pb_val emit_ret.
move=> h; split=> [k|[k1 k2]]; first by split; [exact: dvdp_trans k d1|exact: dvdp_trans k d2].
by rewrite -hb dvdp_add // dvdp_mull.
Qed.

(* a word that is no polynomial over GF(p) *)
Definition qn_bad (s : text) : Prop := exists ts1 rs b u ts2, [/\ spread ":"%char (ts1 ++ (b ++ u) :: ts2)%list s, ~ In "000"%char s,
  Forall2 (@fp_word p) ts1 rs, white b & PPolyText10.bare u /\ PPolyText.ends u].
Theorem C104_gcd_bad s1 s2 f : (qn_bad s1 -> Forall (fun args => run "fpn_p_gcd" args = ([::], Status 1)) [:: [:: sp; sm; s1; s2]; [:: txt "-e"; sp; sm; s1; s2]]) /\
  (qn_rd s1 f -> qn_bad s2 -> Forall (fun args => run "fpn_p_gcd" args = ([::], Status 1)) [:: [:: sp; sm; s1; s2]; [:: txt "-e"; sp; sm; s1; s2]]).
Proof.
have no s : qn_bad s -> arg_fpn c (fp_enc m) s = usage.
  by move=> [ts1 [rs [b [u [ts2 [h1 h2 h3 h4 [h5 h6]]]]]]]; rewrite /arg_fpn; have [l ->] := PropPolyText.C92_fpn_reject ok G h1 h2 h3 h4 h5 h6.
have go s t : arg_fpn c (fp_enc m) s = usage \/ qn_rd s f /\ arg_fpn c (fp_enc m) t = usage ->
    Forall (fun args => run "fpn_p_gcd" args = ([::], Status 1)) [:: [:: sp; sm; s; t]; [:: txt "-e"; sp; sm; s; t]].
  move=> h; have e1 : run "fpn_p_gcd" [:: sp; sm; s; t] = ([::], Status 1).
    known "fpn_p_gcd" (fpn_p_gcd_main c); rewrite /fpn_p_gcd_main im_ok pb_ret.
    by case: h => [->|[/qn_arg -> e]] //; rewrite pb_ret e.
  have e2 : run "fpn_p_gcd" [:: txt "-e"; sp; sm; s; t] = ([::], Status 1).
    known "fpn_p_gcd" (fpn_p_gcd_main c); rewrite /fpn_p_gcd_main; change (teq (txt "-e") "-e") with true; cbv iota; rewrite im_ok pb_ret.
    by case: h => [->|[/qn_arg -> e]] //; rewrite pb_ret e.
  by repeat constructor.
by split=> [/no h|h1 /no h2]; apply: go; [left|right].
Qed.

(* ---- fpn_p_qp ---- *)
Lemma int_el v : (INT_MIN < v <= INT_MAX)%coqZ -> gm_int_mod (im_kops c) (fp_enc m) v = Ok (el ((int_of_Z v)%:~R)).
Proof.
move=> hv; rewrite /gm_int_mod (PropFpPoly.t_int pp hP hc _ hv) bind_ok.
have si := im_kspec pp hP hc; have [k [-> hk]] := make_ok si (PropFpPoly.encG pp ((int_of_Z v)%:~R)%:P) (PropFpPoly.encG pp _) (m_neq0 (gq_irr G)).
congr Ok; apply: (PropFpnPoly.Rel pp hP hc); apply: (VqI hk).
by rewrite (ev_mod (gq_root G)) evC -cast_emb.
Qed.
Lemma qp_any (f : {poly int}) : (~~ in_ints (pZ f) /\ fpn_poly_from_qpoly c (qpenc (pZ f)) (fp_enc m) = UB) \/
  fpn_poly_from_qpoly c (qpenc (pZ f)) (fp_enc m) = Ok (enc (map_poly intr f)).
Proof.
rewrite /fpn_poly_from_qpoly; have [x [-> ex]] := enc_head m; rewrite bind_ok ex.
have [//|z [-> hz]] := V_make pp hP (z := 0%coqZ).
have si := im_kspec pp hP hc; rewrite bind_ok; have [l [-> hl]] := const_ok si hz; rewrite bind_ok.
have [k [-> hk]] := make_ok si hl (PropFpPoly.encG pp _) (m_neq0 (gq_irr G)); rewrite bind_ok.
have -> : k = el 0 by apply: (PropFpnPoly.Rel pp hP hc); apply: (VqI hk); rewrite (ev_mod (gq_root G)) evC rmorph0.
have [-> _] := PropFpnPoly.C85_make pp hP hc (0 : L) 0 0; rewrite bind_ok lengthE.
set q := qpenc (pZ f); set N := size q; set rf := map_poly intr f : {poly L}.
have N0 : (0 < N)%N by rewrite /N /q qpencE size_map qseq_gt0.
have dE : gp_degree q = N.-1 by rewrite /gp_degree lengthE minusE subn1.
have sN : (size rf <= N)%N.
  apply: leq_trans (size_poly _ _) _; rewrite /N /q qpencE size_map qseq_pZ size_map /zcoefs.
  by case: eqP => // ->; rewrite size_poly0.
set body := (fun i rv => _).
have step i (g : {poly L}) : (i < N)%N -> g`_(N.-1 - i) = 0 -> (~~ in_ints (pZ f) /\ body i (enc g) = UB) \/ body i (enc g) = Ok (enc (g + rf`_(N.-1 - i) *: 'X^(N.-1 - i))).
  move=> hN h0; rewrite /body dE; have hk2 : (N.-1 - i < N)%N by clear - hN N0; lia.
  move: h0 hk2; set j := (N.-1 - i)%N => h0 hj; rewrite get_ok // bind_ok.
  have -> : nth rat_default q j = qenc (f`_j)%:~R.
    rewrite /q qpencE (nth_map 0) ?qseq_nth ?coef_map //.
    by move: hj; rewrite /N /q qpencE size_map.
  have hr : in_ints (pZ f) -> int_rat (f`_j)%:~R.
    move=> hi; have := allP hi (f`_j)%:~R; apply; have := mem_nth 0 (s := qseq (pZ f)) (n := j); rewrite qseq_nth coef_map; apply.
    by move: hj; rewrite /N /q qpencE size_map.
  case: (rat_conv pp hP hc (f`_j)%:~R) => [[h ->]|hE]; [by left; split=> //; apply: contra h|right; move: hE].
  rewrite denq_int oner_eq0 red_int => ->; rewrite bind_ok [residue _]/=.
  rewrite int_el; last first.
    have : (nat_of_ord ((f`_j)%:~R : 'F_p) < p)%N by have := ltn_ord ((f`_j)%:~R : 'F_p); rewrite [X in (_ < X)%N]Fp_cast.
    by rewrite /INT_MIN /INT_MAX; move: (nat_of_ord _) hP; clear; lia.
  rewrite bind_ok (PropFpnPoly.t_set pp hP hc); have -> : Z.ltb (Z.of_nat j) 0 = false by clear; lia.
  rewrite Nat2Z.id h0 subr0; congr (Ok (enc (_ + _ *: _))).
  have hzn (n : nat) : int_of_Z (Z.of_nat n) = n%:Z by rewrite -(Z_of_intK n).
  rewrite hzn /rf coef_map /= -[in RHS](rmorph_int (gq_emb G)) -pmulrn -(rmorph_nat (gq_emb G)).
  by congr (gq_emb G _); exact: natr_Zp.
have main n i (g : {poly L}) : (i + n = N)%N -> (forall j, g`_j = if (N - i <= j)%N then rf`_j else 0) ->
    (~~ in_ints (pZ f) /\ for_up n i body (enc g) = UB) \/ for_up n i body (enc g) = Ok (enc rf).
  elim: n i g => [|n IH] i g e hg.
    by right; congr (Ok (enc _)); apply/polyP => j; rewrite hg -e addn0 subnn.
  rewrite [for_up _ _ _ _]/=; have [| |[h ->]|->] := step i g; [by clear - e; lia| |by left|].
    by rewrite hg; case: leqP => // h; exfalso; clear - h e; lia.
  rewrite bind_ok; apply: IH; first by rewrite -e addSnnS.
  move=> j; rewrite coefD coefZ coefXn hg; case: (eqVneq j (N.-1 - i)%N) => [->|ne].
    rewrite ?mulr1n mulr1; have -> : (N - i <= N.-1 - i)%N = false by clear - e; lia.
    by have -> : (N - i.+1 <= N.-1 - i)%N; [clear - e; lia|rewrite add0r].
  rewrite mulr0 addr0; have -> // : (N - i.+1 <= j)%N = (N - i <= j)%N by clear - e ne; lia.
apply: main => // j; rewrite coefC if_same subn0; case: leqP => // h.
by rewrite nth_default //; apply: leq_trans sN h.
Qed.
Lemma qp_ok (f : {poly int}) : in_ints (pZ f) -> fpn_poly_from_qpoly c (qpenc (pZ f)) (fp_enc m) = Ok (enc (map_poly intr f)).
Proof. by move=> hi; case: (qp_any f) => // -[]; rewrite hi. Qed.
(* the reduction of a cyclotomic polynomial *)
Theorem C104_cyclotomic_field_partial Phi t n : is_cyclotomic Phi -> reach t -> (0 < n <= INT_MAX)%coqZ ->
  get_cyclo_fpn_poly c t n (fp_enc m) = UB \/ exists t', reach t' /\ get_cyclo_fpn_poly c t n (fp_enc m) = Ok (t', enc (map_poly intr (Phi (Z.to_nat n)))).
Proof.
move=> hPhi ht hn; have := C81_value hPhi ht (proj2 hn); rewrite /get_cyclo_fpn_poly; have -> : (n <? 1)%coqZ = false by clear - hn; lia.
case=> [->|[t' [-> ht']]]; [by left|rewrite bind_ok -/(pZ _)].
by case: (qp_any (Phi (Z.to_nat n))) => [[_ ->]|->]; [left|right; exists t'].
Qed.
Lemma qp_show f : True -> in_ints (pZ f) -> exists r, fpn_poly_from_qpoly c (qpenc (pZ f)) (fp_enc m) = Ok r /\ show_fpn r = MSpiff.print (qn_tx (map_poly intr f)).
Proof. by move=> _ hi; rewrite (qp_ok hi); eexists; split; [reflexivity|exact: qn_shw]. Qed.
Lemma qp_main args : args <> nil -> fpn_p_qp_main c [:: sp, sm & args] =
  (each (fun s => q <~ arg_scan (q_scan s) ;~ f <~ call (fpn_poly_from_qpoly c q (fp_enc m)) ;~ show_fpn f ;~~ nl) args ;~~ ret 0%coqZ).
Proof. by case: args => // a l _; rewrite /fpn_p_qp_main im_ok pb_ret. Qed.
(* leading coefficients that are multiples of p are left out, unlike in fp_p_qp and f2n_p_qp *)
Theorem C104_reduce args fs : args <> nil -> Forall2 zp_text args fs ->
  run "fpn_p_qp" [:: sp, sm & args] = (lines_of (fun f => qn_tx (map_poly intr f)) fs, Status 0).
Proof. by move=> hn ha; known "fpn_p_qp" (fpn_p_qp_main c); rewrite (qp_main hn) (qp_each qp_show ha (all_true fs)) pb_val emit_ret. Qed.
Theorem C104_reduce_stop args fs s post : Forall2 zp_text args fs -> zp_bad s ->
  run "fpn_p_qp" [:: sp, sm & (args ++ s :: post)%list] = (lines_of (fun f => qn_tx (map_poly intr f)) fs, Status 1).
Proof. by move=> ha hb; known "fpn_p_qp" (fpn_p_qp_main c); rewrite qp_main; [rewrite (qp_each_bad _ qp_show ha (all_true fs) hb)|case: (args)]. Qed.
End Fpn.
(* no number for p, or no polynomial for the modulus *)
Theorem C104_bad_modulus (p : nat) s1 s2 s3 s4 : prime p -> (Z.of_nat p <= 46341)%coqZ -> cache_valid c ->
  no_number s1 \/ int_text s1 (Z.of_nat p) /\ PropSpiff4.fp_bad p s2 ->
  Forall (fun args => run "fpn_p_gcd" args = ([::], Status 1)) [:: [:: s1; s2; s3; s4]; [:: txt "-e"; s1; s2; s3; s4]] /\
  run "fpn_p_qp" [:: s1; s2; s3] = ([::], Status 1).
Proof.
move=> pp hP hc h; have e : arg_im c s1 s2 = usage.
  by rewrite /arg_im; case: h => [h|[h1 h2]]; [rewrite (arg_int_none _ h)|rewrite (arg_int_ok _ _ h1) pb_ret (PropSpiff4.Hbad pp hP hc h2)].
have e1 : run "fpn_p_gcd" [:: s1; s2; s3; s4] = ([::], Status 1) by known "fpn_p_gcd" (fpn_p_gcd_main c); rewrite /fpn_p_gcd_main e.
have e2 : run "fpn_p_gcd" [:: txt "-e"; s1; s2; s3; s4] = ([::], Status 1).
  by known "fpn_p_gcd" (fpn_p_gcd_main c); rewrite /fpn_p_gcd_main; change (teq (txt "-e") "-e") with true; cbv iota; rewrite e.
by split; [repeat constructor|known "fpn_p_qp" (fpn_p_qp_main c); rewrite /fpn_p_qp_main e].
Qed.
End Run.

(* the program gcd *)
Definition gcd_run (args : list text) : text * status := (fst (gcd_main args), PropSpiff.ends (snd (gcd_main args))).
Theorem C104_gcd_program s1 s2 a b : int_text s1 a -> int_text s2 b -> (INT_MIN < a)%coqZ -> (INT_MIN < b)%coqZ ->
  exists g, gcd_run [:: s1; s2] = (line (put_int g), Status 0) /\ (forall d, (d | g) <-> (d | a) /\ (d | b))%coqZ /\
    ((a <> 0 /\ b <> 0) \/ (0 <= a /\ 0 <= b) -> 0 <= g)%coqZ.
Proof.
move=> h1 h2 ha hb; have ra := text_int h1; have rb := text_int h2.
have [||g [e [g1 [g2 [g3 [_ g5]]]]]] := @PropInt.C01_gcd a b; rewrite /INT_MIN /INT_MAX in ha hb ra rb *; [clear - ha ra; lia|clear - hb rb; lia|].
exists g; split; last split=> // d.
  by rewrite /gcd_run /gcd_main (arg_int_ok _ _ h1) pb_ret (arg_int_ok _ _ h2) pb_ret e pb_ok.
by split=> [k|[k1 k2]]; [split; exact: Z.divide_trans k _|exact: g3].
Qed.
Theorem C104_gcd_program_int_min s1 s2 b : int_text s1 INT_MIN -> int_text s2 b -> (b <> 0)%coqZ -> gcd_run [:: s1; s2] = ([::], Undefined).
Proof.
move=> h1 h2 hb; rewrite /gcd_run /gcd_main (arg_int_ok _ _ h1) pb_ret (arg_int_ok _ _ h2) pb_ret.
by rewrite (PropInt.C01_gcd_int_min _ hb).
Qed.
Theorem C104_gcd_program_usage s1 s2 s3 l v : [/\ gcd_run [::] = ([::], Status 1), gcd_run [:: s1] = ([::], Status 1),
  gcd_run (s1 :: s2 :: s3 :: l) = ([::], Status 1), no_number s1 -> gcd_run [:: s1; s2] = ([::], Status 1) &
  int_text s1 v -> no_number s2 -> gcd_run [:: s1; s2] = ([::], Status 1)].
Proof.
split=> // h; first by rewrite /gcd_run /gcd_main (arg_int_none _ h).
by move=> h2; rewrite /gcd_run /gcd_main (arg_int_ok _ _ h) pb_ret (arg_int_none _ h2).
Qed.

Definition run0 (name : string) (args : list string) : string * status :=
  let d := fun s : Z => (s, ((s * 5 + 1) mod 1024)%coqZ) in
  let '(t, st) := spiff (more_handler cache_init d 3%coqZ (fun _ _ => usage)) (fun l => l) d 3%coqZ (txt name :: List.map txt args) in (string_of_list_ascii t, st).
(* over GF(9) = GF(3)[z]/(z^2+1): x^2 + 1 and (z+1)x + z *)
Theorem C104_ext_gcd_refuted : run0 "fpn_p_gcd" [:: "-e"; "3"; "101"; "1:0:1"; "11:10"]%string = (""%string, Undefined).
Proof. by vm_compute. Qed.
Example C104_ex : let nl := String "010"%char "" in
  [/\ run0 "q_cyclotomic" [:: "1"; "6"; "15"]%string = (("1,-1" ++ nl ++ "1,-1,1" ++ nl ++ "1,-1,0,1,-1,1,0,-1,1" ++ nl)%string, Status 0),
    run0 "q_cyclotomic" [:: "3"; "0"; "4"]%string = (("1,1,1" ++ nl)%string, Status 0),
    run0 "f2_random" [:: "4"]%string = (("1" ++ nl ++ "0" ++ nl ++ "1" ++ nl ++ "0" ++ nl)%string, Status 0),
    run0 "fpn_p_gcd" [:: "3"; "101"; "1:0:1"; "1:10"]%string = (("1:10" ++ nl)%string, Status 0) &
    run0 "fpn_p_qp" [:: "3"; "101"; "3,1,-1"; "102"]%string = (("1:2" ++ nl ++ "1:0:2" ++ nl)%string, Status 0)].
Proof. by vm_compute. Qed.
Print Assumptions C104_cyclotomic_partial.
Print Assumptions C104_cyclotomic_refuted.
Print Assumptions C104_cyclotomic_stop.
Print Assumptions C104_random.
Print Assumptions C104_usage.
Print Assumptions C104_text.
Print Assumptions C104_gcd.
Print Assumptions C104_ext_gcd_partial.
Print Assumptions C104_reduce.
Print Assumptions C104_gcd_bad.
Print Assumptions C104_reduce_stop.
Print Assumptions C104_bad_modulus.
Print Assumptions C104_gcd_program.
Print Assumptions C104_gcd_program_int_min.
Print Assumptions C104_gcd_program_usage.
Print Assumptions C104_ext_gcd_refuted.
Print Assumptions C104_cyclotomic_field_partial.
