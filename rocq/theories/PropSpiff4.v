(* Final theorems for the commands of cli/spiff on polynomials over GF(p) (C98). *)
From Verif Require Import Base MIntMath MFac MIntmod MMat MPoly MPolyFac MLinalg MTextIO MPolyText MList MRandom MSpiff MSpiff2.
From Verif Require Import PIntMath PIntmod PMatCli5 PPolyText PSpiff PSpiff2 PSpiff3 PSpiff5 PSpiff7.
From Coq Require Import Ascii String.
From mathcomp Require Import all_ssreflect all_algebra finfield ssrZ zify.
From Verif Require Import PMat PFp PPoly PPoly2 PPoly3 PFpPoly PPolyFac PropFpPoly PropLinalg PPolyText2 PPolyText3 PPolyText4 PropSpiff3 PSpiff11 PSpiff12 PRandom PropRandom.
From Verif Require PropSpiff PropFpFac PropList PropPolyText PList6 PLinalg2 PF2Fac2.
Set Implicit Arguments.
Unset Strict Implicit.
Unset Printing Implicit Defensive.
Import GRing.Theory.
Delimit Scope Z_scope with coqZ.
Local Open Scope ring_scope.
Local Notation length := List.length.
Local Notation Forall2 := List.Forall2.
Local Notation Forall := List.Forall.
Local Notation In := List.In.

(* the number of the class *)
Definition res_tx (p : nat) (a : 'F_p) : text := put_int (Z.of_nat (nat_of_ord a)).
(* the residues of the coefficients, the leading one first; with commas between if p has two digits or more *)
Definition fp_tx (p : nat) (f : {poly 'F_p}) : text :=
  put_sep (if (9 < p)%N then [:: ","%char] else [::]) [seq res_tx a | a <- rev (if f == 0 then [:: 0] else polyseq f)].
(* a text that is refused: an entry without a number, or, for p < 10 and without commas, a character that is no digit *)
Definition fp_bad (p : nat) (t : text) : Prop :=
  (exists ts1 vs w ts2, [/\ spread ","%char (ts1 ++ w :: ts2)%list t, ~ In "000"%char t, Forall2 int_text ts1 vs, forall v, ~ int_text w v &
     In ","%char t \/ (10 <= Z.of_nat p)%coqZ]) \/
  [/\ ~ In ","%char t, (Z.of_nat p < 10)%coqZ & exists x, In x t /\ ~ digit x].

Lemma int_not s v opt : int_text s v -> scan_num (txt opt) = None -> teq s opt = false.
Proof.
move=> /(scan_ok _ _)[[r e] _] h; rewrite /teq; case: (String.eqb_spec (string_of_list_ascii s) opt) => // k; exfalso.
by move: h; rewrite -k /txt list_ascii_of_string_of_list_ascii e.
Qed.

Section Run.
Variables (p : nat) (c : cache).
Hypothesis pp : prime p.
Hypothesis hP : (Z.of_nat p <= 46341)%coqZ.
Hypothesis hc : cache_valid c.
Context (tm : option N) (other : string -> list text -> prog Z) (qs : list (intmod * Z) -> list (intmod * Z)) (St : Type)
  (draw : St -> Z * St) (fuel : nat) (s0 : St).
Local Notation run name args := (spiff (poly_handler tm c draw fuel s0 other) qs draw s0 (txt name :: args)).
Local Notation P := (Z.of_nat p).
Local Notation o := (im_kops c).
Local Notation enc := (@fp_enc p).
Local Notation tx := (@fp_tx p).
Local Notation rd := (@fp_text p).
Local Notation num := (@fp_num p).
Local Notation arg := (arg_fp c P).
Local Notation sp := (im_kspec pp hP hc).
Local Notation dflt := (@PropFpFac.dflt p pp hP c).
Local Notation kvq := (PropFpFac.kvq pp).
Local Notation kv0 := (PropFpFac.kv0 pp).
Local Notation fs := (PropFpFac.fs pp hP hc).
Local Notation encG := (PropFpPoly.encG pp).
Ltac known n h := rewrite (@PropSpiff.run_eq _ qs St draw s0 n _ h erefl erefl erefl).

Lemma ok : PropPolyText.ok p c. Proof. by split. Qed.
Lemma Harg s x : rd s x -> arg s = ret (enc x).
Proof. by move=> h; rewrite /arg_fp (PropPolyText.C92_fp_read ok h). Qed.
Lemma Hbad s : fp_bad p s -> arg s = usage.
Proof.
case=> [[ts1 [vs [w [ts2 [h1 h2 h3 h4 h5]]]]]|[h1 h2 h3]]; rewrite /arg_fp.
  by have [l ->] := PropPolyText.C92_fp_reject ok h1 h2 h3 h4 h5.
by have [l ->] := PropPolyText.C92_fp_reject_digit ok h1 h2 h3.
Qed.
Lemma put_enc f : fp_put (enc f) = Ok (tx f).
Proof.
rewrite (fp_put_eq f) /vtext /fp_tx /comma; congr (Ok (put_sep _ _)).
  by case: (Z.ltb_spec 9 P); case: ltnP => //; lia.
rewrite List.map_map List.map_rev /fp_enc !mapE -map_comp revE -map_rev; congr map.
Qed.
Lemma Hshw f : show_fp (enc f) = MSpiff.print (tx f).
Proof. by rewrite /show_fp /print_res put_enc pb_ok. Qed.
Lemma hnum f : gval rv #|Fp_finFieldType p| (enc f) = num f.
Proof. by rewrite (PropFpFac.cardF pp) num_gval. Qed.
Lemma p_int : (2 <= P <= INT_MAX)%coqZ.
Proof. by have := prime_gt1 pp; move: hP; rewrite /INT_MAX; clear; lia. Qed.
Lemma hone : MSpiff2.fp_one c P = Ok (enc 1).
Proof.
rewrite /MSpiff2.fp_one; have [//|z [-> hz]] := V_make pp hP (z := 1%coqZ).
by rewrite bind_ok; have [l [-> hl]] := const_ok sp hz; rewrite (PropFpPoly.Genc pp hP hc hl).
Qed.
Lemma numsz f n : (num f < #|Fp_finFieldType p| ^ n)%N = (size f <= n)%N.
Proof. by rewrite (PropFpFac.cardF pp); exact: PList6.fp_num_size. Qed.

(* the text printed for a polynomial, given as an argument, means that polynomial *)
Theorem C98_text f : rd (tx f) f.
Proof. by have [t [h1 _ _ h2]] := fp_put_text pp hP hc f; move: h1; rewrite put_enc => -[->]. Qed.

(* sm: the text of p *)
Variable sm : text.
Hypothesis hm : int_text sm P.
(* ---- degrees ---- *)
Theorem C98_deg args ps : Forall2 rd args ps ->
  run "fp_p_deg" (sm :: args) = (listing tx (many ps) ": " ps (List.map (fun f => put_int (deg f)) ps), Status 0).
Proof.
move=> h; known "fp_p_deg" (fp_p_deg_main c); rewrite /fp_p_deg_main (arg_int_ok _ _ hm) pb_ret (several_many _ _ _ h).
by rewrite (deg_per encG Harg Hshw _ h) pb_val emit_ret.
Qed.
(* a text that is refused: the lines of those before it, then exit status 1 *)
Theorem C98_deg_bad args ps s post : Forall2 rd args ps -> fp_bad p s ->
  run "fp_p_deg" (sm :: args ++ s :: post)%list = (listing tx (many (args ++ s :: post)%list) ": " ps (List.map (fun f => put_int (deg f)) ps), Status 1).
Proof.
move=> h /Hbad hs; known "fp_p_deg" (fp_p_deg_main c); rewrite /fp_p_deg_main (arg_int_ok _ _ hm) pb_ret.
rewrite (per_bad arg show_fp enc rd tx Harg Hshw _ _ _ _ _ (List.map (fun f => put_int (deg f)) ps) _ _ h _ hs) //.
by apply: F2_map; elim: (ps) => [|f l IH]; constructor=> //; rewrite (degree_enc encG).
Qed.
(* the empty text for p < 10, and a text of commas, are undefined *)
Theorem C98_empty_refuted s : Forall (eq ","%char) s -> run "fp_p_deg" [:: sm; s] = ([::], Undefined).
Proof.
move=> h; known "fp_p_deg" (fp_p_deg_main c); rewrite /fp_p_deg_main (arg_int_ok _ _ hm) pb_ret /per /= /arg_fp.
case: (Z.leb_spec 10 P) => h10; first by have [-> _] := PropPolyText.C92_fp_separators_refuted ok h (or_intror h10).
case: s h => [_|x s h]; first by rewrite (PropPolyText.C92_fp_empty_refuted ok).
by have [|-> _] := PropPolyText.C92_fp_separators_refuted ok h; [left|].
Qed.

(* ---- greatest common divisor ---- *)
Theorem C98_gcd s1 s2 f g : rd s1 f -> rd s2 g ->
  exists d, run "fp_p_gcd" [:: sm; s1; s2] = (line (tx d), Status 0) /\ forall h, h %| d <-> h %| f /\ h %| g.
Proof.
move=> h1 h2; have [d [e hd]] := gcd_enc sp encG f g; exists d; split=> //.
known "fp_p_gcd" (fp_p_gcd_main c); rewrite /fp_p_gcd_main (arg_int_ok _ _ hm) pb_ret (Harg h1) pb_ret (Harg h2) pb_ret e pb_ok Hshw.
by rewrite pb_print /nl pb_print emit_ret.
Qed.
Theorem C98_ext_gcd_partial s1 s2 f g : rd s1 f -> rd s2 g -> g != 0 ->
  exists d u v, [/\ run "fp_p_gcd" [:: txt "-e"; sm; s1; s2] =
      (line (tx d ++ txt " = " ++ tx u ++ txt " * " ++ tx f ++ txt " + " ++ tx v ++ txt " * " ++ tx g)%list, Status 0),
    u * f + v * g = d & forall h, h %| d <-> h %| f /\ h %| g].
Proof.
move=> h1 h2 g0; have [d [u [v [e hb hd]]]] := ext_enc sp encG f g0; exists d, u, v; split=> //.
known "fp_p_gcd" (fp_p_gcd_main c); rewrite /fp_p_gcd_main; change (teq (txt "-e") "-e") with true; cbv iota.
by rewrite (arg_int_ok _ _ hm) pb_ret (Harg h1) pb_ret (Harg h2) pb_ret e pb_ok (bezout_ok _ _ _ Hshw) pb_val emit_ret.
Qed.
(* if the second polynomial is 0, nothing is printed although the exit status tells of success *)
Theorem C98_ext_gcd_refuted s1 s2 f : rd s1 f -> rd s2 0 -> run "fp_p_gcd" [:: txt "-e"; sm; s1; s2] = ([::], Status 0).
Proof.
move=> h1 h2; known "fp_p_gcd" (fp_p_gcd_main c); rewrite /fp_p_gcd_main; change (teq (txt "-e") "-e") with true; cbv iota.
by rewrite (arg_int_ok _ _ hm) pb_ret (Harg h1) pb_ret (Harg h2) pb_ret (C34_ext_gcd_refuted pp hP hc f).
Qed.
(* the order of the arguments that the usage text gives is refused *)
Theorem C98_ext_gcd_order s2 s3 s4 : run "fp_p_gcd" [:: sm; s2; s3; s4] = ([::], Status 1).
Proof. by known "fp_p_gcd" (fp_p_gcd_main c); rewrite /fp_p_gcd_main (int_not (opt := "-e") hm). Qed.

(* ---- least common multiple ---- *)
Theorem C98_lcm args ps : args <> nil -> Forall2 rd args ps -> (length (List.filter (fun f => f == 0%R) ps) <= 1)%N ->
  exists m, run "fp_p_lcm" (sm :: args) = (line (tx m), Status 0) /\ forall n, m %| n <-> Forall (fun f => f %| n) ps.
Proof.
move=> hn h hz; have [m [e hd]] := lcm_main sp encG Harg Hshw hn h hz; exists m; split=> //; known "fp_p_lcm" (fp_p_lcm_main c).
have -> : fp_p_lcm_main c (sm :: args) = (q <~ arg_int sm ;~ fold_main (arg_fp c q) show_fp (gp_lcm o) args) by case: (args) hn.
by rewrite (arg_int_ok _ _ hm) pb_ret e.
Qed.
Theorem C98_lcm_zero_refuted s1 s2 args : rd s1 0 -> rd s2 0 -> run "fp_p_lcm" (sm :: s1 :: s2 :: args) = ([::], Status 0).
Proof.
move=> h1 h2; known "fp_p_lcm" (fp_p_lcm_main c); rewrite /fp_p_lcm_main (arg_int_ok _ _ hm) pb_ret /fold_main (Harg h1) pb_ret /= (Harg h2) pb_ret.
by rewrite (lcm_00 sp encG).
Qed.

(* ---- the number of units ---- *)
Theorem C98_totient_partial args ps : args <> nil -> Forall2 rd args ps -> Forall (fun f => f != 0 /\ (P ^ (2 * deg f) <= INT_MAX)%coqZ) ps ->
  run "fp_p_totient" (sm :: args) = (listing tx (many ps) ": " ps (List.map (fun f => put_int (Z.of_nat (PropFpFac.fp_units f))) ps), Status 0).
Proof.
move=> hn h hp; known "fp_p_totient" (fp_p_totient_main c).
have -> : fp_p_totient_main c (sm :: args) = (q <~ arg_int sm ;~ per_first (arg_fp c q) show_fp (several args) ": " (fp_totient c) args ;~~ ret 0%coqZ) by case: (args) hn.
rewrite (arg_int_ok _ _ hm) pb_ret (several_many _ _ _ h).
rewrite (per_first_ok arg show_fp enc rd tx Harg Hshw _ _ _ _ _ (List.map (fun f => Z.of_nat (PropFpFac.fp_units f)) ps) h).
  by rewrite pb_val emit_ret List.map_map.
by apply: F2_map; elim: hp => [|f l [f0 hd] _ IH]; constructor=> //; exact: PropFpFac.C61_totient_partial.
Qed.
(* ---- irreducibility ---- *)
Theorem C98_test_partial args ps : Forall2 rd args ps -> Forall (fun f => Z.of_nat (size (f : {poly 'F_p})) <= INT_MAX)%coqZ ps ->
  exists ts, Forall2 (@test_line _) ps ts /\ run "fp_p_test" (sm :: args) = (listing tx (many ps) ": " ps ts, Status 0).
Proof.
move=> h hp; have [f|ts [h1 e]] := @test_per _ (Fp_finFieldType p) enc arg show_fp rd tx Harg Hshw (fp_is_irreducible c) (many ps) args ps _ h hp.
  exact: PropFpFac.C36_is_irreducible_partial.
exists ts; split=> //; known "fp_p_test" (fp_p_test_main c).
by rewrite /fp_p_test_main (arg_int_ok _ _ hm) pb_ret (several_many _ _ _ h) e pb_val emit_ret.
Qed.
(* ---- factorisation ---- *)
(* The factors are monic and irreducible, in ascending order, and their product with the leading coefficient is the argument. *)
Theorem C98_factor_partial args ps : Forall2 rd args ps -> Forall (fun f => Z.of_nat (size (f : {poly 'F_p})) <= INT_MAX)%coqZ ps ->
  exists ts, Forall2 (fun f t => exists l, factors_of num f l /\ t = factor_line tx f l) ps ts /\
    run "fp_p_factor" (sm :: args) = (listing tx (many ps) " = " ps ts, Status 0).
Proof.
move=> h hp; have [ts [h1 e]] := factor_per sp dflt kvq kv0 fs encG hnum Harg Hshw hone (many ps) h hp.
exists ts; split=> //; known "fp_p_factor" (fp_p_factor_main c).
rewrite /fp_p_factor_main (arg_int_ok _ _ hm) pb_ret (several_many _ _ _ h).
by rewrite -[X in X ;~~ _]/(per arg show_fp (many ps) " = " (gfactor_body o (im_facpar c) show_fp (MSpiff2.fp_one c P)) args) e pb_val emit_ret.
Qed.
(* ---- divisors ---- *)
Lemma divisors_main args : args <> nil -> fp_p_divisors_main c (sm :: args) =
  per arg show_fp (several args) ": " (divisors_body show_fp (gp_fops o) (enc 1) (fp_factor c) false) args ;~~ ret 0%coqZ.
Proof.
move=> hn; rewrite /fp_p_divisors_main (int_not (opt := "-mp") hm) //.
by case: args hn => // s l _; rewrite (arg_int_ok _ _ hm) pb_ret hone pb_ok.
Qed.
Theorem C98_divisors_partial args ps : args <> nil -> Forall2 rd args ps -> Forall (fun f => f != 0 /\ (deg f <= 30)%coqZ) ps ->
  exists ts, Forall2 (divisors_line num tx) ps ts /\ run "fp_p_divisors" (sm :: args) = (listing tx (many ps) ": " ps ts, Status 0).
Proof.
move=> hn h hp; have [ts [h1 e]] := divisors_per sp dflt kvq kv0 fs encG hnum Harg Hshw (many ps) erefl h hp.
exists ts; split=> //; known "fp_p_divisors" (fp_p_divisors_main c).
by rewrite divisors_main // (several_many _ _ _ h) e pb_val emit_ret.
Qed.
Theorem C98_maximal_partial args ps : args <> nil -> Forall2 rd args ps -> Forall (fun f => f != 0 /\ (deg f <= 30)%coqZ) ps ->
  exists ts, Forall2 (maximal_line num tx) ps ts /\ run "fp_p_divisors" (txt "-mp" :: sm :: args) = (listing tx (many ps) ": " ps ts, Status 0).
Proof.
move=> hn h hp; have [ts [h1 e]] := maximal_per sp dflt kvq kv0 fs encG hnum Harg Hshw (many ps) erefl h hp.
exists ts; split=> //; known "fp_p_divisors" (fp_p_divisors_main c).
have -> : fp_p_divisors_main c (txt "-mp" :: sm :: args) =
  per arg show_fp (several args) ": " (divisors_body show_fp (gp_fops o) (enc 1) (fp_factor c) true) args ;~~ ret 0%coqZ.
  by rewrite /fp_p_divisors_main /=; case: (args) hn => // s l _; rewrite (arg_int_ok _ _ hm) pb_ret hone pb_ok.
by rewrite (several_many _ _ _ h) e pb_val emit_ret.
Qed.
(* every polynomial divides 0; the only divisor printed is 1 *)
Theorem C98_divisors_zero_refuted s : rd s 0 -> run "fp_p_divisors" [:: sm; s] = (line (txt "1"), Status 0).
Proof.
move=> hs; known "fp_p_divisors" (fp_p_divisors_main c); rewrite divisors_main //.
rewrite (divisors_zero sp dflt kvq kv0 fs encG hnum Harg Hshw erefl hs) pb_val emit_ret.
have -> // : tx 1 = txt "1".
have e : nat_of_ord (1 : 'F_p) = 1%N by rewrite -[1]/(1%:R) val_Fp_nat // modn_small // prime_gt1.
rewrite /fp_tx oner_eq0 polyseq1; have -> : [seq res_tx a | a <- rev [:: (1 : 'F_p)]] = [:: res_tx (1 : 'F_p)] by [].
by rewrite /res_tx e; case: ifP.
Qed.
(* ---- values ---- *)
Theorem C98_eval s f args vs : rd s f -> args <> nil -> Forall2 int_text args vs ->
  run "fp_p_eval" (sm :: s :: args) = (lines_of (fun v => res_tx f.[(int_of_Z v)%:~R]) vs, Status 0).
Proof.
move=> hs hn h; known "fp_p_eval" (fp_p_eval_main c); pose body := fun s => a <~ arg_mod s P ;~ b <~ call (gp_eval o (enc f) a) ;~ show_im b ;~~ nl.
have -> : fp_p_eval_main c (sm :: s :: args) = (each body args ;~~ ret 0%coqZ).
  by rewrite /fp_p_eval_main; case: (args) hn => // a l _; rewrite (arg_int_ok _ _ hm) pb_ret (Harg hs) pb_ret.
have -> : each body args = (lines_of (fun v => res_tx f.[(int_of_Z v)%:~R]) vs, Val tt); last by rewrite pb_val emit_ret.
elim: h => [|s1 v l m hv _ IH] //; rewrite /lines_of /= -/(lines_of _ _) IH /body.
rewrite (arg_mod_ok _ _ _ hv p_int) pb_ret.
have -> : mkim (v mod P) P = fp_el ((int_of_Z v)%:~R : 'F_p).
  apply: (PropFpPoly.Rel pp); split; last by rewrite /Ip /= izr_mod.
  by split=> //=; apply: Z.mod_pos_bound; have := p_int; clear; lia.
rewrite (C59_eval pp hP hc) pb_ok show_im_ok ?pb_print //; have := p_int; clear; lia.
Qed.
(* ---- the companion matrix ---- *)
Theorem C98_companion s f : rd s f -> (1 < size f)%N -> let n := (size f).-1 in
  run "fp_p_comp_mx" [:: sm; s] = ((lines_of (fun i => unwords [seq res_tx (if i == 0%N then - f`_(n - 1 - j) else (j.+1 == i)%:R) | j <- iota 0 n]) (iota 0 n) ++
    line [::])%list, Status 0).
Proof.
move=> hs hf n; known "fp_p_comp_mx" (fp_p_comp_mx_main c).
rewrite /fp_p_comp_mx_main (arg_int_ok _ _ hm) pb_ret (Harg hs) pb_ret (C49_fp_companion pp hP hc) hf pb_ok.
rewrite pb_print /nl /emit /=; congr ((_ ++ _)%list, _).
rewrite /mat_out /PLinalg2.mx_enc /lines_of -val_enum_ord; congr List.concat; rewrite !mapE -!map_comp; apply: eq_map => i.
by rewrite /= vec_words; congr (line (unwords _)); rewrite mapE -!map_comp; apply: eq_map => j; rewrite /= mxE.
Qed.
(* ---- all polynomials of the degrees of a range, in ascending order ---- *)
Theorem C98_list_partial s lo hi : range_text s lo hi -> (P ^ (2 * hi) <= INT_MAX)%coqZ ->
  exists ps, [/\ run "fp_p_list" [:: sm; s] = (lines_of tx ps, Status 0), sorted ltn [seq num f | f <- ps] &
    forall f, In f ps <-> f != 0 /\ (lo <= deg f <= hi)%coqZ].
Proof.
move=> hs hh.
have [hl hl2] : (0 <= lo <= INT_MAX)%coqZ by case: hs => [[/numeral_range]|[d1 [d2 [_ [/numeral_range]]]]].
have hhi : (hi <= 30)%coqZ.
  case: (Z.leb_spec hi 30) => // h; exfalso; move: hh; apply/Zlt_not_le.
  apply: Z.lt_le_trans (_ : 2 ^ 31 <= _)%coqZ; first by [].
  apply: Z.le_trans (_ : 2 ^ (2 * hi) <= _)%coqZ; first by apply: Z.pow_le_mono_r; move: h; clear; lia.
  by apply: Z.pow_le_mono_l; have := p_int; clear; lia.
have [|||d hd|ps [e h1 h2]] := @list_range _ (Fp_finFieldType p) enc num show_fp tx Hshw numsz (fp_poly_list c P) lo hi => //.
- by move: hhi; rewrite /INT_MAX; clear; lia.
- have := PropList.C77_fp_poly ok (deg := d); rewrite (_ : PList6.pow_fits _ _ = true); first by apply; move: hhi hd; rewrite /INT_MAX; clear; lia.
  apply/orP; case: (Z.eqb_spec (Z.of_nat d) 0) => d0; [by left|right; apply/Z.leb_le; apply: Z.le_trans hh].
  apply: Z.pow_le_mono_r; first by have := p_int; clear; lia.
  have := Z.log2_spec (Z.of_nat d); rewrite Z.pow_add_r //; last exact: Z.log2_nonneg.
  by move: d0 hd; clear; lia.
exists ps; split=> //; known "fp_p_list" (fp_p_list_main c).
by rewrite /fp_p_list_main (arg_int_ok _ _ hm) pb_ret (range_ok _ _ _ hs) pb_ret e pb_val emit_ret.
Qed.
Theorem C98_list_refuted s d : range_text s d d -> PList6.pow_fits P d = false -> run "fp_p_list" [:: sm; s] = ([::], Undefined).
Proof.
move=> hs hd; known "fp_p_list" (fp_p_list_main c); rewrite /fp_p_list_main (arg_int_ok _ _ hm) pb_ret (range_ok _ _ _ hs) pb_ret /degrees [fst _]/= [snd _]/=.
have [hl hl2] : (0 <= d <= INT_MAX)%coqZ by case: hs => [[/numeral_range]|[d1 [d2 [_ [/numeral_range]]]]].
have -> : Z.to_nat (d - d + 1) = 1%N by clear; lia.
cbn [MSpiff2.over]; have := PropList.C77_fp_poly ok (deg := Z.to_nat d); rewrite Z2Nat.id // hd => ->; last exact: hl2.
by [].
Qed.
(* ---- the lowest irreducible polynomial of each degree ---- *)
Theorem C98_find_partial s lo hi : range_text s lo hi -> (2 <= lo)%coqZ -> (hi < INT_MAX)%coqZ ->
  exists ps, [/\ run "fp_p_find" [:: txt "-1"; sm; s] = (lines_of tx ps, Status 0), length ps = Z.to_nat (hi - lo + 1) &
    forall i f, List.nth_error ps i = Some f -> lowest num (lo + Z.of_nat i) f].
Proof.
move=> hs h2 hh.
have [hl hl2] : (0 <= lo <= INT_MAX)%coqZ by case: hs => [[/numeral_range]|[d1 [d2 [_ [/numeral_range]]]]].
have [|||d hd|ps [e h3 h4]] := @find_range _ (Fp_finFieldType p) enc num show_fp tx Hshw St s0 (fp_find_irr c P) lo hi => //.
  by apply: PropFpFac.C60_find_irr_partial => //; move: h2 hh hd; clear; lia.
exists ps; split=> //; known "fp_p_find" (fp_p_find_main c draw fuel s0).
have -> : fp_p_find_main c draw fuel s0 [:: txt "-1"; sm; s] =
  (degrees (lo, hi) (fun d s => x <~ call (a <- fp_find_irr c P d ;; Ok (a, s)) ;~ show_fp (fst x) ;~~ nl ;~~ ret (snd x)) s0 ;~~ ret 0%coqZ).
  by rewrite /fp_p_find_main (arg_int_ok _ _ hm) (range_ok _ _ _ hs) !pb_ret.
by rewrite e pb_val emit_ret.
Qed.
(* degree 1: x + 1 is printed although x, which is lower, is irreducible *)
Theorem C98_find_refuted s : range_text s 1 1 -> run "fp_p_find" [:: txt "-1"; sm; s] = (line (tx ('X + 1)), Status 0).
Proof.
move=> hs; known "fp_p_find" (fp_p_find_main c draw fuel s0).
have -> : fp_p_find_main c draw fuel s0 [:: txt "-1"; sm; s] =
  (degrees (1, 1)%coqZ (fun d s => x <~ call (a <- fp_find_irr c P d ;; Ok (a, s)) ;~ show_fp (fst x) ;~~ nl ;~~ ret (snd x)) s0 ;~~ ret 0%coqZ).
  by rewrite /fp_p_find_main (arg_int_ok _ _ hm) (range_ok _ _ _ hs) !pb_ret.
suff e : fp_find_irr c P 1 = Ok (enc ('X + 1)).
  rewrite /degrees -[Z.to_nat _]/(1%N) [fst _]/=.
  cbn [MSpiff2.over].
  rewrite e bind_ok pb_ok Hshw pb_print /nl pb_print.
  by rewrite /ret !emit_pair !pb_val /emit /= ?List.app_nil_r.
rewrite /fp_find_irr.
have [//|zero [-> hz]] := V_make pp hP (z := 0%coqZ); have [//|one [-> ho]] := V_make pp hP (z := 1%coqZ); rewrite !bind_ok /gp_find_irr.
have [l0 [-> h0]] := const_ok sp hz; rewrite bind_ok polyC0 in h0 *.
rewrite (PropFpPoly.Genc pp hP hc h0) (PropFpPoly.Rel pp ho) (t_set pp hP hc) bind_ok.
have -> : (0 : {poly 'F_p}) + (1 - (0 : {poly 'F_p})`_(Z.to_nat 1)) *: 'X^(Z.to_nat 1) = 'X by rewrite coef0 subr0 scale1r add0r expr1.
have p2 := prime_gt1 pp.
have [n ->] : exists n, Nat.pow (Z.to_nat P) (Z.to_nat 1) = n.+1 by exists p.-1; rewrite Nat2Z.id /= Nat.mul_1_r prednK // ltnW.
have hn (f : {poly 'F_p}) : c_neqb (k_c o) (fp_el f`_0) zero = Ok (f`_0 != 0).
  by rewrite (R_neqb (ks_c sp) (PropFpPoly.elR pp _) hz).
rewrite /= {1}/gp_irr_step (degree_enc encG) size_polyX /= (t_get pp hP hc) /= hn coefX eqxx /=.
have [g [-> hg]] := t_inc pp hP hc ('X : {poly 'F_p}); rewrite /=.
have -> : g = 'X + 1.
  apply: (PropFpPoly.num_inj pp hP hc); rewrite hg.
  have e1 : nat_of_ord (1 : 'F_p) = 1%N by rewrite -[1]/(1%:R) val_Fp_nat // modn_small.
  have [c0 c1] : ('X + 1 : {poly 'F_p})`_0 = 1 /\ ('X + 1 : {poly 'F_p})`_1 = 1 by rewrite !coefD !coefX !coef1 add0r addr0.
  have h2 (f : {poly 'F_p}) : size f = 2%N -> num f = (nat_of_ord (f`_0)%R + nat_of_ord (f`_1)%R * p)%N.
    by rewrite /fp_num => ->; rewrite !big_ord_recl !big_ord0 /= /bump /= muln1 addn0 expn1.
  have [d0 d1] : ('X : {poly 'F_p})`_0 = 0 /\ ('X : {poly 'F_p})`_1 = 1 by rewrite !coefX.
  by rewrite (h2 _ (size_polyX _)) (h2 _ (size_XaddC _)) c0 c1 d0 d1 e1 add0n add1n.
rewrite /gp_irr_step (degree_enc encG) size_XaddC /= (t_get pp hP hc) /= hn coefD coefX coef1 add0r oner_eq0 /=.
have [|b [e hb]] := PropFpFac.C36_is_irreducible_partial pp hP hc (f := 'X + 1); first by rewrite size_XaddC.
move: e; rewrite /fp_is_irreducible => ->; rewrite /=.
by have /hb -> : irreducible_poly ('X + 1 : {poly 'F_p}) by apply: PF2Fac2.lin_irr; rewrite size_XaddC.
Qed.
Theorem C98_find_random_partial s lo hi : range_text s lo hi -> (1 <= lo)%coqZ -> (hi < INT_MAX)%coqZ ->
  exists ps st, [/\ run "fp_p_find" [:: txt "-r"; sm; s] = (lines_of tx ps, st),
    (forall i f, List.nth_error ps i = Some f -> [/\ deg f = (lo + Z.of_nat i)%coqZ, f \is monic, irreducible_poly f & f`_0 != 0]) &
    st = Endless \/ st = Status 0 /\ length ps = Z.to_nat (hi - lo + 1)].
Proof.
move=> hs h2 hh.
have [hl hl2] : (0 <= lo <= INT_MAX)%coqZ by case: hs => [[/numeral_range]|[d1 [d2 [_ [/numeral_range]]]]].
have [|||d s' hd|ps [f [e h3 h4]]] := @search_range _ (Fp_finFieldType p) enc show_fp tx Hshw St s0 (fp_poly_random_irr draw c fuel P) lo hi => //.
  have [||e|[f [k [e h]]]] := @C84_fp_irr_result_partial p c St draw pp hP hc d fuel s'; [move: h2 hd; clear; lia|move: hh hd; clear; lia|by left|].
  by right; eexists; eexists; split; first exact: e.
known "fp_p_find" (fp_p_find_main c draw fuel s0).
have -> : fp_p_find_main c draw fuel s0 [:: txt "-r"; sm; s] =
  (degrees (lo, hi) (fun d s => x <~ call (fp_poly_random_irr draw c fuel P d s) ;~ show_fp (fst x) ;~~ nl ;~~ ret (snd x)) s0 ;~~ ret 0%coqZ).
  by rewrite /fp_p_find_main (arg_int_ok _ _ hm) (range_ok _ _ _ hs) !pb_ret.
rewrite e.
by exists ps; case: h4 => [->|[s' [-> L]]]; [exists Endless|exists (Status 0)]; rewrite ?pb_val ?emit_ret; split=> //; [left|right].
Qed.
(* ---- random polynomials ---- *)
Theorem C98_random s1 s2 (d : nat) n : int_text s1 (Z.of_nat d) -> int_text s2 n ->
  run "fp_p_random" [:: sm; s1; s2] = (lines_of (fun k => tx (rndF d (cfp p draw (iter (k * d.+1) (next draw) s0)))) (List.seq 0 (Z.to_nat n)), Status 0).
Proof.
move=> h1 h2; known "fp_p_random" (fp_p_random_main c draw s0); rewrite /fp_p_random_main (arg_int_ok _ _ hm) pb_ret (arg_int_ok _ _ h1) pb_ret (arg_int_ok _ _ h2) pb_ret.
rewrite (times_ok _ _ _ (fun k => iter (k * d.+1) (next draw) s0) (fun k => line (tx (rndF d (cfp p draw (iter (k * d.+1) (next draw) s0)))))) //.
  by rewrite pb_val emit_ret.
move=> i _; rewrite (C84_fp_poly draw pp hP hc) pb_ok Hshw pb_print [(i + 1)%coq_nat]/=.
have -> : iter ((i + 1)%coq_nat * d.+1) (next draw) s0 = iter d.+1 (next draw) (iter (i * d.+1) (next draw) s0) by rewrite -iterD; congr iter; clear; lia.
by rewrite /nl pb_print emit_ret.
Qed.
Theorem C98_random_one s1 : run "fp_p_random" [:: sm; s1] = run "fp_p_random" [:: sm; s1; txt "1"].
Proof. by known "fp_p_random" (fp_p_random_main c draw s0); known "fp_p_random" (fp_p_random_main c draw s0). Qed.
Theorem C98_random_refuted s1 d : int_text s1 d -> (d < 0)%coqZ -> run "fp_p_random" [:: sm; s1] = ([::], Status 0).
Proof.
move=> h hd; known "fp_p_random" (fp_p_random_main c draw s0); rewrite /fp_p_random_main (arg_int_ok _ _ hm) pb_ret (arg_int_ok _ _ h) pb_ret.
by rewrite /= C84_fp_poly_neg.
Qed.
(* without arguments every command ends with exit status 1; with p alone deg, test and factor print nothing and succeed *)
Theorem C98_no_arguments :
  Forall (fun name => run name [::] = ([::], Status 1)) [:: "fp_p_deg"; "fp_p_gcd"; "fp_p_lcm"; "fp_p_totient"; "fp_p_test"; "fp_p_factor"; "fp_p_divisors";
    "fp_p_eval"; "fp_p_comp_mx"; "fp_p_list"; "fp_p_find"; "fp_p_random"; "fp_p_qp"]%string /\
  Forall (fun name => run name [:: sm] = ([::], Status 1)) [:: "fp_p_gcd"; "fp_p_lcm"; "fp_p_totient"; "fp_p_divisors";
    "fp_p_eval"; "fp_p_comp_mx"; "fp_p_list"; "fp_p_find"; "fp_p_random"; "fp_p_qp"]%string /\
  Forall (fun name => run name [:: sm] = ([::], Status 0)) [:: "fp_p_deg"; "fp_p_test"; "fp_p_factor"]%string.
Proof.
split; first by repeat constructor.
split; last first.
  repeat constructor; [known "fp_p_deg" (fp_p_deg_main c)|known "fp_p_test" (fp_p_test_main c)|known "fp_p_factor" (fp_p_factor_main c)];
    by rewrite /fp_p_deg_main /fp_p_test_main /fp_p_factor_main (arg_int_ok _ _ hm) pb_ret.
repeat constructor; known "fp_p_divisors" (fp_p_divisors_main c); by rewrite /fp_p_divisors_main (int_not (opt := "-mp") hm).
Qed.
(* a text without a number in the place of p *)
Theorem C98_bad_modulus s rest : no_number s ->
  Forall (fun name => run name (s :: rest) = ([::], Status 1)) [:: "fp_p_deg"; "fp_p_lcm"; "fp_p_totient"; "fp_p_test"; "fp_p_factor"; "fp_p_eval"; "fp_p_comp_mx"; "fp_p_list"; "fp_p_random"]%string.
Proof.
move=> h; have e := arg_int_none _ h.
by repeat constructor; [known "fp_p_deg" (fp_p_deg_main c)|known "fp_p_lcm" (fp_p_lcm_main c)|known "fp_p_totient" (fp_p_totient_main c)|known "fp_p_test" (fp_p_test_main c)|
  known "fp_p_factor" (fp_p_factor_main c)|known "fp_p_eval" (fp_p_eval_main c)|known "fp_p_comp_mx" (fp_p_comp_mx_main c)|known "fp_p_list" (fp_p_list_main c)|
  known "fp_p_random" (fp_p_random_main c draw s0)]; case: rest => [|s1 [|s2 [|s3 rest]]] //; rewrite
  /fp_p_deg_main /fp_p_lcm_main /fp_p_totient_main /fp_p_test_main /fp_p_factor_main /fp_p_eval_main /fp_p_comp_mx_main /fp_p_list_main /fp_p_random_main e.
Qed.
End Run.

(* modulo 7, 11, 3, 13 and 2 *)
Example C98_ex : let d := fun s : Z => (s, ((s * 5 + 1) mod 1024)%coqZ) in
  let run name args := let '(t, st) := spiff (poly_handler None cache_init d 50 0%coqZ (fun _ _ => usage)) (fun l => l) d 0%coqZ
    (txt name :: List.map txt args) in (string_of_list_ascii t, st) in
  let nl := String "010"%char "" in
  [/\ [/\ run "fp_p_deg" [:: "7"; "1061"; "5"; "0,14,1"]%string = (("1061: 3" ++ nl ++ "5: 0" ++ nl ++ "1: 0" ++ nl)%string, Status 0),
       run "fp_p_gcd" [:: "7"; "106"; "16"]%string = (("16" ++ nl)%string, Status 0),
       run "fp_p_gcd" [:: "-e"; "7"; "101"; "23"]%string = (("5 = 1 * 101 + 36 * 23" ++ nl)%string, Status 0),
       run "fp_p_lcm" [:: "7"; "16"; "11"; "23"]%string = (("3146" ++ nl)%string, Status 0) &
       run "fp_p_totient" [:: "3"; "101"; "11"]%string = (("101: 8" ++ nl ++ "11: 2" ++ nl)%string, Status 0)],
     [/\ run "fp_p_test" [:: "7"; "101"; "106"]%string = (("101: IRREDUCIBLE" ++ nl ++ "106: reducible" ++ nl)%string, Status 0),
       run "fp_p_factor" [:: "7"; "206"; "121"; "3"]%string = (("206 = 2 12 15" ++ nl ++ "121 = 11^2" ++ nl ++ "3 = 3" ++ nl)%string, Status 0),
       run "fp_p_divisors" [:: "7"; "206"]%string = (("1 12 15 103" ++ nl)%string, Status 0) &
       run "fp_p_divisors" [:: "-mp"; "7"; "206"; "3"]%string = (("206: 23 24" ++ nl ++ "3: (none)" ++ nl)%string, Status 0)],
     [/\ run "fp_p_eval" [:: "7"; "106"; "2"; "-1"; "10"]%string = (("3" ++ nl ++ "0" ++ nl ++ "1" ++ nl)%string, Status 0),
       run "fp_p_comp_mx" [:: "13"; "1,2,3,4"]%string = (("11 10 9" ++ nl ++ "1 0 0" ++ nl ++ "0 1 0" ++ nl ++ nl)%string, Status 0),
       run "fp_p_list" [:: "2"; "0-1"]%string = (("1" ++ nl ++ "10" ++ nl ++ "11" ++ nl)%string, Status 0),
       run "fp_p_find" [:: "-1"; "3"; "2-3"]%string = (("101" ++ nl ++ "1021" ++ nl)%string, Status 0) &
       run "fp_p_find" [:: "-r"; "3"; "2"]%string = (("101" ++ nl)%string, Status 0)] &
     [/\ @fp_text 7 (txt "106") (Poly [:: 6%:R; 0; 1]), @fp_text 13 (txt "1,14") (Poly [:: 14%:R; 1]), fp_bad 7 (txt "1x") & fp_bad 13 (txt "1,x")]].
Proof.
split; [by split; vm_compute|by split; vm_compute|by split; vm_compute|].
have h1 : int_text (txt "1") 1 by apply: (@read_int_text _ _ [::]).
have h14 : int_text (txt "14") 14 by apply: (@read_int_text _ _ [::]).
have hw s : ~ In ","%char s -> s <> nil -> PPolyText.word ","%char s by move=> k1 k2; split.
have hx : forall v, ~ int_text (txt "x") v by move=> v /(scan_ok _ _)[[r e] _].
split.
- have -> : Poly [:: 6%:R; 0; 1] = Poly (rev [seq (int_of_Z (dig x))%:~R | x <- txt "106"]) :> {poly 'F_7} by congr Poly; apply/eqP; vm_compute.
  by constructor=> //; repeat constructor.
- have -> : Poly [:: 14%:R; 1] = Poly (rev [seq (int_of_Z v)%:~R | v <- [:: 1; 14]%coqZ]) :> {poly 'F_13} by congr Poly; apply/eqP; vm_compute.
  apply: (@fp_text_list _ [:: txt "1"; txt "14"]) => //; [|by case=> [|[|[|[|[]]]]]|by repeat constructor|by left; right; left].
  by apply: (@spread_word _ (txt "1")); [apply: hw => //; case=> [|[]]|apply: spread_last; apply: hw => //; case=> [|[|[]]]].
- right; split=> [[|[|[]]]||] //; exists "x"%char; split; first by right; left.
  by move=> /(PPolyText.is_digit_iff _).
left; exists [:: txt "1"], [:: 1%coqZ], (txt "x"), [::]; split=> //; [|by case=> [|[|[|[]]]]|by repeat constructor|by left; right; left].
by apply: (@spread_word _ (txt "1")); [apply: hw => //; case=> [|[]]|apply: spread_last; apply: hw => //; case=> [|[]]].
Qed.

Print Assumptions C98_text.
Print Assumptions C98_deg.
Print Assumptions C98_gcd.
Print Assumptions C98_ext_gcd_partial.
Print Assumptions C98_lcm.
Print Assumptions C98_totient_partial.
Print Assumptions C98_test_partial.
Print Assumptions C98_factor_partial.
Print Assumptions C98_divisors_partial.
Print Assumptions C98_maximal_partial.
Print Assumptions C98_eval.
Print Assumptions C98_companion.
Print Assumptions C98_list_partial.
Print Assumptions C98_find_partial.
Print Assumptions C98_find_refuted.
Print Assumptions C98_find_random_partial.
Print Assumptions C98_random.
Print Assumptions C98_no_arguments.
Print Assumptions C98_bad_modulus.
