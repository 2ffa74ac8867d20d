(* Final theorems for the commands of cli/spiff on polynomials over GF(2^n) (C99). *)
From Verif Require Import Base MIntMath MFac MIntmod MMat MF2Poly MF2nPoly MPoly MPolyFac MLinalg MTextIO MPolyText MList MRandom MSpiff MSpiff2.
From Verif Require Import PF2Poly PF2Poly3 PIntMath PIntmod PMatCli5 PPolyText PSpiff PSpiff2 PSpiff3 PSpiff5 PSpiff7 PPolyText6.
From Coq Require Import Ascii String.
From mathcomp Require Import all_ssreflect all_algebra finfield ssrZ zify.
From Verif Require Import PMat PPoly PPoly2 PPoly3 PPolyFac PF2Poly2 PF2Poly4 PF2n PropF2nPoly PropLinalg PPolyText2 PPolyText3 PPolyText4 PPolyText7 PPolyText9 PPolyText10 PSpiff8 PropSpiff3 PSpiff11 PSpiff12 PSpiff13 PRandom PropRandom.
From Verif Require PropSpiff PropF2nFac PropList PropPolyText PList2 PList6 PLinalg2 PF2Fac2 PropF2Poly.
Set Implicit Arguments.
Unset Strict Implicit.
Unset Printing Implicit Defensive.
Import GRing.Theory.
Delimit Scope Z_scope with coqZ.
Local Open Scope ring_scope.
Local Notation length := List.length.
Local Notation Forall2 := List.Forall2.
Local Notation Forall := List.Forall.
Local Notation In := List.In.

(* a text that is refused: an entry that does not start, after blanks, with a hexadecimal digit *)
Definition g2_bad (t : text) : Prop := exists ts1 rs b u ts2, [/\ spread ":"%char (ts1 ++ (b ++ u) :: ts2)%list t, ~ In "000"%char t,
  Forall2 f2_word ts1 rs, white b & bare u /\ xstop u].

Section Run.
Variable G : gf2.
Context (tm : option N) (c : cache) (other : string -> list text -> prog Z) (qs : list (intmod * Z) -> list (intmod * Z)) (St : Type)
  (draw : St -> Z * St) (fuel : nat) (s0 : St).
Local Notation run name args := (spiff (poly_handler tm c draw fuel s0 other) qs draw s0 (txt name :: args)).
Local Notation L := (gf_L G).
Local Notation m := (gf_m G).
Local Notation n := (size (gf_m G)).-1.
Local Notation o := f2n_kops.
Local Notation enc := (@g2_enc G).
Local Notation tx := (@g2_tx G).
Local Notation rd := (@g2_text G).
Local Notation num := (@g2_num G).
Local Notation arg := (arg_f2n (f2_enc m)).
Local Notation at_root r := ((map_poly (gf_emb G) r).[gf_z G]).
Local Notation sp := (f2n_kspec (gf_irr G) (gf_root G) (gf_card G)).
Local Notation dflt := (@PropF2nFac.dflt G).
Local Notation kvq := (@kglt G).
Local Notation kv0 := (@kg0 G).
Local Notation encG := (@PropF2nPoly.encG G).
Ltac known n h := rewrite (@PropSpiff.run_eq _ qs St draw s0 n _ h erefl erefl erefl).

Local Notation Harg := (@g2_arg G).
Local Notation Hshw := (@g2_shw G).
Local Notation hnum := (@num_gval G).
Lemma Hbad s : g2_bad s -> arg s = usage.
Proof.
move=> [ts1 [rs [b [u [ts2 [h1 h2 h3 h4 [h5 h6]]]]]]]; rewrite /arg_f2n.
by have [l ->] := PropPolyText.C92_f2n_reject G h1 h2 h3 h4 h5 h6.
Qed.
Lemma hone : f2n_one (f2_enc m) = Ok (enc 1).
Proof. by have [_ <-] := start_f2n G. Qed.
Lemma numsz f k : (num f < #|L| ^ k)%N = (size f <= k)%N.
Proof.
apply: (@PList2.numv_size _ #|L| (@g2_val G) (ltnW (L_gt1 G))) => a; have [h e] := elR a; first by have := kglt h.
by rewrite -[in RHS]e -(kg0 h).
Qed.

(* the text printed for a polynomial, given as an argument, means that polynomial *)
Theorem C99_text f : rd (tx f) f.
Proof. exact: g2_round. Qed.
Theorem C99_text_meaning s f g : rd s f -> rd s g -> f = g.
Proof. exact: g2_meaning. Qed.
(* the text of an element is the hexadecimal number of the polynomial over GF(2) that represents it *)
Theorem C99_element (a : L) : exists r : {poly 'F_2}, [/\ at_root r = a, (size r < size m)%N, el_tx a = f2_tx r & f2_rd (wide_tx a) r].
Proof.
have [r [_ h1 h2 h3]] := el_rep a; exists r; split=> //.
rewrite /wide_tx h3 /f2_tx /f2_rd -number_enc; have [t [k1 [k2 [k3 k4]]]] := PPolyText6.f2_put_ok (f2_enc r) (f2_encP r).1.1.
move: k1; rewrite (f2_put_hex _ (f2_encP r).1) => -[->]; set k := (_ - _)%N.
have [z1 z2] : xd "0"%char /\ codes [:: "0"%char] = [:: 48%coqZ] by [].
exists nil, (List.repeat "0"%char k ++ t)%list, nil; rewrite List.app_nil_r; split=> //; split=> //; split.
  by apply/List.Forall_app; split=> //; apply/List.Forall_forall => x /(@List.repeat_spec _ _ _ _) ->.
split; first by move=> /List.app_eq_nil[].
split=> //; rewrite -k4 /hexs /hex_value /codes List.map_app List.fold_left_app.
have -> : List.map (fun c => Z.of_nat (nat_of_ascii c)) (List.repeat "0"%char k) = List.repeat 48%coqZ k by elim: (k) => //= j ->.
by rewrite zeros_val.
Qed.

(* sm: the text of the modulus *)
Variable sm : text.
Hypothesis hm : f2_rd sm m.
(* ---- degrees ---- *)
Theorem C99_deg args ps : Forall2 rd args ps ->
  run "f2n_p_deg" (sm :: args) = (listing tx (many ps) ": " ps (List.map (fun f => put_int (deg f)) ps), Status 0).
Proof.
move=> h; known "f2n_p_deg" (f2n_p_deg_main); rewrite /f2n_p_deg_main (f2_arg hm) pb_ret (several_many _ _ _ h).
by rewrite (deg_per encG Harg Hshw _ h) pb_val emit_ret.
Qed.
(* a text that is refused: the lines of those before it, then exit status 1 *)
Theorem C99_deg_bad args ps s post : Forall2 rd args ps -> g2_bad s ->
  run "f2n_p_deg" (sm :: args ++ s :: post)%list = (listing tx (many (args ++ s :: post)%list) ": " ps (List.map (fun f => put_int (deg f)) ps), Status 1).
Proof.
move=> h /Hbad hs; known "f2n_p_deg" (f2n_p_deg_main); rewrite /f2n_p_deg_main (f2_arg hm) pb_ret.
rewrite (per_bad arg show_f2n enc rd tx Harg Hshw _ _ _ _ _ (List.map (fun f => put_int (deg f)) ps) _ _ h _ hs) //.
by apply: F2_map; elim: (ps) => [|f l IH]; constructor=> //; rewrite (degree_enc encG).
Qed.
(* the empty text, and a text of colons, are undefined *)
Theorem C99_empty_refuted s : Forall (eq ":"%char) s -> run "f2n_p_deg" [:: sm; s] = ([::], Undefined).
Proof.
move=> h; known "f2n_p_deg" f2n_p_deg_main; rewrite /f2n_p_deg_main (f2_arg hm) pb_ret /per /= /arg_f2n.
by have [-> _] := PropPolyText.C92_f2n_separators_refuted G h.
Qed.

(* ---- greatest common divisor ---- *)
Theorem C99_gcd s1 s2 f g : rd s1 f -> rd s2 g ->
  exists d, run "f2n_p_gcd" [:: sm; s1; s2] = (line (tx d), Status 0) /\ forall h, h %| d <-> h %| f /\ h %| g.
Proof.
move=> h1 h2; have [d [e hd]] := gcd_enc sp encG f g; exists d; split=> //.
known "f2n_p_gcd" (f2n_p_gcd_main); rewrite /f2n_p_gcd_main (f2_arg hm) pb_ret (Harg h1) pb_ret (Harg h2) pb_ret e pb_ok Hshw.
by rewrite pb_print /nl pb_print emit_ret.
Qed.
Theorem C99_ext_gcd_partial s1 s2 f g : rd s1 f -> rd s2 g -> g != 0 ->
  exists d u v, [/\ run "f2n_p_gcd" [:: txt "-e"; sm; s1; s2] =
      (line (tx d ++ txt " = " ++ tx u ++ txt " * " ++ tx f ++ txt " + " ++ tx v ++ txt " * " ++ tx g)%list, Status 0),
    u * f + v * g = d & forall h, h %| d <-> h %| f /\ h %| g].
Proof.
move=> h1 h2 g0; have [d [u [v [e hb hd]]]] := ext_enc sp encG f g0; exists d, u, v; split=> //.
known "f2n_p_gcd" (f2n_p_gcd_main); rewrite /f2n_p_gcd_main; change (teq (txt "-e") "-e") with true; cbv iota.
rewrite (f2_arg hm) pb_ret (Harg h1) pb_ret (Harg h2) pb_ret e pb_ok (bezout_ok _ _ _ Hshw) pb_val.
have [x [-> hx]] := mul_ok sp (encG f) (encG u); have [y [-> hy]] := mul_ok sp (encG g) (encG v); rewrite !bind_ok.
have [z [-> hz]] := add_ok sp hx hy; rewrite pb_ok (neqb_ok sp (encG d) hz).
have -> : d != f * u + g * v = false by rewrite mulrC [g * v]mulrC hb eqxx.
by rewrite pb_ok emit_ret.
Qed.
(* if the second polynomial is 0, nothing is printed although the exit status tells of success *)
Theorem C99_ext_gcd_refuted s1 s2 f : rd s1 f -> rd s2 0 -> run "f2n_p_gcd" [:: txt "-e"; sm; s1; s2] = ([::], Status 0).
Proof.
move=> h1 h2; known "f2n_p_gcd" (f2n_p_gcd_main); rewrite /f2n_p_gcd_main; change (teq (txt "-e") "-e") with true; cbv iota.
by rewrite (f2_arg hm) pb_ret (Harg h1) pb_ret (Harg h2) pb_ret (C63_ext_gcd_refuted f).
Qed.
(* four arguments without -e in front are refused *)
Theorem C99_ext_gcd_order s2 s3 s4 : run "f2n_p_gcd" [:: sm; s2; s3; s4] = ([::], Status 1).
Proof. by known "f2n_p_gcd" (f2n_p_gcd_main); rewrite /f2n_p_gcd_main (hex_text_not _ _ "-e" "-"%char hm). Qed.

(* ---- least common multiple ---- *)
Theorem C99_lcm args ps : args <> nil -> Forall2 rd args ps -> (length (List.filter (fun f => f == 0%R) ps) <= 1)%N ->
  exists m, run "f2n_p_lcm" (sm :: args) = (line (tx m), Status 0) /\ forall n, m %| n <-> Forall (fun f => f %| n) ps.
Proof.
move=> hn h hz; have [m [e hd]] := lcm_main sp encG Harg Hshw hn h hz; exists m; split=> //; known "f2n_p_lcm" (f2n_p_lcm_main).
have -> : f2n_p_lcm_main (sm :: args) = (q <~ arg_f2 sm ;~ fold_main (arg_f2n q) show_f2n (gp_lcm o) args) by case: (args) hn.
by rewrite (f2_arg hm) pb_ret e.
Qed.
Theorem C99_lcm_zero_refuted s1 s2 args : rd s1 0 -> rd s2 0 -> run "f2n_p_lcm" (sm :: s1 :: s2 :: args) = ([::], Status 0).
Proof.
move=> h1 h2; known "f2n_p_lcm" (f2n_p_lcm_main); rewrite /f2n_p_lcm_main (f2_arg hm) pb_ret /fold_main (Harg h1) pb_ret /= (Harg h2) pb_ret.
by rewrite (lcm_00 sp encG).
Qed.

(* ---- fields of at most 2^30 elements ---- *)
Hypothesis hdeg : (Z.of_nat n <= 30)%coqZ.
Local Notation fs := (f2n_fs (gf_irr G) (gf_root G) (gf_card G) hdeg).
(* ---- the number of units ---- *)
Theorem C99_totient_partial args ps : args <> nil -> Forall2 rd args ps -> Forall (fun f => f != 0 /\ (2 * (Z.of_nat n * deg f) <= 30)%coqZ) ps ->
  run "f2n_p_totient" (sm :: args) = (listing tx (many ps) ": " ps (List.map (fun f => put_int (Z.of_nat (PropF2nFac.g2_units f))) ps), Status 0).
Proof.
move=> hn h hp; known "f2n_p_totient" (f2n_p_totient_main).
have -> : f2n_p_totient_main (sm :: args) = (q <~ arg_f2 sm ;~ per_first (arg_f2n q) show_f2n (several args) ": " (f2n_totient) args ;~~ ret 0%coqZ) by case: (args) hn.
rewrite (f2_arg hm) pb_ret (several_many _ _ _ h).
rewrite (per_first_ok arg show_f2n enc rd tx Harg Hshw _ _ _ _ _ (List.map (fun f => Z.of_nat (PropF2nFac.g2_units f)) ps) h).
  by rewrite pb_val emit_ret List.map_map.
by apply: F2_map; elim: hp => [|f l [f0 hd] _ IH]; constructor=> //; exact: (PropF2nFac.C70_totient_partial hdeg).
Qed.
(* ---- irreducibility ---- *)
Theorem C99_test_partial args ps : Forall2 rd args ps -> Forall (fun f => Z.of_nat (size (f : {poly L})) <= INT_MAX)%coqZ ps ->
  exists ts, Forall2 (@test_line _) ps ts /\ run "f2n_p_test" (sm :: args) = (listing tx (many ps) ": " ps ts, Status 0).
Proof.
move=> h hp; have [f|ts [h1 e]] := @test_per _ (L) enc arg show_f2n rd tx Harg Hshw (f2n_is_irreducible) (many ps) args ps _ h hp.
  exact: (PropF2nFac.C68_is_irreducible_partial hdeg).
exists ts; split=> //; known "f2n_p_test" (f2n_p_test_main).
by rewrite /f2n_p_test_main (f2_arg hm) pb_ret (several_many _ _ _ h) e pb_val emit_ret.
Qed.
(* ---- factorisation ---- *)
(* The factors are monic and irreducible, in ascending order, and their product with the leading coefficient is the argument. *)
Theorem C99_factor_partial args ps : Forall2 rd args ps -> Forall (fun f => Z.of_nat (size (f : {poly L})) <= INT_MAX)%coqZ ps ->
  exists ts, Forall2 (fun f t => exists l, factors_of num f l /\ t = factor_line tx f l) ps ts /\
    run "f2n_p_factor" (sm :: args) = (listing tx (many ps) " = " ps ts, Status 0).
Proof.
move=> h hp; have [ts [h1 e]] := factor_per sp dflt kvq kv0 fs encG hnum Harg Hshw hone (many ps) h hp.
exists ts; split=> //; known "f2n_p_factor" (f2n_p_factor_main).
rewrite /f2n_p_factor_main (f2_arg hm) pb_ret (several_many _ _ _ h).
by rewrite -[X in X ;~~ _]/(per arg show_f2n (many ps) " = " (gfactor_body o f2n_facpar show_f2n (f2n_one (f2_enc m))) args) e pb_val emit_ret.
Qed.
(* ---- divisors ---- *)
Lemma divisors_main args : args <> nil -> f2n_p_divisors_main (sm :: args) =
  per arg show_f2n (several args) ": " (divisors_body show_f2n (gp_fops o) (enc 1) (f2n_factor) false) args ;~~ ret 0%coqZ.
Proof.
move=> hn; rewrite /f2n_p_divisors_main (hex_text_not _ _ "-mp" "-"%char hm) //.
by case: args hn => // s l _; rewrite (f2_arg hm) pb_ret hone pb_ok.
Qed.
Theorem C99_divisors_partial args ps : args <> nil -> Forall2 rd args ps -> Forall (fun f => f != 0 /\ (deg f <= 30)%coqZ) ps ->
  exists ts, Forall2 (divisors_line num tx) ps ts /\ run "f2n_p_divisors" (sm :: args) = (listing tx (many ps) ": " ps ts, Status 0).
Proof.
move=> hn h hp; have [ts [h1 e]] := divisors_per sp dflt kvq kv0 fs encG hnum Harg Hshw (many ps) erefl h hp.
exists ts; split=> //; known "f2n_p_divisors" (f2n_p_divisors_main).
by rewrite divisors_main // (several_many _ _ _ h) e pb_val emit_ret.
Qed.
Theorem C99_maximal_partial args ps : args <> nil -> Forall2 rd args ps -> Forall (fun f => f != 0 /\ (deg f <= 30)%coqZ) ps ->
  exists ts, Forall2 (maximal_line num tx) ps ts /\ run "f2n_p_divisors" (txt "-mp" :: sm :: args) = (listing tx (many ps) ": " ps ts, Status 0).
Proof.
move=> hn h hp; have [ts [h1 e]] := maximal_per sp dflt kvq kv0 fs encG hnum Harg Hshw (many ps) erefl h hp.
exists ts; split=> //; known "f2n_p_divisors" (f2n_p_divisors_main).
have -> : f2n_p_divisors_main (txt "-mp" :: sm :: args) =
  per arg show_f2n (several args) ": " (divisors_body show_f2n (gp_fops o) (enc 1) (f2n_factor) true) args ;~~ ret 0%coqZ.
  by rewrite /f2n_p_divisors_main /=; case: (args) hn => // s l _; rewrite (f2_arg hm) pb_ret hone pb_ok.
by rewrite (several_many _ _ _ h) e pb_val emit_ret.
Qed.
(* every polynomial divides 0; the only divisor printed is 1 *)
Theorem C99_divisors_zero_refuted s : rd s 0 -> run "f2n_p_divisors" [:: sm; s] = (line (txt "1"), Status 0).
Proof.
move=> hs; known "f2n_p_divisors" (f2n_p_divisors_main); rewrite divisors_main //.
rewrite (divisors_zero sp dflt kvq kv0 fs encG hnum Harg Hshw erefl hs) pb_val emit_ret.
have -> // : tx 1 = txt "1".
rewrite /g2_tx oner_eq0 polyseq1 /= /el_tx; have [h e] := elR (1 : L).
by have -> : g2_val (1 : L) = 1%N by have := kg1 h e.
Qed.
(* ---- values ---- *)
Theorem C99_eval s f args rs : rd s f -> args <> nil -> Forall2 f2_rd args rs ->
  run "f2n_p_eval" (sm :: s :: args) = (lines_of (fun r => wide_tx f.[at_root r]) rs, Status 0).
Proof.
move=> hs hn h; known "f2n_p_eval" (f2n_p_eval_main); pose body := fun s => a <~ arg_pm (f2_enc m) s ;~ b <~ call (gp_eval o (enc f) a) ;~ show_pm b ;~~ nl.
have -> : f2n_p_eval_main (sm :: s :: args) = (each body args ;~~ ret 0%coqZ).
  by rewrite /f2n_p_eval_main; case: (args) hn => // a l _; rewrite (f2_arg hm) pb_ret (Harg hs) pb_ret.
have -> : each body args = (lines_of (fun r => wide_tx f.[at_root r]) rs, Val tt); last by rewrite pb_val emit_ret.
elim: h => [|s1 r l k hv _ IH] //; rewrite /lines_of /= -/(lines_of _ _) IH /body.
by rewrite (pm_arg G hv) pb_ret C65_eval pb_ok /show_pm /print_res pm_shw pb_ok !pb_print.
Qed.
(* a text that is no element: the lines before it, and the status of failure *)
Theorem C99_eval_bad s f args rs s1 post : rd s f -> Forall2 f2_rd args rs -> no_hex s1 ->
  run "f2n_p_eval" (sm :: s :: args ++ s1 :: post)%list = (lines_of (fun r => wide_tx f.[at_root r]) rs, Status 1).
Proof.
move=> hs h h1; known "f2n_p_eval" (f2n_p_eval_main); pose body := fun s => a <~ arg_pm (f2_enc m) s ;~ b <~ call (gp_eval o (enc f) a) ;~ show_pm b ;~~ nl.
have -> : f2n_p_eval_main (sm :: s :: args ++ s1 :: post)%list = (each body (args ++ s1 :: post)%list ;~~ ret 0%coqZ).
  by rewrite /f2n_p_eval_main; case: (args) => [|a l]; rewrite /= (f2_arg hm) pb_ret (Harg hs) pb_ret.
have -> : each body (args ++ s1 :: post)%list = (lines_of (fun r => wide_tx f.[at_root r]) rs, Exit 1) => //.
elim: h => [|s2 r l k hv _ IH]; first by rewrite /= /body (pm_arg_no _ h1).
rewrite /lines_of /= -/(lines_of _ _) IH /body.
by rewrite (pm_arg G hv) pb_ret C65_eval pb_ok /show_pm /print_res pm_shw pb_ok !pb_print.
Qed.
(* ---- the companion matrix ---- *)
Theorem C99_companion s f : rd s f -> (1 < size f)%N -> let d := (size f).-1 in
  run "f2n_p_comp_mx" [:: sm; s] = ((lines_of (fun i => unwords [seq wide_tx (if i == 0%N then - f`_(d - 1 - j) else (j.+1 == i)%:R) | j <- iota 0 d]) (iota 0 d) ++
    line [::])%list, Status 0).
Proof.
move=> hs hf d; known "f2n_p_comp_mx" (f2n_p_comp_mx_main).
rewrite /f2n_p_comp_mx_main (f2_arg hm) pb_ret (Harg hs) pb_ret C49_f2n_companion hf pb_ok.
have mE (l : seq L) : mapM pm_put [seq gf_el a | a <- l] = Ok [seq wide_tx a | a <- l] by elim: l => //= a l IH; rewrite pm_shw bind_ok IH.
pose A i j : L := if i == 0%N then - f`_(d - 1 - j) else (j.+1 == i)%:R.
have e : t_rows (PLinalg2.mx_enc (@gf_el G) (companion_mx f d)) = [seq [seq gf_el a | a <- [seq A i j | j <- iota 0 d]] | i <- iota 0 d].
  rewrite /PLinalg2.mx_enc /= -!val_enum_ord -[in RHS]map_comp; apply: eq_map => i; rewrite /= -!map_comp.
  by apply: eq_map => j; rewrite /= mxE.
rewrite -/d e; have -> : mapM (mapM pm_put) [seq [seq gf_el a | a <- [seq A i j | j <- iota 0 d]] | i <- iota 0 d] = Ok [seq [seq wide_tx (A i j) | j <- iota 0 d] | i <- iota 0 d].
  by elim: (iota 0 d) {1 3}(iota 0 d) => [|x l IH] l' //=; rewrite mE bind_ok IH -map_comp.
rewrite pb_ok pb_print /nl /emit /=; congr ((_ ++ _)%list, _).
rewrite /mat_out /lines_of; congr List.concat; rewrite !mapE -!map_comp; apply: eq_map => i.
by rewrite /= vec_words; congr (line (unwords _)); rewrite mapE map_id.
Qed.
(* ---- all polynomials of the degrees of a range, in ascending order ---- *)
Theorem C99_list_partial s lo hi : range_text s lo hi -> (2 * (Z.of_nat n * hi) <= 30)%coqZ ->
  exists ps, [/\ run "f2n_p_list" [:: sm; s] = (lines_of tx ps, Status 0), sorted ltn [seq num f | f <- ps] &
    forall f, In f ps <-> f != 0 /\ (lo <= deg f <= hi)%coqZ].
Proof.
move=> hs hh.
have [hl hl2] : (0 <= lo <= INT_MAX)%coqZ by case: hs => [[/numeral_range]|[d1 [d2 [_ [/numeral_range]]]]].
have n0 : (0 < n)%N by have [k _] := gf_irr G; case: (size m) k => [|[]].
have hhi : (hi <= 30)%coqZ by move: hh n0; set k := n; clear; move=> h /ltP h0; nia.
have [|||d hd|ps [e h1 h2]] := @list_range _ (L) enc num show_f2n tx Hshw numsz (f2n_poly_list (f2_enc m)) lo hi => //.
- by move: hhi; rewrite /INT_MAX; clear; lia.
- have := PropList.C77_f2n_poly hdeg (deg := d); rewrite (_ : PList6.pow_fits _ _ = true); first by apply; move: hhi hd; rewrite /INT_MAX; clear; lia.
  apply/orP; case: (Z.eqb_spec (Z.of_nat d) 0) => d0; [by left|right; apply/Z.leb_le].
  rewrite -Z.pow_mul_r; [|exact: Zle_0_nat|exact: Z.pow_nonneg].
  apply: Z.le_trans (_ : 2 ^ 30 <= _)%coqZ => //; apply: Z.pow_le_mono_r => //.
  have := Z.log2_spec (Z.of_nat d); rewrite Z.pow_add_r //; last exact: Z.log2_nonneg.
  by rewrite Z.pow_1_r; move: d0 hd hh n0; set k := n; set e := (2 ^ _)%coqZ; clear; move=> d0 hd hh /ltP n0 he; nia.
exists ps; split=> //; known "f2n_p_list" (f2n_p_list_main).
by rewrite /f2n_p_list_main (f2_arg hm) pb_ret (range_ok _ _ _ hs) pb_ret e pb_val emit_ret.
Qed.
Theorem C99_list_refuted s d : range_text s d d -> PList6.pow_fits (2 ^ Z.of_nat n) d = false -> run "f2n_p_list" [:: sm; s] = ([::], Undefined).
Proof.
move=> hs hd; known "f2n_p_list" (f2n_p_list_main); rewrite /f2n_p_list_main (f2_arg hm) pb_ret (range_ok _ _ _ hs) pb_ret /degrees [fst _]/= [snd _]/=.
have [hl hl2] : (0 <= d <= INT_MAX)%coqZ by case: hs => [[/numeral_range]|[d1 [d2 [_ [/numeral_range]]]]].
have -> : Z.to_nat (d - d + 1) = 1%N by clear; lia.
cbn [MSpiff2.over]; have := PropList.C77_f2n_poly hdeg (deg := Z.to_nat d); rewrite Z2Nat.id // hd => ->; last exact: hl2.
by [].
Qed.
(* ---- the lowest irreducible polynomial of each degree ---- *)
Theorem C99_find_partial s lo hi : range_text s lo hi -> (2 <= lo)%coqZ -> (hi < INT_MAX)%coqZ ->
  exists ps, [/\ run "f2n_p_find" [:: txt "-1"; sm; s] = (lines_of tx ps, Status 0), length ps = Z.to_nat (hi - lo + 1) &
    forall i f, List.nth_error ps i = Some f -> lowest num (lo + Z.of_nat i) f].
Proof.
move=> hs h2 hh.
have [hl hl2] : (0 <= lo <= INT_MAX)%coqZ by case: hs => [[/numeral_range]|[d1 [d2 [_ [/numeral_range]]]]].
have [|||d hd|ps [e h3 h4]] := @find_range _ (L) enc num show_f2n tx Hshw St s0 (f2n_find_irr (f2_enc m)) lo hi => //.
  by apply: (PropF2nFac.C69_find_irr_partial hdeg (f2_encP m)); move: h2 hh hd; clear; lia.
exists ps; split=> //; known "f2n_p_find" (f2n_p_find_main draw fuel s0).
have -> : f2n_p_find_main draw fuel s0 [:: txt "-1"; sm; s] =
  (degrees (lo, hi) (fun d s => x <~ call (a <- f2n_find_irr (f2_enc m) d ;; Ok (a, s)) ;~ show_f2n (fst x) ;~~ nl ;~~ ret (snd x)) s0 ;~~ ret 0%coqZ).
  by rewrite /f2n_p_find_main (f2_arg hm) (range_ok _ _ _ hs) !pb_ret.
by rewrite e pb_val emit_ret.
Qed.
(* degree 1: x + 1 is printed although x, which is lower, is irreducible *)
Theorem C99_find_refuted s : range_text s 1 1 -> run "f2n_p_find" [:: txt "-1"; sm; s] = (line (tx ('X + 1)), Status 0).
Proof.
move=> hs; known "f2n_p_find" (f2n_p_find_main draw fuel s0).
have -> : f2n_p_find_main draw fuel s0 [:: txt "-1"; sm; s] =
  (degrees (1, 1)%coqZ (fun d s => x <~ call (a <- f2n_find_irr (f2_enc m) d ;; Ok (a, s)) ;~ show_f2n (fst x) ;~~ nl ;~~ ret (snd x)) s0 ;~~ ret 0%coqZ).
  by rewrite /f2n_p_find_main (f2_arg hm) (range_ok _ _ _ hs) !pb_ret.
suff e : f2n_find_irr (f2_enc m) 1 = Ok (enc ('X + 1)).
  rewrite /degrees -[Z.to_nat _]/(1%N) [fst _]/=.
  cbn [MSpiff2.over].
  rewrite e bind_ok pb_ok Hshw pb_print /nl pb_print.
  by rewrite /ret !emit_pair !pb_val /emit /= ?List.app_nil_r.
rewrite /f2n_find_irr.
have [zero [-> hz]] := V_int (gf_irr G) (gf_root G) 0 (f2_encP m); have [one [-> ho]] := V_int (gf_irr G) (gf_root G) 1 (f2_encP m); rewrite !bind_ok.
change ((int_of_Z 0)%:~R : L) with (0 : L) in hz; change ((int_of_Z 1)%:~R : L) with (1 : L) in ho.
rewrite f2_deg_enc bind_ok /gp_find_irr; have [l0 [-> h0]] := const_ok sp hz; rewrite bind_ok; rewrite polyC0 in h0.
rewrite (PropF2nPoly.Genc h0) (PropF2nPoly.Rel ho) PropF2nPoly.t_set bind_ok.
have -> : (0 : {poly L}) + (1 - (0 : {poly L})`_(Z.to_nat 1)) *: 'X^(Z.to_nat 1) = 'X by rewrite coef0 subr0 scale1r add0r expr1.
have [k ->] : exists k, Nat.pow (Nat.pow 2 n) (Z.to_nat 1) = k.+1.
  by exists (Nat.pow 2 n).-1; rewrite /= Nat.mul_1_r prednK //; apply/ltP; apply/Nat.neq_0_lt_0; apply: Nat.pow_nonzero.
have hn (f : {poly L}) : c_neqb (k_c o) (gf_el f`_0) zero = Ok (f`_0 != 0).
  by rewrite (R_neqb (ks_c sp) (elR _) hz).
rewrite /= {1}/gp_irr_step (degree_enc encG) size_polyX /= PropF2nPoly.t_get /= hn coefX eqxx /=.
have [g [-> hg]] := PropF2nPoly.t_inc ('X : {poly L}); rewrite /=.
have -> : g = 'X + 1.
  apply: (@PropF2nPoly.num_inj G); rewrite hg.
  have e1 : g2_val (1 : L) = 1%N by have [h e] := elR (1 : L); have := kg1 h e.
  have e0 : g2_val (0 : L) = 0%N by have [h e] := elR (0 : L); have := kg0 h; rewrite e eqxx => /eqP.
  have [c0 c1] : ('X + 1 : {poly L})`_0 = 1 /\ ('X + 1 : {poly L})`_1 = 1 by rewrite !coefD !coefX !coef1 add0r addr0.
  have h2 (f : {poly L}) : size f = 2%N -> num f = (g2_val (f`_0)%R + g2_val (f`_1)%R * #|L|)%N.
    by rewrite /g2_num => ->; rewrite !big_ord_recl !big_ord0 /= /bump /= muln1 addn0 expn1.
  have [d0 d1] : ('X : {poly L})`_0 = 0 /\ ('X : {poly L})`_1 = 1 by rewrite !coefX.
  by rewrite (h2 _ (size_polyX _)) (h2 _ (size_XaddC _)) c0 c1 d0 d1 e1 e0 add0n add1n.
rewrite /gp_irr_step (degree_enc encG) size_XaddC /= PropF2nPoly.t_get /= hn coefD coefX coef1 add0r oner_eq0 /=.
have [|b [e hb]] := PropF2nFac.C68_is_irreducible_partial hdeg (f := 'X + 1); first by rewrite size_XaddC.
move: e; rewrite /f2n_is_irreducible => ->; rewrite /=.
by have /hb -> : irreducible_poly ('X + 1 : {poly L}) by apply: PF2Fac2.lin_irr; rewrite size_XaddC.
Qed.
Theorem C99_find_random_partial s lo hi : range_text s lo hi -> (1 <= lo)%coqZ -> (hi < INT_MAX)%coqZ ->
  exists ps st, [/\ run "f2n_p_find" [:: txt "-r"; sm; s] = (lines_of tx ps, st),
    (forall i f, List.nth_error ps i = Some f -> [/\ deg f = (lo + Z.of_nat i)%coqZ, f \is monic, irreducible_poly f & f`_0 != 0]) &
    st = Endless \/ st = Status 0 /\ length ps = Z.to_nat (hi - lo + 1)].
Proof.
move=> hs h2 hh.
have [hl hl2] : (0 <= lo <= INT_MAX)%coqZ by case: hs => [[/numeral_range]|[d1 [d2 [_ [/numeral_range]]]]].
have [|||d s' hd|ps [f [e h3 h4]]] := @search_range _ (L) enc show_f2n tx Hshw St s0 (f2n_poly_random_irr draw fuel (f2_enc m)) lo hi => //.
  have [||e|[f [k [e h]]]] := @C84_f2n_irr_result_partial G St draw d fuel s' hdeg; [move: h2 hd; clear; lia|move: hh hd; clear; lia|by left|].
  by right; eexists; eexists; split; first exact: e.
known "f2n_p_find" (f2n_p_find_main draw fuel s0).
have -> : f2n_p_find_main draw fuel s0 [:: txt "-r"; sm; s] =
  (degrees (lo, hi) (fun d s => x <~ call (f2n_poly_random_irr draw fuel (f2_enc m) d s) ;~ show_f2n (fst x) ;~~ nl ;~~ ret (snd x)) s0 ;~~ ret 0%coqZ).
  by rewrite /f2n_p_find_main (f2_arg hm) (range_ok _ _ _ hs) !pb_ret.
rewrite e.
by exists ps; case: h4 => [->|[s' [-> hL]]]; [exists Endless|exists (Status 0)]; rewrite ?pb_val ?emit_ret; split=> //; [left|right].
Qed.
(* ---- random polynomials ---- *)
Theorem C99_random s1 s2 (d : nat) k : int_text s1 (Z.of_nat d) -> int_text s2 k ->
  run "f2n_p_random" [:: sm; s1; s2] = (lines_of (fun j => tx (rndF d (cf2n G draw (iter (j * (d.+1 * n)) (next draw) s0)))) (List.seq 0 (Z.to_nat k)), Status 0).
Proof.
move=> h1 h2; known "f2n_p_random" (f2n_p_random_main draw s0); rewrite /f2n_p_random_main (f2_arg hm) pb_ret (arg_int_ok _ _ h1) pb_ret (arg_int_ok _ _ h2) pb_ret.
rewrite (times_ok _ _ _ (fun j => iter (j * (d.+1 * n)) (next draw) s0) (fun j => line (tx (rndF d (cf2n G draw (iter (j * (d.+1 * n)) (next draw) s0)))))) //.
  by rewrite pb_val emit_ret.
move=> i _; rewrite C84_f2n_poly pb_ok Hshw pb_print [(i + 1)%coq_nat]/=.
have -> : iter ((i + 1)%coq_nat * (d.+1 * n)) (next draw) s0 = iter (d.+1 * n) (next draw) (iter (i * (d.+1 * n)) (next draw) s0).
  by rewrite -iterD; congr iter; rewrite -plusE mulnDl mul1n addnC.
by rewrite /nl pb_print emit_ret.
Qed.
Theorem C99_random_one s1 : run "f2n_p_random" [:: sm; s1] = run "f2n_p_random" [:: sm; s1; txt "1"].
Proof. by known "f2n_p_random" (f2n_p_random_main draw s0); known "f2n_p_random" (f2n_p_random_main draw s0). Qed.
Theorem C99_random_refuted s1 d : int_text s1 d -> (d < 0)%coqZ -> run "f2n_p_random" [:: sm; s1] = ([::], Status 0).
Proof.
move=> h hd; known "f2n_p_random" (f2n_p_random_main draw s0); rewrite /f2n_p_random_main (f2_arg hm) pb_ret (arg_int_ok _ _ h) pb_ret.
by rewrite /= C84_f2n_poly_neg.
Qed.
(* without arguments every command ends with exit status 1; with the modulus alone deg, test and factor print nothing and succeed *)
Theorem C99_no_arguments :
  Forall (fun name => run name [::] = ([::], Status 1)) [:: "f2n_p_deg"; "f2n_p_gcd"; "f2n_p_lcm"; "f2n_p_totient"; "f2n_p_test"; "f2n_p_factor"; "f2n_p_divisors";
    "f2n_p_eval"; "f2n_p_comp_mx"; "f2n_p_list"; "f2n_p_find"; "f2n_p_random"; "f2n_p_qp"]%string /\
  Forall (fun name => run name [:: sm] = ([::], Status 1)) [:: "f2n_p_gcd"; "f2n_p_lcm"; "f2n_p_totient"; "f2n_p_divisors";
    "f2n_p_eval"; "f2n_p_comp_mx"; "f2n_p_list"; "f2n_p_find"; "f2n_p_random"; "f2n_p_qp"]%string /\
  Forall (fun name => run name [:: sm] = ([::], Status 0)) [:: "f2n_p_deg"; "f2n_p_test"; "f2n_p_factor"]%string.
Proof.
split; first by repeat constructor.
split; last first.
  repeat constructor; [known "f2n_p_deg" (f2n_p_deg_main)|known "f2n_p_test" (f2n_p_test_main)|known "f2n_p_factor" (f2n_p_factor_main)];
    by rewrite /f2n_p_deg_main /f2n_p_test_main /f2n_p_factor_main (f2_arg hm) pb_ret.
repeat constructor; known "f2n_p_divisors" (f2n_p_divisors_main); by rewrite /f2n_p_divisors_main (hex_text_not _ _ "-mp" "-"%char hm).
Qed.
(* a text without a hexadecimal number in the place of the modulus *)
Theorem C99_bad_modulus s rest : no_hex s ->
  Forall (fun name => run name (s :: rest) = ([::], Status 1)) [:: "f2n_p_deg"; "f2n_p_lcm"; "f2n_p_totient"; "f2n_p_test"; "f2n_p_factor"; "f2n_p_eval"; "f2n_p_comp_mx"; "f2n_p_list"; "f2n_p_random"]%string.
Proof.
move=> h; have e := arg_f2_no _ h.
by repeat constructor; [known "f2n_p_deg" (f2n_p_deg_main)|known "f2n_p_lcm" (f2n_p_lcm_main)|known "f2n_p_totient" (f2n_p_totient_main)|known "f2n_p_test" (f2n_p_test_main)|
  known "f2n_p_factor" (f2n_p_factor_main)|known "f2n_p_eval" (f2n_p_eval_main)|known "f2n_p_comp_mx" (f2n_p_comp_mx_main)|known "f2n_p_list" (f2n_p_list_main)|
  known "f2n_p_random" (f2n_p_random_main draw s0)]; case: rest => [|s1 [|s2 [|s3 rest]]] //; rewrite
  /f2n_p_deg_main /f2n_p_lcm_main /f2n_p_totient_main /f2n_p_test_main /f2n_p_factor_main /f2n_p_eval_main /f2n_p_comp_mx_main /f2n_p_list_main /f2n_p_random_main e.
Qed.
End Run.

(* modulus x^4 + x + 1, x^2 + x + 1 and x^8 + x^4 + x^3 + x + 1 *)
Example C99_ex : let d := fun s : Z => (s, ((s * 5 + 1) mod 1024)%coqZ) in
  let run name args := let '(t, st) := spiff (poly_handler None cache_init d 50 0%coqZ (fun _ _ => usage)) (fun l => l) d 0%coqZ
    (txt name :: List.map txt args) in (string_of_list_ascii t, st) in
  let nl := String "010"%char "" in
  [/\ [/\ run "f2n_p_deg" [:: "13"; "1:0:b"; "5"; "0:14:1"]%string = (("1:0:b: 2" ++ nl ++ "5: 0" ++ nl ++ "7:1: 1" ++ nl)%string, Status 0),
       run "f2n_p_gcd" [:: "13"; "1:0:1"; "2:2"]%string = (("2:2" ++ nl)%string, Status 0),
       run "f2n_p_gcd" [:: "-e"; "13"; "1:0:b"; "1:3"]%string = (("e = 1 * 1:0:b + 1:3 * 1:3" ++ nl)%string, Status 0),
       run "f2n_p_lcm" [:: "13"; "1:2"; "1:3"; "2:4"]%string = (("1:1:6" ++ nl)%string, Status 0) &
       run "f2n_p_totient" [:: "7"; "1:0:1"; "1:1"]%string = (("1:0:1: 12" ++ nl ++ "1:1: 3" ++ nl)%string, Status 0)],
     [/\ run "f2n_p_test" [:: "7"; "1:1:2"; "1:0:3"]%string = (("1:1:2: IRREDUCIBLE" ++ nl ++ "1:0:3: reducible" ++ nl)%string, Status 0),
       run "f2n_p_factor" [:: "13"; "2:0:6"; "1:5:6"; "a"]%string = (("2:0:6 = 2 1:4^2" ++ nl ++ "1:5:6 = 1:9 1:c" ++ nl ++ "a = a" ++ nl)%string, Status 0),
       run "f2n_p_divisors" [:: "13"; "1:5:6"]%string = (("1 1:9 1:c 1:5:6" ++ nl)%string, Status 0) &
       run "f2n_p_divisors" [:: "-mp"; "13"; "1:5:6"; "a"]%string = (("1:5:6: 1:9 1:c" ++ nl ++ "a: (none)" ++ nl)%string, Status 0)],
     [/\ run "f2n_p_eval" [:: "11b"; "1:0:b"; "2"; "ff"; "1b"]%string = (("0f" ++ nl ++ "18" ++ nl ++ "55" ++ nl)%string, Status 0),
       run "f2n_p_comp_mx" [:: "11b"; "1:2:3:a4"]%string = (("02 03 a4" ++ nl ++ "01 00 00" ++ nl ++ "00 01 00" ++ nl ++ nl)%string, Status 0),
       run "f2n_p_list" [:: "7"; "0"]%string = (("1" ++ nl ++ "2" ++ nl ++ "3" ++ nl)%string, Status 0),
       run "f2n_p_find" [:: "-1"; "7"; "2"]%string = (("1:1:2" ++ nl)%string, Status 0) &
       run "f2n_p_random" [:: "13"; "2"; "2"]%string = (("3:3:3" ++ nl ++ "3:3:3" ++ nl)%string, Status 0)] &
     exists G : gf2, [/\ gf_m G = 'X^2 + 'X + 1, f2_rd (txt "7") (gf_m G), @g2_text G (txt "1:2") ('X + (gf_z G)%:P) & g2_bad (txt "1:x")]].
Proof.
split; [by split; vm_compute|by split; vm_compute|by split; vm_compute|].
have [G e] := C62_field p7_irr; exists G.
have n1 : valN (f2_enc 1) = 1%num by rewrite -(f2_encE isP1).
have n2 : valN (f2_enc 'X) = 2%num by rewrite number_enc /f2_number polyseqX.
have w1 : f2_word (txt "1") 1 by exists nil, (txt "1"); split=> //; try (by repeat constructor); rewrite n1.
have w2 : f2_word (txt "2") 'X by exists nil, (txt "2"); split=> //; try (by repeat constructor); rewrite n2.
have hw s : ~ In ":"%char s -> s <> nil -> PPolyText.word ":"%char s by move=> k1 k2; split.
split=> //.
- rewrite e /f2_rd -number_enc -(f2_encE PropF2Poly.p7); exists nil, (txt "7"), nil; split=> //; split; first by constructor.
  by split; first by repeat constructor.
- exists [:: txt "1"; txt "2"], [:: 1; 'X]; split=> //.
  + by apply: (@spread_word _ (txt "1")); [apply: hw => //; case=> [|[]]|apply: spread_last; apply: hw => //; case=> [|[]]].
  + by case=> [|[|[|[]]]].
  + by repeat constructor.
  change (rev _) with [:: (map_poly (gf_emb G) 'X).[gf_z G]; (map_poly (gf_emb G) 1).[gf_z G]].
  rewrite rmorph1 hornerC map_polyX hornerX; apply/polyP=> i; rewrite coef_Poly coefD coefX coefC.
  by case: i => [|[|[|i]]]; rewrite /= ?addr0 ?add0r.
exists [:: txt "1"], [:: 1], nil, (txt "x"), nil; split=> //.
- by apply: (@spread_word _ (txt "1")); [apply: hw => //; case=> [|[]]|apply: spread_last; apply: hw => //; case=> [|[]]].
- by case=> [|[|[|[]]]].
- by repeat constructor.
by split=> //; case=> [|[|[|[]]]].
Qed.

Print Assumptions C99_text.
Print Assumptions C99_text_meaning.
Print Assumptions C99_element.
Print Assumptions C99_deg.
Print Assumptions C99_deg_bad.
Print Assumptions C99_empty_refuted.
Print Assumptions C99_gcd.
Print Assumptions C99_ext_gcd_partial.
Print Assumptions C99_ext_gcd_refuted.
Print Assumptions C99_ext_gcd_order.
Print Assumptions C99_lcm.
Print Assumptions C99_lcm_zero_refuted.
Print Assumptions C99_totient_partial.
Print Assumptions C99_test_partial.
Print Assumptions C99_factor_partial.
Print Assumptions C99_divisors_partial.
Print Assumptions C99_maximal_partial.
Print Assumptions C99_divisors_zero_refuted.
Print Assumptions C99_eval.
Print Assumptions C99_eval_bad.
Print Assumptions C99_companion.
Print Assumptions C99_list_partial.
Print Assumptions C99_list_refuted.
Print Assumptions C99_find_partial.
Print Assumptions C99_find_refuted.
Print Assumptions C99_find_random_partial.
Print Assumptions C99_random.
Print Assumptions C99_random_one.
Print Assumptions C99_random_refuted.
Print Assumptions C99_no_arguments.
Print Assumptions C99_bad_modulus.
