(* Final theorems for the commands f2_mat_ord, f2_mat_ch_pol and f2_mat_random of cli/spiff (C107). *)
From Verif Require Import Base MIntMath MFac MIntmod MMat MMatCli MBits MF2Poly MLinalg MTextIO MPolyText MRandom MSpiff MSpiff2 MSpiff6 MSpiff8.
From Verif Require Import PIntMath PMatCli5 PTextIO PTextIO2 PTextIO3 PropTextIO PSpiff PSpiff2 PSpiff3 PSpiff7 PPolyText PBitText.
From Coq Require Import Ascii String.
From mathcomp Require Import all_ssreflect all_algebra finfield ssrZ zify.
From Verif Require Import PMat PBits3 PF2Poly2 PLinalg PLinalg2 PropMat PropLinalg PDiag2 PMatCli8 PMatCli9 PRandom PSpiff8 PropSpiff11.
From Verif Require PropSpiff PropSpiff3 PropSpiff10.
Set Implicit Arguments.
Unset Strict Implicit.
Unset Printing Implicit Defensive.
Import GRing.Theory.
Delimit Scope Z_scope with coqZ.
Local Open Scope ring_scope.

(* blank lines, rows of numerals below 2^32 that stand for their last bits, then the end of the text or a blank line *)
Definition bits_text (input : text) (vs : list (list bool)) : Prop := exists t1 off1 t2 off2 u rest,
  [/\ input = (t1 ++ t2 ++ u)%list, blanks_text 0 t1 off1, rows_text uword off1 t2 vs off2, vs <> nil & rest_text off2 u rest].
Definition rows_of m n (a : 'M['F_2]_(m, n)) : list (list bool) := t_rows (mx_enc bit_el a).
Lemma bits_mat m n (a : 'M['F_2]_(m, n)) : @mat_is _ [fieldType of 'F_2] Vb Ib m n (mx_enc bit_el a) a.
Proof.
have hel x : R Vb Ib (bit_el x) x by split=> //; rewrite -[RHS]/x; exact: esym (bit_elR x).
have h := mx_enc_RM (S := R Vb Ib) a hel.
have := @RM_mat_is _ _ Vb Ib m n (mx_enc bit_el a) _ h erefl; congr mat_is.
by apply/matrixP => i j; rewrite mxE /mx_fun !valK.
Qed.
Lemma bits_width m n (a : 'M['F_2]_(m, n)) : width (rows_of a) n.
Proof. by move=> r /List.in_map_iff[i [<- _]]; rewrite lengthE size_map size_enum_ord. Qed.
Lemma rows_len m n (a : 'M['F_2]_(m, n)) : List.length (rows_of a) = m.
Proof. by rewrite lengthE size_map size_enum_ord. Qed.
(* a printed matrix is such a text *)
Lemma vec2 x y v : vec_out bit_put (x :: y :: v) = (bit_put x ++ " "%char :: vec_out bit_put (y :: v))%list.
Proof. by []. Qed.
Lemma put_len2 v : (List.length (vec_out bit_put v) <= 2 * List.length v)%coq_nat.
Proof.
elim: v => [|x [|y v] IH] //; first by rewrite /=; lia.
rewrite vec2 List.app_length; move: IH; set w := vec_out _ _.
by case: x => /=; lia.
Qed.
Theorem C107_printed m n (a : 'M['F_2]_(m.+1, n.+1)) : (2 * n.+1 < tmx_buf_size)%coq_nat -> bits_text (mat_out bit_put (mx_enc bit_el a)) (rows_of a).
Proof.
move=> h.
have hr := out_rows bit_getz false uword (bit_reads false) uword_sp bit_put (fun _ => True) bit_put_word uword_ok (rows_of a).
exists nil, 0%N, (mat_out bit_put (mx_enc bit_el a)), 0%N, nil, nil; split=> //; first by rewrite List.app_nil_r.
- by constructor.
- apply: hr; apply/List.Forall_forall => v hv; have e := bits_width hv; split; [by move=> e'; rewrite e' in e|split].
    by apply/List.Forall_forall.
  rewrite /fits; apply: Nat.le_lt_trans (put_len2 v) _; by rewrite e.
- by move=> e; have := rows_len a; rewrite e.
- constructor; [by case|]. by apply: Nat.le_lt_trans h; exact: Nat.le_0_l.
Qed.

Lemma odd32 w : Z.odd (w mod 2 ^ 32) = Z.odd w.
Proof. by rewrite -!Z.bit0_odd Z.mod_pow2_bits_low. Qed.
(* a number with a sign also stands for its last bit; a number from 2^32 on is refused *)
Theorem C107_signed z d t : d <> nil -> List.Forall digit d -> sep t ->
  [/\ (dec d < 2 ^ 32)%coqZ -> forall c, c = "-"%char \/ c = "+"%char ->
      bit_getz z (c :: d ++ t)%list = Ok (Some (Z.odd (dec d), t, match t with nil => true | _ => false end)) &
    (2 ^ 32 <= dec d)%coqZ -> bit_getz z (d ++ t)%list = Ok None].
Proof.
move=> hn hd ht; split=> [h c hc|h].
  have rd := rd_digits d hd 0 false t (or_introl hn) ht.
  by case: hc => ->; rewrite /bit_getz /read_unsigned /= rd -/(dec d) (proj2 (Z.ltb_lt _ _) h) land1 // odd32 Z.odd_opp.
case: d hn hd h => [//|c d] hn hd h; have hc : digit c by inversion hd.
have rd := rd_digits (c :: d) hd 0 false t (or_introl hn) ht.
have [_ [hs [hm1 [hm2 hw]]]] := digit_ok c hc.
rewrite /bit_getz /= hw /read_unsigned /= hs hm1 hm2 rd -/(dec (c :: d)); case: Z.ltb_spec => // h'; by move: h h'; clear; lia.
Qed.

Section Run.
Context (qs : list (intmod * Z) -> list (intmod * Z)) (St : Type) (draw : St -> Z * St) (s0 : St) (other : string -> list text -> prog Z).
Context (fuel : nat) (input : text) (files : text -> option text).
Local Notation run name args := (spiff (bit_handler draw s0 fuel input files other) qs draw s0 (txt name :: args)).
Ltac known n h := rewrite (@PropSpiff.run_eq _ qs St draw s0 n _ h erefl erefl erefl).
Local Notation H T := (T bit_ops bit_getz false uword (bit_sub_self false) (bit_reads false) uword_sp (mkmat [:: [:: false]] 1)
  false nil nil erefl (bit_sub_self false)).

Theorem C107_usage s1 s2 s3 l : [/\ run "f2_mat_ord" (s1 :: l) = ([::], Status 1),
  run "f2_mat_ch_pol" [::] = ([::], Status 1), run "f2_mat_ch_pol" (s1 :: s2 :: l) = ([::], Status 1),
  List.Forall (fun a => run "f2_mat_random" a = ([::], Status 1)) [:: [::]; [:: s1]; s1 :: s2 :: s3 :: l] &
  [/\ no_number s1 -> run "f2_mat_random" [:: s1; s2] = ([::], Status 1) &
    forall v, int_text s1 v -> no_number s2 -> run "f2_mat_random" [:: s1; s2] = ([::], Status 1)]].
Proof.
split=> //; [by repeat constructor|split=> [h|v h1 h]].
- by known "f2_mat_random" (f2_mat_random_main draw s0); rewrite /f2_mat_random_main (arg_int_none _ h).
by known "f2_mat_random" (f2_mat_random_main draw s0); rewrite /f2_mat_random_main (arg_int_ok _ _ h1) pb_ret (arg_int_none _ h).
Qed.

(* ---- f2_mat_ord ---- *)
Lemma start_ord vs n : bits_text input vs -> width vs n ->
  f2_mat_ord_main fuel input [::] = (k <~ call (mat_order bit_ops fuel false true (mkmat vs n)) ;~ show k ;~~ MSpiff.nl ;~~ ret 0%coqZ).
Proof.
move=> [t1 [off1 [t2 [off2 [u [rest [-> h1 h2 h3 h4]]]]]]] hw; rewrite /f2_mat_ord_main.
by have [-> _] := H C91_matrix_read t1 off1 t2 vs off2 u rest n h1 h2 h3 h4 hw; rewrite pb_ok.
Qed.
Lemma f_is : @elem_is _ [fieldType of 'F_2] Vb Ib false 0. Proof. by []. Qed.
Lemma t_is : @elem_is _ [fieldType of 'F_2] Vb Ib true 1. Proof. by []. Qed.
(* an invertible matrix: the command prints its order; an order above INT_MAX overflows the counter *)
Theorem C107_order_partial n (a : 'M['F_2]_n.+1) k : bits_text input (rows_of a) -> order_of a k -> (k <= fuel)%N ->
  run "f2_mat_ord" [::] = if (Z.of_nat k <=? INT_MAX)%coqZ then (line (put_int (Z.of_nat k)), Status 0) else ([::], Undefined).
Proof.
move=> hi hk hf; known "f2_mat_ord" (f2_mat_ord_main fuel input); rewrite (start_ord hi (@bits_width _ _ a)).
by rewrite (order_ok bit_cspec (bits_mat a) f_is t_is hk hf); case: Z.leb => //; rewrite pb_ok.
Qed.
Theorem C107_order_exists n (a : 'M['F_2]_n.+1) : \det a != 0 <-> exists k, order_of a k.
Proof.
split=> [h|[k [k0 ek _]]]; first exact: order_exists.
apply/negP => /eqP d0; have := det1 [fieldType of 'F_2] n.+1; rewrite -[1%:M]ek.
by case: (k) k0 => // k' _; rewrite exprS det_mulmx d0 mul0r => /esym/eqP; rewrite oner_eq0.
Qed.
(* 0 for a matrix that is not invertible *)
Theorem C107_singular n (a : 'M['F_2]_n.+1) : bits_text input (rows_of a) -> \det a = 0 -> run "f2_mat_ord" [::] = (line (txt "0"), Status 0).
Proof.
move=> hi hd; known "f2_mat_ord" (f2_mat_ord_main fuel input); rewrite (start_ord hi (@bits_width _ _ a)).
by rewrite (order_singular bit_cspec _ fuel (bits_mat a) f_is hd) pb_ok.
Qed.
(* a matrix that is not square, rows of different lengths: nothing is printed, but the exit status is that of success *)
Theorem C107_rectangular_refuted m n (a : 'M['F_2]_(m, n)) : bits_text input (rows_of a) -> m <> n -> run "f2_mat_ord" [::] = ([::], Status 0).
Proof.
move=> hi hn; known "f2_mat_ord" (f2_mat_ord_main fuel input); rewrite (start_ord hi (@bits_width _ _ a)) order_rect //.
by rewrite /t_nr rows_len.
Qed.
Lemma some_bits f1 t1 off1 t2 vs off2 u : blanks_text 0 t1 off1 -> rows_text uword off1 t2 vs off2 -> (List.length (t1 ++ t2 ++ u)%list < f1)%coq_nat ->
  exists f2, mat_lines bit_ops bit_getz f1 false 0 nil (open_text (t1 ++ t2 ++ u)%list) = mat_lines bit_ops bit_getz f2.+1 false off2 (List.rev vs) (open_text u).
Proof.
move=> h1 h2 hf; have [f2 [F2 ->]] := run_blanks bit_ops bit_getz false uword uword_sp _ _ _ h1 f1 (t2 ++ u)%list hf.
have [f3 [F3 ->]] := run_rows bit_ops bit_getz false uword (bit_sub_self false) (bit_reads false) uword_sp _ _ _ _ h2 f2 u nil F2.
case: f3 F3 => [|f3] F3; first by case/Nat.nlt_0_r: F3.
by exists f3; rewrite List.app_nil_r.
Qed.
Theorem C107_ragged_refuted vs : bits_text input vs -> (forall n, ~ width vs n) -> run "f2_mat_ord" [::] = ([::], Status 0).
Proof.
move=> [t1 [off1 [t2 [off2 [u [rest [ei h1 h2 h3 h4]]]]]]] hw; known "f2_mat_ord" (f2_mat_ord_main fuel input); rewrite /f2_mat_ord_main.
have [st [e _]] := H C91_matrix_ragged t1 off1 t2 vs off2 u rest h1 h2 h3 h4 hw; rewrite -ei in e.
rewrite e pb_ok [fst _]/= /bit_after_failure ei.
have [|f2 ->] := @some_bits (List.length (t1 ++ t2 ++ u)%list).+2 t1 off1 t2 vs off2 u h1 h2; first by apply/ltP; rewrite ltnS leqnSn.
rewrite (run_rest bit_ops bit_getz false uword uword_sp _ _ _ _ _ h4); last by move=> e'; apply: h3; rewrite -[vs]List.rev_involutive e'.
by rewrite bind_ok (rev_some _ _ h3).
Qed.
(* Defect: that there is no matrix on the input goes unnoticed; the program then looks at the first row of no rows *)
Theorem C107_empty_refuted t1 off1 l : input = (t1 ++ l)%list -> blanks_text 0 t1 off1 -> one_line l -> (off1 + List.length l < tmx_buf_size)%coq_nat ->
  run "f2_mat_ord" [::] = ([::], Undefined).
Proof.
move=> ei h1 h2 h3; known "f2_mat_ord" (f2_mat_ord_main fuel input); rewrite /f2_mat_ord_main.
have [st [e _]] := @C91_matrix_none _ bit_ops bit_getz false uword uword_sp (mkmat [:: [:: false]] 1) false nil nil erefl (bit_sub_self false) t1 off1 l h1 h2 h3.
rewrite -ei in e; rewrite e pb_ok [fst _]/= /bit_after_failure ei.
have [|f1 [F1 ->]] := run_blanks bit_ops bit_getz false uword uword_sp _ _ _ h1 (List.length (t1 ++ l)%list).+2 l; first by apply/ltP; rewrite ltnS leqnSn.
case: f1 F1 => [|f1] F1; first by case/Nat.nlt_0_r: F1.
by rewrite (step_eof bit_ops bit_getz false uword uword_sp).
Qed.

(* a line that cannot be read: after some rows nothing is printed and the exit status is that of success, before any row as for no matrix *)
Theorem C107_bad_line_refuted t1 off1 t2 vs off2 l t k u : input = (t1 ++ t2 ++ l ++ newline :: u)%list -> blanks_text 0 t1 off1 -> rows_text uword off1 t2 vs off2 ->
  text_line l t k -> vec_stream (bit_getz false) t = Ok None -> (off2 + List.length l < tmx_buf_size)%coq_nat ->
  run "f2_mat_ord" [::] = ([::], if vs is nil then Undefined else Status 0).
Proof.
move=> ei h1 h2 h3 h4 h5; known "f2_mat_ord" (f2_mat_ord_main fuel input); rewrite /f2_mat_ord_main.
have [st [e _]] := H C91_matrix_bad t1 off1 t2 vs off2 l t k u h1 h2 h3 h4 h5; rewrite -ei in e.
rewrite e pb_ok [fst _]/= /bit_after_failure ei.
have [|f2 ->] := @some_bits (List.length (t1 ++ t2 ++ l ++ newline :: u)%list).+2 t1 off1 t2 vs off2 (l ++ newline :: u)%list h1 h2; first by apply/ltP; rewrite ltnS leqnSn.
have [st' [-> _]] := step_bad bit_ops bit_getz false uword (bit_sub_self false) uword_sp f2 off2 (List.rev vs) l t k u h3 h4 h5.
rewrite bind_ok; case: (vs) => [|v vs'] //; by rewrite rev_some.
Qed.

(* ---- f2_mat_ch_pol ---- *)
(* the file that an argument names: standard input for - and @ *)
Definition named (f : text) : option text := if (teq f "-" || teq f "@")%bool then Some input else files f.
Lemma ch_main f : f2_mat_ch_pol_main input files [:: f] = match named f with
  | None => usage
  | Some file => r <~ call (mat_load bit_ops bit_getz false file) ;~
      match r with None => usage | Some a => f <~ call (f2_char_poly a) ;~ show_f2 f ;~~ MSpiff.nl ;~~ ret 0%coqZ end
  end.
Proof. by []. Qed.
Lemma load_ok file vs n : bits_text file vs -> width vs n -> mat_load bit_ops bit_getz false file = Ok (Some (mkmat vs n)).
Proof.
move=> [t1 [off1 [t2 [off2 [u [rest [-> h1 h2 h3 h4]]]]]]] hw; rewrite /mat_load.
by have [-> h] := H C91_matrix_read t1 off1 t2 vs off2 u rest n h1 h2 h3 h4 hw; rewrite bind_ok h.
Qed.
(* the characteristic polynomial of the matrix in the file, in hexadecimal *)
Theorem C107_char_poly f file n (a : 'M['F_2]_n.+1) : named f = Some file -> bits_text file (rows_of a) ->
  run "f2_mat_ch_pol" [:: f] = (line (f2_tx (char_poly a)), Status 0).
Proof.
move=> hf ht; known "f2_mat_ch_pol" (f2_mat_ch_pol_main input files); rewrite ch_main hf (load_ok ht (@bits_width _ _ a)) pb_ok.
have [l [e hl]] := C49_f2_char_poly a; rewrite -[mkmat _ _]/(mx_enc bit_el a) e pb_ok (f2_encE hl) f2_shw.
by rewrite !pb_print.
Qed.
(* a matrix that is not square: nothing is printed, but the exit status is that of success *)
Theorem C107_ch_rectangular_refuted f file m n (a : 'M['F_2]_(m, n)) : named f = Some file -> bits_text file (rows_of a) -> m <> n ->
  run "f2_mat_ch_pol" [:: f] = ([::], Status 0).
Proof.
move=> hf ht hn; known "f2_mat_ch_pol" (f2_mat_ch_pol_main input files); rewrite ch_main hf (load_ok ht (@bits_width _ _ a)) pb_ok.
by rewrite -[mkmat _ _]/(mx_enc bit_el a) (C49_f2_nonsquare a hn).
Qed.
(* no such file; rows of different lengths; no rows *)
Theorem C107_no_file f : named f = None -> run "f2_mat_ch_pol" [:: f] = ([::], Status 1).
Proof. by move=> hf; known "f2_mat_ch_pol" (f2_mat_ch_pol_main input files); rewrite ch_main hf. Qed.
Lemma load_fail f file st : named f = Some file -> mat_in_stream bit_ops bit_getz (mkmat [:: [:: false]] 1) (open_text file) = Ok (None, st) ->
  failed st = true -> run "f2_mat_ch_pol" [:: f] = ([::], Status 1).
Proof. by move=> hf e h; known "f2_mat_ch_pol" (f2_mat_ch_pol_main input files); rewrite ch_main hf /mat_load e bind_ok h. Qed.
Theorem C107_ragged f file vs : named f = Some file -> bits_text file vs -> (forall n, ~ width vs n) -> run "f2_mat_ch_pol" [:: f] = ([::], Status 1).
Proof.
move=> hf [t1 [off1 [t2 [off2 [u [rest [e h1 h2 h3 h4]]]]]]] hw.
have [st [e' h]] := H C91_matrix_ragged t1 off1 t2 vs off2 u rest h1 h2 h3 h4 hw; rewrite -e in e'.
exact: load_fail hf e' h.
Qed.
Theorem C107_no_rows f t1 off1 l : named f = Some (t1 ++ l)%list -> blanks_text 0 t1 off1 -> one_line l -> (off1 + List.length l < tmx_buf_size)%coq_nat ->
  run "f2_mat_ch_pol" [:: f] = ([::], Status 1).
Proof.
move=> hf h1 h2 h3.
have [st [e h]] := @C91_matrix_none _ bit_ops bit_getz false uword uword_sp (mkmat [:: [:: false]] 1) false nil nil erefl (bit_sub_self false) t1 off1 l h1 h2 h3.
exact: load_fail hf e h.
Qed.

(* ---- f2_mat_random ---- *)
(* the lowest bit of the k-th random word *)
Definition rbit (k : nat) : bool := Z.odd (fst (draw (iter k (next draw) s0))).
Lemma word32 s : get_random_uint32 draw s = ((fst (draw s) mod 2 ^ 32)%coqZ, next draw s).
Proof. by rewrite /get_random_uint32 /get_random_int /next; case: (draw s) => w s' /=; rewrite to_int_u32. Qed.
Lemma bits_row n k : random_bits draw n (iter k (next draw) s0) = ([seq rbit j | j <- iota k n], iter (k + n) (next draw) s0).
Proof.
elim: n k => [|n IH] k; first by rewrite addn0.
by rewrite [random_bits _ _ _]/= word32 -iterS IH land1 odd32 addSnnS.
Qed.
Lemma bits_rows nr nc k : random_bit_rows draw nr nc (iter k (next draw) s0) =
  ([seq [seq rbit j | j <- iota (k + i * nc) nc] | i <- iota 0 nr], iter (k + nr * nc) (next draw) s0).
Proof.
elim: nr k => [|nr IH] k; first by rewrite addn0.
rewrite /= bits_row IH mulSn addnA; congr (_ :: _, _); first by rewrite mul0n addn0.
by rewrite -[1%N]addn0 iotaDl -map_comp; apply: eq_map => i /=; rewrite mulSn addnA.
Qed.
Lemma vec_bits l : vec_out bit_put l = unwords [seq (if b then txt "1" else txt "0") | b <- l].
Proof.
elim: l => [|v [|w l] IH] //; first by case: v.
by rewrite vec2 IH; case: v.
Qed.
(* a line for each row, the lowest bits of successive random words with one blank between them *)
Theorem C107_random s1 nr s2 nc : int_text s1 (Z.of_nat nr) -> int_text s2 (Z.of_nat nc) -> (0 < nr)%N -> (0 < nc)%N ->
  run "f2_mat_random" [:: s1; s2] = (lines_of (fun i => unwords [seq (if rbit (i * nc + j) then txt "1" else txt "0") | j <- iota 0 nc]) (iota 0 nr), Status 0).
Proof.
move=> h1 h2 hr hc; known "f2_mat_random" (f2_mat_random_main draw s0).
rewrite /f2_mat_random_main (arg_int_ok _ _ h1) pb_ret (arg_int_ok _ _ h2) pb_ret.
have -> : ((Z.of_nat nr <=? 0) || (Z.of_nat nc <=? 0))%coqZ = false by move: hr hc; clear; lia.
rewrite pb_ret !Nat2Z.id (@bits_rows nr nc 0) [fst _]/= pb_print /emit [fst _]/= [snd _]/= List.app_nil_r.
congr (_, _); rewrite /mat_out /lines_of; congr List.concat; rewrite !PropSpiff3.mapE [t_rows _]/= -map_comp; apply: eq_map => i /=.
by rewrite add0n -[X in iota X _]addn0 iotaDl -map_comp /line vec_bits -map_comp.
Qed.
(* a dimension below 1: nothing is printed, but the exit status is that of success *)
Theorem C107_random_refuted s1 nr s2 nc : int_text s1 nr -> int_text s2 nc -> (nr <= 0 \/ nc <= 0)%coqZ -> run "f2_mat_random" [:: s1; s2] = ([::], Status 0).
Proof.
move=> h1 h2 h; known "f2_mat_random" (f2_mat_random_main draw s0).
rewrite /f2_mat_random_main (arg_int_ok _ _ h1) pb_ret (arg_int_ok _ _ h2) pb_ret.
by have -> : ((nr <=? 0) || (nc <=? 0))%coqZ = true by move: h; clear; lia.
Qed.
End Run.

(* a matrix of order 3 (with numbers for bits), a singular one, an empty input, a source that counts *)
Definition ex_run (input : text) (name : string) (args : list string) := spiff (bit_handler (fun s : Z => (s, s + 3)%coqZ) 0%coqZ 9 input
  (fun f => if teq f "a" then Some (txt "1 1" ++ newline :: txt "1 0" ++ newline :: nil)%list else if teq f "b" then Some (txt "1 1" ++ newline :: txt "1" ++ newline :: nil)%list else None)
  (fun _ _ => usage)) id (fun s : Z => (s, s + 3)%coqZ) 0%coqZ (txt name :: List.map txt args).
Example C107_ex : [/\ ex_run (txt "# order 3" ++ newline :: txt "1 4294967295" ++ newline :: txt "7 2" ++ newline :: nil)%list "f2_mat_ord" [::] = (line (txt "3"), Status 0),
  ex_run (txt "1 1" ++ newline :: txt "1 1" ++ newline :: nil)%list "f2_mat_ord" [::] = (line (txt "0"), Status 0),
  ex_run (txt "# none") "f2_mat_ord" [::] = ([::], Undefined),
  List.map (fun f => ex_run (txt "0 1" ++ newline :: txt "1 0" ++ newline :: nil)%list "f2_mat_ch_pol" [:: f]) [:: "a"; "b"; "c"; "-"]%string =
    [:: (line (txt "7"), Status 0); ([::], Status 1); ([::], Status 1); (line (txt "5"), Status 0)] &
  ex_run nil "f2_mat_random" [:: "2"; "3"]%string = ((line (txt "0 1 0") ++ line (txt "1 0 1"))%list, Status 0)].
Proof. by split. Qed.

Print Assumptions C107_printed.
Print Assumptions C107_signed.
Print Assumptions C107_usage.
Print Assumptions C107_order_partial.
Print Assumptions C107_order_exists.
Print Assumptions C107_singular.
Print Assumptions C107_rectangular_refuted.
Print Assumptions C107_ragged_refuted.
Print Assumptions C107_empty_refuted.
Print Assumptions C107_bad_line_refuted.
Print Assumptions C107_char_poly.
Print Assumptions C107_ch_rectangular_refuted.
Print Assumptions C107_no_file.
Print Assumptions C107_ragged.
Print Assumptions C107_no_rows.
Print Assumptions C107_random.
Print Assumptions C107_random_refuted.
