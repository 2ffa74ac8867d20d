(* Final theorems for the commands fp_mat_ch_pol and fp_mat_random of cli/spiff (C106). *)
From Verif Require Import Base MIntMath MFac MIntmod MMat MMatCli MPoly MLinalg MTextIO MPolyText MRandom MSpiff MSpiff2 MSpiff7 MUnits.
From Verif Require Import PIntMath PIntmod PMatCli5 PTextIO PTextIO2 PTextIO3 PropTextIO PSpiff PSpiff2 PSpiff3 PSpiff7 PPolyText.
From Coq Require Import Ascii String.
From mathcomp Require Import all_ssreflect all_algebra finfield ssrZ zify.
From Verif Require Import PMat PFp PropFpPoly PLinalg2 PropLinalg PMatCli8 PMatCli9 PRandom PropRandom PropSpiff11.
From Verif Require PropSpiff PropSpiff4.
Set Implicit Arguments.
Unset Strict Implicit.
Unset Printing Implicit Defensive.
Import GRing.Theory.
Delimit Scope Z_scope with coqZ.
Local Open Scope ring_scope.
Local Notation In := List.In.

Section Run.
Context (c : cache) (qs : list (intmod * Z) -> list (intmod * Z)) (St : Type) (draw : St -> Z * St) (s0 : St) (other : string -> list text -> prog Z).
Context (input : text) (files : text -> option text).
Local Notation run name args := (spiff (mat_handler c draw s0 input files other) qs draw s0 (txt name :: args)).
Ltac known n h := rewrite (@PropSpiff.run_eq _ qs St draw s0 n _ h erefl erefl erefl).

(* ---- fp_mat_ch_pol ---- *)
(* the file that an argument names: standard input for - and @ *)
Definition named (f : text) : option text := if (teq f "-" || teq f "@")%bool then Some input else files f.
Theorem C106_usage s1 s2 s3 s4 l : [/\ List.Forall (fun a => run "fp_mat_ch_pol" a = ([::], Status 1)) [:: [::]; [:: s1]; s1 :: s2 :: s3 :: l],
  no_number s1 -> run "fp_mat_ch_pol" [:: s1; s2] = ([::], Status 1),
  List.Forall (fun a => run "fp_mat_random" a = ([::], Status 1)) [:: [::]; [:: s1]; [:: s1; s2]; s1 :: s2 :: s3 :: s4 :: l] &
  forall v w, [/\ no_number s1 -> run "fp_mat_random" [:: s1; s2; s3] = ([::], Status 1),
    int_text s1 v -> no_number s2 -> run "fp_mat_random" [:: s1; s2; s3] = ([::], Status 1) &
    int_text s1 v -> int_text s2 w -> no_number s3 -> run "fp_mat_random" [:: s1; s2; s3] = ([::], Status 1)]].
Proof.
split=> [|h||v w]; [by repeat constructor| |by repeat constructor|split=> [h|h1 h|h1 h2 h]].
- by known "fp_mat_ch_pol" (fp_mat_ch_pol_main c input files); rewrite /fp_mat_ch_pol_main (arg_int_none _ h).
- by known "fp_mat_random" (fp_mat_random_main draw s0); rewrite /fp_mat_random_main (arg_int_none _ h).
- by known "fp_mat_random" (fp_mat_random_main draw s0); rewrite /fp_mat_random_main (arg_int_ok _ _ h1) pb_ret (arg_int_none _ h).
by known "fp_mat_random" (fp_mat_random_main draw s0); rewrite /fp_mat_random_main (arg_int_ok _ _ h1) pb_ret (arg_int_ok _ _ h2) pb_ret (arg_int_none _ h).
Qed.
(* a modulus that is not positive: nothing is printed, but the exit status is that of success *)
Theorem C106_bad_modulus_refuted s f m : int_text s m -> (m <= 0)%coqZ -> run "fp_mat_ch_pol" [:: s; f] = ([::], Status 0).
Proof.
by move=> hs h; known "fp_mat_ch_pol" (fp_mat_ch_pol_main c input files); rewrite /fp_mat_ch_pol_main (arg_int_ok _ _ hs) pb_ret (im_make_reject _ _ h).
Qed.

Section Prime.
Variables (p : nat) (s : text).
Hypotheses (pp : prime p) (hP : (Z.of_nat p <= 46341)%coqZ) (hc : cache_valid c) (hs : int_text s (Z.of_nat p)).
Local Notation P := (Z.of_nat p).
Lemma ch_main f : fp_mat_ch_pol_main c input files [:: s; f] = match named f with
  | None => usage
  | Some file => r <~ call (mat_load (im_cops c) im_getz (mkim 0 P) file) ;~
      match r with None => usage | Some a => f <~ call (fp_char_poly c a) ;~ show_fp f ;~~ MSpiff.nl ;~~ ret 0%coqZ end
  end.
Proof.
rewrite /fp_mat_ch_pol_main (arg_int_ok _ _ hs) pb_ret; have p1 := prime_gt1 pp.
have hI : (1 <= P <= INT_MAX)%coqZ by move: hP p1; clear; rewrite /INT_MAX; lia.
by rewrite im_make_ok // !pb_ok Z.mod_0_l //; move: p1; clear; lia.
Qed.
Lemma zv : im_valid P (mkim 0 P). Proof. by case: (@zero_is p pp). Qed.
Local Notation H T := (T (im_cops c) im_getz (mkim 0 P) (mword P) (im_zz c P (hM pp hP)) (im_rd P (hM pp hP)) (mword_sp P) (mkmat [:: [:: mkim 0 P]] 1)
  (mkim 0 P) nil nil erefl (im_sub_self c P (hM pp hP) _ zv)).
Lemma load_ok file vs n : mat_text p file vs -> width vs n -> mat_load (im_cops c) im_getz (mkim 0 P) file = Ok (Some (mkmat vs n)).
Proof.
move=> [t1 [off1 [t2 [off2 [u [rest [-> h1 h2 h3 h4]]]]]]] hw; rewrite /mat_load.
by have [-> h] := H C91_matrix_read t1 off1 t2 vs off2 u rest n h1 h2 h3 h4 hw; rewrite bind_ok h.
Qed.
Lemma enc_width m n (a : 'M['F_p]_(m, n)) : width (t_rows (mx_enc (@fp_el p) a)) n.
Proof. by move=> r /List.in_map_iff[i [<- _]]; rewrite lengthE size_map size_enum_ord. Qed.
(* the characteristic polynomial of the matrix in the file *)
Theorem C106_char_poly f file n (a : 'M['F_p]_n.+1) : named f = Some file -> mat_text p file (t_rows (mx_enc (@fp_el p) a)) ->
  run "fp_mat_ch_pol" [:: s; f] = (line (PropSpiff4.fp_tx (char_poly a)), Status 0).
Proof.
move=> hf ht; known "fp_mat_ch_pol" (fp_mat_ch_pol_main c input files); rewrite ch_main hf (load_ok ht (@enc_width _ _ a)) pb_ok.
by rewrite (C49_fp_char_poly pp hP hc a) pb_ok (PropSpiff4.Hshw pp draw s0) !pb_print.
Qed.
(* a matrix that is not square: nothing is printed, but the exit status is that of success *)
Theorem C106_rectangular_refuted f file m n (a : 'M['F_p]_(m, n)) : named f = Some file -> mat_text p file (t_rows (mx_enc (@fp_el p) a)) -> m <> n ->
  run "fp_mat_ch_pol" [:: s; f] = ([::], Status 0).
Proof.
move=> hf ht hn; known "fp_mat_ch_pol" (fp_mat_ch_pol_main c input files); rewrite ch_main hf (load_ok ht (@enc_width _ _ a)) pb_ok.
by rewrite (C49_fp_nonsquare c a hn).
Qed.
(* no such file; rows of different lengths; a line that is not a row; no rows *)
Theorem C106_no_file f : named f = None -> run "fp_mat_ch_pol" [:: s; f] = ([::], Status 1).
Proof. by move=> hf; known "fp_mat_ch_pol" (fp_mat_ch_pol_main c input files); rewrite ch_main hf. Qed.
Lemma load_fail f file st : named f = Some file -> mat_in_stream (im_cops c) im_getz (mkmat [:: [:: mkim 0 P]] 1) (open_text file) = Ok (None, st) ->
  failed st = true -> run "fp_mat_ch_pol" [:: s; f] = ([::], Status 1).
Proof. by move=> hf e h; known "fp_mat_ch_pol" (fp_mat_ch_pol_main c input files); rewrite ch_main hf /mat_load e bind_ok h. Qed.
Theorem C106_ragged f file vs : named f = Some file -> mat_text p file vs -> (forall n, ~ width vs n) -> run "fp_mat_ch_pol" [:: s; f] = ([::], Status 1).
Proof.
move=> hf [t1 [off1 [t2 [off2 [u [rest [e h1 h2 h3 h4]]]]]]] hw.
have [st [e' h]] := H C91_matrix_ragged t1 off1 t2 vs off2 u rest h1 h2 h3 h4 hw; rewrite -e in e'.
exact: load_fail hf e' h.
Qed.
Theorem C106_no_rows f t1 off1 l : named f = Some (t1 ++ l)%list -> blanks_text 0 t1 off1 -> one_line l -> (off1 + List.length l < tmx_buf_size)%coq_nat ->
  run "fp_mat_ch_pol" [:: s; f] = ([::], Status 1).
Proof.
move=> hf h1 h2 h3.
have [st [e h]] := @C91_matrix_none _ (im_cops c) im_getz (mkim 0 P) (mword P) (mword_sp P) (mkmat [:: [:: mkim 0 P]] 1)
  (mkim 0 P) nil nil erefl (im_sub_self c P (hM pp hP) _ zv) t1 off1 l h1 h2 h3.
exact: load_fail hf e h.
Qed.
End Prime.

(* ---- fp_mat_random ---- *)
(* the residue of the k-th random word *)
Definition rnd (m : Z) (k : nat) : Z := (to_int (word draw (iter k (next draw) s0)) mod m)%coqZ.
Lemma row_ok m n k : (2 <= m <= INT_MAX)%coqZ -> random_row draw m n (iter k (next draw) s0) =
  Ok ([seq mkim (rnd m j) m | j <- iota k n], iter (k + n) (next draw) s0).
Proof.
move=> hm; elim: n k => [|n IH] k; first by rewrite addn0.
by rewrite /= (C84_intmod draw _ hm) bind_ok -iterS IH bind_ok addSnnS.
Qed.
Lemma rows_ok m nr nc k : (2 <= m <= INT_MAX)%coqZ -> random_rows draw m nr nc (iter k (next draw) s0) =
  Ok ([seq [seq mkim (rnd m j) m | j <- iota (k + i * nc) nc] | i <- iota 0 nr], iter (k + nr * nc) (next draw) s0).
Proof.
move=> hm; elim: nr k => [|nr IH] k; first by rewrite addn0.
rewrite /= (row_ok _ _ hm) bind_ok IH bind_ok mulSn addnA; congr (Ok (_ :: _, _)); first by rewrite mul0n addn0.
by rewrite -[1%N]addn0 iotaDl -map_comp; apply: eq_map => i /=; rewrite mulSn addnA.
Qed.
Lemma vec_words (m : Z) l : vec_out im_put [seq mkim v m | v <- l] = unwords [seq put_int v | v <- l].
Proof. by elim: l => [|v [|w l] IH] //; rewrite [vec_out _ _]/= -/(vec_out _ _) -[X in (_ :: X)%SEQ]/(vec_out im_put [seq mkim v m | v <- w :: l]) IH. Qed.
(* a line for each row, the residues of successive random words with one blank between them *)
Theorem C106_random s1 m s2 nr s3 nc : int_text s1 m -> int_text s2 (Z.of_nat nr) -> int_text s3 (Z.of_nat nc) -> (2 <= m)%coqZ -> (0 < nr)%N -> (0 < nc)%N ->
  run "fp_mat_random" [:: s1; s2; s3] = (lines_of (fun i => unwords [seq put_int (rnd m (i * nc + j)) | j <- iota 0 nc]) (iota 0 nr), Status 0).
Proof.
move=> h1 h2 h3 hm hr hc; known "fp_mat_random" (fp_mat_random_main draw s0).
rewrite /fp_mat_random_main (arg_int_ok _ _ h1) pb_ret (arg_int_ok _ _ h2) pb_ret (arg_int_ok _ _ h3) pb_ret.
have -> : ((Z.of_nat nr <=? 0) || (Z.of_nat nc <=? 0))%coqZ = false by move: hr hc; clear; lia.
have hM : (2 <= m <= INT_MAX)%coqZ by split=> //; case: h1 => [? [? [? [? [_ [_ [_ [_ [_ [_ [_ ]]]]]]]]]]].
rewrite pb_ret !Nat2Z.id (@rows_ok m nr nc 0 hM) pb_ok [fst _]/= pb_print /emit [fst _]/= [snd _]/= List.app_nil_r.
congr (_, _); rewrite /mat_out /lines_of; congr List.concat; rewrite !PropSpiff3.mapE [t_rows _]/= -map_comp; apply: eq_map => i /=.
rewrite add0n -[X in iota X _]addn0 iotaDl -map_comp /line; congr (_ ++ _)%list.
by rewrite (map_comp (fun v => mkim v m) (fun j => rnd m (i * nc + j))) vec_words -map_comp.
Qed.
(* a modulus below 2 or a dimension below 1: nothing is printed, but the exit status is that of success *)
Theorem C106_random_refuted s1 m s2 nr s3 nc : int_text s1 m -> int_text s2 nr -> int_text s3 nc -> (m < 2 \/ nr <= 0 \/ nc <= 0)%coqZ ->
  run "fp_mat_random" [:: s1; s2; s3] = ([::], Status 0).
Proof.
move=> h1 h2 h3 h; known "fp_mat_random" (fp_mat_random_main draw s0).
rewrite /fp_mat_random_main (arg_int_ok _ _ h1) pb_ret (arg_int_ok _ _ h2) pb_ret (arg_int_ok _ _ h3) pb_ret.
case e : (_ || _) => //; rewrite pb_ret.
have [hr [hc hm]] : (0 < nr /\ 0 < nc /\ m < 2)%coqZ by move: e h; clear; lia.
case er : (Z.to_nat nr) => [|k]; first by move: er hr; clear; lia.
case ec : (Z.to_nat nc) => [|l]; first by move: ec hc; clear; lia.
by rewrite /= (C84_intmod_small draw s0 hm).
Qed.
End Run.

(* a file with a square matrix modulo 5, standard input without rows, and a source that counts *)
Definition ex_run (name : string) (args : list string) := spiff (mat_handler cache_init (fun s : Z => (s, s + 3)%coqZ) 0%coqZ (txt "# no rows")
  (fun f => if teq f "a" then Some (txt "2 0" ++ newline :: txt "0 1" ++ newline :: nil)%list else if teq f "b" then Some (txt "1 2" ++ newline :: txt "3" ++ newline :: nil)%list else None)
  (fun _ _ => usage)) id (fun s : Z => (s, s + 3)%coqZ) 0%coqZ (txt name :: List.map txt args).
Example C106_ex : [/\ prime 5, int_text (txt "5") 5,
  List.map (fun f => ex_run "fp_mat_ch_pol" [:: "5"; f]) [:: "a"; "b"; "c"; "-"]%string =
    [:: (line (txt "122"), Status 0); ([::], Status 1); ([::], Status 1); ([::], Status 1)],
  ex_run "fp_mat_random" [:: "7"; "2"; "3"]%string = ((line (txt "0 3 6") ++ line (txt "2 5 1"))%list, Status 0) &
  ex_run "fp_mat_random" [:: "7"; "0"; "3"]%string = ([::], Status 0)].
Proof. by split=> //; apply: (@read_int_text _ _ [::]). Qed.

Print Assumptions C106_usage.
Print Assumptions C106_bad_modulus_refuted.
Print Assumptions C106_char_poly.
Print Assumptions C106_rectangular_refuted.
Print Assumptions C106_no_file.
Print Assumptions C106_ragged.
Print Assumptions C106_no_rows.
Print Assumptions C106_random.
Print Assumptions C106_random_refuted.
