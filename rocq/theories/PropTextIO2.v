(* Final theorems for matrices from files as operands of matrix expressions modulo a prime. *)
From Verif Require Import Base MIntMath MIntmod MMat MMatCli MBits MTextIO PIntMath PIntMath2 PIntmod.
From mathcomp Require Import all_ssreflect fingroup perm all_algebra ssrZ zify.
From Verif Require Import PLin PLin2 PLin3 PMat PMat2 PMat3 PFp PropMat PMatCli PMatCli2 PMatCli3 PMatCli4 PMatCli5 PMatCli6 PMatCli7 PMatCli8 PMatCli9 PMatCli10 PropMatCli.
From Verif Require Import PTextIO PTextIO2 PTextIO3 PTextIO6 PropTextIO.
Set Implicit Arguments.
Unset Strict Implicit.
Unset Printing Implicit Defensive.
Import GRing.Theory.
Delimit Scope Z_scope with coqZ.
Local Open Scope ring_scope.
Local Opaque tmx_buf_size tvec_buf_size bmx_buf_size.

(* the numbers of a text, reduced modulo m *)
Theorem C91_mod_read (c : cache) (m : Z) m0 x rs rr t zs n rest : (1 <= m <= MAXM)%coqZ ->
  t_rows m0 = (x :: rs) :: rr -> im_valid m x -> file_text t zs rest -> width zs n ->
  mat_in_stream (im_cops c) im_getz m0 (open_text t) = Ok (Some (mkmat [seq [seq mkim (Z.modulo z m) m | z <- r] | r <- zs] n), after rest).
Proof.
move=> hm h0 hx ht hw; rewrite (mod_read c hm h0 hx ht).
by rewrite (ragged_ok zs n) //; case: ht => [? [? [? [? [? []]]]]].
Qed.
Section Fp.
Variables (p : nat) (hist : list intmod) (fs : string -> option (seq ascii)).
Hypotheses (pp : prime p) (pM : Z.le (Z.of_nat p) 46341) (hh : forall b, List.In b hist -> (1 <= modulus b <= INT_MAX)%coqZ).
Local Notation P := (Z.of_nat p).
Local Notation load := (im_load (cache_after hist) P fs).
Local Notation run := (im_mat_parse (cache_after hist) P load).
(* a word without bracket is the name of a file: its value is the matrix of the numbers in the file *)
Theorem C91_file_operand s t zs n rest : ~ List.In "["%char (list_ascii_of_string s) -> fs s = Some t -> file_text t zs rest -> width zs n ->
  im_lit p load s = Some (WM (\matrix_(i < size zs, j < n) ((int_of_Z (nth 0%coqZ (nth [::] zs i) j))%:~R : 'F_p))).
Proof. exact: lit_file. Qed.
Theorem C91_file_ragged s t zs rest : ~ List.In "["%char (list_ascii_of_string s) -> fs s = Some t -> file_text t zs rest ->
  (forall n, ~ width zs n) -> im_lit p load s = None.
Proof. exact: lit_file_ragged. Qed.
Theorem C91_file_missing s : ~ List.In "["%char (list_ascii_of_string s) -> fs s = None -> im_lit p load s = None.
Proof. by move=> hb hs; rewrite /im_lit /mat_scan (strchr_none _ hb) /im_load hs. Qed.
(* files without minus signs, shorter than the buffer *)
Hypothesis hfs : forall s t, fs s = Some t -> ~ List.In "-"%char t /\ (List.length t < tmx_buf_size)%coq_nat.
Theorem C91_files_ok : files_ok p load.
Proof. exact: load_files_ok. Qed.
Theorem C91_file_expression w e : der mspells cQ w e -> (forall s, List.In s w -> word_ok s) -> det_ast e ->
  (exists v, den scan_int (im_lit p load) false e v /\ run w = ([:: im_atom v], Ok tt)) \/
  (run w = ([::], Exn) /\ forall v, ~ den scan_int (im_lit p load) false e v).
Proof. exact: (C90_matrix_fp pp pM hh C91_files_ok). Qed.
End Fp.

Definition one_file (s : string) : option (seq ascii) :=
  if (s =? "a")%string then Some (list_ascii_of_string ("1 2" ++ nl ++ "3 4" ++ nl)) else None.
Example C91_ex4 : let run := im_mat_parse (cache_after [::]) 7 (im_load (cache_after [::]) 7 one_file) in
  [/\ (forall s t, one_file s = Some t -> ~ List.In "-"%char t /\ (List.length t < tmx_buf_size)%coq_nat),
      run ["inv"; "a"; "*"; "[1 0]"]%string = ([:: MM (mkmat [:: [:: mkim 5 7]; [:: mkim 5 7]] 1)], Ok tt),
      run ["a"; "-"; "a"]%string = ([:: MM (mkmat [:: [:: mkim 0 7; mkim 0 7]; [:: mkim 0 7; mkim 0 7]] 2)], Ok tt) &
      run ["inv"; "b"]%string = ([::], Exn)].
Proof.
split; [|by vm_compute..].
move=> s t; rewrite /one_file; case: (s =? "a")%string => // -[<-]; split.
  by move=> /= h; repeat case: h => [h|h] //.
by apply/Nat.ltb_lt; vm_compute.
Qed.
(* the hypotheses of C91_file_operand *)
Example C91_ex5 : file_text (list_ascii_of_string ("1 2" ++ nl ++ "3 4" ++ nl)) [:: [:: 1; 2]; [:: 3; 4]]%coqZ [::] /\ width [:: [:: 1; 2]; [:: 3; 4]]%coqZ 2.
Proof.
have N4 : (20 < tmx_buf_size)%coq_nat by apply/Nat.ltb_lt; vm_compute.
have nm a : digit a -> numeral [:: a] (Z.of_nat (nat_of_ascii a) - 48)%coqZ.
  by move=> h; split=> //; split; [constructor|split=> //; move: h; rewrite /digit /INT_MAX; lia].
have rw a b z z' : digit a -> digit b -> z = (Z.of_nat (nat_of_ascii a) - 48)%coqZ -> z' = (Z.of_nat (nat_of_ascii b) - 48)%coqZ ->
    row_line numeral [:: a; " "%char; b] [:: z; z'] 0.
  move=> ha hb -> ->; have nd x y : digit x -> (nat_of_ascii y < 48)%coq_nat -> x <> y by move=> h1 h2 e; rewrite e in h1; case: h1; lia.
  have na y : (nat_of_ascii y < 48)%coq_nat -> y <> " "%char -> ~ List.In y [:: a; " "%char; b].
    by move=> h1 h2 /= [h|[h|[h|[]]]]; [exact: (nd a y)|exact: h2|exact: (nd b y)].
  split; first by apply: na => //; vm_compute; lia.
  exists [::], [:: a; " "%char; b], [::]; rewrite List.app_nil_r; split; first by split; [|split]; [by apply: na => //; vm_compute; lia..|left].
  do 2! (split; first by constructor); split; last by split=> //; exists a, [:: " "%char; b]; split=> // -[]; apply: nd => //; vm_compute; lia.
  apply: (@row_cons _ numeral [::] [:: a] _ " "%char [:: b]); [by constructor|exact: nm|by left|].
  by apply: (@row_one _ numeral [:: " "%char] [:: b]); [constructor=> //; left|exact: nm].
have dg a : (48 <=? nat_of_ascii a)%nat && (nat_of_ascii a <=? 57)%nat -> digit a by case/andP => /Nat.leb_le h1 /Nat.leb_le h2.
split; last by move=> r /= [<-|[<-|[]]].
exists [::], 0%N, (list_ascii_of_string ("1 2" ++ nl ++ "3 4" ++ nl)), 0%N, [::]; split=> //; first exact: bt_nil.
  apply: (@rt_cons _ numeral 0 (list_ascii_of_string "1 2") [:: 1; 2]%coqZ 0 (list_ascii_of_string ("3 4" ++ nl))); [by apply: rw; try exact: dg|by rewrite /=; lia|].
  by apply: (@rt_cons _ numeral 0 (list_ascii_of_string "3 4") [:: 3; 4]%coqZ 0 [::]); [by apply: rw; try exact: dg|by rewrite /=; lia|exact: rt_nil].
by apply: re_end => //=; lia.
Qed.

Print Assumptions C91_mod_read.
Print Assumptions C91_file_operand.
Print Assumptions C91_file_ragged.
Print Assumptions C91_file_missing.
Print Assumptions C91_files_ok.
Print Assumptions C91_file_expression.
