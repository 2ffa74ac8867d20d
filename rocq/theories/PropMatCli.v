(* Final theorems for the evaluators of vector and matrix expressions (spffl/cli_parser/cmd_line_vector_ops.h and
   cmd_line_matrix_ops.h). *)
From Verif Require Import Base MIntMath MIntmod MMat MMatCli PIntMath PIntMath2 PIntmod.
From mathcomp Require Import all_ssreflect fingroup perm all_algebra ssrZ zify.
From Verif Require PCli4.
From Verif Require Import PLin PLin2 PLin3 PMat PMat2 PMat3 PFp PropMat PMatCli PMatCli2 PMatCli3 PMatCli4 PMatCli5 PMatCli6 PMatCli7 PMatCli8 PMatCli9 PMatCli10.
Set Implicit Arguments.
Unset Strict Implicit.
Unset Printing Implicit Defensive.
Import GRing.Theory.
Delimit Scope Z_scope with coqZ.
Local Open Scope ring_scope.

(* ---- what is accepted ---- *)
(* The grammar der (PMatCli.v) does not refer to the parser. *)
Section Accept.
Context (A : Type) (o : cops A) (x_exp : A -> Z -> res A) (dflt zero one : A).
Context (get : list ascii -> res (option (A * list ascii * bool))) (load : string -> res (option (tmat A))) (int : string -> option Z).
Theorem C90_vector_accepts w out : cmd_line_vec_parse o x_exp get int w = (out, Ok tt) ->
  w = [::] /\ out = [::] \/ exists e, der vspells cQ w e.
Proof. exact: (@cmd_sound _ _ _ (vec_mach o x_exp get int) vspells vspP). Qed.
Theorem C90_matrix_accepts w out : cmd_line_mat_parse o dflt zero one get load int w = (out, Ok tt) ->
  w = [::] /\ out = [::] \/ exists e, der mspells cQ w e.
Proof. exact: (@cmd_sound _ _ _ (mat_mach o dflt zero one get load int) mspells mspP). Qed.
(* no comparison: one vector is printed, and all operands have its length *)
Theorem C90_vector_lengths w e out : der vspells cE w e -> cmd_line_vec_parse o x_exp get int w = (out, Ok tt) ->
  exists v, out = [:: VA v None] /\ forall s, List.In s (vlits e) -> exists u, vlit get s = Ok u /\ size u = size v.
Proof. by move=> d /(vec_plain_inv d)[v [-> _ h]]; exists v. Qed.
(* comparisons: only one, and the left side is not shorter than the right one unless it has no binary operator *)
Theorem C90_vector_comparisons w t e f out : der vspells cQ w (ABin t e f) -> t = L_EQ \/ t = L_NE ->
  cmd_line_vec_parse o x_exp get int w = (out, Ok tt) ->
  plain e /\ exists n1 n2, [/\ uni get n1 e, uni get n2 f & compound e -> (n2 <= n1)%N].
Proof.
move=> d ht hp; have [[hn _]|[t' [a1 [a2 [[<- <- <-] h1 h2 h3]]]]] := der_cmp int d; first by case: ht hn => -> [|[]].
exact: (vec_cmp_inv d ht h2 hp h3).
Qed.
End Accept.

(* ---- vectors modulo m ---- *)
Section Zm.
Variables (m : nat) (hist : list intmod).
Hypotheses (m2 : (1 < m)%N) (mM : Z.le (Z.of_nat m) 46341) (hh : forall b, List.In b hist -> (1 <= modulus b <= INT_MAX)%coqZ).
Local Notation M := (Z.of_nat m).
Local Notation run := (im_vec_parse (cache_after hist) M).
Local Notation show v := (VA (map (@PCli4.zm_el m) v) None).
(* the operands of an expression: vectors of n elements *)
Definition operands (L : string -> seq 'Z_m) (n : nat) (e : ast) : Prop :=
  forall s, List.In s (vlits e) -> vlit (im_get M) s = Ok (map (@PCli4.zm_el m) (L s)) /\ size (L s) = n.
Lemma operands_uni L n e : operands L n e -> uni (im_get M) n e.
Proof. by move=> h s v /h[-> <-] [<-]; rewrite lengthE size_map. Qed.
(* the components of the value are the values of the components *)
Theorem C90_vector_value L n w e : (0 < n)%N -> der vspells cE w e -> operands L n e -> exps_ok scan_int e ->
  run w = match oall [seq rval scan_int (fun s => Some (L s)`_i) e | i <- iota 0 n] with
          | Some v => ([:: show v], Ok tt)
          | None => ([::], Exn)
          end.
Proof.
move=> n0 d hl he; rewrite /im_vec_parse (vec_plain_ok _ _ _ d (operands_uni hl)).
rewrite (vval_ring (im_vspec m2 mM (cache_after_valid _ hh)) n0 (der_plain scan_int d _) hl he) //.
by rewrite /vals /val_at; case: (oall _).
Qed.
(* one comparison, of vectors of any lengths; if the left side is a compound of shorter vectors, a buffer is overrun *)
Theorem C90_vector_comparison L L' n n' w t e f : (0 < n)%N -> (0 < n')%N -> der vspells cQ w (ABin t e f) -> t = L_EQ \/ t = L_NE ->
  plain e -> operands L n e -> exps_ok scan_int e -> operands L' n' f -> exps_ok scan_int f ->
  run w = match oall [seq rval scan_int (fun s => Some (L s)`_i) e | i <- iota 0 n] with
          | None => ([::], Exn)
          | Some u =>
              if compound e && (n < n')%N then ([::], UB) else
              match oall [seq rval scan_int (fun s => Some (L' s)`_i) f | i <- iota 0 n'] with
              | None => ([::], Exn)
              | Some v => ([:: VA [::] (Some (Z.b2z (if t is L_EQ then u == v else u != v)))], Ok tt)
              end
          end.
Proof.
move=> n0 n0' d ht pe hl he hl' he'.
have pf : plain f by have [[hn _]|[t' [a1 [a2 [[_ _ ->]]]]]] := der_cmp scan_int d; first by case: ht hn => -> [|[]].
have sp := im_vspec m2 mM (cache_after_valid _ hh).
rewrite /im_vec_parse (vec_cmp_ok _ _ _ d ht (operands_uni hl) (operands_uni hl') pe pf).
rewrite (vval_ring sp n0 pe hl he) (vval_ring sp n0' pf hl' he') /vals /val_at.
case: (oall _) => [u|] //=; rewrite (hl' _ (first_in f)).1.
case: ifP => // _; case: (oall _) => [v|] //=; rewrite /vcmp (vec_eqb_ring sp) /=.
by case: ht => ->; case: (u == v).
Qed.
(* the operands as texts *)
Theorem C90_vector_text s zs : vec_text s zs -> vlit (im_get M) s = Ok (map (@PCli4.zm_el m) [seq (int_of_Z z)%:~R | z <- zs]).
Proof. by apply: vec_lit_zm => //; rewrite /INT_MAX; move: mM; clear; lia. Qed.
(* a blank in front of the closing bracket, or nothing between the brackets: no vector *)
Theorem C90_vector_trailing_blank s t zs b b' : list_ascii_of_string s = "["%char :: (t ++ b) ++ "]"%char :: b' ->
  row numeral t zs -> blanks b -> b <> [::] -> blanks b' -> vlit (im_get M) s = Exn.
Proof.
have hM : (1 <= M <= INT_MAX)%coqZ by rewrite /INT_MAX; move: m2 mM; clear; lia.
move=> e hr hb nb hb'; rewrite /vlit /vec_scan e lb_strchr.
by rewrite (vec_in_trail _ _ (im_reads M hM) _ _ _ _ (row_map M hr) hb nb hb').
Qed.
Theorem C90_vector_empty s b b' : list_ascii_of_string s = "["%char :: b ++ "]"%char :: b' -> blanks b -> blanks b' ->
  vlit (im_get M) s = Exn.
Proof.
have hM : (1 <= M <= INT_MAX)%coqZ by rewrite /INT_MAX; move: m2 mM; clear; lia.
move=> e hb hb'; rewrite /vlit /vec_scan e lb_strchr.
by rewrite (vec_in_empty _ _ (im_reads M hM) _ _ hb hb').
Qed.
End Zm.

(* ---- matrices over a field ---- *)
(* den: the values of an expression (PMatCli7.v), in terms of the matrices of the library *)
Theorem C90_matrix_value A (o : cops A) (F : fieldType) V I dflt zero one get load int W L w e :
  cspec o V (I : A -> F) -> elem_is V I zero 0 -> elem_is V I one 1 -> lit_ok V I get load int W L ->
  der mspells cQ w e -> (forall s, List.In s w -> W s) ->
  let r := cmd_line_mat_parse o dflt zero one get load int w in
  (exists x v, [/\ r = ([:: x], Ok tt), den int L false e v & atom_is V I x v]) \/
  (r = ([::], Exn) /\ (det_ast e -> forall v, ~ den int L false e v)).
Proof. by move=> sp hz ho hL d hw r; exact: (mat_cmd sp dflt hz ho hL d hw). Qed.
Theorem C90_matrix_total A (o : cops A) (F : fieldType) V I dflt zero one get load int W L w :
  cspec o V (I : A -> F) -> elem_is V I zero 0 -> elem_is V I one 1 -> lit_ok V I get load int W L ->
  (forall s, List.In s w -> W s) ->
  let r := cmd_line_mat_parse o dflt zero one get load int w in
  (r.2 = Ok tt \/ r.2 = Exn) /\ forall x, List.In x r.1 -> exists v, atom_is V I x v.
Proof. by move=> sp hz ho hL hw r; exact: (mat_total sp dflt hz ho hL hw). Qed.
(* one value, without kerbas, rr and rrnz *)
Theorem C90_matrix_unique (F : fieldType) int (L : string -> option (mval F)) pw e v v' :
  det_ast e -> den int L pw e v -> den int L pw e v' -> v = v'.
Proof. exact: den_fun. Qed.
(* reduced row echelon forms are unique *)
Theorem C90_reduced_unique (F : fieldType) m n (b b' : 'M[F]_(m, n)) : is_rref b -> is_rref b' -> (b :=: b')%MS -> b = b'.
Proof. exact: rref_uniq. Qed.

(* ---- matrices modulo a prime ---- *)
Section Fp.
Variables (p : nat) (hist : list intmod) (load : string -> res (option (tmat intmod))).
Hypotheses (pp : prime p) (pM : Z.le (Z.of_nat p) 46341) (hh : forall b, List.In b hist -> (1 <= modulus b <= INT_MAX)%coqZ).
Hypothesis hf : files_ok p load.
Local Notation run := (im_mat_parse (cache_after hist) (Z.of_nat p) load).
Theorem C90_matrix_fp w e : der mspells cQ w e -> (forall s, List.In s w -> word_ok s) -> det_ast e ->
  (exists v, den scan_int (im_lit p load) false e v /\ run w = ([:: im_atom v], Ok tt)) \/
  (run w = ([::], Exn) /\ forall v, ~ den scan_int (im_lit p load) false e v).
Proof.
move=> d hw de.
have [] := @C90_matrix_value _ _ _ _ _ (mkim (-1) 0) _ _ _ _ _ _ _ _ _ (im_cspec pp (cache_after_valid _ hh) pM) (zero_is pp) (one_is pp) (im_lit_ok pp pM hf) d hw.
  by case=> x [v [h1 h2 h3]]; left; exists v; rewrite -(atom_enc pp h3).
by case=> h1 h2; right; split=> //; exact: h2.
Qed.
(* also with kerbas, rr, rrnz, which have several possible results *)
Theorem C90_matrix_fp_any w e : der mspells cQ w e -> (forall s, List.In s w -> word_ok s) ->
  (exists v, den scan_int (im_lit p load) false e v /\ run w = ([:: im_atom v], Ok tt)) \/ run w = ([::], Exn).
Proof.
move=> d hw.
have [] := @C90_matrix_value _ _ _ _ _ (mkim (-1) 0) _ _ _ _ _ _ _ _ _ (im_cspec pp (cache_after_valid _ hh) pM) (zero_is pp) (one_is pp) (im_lit_ok pp pM hf) d hw.
  by case=> x [v [h1 h2 h3]]; left; exists v; rewrite -(atom_enc pp h3).
by case=> h1 h2; right.
Qed.
Theorem C90_matrix_fp_total w : (forall s, List.In s w -> word_ok s) ->
  ((run w).2 = Ok tt \/ (run w).2 = Exn) /\ forall x, List.In x (run w).1 -> exists v : mval [fieldType of 'F_p], x = im_atom v.
Proof.
move=> hw.
have [h1 h2] := @C90_matrix_total _ _ _ _ _ (mkim (-1) 0) _ _ _ _ _ _ _ _ (im_cspec pp (cache_after_valid _ hh) pM) (zero_is pp) (one_is pp) (im_lit_ok pp pM hf) hw.
by split=> // x /h2[v hv]; exists v; exact: (atom_enc pp hv).
Qed.
(* the operands as texts *)
Theorem C90_matrix_text s ls n : mat_text s ls -> width ls n ->
  im_lit p load s = Some (WM (\matrix_(i < size ls, j < n) ((int_of_Z (nth 0%coqZ (nth [::] ls i) j))%:~R : 'F_p))).
Proof. exact: lit_mat. Qed.
Theorem C90_matrix_ragged s ls : mat_text s ls -> (forall n, ~ width ls n) -> im_lit p load s = None.
Proof.
move=> ht hw; rewrite /im_lit (mat_lit_ragged _ load ht hw) //.
by have := prime_gt1 pp; rewrite /INT_MAX; move: pM; clear; lia.
Qed.
Theorem C90_column_text s zs : col_text s zs ->
  im_lit p load s = Some (WM (\col_(i < size zs) ((int_of_Z (nth 0%coqZ zs i))%:~R : 'F_p))).
Proof. exact: lit_col. Qed.
End Fp.

(* ---- where the evaluators go wrong ---- *)
Definition no_file (s : string) : res (option (tmat intmod)) := Ok None.
(* comparing a product of vectors with a longer vector writes past a buffer *)
Theorem C90_overrun_refuted : exists w e, der vspells cQ w e /\ im_vec_parse (cache_after [::]) 7 w = ([::], UB).
Proof.
exists ["[1]"; "*"; "[1]"; "=="; "[1 2]"]%string, (ABin L_EQ (ABin L_MUL (ANum "[1]") (ANum "[1]")) (ANum "[1 2]")); split; last by vm_compute.
have nn s : (forall t, ~ vspells s t) -> der vspells cF [s] (ANum s) by move=> h; apply: d_fac; apply: d_base; apply: d_num.
have n1 : forall t, ~ vspells "[1]"%string t by move=> t; rewrite /vspells /=; intuition congruence.
have n2 : forall t, ~ vspells "[1 2]"%string t by move=> t; rewrite /vspells /=; intuition congruence.
apply: (@d_bin _ cQ ["[1]"; "*"; "[1]"]%string "=="%string L_EQ ["[1 2]"]%string); [by left| |by rewrite /vspells /=; tauto| ].
  apply: d_up; [by do 2 right|apply: d_up; [by right; left|]].
  by apply: (@d_bin _ cT ["[1]"]%string "*"%string L_MUL ["[1]"]%string); [|apply: d_up; [by left|exact: nn]|by rewrite /vspells /=; tauto|exact: nn].
by apply: d_up; [by right; left|apply: d_up; [by left|exact: nn]].
Qed.
(* an entry with a minus sign gives a residue below zero, so that equal matrices differ *)
Theorem C90_negative_entry_refuted : exists w, w = ["[[-1]]"; "=="; "[[6]]"]%string /\
  im_mat_parse (cache_after [::]) 7 no_file w = ([:: MI 0], Ok tt).
Proof. by eexists; split; [reflexivity|vm_compute]. Qed.
(* the exponent -2147483648 is negated *)
Theorem C90_min_exponent_refuted : exists w, w = ["[[3]]"; "^"; "-2147483648"]%string /\
  im_mat_parse (cache_after [::]) 7 no_file w = ([::], UB).
Proof. by eexists; split; [reflexivity|vm_compute]. Qed.

(* ---- examples ---- *)
Ltac nosp := move=> t; rewrite /vspells /mspells /=; intuition congruence.
(* [1 2] * [3 4] + [1 1] modulo 7: the hypotheses of C90_vector_value, and the value *)
Definition L0 (s : string) : seq 'Z_7 :=
  if (s =? "[1 2]")%string then [:: 1; 2%:R] else if (s =? "[3 4]")%string then [:: 3%:R; 4%:R] else [:: 1; 1].
Example C90_ex : let w := ["[1 2]"; "*"; "[3 4]"; "+"; "[1 1]"]%string in
  exists e, [/\ der vspells cE w e, operands L0 2 e, exps_ok scan_int e &
    im_vec_parse (cache_after [::]) 7 w = ([:: VA [:: mkim 4 7; mkim 2 7] None], Ok tt)].
Proof.
have nn s : (forall t, ~ vspells s t) -> der vspells cF [:: s] (ANum s) by move=> h; apply: d_fac; apply: d_base; apply: d_num.
exists (ABin L_PLUS (ABin L_MUL (ANum "[1 2]") (ANum "[3 4]")) (ANum "[1 1]")); split.
- apply: (@d_bin _ cE ["[1 2]"; "*"; "[3 4]"]%string "+"%string L_PLUS ["[1 1]"]%string); [by left| |by rewrite /vspells /=; tauto| ].
    apply: d_up; first by right; left.
    by apply: (@d_bin _ cT ["[1 2]"]%string "*"%string L_MUL ["[3 4]"]%string); [|apply: d_up; [by left|apply: nn; nosp]|by rewrite /vspells /=; tauto|apply: nn; nosp].
  by apply: d_up; [by left|apply: nn; nosp].
- by move=> s /= [<-|[<-|[<-|[]]]]; split; vm_compute.
- by move=> f [].
by vm_compute.
Qed.
(* the matrix evaluator modulo 7: solving a system, reduced echelon form, rank *)
Example C90_ex2 : let run := im_mat_parse (cache_after [::]) 7 no_file in
  [/\ run ["inv"; "[[1 2] [3 4]]"; "*"; "[1 0]"]%string = ([:: MM (mkmat [:: [:: mkim 5 7]; [:: mkim 5 7]] 1)], Ok tt),
      run ["rech"; "[[2 4] [1 2]]"]%string = ([:: MM (mkmat [:: [:: mkim 1 7; mkim 2 7]; [:: mkim 0 7; mkim 0 7]] 2)], Ok tt),
      run ["rank"; "[[2 4] [1 2]]"]%string = ([:: MI 1], Ok tt),
      run ["inv"; "[[2 4] [1 2]]"]%string = ([::], Exn) &
      run ["[[1 2]]"; "+"; "[[1] [2]]"]%string = ([::], Exn)].
Proof. by split; vm_compute. Qed.
(* the hypotheses of C90_matrix_fp *)
Example C90_ex3 : let w := ["inv"; "[[1 2] [3 4]]"]%string in
  [/\ files_ok 7 no_file, (forall s, List.In s w -> word_ok s), der mspells cQ w (AUn L_INV (ANum "[[1 2] [3 4]]")),
      mat_text "[[1 2] [3 4]]" [:: [:: 1; 2]; [:: 3; 4]]%coqZ & width [:: [:: 1; 2]; [:: 3; 4]]%coqZ 2].
Proof.
have nm a : digit a -> numeral [:: a] (Z.of_nat (nat_of_ascii a) - 48)%coqZ.
  by move=> h; split=> //; split; [constructor|split=> //; move: h; rewrite /digit /INT_MAX; lia].
have rw a b z z' : digit a -> digit b -> z = (Z.of_nat (nat_of_ascii a) - 48)%coqZ -> z' = (Z.of_nat (nat_of_ascii b) - 48)%coqZ ->
    row numeral [:: a; " "%char; b] [:: z; z'].
  move=> ha hb -> ->; apply: (@row_cons _ numeral [::] [:: a] _ " "%char [:: b]); [by constructor|exact: nm|by left|].
  by apply: (@row_one _ numeral [:: " "%char] [:: b]); [constructor=> //; left|exact: nm].
split.
- by [].
- move=> s /= [<-|[<-|[]]]; split=> //=; try by rewrite /INT_MAX; lia.
  + by intuition congruence.
  + by intuition congruence.
- do 3! (apply: d_up; first by rewrite /is_bin; tauto).
  by apply: (@d_un _ "inv"%string L_INV); [rewrite /mspells /=; tauto|rewrite /prefix_op /=; tauto|apply: d_base; apply: d_num; nosp].
- exists (list_ascii_of_string "[1 2] [3 4]"), [::]; split=> //.
  apply: (@mr_cons _ numeral (list_ascii_of_string "1 2") _ [:: " "%char] (list_ascii_of_string "[3 4]")).
  + by apply: rw => //; split; apply/leP.
  + by constructor=> //; left.
  apply: (@mr_one _ numeral (list_ascii_of_string "3 4") _ [::]); last by constructor.
  by apply: rw => //; split; apply/leP.
by move=> r /= [<-|[<-|[]]].
Qed.

Print Assumptions C90_vector_accepts. Print Assumptions C90_matrix_accepts. Print Assumptions C90_vector_lengths.
Print Assumptions C90_vector_comparisons. Print Assumptions C90_vector_value. Print Assumptions C90_vector_comparison.
Print Assumptions C90_vector_text. Print Assumptions C90_vector_trailing_blank. Print Assumptions C90_vector_empty.
Print Assumptions C90_matrix_value. Print Assumptions C90_matrix_total. Print Assumptions C90_matrix_unique. Print Assumptions C90_reduced_unique.
Print Assumptions C90_matrix_fp. Print Assumptions C90_matrix_fp_any. Print Assumptions C90_matrix_fp_total.
Print Assumptions C90_matrix_text. Print Assumptions C90_matrix_ragged. Print Assumptions C90_column_text.
Print Assumptions C90_overrun_refuted. Print Assumptions C90_negative_entry_refuted. Print Assumptions C90_min_exponent_refuted.
