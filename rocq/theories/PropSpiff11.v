(* Final theorems for the command fp_mat_ord of cli/spiff (C105). *)
From Verif Require Import Base MIntMath MFac MIntmod MMat MMatCli MTextIO MRandom MSpiff MSpiff6.
From Verif Require Import PIntMath PIntmod PMatCli5 PTextIO PTextIO2 PTextIO3 PropTextIO PSpiff PSpiff2 PSpiff3 PSpiff7 PPolyText.
From Coq Require Import Ascii String.
From mathcomp Require Import all_ssreflect fingroup perm all_algebra finfield ssrZ zify.
From Verif Require Import PLin PMat PMat2 PMat3 PFp PropMat PMatCli6 PMatCli8 PMatCli9.
From Verif Require PropSpiff.
Set Implicit Arguments.
Unset Strict Implicit.
Unset Printing Implicit Defensive.
Import GRing.Theory.
Delimit Scope Z_scope with coqZ.
Local Open Scope ring_scope.
Local Notation Forall2 := List.Forall2.

(* ---- comparison, and the search for the order ---- *)
Section Gen.
Variables (A : Type) (o : cops A) (F : fieldType) (V : A -> Prop) (I : A -> F).
Hypothesis spec : cspec o V I.
Lemma vec_eq_ok u v r s : Rr V I u r -> Rr V I v s -> size r = size s -> tvec_eq o u v = Ok (r == s).
Proof.
move=> hu hv e; rewrite /tvec_eq !lengthE (F2_size hu) (F2_size hv) eqbE e eqxx.
elim: hu v s hv e => [|x a u' r' [vx <-] _ IH] v s hv; first by inversion hv; subst.
case: hv => // y b v' s' [vy <-] hv' [e]; rewrite /= (cs_eqb spec vx vy) bind_ok eqseq_cons; case: eqP => //= _.
exact: IH.
Qed.
Lemma rows_eq_ok n u v M N : Rm V I u M -> Rm V I v N -> size M = size N -> all (fun r => size r == n) M -> all (fun r => size r == n) N ->
  forallM (fun uv => tvec_eq o (fst uv) (snd uv)) (List.combine u v) = Ok (M == N).
Proof.
move=> hu; elim: hu v N => [|x a u' r' hx _ IH] v N hv; first by inversion hv; subst.
case: hv => // y b v' s' hy hv' [e] /= /andP[/eqP ea h1] /andP[/eqP eb h2].
rewrite (vec_eq_ok hx hy) ?ea ?eb // bind_ok eqseq_cons; case: eqP => //= _; exact: IH.
Qed.
Lemma shape_all m n (M : seq (seq F)) : shape m n M -> all (fun r => size r == n) M.
Proof. by case=> e h; apply/(all_nthP [::]) => i hi; rewrite h // -e. Qed.
Lemma lmx_eq m n (M N : seq (seq F)) : shape m n M -> shape m n N -> (M == N) = (lmx m n M == lmx m n N).
Proof.
case=> e1 h1 [e2 h2]; apply/eqP/eqP => [-> //|/matrixP h].
apply: (@eq_from_nth _ [::]) => [|i]; rewrite e1 ?e2 // => hi.
apply: (@eq_from_nth _ 0) => [|j]; rewrite h1 ?h2 // => hj.
by have := h (Ordinal hi) (Ordinal hj); rewrite !mxE.
Qed.
Lemma mat_eq_ok m n t u (a b : 'M[F]_(m, n)) : mat_is V I t a -> mat_is V I u b -> tmat_eq o t u = Ok (a == b).
Proof.
case/mat_is_rep => M ht <- /mat_is_rep[N hu <-].
have et : t_nc t = n by case: ht.
have eu : t_nc u = n by case: hu.
rewrite /tmat_eq (rep_nr ht) (rep_nr hu) et eu !Nat.eqb_refl [andb _ _]/=.
case: ht => ht st _; case: hu => hu su _; rewrite -lmx_eq //.
by apply: (rows_eq_ok ht hu); [case: st => ->; case: su|exact: shape_all st|exact: shape_all su].
Qed.

Variable n : nat.
Local Notation mx := 'M[F]_n.+1.
(* k is the order of a: the first of the powers from a on that is the identity *)
Definition order_of (a : mx) (k : nat) : Prop := [/\ (0 < k)%N, a ^+ k = 1 & forall j, (0 < j)%N -> a ^+ j = 1 -> (k <= j)%N].
Lemma ord_loop_ok t i (a : mx) k : mat_is V I t a -> mat_is V I i (1%:M : mx) -> order_of a k ->
  forall d j fuel pw, (j + d = k)%N -> (0 < j)%N -> (d < fuel)%N -> (Z.of_nat j <= INT_MAX)%coqZ -> mat_is V I pw (a ^+ j) ->
  mat_ord_loop o fuel t i pw (Z.of_nat j) = if (Z.of_nat k <=? INT_MAX)%coqZ then Ok (Z.of_nat k) else UB.
Proof.
move=> ht hi [k0 ek mk]; elim=> [|d IH] j [|fuel] pw // e j0 hf hj hp.
  have ej : j = k by rewrite -e addn0.
  rewrite /= (mat_eq_ok hp hi) bind_ok ej ek eqxx -ej; by move/Z.leb_le: hj => ->.
rewrite [mat_ord_loop _ _ _ _ _ _]/= (mat_eq_ok hp hi) bind_ok; case: eqP => [h|_].
  by have := mk _ j0 h; rewrite -e -[X in (_ <= X)%N -> _]addn0 leq_add2l.
have [w [-> hw]] := C51_mul spec (ltn0Sn n) (ltn0Sn n) (ltn0Sn n) hp ht; rewrite bind_ok.
case: Z.eqb_spec => [h|h].
  by case: Z.leb_spec => // h'; exfalso; move: h h' e; clear; lia.
have -> : (Z.of_nat j + 1 = Z.of_nat j.+1)%coqZ by clear; lia.
apply: IH => //; [by rewrite -e addSnnS|by move: hj h; clear; lia|by rewrite exprSr; exact: hw].
Qed.
Lemma make_I_thm t (a : mx) zero one : mat_is V I t a -> elem_is V I zero 0 -> elem_is V I one 1 ->
  exists i, mat_make_I t zero one = Ok i /\ mat_is V I i (1%:M : mx).
Proof.
case/mat_is_rep => M ht _ hz ho; have [w [N [e h1 h2]]] := make_I_ok (ltn0Sn n) ht hz ho.
by exists w; split=> //; rewrite -h2; exact: rep_mat_is.
Qed.
Lemma order_ok t (a : mx) k zero one fuel : mat_is V I t a -> elem_is V I zero 0 -> elem_is V I one 1 -> order_of a k -> (k <= fuel)%N ->
  mat_order o fuel zero one t = if (Z.of_nat k <=? INT_MAX)%coqZ then Ok (Z.of_nat k) else UB.
Proof.
move=> ht hz ho hk hf; rewrite /mat_order; have [d [-> [vd ed]]] := C40_det spec (ltn0Sn n) ht; rewrite bind_ok.
case: (hz) => vz ez; rewrite (cs_eqb spec vd vz) bind_ok ed ez -/(\det a).
have k0 : (0 < k)%N by case: hk.
have -> : (\det a == 0) = false.
  apply/negP => /eqP d0; case: hk => _ ek _; have := det1 F n.+1; rewrite -[1%:M]ek.
  by case: (k) k0 => // k' _; rewrite exprS det_mulmx d0 mul0r => /esym/eqP; rewrite oner_eq0.
have [i [-> hi]] := make_I_thm ht hz ho; rewrite bind_ok.
by apply: (@ord_loop_ok _ _ a k ht hi hk k.-1 1 fuel t) => //; rewrite ?add1n ?prednK // expr1.
Qed.
Lemma order_singular t (a : mx) zero one fuel : mat_is V I t a -> elem_is V I zero 0 -> \det a = 0 -> mat_order o fuel zero one t = Ok 0%coqZ.
Proof.
move=> ht [vz ez] h; rewrite /mat_order; have [d [-> [vd ed]]] := C40_det spec (ltn0Sn n) ht; rewrite bind_ok.
by rewrite (cs_eqb spec vd vz) bind_ok ed ez -/(\det a) h eqxx.
Qed.
End Gen.
Lemma order_rect (A : Type) (o : cops A) fuel zero one t : t_nr t <> t_nc t -> mat_order o fuel zero one t = Exn.
Proof. by move=> h; rewrite /mat_order /mat_det /is_square; case: Nat.eqb_spec. Qed.

(* an invertible matrix over a finite field has an order *)
Lemma order_exists (F : finFieldType) n (a : 'M[F]_n.+1) : \det a != 0 -> exists k, order_of a k.
Proof.
move=> h; have u : a \is a GRing.unit by rewrite unitmxE unitfE.
have [k hk] : exists k, (0 < k)%N && (a ^+ k == 1).
  pose f := fun i : 'I_(#|{: 'M[F]_n.+1}|.+1) => a ^+ i.
  have /injectivePn[i [j hij e]] : ~~ injectiveb f.
    apply/negP => /injectiveP /leq_card; by rewrite card_ord ltnn.
  have {hij e} [x [y [hxy e]]] : exists x y, (x < y)%N /\ a ^+ x = a ^+ y.
    case: (ltngtP i j) => hh; [by exists i, j|by exists j, i; split=> //; rewrite -[LHS]e|by case/eqP: hij; exact: val_inj].
  exists (y - x)%N; rewrite subn_gt0 hxy /=; apply/eqP; apply: (mulrI (unitrX x u)).
  by rewrite -exprD subnKC ?mulr1 // ltnW.
have ex : exists k, (0 < k)%N && (a ^+ k == 1) by exists k.
case: (ex_minnP ex) => m /andP[m0 /eqP em] mm; exists m; split=> // j j0 ej.
by apply: mm; rewrite j0 ej eqxx.
Qed.

(* ---- the command ---- *)
Section Run.
Context (c : cache) (qs : list (intmod * Z) -> list (intmod * Z)) (St : Type) (draw : St -> Z * St) (s0 : St) (other : string -> list text -> prog Z).
Local Notation run fuel input args := (spiff (ord_handler c fuel input other) qs draw s0 (txt "fp_mat_ord" :: args)).
Ltac known fuel input := rewrite (@PropSpiff.run_eq _ qs St draw s0 "fp_mat_ord" _ (fp_mat_ord_main c fuel input) erefl erefl erefl).

Theorem C105_usage fuel input s s1 l : [/\ run fuel input [::] = ([::], Status 1), run fuel input (s :: s1 :: l) = ([::], Status 1) &
  no_number s -> run fuel input [:: s] = ([::], Status 1)].
Proof. by split=> [||h]; known fuel input => //; rewrite /fp_mat_ord_main (arg_int_none _ h). Qed.
(* a modulus that is not positive: nothing is printed, but the exit status is that of success *)
Theorem C105_bad_modulus_refuted fuel input s m : int_text s m -> (m <= 0)%coqZ -> run fuel input [:: s] = ([::], Status 0).
Proof.
move=> hs h; known fuel input; rewrite /fp_mat_ord_main (arg_int_ok _ _ hs) pb_ret (im_make_reject _ _ h).
by [].
Qed.

Section Prime.
Variables (p : nat) (s : text).
Hypotheses (pp : prime p) (hP : (Z.of_nat p <= 46341)%coqZ) (hc : cache_valid c) (hs : int_text s (Z.of_nat p)).
Local Notation P := (Z.of_nat p).
(* blank lines, rows of numerals, then the end of the text or a blank line *)
Definition mat_text (input : text) (vs : list (list intmod)) : Prop := exists t1 off1 t2 off2 u rest, 
  [/\ input = (t1 ++ t2 ++ u)%list, blanks_text 0 t1 off1, rows_text (mword P) off1 t2 vs off2, vs <> nil & rest_text off2 u rest].
Lemma hM : (1 <= P <= MAXM)%coqZ. Proof. by move: hP (prime_gt1 pp); clear; rewrite /MAXM; lia. Qed.
(* a printed matrix is such a text *)
Theorem C105_printed t : mod_matrix P t -> mat_text (mat_out im_put t) (t_rows t) /\ width (t_rows t) (t_nc t).
Proof.
move=> /[dup] ht [h1 [h2 [h3 h4]]]; split; last by move=> r hr; have [] := (proj1 (List.Forall_forall _ _) h4) r hr.
have hr := out_rows im_getz (mkim 0 P) (mword P) (im_rd P hM) (mword_sp P) im_put (im_valid P) (im_put_word P hM) (mword_ok P) (t_rows t).
exists nil, 0%N, (mat_out im_put t), 0%N, nil, nil; split=> //; first by rewrite List.app_nil_r.
- by constructor.
- apply: hr; have [_ [_ hp]] := mod_printable P hM t ht.
  apply: List.Forall_impl hp => v [k1 [k2 k3]]; split=> // e; by apply: h2; rewrite -k1 e.
- constructor; [by case|]. by apply: Nat.le_lt_trans h3; exact: Nat.le_0_l.
Qed.
Local Notation is_mat := (@mat_is _ [fieldType of 'F_p] (Vp p) (Ip p)).
Lemma start fuel input vs n : mat_text input vs -> width vs n ->
  fp_mat_ord_main c fuel input [:: s] = (k <~ call (mat_order (im_cops c) fuel (mkim 0 P) (mkim 1 P) (mkmat vs n)) ;~ show k ;~~ MSpiff.nl ;~~ ret 0%coqZ).
Proof.
move=> [t1 [off1 [t2 [off2 [u [rest [-> h1 h2 h3 h4]]]]]]] hw; rewrite /fp_mat_ord_main (arg_int_ok _ _ hs) pb_ret.
have p1 := prime_gt1 pp.
have hI : (1 <= P <= INT_MAX)%coqZ by move: hP p1; clear; rewrite /INT_MAX; lia.
rewrite !im_make_ok // !pb_ok Z.mod_0_l ?Z.mod_1_l; [|by move: p1; clear; lia|by move: p1; clear; lia].
have hz : im_valid P (mkim 0 P) by case: (@zero_is p pp).
have [-> _] := @C91_matrix_read _ (im_cops c) im_getz (mkim 0 P) (mword P) (im_zz c P hM) (im_rd P hM) (mword_sp P) (mkmat [:: [:: mkim 0 P]] 1) (mkim 0 P) nil nil erefl
    (im_sub_self c P hM _ hz) t1 off1 t2 vs off2 u rest n h1 h2 h3 h4 hw.
by rewrite pb_ok.
Qed.
Local Notation sp := (im_cspec pp hc hP).
(* an invertible matrix: the command prints its order; an order above INT_MAX overflows the counter *)
Theorem C105_order_partial input vs n (a : 'M['F_p]_n.+1) : mat_text input vs -> width vs n.+1 -> is_mat (mkmat vs n.+1) a -> \det a != 0 ->
  exists k, order_of a k /\ forall fuel, (k <= fuel)%N ->
    run fuel input [:: s] = if (Z.of_nat k <=? INT_MAX)%coqZ then (line (put_int (Z.of_nat k)), Status 0) else ([::], Undefined).
Proof.
move=> hi hw ha hd; have [k hk] := order_exists hd; exists k; split=> // fuel hf; known fuel input; rewrite (start fuel hi hw).
rewrite (order_ok sp ha (zero_is pp) (one_is pp) hk hf); case: Z.leb => //; by rewrite pb_ok.
Qed.
(* 0 for a matrix that is not invertible *)
Theorem C105_singular fuel input vs n (a : 'M['F_p]_n.+1) : mat_text input vs -> width vs n.+1 -> is_mat (mkmat vs n.+1) a -> \det a = 0 ->
  run fuel input [:: s] = (line (txt "0"), Status 0).
Proof. by move=> hi hw ha hd; known fuel input; rewrite (start fuel hi hw) (order_singular sp _ fuel ha (zero_is pp) hd) pb_ok. Qed.
(* a matrix that is not square: nothing is printed, but the exit status is that of success *)
Theorem C105_rectangular_refuted fuel input vs n : mat_text input vs -> width vs n -> List.length vs <> n ->
  run fuel input [:: s] = ([::], Status 0).
Proof. by move=> hi hw hn; known fuel input; rewrite (start fuel hi hw) order_rect. Qed.
(* Defect: that there is no matrix on the input goes unnoticed; the program then looks at the first row of no rows *)
Theorem C105_empty_refuted fuel t1 off1 l : blanks_text 0 t1 off1 -> one_line l -> (off1 + List.length l < tmx_buf_size)%coq_nat ->
  run fuel (t1 ++ l)%list [:: s] = ([::], Undefined).
Proof.
move=> h1 h2 h3; known fuel (t1 ++ l)%list; rewrite /fp_mat_ord_main (arg_int_ok _ _ hs) pb_ret.
have p1 := prime_gt1 pp.
have hI : (1 <= P <= INT_MAX)%coqZ by move: hP p1; clear; rewrite /INT_MAX; lia.
rewrite !im_make_ok // !pb_ok Z.mod_0_l ?Z.mod_1_l; [|by move: p1; clear; lia|by move: p1; clear; lia].
have hz : im_valid P (mkim 0 P) by case: (@zero_is p pp).
have [st [-> _]] := @C91_matrix_none _ (im_cops c) im_getz (mkim 0 P) (mword P) (mword_sp P) (mkmat [:: [:: mkim 0 P]] 1) (mkim 0 P) nil nil erefl
    (im_sub_self c P hM _ hz) t1 off1 l h1 h2 h3.
rewrite pb_ok /= /det_after_failure.
have [|f1 [F1 ->]] := run_blanks (im_cops c) im_getz (mkim 0 P) (mword P) (mword_sp P) _ _ _ h1 (List.length (t1 ++ l)%list).+2 l; first by apply/ltP; rewrite ltnS leqnSn.
case: f1 F1 => [|f1] F1; first by case/Nat.nlt_0_r: F1.
by rewrite (step_eof (im_cops c) im_getz (mkim 0 P) (mword P) (mword_sp P)).
Qed.
(* Rows of different lengths, or a line after the first row that cannot be read: nothing is printed, but the exit status is that of success *)
Lemma some_rows f1 t1 off1 t2 vs off2 u : blanks_text 0 t1 off1 -> rows_text (mword P) off1 t2 vs off2 -> (List.length (t1 ++ t2 ++ u)%list < f1)%coq_nat ->
  exists f2, mat_lines (im_cops c) im_getz f1 (mkim 0 P) 0 nil (open_text (t1 ++ t2 ++ u)%list) = mat_lines (im_cops c) im_getz f2.+1 (mkim 0 P) off2 (List.rev vs) (open_text u).
Proof.
move=> h1 h2 hf; have [f2 [F2 ->]] := run_blanks (im_cops c) im_getz (mkim 0 P) (mword P) (mword_sp P) _ _ _ h1 f1 (t2 ++ u)%list hf.
have [f3 [F3 ->]] := run_rows (im_cops c) im_getz (mkim 0 P) (mword P) (im_zz c P hM) (im_rd P hM) (mword_sp P) _ _ _ _ h2 f2 u nil F2.
case: f3 F3 => [|f3] F3; first by case/Nat.nlt_0_r: F3.
by exists f3; rewrite List.app_nil_r.
Qed.
Lemma rev_some (T U : Type) (vs : list T) (x y : U) : vs <> nil -> match List.rev vs with nil => x | _ => y end = y.
Proof. by case: vs => // a l _; rewrite /=; case: (List.rev l). Qed.
Lemma begin_ord fuel input : fp_mat_ord_main c fuel input [:: s] = (r <~ call (mat_in_stream (im_cops c) im_getz (mkmat [:: [:: mkim 0 P]] 1) (open_text input)) ;~
  match fst r with
  | Some a => k <~ call (mat_order (im_cops c) fuel (mkim 0 P) (mkim 1 P) a) ;~ show k ;~~ MSpiff.nl ;~~ ret 0%coqZ
  | None => call (det_after_failure c (mkim 0 P) input) ;~~ ret 0%coqZ
  end).
Proof.
rewrite /fp_mat_ord_main (arg_int_ok _ _ hs) pb_ret; have p1 := prime_gt1 pp.
have hI : (1 <= P <= INT_MAX)%coqZ by move: hP p1; clear; rewrite /INT_MAX; lia.
by rewrite !im_make_ok // !pb_ok Z.mod_0_l ?Z.mod_1_l //; move: p1; clear; lia.
Qed.
Theorem C105_ragged_refuted fuel input vs : mat_text input vs -> (forall n, ~ width vs n) -> run fuel input [:: s] = ([::], Status 0).
Proof.
move=> [t1 [off1 [t2 [off2 [u [rest [-> h1 h2 h3 h4]]]]]]] hw; known fuel (t1 ++ t2 ++ u)%list; rewrite begin_ord.
have hz : im_valid P (mkim 0 P) by case: (@zero_is p pp).
have [st [-> _]] := @C91_matrix_ragged _ (im_cops c) im_getz (mkim 0 P) (mword P) (im_zz c P hM) (im_rd P hM) (mword_sp P) (mkmat [:: [:: mkim 0 P]] 1) (mkim 0 P) nil nil erefl
    (im_sub_self c P hM _ hz) t1 off1 t2 vs off2 u rest h1 h2 h3 h4 hw.
rewrite pb_ok /= /det_after_failure.
have [|f2 ->] := @some_rows (List.length (t1 ++ t2 ++ u)%list).+2 t1 off1 t2 vs off2 u h1 h2; first by apply/ltP; rewrite ltnS leqnSn.
rewrite (run_rest (im_cops c) im_getz (mkim 0 P) (mword P) (mword_sp P) _ _ _ _ _ h4); last by move=> e; apply: h3; rewrite -[vs]List.rev_involutive e.
by rewrite bind_ok (rev_some _ _ h3).
Qed.
Theorem C105_bad_line_refuted fuel t1 off1 t2 vs off2 l t k u : blanks_text 0 t1 off1 -> rows_text (mword P) off1 t2 vs off2 -> text_line l t k ->
  vec_stream (im_getz (mkim 0 P)) t = Ok None -> (off2 + List.length l < tmx_buf_size)%coq_nat ->
  run fuel (t1 ++ t2 ++ l ++ newline :: u)%list [:: s] = ([::], if vs is nil then Undefined else Status 0).
Proof.
move=> h1 h2 h3 h4 h5; known fuel (t1 ++ t2 ++ l ++ newline :: u)%list; rewrite begin_ord.
have hz : im_valid P (mkim 0 P) by case: (@zero_is p pp).
have [st [-> _]] := @C91_matrix_bad _ (im_cops c) im_getz (mkim 0 P) (mword P) (im_zz c P hM) (im_rd P hM) (mword_sp P) (mkmat [:: [:: mkim 0 P]] 1) (mkim 0 P) nil nil erefl
    (im_sub_self c P hM _ hz) t1 off1 t2 vs off2 l t k u h1 h2 h3 h4 h5.
rewrite pb_ok /= /det_after_failure.
have [|f2 ->] := @some_rows (List.length (t1 ++ t2 ++ l ++ newline :: u)%list).+2 t1 off1 t2 vs off2 (l ++ newline :: u)%list h1 h2; first by apply/ltP; rewrite ltnS leqnSn.
have [st' [-> _]] := step_bad (im_cops c) im_getz (mkim 0 P) (mword P) (im_zz c P hM) (mword_sp P) f2 off2 (List.rev vs) l t k u h3 h4 h5.
rewrite bind_ok; case: (vs) => [|v vs'] //; by rewrite rev_some.
Qed.
End Prime.
End Run.

(* a matrix of order 2 modulo 5 is read from a text with a comment; a singular one; an empty input *)
Definition ex_run (input : text) := spiff (ord_handler cache_init 9 input (fun _ _ => usage)) id (fun s : unit => (0%coqZ, s)) tt [:: txt "fp_mat_ord"; txt "5"].
Definition ex_t1 : text := (txt "# reflection" ++ newline :: nil)%list.
Definition ex_t2 : text := (txt "0 1" ++ newline :: txt "1 0" ++ newline :: nil)%list.
Definition ex_vs : list (list intmod) := [:: [:: mkim 0 5; mkim 1 5]; [:: mkim 1 5; mkim 0 5]].
Example C105_ex : [/\ prime 5, int_text (txt "5") 5, ex_run (ex_t1 ++ ex_t2)%list = (line (txt "2"), Status 0),
  ex_run (txt "2 0" ++ newline :: txt "0 1" ++ newline :: nil)%list = (line (txt "4"), Status 0) &
  [/\ ex_run (txt "1 2" ++ newline :: txt "2 4" ++ newline :: nil)%list = (line (txt "0"), Status 0), ex_run ex_t1 = ([::], Undefined),
  ex_run (txt "1 2" ++ newline :: txt "3" ++ newline :: nil)%list = ([::], Status 0), ex_run (txt "x" ++ newline :: nil)%list = ([::], Undefined) &
  ex_run (txt "1 2 3" ++ newline :: nil)%list = ([::], Status 0)]].
Proof.
split=> //.
- by apply: (@read_int_text _ _ [::]).
Qed.

Print Assumptions C105_usage.
Print Assumptions C105_bad_modulus_refuted.
Print Assumptions C105_printed.
Print Assumptions C105_order_partial.
Print Assumptions C105_singular.
Print Assumptions C105_rectangular_refuted.
Print Assumptions C105_empty_refuted.
Print Assumptions C105_ragged_refuted.
Print Assumptions C105_bad_line_refuted.
