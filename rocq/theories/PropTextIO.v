(* Final theorems for the text formats of vectors and matrices (spffl/containers/tvector.h and tmatrix.h,
   spffl/bits/bit_vector_t.cpp and bit_matrix_t.cpp, spffl/base/line_scan.cpp). *)
From Verif Require Import Base MIntMath MIntmod MMat MMatCli MBits MTextIO PIntMath PIntMath2 PIntmod PMatCli5 PMatCli8 PBits PBits2.
From Verif Require Import PTextIO PTextIO2 PTextIO3 PTextIO4 PTextIO5 PTextIO7.
Import ListNotations.
Open Scope nat_scope.
Local Notation length := List.length.
Local Opaque tmx_buf_size tvec_buf_size bmx_buf_size.
Local Notation N := tmx_buf_size.

(* ---- any element type ---- *)
(* word d a: the text d is read as the element a (reads: PMatCli5.v).  x: an element of the matrix read into; z: its zero. *)
Section Gen.
Context {A : Type} (o : cops A) (get : A -> list ascii -> res (option (A * list ascii * bool))) (z : A).
Variable word : list ascii -> A -> Prop.
Hypothesis Hz : c_sub o z z = Ok z.
Hypothesis R : reads (get z) word.
Hypothesis word_sp : forall d a c, word d a -> In c d -> is_space c = false.
Variables (m0 : tmat A) (x : A) (rs : list A) (rr : list (list A)).
Hypothesis Hm : t_rows m0 = (x :: rs) :: rr.
Hypothesis Hx : c_sub o x x = Ok z.

(* Blank lines, lines with words (comments from # on, spaces at both ends), and then the end of the text, a line without
   newline, or a blank line and more text: the matrix of the words, and the text after the blank line is left. *)
Theorem C91_matrix_read t1 off1 t2 vs off2 u rest n :
  blanks_text 0 t1 off1 -> rows_text word off1 t2 vs off2 -> vs <> [] -> rest_text off2 u rest -> width vs n ->
  mat_in_stream o get m0 (open_text (t1 ++ t2 ++ u)) = Ok (Some (mkmat vs n), after rest) /\ failed (after rest) = false.
Proof.
  intros H1 H2 H3 H4 H5. split; [|reflexivity].
  rewrite (mat_read o get z word Hz R word_sp m0 x rs rr t1 off1 t2 vs off2 u rest Hm Hx H1 H2 H3 H4), (ragged_ok vs n H3 H5). reflexivity.
Qed.
Theorem C91_matrix_ragged t1 off1 t2 vs off2 u rest :
  blanks_text 0 t1 off1 -> rows_text word off1 t2 vs off2 -> vs <> [] -> rest_text off2 u rest -> (forall n, ~ width vs n) ->
  exists s, mat_in_stream o get m0 (open_text (t1 ++ t2 ++ u)) = Ok (None, s) /\ failed s = true.
Proof.
  intros H1 H2 H3 H4 H5. rewrite (mat_read o get z word Hz R word_sp m0 x rs rr t1 off1 t2 vs off2 u rest Hm Hx H1 H2 H3 H4), (ragged_no vs H5).
  eexists. split; reflexivity.
Qed.
(* a line that is not a list of words, no line at all, a first line of 65536 characters or more *)
Theorem C91_matrix_bad t1 off1 t2 vs off2 l t k u :
  blanks_text 0 t1 off1 -> rows_text word off1 t2 vs off2 -> text_line l t k -> vec_stream (get z) t = Ok None -> off2 + length l < N ->
  exists s, mat_in_stream o get m0 (open_text (t1 ++ t2 ++ l ++ newline :: u)) = Ok (None, s) /\ failed s = true.
Proof. exact (mat_bad o get z word Hz R word_sp m0 x rs rr t1 off1 t2 vs off2 l t k u Hm Hx). Qed.
Theorem C91_matrix_none t1 off1 l : blanks_text 0 t1 off1 -> one_line l -> off1 + length l < N ->
  exists s, mat_in_stream o get m0 (open_text (t1 ++ l)) = Ok (None, s) /\ failed s = true.
Proof. exact (mat_empty o get z word word_sp m0 x rs rr t1 off1 l Hm Hx). Qed.
Theorem C91_matrix_long l u : one_line l -> (u = [] \/ exists u', u = newline :: u') -> N <= length l ->
  exists s, mat_in_stream o get m0 (open_text (l ++ u)) = Ok (None, s) /\ failed s = true.
Proof. exact (mat_long o get z word word_sp m0 x rs rr l u Hm Hx). Qed.
(* Defect: the last line of a text is not read if the text does not end with a newline, and there is no error. *)
Theorem C91_last_line_refuted t2 vs off2 l v k n : rows_text word 0 t2 vs off2 -> vs <> [] -> width vs n ->
  row_line word l v k -> off2 + length l < N ->
  (exists s, mat_in_stream o get m0 (open_text (t2 ++ l)) = Ok (Some (mkmat vs n), s) /\ failed s = false).
Proof.
  intros H1 H2 H3 [H4 _] H5. eexists.
  exact (C91_matrix_read [] 0 t2 vs off2 l [] n (bt_nil 0) H1 H2 (re_end off2 l H4 H5) H3).
Qed.
(* Defect: the spaces in front of the lines add up; when they reach the size of the buffer it is overrun. *)
Theorem C91_indent_refuted t1 off1 t2 vs off2 l u : blanks_text 0 t1 off1 -> rows_text word off1 t2 vs off2 ->
  one_line l -> (u = [] \/ exists u', u = newline :: u') -> 0 < off2 -> N <= off2 + length l ->
  mat_in_stream o get m0 (open_text (t1 ++ t2 ++ l ++ u)) = UB.
Proof. exact (mat_over o get z word Hz R word_sp m0 x rs rr t1 off1 t2 vs off2 l u Hm Hx). Qed.

(* printing and reading *)
Variables (put : A -> list ascii) (V : A -> Prop).
Hypothesis put_word : forall a, V a -> word (put a) a.
Hypothesis word_ok : forall d a, word d a -> ~ In "#"%char d /\ ~ In "000"%char d.
Theorem C91_round_trip m u rest : printable put V m -> rest_text 0 u rest ->
  mat_in_stream o get m0 (open_text (mat_out put m ++ u)) = Ok (Some m, after rest).
Proof. intros (H1 & H2 & H3) Hu. exact (round_trip o get z word Hz R word_sp put V put_word word_ok m0 x rs rr m u rest Hm Hx H1 H2 H3 Hu). Qed.
Theorem C91_several ms : Forall (printable put V) ms -> read_mats o get (length ms) m0 (open_text (mats_text put ms)) = Ok (Some ms).
Proof. exact (mats_read o get put z word V Hz R word_sp put_word word_ok m0 x rs rr ms Hm Hx). Qed.

(* vectors: one line, the newline may be missing *)
Theorem C91_vector_read v0 y l v t : c_sub o y y = Ok z -> one_line l -> ~ In "000"%char l -> row word l v -> length l < tvec_buf_size ->
  vec_in_stream o get (y :: v0) (open_text (l ++ newline :: t)) = Ok (Some v, open_text t) /\
  vec_in_stream o get (y :: v0) (open_text l) = Ok (Some v, mkis [] true false false).
Proof. exact (vec_in_line o get z word R word_sp v0 y l v t). Qed.
Theorem C91_vector_round_trip v0 y v t : c_sub o y y = Ok z -> v <> [] -> Forall V v -> length (vec_out put v) < tvec_buf_size ->
  vec_in_stream o get (y :: v0) (open_text (vec_out put v ++ newline :: t)) = Ok (Some v, open_text t) /\
  vec_in_stream o get (y :: v0) (open_text (vec_out put v)) = Ok (Some v, mkis [] true false false).
Proof.
  intros Hy Hv HV Hl. destruct (out_row_line get z word R word_sp put V put_word word_ok v Hv HV) as [H1 (w & t' & w' & (_ & H2 & H3) & _)].
  apply (vec_in_line o get z word R word_sp v0 y (vec_out put v) v t Hy H1); [|apply (vec_out_row get z word R word_sp put V put_word v Hv HV)|exact Hl].
  intros H0. apply (vec_out_chars put V v _ HV) in H0 as [H0|(a & Ha & H0)]; [discriminate|]. exact (proj2 (word_ok _ _ (put_word a Ha)) H0).
Qed.
End Gen.
(* a longer line fails *)
Theorem C91_vector_long {A} (o : cops A) get v0 l t r s : one_line l -> (t = [] \/ exists t', t = newline :: t') -> tvec_buf_size <= length l ->
  vec_in_stream o get v0 (open_text (l ++ t)) = Ok (r, s) -> failed s = true.
Proof. intros H1 H2 H3. apply (vec_in_long o get v0 l t r s H1 H2 H3). Local Transparent tvec_buf_size. unfold tvec_buf_size. Local Opaque tvec_buf_size. apply Nat.neq_0_lt_0, Nat.pow_nonzero. discriminate. Qed.

(* ---- integers modulo m ---- *)
Section Mod.
Variables (c : cache) (m : Z).
Hypothesis Hm : (1 <= m <= MAXM)%Z.
Variables (m0 : tmat intmod) (x : intmod) (rs : list intmod) (rr : list (list intmod)).
Hypothesis H0 : t_rows m0 = (x :: rs) :: rr.
Hypothesis Hx : im_valid m x.
(* up to 10922 columns *)
Definition mod_matrix (t : tmat intmod) : Prop :=
  t_rows t <> [] /\ t_nc t <> 0 /\ 6 * t_nc t < N /\ Forall (fun v => length v = t_nc t /\ Forall (im_valid m) v) (t_rows t).
Lemma mod_printable t : mod_matrix t -> printable im_put (im_valid m) t.
Proof.
  intros (G1 & G2 & G3 & G4). split; [exact G1|split; [exact G2|]]. apply (Forall_impl _ (P := fun v => length v = t_nc t /\ Forall (im_valid m) v)); [|exact G4].
  intros v [K1 K2]. split; [exact K1|split; [exact K2|]]. unfold fits. apply (Nat.le_lt_trans _ (6 * length v)); [apply (out_len m Hm v K2)|rewrite K1; exact G3].
Qed.
Theorem C91_mod_round_trip t u rest : mod_matrix t -> rest_text 0 u rest ->
  mat_in_stream (im_cops c) im_getz m0 (open_text (mat_out im_put t ++ u)) = Ok (Some t, after rest).
Proof.
  intros Ht. apply (C91_round_trip (im_cops c) im_getz (mkim 0 m) (mword m) (im_zz c m Hm) (im_rd m Hm) (mword_sp m) m0 x rs rr H0
    (im_sub_self c m Hm x Hx) im_put (im_valid m) (im_put_word m Hm) (mword_ok m)), mod_printable, Ht.
Qed.
Theorem C91_mod_several ms : Forall mod_matrix ms ->
  read_mats (im_cops c) im_getz (length ms) m0 (open_text (mats_text im_put ms)) = Ok (Some ms).
Proof.
  intros Hms. apply (C91_several (im_cops c) im_getz (mkim 0 m) (mword m) (im_zz c m Hm) (im_rd m Hm) (mword_sp m) m0 x rs rr H0
    (im_sub_self c m Hm x Hx) im_put (im_valid m) (im_put_word m Hm) (mword_ok m)).
  apply (Forall_impl _ mod_printable Hms).
Qed.
Theorem C91_mod_vector v0 y v t : im_valid m y -> v <> [] -> Forall (im_valid m) v -> 6 * length v < tvec_buf_size ->
  vec_in_stream (im_cops c) im_getz (y :: v0) (open_text (vec_out im_put v ++ newline :: t)) = Ok (Some v, open_text t) /\
  vec_in_stream (im_cops c) im_getz (y :: v0) (open_text (vec_out im_put v)) = Ok (Some v, mkis [] true false false).
Proof.
  intros Hy Hv HV Hl. apply (C91_vector_round_trip (im_cops c) im_getz (mkim 0 m) (mword m) (im_rd m Hm) (mword_sp m) im_put (im_valid m) (im_put_word m Hm) (mword_ok m)); auto.
  - apply (im_sub_self c m Hm y Hy).
  - apply (Nat.le_lt_trans _ _ _ (out_len m Hm v HV) Hl).
Qed.
(* any file without minus signs shorter than the buffer *)
Theorem C91_mod_any_file t : ~ In "-"%char t -> length t < N ->
  match mat_load (im_cops c) im_getz (mkim 0 m) t with
  | Ok None => True
  | Ok (Some a) => t_rows a <> [] /\ t_nc a <> 0 /\ Forall (fun v => length v = t_nc a /\ Forall (im_valid m) v) (t_rows a)
  | _ => False
  end.
Proof.
  intros H1 H2. pose proof (mat_load_valid (im_cops c) im_getz (mkim 0 m) (im_valid m) (im_zz c m Hm) (fun s => im_get_valid m s (m_int m Hm)) t H1 H2) as K.
  destruct (mat_load _ _ _ _) as [[a|]| | |]; cbn [good_res] in K; try exact K. exact (proj1 K).
Qed.
(* Defect: a file of lines " 1" is read up to 65534 lines; with more the buffer is overrun. *)
Theorem C91_indented_refuted k : (0 < k -> k + 1 < N -> mat_load (im_cops c) im_getz (mkim 0 m) (indented k) = Ok (Some (mkmat (repeat [mkim (1 mod m) m] k) 1))) /\
  (N <= k + 1 -> mat_load (im_cops c) im_getz (mkim 0 m) (indented k) = UB).
Proof.
  split; [apply indented_read, Hm|]. intros H. apply indented_over; [exact Hm|exact H|]. Local Transparent tmx_buf_size. unfold tmx_buf_size. Local Opaque tmx_buf_size.
  apply (Nat.lt_le_trans _ (2 ^ 2)); [repeat constructor|]. apply Nat.pow_le_mono_r; [discriminate|]. repeat constructor.
Qed.
End Mod.

(* ---- bits ---- *)
Theorem C91_bits_read t1 t2 vs u rest n : bblanks_text t1 -> brows_text t2 vs -> vs <> [] -> brest_text u rest -> width vs n ->
  exists m, bm_in_stream 0 (open_text (t1 ++ t2 ++ u)) = Ok (Some m, after rest) /\ brep m (length vs) n vs.
Proof. intros H1 H2 H3 H4 H5. apply (bm_read t1 t2 vs u rest H1 H2 H3 H4). apply Forall_forall. exact H5. Qed.
Theorem C91_bits_ragged t1 t2 vs u rest : bblanks_text t1 -> brows_text t2 vs -> vs <> [] -> brest_text u rest -> (forall n, ~ width vs n) ->
  exists s, bm_in_stream 0 (open_text (t1 ++ t2 ++ u)) = Ok (None, s) /\ failed s = true.
Proof.
  intros H1 H2 H3 H4 H5. eexists. split; [apply (bm_read t1 t2 vs u rest H1 H2 H3 H4)|reflexivity].
  intros n Hn. apply (H5 n). rewrite Forall_forall in Hn. exact Hn.
Qed.
Theorem C91_bits_round_trip m mr n L u rest : brep m mr n L -> 0 < mr -> 0 < n -> 2 * n < bmx_buf_size -> brest_text u rest ->
  exists t m', bm_out m = Ok t /\ bm_in_stream 0 (open_text (t ++ u)) = Ok (Some m', after rest) /\ brep m' mr n L.
Proof. exact (bround m mr n L u rest). Qed.
Theorem C91_bits_any_text s : match bm_in_stream 0 s with
  | Ok (Some m, _) => exists L, L <> [] /\ 0 < bm_nc m /\ brep m (length L) (bm_nc m) L
  | Ok (None, _) => True
  | _ => False
  end.
Proof. exact (bm_any_text s). Qed.
Theorem C91_bitvec_read l bs t : one_line l -> ~ In "000"%char l -> row bword l bs -> length l < tvec_buf_size -> exists v, B v bs /\
  bv_in_stream (open_text (l ++ newline :: t)) = Ok (Some v, open_text t) /\
  bv_in_stream (open_text l) = Ok (Some v, mkis [] true false false).
Proof. exact (bv_in_line l bs t). Qed.
Theorem C91_bitvec_round_trip v bs t : B v bs -> 2 * length bs < tvec_buf_size ->
  exists l v', bv_out v = Ok l /\ bv_in_stream (open_text (l ++ newline :: t)) = Ok (Some v', open_text t) /\ B v' bs.
Proof.
  intros Hv Hl. rewrite (bv_out_ok v bs Hv). assert (Hne : bs <> []) by (destruct Hv as (? & _ & _ & H & _); destruct bs; [inversion H|discriminate]).
  destruct (bv_in_line (vec_out bput bs) bs t) as (v' & H1 & H2 & _).
  - apply (bout_line bs Hne).
  - intros H. apply bout_chars in H as [H|[H|H]]; discriminate.
  - apply bout_row, Hne.
  - apply (Nat.le_lt_trans _ _ _ (bout_len bs) Hl).
  - exists (vec_out bput bs), v'. auto.
Qed.
(* Defect: a line with blanks at the end (also before a comment) fails. *)
Theorem C91_bits_trailing_refuted t1 t2 vs l bs u : bblanks_text t1 -> brows_text t2 vs -> bit_line_trail l bs -> length l < bmx_buf_size ->
  exists s, bm_in_stream 0 (open_text (t1 ++ t2 ++ l ++ newline :: u)) = Ok (None, s) /\ failed s = true.
Proof. exact (bm_trail t1 t2 vs l bs u). Qed.
(* Defect: what is read into a matrix that has rows is never the matrix of the text; with more than 40 rows it is undefined. *)
Theorem C91_bits_reuse_refuted n0 s : 0 < n0 ->
  (forall m s', bm_in_stream n0 s = Ok (Some m, s') -> bm_nr m = n0 /\ bm_nc m = 0) /\ (40 < n0 -> bm_in_stream n0 s = UB).
Proof.
  intros H. split; [intros m s'; apply bm_reuse, H|]. intros H4. unfold bm_in_stream. apply Nat.ltb_lt in H4. rewrite H4. reflexivity.
Qed.

(* ---- examples ---- *)
Definition txt (s : string) : list ascii := list_ascii_of_string s.
Definition nl : string := String newline EmptyString.
Definition e7 (r : Z) : intmod := mkim r 7.
Definition m7 : tmat intmod := mkmat [[e7 1; e7 2]; [e7 3; e7 4]] 2.
Example C91_ex : let rd t := mat_load (im_cops cache_init) im_getz (e7 0) (txt t) in
  mod_matrix 7 m7 /\ im_valid 7 (e7 5) /\ mat_out im_put m7 = txt ("1 2" ++ nl ++ "3 4" ++ nl) /\
  rd ("# two rows" ++ nl ++ nl ++ "1 2 # c" ++ nl ++ "  10 11 " ++ nl ++ nl ++ "x")%string = Ok (Some m7) /\
  rd ("1 2" ++ nl ++ "3 4")%string = Ok (Some (mkmat [[e7 1; e7 2]] 2)) /\
  rd ("1 2" ++ nl ++ "3" ++ nl)%string = Ok None /\ rd ("1 x" ++ nl)%string = Ok None /\ rd EmptyString = Ok None.
Proof.
  Local Transparent tmx_buf_size tvec_buf_size bmx_buf_size.
  split; [|split; [split; [reflexivity|vm_compute; split; [discriminate|reflexivity]]|repeat split; vm_compute; reflexivity]].
  split; [discriminate|]. split; [discriminate|]. split; [apply Nat.ltb_lt; vm_compute; reflexivity|].
  repeat (constructor; try reflexivity); unfold canon; cbn; discriminate.
Qed.
(* the hypotheses of C91_matrix_read: a comment, a row with a comment, an indented row, a blank line *)
Example C91_ex2 : blanks_text 0 (txt ("# c" ++ nl)) 0 /\ rows_text (mword 7) 0 (txt (" 1 2 # c" ++ nl)) [[e7 1; e7 2]] 1 /\ rest_text 1 (txt (nl ++ "x")) (txt "x").
Proof.
  Local Opaque tmx_buf_size tvec_buf_size bmx_buf_size.
  assert (HN : 20 < N). { Local Transparent tmx_buf_size. apply Nat.ltb_lt. vm_compute. reflexivity. Local Opaque tmx_buf_size. }
  assert (K : forall k, k <= 20 -> k < N) by (intros k Hk; exact (Nat.le_lt_trans _ _ _ Hk HN)).
  split; [|split].
  - apply (bt_cons 0 (txt "# c") 0 [] 0); [|apply K; cbn; repeat constructor|constructor].
    split; [intros H; repeat destruct H as [H|H]; try discriminate; exact H|]. exists []. split; [split; [intros []|split; [intros []|right; eexists _, _; split; [reflexivity|left; reflexivity]]]|split; [constructor|reflexivity]].
  - apply (rt_cons (mword 7) 0 (txt " 1 2 # c") [e7 1; e7 2] 1 [] [] 1); [|apply K; cbn; repeat constructor|constructor].
    split; [intros H; repeat destruct H as [H|H]; try discriminate; exact H|]. exists (txt " "), (txt "1 2"), (txt " "). repeat split.
    + intros H; repeat destruct H as [H|H]; try discriminate; exact H.
    + intros H; repeat destruct H as [H|H]; try discriminate; exact H.
    + right. eexists _, _. split; [reflexivity|left; reflexivity].
    + repeat constructor.
    + repeat constructor.
    + assert (nm : forall d v, d = txt "1" /\ v = 1%Z \/ d = txt "2" /\ v = 2%Z -> mword 7 d (e7 v)).
      { intros d v [[-> ->]|[-> ->]]; [exists 1%Z|exists 2%Z]; (split; [|reflexivity]); (split; [discriminate|split; [|split; [reflexivity|discriminate]]]);
        (constructor; [split; apply Nat.leb_le; reflexivity|constructor]). }
      apply (row_cons (mword 7) [] (txt "1") (e7 1) " "%char (txt "2")); [constructor|apply nm; auto|left; reflexivity|].
      apply (row_one (mword 7) [" "%char] (txt "2")); [constructor; [left; reflexivity|constructor]|apply nm; auto].
    + exists "1"%char, (txt " 2"). split; [reflexivity|]. intros [H|H]; discriminate.
  - apply (re_blank 1 [] 0); [|apply K; cbn; repeat constructor]. split; [intros []|]. exists []. split; [split; [intros []|split; [intros []|left; reflexivity]]|split; [constructor|reflexivity]].
Qed.
Example C91_ex3 : let rd t := bm_in_stream 0 (open_text (txt t)) in
  (exists m s, rd ("1 0 1" ++ nl ++ "0 1 2" ++ nl)%string = Ok (Some m, s) /\ brepcheck m 2 3 [[true; false; true]; [false; true; false]] = true) /\
  (exists s, rd ("1 0 # c" ++ nl)%string = Ok (None, s)) /\ (exists s, rd ("1 0 " ++ nl)%string = Ok (None, s)) /\
  (exists m s, rd ("1 0# c" ++ nl)%string = Ok (Some m, s) /\ brepcheck m 1 2 [[true; false]] = true).
Proof. Local Transparent tmx_buf_size tvec_buf_size bmx_buf_size. repeat split; repeat eexists; vm_compute; reflexivity. Qed.

Print Assumptions C91_matrix_read.
Print Assumptions C91_matrix_ragged.
Print Assumptions C91_matrix_bad.
Print Assumptions C91_matrix_none.
Print Assumptions C91_matrix_long.
Print Assumptions C91_last_line_refuted.
Print Assumptions C91_indent_refuted.
Print Assumptions C91_round_trip.
Print Assumptions C91_several.
Print Assumptions C91_vector_read.
Print Assumptions C91_vector_round_trip.
Print Assumptions C91_vector_long.
Print Assumptions C91_mod_round_trip.
Print Assumptions C91_mod_several.
Print Assumptions C91_mod_vector.
Print Assumptions C91_mod_any_file.
Print Assumptions C91_indented_refuted.
Print Assumptions C91_bits_read.
Print Assumptions C91_bits_ragged.
Print Assumptions C91_bits_round_trip.
Print Assumptions C91_bits_any_text.
Print Assumptions C91_bitvec_read.
Print Assumptions C91_bitvec_round_trip.
Print Assumptions C91_bits_trailing_refuted.
Print Assumptions C91_bits_reuse_refuted.
