(* Matrices from files as operands; indentation. *)
From Verif Require Import Base MIntMath MIntmod MMat MMatCli MBits MTextIO PIntMath PIntMath2 PIntmod.
From mathcomp Require Import all_ssreflect fingroup perm all_algebra ssrZ zify.
From Verif Require PCli4.
From Verif Require Import PLin PLin2 PLin3 PMat PMat2 PMat3 PFp PropMat PMatCli PMatCli2 PMatCli3 PMatCli4 PMatCli5 PMatCli6 PMatCli7 PMatCli8 PMatCli9 PMatCli10.
From Verif Require Import PTextIO PTextIO2 PTextIO3.
Set Implicit Arguments.
Unset Strict Implicit.
Unset Printing Implicit Defensive.
Import GRing.Theory.
Delimit Scope Z_scope with coqZ.
Local Open Scope ring_scope.
Local Opaque tmx_buf_size tvec_buf_size bmx_buf_size.

(* a text with lines of numbers: blank lines, the rows zs, and then the end of the text, a line without newline, or a
   blank line and any text rest *)
Definition file_text (t : seq ascii) (zs : seq (seq Z)) (rest : seq ascii) : Prop :=
  exists t1 o1 t2 o2 u, [/\ t = t1 ++ t2 ++ u, blanks_text 0 t1 o1, rows_text numeral o1 t2 zs o2, zs <> [::] & rest_text o2 u rest].
Section M.
Variable M : Z.
Lemma row_line_map l v k : row_line numeral l v k -> row_line (mword M) l (map (res_of M) v) k.
Proof. by case=> h [w [t [w' [h1 [h2 [h3 [h4 [h5 h6]]]]]]]]; split=> //; exists w, t, w'; do ! (split=> //); exact: row_map. Qed.
Lemma rows_text_map o t zs o' : rows_text numeral o t zs o' -> rows_text (mword M) o t (map (map (res_of M)) zs) o'.
Proof.
elim=> {o t zs o'} [o|o l v k t vs o' hl hn _ IH]; first exact: rt_nil.
by apply: rt_cons IH => //; exact: row_line_map.
Qed.
Variable c : cache.
Hypothesis hM : (1 <= M <= MAXM)%coqZ.
Lemma mod_read m0 x rs rr t zs rest : t_rows m0 = (x :: rs) :: rr -> im_valid M x -> file_text t zs rest ->
  mat_in_stream (im_cops c) im_getz m0 (open_text t) =
  match check_ragged zs with
  | Some n => Ok (Some (mkmat (map (map (res_of M)) zs) n), after rest)
  | None => Ok (None, set_bad (after rest))
  end.
Proof.
move=> hm hx [t1 [o1 [t2 [o2 [u [-> h1 h2 h3 h4]]]]]].
rewrite (mat_read _ _ _ _ (im_zz c _ hM) (im_rd _ hM) (@mword_sp _) _ _ _ _ _ _ _ _ _ _ _ hm (im_sub_self c _ hM _ hx) h1 (rows_text_map h2) _ h4); last by case: (zs) h3.
have -> : check_ragged (map (map (res_of M)) zs) = check_ragged zs.
  case: (zs) h3 => //= z l _; rewrite !lengthE size_map.
  by congr (if _ then _ else _); elim: (l) => //= y l' ->; rewrite !lengthE size_map.
by case: (check_ragged zs).
Qed.
End M.

Section Fp.
Variables (p : nat) (c : cache) (fs : string -> option (seq ascii)).
Hypotheses (pp : prime p) (pM : Z.le (Z.of_nat p) 46341).
Local Notation P := (Z.of_nat p).
Local Notation load := (im_load c P fs).
Let hP : (1 <= P <= MAXM)%coqZ. Proof. by have := prime_gt1 pp; rewrite /MAXM; move: pM; clear; lia. Qed.
Local Transparent tmx_buf_size.
Lemma Nmax : Z.le (Z.of_nat tmx_buf_size) INT_MAX.
Proof. by rewrite /tmx_buf_size Nat2Z.inj_pow; vm_compute. Qed.
Local Opaque tmx_buf_size.
Lemma load_files_ok : (forall s t, fs s = Some t -> ~ List.In "-"%char t /\ (List.length t < tmx_buf_size)%coq_nat) -> files_ok p load.
Proof.
move=> h s; move: (im_load_ok c _ hP fs s (h s)); apply: good_imp => t [h1 [h2 h3]].
have := Nmax; move: h1 h2 h3; move: (t_nr t) (t_nc t) (tmx_buf_size) => a b N; clear => h1 h2 h3 h4.
have h2' : Z.lt (Z.of_nat a) (Z.of_nat N) by apply/inj_lt.
have h3' : Z.lt (Z.of_nat b) (Z.of_nat N) by apply/inj_lt.
by split=> //; apply: Z.lt_le_incl; [exact: Z.lt_le_trans h2' h4|exact: Z.lt_le_trans h3' h4].
Qed.
Lemma lit_file s t zs n rest : ~ List.In "["%char (list_ascii_of_string s) -> fs s = Some t -> file_text t zs rest -> width zs n ->
  im_lit p load s = Some (WM (\matrix_(i < size zs, j < n) ((int_of_Z (nth 0%coqZ (nth [::] zs i) j))%:~R : 'F_p))).
Proof.
move=> hb hs ht hw; rewrite /im_lit /mat_scan (strchr_none _ hb) /im_load hs /mat_load.
rewrite (mod_read (m0 := mkmat [:: [:: mkim 0 P]] 1) c hP erefl (z_valid _ hP) ht).
have hz : zs <> [::] by case: ht => [? [? [? [? [? []]]]]].
rewrite (ragged_ok _ _ hz hw) /= .
congr Some.
have e : t_nr (mkmat (map (map (res_of P)) zs) n) = size zs by rewrite /t_nr lengthE /= size_map.
rewrite -(WM_cast e (erefl n)); congr WM; apply/matrixP=> i j; rewrite castmxE !mxE /=.
have hi : (i < size zs)%N by [].
rewrite (nth_map [::]) // (nth_map 0%coqZ) ?Ip_res //.
rewrite -lengthE (hw (nth [::] zs i)) //.
have hN T (l : seq T) d k' : List.nth k' l d = nth d l k' by elim: l k' => [|z' l IHl] [|k'] //=.
by rewrite -hN; apply: nth_In; rewrite lengthE; apply/ltP.
Qed.
Lemma lit_file_ragged s t zs rest : ~ List.In "["%char (list_ascii_of_string s) -> fs s = Some t -> file_text t zs rest -> (forall n, ~ width zs n) ->
  im_lit p load s = None.
Proof.
move=> hb hs ht hw; rewrite /im_lit /mat_scan (strchr_none _ hb) /im_load hs /mat_load.
rewrite (mod_read (m0 := mkmat [:: [:: mkim 0 P]] 1) c hP erefl (z_valid _ hP) ht).
by rewrite (ragged_no _ hw).
Qed.
End Fp.
