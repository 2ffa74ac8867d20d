(* Matrices as text: lines, rows, comments; reading and printing. *)
From Verif Require Import Base MIntMath MIntmod MMat MMatCli MBits MTextIO PIntMath PIntMath2 PIntmod PMatCli5 PMatCli8.
Require Import Lia.
Import ListNotations.
Open Scope nat_scope.
Local Opaque tmx_buf_size tvec_buf_size bmx_buf_size.

Definition space (c : ascii) : Prop := is_space c = true.
Definition spaces (w : list ascii) : Prop := Forall space w.
(* the part of a line that counts: up to # (or NUL) *)
Definition body (l b : list ascii) : Prop :=
  ~ In "#"%char b /\ ~ In "000"%char b /\ (l = b \/ exists c r, l = b ++ c :: r /\ (c = "#"%char \/ c = "000"%char)).
Definition one_line (l : list ascii) : Prop := ~ In newline l.

Lemma body_eq l b : body l b -> uncomment (cstr l) = b.
Proof.
  intros (H1 & H2 & [->|(c & r & -> & Hc)]).
  - assert (E : cstr b = b).
    { clear H1. induction b as [|x b IH]; [reflexivity|]. cbn. destruct (Ascii.eqb_spec x "000"); [subst; destruct H2; left; reflexivity|].
      f_equal. apply IH. intros H. apply H2. right. exact H. }
    rewrite E. clear H2 E. induction b as [|x b IH]; [reflexivity|]. cbn.
    destruct (Ascii.eqb_spec x "#"); [subst; destruct H1; left; reflexivity|]. f_equal. apply IH. intros H. apply H1. right. exact H.
  - induction b as [|x b IH].
    + cbn. destruct Hc as [->| ->]; reflexivity.
    + cbn. destruct (Ascii.eqb_spec x "000"); [subst; destruct H2; left; reflexivity|]. cbn.
      destruct (Ascii.eqb_spec x "#"); [subst; destruct H1; left; reflexivity|]. f_equal. apply IH.
      * intros H; apply H1; right; exact H.
      * intros H; apply H2; right; exact H.
Qed.
Lemma cut_nl l t : one_line l -> cut_line (l ++ newline :: t) = (l, Some t).
Proof.
  induction l as [|c l IH]; intros H; [reflexivity|]. cbn. destruct (Ascii.eqb_spec c "010"); [subst; destruct H; left; reflexivity|].
  rewrite IH; [reflexivity|]. intros Hx; apply H; right; exact Hx.
Qed.
Lemma cut_end l : one_line l -> cut_line l = (l, None).
Proof.
  induction l as [|c l IH]; intros H; [reflexivity|]. cbn. destruct (Ascii.eqb_spec c "010"); [subst; destruct H; left; reflexivity|].
  rewrite IH; [reflexivity|]. intros Hx; apply H; right; exact Hx.
Qed.
Lemma cut_all t : match cut_line t with
  | (l, Some r) => t = l ++ newline :: r /\ one_line l
  | (l, None) => t = l /\ one_line l
  end.
Proof.
  induction t as [|c t IH]; cbn; [split; [reflexivity|intros []]|]. destruct (Ascii.eqb_spec c "010").
  - subst. split; [reflexivity|intros []].
  - destruct (cut_line t) as [l [r|]]; destruct IH as [-> H].
    + split; [reflexivity|]. intros [Hx|Hx]; [exact (n Hx)|exact (H Hx)].
    + split; [reflexivity|]. intros [Hx|Hx]; [exact (n Hx)|exact (H Hx)].
Qed.
Lemma getline_nl n l t : one_line l -> List.length l < n -> getline n (open_text (l ++ newline :: t)) = (l, open_text t).
Proof.
  intros H1 H2. unfold getline. cbn [good i_eof failed i_fail i_bad open_text negb orb andb i_text]. rewrite cut_nl by assumption.
  destruct (Nat.leb_spec (List.length l) (n - 1)); [reflexivity|lia].
Qed.
Lemma getline_end n l : one_line l -> List.length l < n ->
  getline n (open_text l) = (l, mkis [] true (match l with [] => true | _ => false end) false).
Proof.
  intros H1 H2. unfold getline. cbn [good i_eof failed i_fail i_bad open_text negb orb andb i_text]. rewrite cut_end by assumption.
  destruct (Nat.leb_spec (List.length l) (n - 1)); [reflexivity|lia].
Qed.
Lemma getline_long n l t : one_line l -> n <= List.length l -> 0 < n -> (t = [] \/ exists t', t = newline :: t') ->
  getline n (open_text (l ++ t)) = (firstn (n - 1) l, mkis (skipn (n - 1) (l ++ t)) false true false).
Proof.
  intros H1 H2 Hn Ht. unfold getline. cbn [good i_eof failed i_fail i_bad open_text negb orb andb i_text].
  destruct Ht as [->|(t' & ->)].
  - rewrite app_nil_r, cut_end by assumption. destruct (Nat.leb_spec (List.length l) (n - 1)); [lia|reflexivity].
  - rewrite cut_nl by assumption. destruct (Nat.leb_spec (List.length l) (n - 1)); [lia|reflexivity].
Qed.

Lemma drop_space_app w t : spaces w -> drop_space (w ++ t) = drop_space t.
Proof. induction 1 as [|c w Hc _ IH]; [reflexivity|]. cbn. rewrite Hc. exact IH. Qed.
Lemma drop_space_hd c t : is_space c = false -> drop_space (c :: t) = c :: t.
Proof. intros H. cbn. rewrite H. reflexivity. Qed.
Lemma drop_all w : spaces w -> drop_space w = [].
Proof. intros H. rewrite <- (app_nil_r w), drop_space_app by assumption. reflexivity. Qed.
Lemma strip_tail_app t c w : is_space c = false -> spaces w -> strip_tail ((t ++ [c]) ++ w) = t ++ [c].
Proof.
  intros Hc Hw. unfold strip_tail. rewrite rev_app_distr, drop_space_app.
  - rewrite rev_app_distr. cbn [rev app]. rewrite drop_space_hd by assumption. cbn. rewrite rev_involutive. reflexivity.
  - apply Forall_rev. exact Hw.
Qed.

Section In.
Context {A : Type} (o : cops A) (get : A -> list ascii -> res (option (A * list ascii * bool))) (z : A).
Variable word : list ascii -> A -> Prop.
Hypothesis Hz : c_sub o z z = Ok z.
Hypothesis R : reads (get z) word.
(* words have no spaces *)
Hypothesis word_sp : forall d a c, word d a -> In c d -> is_space c = false.

Definition row_line (l : list ascii) (v : list A) (k : nat) : Prop :=
  one_line l /\ exists w t w', body l (w ++ t ++ w') /\ spaces w /\ spaces w' /\ row word t v /\ (exists c t', t = c :: t' /\ ~ blank c) /\ k = List.length w.
Definition blank_line (l : list ascii) (k : nat) : Prop := one_line l /\ exists w, body l w /\ spaces w /\ k = List.length w.

Lemma row_last t v : row word t v -> exists t' c, t = t' ++ [c] /\ is_space c = false.
Proof.
  induction 1 as [b d a Hb Hw|b d a c t l Hb Hw Hc _ (t' & c' & E & Hs)].
  - destruct (exists_last (rd_ne _ _ R _ _ Hw)) as (d' & c & ->). exists (b ++ d'), c. rewrite app_assoc. split; [reflexivity|].
    apply (word_sp _ _ c Hw), in_or_app. right. left. reflexivity.
  - exists (b ++ d ++ t'), c'. rewrite E, !app_assoc. auto.
Qed.
Lemma row_first t v c t' : row word t v -> t = c :: t' -> ~ blank c -> is_space c = false.
Proof.
  intros H E Hc. destruct H as [b d a Hb Hw|b d a x u l Hb Hw Hx _].
  - destruct b as [|y b]; [|inversion Hb; subst; injection E as -> _; tauto]. cbn in E. subst d. apply (word_sp _ _ c Hw). left. reflexivity.
  - destruct b as [|y b]; [|inversion Hb; subst; injection E as -> _; tauto]. cbn in E.
    destruct d as [|y d]; [destruct (rd_ne _ _ R _ _ Hw eq_refl)|]. injection E as -> _. apply (word_sp _ _ c Hw). left. reflexivity.
Qed.
Lemma vec_iss_row t v : row word t v -> vec_iss o get [z] t = Ok (Some v).
Proof. intros H. unfold vec_iss. rewrite Hz. cbn [bind]. unfold vec_stream. apply (row_read (get z) word R _ _ H). lia. Qed.

Notation lines := (mat_lines o get).
Notation N := tmx_buf_size.
Lemma Npos : 0 < N. Proof. Local Transparent tmx_buf_size. unfold tmx_buf_size. Local Opaque tmx_buf_size. apply Nat.neq_0_lt_0, Nat.pow_nonzero. discriminate. Qed.
(* one line *)
Lemma step_blank f off l k t : blank_line l k -> off + List.length l < N ->
  lines (S f) z off [] (open_text (l ++ newline :: t)) = lines f z (off + k) [] (open_text t).
Proof.
  intros (H1 & w & Hb & Hw & ->) Hn. cbn [mat_lines]. cbn [open_text i_eof]. fold (open_text (l ++ newline :: t)).
  rewrite getline_nl by (auto; lia). destruct (Nat.ltb_spec N (off + (List.length l + 1))); [lia|].
  cbn [open_text i_eof failed i_fail i_bad orb]. rewrite (body_eq _ _ Hb), (drop_all w Hw). cbn [List.length]. rewrite Nat.sub_0_r. reflexivity.
Qed.
Lemma step_end f off rows l k t : rows <> [] -> blank_line l k -> off + List.length l < N ->
  lines (S f) z off rows (open_text (l ++ newline :: t)) = Ok (rows, true, open_text t).
Proof.
  intros Hr (H1 & w & Hb & Hw & ->) Hn. cbn [mat_lines]. cbn [open_text i_eof]. fold (open_text (l ++ newline :: t)).
  rewrite getline_nl by (auto; lia). destruct (Nat.ltb_spec N (off + (List.length l + 1))); [lia|].
  cbn [open_text i_eof failed i_fail i_bad orb]. rewrite (body_eq _ _ Hb), (drop_all w Hw).
  change (is_whitespace_line (strip_tail [])) with true. cbn match. destruct rows; [congruence|reflexivity].
Qed.
Lemma row_strip w t w' v : spaces w -> spaces w' -> row word t v -> (exists c t', t = c :: t' /\ ~ blank c) ->
  drop_space (w ++ t ++ w') = t ++ w' /\ strip_tail (t ++ w') = t /\ is_whitespace_line t = false.
Proof.
  intros Hw Hw' Hr (c & t' & E & Hc). pose proof (row_first _ _ _ _ Hr E Hc) as Hs.
  split; [|split].
  - rewrite drop_space_app by assumption. rewrite E. apply drop_space_hd. assumption.
  - destruct (row_last _ _ Hr) as (u & c' & -> & Hs'). apply strip_tail_app; assumption.
  - rewrite E. cbn. rewrite Hs. reflexivity.
Qed.
Lemma step_row f off rows l v k t : row_line l v k -> off + List.length l < N ->
  lines (S f) z off rows (open_text (l ++ newline :: t)) = lines f z (off + k) (v :: rows) (open_text t).
Proof.
  intros (H1 & w & u & w' & Hb & Hw & Hw' & Hr & Hc & ->) Hn. cbn [mat_lines]. cbn [open_text i_eof]. fold (open_text (l ++ newline :: t)).
  rewrite getline_nl by (auto; lia). destruct (Nat.ltb_spec N (off + (List.length l + 1))); [lia|].
  cbn [open_text i_eof failed i_fail i_bad orb]. rewrite (body_eq _ _ Hb).
  destruct (row_strip _ _ _ _ Hw Hw' Hr Hc) as (E1 & E2 & E3). rewrite E1, E2, E3, (vec_iss_row _ _ Hr). cbn [bind].
  rewrite !app_length. f_equal. lia.
Qed.
(* the last line, without newline *)
Lemma step_eof f off rows l : one_line l -> off + List.length l < N ->
  lines (S f) z off rows (open_text l) = Ok (rows, true, open_text []).
Proof.
  intros H1 Hn. cbn [mat_lines]. cbn [open_text i_eof]. fold (open_text l).
  rewrite getline_end by (auto; lia). destruct (Nat.ltb_spec N (off + (List.length l + 1))); [lia|]. reflexivity.
Qed.
(* a line that does not fit *)
Lemma step_over f off rows l t : one_line l -> (t = [] \/ exists t', t = newline :: t') -> 0 < off -> N <= off + List.length l ->
  lines (S f) z off rows (open_text (l ++ t)) = UB.
Proof.
  intros H1 Ht Ho Hn. pose proof Npos. cbn [mat_lines]. cbn [open_text i_eof]. fold (open_text (l ++ t)).
  destruct (Nat.le_gt_cases N (List.length l)) as [G|G].
  - rewrite (getline_long N l t) by auto. rewrite firstn_length, Nat.min_l by lia.
    destruct (Nat.ltb_spec N (off + (N - 1 + 1))); [reflexivity|lia].
  - destruct Ht as [->|(t' & ->)].
    + rewrite app_nil_r. rewrite getline_end by auto. destruct (Nat.ltb_spec N (off + (List.length l + 1))); [reflexivity|lia].
    + rewrite getline_nl by auto. destruct (Nat.ltb_spec N (off + (List.length l + 1))); [reflexivity|lia].
Qed.
Lemma step_long f rows l t : one_line l -> (t = [] \/ exists t', t = newline :: t') -> N <= List.length l ->
  exists s, lines (S f) z 0 rows (open_text (l ++ t)) = Ok (rows, true, s) /\ failed s = true.
Proof.
  intros H1 Ht Hn. pose proof Npos. cbn [mat_lines]. cbn [open_text i_eof]. fold (open_text (l ++ t)).
  rewrite (getline_long N l t) by auto. rewrite firstn_length, Nat.min_l by lia.
  destruct (Nat.ltb_spec N (0 + (N - 1 + 1))); [lia|]. cbn. eexists. split; reflexivity.
Qed.

(* off: the sum of the indentations so far *)
Inductive blanks_text : nat -> list ascii -> nat -> Prop :=
| bt_nil off : blanks_text off [] off
| bt_cons off l k t off' : blank_line l k -> off + List.length l < N -> blanks_text (off + k) t off' ->
    blanks_text off (l ++ newline :: t) off'.
Inductive rows_text : nat -> list ascii -> list (list A) -> nat -> Prop :=
| rt_nil off : rows_text off [] [] off
| rt_cons off l v k t vs off' : row_line l v k -> off + List.length l < N -> rows_text (off + k) t vs off' ->
    rows_text off (l ++ newline :: t) (v :: vs) off'.
Lemma run_blanks off t off' : blanks_text off t off' -> forall f u, List.length (t ++ u) < f ->
  exists f', List.length u < f' /\ lines f z off [] (open_text (t ++ u)) = lines f' z off' [] (open_text u).
Proof.
  induction 1 as [off|off l k t off' Hl Hn _ IH]; intros f u Hf; [exists f; auto|].
  rewrite <- app_assoc in *. cbn [app] in *. destruct f as [|f]; [lia|]. rewrite (step_blank _ _ _ _ _ Hl Hn).
  apply IH. rewrite app_length in Hf. cbn [List.length] in Hf. lia.
Qed.
Lemma run_rows off t vs off' : rows_text off t vs off' -> forall f u rows, List.length (t ++ u) < f ->
  exists f', List.length u < f' /\ lines f z off rows (open_text (t ++ u)) = lines f' z off' (rev vs ++ rows) (open_text u).
Proof.
  induction 1 as [off|off l v k t vs off' Hl Hn _ IH]; intros f u rows Hf; [exists f; auto|].
  rewrite <- app_assoc in *. cbn [app] in *. destruct f as [|f]; [lia|]. rewrite (step_row _ _ _ _ _ _ _ Hl Hn).
  destruct (IH f u (v :: rows)) as (f' & H1 & H2); [rewrite app_length in Hf; cbn [List.length] in Hf; lia|].
  exists f'. split; [assumption|]. rewrite H2. cbn [rev]. rewrite <- app_assoc. reflexivity.
Qed.

(* what follows the rows: nothing, a last line without newline, or a blank line and any text *)
Inductive rest_text (off : nat) : list ascii -> list ascii -> Prop :=
| re_end l : one_line l -> off + List.length l < N -> rest_text off l []
| re_blank l k t : blank_line l k -> off + List.length l < N -> rest_text off (l ++ newline :: t) t.
Lemma run_rest off u rest f rows : rest_text off u rest -> rows <> [] -> lines (S f) z off rows (open_text u) = Ok (rows, true, open_text rest).
Proof. intros [l H1 H2|l k t H1 H2] Hr; [apply step_eof; assumption|apply (step_end _ _ _ _ k); assumption]. Qed.

Definition after (rest : list ascii) : istr := mkis rest (match rest with [] => true | _ => false end) false false.
Lemma peek_after rest : (let '(e, s) := peek_eof (open_text rest) in if e : bool then set_eof s else s) = after rest.
Proof. destruct rest; reflexivity. Qed.
Lemma mat_read m0 x rs rr t1 off1 t2 vs off2 u rest :
  t_rows m0 = (x :: rs) :: rr -> c_sub o x x = Ok z -> blanks_text 0 t1 off1 -> rows_text off1 t2 vs off2 -> vs <> [] -> rest_text off2 u rest ->
  mat_in_stream o get m0 (open_text (t1 ++ t2 ++ u)) =
  match check_ragged vs with
  | Some n => Ok (Some (mkmat vs n), after rest)
  | None => Ok (None, set_bad (after rest))
  end.
Proof.
  intros Hm Hx Hb Hr Hv Hu. unfold mat_in_stream. rewrite Hm, Hx. cbn [bind].
  destruct (run_blanks _ _ _ Hb (S (S (List.length (t1 ++ t2 ++ u)))) (t2 ++ u) ltac:(lia)) as (f1 & F1 & E1).
  change (i_text (open_text (t1 ++ t2 ++ u))) with (t1 ++ t2 ++ u). rewrite E1.
  destruct (run_rows _ _ _ _ Hr f1 u [] F1) as (f2 & F2 & E2). rewrite E2, app_nil_r.
  destruct f2 as [|f2]; [lia|].
  assert (Hne : rev vs <> []) by (intros H; apply Hv; rewrite <- (rev_involutive vs), H; reflexivity).
  rewrite (run_rest _ _ _ _ _ Hu Hne). cbn [bind]. rewrite peek_after, rev_involutive.
  destruct (rev vs); [congruence|]. reflexivity.
Qed.
End In.
