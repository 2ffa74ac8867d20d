(* Matrices as text: failures, any text, printing, files of integers modulo m. *)
From Verif Require Import Base MIntMath MIntmod MMat MMatCli MBits MTextIO PIntMath PIntMath2 PIntmod PMatCli5 PMatCli8 PTextIO.
Require Import Lia.
Import ListNotations.
Open Scope nat_scope.
Local Opaque tmx_buf_size tvec_buf_size bmx_buf_size.
Local Notation N := tmx_buf_size.

Section In.
Context {A : Type} (o : cops A) (get : A -> list ascii -> res (option (A * list ascii * bool))) (z : A).
Variable word : list ascii -> A -> Prop.
Hypothesis Hz : c_sub o z z = Ok z.
Hypothesis R : reads (get z) word.
Hypothesis word_sp : forall d a c, word d a -> In c d -> is_space c = false.
Notation lines := (mat_lines o get).

(* a line whose text between the spaces at both ends is t *)
Definition text_line (l t : list ascii) (k : nat) : Prop :=
  one_line l /\ exists w w', body l (w ++ t ++ w') /\ spaces w /\ spaces w' /\ k = List.length w /\
    (exists c t', t = c :: t' /\ is_space c = false) /\ (exists t' c, t = t' ++ [c] /\ is_space c = false).
Lemma step_bad f off rows l t k u : text_line l t k -> vec_stream (get z) t = Ok None -> off + List.length l < N ->
  exists s, lines (S f) z off rows (open_text (l ++ newline :: u)) = Ok (rows, false, s) /\ failed s = true.
Proof.
  intros (H1 & w & w' & Hb & Hw & Hw' & -> & (c & t1 & E1 & C1) & (t2 & c2 & E2 & C2)) Hv Hn.
  cbn [mat_lines]. cbn [open_text i_eof]. fold (open_text (l ++ newline :: u)).
  rewrite getline_nl by (auto; lia). destruct (Nat.ltb_spec N (off + (List.length l + 1))); [lia|].
  cbn [open_text i_eof failed i_fail i_bad orb]. rewrite (body_eq _ _ Hb).
  rewrite drop_space_app by assumption. replace (drop_space (t ++ w')) with (t ++ w'); [|rewrite E1; cbn [app]; rewrite drop_space_hd; auto].
  replace (strip_tail (t ++ w')) with t; [|rewrite E2; rewrite strip_tail_app; auto].
  replace (is_whitespace_line t) with false; [|rewrite E1; cbn; rewrite C1; reflexivity].
  unfold vec_iss. rewrite Hz. cbn [bind]. rewrite Hv. cbn [bind]. eexists. split; reflexivity.
Qed.
Lemma mat_bad m0 x rs rr t1 off1 t2 vs off2 l t k u :
  t_rows m0 = (x :: rs) :: rr -> c_sub o x x = Ok z -> blanks_text 0 t1 off1 -> rows_text word off1 t2 vs off2 ->
  text_line l t k -> vec_stream (get z) t = Ok None -> off2 + List.length l < N ->
  exists s, mat_in_stream o get m0 (open_text (t1 ++ t2 ++ l ++ newline :: u)) = Ok (None, s) /\ failed s = true.
Proof.
  intros Hm Hx Hb Hr Hl Hv Hn. unfold mat_in_stream. rewrite Hm, Hx. cbn [bind].
  set (T := t1 ++ t2 ++ l ++ newline :: u). change (i_text (open_text T)) with T.
  destruct (run_blanks o get z word word_sp _ _ _ Hb (S (S (List.length T))) (t2 ++ l ++ newline :: u) ltac:(unfold T; lia)) as (f1 & F1 & E1).
  fold T in E1. rewrite E1. destruct (run_rows o get z word Hz R word_sp _ _ _ _ Hr f1 (l ++ newline :: u) [] F1) as (f2 & F2 & E2). rewrite E2.
  destruct f2 as [|f2]; [lia|]. destruct (step_bad f2 off2 (rev vs ++ []) l t k u Hl Hv Hn) as (s & E & Hs). rewrite E. cbn [bind].
  exists s. auto.
Qed.
Lemma mat_empty m0 x rs rr t1 off1 l : t_rows m0 = (x :: rs) :: rr -> c_sub o x x = Ok z -> blanks_text 0 t1 off1 ->
  one_line l -> off1 + List.length l < N -> exists s, mat_in_stream o get m0 (open_text (t1 ++ l)) = Ok (None, s) /\ failed s = true.
Proof.
  intros Hm Hx Hb Hl Hn. unfold mat_in_stream. rewrite Hm, Hx. cbn [bind]. change (i_text (open_text (t1 ++ l))) with (t1 ++ l).
  destruct (run_blanks o get z word word_sp _ _ _ Hb (S (S (List.length (t1 ++ l)))) l ltac:(lia)) as (f1 & F1 & E1). rewrite E1.
  destruct f1 as [|f1]; [lia|]. rewrite (step_eof o get z word word_sp) by assumption. cbn [bind]. eexists. split; reflexivity.
Qed.
(* a line that does not fit the rest of the buffer *)
Lemma mat_over m0 x rs rr t1 off1 t2 vs off2 l u :
  t_rows m0 = (x :: rs) :: rr -> c_sub o x x = Ok z -> blanks_text 0 t1 off1 -> rows_text word off1 t2 vs off2 ->
  one_line l -> (u = [] \/ exists u', u = newline :: u') -> 0 < off2 -> N <= off2 + List.length l ->
  mat_in_stream o get m0 (open_text (t1 ++ t2 ++ l ++ u)) = UB.
Proof.
  intros Hm Hx Hb Hr Hl Hu H0 Hn. unfold mat_in_stream. rewrite Hm, Hx. cbn [bind].
  set (T := t1 ++ t2 ++ l ++ u). change (i_text (open_text T)) with T.
  destruct (run_blanks o get z word word_sp _ _ _ Hb (S (S (List.length T))) (t2 ++ l ++ u) ltac:(unfold T; lia)) as (f1 & F1 & E1).
  fold T in E1. rewrite E1. destruct (run_rows o get z word Hz R word_sp _ _ _ _ Hr f1 (l ++ u) [] F1) as (f2 & F2 & E2). rewrite E2.
  destruct f2 as [|f2]; [lia|]. rewrite (step_over o get z word word_sp) by assumption. reflexivity.
Qed.
(* the first line is too long for the buffer *)
Lemma mat_long m0 x rs rr l u : t_rows m0 = (x :: rs) :: rr -> c_sub o x x = Ok z ->
  one_line l -> (u = [] \/ exists u', u = newline :: u') -> N <= List.length l ->
  exists s, mat_in_stream o get m0 (open_text (l ++ u)) = Ok (None, s) /\ failed s = true.
Proof.
  intros Hm Hx Hl Hu Hn. unfold mat_in_stream. rewrite Hm, Hx. cbn [bind].
  destruct (step_long o get z word word_sp (S (List.length (i_text (open_text (l ++ u))))) [] l u Hl Hu Hn) as (s & E & Hs). rewrite E. cbn [bind].
  eexists. split; [reflexivity|]. destruct (peek_eof s) as [e s'] eqn:Ep. unfold peek_eof in Ep.
  unfold good in Ep. rewrite Hs in Ep. rewrite Bool.andb_false_r in Ep. injection Ep as <- <-. unfold failed. cbn. reflexivity.
Qed.

(* ---- printing ---- *)
Context (put : A -> list ascii) (V : A -> Prop).
Hypothesis put_word : forall a, V a -> word (put a) a.
Hypothesis word_ok : forall d a, word d a -> ~ In "#"%char d /\ ~ In "000"%char d.
Lemma sp_nb c : is_space c = false -> ~ blank c.
Proof. intros H [->| ->]; discriminate. Qed.
Lemma vec_out_row v : v <> [] -> Forall V v -> row word (vec_out put v) v /\ exists c t', vec_out put v = c :: t' /\ ~ blank c.
Proof.
  intros Hv H. induction H as [|x v Hx H IH]; [congruence|].
  pose proof (put_word x Hx) as Hw. assert (Hh : exists c d, put x = c :: d /\ ~ blank c).
  { destruct (put x) as [|c d] eqn:E; [destruct (rd_ne _ _ R _ _ Hw eq_refl)|]. exists c, d. split; [reflexivity|].
    apply sp_nb, (word_sp _ _ c Hw). left. reflexivity. }
  destruct v as [|y v].
  - cbn. split; [|assumption]. change (put x) with ([] ++ put x) at 1. constructor; [constructor|assumption].
  - destruct IH as [IH (c' & t' & E & Hc')]; [discriminate|]. change (vec_out put (x :: y :: v)) with (put x ++ " "%char :: vec_out put (y :: v)). split.
    + apply (row_cons word [] (put x) x); [constructor|assumption|left; reflexivity|].
      assert (K : forall t l, row word t l -> row word (" "%char :: t) l); [|exact (K _ _ IH)].
      intros t l [b d a Hb Hw'|b d a c u l' Hb Hw' Hc Hr].
      * apply (row_one word (" "%char :: b)); [constructor; [left; reflexivity|assumption]|assumption].
      * apply (row_cons word (" "%char :: b)); [constructor; [left; reflexivity|assumption]|assumption..].
    + destruct Hh as (c & d & -> & Hc). exists c, (d ++ " "%char :: vec_out put (y :: v)). auto.
Qed.
Lemma vec_out_chars v c : Forall V v -> In c (vec_out put v) -> c = " "%char \/ exists a, V a /\ In c (put a).
Proof.
  intros H. induction H as [|x v Hx H IH]; [intros []|]. destruct v as [|y v].
  - cbn. intros Hc. right. exists x. auto.
  - change (vec_out put (x :: y :: v)) with (put x ++ " "%char :: vec_out put (y :: v)). intros Hc. apply in_app_or in Hc as [Hc|[<-|Hc]]; [right; exists x; auto|left; reflexivity|auto].
Qed.
Lemma out_row_line v : v <> [] -> Forall V v -> row_line word (vec_out put v) v 0.
Proof.
  intros Hv H. destruct (vec_out_row v Hv H) as [H1 H2].
  assert (Hch : forall c, In c (vec_out put v) -> c <> newline /\ c <> "#"%char /\ c <> "000"%char).
  { intros c Hc. apply (vec_out_chars v c H) in Hc as [->|(a & Ha & Hc)]; [repeat split; discriminate|].
    pose proof (put_word a Ha) as Hw. destruct (word_ok _ _ Hw) as [W1 W2].
    split; [|split; intros ->; contradiction]. intros ->. pose proof (word_sp _ _ _ Hw Hc). discriminate. }
  split; [intros Hx; apply Hch in Hx; tauto|]. exists [], (vec_out put v), []. rewrite app_nil_r. cbn [app].
  split; [|split; [constructor|split; [constructor|auto]]]. split; [|split; [|left; reflexivity]].
  - intros Hx; apply Hch in Hx; tauto.
  - intros Hx; apply Hch in Hx; tauto.
Qed.
Definition fits (v : list A) : Prop := List.length (vec_out put v) < N.
Lemma out_rows vs : Forall (fun v => v <> [] /\ Forall V v /\ fits v) vs ->
  rows_text word 0 (List.concat (map (fun r => vec_out put r ++ [newline]) vs)) vs 0.
Proof.
  induction 1 as [|v vs (H1 & H2 & H3) _ IH]; [constructor|]. cbn [map List.concat]. rewrite <- app_assoc. cbn [app].
  apply (rt_cons word 0 _ v 0); [apply out_row_line; assumption|exact H3|exact IH].
Qed.
Lemma round_trip m0 x rs rr m u rest : t_rows m0 = (x :: rs) :: rr -> c_sub o x x = Ok z ->
  t_rows m <> [] -> t_nc m <> 0 -> Forall (fun v => List.length v = t_nc m /\ Forall V v /\ fits v) (t_rows m) ->
  rest_text 0 u rest ->
  mat_in_stream o get m0 (open_text (mat_out put m ++ u)) = Ok (Some m, after rest).
Proof.
  intros Hm Hx Hn Hc Hf Hu.
  assert (Hr : rows_text word 0 (mat_out put m) (t_rows m) 0).
  { apply out_rows. apply (Forall_impl _ (P := fun v => List.length v = t_nc m /\ Forall V v /\ fits v)); [|exact Hf].
    intros v (H1 & H2 & H3). split; [|auto]. intros ->. apply Hc. symmetry. exact H1. }
  pose proof (mat_read o get z word Hz R word_sp m0 x rs rr [] 0 _ _ 0 u rest Hm Hx (bt_nil 0) Hr Hn Hu) as E.
  cbn [app] in E. rewrite E. rewrite (ragged_ok (t_rows m) (t_nc m)).
  - destruct m; reflexivity.
  - exact Hn.
  - intros r Hr'. rewrite Forall_forall in Hf. apply Hf in Hr'. apply Hr'.
Qed.

(* ---- vectors ---- *)
Lemma cstr_id l : ~ In "000"%char l -> cstr l = l.
Proof.
  induction l as [|c l IH]; intros H; [reflexivity|]. cbn. destruct (Ascii.eqb_spec c "000"); [subst; destruct H; left; reflexivity|].
  f_equal. apply IH. intros Hx; apply H; right; exact Hx.
Qed.
Lemma vec_in_line v0 x l v t : c_sub o x x = Ok z -> one_line l -> ~ In "000"%char l -> row word l v -> List.length l < tvec_buf_size ->
  vec_in_stream o get (x :: v0) (open_text (l ++ newline :: t)) = Ok (Some v, open_text t) /\
  vec_in_stream o get (x :: v0) (open_text l) = Ok (Some v, mkis [] true false false).
Proof using R word_sp.
  clear word_ok put_word put V.
  intros Hx H1 H2 Hr Hl. unfold vec_in_stream. rewrite getline_nl, getline_end by assumption. cbn [fst snd].
  rewrite cstr_id by assumption. unfold vec_iss. rewrite Hx. cbn [bind].
  assert (E : vec_stream (get z) l = Ok (Some v)) by (apply (row_read (get z) word R _ _ Hr); lia).
  rewrite E. cbn [bind]. split; [reflexivity|].
  assert (l <> []) by (intros ->; destruct (row_last get z word R word_sp _ _ Hr) as (t' & c & E' & _); destruct t'; discriminate).
  destruct l; [congruence|reflexivity].
Qed.
Lemma vec_in_long v0 l t r s : one_line l -> (t = [] \/ exists t', t = newline :: t') -> tvec_buf_size <= List.length l -> 0 < tvec_buf_size ->
  vec_in_stream o get v0 (open_text (l ++ t)) = Ok (r, s) -> failed s = true.
Proof.
  intros H1 Ht Hl H0. unfold vec_in_stream. rewrite getline_long by assumption.
  destruct (vec_iss o get v0 _) as [[v|]| | |]; cbn [bind]; try discriminate; intros [= <- <-]; reflexivity.
Qed.
End In.

(* ---- any text ---- *)
Section Any.
Context {A : Type} (o : cops A) (get : A -> list ascii -> res (option (A * list ascii * bool))) (z : A) (Va : A -> Prop).
Hypothesis Hz : c_sub o z z = Ok z.
Hypothesis Hget : forall s, minus_free s -> good_res (fun '(a, r, _) => Va a /\ List.length r < List.length s /\ minus_free r) (get z s).
Notation lines := (mat_lines o get).
Lemma cstr_sub l : List.length (cstr l) <= List.length l /\ forall x, In x (cstr l) -> In x l.
Proof. induction l as [|c l [H1 H2]]; cbn; [auto|]. destruct (c =? "000")%char; cbn; split; try lia; try tauto. intros x [H|H]; auto. Qed.
Lemma uncomment_sub l : List.length (uncomment l) <= List.length l /\ forall x, In x (uncomment l) -> In x l.
Proof. induction l as [|c l [H1 H2]]; cbn; [auto|]. destruct (c =? "#")%char; cbn; split; try lia; try tauto. intros x [H|H]; auto. Qed.
Lemma drop_sub l : List.length (drop_space l) <= List.length l /\ forall x, In x (drop_space l) -> In x l.
Proof. induction l as [|c l [H1 H2]]; cbn; [auto|]. destruct (is_space c); cbn; split; auto. Qed.
Lemma strip_sub l : List.length (strip_tail l) <= List.length l /\ forall x, In x (strip_tail l) -> In x l.
Proof.
  unfold strip_tail. rewrite rev_length. destruct (drop_sub (rev l)) as [H1 H2]. rewrite rev_length in H1. split; [assumption|].
  intros x Hx. apply in_rev in Hx. apply H2 in Hx. apply in_rev. assumption.
Qed.
Lemma lines_valid k f : forall off rows s, List.length (i_text s) < f -> off + List.length (i_text s) < N -> minus_free (i_text s) ->
  Forall (vrow Va k) rows -> List.length rows + List.length (i_text s) <= k ->
  match lines f z off rows s with
  | Ok (rows, _, _) => Forall (vrow Va k) rows /\ List.length rows <= k
  | _ => False
  end.
Proof.
  induction f as [|f IH]; intros off rows s Hf Ho Hm Hr Hk; [lia|]. cbn [mat_lines].
  destruct (i_eof s) eqn:Ee; [split; [assumption|lia]|].
  unfold getline. destruct (good s) eqn:Eg.
  - pose proof (cut_all (i_text s)) as Hc. destruct (cut_line (i_text s)) as [l [t|]]; destruct Hc as [Ht Hl]; rewrite Ht in *.
    + rewrite app_length in *. cbn [List.length] in *. destruct (Nat.leb_spec (List.length l) (N - 1)); [|lia].
      destruct (Nat.ltb_spec N (off + (List.length l + 1))); [lia|]. cbn [i_eof failed i_fail i_bad orb].
      destruct (cstr_sub l) as [C1 C2]. destruct (uncomment_sub (cstr l)) as [U1 U2]. set (b := uncomment (cstr l)) in *.
      destruct (drop_sub b) as [D1 D2]. destruct (strip_sub (drop_space b)) as [S1 S2].
      assert (Hmt : minus_free t) by (intros Hx; apply Hm, in_or_app; right; right; exact Hx).
      assert (Hoff : off + (List.length b - List.length (drop_space b)) + List.length t < N) by lia.
      destruct (is_whitespace_line _).
      * destruct rows as [|r rows]; [|split; [assumption|lia]]. apply IH; cbn [i_text]; auto; cbn [List.length] in *; lia.
      * unfold vec_iss. rewrite Hz. cbn [bind].
        assert (Hmb : minus_free (strip_tail (drop_space b))) by (intros Hx; apply Hm, in_or_app; left; auto).
        pose proof (vec_stream_valid (get z) Va Hget _ Hmb) as Hv.
        destruct (vec_stream (get z) _) as [[r|]| | |]; cbn [bind good_res] in *; try contradiction.
        -- apply IH; cbn [i_text]; auto; try lia; [|cbn; lia]. constructor; [|assumption]. apply (vrow_le Va (List.length (strip_tail (drop_space b)))); [lia|assumption].
        -- split; [assumption|lia].
    + destruct (Nat.leb_spec (List.length l) (N - 1)); [|lia].
      destruct (Nat.ltb_spec N (off + (List.length l + 1))); [lia|]. cbn [i_eof]. split; [assumption|lia].
  - destruct (Nat.ltb_spec N (off + (@List.length ascii [] + 1))); [cbn in *; lia|]. cbn [i_eof set_fail]. rewrite Ee.
    cbn [failed set_fail i_fail orb]. split; [assumption|lia].
Qed.
Lemma mat_load_valid file : minus_free file -> List.length file < N ->
  good_res (fun t => vmat Va t /\ t_nr t <= List.length file /\ t_nc t <= List.length file) (mat_load o get z file).
Proof.
  intros Hm Hl. unfold mat_load, mat_in_stream. cbn [t_rows]. rewrite Hz. cbn [bind].
  pose proof (lines_valid (List.length file) (S (S (List.length (i_text (open_text file))))) 0 [] (open_text file)) as H.
  cbn [i_text open_text] in *. fold (open_text file) in *. specialize (H ltac:(lia) ltac:(lia) Hm ltac:(constructor) ltac:(cbn; lia)).
  destruct (mat_lines _ _ _ _ _ _ _) as [[[rows go] s]| | |]; try contradiction. cbn [bind]. destruct H as [H1 H2].
  destruct go; [|cbn; destruct (failed s); exact I].
  set (s' := (let '(e, s) := peek_eof s in if e : bool then set_eof s else s)). clearbody s'.
  destruct rows as [|r0 rows0]; [cbn; destruct (failed _); exact I|]. set (rows := r0 :: rows0) in *.
  assert (Hne : rev rows <> []) by (intros Hx; apply (f_equal (@List.length _)) in Hx; rewrite rev_length in Hx; discriminate).
  destruct (check_ragged (rev rows)) as [n|] eqn:Er; [|cbn; destruct (failed _); exact I].
  cbn [bind]. destruct (failed s'); [exact I|]. cbn [good_res].
  unfold check_ragged in Er. destruct (rev rows) as [|r rs] eqn:Erev; [congruence|].
  destruct (forallb _ rs) eqn:Ef; [|discriminate]. injection Er as <-.
  assert (HF : Forall (vrow Va (List.length file)) (r :: rs)) by (rewrite <- Erev; apply Forall_rev; assumption).
  assert (HL : List.length (r :: rs) = List.length rows) by (rewrite <- Erev, rev_length; reflexivity).
  inversion HF as [|? ? (V1 & V2 & V3) R3]; subst. rewrite forallb_forall in Ef.
  unfold vmat, t_nr; cbn [t_rows t_nc]. repeat split; [discriminate|destruct r; [congruence|discriminate]| |lia|assumption].
  constructor; [auto|]. rewrite Forall_forall in *. intros x Hx. split; [apply Nat.eqb_eq, Ef, Hx|]. apply R3 in Hx. apply Hx.
Qed.
End Any.
