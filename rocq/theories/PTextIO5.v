(* Bit matrices as text: lines, files. *)
From Verif Require Import Base MIntMath MIntmod MMat MMatCli MBits MTextIO PMatCli5 PMatCli8 PBits PBits2 PTextIO PTextIO2 PTextIO3 PTextIO4.
Require Import Lia.
Import ListNotations.
Open Scope nat_scope.
Local Notation length := List.length.
Local Opaque tmx_buf_size tvec_buf_size bmx_buf_size.
Local Notation NB := bmx_buf_size.

Definition bit_line (l : list ascii) (bs : list bool) : Prop := one_line l /\ exists t, body l t /\ row bword t bs.
(* the same with blanks at the end *)
Definition bit_line_trail (l : list ascii) (bs : list bool) : Prop :=
  one_line l /\ exists t b, body l (t ++ b) /\ row bword t bs /\ blanks b /\ b <> [].
Lemma bword_sp d a c : bword d a -> In c d -> is_space c = false.
Proof. intros (v & (_ & H & _) & _) Hx. rewrite Forall_forall in H. apply digit_ok. auto. Qed.
Lemma bword_ne d a : bword d a -> d <> []. Proof. intros (v & (H & _) & _). exact H. Qed.
Lemma row_nonsp t bs : row bword t bs -> exists c, In c t /\ is_space c = false.
Proof.
  destruct 1 as [b d a Hb Hw|b d a c t l Hb Hw Hc _]; pose proof (bword_ne _ _ Hw); (destruct d as [|x d]; [congruence|]);
  exists x; (split; [apply in_or_app; right; left; reflexivity|apply (bword_sp _ _ _ Hw); left; reflexivity]).
Qed.
Lemma white_spaces w : spaces w -> is_whitespace_line w = true.
Proof. induction 1 as [|c w Hc _ IH]; [reflexivity|]. cbn in *. rewrite Hc. exact IH. Qed.
Lemma white_not t c : In c t -> is_space c = false -> is_whitespace_line t = false.
Proof.
  intros Hc Hs. destruct (is_whitespace_line t) eqn:E; [|reflexivity]. unfold is_whitespace_line in E. rewrite forallb_forall in E.
  rewrite (E _ Hc) in Hs. discriminate.
Qed.

Lemma bstep_blank f l k t : blank_line l k -> length l < NB ->
  bm_lines (S f) [] (open_text (l ++ newline :: t)) = bm_lines f [] (open_text t).
Proof.
  intros (H1 & w & Hb & Hw & ->) Hn. cbn [bm_lines]. cbn [open_text i_eof]. fold (open_text (l ++ newline :: t)).
  rewrite getline_nl by auto. cbn [open_text i_eof failed i_fail i_bad orb].
  rewrite (body_eq _ _ Hb), (white_spaces w Hw). reflexivity.
Qed.
Lemma bstep_end f rows l k t : rows <> [] -> blank_line l k -> length l < NB ->
  bm_lines (S f) rows (open_text (l ++ newline :: t)) = Ok (rows, true, open_text t).
Proof.
  intros Hr (H1 & w & Hb & Hw & ->) Hn. cbn [bm_lines]. cbn [open_text i_eof]. fold (open_text (l ++ newline :: t)).
  rewrite getline_nl by auto. cbn [open_text i_eof failed i_fail i_bad orb].
  rewrite (body_eq _ _ Hb), (white_spaces w Hw). destruct rows; [congruence|reflexivity].
Qed.
Lemma bstep_row f rows l bs t : bit_line l bs -> length l < NB -> exists v, B v bs /\
  bm_lines (S f) rows (open_text (l ++ newline :: t)) = bm_lines f (v :: rows) (open_text t).
Proof.
  intros (H1 & u & Hb & Hr) Hn. destruct (proj1 (bv_iss_row _ _ Hr)) as (v & E & Hv). exists v. split; [assumption|].
  cbn [bm_lines]. cbn [open_text i_eof]. fold (open_text (l ++ newline :: t)).
  rewrite getline_nl by auto. cbn [open_text i_eof failed i_fail i_bad orb]. rewrite (body_eq _ _ Hb).
  destruct (row_nonsp _ _ Hr) as (c & Hc & Hs). rewrite (white_not _ _ Hc Hs), E. reflexivity.
Qed.
Lemma bstep_trail f rows l bs t : bit_line_trail l bs -> length l < NB ->
  bm_lines (S f) rows (open_text (l ++ newline :: t)) = Ok (rows, false, set_fail (open_text t)).
Proof.
  intros (H1 & u & b & Hb & Hr & Hbl & Hne) Hn.
  cbn [bm_lines]. cbn [open_text i_eof]. fold (open_text (l ++ newline :: t)).
  rewrite getline_nl by auto. cbn [open_text i_eof failed i_fail i_bad orb]. rewrite (body_eq _ _ Hb).
  destruct (row_nonsp _ _ Hr) as (c & Hc & Hs). rewrite (white_not (u ++ b) c) by (auto; apply in_or_app; auto).
  rewrite (proj2 (bv_iss_row _ _ Hr) b Hbl Hne). reflexivity.
Qed.
Lemma bstep_eof f rows l : one_line l -> length l < NB -> bm_lines (S f) rows (open_text l) = Ok (rows, true, open_text []).
Proof.
  intros H1 Hn. cbn [bm_lines]. cbn [open_text i_eof]. fold (open_text l). rewrite getline_end by auto. reflexivity.
Qed.

Inductive bblanks_text : list ascii -> Prop :=
| bbt_nil : bblanks_text []
| bbt_cons l k t : blank_line l k -> length l < NB -> bblanks_text t -> bblanks_text (l ++ newline :: t).
Inductive brows_text : list ascii -> list (list bool) -> Prop :=
| brt_nil : brows_text [] []
| brt_cons l v t vs : bit_line l v -> length l < NB -> brows_text t vs -> brows_text (l ++ newline :: t) (v :: vs).
Inductive brest_text : list ascii -> list ascii -> Prop :=
| bre_end l : one_line l -> length l < NB -> brest_text l []
| bre_blank l k t : blank_line l k -> length l < NB -> brest_text (l ++ newline :: t) t.
Lemma brun_blanks t : bblanks_text t -> forall f u, length (t ++ u) < f ->
  exists f', length u < f' /\ bm_lines f [] (open_text (t ++ u)) = bm_lines f' [] (open_text u).
Proof.
  induction 1 as [|l k t Hl Hn _ IH]; intros f u Hf; [exists f; auto|].
  rewrite <- app_assoc in *. cbn [app] in *. destruct f as [|f]; [lia|]. rewrite (bstep_blank _ _ _ _ Hl Hn).
  apply IH. rewrite app_length in Hf. cbn [length] in Hf. lia.
Qed.
Lemma brun_rows t vs : brows_text t vs -> forall f u rows, length (t ++ u) < f ->
  exists f' vs', length u < f' /\ BM vs' vs /\ bm_lines f rows (open_text (t ++ u)) = bm_lines f' (rev vs' ++ rows) (open_text u).
Proof.
  induction 1 as [|l v t vs Hl Hn _ IH]; intros f u rows Hf; [exists f, []; repeat split; auto; constructor|].
  rewrite <- app_assoc in *. cbn [app] in *. destruct f as [|f]; [lia|].
  destruct (bstep_row f rows l v (t ++ u) Hl Hn) as (w & Hw & ->).
  destruct (IH f u (w :: rows)) as (f' & vs' & H1 & H2 & H3); [rewrite app_length in Hf; cbn [length] in Hf; lia|].
  exists f', (w :: vs'). split; [assumption|split; [constructor; assumption|]]. rewrite H3. cbn [rev]. rewrite <- app_assoc. reflexivity.
Qed.
Lemma brun_rest u rest f rows : brest_text u rest -> rows <> [] -> bm_lines (S f) rows (open_text u) = Ok (rows, true, open_text rest).
Proof. intros [l H1 H2|l k t H1 H2] Hr; [apply bstep_eof; assumption|apply (bstep_end _ _ _ k); assumption]. Qed.

Definition same_len (vs : list (list bool)) (n : nat) : Prop := Forall (fun v => length v = n) vs.
Lemma BM_same vs' vs r (r' : list bool) : BM vs' vs -> bv_n r = length r' ->
  (forallb (fun x => bv_n x =? bv_n r) vs' = true <-> Forall (fun v => length v = length r') vs).
Proof.
  intros H Hr. induction H as [|v bs vs' vs Hv _ IH]; [split; [constructor|reflexivity]|]. cbn. rewrite (B_len _ _ Hv), Hr in *. rewrite Bool.andb_true_iff, IH, Nat.eqb_eq.
  split; [intros [H1 H2]; constructor; assumption|intros H1; inversion H1; auto].
Qed.
Lemma bm_read t1 t2 vs u rest : bblanks_text t1 -> brows_text t2 vs -> vs <> [] -> brest_text u rest ->
  (forall n, Forall (fun v => length v = n) vs -> exists m,
     bm_in_stream 0 (open_text (t1 ++ t2 ++ u)) = Ok (Some m, after rest) /\ brep m (length vs) n vs) /\
  ((forall n, ~ Forall (fun v => length v = n) vs) ->
     bm_in_stream 0 (open_text (t1 ++ t2 ++ u)) = Ok (None, set_bad (after rest))).
Proof.
  intros Hb Hr Hv Hu. unfold bm_in_stream. cbn [Nat.ltb Nat.leb repeat].
  set (T := t1 ++ t2 ++ u). change (i_text (open_text T)) with T.
  destruct (brun_blanks _ Hb (S (S (length T))) (t2 ++ u) ltac:(unfold T; lia)) as (f1 & F1 & E1). fold T in E1. rewrite E1.
  destruct (brun_rows _ _ Hr f1 u [] F1) as (f2 & vs' & F2 & Hvs & E2). rewrite E2, app_nil_r. destruct f2 as [|f2]; [lia|].
  assert (Hne : rev vs' <> []) by (intros H; apply Hv; destruct Hvs; [reflexivity|cbn in H; destruct (rev l); discriminate]).
  rewrite (brun_rest _ _ _ _ Hu Hne). cbn [bind]. rewrite peek_after, rev_involutive.
  destruct Hvs as [|r r' vs' vs Hrr Hvs]; [congruence|].
  pose proof (BM_same vs' vs r r' Hvs (B_len _ _ Hrr)) as K. split.
  - intros n Hn. assert (En : n = length r') by (inversion Hn; auto). subst n.
    rewrite (proj2 K) by (inversion Hn; assumption). eexists. split; [reflexivity|].
    split; [constructor; assumption|]. split; [|split; [reflexivity|apply (B_len _ _ Hrr)]].
    intros i Hi. rewrite Forall_forall in Hn. apply Hn, nth_In. assumption.
  - intros Hn. destruct (forallb _ _) eqn:E; [|reflexivity]. destruct (Hn (length r')). constructor; [reflexivity|]. apply K. reflexivity.
Qed.
(* blanks at the end of a line *)
Lemma bm_trail t1 t2 vs l bs u : bblanks_text t1 -> brows_text t2 vs -> bit_line_trail l bs -> length l < NB ->
  exists s, bm_in_stream 0 (open_text (t1 ++ t2 ++ l ++ newline :: u)) = Ok (None, s) /\ failed s = true.
Proof.
  intros Hb Hr Hl Hn. unfold bm_in_stream. cbn [Nat.ltb Nat.leb repeat].
  set (T := t1 ++ t2 ++ l ++ newline :: u). change (i_text (open_text T)) with T.
  destruct (brun_blanks _ Hb (S (S (length T))) (t2 ++ l ++ newline :: u) ltac:(unfold T; lia)) as (f1 & F1 & E1). fold T in E1. rewrite E1.
  destruct (brun_rows _ _ Hr f1 (l ++ newline :: u) [] F1) as (f2 & vs' & F2 & Hvs & E2). rewrite E2, app_nil_r. destruct f2 as [|f2]; [lia|].
  rewrite (bstep_trail _ _ _ _ _ Hl Hn). cbn [bind]. eexists. split; reflexivity.
Qed.

(* ---- any text ---- *)
Lemma blines_any f : forall rows s, length (i_text s) < f ->
  match bm_lines f rows s with
  | Ok (rows', _, _) => exists new, rows' = new ++ rows /\ Forall (fun v => exists l, l <> [] /\ B v l) new
  | _ => False
  end.
Proof.
  induction f as [|f IH]; intros rows s Hf; [lia|]. cbn [bm_lines].
  assert (Ktriv : exists new, rows = new ++ rows /\ Forall (fun v => exists l, l <> [] /\ B v l) new) by (exists []; auto).
  destruct (i_eof s) eqn:Ee; [exact Ktriv|].
  unfold getline. destruct (good s) eqn:Eg.
  - pose proof (cut_all (i_text s)) as Hc. destruct (cut_line (i_text s)) as [l [t|]]; destruct Hc as [Ht Hl]; rewrite Ht in *.
    + rewrite app_length in *. cbn [length] in *. destruct (_ <=? _); [|exact Ktriv].
      cbn [i_eof failed i_fail i_bad orb]. destruct (is_whitespace_line _).
      * destruct rows as [|r rows]; [|exact Ktriv]. apply IH; cbn [i_text]; lia.
      * pose proof (bv_iss_any (uncomment (cstr l))) as Hv. destruct (bv_iss _) as [[v|]| | |]; cbn [bind good_res] in *; try contradiction; [|exact Ktriv].
        specialize (IH (v :: rows) (mkis t false false false) ltac:(cbn [i_text]; lia)).
        destruct (bm_lines _ _ _) as [[[rows' go] s']| | |]; try contradiction. destruct IH as (new & -> & Hnew).
        exists (new ++ [v]). rewrite <- app_assoc. split; [reflexivity|]. apply Forall_app. split; [assumption|]. constructor; [assumption|constructor].
    + destruct (_ <=? _); [|exact Ktriv]. cbn [i_eof]. exact Ktriv.
  - cbn [i_eof set_fail]. rewrite Ee. cbn [failed set_fail i_fail orb]. exact Ktriv.
Qed.
Lemma bm_any_text s : match bm_in_stream 0 s with
  | Ok (Some m, _) => exists L, L <> [] /\ 0 < bm_nc m /\ brep m (length L) (bm_nc m) L
  | Ok (None, _) => True
  | _ => False
  end.
Proof.
  unfold bm_in_stream. cbn [Nat.ltb Nat.leb repeat]. pose proof (blines_any (S (S (length (i_text s)))) [] s ltac:(lia)) as H.
  destruct (bm_lines _ _ _) as [[[rows go] s']| | |]; try contradiction. cbn [bind]. destruct H as (new & -> & Hn).
  destruct go; [|exact I]. rewrite app_nil_r in *. apply Forall_rev in Hn. destruct (rev new) as [|r rs] eqn:E; [exact I|].
  destruct (forallb _ rs) eqn:Ef; [|exact I]. cbn [bm_nc].
  assert (K : exists L, BM (r :: rs) L).
  { clear - Hn. induction Hn as [|v vs (l & _ & Hv) _ (L & HL)]; [exists []; constructor|]. exists (l :: L). constructor; assumption. }
  destruct K as (L & HL). inversion HL as [|? l0 ? L' Hr Hrs]; subst. exists (l0 :: L'). split; [discriminate|].
  pose proof (B_len _ _ Hr) as En. split; [rewrite En; destruct Hr as (? & _ & _ & H0 & _); exact H0|].
  split; [exact HL|split; [|split; reflexivity]]. rewrite En.
  pose proof (proj1 (BM_same rs L' r l0 Hrs En) Ef) as HF.
  intros [|i] Hi; [reflexivity|]. cbn in *. rewrite Forall_forall in HF. apply HF, nth_In. lia.
Qed.
(* reading into a matrix that has rows: never the matrix of the text *)
Lemma bm_reuse n0 s m s' : 0 < n0 -> bm_in_stream n0 s = Ok (Some m, s') -> bm_nr m = n0 /\ bm_nc m = 0.
Proof.
  intros Hn. unfold bm_in_stream. destruct (_ <? _); [discriminate|].
  pose proof (blines_any (S (S (length (i_text s)))) (repeat bv_null n0) s ltac:(lia)) as H.
  destruct (bm_lines _ _ _) as [[[rows go] s2]| | |]; try contradiction. cbn [bind]. destruct H as (new & -> & Hnew).
  destruct go; [|discriminate]. rewrite rev_app_distr. replace (rev (repeat bv_null n0)) with (repeat bv_null n0).
  - destruct n0 as [|n0]; [lia|]. cbn [repeat app]. destruct (forallb _ _) eqn:E; [|discriminate]. intros [= <- _]. unfold bm_nr. cbn [bm_rows bm_nc].
    split; [|reflexivity]. destruct new as [|v new].
    + cbn [rev length]. rewrite app_nil_r, repeat_length. reflexivity.
    + exfalso. rewrite forallb_app in E. apply andb_prop in E as [_ E]. rewrite forallb_forall in E.
      specialize (E v ltac:(apply in_rev; rewrite rev_involutive; left; reflexivity)). apply Nat.eqb_eq in E.
      inversion Hnew as [|? ? (l & Hl & HB) _]; subst. rewrite (B_len _ _ HB) in E. destruct l; [congruence|discriminate].
  - symmetry. clear. induction n0 as [|n IH]; [reflexivity|]. cbn. rewrite IH. clear. induction n as [|n IH]; [reflexivity|]. cbn. rewrite IH. reflexivity.
Qed.

(* ---- round trip ---- *)
Lemma bm_out_text m L : Forall2 B (bm_rows m) L -> bm_out m = Ok (List.concat (map (fun r => vec_out bput r ++ [newline]) L)).
Proof.
  unfold bm_out. intros H. assert (K : mapM bv_out (bm_rows m) = Ok (map (vec_out bput) L)).
  { induction H as [|v l rows L Hv _ IH]; [reflexivity|]. cbn [mapM map]. rewrite (bv_out_ok _ _ Hv). cbn [bind]. rewrite IH. reflexivity. }
  rewrite K. cbn [bind]. rewrite map_map. reflexivity.
Qed.
Lemma bout_row v : v <> [] -> row bword (vec_out bput v) v.
Proof.
  induction v as [|x v IH]; [congruence|]. intros _. destruct v as [|y v].
  - apply (row_one bword [] (bput x) x); [constructor|apply bput_word].
  - change (vec_out bput (x :: y :: v)) with ([] ++ bput x ++ " "%char :: vec_out bput (y :: v)).
    apply row_cons; [constructor|apply bput_word|left; reflexivity|].
    specialize (IH ltac:(discriminate)). revert IH. generalize (vec_out bput (y :: v)) as t. intros t Ht. destruct Ht as [b d a Hb Hw'|b d a c u l' Hb Hw' Hc Hr].
    + apply (row_one bword (" "%char :: b)); [constructor; [left; reflexivity|assumption]|assumption].
    + apply (row_cons bword (" "%char :: b)); [constructor; [left; reflexivity|assumption]|assumption..].
Qed.
Lemma bout_chars v c : In c (vec_out bput v) -> c = " "%char \/ c = "0"%char \/ c = "1"%char.
Proof.
  induction v as [|x v IH]; [intros []|]. assert (K : forall c, In c (bput x) -> c = "0"%char \/ c = "1"%char) by (intros c' [<-|[]]; destruct x; auto).
  destruct v as [|y v]; [intros H; right; auto|]. change (vec_out bput (x :: y :: v)) with (bput x ++ " "%char :: vec_out bput (y :: v)).
  intros H. apply in_app_or in H as [H|[<-|H]]; auto.
Qed.
Lemma bout_len v : length (vec_out bput v) <= 2 * length v.
Proof.
  induction v as [|x v IH]; [cbn; lia|]. destruct v as [|y v]; [cbn; lia|].
  change (vec_out bput (x :: y :: v)) with (bput x ++ " "%char :: vec_out bput (y :: v)). rewrite app_length. cbn [bput length] in *. lia.
Qed.
Lemma bout_line v : v <> [] -> bit_line (vec_out bput v) v.
Proof.
  intros Hv. split; [intros H; apply bout_chars in H as [H|[H|H]]; discriminate|].
  exists (vec_out bput v). split; [|apply bout_row; assumption].
  split; [|split; [|left; reflexivity]]; intros H; apply bout_chars in H as [H|[H|H]]; discriminate.
Qed.
Lemma bout_rows L n : 0 < n -> 2 * n < NB -> Forall (fun v => length v = n) L ->
  brows_text (List.concat (map (fun r => vec_out bput r ++ [newline]) L)) L.
Proof.
  intros H0 Hn. induction 1 as [|v L Hv _ IH]; [constructor|]. cbn [map List.concat]. rewrite <- app_assoc. cbn [app].
  constructor; [apply bout_line; destruct v; [cbn in *; lia|discriminate]|pose proof (bout_len v); lia|exact IH].
Qed.
Lemma bround m mr n L u rest : brep m mr n L -> 0 < mr -> 0 < n -> 2 * n < NB -> brest_text u rest ->
  exists t m', bm_out m = Ok t /\ bm_in_stream 0 (open_text (t ++ u)) = Ok (Some m', after rest) /\ brep m' mr n L.
Proof.
  intros (H1 & H2 & H3 & H4) Hm H0 Hn Hu. rewrite (bm_out_text m L H1). eexists. 
  assert (HF : Forall (fun v => length v = n) L) by (apply Forall_forall; intros v Hv; destruct (In_nth _ _ [] Hv) as (i & Hi & <-); apply H2; assumption).
  destruct (bm_read [] _ L u rest bbt_nil (bout_rows L n H0 Hn HF)) as [K _]; [intros ->; cbn in H3; lia|assumption|].
  destruct (K n HF) as (m' & E & Hm'). exists m'. split; [reflexivity|]. split; [exact E|]. rewrite <- H3. exact Hm'.
Qed.
(* vectors *)
Lemma bv_in_line l bs t : one_line l -> ~ In "000"%char l -> row bword l bs -> length l < tvec_buf_size -> exists v, B v bs /\
  bv_in_stream (open_text (l ++ newline :: t)) = Ok (Some v, open_text t) /\
  bv_in_stream (open_text l) = Ok (Some v, mkis [] true false false).
Proof.
  intros H1 H2 Hr Hl. destruct (proj1 (bv_iss_row _ _ Hr)) as (v & E & Hv). exists v. split; [assumption|].
  unfold bv_in_stream. rewrite getline_nl, getline_end by assumption. rewrite cstr_id by assumption. rewrite E. cbn [bind]. split; [reflexivity|].
  destruct l; [destruct (row_nonsp _ _ Hr) as (? & [] & _)|reflexivity].
Qed.
