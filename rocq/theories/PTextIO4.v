(* Bit vectors and bit matrices as text. *)
From Verif Require Import Base MIntMath MIntmod MMat MMatCli MBits MTextIO PMatCli5 PMatCli8 PBits PBits2 PTextIO PTextIO2 PTextIO3.
Require Import Lia.
Import ListNotations.
Open Scope nat_scope.
Local Notation length := List.length.
Local Opaque tmx_buf_size tvec_buf_size bmx_buf_size.
Local Notation NB := bmx_buf_size.

(* a number stands for its last bit *)
Definition bword (d : list ascii) (b : bool) : Prop := exists v, numeral d v /\ b = Z.odd v.
(* a word and its bits *)
Definition wsok (ws : list N) (l : list bool) : Prop :=
  (forall k, forall j, (64 <= j)%N -> N.testbit (nth k ws 0%N) j = false) /\ (forall i, wbit ws i = nth i l false).
Lemma wsok_new : wsok (repeat 0%N 8) [].
Proof.
  split; intros k.
  - intros j _. rewrite nth_repeat_all. destruct (k <? 8); apply N.bits_0.
  - unfold wbit. rewrite nth_repeat_all. destruct (_ <? 8); rewrite N.bits_0; destruct k; reflexivity.
Qed.
Lemma nth_app_zero ws k i : nth i (ws ++ repeat 0%N k) 0%N = nth i ws 0%N.
Proof.
  destruct (Nat.lt_ge_cases i (length ws)); [apply app_nth1; assumption|].
  rewrite app_nth2, (nth_overflow ws) by assumption. rewrite nth_repeat_all. destruct (_ <? _); reflexivity.
Qed.
Lemma wsok_grow ws l nw : wsok ws l -> nw <= length ws -> exists ws',
  (if length ws <=? nw then firstn nw ws ++ repeat 0%N (length ws + 8 - nw) else ws) = ws' /\ wsok ws' l /\ nw < length ws'.
Proof.
  intros [H1 H2] Hn. destruct (Nat.leb_spec (length ws) nw).
  - assert (nw = length ws) by lia. subst nw. rewrite firstn_all. eexists. split; [reflexivity|]. split.
    + split; intros k; [|unfold wbit]; rewrite nth_app_zero; [apply H1|apply H2].
    + rewrite app_length, repeat_length. lia.
  - exists ws. repeat split; auto.
Qed.
Lemma nth_snoc (l : list bool) b i : nth i (l ++ [b]) false = if i =? length l then b else nth i l false.
Proof.
  destruct (Nat.eqb_spec i (length l)) as [->|H]; [rewrite app_nth2, Nat.sub_diag; auto|].
  destruct (Nat.lt_ge_cases i (length l)); [apply app_nth1; assumption|].
  rewrite !nth_overflow; auto. rewrite app_length. cbn. lia.
Qed.
Lemma wsok_push ws l v : wsok ws l -> length l / 64 < length ws -> exists ws',
  (if Z.odd v then SET_BIT ws (length l) else Ok ws) = Ok ws' /\ wsok ws' (l ++ [Z.odd v]) /\ length ws' = length ws.
Proof.
  intros [H1 H2] Hn. destruct (Z.odd v).
  - unfold SET_BIT. rewrite rdw_ok by exact Hn. cbn [bind]. rewrite wrw_ok by exact Hn.
    eexists. split; [reflexivity|]. split; [|apply upd_length]. split.
    + intros k j Hj. rewrite upd_nth. destruct (_ && _) eqn:E; [|apply H1; assumption]. rewrite testbit_set.
      destruct (N.eqb_spec j (wpos (length l))) as [->|_]; [pose proof (wpos_bound (length l)); lia|apply H1; assumption].
    + intros i. rewrite (upd_bit ws (length l) _ true Hn); [|intros j; apply testbit_set]. rewrite H2, nth_snoc. reflexivity.
  - exists ws. split; [reflexivity|]. split; [|reflexivity]. split; [exact H1|]. intros i. rewrite H2, nth_snoc.
    destruct (Nat.eqb_spec i (length l)) as [->|]; [apply nth_overflow; lia|reflexivity].
Qed.
Lemma nw_div n : n / 64 <= nwords n.
Proof. unfold nwords. apply Nat.div_le_mono; lia. Qed.
Lemma nw_S n k : nwords n < k -> nwords (S n) <= k.
Proof.
  unfold nwords. intros H. replace (S n + 63) with (n + 1 * 64) by lia. rewrite Nat.div_add by discriminate.
  pose proof (Nat.div_le_mono n (n + 63) 64 ltac:(discriminate) ltac:(lia)). lia.
Qed.
Lemma nw_Sle n : nwords (S n) <= S (nwords n).
Proof. apply nw_S. lia. Qed.
Lemma wsok_B ws l : wsok ws l -> 0 < length l -> nwords (length l) <= length ws -> B (mkbv (Some ws) (nwords (length l)) (length l)) l.
Proof. intros [H1 H2] H0 Hn. exists ws. cbn [bv_ptr bv_n bv_nw]. repeat split; auto. Qed.

Lemma len1 (l : list bool) b : length (l ++ [b]) = S (length l). Proof. rewrite app_length. cbn. lia. Qed.
Lemma skip_blanks_sp b c t : blanks b -> digit c -> skip_space (b ++ c :: t) = c :: t.
Proof.
  induction 1 as [|x b Hx Hb IH]; intros Hc; cbn [app skip_space].
  - destruct (digit_ok _ Hc) as (_ & -> & _). reflexivity.
  - destruct Hx as [->| ->]; cbn; exact (IH Hc).
Qed.
Lemma read_bint b d v t : blanks b -> numeral d v -> sep t -> read_int (b ++ d ++ t) = Some (v, t).
Proof.
  intros Hb Hn Ht. rewrite <- (read_numeral d v t Hn Ht). pose proof Hn as (H & Hd & _). destruct d as [|c d]; [congruence|].
  assert (Hc : digit c) by (inversion Hd; assumption). unfold read_int. cbn [app].
  rewrite skip_blanks_sp by assumption. rewrite (skip_blanks_sp [] c (d ++ t) (Forall_nil _) Hc : skip_space (c :: d ++ t) = _). reflexivity.
Qed.
Lemma read_blanks b : blanks b -> read_int b = None.
Proof. intros Hb. unfold read_int. replace (skip_space b) with (@nil ascii); [reflexivity|]. induction Hb as [|x b Hx _ IH]; [reflexivity|]. destruct Hx as [->| ->]; exact IH. Qed.

(* the words of a line; blanks at the end make the reading fail *)
Lemma bv_read_row t l : row bword t l -> forall f ws l0, length t < f -> wsok ws l0 -> nwords (length l0) <= length ws ->
  (exists v, bv_read f ws (nwords (length l0)) (length l0) t = Ok (Some v) /\ B v (l0 ++ l)) /\
  (forall b, blanks b -> b <> [] -> length (t ++ b) < f -> bv_read f ws (nwords (length l0)) (length l0) (t ++ b) = Ok None).
Proof.
  induction 1 as [b d a Hb (v & Hv & ->)|b d a c t l Hb (v & Hv & ->) Hc Hr IH]; intros f ws l0 Hf Hw Hn;
  (destruct f as [|f]; [lia|]); cbn [bv_read]; destruct (wsok_grow ws l0 _ Hw Hn) as (ws1 & -> & Hw1 & Hn1);
  (destruct (wsok_push ws1 l0 v Hw1) as (ws2 & E & Hw2 & Hl2); [pose proof (nw_div (length l0)); lia|]).
  - split.
    + rewrite <- (app_nil_r d). rewrite (read_bint b d v) by (auto; left; reflexivity). rewrite E. cbn [bind]. eexists. split; [reflexivity|].
      rewrite <- (len1 l0 (Z.odd v)). apply wsok_B; [assumption|rewrite len1; lia|]. rewrite len1, Hl2. apply nw_S. assumption.
    + intros w Hw' Hne Hlen. rewrite <- app_assoc. destruct w as [|c w]; [congruence|].
      rewrite (read_bint b d v) by (auto; right; exists c, w; inversion Hw'; auto). rewrite E. cbn [bind].
      assert (Hd : d <> []) by apply Hv. destruct f as [|f]; [rewrite !app_length in Hlen; destruct d; [congruence|cbn in Hlen; lia]|].
      cbn [bv_read]. rewrite (read_blanks (c :: w) Hw'). reflexivity.
  - assert (Hd : d <> []) by apply Hv. assert (Hs : forall u, sep (c :: u)) by (intros u; right; exists c, u; auto).
    assert (Hlt : forall u, length (b ++ d ++ c :: u) > length (c :: u)) by (intros u; rewrite !app_length; destruct d; [congruence|cbn; lia]).
    specialize (IH f ws2 (l0 ++ [Z.odd v])). rewrite len1 in IH.
    assert (Hn2 : nwords (S (length l0)) <= length ws2) by (rewrite Hl2; apply nw_S; assumption).
    split.
    + rewrite (read_bint b d v) by auto. rewrite E. cbn [bind]. destruct IH as [(r & H1 & H2) _]; [specialize (Hlt t); lia|assumption..|].
      exists r. rewrite <- app_assoc in H2. auto.
    + intros w Hw' Hne Hlen. rewrite <- !app_assoc in *. cbn [app] in *. rewrite (read_bint b d v) by auto. rewrite E. cbn [bind].
      pose proof (Hlt (t ++ w)) as HL. apply IH; auto; [specialize (Hlt t)|]; cbn [app] in *; rewrite ?app_length in *; cbn [length] in *; rewrite ?app_length in *; lia.
Qed.
Lemma bv_iss_row t l : row bword t l -> (exists v, bv_iss t = Ok (Some v) /\ B v l) /\
  forall b, blanks b -> b <> [] -> bv_iss (t ++ b) = Ok None.
Proof.
  intros H. split.
  - destruct (bv_read_row t l H (S (length t)) (repeat 0%N 8) [] ltac:(lia) wsok_new ltac:(cbn; lia)) as [K _]. exact K.
  - intros b Hb Hn. unfold bv_iss. destruct (bv_read_row t l H (S (length (t ++ b))) (repeat 0%N 8) [] ltac:(rewrite app_length; lia) wsok_new ltac:(cbn; lia)) as [_ K].
    apply K; auto.
Qed.
(* any text *)
Lemma read_int_short s v r : read_int s = Some (v, r) -> length r < length s.
Proof.
  unfold read_int. pose proof (skip_space_sub s) as [H1 _]. set (u := skip_space s) in *.
  assert (K : forall ng w, length w <= length u ->
    match read_digits w 0 false with
    | Some (v0, r0) => let v0 := if ng : bool then (- v0)%Z else v0 in if (INT_MIN <=? v0)%Z && (v0 <=? INT_MAX)%Z then Some (v0, r0) else None
    | None => None end = Some (v, r) -> length r < length s).
  { intros ng w Hw. destruct (read_digits w 0 false) as [[v0 r0]|] eqn:E; [|discriminate]. cbn zeta.
    destruct (_ && _); [|discriminate]. intros [= <- <-]. apply read_digits_sub in E as (_ & _ & G3 & _); [|lia]. specialize (G3 eq_refl). lia. }
  destruct u as [|x t]; [exact (K false [] (le_n _))|]. cbn [length] in *.
  destruct (x =? "-")%char; [apply (K true t); lia|]. destruct (x =? "+")%char; [apply (K false t); lia|apply (K false (x :: t)); cbn; lia].
Qed.
Lemma bv_read_any f : forall t ws l0, length t < f -> wsok ws l0 -> nwords (length l0) <= length ws ->
  good_res (fun v => exists l, l <> [] /\ B v (l0 ++ l)) (bv_read f ws (nwords (length l0)) (length l0) t).
Proof.
  induction f as [|f IH]; intros t ws l0 Hf Hw Hn; [lia|]. cbn [bv_read].
  destruct (wsok_grow ws l0 _ Hw Hn) as (ws1 & -> & Hw1 & Hn1). destruct (read_int t) as [[v r]|] eqn:E; [|exact I].
  apply read_int_short in E. destruct (wsok_push ws1 l0 v Hw1) as (ws2 & -> & Hw2 & Hl2); [pose proof (nw_div (length l0)); lia|]. cbn [bind].
  assert (Hn2 : nwords (S (length l0)) <= length ws2) by (rewrite Hl2; apply nw_S; assumption).
  destruct r as [|x r].
  - exists [Z.odd v]. split; [discriminate|]. rewrite <- (len1 l0 (Z.odd v)). apply wsok_B; [assumption|rewrite len1; lia|]. rewrite len1. assumption.
  - specialize (IH (x :: r) ws2 (l0 ++ [Z.odd v])). rewrite len1 in IH. specialize (IH ltac:(lia) Hw2 Hn2). revert IH. apply good_imp.
    intros w (l & H1 & H2). exists (Z.odd v :: l). split; [discriminate|]. rewrite <- app_assoc in H2. exact H2.
Qed.
Lemma bv_iss_any t : good_res (fun v => exists l, l <> [] /\ B v l) (bv_iss t).
Proof. exact (bv_read_any (S (length t)) t (repeat 0%N 8) [] ltac:(lia) wsok_new ltac:(cbn; lia)). Qed.

(* ---- printing ---- *)
Definition bput (b : bool) : list ascii := [if b then "1"%char else "0"%char].
Lemma bv_out_ok v l : B v l -> bv_out v = Ok (vec_out bput l).
Proof.
  intros H. unfold bv_out. rewrite (B_deref v l H). destruct H as (ws & E & Hn & H0 & Hnw & Hle & _ & Hb).
  assert (K : forall k i, i + k <= length l -> mapM (fun i => ws <- Ok (words_of v) ;; b <- GET_BIT ws i ;; Ok (if (b =? 0)%N then false else true)) (seq i k) = Ok (firstn k (skipn i l))).
  { induction k as [|k IH]; intros i Hi; [reflexivity|]. cbn [seq mapM]. cbn [bind]. unfold words_of at 1. rewrite E.
    assert (Hi' : i < 64 * nwords (length l)) by (pose proof (nwords_le (length l)); lia).
    rewrite get_bit_ok by (apply (Nat.lt_le_trans _ (nwords (length l))); [apply nwords_cover; lia|lia]). cbn [bind].
    rewrite Hb by (rewrite Hnw; assumption). fold (words_of v). rewrite IH by lia. cbn [bind]. f_equal.
    replace (skipn i l) with (nth i l false :: skipn (S i) l).
    - cbn [firstn]. f_equal. destruct (nth i l false); reflexivity.
    - assert (Hi2 : i < length l) by lia. clear -Hi2. revert i Hi2. induction l as [|x l IHl]; intros [|i] H; cbn in *; try lia; auto. apply IHl. lia. }
  rewrite Hn, (K (length l) 0 ltac:(lia)). cbn [bind skipn]. rewrite firstn_all. reflexivity.
Qed.
Lemma bput_word b : bword (bput b) b.
Proof. destruct b; [exists 1%Z|exists 0%Z]; (split; [|reflexivity]); (split; [discriminate|split; [|split; [reflexivity|unfold INT_MAX; lia]]]); (constructor; [unfold digit; cbn; lia|constructor]). Qed.
