(* Proofs about the model in MCmdInterp.v. *)
From Verif Require Import Base MMisc PMisc MCmdInterp.
From Coq Require Import Lia.
Open Scope Z_scope.

(* ---- brackets *)
Lemma streqP a b : streq a b = true <-> a = b.
Proof. unfold streq. destruct (list_eq_dec Z.eq_dec a b); split; intros; congruence. Qed.
Lemma streq_neq a b : a <> b -> streq a b = false.
Proof. intros H. destruct (streq a b) eqn:E; [apply streqP in E; contradiction|reflexivity]. Qed.
Lemma streq_refl a : streq a a = true. Proof. apply streqP. reflexivity. Qed.

(* opening minus closing brackets *)
Definition weight1 (w : list Z) : Z := if streq w LBRK then 1 else if streq w RBRK then -1 else 0.
Fixpoint depth (l : list (list Z)) : Z := match l with [] => 0 | w :: r => weight1 w + depth r end.
(* no prefix closes more than it opens, and everything is closed *)
Definition balanced (l : list (list Z)) : Prop := (forall k, 0 <= depth (firstn k l)) /\ depth l = 0.
Definition nobr (l : list (list Z)) : Prop := forall w, In w l -> w <> LBRK /\ w <> RBRK.

Lemma depth_app a b : depth (a ++ b) = depth a + depth b.
Proof. induction a as [|w a IH]; cbn [depth app]; [lia|]. rewrite IH. lia. Qed.
Lemma nobr_depth l : nobr l -> depth l = 0.
Proof.
  induction l as [|w l IH]; intros H; cbn [depth]; [reflexivity|].
  rewrite IH by (intros x Hx; apply H; right; exact Hx). destruct (H w) as [H1 H2]; [left; reflexivity|].
  unfold weight1. rewrite !streq_neq by assumption. reflexivity.
Qed.
Lemma nobr_firstn k l : nobr l -> nobr (firstn k l).
Proof.
  intros H w Hw. apply H. rewrite <- (firstn_skipn k l). apply in_or_app. left. exact Hw.
Qed.
Lemma balanced_app_r a b : balanced a -> (balanced (a ++ b) <-> balanced b).
Proof.
  intros [Ha Da]. split; intros [H D].
  - split.
    + intros k. specialize (H (length a + k)%nat). rewrite firstn_app_2, depth_app in H. lia.
    + rewrite depth_app in D. lia.
  - split; [|rewrite depth_app; lia]. intros k. rewrite firstn_app, depth_app.
    specialize (Ha k). specialize (H (k - length a)%nat).
    destruct (Nat.le_gt_cases (length a) k) as [Hk|Hk]; [rewrite firstn_all2 by lia; lia|].
    replace (k - length a)%nat with O by lia. cbn. lia.
Qed.
Lemma nobr_balanced l : nobr l -> balanced l.
Proof. intros H. split; [intros k; rewrite nobr_depth; [lia|apply nobr_firstn, H]|apply nobr_depth, H]. Qed.
Lemma group_balanced g : balanced g -> balanced (LBRK :: g ++ [RBRK]).
Proof.
  intros [H D]. split.
  - intros [|k]; cbn [firstn depth]; [lia|]. rewrite firstn_app, depth_app. specialize (H k).
    change (weight1 LBRK) with 1. destruct (k - length g)%nat; cbn [firstn depth]; [lia|].
    rewrite firstn_nil. cbn [depth]. change (weight1 RBRK) with (-1). lia.
  - cbn [depth]. rewrite depth_app, D. reflexivity.
Qed.

Lemma balance_loop_spec l : forall d, 0 <= d ->
  match balance_loop d l with
  | Some e => e = d + depth l /\ (forall k, (k < length l)%nat -> 0 <= d + depth (firstn k l))
  | None => exists k, (k < length l)%nat /\ d + depth (firstn k l) < 0
  end.
Proof.
  assert (G : forall l d, match balance_loop d l with
    | Some e => e = d + depth l /\ (forall k, (k < length l)%nat -> 0 <= d + depth (firstn k l))
    | None => exists k, (k < length l)%nat /\ d + depth (firstn k l) < 0 end).
  { clear l. induction l as [|w l IH]; intros d; cbn [balance_loop].
    - split; [cbn; lia|]. intros k Hk. cbn in Hk. lia.
    - destruct (d <? 0) eqn:E; [exists O; cbn; lia|].
      assert (W : (if streq w LBRK then d + 1 else if streq w RBRK then d - 1 else d) = d + weight1 w).
      { unfold weight1. destruct (streq w LBRK); [reflexivity|]. destruct (streq w RBRK); lia. }
      rewrite W. specialize (IH (d + weight1 w)). destruct (balance_loop (d + weight1 w) l) as [e|].
      + destruct IH as [-> H]. split; [cbn [depth]; lia|]. intros [|k] Hk; [cbn; lia|].
        cbn [firstn depth length] in *. specialize (H k). lia.
      + destruct IH as (k & Hk & H). exists (S k). cbn [firstn depth length]. lia. }
  intros d _. apply G.
Qed.
Lemma check_balance_ok l : check_balance l = true <-> balanced l.
Proof.
  unfold check_balance. pose proof (balance_loop_spec l 0 ltac:(lia)) as H.
  destruct (balance_loop 0 l) as [e|].
  - destruct H as [-> H]. split.
    + intros D. apply Z.eqb_eq in D. split; [|lia]. intros k.
      destruct (Nat.lt_ge_cases k (length l)) as [Hk|Hk]; [specialize (H k Hk); lia|].
      rewrite firstn_all2 by lia. lia.
    + intros [_ D]. apply Z.eqb_eq. lia.
  - split; [discriminate|]. intros [B _]. destruct H as (k & _ & H). specialize (B k). lia.
Qed.

Lemma find_none l b : find_first_bracket l b = None <-> forall w, In w l -> w <> b.
Proof.
  induction l as [|w l IH]; cbn [find_first_bracket]; [split; [intros _ w []|reflexivity]|].
  destruct (streq w b) eqn:E.
  - apply streqP in E. subst. split; [discriminate|]. intros H. exfalso. apply (H b); [left; reflexivity|reflexivity].
  - assert (w <> b) by (intros ->; rewrite streq_refl in E; discriminate).
    destruct (find_first_bracket l b); cbn [option_map]; split; intros H0; try discriminate.
    + exfalso. assert (Some n = None) as F; [|discriminate]. apply IH. intros x Hx. apply H0. right. exact Hx.
    + intros x [<-|Hx]; [assumption|]. apply IH; [reflexivity|exact Hx].
    + reflexivity.
Qed.
Lemma find_some pre b r : (forall w, In w pre -> w <> b) -> find_first_bracket (pre ++ b :: r) b = Some (length pre).
Proof.
  induction pre as [|w pre IH]; intros H; cbn [find_first_bracket app]; [rewrite streq_refl; reflexivity|].
  rewrite streq_neq by (apply H; left; reflexivity). rewrite IH by (intros x Hx; apply H; right; exact Hx). reflexivity.
Qed.

(* the bracket that closes *)
Lemma match_loop_ok g : forall d i r, 0 < d -> d + depth g = 1 -> (forall k, 0 < d + depth (firstn k g)) ->
  match_loop d i (g ++ RBRK :: r) = (i + length g)%nat.
Proof.
  induction g as [|w g IH]; intros d i r Hd D H; cbn [app match_loop depth length] in *.
  - replace d with 1 by lia. cbn. lia.
  - assert (H1 : forall k, 0 < d + (weight1 w + depth (firstn k g))) by (intros k; exact (H (S k))).
    assert (H0 := H1 O). cbn in H0. unfold weight1 in *.
    destruct (streq w RBRK) eqn:ER.
    + apply streqP in ER. subst w. change (streq RBRK LBRK) with false in *. cbn [andb] in *.
      destruct (d - 1 =? 0) eqn:E; [lia|]. rewrite IH; [lia|lia|lia|]. intros k. specialize (H1 k). lia.
    + destruct (streq w LBRK) eqn:EL.
      * rewrite IH; [lia|lia|lia|]. intros k. specialize (H1 k). lia.
      * rewrite IH; [lia|lia|lia|]. intros k. specialize (H1 k). lia.
Qed.
Lemma matching_ok pre g r : balanced g ->
  find_matching_right_bracket (pre ++ LBRK :: g ++ RBRK :: r) (length pre) = (length pre + 1 + length g)%nat.
Proof.
  intros [H D]. unfold find_matching_right_bracket.
  replace (S (length pre)) with (length (pre ++ [LBRK])) by (rewrite app_length; cbn; lia).
  replace (pre ++ LBRK :: g ++ RBRK :: r) with ((pre ++ [LBRK]) ++ g ++ RBRK :: r) by (rewrite <- app_assoc; reflexivity).
  rewrite skipn_app, skipn_all, Nat.sub_diag. cbn [app skipn].
  rewrite match_loop_ok; [rewrite app_length; cbn; lia|lia|lia|]. intros k. specialize (H k). lia.
Qed.

(* every balanced list starts with words and a group *)
Lemma first_close l : forall d, 0 < d -> d + depth l <= 0 -> exists g r, l = g ++ RBRK :: r /\ d + depth g = 1 /\
  forall k, 0 < d + depth (firstn k g).
Proof.
  induction l as [|w l IH]; intros d Hd D; cbn [depth] in D; [lia|].
  destruct (Z.eq_dec (d + weight1 w) 0) as [E|E].
  - exists [], l. unfold weight1 in E. destruct (streq w LBRK); [lia|]. destruct (streq w RBRK) eqn:ER; [|lia].
    apply streqP in ER. subst. split; [reflexivity|]. split; [cbn; lia|]. intros k. rewrite firstn_nil. cbn. lia.
  - assert (0 < d + weight1 w) by (unfold weight1 in *; destruct (streq w LBRK); [lia|]; destruct (streq w RBRK); lia).
    destruct (IH (d + weight1 w)) as (g & r & -> & D' & K); [lia|lia|].
    exists (w :: g), r. split; [reflexivity|]. split; [cbn [depth]; lia|].
    intros [|k]; [cbn; lia|]. cbn [firstn depth]. specialize (K k). lia.
Qed.
Lemma split_group l : balanced (LBRK :: l) -> exists g r, l = g ++ RBRK :: r /\ balanced g /\ balanced r.
Proof.
  intros [H D]. cbn [depth] in D. change (weight1 LBRK) with 1 in D.
  destruct (first_close l 1) as (g & r & -> & Dg & K); [lia|lia|].
  assert (Bg : balanced g) by (split; [intros k; specialize (K k); lia|lia]).
  exists g, r. split; [reflexivity|]. split; [exact Bg|].
  apply (balanced_app_r (LBRK :: g ++ [RBRK])); [apply group_balanced, Bg|].
  cbn [app]. rewrite <- app_assoc. cbn [app]. split; [exact H|cbn [depth]; exact D].
Qed.

(* ---- the command line for the shell *)
Definition joined (exe : list Z) (l : list (list Z)) : list Z := exe ++ concat (map (fun w => 32 :: w) l).
Lemma flat_len_ok l : forall n, 0 <= n -> n + Z.of_nat (length (concat (map (fun w => 32 :: w) l))) <= INT_MAX ->
  flat_len n l = Ok (n + Z.of_nat (length (concat (map (fun w => 32 :: w) l)))).
Proof.
  induction l as [|w l IH]; intros n Hn H; cbn [flat_len map concat] in *; [f_equal; cbn; lia|].
  rewrite app_length in *. cbn [length] in *. unfold strlen. rewrite chk_ok by (unfold INT_MIN; lia). cbn [bind].
  rewrite IH by lia. f_equal. lia.
Qed.
Lemma flat_cat_ok l : forall cap rv, Z.of_nat (length (rv ++ concat (map (fun w => 32 :: w) l))) + 1 <= cap ->
  flat_cat cap rv l = Ok (rv ++ concat (map (fun w => 32 :: w) l)).
Proof.
  induction l as [|w l IH]; intros cap rv H; cbn [flat_cat map concat] in *; [rewrite app_nil_r; reflexivity|].
  rewrite !app_length in H. cbn [length] in H. rewrite ?app_length in H. unfold put. 
  replace (Z.of_nat (length (rv ++ [32])) + 1 <=? cap) with true by (rewrite app_length; cbn [length]; lia). cbn [bind].
  replace (Z.of_nat (length ((rv ++ [32]) ++ w)) + 1 <=? cap) with true by (rewrite !app_length; cbn [length]; lia). cbn [bind].
  rewrite IH; [|rewrite !app_length; cbn [length]; lia]. f_equal. rewrite <- !app_assoc. reflexivity.
Qed.
Lemma flatten_ok exe l : Z.of_nat (length (joined exe l)) < INT_MAX -> flatten exe l = Ok (joined exe l).
Proof.
  unfold joined, flatten, strlen. rewrite app_length. intros H.
  rewrite chk_ok by (unfold INT_MIN; lia). cbn [bind]. rewrite flat_len_ok by lia. cbn [bind].
  unfold put. match goal with |- context [?a <=? ?b] => replace (a <=? b) with true by lia end. cbn [bind].
  apply flat_cat_ok. rewrite app_length. lia.
Qed.

(* ---- the words of the output *)
Lemma tokens_join sep a c b : sep c = true -> tokens sep (a ++ c :: b) = tokens sep a ++ tokens sep b.
Proof.
  intros Hc. unfold tokens.
  assert (G : split_at sep (a ++ c :: b) = split_at sep a ++ split_at sep b).
  { induction a as [|x a IH]; cbn [split_at app]; [rewrite Hc; reflexivity|].
    rewrite IH. destruct (sep x); [reflexivity|]. destruct (split_at sep a) eqn:E; [|reflexivity].
    exfalso. exact (split_nonnil _ _ E). }
  rewrite G. apply filter_app.
Qed.
Lemma tokens_same sep sep' a : (forall c, In c a -> sep c = sep' c) -> tokens sep a = tokens sep' a.
Proof.
  intros H. unfold tokens. f_equal. induction a as [|x a IH]; cbn [split_at]; [reflexivity|].
  rewrite H by (left; reflexivity). rewrite IH by (intros c Hc; apply H; right; exact Hc). reflexivity.
Qed.
Lemma tokens_app_nil sep a c : sep c = true -> tokens sep (c :: a) = tokens sep a.
Proof. intros H. exact (tokens_join sep [] c a H). Qed.

Definition sep2 := is_sep [32; 9].
Definition sep3 := is_sep [32; 9; 10].
(* lines of at most 4095 bytes *)
Definition short_lines (out : list Z) : Prop := Forall (fun l => Z.of_nat (length l) <= 4095) (split_at (Z.eqb 10) out).

Lemma line_split s : exists w t, s = w ++ t /\ ~ In 10 w /\ (t = [] \/ exists r, t = 10 :: r).
Proof.
  induction s as [|c s IH]; [exists [], []; cbn; tauto|].
  destruct (Z.eq_dec c 10) as [->|E]; [exists [], (10 :: s); repeat split; [cbn; tauto|right; eexists; reflexivity]|].
  destruct IH as (w & t & -> & Hw & Ht). exists (c :: w), t. split; [reflexivity|]. split; [|exact Ht].
  intros [F|F]; [lia|contradiction].
Qed.
Lemma fgets_short n : forall w, (length w < n)%nat -> ~ In 10 w ->
  fgets_take n w = (w, []) /\ forall r, fgets_take n (w ++ 10 :: r) = (w ++ [10], r).
Proof.
  induction n as [|n IH]; intros w Hw Hn; [lia|]. destruct w as [|c w]; [split; reflexivity|].
  cbn [fgets_take app]. assert (E : c <> 10) by (intros ->; apply Hn; left; reflexivity).
  apply Z.eqb_neq in E. rewrite E. destruct (IH w) as [H1 H2]; [cbn in Hw; lia|intros F; apply Hn; right; exact F|].
  rewrite H1. split; [reflexivity|]. intros r. rewrite H2. reflexivity.
Qed.
Lemma fgets_full w : forall t, ~ In 10 w -> fgets_take (length w) (w ++ t) = (w, t).
Proof.
  induction w as [|c w IH]; intros t Hn; [destruct t; reflexivity|].
  cbn [fgets_take app length]. assert (E : c <> 10) by (intros ->; apply Hn; left; reflexivity).
  apply Z.eqb_neq in E. rewrite E, IH by (intros F; apply Hn; right; exact F). reflexivity.
Qed.
Lemma split_line w t : ~ In 10 w -> split_at (Z.eqb 10) (w ++ t) = match split_at (Z.eqb 10) t with [] => [w] | x :: xs => (w ++ x) :: xs end.
Proof.
  intros H. apply split_word. apply forallb_forall. intros c Hc. destruct (Z.eqb_spec 10 c); [subst; contradiction|reflexivity].
Qed.

Lemma chunk_ok s : s <> [] -> short_lines s -> exists line chunk rest,
  fgets_take (Z.to_nat 4095) s = (chunk, rest) /\ (chunk = line ++ [10] \/ chunk = line /\ line <> []) /\ ~ In 10 line /\
  s = chunk ++ rest /\ short_lines rest /\ tokens sep3 s = tokens sep2 line ++ tokens sep3 rest.
Proof.
  intros Hs HL. destruct (line_split s) as (w & t & -> & Hw & Ht).
  assert (W : tokens sep3 w = tokens sep2 w).
  { apply tokens_same. intros c Hc. unfold sep3, sep2, is_sep. cbn [existsb].
    destruct (Z.eqb_spec c 10); [subst; contradiction|]. rewrite !Bool.orb_false_r. reflexivity. }
  unfold short_lines in HL. rewrite split_line in HL by exact Hw.
  destruct (Nat.lt_ge_cases (length w) (Z.to_nat 4095)) as [Hl|Hl].
  - destruct (fgets_short (Z.to_nat 4095) w Hl Hw) as [F1 F2].
    destruct Ht as [->|[r ->]].
    + rewrite app_nil_r in *. exists w, w, []. rewrite F1. repeat split; try assumption.
      * right. split; [reflexivity|assumption].
      * rewrite app_nil_r. reflexivity.
      * unfold short_lines. cbn. constructor; [cbn; lia|constructor].
      * rewrite W. unfold tokens at 3. cbn. rewrite app_nil_r. reflexivity.
    + exists w, (w ++ [10]), r. rewrite F2. repeat split; try assumption.
      * left. reflexivity.
      * rewrite <- app_assoc. reflexivity.
      * unfold short_lines. cbn [split_at] in HL. change (10 =? 10) with true in HL. cbn [app] in HL.
        apply Forall_inv_tail in HL. exact HL.
      * rewrite tokens_join by reflexivity. rewrite W. reflexivity.
  - assert (Hl2 : length w = Z.to_nat 4095).
    { assert (Z.of_nat (length w) <= 4095); [|lia].
      destruct (split_at (Z.eqb 10) t) eqn:E; [exfalso; exact (split_nonnil _ _ E)|].
      apply Forall_inv in HL. rewrite app_length in HL. lia. }
    exists w, w, t. rewrite <- Hl2, fgets_full by exact Hw. repeat split; try assumption.
    + right. split; [reflexivity|]. intros ->. cbn in Hl2. lia.
    + unfold short_lines. destruct Ht as [->|[r ->]]; [cbn; constructor; [cbn; lia|constructor]|].
      cbn [split_at] in HL. change (10 =? 10) with true in HL. apply Forall_inv_tail in HL. cbn [split_at]. change (10 =? 10) with true.
      constructor; [cbn; lia|exact HL].
    + destruct Ht as [->|[r ->]]; [rewrite app_nil_r, W; cbn; rewrite app_nil_r; reflexivity|].
      rewrite tokens_join by reflexivity. rewrite W, tokens_app_nil by reflexivity. reflexivity.
Qed.

Lemma c_string_no0 l : no0 l -> c_string l = l.
Proof.
  induction l as [|c l IH]; intros H; cbn [c_string]; [reflexivity|].
  assert (c <> 0) by (apply H; left; reflexivity). destruct (Z.eqb_spec c 0); [contradiction|].
  rewrite IH; [reflexivity|]. intros x Hx. apply H. right. exact Hx.
Qed.
Lemma no0_app a b : no0 (a ++ b) <-> no0 a /\ no0 b.
Proof.
  unfold no0. split.
  - intros H. split; intros c Hc; apply H, in_or_app; [left|right]; exact Hc.
  - intros [H1 H2] c Hc. apply in_app_or in Hc as [Hc|Hc]; [apply H1|apply H2]; exact Hc.
Qed.
Lemma line_of_chunk chunk line : (chunk = line ++ [10] \/ chunk = line /\ line <> []) -> ~ In 10 line ->
  strlen chunk <> 0 /\ (if last chunk 0 =? 10 then removelast chunk else chunk) = line.
Proof.
  intros H Hn. unfold strlen. destruct H as [->|[-> Hl]].
  - rewrite last_last, removelast_last. change (10 =? 10) with true. split; [rewrite app_length; cbn; lia|reflexivity].
  - split; [destruct line; [contradiction|cbn; lia]|].
    destruct (exists_last Hl) as (a & x & ->). rewrite last_last.
    destruct (Z.eqb_spec x 10); [|reflexivity]. subst. exfalso. apply Hn, in_or_app. right. left. reflexivity.
Qed.

Lemma read_some k : forall s b tot, (length s <= k)%nat -> no0 s -> short_lines s -> no0 b ->
  Z.of_nat (length b) + 1 <= tot -> tot + 3 * Z.of_nat (length s) <= INT_MAX ->
  exists b', read_loop k s (Some b) tot = Ok (Some b') /\ no0 b' /\ Z.of_nat (length b') + 1 <= tot + 3 * Z.of_nat (length s) /\
    tokens sep2 b' = tokens sep2 b ++ tokens sep3 s.
Proof.
  induction k as [|k IH]; intros s b tot Hk H0 HL Hb Ht HI.
  { destruct s; [|cbn in Hk; lia]. exists b. cbn [read_loop]. repeat split; try assumption; [cbn; lia|].
    cbn. rewrite app_nil_r. reflexivity. }
  destruct s as [|c0 s0].
  { exists b. cbn [read_loop]. repeat split; try assumption; [cbn [length]; lia|]. cbn. rewrite app_nil_r. reflexivity. }
  remember (c0 :: s0) as s eqn:Es.
  destruct (chunk_ok s) as (line & chunk & rest & Ef & Hc & Hn & Hs & Hr & Htok); [subst; discriminate|exact HL|].
  destruct (line_of_chunk chunk line Hc Hn) as [L0 L1].
  assert (Hcl : (length line <= length chunk)%nat) by (destruct Hc as [->|[-> _]]; [rewrite app_length|]; lia).
  assert (Hsum : length s = (length chunk + length rest)%nat) by (rewrite Hs, app_length; reflexivity).
  unfold strlen in L0.
  rewrite Hs in H0. apply no0_app in H0 as [H0c H0r].
  assert (H0l : no0 line) by (destruct Hc as [->|[-> _]]; [apply no0_app in H0c; tauto|exact H0c]).
  assert (U : read_loop (S k) s (Some b) tot =
    (c <- chk (tot + strlen line + 2) ;; b1 <- put c (b ++ [32]) ;; b2 <- put c (b1 ++ line) ;; read_loop k rest (Some b2) c)).
  { rewrite Es. cbn [read_loop]. rewrite <- Es, Ef, c_string_no0 by exact H0c. unfold strlen at 1.
    replace (Z.of_nat (length chunk) =? 0) with false by lia. rewrite L1. reflexivity. }
  rewrite U. unfold strlen. rewrite chk_ok by (unfold INT_MIN; lia). cbn [bind]. unfold put.
  replace (Z.of_nat (length (b ++ [32])) + 1 <=? tot + Z.of_nat (length line) + 2) with true by (rewrite app_length; cbn [length]; lia).
  cbn [bind].
  replace (Z.of_nat (length ((b ++ [32]) ++ line)) + 1 <=? tot + Z.of_nat (length line) + 2) with true by (rewrite !app_length; cbn [length]; lia).
  cbn [bind].
  destruct (IH rest ((b ++ [32]) ++ line) (tot + Z.of_nat (length line) + 2)) as (b' & E & N & Lb & T).
  - lia.
  - exact H0r.
  - exact Hr.
  - apply no0_app. split; [apply no0_app; split; [exact Hb|]|exact H0l]. intros x [<-|[]]. lia.
  - rewrite !app_length. cbn [length]. lia.
  - lia.
  - exists b'. split; [exact E|]. split; [exact N|]. split; [lia|].
    rewrite T, Htok, <- app_assoc. cbn [app]. rewrite tokens_join by reflexivity. rewrite <- app_assoc. reflexivity.
Qed.
Lemma read_ok s : no0 s -> short_lines s -> 3 * Z.of_nat (length s) + 1 <= INT_MAX ->
  exists ob, read_loop (length s) s None 0 = Ok ob /\
    let b := match ob with None => [] | Some b => b end in
    no0 b /\ Z.of_nat (length b) <= INT_MAX /\ tokens sep2 b = tokens sep3 s.
Proof.
  intros H0 HL HI. destruct s as [|c0 s0].
  { exists None. cbn. repeat split; [intros c []|unfold INT_MAX; lia]. }
  remember (c0 :: s0) as s eqn:Es.
  destruct (chunk_ok s) as (line & chunk & rest & Ef & Hc & Hn & Hs & Hr & Htok); [subst; discriminate|exact HL|].
  destruct (line_of_chunk chunk line Hc Hn) as [L0 L1].
  assert (Hcl : (length line <= length chunk)%nat) by (destruct Hc as [->|[-> _]]; [rewrite app_length|]; lia).
  assert (Hsum : length s = (length chunk + length rest)%nat) by (rewrite Hs, app_length; reflexivity).
  unfold strlen in L0.
  rewrite Hs in H0. apply no0_app in H0 as [H0c H0r].
  assert (H0l : no0 line) by (destruct Hc as [->|[-> _]]; [apply no0_app in H0c; tauto|exact H0c]).
  assert (U : read_loop (length s) s None 0 =
    (c <- chk (strlen line + 1) ;; b <- put c line ;; read_loop (length s0) rest (Some b) c)).
  { rewrite Es. cbn [read_loop length]. rewrite <- Es, Ef, c_string_no0 by exact H0c. unfold strlen at 1.
    replace (Z.of_nat (length chunk) =? 0) with false by lia. rewrite L1. reflexivity. }
  rewrite U. unfold strlen. rewrite chk_ok by (unfold INT_MIN; lia). cbn [bind]. unfold put.
  replace (Z.of_nat (length line) + 1 <=? Z.of_nat (length line) + 1) with true by lia. cbn [bind].
  assert (length s = S (length s0)) by (subst s; reflexivity).
  destruct (read_some (length s0) rest line (Z.of_nat (length line) + 1)) as (b' & E & N & Lb & T).
  - lia.
  - exact H0r.
  - exact Hr.
  - exact H0l.
  - lia.
  - lia.
  - exists (Some b'). split; [exact E|]. cbn zeta. split; [exact N|]. split; [lia|]. rewrite T, Htok. reflexivity.
Qed.
Lemma c_string_until0 l : c_string l = until0 l.
Proof. induction l as [|c l IH]; cbn; [reflexivity|]. rewrite IH. reflexivity. Qed.
Lemma output_ok out : no0 out -> short_lines out -> 3 * Z.of_nat (length out) + 1 <= INT_MAX ->
  output_words out = Ok (tokens sep3 out).
Proof.
  intros H0 HL HI. unfold output_words. destruct (read_ok out H0 HL HI) as (ob & -> & H). cbn [bind].
  cbn zeta in H. set (b := match ob with None => [] | Some b => b end) in *. destruct H as (Hb & HbI & HT).
  rewrite count_tokens_ok by assumption. cbn [bind].
  destruct (tokenize_ok b [32; 9] (Z.of_nat (length (tokens (is_sep [32; 9]) b))) Hb) as (mem & offs & -> & _ & M). cbn [bind].
  rewrite Nat2Z.id, firstn_all in M.
  assert (length offs = length (tokens (is_sep [32; 9]) b)) by (rewrite <- M, map_length; reflexivity).
  replace (Z.of_nat (length offs) =? Z.of_nat (length (tokens (is_sep [32; 9]) b))) with true by lia.
  f_equal. rewrite <- HT. unfold sep2. rewrite <- M. apply map_ext. intros o. unfold cstr. apply c_string_until0.
Qed.
