(* Vectors and matrices in brackets as read by bracket_in. *)
From Verif Require Import Base MIntMath MIntmod MMat MMatCli PIntMath PIntMath2 PIntmod.
Require Import Lia.
Import ListNotations.
Open Scope nat_scope.

Definition blank (c : ascii) : Prop := c = " "%char \/ c = "009"%char.
Definition blanks (b : list ascii) : Prop := Forall blank b.
Definition sep (t : list ascii) : Prop := t = [] \/ exists c t', t = c :: t' /\ blank c.

Section Read.
Context {A : Type} (get : list ascii -> res (option (A * list ascii * bool))).
(* the words which stand for elements *)
Variable word : list ascii -> A -> Prop.
Record reads : Prop := {
  rd_ne : forall d a, word d a -> d <> [];
  rd_nb : forall c d a, word (c :: d) a -> ~ blank c;
  rd_nobr : forall d a, word d a -> ~ In "["%char d /\ ~ In "]"%char d;
  rd_get : forall b d a t, blanks b -> word d a -> sep t ->
    get (b ++ d ++ t) = Ok (Some (a, t, match t with [] => true | _ => false end));
  rd_end : forall b, blanks b -> get b = Ok None
}.
(* words separated by blanks *)
Inductive row : list ascii -> list A -> Prop :=
| row_one b d a : blanks b -> word d a -> row (b ++ d) [a]
| row_cons b d a c t l : blanks b -> word d a -> blank c -> row (c :: t) l -> row (b ++ d ++ c :: t) (a :: l).
(* rows in brackets *)
Inductive mrows : list ascii -> list (list A) -> Prop :=
| mr_one t l b : row t l -> blanks b -> mrows ("["%char :: t ++ "]"%char :: b) [l]
| mr_cons t l b u ls : row t l -> blanks b -> mrows u ls -> mrows ("["%char :: t ++ "]"%char :: b ++ u) (l :: ls).
Hypothesis R : reads.

Lemma row_read t l : row t l -> forall n, List.length t < n -> vec_read get n t = Ok (Some l).
Proof.
  induction 1 as [b d a Hb Hd|b d a c t l Hb Hd Hc Hr IH]; intros [|n] Hn; try lia; cbn [vec_read].
  - rewrite <- (app_nil_r d), (rd_get R b d a [] Hb Hd (or_introl eq_refl)). reflexivity.
  - rewrite (rd_get R b d a (c :: t) Hb Hd) by (right; eauto). cbn [bind].
    rewrite IH; [reflexivity|]. rewrite !app_length in Hn. pose proof (rd_ne R d a Hd). destruct d; [congruence|]. cbn in *. lia.
Qed.
Lemma row_trail t l : row t l -> forall b n, blanks b -> b <> [] -> List.length (t ++ b) < n -> vec_read get n (t ++ b) = Ok None.
Proof.
  induction 1 as [b d a Hb Hd|b d a c t l Hb Hd Hc Hr IH]; intros b' [|n] Hb' Hne Hn; try lia; cbn [vec_read].
  - rewrite <- app_assoc. destruct b' as [|c' b']; [congruence|].
    rewrite (rd_get R b d a (c' :: b') Hb Hd) by (right; inversion Hb'; eauto). cbn [bind].
    destruct n as [|n]; [rewrite !app_length in Hn; cbn in Hn; lia|]. cbn [vec_read]. rewrite (rd_end R _ Hb'). reflexivity.
  - rewrite <- !app_assoc. cbn [app].
    rewrite (rd_get R b d a (c :: t ++ b') Hb Hd) by (right; eauto). cbn [bind].
    change (c :: t ++ b') with ((c :: t) ++ b'). rewrite IH; [reflexivity|assumption|assumption|].
    rewrite !app_length in *. pose proof (rd_ne R d a Hd). destruct d; [congruence|]. cbn in *. lia.
Qed.
Lemma blank_nobr b : blanks b -> ~ In "["%char b /\ ~ In "]"%char b.
Proof. intros H; split; intros Hi; unfold blanks in H; rewrite Forall_forall in H; specialize (H _ Hi); destruct H; discriminate. Qed.
Lemma row_nobr t l : row t l -> ~ In "["%char t /\ ~ In "]"%char t.
Proof.
  induction 1 as [b d a Hb Hd|b d a c t l Hb Hd Hc Hr IH].
  - pose proof (blank_nobr b Hb). pose proof (rd_nobr R d a Hd). rewrite !in_app_iff. tauto.
  - pose proof (blank_nobr b Hb). pose proof (rd_nobr R d a Hd). rewrite !in_app_iff. tauto.
Qed.
Lemma row_ne t l : row t l -> l <> []. Proof. destruct 1; discriminate. Qed.

Lemma bl_none t : ~ In "]"%char t -> before_last t "]" = None.
Proof.
  induction t as [|x t IH]; intros H; [reflexivity|]. cbn [before_last]. rewrite IH by (intros Hi; apply H; right; exact Hi).
  destruct (Ascii.eqb_spec x "]"); [|reflexivity]. exfalso. apply H. left; congruence.
Qed.
Lemma bl_some t b : ~ In "]"%char b -> before_last (t ++ "]"%char :: b) "]" = Some t.
Proof.
  intros H. induction t as [|x t IH].
  - cbn [app before_last]. rewrite bl_none by exact H. reflexivity.
  - cbn [app before_last]. rewrite IH. reflexivity.
Qed.
Lemma vec_in t l b : row t l -> blanks b -> vec_bracket_in get ("["%char :: t ++ "]"%char :: b) = Ok (Some l).
Proof.
  intros Hr Hb. unfold vec_bracket_in. cbn [strchr]. rewrite Ascii.eqb_refl. cbn [tl].
  rewrite bl_some by (apply blank_nobr; exact Hb). apply row_read; [exact Hr|lia].
Qed.
Lemma vec_in_trail t l b b' : row t l -> blanks b -> b <> [] -> blanks b' -> vec_bracket_in get ("["%char :: (t ++ b) ++ "]"%char :: b') = Ok None.
Proof.
  intros Hr Hb Hn Hb'. unfold vec_bracket_in. cbn [strchr]. rewrite Ascii.eqb_refl. cbn [tl].
  rewrite bl_some by (apply blank_nobr; exact Hb'). eapply row_trail; eauto.
Qed.
Lemma vec_in_empty b b' : blanks b -> blanks b' -> vec_bracket_in get ("["%char :: b ++ "]"%char :: b') = Ok None.
Proof.
  intros Hb Hb'. unfold vec_bracket_in. cbn [strchr]. rewrite Ascii.eqb_refl. cbn [tl].
  rewrite bl_some by (apply blank_nobr; exact Hb'). unfold vec_stream. cbn [vec_read]. rewrite (rd_end R _ Hb). reflexivity.
Qed.

Lemma skip_blanks b u : blanks b -> skip_blank (b ++ u) = skip_blank u.
Proof.
  induction 1 as [|c b Hc Hb IH]; [reflexivity|]. cbn [app skip_blank]. destruct Hc as [->| ->]; cbn [Ascii.eqb orb Bool.eqb]; exact IH.
Qed.
Lemma pieces_app q cur u : ~ In "["%char q -> pieces "[" cur (q ++ u) = pieces "[" (rev q ++ cur) u.
Proof.
  revert cur; induction q as [|x q IH]; intros cur H; [reflexivity|]. cbn [app pieces].
  destruct (Ascii.eqb_spec x "["); [exfalso; apply H; left; congruence|].
  rewrite IH by (intros Hi; apply H; right; exact Hi). cbn [rev]. rewrite <- app_assoc. reflexivity.
Qed.
Definition piece (p : list ascii) (l : list A) : Prop := exists t b, p = t ++ "]"%char :: b /\ row t l /\ blanks b.
Lemma piece_nobr t l b : row t l -> blanks b -> ~ In "["%char (t ++ "]"%char :: b).
Proof.
  intros Hr Hb. pose proof (proj1 (row_nobr _ _ Hr)). pose proof (proj1 (blank_nobr _ Hb)).
  rewrite in_app_iff. cbn [In]. intros [?|[?|?]]; [tauto|discriminate|tauto].
Qed.
Lemma mrows_pieces u ls : mrows u ls -> forall cur, cur <> [] ->
  Forall2 piece (pieces "[" [] u) ls /\ pieces "[" cur u = rev cur :: pieces "[" [] u.
Proof.
  assert (E : forall cur u, cur <> [] -> pieces "[" cur ("["%char :: u) = rev cur :: pieces "[" [] ("["%char :: u)).
  { intros [|x cur] u' H; [congruence|reflexivity]. }
  induction 1 as [t l b Hr Hb|t l b u ls Hr Hb Hu IH]; intros cur Hc; (split; [|apply E; exact Hc]).
  - cbn [pieces]. rewrite Ascii.eqb_refl. rewrite <- (app_nil_r (t ++ "]"%char :: b)), pieces_app by (eapply piece_nobr; eauto).
    cbn [pieces]. rewrite app_nil_r. destruct (rev (t ++ "]"%char :: b)) eqn:En.
    + apply (f_equal (@rev _)) in En. rewrite rev_involutive in En. destruct t; discriminate.
    + rewrite <- En, rev_involutive. constructor; [|constructor]. exists t, b; auto.
  - cbn [pieces]. rewrite Ascii.eqb_refl. change (t ++ "]"%char :: b ++ u) with (t ++ ("]"%char :: b) ++ u).
    rewrite app_assoc, pieces_app by (eapply piece_nobr; eauto). rewrite app_nil_r.
    assert (Hn : rev (t ++ "]"%char :: b) <> []).
    { intros En. apply (f_equal (@rev _)) in En. rewrite rev_involutive in En. destruct t; discriminate. }
    destruct (IH _ Hn) as [H1 H2]. rewrite H2, rev_involutive. constructor; [|exact H1]. exists t, b; auto.
Qed.
Lemma rows_in ps ls : Forall2 piece ps ls -> mat_rows_in get ps = Ok (Some ls).
Proof.
  induction 1 as [|p l ps ls Hp Hf IH]; [reflexivity|]. cbn [mat_rows_in]. destruct Hp as (t & b & -> & Hr & Hb).
  rewrite (vec_in _ _ _ Hr Hb). cbn [bind]. rewrite IH. reflexivity.
Qed.
Lemma mrows_ne u ls : mrows u ls -> ls <> []. Proof. destruct 1; discriminate. Qed.
Lemma mrows_hd u ls : mrows u ls -> exists u', u = "["%char :: u'. Proof. destruct 1; eauto. Qed.
Definition width (ls : list (list A)) (n : nat) : Prop := forall r, In r ls -> List.length r = n.
Lemma ragged_ok ls n : ls <> [] -> width ls n -> check_ragged ls = Some n.
Proof.
  destruct ls as [|r ls]; [congruence|]. intros _ H. cbn [check_ragged].
  rewrite (proj2 (forallb_forall _ _)); [f_equal; apply H; left; reflexivity|].
  intros x Hx. apply Nat.eqb_eq. rewrite !H by (cbn; auto). reflexivity.
Qed.
Lemma ragged_no ls : (forall n, ~ width ls n) -> check_ragged ls = None.
Proof.
  destruct ls as [|r ls]; [reflexivity|]. intros H. cbn [check_ragged].
  destruct (forallb _ ls) eqn:E; [|reflexivity]. exfalso. apply (H (List.length r)).
  intros x [<-|Hx]; [reflexivity|]. rewrite forallb_forall in E. specialize (E _ Hx). apply Nat.eqb_eq in E. exact E.
Qed.
Lemma mat_in b u ls : blanks b -> mrows u ls ->
  mat_bracket_in get ("["%char :: b ++ u ++ ["]"%char]) = Ok (option_map (mkmat ls) (check_ragged ls)).
Proof.
  intros Hb Hu. unfold mat_bracket_in. cbn [strchr]. rewrite Ascii.eqb_refl.
  replace ("["%char :: b ++ u ++ ["]"%char]) with (("["%char :: b ++ u) ++ ["]"%char]) by (cbn [app]; rewrite <- app_assoc; reflexivity).
  rewrite bl_some by (intros []). cbn [tl]. rewrite (skip_blanks _ _ Hb).
  destruct (mrows_hd _ _ Hu) as [u' E].
  assert (Es : skip_blank u = u) by (rewrite E; reflexivity). rewrite Es.
  assert (Ec : strchr u "[" = Some u) by (rewrite E; reflexivity). rewrite Ec.
  assert (Hne : ["["%char] <> []) by discriminate.
  destruct (mrows_pieces _ _ Hu ["["%char] Hne) as [H1 _].
  rewrite (rows_in _ _ H1). cbn [bind]. destruct (check_ragged ls); reflexivity.
Qed.
Lemma strchr_none t : ~ In "["%char t -> strchr t "[" = None.
Proof.
  induction t as [|x t IH]; intros H; [reflexivity|]. cbn [strchr]. destruct (Ascii.eqb_spec x "["); [exfalso; apply H; left; congruence|].
  apply IH. intros Hi; apply H; right; exact Hi.
Qed.
Lemma skip_word d a t : word d a -> skip_blank (d ++ t) = d ++ t.
Proof.
  intros Hd. pose proof (rd_ne R _ _ Hd). destruct d as [|c d]; [congruence|]. pose proof (rd_nb R _ _ _ Hd) as H1. cbn [app skip_blank].
  destruct (Ascii.eqb_spec c " "); [exfalso; apply H1; left; assumption|].
  destruct (Ascii.eqb_spec c "009"); [exfalso; apply H1; right; assumption|reflexivity].
Qed.
Lemma skip_row t l : row t l -> row (skip_blank t) l.
Proof.
  destruct 1 as [b d a Hb Hd|b d a c t l Hb Hd Hc Hr]; rewrite (skip_blanks _ _ Hb).
  - rewrite <- (app_nil_r d), (skip_word _ _ _ Hd). rewrite app_nil_r. apply (row_one [] d a); [constructor|assumption].
  - rewrite (skip_word _ _ _ Hd). apply (row_cons [] d a c t l); auto. constructor.
Qed.
(* without inner brackets: a column *)
Lemma col_in t l : row t l -> mat_bracket_in get ("["%char :: t ++ ["]"%char]) = Ok (Some (mkmat (map (fun x => [x]) l) 1)).
Proof.
  intros Hr. unfold mat_bracket_in. cbn [strchr]. rewrite Ascii.eqb_refl.
  change ("["%char :: t ++ ["]"%char]) with (("["%char :: t) ++ ["]"%char]).
  rewrite bl_some by (intros []). cbn [tl]. pose proof (skip_row _ _ Hr) as Hs.
  rewrite (strchr_none _ (proj1 (row_nobr _ _ Hs))). unfold vec_stream.
  rewrite (row_read _ _ Hs) by lia. reflexivity.
Qed.
End Read.

(* decimal numbers, as elements modulo m *)
Definition dec (d : list ascii) : Z := fold_left (fun a c => 10 * a + (Z.of_nat (nat_of_ascii c) - 48))%Z d 0%Z.
Definition digit (c : ascii) : Prop := 48 <= nat_of_ascii c <= 57.
Definition numeral (d : list ascii) (v : Z) : Prop := d <> [] /\ Forall digit d /\ dec d = v /\ (v <= INT_MAX)%Z.
Definition mword (m : Z) (d : list ascii) (a : intmod) : Prop := exists v, numeral d v /\ a = mkim (v mod m) m.

Lemma digit_ok c : digit c -> is_digit c = true /\ is_space c = false /\ (c =? "-")%char = false /\ (c =? "+")%char = false /\
  ((c =? " ")%char || (c =? "009")%char || (c =? "010")%char)%bool = false.
Proof.
  unfold digit, is_digit, is_space. intros H.
  assert (E : forall x, (nat_of_ascii x < 48 -> (c =? x)%char = false)%nat).
  { intros x Hx. destruct (Ascii.eqb_spec c x); [subst; lia|reflexivity]. }
  rewrite !E by (vm_compute; lia).
  repeat split; try reflexivity.
  - rewrite (proj2 (Nat.leb_le _ _)), (proj2 (Nat.leb_le _ _)) by lia. reflexivity.
  - rewrite (proj2 (Nat.eqb_neq _ _)) by lia. cbn [orb]. rewrite (proj2 (Nat.leb_gt (nat_of_ascii c) 13)) by lia. apply andb_false_r.
Qed.
Lemma rd_digits d : Forall digit d -> forall acc any t, (d <> [] \/ any = true) -> sep t ->
  read_digits (d ++ t) acc any = Some (fold_left (fun a c => 10 * a + (Z.of_nat (nat_of_ascii c) - 48))%Z d acc, t).
Proof.
  induction 1 as [|c d Hc Hd IH]; intros acc any t Hn Ht.
  - destruct Hn as [Hn| ->]; [congruence|]. cbn [app fold_left]. destruct Ht as [->|(c & t' & -> & Hc)]; [reflexivity|].
    cbn [read_digits]. destruct Hc as [->| ->]; reflexivity.
  - cbn [app read_digits fold_left]. destruct (digit_ok _ Hc) as (-> & _). rewrite IH by auto. reflexivity.
Qed.
Lemma dec_nonneg d acc : Forall digit d -> (0 <= acc)%Z -> (0 <= fold_left (fun a c => 10 * a + (Z.of_nat (nat_of_ascii c) - 48)) d acc)%Z.
Proof.
  intros H; revert acc; induction H as [|c d Hc Hd IH]; intros acc Ha; [exact Ha|]. cbn [fold_left]. apply IH. unfold digit in Hc. lia.
Qed.
Lemma skip_ws_app b c d : blanks b -> digit c -> skip_ws (b ++ c :: d) = c :: d.
Proof.
  induction 1 as [|x b Hx Hb IH]; intros Hc; cbn [app skip_ws].
  - destruct (digit_ok _ Hc) as (_ & _ & _ & _ & ->). reflexivity.
  - destruct Hx as [->| ->]; cbn [Ascii.eqb Bool.eqb orb]; exact (IH Hc).
Qed.
Lemma skip_ws_end b : blanks b -> skip_ws b = [].
Proof. induction 1 as [|x b Hx Hb IH]; [reflexivity|]. cbn [skip_ws]. destruct Hx as [->| ->]; cbn [Ascii.eqb Bool.eqb orb]; exact IH. Qed.
Lemma read_numeral d v t : numeral d v -> sep t -> read_int (d ++ t) = Some (v, t).
Proof.
  intros (Hn & Hd & Hv & Hm) Ht. unfold read_int. destruct d as [|c d]; [congruence|].
  assert (Hc : digit c) by (inversion Hd; assumption). destruct (digit_ok _ Hc) as (_ & Hs & Hm1 & Hm2 & _).
  cbn [app skip_space]. rewrite Hs, Hm1, Hm2. change (c :: d ++ t) with ((c :: d) ++ t). rewrite rd_digits by auto.
  change (fold_left _ (c :: d) 0%Z) with (dec (c :: d)). rewrite Hv.
  pose proof (dec_nonneg (c :: d) 0 Hd ltac:(lia)) as H0. change (fold_left _ (c :: d) 0%Z) with (dec (c :: d)) in H0. rewrite Hv in H0.
  rewrite (proj2 (Z.leb_le _ _)) by (unfold INT_MIN; lia). rewrite (proj2 (Z.leb_le _ _)) by exact Hm. reflexivity.
Qed.
Lemma im_reads m : (1 <= m <= INT_MAX)%Z -> reads (im_get m) (mword m).
Proof.
  intros Hm. split.
  - intros d a (v & (H & _) & _). exact H.
  - intros c d a (v & (_ & H & _) & _) Hb. inversion H as [|? ? Hc _]; subst. unfold digit in Hc. destruct Hb as [->| ->]; vm_compute in Hc; lia.
  - intros d a (v & (_ & H & _) & _). rewrite Forall_forall in H. split; intros Hi; specialize (H _ Hi); unfold digit in H; vm_compute in H; lia.
  - intros b d a t Hb (v & Hn & ->) Ht. unfold im_get.
    pose proof Hn as (Hne & Hd & Hv & Hmx). destruct d as [|c d]; [congruence|]. cbn [app].
    rewrite skip_ws_app by (try assumption; inversion Hd; assumption). change (c :: d ++ t) with ((c :: d) ++ t).
    rewrite (read_numeral _ _ _ Hn Ht). cbn [app]. unfold im_stream_in.
    pose proof (dec_nonneg (c :: d) 0 Hd ltac:(lia)) as H0. change (fold_left _ (c :: d) 0%Z) with (dec (c :: d)) in H0. rewrite Hv in H0.
    rewrite check_modulus_ok by (cbn; lia). cbn [bind modulus]. rewrite imod_pos by lia. reflexivity.
  - intros b Hb. unfold im_get. rewrite skip_ws_end by exact Hb. reflexivity.
Qed.
