(* Tokens, integers and lists of coefficients in texts. *)
From Verif Require Import Base MIntMath MIntmod MIntrat MMat MMatCli MF2Poly MPoly MPolymod MF2nPoly MFpnPoly MLinalg MRat MCyclo MTextIO MPolyText.
From Verif Require Import PIntMath PIntMath2 PIntmod PMatCli5 PMatCli8 PTextIO3 PTextIO4.
Require Import Lia.
Import ListNotations.
Open Scope nat_scope.
Local Notation length := List.length.
Local Notation is_digit := MMatCli.is_digit.

(* ---- tokens ---- *)
(* w is a word for the separator; ts are the words of t *)
Definition word (sep : ascii) (w : list ascii) : Prop := w <> [] /\ ~ In sep w.
Inductive spread (sep : ascii) : list (list ascii) -> list ascii -> Prop :=
| spread_nil : spread sep [] []
| spread_sep ts t : spread sep ts t -> spread sep ts (sep :: t)
| spread_last w : word sep w -> spread sep [w] w
| spread_word w ts t : word sep w -> spread sep ts t -> spread sep (w :: ts) (w ++ sep :: t).

Lemma tokens_nosep sep w : forall u, ~ In sep w -> tokens_from sep u w = tok_end (rev w ++ u) [].
Proof.
  induction w as [|c w IH]; intros u H; [reflexivity|]. cbn [tokens_from rev]. destruct (Ascii.eqb_spec c sep) as [->|_]; [exfalso; apply H; left; reflexivity|].
  rewrite IH by (intros K; apply H; right; exact K). rewrite <- app_assoc. reflexivity.
Qed.
Lemma tokens_word sep w : forall u t, ~ In sep w -> tokens_from sep u (w ++ sep :: t) = tok_end (rev w ++ u) (tokens sep t).
Proof.
  induction w as [|c w IH]; intros u t H.
  - cbn [tokens_from rev app]. rewrite Ascii.eqb_refl. reflexivity.
  - cbn [app tokens_from]. destruct (Ascii.eqb_spec c sep) as [->|_]; [exfalso; apply H; left; reflexivity|].
    rewrite IH by (intros K; apply H; right; exact K). cbn [rev]. rewrite <- app_assoc. reflexivity.
Qed.
Lemma tok_end_word sep w ts : word sep w -> tok_end (rev w ++ []) ts = w :: ts.
Proof.
  intros [H _]. rewrite app_nil_r. destruct w as [|c w]; [congruence|]. unfold tok_end. destruct (rev (c :: w)) eqn:E.
  - apply (f_equal (@length ascii)) in E. rewrite rev_length in E. discriminate.
  - rewrite <- E, rev_involutive. reflexivity.
Qed.
Lemma spread_tokens sep ts t : spread sep ts t -> tokens sep t = ts.
Proof.
  induction 1 as [|ts t _ IH|w H|w ts t H _ IH].
  - reflexivity.
  - unfold tokens. cbn [tokens_from]. rewrite Ascii.eqb_refl. exact IH.
  - unfold tokens. rewrite tokens_nosep by apply H. apply tok_end_word with (sep := sep), H.
  - unfold tokens. rewrite tokens_word by apply H. rewrite IH. apply tok_end_word with (sep := sep), H.
Qed.
Lemma split_sep (sep : ascii) t : ~ In sep t \/ exists w t', t = w ++ sep :: t' /\ ~ In sep w.
Proof.
  induction t as [|c t IH]; [left; intros []|]. destruct (Ascii.ascii_dec c sep) as [->|N].
  - right. exists [], t. split; [reflexivity|intros []].
  - destruct IH as [H|(w & t' & -> & H)].
    + left. intros [K|K]; auto.
    + right. exists (c :: w), t'. split; [reflexivity|]. intros [K|K]; auto.
Qed.
Lemma spread_ex sep t : spread sep (tokens sep t) t.
Proof.
  remember (length t) as n eqn:En. assert (Hn : length t <= n) by lia. clear En. revert t Hn.
  induction n as [|n IH]; intros t Hn.
  - destruct t; [constructor|cbn in Hn; lia].
  - destruct (split_sep sep t) as [H|(w & t' & -> & H)].
    + destruct t as [|c t]; [constructor|]. assert (W : word sep (c :: t)) by (split; [discriminate|exact H]).
      rewrite (spread_tokens _ _ _ (spread_last _ _ W)). constructor. exact W.
    + rewrite app_length in Hn. cbn in Hn. specialize (IH t' ltac:(lia)). destruct w as [|c w].
      * cbn [app]. rewrite (spread_tokens _ _ _ (spread_sep _ _ _ IH)). constructor. exact IH.
      * assert (W : word sep (c :: w)) by (split; [discriminate|exact H]).
        rewrite (spread_tokens _ _ _ (spread_word _ _ _ _ W IH)). constructor; assumption.
Qed.
Lemma tokens_spread sep ts t : tokens sep t = ts <-> spread sep ts t.
Proof. split; [intros <-; apply spread_ex|apply spread_tokens]. Qed.
Lemma spread_none sep t : Forall (eq sep) t -> spread sep [] t.
Proof. induction 1 as [|c t <- _ IH]; constructor. exact IH. Qed.
Lemma tokens_none sep t : tokens sep t = [] <-> Forall (eq sep) t.
Proof.
  split.
  - intros H. apply tokens_spread in H. remember [] as ts eqn:E. induction H; try discriminate; constructor; auto.
  - intros H. apply tokens_spread, spread_none, H.
Qed.
Lemma put_sep_spread sep ts : Forall (word sep) ts -> spread sep ts (put_sep [sep] ts).
Proof.
  induction 1 as [|w ts H Hts IH]; [constructor|]. destruct ts as [|w' ts]; [apply spread_last, H|].
  change (put_sep [sep] (w :: w' :: ts)) with (w ++ sep :: put_sep [sep] (w' :: ts)). constructor; assumption.
Qed.
(* at most one word more than separators: the array of tokens is large enough *)
Lemma tokens_count sep t : length (tokens sep t) <= count_occ Ascii.ascii_dec t sep + 1.
Proof.
  assert (G : forall w, count_occ Ascii.ascii_dec w sep = 0 \/ In sep w).
  { intros w. destruct (In_dec Ascii.ascii_dec sep w) as [H|H]; [right; exact H|left]. apply count_occ_not_In. exact H. }
  pose proof (spread_ex sep t) as H. induction H as [|ts t _ IH|w H|w ts t H _ IH].
  - cbn. lia.
  - cbn [count_occ]. destruct (Ascii.ascii_dec sep sep); [lia|congruence].
  - cbn. lia.
  - rewrite count_occ_app. cbn [count_occ length]. destruct (Ascii.ascii_dec sep sep); [lia|congruence].
Qed.

(* ---- no NUL ---- *)
Lemma cstr_id t : ~ In "000"%char t -> cstr t = t.
Proof.
  induction t as [|c t IH]; intros H; [reflexivity|]. cbn [cstr]. destruct (Ascii.eqb_spec c "000"%char) as [->|_]; [exfalso; apply H; left; reflexivity|].
  rewrite IH; [reflexivity|]. intros K; apply H; right; exact K.
Qed.
Lemma has_In c t : has c t = true <-> In c t.
Proof.
  unfold has. rewrite existsb_exists. split.
  - intros (x & H & E). apply Ascii.eqb_eq in E. subst. exact H.
  - intros H. exists c. split; [exact H|apply Ascii.eqb_refl].
Qed.
Lemma has_no c t : ~ In c t -> has c t = false.
Proof. intros H. destruct (has c t) eqn:E; [apply has_In in E; contradiction|reflexivity]. Qed.

(* ---- integers ---- *)
(* the text begins with the decimal integer v, after blanks, with or without a sign, and no further digit follows it *)
Definition int_text (w : list ascii) (v : Z) : Prop :=
  exists b sg d r, w = b ++ sg ++ d ++ r /\ Forall (fun x => is_space x = true) b /\ d <> [] /\ Forall digit d /\
    match r with [] => True | x :: _ => ~ digit x end /\
    (sg = ["-"%char] /\ v = (- dec d)%Z \/ (sg = ["+"%char] \/ sg = []) /\ v = dec d) /\ (INT_MIN <= v <= INT_MAX)%Z.
Lemma is_digit_iff x : is_digit x = true <-> digit x.
Proof.
  unfold MMatCli.is_digit, digit. rewrite Bool.andb_true_iff, !Nat.leb_le. reflexivity.
Qed.
Lemma rd_digits_gen d : Forall digit d -> forall acc any r, (d <> [] \/ any = true) -> match r with [] => True | x :: _ => ~ digit x end ->
  read_digits (d ++ r) acc any = Some (fold_left (fun a c => 10 * a + (Z.of_nat (nat_of_ascii c) - 48))%Z d acc, r).
Proof.
  induction 1 as [|c d Hc Hd IH]; intros acc any r Hn Hr.
  - destruct Hn as [Hn| ->]; [congruence|]. cbn [app fold_left]. destruct r as [|x r]; [reflexivity|]. cbn [read_digits].
    destruct (is_digit x) eqn:E; [apply is_digit_iff in E; contradiction|reflexivity].
  - cbn [app read_digits fold_left]. apply is_digit_iff in Hc. rewrite Hc. apply IH; auto.
Qed.
Lemma rd_digits_inv t : forall acc any v r, read_digits t acc any = Some (v, r) ->
  exists d, t = d ++ r /\ Forall digit d /\ (d <> [] \/ any = true) /\ match r with [] => True | x :: _ => ~ digit x end /\
    v = fold_left (fun a c => 10 * a + (Z.of_nat (nat_of_ascii c) - 48))%Z d acc.
Proof.
  induction t as [|c t IH]; intros acc any v r; cbn [read_digits].
  - destruct any; [|discriminate]. intros [= <- <-]. exists []. repeat split; auto.
  - destruct (is_digit c) eqn:E.
    + intros H. apply IH in H. destruct H as (d & -> & H1 & _ & H3 & ->). exists (c :: d).
      repeat split; [constructor; [apply is_digit_iff, E|exact H1]|left; discriminate|exact H3].
    + destruct any; [|discriminate]. intros [= <- <-]. exists []. repeat split; auto. intros K. apply is_digit_iff in K. congruence.
Qed.
Lemma rd_digits_none t : read_digits t 0 false = None -> match t with [] => True | x :: _ => ~ digit x end.
Proof.
  destruct t as [|c t]; [auto|]. cbn [read_digits]. destruct (is_digit c) eqn:E; [|intros _ K; apply is_digit_iff in K; congruence].
  intros H. exfalso. revert H. generalize (10 * 0 + digit_val c)%Z. induction t as [|x t IH]; intros a; cbn [read_digits]; [discriminate|].
  destruct (is_digit x); [apply IH|discriminate].
Qed.
Lemma skip_space_app b t : Forall (fun x => is_space x = true) b -> skip_space (b ++ t) = skip_space t.
Proof. induction 1 as [|x b H _ IH]; [reflexivity|]. cbn [app skip_space]. rewrite H. exact IH. Qed.
Lemma skip_space_split t : exists b, t = b ++ skip_space t /\ Forall (fun x => is_space x = true) b /\
  match skip_space t with [] => True | x :: _ => is_space x = false end.
Proof.
  induction t as [|c t (b & E & H1 & H2)]; [exists []; repeat split; constructor|]. cbn [skip_space]. destruct (is_space c) eqn:Ec.
  - exists (c :: b). cbn [app]. rewrite <- E. repeat split; [constructor; assumption|exact H2].
  - exists []. repeat split; [constructor|exact Ec].
Qed.
Lemma sign_chars : is_space "-" = false /\ is_space "+" = false /\ ~ digit "-" /\ ~ digit "+".
Proof. repeat split; try reflexivity; unfold digit; vm_compute; lia. Qed.
Lemma int_text_rest w v : int_text w v -> exists r, read_int w = Some (v, r).
Proof.
  intros (b & sg & d & r & -> & Hb & Hn & Hd & Hr & Hv & Hm). exists r. unfold read_int. rewrite skip_space_app by assumption.
  destruct sign_chars as (S1 & S2 & _). destruct Hv as [[-> ->]|[[->| ->] ->]]; cbn [app].
  - cbn [skip_space]. rewrite S1. cbn [Ascii.eqb Bool.eqb andb]. rewrite rd_digits_gen by auto. fold (dec d).
    destruct (Z.leb_spec INT_MIN (- dec d)), (Z.leb_spec (- dec d) INT_MAX); cbn [andb]; try lia. reflexivity.
  - cbn [skip_space]. rewrite S2. cbn [Ascii.eqb Bool.eqb andb]. rewrite rd_digits_gen by auto. fold (dec d).
    destruct (Z.leb_spec INT_MIN (dec d)), (Z.leb_spec (dec d) INT_MAX); cbn [andb]; try lia. reflexivity.
  - destruct d as [|c d]; [congruence|]. assert (Hc : digit c) by (inversion Hd; assumption).
    destruct (digit_ok _ Hc) as (_ & Hs & H1 & H2 & _). cbn [app skip_space]. rewrite Hs, H1, H2.
    change (c :: d ++ r) with ((c :: d) ++ r). rewrite rd_digits_gen by auto. fold (dec (c :: d)).
    destruct (Z.leb_spec INT_MIN (dec (c :: d))), (Z.leb_spec (dec (c :: d)) INT_MAX); cbn [andb]; try lia. reflexivity.
Qed.
Lemma read_int_text w v r : read_int w = Some (v, r) -> int_text w v.
Proof.
  unfold read_int. destruct (skip_space_split w) as (b & E & Hb & _). set (u := skip_space w) in *.
  assert (K : forall sg t (neg : bool), u = sg ++ t -> (sg = ["-"%char] /\ neg = true \/ (sg = ["+"%char] \/ sg = []) /\ neg = false) ->
     match read_digits t 0 false with
     | Some (v, r) => let v := if neg then (- v)%Z else v in if ((INT_MIN <=? v) && (v <=? INT_MAX))%Z then Some (v, r) else None
     | None => None end = Some (v, r) -> int_text w v).
  { intros sg t neg Hu Hs H. destruct (read_digits t 0 false) as [[v' r']|] eqn:R; [|discriminate]. apply rd_digits_inv in R.
    destruct R as (d & -> & H1 & [H2|H2] & H3 & ->); [|discriminate]. fold (dec d) in H. cbn zeta in H.
    destruct (Z.leb_spec INT_MIN (if neg then (- dec d)%Z else dec d)) as [L1|]; cbn [andb] in H; [|discriminate].
    destruct (Z.leb_spec (if neg then (- dec d)%Z else dec d) INT_MAX) as [L2|]; [|discriminate]. injection H as <- <-.
    exists b, sg, d, r'. rewrite E, Hu. repeat split; try assumption. destruct Hs as [[-> ->]|[Hs ->]]; [left|right]; auto. }
  destruct u as [|x t] eqn:Eu; [apply (K [] [] false); auto|].
  destruct (Ascii.eqb_spec x "-"%char) as [->|_]; [apply (K ["-"%char] t true); auto|].
  destruct (Ascii.eqb_spec x "+"%char) as [->|_]; [apply (K ["+"%char] t false); auto|]. apply (K [] (x :: t) false); auto.
Qed.
Lemma read_int_none w : (forall v, ~ int_text w v) -> read_int w = None.
Proof. intros H. destruct (read_int w) as [[v r]|] eqn:E; [exfalso; apply (H v), (read_int_text _ _ _ E)|reflexivity]. Qed.
Lemma int_text_fun w v v' : int_text w v -> int_text w v' -> v = v'.
Proof. intros H H'. apply int_text_rest in H. apply int_text_rest in H'. destruct H as [r H], H' as [r' H']. congruence. Qed.

(* ---- filling the array of coefficients ---- *)
Section Fill.
Context {A : Type} (o : kops A) (dflt : A) (rd : list ascii -> res (option A)).
Lemma fill_ok ts xs : Forall2 (fun w x => rd w = Ok (Some x)) ts xs -> forall l, fill dflt rd ts l = Ok (true, rev xs ++ l).
Proof.
  induction 1 as [|w x ts xs H _ IH]; intros l; [reflexivity|]. cbn [fill rev]. rewrite H. cbn [bind]. rewrite IH, <- app_assoc. reflexivity.
Qed.
Lemma fill_poly_ok ts xs : Forall2 (fun w x => rd w = Ok (Some x)) ts xs ->
  fill_poly o dflt rd ts = bind (gp_recompute o (rev xs)) (fun l => Ok (Read l)).
Proof. intros H. unfold fill_poly. rewrite (fill_ok _ _ H), app_nil_r. reflexivity. Qed.
Lemma fill_poly_no ts1 xs w ts2 : Forall2 (fun w x => rd w = Ok (Some x)) ts1 xs -> rd w = Ok None ->
  fill_poly o dflt rd (ts1 ++ w :: ts2) = Ok (Rejected (repeat dflt (S (length ts2)) ++ rev xs)).
Proof.
  intros H Hw. unfold fill_poly. enough (E : forall l, fill dflt rd (ts1 ++ w :: ts2) l = Ok (false, repeat dflt (S (length ts2)) ++ rev xs ++ l)).
  { rewrite E, app_nil_r. reflexivity. }
  induction H as [|u x ts1 xs H _ IH]; intros l.
  - cbn [app fill]. rewrite Hw. reflexivity.
  - cbn [app fill rev]. rewrite H. cbn [bind]. rewrite IH, <- !app_assoc. reflexivity.
Qed.
Lemma sep_poly_ok sep ts t xs : spread sep ts t -> ~ In "000"%char t -> ts <> [] -> Forall2 (fun w x => rd w = Ok (Some x)) ts xs ->
  sep_poly o dflt rd sep t = bind (gp_recompute o (rev xs)) (fun l => Ok (Read l)).
Proof.
  intros Hs H0 Hn H. unfold sep_poly. rewrite cstr_id, (spread_tokens _ _ _ Hs) by assumption.
  destruct ts; [congruence|]. apply (fill_poly_ok _ _ H).
Qed.
Lemma sep_poly_no sep ts1 xs w ts2 t : spread sep (ts1 ++ w :: ts2) t -> ~ In "000"%char t ->
  Forall2 (fun w x => rd w = Ok (Some x)) ts1 xs -> rd w = Ok None ->
  sep_poly o dflt rd sep t = Ok (Rejected (repeat dflt (S (length ts2)) ++ rev xs)).
Proof.
  intros Hs H0 H Hw. unfold sep_poly. rewrite cstr_id, (spread_tokens _ _ _ Hs) by assumption.
  rewrite <- (fill_poly_no _ _ _ _ H Hw). destruct ts1; reflexivity.
Qed.
Lemma sep_poly_freed sep t : sep <> "000"%char -> Forall (eq sep) t -> sep_poly o dflt rd sep t = Ok Freed.
Proof.
  intros Hs H. unfold sep_poly. rewrite cstr_id.
  - rewrite (proj2 (tokens_none sep t) H). reflexivity.
  - intros K. rewrite Forall_forall in H. apply H in K. congruence.
Qed.
End Fill.

(* ---- digits and commas ---- *)
Lemma span_ok f w r : Forall (fun x => f x = true) w -> match r with [] => True | x :: _ => f x = false end -> span f (w ++ r) = (w, r).
Proof.
  induction 1 as [|x w H _ IH]; intros Hr.
  - destruct r as [|x r]; [reflexivity|]. cbn. rewrite Hr. reflexivity.
  - cbn [app span]. rewrite H, IH by assumption. reflexivity.
Qed.
Lemma skip_ws_app b t : Forall (fun x => In x [" "%char; "009"%char; "010"%char]) b -> skip_ws (b ++ t) = skip_ws t.
Proof. induction 1 as [|x b H _ IH]; [reflexivity|]. cbn [app skip_ws]. destruct H as [<-|[<-|[<-|[]]]]; exact IH. Qed.
Lemma dc_digit x : digit x -> dc x = true. Proof. intros H. unfold dc. rewrite (proj2 (is_digit_iff x) H). reflexivity. Qed.
Lemma dc_chars x : dc x = true -> digit x \/ x = ","%char.
Proof. unfold dc. rewrite Bool.orb_true_iff, is_digit_iff, Ascii.eqb_eq. auto. Qed.
Lemma dc_not x : dc x = true -> ((x =? " ")%char || (x =? "009")%char || (x =? "010")%char)%bool = false /\ x <> "255"%char /\ x <> "000"%char /\ x <> ":"%char /\ x <> "/"%char.
Proof.
  intros H. apply dc_chars in H. destruct H as [H| ->].
  - destruct (digit_ok _ H) as (_ & _ & _ & _ & E). rewrite E. repeat split; intros ->; unfold digit in H; vm_compute in H; lia.
  - repeat split; discriminate.
Qed.
(* what follows a text of digits and commas *)
Definition ends (r : list ascii) : Prop := match r with [] => True | x :: _ => dc x = false end.
Lemma dc_in_ok {A : Type} (from : list ascii -> res (scan (list A))) a b w r :
  Forall (fun x => In x [" "%char; "009"%char; "010"%char]) b -> Forall (fun x => dc x = true) w -> w <> [] -> ends r ->
  dc_in from a (open_text (b ++ w ++ r)) = bind (from w) (fun x => Ok (x, mkis r (at_eof r) (match x with Read _ => false | _ => true end) false)).
Proof.
  intros Hb Hw Hn Hr. unfold dc_in. cbn [good open_text i_eof failed i_fail i_bad negb andb orb i_text]. rewrite skip_ws_app by assumption.
  destruct w as [|x w]; [congruence|]. assert (Hx : dc x = true) by (inversion Hw; assumption).
  destruct (dc_not _ Hx) as (E & N & _). cbn [app skip_ws]. rewrite E. cbn [at_eof]. destruct (Ascii.eqb_spec x "255"%char); [congruence|].
  change (x :: w ++ r) with ((x :: w) ++ r). rewrite (span_ok dc _ _ Hw Hr). reflexivity.
Qed.
Lemma nodig : ~ digit ","%char /\ ~ digit ":"%char /\ ~ digit "000"%char /\ ~ digit "/"%char /\ ~ digit "-"%char.
Proof. repeat split; unfold digit; vm_compute; lia. Qed.
