(* Hexadecimal words as characters: the text of polynomials over GF(2) in streams of characters. *)
From Verif Require Import Base MIntMath MIntmod MIntrat MMat MMatCli MF2Poly MPoly MPolymod MF2nPoly MFpnPoly MLinalg MRat MCyclo MTextIO MPolyText.
From Verif Require Import PF2Poly PF2Poly3 PPolyText.
From Coq Require Import Lia.
Import ListNotations.

Definition code (x : ascii) : Z := Z.of_nat (nat_of_ascii x).
(* a hexadecimal digit *)
Definition xd (x : ascii) : Prop := is_xdigit (code x) = true.
Definition hexs (h : list ascii) : N := hex_value (codes h).
Definition xstop (rest : list ascii) : Prop := match rest with [] => True | x :: _ => is_xdigit (code x) = false end.

Lemma chars_codes t : chars (codes t) = t.
Proof.
  unfold chars, codes. rewrite map_map. rewrite <- (map_id t) at 2. apply map_ext. intros x.
  rewrite Nat2Z.id. apply ascii_nat_embedding.
Qed.
Lemma code_char z : is_xdigit z = true -> code (ascii_of_nat (Z.to_nat z)) = z.
Proof.
  unfold is_xdigit, MF2Poly.is_digit. intros H. unfold code.
  assert (0 <= z < 256)%Z by (repeat rewrite Bool.orb_true_iff, ?Bool.andb_true_iff in H; lia).
  rewrite nat_ascii_embedding; lia.
Qed.
Lemma codes_chars s : Forall (fun z => is_xdigit z = true) s -> codes (chars s) = s /\ Forall xd (chars s).
Proof.
  induction 1 as [|z s Hz Hs [IH1 IH2]]; [split; [reflexivity|constructor]|]. cbn [chars map codes].
  split.
  - change (code (ascii_of_nat (Z.to_nat z)) :: codes (chars s) = z :: s). rewrite IH1, code_char by exact Hz. reflexivity.
  - constructor; [|exact IH2]. unfold xd. rewrite code_char by exact Hz. exact Hz.
Qed.
Lemma codes_app s t : codes (s ++ t) = codes s ++ codes t. Proof. apply map_app. Qed.
Definition ascii_all : list ascii := map ascii_of_nat (seq 0 256).
Lemma ascii_all_In x : In x ascii_all.
Proof.
  unfold ascii_all. rewrite <- (ascii_nat_embedding x). apply in_map, in_seq. pose proof (nat_ascii_bounded x). lia.
Qed.
Lemma by_cases (P : ascii -> bool) : forallb P ascii_all = true -> forall x, P x = true.
Proof. intros H x. rewrite forallb_forall in H. apply H, ascii_all_In. Qed.
Lemma xd_not x : xd x -> x <> ":"%char /\ x <> "000"%char /\ x <> "/"%char /\ x <> " "%char /\ x <> "009"%char /\ x <> "010"%char.
Proof.
  unfold xd. intros H.
  assert (F := by_cases (fun x => implb (is_xdigit (code x)) (negb (existsb (fun y => (x =? y)%char) [":"; "000"; "/"; " "; "009"; "010"]%char))) eq_refl x).
  cbv beta in F. rewrite H in F. cbn [implb] in F.
  repeat split; intros ->; discriminate.
Qed.
Lemma blank_code x : In x [" "; "009"; "010"]%char -> is_blank (code x) = true.
Proof. intros [<-|[<-|[<-|[]]]]; reflexivity. Qed.
Lemma xstop_codes rest : xstop rest -> stops (codes rest).
Proof. destruct rest; intros H; exact H. Qed.
Lemma f2_in_ok b h rest : Forall (fun x => In x [" "; "009"; "010"]%char) b -> Forall xd h -> h <> [] -> xstop rest ->
  exists l, f2_in (open_text (b ++ h ++ rest)) = Ok (l, mkis rest (no_text rest) false false) /\ canon l /\ valN l = hexs h.
Proof.
  intros Hb Hh Hn Hr. destruct (@read_ok (codes b) (codes h) (codes rest)) as (l & E & Hc & Hv).
  - apply Forall_map. eapply Forall_impl; [|exact Hb]. intros x; apply blank_code.
  - apply Forall_map. exact Hh.
  - destruct h; [congruence|discriminate].
  - apply xstop_codes, Hr.
  - exists l. split; [|split; assumption]. unfold f2_in. cbn [open_text good i_eof i_text failed i_fail i_bad negb orb andb].
    rewrite !codes_app, E. cbn [bind]. rewrite chars_codes. destruct rest; reflexivity.
Qed.
Lemma f2_in_no b rest : Forall (fun x => In x [" "; "009"; "010"]%char) b -> xstop rest ->
  (match rest with [] => True | x :: _ => is_blank (code x) = false end) ->
  f2_in (open_text (b ++ rest)) = Ok (f2_of_int 0, mkis rest (no_text rest) true false).
Proof.
  intros Hb Hr Hx. unfold f2_in. cbn [open_text good i_eof i_text failed i_fail i_bad negb orb andb].
  rewrite codes_app, (@read_fail (codes b) (codes rest)).
  - cbn [bind]. rewrite chars_codes. destruct rest; reflexivity.
  - apply Forall_map. eapply Forall_impl; [|exact Hb]. intros x; apply blank_code.
  - apply xstop_codes, Hr.
  - destruct rest; exact Hx.
Qed.
Lemma f2_put_ok l : wok l -> exists t, f2_put l = Ok t /\ t <> [] /\ Forall xd t /\ hexs t = valN l.
Proof.
  intros H. destruct (print_ok l H) as (s & E & V & N & F). exists (chars s).
  destruct (codes_chars s) as [C1 C2]. { eapply Forall_impl; [|exact F]. intros x [K _]. exact K. }
  unfold f2_put. rewrite E. cbn [bind]. split; [reflexivity|]. split; [destruct s; [congruence|discriminate]|].
  split; [exact C2|]. unfold hexs. rewrite C1. exact V.
Qed.
Lemma zero_xd : Forall xd ["0"%char] /\ hexs ["0"%char] = 0%N. Proof. split; [constructor; [reflexivity|constructor]|reflexivity]. Qed.
