(* Fractions in streams; rational numbers and polynomials over them as text. *)
From Verif Require Import Base MIntMath MIntmod MIntrat MMat MMatCli MF2Poly MPoly MPolymod MF2nPoly MFpnPoly MLinalg MRat MCyclo MTextIO MPolyText.
From Verif Require Import PIntMath PIntMath2 PIntmod PIntrat PMatCli5 PMatCli8 PTextIO3 PTextIO4 PPolyText.
Require Import Lia.
Import ListNotations.
Open Scope nat_scope.
Local Notation length := List.length.
Local Notation is_digit := MMatCli.is_digit.
Local Notation mkrat := MIntrat.mkrat.

Definition blank3 (x : ascii) : Prop := In x [" "; "009"; "010"]%char.
Definition blanks (b : list ascii) : Prop := Forall blank3 b.
Definition starts (t : list ascii) : Prop := match t with [] => False | x :: _ => ~ blank3 x end.
Lemma drop_char_app c b u : blank3 c -> blanks b -> starts u -> exists b', blanks b' /\ drop_char c (b ++ u) = b' ++ u.
Proof.
  intros Hc Hb Hu. induction Hb as [|x b Hx Hb IH].
  - exists []. split; [constructor|]. destruct u as [|y u]; [contradiction|]. cbn [app drop_char].
    destruct (Ascii.eqb_spec y c) as [->|]; [contradiction|reflexivity].
  - cbn [app drop_char]. destruct (Ascii.eqb_spec x c); [exact IH|]. exists (x :: b). split; [constructor; assumption|reflexivity].
Qed.
Lemma skip_char_app c b u : blank3 c -> blanks b -> starts u -> exists b', blanks b' /\ skip_char c (open_text (b ++ u)) = open_text (b' ++ u).
Proof.
  intros Hc Hb Hu. destruct (drop_char_app c b u Hc Hb Hu) as (b' & Hb' & E). exists b'. split; [exact Hb'|].
  unfold skip_char. cbn [open_text good i_eof i_text failed i_fail i_bad negb orb andb]. rewrite E.
  destruct (b' ++ u) eqn:K; [|reflexivity]. apply app_eq_nil in K. destruct K as [_ ->]. contradiction.
Qed.
Lemma skips b u : blanks b -> starts u -> exists b', blanks b' /\
  skip_char "010"%char (skip_char "009"%char (skip_char " "%char (open_text (b ++ u)))) = open_text (b' ++ u).
Proof.
  intros Hb Hu. destruct (skip_char_app " " b u) as (b1 & H1 & ->); [left; reflexivity|assumption..|].
  destruct (skip_char_app "009" b1 u) as (b2 & H2 & ->); [right; left; reflexivity|assumption..|].
  apply skip_char_app; [right; right; left; reflexivity|assumption..].
Qed.

Section Frac.
Context {A R : Type} (get : A -> istr -> res (A * istr)) (one : A -> res A) (mk : A -> A -> res R).
Context (E : list ascii -> bool) (stopn : list ascii -> Prop) (ok0 : A -> Prop).
Hypothesis E0 : E [] = true.
Hypothesis E1 : forall r, E ("/"%char :: r) = false.
(* t is read as n whatever stands in the variable and whatever follows *)
Definition gets (t : list ascii) (n : A) : Prop :=
  starts t /\ forall n0 b rest, ok0 n0 -> blanks b -> stopn rest -> get n0 (open_text (b ++ t ++ rest)) = Ok (n, mkis rest (E rest) false false).
Lemma frac_whole iss n0 d0 b t n u r rest : ok0 n0 -> blanks b -> gets t n -> stopn rest -> match rest with x :: _ => x <> "/"%char | [] => True end ->
  one n = Ok u -> mk n u = Ok r ->
  frac_in get one mk iss n0 d0 (open_text (b ++ t ++ rest)) = Ok (r, mkis rest (iss && E rest) false false).
Proof.
  intros Hn0 Hb [Hs Hg] Hr Hx Hu Hm. unfold frac_in. destruct (skips b (t ++ rest) Hb) as (b' & Hb' & ->); [destruct t; [contradiction|exact Hs]|].
  rewrite Hg by assumption. cbn [bind i_eof]. rewrite Hu.
  assert (K : forall d, (if E rest then Ok u else Ok d) = Ok (if E rest then u else d)) by (intros; destruct (E rest); reflexivity).
  rewrite K. cbn [bind]. destruct iss, (E rest) eqn:Er; cbn [andb].
  - cbn [is_char bind]. rewrite Hm. reflexivity.
  - destruct rest as [|x rest]; [congruence|]. cbn [peek good i_eof i_text failed i_fail i_bad negb orb andb is_char].
    destruct (Ascii.eqb_spec x "/"%char); [contradiction|]. cbn [bind]. rewrite Hm. reflexivity.
  - cbn [peek good i_eof i_text failed i_fail i_bad negb orb andb is_char]. cbn [bind]. rewrite Hm. reflexivity.
  - destruct rest as [|x rest]; [congruence|]. cbn [peek good i_eof i_text failed i_fail i_bad negb orb andb is_char].
    destruct (Ascii.eqb_spec x "/"%char); [contradiction|]. cbn [bind]. rewrite Hm. reflexivity.
Qed.
Lemma frac_over iss n0 d0 b t n b2 u d rest : ok0 n0 -> ok0 d0 -> blanks b -> gets t n -> blanks b2 -> gets u d -> (forall r, stopn ("/"%char :: r)) -> stopn rest ->
  frac_in get one mk iss n0 d0 (open_text (b ++ t ++ "/"%char :: b2 ++ u ++ rest)) =
  bind (mk n d) (fun r => Ok (r, mkis rest (E rest) false false)).
Proof.
  intros Hn0 Hd0 Hb [Hs Hg] Hb2 [_ Hg2] Hst Hr. unfold frac_in.
  destruct (skips b (t ++ "/"%char :: b2 ++ u ++ rest) Hb) as (b' & Hb' & ->); [destruct t; [contradiction|exact Hs]|].
  rewrite Hg by auto. cbn [bind i_eof]. rewrite E1. cbn [bind]. rewrite Bool.andb_false_r.
  cbn [peek good i_eof i_text failed i_fail i_bad negb orb andb is_char Ascii.eqb Bool.eqb].
  change (drop1 _) with (open_text (b2 ++ u ++ rest)). rewrite Hg2 by assumption. reflexivity.
Qed.
End Frac.

(* ---- ints ---- *)
Definition signed (w : list ascii) (v : Z) : Prop := exists sg d, w = sg ++ d /\ d <> [] /\ Forall digit d /\
  (sg = ["-"%char] /\ v = (- dec d)%Z \/ (sg = ["+"%char] \/ sg = []) /\ v = dec d) /\ (INT_MIN <= v <= INT_MAX)%Z.
Definition dstop (rest : list ascii) : Prop := match rest with [] => True | x :: _ => ~ digit x end.
Lemma blank_space x : blank3 x -> is_space x = true.
Proof. intros [<-|[<-|[<-|[]]]]; reflexivity. Qed.
Lemma get_int_ok v0 b w v rest : Forall (fun x => is_space x = true) b -> signed w v -> dstop rest ->
  get_int v0 (open_text (b ++ w ++ rest)) = (v, mkis rest (no_text rest) false false).
Proof.
  intros Hb (sg & d & -> & Hn & Hd & Hv & Hm) Hr. unfold get_int. cbn [open_text good i_eof i_text failed i_fail i_bad negb orb andb].
  rewrite skip_space_app by assumption. rewrite <- app_assoc. destruct sign_chars as (S1 & S2 & _).
  destruct Hv as [[-> ->]|[[->| ->] ->]]; cbn [app].
  - cbn [skip_space]. rewrite S1. cbn [Ascii.eqb Bool.eqb andb]. rewrite rd_digits_gen by auto. fold (dec d).
    destruct (Z.ltb_spec (- dec d) INT_MIN), (Z.ltb_spec INT_MAX (- dec d)); try lia. reflexivity.
  - cbn [skip_space]. rewrite S2. cbn [Ascii.eqb Bool.eqb andb]. rewrite rd_digits_gen by auto. fold (dec d).
    destruct (Z.ltb_spec (dec d) INT_MIN), (Z.ltb_spec INT_MAX (dec d)); try lia. reflexivity.
  - destruct d as [|c d]; [congruence|]. assert (Hc : digit c) by (inversion Hd; assumption).
    destruct (digit_ok _ Hc) as (_ & Hs & H1 & H2 & _). cbn [app skip_space]. rewrite Hs, H1, H2.
    change (c :: d ++ rest) with ((c :: d) ++ rest). rewrite rd_digits_gen by auto. fold (dec (c :: d)).
    destruct (Z.ltb_spec (dec (c :: d)) INT_MIN), (Z.ltb_spec INT_MAX (dec (c :: d))); try lia. reflexivity.
Qed.
Lemma signed_starts w v : signed w v -> starts w.
Proof.
  intros (sg & d & -> & Hn & Hd & Hv & _). destruct sign_chars as (S1 & S2 & _).
  destruct Hv as [[-> _]|[[->| ->] _]]; cbn [app starts]; try (intros K; apply blank_space in K; congruence).
  destruct d as [|c d]; [congruence|]. assert (Hc : digit c) by (inversion Hd; assumption).
  destruct (digit_ok _ Hc) as (_ & Hs & _). intros K; apply blank_space in K; congruence.
Qed.
Lemma put_signed n : (INT_MIN <= n <= INT_MAX)%Z -> signed (put_int n) n.
Proof.
  intros H. unfold put_int. destruct (Z.ltb_spec n 0).
  - destruct (digits_ok 40 (- n) []) as (d & E & H1 & H2 & H3); [|lia|].
    + split; [lia|]. apply (Z.le_lt_trans _ (- INT_MIN)); [lia|]. reflexivity.
    + exists ["-"%char], d. rewrite E, app_nil_r. repeat split; try assumption; try lia. left. split; [reflexivity|lia].
  - destruct (digits_ok 40 n []) as (d & E & H1 & H2 & H3); [|lia|].
    + split; [lia|]. apply (Z.le_lt_trans _ INT_MAX); [lia|]. reflexivity.
    + exists [], d. rewrite E, app_nil_r. repeat split; try assumption; try lia. right. split; [right; reflexivity|lia].
Qed.
Lemma gets_int w v : signed w v -> gets (fun v s => Ok (get_int v s)) no_text dstop (fun _ => True) w v.
Proof.
  intros H. split; [exact (signed_starts _ _ H)|]. intros n0 b rest _ Hb Hr. rewrite (get_int_ok n0 b w v rest); auto.
  eapply Forall_impl; [|exact Hb]. apply blank_space.
Qed.
(* ---- rational numbers ---- *)
(* |n| <= INT_MAX: simplify negates *)
Lemma rat_whole iss a b w n rest : blanks b -> signed w n -> (INT_MIN < n)%Z -> dstop rest ->
  match rest with x :: _ => x <> "/"%char | [] => True end ->
  rat_in iss a (open_text (b ++ w ++ rest)) = Ok (mkrat n 1%Z, mkis rest (iss && no_text rest) false false).
Proof.
  intros Hb Hw Hn Hr Hx. unfold rat_in.
  apply (frac_whole _ _ _ no_text dstop (fun _ => True) eq_refl iss (numer a) (denom a) b w n 1%Z (mkrat n 1%Z) rest); auto using gets_int.
  destruct Hw as (_ & _ & _ & _ & _ & _ & Hm). apply simplify_id; [unfold INT_MAX; lia|unfold INT_MIN, INT_MAX in *; lia|apply Z.gcd_1_r].
Qed.
Lemma rat_over iss a b w n b2 u d rest : blanks b -> signed w n -> blanks b2 -> signed u d -> dstop rest ->
  rat_in iss a (open_text (b ++ w ++ "/"%char :: b2 ++ u ++ rest)) = bind (simplify n d) (fun r => Ok (r, mkis rest (no_text rest) false false)).
Proof.
  intros Hb Hw Hb2 Hu Hr. unfold rat_in.
  apply (frac_over _ _ _ no_text dstop (fun _ => True) (fun _ => eq_refl) iss (numer a) (denom a) b w n b2 u d rest); auto using gets_int.
  intros r. cbn. apply nodig.
Qed.
Definition rat_obj (a : intrat) : Prop := lowest a /\ inr_ (numer a) /\ inr_ (denom a).
Lemma rat_round iss a0 a rest : rat_obj a -> dstop rest -> match rest with x :: _ => x <> "/"%char | [] => True end ->
  exists eof, rat_in iss a0 (open_text (rat_put a ++ rest)) = Ok (a, mkis rest eof false false).
Proof.
  destruct a as [n d]. unfold rat_obj, lowest, inr_, rat_put. cbn [numer denom]. intros ([Hd Hg] & Hn & Hdi) Hr Hx.
  assert (Hsn : signed (put_int n) n) by (apply put_signed; unfold INT_MIN, INT_MAX in *; lia).
  destruct (Z.eqb_spec d 1) as [->|Hd1].
  - eexists. rewrite app_nil_r. apply (rat_whole iss a0 [] (put_int n) n rest); auto; [constructor|unfold INT_MIN, INT_MAX in *; lia].
  - eexists. rewrite <- app_assoc. cbn [app].
    assert (Hsd : signed (put_int d) d) by (apply put_signed; unfold INT_MIN, INT_MAX in *; lia).
    etransitivity; [apply (rat_over iss a0 [] (put_int n) n [] (put_int d) d rest); auto; constructor|].
    rewrite simplify_id by (auto; lia). reflexivity.
Qed.
Lemma rat_scan_round a0 a : rat_obj a -> rat_scan a0 (rat_put a) = Ok (Some a).
Proof.
  intros H. destruct (rat_round true a0 a [] H I I) as (eof & E). rewrite app_nil_r in E. unfold rat_scan. rewrite E. reflexivity.
Qed.
(* defects *)
Lemma rat_junk iss a b x t : blanks b -> is_space x = false -> ~ digit x -> x <> "-"%char -> x <> "+"%char ->
  rat_in iss a (open_text (b ++ x :: t)) = Ok (mkrat 0%Z 1%Z, mkis (x :: t) false false false).
Proof.
  intros Hb Hs Hd H1 H2. unfold rat_in, frac_in. destruct (skips b (x :: t) Hb) as (b' & Hb' & ->).
  { cbn. intros K. apply blank_space in K. congruence. }
  unfold get_int. cbn [open_text good i_eof i_text failed i_fail i_bad negb orb andb].
  rewrite skip_space_app by (eapply Forall_impl; [|exact Hb']; apply blank_space). cbn [skip_space]. rewrite Hs.
  destruct (Ascii.eqb_spec x "-"%char); [contradiction|]. destruct (Ascii.eqb_spec x "+"%char); [contradiction|].
  cbn [read_digits]. destruct (is_digit x) eqn:Ex; [apply is_digit_iff in Ex; contradiction|].
  cbn [no_text bind i_eof]. rewrite Bool.andb_false_r. reflexivity.
Qed.
Lemma rat_large iss a b d x t : blanks b -> Forall digit d -> (INT_MAX < dec d)%Z -> ~ digit x ->
  rat_in iss a (open_text (b ++ d ++ x :: t)) = Ok (mkrat INT_MAX 1%Z, mkis (x :: t) false false false).
Proof.
  intros Hb Hd Hv Hx. assert (Hn : d <> []) by (intros ->; vm_compute in Hv; discriminate).
  destruct d as [|c d]; [congruence|]. assert (Hc : digit c) by (inversion Hd; assumption).
  destruct (digit_ok _ Hc) as (_ & Hs & H1 & H2 & _).
  unfold rat_in, frac_in. destruct (skips b ((c :: d) ++ x :: t) Hb) as (b' & Hb' & ->).
  { cbn. intros K. apply blank_space in K. congruence. }
  unfold get_int. cbn [open_text good i_eof i_text failed i_fail i_bad negb orb andb].
  rewrite skip_space_app by (eapply Forall_impl; [|exact Hb']; apply blank_space). cbn [app skip_space]. rewrite Hs, H1, H2.
  change (c :: d ++ x :: t) with ((c :: d) ++ x :: t). rewrite rd_digits_gen by auto. fold (dec (c :: d)).
  destruct (Z.ltb_spec (dec (c :: d)) INT_MIN) as [K|_]; [unfold INT_MIN, INT_MAX in *; lia|].
  destruct (Z.ltb_spec INT_MAX (dec (c :: d))) as [_|K]; [|lia].
  cbn [no_text bind i_eof]. rewrite Bool.andb_false_r.
  cbn [peek good i_eof i_text failed i_fail i_bad negb orb andb is_char set_fail].
  change (simplify INT_MAX 1%Z) with (Ok (mkrat INT_MAX 1%Z)). reflexivity.
Qed.
(* blanks only: the overload for istringstream fails, the other one keeps the numerator *)
Lemma drop_blanks c b : blanks b -> blanks (drop_char c b).
Proof. induction 1 as [|x b Hx Hb IH]; cbn [drop_char]; [constructor|]. destruct (x =? c)%char; [exact IH|constructor; assumption]. Qed.
Lemma get_nothing v b : blanks b -> get_int v (open_text b) = (v, mkis [] true true false).
Proof.
  intros Hb. unfold get_int. cbn [open_text good i_eof i_text failed i_fail i_bad negb orb andb].
  replace (skip_space b) with (@nil ascii); [reflexivity|]. rewrite <- (app_nil_r b), skip_space_app; [reflexivity|].
  eapply Forall_impl; [|exact Hb]. apply blank_space.
Qed.
Lemma rat_empty iss a b : blanks b -> inr_ (numer a) -> exists s, rat_in iss a (open_text b) = Ok (mkrat (numer a) 1%Z, s) /\ failed s = iss.
Proof.
  intros Hb Ha. unfold rat_in, frac_in.
  assert (K : exists s, (let s := skip_char "010"%char (skip_char "009"%char (skip_char " "%char (open_text b))) in get_int (numer a) s) =
    (numer a, s) /\ i_eof s = true /\ failed s = true).
  { assert (Q : forall c s, (exists b, blanks b /\ s = open_text b) \/ (i_text s = [] /\ i_eof s = true) ->
      let s := skip_char c s in (exists b, blanks b /\ s = open_text b) \/ (i_text s = [] /\ i_eof s = true)).
    { intros c s [(b1 & H1 & ->)|[H1 H2]]; cbv zeta.
      - unfold skip_char. cbn [open_text good i_eof i_text failed i_fail i_bad negb orb andb]. destruct (drop_char c b1) eqn:Ed.
        + right. split; reflexivity.
        + left. exists (a0 :: l). rewrite <- Ed. split; [apply drop_blanks, H1|]. rewrite Ed. reflexivity.
      - right. unfold skip_char, good. rewrite H2. cbn. auto. }
    destruct (Q "010"%char _ (Q "009"%char _ (Q " "%char _ (or_introl (ex_intro _ b (conj Hb eq_refl)))))) as [(b3 & H3 & ->)|[H1 H2]].
    - cbv zeta. rewrite get_nothing by exact H3. eexists. repeat split.
    - cbv zeta. unfold get_int, good. rewrite H2. cbn [negb andb]. eexists. split; [reflexivity|]. split; [exact H2|reflexivity]. }
  destruct K as (s & K & Ke & Kf). cbv zeta in K. rewrite K. cbn [bind]. rewrite Ke, Bool.andb_true_r. cbn [bind].
  destruct iss.
  - cbn [is_char bind]. rewrite simplify_id; [|unfold INT_MAX; lia|exact Ha|apply Z.gcd_1_r]. cbn [bind]. exists s. auto.
  - unfold peek, good. rewrite Ke. cbn [negb andb is_char bind]. rewrite simplify_id; [|unfold INT_MAX; lia|exact Ha|apply Z.gcd_1_r].
    cbn [bind]. eexists. split; [reflexivity|reflexivity].
Qed.

(* ---- polynomials over the rational numbers ---- *)
Lemma rev_repeat_ {A : Type} (x : A) k : rev (repeat x k) = repeat x k.
Proof. induction k as [|k IH]; [reflexivity|]. cbn [repeat rev]. rewrite IH, <- repeat_cons. reflexivity. Qed.
Definition whole (v : Z) : intrat := mkrat v 1%Z.
Lemma rat_int v : inr_ v -> rat_of_int v = Ok (whole v).
Proof. intros H. unfold rat_of_int. apply simplify_id; [unfold INT_MAX; lia|exact H|apply Z.gcd_1_r]. Qed.
Lemma rat_self v : inr_ v -> rat_sub (whole v) (whole v) = Ok (whole 0).
Proof.
  unfold inr_, rat_sub, whole, INT_MAX. cbn [numer denom]. intros H. unfold imul, isub, chk.
  rewrite Z.mul_1_r, Z.mul_1_l. assert (E : in_int v = true) by (unfold in_int, INT_MIN, INT_MAX; lia). rewrite E. cbn [bind].
  rewrite Z.sub_diag. reflexivity.
Qed.
(* the coefficients without zeros at the top *)
Definition trimmed (l l' : list intrat) : Prop :=
  exists k, l = l' ++ repeat (whole 0) k /\ l' <> [] /\ (length l' = 1 \/ last l' (whole 0) <> whole 0).
Lemma trim_whole rl : Forall (fun a => denom a = 1%Z) rl -> exists k r, trim_top q_kops (whole 0) rl = Ok r /\ rl = repeat (whole 0) k ++ r /\
  match r with [] => True | x :: _ => x <> whole 0 end.
Proof.
  induction 1 as [|x rl Hx _ (k & r & E & E2 & Hr)]; [exists 0, []; repeat split|]. cbn [trim_top].
  destruct x as [n d]. cbn [denom] in Hx. subst d. unfold c_neqb. cbn [q_kops k_c c_eqb bind]. unfold rat_eqb. cbn [numer denom whole].
  change (1 =? 1)%Z with true. rewrite Bool.andb_true_r. destruct (Z.eqb_spec n 0) as [->|Hn]; cbn [negb].
  - exists (S k), r. rewrite E. split; [reflexivity|]. split; [cbn; rewrite E2 at 1; reflexivity|exact Hr].
  - exists 0, (mkrat n 1%Z :: rl). split; [reflexivity|]. split; [reflexivity|]. unfold whole. congruence.
Qed.
Lemma q_recompute vs : vs <> [] -> Forall inr_ vs -> exists l, gp_recompute q_kops (rev (map whole vs)) = Ok l /\ trimmed (rev (map whole vs)) l.
Proof.
  intros Hn Hv. unfold gp_recompute. destruct (exists_last Hn) as (vs' & v0 & ->).
  rewrite map_app, rev_app_distr. cbn [map rev app getk nth_error bind].
  assert (H0 : inr_ v0) by (rewrite Forall_app in Hv; destruct Hv as [_ Hv]; inversion Hv; assumption).
  cbn [q_kops k_c c_sub]. rewrite rat_self by exact H0. cbn [bind].
  rewrite rev_involutive.
  destruct (trim_whole (map whole vs' ++ [whole v0])) as (k & r & E & E2 & Hr).
  { apply Forall_app. split; [apply Forall_map, Forall_forall; reflexivity|constructor; [reflexivity|constructor]]. }
  rewrite E. cbn [bind]. destruct r as [|x r].
  - rewrite app_nil_r in E2. exists [whole v0]. split; [reflexivity|]. exists (k - 1). 
    destruct k as [|k]; [destruct vs'; discriminate|]. cbn [repeat] in E2. rewrite repeat_cons in E2. apply app_inj_tail in E2. destruct E2 as [E2 E3].
    rewrite E2, E3. replace (S k - 1) with k by lia. rewrite rev_repeat_.
    split; [reflexivity|]. split; [discriminate|left; reflexivity].
  - exists (rev (x :: r)). split; [reflexivity|]. exists k. split; [|split].
    + replace (whole v0 :: rev (map whole vs')) with (rev (map whole vs' ++ [whole v0])) by (rewrite rev_app_distr; reflexivity).
      rewrite E2, rev_app_distr. f_equal. apply rev_repeat_.
    + intros K. apply (f_equal (@rev _)) in K. rewrite rev_involutive in K. discriminate.
    + right. cbn [rev]. rewrite last_last. exact Hr.
Qed.
Lemma inr_int v : (INT_MIN < v <= INT_MAX)%Z -> inr_ v. Proof. unfold inr_, INT_MIN, INT_MAX. lia. Qed.
(* a list of ints, with at least one comma; what follows an int in its place is ignored *)
Theorem q_scan_ok t ts vs : spread ","%char ts t -> ~ In "000"%char t -> ts <> [] -> Forall2 int_text ts vs -> In ","%char t ->
  Forall (fun v => INT_MIN < v)%Z vs -> exists l, q_scan t = Ok (Read l) /\ trimmed (rev (map whole vs)) l.
Proof.
  intros Hs H0 Hn Hv Hc Hm. assert (Hr : Forall inr_ vs).
  { clear - Hv Hm. induction Hv as [|w v ts vs H _ IH]; inversion Hm; constructor; auto. apply inr_int.
    destruct H as (? & ? & ? & ? & _ & _ & _ & _ & _ & _ & H). lia. }
  unfold q_scan. rewrite cstr_id, (proj2 (has_In _ _) Hc) by assumption. cbn [negb].
  rewrite (sep_poly_ok _ _ _ ","%char ts t (map whole vs)); try assumption.
  - destruct (q_recompute vs) as (l & -> & Hl); [intros ->; inversion Hv; subst; congruence|exact Hr|]. exists l. split; [reflexivity|exact Hl].
  - clear - Hv Hr. induction Hv as [|w v ts vs H _ IH]; inversion Hr; constructor; auto.
    destruct (int_text_rest _ _ H) as (r & E). unfold rd_int. rewrite E, rat_int by assumption. reflexivity.
Qed.
(* without a comma: a row of digits *)
Theorem q_scan_digits t : Forall digit t -> t <> [] -> exists l, q_scan t = Ok (Read l) /\ trimmed (rev (map (fun x => whole (digit_val x)) t)) l.
Proof.
  intros Hd Hn. assert (Hx : forall x, In x t -> digit x) by (apply Forall_forall, Hd). destruct nodig as (N1 & _ & N2 & _).
  unfold q_scan. rewrite cstr_id by (intros K; apply N2, Hx, K). rewrite (has_no "," t) by (intros K; apply N1, Hx, K). cbn [negb].
  assert (Hv : Forall inr_ (map digit_val t)).
  { apply Forall_map. eapply Forall_impl; [|exact Hd]. unfold digit, digit_val, inr_, INT_MAX. intros x. lia. }
  rewrite (fill_poly_ok _ _ _ _ (map (fun x => whole (digit_val x)) t)).
  - rewrite <- (map_map digit_val whole). destruct (q_recompute (map digit_val t)) as (l & -> & Hl); [destruct t; [congruence|discriminate]|exact Hv|].
    exists l. split; [reflexivity|exact Hl].
  - clear - Hd Hv. induction Hd as [|x t Hx Hd IH]; [constructor|]. cbn [map] in *. inversion Hv; subst. constructor; [|auto].
    unfold rd_digit. apply is_digit_iff in Hx. rewrite Hx, rat_int by assumption. reflexivity.
Qed.
(* without a comma, anything but a digit is an error *)
Theorem q_scan_no t1 x t2 : Forall digit t1 -> ~ digit x -> ~ In ","%char (t1 ++ x :: t2) -> ~ In "000"%char (t1 ++ x :: t2) ->
  exists l, q_scan (t1 ++ x :: t2) = Ok (Rejected l).
Proof.
  intros Hd Hx Hc H0. unfold q_scan. rewrite cstr_id, has_no by assumption. cbn [negb]. rewrite map_app. cbn [map].
  eexists. apply (fill_poly_no _ _ _ _ (map (fun x => whole (digit_val x)) t1)).
  - clear - Hd. induction Hd as [|x t Hx Hd IH]; [constructor|]. cbn [map]. constructor; [|auto].
    unfold rd_digit. assert (inr_ (digit_val x)) by (unfold digit, digit_val, inr_, INT_MAX in *; lia). apply is_digit_iff in Hx.
    rewrite Hx, rat_int by assumption. reflexivity.
  - unfold rd_digit. destruct (is_digit x) eqn:E; [apply is_digit_iff in E; contradiction|reflexivity].
Qed.
Lemma q_scan_commas t : Forall (eq ","%char) t -> t <> [] -> q_scan t = Ok Freed.
Proof.
  intros H Hn. unfold q_scan. assert (K : In ","%char t) by (destruct t; [congruence|inversion H; left; auto]).
  rewrite cstr_id, (proj2 (has_In _ _) K). 2: { intros K2. rewrite Forall_forall in H. apply H in K2. discriminate. }
  cbn [negb]. apply sep_poly_freed; [discriminate|exact H].
Qed.
(* ---- what printing and reading gives ---- *)
Lemma rat_put_text a : inr_ (numer a) -> inr_ (denom a) -> int_text (rat_put a) (numer a) /\ word ","%char (rat_put a) /\ ~ In "000"%char (rat_put a).
Proof.
  intros Hn Hd. assert (Hsn : signed (put_int (numer a)) (numer a)) by (apply put_signed; unfold inr_, INT_MIN, INT_MAX in *; lia).
  assert (Hsd : signed (put_int (denom a)) (denom a)) by (apply put_signed; unfold inr_, INT_MIN, INT_MAX in *; lia).
  assert (C : forall w v x, signed w v -> In x w -> digit x \/ x = "-"%char \/ x = "+"%char).
  { intros w v x (sg & d & -> & _ & Hdd & Hv & _) K. apply in_app_or in K. destruct K as [K|K].
    - destruct Hv as [[-> _]|[[->| ->] _]]; cbn in K; intuition.
    - left. rewrite Forall_forall in Hdd. apply Hdd, K. }
  destruct nodig as (N1 & N2 & N3 & N4 & N5).
  assert (Q : forall x, In x (rat_put a) -> digit x \/ x = "-"%char \/ x = "+"%char \/ x = "/"%char).
  { intros x K. unfold rat_put in K. apply in_app_or in K. destruct K as [K|K]; [destruct (C _ _ _ Hsn K) as [?|[?|?]]; auto|].
    destruct (denom a =? 1)%Z; [contradiction|]. destruct K as [<-|K]; [auto|]. destruct (C _ _ _ Hsd K) as [?|[?|?]]; auto. }
  split; [|split; [split|]].
  - destruct Hsn as (sg & d & E & H1 & H2 & H3 & H4). unfold rat_put. rewrite E.
    exists [], sg, d, (if (denom a =? 1)%Z then [] else "/"%char :: put_int (denom a)).
    split; [cbn [app]; rewrite <- app_assoc; reflexivity|]. repeat split; auto; try lia. destruct (denom a =? 1)%Z; [exact I|exact N4].
  - destruct Hsn as (sg & d & E & H1 & _). unfold rat_put. rewrite E. intros K. apply app_eq_nil in K. destruct K as [K _].
    apply app_eq_nil in K. destruct K; congruence.
  - intros K. apply Q in K. intuition discriminate.
  - intros K. apply Q in K. intuition discriminate.
Qed.
(* a polynomial of degree 1 or more: the denominators are lost *)
Definition q_obj (l : list intrat) : Prop := l <> [] /\ Forall rat_obj l /\ (length l = 1 \/ numer (last l rat_default) <> 0%Z).
Theorem q_round l : q_obj l -> 2 <= length l -> q_scan (q_put l) = Ok (Read (map (fun a => whole (numer a)) l)).
Proof.
  intros (Hn & Ho & Hl) H2. unfold q_put. set (ts := map rat_put (rev l)).
  assert (Hr : Forall rat_obj (rev l)) by (apply Forall_rev, Ho).
  assert (Ht : Forall (fun a => int_text (rat_put a) (numer a) /\ word ","%char (rat_put a) /\ ~ In "000"%char (rat_put a)) (rev l)).
  { eapply Forall_impl; [|exact Hr]. intros a (_ & K1 & K2). apply rat_put_text; assumption. }
  assert (Hw : Forall (word ","%char) ts) by (apply Forall_map; eapply Forall_impl; [|exact Ht]; intros a K; apply K).
  destruct (q_scan_ok (put_sep [","%char] ts) ts (map numer (rev l))) as (l' & E & Htr).
  - apply put_sep_spread, Hw.
  - assert (K : Forall (Forall (fun x => x <> "000"%char)) ts).
    { apply Forall_map. eapply Forall_impl; [|exact Ht]. intros a (_ & _ & K). apply Forall_forall. intros x Hx ->. contradiction. }
    intros Hin. revert Hin. clear - K. induction K as [|w ts Hw K IH]; [auto|]. destruct ts as [|w' ts].
    + cbn. intros H. rewrite Forall_forall in Hw. exact (Hw _ H eq_refl).
    + change (put_sep _ _) with (w ++ [","%char] ++ put_sep [","%char] (w' :: ts)). intros H. apply in_app_or in H. destruct H as [H|H].
      * rewrite Forall_forall in Hw. exact (Hw _ H eq_refl).
      * destruct H as [H|H]; [discriminate|exact (IH H)].
  - intros K. apply map_eq_nil in K. apply (f_equal (@rev _)) in K. rewrite rev_involutive in K. exact (Hn K).
  - unfold ts. clear - Ht. induction Ht as [|a r K _ IH]; constructor; [apply K|exact IH].
  - unfold ts. destruct (rev l) as [|a [|b r]] eqn:Er.
    + apply (f_equal (@length _)) in Er. rewrite rev_length in Er. cbn in Er. lia.
    + apply (f_equal (@length _)) in Er. rewrite rev_length in Er. cbn in Er. lia.
    + cbn [map]. change (put_sep _ _) with (rat_put a ++ [","%char] ++ put_sep [","%char] (rat_put b :: map rat_put r)).
      apply in_or_app. right. left. reflexivity.
  - apply Forall_map. eapply Forall_impl; [|exact Hr]. intros a (_ & K & _). unfold inr_, INT_MIN, INT_MAX in *. lia.
  - rewrite E. f_equal. f_equal. destruct Htr as (k & E2 & Hn2 & Hl2).
    assert (Em : rev (map whole (map numer (rev l))) = map (fun a => whole (numer a)) l).
    { rewrite map_map, map_rev, rev_involutive. reflexivity. }
    rewrite Em in E2. destruct k as [|k]; [rewrite app_nil_r in E2; congruence|]. exfalso.
    destruct Hl as [Hl|Hl]; [lia|]. apply Hl. destruct (exists_last Hn) as (l0 & a & El). subst l.
    rewrite last_last. rewrite map_app in E2. cbn [map repeat] in E2. rewrite repeat_cons, app_assoc in E2. apply app_inj_tail in E2.
    destruct E2 as [_ E2]. unfold whole in E2. congruence.
Qed.
(* ---- constants ---- *)
Lemma dec_zeros d x : Forall (fun y => digit_val y = 0%Z) d -> digit x -> (dec (d ++ [x]) <= 9)%Z.
Proof.
  intros H Hx. rewrite dec_snoc. assert (E : dec d = 0%Z).
  { unfold dec. induction H as [|y d Hy _ IH]; [reflexivity|]. cbn [fold_left]. unfold digit_val in Hy. rewrite Hy. exact IH. }
  rewrite E. unfold digit in Hx. lia.
Qed.
Theorem q_const_misread v : (10 <= v <= INT_MAX)%Z -> exists l, q_scan (q_put [whole v]) = Ok (Read l) /\ 2 <= length l.
Proof.
  intros Hv. unfold q_put, rat_put, whole. cbn [rev app map put_sep numer denom]. rewrite Z.eqb_refl, app_nil_r.
  destruct (digits_ok 40 v []) as (d & E & Hn & Hd & Hdec); [split; [lia|]; apply (Z.le_lt_trans _ INT_MAX); [lia|reflexivity]|lia|].
  rewrite app_nil_r in E. assert (K : put_int v = d) by (unfold put_int; rewrite (proj2 (Z.ltb_ge _ _)) by lia; exact E).
  rewrite K. destruct (q_scan_digits d Hd Hn) as (l & El & (k & E1 & Hl & _)). exists l. split; [exact El|].
  destruct l as [|a [|b l]]; [congruence| |cbn; lia]. exfalso.
  destruct (exists_last Hn) as (d0 & x & ->). rewrite map_app, rev_app_distr in E1. cbn [map rev app] in E1. injection E1 as _ E1.
  assert (H9 : (dec (d0 ++ [x]) <= 9)%Z).
  { apply dec_zeros; [|apply Forall_app in Hd; destruct Hd as [_ Hd]; inversion Hd; assumption].
    apply (f_equal (@rev _)) in E1. rewrite rev_involutive, rev_repeat_ in E1. revert k E1. clear. induction d0 as [|y d IH]; intros k E; [constructor|].
    destruct k as [|k]; [discriminate|]. cbn [map repeat] in E. injection E as E0 E. constructor; [exact E0|exact (IH k E)]. }
  lia.
Qed.
Theorem q_const_rejected a : rat_obj a -> (numer a < 0)%Z \/ denom a <> 1%Z -> exists l, q_scan (q_put [a]) = Ok (Rejected l).
Proof.
  intros (_ & Hn & Hd) H. unfold q_put. cbn [rev app map put_sep].
  destruct (rat_put_text a Hn Hd) as (_ & [_ W] & Z0). revert W Z0. unfold rat_put.
  destruct (Z.ltb_spec (numer a) 0) as [L|L].
  - unfold put_int at 1 3 5. rewrite (proj2 (Z.ltb_lt _ _) L). cbn [app]. intros W Z0.
    apply (q_scan_no [] "-"%char); try assumption; [constructor|apply sign_chars].
  - destruct H as [H|H]; [lia|]. rewrite (proj2 (Z.eqb_neq _ _) H). intros W Z0.
    destruct (digits_ok 40 (numer a) []) as (d' & E' & H1 & H2 & H3); [split; [lia|]; apply (Z.le_lt_trans _ INT_MAX); [unfold inr_ in Hn; lia|reflexivity]|lia|].
    rewrite app_nil_r in E'. assert (E : put_int (numer a) = d') by (unfold put_int; rewrite (proj2 (Z.ltb_ge _ _) L); exact E'). rewrite E in *.
    apply q_scan_no; try assumption. apply nodig.
Qed.
