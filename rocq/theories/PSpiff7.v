(* Commands of spiff on polynomials: what the loops over the arguments print; hexadecimal numbers as text. *)
From Verif Require Import Base MIntMath MFac MIntmod MMat MBits MF2Poly MPoly MMatCli MTextIO MPolyText MSpiff MSpiff2.
From Verif Require Import PF2Poly PF2Poly3 PMatCli5 PPolyText PPolyText6 PPolyText8 PTextIO3 PSpiff PSpiff2 PSpiff3.
From Coq Require Import Ascii String Lia.
Import ListNotations.
Local Open Scope Z_scope.
Local Notation length := List.length.
Local Notation concat := List.concat.
Local Notation stops := PSpiff.stops.

(* ---- hexadecimal ---- *)
Definition hex_char (d : N) : ascii := nth (N.to_nat d) (list_ascii_of_string "0123456789abcdef") "0"%char.
(* no leading zeros; fuel: more than the number of digits *)
Fixpoint hex_fuel (k : nat) (n : N) : text :=
  match k with
  | O => []
  | S k => if (n <? 16)%N then [hex_char n] else (hex_fuel k (n / 16) ++ [hex_char (n mod 16)])%list
  end.
Definition hex (n : N) : text := hex_fuel (S (N.to_nat (N.log2 n))) n.
Lemma hex_fuel_more k j n : (n < 16 ^ N.of_nat k)%N -> (0 < k)%nat -> (k <= j)%nat -> hex_fuel j n = hex_fuel k n.
Proof.
  revert j n. induction k as [|k IH]; intros j n Hn H0 Hj; [lia|]. destruct j as [|j]; [lia|]. cbn [hex_fuel].
  destruct (N.ltb_spec n 16) as [L|L]; [reflexivity|]. f_equal.
  assert (0 < k)%nat. { destruct k; [|lia]. change (16 ^ N.of_nat 1)%N with 16%N in Hn. lia. }
  apply IH; [|lia|lia]. rewrite Nat2N.inj_succ, N.pow_succ_r' in Hn. apply N.div_lt_upper_bound; lia.
Qed.
Lemma log2_16 n : (n < 16 ^ N.of_nat (S (N.to_nat (N.log2 n))))%N.
Proof.
  destruct (N.eq_dec n 0) as [->|Hn]; [reflexivity|]. rewrite Nat2N.inj_succ, N2Nat.id.
  destruct (N.log2_spec n) as [_ H]; [lia|]. apply N.lt_le_trans with (1 := H). apply N.pow_le_mono_l. lia.
Qed.
Lemma hex_unfold n : hex n = if (n <? 16)%N then [hex_char n] else (hex (n / 16) ++ [hex_char (n mod 16)])%list.
Proof.
  unfold hex at 1. cbn [hex_fuel]. destruct (N.ltb_spec n 16) as [L|L]; [reflexivity|]. f_equal. unfold hex.
  assert (K : (N.log2 n = N.succ (N.log2 (n / 16)) + 3)%N).
  { change 16%N with (2 ^ 4)%N. rewrite <- N.shiftr_div_pow2, N.log2_shiftr. pose proof (N.log2_le_mono 16 n L) as J. change (N.log2 16) with 4%N in J. lia. }
  apply hex_fuel_more; [apply log2_16|lia|lia].
Qed.
Lemma hexdig_char d : (d < 16)%N -> ascii_of_nat (Z.to_nat (hexdig d)) = hex_char d.
Proof.
  intros H. assert (K : In d (map N.of_nat (seq 0 16))).
  { apply in_map_iff. exists (N.to_nat d). split; [apply N2Nat.id|apply in_seq; lia]. }
  cbn [map seq N.of_nat] in K. repeat (destruct K as [<-|K]; [reflexivity|]). destruct K.
Qed.
Lemma chars_app s t : chars (s ++ t) = (chars s ++ chars t)%list. Proof. apply map_app. Qed.
Lemma shr4 w : N.shiftr w 4 = (w / 16)%N. Proof. rewrite N.shiftr_div_pow2. reflexivity. Qed.
Lemma land15 w : N.land w 15 = (w mod 16)%N. Proof. exact (N.land_ones w 4). Qed.
Lemma hex_digits_S k w : chars (hex_digits (S k) w) = (chars (hex_digits k (w / 16)) ++ [hex_char (w mod 16)])%list.
Proof.
  cbn [hex_digits]. rewrite chars_app, shr4, land15. f_equal. cbn [chars map]. rewrite hexdig_char; [reflexivity|]. apply N.mod_lt. discriminate.
Qed.
(* the low k digits after the others *)
Lemma hex_app k : forall hi w, (0 < hi)%N -> (w < 16 ^ N.of_nat k)%N -> hex (hi * 16 ^ N.of_nat k + w) = (hex hi ++ chars (hex_digits k w))%list.
Proof.
  induction k as [|k IH]; intros hi w Hh Hw.
  - change (16 ^ N.of_nat 0)%N with 1%N in *. replace w with 0%N by lia. rewrite N.mul_1_r, N.add_0_r. cbn. rewrite app_nil_r. reflexivity.
  - rewrite hex_digits_S, app_assoc. rewrite Nat2N.inj_succ, N.pow_succ_r' in Hw |- *. set (q := (16 ^ N.of_nat k)%N) in *.
    assert (Hq : (0 < q)%N) by (apply N.neq_0_lt_0, N.pow_nonzero; discriminate).
    assert (E : (hi * (16 * q) + w = 16 * (hi * q + w / 16) + w mod 16)%N).
    { pose proof (N.div_mod w 16 ltac:(discriminate)) as D. set (a := (w / 16)%N) in *. set (b := (w mod 16)%N) in *. clearbody a b q. clear - D. lia. }
    assert (B : (w mod 16 < 16)%N) by (apply N.mod_lt; discriminate).
    rewrite E, hex_unfold.
    destruct (N.ltb_spec (16 * (hi * q + w / 16) + w mod 16) 16) as [L|L].
    { exfalso. assert (1 <= hi * q)%N by nia. clear - L H. lia. }
    rewrite <- IH by (try assumption; apply N.div_lt_upper_bound; lia). f_equal.
    + f_equal. symmetry. apply (N.div_unique _ 16 _ (w mod 16)%N); [exact B|reflexivity].
    + f_equal. f_equal. symmetry. apply (N.mod_unique _ 16 (hi * q + w / 16)%N); [exact B|reflexivity].
Qed.
Lemma hex_digits_hex k : forall w, (w < 16 ^ N.of_nat (S k))%N -> (k = 0%nat \/ (16 ^ N.of_nat k <= w)%N) -> chars (hex_digits (S k) w) = hex w.
Proof.
  induction k as [|k IH]; intros w Hw Hk; rewrite hex_digits_S, hex_unfold.
  - change (16 ^ N.of_nat 1)%N with 16%N in Hw. destruct (N.ltb_spec w 16) as [L|L]; [|lia]. rewrite N.mod_small by exact L. reflexivity.
  - destruct Hk as [|Hk]; [discriminate|]. rewrite !Nat2N.inj_succ, !N.pow_succ_r' in *. set (q := (16 ^ N.of_nat k)%N) in *.
    assert (Hq : (0 < q)%N) by (apply N.neq_0_lt_0, N.pow_nonzero; discriminate).
    destruct (N.ltb_spec w 16) as [L|L]; [nia|]. f_equal. apply IH.
    + fold q. apply N.div_lt_upper_bound; lia.
    + right. apply N.div_le_lower_bound; [discriminate|]. fold q. lia.
Qed.
Lemma hex_word_hex w : chars (hex_word w) = hex w.
Proof.
  unfold hex_word. destruct (N.eqb_spec w 0) as [->|Hw]; [reflexivity|]. rewrite Nat.add_1_r. set (k := (N.to_nat (N.log2 w) / 4)%nat).
  destruct (N.log2_spec w) as [L1 L2]; [lia|].
  assert (K1 : (4 * k <= N.to_nat (N.log2 w))%nat) by (apply Nat.mul_div_le; lia).
  assert (K2 : (N.to_nat (N.log2 w) < 4 * S k)%nat) by (apply Nat.mul_succ_div_gt; lia).
  assert (Q : forall j, (16 ^ N.of_nat j = 2 ^ N.of_nat (4 * j))%N).
  { intros j. change 16%N with (2 ^ 4)%N. rewrite <- N.pow_mul_r. f_equal. lia. }
  apply hex_digits_hex; [|right]; rewrite Q.
  - apply N.lt_le_trans with (1 := L2). apply N.pow_le_mono_r; lia.
  - apply N.le_trans with (2 := L1). apply N.pow_le_mono_r; lia.
Qed.
Lemma valN_snoc m x : valN (m ++ [x])%list = (valN m + x * 2 ^ (64 * N.of_nat (length m)))%N.
Proof.
  revert x. induction m as [|y m IH]; intros x; cbn [app valN length].
  - change (64 * N.of_nat 0)%N with 0%N. rewrite N.pow_0_r. lia.
  - rewrite IH. replace (64 * N.of_nat (S (length m)))%N with (64 + 64 * N.of_nat (length m))%N by lia. rewrite N.pow_add_r. lia.
Qed.
Lemma tail_hex l i : (forall k, w64 (nth k l 0%N)) -> (i <= length l)%nat -> forall hi, (0 < hi)%N ->
  (hex hi ++ chars (f2_print_tail i l))%list = hex (hi * 2 ^ (64 * N.of_nat i) + valN (firstn i l)).
Proof.
  intros W. induction i as [|i IH]; intros Hi hi Hh.
  - cbn. rewrite app_nil_r, N.mul_1_r, N.add_0_r. reflexivity.
  - cbn [f2_print_tail]. unfold hex_padded. rewrite chars_app, app_assoc.
    assert (Q : (16 ^ N.of_nat 16 = 2 ^ 64)%N) by reflexivity.
    rewrite <- (hex_app 16 hi (nth i l 0%N)) by (try exact Hh; rewrite Q; apply w64_lt, W). rewrite Q, IH; [|lia|].
    2:{ assert (0 < 2 ^ 64)%N by reflexivity. nia. }
    f_equal. assert (F : firstn (S i) l = (firstn i l ++ [nth i l 0%N])%list).
    { clear - Hi. revert l Hi. induction i as [|i IH]; intros [|x l] Hi; cbn [length] in Hi; try lia; [reflexivity|].
      cbn [firstn app nth]. f_equal. apply IH. lia. }
    rewrite F, valN_snoc, firstn_length_le by lia. replace (64 * N.of_nat (S i))%N with (64 + 64 * N.of_nat i)%N by lia. rewrite N.pow_add_r. lia.
Qed.
Lemma f2_put_hex l : canon l -> f2_put l = Ok (hex (valN l)).
Proof.
  intros [[H0 W] Hc]. unfold f2_put, f2_print. destruct (Nat.eqb_spec (length l) 0) as [|_]; [lia|]. cbn [bind]. f_equal.
  assert (F : valN l = (nth (length l - 1) l 0 * 2 ^ (64 * N.of_nat (length l - 1)) + valN (firstn (length l - 1) l))%N).
  { rewrite <- (firstn_all l) at 1. replace (length l) with (S (length l - 1)) at 1 by lia. clear W Hc.
    assert (G : forall i, (i < length l)%nat -> firstn (S i) l = (firstn i l ++ [nth i l 0%N])%list).
    { clear. intros i. revert l. induction i as [|i IH]; intros [|x l] Hi; cbn [length] in Hi; try lia; [reflexivity|].
      cbn [firstn app nth]. f_equal. apply IH. lia. }
    rewrite G, valN_snoc, firstn_length_le by lia. lia. }
  assert (Lp : leader_pos l = (length l - 1)%nat \/ length l = 1%nat /\ leader_pos l = 0%nat).
  { unfold leader_pos. destruct Hc as [Hc|Hc].
    - right. split; [exact Hc|]. rewrite Hc. cbn [top_word]. destruct (nth 0 l 0%N =? 0)%N; reflexivity.
    - left. replace (length l) with (S (length l - 1)) at 1 by lia. cbn [top_word]. destruct (N.eqb_spec (nth (length l - 1) l 0%N) 0); [congruence|reflexivity]. }
  destruct (Nat.eq_dec (length l) 1) as [E1|E1].
  - assert (leader_pos l = 0%nat) as -> by (destruct Lp as [->|[_ ->]]; lia). cbn [f2_print_tail]. rewrite app_nil_r, hex_word_hex.
    destruct l as [|x [|y l]]; cbn [length] in E1; try lia. cbn [nth valN]. f_equal. lia.
  - assert (leader_pos l = (length l - 1)%nat) as -> by (destruct Lp as [->|[? _]]; lia). rewrite chars_app, hex_word_hex.
    destruct Hc as [|Hc]; [congruence|]. rewrite tail_hex by (try exact W; lia). rewrite <- F. reflexivity.
Qed.

(* ---- reading ---- *)
(* a hexadecimal number, after blanks and before anything that is no such digit *)
Definition hex_text (s : text) (n : N) : Prop :=
  exists b h rest, s = (b ++ h ++ rest)%list /\ Forall (fun x => In x [" "; "009"; "010"]%char) b /\ Forall xd h /\ h <> [] /\ xstop rest /\ hexs h = n.
Lemma arg_f2_ok s n : hex_text s n -> exists l, arg_f2 s = ret l /\ canon l /\ valN l = n.
Proof.
  intros (b & h & rest & -> & Hb & Hh & Hn & Hr & <-). destruct (@read_ok (codes b) (codes h) (codes rest)) as (l & E & Hc & Hv).
  - apply Forall_map. eapply Forall_impl; [|exact Hb]. intros x; apply blank_code.
  - apply Forall_map. exact Hh.
  - destruct h; [congruence|discriminate].
  - apply xstop_codes, Hr.
  - exists l. split; [|split; assumption]. unfold arg_f2, f2_from_string. rewrite !codes_app, E. reflexivity.
Qed.
(* no such number *)
Definition no_hex (s : text) : Prop :=
  exists b rest, s = (b ++ rest)%list /\ Forall (fun x => In x [" "; "009"; "010"]%char) b /\
    match rest with [] => True | x :: _ => is_xdigit (code x) = false /\ is_blank (code x) = false end.
Lemma arg_f2_no s : no_hex s -> arg_f2 s = usage.
Proof.
  intros (b & rest & -> & Hb & Hr). unfold arg_f2, f2_from_string. rewrite codes_app, (@read_fail (codes b) (codes rest)).
  - reflexivity.
  - apply Forall_map. eapply Forall_impl; [|exact Hb]. intros x; apply blank_code.
  - apply xstop_codes. destruct rest; [exact I|apply Hr].
  - destruct rest; [exact I|apply Hr].
Qed.
Lemma hex_text_not s n o c : hex_text s n -> head (list_ascii_of_string o) = Some c -> is_xdigit (code c) = false -> is_blank (code c) = false -> teq s o = false.
Proof.
  intros (b & h & rest & -> & Hb & Hh & Hn & _) Ho X B. unfold teq. destruct (String.eqb_spec (string_of_list_ascii (b ++ h ++ rest)) o) as [K|]; [|reflexivity].
  exfalso. rewrite <- K, list_ascii_of_string_of_list_ascii in Ho. destruct b as [|x b].
  - destruct h as [|x h]; [congruence|]. injection Ho as ->. inversion Hh; subst. unfold xd in *. congruence.
  - injection Ho as ->. inversion Hb; subst. pose proof (blank_code c ltac:(assumption)). congruence.
Qed.

(* ---- the loops ---- *)
(* a line for each argument; with its text in front if there are several *)
Definition listing {X} (tx : X -> text) (sev : bool) (sep : string) (xs : list X) (ts : list text) : text :=
  concat (map (fun p => line ((if sev then tx (fst p) ++ txt sep else []) ++ snd p)%list) (combine xs ts)).
Definition many {X} (xs : list X) : bool := (1 <? length xs)%nat.
Lemma F2_len {X Y} (R : X -> Y -> Prop) l m : Forall2 R l m -> length l = length m.
Proof. induction 1; cbn [length]; congruence. Qed.
Lemma several_many {X} (args : list text) (xs : list X) (R : text -> X -> Prop) : Forall2 R args xs -> several args = many xs.
Proof. intros H. unfold several, many. rewrite (F2_len _ _ _ H). reflexivity. Qed.
Definition lines_of {X} (tx : X -> text) (xs : list X) : text := concat (map (fun x => line (tx x)) xs).
Section G.
Context {A X : Type} (arg : text -> prog A) (shw : A -> prog unit) (enc : X -> A) (rd : text -> X -> Prop) (tx : X -> text).
Hypothesis Harg : forall s x, rd s x -> arg s = ret (enc x).
Hypothesis Hshw : forall x, shw (enc x) = print (tx x).

Lemma per_ok sev sep body args xs ts : Forall2 rd args xs -> Forall2 (fun x t => body (enc x) = (line t, Val tt)) xs ts ->
  per arg shw sev sep body args = (listing tx sev sep xs ts, Val tt).
Proof.
  intros H. revert ts. unfold per, listing. induction H as [|s x args xs Hs H IH]; intros ts HT; inversion HT as [|? t ? ts' K1 K2]; subst; [reflexivity|].
  cbn [each combine map concat fst snd]. rewrite (Harg _ _ Hs), pb_ret, (IH _ K2).
  replace (label sev (shw (enc x)) sep) with ((if sev then tx x ++ txt sep else [])%list, Val tt).
  2:{ unfold label. destruct sev; [|reflexivity]. rewrite Hshw. reflexivity. }
  rewrite pb_val, K1. unfold emit. cbn [fst snd]. rewrite pb_val. unfold emit, line. cbn [fst snd]. rewrite <- !app_assoc. reflexivity.
Qed.
Lemma per_stop sev sep body pre xs ts s x post u f : Forall2 rd pre xs -> Forall2 (fun x t => body (enc x) = (line t, Val tt)) xs ts ->
  rd s x -> body (enc x) = (u, f) -> stops f ->
  per arg shw sev sep body (pre ++ s :: post) = ((listing tx sev sep xs ts ++ (if sev then tx x ++ txt sep else []) ++ u)%list, f).
Proof.
  intros H HT Hs E S. revert ts HT. unfold per, listing. induction H as [|s' x' pre xs Hs' H IH]; intros ts HT; inversion HT as [|? t ? ts' K1 K2]; subst.
  - cbn [each combine map concat app]. rewrite (Harg _ _ Hs), pb_ret.
    replace (label sev (shw (enc x)) sep) with ((if sev then tx x ++ txt sep else [])%list, Val tt).
    2:{ unfold label. destruct sev; [|reflexivity]. rewrite Hshw. reflexivity. }
    rewrite pb_val, E. unfold emit. cbn [fst snd]. rewrite pb_stop by exact S. destruct f; [contradiction|reflexivity..].
  - cbn [each combine map concat fst snd app]. rewrite (Harg _ _ Hs'), pb_ret, (IH _ K2).
    replace (label sev (shw (enc x')) sep) with ((if sev then tx x' ++ txt sep else [])%list, Val tt).
    2:{ unfold label. destruct sev; [|reflexivity]. rewrite Hshw. reflexivity. }
    rewrite pb_val, K1. unfold emit at 1. cbn [fst snd]. rewrite pb_val. unfold emit, line. cbn [fst snd]. rewrite <- !app_assoc. reflexivity.
Qed.
(* a text that is no element *)
Lemma per_bad sev sep body pre xs ts s post : Forall2 rd pre xs -> Forall2 (fun x t => body (enc x) = (line t, Val tt)) xs ts ->
  arg s = usage -> per arg shw sev sep body (pre ++ s :: post) = (listing tx sev sep xs ts, Exit 1).
Proof.
  intros H HT Hs. revert ts HT. unfold per, listing. induction H as [|s' x' pre xs Hs' H IH]; intros ts HT; inversion HT as [|? t ? ts' K1 K2]; subst.
  - cbn [each combine map concat app]. rewrite Hs. reflexivity.
  - cbn [each combine map concat fst snd app]. rewrite (Harg _ _ Hs'), pb_ret, (IH _ K2).
    replace (label sev (shw (enc x')) sep) with ((if sev then tx x' ++ txt sep else [])%list, Val tt).
    2:{ unfold label. destruct sev; [|reflexivity]. rewrite Hshw. reflexivity. }
    rewrite pb_val, K1. unfold emit at 1. cbn [fst snd]. rewrite pb_val. unfold emit, line. cbn [fst snd]. rewrite <- !app_assoc. reflexivity.
Qed.
Lemma per_first_ok sev sep f args xs vs : Forall2 rd args xs -> Forall2 (fun x v => f (enc x) = Ok v) xs vs ->
  per_first arg shw sev sep f args = (listing tx sev sep xs (map put_int vs), Val tt).
Proof.
  intros H. revert vs. unfold per_first, listing. induction H as [|s x args xs Hs H IH]; intros vs HT; inversion HT as [|? t ? ts' K1 K2]; subst; [reflexivity|].
  cbn [each combine map concat fst snd]. rewrite (Harg _ _ Hs), pb_ret, K1, pb_ok, (IH _ K2).
  replace (label sev (shw (enc x)) sep) with ((if sev then tx x ++ txt sep else [])%list, Val tt).
  2:{ unfold label. destruct sev; [|reflexivity]. rewrite Hshw. reflexivity. }
  rewrite pb_val. unfold show, nl, line. rewrite pb_print, !pb_emit. unfold print. rewrite !pb_val, !emit_emit, emit_pair, <- !app_assoc. reflexivity.
Qed.
Lemma fold_args_ok (f : A -> A -> res A) (F : X -> X -> X) (Pre : X -> X -> Prop) :
  (forall a b, Pre a b -> f (enc a) (enc b) = Ok (enc (F a b))) ->
  forall args xs, Forall2 rd args xs -> forall l, (forall i x, nth_error xs i = Some x -> Pre (fold_left F (firstn i xs) l) x) ->
  fold_args arg f (enc l) args = ret (enc (fold_left F xs l)).
Proof.
  intros HF args xs H. induction H as [|s x args xs Hs H IH]; intros l HP; [reflexivity|]. cbn [fold_args fold_left].
  rewrite (Harg _ _ Hs), pb_ret, HF, pb_ok; [|exact (HP 0%nat x eq_refl)]. apply IH. intros i y Hy. exact (HP (S i) y Hy).
Qed.
Lemma fold_main_ok (f : A -> A -> res A) (F : X -> X -> X) (Pre : X -> X -> Prop) :
  (forall a b, Pre a b -> f (enc a) (enc b) = Ok (enc (F a b))) ->
  forall s x args xs, rd s x -> Forall2 rd args xs -> (forall i y, nth_error xs i = Some y -> Pre (fold_left F (firstn i xs) x) y) ->
  fold_main arg shw f (s :: args) = (line (tx (fold_left F xs x)), Val 0).
Proof.
  intros HF s x args xs Hs H HP. unfold fold_main. rewrite (Harg _ _ Hs), pb_ret, (fold_args_ok f F Pre HF args xs H x HP), pb_ret, Hshw.
  reflexivity.
Qed.
Lemma bezout_ok g r a s b : show_bezout shw (enc g) (enc r) (enc a) (enc s) (enc b) =
  (line (tx g ++ txt " = " ++ tx r ++ txt " * " ++ tx a ++ txt " + " ++ tx s ++ txt " * " ++ tx b)%list, Val tt).
Proof. unfold show_bezout. rewrite !Hshw. unfold say, nl, print, line. rewrite !pb_val, !emit_pair, <- !app_assoc. reflexivity. Qed.
Lemma lines_ok xs : show_lines shw (map enc xs) = (lines_of tx xs, Val tt).
Proof.
  induction xs as [|x xs IH]; [reflexivity|]. cbn [map show_lines]. rewrite Hshw, IH. unfold nl, print, lines_of, line. cbn [map concat].
  rewrite !pb_val, !emit_pair, <- !app_assoc. reflexivity.
Qed.
Lemma words_tail xs : show_words shw false (map enc xs) = (concat (map (fun x => " "%char :: tx x) xs), Val tt).
Proof.
  induction xs as [|x xs IH]; [reflexivity|]. cbn [map show_words]. rewrite Hshw, IH. unfold say, print. rewrite !pb_val, !emit_pair. reflexivity.
Qed.
Lemma words_ok xs : show_words shw true (map enc xs) = (unwords (map tx xs), Val tt).
Proof.
  destruct xs as [|x xs]; [reflexivity|]. cbn [map show_words]. rewrite Hshw, words_tail. unfold print. rewrite pb_ret, pb_val, emit_pair.
  rewrite <- (unwords_tail (tx x) (map tx xs)), map_map. reflexivity.
Qed.
(* a factor with its exponent *)
Definition pword (p : X * Z) : text := (tx (fst p) ++ (if snd p =? 1 then [] else "^"%char :: put_int (snd p)))%list.
Lemma facs_tail fs : show_facs shw false (map (fun p => (enc (fst p), snd p)) fs) = (concat (map (fun p => " "%char :: pword p) fs), Val tt).
Proof.
  induction fs as [|[x n] fs IH]; [reflexivity|]. cbn [map show_facs fst snd concat]. rewrite Hshw, IH. unfold pword. cbn [fst snd].
  replace (if n =? 1 then ret tt else say "^" ;~~ show n) with ((if n =? 1 then [] else "^"%char :: put_int n), Val tt : fin unit).
  2:{ destruct (n =? 1); reflexivity. }
  unfold say, print. rewrite !pb_val, !emit_pair. cbn [list_ascii_of_string app]. rewrite <- app_assoc. reflexivity.
Qed.
Lemma facinfo_ok u fs :
  show_facinfo shw (mkfac (map (fun p => (enc (fst p), snd p)) fs) (option_map enc u)) =
  (unwords ((match u with Some u => [tx u] | None => [] end) ++ map pword fs)%list, Val tt).
Proof.
  unfold show_facinfo. cbn [funit facs]. destruct u as [u|]; cbn [option_map app].
  - rewrite Hshw, facs_tail. unfold print. rewrite pb_val, emit_pair, <- (unwords_tail (tx u) (map pword fs)), map_map. reflexivity.
  - destruct fs as [|[x n] fs]; [reflexivity|]. cbn [map show_facs fst snd]. rewrite Hshw, facs_tail.
    replace (if n =? 1 then ret tt else say "^" ;~~ show n) with ((if n =? 1 then [] else "^"%char :: put_int n), Val tt : fin unit).
    2:{ destruct (n =? 1); reflexivity. }
    unfold print. rewrite pb_ret, !pb_val, !emit_pair. rewrite <- (unwords_tail (pword (x, n)) (map pword fs)), map_map. unfold pword at 2. cbn [fst snd].
    rewrite <- app_assoc. reflexivity.
Qed.
End G.
(* ---- degrees and repetitions ---- *)
Lemma over_ok {S : Type} (body : Z -> S -> prog S) cnt : forall lo s (st : nat -> S) (ts : nat -> text), st 0%nat = s -> lo + Z.of_nat cnt <= INT_MAX -> INT_MIN <= lo ->
  (forall i, (i < cnt)%nat -> body (lo + Z.of_nat i) (st i) = (ts i, Val (st (i + 1)%nat))) ->
  over cnt lo body s = (concat (map ts (seq 0 cnt)), Val (st cnt)).
Proof.
  induction cnt as [|cnt IH]; intros lo s st ts H0 Hi Hl HB; [subst; reflexivity|]. cbn [over]. pose proof (HB 0%nat ltac:(lia)) as B0.
  change (0 + 1)%nat with 1%nat in B0. rewrite Z.add_0_r, H0 in B0. rewrite B0, pb_val. unfold iadd. rewrite (chk_ok (lo + 1)) by lia. rewrite pb_ok.
  rewrite (IH (lo + 1) (st 1%nat) (fun i => st (i + 1)%nat) (fun i => ts (i + 1)%nat)); [|reflexivity|lia|lia|].
  - unfold emit. cbn [fst snd seq map concat]. rewrite <- seq_shift, map_map. replace (cnt + 1)%nat with (Datatypes.S cnt) by lia. do 3 f_equal. apply map_ext. intros i. f_equal. lia.
  - intros i Hx. replace (lo + 1 + Z.of_nat i) with (lo + Z.of_nat (i + 1)) by lia. apply (HB (i + 1)%nat). lia.
Qed.
Lemma times_ok {S : Type} (body : S -> prog S) cnt : forall s (st : nat -> S) (ts : nat -> text), st 0%nat = s ->
  (forall i, (i < cnt)%nat -> body (st i) = (ts i, Val (st (i + 1)%nat))) -> times cnt body s = (concat (map ts (seq 0 cnt)), Val (st cnt)).
Proof.
  induction cnt as [|cnt IH]; intros s st ts H0 HB; [subst; reflexivity|]. cbn [times]. pose proof (HB 0%nat ltac:(lia)) as B0.
  change (0 + 1)%nat with 1%nat in B0. rewrite H0 in B0. rewrite B0, pb_val. rewrite (IH (st 1%nat) (fun i => st (i + 1)%nat) (fun i => ts (i + 1)%nat)); [|reflexivity|].
  - unfold emit. cbn [fst snd seq map concat]. rewrite <- seq_shift, map_map. replace (cnt + 1)%nat with (Datatypes.S cnt) by lia. do 3 f_equal. apply map_ext. intros i. f_equal. lia.
  - intros i Hx. apply (HB (i + 1)%nat). lia.
Qed.
(* the lists printed for each degree *)
Lemma lines_of_app {X} (tx : X -> text) l m : lines_of tx (l ++ m)%list = (lines_of tx l ++ lines_of tx m)%list.
Proof. unfold lines_of. rewrite map_app, concat_app. reflexivity. Qed.
Lemma over_lists {S X : Type} (tx : X -> text) (R : Z -> list X -> Prop) (body : Z -> S -> prog S) s cnt : forall lo, INT_MIN <= lo -> lo + Z.of_nat cnt <= INT_MAX ->
  (forall d, lo <= d < lo + Z.of_nat cnt -> exists xs, body d s = (lines_of tx xs, Val s) /\ R d xs) ->
  exists xss, length xss = cnt /\ (forall i xs, nth_error xss i = Some xs -> R (lo + Z.of_nat i) xs) /\
    over cnt lo body s = (lines_of tx (concat xss), Val s).
Proof.
  induction cnt as [|cnt IH]; intros lo H0 H1 HB.
  - exists []. split; [reflexivity|]. split; [intros [|i] xs H; discriminate H|reflexivity].
  - destruct (HB lo ltac:(lia)) as (xs & E & Hx). destruct (IH (lo + 1)) as (xss & L & HR & E2); [lia|lia|intros d Hd; apply HB; lia|].
    exists (xs :: xss). split; [cbn [length]; lia|]. split.
    + intros [|i] ys H; cbn [nth_error] in H. { injection H as <-. rewrite Z.add_0_r. exact Hx. }
      replace (lo + Z.of_nat (Datatypes.S i)) with (lo + 1 + Z.of_nat i) by lia. apply HR, H.
    + cbn [over concat]. rewrite E, pb_val. unfold iadd. rewrite (chk_ok (lo + 1)) by lia. rewrite pb_ok, E2, emit_pair, lines_of_app. reflexivity.
Qed.
(* one element for each degree, from a search that may not end *)
Lemma over_search {S X : Type} (tx : X -> text) (R : Z -> X -> Prop) (body : Z -> S -> prog S) cnt : forall lo s, INT_MIN <= lo -> lo + Z.of_nat cnt <= INT_MAX ->
  (forall d s, lo <= d < lo + Z.of_nat cnt -> body d s = ([], Forever) \/ exists x s', body d s = (line (tx x), Val s') /\ R d x) ->
  exists xs f, over cnt lo body s = (lines_of tx xs, f) /\ (forall i x, nth_error xs i = Some x -> R (lo + Z.of_nat i) x) /\
    (f = Forever \/ exists s', f = Val s' /\ length xs = cnt).
Proof.
  induction cnt as [|cnt IH]; intros lo s H0 H1 HB.
  - exists [], (Val s). split; [reflexivity|]. split; [intros [|i] xs H; discriminate H|]. right. exists s. split; reflexivity.
  - cbn [over]. destruct (HB lo s ltac:(lia)) as [E|(x & s' & E & Hx)].
    { exists [], Forever. rewrite E. split; [reflexivity|]. split; [intros [|i] xs H; discriminate H|]. left. reflexivity. }
    destruct (IH (lo + 1) s') as (xs & f & E2 & HR & Hf); [lia|lia|intros d u Hd; apply HB; lia|].
    exists (x :: xs), f. split; [|split].
    + rewrite E, pb_val. unfold iadd. rewrite (chk_ok (lo + 1)) by lia. rewrite pb_ok, E2, emit_pair. reflexivity.
    + intros [|i] ys H; cbn [nth_error] in H. { injection H as <-. rewrite Z.add_0_r. exact Hx. }
      replace (lo + Z.of_nat (Datatypes.S i)) with (lo + 1 + Z.of_nat i) by lia. apply HR, H.
    + destruct Hf as [->|(u & -> & L)]; [left; reflexivity|right; exists u; split; [reflexivity|cbn [length]; lia]].
Qed.
