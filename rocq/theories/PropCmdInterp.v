(* Final theorems for spffl/cli_parser/cmd_interp.cpp: { command } on the command line.

   A word is a bracket if it is exactly "{" or "}".  [depth l] counts opening minus closing
   brackets, [balanced l]: no prefix has negative depth and the whole has depth 0
   (PCmdInterp.v).  [run s cmd] stands for what the shell does with the string cmd in the
   state s of the outside world: the bytes written and the new state.  [tokens sep l] are the
   maximal separator-free pieces of l (the C45_spec theorems). *)
From Verif Require Import Base MMisc PMisc MCmdInterp PCmdInterp.
From Coq Require Import Lia.
Open Scope Z_scope.

(* ---- a parsed command line: words that are not brackets, and bracketed groups *)
Inductive item := Word (w : list Z) | Group (g : list (list Z)).
Definition wf (i : item) : Prop := match i with Word w => w <> LBRK /\ w <> RBRK | Group g => balanced g end.
Definition text (i : item) : list (list Z) := match i with Word w => [w] | Group g => LBRK :: g ++ [RBRK] end.
Definition args (l : list item) : list (list Z) := concat (map text l).
Definition groups (l : list item) : nat := length (filter (fun i => match i with Group _ => true | _ => false end) l).

Lemma text_balanced i : wf i -> balanced (text i).
Proof.
  destruct i as [w|g]; cbn [wf text]; intros H; [|apply group_balanced, H].
  apply nobr_balanced. intros x [<-|[]]. exact H.
Qed.
Lemma args_balanced l : Forall wf l -> balanced (args l).
Proof.
  induction 1 as [|i l Hi _ IH]; [split; [intros k; unfold args; cbn; rewrite firstn_nil; cbn; lia|reflexivity]|].
  unfold args. cbn [map concat]. apply balanced_app_r; [apply text_balanced, Hi|exact IH].
Qed.
Lemma parse_len n : forall l, (length l <= n)%nat -> balanced l -> exists its, Forall wf its /\ args its = l.
Proof.
  induction n as [|n IH]; intros l Hn Hl.
  { destruct l; [exists []; split; [constructor|reflexivity]|cbn in Hn; lia]. }
  destruct l as [|w l]; [exists []; split; [constructor|reflexivity]|]. cbn [length] in Hn.
  destruct (list_eq_dec Z.eq_dec w LBRK) as [->|NL].
  - destruct (split_group l Hl) as (g & r & -> & Bg & Br). rewrite app_length in Hn. cbn [length] in Hn.
    destruct (IH r) as (its & W & E); [lia|exact Br|]. exists (Group g :: its). split; [constructor; assumption|].
    unfold args in *. cbn [map concat text]. rewrite E. cbn [app]. rewrite <- app_assoc. reflexivity.
  - destruct (list_eq_dec Z.eq_dec w RBRK) as [->|NR].
    { destruct Hl as [H _]. specialize (H 1%nat). cbn [firstn depth] in H. change (weight1 RBRK) with (-1) in H. lia. }
    assert (B : balanced [w]) by (apply nobr_balanced; intros x [<-|[]]; split; assumption).
    destruct (IH l) as (its & W & E); [lia|apply (balanced_app_r [w] l B), Hl|].
    exists (Word w :: its). split; [constructor; [split; assumption|exact W]|]. unfold args in *. cbn [map concat text]. rewrite E. reflexivity.
Qed.
(* exactly the balanced command lines can be parsed *)
Theorem C89_parse : forall l, balanced l <-> exists its, Forall wf its /\ args its = l.
Proof.
  intros l. split; [apply (parse_len (length l)); lia|]. intros (its & W & <-). apply args_balanced, W.
Qed.

(* ---- the string given to the shell: the program and the words, one blank before each; the
   allocated space suffices *)
Theorem C89_command : forall exe g, Z.of_nat (length (joined exe g)) < INT_MAX -> flatten exe g = Ok (joined exe g).
Proof. exact flatten_ok. Qed.

(* ---- the words of the output are its pieces between blanks, tabs and newlines, if no line
   is longer than 4095 bytes and there are no NUL bytes *)
Theorem C89_output_partial : forall out, no0 out -> short_lines out -> 3 * Z.of_nat (length out) + 1 <= INT_MAX ->
  output_words out = Ok (tokens (is_sep [32; 9; 10]) out).
Proof. exact output_ok. Qed.
(* a longer word is cut *)
Theorem C89_long_word_refuted : exists out, no0 out /\ tokens (is_sep [32; 9; 10]) out = [out] /\
  exists a b, output_words out = Ok [a; b].
Proof.
  exists (repeat 97 (Z.to_nat 4096)). split; [|split].
  - intros c Hc. apply repeat_spec in Hc. subst. discriminate.
  - vm_compute. reflexivity.
  - exists (repeat 97 (Z.to_nat 4095)), [97]. vm_compute. reflexivity.
Qed.
(* a line that starts with a NUL byte is read outside its array *)
Theorem C89_nul_refuted : forall rest, output_words (0 :: rest) = UB.
Proof.
  intros rest. unfold output_words. cbn [read_loop length].
  destruct (fgets_take (Z.to_nat 4095) (0 :: rest)) as [chunk r] eqn:E.
  assert (F : c_string chunk = []).
  { destruct (Z.to_nat 4095) eqn:N; [lia|]. cbn [fgets_take] in E. change (0 =? 10) with false in E.
    destruct (fgets_take n rest). injection E as <- _. reflexivity. }
  rewrite F. reflexivity.
Qed.

Section Run.
Variables (St : Type) (run : St -> list Z -> option (list Z) * St) (exe : list Z).
Notation interp := (cmd_interpolate St run exe).

Lemma nobr_no l : nobr l -> find_first_bracket l LBRK = None /\ find_first_bracket l RBRK = None.
Proof. intros H. split; apply find_none; intros w Hw; apply H, Hw. Qed.

(* ---- no brackets: nothing happens *)
Theorem C89_plain : forall fuel l s, nobr l -> interp (S fuel) l s = Ok (l, s).
Proof.
  intros fuel l s H. destruct (nobr_no l H) as [H1 H2]. cbn [cmd_interpolate]. unfold cmd_interpolate_once.
  rewrite H1, H2. reflexivity.
Qed.
(* ---- unbalanced brackets are rejected before anything is run *)
Theorem C89_reject : forall fuel l s, ~ balanced l -> interp (S fuel) l s = Exn.
Proof.
  intros fuel l s H. cbn [cmd_interpolate]. unfold cmd_interpolate_once.
  destruct (find_first_bracket l LBRK) eqn:E.
  - destruct (check_balance l) eqn:B; [|reflexivity]. apply check_balance_ok in B. contradiction.
  - destruct (find_first_bracket l RBRK) eqn:E'; [reflexivity|]. exfalso. apply H, nobr_balanced.
    intros w Hw. split; [apply (proj1 (find_none l LBRK) E w Hw)|apply (proj1 (find_none l RBRK) E' w Hw)].
Qed.

(* what the command for a group gives *)
Definition gives (g : list (list Z)) (s : St) (ws : list (list Z)) (s' : St) : Prop :=
  Z.of_nat (length (joined exe g)) < INT_MAX /\
  exists out, run s (joined exe g) = (Some out, s') /\ output_words out = Ok ws.

(* ---- one round replaces the first group, whatever comes out of it *)
Theorem C89_round : forall fuel pre g post s ws s', nobr pre -> balanced g -> balanced post -> gives g s ws s' ->
  interp (S fuel) (pre ++ LBRK :: g ++ RBRK :: post) s = interp fuel (pre ++ ws ++ post) s'.
Proof.
  intros fuel pre g post s ws s' Hpre Hg Hpost (HL & out & HR & HO).
  cbn [cmd_interpolate]. unfold cmd_interpolate_once.
  rewrite find_some by (intros w Hw; apply Hpre, Hw).
  assert (B : balanced (pre ++ LBRK :: g ++ RBRK :: post)).
  { apply balanced_app_r; [apply nobr_balanced, Hpre|].
    replace (LBRK :: g ++ RBRK :: post) with ((LBRK :: g ++ [RBRK]) ++ post) by (cbn [app]; rewrite <- app_assoc; reflexivity).
    apply balanced_app_r; [apply group_balanced, Hg|exact Hpost]. }
  apply check_balance_ok in B. rewrite B, matching_ok by exact Hg.
  replace (length pre + 1 + length g - length pre - 1)%nat with (length g) by lia.
  replace (skipn (S (length pre)) (pre ++ LBRK :: g ++ RBRK :: post)) with (g ++ RBRK :: post).
  2: { replace (pre ++ LBRK :: g ++ RBRK :: post) with ((pre ++ [LBRK]) ++ g ++ RBRK :: post) by (rewrite <- app_assoc; reflexivity).
       rewrite skipn_app. replace (S (length pre)) with (length (pre ++ [LBRK])) by (rewrite app_length; cbn; lia).
       rewrite skipn_all, Nat.sub_diag. reflexivity. }
  rewrite firstn_app, firstn_all, Nat.sub_diag. cbn [firstn]. rewrite app_nil_r.
  unfold replace. rewrite flatten_ok by exact HL. cbn [bind]. rewrite HR, HO. cbn [bind].
  rewrite firstn_app, firstn_all, Nat.sub_diag. cbn [firstn]. rewrite app_nil_r.
  replace (skipn (S (length pre + 1 + length g)) (pre ++ LBRK :: g ++ RBRK :: post)) with post; [reflexivity|].
  replace (pre ++ LBRK :: g ++ RBRK :: post) with ((pre ++ LBRK :: g ++ [RBRK]) ++ post) by (rewrite <- app_assoc; cbn [app]; rewrite <- app_assoc; reflexivity).
  replace (S (length pre + 1 + length g)) with (length (pre ++ LBRK :: g ++ [RBRK])) by (rewrite app_length; cbn [length]; rewrite app_length; cbn [length]; lia).
  rewrite skipn_app, skipn_all, Nat.sub_diag. reflexivity.
Qed.
(* a command that cannot be started *)
Theorem C89_popen : forall fuel pre g post s s', nobr pre -> balanced g -> balanced post ->
  Z.of_nat (length (joined exe g)) < INT_MAX -> run s (joined exe g) = (None, s') ->
  interp (S fuel) (pre ++ LBRK :: g ++ RBRK :: post) s = Exn.
Proof.
  intros fuel pre g post s s' Hpre Hg Hpost HL HR.
  cbn [cmd_interpolate]. unfold cmd_interpolate_once.
  rewrite find_some by (intros w Hw; apply Hpre, Hw).
  destruct (check_balance _); [|reflexivity]. rewrite matching_ok by exact Hg.
  replace (length pre + 1 + length g - length pre - 1)%nat with (length g) by lia.
  replace (skipn (S (length pre)) (pre ++ LBRK :: g ++ RBRK :: post)) with (g ++ RBRK :: post).
  2: { replace (pre ++ LBRK :: g ++ RBRK :: post) with ((pre ++ [LBRK]) ++ g ++ RBRK :: post) by (rewrite <- app_assoc; reflexivity).
       rewrite skipn_app. replace (S (length pre)) with (length (pre ++ [LBRK])) by (rewrite app_length; cbn; lia).
       rewrite skipn_all, Nat.sub_diag. reflexivity. }
  rewrite firstn_app, firstn_all, Nat.sub_diag. cbn [firstn]. rewrite app_nil_r.
  unfold replace. rewrite flatten_ok by exact HL. cbn [bind]. rewrite HR. reflexivity.
Qed.

(* ---- commands whose output contains no brackets: every group is replaced by the words its
   command gives, in order, and the commands are run from left to right *)
Inductive expands : list item -> St -> list (list Z) -> St -> Prop :=
| ex_nil s : expands [] s [] s
| ex_word w its s l s' : expands its s l s' -> expands (Word w :: its) s (w :: l) s'
| ex_group g its s ws s1 l s' : gives g s ws s1 -> nobr ws -> expands its s1 l s' -> expands (Group g :: its) s (ws ++ l) s'.
Lemma expand_pre its s l s' : expands its s l s' -> forall pre fuel, Forall wf its -> nobr pre -> (groups its < fuel)%nat ->
  interp fuel (pre ++ args its) s = Ok (pre ++ l, s').
Proof.
  induction 1 as [s|w its s l s' H IH|g its s ws s1 l s' Hg Hw H IH]; intros pre fuel W P F.
  - destruct fuel; [cbn in F; lia|]. unfold args. cbn [map concat]. rewrite app_nil_r. apply C89_plain, P.
  - inversion W as [|? ? Ww W']; subst. change (args (Word w :: its)) with ([w] ++ args its).
    rewrite app_assoc. rewrite IH; [rewrite <- app_assoc; reflexivity|exact W'| |exact F].
    intros x Hx. apply in_app_or in Hx as [Hx|[<-|[]]]; [apply P, Hx|exact Ww].
  - inversion W as [|? ? Wg W']; subst. destruct fuel as [|fuel]; [lia|].
    replace (pre ++ args (Group g :: its)) with (pre ++ LBRK :: g ++ RBRK :: args its)
      by (unfold args; cbn [map concat text]; cbn [app]; rewrite <- app_assoc; reflexivity).
    rewrite (C89_round fuel pre g (args its) s ws s1); [|exact P|exact Wg|apply args_balanced, W'|exact Hg].
    rewrite app_assoc, IH; [rewrite <- app_assoc; reflexivity|exact W'| |cbn in F; unfold groups; lia].
    intros x Hx. apply in_app_or in Hx as [Hx|Hx]; [apply P, Hx|apply Hw, Hx].
Qed.
Theorem C89_expand : forall its s l s' fuel, Forall wf its -> expands its s l s' -> (groups its < fuel)%nat ->
  interp fuel (args its) s = Ok (l, s').
Proof.
  intros its s l s' fuel W H F. apply (expand_pre its s l s' H [] fuel W); [intros w []|exact F].
Qed.
End Run.

(* ---- output with brackets is expanded again, which need not end *)
Theorem C89_loop : exists run exe l, forall fuel, cmd_interpolate unit run exe fuel l tt = Div.
Proof.
  exists (fun s _ => (Some [123; 32; 125], s)), [120], [LBRK; RBRK].
  induction fuel as [|n IH]; [reflexivity|].
  change (cmd_interpolate unit (fun s _ => (Some [123; 32; 125], s)) [120] (S n) [LBRK; RBRK] tt)
    with (cmd_interpolate unit (fun s _ => (Some [123; 32; 125], s)) [120] (S n) ([] ++ LBRK :: [] ++ RBRK :: []) tt).
  rewrite (C89_round _ _ _ n [] [] [] tt [LBRK; RBRK] tt); [exact IH|intros w []| | |].
  - apply nobr_balanced. intros w [].
  - apply nobr_balanced. intros w [].
  - split; [reflexivity|]. exists [123; 32; 125]. split; [reflexivity|]. vm_compute. reflexivity.
Qed.

(* x { y { z } } w with a shell that answers "7\n 8" *)
Definition run_ex (s : list (list Z)) (cmd : list Z) : option (list Z) * list (list Z) := (Some [55; 10; 32; 56], s ++ [cmd]).
Example C89_ex :
  cmd_interpolate _ run_ex [101] 3 [[120]; [123]; [121]; [123]; [122]; [125]; [125]; [119]; [123]; [125]] [] =
    Ok ([[120]; [55]; [56]; [119]; [55]; [56]], [[101; 32; 121; 32; 123; 32; 122; 32; 125]; [101]]) /\
  cmd_interpolate _ run_ex [101] 3 [[120]; [125]; [123]] [] = Exn /\
  cmd_interpolate _ run_ex [101] 3 [[120]; [123]; [123]; [125]] [] = Exn /\
  Forall wf [Word [120]; Group [[121]; [123]; [122]; [125]]; Word [119]; Group []] /\
  args [Word [120]; Group [[121]; [123]; [122]; [125]]; Word [119]; Group []] =
    [[120]; [123]; [121]; [123]; [122]; [125]; [125]; [119]; [123]; [125]] /\
  gives _ run_ex [101] [[121]] [] [[55]; [56]] [[101; 32; 121]].
Proof.
  split; [vm_compute; reflexivity|]. split; [vm_compute; reflexivity|]. split; [vm_compute; reflexivity|].
  split; [|split; [vm_compute; reflexivity|]].
  - apply Forall_cons; [split; discriminate|]. apply Forall_cons; [apply check_balance_ok; vm_compute; reflexivity|].
    apply Forall_cons; [split; discriminate|]. apply Forall_cons; [apply check_balance_ok; vm_compute; reflexivity|apply Forall_nil].
  - split; [vm_compute; reflexivity|]. exists [55; 10; 32; 56]. split; [reflexivity|]. vm_compute. reflexivity.
Qed.

Print Assumptions C89_parse. Print Assumptions C89_command. Print Assumptions C89_output_partial.
Print Assumptions C89_long_word_refuted. Print Assumptions C89_nul_refuted. Print Assumptions C89_plain.
Print Assumptions C89_reject. Print Assumptions C89_round. Print Assumptions C89_popen. Print Assumptions C89_expand.
Print Assumptions C89_loop.
