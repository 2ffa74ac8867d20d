(* Texts whose lines are indented; several matrices in one text. *)
From Verif Require Import Base MIntMath MIntmod MMat MMatCli MBits MTextIO PIntMath PIntMath2 PIntmod PMatCli5 PMatCli8 PTextIO PTextIO2 PTextIO3.
Require Import Lia.
Import ListNotations.
Open Scope nat_scope.
Local Opaque tmx_buf_size tvec_buf_size bmx_buf_size.
Local Notation N := tmx_buf_size.

(* k lines with one number, each indented by one blank *)
Definition indented (k : nat) : list ascii := List.concat (repeat [" "%char; "1"%char; newline] k).
Section Im.
Variables (c : cache) (m : Z).
Hypothesis Hm : (1 <= m <= MAXM)%Z.
Notation one := (mkim (1 mod m) m).
Lemma ind_line : row_line (mword m) [" "%char; "1"%char] [one] 1.
Proof.
  split; [intros [H|[H|[]]]; discriminate|]. exists [" "%char], ["1"%char], []. cbn [app]. repeat split.
  - intros [H|[H|[]]]; discriminate.
  - intros [H|[H|[]]]; discriminate.
  - left. reflexivity.
  - constructor; [reflexivity|constructor].
  - constructor.
  - apply (row_one (mword m) [] ["1"%char]); [constructor|]. exists 1%Z. split; [|reflexivity].
    split; [discriminate|split; [constructor; [unfold digit; cbn; lia|constructor]|split; [reflexivity|unfold INT_MAX; lia]]].
  - exists "1"%char, []. split; [reflexivity|]. intros [H|H]; discriminate.
Qed.
Lemma ind_rows k : forall off, off + k + 1 < N -> rows_text (mword m) off (indented k) (repeat [one] k) (off + k).
Proof.
  induction k as [|k IH]; intros off H; [rewrite Nat.add_0_r; constructor|]. unfold indented. cbn [repeat List.concat].
  change ([" "%char; "1"%char; newline] ++ List.concat (repeat [" "%char; "1"%char; newline] k)) with ([" "%char; "1"%char] ++ newline :: indented k).
  replace (off + S k) with (off + 1 + k) by lia. apply (rt_cons (mword m) off _ _ 1); [exact ind_line|cbn; lia|]. apply IH. lia.
Qed.
Lemma ind_split k j : indented (k + j) = indented k ++ indented j.
Proof. unfold indented. rewrite repeat_app, concat_app. reflexivity. Qed.
Lemma indented_read k : 0 < k -> k + 1 < N -> mat_load (im_cops c) im_getz (mkim 0 m) (indented k) = Ok (Some (mkmat (repeat [one] k) 1)).
Proof.
  intros H0 Hk. unfold mat_load.
  assert (Hr : rest_text k [] []) by (apply re_end; [intros []|cbn; lia]).
  assert (Hv : repeat [one] k <> []) by (clear - H0; destruct k; [lia|discriminate]).
  pose proof (mat_read (im_cops c) im_getz (mkim 0 m) (mword m) (im_zz c m Hm) (im_rd m Hm) (mword_sp m) (mkmat [[mkim 0 m]] 1) _ [] [] [] 0 (indented k) (repeat [one] k) (0 + k) [] []
    eq_refl (im_zz c m Hm) (bt_nil 0) (ind_rows k 0 ltac:(lia)) Hv Hr) as E.
  cbn [app] in E. rewrite app_nil_r in E. rewrite E. rewrite (ragged_ok _ 1).
  - reflexivity.
  - exact Hv.
  - intros r Hin. apply repeat_spec in Hin. subst. reflexivity.
Qed.
Lemma ar1 n k : n <= k + 1 -> 3 < n -> k = (n - 2) + (1 + (k + 1 - n)). Proof. lia. Qed.
Lemma ar2 n : 3 < n -> 0 + (n - 2) + 1 < n /\ 0 < n - 2 /\ n <= n - 2 + 2. Proof. lia. Qed.
Lemma indented_over k : N <= k + 1 -> 3 < N -> mat_load (im_cops c) im_getz (mkim 0 m) (indented k) = UB.
Proof.
  intros Hk H3. unfold mat_load. rewrite (ar1 N k Hk H3), !ind_split. clear Hk. generalize (k + 1 - N). clear k. intros k. destruct (ar2 N H3) as (A1 & A2 & A3).
  change (indented 1) with ([" "%char; "1"%char] ++ [newline]). rewrite <- app_assoc.
  assert (Hr2 : rows_text (mword m) 0 (indented (N - 2)) (repeat [one] (N - 2)) (N - 2)).
  { exact (ind_rows (N - 2) 0 A1). }
  pose proof (mat_over (im_cops c) im_getz (mkim 0 m) (mword m) (im_zz c m Hm) (im_rd m Hm) (mword_sp m) (mkmat [[mkim 0 m]] 1) (mkim 0 m) [] [] [] 0 (indented (N - 2)) (repeat [one] (N - 2)) (N - 2)
    [" "%char; "1"%char] ([newline] ++ indented k) eq_refl (im_zz c m Hm) (bt_nil 0) Hr2) as E.
  cbn [app] in *. rewrite E; [reflexivity|intros [H|[H|[]]]; discriminate|right; eexists; reflexivity|exact A2|exact A3].
Qed.
End Im.

(* several matrices *)
Section Seq.
Context {A : Type} (o : cops A) (get : A -> list ascii -> res (option (A * list ascii * bool))).
(* k matrices one after the other, each read into a variable that holds m0 *)
Fixpoint read_mats (k : nat) (m0 : tmat A) (s : istr) : res (option (list (tmat A))) :=
  match k with
  | O => Ok (Some [])
  | S k =>
      '(m, s) <- mat_in_stream o get m0 s ;;
      match m with
      | None => Ok None
      | Some m => r <- read_mats k m0 s ;; Ok (match r with Some l => Some (m :: l) | None => None end)
      end
  end.
Context (put : A -> list ascii).
(* printed with an empty line between two *)
Fixpoint mats_text (ms : list (tmat A)) : list ascii :=
  match ms with
  | [] => []
  | [m] => mat_out put m
  | m :: ms => mat_out put m ++ newline :: mats_text ms
  end.
Context (z : A) (word : list ascii -> A -> Prop) (V : A -> Prop).
Hypothesis Hz : c_sub o z z = Ok z.
Hypothesis R : reads (get z) word.
Hypothesis word_sp : forall d a c, word d a -> In c d -> is_space c = false.
Hypothesis put_word : forall a, V a -> word (put a) a.
Hypothesis word_ok : forall d a, word d a -> ~ In "#"%char d /\ ~ In "000"%char d.
Definition printable (m : tmat A) : Prop :=
  t_rows m <> [] /\ t_nc m <> 0 /\ Forall (fun v => List.length v = t_nc m /\ Forall V v /\ fits put v) (t_rows m).
Lemma mats_read m0 x rs rr ms : t_rows m0 = (x :: rs) :: rr -> c_sub o x x = Ok z -> Forall printable ms ->
  read_mats (List.length ms) m0 (open_text (mats_text ms)) = Ok (Some ms).
Proof.
  intros Hm Hx. induction 1 as [|m ms (H1 & H2 & H3) Hms IH]; [reflexivity|]. cbn [List.length read_mats].
  pose proof (Npos : 0 < N) as HN.
  assert (RT : forall u rest, rest_text 0 u rest -> mat_in_stream o get m0 (open_text (mat_out put m ++ u)) = Ok (Some m, after rest)).
  { intros u rest Hu. apply (round_trip o get z word Hz R word_sp put V put_word word_ok m0 x rs rr m u rest); assumption. }
  destruct ms as [|m' ms].
  - cbn [mats_text]. rewrite <- (app_nil_r (mat_out put m)), (RT [] []) by (apply re_end; [intros []|exact HN]). reflexivity.
  - change (mats_text (m :: m' :: ms)) with (mat_out put m ++ newline :: mats_text (m' :: ms)).
    rewrite (RT (newline :: mats_text (m' :: ms)) (mats_text (m' :: ms))).
    + cbn [bind]. replace (after (mats_text (m' :: ms))) with (open_text (mats_text (m' :: ms))); [rewrite IH; reflexivity|].
      assert (K : mats_text (m' :: ms) <> []).
      { inversion Hms as [|? ? (G1 & _) _]; subst. unfold mats_text, mat_out. fold mats_text. destruct (t_rows m') as [|r rr']; [congruence|].
        cbn [map List.concat]. destruct ms; rewrite ?app_length; destruct (vec_out put r); discriminate. }
      unfold after, open_text. destruct (mats_text (m' :: ms)); [congruence|reflexivity].
    + apply (re_blank 0 [] 0); [|exact HN]. split; [intros []|]. exists []. repeat split; try (intros []); [left; reflexivity|constructor].
Qed.
End Seq.
