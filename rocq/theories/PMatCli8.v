(* Reading bracketed matrices from any text: the result is a matrix of valid elements or a failure. *)
From Verif Require Import Base MIntMath MIntmod MMat MMatCli PIntMath PIntMath2 PIntmod.
Require Import Lia.
Import ListNotations.
Open Scope nat_scope.

Definition minus_free (s : list ascii) : Prop := ~ In "-"%char s.
Definition good_res {X} (P : X -> Prop) (r : res (option X)) : Prop :=
  match r with Ok None => True | Ok (Some x) => P x | _ => False end.
Section Valid.
Context {A : Type} (get : list ascii -> res (option (A * list ascii * bool))) (Va : A -> Prop).
Hypothesis Hget : forall s, minus_free s -> good_res (fun '(a, r, _) => Va a /\ List.length r < List.length s /\ minus_free r) (get s).
Definition vrow (k : nat) (l : list A) : Prop := l <> [] /\ Forall Va l /\ List.length l <= k.
Definition vmat (t : tmat A) : Prop :=
  t_rows t <> [] /\ t_nc t <> 0 /\ Forall (fun r => List.length r = t_nc t /\ Forall Va r) (t_rows t).

Lemma vec_read_valid n : forall s, List.length s < n -> minus_free s -> good_res (vrow (List.length s)) (vec_read get n s).
Proof.
  induction n as [|n IH]; intros s Hn Hs; [lia|]. cbn [vec_read].
  pose proof (Hget s Hs) as H. destruct (get s) as [[[[a r] b]|]| | |]; cbn in *; try tauto.
  destruct H as (Ha & Hl & Hr). destruct b.
  - cbn. repeat split; [discriminate|constructor; auto|cbn; lia].
  - specialize (IH r ltac:(lia) Hr). destruct (vec_read get n r) as [[l|]| | |]; cbn in *; try tauto.
    destruct IH as (H1 & H2 & H3). repeat split; [discriminate|constructor; auto|cbn; lia].
Qed.
Lemma vec_stream_valid s : minus_free s -> good_res (vrow (List.length s)) (vec_stream get s).
Proof. intros H. apply vec_read_valid; [lia|assumption]. Qed.
Lemma strchr_sub s c t : strchr s c = Some t -> List.length t <= List.length s /\ t <> [] /\ forall x, In x t -> In x s.
Proof.
  induction s as [|y s IH]; cbn; [discriminate|]. destruct (y =? c)%char.
  - intros [= <-]. split; [cbn; lia|split; [discriminate|auto]].
  - intros H. apply IH in H as (H1 & H2 & H3). split; [lia|split; [assumption|auto]].
Qed.
Lemma before_last_sub s c : forall t, before_last s c = Some t -> List.length t < List.length s /\ forall x, In x t -> In x s.
Proof.
  induction s as [|y s IH]; cbn; [discriminate|]. destruct (before_last s c) as [u|].
  - intros t [= <-]. destruct (IH u eq_refl) as [H1 H2]. split; [cbn; lia|]. intros x [->|H]; auto.
  - intros t. destruct (y =? c)%char; [|discriminate]. intros [= <-]. split; [cbn; lia|intros x []].
Qed.
Lemma tl_sub (s : list ascii) : List.length (tl s) <= List.length s /\ forall x, In x (tl s) -> In x s.
Proof. destruct s; cbn; split; auto; lia. Qed.
Lemma skip_blank_sub s : List.length (skip_blank s) <= List.length s /\ forall x, In x (skip_blank s) -> In x s.
Proof. induction s as [|y s [H1 H2]]; cbn; [auto|]. destruct (_ || _); cbn; split; auto. Qed.
Lemma pieces_sub sep s : forall cur,
  List.length (pieces sep cur s) <= List.length cur + List.length s /\
  forall p, In p (pieces sep cur s) -> List.length p <= List.length cur + List.length s /\ forall x, In x p -> In x cur \/ In x s.
Proof.
  induction s as [|y s IH]; intros cur; cbn [pieces].
  - destruct cur as [|c cur]; [cbn; split; [lia|tauto]|]. split; [cbn; lia|]. intros p [<-|[]].
    rewrite rev_length. split; [lia|]. intros x Hx. left. apply in_rev. assumption.
  - destruct (y =? sep)%char.
    + destruct (IH []) as [H1 H2]. destruct cur as [|c cur].
      * split; [cbn in *; lia|]. intros p Hp. apply H2 in Hp as [H3 H4]. split; [cbn in *; lia|]. intros x Hx. apply H4 in Hx. cbn in *; tauto.
      * split; [cbn in *; lia|]. intros p [<-|Hp].
        -- rewrite rev_length. split; [lia|]. intros x Hx. left. apply in_rev. assumption.
        -- apply H2 in Hp as [H3 H4]. split; [cbn in *; lia|]. intros x Hx. apply H4 in Hx. cbn in *; tauto.
    + destruct (IH (y :: cur)) as [H1 H2]. split; [cbn in *; lia|]. intros p Hp. apply H2 in Hp as [H3 H4].
      split; [cbn in *; lia|]. intros x Hx. apply H4 in Hx. cbn in *; tauto.
Qed.
Lemma free_sub s t : minus_free s -> (forall x, In x t -> In x s) -> minus_free t.
Proof. intros H1 H2 H3. apply H1, H2, H3. Qed.
Lemma vrow_le k k' l : k <= k' -> vrow k l -> vrow k' l.
Proof. intros H (H1 & H2 & H3). repeat split; auto. lia. Qed.
Lemma good_imp {X} (P Q : X -> Prop) r : (forall x, P x -> Q x) -> good_res P r -> good_res Q r.
Proof. destruct r as [[x|]| | |]; cbn; auto. Qed.
Lemma vec_bracket_valid s : minus_free s -> good_res (vrow (List.length s)) (vec_bracket_in get s).
Proof.
  intros H. unfold vec_bracket_in. destruct (strchr s "[") as [t|] eqn:E; [|exact I].
  apply strchr_sub in E as (H1 & _ & H2). destruct (before_last (tl t) "]") as [u|] eqn:E'; [|exact I].
  apply before_last_sub in E' as (H3 & H4). pose proof (tl_sub t) as [H5 H6].
  refine (good_imp _ _ _ _ (vec_stream_valid u _)).
  - intros l. apply vrow_le. lia.
  - apply (free_sub s); auto.
Qed.
Lemma mat_rows_valid k ps : (forall p, In p ps -> List.length p < k /\ minus_free p) ->
  good_res (fun rows => List.length rows = List.length ps /\ Forall (vrow k) rows) (mat_rows_in get ps).
Proof.
  induction ps as [|p ps IH]; intros H; cbn [mat_rows_in]; [cbn; auto|].
  destruct (H p (or_introl eq_refl)) as [H1 H2].
  pose proof (vec_bracket_valid ("["%char :: p)) as H3.
  assert (H4 : minus_free ("["%char :: p)) by (intros [Hx|Hx]; [discriminate|exact (H2 Hx)]).
  specialize (H3 H4). destruct (vec_bracket_in get _) as [[r|]| | |]; cbn in *; try tauto.
  specialize (IH ltac:(auto)). destruct (mat_rows_in get ps) as [[rs|]| | |]; cbn in *; try tauto.
  destruct IH as [H5 H6]. split; [lia|]. constructor; [|assumption]. apply (vrow_le (S (List.length p))); [lia|assumption].
Qed.
Lemma mat_bracket_valid s : minus_free s ->
  good_res (fun t => vmat t /\ t_nr t <= List.length s /\ t_nc t <= List.length s) (mat_bracket_in get s).
Proof.
  intros H. unfold mat_bracket_in. destruct (strchr s "[") as [t|] eqn:E; [|exact I].
  apply strchr_sub in E as (H1 & Hne & H2). destruct (before_last t "]") as [u|] eqn:E'; [|exact I].
  apply before_last_sub in E' as (H3 & H4). pose proof (tl_sub u) as [H5 H6].
  pose proof (skip_blank_sub (tl u)) as [H7 H8]. set (inner := skip_blank (tl u)) in *.
  assert (Hf : minus_free inner) by (apply (free_sub s); auto).
  destruct (strchr inner "[") as [v|].
  - destruct (pieces_sub "[" inner []) as [P1 P2].
    pose proof (mat_rows_valid (List.length s) (pieces "[" [] inner)) as R.
    destruct (mat_rows_in get _) as [[rows|]| | |] in *; cbn [bind good_res] in *; try (apply R; fail); try exact I; try tauto.
    + assert (R' : List.length rows = List.length (pieces "[" [] inner) /\ Forall (vrow (List.length s)) rows).
      { apply R. intros p Hp. apply P2 in Hp as [Q1 Q2]. cbn in *. split; [lia|]. apply (free_sub inner); [assumption|].
        intros x Hx. apply Q2 in Hx. tauto. }
      destruct R' as [R1 R2]. unfold check_ragged. destruct rows as [|r rs]; [exact I|].
      destruct (forallb _ rs) eqn:Ef; [|exact I]. cbn [good_res].
      inversion R2 as [|? ? (V1 & V2 & V3) R3]; subst. rewrite forallb_forall in Ef.
      unfold vmat, t_nr; cbn [t_rows t_nc]. repeat split; [discriminate|destruct r; [congruence|discriminate]| |cbn in *; lia|assumption].
      constructor; [auto|]. rewrite Forall_forall in *. intros x Hx. split; [apply Nat.eqb_eq, Ef, Hx|]. apply R3 in Hx. apply Hx.
    + apply R. intros p Hp. apply P2 in Hp as [Q1 Q2]. cbn in *. split; [lia|]. apply (free_sub inner); [assumption|].
      intros x Hx. apply Q2 in Hx. tauto.
    + apply R. intros p Hp. apply P2 in Hp as [Q1 Q2]. cbn in *. split; [lia|]. apply (free_sub inner); [assumption|].
      intros x Hx. apply Q2 in Hx. tauto.
    + apply R. intros p Hp. apply P2 in Hp as [Q1 Q2]. cbn in *. split; [lia|]. apply (free_sub inner); [assumption|].
      intros x Hx. apply Q2 in Hx. tauto.
  - pose proof (vec_stream_valid inner Hf) as R.
    destruct (vec_stream get inner) as [[l|]| | |]; cbn [bind good_res] in *; try tauto.
    destruct R as (V1 & V2 & V3). unfold vmat, t_nr; cbn [t_rows t_nc]. rewrite map_length.
    repeat split; [destruct l; [congruence|discriminate]|discriminate| |lia|destruct s; [destruct t; cbn in *; lia|cbn; lia]].
    rewrite Forall_forall in *. intros r Hr. apply in_map_iff in Hr as (x & <- & Hx). split; [reflexivity|]. constructor; auto.
Qed.
End Valid.

Lemma skip_space_sub s : List.length (skip_space s) <= List.length s /\ forall x, In x (skip_space s) -> In x s.
Proof. induction s as [|y s [H1 H2]]; cbn; [auto|]. destruct (is_space y); cbn; split; auto. Qed.
Lemma skip_ws_sub s : List.length (skip_ws s) <= List.length s /\ forall x, In x (skip_ws s) -> In x s.
Proof. induction s as [|y s [H1 H2]]; cbn; [auto|]. destruct (_ || _); cbn; split; auto. Qed.
Lemma digit_val_nonneg x : is_digit x = true -> (0 <= digit_val x)%Z.
Proof. unfold is_digit, digit_val. intros H. apply andb_prop in H as [H _]. apply Nat.leb_le in H. lia. Qed.
Lemma read_digits_sub s : forall acc any v r, (0 <= acc)%Z -> read_digits s acc any = Some (v, r) ->
  (0 <= v)%Z /\ List.length r <= List.length s /\ (any = false -> List.length r < List.length s) /\ forall x, In x r -> In x s.
Proof.
  induction s as [|y s IH]; intros acc any v r Hacc; cbn [read_digits].
  - destruct any; [|discriminate]. intros [= <- <-]. cbn. repeat split; auto; try lia; discriminate.
  - destruct (is_digit y) eqn:E.
    + intros H. pose proof (digit_val_nonneg y E). apply IH in H as (H1 & H2 & H3 & H4); [|lia].
      cbn. repeat split; auto; lia.
    + destruct any; [|discriminate]. intros [= <- <-]. cbn. repeat split; auto; try lia; discriminate.
Qed.
Lemma read_int_sub s v r : minus_free s -> read_int s = Some (v, r) -> (0 <= v <= INT_MAX)%Z /\ List.length r < List.length s /\ minus_free r.
Proof.
  unfold read_int. intros Hs. pose proof (skip_space_sub s) as [H1 H2]. set (u := skip_space s) in *.
  assert (Hu : minus_free u) by (apply (free_sub s); auto).
  assert (K : forall w, List.length w <= List.length u -> (forall x, In x w -> In x u) ->
    match read_digits w 0 false with
    | Some (v0, r0) => if (INT_MIN <=? v0)%Z && (v0 <=? INT_MAX)%Z then Some (v0, r0) else None
    | None => None end = Some (v, r) -> (0 <= v <= INT_MAX)%Z /\ List.length r < List.length s /\ minus_free r).
  { intros w Hw Hi. destruct (read_digits w 0 false) as [[v0 r0]|] eqn:E; [|discriminate].
    destruct (_ && _) eqn:E2; [|discriminate]. intros [= <- <-].
    apply read_digits_sub in E as (G1 & G2 & G3 & G4); [|lia]. specialize (G3 eq_refl).
    apply andb_prop in E2 as [_ E2]. apply Z.leb_le in E2. split; [lia|split; [lia|]]. apply (free_sub u); auto. }
  destruct u as [|x t]; [exact (K [] (le_n _) ltac:(auto))|].
  destruct (x =? "-")%char eqn:E; [apply Ascii.eqb_eq in E; subst; exfalso; apply Hu; now left|].
  destruct (x =? "+")%char; [apply (K t); cbn; [lia|auto]|apply (K (x :: t)); auto].
Qed.
Definition im_valid (m : Z) (a : intmod) : Prop := modulus a = m /\ canon a.
Lemma im_get_valid m s : (1 <= m <= INT_MAX)%Z -> minus_free s ->
  good_res (fun '(a, r, _) => im_valid m a /\ List.length r < List.length s /\ minus_free r) (im_get m s).
Proof.
  intros Hm Hs. unfold im_get. pose proof (skip_ws_sub s) as [H1 H2]. set (u := skip_ws s) in *.
  assert (Hu : minus_free u) by (apply (free_sub s); auto).
  destruct u as [|x t] eqn:Eu; [exact I|]. rewrite <- Eu in *. clear Eu x t.
  destruct (read_int u) as [[v r]|] eqn:E; [|exact I]. apply read_int_sub in E as (G1 & G2 & G3); [|assumption].
  unfold im_stream_in. rewrite check_modulus_ok by (cbn; lia). cbn [bind modulus]. rewrite imod_pos by lia. cbn [bind good_res].
  split; [|split; [lia|assumption]]. unfold im_valid, canon; cbn. split; [reflexivity|]. apply Z.mod_pos_bound. lia.
Qed.
