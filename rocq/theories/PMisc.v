(* Proofs about MMisc. *)
From Verif Require Import Base MMisc.
From Coq Require Import Lia.
Open Scope Z_scope.

(* ---------------------------------------------------------------- count_bits *)
(* Number of i < 8 whose bit is set. *)
Definition byte_weight (b : Z) : Z :=
  Z.of_nat (length (filter (fun i => Z.testbit b (Z.of_nat i)) (seq 0 8))).
Definition weight (l : list Z) : Z := fold_right (fun b acc => byte_weight b + acc) 0 l.

Lemma table_weight b : 0 <= b < 256 -> nth_error byte_num_one_bits (Z.to_nat b) = Some (byte_weight b).
Proof.
  intros Hb.
  assert (H : forallb (fun n => match nth_error byte_num_one_bits n with
              Some c => c =? byte_weight (Z.of_nat n) | None => false end) (seq 0 256) = true) by (vm_compute; reflexivity).
  rewrite forallb_forall in H. specialize (H (Z.to_nat b)).
  rewrite in_seq in H. specialize (H ltac:(lia)). cbv beta in H. rewrite Z2Nat.id in H by lia.
  destruct (nth_error _ _); [f_equal; lia|discriminate].
Qed.
Lemma byte_weight_bound b : 0 <= byte_weight b <= 8.
Proof.
  unfold byte_weight. assert (Hf : forall (f : nat -> bool) l, (length (filter f l) <= length l)%nat).
  { intros f l. induction l as [|x t IH]; cbn; [lia|]. destruct (f x); cbn; lia. }
  specialize (Hf (fun i => Z.testbit b (Z.of_nat i)) (seq 0 8)). rewrite seq_length in Hf. lia.
Qed.
Lemma weight_bound l : 0 <= weight l <= 8 * Z.of_nat (length l).
Proof. induction l as [|b t IH]; cbn [weight fold_right length]; [lia|]. pose proof (byte_weight_bound b). unfold weight in IH. lia. Qed.

Lemma count_loop_ok k : forall mem i rv, (i + k <= length mem)%nat -> (forall b, In b mem -> 0 <= b < 256) ->
  0 <= rv -> rv + 8 * Z.of_nat k <= INT_MAX ->
  count_loop k mem i rv = Ok (rv + weight (firstn k (skipn i mem))).
Proof.
  induction k as [|k IH]; intros mem i rv Hl Hb Hrv Hm; cbn [count_loop].
  - cbn. f_equal. lia.
  - destruct (nth_error mem i) as [b|] eqn:E; [|apply nth_error_None in E; lia].
    assert (Hbb : 0 <= b < 256) by (apply Hb; eapply nth_error_In; exact E).
    rewrite table_weight by exact Hbb. pose proof (byte_weight_bound b).
    unfold iadd. rewrite chk_ok, bind_ok by (unfold INT_MIN in *; lia).
    rewrite IH by (try assumption; lia).
    assert (Es : skipn i mem = b :: skipn (S i) mem).
    { clear -E. revert mem E. induction i as [|i IHi]; intros mem E; destruct mem as [|y t]; cbn in E; try discriminate.
      - injection E as ->. reflexivity.
      - cbn [skipn]. apply IHi, E. }
    rewrite Es. cbn [firstn weight fold_right]. unfold weight. f_equal. lia.
Qed.
Lemma count_one_bits_ok mem : (forall b, In b mem -> 0 <= b < 256) -> 8 * Z.of_nat (length mem) <= INT_MAX ->
  count_one_bits mem (Z.of_nat (length mem)) = Ok (weight mem).
Proof.
  intros Hb Hl. unfold count_one_bits. rewrite Nat2Z.id. rewrite count_loop_ok by (try assumption; lia).
  cbn [skipn]. rewrite firstn_all. f_equal.
Qed.
Lemma count_one_bits_nonpos mem n : n <= 0 -> count_one_bits mem n = Ok 0.
Proof. intros H. unfold count_one_bits. replace (Z.to_nat n) with O by lia. reflexivity. Qed.

(* ---------------------------------------------------------------- psdes *)
Definition word32 (n : N) : Prop := (n < 4294967296)%N.
Definition state32 (s : N * N) : Prop := word32 (fst s) /\ word32 (snd s).

Lemma w32_lt n : word32 (w32 n).
Proof. unfold word32, w32. apply N.mod_lt. discriminate. Qed.
Lemma lt_pow2_bits n k : (n < 2 ^ k)%N <-> (forall i, (k <= i)%N -> N.testbit n i = false).
Proof.
  split.
  - intros H i Hi. destruct (N.eq_dec n 0) as [->|Hn]; [apply N.bits_0|].
    apply N.bits_above_log2. apply N.log2_lt_pow2 in H; lia.
  - intros H. destruct (N.eq_dec n 0) as [->|Hn]; [apply N.neq_0_lt_0, N.pow_nonzero; discriminate|].
    apply N.log2_lt_pow2; [lia|]. destruct (N.lt_ge_cases (N.log2 n) k) as [|Hge]; [assumption|].
    specialize (H _ Hge). rewrite N.bit_log2 in H by assumption. discriminate.
Qed.
Lemma lxor_lt a b : word32 a -> word32 b -> word32 (N.lxor a b).
Proof.
  unfold word32. change 4294967296%N with (2^32)%N. rewrite !lt_pow2_bits. intros Ha Hb i Hi.
  rewrite N.lxor_spec, Ha, Hb by exact Hi. reflexivity.
Qed.

Definition psdes_unround (c : N * N) (w : N * N) : N * N :=
  let '(a, b) := w in (N.lxor b (psdes_f (fst c) (snd c) a), a).
Definition psdes_inverse (w : N * N) : N * N :=
  fold_left (fun w c => psdes_unround c w) (rev (combine psdes_c1 psdes_c2)) w.

Lemma unround_round c w : psdes_unround c (psdes_round c w) = w.
Proof. destruct w as [a b]. cbn. rewrite N.lxor_assoc, N.lxor_nilpotent, N.lxor_0_r. reflexivity. Qed.
Lemma round_unround c w : psdes_round c (psdes_unround c w) = w.
Proof. destruct w as [a b]. cbn. rewrite N.lxor_assoc, N.lxor_nilpotent, N.lxor_0_r. reflexivity. Qed.
Lemma feistel_inv l : forall w, fold_left (fun w c => psdes_unround c w) (rev l) (fold_left (fun w c => psdes_round c w) l w) = w.
Proof.
  induction l as [|c t IH]; intros w; [reflexivity|]. cbn [rev fold_left]. rewrite fold_left_app, IH. apply unround_round.
Qed.
Lemma feistel_inv' l : forall w, fold_left (fun w c => psdes_round c w) l (fold_left (fun w c => psdes_unround c w) (rev l) w) = w.
Proof.
  induction l as [|c t IH]; intros w; [reflexivity|]. cbn [rev fold_left]. rewrite fold_left_app. cbn [fold_left].
  rewrite round_unround. apply IH.
Qed.
Lemma hash_inv w : psdes_inverse (psdes_hash_64 w) = w.
Proof. apply feistel_inv. Qed.
Lemma hash_inv' w : psdes_hash_64 (psdes_inverse w) = w.
Proof. apply feistel_inv'. Qed.
Lemma psdes_f_lt c1 c2 x : word32 (psdes_f c1 c2 x).
Proof. apply w32_lt. Qed.
Lemma hash_state w : state32 w -> state32 (psdes_hash_64 w).
Proof.
  unfold psdes_hash_64. generalize (combine psdes_c1 psdes_c2). intros l. revert w.
  induction l as [|c t IH]; intros w Hw; [exact Hw|]. cbn [fold_left]. apply IH. destruct w as [a b], Hw as [Ha Hb].
  split; [exact Hb|]. apply lxor_lt; [exact Ha|apply psdes_f_lt].
Qed.
Lemma inverse_state w : state32 w -> state32 (psdes_inverse w).
Proof.
  unfold psdes_inverse. generalize (rev (combine psdes_c1 psdes_c2)). intros l. revert w.
  induction l as [|c t IH]; intros w Hw; [exact Hw|]. cbn [fold_left]. apply IH. destruct w as [a b], Hw as [Ha Hb].
  split; [|exact Ha]. apply lxor_lt; [exact Hb|apply psdes_f_lt].
Qed.

Definition ctr (s : N * N) : N := (fst s * 4294967296 + snd s)%N.
Lemma next_state s : state32 s -> state32 (psdes_next s).
Proof. destruct s as [a b]. intros [Ha Hb]. split; cbn; [destruct (_ =? _)%N; [apply w32_lt|exact Ha]|apply w32_lt]. Qed.
Lemma next_ctr s : state32 s -> ctr (psdes_next s) = ((ctr s + 1) mod 18446744073709551616)%N.
Proof.
  destruct s as [a b]. unfold state32, word32. cbn [fst snd]. intros [Ha Hb]. unfold ctr, psdes_next, w32. cbn [fst snd].
  destruct ((b + 1) mod 4294967296 =? 0)%N eqn:E; cbn [fst snd].
  - assert (b = 4294967295)%N by lia. subst b. lia.
  - assert (Hb2 : (b + 1 < 4294967296)%N) by lia. rewrite (N.mod_small (b+1)) by exact Hb2. rewrite N.mod_small by lia. lia.
Qed.
Lemma ctr_inj s t : state32 s -> state32 t -> ctr s = ctr t -> s = t.
Proof.
  destruct s as [a b], t as [c d]. unfold state32, word32, ctr. cbn [fst snd]. intros [H1 H2] [H3 H4] H.
  assert (a = c) by lia. subst. f_equal. lia.
Qed.
Fixpoint nth_state (k : nat) (s : N * N) : N * N := match k with O => s | S k' => nth_state k' (psdes_next s) end.
Lemma nth_state_ctr k : forall s, state32 s -> state32 (nth_state k s) /\ ctr (nth_state k s) = ((ctr s + N.of_nat k) mod 18446744073709551616)%N.
Proof.
  induction k as [|k IH]; intros s Hs; cbn [nth_state].
  - split; [exact Hs|]. rewrite N.add_0_r, N.mod_small; [reflexivity|]. destruct s; destruct Hs. unfold word32, ctr in *. cbn in *. lia.
  - destruct (IH _ (next_state s Hs)) as [H1 H2]. split; [exact H1|]. rewrite H2, next_ctr by exact Hs.
    rewrite N.add_mod_idemp_l by discriminate. f_equal. lia.
Qed.
Lemma iran64_seq_nth k : forall j s, (j < k)%nat -> nth_error (iran64_seq k s) j = Some (psdes_hash_64 (nth_state j s)).
Proof.
  induction k as [|k IH]; intros j s Hj; [lia|]. cbn [iran64_seq iran64_r]. destruct j as [|j]; [reflexivity|].
  cbn [nth_error nth_state]. apply IH. lia.
Qed.
Lemma iran64_seq_length k : forall s, length (iran64_seq k s) = k.
Proof. induction k; intros s; cbn; auto. Qed.
Lemma iran64_seq_nodup k s : state32 s -> (N.of_nat k <= 18446744073709551616)%N -> NoDup (iran64_seq k s).
Proof.
  intros Hs Hk. apply NoDup_nth_error. intros i j Hi Heq. rewrite iran64_seq_length in Hi.
  destruct (Nat.lt_ge_cases j k) as [Hj|Hj].
  - rewrite !iran64_seq_nth in Heq by assumption. injection Heq as Heq.
    apply (f_equal psdes_inverse) in Heq. rewrite !hash_inv in Heq.
    destruct (nth_state_ctr i s Hs) as [_ Ci]. destruct (nth_state_ctr j s Hs) as [_ Cj]. rewrite Heq, Cj in Ci.
    revert Ci. generalize (ctr s). intros c Ci.
    assert (Hbi : (N.of_nat i < 18446744073709551616)%N) by lia. assert (Hbj : (N.of_nat j < 18446744073709551616)%N) by lia.
    clear -Ci Hbi Hbj. lia.
  - rewrite iran64_seq_nth in Heq by assumption. symmetry in Heq.
    assert (nth_error (iran64_seq k s) j = None) by (apply nth_error_None; rewrite iran64_seq_length; exact Hj). congruence.
Qed.
(* Period: exactly 2^64. *)
Lemma nth_state_period k s : state32 s -> N.of_nat k = 18446744073709551616%N -> nth_state k s = s.
Proof.
  intros Hs Hk. destruct (nth_state_ctr k s Hs) as [H1 H2]. apply ctr_inj; [exact H1|exact Hs|]. rewrite H2, Hk.
  destruct s as [a b], Hs as [Ha Hb]. unfold word32, ctr in *. cbn [fst snd] in *. lia.
Qed.

(* ---------------------------------------------------------------- tokenize *)
(* Specification: split at every separator, drop the empty pieces. *)
Fixpoint split_at (sep : Z -> bool) (l : list Z) : list (list Z) :=
  match l with
  | [] => [[]]
  | c :: t => if sep c then [] :: split_at sep t
              else match split_at sep t with [] => [[c]] | w :: ws => (c :: w) :: ws end
  end.
Definition nonempty (w : list Z) : bool := match w with [] => false | _ => true end.
Definition tokens (sep : Z -> bool) (l : list Z) : list (list Z) := filter nonempty (split_at sep l).

Lemma split_nonnil sep l : split_at sep l <> [].
Proof. destruct l as [|c t]; cbn; [discriminate|]. destruct (sep c); [discriminate|]. destruct (split_at sep t); discriminate. Qed.
Lemma split_word sep cur rest : forallb (fun c => negb (sep c)) cur = true ->
  split_at sep (cur ++ rest) = match split_at sep rest with [] => [cur] | w :: ws => (cur ++ w) :: ws end.
Proof.
  induction cur as [|c t IH]; intros H; cbn [app].
  - destruct (split_at sep rest) eqn:E; [exfalso; eapply split_nonnil; exact E|reflexivity].
  - cbn [forallb] in H. apply andb_prop in H as [H1 H2]. cbn [split_at]. destruct (sep c); [discriminate|].
    rewrite IH by exact H2. destruct (split_at sep rest); reflexivity.
Qed.
Lemma tokens_sep sep cur c rest : forallb (fun c => negb (sep c)) cur = true -> sep c = true ->
  tokens sep (cur ++ c :: rest) = (if nonempty cur then [cur] else []) ++ tokens sep rest.
Proof.
  intros H1 H2. unfold tokens. rewrite split_word by exact H1. cbn [split_at]. rewrite H2. rewrite app_nil_r.
  cbn [filter]. destruct (nonempty cur); reflexivity.
Qed.
Lemma tokens_end sep cur : forallb (fun c => negb (sep c)) cur = true ->
  tokens sep cur = if nonempty cur then [cur] else [].
Proof.
  intros H. rewrite <- (app_nil_r cur) at 1. unfold tokens. rewrite split_word by exact H. cbn [split_at]. rewrite app_nil_r.
  cbn [filter]. destruct (nonempty cur); reflexivity.
Qed.

(* The C string at an offset. *)
Fixpoint until0 (l : list Z) : list Z := match l with [] => [] | c :: t => if c =? 0 then [] else c :: until0 t end.
Definition cstr (buf : list Z) (off : nat) : list Z := until0 (skipn off buf).
Definition no0 (l : list Z) : Prop := forall c, In c l -> c <> 0.

Lemma until0_app w t : no0 w -> until0 (w ++ 0 :: t) = w.
Proof.
  induction w as [|c w IH]; intros H; cbn [app until0]; [reflexivity|].
  assert (c <> 0) by (apply H; left; reflexivity). replace (c =? 0) with false by lia. f_equal. apply IH.
  intros x Hx; apply H; right; exact Hx.
Qed.
Lemma upd_app {A} (pre : list A) c rest v : upd (pre ++ c :: rest) (length pre) v = pre ++ v :: rest.
Proof.
  unfold upd. rewrite firstn_app, firstn_all, Nat.sub_diag, app_nil_r, skipn_app, skipn_all, Nat.sub_diag. reflexivity.
Qed.
Lemma nth_error_mid {A} (pre : list A) c rest : nth_error (pre ++ c :: rest) (length pre) = Some c.
Proof. rewrite nth_error_app2 by lia. rewrite Nat.sub_diag. reflexivity. Qed.

(* A finished token at off: the prefix holds it followed by a NUL. *)
Definition finished (pre : list Z) (off : nat) (w : list Z) : Prop :=
  (off <= length pre)%nat /\ no0 w /\ exists t, skipn off pre = w ++ 0 :: t.
Lemma finished_ext pre off w x : finished pre off w -> finished (pre ++ x) off w.
Proof.
  intros (H1 & H2 & t & Ht). split; [rewrite app_length; lia|]. split; [exact H2|]. exists (t ++ x).
  rewrite skipn_app, Ht, <- app_assoc. replace (off - length pre)%nat with O by lia. reflexivity.
Qed.
Lemma finished_cstr pre off w rest : finished pre off w -> cstr (pre ++ rest) off = w.
Proof.
  intros H. apply (finished_ext _ _ _ rest) in H. destruct H as (_ & H2 & t & Ht). unfold cstr. rewrite Ht. apply until0_app, H2.
Qed.

Lemma Forall2_ext {A B} (P Q : A -> B -> Prop) l m : (forall a b, P a b -> Q a b) -> Forall2 P l m -> Forall2 Q l m.
Proof. intros H F. induction F; constructor; auto. Qed.

Lemma Forall2_len {A B} (P : A -> B -> Prop) l m : Forall2 P l m -> length l = length m.
Proof. induction 1; cbn; congruence. Qed.

Section Tok.
Variables (seps : list Z) (maxargs : Z).
Let sep := is_sep seps.

Definition tok_final (r : list Z * nat * bool * list nat) : res (list Z * list nat) :=
  let '(buf', i, inside, argv) := r in
  if (inside : bool) then (if Nat.ltb i (length buf') then Ok (upd buf' i 0, argv) else UB) else Ok (buf', argv).

Lemma tok_loop_ok rest : forall fuel pre cur offs dones,
  no0 rest -> no0 cur -> (length rest < fuel)%nat ->
  forallb (fun c => negb (sep c)) cur = true ->
  Forall2 (finished pre) offs dones ->
  Z.of_nat (length offs) <= Z.max 0 maxargs ->
  (nonempty cur = true -> Z.of_nat (length offs) < maxargs) ->
  exists buf' argv,
    (r <- tok_loop fuel seps maxargs (pre ++ cur ++ rest ++ [0]) (length pre + length cur) (nonempty cur)
            (if nonempty cur then offs ++ [length pre] else offs) ;; tok_final r) = Ok (buf', argv) /\
    length buf' = length (pre ++ cur ++ rest ++ [0]) /\
    map (cstr buf') argv = firstn (Z.to_nat maxargs) (dones ++ tokens sep (cur ++ rest)).
Proof.
  induction rest as [|c rest IH]; intros fuel pre cur offs dones Hr Hc Hf Hs HF Hcap Hcap2; (destruct fuel as [|fuel]; [lia|]).
  - cbn [tok_loop app]. rewrite app_assoc. rewrite <- app_length, nth_error_mid. cbn [Z.eqb bind tok_final]. rewrite app_nil_r.
    rewrite tokens_end by exact Hs. destruct (nonempty cur) eqn:En; cbn [bind tok_final].
    + match goal with |- context [Nat.ltb ?a ?b] => replace (Nat.ltb a b) with true by (symmetry; apply Nat.ltb_lt; rewrite !app_length; cbn; lia) end.
      rewrite upd_app. do 2 eexists. split; [reflexivity|]. split; [rewrite !app_length; cbn; lia|].
      rewrite map_app. specialize (Hcap2 eq_refl). pose proof (Forall2_len _ _ _ HF) as HL.
      rewrite firstn_all2 by (rewrite app_length; cbn; lia). f_equal.
      * assert (F' : Forall2 (fun o w => cstr ((pre ++ cur) ++ [0]) o = w) offs dones).
        { eapply Forall2_ext; [|exact HF]. intros a b Hab. rewrite <- app_assoc. apply finished_cstr, Hab. }
        clear -F'. induction F'; cbn; congruence.
      * cbn [map]. f_equal. unfold cstr. rewrite <- app_assoc, skipn_app, skipn_all, Nat.sub_diag. cbn [app skipn]. apply until0_app, Hc.
    + destruct cur; [|discriminate]. do 2 eexists. split; [reflexivity|]. split; [rewrite !app_length; cbn; lia|].
      pose proof (Forall2_len _ _ _ HF) as HL. rewrite !app_nil_r. rewrite firstn_all2 by lia.
      assert (F' : Forall2 (fun o w => cstr (pre ++ [0]) o = w) offs dones).
      { eapply Forall2_ext; [|exact HF]. intros a b Hab. apply finished_cstr, Hab. }
      clear -F'. induction F'; cbn; congruence.
  - assert (Hc0 : c <> 0) by (apply Hr; left; reflexivity).
    assert (Hr' : no0 rest) by (intros x Hx; apply Hr; right; exact Hx).
    cbn [tok_loop]. rewrite (app_assoc pre cur). rewrite <- app_length. cbn [app]. rewrite nth_error_mid.
    replace (c =? 0) with false by lia. fold sep. destruct (sep c) eqn:Es.
    + rewrite tokens_sep by assumption. destruct (nonempty cur) eqn:En.
      * rewrite upd_app.
        specialize (IH fuel ((pre ++ cur) ++ [0]) [] (offs ++ [length pre]) (dones ++ [cur])).
        cbn [app nonempty length] in IH.
        destruct IH as (buf' & argv & E & HL & HM).
        -- exact Hr'.
        -- intros x [].
        -- cbn in Hf; lia.
        -- reflexivity.
        -- apply Forall2_app.
           ++ eapply Forall2_ext; [|exact HF]. intros a b Hab. rewrite <- app_assoc. apply finished_ext, Hab.
           ++ constructor; [|constructor]. split; [rewrite !app_length; lia|]. split; [exact Hc|]. exists [].
              rewrite <- app_assoc, skipn_app, skipn_all, Nat.sub_diag. reflexivity.
        -- rewrite app_length. cbn [length]. specialize (Hcap2 eq_refl). lia.
        -- discriminate.
        -- exists buf', argv. split; [|split].
           ++ rewrite <- E. f_equal. f_equal; [rewrite <- !app_assoc; reflexivity|rewrite !app_length; cbn; lia].
           ++ rewrite HL, !app_length. cbn. rewrite !app_length. cbn. lia.
           ++ rewrite HM, <- app_assoc. reflexivity.
      * destruct cur; [|discriminate]. cbn [app nonempty length] in *. rewrite app_nil_r.
        specialize (IH fuel (pre ++ [c]) [] offs dones). cbn [app nonempty length] in IH.
        destruct IH as (buf' & argv & E & HL & HM); try assumption.
        -- cbn in Hf; lia.
        -- eapply Forall2_ext; [|exact HF]. intros a b Hab. apply finished_ext, Hab.
        -- exists buf', argv. split; [|split].
           ++ rewrite <- E. f_equal. f_equal; [rewrite <- !app_assoc; reflexivity|rewrite !app_length; cbn; lia].
           ++ rewrite HL, !app_length. cbn. rewrite !app_length. cbn. lia.
           ++ exact HM.
    + destruct (nonempty cur) eqn:En.
      * specialize (IH fuel pre (cur ++ [c]) offs dones).
        assert (En' : nonempty (cur ++ [c]) = true) by (destruct cur; reflexivity). rewrite En' in IH.
        destruct IH as (buf' & argv & E & HL & HM); try assumption.
        -- intros x Hx. apply in_app_or in Hx as [Hx|[<-|[]]]; [apply Hc, Hx|exact Hc0].
        -- cbn in Hf; lia.
        -- rewrite forallb_app, Hs. cbn. rewrite Es. reflexivity.
        -- exists buf', argv. split; [|split].
           ++ rewrite <- E. f_equal. f_equal; [rewrite <- !app_assoc; reflexivity|rewrite !app_length; cbn; lia].
           ++ rewrite HL, !app_length. cbn. rewrite !app_length. cbn. lia.
           ++ rewrite HM, <- app_assoc. reflexivity.
      * destruct cur; [|discriminate]. cbn [app nonempty length] in *. rewrite app_nil_r.
        destruct (Z.of_nat (length offs) >=? maxargs) eqn:Ecap.
        -- cbn [bind tok_final]. match goal with |- context [Nat.ltb ?a ?b] => replace (Nat.ltb a b) with true by (symmetry; apply Nat.ltb_lt; rewrite !app_length; cbn; lia) end.
           rewrite upd_app. do 2 eexists. split; [reflexivity|]. split; [rewrite !app_length; cbn; lia|].
           pose proof (Forall2_len _ _ _ HF) as HL.
           rewrite firstn_app. replace (Z.to_nat maxargs - length dones)%nat with O by lia. cbn [firstn]. rewrite app_nil_r.
           rewrite firstn_all2 by lia.
           assert (F' : Forall2 (fun o w => cstr (pre ++ 0 :: rest ++ [0]) o = w) offs dones).
           { eapply Forall2_ext; [|exact HF]. intros a b Hab. apply finished_cstr, Hab. }
           clear -F'. induction F'; cbn; congruence.
        -- specialize (IH fuel pre [c] offs dones). cbn [app nonempty length] in IH.
           destruct IH as (buf' & argv & E & HL & HM); try assumption.
           ++ intros x [<-|[]]; exact Hc0.
           ++ cbn in Hf; lia.
           ++ cbn. rewrite Es. reflexivity.
           ++ intros _. lia.
           ++ exists buf', argv. split; [|split]; [|exact HL|exact HM].
              rewrite <- E. f_equal. f_equal. lia.
Qed.
End Tok.

Lemma tokenize_ok line seps maxargs : no0 line ->
  exists buf argv, tokenize (line ++ [0]) seps maxargs = Ok (buf, argv) /\ length buf = length (line ++ [0]) /\
    map (cstr buf) argv = firstn (Z.to_nat maxargs) (tokens (is_sep seps) line).
Proof.
  intros Hl. destruct (tok_loop_ok seps maxargs line (S (length (line ++ [0]))) [] [] [] []) as (buf & argv & E & HL & HM);
    try reflexivity; try assumption; try (intros x []).
  - rewrite app_length. lia.
  - constructor.
  - cbn [length]. lia.
  - discriminate.
  - exists buf, argv. split; [|split; assumption]. unfold tokenize. cbn [app nonempty length Nat.add] in E. rewrite <- E.
    destruct (tok_loop _ _ _ _ _ _ _) as [[[[b i] ins] av]| | |]; reflexivity.
Qed.

Lemma count_tok_ok seps rest : forall fuel pre cur k,
  no0 rest -> (length rest < fuel)%nat -> forallb (fun c => negb (is_sep seps c)) cur = true -> 0 <= k ->
  k + Z.of_nat (length rest) <= INT_MAX ->
  count_tok_loop fuel seps (pre ++ rest ++ [0]) (length pre) (nonempty cur) k =
  Ok (k + Z.of_nat (length (tokens (is_sep seps) (cur ++ rest))) - (if nonempty cur then 1 else 0)).
Proof.
  induction rest as [|c rest IH]; intros fuel pre cur k Hr Hf Hs Hk Hm; (destruct fuel as [|fuel]; [lia|]).
  - cbn [count_tok_loop app]. rewrite nth_error_mid. cbn [Z.eqb]. rewrite app_nil_r, tokens_end by exact Hs.
    destruct (nonempty cur); cbn [length]; f_equal; lia.
  - assert (Hc0 : c <> 0) by (apply Hr; left; reflexivity).
    assert (Hr' : no0 rest) by (intros x Hx; apply Hr; right; exact Hx).
    cbn [count_tok_loop app]. rewrite nth_error_mid. replace (c =? 0) with false by lia.
    assert (Epre : pre ++ c :: rest ++ [0] = (pre ++ [c]) ++ rest ++ [0]) by (rewrite <- app_assoc; reflexivity).
    assert (Elen : S (length pre) = length (pre ++ [c])) by (rewrite app_length; cbn; lia).
    cbn [length] in Hf, Hm. rewrite Epre, Elen. destruct (is_sep seps c) eqn:Es.
    + rewrite tokens_sep by assumption. change false with (nonempty []) at 1. rewrite IH by (try assumption; try reflexivity; lia).
      cbn [app nonempty]. rewrite app_length. destruct (nonempty cur); cbn [length]; f_equal; lia.
    + destruct (nonempty cur) eqn:En.
      * assert (En' : nonempty (cur ++ [c]) = true) by (destruct cur; reflexivity). rewrite <- En' at 1.
        rewrite IH by (try assumption; try lia; rewrite forallb_app, Hs; cbn; rewrite Es; reflexivity).
        rewrite En', <- app_assoc. reflexivity.
      * destruct cur; [|discriminate]. unfold iadd. rewrite chk_ok, bind_ok by (unfold INT_MIN in *; lia).
        change true with (nonempty [c]) at 1. rewrite IH by (try assumption; try lia; cbn; rewrite Es; reflexivity).
        cbn [app nonempty]. f_equal. lia.
Qed.
Lemma count_tokens_ok line seps : no0 line -> Z.of_nat (length line) <= INT_MAX ->
  count_tokens (line ++ [0]) seps = Ok (Z.of_nat (length (tokens (is_sep seps) line))).
Proof.
  intros Hl Hm. unfold count_tokens. change false with (nonempty []). change 0%nat with (@length Z []).
  change (line ++ [0]) with ([] ++ line ++ [0]). rewrite count_tok_ok; try assumption; try reflexivity; try lia.
  - cbn [nonempty app]. f_equal. lia.
  - cbn [app]. rewrite app_length. lia.
Qed.
Lemma tokens_concat sep l : concat (tokens sep l) = filter (fun c => negb (sep c)) l.
Proof.
  unfold tokens. assert (H : concat (filter nonempty (split_at sep l)) = concat (split_at sep l)).
  { induction (split_at sep l) as [|w ws IH]; [reflexivity|]. cbn [filter]. destruct w; cbn [nonempty concat]; rewrite <- IH; reflexivity. }
  rewrite H. clear H. induction l as [|c t IH]; [reflexivity|]. cbn [split_at filter]. destruct (sep c); cbn [negb].
  - cbn [concat app]. exact IH.
  - rewrite <- IH. destruct (split_at sep t) eqn:E; [exfalso; eapply split_nonnil; exact E|]. reflexivity.
Qed.
Lemma tokens_words sep l w : In w (tokens sep l) -> w <> [] /\ forall c, In c w -> sep c = false.
Proof.
  unfold tokens. rewrite filter_In. intros [H1 H2]. split; [destruct w; discriminate|]. clear H2. revert w H1.
  induction l as [|c t IH]; cbn [split_at]; intros w H.
  - destruct H as [<-|[]]. intros c [].
  - destruct (sep c) eqn:Es.
    + destruct H as [<-|H]; [intros x []|]. apply IH, H.
    + destruct (split_at sep t) as [|v vs].
      * destruct H as [<-|[]]. intros x [<-|[]]. exact Es.
      * destruct H as [<-|H]; [|apply IH; right; exact H]. intros x [<-|Hx]; [exact Es|]. apply (IH v); [left; reflexivity|exact Hx].
Qed.
Lemma tokens_sep' sep cur c rest : (forall x, In x cur -> sep x = false) -> sep c = true ->
  tokens sep (cur ++ c :: rest) = (if nonempty cur then [cur] else []) ++ tokens sep rest.
Proof. intros H Hc. apply tokens_sep; [|exact Hc]. apply forallb_forall. intros x Hx. rewrite H by exact Hx. reflexivity. Qed.
