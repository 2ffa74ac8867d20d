(* Bit vectors as packed arrays: every operation of the word model acts on the list of
   bits it represents. *)
From Verif Require Import Base MIntMath PIntMath2 MMisc PMisc MMat MBits.
Open Scope nat_scope.

Lemma foldM_seq_inv {B} (f : B -> nat -> res B) (Inv : nat -> B -> Prop) k : forall i b,
  (forall j b, i <= j < i + k -> Inv j b -> exists b', f b j = Ok b' /\ Inv (S j) b') ->
  Inv i b -> exists b', foldM f (seq i k) b = Ok b' /\ Inv (i + k) b'.
Proof.
  induction k as [|k IH]; intros i b Hf Hi; cbn [seq foldM].
  - exists b; rewrite Nat.add_0_r; auto.
  - destruct (Hf i b) as (b' & E & H); [lia|exact Hi|]. rewrite E, bind_ok.
    destruct (IH (S i) b') as (b'' & E' & H').
    + intros j c Hj; apply Hf; lia.
    + exact H.
    + exists b''; split; [exact E'|]. replace (i + S k) with (S i + k) by lia. exact H'.
Qed.

Lemma rdw_ok ws i : i < length ws -> rdw ws i = Ok (nth i ws 0%N).
Proof. intros H. unfold rdw. rewrite (nth_error_nth' ws 0%N H). reflexivity. Qed.
Lemma wrw_ok ws i w : i < length ws -> wrw ws i w = Ok (upd ws i w).
Proof. intros H. unfold wrw. destruct (Nat.ltb_spec i (length ws)); [reflexivity|lia]. Qed.

Lemma wloop_ok f g nw ws : nw <= length ws ->
  (forall i x, i < nw -> f i x = Ok (g i x)) ->
  exists ws', wloop f nw ws = Ok ws' /\ length ws' = length ws /\
    forall i, nth i ws' 0%N = if i <? nw then g i (nth i ws 0%N) else nth i ws 0%N.
Proof.
  intros Hn Hf. unfold wloop.
  destruct (foldM_seq_inv (fun d i => x <- rdw d i ;; w <- f i x ;; wrw d i w)
    (fun j d => length d = length ws /\
       forall i, nth i d 0%N = if i <? j then g i (nth i ws 0%N) else nth i ws 0%N) nw 0 ws)
    as (ws' & E & H1 & H2).
  - intros j d Hj [L Hd]. rewrite rdw_ok by lia. rewrite bind_ok, Hf by lia. rewrite bind_ok.
    rewrite wrw_ok by lia. eexists; split; [reflexivity|]. rewrite upd_length. split; [exact L|].
    intros i. rewrite upd_nth, !Hd.
    destruct (Nat.eqb_spec i j) as [->|N]; cbn [andb].
    + destruct (Nat.ltb_spec j (length d)); [|lia].
      rewrite Nat.ltb_irrefl. destruct (Nat.ltb_spec j (S j)); [reflexivity|lia].
    + destruct (Nat.ltb_spec i j), (Nat.ltb_spec i (S j)); try lia; reflexivity.
  - split; [reflexivity|]. intros i. destruct (Nat.ltb_spec i 0); [lia|reflexivity].
  - exists ws'; auto.
Qed.

(* ---------------------------------------------------------------- bit positions *)
Definition wbit (ws : list N) (i : nat) : bool := N.testbit (nth (i / 64) ws 0%N) (wpos i).

Definition B (v : bvec) (l : list bool) : Prop :=
  exists ws, bv_ptr v = Some ws /\ bv_n v = length l /\ 0 < length l /\
    bv_nw v = nwords (length l) /\ bv_nw v <= length ws /\
    (forall k, k < bv_nw v -> forall j, (64 <= j)%N -> N.testbit (nth k ws 0%N) j = false) /\
    (forall i, i < 64 * bv_nw v -> wbit ws i = nth i l false).

Lemma nwords_cover n i : i < n -> i / 64 < nwords n.
Proof.
  intros H. unfold nwords. apply Nat.div_lt_upper_bound; [lia|].
  pose proof (Nat.div_mod (n + 63) 64). pose proof (Nat.mod_upper_bound (n + 63) 64). lia.
Qed.
Lemma nwords_pos n : 0 < n -> 0 < nwords n.
Proof. intros H. pose proof (nwords_cover n 0 H). lia. Qed.
Lemma nwords_le n : n <= 64 * nwords n < n + 64.
Proof.
  unfold nwords. pose proof (Nat.div_mod (n + 63) 64). pose proof (Nat.mod_upper_bound (n + 63) 64). lia.
Qed.
Lemma nwords_mono n m : n <= m -> nwords n <= nwords m.
Proof. intros H. unfold nwords. apply Nat.div_le_mono; lia. Qed.

Lemma wpos_bound i : (wpos i <= 63)%N.
Proof. unfold wpos. lia. Qed.
Lemma wpos_inj i j : i / 64 = j / 64 -> wpos i = wpos j -> i = j.
Proof.
  intros H1 H2. unfold wpos in H2. apply Nat2N.inj in H2.
  pose proof (Nat.div_mod i 64). pose proof (Nat.div_mod j 64).
  pose proof (Nat.mod_upper_bound i 64). pose proof (Nat.mod_upper_bound j 64). lia.
Qed.
(* bit j of word k is position 64k + 63 - j *)
Lemma wbit_word ws k j : (j < 64)%N ->
  N.testbit (nth k ws 0%N) j = wbit ws (64 * k + (63 - N.to_nat j)).
Proof.
  intros H. unfold wbit, wpos.
  assert (E : (64 * k + (63 - N.to_nat j)) / 64 = k).
  { symmetry. apply (Nat.div_unique _ 64 k (63 - N.to_nat j)); lia. }
  assert (E' : (64 * k + (63 - N.to_nat j)) mod 64 = 63 - N.to_nat j).
  { symmetry. apply (Nat.mod_unique _ 64 k (63 - N.to_nat j)); lia. }
  rewrite E, E'. f_equal. lia.
Qed.

Lemma one_bit p j : N.testbit (N.shiftl 1 p) j = (j =? p)%N.
Proof.
  rewrite N.shiftl_1_l. destruct (N.eqb_spec j p) as [->|H].
  - apply N.pow2_bits_true.
  - apply N.pow2_bits_false. auto.
Qed.

Lemma get_bit_ok ws i : i / 64 < length ws ->
  GET_BIT ws i = Ok (N.b2n (wbit ws i)).
Proof.
  intros H. unfold GET_BIT. rewrite rdw_ok by exact H. rewrite bind_ok. f_equal.
  unfold wbit. change 1%N with (N.ones 1). rewrite N.land_ones.
  change (2 ^ 1)%N with 2%N. rewrite <- N.bit0_mod. rewrite N.shiftr_spec' . f_equal.
Qed.

(* a word update that changes exactly position i *)
Lemma upd_bit ws i w b : i / 64 < length ws ->
  (forall j, N.testbit w j = if (j =? wpos i)%N then b else N.testbit (nth (i / 64) ws 0%N) j) ->
  forall j, wbit (upd ws (i / 64) w) j = if j =? i then b else wbit ws j.
Proof.
  intros H Hw j. unfold wbit. rewrite upd_nth.
  destruct (Nat.ltb_spec (i / 64) (length ws)); [|lia]. rewrite andb_true_r.
  destruct (Nat.eqb_spec (j / 64) (i / 64)) as [E|E].
  - rewrite Hw. destruct (N.eqb_spec (wpos j) (wpos i)) as [E2|E2].
    + rewrite (wpos_inj j i E E2), Nat.eqb_refl. reflexivity.
    + destruct (Nat.eqb_spec j i) as [->|]; [congruence|]. rewrite E. reflexivity.
  - destruct (Nat.eqb_spec j i) as [->|]; [congruence|reflexivity].
Qed.

Lemma testbit_set w p j : N.testbit (N.lor w (N.shiftl 1 p)) j = if (j =? p)%N then true else N.testbit w j.
Proof. rewrite N.lor_spec, one_bit. destruct (j =? p)%N; [apply orb_true_r|apply orb_false_r]. Qed.
Lemma testbit_clear w p j : (forall j, (64 <= j)%N -> N.testbit w j = false) ->
  N.testbit (N.land w (N.lxor (N.ones 64) (N.shiftl 1 p))) j = if (j =? p)%N then false else N.testbit w j.
Proof.
  intros Hw. rewrite N.land_spec, N.lxor_spec, one_bit. destruct (N.ltb_spec j 64).
  - rewrite N.ones_spec_low by exact H. destruct (j =? p)%N; cbn; [apply andb_false_r|apply andb_true_r].
  - rewrite Hw by exact H. destruct (j =? p)%N; reflexivity.
Qed.
Lemma testbit_toggle w p j : N.testbit (N.lxor w (N.shiftl 1 p)) j = if (j =? p)%N then negb (N.testbit w j) else N.testbit w j.
Proof. rewrite N.lxor_spec, one_bit. destruct (j =? p)%N, (N.testbit w j); reflexivity. Qed.

Lemma bv_in_true v i : i < bv_n v -> bv_in v (Z.of_nat i) = true.
Proof. intros H. unfold bv_in. lia. Qed.
Lemma bv_in_false v z : (z < 0 \/ Z.of_nat (bv_n v) <= z)%Z -> bv_in v z = false.
Proof. intros H. unfold bv_in. lia. Qed.

Lemma B_len v l : B v l -> bv_n v = length l.
Proof. intros (ws & _ & H & _). exact H. Qed.

Lemma B_get v l i : B v l -> i < length l -> bv_get v (Z.of_nat i) = Ok (nth i l false).
Proof.
  intros (ws & P & Hn & _ & Hnw & Hle & Hhi & Hb) Hi. unfold bv_get.
  rewrite bv_in_true by lia. unfold deref. rewrite P, bind_ok, Nat2Z.id.
  pose proof (nwords_cover _ _ Hi). rewrite get_bit_ok by lia. rewrite bind_ok. f_equal.
  pose proof (nwords_le (length l)). rewrite Hb by lia. destruct (nth i l false); reflexivity.
Qed.
Lemma B_get_out v l z : B v l -> (z < 0 \/ Z.of_nat (length l) <= z)%Z -> bv_get v z = Exn.
Proof.
  intros H Hz. unfold bv_get. rewrite bv_in_false; [reflexivity|]. rewrite (B_len _ _ H). exact Hz.
Qed.

(* one word replaced, one position changed *)
Lemma B_upd_word v l i w b : B v l -> i < length l ->
  (forall j, N.testbit w j = if (j =? wpos i)%N then b else N.testbit (nth (i / 64) (words_of v) 0%N) j) ->
  B (mkbv (Some (upd (words_of v) (i / 64) w)) (bv_nw v) (bv_n v)) (upd l i b).
Proof.
  intros (ws & P & Hn & Hpos & Hnw & Hle & Hhi & Hb) Hi Hw. unfold words_of in *. rewrite P in *.
  exists (upd ws (i / 64) w). cbn [bv_ptr bv_n bv_nw]. rewrite !upd_length.
  pose proof (nwords_cover _ _ Hi).
  repeat (split; [first [reflexivity|assumption]|]). split.
  - intros k Hk j Hj. rewrite upd_nth. destruct (_ && _) eqn:E; [|apply Hhi; assumption].
    rewrite Hw. destruct (N.eqb_spec j (wpos i)) as [->|].
    + pose proof (wpos_bound i). lia.
    + apply Hhi; [|exact Hj]. lia.
  - intros j Hj. rewrite (upd_bit ws i w b) by (try exact Hw; lia). rewrite upd_nth.
    destruct (Nat.eqb_spec j i) as [->|]; cbn [andb].
    + destruct (Nat.ltb_spec i (length l)); [reflexivity|lia].
    + apply Hb. exact Hj.
Qed.

Lemma B_words v l : B v l -> bv_ptr v = Some (words_of v) /\ bv_nw v = nwords (length l) /\
  bv_nw v <= length (words_of v) /\ 0 < length l /\
  (forall k, k < bv_nw v -> forall j, (64 <= j)%N -> N.testbit (nth k (words_of v) 0%N) j = false) /\
  (forall i, i < 64 * bv_nw v -> wbit (words_of v) i = nth i l false).
Proof.
  intros (ws & P & Hn & Hpos & Hnw & Hle & Hhi & Hb). unfold words_of. rewrite P. auto 10.
Qed.

Lemma B_deref v l : B v l -> deref v = Ok (words_of v).
Proof. intros H. apply B_words in H. destruct H as [P _]. unfold deref. rewrite P. reflexivity. Qed.

Lemma B_set v l i b : B v l -> i < length l ->
  exists v', bv_set v (Z.of_nat i) b = Ok v' /\ B v' (upd l i b).
Proof.
  intros H Hi. pose proof (B_words _ _ H) as (P & Hnw & Hle & Hpos & Hhi & Hb).
  pose proof (nwords_cover _ _ Hi).
  unfold bv_set. rewrite bv_in_true by (rewrite (B_len _ _ H); exact Hi).
  rewrite (B_deref _ _ H), bind_ok, Nat2Z.id.
  destruct b; unfold SET_BIT, CLEAR_BIT; rewrite rdw_ok by lia; rewrite bind_ok, wrw_ok by lia; rewrite bind_ok;
    eexists; (split; [reflexivity|]); apply B_upd_word; try assumption.
  - intros j. apply testbit_set.
  - intros j. apply testbit_clear. apply Hhi. lia.
Qed.
Lemma B_set_out v l z b : B v l -> (z < 0 \/ Z.of_nat (length l) <= z)%Z -> bv_set v z b = Exn.
Proof.
  intros H Hz. unfold bv_set. rewrite bv_in_false; [reflexivity|]. rewrite (B_len _ _ H). exact Hz.
Qed.
Lemma B_toggle v l i : B v l -> i < length l ->
  exists v', bv_toggle v (Z.of_nat i) = Ok v' /\ B v' (upd l i (negb (nth i l false))).
Proof.
  intros H Hi. pose proof (B_words _ _ H) as (P & Hnw & Hle & Hpos & Hhi & Hb).
  pose proof (nwords_cover _ _ Hi). pose proof (nwords_le (length l)).
  unfold bv_toggle. rewrite bv_in_true by (rewrite (B_len _ _ H); exact Hi).
  rewrite (B_deref _ _ H), bind_ok, Nat2Z.id.
  unfold TOGGLE_BIT; rewrite rdw_ok by lia; rewrite bind_ok, wrw_ok by lia; rewrite bind_ok.
  eexists; (split; [reflexivity|]); apply B_upd_word; try assumption.
  intros j. rewrite testbit_toggle. destruct (N.eqb_spec j (wpos i)) as [->|]; [|reflexivity].
  rewrite <- (Hb i) by lia. reflexivity.
Qed.
Lemma B_toggle_out v l z : B v l -> (z < 0 \/ Z.of_nat (length l) <= z)%Z -> bv_toggle v z = Exn.
Proof.
  intros H Hz. unfold bv_toggle. rewrite bv_in_false; [reflexivity|]. rewrite (B_len _ _ H). exact Hz.
Qed.

(* ---------------------------------------------------------------- construction *)
Lemma nth_repeat_all {A} (x : A) n i d : nth i (repeat x n) d = if i <? n then x else d.
Proof.
  destruct (Nat.ltb_spec i n).
  - rewrite (nth_indep _ d x) by (rewrite repeat_length; exact H). apply nth_repeat.
  - apply nth_overflow. rewrite repeat_length. exact H.
Qed.
Lemma B_zero_words n ws nw : 0 < n -> nw = nwords n -> nw <= length ws ->
  (forall k, k < nw -> nth k ws 0%N = 0%N) -> B (mkbv (Some ws) nw n) (repeat false n).
Proof.
  intros Hn Hnw Hle Hz. exists ws. cbn [bv_ptr bv_n bv_nw]. rewrite repeat_length.
  repeat (split; [first [reflexivity|assumption]|]). split.
  - intros k Hk j Hj. rewrite Hz by exact Hk. apply N.bits_0.
  - intros i Hi. unfold wbit. rewrite Hz, N.bits_0.
    + rewrite nth_repeat_all. destruct (i <? n); reflexivity.
    + apply Nat.div_lt_upper_bound; lia.
Qed.
Lemma B_new n : 0 < n -> exists v, bv_new n = Ok v /\ B v (repeat false n).
Proof.
  intros Hn. unfold bv_new. destruct (Nat.eqb_spec n 0); [lia|]. eexists; split; [reflexivity|].
  apply B_zero_words; try rewrite repeat_length; auto.
  intros k _. rewrite nth_repeat_all. destruct (_ <? _); reflexivity.
Qed.
(* filling with zeros is right whatever mask trim computes *)
Lemma B_fill0 m n : 0 < n -> exists v, bv_fill (Some m) false n = Ok v /\ B v (repeat false n).
Proof.
  intros Hn. unfold bv_fill. destruct (Nat.eqb_spec n 0); [lia|].
  unfold bv_trim, deref. cbn [bv_nw bv_n bv_ptr]. pose proof (nwords_pos n Hn).
  destruct (_ =? _).
  - eexists; split; [reflexivity|]. apply B_zero_words; try rewrite repeat_length; auto.
    intros k _. cbn. rewrite nth_repeat_all. destruct (_ <? _); reflexivity.
  - rewrite bind_ok, rdw_ok by (rewrite repeat_length; lia). rewrite bind_ok.
    rewrite wrw_ok by (rewrite repeat_length; lia). rewrite bind_ok.
    eexists; split; [reflexivity|]. apply B_zero_words; try rewrite upd_length, repeat_length; auto.
    intros k _. cbn [fill_word]. rewrite upd_nth, !nth_repeat_all.
    repeat match goal with |- context [if ?c then _ else _] => destruct c end; reflexivity.
Qed.
(* the strict reading: constructing a constant vector is UB unless 64 divides n *)
Lemma fill_ub b n : 0 < n -> n mod 64 <> 0 -> bv_fill None b n = UB.
Proof.
  intros Hn Hm. unfold bv_fill. destruct (Nat.eqb_spec n 0); [lia|].
  unfold bv_trim, deref. cbn [bv_nw bv_n bv_ptr].
  destruct (Nat.eqb_spec (nwords n * 64) n) as [E|]; [|reflexivity].
  exfalso. apply Hm. rewrite <- E. apply Nat.mod_mul. lia.
Qed.
Lemma B_fill_mult tm b n : 0 < n -> n mod 64 = 0 ->
  exists v, bv_fill tm b n = Ok v /\ B v (repeat b n).
Proof.
  intros Hn Hm. unfold bv_fill. destruct (Nat.eqb_spec n 0); [lia|].
  assert (E : nwords n * 64 = n).
  { unfold nwords. lia. }
  unfold bv_trim. cbn [bv_nw bv_n]. rewrite E, Nat.eqb_refl. eexists; split; [reflexivity|].
  exists (repeat (fill_word b) (nwords n)). cbn [bv_ptr bv_n bv_nw]. rewrite !repeat_length.
  repeat (split; [first [reflexivity|assumption]|]). split.
  - intros k Hk j Hj. rewrite nth_repeat_all. destruct (Nat.ltb_spec k (nwords n)); [|lia].
    destruct b; cbn [fill_word]; [apply N.ones_spec_high; exact Hj|apply N.bits_0].
  - intros i Hi. unfold wbit. rewrite !nth_repeat_all.
    destruct (Nat.ltb_spec i n); [|lia].
    destruct (Nat.ltb_spec (i / 64) (nwords n)) as [|H'].
    2:{ pose proof (nwords_cover n i). lia. }
    destruct b; cbn [fill_word]; [apply N.ones_spec_low; pose proof (wpos_bound i); lia|apply N.bits_0].
Qed.

(* ---------------------------------------------------------------- copy and assignment *)
Lemma nth_firstn_all {A} (l : list A) n i d : nth i (firstn n l) d = if i <? n then nth i l d else d.
Proof.
  revert n i; induction l as [|x l IH]; intros [|n] [|i]; cbn [nth firstn]; auto.
  - destruct (S i <? S n); reflexivity.
  - rewrite IH. reflexivity.
Qed.
Lemma B_same_words v l nw' ws' : B v l -> nw' = bv_nw v -> nw' <= length ws' ->
  (forall k, k < nw' -> nth k ws' 0%N = nth k (words_of v) 0%N) ->
  B (mkbv (Some ws') nw' (bv_n v)) l.
Proof.
  intros H -> Hle Hw. pose proof (B_len _ _ H) as Hn.
  pose proof (B_words _ _ H) as (P & Hnw & Hle' & Hpos & Hhi & Hb).
  exists ws'. cbn [bv_ptr bv_n bv_nw]. repeat (split; [first [reflexivity|assumption]|]). split.
  - intros k Hk j Hj. rewrite Hw by exact Hk. apply Hhi; assumption.
  - intros i Hi. rewrite <- Hb by exact Hi. unfold wbit. rewrite Hw; [reflexivity|].
    apply Nat.div_lt_upper_bound; lia.
Qed.
Lemma B_copy v l : B v l -> exists v', bv_copy v = Ok v' /\ B v' l.
Proof.
  intros H. pose proof (B_words _ _ H) as (P & Hnw & Hle & Hpos & Hhi & Hb).
  unfold bv_copy. rewrite (B_deref _ _ H), bind_ok. destruct (Nat.leb_spec (bv_nw v) (length (words_of v))); [|lia].
  eexists; split; [reflexivity|]. apply B_same_words; auto.
  - rewrite firstn_length. lia.
  - intros k Hk. rewrite nth_firstn_all. destruct (Nat.ltb_spec k (bv_nw v)); [reflexivity|lia].
Qed.
Lemma B_assign_null v l : B v l -> exists v', bv_assign bv_null v = Ok v' /\ B v' l.
Proof. exact (B_copy v l). Qed.
Lemma B_assign u l0 v l : B u l0 -> B v l -> nwords (length l) <= nwords (length l0) ->
  exists v', bv_assign u v = Ok v' /\ B v' l.
Proof.
  intros Hu H Hc. pose proof (B_words _ _ H) as (P & Hnw & Hle & Hpos & Hhi & Hb).
  pose proof (B_words _ _ Hu) as (Pu & Hnwu & Hleu & _ & _ & _).
  unfold bv_assign. rewrite Pu, (B_deref _ _ H), bind_ok.
  destruct (Nat.leb_spec (bv_nw v) (length (words_of v))); [|lia].
  destruct (Nat.leb_spec (bv_nw v) (length (words_of u))); [|lia]. cbn [andb].
  eexists; split; [reflexivity|]. apply B_same_words; auto.
  - rewrite app_length, firstn_length. lia.
  - intros k Hk. rewrite app_nth1 by (rewrite firstn_length; lia).
    rewrite nth_firstn_all. destruct (Nat.ltb_spec k (bv_nw v)); [reflexivity|lia].
Qed.
Lemma assign_overrun u v : bv_ptr u <> None -> bv_ptr v <> None ->
  length (words_of u) < bv_nw v -> bv_assign u v = UB.
Proof.
  intros Hu Hv Hl. unfold bv_assign, deref, words_of in *.
  destruct (bv_ptr u) as [wu|]; [|congruence]. destruct (bv_ptr v) as [wv|]; [|congruence].
  rewrite bind_ok. destruct (Nat.leb_spec (bv_nw v) (length wu)); [lia|].
  rewrite andb_false_r. reflexivity.
Qed.

(* ---------------------------------------------------------------- word-wise arithmetic *)
Definition map2b (f : bool -> bool -> bool) (l l' : list bool) : list bool :=
  map (fun p => f (fst p) (snd p)) (combine l l').
Lemma map2b_length f l l' : length l = length l' -> length (map2b f l l') = length l.
Proof. intros H. unfold map2b. rewrite map_length, combine_length. lia. Qed.
Lemma map2b_nth f l l' i : f false false = false -> length l = length l' ->
  nth i (map2b f l l') false = f (nth i l false) (nth i l' false).
Proof.
  intros Hf. unfold map2b. revert l' i; induction l as [|x l IH]; intros [|y l'] i H; try discriminate H.
  - destruct i; cbn; auto.
  - destruct i; cbn; [reflexivity|]. apply IH. injection H; auto.
Qed.

Definition wordop (f : N -> N -> N) (g : bool -> bool -> bool) : Prop :=
  g false false = false /\ forall a b j, N.testbit (f a b) j = g (N.testbit a j) (N.testbit b j).
Lemma wordop_xor : wordop N.lxor xorb.
Proof. split; [reflexivity|]. intros; apply N.lxor_spec. Qed.
Lemma wordop_and : wordop N.land andb.
Proof. split; [reflexivity|]. intros; apply N.land_spec. Qed.

Lemma B_wcomb f g v l u l' d : wordop f g -> B v l -> B u l' -> length l = length l' ->
  nwords (length l) <= length d ->
  exists ws, wcomb f (bv_nw v) (words_of v) (words_of u) d = Ok ws /\ length ws = length d /\
    B (mkbv (Some ws) (nwords (length l)) (length l)) (map2b g l l').
Proof.
  intros [Hg Hf] Hv Hu Hl Hd.
  pose proof (B_words _ _ Hv) as (P & Hnw & Hle & Hpos & Hhi & Hb).
  pose proof (B_words _ _ Hu) as (Pu & Hnwu & Hleu & Hposu & Hhiu & Hbu).
  rewrite <- Hl in *.
  unfold wcomb.
  destruct (wloop_ok (fun i _ => x <- rdw (words_of v) i ;; y <- rdw (words_of u) i ;; Ok (f x y))
    (fun i _ => f (nth i (words_of v) 0%N) (nth i (words_of u) 0%N)) (bv_nw v) d) as (ws & E & L & H).
  - lia.
  - intros i x Hi. rewrite !rdw_ok by lia. reflexivity.
  - exists ws. split; [exact E|]. split; [exact L|].
    exists ws. cbn [bv_ptr bv_n bv_nw]. rewrite map2b_length by exact Hl.
    repeat (split; [first [reflexivity|assumption|lia]|]). split.
    + intros k Hk j Hj. rewrite H. destruct (Nat.ltb_spec k (bv_nw v)); [|lia].
      rewrite Hf, Hhi, Hhiu by (try exact Hj; lia). exact Hg.
    + intros i Hi. unfold wbit. rewrite H.
      destruct (Nat.ltb_spec (i / 64) (bv_nw v)) as [|H'].
      2:{ assert (i / 64 < nwords (length l)) by (apply Nat.div_lt_upper_bound; lia). lia. }
      rewrite Hf, map2b_nth by (try exact Hg; exact Hl).
      rewrite <- Hb, <- Hbu by lia. reflexivity.
Qed.

Lemma B_comb f g v l u l' : wordop f g -> B v l -> B u l' -> length l = length l' ->
  exists w, bv_comb f v u = Ok w /\ B w (map2b g l l').
Proof.
  intros Hf Hv Hu Hl. unfold bv_comb. rewrite (B_len _ _ Hv), (B_len _ _ Hu), Hl, Nat.eqb_refl.
  pose proof (B_words _ _ Hv) as (_ & _ & _ & Hpos & _).
  unfold bv_new. destruct (Nat.eqb_spec (length l') 0); [lia|]. rewrite bind_ok.
  unfold deref. cbn [bv_ptr]. rewrite bind_ok.
  destruct (B_wcomb f g v l u l' (repeat 0%N (nwords (length l'))) Hf Hv Hu Hl) as (ws & E & _ & H).
  - rewrite repeat_length, Hl. lia.
  - rewrite E, bind_ok. eexists; split; [reflexivity|]. cbn [bv_nw bv_n]. rewrite <- Hl. exact H.
Qed.
Lemma comb_len f v l u l' : B v l -> B u l' -> length l <> length l' -> bv_comb f v u = Exn.
Proof.
  intros Hv Hu Hl. unfold bv_comb. rewrite (B_len _ _ Hv), (B_len _ _ Hu).
  destruct (Nat.eqb_spec (length l) (length l')); [contradiction|reflexivity].
Qed.
Lemma B_xor_in v l u l' : B v l -> B u l' -> length l = length l' ->
  exists w, bv_xor_in v u = Ok w /\ B w (map2b xorb l l').
Proof.
  intros Hv Hu Hl. unfold bv_xor_in.
  pose proof (B_words _ _ Hv) as (P & Hnw & Hle & _).
  destruct (B_wcomb N.lxor xorb v l u l' (words_of v) wordop_xor Hv Hu Hl) as (ws & E & _ & H).
  - lia.
  - rewrite E, bind_ok, P. eexists; split; [reflexivity|]. rewrite Hnw, (B_len _ _ Hv). exact H.
Qed.
Lemma B_accum v l u l' : B v l -> B u l' -> length l = length l' ->
  exists w, bv_accum_row v u = Ok w /\ B w (map2b xorb l l').
Proof.
  intros Hv Hu Hl. unfold bv_accum_row. rewrite (B_len _ _ Hv), (B_len _ _ Hu), Hl, Nat.eqb_refl.
  apply B_xor_in; assumption.
Qed.
Lemma B_and_in v l u l' : B v l -> B u l' -> length l = length l' ->
  exists w, bv_and_in v u = Ok w /\ B w (map2b andb l l').
Proof.
  intros Hv Hu Hl. unfold bv_and_in. rewrite (B_len _ _ Hv), (B_len _ _ Hu), Hl, Nat.eqb_refl.
  pose proof (B_words _ _ Hv) as (P & Hnw & Hle & _).
  destruct (B_wcomb N.land andb v l u l' (words_of v) wordop_and Hv Hu Hl) as (ws & E & _ & H).
  - lia.
  - rewrite E, bind_ok, P. eexists; split; [reflexivity|]. rewrite Hnw, <- Hl. exact H.
Qed.
Lemma B_scale v l b : B v l -> exists w, bv_scale v b = Ok w /\ B w (map (fun x => andb x b) l).
Proof.
  intros H. unfold bv_scale. destruct (B_copy v l H) as (c & E & Hc). rewrite E, bind_ok.
  destruct b.
  - exists c; split; [reflexivity|]. rewrite (map_ext _ (fun x => x)), map_id; [exact Hc|].
    intros x; apply andb_true_r.
  - pose proof (B_words _ _ Hc) as (P & Hnw & Hle & Hpos & _).
    rewrite (B_deref _ _ Hc), bind_ok.
    destruct (wloop_ok (fun _ _ => Ok 0%N) (fun _ _ => 0%N) (bv_nw c) (words_of c) Hle) as (ws & Ew & L & Hw).
    { intros; reflexivity. }
    rewrite Ew, bind_ok. eexists; split; [reflexivity|].
    rewrite (map_ext _ (fun _ => false)) by (intros x; apply andb_false_r).
    replace (map (fun _ : bool => false) l) with (repeat false (length l)).
    + rewrite (B_len _ _ Hc). apply B_zero_words; [exact Hpos|exact Hnw|lia|].
      intros k Hk. rewrite Hw. destruct (Nat.ltb_spec k (bv_nw c)); [reflexivity|lia].
    + clear. induction l as [|x l IH]; cbn; [reflexivity|]. rewrite IH. reflexivity.
Qed.

(* ---------------------------------------------------------------- zero test and leader *)
Lemma find_word_ok nw ws : forall i, i + nw <= length ws ->
  exists r, find_word nw ws i = Ok r /\
    match r with
    | None => forall k, i <= k < i + nw -> nth k ws 0%N = 0%N
    | Some (k, w) => i <= k < i + nw /\ w = nth k ws 0%N /\ w <> 0%N /\
                     forall k', i <= k' < k -> nth k' ws 0%N = 0%N
    end.
Proof.
  induction nw as [|nw IH]; intros i H; cbn [find_word].
  - exists None; split; [reflexivity|]. intros k Hk; lia.
  - rewrite rdw_ok by lia. rewrite bind_ok. destruct (N.eqb_spec (nth i ws 0%N) 0) as [E|E].
    + destruct (IH (S i)) as (r & Er & Hr); [lia|]. exists r; split; [exact Er|].
      destruct r as [[k w]|].
      * destruct Hr as (H1 & H2 & H3 & H4). split; [lia|]. split; [exact H2|]. split; [exact H3|].
        intros k' Hk'. destruct (Nat.eq_dec k' i) as [->|]; [exact E|apply H4; lia].
      * intros k Hk. destruct (Nat.eq_dec k i) as [->|]; [exact E|apply Hr; lia].
    + exists (Some (i, nth i ws 0%N)); split; [reflexivity|]. split; [lia|]. split; [reflexivity|]. split; [exact E|].
      intros; lia.
Qed.

(* index of the first set bit *)
Fixpoint first_true (l : list bool) : option nat :=
  match l with
  | [] => None
  | true :: _ => Some 0
  | false :: t => option_map S (first_true t)
  end.
Lemma first_true_some l i : i < length l -> nth i l false = true ->
  (forall j, j < i -> nth j l false = false) -> first_true l = Some i.
Proof.
  revert i; induction l as [|x l IH]; intros [|i] Hl Hi Hj; cbn in *; try lia.
  - rewrite Hi. reflexivity.
  - pose proof (Hj 0 ltac:(lia)) as H0. cbn in H0. rewrite H0. rewrite (IH i); [reflexivity|lia|exact Hi|].
    intros j Hlt. apply (Hj (S j)). lia.
Qed.
Lemma first_true_none l : (forall j, nth j l false = false) -> first_true l = None.
Proof.
  induction l as [|x l IH]; intros H; [reflexivity|]. cbn. pose proof (H 0) as H0; cbn in H0. rewrite H0.
  rewrite IH; [reflexivity|]. intros j; apply (H (S j)).
Qed.
Lemma first_true_none_inv l : first_true l = None -> forall j, nth j l false = false.
Proof.
  induction l as [|x l IH]; intros H j; [destruct j; reflexivity|]. cbn in H.
  destruct x; [discriminate|]. destruct j; [reflexivity|]. cbn. apply IH.
  destruct (first_true l); [discriminate|reflexivity].
Qed.
Lemma first_true_lt l i : first_true l = Some i -> i < length l.
Proof.
  revert i; induction l as [|x l IH]; intros i H; [discriminate|]. cbn in *. destruct x.
  - injection H as <-. lia.
  - destruct (first_true l); [|discriminate]. injection H as <-. specialize (IH n eq_refl). lia.
Qed.

Lemma nth_beyond l i : length l <= i -> nth i l false = false.
Proof. apply nth_overflow. Qed.

Lemma word_zero_bits ws l nw k : (forall i, i < 64 * nw -> wbit ws i = nth i l false) ->
  k < nw -> nth k ws 0%N = 0%N -> forall i, i / 64 = k -> nth i l false = false.
Proof.
  intros Hb Hk Hz i Hi. rewrite <- Hb.
  - unfold wbit. rewrite Hi, Hz. apply N.bits_0.
  - pose proof (Nat.div_mod i 64). pose proof (Nat.mod_upper_bound i 64). lia.
Qed.

Lemma log2_lt64 w : w <> 0%N -> (forall j, (64 <= j)%N -> N.testbit w j = false) -> (N.log2 w < 64)%N.
Proof.
  intros Hw Hh. destruct (N.lt_ge_cases (N.log2 w) 64) as [|H]; [assumption|].
  pose proof (N.bit_log2 w Hw). rewrite Hh in H0 by exact H. discriminate.
Qed.

Lemma B_leader v l : B v l -> bv_find_leader_pos v = Ok (first_true l).
Proof.
  intros H. pose proof (B_words _ _ H) as (P & Hnw & Hle & Hpos & Hhi & Hb).
  pose proof (nwords_le (length l)) as Hcov.
  unfold bv_find_leader_pos.
  destruct (find_word_ok (bv_nw v) (words_of v) 0) as (r & E & Hr); [lia|].
  rewrite E, bind_ok. destruct r as [[k w]|].
  - destruct Hr as (H1 & -> & H3 & H4). set (w := nth k (words_of v) 0%N) in *.
    assert (Hh : forall j, (64 <= j)%N -> N.testbit w j = false) by (apply Hhi; lia).
    pose proof (log2_lt64 w H3 Hh) as Hlog.
    assert (Hwb : (0 < Z.of_N w < 2 ^ 64)%Z).
    { split; [lia|]. change (2 ^ 64)%Z with (Z.of_N (2 ^ 64)). apply N2Z.inj_lt.
      apply N.log2_lt_pow2; [lia|exact Hlog]. }
    rewrite find_msb_64_ok by exact Hwb. rewrite bind_ok. f_equal. symmetry.
    assert (Hz : Z.log2 (Z.of_N w) = Z.of_N (N.log2 w)).
    { destruct w as [|q]; [lia|]. destruct q; reflexivity. }
    rewrite Hz. set (p := N.log2 w) in *.
    replace (Z.to_nat (63 - Z.of_N p)) with (63 - N.to_nat p) by lia.
    assert (Hbit : nth (63 - N.to_nat p + k * 64) l false = true).
    { rewrite <- Hb by lia. replace (63 - N.to_nat p + k * 64) with (64 * k + (63 - N.to_nat p)) by lia.
      rewrite <- wbit_word by exact Hlog. apply N.bit_log2. exact H3. }
    apply first_true_some.
    + destruct (Nat.lt_ge_cases (63 - N.to_nat p + k * 64) (length l)) as [|G]; [assumption|].
      rewrite nth_beyond in Hbit by exact G. discriminate.
    + exact Hbit.
    + intros j Hj. destruct (Nat.lt_ge_cases (j / 64) k) as [Hq|Hq].
      * apply (word_zero_bits (words_of v) l (bv_nw v) (j / 64)); auto; [lia|]. apply H4. lia.
      * assert (Hq' : j / 64 = k).
        { assert (j / 64 < S k) by (apply Nat.div_lt_upper_bound; lia). lia. }
        pose proof (Nat.div_mod j 64). pose proof (Nat.mod_upper_bound j 64).
        rewrite <- Hb by lia. unfold wbit. rewrite Hq'. fold w. apply N.bits_above_log2.
        fold p. unfold wpos. lia.
  - f_equal. symmetry. apply first_true_none. intros j.
    destruct (Nat.lt_ge_cases j (length l)) as [Hj|Hj]; [|apply nth_beyond; exact Hj].
    pose proof (nwords_cover _ _ Hj).
    apply (word_zero_bits (words_of v) l (bv_nw v) (j / 64)); auto; [lia|]. apply Hr. lia.
Qed.

Lemma B_is_zero v l : B v l -> bv_is_zero v = Ok (match first_true l with None => true | Some _ => false end).
Proof.
  intros H. pose proof (B_leader v l H) as HL. pose proof (B_words _ _ H) as (P & Hnw & Hle & _).
  unfold bv_find_leader_pos, bv_is_zero in *.
  destruct (find_word_ok (bv_nw v) (words_of v) 0) as (r & E & Hr); [lia|].
  rewrite E in HL |- *. cbn [bind] in HL |- *. destruct r as [[k w]|].
  - destruct (find_msb_64 (Z.of_N w)) as [z| | |]; try discriminate. cbn [bind] in HL.
    injection HL as <-. reflexivity.
  - injection HL as <-. reflexivity.
Qed.

(* ---------------------------------------------------------------- inner product *)
Definition xsum (l : list bool) : bool := fold_right xorb false l.
Lemma xsum_app l l' : xsum (l ++ l') = xorb (xsum l) (xsum l').
Proof.
  induction l as [|x l IH]; cbn [app xsum fold_right].
  - rewrite xorb_false_l. reflexivity.
  - unfold xsum in IH. rewrite IH, xorb_assoc. reflexivity.
Qed.
Lemma xsum_rev l : xsum (rev l) = xsum l.
Proof. induction l as [|x l IH]; [reflexivity|]. cbn [rev]. rewrite xsum_app, IH. cbn. rewrite xorb_false_r. apply xorb_comm. Qed.
Lemma xsum_repeat_false n : xsum (repeat false n) = false.
Proof. induction n as [|n IH]; [reflexivity|]. unfold xsum in *. cbn [repeat fold_right]. rewrite IH. reflexivity. Qed.

Lemma odd_filter {A} (f : A -> bool) l : Z.odd (Z.of_nat (length (filter f l))) = xsum (map f l).
Proof.
  induction l as [|x l IH]; [reflexivity|]. cbn [filter map xsum fold_right]. destruct (f x); cbn [length].
  - rewrite Nat2Z.inj_succ, Z.odd_succ, <- Z.negb_odd, IH. unfold xsum. destruct (fold_right _ _ _); reflexivity.
  - rewrite IH. unfold xsum. destruct (fold_right _ _ _); reflexivity.
Qed.
Lemma odd_weight l : Z.odd (weight l) = xsum (map (fun b => Z.odd (byte_weight b)) l).
Proof.
  induction l as [|b l IH]; [reflexivity|]. cbn [weight fold_right map xsum].
  unfold weight in IH. rewrite Z.odd_add, IH. reflexivity.
Qed.
Lemma byte_testbit w k i : (i < 8)%nat ->
  Z.testbit (Z.of_N (N.land (N.shiftr w (8 * N.of_nat k)) 255)) (Z.of_nat i) = N.testbit w (N.of_nat (8 * k + i)).
Proof.
  intros H. rewrite <- nat_N_Z, Z.testbit_of_N, N.land_spec, N.shiftr_spec'.
  change 255%N with (N.ones 8). rewrite N.ones_spec_low by lia. rewrite andb_true_r. f_equal. lia.
Qed.
Definition wpar (w : N) : bool := xsum (map (fun i => N.testbit w (wpos i)) (seq 0 64)).
Lemma xsum_concat (ll : list (list bool)) : xsum (map xsum ll) = xsum (concat ll).
Proof. induction ll as [|l ll IH]; [reflexivity|]. cbn [map concat]. rewrite xsum_app, <- IH. reflexivity. Qed.
Lemma odd_popcount w : Z.odd (weight (bytes64 w)) = wpar w.
Proof.
  rewrite odd_weight. unfold bytes64. rewrite map_map.
  rewrite (map_ext_in _ (fun k => xsum (map (fun i => N.testbit w (N.of_nat (8 * k + i))) (seq 0 8)))).
  2:{ intros k _. unfold byte_weight. rewrite odd_filter. f_equal. apply map_ext_in. intros i Hi.
      apply byte_testbit. apply in_seq in Hi. lia. }
  rewrite <- (map_map (fun k => map (fun i => N.testbit w (N.of_nat (8 * k + i))) (seq 0 8)) xsum).
  rewrite xsum_concat. unfold wpar. rewrite <- xsum_rev. f_equal.
Qed.
Lemma wpar_lxor a b : wpar (N.lxor a b) = xorb (wpar a) (wpar b).
Proof.
  unfold wpar. induction (seq 0 64) as [|i l IH]; [reflexivity|]. cbn [map xsum fold_right].
  unfold xsum in IH. rewrite IH, N.lxor_spec.
  destruct (N.testbit a _), (N.testbit b _), (fold_right xorb false (map (fun i => N.testbit a (wpos i)) l)),
    (fold_right xorb false (map (fun i => N.testbit b (wpos i)) l)); reflexivity.
Qed.
Lemma xsum_nth_seq l n : length l <= n -> xsum (map (fun i => nth i l false) (seq 0 n)) = xsum l.
Proof.
  intros H. replace n with (length l + (n - length l)) by lia. rewrite seq_app, map_app, xsum_app.
  assert (E1 : map (fun i => nth i l false) (seq 0 (length l)) = l).
  { clear. induction l as [|x l IH]; [reflexivity|]. cbn [length seq map nth]. f_equal.
    rewrite <- seq_shift, map_map. exact IH. }
  assert (E2 : map (fun i => nth i l false) (seq (0 + length l) (n - length l)) = repeat false (n - length l)).
  { generalize (n - length l). intros k. apply (nth_ext _ _ false false).
    - rewrite map_length, seq_length, repeat_length. reflexivity.
    - intros i Hi. rewrite map_length, seq_length in Hi.
      rewrite (nth_indep _ false (nth 0 l false)) by (rewrite map_length, seq_length; exact Hi).
      rewrite (map_nth (fun i => nth i l false) (seq (0 + length l) k) 0 i). rewrite seq_nth by exact Hi.
      rewrite nth_beyond by lia. rewrite nth_repeat_all. destruct (_ <? _); reflexivity. }
  rewrite E1, E2, xsum_repeat_false, xorb_false_r. reflexivity.
Qed.

Lemma map_add_seq a n : forall b, map (fun i => a + i) (seq b n) = seq (a + b) n.
Proof.
  induction n as [|n IH]; intros b; [reflexivity|]. cbn [seq map]. f_equal.
  rewrite IH, Nat.add_succ_r. reflexivity.
Qed.
Definition dotb (l l' : list bool) : bool := xsum (map2b andb l l').

Lemma bytes64_range w b : In b (bytes64 w) -> (0 <= b < 256)%Z.
Proof.
  intros H. apply in_map_iff in H. destruct H as (k & <- & _). split; [lia|].
  change 255%N with (N.ones 8). rewrite N.land_ones. change (2 ^ 8)%N with 256%N.
  pose proof (N.mod_upper_bound (N.shiftr w (8 * N.of_nat k)) 256). lia.
Qed.
Lemma B_dot v l u l' : B v l -> B u l' -> length l = length l' -> bv_dot v u = Ok (dotb l l').
Proof.
  intros Hv Hu Hl.
  pose proof (B_words _ _ Hv) as (P & Hnw & Hle & Hpos & Hhi & Hb).
  pose proof (B_words _ _ Hu) as (Pu & Hnwu & Hleu & Hposu & Hhiu & Hbu).
  assert (Hnwe : bv_nw u = bv_nw v) by congruence.
  unfold bv_dot. rewrite (B_len _ _ Hv), (B_len _ _ Hu), Hl, Nat.eqb_refl.
  destruct (foldM_seq_inv (fun acc i => x <- rdw (words_of v) i ;; y <- rdw (words_of u) i ;;
                                 Ok (N.lxor acc (N.land x y)))
     (fun k acc => wpar acc = xsum (map (fun i => nth i (map2b andb l l') false) (seq 0 (64 * k))))
     (bv_nw v) 0 0%N) as (acc & E & H).
  - intros j acc Hj Hacc. rewrite !rdw_ok by (rewrite <- ?Hl in *; lia). rewrite !bind_ok.
    eexists; split; [reflexivity|]. rewrite wpar_lxor, Hacc.
    replace (64 * S j) with (64 * j + 64) by lia. rewrite seq_app, map_app, xsum_app. f_equal.
    unfold wpar. f_equal. rewrite Nat.add_0_l.
    replace (seq (64 * j) 64) with (map (fun i => 64 * j + i) (seq 0 64)).
    2:{ rewrite map_add_seq, Nat.add_0_r. reflexivity. }
    rewrite map_map. apply map_ext_in. intros i Hi. apply in_seq in Hi.
    rewrite map2b_nth by (try reflexivity; exact Hl). rewrite N.land_spec.
    rewrite <- Hb, <- Hbu by lia. unfold wbit, wpos.
    replace ((64 * j + i) / 64) with j by (apply (Nat.div_unique _ 64 j i); lia).
    replace ((64 * j + i) mod 64) with (i mod 64); [reflexivity|].
    rewrite Nat.mul_comm, Nat.add_comm, Nat.mod_add by lia. reflexivity.
  - reflexivity.
  - rewrite E, bind_ok.
    replace 8%Z with (Z.of_nat (length (bytes64 acc))) by reflexivity.
    rewrite count_one_bits_ok.
    + rewrite bind_ok. f_equal. rewrite odd_popcount, H. cbn [Nat.add]. unfold dotb. apply xsum_nth_seq.
      rewrite map2b_length by exact Hl. pose proof (nwords_le (length l)). lia.
    + apply bytes64_range.
    + cbn. unfold INT_MAX. lia.
Qed.

(* ---------------------------------------------------------------- comparison *)
Definition full_words (n : nat) : nat := 64 * (nwords n - 1).
Lemma forallM_iff {A} (f : A -> res bool) (g : A -> bool) l :
  (forall x, In x l -> f x = Ok (g x)) -> forallM f l = Ok (forallb g l).
Proof.
  induction l as [|x l IH]; intros H; [reflexivity|]. cbn [forallM forallb]. rewrite H by (left; reflexivity).
  rewrite bind_ok. destruct (g x); cbn [andb]; [|reflexivity]. apply IH. intros y Hy. apply H. right; exact Hy.
Qed.
Lemma word_eq a b : (forall j, (64 <= j)%N -> N.testbit a j = false) -> (forall j, (64 <= j)%N -> N.testbit b j = false) ->
  (forall j, (j < 64)%N -> N.testbit a j = N.testbit b j) -> a = b.
Proof.
  intros Ha Hb H. apply N.bits_inj. intros j. destruct (N.lt_ge_cases j 64); [auto|].
  rewrite Ha, Hb by assumption. reflexivity.
Qed.
(* what == decides: the bits before the last word *)
Lemma B_eq v l u l' : B v l -> B u l' -> exists b, bv_eq v u = Ok b /\
  (b = true <-> length l = length l' /\ forall i, i < full_words (length l) -> nth i l false = nth i l' false).
Proof.
  intros Hv Hu.
  pose proof (B_words _ _ Hv) as (P & Hnw & Hle & Hpos & Hhi & Hb).
  pose proof (B_words _ _ Hu) as (Pu & Hnwu & Hleu & Hposu & Hhiu & Hbu).
  unfold bv_eq. rewrite (B_len _ _ Hv), (B_len _ _ Hu).
  destruct (Nat.eqb_spec (length l) (length l')) as [Hl|Hl].
  2:{ exists false; split; [reflexivity|]. split; [discriminate|]. intros [H _]; contradiction. }
  rewrite (forallM_iff _ (fun i => (nth i (words_of v) 0 =? nth i (words_of u) 0)%N)).
  2:{ intros i Hi. apply in_seq in Hi. rewrite !rdw_ok by (rewrite <- ?Hl in *; lia). reflexivity. }
  eexists; split; [reflexivity|]. rewrite forallb_forall. unfold full_words. rewrite <- Hl in *. split.
  - intros H. split; [reflexivity|]. intros i Hi.
    assert (i / 64 < nwords (length l) - 1) by (apply Nat.div_lt_upper_bound; lia).
    rewrite <- Hb, <- Hbu by lia. unfold wbit. specialize (H (i / 64)). rewrite in_seq, N.eqb_eq in H.
    rewrite H by lia. reflexivity.
  - intros [_ H] k Hk. apply in_seq in Hk. apply N.eqb_eq. apply word_eq; [apply Hhi; lia|apply Hhiu; lia|].
    intros j Hj. rewrite !wbit_word by exact Hj. rewrite Hb, Hbu by lia. apply H. lia.
Qed.
Lemma B_eq_bit v l b : B v l -> exists r, bv_eq_bit v b = Ok r /\
  (r = true <-> forall i, i < full_words (length l) -> nth i l false = b).
Proof.
  intros Hv. pose proof (B_words _ _ Hv) as (P & Hnw & Hle & Hpos & Hhi & Hb).
  unfold bv_eq_bit.
  assert (Hfill : forall j, (j < 64)%N -> N.testbit (fill_word b) j = b).
  { intros j Hj. destruct b; [apply N.ones_spec_low; exact Hj|apply N.bits_0]. }
  rewrite (forallM_iff _ (fun i => (nth i (words_of v) 0 =? fill_word b)%N)).
  2:{ intros i Hi. apply in_seq in Hi. rewrite !rdw_ok by lia. reflexivity. }
  eexists; split; [reflexivity|]. rewrite forallb_forall. unfold full_words. split.
  - intros H i Hi.
    assert (i / 64 < nwords (length l) - 1) by (apply Nat.div_lt_upper_bound; lia).
    rewrite <- Hb by lia. unfold wbit. specialize (H (i / 64)). rewrite in_seq, N.eqb_eq in H.
    rewrite H by lia. apply Hfill. pose proof (wpos_bound i). lia.
  - intros H k Hk. apply in_seq in Hk. apply N.eqb_eq. apply word_eq; [apply Hhi; lia| |].
    + intros j Hj. destruct b; [apply N.ones_spec_high; exact Hj|apply N.bits_0].
    + intros j Hj. rewrite wbit_word by exact Hj. rewrite Hfill by exact Hj. rewrite Hb by lia. apply H. lia.
Qed.
