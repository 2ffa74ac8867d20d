(* GF(2) polynomials as packed words: what each routine does to the coefficient bits. *)
From Verif Require Import Base MIntMath PIntMath2 MMisc PMisc MMat MBits PBits MF2Poly.
Open Scope nat_scope.

Lemma for_down_inv {S : Type} (body : nat -> S -> res S) (Inv : nat -> S -> Prop) n : forall s,
  (forall i t, i < n -> Inv (Datatypes.S i) t -> exists t', body i t = Ok t' /\ Inv i t') ->
  Inv n s -> exists s', for_down n body s = Ok s' /\ Inv 0 s'.
Proof.
  induction n as [|n IH]; intros s H Hs; cbn [for_down].
  - exists s; auto.
  - destruct (H n s) as (s' & E & Hs'); [lia|exact Hs|]. rewrite E, bind_ok.
    apply IH; [|exact Hs']. intros i t Hi; apply H; lia.
Qed.

(* coefficient i *)
Definition bitl (l : fpoly) (i : nat) : bool := N.testbit (nth (i / 64) l 0%N) (N.of_nat (i mod 64)).
Definition w64 (w : N) : Prop := forall j, (64 <= j)%N -> N.testbit w j = false.
Definition wok (l : fpoly) : Prop := 0 < length l /\ forall k, w64 (nth k l 0%N).
Definition canon (l : fpoly) : Prop := wok l /\ (length l = 1 \/ nth (length l - 1) l 0%N <> 0%N).
Definition isdeg (l : fpoly) (d : nat) : Prop :=
  (forall i, d < i -> bitl l i = false) /\ (bitl l d = true \/ d = 0).

Lemma bitl_at l k j : j < 64 -> bitl l (64 * k + j) = N.testbit (nth k l 0%N) (N.of_nat j).
Proof.
  intros H. unfold bitl.
  replace ((64 * k + j) / 64) with k by (apply (Nat.div_unique _ 64 k j); lia).
  replace ((64 * k + j) mod 64) with j by (apply (Nat.mod_unique _ 64 k j); lia). reflexivity.
Qed.
Lemma split_pos i : exists k j, i = 64 * k + j /\ j < 64.
Proof.
  exists (i / 64), (i mod 64). pose proof (Nat.div_mod i 64). pose proof (Nat.mod_upper_bound i 64). lia.
Qed.
Lemma bitl_word l k j : wok l -> N.testbit (nth k l 0%N) (N.of_nat j) = if j <? 64 then bitl l (64 * k + j) else false.
Proof.
  intros [_ H]. destruct (Nat.ltb_spec j 64).
  - symmetry; apply bitl_at; assumption.
  - apply H. lia.
Qed.
Lemma bitl_ge l i : 64 * length l <= i -> bitl l i = false.
Proof.
  intros H. unfold bitl. rewrite nth_overflow; [apply N.bits_0|].
  pose proof (Nat.div_mod i 64). pose proof (Nat.mod_upper_bound i 64). lia.
Qed.
Lemma bitl_lt l i : bitl l i = true -> i < 64 * length l.
Proof.
  intros H. destruct (Nat.lt_ge_cases i (64 * length l)); [assumption|].
  rewrite bitl_ge in H by assumption. discriminate.
Qed.
Lemma words_bitl l l' : (forall k, nth k l 0%N = nth k l' 0%N) -> forall i, bitl l i = bitl l' i.
Proof. intros H i. unfold bitl. rewrite H. reflexivity. Qed.
Lemma w64_ext a b : w64 a -> w64 b -> (forall j, j < 64 -> N.testbit a (N.of_nat j) = N.testbit b (N.of_nat j)) -> a = b.
Proof.
  intros Ha Hb H. apply word_eq; [exact Ha|exact Hb|]. intros j Hj.
  specialize (H (N.to_nat j)). rewrite N2Nat.id in H. apply H. lia.
Qed.
Lemma bitl_words l l' : wok l -> wok l' -> (forall i, bitl l i = bitl l' i) -> forall k, nth k l 0%N = nth k l' 0%N.
Proof.
  intros H H' E k. apply w64_ext; [apply H|apply H'|]. intros j Hj.
  rewrite <- !bitl_at by exact Hj. apply E.
Qed.
Lemma word_nz_bit w : w64 w -> w <> 0%N -> exists j, j < 64 /\ N.testbit w (N.of_nat j) = true.
Proof.
  intros Hw Hz. exists (N.to_nat (N.log2 w)). rewrite N2Nat.id.
  assert (T := N.bit_log2 w Hz). split; [|exact T].
  destruct (N.lt_ge_cases (N.log2 w) 64) as [|G]; [lia|]. rewrite (Hw _ G) in T. discriminate.
Qed.
Lemma w64_lt w : w64 w <-> (w < 2 ^ 64)%N.
Proof.
  split.
  - intros H. destruct (N.eq_dec w 0) as [->|Hz]; [reflexivity|].
    apply N.log2_lt_pow2; [lia|]. assert (T := N.bit_log2 w Hz).
    destruct (N.lt_ge_cases (N.log2 w) 64) as [|G]; [assumption|]. rewrite (H _ G) in T. discriminate.
  - intros H j Hj. destruct (N.eq_dec w 0) as [->|Hz]; [apply N.bits_0|].
    apply N.bits_above_log2. apply N.log2_lt_pow2 in H; lia.
Qed.
Lemma w64_lor a b : w64 a -> w64 b -> w64 (N.lor a b).
Proof. intros Ha Hb j Hj. rewrite N.lor_spec, Ha, Hb by exact Hj. reflexivity. Qed.
Lemma w64_lxor a b : w64 a -> w64 b -> w64 (N.lxor a b).
Proof. intros Ha Hb j Hj. rewrite N.lxor_spec, Ha, Hb by exact Hj. reflexivity. Qed.
Lemma w64_land a b : w64 a -> w64 (N.land a b).
Proof. intros Ha j Hj. rewrite N.land_spec, Ha by exact Hj. reflexivity. Qed.
Lemma w64_0 : w64 0%N.
Proof. intros j _. apply N.bits_0. Qed.
Lemma w64_shl w k : w64 (shl64 w k).
Proof. intros j Hj. unfold shl64. rewrite N.land_spec, (N.ones_spec_high 64 j Hj). apply andb_false_r. Qed.
Lemma w64_shr w k : w64 w -> w64 (N.shiftr w k).
Proof. intros H j Hj. rewrite N.shiftr_spec'. apply H. lia. Qed.

(* ---------------------------------------------------------------- degree *)
Lemma top_word_some l n i w : top_word l n = Some (i, w) ->
  i < n /\ w = nth i l 0%N /\ w <> 0%N /\ forall k, i < k < n -> nth k l 0%N = 0%N.
Proof.
  induction n as [|n IH]; cbn [top_word]; [discriminate|].
  destruct (N.eqb_spec (nth n l 0%N) 0) as [E|E]; intros H.
  - destruct (IH H) as (A & B & C & D). repeat split; [lia|exact B|exact C|].
    intros k Hk. destruct (Nat.eq_dec k n) as [->|]; [exact E|]. apply D. lia.
  - inversion H; subst. repeat split; [lia|exact E|]. intros k Hk; lia.
Qed.
Lemma top_word_none l n : top_word l n = None -> forall k, k < n -> nth k l 0%N = 0%N.
Proof.
  induction n as [|n IH]; cbn [top_word]; intros H k Hk; [lia|].
  destruct (N.eqb_spec (nth n l 0%N) 0) as [E|E]; [|discriminate].
  destruct (Nat.eq_dec k n) as [->|]; [exact E|]. apply IH; [exact H|lia].
Qed.
Lemma degree_ok l : wok l -> exists d, f2_degree l = Ok d /\ isdeg l d.
Proof.
  intros [Hl Hw]. unfold f2_degree. destruct (top_word l (length l)) as [[i w]|] eqn:E.
  - destruct (top_word_some _ _ _ _ E) as (Hi & Hwe & Hz & Hab).
    assert (W : w64 w) by (rewrite Hwe; apply Hw). apply w64_lt in W.
    rewrite find_msb_64_ok by lia. rewrite bind_ok. eexists; split; [reflexivity|].
    assert (L : Z.log2 (Z.of_N w) = Z.of_N (N.log2 w)) by (destruct w as [|[p|p|]]; [contradiction| | |]; reflexivity).
    rewrite L.
    replace (Z.to_nat (Z.of_N (N.log2 w))) with (N.to_nat (N.log2 w)) by lia.
    assert (B : N.to_nat (N.log2 w) < 64).
    { assert (N.log2 w < 64)%N; [|lia]. apply N.log2_lt_pow2; [lia|exact W]. }
    replace (N.to_nat (N.log2 w) + i * 64) with (64 * i + N.to_nat (N.log2 w)) by lia. split.
    + intros x Hx. destruct (split_pos x) as (k & j & -> & Hj). rewrite bitl_at by exact Hj.
      assert (i <= k) by lia. destruct (Nat.eq_dec k i) as [->|].
      * rewrite <- Hwe. apply N.bits_above_log2. lia.
      * destruct (Nat.lt_ge_cases k (length l)).
        -- rewrite Hab by lia. apply N.bits_0.
        -- rewrite nth_overflow by lia. apply N.bits_0.
    + left. rewrite bitl_at by exact B. rewrite <- Hwe, N2Nat.id. apply N.bit_log2; exact Hz.
  - exists 0; split; [reflexivity|]. split; [|right; reflexivity].
    intros x _. unfold bitl. destruct (Nat.lt_ge_cases (x / 64) (length l)) as [H|H].
    + rewrite (top_word_none _ _ E) by exact H. apply N.bits_0.
    + rewrite nth_overflow by exact H. apply N.bits_0.
Qed.
Lemma isdeg_unique l d d' : isdeg l d -> isdeg l d' -> d = d'.
Proof.
  intros [H1 H2] [H1' H2'].
  destruct (Nat.lt_trichotomy d d') as [L|[L|L]]; [|exact L|].
  - destruct H2' as [T|]; [|lia]. rewrite H1 in T by exact L. discriminate.
  - destruct H2 as [T|]; [|lia]. rewrite H1' in T by exact L. discriminate.
Qed.
Lemma degree_is l d : wok l -> isdeg l d -> f2_degree l = Ok d.
Proof.
  intros Hl Hd. destruct (degree_ok l Hl) as (d' & E & H). rewrite E. f_equal. eapply isdeg_unique; eauto.
Qed.
Lemma isdeg_ext l l' d : (forall i, bitl l i = bitl l' i) -> isdeg l d -> isdeg l' d.
Proof. intros E [H1 H2]. split; [intros i Hi; rewrite <- E; auto|rewrite <- E; exact H2]. Qed.
(* words above the degree are zero *)
Lemma deg_words l d k : wok l -> isdeg l d -> d / 64 < k -> nth k l 0%N = 0%N.
Proof.
  intros Hl [Hd _] Hk. apply w64_ext; [apply Hl|apply w64_0|]. intros j Hj.
  rewrite <- bitl_at by exact Hj. rewrite N.bits_0. apply Hd.
  pose proof (Nat.div_mod d 64). pose proof (Nat.mod_upper_bound d 64). lia.
Qed.
Lemma deg_len l d : wok l -> isdeg l d -> d / 64 < length l.
Proof.
  intros Hl [_ [T| ->]].
  - apply bitl_lt in T. apply Nat.div_lt_upper_bound; lia.
  - destruct Hl. change (0 / 64) with 0. lia.
Qed.
Lemma canon_len l d : canon l -> isdeg l d -> length l = d / 64 + 1.
Proof.
  intros [Hl Hc] Hd. pose proof (deg_len l d Hl Hd) as L.
  destruct Hc as [H|H]; [lia|].
  destruct (Nat.lt_ge_cases (d / 64) (length l - 1)) as [G|]; [|lia].
  elim H. apply (deg_words l d); assumption.
Qed.
Lemma len_canon l d : wok l -> isdeg l d -> length l = d / 64 + 1 -> canon l.
Proof.
  intros Hl Hd E. split; [exact Hl|]. destruct Hd as [_ [T| ->]]; [|left; exact E].
  right. rewrite E. replace (d / 64 + 1 - 1) with (d / 64) by lia.
  intros Z. unfold bitl in T. rewrite Z, N.bits_0 in T. discriminate.
Qed.
Lemma canon_eq l l' : canon l -> canon l' -> (forall i, bitl l i = bitl l' i) -> l = l'.
Proof.
  intros H H' E. destruct (degree_ok l (proj1 H)) as (d & _ & Hd).
  apply (nth_ext _ _ 0%N 0%N).
  - rewrite (canon_len l d H Hd), (canon_len l' d H' (isdeg_ext _ _ _ E Hd)). reflexivity.
  - intros k _. apply bitl_words; [apply H|apply H'|exact E].
Qed.

(* ---------------------------------------------------------------- resizing *)
Lemma extend_length l n : length (extend_parts l n) = n.
Proof. unfold extend_parts. rewrite app_length, firstn_length, repeat_length. lia. Qed.
Lemma nth_repeat0 k n : nth k (repeat 0%N n) 0%N = 0%N.
Proof. revert k; induction n as [|n IH]; intros [|k]; cbn [repeat nth]; auto. Qed.
Lemma extend_nth l n k : nth k (extend_parts l n) 0%N = if k <? n then nth k l 0%N else 0%N.
Proof.
  unfold extend_parts. destruct (Nat.ltb_spec k n) as [H|H].
  - destruct (Nat.lt_ge_cases k (length l)) as [G|G].
    + rewrite app_nth1 by (rewrite firstn_length; lia).
      rewrite <- (firstn_skipn n l) at 2. rewrite app_nth1 by (rewrite firstn_length; lia). reflexivity.
    + rewrite app_nth2 by (rewrite firstn_length; lia). rewrite nth_repeat0, nth_overflow by exact G. reflexivity.
  - apply nth_overflow. rewrite app_length, firstn_length, repeat_length. lia.
Qed.
Lemma extend_words l n : (forall k, n <= k -> nth k l 0%N = 0%N) ->
  forall k, nth k (extend_parts l n) 0%N = nth k l 0%N.
Proof. intros H k. rewrite extend_nth. destruct (Nat.ltb_spec k n); [reflexivity|]. symmetry; auto. Qed.
Lemma wok_words l l' : wok l -> 0 < length l' -> (forall k, nth k l' 0%N = nth k l 0%N) -> wok l'.
Proof. intros [_ H] L E. split; [exact L|]. intros k. rewrite E. apply H. Qed.

Lemma trim_ok l : wok l -> exists l', trim_parts l = Ok l' /\ canon l' /\ forall i, bitl l' i = bitl l i.
Proof.
  intros Hl. destruct (degree_ok l Hl) as (d & E & Hd). unfold trim_parts. rewrite E, bind_ok.
  eexists; split; [reflexivity|]. destruct (Nat.ltb_spec (d / 64 + 1) (length l)) as [H|H].
  - assert (W : forall k, nth k (extend_parts l (d / 64 + 1)) 0%N = nth k l 0%N).
    { apply extend_words. intros k Hk. apply (deg_words l d _ Hl Hd). lia. }
    assert (B := words_bitl _ _ W). split; [|exact B].
    apply (len_canon _ d); [|apply (isdeg_ext l); [intros i; symmetry; apply B|exact Hd]|apply extend_length].
    apply (wok_words l); [exact Hl|rewrite extend_length; lia|exact W].
  - split; [|reflexivity]. apply (len_canon _ d); [exact Hl|exact Hd|]. pose proof (deg_len l d Hl Hd). lia.
Qed.

(* ---------------------------------------------------------------- addition *)
Lemma xor_parts_nth a : forall b k, nth k (xor_parts a b) 0%N = N.lxor (nth k a 0%N) (nth k b 0%N).
Proof.
  induction a as [|x a IH]; intros [|y b] [|k]; cbn [xor_parts nth]; try reflexivity.
  - rewrite N.lxor_0_r. reflexivity.
  - rewrite N.lxor_0_r. reflexivity.
  - apply IH.
Qed.
Lemma xor_parts_length a : forall b, length (xor_parts a b) = Nat.max (length a) (length b).
Proof. induction a as [|x a IH]; intros [|y b]; cbn [xor_parts length Nat.max]; auto. Qed.
Lemma bitl_xor a b i : bitl (xor_parts a b) i = xorb (bitl a i) (bitl b i).
Proof. unfold bitl. rewrite xor_parts_nth. apply N.lxor_spec. Qed.
Lemma add_ok a b : wok a -> wok b -> exists c, f2_add a b = Ok c /\ canon c /\
  forall i, bitl c i = xorb (bitl a i) (bitl b i).
Proof.
  intros Ha Hb. destruct (trim_ok (xor_parts a b)) as (c & E & Hc & B).
  - split; [rewrite xor_parts_length; destruct Ha; lia|]. intros k. rewrite xor_parts_nth.
    apply w64_lxor; [apply Ha|apply Hb].
  - exists c. split; [exact E|]. split; [exact Hc|]. intros i. rewrite B. apply bitl_xor.
Qed.

(* ---------------------------------------------------------------- shifts *)
Lemma shl64_bit w k j : j < 64 -> N.testbit (shl64 w (N.of_nat k)) (N.of_nat j) =
  if j <? k then false else N.testbit w (N.of_nat (j - k)).
Proof.
  intros Hj. unfold shl64. rewrite N.land_spec, N.ones_spec_low by lia. rewrite andb_true_r.
  destruct (Nat.ltb_spec j k).
  - apply N.shiftl_spec_low. lia.
  - rewrite N.shiftl_spec_high' by lia. f_equal. lia.
Qed.
Lemma shr_bit w k j : N.testbit (N.shiftr w (N.of_nat k)) (N.of_nat j) = N.testbit w (N.of_nat (j + k)).
Proof. rewrite N.shiftr_spec'. f_equal. lia. Qed.
(* word k of a polynomial shifted up by kb bits, 0 < kb < 64 *)
Definition shw (kb : nat) (l : fpoly) (k : nat) : N :=
  match k with
  | O => shl64 (nth 0 l 0%N) (N.of_nat kb)
  | S i => N.lor (shl64 (nth (S i) l 0%N) (N.of_nat kb)) (N.shiftr (nth i l 0%N) (N.of_nat (64 - kb)))
  end.
Lemma shw_bit kb l k j : wok l -> 0 < kb < 64 -> j < 64 ->
  N.testbit (shw kb l k) (N.of_nat j) = if 64 * k + j <? kb then false else bitl l (64 * k + j - kb).
Proof.
  intros Hl Hk Hj. destruct k as [|k]; unfold shw.
  - rewrite shl64_bit by exact Hj. rewrite Nat.mul_0_r, Nat.add_0_l.
    destruct (Nat.ltb_spec j kb); [reflexivity|].
    replace (j - kb) with (64 * 0 + (j - kb)) at 2 by lia. rewrite bitl_at by lia. reflexivity.
  - rewrite N.lor_spec, shl64_bit, shr_bit by exact Hj.
    destruct (Nat.ltb_spec (64 * S k + j) kb); [lia|].
    destruct (Nat.ltb_spec j kb).
    + rewrite orb_false_l. replace (64 * S k + j - kb) with (64 * k + (j + (64 - kb))) by lia.
      rewrite bitl_at by lia. reflexivity.
    + rewrite (proj2 Hl k (N.of_nat (j + (64 - kb)))) by lia. rewrite orb_false_r.
      replace (64 * S k + j - kb) with (64 * S k + (j - kb)) by lia. rewrite bitl_at by lia. reflexivity.
Qed.
Lemma shw_w64 kb l k : wok l -> w64 (shw kb l k).
Proof.
  intros Hl. destruct k as [|k]; unfold shw; [apply w64_shl|].
  apply w64_lor; [apply w64_shl|apply w64_shr; apply Hl].
Qed.
Lemma shift_bits kb l l' : wok l -> 0 < kb < 64 -> (forall k, nth k l' 0%N = shw kb l k) ->
  forall i, bitl l' i = if i <? kb then false else bitl l (i - kb).
Proof.
  intros Hl Hk H i. destruct (split_pos i) as (k & j & -> & Hj). rewrite bitl_at by exact Hj.
  rewrite H. apply shw_bit; assumption.
Qed.

Lemma promote_k_ok kb l : 0 < kb < 64 -> wok l -> exists l', promote_k (N.of_nat kb) l = Ok l' /\ wok l' /\
  (forall i, bitl l' i = if i <? kb then false else bitl l (i - kb)) /\ (canon l -> canon l').
Proof.
  intros Hk Hl. unfold promote_k. destruct Hl as [Hlen Hw]. rewrite rdw_ok by lia. rewrite bind_ok.
  set (w := nth (length l - 1) l 0%N). set (big := (N.shiftr w (64 - N.of_nat kb) =? 0)%N).
  set (l1 := if big then l else extend_parts l (length l + 1)).
  assert (W1 : forall k, nth k l1 0%N = nth k l 0%N).
  { intros k. unfold l1. destruct big; [reflexivity|]. apply extend_words. intros k' Hk'. apply nth_overflow. lia. }
  assert (L1 : 0 < length l1) by (unfold l1; destruct big; rewrite ?extend_length; lia).
  assert (Hwok : wok l) by (split; assumption).
  set (body := fun (i : nat) (l : list N) => x <- rdw l (S i) ;; y <- rdw l i ;; wrw l (S i) _).
  destruct (for_down_inv body
     (fun n l2 => length l2 = length l1 /\
        forall k, nth k l2 0%N = if n <? k then shw kb l k else nth k l 0%N) (length l1 - 1) l1) as (l2 & E & L2 & W2).
  { intros i t Hi [Lt Wt]. unfold body. rewrite !rdw_ok by lia. rewrite !bind_ok. rewrite wrw_ok by lia.
    eexists; split; [reflexivity|]. rewrite upd_length. split; [exact Lt|]. intros k. rewrite upd_nth.
    destruct (Nat.ltb_spec (S i) (length t)); [|lia]. rewrite andb_true_r.
    destruct (Nat.eqb_spec k (S i)) as [->|].
    - destruct (Nat.ltb_spec i (S i)); [|lia]. rewrite !Wt.
      destruct (Nat.ltb_spec (S i) (S i)); [lia|]. destruct (Nat.ltb_spec (S i) i); [lia|].
      unfold shw. replace (64 - N.of_nat kb)%N with (N.of_nat (64 - kb)) by lia. reflexivity.
    - rewrite Wt. destruct (Nat.ltb_spec (S i) k), (Nat.ltb_spec i k); try lia; reflexivity. }
  { split; [reflexivity|]. intros k. rewrite W1.
    destruct (Nat.ltb_spec (length l1 - 1) k) as [H|H]; [|reflexivity].
    rewrite <- W1, nth_overflow by lia. destruct k as [|k]; [lia|]. unfold shw.
    rewrite <- !W1, (nth_overflow l1 _ (n := S k)) by lia.
    unfold shl64. rewrite N.shiftl_0_l, N.land_0_l, N.lor_0_l.
    destruct (Nat.eq_dec k (length l1 - 1)) as [->|]; [|rewrite nth_overflow by lia; symmetry; apply N.shiftr_0_l].
    unfold l1 in *. destruct big eqn:Eb.
    - unfold big in Eb. apply N.eqb_eq in Eb. fold w.
      replace (N.of_nat (64 - kb)) with (64 - N.of_nat kb)%N by lia. symmetry; exact Eb.
    - rewrite extend_length in *. rewrite W1, nth_overflow by lia. symmetry. apply N.shiftr_0_l. }
  rewrite E, bind_ok. rewrite rdw_ok by lia. rewrite bind_ok. rewrite wrw_ok by lia.
  set (l3 := upd l2 0 _).
  assert (W3 : forall k, nth k l3 0%N = shw kb l k).
  { intros k. unfold l3. rewrite upd_nth. destruct (Nat.ltb_spec 0 (length l2)); [|lia]. rewrite andb_true_r.
    destruct (Nat.eqb_spec k 0) as [->|].
    - rewrite W2. reflexivity.
    - rewrite W2. destruct (Nat.ltb_spec 0 k); [reflexivity|lia]. }
  assert (L3 : length l3 = length l1) by (unfold l3; rewrite upd_length; exact L2).
  exists l3. split; [reflexivity|]. split; [|split].
  - split; [lia|]. intros k. rewrite W3. apply shw_w64. exact Hwok.
  - apply shift_bits; assumption.
  - intros Hc. split; [split; [lia|intros k; rewrite W3; apply shw_w64; exact Hwok]|].
    rewrite L3, W3. unfold l1. destruct big eqn:Eb.
    + destruct (proj2 Hc) as [C|C]; [left; exact C|]. right. fold w in C. intros Z.
      assert (Hww : w64 w) by apply Hw.
      destruct (word_nz_bit w Hww C) as (j & Hj & T).
      unfold big in Eb. apply N.eqb_eq in Eb.
      assert (J : j + kb < 64).
      { destruct (Nat.lt_ge_cases (j + kb) 64) as [|G]; [assumption|].
        assert (F : N.testbit (N.shiftr w (64 - N.of_nat kb)) (N.of_nat (j - (64 - kb))) = true).
        { replace (64 - N.of_nat kb)%N with (N.of_nat (64 - kb)) by lia. rewrite shr_bit.
          replace (j - (64 - kb) + (64 - kb)) with j by lia. exact T. }
        rewrite Eb, N.bits_0 in F. discriminate. }
      assert (F := shw_bit kb l (length l - 1) (j + kb) Hwok Hk J). rewrite Z, N.bits_0 in F.
      destruct (Nat.ltb_spec (64 * (length l - 1) + (j + kb)) kb); [lia|].
      replace (64 * (length l - 1) + (j + kb) - kb) with (64 * (length l - 1) + j) in F by lia.
      rewrite bitl_at in F by exact Hj. fold w in F. congruence.
    + rewrite extend_length. right. replace (length l + 1 - 1) with (S (length l - 1)) by lia.
      unfold shw. fold w. rewrite (nth_overflow l) by lia. unfold shl64. rewrite N.shiftl_0_l, N.land_0_l, N.lor_0_l.
      unfold big in Eb. apply N.eqb_neq in Eb. replace (N.of_nat (64 - kb)) with (64 - N.of_nat kb)%N by lia. exact Eb.
Qed.

Lemma for_down_zero n l : n <= length l -> exists l', for_down n (fun i l => wrw l i 0%N) l = Ok l' /\
  length l' = length l /\ forall k, nth k l' 0%N = if k <? n then 0%N else nth k l 0%N.
Proof.
  intros Hn.
  destruct (for_down_inv (fun i l => wrw l i 0%N)
     (fun m l2 => length l2 = length l /\
        forall k, nth k l2 0%N = if (m <=? k) && (k <? n) then 0%N else nth k l 0%N) n l) as (l' & E & L & W).
  - intros i t Hi [Lt Wt]. rewrite wrw_ok by lia. eexists; split; [reflexivity|].
    rewrite upd_length. split; [exact Lt|]. intros k. rewrite upd_nth.
    destruct (Nat.ltb_spec i (length t)); [|lia]. rewrite andb_true_r.
    destruct (Nat.eqb_spec k i) as [->|].
    + destruct (Nat.leb_spec i i); [|lia]. destruct (Nat.ltb_spec i n); [reflexivity|lia].
    + rewrite Wt. destruct (Nat.leb_spec (S i) k), (Nat.leb_spec i k); try lia; reflexivity.
  - split; [reflexivity|]. intros k. destruct (Nat.leb_spec n k), (Nat.ltb_spec k n); try lia; reflexivity.
  - exists l'. split; [exact E|]. split; [exact L|]. intros k. rewrite W. reflexivity.
Qed.

(* word k of a polynomial shifted up by 64*ps + kb bits *)
Lemma shift_words_bits ps kb l l' : wok l -> 0 < kb < 64 ->
  (forall k, nth k l' 0%N = if k <? ps then 0%N else shw kb l (k - ps)) ->
  forall i, bitl l' i = if i <? 64 * ps + kb then false else bitl l (i - (64 * ps + kb)).
Proof.
  intros Hl Hk H i. destruct (split_pos i) as (k & j & -> & Hj). rewrite bitl_at by exact Hj.
  rewrite H. destruct (Nat.ltb_spec k ps) as [G|G].
  - rewrite N.bits_0. destruct (Nat.ltb_spec (64 * k + j) (64 * ps + kb)); [reflexivity|lia].
  - rewrite shw_bit by assumption.
    destruct (Nat.ltb_spec (64 * (k - ps) + j) kb), (Nat.ltb_spec (64 * k + j) (64 * ps + kb)); try lia.
    f_equal. lia.
Qed.

Lemma shw_zero kb l d k : wok l -> isdeg l d -> d / 64 + 1 < k -> shw kb l k = 0%N.
Proof.
  intros Hl Hd Hk. destruct k as [|k]; [lia|]. unfold shw.
  rewrite !(deg_words l d) by (try assumption; lia). unfold shl64. rewrite N.shiftl_0_l, N.shiftr_0_l. reflexivity.
Qed.
(* the word just above the old top word is empty when the shift does not spill *)
Lemma shw_nospill kb l d : wok l -> isdeg l d -> 0 < kb < 64 -> d mod 64 + kb < 64 -> shw kb l (d / 64 + 1) = 0%N.
Proof.
  intros Hl Hd Hk Hs. apply w64_ext; [apply shw_w64; exact Hl|apply w64_0|]. intros j Hj.
  rewrite shw_bit, N.bits_0 by assumption.
  destruct (Nat.ltb_spec (64 * (d / 64 + 1) + j) kb); [reflexivity|].
  apply (proj1 Hd). pose proof (Nat.div_mod d 64). lia.
Qed.

Lemma promote_n_ok l sh d : wok l -> isdeg l d -> exists l', promote_n l sh = Ok l' /\ wok l' /\
  length l' = (d + sh) / 64 + 1 /\
  forall i, bitl l' i = if i <? sh then false else bitl l (i - sh).
Proof.
  intros Hl Hd. unfold promote_n. rewrite (degree_is l d Hl Hd), bind_ok.
  pose proof (Nat.div_mod sh 64 ltac:(lia)) as Dsh. pose proof (Nat.mod_upper_bound sh 64 ltac:(lia)) as Msh.
  pose proof (Nat.div_mod d 64 ltac:(lia)) as Dd. pose proof (Nat.mod_upper_bound d 64 ltac:(lia)) as Md.
  set (ps := sh / 64) in *. set (kb := sh mod 64) in *. set (on := d / 64 + 1) in *.
  assert (Hspill : (d + sh) / 64 = d / 64 + ps + (if 64 - kb <=? d mod 64 then 1 else 0)).
  { destruct (Nat.leb_spec (64 - kb) (d mod 64)).
    - symmetry. apply (Nat.div_unique _ 64 _ (d mod 64 + kb - 64)); lia.
    - symmetry. apply (Nat.div_unique _ 64 _ (d mod 64 + kb)); lia. }
  set (nn := (d + sh) / 64 + 1) in *.
  set (l1 := extend_parts l nn).
  assert (L1 : length l1 = nn) by apply extend_length.
  assert (W1 : forall k, nth k l1 0%N = nth k l 0%N).
  { apply extend_words. intros k Hk. apply (deg_words l d _ Hl Hd). lia. }
  destruct (Nat.eqb_spec kb 0) as [Hkb|Hkb].
  - (* whole words *)
    assert (Hnn : nn = on + ps) by (destruct (Nat.leb_spec (64 - kb) (d mod 64)); lia).
    destruct (for_down_inv (fun i l => x <- rdw l i ;; wrw l (i + ps) x)
      (fun m l2 => length l2 = nn /\
         forall k, nth k l2 0%N = if (m + ps <=? k) && (k <? on + ps) then nth (k - ps) l 0%N else nth k l 0%N)
      on l1) as (l2 & E & L2 & W2).
    + intros i t Hi [Lt Wt]. rewrite rdw_ok by lia. rewrite bind_ok. rewrite wrw_ok by lia.
      eexists; split; [reflexivity|]. rewrite upd_length. split; [exact Lt|]. intros k. rewrite upd_nth.
      destruct (Nat.ltb_spec (i + ps) (length t)); [|lia]. rewrite andb_true_r.
      destruct (Nat.eqb_spec k (i + ps)) as [->|].
      * rewrite Wt. destruct (Nat.leb_spec (S i + ps) i); [lia|]. cbn [andb].
        destruct (Nat.leb_spec (i + ps) (i + ps)); [|lia]. destruct (Nat.ltb_spec (i + ps) (on + ps)); [|lia].
        cbn [andb]. f_equal. lia.
      * rewrite Wt. destruct (Nat.leb_spec (S i + ps) k), (Nat.leb_spec (i + ps) k); try lia; reflexivity.
    + split; [exact L1|]. intros k. rewrite W1.
      destruct (Nat.leb_spec (on + ps) k), (Nat.ltb_spec k (on + ps)); try lia; reflexivity.
    + rewrite E, bind_ok. rewrite L2.
      destruct (for_down_zero (nn - on) l2) as (l3 & E3 & L3 & W3); [lia|].
      exists l3. split; [exact E3|].
      assert (W : forall k, nth k l3 0%N = if k <? ps then 0%N else nth (k - ps) l 0%N).
      { intros k. rewrite W3, W2. replace (nn - on) with ps by lia.
        destruct (Nat.ltb_spec k ps); [reflexivity|]. destruct (Nat.leb_spec (0 + ps) k); [|lia].
        destruct (Nat.ltb_spec k (on + ps)); cbn [andb]; [reflexivity|].
        rewrite !(deg_words l d) by (try assumption; lia). reflexivity. }
      split; [|split].
      * split; [lia|]. intros k. rewrite W. destruct (k <? ps); [apply w64_0|apply Hl].
      * lia.
      * intros i. destruct (split_pos i) as (k & j & -> & Hj). rewrite bitl_at by exact Hj. rewrite W.
        destruct (Nat.ltb_spec k ps), (Nat.ltb_spec (64 * k + j) sh); try lia; [apply N.bits_0|].
        replace (64 * k + j - sh) with (64 * (k - ps) + j) by lia. rewrite bitl_at by exact Hj. reflexivity.
  - (* words and bits *)
    assert (Hkr : 0 < kb < 64) by lia.
    replace (64 - N.of_nat kb)%N with (N.of_nat (64 - kb)) by lia.
    set (T := fun k => if k <? ps then 0%N else shw kb l (k - ps)).
    assert (THi : forall k, nn <= k -> T k = 0%N).
    { intros k Hk. unfold T. destruct (Nat.ltb_spec k ps); [reflexivity|].
      destruct (Nat.leb_spec (64 - kb) (d mod 64)).
      - apply (shw_zero kb l d); [assumption|assumption|lia].
      - destruct (Nat.eq_dec (k - ps) (d / 64 + 1)) as [->|].
        + apply shw_nospill; try assumption. lia.
        + apply (shw_zero kb l d); [assumption|assumption|lia]. }
    (* the partial top word *)
    match goal with |- context [bind ?m _] => assert (exists l2 di, m = Ok (l2, di) /\
        di = Z.of_nat (on - 1 + ps) /\ length l2 = nn /\
        forall k, nth k l2 0%N = if on - 1 + ps <? k then T k else nth k l 0%N) as (l2 & di & -> & -> & L2 & W2) end.
    { destruct (Nat.leb_spec (64 - kb) (d mod 64)) as [G|G].
      - rewrite rdw_ok by lia. rewrite bind_ok. unfold wrz. rewrite L1.
        destruct (Z.ltb_spec (Z.of_nat nn - 1) 0); [lia|]. rewrite wrw_ok by lia. rewrite bind_ok.
        eexists _, _. split; [reflexivity|]. split; [lia|]. split; [rewrite upd_length; exact L1|].
        intros k. rewrite upd_nth. replace (Z.to_nat (Z.of_nat nn - 1)) with (nn - 1) by lia.
        destruct (Nat.ltb_spec (nn - 1) (length l1)); [|lia]. rewrite andb_true_r.
        destruct (Nat.eqb_spec k (nn - 1)) as [->|].
        + destruct (Nat.ltb_spec (on - 1 + ps) (nn - 1)); [|lia]. unfold T.
          destruct (Nat.ltb_spec (nn - 1) ps); [lia|]. replace (nn - 1 - ps) with (S (d / 64)) by lia.
          unfold shw. rewrite (deg_words l d (S (d / 64))) by (try assumption; lia).
          unfold shl64 at 1. rewrite N.shiftl_0_l, N.land_0_l, N.lor_0_l, W1. f_equal. f_equal. lia.
        + rewrite W1. destruct (Nat.ltb_spec (on - 1 + ps) k); [|reflexivity].
          rewrite THi by lia. apply (deg_words l d); [assumption|assumption|lia].
      - eexists _, _. split; [reflexivity|]. split; [lia|]. split; [exact L1|].
        intros k. rewrite W1. destruct (Nat.ltb_spec (on - 1 + ps) k); [|reflexivity].
        rewrite THi by lia. apply (deg_words l d); [assumption|assumption|lia]. }
    rewrite bind_ok.
    match goal with |- context [for_down (on - 1) ?b (l2, ?z)] =>
      destruct (for_down_inv b
        (fun m (s : list N * Z) => snd s = Z.of_nat (m + ps) /\ length (fst s) = nn /\
           forall k, nth k (fst s) 0%N = if m + ps <? k then T k else nth k l 0%N) (on - 1) (l2, z))
        as ([l3 di3] & E3 & D3 & L3 & W3) end.
    { intros i [t dt] Hi (Dt & Lt & Wt). cbn [fst snd] in *. subst dt.
      rewrite !rdw_ok by lia. rewrite !bind_ok. unfold wrz.
      destruct (Z.ltb_spec (Z.of_nat (S i + ps)) 0); [lia|]. rewrite Nat2Z.id. rewrite wrw_ok by lia. rewrite bind_ok.
      eexists; split; [reflexivity|]. cbn [fst snd]. split; [lia|]. rewrite upd_length. split; [exact Lt|].
      intros k. rewrite upd_nth. destruct (Nat.ltb_spec (S i + ps) (length t)); [|lia]. rewrite andb_true_r.
      destruct (Nat.eqb_spec k (S i + ps)) as [->|].
      - destruct (Nat.ltb_spec (i + ps) (S i + ps)); [|lia]. unfold T.
        destruct (Nat.ltb_spec (S i + ps) ps); [lia|]. replace (S i + ps - ps) with (S i) by lia. unfold shw.
        rewrite !Wt. destruct (Nat.ltb_spec (S i + ps) i); [lia|]. destruct (Nat.ltb_spec (S i + ps) (S i)); [lia|].
        apply N.lor_comm.
      - rewrite Wt. destruct (Nat.ltb_spec (S i + ps) k), (Nat.ltb_spec (i + ps) k); try lia; reflexivity. }
    { cbn [fst snd]. split; [reflexivity|]. split; [exact L2|]. exact W2. }
    cbn [fst snd] in *. rewrite E3, bind_ok. subst di3. rewrite rdw_ok by lia. rewrite bind_ok.
    unfold wrz. destruct (Z.ltb_spec (Z.of_nat (0 + ps)) 0); [lia|]. rewrite Nat2Z.id. rewrite wrw_ok by lia.
    rewrite bind_ok. rewrite Nat.add_0_l. set (l4 := upd l3 ps _).
    assert (L4 : length l4 = nn) by (unfold l4; rewrite upd_length; exact L3).
    destruct (for_down_zero ps l4) as (l5 & E5 & L5 & W5); [lia|].
    exists l5. split; [exact E5|].
    assert (W : forall k, nth k l5 0%N = T k).
    { intros k. rewrite W5. unfold l4. rewrite upd_nth. destruct (Nat.ltb_spec ps (length l3)); [|lia].
      rewrite andb_true_r. destruct (Nat.ltb_spec k ps) as [G|G].
      { unfold T. destruct (Nat.ltb_spec k ps); [reflexivity|lia]. }
      destruct (Nat.eqb_spec k ps) as [->|].
      - unfold T. destruct (Nat.ltb_spec ps ps); [lia|]. rewrite Nat.sub_diag. unfold shw. rewrite W3.
        destruct (Nat.ltb_spec (0 + ps) 0); [lia|]. reflexivity.
      - rewrite W3. destruct (Nat.ltb_spec (0 + ps) k); [|lia]. reflexivity. }
    split; [|split].
    + split; [lia|]. intros k. rewrite W. unfold T. destruct (k <? ps); [apply w64_0|apply shw_w64; exact Hl].
    + lia.
    + replace sh with (64 * ps + kb) by lia. apply shift_words_bits; assumption.
Qed.

(* word k of a polynomial shifted down by one bit *)
Definition dhw (l : fpoly) (k : nat) : N := N.lor (N.shiftr (nth k l 0%N) 1) (shl64 (nth (S k) l 0%N) 63).
Lemma dhw_bit l k j : wok l -> j < 64 -> N.testbit (dhw l k) (N.of_nat j) = bitl l (S (64 * k + j)).
Proof.
  intros Hl Hj. unfold dhw. rewrite N.lor_spec. change 1%N with (N.of_nat 1). rewrite shr_bit.
  change 63%N with (N.of_nat 63). rewrite shl64_bit by exact Hj. destruct (Nat.ltb_spec j 63).
  - rewrite orb_false_r. replace (S (64 * k + j)) with (64 * k + (j + 1)) by lia. rewrite bitl_at by lia. reflexivity.
  - rewrite (proj2 Hl k (N.of_nat (j + 1))) by lia. rewrite orb_false_l.
    replace (S (64 * k + j)) with (64 * S k + (j - 63)) by lia. rewrite bitl_at by lia. reflexivity.
Qed.
Lemma dhw_w64 l k : wok l -> w64 (dhw l k).
Proof. intros Hl. unfold dhw. apply w64_lor; [apply w64_shr; apply Hl|apply w64_shl]. Qed.
Lemma demote_ok l : wok l -> exists l', demote_1 l = Ok l' /\ wok l' /\ (forall i, bitl l' i = bitl l (S i)) /\
  (canon l -> canon l').
Proof.
  intros Hl. unfold demote_1. destruct (Nat.eqb_spec (length l) 0) as [Z|_]; [destruct Hl; lia|].
  set (body := fun (i : nat) (l : list N) => x <- rdw l i ;; y <- rdw l (S i) ;; wrw l i _).
  destruct (for_up_inv body
     (fun m l2 => length l2 = length l /\
        forall k, nth k l2 0%N = if k <? m then dhw l k else nth k l 0%N) (length l - 1) 0 l) as (l1 & E & L1 & W1).
  { intros i t Hi [Lt Wt]. unfold body. rewrite !rdw_ok by lia. rewrite !bind_ok. rewrite wrw_ok by lia.
    eexists; split; [reflexivity|]. rewrite upd_length. split; [exact Lt|]. intros k. rewrite upd_nth.
    destruct (Nat.ltb_spec i (length t)); [|lia]. rewrite andb_true_r.
    destruct (Nat.eqb_spec k i) as [->|].
    - rewrite !Wt. destruct (Nat.ltb_spec i (S i)), (Nat.ltb_spec i i), (Nat.ltb_spec (S i) i); try lia. reflexivity.
    - rewrite Wt. destruct (Nat.ltb_spec k i), (Nat.ltb_spec k (S i)); try lia; reflexivity. }
  { split; [reflexivity|]. intros k. reflexivity. }
  rewrite E, bind_ok. rewrite Nat.add_0_l in W1. destruct Hl as [Hlen Hw]. assert (Hwok : wok l) by (split; assumption).
  rewrite rdw_ok by lia. rewrite bind_ok. rewrite wrw_ok by lia. rewrite bind_ok.
  rewrite W1. destruct (Nat.ltb_spec (length l1 - 1) (length l - 1)); [lia|]. rewrite L1.
  set (w := N.shiftr _ 1). set (l2 := upd l1 _ w).
  assert (W2 : forall k, nth k l2 0%N = dhw l k).
  { intros k. unfold l2. rewrite upd_nth. destruct (Nat.ltb_spec (length l - 1) (length l1)); [|lia].
    rewrite andb_true_r. unfold dhw. destruct (Nat.eqb_spec k (length l - 1)) as [->|].
    - rewrite (nth_overflow l (n := S (length l - 1))) by lia. unfold shl64. rewrite N.shiftl_0_l, N.land_0_l, N.lor_0_r.
      reflexivity.
    - rewrite W1. destruct (Nat.ltb_spec k (length l - 1)); [reflexivity|].
      rewrite !nth_overflow by lia. reflexivity. }
  assert (Wok2 : wok l2).
  { split; [unfold l2; rewrite upd_length; lia|]. intros k. rewrite W2. apply dhw_w64. exact Hwok. }
  assert (B2 : forall i, bitl l2 i = bitl l (S i)).
  { intros i. destruct (split_pos i) as (k & j & -> & Hj). rewrite bitl_at by exact Hj. rewrite W2.
    apply dhw_bit; assumption. }
  destruct (N.eqb_spec w 0) as [Ez|Ez].
  - destruct (trim_ok l2 Wok2) as (l3 & E3 & C3 & B3). exists l3. split; [exact E3|].
    split; [apply C3|]. split; [|intros _; exact C3]. intros i. rewrite B3. apply B2.
  - exists l2. split; [reflexivity|]. split; [exact Wok2|]. split; [exact B2|].
    intros _. split; [exact Wok2|]. right. unfold l2. rewrite upd_length, L1, upd_nth.
    rewrite Nat.eqb_refl. destruct (Nat.ltb_spec (length l - 1) (length l1)); [|lia]. exact Ez.
Qed.

(* ---------------------------------------------------------------- single bits *)
Lemma bit_at_ok l p : bit_at l (Z.of_nat p) = Ok (bitl l p).
Proof.
  unfold bit_at. destruct (Z.ltb_spec (Z.of_nat p) 0); [lia|]. rewrite Nat2Z.id.
  destruct (Nat.leb_spec (length l) (p / 64)).
  - unfold bitl. rewrite nth_overflow, N.bits_0 by assumption. reflexivity.
  - rewrite rdw_ok by assumption. reflexivity.
Qed.
Lemma bitl_upd l p w b : p / 64 < length l ->
  (forall j, N.testbit w (N.of_nat j) = if j =? p mod 64 then b else N.testbit (nth (p / 64) l 0%N) (N.of_nat j)) ->
  forall i, bitl (upd l (p / 64) w) i = if i =? p then b else bitl l i.
Proof.
  intros Hp Hw i. unfold bitl. rewrite upd_nth. destruct (Nat.ltb_spec (p / 64) (length l)); [|lia].
  rewrite andb_true_r. pose proof (Nat.div_mod i 64). pose proof (Nat.div_mod p 64).
  destruct (Nat.eqb_spec (i / 64) (p / 64)) as [E|E].
  - rewrite Hw. destruct (Nat.eqb_spec (i mod 64) (p mod 64)), (Nat.eqb_spec i p); try lia; [reflexivity|rewrite E; reflexivity].
  - destruct (Nat.eqb_spec i p); [subst; contradiction|reflexivity].
Qed.
Lemma upd_w64 l k w : (forall k, w64 (nth k l 0%N)) -> w64 w -> forall k', w64 (nth k' (upd l k w) 0%N).
Proof. intros H Hw k'. rewrite upd_nth. destruct (_ && _); [exact Hw|apply H]. Qed.
Lemma lor_bit w k j : N.testbit (N.lor w (N.shiftl 1 (N.of_nat k))) (N.of_nat j) = if j =? k then true else N.testbit w (N.of_nat j).
Proof.
  rewrite N.lor_spec, one_bit. replace (N.of_nat j =? N.of_nat k)%N with (j =? k) by lia.
  destruct (j =? k); [apply orb_true_r|apply orb_false_r].
Qed.
Lemma w64_one k : (k < 64)%N -> w64 (N.shiftl 1 k).
Proof. intros H j Hj. rewrite one_bit. apply N.eqb_neq. lia. Qed.
Lemma extend_up l n : length l <= n -> forall k, nth k (extend_parts l n) 0%N = nth k l 0%N.
Proof. intros H. apply extend_words. intros k Hk. apply nth_overflow. lia. Qed.
Lemma set_bit_ok l p : wok l -> exists l', set_bit l (Z.of_nat p) = Ok l' /\ wok l' /\
  (forall i, bitl l' i = if i =? p then true else bitl l i) /\ (canon l -> canon l').
Proof.
  intros Hl. unfold set_bit. destruct (Z.ltb_spec (Z.of_nat p) 0); [lia|]. rewrite Nat2Z.id.
  set (l1 := if length l <=? p / 64 then _ else _).
  assert (W1 : forall k, nth k l1 0%N = nth k l 0%N).
  { intros k. unfold l1. destruct (Nat.leb_spec (length l) (p / 64)); [|reflexivity]. apply extend_up. lia. }
  assert (L1 : p / 64 < length l1).
  { unfold l1. destruct (Nat.leb_spec (length l) (p / 64)); rewrite ?extend_length; lia. }
  rewrite rdw_ok by exact L1. rewrite bind_ok. rewrite wrw_ok by exact L1.
  eexists; split; [reflexivity|].
  assert (Hwk : w64 (N.lor (nth (p / 64) l1 0%N) (N.shiftl 1 (N.of_nat (p mod 64))))).
  { apply w64_lor; [rewrite W1; apply Hl|apply w64_one]. pose proof (Nat.mod_upper_bound p 64). lia. }
  assert (Wok : wok (upd l1 (p / 64) (N.lor (nth (p / 64) l1 0%N) (N.shiftl 1 (N.of_nat (p mod 64)))))).
  { split; [rewrite upd_length; lia|]. apply upd_w64; [intros k; rewrite W1; apply Hl|exact Hwk]. }
  split; [exact Wok|]. split.
  - intros i. rewrite bitl_upd with (b := true); [|exact L1|intros j; apply lor_bit].
    destruct (i =? p); [reflexivity|]. apply words_bitl. exact W1.
  - intros [_ Hc]. split; [exact Wok|]. rewrite upd_length, upd_nth.
    destruct (Nat.ltb_spec (p / 64) (length l1)); [|lia]. rewrite andb_true_r.
    destruct (Nat.eqb_spec (length l1 - 1) (p / 64)) as [E|E].
    + right. intros Z. assert (F := lor_bit (nth (p / 64) l1 0%N) (p mod 64) (p mod 64)).
      rewrite Z, N.bits_0, Nat.eqb_refl in F. discriminate.
    + unfold l1 in *. destruct (Nat.leb_spec (length l) (p / 64)).
      * rewrite extend_length in E. lia.
      * exact Hc.
Qed.
Lemma xor_into_ok out a : length a <= length out -> exists out', xor_into out a = Ok out' /\
  length out' = length out /\ (forall k, nth k out' 0%N = N.lxor (nth k out 0%N) (nth k a 0%N)).
Proof.
  intros H. unfold xor_into.
  destruct (for_up_inv (fun j out => x <- rdw out j ;; y <- rdw a j ;; wrw out j (N.lxor x y))
     (fun m o => length o = length out /\
        forall k, nth k o 0%N = if k <? m then N.lxor (nth k out 0%N) (nth k a 0%N) else nth k out 0%N)
     (length a) 0 out) as (o & E & L & W).
  - intros i t Hi [Lt Wt]. rewrite !rdw_ok by lia. rewrite !bind_ok. rewrite wrw_ok by lia.
    eexists; split; [reflexivity|]. rewrite upd_length. split; [exact Lt|]. intros k. rewrite upd_nth.
    destruct (Nat.ltb_spec i (length t)); [|lia]. rewrite andb_true_r.
    destruct (Nat.eqb_spec k i) as [->|].
    + rewrite Wt. destruct (Nat.ltb_spec i i), (Nat.ltb_spec i (S i)); try lia; reflexivity.
    + rewrite Wt. destruct (Nat.ltb_spec k i), (Nat.ltb_spec k (S i)); try lia; reflexivity.
  - split; [reflexivity|]. intros k. reflexivity.
  - exists o. split; [exact E|]. split; [exact L|]. intros k. rewrite W.
    destruct (Nat.ltb_spec k (0 + length a)); [reflexivity|]. rewrite (nth_overflow a) by lia. symmetry. apply N.lxor_0_r.
Qed.

(* ---------------------------------------------------------------- comparison *)
Definition bz (l : fpoly) : Prop := forall i, bitl l i = false.
Lemma bitZ_odd v : bitZ v = N.b2n (Z.odd v).
Proof. unfold bitZ. change 1%Z with (Z.ones 1). rewrite Z.land_ones by lia. rewrite <- Z.bit0_mod, Z.bit0_odd. destruct (Z.odd v); reflexivity. Qed.
Lemma wok1 w : w64 w -> wok [w].
Proof. intros H. split; [cbn; lia|]. intros [|[|k]]; [exact H|apply w64_0|apply w64_0]. Qed.
Lemma canon1 w : w64 w -> canon [w].
Proof. intros H. split; [apply wok1; exact H|left; reflexivity]. Qed.
Lemma w64_b2n b : w64 (N.b2n b).
Proof. apply w64_lt. destruct b; reflexivity. Qed.
Lemma of_int_canon v : canon (f2_of_int v).
Proof. unfold f2_of_int. rewrite bitZ_odd. apply canon1, w64_b2n. Qed.
Lemma of_int_bit v i : bitl (f2_of_int v) i = (i =? 0) && Z.odd v.
Proof.
  unfold f2_of_int. rewrite bitZ_odd. destruct (split_pos i) as (k & j & -> & Hj). rewrite bitl_at by exact Hj.
  destruct k as [|[|k]]; cbn [nth].
  - destruct j as [|j]; [destruct (Z.odd v); reflexivity|].
    replace (64 * 0 + S j =? 0) with false by (symmetry; apply Nat.eqb_neq; lia). cbn [andb].
    destruct (Z.odd v); cbn [N.b2n]; [|apply N.bits_0]. change 1%N with (2 ^ 0)%N. apply N.pow2_bits_false. lia.
  - rewrite N.bits_0. replace (64 * 1 + j =? 0) with false by (symmetry; apply Nat.eqb_neq; lia). reflexivity.
  - rewrite N.bits_0. replace (64 * S (S k) + j =? 0) with false by (symmetry; apply Nat.eqb_neq; lia). reflexivity.
Qed.
Lemma eq_int_ok l v : wok l -> exists b, f2_eq_int l v = Ok b /\
  (b = true <-> forall i, bitl l i = bitl (f2_of_int v) i).
Proof.
  intros Hl. unfold f2_eq_int. destruct (existsb _ (skipn 1 l)) eqn:E.
  - exists false. split; [reflexivity|]. split; [discriminate|]. intros H. exfalso.
    apply existsb_exists in E. destruct E as (w & Hin & Hw). apply negb_true_iff, N.eqb_neq in Hw. apply Hw.
    apply (In_nth _ _ 0%N) in Hin. destruct Hin as (k & Hk & <-).
    destruct l as [|x l]; [destruct k; reflexivity|]. cbn [skipn]. 
    assert (F := bitl_words _ _ Hl (proj1 (of_int_canon v)) H (S k)). cbn [nth] in F. rewrite F.
    unfold f2_of_int. destruct k; reflexivity.
  - rewrite rdw_ok by apply Hl. rewrite bind_ok. eexists; split; [reflexivity|]. rewrite N.eqb_eq. split.
    + intros H. apply words_bitl. intros [|k]; [exact H|]. unfold f2_of_int.
      replace (nth (S k) [bitZ v] 0%N) with 0%N by (destruct k; reflexivity).
      destruct l as [|x l]; [destruct k; reflexivity|]. cbn [skipn nth] in *.
      destruct (Nat.lt_ge_cases k (length l)) as [G|G]; [|apply nth_overflow; exact G].
      destruct (N.eq_dec (nth k l 0%N) 0) as [|N]; [assumption|].
      assert (X : existsb (fun w => negb (w =? 0)%N) l = true).
      { apply existsb_exists. exists (nth k l 0%N). split; [apply nth_In; exact G|]. apply negb_true_iff, N.eqb_neq, N. }
      congruence.
    + intros H. exact (bitl_words _ _ Hl (proj1 (of_int_canon v)) H 0).
Qed.

(* the first differing coefficient from the top decides *)
Definition lexlt (a b : nat -> bool) : Prop :=
  exists d, a d = false /\ b d = true /\ forall i, d < i -> a i = b i.
Lemma word_lt x y : w64 x -> w64 y -> (x < y)%N ->
  exists d, d < 64 /\ N.testbit x (N.of_nat d) = false /\ N.testbit y (N.of_nat d) = true /\
    forall i, d < i -> N.testbit x (N.of_nat i) = N.testbit y (N.of_nat i).
Proof.
  intros Hx Hy H. set (z := N.lxor x y).
  assert (Hz : z <> 0%N) by (unfold z; rewrite N.lxor_eq_0_iff; lia).
  assert (Wz : w64 z) by (apply w64_lxor; assumption).
  set (d := N.log2 z).
  assert (T : N.testbit z d = true) by (apply N.bit_log2; exact Hz).
  assert (Dd : (d < 64)%N).
  { destruct (N.lt_ge_cases d 64) as [|G]; [assumption|]. rewrite (Wz d G) in T. discriminate. }
  assert (Ab : forall i, (d < i)%N -> N.testbit x i = N.testbit y i).
  { intros i Hi. assert (F : N.testbit z i = false) by (apply N.bits_above_log2; exact Hi).
    unfold z in F. rewrite N.lxor_spec in F. destruct (N.testbit x i), (N.testbit y i); try reflexivity; discriminate. }
  exists (N.to_nat d). rewrite N2Nat.id. split; [lia|].
  assert (Hhi : N.shiftr x (N.succ d) = N.shiftr y (N.succ d)).
  { apply N.bits_inj. intros i. rewrite !N.shiftr_spec'. apply Ab. lia. }
  assert (Hd : N.testbit x d = false /\ N.testbit y d = true).
  { unfold z in T. rewrite N.lxor_spec in T.
    destruct (N.testbit x d) eqn:Ex, (N.testbit y d) eqn:Ey; try discriminate; [|split; reflexivity].
    exfalso.
    assert (S1 : N.shiftr x d = (2 * N.shiftr x (N.succ d) + 1)%N).
    { rewrite (N.div2_odd (N.shiftr x d)) at 1. rewrite <- N.bit0_odd, N.shiftr_spec', N.add_0_l, Ex.
      rewrite N.div2_spec, N.shiftr_shiftr. replace (N.succ d) with (d + 1)%N by lia. reflexivity. }
    assert (S2 : N.shiftr y d = (2 * N.shiftr y (N.succ d))%N).
    { rewrite (N.div2_odd (N.shiftr y d)) at 1. rewrite <- N.bit0_odd, N.shiftr_spec', N.add_0_l, Ey.
      rewrite N.div2_spec, N.shiftr_shiftr. replace (N.succ d) with (d + 1)%N by lia. cbn [N.b2n]. lia. }
    rewrite <- Hhi in S2. rewrite !N.shiftr_div_pow2 in S1, S2.
    assert (P : (0 < 2 ^ d)%N) by (apply N.neq_0_lt_0, N.pow_nonzero; lia).
    assert (L : (x / 2 ^ d <= y / 2 ^ d)%N) by (apply N.div_le_mono; lia).
    rewrite S1, S2 in L. clear - L. lia. }
  destruct Hd as [-> ->]. split; [reflexivity|]. split; [reflexivity|].
  intros i Hi. apply Ab. lia.
Qed.
Lemma cmp_words_ok a b : forall n, wok a -> wok b -> n <= length a -> n <= length b ->
  (forall k, n <= k -> nth k a 0%N = nth k b 0%N) ->
  exists c, cmp_words n a b = Ok c /\
    match c with
    | Eq => forall i, bitl a i = bitl b i
    | Lt => lexlt (bitl a) (bitl b)
    | Gt => lexlt (bitl b) (bitl a)
    end.
Proof.
  assert (K : forall a b n, wok a -> wok b -> (forall k, S n <= k -> nth k a 0%N = nth k b 0%N) ->
     (nth n a 0 < nth n b 0)%N -> lexlt (bitl a) (bitl b)).
  { clear. intros a b n Ha Hb Hk Hlt.
    destruct (word_lt _ _ (proj2 Ha n) (proj2 Hb n) Hlt) as (d & Hd & Fa & Fb & Hi).
    exists (64 * n + d). rewrite !bitl_at by exact Hd. split; [exact Fa|]. split; [exact Fb|].
    intros i Hlti. destruct (split_pos i) as (k & j & -> & Hj). rewrite !bitl_at by exact Hj.
    destruct (Nat.eq_dec k n) as [->|]; [apply Hi; lia|]. rewrite Hk by lia. reflexivity. }
  induction n as [|n IH]; intros Ha Hb La Lb Hk; cbn [cmp_words].
  - exists Eq. split; [reflexivity|]. apply words_bitl. intros k. apply Hk. lia.
  - rewrite !rdw_ok by lia. rewrite !bind_ok.
    destruct (N.ltb_spec (nth n a 0%N) (nth n b 0%N)) as [H|H].
    + exists Lt. split; [reflexivity|]. apply (K a b n); assumption.
    + destruct (N.ltb_spec (nth n b 0%N) (nth n a 0%N)) as [H'|H'].
      * exists Gt. split; [reflexivity|]. apply (K b a n); try assumption. intros k G; symmetry; auto.
      * apply IH; try assumption; try lia. intros k G. destruct (Nat.eq_dec k n) as [->|]; [lia|apply Hk; lia].
Qed.
Lemma cmp_ok a b : wok a -> wok b -> exists c, f2_cmp a b = Ok c /\
    match c with
    | Eq => forall i, bitl a i = bitl b i
    | Lt => lexlt (bitl a) (bitl b)
    | Gt => lexlt (bitl b) (bitl a)
    end.
Proof.
  intros Ha Hb. unfold f2_cmp.
  destruct (degree_ok a Ha) as (da & -> & Da). rewrite bind_ok.
  destruct (degree_ok b Hb) as (db & -> & Db). rewrite bind_ok.
  assert (K : forall a b da db, isdeg a da -> isdeg b db -> da < db -> lexlt (bitl a) (bitl b)).
  { clear. intros a b da db [A1 A2] [B1 B2] H. exists db. split; [apply A1; exact H|].
    split; [destruct B2 as [|]; [assumption|lia]|]. intros i Hi. rewrite A1, B1 by lia. reflexivity. }
  destruct (Nat.ltb_spec da db).
  - exists Lt. split; [reflexivity|]. apply (K a b da db); assumption.
  - destruct (Nat.ltb_spec db da).
    + exists Gt. split; [reflexivity|]. apply (K b a db da); assumption.
    + assert (da = db) by lia. subst db.
      pose proof (deg_len a da Ha Da). pose proof (deg_len b da Hb Db).
      apply cmp_words_ok; try assumption; try lia.
      intros k Hk. rewrite (deg_words a da), (deg_words b da) by (try assumption; lia). reflexivity.
Qed.
Lemma lexlt_irr a b : lexlt a b -> ~ (forall i, a i = b i).
Proof. intros (d & A & B & _) H. rewrite H in A. congruence. Qed.
Lemma lexlt_asym a b : lexlt a b -> ~ lexlt b a.
Proof.
  intros (d & A & B & C) (d' & A' & B' & C'). destruct (Nat.lt_trichotomy d d') as [L|[->|L]].
  - rewrite C in B' by exact L. congruence.
  - congruence.
  - rewrite C' in B by exact L. congruence.
Qed.
Lemma eqb_ok a b : wok a -> wok b -> exists r, f2_eqb a b = Ok r /\ (r = true <-> forall i, bitl a i = bitl b i).
Proof.
  intros Ha Hb. unfold f2_eqb. destruct (cmp_ok a b Ha Hb) as (c & -> & H). rewrite bind_ok.
  eexists; split; [reflexivity|]. destruct c.
  - split; [intros _; exact H|reflexivity].
  - split; [discriminate|]. intros E. elim (lexlt_irr _ _ H E).
  - split; [discriminate|]. intros E. elim (lexlt_irr _ _ H). intros i; symmetry; apply E.
Qed.
