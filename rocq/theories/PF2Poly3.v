(* GF(2) polynomials: the integer whose binary digits are the coefficients; order,
   increment, derivative, square root, parity, text. *)
From Verif Require Import Base MIntMath PIntMath2 MMisc PMisc MMat MBits PBits MF2Poly PF2Poly.
Open Scope nat_scope.

Fixpoint valN (l : fpoly) : N :=
  match l with [] => 0%N | w :: l' => (w + 2 ^ 64 * valN l')%N end.

Lemma valN_bit l i : (forall k, w64 (nth k l 0%N)) -> N.testbit (valN l) (N.of_nat i) = bitl l i.
Proof.
  revert i; induction l as [|w l IH]; intros i H.
  - cbn [valN]. rewrite N.bits_0. unfold bitl. destruct (i / 64); cbn [nth]; symmetry; apply N.bits_0.
  - cbn [valN]. assert (Hw : w64 w) by apply (H 0).
    assert (Hl : forall k, w64 (nth k l 0%N)) by (intros k; apply (H (S k))).
    assert (E : (w + 2 ^ 64 * valN l = N.lor w (N.shiftl (valN l) 64))%N).
    { rewrite N.shiftl_mul_pow2, N.mul_comm. symmetry.
      assert (D : N.land w (valN l * 2 ^ 64) = 0%N).
      { apply N.bits_inj. intros j. rewrite N.land_spec, N.bits_0. destruct (N.lt_ge_cases j 64).
        - rewrite N.mul_pow2_bits_low by assumption. apply andb_false_r.
        - rewrite Hw by assumption. reflexivity. }
      rewrite <- N.lxor_lor by exact D. symmetry. apply N.add_nocarry_lxor. exact D. }
    rewrite E, N.lor_spec. destruct (Nat.lt_ge_cases i 64) as [G|G].
    + rewrite N.shiftl_spec_low by lia. rewrite orb_false_r.
      change i with (64 * 0 + i) at 2. rewrite bitl_at by exact G. reflexivity.
    + rewrite Hw by lia. rewrite orb_false_l, N.shiftl_spec_high' by lia.
      replace (N.of_nat i - 64)%N with (N.of_nat (i - 64)) by lia. rewrite IH by exact Hl.
      destruct (split_pos i) as (k & j & -> & Hj). destruct k as [|k]; [lia|].
      replace (64 * S k + j - 64) with (64 * k + j) by lia. rewrite !bitl_at by exact Hj. reflexivity.
Qed.
Lemma valN_ext l l' : wok l -> wok l' -> (forall i, bitl l i = bitl l' i) -> valN l = valN l'.
Proof.
  intros [_ H] [_ H'] E. apply N.bits_inj. intros i. rewrite <- (N2Nat.id i), !valN_bit by assumption. apply E.
Qed.
Lemma valN_bits l l' : wok l -> wok l' -> valN l = valN l' -> forall i, bitl l i = bitl l' i.
Proof. intros [_ H] [_ H'] E i. rewrite <- !valN_bit by assumption. rewrite E. reflexivity. Qed.
Lemma valN_inj l l' : canon l -> canon l' -> valN l = valN l' -> l = l'.
Proof. intros H H' E. apply canon_eq; try assumption. apply valN_bits; [apply H|apply H'|exact E]. Qed.

(* ---------------------------------------------------------------- order *)
Lemma N_lt_bits x y d : N.testbit x d = false -> N.testbit y d = true ->
  (forall i, (d < i)%N -> N.testbit x i = N.testbit y i) -> (x < y)%N.
Proof.
  intros Hx Hy Hi.
  assert (Hhi : N.shiftr x (N.succ d) = N.shiftr y (N.succ d)).
  { apply N.bits_inj. intros i. rewrite !N.shiftr_spec'. apply Hi. lia. }
  assert (S2 : N.shiftr y d = (2 * N.shiftr y (N.succ d) + 1)%N).
  { rewrite (N.div2_odd (N.shiftr y d)) at 1. rewrite <- N.bit0_odd, N.shiftr_spec', N.add_0_l, Hy.
    rewrite N.div2_spec, N.shiftr_shiftr. replace (N.succ d) with (d + 1)%N by lia. reflexivity. }
  assert (S1 : N.shiftr x d = (2 * N.shiftr x (N.succ d))%N).
  { rewrite (N.div2_odd (N.shiftr x d)) at 1. rewrite <- N.bit0_odd, N.shiftr_spec', N.add_0_l, Hx.
    rewrite N.div2_spec, N.shiftr_shiftr. replace (N.succ d) with (d + 1)%N by lia. cbn [N.b2n]. lia. }
  rewrite Hhi in S1. rewrite !N.shiftr_div_pow2 in S1, S2.
  assert (P : (2 ^ d <> 0)%N) by (apply N.pow_nonzero; lia).
  destruct (N.lt_ge_cases x y) as [|L]; [assumption|]. exfalso.
  assert (L2 : (y / 2 ^ d <= x / 2 ^ d)%N) by (apply N.div_le_mono; [exact P|exact L]).
  rewrite S1, S2 in L2. clear - L2. lia.
Qed.
Lemma lexlt_valN a b : wok a -> wok b -> lexlt (bitl a) (bitl b) -> (valN a < valN b)%N.
Proof.
  intros [_ Ha] [_ Hb] (d & A & B & C). apply (N_lt_bits _ _ (N.of_nat d)).
  - rewrite valN_bit by exact Ha. exact A.
  - rewrite valN_bit by exact Hb. exact B.
  - intros i Hi. rewrite <- (N2Nat.id i), !valN_bit by assumption. apply C. lia.
Qed.
Lemma cmp_valN a b : wok a -> wok b -> f2_cmp a b = Ok (N.compare (valN a) (valN b)).
Proof.
  intros Ha Hb. destruct (cmp_ok a b Ha Hb) as (c & -> & H). f_equal. symmetry. destruct c.
  - apply N.compare_eq_iff. apply valN_ext; assumption.
  - apply N.compare_lt_iff. apply lexlt_valN; assumption.
  - apply N.compare_gt_iff. apply lexlt_valN; assumption.
Qed.

(* ---------------------------------------------------------------- increment *)
Lemma inc_words_ok l : (forall k, w64 (nth k l 0%N)) -> forall m c, inc_words l = (m, c) ->
  length m = length l /\ (forall k, w64 (nth k m 0%N)) /\
  (valN m + (if c then 2 ^ (64 * N.of_nat (length l)) else 0) = valN l + 1)%N /\
  (l <> [] -> nth (length l - 1) l 0%N <> 0%N -> c = false -> nth (length m - 1) m 0%N <> 0%N) /\
  (c = true -> forall k, nth k m 0%N = 0%N).
Proof.
  induction l as [|w l IH]; intros H m c E; cbn [inc_words] in E.
  - injection E as <- <-. split; [reflexivity|]. split; [intros [|k]; apply w64_0|]. split; [reflexivity|].
    split; [intros C; contradiction|]. intros _ [|k]; reflexivity.
  - assert (Hl : forall k, w64 (nth k l 0%N)) by (intros k; apply (H (S k))).
    destruct (N.eqb_spec w (N.ones 64)) as [Ew|Ew].
    + destruct (inc_words l) as [m' c'] eqn:El. injection E as <- <-.
      destruct (IH Hl m' c' eq_refl) as (L & W & V & T & Z).
      split; [cbn [length]; lia|]. split; [intros [|k]; [apply w64_0|apply W]|]. split.
      { cbn [valN length]. rewrite Ew. change (N.ones 64) with (2 ^ 64 - 1)%N.
        replace (64 * N.of_nat (S (length l)))%N with (64 + 64 * N.of_nat (length l))%N by lia.
        rewrite N.pow_add_r. destruct c'; nia. }
      split.
      { intros _ Hn Hc. cbn [length] in *. replace (S (length l) - 1) with (length l) in Hn by lia.
        replace (S (length m') - 1) with (length m') by lia. destruct l as [|x l0].
        - cbn [inc_words] in El. injection El as <- <-. discriminate.
        - destruct m' as [|y m0]; [discriminate|]. cbn [length nth] in *.
          replace (S (length m0)) with (S (length m0)) by lia.
          specialize (T ltac:(discriminate)). replace (S (length l0) - 1) with (length l0) in T by lia.
          replace (S (length m0) - 1) with (length m0) in T by lia. apply T; assumption. }
      { intros Hc [|k]; [reflexivity|]. cbn [nth]. apply Z. exact Hc. }
    + injection E as <- <-. assert (Hw : w64 w) by apply (H 0). apply w64_lt in Hw.
      split; [reflexivity|]. split.
      { intros [|k]; [|apply Hl]. cbn [nth]. apply w64_lt. change (N.ones 64) with (2 ^ 64 - 1)%N in Ew. lia. }
      split; [cbn [valN]; lia|]. split; [|discriminate].
      intros _ Hn _. cbn [length] in *. destruct l as [|x l0]; [cbn; lia|]. exact Hn.
Qed.
Lemma increment_ok l : wok l -> exists l', f2_increment l = Ok l' /\ wok l' /\
  valN l' = (valN l + 1)%N /\ (canon l -> canon l').
Proof.
  intros [Hlen Hw]. unfold f2_increment. destruct (inc_words l) as [m c] eqn:E.
  destruct (inc_words_ok l Hw m c E) as (L & W & V & T & Z). destruct c.
  - destruct (set_bit_ok m (length m * 64)) as (l' & E' & W' & B' & C'); [split; [lia|exact W]|].
    exists l'. split; [exact E'|]. split; [exact W'|].
    assert (Vm : valN m = 0%N).
    { apply N.bits_inj. intros i. rewrite <- (N2Nat.id i), valN_bit, N.bits_0 by exact W. unfold bitl.
      rewrite Z by reflexivity. apply N.bits_0. }
    split.
    + rewrite Vm in V. rewrite <- V, N.add_0_l. apply N.bits_inj. intros i.
      rewrite <- (N2Nat.id i), valN_bit by apply W'. rewrite B'.
      assert (Bm : bitl m (N.to_nat i) = false) by (unfold bitl; rewrite Z by reflexivity; apply N.bits_0).
      rewrite Bm. destruct (Nat.eqb_spec (N.to_nat i) (length m * 64)) as [->|Hne].
      * rewrite L. replace (N.of_nat (length l * 64)) with (64 * N.of_nat (length l))%N by lia.
        symmetry. apply N.pow2_bits_true.
      * symmetry. apply N.pow2_bits_false. rewrite L in Hne. lia.
    + intros Hc. split; [exact W'|]. right.
      unfold set_bit in E'. destruct (Z.ltb_spec (Z.of_nat (length m * 64)) 0); [lia|].
      rewrite Nat2Z.id in E'. rewrite Nat.div_mul in E' by lia. rewrite Nat.leb_refl in E'.
      rewrite Nat.mod_mul in E' by lia.
      rewrite rdw_ok in E' by (rewrite extend_length; lia). rewrite bind_ok in E'.
      rewrite wrw_ok in E' by (rewrite extend_length; lia). injection E' as <-.
      rewrite upd_length, extend_length, upd_nth, extend_length. replace (length m + 1 - 1) with (length m) by lia.
      rewrite Nat.eqb_refl. destruct (Nat.ltb_spec (length m) (length m + 1)); [|lia]. cbn [andb].
      rewrite extend_nth. destruct (Nat.ltb_spec (length m) (length m + 1)); [|lia]. rewrite nth_overflow by lia.
      discriminate.
  - exists m. split; [reflexivity|]. split; [split; [lia|exact W]|]. split; [lia|].
    intros [_ Hc]. split; [split; [lia|exact W]|]. destruct Hc as [Hc|Hc]; [left; lia|right].
    apply T; try assumption; [intros ->; cbn in Hlen; lia|reflexivity].
Qed.

(* ---------------------------------------------------------------- derivative *)
Lemma mask01_bit j : j < 64 -> N.testbit mask01 (N.of_nat j) = Nat.even j.
Proof.
  intros H. assert (F : forallb (fun j => Bool.eqb (N.testbit mask01 (N.of_nat j)) (Nat.even j)) (seq 0 64) = true)
    by reflexivity.
  rewrite forallb_forall in F. specialize (F j). rewrite in_seq in F. apply eqb_prop. apply F. lia.
Qed.
Lemma nth_map0 (f : N -> N) l k : f 0%N = 0%N -> nth k (map f l) 0%N = f (nth k l 0%N).
Proof. intros H. revert k; induction l as [|x l IH]; intros [|k]; cbn [map nth]; auto. Qed.
Lemma deriv_ok a : wok a -> exists l, f2_deriv a = Ok l /\ canon l /\
  forall i, bitl l i = Nat.even i && bitl a (S i).
Proof.
  intros Ha. unfold f2_deriv. destruct (demote_ok a Ha) as (l1 & -> & W1 & B1 & _). rewrite bind_ok.
  set (l2 := map _ l1).
  assert (N2 : forall k, nth k l2 0%N = N.land (nth k l1 0%N) mask01).
  { intros k. unfold l2. apply (nth_map0 (fun w => N.land w mask01)). reflexivity. }
  destruct (trim_ok l2) as (l & -> & Hc & B).
  - split; [unfold l2; rewrite map_length; apply W1|]. intros k. rewrite N2. apply w64_land, W1.
  - exists l. split; [reflexivity|]. split; [exact Hc|]. intros i. rewrite B, <- B1.
    destruct (split_pos i) as (k & j & -> & Hj). rewrite !bitl_at by exact Hj. rewrite N2, N.land_spec.
    rewrite mask01_bit by exact Hj. rewrite andb_comm. f_equal.
    rewrite Nat.even_add, Nat.even_mul. cbn. destruct (Nat.even j); reflexivity.
Qed.

(* ---------------------------------------------------------------- square root *)
Lemma sqrt_loop_ok a k : forall di root, canon root ->
  exists r, sqrt_loop k a di root = Ok r /\
    match r with
    | None => exists j, di <= j < di + k /\ bitl a (2 * j + 1) = true
    | Some l => canon l /\ (forall j, di <= j < di + k -> bitl a (2 * j + 1) = false) /\
        forall i, bitl l i = bitl root i || ((di <=? i) && (i <? di + k) && bitl a (2 * i))
    end.
Proof.
  induction k as [|k IH]; intros di root Hc; cbn [sqrt_loop].
  - exists (Some root). split; [reflexivity|]. split; [exact Hc|]. split; [intros j Hj; lia|].
    intros i. destruct (Nat.leb_spec di i), (Nat.ltb_spec i (di + 0)); try lia; cbn [andb]; rewrite orb_false_r; reflexivity.
  - rewrite bit_at_ok, bind_ok.
    assert (exists root', (if bitl a (2 * di) then set_bit root (Z.of_nat di) else Ok root) = Ok root' /\
       canon root' /\ forall i, bitl root' i = bitl root i || ((i =? di) && bitl a (2 * i))) as (root' & -> & C' & B').
    { destruct (bitl a (2 * di)) eqn:E.
      - destruct (set_bit_ok root di (proj1 Hc)) as (l & -> & _ & B & C). exists l. split; [reflexivity|].
        split; [apply C; exact Hc|]. intros i. rewrite B. destruct (Nat.eqb_spec i di) as [->|].
        + rewrite E. cbn [andb]. rewrite orb_true_r. reflexivity.
        + cbn [andb]. rewrite orb_false_r. reflexivity.
      - exists root. split; [reflexivity|]. split; [exact Hc|]. intros i. destruct (Nat.eqb_spec i di) as [->|].
        + rewrite E. rewrite andb_false_r, orb_false_r. reflexivity.
        + cbn [andb]. rewrite orb_false_r. reflexivity. }
    rewrite bind_ok, bit_at_ok, bind_ok. destruct (bitl a (2 * di + 1)) eqn:Eo.
    + exists None. split; [reflexivity|]. exists di. split; [lia|exact Eo].
    + destruct (IH (S di) root' C') as (r & -> & Hr). exists r. split; [reflexivity|]. destruct r as [l|].
      * destruct Hr as (Cl & Ho & Bl). split; [exact Cl|]. split.
        { intros j Hj. destruct (Nat.eq_dec j di) as [->|]; [exact Eo|apply Ho; lia]. }
        intros i. rewrite Bl, B'. rewrite <- orb_assoc. f_equal.
        destruct (Nat.eqb_spec i di) as [->|].
        -- destruct (Nat.leb_spec (S di) di), (Nat.leb_spec di di), (Nat.ltb_spec di (di + S k)); try lia.
           cbn [andb]. apply orb_false_r.
        -- cbn [andb orb]. replace (S di + k) with (di + S k) by lia.
           destruct (Nat.leb_spec (S di) i), (Nat.leb_spec di i); try lia; reflexivity.
      * destruct Hr as (j & Hj & T). exists j. split; [lia|exact T].
Qed.
Lemma sqrt_ok a : wok a -> exists r, f2_sqrt a = Ok r /\
  match r with
  | None => exists j, bitl a (2 * j + 1) = true
  | Some l => canon l /\ (forall j, bitl a (2 * j + 1) = false) /\ forall i, bitl l i = bitl a (2 * i)
  end.
Proof.
  intros Ha. unfold f2_sqrt. destruct (degree_ok a Ha) as (d & -> & [Hd _]). rewrite bind_ok.
  destruct (sqrt_loop_ok a (d / 2 + 1) 0 (f2_of_int 0) (of_int_canon 0)) as (r & -> & Hr).
  exists r. split; [reflexivity|]. destruct r as [l|].
  - destruct Hr as (Cl & Ho & Bl). pose proof (Nat.div_mod d 2). pose proof (Nat.mod_upper_bound d 2).
    split; [exact Cl|]. split.
    + intros j. destruct (Nat.lt_ge_cases j (d / 2 + 1)); [apply Ho; lia|]. apply Hd. lia.
    + intros i. rewrite Bl, of_int_bit, andb_false_r. cbn [orb].
      destruct (Nat.leb_spec 0 i); [|lia]. destruct (Nat.ltb_spec i (0 + (d / 2 + 1))); cbn [andb]; [reflexivity|].
      symmetry. apply Hd. lia.
  - destruct Hr as (j & _ & T). exists j. exact T.
Qed.

(* ---------------------------------------------------------------- evaluation *)
Lemma wpar_up w : wpar w = xsum (map (fun i => N.testbit w (N.of_nat i)) (seq 0 64)).
Proof. unfold wpar. rewrite <- xsum_rev. f_equal. Qed.
Lemma cnt8 w : count_one_bits (bytes64 w) 8 = Ok (weight (bytes64 w)).
Proof.
  change 8%Z with (Z.of_nat (length (bytes64 w))).
  apply count_one_bits_ok; [apply bytes64_range|cbn; unfold INT_MAX; lia].
Qed.
Lemma zcount_ok l : (64 * Z.of_nat (length l) <= INT_MAX)%Z ->
  zcount_one_bits l = Ok (Z.b2z (xsum (map (bitl l) (seq 0 (64 * length l))))).
Proof.
  intros H. unfold zcount_one_bits.
  assert (K : forall l acc, (0 <= acc)%Z -> (acc + 64 * Z.of_nat (length l) <= INT_MAX)%Z ->
    exists n, foldM (fun acc w => c <- count_one_bits (bytes64 w) 8 ;; iadd acc c) l acc = Ok n /\
      Z.odd n = xorb (Z.odd acc) (xsum (map (bitl l) (seq 0 (64 * length l))))).
  { clear. induction l as [|w l IH]; intros acc H0 H1; cbn [foldM].
    - exists acc. split; [reflexivity|]. cbn. rewrite xorb_false_r. reflexivity.
    - rewrite cnt8, bind_ok.
      pose proof (weight_bound (bytes64 w)) as WB. replace (length (bytes64 w)) with 8 in WB by reflexivity.
      cbn [length] in H1. assert (EA : iadd acc (weight (bytes64 w)) = Ok (acc + weight (bytes64 w))%Z)
        by (unfold iadd; apply chk_ok; unfold INT_MIN in *; lia). rewrite EA, bind_ok.
      destruct (IH (acc + weight (bytes64 w))%Z) as (n & -> & Hn); [lia|lia|].
      exists n. split; [reflexivity|]. rewrite Hn, Z.odd_add, odd_popcount, xorb_assoc. f_equal.
      replace (64 * length (w :: l)) with (64 + 64 * length l) by (cbn [length]; lia).
      rewrite seq_app, map_app, xsum_app. f_equal.
      + rewrite wpar_up. f_equal.
      + f_equal. rewrite <- (map_add_seq 64 (64 * length l) 0) at 1 || idtac.
        replace (seq (0 + 64) (64 * length l)) with (map (fun i => 64 + i) (seq 0 (64 * length l))) by (rewrite map_add_seq; reflexivity).
        rewrite map_map. apply map_ext. intros i. destruct (split_pos i) as (k & j & -> & Hj).
        replace (64 + (64 * k + j)) with (64 * S k + j) by lia. rewrite !bitl_at by exact Hj. reflexivity. }
  destruct (K l 0%Z) as (n & -> & Hn); [lia|exact H|]. rewrite bind_ok. f_equal.
  rewrite xorb_false_l in Hn. rewrite <- Hn. rewrite Z.land_comm.
  change 1%Z with (Z.ones 1). rewrite Z.land_ones by lia. rewrite <- Z.bit0_mod, Z.bit0_odd. reflexivity.
Qed.

(* ---------------------------------------------------------------- text *)
Definition digit_val (acc : N) (c : Z) : N := (acc * 16 + Z.to_N (hexval c))%N.
Definition hex_value (s : list Z) : N := fold_left digit_val s 0%N.

Lemma hexdig_ok d : (d < 16)%N -> hexval (hexdig d) = Z.of_N d /\ is_xdigit (hexdig d) = true /\ is_blank (hexdig d) = false.
Proof.
  intros H. assert (F : forallb (fun n => let d := N.of_nat n in (hexval (hexdig d) =? Z.of_N d)%Z &&
     is_xdigit (hexdig d) && negb (is_blank (hexdig d))) (seq 0 16) = true) by reflexivity.
  rewrite forallb_forall in F. specialize (F (N.to_nat d)). rewrite in_seq in F. cbv zeta in F. rewrite N2Nat.id in F.
  specialize (F ltac:(lia)). apply andb_prop in F. destruct F as [F F3]. apply andb_prop in F. destruct F as [F1 F2].
  split; [apply Z.eqb_eq; exact F1|]. split; [exact F2|]. apply negb_true_iff. exact F3.
Qed.
Lemma land15 w : N.land w 15 = (w mod 16)%N.
Proof. change 15%N with (N.ones 4). apply N.land_ones. Qed.
Lemma hex_digits_val k : forall w acc, fold_left digit_val (hex_digits k w) acc = (acc * 16 ^ N.of_nat k + w mod 16 ^ N.of_nat k)%N.
Proof.
  induction k as [|k IH]; intros w acc; cbn [hex_digits].
  - cbn [fold_left]. change (N.of_nat 0) with 0%N. rewrite N.pow_0_r, N.mod_1_r. lia.
  - rewrite fold_left_app, IH. cbn [fold_left]. unfold digit_val at 1.
    assert (H15 : (N.land w 15 < 16)%N) by (rewrite land15; apply N.mod_upper_bound; lia).
    rewrite (proj1 (hexdig_ok (N.land w 15) H15)).
    rewrite N2Z.id, land15, N.shiftr_div_pow2. change (2 ^ 4)%N with 16%N.
    replace (N.of_nat (S k)) with (N.succ (N.of_nat k)) by lia. rewrite N.pow_succ_r by lia.
    rewrite (N.mod_mul_r w 16 (16 ^ N.of_nat k)) by (try apply N.pow_nonzero; lia). lia.
Qed.
Lemma hex_digits_all k : forall w, Forall (fun c => is_xdigit c = true /\ is_blank c = false) (hex_digits k w).
Proof.
  induction k as [|k IH]; intros w; cbn [hex_digits]; [constructor|].
  apply Forall_app. split; [apply IH|]. constructor; [|constructor].
  apply hexdig_ok. rewrite land15. apply N.mod_upper_bound. lia.
Qed.
Lemma hex_digits_len k : forall w, length (hex_digits k w) = k.
Proof. induction k as [|k IH]; intros w; cbn [hex_digits]; [reflexivity|]. rewrite app_length, IH. cbn. lia. Qed.
Lemma hex_word_val w : fold_left digit_val (hex_word w) 0%N = w.
Proof.
  unfold hex_word. rewrite hex_digits_val, N.mul_0_l, N.add_0_l. destruct (N.eqb_spec w 0) as [->|H]; [reflexivity|].
  apply N.mod_small. change 16%N with (2 ^ 4)%N. rewrite <- N.pow_mul_r. apply N.log2_lt_pow2; [lia|].
  pose proof (Nat.div_mod (N.to_nat (N.log2 w)) 4). pose proof (Nat.mod_upper_bound (N.to_nat (N.log2 w)) 4). lia.
Qed.
Lemma print_tail_val l i : (forall k, w64 (nth k l 0%N)) -> i <= length l -> forall acc,
  fold_left digit_val (f2_print_tail i l) acc = (acc * 2 ^ (64 * N.of_nat i) + valN (firstn i l))%N.
Proof.
  intros H. induction i as [|i IH]; intros Hi acc; cbn [f2_print_tail].
  - cbn [fold_left firstn valN]. change (64 * N.of_nat 0)%N with 0%N. rewrite N.pow_0_r. lia.
  - rewrite fold_left_app. unfold hex_padded. rewrite hex_digits_val. rewrite IH by lia.
    change (16 ^ N.of_nat 16)%N with (2 ^ 64)%N.
    rewrite (N.mod_small (nth i l 0%N)) by (apply w64_lt, H).
    assert (E : firstn (S i) l = firstn i l ++ [nth i l 0%N]).
    { clear -Hi. revert i Hi; induction l as [|x l IH]; intros [|i] Hi; cbn [length firstn nth app] in *; try lia; [reflexivity|].
      f_equal. apply IH. lia. }
    rewrite E. replace (64 * N.of_nat (S i))%N with (64 + 64 * N.of_nat i)%N by lia. rewrite N.pow_add_r.
    assert (V : forall m x, valN (m ++ [x]) = (valN m + x * 2 ^ (64 * N.of_nat (length m)))%N).
    { clear. induction m as [|y m IH]; intros x; cbn [app valN length].
      - change (64 * N.of_nat 0)%N with 0%N. rewrite N.pow_0_r. lia.
      - rewrite IH. replace (64 * N.of_nat (S (length m)))%N with (64 + 64 * N.of_nat (length m))%N by lia.
        rewrite N.pow_add_r. lia. }
    rewrite V, firstn_length, Nat.min_l by lia. lia.
Qed.
Lemma valN_firstn l n : (forall k, n <= k -> nth k l 0%N = 0%N) -> valN (firstn n l) = valN l.
Proof.
  revert n; induction l as [|x l IH]; intros [|n] H; cbn [firstn valN]; try reflexivity.
  - assert (x = 0%N) by (apply (H 0); lia). subst x. rewrite <- (IH 0); [reflexivity|].
    intros k Hk. apply (H (S k)). lia.
  - rewrite IH; [reflexivity|]. intros k Hk. apply (H (S k)). lia.
Qed.
Lemma print_ok l : wok l -> exists s, f2_print l = Ok s /\ hex_value s = valN l /\ s <> [] /\
  Forall (fun c => is_xdigit c = true /\ is_blank c = false) s.
Proof.
  intros [Hl Hw]. unfold f2_print. destruct (Nat.eqb_spec (length l) 0); [lia|].
  set (i := leader_pos l).
  assert (Hi : i < length l /\ forall k, i < k -> nth k l 0%N = 0%N).
  { unfold i, leader_pos. destruct (top_word l (length l)) as [[j w]|] eqn:E.
    - destruct (top_word_some _ _ _ _ E) as (A & _ & _ & D). split; [exact A|]. intros k Hk.
      destruct (Nat.lt_ge_cases k (length l)); [apply D; lia|apply nth_overflow; assumption].
    - split; [exact Hl|]. intros k Hk. destruct (Nat.lt_ge_cases k (length l)); [|apply nth_overflow; assumption].
      apply (top_word_none _ _ E); assumption. }
  destruct Hi as [Hi Hz]. clearbody i. eexists; split; [reflexivity|]. split; [|split].
  - unfold hex_value. rewrite fold_left_app, hex_word_val, print_tail_val by (try assumption; lia).
    rewrite <- (valN_firstn l (S i)) by (intros k Hk; apply Hz; lia).
    assert (E : firstn (S i) l = firstn i l ++ [nth i l 0%N]).
    { clear -Hi. revert i Hi; induction l as [|x l IH]; intros [|i] Hi; cbn [length firstn nth app] in *; try lia; [reflexivity|].
      f_equal. apply IH. lia. }
    rewrite E.
    assert (V : forall m x, valN (m ++ [x]) = (valN m + x * 2 ^ (64 * N.of_nat (length m)))%N).
    { clear. induction m as [|y m IH]; intros x; cbn [app valN length].
      - change (64 * N.of_nat 0)%N with 0%N. rewrite N.pow_0_r. lia.
      - rewrite IH. replace (64 * N.of_nat (S (length m)))%N with (64 + 64 * N.of_nat (length m))%N by lia.
        rewrite N.pow_add_r. lia. }
    rewrite V, firstn_length, Nat.min_l by lia. lia.
  - intros E. apply app_eq_nil in E. destruct E as [E _]. apply (f_equal (@length Z)) in E.
    unfold hex_word in E. rewrite hex_digits_len in E. cbn [length] in E. destruct (_ =? _)%N; lia.
  - apply Forall_app. split; [apply hex_digits_all|]. clear. induction i as [|i IH]; cbn [f2_print_tail]; [constructor|].
    apply Forall_app. split; [apply hex_digits_all|exact IH].
Qed.

Lemma hexval_bound c : is_xdigit c = true -> (0 <= hexval c < 16)%Z.
Proof. unfold is_xdigit, hexval, is_digit, is_lower. intros H. repeat (destruct (_ <=? _)%Z eqn:? in |- *; cbn [andb] in * ); lia. Qed.
Lemma read_step l c : canon l -> is_xdigit c = true -> exists l2,
  (l1 <- promote_4 l ;; w <- rdw l1 0 ;; wrw l1 0 (N.lor w (Z.to_N (hexval c)))) = Ok l2 /\
  canon l2 /\ valN l2 = digit_val (valN l) c.
Proof.
  intros Hc Hx. unfold promote_4. destruct (promote_k_ok 4 l ltac:(lia) (proj1 Hc)) as (l1 & E1 & W1 & B1 & C1).
  change (N.of_nat 4) with 4%N in E1. rewrite E1, bind_ok. pose proof (hexval_bound c Hx) as Hb.
  set (d := Z.to_N (hexval c)). assert (Hd : (d < 16)%N) by (unfold d; lia).
  destruct W1 as [L1 W1]. rewrite rdw_ok by exact L1. rewrite bind_ok. rewrite wrw_ok by exact L1.
  assert (Wd : w64 d) by (apply w64_lt; lia).
  eexists; split; [reflexivity|].
  set (w := nth 0 l1 0%N).
  assert (Wok : wok (upd l1 0 (N.lor w d))).
  { split; [rewrite upd_length; exact L1|]. apply upd_w64; [exact W1|]. apply w64_lor; [apply W1|exact Wd]. }
  split.
  - split; [exact Wok|]. rewrite upd_length, upd_nth.
    destruct (proj2 (C1 Hc)) as [E|E]; [left; exact E|right].
    destruct (Nat.eqb_spec (length l1 - 1) 0) as [E0|]; cbn [andb]; [|exact E].
    destruct (Nat.ltb_spec 0 (length l1)); [|lia]. rewrite E0 in E. fold w in E.
    intros Z. apply N.lor_eq_0_iff in Z. tauto.
  - assert (Hdb : forall i, (4 <= i)%N -> N.testbit d i = false).
    { intros i Hi. destruct (N.eq_dec d 0) as [->|]; [apply N.bits_0|]. apply N.bits_above_log2.
      assert (N.log2 d < 4)%N; [|lia]. apply N.log2_lt_pow2; [lia|]. exact Hd. }
    unfold digit_val. fold d.
    assert (E : (valN l * 16 + d = N.lor (N.shiftl (valN l) 4) d)%N).
    { rewrite N.shiftl_mul_pow2. change (2 ^ 4)%N with 16%N.
      assert (D : N.land (valN l * 16) d = 0%N).
      { apply N.bits_inj. intros j. rewrite N.land_spec, N.bits_0. change 16%N with (2 ^ 4)%N.
        destruct (N.lt_ge_cases j 4); [rewrite N.mul_pow2_bits_low by assumption; reflexivity|].
        rewrite Hdb by assumption. apply andb_false_r. }
      rewrite <- N.lxor_lor by exact D. apply N.add_nocarry_lxor. exact D. }
    rewrite E. apply N.bits_inj. intros i. rewrite <- (N2Nat.id i). set (n := N.to_nat i).
    rewrite valN_bit by apply Wok. rewrite N.lor_spec.
    assert (Hn : bitl (upd l1 0 (N.lor w d)) n = bitl l1 n || N.testbit d (N.of_nat n)).
    { destruct (split_pos n) as (k & j & En & Hj). rewrite En, !bitl_at by exact Hj. rewrite upd_nth.
      destruct (Nat.ltb_spec 0 (length l1)); [|lia]. rewrite andb_true_r.
      destruct (Nat.eqb_spec k 0) as [->|].
      - rewrite N.lor_spec. reflexivity.
      - rewrite (Hdb (N.of_nat (64 * k + j))) by lia. rewrite orb_false_r. reflexivity. }
    rewrite Hn, B1. f_equal. destruct (Nat.ltb_spec n 4).
    + symmetry. apply N.shiftl_spec_low. lia.
    + rewrite N.shiftl_spec_high' by lia. replace (N.of_nat n - 4)%N with (N.of_nat (n - 4)) by lia.
      symmetry. apply valN_bit. apply Hc.
Qed.
Definition stops (rest : list Z) : Prop := match rest with [] => True | c :: _ => is_xdigit c = false end.
Lemma read_nybbles_ok s rest : Forall (fun c => is_xdigit c = true) s -> stops rest ->
  forall l n, canon l -> exists l', read_nybbles (s ++ rest) l n = Ok (l', n + length s, rest) /\ canon l' /\
    valN l' = fold_left digit_val s (valN l).
Proof.
  intros Hs Hr. induction Hs as [|c s Hc Hs IH]; intros l n Hl; cbn [app].
  - exists l. split; [|split; [exact Hl|reflexivity]]. rewrite Nat.add_0_r.
    destruct rest as [|c rest]; [reflexivity|]. cbn [read_nybbles]. cbn [stops] in Hr. rewrite Hr. reflexivity.
  - cbn [read_nybbles]. rewrite Hc. destruct (read_step l c Hl Hc) as (l2 & E & C2 & V2).
    destruct (promote_4 l) as [l1| | |]; cbn [bind] in E |- *; try discriminate.
    destruct (rdw l1 0) as [w| | |]; cbn [bind] in E |- *; try discriminate.
    rewrite E. cbn [bind]. destruct (IH l2 (S n) C2) as (l' & -> & C' & V').
    exists l'. split; [f_equal; f_equal; cbn [length]; f_equal; lia|]. split; [exact C'|].
    rewrite V', V2. reflexivity.
Qed.
(* blanks, hexadecimal digits, then anything that is not a digit *)
Lemma read_ok bl s rest : Forall (fun c => is_blank c = true) bl ->
  Forall (fun c => is_xdigit c = true) s -> s <> [] -> stops rest ->
  exists l, f2_read (bl ++ s ++ rest) = Ok (l, false, rest) /\ canon l /\ valN l = hex_value s.
Proof.
  intros Hb Hs Hne Hr. unfold f2_read.
  assert (E : skip_blanks (bl ++ s ++ rest) = s ++ rest).
  { induction Hb as [|c bl Hc Hb IH]; cbn [app skip_blanks]; [|rewrite Hc; exact IH].
    destruct s as [|c s]; [contradiction|]. cbn [app skip_blanks]. inversion Hs as [|? ? Hx _]; subst.
    assert (is_blank c = false) as ->; [|reflexivity].
    unfold is_xdigit, is_digit, is_blank in *. lia. }
  rewrite E. rewrite app_length. destruct (Nat.eqb_spec (length s + length rest) 0) as [Z|_].
  { destruct s; [contradiction|cbn in Z; lia]. }
  destruct (read_nybbles_ok s rest Hs Hr (f2_of_int 0) 0 (of_int_canon 0)) as (l & -> & C & V).
  rewrite bind_ok. exists l. split; [|split; [exact C|exact V]].
  destruct s; [contradiction|]. reflexivity.
Qed.
(* no digit after the blanks *)
Lemma read_fail bl rest : Forall (fun c => is_blank c = true) bl -> stops rest ->
  (match rest with [] => True | c :: _ => is_blank c = false end) ->
  f2_read (bl ++ rest) = Ok (f2_of_int 0, true, rest).
Proof.
  intros Hb Hr Hnb. unfold f2_read.
  assert (E : skip_blanks (bl ++ rest) = rest).
  { induction Hb as [|c bl Hc Hb IH]; cbn [app skip_blanks]; [|rewrite Hc; exact IH].
    destruct rest as [|c rest]; [reflexivity|]. cbn [skip_blanks]. rewrite Hnb. reflexivity. }
  rewrite E. destruct rest as [|c rest]; [reflexivity|]. cbn [length Nat.eqb].
  cbn [read_nybbles]. cbn [stops] in Hr. rewrite Hr. reflexivity.
Qed.
Lemma round_trip l rest : canon l -> stops rest -> exists s, f2_print l = Ok s /\ f2_read (s ++ rest) = Ok (l, false, rest).
Proof.
  intros Hl Hr. destruct (print_ok l (proj1 Hl)) as (s & E & V & Hne & Hall). exists s. split; [exact E|].
  destruct (read_ok [] s rest) as (l' & E' & C' & V'); [constructor| |exact Hne|exact Hr|].
  - eapply Forall_impl; [|exact Hall]. intros c [H _]. exact H.
  - cbn [app] in E'. rewrite E'. f_equal. f_equal. f_equal. apply valN_inj; [exact C'|exact Hl|congruence].
Qed.

(* ---------------------------------------------------------------- coefficients *)
Lemma set_coeff_true l p : p mod 64 < 31 -> set_coeff l (Z.of_nat p) true = set_bit l (Z.of_nat p).
Proof.
  intros H. unfold set_coeff, set_bit. destruct (Z.ltb_spec (Z.of_nat p) 0); [lia|]. rewrite Nat2Z.id.
  rewrite andb_false_r. destruct (rdw _ _); try reflexivity. cbn [bind]. unfold int_bit.
  destruct (Nat.ltb_spec (p mod 64) 31); [|lia]. reflexivity.
Qed.
Lemma clear_bit w k j : w64 w -> k < 64 ->
  N.testbit (N.land w (N.lxor (N.ones 64) (N.shiftl 1 (N.of_nat k)))) (N.of_nat j) =
  if j =? k then false else N.testbit w (N.of_nat j).
Proof.
  intros Hw Hk. rewrite N.land_spec, N.lxor_spec, one_bit. replace (N.of_nat j =? N.of_nat k)%N with (j =? k) by lia.
  destruct (Nat.lt_ge_cases j 64).
  - rewrite N.ones_spec_low by lia. destruct (j =? k); cbn [xorb]; [apply andb_false_r|apply andb_true_r].
  - rewrite (Hw (N.of_nat j)) by lia. destruct (j =? k); reflexivity.
Qed.
Lemma set_coeff_ok l p b : canon l -> p mod 64 < 31 -> exists l', set_coeff l (Z.of_nat p) b = Ok l' /\ canon l' /\
  forall i, bitl l' i = if i =? p then b else bitl l i.
Proof.
  intros Hl Hp. destruct b.
  - rewrite set_coeff_true by exact Hp. destruct (set_bit_ok l p (proj1 Hl)) as (l' & E & _ & B & C).
    exists l'. split; [exact E|]. split; [exact (C Hl)|exact B].
  - unfold set_coeff. destruct (Z.ltb_spec (Z.of_nat p) 0); [lia|]. rewrite Nat2Z.id, andb_true_r.
    destruct (Nat.leb_spec (length l) (p / 64)) as [H0|H0].
    + exists l. split; [reflexivity|]. split; [exact Hl|]. intros i. destruct (Nat.eqb_spec i p) as [->|]; [|reflexivity].
      unfold bitl. rewrite nth_overflow by exact H0. apply N.bits_0.
    + rewrite rdw_ok by exact H0. rewrite bind_ok. unfold int_bit. destruct (Nat.ltb_spec (p mod 64) 31); [|lia].
      rewrite bind_ok, wrw_ok, bind_ok by exact H0.
      assert (Hw : w64 (nth (p / 64) l 0%N)) by apply (proj1 Hl).
      set (w := N.land _ _).
      assert (Ww : w64 w).
      { intros j Hj. unfold w. rewrite N.land_spec, Hw by exact Hj. reflexivity. }
      destruct (trim_ok (upd l (p / 64) w)) as (l' & E & C & B).
      { split; [rewrite upd_length; lia|]. apply upd_w64; [apply (proj1 Hl)|exact Ww]. }
      exists l'. split; [exact E|]. split; [exact C|]. intros i. rewrite B.
      apply bitl_upd with (b := false); [exact H0|]. intros j. apply clear_bit; [exact Hw|lia].
Qed.

Lemma zeros_val k acc : fold_left digit_val (repeat 48%Z k) acc = (acc * 16 ^ N.of_nat k)%N.
Proof.
  revert acc; induction k as [|k IH]; intros acc; cbn [repeat fold_left].
  - change (N.of_nat 0) with 0%N. rewrite N.pow_0_r. lia.
  - rewrite IH. replace (N.of_nat (S k)) with (N.succ (N.of_nat k)) by lia. rewrite N.pow_succ_r by lia.
    unfold digit_val. change (Z.to_N (hexval 48)) with 0%N. lia.
Qed.
Lemma dprint_ok l k : wok l -> exists s, f2_dprint l k = Ok s /\ hex_value s = valN l /\ s <> [] /\
  Forall (fun c => is_xdigit c = true /\ is_blank c = false) s.
Proof.
  intros Hl. unfold f2_dprint. destruct (degree_ok l Hl) as (d & -> & _). rewrite bind_ok.
  destruct (print_ok l Hl) as (s & -> & V & Hne & F). rewrite bind_ok. eexists; split; [reflexivity|].
  split; [|split].
  - unfold hex_value. rewrite fold_left_app, zeros_val, N.mul_0_l. exact V.
  - intros E. apply app_eq_nil in E. tauto.
  - apply Forall_app. split; [|exact F]. apply Forall_forall. intros c Hc. apply repeat_spec in Hc. subst c. split; reflexivity.
Qed.
Lemma dprint_round l k rest : canon l -> stops rest -> exists s, f2_dprint l k = Ok s /\ f2_read (s ++ rest) = Ok (l, false, rest).
Proof.
  intros Hl Hr. destruct (dprint_ok l k (proj1 Hl)) as (s & E & V & Hne & Hall). exists s. split; [exact E|].
  destruct (read_ok [] s rest) as (l' & E' & C' & V'); [constructor| |exact Hne|exact Hr|].
  - eapply Forall_impl; [|exact Hall]. intros c [H _]. exact H.
  - cbn [app] in E'. rewrite E'. f_equal. f_equal. f_equal. apply valN_inj; [exact C'|exact Hl|congruence].
Qed.
