(* Bit-level facts about the matrix and vector steps of GF(2) factorization. *)
From Verif Require Import Base MIntMath MMat MBits MFac MF2Poly MF2Fac PBits PBits2 PF2Poly.
Open Scope nat_scope.

Definition bmn (n : nat) (rows : list bvec) (L : list (list bool)) : Prop :=
  BM rows L /\ rect n L /\ length L = n.

Lemma bent_upd n L i j i' j' b : rect n L -> length L = n -> i < n -> j < n ->
  bent (upd L i (upd (nth i L []) j b)) i' j' = if (i' =? i) && (j' =? j) then b else bent L i' j'.
Proof.
  intros HR HL Hi Hj. unfold bent. destruct (Nat.eqb_spec i' i) as [->|Hne]; cbn [andb].
  - rewrite nth_upd_eq by lia. destruct (Nat.eqb_spec j' j) as [->|Hne].
    + rewrite nth_upd_eq; [reflexivity|]. rewrite HR; lia.
    + rewrite nth_upd_ne by exact Hne. reflexivity.
  - rewrite nth_upd_ne by exact Hne. reflexivity.
Qed.

Lemma set_col_ok n rows L x jj : bmn n rows L -> jj < n ->
  exists rows' L', for_up n 0 (fun i rows => c <- bit_at x (Z.of_nat i) ;; bm_set rows (n - 1 - i) jj c) rows = Ok rows' /\
    bmn n rows' L' /\
    forall i j, i < n -> bent L' i j = if j =? jj then bitl x (n - 1 - i) else bent L i j.
Proof.
  intros H0 Hj.
  pose (Inv := fun k rows => exists L', bmn n rows L' /\
    forall i j, i < n -> bent L' i j = if (j =? jj) && (n - 1 - i <? k) then bitl x (n - 1 - i) else bent L i j).
  destruct (for_up_inv (fun i rows => c <- bit_at x (Z.of_nat i) ;; bm_set rows (n - 1 - i) jj c) Inv n 0 rows) as (rows' & E & L' & H1 & H2).
  - intros k t Hk (L' & (HB & HR & HL) & HE). rewrite bit_at_ok, bind_ok.
    destruct (bm_set_ok n t L' HB HR (n - 1 - k) jj (bitl x k)) as (r & -> & HB'); [lia|exact Hj|].
    eexists; split; [reflexivity|]. eexists; split; [split; [exact HB'|split]|].
    + apply rect_upd; [exact HR|]. rewrite upd_length. apply HR. lia.
    + rewrite upd_length. exact HL.
    + intros i j Hi. rewrite (bent_upd n) by (auto; lia). rewrite HE by exact Hi.
      destruct (Nat.eqb_spec j jj) as [->|]; rewrite ?andb_false_r; cbn [andb]; [|reflexivity].
      destruct (Nat.eqb_spec i (n - 1 - k)) as [->|]; cbn [andb].
      * destruct (Nat.ltb_spec (n - 1 - (n - 1 - k)) (S k)); [|lia]. f_equal. lia.
      * destruct (Nat.ltb_spec (n - 1 - i) k), (Nat.ltb_spec (n - 1 - i) (S k)); try lia; reflexivity.
  - exists L. split; [exact H0|]. intros i j Hi. destruct (Nat.ltb_spec (n - 1 - i) 0); [lia|]. rewrite andb_false_r. reflexivity.
  - exists rows', L'. split; [exact E|]. split; [exact H1|]. intros i j Hi. rewrite H2 by exact Hi.
    destruct (Nat.ltb_spec (n - 1 - i) (0 + n)); [|lia]. rewrite andb_true_r. reflexivity.
Qed.

Lemma fill_B_ok n f x2 rows L (xs : nat -> fpoly) : bmn n rows L -> xs 0 = f2_of_int 1 ->
  (forall j, j < n -> exists p, f2_mul (xs j) x2 = Ok p /\ f2_mod p f = Ok (xs (S j))) ->
  exists rows' L', f2_fill_B n f x2 rows = Ok rows' /\ bmn n rows' L' /\
    forall i j, i < n -> j < n -> bent L' i j = bitl (xs (n - 1 - j)) (n - 1 - i).
Proof.
  intros H0 Hx Hstep. unfold f2_fill_B.
  pose (Inv := fun k (s : list bvec * fpoly) => snd s = xs k /\ exists L', bmn n (fst s) L' /\
    forall i j, i < n -> j < n -> n - 1 - j < k -> bent L' i j = bitl (xs (n - 1 - j)) (n - 1 - i)).
  match goal with |- context [for_up n 0 ?b ?s] => destruct (for_up_inv b Inv n 0 s) as ([rows' y] & E & _ & L' & H1 & H2) end.
  - intros k [t y] Hk (Hy & L' & HL & HE). cbn [fst snd] in *. subst y.
    destruct (set_col_ok n t L' (xs k) (n - 1 - k) HL) as (r & L2 & -> & HL2 & HE2); [lia|]. rewrite bind_ok.
    destruct (Hstep k) as (p & -> & E2); [lia|]. rewrite bind_ok, E2, bind_ok.
    eexists; split; [reflexivity|]. split; [reflexivity|]. exists L2. split; [exact HL2|].
    cbn [fst]. intros i j Hi Hj Hlt. rewrite HE2 by exact Hi.
    destruct (Nat.eqb_spec j (n - 1 - k)) as [->|Hne].
    + f_equal. f_equal. lia.
    + apply HE; lia.
  - split; [symmetry; exact Hx|]. exists L. split; [exact H0|]. intros; lia.
  - rewrite E, bind_ok. exists rows', L'. split; [reflexivity|]. split; [exact H1|]. intros i j Hi Hj. apply H2; lia.
Qed.

Lemma sub_I_ok n rows L : bmn n rows L ->
  exists rows' L', f2_sub_I n rows = Ok rows' /\ bmn n rows' L' /\
    forall i j, i < n -> j < n -> bent L' i j = xorb (bent L i j) (i =? j).
Proof.
  intros H0. unfold f2_sub_I.
  pose (Inv := fun k rows => exists L', bmn n rows L' /\
    forall i j, i < n -> j < n -> bent L' i j = xorb (bent L i j) ((i =? j) && (i <? k))).
  match goal with |- context [for_up n 0 ?b ?s] => destruct (for_up_inv b Inv n 0 s) as (rows' & E & L' & H1 & H2) end.
  - intros k t Hk (L' & (HB & HR & HL) & HE).
    destruct (brow_ok t L' HB k) as (r & -> & Hr); [lia|]. rewrite bind_ok.
    assert (Hlen : length (nth k L' []) = n) by (apply HR; lia).
    destruct (B_toggle r _ k Hr) as (r' & -> & Hr'); [lia|]. rewrite bind_ok.
    destruct (bsetrow_ok t L' HB k r' _ ltac:(lia) Hr') as (-> & HB').
    eexists; split; [reflexivity|]. eexists; split; [split; [exact HB'|split]|].
    + apply rect_upd; [exact HR|]. rewrite upd_length. exact Hlen.
    + rewrite upd_length. exact HL.
    + intros i j Hi Hj. rewrite (bent_upd n) by (auto; lia).
      replace (nth k (nth k L' []) false) with (bent L' k k) by reflexivity.
      rewrite !HE by lia. rewrite Nat.eqb_refl, Nat.ltb_irrefl. cbn [andb]. rewrite xorb_false_r.
      destruct (Nat.eqb_spec i k) as [->|Hne]; cbn [andb].
      * destruct (Nat.eqb_spec j k) as [->|Hne].
        -- rewrite Nat.eqb_refl. destruct (Nat.ltb_spec k (S k)); [|lia]. cbn [andb]. destruct (bent L k k); reflexivity.
        -- destruct (Nat.eqb_spec k j); [lia|]. cbn [andb]. reflexivity.
      * destruct (Nat.eqb_spec i j); cbn [andb]; [|reflexivity].
        destruct (Nat.ltb_spec i k), (Nat.ltb_spec i (S k)); try lia; reflexivity.
  - exists L. split; [exact H0|]. intros i j Hi Hj. destruct (Nat.ltb_spec i 0); [lia|]. rewrite andb_false_r, xorb_false_r. reflexivity.
  - rewrite E. exists rows', L'. split; [reflexivity|]. split; [exact H1|]. intros i j Hi Hj. rewrite H2 by assumption.
    destruct (Nat.ltb_spec i (0 + n)); [|lia]. rewrite andb_true_r. reflexivity.
Qed.

Lemma from_vector_ok v l n : B v l -> length l = n ->
  exists f, f2_from_vector v n = Ok f /\ canon f /\
    forall i, bitl f i = if i <? n then nth (n - 1 - i) l false else false.
Proof.
  intros Hv Hl. unfold f2_from_vector.
  pose (Inv := fun k f => canon f /\ forall i, bitl f i = if i <? k then nth (n - 1 - i) l false else false).
  match goal with |- context [for_up n 0 ?b ?s] => destruct (for_up_inv b Inv n 0 s) as (f & E & H1 & H2) end.
  - intros k f Hk (Hc & HE).
    replace (Z.of_nat n - 1 - Z.of_nat k)%Z with (Z.of_nat (n - 1 - k)) by lia.
    rewrite (B_get _ _ _ Hv) by lia. rewrite bind_ok.
    destruct (nth (n - 1 - k) l false) eqn:Eb.
    + destruct (set_bit_ok f k (proj1 Hc)) as (f' & -> & _ & HE' & Hc'). exists f'. split; [reflexivity|].
      split; [auto|]. intros i. rewrite HE', HE. destruct (Nat.eqb_spec i k) as [->|].
      * destruct (Nat.ltb_spec k (S k)); [symmetry; exact Eb|lia].
      * destruct (Nat.ltb_spec i k), (Nat.ltb_spec i (S k)); try lia; reflexivity.
    + exists f. split; [reflexivity|]. split; [exact Hc|]. intros i. rewrite HE.
      destruct (Nat.ltb_spec i k), (Nat.ltb_spec i (S k)); try lia; try reflexivity.
      replace i with k by lia. symmetry; exact Eb.
  - split; [apply of_int_canon|]. intros i. rewrite of_int_bit. cbn. rewrite andb_false_r. reflexivity.
  - exists f. split; [exact E|]. split; [exact H1|]. exact H2.
Qed.
