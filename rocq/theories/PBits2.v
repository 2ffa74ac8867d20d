(* Bit matrices: the packed operations simulate the generic matrix operations of
   MMat.v instantiated with bits. *)
From Verif Require Import Base MIntMath PIntMath MMisc MMat MBits PPow PBits.
Open Scope nat_scope.

Definition BM (rows : list bvec) (L : list (list bool)) : Prop := Forall2 B rows L.
Definition rect (n : nat) (L : list (list bool)) : Prop := forall i, i < length L -> length (nth i L []) = n.
Definition bent (L : list (list bool)) (i j : nat) : bool := nth j (nth i L []) false.

Lemma neqb_bit x : c_neqb bit_ops x false = Ok x.
Proof. destruct x; reflexivity. Qed.
Lemma Forall2_len {A C} (P : A -> C -> Prop) l l' : Forall2 P l l' -> length l = length l'.
Proof. induction 1; cbn; auto. Qed.
Lemma Forall2_nth_error {A C} (P : A -> C -> Prop) l l' i d : Forall2 P l l' -> i < length l' ->
  exists x, nth_error l i = Some x /\ P x (nth i l' d).
Proof.
  intros H; revert i; induction H as [|x y l l' Hxy H IH]; intros i Hi; cbn in Hi; [lia|].
  destruct i; cbn; [eauto|]. apply IH. lia.
Qed.
Lemma Forall2_upd {A C} (P : A -> C -> Prop) l l' i x y : Forall2 P l l' -> P x y ->
  Forall2 P (upd l i x) (upd l' i y).
Proof.
  intros H Hxy; revert i; induction H as [|a b l l' Hab H IH]; intros i.
  - unfold upd. rewrite !firstn_nil, !skipn_nil. constructor.
  - destruct i; unfold upd; cbn; [constructor; auto|]. constructor; [exact Hab|]. apply IH.
Qed.
Lemma upd_same {A} (l : list A) i d : i < length l -> upd l i (nth i l d) = l.
Proof.
  intros H. apply (nth_ext _ _ d d); [apply upd_length|]. intros j _. rewrite upd_nth.
  destruct (Nat.eqb_spec j i) as [->|]; cbn [andb]; [|reflexivity].
  destruct (Nat.ltb_spec i (length l)); [reflexivity|lia].
Qed.
Lemma nth_upd_eq {A} (l : list A) i x d : i < length l -> nth i (upd l i x) d = x.
Proof. intros H. rewrite upd_nth, Nat.eqb_refl. destruct (Nat.ltb_spec i (length l)); [reflexivity|lia]. Qed.
Lemma nth_upd_ne {A} (l : list A) i j x d : j <> i -> nth j (upd l i x) d = nth j l d.
Proof. intros H. rewrite upd_nth. destruct (Nat.eqb_spec j i); [contradiction|reflexivity]. Qed.

Lemma rect_upd n L i l : rect n L -> length l = n -> rect n (upd L i l).
Proof.
  intros H Hl k Hk. rewrite upd_length in Hk. rewrite upd_nth.
  destruct (_ && _); [exact Hl|apply H; exact Hk].
Qed.

Section Rows.
Context (n : nat).
Variables (rows : list bvec) (L : list (list bool)).
Hypotheses (HB : BM rows L) (HR : rect n L).

Lemma brow_ok i : i < length L -> exists r, brow rows i = Ok r /\ B r (nth i L []) .
Proof.
  intros Hi. destruct (Forall2_nth_error _ _ _ i [] HB Hi) as (r & E & H).
  exists r. unfold brow. rewrite E. auto.
Qed.
Lemma rowat_ok i : i < length L -> rowat L i = Ok (nth i L []).
Proof. intros Hi. unfold rowat. rewrite (nth_error_nth' L [] Hi). reflexivity. Qed.
Lemma elt_ok (l : list bool) j : j < length l -> elt l j = Ok (nth j l false).
Proof. intros Hj. unfold elt. rewrite (nth_error_nth' l false Hj). reflexivity. Qed.
Lemma el_ok i j : i < length L -> j < n -> el L i j = Ok (bent L i j).
Proof. intros Hi Hj. unfold el. rewrite rowat_ok by exact Hi. rewrite bind_ok. apply elt_ok. rewrite HR by exact Hi. exact Hj. Qed.
Lemma pel_ok i j : i < length L -> j < n -> pel L i j = Ok (bent L i j).
Proof.
  intros Hi Hj. unfold pel. rewrite rowat_ok by exact Hi. rewrite bind_ok.
  assert (H : j < length (nth i L [])) by (rewrite HR by exact Hi; exact Hj).
  rewrite (nth_error_nth' _ false H). reflexivity.
Qed.
Lemma bm_get_ok i j : i < length L -> j < n -> bm_get rows i j = Ok (bent L i j).
Proof.
  intros Hi Hj. unfold bm_get. destruct (brow_ok i Hi) as (r & E & H). rewrite E, bind_ok.
  apply B_get; [exact H|]. rewrite HR by exact Hi. exact Hj.
Qed.
Lemma bm_pget_ok i j : i < length L -> j < n -> bm_pget rows i j = Ok (bent L i j).
Proof.
  intros Hi Hj. unfold bm_pget. destruct (brow_ok i Hi) as (r & E & H). rewrite E, bind_ok.
  assert (Hl : j < length (nth i L [])) by (rewrite HR by exact Hi; exact Hj).
  rewrite (B_deref _ _ H), bind_ok.
  pose proof (B_words _ _ H) as (_ & Hnw & Hle & _ & _ & Hb).
  pose proof (nwords_cover _ _ Hl). pose proof (nwords_le (length (nth i L []))).
  rewrite get_bit_ok by lia. rewrite bind_ok. rewrite Hb by lia. unfold bent.
  destruct (nth j _ false); reflexivity.
Qed.
Lemma bsetrow_ok i r l : i < length L -> B r l ->
  bsetrow rows i r = Ok (upd rows i r) /\ BM (upd rows i r) (upd L i l).
Proof.
  intros Hi H. unfold bsetrow. rewrite (Forall2_len _ _ _ HB).
  destruct (Nat.ltb_spec i (length L)); [|lia]. split; [reflexivity|]. apply Forall2_upd; assumption.
Qed.
Lemma setrow_ok i (l : list bool) : i < length L -> setrow L i l = Ok (upd L i l).
Proof. intros Hi. unfold setrow. destruct (Nat.ltb_spec i (length L)); [reflexivity|lia]. Qed.
Lemma bm_set_ok i j b : i < length L -> j < n ->
  exists rows', bm_set rows i j b = Ok rows' /\ BM rows' (upd L i (upd (nth i L []) j b)).
Proof.
  intros Hi Hj. unfold bm_set. destruct (brow_ok i Hi) as (r & E & H). rewrite E, bind_ok.
  destruct (B_set r (nth i L []) j b H) as (r' & E' & H'); [rewrite HR by exact Hi; exact Hj|].
  rewrite E', bind_ok. destruct (bsetrow_ok i r' _ Hi H') as [-> HB']. eauto.
Qed.

Lemma bm_find_piv_ok k left : left < n -> forall pr, pr + k <= length L ->
  bm_find_piv k rows left pr = find_piv bit_ops k L false left pr.
Proof.
  intros Hl. induction k as [|k IH]; intros pr Hk; [reflexivity|]. cbn [bm_find_piv find_piv].
  rewrite bm_pget_ok, pel_ok by lia. rewrite !bind_ok. rewrite neqb_bit, bind_ok.
  destruct (bent L pr left); [reflexivity|]. apply IH. lia.
Qed.

Lemma bm_swap_ok a b : a < length L -> b < length L ->
  exists rows', bm_swap rows a b = Ok rows' /\
    BM rows' (upd (upd L a (nth b L [])) b (nth a L [])) /\
    swaprows L a b = Ok (upd (upd L a (nth b L [])) b (nth a L [])).
Proof.
  intros Ha Hb. unfold bm_swap, swaprows.
  destruct (brow_ok a Ha) as (ra & Ea & HBa), (brow_ok b Hb) as (rb & Eb & HBb).
  rewrite Ea, Eb, !bind_ok, !rowat_ok, !bind_ok by assumption.
  unfold bv_ptrswap. rewrite (B_len _ _ HBa), (B_len _ _ HBb), !HR, Nat.eqb_refl by assumption.
  rewrite !bind_ok.
  assert (Hla : length (nth a L []) = length (nth b L [])) by (rewrite !HR by assumption; reflexivity).
  assert (Ha' : mkbv (bv_ptr rb) (bv_nw ra) n = rb).
  { pose proof (B_words _ _ HBa) as (_ & Hnwa & _). pose proof (B_words _ _ HBb) as (_ & Hnwb & _).
    pose proof (B_len _ _ HBb) as Hn. rewrite HR in Hn by exact Hb. rewrite Hnwa, Hla, <- Hnwb, <- Hn.
    destruct rb; reflexivity. }
  assert (Hb' : mkbv (bv_ptr ra) (bv_nw rb) n = ra).
  { pose proof (B_words _ _ HBa) as (_ & Hnwa & _). pose proof (B_words _ _ HBb) as (_ & Hnwb & _).
    pose proof (B_len _ _ HBa) as Hn. rewrite HR in Hn by exact Ha. rewrite Hnwb, <- Hla, <- Hnwa, <- Hn.
    destruct ra; reflexivity. }
  rewrite Ha', Hb'. destruct (bsetrow_ok a rb _ Ha HBb) as [-> HB1]. rewrite bind_ok, !setrow_ok, bind_ok by assumption.
  unfold bsetrow, setrow. rewrite !upd_length, (Forall2_len _ _ _ HB).
  destruct (Nat.ltb_spec b (length L)); [|lia].
  eexists; split; [reflexivity|]. split; [|reflexivity]. apply Forall2_upd; assumption.
Qed.
End Rows.

(* ---- bit versions of the row operations *)
Lemma map2M_pure (f : bool -> bool -> bool) (g : bool -> bool -> res bool) l l' :
  (forall x y, g x y = Ok (f x y)) -> map2M g l l' = Ok (map2b f l l').
Proof.
  intros H. revert l'; induction l as [|x l IH]; intros [|y l']; try reflexivity.
  cbn [map2M]. rewrite H, bind_ok, IH. reflexivity.
Qed.
Lemma mapM_pure {A C} (f : A -> C) (g : A -> res C) l :
  (forall x, In x l -> g x = Ok (f x)) -> mapM g l = Ok (map f l).
Proof.
  induction l as [|x l IH]; intros H; [reflexivity|]. cbn [mapM map]. rewrite H by (left; reflexivity).
  rewrite bind_ok, IH by (intros y Hy; apply H; right; exact Hy). reflexivity.
Qed.
Lemma map2b_fst l l' : length l = length l' -> map2b (fun x _ => x) l l' = l.
Proof.
  unfold map2b. revert l'; induction l as [|x l IH]; intros [|y l'] H; try discriminate H; [reflexivity|].
  cbn. f_equal. apply IH. injection H; auto.
Qed.
Lemma map2b_ext f g l l' : (forall x y, f x y = g x y) -> map2b f l l' = map2b g l l'.
Proof. intros H. unfold map2b. apply map_ext. intros p; apply H. Qed.
Lemma accum_bit r c t : length r = length t ->
  accum_row_mul bit_ops r true c t = Ok (if c then map2b xorb r t else r).
Proof.
  intros H. unfold accum_row_mul. rewrite H, Nat.eqb_refl.
  rewrite (map2M_pure (fun x y => xorb (x && true) (y && c))) by (intros; reflexivity).
  f_equal. destruct c.
  - apply map2b_ext. intros [] []; reflexivity.
  - rewrite (map2b_ext _ (fun x _ => x)) by (intros [] []; reflexivity). apply map2b_fst. exact H.
Qed.
Lemma mult_by_true r : mult_by bit_ops r true = Ok r.
Proof.
  unfold mult_by. rewrite (mapM_pure (fun x => x)).
  - rewrite map_id. reflexivity.
  - intros x _. cbn. rewrite andb_true_r. reflexivity.
Qed.
Lemma find_leader_bit l : forall j, find_leader bit_ops l false j = Ok (option_map (fun k => k + j) (first_true l)).
Proof.
  induction l as [|x l IH]; intros j; [reflexivity|]. cbn [find_leader first_true]. rewrite neqb_bit, bind_ok.
  destruct x; [reflexivity|]. rewrite IH. destruct (first_true l); cbn; [|reflexivity].
  do 2 f_equal. lia.
Qed.
Lemma find_leader_pos_bit l : find_leader_pos bit_ops l false = Ok (first_true l).
Proof. unfold find_leader_pos. rewrite find_leader_bit. destruct (first_true l); cbn; [|reflexivity]. do 2 f_equal. lia. Qed.

Lemma bm_clear_ok n k : forall rows L top left cur, BM rows L -> rect n L -> left < n ->
  top < cur -> cur + k = length L ->
  exists rows' L', bm_clear k rows top left cur = Ok rows' /\
    clear_below bit_ops k L true true top left cur = Ok (L', true) /\ BM rows' L' /\ rect n L' /\ length L' = length L.
Proof.
  induction k as [|k IH]; intros rows L top left cur HB HR Hl Ht Hk; cbn [bm_clear clear_below].
  - exists rows, L; auto.
  - rewrite (bm_pget_ok n rows L HB HR), (pel_ok n L HR) by lia. rewrite !bind_ok.
    destruct (brow_ok rows L HB cur) as (rc & Ec & Hc); [lia|].
    destruct (brow_ok rows L HB top) as (rt & Et & Htb); [lia|].
    rewrite !rowat_ok by lia. rewrite !bind_ok.
    assert (Hlen : length (nth cur L []) = length (nth top L [])) by (rewrite !HR by lia; reflexivity).
    rewrite accum_bit by exact Hlen. rewrite bind_ok, setrow_ok by lia. rewrite bind_ok.
    change (c_div bit_ops true true) with (@Ok bool true). rewrite bind_ok.
    destruct (bent L cur left) eqn:Eb.
    + rewrite Ec, Et, !bind_ok. destruct (B_accum _ _ _ _ Hc Htb Hlen) as (r' & Er & Hr'). rewrite Er, bind_ok.
      destruct (bsetrow_ok rows L HB cur r' _ ltac:(lia) Hr') as [-> HB']. rewrite bind_ok.
      destruct (IH (upd rows cur r') (upd L cur (map2b xorb (nth cur L []) (nth top L []))) top left (S cur))
        as (rows' & L' & E1 & E2 & H1 & H2 & H3).
      * exact HB'.
      * apply rect_upd; [exact HR|]. rewrite map2b_length by exact Hlen. apply HR. lia.
      * exact Hl.
      * lia.
      * rewrite upd_length. lia.
      * exists rows', L'. rewrite upd_length in H3. auto.
    + rewrite upd_same by lia. rewrite bind_ok. apply IH; auto; lia.
Qed.

Lemma find_piv_spec k L left : forall pr p, rect (S left) L \/ True -> find_piv bit_ops k L false left pr = Ok (Some p) ->
  pr <= p < pr + k /\ bent L p left = true.
Proof.
  intros pr p _. revert pr. induction k as [|k IH]; intros pr H; cbn [find_piv] in H; [discriminate|].
  unfold pel, rowat in H. destruct (nth_error L pr) as [r|] eqn:E; [|discriminate]. cbn [bind] in H.
  destruct (nth_error r left) as [x|] eqn:Ex; [|discriminate]. cbn [bind] in H.
  rewrite neqb_bit in H; cbn [bind] in H. destruct x.
  - injection H as <-. split; [lia|]. unfold bent. rewrite (nth_error_nth L pr [] E). apply (nth_error_nth r left false Ex).
  - apply IH in H. destruct H. split; [lia|assumption].
Qed.
Lemma find_piv_total n k L left : rect n L -> left < n -> forall pr, pr + k <= length L ->
  exists p, find_piv bit_ops k L false left pr = Ok p.
Proof.
  intros HR Hl. induction k as [|k IH]; intros pr Hk; cbn [find_piv]; [eauto|].
  rewrite (pel_ok n L HR) by lia. rewrite bind_ok. rewrite neqb_bit, bind_ok.
  destruct (bent L pr left); cbn; [eauto|]. apply IH. lia.
Qed.

(* the last row: the generic loop does nothing *)
Lemma rr_last n L top : rect n L -> S top = length L -> forall fuel left, n - left < fuel ->
  rr_loop bit_ops fuel n false true true L true top left = Ok (L, true).
Proof.
  intros HR Ht. induction fuel as [|f IH]; intros left Hf; [lia|]. cbn [rr_loop].
  destruct (Nat.ltb_spec top (length L)); [|lia]. destruct (Nat.ltb_spec left n); [|reflexivity].
  cbn [andb]. replace (length L - top) with 1 by lia. cbn [find_piv].
  rewrite (pel_ok n L HR) by lia. rewrite !bind_ok. rewrite neqb_bit, bind_ok.
  destruct (bent L top left) eqn:E; rewrite bind_ok.
  - rewrite Nat.eqb_refl, bind_ok. rewrite (pel_ok n L HR) by lia. rewrite E, bind_ok, neqb_bit, bind_ok.
    change (c_div bit_ops true true) with (@Ok bool true).
    rewrite bind_ok, rowat_ok by lia. rewrite bind_ok, mult_by_true, bind_ok.
    rewrite setrow_ok by lia. rewrite upd_same by lia. rewrite bind_ok.
    change (c_mul bit_ops true true) with (@Ok bool true).
    rewrite bind_ok, (pel_ok n L HR) by lia. rewrite bind_ok. replace (length L - S top) with 0 by lia. cbn [clear_below]. rewrite bind_ok.
    destruct f as [|f]; cbn [rr_loop]; destruct (Nat.ltb_spec (S top) (length L)); try lia; reflexivity.
  - apply IH. lia.
Qed.

Lemma bm_rr_loop_ok n : forall fuel rows L top left, BM rows L -> rect n L -> n - left < fuel ->
  exists rows' L', bm_rr_loop fuel n rows top left = Ok rows' /\
    rr_loop bit_ops fuel n false true true L true top left = Ok (L', true) /\ BM rows' L' /\ rect n L' /\ length L' = length L.
Proof.
  induction fuel as [|f IH]; intros rows L top left HB HR Hf; [lia|].
  pose proof (Forall2_len _ _ _ HB) as HL.
  destruct (Nat.eq_dec (S top) (length L)) as [Hlast|Hlast].
  - rewrite (rr_last n L top HR Hlast (S f) left Hf). exists rows, L.
    split; [|auto]. cbn [bm_rr_loop]. rewrite HL.
    destruct (Nat.ltb_spec top (length L)); [|lia]. destruct (Nat.ltb_spec left n); [|reflexivity]. cbn [andb].
    destruct (Nat.ltb_spec top (length L - 1)); [lia|]. rewrite bind_ok, Nat.eqb_refl, bind_ok.
    rewrite (bm_pget_ok n rows L HB HR) by lia. rewrite bind_ok.
    rewrite HL. replace (length L - S top) with 0 by lia. cbn [bm_clear].
    destruct (bent L top left); rewrite bind_ok;
      (destruct f as [|f]; cbn [bm_rr_loop]; rewrite HL; destruct (Nat.ltb_spec (S top) (length L)); try lia; reflexivity).
  - cbn [bm_rr_loop rr_loop]. rewrite HL.
    destruct (Nat.ltb_spec top (length L)) as [Ht|]; [|exists rows, L; auto].
    destruct (Nat.ltb_spec left n) as [Hl|]; [|exists rows, L; auto]. cbn [andb].
    destruct (Nat.ltb_spec top (length L - 1)); [|lia].
    rewrite (bm_find_piv_ok n rows L HB HR) by lia.
    destruct (find_piv_total n (length L - top) L left HR Hl top) as (p & Ep); [lia|].
    rewrite Ep, !bind_ok. destruct p as [p|].
    + destruct (find_piv_spec _ _ _ _ _ (or_intror I) Ep) as [Hp Hpb].
      assert (Hsw : exists rows1 L1, (if top =? p then Ok rows else bm_swap rows top p) = Ok rows1 /\
        (if top =? p then Ok (L, true) else rows' <- swaprows L top p ;; s' <- c_mul bit_ops true true ;; Ok (rows', s')) = Ok (L1, true) /\
        BM rows1 L1 /\ rect n L1 /\ length L1 = length L /\ bent L1 top left = true).
      { destruct (Nat.eqb_spec top p) as [->|Hne].
        - exists rows, L. repeat (split; [first [reflexivity|assumption]|]). exact Hpb.
        - destruct (bm_swap_ok n rows L HB HR top p Ht ltac:(lia)) as (rows1 & E1 & HB1 & E2).
          rewrite E1, E2. do 2 eexists. split; [reflexivity|]. split; [reflexivity|]. split; [exact HB1|].
          split; [|split].
          + apply rect_upd; [apply rect_upd; [exact HR|]|]; apply HR; lia.
          + rewrite !upd_length. reflexivity.
          + unfold bent. rewrite nth_upd_ne by lia. rewrite nth_upd_eq by lia. exact Hpb. }
      destruct Hsw as (rows1 & L1 & E1 & E2 & HB1 & HR1 & HL1 & Hb1). rewrite E1, E2, !bind_ok.
      pose proof (Forall2_len _ _ _ HB1) as HLr1.
      rewrite (bm_pget_ok n rows1 L1 HB1 HR1) by lia. rewrite (pel_ok n L1 HR1) by lia. rewrite Hb1, !bind_ok.
      change (c_neqb bit_ops true false) with (@Ok bool true).
      rewrite bind_ok. change (c_div bit_ops true true) with (@Ok bool true).
      rewrite bind_ok, rowat_ok by lia. rewrite bind_ok, mult_by_true, bind_ok, setrow_ok by lia.
      rewrite upd_same by lia. rewrite bind_ok. change (c_mul bit_ops true true) with (@Ok bool true). rewrite bind_ok.
      rewrite (pel_ok n L1 HR1) by lia. rewrite Hb1, bind_ok, HLr1.
      destruct (bm_clear_ok n (length L1 - S top) rows1 L1 top left (S top)) as (rows2 & L2 & E3 & E4 & HB2 & HR2 & HL2);
        try assumption; try lia.
      rewrite E3, E4, !bind_ok.
      destruct (IH rows2 L2 (S top) (S left) HB2 HR2) as (rows' & L' & E5 & E6 & H1 & H2 & H3); [lia|].
      rewrite E5, E6. exists rows', L'. repeat (split; [first [reflexivity|assumption]|]). lia.
    + apply IH; auto; lia.
Qed.

(* a zero matrix is left alone by the generic loop *)
Lemma find_piv_zero n k L left : rect n L -> left < n -> (forall i j, bent L i j = false) ->
  forall pr, pr + k <= length L -> find_piv bit_ops k L false left pr = Ok None.
Proof.
  intros HR Hl Hz. induction k as [|k IH]; intros pr Hk; cbn [find_piv]; [reflexivity|].
  rewrite (pel_ok n L HR) by lia. rewrite bind_ok, Hz. rewrite neqb_bit, bind_ok.
  apply IH. lia.
Qed.
Lemma rr_zero n L : rect n L -> (forall i j, bent L i j = false) -> forall fuel top left, n - left < fuel ->
  rr_loop bit_ops fuel n false true true L true top left = Ok (L, true).
Proof.
  intros HR Hz. induction fuel as [|f IH]; intros top left Hf; [lia|]. cbn [rr_loop].
  destruct (Nat.ltb_spec top (length L)); [|reflexivity]. destruct (Nat.ltb_spec left n); [|reflexivity].
  cbn [andb]. rewrite (find_piv_zero n) by (auto; lia). rewrite bind_ok. apply IH. lia.
Qed.
Lemma find_nz_bit l : find_nz bit_ops l false = Ok (match first_true l with Some _ => Some true | None => None end).
Proof.
  induction l as [|x l IH]; [reflexivity|]. cbn [find_nz first_true]. rewrite neqb_bit, bind_ok.
  destruct x; [reflexivity|]. fold bit_ops. rewrite IH. destruct (first_true l); reflexivity.
Qed.
Lemma get_zero_bit n L : rect n L -> 0 < length L -> 0 < n -> get_zero bit_ops L = Ok false.
Proof.
  intros HR H1 H2. unfold get_zero. rewrite (el_ok n L HR) by assumption. rewrite bind_ok. cbn.
  rewrite xorb_nilpotent. reflexivity.
Qed.
Lemma concat_zero (L : list (list bool)) : first_true (concat L) = None -> forall i j, bent L i j = false.
Proof.
  intros H i j. unfold bent.
  destruct (Nat.lt_ge_cases i (length L)) as [Hi|Hi]; [|rewrite (nth_overflow L) by exact Hi; destruct j; reflexivity].
  destruct (Nat.lt_ge_cases j (length (nth i L []))) as [Hj|Hj]; [|apply nth_overflow; exact Hj].
  destruct (nth j (nth i L []) false) eqn:E; [|reflexivity].
  assert (In true (concat L)).
  { apply in_concat. exists (nth i L []). split; [apply nth_In; exact Hi|]. rewrite <- E. apply nth_In. exact Hj. }
  destruct (In_nth _ _ false H0) as (k & Hk & Ek). rewrite (first_true_none_inv _ H) in Ek. discriminate.
Qed.

Definition brep (m : bmat) (mr n : nat) (L : list (list bool)) : Prop :=
  BM (bm_rows m) L /\ rect n L /\ length L = mr /\ bm_nc m = n.

Lemma bm_rr_scalar_ok m mr n L : brep m mr n L -> 0 < mr -> 0 < n ->
  exists m' L' s, bm_rr_scalar m = Ok (m', true) /\ brep m' mr n L' /\
    row_reduce_below_with_scalar bit_ops (mkmat L n) = Ok (mkmat L' n, s) /\
    (s = true \/ s = false /\ forall i j, bent L' i j = false).
Proof.
  intros (HB & HR & HL & Hn) Hm Hn0. unfold bm_rr_scalar, row_reduce_below_with_scalar. cbn [t_rows t_nc].
  rewrite Hn. rewrite (get_zero_bit n) by (auto; lia). rewrite bind_ok.
  destruct (bm_rr_loop_ok n (S n) (bm_rows m) L 0 0 HB HR) as (rows' & L' & E1 & E2 & H1 & H2 & H3); [lia|].
  rewrite E1, bind_ok. unfold find_one. rewrite (get_zero_bit n) by (auto; lia). rewrite bind_ok, find_nz_bit, bind_ok.
  destruct (first_true (concat L)) eqn:E.
  - cbn [c_div bit_ops bind c_sub xorb]. fold bit_ops. rewrite E2.
    exists (mkbm rows' n), L', true. repeat split; auto; cbn; lia.
  - cbn [bind]. pose proof (concat_zero L E) as Hz.
    rewrite (rr_zero n L HR Hz) in E2 by lia. injection E2 as <-.
    exists (mkbm rows' n), L, false. repeat split; auto.
Qed.
Lemma bm_rr_ok m mr n L : brep m mr n L -> 0 < mr -> 0 < n ->
  exists m' L', bm_rr m = Ok m' /\ brep m' mr n L' /\ row_reduce_below bit_ops (mkmat L n) = Ok (mkmat L' n).
Proof.
  intros H Hm Hn. destruct (bm_rr_scalar_ok m mr n L H Hm Hn) as (m' & L' & s & E1 & H1 & E2 & _).
  exists m', L'. unfold bm_rr, row_reduce_below. rewrite E1, E2. auto.
Qed.

Lemma vrow_sub_bit r t : length r = length t -> vrow_sub bit_ops r t = Ok (map2b xorb r t).
Proof. intros H. unfold vrow_sub. rewrite H, Nat.eqb_refl. apply map2M_pure. intros; reflexivity. Qed.
Lemma row_smul_bit r c : row_smul bit_ops r c = Ok (map (fun x => x && c) r).
Proof. unfold row_smul. apply mapM_pure. intros; reflexivity. Qed.
Lemma first_true_nth l i : first_true l = Some i -> nth i l false = true.
Proof.
  revert i; induction l as [|x l IH]; intros i H; [discriminate|]. cbn in H. destruct x.
  - injection H as <-. reflexivity.
  - destruct (first_true l); [|discriminate]. injection H as <-. cbn. apply IH. reflexivity.
Qed.

Lemma bm_back_row_ok n k : forall rows L row row2, BM rows L -> rect n L -> row < row2 -> row2 + k = length L ->
  exists rows' L', bm_back_row k rows row row2 = Ok rows' /\
    back_row bit_ops k L false row row2 = Ok L' /\ BM rows' L' /\ rect n L' /\ length L' = length L.
Proof.
  induction k as [|k IH]; intros rows L row row2 HB HR Hr Hk; cbn [bm_back_row back_row].
  - exists rows, L; auto.
  - destruct (brow_ok rows L HB row2) as (r2 & E2 & H2); [lia|].
    destruct (brow_ok rows L HB row) as (r & E & H); [lia|].
    rewrite E2, !bind_ok, rowat_ok by lia. rewrite bind_ok, (B_leader _ _ H2), find_leader_pos_bit, !bind_ok.
    destruct (first_true (nth row2 L [])) as [pos|] eqn:Ef; [|exists rows, L; auto].
    pose proof (first_true_lt _ _ Ef) as Hp. pose proof (first_true_nth _ _ Ef) as Hpn.
    assert (Hpos : pos < n) by (rewrite <- (HR row2) by lia; exact Hp).
    rewrite (B_get _ _ _ H2 Hp), elt_ok by exact Hp. rewrite !bind_ok, Hpn.
    rewrite (bm_get_ok n rows L HB HR), (el_ok n L HR) by lia. rewrite !bind_ok.
    destruct (bent L row pos) eqn:Eb.
    + change (c_eqb bit_ops true false) with (@Ok bool false).
      change (c_div bit_ops true true) with (@Ok bool true). rewrite !bind_ok.
      rewrite row_smul_bit, bind_ok. destruct (B_scale r2 _ true H2) as (sc & Es & Hs). rewrite Es, bind_ok.
      rewrite E, rowat_ok, !bind_ok by lia.
      assert (Hlen : length (nth row L []) = length (map (fun x : bool => x && true) (nth row2 L []))).
      { rewrite map_length, !HR by lia. reflexivity. }
      rewrite vrow_sub_bit by exact Hlen. rewrite bind_ok, setrow_ok by lia. rewrite bind_ok.
      destruct (B_xor_in _ _ _ _ H Hs Hlen) as (r' & Er & Hr'). rewrite Er, bind_ok.
      destruct (bsetrow_ok rows L HB row r' _ ltac:(lia) Hr') as [-> HB']. rewrite bind_ok.
      edestruct (IH _ _ row (S row2) HB') as (rows' & L' & E3 & E4 & H3 & H4 & H5).
      * apply rect_upd; [exact HR|]. rewrite map2b_length by exact Hlen. apply HR. lia.
      * lia.
      * rewrite upd_length. lia.
      * rewrite E3, E4. exists rows', L'. rewrite upd_length in H5. auto.
    + change (c_eqb bit_ops false false) with (@Ok bool true). rewrite bind_ok.
      apply IH; auto; lia.
Qed.

Lemma bm_rech_ok m mr n L : brep m mr n L -> 0 < mr -> 0 < n ->
  exists m' L', bm_rech m = Ok m' /\ brep m' mr n L' /\ row_echelon_form bit_ops (mkmat L n) = Ok (mkmat L' n).
Proof.
  intros H Hm Hn. destruct (bm_rr_ok m mr n L H Hm Hn) as (m1 & L1 & E1 & (HB1 & HR1 & HL1 & Hn1) & E2).
  unfold bm_rech, row_echelon_form. rewrite E1, E2, !bind_ok. cbn [t_rows t_nc].
  rewrite (get_zero_bit n) by (auto; lia). rewrite bind_ok. unfold t_nr, bm_nr. cbn [t_rows].
  rewrite (Forall2_len _ _ _ HB1).
  assert (Hf : forall k i rows L0, i + k <= mr -> BM rows L0 -> rect n L0 -> length L0 = mr ->
    exists rows' L', foldM (fun rows row => bm_back_row (length rows - S row) rows row (S row)) (seq i k) rows = Ok rows' /\
      foldM (fun rows row => back_row bit_ops (length rows - S row) rows false row (S row)) (seq i k) L0 = Ok L' /\
      BM rows' L' /\ rect n L' /\ length L' = mr).
  { induction k as [|k IH]; intros i rows L0 Hi HB HR HL; cbn [seq foldM]; [exists rows, L0; auto|].
    rewrite (Forall2_len _ _ _ HB).
    destruct (bm_back_row_ok n (length L0 - S i) rows L0 i (S i) HB HR) as (rows' & L' & E3 & E4 & H3 & H4 & H5); [lia|lia|].
    rewrite E3, E4, !bind_ok. apply IH; auto; lia. }
  destruct (Hf (length L1) 0 (bm_rows m1) L1) as (rows' & L' & E3 & E4 & H3 & H4 & H5); auto; [lia|].
  rewrite E3, E4, !bind_ok. exists (mkbm rows' (bm_nc m1)), L'. repeat split; auto.
Qed.

(* ---- copies *)
Lemma mapM_F2 {A C D} (f : A -> res C) (P : A -> D -> Prop) (Q : C -> D -> Prop) l l' :
  Forall2 P l l' -> (forall x y, P x y -> exists z, f x = Ok z /\ Q z y) ->
  exists r, mapM f l = Ok r /\ Forall2 Q r l'.
Proof.
  intros H Hf. induction H as [|x y l l' Hxy H IH]; cbn [mapM]; [exists []; auto|].
  destruct (Hf x y Hxy) as (z & E & Hz), IH as (r & Er & Hr). rewrite E, bind_ok, Er, bind_ok.
  exists (z :: r); split; [reflexivity|]. constructor; assumption.
Qed.
Lemma bm_copy_ok m mr n L : brep m mr n L -> exists c, bm_copy m = Ok c /\ brep c mr n L.
Proof.
  intros (HB & HR & HL & Hn). unfold bm_copy.
  destruct (mapM_F2 (bv_assign bv_null) B B _ _ HB) as (r & E & H).
  - intros x y Hxy. apply B_assign_null. exact Hxy.
  - rewrite E, bind_ok. eexists; split; [reflexivity|]. repeat split; auto.
Qed.

(* ---- rank *)
Fixpoint nzprefix (L : list (list bool)) : nat :=
  match L with
  | [] => 0
  | l :: t => match first_true l with Some _ => S (nzprefix t) | None => 0 end
  end.
Lemma bm_rank_rows_ok rows L : BM rows L -> forall k, bm_rank_rows rows k = Ok (k + nzprefix L).
Proof.
  induction 1 as [|r l rows L Hr H IH]; intros k; cbn [bm_rank_rows nzprefix].
  - f_equal. lia.
  - rewrite (B_is_zero _ _ Hr), bind_ok. destruct (first_true l); [|f_equal; lia]. rewrite IH. f_equal. lia.
Qed.
Lemma bm_rank_rr_ok m mr n L : brep m mr n L -> bm_rank_rr m = Ok (nzprefix L).
Proof. intros (HB & _). unfold bm_rank_rr. rewrite (bm_rank_rows_ok _ _ HB). reflexivity. Qed.
Lemma rank_rr_bit n L : rect n L -> 0 < length L -> 0 < n ->
  get_rank_rr bit_ops (mkmat L n) = Ok (length (filter (fun l => match first_true l with Some _ => true | None => false end) L)).
Proof.
  intros HR HL Hn. unfold get_rank_rr. cbn [t_rows t_nc]. rewrite (get_zero_bit n) by auto. rewrite bind_ok.
  assert (Hf : forall L0, rect n L0 -> forall k, foldM (fun rank r => l <- find_nz bit_ops (firstn n r) false ;;
      Ok (match l with Some _ => S rank | None => rank end)) L0 k
      = Ok (k + length (filter (fun l => match first_true l with Some _ => true | None => false end) L0))).
  { induction L0 as [|l L0 IH]; intros HR0 k; cbn [foldM filter]; [cbn; f_equal; lia|].
    replace (firstn n l) with l by (symmetry; apply firstn_all2; rewrite (HR0 0 ltac:(cbn; lia)) || idtac; specialize (HR0 0); cbn in HR0; lia).
    rewrite find_nz_bit, !bind_ok. rewrite IH by (intros i Hi; apply (HR0 (S i)); cbn; lia).
    destruct (first_true l); cbn [length]; f_equal; lia. }
  rewrite Hf by exact HR. reflexivity.
Qed.

(* ---- kernel *)
Definition zero_rows_last (L : list (list bool)) : Prop :=
  nzprefix L = length (filter (fun l => match first_true l with Some _ => true | None => false end) L).
Lemma foldM_ext_in {A C} (f g : A -> C -> res A) l : forall a, (forall a x, In x l -> f a x = g a x) -> foldM f l a = foldM g l a.
Proof.
  induction l as [|x l IH]; intros a H; [reflexivity|]. cbn [foldM]. rewrite H by (left; reflexivity).
  destruct (g a x); cbn [bind]; auto. apply IH. intros; apply H; right; assumption.
Qed.
Lemma bm_free_flags_ok rows L nc rank : BM rows L -> rank <= length L ->
  bm_free_flags rows nc rank = free_flags bit_ops L nc rank false.
Proof.
  intros HB Hr. apply foldM_ext_in. intros fl i Hi. apply in_seq in Hi.
  destruct (brow_ok rows L HB i ltac:(lia)) as (r & E & H). rewrite E, rowat_ok, !bind_ok by lia.
  rewrite (B_leader _ _ H), find_leader_pos_bit. reflexivity.
Qed.
Lemma setelt_inv (l : list bool) i x l' : setelt l i x = Ok l' -> i < length l /\ l' = upd l i x.
Proof. unfold setelt. destruct (Nat.ltb_spec i (length l)); [|discriminate]. intros [= <-]; auto. Qed.
Lemma bm_kernel_row_ok n rows L rank r fi l' : BM rows L -> rect n L -> rank <= length L -> fi < n ->
  B r (repeat false n) -> kernel_row bit_ops L n rank false true fi = Ok l' ->
  exists r', bm_kernel_row rows rank r fi = Ok r' /\ B r' l' /\ length l' = n.
Proof.
  intros HB HR Hrk Hfi Hr. unfold kernel_row, bm_kernel_row.
  destruct (setelt (repeat false n) fi true) as [l0| | |] eqn:E0; try discriminate. cbn [bind].
  apply setelt_inv in E0. destruct E0 as [H0 ->].
  destruct (B_set r _ fi true Hr H0) as (r0 & -> & Hr0). rewrite bind_ok.
  assert (Hlen : length (upd (repeat false n) fi true) = n) by (rewrite upd_length, repeat_length; reflexivity).
  revert r0 Hr0 Hlen. generalize (upd (repeat false n) fi true) as l0.
  assert (Hs : forall x, In x (seq 0 rank) -> x < length L) by (intros x Hx; apply in_seq in Hx; lia).
  revert Hs. generalize (seq 0 rank) as s. induction s as [|j s IH]; intros Hs l0 r0 Hr0 Hlen H; cbn [foldM] in H |- *.
  - injection H as <-. eauto.
  - rewrite (el_ok n L HR) in H by (auto with datatypes). cbn [bind] in H.
    rewrite (bm_get_ok n rows L HB HR) by (auto with datatypes). rewrite bind_ok.
    destruct (bent L j fi) eqn:Eb.
    + change (c_eqb bit_ops true false) with (@Ok bool false) in H. cbn [bind] in H.
      destruct (brow_ok rows L HB j) as (rj & Ej & Hj); [auto with datatypes|].
      rewrite Ej, bind_ok, (B_leader _ _ Hj), bind_ok. rewrite rowat_ok in H by (auto with datatypes). cbn [bind] in H.
      rewrite find_leader_pos_bit in H. cbn [bind] in H.
      destruct (first_true (nth j L [])) as [dep|]; [|discriminate H].
      change (c_neg bit_ops true) with (@Ok bool true) in H. cbn [bind] in H.
      rewrite bind_ok. destruct (setelt l0 dep true) as [l1| | |] eqn:E1; try discriminate H. cbn [bind] in H.
      apply setelt_inv in E1. destruct E1 as [Hd ->].
      destruct (B_set r0 l0 dep true Hr0 Hd) as (r1 & -> & Hr1). rewrite bind_ok.
      apply (IH (fun x Hx => Hs x (or_intror Hx)) _ r1 Hr1); [rewrite upd_length; exact Hlen|exact H].
    + change (c_eqb bit_ops false false) with (@Ok bool true) in H. cbn [bind] in H. rewrite bind_ok.
      apply (IH (fun x Hx => Hs x (or_intror Hx)) _ r0 Hr0 Hlen H).
Qed.

(* fills that are allowed: any fill when the length is a multiple of 64, otherwise
   only under the relaxed reading of trim *)
Definition fill_allowed (tm : option N) (n : nat) : Prop := match tm with None => n mod 64 = 0 | Some _ => True end.
Lemma B_fill_zero tm n : 0 < n -> fill_allowed tm n -> exists v, bv_fill tm false n = Ok v /\ B v (repeat false n).
Proof.
  intros Hn H. destruct tm as [m|]; [apply B_fill0; exact Hn|].
  destruct (B_fill_mult None false n Hn H) as (v & E & Hv). exists v; auto.
Qed.
Lemma mapM_const {C} (f : nat -> res C) (Q : C -> list bool -> Prop) x k : forall i,
  (forall j, exists z, f j = Ok z /\ Q z x) -> exists r, mapM f (seq i k) = Ok r /\ Forall2 Q r (repeat x k).
Proof.
  induction k as [|k IH]; intros i H; cbn [seq mapM repeat]; [exists []; auto|].
  destruct (H i) as (z & E & Hz), (IH (S i) H) as (r & Er & Hr). rewrite E, bind_ok, Er, bind_ok.
  exists (z :: r); split; [reflexivity|constructor; assumption].
Qed.
Lemma nth_repeat_lt {A} (x d : A) k i : i < k -> nth i (repeat x k) d = x.
Proof. revert i; induction k as [|k IH]; intros [|i] H; cbn; try lia; auto. apply IH; lia. Qed.
Lemma rect_repeat n k : rect n (repeat (repeat false n) k).
Proof. intros i Hi. rewrite repeat_length in Hi. rewrite nth_repeat_lt by exact Hi. apply repeat_length. Qed.
Lemma bm_fill_ok tm mr n : 0 < mr -> 0 < n -> fill_allowed tm n ->
  exists m, bm_fill tm false mr n = Ok m /\ brep m mr n (repeat (repeat false n) mr).
Proof.
  intros Hm Hn Ht. unfold bm_fill. destruct (Nat.eqb_spec mr 0); [lia|]. destruct (Nat.eqb_spec n 0); [lia|]. cbn [orb].
  edestruct (mapM_const (fun _ : nat => v <- bv_fill tm false n ;; bv_assign bv_null v) B (repeat false n) mr 0) as (r & E & Hr).
  { intros _. destruct (B_fill_zero tm n Hn Ht) as (v & -> & Hv). rewrite bind_ok. apply B_assign_null. exact Hv. }
  rewrite E, bind_ok. eexists; split; [reflexivity|]. repeat split; auto; [apply rect_repeat|apply repeat_length].
Qed.
Lemma bm_fill_ub b mr n : 0 < mr -> 0 < n -> n mod 64 <> 0 -> bm_fill None b mr n = UB.
Proof.
  intros Hm Hn Ht. unfold bm_fill. destruct (Nat.eqb_spec mr 0); [lia|]. destruct (Nat.eqb_spec n 0); [lia|]. cbn [orb].
  destruct mr; [lia|]. cbn [seq mapM]. rewrite fill_ub by assumption. reflexivity.
Qed.
Lemma bm_new_ok mr n : 0 < mr -> 0 < n ->
  exists m, bm_new mr n = Ok m /\ brep m mr n (repeat (repeat false n) mr).
Proof.
  intros Hm Hn. unfold bm_new. destruct (Nat.eqb_spec mr 0); [lia|]. destruct (Nat.eqb_spec n 0); [lia|]. cbn [orb].
  edestruct (mapM_const (fun _ : nat => v <- bv_new n ;; bv_assign bv_null v) B (repeat false n) mr 0) as (r & E & Hr).
  { intros _. destruct (B_new n Hn) as (v & -> & Hv). rewrite bind_ok. apply B_assign_null. exact Hv. }
  rewrite E, bind_ok. eexists; split; [reflexivity|]. repeat split; auto; [apply rect_repeat|apply repeat_length].
Qed.

Definition bm_any (m : bmat) : Prop := m = bm_null \/ exists a b L, brep m a b L.
Lemma Forall2_zip {A C D} (f : A -> A -> res C) (P : A -> D -> Prop) (Q : C -> D -> Prop) l1 L1 l2 L2 :
  Forall2 P l1 L1 -> Forall2 P l2 L2 -> length L1 = length L2 ->
  (forall i x y d, nth_error l1 i = Some x -> nth_error l2 i = Some y -> P y (nth i L2 d) -> P x (nth i L1 d) -> i < length L2 ->
     exists z, f x y = Ok z /\ Q z (nth i L2 d)) ->
  exists r, map2M f l1 l2 = Ok r /\ Forall2 Q r L2.
Proof.
  intros H1; revert l2 L2. induction H1 as [|x d l1 L1 Hx H1 IH]; intros l2 L2 H2 HL Hf.
  - destruct L2; [|discriminate HL]. inversion H2; subst. exists []; split; [reflexivity|constructor].
  - destruct L2 as [|e L2]; [discriminate HL|]. inversion H2 as [|y ? l2' ? Hy H2']; subst. cbn [map2M].
    destruct (Hf 0 x y d eq_refl eq_refl Hy Hx ltac:(cbn; lia)) as (z & E & Hz). rewrite E, bind_ok.
    destruct (IH l2' L2 H2') as (r & Er & Hr).
    + injection HL; auto.
    + intros i x' y' d' Hi1 Hi2 Py Px Hi. apply (Hf (S i) x' y' d' Hi1 Hi2 Py Px). cbn; lia.
    + rewrite Er, bind_ok. exists (z :: r). split; [reflexivity|constructor; assumption].
Qed.
Lemma bm_assign_ok m u mr n L : bm_any m -> brep u mr n L -> 0 < mr ->
  exists m', bm_assign m u = Ok m' /\ brep m' mr n L.
Proof.
  intros Hm (HB & HR & HL & Hn) Hmr. unfold bm_assign.
  assert (Hnew : exists m', (rows <- mapM (fun r => v <- bv_new (bm_nc u) ;; v0 <- bv_assign bv_null v ;; bv_assign v0 r) (bm_rows u) ;;
    Ok (mkbm rows (bm_nc u))) = Ok m' /\ brep m' mr n L).
  { destruct (mapM_F2 (fun r => v <- bv_new (bm_nc u) ;; v0 <- bv_assign bv_null v ;; bv_assign v0 r)
       (fun r l => B r l /\ length l = n) B (bm_rows u) L) as (r & E & H).
    - clear -HB HR. revert HR. induction HB; intros HR; constructor.
      + split; [assumption|]. apply (HR 0). cbn; lia.
      + apply IHHB. intros i Hi. apply (HR (S i)). cbn; lia.
    - intros x y [Hxy Hl]. rewrite Hn. destruct (B_new n) as (v & -> & Hv).
      { pose proof (B_words _ _ Hxy). lia. }
      rewrite bind_ok. destruct (B_assign_null _ _ Hv) as (v0 & -> & Hv0). rewrite bind_ok.
      apply (B_assign _ _ _ _ Hv0 Hxy). rewrite repeat_length, Hl. lia.
    - rewrite E, bind_ok. eexists; split; [reflexivity|]. repeat split; auto. }
  destruct Hm as [->|(a & b & L0 & HB0 & HR0 & HL0 & Hn0)].
  - cbn [bm_nr bm_null bm_rows length].
    replace (bm_nr bm_null) with 0 by reflexivity. unfold bm_nr. rewrite (Forall2_len _ _ _ HB).
    destruct (Nat.eqb_spec 0 (length L)); [lia|]. exact Hnew.
  - unfold bm_nr. rewrite (Forall2_len _ _ _ HB), (Forall2_len _ _ _ HB0), Hn0, Hn.
    destruct (Nat.eqb_spec (length L0) (length L)) as [He|]; [|rewrite Hn in Hnew; exact Hnew].
    destruct (Nat.eqb_spec b n) as [Heb|]; [|rewrite Hn in Hnew; exact Hnew]. cbn [andb].
    destruct (Forall2_zip bv_assign B B _ _ _ _ HB0 HB He) as (r & E & H).
    + intros i x y d Hx Hy Py Px Hi. apply (B_assign _ _ _ _ Px Py).
      rewrite (nth_indep L0 d []), (nth_indep L d []) by lia. rewrite HR, HR0, Heb by lia. lia.
    + rewrite E, bind_ok. eexists; split; [reflexivity|]. repeat split; auto.
Qed.

Lemma bm_kernel_ok tm m mr n L rbas r : brep m mr n L -> 0 < mr -> 0 < n -> fill_allowed tm n -> bm_any rbas ->
  (forall L', row_echelon_form bit_ops (mkmat L n) = Ok (mkmat L' n) -> zero_rows_last L') ->
  get_kernel_basis bit_ops (mkmat L n) false true = Ok r ->
  exists r', bm_kernel tm m rbas = Ok r' /\
    match r, r' with
    | None, None => True
    | Some t, Some k => t_nc t = n /\ brep k (length (t_rows t)) n (t_rows t)
    | _, _ => False
    end.
Proof.
  intros H Hm Hn Ht Hb Hz. unfold get_kernel_basis, bm_kernel.
  destruct (bm_copy_ok m mr n L H) as (c & -> & Hc). rewrite bind_ok.
  destruct (bm_rech_ok c mr n L Hc Hm Hn) as (rr & L' & -> & Hrr & Er). rewrite bind_ok, Er.
  specialize (Hz L' Er). cbn [bind]. rewrite (bm_rank_rr_ok _ _ _ _ Hrr), bind_ok.
  pose proof Hrr as (HB & HR & HL & Hnn). pose proof H as (_ & _ & _ & Hmn).
  rewrite (rank_rr_bit n L' HR) by lia. rewrite <- Hz. cbn [bind t_nc t_rows].
  destruct (n <? nzprefix L'); [discriminate|]. rewrite Hnn.
  destruct (Nat.eqb_spec (n - nzprefix L') 0) as [Hd|Hd].
  { intros [= <-]. exists None; auto. }
  destruct (bm_fill_ok tm (n - nzprefix L') n ltac:(lia) Hn Ht) as (bas & -> & Hbas). rewrite bind_ok.
  assert (Hrk : nzprefix L' <= length L').
  { clear. induction L' as [|l L' IH]; cbn; [lia|]. destruct (first_true l); cbn; lia. }
  rewrite Hmn. rewrite (bm_free_flags_ok _ L') by assumption.
  destruct (free_flags bit_ops L' n (nzprefix L') false) as [fl| | |] eqn:Efl; try discriminate. cbn [bind].
  assert (Hfl : length fl = n).
  { unfold free_flags in Efl. revert Efl. rewrite <- (repeat_length true n) at 2. generalize (repeat true n) as f0.
    generalize (seq 0 (nzprefix L')) as s. induction s as [|i s IH]; intros f0 Ef; cbn [foldM] in Ef.
    - injection Ef as <-. reflexivity.
    - destruct (rowat L' i) as [ri| | |]; try discriminate. cbn [bind] in Ef. rewrite find_leader_pos_bit in Ef. cbn [bind] in Ef.
      destruct (first_true ri) as [q|]; [destruct (q <? length f0); [|discriminate]|]; cbn [bind] in Ef; apply IH in Ef; [rewrite upd_length in Ef|]; exact Ef. }
  set (dk := n - nzprefix L') in *. set (fi := free_indices fl) in *.
  destruct (mapM _ (seq 0 dk)) as [rows| | |] eqn:Em; try discriminate. cbn [bind]. intros [= <-].
  assert (Hmap : forall s rows, (forall i, In i s -> i < dk) ->
    mapM (fun i => match nth_error fi i with Some f => kernel_row bit_ops L' n (nzprefix L') false true f | None => UB end) s = Ok rows ->
    exists rws, mapM (fun i => b <- brow (bm_rows bas) i ;; match nth_error fi i with
         | Some f => bm_kernel_row (bm_rows rr) (nzprefix L') b f | None => UB end) s = Ok rws /\
      Forall2 (fun v l => B v l /\ length l = n) rws rows).
  { induction s as [|i s IH]; intros rw Hi E; cbn [mapM] in E |- *.
    - injection E as <-. exists []; auto.
    - destruct Hbas as (HBb & HRb & HLb & _).
      destruct (brow_ok (bm_rows bas) _ HBb i) as (b & Eb & HBi); [rewrite HLb; auto with datatypes|]. rewrite Eb, bind_ok.
      rewrite nth_repeat_lt in HBi by (auto with datatypes).
      destruct (nth_error fi i) as [f|] eqn:Ef; [|discriminate].
      assert (f < n).
      { apply nth_error_In in Ef. unfold fi, free_indices in Ef. apply filter_In in Ef. destruct Ef as [Ef _].
        apply in_seq in Ef. lia. }
      destruct (kernel_row bit_ops L' n (nzprefix L') false true f) as [l1| | |] eqn:Ek; try discriminate. cbn [bind] in E.
      destruct (bm_kernel_row_ok n (bm_rows rr) L' (nzprefix L') b f l1 HB HR Hrk H0 HBi Ek) as (b' & -> & Hb' & Hl1).
      rewrite bind_ok. destruct (mapM _ s) as [rw'| | |] eqn:Es in E; try discriminate. cbn [bind] in E. injection E as <-.
      destruct (IH rw' (fun x Hx => Hi x (or_intror Hx)) Es) as (rws & -> & Hrws). rewrite bind_ok.
      exists (b' :: rws); split; [reflexivity|]. constructor; auto. }
  destruct (Hmap (seq 0 dk) rows ltac:(intros i Hi; apply in_seq in Hi; lia) Em) as (rws & -> & Hrws). rewrite bind_ok.
  assert (Hlen : length rows = dk).
  { clear -Em. transitivity (length (seq 0 dk)); [|apply seq_length]. revert rows Em. generalize (seq 0 dk) as s.
    induction s as [|i s IH]; intros rows E; cbn [mapM] in E; [injection E as <-; reflexivity|].
    destruct (nth_error fi i); [|discriminate]. destruct (kernel_row _ _ _ _ _ _ _); try discriminate. cbn [bind] in E.
    destruct (mapM _ s) eqn:Es in E; try discriminate. cbn [bind] in E. injection E as <-. cbn. f_equal. apply IH. exact Es. }
  destruct (bm_assign_ok rbas (mkbm rws (bm_nc bas)) (length rows) n rows Hb) as (out & -> & Hout).
  - destruct Hbas as (_ & _ & _ & Hnb). repeat split; auto.
    + clear -Hrws. induction Hrws; constructor; [apply H|assumption].
    + intros i Hi. clear -Hrws Hi. revert i Hi. induction Hrws; intros i Hi; cbn in Hi; [lia|].
      destruct i; cbn; [apply H|]. apply IHHrws. lia.
  - lia.
  - rewrite bind_ok. exists (Some out). split; [reflexivity|]. cbn [t_nc t_rows]. split; [reflexivity|exact Hout].
Qed.
Lemma bm_kernel_ub m mr n L rbas t : brep m mr n L -> 0 < mr -> 0 < n -> n mod 64 <> 0 ->
  (forall L', row_echelon_form bit_ops (mkmat L n) = Ok (mkmat L' n) -> zero_rows_last L') ->
  get_kernel_basis bit_ops (mkmat L n) false true = Ok (Some t) ->
  bm_kernel None m rbas = UB.
Proof.
  intros H Hm Hn Ht Hz. unfold get_kernel_basis, bm_kernel.
  destruct (bm_copy_ok m mr n L H) as (c & -> & Hc). rewrite bind_ok.
  destruct (bm_rech_ok c mr n L Hc Hm Hn) as (rr & L' & -> & Hrr & Er). rewrite bind_ok, Er.
  specialize (Hz L' Er). cbn [bind]. rewrite (bm_rank_rr_ok _ _ _ _ Hrr), bind_ok.
  pose proof Hrr as (HB & HR & HL & Hnn).
  rewrite (rank_rr_bit n L' HR) by lia. rewrite <- Hz. cbn [bind t_nc t_rows].
  destruct (n <? nzprefix L'); [discriminate|]. rewrite Hnn.
  destruct (Nat.eqb_spec (n - nzprefix L') 0) as [Hd|Hd]; [discriminate|].
  intros _. rewrite bm_fill_ub by (auto; lia). reflexivity.
Qed.

(* ---- determinant *)
Lemma bm_det_ok m n L d : brep m n n L -> 0 < n -> mat_det bit_ops (mkmat L n) = Ok d -> bm_det m = Ok d.
Proof.
  intros H Hn. pose proof H as (HB & HR & HL & Hnn). unfold mat_det, bm_det, is_square, t_nr, bm_nr. cbn [t_rows t_nc].
  rewrite (Forall2_len _ _ _ HB), HL, Hnn, Nat.eqb_refl.
  destruct (bm_copy_ok m n n L H) as (c & -> & Hc). rewrite bind_ok.
  destruct (bm_rr_scalar_ok c n n L Hc Hn Hn) as (m' & L' & s & -> & (HB' & HR' & HL' & Hn') & -> & Hs). rewrite !bind_ok.
  cbn [t_rows]. rewrite (forallM_iff _ (fun i => bent L' i i)).
  2:{ intros i Hi. apply in_seq in Hi. apply (bm_get_ok n _ L' HB' HR'); lia. }
  assert (Hf : forall l s, (forall i, In i l -> i < n) ->
    foldM (fun d i => x <- el L' i i ;; c_mul bit_ops d x) l s = Ok (s && forallb (fun i => bent L' i i) l)).
  { induction l as [|i l IH]; intros s0 Hi; cbn [foldM forallb]; [rewrite andb_true_r; reflexivity|].
    assert (i < n) by (apply Hi; left; reflexivity).
    rewrite (el_ok n L' HR') by lia. rewrite !bind_ok.
    change (c_mul bit_ops s0 (bent L' i i)) with (Ok (s0 && bent L' i i)). rewrite bind_ok.
    rewrite IH by (intros; apply Hi; right; assumption). rewrite andb_assoc. reflexivity. }
  rewrite Hf by (intros i Hi; apply in_seq in Hi; lia). intros [= <-]. f_equal.
  destruct Hs as [->|[-> Hz]]; [reflexivity|]. destruct n; [lia|]. cbn [seq forallb]. rewrite Hz. reflexivity.
Qed.

(* ---- entrywise loops; sw: the roles of row and column index are exchanged *)
Definition bent' (sw : bool) L i j := if sw then bent L j i else bent L i j.
Definition okop (sw : bool) (mr n p q : nat) (G I0 : nat -> nat -> bool) (op : list bvec -> nat -> nat -> res (list bvec)) : Prop :=
  forall rows L i j, BM rows L -> rect n L -> length L = mr -> i < p -> j < q -> bent' sw L i j = I0 i j ->
  exists rows' L', op rows i j = Ok rows' /\ BM rows' L' /\ rect n L' /\ length L' = mr /\
    forall x y, bent' sw L' x y = if (x =? i) && (y =? j) then G i j else bent' sw L x y.
Lemma entry_loop sw mr n p q G I0 op rows L : okop sw mr n p q G I0 op -> BM rows L -> rect n L -> length L = mr ->
  (forall i j, i < p -> j < q -> bent' sw L i j = I0 i j) ->
  exists rows' L', foldM (fun rows i => foldM (fun rows j => op rows i j) (seq 0 q) rows) (seq 0 p) rows = Ok rows' /\
    BM rows' L' /\ rect n L' /\ length L' = mr /\
    forall x y, bent' sw L' x y = if (x <? p) && (y <? q) then G x y else bent' sw L x y.
Proof.
  intros Hop HB HR HL HI.
  pose (Inv := fun i rows' => exists L', BM rows' L' /\ rect n L' /\ length L' = mr /\
    forall x y, bent' sw L' x y = if (x <? i) && (y <? q) then G x y else bent' sw L x y).
  destruct (foldM_seq_inv (fun rows i => foldM (fun rows j => op rows i j) (seq 0 q) rows) Inv p 0 rows) as (rows' & E & L' & H).
  - intros i rws Hi (L1 & HB1 & HR1 & HL1 & He1).
    pose (Inv2 := fun j rows' => exists L', BM rows' L' /\ rect n L' /\ length L' = mr /\
      forall x y, bent' sw L' x y = if ((x <? i) && (y <? q)) || ((x =? i) && (y <? j)) then G x y else bent' sw L x y).
    destruct (foldM_seq_inv (fun rows j => op rows i j) Inv2 q 0 rws) as (rows' & E & L' & H).
    + intros j rw2 Hj (L2 & HB2 & HR2 & HL2 & He2).
      destruct (Hop rw2 L2 i j HB2 HR2 HL2) as (rows' & L' & E & HB' & HR' & HL' & He'); [lia|lia| |].
      * rewrite He2. destruct (Nat.ltb_spec i i); [lia|]. destruct (Nat.ltb_spec j j); [lia|].
        rewrite andb_false_r, orb_false_r, andb_false_l. apply HI; lia.
      * exists rows'; split; [exact E|]. exists L'. repeat (split; [assumption|]).
        intros x y. rewrite He', He2.
        destruct (Nat.eqb_spec x i), (Nat.eqb_spec y j), (Nat.ltb_spec x i), (Nat.ltb_spec y q), (Nat.ltb_spec y j), (Nat.ltb_spec y (S j));
          try lia; subst; reflexivity.
    + exists L1. repeat (split; [assumption|]). intros x y. rewrite He1.
      destruct (Nat.ltb_spec y 0); [lia|]. rewrite andb_false_r, orb_false_r. reflexivity.
    + destruct H as (HB' & HR' & HL' & He'). exists rows'; split; [exact E|]. exists L'. repeat (split; [assumption|]).
      intros x y. rewrite He'. cbn [Nat.add].
      destruct (Nat.eqb_spec x i), (Nat.ltb_spec x i), (Nat.ltb_spec x (S i)); try lia; subst; cbn [andb orb]; rewrite ?orb_false_r; reflexivity.
  - exists L. repeat (split; [assumption|]). intros x y. destruct (Nat.ltb_spec x 0); [lia|reflexivity].
  - destruct H as (HB' & HR' & HL' & He'). exists rows', L'. auto.
Qed.

Lemma bent_upd n L i j b x y : rect n L -> i < length L -> j < n ->
  bent (upd L i (upd (nth i L []) j b)) x y = if (x =? i) && (y =? j) then b else bent L x y.
Proof.
  intros HR Hi Hj. unfold bent. rewrite upd_nth. destruct (Nat.eqb_spec x i) as [->|]; cbn [andb]; [|reflexivity].
  destruct (Nat.ltb_spec i (length L)); [|lia]. rewrite upd_nth, HR by exact Hi.
  destruct (Nat.eqb_spec y j) as [->|]; [|reflexivity]. destruct (Nat.ltb_spec j n); [|lia]. reflexivity.
Qed.
Lemma set_full n rows L i j b : BM rows L -> rect n L -> i < length L -> j < n ->
  exists rows' L', bm_set rows i j b = Ok rows' /\ BM rows' L' /\ rect n L' /\ length L' = length L /\
    forall x y, bent L' x y = if (x =? i) && (y =? j) then b else bent L x y.
Proof.
  intros HB HR Hi Hj. destruct (bm_set_ok n rows L HB HR i j b Hi Hj) as (rows' & E & HB').
  exists rows', (upd L i (upd (nth i L []) j b)). repeat (split; [first [assumption|apply upd_length|idtac]|]); auto.
  - apply rect_upd; [exact HR|]. rewrite upd_length. apply HR. exact Hi.
  - intros x y. apply (bent_upd n); assumption.
Qed.

Definition tabf (r c : nat) (f : nat -> nat -> bool) : list (list bool) :=
  map (fun i => map (f i) (seq 0 c)) (seq 0 r).
Lemma tabf_len r c f : length (tabf r c f) = r.
Proof. unfold tabf. rewrite map_length, seq_length. reflexivity. Qed.
Lemma nth_map_seq {A} (g : nat -> A) k i d : i < k -> nth i (map g (seq 0 k)) d = g i.
Proof.
  intros H. rewrite (nth_indep _ d (g 0)) by (rewrite map_length, seq_length; exact H).
  rewrite map_nth, seq_nth by exact H. reflexivity.
Qed.
Lemma tabf_rect r c f : rect c (tabf r c f).
Proof.
  intros i Hi. rewrite tabf_len in Hi. unfold tabf. rewrite nth_map_seq by exact Hi. rewrite map_length, seq_length. reflexivity.
Qed.
Lemma tabf_bent r c f i j : i < r -> j < c -> bent (tabf r c f) i j = f i j.
Proof. intros Hi Hj. unfold bent, tabf. rewrite nth_map_seq by exact Hi. apply nth_map_seq. exact Hj. Qed.
Lemma tabf_eq mr n L f : rect n L -> length L = mr -> (forall i j, i < mr -> j < n -> bent L i j = f i j) -> L = tabf mr n f.
Proof.
  intros HR HL H. apply (nth_ext _ _ [] []); [rewrite tabf_len; exact HL|]. intros i Hi.
  assert (Hr : length (nth i (tabf mr n f) []) = n) by (apply tabf_rect; rewrite tabf_len; lia).
  apply (nth_ext _ _ false false); [rewrite Hr; apply HR; exact Hi|]. intros j Hj. rewrite HR in Hj by exact Hi.
  change (bent L i j = bent (tabf mr n f) i j). rewrite tabf_bent by lia. apply H; lia.
Qed.

Lemma bm_transpose_ok m mr n L : brep m mr n L -> 0 < mr -> 0 < n ->
  exists m', bm_transpose m = Ok m' /\ brep m' n mr (tabf n mr (fun i j => bent L j i)).
Proof.
  intros (HB & HR & HL & Hn) Hm Hn0. unfold bm_transpose, bm_nr. rewrite (Forall2_len _ _ _ HB), Hn, HL.
  destruct (bm_new_ok n mr Hn0 Hm) as (rv & -> & (HB1 & HR1 & HL1 & Hn1)). rewrite bind_ok.
  destruct (entry_loop true n mr mr n (fun i j => bent L i j) (fun i j => bent (repeat (repeat false mr) n) j i)
     (fun rows i j => x <- bm_get (bm_rows m) i j ;; bm_set rows j i x) (bm_rows rv) (repeat (repeat false mr) n)) as (rows' & L' & E & HB' & HR' & HL' & He);
    [|exact HB1|exact HR1|exact HL1|reflexivity|].
  - intros rows L0 i j HB0 HR0 HL0 Hi Hj _. rewrite (bm_get_ok n _ L HB HR) by lia. rewrite bind_ok.
    destruct (set_full mr rows L0 j i (bent L i j) HB0 HR0) as (rows' & L' & E & H1 & H2 & H3 & H4); [lia|lia|].
    exists rows', L'. repeat (split; [first [assumption|lia]|]). intros x y. unfold bent'. rewrite H4.
    rewrite andb_comm. reflexivity.
  - rewrite E, bind_ok. eexists; split; [reflexivity|].
    rewrite <- (tabf_eq n mr L' (fun i j => bent L j i)); [repeat split; auto|exact HR'|exact HL'|].
    intros i j Hi Hj. specialize (He j i). unfold bent' in He. rewrite He.
    destruct (Nat.ltb_spec j mr); [|lia]. destruct (Nat.ltb_spec i n); [|lia]. reflexivity.
Qed.

(* the (i,k) entry of a product *)
Definition mulent (q : nat) (L L' : list (list bool)) (i k : nat) : bool :=
  xsum (map (fun j => bent L i j && bent L' j k) (seq 0 q)).
Lemma dotb_seq l l' : length l = length l' ->
  dotb l l' = xsum (map (fun j => nth j l false && nth j l' false) (seq 0 (length l))).
Proof.
  intros H. unfold dotb. f_equal. apply (nth_ext _ _ false false).
  - rewrite map2b_length by exact H. rewrite map_length, seq_length. reflexivity.
  - intros i Hi. rewrite map2b_length in Hi by exact H. rewrite map2b_nth by auto.
    rewrite nth_map_seq by exact Hi. reflexivity.
Qed.
Lemma bm_mul_ok tm m u mr q n L L2 : brep m mr q L -> brep u q n L2 -> 0 < mr -> 0 < q -> 0 < n -> fill_allowed tm n ->
  exists m', bm_mul tm m u = Ok m' /\ brep m' mr n (tabf mr n (mulent q L L2)).
Proof.
  intros (HB & HR & HL & Hn) Hu Hm Hq Hn0 Ht. pose proof Hu as (HBu & HRu & HLu & Hnu).
  unfold bm_mul, bm_nr. rewrite (Forall2_len _ _ _ HB), (Forall2_len _ _ _ HBu), Hn, Hnu, HL, HLu, Nat.eqb_refl.
  destruct (bm_fill_ok tm mr n Hm Hn0 Ht) as (rv & -> & (HB1 & HR1 & HL1 & Hn1)). rewrite bind_ok.
  destruct (bm_transpose_ok u q n L2 Hu Hq Hn0) as (ut & -> & (HBt & HRt & HLt & Hnt)). rewrite bind_ok.
  rewrite (Forall2_len _ _ _ HBt), HLt.
  destruct (entry_loop false mr n mr n (mulent q L L2) (fun i j => false)
     (fun rows i j => r <- brow (bm_rows m) i ;; c <- brow (bm_rows ut) j ;; d <- bv_dot r c ;;
               if (d : bool) then bm_set rows i j true else Ok rows) (bm_rows rv) (repeat (repeat false n) mr)) as (rows' & L' & E & HB' & HR' & HL' & He);
    [|exact HB1|exact HR1|exact HL1| |].
  - intros rows L0 i j HB0 HR0 HL0 Hi Hj Hz.
    destruct (brow_ok _ _ HB i) as (r & -> & Hr); [lia|]. rewrite bind_ok.
    destruct (brow_ok _ _ HBt j) as (c & -> & Hc); [lia|]. rewrite bind_ok.
    assert (Hlen : length (nth i L []) = length (nth j (tabf n q (fun i j => bent L2 j i)) [])).
    { rewrite HR, HRt by lia. reflexivity. }
    rewrite (B_dot _ _ _ _ Hr Hc Hlen), bind_ok.
    assert (Hd : dotb (nth i L []) (nth j (tabf n q (fun i j => bent L2 j i)) []) = mulent q L L2 i j).
    { rewrite dotb_seq by exact Hlen. rewrite HR by lia. unfold mulent. f_equal. apply map_ext_in. intros k Hk. apply in_seq in Hk.
      change (bent L i k && bent (tabf n q (fun i j => bent L2 j i)) j k = bent L i k && bent L2 k j).
      rewrite tabf_bent by lia. reflexivity. }
    rewrite Hd. destruct (mulent q L L2 i j).
    + destruct (set_full n rows L0 i j true HB0 HR0) as (rows' & L' & E & H1 & H2 & H3 & H4); [lia|lia|].
      exists rows', L'. repeat (split; [first [assumption|lia]|]). exact H4.
    + exists rows, L0. repeat (split; [first [reflexivity|assumption]|]). intros x y. cbn [bent'] in *.
      destruct (Nat.eqb_spec x i), (Nat.eqb_spec y j); subst; cbn [andb]; auto.
  - intros i j Hi Hj. unfold bent', bent. rewrite nth_repeat_lt by exact Hi. apply nth_repeat_lt. exact Hj.
  - rewrite E, bind_ok. eexists; split; [reflexivity|].
    rewrite <- (tabf_eq mr n L' (mulent q L L2)); [repeat split; auto|exact HR'|exact HL'|].
    intros i j Hi Hj. specialize (He i j). cbn [bent'] in He. rewrite He.
    destruct (Nat.ltb_spec i mr); [|lia]. destruct (Nat.ltb_spec j n); [|lia]. reflexivity.
Qed.
Lemma bm_mul_ub m u mr q n L L2 : brep m mr q L -> brep u q n L2 -> 0 < mr -> 0 < n -> n mod 64 <> 0 ->
  bm_mul None m u = UB.
Proof.
  intros (HB & HR & HL & Hn) (HBu & HRu & HLu & Hnu) Hm Hn0 Ht.
  unfold bm_mul, bm_nr. rewrite (Forall2_len _ _ _ HB), (Forall2_len _ _ _ HBu), Hn, Hnu, HL, HLu, Nat.eqb_refl.
  rewrite bm_fill_ub by assumption. reflexivity.
Qed.
Lemma bm_mul_dim tm m u mr q q' n L L2 : brep m mr q L -> brep u q' n L2 -> q <> q' -> bm_mul tm m u = Exn.
Proof.
  intros (HB & HR & HL & Hn) (HBu & HRu & HLu & Hnu) Hq.
  unfold bm_mul, bm_nr. rewrite (Forall2_len _ _ _ HBu), Hn, HLu. destruct (Nat.eqb_spec q q'); [contradiction|reflexivity].
Qed.

Lemma bm_make_I_ok m n L : brep m n n L ->
  exists m', bm_make_I m = Ok m' /\ brep m' n n (tabf n n Nat.eqb).
Proof.
  intros H. pose proof H as (HB & HR & HL & Hn). unfold bm_make_I, bm_nr.
  rewrite (Forall2_len _ _ _ HB), Hn, HL, Nat.eqb_refl.
  destruct (bm_copy_ok m n n L H) as (c & -> & (HBc & HRc & HLc & Hnc)). rewrite bind_ok.
  destruct (entry_loop false n n n n Nat.eqb (bent L) (fun rows i j => bm_set rows i j (i =? j)) (bm_rows c) L)
    as (rows' & L' & E & HB' & HR' & HL' & He); [|exact HBc|exact HRc|exact HLc|reflexivity|].
  - intros rows L0 i j HB0 HR0 HL0 Hi Hj _.
    destruct (set_full n rows L0 i j (i =? j) HB0 HR0) as (rows' & L' & E & H1 & H2 & H3 & H4); [lia|lia|].
    exists rows', L'. repeat (split; [first [assumption|lia]|]). exact H4.
  - rewrite E, bind_ok. eexists; split; [reflexivity|].
    rewrite <- (tabf_eq n n L' Nat.eqb); [repeat split; auto|exact HR'|exact HL'|].
    intros i j Hi Hj. specialize (He i j). cbn [bent'] in He. rewrite He.
    destruct (Nat.ltb_spec i n); [|lia]. destruct (Nat.ltb_spec j n); [|lia]. reflexivity.
Qed.

Lemma bm_is_I_ok m n L : brep m n n L -> exists b, bm_is_I m = Ok b /\
  (b = true <-> forall i j, i < n -> j < n -> bent L i j = (i =? j)).
Proof.
  intros (HB & HR & HL & Hn). unfold bm_is_I, bm_nr. rewrite (Forall2_len _ _ _ HB), Hn, HL, Nat.eqb_refl.
  rewrite (forallM_iff _ (fun i => bent L i i)).
  2:{ intros i Hi. apply in_seq in Hi. apply (bm_get_ok n _ L HB HR); lia. }
  rewrite bind_ok. destruct (forallb (fun i => bent L i i) (seq 0 n)) eqn:Ed.
  - rewrite (forallM_iff _ (fun i => forallb (fun j => if i =? j then true else negb (bent L i j)) (seq 0 n))).
    + eexists; split; [reflexivity|]. rewrite forallb_forall. rewrite forallb_forall in Ed. split.
      * intros H i j Hi Hj. specialize (H i). rewrite forallb_forall in H.
        specialize (H ltac:(apply in_seq; lia) j ltac:(apply in_seq; lia)). cbn beta in H.
        destruct (Nat.eqb_spec i j) as [->|]; [apply (Ed j); apply in_seq; lia|].
        destruct (bent L i j); [discriminate H|reflexivity].
      * intros H i Hi. apply in_seq in Hi. apply forallb_forall. intros j Hj. apply in_seq in Hj.
        rewrite H by lia. destruct (i =? j); reflexivity.
    + intros i Hi. apply in_seq in Hi. apply forallM_iff. intros j Hj. apply in_seq in Hj.
      destruct (i =? j); [reflexivity|]. rewrite (bm_get_ok n _ L HB HR) by lia. reflexivity.
  - exists false; split; [reflexivity|]. split; [discriminate|]. intros H.
    rewrite <- Ed. apply forallb_forall. intros i Hi. apply in_seq in Hi. rewrite H by lia. apply Nat.eqb_refl.
Qed.

Lemma bm_add_ok m u mr n L L2 : brep m mr n L -> brep u mr n L2 -> 0 < mr -> 0 < n ->
  exists m', bm_add m u = Ok m' /\ brep m' mr n (tabf mr n (fun i j => xorb (bent L i j) (bent L2 i j))).
Proof.
  intros (HB & HR & HL & Hn) (HBu & HRu & HLu & Hnu) Hm Hn0.
  unfold bm_add, bm_nr. rewrite (Forall2_len _ _ _ HB), (Forall2_len _ _ _ HBu), Hn, Hnu, HL, HLu, !Nat.eqb_refl. cbn [andb].
  destruct (bm_new_ok mr n Hm Hn0) as (rv & -> & (HB1 & HR1 & HL1 & Hn1)). rewrite bind_ok.
  pose (Inv := fun i rows' => exists L', BM rows' L' /\ rect n L' /\ length L' = mr /\
    forall x y, x < i -> bent L' x y = xorb (bent L x y) (bent L2 x y)).
  edestruct (foldM_seq_inv (fun rows i => r <- brow (bm_rows m) i ;; r' <- brow (bm_rows u) i ;;
                     s <- bv_add r r' ;; d <- brow rows i ;; d' <- bv_assign d s ;; bsetrow rows i d') Inv mr 0 (bm_rows rv))
     as (rows' & E & L' & HB' & HR' & HL' & He).
  - intros i rows Hi (L0 & HB0 & HR0 & HL0 & He0).
    destruct (brow_ok _ _ HB i) as (r & -> & Hr); [lia|]. rewrite bind_ok.
    destruct (brow_ok _ _ HBu i) as (r' & -> & Hr'); [lia|]. rewrite bind_ok.
    assert (Hlen : length (nth i L []) = length (nth i L2 [])) by (rewrite HR, HRu by lia; reflexivity).
    destruct (B_comb _ _ _ _ _ _ wordop_xor Hr Hr' Hlen) as (s & Es & Hs). unfold bv_add. rewrite Es, bind_ok.
    destruct (brow_ok _ _ HB0 i) as (d & -> & Hd); [lia|]. rewrite bind_ok.
    destruct (B_assign _ _ _ _ Hd Hs) as (d' & -> & Hd').
    { rewrite map2b_length, HR, HR0 by (auto; lia). lia. }
    rewrite bind_ok. destruct (bsetrow_ok rows L0 HB0 i d' _ ltac:(lia) Hd') as [-> HB'].
    eexists; split; [reflexivity|]. exists (upd L0 i (map2b xorb (nth i L []) (nth i L2 []))). split; [exact HB'|].
    split; [apply rect_upd; [exact HR0|rewrite map2b_length by exact Hlen; apply HR; lia]|].
    split; [rewrite upd_length; exact HL0|]. intros x y Hx. unfold bent. rewrite upd_nth.
    destruct (Nat.eqb_spec x i) as [->|]; cbn [andb].
    + destruct (Nat.ltb_spec i (length L0)); [|lia]. rewrite map2b_nth by auto. reflexivity.
    + apply He0. lia.
  - exists (repeat (repeat false n) mr). repeat (split; [assumption|]). intros x y Hx; lia.
  - rewrite E, bind_ok. eexists; split; [reflexivity|].
    rewrite <- (tabf_eq mr n L' (fun i j => xorb (bent L i j) (bent L2 i j))); [repeat split; auto|exact HR'|exact HL'|].
    intros i j Hi Hj. apply He. lia.
Qed.

(* ---- pasting never works *)
Lemma bm_paste_throws m u n k L L2 : brep m n n L -> brep u n k L2 -> 0 < n -> 0 < k -> bm_paste m u = Exn.
Proof.
  intros (HB & HR & HL & Hn) (HBu & HRu & HLu & Hnu) Hn0 Hk. unfold bm_paste, bm_nr.
  rewrite (Forall2_len _ _ _ HB), (Forall2_len _ _ _ HBu), Hn, Hnu, HL, HLu, Nat.eqb_refl.
  destruct (bm_new_ok n (n + k) Hn0 ltac:(lia)) as (rv & -> & (HB1 & HR1 & HL1 & Hn1)). rewrite bind_ok.
  destruct (Forall2_zip bv_assign B B _ _ _ _ HB1 HB ltac:(lia)) as (r & -> & Hr).
  - intros i x y d Hx Hy Py Px Hi. apply (B_assign _ _ _ _ Px Py).
    rewrite (nth_indep L d []), (nth_indep (repeat (repeat false (n + k)) n) d []) by lia. rewrite HR, HR1 by lia. apply nwords_mono. lia.
  - rewrite bind_ok. destruct n as [|n']; [lia|]. destruct k as [|k']; [lia|]. cbn [seq foldM].
    rewrite (bm_get_ok _ _ L2 HBu HRu 0 0) by lia. rewrite bind_ok.
    unfold bm_set. destruct (brow_ok r L Hr 0) as (r0 & -> & Hr0); [lia|]. rewrite bind_ok.
    rewrite (B_set_out _ _ _ _ Hr0); [reflexivity|]. right. rewrite HR by lia. lia.
Qed.
Lemma bm_inverse_throws m n L : brep m n n L -> 0 < n -> bm_inverse m = Exn.
Proof.
  intros H Hn. pose proof H as (HB & HR & HL & Hnn). unfold bm_inverse, bm_nr.
  rewrite (Forall2_len _ _ _ HB), Hnn, HL, Nat.eqb_refl.
  destruct (bm_make_I_ok m n L H) as (I & -> & HI). rewrite bind_ok.
  rewrite (bm_paste_throws m I n n L _ H HI Hn Hn). reflexivity.
Qed.
Lemma bm_exp_throws tm m n L e : brep m n n L -> 0 < n -> (e <= 0)%Z -> bm_exp tm m e = Exn.
Proof.
  intros H Hn He. pose proof H as (HB & HR & HL & Hnn). unfold bm_exp. rewrite (bm_inverse_throws m n L H Hn).
  unfold bm_nr. rewrite (Forall2_len _ _ _ HB), Hnn, HL, Nat.eqb_refl.
  destruct (bm_make_I_ok m n L H) as (I & -> & HI). rewrite bind_ok.
  destruct (Z.geb_spec e 1); [lia|]. reflexivity.
Qed.
Lemma bm_outer_throws u v l l' : B u l -> B v l' -> bm_outer u v = Exn.
Proof.
  intros Hu Hv. pose proof (B_words _ _ Hu) as (_ & _ & _ & Hp & _). pose proof (B_words _ _ Hv) as (_ & _ & _ & Hp' & _).
  unfold bm_outer. rewrite (B_len _ _ Hu), (B_len _ _ Hv).
  destruct (length l) as [|a] eqn:Ea; [lia|]. destruct (length l') as [|b] eqn:Eb; [lia|]. cbn [seq foldM bm_rows bm_null].
  rewrite (B_get _ _ 0 Hu), (B_get _ _ 0 Hv) by lia. reflexivity.
Qed.

(* ---- positive powers *)
Definition bm_mulassign (tm : option N) (a b : bmat) : res bmat := p <- bm_mul tm a b ;; bm_assign a p.
Lemma posexp_loop_eq tm fuel : forall e a2 ap, (0 <= e <= INT_MAX)%Z ->
  loop fuel (bm_posexp_step tm) (e, a2, ap) = loop fuel (pow_step (bm_mulassign tm)) (e, a2, ap).
Proof.
  induction fuel as [|f IH]; intros e a2 ap He; [reflexivity|]. cbn [loop].
  unfold bm_posexp_step at 1, pow_step at 1. destruct (Z.eqb_spec e 0); [reflexivity|].
  fold (bm_mulassign tm ap a2).
  destruct (if Z.odd e then bm_mulassign tm ap a2 else Ok ap) as [ap'| | |]; try reflexivity. rewrite !bind_ok.
  unfold bm_mulassign. destruct (bm_mul tm a2 a2) as [q| | |]; try reflexivity. rewrite !bind_ok.
  destruct (bm_assign a2 q) as [a2'| | |]; try reflexivity. rewrite !bind_ok.
  rewrite sq_u32 by lia. unfold INT_MAX in He. rewrite Z.mod_small by lia.
  apply IH. unfold INT_MAX. lia.
Qed.
Lemma bm_mulassign_ok tm m u n L L2 : brep m n n L -> brep u n n L2 -> 0 < n -> fill_allowed tm n ->
  exists m', bm_mulassign tm m u = Ok m' /\ brep m' n n (tabf n n (mulent n L L2)).
Proof.
  intros Hm Hu Hn Ht. unfold bm_mulassign.
  destruct (bm_mul_ok tm m u n n n L L2 Hm Hu Hn Hn Hn Ht) as (p & -> & Hp). rewrite bind_ok.
  apply bm_assign_ok; auto. right; eauto.
Qed.

(* ---- matrix times vector *)
Lemma bm_mul_vec_ok tm m mr n L v l : brep m mr n L -> B v l -> length l = n -> 0 < mr -> fill_allowed tm mr ->
  exists w, bm_mul_vec tm m v = Ok w /\
    B w (map (fun i => xsum (map (fun j => bent L i j && nth j l false) (seq 0 n))) (seq 0 mr)).
Proof.
  intros (HB & HR & HL & Hn) Hv Hl Hm Ht. unfold bm_mul_vec, bm_nr.
  rewrite (Forall2_len _ _ _ HB), HL, Hn, (B_len _ _ Hv), Hl, Nat.eqb_refl.
  destruct (B_fill_zero tm mr Hm Ht) as (rv & -> & Hrv). rewrite bind_ok.
  set (P := fun i k => xsum (map (fun j => bent L i j && nth j l false) (seq 0 k))).
  pose (Inv := fun i rv => exists r, B rv r /\ length r = mr /\ forall x, x < mr -> nth x r false = if x <? i then P x n else false).
  match goal with |- context [foldM ?f (seq 0 mr) rv] => destruct (foldM_seq_inv f Inv mr 0 rv) as (w & E & r & Hr & Hlr & He) end.
  - intros i rv0 Hi (r0 & Hr0 & Hl0 & He0).
    pose (Inv2 := fun k rv => exists r, B rv r /\ length r = mr /\
       forall x, x < mr -> nth x r false = if x =? i then P x k else if x <? i then P x n else false).
    match goal with |- context [foldM ?f (seq 0 n) rv0] => destruct (foldM_seq_inv f Inv2 n 0 rv0) as (w & E & r & Hr & Hlr & He) end.
    + intros j rv1 Hj (r1 & Hr1 & Hl1 & He1).
      rewrite (B_get _ _ _ Hr1) by lia. rewrite bind_ok, (bm_get_ok n _ L HB HR) by lia.
      rewrite bind_ok, (B_get _ _ _ Hv) by lia. rewrite bind_ok.
      destruct (B_set rv1 r1 i (xorb (nth i r1 false) (bent L i j && nth j l false)) Hr1) as (rv2 & -> & Hr2); [lia|].
      eexists; split; [reflexivity|]. eexists; split; [exact Hr2|]. rewrite upd_length. split; [exact Hl1|].
      intros x Hx. rewrite upd_nth. destruct (Nat.eqb_spec x i) as [->|Hne]; cbn [andb].
      * destruct (Nat.ltb_spec i (length r1)); [|lia]. rewrite He1, Nat.eqb_refl by lia. unfold P.
        rewrite seq_S, map_app, xsum_app. cbn [map xsum fold_right Nat.add]. rewrite xorb_false_r. reflexivity.
      * rewrite He1 by exact Hx. destruct (Nat.eqb_spec x i); [contradiction|]. reflexivity.
    + exists r0. split; [exact Hr0|]. split; [exact Hl0|]. intros x Hx. rewrite He0 by exact Hx.
      destruct (Nat.eqb_spec x i) as [->|]; [|reflexivity]. destruct (Nat.ltb_spec i i); [lia|]. reflexivity.
    + exists w; split; [exact E|]. exists r. split; [exact Hr|]. split; [exact Hlr|]. intros x Hx. rewrite He by exact Hx.
      destruct (Nat.eqb_spec x i) as [Hxi|], (Nat.ltb_spec x i), (Nat.ltb_spec x (S i)); try lia; reflexivity.
  - exists (repeat false mr). split; [exact Hrv|]. split; [apply repeat_length|]. intros x Hx.
    rewrite nth_repeat_lt by exact Hx. destruct (Nat.ltb_spec x 0); [lia|reflexivity].
  - exists w; split; [exact E|]. replace (map _ (seq 0 mr)) with r; [exact Hr|].
    apply (nth_ext _ _ false false); [rewrite map_length, seq_length; exact Hlr|]. intros x Hx.
    rewrite He by lia. rewrite nth_map_seq by lia. destruct (Nat.ltb_spec x (0 + mr)); [|lia]. reflexivity.
Qed.

(* ---- deciding the representation relation, for examples *)
Definition Bcheck (v : bvec) (l : list bool) : bool :=
  match bv_ptr v with
  | None => false
  | Some ws => (bv_n v =? length l) && (0 <? length l) && (bv_nw v =? nwords (length l)) && (bv_nw v <=? length ws)
      && forallb (fun k => (nth k ws 0 <? 2 ^ 64)%N) (seq 0 (bv_nw v))
      && forallb (fun i => Bool.eqb (wbit ws i) (nth i l false)) (seq 0 (64 * bv_nw v))
  end.
Lemma Bcheck_ok v l : Bcheck v l = true -> B v l.
Proof.
  unfold Bcheck, B. destruct (bv_ptr v) as [ws|]; [|discriminate]. rewrite !andb_true_iff.
  intros [[[[[H1 H2] H3] H4] H5] H6]. apply Nat.eqb_eq in H1, H3. apply Nat.ltb_lt in H2. apply Nat.leb_le in H4.
  rewrite forallb_forall in H5, H6. exists ws. repeat (split; [first [reflexivity|assumption]|]). split.
  - intros k Hk j Hj. specialize (H5 k). rewrite in_seq, N.ltb_lt in H5. specialize (H5 ltac:(lia)).
    rewrite N.bits_above_log2; [reflexivity|]. destruct (N.eq_dec (nth k ws 0%N) 0) as [->|Hne]; [cbn; lia|].
    apply N.log2_lt_pow2 in H5; lia.
  - intros i Hi. apply eqb_prop. apply H6. apply in_seq. lia.
Qed.
Definition brepcheck (m : bmat) (mr n : nat) (L : list (list bool)) : bool :=
  (length (bm_rows m) =? length L) && forallb (fun p => Bcheck (fst p) (snd p)) (combine (bm_rows m) L)
  && forallb (fun l => length l =? n) L && (length L =? mr) && (bm_nc m =? n).
Lemma brepcheck_ok m mr n L : brepcheck m mr n L = true -> brep m mr n L.
Proof.
  unfold brepcheck, brep. rewrite !andb_true_iff. intros [[[[H0 H1] H2] H3] H4].
  apply Nat.eqb_eq in H0, H3, H4. rewrite forallb_forall in H1, H2. repeat split; auto.
  - clear H2 H3. revert L H0 H1. unfold BM. induction (bm_rows m) as [|r rows IH]; intros [|l L] H0 H1; try discriminate H0; constructor.
    + apply Bcheck_ok. apply (H1 (r, l)). left; reflexivity.
    + apply IH; [injection H0; auto|]. intros x Hx. apply H1. right; exact Hx.
  - intros i Hi. apply Nat.eqb_eq, H2, nth_In. exact Hi.
Qed.
