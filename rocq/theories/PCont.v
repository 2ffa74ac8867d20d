(* Proofs about buffers, vectors and stacks. *)
From Verif Require Import Base MCont.
From Coq Require Import Lia.
Open Scope Z_scope.

Section Cont.
Context {A : Type} (dflt : A).

Lemma upd_length (b : list A) i x : length (upd b i x) = length b.
Proof. revert i. induction b as [|y t IH]; intros [|i]; cbn; auto. Qed.
Lemma upd_app (b1 b2 : list A) y x : upd (b1 ++ y :: b2) (length b1) x = b1 ++ x :: b2.
Proof. induction b1 as [|z t IH]; cbn; [reflexivity|]. rewrite IH. reflexivity. Qed.
Lemma rd_app (b1 b2 : list A) y : rd (b1 ++ y :: b2) (Z.of_nat (length b1)) = Ok y.
Proof.
  unfold rd. replace (_ <? 0) with false by lia. rewrite Nat2Z.id, nth_error_app2, Nat.sub_diag by lia. reflexivity.
Qed.
Lemma wr_app (b1 b2 : list A) y x : wr (b1 ++ y :: b2) (Z.of_nat (length b1)) x = Ok (b1 ++ x :: b2).
Proof.
  unfold wr. rewrite app_length. cbn [length]. replace (_ || _) with false by lia. rewrite Nat2Z.id, upd_app. reflexivity.
Qed.
Lemma wr_oob (b : list A) x : wr b (Z.of_nat (length b)) x = UB.
Proof. unfold wr. replace (_ || _) with true by lia. reflexivity. Qed.

(* Copying the m elements of src over the tail of dst. *)
Lemma copy_loop_ok : forall (src pre dst rest : list A), length dst = length src ->
  copy_loop (length src) (Z.of_nat (length pre)) (pre ++ dst ++ rest) (pre ++ src) = Ok (pre ++ src ++ rest).
Proof.
  induction src as [|x src IH]; intros pre dst rest Hl; destruct dst as [|y dst]; try discriminate; cbn [length copy_loop app].
  - reflexivity.
  - rewrite rd_app, bind_ok, wr_app, bind_ok.
    replace (pre ++ x :: dst ++ rest) with ((pre ++ [x]) ++ dst ++ rest) by (rewrite <- app_assoc; reflexivity).
    replace (pre ++ x :: src) with ((pre ++ [x]) ++ src) by (rewrite <- app_assoc; reflexivity).
    replace (Z.of_nat (length pre) + 1) with (Z.of_nat (length (pre ++ [x]))) by (rewrite app_length; cbn; lia).
    rewrite IH by (cbn in Hl; lia). rewrite <- app_assoc. reflexivity.
Qed.
(* More source than destination: the write after the last cell is out of bounds. *)
Lemma copy_loop_oob : forall (src pre dst : list A), (length dst < length src)%nat ->
  copy_loop (length src) (Z.of_nat (length pre)) (pre ++ dst) (pre ++ src) = UB.
Proof.
  induction src as [|x src IH]; intros pre dst Hl; cbn [length] in Hl; [lia|]. cbn [length copy_loop].
  rewrite rd_app, bind_ok. destruct dst as [|y dst].
  - rewrite app_nil_r, wr_oob. reflexivity.
  - rewrite wr_app, bind_ok.
    replace (pre ++ x :: dst) with ((pre ++ [x]) ++ dst) by (rewrite <- app_assoc; reflexivity).
    replace (pre ++ x :: src) with ((pre ++ [x]) ++ src) by (rewrite <- app_assoc; reflexivity).
    replace (Z.of_nat (length pre) + 1) with (Z.of_nat (length (pre ++ [x]))) by (rewrite app_length; cbn; lia).
    apply IH. cbn [length] in Hl. lia.
Qed.

Lemma rd_firstn (src tail : list A) k : (Z.to_nat k < length src)%nat -> rd (src ++ tail) k = rd src k.
Proof. intros H. unfold rd. rewrite nth_error_app1 by exact H. reflexivity. Qed.
Lemma copy_loop_tail n : forall k (src tail dst : list A), 0 <= k -> (Z.to_nat k + n <= length src)%nat ->
  copy_loop n k dst (src ++ tail) = copy_loop n k dst src.
Proof.
  induction n as [|n IH]; intros k src tail dst Hk Hl; cbn [copy_loop]; [reflexivity|].
  rewrite rd_firstn by lia. destruct (rd src k) as [x| | |]; cbn [bind]; try reflexivity.
  destruct (wr dst k x) as [d'| | |]; cbn [bind]; try reflexivity. apply IH; lia.
Qed.

Lemma copy_ok (src tail dst : list A) : (length src <= length dst)%nat ->
  copy_loop (length src) 0 dst (src ++ tail) = Ok (src ++ skipn (length src) dst).
Proof.
  intros H. rewrite copy_loop_tail by lia.
  rewrite <- (firstn_skipn (length src) dst) at 1.
  pose proof (copy_loop_ok src [] (firstn (length src) dst) (skipn (length src) dst)) as E. cbn [app length] in E. apply E.
  apply firstn_length_le, H.
Qed.
Lemma copy_oob (src tail dst : list A) : (length dst < length src)%nat ->
  copy_loop (length src) 0 dst (src ++ tail) = UB.
Proof.
  intros H. rewrite copy_loop_tail by lia. pose proof (copy_loop_oob src [] dst) as E. cbn [app length] in E. apply E, H.
Qed.
Lemma fill_loop_ok e : forall n (pre dst rest : list A), length dst = n ->
  fill_loop n (Z.of_nat (length pre)) (pre ++ dst ++ rest) e = Ok (pre ++ repeat e n ++ rest).
Proof.
  induction n as [|n IH]; intros pre dst rest Hl; destruct dst as [|y dst]; try discriminate; cbn [fill_loop app repeat]; [reflexivity|].
  rewrite wr_app, bind_ok.
  replace (pre ++ e :: dst ++ rest) with ((pre ++ [e]) ++ dst ++ rest) by (rewrite <- app_assoc; reflexivity).
  replace (Z.of_nat (length pre) + 1) with (Z.of_nat (length (pre ++ [e]))) by (rewrite app_length; cbn; lia).
  rewrite IH by (cbn in Hl; lia). rewrite <- app_assoc. reflexivity.
Qed.

(* ---- vectors *)
(* A vector object represents a list: the first num_elements cells of its buffer. *)
Definition vec_rep (v : @tvec A) (l : list A) : Prop :=
  vnum v = Z.of_nat (length l) /\ exists tail, buf_of v = l ++ tail.
Definition vec_cap (v : @tvec A) : Z := Z.of_nat (length (buf_of v)).

Lemma new_buf_length n : length (new_buf dflt n) = Z.to_nat n.
Proof. apply repeat_length. Qed.

Lemma vec_copy_ok v l : vec_rep v l -> exists w, vec_copy dflt v = Ok w /\ vec_rep w l.
Proof.
  intros [Hn [tail Hb]]. unfold vec_copy. rewrite Hn, Nat2Z.id, Hb, copy_ok by (rewrite new_buf_length; lia). rewrite bind_ok.
  eexists; split; [reflexivity|]. split; [reflexivity|]. eexists. reflexivity.
Qed.
Lemma vec_assign_ok t v l : vec_rep v l -> (vbuf t = None \/ Z.of_nat (length l) <= vec_cap t) ->
  exists w, vec_assign dflt t v = Ok w /\ vec_rep w l.
Proof.
  intros [Hn [tail Hb]] Hc. unfold vec_assign. rewrite Hn, Nat2Z.id, Hb, Z.ltb_irrefl.
  unfold vec_cap, buf_of in Hc. destruct (vbuf t) as [b|].
  - destruct Hc as [Hc|Hc]; [discriminate|]. rewrite copy_ok, bind_ok by lia.
    eexists; split; [reflexivity|]. split; [reflexivity|]. eexists. reflexivity.
  - rewrite copy_ok, bind_ok by (rewrite new_buf_length; lia).
    eexists; split; [reflexivity|]. split; [reflexivity|]. eexists. reflexivity.
Qed.
Lemma vec_assign_overflow t v l b : vec_rep v l -> vbuf t = Some b -> Z.of_nat (length b) < Z.of_nat (length l) ->
  vec_assign dflt t v = UB.
Proof.
  intros [Hn [tail Hb]] Ht Hc. unfold vec_assign. rewrite Hn, Nat2Z.id, Hb, Z.ltb_irrefl, Ht, copy_oob by lia. reflexivity.
Qed.
Lemma vec_rep_get v l i : vec_rep v l -> vec_get v i =
  if (i <? 0) || (i >=? Z.of_nat (length l)) then Exn else match nth_error l (Z.to_nat i) with Some x => Ok x | None => UB end.
Proof.
  intros [Hn [tail Hb]]. unfold vec_get. rewrite Hn, Hb. destruct (_ || _) eqn:E; [reflexivity|].
  rewrite rd_firstn by lia. unfold rd. replace (i <? 0) with false by lia. reflexivity.
Qed.
Lemma vec_set_ok v l i x : vec_rep v l -> 0 <= i < Z.of_nat (length l) ->
  exists w, vec_set v i x = Ok w /\ vec_rep w (upd l (Z.to_nat i) x) /\ vec_cap w = vec_cap v.
Proof.
  intros [Hn [tail Hb]] Hi. unfold vec_set. rewrite Hn, Hb. replace (_ || _) with false by lia.
  unfold wr. rewrite app_length. replace (_ || _) with false by lia. rewrite bind_ok.
  eexists; split; [reflexivity|]. split.
  - split; [cbn; rewrite upd_length; reflexivity|]. exists tail. cbn [buf_of vbuf].
    assert (Hk : (Z.to_nat i < length l)%nat) by lia. clear -Hk. revert Hk. generalize (Z.to_nat i) as k. induction l as [|y t IH]; intros k Hk; cbn in Hk; [lia|].
    destruct k; cbn; [reflexivity|]. rewrite IH by lia. reflexivity.
  - unfold vec_cap. cbn [buf_of vbuf]. rewrite upd_length, Hb. reflexivity.
Qed.
Lemma vec_assign_scalar_ok t l e : vec_rep t l -> vbuf t <> None ->
  exists w, vec_assign_scalar dflt t e = Ok w /\ vec_rep w (repeat e (length l)).
Proof.
  intros [Hn [tail Hb]] Hne. unfold vec_assign_scalar. unfold buf_of in Hb. destruct (vbuf t) as [b|]; [|congruence]. subst b.
  rewrite Hn, Nat2Z.id. pose proof (fill_loop_ok e (length l) [] l tail eq_refl) as E. cbn [app length] in E.
  change (Z.of_nat 0) with 0 in E. rewrite E, bind_ok. eexists; split; [reflexivity|]. split.
  - cbn. rewrite repeat_length. reflexivity.
  - exists tail. reflexivity.
Qed.

(* ---- stacks *)
(* The stack represents l, top first. *)
Definition stack_rep (s : @tstack A) (l : list A) : Prop :=
  sfree s = Z.of_nat (length l) /\ salloc s = Z.of_nat (length (sbuf s)) /\ exists tail, sbuf s = rev l ++ tail.

Lemma stack_new_rep : stack_rep (stack_new dflt) [].
Proof. split; [reflexivity|]. split; [reflexivity|]. eexists. reflexivity. Qed.

Lemma stack_push_ok s l e : stack_rep s l -> salloc s <= Z.max 10 (Z.of_nat (length l) + 10) -> Z.of_nat (length l) <= INT_MAX - 11 ->
  exists s', stack_push dflt s e = Ok s' /\ stack_rep s' (e :: l) /\ (salloc s <= salloc s' /\ (salloc s' = salloc s \/ salloc s' = salloc s + 10 /\ salloc s = Z.of_nat (length l))).
Proof.
  intros (Hf & Ha & tail & Hb) Hal Hm. unfold stack_push. rewrite Hf.
  assert (Hlen : (length (sbuf s) = length l + length tail)%nat) by (rewrite Hb, app_length, rev_length; reflexivity).
  assert (Hgo : forall s' t', sfree s' = Z.of_nat (length l) -> salloc s' = Z.of_nat (length (sbuf s')) -> sbuf s' = rev l ++ t' -> t' <> [] ->
    exists s2, (b <- wr (sbuf s') (sfree s') e ;; f <- iadd (sfree s') 1 ;; Ok (mkstack b (salloc s') f)) = Ok s2 /\ stack_rep s2 (e :: l) /\ salloc s2 = salloc s').
  { intros s' t' H1 H2 H3 H4. destruct t' as [|y t']; [congruence|]. rewrite H1, H3, <- rev_length, wr_app, bind_ok.
    unfold iadd. rewrite chk_ok, bind_ok by (rewrite rev_length; unfold INT_MIN, INT_MAX in *; lia).
    eexists; split; [reflexivity|]. cbn [salloc]. split; [|reflexivity]. split; [cbn [sfree length]; rewrite rev_length; lia|].
    cbn [salloc sbuf]. split; [rewrite H2, H3, !app_length; reflexivity|]. exists t'. cbn [rev]. rewrite <- app_assoc. reflexivity. }
  destruct (Z.of_nat (length l) >=? salloc s) eqn:E.
  - assert (Ht : tail = []) by (destruct tail; [reflexivity|cbn in Hlen; lia]).
    assert (Eal : salloc s = Z.of_nat (length l)) by (subst tail; cbn in Hlen; lia).
    unfold iadd at 1. rewrite chk_ok, bind_ok by (unfold INT_MIN, INT_MAX in *; lia).
    rewrite Nat2Z.id, Hb. pose proof (copy_ok (rev l) tail (new_buf dflt (salloc s + 10))) as Ec.
    rewrite new_buf_length, rev_length in Ec. rewrite Ec, !bind_ok by lia. clear Ec.
    edestruct (Hgo (mkstack (rev l ++ skipn (length l) (new_buf dflt (salloc s + 10))) (salloc s + 10) (Z.of_nat (length l)))) as (s2 & E2 & R2 & A2).
    + reflexivity.
    + cbn [salloc sbuf]. rewrite app_length, skipn_length, new_buf_length, rev_length. lia.
    + reflexivity.
    + intros H. apply (f_equal (@length A)) in H. rewrite skipn_length, new_buf_length in H. cbn in H. lia.
    + exists s2. split; [exact E2|]. split; [exact R2|]. cbn [salloc] in A2. lia.
  - rewrite bind_ok. destruct (Hgo s tail) as (s2 & E2 & R2 & A2); try assumption.
    + intros ->. cbn in Hlen. lia.
    + exists s2. split; [exact E2|]. split; [exact R2|]. lia.
Qed.

Lemma stack_pop_ok s l : stack_rep s l ->
  match l with
  | [] => stack_pop s = Ok (None, s)
  | x :: t => exists s', stack_pop s = Ok (Some x, s') /\ stack_rep s' t /\ salloc s' = salloc s
  end.
Proof.
  intros (Hf & Ha & tail & Hb). unfold stack_pop. rewrite Hf. destruct l as [|x t]; [reflexivity|].
  cbn [length]. replace (_ >? 0) with true by lia. rewrite Hb. cbn [rev]. rewrite <- app_assoc. cbn [app].
  replace (Z.of_nat (S (length t)) - 1) with (Z.of_nat (length (rev t))) by (rewrite rev_length; lia).
  rewrite rd_app, bind_ok. eexists; split; [reflexivity|]. split; [|reflexivity]. split; [cbn; rewrite rev_length; reflexivity|].
  cbn [salloc sbuf]. split; [rewrite Ha, Hb; cbn [rev]; rewrite <- app_assoc; reflexivity|].
  eexists. reflexivity.
Qed.
Lemma stack_copy_ok s l : stack_rep s l -> exists s', stack_copy dflt s = Ok s' /\ stack_rep s' l /\ salloc s' = salloc s.
Proof.
  intros (Hf & Ha & tail & Hb). unfold stack_copy. rewrite Hf, Nat2Z.id, Hb, <- rev_length.
  assert (Hlen : (length (sbuf s) = length l + length tail)%nat) by (rewrite Hb, app_length, rev_length; reflexivity).
  rewrite copy_ok by (rewrite new_buf_length, rev_length; lia). rewrite bind_ok.
  eexists; split; [reflexivity|]. split; [|reflexivity]. split; [cbn; rewrite rev_length; reflexivity|]. cbn [salloc sbuf].
  split; [|eexists; reflexivity]. rewrite app_length, skipn_length, new_buf_length, rev_length. lia.
Qed.

(* Specification: the same operations on a list. *)
Fixpoint spec_stack (ops : list (@sop A)) (l : list A) : list (option A) :=
  match ops with
  | [] => []
  | Push e :: t => spec_stack t (e :: l)
  | Pop :: t => match l with [] => None :: spec_stack t [] | x :: l' => Some x :: spec_stack t l' end
  | Copy :: t => spec_stack t l
  end.

Lemma run_stack_ok : forall ops s l hw, stack_rep s l -> salloc s <= Z.max 10 (hw + 9) -> Z.of_nat (length l) <= hw ->
  hw + Z.of_nat (length ops) <= INT_MAX - 20 ->
  run_stack dflt ops s = Ok (spec_stack ops l).
Proof.
  induction ops as [|o ops IH]; intros s l hw Hr Ha Hh Hm; [reflexivity|]. cbn [length] in Hm. destruct o; cbn [run_stack spec_stack].
  - assert (Hsl : Z.of_nat (length l) <= salloc s).
    { destruct Hr as (_ & Hr & tail & Hb). rewrite Hr, Hb, app_length, rev_length. lia. }
    (* The growth step needs only that the new size fits. *)
    assert (Hex : exists s', stack_push dflt s e = Ok s' /\ stack_rep s' (e :: l) /\ salloc s' <= Z.max 10 (Z.max hw (Z.of_nat (length l) + 1) + 9)).
    { destruct Hr as (Hf & Hal & tail & Hb).
      assert (Hpre : stack_rep s l) by (split; [exact Hf|split; [exact Hal|exists tail; exact Hb]]).
      destruct (Z_le_gt_dec (salloc s) (Z.max 10 (Z.of_nat (length l) + 10))) as [Hle|Hgt].
      - destruct (stack_push_ok s l e Hpre Hle ltac:(lia)) as (s' & E & R & A1). exists s'. split; [exact E|]. split; [exact R|]. lia.
      - unfold stack_push. replace (sfree s >=? salloc s) with false by lia. rewrite bind_ok.
        assert (Hlen : (length (sbuf s) = length l + length tail)%nat) by (rewrite Hb, app_length, rev_length; reflexivity).
        destruct tail as [|y tail]; [cbn in Hlen; lia|]. rewrite Hf, Hb, <- rev_length, wr_app, bind_ok.
        unfold iadd. rewrite chk_ok, bind_ok by (rewrite rev_length; unfold INT_MIN, INT_MAX in *; lia).
        eexists; split; [reflexivity|]. split; [|cbn [salloc]; lia]. split; [cbn [sfree length]; rewrite rev_length; lia|].
        cbn [salloc sbuf]. split; [rewrite Hal, Hb, !app_length; reflexivity|]. exists tail. cbn [rev]. rewrite <- app_assoc. reflexivity. }
    destruct Hex as (s' & E & R & A1). rewrite E, bind_ok. eapply (IH s' (e :: l) (Z.max hw (Z.of_nat (length l) + 1))); try assumption; cbn [length]; lia.
  - pose proof (stack_pop_ok s l Hr) as Hp. destruct l as [|x t].
    + rewrite Hp, bind_ok. rewrite (IH s [] hw Hr) by lia. reflexivity.
    + destruct Hp as (s' & E & R & A1). rewrite E, bind_ok. rewrite (IH s' t hw R) by (cbn [length] in *; lia). reflexivity.
  - destruct (stack_copy_ok s l Hr) as (s' & E & R & A1). rewrite E, bind_ok. apply (IH s' l hw R); lia.
Qed.

Lemma run_stack_new ops : Z.of_nat (length ops) <= INT_MAX - 20 -> run_stack dflt ops (stack_new dflt) = Ok (spec_stack ops []).
Proof. intros H. apply (run_stack_ok ops _ [] 0 stack_new_rep); [cbn; lia|cbn; lia|lia]. Qed.
End Cont.
