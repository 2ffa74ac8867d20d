(* Shared conventions of the model: outcomes of a C++ call, 32-bit checked
   arithmetic, and a fuelled loop combinator. *)
From Coq Require Export ZArith NArith List Lia Bool Arith.
From Coq Require Export ZifyBool ZifyNat ZifyN.
Export ListNotations.
Ltac Zify.zify_post_hook ::= Z.div_mod_to_equations.

(* ---------------------------------------------------------------- *)
(* Outcome of a C++ call.
   Ok   : normal return
   Exn  : throws spffl::exception_t
   UB   : undefined behaviour (signed overflow, x/0, out-of-bounds access, ...)
   Div  : the loop did not finish within the fuel given by the model. *)
Inductive res (A : Type) : Type :=
| Ok : A -> res A
| Exn : res A
| UB : res A
| Div : res A.
Arguments Ok {A} _. Arguments Exn {A}. Arguments UB {A}. Arguments Div {A}.

Definition bind {A B} (m : res A) (f : A -> res B) : res B :=
  match m with Ok a => f a | Exn => Exn | UB => UB | Div => Div end.

Definition rmap {A B} (f : A -> B) (m : res A) : res B := bind m (fun a => Ok (f a)).

Declare Scope res_scope.
Delimit Scope res_scope with res.
Notation "x <- m ;; k" := (bind m (fun x => k))
  (at level 61, m at next level, right associativity) : res_scope.
Notation "' p <- m ;; k" := (bind m (fun x => match x with p => k end))
  (at level 61, p pattern, m at next level, right associativity) : res_scope.
Notation "m ;;; k" := (bind m (fun _ => k))
  (at level 61, right associativity) : res_scope.
Open Scope res_scope.

Lemma bind_ok {A B} (a : A) (f : A -> res B) : bind (Ok a) f = f a.
Proof. reflexivity. Qed.

Lemma bind_inv {A B} (m : res A) (f : A -> res B) b :
  bind m f = Ok b -> exists a, m = Ok a /\ f a = Ok b.
Proof. destruct m as [a| | |]; simpl; intros H; try discriminate. exists a; auto. Qed.

(* ---------------------------------------------------------------- *)
(* 32-bit signed int. *)
Definition INT_MAX : Z := 2147483647.
Definition INT_MIN : Z := (-2147483648)%Z.
Definition in_int (z : Z) : bool := (INT_MIN <=? z)%Z && (z <=? INT_MAX)%Z.

(* Result of a signed int operation: overflow is undefined behaviour. *)
Definition chk (z : Z) : res Z := if in_int z then Ok z else UB.
Definition iadd (a b : Z) : res Z := chk (a + b).
Definition isub (a b : Z) : res Z := chk (a - b).
Definition imul (a b : Z) : res Z := chk (a * b).
Definition ineg (a : Z) : res Z := chk (- a).
(* C++ '/' and '%' truncate toward zero; x/0 and INT_MIN/-1 are undefined. *)
Definition idiv (a b : Z) : res Z := if (b =? 0)%Z then UB else chk (Z.quot a b).
Definition imod (a b : Z) : res Z :=
  if (b =? 0)%Z then UB
  else if in_int (Z.quot a b) then Ok (Z.rem a b) else UB.

Lemma chk_ok z : (INT_MIN <= z <= INT_MAX)%Z -> chk z = Ok z.
Proof. intros H; unfold chk, in_int. destruct (_ && _) eqn:E; [reflexivity|lia]. Qed.
Lemma chk_ub z : ~ (INT_MIN <= z <= INT_MAX)%Z -> chk z = UB.
Proof. intros H; unfold chk, in_int. destruct (_ && _) eqn:E; [lia|reflexivity]. Qed.
Lemma chk_inv z r : chk z = Ok r -> r = z /\ (INT_MIN <= z <= INT_MAX)%Z.
Proof.
  unfold chk, in_int. destruct (_ && _) eqn:E; intros H; inversion H; subst. lia.
Qed.

(* Unsigned 32-bit wrap. *)
Definition u32 (z : Z) : Z := z mod 4294967296.

(* ---------------------------------------------------------------- *)
(* while (1) loops: one step either continues with a new state or exits. *)
Fixpoint loop {S R : Type} (fuel : nat) (step : S -> res (S + R)) (s : S) : res R :=
  match fuel with
  | O => Div
  | Datatypes.S n =>
      match step s with
      | Ok (inl s') => loop n step s'
      | Ok (inr r) => Ok r
      | Exn => Exn
      | UB => UB
      | Div => Div
      end
  end.

(* Total-correctness rule: an invariant, a decreasing measure below the fuel. *)
Lemma loop_total {S R : Type} (step : S -> res (S + R))
      (Inv : S -> Prop) (mu : S -> nat) (Post : R -> Prop) :
  (forall s, Inv s ->
     (exists s', step s = Ok (inl s') /\ Inv s' /\ mu s' < mu s) \/
     (exists r, step s = Ok (inr r) /\ Post r)) ->
  forall fuel s, Inv s -> mu s < fuel ->
  exists r, loop fuel step s = Ok r /\ Post r.
Proof.
  intros Hstep fuel; induction fuel as [|n IH]; intros s Hs Hmu; [lia|].
  cbn [loop]. destruct (Hstep s Hs) as [[s' [E [Hi Hlt]]]|[r [E Hp]]]; rewrite E.
  - apply IH; [exact Hi|lia].
  - exists r; auto.
Qed.

(* Partial-correctness rule (any outcome). *)
Lemma loop_partial {S R : Type} (step : S -> res (S + R))
      (Inv : S -> Prop) (Post : R -> Prop) :
  (forall s s', Inv s -> step s = Ok (inl s') -> Inv s') ->
  (forall s r, Inv s -> step s = Ok (inr r) -> Post r) ->
  forall fuel s r, Inv s -> loop fuel step s = Ok r -> Post r.
Proof.
  intros H1 H2 fuel; induction fuel as [|n IH]; intros s r Hs H; cbn [loop] in H; [discriminate|].
  destruct (step s) as [[s'|r']| | |] eqn:E; try discriminate.
  - eapply IH; [|exact H]. eapply H1; eauto.
  - inversion H; subst. eapply H2; eauto.
Qed.

(* Counted loop  for (i = 0; i < n; i++) body  with monadic state. *)
Fixpoint for_up {S : Type} (n : nat) (i : nat) (body : nat -> S -> res S) (s : S) : res S :=
  match n with
  | O => Ok s
  | Datatypes.S n' => bind (body i s) (fun s' => for_up n' (Datatypes.S i) body s')
  end.

Lemma for_up_inv {S : Type} (body : nat -> S -> res S) (Inv : nat -> S -> Prop) :
  forall n i s,
  (forall k t, i <= k < i + n -> Inv k t -> exists t', body k t = Ok t' /\ Inv (Datatypes.S k) t') ->
  Inv i s -> exists s', for_up n i body s = Ok s' /\ Inv (i + n) s'.
Proof.
  induction n as [|n IH]; intros i s H Hs; cbn [for_up].
  - exists s; split; [reflexivity|]. replace (i + 0) with i by lia. exact Hs.
  - destruct (H i s) as [s' [E Hs']]; [lia|exact Hs|]. rewrite E, bind_ok.
    destruct (IH (Datatypes.S i) s') as [s'' [E' Hs'']].
    + intros k t Hk Ht; apply H; [lia|exact Ht].
    + exact Hs'.
    + exists s''; split; [exact E'|]. replace (i + Datatypes.S n) with (Datatypes.S i + n) by lia. exact Hs''.
Qed.

(* Lists as arrays. *)
Definition upd {A} (l : list A) (i : nat) (x : A) : list A :=
  firstn i l ++ match skipn i l with [] => [] | _ :: t => x :: t end.

Lemma upd_length {A} (l : list A) i x : length (upd l i x) = length l.
Proof.
  unfold upd. rewrite app_length. revert i; induction l as [|a l IH]; intros [|i]; simpl; auto.
Qed.

Lemma upd_nth {A} (l : list A) i x j d :
  nth j (upd l i x) d = if (j =? i)%nat && (i <? length l)%nat then x else nth j l d.
Proof.
  revert i j; induction l as [|a l IH]; intros i j.
  - unfold upd. rewrite firstn_nil, skipn_nil; simpl. rewrite andb_false_r. destruct j; reflexivity.
  - destruct i as [|i]; destruct j as [|j]; try reflexivity.
    change (upd (a :: l) (S i) x) with (a :: upd l i x). cbn [nth]. rewrite IH. reflexivity.
Qed.
