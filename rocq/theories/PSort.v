(* An insertion sort: the assumption made on qsort is satisfiable. *)
From Verif Require Import Base PUnits.
From Coq Require Import Permutation Sorted.
Open Scope Z_scope.

Section S.
Context {A : Type}.
Variable ltb : A -> A -> res bool.
Fixpoint ins (x : A * Z) (l : list (A * Z)) : list (A * Z) :=
  match l with
  | [] => [x]
  | y :: t => match ltb (fst y) (fst x) with Ok true => y :: ins x t | _ => x :: l end
  end.
Definition isort (l : list (A * Z)) : list (A * Z) := fold_right ins [] l.
Variables (V : A -> Prop) (v : A -> N).
Hypothesis ltb_ok : forall x y, V x -> V y -> ltb x y = Ok (N.ltb (v x) (v y)).
Lemma ins_perm x l : Permutation (x :: l) (ins x l).
Proof.
  induction l as [|y t IH]; cbn; [reflexivity|].
  destruct (ltb (fst y) (fst x)) as [[]| | |]; try reflexivity.
  rewrite perm_swap. constructor. exact IH.
Qed.
Let R := fun x y : A * Z => ltb (fst y) (fst x) = Ok false.
Lemma ins_sorted x l : V (fst x) -> (forall y, In y l -> V (fst y)) -> StronglySorted R l -> StronglySorted R (ins x l).
Proof.
  intros Hx. induction l as [|y t IH]; intros Hl Hs; cbn.
  - repeat constructor.
  - inversion Hs as [|? ? Hs1 Hs2]; subst.
    assert (Hy : V (fst y)) by (apply Hl; left; reflexivity).
    rewrite ltb_ok by assumption. destruct (N.ltb_spec (v (fst y)) (v (fst x))) as [L|L].
    + constructor.
      * apply IH; [intros z Hz; apply Hl; right; exact Hz|exact Hs1].
      * apply Forall_forall. intros z Hz. apply (Permutation_in _ (Permutation_sym (ins_perm x t))) in Hz.
        destruct Hz as [<-|Hz].
        -- unfold R. rewrite ltb_ok by assumption. f_equal. apply N.ltb_ge. lia.
        -- rewrite Forall_forall in Hs2. apply Hs2; exact Hz.
    + constructor; [exact Hs|]. constructor.
      * unfold R. rewrite ltb_ok by assumption. f_equal. apply N.ltb_ge. lia.
      * rewrite Forall_forall in *. intros z Hz. assert (Hz1 := Hs2 z Hz). unfold R in *.
        rewrite ltb_ok in * by (assumption || (apply Hl; right; exact Hz)).
        f_equal. injection Hz1 as Hz1. apply N.ltb_ge. apply N.ltb_ge in Hz1. lia.
Qed.
Lemma isort_sorts : sorts ltb V isort.
Proof.
  intros l. induction l as [|x l IH]; intros Hl; [split; constructor|].
  destruct IH as [P S]; [intros y Hy; apply Hl; right; exact Hy|].
  cbn. split.
  - rewrite <- ins_perm. constructor. exact P.
  - apply ins_sorted; [apply Hl; left; reflexivity| |exact S].
    intros y Hy. apply Hl. right. apply (Permutation_in _ (Permutation_sym P)). exact Hy.
Qed.
End S.
