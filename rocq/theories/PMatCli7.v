(* The matrix evaluator over a field: what an expression means, and that the evaluator computes it. *)
From Verif Require Import Base MIntMath MIntmod MMat MMatCli.
From mathcomp Require Import all_ssreflect fingroup perm all_algebra ssrZ zify.
From Verif Require Import PLin PLin2 PLin3 PMat PMat2 PMat3 PropMat PMatCli PMatCli2 PMatCli6.
Set Implicit Arguments.
Unset Strict Implicit.
Unset Printing Implicit Defensive.
Import GRing.Theory.
Delimit Scope Z_scope with coqZ.
Local Open Scope ring_scope.

Section Den.
Variable F : fieldType.
(* the values of matrix expressions *)
Inductive mval := WM m n (a : 'M[F]_(m, n)) | WS (c : F) | WI (i : Z).
Lemma VM_inj m n (a a' : 'M[F]_(m, n)) : WM a = WM a' -> a = a'.
Proof.
pose P v := match v with WM m' n' b => forall (e1 : m = m') (e2 : n = n'), castmx (e1, e2) a = b | _ => True end.
move=> e; suff : P (WM a') by move/(_ erefl erefl); rewrite castmx_id.
by rewrite -e => e1 e2; rewrite castmx_id.
Qed.
Lemma VM_dim m n (a : 'M[F]_(m, n)) m' n' (a' : 'M[F]_(m', n')) : WM a = WM a' -> m = m' /\ n = n'.
Proof. by case. Qed.

(* prefix operators: the result w for the operand v.  Operators on square matrices have no result for others; likewise
   inv for singular matrices, kerbas if the kernel is zero, rrnz and rechnz for the zero matrix. *)
Definition un_val (t : tok) (v w : mval) : Prop :=
  match t with
  | L_UPLUS => w = v
  | L_UMINUS => exists m n (a : 'M[F]_(m, n)), v = WM a /\ w = WM (- a)
  | L_RANK => exists m n (a : 'M[F]_(m, n)), v = WM a /\ w = WI (Z.of_nat (\rank a))
  | L_TRANSPOSE => exists m n (a : 'M[F]_(m, n)), v = WM a /\ w = WM a^T
  | L_DET => exists n (a : 'M[F]_n), v = WM a /\ w = WS (\det a)
  | L_INV => exists n (a : 'M[F]_n), [/\ v = WM a, a \in unitmx & w = WM (invmx a)]
  | L_KERBAS => exists m n (a : 'M[F]_(m, n)) (k : 'M[F]_(n - \rank a, n)), [/\ v = WM a, (\rank a < n)%N, w = WM k, row_free k &
                  forall u : 'rV[F]_n, (u <= k)%MS = (a *m u^T == 0)]
  | L_RR => exists m n (a b : 'M[F]_(m, n)), [/\ v = WM a, w = WM b, is_ref b & (a :=: b)%MS]
  | L_RECH => exists m n (a b : 'M[F]_(m, n)), [/\ v = WM a, w = WM b, is_rref b & (a :=: b)%MS]
  | L_RECHR => exists m n (a b : 'M[F]_(m, n)), [/\ v = WM a, w = WM (fliphv b), is_rref b & (fliph a :=: b)%MS]
  | L_RRNZ => exists m n (a : 'M[F]_(m, n)) (b : 'M[F]_(\rank a, n)), [/\ v = WM a, a != 0, w = WM b, is_ref b & (a :=: b)%MS]
  | L_RECHNZ => exists m n (a : 'M[F]_(m, n)) (b : 'M[F]_(\rank a, n)), [/\ v = WM a, a != 0, w = WM b, is_rref b & (a :=: b)%MS]
  | _ => False
  end.
Definition bin_val (t : tok) (u v w : mval) : Prop :=
  match t with
  | L_PLUS => exists m n (a b : 'M[F]_(m, n)), [/\ u = WM a, v = WM b & w = WM (a + b)]
  | L_MINUS => exists m n (a b : 'M[F]_(m, n)), [/\ u = WM a, v = WM b & w = WM (a - b)]
  | L_MUL => exists m n k (a : 'M[F]_(m, n)) (b : 'M[F]_(n, k)), [/\ u = WM a, v = WM b & w = WM (a *m b)]
  | L_EQ => exists m n (a b : 'M[F]_(m, n)), [/\ u = WM a, v = WM b & w = WI (if a == b then 1 else 0)%coqZ]
  | L_NE => exists m n (a b : 'M[F]_(m, n)), [/\ u = WM a, v = WM b & w = WI (if a == b then 0 else 1)%coqZ]
  | _ => False
  end.
(* power i: the product of |i| copies of the matrix or, for i <= 0, of its inverse *)
Definition pow_val (u v w : mval) : Prop :=
  exists n (a : 'M[F]_n) i, [/\ u = WM a, v = WI i &
    Z.lt 0 i /\ w = WM (iter (Z.to_nat i) (mulmx a) 1%:M) \/
    [/\ Z.le i 0, a \in unitmx & w = WM (iter (Z.to_nat (Z.opp i)) (mulmx (invmx a)) 1%:M)]].

Variables (int : string -> option Z) (L : string -> option mval).
(* the value of an expression; in an exponent (pw) the operands are integers *)
Fixpoint den (pw : bool) (e : ast) (v : mval) : Prop :=
  match e with
  | ANum s => if pw then exists i, int s = Some i /\ v = WI i else L s = Some v
  | APar e => den pw e v
  | AUn t e => exists u, den pw e u /\ un_val t u v
  | APow e f => exists u w, [/\ den pw e u, den true f w & pow_val u w v]
  | ABin t e f => exists u w, [/\ den pw e u, den pw f w & bin_val t u w v]
  end.
(* operators with one result *)
Definition det_tok (t : tok) : bool := match t with L_KERBAS | L_RR | L_RRNZ => false | _ => true end.
Fixpoint det_ast (e : ast) : bool :=
  match e with
  | ANum _ => true
  | APar e => det_ast e
  | AUn t e => det_tok t && det_ast e
  | APow e f | ABin _ e f => det_ast e && det_ast f
  end.
Ltac sb e := match type of e with _ = ?y => subst y end.
Ltac vm h h' := rewrite h in h'; let e1 := fresh in let e2 := fresh in let e3 := fresh in
  have [e1 e2] := VM_dim h'; sb e1; sb e2; have e3 := VM_inj h'; sb e3; clear h'.
Lemma un_fun t u v v' : det_tok t -> un_val t u v -> un_val t u v' -> v = v'.
Proof.
case: t => //= _.
- by move=> -> ->.
- by move=> [m [n [a [h ->]]]] [m' [n' [a' [h' ->]]]]; vm h h'.
- move=> [n [a [h _ ->]]] [n' [a' [h' _ ->]]]; rewrite h in h'; have [e _] := VM_dim h'; subst n'; by rewrite (VM_inj h').
- move=> [n [a [h ->]]] [n' [a' [h' ->]]]; rewrite h in h'; have [e _] := VM_dim h'; subst n'; by rewrite (VM_inj h').
- move=> [m [n [a [b [h -> r1 e1]]]]] [m' [n' [a' [b' [h' -> r2 e2]]]]]; vm h h'.
  by rewrite (rref_uniq r1 r2 (eqmx_trans (eqmx_sym e1) e2)).
- move=> [m [n [a [b [h -> r1 e1]]]]] [m' [n' [a' [b' [h' -> r2 e2]]]]]; vm h h'.
  by rewrite (rref_uniq r1 r2 (eqmx_trans (eqmx_sym e1) e2)).
- move=> [m [n [a [b [h _ -> r1 e1]]]]] [m' [n' [a' [b' [h' _ -> r2 e2]]]]]; vm h h'.
  by rewrite (rref_uniq r1 r2 (eqmx_trans (eqmx_sym e1) e2)).
- by move=> [m [n [a [h ->]]]] [m' [n' [a' [h' ->]]]]; vm h h'.
by move=> [m [n [a [h ->]]]] [m' [n' [a' [h' ->]]]]; vm h h'.
Qed.
Lemma bin_fun t u w v v' : bin_val t u w v -> bin_val t u w v' -> v = v'.
Proof.
case: t => //=;
  try by move=> [m [n [a [b [h1 h2 ->]]]]] [m' [n' [a' [b' [h1' h2' ->]]]]]; vm h1 h1'; rewrite h2 in h2'; rewrite (VM_inj h2').
move=> [m [n [k [a [b [h1 h2 ->]]]]]] [m' [n' [k' [a' [b' [h1' h2' ->]]]]]]; vm h1 h1'.
by rewrite h2 in h2'; have [_ e] := VM_dim h2'; subst k'; rewrite (VM_inj h2').
Qed.
Lemma pow_fun u w v v' : pow_val u w v -> pow_val u w v' -> v = v'.
Proof.
move=> [n [a [i [h1 h2 h3]]]] [n' [a' [i' [h1' h2' h3']]]]; rewrite h1 in h1'; have [e _] := VM_dim h1'; subst n'.
have ea := VM_inj h1'; subst a'; rewrite h2 in h2'; case: h2' => ei; subst i'.
by case: h3 h3' => [[p1 ->]|[p1 _ ->]] [[p2 ->]|[p2 _ ->]] //; lia.
Qed.
Lemma den_fun e pw v v' : det_ast e -> den pw e v -> den pw e v' -> v = v'.
Proof.
elim: e pw v v' => [s|e IH|t e IH|e IHe f IHf|t e IHe f IHf] pw v v' /=.
- by case: pw => _; [move=> [i [-> ->]] [j [[->] ->]]|move=> -> []].
- exact: IH.
- by case/andP => ht he [u [h1 h2]] [u' [h1' h2']]; have eu := IH _ _ _ he h1 h1'; subst u'; exact: un_fun h2 h2'.
- case/andP => he hf [u [w [h1 h2 h3]]] [u' [w' [h1' h2' h3']]].
  have eu := IHe _ _ _ he h1 h1'; have ew := IHf _ _ _ hf h2 h2'; subst u' w'; exact: pow_fun h3 h3'.
case/andP => he hf [u [w [h1 h2 h3]]] [u' [w' [h1' h2' h3']]].
have eu := IHe _ _ _ he h1 h1'; have ew := IHf _ _ _ hf h2 h2'; subst u' w'; exact: bin_fun h3 h3'.
Qed.
End Den.

(* what the grammar yields *)
Definition bin_tok (t : tok) : bool := match t with L_PLUS | L_MINUS | L_MUL | L_EQ | L_NE => true | _ => false end.
Definition un_tok (t : tok) : bool := match t with L_UPLUS | L_UMINUS => true | _ => is_word t end.
Fixpoint wf (e : ast) : bool :=
  match e with
  | ANum _ => true
  | APar e => wf e
  | AUn t e => un_tok t && wf e
  | APow e f => wf e && wf f
  | ABin t e f => [&& bin_tok t, wf e & wf f]
  end.
Fixpoint lits (e : ast) : seq string :=
  match e with
  | ANum s => [:: s]
  | APar e | AUn _ e => lits e
  | APow e f | ABin _ e f => lits e ++ lits f
  end.
Lemma der_wf sp k w e : der sp k w e -> wf e.
Proof.
elim=> //= {k w e}.
- by move=> w s w' a b _ -> _ _ ->.
- by move=> s u t w a _ h _ ->; rewrite andbT; move: h; rewrite /prefix_op => -[[_ ->]|[[_ ->]|[-> h]]] //; do 10?(case: h => [<-|h] //).
by move=> k w s t w' a b h _ -> _ _ ->; rewrite !andbT; case: k h => //=; [move=> ->|case=> ->|case=> ->].
Qed.
Lemma der_lits sp k w e s : der sp k w e -> List.In s (lits e) -> List.In s w.
Proof.
elim=> //= {k w e}.
- by move=> l w r a _ _ IH _ h; right; apply/in_app_iff; left; exact: IH.
- move=> w s' w' a b _ IHa _ _ IHb /in_app_iff[h|h]; apply/in_app_iff; [left; exact: IHa|right; right; exact: IHb].
- by move=> *; right; auto.
move=> k w s' t w' a b _ _ IHa _ _ IHb /in_app_iff[h|h]; apply/in_app_iff; [left; exact: IHa|right; right; exact: IHb].
Qed.

Section Eval.
Variables (A : Type) (o : cops A) (F : fieldType) (V : A -> Prop) (I : A -> F).
Hypothesis spec : cspec o V I.
Variables (dflt zero one : A).
Local Notation elem_is := (elem_is V I).
Local Notation mat_is := (mat_is V I).
Hypotheses (hz : elem_is zero 0) (ho : elem_is one 1).
Local Notation mval := (mval F).
Local Notation matom := (@matom A).
(* the atom x holds the value v; matrices have rows and columns *)
Definition atom_is (x : matom) (v : mval) : Prop :=
  match v with
  | WM m n a => [/\ (0 < m)%N, (0 < n)%N & exists t, x = MM t /\ mat_is t a]
  | WS c => exists y, x = MS y /\ elem_is y c
  | WI i => x = MI i
  end.
(* r is a value of the set P, or P is empty and r a failure *)
Definition answers {X} (Q : X -> mval -> Prop) (P : mval -> Prop) (r : res X) : Prop :=
  match r with
  | Ok x => exists v, P v /\ Q x v
  | Exn => forall v, ~ P v
  | _ => False
  end.
Lemma ans_ok x v (P : mval -> Prop) : P v -> atom_is x v -> answers atom_is P (Ok x).
Proof. by exists v. Qed.
Lemma atom_mat m n t (a : 'M[F]_(m, n)) : (0 < m)%N -> (0 < n)%N -> mat_is t a -> atom_is (MM t) (WM a).
Proof. by move=> hm hn h; split=> //; exists t. Qed.

Lemma un_ok k m n t (a : 'M[F]_(m, n)) : (0 < m)%N -> (0 < n)%N -> mat_is t a -> k <> L_UPLUS -> 
  answers atom_is (un_val k (WM a)) (mat_un o dflt zero one k t).
Proof.
move=> hm hn h.
have sqn (P : forall n, 'M[F]_n -> mval -> Prop) w : m != n -> ~ exists n' (b : 'M[F]_n'), P n' b w /\ WM a = WM b.
  by move=> ne [n' [b [_ e]]]; have [e1 e2] := VM_dim e; rewrite e1 e2 eqxx in ne.
case: k => // _; rewrite /mat_un; try by move=> v.
- have [_ _ [w [-> hw]] _ _] := entry_thm spec hm hn h h hz; rewrite bind_ok.
  by apply: (@ans_ok _ (WM (- a))); [exists m, n, a|exact: atom_mat].
- case: (eqVneq m n) => [e|ne].
    subst m; have [b [t' [-> hb h2]]] := inverse_thm spec hn dflt (mkmat [::] 0%N) h; rewrite bind_ok.
    case: b hb h2 => hb h2.
      have [c [hc e1 e2]] := h2 isT; rewrite (check_inv_thm spec hn h hc e1 e2) bind_ok.
      have ua : a \in unitmx by rewrite unitmxE unitfE -hb.
      apply: (@ans_ok _ (WM (invmx a))); first by exists n, a.
      by rewrite -[invmx a]mulmx1 -e1 mulKmx //; exact: atom_mat.
    move=> v [n' [a' [e ua _]]]; have [en _] := VM_dim e; subst n'; have ea := VM_inj e; subst a'.
    by move: ua; rewrite unitmxE unitfE -hb.
  have [z [ez _]] : exists z, get_zero o (t_rows t) = Ok z /\ R V I z 0.
    by case/mat_is_rep: h => M [hM hs _] _; exact: (get_zero_ok spec hM hs hm hn).
  rewrite /mat_inverse ez bind_ok /is_square (mat_nr h) (mat_nc h) eqbE (negbTE ne).
  by move=> v [n' [b [e _ _]]]; apply: (sqn (fun _ _ _ => True) v ne); exists n', b.
- case: (eqVneq m n) => [e|ne].
    subst m; have [d [-> hd]] := det_thm spec hn h; rewrite bind_ok.
    by apply: (@ans_ok _ (WS (\det a))); [exists n, a|exists d].
  rewrite /mat_det /is_square (mat_nr h) (mat_nc h) eqbE (negbTE ne).
  by move=> v [n' [b [e _]]]; apply: (sqn (fun _ _ _ => True) v ne); exists n', b.
- have [r [-> hr]] := kernel_thm spec hm hn h hz ho; rewrite /opt bind_ok.
  case: r hr => [t'|] hr /=.
    have [k [h1 h2 h3 h4]] := hr; rewrite (check_ker_thm spec hm hn h h2); last first.
      by move=> i; apply/eqP; rewrite -h4; exact: row_sub.
    rewrite bind_ok; apply: (@ans_ok _ (WM k)); last exact: atom_mat.
    by exists m, n, a, k; split=> //; rewrite -subn_gt0.
  move=> v [m' [n' [a' [k [e lt _ fr hk]]]]]; have [e1 e2] := VM_dim e; subst m' n'; have ea := VM_inj e; subst a'.
  have : (0 < \rank k)%N by rewrite (eqP fr) subn_gt0.
  rewrite lt0n mxrank_eq0; case/eqP; apply/row_matrixP => i; rewrite row0.
  have : a *m (row i k)^T = 0 by apply/eqP; rewrite -hk; exact: row_sub.
  by move/hr => e0; rewrite -[row i k]trmxK e0 trmx0.
- have [t' [b [-> h1 h2 h3]]] := rr_thm spec hm hn h; rewrite bind_ok.
  by apply: (@ans_ok _ (WM b)); [exists m, n, a, b|exact: atom_mat].
- have [t' [b [-> h1 h2 h3]]] := rech_thm spec hm hn h; rewrite bind_ok.
  by apply: (@ans_ok _ (WM b)); [exists m, n, a, b|exact: atom_mat].
- have [w [-> hw]] := fliph_thm hm hn h; rewrite bind_ok.
  have [t' [b [-> h1 h2 h3]]] := rech_thm spec hm hn hw; rewrite bind_ok.
  have [w' [-> hw']] := fliphv_thm hm hn h1; rewrite bind_ok.
  by apply: (@ans_ok _ (WM (fliphv b))); [exists m, n, a, b|exact: atom_mat].
- have [r [-> hr]] := rrnz_thm spec hm hn h; rewrite /opt bind_ok.
  case: r hr => [t'|] hr /=.
    have [b [h1 h2 h3 h4]] := hr; apply: (@ans_ok _ (WM b)); last exact: atom_mat.
    by exists m, n, a, b; split=> //; rewrite -mxrank_eq0 -lt0n.
  move=> v [m' [n' [a' [k [e nz _ _ _]]]]]; have [e1 e2] := VM_dim e; subst m' n'; have ea := VM_inj e; subst a'.
  by rewrite hr eqxx in nz.
- have [r [-> hr]] := rechnz_thm spec hm hn h; rewrite /opt bind_ok.
  case: r hr => [t'|] hr /=.
    have [b [h1 h2 h3 h4]] := hr; apply: (@ans_ok _ (WM b)); last exact: atom_mat.
    by exists m, n, a, b; split=> //; rewrite -mxrank_eq0 -lt0n.
  move=> v [m' [n' [a' [k [e nz _ _ _]]]]]; have [e1 e2] := VM_dim e; subst m' n'; have ea := VM_inj e; subst a'.
  by rewrite hr eqxx in nz.
- have [_ _ _ _ [w [-> hw]]] := entry_thm spec hm hn h h hz; rewrite bind_ok.
  by apply: (@ans_ok _ (WM a^T)); [exists m, n, a|exact: atom_mat].
rewrite (rank_thm spec hm hn h) bind_ok.
by apply: (@ans_ok _ (WI _ (Z.of_nat (\rank a)))); [exists m, n, a|].
Qed.
Lemma bin_ok k m n m' n' t u (a : 'M[F]_(m, n)) (b : 'M[F]_(m', n')) : (0 < m)%N -> (0 < n)%N -> (0 < m')%N -> (0 < n')%N ->
  mat_is t a -> mat_is u b -> bin_tok k -> answers atom_is (bin_val k (WM a) (WM b)) (mat_bin o k t u).
Proof.
move=> hm hn hm' hn' h h'.
have same (P : forall m n, 'M[F]_(m, n) -> 'M[F]_(m, n) -> Prop) :
    ~~ ((m == m') && (n == n')) -> ~ exists m1 n1 (a1 b1 : 'M[F]_(m1, n1)), [/\ WM a = WM a1, WM b = WM b1 & P _ _ a1 b1].
  move=> ne [m1 [n1 [a1 [b1 [e1 e2 _]]]]]; have [? ?] := VM_dim e1; have [? ?] := VM_dim e2; subst.
  by rewrite !eqxx in ne.
case: k => //= _.
- case: (boolP ((m == m') && (n == n'))) => [/andP[/eqP e1 /eqP e2]|ne].
    subst m' n'; have [[w [-> hw]] _ _ _ _] := entry_thm spec hm hn h h' hz; rewrite bind_ok.
    by apply: (@ans_ok _ (WM (a + b))); [exists m, n, a, b|exact: atom_mat].
  by rewrite /mat_add (mat_nr h) (mat_nc h) (mat_nr h') (mat_nc h') !eqbE (negbTE ne) => v; apply: same.
- case: (boolP ((m == m') && (n == n'))) => [/andP[/eqP e1 /eqP e2]|ne].
    subst m' n'; have [_ [w [-> hw]] _ _ _] := entry_thm spec hm hn h h' hz; rewrite bind_ok.
    by apply: (@ans_ok _ (WM (a - b))); [exists m, n, a, b|exact: atom_mat].
  by rewrite /mat_sub (mat_nr h) (mat_nc h) (mat_nr h') (mat_nc h') !eqbE (negbTE ne) => v; apply: same.
- case: (eqVneq n m') => [e|ne].
    subst m'; have [w [-> hw]] := mul_thm spec hm hn hn' h h'; rewrite bind_ok.
    by apply: (@ans_ok _ (WM (a *m b))); [exists m, n, n', a, b|exact: atom_mat].
  rewrite /mat_mul (mat_nc h) (mat_nr h') eqbE (negbTE ne) => v [m1 [n1 [k1 [a1 [b1 [e1 e2 _]]]]]].
  by have [_ ?] := VM_dim e1; have [? _] := VM_dim e2; subst; rewrite eqxx in ne.
- case: (boolP ((m == m') && (n == n'))) => [/andP[/eqP e1 /eqP e2]|ne].
    subst m' n'; rewrite (eqb_thm spec h h') bind_ok.
    by apply: (@ans_ok _ (WI _ (if a == b then 1 else 0)%coqZ)); [exists m, n, a, b|].
  by rewrite /mat_eqb (mat_nr h) (mat_nc h) (mat_nr h') (mat_nc h') !eqbE (negbTE ne) => v; apply: same.
case: (boolP ((m == m') && (n == n'))) => [/andP[/eqP e1 /eqP e2]|ne].
  subst m' n'; rewrite (eqb_thm spec h h') bind_ok.
  by apply: (@ans_ok _ (WI _ (if a == b then 0 else 1)%coqZ)); [exists m, n, a, b|].
by rewrite /mat_eqb (mat_nr h) (mat_nc h) (mat_nr h') (mat_nc h') !eqbE (negbTE ne) => v; apply: same.
Qed.
Lemma pow_ok m n t (a : 'M[F]_(m, n)) i : (0 < m)%N -> (0 < n)%N -> mat_is t a -> Z.lt INT_MIN i -> Z.le i INT_MAX ->
  answers atom_is (pow_val (WM a) (WI F i)) (c <- opt (mat_exp o dflt t i) ;; Ok (MM c))%res.
Proof.
move=> hm hn h h1 h2; case: (eqVneq m n) => [e|ne]; last first.
  rewrite /mat_exp /is_square (mat_nr h) (mat_nc h) eqbE (negbTE ne) => v [n' [a' [i' [e _ _]]]].
  by have [e1 e2] := VM_dim e; rewrite e1 e2 eqxx in ne.
subst m; have [H1 H2 H3 H4] := exp_thm spec hn dflt h h1 h2.
have nopow : Z.le i 0 -> a \notin unitmx -> forall v, ~ pow_val (WM a) (WI F i) v.
  move=> hi nu v [n' [a' [i' [e [ei] hh]]]]; have [en _] := VM_dim e; subst n' i'; have ea := VM_inj e; subst a'.
  by case: hh => [[]|[_ u _]]; [lia|rewrite u in nu].
case: (Z_lt_le_dec 0 i) => hi.
  have [r [-> hr]] := H1 hi; rewrite /opt !bind_ok.
  apply: (@ans_ok _ (WM (iter (Z.to_nat i) (mulmx a) 1%:M))); last exact: atom_mat.
  by exists n, a, i; split=> //; left.
case: (eqVneq (\det a) 0) => hd.
  have nu : a \notin unitmx by rewrite unitmxE unitfE hd eqxx.
  by case: (eqVneq a 0) => ha; [rewrite H4|rewrite H3] => //=; exact: nopow.
have [r [-> hr]] := H2 hi hd; rewrite /opt !bind_ok.
apply: (@ans_ok _ (WM (iter (Z.to_nat (Z.opp i)) (mulmx (invmx a)) 1%:M))); last exact: atom_mat.
by exists n, a, i; split=> //; right; split=> //; rewrite unitmxE unitfE.
Qed.

(* dimensions and integers that an int holds; -INT_MIN excluded, as C51 needs *)
Definition small (v : mval) : Prop :=
  match v with
  | WM m n _ => Z.le (Z.of_nat m) INT_MAX /\ Z.le (Z.of_nat n) INT_MAX
  | WS _ => True
  | WI i => Z.lt INT_MIN i /\ Z.le i INT_MAX
  end.
Lemma small_le k m : (k <= m)%N -> Z.le (Z.of_nat m) INT_MAX -> Z.le (Z.of_nat k) INT_MAX.
Proof. lia. Qed.
Lemma un_small k v w : un_val k v w -> small v -> small w.
Proof.
case: k => //=; try by move=> [m [n [a [-> ->]]]] [].
- by move=> ->.
- by move=> [n [a [-> _ ->]]].
- by move=> [n [a [-> ->]]].
- move=> [m [n [a [k [-> _ -> _ _]]]]] [h1 h2]; split=> //; apply: small_le h2; exact: leq_subr.
- by move=> [m [n [a [b [-> -> _ _]]]]].
- by move=> [m [n [a [b [-> -> _ _]]]]].
- by move=> [m [n [a [b [-> -> _ _]]]]].
- move=> [m [n [a [b [-> _ -> _ _]]]]] [h1 h2]; split=> //; apply: small_le h1; exact: rank_leq_row.
- move=> [m [n [a [b [-> _ -> _ _]]]]] [h1 h2]; split=> //; apply: small_le h1; exact: rank_leq_row.
move=> [m [n [a [-> ->]]]] [h1 h2]; split; last by apply: small_le h1; exact: rank_leq_row.
by have := Zle_0_nat (\rank a); rewrite /INT_MIN; lia.
Qed.
Lemma bin_small k u v w : bin_val k u v w -> small u -> small v -> small w.
Proof.
case: k => //=; try by move=> [m [n [a [b [-> -> ->]]]]].
- by move=> [m [n [k [a [b [-> -> ->]]]]]] [h1 _] [_ h2].
- by move=> [m [n [a [b [-> -> ->]]]]] _ _; case: (a == b).
by move=> [m [n [a [b [-> -> ->]]]]] _ _; case: (a == b).
Qed.
Lemma pow_small u v w : pow_val u v w -> small u -> small w.
Proof. by case=> n [a [i [-> _ [[_ ->]|[_ _ ->]]]]]. Qed.

Variables (get : list Ascii.ascii -> res (option (A * list Ascii.ascii * bool))) (load : string -> res (option (tmat A))) (int : string -> option Z).
Variables (W : string -> Prop) (L : string -> option mval).
Local Notation o' := (mat_mach o dflt zero one get load int).
(* the operands: L is what their texts mean *)
Definition lit_ok : Prop := forall s, W s ->
  answers atom_is (fun v => L s = Some v) (mat_scan get load s (MI 0)) /\
  (forall v, L s = Some v -> small v /\ exists m n (a : 'M[F]_(m, n)), v = WM a) /\
  forall i, int s = Some i -> Z.lt INT_MIN i /\ Z.le i INT_MAX.
Hypothesis hL : lit_ok.

(* operators on the stack *)
Definition tops (st st' : list matom) (v : mval) : Prop := exists y, st' = y :: st /\ atom_is y v.
Lemma un_mat t (v w : mval) : t <> L_UPLUS -> un_val t v w -> exists m n (a : 'M[F]_(m, n)), v = WM a.
Proof.
case: t => //= _; try by move=> [m [n [a [h _]]]]; exists m, n, a.
- by move=> [n [a [h _ _]]]; exists n, n, a.
- by move=> [n [a [h _]]]; exists n, n, a.
- by move=> [m [n [a [k [h _ _ _ _]]]]]; exists m, n, a.
- by move=> [m [n [a [k [h _ _ _]]]]]; exists m, n, a.
- by move=> [m [n [a [k [h _ _ _]]]]]; exists m, n, a.
- by move=> [m [n [a [k [h _ _ _]]]]]; exists m, n, a.
- by move=> [m [n [a [k [h _ _ _ _]]]]]; exists m, n, a.
by move=> [m [n [a [k [h _ _ _ _]]]]]; exists m, n, a.
Qed.
Lemma op_un t y st u : un_tok t -> atom_is y u -> answers (tops st) (un_val t u) (mat_op o dflt zero one t (y :: st)).
Proof.
move=> ht hy; have [->|nt] : t = L_UPLUS \/ t <> L_UPLUS by (case: (t); first [by left|by right]).
  by exists u; split=> //; exists y.
have -> : mat_op o dflt zero one t (y :: st) = match y with MM a => c <- mat_un o dflt zero one t a ;; Ok (c :: st) | _ => Exn end%res.
  by case: (t) ht nt.
case: u hy => [m n a|c|i].
- case=> hm hn [x [-> hx]]; have := @un_ok t _ _ _ _ hm hn hx nt.
  case: (mat_un _ _ _ _ _ _) => [z|||] //=; by case=> w [h1 h2]; exists w; split=> //; exists z.
- by case=> x [-> hx] w /(un_mat nt)[m [n [a]]].
by move=> -> w /(un_mat nt)[m [n [a]]].
Qed.
Lemma op_bin t y z st u v : bin_tok t -> atom_is y u -> atom_is z v -> answers (tops st) (bin_val t u v) (mat_op o dflt zero one t (z :: y :: st)).
Proof.
move=> ht hy hz'.
have -> : mat_op o dflt zero one t (z :: y :: st) =
    match z, y with MM b, MM a => c <- mat_bin o t a b ;; Ok (c :: st) | _, _ => Exn end%res.
  by case: (t) ht => //= _; case: (z) => //; case: (y).
have no : (forall m n (a : 'M[F]_(m, n)), u <> WM a) \/ (forall m n (a : 'M[F]_(m, n)), v <> WM a) -> forall w, ~ bin_val t u v w.
  move=> h w; case: (t) ht => //= _; try (case=> m [n [a [b [e1 e2 _]]]]; case: h => h; [exact: (h _ _ _ e1)|exact: (h _ _ _ e2)]).
  by case=> m [n [k [a [b [e1 e2 _]]]]]; case: h => h; [exact: (h _ _ _ e1)|exact: (h _ _ _ e2)].
case: u hy no => [m n a|c|i] hy no; last 2 first.
- by case: hy => x [-> _]; case: (z) => *; apply: no; left.
- by rewrite hy; case: (z) => *; apply: no; left.
case: v hz' no => [m' n' b|c|i] hz' no; last 2 first.
- by case: hz' => x [-> _]; case: (y) => *; apply: no; right.
- by rewrite hz'; case: (y) => *; apply: no; right.
case: hy => hm hn [x [-> hx]]; case: hz' => hm' hn' [x' [-> hx']].
have := @bin_ok t _ _ _ _ _ _ _ _ hm hn hm' hn' hx hx' ht.
by case: (mat_bin _ _ _ _) => [q|||] //=; case=> w [h1 h2]; exists w; split=> //; exists q.
Qed.
Lemma op_pow y z st u v : atom_is y u -> atom_is z v -> small v -> answers (tops st) (pow_val u v) (mat_op o dflt zero one L_EXP (z :: y :: st)).
Proof.
move=> hy hz' sv.
have -> : mat_op o dflt zero one L_EXP (z :: y :: st) =
    match z, y with MI i, MM a => c <- opt (mat_exp o dflt a i) ;; Ok (MM c :: st) | _, _ => Exn end%res.
  by case: (z) => //; case: (y).
have no : (forall m n (a : 'M[F]_(m, n)), u <> WM a) \/ (forall i, v <> WI F i) -> forall w, ~ pow_val u v w.
  by move=> h w [n [a [i [e1 e2 _]]]]; case: h => h; [exact: (h _ _ _ e1)|exact: (h _ e2)].
case: u hy no => [m n a|c|i] hy no; last 2 first.
- by case: hy => x [-> _]; case: (z) => *; apply: no; left.
- by rewrite hy; case: (z) => *; apply: no; left.
case: v sv hz' no => [m' n' b|c|i] sv hz' no.
- by case: hz' => _ _ [x [-> _]]; case: (y) => *; apply: no; right.
- by case: hz' => x [-> _]; case: (y) => *; apply: no; right.
case: hy => hm hn [x [-> hx]]; rewrite hz'; case: sv => h1 h2.
have := @pow_ok _ _ _ _ _ hm hn hx h1 h2.
by rewrite /opt; case: (mat_exp _ _ _ _) => [[q|]|||] //=; case=> w [g1 g2]; exists w; split=> //; exists (MM q).
Qed.

(* running an expression *)
Local Arguments mat_op : simpl never.
Definition runs_to (P : mval -> Prop) (D : bool) (st : list matom) (r : res (matom * list matom * unit)) : Prop :=
  match r with
  | Ok (_, st', _) => exists v, [/\ P v, tops st st' v & small v]
  | Exn => D -> forall v, ~ P v
  | _ => False
  end.
Lemma exec_den e pw x st : wf e -> (forall s, List.In s (lits e) -> W s) ->
  runs_to (den int L pw e) (det_ast e) st (exec o' pw e x st).
Proof.
elim: e pw x st => [s|e IH|t e IH|e IHe f IHf|t e IHe f IHf] pw x st /= hw hl.
- have {hl} [h1 [h2 h3]] := hL (hl s (or_introl erefl)); case: pw.
    rewrite /mat_scan_int; case ei : (int s) => [i|] /=; last by move=> _ v [i []]; rewrite ?ei.
    by exists (WI F i); split; [exists i|exists (MI i)|exact: h3].
  move: h1; rewrite {1}/mat_scan /mat_scan; set m := opt _; case: m => [t|||] //=.
  by case=> v [e hv]; have [hs _] := h2 _ e; exists v; split=> //; exists (MM t).
- have := IH pw x st hw hl; case: (exec _ _ _ _ _) => [[[y st'] sv]|||] //=.
- case/andP: hw => ht hw; have := IH pw x st hw hl; case: (exec _ _ _ _ _) => [[[y st'] sv]|||] //=; last first.
    by move=> h /andP[_ hd] v [u [hu _]]; exact: (h hd u hu).
  case=> u [hu [z [-> hz']] su]; have := @op_un t z st u ht hz'.
  case: (mat_op _ _ _ _ _ _) => [st2|||] //=; last first.
    by move=> h /andP[_ hd] v [u' [hu' hv]]; apply: (h v); rewrite (den_fun hd hu hu').
  by case=> v [hv htop]; exists v; split=> //; [exists u|exact: un_small hv su].
- case/andP: hw => hwe hwf; have hle s : List.In s (lits e) -> W s by move=> h; apply: hl; apply/in_app_iff; left.
  have hlf s : List.In s (lits f) -> W s by move=> h; apply: hl; apply/in_app_iff; right.
  have := IHe pw x st hwe hle; case: (exec _ _ _ _ _) => [[[y st'] sv]|||] //=; last first.
    by move=> h /andP[hd _] v [u [w [hu _ _]]]; exact: (h hd u hu).
  case=> u [hu [z [-> hz']] su]; have := IHf true y (z :: st) hwf hlf; case: (exec _ _ _ _ _) => [[[y' st2] sv']|||] //=; last first.
    by move=> h /andP[_ hd] v [u' [w [_ hw _]]]; exact: (h hd w hw).
  case=> w [hw [z' [-> hz2]] sw]; have := @op_pow z z' st u w hz' hz2 sw.
  case: (mat_op _ _ _ _ _ _) => [st3|||] //=; last first.
    move=> h /andP[hd hd'] v [u' [w' [hu' hw' hv]]]; apply: (h v).
    by rewrite (den_fun hd hu hu') (den_fun hd' hw hw').
  by case=> v [hv htop]; exists v; split=> //; [exists u, w|exact: pow_small hv su].
case/and3P: hw => ht hwe hwf; have hle s : List.In s (lits e) -> W s by move=> h; apply: hl; apply/in_app_iff; left.
have hlf s : List.In s (lits f) -> W s by move=> h; apply: hl; apply/in_app_iff; right.
have := IHe pw x st hwe hle; case: (exec _ _ _ _ _) => [[[y st'] sv]|||] //=; last first.
  by move=> h /andP[hd _] v [u [w [hu _ _]]]; exact: (h hd u hu).
case=> u [hu [z [-> hz']] su]; have := IHf pw y (z :: st) hwf hlf; case: (exec _ _ _ _ _) => [[[y' st2] sv']|||] //=; last first.
  by move=> h /andP[_ hd] v [u' [w [_ hw _]]]; exact: (h hd w hw).
case=> w [hw [z' [-> hz2]] sw]; have := @op_bin t z z' st u w ht hz' hz2.
case: (mat_op _ _ _ _ _ _) => [st3|||] //=; last first.
  move=> h /andP[hd hd'] v [u' [w' [hu' hw' hv]]]; apply: (h v).
  by rewrite (den_fun hd hu hu') (den_fun hd' hw hw').
by case=> v [hv htop]; exists v; split=> //; [exists u, w|exact: bin_small hv su sw].
Qed.

(* the whole command *)
Definition prints (P : mval -> Prop) (D : bool) (r : list matom * res unit) : Prop :=
  (exists x v, [/\ r = ([:: x], Ok tt), P v & atom_is x v]) \/ (r = ([::], Exn) /\ (D -> forall v, ~ P v)).
Lemma mat_cmd w e : der mspells cQ w e -> (forall s, List.In s w -> W s) ->
  prints (den int L false e) (det_ast e) (cmd_line_mat_parse o dflt zero one get load int w).
Proof.
move=> d hw; have h := @exec_den e false (MI 0) [::] (der_wf d) (fun s hs => hw s (der_lits d hs)).
rewrite /cmd_line_mat_parse (@cmd_ok _ _ _ o' mspells mspP _ _ _ _ d).
move: h; case: (exec _ _ _ _ _) => [[[y st'] sv]|||] //=; last by move=> h; right.
by case=> v [hv [z [-> hz']] _]; left; exists z, v.
Qed.
Lemma mat_total w : (forall s, List.In s w -> W s) ->
  let r := cmd_line_mat_parse o dflt zero one get load int w in
  (r.2 = Ok tt \/ r.2 = Exn) /\ forall x, List.In x r.1 -> exists v, atom_is x v.
Proof.
move=> hw r; pose Ia x := exists v : mval, atom_is x v /\ small v.
pose Is (n : nat) (st : list matom) := size st = n /\ List.Forall Ia st.
have hs : safe o' W Ia Is.
  split; last split; last split; last split.
  - move=> s x hs _; have [h1 [h2 h3]] := hL hs; split=> /=; last first.
      by rewrite /mat_scan_int; case ei : (int s) => [i|] //=; exists (WI F i); split=> //; exact: h3.
    move: h1; rewrite /mat_scan; case: (opt _) => [t|||] //= -[v [hv ha]]; exists v; split=> //.
    by have [] := h2 _ hv.
  - by move=> x n st hx [h1 h2]; split; [rewrite /= h1|constructor].
  - move=> t n st ht [h1 h2] /=.
    case: st h1 h2 => [|z [|y st]] // [h1] h2.
    have [[v [hv sv]] h3] : Ia z /\ List.Forall Ia (y :: st) by inversion h2.
    have [[u [hu su]] h4] : Ia y /\ List.Forall Ia st by inversion h3.
    have [->|nt] : t = L_EXP \/ t <> L_EXP by (case: (t); first [by left|by right]).
      have := @op_pow y z st u v hu hv sv; case: (mat_op _ _ _ _ _ _) => [st3|||] //= -[q [hq [x [-> hx]]]].
      by split; [rewrite /= h1|constructor=> //; exists q; split=> //; exact: pow_small hq su].
    have hb : bin_tok t by move: ht nt => /=; case: (t) => //= h _; do 6?(case: h => [h|h] //).
    have := @op_bin t y z st u v hb hu hv; case: (mat_op _ _ _ _ _ _) => [st3|||] //= -[q [hq [x [-> hx]]]].
    by split; [rewrite /= h1|constructor=> //; exists q; split=> //; exact: bin_small hq su sv].
  - move=> u0 t n st ht [h1 h2] /=; case: st h1 h2 => [|y st] // [h1] h2.
    have [[u [hu su]] h4] : Ia y /\ List.Forall Ia st by inversion h2.
    have hun : un_tok t by move: ht; rewrite /prefix_op => -[[_ ->]|[[_ ->]|[<- h]]] //; do 10?(case: h => [<-|h] //).
    have := @op_un t y st u hun hu; case: (mat_op _ _ _ _ _ _) => [st3|||] //= -[q [hq [x [-> hx]]]].
    by split; [rewrite /= h1|constructor=> //; exists q; split=> //; exact: un_small hq su].
  by [].
have hw' : List.Forall W w by apply/List.Forall_forall.
have a0 : Ia (MI 0) by exists (WI F 0); split=> //; split; rewrite /INT_MIN /INT_MAX; lia.
have [h1 h2] := @cmd_total _ _ _ o' mspells mspP (MI 0) [::] W Ia Is w hs hw' a0 (conj erefl (List.Forall_nil _)).
split; first by move: h1; rewrite -/(cmd_line_mat_parse o dflt zero one get load int w) -/r; case: r.2 => [[]|||] //; [left|right].
move=> x /h2[st [[s1 s2] s3]]; case: st s1 s2 s3 => [|y st] //= _ h [<-].
have [v [hv _]] : Ia y by inversion h.
by exists v.
Qed.
End Eval.
