(* The command-line evaluator: grammar, evaluation, and the parser against them. *)
From Verif Require Import Base MCli.
From mathcomp Require Import all_ssreflect ssrZ.
Set Implicit Arguments.
Unset Strict Implicit.
Unset Printing Implicit Defensive.
Import ListNotations.

(* spelling of operators and brackets *)
Definition spelling : list (string * tok) :=
  [("+", L_PLUS); ("-", L_MINUS); ("*", L_MUL); (".", L_MUL); ("/", L_DIV); ("%", L_MOD); ("^", L_EXP);
   ("==", L_EQ); ("!=", L_NE); ("/=", L_NE); ("<", L_LT); ("<=", L_LE); (">", L_GT); (">=", L_GE);
   ("(", L_LPAREN); ("[", L_LPAREN); (")", L_RPAREN); ("]", L_RPAREN)]%string.
Definition spells (s : string) (t : tok) : Prop := List.In (s, t) spelling.

(* the grammar of cmd_line_ops.h:10-19, where the operands of binary operators of one level repeat and group to the left *)
Inductive ast := ANum (s : string) | APos (a : ast) | ANeg (a : ast) | APow (a b : ast) | ABin (t : tok) (a b : ast).
Inductive cat := cP | cU | cF | cT | cE | cC | cQ.
(* operators and operands of the levels T, E, C, Q *)
Definition bin_op (k : cat) (t : tok) : Prop :=
  match k with
  | cT => t = L_MUL \/ t = L_DIV \/ t = L_MOD
  | cE => t = L_PLUS \/ t = L_MINUS
  | cC => t = L_LT \/ t = L_LE \/ t = L_GT \/ t = L_GE
  | cQ => t = L_EQ \/ t = L_NE
  | _ => False
  end.
Definition operand (k : cat) : cat := match k with cT => cF | cE => cT | cC => cE | cQ => cC | _ => cP end.
Definition is_bin (k : cat) : Prop := k = cT \/ k = cE \/ k = cC \/ k = cQ.
Inductive der : cat -> list string -> ast -> Prop :=
| d_num s : (forall t, ~ spells s t) -> der cP [s] (ANum s)
| d_par l w r a : spells l L_LPAREN -> der cE w a -> spells r L_RPAREN -> der cP (l :: w ++ [r]) a
| d_base w a : der cP w a -> der cU w a
| d_pow w s w' a b : der cU w a -> spells s L_EXP -> der cP w' b -> der cU (w ++ s :: w') (APow a b)
| d_fac w a : der cU w a -> der cF w a
| d_pos s w a : spells s L_PLUS -> der cU w a -> der cF (s :: w) (APos a)
| d_neg s w a : spells s L_MINUS -> der cU w a -> der cF (s :: w) (ANeg a)
| d_up k w a : is_bin k -> der (operand k) w a -> der k w a
| d_bin k w s t w' a b : bin_op k t -> der k w a -> spells s t -> der (operand k) w' b -> der k (w ++ s :: w') (ABin t a b).

Section S.
Context {A : Type} (o : eops A).
Local Notation atom := (@atom A).
Local Notation ctx := (@ctx A).
(* the value of an expression; pw: within an exponent, where numbers are ints *)
Definition ev_bin (t : tok) (x y : atom) : res atom :=
  match x, y with
  | AT a, AT b =>
      match t with
      | L_PLUS => c <- e_add o a b ;; Ok (AT c)
      | L_MINUS => c <- e_sub o a b ;; Ok (AT c)
      | L_MUL => c <- e_mul o a b ;; Ok (AT c)
      | L_DIV => c <- e_div o a b ;; Ok (AT c)
      | L_MOD => c <- e_mod o a b ;; Ok (AT c)
      | L_EQ => c <- e_eqb o a b ;; Ok (AI (Z.b2z c))
      | L_NE => c <- e_neqb o a b ;; Ok (AI (Z.b2z c))
      | L_LT => c <- e_ltb o a b ;; Ok (AI (Z.b2z c))
      | L_LE => c <- e_leb o a b ;; Ok (AI (Z.b2z c))
      | L_GT => c <- e_gtb o a b ;; Ok (AI (Z.b2z c))
      | L_GE => c <- e_geb o a b ;; Ok (AI (Z.b2z c))
      | _ => Exn
      end
  | _, _ => Exn
  end.
Fixpoint ev (pw : bool) (e : ast) : res atom :=
  match e with
  | ANum s => if pw then i <- e_scan_int o s ;; Ok (AI i) else a <- e_scan o s ;; Ok (AT a)
  | APos e => ev pw e
  | ANeg e => x <- ev pw e ;; match x with AT a => c <- e_neg o a ;; Ok (AT c) | AI _ => Exn end
  | APow e f =>
      x <- ev pw e ;; y <- ev true f ;;
      match x, y with AT a, AI i => c <- clo_exp o a i ;; Ok (AT c) | _, _ => Exn end
  | ABin t e f => x <- ev pw e ;; y <- ev pw f ;; ev_bin t x y
  end.

Lemma spellsP s t : spells s t <-> lex_op s = Some t.
Proof.
split.
  by rewrite /spells /=; do 18!(case; [by case=> <- <-|]).
rewrite /lex_op; do 18?(case: (String.eqb_spec s _) => [->|_]; [by case=> <-; rewrite /spells /=; tauto|]).
by [].
Qed.
Lemma nospell s : (forall t, ~ spells s t) <-> lex_op s = None.
Proof.
split=> [h|h t /spellsP]; last by rewrite h.
by case e : (lex_op s) => [t|] //; case: (h t); apply/spellsP.
Qed.
Lemma spells_fun s t t' : spells s t -> spells s t' -> t = t'.
Proof. by move=> /spellsP e /spellsP; rewrite e => -[]. Qed.

Definition fail {X Y} (r : res X) : res Y := match r with Ok _ => UB | Exn => Exn | UB => UB | Div => Div end.
Definition isok {X} (r : res X) : bool := if r is Ok _ then true else false.
Definition lx (l : list string) (n : nat) : res ctx := lexan o (mkctx l TEol n).
Definition runs (k : nt) c st r := exists N, parse o N k c st = Some r.
Definition lruns (k : nt) l n st r := exists N, orbind (Some (lx l n)) (fun c => parse o N k c st) = Some r.
Definition nxt (l : list string) (n : nat) : ctx :=
  match l with
  | [] => mkctx [] TEol n
  | s :: l => match lex_op s with Some t => mkctx l (TOp t) n | None => mkctx l TEol n end
  end.
Lemma orbind_ok X Y (x : X) (f : X -> option (res Y)) : orbind (Some (Ok x)) f = f x. Proof. by []. Qed.
Lemma orbind_fail X Y (r : res X) (f : X -> option (res Y)) : ~~ isok r -> orbind (Some r) f = Some (fail r).
Proof. by case: r. Qed.
Lemma fail_fail X Y W (r : res X) : ~~ isok r -> fail (fail r : res Y) = fail r :> res W. Proof. by case: r. Qed.
Lemma fail_isok X Y (r : res X) : isok (fail r : res Y) = false. Proof. by case: r. Qed.

Lemma orbind_mono X Y (r r' : option (res X)) (f g : X -> option (res Y)) v :
  (forall w, r = Some w -> r' = Some w) -> (forall x w, f x = Some w -> g x = Some w) -> orbind r f = Some v -> orbind r' g = Some v.
Proof. by move=> h1 h2; case: r h1 => [[x|||]|] // h1; rewrite (h1 _ erefl) /= => //; exact: h2. Qed.
Lemma body_mono (f g : nt -> ctx -> list atom -> option (res (ctx * list atom))) :
  (forall k c st r, f k c st = Some r -> g k c st = Some r) ->
  forall k c st r, pbody o f k c st = Some r -> pbody o g k c st = Some r.
Proof.
move=> IH k c st r.
have B t sub again : orbind (Some (lexan o c)) (fun c => orbind (f sub c st) (fun '(c, st) =>
        orbind (Some (emit o t st)) (fun st => f again c st))) = Some r ->
   orbind (Some (lexan o c)) (fun c => orbind (g sub c st) (fun '(c, st) =>
        orbind (Some (emit o t st)) (fun st => g again c st))) = Some r.
  apply: orbind_mono => // c1 w; apply: orbind_mono => [w1|[c2 st2] w1]; first exact: IH.
  by apply: orbind_mono => // st3 w2; exact: IH.
have Bk k1 k2 : orbind (f k1 c st) (fun '(c, st) => f k2 c st) = Some r ->
  orbind (g k1 c st) (fun '(c, st) => g k2 c st) = Some r.
  by apply: orbind_mono => [w|[c2 st2] w]; exact: IH.
case: k; rewrite /pbody; try exact: Bk.
- case: (c_tok c) => [a||[]] //.
  by apply: orbind_mono => // c1 w; apply: orbind_mono => [w1|[c2 st2] w1] //; exact: IH.
- case: (c_tok c) => [a||[]] //.
  apply: orbind_mono => // c1 w; apply: orbind_mono => [w1|[c2 st2] w1]; first exact: IH.
  by apply: orbind_mono => // st3 w2; exact: IH.
- case: (c_tok c) => [a||[]] //; try exact: IH.
    by apply: orbind_mono => // c1 w; apply: orbind_mono => [w1|[c2 st2] w1] //; exact: IH.
  by apply: orbind_mono => // c1 w; apply: orbind_mono => [w1|[c2 st2] w1] //; exact: IH.
- case: (c_tok c) => [a||[]] //; exact: B.
- case: (c_tok c) => [a||[]] //; exact: B.
- case: (c_tok c) => [a||[]] //; exact: B.
case: (c_tok c) => [a||[]] //; exact: B.
Qed.
Lemma parseS n : parse o n.+1 = pbody o (parse o n). Proof. by []. Qed.
Lemma parse_S n k c st r : parse o n k c st = Some r -> parse o n.+1 k c st = Some r.
Proof. by elim: n k c st r => [|n IH] k c st r //; rewrite 2!parseS; exact: body_mono. Qed.
Lemma parse_le n m k c st r : n <= m -> parse o n k c st = Some r -> parse o m k c st = Some r.
Proof. by move=> /subnK <- h; elim: (m - n) => [|d IH] //; rewrite addSn; exact: parse_S. Qed.
End S.
