(* The evaluators of vector and matrix expressions: grammar, execution of an expression, and the parser against them. *)
From Verif Require Import Base MIntmod MMat MMatCli.
From mathcomp Require Import all_ssreflect ssrZ.
Set Implicit Arguments.
Unset Strict Implicit.
Unset Printing Implicit Defensive.
Import ListNotations.

(* spelling of operators and brackets *)
Definition vec_spelling : list (string * tok) :=
  [("+", L_PLUS); ("-", L_MINUS); ("*", L_MUL); (".", L_MUL); ("^", L_EXP);
   ("==", L_EQ); ("!=", L_NE); ("/=", L_NE); ("(", L_LPAREN); ("[", L_LPAREN); (")", L_RPAREN); ("]", L_RPAREN)]%string.
Definition mat_spelling : list (string * tok) :=
  List.app vec_spelling
  [("rank", L_RANK); ("det", L_DET); ("inv", L_INV); ("kerbas", L_KERBAS); ("rr", L_RR); ("rech", L_RECH);
   ("rechr", L_RECHR); ("rrnz", L_RRNZ); ("rechnz", L_RECHNZ); ("transpose", L_TRANSPOSE)]%string.
Definition vspells (s : string) (t : tok) : Prop := List.In (s, t) vec_spelling.
Definition mspells (s : string) (t : tok) : Prop := List.In (s, t) mat_spelling.

(* the grammars of cmd_line_vector_ops.h:11-18 and cmd_line_matrix_ops.h:11-18, where the operands of binary operators of one
   level repeat and group to the left.  sp: the spelling *)
Inductive ast := ANum (s : string) | APar (a : ast) | AUn (t : tok) (a : ast) | APow (a b : ast) | ABin (t : tok) (a b : ast).
Inductive cat := cP | cU | cF | cT | cE | cQ.
Definition bin_op (k : cat) (t : tok) : Prop :=
  match k with
  | cT => t = L_MUL
  | cE => t = L_PLUS \/ t = L_MINUS
  | cQ => t = L_EQ \/ t = L_NE
  | _ => False
  end.
Definition operand (k : cat) : cat := match k with cT => cF | cE => cT | cQ => cE | _ => cP end.
Definition is_bin (k : cat) : Prop := k = cT \/ k = cE \/ k = cQ.
(* the operator a string stands for in front of an operand *)
Definition prefix_op (u t : tok) : Prop :=
  (u = L_PLUS /\ t = L_UPLUS) \/ (u = L_MINUS /\ t = L_UMINUS) \/
  (u = t /\ List.In u [L_INV; L_DET; L_KERBAS; L_RR; L_RECH; L_RECHR; L_RRNZ; L_RECHNZ; L_TRANSPOSE; L_RANK]).
Section G.
Variable sp : string -> tok -> Prop.
Inductive der : cat -> list string -> ast -> Prop :=
| d_num s : (forall t, ~ sp s t) -> der cP [s] (ANum s)
| d_par l w r a : sp l L_LPAREN -> der cE w a -> sp r L_RPAREN -> der cP (l :: w ++ [r]) (APar a)
| d_base w a : der cP w a -> der cU w a
| d_pow w s w' a b : der cU w a -> sp s L_EXP -> der cP w' b -> der cU (w ++ s :: w') (APow a b)
| d_fac w a : der cU w a -> der cF w a
| d_un s u t w a : sp s u -> prefix_op u t -> der cU w a -> der cF (s :: w) (AUn t a)
| d_up k w a : is_bin k -> der (operand k) w a -> der k w a
| d_bin k w s t w' a b : bin_op k t -> der k w a -> sp s t -> der (operand k) w' b -> der k (w ++ s :: w') (ABin t a b).
End G.

Definition lv (k : cat) : nat := match k with cP => 0 | cU => 1 | cF => 2 | cT => 3 | cE => 4 | cQ => 5 end.
Definition olv (t : tok) : nat :=
  match t with
  | L_EXP => 1
  | L_MUL => 3
  | L_PLUS | L_MINUS => 4
  | L_EQ | L_NE => 5
  | L_LPAREN | L_RPAREN => 7
  | L_UPLUS | L_UMINUS => 7
  | _ => 7
  end.
Definition root_lv (a : ast) : nat := match a with APow _ _ => 1 | ABin t _ _ => olv t | _ => 0 end.

Section S.
Context {At St Sv : Type} (o : mach At St Sv) (sp : string -> tok -> Prop).
Hypothesis spP : forall s t, sp s t <-> m_lex o s = Some t.
Local Notation ctx := (@ctx At).
Local Notation res_t := (res (ctx * St)).
Local Notation der := (der sp).

(* Running an expression from the current atom and stack.  Operators of one level are handled by one call, which keeps its
   variable save; sv is that variable after the expression. *)
Fixpoint exec (pw : bool) (e : ast) (at_ : At) (st : St) : res (At * St * Sv) :=
  match e with
  | ANum s => x <- (if pw then m_scan_int o s at_ else m_scan o s at_) ;; st <- m_push o x st ;; Ok (x, st, m_sv0 o)
  | APar e => '(x, st, _) <- exec pw e at_ st ;; Ok (x, st, m_sv0 o)
  | AUn t e =>
      _ <- m_save o (m_sv0 o) at_ ;; '(x, st, _) <- exec pw e at_ st ;;
      st <- m_op o t st ;; Ok (x, st, m_sv0 o)
  | APow e f =>
      '(x, st, sv) <- exec pw e at_ st ;;
      sv <- m_save o (if root_lv e == 1 then sv else m_sv0 o) x ;;
      '(x, st, _) <- exec true f x st ;;
      st <- m_op o L_EXP st ;; Ok (x, st, sv)
  | ABin t e f =>
      '(x, st, sv) <- exec pw e at_ st ;;
      sv <- m_save o (if root_lv e == olv t then sv else m_sv0 o) x ;;
      '(x, st, _) <- exec pw f x st ;;
      st <- m_op o t st ;; Ok (x, st, sv)
  end.

Lemma nospell s : (forall t, ~ sp s t) <-> m_lex o s = None.
Proof.
split=> [h|h t /spP]; last by rewrite h.
by case e : (m_lex o s) => [t|] //; case: (h t); apply/spP.
Qed.
Lemma sp_fun s t t' : sp s t -> sp s t' -> t = t'.
Proof. by move=> /spP e /spP; rewrite e => -[]. Qed.

Definition fail {X Y} (r : res X) : res Y := match r with Ok _ => UB | Exn => Exn | UB => UB | Div => Div end.
Definition isok {X} (r : res X) : bool := if r is Ok _ then true else false.
Definition lx (l : list string) (x : At) (n : nat) : res ctx := lexan o (mkctx l TEol x n).
Definition runs k c st r := exists N, parse o N k c st = Some r.
Definition lruns k l x n st r := exists N, orbind (Some (lx l x n)) (fun c => parse o N k c st) = Some r.
Definition nxt (l : list string) (x : At) (n : nat) : ctx :=
  match l with
  | [] => mkctx [] TEol x n
  | s :: l => match m_lex o s with Some t => mkctx l (TOp t) x n | None => mkctx l TEol x n end
  end.
Lemma orbind_ok X Y (x : X) (f : X -> option (res Y)) : orbind (Some (Ok x)) f = f x. Proof. by []. Qed.
Lemma fail_fail X Y W (r : res X) : ~~ isok r -> fail (fail r : res Y) = fail r :> res W. Proof. by case: r. Qed.

Lemma orbind_mono X Y (r r' : option (res X)) (f g : X -> option (res Y)) v :
  (forall w, r = Some w -> r' = Some w) -> (forall x w, f x = Some w -> g x = Some w) -> orbind r f = Some v -> orbind r' g = Some v.
Proof. by move=> h1 h2; case: r h1 => [[x|||]|] // h1; rewrite (h1 _ erefl) /= => //; exact: h2. Qed.
Lemma body_mono (f g : nt -> ctx -> St -> option res_t) :
  (forall k c st r, f k c st = Some r -> g k c st = Some r) ->
  forall k c st r, pbody o f k c st = Some r -> pbody o g k c st = Some r.
Proof.
move=> IH k c st r.
have B sv t sub again : orbind (Some (m_save o sv (c_atom c))) (fun sv => orbind (Some (lexan o c)) (fun c =>
    orbind (f sub c st) (fun '(c, st) => orbind (Some (m_op o t st)) (fun st => f (again sv) c st)))) = Some r ->
  orbind (Some (m_save o sv (c_atom c))) (fun sv => orbind (Some (lexan o c)) (fun c =>
    orbind (g sub c st) (fun '(c, st) => orbind (Some (m_op o t st)) (fun st => g (again sv) c st)))) = Some r.
  apply: orbind_mono => // sv1 w0; apply: orbind_mono => // c1 w; apply: orbind_mono => [w1|[c2 st2] w1]; first exact: IH.
  by apply: orbind_mono => // st3 w2; exact: IH.
have Bk k1 k2 : orbind (f k1 c st) (fun '(c, st) => f k2 c st) = Some r ->
  orbind (g k1 c st) (fun '(c, st) => g k2 c st) = Some r.
  by apply: orbind_mono => [w|[c2 st2] w]; exact: IH.
have Bu t : orbind (Some (m_save o (m_sv0 o) (c_atom c))) (fun _ => orbind (Some (lexan o c)) (fun c =>
    orbind (f nU c st) (fun '(c, st) => orbind (Some (m_op o t st)) (fun st => Some (Ok (c, st)))))) = Some r ->
  orbind (Some (m_save o (m_sv0 o) (c_atom c))) (fun _ => orbind (Some (lexan o c)) (fun c =>
    orbind (g nU c st) (fun '(c, st) => orbind (Some (m_op o t st)) (fun st => Some (Ok (c, st)))))) = Some r.
  by apply: orbind_mono => // _ w0; apply: orbind_mono => // c1 w; apply: orbind_mono => [w1|[c2 st2] w1] //; exact: IH.
case: k => [||sv|||sv||sv||sv]; rewrite /pbody; try exact: Bk.
- case: (c_tok c) => [||[]] //.
  by apply: orbind_mono => // c1 w; apply: orbind_mono => [w1|[c2 st2] w1] //; exact: IH.
- case: (c_tok c) => [||[]] //.
  apply: orbind_mono => // sv1 w0; apply: orbind_mono => // c1 w; apply: orbind_mono => [w1|[c2 st2] w1]; first exact: IH.
  by apply: orbind_mono => // st3 w2; exact: IH.
- case: (c_tok c) => [||[]]; try exact: IH; exact: Bu.
- case: (c_tok c) => [||[]] //; exact: B.
- case: (c_tok c) => [||[]] //; exact: B.
case: (c_tok c) => [||[]] //; exact: B.
Qed.
Lemma parseS n : parse o n.+1 = pbody o (parse o n). Proof. by []. Qed.
Lemma parse_S n k c st r : parse o n k c st = Some r -> parse o n.+1 k c st = Some r.
Proof. by elim: n k c st r => [|n IH] k c st r //; rewrite 2!parseS; exact: body_mono. Qed.
Lemma parse_le n m k c st r : n <= m -> parse o n k c st = Some r -> parse o m k c st = Some r.
Proof. by move=> /subnK <- h; elim: (m - n) => [|d IH] //; rewrite addSn; exact: parse_S. Qed.

Definition follow (k : cat) (l : list string) : Prop :=
  match l with [] => True | s :: _ => exists t, sp s t /\ lv k <= olv t end.
Lemma follow_le k k' l : lv k' <= lv k -> follow k l -> follow k' l.
Proof. by case: l => [|s l] //= h [t [h1 h2]]; exists t; split=> //; exact: leq_trans h2. Qed.
Lemma bin_lv k t : bin_op k t -> olv t = lv k.
Proof. by case: k => //=; [move=> ->|case=> [->|->]|case=> [->|->]]. Qed.
Lemma op_lv k : is_bin k -> lv (operand k) < lv k.
Proof. by case=> [->|[->|->]]. Qed.
Lemma bin_is k t : bin_op k t -> is_bin k. Proof. by rewrite /is_bin; case: k => //=; tauto. Qed.
Lemma der_size k w a : der k w a -> 0 < size w.
Proof. by elim=> // *; rewrite size_cat addnS. Qed.
Lemma der_lv k w a : der k w a -> root_lv a <= lv k.
Proof.
elim=> //=; first by move=> w0 a0 _ h; exact: leq_trans h _.
- by move=> w0 a0 _ h; exact: leq_trans h _.
- by move=> k0 w0 a0 h _ h2; apply: leq_trans h2 _; apply: ltnW; exact: op_lv.
by move=> k0 w0 s t w' a0 b h _ _ _ _ _; rewrite (bin_lv h).
Qed.

Definition bnt (k : cat) : @nt Sv := match k with cP => nP | cU => nU | cF => nF | cT => nT | cE => nE | cQ => nQ end.
Definition bnt' (k : cat) (sv : Sv) : @nt Sv := match k with cU => nU' sv | cT => nT' sv | cE => nE' sv | cQ => nQ' sv | _ => nP end.
Definition loops (k : cat) : bool := match k with cP | cF => false | _ => true end.
Definition svk (k : cat) (a : ast) (sv : Sv) : Sv := if root_lv a == lv k then sv else m_sv0 o.
Definition cont (k : cat) (c : ctx) st sv (r : res_t) : Prop := if loops k then runs (bnt' k sv) c st r else r = Ok (c, st).
Definition comp k w a := forall rest n x st (r : res_t), follow k rest ->
  (match exec (0 < n) a x st with Ok (x', st', sv) => cont k (nxt rest x' n) st' (svk k a sv) r | e => r = fail e end) ->
  lruns (bnt k) (w ++ rest) x n st r.

Lemma lx_nxt k rest n x t : follow k rest -> lexan o (mkctx rest t x n) = Ok (nxt rest x n).
Proof. by case: rest => [|s l] //= [u [/spP e _]]; rewrite /lexan /nxt /= e. Qed.
Lemma lx_op s l n x t : sp s t -> lx (s :: l) x n = Ok (mkctx l (TOp t) x n).
Proof. by move=> /spP e; rewrite /lx /lexan /= e. Qed.
Lemma nxt_op s l n x t : sp s t -> nxt (s :: l) x n = mkctx l (TOp t) x n.
Proof. by move=> /spP e; rewrite /nxt e. Qed.

Definition bin_opb (k : cat) (t : tok) : bool :=
  match k, t with
  | cT, L_MUL | cE, (L_PLUS | L_MINUS) | cQ, (L_EQ | L_NE) => true
  | _, _ => false
  end.
Lemma bin_opP k t : reflect (bin_op k t) (bin_opb k t).
Proof. by apply: (iffP idP); case: k => //=; case: t => //=; do ?[case=> //]; tauto. Qed.
Lemma body_up f k c st : is_bin k -> pbody o f (bnt k) c st = orbind (f (bnt (operand k)) c st) (fun '(c, st) => f (bnt' k (m_sv0 o)) c st).
Proof. by case=> [->|[->|->]]. Qed.
Lemma body_loop f k sv c st : is_bin k -> pbody o f (bnt' k sv) c st =
  match c_tok c with
  | TOp t => if bin_opb k t then orbind (Some (m_save o sv (c_atom c))) (fun sv => orbind (Some (lexan o c)) (fun c =>
      orbind (f (bnt (operand k)) c st) (fun '(c, st) => orbind (Some (m_op o t st)) (fun st => f (bnt' k sv) c st)))) else Some (Ok (c, st))
  | _ => Some (Ok (c, st))
  end.
Proof. by case=> [->|[->|->]] /=; case: (c_tok c) => // -[]. Qed.
Lemma body_un f u t c st : prefix_op u t -> c_tok c = TOp u -> pbody o f nF c st =
  orbind (Some (m_save o (m_sv0 o) (c_atom c))) (fun _ => orbind (Some (lexan o c)) (fun c =>
    orbind (f nU c st) (fun '(c, st) => orbind (Some (m_op o t st)) (fun st => Some (Ok (c, st)))))).
Proof.
move=> h e; rewrite /pbody e; case: h => [[-> ->] //|[[-> ->] //|[<-]]].
by case: (u) => //= h; exfalso; move: h; clear; intuition discriminate.
Qed.

Definition mono (f : nat -> ctx -> St -> option res_t) : Prop :=
  forall N M c st r, N <= M -> f N c st = Some r -> f M c st = Some r.
Lemma parse_mono k : mono (fun N => parse o N k).
Proof. by move=> N M c st r; exact: parse_le. Qed.
Lemma lr_bind k l x n st v f r : mono f -> lruns k l x n st v ->
  (match v with Ok p => exists N, f N p.1 p.2 = Some r | _ => r = fail v end) ->
  exists N, orbind (Some (lx l x n)) (fun c => orbind (parse o N k c st) (fun '(c, st) => f N c st)) = Some r.
Proof.
move=> mf [N]; case e : (lx l x n) => [c|||] /= h; try by case: h => <- ->; exists 0.
case: v h => [[c1 st1]|||] h; try by move=> ->; exists N; rewrite h.
case=> M hM; exists (maxn N M); rewrite (parse_le (leq_maxl N M) h) /=.
by apply: mf hM; exact: leq_maxr.
Qed.
Lemma head_tok k w a rest : der k w a -> k = cP \/ k = cU -> exists s l, w ++ rest = s :: l /\ (m_lex o s = None \/ m_lex o s = Some L_LPAREN).
Proof.
move=> d; elim: d rest => //=.
- by move=> s /nospell h rest _; exists s, rest; split=> //; left.
- by move=> l w0 r a0 /spP h _ _ _ rest _; exists l, ((w0 ++ [r]) ++ rest); split=> //; right.
- by move=> w0 a0 _ IH rest _; apply: IH; left.
- by move=> w0 s w' a0 b _ IH _ _ _ rest _; rewrite -catA; apply: IH; right.
- by move=> w0 a0 _ _ rest [].
- by move=> s u t w0 a0 _ _ _ _ rest [].
- by move=> k0 w0 a0 h _ _ rest h2; move: h; case: h2 => ->; case=> [|[|]].
by move=> k0 w0 s t w' a0 b h _ _ _ _ _ rest h2; move: h; case: h2 => ->.
Qed.
Lemma stop k rest n x st : follow k rest -> (forall k' sv, loops k' -> lv k' < lv k -> runs (bnt' k' sv) (nxt rest x n) st (Ok (nxt rest x n, st))).
Proof.
move=> hf k' sv hl hlt; exists 1; case: rest hf => [|s l]; first by case: k' hl hlt.
by case=> t [h1 h2]; rewrite (nxt_op _ _ _ h1); case: k' hl hlt => //= _ h; case: t h1 h2 => //= h1 h2; move: (leq_trans h h2).
Qed.
Definition rv (k : cat) (rest : list string) n (e : res (At * St * Sv)) : res_t :=
  match e with Ok (x, st, _) => Ok (nxt rest x n, st) | e => fail e end.

Local Arguments nxt : simpl never.
Lemma compl k w a : der k w a -> comp k w a.
Proof.
have pwE n : (0 <? n)%coq_nat = (0 < n) by case: n.
elim=> {k w a}.
- move=> s /nospell h rest n x st r hf hr; rewrite /lruns /lx /lexan /= h /= pwE.
  move: hr; rewrite [exec _ _ _ _]/=; set sc := if _ then _ else _; case: sc => [y|||] /=; try by move=> ->; exists 1.
  case e : (m_push o y st) => [st1|||] /=; try by move=> ->; exists 1 => /=; rewrite e.
  by rewrite /cont /= => ->; exists 1 => /=; rewrite e /= (lx_nxt _ _ _ hf).
- move=> l w r0 a hl d IH hr0 rest n x st r hf hr; rewrite /lruns /= -catA (lx_op _ _ _ hl) /=.
  have hf' : follow cE (r0 :: rest) by exists L_RPAREN.
  set v : res_t := rv cE (r0 :: rest) n (exec (0 < n) a x st).
  have H : lruns nE (w ++ r0 :: rest) x n st v.
    apply: IH => //; rewrite /v /rv; case: (exec _ _ _ _) => // -[[y st1] sv]; rewrite /cont /=.
    by exists 1; rewrite (nxt_op _ _ _ hr0).
  have [||N hN] := lr_bind (f := fun _ c st => orbind (Some (match_rparen o c)) (fun c => Some (Ok (c, st)))) (r := r) _ H.
  + by [].
  + move: hr; rewrite /v /rv [exec _ (APar _) _ _]/=; case: (exec _ _ _ _) => // -[[y st1] sv]; rewrite /cont /= => ->; exists 0.
    by rewrite (nxt_op _ _ _ hr0) /match_rparen /= (lx_nxt _ _ _ hf).
  by exists N.+1.
- move=> w a d IH rest n x st r hf hr.
  set v : res_t := rv cP rest n (exec (0 < n) a x st).
  have H : lruns nP (w ++ rest) x n st v.
    by apply: IH; [exact: follow_le hf|rewrite /v /rv; case: (exec _ _ _ _) => // -[[]]].
  have [||N hN] := lr_bind (f := fun N => parse o N (nU' (m_sv0 o))) (r := r) _ H; first exact: parse_mono.
    move: hr; rewrite /v /rv; case: (exec _ _ _ _) => // -[[y st1] sv]; rewrite /cont /= /svk.
    by have := der_lv d; rewrite leqn0 => /eqP -> /=.
  by exists N.+1.
- move=> w s w' a b da IHa hs db IHb rest n x st r hf hr; rewrite -catA cat_cons.
  apply: IHa; first by exists L_EXP.
  move: hr; rewrite [exec _ (APow _ _) _ _]/=; case ea : (exec _ a x st) => [[[y st1] sv1]|||] //; rewrite bind_ok => hr.
  rewrite /cont /= (nxt_op _ _ _ hs).
  move: hr; rewrite -[root_lv a == 1]/(root_lv a == lv cU) -/(svk cU a sv1).
  case es : (m_save o _ y) => [sv2|||] /= hr; try by exists 1; rewrite hr /= es.
  set v : res_t := rv cP rest n.+1 (exec true b y st1).
  have H : lruns nP (w' ++ rest) y n.+1 st1 v.
    by apply: IHb; [exact: follow_le hf|rewrite /v /rv; case: (exec _ _ _ _) => // -[[]]].
  have [||N hN] := lr_bind (f := fun N c st => orbind (Some (m_op o L_EXP st)) (fun st => parse o N (nU' sv2) (pow_dec c) st)) (r := r) _ H.
  + move=> N M c1 st2 r1 hNM; apply: orbind_mono => // st3 w2; exact: parse_le.
  + move: hr; rewrite /v /rv; case: (exec true b y st1) => [[[z st2] sv3]|||] //; rewrite bind_ok => hr.
    rewrite [(_, _).1]/= [(_, _).2]/=; move: hr.
    case: (m_op o L_EXP st2) => [st3|||] /= hr; try by exists 0; rewrite hr.
    have -> : pow_dec (nxt rest z n.+1) = nxt rest z n.
      by rewrite /pow_dec /nxt; case: (rest) hf => [|s1 l1] /=; rewrite ?Nat.sub_0_r // => -[u [/spP -> _]] /=; rewrite ?Nat.sub_0_r.
    exact: hr.
  by exists N.+1; rewrite /= es.
- move=> w a d IH rest n x st r hf hr.
  have H : lruns nU (w ++ rest) x n st r.
    apply: IH; first exact: follow_le hf.
    by case: (exec _ _ _ _) hr => // -[[y st1] sv]; rewrite /cont /= => ->; apply: (stop _ _ _ hf (k' := cU)).
  case: H => N hN; exists N.+1; rewrite parseS.
  have [s [l [e1 e2]]] := head_tok rest d (or_intror erefl).
  move: hN; rewrite e1 /lx /lexan /=; case: e2 => -> //.
  by case: (if _ then _ else _).
- move=> s u t w a hs hp d IH rest n x st r hf hr; rewrite /lruns cat_cons (lx_op _ _ _ hs) /=.
  move: hr; rewrite [exec _ (AUn t a) _ _]/=.
  case es : (m_save o _ x) => [sv2|||] /= hr; try by exists 1; rewrite parseS (body_un _ _ hp) //= es hr.
  set v : res_t := rv cU rest n (exec (0 < n) a x st).
  have H : lruns nU (w ++ rest) x n st v.
    apply: IH; first exact: follow_le hf.
    by rewrite /v /rv; case: (exec _ a _ _) => // -[[y st1] sv]; apply: (stop _ _ _ hf (k' := cU)).
  have [||N hN] := lr_bind (f := fun _ c st => orbind (Some (m_op o t st)) (fun st => Some (Ok (c, st)))) (r := r) _ H.
  + by [].
  + move: hr; rewrite /v /rv; case: (exec _ a _ _) => [[[y st1] sv]|||] //; rewrite bind_ok [(_, _).1]/= [(_, _).2]/=.
    by case: (m_op o t st1) => [st2|||] /= ->; exists 0.
  by exists N.+1; rewrite parseS (body_un _ _ hp) //= es.
- move=> k w a hk d IH rest n x st r hf hr.
  set v : res_t := rv k rest n (exec (0 < n) a x st).
  have H : lruns (bnt (operand k)) (w ++ rest) x n st v.
    apply: IH; first by apply: follow_le hf; apply: ltnW; exact: op_lv.
    rewrite /v /rv; case: (exec _ a _ _) => // -[[y st1] sv]; rewrite /cont; case: ifP => // hl.
    by apply: (stop _ _ _ hf) => //; exact: op_lv.
  have [||N hN] := lr_bind (f := fun N => parse o N (bnt' k (m_sv0 o))) (r := r) _ H; first exact: parse_mono.
    move: hr; rewrite /v /rv; case: (exec _ _ _ _) => // -[[y st1] sv]; rewrite /cont /svk.
    have -> : (root_lv a == lv k) = false by apply: negbTE; rewrite neq_ltn (leq_ltn_trans (der_lv d) (op_lv hk)).
    by case: hk => [->|[->|->]].
  by exists N.+1; rewrite parseS; move: hN; case: (lx _ _ _) => // c; rewrite /= body_up.
move=> k w s t w' a b hk da IHa hs db IHb rest n x st r hf hr; rewrite -catA cat_cons.
have kb := bin_is hk.
apply: IHa; first by exists t; rewrite (bin_lv hk).
move: hr; rewrite [exec _ (ABin _ _ _) _ _]/=; case ea : (exec _ a x st) => [[[y st1] sv1]|||] //; rewrite bind_ok => hr.
rewrite /cont (_ : loops k); last by case: kb => [->|[->|->]].
rewrite (nxt_op _ _ _ hs).
move: hr; rewrite (bin_lv hk) -/(svk k a sv1).
case es : (m_save o _ y) => [sv2|||] /= hr; try by exists 1; rewrite parseS body_loop //= (introT (bin_opP _ _) hk) hr /= es.
set v : res_t := rv k rest n (exec (0 < n) b y st1).
have H : lruns (bnt (operand k)) (w' ++ rest) y n st1 v.
  apply: IHb; first by apply: follow_le hf; apply: ltnW; exact: op_lv.
  rewrite /v /rv; case: (exec _ b _ _) => // -[[z st2] sv]; rewrite /cont; case: ifP => // hl.
  by apply: (stop _ _ _ hf) => //; exact: op_lv.
have [||N hN] := lr_bind (f := fun N c st => orbind (Some (m_op o t st)) (fun st => parse o N (bnt' k sv2) c st)) (r := r) _ H.
- move=> N M c1 st2 r1 hNM; apply: orbind_mono => // st3 w2; exact: parse_le.
- move: hr; rewrite /v /rv; case: (exec _ b _ _) => [[[z st2] sv3]|||] //; rewrite bind_ok => hr.
  rewrite [(_, _).1]/= [(_, _).2]/=.
  case: (m_op o t st2) hr => [st3|||] /= hr; try by exists 0; rewrite hr.
  by move: hr; rewrite /cont /svk /= (bin_lv hk) eqxx; case: kb => [->|[->|->]].
by exists N.+1; rewrite parseS body_loop //= (introT (bin_opP _ _) hk) es.
Qed.
End S.

Lemma vspP s t : vspells s t <-> vec_lex_op s = Some t.
Proof.
split.
  by rewrite /vspells /=; do 12!(case; [by case=> <- <-|]).
rewrite /vec_lex_op; do 12?(case: (String.eqb_spec s _) => [->|_]; [by case=> <-; rewrite /vspells /=; tauto|]).
by [].
Qed.
Lemma mspP s t : mspells s t <-> mat_lex_op s = Some t.
Proof.
split.
  by rewrite /mspells /=; do 22!(case; [by case=> <- <-|]).
rewrite /mat_lex_op; case e : (vec_lex_op s) => [u|].
  by case=> <-; move/vspP: e; rewrite /mspells /mat_spelling => h; apply: List.in_or_app; left.
do 10?(case: (String.eqb_spec s _) => [->|_]; [by case=> <-; rewrite /mspells /=; tauto|]).
by [].
Qed.
