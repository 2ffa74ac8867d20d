(* Every expression of the grammar is parsed and evaluated. *)
From Verif Require Import Base MCli.
From mathcomp Require Import all_ssreflect ssrZ.
From Verif Require Import PCli.
Set Implicit Arguments.
Unset Strict Implicit.
Unset Printing Implicit Defensive.
Import ListNotations.

Definition lv (k : cat) : nat := match k with cP => 0 | cU => 1 | cF => 2 | cT => 3 | cE => 4 | cC => 5 | cQ => 6 end.
Definition olv (t : tok) : nat :=
  match t with
  | L_EXP => 1
  | L_MUL | L_DIV | L_MOD => 3
  | L_PLUS | L_MINUS => 4
  | L_LT | L_LE | L_GT | L_GE => 5
  | L_EQ | L_NE => 6
  | _ => 7
  end.
Definition follow (k : cat) (l : list string) : Prop :=
  match l with [] => True | s :: _ => exists t, spells s t /\ lv k <= olv t end.
Lemma follow_le k k' l : lv k' <= lv k -> follow k l -> follow k' l.
Proof. by case: l => [|s l] //= h [t [h1 h2]]; exists t; split=> //; exact: leq_trans h2. Qed.
Lemma bin_lv k t : bin_op k t -> olv t = lv k.
Proof. by case: k => //=; [case=> [->|[->|->]]|case=> [->|->]|case=> [->|[->|[->|->]]]|case=> [->|->]]. Qed.
Lemma op_lv k : is_bin k -> lv (operand k) < lv k.
Proof. by case=> [->|[->|[->|->]]]. Qed.
Lemma bin_is k t : bin_op k t -> is_bin k. Proof. by rewrite /is_bin; case: k => //=; tauto. Qed.
Lemma der_size k w a : der k w a -> 0 < size w.
Proof. by elim=> // *; rewrite size_cat addnS. Qed.

Section S.
Context {A : Type} (o : eops A).
Local Notation atom := (@atom A).
Local Notation ctx := (@ctx A).
Local Notation res_t := (res (ctx * list atom)).
Local Notation ev := (ev o).
Local Notation runs := (runs o).
Local Notation lruns := (lruns o).
Local Notation lx := (lx o).
Local Notation parse := (parse o).
Local Notation nxt := (@nxt A).
Local Arguments PCli.nxt : simpl never.

Definition bnt (k : cat) : nt := match k with cP => nP | cU => nU | cF => nF | cT => nT | cE => nE | cC => nC | cQ => nQ end.
Definition bnt' (k : cat) : nt := match k with cU => nU' | cT => nT' | cE => nE' | cC => nC' | cQ => nQ' | _ => nP end.
Definition loops (k : cat) : bool := match k with cP | cF => false | _ => true end.
Definition cont (k : cat) (c : ctx) st (r : res_t) : Prop := if loops k then runs (bnt' k) c st r else r = Ok (c, st).
Definition comp k w a := forall rest n st (r : res_t), follow k rest ->
  (match ev (0 < n) a with Ok x => cont k (nxt rest n) (x :: st) r | e => r = fail e end) -> lruns (bnt k) (w ++ rest) n st r.

Lemma lx_nxt k rest n t : follow k rest -> lexan o (mkctx rest t n) = Ok (nxt rest n).
Proof. by case: rest => [|s l] //= [u [/spellsP e _]]; rewrite /lexan /PCli.nxt /= e. Qed.
Lemma lx_tok l n t : lexan o (mkctx l t n) = lx l n. Proof. by []. Qed.
Lemma lx_op s l n t : spells s t -> lx (s :: l) n = Ok (mkctx l (TOp t) n).
Proof. by move=> /spellsP e; rewrite /PCli.lx /lexan /= e. Qed.
Lemma nxt_op s l n t : spells s t -> nxt (s :: l) n = mkctx l (TOp t) n.
Proof. by move=> /spellsP e; rewrite /PCli.nxt e. Qed.

(* bodies of the binary levels *)
Definition bin_opb (k : cat) (t : tok) : bool :=
  match k, t with
  | cT, (L_MUL | L_DIV | L_MOD) | cE, (L_PLUS | L_MINUS) | cC, (L_LT | L_LE | L_GT | L_GE) | cQ, (L_EQ | L_NE) => true
  | _, _ => false
  end.
Lemma bin_opP k t : reflect (bin_op k t) (bin_opb k t).
Proof. by apply: (iffP idP); case: k => //=; case: t => //=; do ?[case=> //]; tauto. Qed.
Lemma body_up f k c st : is_bin k -> pbody o f (bnt k) c st = orbind (f (bnt (operand k)) c st) (fun '(c, st) => f (bnt' k) c st).
Proof. by case=> [->|[->|[->|->]]]. Qed.
Lemma body_loop f k c st : is_bin k -> pbody o f (bnt' k) c st =
  match c_tok c with
  | TOp t => if bin_opb k t then orbind (Some (lexan o c)) (fun c => orbind (f (bnt (operand k)) c st) (fun '(c, st) =>
      orbind (Some (emit o t st)) (fun st => f (bnt' k) c st))) else Some (Ok (c, st))
  | _ => Some (Ok (c, st))
  end.
Proof. by case=> [->|[->|[->|->]]] /=; case: (c_tok c) => // -[]. Qed.
Lemma emit_bin k t x y st : bin_op k t -> emit o t (y :: x :: st) = (c <- ev_bin o t x y ;; Ok (c :: st)).
Proof.
have B (r : res bool) : (c <- b2i r ;; Ok (c :: st)) = (c <- (c <- r ;; Ok (AI (Z.b2z c))) ;; Ok (c :: st)) :> res (list atom).
  by case: r => // -[].
case: k => //=; [case=> [->|[->|->]]|case=> [->|->]|case=> [->|[->|[->|->]]]|case=> [->|->]]; case: x => // a; case: y => // b;
  by rewrite /= /ev_bin ?B.
Qed.
Lemma emit_exp x y st : emit o L_EXP (y :: x :: st) =
  (c <- match x, y with AT a, AI i => c <- clo_exp o a i ;; Ok (AT c) | _, _ => Exn end ;; Ok (c :: st)).
Proof. by case: x => a; case: y => b. Qed.
Lemma emit_neg x st : emit o L_UMINUS (x :: st) =
  (c <- match x with AT a => c <- e_neg o a ;; Ok (AT c) | AI _ => Exn end ;; Ok (c :: st)).
Proof. by case: x. Qed.

Definition mono (f : nat -> ctx -> list atom -> option res_t) : Prop :=
  forall N M c st r, N <= M -> f N c st = Some r -> f M c st = Some r.
Lemma parse_mono k : mono (fun N => parse N k).
Proof. by move=> N M c st r; exact: parse_le. Qed.
Lemma lr_bind k l n st v f r : mono f -> lruns k l n st v ->
  (match v with Ok p => exists N, f N p.1 p.2 = Some r | _ => r = fail v end) ->
  exists N, orbind (Some (lx l n)) (fun c => orbind (parse N k c st) (fun '(c, st) => f N c st)) = Some r.
Proof.
move=> mf [N]; case e : (lx l n) => [c|||] /= h; try by case: h => <- ->; exists 0.
case: v h => [[c1 st1]|||] h; try by move=> ->; exists N; rewrite h.
case=> M hM; exists (maxn N M); rewrite (parse_le (leq_maxl N M) h) /=.
by apply: mf hM; exact: leq_maxr.
Qed.
Lemma lruns_fail k l n st v (r : res_t) : lruns k l n st r -> ~~ isok r -> r = v -> lruns k l n st v.
Proof. by move=> h _ <-. Qed.
Lemma head_tok k w a rest : der k w a -> k = cP \/ k = cU -> exists s l, w ++ rest = s :: l /\ (lex_op s = None \/ lex_op s = Some L_LPAREN).
Proof.
move=> d; elim: d rest => //=.
- by move=> s /nospell h rest _; exists s, rest; split=> //; left.
- by move=> l w0 r a0 /spellsP h _ _ _ rest _; exists l, ((w0 ++ [r]) ++ rest); split=> //; right.
- by move=> w0 a0 _ IH rest _; apply: IH; left.
- by move=> w0 s w' a0 b _ IH _ _ _ rest _; rewrite -catA; apply: IH; right.
- by move=> w0 a0 _ _ rest [].
- by move=> s w0 a0 _ _ _ rest [].
- by move=> s w0 a0 _ _ _ rest [].
- by move=> k0 w0 a0 h _ _ rest h2; move: h; case: h2 => ->; case=> [|[|[]]].
by move=> k0 w0 s t w' a0 b h _ _ _ _ _ rest h2; move: h; case: h2 => ->.
Qed.

Lemma stop k rest n st : follow k rest -> (forall k', loops k' -> lv k' < lv k -> runs (bnt' k') (nxt rest n) st (Ok (nxt rest n, st))).
Proof.
move=> hf k' hl hlt; exists 1; case: rest hf => [|s l]; first by case: k' hl hlt.
by case=> t [h1 h2]; rewrite (nxt_op _ _ h1); case: k' hl hlt => //= _ h; case: t h1 h2 => //= h1 h2; move: (leq_trans h h2).
Qed.

Lemma compl k w a : der k w a -> comp k w a.
Proof.
elim=> {k w a}.
- move=> s /nospell h rest n st r hf hr; rewrite /PCli.lruns /PCli.lx /lexan /= h /=.
  case e : (ev (0 < n) (ANum s)) hr => [x|||] hr; rewrite [ev _ _]/= in e.
  + exists 1; rewrite (_ : (0 <? n) = (0 < n)); last by case: (n).
    by rewrite e /= (lx_nxt _ _ hf) /= hr.
  + by exists 1; rewrite (_ : (0 <? n) = (0 < n)) ?e ?hr //; case: (n).
  + by exists 1; rewrite (_ : (0 <? n) = (0 < n)) ?e ?hr //; case: (n).
  by exists 1; rewrite (_ : (0 <? n) = (0 < n)) ?e ?hr //; case: (n).
- move=> l w r0 a hl d IH hr0 rest n st r hf hr; rewrite /PCli.lruns /= -catA (lx_op _ _ hl) /=.
  have hf' : follow cE (r0 :: rest) by exists L_RPAREN.
  set v : res_t := match ev (0 < n) a with Ok x => Ok (nxt (r0 :: rest) n, x :: st) | e => fail e end.
  have H : lruns nE (w ++ r0 :: rest) n st v.
    apply: IH => //; rewrite /v; case: (ev _ _) => // x; rewrite /cont /=.
    by exists 1; rewrite (nxt_op _ _ hr0).
  have [||N hN] := lr_bind (f := fun _ c st => orbind (Some (match_rparen o c)) (fun c => Some (Ok (c, st)))) (r := r) _ H.
  + by [].
  + move: hr; rewrite /v; case: (ev _ _) => // x; rewrite /cont /= => ->; exists 0.
    by rewrite (nxt_op _ _ hr0) /match_rparen /= (lx_nxt _ _ hf).
  by exists N.+1.
- move=> w a d IH rest n st r hf hr.
  set v : res_t := match ev (0 < n) a with Ok x => Ok (nxt rest n, x :: st) | e => fail e end.
  have H : lruns nP (w ++ rest) n st v.
    by apply: IH; [exact: follow_le hf|rewrite /v; case: (ev _ _)].
  have [||N hN] := lr_bind (f := fun N => parse N nU') (r := r) _ H; first exact: parse_mono.
    by move: hr; rewrite /v; case: (ev _ _).
  by exists N.+1.
- move=> w s w' a b da IHa hs db IHb rest n st r hf hr; rewrite -catA cat_cons.
  apply: IHa; first by exists L_EXP.
  move: hr; rewrite [ev _ (APow _ _)]/=; case ea : (ev _ a) => [x|||] //; rewrite bind_ok => hr.
  rewrite /cont /= (nxt_op _ _ hs).
  set v : res_t := match ev true b with Ok y => Ok (nxt rest n.+1, y :: x :: st) | e => fail e end.
  have H : lruns nP (w' ++ rest) n.+1 (x :: st) v.
    by apply: IHb; [exact: follow_le hf|rewrite /v; case: (ev _ _)].
  have [||N hN] := lr_bind (f := fun N c st => orbind (Some (emit o L_EXP st)) (fun st => parse N nU' (pow_dec c) st)) (r := r) _ H.
  + move=> N M c1 st1 r1 hNM; apply: orbind_mono => // st2 w2; exact: parse_le.
  + move: hr; rewrite /v; case: (ev true b) => [y|||] //; rewrite bind_ok => hr.
    rewrite [(_, _).1]/= [(_, _).2]/= emit_exp; move: hr; set m := match x with AT _ => _ | _ => _ end.
    case: m => [z|||] /= hr; try by exists 0; rewrite hr.
    have -> : pow_dec (nxt rest n.+1) = nxt rest n.
      by rewrite /pow_dec /PCli.nxt; case: (rest) hf => [|s1 l1] /=; rewrite ?Nat.sub_0_r // => -[u [/spellsP -> _]] /=; rewrite ?Nat.sub_0_r.
    exact: hr.
  by exists N.+1.
- move=> w a d IH rest n st r hf hr.
  have H : lruns nU (w ++ rest) n st r.
    apply: IH; first exact: follow_le hf.
    by case: (ev _ _) hr => // x; rewrite /cont /= => ->; apply: (stop _ _ hf (k' := cU)).
  case: H => N hN; exists N.+1; rewrite parseS.
  have [s [l [e1 e2]]] := head_tok rest d (or_intror erefl).
  move: hN; rewrite e1 /PCli.lx /lexan /=; case: e2 => -> //.
  by case: (if _ then _ else _).
- move=> s w a hs d IH rest n st r hf hr; rewrite /PCli.lruns cat_cons (lx_op _ _ hs) /=.
  have H : lruns nU (w ++ rest) n st r.
    apply: IH; first exact: follow_le hf.
    by move: hr; rewrite [ev _ (APos a)]/=; case: (ev _ a) => // x; rewrite /cont /= => ->; apply: (stop _ _ hf (k' := cU)).
  have [||N hN] := lr_bind (f := fun _ c st => orbind (Some (emit o L_UPLUS st)) (fun st => Some (Ok (c, st)))) (r := r) _ H.
  + by [].
  + by case: (r) => // -[c1 st1]; exists 0.
  by exists N.+1.
- move=> s w a hs d IH rest n st r hf hr; rewrite /PCli.lruns cat_cons (lx_op _ _ hs) /=.
  set v : res_t := match ev (0 < n) a with Ok x => Ok (nxt rest n, x :: st) | e => fail e end.
  have H : lruns nU (w ++ rest) n st v.
    apply: IH; first exact: follow_le hf.
    by rewrite /v; case: (ev _ a) => // x; apply: (stop _ _ hf (k' := cU)).
  have [||N hN] := lr_bind (f := fun _ c st => orbind (Some (emit o L_UMINUS st)) (fun st => Some (Ok (c, st)))) (r := r) _ H.
  + by [].
  + move: hr; rewrite /v [ev _ (ANeg a)]/=; case: (ev _ a) => [x|||] //; rewrite bind_ok [(_, _).1]/= [(_, _).2]/= emit_neg.
    by case: (match x with AT _ => _ | _ => _ end) => [z|||] /= ->; exists 0.
  by exists N.+1.
- move=> k w a hk d IH rest n st r hf hr.
  set v : res_t := match ev (0 < n) a with Ok x => Ok (nxt rest n, x :: st) | e => fail e end.
  have H : lruns (bnt (operand k)) (w ++ rest) n st v.
    apply: IH; first by apply: follow_le hf; apply: ltnW; exact: op_lv.
    rewrite /v; case: (ev _ a) => // x; rewrite /cont; case: ifP => // hl.
    by apply: (stop _ _ hf) => //; exact: op_lv.
  have [||N hN] := lr_bind (f := fun N => parse N (bnt' k)) (r := r) _ H; first exact: parse_mono.
    by move: hr; rewrite /v; case: (ev _ _) => // x; rewrite /cont; case: hk => [->|[->|[->|->]]].
  by exists N.+1; rewrite parseS; move: hN; case: (lx _ _) => // c; rewrite /= body_up.
move=> k w s t w' a b hk da IHa hs db IHb rest n st r hf hr; rewrite -catA cat_cons.
have kb := bin_is hk.
apply: IHa; first by exists t; rewrite (bin_lv hk).
move: hr; rewrite [ev _ (ABin _ _ _)]/=; case ea : (ev _ a) => [x|||] //; rewrite bind_ok => hr.
rewrite /cont (_ : loops k); last by case: kb => [->|[->|[->|->]]].
rewrite (nxt_op _ _ hs).
set v : res_t := match ev (0 < n) b with Ok y => Ok (nxt rest n, y :: x :: st) | e => fail e end.
have H : lruns (bnt (operand k)) (w' ++ rest) n (x :: st) v.
  apply: IHb; first by apply: follow_le hf; apply: ltnW; exact: op_lv.
  rewrite /v; case: (ev _ b) => // y; rewrite /cont; case: ifP => // hl.
  by apply: (stop _ _ hf) => //; exact: op_lv.
have [||N hN] := lr_bind (f := fun N c st => orbind (Some (emit o t st)) (fun st => parse N (bnt' k) c st)) (r := r) _ H.
- move=> N M c1 st1 r1 hNM; apply: orbind_mono => // st2 w2; exact: parse_le.
- move: hr; rewrite /v; case: (ev _ b) => [y|||] //; rewrite bind_ok => hr.
  rewrite [(_, _).1]/= [(_, _).2]/= (emit_bin _ _ _ hk).
  case: (ev_bin o t x y) hr => [z|||] /= hr; try by exists 0; rewrite hr.
  by move: hr; rewrite /cont; case: kb => [->|[->|[->|->]]].
by exists N.+1; rewrite parseS body_loop //= (_ : bin_opb k t) //; apply/bin_opP.
Qed.
End S.
