(* Nothing but the expressions of the grammar is accepted; the fuel suffices. *)
From Verif Require Import Base MIntmod MMat MMatCli.
From mathcomp Require Import all_ssreflect ssrZ.
From Verif Require Import PMatCli.
Set Implicit Arguments.
Unset Strict Implicit.
Unset Printing Implicit Defensive.
Import ListNotations.

Local Arguments orbind : simpl never.
(* returns with P, or throws *)
Definition ben {X} (P : X -> Prop) (r : res X) : Prop := match r with Ok x => P x | Exn => True | _ => False end.
Lemma ben_bind X Y (P : X -> Prop) (Q : Y -> Prop) (r : res X) (f : X -> res Y) : ben P r -> (forall x, P x -> ben Q (f x)) -> ben Q (x <- r ;; f x).
Proof. by case: r => [x|||] //= h; apply. Qed.

Section S.
Context {At St Sv : Type} (o : mach At St Sv) (sp : string -> tok -> Prop).
Hypothesis spP : forall s t, sp s t <-> m_lex o s = Some t.
Local Notation ctx := (@ctx At).
Local Notation res_t := (res (ctx * St)).
Local Notation der := (der sp).
Local Notation lx := (lx o).
Local Notation parse := (parse o).

(* c is the state in which the first string of l has been read *)
Definition atc (c : ctx) (l : list string) : Prop :=
  match c_tok c with
  | TEol => l = [] /\ c_rest c = []
  | TOp t => exists s, l = s :: c_rest c /\ sp s t
  | TNum => exists s, l = s :: c_rest c /\ forall t, ~ sp s t
  end.
Lemma atc_lex c c1 : lexan o c = Ok c1 -> atc c1 (c_rest c).
Proof.
rewrite /lexan; case: (c_rest c) => [[<-] //|s l]; case e : (m_lex o s) => [t|].
  by case=> <-; exists s; split=> //; apply/spP.
by case: (if _ then _ else _) => // a [<-]; exists s; split=> //; apply/(nospell spP).
Qed.
Lemma atc_pow c l : atc c l -> atc (pow_dec c) l. Proof. by []. Qed.

Definition sound_at (k : cat) (prime : bool) (l : list string) (c' : ctx) : Prop :=
  if prime then exists w rest, [/\ l = w ++ rest, forall w0 a0, der k w0 a0 -> exists a, der k (w0 ++ w) a & atc c' rest]
  else exists w rest a, [/\ l = w ++ rest, der k w a & atc c' rest].
Definition isbin (k : cat) : bool := match k with cT | cE | cQ => true | _ => false end.
Lemma isbinP k : isbin k -> is_bin k. Proof. by rewrite /is_bin; case: k => //; tauto. Qed.
Definition ntk (k : cat) (prime : option Sv) : @nt Sv := match prime with Some sv => bnt' k sv | None => bnt k end.
Definition okp (k : cat) (prime : option Sv) : bool := prime ==> loops k.

Lemma orbind_inv X Y (r : option (res X)) (f : X -> option (res Y)) v : orbind r f = Some (Ok v) -> exists x, r = Some (Ok x) /\ f x = Some (Ok v).
Proof. by case: r => [[x|||]|] //= h; exists x. Qed.
Definition untok (t : tok) : option tok :=
  match t with L_PLUS => Some L_UPLUS | L_MINUS => Some L_UMINUS | _ => if is_word t then Some t else None end.
Lemma untokP u t : untok u = Some t -> prefix_op u t.
Proof. by case: u => //= -[<-]; rewrite /prefix_op /=; tauto. Qed.
Lemma body_F f c st : pbody o f nF c st =
  match c_tok c with
  | TOp u => match untok u with
    | Some t => orbind (Some (m_save o (m_sv0 o) (c_atom c))) (fun _ => orbind (Some (lexan o c)) (fun c =>
        orbind (f nU c st) (fun '(c, st) => orbind (Some (m_op o t st)) (fun st => Some (Ok (c, st))))))
    | None => f nU c st
    end
  | _ => f nU c st
  end.
Proof. by rewrite /pbody; case: (c_tok c) => // -[]. Qed.

Lemma sound N k prime c st l c' st' : okp k prime -> atc c l -> parse N (ntk k prime) c st = Some (Ok (c', st')) -> sound_at k prime l c'.
Proof.
elim: N k prime c st l c' st' => [|N IH] k prime c st l c' st' // hk hat; rewrite parseS.
have triv : c' = c -> sound_at k true l c'.
  by move=> ->; exists [], l; split=> // w0 a0; rewrite cats0; exists a0.
case hb : (isbin k).
  have kb := isbinP hb.
  have hop : okp (operand k) None by [].
  case: prime hk => [sv|] hk; rewrite /ntk.
    rewrite body_loop //= => h.
    case et : (c_tok c) h => [||t] //; try by case=> u1 _; apply: triv; rewrite u1.
    case hbt : (bin_opb k t); last by case=> u1 u2; apply: triv; rewrite u1.
    move=> h0; have {h0} [sv1 [_ h0]] := orbind_inv h0; have {h0} [c1 [[e1] h0]] := orbind_inv h0.
    have {h0} [[c2 st2] [e2 h0]] := orbind_inv h0; have {h0} [st3 [[e3] e4]] := orbind_inv h0.
    have hbop : bin_op k t by apply/bin_opP.
    have [s [el hs]] : exists s, l = s :: c_rest c /\ sp s t by move: hat; rewrite /atc et.
    have [w [rest [b [h1 h2 h3]]]] := IH (operand k) None c1 st (c_rest c) c2 st2 hop (atc_lex e1) e2.
    have [w2 [rest2 [g1 g2 g3]]] := IH k (Some sv1) c2 st3 rest c' st' hk h3 e4.
    exists (s :: w ++ w2), rest2; split=> //; first by rewrite el h1 g1 /= catA.
    move=> w0 a0 d0; have [a d] := g2 _ _ (d_bin hbop d0 hs h2).
    by exists a; rewrite -cat_cons catA.
  rewrite body_up // => h0; have {h0} [[c2 st2] [e2 e4]] := orbind_inv h0.
  have [w [rest [b [h1 h2 h3]]]] := IH (operand k) None c st l c2 st2 hop hat e2.
  have hkt : okp k (Some (m_sv0 o)) by case: (k) hb.
  have [w2 [rest2 [g1 g2 g3]]] := IH k (Some (m_sv0 o)) c2 st2 rest c' st' hkt h3 e4.
  have [a d] := g2 _ _ (d_up kb h2).
  by exists (w ++ w2), rest2, a; split=> //; rewrite h1 g1 catA.
case: prime hk => [sv|] hk; case: k hb hk triv => // _ _ triv; rewrite /ntk /bnt /bnt' ?body_F /pbody.
- move=> h.
  case et : (c_tok c) h => [||[]]; try by case=> u1 _; apply: triv; rewrite u1.
  move=> h0; have {h0} [sv1 [_ h0]] := orbind_inv h0; have {h0} [c1 [[e1] h0]] := orbind_inv h0.
  have {h0} [[c2 st2] [e2 h0]] := orbind_inv h0; have {h0} [st3 [[e3] e4]] := orbind_inv h0.
  have [s [el hs]] : exists s, l = s :: c_rest c /\ sp s L_EXP by move: hat; rewrite /atc et.
  have [w [rest [b [h1 h2 h3]]]] := IH cP None c1 st (c_rest c) c2 st2 isT (atc_lex e1) e2.
  have [w2 [rest2 [g1 g2 g3]]] := IH cU (Some sv1) (pow_dec c2) st3 rest c' st' isT (atc_pow h3) e4.
  exists (s :: w ++ w2), rest2; split=> //; first by rewrite el h1 g1 /= catA.
  move=> w0 a0 d0; have [a d] := g2 _ _ (d_pow d0 hs h2).
  by exists a; rewrite -cat_cons catA.
- case et : (c_tok c) => [||[]] //.
    move=> h0; have {h0} [st1 [_ h0]] := orbind_inv h0; have {h0} [c1 [[e1] [<- _]]] := orbind_inv h0.
    have [s [el hs]] : exists s, l = s :: c_rest c /\ forall t, ~ sp s t by move: hat; rewrite /atc et.
    by exists [s], (c_rest c), (ANum s); split=> //; [exact: d_num|exact: atc_lex e1].
  move=> h0; have {h0} [c1 [[e1] h0]] := orbind_inv h0; have {h0} [[c2 st2] [e2 h0]] := orbind_inv h0; have {h0} [c3 [[e3] [<- _]]] := orbind_inv h0.
  have [s [el hs]] : exists s, l = s :: c_rest c /\ sp s L_LPAREN by move: hat; rewrite /atc et.
  have [w [rest [b [h1 h2 h3]]]] := IH cE None c1 st (c_rest c) c2 st2 isT (atc_lex e1) e2.
  move: e3; rewrite /match_rparen; case et2 : (c_tok c2) => [||[]] // e3.
  have [s2 [el2 hs2]] : exists s, rest = s :: c_rest c2 /\ sp s L_RPAREN by move: h3; rewrite /atc et2.
  exists (s :: w ++ [s2]), (c_rest c2), (APar b); split=> //.
  + by rewrite el h1 el2 /= -catA.
  + exact: d_par.
  exact: atc_lex e3.
- move=> h0; have {h0} [[c2 st2] [e2 e4]] := orbind_inv h0.
  have [w [rest [b [h1 h2 h3]]]] := IH cP None c st l c2 st2 isT hat e2.
  have [w2 [rest2 [g1 g2 g3]]] := IH cU (Some (m_sv0 o)) c2 st2 rest c' st' isT h3 e4.
  have [a d] := g2 _ _ (d_base h2).
  by exists (w ++ w2), rest2, a; split=> //; rewrite h1 g1 catA.
have dflt : parse N nU c st = Some (Ok (c', st')) -> sound_at cF false l c'.
  move=> e; have [w [rest [b [h1 h2 h3]]]] := IH cU None c st l c' st' isT hat e.
  by exists w, rest, b; split=> //; exact: d_fac.
case et : (c_tok c) => [||u]; try exact: dflt.
case eu : (untok u) => [t|]; last exact: dflt.
move=> h0; have {h0} [sv1 [_ h0]] := orbind_inv h0; have {h0} [c1 [[e1] h0]] := orbind_inv h0.
have {h0} [[c2 st2] [e2 h0]] := orbind_inv h0; have {h0} [st3 [_ [<- _]]] := orbind_inv h0.
have [s [el hs]] : exists s, l = s :: c_rest c /\ sp s u by move: hat; rewrite /atc et.
have [w [rest [b [h1 h2 h3]]]] := IH cU None c1 st (c_rest c) c2 st2 isT (atc_lex e1) e2.
by exists (s :: w), rest, (AUn t b); split=> //; [rewrite el h1|exact: d_un hs (untokP eu) h2].
Qed.

Section V.
(* invariants: of the words, of the atom, of a stack with n elements *)
Variables (W : string -> Prop) (Ia : At -> Prop) (I : nat -> St -> Prop).
Definition safe : Prop :=
  (forall s x, W s -> Ia x -> ben Ia (m_scan o s x) /\ ben Ia (m_scan_int o s x)) /\
  (forall x n st, Ia x -> I n st -> ben (I n.+1) (m_push o x st)) /\
  (forall t n st, List.In t [L_PLUS; L_MINUS; L_MUL; L_EXP; L_EQ; L_NE] -> I n.+2 st -> ben (I n.+1) (m_op o t st)) /\
  (forall u t n st, prefix_op u t -> I n.+1 st -> ben (I n.+1) (m_op o t st)) /\
  (forall sv x, Ia x -> ben (fun _ => True) (m_save o sv x)).
Definition cok (c : ctx) : Prop := Ia (c_atom c) /\ List.Forall W (c_rest c).
Lemma lexan_ben c : safe -> cok c -> ben cok (lexan o c).
Proof.
case=> [hs _] [ha hw]; rewrite /lexan; case: (c_rest c) hw => [|s l] // hw.
have [hl hr] : W s /\ List.Forall W l by inversion hw.
case: (m_lex o s) => // ; have [h1 h2] := hs s _ hl ha.
by apply: (@ben_bind _ _ Ia) => //; case: ifP => _.
Qed.

Definition rank (k : cat) (prime : bool) : nat := if prime then 8 else (lv k).+1.
Definition csok n (cs : ctx * St) : Prop := cok cs.1 /\ I n cs.2.
Definition goodp {X} (H : Prop) (P : X -> Prop) (r : option (res X)) : Prop := exists v, r = Some v /\ (H -> ben P v).
Definition good (H : Prop) n (r : option res_t) : Prop := goodp H (csok n) r.
Lemma good_ok (H : Prop) n x : (H -> csok n x) -> good H n (Some (Ok x)). Proof. by move=> h; exists (Ok x). Qed.
Lemma good_exn H n : good H n (Some Exn). Proof. by exists Exn. Qed.
Lemma good_bind X (H : Prop) n (P : X -> Prop) (r : option (res X)) f :
  goodp H P r -> (forall x, r = Some (Ok x) -> (H -> P x) -> good H n (f x)) -> good H n (orbind r f).
Proof.
case=> v [-> h] hf; case: v h hf => [x|||] h hf; first exact: hf.
- exact: good_exn.
- by exists UB; split=> // /h [].
by exists Div; split=> // /h [].
Qed.
Lemma good_imp (H H' : Prop) n r : (H -> H') -> good H' n r -> good H n r.
Proof. by move=> hh [v [-> h]]; exists v; split=> // /hh /h. Qed.
Lemma lv5 k : lv k <= 5. Proof. by case: k. Qed.
Definition pre n c st : Prop := [/\ safe, cok c & I n st].
Lemma total N k prime n c st l : okp k prime -> atc c l -> 8 * size l + rank k prime < N ->
  good (pre (if prime then n.+1 else n) c st) n.+1 (parse N (ntk k prime) c st).
Proof.
elim: N k prime n c st l => [|N IH] k prime n c st l // hk hat hN; rewrite parseS.
set H := pre _ c st.
have hH : H -> safe /\ cok c by case.
have lexp c1 : c_atom c1 = c_atom c /\ c_rest c1 = c_rest c -> goodp H cok (Some (lexan o c1)).
  by move=> [e e']; exists (lexan o c1); split=> // -[h1 h2 _]; apply: lexan_ben => //; rewrite /cok e e'.
have svp sv : goodp H (fun _ => True) (Some (m_save o sv (c_atom c))).
  by exists (m_save o sv (c_atom c)); split=> // -[[_ [_ [_ [_ h]]]] [h2 _] _]; exact: h.
have fuel1 k1 l1 : size l1 < size l -> 8 * size l1 + rank k1 false < N.
  by move=> h; rewrite /rank; have := lv5 k1; move: hN h; clear; lia.
have fuel2 k1 l1 : ~~ prime -> size l1 < size l -> 8 * size l1 + rank k1 true < N.
  by move=> hp h; move: hN h; rewrite /rank (negbTE hp); clear; lia.
have fuel3 k1 l1 : prime -> (size l1).+1 < size l -> 8 * size l1 + rank k1 true < N.
  by move=> hp h; move: hN h; rewrite /rank hp; clear; lia.
have fuel4 k1 : ~~ prime -> lv k1 < lv k -> 8 * size l + rank k1 false < N.
  by move=> hp h; move: hN h; rewrite /rank (negbTE hp); clear; lia.
have tk t : c_tok c = TOp t -> exists s, l = s :: c_rest c by move=> e; move: hat; rewrite /atc e => -[s [? _]]; exists s.
have opp t m st2 : List.In t [L_PLUS; L_MINUS; L_MUL; L_EXP; L_EQ; L_NE] -> (H -> I m.+2 st2) -> goodp H (I m.+1) (Some (m_op o t st2)).
  by move=> ht hi; exists (m_op o t st2); split=> // hh; have := hi hh; case: hh => -[_ [_ [h _]]] _ _; apply: h.
case hb : (isbin k).
  have kb := isbinP hb.
  have hkt sv : okp k (Some sv) by case: (k) hb.
  case: prime hk hN @H hH lexp svp fuel2 fuel3 fuel4 opp => [sv|] hk hN H hH lexp svp fuel2 fuel3 fuel4 opp; rewrite /ntk.
    have rtn : good H n.+1 (Some (Ok (c, st))) by apply: good_ok; case.
    rewrite body_loop //; case et : (c_tok c) => [||t] //; case hbt : (bin_opb k t) => //.
    have [s el] := tk _ et; have hbop : bin_op k t by apply/bin_opP.
    apply: (good_bind (svp _)) => sv1 _ _; apply: (good_bind (lexp c (conj erefl erefl))) => c1 [e1] hc1.
    have hat1 : atc c1 (c_rest c) by exact: (atc_lex e1).
    have g2 : good H n.+2 (parse N (ntk (operand k) None) c1 st).
      apply: (good_imp _ (IH (operand k) None n.+1 c1 st (c_rest c) _ _ _)) => //; last by apply: fuel1; rewrite el.
      by move=> hp; move: (hc1 hp); case: hp.
    apply: (good_bind g2) => -[c2 st2] e2 hc2.
    have [w [rest [b [h1 h2 h3]]]] := sound (isT : okp (operand k) None) hat1 e2.
    have ht : List.In t [L_PLUS; L_MINUS; L_MUL; L_EXP; L_EQ; L_NE].
      by case: (k) hbop => //=; [move=> ->|case=> ->|case=> ->]; tauto.
    apply: (good_bind (opp t n st2 ht _)); first by move=> hp; case: (hc2 hp).
    move=> st3 [e3] hs3.
    apply: (good_imp _ (IH k (Some sv1) n c2 st3 rest _ _ _)) => //.
    - by move=> hp; have [? _] := hc2 hp; have ? := hs3 hp; case: hp.
    by apply: fuel3 => //; rewrite el h1 /= size_cat; move: (der_size h2); clear; lia.
  rewrite body_up //.
  have g2 : good H n.+1 (parse N (ntk (operand k) None) c st).
    by apply: (IH (operand k) None n c st l) => //; apply: fuel4 => //; exact: op_lv.
  apply: (good_bind g2) => -[c2 st2] e2 hc2.
  have [w [rest [b [h1 h2 h3]]]] := sound (isT : okp (operand k) None) hat e2.
  apply: (good_imp _ (IH k (Some (m_sv0 o)) n c2 st2 rest _ _ _)) => //; first by move=> hp; have [? ?] := hc2 hp; case: hp.
  by apply: fuel2 => //; rewrite h1 size_cat; move: (der_size h2); clear; lia.
case: prime hk hN @H hH lexp svp fuel2 fuel3 fuel4 opp => [sv|] hk hN H hH lexp svp fuel2 fuel3 fuel4 opp; case: k hb hk hN fuel4 => // _ _ hN fuel4;
  rewrite /ntk /bnt /bnt' ?body_F /pbody.
- have rtn : good H n.+1 (Some (Ok (c, st))) by apply: good_ok; case.
  case et : (c_tok c) => [||[]] //.
  have [s el] := tk _ et.
  apply: (good_bind (svp _)) => sv1 _ _; apply: (good_bind (lexp (pow_inc c) (conj erefl erefl))) => c1 [e1] hc1.
  have hat1 : atc c1 (c_rest c) by exact: (atc_lex e1).
  have g2 : good H n.+2 (parse N (ntk cP None) c1 st).
    apply: (good_imp _ (IH cP None n.+1 c1 st (c_rest c) _ _ _)) => //; last by apply: fuel1; rewrite el.
    by move=> hp; move: (hc1 hp); case: hp.
  apply: (good_bind g2) => -[c2 st2] e2 hc2.
  have [w [rest [b [h1 h2 h3]]]] := sound (isT : okp cP None) hat1 e2.
  apply: (good_bind (opp L_EXP n st2 _ _)); [by rewrite /=; tauto|by move=> hp; case: (hc2 hp)|].
  move=> st3 [e3] hs3.
  apply: (good_imp _ (IH cU (Some sv1) n (pow_dec c2) st3 rest _ _ _)) => //.
  - by move=> hp; have [? _] := hc2 hp; have ? := hs3 hp; case: hp.
  by apply: fuel3 => //; rewrite el h1 /= size_cat; move: (der_size h2); clear; lia.
- case et : (c_tok c) => [||[]]; try exact: good_exn.
    have g1 : goodp H (I n.+1) (Some (m_push o (c_atom c) st)).
      by exists (m_push o (c_atom c) st); split=> // -[[_ [h _]] [h2 _] h3]; exact: h.
    apply: (good_bind g1) => st1 _ hs1; apply: (good_bind (lexp c (conj erefl erefl))) => c1 [e1] hc1; apply: good_ok => hp; split; [exact: hc1|exact: hs1].
  have [s el] := tk _ et.
  apply: (good_bind (lexp c (conj erefl erefl))) => c1 [e1] hc1.
  have g2 : good H n.+1 (parse N (ntk cE None) c1 st).
    apply: (good_imp _ (IH cE None n c1 st (c_rest c) _ _ _)) => //; last by apply: fuel1; rewrite el.
      by move=> hp; move: (hc1 hp); case: hp.
    exact: (atc_lex e1).
  apply: (good_bind g2) => -[c2 st2] e2 hc2.
  have g3 : goodp H cok (Some (match_rparen o c2)).
    exists (match_rparen o c2); split=> // hp; have [h2 _] := hc2 hp; case: hp => hs _ _.
    by rewrite /match_rparen; case: (c_tok c2) => [||[]] //; exact: lexan_ben.
  apply: (good_bind g3) => c3 _ hc3; apply: good_ok => hp; split; first exact: hc3.
  by case: (hc2 hp).
- have g2 : good H n.+1 (parse N (ntk cP None) c st) by apply: (IH cP None n c st l) => //; exact: fuel4.
  apply: (good_bind g2) => -[c2 st2] e2 hc2.
  have [w [rest [b [h1 h2 h3]]]] := sound (isT : okp cP None) hat e2.
  apply: (good_imp _ (IH cU (Some (m_sv0 o)) n c2 st2 rest _ _ _)) => //; first by move=> hp; have [? ?] := hc2 hp; case: hp.
  by apply: fuel2 => //; rewrite h1 size_cat; move: (der_size h2); clear; lia.
have dflt : good H n.+1 (parse N nU c st) by apply: (IH cU None n c st l) => //; exact: fuel4.
case et : (c_tok c) => [||u] //; have [s el] := tk _ et.
case eu : (untok u) => [t|] //.
apply: (good_bind (svp _)) => sv1 _ _; apply: (good_bind (lexp c (conj erefl erefl))) => c1 [e1] hc1.
have hat1 : atc c1 (c_rest c) by exact: (atc_lex e1).
have g2 : good H n.+1 (parse N (ntk cU None) c1 st).
  apply: (good_imp _ (IH cU None n c1 st (c_rest c) _ _ _)) => //; last by apply: fuel1; rewrite el.
  by move=> hp; move: (hc1 hp); case: hp.
apply: (good_bind g2) => -[c2 st2] e2 hc2.
have g3 : goodp H (I n.+1) (Some (m_op o t st2)).
  exists (m_op o t st2); split=> // hp; have [_ h2] := hc2 hp; case: hp => -[_ [_ [_ [h _]]]] _ _; exact: h (untokP eu) h2.
by apply: (good_bind g3) => st3 _ hs3; apply: good_ok => hp; split; [case: (hc2 hp)|exact: hs3].
Qed.
End V.

(* the whole command *)
Definition accepted (w : list string) : Prop := exists a, der cQ w a.
Variables (a0 : At) (st0 : St).
Local Notation cmd := (cmd_parse o a0 st0).
Lemma cmd_ok w a : der cQ w a -> cmd w =
  match exec o false a a0 st0 with
  | Ok (_, st, _) => match m_top o st with Some x => ([x], Ok tt) | None => ([], Exn) end
  | r => ([], fail r)
  end.
Proof.
move=> d; have hz := der_size d.
set v : res_t := rv o cQ [] 0 (exec o false a a0 st0).
have [N hN] : lruns o nQ (w ++ []) a0 0 st0 v.
  have := compl spP d; rewrite /comp => /(_ [] 0 a0 st0 v); apply=> //; rewrite /v /rv /=; case: (exec _ _ _ _ _) => // -[[x st] sv].
  by exists 1.
move: hN; rewrite cats0 /cmd_parse -/(lx w a0 0); case e : (lx w a0 0) => [c|||] /=.
- move=> hN; have hat : atc c w by exact: (atc_lex e).
  have [u [hu _]] : good (fun _ => True) (fun _ => True) (fun _ _ => True) (pre (fun _ => True) (fun _ => True) (fun _ _ => True) 0 c st0) 1 (parse (20 * (size w + 2)) nQ c st0).
    by apply: (@total _ _ _ _ cQ None 0 c st0 w) => //; rewrite /rank /=; move: hz; clear; lia.
  have {hu} hv : parse (20 * (size w + 2)) nQ c st0 = Some v.
    have h1 := parse_le (leq_maxl N (20 * (size w + 2))) hN.
    have := parse_le (leq_maxr N (20 * (size w + 2))) hu; rewrite h1 => -[->]; exact: hu.
  have hv' : parse (Nat.mul 20 (Nat.add (List.length w) 2)) nQ c st0 = Some v by exact: hv.
  rewrite hv' /v /rv; case et : (c_tok c) => [||t]; try by case: (exec _ _ _ _ _) => // -[[x st] sv].
  by move: hat; rewrite /atc et => -[e0]; move: hz; rewrite e0.
- by case; rewrite /v /rv => h; case: (exec _ _ _ _ _) h => // -[[]].
- by case; rewrite /v /rv => h; case: (exec _ _ _ _ _) h => // -[[]].
by case; rewrite /v /rv => h; case: (exec _ _ _ _ _) h => // -[[]].
Qed.
Lemma cmd_sound w out : cmd w = (out, Ok tt) -> w = [] /\ out = [] \/ accepted w.
Proof.
rewrite /cmd_parse -/(lx w a0 0); case e : (lx w a0 0) => [c|||] //.
have hat : atc c w by exact: (atc_lex e).
have G : match parse (Nat.mul 20 (Nat.add (List.length w) 2)) nQ c st0 with
    | Some (Ok (c, st)) =>
        match m_top o st with
        | None => ([], Exn)
        | Some result => match c_tok c with TEol => ([result], Ok tt) | _ => ([result], Exn) end
        end
    | Some Exn => ([], Exn)
    | Some UB => ([], UB)
    | Some Div | None => ([], Div)
    end = (out, Ok tt) -> w = [] /\ out = [] \/ accepted w.
  case ep : (parse _ nQ c st0) => [[[c' st']|||]|] //.
  have [w1 [rest [b [h1 h2 h3]]]] := sound (isT : okp cQ None) hat ep.
  case: (m_top o st') => // x; case et' : (c_tok c') => // _; right; exists b; move: h3; rewrite /atc et' => -[er _].
  by rewrite h1 er cats0.
by case et : (c_tok c) => [||t] //; case=> <-; left; move: hat; rewrite /atc et => -[-> _].
Qed.
Lemma cmd_total (W : string -> Prop) (Ia : At -> Prop) (I : nat -> St -> Prop) w : safe W Ia I -> List.Forall W w -> Ia a0 -> I 0 st0 ->
  ben (fun _ => True) (cmd w).2 /\ forall x, List.In x (cmd w).1 -> exists st, I 1 st /\ m_top o st = Some x.
Proof.
move=> hs hw ha hi; rewrite /cmd_parse -/(lx w a0 0).
have := @lexan_ben W Ia I (mkctx w TEol a0 0) hs (conj ha hw); rewrite -/(lx w a0 0).
case e : (lx w a0 0) => [c|||] //= hc.
have hat : atc c w by exact: (atc_lex e).
have [u [hu hb]] : good W Ia I (pre W Ia I 0 c st0) 1 (parse (20 * (size w + 2)) nQ c st0).
  by apply: (@total _ _ _ _ cQ None 0 c st0 w) => //; rewrite /rank /=; clear; lia.
have hu' : parse (Nat.mul 20 (Nat.add (List.length w) 2)) nQ c st0 = Some u by exact: hu.
have {hb} hb : ben (csok W Ia I 1) u by apply: hb; split.
rewrite hu'; have G : ben (fun _ => True) (match u with
    | Ok (c, st) => match m_top o st with None => ([], Exn) | Some x => match c_tok c with TEol => ([x], Ok tt) | _ => ([x], Exn) end end
    | Exn => ([], Exn) | UB => ([], UB) | Div => ([], Div) end).2 /\ forall x, List.In x (match u with
    | Ok (c, st) => match m_top o st with None => ([], Exn) | Some x => match c_tok c with TEol => ([x], Ok tt) | _ => ([x], Exn) end end
    | Exn => ([], Exn) | UB => ([], UB) | Div => ([], Div) end).1 -> exists st, I 1 st /\ m_top o st = Some x.
  case: u {hu hu'} hb => [[c' st']|||] //= [_ /= hst]; case et : (m_top o st') => [y|] //=.
  by case: (c_tok c') => [||?] /=; split=> // x [<-|[]]; exists st'.
by case: (c_tok c) => [||t].
Qed.
End S.
