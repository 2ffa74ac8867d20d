(* Nothing but the expressions of the grammar is accepted; the fuel suffices. *)
From Verif Require Import Base MCli.
From mathcomp Require Import all_ssreflect ssrZ.
From Verif Require Import PCli PCli2.
Set Implicit Arguments.
Unset Strict Implicit.
Unset Printing Implicit Defensive.
Import ListNotations.

Local Arguments orbind : simpl never.
Section S.
Context {A : Type} (o : eops A).
Local Notation atom := (@atom A).
Local Notation ctx := (@ctx A).
Local Notation res_t := (res (ctx * list atom)).
Local Notation lx := (lx o).
Local Notation parse := (parse o).

(* c is the state in which the first string of l has been read *)
Definition atc (c : ctx) (l : list string) : Prop :=
  match c_tok c with
  | TEol => l = [] /\ c_rest c = []
  | TOp t => exists s, l = s :: c_rest c /\ spells s t
  | TNum _ => exists s, l = s :: c_rest c /\ forall t, ~ spells s t
  end.
Lemma atc_lex c c1 : lexan o c = Ok c1 -> atc c1 (c_rest c).
Proof.
rewrite /lexan; case: (c_rest c) => [[<-] //|s l]; case e : (lex_op s) => [t|].
  by case=> <-; exists s; split=> //; apply/spellsP.
by case: (if _ then _ else _) => // a [<-]; exists s; split=> //; apply/nospell.
Qed.
Lemma atc_pow c l : atc c l -> atc (pow_dec c) l. Proof. by []. Qed.

Definition sound_at (k : cat) (prime : bool) (c : ctx) (st : list atom) (l : list string) (c' : ctx) (st' : list atom) : Prop :=
  if prime then forall x st0, st = x :: st0 -> exists w rest y, [/\ l = w ++ rest, forall w0 a0, der k w0 a0 -> exists a, der k (w0 ++ w) a,
     atc c' rest & st' = y :: st0]
  else exists w rest a y, [/\ l = w ++ rest, der k w a, atc c' rest & st' = y :: st].
Definition isbin (k : cat) : bool := match k with cT | cE | cC | cQ => true | _ => false end.
Lemma isbinP k : isbin k -> is_bin k. Proof. by rewrite /is_bin; case: k => //; tauto. Qed.
Definition ntk (k : cat) (prime : bool) : nt := if prime then bnt' k else bnt k.
Definition okp (k : cat) (prime : bool) : bool := prime ==> loops k.

Lemma orbind_inv X Y (r : option (res X)) (f : X -> option (res Y)) v : orbind r f = Some (Ok v) -> exists x, r = Some (Ok x) /\ f x = Some (Ok v).
Proof. by case: r => [[x|||]|] //= h; exists x. Qed.
Lemma emit_shape k t x y st st' : bin_op k t -> emit o t (y :: x :: st) = Ok st' -> exists z, st' = z :: st.
Proof. by move=> h; rewrite (emit_bin _ _ _ _ h); case: (ev_bin _ _ _ _) => // z [<-]; exists z. Qed.

Lemma sound N k prime c st l c' st' : okp k prime -> atc c l -> parse N (ntk k prime) c st = Some (Ok (c', st')) -> sound_at k prime c st l c' st'.
Proof.
elim: N k prime c st l c' st' => [|N IH] k prime c st l c' st' // hk hat; rewrite parseS.
case hb : (isbin k).
  have kb := isbinP hb.
  have hop : okp (operand k) false by [].
  case: prime hk => hk; rewrite /ntk.
    rewrite body_loop //= => h x st0 est.
    have triv : c' = c /\ st' = st -> exists w rest y, [/\ l = w ++ rest, forall w0 a0, der k w0 a0 -> exists a, der k (w0 ++ w) a,
      atc c' rest & st' = y :: st0].
      by case=> -> ->; exists [], l, x; split=> // w0 a0; rewrite cats0; exists a0.
    case et : (c_tok c) h => [a||t] //; try by case=> u1 u2; apply: triv; rewrite u1 u2.
    case hbt : (bin_opb k t); last by case=> u1 u2; apply: triv; rewrite u1 u2.
    move=> h0; have {h0} [c1 [[e1] h0]] := orbind_inv h0; have {h0} [[c2 st2] [e2 h0]] := orbind_inv h0; have {h0} [st3 [[e3] e4]] := orbind_inv h0.
    have hbop : bin_op k t by apply/bin_opP.
    have [s [el hs]] : exists s, l = s :: c_rest c /\ spells s t by move: hat; rewrite /atc et.
    have := IH (operand k) false c1 st (c_rest c) c2 st2 hop (atc_lex e1) e2.
    case=> w [rest [b [y [h1 h2 h3 h4]]]].
    have [z hz] := emit_shape hbop (etrans (congr1 (emit o t) (etrans (congr1 (cons y) (esym est)) (esym h4))) e3).
    have := IH k true c2 st3 rest c' st' hk h3 e4; rewrite /sound_at hz => /(_ _ _ erefl) [w2 [rest2 [y2 [g1 g2 g3 g4]]]].
    exists (s :: w ++ w2), rest2, y2; split=> //; first by rewrite el h1 g1 /= catA.
    move=> w0 a0 d0; have [a d] := g2 _ _ (d_bin hbop d0 hs h2).
    by exists a; rewrite -cat_cons catA.
  rewrite body_up // => h0; have {h0} [[c2 st2] [e2 e4]] := orbind_inv h0.
  have := IH (operand k) false c st l c2 st2 hop hat e2; case=> w [rest [b [y [h1 h2 h3 h4]]]].
  have hkt : okp k true by case: (k) hb.
  have := IH k true c2 st2 rest c' st' hkt h3 e4; rewrite /sound_at h4 => /(_ _ _ erefl) [w2 [rest2 [y2 [g1 g2 g3 g4]]]].
  have [a d] := g2 _ _ (d_up kb h2).
  by exists (w ++ w2), rest2, a, y2; split=> //; rewrite h1 g1 catA.
case: prime hk => hk; case: k hb hk => // _ _; rewrite /ntk /pbody /bnt /bnt'.
- move=> h x st0 est.
  have triv : c' = c /\ st' = st -> exists w rest y, [/\ l = w ++ rest, forall w0 a0, der cU w0 a0 -> exists a, der cU (w0 ++ w) a,
    atc c' rest & st' = y :: st0].
    by case=> -> ->; exists [], l, x; split=> // w0 a0; rewrite cats0; exists a0.
  case et : (c_tok c) h => [a||[]]; try by case=> u1 u2; apply: triv; rewrite u1 u2.
  move=> h0; have {h0} [c1 [[e1] h0]] := orbind_inv h0; have {h0} [[c2 st2] [e2 h0]] := orbind_inv h0; have {h0} [st3 [[e3] e4]] := orbind_inv h0.
  have [s [el hs]] : exists s, l = s :: c_rest c /\ spells s L_EXP by move: hat; rewrite /atc et.
  have := IH cP false c1 st (c_rest c) c2 st2 isT (atc_lex e1) e2.
  case=> w [rest [b [y [h1 h2 h3 h4]]]].
  have [z hz] : exists z, st3 = z :: st0.
    have e3' : emit o L_EXP (y :: x :: st0) = Ok st3 by rewrite -est -h4.
    by move: e3'; rewrite emit_exp; case: (match x with AT _ => _ | _ => _ end) => // z [<-]; exists z.
  have := IH cU true (pow_dec c2) st3 rest c' st' isT (atc_pow h3) e4; rewrite /sound_at hz => /(_ _ _ erefl) [w2 [rest2 [y2 [g1 g2 g3 g4]]]].
  exists (s :: w ++ w2), rest2, y2; split=> //; first by rewrite el h1 g1 /= catA.
  move=> w0 a0 d0; have [a d] := g2 _ _ (d_pow d0 hs h2).
  by exists a; rewrite -cat_cons catA.
- case et : (c_tok c) => [a||[]] //.
    move=> h0; have {h0} [c1 [[e1] [<- <-]]] := orbind_inv h0.
    have [s [el hs]] : exists s, l = s :: c_rest c /\ forall t, ~ spells s t by move: hat; rewrite /atc et.
    by exists [s], (c_rest c), (ANum s), a; split=> //; [exact: d_num|exact: atc_lex e1].
  move=> h0; have {h0} [c1 [[e1] h0]] := orbind_inv h0; have {h0} [[c2 st2] [e2 h0]] := orbind_inv h0; have {h0} [c3 [[e3] [<- <-]]] := orbind_inv h0.
  have [s [el hs]] : exists s, l = s :: c_rest c /\ spells s L_LPAREN by move: hat; rewrite /atc et.
  have := IH cE false c1 st (c_rest c) c2 st2 isT (atc_lex e1) e2.
  case=> w [rest [b [y [h1 h2 h3 h4]]]].
  move: e3; rewrite /match_rparen; case et2 : (c_tok c2) => [//||[]] // e3.
  have [s2 [el2 hs2]] : exists s, rest = s :: c_rest c2 /\ spells s L_RPAREN by move: h3; rewrite /atc et2.
  exists (s :: w ++ [s2]), (c_rest c2), b, y; split=> //.
  + by rewrite el h1 el2 /= -catA.
  + exact: d_par.
  exact: atc_lex e3.
- move=> h0; have {h0} [[c2 st2] [e2 e4]] := orbind_inv h0.
  have := IH cP false c st l c2 st2 isT hat e2; case=> w [rest [b [y [h1 h2 h3 h4]]]].
  have := IH cU true c2 st2 rest c' st' isT h3 e4; rewrite /sound_at h4 => /(_ _ _ erefl) [w2 [rest2 [y2 [g1 g2 g3 g4]]]].
  have [a d] := g2 _ _ (d_base h2).
  by exists (w ++ w2), rest2, a, y2; split=> //; rewrite h1 g1 catA.
have dflt : parse N nU c st = Some (Ok (c', st')) -> sound_at cF false c st l c' st'.
  move=> e; have := IH cU false c st l c' st' isT hat e; case=> w [rest [b [y [h1 h2 h3 h4]]]].
  by exists w, rest, b, y; split=> //; exact: d_fac.
case et : (c_tok c) => [a||[]] //; try exact: dflt.
  move=> h0; have {h0} [c1 [[e1] h0]] := orbind_inv h0; have {h0} [[c2 st2] [e2 [<- <-]]] := orbind_inv h0.
  have [s [el hs]] : exists s, l = s :: c_rest c /\ spells s L_PLUS by move: hat; rewrite /atc et.
  have := IH cU false c1 st (c_rest c) c2 st2 isT (atc_lex e1) e2.
  case=> w [rest [b [y [h1 h2 h3 h4]]]].
  by exists (s :: w), rest, (APos b), y; split=> //; [rewrite el h1|exact: d_pos].
move=> h0; have {h0} [c1 [[e1] h0]] := orbind_inv h0; have {h0} [[c2 st2] [e2 h0]] := orbind_inv h0; have {h0} [st3 [[e3] [<- <-]]] := orbind_inv h0.
have [s [el hs]] : exists s, l = s :: c_rest c /\ spells s L_MINUS by move: hat; rewrite /atc et.
have := IH cU false c1 st (c_rest c) c2 st2 isT (atc_lex e1) e2.
case=> w [rest [b [y [h1 h2 h3 h4]]]].
have [z hz] : exists z, st3 = z :: st.
  have e3' : emit o L_UMINUS (y :: st) = Ok st3 by rewrite -h4.
  by move: e3'; rewrite emit_neg; case: (match y with AT _ => _ | _ => _ end) => // z [<-]; exists z.
by exists (s :: w), rest, (ANeg b), z; split=> //; [rewrite el h1|exact: d_neg].
Qed.

(* returns with P, or throws *)
Definition ben {X} (P : X -> Prop) (r : res X) : Prop := match r with Ok x => P x | Exn => True | _ => False end.
Section V.
Variables (V : A -> Prop) (W : Z -> Prop).
(* on the elements of V and the ints of W, operators, powers and number reading return or throw *)
Definition safe : Prop :=
  (forall a, V a -> ben V (e_neg o a)) /\
  (forall a b, V a -> V b -> ben V (e_add o a b) /\ ben V (e_sub o a b) /\ ben V (e_mul o a b) /\ ben V (e_div o a b) /\ ben V (e_mod o a b)) /\
  (forall a b, V a -> V b -> let B := ben (fun t : bool => W (Z.b2z t)) in
     B (e_eqb o a b) /\ B (e_neqb o a b) /\ B (e_ltb o a b) /\ B (e_leb o a b) /\ B (e_gtb o a b) /\ B (e_geb o a b)) /\
  (forall a i, V a -> W i -> ben V (clo_exp o a i)) /\ (forall s, ben V (e_scan o s) /\ ben W (e_scan_int o s)).
Definition aok (a : atom) : Prop := match a with AT x => V x | AI i => W i end.
Definition cok (c : ctx) : Prop := match c_tok c with TNum a => aok a | _ => True end.
Definition sok (st : list atom) : Prop := List.Forall aok st.
Lemma ben_bind X Y (P : X -> Prop) (Q : Y -> Prop) (r : res X) (f : X -> res Y) : ben P r -> (forall x, P x -> ben Q (f x)) -> ben Q (x <- r ;; f x).
Proof. by case: r => [x|||] //= h; apply. Qed.
Lemma lexan_ben c : safe -> ben cok (lexan o c).
Proof.
case=> [_ [_ [_ [_ hs]]]]; rewrite /lexan; case: (c_rest c) => // s l; case: (lex_op s) => // ; have [h1 h2] := hs s.
by apply: (@ben_bind _ _ aok) => //; case: ifP => _; [apply: (ben_bind h2)|apply: (ben_bind h1)].
Qed.
Lemma evbin_ben t x y : safe -> aok x -> aok y -> ben aok (ev_bin o t x y).
Proof.
case=> [_ [h1 [h2 _]]]; case: x => // a va; case: y => // b vb.
have [? [? [? [? ?]]]] := h1 a b va vb; have [? [? [? [? [? ?]]]]] := h2 a b va vb.
by case: t => //=; apply: ben_bind; try eassumption.
Qed.
Lemma emit_bin_ben k t x y st : safe -> aok x -> aok y -> sok st -> bin_op k t -> ben sok (emit o t (y :: x :: st)).
Proof. by move=> hs hx hy hst h; rewrite (emit_bin _ _ _ _ h); apply: (ben_bind (evbin_ben t hs hx hy)) => z hz; constructor. Qed.
Lemma emit_exp_ben x y st : safe -> aok x -> aok y -> sok st -> ben sok (emit o L_EXP (y :: x :: st)).
Proof.
move=> hs hx hy hst; rewrite emit_exp; apply: (@ben_bind _ _ aok); last by move=> z hz; constructor.
case: x hx => // a ha; case: y hy => // i hi; case: hs => [_ [_ [_ [h _]]]].
by apply: (ben_bind (h a i ha hi)).
Qed.
Lemma emit_neg_ben x st : safe -> aok x -> sok st -> ben sok (emit o L_UMINUS (x :: st)).
Proof.
move=> hs hx hst; rewrite emit_neg; apply: (@ben_bind _ _ aok); last by move=> z hz; constructor.
by case: x hx => // a ha; case: hs => h _; apply: (ben_bind (h a ha)).
Qed.

Definition rank (k : cat) (prime : bool) : nat := if prime then 8 else (lv k).+1.
Definition csok (cs : ctx * list atom) : Prop := cok cs.1 /\ sok cs.2.
Definition goodp {X} (H : Prop) (P : X -> Prop) (r : option (res X)) : Prop := exists v, r = Some v /\ (H -> ben P v).
Definition good (H : Prop) (r : option res_t) : Prop := goodp H csok r.
Lemma good_ok (H : Prop) x : (H -> csok x) -> good H (Some (Ok x)). Proof. by move=> h; exists (Ok x). Qed.
Lemma good_exn H : good H (Some Exn). Proof. by exists Exn. Qed.
Lemma good_bind X (H : Prop) (P : X -> Prop) (r : option (res X)) f : goodp H P r -> (forall x, r = Some (Ok x) -> (H -> P x) -> good H (f x)) -> good H (orbind r f).
Proof.
case=> v [-> h] hf; case: v h hf => [x|||] h hf; first exact: hf.
- exact: good_exn.
- by exists UB; split=> // /h [].
by exists Div; split=> // /h [].
Qed.
Lemma good_imp (H H' : Prop) r : (H -> H') -> good H' r -> good H r.
Proof. by move=> hh [v [-> h]]; exists v; split=> // /hh /h. Qed.
Lemma op_rank k : is_bin k -> lv (operand k) < lv k. Proof. exact: op_lv. Qed.
Lemma lv6 k : lv k <= 6. Proof. by case: k. Qed.
Definition pre c st : Prop := [/\ safe, cok c & sok st].
Lemma total N k prime c st l : okp k prime -> atc c l -> (prime -> exists x st0, st = x :: st0) -> 8 * size l + rank k prime < N ->
  good (pre c st) (parse N (ntk k prime) c st).
Proof.
elim: N k prime c st l => [|N IH] k prime c st l // hk hat hst hN; rewrite parseS.
have lexg (H : Prop) c1 : (H -> safe) -> goodp H cok (Some (lexan o c1)).
  by move=> hs; exists (lexan o c1); split=> // /hs; exact: lexan_ben.
have lexp c1 : goodp (pre c st) cok (Some (lexan o c1)) by apply: lexg; case.
have rtn : good (pre c st) (Some (Ok (c, st))) by apply: good_ok; case.
have fuel1 k1 l1 : size l1 < size l -> 8 * size l1 + rank k1 false < N.
  by move=> h; rewrite /rank; have := lv6 k1; move: hN h; clear; lia.
have fuel2 k1 l1 : ~~ prime -> size l1 < size l -> 8 * size l1 + rank k1 true < N.
  by move=> hp h; move: hN h; rewrite /rank (negbTE hp); clear; lia.
have fuel3 k1 l1 : prime -> (size l1).+1 < size l -> 8 * size l1 + rank k1 true < N.
  by move=> hp h; move: hN h; rewrite /rank hp; clear; lia.
have fuel4 k1 : ~~ prime -> lv k1 < lv k -> 8 * size l + rank k1 false < N.
  by move=> hp h; move: hN h; rewrite /rank (negbTE hp); clear; lia.
have tk t : c_tok c = TOp t -> exists s, l = s :: c_rest c by move=> e; move: hat; rewrite /atc e => -[s [? _]]; exists s.
case hb : (isbin k).
  have kb := isbinP hb.
  have hkt : okp k true by case: (k) hb.
  case: prime hk hst hN fuel2 fuel3 fuel4 => hk hst hN fuel2 fuel3 fuel4; rewrite /ntk.
    rewrite body_loop //; case et : (c_tok c) => [a||t] //; case hbt : (bin_opb k t) => //.
    have [s el] := tk _ et; have hbop : bin_op k t by apply/bin_opP.
    have [x [st0 est]] := hst isT.
    apply: (good_bind (lexp _)) => c1 [e1] hc1.
    have hat1 : atc c1 (c_rest c) by exact: (atc_lex e1).
    have g2 : good (pre c st) (parse N (ntk (operand k) false) c1 st).
      apply: (good_imp _ (IH (operand k) false c1 st (c_rest c) _ _ _ _)) => //; last by apply: fuel1; rewrite el.
      by move=> hp; move: (hc1 hp); case: hp.
    apply: (good_bind g2) => -[c2 st2] e2 hc2.
    have [w [rest [b [y [h1 h2 h3 h4]]]]] := sound (isT : okp (operand k) false) hat1 e2.
    have g3 : goodp (pre c st) sok (Some (emit o t st2)).
      exists (emit o t st2); split=> // hp; have [_] := hc2 hp; case: hp => hs _ _; rewrite /= h4 est => h5.
      inversion h5 as [|? ? hy h6]; inversion h6; exact: emit_bin_ben hbop.
    apply: (good_bind g3) => st3 [e3] hs3.
    apply: (good_imp _ (IH k true c2 st3 rest _ _ _ _)) => //.
    - by move=> hp; have [? _] := hc2 hp; have ? := hs3 hp; case: hp.
    - by move=> _; move: e3; rewrite h4 est => e3; have [z ->] := emit_shape hbop e3; exists z, st0.
    by apply: fuel3 => //; rewrite el h1 /= size_cat; move: (der_size h2); clear; lia.
  rewrite body_up //.
  have g2 : good (pre c st) (parse N (ntk (operand k) false) c st).
    by apply: (IH (operand k) false c st l) => //; apply: fuel4 => //; exact: op_lv.
  apply: (good_bind g2) => -[c2 st2] e2 hc2.
  have [w [rest [b [y [h1 h2 h3 h4]]]]] := sound (isT : okp (operand k) false) hat e2.
  apply: (good_imp _ (IH k true c2 st2 rest _ _ _ _)) => //; first by move=> hp; have [? ?] := hc2 hp; case: hp.
    by move=> _; exists y, st.
  by apply: fuel2 => //; rewrite h1 size_cat; move: (der_size h2); clear; lia.
case: prime hk hst hN fuel2 fuel3 fuel4 => hk hst hN fuel2 fuel3 fuel4; case: k hb hk hN fuel4 => // _ _ hN fuel4; rewrite /ntk /pbody /bnt /bnt'.
- case et : (c_tok c) => [a||[]] //.
  have [s el] := tk _ et; have [x [st0 est]] := hst isT.
  apply: (good_bind (lexp _)) => c1 [e1] hc1.
  have hat1 : atc c1 (c_rest c) by exact: (atc_lex e1).
  have g2 : good (pre c st) (parse N (ntk cP false) c1 st).
    apply: (good_imp _ (IH cP false c1 st (c_rest c) _ _ _ _)) => //; last by apply: fuel1; rewrite el.
    by move=> hp; move: (hc1 hp); case: hp.
  apply: (good_bind g2) => -[c2 st2] e2 hc2.
  have [w [rest [b [y [h1 h2 h3 h4]]]]] := sound (isT : okp cP false) hat1 e2.
  have g3 : goodp (pre c st) sok (Some (emit o L_EXP st2)).
    exists (emit o L_EXP st2); split=> // hp; have [_] := hc2 hp; case: hp => hs _ _; rewrite /= h4 est => h5.
    inversion h5 as [|? ? hy h6]; inversion h6; exact: emit_exp_ben.
  apply: (good_bind g3) => st3 [e3] hs3.
  apply: (good_imp _ (IH cU true (pow_dec c2) st3 rest _ _ _ _)) => //.
  - by move=> hp; have [? _] := hc2 hp; have ? := hs3 hp; case: hp.
  - move=> _; have e3' : emit o L_EXP (y :: x :: st0) = Ok st3 by rewrite -est -h4.
    by move: e3'; rewrite emit_exp; case: (match x with AT _ => _ | _ => _ end) => // z [<-]; exists z, st0.
  by apply: fuel3 => //; rewrite el h1 /= size_cat; move: (der_size h2); clear; lia.
- case et : (c_tok c) => [a||[]]; try exact: good_exn.
    apply: (good_bind (lexp _)) => c1 [e1] hc1; apply: good_ok => hp; split; first exact: hc1.
    by case: hp => _ hcc hss; constructor=> //; move: hcc; rewrite /cok et.
  have [s el] := tk _ et.
  apply: (good_bind (lexp _)) => c1 [e1] hc1.
  have g2 : good (pre c st) (parse N (ntk cE false) c1 st).
    apply: (good_imp _ (IH cE false c1 st (c_rest c) _ _ _ _)) => //; last by apply: fuel1; rewrite el.
      by move=> hp; move: (hc1 hp); case: hp.
    exact: (atc_lex e1).
  apply: (good_bind g2) => -[c2 st2] e2 hc2.
  have g3 : goodp (pre c st) cok (Some (match_rparen o c2)).
    exists (match_rparen o c2); split=> // -[hs _ _].
    by rewrite /match_rparen; case: (c_tok c2) => [?||[]] //; exact: lexan_ben.
  apply: (good_bind g3) => c3 _ hc3; apply: good_ok => hp; split; first exact: hc3.
  by case: (hc2 hp).
- have g2 : good (pre c st) (parse N (ntk cP false) c st) by apply: (IH cP false c st l) => //; exact: fuel4.
  apply: (good_bind g2) => -[c2 st2] e2 hc2.
  have [w [rest [b [y [h1 h2 h3 h4]]]]] := sound (isT : okp cP false) hat e2.
  apply: (good_imp _ (IH cU true c2 st2 rest _ _ _ _)) => //; first by move=> hp; have [? ?] := hc2 hp; case: hp.
    by move=> _; exists y, st.
  by apply: fuel2 => //; rewrite h1 size_cat; move: (der_size h2); clear; lia.
have dflt : good (pre c st) (parse N nU c st) by apply: (IH cU false c st l) => //; exact: fuel4.
case et : (c_tok c) => [a||[]] //; have [s el] := tk _ et.
- apply: (good_bind (lexp _)) => c1 [e1] hc1.
  have g2 : good (pre c st) (parse N (ntk cU false) c1 st).
    apply: (good_imp _ (IH cU false c1 st (c_rest c) _ _ _ _)) => //; last by apply: fuel1; rewrite el.
      by move=> hp; move: (hc1 hp); case: hp.
    exact: (atc_lex e1).
  apply: (good_bind g2) => -[c2 st2] e2 hc2.
  have g3 : goodp (pre c st) sok (Some (emit o L_UPLUS st2)) by exists (Ok st2); split=> // hp; case: (hc2 hp).
  by apply: (good_bind g3) => st3 _ hs3; apply: good_ok => hp; split; [case: (hc2 hp)|exact: hs3].
apply: (good_bind (lexp _)) => c1 [e1] hc1.
have hat1 : atc c1 (c_rest c) by exact: (atc_lex e1).
have g2 : good (pre c st) (parse N (ntk cU false) c1 st).
  apply: (good_imp _ (IH cU false c1 st (c_rest c) _ _ _ _)) => //; last by apply: fuel1; rewrite el.
  by move=> hp; move: (hc1 hp); case: hp.
apply: (good_bind g2) => -[c2 st2] e2 hc2.
have [w [rest [b [y [h1 h2 h3 h4]]]]] := sound (isT : okp cU false) hat1 e2.
have g3 : goodp (pre c st) sok (Some (emit o L_UMINUS st2)).
  exists (emit o L_UMINUS st2); split=> // hp; have [_] := hc2 hp; case: hp => hs _ _; rewrite /= h4 => h5.
  by inversion h5; exact: emit_neg_ben.
by apply: (good_bind g3) => st3 _ hs3; apply: good_ok => hp; split; [case: (hc2 hp)|exact: hs3].
Qed.
End V.

(* the whole command *)
Definition accepted (w : list string) : Prop := exists a, der cQ w a.
Lemma cmd_ok w a : der cQ w a -> cmd_line_parse o w = match ev o false a with Ok x => ([x], Ok tt) | r => ([], fail r) end.
Proof.
move=> d; have hz := der_size d.
set v : res_t := match ev o false a with Ok x => Ok (nxt [] 0, x :: []) | e => fail e end.
have [N hN] : lruns o nQ (w ++ []) 0 [] v.
  by have := @compl _ o _ _ _ d; rewrite /comp => /(_ [] 0 [] v); apply=> //; rewrite /v; case: (ev _ _ _) => // x; exists 1.
move: hN; rewrite cats0 /cmd_line_parse -/(lx w 0); case e : (lx w 0) => [c|||] /=.
- move=> hN; have hat : atc c w by exact: (atc_lex e).
  have [u [hu _]] : good (fun _ => True) (fun _ => True) (pre (fun _ => True) (fun _ => True) c []) (parse (20 * (size w + 2)) nQ c []).
    by apply: (@total _ _ _ cQ false c [] w) => //; rewrite /rank /=; move: hz; clear; lia.
  have {hu} hv : parse (20 * (size w + 2)) nQ c [] = Some v.
    have h1 := parse_le (leq_maxl N (20 * (size w + 2))) hN.
    have := parse_le (leq_maxr N (20 * (size w + 2))) hu; rewrite h1 => -[->]; exact: hu.
  have hv' : parse (Nat.mul 20 (Nat.add (List.length w) 2)) nQ c [] = Some v by exact: hv.
  rewrite hv' /v; case et : (c_tok c) => [b||t]; try by case: (ev _ _ _).
  by move: hat; rewrite /atc et => -[e0]; move: hz; rewrite e0.
- by case; rewrite /v => h; case: (ev _ _ _) h.
- by case; rewrite /v => h; case: (ev _ _ _) h.
by case; rewrite /v => h; case: (ev _ _ _) h.
Qed.
Lemma cmd_sound w out : cmd_line_parse o w = (out, Ok tt) -> w = [] /\ out = [] \/ accepted w.
Proof.
rewrite /cmd_line_parse -/(lx w 0); case e : (lx w 0) => [c|||] //.
have hat : atc c w by exact: (atc_lex e).
case et : (c_tok c) => [a||t]; try by case=> <-; left; move: hat; rewrite /atc et => -[-> _].
- case ep : (parse _ nQ c []) => [[[c' st']|||]|] //.
  have [w1 [rest [b [y [h1 h2 h3 ->]]]]] := sound (isT : okp cQ false) hat ep.
  case et' : (c_tok c') => // _; right; exists b; move: h3; rewrite /atc et' => -[er _].
  by rewrite h1 er cats0.
case ep : (parse _ nQ c []) => [[[c' st']|||]|] //.
have [w1 [rest [b [y [h1 h2 h3 ->]]]]] := sound (isT : okp cQ false) hat ep.
case et' : (c_tok c') => // _; right; exists b; move: h3; rewrite /atc et' => -[er _].
by rewrite h1 er cats0.
Qed.
Lemma cmd_total (V : A -> Prop) (W : Z -> Prop) w : safe V W -> ben (fun _ => True) (cmd_line_parse o w).2 /\ List.Forall (aok V W) (cmd_line_parse o w).1.
Proof.
move=> hs; rewrite /cmd_line_parse -/(lx w 0); have := lexan_ben (mkctx w TEol 0) hs; rewrite -/(lx w 0).
case e : (lx w 0) => [c|||] //= hc.
have hat : atc c w by exact: (atc_lex e).
have [u [hu hb]] : good V W (pre V W c []) (parse (20 * (size w + 2)) nQ c []).
  by apply: (@total _ _ _ cQ false c [] w) => //; rewrite /rank /=; clear; lia.
have hu' : parse (Nat.mul 20 (Nat.add (List.length w) 2)) nQ c [] = Some u by exact: hu.
have {hb} hb : ben (csok V W) u by apply: hb; split.
rewrite hu'; case: (c_tok c) => [b||t] //=.
  case: (u) hb => [[c' st']|||] //= [_ /= hst]; case: st' hst => [|y st'] hst //=; inversion hst.
  by case: (c_tok c') => [?||?] //=; split=> //; constructor.
case: (u) hb => [[c' st']|||] //= [_ /= hst]; case: st' hst => [|y st'] hst //=; inversion hst.
by case: (c_tok c') => [?||?] //=; split=> //; constructor.
Qed.
End S.
