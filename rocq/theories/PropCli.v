(* Final theorems for the command-line expression evaluator (spffl/cli_parser/cmd_line_ops.h). *)
From Verif Require Import Base MIntMath MIntmod PIntMath2 PIntmod MCli PCli PCli2 PCli3 PCli4.
From mathcomp Require Import all_ssreflect ssralg ssrint zmodp ssrZ.
Set Implicit Arguments.
Unset Strict Implicit.
Unset Printing Implicit Defensive.
Import ListNotations.
Delimit Scope Z_scope with coqZ.

(* The grammar der and the value ev of an expression (PCli.v) do not refer to the parser. *)
Section Eval.
Context {A : Type} (o : eops A).

(* an expression of the grammar: its value is printed, or its evaluation fails; every token is used *)
Theorem C46_eval w a : der cQ w a ->
  cmd_line_parse o w = match ev o false a with Ok x => ([x], Ok tt) | r => ([], fail r) end.
Proof. exact: cmd_ok. Qed.
(* nothing else is accepted *)
Theorem C46_reject w : w <> [] -> (forall a, ~ der cQ w a) -> (cmd_line_parse o w).2 <> Ok tt.
Proof.
move=> w0 nd e; case: (@cmd_sound _ o w (cmd_line_parse o w).1); first by rewrite -e; case: (cmd_line_parse o w).
  by case.
by case=> a; exact: nd.
Qed.
Theorem C46_empty : cmd_line_parse o [] = ([], Ok tt).
Proof. by []. Qed.
(* for operators which return or throw on a set of elements and ints, so does the evaluator, whatever the tokens *)
Theorem C46_total (V : A -> Prop) (W : Z -> Prop) w : safe o V W ->
  ((cmd_line_parse o w).2 = Ok tt \/ (cmd_line_parse o w).2 = Exn) /\ List.Forall (aok V W) (cmd_line_parse o w).1.
Proof.
move=> hs; have [h1 h2] := cmd_total w hs; split=> //.
by case: (cmd_line_parse o w).2 h1 => [[]|||] // _; [left|right].
Qed.

(* grouping, for any numbers x, y, z *)
Definition number (s : string) : Prop := forall t, ~ spells s t.
Definition shows (r : res (@atom A)) : list (@atom A) * res unit := match r with Ok x => ([x], Ok tt) | e => ([], fail e) end.
Lemma dnum s : number s -> der cF [s] (ANum s).
Proof. by move=> h; apply: d_fac; apply: d_base; apply: d_num. Qed.
Lemma up w a : der cF w a -> der cQ w a.
Proof. by move=> h; do 4!(apply: d_up; [rewrite /is_bin; tauto|]); exact: h. Qed.
Lemma upT w a : der cF w a -> der cT w a. Proof. by move=> h; apply: d_up => //; left. Qed.
Lemma upE w a : der cT w a -> der cE w a. Proof. by move=> h; apply: d_up => //; right; left. Qed.
Lemma upQ w a : der cE w a -> der cQ w a.
Proof. by move=> h; do 2!(apply: d_up; [rewrite /is_bin; tauto|]); exact: h. Qed.
Ltac sp := by rewrite /spells /=; tauto.
Theorem C46_sub_left x y z a b c : number x -> number y -> number z ->
  e_scan o x = Ok a -> e_scan o y = Ok b -> e_scan o z = Ok c ->
  cmd_line_parse o [x; "-"; y; "-"; z]%string = shows (u <- e_sub o a b ;; v <- e_sub o u c ;; Ok (AT v)).
Proof.
move=> hx hy hz ea eb ec.
have d : der cQ [x; "-"; y; "-"; z]%string (ABin L_MINUS (ABin L_MINUS (ANum x) (ANum y)) (ANum z)).
  apply: upQ; apply: (@d_bin cE [x; "-"; y]%string "-"%string L_MINUS [z]); [by right| |sp|by apply: upT; apply: dnum].
  apply: (@d_bin cE [x] "-"%string L_MINUS [y]); [by right| |sp|by apply: upT; apply: dnum].
  by apply: upE; apply: upT; apply: dnum.
rewrite (C46_eval d) /shows /= ea eb ec /=; case: (e_sub o a b) => //= u; by case: (e_sub o u c).
Qed.
Theorem C46_div_left x y z a b c : number x -> number y -> number z ->
  e_scan o x = Ok a -> e_scan o y = Ok b -> e_scan o z = Ok c ->
  cmd_line_parse o [x; "/"; y; "/"; z]%string = shows (u <- e_div o a b ;; v <- e_div o u c ;; Ok (AT v)).
Proof.
move=> hx hy hz ea eb ec.
have d : der cQ [x; "/"; y; "/"; z]%string (ABin L_DIV (ABin L_DIV (ANum x) (ANum y)) (ANum z)).
  apply: upQ; apply: upE; apply: (@d_bin cT [x; "/"; y]%string "/"%string L_DIV [z]); [by right; left| |sp|exact: dnum].
  apply: (@d_bin cT [x] "/"%string L_DIV [y]); [by right; left| |sp|exact: dnum].
  by apply: upT; apply: dnum.
rewrite (C46_eval d) /shows /= ea eb ec /=; case: (e_div o a b) => //= u; by case: (e_div o u c).
Qed.
(* ^ before the unary minus and *, those before +, that before == *)
Theorem C46_precedence x y z n v a b c i d : number x -> number y -> number z -> number n -> number v ->
  e_scan o x = Ok a -> e_scan o y = Ok b -> e_scan o z = Ok c -> e_scan_int o n = Ok i -> e_scan o v = Ok d ->
  cmd_line_parse o [x; "+"; y; "*"; "-"; z; "^"; n; "=="; v]%string =
  shows (p <- clo_exp o c i ;; q <- e_neg o p ;; r <- e_mul o b q ;; s <- e_add o a r ;; t <- e_eqb o s d ;; Ok (AI (Z.b2z t))).
Proof.
move=> hx hy hz hn hv ea eb ec ei ed.
have dd : der cQ [x; "+"; y; "*"; "-"; z; "^"; n; "=="; v]%string
    (ABin L_EQ (ABin L_PLUS (ANum x) (ABin L_MUL (ANum y) (ANeg (APow (ANum z) (ANum n))))) (ANum v)).
  apply: (@d_bin cQ [x; "+"; y; "*"; "-"; z; "^"; n]%string "=="%string L_EQ [v]); [by left| |sp| ].
    apply: upQ; apply: (@d_bin cE [x] "+"%string L_PLUS [y; "*"; "-"; z; "^"; n]%string); [by left| |sp| ].
      by apply: upE; apply: upT; apply: dnum.
    apply: (@d_bin cT [y] "*"%string L_MUL ["-"; z; "^"; n]%string); [by left|by apply: upT; apply: dnum|sp| ].
    apply: (@d_neg "-"%string [z; "^"; n]%string); first sp.
    apply: (@d_pow [z] "^"%string [n]); [by apply: d_base; apply: d_num|sp|exact: d_num].
  by apply: d_up; [rewrite /is_bin; tauto|]; apply: upE; apply: upT; apply: dnum.
rewrite (C46_eval dd) /shows /= ea eb ec ei ed /=; case: (clo_exp o c i) => //= p; case: (e_neg o p) => //= q.
case: (e_mul o b q) => //= r; case: (e_add o a r) => //= s; by case: (e_eqb o s d).
Qed.
Theorem C46_parentheses x y z a b c : number x -> number y -> number z ->
  e_scan o x = Ok a -> e_scan o y = Ok b -> e_scan o z = Ok c ->
  cmd_line_parse o [x; "*"; "("; y; "-"; z; ")"]%string = shows (u <- e_sub o b c ;; v <- e_mul o a u ;; Ok (AT v)).
Proof.
move=> hx hy hz ea eb ec.
have d : der cQ [x; "*"; "("; y; "-"; z; ")"]%string (ABin L_MUL (ANum x) (ABin L_MINUS (ANum y) (ANum z))).
  apply: upQ; apply: upE; apply: (@d_bin cT [x] "*"%string L_MUL ["("; y; "-"; z; ")"]%string); [by left|by apply: upT; apply: dnum|sp| ].
  apply: d_fac; apply: d_base; apply: (@d_par "("%string [y; "-"; z]%string ")"%string); [sp| |sp].
  apply: (@d_bin cE [y] "-"%string L_MINUS [z]); [by right|by apply: upE; apply: upT; apply: dnum|sp|by apply: upT; apply: dnum].
rewrite (C46_eval d) /shows /= ea eb ec /=; case: (e_sub o b c) => //= u; by case: (e_mul o a u).
Qed.
End Eval.

(* ---- integers modulo m: the value in Z/m ---- *)
(* rd: the int read from a string.  Number strings give non-negative ints (see C46_negative_refuted) except in exponents. *)
Theorem C46_intmod (m : nat) (hist : list intmod) (rd : string -> option Z) w a :
  (1 < m)%N -> (Z.of_nat m <= 46341)%coqZ -> (forall b, List.In b hist -> (1 <= modulus b <= INT_MAX)%coqZ) ->
  der cQ w a ->
  (forall s v, List.In s (bases a) -> rd s = Some v -> (0 <= v <= INT_MAX)%coqZ) ->
  (forall s n, List.In s (exps a) -> rd s = Some n -> (INT_MIN < n <= INT_MAX)%coqZ) ->
  cmd_line_parse (im_eops (cache_after hist) (Z.of_nat m) rd) w =
  match rval (fun x : 'Z_m => nat_of_ord x) (fun s => omap (@zr m) (rd s)) rd a with
  | Some (inl x) => ([AT (mkim (Z.of_nat (nat_of_ord x)) (Z.of_nat m))], Ok tt)
  | Some (inr b) => ([AI (Z.b2z b)], Ok tt)
  | None => ([], Exn)
  end.
Proof.
move=> m2 mM hh d hb he; rewrite (C46_eval _ d).
rewrite (ev_ring (im_espec rd m2 mM (cache_after_valid _ hh)) he (im_bases (cache_after hist) m2 hb)).
by case: (rval _ _ _ a) => [[x|b]|].
Qed.
Theorem C46_intmod_total (m : nat) (hist : list intmod) (rd : string -> option Z) w :
  (1 < m)%N -> (Z.of_nat m <= 46341)%coqZ -> (forall b, List.In b hist -> (1 <= modulus b <= INT_MAX)%coqZ) ->
  (forall s v, rd s = Some v -> (0 <= v <= INT_MAX)%coqZ) ->
  let r := (cmd_line_parse (im_eops (cache_after hist) (Z.of_nat m) rd) w).2 in r = Ok tt \/ r = Exn.
Proof.
move=> m2 mM hh hr.
have hs := safe_ring (im_espec rd m2 mM (cache_after_valid _ hh)).
have {}hs := hs _ _; case: (C46_total w (hs _ _)) => //.
  move=> s; have hb := im_bases (cache_after hist) m2 (e := ANum s) (rd := rd).
  rewrite hb /=; [by case: (rd s) => [v|] //=; eexists|by move=> t v _; exact: hr|by left].
by move=> s n /hr; rewrite /INT_MIN; lia.
Qed.

(* a reader for the examples *)
Definition rd0 (s : string) : option Z :=
  if (s =? "1")%string then Some 1%coqZ else if (s =? "2")%string then Some 2%coqZ else if (s =? "4")%string then Some 4%coqZ
  else if (s =? "-3")%string then Some (-3)%coqZ else if (s =? "-2147483648")%string then Some INT_MIN else None.
Definition o7 : eops intmod := im_eops cache_init 7 rd0.

(* text after the expression is noticed when the value has been printed already *)
Theorem C46_extraneous_refuted : exists w, (forall a, ~ der cQ w a) /\ (cmd_line_parse o7 w).1 <> [] /\ (cmd_line_parse o7 w).2 = Exn.
Proof.
exists ["1"; "2"]%string; split; last by vm_compute.
move=> a d; have := C46_eval o7 d; have -> : cmd_line_parse o7 ["1"; "2"]%string = ([AT (mkim 1 7)], Exn) by vm_compute.
by case: (ev o7 false a).
Qed.
(* a negative number is read without reduction to 0 .. m - 1 (C09_stream_in_refuted): modulo 7, -3 == 4 is false *)
Theorem C46_negative_refuted : cmd_line_parse o7 ["-3"; "=="; "4"]%string = ([AI 0%coqZ], Ok tt) /\ @zr 7 (-3) = @zr 7 4.
Proof. by split; [vm_compute|apply/eqP; vm_compute]. Qed.
(* the most negative exponent is negated: undefined, although it is compared with its negative first *)
Theorem C46_int_min_refuted : cmd_line_parse o7 ["2"; "^"; "-2147483648"]%string = ([], UB).
Proof. by vm_compute. Qed.

Example C46_ex : exists a, der cQ ["2"; "+"; "1"; "*"; "-"; "4"; "^"; "-3"]%string a /\
  (forall s v, List.In s (bases a) -> rd0 s = Some v -> (0 <= v <= INT_MAX)%coqZ) /\
  (forall s n, List.In s (exps a) -> rd0 s = Some n -> (INT_MIN < n <= INT_MAX)%coqZ) /\
  cmd_line_parse o7 ["2"; "+"; "1"; "*"; "-"; "4"; "^"; "-3"]%string = ([AT (mkim 1 7)], Ok tt) /\
  (cmd_line_parse o7 ["("; "1"; "+"]%string).2 = Exn /\ (cmd_line_parse o7 ["1"; "<"; "2"; "<"; "4"]%string).2 = Exn /\
  cmd_line_parse o7 ["("; "1"; "]"; "<="; "2"]%string = ([AI 1%coqZ], Ok tt).
Proof.
have nn s : lex_op s = None -> number s by move=> h; apply/nospell.
exists (ABin L_PLUS (ANum "2") (ABin L_MUL (ANum "1") (ANeg (APow (ANum "4") (ANum "-3"))))); split.
  apply: upQ; apply: (@d_bin cE ["2"]%string "+"%string L_PLUS ["1"; "*"; "-"; "4"; "^"; "-3"]%string); [by left| |by rewrite /spells /=; tauto| ].
    by apply: upE; apply: upT; apply: dnum; apply: nn.
  apply: (@d_bin cT ["1"]%string "*"%string L_MUL ["-"; "4"; "^"; "-3"]%string); [by left|by apply: upT; apply: dnum; apply: nn|by rewrite /spells /=; tauto| ].
  apply: (@d_neg "-"%string ["4"; "^"; "-3"]%string); first by rewrite /spells /=; tauto.
  by apply: (@d_pow ["4"]%string "^"%string ["-3"]%string); [apply: d_base; apply: d_num; apply: nn|rewrite /spells /=; tauto|apply: d_num; apply: nn].
split; first (move=> s v; rewrite [bases _]/= /List.In => -[<-|[<-|[<-|[]]]]; rewrite /rd0 [X in X -> _]/= => -[<-]; rewrite /INT_MAX; lia).
split; first (move=> s v; rewrite [exps _]/= /List.In => -[<-|[]]; rewrite /rd0 [X in X -> _]/= => -[<-]; rewrite /INT_MIN /INT_MAX; lia).
by vm_compute.
Qed.

Print Assumptions C46_eval. Print Assumptions C46_reject. Print Assumptions C46_empty. Print Assumptions C46_total.
Print Assumptions C46_sub_left. Print Assumptions C46_div_left. Print Assumptions C46_precedence. Print Assumptions C46_parentheses.
Print Assumptions C46_intmod. Print Assumptions C46_intmod_total. Print Assumptions C46_extraneous_refuted.
Print Assumptions C46_negative_refuted. Print Assumptions C46_int_min_refuted.
