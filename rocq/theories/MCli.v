(* Model of spffl/cli_parser/cmd_line_ops.h: the recursive-descent evaluator of the command line.
   Definitions only.

   The element type and its operators are parameters (record eops); reading an element or an int
   from a string is a parameter too (it may throw, and a failed read throws, 224-239).

   The arguments not yet read are a list of strings.  An atom_t is its type_val or its int_val
   (is_int); the other field is never used.  The stack is a list, the top first (tstack: C44).
   Printing is modelled by the list of the atoms printed.

   The functions P, U, F, T, E, C, Q and the bodies of their while (1) loops are the cases of
   one recursive function; None: out of fuel. *)
From Verif Require Import Base MIntmod.
Require Export String.
Open Scope nat_scope.

(* operators of the element type *)
Record eops (A : Type) := mkeops {
  e_neg : A -> res A;
  e_add : A -> A -> res A;
  e_sub : A -> A -> res A;
  e_mul : A -> A -> res A;
  e_div : A -> A -> res A;
  e_mod : A -> A -> res A;
  e_eqb : A -> A -> res bool;
  e_neqb : A -> A -> res bool;
  e_ltb : A -> A -> res bool;
  e_leb : A -> A -> res bool;
  e_gtb : A -> A -> res bool;
  e_geb : A -> A -> res bool;
  e_zero : A;
  e_one : A;
  e_scan : string -> res A;
  e_scan_int : string -> res Z }.

Arguments e_neg {A}. Arguments e_add {A}. Arguments e_sub {A}. Arguments e_mul {A}. Arguments e_div {A}.
Arguments e_mod {A}. Arguments e_eqb {A}. Arguments e_neqb {A}. Arguments e_ltb {A}. Arguments e_leb {A}.
Arguments e_gtb {A}. Arguments e_geb {A}. Arguments e_zero {A}. Arguments e_one {A}. Arguments e_scan {A}.
Arguments e_scan_int {A}.

(* 46-69 without L_NUM, L_EOL, L_UNDEF, L_ORD *)
Inductive tok := L_PLUS | L_MINUS | L_MUL | L_DIV | L_MOD | L_EXP | L_UPLUS | L_UMINUS
  | L_EQ | L_NE | L_LT | L_LE | L_GT | L_GE | L_LPAREN | L_RPAREN.
(* 180-222: the operator or bracket a string stands for *)
Definition lex_op (s : string) : option tok :=
  if (s =? "+")%string then Some L_PLUS
  else if (s =? "-")%string then Some L_MINUS
  else if (s =? "*")%string then Some L_MUL
  else if (s =? ".")%string then Some L_MUL
  else if (s =? "/")%string then Some L_DIV
  else if (s =? "%")%string then Some L_MOD
  else if (s =? "^")%string then Some L_EXP
  else if (s =? "==")%string then Some L_EQ
  else if (s =? "!=")%string then Some L_NE
  else if (s =? "/=")%string then Some L_NE
  else if (s =? "<")%string then Some L_LT
  else if (s =? "<=")%string then Some L_LE
  else if (s =? ">")%string then Some L_GT
  else if (s =? ">=")%string then Some L_GE
  else if (s =? "(")%string then Some L_LPAREN
  else if (s =? ")")%string then Some L_RPAREN
  else if (s =? "[")%string then Some L_LPAREN
  else if (s =? "]")%string then Some L_RPAREN
  else None.

Section Cli.
Context {A : Type} (o : eops A).
(* 29-33 *)
Inductive atom := AT (a : A) | AI (i : Z).
Inductive token := TNum (a : atom) | TEol | TOp (t : tok).
(* 35-44: argv from argi on, token (with atom), in_pow_rhs *)
Record ctx := mkctx { c_rest : list string; c_tok : token; c_pow : nat }.

(* 172-242 *)
Definition lexan (c : ctx) : res ctx :=
  match c_rest c with
  | [] => Ok (mkctx [] TEol (c_pow c))
  | s :: rest =>
      match lex_op s with
      | Some t => Ok (mkctx rest (TOp t) (c_pow c))
      | None =>
          a <- (if 0 <? c_pow c then i <- e_scan_int o s ;; Ok (AI i) else a <- e_scan o s ;; Ok (AT a)) ;;
          Ok (mkctx rest (TNum a) (c_pow c))
      end
  end.

(* 279-285: state (e, xp, rv) *)
Definition clo_step (s : Z * A * A) : res ((Z * A * A) + A) :=
  let '(e, xp, rv) := s in
  if (e =? 0)%Z then Ok (inr rv)
  else
    rv <- (if Z.odd e then e_mul o rv xp else Ok rv) ;;
    let e := (e / 2)%Z in
    xp <- e_mul o xp xp ;;
    Ok (inl (e, xp, rv)).
(* 245-288; e is positive in the loop, so that the unsigned shift is e / 2 *)
Definition clo_exp (x : A) (e : Z) : res A :=
  z <- e_eqb o x (e_zero o) ;;
  if z : bool then if (e <? 0)%Z then Exn else if (e =? 0)%Z then Exn else Ok (e_zero o)
  else if (e =? 0)%Z then Ok (e_one o)
  else
    '(xp, e) <- (if (e <? 0)%Z then
                   m <- ineg e ;;
                   if (e =? m)%Z then Exn
                   else xp <- e_div o (e_one o) x ;; m <- ineg e ;; Ok (xp, m)
                 else Ok (x, e)) ;;
    loop 33 clo_step (e, xp, e_one o).

Definition b2i (b : res bool) : res atom := x <- b ;; Ok (AI (if x : bool then 1 else 0)%Z).
Definition aT (r : res A) : res atom := x <- r ;; Ok (AT x).
(* 291-439 for an operator; the stack holds the operands.  An underflow would use uninitialised
   atoms (the results of pop at 341-346 are not looked at). *)
Definition emit (t : tok) (st : list atom) : res (list atom) :=
  match t with
  | L_UPLUS => Ok st
  | L_UMINUS =>
      match st with
      | AT a :: st => c <- aT (e_neg o a) ;; Ok (c :: st)
      | AI _ :: _ => Exn
      | [] => UB
      end
  | L_LPAREN | L_RPAREN => Exn
  | L_EXP =>
      match st with
      | AI i :: AT a :: st => c <- aT (clo_exp a i) ;; Ok (c :: st)
      | _ :: _ :: _ => Exn
      | _ => UB
      end
  | _ =>
      match st with
      | AT b :: AT a :: st =>
          c <- (match t with
                | L_PLUS => aT (e_add o a b)
                | L_MINUS => aT (e_sub o a b)
                | L_MUL => aT (e_mul o a b)
                | L_DIV => aT (e_div o a b)
                | L_MOD => aT (e_mod o a b)
                | L_EQ => b2i (e_eqb o a b)
                | L_NE => b2i (e_neqb o a b)
                | L_LT => b2i (e_ltb o a b)
                | L_LE => b2i (e_leb o a b)
                | L_GT => b2i (e_gtb o a b)
                | _ => b2i (e_geb o a b)
                end) ;;
          Ok (c :: st)
      | _ :: _ :: _ => Exn
      | _ => UB
      end
  end.

Definition pow_inc (c : ctx) : ctx := mkctx (c_rest c) (c_tok c) (S (c_pow c)).
Definition pow_dec (c : ctx) : ctx := mkctx (c_rest c) (c_tok c) (c_pow c - 1).
(* 442-453 for L_RPAREN *)
Definition match_rparen (c : ctx) : res ctx :=
  match c_tok c with TOp L_RPAREN => lexan c | _ => Exn end.

(* the nonterminals; the primed ones are the while (1) loops *)
Inductive nt := nP | nU | nU' | nF | nT | nT' | nE | nE' | nC | nC' | nQ | nQ'.
Definition orbind {X Y} (r : option (res X)) (f : X -> option (res Y)) : option (res Y) :=
  match r with
  | None => None
  | Some (Ok x) => f x
  | Some Exn => Some Exn
  | Some UB => Some UB
  | Some Div => Some Div
  end.
(* the bodies; rec: the functions called *)
Definition pbody (rec : nt -> ctx -> list atom -> option (res (ctx * list atom))) (k : nt) (c : ctx) (st : list atom)
  : option (res (ctx * list atom)) :=
  let ret := Some (Ok (c, st)) in
  (* one pass of a loop of the form of 575-588: t is the operator, sub the right operand *)
  let binary t sub again :=
    orbind (Some (lexan c)) (fun c => orbind (rec sub c st) (fun '(c, st) =>
    orbind (Some (emit t st)) (fun st => rec again c st))) in
  match k with
  (* 456-475 *)
  | nP =>
      match c_tok c with
      | TOp L_LPAREN =>
          orbind (Some (lexan c)) (fun c => orbind (rec nE c st) (fun '(c, st) =>
          orbind (Some (match_rparen c)) (fun c => Some (Ok (c, st)))))
      | TNum a => orbind (Some (lexan c)) (fun c => Some (Ok (c, a :: st)))
      | _ => Some Exn
      end
  (* 478-505 *)
  | nU => orbind (rec nP c st) (fun '(c, st) => rec nU' c st)
  | nU' =>
      match c_tok c with
      | TOp L_EXP =>
          orbind (Some (lexan (pow_inc c))) (fun c => orbind (rec nP c st) (fun '(c, st) =>
          orbind (Some (emit L_EXP st)) (fun st => rec nU' (pow_dec c) st)))
      | _ => ret
      end
  (* 508-542 *)
  | nF =>
      match c_tok c with
      | TOp L_PLUS =>
          orbind (Some (lexan c)) (fun c => orbind (rec nU c st) (fun '(c, st) =>
          orbind (Some (emit L_UPLUS st)) (fun st => Some (Ok (c, st)))))
      | TOp L_MINUS =>
          orbind (Some (lexan c)) (fun c => orbind (rec nU c st) (fun '(c, st) =>
          orbind (Some (emit L_UMINUS st)) (fun st => Some (Ok (c, st)))))
      | _ => rec nU c st
      end
  (* 545-566 *)
  | nT => orbind (rec nF c st) (fun '(c, st) => rec nT' c st)
  | nT' =>
      match c_tok c with
      | TOp (L_MUL as t) | TOp (L_DIV as t) | TOp (L_MOD as t) => binary t nF nT'
      | _ => ret
      end
  (* 569-589 *)
  | nE => orbind (rec nT c st) (fun '(c, st) => rec nE' c st)
  | nE' =>
      match c_tok c with
      | TOp (L_PLUS as t) | TOp (L_MINUS as t) => binary t nT nE'
      | _ => ret
      end
  (* 592-614 *)
  | nC => orbind (rec nE c st) (fun '(c, st) => rec nC' c st)
  | nC' =>
      match c_tok c with
      | TOp (L_LT as t) | TOp (L_LE as t) | TOp (L_GT as t) | TOp (L_GE as t) => binary t nE nC'
      | _ => ret
      end
  (* 617-637 *)
  | nQ => orbind (rec nC c st) (fun '(c, st) => rec nQ' c st)
  | nQ' =>
      match c_tok c with
      | TOp (L_EQ as t) | TOp (L_NE as t) => binary t nC nQ'
      | _ => ret
      end
  end.
Fixpoint parse (n : nat) (k : nt) (c : ctx) (st : list atom) : option (res (ctx * list atom)) :=
  match n with
  | O => None
  | S n => pbody (parse n) k c st
  end.

(* 641-666: what is printed, and how it ends.  lexan at the end of the arguments leaves the token L_EOL, so that
   the loop is left after one pass. *)
Definition cmd_line_parse (argv : list string) : list atom * res unit :=
  match lexan (mkctx argv TEol 0) with
  | Ok c =>
      match c_tok c with
      | TEol => ([], Ok tt)
      | _ =>
          match parse (20 * (List.length argv + 2)) nQ c [] with
          | Some (Ok (c, st)) =>
              match st with
              | [] => ([], Exn)
              | result :: _ =>
                  match c_tok c with
                  | TEol => ([result], Ok tt)
                  | _ => ([result], Exn)
                  end
              end
          | Some Exn => ([], Exn)
          | Some UB => ([], UB)
          | Some Div | None => ([], Div)
          end
      end
  | Exn => ([], Exn)
  | UB => ([], UB)
  | Div => ([], Div)
  end.
End Cli.
Arguments AT {A}. Arguments AI {A}.

(* the operators of intmod_t; a != b is !(a == b) (intmod_t.cpp:151-153); zero and one are given by the caller, in the
   modulus of the command (cli/spiff/fp_handlers.cpp:76-79).  rd: the int read from a string by a stream, None: failure *)
Definition im_eops (c : cache) (m : Z) (rd : string -> option Z) : eops intmod :=
  mkeops intmod im_neg im_add im_sub im_mul (im_div c) (im_mod c) im_eqb (fun a b => t <- im_eqb a b ;; Ok (negb t))
    im_ltb im_leb im_gtb im_geb (mkim 0 m) (mkim 1 m)
    (fun s => match rd s with Some v => im_stream_in (mkim 0 m) v | None => Exn end)
    (fun s => match rd s with Some v => Ok v | None => Exn end).
