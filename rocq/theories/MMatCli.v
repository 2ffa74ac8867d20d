(* Model of spffl/cli_parser/cmd_line_vector_ops.h and cmd_line_matrix_ops.h: the evaluators of vector and matrix
   expressions on the command line, with bracket_in of tvector.h and tmatrix.h.  Definitions only.

   The two files have the same functions match, P, U, F, T, E, Q and main loop; the matrix one has unary operators
   spelt as words.  They are modelled once, over a record mach of what differs: the lexer, reading an operand into
   the current atom, push, emit for an operator, and the assignment save = rlex_ctx.  Line numbers V: vector file,
   M: matrix file.

   The element type, its operators and reading an element from a stream are parameters.  Vectors are lists (tvector:
   C43).  Where a vector is assigned to an existing object (stack slots, the local variables save) the size of the
   object's buffer is tracked, since tvector::operator= overruns a smaller one (C43_assign_refuted).  tmatrix::operator=
   reallocates, so that matrices need no such care. *)
From Verif Require Import Base MIntmod MMat.
Require Export String Ascii.
Open Scope nat_scope.

(* V48-64, M48-74 without the operand, L_EOL and L_UNDEF *)
Inductive tok := L_PLUS | L_MINUS | L_MUL | L_EXP | L_UPLUS | L_UMINUS | L_EQ | L_NE | L_LPAREN | L_RPAREN
  | L_INV | L_DET | L_KERBAS | L_RR | L_RECH | L_RECHR | L_RRNZ | L_RECHNZ | L_TRANSPOSE | L_RANK.
(* V155-185 *)
Definition vec_lex_op (s : string) : option tok :=
  if (s =? "+")%string then Some L_PLUS
  else if (s =? "-")%string then Some L_MINUS
  else if (s =? "*")%string then Some L_MUL
  else if (s =? ".")%string then Some L_MUL
  else if (s =? "^")%string then Some L_EXP
  else if (s =? "==")%string then Some L_EQ
  else if (s =? "!=")%string then Some L_NE
  else if (s =? "/=")%string then Some L_NE
  else if (s =? "(")%string then Some L_LPAREN
  else if (s =? ")")%string then Some L_RPAREN
  else if (s =? "[")%string then Some L_LPAREN
  else if (s =? "]")%string then Some L_RPAREN
  else None.
(* M196-248: the same, and the words of the unary operators *)
Definition mat_lex_op (s : string) : option tok :=
  match vec_lex_op s with
  | Some t => Some t
  | None =>
      if (s =? "rank")%string then Some L_RANK
      else if (s =? "det")%string then Some L_DET
      else if (s =? "inv")%string then Some L_INV
      else if (s =? "kerbas")%string then Some L_KERBAS
      else if (s =? "rr")%string then Some L_RR
      else if (s =? "rech")%string then Some L_RECH
      else if (s =? "rechr")%string then Some L_RECHR
      else if (s =? "rrnz")%string then Some L_RRNZ
      else if (s =? "rechnz")%string then Some L_RECHNZ
      else if (s =? "transpose")%string then Some L_TRANSPOSE
      else None
  end.

(* At: the atom of the context; St: the stack; Sv: the storage of a variable save *)
Record mach (At St Sv : Type) := mkmach {
  m_lex : string -> option tok;
  m_scan : string -> At -> res At;
  m_scan_int : string -> At -> res At;
  m_push : At -> St -> res St;
  m_op : tok -> St -> res St;
  m_sv0 : Sv;
  m_save : Sv -> At -> res Sv;
  m_top : St -> option At }.
Arguments mkmach {At St Sv}. Arguments m_lex {At St Sv}. Arguments m_scan {At St Sv}. Arguments m_scan_int {At St Sv}.
Arguments m_push {At St Sv}. Arguments m_op {At St Sv}. Arguments m_sv0 {At St Sv}. Arguments m_save {At St Sv}.
Arguments m_top {At St Sv}.

Section Parser.
Context {At St Sv : Type} (o : mach At St Sv).
Inductive token := TNum | TEol | TOp (t : tok).
(* V37-46, M37-46: argv from argi on, token, atom, in_pow_rhs *)
Record ctx := mkctx { c_rest : list string; c_tok : token; c_atom : At; c_pow : nat }.

(* V146-228, M187-282 *)
Definition lexan (c : ctx) : res ctx :=
  match c_rest c with
  | [] => Ok (mkctx [] TEol (c_atom c) (c_pow c))
  | s :: rest =>
      match m_lex o s with
      | Some t => Ok (mkctx rest (TOp t) (c_atom c) (c_pow c))
      | None =>
          a <- (if 0 <? c_pow c then m_scan_int o s (c_atom c) else m_scan o s (c_atom c)) ;;
          Ok (mkctx rest TNum a (c_pow c))
      end
  end.
Definition pow_inc (c : ctx) : ctx := mkctx (c_rest c) (c_tok c) (c_atom c) (S (c_pow c)).
Definition pow_dec (c : ctx) : ctx := mkctx (c_rest c) (c_tok c) (c_atom c) (c_pow c - 1).
(* V382-394, M508-520 for L_RPAREN *)
Definition match_rparen (c : ctx) : res ctx :=
  match c_tok c with TOp L_RPAREN => lexan c | _ => Exn end.
(* M593-602: the words of F *)
Definition is_word (t : tok) : bool :=
  match t with
  | L_RANK | L_INV | L_DET | L_KERBAS | L_RR | L_RECH | L_RECHR | L_RRNZ | L_RECHNZ | L_TRANSPOSE => true
  | _ => false
  end.

(* the nonterminals; the primed ones are the while (1) loops, with the storage of their variable save *)
Inductive nt := nP | nU | nU' (sv : Sv) | nF | nT | nT' (sv : Sv) | nE | nE' (sv : Sv) | nQ | nQ' (sv : Sv).
Definition orbind {X Y} (r : option (res X)) (f : X -> option (res Y)) : option (res Y) :=
  match r with
  | None => None
  | Some (Ok x) => f x
  | Some Exn => Some Exn
  | Some UB => Some UB
  | Some Div => Some Div
  end.
Definition pbody (rec : nt -> ctx -> St -> option (res (ctx * St))) (k : nt) (c : ctx) (st : St)
  : option (res (ctx * St)) :=
  let ret := Some (Ok (c, st)) in
  (* one pass of a loop *)
  let binary sv t sub again :=
    orbind (Some (m_save o sv (c_atom c))) (fun sv => orbind (Some (lexan c)) (fun c =>
    orbind (rec sub c st) (fun '(c, st) => orbind (Some (m_op o t st)) (fun st => rec (again sv) c st)))) in
  (* a case of F: the operator emitted is t *)
  let unary t :=
    orbind (Some (m_save o (m_sv0 o) (c_atom c))) (fun _ => orbind (Some (lexan c)) (fun c =>
    orbind (rec nU c st) (fun '(c, st) => orbind (Some (m_op o t st)) (fun st => Some (Ok (c, st)))))) in
  match k with
  (* V396-416, M522-542 *)
  | nP =>
      match c_tok c with
      | TOp L_LPAREN =>
          orbind (Some (lexan c)) (fun c => orbind (rec nE c st) (fun '(c, st) =>
          orbind (Some (match_rparen c)) (fun c => Some (Ok (c, st)))))
      | TNum => orbind (Some (m_push o (c_atom c) st)) (fun st => orbind (Some (lexan c)) (fun c => Some (Ok (c, st))))
      | _ => Some Exn
      end
  (* V418-443, M544-569 *)
  | nU => orbind (rec nP c st) (fun '(c, st) => rec (nU' (m_sv0 o)) c st)
  | nU' sv =>
      match c_tok c with
      | TOp L_EXP =>
          orbind (Some (m_save o sv (c_atom c))) (fun sv => orbind (Some (lexan (pow_inc c))) (fun c =>
          orbind (rec nP c st) (fun '(c, st) => orbind (Some (m_op o L_EXP st)) (fun st => rec (nU' sv) (pow_dec c) st))))
      | _ => ret
      end
  (* V445-471, M571-613 *)
  | nF =>
      match c_tok c with
      | TOp L_PLUS => unary L_UPLUS
      | TOp L_MINUS => unary L_UMINUS
      | TOp t => if is_word t then unary t else rec nU c st
      | _ => rec nU c st
      end
  (* V473-493, M615-635 *)
  | nT => orbind (rec nF c st) (fun '(c, st) => rec (nT' (m_sv0 o)) c st)
  | nT' sv =>
      match c_tok c with
      | TOp (L_MUL as t) => binary sv t nF nT'
      | _ => ret
      end
  (* V495-516, M637-658 *)
  | nE => orbind (rec nT c st) (fun '(c, st) => rec (nE' (m_sv0 o)) c st)
  | nE' sv =>
      match c_tok c with
      | TOp (L_PLUS as t) | TOp (L_MINUS as t) => binary sv t nT nE'
      | _ => ret
      end
  (* V518-539, M660-681 *)
  | nQ => orbind (rec nE c st) (fun '(c, st) => rec (nQ' (m_sv0 o)) c st)
  | nQ' sv =>
      match c_tok c with
      | TOp (L_EQ as t) | TOp (L_NE as t) => binary sv t nE nQ'
      | _ => ret
      end
  end.
Fixpoint parse (n : nat) (k : nt) (c : ctx) (st : St) : option (res (ctx * St)) :=
  match n with
  | O => None
  | S n => pbody (parse n) k c st
  end.
(* V541-581, M683-723: what is printed, and how it ends.  At the end of the arguments the token stays L_EOL, so that
   the loop is left after one pass.  a0, st0: the initial atom and stack. *)
Definition cmd_parse (a0 : At) (st0 : St) (argv : list string) : list At * res unit :=
  match lexan (mkctx argv TEol a0 0) with
  | Ok c =>
      match c_tok c with
      | TEol => ([], Ok tt)
      | _ =>
          match parse (20 * (List.length argv + 2)) nQ c st0 with
          | Some (Ok (c, st)) =>
              match m_top o st with
              | None => ([], Exn)
              | Some result =>
                  match c_tok c with
                  | TEol => ([result], Ok tt)
                  | _ => ([result], Exn)
                  end
              end
          | Some Exn => ([], Exn)
          | Some UB => ([], UB)
          | Some Div | None => ([], Div)
          end
      end
  | Exn => ([], Exn)
  | UB => ([], UB)
  | Div => ([], Div)
  end.
End Parser.

(* ---------------------------------------------------------------- *)
(* strchr: the text from the first c on *)
Fixpoint strchr (s : list ascii) (c : ascii) : option (list ascii) :=
  match s with
  | [] => None
  | x :: t => if (x =? c)%char then Some s else strchr t c
  end.
(* strrchr, and 0 stored there: the text before the last c *)
Fixpoint before_last (s : list ascii) (c : ascii) : option (list ascii) :=
  match s with
  | [] => None
  | x :: t =>
      match before_last t c with
      | Some u => Some (x :: u)
      | None => if (x =? c)%char then Some [] else None
      end
  end.
(* tmatrix.h:204-206 *)
Fixpoint skip_blank (s : list ascii) : list ascii :=
  match s with
  | x :: t => if (x =? " ")%char || (x =? "009")%char then skip_blank t else s
  | [] => []
  end.
(* base/tokenize.cpp:26-67 for one separator (C56): the non-empty pieces; cur: the piece begun, reversed *)
Fixpoint pieces (sep : ascii) (cur : list ascii) (s : list ascii) : list (list ascii) :=
  match s with
  | [] => match cur with [] => [] | _ => [rev cur] end
  | x :: t =>
      if (x =? sep)%char then match cur with [] => pieces sep [] t | _ => rev cur :: pieces sep [] t end
      else pieces sep (x :: cur) t
  end.

Section Input.
Context {A : Type}.
(* reading one element with operator>>: None: failure; otherwise the element, the text left and whether eof was met *)
Variable get : list ascii -> res (option (A * list ascii * bool)).
(* tvector.h:577-606; None: failure.  The eofbit of a new stream is not set, so that at least one element is read.
   Fuel: more than the length of the text (every element takes a character). *)
Fixpoint vec_read (n : nat) (s : list ascii) : res (option (list A)) :=
  match n with
  | O => Div
  | S n =>
      e <- get s ;;
      match e with
      | None => Ok None
      | Some (a, s, true) => Ok (Some [a])
      | Some (a, s, false) => r <- vec_read n s ;; Ok (option_map (cons a) r)
      end
  end.
Definition vec_stream (s : list ascii) : res (option (list A)) := vec_read (S (List.length s)) s.
(* tvector.h:140-167; None: returns false *)
Definition vec_bracket_in (s : list ascii) : res (option (list A)) :=
  match strchr s "[" with
  | None => Ok None
  | Some t =>
      match before_last (tl t) "]" with
      | None => Ok None
      | Some u => vec_stream u
      end
  end.
(* tmatrix.h:213-243: the rows of nested brackets; None: returns false *)
Fixpoint mat_rows_in (ps : list (list ascii)) : res (option (list (list A))) :=
  match ps with
  | [] => Ok (Some [])
  | p :: ps =>
      r <- vec_bracket_in ("["%char :: p) ;;
      match r with
      | None => Ok None
      | Some r => rs <- mat_rows_in ps ;; Ok (option_map (cons r) rs)
      end
  end.
(* tmatrix.h:87-110; num_cols, or None *)
Definition check_ragged (rows : list (list A)) : option nat :=
  match rows with
  | [] => None
  | r :: rs => if forallb (fun x => List.length x =? List.length r) rs then Some (List.length r) else None
  end.
(* tmatrix.h:184-276, on a matrix with an element; None: returns false *)
Definition mat_bracket_in (s : list ascii) : res (option (tmat A)) :=
  match strchr s "[" with
  | None => Ok None
  | Some t =>
      match before_last t "]" with
      | None => Ok None
      | Some u =>
          let inner := skip_blank (tl u) in
          match strchr inner "[" with
          | Some _ =>
              rows <- mat_rows_in (pieces "[" [] inner) ;;
              match rows with
              | None => Ok None
              | Some rows =>
                  match check_ragged rows with
                  | None => Ok None
                  | Some nc => Ok (Some (mkmat rows nc))
                  end
              end
          | None =>
              col <- vec_stream inner ;;
              match col with
              | None => Ok None
              | Some l => Ok (Some (mkmat (map (fun x => [x]) l) 1))
              end
          end
      end
  end.
End Input.

(* ---------------------------------------------------------------- *)
(* tvector<element_type> *)
Section Vec.
Context {A : Type} (o : cops A) (x_exp : A -> Z -> res A).
(* tvector.h:246-253, 256-263, 290-297: check_equal_lengths throws *)
Definition vec_add (u v : list A) : res (list A) := if List.length u =? List.length v then map2M (c_add o) u v else Exn.
Definition vec_sub (u v : list A) : res (list A) := if List.length u =? List.length v then map2M (c_sub o) u v else Exn.
Definition vec_mul (u v : list A) : res (list A) := if List.length u =? List.length v then map2M (c_mul o) u v else Exn.
(* 266-272, 347-353 *)
Definition vec_neg (u : list A) : res (list A) := mapM (c_neg o) u.
Definition vec_exp (u : list A) (e : Z) : res (list A) := mapM (fun x => x_exp x e) u.
(* 428-438; a != b of the elements is !(a == b) *)
Fixpoint vec_eq_loop (u v : list A) : res bool :=
  match u, v with
  | x :: u, y :: v => b <- c_eqb o x y ;; if (b : bool) then vec_eq_loop u v else Ok false
  | _, _ => Ok true
  end.
Definition vec_eqb (u v : list A) : res bool := if List.length u =? List.length v then vec_eq_loop u v else Ok false.

(* V30-35: vec_val, and int_val for an INT_ATOM *)
Record vatom := VA { va_vec : list A; va_int : option Z }.
(* tstack.h: sizes of the buffers of the slots' vectors (None: null pointer), elements with the top first *)
Record vstack := VS { vs_slots : list (option nat); vs_st : list vatom }.
(* tvector.h:97-109 (C43): buffer size after the assignment of a vector of length n *)
Definition assign_cap (c : option nat) (n : nat) : res (option nat) :=
  match c with
  | None => Ok (Some n)
  | Some k => if n <=? k then Ok (Some k) else UB
  end.
(* tstack.h:22-26 *)
Definition vs_empty : vstack := VS (repeat None 10) [].
(* tstack.h:61-73 *)
Definition vs_push (a : vatom) (s : vstack) : res vstack :=
  let n := List.length (vs_st s) in
  let slots :=
    if List.length (vs_slots s) <=? n
    then map (fun x => Some (List.length (va_vec x))) (rev (vs_st s)) ++ repeat None (List.length (vs_slots s) + 10 - n)
    else vs_slots s in
  match nth_error slots n with
  | None => UB
  | Some c => c' <- assign_cap c (List.length (va_vec a)) ;; Ok (VS (upd slots n c') (a :: vs_st s))
  end.
Definition vs_pop (s : vstack) : option (vatom * vstack) :=
  match vs_st s with [] => None | a :: st => Some (a, VS (vs_slots s) st) end.

(* V230-380 for an operator.  An underflow would use uninitialised atoms. *)
Definition vec_op (t : tok) (s : vstack) : res vstack :=
  match t with
  | L_UPLUS => Ok s
  | L_UMINUS =>
      match vs_pop s with
      | None => UB
      | Some (VA _ (Some _), _) => Exn
      | Some (VA a None, s) => c <- vec_neg a ;; vs_push (VA c None) s
      end
  | L_PLUS | L_MINUS | L_MUL | L_EXP | L_EQ | L_NE =>
      match vs_pop s with
      | None => UB
      | Some (b, s) =>
          match vs_pop s with
          | None => UB
          | Some (a, s) =>
              match t, a, b with
              | L_EXP, VA a None, VA _ (Some i) => c <- vec_exp a i ;; vs_push (VA c None) s
              | L_PLUS, VA a None, VA b None => c <- vec_add a b ;; vs_push (VA c None) s
              | L_MINUS, VA a None, VA b None => c <- vec_sub a b ;; vs_push (VA c None) s
              | L_MUL, VA a None, VA b None => c <- vec_mul a b ;; vs_push (VA c None) s
              | L_EQ, VA a None, VA b None => c <- vec_eqb a b ;; vs_push (VA [] (Some (if c : bool then 1 else 0)%Z)) s
              | L_NE, VA a None, VA b None => c <- vec_eqb a b ;; vs_push (VA [] (Some (if c : bool then 0 else 1)%Z)) s
              | _, _, _ => Exn
              end
          end
      end
  | _ => Exn
  end.

(* scan_int: the int read from a string, None: failure *)
Context (get : list ascii -> res (option (A * list ascii * bool))) (scan_int : string -> option Z).
(* V193-220: text without a bracket throws *)
Definition vec_scan (s : string) (a : vatom) : res vatom :=
  let l := list_ascii_of_string s in
  match strchr l "[" with
  | None => Exn
  | Some _ =>
      r <- vec_bracket_in get l ;;
      match r with None => Exn | Some v => Ok (VA v None) end
  end.
(* V190-192, 221-225: the vec_val stays *)
Definition vec_scan_int (s : string) (a : vatom) : res vatom :=
  match scan_int s with Some i => Ok (VA (va_vec a) (Some i)) | None => Exn end.
Definition vec_mach : mach vatom vstack (option nat) :=
  mkmach vec_lex_op vec_scan vec_scan_int vs_push vec_op None (fun c a => assign_cap c (List.length (va_vec a)))
    (fun s => match vs_st s with [] => None | a :: _ => Some a end).
Definition cmd_line_vec_parse (argv : list string) : list vatom * res unit :=
  cmd_parse vec_mach (VA [] None) vs_empty argv.
End Vec.

(* ---------------------------------------------------------------- *)
(* tmatrix<element_type> *)
Section Mat.
Context {A : Type} (o : cops A) (dflt zero one : A).
Notation tmat := (tmat A).
(* tmatrix.h:717-727, 743-753 *)
Definition flip_horiz (m : tmat) : res tmat :=
  tab (t_nr m) (t_nc m) (fun i j => el (t_rows m) i (t_nc m - j - 1)).
Definition flip_horiz_vert (m : tmat) : res tmat :=
  tab (t_nr m) (t_nc m) (fun i j => el (t_rows m) (t_nr m - i - 1) (t_nc m - j - 1)).
(* tmatrix.h:361-369, with check_dims *)
Definition mat_eqb (m that : tmat) : res bool :=
  if (t_nr m =? t_nr that) && (t_nc m =? t_nc that) then
    forallM (fun i => r <- rowat (t_rows m) i ;; r' <- rowat (t_rows that) i ;; vec_eqb o r r') (seq 0 (t_nr m))
  else Exn.
(* tmatrix.h:1403-1411 *)
Definition check_inverse (m rinv : tmat) : res unit :=
  ab <- mat_mul o m rinv ;; ba <- mat_mul o rinv m ;;
  i <- mat_is_I o ab ;;
  if (i : bool) then j <- mat_is_I o ba ;; if (j : bool) then Ok tt else Exn else Exn.
(* tmatrix.h:1173-1193 *)
Definition check_kernel_basis (m kerbas : tmat) : res unit :=
  zero <- get_zero o (t_rows m) ;;
  foldM (fun _ r => av <- mat_vec o m r ;; b <- forallM (fun x => c_eqb o x zero) av ;; if (b : bool) then Ok tt else Exn)
    (t_rows kerbas) tt.

(* M30-35 *)
Inductive matom := MM (m : tmat) | MS (x : A) | MI (i : Z).
Definition opt {X} (r : res (option X)) : res X := x <- r ;; match x with Some x => Ok x | None => Exn end.
(* M390-479: the unary operators on a matrix *)
Definition mat_un (t : tok) (a : tmat) : res matom :=
  match t with
  | L_UMINUS => c <- mat_neg o a ;; Ok (MM c)
  | L_RANK => r <- get_rank o a ;; Ok (MI (Z.of_nat r))
  | L_INV =>
      '(b, c) <- mat_inverse o dflt a (mkmat [] 0) ;;
      if (b : bool) then _ <- check_inverse a c ;; Ok (MM c) else Exn
  | L_TRANSPOSE => c <- mat_transpose a ;; Ok (MM c)
  | L_KERBAS => c <- opt (get_kernel_basis o a zero one) ;; _ <- check_kernel_basis a c ;; Ok (MM c)
  | L_RR => c <- row_reduce_below o a ;; Ok (MM c)
  | L_RECH => c <- row_echelon_form o a ;; Ok (MM c)
  | L_RECHR => c <- flip_horiz a ;; c <- row_echelon_form o c ;; c <- flip_horiz_vert c ;; Ok (MM c)
  | L_RRNZ => c <- opt (get_rr_non_zero_rows o a) ;; Ok (MM c)
  | L_RECHNZ => c <- opt (get_rech_non_zero_rows o a) ;; Ok (MM c)
  | L_DET => d <- mat_det o a ;; Ok (MS d)
  | _ => Exn
  end.
(* M394-409 *)
Definition mat_bin (t : tok) (a b : tmat) : res matom :=
  match t with
  | L_PLUS => c <- mat_add o a b ;; Ok (MM c)
  | L_MINUS => c <- mat_sub o a b ;; Ok (MM c)
  | L_MUL => c <- mat_mul o a b ;; Ok (MM c)
  | L_EQ => c <- mat_eqb a b ;; Ok (MI (if c : bool then 1 else 0)%Z)
  | L_NE => c <- mat_eqb a b ;; Ok (MI (if c : bool then 0 else 1)%Z)
  | _ => Exn
  end.
(* M284-506 for an operator *)
Definition mat_op (t : tok) (st : list matom) : res (list matom) :=
  match t with
  | L_UPLUS => Ok st
  | L_PLUS | L_MINUS | L_MUL | L_EQ | L_NE =>
      match st with
      | MM b :: MM a :: st => c <- mat_bin t a b ;; Ok (c :: st)
      | _ :: _ :: _ => Exn
      | _ => UB
      end
  | L_EXP =>
      match st with
      | MI i :: MM a :: st => c <- opt (mat_exp o dflt a i) ;; Ok (MM c :: st)
      | _ :: _ :: _ => Exn
      | _ => UB
      end
  | L_LPAREN | L_RPAREN => Exn
  | _ =>
      match st with
      | MM a :: st => c <- mat_un t a ;; Ok (c :: st)
      | _ :: _ => Exn
      | [] => UB
      end
  end.
(* load: the matrix read from the file of that name (None: returns false) *)
Context (get : list ascii -> res (option (A * list ascii * bool))) (load : string -> res (option tmat))
  (scan_int : string -> option Z).
(* M253-279 *)
Definition mat_scan (s : string) (_ : matom) : res matom :=
  let l := list_ascii_of_string s in
  m <- opt (match strchr l "[" with Some _ => mat_bracket_in get l | None => load s end) ;; Ok (MM m).
Definition mat_scan_int (s : string) (_ : matom) : res matom :=
  match scan_int s with Some i => Ok (MI i) | None => Exn end.
Definition mat_mach : mach matom (list matom) unit :=
  mkmach mat_lex_op mat_scan mat_scan_int (fun a st => Ok (a :: st)) mat_op tt (fun _ _ => Ok tt)
    (fun st => match st with [] => None | a :: _ => Some a end).
Definition cmd_line_mat_parse (argv : list string) : list matom * res unit :=
  cmd_parse mat_mach (MI 0) [] argv.
End Mat.

(* ---------------------------------------------------------------- *)
(* is >> n for an int n: blanks are skipped, then a sign and decimal digits are read; no digit or a value out of range:
   failure.  The eofbit is set if the digits end with the text. *)
Definition is_space (c : ascii) : bool :=
  let n := nat_of_ascii c in (n =? 32) || ((9 <=? n) && (n <=? 13)).
Definition is_digit (c : ascii) : bool := let n := nat_of_ascii c in (48 <=? n) && (n <=? 57).
Definition digit_val (c : ascii) : Z := (Z.of_nat (nat_of_ascii c) - 48)%Z.
Fixpoint skip_space (s : list ascii) : list ascii :=
  match s with
  | x :: t => if is_space x then skip_space t else s
  | [] => []
  end.
(* digits from the left; any: whether there was one *)
Fixpoint read_digits (s : list ascii) (acc : Z) (any : bool) : option (Z * list ascii) :=
  match s with
  | x :: t => if is_digit x then read_digits t (10 * acc + digit_val x)%Z true else if any then Some (acc, s) else None
  | [] => if any then Some (acc, []) else None
  end.
Definition read_int (s : list ascii) : option (Z * list ascii) :=
  let s := skip_space s in
  let '(neg, s) := match s with
                   | x :: t => if (x =? "-")%char then (true, t) else if (x =? "+")%char then (false, t) else (false, s)
                   | [] => (false, s)
                   end in
  match read_digits s 0 false with
  | Some (v, r) => let v := if neg : bool then (- v)%Z else v in
                   if (INT_MIN <=? v)%Z && (v <=? INT_MAX)%Z then Some (v, r) else None
  | None => None
  end.
(* intmod_t.cpp:72-92 on an element with modulus m; C09: stream_in *)
Fixpoint skip_ws (s : list ascii) : list ascii :=
  match s with
  | x :: t => if (x =? " ")%char || (x =? "009")%char || (x =? "010")%char then skip_ws t else s
  | [] => []
  end.
Definition im_get (m : Z) (s : list ascii) : res (option (intmod * list ascii * bool)) :=
  match skip_ws s with
  | [] => Ok None
  | s =>
      match read_int s with
      | None => Ok None
      | Some (v, r) => a <- im_stream_in (mkim 0 m) v ;; Ok (Some (a, r, match r with [] => true | _ => false end))
      end
  end.
Definition scan_int (s : string) : option Z := option_map fst (read_int (list_ascii_of_string s)).
Definition im_cops (c : cache) : cops intmod := mkcops im_add im_sub im_mul (im_div c) im_neg im_eqb.
(* cli/spiff/fp_handlers.cpp:413-427, 396-409: the operands are vectors and matrices over the integers modulo m *)
Definition im_vec_parse (c : cache) (m : Z) : list string -> list vatom * res unit :=
  cmd_line_vec_parse (im_cops c) (im_exp c) (im_get m) scan_int.
Definition im_mat_parse (c : cache) (m : Z) (load : string -> res (option (tmat intmod))) : list string -> list matom * res unit :=
  cmd_line_mat_parse (im_cops c) (mkim (-1) 0) (mkim 0 m) (mkim 1 m) (im_get m) load scan_int.
