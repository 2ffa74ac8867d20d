(* Model of the text formats of vectors and matrices: spffl/containers/tvector.h and tmatrix.h (operator<<, operator>>,
   load_from_file), spffl/bits/bit_vector_t.cpp and bit_matrix_t.cpp (the same), spffl/base/line_scan.cpp, and of
   intmod_t and bit_t (operator<<, operator>>).  Definitions only.

   The element type, printing and reading of an element are parameters (get: see MMatCli.v).  A file is its text.
   The arrays of rows and elements, which grow by copying, are lists.
   isspace and the C locale: characters above 127 are no space (isspace of a negative char is not defined by the
   standard; glibc allows it). *)
From Verif Require Import Base MIntmod MMat MMatCli MBits.
Import ListNotations.
Open Scope nat_scope.

(* ---------------------------------------------------------------- *)
(* std::istream: the text left, eofbit, failbit, badbit *)
Record istr := mkis { i_text : list ascii; i_eof : bool; i_fail : bool; i_bad : bool }.
Definition open_text (t : list ascii) : istr := mkis t false false false.
Definition failed (s : istr) : bool := i_fail s || i_bad s.
Definition good (s : istr) : bool := negb (i_eof s) && negb (failed s).
Definition clear (s : istr) : istr := mkis (i_text s) false false false.
Definition set_eof (s : istr) : istr := mkis (i_text s) true (i_fail s) (i_bad s).
Definition set_fail (s : istr) : istr := mkis (i_text s) (i_eof s) true (i_bad s).
Definition set_bad (s : istr) : istr := mkis (i_text s) (i_eof s) (i_fail s) true.
(* the text up to a newline, and what follows the newline, if there is one *)
Fixpoint cut_line (t : list ascii) : list ascii * option (list ascii) :=
  match t with
  | [] => ([], None)
  | c :: t => if (c =? "010")%char then ([], Some t) else let '(l, r) := cut_line t in (c :: l, r)
  end.
(* getline(buffer, n): the characters stored, without the final NUL *)
Definition getline (n : nat) (s : istr) : list ascii * istr :=
  if good s then
    let '(l, r) := cut_line (i_text s) in
    if List.length l <=? n - 1 then
      match r with
      | Some t => (l, mkis t false false false)
      | None => (l, mkis [] true (match l with [] => true | _ => false end) false)
      end
    else (firstn (n - 1) l, mkis (skipn (n - 1) (i_text s)) false true false)
  else ([], set_fail s).
(* peek() == EOF and the state after it *)
Definition peek_eof (s : istr) : bool * istr :=
  if good s then match i_text s with [] => (true, set_eof s) | _ => (false, s) end else (true, set_fail s).
(* what the C functions see of a buffer *)
Fixpoint cstr (l : list ascii) : list ascii :=
  match l with
  | [] => []
  | c :: l => if (c =? "000")%char then [] else c :: cstr l
  end.
(* strstr(line, "#") and 0 stored there *)
Fixpoint uncomment (l : list ascii) : list ascii :=
  match l with
  | [] => []
  | c :: l => if (c =? "#")%char then [] else c :: uncomment l
  end.
(* line_scan.cpp:26-34 *)
Definition is_whitespace_line (l : list ascii) : bool := forallb is_space l.

(* ---------------------------------------------------------------- *)
(* output *)
Definition newline : ascii := "010"%char.
Section Out.
Context {A : Type} (put : A -> list ascii).
(* tvector.h:522-532 *)
Fixpoint vec_out (v : list A) : list ascii :=
  match v with
  | [] => []
  | [x] => put x
  | x :: v => put x ++ " "%char :: vec_out v
  end.
(* tmatrix.h:1676-1682 *)
Definition mat_out (m : tmat A) : list ascii := List.concat (map (fun r => vec_out r ++ [newline]) (t_rows m)).
End Out.

(* ---------------------------------------------------------------- *)
Section In.
Context {A : Type} (o : cops A).
(* reading an element into a variable whose value is the first argument (it gives the modulus) *)
Variable get : A -> list ascii -> res (option (A * list ascii * bool)).
(* tvector.h:555-606 on a string, for a vector with the elements v0; None: failure *)
Definition vec_iss (v0 : list A) (t : list ascii) : res (option (list A)) :=
  match v0 with
  | [] => Ok None
  | x :: _ => zero <- c_sub o x x ;; vec_stream (get zero) t
  end.
Definition tvec_buf_size : nat := 2 ^ 11.
(* tvector.h:536-547: line[2048].  None: the vector has an unspecified value. *)
Definition vec_in_stream (v0 : list A) (s : istr) : res (option (list A) * istr) :=
  let '(l, s) := getline tvec_buf_size s in
  v <- vec_iss v0 (cstr l) ;;
  match v with
  | Some v => Ok (Some v, s)
  | None => Ok (None, set_fail s)
  end.
(* tvector.h:206-214, 171-201 for a file that can be opened; None: returns false *)
Definition vec_load (zero : A) (file : list ascii) : res (option (list A)) :=
  '(v, s) <- vec_in_stream [zero] (open_text file) ;; Ok (if failed s then None else v).

(* tmatrix.h:1689-1800 after the check of the element.  The line buffer has 65536 bytes; off: pline - line, which is never
   set back.  rows: those read so far, the last one first; false: a scan failure, after which the function returns at
   once.  Fuel: more than the number of lines. *)
Definition tmx_buf_size : nat := 2 ^ 16.
Fixpoint drop_space (l : list ascii) : list ascii :=
  match l with
  | c :: t => if is_space c then drop_space t else l
  | [] => []
  end.
Definition strip_tail (l : list ascii) : list ascii := rev (drop_space (rev l)).
Fixpoint mat_lines (fuel : nat) (zero : A) (off : nat) (rows : list (list A)) (s : istr)
  : res (list (list A) * bool * istr) :=
  match fuel with
  | O => Div
  | S fuel =>
      if i_eof s then Ok (rows, true, s) else
      let '(l, s) := getline tmx_buf_size s in
      if tmx_buf_size <? off + (List.length l + 1) then UB else
      if i_eof s then Ok (rows, true, clear s) else
      if failed s then Ok (rows, true, s) else
      let l := uncomment (cstr l) in
      let l' := drop_space l in
      let off := off + (List.length l - List.length l') in
      let l' := strip_tail l' in
      if is_whitespace_line l' then
        match rows with
        | [] => mat_lines fuel zero off rows s
        | _ => Ok (rows, true, s)
        end
      else
        r <- vec_iss [zero] l' ;;
        match r with
        | None => Ok (rows, false, set_fail s)
        | Some r => mat_lines fuel zero off (r :: rows) s
        end
  end.
(* m0: the matrix before.  None: the matrix has no valid contents, and the stream has failed. *)
Definition mat_in_stream (m0 : tmat A) (s : istr) : res (option (tmat A) * istr) :=
  match t_rows m0 with
  | (x :: _) :: _ =>
      zero <- c_sub o x x ;;
      '(rows, go, s) <- mat_lines (S (S (List.length (i_text s)))) zero 0 [] s ;;
      if go : bool then
        let s := (let '(e, s) := peek_eof s in if e : bool then set_eof s else s) in
        match rows with
        | [] => Ok (None, set_bad s)
        | _ =>
            match check_ragged (rev rows) with
            | None => Ok (None, set_bad s)
            | Some nc => Ok (Some (mkmat (rev rows) nc), s)
            end
        end
      else Ok (None, s)
  | _ => Ok (None, set_bad s)
  end.
(* tmatrix.h:151-161, 116-146 for a file that can be opened; None: returns false *)
Definition mat_load (zero : A) (file : list ascii) : res (option (tmat A)) :=
  '(m, s) <- mat_in_stream (mkmat [[zero]] 1) (open_text file) ;; Ok (if failed s then None else m).
End In.

(* ---------------------------------------------------------------- *)
(* os << n for an int n *)
Fixpoint digits (fuel : nat) (n : Z) (acc : list ascii) : list ascii :=
  match fuel with
  | O => acc
  | S fuel =>
      let acc := ascii_of_nat (Z.to_nat (48 + n mod 10)) :: acc in
      if (n <? 10)%Z then acc else digits fuel (n / 10) acc
  end.
Definition put_int (n : Z) : list ascii :=
  if (n <? 0)%Z then "-"%char :: digits 40 (- n) [] else digits 40 n [].
(* intmod_t.cpp:65-69, without check_modulus *)
Definition im_put (a : intmod) : list ascii := put_int (residue a).
Definition im_getz (z : intmod) : list ascii -> res (option (intmod * list ascii * bool)) := im_get (modulus z).
(* cmd_line_matrix_ops.h:271-278: the operand is a file name; fs: the files that can be opened *)
Definition im_load (c : cache) (m : Z) (fs : string -> option (list ascii)) (name : string) : res (option (tmat intmod)) :=
  match fs name with
  | None => Ok None
  | Some t => mat_load (im_cops c) im_getz (mkim 0 m) t
  end.

(* ---------------------------------------------------------------- *)
(* bit_vector_t.cpp:138-146 *)
Definition bv_out (v : bvec) : res (list ascii) :=
  bs <- mapM (fun i => ws <- deref v ;; b <- GET_BIT ws i ;; Ok (if (b =? 0)%N then false else true)) (seq 0 (bv_n v)) ;;
  Ok (vec_out (fun b : bool => [if b then "1"%char else "0"%char]) bs).
(* bit_vector_t.cpp:162-211: ws: the words allocated; None: failure.  Fuel: more than the length of the text. *)
Fixpoint bv_read (fuel : nat) (ws : list N) (nw nb : nat) (t : list ascii) : res (option bvec) :=
  match fuel with
  | O => Div
  | S fuel =>
      let ws := if List.length ws <=? nw then firstn nw ws ++ repeat 0%N (List.length ws + 8 - nw) else ws in
      match read_int t with
      | None => Ok None
      | Some (b, t) =>
          ws <- (if Z.odd b then SET_BIT ws nb else Ok ws) ;;
          match t with
          | [] => Ok (Some (mkbv (Some ws) (nwords (S nb)) (S nb)))
          | _ => bv_read fuel ws (nwords (S nb)) (S nb) t
          end
      end
  end.
Definition bv_iss (t : list ascii) : res (option bvec) := bv_read (S (List.length t)) (repeat 0%N 8) 0 0 t.
(* bit_vector_t.cpp:149-159 *)
Definition bv_in_stream (s : istr) : res (option bvec * istr) :=
  let '(l, s) := getline tvec_buf_size s in
  v <- bv_iss (cstr l) ;;
  match v with
  | Some v => Ok (Some v, s)
  | None => Ok (None, set_fail s)
  end.
(* bit_matrix_t.cpp:189-194 *)
Definition bm_out (m : bmat) : res (list ascii) :=
  ls <- mapM bv_out (bm_rows m) ;; Ok (List.concat (map (fun l => l ++ [newline]) ls)).
Definition bmx_buf_size : nat := 2 ^ 13.
(* bit_matrix_t.cpp:206-248: line[8192] *)
Fixpoint bm_lines (fuel : nat) (rows : list bvec) (s : istr) : res (list bvec * bool * istr) :=
  match fuel with
  | O => Div
  | S fuel =>
      if i_eof s then Ok (rows, true, s) else
      let '(l, s) := getline bmx_buf_size s in
      if i_eof s then Ok (rows, true, clear s) else
      if failed s then Ok (rows, true, s) else
      let l := uncomment (cstr l) in
      if is_whitespace_line l then
        match rows with
        | [] => bm_lines fuel rows s
        | _ => Ok (rows, true, s)
        end
      else
        r <- bv_iss l ;;
        match r with
        | None => Ok (rows, false, set_fail s)
        | Some r => bm_lines fuel (r :: rows) s
        end
  end.
(* 197-204, 250-280.  n0: the number of rows of the matrix before, which is not set back to zero although the rows are
   replaced by 40 empty ones *)
Definition bm_in_stream (n0 : nat) (s : istr) : res (option bmat * istr) :=
  if 40 <? n0 then UB else
  '(rows, go, s) <- bm_lines (S (S (List.length (i_text s)))) (repeat bv_null n0) s ;;
  if go : bool then
    let s := (let '(e, s) := peek_eof s in if e : bool then set_eof s else s) in
    match rev rows with
    | [] => Ok (None, set_bad s)
    | r :: rs =>
        if forallb (fun x => bv_n x =? bv_n r) rs then Ok (Some (mkbm (rev rows) (bv_n r)), s) else Ok (None, set_bad s)
    end
  else Ok (None, s).
(* bit_matrix_t.cpp:85-114 for a file that can be opened and an empty matrix *)
Definition bm_load (file : list ascii) : res (option bmat) :=
  '(m, s) <- bm_in_stream 0 (open_text file) ;; Ok (if failed s then None else m).
