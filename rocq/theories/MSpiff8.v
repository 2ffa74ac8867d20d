(* Model of the commands f2_mat_ord, f2_mat_ch_pol and f2_mat_random of cli/spiff (f2_handlers.cpp) and of the text of a bit_t (bit_t.cpp).
   Definitions only.  As in MSpiff.v, arguments are texts, without the name of the command. *)
From Verif Require Import Base MIntMath MMat MMatCli MBits MLinalg MF2Poly MTextIO MPolyText MRandom MSpiff MSpiff2 MSpiff6.
From Coq Require Import Ascii String.
Import ListNotations.
Open Scope Z_scope.

(* is >> r, unsigned r: a sign and digits, at most 2^32 - 1; a number with a minus sign wraps around *)
Definition read_unsigned (s : text) : option (Z * text) :=
  let s := skip_space s in
  let '(neg, s) := match s with
                   | x :: t => if (x =? "-")%char then (true, t) else if (x =? "+")%char then (false, t) else (false, s)
                   | [] => (false, s)
                   end in
  match read_digits s 0 false with
  | Some (v, r) => if v <? 2 ^ 32 then Some ((if neg : bool then (- v) mod 2 ^ 32 else v), r) else None
  | None => None
  end.
(* bit_t.cpp:20-42: the element that is there before does not matter *)
Definition bit_getz (_ : bool) (s : text) : res (option (bool * text * bool)) :=
  match skip_ws s with
  | [] => Ok None
  | s =>
      match read_unsigned s with
      | None => Ok None
      | Some (v, r) => Ok (Some (negb (Z.land v 1 =? 0), r, match r with [] => true | _ => false end))
      end
  end.
(* bit_t.cpp:13-17 *)
Definition bit_put (b : bool) : text := [ascii_of_nat (48 + (if b then 1 else 0))].

(* f2_handlers.cpp:90, tmatrix.h:1414-1421, 73-80 after the reading of the matrix has failed, which the program does not check (as det_after_failure) *)
Definition bit_after_failure (input : text) : res Z :=
  ' (rows, _, _) <- mat_lines bit_ops bit_getz (S (S (List.length input))) false 0 [] (open_text input) ;;
  match rows with [] => UB | _ => Exn end.
(* f2_handlers.cpp:78-112.  input: the text on standard input.  mat_order: the same loop as in fp_handlers.cpp. *)
Definition f2_mat_ord_main (fuel : nat) (input : text) (args : list text) : prog Z :=
  match args with
  | [] =>
      r <~ call (mat_in_stream bit_ops bit_getz (mkmat [[false]] 1) (open_text input)) ;~
      match fst r with
      | Some a => k <~ call (mat_order bit_ops fuel false true a) ;~ show k ;~~ nl ;~~ ret 0
      | None => call (bit_after_failure input) ;~~ ret 0
      end
  | _ => usage
  end.
(* f2_handlers.cpp:57-71, tmatrix.h:115-146.  files: the text of each file that can be opened. *)
Definition f2_mat_ch_pol_main (input : text) (files : text -> option text) (args : list text) : prog Z :=
  match args with
  | [name] =>
      match (if (teq name "-" || teq name "@")%bool then Some input else files name) with
      | None => usage
      | Some file =>
          r <~ call (mat_load bit_ops bit_getz false file) ;~
          match r with
          | None => usage
          | Some a => f <~ call (f2_char_poly a) ;~ show_f2 f ;~~ nl ;~~ ret 0
          end
      end
  | _ => usage
  end.

Section Random.
Context {St : Type} (draw : St -> Z * St).
(* f2_handlers.cpp:133-137: a row, the rows *)
Fixpoint random_bits (n : nat) (s : St) : list bool * St :=
  match n with
  | O => ([], s)
  | S n => let '(w, s) := get_random_uint32 draw s in let '(l, s) := random_bits n s in (negb (Z.land w 1 =? 0) :: l, s)
  end.
Fixpoint random_bit_rows (nr nc : nat) (s : St) : list (list bool) * St :=
  match nr with
  | O => ([], s)
  | S nr => let '(r, s) := random_bits nc s in let '(l, s) := random_bit_rows nr nc s in (r :: l, s)
  end.
(* f2_handlers.cpp:119-140, tmatrix.h:35-44: dimensions below 1 are refused *)
Definition f2_mat_random_main (s : St) (args : list text) : prog Z :=
  match args with
  | [s1; s2] =>
      nr <~ arg_int s1 ;~ nc <~ arg_int s2 ;~
      (if ((nr <=? 0) || (nc <=? 0))%bool then call Exn else ret tt) ;~~
      print (mat_out bit_put (mkmat (fst (random_bit_rows (Z.to_nat nr) (Z.to_nat nc) s)) (Z.to_nat nc))) ;~~ ret 0
  | _ => usage
  end.
End Random.
(* spiff_main.cpp: the entries of the table *)
Definition bit_handler {St} (draw : St -> Z * St) (s0 : St) (fuel : nat) (input : text) (files : text -> option text)
    (other : string -> list text -> prog Z) (name : string) (args : list text) : prog Z :=
  if String.eqb name "f2_mat_ord" then f2_mat_ord_main fuel input args
  else if String.eqb name "f2_mat_ch_pol" then f2_mat_ch_pol_main input files args
  else if String.eqb name "f2_mat_random" then f2_mat_random_main draw s0 args else other name args.
