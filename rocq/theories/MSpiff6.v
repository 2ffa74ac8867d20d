(* Model of the command fp_mat_ord of cli/spiff (fp_handlers.cpp) and of the comparison of matrices (tmatrix.h, tvector.h).
   Definitions only.  As in MSpiff.v, arguments are texts, without the name of the command. *)
From Verif Require Import Base MIntMath MFac MIntmod MMat MMatCli MTextIO MRandom MSpiff.
From Coq Require Import Ascii String.
Import ListNotations.
Open Scope Z_scope.

Section Order.
Context {A : Type} (o : cops A).
(* tvector.h:428-443 *)
Definition tvec_eq (u v : list A) : res bool :=
  if (List.length u =? List.length v)%nat then forallM (fun xy => c_eqb o (fst xy) (snd xy)) (combine u v) else Ok false.
(* tmatrix.h:361-369, 1655-1666 *)
Definition tmat_eq (m that : tmat A) : res bool :=
  if ((t_nr m =? t_nr that) && (t_nc m =? t_nc that))%nat
  then forallM (fun uv => tvec_eq (fst uv) (snd uv)) (combine (t_rows m) (t_rows that)) else Exn.
(* fp_handlers.cpp:485-491: the loop ends only when the power is the identity.  k: order.  Fuel: its number of turns. *)
Fixpoint mat_ord_loop (fuel : nat) (a i pw : tmat A) (k : Z) : res Z :=
  match fuel with
  | O => Div
  | S fuel =>
      e <- tmat_eq pw i ;;
      if (e : bool) then Ok k
      else pw <- mat_mul o pw a ;; if k =? INT_MAX then UB else mat_ord_loop fuel a i pw (k + 1)
  end.
(* fp_handlers.cpp:475-496: what is printed *)
Definition mat_order (fuel : nat) (zero one : A) (a : tmat A) : res Z :=
  d <- mat_det o a ;;
  e <- c_eqb o d zero ;;
  if (e : bool) then Ok 0 else i <- mat_make_I a zero one ;; mat_ord_loop fuel a i a 1.
End Order.

(* tmatrix.h:1414-1421, 73-80 after tmatrix.h:1690-1805 has failed, which the program does not check: the rows read so far are there, but the
   number of columns is 0.  If there are rows, the determinant refuses the matrix; if not, it looks at the first row of none. *)
Definition det_after_failure (c : cache) (zero : intmod) (input : text) : res Z :=
  ' (rows, _, _) <- mat_lines (im_cops c) im_getz (S (S (List.length input))) zero 0 [] (open_text input) ;;
  match rows with [] => UB | _ => Exn end.
(* fp_handlers.cpp:460-499.  input: the text on standard input. *)
Definition fp_mat_ord_main (c : cache) (fuel : nat) (input : text) (args : list text) : prog Z :=
  match args with
  | [s1] =>
      p <~ arg_int s1 ;~
      zero <~ call (im_make 0 p) ;~ one <~ call (im_make 1 p) ;~
      r <~ call (mat_in_stream (im_cops c) im_getz (mkmat [[zero]] 1) (open_text input)) ;~
      match fst r with
      | Some a => k <~ call (mat_order (im_cops c) fuel zero one a) ;~ show k ;~~ nl ;~~ ret 0
      | None => call (det_after_failure c zero input) ;~~ ret 0
      end
  | _ => usage
  end.
(* spiff_main.cpp: the entry of the table *)
Definition ord_handler (c : cache) (fuel : nat) (input : text) (other : string -> list text -> prog Z) (name : string) (args : list text) : prog Z :=
  if String.eqb name "fp_mat_ord" then fp_mat_ord_main c fuel input args else other name args.
