(* Model of the commands fp_mat_ch_pol and fp_mat_random of cli/spiff (fp_handlers.cpp).
   Definitions only.  As in MSpiff.v, arguments are texts, without the name of the command. *)
From Verif Require Import Base MIntMath MFac MIntmod MMat MMatCli MPoly MLinalg MTextIO MPolyText MRandom MSpiff MSpiff2.
From Coq Require Import Ascii String.
Import ListNotations.
Open Scope Z_scope.

(* fp_handlers.cpp:434-453, tmatrix.h:115-146.  input: the text on standard input.  files: the text of each file that can be opened. *)
Definition fp_mat_ch_pol_main (c : cache) (input : text) (files : text -> option text) (args : list text) : prog Z :=
  match args with
  | [s1; name] =>
      p <~ arg_int s1 ;~
      zero <~ call (im_make 0 p) ;~
      match (if (teq name "-" || teq name "@")%bool then Some input else files name) with
      | None => usage
      | Some file =>
          r <~ call (mat_load (im_cops c) im_getz zero file) ;~
          match r with
          | None => usage
          | Some a => f <~ call (fp_char_poly c a) ;~ show_fp f ;~~ nl ;~~ ret 0
          end
      end
  | _ => usage
  end.

Section Random.
Context {St : Type} (draw : St -> Z * St).
(* fp_handlers.cpp:524-528: a row, the rows *)
Fixpoint random_row (p : Z) (n : nat) (s : St) : res (list intmod * St) :=
  match n with
  | O => Ok ([], s)
  | S n => ' (a, s) <- intmod_random draw p s ;; ' (l, s) <- random_row p n s ;; Ok (a :: l, s)
  end.
Fixpoint random_rows (p : Z) (nr nc : nat) (s : St) : res (list (list intmod) * St) :=
  match nr with
  | O => Ok ([], s)
  | S nr => ' (r, s) <- random_row p nc s ;; ' (l, s) <- random_rows p nr nc s ;; Ok (r :: l, s)
  end.
(* fp_handlers.cpp:506-531, tmatrix.h:35-44: dimensions below 1 are refused *)
Definition fp_mat_random_main (s : St) (args : list text) : prog Z :=
  match args with
  | [s1; s2; s3] =>
      p <~ arg_int s1 ;~ nr <~ arg_int s2 ;~ nc <~ arg_int s3 ;~
      (if ((nr <=? 0) || (nc <=? 0))%bool then call Exn else ret tt) ;~~
      r <~ call (random_rows p (Z.to_nat nr) (Z.to_nat nc) s) ;~
      print (mat_out im_put (mkmat (fst r) (Z.to_nat nc))) ;~~ ret 0
  | _ => usage
  end.
End Random.
(* spiff_main.cpp: the entries of the table *)
Definition mat_handler (c : cache) {St} (draw : St -> Z * St) (s0 : St) (input : text) (files : text -> option text)
    (other : string -> list text -> prog Z) (name : string) (args : list text) : prog Z :=
  if String.eqb name "fp_mat_ch_pol" then fp_mat_ch_pol_main c input files args
  else if String.eqb name "fp_mat_random" then fp_mat_random_main draw s0 args else other name args.
