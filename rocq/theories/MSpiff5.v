(* Model of more commands of cli/spiff: q_cyclotomic (q_handlers.cpp), f2_random (f2_handlers.cpp), fpn_p_gcd and fpn_p_qp
   (fpn_poly_handlers.cpp); of fpn_poly_from_qpoly (spffl/q_cyclotomic/qff.cpp) and get_cyclo_fpn_poly (cyclo_poly.cpp); and of the program cli/gcd/cli_gcd.cpp.
   Definitions only.  As in MSpiff.v, arguments are texts, without the name of the command. *)
From Verif Require Import Base MIntMath MFac MIntmod MIntrat MMat MPoly MPolymod MFpnPoly MCyclo MTextIO MPolyText MRandom MSpiff MSpiff2.
From Coq Require Import Ascii String.
Import ListNotations.
Open Scope Z_scope.

(* ---------------------------------------------------------------- q_handlers.cpp:39-51 *)
(* m: what get_cyclo_qpoly remembers from the calls before *)
Fixpoint cyclos (m : memo) (args : list text) : prog Z :=
  match args with
  | [] => ret 0
  | s :: args => n <~ arg_int s ;~ r <~ call (get_cyclo_qpoly m n) ;~ print (q_put (snd r)) ;~~ nl ;~~ cyclos (fst r) args
  end.
Definition q_cyclo_main (args : list text) : prog Z := match args with [] => usage | _ => cyclos memo_init args end.

(* ---------------------------------------------------------------- f2_handlers.cpp:22-39 *)
Section Random.
Context {St : Type} (draw : St -> Z * St).
Definition f2_random_main (s : St) (args : list text) : prog Z :=
  let go n := times (Z.to_nat n) (fun s => let '(w, s) := get_random_int draw s in show (Z.land w 1) ;~~ nl ;~~ ret s) s ;~~ ret 0 in
  match args with
  | [] => go 1
  | [s1] => n <~ arg_int s1 ;~ go n
  | _ => usage
  end.
End Random.

(* ---------------------------------------------------------------- fpn_poly_handlers.cpp *)
Section Fpn.
Variable c : cache.
Local Notation o := (fpn_kops c).
Definition arg_fpn (m : list intmod) (s : text) : prog (list fpc) := arg_scan (fpn_scan c m s).
Definition show_fpn (a : list fpc) : prog unit := print_res (fpn_put a).
(* {p} {im} *)
Definition arg_im (s1 s2 : text) : prog (list intmod) := p <~ arg_int s1 ;~ arg_fp c p s2.
(* 68-112 *)
Definition fpn_p_gcd_main (args : list text) : prog Z :=
  match args with
  | [s1; s2; s3; s4] =>
      m <~ arg_im s1 s2 ;~ a <~ arg_fpn m s3 ;~ b <~ arg_fpn m s4 ;~ g <~ call (gp_gcd o a b) ;~ show_fpn g ;~~ nl ;~~ ret 0
  | [e; s1; s2; s3; s4] =>
      if teq e "-e" then
        m <~ arg_im s1 s2 ;~ a <~ arg_fpn m s3 ;~ b <~ arg_fpn m s4 ;~
        x <~ call (gp_ext_gcd o a b) ;~ let '(g, r, s) := x in show_bezout show_fpn g r a s b ;~~ ret 0
      else usage
  | _ => usage
  end.
(* qff.cpp:61-78; the copy z1 is not used *)
Definition fpn_poly_from_qpoly (q : qpoly) (im : list intmod) : res (list fpc) :=
  m0 <- getk im 0 ;;
  let p := modulus m0 in
  z0 <- im_make 0 p ;; k <- gp_const (im_kops c) z0 ;; z2 <- gm_make (im_kops c) k im ;; rv <- gp_const o z2 ;;
  for_up (List.length q) 0
    (fun i rv =>
       let k := Z.of_nat (gp_degree q - i) in
       x <- gp_get_coeff q_kops q k ;; b <- intmod_from_rat c x p ;;
       y <- gm_int_mod (im_kops c) im (residue b) ;;
       gp_set_coeff o rv k y) rv.
(* cyclo_poly.cpp:102-107 *)
Definition get_cyclo_fpn_poly (m : memo) (n : Z) (im : list intmod) : res (memo * list fpc) :=
  ' (m, q) <- get_cyclo_qpoly m n ;; r <- fpn_poly_from_qpoly q im ;; Ok (m, r).
(* 119-141 *)
Definition fpn_p_qp_main (args : list text) : prog Z :=
  match args with
  | s1 :: s2 :: (_ :: _) as rest =>
      m <~ arg_im s1 s2 ;~
      each (fun s => q <~ arg_scan (q_scan s) ;~ f <~ call (fpn_poly_from_qpoly q m) ;~ show_fpn f ;~~ nl) rest ;~~ ret 0
  | _ => usage
  end.
End Fpn.

(* ---------------------------------------------------------------- spiff_main.cpp:56, 62, 211-212 *)
Section Handlers.
Context (c : cache) {St : Type} (draw : St -> Z * St) (s0 : St) (other : string -> list text -> prog Z).
Open Scope string_scope.
Definition more_handler (name : string) (args : list text) : prog Z :=
  if name =? "q_cyclotomic" then q_cyclo_main args
  else if name =? "f2_random" then f2_random_main draw s0 args
  else if name =? "fpn_p_gcd" then fpn_p_gcd_main c args
  else if name =? "fpn_p_qp" then fpn_p_qp_main c args
  else other name args.
End Handlers.

(* ---------------------------------------------------------------- cli/gcd/cli_gcd.cpp:12-31 *)
Definition gcd_main (args : list text) : prog Z :=
  match args with
  | [s1; s2] => a <~ arg_int s1 ;~ b <~ arg_int s2 ;~ g <~ call (int_gcd a b) ;~ show g ;~~ nl ;~~ ret 0
  | _ => usage
  end.
