(* Model of the commands of cli/spiff on residue classes of polynomials over GF(p) and GF(2^n): fp_polymod_handlers.cpp:14-47, 70-201,
   331-500; f2n_polymod_handlers.cpp:15-44, 73-395.  Not: the wrappers of the expression parsers (fp_pm_op, f2n_pm_op: MCli.v) and
   the commands on matrices and vectors.  Definitions only.  As in MSpiff.v, arguments are texts, without the name of the command. *)
From Verif Require Import Base MIntMath MIntmod MBits MF2Poly MPoly MPolymod MF2nPoly MTextIO MPolyText MLinalg MList MUnits MRandom MSpiff MSpiff2 MSpiff3.
From Coq Require Import Ascii String.
Import ListNotations.
Open Scope Z_scope.

(* ---------------------------------------------------------------- what the two families share *)
(* arg1: the prime, or the inner modulus; arg2: the (outer) modulus; arg3: a residue *)
Section Two.
Context {I M E : Type} (arg1 : text -> prog I) (arg2 : I -> text -> prog M) (arg3 : M -> text -> prog E)
  (shwM : M -> prog unit) (shw : E -> prog unit).
Definition arg12 (s1 s2 : text) : prog M := i <~ arg1 s1 ;~ arg2 i s2.
(* fp_polymod_handlers.cpp:19-47, f2n_polymod_handlers.cpp:20-45 *)
Definition two_list_main (lst : M -> sp_list_type -> res (list E)) (args : list text) : prog Z :=
  match args with
  | [o; s1; s2] => ty <~ arg_type o ;~ m <~ arg12 s1 s2 ;~ l <~ call (lst m ty) ;~ show_lines shw l ;~~ ret 0
  | _ => usage
  end.
(* fp_polymod_handlers.cpp:75-201, f2n_polymod_handlers.cpp:79-198 *)
Definition two_tbl_main (add sub mul div : E -> E -> res E) (log : E -> E -> res Z) (lst : M -> sp_list_type -> res (list E))
    (knd : M -> text -> prog (kind E)) (args : list text) : prog Z :=
  match args with
  | [s1; s2; o] => m <~ arg12 s1 s2 ;~ k <~ knd m o ;~ k_table shw add sub mul div log (lst m) k ;~~ ret 0
  | _ => usage
  end.
(* fp_polymod_handlers.cpp:384-411, 418-445; f2n_polymod_handlers.cpp:300-326, 333-359 *)
Definition two_pol_main (f : E -> res M) (args : list text) : prog Z :=
  match args with
  | s1 :: s2 :: (_ :: _) as rest => m <~ arg12 s1 s2 ;~ per_calc (arg3 m) shw shwM (several rest) f rest ;~~ ret 0
  | _ => usage
  end.
(* fp_polymod_handlers.cpp:452-480, f2n_polymod_handlers.cpp:366-391; rnd has the inner modulus too *)
Definition two_random_main {St : Type} (rnd : I -> M -> St -> res (E * St)) (s : St) (args : list text) : prog Z :=
  let go i m n := times (Z.to_nat n) (fun s => r <~ call (rnd i m s) ;~ shw (fst r) ;~~ nl ;~~ ret (snd r)) s ;~~ ret 0 in
  match args with
  | [s1; s2] => i <~ arg1 s1 ;~ m <~ arg2 i s2 ;~ go i m 1
  | [s1; s2; s3] => i <~ arg1 s1 ;~ m <~ arg2 i s2 ;~ n <~ arg_int s3 ;~ go i m n
  | _ => usage
  end.
End Two.

(* ---------------------------------------------------------------- fp_polymod_handlers.cpp *)
Section Fp.
Context (c : cache).
Local Notation o := (im_kops c).
Local Notation arg1 := arg_int.
Local Notation arg2 := (arg_fp c).
Definition arg_fpm (m : list intmod) (s : text) : prog (gmod intmod) :=
  r <~ call (fpm_scan c s m) ;~ match r with Some a => ret a | None => usage end.
Definition show_fpm (a : gmod intmod) : prog unit := print_res (fpm_put a).
Definition fp_pm_list_main : list text -> prog Z := two_list_main arg1 arg2 show_fpm (fp_polymod_list c).
(* 89-105; the logarithms are not compiled *)
Definition fp_kind (m : list intmod) (s : text) : prog (kind (gmod intmod)) :=
  if teq s "+" then ret KPlus else if teq s "-" then ret KMinus else if teq s "*" then ret KMul
  else if teq s "." then ret KMul else if teq s "u*" then ret KUnitMul else if teq s "u." then ret KUnitMul
  else if teq s "/" then ret KUnitDiv else usage.
Definition fp_pm_tbl_main : list text -> prog Z :=
  two_tbl_main arg1 arg2 show_fpm (gm_add o) (gm_sub o) (gm_mul o) (gm_div o) (fun _ _ => Exn) (fp_polymod_list c) fp_kind.
(* 368-374 *)
Definition fp_ord_step (a one : gmod intmod) (s : Z * gmod intmod) : res ((Z * gmod intmod) + Z) :=
  let '(order, ap) := s in
  e <- gm_eqb o ap one ;;
  if e : bool then Ok (inr order) else ap <- gm_mul o ap a ;; order <- iadd order 1 ;; Ok (inl (order, ap)).
(* 363-374; the conversion of intmod_t to fp_poly_t is gp_const; fuel: the number of residues and one more *)
Definition fp_ord (p : Z) (m : list intmod) (a : gmod intmod) : res Z :=
  z <- im_make 0 p ;; z <- gp_const o z ;; _ <- gm_make o z m ;;
  u <- im_make 1 p ;; u <- gp_const o u ;; one <- gm_make o u m ;;
  loop (S (Nat.pow (Z.to_nat p) (gp_degree m))) (fp_ord_step a one) (1, a).
(* 336-379 *)
Definition fp_pm_ord_main (args : list text) : prog Z :=
  match args with
  | [s1; s2; s3] =>
      p <~ arg_int s1 ;~ m <~ arg_fp c p s2 ;~ a <~ arg_fpm m s3 ;~ ai <~ call (gm_recip o a) ;~
      match ai with
      | None => show 0 ;~~ nl ;~~ ret 0
      | Some _ => k <~ call (fp_ord p m a) ;~ show k ;~~ nl ;~~ ret 0
      end
  | _ => usage
  end.
Definition fp_pm_ch_pol_main : list text -> prog Z := two_pol_main arg1 arg2 arg_fpm show_fp show_fpm (fp_characteristic_polynomial c).
Definition fp_pm_min_pol_main : list text -> prog Z := two_pol_main arg1 arg2 arg_fpm show_fp show_fpm (fp_minimal_polynomial c).
Definition fp_pm_random_main {St : Type} (draw : St -> Z * St) : St -> list text -> prog Z :=
  two_random_main arg1 arg2 show_fpm (fun _ => fp_polymod_random draw c).
End Fp.

(* ---------------------------------------------------------------- f2n_polymod_handlers.cpp *)
Section F2n.
Context (qs : list (gmod fpmod * Z) -> list (gmod fpmod * Z)).
Local Notation o := f2n_kops.
Local Notation arg1 := arg_f2.
Local Notation arg2 := arg_f2n.
Definition arg_f2nm (m : list fpmod) (s : text) : prog (gmod fpmod) :=
  r <~ call (f2nm_scan s m) ;~ match r with Some a => ret a | None => usage end.
Definition show_f2nm (a : gmod fpmod) : prog unit := print_res (f2nm_put a).
Definition f2n_pm_list_main : list text -> prog Z := two_list_main arg1 arg2 show_f2nm f2n_polymod_list.
(* a generator, or a message and exit(1): 115-118, 126-129 *)
Definition f2n_gen (m : list fpmod) : prog (gmod fpmod) :=
  r <~ call (f2n_find_generator m) ;~ match r with Some g => ret g | None => ([], Exit 1) end.
Definition f2n_pm_tbl_main : list text -> prog Z :=
  two_tbl_main arg1 arg2 show_f2nm (gm_add o) (gm_sub o) (gm_mul o) (gm_div o) (f2n_log qs) f2n_polymod_list
    (fun m => kind_of (arg_f2nm m) (f2n_gen m)).
(* 204-227 *)
Definition f2n_pm_ord_main (args : list text) : prog Z :=
  match args with
  | s1 :: s2 :: (_ :: _) as rest =>
      m <~ arg12 arg1 arg2 s1 s2 ;~
      per (arg_f2nm m) show_f2nm (several rest) ": " (fun a => k <~ call (f2n_order a) ;~ show k ;~~ nl) rest ;~~ ret 0
  | _ => usage
  end.
(* 234-260: the value returned is 1 if some generator was not found *)
Fixpoint f2n_find_gens (im : fpoly) (sev : bool) (rv : Z) (args : list text) : prog Z :=
  match args with
  | [] => ret rv
  | s :: args =>
      m <~ arg2 im s ;~ label sev (show_f2n m) ": " ;~~ r <~ call (f2n_find_generator m) ;~
      match r with
      | Some g => show_f2nm g ;~~ nl ;~~ f2n_find_gens im sev rv args
      | None => say "Generator not found." ;~~ nl ;~~ f2n_find_gens im sev 1 args
      end
  end.
Definition f2n_pm_find_gen_main (args : list text) : prog Z :=
  match args with s1 :: (_ :: _) as rest => im <~ arg1 s1 ;~ f2n_find_gens im (several rest) 0 rest | _ => usage end.
(* 267-293 *)
Definition f2n_pm_log_main (args : list text) : prog Z :=
  match args with
  | s1 :: s2 :: s3 :: (_ :: _) as rest =>
      m <~ arg12 arg1 arg2 s1 s2 ;~ g <~ arg_f2nm m s3 ;~
      per (arg_f2nm m) show_f2nm (several rest) ": " (fun a => e <~ call (f2n_log qs g a) ;~ show e ;~~ nl) rest ;~~ ret 0
  | _ => usage
  end.
Definition f2n_pm_ch_pol_main : list text -> prog Z := two_pol_main arg1 arg2 arg_f2nm show_f2n show_f2nm f2nm_characteristic_polynomial.
Definition f2n_pm_min_pol_main : list text -> prog Z := two_pol_main arg1 arg2 arg_f2nm show_f2n show_f2nm f2nm_minimal_polynomial.
Definition f2n_pm_random_main {St : Type} (draw : St -> Z * St) : St -> list text -> prog Z :=
  two_random_main arg1 arg2 show_f2nm (f2n_polymod_random draw).
End F2n.

(* ---------------------------------------------------------------- spiff_main.cpp:133-142, 189-196 *)
Section Handlers.
Context (c : cache) (qs : list (gmod fpmod * Z) -> list (gmod fpmod * Z)) {St : Type} (draw : St -> Z * St) (s0 : St)
  (other : string -> list text -> prog Z).
Open Scope string_scope.
Definition class_handler2 (name : string) (args : list text) : prog Z :=
  if name =? "fp_pm_list" then fp_pm_list_main c args
  else if name =? "fp_pm_tbl" then fp_pm_tbl_main c args
  else if name =? "fp_pm_ord" then fp_pm_ord_main c args
  else if name =? "fp_pm_ch_pol" then fp_pm_ch_pol_main c args
  else if name =? "fp_pm_min_pol" then fp_pm_min_pol_main c args
  else if name =? "fp_pm_random" then fp_pm_random_main c draw s0 args
  else if name =? "f2n_pm_list" then f2n_pm_list_main args
  else if name =? "f2n_pm_tbl" then f2n_pm_tbl_main qs args
  else if name =? "f2n_pm_ord" then f2n_pm_ord_main args
  else if name =? "f2n_pm_find_gen" then f2n_pm_find_gen_main args
  else if name =? "f2n_pm_log" then f2n_pm_log_main qs args
  else if name =? "f2n_pm_ch_pol" then f2n_pm_ch_pol_main args
  else if name =? "f2n_pm_min_pol" then f2n_pm_min_pol_main args
  else if name =? "f2n_pm_random" then f2n_pm_random_main draw s0 args
  else other name args.
End Handlers.
