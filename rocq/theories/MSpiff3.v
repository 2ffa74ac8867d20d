(* Model of the commands of cli/spiff on residue classes of polynomials over GF(2): f2_polymod_handlers.cpp:16-413, but for
   f2_pm_op (67-80, a wrapper of the expression parser: MCli.v) and the commands on matrices and vectors.  Definitions only.
   As in MSpiff.v, arguments are texts, without the name of the command.

   tm: the mask that bit_vector_t::trim shifts (MBits.v).  qs, qsv: the sorting functions of the C library (MUnits.v,
   MConvert.v). *)
From Verif Require Import Base MIntMath MIntmod MBits MF2Poly MTextIO MLinalg MList MUnits MConvert MRandom MSpiff MSpiff2.
From Coq Require Import Ascii String.
Import ListNotations.
Open Scope Z_scope.

(* ---------------------------------------------------------------- what the families share *)
(* tbl_types.h; log and alog carry the base *)
Inductive kind (A : Type) := KPlus | KMinus | KMul | KUnitMul | KUnitDiv | KLog (g : A) | KAlog (g : A).
Arguments KPlus {A}. Arguments KMinus {A}. Arguments KMul {A}. Arguments KUnitMul {A}. Arguments KUnitDiv {A}.
Arguments KLog {A}. Arguments KAlog {A}.
Section Cmds.
Context {A : Type} (arg : text -> prog A) (shw : A -> prog unit).
(* f2_polymod_handlers.cpp:98-138.  gen: find a generator, or write a message and exit(1) *)
Definition kind_of (gen : prog A) (s : text) : prog (kind A) :=
  if teq s "+" then ret KPlus else if teq s "-" then ret KMinus else if teq s "*" then ret KMul
  else if teq s "." then ret KMul else if teq s "u*" then ret KUnitMul else if teq s "u." then ret KUnitMul
  else if teq s "/" then ret KUnitDiv
  else if tprefix "log:" s then g <~ arg (skipn 4 s) ;~ ret (KLog g)
  else if teq s "log" then g <~ gen ;~ ret (KLog g)
  else if tprefix "alog:" s then g <~ arg (skipn 5 s) ;~ ret (KAlog g)
  else if teq s "alog" then g <~ gen ;~ ret (KAlog g)
  else usage.
(* 152-155 *)
Fixpoint k_log_rows (log : A -> res Z) (l : list A) : prog unit :=
  match l with
  | [] => ret tt
  | a :: l => e <~ call (log a) ;~ shw a ;~~ say " " ;~~ show e ;~~ nl ;~~ k_log_rows log l
  end.
(* 162-165 *)
Fixpoint k_alog_rows (mul : A -> A -> res A) (cnt : nat) (i : Z) (g gp : A) : prog unit :=
  match cnt with
  | O => ret tt
  | S k => show i ;~~ say " " ;~~ shw gp ;~~ nl ;~~ gp <~ call (mul gp g) ;~ k_alog_rows mul k (i + 1) g gp
  end.
(* 173-197 *)
Fixpoint k_row (op : A -> A -> res A) (first : bool) (a : A) (l : list A) : prog unit :=
  match l with
  | [] => nl
  | b :: l => x <~ call (op a b) ;~ (if first then ret tt else say " ") ;~~ shw x ;~~ k_row op false a l
  end.
(* 171-198 *)
Fixpoint k_rows (op : A -> A -> res A) (elts l : list A) : prog unit :=
  match l with
  | [] => ret tt
  | a :: l => k_row op true a elts ;~~ k_rows op elts l
  end.
(* 140-200 *)
Definition k_table (add sub mul div : A -> A -> res A) (log : A -> A -> res Z) (list_of : sp_list_type -> res (list A)) (k : kind A) : prog unit :=
  elts <~ call (list_of (match k with KPlus | KMinus | KMul => LIST_ALL | _ => LIST_UNITS end)) ;~
  match k with
  | KLog g => say "element power" ;~~ nl ;~~ say "------- -----" ;~~ nl ;~~ k_log_rows (log g) elts
  | KAlog g => say "power element" ;~~ nl ;~~ say "----- -------" ;~~ nl ;~~
               gp <~ call (div g g) ;~ k_alog_rows mul (List.length elts) 0 g gp
  | KPlus => k_rows add elts elts
  | KMinus => k_rows sub elts elts
  | KMul | KUnitMul => k_rows mul elts elts
  | KUnitDiv => k_rows div elts elts
  end.
(* for (...) { read a; compute b from it; if (several) std::cout << a << ": "; std::cout << b << endl; } *)
Definition per_calc {B} (shwB : B -> prog unit) (sev : bool) (f : A -> res B) (args : list text) : prog unit :=
  each (fun s => a <~ arg s ;~ b <~ call (f a) ;~ label sev (shw a) ": " ;~~ shwB b ;~~ nl) args.
(* the options of the listings: 25-33 *)
Definition arg_type (o : text) : prog sp_list_type :=
  if teq o "-a" then ret LIST_ALL else if teq o "-u" then ret LIST_UNITS else if teq o "-nu" then ret LIST_NON_UNITS else usage.
End Cmds.

(* ---------------------------------------------------------------- f2_polymod_handlers.cpp *)
Section F2.
Context (tm : option N) (qs : list (fpmod * Z) -> list (fpmod * Z)) (qsv : list fpmod -> list fpmod).
(* 21-60 *)
Definition f2_pm_list_main (args : list text) : prog Z :=
  match args with
  | [o; s] =>
      ty <~ arg_type o ;~ m <~ arg_f2 s ;~ l <~ call (f2_polymod_list tm m ty) ;~ show_lines show_pm l ;~~ ret 0
  | [o; sg; s] =>
      ty <~ (if teq o "-m" then ret LIST_MULTIPLES else if teq o "-rp" then ret LIST_REL_PRIME else usage) ;~
      m <~ arg_f2 s ;~ g <~ arg_pm m sg ;~ l <~ call (f2_polymod_glist g ty) ;~ show_lines show_pm l ;~~ ret 0
  | _ => usage
  end.
(* a generator, or a message and exit(1): 120-123, 131-134 *)
Definition f2_gen (m : fpoly) : prog fpmod :=
  o <~ call (f2_find_generator tm m) ;~ match o with Some g => ret g | None => ([], Exit 1) end.
(* 87-201 *)
Definition f2_pm_tbl_main (args : list text) : prog Z :=
  match args with
  | [s; o] =>
      m <~ arg_f2 s ;~ k <~ kind_of (arg_pm m) (f2_gen m) o ;~
      k_table show_pm pm_add pm_sub pm_mul pm_div (f2_log qs) (f2_polymod_list tm m) k ;~~ ret 0
  | _ => usage
  end.
(* 208-227 *)
Definition f2_pm_ord_main (args : list text) : prog Z :=
  match args with
  | s :: (_ :: _) as rest =>
      m <~ arg_f2 s ;~ per (arg_pm m) show_pm (several rest) ": " (fun a => k <~ call (f2_order tm a) ;~ show k ;~~ nl) rest ;~~ ret 0
  | _ => usage
  end.
(* 234-256: the value returned is 1 if some generator was not found *)
Fixpoint f2_find_gens (sev : bool) (rv : Z) (args : list text) : prog Z :=
  match args with
  | [] => ret rv
  | s :: args =>
      m <~ arg_f2 s ;~ label sev (show_f2 m) ": " ;~~ o <~ call (f2_find_generator tm m) ;~
      match o with
      | Some g => show_pm g ;~~ nl ;~~ f2_find_gens sev rv args
      | None => say "Generator not found." ;~~ nl ;~~ f2_find_gens sev 1 args
      end
  end.
Definition f2_pm_find_gen_main (args : list text) : prog Z :=
  match args with [] => usage | _ => f2_find_gens (several args) 0 args end.
(* 263-285 *)
Definition f2_pm_log_main (args : list text) : prog Z :=
  match args with
  | s1 :: s2 :: (_ :: _) as rest =>
      m <~ arg_f2 s1 ;~ g <~ arg_pm m s2 ;~
      per (arg_pm m) show_pm (several rest) ": " (fun a => e <~ call (f2_log qs g a) ;~ show e ;~~ nl) rest ;~~ ret 0
  | _ => usage
  end.
(* 292-315, 322-345 *)
Definition f2_pm_pol_main (f : fpmod -> res fpoly) (args : list text) : prog Z :=
  match args with
  | s :: (_ :: _) as rest => m <~ arg_f2 s ;~ per_calc (arg_pm m) show_pm show_f2 (several rest) f rest ;~~ ret 0
  | _ => usage
  end.
Definition f2_pm_ch_pol_main : list text -> prog Z := f2_pm_pol_main (f2_characteristic_polynomial tm).
Definition f2_pm_min_pol_main : list text -> prog Z := f2_pm_pol_main (f2_minimal_polynomial tm).
(* 352-385 *)
Definition f2_pm_convert_main (args : list text) : prog Z :=
  match args with
  | s1 :: s2 :: (_ :: _) as rest =>
      m1 <~ arg_f2 s1 ;~ m2 <~ arg_f2 s2 ;~ g1 <~ f2_gen m1 ;~
      o <~ call (convert_prep qsv g1 m2) ;~
      g2 <~ (match o with Some g => ret g | None => ([], Exit 1) end) ;~
      per_calc (arg_pm m1) show_pm show_pm (several rest) (convert_scalar qs g1 g2) rest ;~~ ret 0
  | _ => usage
  end.
(* 392-413 *)
Section Random.
Context {St : Type} (draw : St -> Z * St).
Definition f2_pm_random_main (s : St) (args : list text) : prog Z :=
  let go m n := times (Z.to_nat n) (fun s => r <~ call (f2_polymod_random draw m s) ;~ show_pm (fst r) ;~~ nl ;~~ ret (snd r)) s ;~~ ret 0 in
  match args with
  | [s1] => m <~ arg_f2 s1 ;~ go m 1
  | [s1; s2] => m <~ arg_f2 s1 ;~ n <~ arg_int s2 ;~ go m n
  | _ => usage
  end.
End Random.
End F2.

(* ---------------------------------------------------------------- spiff_main.cpp:89-106 *)
Section Handlers.
Context (tm : option N) (qs : list (fpmod * Z) -> list (fpmod * Z)) (qsv : list fpmod -> list fpmod) {St : Type} (draw : St -> Z * St) (s0 : St)
  (other : string -> list text -> prog Z).
Open Scope string_scope.
Definition class_handler (name : string) (args : list text) : prog Z :=
  if name =? "f2_pm_list" then f2_pm_list_main tm args
  else if name =? "f2_pm_tbl" then f2_pm_tbl_main tm qs args
  else if name =? "f2_pm_ord" then f2_pm_ord_main tm args
  else if name =? "f2_pm_find_gen" then f2_pm_find_gen_main tm args
  else if name =? "f2_pm_log" then f2_pm_log_main qs args
  else if name =? "f2_pm_ch_pol" then f2_pm_ch_pol_main tm args
  else if name =? "f2_pm_min_pol" then f2_pm_min_pol_main tm args
  else if name =? "f2_pm_convert" then f2_pm_convert_main tm qs qsv args
  else if name =? "f2_pm_random" then f2_pm_random_main draw s0 args
  else other name args.
End Handlers.
