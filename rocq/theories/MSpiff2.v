(* Model of the commands of cli/spiff on polynomials over GF(2), GF(p) and GF(2^n): f2_poly_handlers.cpp,
   fp_poly_handlers.cpp and f2n_poly_handlers.cpp, but for the wrappers of the expression parsers (f2_p_op, f2_p_mat_op,
   ...: MCli.v, MMatCli.v).  Definitions only.  As in MSpiff.v, arguments are texts, without the name of the command.

   tm: the mask that bit_vector_t::trim shifts (MBits.v).  c: the statics of intmod_t::recip, held fixed during a command;
   the functions called are modelled for any state of them.  fuel: the attempts of a random search. *)
From Verif Require Import Base MIntMath MFac MIntmod MMat MBits MF2Poly MF2Fac MPoly MPolyFac MF2nPoly MMatCli MTextIO MPolyText MCyclo MLinalg MList MUnits MRandom MSpiff.
From Coq Require Import Ascii String.
Import ListNotations.
Open Scope Z_scope.

(* ---------------------------------------------------------------- what the three families share *)
(* arg: if (!a.from_string(...)) pusage(argv[0]);   shw: std::cout << a *)
Section Cmds.
Context {A : Type} (arg : text -> prog A) (shw : A -> prog unit).
(* for (...) { read a; if (several) std::cout << a << sep; body } *)
Definition per (sev : bool) (sep : string) (body : A -> prog unit) (args : list text) : prog unit :=
  each (fun s => a <~ arg s ;~ label sev (shw a) sep ;~~ body a) args.
(* the same, with f computed before anything is printed *)
Definition per_first (sev : bool) (sep : string) (f : A -> res Z) (args : list text) : prog unit :=
  each (fun s => a <~ arg s ;~ v <~ call (f a) ;~ label sev (shw a) sep ;~~ show v ;~~ nl) args.
(* l: what has been found so far *)
Fixpoint fold_args (f : A -> A -> res A) (l : A) (args : list text) : prog A :=
  match args with
  | [] => ret l
  | s :: args => a <~ arg s ;~ l <~ call (f l a) ;~ fold_args f l args
  end.
Definition fold_main (f : A -> A -> res A) (args : list text) : prog Z :=
  match args with
  | [] => usage
  | s :: args => a <~ arg s ;~ l <~ fold_args f a args ;~ shw l ;~~ nl ;~~ ret 0
  end.
(* the line of the extended gcd *)
Definition show_bezout (g r a s b : A) : prog unit :=
  shw g ;~~ say " = " ;~~ shw r ;~~ say " * " ;~~ shw a ;~~ say " + " ;~~ shw s ;~~ say " * " ;~~ shw b ;~~ nl.
(* tvector.h:227-232 *)
Fixpoint show_lines (l : list A) : prog unit :=
  match l with
  | [] => ret tt
  | a :: l => shw a ;~~ nl ;~~ show_lines l
  end.
(* elements with blanks between *)
Fixpoint show_words (first : bool) (l : list A) : prog unit :=
  match l with
  | [] => ret tt
  | a :: l => (if first then ret tt else say " ") ;~~ shw a ;~~ show_words false l
  end.
(* tfacinfo.h:471-487 *)
Fixpoint show_facs (first : bool) (l : list (A * Z)) : prog unit :=
  match l with
  | [] => ret tt
  | (f, n) :: l => (if first then ret tt else say " ") ;~~ shw f ;~~ (if n =? 1 then ret tt else say "^" ;~~ show n) ;~~ show_facs false l
  end.
Definition show_facinfo (f : facinfo A) : prog unit :=
  match funit f with
  | Some u => shw u ;~~ show_facs false (facs f)
  | None => show_facs true (facs f)
  end.
Definition factor_body (F : fops A) (one : A) (factor : A -> res (facinfo A)) (neq : A -> A -> res bool) (a : A) : prog unit :=
  finfo <~ call (factor a) ;~ show_facinfo finfo ;~~ nl ;~~
  check <~ call (unfactor F finfo one) ;~ b <~ call (neq check a) ;~
  if b : bool then ([], Exit 1) else ret tt.
Definition divisors_body (F : fops A) (one : A) (factor : A -> res (facinfo A)) (mp : bool) (a : A) : prog unit :=
  finfo <~ call (factor a) ;~
  o <~ call (if mp then get_maximal_proper_divisors F finfo one
             else ds <- get_all_divisors F finfo one ;; Ok (Some ds)) ;~
  match o with
  | None => say "(none)" ;~~ nl
  | Some ds => show_words true ds ;~~ nl
  end.
Definition test_body (irr : A -> res bool) (a : A) : prog unit :=
  b <~ call (irr a) ;~ say (if b : bool then "IRREDUCIBLE" else "reducible") ;~~ nl.
End Cmds.
(* for (deg = deglo; deg <= deghi; deg++): cnt rounds *)
Fixpoint over {S : Type} (cnt : nat) (deg : Z) (body : Z -> S -> prog S) (s : S) : prog S :=
  match cnt with
  | O => ret s
  | S k => s <~ body deg s ;~ d <~ call (iadd deg 1) ;~ over k d body s
  end.
Definition degrees {S : Type} (r : Z * Z) (body : Z -> S -> prog S) (s : S) : prog S :=
  over (Z.to_nat (snd r - fst r + 1)) (fst r) body s.
(* for (i = 0; i < count; i++) *)
Fixpoint times {S : Type} (cnt : nat) (body : S -> prog S) (s : S) : prog S :=
  match cnt with
  | O => ret s
  | S k => s <~ body s ;~ times k body s
  end.
Definition print_res (t : res text) : prog unit := t <~ call t ;~ print t.
(* if (!a.from_string(...)) pusage(argv[0]); Freed: the object holds a pointer to released memory, and is used next *)
Definition arg_scan {A : Type} (r : res (scan A)) : prog A :=
  x <~ call r ;~ match x with Read l => ret l | Rejected _ => usage | Freed => ([], Undef) end.

(* ---------------------------------------------------------------- f2_poly_handlers.cpp *)
(* f2_poly_t.cpp:68-73 *)
Definition arg_f2 (s : text) : prog fpoly :=
  r <~ call (f2_from_string (codes s)) ;~ if snd r : bool then ret (fst r) else usage.
Definition show_f2 (a : fpoly) : prog unit := print_res (f2_put a).
(* bit_t.cpp:45-55: operator>> of an unsigned takes a sign, and refuses what exceeds its range *)
Definition arg_bit (s : text) : prog bool :=
  match scan_num s with
  | None => usage
  | Some (v, _) => if Z.abs v <=? 2 ^ 32 - 1 then ret (Z.odd v) else usage
  end.
(* bit_t.cpp:13-17 *)
Definition bit_put (b : bool) : text := [if b then "1"%char else "0"%char].

Section F2.
Context (tm : option N).
(* 26-46 *)
Definition f2_p_list_main (args : list text) : prog Z :=
  match args with
  | [s] => r <~ arg_range s ;~ degrees r (fun d _ => l <~ call (f2_poly_list d) ;~ show_lines show_f2 l) tt ;~~ ret 0
  | _ => usage
  end.
(* 60-72 *)
Definition f2_p_deg_main (args : list text) : prog Z :=
  per arg_f2 show_f2 (several args) ": " (fun a => d <~ call (f2_degree a) ;~ show (Z.of_nat d) ;~~ nl) args ;~~ ret 0.
(* 80-100 *)
Definition f2_p_ext_gcd_main (args : list text) : prog Z :=
  match args with
  | [s1; s2] =>
      a <~ arg_f2 s1 ;~ b <~ arg_f2 s2 ;~
      t <~ call (f2_ext_gcd a b) ;~
      let '(g, r, s) := t in
      show_bezout show_f2 g r a s b ;~~
      check <~ call (x <- f2_mul a r ;; y <- f2_mul b s ;; f2_add x y) ;~
      n <~ call (f2_neqb g check) ;~
      if n : bool then ([], Exit 1) else ret 0
  | _ => usage
  end.
(* 79-119 *)
Definition f2_p_gcd_main (args : list text) : prog Z :=
  match args with
  | s :: rest => if teq s "-e" then f2_p_ext_gcd_main rest else fold_main arg_f2 show_f2 f2_gcd args
  | [] => usage
  end.
(* 126-144 *)
Definition f2_lcm (l a : fpoly) : res fpoly := x <- f2_mul l a ;; g <- f2_gcd l a ;; f2_div x g.
Definition f2_p_lcm_main (args : list text) : prog Z := fold_main arg_f2 show_f2 f2_lcm args.
(* 151-168 *)
Definition f2_p_totient_main (args : list text) : prog Z :=
  match args with
  | [] => usage
  | _ => per_first arg_f2 show_f2 (several args) ": " (f2_totient tm) args ;~~ ret 0
  end.
(* 182-193, 248-259: (do_irr, do_prim) *)
Definition arg_tests (s : text) : prog (bool * bool) :=
  if teq s "-i" then ret (true, false) else if teq s "-p" then ret (false, true) else if teq s "-ip" then ret (true, true) else usage.
(* 176-223; argc > 2 holds always *)
Definition f2_p_test_main (args : list text) : prog Z :=
  match args with
  | o :: (_ :: _) as rest =>
      t <~ arg_tests o ;~
      per arg_f2 show_f2 true ": "
        (fun a => (if fst t : bool then b <~ call (f2_is_irreducible tm a) ;~ say (if b : bool then "IRREDUCIBLE" else "reducible") else ret tt) ;~~
                  (if fst t && snd t then say " " else ret tt) ;~~
                  (if snd t : bool then b <~ call (f2_is_primitive tm a) ;~ say (if b : bool then "PRIMITIVE" else "imprimitive") else ret tt) ;~~ nl)
        rest ;~~ ret 0
  | _ => usage
  end.
(* 288-300 *)
Definition f2_p_period_main (args : list text) : prog Z :=
  per arg_f2 show_f2 (several args) ": " (fun a => k <~ call (f2_period tm a) ;~ show k ;~~ nl) args ;~~ ret 0.
(* 307-331 *)
Definition f2_p_factor_main (args : list text) : prog Z :=
  per arg_f2 show_f2 (several args) " = " (factor_body show_f2 f2_fops (f2_of_int 1) (f2_factor tm) f2_neqb) args ;~~ ret 0.
(* 338-375 *)
Definition f2_p_divisors_main (args : list text) : prog Z :=
  let '(mp, args) := match args with
                     | s :: t => if teq s "-mp" then (true, t) else (false, args)
                     | [] => (false, args)
                     end in
  per arg_f2 show_f2 (several args) ": " (divisors_body show_f2 f2_fops (f2_of_int 1) (f2_factor tm) mp) args ;~~ ret 0.
(* 382-401 *)
Definition f2_p_eval_main (args : list text) : prog Z :=
  match args with
  | sf :: (_ :: _) as rest =>
      f <~ arg_f2 sf ;~ each (fun s => a <~ arg_bit s ;~ b <~ call (f2_eval_bit f a) ;~ print (bit_put b) ;~~ nl) rest ;~~ ret 0
  | _ => usage
  end.
(* 435-449 *)
Definition f2_p_comp_mx_main (args : list text) : prog Z :=
  match args with
  | [s] => a <~ arg_f2 s ;~ m <~ call (f2_companion_matrix a) ;~ print (mat_out bit_put m) ;~~ nl ;~~ ret 0
  | _ => usage
  end.
(* 463-477 *)
Definition f2_p_qp_main (args : list text) : prog Z :=
  match args with
  | [] => usage
  | _ => each (fun s => q <~ arg_scan (q_scan s) ;~ f <~ call (f2_poly_from_q_poly q) ;~ show_f2 f ;~~ nl) args ;~~ ret 0
  end.
Section Random.
Context {St : Type} (draw : St -> Z * St) (fuel : nat).
(* 408-428 *)
Definition f2_p_random_main (s : St) (args : list text) : prog Z :=
  let go deg n := times (Z.to_nat n) (fun s => r <~ call (f2_poly_random draw deg s) ;~ show_f2 (fst r) ;~~ nl ;~~ ret (snd r)) s ;~~ ret 0 in
  match args with
  | [s1] => d <~ arg_int s1 ;~ go d 1
  | [s1; s2] => d <~ arg_int s1 ;~ n <~ arg_int s2 ;~ go d n
  | _ => usage
  end.
(* 232-281 *)
Definition f2_p_find_main (s : St) (args : list text) : prog Z :=
  match args with
  | [s1; s2; s3] =>
      rnd <~ (if teq s1 "-1" then ret false else if teq s1 "-r" then ret true else usage) ;~
      t <~ arg_tests s2 ;~ r <~ arg_range s3 ;~
      degrees r (fun d s =>
        x <~ call (if rnd : bool
                   then if snd t : bool then f2_poly_random_prim draw tm fuel d (fst t) s else f2_poly_random_irreducible draw tm fuel d s
                   else a <- (if snd t : bool then f2_find_prim tm d (fst t) else f2_find_irreducible tm d) ;; Ok (a, s)) ;~
        show_f2 (fst x) ;~~ nl ;~~ ret (snd x)) s ;~~ ret 0
  | _ => usage
  end.
End Random.
End F2.

(* ---------------------------------------------------------------- fp_poly_handlers.cpp *)
Section Fp.
Context (c : cache).
Local Notation o := (im_kops c).
Definition arg_fp (p : Z) (s : text) : prog (list intmod) := arg_scan (fp_scan c p s).
Definition show_fp (a : list intmod) : prog unit := print_res (fp_put a).
(* fp_poly_t(intmod_t(1, p)) *)
Definition fp_one (p : Z) : res (list intmod) := x <- im_make 1 p ;; gp_const o x.
(* 21-42 *)
Definition fp_p_list_main (args : list text) : prog Z :=
  match args with
  | [s; sr] => p <~ arg_int s ;~ r <~ arg_range sr ;~
      degrees r (fun d _ => l <~ call (fp_poly_list c p d) ;~ show_lines show_fp l) tt ;~~ ret 0
  | _ => usage
  end.
(* 87-106 *)
Definition fp_p_comp_mx_main (args : list text) : prog Z :=
  match args with
  | [s; sa] => p <~ arg_int s ;~ a <~ arg_fp p sa ;~ m <~ call (fp_companion_matrix c a) ;~ print (mat_out im_put m) ;~~ nl ;~~ ret 0
  | _ => usage
  end.
(* 113-133 *)
Definition fp_p_deg_main (args : list text) : prog Z :=
  match args with
  | s :: rest => p <~ arg_int s ;~ per (arg_fp p) show_fp (several rest) ": " (fun a => show (Z.of_nat (gp_degree a)) ;~~ nl) rest ;~~ ret 0
  | [] => usage
  end.
(* 140-177 *)
Definition fp_p_gcd_main (args : list text) : prog Z :=
  match args with
  | [s; s1; s2] => p <~ arg_int s ;~ a <~ arg_fp p s1 ;~ b <~ arg_fp p s2 ;~ g <~ call (gp_gcd o a b) ;~ show_fp g ;~~ nl ;~~ ret 0
  | [e; s; s1; s2] =>
      if teq e "-e" then
        p <~ arg_int s ;~ a <~ arg_fp p s1 ;~ b <~ arg_fp p s2 ;~
        t <~ call (gp_ext_gcd o a b) ;~ let '(g, r, s) := t in show_bezout show_fp g r a s b ;~~ ret 0
      else usage
  | _ => usage
  end.
(* 184-206 *)
Definition gp_lcm {A} (o : kops A) (l a : list A) : res (list A) := x <- gp_mul o l a ;; g <- gp_gcd o l a ;; gp_div o x g.
Definition fp_p_lcm_main (args : list text) : prog Z :=
  match args with
  | s :: (_ :: _) as rest => p <~ arg_int s ;~ fold_main (arg_fp p) show_fp (gp_lcm o) rest
  | _ => usage
  end.
(* 213-234 *)
Definition fp_p_totient_main (args : list text) : prog Z :=
  match args with
  | s :: (_ :: _) as rest => p <~ arg_int s ;~ per_first (arg_fp p) show_fp (several rest) ": " (fp_totient c) rest ;~~ ret 0
  | _ => usage
  end.
(* 241-265 *)
Definition fp_p_test_main (args : list text) : prog Z :=
  match args with
  | s :: rest => p <~ arg_int s ;~ per (arg_fp p) show_fp (several rest) ": " (test_body (fp_is_irreducible c)) rest ;~~ ret 0
  | [] => usage
  end.
(* 316-349 *)
Definition fp_p_factor_main (args : list text) : prog Z :=
  match args with
  | s :: rest => p <~ arg_int s ;~
      per (arg_fp p) show_fp (several rest) " = "
        (fun a => finfo <~ call (fp_factor c a) ;~ show_facinfo show_fp finfo ;~~ nl ;~~
                  one <~ call (fp_one p) ;~ check <~ call (unfactor (gp_fops o) finfo one) ;~ b <~ call (gp_neqb o check a) ;~
                  if b : bool then ([], Exit 1) else ret tt) rest ;~~ ret 0
  | [] => usage
  end.
(* 356-401 *)
Definition fp_p_divisors_main (args : list text) : prog Z :=
  let '(mp, args) := match args with
                     | s :: t => if teq s "-mp" then (true, t) else (false, args)
                     | [] => (false, args)
                     end in
  match args with
  | s :: (_ :: _) as rest => p <~ arg_int s ;~ one <~ call (fp_one p) ;~
      per (arg_fp p) show_fp (several rest) ": " (divisors_body show_fp (gp_fops o) one (fp_factor c) mp) rest ;~~ ret 0
  | _ => usage
  end.
(* 408-431 *)
Definition fp_p_eval_main (args : list text) : prog Z :=
  match args with
  | s :: sf :: (_ :: _) as rest => p <~ arg_int s ;~ f <~ arg_fp p sf ;~
      each (fun s => a <~ arg_mod s p ;~ b <~ call (gp_eval o f a) ;~ show_im b ;~~ nl) rest ;~~ ret 0
  | _ => usage
  end.
(* 468-486 *)
Definition fp_p_qp_main (args : list text) : prog Z :=
  match args with
  | s :: (_ :: _) as rest => p <~ arg_int s ;~
      each (fun s => q <~ arg_scan (q_scan s) ;~ f <~ call (fp_poly_from_qpoly c q p) ;~ show_fp f ;~~ nl) rest ;~~ ret 0
  | _ => usage
  end.
Section Random.
Context {St : Type} (draw : St -> Z * St) (fuel : nat).
(* 272-309 *)
Definition fp_p_find_main (s : St) (args : list text) : prog Z :=
  match args with
  | [s1; s2; s3] =>
      rnd <~ (if teq s1 "-1" then ret false else if teq s1 "-r" then ret true else usage) ;~
      p <~ arg_int s2 ;~ r <~ arg_range s3 ;~
      degrees r (fun d s =>
        x <~ call (if rnd : bool then fp_poly_random_irr draw c fuel p d s else a <- fp_find_irr c p d ;; Ok (a, s)) ;~
        show_fp (fst x) ;~~ nl ;~~ ret (snd x)) s ;~~ ret 0
  | _ => usage
  end.
(* 438-461 *)
Definition fp_p_random_main (s : St) (args : list text) : prog Z :=
  let go p deg n := times (Z.to_nat n) (fun s => r <~ call (fp_poly_random draw c p deg s) ;~ show_fp (fst r) ;~~ nl ;~~ ret (snd r)) s ;~~ ret 0 in
  match args with
  | [s1; s2] => p <~ arg_int s1 ;~ d <~ arg_int s2 ;~ go p d 1
  | [s1; s2; s3] => p <~ arg_int s1 ;~ d <~ arg_int s2 ;~ n <~ arg_int s3 ;~ go p d n
  | _ => usage
  end.
End Random.
End Fp.

(* ---------------------------------------------------------------- f2n_poly_handlers.cpp *)
Definition arg_f2n (m : fpoly) (s : text) : prog (list fpmod) := arg_scan (f2n_scan m s).
Definition show_f2n (a : list fpmod) : prog unit := print_res (f2n_put a).
(* f2_polymod_t.cpp:176-180, 197-207 *)
Definition pm_put (a : fpmod) : res text := t <- pm_print a ;; Ok (chars t).
Definition show_pm (a : fpmod) : prog unit := print_res (pm_put a).
Definition arg_pm (m : fpoly) (s : text) : prog fpmod :=
  r <~ call (pm_from_string (codes s) m) ;~ match r with Some a => ret a | None => usage end.
(* f2n_poly_t(f2_polymod_t(f2_poly_t(1), m)) *)
Definition f2n_one (m : fpoly) : res (list fpmod) := x <- pm_make (f2_of_int 1) m ;; gp_const f2n_kops x.
(* 23-46 *)
Definition f2n_p_list_main (args : list text) : prog Z :=
  match args with
  | [s; sr] => m <~ arg_f2 s ;~ r <~ arg_range sr ;~
      degrees r (fun d _ => l <~ call (f2n_poly_list m d) ;~ show_lines show_f2n l) tt ;~~ ret 0
  | _ => usage
  end.
(* 75-95 *)
Definition f2n_p_deg_main (args : list text) : prog Z :=
  match args with
  | s :: rest => m <~ arg_f2 s ;~ per (arg_f2n m) show_f2n (several rest) ": " (fun a => show (Z.of_nat (gp_degree a)) ;~~ nl) rest ;~~ ret 0
  | [] => usage
  end.
(* 102-147 *)
Definition f2n_p_gcd_main (args : list text) : prog Z :=
  match args with
  | [s; s1; s2] => m <~ arg_f2 s ;~ a <~ arg_f2n m s1 ;~ b <~ arg_f2n m s2 ;~ g <~ call (gp_gcd f2n_kops a b) ;~ show_f2n g ;~~ nl ;~~ ret 0
  | [e; s; s1; s2] =>
      if teq e "-e" then
        m <~ arg_f2 s ;~ a <~ arg_f2n m s1 ;~ b <~ arg_f2n m s2 ;~
        t <~ call (gp_ext_gcd f2n_kops a b) ;~
        let '(g, r, s) := t in
        show_bezout show_f2n g r a s b ;~~
        check <~ call (x <- gp_mul f2n_kops a r ;; y <- gp_mul f2n_kops b s ;; gp_add f2n_kops x y) ;~
        n <~ call (gp_neqb f2n_kops g check) ;~
        if n : bool then ([], Exit 1) else ret 0
      else usage
  | _ => usage
  end.
(* 154-176 *)
Definition f2n_p_lcm_main (args : list text) : prog Z :=
  match args with
  | s :: (_ :: _) as rest => m <~ arg_f2 s ;~ fold_main (arg_f2n m) show_f2n (gp_lcm f2n_kops) rest
  | _ => usage
  end.
(* 183-204 *)
Definition f2n_p_totient_main (args : list text) : prog Z :=
  match args with
  | s :: (_ :: _) as rest => m <~ arg_f2 s ;~ per_first (arg_f2n m) show_f2n (several rest) ": " f2n_totient rest ;~~ ret 0
  | _ => usage
  end.
(* 211-235 *)
Definition f2n_p_test_main (args : list text) : prog Z :=
  match args with
  | s :: rest => m <~ arg_f2 s ;~ per (arg_f2n m) show_f2n (several rest) ": " (test_body f2n_is_irreducible) rest ;~~ ret 0
  | [] => usage
  end.
(* 286-319 *)
Definition f2n_p_factor_main (args : list text) : prog Z :=
  match args with
  | s :: rest => m <~ arg_f2 s ;~
      per (arg_f2n m) show_f2n (several rest) " = "
        (fun a => finfo <~ call (f2n_factor a) ;~ show_facinfo show_f2n finfo ;~~ nl ;~~
                  one <~ call (f2n_one m) ;~ check <~ call (unfactor (gp_fops f2n_kops) finfo one) ;~ b <~ call (gp_neqb f2n_kops check a) ;~
                  if b : bool then ([], Exit 1) else ret tt) rest ;~~ ret 0
  | [] => usage
  end.
(* 326-372 *)
Definition f2n_p_divisors_main (args : list text) : prog Z :=
  let '(mp, args) := match args with
                     | s :: t => if teq s "-mp" then (true, t) else (false, args)
                     | [] => (false, args)
                     end in
  match args with
  | s :: (_ :: _) as rest => m <~ arg_f2 s ;~ one <~ call (f2n_one m) ;~
      per (arg_f2n m) show_f2n (several rest) ": " (divisors_body show_f2n (gp_fops f2n_kops) one f2n_factor mp) rest ;~~ ret 0
  | _ => usage
  end.
(* 379-402 *)
Definition f2n_p_eval_main (args : list text) : prog Z :=
  match args with
  | s :: sf :: (_ :: _) as rest => m <~ arg_f2 s ;~ f <~ arg_f2n m sf ;~
      each (fun s => a <~ arg_pm m s ;~ b <~ call (gp_eval f2n_kops f a) ;~ show_pm b ;~~ nl) rest ;~~ ret 0
  | _ => usage
  end.
(* 440-459 *)
Definition f2n_p_comp_mx_main (args : list text) : prog Z :=
  match args with
  | [s; sa] => m <~ arg_f2 s ;~ a <~ arg_f2n m sa ;~ x <~ call (f2n_companion_matrix a) ;~
      rows <~ call (mapM (mapM pm_put) (t_rows x)) ;~ print (mat_out (fun t => t) (mkmat rows (t_nc x))) ;~~ nl ;~~ ret 0
  | _ => usage
  end.
(* 466-484 *)
Definition f2n_p_qp_main (c : cache) (args : list text) : prog Z :=
  match args with
  | s :: (_ :: _) as rest => m <~ arg_f2 s ;~
      each (fun s => q <~ arg_scan (q_scan s) ;~ f <~ call (f2n_poly_from_qpoly c q m) ;~ show_f2n f ;~~ nl) rest ;~~ ret 0
  | _ => usage
  end.
Section RandomF2n.
Context {St : Type} (draw : St -> Z * St) (fuel : nat).
(* 242-279 *)
Definition f2n_p_find_main (s : St) (args : list text) : prog Z :=
  match args with
  | [s1; s2; s3] =>
      rnd <~ (if teq s1 "-1" then ret false else if teq s1 "-r" then ret true else usage) ;~
      m <~ arg_f2 s2 ;~ r <~ arg_range s3 ;~
      degrees r (fun d s =>
        x <~ call (if rnd : bool then f2n_poly_random_irr draw fuel m d s else a <- f2n_find_irr m d ;; Ok (a, s)) ;~
        show_f2n (fst x) ;~~ nl ;~~ ret (snd x)) s ;~~ ret 0
  | _ => usage
  end.
(* 409-433 *)
Definition f2n_p_random_main (s : St) (args : list text) : prog Z :=
  let go m deg n := times (Z.to_nat n) (fun s => r <~ call (f2n_poly_random draw m deg s) ;~ show_f2n (fst r) ;~~ nl ;~~ ret (snd r)) s ;~~ ret 0 in
  match args with
  | [s1; s2] => m <~ arg_f2 s1 ;~ d <~ arg_int s2 ;~ go m d 1
  | [s1; s2; s3] => m <~ arg_f2 s1 ;~ d <~ arg_int s2 ;~ n <~ arg_int s3 ;~ go m d n
  | _ => usage
  end.
End RandomF2n.

(* ---------------------------------------------------------------- spiff_main.cpp:70-86, 116-143, 171-186 *)
Section Handlers.
Context (tm : option N) (c : cache) {St : Type} (draw : St -> Z * St) (fuel : nat) (s0 : St) (other : string -> list text -> prog Z).
Open Scope string_scope.
Definition poly_handler (name : string) (args : list text) : prog Z :=
  if name =? "f2_p_list" then f2_p_list_main args
  else if name =? "f2_p_deg" then f2_p_deg_main args
  else if name =? "f2_p_gcd" then f2_p_gcd_main args
  else if name =? "f2_p_lcm" then f2_p_lcm_main args
  else if name =? "f2_p_totient" then f2_p_totient_main tm args
  else if name =? "f2_p_test" then f2_p_test_main tm args
  else if name =? "f2_p_find" then f2_p_find_main tm draw fuel s0 args
  else if name =? "f2_p_period" then f2_p_period_main tm args
  else if name =? "f2_p_factor" then f2_p_factor_main tm args
  else if name =? "f2_p_divisors" then f2_p_divisors_main tm args
  else if name =? "f2_p_eval" then f2_p_eval_main args
  else if name =? "f2_p_random" then f2_p_random_main draw s0 args
  else if name =? "f2_p_qp" then f2_p_qp_main args
  else if name =? "f2_p_comp_mx" then f2_p_comp_mx_main args
  else if name =? "fp_p_list" then fp_p_list_main c args
  else if name =? "fp_p_comp_mx" then fp_p_comp_mx_main c args
  else if name =? "fp_p_deg" then fp_p_deg_main c args
  else if name =? "fp_p_gcd" then fp_p_gcd_main c args
  else if name =? "fp_p_lcm" then fp_p_lcm_main c args
  else if name =? "fp_p_totient" then fp_p_totient_main c args
  else if name =? "fp_p_test" then fp_p_test_main c args
  else if name =? "fp_p_find" then fp_p_find_main c draw fuel s0 args
  else if name =? "fp_p_factor" then fp_p_factor_main c args
  else if name =? "fp_p_divisors" then fp_p_divisors_main c args
  else if name =? "fp_p_eval" then fp_p_eval_main c args
  else if name =? "fp_p_random" then fp_p_random_main c draw s0 args
  else if name =? "fp_p_qp" then fp_p_qp_main c args
  else if name =? "f2n_p_list" then f2n_p_list_main args
  else if name =? "f2n_p_deg" then f2n_p_deg_main args
  else if name =? "f2n_p_gcd" then f2n_p_gcd_main args
  else if name =? "f2n_p_lcm" then f2n_p_lcm_main args
  else if name =? "f2n_p_totient" then f2n_p_totient_main args
  else if name =? "f2n_p_test" then f2n_p_test_main args
  else if name =? "f2n_p_find" then f2n_p_find_main draw fuel s0 args
  else if name =? "f2n_p_factor" then f2n_p_factor_main args
  else if name =? "f2n_p_divisors" then f2n_p_divisors_main args
  else if name =? "f2n_p_eval" then f2n_p_eval_main args
  else if name =? "f2n_p_random" then f2n_p_random_main draw s0 args
  else if name =? "f2n_p_comp_mx" then f2n_p_comp_mx_main args
  else if name =? "f2n_p_qp" then f2n_p_qp_main c args
  else other name args.
End Handlers.
