(* Model of the command-line program cli/spiff: spiff_main.cpp, z_handlers.cpp and the arithmetic commands of
   fp_handlers.cpp; and of operator<< of spffl/containers/tfacinfo.h (471-487).  Definitions only.

   A run is the text written to standard output and the way it ends.  Arguments are texts; those of a command do not
   include its name, so that argc is their number and one.  What is written to standard error is not modelled.
   The handlers of the other commands are a parameter.  The wrappers of the expression parsers (z_op, fp_op, ...):
   MCli.v, MMatCli.v. *)
From Verif Require Import Base MIntMath MPrimes16 MPrime MFac MIntmod MF2Poly MMatCli MTextIO MList MUnits MRandom.
From Coq Require Import Ascii String.
Import ListNotations.
Open Scope Z_scope.

(* Val: the function returned.  Exit: exit() was called.  Throw: an exception_t was thrown. *)
Inductive fin (A : Type) := Val (a : A) | Exit (code : Z) | Throw | Undef | Forever.
Arguments Val {A}. Arguments Exit {A}. Arguments Throw {A}. Arguments Undef {A}. Arguments Forever {A}.
Definition prog (A : Type) : Type := (list ascii * fin A)%type.
Definition pbind {A B} (m : prog A) (k : A -> prog B) : prog B :=
  match snd m with
  | Val a => let r := k a in ((fst m ++ fst r)%list, snd r)
  | Exit c => (fst m, Exit c)
  | Throw => (fst m, Throw)
  | Undef => (fst m, Undef)
  | Forever => (fst m, Forever)
  end.
Notation "x <~ m ;~ k" := (pbind m (fun x => k)) (at level 61, m at next level, right associativity).
Notation "m ;~~ k" := (pbind m (fun _ => k)) (at level 61, right associativity).
Definition ret {A} (a : A) : prog A := ([], Val a).
Definition print (t : list ascii) : prog unit := (t, Val tt).
Definition say (s : string) : prog unit := print (list_ascii_of_string s).
Definition call {A} (r : res A) : prog A :=
  ([], match r with Ok a => Val a | Exn => Throw | UB => Undef | Div => Forever end).
(* pusage: a message on standard error, then exit(1) *)
Definition usage {A} : prog A := ([], Exit 1).

Notation text := (list ascii).
(* strcmp(a, s) == 0 *)
Definition teq (a : text) (s : string) : bool := String.eqb (string_of_list_ascii a) s.
(* strncmp(a, s, strlen(s)) == 0 *)
Definition tprefix (s : string) (a : text) : bool := String.prefix s (string_of_list_ascii a).

(* the conversion %d: blanks, a sign, digits; the rest.  None: no number *)
Definition scan_num (s : text) : option (Z * text) :=
  let s := skip_space s in
  let '(neg, s) := match s with
                   | x :: t => if (x =? "-")%char then (true, t) else if (x =? "+")%char then (false, t) else (false, s)
                   | [] => (false, s)
                   end in
  match read_digits s 0 false with
  | Some (v, r) => Some (if neg : bool then - v else v, r)
  | None => None
  end.
Definition int_range (v : Z) : bool := (INT_MIN <=? v) && (v <=? INT_MAX).
(* if (sscanf(s, "%d", &v) != 1) pusage(argv[0]);  a number that is no int: not defined (C17 7.21.6.2p10) *)
Definition arg_int (s : text) : prog Z :=
  match scan_num s with
  | None => usage
  | Some (v, _) => if int_range v then ret v else ([], Undef)
  end.
(* if (!a.from_string(s, m)) pusage(argv[0]);  intmod_t.cpp:95-105 *)
Definition arg_mod (s : text) (m : Z) : prog intmod :=
  match read_int s with
  | None => usage
  | Some (v, _) => call (im_from_parsed v m)
  end.
Definition show (v : Z) : prog unit := print (put_int v).
(* intmod_t.cpp:65-69 *)
Definition show_im (a : intmod) : prog unit := call (check_modulus a) ;~~ print (im_put a).
Definition nl : prog unit := print [newline].
(* std::cout << a << ": " if there are several arguments *)
Definition label (several : bool) (t : prog unit) (s : string) : prog unit := if several then t ;~~ say s else ret tt.
Definition several {A} (l : list A) : bool := (1 <? List.length l)%nat.

(* ---------------------------------------------------------------- z_handlers.cpp *)
(* 59-64, 84-89: g is what has been found so far *)
Fixpoint z_fold (f : Z -> Z -> res Z) (g : Z) (args : list text) : prog Z :=
  match args with
  | [] => ret g
  | s :: args => a <~ arg_int s ;~ g <~ call (f g a) ;~ z_fold f g args
  end.
(* 29-48 *)
Definition z_ext_gcd_main (args : list text) : prog Z :=
  match args with
  | [s1; s2] =>
      a <~ arg_int s1 ;~ b <~ arg_int s2 ;~
      t <~ call (int_ext_gcd a b) ;~
      let '(g, r, s) := t in
      show g ;~~ say " = " ;~~ show r ;~~ say " * " ;~~ show a ;~~ say " + " ;~~ show s ;~~ say " * " ;~~ show b ;~~ nl ;~~
      check <~ call (x <- imul a r ;; y <- imul b s ;; iadd x y) ;~
      if g =? check then ret 0 else ([], Exit 1)
  | _ => usage
  end.
(* 49-66, 75-92 *)
Definition z_fold_main (f : Z -> Z -> res Z) (args : list text) : prog Z :=
  match args with
  | [] => usage
  | s :: args => a <~ arg_int s ;~ g <~ z_fold f a args ;~ show g ;~~ nl ;~~ ret 0
  end.
(* 28-68 *)
Definition z_gcd_main (args : list text) : prog Z :=
  match args with
  | s :: rest => if teq s "-e" then z_ext_gcd_main rest else z_fold_main int_gcd args
  | [] => usage
  end.
(* 75-92 *)
Definition z_lcm_main (args : list text) : prog Z := z_fold_main int_lcm args.

(* for (argi = ...) body *)
Fixpoint each (body : text -> prog unit) (args : list text) : prog unit :=
  match args with
  | [] => ret tt
  | s :: args => body s ;~~ each body args
  end.
(* 99-115 *)
Definition z_totient_main (args : list text) : prog Z :=
  match args with
  | [] => usage
  | _ => each (fun s => a <~ arg_int s ;~ phi <~ call (int_totient a) ;~
                        label (several args) (show a) ": " ;~~ show phi ;~~ nl) args ;~~ ret 0
  end.
(* 122-138 *)
Definition z_test_prime_main (args : list text) : prog Z :=
  each (fun s => a <~ arg_int s ;~ label (several args) (show a) ": " ;~~
                 b <~ call (is_prime a) ;~ say (if b : bool then "PRIME" else "not prime") ;~~ nl) args ;~~ ret 0.
(* 150-157: sscanf(s, "%d-%d", &lo, &hi), then sscanf(s, "%d", &lo) *)
Definition arg_range (s : text) : prog (Z * Z) :=
  match scan_num s with
  | None => usage
  | Some (lo, r) =>
      if int_range lo then
        match r with
        | x :: r => if (x =? "-")%char then
                      match scan_num r with
                      | Some (hi, _) => if int_range hi then ret (lo, hi) else ([], Undef)
                      | None => ret (lo, lo)
                      end
                    else ret (lo, lo)
        | [] => ret (lo, lo)
        end
      else ([], Undef)
  end.
(* 158-160; the call throws before n++ can overflow *)
Fixpoint primes_from (cnt : nat) (n : Z) : prog unit :=
  match cnt with
  | O => ret tt
  | S k => p <~ call (nth_prime n) ;~ show p ;~~ nl ;~~ primes_from k (n + 1)
  end.
(* 145-163 *)
Definition nth_prime_main (args : list text) : prog Z :=
  match args with
  | [] => usage
  | _ => each (fun s => r <~ arg_range s ;~ primes_from (Z.to_nat (snd r - fst r + 1)) (fst r)) args ;~~ ret 0
  end.
(* 194-198 *)
Fixpoint walk (reps : nat) (walker stride : Z) : prog unit :=
  match reps with
  | O => ret tt
  | S k => show walker ;~~ nl ;~~ w <~ call (iadd walker stride) ;~ walk k w stride
  end.
(* 170-201 *)
Definition z_list_main (args : list text) : prog Z :=
  match args with
  | [s1] => w <~ arg_int s1 ;~ walk 1 w 1 ;~~ ret 0
  | [s1; s2] => w <~ arg_int s1 ;~ n <~ arg_int s2 ;~ walk (Z.to_nat n) w 1 ;~~ ret 0
  | [s1; s2; s3] => w <~ arg_int s1 ;~ n <~ arg_int s2 ;~ d <~ arg_int s3 ;~ walk (Z.to_nat n) w d ;~~ ret 0
  | _ => usage
  end.

(* tfacinfo.h, operator<<; put: printing an element *)
Section PutFac.
Context {A : Type} (put : A -> text).
Fixpoint put_facs (first : bool) (l : list (A * Z)) : text :=
  match l with
  | [] => []
  | (f, n) :: l =>
      ((if first then [] else [" "%char]) ++ put f ++ (if n =? 1 then [] else "^"%char :: put_int n) ++ put_facs false l)%list
  end.
Definition put_facinfo (f : facinfo A) : text :=
  match funit f with
  | Some u => (put u ++ put_facs false (facs f))%list
  | None => put_facs true (facs f)
  end.
End PutFac.
(* 208-230 *)
Definition z_factor_main (args : list text) : prog Z :=
  each (fun s => a <~ arg_int s ;~ label (several args) (show a) " = " ;~~
                 finfo <~ call (int_factor a) ;~ print (put_facinfo put_int finfo) ;~~ nl ;~~
                 check <~ call (unfactor int_fops finfo 1) ;~
                 if check =? a then ret tt else ([], Exit 1)) args ;~~ ret 0.
(* 237-275 *)
Definition z_divisors_main (args : list text) : prog Z :=
  let '(mp, args) := match args with
                     | s :: t => if teq s "-mp" then (true, t) else (false, args)
                     | [] => (false, args)
                     end in
  match args with
  | [] => usage
  | _ =>
      each (fun s => a <~ arg_int s ;~ label (several args) (show a) ": " ;~~
                     finfo <~ call (int_factor a) ;~
                     o <~ call (if mp : bool then get_maximal_proper_divisors int_fops finfo 1
                                else ds <- get_all_divisors int_fops finfo 1 ;; Ok (Some ds)) ;~
                     match o with
                     | None => say "(none)" ;~~ nl
                     | Some ds => print (vec_out put_int ds) ;~~ nl
                     end) args ;~~ ret 0
  end.

(* ---------------------------------------------------------------- fp_handlers.cpp *)
(* tvector.h:227-232 *)
Fixpoint crout (l : list intmod) : prog unit :=
  match l with
  | [] => ret tt
  | a :: l => show_im a ;~~ nl ;~~ crout l
  end.
(* 21-62 *)
Definition fp_list_main (args : list text) : prog Z :=
  match args with
  | [o; s] =>
      ty <~ (if teq o "-a" then ret LIST_ALL else if teq o "-u" then ret LIST_UNITS
             else if teq o "-nu" then ret LIST_NON_UNITS else usage) ;~
      m <~ arg_int s ;~ l <~ call (intmod_list m ty) ;~ crout l ;~~ ret 0
  | [o; sg; s] =>
      ty <~ (if teq o "-m" then ret LIST_MULTIPLES else if teq o "-rp" then ret LIST_REL_PRIME else usage) ;~
      m <~ arg_int s ;~ g <~ arg_mod sg m ;~ l <~ call (intmod_glist g ty) ;~ crout l ;~~ ret 0
  | _ => usage
  end.

Inductive tbl := TPlus | TMinus | TMul | TUnitMul | TUnitDiv | TLog (g : intmod) | TAlog (g : intmod).
(* 98-138; no generator: a message and exit(1) *)
Definition fp_tbl_type (c : cache) (p : Z) (s : text) : prog tbl :=
  let gen := o <~ call (fp_find_generator c p) ;~ match o with Some g => ret g | None => ([], Exit 1) end in
  if teq s "+" then ret TPlus else if teq s "-" then ret TMinus else if teq s "*" then ret TMul
  else if teq s "." then ret TMul else if teq s "u*" then ret TUnitMul else if teq s "u." then ret TUnitMul
  else if teq s "/" then ret TUnitDiv
  else if tprefix "log:" s then g <~ arg_mod (skipn 4 s) p ;~ ret (TLog g)
  else if teq s "log" then g <~ gen ;~ ret (TLog g)
  else if tprefix "alog:" s then g <~ arg_mod (skipn 5 s) p ;~ ret (TAlog g)
  else if teq s "alog" then g <~ gen ;~ ret (TAlog g)
  else usage.
(* the statics of the reciprocal after fp_log: it inverts g twice *)
Definition log_cache (c : cache) (g : intmod) : cache := im_recip_cache (im_recip_cache c g) g.
(* 152-155 *)
Fixpoint log_rows (qs : list (intmod * Z) -> list (intmod * Z)) (c : cache) (g : intmod) (l : list intmod) : prog unit :=
  match l with
  | [] => ret tt
  | a :: l => e <~ call (fp_log c qs g a) ;~ show_im a ;~~ say " " ;~~ show e ;~~ nl ;~~ log_rows qs (log_cache c g) g l
  end.
(* 162-165 *)
Fixpoint alog_rows (cnt : nat) (i : Z) (g gp : intmod) : prog unit :=
  match cnt with
  | O => ret tt
  | S k => show i ;~~ say " " ;~~ show_im gp ;~~ nl ;~~ gp <~ call (im_mul gp g) ;~ alog_rows k (i + 1) g gp
  end.
(* 171-198: a row, given the statics *)
Fixpoint tbl_row (op : cache -> intmod -> intmod -> res intmod) (upd : cache -> intmod -> cache) (c : cache) (first : bool) (a : intmod)
  (l : list intmod) : prog cache :=
  match l with
  | [] => nl ;~~ ret c
  | b :: l => x <~ call (op c a b) ;~ (if first then ret tt else say " ") ;~~ show_im x ;~~ tbl_row op upd (upd c b) false a l
  end.
Fixpoint tbl_rows (op : cache -> intmod -> intmod -> res intmod) (upd : cache -> intmod -> cache) (c : cache) (elts l : list intmod) : prog unit :=
  match l with
  | [] => ret tt
  | a :: l => c <~ tbl_row op upd c true a elts ;~ tbl_rows op upd c elts l
  end.
(* 86-201; qs: the qsort calls of fp_log *)
Definition fp_tbl_main (qs : list (intmod * Z) -> list (intmod * Z)) (c : cache) (args : list text) : prog Z :=
  match args with
  | [s1; s2] =>
      p <~ arg_int s1 ;~ t <~ fp_tbl_type c p s2 ;~
      elts <~ call (intmod_list p (match t with TPlus | TMinus | TMul => LIST_ALL | _ => LIST_UNITS end)) ;~
      let keep := fun (c : cache) (_ : intmod) => c in
      (match t with
       | TLog g => say "element power" ;~~ nl ;~~ say "------- -----" ;~~ nl ;~~ log_rows qs c g elts
       | TAlog g => say "power element" ;~~ nl ;~~ say "----- -------" ;~~ nl ;~~
                    gp <~ call (im_div c g g) ;~ alog_rows (List.length elts) 0 g gp
       | TPlus => tbl_rows (fun _ => im_add) keep c elts elts
       | TMinus => tbl_rows (fun _ => im_sub) keep c elts elts
       | TMul | TUnitMul => tbl_rows (fun _ => im_mul) keep c elts elts
       | TUnitDiv => tbl_rows im_div im_recip_cache c elts elts
       end) ;~~ ret 0
  | _ => usage
  end.
(* 208-227 *)
Definition fp_ord_main (c : cache) (args : list text) : prog Z :=
  match args with
  | s :: (_ :: _) as rest =>
      p <~ arg_int s ;~
      each (fun s => a <~ arg_mod s p ;~ label (several rest) (show_im a) ": " ;~~
                     k <~ call (fp_order c a) ;~ show k ;~~ nl) rest ;~~ ret 0
  | _ => usage
  end.
(* 246-251 *)
Fixpoint max_order (c : cache) (l : list intmod) (max : Z) : res Z :=
  match l with
  | [] => Ok max
  | a :: l => cur <- fp_order c a ;; max_order c l (if max <? cur then cur else max)
  end.
Definition fp_max_ord_main (c : cache) (args : list text) : prog Z :=
  match args with
  | [s] => p <~ arg_int s ;~ l <~ call (intmod_list p LIST_UNITS) ;~ k <~ call (max_order c l 0) ;~ show k ;~~ nl ;~~ ret 0
  | _ => usage
  end.
(* 278-281: gcd(a, p) for ints a, p.  No gcd of ints is visible there: spffl::intmath::gcd is in its namespace, and an
   int is in none.  The gcd of f2_poly_t in the global namespace is (f2_poly_t.h:117-118, by way of list_elements.h),
   and f2_poly_t(int) converts; so this is the gcd of the constant polynomials a mod 2 and p mod 2 over GF(2). *)
Definition orbit_coprime (a p : Z) : res bool := g <- f2_gcd (f2_of_int a) (f2_of_int p) ;; f2_eq_int g 1.
(* 287-303; fuel: counter never exceeds p + 1 *)
Fixpoint orbit (fuel : nat) (p a a0 apower counter : Z) : prog unit :=
  match fuel with
  | O => ([], Forever)
  | S k =>
      v <~ call (x <- imul apower a0 ;; imod x p) ;~ show v ;~~ nl ;~~
      if apower =? 1 then ret tt
      else if p <? counter + 1 then ([], Exit 1)
      else ap <~ call (x <- imul apower a ;; imod x p) ;~ orbit k p a a0 ap (counter + 1)
  end.
(* 261-306 *)
Definition fp_orbit_main (args : list text) : prog Z :=
  match args with
  | s1 :: s2 :: rest =>
      match rest with
      | _ :: _ :: _ => usage
      | _ =>
          p <~ arg_int s1 ;~ a <~ arg_int s2 ;~
          a0 <~ (match rest with s3 :: _ => arg_int s3 | [] => ret 1 end) ;~
          b <~ call (orbit_coprime a p) ;~
          if b : bool then
            a <~ call (imod a p) ;~ a0 <~ call (imod a0 p) ;~
            orbit (S (S (Z.to_nat p))) p a a0 a 0 ;~~ ret 0
          else ([], Exit 1)
      end
  | _ => usage
  end.
(* 313-335: the value returned is 1 if some generator was not found *)
Fixpoint find_gens (c : cache) (sev : bool) (rv : Z) (args : list text) : prog Z :=
  match args with
  | [] => ret rv
  | s :: args =>
      p <~ arg_int s ;~ label sev (show p) ": " ;~~
      o <~ call (fp_find_generator c p) ;~
      match o with
      | Some g => show_im g ;~~ nl ;~~ find_gens c sev rv args
      | None => say "Generator not found." ;~~ nl ;~~ find_gens c sev 1 args
      end
  end.
Definition fp_find_gen_main (c : cache) (args : list text) : prog Z :=
  match args with [] => usage | _ => find_gens c (several args) 0 args end.
(* 342-364 *)
Fixpoint logs (qs : list (intmod * Z) -> list (intmod * Z)) (c : cache) (sev : bool) (p : Z) (g : intmod) (args : list text) : prog unit :=
  match args with
  | [] => ret tt
  | s :: args => a <~ arg_mod s p ;~ label sev (show_im a) ": " ;~~
                 e <~ call (fp_log c qs g a) ;~ show e ;~~ nl ;~~ logs qs (log_cache c g) sev p g args
  end.
Definition fp_log_main (qs : list (intmod * Z) -> list (intmod * Z)) (c : cache) (args : list text) : prog Z :=
  match args with
  | s1 :: s2 :: (_ :: _) as rest =>
      p <~ arg_int s1 ;~ g <~ arg_mod s2 p ;~ logs qs c (several rest) p g rest ;~~ ret 0
  | _ => usage
  end.
(* 371-391 *)
Section Random.
Context {St : Type} (draw : St -> Z * St).
Fixpoint randoms (cnt : nat) (m : Z) (s : St) : prog unit :=
  match cnt with
  | O => ret tt
  | S k => r <~ call (intmod_random draw m s) ;~ show_im (fst r) ;~~ nl ;~~ randoms k m (snd r)
  end.
Definition fp_random_main (s : St) (args : list text) : prog Z :=
  match args with
  | [s1] => m <~ arg_int s1 ;~ randoms 1 m s ;~~ ret 0
  | [s1; s2] => m <~ arg_int s1 ;~ n <~ arg_int s2 ;~ randoms (Z.to_nat n) m s ;~~ ret 0
  | _ => usage
  end.
End Random.

(* ---------------------------------------------------------------- spiff_main.cpp *)
Open Scope string_scope.
(* 37-238 *)
Definition z_lookups : list string :=
  ["z_op"; "z_gcd"; "z_lcm"; "z_totient"; "z_test_prime"; "spffl::intmath::nth_prime"; "z_list"; "z_factor"; "z_divisors"; "z_mat_op"].
Definition q_lookups : list string := ["q_op"; "q_vec_op"; "q_mat_op"; "q_cyclotomic"; "q_p_op"].
Definition f2_lookups : list string :=
  ["f2_op"; "f2_random"; "f2_vec_op"; "f2_mat_op"; "f2_mat_ch_pol"; "f2_mat_ord"; "f2_mat_random"].
Definition f2_p_lookups : list string :=
  ["f2_p_list"; "f2_p_op"; "f2_p_deg"; "f2_p_gcd"; "f2_p_lcm"; "f2_p_totient"; "f2_p_test"; "f2_p_find"; "f2_p_period"; "f2_p_factor";
   "f2_p_divisors"; "f2_p_eval"; "f2_p_random"; "f2_p_qp"; "f2_p_mat_op"; "f2_p_comp_mx"].
Definition f2_pm_lookups : list string :=
  ["f2_pm_list"; "f2_pm_op"; "f2_pm_tbl"; "f2_pm_ord"; "f2_pm_find_gen"; "f2_pm_log"; "f2_pm_ch_pol"; "f2_pm_min_pol"; "f2_pm_convert";
   "f2_pm_random"; "f2_pm_mat_op"; "f2_pm_vec_op"; "f2_pm_mat_solve"; "f2_pm_mat_ch_pol"; "f2_pm_mat_diagonalizable"; "f2_pm_mat_ord";
   "f2_pm_mat_random"].
Definition f2_pr_lookups : list string := ["f2_pr_op"; "f2_pr_random"; "f2_pr_mat_op"; "f2_pr_mat_random"].
Definition f2n_p_lookups : list string :=
  ["f2n_p_list"; "f2n_p_op"; "f2n_p_mat_op"; "f2n_p_deg"; "f2n_p_gcd"; "f2n_p_lcm"; "f2n_p_totient"; "f2n_p_test"; "f2n_p_find";
   "f2n_p_factor"; "f2n_p_divisors"; "f2n_p_eval"; "f2n_p_random"; "f2n_p_comp_mx"].
Definition f2n_pm_lookups : list string :=
  ["f2n_pm_list"; "f2n_pm_op"; "f2n_pm_tbl"; "f2n_pm_ord"; "f2n_pm_find_gen"; "f2n_pm_log"; "f2n_pm_ch_pol"; "f2n_pm_min_pol";
   "f2n_pm_random"; "f2n_p_qp"; "f2n_pm_mat_op"; "f2n_pm_vec_op"; "f2n_pm_mat_random"].
Definition f2n_pr_lookups : list string := ["f2n_pr_op"; "f2n_pr_mat_op"].
Definition fp_lookups : list string :=
  ["fp_list"; "fp_op"; "fp_tbl"; "fp_ord"; "fp_max_ord"; "fp_orbit"; "fp_find_gen"; "fp_log"; "fp_random"; "fp_mat_op"; "fp_vec_op";
   "fp_mat_ch_pol"; "fp_mat_ord"; "fp_mat_random"].
Definition fp_p_lookups : list string :=
  ["fp_p_list"; "fp_p_op"; "fp_p_mat_op"; "fp_p_comp_mx"; "fp_p_deg"; "fp_p_gcd"; "fp_p_lcm"; "fp_p_totient"; "fp_p_test"; "fp_p_find";
   "fp_p_factor"; "fp_p_divisors"; "fp_p_eval"; "fp_p_random"; "fp_p_qp"].
Definition fp_pm_lookups : list string :=
  ["fp_pm_list"; "fp_pm_op"; "fp_pm_tbl"; "fp_pm_ord"; "fp_pm_ch_pol"; "fp_pm_min_pol"; "fp_pm_random"; "fp_pm_mat_op"; "fp_pm_vecop";
   "fp_pm_mat_ord"; "fp_pm_mat_random"].
Definition fp_pr_lookups : list string := ["fp_pr_op"; "fp_pr_mat_op"].
Definition fpn_p_lookups : list string := ["fpn_p_op"; "fpn_p_mat_op"; "fpn_p_gcd"; "fpn_p_qp"].
Definition fpn_pm_lookups : list string := ["fpn_pm_op"; "fpn_pm_mat_op"].
(* 248-264 *)
Definition lookup_groups : list (string * list string) :=
  [("Integers", z_lookups); ("Quotient field of integers", q_lookups); ("F2 (bits)", f2_lookups); ("Polynomials over F2", f2_p_lookups);
   ("Residue field of F2 polynomials (F2^n)", f2_pm_lookups); ("Quotient field of F2 polynomials", f2_pr_lookups);
   ("Polynomials of F2^n", f2n_p_lookups); ("Residue field of F2^n polynomials", f2n_pm_lookups);
   ("Quotient field of F2^n polynomials", f2n_pr_lookups); ("Fp (modular arithmetic)", fp_lookups); ("Polynomials over Fp", fp_p_lookups);
   ("Residue field of Fp polynomials", fp_pm_lookups); ("Quotient field of Fp polynomials", fp_pr_lookups);
   ("Polynomials over Fp^n", fpn_p_lookups); ("Residue field of Fp^n polynomials", fpn_pm_lookups)].

Section Main.
(* other: the handlers that are not modelled; qs: qsort in fp_log; draw, s: the random numbers *)
Context (other : string -> list text -> prog Z) (qs : list (intmod * Z) -> list (intmod * Z)) {St : Type} (draw : St -> Z * St) (s0 : St).
(* 37-238: the handler of a name; a fresh process has the initial statics *)
Definition handler (name : string) (args : list text) : prog Z :=
  if name =? "z_gcd" then z_gcd_main args
  else if name =? "z_lcm" then z_lcm_main args
  else if name =? "z_totient" then z_totient_main args
  else if name =? "z_test_prime" then z_test_prime_main args
  else if name =? "spffl::intmath::nth_prime" then nth_prime_main args
  else if name =? "z_list" then z_list_main args
  else if name =? "z_factor" then z_factor_main args
  else if name =? "z_divisors" then z_divisors_main args
  else if name =? "fp_list" then fp_list_main args
  else if name =? "fp_tbl" then fp_tbl_main qs cache_init args
  else if name =? "fp_ord" then fp_ord_main cache_init args
  else if name =? "fp_max_ord" then fp_max_ord_main cache_init args
  else if name =? "fp_orbit" then fp_orbit_main args
  else if name =? "fp_find_gen" then fp_find_gen_main cache_init args
  else if name =? "fp_log" then fp_log_main qs cache_init args
  else if name =? "fp_random" then fp_random_main draw s0 args
  else other name args.
(* 287-296 *)
Fixpoint say_names (l : list string) : prog unit :=
  match l with
  | [] => ret tt
  | n :: l => say "  " ;~~ say n ;~~ nl ;~~ say_names l
  end.
Fixpoint say_groups (l : list (string * list string)) : prog unit :=
  match l with
  | [] => ret tt
  | (n, ns) :: l => say n ;~~ say ":" ;~~ nl ;~~ say_names ns ;~~ say_groups l
  end.
(* 298-305: the first entry with the name *)
Fixpoint find_name (l : list string) (name : string) : bool :=
  match l with
  | [] => false
  | n :: l => if name =? n then true else find_name l name
  end.
Fixpoint find_group (l : list (string * list string)) (name : string) : bool :=
  match l with
  | [] => false
  | (_, ns) :: l => if find_name ns name then true else find_group l name
  end.
(* 275-309, after cmd_interpolate (MCmdInterp.v), which leaves arguments without brackets alone *)
Definition try_main (argv : list text) : prog Z :=
  match argv with
  | [] => usage
  | a :: args =>
      if teq a "-l" then say_groups lookup_groups ;~~ ([], Exit 0)
      else if find_group lookup_groups (string_of_list_ascii a) then handler (string_of_list_ascii a) args
      else ret 1%Z
  end.
(* 311-318: the exit status; what try_main returns is dropped, and an exception is caught *)
Inductive status := Status (code : Z) | Undefined | Endless.
Definition spiff (argv : list text) : text * status :=
  let r := try_main argv in
  (fst r, match snd r with
          | Val _ => Status 0
          | Exit c => Status c
          | Throw => Status 0
          | Undef => Undefined
          | Forever => Endless
          end).
End Main.
