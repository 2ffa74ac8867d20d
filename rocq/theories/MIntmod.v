(* Model of spffl/intmath/intmod_t.cpp. Definitions only. *)
From Verif Require Import Base MIntMath.
Open Scope Z_scope.

(* intmod_t.h: the two data members. *)
Record intmod := mkim { residue : Z; modulus : Z }.

(* intmod_t.cpp:198-211 (constructor): non-positive modulus throws; % then sign fix. *)
Definition im_make (r m : Z) : res intmod :=
  if m <=? 0 then Exn
  else
    r' <- imod r m ;;
    r'' <- (if r' <? 0 then iadd r' m else Ok r') ;;
    Ok (mkim r'' m).

(* intmod_t.cpp:220-223 (default constructor) *)
Definition im_default : intmod := mkim (-1) 0.

(* intmod_t.cpp:245-251 *)
Definition check_modulus (a : intmod) : res unit :=
  if modulus a =? 0 then Exn else Ok tt.
(* intmod_t.cpp:229-239 *)
Definition check_moduli (a b : intmod) : res unit :=
  check_modulus a ;;; check_modulus b ;;;
  (if modulus a =? modulus b then Ok tt else Exn).

(* intmod_t.cpp:138-148 *)
Definition im_eqb (a b : intmod) : res bool :=
  check_modulus a ;;; check_modulus b ;;;
  Ok ((residue a =? residue b) && (modulus a =? modulus b)).
(* intmod_t.cpp:156-159 *)
Definition im_eqb_int (a : intmod) (v : Z) : res bool :=
  check_modulus a ;;; Ok (residue a =? v).
(* intmod_t.cpp:168-189 *)
Definition im_ltb (a b : intmod) : res bool := check_moduli a b ;;; Ok (residue a <? residue b).
Definition im_leb (a b : intmod) : res bool := check_moduli a b ;;; Ok (residue a <=? residue b).
Definition im_gtb (a b : intmod) : res bool := check_moduli a b ;;; Ok (residue a >? residue b).
Definition im_geb (a b : intmod) : res bool := check_moduli a b ;;; Ok (residue a >=? residue b).

(* intmod_t.cpp:261-265 *)
Definition im_add (a b : intmod) : res intmod :=
  check_moduli a b ;;;
  s <- iadd (residue a) (residue b) ;; im_make s (modulus a).
(* intmod_t.cpp:268-272 *)
Definition im_sub (a b : intmod) : res intmod :=
  check_moduli a b ;;;
  t <- iadd (modulus a) (residue a) ;;
  s <- isub t (residue b) ;; im_make s (modulus a).
(* intmod_t.cpp:275-279 *)
Definition im_neg (a : intmod) : res intmod :=
  check_modulus a ;;;
  s <- isub (modulus a) (residue a) ;; im_make s (modulus a).
(* intmod_t.cpp:282-286 *)
Definition im_mul (a b : intmod) : res intmod :=
  check_moduli a b ;;;
  p <- imul (residue a) (residue b) ;; im_make p (modulus a).
(* intmod_t.cpp:289-304 *)
Definition im_add_int (a : intmod) (v : Z) : res intmod :=
  s <- iadd (residue a) v ;; im_make s (modulus a).
Definition im_sub_int (a : intmod) (v : Z) : res intmod :=
  t <- iadd (modulus a) (residue a) ;; s <- isub t v ;; im_make s (modulus a).
Definition im_mul_int (a : intmod) (v : Z) : res intmod :=
  p <- imul (residue a) v ;; im_make p (modulus a).

(* intmod_t.cpp:53-59: the square-and-multiply loop; state (e, xp, rv). *)
Definition im_exp_step (m : Z) (s : Z * Z * Z) : res ((Z * Z * Z) + Z) :=
  let '(e, xp, rv) := s in
  if e =? 0 then Ok (inr rv)
  else
    rv <- (if Z.odd e then p <- imul rv xp ;; imod p m else Ok rv) ;;
    p <- imul xp xp ;;
    xp' <- imod p m ;;
    Ok (inl (u32 e / 2, xp', rv)).

(* intmod_t.cpp:21-62.  [inv] is the outcome of evaluating `one / *this`. *)
Definition im_exp_gen (inv : res intmod) (a : intmod) (e : Z) : res intmod :=
  check_modulus a ;;;
  zero <- im_make 0 (modulus a) ;;
  one <- im_make 1 (modulus a) ;;
  is0 <- im_eqb a zero ;;
  if e =? 0 then (if is0 then Exn else Ok one)
  else
    xe <- (if e <? 0 then
             (if (is0 : bool) then Exn
              else
                ne <- ineg e ;;
                i <- inv ;; Ok (residue i, ne))
           else Ok (residue a, e)) ;;
    let '(xp, e') := xe in
    rv <- loop 34 (im_exp_step (modulus a)) (e', xp, residue one) ;;
    Ok (mkim rv (modulus a)).

(* intmod_t.cpp:349-354: the function-local statics (mlast, phi). *)
Definition cache := (Z * Z)%type.
Definition cache_init : cache := (2, 1).
Definition cache_get (c : cache) (m : Z) : res cache :=
  if m =? fst c then Ok c
  else phi <- int_totient m ;; Ok (m, phi).

(* intmod_t.cpp:356-363, given phi.  exp(phi-1) with a negative exponent would
   re-enter recip; that recursion has no base case, so it is [Div]. *)
Definition im_recip_phi (phi : Z) (a : intmod) : res (option intmod) :=
  e <- isub phi 1 ;;
  rv <- im_exp_gen Div a e ;;
  p <- imul (residue a) (residue rv) ;;
  check <- imod p (modulus a) ;;
  if check =? 1 then Ok (Some rv) else Ok None.

(* intmod_t.cpp:337-364.  Outcome (None: returns false) and, separately, the
   contents of the statics after the call. *)
Definition im_recip (c : cache) (a : intmod) : res (option intmod) :=
  check_modulus a ;;;
  if modulus a =? 2 then
    (if residue a =? 0 then Ok None else Ok (Some a))
  else
    c' <- cache_get c (modulus a) ;;
    im_recip_phi (snd c') a.
Definition im_recip_cache (c : cache) (a : intmod) : cache :=
  if (modulus a =? 0) || (modulus a =? 2) then c
  else match cache_get c (modulus a) with Ok c' => c' | _ => c end.

(* intmod_t.cpp:307-319 *)
Definition im_div (c : cache) (a b : intmod) : res intmod :=
  check_moduli a b ;;;
  o <- im_recip c b ;;
  match o with Some bi => im_mul a bi | None => Exn end.
(* intmod_t.cpp:322-334 *)
Definition im_mod (c : cache) (a b : intmod) : res intmod :=
  check_moduli a b ;;;
  o <- im_recip c b ;;
  match o with Some _ => im_sub a a | None => Exn end.
(* intmod_t.cpp:21-62 with the division `one / *this` in line 48. *)
Definition im_exp (c : cache) (a : intmod) (e : Z) : res intmod :=
  im_exp_gen (one <- im_make 1 (modulus a) ;; im_div c one a) a e.

(* intmod_t.cpp:86-91: `is >> a.residue; a.residue %= a.modulus;` where v is the
   int read from the stream. *)
Definition im_stream_in (a : intmod) (v : Z) : res intmod :=
  check_modulus a ;;; r <- imod v (modulus a) ;; Ok (mkim r (modulus a)).
(* intmod_t.cpp:95-105 given the parsed int. *)
Definition im_from_parsed (v m : Z) : res intmod := im_make v m.
