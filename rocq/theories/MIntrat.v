(* Model of spffl/intmath/intrat_t.cpp. Definitions only. *)
From Verif Require Import Base MIntMath.
Open Scope Z_scope.

(* intrat_t.h: the two data members. *)
Record intrat := mkrat { numer : Z; denom : Z }.

(* intrat_t.cpp:336-350 *)
Definition simplify (n d : Z) : res intrat :=
  if d =? 0 then Exn
  else
    n' <- (if d <? 0 then ineg n else Ok n) ;;
    d' <- (if d <? 0 then ineg d else Ok d) ;;
    g <- int_gcd n' d' ;;
    n'' <- idiv n' g ;;
    d'' <- idiv d' g ;;
    Ok (mkrat n'' d'').

(* intrat_t.cpp:19-30, 39-42 *)
Definition rat_make (n d : Z) : res intrat := simplify n d.
Definition rat_of_int (n : Z) : res intrat := simplify n 1.
Definition rat_default : intrat := mkrat 0 1.

(* intrat_t.cpp:70-76 *)
Definition rat_add (a b : intrat) : res intrat :=
  x <- imul (numer a) (denom b) ;; y <- imul (denom a) (numer b) ;;
  n <- iadd x y ;; d <- imul (denom a) (denom b) ;; simplify n d.
(* intrat_t.cpp:79-85 *)
Definition rat_sub (a b : intrat) : res intrat :=
  x <- imul (numer a) (denom b) ;; y <- imul (denom a) (numer b) ;;
  n <- isub x y ;; d <- imul (denom a) (denom b) ;; simplify n d.
(* intrat_t.cpp:88-92 *)
Definition rat_neg (a : intrat) : res intrat :=
  n <- ineg (numer a) ;; Ok (mkrat n (denom a)).
(* intrat_t.cpp:95-101 *)
Definition rat_mul (a b : intrat) : res intrat :=
  n <- imul (numer a) (numer b) ;; d <- imul (denom a) (denom b) ;; simplify n d.
(* intrat_t.cpp:104-110 *)
Definition rat_div (a b : intrat) : res intrat :=
  n <- imul (numer a) (denom b) ;; d <- imul (denom a) (numer b) ;; simplify n d.
(* intrat_t.cpp:277-287, 295-300 *)
Definition rat_eqb (a b : intrat) : bool := (numer a =? numer b) && (denom a =? denom b).
Definition rat_eqb_int (a : intrat) (v : Z) : bool := (denom a =? 1) && (numer a =? v).
(* intrat_t.cpp:113-122 *)
Definition rat_mod (a b : intrat) : res intrat :=
  zero <- rat_sub b b ;; if rat_eqb b zero then Exn else Ok zero.
(* intrat_t.cpp:306-323 *)
Definition rat_cross (cmp : Z -> Z -> bool) (a b : intrat) : res bool :=
  x <- imul (numer a) (denom b) ;; y <- imul (denom a) (numer b) ;; Ok (cmp x y).
Definition rat_ltb := rat_cross Z.ltb.
Definition rat_leb := rat_cross Z.leb.
Definition rat_gtb := rat_cross Z.gtb.
Definition rat_geb := rat_cross Z.geb.

(* intrat_t.cpp:154-160; state (e, xp, rv) *)
Definition rat_exp_step (s : Z * intrat * intrat) : res ((Z * intrat * intrat) + intrat) :=
  let '(e, xp, rv) := s in
  if e =? 0 then Ok (inr rv)
  else
    rv <- (if Z.odd e then rat_mul rv xp else Ok rv) ;;
    xp' <- rat_mul xp xp ;;
    Ok (inl (u32 e / 2, xp', rv)).
(* intrat_t.cpp:125-163 *)
Definition rat_exp (a : intrat) (e : Z) : res intrat :=
  zero <- rat_of_int 0 ;;
  one <- rat_of_int 1 ;;
  if e =? 0 then (if rat_eqb a zero then Exn else Ok one)
  else if e <? 0 then
    (if rat_eqb a zero then Exn
     else
       e' <- ineg e ;;
       xp <- rat_div one a ;;
       loop 34 rat_exp_step (e', xp, one))
  else loop 34 rat_exp_step (e, a, one).
