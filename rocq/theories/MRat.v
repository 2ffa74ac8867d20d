(* Model of spffl/rationals: f2_polyrat_t, fp_polyrat_t, f2n_polyrat_t.  Definitions only.

   The three classes have the same text up to the class of the polynomials; the model is
   generic in it.  Line numbers are those of fp_polyrat_t.cpp / f2_polyrat_t.cpp.

   Stream input and output and from_string: MPolyText.v.  Not modelled: get_characteristic. *)
From Verif Require Import Base MIntMath MIntmod MMisc MMat MBits MFac MF2Poly MPoly MF2nPoly MLinalg.
Open Scope nat_scope.

Record qrat (A : Type) := mkrat { r_num : A; r_den : A }.
Arguments mkrat {A}. Arguments r_num {A}. Arguments r_den {A}.

Section Rat.
Context {A : Type} (o : cops A) (gcd : A -> A -> res A).
(* isz: operator==(int) applied to 0.  pse a v: a.prime_subfield_element(v) *)
Context (isz : A -> res bool) (pse : A -> Z -> res A).
Context (ltb leb gtb geb : A -> A -> res bool).
Notation rat := (qrat A).

(* 343-353 / 353-363 *)
Definition q_simplify (r : rat) : res rat :=
  z <- isz (r_den r) ;;
  if z : bool then Exn
  else
    g <- gcd (r_num r) (r_den r) ;;
    n <- c_div o (r_num r) g ;;
    d <- c_div o (r_den r) g ;;
    Ok (mkrat n d).
(* 16-21 / 16-21 *)
Definition q_make (n d : A) : res rat := q_simplify (mkrat n d).
(* 24-28 / 24-28; operator= from a polynomial, 68-73 / 71-77, does the same *)
Definition q_poly (n : A) : res rat := one <- pse n 1 ;; q_simplify (mkrat n one).
(* 43-46 / 56-58 *)
Definition q_pse (r : rat) (v : Z) : res rat := a <- pse (r_num r) v ;; q_poly a.
(* 80-86 / 84-90 *)
Definition q_add (a b : rat) : res rat :=
  x <- c_mul o (r_num a) (r_den b) ;;
  y <- c_mul o (r_den a) (r_num b) ;;
  n <- c_add o x y ;;
  d <- c_mul o (r_den a) (r_den b) ;;
  q_simplify (mkrat n d).
(* 89-95 / 93-99 *)
Definition q_sub (a b : rat) : res rat :=
  x <- c_mul o (r_num a) (r_den b) ;;
  y <- c_mul o (r_den a) (r_num b) ;;
  n <- c_sub o x y ;;
  d <- c_mul o (r_den a) (r_den b) ;;
  q_simplify (mkrat n d).
(* 98-103 / 102-107 *)
Definition q_neg (a : rat) : res rat := n <- c_neg o (r_num a) ;; Ok (mkrat n (r_den a)).
(* 106-112 / 110-116 *)
Definition q_mul (a b : rat) : res rat :=
  n <- c_mul o (r_num a) (r_num b) ;;
  d <- c_mul o (r_den a) (r_den b) ;;
  q_simplify (mkrat n d).
(* 115-121 / 119-125 *)
Definition q_div (a b : rat) : res rat :=
  n <- c_mul o (r_num a) (r_den b) ;;
  d <- c_mul o (r_den a) (r_num b) ;;
  q_simplify (mkrat n d).
(* 279-289 / 289-299 *)
Definition q_eqb (a b : rat) : res bool :=
  ne <- c_neqb o (r_num a) (r_num b) ;;
  if ne : bool then Ok false
  else ne <- c_neqb o (r_den a) (r_den b) ;; Ok (negb ne).
(* 297-302 / 307-312 *)
Definition q_eq_poly (a : rat) (p : A) : res bool :=
  one <- pse (r_num a) 1 ;;
  ne <- c_neqb o (r_den a) one ;;
  if ne : bool then Ok false else c_eqb o (r_num a) p.
(* 124-133 / 128-137 *)
Definition q_mod (a b : rat) : res rat :=
  zero <- q_sub b b ;;
  z <- q_eqb b zero ;;
  if z : bool then Exn else Ok zero.
(* 167-173 / 171-177; state (e, xp, rv).  e is not negative here. *)
Definition q_exp_step (s : Z * rat * rat) : res ((Z * rat * rat) + rat) :=
  let '(e, xp, rv) := s in
  if (e =? 0)%Z then Ok (inr rv)
  else
    rv' <- (if Z.odd e then q_mul rv xp else Ok rv) ;;
    xp' <- q_mul xp xp ;;
    Ok (inl (u32 e / 2, xp', rv'))%Z.
(* 136-176 / 140-180.  e == -e evaluates -e: undefined for INT_MIN. *)
Definition q_exp (a : rat) (e : Z) : res rat :=
  zero <- q_pse a 0 ;;
  one <- q_pse a 1 ;;
  if (e =? 0)%Z then
    z <- q_eqb a zero ;; if z : bool then Exn else Ok one
  else
    '(xp, e) <- (if (e <? 0)%Z then
                   z <- q_eqb a zero ;;
                   if z : bool then Exn
                   else ne <- ineg e ;; inv <- q_div one a ;; Ok (inv, ne)
                 else Ok (a, e)) ;;
    loop 34 q_exp_step (e, xp, one).
(* 310-327 / 320-337 *)
Definition q_cmp (f : A -> A -> res bool) (a b : rat) : res bool :=
  x <- c_mul o (r_num a) (r_den b) ;;
  y <- c_mul o (r_den a) (r_num b) ;;
  f x y.
Definition q_ltb := q_cmp ltb.
Definition q_leb := q_cmp leb.
Definition q_gtb := q_cmp gtb.
Definition q_geb := q_cmp geb.
End Rat.

(* f2_polyrat_t.cpp *)
Definition f2q_pse (_ : fpoly) (v : Z) : res fpoly := Ok (f2_of_int v).
Definition f2q_isz (a : fpoly) : res bool := f2_eq_int a 0.
Definition f2q_make := q_make f2p_cops f2_gcd f2q_isz.
Definition f2q_poly := q_poly f2p_cops f2_gcd f2q_isz f2q_pse.
Definition f2q_add := q_add f2p_cops f2_gcd f2q_isz.
Definition f2q_sub := q_sub f2p_cops f2_gcd f2q_isz.
Definition f2q_neg := q_neg f2p_cops.
Definition f2q_mul := q_mul f2p_cops f2_gcd f2q_isz.
Definition f2q_div := q_div f2p_cops f2_gcd f2q_isz.
Definition f2q_mod := q_mod f2p_cops f2_gcd f2q_isz.
Definition f2q_exp := q_exp f2p_cops f2_gcd f2q_isz f2q_pse.
Definition f2q_eqb := q_eqb f2p_cops.
Definition f2q_eq_poly := q_eq_poly f2p_cops f2q_pse.
Definition f2q_ltb := q_ltb f2p_cops f2_ltb.
Definition f2q_leb := q_leb f2p_cops f2_leb.
Definition f2q_gtb := q_gtb f2p_cops f2_gtb.
Definition f2q_geb := q_geb f2p_cops f2_geb.

(* fp_polyrat_t.cpp, f2n_polyrat_t.cpp *)
Section Gq.
Context {A : Type} (o : kops A).
Notation gpoly := (gpoly (A := A)).
Definition gq_isz (a : gpoly) : res bool := gp_eq_int o a 0.
Definition gq_make := q_make (gp_cops o) (gp_gcd o) gq_isz.
Definition gq_poly := q_poly (gp_cops o) (gp_gcd o) gq_isz (gp_int o).
Definition gq_add := q_add (gp_cops o) (gp_gcd o) gq_isz.
Definition gq_sub := q_sub (gp_cops o) (gp_gcd o) gq_isz.
Definition gq_neg := q_neg (gp_cops o).
Definition gq_mul := q_mul (gp_cops o) (gp_gcd o) gq_isz.
Definition gq_div := q_div (gp_cops o) (gp_gcd o) gq_isz.
Definition gq_mod := q_mod (gp_cops o) (gp_gcd o) gq_isz.
Definition gq_exp := q_exp (gp_cops o) (gp_gcd o) gq_isz (gp_int o).
Definition gq_eqb := q_eqb (gp_cops o).
Definition gq_eq_poly := q_eq_poly (gp_cops o) (gp_int o).
Definition gq_ltb := q_ltb (gp_cops o) (gp_ltb o).
Definition gq_leb := q_leb (gp_cops o) (gp_leb o).
Definition gq_gtb := q_gtb (gp_cops o) (gp_gtb o).
Definition gq_geb := q_geb (gp_cops o) (gp_geb o).
End Gq.
