(* Model of spffl/polynomials/fp_polymod_t.cpp; f2n_polymod_t.cpp and fpn_polymod_t.cpp are
   copies of it with another coefficient type (differences are noted).  Definitions only.
   Line numbers are those of fp_polymod_t.cpp unless another file is named.
   The texts of exceptions are not modelled. *)
From Verif Require Import Base MIntMath MIntmod MMat MPoly.
Open Scope nat_scope.

Section Polymod.
Context {A : Type} (o : kops A).
Record gmod := mkgm { gm_res : list A; gm_mod : list A }.

(* 15-20 *)
Definition gm_make (r m : list A) : res gmod := x <- gp_mod o r m ;; Ok (mkgm x m).
(* 348-356 *)
Definition gm_check (a b : gmod) : res unit :=
  ne <- gp_neqb o (gm_mod a) (gm_mod b) ;; if ne : bool then Exn else Ok tt.
(* 43-53: of an object, and of a modulus *)
Definition gm_int (a : gmod) (v : Z) : res gmod := r <- gp_int o (gm_res a) v ;; gm_make r (gm_mod a).
Definition gm_int_mod (m : list A) (v : Z) : res gmod := r <- gp_int o m v ;; gm_make r m.
(* 68-92 *)
Definition gm_add (a b : gmod) : res gmod :=
  gm_check a b ;;; s <- gp_add o (gm_res a) (gm_res b) ;; gm_make s (gm_mod a).
Definition gm_sub (a b : gmod) : res gmod :=
  gm_check a b ;;; s <- gp_sub o (gm_res a) (gm_res b) ;; gm_make s (gm_mod a).
Definition gm_neg (a : gmod) : res gmod := s <- gp_neg o (gm_res a) ;; gm_make s (gm_mod a).
Definition gm_mul (a b : gmod) : res gmod :=
  gm_check a b ;;; s <- gp_mul o (gm_res a) (gm_res b) ;; gm_make s (gm_mod a).
(* 95-107 (fp_polymod_t.cpp); p is the characteristic *)
Definition gm_mul_int (p : Z) (a : gmod) (k : Z) : res gmod :=
  k <- imod k p ;;
  if (k =? 0)%Z then gm_sub a a
  else for_up (Z.to_nat (k - 1)) 0 (fun _ rv => gm_add rv a) a.
(* fpn_polymod_t.cpp:97-104 *)
Definition gm_mul_int_fpn (a : gmod) (k : Z) : res gmod :=
  z <- gm_sub a a ;; for_up (Z.to_nat k) 0 (fun _ rv => gm_add rv a) z.
(* f2n_polymod_t.cpp:95-104 *)
Definition gm_mul_int_f2n (a : gmod) (k : Z) : res gmod :=
  if Z.odd k then Ok a else gm_sub a a.
(* 110-114 *)
Definition gm_mul_coef (a : gmod) (c : A) : res gmod :=
  m <- gp_mulc o (gm_mod a) c ;; Ok (mkgm (gm_res a) m).
(* 147-168: None is the return value false *)
Definition gm_recip (a : gmod) : res (option gmod) :=
  ' (g, s, _) <- gp_ext_gcd o (gm_res a) (gm_mod a) ;;
  if gp_degree g =? 0 then
    c0 <- gp_get_coeff o g 0 ;;
    oc <- k_recip o c0 ;;
    match oc with
    | None => Exn
    | Some c0i => s' <- gp_mulc o s c0i ;; r <- gm_make s' (gm_mod a) ;; Ok (Some r)
    end
  else Ok None.
(* 117-144 *)
Definition gm_div (a b : gmod) : res gmod :=
  gm_check a b ;;;
  x <- gm_recip b ;;
  match x with Some bi => gm_mul a bi | None => Exn end.
Definition gm_rem (a b : gmod) : res gmod :=
  gm_check a b ;;;
  x <- gm_recip b ;;
  match x with Some _ => gm_sub a a | None => Exn end.
(* 296-315 *)
Definition gm_eqb (a b : gmod) : res bool :=
  n1 <- gp_neqb o (gm_res a) (gm_res b) ;;
  if n1 : bool then Ok false
  else n2 <- gp_neqb o (gm_mod a) (gm_mod b) ;; Ok (negb n2).
Definition gm_eq_int (a : gmod) (v : Z) : res bool := gp_eq_int o (gm_res a) v.
(* 318-339 *)
Definition gm_ltb (a b : gmod) : res bool := gm_check a b ;;; gp_ltb o (gm_res a) (gm_res b).
Definition gm_leb (a b : gmod) : res bool := gm_check a b ;;; gp_leb o (gm_res a) (gm_res b).
Definition gm_gtb (a b : gmod) : res bool := gm_check a b ;;; gp_gtb o (gm_res a) (gm_res b).
Definition gm_geb (a b : gmod) : res bool := gm_check a b ;;; gp_geb o (gm_res a) (gm_res b).
(* 201-207: state (e, xp, rv.residue) *)
Definition gm_exp_step (m : list A) (s : Z * list A * list A) : res ((Z * list A * list A) + list A) :=
  let '(e, xp, rv) := s in
  if (e =? 0)%Z then Ok (inr rv)
  else
    rv' <- (if Z.odd e then p <- gp_mul o rv xp ;; gp_mod o p m else Ok rv) ;;
    p <- gp_mul o xp xp ;; xp' <- gp_mod o p m ;;
    Ok (inl ((u32 e / 2)%Z, xp', rv')).
(* 171-210.  e == -e (line 190) evaluates -e: undefined for INT_MIN. *)
Definition gm_exp (a : gmod) (e : Z) : res gmod :=
  zero <- gm_int a 0 ;;
  one <- gm_int a 1 ;;
  if (e =? 0)%Z then
    z <- gm_eqb a zero ;; if z : bool then Exn else Ok one
  else
    ' (xp, e) <- (if (e <? 0)%Z then
                    z <- gm_eqb a zero ;;
                    if z : bool then Exn
                    else ne <- ineg e ;; inv <- gm_div one a ;; Ok (gm_res inv, ne)
                  else Ok (gm_res a, e)) ;;
    rv <- loop 34 (gm_exp_step (gm_mod a)) (e, xp, gm_res one) ;;
    Ok (mkgm rv (gm_mod a)).
End Polymod.
Arguments gmod : clear implicits.
Arguments mkgm {A}.
