(* Model of spffl/linalg/f2_polymod_convert.cpp: the change from the residues modulo m1 to
   the residues modulo m2.

   [qsv] stands for tvector::sort (tvector.h:471-474, C's qsort with the comparison
   tvqcmp of tvector.h:609-620), [qs] for the sorting done in f2_polymod_log (MUnits.v);
   both are arbitrary functions here and the theorems say what is assumed of them. *)
From Verif Require Import Base MIntMath MMat MF2Poly MPoly MUnits MF2nPoly MLinalg.
Open Scope nat_scope.

(* f2_polymod_t.cpp:298-301 *)
Definition pm_change_modulus (m : fpoly) (a : fpmod) : res fpmod :=
  r <- f2_mod (pm_res a) m ;; Ok (mkpm r m).
(* f2n_poly_t.cpp:642-646 *)
Definition f2n_change_modulus (m : fpoly) (f : gpoly (A := fpmod)) : res (gpoly (A := fpmod)) :=
  mapM (pm_change_modulus m) f.

(* f2_polymod_convert.cpp:15-30; None is the return value false *)
Definition convert_prep (qsv : list fpmod -> list fpmod) (g1 : fpmod) (m2 : fpoly) : res (option fpmod) :=
  p1 <- f2m_min_poly g1 ;;
  p2 <- f2n_change_modulus m2 p1 ;;
  o <- f2n_roots p2 ;;
  match o with
  | None => Ok None
  | Some rs =>
      if negb (length rs =? gp_degree p2) then Ok None
      else r0 <- elt (qsv rs) 0 ;; Ok (Some r0)
  end.

(* f2_polymod_convert.cpp:33-44 *)
Definition convert_scalar (qs : list (fpmod * Z) -> list (fpmod * Z)) (g1 g2 a1 : fpmod) : res fpmod :=
  zero1 <- pm_sub g1 g1 ;;
  zero2 <- pm_sub g2 g2 ;;
  e <- pm_eqb a1 zero1 ;;
  if e : bool then Ok zero2
  else k <- f2_log qs g1 a1 ;; pm_exp g2 k.

(* f2_polymod_convert.cpp:47-56 *)
Definition convert_poly_body (qs : list (fpmod * Z) -> list (fpmod * Z)) (g1 g2 : fpmod) (f1 : gpoly (A := fpmod))
  (i : nat) (f2 : gpoly (A := fpmod)) : res (gpoly (A := fpmod)) :=
  c <- gp_get_coeff f2n_kops f1 (Z.of_nat i) ;;
  c2 <- convert_scalar qs g1 g2 c ;;
  gp_set_coeff f2n_kops f2 (Z.of_nat i) c2.
Definition convert_poly (qs : list (fpmod * Z) -> list (fpmod * Z)) (g1 g2 : fpmod) (f1 : gpoly (A := fpmod))
  : res (gpoly (A := fpmod)) :=
  for_up (S (gp_degree f1)) 0 (convert_poly_body qs g1 g2 f1) f1.

(* f2_polymod_convert.cpp:59-71 *)
Definition convert_matrix (qs : list (fpmod * Z) -> list (fpmod * Z)) (g1 g2 : fpmod) (A1 : tmat fpmod)
  : res (tmat fpmod) :=
  tab (t_nr A1) (t_nc A1) (fun i j => x <- el (t_rows A1) i j ;; convert_scalar qs g1 g2 x).
