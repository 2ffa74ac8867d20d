(* Model of spffl/linalg/f2_polymod_linear_algebra.cpp:83-272: the diagonalizability test for
   matrices over GF(2)[x]/(m) and ft_vector_from_base_rep, and of tmatrix.h:480-505 (matrix
   plus and minus scalar).  The printing to std::cout is left out.
   [qs], [qsv] stand for the C library's sort as in MConvert.v, [tm] for the mask used by
   bit_vector_t::trim as in MF2Fac.v.  Definitions only. *)
From Verif Require Import Base MIntMath MMat MFac MF2Poly MF2Fac MPoly MUnits MF2nPoly MLinalg MConvert MList.
Open Scope nat_scope.

(* rv[i][i] = op(rv[i][i], e); both operator[] throw outside the bounds *)
Definition diag_step {A} (op : A -> A -> res A) (e : A) (i : nat) (rows : list (list A)) : res (list (list A)) :=
  x <- elx rows i i ;; y <- op x e ;; setx rows i i y.
(* tmatrix.h:480-491 and 494-505 *)
Definition mat_plus_scalar {A} (o : cops A) (m : tmat A) (e : A) : res (tmat A) :=
  if is_square m then rows <- for_up (t_nr m) 0 (diag_step (c_add o) e) (t_rows m) ;; Ok (mkmat rows (t_nc m))
  else Exn.
Definition mat_minus_scalar {A} (o : cops A) (m : tmat A) (e : A) : res (tmat A) :=
  if is_square m then rows <- for_up (t_nr m) 0 (diag_step (c_sub o) e) (t_rows m) ;; Ok (mkmat rows (t_nc m))
  else Exn.

(* 127-133 *)
Definition degree_lcm (fin : facinfo (gpoly (A := fpmod))) : res Z :=
  for_up (length (facs fin)) 0
    (fun i l => f <- get_ith_factor fin (Z.of_nat i) ;; int_lcm l (Z.of_nat (gp_degree f))) 1%Z.
(* 185-192 *)
Definition count_linear (fin : facinfo (gpoly (A := fpmod))) : res nat :=
  for_up (length (facs fin)) 0
    (fun i nev => f <- get_ith_factor fin (Z.of_nat i) ;; Ok (if gp_degree f =? 1 then S nev else nev)) 0.
(* 195-204 *)
Definition collect_eigen (fin : facinfo (gpoly (A := fpmod))) (nev : nat) (ev : list fpmod)
  : res (bool * list fpmod) :=
  for_up nev 0
    (fun i '(rv, ev) =>
       f <- get_ith_factor fin (Z.of_nat i) ;;
       if gp_degree f =? 1 then c <- gp_get_coeff f2n_kops f 0 ;; ev' <- setelt ev i c ;; Ok (rv, ev')
       else Ok (false, ev)) (true, ev).
(* 207-232 *)
Definition compare_nullities (fin : facinfo (gpoly (A := fpmod))) (nev : nat) (ev : list fpmod) (M : tmat fpmod)
  (rv : bool) : res bool :=
  for_up nev 0
    (fun i rv =>
       e <- elt ev i ;;
       Me <- mat_minus_scalar (k_c f2n_kops) M e ;;
       rank <- get_rank (k_c f2n_kops) Me ;;
       mult <- get_ith_count fin (Z.of_nat i) ;;
       Ok (if (Z.of_nat (t_nr M) - Z.of_nat rank =? mult)%Z then rv else false)) rv.

(* 83-256: the return value, rext_modulus and reigenvalues *)
Definition f2_polymod_matrix_is_diagonalizable (tm : option N) (qs : list (fpmod * Z) -> list (fpmod * Z))
  (qsv : list fpmod -> list fpmod) (M : tmat fpmod) : res (bool * fpoly * list fpmod) :=
  chpol <- f2n_char_poly M ;;
  base_finfo <- f2n_factor chpol ;;
  deglcm <- degree_lcm base_finfo ;;
  a00 <- el (t_rows M) 0 0 ;;
  base_degree <- f2_degree (pm_mod a00) ;;
  ext_degree <- imul deglcm (Z.of_nat base_degree) ;;
  ext_modulus <- (if (deglcm =? 1)%Z then Ok (pm_mod a00) else f2_find_irreducible tm ext_degree) ;;
  '(ext_chpol, ext_M) <-
    (if (deglcm =? 1)%Z then Ok (chpol, M)
     else
       og <- f2_find_generator tm (pm_mod a00) ;;
       match og with
       | None => Exn
       | Some base_g =>
           oe <- convert_prep qsv base_g ext_modulus ;;
           match oe with
           | None => Exn
           | Some ext_g =>
               p <- convert_poly qs base_g ext_g chpol ;;
               M' <- convert_matrix qs base_g ext_g M ;; Ok (p, M')
           end
       end) ;;
  ext_finfo <- f2n_factor ext_chpol ;;
  nev <- count_linear ext_finfo ;;
  ev0 <- new_vec pm_dflt (Z.of_nat nev) ;;
  '(rv, ev) <- collect_eigen ext_finfo nev ev0 ;;
  rv <- compare_nullities ext_finfo nev ev ext_M rv ;;
  Ok (rv, ext_modulus, ev).

(* 259-272; from_base_rep takes a 64-bit unsigned number *)
Fixpoint ft_digits (t : Z) (m : fpoly) (base_rep : Z) (len : nat) : res (list fpmod) :=
  match len with
  | O => Ok []
  | S n =>
      d <- imod base_rep t ;;
      x <- pm_make (f2_from_base_rep (Z.to_N (d mod 2 ^ 64))) m ;;
      q <- idiv base_rep t ;;
      l <- ft_digits t m q n ;; Ok (l ++ [x])
  end.
Definition ft_vector_from_base_rep (base_rep : Z) (m : fpoly) (len : nat) : res (list fpmod) :=
  if len =? 0 then Exn
  else d <- f2_degree m ;; t <- ishl1 (Z.of_nat d) ;; ft_digits t m base_rep len.
