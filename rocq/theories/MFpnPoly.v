(* Model of spffl/polynomials/fpn_poly_t.cpp and fpn_polymod_t.cpp: polynomials whose
   coefficients are residue classes fp_polymod_t (MPolymod.v over integers modulo p), and
   residue classes of such polynomials.  The two files are copies of fp_poly_t.cpp and
   fp_polymod_t.cpp with fp_polymod_t in place of intmod_t: the routines are those of MPoly.v
   and MPolymod.v with the coefficient operations below; what differs from the copy is
   written out here.  Definitions only.
   Line numbers are those of fpn_poly_t.cpp unless another file is named.
   Streams and strings (750-860) are not modelled. *)
From Verif Require Import Base MIntMath MIntmod MMat MPoly MPolymod.
Open Scope nat_scope.

(* a coefficient *)
Definition fpc : Type := gmod intmod.

Section Fpn.
Variable c : cache.
Local Notation oi := (im_kops c).

(* 16-22, with fp_polymod_t.cpp:29-33 and fp_poly_t.cpp:16-21: the coefficient of a
   default-constructed polynomial *)
Definition fpn_dflt : fpc := mkgm [mkim 0 1] [mkim 0 1].
(* increment (664-667) always throws: no successor of a coefficient is used *)
Definition fpn_next (a : fpc) : res (option fpc) := Exn.
(* arithmetic of fp_polymod_t; == with an integer is that of the residue (621) *)
Definition fpn_kops : kops fpc :=
  mkkops (mkcops (gm_add oi) (gm_sub oi) (gm_mul oi) (gm_div oi) (gm_neg oi) (gm_eqb oi))
    (gm_recip oi) (gm_exp oi) (gm_ltb oi) (gm_gtb oi) (gm_int oi) (gm_eq_int oi) fpn_next fpn_dflt.

(* 54-60 *)
Definition fpn_from_base_rep (b : Z) (m : list intmod) : res (list fpc) := Exn.
(* 664-667 *)
Definition fpn_increment (a : list fpc) : res (list fpc) := Exn.
(* 87-90 *)
Definition fpn_int_mod (v : Z) (m : list intmod) : res (list fpc) :=
  m0 <- gp_get_coeff oi m 0 ;;
  x <- im_make v (modulus m0) ;;
  r <- gp_const oi x ;;
  k <- gm_make oi r m ;;
  gp_const fpn_kops k.
(* 93-95, with fp_polymod_t.cpp:56-58 and fp_poly_t.cpp:123-125 *)
Definition fpn_characteristic (a : list fpc) : res Z :=
  k <- getk a 0 ;; x <- getk (gm_res k) 0 ;; Ok (modulus x).
(* 196-203; rv.coeffs[i] *= a is fp_polymod_t.cpp:278-281 and 110-114 *)
Definition fpn_mul_intmod (a : list fpc) (x : intmod) : res (list fpc) :=
  r <- mapM (fun k => gm_mul_coef oi k x) a ;; gp_recompute fpn_kops r.
(* 507-510: coefficients i, i+1, ...; the product is the same operator* of fp_polymod_t *)
Fixpoint fpn_deriv_l (p : Z) (l : list fpc) (i : Z) : res (list fpc) :=
  match l with
  | [] => Ok []
  | k :: t =>
      x <- im_make i p ;; y <- gm_mul_coef oi k x ;; t' <- fpn_deriv_l p t (i + 1) ;; Ok (y :: t')
  end.
(* 500-513 *)
Definition fpn_deriv (a : list fpc) : res (list fpc) :=
  match a with
  | [] => UB
  | [_] => gp_int fpn_kops a 0
  | _ :: t => p <- fpn_characteristic a ;; r <- fpn_deriv_l p t 1 ;; gp_recompute fpn_kops r
  end.
(* 518-544; None is the return value false *)
Definition fpn_pth_root (a : list fpc) : res (option (list fpc)) :=
  p <- fpn_characteristic a ;; gp_root fpn_kops (Z.to_nat p) (fun x => Ok x) a.

(* fpn_polymod_t.cpp:51-55 *)
Definition fpn_pm_int_mod (v : Z) (om : list fpc) : res (gmod fpc) :=
  k <- gp_get_coeff fpn_kops om 0 ;;
  r <- fpn_int_mod v (gm_mod k) ;;
  gm_make fpn_kops r om.
End Fpn.
