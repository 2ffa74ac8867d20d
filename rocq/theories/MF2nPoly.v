(* Model of spffl/polynomials/f2n_poly_t.cpp, f2n_polymod_t.cpp,
   spffl/factorization/f2n_poly_factor.cpp, f2n_poly_totient.cpp and
   spffl/units/f2n_polymod_units.cpp.  Definitions only.

   The first four are copies of the fp files with f2_polymod_t coefficients: the routines
   are those of MPoly.v, MPolymod.v and MPolyFac.v with the operations below.
   Stream input and output and from_string: MPolyText.v.  Not modelled: change_modulus, random_irr,
   from_base_rep (it throws always), the output to cout in f2n_polymod_log, the texts of
   the exceptions. *)
From Verif Require Import Base MIntMath MIntmod MMisc MMat MFac MF2Poly MF2Fac MPoly MPolymod MPolyFac MUnits.
Open Scope nat_scope.

(* f2n_poly_t.cpp:716-724, one coefficient.  The code takes the modulus of coefficient 0,
   the model that of the coefficient itself (the same in a polynomial over one field). *)
Definition f2n_next (x : fpmod) : res (option fpmod) :=
  d <- f2_degree (pm_mod x) ;;
  max <- set_bit (f2_of_int 0) (Z.of_nat d) ;;
  r <- f2_increment (pm_res x) ;;
  ne <- f2_neqb r max ;;
  if ne : bool then y <- pm_make r (pm_mod x) ;; Ok (Some y) else Ok None.
(* f2n_poly_t.cpp:16-21 for the default; 122-125 and 539, 559, 616 for the ints *)
Definition f2n_kops : kops fpmod :=
  mkkops (mkcops pm_add pm_sub pm_mul pm_div pm_neg pm_eqb)
    pm_recip pm_exp pm_ltb pm_gtb (fun a v => pm_make (f2_of_int v) (pm_mod a))
    (fun a v => f2_eq_int (pm_res a) v) f2n_next (mkpm (f2_of_int 0) (f2_of_int 1)).

(* f2n_poly_t.cpp:52-72; 52-57 is also prime_subfield_element(v, m), 130-132 *)
Definition f2n_make1 (c0 : Z) (m : fpoly) : res gpoly := x <- pm_make (f2_of_int c0) m ;; gp_const f2n_kops x.
Definition f2n_make2 (c1 c0 : Z) (m : fpoly) : res gpoly :=
  y <- pm_make (f2_of_int c1) m ;; x <- pm_make (f2_of_int c0) m ;; gp_linear f2n_kops y x.
Definition f2n_make3 (c2 c1 c0 : Z) (m : fpoly) : res gpoly :=
  z <- pm_make (f2_of_int c2) m ;; y <- pm_make (f2_of_int c1) m ;; x <- pm_make (f2_of_int c0) m ;;
  gp_quadratic f2n_kops z y x.
(* f2n_poly_t.cpp:557-582 *)
Definition f2n_square_root (a : gpoly) : res (option gpoly) :=
  a0 <- getk a 0 ;;
  n <- f2_degree (pm_mod a0) ;;
  pow <- ishl1 (Z.of_nat n - 1) ;;
  gp_root f2n_kops 2 (fun x => pm_exp x pow) a.

(* f2n_poly_factor.cpp:117-119; f2n_poly_totient.cpp:46-47 *)
Definition f2n_q (f : gpoly) : res Z :=
  c0 <- getk f 0 ;; d <- f2_degree (pm_mod c0) ;; ishl1 (Z.of_nat d).
Definition f2n_facpar : facpar fpmod :=
  mkfacpar f2n_q
    (* f2n_poly_factor.cpp:213-216 *)
    (fun f z => c0 <- getk f 0 ;; c <- pm_make (f2_from_base_rep (Z.to_N z)) (pm_mod c0) ;; gp_const f2n_kops c)
    f2n_square_root
    (* f2n_poly_factor.cpp:94 *)
    (fun _ => Ok 2%Z).
Definition f2n_factor := gp_factor f2n_kops f2n_facpar.
Definition f2n_is_irreducible := gp_is_irreducible f2n_kops f2n_facpar.
Definition f2n_totient := gp_totient f2n_kops f2n_facpar.
(* f2n_poly_factor.cpp:349-379 *)
Definition f2n_find_irr (m : fpoly) (degree : Z) : res gpoly :=
  zero <- pm_make (f2_of_int 0) m ;; one <- pm_make (f2_of_int 1) m ;;
  d <- f2_degree m ;;
  gp_find_irr f2n_kops f2n_facpar (S (Nat.pow (Nat.pow 2 d) (Z.to_nat degree))) zero one degree.

(* f2n_poly_factor.cpp:302-311 *)
Fixpoint f2n_roots_loop (l : list (gpoly * Z)) : res (list fpmod) :=
  match l with
  | [] => Ok []
  | (f, _) :: t =>
      if gp_degree f =? 1 then
        c1 <- gp_get_coeff f2n_kops f 1 ;;
        c0 <- gp_get_coeff f2n_kops f 0 ;;
        n <- pm_neg c0 ;; r <- pm_div n c1 ;;
        rs <- f2n_roots_loop t ;; Ok (r :: rs)
      else f2n_roots_loop t
  end.
(* f2n_poly_factor.cpp:278-315; None is the return value false *)
Definition f2n_roots (f : gpoly) : res (option (list fpmod)) :=
  fin <- f2n_factor f ;;
  rs <- f2n_roots_loop (facs fin) ;;
  match rs with [] => Ok None | _ => Ok (Some rs) end.

(* ---------------------------------------------------------------- f2n_polymod_t *)
(* f2n_polymod_t.cpp:95-104 *)
Definition f2n_mod_mul_int := gm_mul_int_f2n f2n_kops.
(* f2n_polymod_t.cpp:51-55 *)
Definition f2n_mod_int (v : Z) (om : gpoly) : res (gmod fpmod) :=
  c0 <- gp_get_coeff f2n_kops om 0 ;; r <- f2n_make1 v (pm_mod c0) ;; gm_make f2n_kops r om.

(* f2n_polymod_units.cpp:22-59 *)
Definition f2n_order (a : gmod fpmod) : res Z :=
  let m := gm_mod a in
  g <- gp_gcd f2n_kops (gm_res a) m ;;
  g <- gp_monic f2n_kops g ;;
  pol1 <- gp_int f2n_kops m 1 ;;
  ne <- gp_neqb f2n_kops g pol1 ;;
  if ne : bool then Exn
  else
    phi <- f2n_totient m ;;
    finfo <- int_factor phi ;;
    ds <- get_all_divisors int_fops finfo 1%Z ;;
    one <- gm_make f2n_kops pol1 m ;;
    order_loop (gm_exp f2n_kops a) (fun ap => gm_eqb f2n_kops ap one) ds.
(* f2n_polymod_units.cpp:75-82; None is the return value false *)
Definition f2n_gen_step (m : gpoly) (phi : Z) (gres : gpoly) : res (gpoly + option (gmod fpmod)) :=
  if gp_degree gres <? gp_degree m then
    g <- gm_make f2n_kops gres m ;;
    n <- f2n_order g ;;
    if (n =? phi)%Z then Ok (inr (Some g))
    else r <- gp_increment f2n_kops gres ;; Ok (inl r)
  else Ok (inr None).
(* f2n_polymod_units.cpp:62-90; fuel: the number of polynomials of lower degree *)
Definition f2n_find_generator (m : gpoly) : res (option (gmod fpmod)) :=
  gres <- gp_int f2n_kops m 1 ;;
  if gp_degree m <? 1 then Exn
  else
    phi <- f2n_totient m ;;
    c0 <- getk m 0 ;; d <- f2_degree (pm_mod c0) ;;
    loop (S (Nat.pow (Nat.pow 2 d) (gp_degree m))) (f2n_gen_step m phi) gres.
(* f2n_polymod_units.cpp:118-200.  k is converted to int for exp.  qs: see MUnits.v. *)
Definition f2n_log (qs : list (gmod fpmod * Z) -> list (gmod fpmod * Z)) (g a : gmod fpmod) : res Z :=
  n <- ishl1 (Z.of_nat (gp_degree (gm_mod g))) ;;
  k <- int_sqrt_ceil n ;;
  og <- gm_recip f2n_kops g ;;
  match og with
  | None => Exn
  | Some ginv =>
      gk <- gm_exp f2n_kops g k ;;
      one <- gm_div f2n_kops g g ;;
      log_search (gm_mul f2n_kops) (gm_eqb f2n_kops) (gm_ltb f2n_kops) qs k a one ginv gk
  end.
