(* Model of spffl/polynomials/q_poly_t.cpp, spffl/q_cyclotomic/cyclo_poly.cpp and
   spffl/q_cyclotomic/qff.cpp.  Definitions only.

   q_poly_t.cpp is a copy of fp_poly_t.cpp with intrat_t coefficients: the routines are
   those of MPoly.v with the operations below.  pth_root and increment do not exist there.
   Stream input and output and from_string: MPolyText.v.  Not modelled: the texts of the exceptions,
   fpn_poly_from_qpoly and get_cyclo_fpn_poly. *)
From Verif Require Import Base MIntMath MIntmod MIntrat MMat MF2Poly MPoly MF2nPoly.
Open Scope nat_scope.

(* q_poly_t.cpp:330 for the reciprocal, 446, 513 and 554 for the ints, 592-598 for ==(int),
   17-22 for the default *)
Definition q_kops : kops intrat :=
  mkkops (mkcops rat_add rat_sub rat_mul rat_div rat_neg (fun a b => Ok (rat_eqb a b)))
    (fun x => one <- rat_of_int 1 ;; r <- rat_div one x ;; Ok (Some r))
    rat_exp rat_ltb rat_gtb (fun _ v => rat_of_int v)
    (fun x v => Ok (rat_eqb_int x v)) (fun _ => Exn) rat_default.
Definition qpoly := list intrat.

(* q_poly_t.cpp:25-52 with an int argument converted to intrat_t *)
Definition q_of_int (v : Z) : res qpoly := c <- rat_of_int v ;; gp_const q_kops c.
Definition q_linear_int (c1 c0 : Z) : res qpoly :=
  x <- rat_of_int c1 ;; y <- rat_of_int c0 ;; gp_linear q_kops x y.
(* q_poly_t.cpp:56-62 *)
Definition q_binomial (ci : intrat) (i : Z) (cj : intrat) (j : Z) : res qpoly :=
  rv <- q_of_int 0 ;;
  rv <- gp_set_coeff q_kops rv i ci ;;
  gp_set_coeff q_kops rv j cj.
(* q_poly_t.cpp:283-355 called as a.quot_and_rem(b, a, rem), cyclo_poly.cpp:62: when the
   dividend is shorter than the divisor, the remainder is copied from *this after *this
   has been overwritten by the quotient (300-304) *)
Definition q_quot_rem_self (a b : qpoly) : res (qpoly * qpoly) :=
  qr <- gp_quot_rem q_kops a b ;;
  if length a <? length b then Ok (fst qr, fst qr) else Ok qr.

(* cyclo_poly.cpp:17-19: memo_flags and memo_data, indices 0 .. 16 *)
Definition memo := list (option qpoly).
Definition memo_max : Z := 16.
Definition memo_init : memo := repeat None 17.
(* cyclo_poly.cpp:35-37, 56-57 *)
Definition memo_get (m : memo) (n : Z) : option qpoly :=
  if (n <=? memo_max)%Z then nth (Z.to_nat n) m None else None.
(* cyclo_poly.cpp:41-44, 70-73 *)
Definition memo_set (m : memo) (n : Z) (p : qpoly) : memo :=
  if (n <=? memo_max)%Z then upd m (Z.to_nat n) (Some p) else m.

(* cyclo_poly.cpp:22-76; the recursion is at most n deep *)
Fixpoint cyclo_rec (fuel : nat) (m : memo) (n : Z) : res (memo * qpoly) :=
  match fuel with
  | O => Div
  | S fuel' =>
      zero <- q_of_int 0 ;;
      if (n <? 1)%Z then Exn
      else
        match memo_get m n with
        | Some p => Ok (m, p)
        | None =>
            if (n =? 1)%Z then
              rv <- q_linear_int 1 (-1) ;; Ok (memo_set m n rv, rv)
            else
              c1 <- rat_of_int 1 ;; c0 <- rat_of_int (-1) ;;
              rv <- q_binomial c1 n c0 0 ;;
              ' (m', rv) <- for_up (Z.to_nat n - 1) 1
                (fun d (s : memo * qpoly) =>
                   let '(m, rv) := s in
                   r <- imod n (Z.of_nat d) ;;
                   if (r =? 0)%Z then
                     ' (m, dth) <- match memo_get m (Z.of_nat d) with
                                   | Some p => Ok (m, p)
                                   | None => cyclo_rec fuel' m (Z.of_nat d)
                                   end ;;
                     ' (quot, rem) <- q_quot_rem_self rv dth ;;
                     ne <- gp_neqb q_kops rem zero ;;
                     if ne : bool then Exn else Ok (m, quot)
                   else Ok (m, rv)) (m, rv) ;;
              Ok (memo_set m' n rv, rv)
        end
  end.
Definition get_cyclo_qpoly (m : memo) (n : Z) : res (memo * qpoly) := cyclo_rec (S (Z.to_nat n)) m n.

(* qff.cpp:6-10; bit_t.h:29, 67-74 *)
Definition bit_from_rat (r : intrat) : res bool :=
  if Z.odd (denom r) then Ok (Z.odd (numer r)) else Exn.
(* qff.cpp:13-19; c: the statics of intmod_t::recip *)
Definition intmod_from_rat (c : cache) (r : intrat) (p : Z) : res intmod :=
  n <- im_make (numer r) p ;; d <- im_make (denom r) p ;; im_div c n d.
(* qff.cpp:22-30 *)
Definition f2_poly_from_q_poly (q : qpoly) : res fpoly :=
  for_up (length q) 0
    (fun i rv =>
       let k := Z.of_nat (gp_degree q - i) in
       x <- gp_get_coeff q_kops q k ;; b <- bit_from_rat x ;; set_coeff rv k b) (f2_of_int 0).
(* qff.cpp:33-41 *)
Definition fp_poly_from_qpoly (c : cache) (q : qpoly) (p : Z) : res gpoly :=
  for_up (length q) 0
    (fun i rv =>
       let k := Z.of_nat (gp_degree q - i) in
       x <- gp_get_coeff q_kops q k ;; b <- intmod_from_rat c x p ;;
       gp_set_coeff (im_kops c) rv k b) [k_dflt (im_kops c)].
(* qff.cpp:44-58 *)
Definition f2n_poly_from_qpoly (c : cache) (q : qpoly) (im : fpoly) : res gpoly :=
  for_up (length q) 0
    (fun i rv =>
       let k := Z.of_nat (gp_degree q - i) in
       x <- gp_get_coeff q_kops q k ;; b <- intmod_from_rat c x 2 ;;
       y <- pm_prime_subfield_element (residue b) im ;;
       gp_set_coeff f2n_kops rv k y) [k_dflt f2n_kops].
(* cyclo_poly.cpp:79-99 *)
Definition get_cyclo_f2_poly (m : memo) (n : Z) : res (memo * fpoly) :=
  ' (m, q) <- get_cyclo_qpoly m n ;; r <- f2_poly_from_q_poly q ;; Ok (m, r).
Definition get_cyclo_fp_poly (c : cache) (m : memo) (n p : Z) : res (memo * gpoly) :=
  ' (m, q) <- get_cyclo_qpoly m n ;; r <- fp_poly_from_qpoly c q p ;; Ok (m, r).
Definition get_cyclo_f2n_poly (c : cache) (m : memo) (n : Z) (im : fpoly) : res (memo * gpoly) :=
  ' (m, q) <- get_cyclo_qpoly m n ;; r <- f2n_poly_from_qpoly c q im ;; Ok (m, r).
