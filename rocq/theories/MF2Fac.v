(* Model of spffl/factorization/f2_poly_factor.cpp and f2_poly_totient.cpp.
   Definitions only.

   tm is the value of the mask computed in bit_vector_t::trim (None: the expression is
   undefined behaviour, see MBits.bv_trim); it matters only for the kernel basis.
   BI[i] and nullspace_basis[row] (bit_matrix_t.cpp:293-301) throw when out of range; the
   model uses the raw row access, which is UB there (the theorems show neither happens). *)
From Verif Require Import Base MIntMath MMisc MMat MBits MFac MF2Poly.
Open Scope nat_scope.

(* The operations tfacinfo<f2_poly_t> uses.  f_eqb and f_ltb are total: the comparisons
   return a value for every polynomial that has at least one word (PF2Poly.cmp_ok). *)
Definition ok_true (r : res bool) : bool := match r with Ok b => b | _ => false end.
Definition f2_fops : fops fpoly := {|
  f_mul := f2_mul; f_div := f2_div; f_sub := f2_sub;
  f_eqb := fun a b => ok_true (f2_eqb a b); f_ltb := fun a b => ok_true (f2_ltb a b) |}.

(* f2_poly_factor.cpp:306-315 *)
Definition f2_from_vector (v : bvec) (n : nat) : res fpoly :=
  for_up n 0
    (fun i f => b <- bv_get v (Z.of_nat n - 1 - Z.of_nat i) ;;
                if b : bool then set_bit f (Z.of_nat i) else Ok f) (f2_of_int 0).

(* f2_poly_factor.cpp:166-171: column n-1-j holds x^(2j) mod f *)
Definition f2_fill_B (n : nat) (f x2 : fpoly) (rows : list bvec) : res (list bvec) :=
  ' (rows, _) <- for_up n 0
      (fun j s => let '(rows, x2i) := s in
         rows' <- for_up n 0
           (fun i rows => c <- bit_at x2i (Z.of_nat i) ;; bm_set rows (n - 1 - i) (n - 1 - j) c) rows ;;
         p <- f2_mul x2i x2 ;; x2i' <- f2_mod p f ;; Ok (rows', x2i'))
      (rows, f2_of_int 1) ;;
  Ok rows.
(* f2_poly_factor.cpp:178-180 *)
Definition f2_sub_I (n : nat) (rows : list bvec) : res (list bvec) :=
  for_up n 0
    (fun i rows => r <- brow rows i ;; r' <- bv_toggle r (Z.of_nat i) ;; bsetrow rows i r') rows.

(* f2_poly_factor.cpp:251-299: cnt rows are left, starting at row *)
Fixpoint f2_berl_rows (cnt : nat) (rec : fpoly -> facinfo fpoly -> res (facinfo fpoly)) (recurse : bool)
    (f : fpoly) (n dimker : nat) (basis : list bvec) (row : nat) (fin : facinfo fpoly) : res (facinfo fpoly) :=
  match cnt with
  | O => Exn
  | S k =>
      v <- brow basis row ;;
      h <- f2_from_vector v n ;;
      hc <- f2_add h (f2_of_int 1) ;;
      hh <- f2_mul h h ;; check1 <- f2_mod hh f ;;
      hchc <- f2_mul hc hc ;; check2 <- f2_mod hchc f ;;
      ne1 <- f2_neqb h check1 ;;
      ne2 <- f2_neqb hc check2 ;;
      if (ne1 : bool) || ne2 then Exn
      else
        f1 <- f2_gcd f h ;;
        f2 <- f2_gcd f hc ;;
        e1 <- f2_eq_int f1 1 ;;
        e2 <- f2_eq_int f2 1 ;;
        if (e1 : bool) || e2 then f2_berl_rows k rec recurse f n dimker basis (S row) fin
        else if (dimker =? 2) || negb recurse then
          fin1 <- insert_factor f2_fops fin f1 1 ;; insert_factor f2_fops fin1 f2 1
        else
          fin1 <- rec f1 fin ;; rec f2 fin1
  end.

(* f2_poly_factor.cpp:141-303; rec is the recursive call of f2_poly_pre_berlekamp.
   The && / || of the C++ evaluate both sides here; none of them has side effects. *)
Definition f2_berl (tm : option N) (rec : fpoly -> facinfo fpoly -> res (facinfo fpoly)) (recurse : bool)
    (f : fpoly) (fin : facinfo fpoly) : res (facinfo fpoly) :=
  n <- f2_degree f ;;
  let x := f2_of_int2 1 0 in
  xx <- f2_mul x x ;;
  x2 <- f2_mod xx f ;;
  BI <- bm_new n n ;;
  if n <? 2 then insert_factor f2_fops fin f 1
  else
    rows <- f2_fill_B n f x2 (bm_rows BI) ;;
    rows <- f2_sub_I n rows ;;
    BI <- bm_rech (mkbm rows (bm_nc BI)) ;;
    rank <- bm_rank_rr BI ;;
    let dimker := n - rank in
    if dimker =? 1 then insert_factor f2_fops fin f 1
    else
      got <- bm_kernel tm BI bm_null ;;
      match got with
      | None => Exn
      | Some basis =>
          if negb (bm_nr basis =? dimker) then Exn
          else f2_berl_rows dimker rec recurse f n dimker (bm_rows basis) 0 fin
      end.

(* f2_poly_factor.cpp:39-88 *)
Fixpoint f2_pre (fuel : nat) (tm : option N) (recurse : bool) (f : fpoly) (fin : facinfo fpoly)
    : res (facinfo fpoly) :=
  match fuel with
  | O => Div
  | S k =>
      d <- f2_deriv f ;;
      g <- f2_gcd f d ;;
      z <- f2_eq_int g 0 ;;
      if z : bool then
        fz <- f2_eq_int f 0 ;;
        if negb fz then Exn else insert_factor f2_fops fin f 1
      else
        o <- f2_eq_int g 1 ;;
        if o : bool then f2_berl tm (f2_pre k tm recurse) recurse f fin
        else
          dz <- f2_eq_int d 0 ;;
          if dz : bool then
            s <- f2_sqrt f ;;
            match s with
            | None => Exn
            | Some s =>
                sfin <- f2_pre k tm recurse s fac_empty ;;
                deg <- f2_degree f ;;
                sfin <- (if 0 <? deg then exp_all f2_fops sfin 2 else Ok sfin) ;;
                merge f2_fops fin sfin
            end
          else
            q <- f2_div f g ;;
            fin1 <- f2_pre k tm recurse g fin ;;
            f2_pre k tm recurse q fin1
  end.
(* more recursion levels than any degree needs *)
Definition f2_pre_fuel (f : fpoly) : nat := S (64 * length f).

(* f2_poly_factor.cpp:27-36 *)
Definition f2_factor (tm : option N) (f : fpoly) : res (facinfo fpoly) :=
  d <- f2_degree f ;;
  if d =? 0 then insert_unit f2_fops fac_empty f
  else f2_pre (f2_pre_fuel f) tm true f fac_empty.

(* f2_poly_factor.cpp:411-435 *)
Definition f2_is_irreducible (tm : option N) (f : fpoly) : res bool :=
  d <- f2_degree f ;;
  if d =? 0 then Ok false
  else if d =? 1 then Ok true
  else
    fin <- f2_pre (f2_pre_fuel f) tm false f fac_empty ;;
    Ok (get_num_factors fin =? 1)%Z.

(* f2_poly_factor.cpp:451-457 *)
Definition f2_irr_step (tm : option N) (degree : nat) (rv : fpoly) : res (fpoly + fpoly) :=
  d <- f2_degree rv ;;
  if d =? degree then
    irr <- f2_is_irreducible tm rv ;;
    if irr : bool then Ok (inr rv)
    else r1 <- f2_increment rv ;; r2 <- f2_increment r1 ;; Ok (inl r2)
  else Exn.
(* f2_poly_factor.cpp:439-466 *)
Definition f2_find_irreducible (tm : option N) (degree : Z) : res fpoly :=
  rv <- set_bit (f2_of_int 0) degree ;;
  rv <- set_bit rv 0 ;;
  if (degree <? 1)%Z then Exn
  else loop (S (Nat.pow 2 (Z.to_nat degree))) (f2_irr_step tm (Z.to_nat degree)) rv.

(* 1 << k with an int left operand.  At 31 the result wraps to INT_MIN (C++20). *)
Definition ishl1 (k : Z) : res Z :=
  if (k <? 0)%Z || (31 <? k)%Z then UB else if (k =? 31)%Z then Ok INT_MIN else Ok (2 ^ k)%Z.
(* f2_poly_totient.cpp:48-53 *)
Fixpoint f2_tot_loop (l : list (fpoly * Z)) (rv : Z) : res Z :=
  match l with
  | [] => Ok rv
  | (fi, ei) :: t =>
      di <- f2_degree fi ;;
      e1 <- isub ei 1 ;;
      sh <- imul (Z.of_nat di) e1 ;;
      a <- ishl1 sh ;;
      b <- ishl1 (Z.of_nat di) ;;
      b1 <- isub b 1 ;;
      ab <- imul a b1 ;;
      rv' <- imul rv ab ;;
      f2_tot_loop t rv'
  end.
(* f2_poly_totient.cpp:43-56 *)
Definition f2_totient (tm : option N) (f : fpoly) : res Z :=
  fin <- f2_factor tm f ;; f2_tot_loop (facs fin) 1%Z.
