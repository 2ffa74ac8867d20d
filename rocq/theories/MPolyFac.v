(* Model of spffl/factorization/fp_poly_factor.cpp, fp_poly_totient.cpp,
   f2n_poly_factor.cpp and f2n_poly_totient.cpp.  Definitions only.

   The two factor files are the same but for the number q of field elements, the field
   constants, the root and its exponent; the model is generic in these ([facpar]).
   Line numbers are those of fp_poly_factor.cpp unless another file is named.
   BI[i] and nullspace_basis[row] throw when out of range; the model uses the raw row
   access, which is UB there (the theorems show that neither happens). *)
From Verif Require Import Base MIntMath MIntmod MMisc MMat MFac MF2Poly MF2Fac MPoly.
Open Scope nat_scope.

Record facpar (A : Type) := mkfacpar {
  (* the number of field elements: get_characteristic() (114); 1 << m.find_degree()
     (f2n_poly_factor.cpp:119) *)
  fp_q : gpoly (A := A) -> res Z;
  (* the c-th field element as a constant polynomial: 208; f2n_poly_factor.cpp:213-216 *)
  fp_cst : gpoly (A := A) -> Z -> res (gpoly (A := A));
  (* pth_root (82); square_root (f2n_poly_factor.cpp:82) *)
  fp_root : gpoly (A := A) -> res (option (gpoly (A := A)));
  (* the characteristic: 81; 2 (f2n_poly_factor.cpp:94) *)
  fp_char : gpoly (A := A) -> res Z
}.
Arguments mkfacpar {A}. Arguments fp_q {A}. Arguments fp_cst {A}. Arguments fp_root {A}. Arguments fp_char {A}.

Section PolyFac.
Context {A : Type} (o : kops A) (fp : facpar A).
Notation gpoly := (gpoly (A := A)).

(* The operations tfacinfo<fp_poly_t> uses.  f_eqb and f_ltb are total: the comparisons
   return a value for polynomials over one field (PPoly3.cmp_val). *)
Definition gp_fops : fops gpoly := {|
  f_mul := gp_mul o; f_div := gp_div o; f_sub := gp_sub o;
  f_eqb := fun a b => ok_true (gp_eqb o a b); f_ltb := fun a b => ok_true (gp_ltb o a b) |}.

(* 99-100, 237-238, 280 *)
Definition gp_monic (g : gpoly) : res gpoly :=
  lc <- gp_get_coeff o g (Z.of_nat (gp_degree g)) ;; gp_divc o g lc.

(* 257-265 *)
Definition gp_from_vector (v : list A) (n : nat) : res gpoly :=
  v0 <- elt v 0 ;;
  z <- c_sub (k_c o) v0 v0 ;;
  f <- gp_set_coeff o [k_dflt o] 0 z ;;
  for_up n 0 (fun i f => x <- elt v i ;; gp_set_coeff o f (Z.of_nat (n - 1 - i)) x) f.

(* 123-126 *)
Definition gp_xq (f x : gpoly) (q : Z) : res gpoly :=
  for_up (Z.to_nat q - 1) 1 (fun _ xp => p <- gp_mul o xp x ;; gp_mod o p f) x.

(* BI[i][j] = x *)
Definition mset (rows : list (list A)) (i j : nat) (x : A) : res (list (list A)) :=
  r <- rowat rows i ;; r' <- setelt r j x ;; setrow rows i r'.
(* 142-150 *)
Definition gp_fill_B (n : nat) (f one xp : gpoly) (rows : list (list A)) : res (list (list A)) :=
  ' (rows, _) <- for_up n 0
      (fun j s => let '(rows, xpi) := s in
         rows' <- for_up n 0
           (fun i rows => c <- gp_get_coeff o xpi (Z.of_nat i) ;; mset rows (n - 1 - i) (n - 1 - j) c) rows ;;
         p <- gp_mul o xpi xp ;; xpi' <- gp_mod o p f ;; Ok (rows', xpi'))
      (rows, one) ;;
  Ok rows.
(* 157-159 *)
Definition gp_sub_I (n : nat) (one : A) (rows : list (list A)) : res (list (list A)) :=
  for_up n 0
    (fun i rows => x <- el rows i i ;; y <- c_sub (k_c o) x one ;; mset rows i i y) rows.

(* 207-220: cnt constants are left, starting at c; None: no break *)
Fixpoint gp_berl_consts (cnt : nat) (f h : gpoly) (c : Z) : res (option gpoly) :=
  match cnt with
  | O => Ok None
  | S k =>
      cc <- fp_cst fp f c ;;
      hc <- gp_sub o h cc ;;
      f1 <- gp_gcd o f hc ;;
      if (0 <? gp_degree f1) && (gp_degree f1 <? gp_degree f) then Ok (Some f1)
      else gp_berl_consts k f h (c + 1)
  end.
(* 196-221: cnt rows are left, starting at row; None: got_it is 0 *)
Fixpoint gp_berl_rows (cnt : nat) (q : Z) (f : gpoly) (n : nat) (basis : list (list A)) (row : nat)
    : res (option gpoly) :=
  match cnt with
  | O => Ok None
  | S k =>
      v <- rowat basis row ;;
      h <- gp_from_vector v n ;;
      one <- gp_eq_int o h 1 ;;
      if one : bool then gp_berl_rows k q f n basis (S row)
      else
        r <- gp_berl_consts (Z.to_nat q) f h 0 ;;
        match r with
        | Some f1 => Ok (Some f1)
        | None => gp_berl_rows k q f n basis (S row)
        end
  end.

(* 111-254; rec is the recursive call of pre_berlekamp.  The elements of BI are all
   written before they are read. *)
Definition gp_berl (rec : gpoly -> facinfo gpoly -> res (facinfo gpoly)) (recurse : bool)
    (f : gpoly) (fin : facinfo gpoly) : res (facinfo gpoly) :=
  let n := gp_degree f in
  q <- fp_q fp f ;;
  c0 <- getk f 0 ;;
  zero <- k_int o c0 0 ;;
  one <- k_int o c0 1 ;;
  x <- gp_linear o one zero ;;
  pone <- gp_const o one ;;
  xq <- gp_xq f x q ;;
  if n =? 0 then Exn (* tmatrix.h:35-42 *)
  else
  if n <? 2 then insert_factor gp_fops fin f 1
  else
    rows <- gp_fill_B n f pone xq (repeat (repeat (k_dflt o) n) n) ;;
    rows <- gp_sub_I n one rows ;;
    BI <- row_echelon_form (k_c o) (mkmat rows n) ;;
    rank <- get_rank_rr (k_c o) BI ;;
    let dimker := n - rank in
    if dimker =? 1 then insert_factor gp_fops fin f 1
    else
      got <- get_kernel_basis (k_c o) BI zero one ;;
      match got with
      | None => Exn
      | Some basis =>
          if negb (t_nr basis =? dimker) then Exn
          else
            r <- gp_berl_rows dimker q f n (t_rows basis) 0 ;;
            match r with
            | None => Exn
            | Some f1 =>
                f2 <- gp_div o f f1 ;;
                f1 <- gp_monic f1 ;;
                f2 <- gp_monic f2 ;;
                if (dimker =? 2) || negb recurse then
                  fin1 <- insert_factor gp_fops fin f1 1 ;; insert_factor gp_fops fin1 f2 1
                else
                  fin1 <- rec f1 fin ;; rec f2 fin1
            end
      end.

(* 55-105 *)
Fixpoint gp_pre (fuel : nat) (recurse : bool) (f : gpoly) (fin : facinfo gpoly)
    : res (facinfo gpoly) :=
  match fuel with
  | O => Div
  | S k =>
      d <- gp_deriv o f ;;
      g <- gp_gcd o f d ;;
      z <- gp_eq_int o g 0 ;;
      if z : bool then
        fz <- gp_eq_int o f 0 ;;
        if negb fz then Exn else insert_factor gp_fops fin f 1
      else if gp_degree g =? 0 then gp_berl (gp_pre k recurse) recurse f fin
      else
        dz <- gp_eq_int o d 0 ;;
        if dz : bool then
          p <- fp_char fp f ;;
          s <- fp_root fp f ;;
          match s with
          | None => Exn
          | Some s =>
              sfin <- gp_pre k recurse s fac_empty ;;
              sfin <- (if 0 <? gp_degree f then exp_all gp_fops sfin p else Ok sfin) ;;
              merge gp_fops fin sfin
          end
        else
          q <- gp_div o f g ;;
          g <- gp_monic g ;;
          q <- gp_monic q ;;
          fin1 <- gp_pre k recurse g fin ;;
          gp_pre k recurse q fin1
  end.
(* more recursion levels than the degree needs *)
Definition gp_pre_fuel (f : gpoly) : nat := S (length f).

(* 28-52 *)
Definition gp_factor (f : gpoly) : res (facinfo gpoly) :=
  c0 <- getk f 0 ;;
  zero <- k_int o c0 0 ;;
  one <- k_int o c0 1 ;;
  if gp_degree f =? 0 then insert_unit gp_fops fac_empty f
  else
    leader <- gp_get_coeff o f (Z.of_nat (gp_degree f)) ;;
    nz <- c_neqb (k_c o) leader zero ;;
    no <- c_neqb (k_c o) leader one ;;
    if (nz : bool) && no then
      u <- gp_const o leader ;;
      fin <- insert_unit gp_fops fac_empty u ;;
      fcopy <- gp_divc o f leader ;;
      gp_pre (gp_pre_fuel fcopy) true fcopy fin
    else gp_pre (gp_pre_fuel f) true f fac_empty.

(* 268-294 *)
Definition gp_is_irreducible (f : gpoly) : res bool :=
  let d := gp_degree f in
  if d =? 0 then Ok false
  else if d =? 1 then Ok true
  else
    fcopy <- gp_monic f ;;
    fin <- gp_pre (gp_pre_fuel fcopy) false fcopy fac_empty ;;
    Ok (get_num_factors fin =? 1)%Z.

(* 309-317 *)
Definition gp_irr_step (zero : A) (degree : nat) (rv : gpoly) : res (gpoly + gpoly) :=
  if gp_degree rv =? degree then
    c <- gp_get_coeff o rv 0 ;;
    nz <- c_neqb (k_c o) c zero ;;
    irr <- (if nz : bool then gp_is_irreducible rv else Ok false) ;;
    if irr : bool then Ok (inr rv)
    else r <- gp_increment o rv ;; Ok (inl r)
  else Exn.
(* 298-326; fuel: at least the number of polynomials tried *)
Definition gp_find_irr (fuel : nat) (zero one : A) (degree : Z) : res gpoly :=
  rv <- gp_const o zero ;;
  rv <- gp_set_coeff o rv degree one ;;
  if (degree <? 1)%Z then Exn
  else loop fuel (gp_irr_step zero (Z.to_nat degree)) rv.

(* fp_poly_totient.cpp:50-56 *)
Fixpoint gp_tot_loop (q : Z) (l : list (gpoly * Z)) (rv : Z) : res Z :=
  match l with
  | [] => Ok rv
  | (fi, ei) :: t =>
      e1 <- isub ei 1 ;;
      k <- imul (Z.of_nat (gp_degree fi)) e1 ;;
      a <- int_power q k ;;
      b <- int_power q (Z.of_nat (gp_degree fi)) ;;
      b1 <- isub b 1 ;;
      ab <- imul a b1 ;;
      rv' <- imul rv ab ;;
      gp_tot_loop q t rv'
  end.
(* fp_poly_totient.cpp:44-59; f2n_poly_totient.cpp:44-61 *)
Definition gp_totient (f : gpoly) : res Z :=
  q <- fp_q fp f ;;
  fin <- gp_factor f ;;
  gp_tot_loop q (facs fin) 1.
End PolyFac.

(* ---------------------------------------------------------------- integers modulo p *)
Definition im_facpar (c : cache) : facpar intmod :=
  mkfacpar (fun f => c0 <- getk f 0 ;; Ok (modulus c0)) (gp_int (im_kops c)) (fp_pth_root c)
    (fun f => c0 <- getk f 0 ;; Ok (modulus c0)).
Definition fp_factor (c : cache) := gp_factor (im_kops c) (im_facpar c).
Definition fp_is_irreducible (c : cache) := gp_is_irreducible (im_kops c) (im_facpar c).
Definition fp_totient (c : cache) := gp_totient (im_kops c) (im_facpar c).
(* 298-300 *)
Definition fp_find_irr (c : cache) (p degree : Z) : res gpoly :=
  zero <- im_make 0 p ;; one <- im_make 1 p ;;
  gp_find_irr (im_kops c) (im_facpar c) (S (Nat.pow (Z.to_nat p) (Z.to_nat degree))) zero one degree.
