(* Model of the division-free determinant of spffl/containers/tmatrix.h (1430-1545) and of
   spffl/linalg/f2_linear_algebra.cpp, fp_linear_algebra.cpp,
   f2_polymod_linear_algebra.cpp:19-85, min_char_polys.cpp.  Definitions only.

   Not modelled: f2_polymod_matrix_is_diagonalizable, output, the texts of exceptions. *)
From Verif Require Import Base MIntMath MIntmod MMisc MMat MBits MFac MF2Poly MF2Fac MPoly MPolymod MPolyFac MF2nPoly.
Open Scope nat_scope.

(* A[i][j]: tmatrix.h:390-398 and tvector.h:226-234 check the bounds *)
Definition elx {A} (rows : list (list A)) (i j : nat) : res A :=
  match nth_error rows i with Some r => elt r j | None => Exn end.
(* A[i][j] = x *)
Definition setx {A} (rows : list (list A)) (i j : nat) (x : A) : res (list (list A)) :=
  match nth_error rows i with Some r => r' <- setelt r j x ;; Ok (upd rows i r') | None => Exn end.

(* ---------------------------------------------------------------- tmatrix.h: ed_* *)
Section Ed.
Context {A : Type} (o : cops A) (gcd md : A -> A -> res A) (dflt : A).

(* tvector.h:403-409 *)
Definition vgcd (r : list A) : res A :=
  match r with [] => UB | x :: t => foldM gcd t x end.
(* tvector.h:393-398 *)
Definition vdiv (r : list A) (e : A) : res (list A) := mapM (fun x => c_div o x e) r.
(* tmatrix.h:1467-1471, 1478-1482, 1492-1496 *)
Definition ed_norm (zero : A) (rows : list (list A)) (i : nat) (sn : A) : res (list (list A) * A) :=
  r <- rowat rows i ;;
  g <- vgcd r ;;
  ne <- c_neqb o g zero ;;
  if ne : bool then
    r' <- vdiv r g ;; rows' <- setrow rows i r' ;; sn' <- c_mul o sn g ;; Ok (rows', sn')
  else Ok (rows, sn).
(* tmatrix.h:1498-1502 *)
Definition ed_cancel (zero sn sd : A) : res (A * A) :=
  g <- gcd sn sd ;;
  ne <- c_neqb o g zero ;;
  if ne : bool then sn' <- c_div o sn g ;; sd' <- c_div o sd g ;; Ok (sn', sd') else Ok (sn, sd).
(* tmatrix.h:1476-1503: n rows remain *)
Fixpoint ed_clear (n : nat) (zero : A) (rows : list (list A)) (sn sd lead : A) (top left cur : nat)
  : res (list (list A) * A * A) :=
  match n with
  | O => Ok (rows, sn, sd)
  | S n' =>
      '(rows1, sn1) <- ed_norm zero rows cur sn ;;
      cl <- el rows1 cur left ;;
      lg <- gcd lead cl ;;
      tm <- c_div o cl lg ;;
      cm <- c_div o lead lg ;;
      r <- rowat rows1 cur ;; t <- rowat rows1 top ;;
      r' <- accum_row_mul o r cm tm t ;;
      rows2 <- setrow rows1 cur r' ;;
      sd2 <- c_mul o sd cm ;;
      '(rows3, sn3) <- ed_norm zero rows2 cur sn1 ;;
      '(sn4, sd4) <- ed_cancel zero sn3 sd2 ;;
      ed_clear n' zero rows3 sn4 sd4 lead top left (S cur)
  end.
(* tmatrix.h:1445-1459: the pivot search, without the exchange; n rows remain *)
Fixpoint ed_piv (n : nat) (rows : list (list A)) (zero : A) (left pr : nat) : res (option nat) :=
  match n with
  | O => Ok None
  | S n' =>
      x <- el rows pr left ;; ne <- c_neqb o x zero ;;
      if ne : bool then Ok (Some pr) else ed_piv n' rows zero left (S pr)
  end.
(* tmatrix.h:1440-1508: left_column increases in every iteration *)
Fixpoint ed_loop (fuel : nat) (nc : nat) (zero : A) (rows : list (list A)) (sn sd : A) (top left : nat)
  : res (list (list A) * A * A) :=
  if (top <? length rows) && (left <? nc) then
    match fuel with
    | O => Div
    | S f =>
        p <- ed_piv (length rows - top) rows zero left top ;;
        match p with
        | None => ed_loop f nc zero rows sn sd top (S left)
        | Some pr =>
            '(rows1, sn1) <- (if top =? pr then Ok (rows, sn)
                              else rows' <- swaprows rows top pr ;; sn' <- c_sub o zero sn ;;
                                   Ok (rows', sn')) ;;
            '(rows2, sn2) <- ed_norm zero rows1 top sn1 ;;
            lead <- el rows2 top left ;;
            ne <- c_neqb o lead zero ;;
            '(rows3, sn3, sd3) <- (if ne : bool then
                                     ed_clear (length rows2 - S top) zero rows2 sn2 sd lead top left (S top)
                                   else Ok (rows2, sn2, sd)) ;;
            ed_loop f nc zero rows3 sn3 sd3 (S top) (S left)
        end
    end
  else Ok (rows, sn, sd).
(* tmatrix.h:1430-1509: the matrix, snumer and sdenom.  For the zero matrix sdenom keeps
   the value the caller's variable has, which in ed_det is that of the default
   constructor. *)
Definition ed_row_reduce (m : tmat A) : res (tmat A * A * A) :=
  zero <- get_zero o (t_rows m) ;;
  f <- find_one o (t_rows m) ;;
  match f with
  | None => Ok (m, zero, dflt)
  | Some one =>
      '(rows, sn, sd) <- ed_loop (S (t_nc m)) (t_nc m) zero (t_rows m) one one 0 0 ;;
      Ok (mkmat rows (t_nc m), sn, sd)
  end.
(* tmatrix.h:1518-1541 *)
Definition ed_det (m : tmat A) : res A :=
  if is_square m then
    '(rr, dn, dd) <- ed_row_reduce m ;;
    dn <- foldM (fun d i => x <- el (t_rows rr) i i ;; c_mul o d x) (seq 0 (t_nr m)) dn ;;
    zero <- c_sub o dn dn ;;
    rem <- md dn dd ;;
    quot <- c_div o dn dd ;;
    ne <- c_neqb o rem zero ;;
    if ne : bool then Exn else Ok quot
  else Exn.
End Ed.

(* ---------------------------------------------------------------- over GF(2) *)
(* c_neg is not used *)
Definition f2p_cops : cops fpoly := mkcops f2_add f2_sub f2_mul f2_div (fun a => Ok (f2_neg a)) f2_eqb.
Definition f2_ed_det (m : tmat fpoly) : res fpoly := ed_det f2p_cops f2_gcd f2_mod (f2_of_int 0) m.
Definition bitv (b : bool) : Z := if b then 1%Z else 0%Z.
(* f2_linear_algebra.cpp:14-21: base_rep & 1 and >> on an int.  tvector.h:48-58: the
   constructor throws for length 0. *)
Fixpoint f2_digits (base_rep : Z) (len : nat) : list bool :=
  match len with
  | O => []
  | S n => f2_digits (Z.shiftr base_rep 1) n ++ [Z.odd base_rep]
  end.
Definition f2_vector_from_base_rep (base_rep : Z) (len : nat) : res (list bool) :=
  if len =? 0 then Exn else Ok (f2_digits base_rep len).
(* f2_linear_algebra.cpp:24-34 *)
Fixpoint f2_digit_rows (base_rep : Z) (nr nc : nat) : list (list bool) :=
  match nr with
  | O => []
  | S n => f2_digit_rows (Z.shiftr base_rep (Z.of_nat nc)) n nc ++ [f2_digits base_rep nc]
  end.
Definition f2_matrix_from_base_rep (base_rep : Z) (nr nc : nat) : res (tmat bool) :=
  if (nr =? 0) || (nc =? 0) then Exn else Ok (mkmat (f2_digit_rows base_rep nr nc) nc).
(* f2_linear_algebra.cpp:37-62 *)
Definition f2_char_poly (a : tmat bool) : res fpoly :=
  if is_square a then
    let n := t_nr a in
    m <- tab n n (fun i j =>
           x <- elx (t_rows a) i j ;;
           let q := f2_of_int (bitv x) in
           if i =? j then f2_sub q (f2_of_int2 1 0) else Ok q) ;;
    f2_ed_det m
  else Exn.
(* f2_linear_algebra.cpp:65-88 *)
Definition f2_companion_matrix (chpol : fpoly) : res (tmat bool) :=
  n <- f2_degree chpol ;;
  rv <- tab n n (fun _ _ => Ok false) ;;
  rows <- for_up (n - 1) 1 (fun i rows => setx rows i (i - 1) true) (t_rows rv) ;;
  rows <- for_up n 0 (fun i rows =>
            b <- bit_at chpol (Z.of_nat i) ;;
            if b : bool then setx rows 0 (n - 1 - i) true else Ok rows) rows ;;
  Ok (mkmat rows n).

(* min_char_polys.cpp:16-26.  fuel: the number of residues and one more; the loop that
   has not stopped then never stops. *)
Definition f2_frob_step (a : fpmod) (s : Z * fpmod) : res ((Z * fpmod) + Z) :=
  let '(rv, ap) := s in
  rv <- iadd rv 1 ;;
  ap <- pm_mul ap ap ;;
  e <- pm_eqb ap a ;;
  Ok (if e : bool then inr rv else inl (rv, ap)).
Definition f2_frobenius_length (a : fpmod) : res Z :=
  d <- f2_degree (pm_mod a) ;;
  loop (S (Nat.pow 2 d)) (f2_frob_step a) (0%Z, a).
(* min_char_polys.cpp:90-123; tm: see MBits.v, bv_trim *)
Definition f2_minimal_polynomial (tm : option N) (a : fpmod) : res fpoly :=
  let m := pm_mod a in
  one <- pm_prime_subfield_element 1 m ;;
  n <- f2_degree m ;;
  l <- f2_frobenius_length a ;;
  let l := Z.to_nat l in
  A <- bm_new n (l + 1) ;;
  '(rows, _) <- for_up (l + 1) 0
      (fun j s => let '(rows, ap) := s in
         rows' <- for_up n 0
           (fun i rows => b <- bit_at (pm_res ap) (Z.of_nat i) ;; bm_set rows i j b) rows ;;
         ap' <- pm_mul ap a ;; Ok (rows', ap'))
      (bm_rows A, one) ;;
  k <- bm_kernel tm (mkbm rows (l + 1)) bm_null ;;
  match k with
  | None => Exn
  | Some B =>
      r <- bm_rank_rr B ;;
      if r =? 1 then
        for_up (l + 1) 0
          (fun j p => b <- bm_get (bm_rows B) 0 j ;;
                      if b : bool then set_bit p (Z.of_nat j) else Ok p) (f2_of_int 0)
      else Exn
  end.
(* min_char_polys.cpp:205-213 *)
Definition f2_characteristic_polynomial (tm : option N) (a : fpmod) : res fpoly :=
  mp <- f2_minimal_polynomial tm a ;;
  n <- f2_degree (pm_mod a) ;;
  l <- f2_frobenius_length a ;;
  e <- idiv (Z.of_nat n) l ;;
  f2_exp mp e.
(* f2_linear_algebra.cpp:91-112: polynomials over the field of the residues *)
Definition f2m_com_step (do_min : bool) (a one : fpmod) (s : nat * gpoly (A := fpmod) * fpmod)
  : res ((nat * gpoly (A := fpmod) * fpmod) + gpoly (A := fpmod)) :=
  let '(i, rv, ap) := s in
  match i with
  | O => Ok (inr rv)
  | S i' =>
      factor <- gp_linear f2n_kops one ap ;;
      rv <- gp_mul f2n_kops rv factor ;;
      ap <- pm_mul ap ap ;;
      e <- (if do_min then pm_eqb ap a else Ok false) ;;
      if e : bool then Ok (inr rv) else Ok (inl (i', rv, ap))
  end.
Definition f2m_char_or_min_poly (do_min : bool) (a : fpmod) : res (gpoly (A := fpmod)) :=
  let m := pm_mod a in
  d <- f2_degree m ;;
  one <- pm_make (f2_of_int 1) m ;;
  rv <- gp_const f2n_kops one ;;
  loop (S d) (f2m_com_step do_min a one) (d, rv, a).
(* f2_linear_algebra.cpp:115-124 *)
Definition f2m_char_poly := f2m_char_or_min_poly false.
Definition f2m_min_poly := f2m_char_or_min_poly true.

(* ---------------------------------------------------------------- over GF(p), GF(2^n) *)
Section Gen.
Context {A : Type} (o : kops A).
Notation gpoly := (gpoly (A := A)).

Definition gp_cops : cops gpoly := mkcops (gp_add o) (gp_sub o) (gp_mul o) (gp_div o) (gp_neg o) (gp_eqb o).
Definition gp_ed_det (m : tmat gpoly) : res gpoly := ed_det gp_cops (gp_gcd o) (gp_mod o) [k_dflt o] m.
(* fp_linear_algebra.cpp:27-56; f2_polymod_linear_algebra.cpp:19-49 *)
Definition gp_char_poly (a : tmat A) : res gpoly :=
  if is_square a then
    let n := t_nr a in
    a00 <- elx (t_rows a) 0 0 ;;
    c1 <- k_int o a00 1 ;;
    c0 <- k_int o a00 0 ;;
    t <- gp_linear o c1 c0 ;;
    m <- tab n n (fun i j =>
           x <- elx (t_rows a) i j ;;
           q <- gp_const o x ;;
           q <- gp_neg o q ;;
           if i =? j then gp_add o q t else Ok q) ;;
    gp_ed_det m
  else Exn.
(* fp_linear_algebra.cpp:59-81; f2_polymod_linear_algebra.cpp:52-79 *)
Definition gp_companion_matrix (chpol : gpoly) : res (tmat A) :=
  let n := gp_degree chpol in
  a0 <- getk chpol 0 ;;
  zero <- k_int o a0 0 ;;
  one <- k_int o a0 1 ;;
  rv <- tab n n (fun _ _ => Ok zero) ;;
  rows <- for_up (n - 1) 1 (fun i rows => setx rows i (i - 1) one) (t_rows rv) ;;
  rows <- for_up n 0 (fun i rows =>
            x <- gp_get_coeff o chpol (Z.of_nat i) ;; y <- c_neg (k_c o) x ;;
            setx rows 0 (n - 1 - i) y) rows ;;
  Ok (mkmat rows n).

(* min_char_polys.cpp:29-40, 43-54: q is the number of elements of the base field *)
Definition gm_frob_step (q : Z) (a : gmod A) (s : Z * gmod A) : res ((Z * gmod A) + Z) :=
  let '(rv, ap) := s in
  rv <- iadd rv 1 ;;
  ap <- gm_exp o ap q ;;
  e <- gm_eqb o ap a ;;
  Ok (if e : bool then inr rv else inl (rv, ap)).
Definition gm_frobenius_length (q : Z) (a : gmod A) : res Z :=
  loop (S (Nat.pow (Z.to_nat q) (gp_degree (gm_mod a)))) (gm_frob_step q a) (0%Z, a).
(* min_char_polys.cpp:126-163, 166-202 *)
Definition gm_minimal_polynomial (q : Z) (a : gmod A) : res gpoly :=
  let m := gm_mod a in
  ap <- gm_int o a 1 ;;
  a0 <- gp_get_coeff o (gm_res a) 0 ;;
  zero <- k_int o a0 0 ;;
  one <- k_int o a0 1 ;;
  let n := gp_degree m in
  l <- gm_frobenius_length q a ;;
  let l := Z.to_nat l in
  A0 <- tab n (l + 1) (fun _ _ => Ok zero) ;;
  '(rows, _) <- for_up (l + 1) 0
      (fun j s => let '(rows, ap) := s in
         rows' <- for_up n 0
           (fun i rows => c <- gp_get_coeff o (gm_res ap) (Z.of_nat i) ;; setx rows i j c) rows ;;
         ap' <- gm_mul o ap a ;; Ok (rows', ap'))
      (t_rows A0, ap) ;;
  k <- get_kernel_basis (k_c o) (mkmat rows (l + 1)) zero one ;;
  match k with
  | None => Exn
  | Some B =>
      r <- get_rank_rr (k_c o) B ;;
      if r =? 1 then
        for_up (l + 1) 0
          (fun j p => x <- elx (t_rows B) 0 j ;; gp_set_coeff o p (Z.of_nat j) x) [k_dflt o]
      else Exn
  end.
(* min_char_polys.cpp:216-235 *)
Definition gm_characteristic_polynomial (q : Z) (a : gmod A) : res gpoly :=
  mp <- gm_minimal_polynomial q a ;;
  l <- gm_frobenius_length q a ;;
  e <- idiv (Z.of_nat (gp_degree (gm_mod a))) l ;;
  gp_exp o mp e.
End Gen.

(* fp_linear_algebra.cpp:15-25 *)
Fixpoint fp_digits (p : Z) (base_rep : Z) (len : nat) : res (list intmod) :=
  match len with
  | O => Ok []
  | S n => d <- imod base_rep p ;; x <- im_make d p ;; q <- idiv base_rep p ;;
           t <- fp_digits p q n ;; Ok (t ++ [x])
  end.
Definition fp_vector_from_base_rep (base_rep p : Z) (len : nat) : res (list intmod) :=
  if len =? 0 then Exn else fp_digits p base_rep len.
Definition fp_char_poly (c : cache) := gp_char_poly (im_kops c).
Definition fp_companion_matrix (c : cache) := gp_companion_matrix (im_kops c).
(* the characteristic of an fp_polymod_t is the modulus of its residue's coefficients *)
Definition fp_q_of (a : gmod intmod) : res Z := c0 <- getk (gm_res a) 0 ;; Ok (modulus c0).
Definition fp_frobenius_length (c : cache) (a : gmod intmod) : res Z :=
  q <- fp_q_of a ;; gm_frobenius_length (im_kops c) q a.
Definition fp_minimal_polynomial (c : cache) (a : gmod intmod) : res gpoly :=
  q <- fp_q_of a ;; gm_minimal_polynomial (im_kops c) q a.
Definition fp_characteristic_polynomial (c : cache) (a : gmod intmod) : res gpoly :=
  q <- fp_q_of a ;; gm_characteristic_polynomial (im_kops c) q a.
Definition f2n_char_poly := gp_char_poly f2n_kops.
Definition f2n_companion_matrix := gp_companion_matrix f2n_kops.
(* min_char_polys.cpp:31 *)
Definition f2n_q_of (a : gmod fpmod) : res Z := f2n_q (gm_res a).
Definition f2nm_frobenius_length (a : gmod fpmod) : res Z :=
  q <- f2n_q_of a ;; gm_frobenius_length f2n_kops q a.
Definition f2nm_minimal_polynomial (a : gmod fpmod) : res gpoly :=
  q <- f2n_q_of a ;; gm_minimal_polynomial f2n_kops q a.
Definition f2nm_characteristic_polynomial (a : gmod fpmod) : res gpoly :=
  q <- f2n_q_of a ;; gm_characteristic_polynomial f2n_kops q a.
