(* Model of spffl/units/f2_polymod_units.cpp and spffl/units/fp_units.cpp.  Definitions only.

   Not modelled: f2_poly_random_prim (random numbers), the texts of the exceptions.
   tm is the mask of bit_vector_t::trim, as in MF2Fac.v. *)
From Verif Require Import Base MIntMath MIntmod MMat MBits MFac MF2Poly MF2Fac.
Open Scope Z_scope.

(* f2_polymod_units.cpp:45-50 and fp_units.cpp:42-47; running off the end throws
   (lines 52-58, 49-55). *)
Fixpoint order_loop {A} (exp : Z -> res A) (is_one : A -> res bool) (ds : list Z) : res Z :=
  match ds with
  | [] => Exn
  | d :: t =>
      ap <- exp d ;; e <- is_one ap ;;
      if e : bool then Ok d else order_loop exp is_one t
  end.

(* ---------------------------------------------------------------- tables of powers *)
Section Log.
Context {A : Type} (mul : A -> A -> res A) (eqb ltb : A -> A -> res bool).

(* f2_polymod_units.cpp:251-258, fp_units.cpp:132-139: elements idx, idx+1, ... of the
   table, given the one before; cnt of them *)
Fixpoint log_table_from (cnt : nat) (x step : A) (idx : Z) : res (list (A * Z)) :=
  match cnt with
  | O => Ok []
  | S n => y <- mul x step ;; t <- log_table_from n y step (idx + 1) ;; Ok ((y, idx) :: t)
  end.
(* f2_polymod_units.cpp:246-258, fp_units.cpp:127-139.  An empty array has no element 0. *)
Definition log_table (k : nat) (x step : A) : res (list (A * Z)) :=
  match k with
  | O => UB
  | S n => t <- log_table_from n x step 1 ;; Ok ((x, 0) :: t)
  end.

(* the conversion unsigned -> int of the assignment to rv *)
Definition to_int (u : Z) : Z := if u <? 2 ^ 31 then u else u - 2 ^ 32.
(* f2_polymod_units.cpp:263-273, fp_units.cpp:144-154 on the sorted arrays.  The int
   idx is converted to unsigned; product and sum are unsigned. *)
Fixpoint log_scan (k : Z) (la : list (A * Z)) {struct la} : list (A * Z) -> res Z :=
  fix inner (lg : list (A * Z)) : res Z :=
  match la, lg with
  | (x, i) :: la', (y, j) :: lg' =>
      e <- eqb x y ;;
      if e : bool then Ok (to_int (u32 (i + u32 (j * k))))
      else
        l <- ltb x y ;;
        if l : bool then log_scan k la' lg else inner lg'
  | _, _ => Ok (-1)
  end.

(* f2_polymod_units.cpp:246-286, fp_units.cpp:127-166 up to the last statement.
   qs stands for qsort with the comparison function poly_and_index_qcmp: the theorems hold
   for every qs that returns a sorted permutation of its argument. *)
Definition log_search (qs : list (A * Z) -> list (A * Z)) (k : Z) (a one ginv gk : A) : res Z :=
  agni <- log_table (Z.to_nat k) a ginv ;;
  gkj <- log_table (Z.to_nat k) one gk ;;
  rv <- log_scan k (qs agni) (qs gkj) ;;
  if rv =? -1 then Exn else Ok rv.
End Log.

(* ---------------------------------------------------------------- GF(2)[x]/(m) *)
(* f2_polymod_units.cpp:24-59 *)
Definition f2_order (tm : option N) (a : fpmod) : res Z :=
  let m := pm_mod a in
  g <- f2_gcd (pm_res a) m ;;
  ne <- f2_neqb g (f2_of_int 1) ;;
  if ne : bool then Exn
  else
    phi <- f2_totient tm m ;;
    finfo <- int_factor phi ;;
    ds <- get_all_divisors int_fops finfo 1 ;;
    one <- pm_make (f2_of_int 1) m ;;
    order_loop (pm_exp a) (fun ap => pm_eqb ap one) ds.

(* f2_polymod_units.cpp:74-81 *)
Definition f2_gen_step (tm : option N) (m : fpoly) (mdeg : nat) (phi : Z) (gres : fpoly)
    : res (fpoly + option fpmod) :=
  d <- f2_degree gres ;;
  if (d <? mdeg)%nat then
    g <- pm_make gres m ;;
    o <- f2_order tm g ;;
    if o =? phi then Ok (inr (Some g))
    else gres' <- f2_increment gres ;; Ok (inl gres')
  else Ok (inr None).
(* f2_polymod_units.cpp:61-89; None is the return value false *)
Definition f2_find_generator (tm : option N) (m : fpoly) : res (option fpmod) :=
  mdeg <- f2_degree m ;;
  if (mdeg <? 1)%nat then Exn
  else
    phi <- f2_totient tm m ;;
    loop (S (Nat.pow 2 mdeg)) (f2_gen_step tm m mdeg phi) (f2_of_int 1).

(* f2_polymod_units.cpp:118-123 *)
Fixpoint prim_loop {A} (exp : Z -> res A) (is_one : A -> res bool) (ds : list Z) : res bool :=
  match ds with
  | [] => Ok true
  | d :: t =>
      ap <- exp d ;; e <- is_one ap ;;
      if e : bool then Ok false else prim_loop exp is_one t
  end.
(* f2_polymod_units.cpp:98-132 *)
Definition f2_is_primitive (tm : option N) (m : fpoly) : res bool :=
  let pol1 := f2_of_int 1 in
  let polx := f2_of_int2 1 0 in
  g <- f2_gcd polx m ;;
  ne <- f2_neqb g pol1 ;;
  if ne : bool then Ok false
  else
    rcr1 <- pm_make pol1 m ;;
    rcrx <- pm_make polx m ;;
    phi <- f2_totient tm m ;;
    finfo <- int_factor phi ;;
    o <- get_maximal_proper_divisors int_fops finfo 1 ;;
    match o with
    | None => Ok true
    | Some mpds =>
        ok <- prim_loop (pm_exp rcrx) (fun ap => pm_eqb ap rcr1) mpds ;;
        if negb ok then Ok false
        else
          xp <- pm_exp rcrx phi ;;
          e <- pm_eqb xp rcr1 ;;
          if negb e then Ok false else Ok true
    end.

(* f2_polymod_units.cpp:135-142 *)
Definition f2_period (tm : option N) (m : fpoly) : res Z :=
  let x := f2_of_int2 1 0 in
  g <- f2_gcd x m ;;
  ne <- f2_neqb g (f2_of_int 1) ;;
  if ne : bool then Ok 0
  else a <- pm_make x m ;; f2_order tm a.

(* f2_polymod_units.cpp:158-165; need_irr is an int flag *)
Definition f2_prim_step (tm : option N) (degree : nat) (need_irr : bool) (rv : fpoly) : res (fpoly + fpoly) :=
  d <- f2_degree rv ;;
  if (d =? degree)%nat then
    pr <- f2_is_primitive tm rv ;;
    ok <- (if pr : bool then (if negb need_irr then Ok true else f2_is_irreducible tm rv) else Ok false) ;;
    if ok : bool then Ok (inr rv)
    else r1 <- f2_increment rv ;; Ok (inl r1)
  else Exn.
(* f2_polymod_units.cpp:146-174 *)
Definition f2_find_prim (tm : option N) (degree : Z) (need_irr : bool) : res fpoly :=
  rv <- set_bit (f2_of_int 0) degree ;;
  rv <- set_bit rv 0 ;;
  if degree <? 1 then Exn
  else loop (S (Nat.pow 2 (Z.to_nat degree))) (f2_prim_step tm (Z.to_nat degree) need_irr) rv.

(* f2_polymod_units.cpp:223-286 *)
Definition f2_log (qs : list (fpmod * Z) -> list (fpmod * Z)) (g a : fpmod) : res Z :=
  d <- f2_degree (pm_mod g) ;;
  n <- ishl1 (Z.of_nat d) ;;
  k <- int_sqrt_ceil n ;;
  o <- pm_recip g ;;
  match o with
  | None => Exn
  | Some ginv =>
      gk <- pm_exp g k ;;
      one <- pm_div g g ;;
      log_search pm_mul pm_eqb pm_ltb qs k a one ginv gk
  end.

(* ---------------------------------------------------------------- integers modulo p *)
(* fp_units.cpp:23-55.  The exponents are positive, so the statics of the reciprocal
   routine (intmod_t.cpp:349-354) are not used; c is their value. *)
Definition fp_order (c : cache) (a : intmod) : res Z :=
  g <- int_gcd (residue a) (modulus a) ;;
  if negb (g =? 1) then Exn
  else
    phi <- int_totient (modulus a) ;;
    finfo <- int_factor phi ;;
    ds <- get_all_divisors int_fops finfo 1 ;;
    one <- im_make 1 (modulus a) ;;
    order_loop (im_exp c a) (fun ap => im_eqb ap one) ds.

(* fp_units.cpp:62-72: cnt candidates left *)
Fixpoint fp_gen_loop (c : cache) (cnt : nat) (p phi gres : Z) : res (option intmod) :=
  match cnt with
  | O => Ok None
  | S n =>
      d <- int_gcd gres p ;;
      if negb (d =? 1) then fp_gen_loop c n p phi (gres + 1)
      else
        g <- im_make gres p ;;
        o <- fp_order c g ;;
        if o =? phi then Ok (Some g) else fp_gen_loop c n p phi (gres + 1)
  end.
(* fp_units.cpp:58-77; None is the return value false *)
Definition fp_find_generator (c : cache) (p : Z) : res (option intmod) :=
  phi <- int_totient p ;;
  fp_gen_loop c (Z.to_nat (p - 1)) p phi 1.

(* fp_units.cpp:105-167; the reciprocal in line 118 updates the statics that the
   division in line 129 reads. *)
Definition fp_log (c : cache) (qs : list (intmod * Z) -> list (intmod * Z)) (g a : intmod) : res Z :=
  let p := modulus g in
  k <- int_sqrt_ceil p ;;
  o <- im_recip c g ;;
  match o with
  | None => Exn
  | Some ginv =>
      gk <- im_exp c g k ;;
      one <- im_div (im_recip_cache c g) g g ;;
      rv <- log_search im_mul im_eqb im_ltb qs k a one ginv gk ;;
      phi <- int_totient p ;;
      imod rv phi
  end.
