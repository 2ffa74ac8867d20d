(* Model of spffl/random and of the random searches built on it:
   random/int_random.cpp, f2_poly_random.cpp, f2_polymod_random.cpp, intmod_random.cpp,
   fp_poly_random.cpp, fp_polymod_random.cpp, f2n_poly_random.cpp, f2n_polymod_random.cpp,
   factorization/f2_poly_factor.cpp:469-486, fp_poly_factor.cpp:329-350,
   f2n_poly_factor.cpp:382-405, units/f2_polymod_units.cpp:177-195.

   The source of random numbers is an arbitrary type St of states (of the generator, of the
   operating system) with a function that gives the next 32-bit word and the next state;
   every function below takes a state and returns one.  The searches for(;;) are given fuel. *)
From Verif Require Import Base MIntMath MIntmod MMat MF2Poly MF2Fac MUnits MPoly MPolymod MPolyFac MF2nPoly MMisc.
Open Scope nat_scope.

Section Src.
Context {St : Type} (draw : St -> Z * St).

(* int_random.cpp:63: the low 32 bits as an int (conversion modulo 2^32) *)
Definition get_random_int (s : St) : Z * St := let '(w, s') := draw s in (to_int (u32 w), s').
(* int_random.cpp:23 *)
Definition get_random_uint32 (s : St) : Z * St := let '(w, s') := get_random_int s in (u32 w, s').
(* int_random.cpp:26-30 *)
Definition get_random_uint64 (s : St) : Z * St :=
  let '(lo, s1) := get_random_uint32 s in
  let '(hi, s2) := get_random_uint32 s1 in (Z.lor (Z.shiftl hi 32) lo, s2).

(* f2_poly_random.cpp:14-30; k = i + 1 *)
Fixpoint f2_random_loop (k : nat) (rv : fpoly) (s : St) : res (fpoly * St) :=
  match k with
  | O => Ok (rv, s)
  | S i =>
      let '(w, s') := get_random_uint32 s in
      rv' <- (if (Z.land (Z.shiftr w 17) 1 =? 0)%Z then Ok rv else set_bit rv (Z.of_nat i)) ;;
      f2_random_loop i rv' s'
  end.
Definition f2_poly_random (deg : Z) (s : St) : res (fpoly * St) :=
  if (deg <? 0)%Z then Exn
  else rv <- set_bit (f2_of_int 0) deg ;; f2_random_loop (Z.to_nat deg) rv s.
(* f2_polymod_random.cpp:15-26 *)
Definition f2_polymod_random (m : fpoly) (s : St) : res (fpmod * St) :=
  d <- f2_degree m ;;
  if d <? 1 then Exn
  else ' (r, s') <- f2_poly_random (Z.of_nat d) s ;; a <- pm_make r m ;; Ok (a, s').
(* intmod_random.cpp:14-21 *)
Definition intmod_random (m : Z) (s : St) : res (intmod * St) :=
  if (m <? 2)%Z then Exn
  else let '(v, s') := get_random_int s in a <- im_make v m ;; Ok (a, s').

(* fp_poly_random.cpp:24-30, f2n_poly_random.cpp:27-33; k = i + 1 *)
Fixpoint gp_random_loop {A : Type} (o : kops A) (coeff : St -> res (A * St)) (deg k : nat) (zero one : A)
  (rv : gpoly) (s : St) : res (gpoly (A := A) * St) :=
  match k with
  | O => Ok (rv, s)
  | S i =>
      ' (c, s') <- coeff s ;;
      c <- (if i =? deg then z <- c_eqb (k_c o) c zero ;; Ok (if z : bool then one else c) else Ok c) ;;
      rv' <- gp_set_coeff o rv (Z.of_nat i) c ;;
      gp_random_loop o coeff deg i zero one rv' s'
  end.
(* fp_poly_random.cpp:14-32; c: the statics of intmod_t.cpp (not used here) *)
Definition fp_poly_random (c : cache) (p deg : Z) (s : St) : res (gpoly (A := intmod) * St) :=
  if (deg <? 0)%Z then Exn
  else zero <- im_make 0 p ;; one <- im_make 1 p ;; rv <- gp_const (im_kops c) zero ;;
       gp_random_loop (im_kops c) (intmod_random p) (Z.to_nat deg) (S (Z.to_nat deg)) zero one rv s.
(* fp_polymod_random.cpp:14-25; fp_poly_t.cpp get_characteristic: the modulus of the
   constant coefficient *)
Definition fp_polymod_random (c : cache) (m : gpoly (A := intmod)) (s : St) : res (gmod intmod * St) :=
  if gp_degree m <? 1 then Exn
  else c0 <- getk m 0 ;;
       ' (r, s') <- fp_poly_random c (modulus c0) (Z.of_nat (gp_degree m)) s ;;
       a <- gm_make (im_kops c) r m ;; Ok (a, s').
(* f2n_poly_random.cpp:14-35 *)
Definition f2n_poly_random (m : fpoly) (deg : Z) (s : St) : res (gpoly (A := fpmod) * St) :=
  if (deg <? 0)%Z then Exn
  else zero <- pm_make (f2_of_int 0) m ;; one <- pm_make (f2_of_int 1) m ;; rv <- gp_const f2n_kops zero ;;
       gp_random_loop f2n_kops (f2_polymod_random m) (Z.to_nat deg) (S (Z.to_nat deg)) zero one rv s.
(* f2n_polymod_random.cpp:13-19 *)
Definition f2n_polymod_random (im : fpoly) (om : gpoly (A := fpmod)) (s : St) : res (gmod fpmod * St) :=
  ' (r, s') <- f2n_poly_random im (Z.of_nat (gp_degree om)) s ;;
  a <- gm_make f2n_kops r om ;; Ok (a, s').

(* the loops for (;;) { ... }: try until something is returned *)
Definition until_step {B : Type} (try : St -> res (option B * St)) (s : St) : res (St + (B * St)) :=
  ' (b, s') <- try s ;;
  match b with Some r => Ok (inr (r, s')) | None => Ok (inl s') end.
Definition until {B : Type} (fuel : nat) (try : St -> res (option B * St)) (s : St) : res (B * St) :=
  loop fuel (until_step try) s.

(* f2_poly_factor.cpp:479-485 *)
Definition f2_irr_try (tm : option N) (degree : Z) (s : St) : res (option fpoly * St) :=
  ' (rv, s') <- f2_poly_random degree s ;;
  rv <- set_bit rv 0 ;;
  b <- f2_is_irreducible tm rv ;; Ok (if b : bool then Some rv else None, s').
(* f2_poly_factor.cpp:469-486 *)
Definition f2_poly_random_irreducible (tm : option N) (fuel : nat) (degree : Z) (s : St) : res (fpoly * St) :=
  if (degree <? 1)%Z then Exn else until fuel (f2_irr_try tm degree) s.
(* f2_polymod_units.cpp:188-194 *)
Definition f2_prim_try (tm : option N) (degree : Z) (need_irr : bool) (s : St) : res (option fpoly * St) :=
  ' (rv, s') <- f2_poly_random degree s ;;
  p <- f2_is_primitive tm rv ;;
  if p : bool then
    ok <- (if negb need_irr then Ok true else f2_is_irreducible tm rv) ;; Ok (if ok : bool then Some rv else None, s')
  else Ok (None, s').
(* f2_polymod_units.cpp:177-195 *)
Definition f2_poly_random_prim (tm : option N) (fuel : nat) (degree : Z) (need_irr : bool) (s : St) : res (fpoly * St) :=
  if (degree <? 1)%Z then Exn else until fuel (f2_prim_try tm degree need_irr) s.

(* fp_poly_factor.cpp:340-349, f2n_poly_factor.cpp:395-404 *)
Definition gp_irr_try {A : Type} (o : kops A) (gen : St -> res (gpoly (A := A) * St)) (irr : gpoly (A := A) -> res bool)
  (zero : A) (degree : Z) (s : St) : res (option (gpoly (A := A)) * St) :=
  ' (rv, s') <- gen s ;;
  c0 <- gp_get_coeff o rv 0 ;;
  z <- c_eqb (k_c o) c0 zero ;;
  if z : bool then Ok (None, s')
  else
    b <- irr rv ;;
    if b : bool then cd <- gp_get_coeff o rv degree ;; rv <- gp_divc o rv cd ;; Ok (Some rv, s')
    else Ok (None, s').
(* fp_poly_factor.cpp:329-350 *)
Definition fp_poly_random_irr (c : cache) (fuel : nat) (p degree : Z) (s : St) : res (gpoly (A := intmod) * St) :=
  zero <- im_make 0 p ;;
  if (degree <? 1)%Z then Exn
  else until fuel (gp_irr_try (im_kops c) (fp_poly_random c p degree) (fp_is_irreducible c) zero degree) s.
(* f2n_poly_factor.cpp:382-405 *)
Definition f2n_poly_random_irr (fuel : nat) (m : fpoly) (degree : Z) (s : St) : res (gpoly (A := fpmod) * St) :=
  zero <- pm_make (f2_of_int 0) m ;;
  if (degree <? 1)%Z then Exn
  else until fuel (gp_irr_try f2n_kops (f2n_poly_random m degree) f2n_is_irreducible zero degree) s.
End Src.

(* psdes.cpp:19-24 once seeded, used by int_random.cpp:63: the library's own source *)
Definition psdes_draw (s : N * N) : Z * (N * N) := let '(w, s') := iran32_r s in (Z.of_N w, s').
