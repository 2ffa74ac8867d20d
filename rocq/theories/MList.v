(* Model of spffl/list/list_elements.cpp.  Definitions only.

   A tvector is the list of its elements; the elements of a vector that has just been
   allocated are default-constructed (dflt).  setelt is operator[] with its bounds check.
   tm: see MF2Fac.v.

   Simplification: the vector being filled is a list, so its size is a nat; the requested
   size is computed with int arithmetic. *)
From Verif Require Import Base MIntMath MIntmod MMisc MMat MBits MFac MF2Poly MF2Fac MPoly MPolymod MPolyFac MF2nPoly.
Open Scope nat_scope.

(* list_elements.h:19-25 *)
Inductive sp_list_type := LIST_ALL | LIST_UNITS | LIST_NON_UNITS | LIST_MULTIPLES | LIST_REL_PRIME.

(* tvector.h:47-57 *)
Definition new_vec {E} (dflt : E) (nel : Z) : res (list E) :=
  if (nel <=? 0)%Z then Exn else Ok (repeat dflt (Z.to_nat nel)).
(* tvector.h:498-506 *)
Definition trim_vec {E} (v : list E) (n : nat) : res (list E) :=
  if (n <? 1) || (length v <? n) then Exn else Ok (firstn n v).

Section Enum.
Context {R E : Type} (ltb : R -> R -> res bool) (inc : R -> res R).
(* for (r = min, i = 0; r < max; r.increment()) if (...) rv[i++] = ...; state (r, i, rv).
   sel r: the element to be stored for r, if any *)
Definition enum_step (max : R) (sel : R -> res (option E)) (s : R * nat * list E)
  : res ((R * nat * list E) + (list E * nat)) :=
  let '(r, i, rv) := s in
  lt <- ltb r max ;;
  if lt : bool then
    e <- sel r ;;
    '(rv, i) <- (match e with
                 | Some x => rv' <- setelt rv i x ;; Ok (rv', S i)
                 | None => Ok (rv, i)
                 end) ;;
    r <- inc r ;;
    Ok (inl (r, i, rv))
  else Ok (inr (rv, i)).
Definition enum (fuel : nat) (min max : R) (sel : R -> res (option E)) (rv : list E) : res (list E * nat) :=
  loop fuel (enum_step max sel) (min, 0, rv).
End Enum.

(* ---------------------------------------------------------------- GF(2)[x] *)
(* 19-35 *)
Definition f2_poly_list (deg : Z) : res (list fpoly) :=
  nel <- ishl1 deg ;;
  rv <- new_vec [0%N] nel ;;
  min <- set_bit (f2_of_int 0) deg ;;
  d1 <- iadd deg 1 ;;
  max <- set_bit (f2_of_int 0) d1 ;;
  '(rv, _) <- enum f2_ltb f2_increment (S (Z.to_nat nel)) min max (fun r => Ok (Some r)) rv ;;
  Ok rv.
(* the conditions of 147 and 154 *)
Definition f2_unit_gcd (g : fpoly) : res bool :=
  d <- f2_degree g ;;
  if d =? 0 then f2_neqb g (f2_of_int 0) else Ok false.
Definition pm_dflt : fpmod := mkpm [0%N] [0%N].
(* 120-165.  The fuel covers all residues. *)
Definition f2_polymod_list (tm : option N) (m : fpoly) (ty : sp_list_type) : res (list fpmod) :=
  deg <- f2_degree m ;;
  nel <- (match ty with
          | LIST_ALL => ishl1 (Z.of_nat deg)
          | LIST_UNITS => f2_totient tm m
          | LIST_NON_UNITS => a <- ishl1 (Z.of_nat deg) ;; t <- f2_totient tm m ;; isub a t
          | _ => Exn
          end) ;;
  rv <- new_vec pm_dflt nel ;;
  max <- set_bit (f2_of_int 0) (Z.of_nat deg) ;;
  let store r := x <- pm_make r m ;; Ok (Some x) in
  '(rv, _) <- enum f2_ltb f2_increment (S (Nat.pow 2 deg)) (f2_of_int 0) max
    (match ty with
     | LIST_UNITS => fun r => g <- f2_gcd r m ;; u <- f2_unit_gcd g ;; if u : bool then store r else Ok None
     | LIST_NON_UNITS => fun r => g <- f2_gcd r m ;; u <- f2_unit_gcd g ;; if u : bool then Ok None else store r
     | _ => store
     end) rv ;;
  Ok rv.
(* 271-305 *)
Definition f2_polymod_glist (g : fpmod) (ty : sp_list_type) : res (list fpmod) :=
  let m := pm_mod g in
  gr <- f2_gcd m (pm_res g) ;;
  deg <- f2_degree m ;;
  maxnel <- ishl1 (Z.of_nat deg) ;;
  rv <- new_vec pm_dflt maxnel ;;
  max <- set_bit (f2_of_int 0) (Z.of_nat deg) ;;
  let store r := x <- pm_make r m ;; Ok (Some x) in
  let run sel := enum f2_ltb f2_increment (S (Nat.pow 2 deg)) (f2_of_int 0) max sel rv in
  '(rv, nel) <- (match ty with
                 | LIST_MULTIPLES =>
                     run (fun r => d <- f2_mod r gr ;; z <- f2_eqb d (f2_of_int 0) ;; if z : bool then store r else Ok None)
                 | LIST_REL_PRIME =>
                     run (fun r => d <- f2_gcd r gr ;; u <- f2_unit_gcd d ;; if u : bool then store r else Ok None)
                 | _ => Ok (rv, 0)
                 end) ;;
  trim_vec rv nel.

(* ---------------------------------------------------------------- Z/p *)
Definition im_dflt : intmod := mkim (-1) 0.
(* 83-117 *)
Definition intmod_list (p : Z) (ty : sp_list_type) : res (list intmod) :=
  nel <- (match ty with
          | LIST_ALL => Ok p
          | LIST_UNITS => int_totient p
          | LIST_NON_UNITS => t <- int_totient p ;; isub p t
          | _ => Exn
          end) ;;
  rv <- new_vec im_dflt nel ;;
  let store r := x <- im_make r p ;; Ok (Some x) in
  '(rv, _) <- enum (fun r m => Ok (r <? m)%Z) (fun r => iadd r 1) (S (Z.to_nat p)) 0%Z p
    (match ty with
     | LIST_UNITS => fun r => g <- int_gcd r p ;; if (g =? 1)%Z then store r else Ok None
     | LIST_NON_UNITS => fun r => g <- int_gcd r p ;; if (g =? 1)%Z then Ok None else store r
     | _ => store
     end) rv ;;
  Ok rv.
(* 308-331 *)
Definition intmod_glist (g : intmod) (ty : sp_list_type) : res (list intmod) :=
  let m := modulus g in
  gr <- int_gcd m (residue g) ;;
  rv <- new_vec im_dflt m ;;
  let store r := x <- im_make r m ;; Ok (Some x) in
  let run sel := enum (fun r m => Ok (r <? m)%Z) (fun r => iadd r 1) (S (Z.to_nat m)) 0%Z m sel rv in
  '(rv, nel) <- (match ty with
                 | LIST_MULTIPLES => run (fun r => d <- imod r gr ;; if (d =? 0)%Z then store r else Ok None)
                 | LIST_REL_PRIME => run (fun r => d <- int_gcd r gr ;; if (d =? 1)%Z then store r else Ok None)
                 | _ => Ok (rv, 0)
                 end) ;;
  trim_vec rv nel.

(* ---------------------------------------------------------------- GF(p)[x], GF(2^n)[x] *)
Section Gp.
Context {A : Type} (o : kops A).
Notation gpoly := (gpoly (A := A)).
(* 43-58, 64-79 *)
Definition gp_list (zero one : A) (deg : Z) (nel : Z) : res (list gpoly) :=
  rv <- new_vec [k_dflt o] nel ;;
  min <- gp_const o zero ;;
  max <- gp_const o zero ;;
  min <- gp_set_coeff o min deg one ;;
  d1 <- iadd deg 1 ;;
  max <- gp_set_coeff o max d1 one ;;
  '(rv, _) <- enum (gp_ltb o) (gp_increment o) (S (Z.to_nat nel)) min max (fun r => Ok (Some r)) rv ;;
  Ok rv.
(* the conditions of 200, 207, 250, 257: g.find_degree() == 0 and g != zero, where zero is promoted
   to a polynomial *)
Definition gp_unit_gcd (g : gpoly) (zero : A) : res bool :=
  if gp_degree g =? 0 then z <- gp_const o zero ;; gp_neqb o g z else Ok false.
(* 187-217, 238-267; total: number of residues, for the fuel *)
Definition gp_residues (m : gpoly) (zero one : A) (deg total : nat) (nel : Z) (ty : sp_list_type) : res (list (gmod A)) :=
  rv <- new_vec (mkgm [k_dflt o] [k_dflt o]) nel ;;
  min <- gp_const o zero ;;
  max <- gp_const o zero ;;
  max <- gp_set_coeff o max (Z.of_nat deg) one ;;
  let store r := x <- gm_make o r m ;; Ok (Some x) in
  '(rv, _) <- enum (gp_ltb o) (gp_increment o) (S total) min max
    (match ty with
     | LIST_UNITS => fun r => g <- gp_gcd o r m ;; u <- gp_unit_gcd g zero ;; if u : bool then store r else Ok None
     | LIST_NON_UNITS => fun r => g <- gp_gcd o r m ;; u <- gp_unit_gcd g zero ;; if u : bool then Ok None else store r
     | _ => store
     end) rv ;;
  Ok rv.
End Gp.
(* 62-80 *)
Definition fp_poly_list (c : cache) (p deg : Z) : res (list (list intmod)) :=
  p1 <- isub p 1 ;; pd <- int_power p deg ;; nel <- imul p1 pd ;;
  zero <- im_make 0 p ;; one <- im_make 1 p ;;
  gp_list (im_kops c) zero one deg nel.
(* 38-59 *)
Definition f2n_poly_list (im : fpoly) (outerdeg : Z) : res (list (list fpmod)) :=
  d <- f2_degree im ;;
  q <- ishl1 (Z.of_nat d) ;;
  q1 <- isub q 1 ;; qd <- int_power q outerdeg ;; nel <- imul q1 qd ;;
  zero <- pm_make (f2_of_int 0) im ;; one <- pm_make (f2_of_int 1) im ;;
  gp_list f2n_kops zero one outerdeg nel.
(* 221-268 *)
Definition fp_polymod_list (c : cache) (m : list intmod) (ty : sp_list_type) : res (list (gmod intmod)) :=
  c0 <- getk m 0 ;;
  let p := modulus c0 in
  let n := gp_degree m in
  nel <- (match ty with
          | LIST_ALL => int_power p (Z.of_nat n)
          | LIST_UNITS => fp_totient c m
          | LIST_NON_UNITS => a <- int_power p (Z.of_nat n) ;; t <- fp_totient c m ;; isub a t
          | _ => Exn
          end) ;;
  zero <- im_make 0 p ;; one <- im_make 1 p ;;
  gp_residues (im_kops c) m zero one n (Nat.pow (Z.to_nat p) n) nel ty.
(* 168-218 *)
Definition f2n_polymod_list (om : list fpmod) (ty : sp_list_type) : res (list (gmod fpmod)) :=
  c0 <- getk om 0 ;;
  let im := pm_mod c0 in
  let outerdeg := gp_degree om in
  innerdeg <- f2_degree im ;;
  nel <- (match ty with
          | LIST_ALL => k <- imul (Z.of_nat outerdeg) (Z.of_nat innerdeg) ;; ishl1 k
          | LIST_UNITS => f2n_totient om
          | LIST_NON_UNITS =>
              k <- imul (Z.of_nat outerdeg) (Z.of_nat innerdeg) ;; a <- ishl1 k ;;
              t <- f2n_totient om ;; isub a t
          | _ => Exn
          end) ;;
  zero <- k_int f2n_kops c0 0 ;; one <- k_int f2n_kops c0 1 ;;
  gp_residues f2n_kops om zero one outerdeg (Nat.pow (Nat.pow 2 innerdeg) outerdeg) nel ty.

(* ---------------------------------------------------------------- n-tuples, projective points *)
Section Tuples.
Context {E : Type} (dflt : E).
(* 346-350, 385-389: for (j = 0; j < k; j++) { row[k - j - 1] = Fq[baserep % q]; baserep /= q; } *)
Definition tuple_row (Fq : list E) (q : Z) (k : nat) (i : Z) (row : list E) : res (list E) :=
  '(row, _) <- for_up k 0 (fun j s => let '(row, b) := s in
    d <- imod b q ;;
    x <- elt Fq (Z.to_nat d) ;;
    row <- setelt row (k - j - 1) x ;;
    b <- idiv b q ;;
    Ok (row, b)) (row, i) ;;
  Ok row.
(* 339-353, 414-428: rv(qn, n) *)
Definition An_rows (Fq : list E) (q qn : Z) (n : Z) : res (tmat E) :=
  if (qn <=? 0)%Z || (n <=? 0)%Z then Exn
  else
    rows <- mapM (fun i => tuple_row Fq q (Z.to_nat n) (Z.of_nat i) (repeat dflt (Z.to_nat n))) (seq 0 (Z.to_nat qn)) ;;
    Ok (mkmat rows (Z.to_nat n)).
(* 375-378, 451-454; n >= 0 *)
Definition Pn_size (q : Z) (n : nat) : res Z :=
  for_up (S n) 0 (fun k oP => a <- int_power q (Z.of_nat k) ;; iadd oP a) 0%Z.
(* 385-393, 461-469: one row *)
Definition Pn_row (Fq : list E) (zero one : E) (q : Z) (n k : nat) (i : Z) : res (list E) :=
  row <- tuple_row Fq q k i (repeat dflt (S n)) ;;
  row <- setelt row k one ;;
  for_up (n - k) 0 (fun j row => setelt row (k + 1 + j) zero) row.
(* 375-404, 451-480; for n < 0 there are no rows and the allocation throws.  rv[didx] is bounds-checked against the oP rows allocated; the rows
   are listed in the order in which they are written. *)
Definition Pn_rows (Fq : list E) (zero one : E) (q : Z) (n : nat) : res (tmat E) :=
  oP <- Pn_size q n ;;
  if (oP <=? 0)%Z then Exn
  else
    rows <- mapM (fun k =>
      qk <- int_power q (Z.of_nat k) ;;
      mapM (fun i => Pn_row Fq zero one q n k (Z.of_nat i)) (seq 0 (Z.to_nat qk))) (seq 0 (S n)) ;;
    let rows := concat rows in
    if (Z.of_nat (length rows) =? oP)%Z then Ok (mkmat rows (S n)) else Exn.
End Tuples.
(* 334-354 *)
Definition f2_polymod_An_list (m : fpoly) (n : Z) : res (tmat fpmod) :=
  d <- f2_degree m ;; q <- ishl1 (Z.of_nat d) ;; qn <- int_power q n ;;
  if (qn <=? 0)%Z || (n <=? 0)%Z then Exn
  else Fq <- f2_polymod_list None m LIST_ALL ;; An_rows pm_dflt Fq q qn n.
(* 363-405 *)
Definition f2_polymod_Pn_list (m : fpoly) (n : Z) : res (tmat fpmod) :=
  d <- f2_degree m ;; q <- ishl1 (Z.of_nat d) ;;
  Fq <- f2_polymod_list None m LIST_ALL ;;
  zero <- pm_prime_subfield_element 0 m ;; one <- pm_prime_subfield_element 1 m ;;
  if (n <? 0)%Z then Exn else Pn_rows pm_dflt Fq zero one q (Z.to_nat n).
(* 408-429 *)
Definition fp_polymod_An_list (c : cache) (m : list intmod) (n : Z) : res (tmat (gmod intmod)) :=
  c0 <- getk m 0 ;; q <- int_power (modulus c0) (Z.of_nat (gp_degree m)) ;; qn <- int_power q n ;;
  if (qn <=? 0)%Z || (n <=? 0)%Z then Exn
  else
    Fq <- fp_polymod_list c m LIST_ALL ;;
    An_rows (mkgm [k_dflt (im_kops c)] [k_dflt (im_kops c)]) Fq q qn n.
(* 438-481 *)
Definition fp_polymod_Pn_list (c : cache) (m : list intmod) (n : Z) : res (tmat (gmod intmod)) :=
  c0 <- getk m 0 ;; q <- int_power (modulus c0) (Z.of_nat (gp_degree m)) ;;
  Fq <- fp_polymod_list c m LIST_ALL ;;
  zero <- gm_int_mod (im_kops c) m 0 ;; one <- gm_int_mod (im_kops c) m 1 ;;
  if (n <? 0)%Z then Exn
  else Pn_rows (mkgm [k_dflt (im_kops c)] [k_dflt (im_kops c)]) Fq zero one q (Z.to_nat n).
