(* Model of spffl/polynomials/fp_poly_t.cpp.  The files f2n_poly_t.cpp, fpn_poly_t.cpp and
   q_poly_t.cpp are copies of it with another coefficient type; the model is generic in
   the coefficient type.  Definitions only.

   A polynomial is the list of coeffs[0..degree], constant term first; elements of the
   array beyond degree are never read.  Degrees and indices are nat (int in the code).
   Array accesses outside the allocated range are UB.
   Line numbers are those of fp_poly_t.cpp unless another file is named. *)
From Verif Require Import Base MIntMath MIntmod MMat MF2Poly.
Open Scope nat_scope.

(* What the polynomial classes use of their coefficient type, beyond the operations of
   the matrices:
   recip(); exp(int); < and >; the element for an int with the same modulus
   (prime_subfield_element, intmod_t(v, p)); get_residue() == v; the successor used by
   increment, None when it wraps around to zero; the coefficient of the default
   constructor. *)
Record kops (A : Type) := mkkops {
  k_c : cops A;
  k_recip : A -> res (option A);
  k_exp : A -> Z -> res A;
  k_ltb : A -> A -> res bool;
  k_gtb : A -> A -> res bool;
  k_int : A -> Z -> res A;
  k_isint : A -> Z -> res bool;
  k_next : A -> res (option A);
  k_dflt : A
}.
Arguments mkkops {A}. Arguments k_c {A}. Arguments k_recip {A}. Arguments k_exp {A}. Arguments k_ltb {A}.
Arguments k_gtb {A}. Arguments k_int {A}. Arguments k_isint {A}. Arguments k_next {A}. Arguments k_dflt {A}.

Section Poly.
Context {A : Type} (o : kops A).
Local Notation "x +! y" := (c_add (k_c o) x y) (at level 50).
Local Notation "x -! y" := (c_sub (k_c o) x y) (at level 50).
Local Notation "x *! y" := (c_mul (k_c o) x y) (at level 40).
Definition gpoly := list A.

Definition getk (l : list A) (i : nat) : res A :=
  match nth_error l i with Some x => Ok x | None => UB end.
Definition setk (l : list A) (i : nat) (x : A) : res (list A) :=
  if i <? length l then Ok (upd l i x) else UB.

(* 625-639: the loop, on the coefficients in descending order *)
Fixpoint trim_top (zero : A) (rl : list A) : res (list A) :=
  match rl with
  | [] => Ok []
  | x :: t => ne <- c_neqb (k_c o) x zero ;; if ne : bool then Ok rl else trim_top zero t
  end.
Definition gp_recompute (l : gpoly) : res gpoly :=
  c0 <- getk l 0 ;;
  zero <- c0 -! c0 ;;
  r <- trim_top zero (rev l) ;;
  match r with [] => Ok [c0] | _ => Ok (rev r) end.

(* 24-50 *)
Definition gp_const (c0 : A) : res gpoly := gp_recompute [c0].
Definition gp_linear (c1 c0 : A) : res gpoly := gp_recompute [c0; c1].
Definition gp_quadratic (c2 c1 c0 : A) : res gpoly := gp_recompute [c0; c1; c2].
(* 117-120 *)
Definition gp_int (l : gpoly) (v : Z) : res gpoly :=
  c0 <- getk l 0 ;; c <- k_int o c0 v ;; gp_const c.
(* 578 *)
Definition gp_degree (l : gpoly) : nat := length l - 1.

(* 141-166: sums where both have a coefficient, then the rest of the longer one *)
Fixpoint add_l (a b : list A) : res (list A) :=
  match a, b with
  | [], _ => Ok b
  | _, [] => Ok a
  | x :: a', y :: b' => z <- x +! y ;; t <- add_l a' b' ;; Ok (z :: t)
  end.
Definition gp_add (a b : gpoly) : res gpoly := r <- add_l a b ;; gp_recompute r.
(* 169-194 *)
Fixpoint sub_l (a b : list A) : res (list A) :=
  match a, b with
  | [], _ => mapM (c_neg (k_c o)) b
  | _, [] => Ok a
  | x :: a', y :: b' => z <- x -! y ;; t <- sub_l a' b' ;; Ok (z :: t)
  end.
Definition gp_sub (a b : gpoly) : res gpoly := r <- sub_l a b ;; gp_recompute r.
(* 197-204: the array allocated has one element (rv is default-constructed) *)
Definition gp_neg (a : gpoly) : res gpoly :=
  match a with
  | [] => UB
  | [x] => y <- c_neg (k_c o) x ;; Ok [y]
  | _ => UB
  end.
(* 207-223 *)
Definition gp_mul (a b : gpoly) : res gpoly :=
  a0 <- getk a 0 ;;
  zero <- a0 -! a0 ;;
  r <- for_up (length a) 0
    (fun i r => for_up (length b) 0
       (fun j r => x <- getk a i ;; y <- getk b j ;; p <- x *! y ;;
                   c <- getk r (i + j) ;; s <- c +! p ;; setk r (i + j) s) r)
    (repeat zero (length a + length b - 1)) ;;
  gp_recompute r.
(* 240-253 *)
Definition gp_addc (a : gpoly) (c : A) : res gpoly :=
  a0 <- getk a 0 ;; s <- a0 +! c ;; r <- setk a 0 s ;; gp_recompute r.
Definition gp_subc (a : gpoly) (c : A) : res gpoly :=
  a0 <- getk a 0 ;; s <- a0 -! c ;; r <- setk a 0 s ;; gp_recompute r.
(* 256-273 *)
Definition gp_mulc (a : gpoly) (c : A) : res gpoly :=
  r <- mapM (fun x => x *! c) a ;; gp_recompute r.
Definition gp_divc (a : gpoly) (c : A) : res gpoly :=
  r <- mapM (fun x => c_div (k_c o) x c) a ;; gp_recompute r.

(* 684-729: the direction; lists in descending order *)
Fixpoint dir_top (ra rb : list A) : res Z :=
  match ra, rb with
  | x :: ra', y :: rb' =>
      l <- k_ltb o x y ;;
      if l : bool then Ok (-1)%Z
      else g <- k_gtb o x y ;; if g : bool then Ok 1%Z else dir_top ra' rb'
  | _, _ => Ok 0%Z
  end.
Definition gp_dir (a b : gpoly) : res Z :=
  if length a <? length b then Ok (-1)%Z
  else if length b <? length a then Ok 1%Z
  else dir_top (rev a) (rev b).
(* 654-681 *)
Definition gp_eqb (a b : gpoly) : res bool := d <- gp_dir a b ;; Ok (d =? 0)%Z.
Definition gp_neqb (a b : gpoly) : res bool := d <- gp_dir a b ;; Ok (negb (d =? 0)%Z).
Definition gp_ltb (a b : gpoly) : res bool := d <- gp_dir a b ;; Ok (d <? 0)%Z.
Definition gp_gtb (a b : gpoly) : res bool := d <- gp_dir a b ;; Ok (0 <? d)%Z.
Definition gp_leb (a b : gpoly) : res bool := d <- gp_dir a b ;; Ok (d <=? 0)%Z.
Definition gp_geb (a b : gpoly) : res bool := d <- gp_dir a b ;; Ok (0 <=? d)%Z.
(* 642-648 *)
Definition gp_eq_int (a : gpoly) (v : Z) : res bool :=
  match a with [x] => k_isint o x v | [] => UB | _ => Ok false end.

(* 386-389: rem -= x^shift * d *)
Definition sub_shift (rem d : list A) (shift : nat) : res (list A) :=
  for_up (length d) 0
    (fun i rem => x <- getk rem (shift + i) ;; y <- getk d i ;; z <- x -! y ;; setk rem (shift + i) z) rem.
(* 380-390; quot holds the coefficients found so far, the next lower one goes in front *)
Definition div_step (that : list A) (dlinv : A) (max_shift i : nat) (s : list A * list A) : res (list A * list A) :=
  let '(quot, rem) := s in
  let shift := max_shift - i in
  rl <- getk rem (shift + (length that - 1)) ;;
  m <- rl *! dlinv ;;
  dm <- gp_mulc that m ;;
  rem' <- sub_shift rem dm shift ;;
  Ok (m :: quot, rem').
(* 330-409 *)
Definition gp_quot_rem (a b : gpoly) : res (gpoly * gpoly) :=
  a0 <- getk a 0 ;;
  zero <- a0 -! a0 ;;
  zp <- gp_const zero ;;
  z <- gp_eqb b zp ;;
  if z : bool then Exn
  else
    z <- gp_eqb a zp ;;
    if (z : bool) || (length a <? length b) then
      q <- gp_int a 0 ;; Ok (q, a)
    else
      lead <- getk b (length b - 1) ;;
      oinv <- k_recip o lead ;;
      match oinv with
      | None => Exn
      | Some dlinv =>
          let max_shift := length a - length b in
          ' (quot, rem) <- for_up (S max_shift) 0 (div_step b dlinv max_shift) ([], a) ;;
          top <- getk quot max_shift ;;
          e <- c_eqb (k_c o) top zero ;;
          if e : bool then Exn
          else rem' <- gp_recompute rem ;; Ok (quot, rem')
      end.
(* 226-237 *)
Definition gp_div (a b : gpoly) : res gpoly := qr <- gp_quot_rem a b ;; Ok (fst qr).
Definition gp_mod (a b : gpoly) : res gpoly := qr <- gp_quot_rem a b ;; Ok (snd qr).

(* 426-435 *)
Definition gcd_step (s : gpoly * gpoly) : res ((gpoly * gpoly) + gpoly) :=
  let '(c, d) := s in
  qr <- gp_quot_rem c d ;;
  z <- gp_eq_int (snd qr) 0 ;;
  if z : bool then Ok (inr d) else Ok (inl (d, snd qr)).
(* 412-437 *)
Definition gp_gcd (a b : gpoly) : res gpoly :=
  z <- gp_eq_int a 0 ;;
  if z : bool then Ok b
  else
    z <- gp_eq_int b 0 ;;
    if z : bool then Ok a
    else loop (S (length b)) gcd_step (a, b).

(* 455-473; state (mprime, nprime, rm, rn, c, d) *)
Definition ext_step (s : gpoly * gpoly * gpoly * gpoly * gpoly * gpoly)
    : res ((gpoly * gpoly * gpoly * gpoly * gpoly * gpoly) + (gpoly * gpoly * gpoly)) :=
  let '(mp, np, rm, rn, c, d) := s in
  qr <- gp_quot_rem c d ;;
  z <- gp_eq_int (snd qr) 0 ;;
  if z : bool then Ok (inr (d, rm, rn))
  else
    qm <- gp_mul (fst qr) rm ;;
    rm' <- gp_sub mp qm ;;
    qn <- gp_mul (fst qr) rn ;;
    rn' <- gp_sub np qn ;;
    Ok (inl (rm, rn, rm', rn', d, snd qr)).
(* 442-475: gcd and the two multipliers *)
Definition gp_ext_gcd (a b : gpoly) : res (gpoly * gpoly * gpoly) :=
  one <- gp_int a 1 ;;
  zero <- gp_int a 0 ;;
  loop (S (length b)) ext_step (one, zero, zero, one, a, b).

(* 507-513; state (e, xp, rv) *)
Definition exp_step (s : Z * gpoly * gpoly) : res ((Z * gpoly * gpoly) + gpoly) :=
  let '(e, xp, rv) := s in
  if (e =? 0)%Z then Ok (inr rv)
  else
    rv' <- (if Z.odd e then gp_mul rv xp else Ok rv) ;;
    xp' <- gp_mul xp xp ;;
    Ok (inl ((u32 e / 2)%Z, xp', rv')).
(* 478-517 *)
Definition gp_exp (a : gpoly) (e : Z) : res gpoly :=
  zero <- gp_int a 0 ;;
  one <- gp_int a 1 ;;
  z <- gp_eqb a zero ;;
  if z : bool then (if (e =? 0)%Z then Exn else if (e <? 0)%Z then Exn else Ok zero)
  else if gp_degree a =? 0 then
    a0 <- getk a 0 ;; c <- k_exp o a0 e ;; gp_const c
  else if (e <? 0)%Z then Exn
  else loop 34 exp_step (e, a, one).

(* 527-531: coefficients i, i+1, ... *)
Fixpoint deriv_l (c0 : A) (l : list A) (i : Z) : res (list A) :=
  match l with
  | [] => Ok []
  | x :: t => k <- k_int o c0 i ;; y <- x *! k ;; t' <- deriv_l c0 t (i + 1) ;; Ok (y :: t')
  end.
(* 520-533 *)
Definition gp_deriv (a : gpoly) : res gpoly :=
  match a with
  | [] => UB
  | [_] => gp_int a 0
  | c0 :: t => r <- deriv_l c0 t 1 ;; gp_recompute r
  end.

(* 567-575 *)
Fixpoint horner_down (c rv : A) (rl : list A) : res A :=
  match rl with
  | [] => Ok rv
  | x :: t => p <- rv *! c ;; s <- p +! x ;; horner_down c s t
  end.
Definition gp_eval (a : gpoly) (c : A) : res A :=
  match rev a with [] => UB | x :: t => horner_down c x t end.

(* 581-591 *)
Definition gp_get_coeff (a : gpoly) (deg : Z) : res A :=
  if (deg <? 0)%Z then Exn
  else if (Z.of_nat (gp_degree a) <? deg)%Z then a0 <- getk a 0 ;; a0 -! a0
  else getk a (Z.to_nat deg).
(* 594-622 *)
Definition gp_set_coeff (a : gpoly) (pos : Z) (c : A) : res gpoly :=
  if (pos <? 0)%Z then Exn
  else
    a0 <- getk a 0 ;;
    zero <- k_int o a0 0 ;;
    let p := Z.to_nat pos in
    if gp_degree a <? p then
      let r := a ++ repeat zero (p - length a) ++ [c] in
      z <- c_eqb (k_c o) c zero ;;
      if z : bool then gp_recompute r else Ok r
    else
      r <- setk a p c ;;
      if p =? gp_degree a then
        z <- c_eqb (k_c o) c zero ;;
        if z : bool then gp_recompute r else Ok r
      else Ok r.

(* 736-744 *)
Fixpoint inc_l (zero : A) (l : list A) : res (list A * bool) :=
  match l with
  | [] => Ok ([], true)
  | x :: t =>
      n <- k_next o x ;;
      match n with
      | Some y => Ok (y :: t, false)
      | None => tc <- inc_l zero t ;; Ok (zero :: fst tc, snd tc)
      end
  end.
(* 732-746 *)
Definition gp_increment (a : gpoly) : res gpoly :=
  a0 <- getk a 0 ;;
  zero <- k_int o a0 0 ;;
  one <- k_int o a0 1 ;;
  rc <- inc_l zero a ;;
  if snd rc then gp_set_coeff (fst rc) (Z.of_nat (gp_degree a) + 1) one
  else Ok (fst rc).

(* 890-910 *)
Definition gp_promote (a : gpoly) : res gpoly :=
  match a with [] => UB | a0 :: _ => z <- a0 -! a0 ;; Ok (z :: a) end.
Definition gp_promote_and_add (a : gpoly) (c : A) : res gpoly :=
  r <- gp_promote a ;; setk r 0 c.

(* 552-559: coefficients si+1 .. si+cnt, up to the degree *)
Fixpoint chunk_zero (cnt : nat) (zero : A) (a : list A) (i : nat) : res bool :=
  match cnt with
  | O => Ok true
  | S k =>
      if gp_degree a <? i then Ok true
      else c <- getk a i ;; ne <- c_neqb (k_c o) c zero ;; if ne : bool then Ok false else chunk_zero k zero a (S i)
  end.
(* 550-560; root is what is done to the coefficients (nothing in fp_poly_t.cpp, a power in
   f2n_poly_t.cpp:571) *)
Fixpoint root_loop (cnt p : nat) (root : A -> res A) (zero : A) (a out : list A) (di : nat) : res (option (list A)) :=
  match cnt with
  | O => Ok (Some out)
  | S k =>
      c <- getk a (di * p) ;;
      r <- root c ;;
      out' <- setk out di r ;;
      z <- chunk_zero (p - 1) zero a (di * p + 1) ;;
      if z : bool then root_loop k p root zero a out' (S di) else Ok None
  end.
(* 538-564, f2n_poly_t.cpp:557-582; None is the return value false *)
Definition gp_root (p : nat) (root : A -> res A) (a : gpoly) : res (option gpoly) :=
  a0 <- getk a 0 ;;
  zero <- k_int o a0 0 ;;
  out <- gp_set_coeff [k_dflt o] (Z.of_nat (gp_degree a)) zero ;;
  out <- for_up (gp_degree a) 0 (fun i out => setk out (gp_degree a - 1 - i) zero) out ;;
  r <- root_loop (gp_degree a / p + 1) p root zero a out 0 ;;
  match r with
  | None => Ok None
  | Some out => out' <- gp_recompute out ;; Ok (Some out')
  end.
End Poly.

(* ---------------------------------------------------------------- integers modulo p *)
(* 736-741 *)
Definition im_next (a : intmod) : res (option intmod) :=
  one <- im_make 1 (modulus a) ;;
  if (residue a <? modulus a - 1)%Z then s <- im_add a one ;; Ok (Some s) else Ok None.
(* c: the statics of intmod_t::recip, see MIntmod.v.  fp_poly_t.cpp:17 for the default. *)
Definition im_kops (c : cache) : kops intmod :=
  mkkops (mkcops im_add im_sub im_mul (im_div c) im_neg im_eqb)
    (im_recip c) (im_exp c) im_ltb im_gtb (fun a v => im_make v (modulus a))
    (fun a v => Ok (residue a =? v)%Z) im_next (mkim 0 1).

(* 53-73 *)
Definition fp_make1 (c : cache) (c0 m : Z) : res gpoly := x <- im_make c0 m ;; gp_const (im_kops c) x.
Definition fp_make2 (c : cache) (c1 c0 m : Z) : res gpoly :=
  y <- im_make c1 m ;; x <- im_make c0 m ;; gp_linear (im_kops c) y x.
Definition fp_make3 (c : cache) (c2 c1 c0 m : Z) : res gpoly :=
  z <- im_make c2 m ;; y <- im_make c1 m ;; x <- im_make c0 m ;; gp_quadratic (im_kops c) z y x.
(* 85-89: number of digits *)
Definition base_len_step (m : Z) (s : Z * nat) : res ((Z * nat) + nat) :=
  let '(t, n) := s in
  if (t =? 0)%Z then Ok (inr n) else t' <- idiv t m ;; Ok (inl (t', S n)).
(* 93-96 *)
Fixpoint base_digits (cnt : nat) (b m : Z) : res (list intmod) :=
  match cnt with
  | O => Ok []
  | S k => d <- imod b m ;; x <- im_make d m ;; b' <- idiv b m ;; t <- base_digits k b' m ;; Ok (x :: t)
  end.
(* 77-98 *)
Definition fp_from_base_rep (b m : Z) : res gpoly :=
  n <- (if (b =? 0)%Z then Ok 1 else loop 34 (base_len_step m) (b, 0)) ;;
  base_digits n b m.
(* 538-564 *)
Definition fp_pth_root (c : cache) (a : gpoly) : res (option gpoly) :=
  a0 <- getk a 0 ;; gp_root (im_kops c) (Z.to_nat (modulus a0)) (fun x => Ok x) a.
