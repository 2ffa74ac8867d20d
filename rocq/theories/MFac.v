(* Model of spffl/containers/tfacinfo.h, generic in the element type, and of
   spffl/factorization/int_factor.cpp.  Definitions only.
   Simplifications: the growable C array is a list (growth at tfacinfo.h:227-235
   copies the contents and leaks the old buffer; it has no effect on values);
   counts are ints (overflow is UB). *)
From Verif Require Import Base MPrimes16 MIntMath.
Open Scope Z_scope.

(* The operations tfacinfo<element_type> needs of element_type. *)
Record fops (A : Type) := {
  f_mul : A -> A -> res A;      (* operator* / operator*= *)
  f_div : A -> A -> res A;      (* operator/ *)
  f_sub : A -> A -> res A;      (* operator- *)
  f_eqb : A -> A -> bool;       (* operator== *)
  f_ltb : A -> A -> bool        (* operator<  *)
}.
Arguments f_mul {A}. Arguments f_div {A}. Arguments f_sub {A}. Arguments f_eqb {A}. Arguments f_ltb {A}.

(* tfacinfo.h:30-38 *)
Record facinfo (A : Type) := mkfac { facs : list (A * Z); funit : option A }.
Arguments mkfac {A}. Arguments facs {A}. Arguments funit {A}.

Section Fac.
Context {A : Type} (F : fops A).

(* tfacinfo.h:45-51 *)
Definition fac_empty : facinfo A := mkfac [] None.

(* tfacinfo.h:102-108 *)
Fixpoint count_sum (l : list (A * Z)) : Z :=
  match l with [] => 0 | (_, c) :: t => c + count_sum t end.
Definition get_num_factors (f : facinfo A) : Z := count_sum (facs f).

(* tfacinfo.h:111-120, with the bounds check *)
Definition get_ith_factor (f : facinfo A) (i : Z) : res A :=
  if (i <? 0) || (i >=? Z.of_nat (length (facs f))) then Exn
  else match nth_error (facs f) (Z.to_nat i) with Some p => Ok (fst p) | None => UB end.
Definition get_ith_count (f : facinfo A) (i : Z) : res Z :=
  if (i <? 0) || (i >=? Z.of_nat (length (facs f))) then Exn
  else match nth_error (facs f) (Z.to_nat i) with Some p => Ok (snd p) | None => UB end.

(* tfacinfo.h:200-214 (find, linear search) fused with 218-246 (insert_factor):
   bump the count at the found position, or insert before the first larger
   factor. *)
Fixpoint insert_list (l : list (A * Z)) (e : A) (count : Z) : res (list (A * Z)) :=
  match l with
  | [] => Ok [(e, count)]
  | (x, c) :: t =>
      if f_eqb F e x then c' <- iadd c count ;; Ok ((x, c') :: t)
      else if f_ltb F e x then Ok ((e, count) :: (x, c) :: t)
      else t' <- insert_list t e count ;; Ok ((x, c) :: t')
  end.
Definition insert_factor (f : facinfo A) (e : A) (count : Z) : res (facinfo A) :=
  l <- insert_list (facs f) e count ;; Ok (mkfac l (funit f)).

(* tfacinfo.h:249-256 *)
Definition insert_unit (f : facinfo A) (e : A) : res (facinfo A) :=
  match funit f with
  | Some u => u' <- f_mul F u e ;; Ok (mkfac (facs f) (Some u'))
  | None => Ok (mkfac (facs f) (Some e))
  end.

(* tfacinfo.h:294-300: square and multiply; state (e, xp, rv). *)
Definition tf_step (s : Z * A * A) : res ((Z * A * A) + A) :=
  let '(e, xp, rv) := s in
  if e =? 0 then Ok (inr rv)
  else
    rv <- (if Z.odd e then f_mul F rv xp else Ok rv) ;;
    xp' <- f_mul F xp xp ;;
    Ok (inl (u32 e / 2, xp', rv)).

(* tfacinfo.h:260-303 *)
Definition tf_exp (x : A) (e : Z) : res A :=
  zero <- f_sub F x x ;;
  if f_eqb F x zero then
    (if e <? 0 then Exn else if e =? 0 then Exn else Ok zero)
  else
    one <- f_div F x x ;;
    if e =? 0 then Ok one
    else if e <? 0 then
      e' <- ineg e ;;
      xp <- f_div F one x ;;
      loop 34 tf_step (e', xp, one)
    else loop 34 tf_step (e, x, one).

(* tfacinfo.h:306-315 *)
Fixpoint scale_counts (l : list (A * Z)) (power : Z) : res (list (A * Z)) :=
  match l with
  | [] => Ok []
  | (x, c) :: t => c' <- imul c power ;; t' <- scale_counts t power ;; Ok ((x, c') :: t')
  end.
Definition exp_all (f : facinfo A) (power : Z) : res (facinfo A) :=
  u <- (match funit f with Some u => u' <- tf_exp u power ;; Ok (Some u') | None => Ok None end) ;;
  l <- scale_counts (facs f) power ;;
  Ok (mkfac l u).

(* tfacinfo.h:318-331 *)
Fixpoint insert_all (f : facinfo A) (l : list (A * Z)) : res (facinfo A) :=
  match l with
  | [] => Ok f
  | (x, c) :: t => f' <- insert_factor f x c ;; insert_all f' t
  end.
Definition merge (f g : facinfo A) : res (facinfo A) :=
  f' <- insert_all f (facs g) ;;
  match funit g with
  | None => Ok f'
  | Some v =>
      match funit f' with
      | Some u => w <- f_mul F u v ;; Ok (mkfac (facs f') (Some w))
      | None => Ok (mkfac (facs f') (Some v))
      end
  end.

(* tfacinfo.h:347-349: inner loop  for (j = 1; j <= power; j++) fpower *= f *)
Fixpoint mul_times (k : nat) (f acc : A) : res A :=
  match k with O => Ok acc | S k' => acc' <- f_mul F acc f ;; mul_times k' f acc' end.

(* tfacinfo.h:337-353 *)
Fixpoint unfactor_list (one : A) (l : list (A * Z)) (rv : A) : res A :=
  match l with
  | [] => Ok rv
  | (x, c) :: t =>
      fp <- mul_times (Z.to_nat c) x one ;;
      rv' <- f_mul F rv fp ;;
      unfactor_list one t rv'
  end.
Definition unfactor (f : facinfo A) (one : A) : res A :=
  rv <- (match funit f with Some u => f_mul F one u | None => Ok one end) ;;
  unfactor_list one (facs f) rv.

(* tfacinfo.h:376-390 *)
Fixpoint num_div_list (l : list (A * Z)) (rv : Z) : res Z :=
  match l with
  | [] => Ok rv
  | (_, c) :: t => b <- iadd c 1 ;; rv' <- imul rv b ;; num_div_list t rv'
  end.
Definition get_num_divisors (f : facinfo A) : res Z :=
  match facs f, funit f with
  | [], None => Exn
  | l, _ => num_div_list l 1
  end.

(* tfacinfo.h:399-422 *)
Fixpoint kth_div_list (l : list (A * Z)) (k : Z) (rv : A) : res A :=
  match l with
  | [] => Ok rv
  | (x, c) :: t =>
      base <- iadd c 1 ;;
      power <- imod k base ;;
      k' <- idiv k base ;;
      y <- tf_exp x power ;;
      rv' <- f_mul F rv y ;;
      kth_div_list t k' rv'
  end.
Definition get_kth_divisor (f : facinfo A) (k : Z) (one : A) : res A :=
  match facs f, funit f with
  | [], None => Exn
  | [], Some _ => Ok one
  | l, _ => kth_div_list l k one
  end.

(* tvector.h:471-474: qsort with the element order; modelled as insertion sort
   (the elements are compared by operator<; which of several equal elements comes
   first is not observable). *)
Fixpoint ins_sorted (x : A) (l : list A) : list A :=
  match l with
  | [] => [x]
  | y :: t => if f_ltb F y x then y :: ins_sorted x t else x :: y :: t
  end.
Definition sort (l : list A) : list A := fold_right ins_sorted [] l.

(* tfacinfo.h:426-442 *)
Fixpoint divisors_from (f : facinfo A) (one : A) (n : nat) (k : Z) : res (list A) :=
  match n with
  | O => Ok []
  | S n' => d <- get_kth_divisor f k one ;; t <- divisors_from f one n' (k+1) ;; Ok (d :: t)
  end.
Definition get_all_divisors (f : facinfo A) (one : A) : res (list A) :=
  match facs f, funit f with
  | [], None => Exn
  | _, _ =>
      nd <- get_num_divisors f ;;
      l <- divisors_from f one (Z.to_nat nd) 0 ;;
      Ok (sort l)
  end.

(* tfacinfo.h:446-467.  None: returns false. *)
Fixpoint dec_count (l : list (A * Z)) (k : nat) : list (A * Z) :=
  match l, k with
  | [], _ => []
  | (x, c) :: t, O => (x, c - 1) :: t
  | p :: t, S k' => p :: dec_count t k'
  end.
Fixpoint mpd_from (f : facinfo A) (one : A) (n : nat) (k : nat) : res (list A) :=
  match n with
  | O => Ok []
  | S n' =>
      d <- unfactor (mkfac (dec_count (facs f) k) (funit f)) one ;;
      t <- mpd_from f one n' (S k) ;;
      Ok (d :: t)
  end.
Definition get_maximal_proper_divisors (f : facinfo A) (one : A) : res (option (list A)) :=
  match facs f, funit f with
  | [], None => Exn
  | [], Some _ => Ok None
  | l, _ => r <- mpd_from f one (length l) 0 ;; Ok (Some (sort r))
  end.

End Fac.

(* ---------------------------------------------------------------- *)
(* The instance element_type = int. *)
Definition int_fops : fops Z := {|
  f_mul := imul; f_div := idiv; f_sub := isub; f_eqb := Z.eqb; f_ltb := Z.ltb |}.

(* spffl/factorization/int_factor.cpp:34-38: while ((n % p) == 0) { count++; n /= p; } *)
Fixpoint divide_out (fuel : nat) (n p count : Z) : res (Z * Z) :=
  match fuel with
  | O => Div
  | S k =>
      r <- imod n p ;;
      if r =? 0 then n' <- idiv n p ;; divide_out k n' p (count + 1)
      else Ok (n, count)
  end.

(* int_factor.cpp:26-43 *)
Fixpoint factor_loop (ps : list Z) (n : Z) (f : facinfo Z) : res (facinfo Z) :=
  match ps with
  | [] => if n =? 1 then Ok f else insert_factor int_fops f n 1
  | p :: ps' =>
      if n =? 1 then Ok f
      else
        r <- imod n p ;;
        if r =? 0 then
          '(n', count) <- divide_out 34 n p 0 ;;
          f' <- insert_factor int_fops f p count ;; factor_loop ps' n' f'
        else factor_loop ps' n f
  end.

(* int_factor.cpp:15-45 *)
Definition int_factor (n : Z) : res (facinfo Z) :=
  if (-1 <=? n) && (n <=? 1) then insert_unit int_fops fac_empty n
  else if n <? 0 then
    f <- insert_unit int_fops fac_empty (-1) ;;
    m <- ineg n ;;
    factor_loop primes_16 m f
  else factor_loop primes_16 n fac_empty.
