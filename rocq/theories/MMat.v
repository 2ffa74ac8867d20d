(* Model of spffl/containers/tmatrix.h (and the tvector.h row operations it
   uses), generic in the element type.  Definitions only.

   A matrix is its list of rows together with num_cols; num_rows is the number of
   rows.  Dimensions and indices are nat (the int counters are bounded by the
   dimensions).  "for i, for j: rv[i][j] = f(i,j)" over a fresh matrix is
   tabulated in the same order.  rows[i] and ptrs[i][j] are raw accesses (UB
   outside); tvector::operator[] and tmatrix::operator[] throw. *)
From Verif Require Import Base.
Open Scope nat_scope.

(* The operations tmatrix<element_type> needs from its element type. *)
Record cops (A : Type) := mkcops {
  c_add : A -> A -> res A;
  c_sub : A -> A -> res A;
  c_mul : A -> A -> res A;
  c_div : A -> A -> res A;
  c_neg : A -> res A;
  c_eqb : A -> A -> res bool
}.
Arguments mkcops {A}. Arguments c_add {A}. Arguments c_sub {A}. Arguments c_mul {A}.
Arguments c_div {A}. Arguments c_neg {A}. Arguments c_eqb {A}.

Section MapM.
Context {A B C : Type}.
Fixpoint mapM (f : A -> res B) (l : list A) : res (list B) :=
  match l with
  | [] => Ok []
  | x :: t => y <- f x ;; ys <- mapM f t ;; Ok (y :: ys)
  end.
Fixpoint map2M (f : A -> B -> res C) (l : list A) (l' : list B) : res (list C) :=
  match l, l' with
  | x :: t, x' :: t' => y <- f x x' ;; ys <- map2M f t t' ;; Ok (y :: ys)
  | _, _ => Ok []
  end.
End MapM.
Fixpoint foldM {A B} (f : B -> A -> res B) (l : list A) (b : B) : res B :=
  match l with
  | [] => Ok b
  | x :: t => b' <- f b x ;; foldM f t b'
  end.

Section Mat.
Context {A : Type} (o : cops A).

Record tmat := mkmat { t_rows : list (list A); t_nc : nat }.
Definition t_nr (m : tmat) : nat := length (t_rows m).

Definition c_neqb (x y : A) : res bool := b <- c_eqb o x y ;; Ok (negb b).

(* rows[i]: raw array access *)
Definition rowat (rows : list (list A)) (i : nat) : res (list A) :=
  match nth_error rows i with Some r => Ok r | None => UB end.
(* tvector.h:226-234: operator[] with bounds check *)
Definition elt (r : list A) (j : nat) : res A :=
  match nth_error r j with Some x => Ok x | None => Exn end.
(* this->rows[i][j] *)
Definition el (rows : list (list A)) (i j : nat) : res A := r <- rowat rows i ;; elt r j.
(* ptrs[i][j], ptrs from expose(): raw in both indices *)
Definition pel (rows : list (list A)) (i j : nat) : res A :=
  r <- rowat rows i ;; match nth_error r j with Some x => Ok x | None => UB end.
(* rows[i] = r *)
Definition setrow (rows : list (list A)) (i : nat) (r : list A) : res (list (list A)) :=
  if i <? length rows then Ok (upd rows i r) else UB.
(* r[j] = x (operator[] bounds check) *)
Definition setelt (r : list A) (j : nat) (x : A) : res (list A) :=
  if j <? length r then Ok (upd r j x) else Exn.

(* for (i...) for (j...) rv[i][j] = f(i,j) over a fresh nr x nc matrix;
   tmatrix.h:34-50: the constructor throws on a zero dimension *)
Definition tab (nr nc : nat) (f : nat -> nat -> res A) : res tmat :=
  if (nr =? 0) || (nc =? 0) then Exn
  else rows <- mapM (fun i => mapM (fun j => f i j) (seq 0 nc)) (seq 0 nr) ;;
       Ok (mkmat rows nc).

(* tvector.h:379-383: mult_by *)
Definition mult_by (r : list A) (e : A) : res (list A) := mapM (fun x => c_mul o x e) r.
(* tvector.h:417-425: accum_row_mul; throws on unequal lengths *)
Definition accum_row_mul (r : list A) (a b : A) (that : list A) : res (list A) :=
  if length r =? length that then
    map2M (fun x y => xa <- c_mul o x a ;; yb <- c_mul o y b ;; c_sub o xa yb) r that
  else Exn.
(* tvector.h:277-283: vector times scalar *)
Definition row_smul (r : list A) (s : A) : res (list A) := mapM (fun x => c_mul o x s) r.
(* tvector.h:257-264, 365-368: vector minus vector *)
Definition vrow_sub (r that : list A) : res (list A) :=
  if length r =? length that then map2M (c_sub o) r that else Exn.
Definition vrow_add (r that : list A) : res (list A) :=
  if length r =? length that then map2M (c_add o) r that else Exn.
(* tvector.h:460-468: find_leader_pos *)
Fixpoint find_leader (r : list A) (zero : A) (j : nat) : res (option nat) :=
  match r with
  | [] => Ok None
  | x :: t => ne <- c_neqb x zero ;; if (ne : bool) then Ok (Some j) else find_leader t zero (S j)
  end.
Definition find_leader_pos (r : list A) (zero : A) : res (option nat) := find_leader r zero 0.

(* a - a for a = rows[0][0], computed at the start of most methods *)
Definition get_zero (rows : list (list A)) : res A := a <- el rows 0 0 ;; c_sub o a a.

(* tmatrix.h:774-787: find_one (None: returns false).  The double loop visits the
   entries row by row and stops at the first non-zero one. *)
Fixpoint find_nz (l : list A) (zero : A) : res (option A) :=
  match l with
  | [] => Ok None
  | x :: t => ne <- c_neqb x zero ;; if (ne : bool) then Ok (Some x) else find_nz t zero
  end.
Definition find_one (rows : list (list A)) : res (option A) :=
  zero <- get_zero rows ;;
  x <- find_nz (concat rows) zero ;;
  match x with
  | Some a => one <- c_div o a a ;; Ok (Some one)
  | None => Ok None
  end.

(* tmatrix.h:823-829 *)
Definition is_square (m : tmat) : bool := t_nr m =? t_nc m.
(* tmatrix.h:792-810 *)
Definition mat_make_I (m : tmat) (zero one : A) : res tmat :=
  if is_square m then tab (t_nr m) (t_nc m) (fun i j => Ok (if i =? j then one else zero))
  else Exn.
(* tmatrix.h:813-820 *)
Definition mat_is_zero (m : tmat) : res bool :=
  f <- find_one (t_rows m) ;; Ok (match f with Some _ => false | None => true end).

(* loops that return false at the first failing test *)
Fixpoint forallM {B} (f : B -> res bool) (l : list B) : res bool :=
  match l with
  | [] => Ok true
  | x :: t => b <- f x ;; if (b : bool) then forallM f t else Ok false
  end.
(* tmatrix.h:832-861 *)
Definition mat_is_I (m : tmat) : res bool :=
  if is_square m then
    zero <- get_zero (t_rows m) ;;
    f <- find_one (t_rows m) ;;
    match f with
    | None => Ok false
    | Some one =>
        d <- forallM (fun i => x <- el (t_rows m) i i ;; c_eqb o x one) (seq 0 (t_nr m)) ;;
        if (d : bool) then
          forallM (fun i => forallM (fun j =>
            if i =? j then Ok true else x <- el (t_rows m) i j ;; c_eqb o x zero)
            (seq 0 (t_nc m))) (seq 0 (t_nr m))
        else Ok false
    end
  else Ok false.

(* tmatrix.h:864: swap via ptrswap (tvector.h:477-489, throws on unequal lengths) *)
Definition swaprows (rows : list (list A)) (a b : nat) : res (list (list A)) :=
  ra <- rowat rows a ;; rb <- rowat rows b ;;
  if length ra =? length rb then r1 <- setrow rows a rb ;; setrow r1 b ra else Exn.

(* tmatrix.h:927-943: the pivot search (while loop), without the swap.  n is the
   number of rows not yet looked at. *)
Fixpoint find_piv (n : nat) (rows : list (list A)) (zero : A) (left pr : nat) : res (option nat) :=
  match n with
  | O => Ok None
  | S n' =>
      x <- pel rows pr left ;; ne <- c_neqb x zero ;;
      if (ne : bool) then Ok (Some pr) else find_piv n' rows zero left (S pr)
  end.

(* tmatrix.h:961-972: clear the column below the pivot row; n rows remain *)
Fixpoint clear_below (n : nat) (rows : list (list A)) (s lead : A) (top left cur : nat)
  : res (list (list A) * A) :=
  match n with
  | O => Ok (rows, s)
  | S n' =>
      c <- pel rows cur left ;;
      r <- rowat rows cur ;; t <- rowat rows top ;;
      r' <- accum_row_mul r lead c t ;;
      rows' <- setrow rows cur r' ;;
      s' <- c_div o s lead ;;
      clear_below n' rows' s' lead top left (S cur)
  end.

(* tmatrix.h:920-976: the main loop.  left_column increases in every iteration, so
   num_cols - left_column bounds the number of iterations. *)
Fixpoint rr_loop (fuel : nat) (nc : nat) (zero one minus_one : A)
         (rows : list (list A)) (s : A) (top left : nat) : res (list (list A) * A) :=
  if (top <? length rows) && (left <? nc) then
    match fuel with
    | O => Div
    | S f =>
        p <- find_piv (length rows - top) rows zero left top ;;
        match p with
        | None => rr_loop f nc zero one minus_one rows s top (S left)
        | Some pr =>
            rs <- (if top =? pr then Ok (rows, s)
                   else rows' <- swaprows rows top pr ;; s' <- c_mul o s minus_one ;;
                        Ok (rows', s')) ;;
            let '(rows1, s1) := rs in
            lead <- pel rows1 top left ;;
            ne <- c_neqb lead zero ;;
            rs2 <- (if (ne : bool) then
                      inv <- c_div o one lead ;;
                      t <- rowat rows1 top ;;
                      t' <- mult_by t inv ;;
                      rows2 <- setrow rows1 top t' ;;
                      s2 <- c_mul o s1 lead ;;
                      lead' <- pel rows2 top left ;;
                      clear_below (length rows2 - S top) rows2 s2 lead' top left (S top)
                    else Ok (rows1, s1)) ;;
            let '(rows3, s3) := rs2 in
            rr_loop f nc zero one minus_one rows3 s3 (S top) (S left)
        end
    end
  else Ok (rows, s).

(* tmatrix.h:905-977 *)
Definition row_reduce_below_with_scalar (m : tmat) : res (tmat * A) :=
  zero <- get_zero (t_rows m) ;;
  f <- find_one (t_rows m) ;;
  match f with
  | None => Ok (m, zero)
  | Some one =>
      minus_one <- c_sub o zero one ;;
      '(rows, s) <- rr_loop (S (t_nc m)) (t_nc m) zero one minus_one (t_rows m) one 0 0 ;;
      Ok (mkmat rows (t_nc m), s)
  end.
(* tmatrix.h:982-985 *)
Definition row_reduce_below (m : tmat) : res tmat :=
  '(m', _) <- row_reduce_below_with_scalar m ;; Ok m'.

(* tmatrix.h:996-1009: the inner loop over row2 = row+1 ..; n rows remain *)
Fixpoint back_row (n : nat) (rows : list (list A)) (zero : A) (row row2 : nat)
  : res (list (list A)) :=
  match n with
  | O => Ok rows
  | S n' =>
      r2 <- rowat rows row2 ;;
      lp <- find_leader_pos r2 zero ;;
      match lp with
      | None => Ok rows
      | Some pos =>
          lv <- elt r2 pos ;;
          cv <- el rows row pos ;;
          z <- c_eqb o cv zero ;;
          if (z : bool) then back_row n' rows zero row (S row2)
          else
            mul <- c_div o cv lv ;;
            sc <- row_smul r2 mul ;;
            r <- rowat rows row ;;
            r' <- vrow_sub r sc ;;
            rows' <- setrow rows row r' ;;
            back_row n' rows' zero row (S row2)
      end
  end.
(* tmatrix.h:988-1010 *)
Definition row_echelon_form (m : tmat) : res tmat :=
  m1 <- row_reduce_below m ;;
  zero <- get_zero (t_rows m1) ;;
  rows <- foldM (fun rows row => back_row (length rows - S row) rows zero row (S row))
                (seq 0 (t_nr m1)) (t_rows m1) ;;
  Ok (mkmat rows (t_nc m1)).

(* tmatrix.h:1051-1068 *)
Definition get_rank_rr (m : tmat) : res nat :=
  zero <- get_zero (t_rows m) ;;
  foldM (fun rank r => l <- find_nz (firstn (t_nc m) r) zero ;;
                       Ok (match l with Some _ => S rank | None => rank end))
        (t_rows m) 0.
(* tmatrix.h:1043-1047 *)
Definition get_rank (m : tmat) : res nat := rr <- row_reduce_below m ;; get_rank_rr rr.

(* tmatrix.h:1012-1040: the rows kept are the first rank rows (num_rows is reset) *)
Definition get_rr_non_zero_rows (m : tmat) : res (option tmat) :=
  rr <- row_reduce_below m ;; rank <- get_rank_rr rr ;;
  if rank =? 0 then Ok None else Ok (Some (mkmat (firstn rank (t_rows rr)) (t_nc rr))).
Definition get_rech_non_zero_rows (m : tmat) : res (option tmat) :=
  rr <- row_echelon_form m ;; rank <- get_rank_rr rr ;;
  if rank =? 0 then Ok None else Ok (Some (mkmat (firstn rank (t_rows rr)) (t_nc rr))).

(* tmatrix.h:1097-1107: free_flags, then free_indices *)
Definition free_flags (rr : list (list A)) (nc rank : nat) (zero : A) : res (list bool) :=
  foldM (fun fl i => r <- rowat rr i ;; lp <- find_leader_pos r zero ;;
           match lp with
           | Some p => if p <? length fl then Ok (upd fl p false) else UB
           | None => Ok fl
           end) (seq 0 rank) (repeat true nc).
Definition free_indices (fl : list bool) : list nat :=
  filter (fun i => nth i fl false) (seq 0 (length fl)).
(* tmatrix.h:1113-1143: one basis row.  dep_pos persists between iterations. *)
Definition kernel_row (rr : list (list A)) (nc rank : nat) (zero one : A) (fi : nat) : res (list A) :=
  r0 <- setelt (repeat zero nc) fi one ;;
  foldM (fun b j =>
           x <- el rr j fi ;; z <- c_eqb o x zero ;;
           if (z : bool) then Ok b
           else
             r <- rowat rr j ;; lp <- find_leader_pos r zero ;;
             match lp with
             | Some dep => nx <- c_neg o x ;; setelt b dep nx
             | None => UB
             end) (seq 0 rank) r0.
(* tmatrix.h:1071-1170 (None: returns false).  In kernel_row a missing leader would
   reuse a stale dep_pos; the model makes that UB (the proof shows it never happens). *)
Definition get_kernel_basis (m : tmat) (zero one : A) : res (option tmat) :=
  rr <- row_echelon_form m ;;
  rank <- get_rank_rr rr ;;
  if t_nc rr <? rank then Exn else
  let dimker := t_nc rr - rank in
  if dimker =? 0 then Ok None
  else
    fl <- free_flags (t_rows rr) (t_nc m) rank zero ;;
    let fi := free_indices fl in
    rows <- mapM (fun i => match nth_error fi i with
                           | Some f => kernel_row (t_rows rr) (t_nc rr) rank zero one f
                           | None => UB
                           end) (seq 0 dimker) ;;
    Ok (Some (mkmat rows (t_nc rr))).

(* writes into a freshly constructed row, in order; dflt: default-constructed element *)
Fixpoint write_at (r : list A) (off : nat) (l : list A) : res (list A) :=
  match l with
  | [] => Ok r
  | x :: t => r' <- setelt r off x ;; write_at r' (S off) t
  end.
(* tmatrix.h:1301-1324.  Line 1320 uses num_rows, not num_cols, as the offset of
   the second block. *)
Definition mat_paste (dflt : A) (m that : tmat) : res tmat :=
  if t_nr m =? t_nr that then
    if (t_nr m =? 0) || (t_nc m + t_nc that =? 0) then Exn else
    rows <- map2M (fun r r' =>
              r1 <- write_at (repeat dflt (t_nc m + t_nc that)) 0 r ;;
              write_at r1 (t_nr m) r') (t_rows m) (t_rows that) ;;
    Ok (mkmat rows (t_nc m + t_nc that))
  else Exn.
(* tmatrix.h:1327-1348 *)
Definition paste_vector (m : tmat) (v : list A) : res tmat :=
  if t_nr m =? length v then
    if t_nr m =? 0 then Exn
    else Ok (mkmat (map (fun rx => fst rx ++ [snd rx]) (combine (t_rows m) v)) (S (t_nc m)))
  else Exn.
(* tmatrix.h:1351-1377 *)
Definition mat_split (m : tmat) (col : nat) : res (tmat * tmat) :=
  if t_nc m <=? col then Exn
  else
    l <- tab (t_nr m) col (fun i j => el (t_rows m) i j) ;;
    r <- tab (t_nr m) (t_nc m - col) (fun i j => el (t_rows m) i (col + j)) ;;
    Ok (l, r).

(* tmatrix.h:1380-1400.  Result: (returned value, rinv); rinv is unchanged when the
   matrix is zero. *)
Definition mat_inverse (dflt : A) (m : tmat) (rinv0 : tmat) : res (bool * tmat) :=
  zero <- get_zero (t_rows m) ;;
  if is_square m then
    f <- find_one (t_rows m) ;;
    match f with
    | None => Ok (false, rinv0)
    | Some one =>
        I <- mat_make_I m zero one ;;
        pair <- mat_paste dflt m I ;;
        pair' <- row_echelon_form pair ;;
        '(l, r) <- mat_split pair' (t_nc m) ;;
        b <- mat_is_I l ;; Ok (b, r)
    end
  else Exn.

(* tmatrix.h:1414-1427 *)
Definition mat_det (m : tmat) : res A :=
  if is_square m then
    '(rr, d) <- row_reduce_below_with_scalar m ;;
    foldM (fun d i => x <- el (t_rows rr) i i ;; c_mul o d x) (seq 0 (t_nr m)) d
  else Exn.

(* tmatrix.h:1265-1285 *)
Definition solve_unique_full_rank (m : tmat) (b : list A) : res (option (list A)) :=
  ab <- paste_vector m b ;;
  rr <- row_echelon_form ab ;;
  rank <- get_rank_rr rr ;;
  if rank =? t_nc m then
    if t_nc m =? 0 then Exn else
    x <- mapM (fun i => el (t_rows rr) i (t_nc m)) (seq 0 (t_nc m)) ;; Ok (Some x)
  else Ok None.
(* tmatrix.h:1239-1260 *)
Definition solve_unique (m : tmat) (b : list A) : res (option (list A)) :=
  if t_nr m <? t_nc m then Ok None
  else
    rank <- get_rank m ;;
    if rank =? t_nc m then solve_unique_full_rank m b else Ok None.

(* tmatrix.h:510-535: matrix times column vector *)
Definition mat_vec (m : tmat) (v : list A) : res (list A) :=
  if t_nc m =? length v then
    zero <- get_zero (t_rows m) ;;
    mapM (fun r => foldM (fun acc xy => p <- c_mul o (fst xy) (snd xy) ;; c_add o acc p)
                         (combine r v) zero) (t_rows m)
  else Exn.
(* tmatrix.h:610-639: matrix product *)
Definition mat_mul (m that : tmat) : res tmat :=
  if t_nc m =? t_nr that then
    zero <- get_zero (t_rows m) ;;
    tab (t_nr m) (t_nc that) (fun i j =>
      foldM (fun acc k => x <- el (t_rows m) i k ;; y <- el (t_rows that) k j ;;
                          p <- c_mul o x y ;; c_add o acc p) (seq 0 (t_nc m)) zero)
  else Exn.
(* tmatrix.h:433-443, 446-465, 468-476 *)
Definition mat_add (m that : tmat) : res tmat :=
  if (t_nr m =? t_nr that) && (t_nc m =? t_nc that) then
    tab (t_nr m) (t_nc m) (fun i j => x <- el (t_rows m) i j ;; y <- el (t_rows that) i j ;; c_add o x y)
  else Exn.
Definition mat_sub (m that : tmat) : res tmat :=
  if (t_nr m =? t_nr that) && (t_nc m =? t_nc that) then
    tab (t_nr m) (t_nc m) (fun i j => x <- el (t_rows m) i j ;; y <- el (t_rows that) i j ;; c_sub o x y)
  else Exn.
Definition mat_neg (m : tmat) : res tmat :=
  tab (t_nr m) (t_nc m) (fun i j => x <- el (t_rows m) i j ;; c_neg o x).
(* tmatrix.h:642-652 *)
Definition mat_smul (m : tmat) (e : A) : res tmat :=
  tab (t_nr m) (t_nc m) (fun i j => x <- el (t_rows m) i j ;; c_mul o x e).
(* tmatrix.h:704-712 *)
Definition mat_transpose (m : tmat) : res tmat :=
  tab (t_nc m) (t_nr m) (fun j i => el (t_rows m) i j).

(* tmatrix.h:538-552: posexp; state (power, a2, apower) *)
Definition posexp_step (s : Z * tmat * tmat) : res ((Z * tmat * tmat) + tmat) :=
  let '(e, a2, ap) := s in
  if (e =? 0)%Z then Ok (inr ap)
  else
    ap' <- (if Z.odd e then mat_mul ap a2 else Ok ap) ;;
    a2' <- mat_mul a2 a2 ;;
    Ok (inl ((u32 e / 2)%Z, a2', ap')).
Definition posexp (m : tmat) (e : Z) (I : tmat) : res tmat :=
  loop 34 posexp_step (e, m, I).
(* tmatrix.h:560-607 (None: returns 0).  `power == -power` is true only for 0,
   which was handled before; -INT_MIN overflows. *)
Definition mat_exp (dflt : A) (m : tmat) (e : Z) : res (option tmat) :=
  if is_square m then
    zero <- get_zero (t_rows m) ;;
    f <- find_one (t_rows m) ;;
    match f with
    | None => if (e <=? 0)%Z then Exn else Ok (Some m)
    | Some one =>
        I <- mat_make_I m zero one ;;
        if (e >=? 1)%Z then r <- posexp m e I ;; Ok (Some r)
        else
          '(b, ai) <- mat_inverse dflt m (mkmat [] 0) ;;
          if (b : bool) then
            if (e =? 0)%Z then Ok (Some I)
            else
              ne <- ineg e ;;
              if (e =? ne)%Z then Exn else r <- posexp ai ne I ;; Ok (Some r)
          else Ok None
    end
  else Exn.

End Mat.
Arguments tmat A : clear implicits.
