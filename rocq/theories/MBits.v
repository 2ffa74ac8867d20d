(* Model of spffl/bits/bit_t.h, bit_vector_t.{h,cpp} and bit_matrix_t.cpp.
   Definitions only.

   A bit vector holds a pointer to an array of 64-bit words (None: null pointer; the
   list is the whole allocation), num_words and num_bits.  Bit i lives in word i/64 at
   position 63 - i mod 64.  Values of type bit_t that stay inside these classes are
   built by the masking constructor, so they are bool here; bit_t itself, with its
   uint8_t residue, is modelled separately below.

   bit_vector_t::trim (bit_vector_t.cpp:410-418) shifts an int by 32 or more places for
   every num_bits that is not a multiple of 64, which is undefined.  The parameter tm
   says what that statement does: None follows the C++ standard (UB), Some m says that
   the shifts yield some unspecified mask m. *)
From Verif Require Import Base MIntMath MMisc MMat.
Open Scope nat_scope.

(* ---------------------------------------------------------------- bit_t *)
(* bit_t.h:27-31: the residue is a uint8_t. *)
Definition bt_of_int (e : Z) : Z := Z.land e 1.
(* bit_t.h:38-41: operator=(int) stores the int in a uint8_t without masking to one bit *)
Definition bt_assign_int (e : Z) : Z := (e mod 256)%Z.
(* bit_t.h:43-60 *)
Definition bt_add (a b : Z) : Z := Z.lxor a b.
Definition bt_sub (a b : Z) : Z := Z.lxor a b.
Definition bt_neg (a : Z) : Z := a.
Definition bt_mul (a b : Z) : Z := Z.land a b.
(* bit_t.h:63: returns *this whatever the power *)
Definition bt_exp (a : Z) (power : Z) : Z := a.
(* bit_t.h:65-81 *)
Definition bt_div (a b : Z) : res Z := if (b =? 0)%Z then Exn else Ok a.
Definition bt_mod (a b : Z) : res Z := if (b =? 0)%Z then Exn else Ok 0%Z.
(* bit_t.h:116-122 *)
Definition bt_eqb (a b : Z) : bool := (a =? b)%Z.
Definition bt_ops : cops Z :=
  mkcops (fun a b => Ok (bt_add a b)) (fun a b => Ok (bt_sub a b)) (fun a b => Ok (bt_mul a b))
         bt_div (fun a => Ok (bt_neg a)) (fun a b => Ok (bt_eqb a b)).

(* the same operations on bool, for bits held in vectors and matrices *)
Definition bit_ops : cops bool :=
  mkcops (fun a b => Ok (xorb a b)) (fun a b => Ok (xorb a b)) (fun a b => Ok (andb a b))
         (fun a b => if b then Ok a else Exn) (fun a => Ok a) (fun a b => Ok (Bool.eqb a b)).

(* ---------------------------------------------------------------- words *)
(* bit_vector_t.h:52-54 *)
Definition nwords (n : nat) : nat := (n + 63) / 64.
Definition rdw (ws : list N) (i : nat) : res N :=
  match nth_error ws i with Some w => Ok w | None => UB end.
Definition wrw (ws : list N) (i : nat) (w : N) : res (list N) :=
  if i <? length ws then Ok (upd ws i w) else UB.
(* bit_vector_t.h:23-29 *)
Definition wpos (i : nat) : N := N.of_nat (63 - i mod 64).
(* bit_vector_t.h:31-50 *)
Definition GET_BIT (ws : list N) (i : nat) : res N :=
  w <- rdw ws (i / 64) ;; Ok (N.land (N.shiftr w (wpos i)) 1).
Definition SET_BIT (ws : list N) (i : nat) : res (list N) :=
  w <- rdw ws (i / 64) ;; wrw ws (i / 64) (N.lor w (N.shiftl 1 (wpos i))).
Definition CLEAR_BIT (ws : list N) (i : nat) : res (list N) :=
  w <- rdw ws (i / 64) ;; wrw ws (i / 64) (N.land w (N.lxor (N.ones 64) (N.shiftl 1 (wpos i)))).
Definition TOGGLE_BIT (ws : list N) (i : nat) : res (list N) :=
  w <- rdw ws (i / 64) ;; wrw ws (i / 64) (N.lxor w (N.shiftl 1 (wpos i))).
(* for (i = 0; i < nw; i++) words[i] = f(i, words[i]) *)
Definition wloop (f : nat -> N -> res N) (nw : nat) (ws : list N) : res (list N) :=
  foldM (fun d i => x <- rdw d i ;; w <- f i x ;; wrw d i w) (seq 0 nw) ws.

(* ---------------------------------------------------------------- bit_vector_t *)
Record bvec := mkbv { bv_ptr : option (list N); bv_nw : nat; bv_n : nat }.
Definition deref (v : bvec) : res (list N) :=
  match bv_ptr v with Some ws => Ok ws | None => UB end.

(* bit_vector_t.cpp:16-20 *)
Definition bv_null : bvec := mkbv None 0 0.
(* bit_vector_t.cpp:23-35 *)
Definition bv_new (n : nat) : res bvec :=
  if n =? 0 then Exn else Ok (mkbv (Some (repeat 0%N (nwords n))) (nwords n) n).
(* bit_vector_t.cpp:410-418: the mask expression is UB whenever it is evaluated *)
Definition bv_trim (tm : option N) (v : bvec) : res bvec :=
  if bv_nw v * 64 =? bv_n v then Ok v
  else
    ws <- deref v ;;
    match tm with
    | None => UB
    | Some m =>
        w <- rdw ws (bv_nw v - 1) ;; ws' <- wrw ws (bv_nw v - 1) (N.land w m) ;;
        Ok (mkbv (Some ws') (bv_nw v) (bv_n v))
    end.
Definition fill_word (b : bool) : N := if b then N.ones 64 else 0%N.
(* bit_vector_t.cpp:38-57, 60-79 *)
Definition bv_fill (tm : option N) (b : bool) (n : nat) : res bvec :=
  if n =? 0 then Exn
  else bv_trim tm (mkbv (Some (repeat (fill_word b) (nwords n))) (nwords n) n).
(* bit_vector_t.cpp:82-87.  memcpy from a null pointer is UB. *)
Definition bv_copy (v : bvec) : res bvec :=
  ws <- deref v ;;
  if bv_nw v <=? length ws then Ok (mkbv (Some (firstn (bv_nw v) ws)) (bv_nw v) (bv_n v)) else UB.
(* bit_vector_t.cpp:100-111.  num_words is overwritten before the comparison at line
   105, so an existing allocation is never enlarged: memcpy overruns it. *)
Definition bv_assign (this that : bvec) : res bvec :=
  match bv_ptr this with
  | None => bv_copy that
  | Some ws0 =>
      ws <- deref that ;;
      if (bv_nw that <=? length ws) && (bv_nw that <=? length ws0) then
        Ok (mkbv (Some (firstn (bv_nw that) ws ++ skipn (bv_nw that) ws0)) (bv_nw that) (bv_n that))
      else UB
  end.
(* bit_vector_t.cpp:114-135 *)
Definition bv_assign_bit (tm : option N) (this : bvec) (b : bool) : res bvec :=
  match bv_ptr this with
  | Some ws =>
      ws' <- wloop (fun _ _ => Ok (fill_word b)) (bv_nw this) ws ;;
      bv_trim tm (mkbv (Some ws') (bv_nw this) (bv_n this))
  | None => bv_trim tm (mkbv (Some [if b then N.shiftl 1 (wpos 0) else 0%N]) 1 1)
  end.

(* bit_vector_t.h:83-95, bit_vector_t.cpp:421-428 *)
Definition bv_in (v : bvec) (i : Z) : bool := (0 <=? i)%Z && (i <? Z.of_nat (bv_n v))%Z.
Definition bv_get (v : bvec) (i : Z) : res bool :=
  if bv_in v i then
    ws <- deref v ;; b <- GET_BIT ws (Z.to_nat i) ;; Ok (N.odd b)
  else Exn.
(* bit_vector_t.h:97-118 *)
Definition bv_set (v : bvec) (i : Z) (b : bool) : res bvec :=
  if bv_in v i then
    ws <- deref v ;;
    ws' <- (if b then SET_BIT ws (Z.to_nat i) else CLEAR_BIT ws (Z.to_nat i)) ;;
    Ok (mkbv (Some ws') (bv_nw v) (bv_n v))
  else Exn.
(* bit_vector_t.cpp:230-235 *)
Definition bv_toggle (v : bvec) (i : Z) : res bvec :=
  if bv_in v i then
    ws <- deref v ;; ws' <- TOGGLE_BIT ws (Z.to_nat i) ;;
    Ok (mkbv (Some ws') (bv_nw v) (bv_n v))
  else Exn.

(* loops that return at the first word passing a test *)
Fixpoint find_word (nw : nat) (ws : list N) (i : nat) : res (option (nat * N)) :=
  match nw with
  | O => Ok None
  | S k => w <- rdw ws i ;; if (w =? 0)%N then find_word k ws (S i) else Ok (Some (i, w))
  end.
(* a loop over no words does not touch the pointer *)
Definition words_of (v : bvec) : list N := match bv_ptr v with Some ws => ws | None => [] end.
(* bit_vector_t.cpp:238-245 *)
Definition bv_is_zero (v : bvec) : res bool :=
  r <- find_word (bv_nw v) (words_of v) 0 ;; Ok (match r with None => true | Some _ => false end).
(* bit_vector_t.cpp:374-383 *)
Definition bv_find_leader_pos (v : bvec) : res (option nat) :=
  r <- find_word (bv_nw v) (words_of v) 0 ;;
  match r with
  | None => Ok None
  | Some (i, w) => msb <- find_msb_64 (Z.of_N w) ;; Ok (Some (Z.to_nat (63 - msb) + i * 64))
  end.

(* words of this combined with words of that *)
Definition wcomb (f : N -> N -> N) (nw : nat) (a b d : list N) : res (list N) :=
  wloop (fun i _ => x <- rdw a i ;; y <- rdw b i ;; Ok (f x y)) nw d.
Definition bv_comb (f : N -> N -> N) (v u : bvec) : res bvec :=
  if bv_n v =? bv_n u then
    rv <- bv_new (bv_n v) ;;
    d <- deref rv ;; ws <- wcomb f (bv_nw v) (words_of v) (words_of u) d ;;
    Ok (mkbv (Some ws) (bv_nw rv) (bv_n rv))
  else Exn.
(* bit_vector_t.cpp:248-255, 258-265, 283-290 *)
Definition bv_add : bvec -> bvec -> res bvec := bv_comb N.lxor.
Definition bv_sub : bvec -> bvec -> res bvec := bv_comb N.lxor.
Definition bv_mul : bvec -> bvec -> res bvec := bv_comb N.land.
(* bit_vector_t.cpp:268-274 *)
Definition bv_scale (v : bvec) (s : bool) : res bvec :=
  c <- bv_copy v ;;
  if s then Ok c
  else ws <- deref c ;; ws' <- wloop (fun _ _ => Ok 0%N) (bv_nw c) ws ;;
       Ok (mkbv (Some ws') (bv_nw c) (bv_n c)).
(* the 8 bytes of a word, as read through an unsigned char pointer *)
Definition bytes64 (w : N) : list Z :=
  map (fun k => Z.of_N (N.land (N.shiftr w (8 * N.of_nat k)) 255)) (seq 0 8).
(* bit_vector_t.cpp:293-304 *)
Definition bv_dot (v u : bvec) : res bool :=
  if bv_n v =? bv_n u then
    accum <- foldM (fun acc i => x <- rdw (words_of v) i ;; y <- rdw (words_of u) i ;;
                                 Ok (N.lxor acc (N.land x y))) (seq 0 (bv_nw v)) 0%N ;;
    c <- count_one_bits (bytes64 accum) 8 ;; Ok (Z.odd c)
  else Exn.
(* bit_vector_t.cpp:307-318: += and -= do not compare the lengths *)
Definition bv_xor_in (v u : bvec) : res bvec :=
  ws <- wcomb N.lxor (bv_nw v) (words_of v) (words_of u) (words_of v) ;;
  Ok (mkbv (match bv_ptr v with Some _ => Some ws | None => None end) (bv_nw v) (bv_n v)).
(* bit_vector_t.cpp:327-333 *)
Definition bv_and_in (v u : bvec) : res bvec :=
  if bv_n v =? bv_n u then
    ws <- wcomb N.land (bv_nw v) (words_of v) (words_of u) (words_of v) ;;
    Ok (mkbv (match bv_ptr v with Some _ => Some ws | None => None end) (bv_nw v) (bv_n v))
  else Exn.
(* bit_vector_t.cpp:436-443 *)
Definition bv_accum_row (v u : bvec) : res bvec :=
  if bv_n v =? bv_n u then bv_xor_in v u else Exn.
(* bit_vector_t.cpp:336-346: the loop stops before the last word *)
Definition bv_eq (v u : bvec) : res bool :=
  if bv_n v =? bv_n u then
    forallM (fun i => x <- rdw (words_of v) i ;; y <- rdw (words_of u) i ;; Ok (x =? y)%N)
            (seq 0 (bv_nw v - 1))
  else Ok false.
(* bit_vector_t.cpp:354-365 *)
Definition bv_eq_bit (v : bvec) (b : bool) : res bool :=
  forallM (fun i => x <- rdw (words_of v) i ;; Ok (x =? fill_word b)%N) (seq 0 (bv_nw v - 1)).
(* bit_vector_t.cpp:386-393: only the pointers are exchanged *)
Definition bv_ptrswap (v u : bvec) : res (bvec * bvec) :=
  if bv_n v =? bv_n u then
    Ok (mkbv (bv_ptr u) (bv_nw v) (bv_n v), mkbv (bv_ptr v) (bv_nw u) (bv_n u))
  else Exn.

(* ---------------------------------------------------------------- bit_matrix_t *)
(* rows: the array of row objects; num_rows is its length *)
Record bmat := mkbm { bm_rows : list bvec; bm_nc : nat }.
Definition bm_nr (m : bmat) : nat := length (bm_rows m).
(* rows[i]: raw array access *)
Definition brow (rows : list bvec) (i : nat) : res bvec :=
  match nth_error rows i with Some r => Ok r | None => UB end.
Definition bsetrow (rows : list bvec) (i : nat) (r : bvec) : res (list bvec) :=
  if i <? length rows then Ok (upd rows i r) else UB.
(* rows[i].get(j), rows[i].set(j, b) *)
Definition bm_get (rows : list bvec) (i j : nat) : res bool :=
  r <- brow rows i ;; bv_get r (Z.of_nat j).
Definition bm_set (rows : list bvec) (i j : nat) (b : bool) : res (list bvec) :=
  r <- brow rows i ;; r' <- bv_set r (Z.of_nat j) b ;; bsetrow rows i r'.
(* ptrs[i] with GET_BIT, unchecked.  The array ptrs filled by expose() is swapped
   together with the row pointers, so ptrs[i] is always rows[i].words. *)
Definition bm_pget (rows : list bvec) (i j : nat) : res bool :=
  r <- brow rows i ;; ws <- deref r ;; b <- GET_BIT ws j ;; Ok (negb (b =? 0)%N).

(* bit_matrix_t.cpp:16-31 *)
Definition bm_new (nr nc : nat) : res bmat :=
  if (nr =? 0) || (nc =? 0) then Exn
  else rows <- mapM (fun _ => v <- bv_new nc ;; bv_assign bv_null v) (seq 0 nr) ;; Ok (mkbm rows nc).
(* bit_matrix_t.cpp:34-65 *)
Definition bm_fill (tm : option N) (b : bool) (nr nc : nat) : res bmat :=
  if (nr =? 0) || (nc =? 0) then Exn
  else rows <- mapM (fun _ => v <- bv_fill tm b nc ;; bv_assign bv_null v) (seq 0 nr) ;; Ok (mkbm rows nc).
(* bit_matrix_t.cpp:67-80 *)
Definition bm_null : bmat := mkbm [] 0.
Definition bm_copy (m : bmat) : res bmat :=
  rows <- mapM (bv_assign bv_null) (bm_rows m) ;; Ok (mkbm rows (bm_nc m)).
(* bit_matrix_t.cpp:138-157 *)
Definition bm_assign (this that : bmat) : res bmat :=
  if (bm_nr this =? bm_nr that) && (bm_nc this =? bm_nc that) then
    rows <- map2M bv_assign (bm_rows this) (bm_rows that) ;; Ok (mkbm rows (bm_nc that))
  else
    rows <- mapM (fun r => v <- bv_new (bm_nc that) ;; v0 <- bv_assign bv_null v ;; bv_assign v0 r)
                 (bm_rows that) ;;
    Ok (mkbm rows (bm_nc that)).
(* bit_matrix_t.cpp:160-168 *)
Definition bm_eq (m that : bmat) : res bool :=
  if (bm_nr m =? bm_nr that) && (bm_nc m =? bm_nc that) then
    forallM (fun i => r <- brow (bm_rows m) i ;; r' <- brow (bm_rows that) i ;; bv_eq r r')
            (seq 0 (bm_nr m))
  else Exn.

(* bit_matrix_t.cpp:304-311, 314-328: rv[i] = rows[i] + that.rows[i] *)
Definition bm_add (m that : bmat) : res bmat :=
  if (bm_nr m =? bm_nr that) && (bm_nc m =? bm_nc that) then
    rv <- bm_new (bm_nr m) (bm_nc m) ;;
    rows <- foldM (fun rows i => r <- brow (bm_rows m) i ;; r' <- brow (bm_rows that) i ;;
                     s <- bv_add r r' ;; d <- brow rows i ;; d' <- bv_assign d s ;; bsetrow rows i d')
                  (seq 0 (bm_nr m)) (bm_rows rv) ;;
    Ok (mkbm rows (bm_nc rv))
  else Exn.
(* bit_matrix_t.cpp:336-365: plus or minus a scalar matrix *)
Definition bm_add_bit (m : bmat) (b : bool) : res bmat :=
  if bm_nr m =? bm_nc m then
    rv <- bm_copy m ;;
    if b then
      rows <- foldM (fun rows i => r <- brow rows i ;; r' <- bv_toggle r (Z.of_nat i) ;; bsetrow rows i r')
                    (seq 0 (bm_nr m)) (bm_rows rv) ;;
      Ok (mkbm rows (bm_nc rv))
    else Ok rv
  else Exn.
(* bit_matrix_t.cpp:368-389 *)
Definition bm_mul_vec (tm : option N) (m : bmat) (v : bvec) : res bvec :=
  if bm_nc m =? bv_n v then
    rv <- bv_fill tm false (bm_nr m) ;;
    foldM (fun rv i => foldM (fun rv j =>
             x <- bv_get rv (Z.of_nat i) ;; a <- bm_get (bm_rows m) i j ;; y <- bv_get v (Z.of_nat j) ;;
             bv_set rv (Z.of_nat i) (xorb x (andb a y))) (seq 0 (bm_nc m)) rv)
          (seq 0 (bm_nr m)) rv
  else Exn.
(* bit_matrix_t.cpp:512-520 *)
Definition bm_transpose (m : bmat) : res bmat :=
  rv <- bm_new (bm_nc m) (bm_nr m) ;;
  rows <- foldM (fun rows i => foldM (fun rows j =>
             x <- bm_get (bm_rows m) i j ;; bm_set rows j i x) (seq 0 (bm_nc m)) rows)
          (seq 0 (bm_nr m)) (bm_rows rv) ;;
  Ok (mkbm rows (bm_nc rv)).
(* bit_matrix_t.cpp:444-469 *)
Definition bm_mul (tm : option N) (m that : bmat) : res bmat :=
  if bm_nc m =? bm_nr that then
    rv <- bm_fill tm false (bm_nr m) (bm_nc that) ;;
    thatt <- bm_transpose that ;;
    rows <- foldM (fun rows i => foldM (fun rows j =>
               r <- brow (bm_rows m) i ;; c <- brow (bm_rows thatt) j ;; d <- bv_dot r c ;;
               if (d : bool) then bm_set rows i j true else Ok rows) (seq 0 (bm_nr thatt)) rows)
            (seq 0 (bm_nr m)) (bm_rows rv) ;;
    Ok (mkbm rows (bm_nc rv))
  else Exn.

(* bit_matrix_t.cpp:525-543 *)
Definition bm_make_I (m : bmat) : res bmat :=
  if bm_nr m =? bm_nc m then
    rv <- bm_copy m ;;
    rows <- foldM (fun rows i => foldM (fun rows j => bm_set rows i j (i =? j)) (seq 0 (bm_nc m)) rows)
                  (seq 0 (bm_nr m)) (bm_rows rv) ;;
    Ok (mkbm rows (bm_nc rv))
  else Exn.
(* bit_matrix_t.cpp:546-553 *)
Definition bm_is_zero (m : bmat) : res bool := forallM bv_is_zero (bm_rows m).
(* bit_matrix_t.cpp:565-590 *)
Definition bm_is_I (m : bmat) : res bool :=
  if bm_nr m =? bm_nc m then
    d <- forallM (fun i => bm_get (bm_rows m) i i) (seq 0 (bm_nr m)) ;;
    if (d : bool) then
      forallM (fun i => forallM (fun j => if i =? j then Ok true
                 else x <- bm_get (bm_rows m) i j ;; Ok (negb x)) (seq 0 (bm_nc m))) (seq 0 (bm_nr m))
    else Ok false
  else Ok false.

(* bit_matrix_t.cpp:602-604 *)
Definition bm_swap (rows : list bvec) (a b : nat) : res (list bvec) :=
  ra <- brow rows a ;; rb <- brow rows b ;;
  '(ra', rb') <- bv_ptrswap ra rb ;;
  r1 <- bsetrow rows a ra' ;; bsetrow r1 b rb'.
(* bit_matrix_t.cpp:658-678: pivot search *)
Fixpoint bm_find_piv (n : nat) (rows : list bvec) (left pr : nat) : res (option nat) :=
  match n with
  | O => Ok None
  | S n' => x <- bm_pget rows pr left ;;
            if (x : bool) then Ok (Some pr) else bm_find_piv n' rows left (S pr)
  end.
(* bit_matrix_t.cpp:687-693 *)
Fixpoint bm_clear (n : nat) (rows : list bvec) (top left cur : nat) : res (list bvec) :=
  match n with
  | O => Ok rows
  | S n' =>
      c <- bm_pget rows cur left ;;
      rows' <- (if (c : bool) then r <- brow rows cur ;; t <- brow rows top ;;
                                   r' <- bv_accum_row r t ;; bsetrow rows cur r'
                else Ok rows) ;;
      bm_clear n' rows' top left (S cur)
  end.
(* bit_matrix_t.cpp:650-696: the main loop.  In the last row no pivot is searched for. *)
Fixpoint bm_rr_loop (fuel : nat) (nc : nat) (rows : list bvec) (top left : nat) : res (list bvec) :=
  if (top <? length rows) && (left <? nc) then
    match fuel with
    | O => Div
    | S f =>
        p <- (if top <? length rows - 1 then bm_find_piv (length rows - top) rows left top
              else Ok (Some top)) ;;
        match p with
        | None => bm_rr_loop f nc rows top (S left)
        | Some pr =>
            rows1 <- (if top =? pr then Ok rows else bm_swap rows top pr) ;;
            lead <- bm_pget rows1 top left ;;
            rows2 <- (if (lead : bool) then bm_clear (length rows1 - S top) rows1 top left (S top)
                      else Ok rows1) ;;
            bm_rr_loop f nc rows2 (S top) (S left)
        end
    end
  else Ok rows.
(* bit_matrix_t.cpp:644-697: the scalar is set to 1 and never changed *)
Definition bm_rr_scalar (m : bmat) : res (bmat * bool) :=
  rows <- bm_rr_loop (S (bm_nc m)) (bm_nc m) (bm_rows m) 0 0 ;; Ok (mkbm rows (bm_nc m), true).
(* bit_matrix_t.cpp:703-706 *)
Definition bm_rr (m : bmat) : res bmat := '(m', _) <- bm_rr_scalar m ;; Ok m'.
(* bit_matrix_t.cpp:718-731: rows row2 = row+1 .. *)
Fixpoint bm_back_row (n : nat) (rows : list bvec) (row row2 : nat) : res (list bvec) :=
  match n with
  | O => Ok rows
  | S n' =>
      r2 <- brow rows row2 ;;
      lp <- bv_find_leader_pos r2 ;;
      match lp with
      | None => Ok rows
      | Some pos =>
          lv <- bv_get r2 (Z.of_nat pos) ;;
          cv <- bm_get rows row pos ;;
          if (cv : bool) then
            mul <- c_div bit_ops cv lv ;;
            sc <- bv_scale r2 mul ;;
            r <- brow rows row ;;
            r' <- bv_xor_in r sc ;;
            rows' <- bsetrow rows row r' ;;
            bm_back_row n' rows' row (S row2)
          else bm_back_row n' rows row (S row2)
      end
  end.
(* bit_matrix_t.cpp:711-732 *)
Definition bm_rech (m : bmat) : res bmat :=
  m1 <- bm_rr m ;;
  rows <- foldM (fun rows row => bm_back_row (length rows - S row) rows row (S row))
                (seq 0 (bm_nr m1)) (bm_rows m1) ;;
  Ok (mkbm rows (bm_nc m1)).
(* bit_matrix_t.cpp:745-755: stops at the first zero row *)
Fixpoint bm_rank_rows (rows : list bvec) (rank : nat) : res nat :=
  match rows with
  | [] => Ok rank
  | r :: t => z <- bv_is_zero r ;; if (z : bool) then Ok rank else bm_rank_rows t (S rank)
  end.
Definition bm_rank_rr (m : bmat) : res nat := bm_rank_rows (bm_rows m) 0.
(* bit_matrix_t.cpp:737-741 *)
Definition bm_rank (m : bmat) : res nat := c <- bm_copy m ;; rr <- bm_rr c ;; bm_rank_rr rr.

(* bit_matrix_t.cpp:775-791 *)
Definition bm_free_flags (rr : list bvec) (nc rank : nat) : res (list bool) :=
  foldM (fun fl i => r <- brow rr i ;; lp <- bv_find_leader_pos r ;;
           match lp with
           | Some p => if p <? length fl then Ok (upd fl p false) else UB
           | None => Ok fl
           end) (seq 0 rank) (repeat true nc).
(* bit_matrix_t.cpp:797-825: one basis row, starting from a row of basis *)
Definition bm_kernel_row (rr : list bvec) (rank : nat) (r : bvec) (fi : nat) : res bvec :=
  r0 <- bv_set r (Z.of_nat fi) true ;;
  foldM (fun b j =>
           x <- bm_get rr j fi ;;
           if (x : bool) then
             r <- brow rr j ;; lp <- bv_find_leader_pos r ;;
             match lp with
             | Some dep => x' <- bm_get rr j fi ;; bv_set b (Z.of_nat dep) x'
             | None => UB
             end
           else Ok b) (seq 0 rank) r0.
(* bit_matrix_t.cpp:758-833.  Result: None = returns false; rbas is assigned at the end *)
Definition bm_kernel (tm : option N) (m rbas : bmat) : res (option bmat) :=
  c <- bm_copy m ;;
  rr <- bm_rech c ;;
  rank <- bm_rank_rr rr ;;
  let dimker := bm_nc rr - rank in
  if dimker =? 0 then Ok None
  else
    basis <- bm_fill tm false dimker (bm_nc rr) ;;
    fl <- bm_free_flags (bm_rows rr) (bm_nc m) rank ;;
    let fi := free_indices fl in
    rows <- mapM (fun i => b <- brow (bm_rows basis) i ;;
                           match nth_error fi i with
                           | Some f => bm_kernel_row (bm_rows rr) rank b f
                           | None => UB
                           end) (seq 0 dimker) ;;
    out <- bm_assign rbas (mkbm rows (bm_nc basis)) ;;
    Ok (Some out).

(* bit_matrix_t.cpp:859-880.  The row assignment at line 870 also replaces the row's
   num_bits by this->num_cols; line 874 offsets by num_rows. *)
Definition bm_paste (m that : bmat) : res bmat :=
  if bm_nr m =? bm_nr that then
    rv <- bm_new (bm_nr m) (bm_nc m + bm_nc that) ;;
    rows1 <- map2M bv_assign (bm_rows rv) (bm_rows m) ;;
    rows2 <- foldM (fun rows i => foldM (fun rows j =>
               x <- bm_get (bm_rows that) i j ;; bm_set rows i (bm_nr m + j) x)
             (seq 0 (bm_nc that)) rows) (seq 0 (bm_nr m)) rows1 ;;
    Ok (mkbm rows2 (bm_nc rv))
  else Exn.
(* bit_matrix_t.cpp:883-908 *)
Definition bm_split (m : bmat) (col : nat) : res (bmat * bmat) :=
  if bm_nc m <=? col then Exn
  else
    l <- bm_new (bm_nr m) col ;; r <- bm_new (bm_nr m) (bm_nc m - col) ;;
    lr <- foldM (fun rows i => foldM (fun rows j => x <- bm_get (bm_rows m) i j ;; bm_set rows i j x)
             (seq 0 col) rows) (seq 0 (bm_nr m)) (bm_rows l) ;;
    rr <- foldM (fun rows i => foldM (fun rows j => x <- bm_get (bm_rows m) i (col + j) ;; bm_set rows i j x)
             (seq 0 (bm_nc m - col)) rows) (seq 0 (bm_nr m)) (bm_rows r) ;;
    Ok (mkbm lr (bm_nc l), mkbm rr (bm_nc r)).
(* bit_matrix_t.cpp:911-924 *)
Definition bm_inverse (m : bmat) : res (bool * bmat) :=
  if bm_nr m =? bm_nc m then
    I <- bm_make_I m ;;
    pair <- bm_paste m I ;;
    pair' <- bm_rech pair ;;
    '(l, r) <- bm_split pair' (bm_nc m) ;;
    b <- bm_is_I l ;; Ok (b, r)
  else Exn.
(* bit_matrix_t.cpp:938-954 *)
Definition bm_det (m : bmat) : res bool :=
  if bm_nr m =? bm_nc m then
    c <- bm_copy m ;;
    '(rr, d) <- bm_rr_scalar c ;;
    forallM (fun i => bm_get (bm_rows rr) i i) (seq 0 (bm_nr m))
  else Exn.

(* bit_matrix_t.cpp:394-406: state (power, a2, apower) *)
Definition bm_posexp_step (tm : option N) (s : Z * bmat * bmat) : res ((Z * bmat * bmat) + bmat) :=
  let '(e, a2, ap) := s in
  if (e =? 0)%Z then Ok (inr ap)
  else
    ap' <- (if Z.odd e then p <- bm_mul tm ap a2 ;; bm_assign ap p else Ok ap) ;;
    q <- bm_mul tm a2 a2 ;; a2' <- bm_assign a2 q ;;
    Ok (inl ((e mod 18446744073709551616 / 2)%Z, a2', ap')).
Definition bm_posexp (tm : option N) (m : bmat) (e : Z) (I : bmat) : res bmat :=
  a2 <- bm_copy m ;; ap <- bm_copy I ;; loop 34 (bm_posexp_step tm) (e, a2, ap).
(* bit_matrix_t.cpp:413-441 (None: returns 0) *)
Definition bm_exp (tm : option N) (m : bmat) (e : Z) : res (option bmat) :=
  if bm_nr m =? bm_nc m then
    I <- bm_make_I m ;;
    if (e >=? 1)%Z then r <- bm_posexp tm m e I ;; Ok (Some r)
    else
      '(b, ai) <- bm_inverse m ;;
      if (b : bool) then
        if (e =? 0)%Z then Ok (Some I)
        else ne <- ineg e ;; if (e =? ne)%Z then Exn else r <- bm_posexp tm ai ne I ;; Ok (Some r)
      else Ok None
  else Exn.
(* bit_matrix_t.cpp:499-509: rv is default-constructed, so rv[i] is out of range *)
Definition bm_outer (u v : bvec) : res bmat :=
  rows <- foldM (fun rows i => foldM (fun rows j =>
             x <- bv_get u (Z.of_nat i) ;; y <- bv_get v (Z.of_nat j) ;;
             if i <? length rows then bm_set rows i j (andb x y) else Exn)
          (seq 0 (bv_n v)) rows) (seq 0 (bv_n u)) (bm_rows bm_null) ;;
  Ok (mkbm rows 0).
