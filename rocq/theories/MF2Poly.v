(* Model of spffl/polynomials/f2_poly_t.{h,cpp} (GF(2)[x], little-endian arrays of 64-bit
   words) and f2_polymod_t.cpp.  Definitions only.

   Simplification: sizes, degrees and bit positions are unbounded (nat, or Z where the
   sign matters); the C++ code keeps degrees in an int, so the model speaks about
   polynomials of degree below 2^31 (256 MB of words). *)
From Verif Require Import Base MIntMath MMisc MMat MBits.
Open Scope nat_scope.

(* f2_poly_t.h:105: std::vector<uint64_t> parts *)
Definition fpoly := list N.

(* for (i = n - 1; i >= 0; i--) body *)
Fixpoint for_down {S : Type} (n : nat) (body : nat -> S -> res S) (s : S) : res S :=
  match n with
  | O => Ok s
  | Datatypes.S i => s' <- body i s ;; for_down i body s'
  end.

(* uint64_t << k, for k < 64 *)
Definition shl64 (w k : N) : N := N.land (N.shiftl w k) (N.ones 64).
(* access at a signed index *)
Definition wrz (ws : list N) (i : Z) (w : N) : res (list N) :=
  if (i <? 0)%Z then UB else wrw ws (Z.to_nat i) w.

(* f2_poly_t.cpp:27-44 *)
Definition f2_zero : fpoly := [0%N].
Definition bitZ (c : Z) : N := Z.to_N (Z.land c 1).
Definition f2_of_int (c0 : Z) : fpoly := [bitZ c0].
Definition f2_of_int2 (c1 c0 : Z) : fpoly := [N.lor (N.shiftl (bitZ c1) 1) (bitZ c0)].
Definition f2_of_int3 (c2 c1 c0 : Z) : fpoly :=
  [N.lor (N.lor (N.shiftl (bitZ c2) 2) (N.shiftl (bitZ c1) 1)) (bitZ c0)].
(* f2_poly_t.cpp:61-65 *)
Definition f2_from_base_rep (b : N) : fpoly := [b].
(* f2_poly_t.cpp:82-84, 96-99 *)
Definition f2_prime_subfield_element (v : Z) : fpoly := f2_of_int v.
Definition f2_assign_int (v : Z) : fpoly := f2_of_int v.

(* f2_poly_t.cpp:422-423: the highest non-zero word *)
Fixpoint top_word (l : fpoly) (n : nat) : option (nat * N) :=
  match n with
  | O => None
  | S i => let w := nth i l 0%N in if (w =? 0)%N then top_word l i else Some (i, w)
  end.
(* f2_poly_t.cpp:421-429 *)
Definition f2_degree (l : fpoly) : res nat :=
  match top_word l (length l) with
  | None => Ok 0
  | Some (i, w) => m <- find_msb_64 (Z.of_N w) ;; Ok (Z.to_nat m + i * 64)
  end.

(* f2_poly_t.cpp:787-789 (std::vector::resize) *)
Definition extend_parts (l : fpoly) (n : nat) : fpoly := firstn n l ++ repeat 0%N (n - length l).
(* f2_poly_t.cpp:790-796 *)
Definition trim_parts (l : fpoly) : res fpoly :=
  d <- f2_degree l ;;
  let n := d / 64 + 1 in
  Ok (if n <? length l then extend_parts l n else l).

(* f2_poly_t.cpp:106-122 *)
Fixpoint xor_parts (a b : fpoly) : fpoly :=
  match a, b with
  | [], _ => b
  | _, [] => a
  | x :: a', y :: b' => N.lxor x y :: xor_parts a' b'
  end.
(* f2_poly_t.cpp:102-134 *)
Definition f2_add (a b : fpoly) : res fpoly := trim_parts (xor_parts a b).
Definition f2_sub (a b : fpoly) : res fpoly := f2_add a b.
Definition f2_neg (a : fpoly) : fpoly := a.

(* f2_poly_t.cpp:700-708, 710-719: both shift by a constant below 64 *)
Definition promote_k (k : N) (l : fpoly) : res fpoly :=
  w <- rdw l (length l - 1) ;;
  let l1 := if (N.shiftr w (64 - k) =? 0)%N then l else extend_parts l (length l + 1) in
  l2 <- for_down (length l1 - 1)
          (fun i l => x <- rdw l (S i) ;; y <- rdw l i ;;
                      wrw l (S i) (N.lor (shl64 x k) (N.shiftr y (64 - k)))) l1 ;;
  x <- rdw l2 0 ;; wrw l2 0 (shl64 x k).
Definition promote_4 (l : fpoly) : res fpoly := promote_k 4 l.
Definition promote_1 (l : fpoly) : res fpoly := promote_k 1 l.

(* f2_poly_t.cpp:721-732 *)
Definition demote_1 (l : fpoly) : res fpoly :=
  if length l =? 0 then UB
  else
    l1 <- for_up (length l - 1) 0
            (fun i l => x <- rdw l i ;; y <- rdw l (S i) ;;
                        wrw l i (N.lor (N.shiftr x 1) (shl64 y 63))) l ;;
    x <- rdw l1 (length l1 - 1) ;;
    l2 <- wrw l1 (length l1 - 1) (N.shiftr x 1) ;;
    if (N.shiftr x 1 =? 0)%N then trim_parts l2 else Ok l2.

(* f2_poly_t.cpp:643-686 *)
Definition promote_n (l : fpoly) (shamt : nat) : res fpoly :=
  let num_parts_shift := shamt / 64 in
  let num_bits_shift := shamt mod 64 in
  let nb := N.of_nat num_bits_shift in
  let cb := (64 - nb)%N in
  odeg <- f2_degree l ;;
  let ndeg := odeg + shamt in
  let onum_parts := odeg / 64 + 1 in
  let nnum_parts := ndeg / 64 + 1 in
  let l := extend_parts l nnum_parts in
  if num_bits_shift =? 0 then
    l <- for_down onum_parts
           (fun i l => x <- rdw l i ;; wrw l (i + num_parts_shift) x) l ;;
    for_down (length l - onum_parts) (fun i l => wrw l i 0%N) l
  else
    let di := (Z.of_nat (length l) - 1)%Z in
    let si := onum_parts - 1 in
    (* lines 668-674; afterwards the C++ si is one less than the si here *)
    ' (l, di) <- (if 64 - num_bits_shift <=? odeg mod 64 then
                    x <- rdw l si ;; l' <- wrz l di (N.shiftr x cb) ;; Ok (l', (di - 1)%Z)
                  else Ok (l, di)) ;;
    (* lines 675-678 *)
    ' (l, di) <- for_down si
           (fun i s => let '(l, di) := s in
              x <- rdw l i ;; y <- rdw l (S i) ;;
              l' <- wrz l di (N.lor (N.shiftr x cb) (shl64 y nb)) ;; Ok (l', (di - 1)%Z)) (l, di) ;;
    (* line 679, where the C++ si is -1 *)
    x <- rdw l 0 ;; l <- wrz l di (shl64 x nb) ;;
    for_down (Z.to_nat di) (fun i l => wrw l i 0%N) l.

(* f2_poly_t.cpp:735-743.  A negative position converts to a huge unsigned word index. *)
Definition bit_at (l : fpoly) (pos : Z) : res bool :=
  if (pos <? 0)%Z then Ok false
  else
    let p := Z.to_nat pos in
    if length l <=? p / 64 then Ok false
    else w <- rdw l (p / 64) ;; Ok (N.testbit w (N.of_nat (p mod 64))).
(* f2_poly_t.cpp:760-768.  A negative position throws (after the resize). *)
Definition set_bit (l : fpoly) (pos : Z) : res fpoly :=
  if (pos <? 0)%Z then Exn
  else
    let p := Z.to_nat pos in
    let l := if length l <=? p / 64 then extend_parts l (p / 64 + 1) else l in
    w <- rdw l (p / 64) ;; wrw l (p / 64) (N.lor w (N.shiftl 1 (N.of_nat (p mod 64)))).
(* f2_poly_t.cpp:769-786.  1 << which_bit is an int shift: undefined from 32 on; at 31 it
   is INT_MIN, which sign-extends when combined with a 64-bit word. *)
Definition int_bit (k : nat) : res N :=
  if k <? 31 then Ok (N.shiftl 1 (N.of_nat k))
  else if k =? 31 then Ok (N.shiftl (N.ones 33) 31) else UB.
Definition set_coeff (l : fpoly) (pos : Z) (b : bool) : res fpoly :=
  if (pos <? 0)%Z then (if b then Exn else Ok l)
  else
    let p := Z.to_nat pos in
    if (length l <=? p / 64) && negb b then Ok l
    else
      let l := if length l <=? p / 64 then extend_parts l (p / 64 + 1) else l in
      w <- rdw l (p / 64) ;; m <- int_bit (p mod 64) ;;
      if b then wrw l (p / 64) (N.lor w m)
      else l' <- wrw l (p / 64) (N.land w (N.lxor (N.ones 64) m)) ;; trim_parts l'.

(* f2_poly_t.cpp:150-152: out ^= ashift, word by word *)
Definition xor_into (out a : fpoly) : res fpoly :=
  for_up (length a) 0
    (fun j out => x <- rdw out j ;; y <- rdw a j ;; wrw out j (N.lxor x y)) out.
(* f2_poly_t.cpp:137-157 *)
Definition f2_mul (a b : fpoly) : res fpoly :=
  adeg <- f2_degree a ;;
  bdeg <- f2_degree b ;;
  let cdeg := adeg + bdeg in
  ' (out, _) <- for_up (S bdeg) 0
      (fun i s => let '(out, ashift) := s in
         c <- bit_at b (Z.of_nat i) ;;
         out' <- (if c : bool then xor_into out ashift else Ok out) ;;
         ashift' <- promote_1 ashift ;; Ok (out', ashift'))
      (repeat 0%N ((cdeg + 64) / 64), a) ;;
  Ok out.
(* f2_poly_t.cpp:160-166 *)
Definition f2_mul_int (a : fpoly) (bit : Z) : fpoly := if Z.odd bit then a else f2_of_int 0.

(* f2_poly_t.cpp:222-264: (quotient, remainder) *)
Definition quot_and_rem (this that : fpoly) : res (fpoly * fpoly) :=
  dvs <- f2_degree that ;;
  w0 <- rdw that 0 ;;
  if (dvs =? 0) && (w0 =? 0)%N then Exn
  else
    dvd <- f2_degree this ;;
    v0 <- rdw this 0 ;;
    if (dvd =? 0) && (v0 =? 0)%N then Ok (f2_of_int 0, f2_of_int 0)
    else if dvd <? dvs then Ok (f2_of_int 0, this)
    else
      let l1_diff := dvd - dvs in
      sd <- promote_n that l1_diff ;;
      ' (rem, quot, _) <- for_down (S l1_diff)
          (fun quot_pos s => let '(rem, quot, sd) := s in
             c <- bit_at rem (Z.of_nat (quot_pos + dvs)) ;;
             ' (rem', quot') <- (if c : bool then
                   r <- f2_sub rem sd ;; q <- set_bit quot (Z.of_nat quot_pos) ;; Ok (r, q)
                 else Ok (rem, quot)) ;;
             sd' <- demote_1 sd ;; Ok (rem', quot', sd'))
          (this, f2_of_int 0, sd) ;;
      Ok (quot, rem).
(* f2_poly_t.cpp:168-178 *)
Definition f2_div (a b : fpoly) : res fpoly := qr <- quot_and_rem a b ;; Ok (fst qr).
Definition f2_mod (a b : fpoly) : res fpoly := qr <- quot_and_rem a b ;; Ok (snd qr).

(* f2_poly_t.cpp:431-439 *)
Definition f2_eq_int (l : fpoly) (v : Z) : res bool :=
  if existsb (fun w => negb (w =? 0)%N) (skipn 1 l) then Ok false
  else w <- rdw l 0 ;; Ok (w =? bitZ v)%N.
(* f2_poly_t.cpp:468-476 *)
Fixpoint cmp_words (n : nat) (a b : fpoly) : res comparison :=
  match n with
  | O => Ok Eq
  | S i =>
      x <- rdw a i ;; y <- rdw b i ;;
      if (x <? y)%N then Ok Lt else if (y <? x)%N then Ok Gt else cmp_words i a b
  end.
(* f2_poly_t.cpp:458-477 *)
Definition f2_cmp (a b : fpoly) : res comparison :=
  adeg <- f2_degree a ;;
  bdeg <- f2_degree b ;;
  if adeg <? bdeg then Ok Lt
  else if bdeg <? adeg then Ok Gt
  else cmp_words (adeg / 64 + 1) a b.
(* f2_poly_t.cpp:440-457, 478-503 *)
Definition f2_eqb (a b : fpoly) : res bool :=
  c <- f2_cmp a b ;; Ok (match c with Eq => true | _ => false end).
Definition f2_neqb (a b : fpoly) : res bool := e <- f2_eqb a b ;; Ok (negb e).
Definition f2_ltb (a b : fpoly) : res bool :=
  c <- f2_cmp a b ;; Ok (match c with Lt => true | _ => false end).
Definition f2_leb (a b : fpoly) : res bool :=
  c <- f2_cmp a b ;; Ok (match c with Gt => false | _ => true end).
Definition f2_gtb (a b : fpoly) : res bool :=
  c <- f2_cmp a b ;; Ok (match c with Gt => true | _ => false end).
Definition f2_geb (a b : fpoly) : res bool :=
  c <- f2_cmp a b ;; Ok (match c with Lt => false | _ => true end).

(* f2_poly_t.cpp:277-284 *)
Definition gcd_step (s : fpoly * fpoly) : res ((fpoly * fpoly) + fpoly) :=
  let '(c, d) := s in
  ' (q, r) <- quot_and_rem c d ;;
  z <- f2_eq_int r 0 ;;
  Ok (if z : bool then inr d else inl (d, r)).
Definition gcd_fuel (b : fpoly) : nat := S (S (64 * length b)).
(* f2_poly_t.cpp:266-286 *)
Definition f2_gcd (a b : fpoly) : res fpoly :=
  za <- f2_eq_int a 0 ;;
  if za : bool then Ok b
  else
    zb <- f2_eq_int b 0 ;;
    if zb : bool then Ok a
    else loop (gcd_fuel b) gcd_step (a, b).

(* f2_poly_t.cpp:309-324: state (c, d, mprime, nprime, rm, rn) *)
Definition ext_step (s : fpoly * fpoly * fpoly * fpoly * fpoly * fpoly)
  : res ((fpoly * fpoly * fpoly * fpoly * fpoly * fpoly) + (fpoly * fpoly * fpoly)) :=
  let '(c, d, mp, np, rm, rn) := s in
  ' (q, r) <- quot_and_rem c d ;;
  z <- f2_eq_int r 0 ;;
  if z : bool then Ok (inr (d, rm, rn))
  else
    qm <- f2_mul q rm ;; rm' <- f2_sub mp qm ;;
    qn <- f2_mul q rn ;; rn' <- f2_sub np qn ;;
    Ok (inl (d, r, rm, rn, rm', rn')).
(* f2_poly_t.cpp:289-326: (gcd, rm, rn) *)
Definition f2_ext_gcd (a b : fpoly) : res (fpoly * fpoly * fpoly) :=
  za <- f2_eq_int a 0 ;;
  if za : bool then Ok (b, f2_of_int 0, f2_of_int 1)
  else
    zb <- f2_eq_int b 0 ;;
    if zb : bool then Ok (a, f2_of_int 1, f2_of_int 0)
    else loop (gcd_fuel b) ext_step (a, b, f2_of_int 1, f2_of_int 0, f2_of_int 0, f2_of_int 1).

(* f2_poly_t.cpp:356-362: state (e, xp, rv) *)
Definition f2_exp_step (s : Z * fpoly * fpoly) : res ((Z * fpoly * fpoly) + fpoly) :=
  let '(e, xp, rv) := s in
  if (e =? 0)%Z then Ok (inr rv)
  else
    rv' <- (if Z.odd e then f2_mul rv xp else Ok rv) ;;
    xp' <- f2_mul xp xp ;;
    Ok (inl (e / 2, xp', rv'))%Z.
(* f2_poly_t.cpp:328-366 *)
Definition f2_exp (a : fpoly) (e : Z) : res fpoly :=
  deg <- f2_degree a ;;
  z <- f2_eqb a (f2_of_int 0) ;;
  if z : bool then
    (if (e <=? 0)%Z then Exn else Ok (f2_of_int 0))
  else if deg =? 0 then Ok (f2_of_int 1)
  else if (e <? 0)%Z then Exn
  else loop 34 f2_exp_step (e, a, f2_of_int 1).

(* f2_poly_t.cpp:24 *)
Definition mask01 : N := 0x5555555555555555%N.
(* f2_poly_t.cpp:368-376 *)
Definition f2_deriv (a : fpoly) : res fpoly :=
  l <- demote_1 a ;; trim_parts (map (fun w => N.land w mask01) l).
(* f2_poly_t.cpp:386-393: None is the early return false *)
Fixpoint sqrt_loop (k : nat) (a : fpoly) (di : nat) (root : fpoly) : res (option fpoly) :=
  match k with
  | O => Ok (Some root)
  | S k' =>
      c <- bit_at a (Z.of_nat (2 * di)) ;;
      root' <- (if c : bool then set_bit root (Z.of_nat di) else Ok root) ;;
      c' <- bit_at a (Z.of_nat (2 * di + 1)) ;;
      if c' : bool then Ok None else sqrt_loop k' a (S di) root'
  end.
(* f2_poly_t.cpp:382-396 *)
Definition f2_sqrt (a : fpoly) : res (option fpoly) :=
  deg <- f2_degree a ;; sqrt_loop (deg / 2 + 1) a 0 (f2_of_int 0).

(* f2_poly_t.cpp:410-419.  The sum is an int. *)
Definition zcount_one_bits (a : fpoly) : res Z :=
  n <- foldM (fun acc w => c <- count_one_bits (bytes64 w) 8 ;; iadd acc c) a 0%Z ;;
  Ok (Z.land 1 n).
(* f2_poly_t.cpp:402-408 *)
Definition f2_eval (a : fpoly) (c : Z) : res Z :=
  if Z.odd c then zcount_one_bits a
  else w <- rdw a 0 ;; Ok (Z.of_N (N.land w 1)).
(* f2_poly_t.cpp:398-400 *)
Definition f2_eval_bit (a : fpoly) (c : bool) : res bool :=
  v <- f2_eval a (Z.b2z c) ;; Ok (Z.odd v).

(* f2_poly_t.cpp:506-517 *)
Fixpoint inc_words (l : fpoly) : fpoly * bool :=
  match l with
  | [] => ([], true)
  | w :: l' =>
      if (w =? N.ones 64)%N then let '(m, c) := inc_words l' in (0%N :: m, c)
      else ((w + 1)%N :: l', false)
  end.
Definition f2_increment (l : fpoly) : res fpoly :=
  let '(m, c) := inc_words l in
  if c : bool then set_bit m (Z.of_nat (length m * 64)) else Ok m.

(* ---------------------------------------------------------------- text *)
(* Characters are their ASCII codes. *)
Definition hexdig (d : N) : Z := if (d <? 10)%N then (48 + Z.of_N d)%Z else (87 + Z.of_N d)%Z.
(* the k low hexadecimal digits of w, most significant first *)
Fixpoint hex_digits (k : nat) (w : N) : list Z :=
  match k with
  | O => []
  | S k' => hex_digits k' (N.shiftr w 4) ++ [hexdig (N.land w 15)]
  end.
(* os << w with std::hex *)
Definition hex_word (w : N) : list Z :=
  hex_digits (if (w =? 0)%N then 1 else N.to_nat (N.log2 w) / 4 + 1) w.
(* os << std::setw(16) << std::setfill('0') << w *)
Definition hex_padded (w : N) : list Z := hex_digits 16 w.
(* f2_poly_t.cpp:529-534 *)
Definition leader_pos (l : fpoly) : nat := match top_word l (length l) with Some (i, _) => i | None => 0 end.
(* f2_poly_t.cpp:519-547 *)
Fixpoint f2_print_tail (i : nat) (l : fpoly) : list Z :=
  match i with O => [] | S k => hex_padded (nth k l 0%N) ++ f2_print_tail k l end.
Definition f2_print (l : fpoly) : res (list Z) :=
  if length l =? 0 then Exn
  else let i := leader_pos l in Ok (hex_word (nth i l 0%N) ++ f2_print_tail i l).
(* f2_poly_t.cpp:748-757 *)
Definition f2_dprint (l : fpoly) (reqdeg : Z) : res (list Z) :=
  d <- f2_degree l ;;
  s <- f2_print l ;;
  Ok (repeat 48%Z (Z.to_nat (Z.shiftr (reqdeg + 4) 2 - Z.shiftr (Z.of_nat d + 4) 2)) ++ s).

(* isdigit, islower, isxdigit in the C locale *)
Definition is_digit (c : Z) : bool := (48 <=? c)%Z && (c <=? 57)%Z.
Definition is_lower (c : Z) : bool := (97 <=? c)%Z && (c <=? 122)%Z.
Definition is_xdigit (c : Z) : bool :=
  is_digit c || ((97 <=? c)%Z && (c <=? 102)%Z) || ((65 <=? c)%Z && (c <=? 70)%Z).
Definition is_blank (c : Z) : bool := (c =? 32)%Z || (c =? 9)%Z || (c =? 10)%Z.
Fixpoint skip_blanks (s : list Z) : list Z :=
  match s with c :: s' => if is_blank c then skip_blanks s' else s | [] => [] end.
Definition hexval (c : Z) : Z :=
  if is_digit c then (c - 48)%Z else if is_lower c then (c - 97 + 10)%Z else (c - 65 + 10)%Z.
(* f2_poly_t.cpp:580-595, 621-633: (polynomial, digits read, rest of the stream) *)
Fixpoint read_nybbles (s : list Z) (l : fpoly) (n : nat) : res (fpoly * nat * list Z) :=
  match s with
  | [] => Ok (l, n, [])
  | c :: s' =>
      if is_xdigit c then
        l1 <- promote_4 l ;; w <- rdw l1 0 ;;
        l2 <- wrw l1 0 (N.lor w (Z.to_N (hexval c))) ;; read_nybbles s' l2 (S n)
      else Ok (l, n, s)
  end.
(* f2_poly_t.cpp:562-600, 602-641: (polynomial, failbit, rest of the stream); both
   overloads set the polynomial to zero first and agree on these three results *)
Definition f2_read (s : list Z) : res (fpoly * bool * list Z) :=
  let s := skip_blanks s in
  if (length s =? 0) then Ok (f2_of_int 0, true, [])
  else ' (l, n, rest) <- read_nybbles s (f2_of_int 0) 0 ;; Ok (l, n =? 0, rest).
(* f2_poly_t.cpp:46-57 *)
Definition f2_of_string (s : list Z) : res fpoly :=
  ' (l, bad, _) <- f2_read s ;; if bad : bool then Exn else Ok l.
(* f2_poly_t.cpp:68-73: (new value, success) *)
Definition f2_from_string (s : list Z) : res (fpoly * bool) :=
  ' (l, bad, _) <- f2_read s ;; Ok (l, negb bad).

(* ---------------------------------------------------------------- f2_polymod_t *)
Record fpmod := mkpm { pm_res : fpoly; pm_mod : fpoly }.
(* f2_polymod_t.cpp:15-20 *)
Definition pm_make (r m : fpoly) : res fpmod := x <- f2_mod r m ;; Ok (mkpm x m).
(* f2_polymod_t.cpp:304-312 *)
Definition pm_check (a b : fpmod) : res unit :=
  ne <- f2_neqb (pm_mod a) (pm_mod b) ;; if ne : bool then Exn else Ok tt.
(* f2_polymod_t.cpp:29-40 *)
Definition pm_prime_subfield_element (v : Z) (m : fpoly) : res fpmod := pm_make (f2_of_int v) m.
(* f2_polymod_t.cpp:53-88 *)
Definition pm_add (a b : fpmod) : res fpmod :=
  pm_check a b ;;; s <- f2_add (pm_res a) (pm_res b) ;; pm_make s (pm_mod a).
Definition pm_sub (a b : fpmod) : res fpmod :=
  pm_check a b ;;; s <- f2_sub (pm_res a) (pm_res b) ;; pm_make s (pm_mod a).
Definition pm_neg (a : fpmod) : res fpmod := pm_make (f2_neg (pm_res a)) (pm_mod a).
Definition pm_mul (a b : fpmod) : res fpmod :=
  pm_check a b ;;; s <- f2_mul (pm_res a) (pm_res b) ;; pm_make s (pm_mod a).
Definition pm_mul_int (a : fpmod) (k : Z) : res fpmod :=
  if Z.odd k then Ok a else pm_sub a a.
(* f2_polymod_t.cpp:121-132: None is the return value false *)
Definition pm_recip (a : fpmod) : res (option fpmod) :=
  ' (g, s, _) <- f2_ext_gcd (pm_res a) (pm_mod a) ;;
  d <- f2_degree g ;;
  if d =? 0 then r <- pm_make s (pm_mod a) ;; Ok (Some r) else Ok None.
(* f2_polymod_t.cpp:91-118 *)
Definition pm_div (a b : fpmod) : res fpmod :=
  pm_check a b ;;;
  o <- pm_recip b ;;
  match o with Some bi => pm_mul a bi | None => Exn end.
Definition pm_rem (a b : fpmod) : res fpmod :=
  pm_check a b ;;;
  o <- pm_recip b ;;
  match o with Some bi => pm_sub a a | None => Exn end.
(* f2_polymod_t.cpp:246-265 *)
Definition pm_eqb (a b : fpmod) : res bool :=
  n1 <- f2_neqb (pm_res a) (pm_res b) ;;
  if n1 : bool then Ok false
  else n2 <- f2_neqb (pm_mod a) (pm_mod b) ;; Ok (negb n2).
Definition pm_eq_int (a : fpmod) (v : Z) : res bool := f2_eq_int (pm_res a) v.
(* f2_polymod_t.cpp:268-289 *)
Definition pm_ltb (a b : fpmod) : res bool := pm_check a b ;;; f2_ltb (pm_res a) (pm_res b).
Definition pm_leb (a b : fpmod) : res bool := pm_check a b ;;; f2_leb (pm_res a) (pm_res b).
Definition pm_gtb (a b : fpmod) : res bool := pm_check a b ;;; f2_gtb (pm_res a) (pm_res b).
Definition pm_geb (a b : fpmod) : res bool := pm_check a b ;;; f2_geb (pm_res a) (pm_res b).
(* f2_polymod_t.cpp:165-171: state (e, xp, rv.residue) *)
Definition pm_exp_step (m : fpoly) (s : Z * fpoly * fpoly) : res ((Z * fpoly * fpoly) + fpoly) :=
  let '(e, xp, rv) := s in
  if (e =? 0)%Z then Ok (inr rv)
  else
    rv' <- (if Z.odd e then p <- f2_mul rv xp ;; f2_mod p m else Ok rv) ;;
    p <- f2_mul xp xp ;; xp' <- f2_mod p m ;;
    Ok (inl (u32 e / 2, xp', rv'))%Z.
(* f2_polymod_t.cpp:135-173.  e == -e (line 154) evaluates -e: undefined for INT_MIN. *)
Definition pm_exp (a : fpmod) (e : Z) : res fpmod :=
  let m := pm_mod a in
  zero <- pm_make (f2_of_int 0) m ;;
  one <- pm_make (f2_of_int 1) m ;;
  if (e =? 0)%Z then
    z <- pm_eqb a zero ;; if z : bool then Exn else Ok one
  else
    ' (xp, e) <- (if (e <? 0)%Z then
                    z <- pm_eqb a zero ;;
                    if z : bool then Exn
                    else ne <- ineg e ;; inv <- pm_div one a ;; Ok (pm_res inv, ne)
                  else Ok (pm_res a, e)) ;;
    rv <- loop 34 (pm_exp_step m) (e, xp, pm_res one) ;;
    Ok (mkpm rv m).
(* f2_polymod_t.cpp:176-180 *)
Definition pm_print (a : fpmod) : res (list Z) :=
  d <- f2_degree (pm_mod a) ;; f2_dprint (pm_res a) (Z.of_nat d - 1).
(* f2_polymod_t.cpp:183-194: (new value, failbit, rest of the stream) *)
Definition pm_read (a : fpmod) (s : list Z) : res (fpmod * bool * list Z) :=
  ' (l, bad, rest) <- f2_read s ;; r <- f2_mod l (pm_mod a) ;; Ok (mkpm r (pm_mod a), bad, rest).
(* f2_polymod_t.cpp:197-207: None is the return value false *)
Definition pm_from_string (s : list Z) (m : fpoly) : res (option fpmod) :=
  ' (l, bad, _) <- f2_read s ;;
  if bad : bool then Ok None else r <- pm_make l m ;; Ok (Some r).
(* f2_polymod_t.cpp:298-301 *)
Definition pm_change_modulus (a : fpmod) (m : fpoly) : res fpmod := pm_make (pm_res a) m.
