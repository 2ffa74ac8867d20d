(* Model of the text formats of polynomials, residue classes of polynomials and fractions: operator<<, operator>> and
   from_string of fp_poly_t, f2n_poly_t, fpn_poly_t, q_poly_t, fp_polymod_t, f2n_polymod_t, fpn_polymod_t, intrat_t,
   f2_polyrat_t, fp_polyrat_t, f2n_polyrat_t, and spffl/base/tokenize.cpp.  Definitions only.

   Streams are those of MTextIO.v.  Characters of f2_poly_t are numbers in MF2Poly.v: codes, chars.
   char is signed, so that the character 255 is taken for EOF where peek() is stored in a char.
   The memory leaked on failure (strdup, argv) is not modelled. *)
From Verif Require Import Base MIntMath MIntmod MIntrat MMat MMatCli MF2Poly MPoly MPolymod MF2nPoly MFpnPoly MLinalg MRat MCyclo MTextIO.
Import ListNotations.
Open Scope nat_scope.

(* What from_string and operator>> leave in the polynomial: Read l: success.  Rejected l: failure, the polynomial is l.
   Freed: failure, the coefficients have been deleted and the pointer to them has been kept; any use of the object,
   even its destructor (which deletes them again), is undefined. *)
Inductive scan (A : Type) := Read (l : A) | Rejected (l : A) | Freed.
Arguments Read {A}. Arguments Rejected {A}. Arguments Freed {A}.

(* ---------------------------------------------------------------- *)
(* tokenize.cpp:26-64 for one separator.  w: the token being read, reversed.  The array argv has one place more than
   there are separators, so that max_arguments is not reached. *)
Definition tok_end (w : list ascii) (ts : list (list ascii)) : list (list ascii) :=
  match w with [] => ts | _ => rev w :: ts end.
Fixpoint tokens_from (sep : ascii) (w : list ascii) (t : list ascii) : list (list ascii) :=
  match t with
  | [] => tok_end w []
  | c :: t => if (c =? sep)%char then tok_end w (tokens_from sep [] t) else tokens_from sep (c :: w) t
  end.
Definition tokens (sep : ascii) (t : list ascii) : list (list ascii) := tokens_from sep [] t.

(* is >> v for an int v, with the state of the stream: v keeps its value if the stream is not good or has nothing but
   blanks; it becomes 0 if there is no number, and the nearest int if the number is out of range *)
Definition no_text (t : list ascii) : bool := match t with [] => true | _ => false end.
Definition get_int (v0 : Z) (s : istr) : Z * istr :=
  if good s then
    match skip_space (i_text s) with
    | [] => (v0, mkis [] true true false)
    | x :: t =>
        let '(neg, t) := if (x =? "-")%char then (true, t) else if (x =? "+")%char then (false, t) else (false, x :: t) in
        match read_digits t 0 false with
        | None => (0%Z, mkis t (no_text t) true false)
        | Some (v, r) =>
            let v := if neg : bool then (- v)%Z else v in
            if (v <? INT_MIN)%Z then (INT_MIN, mkis r (no_text r) true false)
            else if (INT_MAX <? v)%Z then (INT_MAX, mkis r (no_text r) true false)
            else (v, mkis r (no_text r) false false)
        end
    end
  else (v0, set_fail s).
(* peek(), EOF as None *)
Definition peek (s : istr) : option ascii * istr :=
  if good s then match i_text s with [] => (None, set_eof s) | c :: _ => (Some c, s) end else (None, set_fail s).
(* get() after a peek() that gave a character *)
Definition drop1 (s : istr) : istr := mkis (tl (i_text s)) (i_eof s) (i_fail s) (i_bad s).
Definition is_char (c : ascii) (o : option ascii) : bool := match o with Some x => (x =? c)%char | None => false end.

(* ---------------------------------------------------------------- *)
(* output: fp_poly_t.cpp:759-775, f2n_poly_t.cpp:788-802, fpn_poly_t.cpp:750-764, q_poly_t.cpp:656-667, on the coefficients
   in descending order *)
Fixpoint put_sep (sep : list ascii) (ts : list (list ascii)) : list ascii :=
  match ts with
  | [] => []
  | [t] => t
  | t :: ts => t ++ sep ++ put_sep sep ts
  end.
Definition codes (t : list ascii) : list Z := map (fun c => Z.of_nat (nat_of_ascii c)) t.
Definition chars (t : list Z) : list ascii := map (fun z => ascii_of_nat (Z.to_nat z)) t.
Definition comma (m : Z) : list ascii := if (9 <? m)%Z then [","%char] else [].
Definition fp_put (l : list intmod) : res (list ascii) :=
  c0 <- getk l 0 ;; Ok (put_sep (comma (modulus c0)) (map (fun a => put_int (residue a)) (rev l))).
Definition f2_put (l : fpoly) : res (list ascii) := t <- f2_print l ;; Ok (chars t).
Definition colon (m : fpoly) : res (list ascii) := b <- f2_gtb m (f2_of_int 9) ;; Ok (if b : bool then [":"%char] else []).
Definition f2n_put (l : list fpmod) : res (list ascii) :=
  c0 <- getk l 0 ;; sep <- colon (pm_mod c0) ;; ts <- mapM (fun a => f2_put (pm_res a)) (rev l) ;; Ok (put_sep sep ts).
Definition fpn_put (l : list fpc) : res (list ascii) :=
  ts <- mapM (fun a => fp_put (gm_res a)) (rev l) ;; Ok (put_sep [":"%char] ts).
(* intrat_t.cpp:166-172 *)
Definition rat_put (a : intrat) : list ascii :=
  put_int (numer a) ++ (if (denom a =? 1)%Z then [] else "/"%char :: put_int (denom a)).
Definition q_put (l : list intrat) : list ascii := put_sep [","%char] (map rat_put (rev l)).
(* fp_polymod_t.cpp:213-233, f2n_polymod_t.cpp:203-223, fpn_polymod_t.cpp:203-221: zeros down from the degree of the
   modulus less one *)
Definition pad {A : Type} (ts : list (list ascii)) (r m : list A) : list (list ascii) :=
  repeat ["0"%char] (List.length m - 1 - List.length r) ++ ts.
Definition fpm_put (a : gmod intmod) : res (list ascii) :=
  c0 <- getk (gm_res a) 0 ;;
  Ok (put_sep (comma (modulus c0)) (pad (map (fun a => put_int (residue a)) (rev (gm_res a))) (gm_res a) (gm_mod a))).
Definition f2nm_put (a : gmod fpmod) : res (list ascii) :=
  c0 <- getk (gm_res a) 0 ;; sep <- colon (pm_mod c0) ;;
  ts <- mapM (fun a => f2_put (pm_res a)) (rev (gm_res a)) ;; Ok (put_sep sep (pad ts (gm_res a) (gm_mod a))).
Definition fpnm_put (a : gmod fpc) : res (list ascii) :=
  ts <- mapM (fun a => fp_put (gm_res a)) (rev (gm_res a)) ;; Ok (put_sep [":"%char] (pad ts (gm_res a) (gm_mod a))).

(* ---------------------------------------------------------------- *)
(* input *)
Section In.
Context {A : Type} (o : kops A) (dflt : A).
(* reading a coefficient from a token; None: failure *)
Variable rd : list ascii -> res (option A).
(* the loops of from_string; l: the coefficients set so far, those of lower degree first; the others are those of the
   default constructor *)
Fixpoint fill (ts : list (list ascii)) (l : list A) : res (bool * list A) :=
  match ts with
  | [] => Ok (true, l)
  | t :: ts' =>
      x <- rd t ;;
      match x with
      | None => Ok (false, repeat dflt (List.length ts) ++ l)
      | Some x => fill ts' (x :: l)
      end
  end.
Definition fill_poly (ts : list (list ascii)) : res (scan (list A)) :=
  '(b, l) <- fill ts [] ;; if b : bool then l <- gp_recompute o l ;; Ok (Read l) else Ok (Rejected l).
Definition sep_poly (sep : ascii) (t : list ascii) : res (scan (list A)) :=
  match tokens sep (cstr t) with
  | [] => Ok Freed
  | ts => fill_poly ts
  end.
End In.
Definition rd_int {A : Type} (mk : Z -> res A) (t : list ascii) : res (option A) :=
  match read_int t with None => Ok None | Some (v, _) => x <- mk v ;; Ok (Some x) end.
Definition rd_digit {A : Type} (mk : Z -> res A) (t : list ascii) : res (option A) :=
  match t with
  | [x] => if MMatCli.is_digit x then a <- mk (digit_val x) ;; Ok (Some a) else Ok None
  | _ => UB
  end.
Definition has (c : ascii) (t : list ascii) : bool := existsb (fun x => (x =? c)%char) t.

(* fp_poly_t.cpp:823-889 *)
Definition fp_scan (c : cache) (p : Z) (t : list ascii) : res (scan (list intmod)) :=
  if negb (has ","%char (cstr t)) && (p <? 10)%Z
  then fill_poly (im_kops c) im_default (rd_digit (fun v => im_make v p)) (map (fun x => [x]) t)
  else sep_poly (im_kops c) im_default (rd_int (fun v => im_make v p)) ","%char t.
(* q_poly_t.cpp:714-775 *)
Definition q_scan (t : list ascii) : res (scan (list intrat)) :=
  if negb (has ","%char (cstr t))
  then fill_poly q_kops rat_default (rd_digit rat_of_int) (map (fun x => [x]) t)
  else sep_poly q_kops rat_default (rd_int rat_of_int) ","%char t.
(* the longest beginning of a text of digits and commas *)
Definition dc (x : ascii) : bool := MMatCli.is_digit x || (x =? ",")%char.
Fixpoint span (f : ascii -> bool) (t : list ascii) : list ascii * list ascii :=
  match t with
  | x :: t' => if f x then let '(w, r) := span f t' in (x :: w, r) else ([], t)
  | [] => ([], [])
  end.
(* peek() == EOF for a peek() stored in a char *)
Definition at_eof (t : list ascii) : bool := match t with [] => true | x :: _ => (x =? "255")%char end.
(* fp_poly_t.cpp:778-820, q_poly_t.cpp:670-711; from: the call of from_string *)
Definition dc_in {A : Type} (from : list ascii -> res (scan (list A))) (a : list A) (s : istr)
  : res (scan (list A) * istr) :=
  if good s then
    let t := skip_ws (i_text s) in
    if at_eof t then Ok (Rejected a, mkis t (no_text t) true false) else
    let '(w, r) := span dc t in
    match w with
    | [] => Ok (Rejected a, mkis r false true false)
    | _ => x <- from w ;; Ok (x, mkis r (at_eof r) (match x with Read _ => false | _ => true end) false)
    end
  else Ok (Rejected a, set_fail s).
Definition fp_in (c : cache) (a : list intmod) (s : istr) : res (scan (list intmod) * istr) :=
  c0 <- getk a 0 ;; dc_in (fp_scan c (modulus c0)) a s.
Definition q_in (a : list intrat) (s : istr) : res (scan (list intrat) * istr) := dc_in q_scan a s.

(* f2_poly_t.cpp:562-641 with the state of the stream; the polynomial is zero after a failure (f2_read) *)
Definition f2_in (s : istr) : res (fpoly * istr) :=
  if good s then
    '(l, bad, r) <- f2_read (codes (i_text s)) ;; Ok (l, mkis (chars r) (match r with [] => true | _ => false end) bad false)
  else Ok (f2_of_int 0, set_fail s).

(* f2n_poly_t.cpp:884-926 *)
Definition f2n_dflt : fpmod := mkpm (f2_of_int 0) (f2_of_int 1).
Definition f2n_scan (m : fpoly) (t : list ascii) : res (scan (list fpmod)) :=
  sep_poly f2n_kops f2n_dflt (fun w => '(r, s) <- f2_in (open_text w) ;;
    if failed s then Ok None else x <- pm_make r m ;; Ok (Some x)) ":"%char t.
(* the loops of 837-847 and 869-877; iss: whether !eof() is asked before peek().  Fuel: more than the length of the text. *)
Fixpoint f2n_more (iss : bool) (fuel : nat) (m : fpoly) (l : list fpmod) (s : istr) : res (scan (list fpmod) * istr) :=
  match fuel with
  | O => Div
  | S fuel =>
      let '(c, s) := if iss && i_eof s then (None, s) else peek s in
      if is_char ":" c then
        '(r, s) <- f2_in (drop1 s) ;;
        if failed s then Ok (Rejected l, s)
        else x <- pm_make r m ;; l <- gp_promote_and_add f2n_kops l x ;; f2n_more iss fuel m l s
      else l <- gp_recompute f2n_kops l ;; Ok (Read l, s)
  end.
(* 830-849 and 856-881 *)
Definition f2n_colons (iss : bool) (m : fpoly) (s : istr) : res (scan (list fpmod) * istr) :=
  z <- pm_make (f2_of_int 0) m ;; l <- gp_const f2n_kops z ;;
  '(r, s) <- f2_in s ;;
  if failed s then Ok (Rejected l, s) else x <- pm_make r m ;; f2n_more iss (S (List.length (i_text s))) m [x] s.
Definition f2n_iss (a : list fpmod) (s : istr) : res (scan (list fpmod) * istr) :=
  c0 <- getk a 0 ;; f2n_colons true (pm_mod c0) s.
(* 805-850.  m <= 10 compares m with the polynomial made of the int 10, that is 10 & 1 = 0; the first branch is for the
   zero modulus only.  Its loop (824-827) reads no character: it has no end when another digit follows. *)
Definition f2n_is (a : list fpmod) (s : istr) : res (scan (list fpmod) * istr) :=
  c0 <- getk a 0 ;; let m := pm_mod c0 in
  small <- f2_leb m (f2_of_int 10) ;;
  if small : bool then
    z <- pm_make (f2_of_int 0) m ;; l <- gp_const f2n_kops z ;;
    if good s then
      match skip_space (i_text s) with
      | [] => Ok (Rejected l, mkis [] true true false)
      | x :: t =>
          if MMatCli.is_digit x then
            x <- pm_make (f2_of_int (digit_val x)) m ;;
            match t with
            | y :: _ => if MMatCli.is_digit y then Div else l <- gp_recompute f2n_kops [x] ;; Ok (Read l, mkis t false false false)
            | [] => l <- gp_recompute f2n_kops [x] ;; Ok (Read l, mkis [] true false false)
            end
          else Ok (Rejected l, mkis t false false false)
      end
    else Ok (Rejected l, set_fail s)
  else f2n_colons false m s.

(* a fp_poly_t that goes out of scope or is used after reading *)
Definition alive {A : Type} (x : scan A) : res A := match x with Read l => Ok l | Rejected l => Ok l | Freed => UB end.
Section Fpn.
Variable c : cache.
Local Notation oi := (im_kops c).
(* fpn_poly_t.cpp:797-840 *)
Definition fpn_scan (m : list intmod) (t : list ascii) : res (scan (list fpc)) :=
  sep_poly (fpn_kops c) fpn_dflt (fun w => '(r, s) <- fp_in c m (open_text w) ;; r <- alive r ;;
    if failed s then Ok None else x <- gm_make oi r m ;; Ok (Some x)) ":"%char t.
(* fpn_poly_t.cpp:782-790 *)
Fixpoint fpn_more (fuel : nat) (m r : list intmod) (l : list fpc) (s : istr) : res (scan (list fpc) * istr) :=
  match fuel with
  | O => Div
  | S fuel =>
      let '(x, s) := if i_eof s then (None, s) else peek s in
      if is_char ":" x then
        '(r, s) <- fp_in c r (drop1 s) ;; r <- alive r ;;
        if failed s then Ok (Rejected l, s)
        else x <- gm_make oi r m ;; l <- gp_promote_and_add (fpn_kops c) l x ;; fpn_more fuel m r l s
      else l <- gp_recompute (fpn_kops c) l ;; Ok (Read l, s)
  end.
(* fpn_poly_t.cpp:767-794 *)
Definition fpn_in (a : list fpc) (s : istr) : res (scan (list fpc) * istr) :=
  c0 <- getk a 0 ;; let m := gm_mod c0 in
  z <- gm_int oi c0 0 ;; l <- gp_const (fpn_kops c) z ;;
  '(r, s) <- fp_in c m s ;; r <- alive r ;;
  if failed s then Ok (Rejected l, s)
  else x <- gm_make oi r m ;; fpn_more (S (List.length (i_text s))) m r [x] s.
End Fpn.

(* ---------------------------------------------------------------- *)
(* fp_polymod_t.cpp:244-253, f2n_polymod_t.cpp:233-241, fpn_polymod_t.cpp:231-239: r is destroyed in any case; None: false *)
Section Mod.
Context {A : Type} (o : kops A).
Definition mod_from (x : scan (list A)) (m : list A) : res (option (gmod A)) :=
  match x with
  | Read r => a <- gm_make o r m ;; Ok (Some a)
  | Rejected _ => Ok None
  | Freed => UB
  end.
(* fp_polymod_t.cpp:236-240 and the same lines of the others: the residue is reduced even after a failure *)
Definition mod_in (a : gmod A) (x : scan (list A) * istr) : res (gmod A * istr) :=
  r <- alive (fst x) ;; r <- gp_mod o r (gm_mod a) ;; Ok (mkgm r (gm_mod a), snd x).
End Mod.
Definition fpm_scan (c : cache) (t : list ascii) (m : list intmod) : res (option (gmod intmod)) :=
  m0 <- getk m 0 ;; x <- fp_scan c (modulus m0) t ;; mod_from (im_kops c) x m.
Definition f2nm_scan (t : list ascii) (m : list fpmod) : res (option (gmod fpmod)) :=
  m0 <- getk m 0 ;; x <- f2n_scan (pm_mod m0) t ;; mod_from f2n_kops x m.
Definition fpnm_scan (c : cache) (t : list ascii) (m : list fpc) : res (option (gmod fpc)) :=
  m0 <- getk m 0 ;; x <- fpn_scan c (gm_mod m0) t ;; mod_from (fpn_kops c) x m.
Definition fpm_iss (c : cache) (a : gmod intmod) (s : istr) : res (gmod intmod * istr) :=
  x <- fp_in c (gm_res a) s ;; mod_in (im_kops c) a x.
Definition f2nm_iss (a : gmod fpmod) (s : istr) : res (gmod fpmod * istr) :=
  x <- f2n_iss (gm_res a) s ;; mod_in f2n_kops a x.
Definition fpnm_iss (c : cache) (a : gmod fpc) (s : istr) : res (gmod fpc * istr) :=
  x <- fpn_in c (gm_res a) s ;; mod_in (fpn_kops c) a x.

(* ---------------------------------------------------------------- *)
(* fractions: intrat_t.cpp:166-245, fp_polyrat_t.cpp:177-257 and the same lines of f2_polyrat_t.cpp, f2n_polyrat_t.cpp *)
Fixpoint drop_char (c : ascii) (t : list ascii) : list ascii :=
  match t with x :: t' => if (x =? c)%char then drop_char c t' else t | [] => [] end.
(* while (is.peek() == c) is.ignore(1, c); *)
Definition skip_char (c : ascii) (s : istr) : istr :=
  if good s then let t := drop_char c (i_text s) in mkis t (no_text t) false false else set_fail s.
Section Frac.
Context {A R : Type} (get : A -> istr -> res (A * istr)) (one : A -> res A) (mk : A -> A -> res R).
(* iss: the overload for std::istringstream *)
Definition frac_in (iss : bool) (n0 d0 : A) (s : istr) : res (R * istr) :=
  let s := skip_char "010"%char (skip_char "009"%char (skip_char " "%char s)) in
  '(n, s) <- get n0 s ;;
  d0 <- (if i_eof s then one n else Ok d0) ;;
  let ended := iss && i_eof s in
  let '(c, s) := if ended then (None, s) else peek s in
  '(d, s) <- (if is_char "/" c then get d0 (drop1 s)
              else if ended then Ok (d0, s) else d <- one n ;; Ok (d, clear s)) ;;
  r <- mk n d ;; Ok (r, s).
End Frac.
Definition rat_in (iss : bool) (a : intrat) (s : istr) : res (intrat * istr) :=
  frac_in (fun v s => Ok (get_int v s)) (fun _ => Ok 1%Z) simplify iss (numer a) (denom a) s.
(* None: false *)
Definition rat_scan (a : intrat) (t : list ascii) : res (option intrat) :=
  '(r, s) <- rat_in true a (open_text t) ;; Ok (if failed s then None else Some r).
(* the numerator or denominator is used after it has been read *)
Definition used {A : Type} (x : scan A * istr) : res (A * istr) := l <- alive (fst x) ;; Ok (l, snd x).
Definition fpq_in (c : cache) (iss : bool) (a : qrat (list intmod)) (s : istr) : res (qrat (list intmod) * istr) :=
  frac_in (fun l s => x <- fp_in c l s ;; used x) (fun n => gp_int (im_kops c) n 1) (gq_make (im_kops c)) iss (r_num a) (r_den a) s.
Definition f2nq_in (iss : bool) (a : qrat (list fpmod)) (s : istr) : res (qrat (list fpmod) * istr) :=
  frac_in (fun l s => x <- (if iss then f2n_iss l s else f2n_is l s) ;; used x) (fun n => gp_int f2n_kops n 1) (gq_make f2n_kops)
    iss (r_num a) (r_den a) s.
Definition f2q_in (iss : bool) (a : qrat fpoly) (s : istr) : res (qrat fpoly * istr) :=
  frac_in (fun _ s => f2_in s) (fun _ => Ok (f2_of_int 1)) f2q_make iss (r_num a) (r_den a) s.
Definition fpq_scan (c : cache) (p : Z) (t : list ascii) : res (option (qrat (list intmod))) :=
  z <- im_make 0 p ;; n <- gp_const (im_kops c) z ;; u <- im_make 1 p ;; d <- gp_const (im_kops c) u ;;
  '(r, s) <- fpq_in c true (mkrat n d) (open_text t) ;; Ok (if failed s then None else Some r).
Definition f2nq_scan (m : fpoly) (t : list ascii) : res (option (qrat (list fpmod))) :=
  z <- pm_make (f2_of_int 0) m ;; n <- gp_const f2n_kops z ;; u <- pm_make (f2_of_int 1) m ;; d <- gp_const f2n_kops u ;;
  '(r, s) <- f2nq_in true (mkrat n d) (open_text t) ;; Ok (if failed s then None else Some r).
Definition f2q_scan (a : qrat fpoly) (t : list ascii) : res (option (qrat fpoly)) :=
  '(r, s) <- f2q_in true a (open_text t) ;; Ok (if failed s then None else Some r).
(* output *)
Definition put_frac {A : Type} (put : A -> res (list ascii)) (isone : A -> res bool) (a : qrat A) : res (list ascii) :=
  n <- put (r_num a) ;; b <- isone (r_den a) ;;
  if b : bool then Ok n else d <- put (r_den a) ;; Ok (n ++ "/"%char :: d).
Definition fpq_put (c : cache) := put_frac fp_put (fun a => gp_eq_int (im_kops c) a 1).
Definition f2nq_put := put_frac f2n_put (fun a => gp_eq_int f2n_kops a 1).
Definition f2q_put := put_frac f2_put (fun a => f2_eq_int a 1).
