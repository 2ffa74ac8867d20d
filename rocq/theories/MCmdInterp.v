(* Model of spffl/cli_parser/cmd_interp.cpp: replacement of { ... } on the command line by the
   output of the command between the brackets.  Words are lists of bytes without the final
   NUL.  What the shell does with a command (popen, 91) is a parameter: [run s cmd] gives the
   bytes the command writes, or None if popen fails, and the new state of the outside world.
   Allocation failures (73-77) are left out; argument counts are taken to fit an int.
   Definitions only. *)
From Verif Require Import Base MMisc.
Open Scope Z_scope.

Definition LBRK : list Z := [123].
Definition RBRK : list Z := [125].
Definition streq (a b : list Z) : bool := if list_eq_dec Z.eq_dec a b then true else false.

(* 16-25: the index of the first argument equal to brkt *)
Fixpoint find_first_bracket (argv : list (list Z)) (brkt : list Z) : option nat :=
  match argv with
  | [] => None
  | w :: r => if streq w brkt then Some O else option_map S (find_first_bracket r brkt)
  end.

(* 28-48; None: return from inside the loop *)
Fixpoint balance_loop (depth : Z) (argv : list (list Z)) : option Z :=
  match argv with
  | [] => Some depth
  | w :: r =>
      if depth <? 0 then None
      else balance_loop (if streq w LBRK then depth + 1 else if streq w RBRK then depth - 1 else depth) r
  end.
Definition check_balance (argv : list (list Z)) : bool :=
  match balance_loop 0 argv with Some d => d =? 0 | None => false end.

(* 51-63: argv from righti on; argc if the loop ends *)
Fixpoint match_loop (depth : Z) (righti : nat) (argv : list (list Z)) : nat :=
  match argv with
  | [] => righti
  | w :: r =>
      if streq w RBRK then if depth - 1 =? 0 then righti else match_loop (depth - 1) (S righti) r
      else if streq w LBRK then match_loop (depth + 1) (S righti) r
      else match_loop depth (S righti) r
  end.
Definition find_matching_right_bracket (argv : list (list Z)) (lefti : nat) : nat :=
  match_loop 1 (S lefti) (skipn (S lefti) argv).

(* a C string stored in an allocation of cap bytes; writing past the end is undefined *)
Definition put (cap : Z) (str : list Z) : res (list Z) := if Z.of_nat (length str) + 1 <=? cap then Ok str else UB.
Definition strlen (w : list Z) : Z := Z.of_nat (length w).

(* 67-84 *)
Fixpoint flat_len (len : Z) (argv : list (list Z)) : res Z :=
  match argv with [] => Ok len | w :: r => a <- chk (len + (strlen w + 1)) ;; flat_len a r end.
Fixpoint flat_cat (cap : Z) (rv : list Z) (argv : list (list Z)) : res (list Z) :=
  match argv with
  | [] => Ok rv
  | w :: r => rv1 <- put cap (rv ++ [32]) ;; rv2 <- put cap (rv1 ++ w) ;; flat_cat cap rv2 r
  end.
Definition flatten (exename : list Z) (argv : list (list Z)) : res (list Z) :=
  l0 <- chk (strlen exename + 1) ;;
  len <- flat_len l0 argv ;;
  rv <- put len exename ;;
  flat_cat len rv argv.

(* fgets: at most n bytes, up to and including a newline; the bytes read and the rest *)
Fixpoint fgets_take (n : nat) (s : list Z) : list Z * list Z :=
  match n, s with
  | S k, c :: r => if c =? 10 then ([c], r) else let '(a, b) := fgets_take k r in (c :: a, b)
  | _, _ => ([], s)
  end.
Fixpoint c_string (l : list Z) : list Z := match l with [] => [] | c :: t => if c =? 0 then [] else c :: c_string t end.

(* 98-117; line is char[4096]; line[curlen - 1] is outside the array if the line is empty *)
Fixpoint read_loop (fuel : nat) (s : list Z) (buf : option (list Z)) (totlen : Z) : res (option (list Z)) :=
  match s with
  | [] => Ok buf
  | _ =>
      match fuel with
      | O => Div
      | S k =>
          let '(chunk, rest) := fgets_take (Z.to_nat 4095) s in
          let line := c_string chunk in
          if strlen line =? 0 then UB
          else
            let line := if last line 0 =? 10 then removelast line else line in
            match buf with
            | None =>
                c <- chk (strlen line + 1) ;; b <- put c line ;; read_loop k rest (Some b) c
            | Some b0 =>
                c <- chk (totlen + strlen line + 2) ;;
                b1 <- put c (b0 ++ [32]) ;; b2 <- put c (b1 ++ line) ;; read_loop k rest (Some b2) c
            end
      end
  end.

Section Run.
Variables (St : Type) (run : St -> list Z -> option (list Z) * St) (exename : list Z).

(* 98-133: output of a command to words *)
Definition output_words (out : list Z) : res (list (list Z)) :=
  ob <- read_loop (length out) out None 0 ;;
  let buf := match ob with None => [] | Some b => b end in
  argcout <- count_tokens (buf ++ [0]) [32; 9] ;;
  '(mem, offs) <- tokenize (buf ++ [0]) [32; 9] argcout ;;
  if Z.of_nat (length offs) =? argcout then Ok (map (fun off => c_string (skipn off mem)) offs) else Exn.
(* 87-134 *)
Definition replace (argv : list (list Z)) (s : St) : res (list (list Z) * St) :=
  cmd <- flatten exename argv ;;
  match run s cmd with
  | (None, _) => Exn
  | (Some out, s') => ws <- output_words out ;; Ok (ws, s')
  end.

(* 137-188: (interpolated, argv, state) *)
Definition cmd_interpolate_once (argv : list (list Z)) (s : St) : res (bool * list (list Z) * St) :=
  match find_first_bracket argv LBRK with
  | None => match find_first_bracket argv RBRK with Some _ => Exn | None => Ok (false, argv, s) end
  | Some lefti =>
      if check_balance argv then
        let righti := find_matching_right_bracket argv lefti in
        '(argvout, s') <- replace (firstn (righti - lefti - 1) (skipn (S lefti) argv)) s ;;
        Ok (true, firstn lefti argv ++ argvout ++ skipn (S righti) argv, s')
      else Exn
  end.
(* 191-196 *)
Fixpoint cmd_interpolate (fuel : nat) (argv : list (list Z)) (s : St) : res (list (list Z) * St) :=
  match fuel with
  | O => Div
  | S k =>
      '(i, argv', s') <- cmd_interpolate_once argv s ;;
      if (i : bool) then cmd_interpolate k argv' s' else Ok (argv', s')
  end.
End Run.
