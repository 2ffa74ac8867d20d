(* Models of spffl/bits/count_bits.cpp, spffl/bitrand/psdes.cpp and
   spffl/base/tokenize.cpp. Definitions only. *)
From Verif Require Import Base.
Open Scope Z_scope.

(* ---------------------------------------------------------------- *)
(* count_bits.cpp:11-268 *)
Definition byte_num_one_bits : list Z := [
0;1;1;2;1;2;2;3;1;2;2;3;2;3;3;4;1;2;2;3;2;3;3;4;2;3;3;4;3;4;4;5;
1;2;2;3;2;3;3;4;2;3;3;4;3;4;4;5;2;3;3;4;3;4;4;5;3;4;4;5;4;5;5;6;
1;2;2;3;2;3;3;4;2;3;3;4;3;4;4;5;2;3;3;4;3;4;4;5;3;4;4;5;4;5;5;6;
2;3;3;4;3;4;4;5;3;4;4;5;4;5;5;6;3;4;4;5;4;5;5;6;4;5;5;6;5;6;6;7;
1;2;2;3;2;3;3;4;2;3;3;4;3;4;4;5;2;3;3;4;3;4;4;5;3;4;4;5;4;5;5;6;
2;3;3;4;3;4;4;5;3;4;4;5;4;5;5;6;3;4;4;5;4;5;5;6;4;5;5;6;5;6;6;7;
2;3;3;4;3;4;4;5;3;4;4;5;4;5;5;6;3;4;4;5;4;5;5;6;4;5;5;6;5;6;6;7;
3;4;4;5;4;5;5;6;4;5;5;6;5;6;6;7;4;5;5;6;5;6;6;7;5;6;6;7;6;7;7;8].
(* count_bits.cpp:271-278.  mem is the byte array at p; reading past it is UB. *)
Fixpoint count_loop (k : nat) (mem : list Z) (i : nat) (rv : Z) : res Z :=
  match k with
  | O => Ok rv
  | S k' =>
      match nth_error mem i with
      | None => UB
      | Some b =>
          match nth_error byte_num_one_bits (Z.to_nat b) with
          | None => UB
          | Some c => rv' <- iadd rv c ;; count_loop k' mem (S i) rv'
          end
      end
  end.
Definition count_one_bits (mem : list Z) (nbytes : Z) : res Z :=
  count_loop (Z.to_nat nbytes) mem 0 0.

(* ---------------------------------------------------------------- *)
(* psdes.cpp:133-134 *)
Definition psdes_c1 : list N := [0xbaa96887; 0x1e17d32c; 0x03bcdc3c; 0x0f33d1b2]%N.
Definition psdes_c2 : list N := [0x4b0f3b58; 0xe874f0c3; 0x6955c5a6; 0x55a7ca46]%N.
Definition w32 (n : N) : N := (n mod 4294967296)%N.
(* psdes.cpp:139-144: the round function applied to the right-hand member. *)
Definition psdes_f (c1 c2 iswap : N) : N :=
  (let ia := N.lxor iswap c1 in
   let ial := N.land ia 0xffff in
   let iah := N.shiftr ia 16 in
   let ib := w32 (w32 (ial * ial) + (4294967295 - w32 (iah * iah))) in
   let ic := N.lor (N.shiftr ib 16) (w32 (N.shiftl (N.land ib 0xffff) 16)) in
   w32 (N.lxor ic c2 + w32 (ial * iah)))%N.
(* psdes.cpp:136-147: one turn. *)
Definition psdes_round (c : N * N) (w : N * N) : N * N :=
  let '(word0, word1) := w in
  (word1, N.lxor word0 (psdes_f (fst c) (snd c) word1)).
(* psdes.cpp:130-148 *)
Definition psdes_hash_64 (w : N * N) : N * N :=
  fold_left (fun w c => psdes_round c w) (combine psdes_c1 psdes_c2) w.

(* psdes.cpp:71-74, 87-90 *)
Definition psdes_next (s : N * N) : N * N :=
  let '(s0, s1) := s in
  let s1' := w32 (s1 + 1) in
  (if (s1' =? 0)%N then w32 (s0 + 1)%N else s0, s1').
(* psdes.cpp:81-91: (output, new state) *)
Definition iran64_r (s : N * N) : (N * N) * (N * N) := (psdes_hash_64 s, psdes_next s).
(* psdes.cpp:66-78 *)
Definition iran32_r (s : N * N) : N * (N * N) := (snd (psdes_hash_64 s), psdes_next s).
(* Outputs of k successive calls from state s. *)
Fixpoint iran64_seq (k : nat) (s : N * N) : list (N * N) :=
  match k with O => [] | S k' => let '(o, s') := iran64_r s in o :: iran64_seq k' s' end.

(* ---------------------------------------------------------------- *)
(* tokenize.cpp:35-41 *)
Definition is_sep (seps : list Z) (c : Z) : bool := existsb (Z.eqb c) seps.

(* tokenize.cpp:33-60.  buf: the memory at line; argv: offsets of the tokens
   found so far (in order).  Running off the buffer is UB. *)
Fixpoint tok_loop (fuel : nat) (seps : list Z) (maxargs : Z)
    (buf : list Z) (i : nat) (inside : bool) (argv : list nat)
  : res (list Z * nat * bool * list nat) :=
  match fuel with
  | O => Div
  | S k =>
      match nth_error buf i with
      | None => UB
      | Some c =>
          if c =? 0 then Ok (buf, i, inside, argv)
          else if is_sep seps c then
            (if inside then tok_loop k seps maxargs (upd buf i 0) (S i) false argv
             else tok_loop k seps maxargs buf (S i) false argv)
          else if inside then tok_loop k seps maxargs buf (S i) true argv
          else if Z.of_nat (length argv) >=? maxargs then Ok (buf, i, true, argv)
          else tok_loop k seps maxargs buf (S i) true (argv ++ [i])
      end
  end.
(* tokenize.cpp:26-67: final memory and argv (argc is its length). *)
Definition tokenize (buf : list Z) (seps : list Z) (maxargs : Z) : res (list Z * list nat) :=
  ' (buf', i, inside, argv) <- tok_loop (S (length buf)) seps maxargs buf 0 false [] ;;
  if (inside : bool) then (if Nat.ltb i (length buf') then Ok (upd buf' i 0, argv) else UB)
  else Ok (buf', argv).

(* tokenize.cpp:70-105 *)
Fixpoint count_tok_loop (fuel : nat) (seps buf : list Z) (i : nat) (inside : bool) (argc : Z) : res Z :=
  match fuel with
  | O => Div
  | S k =>
      match nth_error buf i with
      | None => UB
      | Some c =>
          if c =? 0 then Ok argc
          else if is_sep seps c then count_tok_loop k seps buf (S i) false argc
          else if inside then count_tok_loop k seps buf (S i) true argc
          else a <- iadd argc 1 ;; count_tok_loop k seps buf (S i) true a
      end
  end.
Definition count_tokens (buf seps : list Z) : res Z :=
  count_tok_loop (S (length buf)) seps buf 0 false 0.
