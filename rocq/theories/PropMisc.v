(* Final theorems for count_bits, psdes and tokenize. *)
From Verif Require Import Base MMisc PMisc.
Open Scope Z_scope.

(* ---- C15 ---- *)
(* state32: a pair of 32-bit words. *)
Theorem C15_inverse : exists inv : N * N -> N * N,
  (forall w, state32 w -> state32 (psdes_hash_64 w)) /\ (forall w, state32 w -> state32 (inv w)) /\
  (forall w, inv (psdes_hash_64 w) = w) /\ (forall w, psdes_hash_64 (inv w) = w).
Proof. exact (ex_intro _ psdes_inverse (conj hash_state (conj inverse_state (conj hash_inv hash_inv')))). Qed.
Theorem C15_no_repeat (k : nat) (s : N * N) : state32 s -> (N.of_nat k <= 2 ^ 64)%N -> NoDup (iran64_seq k s).
Proof. exact (iran64_seq_nodup k s). Qed.
Theorem C15_seq (k j : nat) (s : N * N) : (j < k)%nat ->
  nth_error (iran64_seq k s) j = Some (psdes_hash_64 (nth_state j s)).
Proof. exact (fun H => iran64_seq_nth k j s H). Qed.
Theorem C15_counter (k : nat) (s : N * N) : state32 s ->
  ctr (nth_state k s) = ((ctr s + N.of_nat k) mod 2 ^ 64)%N.
Proof. exact (fun H => proj2 (nth_state_ctr k s H)). Qed.
Theorem C15_period (k : nat) (s : N * N) : state32 s -> N.of_nat k = (2 ^ 64)%N -> nth_state k s = s.
Proof. exact (nth_state_period k s). Qed.
(* Known answers of the routine printed in Numerical Recipes (psdes): (1,1), (1,99), (99,1). *)
Example C15_ex : psdes_hash_64 (1, 1)%N = (0x604d1dce, 0x509c0c23)%N
  /\ psdes_hash_64 (1, 99)%N = (0xd97f8571, 0xa66cb41a)%N /\ psdes_hash_64 (99, 1)%N = (0x7822309d, 0x64300984)%N
  /\ state32 (99, 1)%N /\ psdes_next (7, 4294967295)%N = (8, 0)%N.
Proof. repeat split. Qed.

(* ---- C21 ---- *)
(* weight: sum over the bytes of the number of i < 8 with bit i set. *)
Theorem C21_count (mem : list Z) : (forall b, In b mem -> 0 <= b < 256) -> 8 * Z.of_nat (length mem) <= INT_MAX ->
  count_one_bits mem (Z.of_nat (length mem)) = Ok (weight mem).
Proof. exact (count_one_bits_ok mem). Qed.
Theorem C21_count_nonpos (mem : list Z) (n : Z) : n <= 0 -> count_one_bits mem n = Ok 0.
Proof. exact (count_one_bits_nonpos mem n). Qed.
Example C21_ex : (forall b, In b [255; 0; 16; 131] -> 0 <= b < 256) /\ count_one_bits [255; 0; 16; 131] 4 = Ok 12.
Proof. split; [|reflexivity]. cbn. intros b H. lia. Qed.

(* ---- C45 ---- *)
(* no0 line: no NUL inside the string; cstr buf off: the C string at an offset. *)
Theorem C45_tokenize (line seps : list Z) (maxargs : Z) : no0 line ->
  exists buf argv, tokenize (line ++ [0]) seps maxargs = Ok (buf, argv) /\ length buf = length (line ++ [0]) /\
    map (cstr buf) argv = firstn (Z.to_nat maxargs) (tokens (is_sep seps) line).
Proof. exact (tokenize_ok line seps maxargs). Qed.
Theorem C45_count (line seps : list Z) : no0 line -> Z.of_nat (length line) <= INT_MAX ->
  count_tokens (line ++ [0]) seps = Ok (Z.of_nat (length (tokens (is_sep seps) line))).
Proof. exact (count_tokens_ok line seps). Qed.
(* What "tokens" means. *)
Theorem C45_spec_content (sep : Z -> bool) (l : list Z) :
  concat (tokens sep l) = filter (fun c => negb (sep c)) l.
Proof. exact (tokens_concat sep l). Qed.
Theorem C45_spec_words (sep : Z -> bool) (l w : list Z) : In w (tokens sep l) -> w <> [] /\ forall c, In c w -> sep c = false.
Proof. exact (tokens_words sep l w). Qed.
Theorem C45_spec_maximal (sep : Z -> bool) (cur : list Z) (c : Z) (rest : list Z) :
  (forall x, In x cur -> sep x = false) -> sep c = true ->
  tokens sep (cur ++ c :: rest) = (if nonempty cur then [cur] else []) ++ tokens sep rest.
Proof. exact (tokens_sep' sep cur c rest). Qed.
Example C45_ex : no0 [32; 97; 98; 32; 9; 99; 32; 100] /\
  tokenize ([32; 97; 98; 32; 9; 99; 32; 100] ++ [0]) [32; 9] 2 = Ok ([32; 97; 98; 0; 9; 99; 0; 0; 0], [1%nat; 5%nat]) /\
  tokens (is_sep [32; 9]) [32; 97; 98; 32; 9; 99; 32; 100] = [[97; 98]; [99]; [100]].
Proof. split; [|split; reflexivity]. cbn. unfold no0; cbn; intros c H; lia. Qed.

Print Assumptions C15_inverse. Print Assumptions C15_no_repeat. Print Assumptions C15_seq. Print Assumptions C15_counter.
Print Assumptions C15_period. Print Assumptions C21_count. Print Assumptions C21_count_nonpos.
Print Assumptions C45_tokenize. Print Assumptions C45_count. Print Assumptions C45_spec_content.
Print Assumptions C45_spec_words. Print Assumptions C45_spec_maximal.
