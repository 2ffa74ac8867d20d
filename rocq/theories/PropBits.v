(* Final theorems for spffl/bits: bit_t, bit_vector_t, bit_matrix_t.

   [B v l]: the vector object v holds exactly the bits l (length at least one).
   [bmat_is t a]: the matrix object t holds the matrix a over the field with two
   elements.  tm: what bit_vector_t::trim does (None: undefined behaviour as in the C++
   standard; Some m: it masks with an arbitrary word m). *)
From Verif Require Import Base MIntMath MMat MBits PBits PBits2.
From mathcomp Require Import all_ssreflect fingroup perm all_algebra ssrZ.
From Verif Require Import PMat PropMat PBits3.
Set Implicit Arguments.
Unset Strict Implicit.
Unset Printing Implicit Defensive.
Import GRing.Theory.
Delimit Scope Z_scope with coqZ.
Local Open Scope ring_scope.

(* ---- C16 ---- *)
Theorem C16_new (n : nat) : (0 < n)%coq_nat -> exists v, bv_new n = Ok v /\ B v (repeat false n).
Proof. exact (B_new n). Qed.
Theorem C16_get v l (i : nat) : B v l -> (i < length l)%coq_nat -> bv_get v (Z.of_nat i) = Ok (List.nth i l false).
Proof. exact (B_get v l i). Qed.
Theorem C16_set v l (i : nat) b : B v l -> (i < length l)%coq_nat ->
  exists v', bv_set v (Z.of_nat i) b = Ok v' /\
    exists l', B v' l' /\ length l' = length l /\
      List.nth i l' false = b /\ forall j, j <> i -> List.nth j l' false = List.nth j l false.
Proof.
exact (fun h hi => match B_set v l i b h hi with ex_intro v' (conj e hb) =>
  ex_intro _ v' (conj e (ex_intro _ (upd l i b) (conj hb (conj (upd_length l i b)
   (conj (nth_upd_eq l i b false hi) (fun j hj => nth_upd_ne l i j b false hj)))))) end).
Qed.
Theorem C16_toggle v l (i : nat) : B v l -> (i < length l)%coq_nat ->
  exists v', bv_toggle v (Z.of_nat i) = Ok v' /\
    exists l', B v' l' /\ length l' = length l /\
      List.nth i l' false = negb (List.nth i l false) /\ forall j, j <> i -> List.nth j l' false = List.nth j l false.
Proof.
exact (fun h hi => match B_toggle v l i h hi with ex_intro v' (conj e hb) =>
  ex_intro _ v' (conj e (ex_intro _ (upd l i (negb (List.nth i l false))) (conj hb (conj (upd_length l i _)
   (conj (nth_upd_eq l i _ false hi) (fun j hj => nth_upd_ne l i j _ false hj)))))) end).
Qed.
Theorem C16_out_of_range v l (z : Z) b : B v l -> (Z.lt z 0 \/ Z.le (Z.of_nat (length l)) z) ->
  bv_get v z = Exn /\ bv_set v z b = Exn /\ bv_toggle v z = Exn.
Proof. exact (fun h hz => conj (B_get_out v l z h hz) (conj (B_set_out v l z b h hz) (B_toggle_out v l z h hz))). Qed.

(* position by position *)
Definition pointwise (f : bool -> bool -> bool) (l l' r : list bool) : Prop :=
  length r = length l /\
  forall i, (i < length l)%coq_nat -> List.nth i r false = f (List.nth i l false) (List.nth i l' false).
Lemma map2b_pointwise f l l' : f false false = false -> length l = length l' -> pointwise f l l' (map2b f l l').
Proof. by move=> h e; split; [exact: map2b_length|move=> i _; apply: map2b_nth]. Qed.
Lemma arith_thm v u l l' : B v l -> B u l' -> length l = length l' ->
  [/\ exists w r, [/\ bv_add v u = Ok w, B w r & pointwise xorb l l' r],
      exists w r, [/\ bv_sub v u = Ok w, B w r & pointwise xorb l l' r],
      exists w r, [/\ bv_mul v u = Ok w, B w r & pointwise andb l l' r],
      exists w r, [/\ bv_xor_in v u = Ok w, B w r & pointwise xorb l l' r] &
      exists w r, [/\ bv_and_in v u = Ok w, B w r & pointwise andb l l' r]].
Proof.
move=> hv hu e; split.
- by have [w [ew hw]] := B_comb _ _ _ _ _ _ wordop_xor hv hu e; exists w, (map2b xorb l l'); split=> //; exact: map2b_pointwise.
- by have [w [ew hw]] := B_comb _ _ _ _ _ _ wordop_xor hv hu e; exists w, (map2b xorb l l'); split=> //; exact: map2b_pointwise.
- by have [w [ew hw]] := B_comb _ _ _ _ _ _ wordop_and hv hu e; exists w, (map2b andb l l'); split=> //; exact: map2b_pointwise.
- by have [w [ew hw]] := B_xor_in _ _ _ _ hv hu e; exists w, (map2b xorb l l'); split=> //; exact: map2b_pointwise.
- by have [w [ew hw]] := B_and_in _ _ _ _ hv hu e; exists w, (map2b andb l l'); split=> //; exact: map2b_pointwise.
Qed.
Theorem C16_arith v u l l' : B v l -> B u l' -> length l = length l' ->
  [/\ exists w r, [/\ bv_add v u = Ok w, B w r & pointwise xorb l l' r],
      exists w r, [/\ bv_sub v u = Ok w, B w r & pointwise xorb l l' r],
      exists w r, [/\ bv_mul v u = Ok w, B w r & pointwise andb l l' r],
      exists w r, [/\ bv_xor_in v u = Ok w, B w r & pointwise xorb l l' r] &
      exists w r, [/\ bv_and_in v u = Ok w, B w r & pointwise andb l l' r]].
Proof. exact (@arith_thm v u l l'). Qed.
Lemma dot_thm v u l l' : B v l -> B u l' -> length l = length l' ->
  exists d, bv_dot v u = Ok d /\
    Ib d = \sum_(i < length l) Ib (List.nth i l false) * Ib (List.nth i l' false).
Proof.
move=> hv hu e; exists (dotb l l'); split; first exact: B_dot hu e.
rewrite dotb_seq // xsum_sum.
by apply: eq_bigr => i _; rewrite Ib_and.
Qed.
Theorem C16_dot v u l l' : B v l -> B u l' -> length l = length l' ->
  exists d, bv_dot v u = Ok d /\
    Ib d = \sum_(i < length l) Ib (List.nth i l false) * Ib (List.nth i l' false).
Proof. exact (@dot_thm v u l l'). Qed.
Theorem C16_length_mismatch v u l l' : B v l -> B u l' -> length l <> length l' ->
  bv_add v u = Exn /\ bv_sub v u = Exn /\ bv_mul v u = Exn.
Proof. exact (fun hv hu e => conj (comb_len _ v l u l' hv hu e) (conj (comb_len _ v l u l' hv hu e) (comb_len _ v l u l' hv hu e))). Qed.
Theorem C16_copy v l : B v l -> (exists v', bv_copy v = Ok v' /\ B v' l) /\
  bv_find_leader_pos v = Ok (first_true l) /\
  (forall i, first_true l = Some i <-> (List.nth i l false = true /\ forall j, (j < i)%coq_nat -> List.nth j l false = false)) /\
  (first_true l = None <-> forall i, List.nth i l false = false).
Proof.
refine (fun h => conj (B_copy v l h) (conj (B_leader v l h) (conj _ (conj (@first_true_none_inv l) (@first_true_none l))))).
move=> i; split.
  elim: l i {h} => [//|x l IH] i /=; case: x => [[<-]|]; first by split=> // j /ltP.
  case E: (first_true l) => [k|] // -[<-]; have [h1 h2] := IH k E; split=> //.
  by case=> // j /ltP; rewrite ltnS => /ltP; apply: h2.
case=> h1 h2; apply: first_true_some => //; case: (ltnP i (length l)) => [/ltP//|hi].
by move: h1; rewrite nth_overflow //; apply/leP.
Qed.
(* constructing a vector filled with a constant, or assigning one, evaluates shifts by
   out-of-range amounts for every length that is not a multiple of 64 *)
Theorem C16_fill_refuted b (n : nat) : (0 < n)%coq_nat -> Nat.modulo n 64 <> 0%N -> bv_fill None b n = UB.
Proof. exact (fill_ub b n). Qed.
Theorem C16_fill tm b (n : nat) : (0 < n)%coq_nat -> Nat.modulo n 64 = 0%N ->
  exists v, bv_fill tm b n = Ok v /\ B v (repeat b n).
Proof. exact (B_fill_mult tm b n). Qed.
(* assignment from a vector with more words overruns the target's buffer *)
Lemma assign_thm (n n' : nat) : (0 < n')%coq_nat -> (nwords n' < nwords n)%coq_nat ->
  exists u v, [/\ B u (repeat false n'), B v (repeat false n) & bv_assign u v = UB].
Proof.
move=> h1 h2; have h3 : (0 < n)%coq_nat by case: n h2 => [|n]; [rewrite /nwords => /ltP|move=> _; apply/ltP].
have [u [eu hu]] := B_new n' h1; have [v [ev hv]] := B_new n h3.
exists u, v; split=> //; apply: assign_overrun.
- by case: hu => ws [->].
- by case: hv => ws [->].
- have [_ [-> _]] := B_words _ _ hv; rewrite repeat_length.
  move: eu; rewrite /bv_new; case: (Nat.eqb_spec n' 0) => // _ -[<-] /=.
  by rewrite repeat_length.
Qed.
Theorem C16_assign_refuted (n n' : nat) : (0 < n')%coq_nat -> (nwords n' < nwords n)%coq_nat ->
  exists u v, [/\ B u (repeat false n'), B v (repeat false n) & bv_assign u v = UB].
Proof. exact (@assign_thm n n'). Qed.
Theorem C16_assign u l0 v l : B u l0 -> B v l -> (nwords (length l) <= nwords (length l0))%coq_nat ->
  exists v', bv_assign u v = Ok v' /\ B v' l.
Proof. exact (B_assign u l0 v l). Qed.

(* ---- C17 ---- *)
(* What == decides: equal lengths and equal bits before the last word. *)
Theorem C17_eq_partial v u l l' : B v l -> B u l' -> exists b, bv_eq v u = Ok b /\
  (b = true <-> length l = length l' /\
     forall i, (i < full_words (length l))%coq_nat -> List.nth i l false = List.nth i l' false).
Proof. exact (B_eq v l u l'). Qed.
Theorem C17_eq_bit_partial v l b : B v l -> exists r, bv_eq_bit v b = Ok r /\
  (r = true <-> forall i, (i < full_words (length l))%coq_nat -> List.nth i l false = b).
Proof. exact (B_eq_bit v l b). Qed.
(* For every length there are unequal vectors that compare equal. *)
Lemma eq_refuted n : (0 < n)%coq_nat -> exists v u l l',
  [/\ B v l, B u l', length l = n /\ length l' = n, l <> l' &
      bv_eq v u = Ok true /\ bv_eq_bit u false = Ok true /\ List.nth (n - 1)%coq_nat l' false = true].
Proof.
move=> hn; have [v [_ hv]] := B_new n hn.
have hl : (n - 1 < length (repeat false n))%coq_nat by rewrite repeat_length; lia.
have [u [_ hu]] := B_set v _ (n - 1)%coq_nat true hv hl.
have ht := nth_upd_eq (repeat false n) _ true false hl.
exists v, u, (repeat false n), (upd (repeat false n) (n - 1)%coq_nat true); split=> //.
- by rewrite upd_length repeat_length.
- by move=> e; move: ht; rewrite -e nth_repeat_lt // -{2}(repeat_length false n).
have hlt i : (i < full_words n)%coq_nat -> List.nth i (upd (repeat false n) (n - 1)%coq_nat true) false = false.
  rewrite /full_words => hi; have := nwords_le n => h; rewrite nth_upd_ne; last lia.
  by apply: nth_repeat_lt; lia.
split; [|split=> //].
  have [b [-> h]] := B_eq _ _ _ _ hv hu; congr Ok; apply/h.
  split; first by rewrite upd_length.
  move=> i; rewrite repeat_length => hi; rewrite hlt //.
  by apply: nth_repeat_lt; have := nwords_le n; move: hi; rewrite /full_words; lia.
have [b [-> h]] := B_eq_bit _ _ false hu; congr Ok; apply/h.
by move=> i; rewrite upd_length repeat_length; apply: hlt.
Qed.
Theorem C17_eq_refuted n : (0 < n)%coq_nat -> exists v u l l',
  [/\ B v l, B u l', length l = n /\ length l' = n, l <> l' &
      bv_eq v u = Ok true /\ bv_eq_bit u false = Ok true /\ List.nth (n - 1)%coq_nat l' false = true].
Proof. exact (@eq_refuted n). Qed.

(* ---- C18 ---- *)
Theorem C18_row_echelon m n t (a : 'M['F_2]_(m, n)) : (0 < m)%N -> (0 < n)%N -> bmat_is t a ->
  exists t' (b : 'M['F_2]_(m, n)), [/\ bm_rech t = Ok t', bmat_is t' b, is_rref b & (a :=: b)%MS].
Proof. exact (fun hm hn => bm_rech_thm hm hn (t := t) (a := a)). Qed.
Theorem C18_rank m n t (a : 'M['F_2]_(m, n)) : (0 < m)%N -> (0 < n)%N -> bmat_is t a ->
  bm_rank t = Ok (\rank a).
Proof. exact (fun hm hn => bm_rank_thm hm hn (t := t) (a := a)). Qed.

(* ---- C19 ---- *)
(* rbas is the caller's matrix that receives the basis *)
Theorem C19_kernel tm m n t (a : 'M['F_2]_(m, n)) rbas : (0 < m)%N -> (0 < n)%N -> bmat_is t a ->
  bm_any rbas -> fill_allowed tm n ->
  exists r, bm_kernel tm t rbas = Ok r /\
    match r with
    | None => forall v : 'cV['F_2]_n, a *m v = 0 -> v = 0
    | Some t' => exists k : 'M['F_2]_(n - \rank a, n),
        [/\ (0 < n - \rank a)%N, bmat_is t' k, row_free k &
            forall v : 'rV['F_2]_n, (v <= k)%MS = (a *m v^T == 0)]
    end.
Proof. exact (fun hm hn => bm_kernel_thm hm hn (tm := tm) (t := t) (a := a) (rbas := rbas)). Qed.
Theorem C19_kernel_refuted m n t (a : 'M['F_2]_(m, n)) rbas : (0 < m)%N -> (0 < n)%N -> bmat_is t a ->
  (n %% 64)%N <> 0%N -> (\rank a < n)%N -> bm_kernel None t rbas = UB.
Proof. exact (fun hm hn => bm_kernel_ub_thm hm hn (t := t) (a := a) rbas). Qed.

(* ---- C20 ---- *)
Theorem C20_det n t (a : 'M['F_2]_n) : (0 < n)%N -> bmat_is t a ->
  exists d, bm_det t = Ok d /\ Ib d = \sum_(s : 'S_n) (-1) ^+ s * \prod_(i < n) a i (s i).
Proof. exact (@bm_det_thm n t a). Qed.
(* the inverse routine throws for every square matrix, invertible or not *)
Lemma inverse_thm n t (a : 'M['F_2]_n) : (0 < n)%N -> bmat_is t a -> bm_inverse t = Exn.
Proof. by move=> /ltP hn [L [h _]]; apply: bm_inverse_throws h hn. Qed.
Theorem C20_inverse_refuted n t (a : 'M['F_2]_n) : (0 < n)%N -> bmat_is t a -> bm_inverse t = Exn.
Proof. exact (@inverse_thm n t a). Qed.

(* ---- C52 ---- *)
(* the entries of a matrix object can be read back *)
Lemma get_thm m n t (a : 'M['F_2]_(m, n)) (i : 'I_m) (j : 'I_n) : bmat_is t a ->
  exists b, bm_get (bm_rows t) i j = Ok b /\ Ib b = a i j.
Proof.
case=> L [[hB [hR [hL hn]]] he]; exists (bent L i j); split=> //.
by apply: bm_get_ok hB hR _ _ _ _; [rewrite hL|]; apply/ltP.
Qed.
Theorem C52_get m n t (a : 'M['F_2]_(m, n)) (i : 'I_m) (j : 'I_n) : bmat_is t a ->
  exists b, bm_get (bm_rows t) i j = Ok b /\ Ib b = a i j.
Proof. exact (@get_thm m n t a i j). Qed.
Theorem C52_add m n t u (a b : 'M['F_2]_(m, n)) : (0 < m)%N -> (0 < n)%N -> bmat_is t a -> bmat_is u b ->
  exists w, bm_add t u = Ok w /\ bmat_is w (a + b).
Proof. exact (@bm_add_thm m n t u a b). Qed.
Theorem C52_transpose m n t (a : 'M['F_2]_(m, n)) : (0 < m)%N -> (0 < n)%N -> bmat_is t a ->
  exists w, bm_transpose t = Ok w /\ bmat_is w a^T.
Proof. exact (@bm_transpose_thm m n t a). Qed.
Theorem C52_mul tm m n k t u (a : 'M['F_2]_(m, n)) (b : 'M['F_2]_(n, k)) :
  (0 < m)%N -> (0 < n)%N -> (0 < k)%N -> fill_allowed tm k -> bmat_is t a -> bmat_is u b ->
  exists w, bm_mul tm t u = Ok w /\ bmat_is w (a *m b).
Proof. exact (@bm_mul_thm tm m n k t u a b). Qed.
Theorem C52_mul_vec tm m n t v (a : 'M['F_2]_(m, n)) (x : 'cV['F_2]_n) : (0 < m)%N -> fill_allowed tm m ->
  bmat_is t a -> bvec_is v x -> exists w, bm_mul_vec tm t v = Ok w /\ bvec_is w (a *m x).
Proof. exact (@bm_mul_vec_thm tm m n t v a x). Qed.
Theorem C52_exp tm n t (a : 'M['F_2]_n) e : (0 < n)%N -> fill_allowed tm n -> bmat_is t a ->
  Z.le 1 e -> Z.le e INT_MAX ->
  exists w, bm_exp tm t e = Ok (Some w) /\ bmat_is w (iter (Z.to_nat e) (mulmx a) 1%:M).
Proof. exact (@bm_exp_thm tm n t a e). Qed.
Lemma mul_ub_thm m n k t u (a : 'M['F_2]_(m, n)) (b : 'M['F_2]_(n, k)) : (0 < m)%N -> (0 < k)%N ->
  Nat.modulo k 64 <> 0%N -> bmat_is t a -> bmat_is u b -> bm_mul None t u = UB.
Proof. by move=> /ltP hm /ltP hk h64 [L [h _]] [L' [h' _]]; apply: (bm_mul_ub _ _ _ _ _ _ _ h h'). Qed.
Theorem C52_mul_refuted m n k t u (a : 'M['F_2]_(m, n)) (b : 'M['F_2]_(n, k)) : (0 < m)%N -> (0 < k)%N ->
  Nat.modulo k 64 <> 0%N -> bmat_is t a -> bmat_is u b -> bm_mul None t u = UB.
Proof. exact (@mul_ub_thm m n k t u a b). Qed.
(* every power with exponent at most 0 throws *)
Lemma exp_thm tm n t (a : 'M['F_2]_n) e : (0 < n)%N -> bmat_is t a -> Z.le e 0 -> bm_exp tm t e = Exn.
Proof. by move=> /ltP hn [L [h _]]; apply: bm_exp_throws h hn. Qed.
Theorem C52_exp_refuted tm n t (a : 'M['F_2]_n) e : (0 < n)%N -> bmat_is t a -> Z.le e 0 -> bm_exp tm t e = Exn.
Proof. exact (@exp_thm tm n t a e). Qed.
(* the outer product throws for all vectors *)
Theorem C52_outer_refuted u v l l' : B u l -> B v l' -> bm_outer u v = Exn.
Proof. exact (bm_outer_throws u v l l'). Qed.

(* ---- C53 ---- *)
Definition Vt (x : Z) : Prop := x = 0%coqZ \/ x = 1%coqZ.
Definition It (x : Z) : 'F_2 := if Z.eqb x 1 then 1 else 0.
Lemma bt_spec : @cspec Z bt_ops [fieldType of 'F_2] Vt It.
Proof.
split.
- by move=> x y [->|->] [->|->]; eexists; (split; [reflexivity|split; [by rewrite /Vt /bt_add /=; lia|by apply/eqP]]).
- by move=> x y [->|->] [->|->]; eexists; (split; [reflexivity|split; [by rewrite /Vt /bt_sub /=; lia|by apply/eqP]]).
- by move=> x y [->|->] [->|->]; eexists; (split; [reflexivity|split; [by rewrite /Vt /bt_mul /=; lia|by apply/eqP]]).
- by move=> x [->|->]; eexists; (split; [reflexivity|split; [by rewrite /Vt /bt_neg /=; lia|by apply/eqP]]).
- move=> x y [->|->] [->|->] //= _; eexists; (split; [reflexivity|split; [by rewrite /Vt; lia|by apply/eqP]]).
- by move=> x y [->|->] [->|->].
Qed.
Lemma bt_of_int_thm (e : Z) : Vt (bt_of_int e) /\ bt_of_int e = Z.modulo e 2.
Proof.
have e1 : bt_of_int e = Z.modulo e 2 by rewrite /bt_of_int; apply: (Z.land_ones e 1).
by rewrite e1; split=> //; have := Z.mod_pos_bound e 2; rewrite /Vt; lia.
Qed.
Theorem C53_field : @cspec Z bt_ops [fieldType of 'F_2] Vt It /\ (forall x, bt_div x 0 = Exn) /\
  (forall e, Vt (bt_of_int e) /\ bt_of_int e = Z.modulo e 2).
Proof. exact (conj bt_spec (conj (fun x => erefl) bt_of_int_thm)). Qed.
(* assigning an int stores it modulo 256, not modulo 2 *)
Theorem C53_assign_refuted : ~ Vt (bt_assign_int 2) /\ bt_assign_int 2 <> bt_of_int 2.
Proof. by split=> [[]|]. Qed.
(* 0 to the power 0 is 0 *)
Theorem C53_exp_refuted : bt_exp 0 0 = 0%coqZ /\ It (bt_exp 0 0) <> It 0 ^+ 0.
Proof. by split=> // /eqP. Qed.

(* ---- examples ---- *)
Definition mkv (l : list bool) : bvec :=
  mkbv (Some (List.map (fun k => List.fold_right (fun j acc => N.lor (N.shiftl (N.b2n (List.nth (64 * k + j)%coq_nat l false)) (wpos j)) acc)
        0%num (List.seq 0 64)) (List.seq 0 (nwords (length l))))) (nwords (length l)) (length l).
Definition l70 : list bool := repeat false 65 ++ [:: true; false; true; false; false].
Definition getres {A} (r : res A) (d : A) : A := match r with Ok x => x | _ => d end.
Example C16_ex : B (mkv l70) l70 /\ bv_get (mkv l70) 65 = Ok true /\ bv_get (mkv l70) 64 = Ok false /\ bv_get (mkv l70) 70 = Exn /\
  bv_set (mkv l70) 64 true = Ok (mkv (repeat false 64 ++ [:: true; true; false; true; false; false])) /\
  bv_dot (mkv l70) (mkv l70) = Ok false /\ bv_find_leader_pos (mkv l70) = Ok (Some 65%N).
Proof. by split; [apply: Bcheck_ok; vm_compute|repeat split; vm_compute]. Qed.
Example C17_ex : bv_eq (mkv [:: true]) (mkv [:: false]) = Ok true /\
  bv_eq (mkv (repeat false 64 ++ [:: true])) (mkv (true :: repeat false 64)) = Ok false.
Proof. by split; vm_compute. Qed.
Definition exm : bmat := mkbm (List.map mkv [:: [:: true; true; false]; [:: true; true; true]]) 3.
Example C18_ex : brep exm 2 3 [:: [:: true; true; false]; [:: true; true; true]] /\ bm_rech exm = Ok (mkbm (List.map mkv [:: [:: true; true; false]; [:: false; false; true]]) 3)
  /\ bm_rank exm = Ok 2%N.
Proof. by split; [apply: brepcheck_ok; vm_compute|split; vm_compute]. Qed.
Example C19_ex : bm_any bm_null /\ fill_allowed (Some 0%num) 3 /\ bm_kernel (Some 0%num) exm bm_null = Ok (Some (mkbm (List.map mkv [:: [:: true; true; false]]) 3)).
Proof. by split; [left|split; [|vm_compute]]. Qed.
Definition exs : bmat := mkbm (List.map mkv [:: [:: false; true]; [:: true; true]]) 2.
Example C20_ex : bm_det exs = Ok true /\ bm_inverse exs = Exn.
Proof. by split; vm_compute. Qed.
Example C52_ex : bm_exp (Some 0%num) exs 2 = Ok (Some (mkbm (List.map mkv [:: [:: true; true]; [:: true; false]]) 2)) /\
  bm_exp (Some 0%num) exs 0 = Exn.
Proof. by split; vm_compute. Qed.
Example C53_ex : c_add bt_ops 1 1 = Ok 0%coqZ /\ bt_of_int (-3) = 1%coqZ.
Proof. by split. Qed.

Print Assumptions C16_new.
Print Assumptions C16_get.
Print Assumptions C16_set.
Print Assumptions C16_toggle.
Print Assumptions C16_out_of_range.
Print Assumptions C16_arith.
Print Assumptions C16_dot.
Print Assumptions C16_length_mismatch.
Print Assumptions C16_copy.
Print Assumptions C16_fill_refuted.
Print Assumptions C16_fill.
Print Assumptions C16_assign_refuted.
Print Assumptions C16_assign.
Print Assumptions C17_eq_partial.
Print Assumptions C17_eq_bit_partial.
Print Assumptions C17_eq_refuted.
Print Assumptions C18_row_echelon.
Print Assumptions C18_rank.
Print Assumptions C19_kernel.
Print Assumptions C19_kernel_refuted.
Print Assumptions C20_det.
Print Assumptions C20_inverse_refuted.
Print Assumptions C52_get.
Print Assumptions C52_add.
Print Assumptions C52_transpose.
Print Assumptions C52_mul.
Print Assumptions C52_mul_vec.
Print Assumptions C52_exp.
Print Assumptions C52_mul_refuted.
Print Assumptions C52_exp_refuted.
Print Assumptions C52_outer_refuted.
Print Assumptions C53_field.
Print Assumptions C53_assign_refuted.
Print Assumptions C53_exp_refuted.
