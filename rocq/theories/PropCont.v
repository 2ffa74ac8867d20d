(* Final theorems for spffl/containers. *)
From Verif Require Import Base MFac MCont PFac PFacGen PFacInt PCont.
From Coq Require Import Znumtheory Permutation.
Open Scope Z_scope.

(* ---- C41 ---- *)
(* For ints: any sequence of insertions (factor, count). *)
Theorem C41_int_history (h : list (Z * Z)) :
  (forall x c, In (x, c) h -> x <> 0 /\ Z.abs x <= INT_MAX /\ 0 <= c) ->
  fold_right (fun p acc => snd p + acc) 0 h <= INT_MAX -> Z.abs (fac_value h) <= INT_MAX ->
  exists f, insert_all int_fops fac_empty h = Ok f /\ increasing (map fst (facs f)) /\
    (forall x, In x (map fst (facs f)) <-> In x (map fst h)) /\
    (forall x, Z.abs x <= INT_MAX -> mult (facs f) x = mult h x) /\
    unfactor int_fops f 1 = Ok (fac_value h).
Proof. exact (int_history h). Qed.
Example C41_ex : exists f, insert_all int_fops fac_empty [(7,1); (2,3); (-3,1); (2,2)] = Ok f /\
  facs f = [(-3,1); (2,5); (7,1)] /\ unfactor int_fops f 1 = Ok (-672).
Proof. eexists. repeat split; vm_compute; reflexivity. Qed.
(* For every element type whose operations implement a commutative monoid with a
   total order (f may already hold factors). *)
Theorem C41_history {A M : Type} (F : fops A) (V : A -> Prop) (I : A -> M) mul one fits
  (FS : fac_spec F V I mul one fits) (f : facinfo A) (h : list (A * Z)) :
  entries_ok V (facs f) -> sorted_strict F (map fst (facs f)) -> entries_ok V h ->
  total (facs f) + total h <= INT_MAX ->
  exists g, insert_all F f h = Ok g /\ funit g = funit f /\ entries_ok V (facs g) /\ sorted_strict F (map fst (facs g)) /\
    (forall x, In x (map fst (facs g)) <-> In x (map fst (facs f)) \/ In x (map fst h)) /\
    (forall x, V x -> count_of F (facs g) x = count_of F (facs f) x + count_of F h x) /\
    lval I mul one (facs g) = mul (lval I mul one h) (lval I mul one (facs f)).
Proof. exact (insert_all_ok F V I mul one fits FS h f). Qed.
Theorem C41_unfactor {A M : Type} (F : fops A) (V : A -> Prop) (I : A -> M) mul one fits
  (FS : fac_spec F V I mul one fits) (f : facinfo A) (one_ : A) :
  V one_ -> I one_ = one -> entries_ok V (facs f) -> unit_ok V (funit f) ->
  fits (mul (uval I one (funit f)) (lval I mul one (facs f))) ->
  exists z, unfactor F f one_ = Ok z /\ V z /\ I z = mul (uval I one (funit f)) (lval I mul one (facs f)).
Proof. exact (unfactor_ok F V I mul one fits FS f one_). Qed.
Theorem C41_merge {A M : Type} (F : fops A) (V : A -> Prop) (I : A -> M) mul one fits
  (FS : fac_spec F V I mul one fits) (f g : facinfo A) :
  entries_ok V (facs f) -> sorted_strict F (map fst (facs f)) -> entries_ok V (facs g) ->
  unit_ok V (funit f) -> unit_ok V (funit g) -> total (facs f) + total (facs g) <= INT_MAX ->
  fits (mul (uval I one (funit f)) (uval I one (funit g))) ->
  exists h, merge F f g = Ok h /\ entries_ok V (facs h) /\ unit_ok V (funit h) /\ sorted_strict F (map fst (facs h)) /\
    (forall x, V x -> count_of F (facs h) x = count_of F (facs f) x + count_of F (facs g) x) /\
    uval I one (funit h) = mul (uval I one (funit f)) (uval I one (funit g)) /\
    lval I mul one (facs h) = mul (lval I mul one (facs f)) (lval I mul one (facs g)).
Proof. exact (merge_ok F V I mul one fits FS f g). Qed.
(* The hypothesis is met by int. *)
Theorem C41_int_instance : fac_spec int_fops int_ok (fun x => x) Z.mul 1 int_fits.
Proof. exact int_spec. Qed.

(* ---- C42 ---- *)
Theorem C42_int_divisors (n : Z) : n <> 0 -> n * n <= INT_MAX ->
  exists f ds, int_factor n = Ok f /\ get_all_divisors int_fops f 1 = Ok ds /\ increasing ds /\
    (forall d, In d ds <-> 0 < d /\ (d | n)).
Proof. exact (int_all_divisors n). Qed.
Theorem C42_int_maximal (n : Z) : 2 <= Z.abs n <= INT_MAX ->
  exists f ds, int_factor n = Ok f /\ get_maximal_proper_divisors int_fops f 1 = Ok (Some ds) /\ increasing ds /\
    (forall d, In d ds <-> exists p, prime p /\ n = p * d).
Proof. exact (int_max_divisors n). Qed.
Example C42_ex : exists f, int_factor (-360) = Ok f /\
  get_all_divisors int_fops f 1 = Ok [1;2;3;4;5;6;8;9;10;12;15;18;20;24;30;36;40;45;60;72;90;120;180;360] /\
  get_maximal_proper_divisors int_fops f 1 = Ok (Some [-180; -120; -72]).
Proof. eexists. repeat split; vm_compute; reflexivity. Qed.
(* Beyond n*n <= INT_MAX the claim fails: the powers are computed with one
   squaring too many. *)
Theorem C42_int_divisors_refuted : exists n f, n <> 0 /\ 0 < n <= INT_MAX /\ int_factor n = Ok f /\
  get_all_divisors int_fops f 1 = UB.
Proof. exists 65536. eexists. repeat split; vm_compute; congruence. Qed.
(* Any element type; keys distinct primes. *)
Theorem C42_divisors {A M : Type} (F : fops A) (V : A -> Prop) (I : A -> M) mul one fits
  (FS : fac_spec F V I mul one fits) (f : facinfo A) (one_ : A) :
  V one_ -> I one_ = one ->
  entries_ok V (facs f) -> Forall (fun p => regular F V I one (fst p)) (facs f) -> Forall (fun p => snd p < INT_MAX) (facs f) ->
  (facs f = [] -> funit f <> None) -> ndiv (facs f) <= INT_MAX -> fits (mul (lval I mul one (facs f)) (lval I mul one (facs f))) ->
  indep mul one (keys I (facs f)) ->
  exists ds, get_all_divisors F f one_ = Ok ds /\ sorted_le F ds /\ NoDup ds /\ Z.of_nat (length ds) = ndiv (facs f) /\
    (forall d, In d ds -> V d /\ mdiv mul (I d) (lval I mul one (facs f))) /\
    (forall v, bounded (counts (facs f)) v -> exists d, In d ds /\ I d = vval mul one (keys I (facs f)) v) /\
    (forall m, mdiv mul m (lval I mul one (facs f)) -> exists u d, In d ds /\ inv_elt mul one u /\ m = mul u (I d)).
Proof. exact (all_divisors_prime F V I mul one fits FS f one_). Qed.
Theorem C42_maximal {A M : Type} (F : fops A) (V : A -> Prop) (I : A -> M) mul one fits
  (FS : fac_spec F V I mul one fits) (f : facinfo A) (one_ : A) :
  V one_ -> I one_ = one -> unit_ok V (funit f) ->
  Forall (fun p => V (fst p) /\ 1 <= snd p) (facs f) -> facs f <> [] ->
  fits (mul (uval I one (funit f)) (lval I mul one (facs f))) ->
  exists ds ds0, get_maximal_proper_divisors F f one_ = Ok (Some ds) /\ Permutation ds0 ds /\ sorted_le F ds /\
    Forall2 (fun p d => V d /\ mul (I (fst p)) (I d) = mul (uval I one (funit f)) (lval I mul one (facs f))) (facs f) ds0.
Proof. exact (max_proper_divisors_ok F V I mul one fits FS f one_). Qed.

(* ---- C43 ---- *)
(* Reading back a vector that represents l gives l, with bounds checks. *)
Theorem C43_get {A} (v : @tvec A) (l : list A) (i : Z) : vec_rep v l -> vec_get v i =
  if (i <? 0) || (i >=? Z.of_nat (length l)) then Exn else match nth_error l (Z.to_nat i) with Some x => Ok x | None => UB end.
Proof. exact (vec_rep_get v l i). Qed.
Theorem C43_copy_ctor {A} (d : A) (v : tvec) (l : list A) : vec_rep v l -> exists w, vec_copy d v = Ok w /\ vec_rep w l.
Proof. exact (vec_copy_ok d v l). Qed.
(* Assignment works when the target is empty or its buffer is large enough ... *)
Theorem C43_assign {A} (d : A) (t v : tvec) (l : list A) : vec_rep v l ->
  (vbuf t = None \/ Z.of_nat (length l) <= vec_cap t) -> exists w, vec_assign d t v = Ok w /\ vec_rep w l.
Proof. exact (vec_assign_ok d t v l). Qed.
(* ... and in all other cases writes out of bounds. *)
Theorem C43_assign_refuted {A} (d : A) (t v : tvec) (l b : list A) : vec_rep v l -> vbuf t = Some b ->
  Z.of_nat (length b) < Z.of_nat (length l) -> vec_assign d t v = UB.
Proof. exact (vec_assign_overflow d t v l b). Qed.
Theorem C43_set {A} (v : @tvec A) (l : list A) (i : Z) (x : A) : vec_rep v l -> 0 <= i < Z.of_nat (length l) ->
  exists w, vec_set v i x = Ok w /\ vec_rep w (upd l (Z.to_nat i) x) /\ vec_cap w = vec_cap v.
Proof. exact (vec_set_ok v l i x). Qed.
Theorem C43_assign_scalar {A} (d : A) (t : tvec) (l : list A) (e : A) : vec_rep t l -> vbuf t <> None ->
  exists w, vec_assign_scalar d t e = Ok w /\ vec_rep w (repeat e (length l)).
Proof. exact (vec_assign_scalar_ok d t l e). Qed.
Example C43_ex : vec_rep (mkvec (Some [4;5;6]) 2) [4;5] /\
  vec_assign 0 (mkvec (Some [1;2;3]) 3) (mkvec (Some [4;5;6]) 2) = Ok (mkvec (Some [4;5;3]) 2) /\
  vec_assign 0 (mkvec (Some [1]) 1) (mkvec (Some [4;5;6]) 2) = UB.
Proof. split; [split; [reflexivity|exists [6]; reflexivity]|]. split; reflexivity. Qed.

(* ---- C44 ---- *)
Theorem C44_stack_lifo {A} (d : A) (ops : list sop) : Z.of_nat (length ops) <= INT_MAX - 20 ->
  run_stack d ops (stack_new d) = Ok (spec_stack ops []).
Proof. exact (run_stack_new d ops). Qed.
Example C44_ex : run_stack 0 [Push 1; Push 2; Pop; Copy; Push 3; Pop; Pop; Pop] (stack_new 0)
  = Ok [Some 2; Some 3; Some 1; None].
Proof. vm_compute. reflexivity. Qed.

Print Assumptions C41_int_history.
Print Assumptions C41_history.
Print Assumptions C41_unfactor.
Print Assumptions C41_merge.
Print Assumptions C41_int_instance.
Print Assumptions C42_int_divisors.
Print Assumptions C42_int_maximal.
Print Assumptions C42_int_divisors_refuted.
Print Assumptions C42_divisors.
Print Assumptions C42_maximal.
Print Assumptions C43_get.
Print Assumptions C43_copy_ctor.
Print Assumptions C43_assign.
Print Assumptions C43_assign_refuted.
Print Assumptions C43_set.
Print Assumptions C43_assign_scalar.
Print Assumptions C44_stack_lifo.
