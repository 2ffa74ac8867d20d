(* Final theorems for spffl/intmath/intmod_t.  46341 = floor(sqrt(INT_MAX)) + 1 is the
   largest modulus for which a product of two residues always fits in an int. *)
From Verif Require Import Base MIntMath MIntmod PIntMath PIntMath2 PIntmod.
Open Scope Z_scope.

(* ---- C09 ---- *)
Theorem C09_make (r m : Z) : 1 <= m <= INT_MAX -> Z.abs r <= INT_MAX -> im_make r m = Ok (mkim (r mod m) m).
Proof. exact (im_make_ok r m). Qed.
Theorem C09_make_reject (r m : Z) : m <= 0 -> im_make r m = Exn.
Proof. exact (im_make_reject r m). Qed.
Theorem C09_ring (m x y : Z) : 1 <= m <= 46341 -> 0 <= x < m -> 0 <= y < m ->
  im_add (mkim x m) (mkim y m) = Ok (mkim ((x + y) mod m) m) /\
  im_sub (mkim x m) (mkim y m) = Ok (mkim ((x - y) mod m) m) /\
  im_neg (mkim x m) = Ok (mkim ((- x) mod m) m) /\
  im_mul (mkim x m) (mkim y m) = Ok (mkim ((x * y) mod m) m).
Proof.
  exact (fun Hm Hx Hy => conj (im_add_ok m Hm x y Hx Hy) (conj (im_sub_ok m Hm x y Hx Hy)
          (conj (im_neg_ok m Hm x Hx) (im_mul_ok m Hm x y Hx Hy)))).
Qed.
Theorem C09_int_operand (m x v : Z) : 1 <= m <= 46341 -> 0 <= x < m ->
  (INT_MIN < v <= INT_MAX - 46341 -> im_add_int (mkim x m) v = Ok (mkim ((x + v) mod m) m)) /\
  (- (INT_MAX - 2 * 46341) <= v <= INT_MAX -> im_sub_int (mkim x m) v = Ok (mkim ((x - v) mod m) m)) /\
  (Z.abs (x * v) <= INT_MAX -> im_mul_int (mkim x m) v = Ok (mkim ((x * v) mod m) m)).
Proof.
  exact (fun Hm Hx => conj (im_add_int_ok' m x v Hm Hx) (conj (im_sub_int_ok m x v Hm Hx)
    (im_mul_int_ok m x v (maxm_int m Hm) Hx))).
Qed.
Theorem C09_mul_overflow (m x y : Z) : 1 <= m <= INT_MAX -> 0 <= x < m -> 0 <= y < m ->
  (x * y <= INT_MAX -> im_mul (mkim x m) (mkim y m) = Ok (mkim ((x * y) mod m) m)) /\
  (INT_MAX < x * y -> im_mul (mkim x m) (mkim y m) = UB).
Proof. exact (im_mul_overflow m x y). Qed.
Theorem C09_add_overflow (m x y : Z) : 1 <= m <= INT_MAX -> 0 <= x < m -> 0 <= y < m ->
  (x + y <= INT_MAX -> im_add (mkim x m) (mkim y m) = Ok (mkim ((x + y) mod m) m)) /\
  (INT_MAX < x + y -> im_add (mkim x m) (mkim y m) = UB).
Proof. exact (im_add_overflow m x y). Qed.
Example C09_ex : im_make (-7) 5 = Ok (mkim 3 5) /\ im_mul (mkim 46340 46341) (mkim 46340 46341) = Ok (mkim 1 46341)
  /\ im_mul (mkim 46341 46342) (mkim 46341 46342) = UB.
Proof. repeat split; vm_compute; reflexivity. Qed.
(* Stream input does not canonicalise negative residues. *)
Theorem C09_stream_in_refuted : exists a v b, canon a /\ im_stream_in a v = Ok b /\ ~ canon b.
Proof. exists (mkim 0 7), (-3), (mkim (-3) 7). repeat split; unfold canon; cbn; lia. Qed.

(* ---- C10 ---- *)
(* cache_after hist: contents of the function-local statics after the calls in hist. *)
Theorem C10_recip (hist : list intmod) (m x : Z) :
  (forall a, In a hist -> 1 <= modulus a <= INT_MAX) ->
  2 <= m <= 46341 -> 0 <= x < m ->
  (Z.gcd m x = 1 /\ exists y, im_recip (cache_after hist) (mkim x m) = Ok (Some (mkim y m)) /\ 0 <= y < m /\ (x * y) mod m = 1)
  \/ (Z.gcd m x <> 1 /\ im_recip (cache_after hist) (mkim x m) = Ok None).
Proof. exact (fun H => im_recip_ok (cache_after hist) m x (cache_after_valid hist H)). Qed.
Theorem C10_history_independent (h1 h2 : list intmod) (m x : Z) :
  (forall a, In a h1 -> 1 <= modulus a <= INT_MAX) -> (forall a, In a h2 -> 1 <= modulus a <= INT_MAX) ->
  1 <= m <= INT_MAX -> im_recip (cache_after h1) (mkim x m) = im_recip (cache_after h2) (mkim x m).
Proof. exact (fun H1 H2 => im_recip_indep _ _ m x (cache_after_valid h1 H1) (cache_after_valid h2 H2)). Qed.
Theorem C10_div (hist : list intmod) (m x y : Z) :
  (forall a, In a hist -> 1 <= modulus a <= INT_MAX) -> 2 <= m <= 46341 -> 0 <= x < m -> 0 <= y < m ->
  (Z.gcd m y = 1 /\ exists q, im_div (cache_after hist) (mkim x m) (mkim y m) = Ok (mkim q m) /\ 0 <= q < m /\ (q * y) mod m = x)
  \/ (Z.gcd m y <> 1 /\ im_div (cache_after hist) (mkim x m) (mkim y m) = Exn).
Proof. exact (fun H => im_div_ok (cache_after hist) m x y (cache_after_valid hist H)). Qed.
Example C10_ex : let h := [mkim 3 7; mkim 5 12; mkim 1 2; mkim 0 9] in
  (forall a, In a h -> 1 <= modulus a <= INT_MAX) /\ cache_after h = (9, 6) /\
  im_recip (cache_after h) (mkim 3 7) = Ok (Some (mkim 5 7)) /\ im_recip (cache_after h) (mkim 6 9) = Ok None.
Proof.
  cbv zeta. split; [|vm_compute; auto].
  intros a H. unfold INT_MAX. repeat destruct H as [<-|H]; cbn [modulus]; try lia. destruct H.
Qed.
(* The reciprocal of the only residue modulo 1 throws. *)
Theorem C10_mod_one : im_recip cache_init (mkim 0 1) = Exn.
Proof. reflexivity. Qed.

(* ---- C11 ---- *)
Theorem C11_exp_pos (hist : list intmod) (m x e : Z) :
  1 <= m <= 46341 -> 0 <= x < m -> 0 < e <= INT_MAX ->
  im_exp (cache_after hist) (mkim x m) e = Ok (mkim (x ^ e mod m) m).
Proof. exact (im_exp_ok (cache_after hist) m x e). Qed.
Theorem C11_exp_zero (hist : list intmod) (m x : Z) : 1 <= m <= 46341 -> 0 <= x < m ->
  im_exp (cache_after hist) (mkim x m) 0 = if x =? 0 then Exn else Ok (mkim (1 mod m) m).
Proof. exact (im_exp_0 (cache_after hist) m x). Qed.
Theorem C11_exp_neg (hist : list intmod) (m x e : Z) :
  (forall a, In a hist -> 1 <= modulus a <= INT_MAX) -> 2 <= m <= 46341 -> 0 <= x < m -> INT_MIN < e < 0 ->
  (Z.gcd m x = 1 /\ exists y, im_exp (cache_after hist) (mkim x m) e = Ok (mkim y m) /\ 0 <= y < m /\ (y * x ^ (-e)) mod m = 1)
  \/ (Z.gcd m x <> 1 /\ im_exp (cache_after hist) (mkim x m) e = Exn).
Proof. exact (fun H => im_exp_neg_ok (cache_after hist) m x e (cache_after_valid hist H)). Qed.
Theorem C11_zero_neg (hist : list intmod) (m e : Z) : 1 <= m <= 46341 -> e < 0 ->
  im_exp (cache_after hist) (mkim 0 m) e = Exn.
Proof. exact (im_exp_zero_neg (cache_after hist) m e). Qed.
(* The most negative exponent is negated: undefined, not an exception. *)
Theorem C11_int_min_refuted (hist : list intmod) (m x : Z) : 2 <= m <= 46341 -> 0 < x < m ->
  im_exp (cache_after hist) (mkim x m) INT_MIN = UB.
Proof. exact (im_exp_int_min (cache_after hist) m x). Qed.
Example C11_ex : im_exp cache_init (mkim 3 7) (-2) = Ok (mkim 4 7) /\ im_exp cache_init (mkim 3 7) 2147483647 = Ok (mkim 3 7)
  /\ im_exp cache_init (mkim 6 9) (-1) = Exn.
Proof. repeat split; vm_compute; reflexivity. Qed.

(* ---- C12 ---- *)
Theorem C12_mismatch (hist : list intmod) (a b : intmod) : modulus a <> modulus b ->
  im_add a b = Exn /\ im_sub a b = Exn /\ im_mul a b = Exn /\
  im_div (cache_after hist) a b = Exn /\ im_mod (cache_after hist) a b = Exn /\
  im_ltb a b = Exn /\ im_leb a b = Exn /\ im_gtb a b = Exn /\ im_geb a b = Exn.
Proof. exact (mixed_all (cache_after hist) a b). Qed.
Theorem C12_eq (a b : intmod) : 0 < modulus a -> 0 < modulus b ->
  exists t, im_eqb a b = Ok t /\ (t = true <-> a = b).
Proof. exact (eqb_spec a b). Qed.
Theorem C12_order (a b : intmod) : 0 < modulus a -> modulus a = modulus b ->
  im_ltb a b = Ok (residue a <? residue b) /\ im_leb a b = Ok (residue a <=? residue b) /\
  im_gtb a b = Ok (residue b <? residue a) /\ im_geb a b = Ok (residue b <=? residue a).
Proof. exact (order_spec a b). Qed.
Example C12_ex : im_add (mkim 1 5) (mkim 1 7) = Exn /\ im_eqb (mkim 1 5) (mkim 1 7) = Ok false
  /\ im_eqb (mkim 1 5) (mkim 1 5) = Ok true.
Proof. repeat split. Qed.

Print Assumptions C09_make. Print Assumptions C09_make_reject. Print Assumptions C09_ring. Print Assumptions C09_int_operand.
Print Assumptions C09_mul_overflow. Print Assumptions C09_add_overflow. Print Assumptions C09_stream_in_refuted.
Print Assumptions C10_recip. Print Assumptions C10_history_independent. Print Assumptions C10_div. Print Assumptions C10_mod_one.
Print Assumptions C11_exp_pos. Print Assumptions C11_exp_zero. Print Assumptions C11_exp_neg. Print Assumptions C11_zero_neg.
Print Assumptions C11_int_min_refuted. Print Assumptions C12_mismatch. Print Assumptions C12_eq. Print Assumptions C12_order.
