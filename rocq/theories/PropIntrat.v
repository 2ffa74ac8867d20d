(* Final theorems for spffl/intmath/intrat_t.  toQ a is the rational numer/denom;
   lowest a: positive denominator coprime to the numerator; inr_ z: |z| <= INT_MAX. *)
From Verif Require Import Base MIntMath MIntrat PIntMath PIntrat.
From Coq Require Import QArith Qpower.
Open Scope Z_scope.

(* ---- C13 ---- *)
Theorem C13_make (n d : Z) : Z.abs n <= INT_MAX -> Z.abs d <= INT_MAX -> d <> 0 ->
  exists r, rat_make n d = Ok r /\ lowest r /\ (toQ r * inject_Z d == inject_Z n)%Q.
Proof. exact (rat_make_ok n d). Qed.
Theorem C13_make_zero (n : Z) : rat_make n 0 = Exn.
Proof. exact eq_refl. Qed.
Theorem C13_add (a b : intrat) : lowest a -> lowest b -> denom a * denom b <= INT_MAX ->
  inr_ (numer a * denom b) -> inr_ (denom a * numer b) -> inr_ (numer a * denom b + denom a * numer b) ->
  exists r, rat_add a b = Ok r /\ lowest r /\ (toQ r == toQ a + toQ b)%Q.
Proof. exact (rat_add_ok a b). Qed.
Theorem C13_sub (a b : intrat) : lowest a -> lowest b -> denom a * denom b <= INT_MAX ->
  inr_ (numer a * denom b) -> inr_ (denom a * numer b) -> inr_ (numer a * denom b - denom a * numer b) ->
  exists r, rat_sub a b = Ok r /\ lowest r /\ (toQ r == toQ a - toQ b)%Q.
Proof. exact (rat_sub_ok a b). Qed.
Theorem C13_neg (a : intrat) : lowest a -> inr_ (numer a) -> exists r, rat_neg a = Ok r /\ lowest r /\ (toQ r == - toQ a)%Q.
Proof. exact (rat_neg_ok a). Qed.
Theorem C13_mul (a b : intrat) : lowest a -> lowest b -> denom a * denom b <= INT_MAX -> inr_ (numer a * numer b) ->
  exists r, rat_mul a b = Ok r /\ lowest r /\ (toQ r == toQ a * toQ b)%Q.
Proof. exact (rat_mul_ok a b). Qed.
Theorem C13_div (a b : intrat) : lowest a -> lowest b -> inr_ (numer a * denom b) -> inr_ (denom a * numer b) ->
  if numer b =? 0 then rat_div a b = Exn
  else exists r, rat_div a b = Ok r /\ lowest r /\ (toQ r == toQ a / toQ b)%Q.
Proof. exact (rat_div_ok a b). Qed.
Theorem C13_mod (a b : intrat) : lowest b -> inr_ (denom b * denom b) -> inr_ (numer b * denom b) ->
  rat_mod a b = if numer b =? 0 then Exn else Ok (mkrat 0 1).
Proof. exact (rat_mod_ok a b). Qed.
(* The squaring after the last multiplication must fit too; see C13_exp_refuted. *)
Theorem C13_exp (a : intrat) (e : Z) : lowest a -> - INT_MAX <= e <= INT_MAX -> e <> 0 -> (e < 0 -> numer a <> 0) ->
  Z.abs (numer a) ^ (2 ^ (Z.log2 (Z.abs e) + 1)) <= INT_MAX ->
  Z.abs (denom a) ^ (2 ^ (Z.log2 (Z.abs e) + 1)) <= INT_MAX ->
  exists r, rat_exp a e = Ok r /\ lowest r /\ (toQ r == Qpower (toQ a) e)%Q.
Proof. exact (rat_exp_Q a e). Qed.
Theorem C13_exp_zero (a : intrat) : rat_exp a 0 = if rat_eqb a (mkrat 0 1) then Exn else Ok (mkrat 1 1).
Proof. exact (rat_exp_0 a). Qed.
Theorem C13_exp_zero_neg (e : Z) : e < 0 -> rat_exp (mkrat 0 1) e = Exn.
Proof. exact (rat_exp_zero_neg e). Qed.
Theorem C13_exp_refuted : exists a e, lowest a /\ 0 < e /\ inr_ (numer a ^ e) /\ inr_ (denom a ^ e) /\ rat_exp a e = UB.
Proof. exists (mkrat 2 3), 16. repeat split; vm_compute; congruence. Qed.
Example C13_ex : rat_make 6 (-4) = Ok (mkrat (-3) 2) /\ rat_add (mkrat 1 6) (mkrat 1 10) = Ok (mkrat 4 15)
  /\ rat_div (mkrat 1 6) (mkrat (-2) 3) = Ok (mkrat (-1) 4) /\ rat_exp (mkrat (-2) 3) (-3) = Ok (mkrat (-27) 8)
  /\ lowest (mkrat (-2) 3).
Proof. repeat split. Qed.

(* ---- C14 ---- *)
Theorem C14_order (a b : intrat) : lowest a -> lowest b -> inr_ (numer a * denom b) -> inr_ (denom a * numer b) ->
  exists lt le gt ge, rat_ltb a b = Ok lt /\ rat_leb a b = Ok le /\ rat_gtb a b = Ok gt /\ rat_geb a b = Ok ge /\
   (lt = true <-> (toQ a < toQ b)%Q) /\ (le = true <-> (toQ a <= toQ b)%Q) /\
   (gt = true <-> (toQ b < toQ a)%Q) /\ (ge = true <-> (toQ b <= toQ a)%Q).
Proof. exact (rat_cmp_ok a b). Qed.
Theorem C14_eq (a b : intrat) : lowest a -> lowest b -> (rat_eqb a b = true <-> (toQ a == toQ b)%Q).
Proof. exact (rat_eqb_ok a b). Qed.
Theorem C14_eq_int (a : intrat) (v : Z) : lowest a -> (rat_eqb_int a v = true <-> (toQ a == inject_Z v)%Q).
Proof. exact (rat_eqb_int_ok a v). Qed.
Example C14_ex : rat_ltb (mkrat (-2) 3) (mkrat (-3) 5) = Ok true /\ rat_eqb (mkrat 1 2) (mkrat 2 4) = false.
Proof. split; reflexivity. Qed.

Print Assumptions C13_make. Print Assumptions C13_make_zero. Print Assumptions C13_add. Print Assumptions C13_sub. Print Assumptions C13_neg.
Print Assumptions C13_mul. Print Assumptions C13_div. Print Assumptions C13_mod. Print Assumptions C13_exp.
Print Assumptions C13_exp_zero. Print Assumptions C13_exp_zero_neg. Print Assumptions C13_exp_refuted.
Print Assumptions C14_order. Print Assumptions C14_eq. Print Assumptions C14_eq_int.
