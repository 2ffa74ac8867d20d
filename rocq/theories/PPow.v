(* Square-and-multiply over any operation that refines an associative product. *)
From Verif Require Import Base PIntMath.
Open Scope Z_scope.

Section Pow.
Context {T X : Type} (mul : T -> T -> res T) (Rep : T -> X -> Prop) (mx : X -> X -> X).
Hypothesis mul_ok : forall a b x y, Rep a x -> Rep b y -> exists c, mul a b = Ok c /\ Rep c (mx x y).
Hypothesis mxA : forall x y z, mx x (mx y z) = mx (mx x y) z.

(* y * x * ... * x  (n factors x) *)
Fixpoint mpow (x : X) (n : nat) (y : X) : X :=
  match n with O => y | S n' => mpow x n' (mx y x) end.

Lemma mpow_S x n y : mpow x (S n) y = mpow x n (mx y x).
Proof. reflexivity. Qed.
Lemma mpow_sq x n y : mpow (mx x x) n y = mpow x (2 * n) y.
Proof.
  revert y; induction n as [|n IH]; intros y; [reflexivity|].
  replace (2 * S n)%nat with (S (S (2 * n))) by lia. rewrite !mpow_S, IH, mxA. reflexivity.
Qed.

Definition pow_step (s : Z * T * T) : res ((Z * T * T) + T) :=
  let '(e, a, r) := s in
  if e =? 0 then Ok (inr r)
  else
    r' <- (if Z.odd e then mul r a else Ok r) ;;
    a' <- mul a a ;;
    Ok (inl (u32 e / 2, a', r')).

Lemma pow_loop_ok fuel : forall e a x r y, Rep a x -> Rep r y ->
  0 <= e <= INT_MAX -> e < 2 ^ (Z.of_nat fuel - 1) -> (1 <= fuel)%nat ->
  exists q, loop fuel pow_step (e, a, r) = Ok q /\ Rep q (mpow x (Z.to_nat e) y).
Proof.
  induction fuel as [|f IH]; intros e a x r y Ha Hr He Hlt Hf; [lia|].
  cbn [loop]. unfold pow_step at 1. destruct (e =? 0) eqn:E.
  - apply Z.eqb_eq in E; subst e. exists r. split; [reflexivity|exact Hr].
  - assert (exists r', (if Z.odd e then mul r a else Ok r) = Ok r' /\ Rep r' (if Z.odd e then mx y x else y)) as (r' & E1 & Hr').
    { destruct (Z.odd e); [exact (mul_ok r a y x Hr Ha)|exists r; split; [reflexivity|exact Hr]]. }
    rewrite E1, bind_ok. destruct (mul_ok a a x x Ha Ha) as (a' & E2 & Ha'). rewrite E2, bind_ok.
    rewrite sq_u32 by lia.
    destruct f as [|f]. { change (Z.of_nat 1 - 1) with 0 in Hlt. change (2^0) with 1 in Hlt. lia. }
    destruct (IH (e / 2) a' (mx x x) r' _ Ha' Hr') as (q & E3 & Hq).
    + split; [apply Z.div_pos; lia|]. lia.
    + replace (Z.of_nat (S (S f)) - 1) with (Z.succ (Z.of_nat (S f) - 1)) in Hlt by lia.
      rewrite Z.pow_succ_r in Hlt by lia. lia.
    + lia.
    + exists q. split; [exact E3|]. rewrite mpow_sq in Hq.
      pose proof (Z.div2_odd e) as Hdo. rewrite Z.div2_div in Hdo.
      destruct (Z.odd e); cbn [Z.b2z] in Hdo.
      * rewrite <- mpow_S in Hq. replace (Z.to_nat e) with (S (2 * Z.to_nat (e / 2))) by lia. exact Hq.
      * replace (Z.to_nat e) with (2 * Z.to_nat (e / 2))%nat by lia. exact Hq.
Qed.
End Pow.
