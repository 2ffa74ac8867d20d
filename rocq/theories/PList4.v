(* Listings of the integers modulo p; tuples of residues. *)
From Verif Require Import Base MIntMath MIntmod MMat MList PIntMath PIntMath2 PIntmod.
From mathcomp Require Import all_ssreflect ssrZ.
From Verif Require Import PMat PPoly PList PList3.
From Verif Require PBits2.
Set Implicit Arguments.
Unset Strict Implicit.
Unset Printing Implicit Defensive.
Delimit Scope Z_scope with coqZ.
Local Open Scope nat_scope.

Section Int.
Variable p : nat.
Hypotheses (p0 : 0 < p) (hp : (Z.of_nat p <= INT_MAX)%coqZ).
Definition iel (r : nat) : intmod := mkim (Z.of_nat r) (Z.of_nat p).
Lemma int_enum (P : pred nat) sel rv : (forall r, r < p -> sel (Z.of_nat r) = Ok (if P r then Some (iel r) else None)) ->
  let s := filter P (iota 0 p) in
  MList.enum (fun r m => Ok (r <? m)%coqZ) (fun r => iadd r 1) (S (Z.to_nat (Z.of_nat p))) 0%coqZ (Z.of_nat p) sel rv =
    if size s <= size rv then Ok ([seq iel r | r <- s] ++ drop (size s) rv, size s) else Exn.
Proof.
move=> hs s.
have [|||s' [es us ms he]] := @enum_ok nat_eqType Z intmod Z.of_nat id (fun r m => Ok (r <? m)%coqZ) (fun r => iadd r 1) p (fun _ _ => id) _ _
  sel (fun r => if P r then Some (iel r) else None) p (leqnn p) hs (S (Z.to_nat (Z.of_nat p))) 0 rv.
- by move=> f g; congr Ok; case: ltP => h; [apply/Z.ltb_lt|apply/Z.ltb_ge]; lia.
- move=> f h; exists f.+1; split=> //; rewrite /iadd chk_ok; first by congr Ok; lia.
  by rewrite /INT_MIN; move/ltP: h; lia.
- by rewrite subn0 Nat2Z.id.
rewrite map_id subn0 in es; rewrite -[0%coqZ]/(Z.of_nat 0) he es PList2.pmap_some /= !size_map.
by [].
Qed.
Lemma iel_ok r : r < p -> im_make (Z.of_nat r) (Z.of_nat p) = Ok (iel r).
Proof. by move=> h; rewrite im_make_ok ?Z.mod_small //; move/ltP: h; lia. Qed.
Lemma sz_le (P : pred nat) : size (filter P (iota 0 p)) <= p.
Proof. by rewrite size_filter; apply: leq_trans (count_size _ _) _; rewrite size_iota. Qed.
Definition cop (r : nat) : bool := (Z.gcd (Z.of_nat p) (Z.of_nat r) =? 1)%coqZ.
Lemma gcd_cop r : r < p -> (int_gcd (Z.of_nat r) (Z.of_nat p)) = Ok (Z.gcd (Z.of_nat p) (Z.of_nat r)).
Proof. by move=> h; rewrite int_gcd_nonneg 1?Z.gcd_comm //; move/ltP: h; lia. Qed.
Lemma filterE (T : Type) (P : T -> bool) s : List.filter P s = filter P s. Proof. by []. Qed.
Lemma zrangeE k i : zrange k (Z.of_nat i) = [seq Z.of_nat r | r <- iota i k].
Proof. by elim: k i => //= k IH i; rewrite -IH; congr cons; congr zrange; lia. Qed.
Lemma totient_cop : 1 < p -> int_totient (Z.of_nat p) = Ok (Z.of_nat (size (filter cop (iota 0 p)))).
Proof.
move=> h1; rewrite int_totient_ok; last by move/ltP: h1; lia.
rewrite /coprimes (_ : Z.to_nat (Z.of_nat p - 1) = p.-1); last by lia.
rewrite -[zrange _ _]/(zrange p.-1 (Z.of_nat 1)) zrangeE filterE filter_map lengthE size_map.
congr (Ok (Z.of_nat _)); rewrite -[in iota 0 p](prednK p0) /=.
have -> : cop 0 = false by rewrite /cop Z.gcd_0_r; apply/Z.eqb_neq; move/ltP: h1; clear; lia.
exact: erefl.
Qed.
Lemma gen (P : pred nat) sel nel : (forall r, r < p -> sel (Z.of_nat r) = Ok (if P r then Some (iel r) else None)) ->
  nel = Z.of_nat (size (filter P (iota 0 p))) ->
  (rv <- new_vec im_dflt nel ;;
   '(rv, _) <- MList.enum (fun r m => Ok (r <? m)%coqZ) (fun r => iadd r 1) (S (Z.to_nat (Z.of_nat p))) 0%coqZ (Z.of_nat p) sel rv ;;
   Ok rv) = if 0 < size (filter P (iota 0 p)) then Ok [seq iel r | r <- filter P (iota 0 p)] else Exn.
Proof.
move=> hs ->; case: posnP => hc; first by rewrite hc.
have [rv [-> srv]] := PList2.new_vec_ok im_dflt hc; rewrite bind_ok (int_enum _ hs) srv leqnn bind_ok drop_oversize ?srv //.
by rewrite cats0.
Qed.
Definition ipred (ty : sp_list_type) (r : nat) : bool :=
  match ty with LIST_UNITS => cop r | LIST_NON_UNITS => ~~ cop r | _ => true end.
Lemma intmod_list_ok ty : ty = LIST_ALL \/ 1 < p /\ (ty = LIST_UNITS \/ ty = LIST_NON_UNITS) ->
  intmod_list (Z.of_nat p) ty = Ok [seq iel r | r <- filter (ipred ty) (iota 0 p)].
Proof.
case=> [->|[h1]]; last have et := totient_cop h1.
  rewrite /intmod_list bind_ok (gen (P := xpredT)).
  - by rewrite filter_predT size_iota p0.
  - by move=> r h; rewrite iel_ok.
  by rewrite filter_predT size_iota.
case=> ->; rewrite /intmod_list et !bind_ok.
  rewrite (gen (P := cop)) //.
    have -> : 0 < size (filter cop (iota 0 p)) by rewrite size_filter -has_count; apply/hasP; exists 1; rewrite ?mem_iota // /cop Z.gcd_1_r.
    by [].
  by move=> r h; rewrite gcd_cop // bind_ok iel_ok // /cop; case: ifP.
have hc : count cop (iota 0 p) + count (predC cop) (iota 0 p) = p by rewrite count_predC size_iota.
rewrite /isub chk_ok; last by rewrite /INT_MIN size_filter; lia.
rewrite bind_ok (gen (P := predC cop)) //.
- have -> : 0 < size (filter (predC cop) (iota 0 p)) => //.
  rewrite size_filter -has_count; apply/hasP; exists 0; rewrite ?mem_iota //= /cop Z.gcd_0_r; move/ltP: h1; lia.
- by move=> r h; rewrite gcd_cop // bind_ok iel_ok // /= /cop; case: ifP.
by rewrite !size_filter; lia.
Qed.
Lemma intmod_one : p = 1 -> intmod_list (Z.of_nat p) LIST_UNITS = Exn /\ intmod_list (Z.of_nat p) LIST_NON_UNITS = Ok [:: im_dflt].
Proof. by move=> ->. Qed.

Definition igpred (g : nat) (ty : sp_list_type) (r : nat) : bool :=
  match ty with
  | LIST_MULTIPLES => (Z.of_nat r mod Z.gcd (Z.of_nat p) (Z.of_nat g) =? 0)%coqZ
  | LIST_REL_PRIME => (Z.gcd (Z.of_nat r) (Z.gcd (Z.of_nat p) (Z.of_nat g)) =? 1)%coqZ
  | _ => false end.
Lemma intmod_glist_ok g ty : g < p ->
  intmod_glist (iel g) ty = let s := filter (igpred g ty) (iota 0 p) in if 0 < size s then Ok [seq iel r | r <- s] else Exn.
Proof.
move=> hg; rewrite /intmod_glist /= int_gcd_nonneg; [|lia|by move/ltP: hg; lia].
set G := Z.gcd _ _; have hG : (0 < G <= Z.of_nat p)%coqZ.
  split; first by have := Z.gcd_nonneg (Z.of_nat p) (Z.of_nat g); have := Z.gcd_eq_0_l (Z.of_nat p) (Z.of_nat g); rewrite -/G; lia.
  apply: Z.divide_pos_le; [lia|exact: Z.gcd_divide_l].
have [rv [e srv]] := PList2.new_vec_ok im_dflt p0; rewrite bind_ok e bind_ok.
have H P sel : (forall r, r < p -> sel (Z.of_nat r) = Ok (if P r then Some (iel r) else None)) ->
  ('(rv, nel) <- MList.enum (fun r m => Ok (r <? m)%coqZ) (fun r => iadd r 1) (S (Z.to_nat (Z.of_nat p))) 0%coqZ (Z.of_nat p) sel rv ;;
   trim_vec rv nel) = if 0 < size (filter P (iota 0 p)) then Ok [seq iel r | r <- filter P (iota 0 p)] else Exn.
  by move=> hs; rewrite (int_enum _ hs) srv sz_le bind_ok -[size (filter P _)](size_map iel) trim_ok.
case: ty => /=; rewrite ?filter_pred0 //.
- apply: H => r h; rewrite /imod (_ : (G =? 0)%coqZ = false); last by lia.
  rewrite Z.quot_div_nonneg ?Z.rem_mod_nonneg; try lia.
  have hq : (0 <= Z.of_nat r / G <= Z.of_nat r)%coqZ.
    split; [apply: Z.div_pos; lia|apply: Z.div_le_upper_bound; [lia|nia]].
  rewrite (_ : in_int _ = true); last by rewrite /in_int /INT_MIN; move/ltP: h; lia.
  by rewrite bind_ok iel_ok // /igpred -/G; case: Z.eqb.
apply: H => r h; rewrite int_gcd_nonneg; [|by move/ltP: h; lia|by lia].
by rewrite bind_ok iel_ok // /igpred -/G; case: Z.eqb.
Qed.
End Int.
