(* C31, C32, C37, C56, C57: unit groups - orders, generators, primitivity, logarithms. *)
From Verif Require Import Base MIntMath MIntmod MMat MBits MFac PIntMath PIntMath2 PIntmod PBits PBits2 MF2Poly MF2Fac MUnits PPow PF2Poly PF2Fac1 PFacGen PFacInt PUnits PFpUnits PSort.
From mathcomp Require Import all_ssreflect fingroup perm all_algebra finfield separable ssrZ.
From Verif Require Import PLin PLin2 PLin3 PMat PMat2 PMat3 PFp PropMat PBits3 PF2Poly2 PF2Poly3 PF2Poly4 PBerl PFacPoly PF2Fac2 PF2Fac3 PIrr PF2Irr PPhi PF2Tot PEuler PF2Units PF2Log PFpGen.
From Verif Require PropF2Poly PropF2Fac.
Set Implicit Arguments.
Unset Strict Implicit.
Unset Printing Implicit Defensive.
Import GRing.Theory.
Delimit Scope Z_scope with coqZ.
Local Open Scope ring_scope.

(* a word stands for the polynomial it spells *)
Lemma isP_single w : (w < 2 ^ 64)%num -> isP [:: w] (P [:: w]).
Proof. by move=> h; split; [exact: PropF2Poly.canon1|]. Qed.
Lemma isM_words w u d e : (w < 2 ^ 64)%num -> (u < 2 ^ 64)%num -> f2_degree [:: w] = Ok d -> f2_degree [:: u] = Ok e -> (d < e)%N ->
  isM (mkpm [:: w] [:: u]) (P [:: w]) (P [:: u]).
Proof.
move=> hw hu; have h1 := isP_single hw; have h2 := isP_single hu.
rewrite (degree_thm (isP_W h1)) (degree_thm (isP_W h2)) => -[<-] [<-] h; split=> //; split=> //=.
by move: h; case: (size (P [:: w])) => [|[|n]]; case: (size (P [:: u])) => [|[|k]].
Qed.
Lemma size_word w d : (w < 2 ^ 64)%num -> f2_degree [:: w] = Ok d.+1 -> size (P [:: w]) = d.+2.
Proof.
by move=> hw; rewrite (degree_thm (isP_W (isP_single hw))) => -[]; case: (size _) => //= n ->.
Qed.
(* coprimality of concrete polynomials, by the gcd routine *)
Lemma coprime_words w u g : (w < 2 ^ 64)%num -> (u < 2 ^ 64)%num -> f2_gcd [:: w] [:: u] = Ok g -> f2_neqb g (f2_of_int 1) = Ok false ->
  coprimep (P [:: w]) (P [:: u]).
Proof.
move=> hw hu e1 e2; have [g' [e3]] := gcd_unit (isP_single hw) (isP_single hu).
by move: e3; rewrite e1 => -[<-]; rewrite e2; case: coprimep.
Qed.

(* ---- C31 ---- *)
Theorem C31_order_partial t a r m : isM a r m -> coprimep r m -> (Z.of_nat (size m).-1 <= 15)%coqZ ->
  exists k, f2_order (Some t) a = Ok (Z.of_nat k) /\
    [/\ (0 < k)%N, r ^+ k %% m = 1 %% m & forall j, (0 < j < k)%N -> r ^+ j %% m <> 1 %% m].
Proof. exact (fun ha hc hd => order_thm ha t hc (Z.le_trans _ 15 30 hd ltac:(lia)) (phi_small hd)). Qed.
Theorem C31_order_nonunit tm a r m : isM a r m -> ~~ coprimep r m -> f2_order tm a = Exn.
Proof. exact (fun ha => order_nonunit ha tm). Qed.
Lemma totient_any t l p : isP l p -> p != 0 -> (Z.of_nat (size p).-1 <= 30)%coqZ -> f2_totient (Some t) l = f2_totient (Some 0%num) l.
Proof. by move=> h1 h2 h3; rewrite !(totient_thm _ h1 h2 h3). Qed.
(* x modulo x^17 + x^3 + 1: an int overflows while the divisors of 2^17 - 1 are listed *)
Theorem C31_order_refuted : exists a r m, [/\ isM a r m, coprimep r m, size m = 18%N & forall t, f2_order (Some t) a = UB].
Proof.
exists (mkpm [:: 2%num] [:: 131081%num]), (P [:: 2%num]), (P [:: 131081%num]).
have h := isP_single (erefl : (131081 < 2 ^ 64)%num).
have sz : size (P [:: 131081%num]) = 18%N.
  by apply: (size_word (d := 16)).
split; [exact: (@isM_words _ _ 1 17)|exact: (@coprime_words _ _ [:: 1%num])|exact: sz|].
move=> t; rewrite /f2_order (totient_any t h); [by vm_compute|by rewrite -size_poly_gt0 sz|by rewrite sz].
Qed.
(* primitivity of m: x is a unit whose powers are all the units *)
Theorem C31_primitive_partial t l m : isP l m -> (Z.of_nat (size m).-1 <= 30)%coqZ ->
  exists b, f2_is_primitive (Some t) l = Ok b /\
    (b = true <-> coprimep m 'X /\ forall h, coprimep m h -> exists j, h %% m = 'X ^+ j %% m).
Proof. exact (@primitive_thm t l m). Qed.
(* the modulus need not be irreducible: (x+1)^2 *)
Theorem C31_primitive_refuted : exists l m, [/\ isP l m, ~ irreducible_poly m & forall t, f2_is_primitive (Some t) l = Ok true].
Proof.
exists [:: 5%num], ('X^2 + 1); split; first exact: PropF2Poly.p5.
  have -> : 'X^2 + 1 = ('X + 1) * ('X + 1) :> {poly 'F_2}.
    by rewrite mulrDr mulrDl mulrDl !mulr1 mul1r expr2 -!addrA; congr (_ + _); rewrite addrA addF2 add0r.
  by apply: red_mul; rewrite PropF2Fac.sz_X1.
move=> t; rewrite /f2_is_primitive (totient_any t PropF2Poly.p5); first by vm_compute.
- by rewrite -size_poly_gt0 size_addl size_polyXn // size_poly1.
by rewrite size_addl size_polyXn // size_poly1.
Qed.
Example C31_ex :
  isM (mkpm [:: 6%num] [:: 19%num]) (P [:: 6%num]) (P [:: 19%num]) /\ coprimep (P [:: 6%num]) (P [:: 19%num]) /\
  f2_order (Some 0%num) (mkpm [:: 6%num] [:: 19%num]) = Ok 3%coqZ /\
  f2_order (Some 0%num) (mkpm [:: 2%num] [:: 19%num]) = Ok 15%coqZ /\
  f2_order (Some 0%num) (mkpm [:: 3%num] [:: 5%num]) = Exn /\
  f2_is_primitive (Some 0%num) [:: 19%num] = Ok true /\ f2_is_primitive (Some 0%num) [:: 31%num] = Ok false.
Proof.
split; first exact: (@isM_words _ _ 2 4).
split; first exact: (@coprime_words _ _ [:: 1%num]).
by vm_compute.
Qed.

(* ---- C32 ----
   qs is the sorting routine the standard library's qsort is assumed to be: it returns a
   permutation of the array in non-decreasing order. *)
Theorem C32_fp_log c qs g a m : (2 <= m <= MAXM)%coqZ -> cache_valid c -> sorts im_ltb (valid_im m) qs ->
  unit_mod m g -> (0 <= a < m)%coqZ ->
  (exists e, fp_log c qs (mkim g m) (mkim a m) = Ok e /\ (0 <= e)%coqZ /\ (g ^ e mod m)%coqZ = a)
  \/ (fp_log c qs (mkim g m) (mkim a m) = Exn /\ forall e, (0 <= e)%coqZ -> (g ^ e mod m)%coqZ <> a).
Proof.
move=> hm hc hq hg ha; have [[e [h1 [h2 h3]]]|h] := fp_log_ok m hm c qs g a hc hq hg ha; last by right.
by left; exists e; split=> //; split=> //; case: h2.
Qed.
Theorem C32_fp_log_nonunit c qs g a m : (2 <= m <= MAXM)%coqZ -> cache_valid c -> (0 <= g < m)%coqZ -> Z.gcd m g <> 1%coqZ ->
  fp_log c qs (mkim g m) a = Exn.
Proof. exact (fun hm => fp_log_nonunit m hm c qs g a). Qed.
Theorem C32_fp_log_mixed c qs g a m : (2 <= m <= MAXM)%coqZ -> cache_valid c -> (0 <= g < m)%coqZ -> modulus a <> m ->
  fp_log c qs (mkim g m) a = Exn.
Proof. exact (fun hm => fp_log_mixed m hm c qs g a). Qed.
Theorem C32_f2_log_partial qs g r a s m : isM g r m -> isM a s m -> (Z.of_nat (size m).-1 <= 30)%coqZ ->
  sorts pm_ltb (fun x => exists r, isM x r m) qs -> coprimep r m ->
  (exists e, f2_log qs g a = Ok (Z.of_nat e) /\ (r ^+ e %% m)%R = s /\ (Z.of_nat e <= INT_MAX)%coqZ)
  \/ (f2_log qs g a = Exn /\ forall e, (r ^+ e %% m)%R <> s).
Proof. exact (fun hg ha hd hq => f2_log_ok (isM_m0 hg) hq hg ha hd). Qed.
Theorem C32_f2_log_nonunit qs g r a m : isM g r m -> (Z.of_nat (size m).-1 <= 30)%coqZ -> ~~ coprimep r m -> f2_log qs g a = Exn.
Proof. exact (fun hg => f2_log_nonunit (isM_m0 hg) qs a hg). Qed.
Theorem C32_f2_log_mixed qs g r a s m m' : isM g r m -> isM a s m' -> m != m' -> (Z.of_nat (size m).-1 <= 30)%coqZ -> (1 < size m)%N ->
  f2_log qs g a = Exn.
Proof. exact (fun hg => f2_log_mixed (isM_m0 hg) qs hg). Qed.
(* 1 << degree: the square root of INT_MIN throws, a larger shift is undefined *)
Theorem C32_f2_log_refuted qs g r a m : isM g r m ->
  ((size m).-1 = 31%N -> f2_log qs g a = Exn) /\ ((31 < (size m).-1)%N -> f2_log qs g a = UB).
Proof.
move=> [_ [hm _]]; rewrite /f2_log (degree_thm (isP_W hm)) bind_ok.
split=> [-> //|/ltP h]; rewrite /ishl1.
by rewrite (introT (Z.ltb_spec0 31 _)) ?orbT //; lia.
Qed.
(* the assumption on qsort can be met *)
Theorem C32_sorting_exists m (mp : {poly 'F_2}) : (2 <= m <= MAXM)%coqZ ->
  sorts im_ltb (valid_im m) (isort im_ltb) /\ sorts pm_ltb (fun x => exists r, isM x r mp) (isort pm_ltb).
Proof.
move=> hm; split; first exact: (isort_sorts _ _ (fun x => Z.to_N (residue x)) (PFpUnits.valid_ltb m hm)).
exact: (isort_sorts _ _ (fun x => valN (pm_res x)) (@PF2Log.valid_ltb mp)).
Qed.
Example C32_ex :
  fp_log cache_init (isort im_ltb) (mkim 3 17) (mkim 5 17) = Ok 5%coqZ /\
  fp_log cache_init (isort im_ltb) (mkim 2 17) (mkim 3 17) = Exn /\
  f2_log (isort pm_ltb) (mkpm [:: 2%num] [:: 19%num]) (mkpm [:: 7%num] [:: 19%num]) = Ok 10%coqZ /\
  f2_log (isort pm_ltb) (mkpm [:: 6%num] [:: 19%num]) (mkpm [:: 2%num] [:: 19%num]) = Exn /\
  cache_valid cache_init /\ unit_mod 17 3 /\ isM (mkpm [:: 2%num] [:: 19%num]) (P [:: 2%num]) (P [:: 19%num]) /\
  coprimep (P [:: 2%num]) (P [:: 19%num]).
Proof.
do 4 (split; first by vm_compute).
split; first exact: cache_init_valid.
split; first by split.
split; first exact: (@isM_words _ _ 1 4).
exact: (@coprime_words _ _ [:: 1%num]).
Qed.

(* ---- C37 ---- *)
Theorem C37_order c m x : (2 <= m <= MAXM)%coqZ -> unit_mod m x ->
  exists k, fp_order c (mkim x m) = Ok k /\
    (0 < k)%coqZ /\ (x ^ k mod m = 1 mod m)%coqZ /\ forall j, (0 < j < k)%coqZ -> (x ^ j mod m <> 1 mod m)%coqZ.
Proof. by move=> hm hx; have [k [h1 [h2 _]]] := fp_order_unit m hm c x hx; exists k. Qed.
Theorem C37_order_nonunit c m x : (2 <= m <= MAXM)%coqZ -> (0 <= x < m)%coqZ -> Z.gcd m x <> 1%coqZ -> fp_order c (mkim x m) = Exn.
Proof. exact (fun hm => fp_order_nonunit m hm c x). Qed.
(* the least generator, or none when there is none *)
Theorem C37_generator c m : (2 <= m <= MAXM)%coqZ ->
  (exists g, fp_find_generator c m = Ok (Some (mkim g m)) /\ unit_mod m g /\
     (forall y, unit_mod m y -> exists k, (0 <= k)%coqZ /\ (g ^ k mod m)%coqZ = y) /\
     forall x, unit_mod m x -> (forall y, unit_mod m y -> exists k, (0 <= k)%coqZ /\ (x ^ k mod m)%coqZ = y) -> (g <= x)%coqZ)
  \/ (fp_find_generator c m = Ok None /\
      forall x, unit_mod m x -> ~ forall y, unit_mod m y -> exists k, (0 <= k)%coqZ /\ (x ^ k mod m)%coqZ = y).
Proof. exact (fun hm => fp_find_generator_ok m hm c). Qed.
(* modulo a prime there is one *)
Theorem C37_generator_prime c p : Znumtheory.prime p -> (p <= MAXM)%coqZ ->
  exists g, [/\ fp_find_generator c p = Ok (Some (mkim g p)), unit_mod p g,
    forall y, unit_mod p y -> exists k, (0 <= k)%coqZ /\ (g ^ k mod p)%coqZ = y
    & forall x, unit_mod p x -> PFpUnits.generates p x -> (g <= x)%coqZ].
Proof. exact (@fp_find_generator_prime c p). Qed.
Example C37_ex : fp_order cache_init (mkim 2 17) = Ok 8%coqZ /\ fp_order cache_init (mkim 6 9) = Exn /\
  fp_find_generator cache_init 41 = Ok (Some (mkim 6 41)) /\ fp_find_generator cache_init 8 = Ok None /\ unit_mod 17 2.
Proof. by do 4 (split; first by vm_compute). Qed.

(* ---- C56: generators modulo a GF(2) polynomial ---- *)
Theorem C56_generator_partial t l m : isP l m -> irreducible_poly m -> (Z.of_nat (size m).-1 <= 15)%coqZ ->
  exists g p, [/\ f2_find_generator (Some t) l = Ok (Some g), isM g p m, coprimep m p,
    forall h, coprimep m h -> exists j, h %% m = p ^+ j %% m &
    forall b q, isM b q m -> coprimep m q -> (forall h, coprimep m h -> exists j, h %% m = q ^+ j %% m) ->
      f2_ltb (pm_res b) (pm_res g) = Ok false].
Proof. exact (@find_gen_irr t l m). Qed.
(* modulo x^2 the element x + 1 generates, but the search throws at x *)
Theorem C56_generator_refuted : exists l m p, [/\ isP l m, coprimep m p,
    forall h, coprimep m h -> exists j, h %% m = p ^+ j %% m & forall t, f2_find_generator (Some t) l = Exn].
Proof.
have hl := isP_single (erefl : (4 < 2 ^ 64)%num).
have sz : size (P [:: 4%num]) = 3%N by apply: (size_word (d := 1)).
have m0 : P [:: 4%num] != 0 by rewrite -size_poly_gt0 sz.
have hM : isM (mkpm [:: 3%num] [:: 4%num]) (P [:: 3%num]) (P [:: 4%num]) by apply: (@isM_words _ _ 1 2).
have hc : coprimep (P [:: 3%num]) (P [:: 4%num]) by apply: (@coprime_words _ _ [:: 1%num]).
have ephi : Z.of_nat (phi2 (P [:: 4%num])) = 2%coqZ.
  have := totient_thm 0 hl m0; rewrite sz => /(_ ltac:(by [])) e.
  have : f2_totient (Some 0%num) [:: 4%num] = Ok 2%coqZ by vm_compute.
  by rewrite e => -[].
have [|k [ek hk]] := C31_order_partial 0 hM hc; first by rewrite sz.
have ek2 : Z.of_nat k = 2%coqZ.
  have : f2_order (Some 0%num) (mkpm [:: 3%num] [:: 4%num]) = Ok 2%coqZ by vm_compute.
  by rewrite ek => -[].
exists [:: 4%num], (P [:: 4%num]), (P [:: 3%num]); split; [exact: hl|by rewrite coprimep_sym| |].
  apply/(order_generates (F := F2) m0 _ (hk : has_order _ _ k)); first by rewrite coprimep_sym.
  by apply: Nat2Z.inj; rewrite ek2 ephi.
move=> t; have hd : (Z.of_nat (size (P [:: 4%num])).-1 <= 30)%coqZ by rewrite sz.
have oE x : f2_order (Some t) (mkpm x [:: 4%num]) = f2_order (Some 0%num) (mkpm x [:: 4%num]).
  by rewrite /f2_order (totient_any t hl m0 hd).
have e1 : f2_gen_step (Some t) [:: 4%num] 2 2 [:: 1%num] = Ok (inl [:: 2%num]).
  have -> : f2_gen_step (Some t) [:: 4%num] 2 2 [:: 1%num] = f2_gen_step (Some 0%num) [:: 4%num] 2 2 [:: 1%num].
    rewrite /f2_gen_step (_ : pm_make [:: 1%num] [:: 4%num] = Ok (mkpm [:: 1%num] [:: 4%num])) ?bind_ok ?oE //.
  by vm_compute.
have e2 : f2_gen_step (Some t) [:: 4%num] 2 2 [:: 2%num] = Exn by vm_compute.
rewrite /f2_find_generator (totient_any t hl m0 hd).
have -> : f2_degree [:: 4%num] = Ok 2%N by vm_compute.
have -> : f2_totient (Some 0%num) [:: 4%num] = Ok 2%coqZ by vm_compute.
have -> : f2_of_int 1 = [:: 1%num] by vm_compute.
rewrite !bind_ok; change (loop 5 (f2_gen_step (Some t) [:: 4%num] 2 2) [:: 1%num] = Exn).
by cbn [loop]; rewrite e1; cbn [loop]; rewrite e2.
Qed.
Example C56_ex : f2_find_generator (Some 0%num) [:: 31%num] = Ok (Some (mkpm [:: 3%num] [:: 31%num])) /\
  f2_find_generator (Some 0%num) [:: 1%num] = Exn /\ isP [:: 31%num] (P [:: 31%num]) /\ irreducible_poly (P [:: 31%num]).
Proof.
have h := isP_single (erefl : (31 < 2 ^ 64)%num).
do 2 (split; first by vm_compute); split=> //.
have [|b [e hb]] := irreducible_thm 0 h; last first.
  have : f2_is_irreducible (Some 0%num) [:: 31%num] = Ok true by vm_compute.
  by rewrite e => -[/hb].
by rewrite (size_word (d := 3)).
Qed.

(* ---- C57: period and the search for primitive polynomials ---- *)
Theorem C57_period_partial t l m : isP l m -> m != 0 -> (Z.of_nat (size m).-1 <= 15)%coqZ ->
  if coprimep m 'X then exists k, f2_period (Some t) l = Ok (Z.of_nat k) /\
     [/\ (0 < k)%N, 'X ^+ k %% m = 1 %% m & forall j, (0 < j < k)%N -> 'X ^+ j %% m <> 1 %% m]
  else f2_period (Some t) l = Ok 0%coqZ.
Proof. exact (@period_thm t l m). Qed.
(* the lowest polynomial of the degree modulo which x generates the units; with need_irr,
   the lowest irreducible one *)
Theorem C57_find_prim_partial t d ni : (0 < d)%N -> (Z.of_nat d <= 30)%coqZ ->
  let wanted p := (coprimep p 'X /\ forall h, coprimep p h -> exists j, h %% p = 'X ^+ j %% p) /\
                  (ni = true -> irreducible_poly p) in
  exists r p, [/\ f2_find_prim (Some t) (Z.of_nat d) ni = Ok r, isP r p, size p = d.+1, wanted p &
    forall l q, isP l q -> size q = d.+1 -> wanted q -> f2_ltb l r = Ok false].
Proof. exact (@find_prim_thm t d ni). Qed.
Theorem C57_find_prim_nonpositive tm d ni : (d < 1)%coqZ -> f2_find_prim tm d ni = Exn.
Proof.
move=> h; rewrite /f2_find_prim; case: (Z.ltb_spec d 0) => h0; first by rewrite /set_bit (introT (Z.ltb_spec0 _ _) h0).
by have -> : d = 0%coqZ by lia.
Qed.
Example C57_ex : f2_period (Some 0%num) [:: 31%num] = Ok 5%coqZ /\ f2_period (Some 0%num) [:: 6%num] = Ok 0%coqZ /\
  f2_find_prim (Some 0%num) 4 true = Ok [:: 19%num] /\ f2_find_prim (Some 0%num) 2 false = Ok [:: 5%num] /\
  f2_find_prim (Some 0%num) 2 true = Ok [:: 7%num].
Proof. by vm_compute. Qed.

Print Assumptions C31_order_partial.
Print Assumptions C31_order_nonunit.
Print Assumptions C31_order_refuted.
Print Assumptions C31_primitive_partial.
Print Assumptions C31_primitive_refuted.
Print Assumptions C32_fp_log.
Print Assumptions C32_fp_log_nonunit.
Print Assumptions C32_fp_log_mixed.
Print Assumptions C32_f2_log_partial.
Print Assumptions C32_f2_log_nonunit.
Print Assumptions C32_f2_log_mixed.
Print Assumptions C32_f2_log_refuted.
Print Assumptions C32_sorting_exists.
Print Assumptions C37_order.
Print Assumptions C37_order_nonunit.
Print Assumptions C37_generator.
Print Assumptions C37_generator_prime.
Print Assumptions C56_generator_partial.
Print Assumptions C56_generator_refuted.
Print Assumptions C57_period_partial.
Print Assumptions C57_find_prim_partial.
Print Assumptions C57_find_prim_nonpositive.
