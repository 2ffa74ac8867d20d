(* The command-line evaluator over rings whose elements are encoded. *)
From Verif Require Import Base MIntMath MIntmod PIntMath PIntMath2 PIntmod MCli PCli PCli2 PCli3.
From mathcomp Require Import all_ssreflect ssralg ssrint zmodp zify ssrZ.
Require Import Lia.
Set Implicit Arguments.
Unset Strict Implicit.
Unset Printing Implicit Defensive.
Import GRing.Theory ListNotations.
Delimit Scope Z_scope with coqZ.
Local Open Scope ring_scope.

(* exceptions for missing values *)
Definition oexn {X Y} (f : X -> Y) (x : option X) : res Y := if x is Some y then Ok (f y) else Exn.
(* the operators are those of a commutative ring with units, up to the encoding enc; % throws like / and is 0 *)
Record espec (A : Type) (o : eops A) (R : comUnitRingType) (enc : R -> A) (key : R -> nat)
    (int : string -> option Z) : Prop := {
  es_neg : forall x, e_neg o (enc x) = Ok (enc (- x));
  es_add : forall x y, e_add o (enc x) (enc y) = Ok (enc (x + y));
  es_sub : forall x y, e_sub o (enc x) (enc y) = Ok (enc (x - y));
  es_mul : forall x y, e_mul o (enc x) (enc y) = Ok (enc (x * y));
  es_div : forall x y, e_div o (enc x) (enc y) = if y \is a GRing.unit then Ok (enc (x / y)) else Exn;
  es_mod : forall x y, e_mod o (enc x) (enc y) = if y \is a GRing.unit then Ok (enc 0) else Exn;
  es_eqb : forall x y, e_eqb o (enc x) (enc y) = Ok (x == y);
  es_neqb : forall x y, e_neqb o (enc x) (enc y) = Ok (x != y);
  es_ltb : forall x y, e_ltb o (enc x) (enc y) = Ok (key x < key y)%N;
  es_leb : forall x y, e_leb o (enc x) (enc y) = Ok (key x <= key y)%N;
  es_gtb : forall x y, e_gtb o (enc x) (enc y) = Ok (key y < key x)%N;
  es_geb : forall x y, e_geb o (enc x) (enc y) = Ok (key y <= key x)%N;
  es_zero : e_zero o = enc 0;
  es_one : e_one o = enc 1;
  es_scan_int : forall s, e_scan_int o s = oexn id (int s)
}.

Section V.
Context (R : comUnitRingType) (key : R -> nat) (num : string -> option R) (int : string -> option Z).
(* the value of an expression in the ring: a ring element, or the truth value of a comparison; None: none *)
Definition rpow (x : R) (n : Z) : option R :=
  if x == 0 then if (0 <? n)%coqZ then Some 0 else None
  else if (0 <=? n)%coqZ then Some (x ^+ Z.to_nat n)
  else if x \is a GRing.unit then Some (x^-1 ^+ Z.to_nat (- n)) else None.
(* exponents: ints, possibly in brackets and with + *)
Fixpoint ival (e : ast) : option Z := match e with ANum s => int s | APos e => ival e | _ => None end.
Definition rbin (t : tok) (x y : R) : option (R + bool) :=
  match t with
  | L_PLUS => Some (inl (x + y))
  | L_MINUS => Some (inl (x - y))
  | L_MUL => Some (inl (x * y))
  | L_DIV => if y \is a GRing.unit then Some (inl (x / y)) else None
  | L_MOD => if y \is a GRing.unit then Some (inl 0) else None
  | L_EQ => Some (inr (x == y))
  | L_NE => Some (inr (x != y))
  | L_LT => Some (inr (key x < key y)%N)
  | L_LE => Some (inr (key x <= key y)%N)
  | L_GT => Some (inr (key y < key x)%N)
  | L_GE => Some (inr (key y <= key x)%N)
  | _ => None
  end.
Fixpoint rval (e : ast) : option (R + bool) :=
  match e with
  | ANum s => omap inl (num s)
  | APos e => rval e
  | ANeg e => if rval e is Some (inl x) then Some (inl (- x)) else None
  | APow e f => match rval e, ival f with Some (inl x), Some n => omap inl (rpow x n) | _, _ => None end
  | ABin t e f => match rval e, rval f with Some (inl x), Some (inl y) => rbin t x y | _, _ => None end
  end.
(* number strings, those in exponents and the others *)
Fixpoint nums (e : ast) : list string :=
  match e with
  | ANum s => [s]
  | APos e | ANeg e => nums e
  | APow e f | ABin _ e f => (nums e ++ nums f)%list
  end.
Fixpoint exps (e : ast) : list string :=
  match e with
  | ANum s => []
  | APos e | ANeg e => exps e
  | APow e f => (exps e ++ nums f)%list
  | ABin _ e f => (exps e ++ exps f)%list
  end.
Fixpoint bases (e : ast) : list string :=
  match e with
  | ANum s => [s]
  | APos e | ANeg e => bases e
  | APow e f => bases e
  | ABin _ e f => (bases e ++ bases f)%list
  end.
Definition exps_ok (e : ast) : Prop := forall s n, List.In s (exps e) -> int s = Some n -> (INT_MIN < n <= INT_MAX)%coqZ.
End V.

Section S.
Context (A : Type) (o : eops A) (R : comUnitRingType) (enc : R -> A) (key : R -> nat).
Context (num : string -> option R) (int : string -> option Z) (sp : espec o enc key int).
Local Arguments rpow : simpl never.
Definition aenc (v : R + bool) : atom := match v with inl x => AT (enc x) | inr b => AI (Z.b2z b) end.

Lemma loopS X Y n (step : X -> res (X + Y)) s :
  loop n.+1 step s = match step s with Ok (inl s') => loop n step s' | Ok (inr r) => Ok r | Exn => Exn | UB => UB | Div => Div end.
Proof. by []. Qed.
Lemma clo_loop n e x r : (0 <= e < 2 ^ Z.of_nat n)%coqZ -> loop n.+1 (clo_step o) (e, enc x, enc r) = Ok (enc (r * x ^+ Z.to_nat e)).
Proof.
elim: n e x r => [|n IH] e x r he; rewrite loopS.
  have -> : e = 0%coqZ by move: he; clear; rewrite /=; lia.
  by rewrite /= expr0 mulr1.
rewrite /clo_step; case: (Z.eqb_spec e 0) => [->|e0]; first by rewrite /= expr0 mulr1.
have he2 : (0 <= e / 2 < 2 ^ Z.of_nat n)%coqZ.
  split; first by apply: Z.div_pos; move: he; clear; lia.
  by apply: Z.div_lt_upper_bound => //; move: he; rewrite Nat2Z.inj_succ Z.pow_succ_r; clear; lia.
have ee := Z.div_mod e 2; rewrite Zmod_odd in ee.
have en : Z.to_nat e = ((Z.to_nat (e / 2)).*2 + Z.odd e)%N.
  by move: (ee ltac:(done)) he2 he; case: (Z.odd e); clear; lia.
have xe : x ^+ Z.to_nat e = (if Z.odd e then x else 1) * (x * x) ^+ Z.to_nat (e / 2).
  by rewrite en addnC exprD -muln2 mulnC exprM expr2; case: (Z.odd e); rewrite ?expr1 ?expr0.
by case: (Z.odd e) xe => xe; rewrite ?(es_mul sp) !bind_ok ?(es_mul sp) ?bind_ok IH // xe ?mul1r ?mulrA.
Qed.
Lemma clo_exp_ok x n : (INT_MIN < n <= INT_MAX)%coqZ -> clo_exp o (enc x) n = oexn enc (rpow x n).
Proof.
move=> hn; rewrite /clo_exp (es_zero sp) (es_one sp) (es_eqb sp) bind_ok /rpow.
case: (x =P 0) => x0.
  case: (Z.ltb_spec n 0) => h1; first by case: (Z.ltb_spec 0 n) => //; move: h1; clear; lia.
  by case: (Z.eqb_spec n 0) => h2; case: (Z.ltb_spec 0 n) => // h3; move: h1 h2 h3; clear; lia.
case: (Z.eqb_spec n 0) => [->|n0] //.
have bound e : (0 <= e <= INT_MAX)%coqZ -> (0 <= e < 2 ^ Z.of_nat 32)%coqZ.
  by move=> h; split; [move: h; clear; lia|apply: (Z.le_lt_trans _ INT_MAX); [move: h; clear; lia|]].
case: (Z.ltb_spec n 0) => h1; case: (Z.leb_spec 0 n) => h2; try by move: h1 h2; clear; lia.
  have ng : ineg n = Ok (- n)%coqZ.
    by rewrite /ineg chk_ok //; split; move: hn; rewrite /INT_MIN /INT_MAX; clear; lia.
  rewrite ng !bind_ok; case: (Z.eqb_spec n (- n)) => h3; first by move: h3 h1; clear; lia.
  rewrite (es_div sp); case: ifP => hu //; rewrite !bind_ok div1r clo_loop ?mul1r //; apply: bound; move: hn h1; rewrite /INT_MIN /INT_MAX; clear; lia.
by rewrite bind_ok clo_loop ?mul1r //; apply: bound; move: hn h2; clear; lia.
Qed.
Lemma ev_int e : ev o true e = oexn AI (ival int e).
Proof.
elim: e => [s|e IH|e IH|e IH f IHf|t e IH f IHf] //=.
- by rewrite (es_scan_int sp); case: (int s).
- by rewrite IH; case: (ival _ e).
- by rewrite IH IHf; case: (ival _ e) => //= a; case: (ival _ f).
by rewrite IH IHf; case: (ival _ e) => //= a; case: (ival _ f).
Qed.
Definition bases_ok (e : ast) : Prop := forall s, List.In s (bases e) -> e_scan o s = oexn enc (num s).
Lemma ev_ring e : exps_ok int e -> bases_ok e -> ev o false e = oexn aenc (rval key num int e).
Proof.
elim: e => [s|e IH|e IH|e IH f IHf|t e IH f IHf] /= hx hb.
- by rewrite hb; [case: (num s)|left].
- exact: IH.
- by rewrite IH //; case: (rval _ _ _ e) => [[x|b]|] //=; rewrite (es_neg sp).
- have he : exps_ok int e by move=> s n h; apply: hx; rewrite /=; apply/List.in_app_iff; left.
  rewrite IH // ev_int; case: (rval _ _ _ e) => [[x|b]|] //=; case ei : (ival int f) => [n|] //=.
  rewrite clo_exp_ok; first by case: (rpow x n).
  have : exists s, List.In s (nums f) /\ int s = Some n.
    elim: (f) ei => [s|g IHg|g _|g _ h _|t g _ h _] //=; first by move=> ei; exists s; split=> //; left.
  by case=> s [h1 h2]; apply: (hx s) => //; rewrite /=; apply/List.in_app_iff; right.
have he : exps_ok int e by move=> s n h; apply: hx; rewrite /=; apply/List.in_app_iff; left.
have hf : exps_ok int f by move=> s n h; apply: hx; rewrite /=; apply/List.in_app_iff; right.
have be : bases_ok e by move=> s h; apply: hb; rewrite /=; apply/List.in_app_iff; left.
have bf : bases_ok f by move=> s h; apply: hb; rewrite /=; apply/List.in_app_iff; right.
rewrite IH // IHf //; case: (rval _ _ _ e) => [[x|b]|] //=; case: (rval _ _ _ f) => [[y|c]|] //=.
clear hx hb; case: t => //=; rewrite ?(es_add sp) ?(es_sub sp) ?(es_mul sp) ?(es_div sp) ?(es_mod sp) ?(es_eqb sp) ?(es_neqb sp)
  ?(es_ltb sp) ?(es_leb sp) ?(es_gtb sp) ?(es_geb sp) //; by case: ifP.
Qed.
Lemma safe_ring : (forall s, ben (fun a => exists x, a = enc x) (e_scan o s)) -> (forall s n, int s = Some n -> (INT_MIN < n <= INT_MAX)%coqZ) ->
  safe o (fun a => exists x, a = enc x) (fun n => (INT_MIN < n <= INT_MAX)%coqZ).
Proof.
move=> h1 h2; have bz (b : bool) : (INT_MIN < Z.b2z b <= INT_MAX)%coqZ by case: b.
split; first by move=> a [x ->]; rewrite (es_neg sp) /=; exists (- x).
split.
  move=> a b [x ->] [y ->]; rewrite (es_add sp) (es_sub sp) (es_mul sp) (es_div sp) (es_mod sp).
  by do 2!(split; [by eexists|]); split; [by eexists|]; split; case: ifP => // _; eexists.
split.
  by move=> a b [x ->] [y ->]; rewrite (es_eqb sp) (es_neqb sp) (es_ltb sp) (es_leb sp) (es_gtb sp) (es_geb sp) /=; do 5!(split; first exact: bz); exact: bz.
split; first by move=> a i [x ->] hi; rewrite clo_exp_ok //; case: (rpow x i) => [y|] //=; exists y.
by move=> s; split; [exact: h1|rewrite (es_scan_int sp); case e : (int s) => [n|] //=; exact: h2 e].
Qed.
End S.

(* integers modulo m *)
Section Zm.
Variables (m : nat) (c : cache) (rd : string -> option Z).
Hypotheses (m2 : (1 < m)%N) (mM : (Z.of_nat m <= 46341)%coqZ) (hc : cache_valid c).
Local Notation M := (Z.of_nat m).
Definition zr (z : Z) : 'Z_m := (int_of_Z z)%:~R.
Definition zm_el (x : 'Z_m) : intmod := mkim (Z.of_nat (nat_of_ord x)) M.
Lemma zrD x y : zr (Z.add x y) = zr x + zr y.
Proof. by rewrite /zr -intrD -(rmorphD [rmorphism of int_of_Z]). Qed.
Lemma zrN x : zr (Z.opp x) = - zr x.
Proof. by rewrite /zr -mulrNz -(rmorphN [rmorphism of int_of_Z]). Qed.
Lemma zrB x y : zr (Z.sub x y) = zr x - zr y.
Proof. by rewrite -zrN -zrD. Qed.
Lemma zrM x y : zr (Z.mul x y) = zr x * zr y.
Proof. by rewrite /zr -intrM -(rmorphM [rmorphism of int_of_Z]). Qed.
Lemma zr_nat k : zr (Z.of_nat k) = k%:R.
Proof. by rewrite /zr (_ : int_of_Z (Z.of_nat k) = k%:Z) // -(Z_of_intK k). Qed.
Lemma zr_mod z : zr (Z.modulo z M) = zr z.
Proof.
have hM : M <> 0%coqZ by move: m2; clear; lia.
by rewrite [in RHS](Z.div_mod z M hM) zrD zrM (zr_nat m) char_Zp // mul0r add0r.
Qed.
Lemma lt_m (x : 'Z_m) : (x < m)%N.
Proof. by have := ltn_ord x; rewrite [X in (_ < X)%N]Zp_cast. Qed.
Lemma zr_val (x : 'Z_m) : zr (Z.of_nat (nat_of_ord x)) = x.
Proof. by rewrite zr_nat natr_Zp. Qed.
Lemma zm_elE z : zm_el (zr z) = mkim (Z.modulo z M) M.
Proof.
have h : (0 <= Z.modulo z M < M)%coqZ by apply: Z.mod_pos_bound; move: m2; clear; lia.
rewrite /zm_el -zr_mod; congr mkim; move: h; set y := Z.modulo z M => h; clearbody y.
have -> : y = Z.of_nat (Z.to_nat y) by rewrite Z2Nat.id //; case: h.
by rewrite zr_nat; congr Z.of_nat; rewrite val_Zp_nat // modn_small //; move: h; clear; lia.
Qed.
Lemma unit_gcd (y : 'Z_m) : (y \is a GRing.unit) = (Z.gcd M (Z.of_nat (nat_of_ord y)) =? 1)%coqZ.
Proof.
rewrite -{1}(natr_Zp y) unitZpE //; apply/idP/idP => [/eqP h|/Z.eqb_eq h]; first apply/Z.eqb_eq.
  apply: Z.gcd_unique => //; try exact: Z.divide_1_l.
  move=> q [a ha] [b hb].
  have hq (k : nat) e : Z.of_nat k = (e * q)%coqZ -> (Z.to_nat (Z.abs q) %| k)%N.
    move=> ek; apply/dvdnP; exists (Z.to_nat (Z.abs e)); apply: Nat2Z.inj; rewrite -multE Nat2Z.inj_mul !Z2Nat.id; try exact: Z.abs_nonneg.
    by rewrite -Z.abs_mul -ek Z.abs_eq //; clear; lia.
  have : (Z.to_nat (Z.abs q) %| gcdn m y)%N by rewrite dvdn_gcd (hq _ a) // (hq _ b).
  rewrite h dvdn1 => /eqP e1; have : Z.abs q = 1%coqZ by move: e1; clear; lia.
  by move=> eq; exists (Z.sgn q); move: eq; clear; lia.
have d1 : (Z.of_nat (gcdn m y) | Z.gcd M (Z.of_nat (nat_of_ord y)))%coqZ.
  have dz (k l : nat) : (k %| l)%N -> (Z.of_nat k | Z.of_nat l)%coqZ.
    by move=> /dvdnP [e ->]; exists (Z.of_nat e); rewrite -multE Nat2Z.inj_mul.
  by apply: Z.gcd_greatest; apply: dz; rewrite ?dvdn_gcdl ?dvdn_gcdr.
by rewrite h in d1; have := Z.divide_1_r_nonneg _ (Nat2Z.is_nonneg _) d1; rewrite /coprime => e; apply/eqP; move: e; clear; lia.
Qed.

Lemma im_espec : espec (im_eops c M rd) zm_el (fun x : 'Z_m => nat_of_ord x) rd.
Proof.
have hM1 : (1 <= M <= MAXM)%coqZ by move: m2 mM; rewrite /MAXM; clear; lia.
have hM2 : (2 <= M <= MAXM)%coqZ by move: m2 mM; rewrite /MAXM; clear; lia.
have hb (x : 'Z_m) : (0 <= Z.of_nat (nat_of_ord x) < M)%coqZ by have := lt_m x; clear; lia.
have ml (q : Z) : (0 <= q < M)%coqZ -> zm_el (zr q) = mkim q M by move=> h; rewrite zm_elE Z.mod_small.
have ord (x y : 'Z_m) := order_spec (zm_el x) (zm_el y) ltac:(by rewrite /=; case: hM1; lia) erefl.
have dv (x y : 'Z_m) : if y \is a GRing.unit then im_div c (zm_el x) (zm_el y) = Ok (zm_el (x / y)) else im_div c (zm_el x) (zm_el y) = Exn.
  rewrite unit_gcd; have [[hg [q [e [hq eq]]]]|[hg e]] := im_div_ok c M _ _ hc hM2 (hb x) (hb y).
    have -> : im_div c (zm_el x) (zm_el y) = Ok (zm_el (zr q)) by rewrite ml.
    rewrite hg /=; congr (Ok (zm_el _)).
    have hu : y \is a GRing.unit by rewrite unit_gcd hg.
    apply: (mulIr hu); rewrite divrK //.
    by rewrite -[X in _ * X](zr_val y) -zrM -zr_mod eq zr_val.
  by case: Z.eqb_spec.
split=> //=.
- by move=> x; rewrite im_neg_ok // -zm_elE zrN zr_val.
- by move=> x y; rewrite im_add_ok // -zm_elE zrD !zr_val.
- by move=> x y; rewrite im_sub_ok // -zm_elE zrB !zr_val.
- by move=> x y; rewrite im_mul_ok // -zm_elE zrM !zr_val.
- by move=> x y; have := dv x y; case: ifP.
- move=> x y; rewrite /im_mod check_moduli_ok // ?bind_ok; last by case: hM1; rewrite /=; clear; lia.
  have := dv x y; rewrite /im_div check_moduli_ok // ?bind_ok; last by case: hM1; rewrite /=; clear; lia.
  have := im_recip_ok c M _ hc hM2 (hb y); rewrite -/(zm_el y) unit_gcd.
  case=> [[-> [z [-> _]]]|[hg ->]]; rewrite bind_ok.
    by move=> _; rewrite im_sub_ok // -zm_elE zrB !zr_val subrr.
  by case: Z.eqb_spec.
- move=> x y; rewrite im_eqb_ok //; congr Ok; apply/idP/eqP => [/Z.eqb_eq e|->]; last exact: Z.eqb_refl.
  by apply: val_inj; move: e => /=; clear; lia.
- move=> x y; rewrite im_eqb_ok // bind_ok; congr Ok; congr negb; apply/idP/eqP => [/Z.eqb_eq e|->]; last exact: Z.eqb_refl.
  by apply: val_inj; move: e => /=; clear; lia.
- by move=> x y; have [-> _] := ord x y; congr Ok; rewrite /=; clear; lia.
- by move=> x y; have [_ [-> _]] := ord x y; congr Ok; rewrite /=; clear; lia.
- by move=> x y; have [_ [_ [-> _]]] := ord x y; congr Ok; rewrite /=; clear; lia.
- by move=> x y; have [_ [_ [_ ->]]] := ord x y; congr Ok; rewrite /=; clear; lia.
Qed.
Lemma im_bases e : (forall s v, List.In s (bases e) -> rd s = Some v -> (0 <= v <= INT_MAX)%coqZ) ->
  bases_ok (im_eops c M rd) zm_el (fun s => omap zr (rd s)) e.
Proof.
move=> h s hs /=; case ev : (rd s) => [v|] //=.
have v0 := h _ _ hs ev; rewrite /im_stream_in check_modulus_ok; last by move: m2; rewrite /=; clear; lia.
by rewrite bind_ok zm_elE /= imod_pos ?bind_ok //; move: m2; clear; lia.
Qed.
End Zm.
