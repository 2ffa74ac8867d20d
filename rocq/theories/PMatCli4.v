(* The vector evaluator over the integers modulo m. *)
From Verif Require Import Base MIntMath MIntmod MMat MMatCli PIntMath PIntMath2 PIntmod.
From mathcomp Require Import all_ssreflect ssralg ssrint zmodp zify ssrZ.
From Verif Require PCli4.
From Verif Require Import PMatCli PMatCli2 PMatCli3.
Require Import Lia.
Set Implicit Arguments.
Unset Strict Implicit.
Unset Printing Implicit Defensive.
Import GRing.Theory ListNotations.
Delimit Scope Z_scope with coqZ.
Local Open Scope ring_scope.
Local Notation zr := (PCli4.zr).
Local Notation zm_el := (PCli4.zm_el).
Local Notation rpow := (PCli4.rpow).
Local Notation oexn := (PCli4.oexn).

(* all of them, or none *)
Fixpoint oall {T} (s : seq (option T)) : option (seq T) :=
  match s with
  | [::] => Some [::]
  | Some x :: s => omap (cons x) (oall s)
  | None :: _ => None
  end.
Lemma oall_some (T : eqType) (l : seq T) : oall (map Some l) = Some l.
Proof. by elim: l => //= x l ->. Qed.
Lemma oall_inv (T : eqType) (s : seq (option T)) l : oall s = Some l -> s = map Some l.
Proof. by elim: s l => [|[x|] s IH] l //=; [case=> <-|case e : (oall s) => [l'|] //= [<-]; rewrite (IH _ e)]. Qed.
Lemma oall_none (T : eqType) (s : seq (option T)) : oall s = None <-> None \in s.
Proof.
elim: s => [|[x|] s IH] /=; first by split.
  rewrite inE /= -IH; by case: (oall s).
by rewrite inE.
Qed.

Section R.
Context (R : comUnitRingType) (int : string -> option Z).
(* the value of an expression in the ring *)
Fixpoint rval (num : string -> option R) (e : ast) : option R :=
  match e with
  | ANum s => num s
  | APar e => rval num e
  | AUn L_UPLUS e => rval num e
  | AUn L_UMINUS e => omap -%R (rval num e)
  | APow e f => match rval num e, expo int f with Some x, Some n => rpow x n | _, _ => None end
  | ABin L_PLUS e f => match rval num e, rval num f with Some x, Some y => Some (x + y) | _, _ => None end
  | ABin L_MINUS e f => match rval num e, rval num f with Some x, Some y => Some (x - y) | _, _ => None end
  | ABin L_MUL e f => match rval num e, rval num f with Some x, Some y => Some (x * y) | _, _ => None end
  | _ => None
  end.
(* exponents *)
Fixpoint exps (e : ast) : list ast :=
  match e with
  | ANum s => []
  | APar e | AUn _ e => exps e
  | APow e f => f :: exps e
  | ABin _ e f => List.app (exps e) (exps f)
  end.
Definition exps_ok (e : ast) : Prop := forall f, List.In f (exps e) -> expo int f <> Some INT_MIN.

Context (A : Type) (o : cops A) (x_exp : A -> Z -> res A) (enc : R -> A).
Context (get : list ascii -> res (option (A * list ascii * bool))).
Record vspec : Prop := {
  vs_neg : forall x, c_neg o (enc x) = Ok (enc (- x));
  vs_add : forall x y, c_add o (enc x) (enc y) = Ok (enc (x + y));
  vs_sub : forall x y, c_sub o (enc x) (enc y) = Ok (enc (x - y));
  vs_mul : forall x y, c_mul o (enc x) (enc y) = Ok (enc (x * y));
  vs_eqb : forall x y, c_eqb o (enc x) (enc y) = Ok (x == y);
  vs_exp : forall x n, (INT_MIN < n <= INT_MAX)%coqZ -> x_exp (enc x) n = oexn enc (rpow x n);
  vs_int : forall s n, int s = Some n -> (INT_MIN <= n <= INT_MAX)%coqZ
}.
Hypothesis sp : vspec.
Local Notation encs := (map enc).
Lemma mapM_o (f : A -> res A) (g : R -> option R) (l : seq R) : (forall x, f (enc x) = oexn enc (g x)) ->
  mapM f (encs l) = oexn encs (oall (map g l)).
Proof.
move=> h; elim: l => [|x l IH] //=; rewrite h; case: (g x) => [y|] //=; rewrite IH.
by case: (oall _).
Qed.
Lemma map2M_o (f : A -> A -> res A) (g : R -> R -> R) (l l' : seq R) : (forall x y, f (enc x) (enc y) = Ok (enc (g x y))) ->
  map2M f (encs l) (encs l') = Ok (encs [seq g z.1 z.2 | z <- zip l l']).
Proof. by move=> h; elim: l l' => [|x l IH] [|y l'] //=; rewrite h /= IH. Qed.
Lemma lenE (T : Type) (l : seq T) : List.length l = size l. Proof. by []. Qed.
Lemma oall_size (T : eqType) (s : seq (option T)) l : oall s = Some l -> size l = size s.
Proof. by move=> /oall_inv ->; rewrite size_map. Qed.
Lemma expo_range e n : expo int e = Some n -> (INT_MIN <= n <= INT_MAX)%coqZ.
Proof. by elim: e => [s|e IH|[] e IH|e _ f _|t e _ f _] //=; exact: (vs_int sp). Qed.

Section E.
Context (L : string -> seq R) (n : nat) (n0 : (0 < n)%N).
Definition val_at (i : nat) (e : ast) : option R := rval (fun s => Some (L s)`_i) e.
Definition lits_ok (e : ast) : Prop := forall s, List.In s (vlits e) -> vlit get s = Ok (encs (L s)) /\ size (L s) = n.
Lemma lits_app t e f : lits_ok (ABin t e f) -> lits_ok e /\ lits_ok f.
Proof. by move=> h; split=> s hs; apply: h; rewrite /=; apply: List.in_or_app; [left|right]. Qed.
Lemma exps_app t e f : exps_ok (ABin t e f) -> exps_ok e /\ exps_ok f.
Proof. by move=> h; split=> s hs; apply: h; rewrite /=; apply: List.in_or_app; [left|right]. Qed.
Definition vals (e : ast) : option (seq R) := oall [seq val_at i e | i <- iota 0 n].
Lemma vals_size e l : vals e = Some l -> size l = n.
Proof. by move=> /oall_size ->; rewrite size_map size_iota. Qed.
(* pointwise operations *)
Lemma vals1 (g : R -> option R) e e' : (forall i, val_at i e' = obind g (val_at i e)) -> vals e' = obind (fun l => oall (map g l)) (vals e).
Proof.
move=> h; rewrite /vals; have -> : [seq val_at i e' | i <- iota 0 n] = [seq obind g (val_at i e) | i <- iota 0 n] by apply: eq_map.
elim: (iota 0 n) => [|i l IH] //=; case: (val_at i e) => [x|] //=; case eg : (g x) => [y|] /=; last by case: (oall _) => //= l'; rewrite eg.
by rewrite IH; case: (oall [seq val_at _ e | _ <- l]) => //= l'; rewrite eg.
Qed.
Lemma vals2 (g : R -> R -> R) e f e' : (forall i, val_at i e' = if val_at i e is Some x then if val_at i f is Some y then Some (g x y) else None else None) ->
  vals e' = if vals e is Some l then if vals f is Some l' then Some [seq g z.1 z.2 | z <- zip l l'] else None else None.
Proof.
move=> h; rewrite /vals; elim: (iota 0 n) => [|i l IH] //=; rewrite h; case: (val_at i e) => [x|] //=.
case: (val_at i f) => [y|] /=; last by case: (oall _).
by rewrite IH; case: (oall [seq val_at _ e | _ <- l]) => //= l1; case: (oall [seq val_at _ f | _ <- l]).
Qed.
Lemma vval_ring e : plain e -> lits_ok e -> exps_ok e -> vval o x_exp get int e = oexn encs (vals e).
Proof.
elim: e => [s|e IH|t e IH|e IHe f IHf|t e IHe f IHf] /=.
- move=> _ hl _; have [-> hs] := hl s (or_introl erefl).
  have -> : vals (ANum s) = Some (L s); last by [].
  by rewrite /vals /val_at /= (map_comp Some) oall_some -hs; congr Some; exact: (mkseq_nth 0 (L s)).
- by move=> hp hl hx; rewrite IH.
- move=> [ht hp] hl hx; rewrite IH //; case: ht => -> /=.
    by rewrite (_ : vals (AUn L_UPLUS e) = vals e) //; case: (vals e).
  have -> : vals (AUn L_UMINUS e) = obind (fun l => oall (map (Some \o -%R) l)) (vals e) by apply: vals1 => i /=; rewrite /val_at /=; case: (rval _ _).
  by case: (vals e) => //= l; apply: mapM_o => x; rewrite (vs_neg sp).
- move=> [hp hq] hl hx; rewrite IHe //; last by move=> g hg; apply: hx; right.
  case ef : (expo int f) => [k|].
    have -> : vals (APow e f) = obind (fun l => oall (map (fun x => rpow x k) l)) (vals e).
      by apply: vals1 => i; rewrite /val_at /= ef; case: (rval _ _).
    case: (vals e) => //= l; apply: mapM_o => x; apply: (vs_exp sp).
    have h2 := expo_range ef; have h1 : k <> INT_MIN by move=> ek; apply: (hx f (or_introl erefl)); rewrite ef ek.
    split; last by case: h2.
    by case: h2 => h2 _; move: h1 h2; clear; lia.
  have -> : vals (APow e f) = None.
    by rewrite /vals; case: (n) n0 => //= n' _; rewrite /val_at /= ef; case: (rval _ e).
  by case: (vals e).
move=> [ht [hp hq]] hl hx; have [l1 l2] := lits_app hl; have [x1 x2] := exps_app hx.
rewrite IHe // IHf //.
have B g op : vals (ABin t e f) = (if vals e is Some l then if vals f is Some l' then Some [seq g z.1 z.2 | z <- zip l l'] else None else None) ->
  (forall l l', vbin o t (encs l) (encs l') = if Nat.eqb (size (encs l)) (size (encs l')) then map2M op (encs l) (encs l') else Exn) ->
  (forall x y, op (enc x) (enc y) = Ok (enc (g x y))) ->
  (a <- oexn encs (vals e);; b <- oexn encs (vals f);; vbin o t a b) = oexn encs (vals (ABin t e f)).
  move=> -> hv ho; case e1 : (vals e) => [l|] //=; case e2 : (vals f) => [l'|] //=.
  by rewrite hv !size_map (vals_size e1) (vals_size e2) Nat.eqb_refl (map2M_o _ _ ho).
case: ht => [et|[et|et]]; subst t.
- by apply: (B +%R (c_add o)) => //; [apply: (vals2 (e := e) (f := f)) => i; rewrite /val_at /=|exact: (vs_add sp)].
- by apply: (B (fun x y => x - y) (c_sub o)) => //; [apply: (vals2 (g := fun x y => x - y) (e := e) (f := f)) => i; rewrite /val_at /=|exact: (vs_sub sp)].
by apply: (B *%R (c_mul o)) => //; [apply: (vals2 (e := e) (f := f)) => i; rewrite /val_at /=|exact: (vs_mul sp)].
Qed.
Lemma vec_eqb_ring (u v : seq R) : vec_eqb o (encs u) (encs v) = Ok (u == v).
Proof.
have eqs : size u = size v -> vec_eq_loop o (encs u) (encs v) = Ok (u == v).
  elim: u v => [|x u IH] [|y v] //= [e]; rewrite (vs_eqb sp) bind_ok eqseq_cons; case: eqP => //= _; exact: IH.
rewrite /vec_eqb !lenE !size_map; case: Nat.eqb_spec => h; first exact: eqs.
by congr Ok; symmetry; apply/eqP => e; apply: h; rewrite e.
Qed.
End E.
End R.

Section Zm.
Variables (m : nat) (c : cache).
Hypotheses (m2 : (1 < m)%N) (mM : (Z.of_nat m <= 46341)%coqZ) (hc : cache_valid c).
Local Notation M := (Z.of_nat m).
Lemma zrX z k : (0 <= k)%coqZ -> zr m (Z.pow z k) = zr m z ^+ Z.to_nat k.
Proof.
move=> hk; rewrite -{1}(Z2Nat.id k hk); elim: (Z.to_nat k) => [|j IH]; first by rewrite expr0 /zr.
by rewrite Nat2Z.inj_succ Z.pow_succ_r ?PCli4.zrM ?IH ?exprS //; clear; lia.
Qed.
Lemma im_exp_ring (x : 'Z_m) n : (INT_MIN < n <= INT_MAX)%coqZ -> im_exp c (zm_el x) n = oexn (@zm_el m) (rpow x n).
Proof.
move=> hn.
have hM1 : (1 <= M <= MAXM)%coqZ by move: m2 mM; rewrite /MAXM; clear; lia.
have hM2 : (2 <= M <= MAXM)%coqZ by move: m2 mM; rewrite /MAXM; clear; lia.
have hb : (0 <= Z.of_nat (nat_of_ord x) < M)%coqZ by have := PCli4.lt_m m2 x; clear; lia.
have ml (q : Z) : (0 <= q < M)%coqZ -> zm_el (zr m q) = mkim q M by move=> h; rewrite PCli4.zm_elE // Z.mod_small.
rewrite /rpow; case: (x =P 0) => [->|x0].
  have e0 : zm_el (0 : 'Z_m) = mkim 0 M by [].
  rewrite e0; case: (Z.ltb_spec 0 n) => h1.
    rewrite im_exp_ok //; [|by move: hM1; clear; lia|by move: hn h1; clear; lia].
    rewrite Z.pow_0_l // Z.mod_0_l //; move: hM1; clear; lia.
  case: (Z.eqb_spec n 0) => [->|n0]; first by rewrite im_exp_0 //; move: hM1; clear; lia.
  by rewrite im_exp_zero_neg //; move: h1 n0; clear; lia.
have xn0 : Z.of_nat (nat_of_ord x) <> 0%coqZ by move=> e; apply: x0; apply: val_inj; move: e => /=; clear; lia.
case: (Z.leb_spec 0 n) => h1.
  case: (Z.eqb_spec n 0) => [->|n0].
    rewrite /zm_el im_exp_0 //; case: Z.eqb_spec => // _.
    by rewrite -(PCli4.zm_elE m2).
  rewrite /zm_el im_exp_ok //; last by move: hn h1 n0; clear; lia.
  by rewrite -(PCli4.zm_elE m2) zrX // PCli4.zr_val.
have [[hg [y [e [hy ey]]]]|[hg e]] := im_exp_neg_ok c M _ n hc hM2 hb (conj (proj1 hn) h1).
  have hu : x \is a GRing.unit by rewrite (PCli4.unit_gcd m2) hg.
  rewrite hu /zm_el e -(ml _ hy) /=; congr (Ok (zm_el _)).
  have hu2 : x ^+ Z.to_nat (- n) \is a GRing.unit by rewrite unitrX.
  apply: (mulIr hu2); rewrite exprVn mulVr // -[in LHS](PCli4.zr_val x) -zrX; last by move: h1; clear; lia.
  by rewrite -PCli4.zrM -(PCli4.zr_mod m2) ey /zr.
by rewrite (PCli4.unit_gcd m2); case: Z.eqb_spec => // _; rewrite /zm_el e.
Qed.
Lemma scan_range s n : scan_int s = Some n -> (INT_MIN <= n <= INT_MAX)%coqZ.
Proof.
rewrite /scan_int /read_int; set p := (match skip_space _ with _ :: _ => _ | _ => _ end); case: p => [ng l].
case: (read_digits l 0 false) => [[v r]|] //; set v' := if ng then _ else _.
case: andP => // -[/Z.leb_le h1 /Z.leb_le h2] /= [<-]; by split.
Qed.
Lemma im_vspec : vspec scan_int (im_cops c) (im_exp c) (@zm_el m).
Proof.
have es := PCli4.im_espec (fun _ => None) m2 mM hc.
split=> /=.
- exact: (PCli4.es_neg es).
- exact: (PCli4.es_add es).
- exact: (PCli4.es_sub es).
- exact: (PCli4.es_mul es).
- exact: (PCli4.es_eqb es).
- exact: im_exp_ring.
exact: scan_range.
Qed.
End Zm.
