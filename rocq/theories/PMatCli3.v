(* The vector evaluator: values of expressions, buffers of the stack. *)
From Verif Require Import Base MIntmod MMat MMatCli.
From mathcomp Require Import all_ssreflect zify ssrZ.
From Verif Require Import PMatCli PMatCli2.
Set Implicit Arguments.
Unset Strict Implicit.
Unset Printing Implicit Defensive.
Import ListNotations.

Lemma bind_inv X Y (r : res X) (f : X -> res Y) y : (x <- r ;; f x) = Ok y -> exists x, r = Ok x /\ f x = Ok y.
Proof. by case: r => [x|||] //= h; exists x. Qed.
Lemma mapM_len X Y (f : X -> res Y) l l' : mapM f l = Ok l' -> List.length l' = List.length l.
Proof.
elim: l l' => [|x l IH] l' /= ; first by case=> <-.
by move=> h; have {h} [y [_ h]] := bind_inv h; have {h} [ys [/IH e [<-]]] := bind_inv h; rewrite /= e.
Qed.
Lemma map2M_len X Y Z (f : X -> Y -> res Z) l l' r : List.length l = List.length l' -> map2M f l l' = Ok r -> List.length r = List.length l.
Proof.
elim: l l' r => [|x l IH] [|x' l'] r //=; first by move=> _ [<-].
by case=> e h; have {h} [y [_ h]] := bind_inv h; have {h} [ys [/IH e2 [<-]]] := bind_inv h; rewrite /= e2.
Qed.

Section V.
Context {A : Type} (o : cops A) (x_exp : A -> Z -> res A).
Context (get : list ascii -> res (option (A * list ascii * bool))) (scan_int : string -> option Z).
Local Notation mv := (vec_mach o x_exp get scan_int).
Local Notation vatom := (@vatom A).
Local Notation vstack := (@vstack A).
Local Notation exec := (exec mv).

(* the vector an operand stands for *)
Definition vlit (s : string) : res (list A) := a <- vec_scan get s (VA [] None) ;; Ok (va_vec a).
Lemma vlitE s a : vec_scan get s a = (v <- vlit s ;; Ok (VA v None)).
Proof.
rewrite /vlit /vec_scan; case: (strchr _ _) => [t|] //=.
by case: (vec_bracket_in _ _) => [[v|]|||].
Qed.
(* an exponent: an int, possibly in brackets and with + *)
Fixpoint expo (e : ast) : option Z :=
  match e with
  | ANum s => scan_int s
  | APar e => expo e
  | AUn L_UPLUS e => expo e
  | _ => None
  end.
Definition vun (t : tok) (a : list A) : res (list A) :=
  match t with L_UPLUS => Ok a | L_UMINUS => vec_neg o a | _ => Exn end.
Definition vbin (t : tok) (a b : list A) : res (list A) :=
  match t with L_PLUS => vec_add o a b | L_MINUS => vec_sub o a b | L_MUL => vec_mul o a b | _ => Exn end.
Fixpoint vval (e : ast) : res (list A) :=
  match e with
  | ANum s => vlit s
  | APar e => vval e
  | AUn t e => a <- vval e ;; vun t a
  | APow e f => a <- vval e ;; match expo f with Some k => vec_exp x_exp a k | None => Exn end
  | ABin t e f => a <- vval e ;; b <- vval f ;; vbin t a b
  end.
(* the vector operands, not those in exponents *)
Fixpoint vlits (e : ast) : list string :=
  match e with
  | ANum s => [s]
  | APar e | AUn _ e | APow e _ => vlits e
  | ABin _ e f => List.app (vlits e) (vlits f)
  end.
(* a binary operator or a power *)
Fixpoint compound (e : ast) : bool :=
  match e with ANum _ => false | APar e | AUn _ e => compound e | APow _ _ | ABin _ _ _ => true end.
(* no comparison *)
Fixpoint plain (e : ast) : Prop :=
  match e with
  | ANum _ => True
  | APar e => plain e
  | AUn t e => (t = L_UPLUS \/ t = L_UMINUS) /\ plain e
  | APow e f => plain e /\ plain f
  | ABin t e f => (t = L_PLUS \/ t = L_MINUS \/ t = L_MUL) /\ plain e /\ plain f
  end.
Lemma der_plain k w a : der vspells k w a -> k <> cQ -> plain a.
Proof.
elim=> //=.
- by move=> l w0 r a0 _ _ h _ _; exact: h.
- by move=> w0 a0 _ h _; exact: h.
- by move=> w0 s w' a0 b _ h1 _ _ h2 _; split; [exact: h1|exact: h2].
- by move=> w0 a0 _ h _; exact: h.
- move=> s u t w0 a0 hs hp _ h _; split; last exact: h.
  case: hp => [[_ ->]|[[_ ->]|[e hu]]]; try tauto.
  by subst t; move: hs; rewrite /vspells /=; repeat (case=> [[_ e]|]; first by subst u; move: hu; rewrite /=; repeat case=> //).
- by move=> k0 w0 a0 [->|[->|->]] _ h // _; exact: h.
move=> k0 w0 s t w' a0 b hb _ h1 _ _ h2 hk; split; last by split; [exact: h1|apply: h2; case: (k0) hb].
by case: (k0) hb hk => //=; [move=> -> _|case=> -> _]; tauto.
Qed.
Lemma der_cmp w a : der vspells cQ w a -> plain a \/ exists t a1 a2, [/\ a = ABin t a1 a2, t = L_EQ \/ t = L_NE, plain a2 & plain a1 \/ exists t' b1 b2, a1 = ABin t' b1 b2 /\ (t' = L_EQ \/ t' = L_NE)].
Proof.
move e : cQ => k d; move: e; elim: d => //=.
- by move=> k0 w0 a0 [->|[->|->]] // d _ _; left; exact: (der_plain d).
move=> k0 w0 s t w' a0 b hb d1 h1 hs d2 _ e; subst k0; right; exists t, a0, b; split=> //.
  exact: (der_plain d2).
by have [|[t' [b1 [b2 [-> ht _ _]]]]] := h1 erefl; [left|right; exists t', b1, b2].
Qed.

(* ---- buffers ---- *)
Definition cap_ok (P : nat -> Prop) (c : option nat) : Prop := match c with None => True | Some k => P k end.
(* from position b on: vectors of length n on the stack, buffers which P *)
Definition J (P : nat -> Prop) (b n : nat) (s : vstack) : Prop :=
  [/\ b <= List.length (vs_st s) <= List.length (vs_slots s), 0 < List.length (vs_slots s),
      forall k c, b <= k -> nth_error (vs_slots s) k = Some c -> cap_ok P c &
      forall k a, b <= k -> nth_error (List.rev (vs_st s)) k = Some a -> List.length (va_vec a) = n].
Definition filled (k : nat) (s : vstack) : Prop := exists c, nth_error (vs_slots s) k = Some (Some c).

Lemma nth_upd T (l : list T) i x k : i < List.length l -> nth_error (upd l i x) k = if k == i then Some x else nth_error l k.
Proof.
rewrite /upd; elim: l i k => [|y l IH] [|i] [|k] //= h; rewrite ?IH //.
Qed.
Lemma nth_rep T (x : T) m k y : nth_error (repeat x m) k = Some y -> y = x.
Proof. by move=> h; exact: (repeat_spec _ _ _ (nth_error_In _ _ h)). Qed.
Lemma push_st (a : vatom) s s' : vs_push a s = Ok s' -> vs_st s' = a :: vs_st s.
Proof. by rewrite /vs_push; case: (nth_error _ _) => [c|] // h; have [c' [_ [<-]]] := bind_inv h. Qed.
Lemma push_filled (a : vatom) s s' k : vs_push a s = Ok s' -> filled k s -> filled k s'.
Proof.
rewrite /vs_push => h [c hc].
have hk : k < List.length (vs_slots s) by have := nth_error_Some (vs_slots s) k; rewrite hc => -[/(_ ltac:(done))]; lia.
move: h; case: (Nat.leb_spec (List.length (vs_slots s)) (List.length (vs_st s))) => hl.
  set sl := List.app _ _; case e : (nth_error sl _) => [c1|] // h; have [c' [_ [<-]]] := bind_inv h.
  rewrite /filled /= nth_upd; last by have := nth_error_Some sl (List.length (vs_st s)); rewrite e => -[/(_ ltac:(done))]; lia.
  have hk2 : k < List.length (vs_st s) by lia.
  rewrite ifN; last by apply/eqP; lia.
  rewrite /sl nth_error_app1; last by rewrite map_length rev_length; lia.
  rewrite nth_error_map. case e2 : (nth_error (List.rev (vs_st s)) k) => [x|] /=. by exists (List.length (va_vec x)).
  by move/nth_error_None: e2; rewrite rev_length; lia.
case e : (nth_error _ _) => [c1|] // h; have [c' [hc' [<-]]] := bind_inv h.
rewrite /filled /= nth_upd; last by lia.
case: eqP => [ek|_]; last by exists c.
subst k; move: e; rewrite hc => -[e]; subst c1; move: hc'; rewrite /assign_cap; case: ifP => // _ [<-]; by exists c.
Qed.

Section P.
Variables (P : nat -> Prop) (b n : nat).
Hypotheses (Pn : P n) (Ple : forall k, P k -> n <= k).
Lemma cap_assign c : cap_ok P c -> exists c', assign_cap c n = Ok (Some c') /\ P c'.
Proof.
case: c => [k|] /= h; last by exists n.
have -> : Nat.leb n k = true by apply/Nat.leb_le; move: (Ple h); lia.
by exists k.
Qed.
Lemma push_ok (a : vatom) s : J P b n s -> List.length (va_vec a) = n ->
  exists s', [/\ vs_push a s = Ok s', vs_st s' = a :: vs_st s, J P b n s' & filled (List.length (vs_st s)) s'].
Proof.
case=> /andP [h1 h2] h0 h3 h4 ha; set d := List.length (vs_st s) in h1 h2 *.
have [sl [e [hl hc]]] : exists sl, [/\ (if Nat.leb (List.length (vs_slots s)) d then List.app (List.map (fun x => Some (List.length (va_vec x))) (List.rev (vs_st s))) (repeat None (List.length (vs_slots s) + 10 - d)%coq_nat) else vs_slots s) = sl,
    d < List.length sl & forall k c, b <= k -> nth_error sl k = Some c -> cap_ok P c].
  case: (Nat.leb_spec (List.length (vs_slots s)) d) => hd; eexists; split=> //; last by lia.
    by rewrite app_length map_length rev_length repeat_length -/d; lia.
  move=> k c hk; case: (ltnP k d) => hkd.
    rewrite nth_error_app1; last by rewrite map_length rev_length -/d; lia.
    rewrite nth_error_map; case e2 : (nth_error _ _) => [x|] // [<-] /=; by rewrite (h4 _ _ hk e2).
  rewrite nth_error_app2; last by rewrite map_length rev_length -/d; lia.
  by move=> h; rewrite (nth_rep h).
have [c hcc] : exists c, nth_error sl d = Some c.
  by case e2 : (nth_error sl d) => [c|]; [exists c|move/nth_error_None: e2; lia].
have [c' [hc1 hc2]] := cap_assign (hc _ _ h1 hcc).
exists (VS (upd sl d (Some c')) (a :: vs_st s)).
have -> : vs_push a s = Ok (VS (upd sl d (Some c')) (a :: vs_st s)) by rewrite /vs_push -/d e hcc ha hc1.
split=> //; last by exists c'; rewrite /= nth_upd // eqxx.
split=> /=.
- by rewrite upd_length -/d; apply/andP; split; lia.
- by rewrite upd_length; lia.
- move=> k c0 hk; rewrite nth_upd //; case: eqP => [_ [<-] //|_]; exact: hc.
move=> k a0 hk; case: (ltnP k d) => hkd.
  by rewrite nth_error_app1 ?rev_length -/d; [exact: h4|lia].
rewrite nth_error_app2 rev_length -/d; last by lia.
by case: (k - d)%coq_nat => [|[|j]] //= [<-].
Qed.
Lemma J_pop a s st : J P b n s -> vs_st s = a :: st -> b <= List.length st -> J P b n (VS (vs_slots s) st).
Proof.
case=> /andP [h1 h2] h0 h3 h4 e hb; split=> //=.
  by apply/andP; split=> //; move: h2; rewrite e /=; lia.
move=> k x hk hx; apply: (h4 k) => //; rewrite e /= nth_error_app1 //.
by have := nth_error_Some (List.rev st) k; rewrite hx => -[/(_ ltac:(done))]; lia.
Qed.

Definition mono (s s' : vstack) : Prop := forall k, filled k s -> filled k s'.
Lemma mono_tr s1 s2 s3 : mono s1 s2 -> mono s2 s3 -> mono s1 s3. Proof. by move=> h1 h2 k /h1 /h2. Qed.
Lemma mono_pop s st : mono s (VS (vs_slots s) st). Proof. by []. Qed.

Definition pushed (s s' : vstack) (a : vatom) : Prop := [/\ vs_st s' = a :: vs_st s, J P b n s', filled (List.length (vs_st s)) s' & mono s s'].
Lemma push_ok2 (a : vatom) s : J P b n s -> List.length (va_vec a) = n -> exists s', vs_push a s = Ok s' /\ pushed s s' a.
Proof.
move=> hj ha; have [s' [h1 h2 h3 h4]] := push_ok hj ha; exists s'; split=> //; split=> // k hk; exact: (push_filled h1 hk).
Qed.
(* the two operands are popped and a pushed *)
Lemma pop2_push s s1 s2 x y (a : vatom) : J P b n s -> pushed s s1 x -> pushed s1 s2 y -> List.length (va_vec a) = n ->
  exists s', vs_push a (VS (vs_slots s2) (vs_st s)) = Ok s' /\ pushed s s' a /\ filled (List.length (vs_st s)).+1 s'.
Proof.
case=> /andP [hb _] _ _ _ [e1 j1 f1 m1] [e2 j2 f2 m2] ha.
have j3 := J_pop (J_pop j2 e2 ltac:(by rewrite e1 /=; lia)) e1 hb.
have [s' [h1 [h2 h3 h4 h5]]] := push_ok2 j3 ha; exists s'; split=> //.
have mm : mono s2 s' by move=> k hk; apply: h5.
split; last by apply: mm; move: f2; rewrite e1.
by split=> //; apply: mono_tr mm; exact: mono_tr m2.
Qed.
Lemma exec_int e x s : plain e -> J P b n s -> List.length (va_vec x) = n ->
  (exists k x' s' sv, [/\ expo e = Some k, exec true e x s = Ok (x', s', sv), va_vec x' = va_vec x, cap_ok P sv & pushed s s' (VA (va_vec x) (Some k))])
  \/ expo e = None /\ exec true e x s = Exn.
Proof.
have svok sv (y : vatom) : cap_ok P sv -> List.length (va_vec y) = n -> exists c, assign_cap sv (List.length (va_vec y)) = Ok (Some c) /\ P c.
  by move=> h ->; exact: cap_assign.
elim: e x s => [t|e IH|t e IH|e IHe f IHf|t e IHe f IHf] x s.
- move=> _ hj hx; rewrite /= /vec_scan_int; case: (scan_int t) => [k|]; last by right.
  have [s' [h1 h2]] := push_ok2 (a := VA (va_vec x) (Some k)) hj hx.
  by left; exists k, (VA (va_vec x) (Some k)), s', None; rewrite /= h1.
- move=> hp hj hx; have [[k [x' [s' [sv [h1 h2 h3 h4 h5]]]]]|[h1 h2]] := IH x s hp hj hx; rewrite [exec _ _ _ _]/= h2 /=; last by right.
  by left; exists k, x', s', None; split.
- move=> [ht hp] hj hx; have [[k [x' [s' [sv [h1 h2 h3 h4 h5]]]]]|[h1 h2]] := IH x s hp hj hx; rewrite [exec _ _ _ _]/= h2 /=; last first.
    by right; split=> //; case: ht => ->.
  case: ht => ->; first by left; exists k, x', s', None; split.
  by right; split=> //=; case: h5 => e5 _ _ _; rewrite /vs_pop e5.
- move=> [hp hq] hj hx; right; split=> //.
  have [[k [x' [s' [sv [h1 h2 h3 h4 h5]]]]]|[h1 h2]] := IHe x s hp hj hx; rewrite [exec _ _ _ _]/= h2 //=.
  have [c [-> hc]] : exists c, assign_cap (if root_lv e == 1 then sv else None) (List.length (va_vec x')) = Ok (Some c) /\ P c.
    by apply: svok; [case: ifP|rewrite h3].
  have hj' : J P b n s' by case: h5.
  have [[k' [x1 [s1 [sv1 [g1 g2 g3 g4 g5]]]]]|[g1 g2]] := IHf x' s' hq hj' ltac:(by rewrite h3); rewrite /= g2 //=.
  by case: h5 g5 => e1 _ _ _ [e2 _ _ _]; rewrite /vs_pop e2 /= e1.
move=> [ht [hp hq]] hj hx; right; split=> //.
have [[k [x' [s' [sv [h1 h2 h3 h4 h5]]]]]|[h1 h2]] := IHe x s hp hj hx; rewrite [exec _ _ _ _]/= h2 //=.
have [c [-> hc]] : exists c, assign_cap (if root_lv e == olv t then sv else None) (List.length (va_vec x')) = Ok (Some c) /\ P c.
  by apply: svok; [case: ifP|rewrite h3].
have hj' : J P b n s' by case: h5.
have [[k' [x1 [s1 [sv1 [g1 g2 g3 g4 g5]]]]]|[g1 g2]] := IHf x' s' hq hj' ltac:(by rewrite h3); rewrite /= g2 //=.
by case: h5 g5 => e1 _ _ _ [e2 _ _ _]; case: ht => [->|[->|->]]; rewrite /= /vs_pop e2 /= e1.
Qed.

Definition uni (e : ast) : Prop := forall s v, List.In s (vlits e) -> vlit s = Ok v -> List.length v = n.
Definition runs_to (e : ast) (x : vatom) (s : vstack) : Prop :=
  match vval e with
  | Ok v => exists x' s' sv, [/\ exec false e x s = Ok (x', s', sv), List.length (va_vec x') = n /\ List.length v = n, cap_ok P sv,
      pushed s s' (VA v None) & compound e -> filled (List.length (vs_st s)).+1 s']
  | r => exec false e x s = fail r
  end.
Lemma vun_len t a c : vun t a = Ok c -> List.length c = List.length a.
Proof. by case: t => //=; [case=> ->|exact: mapM_len]. Qed.
Lemma vbin_len t u v c : vbin t u v = Ok c -> List.length u = List.length v /\ List.length c = List.length u.
Proof.
by case: t => //=; rewrite /vec_add /vec_sub /vec_mul; case: (Nat.eqb_spec (List.length u) (List.length v)) => // e h; split=> //; exact: map2M_len h.
Qed.
Lemma exec_vec e x s : plain e -> uni e -> J P b n s -> runs_to e x s.
Proof.
elim: e x s => [t|e IH|t e IH|e IHe f IHf|t e IHe f IHf] x s.
- move=> _ hu hj; rewrite /runs_to /= vlitE; case e : (vlit t) => [v|||] //=.
  have hv : List.length v = n by apply: (hu t) => //; left.
  have [s' [h1 h2]] := push_ok2 (a := VA v None) hj hv.
  by rewrite h1 /=; exists (VA v None), s', None; split.
- move=> hp hu hj; move: (IH x s hp hu hj); rewrite /runs_to /=; case: (vval e) => [v|||].
    by case=> x' [s' [sv [-> h2 h3 h4 h5]]] /=; exists x', s', None; split.
  + by move=> ->.
  + by move=> ->.
  by move=> ->.
- move=> [ht hp] hu hj; move: (IH x s hp hu hj); rewrite /runs_to [exec _ _ _ _]/= /=; case: (vval e) => [v|||]; last first.
  + by move=> ->.
  + by move=> ->.
  + by move=> ->.
  case=> x' [s' [sv [-> [h2 hv] h3 h4 h5]]]; rewrite !bind_ok.
  case: ht => ->; first by rewrite /=; exists x', s', None; split.
  rewrite [vun _ _]/= /=; case: (h4) => e1 j1 f1 m1; rewrite /vs_pop e1; case er : (vec_neg o v) => [c|||] //=.
  have hc : List.length c = n by rewrite (mapM_len er).
  have hb : b <= List.length (vs_st s) by case: hj => /andP [].
  have [s2 [g1 [g2 g3 g4 g5]]] := push_ok2 (a := VA c None) (J_pop j1 e1 hb) hc.
  rewrite g1 /=; exists x', s2, None; split=> //; last by move=> /h5 /g5.
  by split=> //; exact: mono_tr g5.
- move=> [hp hq] hu hj; move: (IHe x s hp hu hj); rewrite /runs_to [exec _ _ _ _]/= /=; case: (vval e) => [v|||]; last first.
  + by move=> ->.
  + by move=> ->.
  + by move=> ->.
  case=> x' [s' [sv [-> [h2 hv] h3 h4 h5]]]; rewrite !bind_ok.
  have [c [-> hc]] : exists c, assign_cap (if root_lv e == 1 then sv else None) (List.length (va_vec x')) = Ok (Some c) /\ P c.
    by rewrite h2; apply: cap_assign; case: ifP.
  have hj' : J P b n s' by case: h4.
  rewrite bind_ok; have [[k [x1 [s1 [sv1 [g1 g2 g3 g4 g5]]]]]|[g1 g2]] := exec_int hq hj' h2; rewrite g1 g2 //=.
  have [e1 _ _ _] := h4; have [e2 _ _ _] := g5.
  rewrite /vs_pop e2 /= e1; case er : (vec_exp x_exp v k) => [r|||] //=.
  have hr : List.length r = n by rewrite (mapM_len er).
  have [s2 [i1 [i2 i3]]] := pop2_push (a := VA r None) hj h4 g5 hr.
  by rewrite i1 /=; exists x1, s2, (Some c); split=> //; rewrite g3.
move=> [ht [hp hq]] hu hj.
have hu1 : uni e by move=> u v h; apply: (hu u); rewrite /=; apply: in_or_app; left.
have hu2 : uni f by move=> u v h; apply: (hu u); rewrite /=; apply: in_or_app; right.
move: (IHe x s hp hu1 hj); rewrite /runs_to [exec _ _ _ _]/= /=; case: (vval e) => [v|||]; last first.
- by move=> ->.
- by move=> ->.
- by move=> ->.
case=> x' [s' [sv [-> [h2 hv] h3 h4 h5]]]; rewrite !bind_ok.
have [c [-> hc]] : exists c, assign_cap (if root_lv e == olv t then sv else None) (List.length (va_vec x')) = Ok (Some c) /\ P c.
  by rewrite h2; apply: cap_assign; case: ifP.
have hj' : J P b n s' by case: h4.
rewrite bind_ok; move: (IHf x' s' hq hu2 hj'); rewrite /runs_to; case: (vval f) => [v'|||]; last first.
- by move=> ->.
- by move=> ->.
- by move=> ->.
case=> x1 [s1 [sv1 [-> [g2 gv] g3 g4 g5]]]; rewrite !bind_ok.
have [e1 _ _ _] := h4; have [e2 _ _ _] := g4.
have -> : vec_op o x_exp t s1 = (r <- vbin t v v' ;; vs_push (VA r None) (VS (vs_slots s1) (vs_st s))).
  by case: ht => [->|[->|->]]; rewrite /= /vs_pop e2 /= e1.
case er : (vbin t v v') => [r|||] //; rewrite bind_ok.
have hr : List.length r = n by case: (vbin_len er) => _ ->.
have [s2 [i1 [i2 i3]]] := pop2_push (a := VA r None) hj h4 g4 hr.
by rewrite i1 bind_ok; exists x1, s2, (Some c); split.
Qed.
End P.

(* ---- whatever the buffers ---- *)
Lemma int_inv e x s x' s' sv : plain e -> exec true e x s = Ok (x', s', sv) -> exists w k, expo e = Some k /\ vs_st s' = VA w (Some k) :: vs_st s.
Proof.
elim: e x s x' s' sv => [t|e IH|t e IH|e IHe f IHf|t e IHe f IHf] x s x' s' sv hp h; move: h; rewrite [exec _ _ _ _]/=.
- move=> h; have {h} [y [h1 h]] := bind_inv h; have {h} [s2 [h2 [_ e2 _]]] := bind_inv h; subst s2.
  move: h1; rewrite /vec_scan_int /=; case: (scan_int t) => // k [ey]; subst y.
  by exists (va_vec x), k; split=> //; exact: push_st h2.
- move=> h; have {h} [[[y s2] sv2] [h1 [_ e2 _]]] := bind_inv h; subst s2; exact: IH hp h1.
- case: hp => ht hp h; have {h} [[[y s2] sv2] [h1 h]] := bind_inv h; have {h} [s3 [h2 [_ e2 _]]] := bind_inv h; subst s3.
  have [w [k [g1 g2]]] := IH _ _ _ _ _ hp h1.
  case: ht h2 => -> /=; first by case=> <-; exists w, k.
  by rewrite /vs_pop g2.
- case: hp => hp hq h; have {h} [[[y s2] sv2] [h1 h]] := bind_inv h; have {h} [sv3 [_ h]] := bind_inv h.
  have {h} [[[y2 s3] sv4] [h2 h]] := bind_inv h; have {h} [s4 [h3 _]] := bind_inv h.
  have [w [k [g1 g2]]] := IHe _ _ _ _ _ hp h1; have [w' [k' [g3 g4]]] := IHf _ _ _ _ _ hq h2.
  by move: h3; rewrite /= /vs_pop g4 /= g2.
case: hp => ht [hp hq] h; have {h} [[[y s2] sv2] [h1 h]] := bind_inv h; have {h} [sv3 [_ h]] := bind_inv h.
have {h} [[[y2 s3] sv4] [h2 h]] := bind_inv h; have {h} [s4 [h3 _]] := bind_inv h.
have [w [k [g1 g2]]] := IHe _ _ _ _ _ hp h1; have [w' [k' [g3 g4]]] := IHf _ _ _ _ _ hq h2.
by move: h3; case: ht => [->|[->|->]]; rewrite /= /vs_pop g4 /= g2.
Qed.
Lemma vec_inv e x s x' s' sv : plain e -> exec false e x s = Ok (x', s', sv) ->
  exists v, [/\ vval e = Ok v, vs_st s' = VA v None :: vs_st s & forall t, List.In t (vlits e) -> exists u, vlit t = Ok u /\ List.length u = List.length v].
Proof.
elim: e x s x' s' sv => [t|e IH|t e IH|e IHe f IHf|t e IHe f IHf] x s x' s' sv hp h; move: h; rewrite [exec _ _ _ _]/=.
- move=> h; have {h} [y [h1 h]] := bind_inv h; have {h} [s2 [h2 [_ e2 _]]] := bind_inv h; subst s2.
  move: h1; rewrite vlitE => h1; have {h1} [v [h1 [ey]]] := bind_inv h1; subst y; exists v; split=> //; first exact: push_st h2.
  by move=> u [<-|//]; exists v.
- move=> h; have {h} [[[y s2] sv2] [h1 [_ e2 _]]] := bind_inv h; subst s2; exact: IH hp h1.
- case: hp => ht hp h; have {h} [[[y s2] sv2] [h1 h]] := bind_inv h; have {h} [s3 [h2 [_ e2 _]]] := bind_inv h; subst s3.
  have [v [g1 g2 g3]] := IH _ _ _ _ _ hp h1.
  case: ht h2 => -> /=; first by case=> <-; exists v; rewrite g1.
  rewrite /vs_pop g2 => h; have [c [e1 e2]] := bind_inv h.
  exists c; split; [by rewrite g1 bind_ok|exact: push_st e2|].
  by rewrite (mapM_len e1).
- case: hp => hp hq h; have {h} [[[y s2] sv2] [h1 h]] := bind_inv h; have {h} [sv3 [_ h]] := bind_inv h.
  have {h} [[[y2 s3] sv4] [h2 h]] := bind_inv h; have {h} [s4 [h3 [_ e4 _]]] := bind_inv h; subst s4.
  have [v [g1 g2 g3]] := IHe _ _ _ _ _ hp h1; have [w' [k' [g4 g5]]] := int_inv hq h2.
  move: h3; rewrite /= /vs_pop g5 /= g2 => h; have [c [e1 e2]] := bind_inv h.
  exists c; rewrite g1 bind_ok g4; split=> //; first exact: push_st e2.
  by rewrite (mapM_len e1).
case: hp => ht [hp hq] h; have {h} [[[y s2] sv2] [h1 h]] := bind_inv h; have {h} [sv3 [_ h]] := bind_inv h.
have {h} [[[y2 s3] sv4] [h2 h]] := bind_inv h; have {h} [s4 [h3 [_ e4 _]]] := bind_inv h; subst s4.
have [v [g1 g2 g3]] := IHe _ _ _ _ _ hp h1; have [v' [g4 g5 g6]] := IHf _ _ _ _ _ hq h2.
have {h3} h3 : (r <- vbin t v v' ;; vs_push (VA r None) (VS (vs_slots s3) (vs_st s))) = Ok s'.
  by rewrite -h3; case: ht => [->|[->|->]]; rewrite /= /vs_pop g5 /= g2.
have {h3} [r [e1 e2]] := bind_inv h3; have [l1 l2] := vbin_len e1.
exists r; split; [by rewrite /= g1 bind_ok g4 bind_ok|exact: push_st e2|].
move=> u h; case: (in_app_or _ _ _ h) => [/g3|/g6] [w [hw1 hw2]]; exists w; by rewrite l2 hw1 hw2 -?l1.
Qed.

(* ---- commands ---- *)
Local Notation parse := (cmd_line_vec_parse o x_exp get scan_int).
Local Notation st0 := (@vs_empty A).
Lemma J0 n P : J P 0 n st0.
Proof.
split=> //=; first by move=> [|[|[|[|[|[|[|[|[|[|[|k]]]]]]]]]]] c _ //= [<-].
by move=> [|k] a.
Qed.
Definition prt (r : res (@MMatCli.vatom A)) : list vatom * res unit := match r with Ok a => ([a], Ok tt) | r => ([], fail r) end.
Lemma vec_plain_ok w e n : der vspells cE w e -> uni n e -> parse w = prt (v <- vval e ;; Ok (VA v None)).
Proof.
move=> d hu; have hp : plain e by exact: (der_plain d).
have dq : der vspells cQ w e by apply: (@d_up vspells cQ) => //; right; right.
have := @exec_vec (fun k => k = n) 0 n erefl (fun k e => leq_trans (eq_leq (esym e)) (leqnn k)) e (VA [] None) st0 hp hu (J0 _ _).
rewrite /cmd_line_vec_parse (cmd_ok (o := mv) vspP _ _ dq) /runs_to; case: (vval e) => [v|||].
- by case=> x' [s' [sv [-> _ _ [e1 _ _ _] _]]]; rewrite /= e1.
- by move=> ->.
- by move=> ->.
by move=> ->.
Qed.
Lemma vec_plain_inv w e out : der vspells cE w e -> parse w = (out, Ok tt) ->
  exists v, [/\ out = [VA v None], vval e = Ok v & forall t, List.In t (vlits e) -> exists u, vlit t = Ok u /\ List.length u = List.length v].
Proof.
move=> d; have hp : plain e by exact: (der_plain d).
have dq : der vspells cQ w e by apply: (@d_up vspells cQ) => //; right; right.
rewrite /cmd_line_vec_parse (cmd_ok (o := mv) vspP _ _ dq); case e1 : (exec _ _ _ _) => [[[x' s'] sv]|||] //.
have [v [h1 h2 h3]] := vec_inv hp e1; rewrite /= h2 => -[<-]; by exists v.
Qed.
Definition vcmp (t : tok) (u v : list A) : res vatom :=
  b <- vec_eqb o u v ;; Ok (VA [] (Some (match t with L_EQ => if (b : bool) then 1 else 0 | _ => if b then 0 else 1 end)%Z)).
Lemma push_int (sl : list (option nat)) i : 0 < List.length sl -> exists sl', vs_push (VA [] (Some i)) (VS sl [] : vstack) = Ok (VS sl' [VA [] (Some i)]).
Proof.
case: sl => [|c sl] // _; rewrite /vs_push /=; case: c => [k|] /=; by eexists.
Qed.
Lemma simple_run e v x : ~~ compound e -> plain e -> vval e = Ok v ->
  exists x', exec false e x st0 = Ok (x', VS (Some (List.length v) :: repeat None 9) [VA v None], None).
Proof.
elim: e v x => [t|e IH|t e IH|//|//] v x /= hc hp.
- by rewrite vlitE => -> /=; eexists.
- by move=> /(IH _ x hc hp) [x' ->]; exists x'.
case: hp => ht hp h; have {h} [u [h1 h2]] := bind_inv h; have [x' ->] := IH _ x hc hp h1; exists x'; rewrite bind_ok.
case: ht h2 => -> /=; first by case=> ->.
by move=> h2; rewrite h2 /= /vs_push /= -(mapM_len h2) Nat.leb_refl.
Qed.
Fixpoint first (e : ast) : string :=
  match e with ANum s => s | APar e | AUn _ e | APow e _ | ABin _ e _ => first e end.
Lemma first_in e : List.In (first e) (vlits e).
Proof. by elim: e => [s|e IH|t e IH|e IH f _|t e IH f _] //=; [left|apply: in_or_app; left]. Qed.
Lemma overrun e x s n m : uni n e -> nth_error (vs_slots s) (List.length (vs_st s)) = Some (Some m) -> m < n ->
  exec false e x s = match vlit (first e) with Ok _ => UB | r => fail r end.
Proof.
move=> hu hs hm.
have : uni n (ANum (first e)) by move=> t v [<-|//] h; exact: (hu _ _ (first_in e) h).
elim: e x {hu} => [t|e IH|t e IH|e IH f _|t e IH f _] x hu /=; try by rewrite IH //; case: (vlit _).
rewrite vlitE; case ev : (vlit t) => [v|||] //=; have hv : List.length v = n by apply: (hu t) => //; left.
rewrite /vs_push; case: (Nat.leb_spec (List.length (vs_slots s)) (List.length (vs_st s))) => hl.
  by move/nth_error_None: hl; rewrite hs.
by rewrite hs /= hv; case: Nat.leb_spec => // h; move: hm h; clear; lia.
Qed.
(* one comparison *)
Lemma vec_cmp_ok w t e f n1 n2 : der vspells cQ w (ABin t e f) -> t = L_EQ \/ t = L_NE -> uni n1 e -> uni n2 f -> plain e -> plain f ->
  parse w = match vval e with
  | Ok u => if compound e && (n1 < n2) then match vlit (first f) with Ok _ => ([], UB) | r => ([], fail r) end
            else prt (v <- vval f ;; vcmp t u v)
  | r => ([], fail r)
  end.
Proof.
move=> d ht hu1 hu2 hp hq.
have r1 := @exec_vec (fun k => k = n1) 0 n1 erefl (fun k e => leq_trans (eq_leq (esym e)) (leqnn k)) e (VA [] None) st0 hp hu1 (J0 _ _).
rewrite /cmd_line_vec_parse (cmd_ok (o := mv) vspP _ _ d) [exec _ _ _ _]/=; move: r1; rewrite /runs_to; case ev : (vval e) => [u|||]; last first.
- by move=> ->.
- by move=> ->.
- by move=> ->.
case=> x' [s' [sv [ex [hx hl] hsv [e1 j1 _ _] hcp]]]; rewrite ex bind_ok.
have -> : (if root_lv e == olv t then sv else None) = None.
  have hne : root_lv e < 5 by case: (e) hp => //= t' e0 f0 [[->|[->|->]] _].
  have -> : olv t = 5 by case: ht => ->.
  by move: hne; case: eqP => // ->.
rewrite [assign_cap _ _]/= bind_ok.
case: ifP => hcm.
  move: hcm => /andP [hc hm]; have [m hf] := hcp hc.
  have hm1 : m = n1 by case: j1 => _ _ j _; exact: (j 1 (Some m) isT hf).
  have hs : nth_error (vs_slots s') (List.length (vs_st s')) = Some (Some m) by rewrite e1; exact: hf.
  rewrite (overrun x' hu2 hs); last by rewrite hm1.
  by case: (vlit _).
have jj : J (fun k => n2 <= k) 1 n2 s'.
  have top k a : 0 < k -> nth_error (List.rev (vs_st s')) k = Some a -> List.length (va_vec a) = n2 by rewrite e1; case: k => [|[|k]].
  case: j1 => j1 j2 j3 _; split=> //; first by move: j1; rewrite e1.
  move=> k c hk hcs; case hc : (compound e) hcm => hcm.
    have h1 : n2 <= n1 by move: hcm; rewrite /= ltnNge => /negbFE.
    by have := j3 k c isT hcs; case: (c) => //= m ->.
  have [x2 ex2] := simple_run (VA [] None) (negbT hc) hp ev.
  move: ex; rewrite ex2 => -[_ es _]; move: hcs; rewrite -es.
  by case: k hk => [|k] // _ h; rewrite (nth_rep (h : nth_error (repeat None 9) k = Some c)).
have := @exec_vec (fun k => n2 <= k) 1 n2 (leqnn _) (fun k h => h) f x' s' hq hu2 jj; rewrite /runs_to; case: (vval f) => [v|||]; last first.
- by move=> ->.
- by move=> ->.
- by move=> ->.
case=> x2 [s2 [sv2 [-> _ _ [e2 [_ j2 _ _] _ _] _]]]; rewrite !bind_ok.
have -> : vec_op o x_exp t s2 = (a <- vcmp t u v ;; vs_push a (VS (vs_slots s2) [])).
  by case: ht => ->; rewrite /= /vs_pop e2 /= e1 /vcmp; case: (vec_eqb _ _ _).
rewrite /vcmp; case: (vec_eqb o u v) => [b|||] //; rewrite !bind_ok; set i := (match t with L_EQ => _ | _ => _ end).
by have [sl' ->] := push_int i j2.
Qed.
Lemma vec_cmp_inv w t e f out : der vspells cQ w (ABin t e f) -> t = L_EQ \/ t = L_NE -> plain f -> parse w = (out, Ok tt) ->
  plain e \/ (exists t' b1 b2, e = ABin t' b1 b2 /\ (t' = L_EQ \/ t' = L_NE)) ->
  plain e /\ exists n1 n2, [/\ uni n1 e, uni n2 f & compound e -> n2 <= n1].
Proof.
move=> d ht hq; rewrite /cmd_line_vec_parse (cmd_ok (o := mv) vspP _ _ d) [exec _ _ _ _]/=.
case ex : (exec false e _ _) => [[[x1 s1] sv1]|||] //=.
case es : (assign_cap _ _) => [sv|||] //=.
case ey : (exec false f _ _) => [[[x2 s2] sv2]|||] //=.
case ez : (vec_op _ _ _ _) => [s3|||] //=.
have [v [h1 h2 h3]] := vec_inv hq ey.
move=> hout [hp|[t' [b1 [b2 [ee ht']]]]].
  have [u [g1 g2 g3]] := vec_inv hp ex; split=> //; exists (List.length u), (List.length v).
  have u1 : uni (List.length u) e by move=> s a /g3 [a' [-> <-]] [->].
  have u2 : uni (List.length v) f by move=> s a /h3 [a' [-> <-]] [->].
  split=> // hc; rewrite leqNgt; apply/negP => hlt.
  have := vec_cmp_ok d ht u1 u2 hp hq; rewrite g1 hc hlt /= /cmd_line_vec_parse (cmd_ok (o := mv) vspP _ _ d) [exec _ _ _ _]/= ex /= es /= ey /= ez /=.
  by move: hout; case: (vs_st s3) => [|a l] // [_]; case: (vlit _).
exfalso; subst e; move: ex; rewrite /= => h; have {h} [[[y s4] sv4] [k1 h]] := bind_inv h; have {h} [sv5 [_ h]] := bind_inv h.
have {h} [[[y2 s5] sv6] [k2 h]] := bind_inv h; have {h} [s6 [k3 [_ e6 _]]] := bind_inv h; subst s6.
have [a [l es1]] : exists i l, vs_st s1 = VA [] (Some i) :: l.
  move: k3; case: ht' => ->; rewrite /=; case: (vs_pop s5) => [[b s7]|] //; case: (vs_pop s7) => [[a s8]|] //; case: a => a [//|]; case: b => b [//|] h;
    have [c [_ h4]] := bind_inv h; by eexists; eexists; exact: push_st h4.
by move: ez; case: ht => ->; rewrite /= /vs_pop h2 /= es1.
Qed.
End V.
