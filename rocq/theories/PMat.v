(* The matrix model refines the pure elimination of PLin over the field that the
   element type represents. *)
From Verif Require Import Base MMat.
From mathcomp Require Import all_ssreflect fingroup perm all_algebra.
From Verif Require Import PLin PLin2 PLin3.
Set Implicit Arguments.
Unset Strict Implicit.
Unset Printing Implicit Defensive.
Import GRing.Theory.
Local Open Scope ring_scope.

(* The element type behaves as a field: valid values V, interpreted by I. *)
Record cspec (A : Type) (o : cops A) (F : fieldType) (V : A -> Prop) (I : A -> F) : Prop := {
  cs_add : forall x y, V x -> V y -> exists z, c_add o x y = Ok z /\ V z /\ I z = I x + I y;
  cs_sub : forall x y, V x -> V y -> exists z, c_sub o x y = Ok z /\ V z /\ I z = I x - I y;
  cs_mul : forall x y, V x -> V y -> exists z, c_mul o x y = Ok z /\ V z /\ I z = I x * I y;
  cs_neg : forall x, V x -> exists z, c_neg o x = Ok z /\ V z /\ I z = - I x;
  cs_div : forall x y, V x -> V y -> I y != 0 -> exists z, c_div o x y = Ok z /\ V z /\ I z = I x / I y;
  cs_eqb : forall x y, V x -> V y -> c_eqb o x y = Ok (I x == I y)
}.

Lemma nth_error_nth' (T : Type) (d : T) (l : seq T) i : (i < size l)%N ->
  List.nth_error l i = Some (nth d l i).
Proof. by elim: l i => [|x l IH] [|i] //= h; apply: IH. Qed.
Lemma lengthE (T : Type) (l : seq T) : length l = size l. Proof. by []. Qed.
Lemma ltbE i j : (i <? j)%coq_nat = (i < j)%N.
Proof. by apply/idP/idP => [/Nat.ltb_lt/ltP|/ltP/Nat.ltb_lt]. Qed.
Lemma lebE i j : (i <=? j)%coq_nat = (i <= j)%N.
Proof. by apply/idP/idP => [/Nat.leb_le/leP|/leP/Nat.leb_le]. Qed.
Lemma eqbE i j : (i =? j)%coq_nat = (i == j).
Proof. by apply/idP/idP => [/Nat.eqb_eq->//|/eqP/Nat.eqb_eq]. Qed.
Lemma seqE i n : List.seq i n = iota i n.
Proof. by elim: n i => //= n IH i; rewrite IH. Qed.

Section Refine.
Variables (A : Type) (o : cops A) (F : fieldType) (V : A -> Prop) (I : A -> F).
Hypothesis spec : cspec o V I.

Definition R (x : A) (a : F) := V x /\ I x = a.
Definition Rr : list A -> seq F -> Prop := Forall2 R.
Definition Rm : list (list A) -> seq (seq F) -> Prop := Forall2 Rr.

Lemma R_add x y a b : R x a -> R y b -> exists z, c_add o x y = Ok z /\ R z (a + b).
Proof. by case=> vx <-; case=> vy <-; have [z [e [v h]]] := cs_add spec vx vy; exists z. Qed.
Lemma R_sub x y a b : R x a -> R y b -> exists z, c_sub o x y = Ok z /\ R z (a - b).
Proof. by case=> vx <-; case=> vy <-; have [z [e [v h]]] := cs_sub spec vx vy; exists z. Qed.
Lemma R_mul x y a b : R x a -> R y b -> exists z, c_mul o x y = Ok z /\ R z (a * b).
Proof. by case=> vx <-; case=> vy <-; have [z [e [v h]]] := cs_mul spec vx vy; exists z. Qed.
Lemma R_neg x a : R x a -> exists z, c_neg o x = Ok z /\ R z (- a).
Proof. by case=> vx <-; have [z [e [v h]]] := cs_neg spec vx; exists z. Qed.
Lemma R_div x y a b : R x a -> R y b -> b != 0 -> exists z, c_div o x y = Ok z /\ R z (a / b).
Proof. by case=> vx <-; case=> vy <- nz; have [z [e [v h]]] := cs_div spec vx vy nz; exists z. Qed.
Lemma R_eqb x y a b : R x a -> R y b -> c_eqb o x y = Ok (a == b).
Proof. by case=> vx <-; case=> vy <-; apply: (cs_eqb spec). Qed.
Lemma R_neqb x y a b : R x a -> R y b -> c_neqb o x y = Ok (a != b).
Proof. by move=> h1 h2; rewrite /c_neqb (R_eqb h1 h2). Qed.

(* ---- lists *)
Lemma F2_size (T U : Type) (P : T -> U -> Prop) l l' : Forall2 P l l' -> size l = size l'.
Proof. by elim=> //= x y l1 l2 _ _ ->. Qed.

Lemma F2_nth (T U : Type) (P : T -> U -> Prop) d d' l l' i : Forall2 P l l' ->
  (i < size l')%N -> P (nth d l i) (nth d' l' i).
Proof. by move=> h; elim: h i => [|x y l1 l2 hxy _ IH] [|i] //= hi; apply: IH. Qed.

Lemma F2_upd (T U : Type) (P : T -> U -> Prop) d' l l' i x y : Forall2 P l l' -> P x y ->
  (i < size l')%N -> Forall2 P (upd l i x) (set_nth d' l' i y).
Proof.
move=> h hxy; elim: h i => [|a b l1 l2 hab h IH] [|i] //= hi.
  by constructor.
rewrite (_ : upd (a :: l1) i.+1 x = a :: upd l1 i x) //.
by constructor => //; apply: IH.
Qed.

Lemma F2_cat (T U : Type) (P : T -> U -> Prop) l1 l1' l2 l2' :
  Forall2 P l1 l1' -> Forall2 P l2 l2' -> Forall2 P (l1 ++ l2) (l1' ++ l2').
Proof. by move=> h1 h2; elim: h1 => //= *; constructor. Qed.

Lemma F2_map (T T' U U' : Type) (P : T -> T' -> Prop) (Q : U -> U' -> Prop) f g l l' :
  Forall2 P l l' -> (forall x y, P x y -> Q (f x) (g y)) -> Forall2 Q (map f l) (map g l').
Proof. by move=> h hf; elim: h => //= *; constructor => //; apply: hf. Qed.

Lemma F2_concat rows M : Rm rows M -> Rr (List.concat rows) (flatten M).
Proof. by elim=> [|x y l l' h1 _ h2]; [constructor | apply: F2_cat]. Qed.

Lemma mapM_ok (T U B : Type) (P : T -> U -> Prop) (C : Type) (Q : B -> C -> Prop)
   (f : T -> res B) (g : U -> C) l l' : Forall2 P l l' ->
  (forall x y, P x y -> exists z, f x = Ok z /\ Q z (g y)) ->
  exists r, mapM f l = Ok r /\ Forall2 Q r (map g l').
Proof.
move=> h hf; elim: h => [|x y l1 l2 hxy _ [r [e hr]]] /=.
  by exists [::]; split=> //; constructor.
have [z [ez hz]] := hf _ _ hxy; rewrite ez /= e /=.
by exists (z :: r); split=> //; constructor.
Qed.

Lemma map2M_ok (T U B T' U' B' : Type) (P : T -> T' -> Prop) (Q : U -> U' -> Prop)
   (S : B -> B' -> Prop) f (g : T' -> U' -> B') l l' m m' :
  Forall2 P l l' -> Forall2 Q m m' ->
  (forall x x' y y', P x x' -> Q y y' -> exists z, f x y = Ok z /\ S z (g x' y')) ->
  exists r, map2M f l m = Ok r /\ Forall2 S r [seq g p.1 p.2 | p <- zip l' m'].
Proof.
move=> h; elim: h m m' => [|x x' l1 l2 hx _ IH] m m' hm hf.
  by exists [::]; split; [case: m hm | case: m' hm => * ; constructor].
case: hm => [|y y' m1 m2 hy hm] /=; first by exists [::]; split=> //; constructor.
have [z [ez hz]] := hf _ _ _ _ hx hy; have [r [e hr]] := IH _ _ hm hf.
by exists (z :: r); rewrite ez /= e; split=> //; constructor.
Qed.

(* ---- accesses *)
Variables (m n : nat).

Lemma Rm_row rows M i : Rm rows M -> shape m n M -> (i < m)%N ->
  exists r, rowat rows i = Ok r /\ Rr r (nth [::] M i) /\ size r = n.
Proof.
move=> h [hm hn] hi; have hs := F2_size h.
exists (nth [::] rows i); rewrite /rowat (nth_error_nth' [::]) ?hs ?hm //; split=> //.
have hr : Rr (nth [::] rows i) (nth [::] M i) by apply: F2_nth; rewrite ?hm.
by split=> //; rewrite (F2_size hr) hn.
Qed.

Lemma Rm_el rows M i j : Rm rows M -> shape m n M -> (i < m)%N -> (j < n)%N ->
  exists x, el rows i j = Ok x /\ R x (ent M i j).
Proof.
move=> h hs hi hj; have [r [e [hr sr]]] := Rm_row h hs hi.
have [x0 _] : exists x : A, x = x.
  by case: r {e hr} sr => [|x r _]; [move=> h0; move: hj; rewrite -h0 | exists x].
exists (nth x0 r j); rewrite /el e /= /elt (nth_error_nth' x0) ?sr //; split=> //.
by apply: (F2_nth _ _ hr); rewrite -(F2_size hr) sr.
Qed.

Lemma Rm_pel rows M i j : Rm rows M -> shape m n M -> (i < m)%N -> (j < n)%N ->
  exists x, pel rows i j = Ok x /\ R x (ent M i j).
Proof.
move=> h hs hi hj; have [x [e hx]] := Rm_el h hs hi hj; exists x; split=> //.
move: e; rewrite /el /pel; case: (rowat rows i) => //= r.
by rewrite /elt; case: List.nth_error.
Qed.

Lemma Rm_setrow rows M i r s : Rm rows M -> shape m n M -> (i < m)%N ->
  Rr r s -> size s = n ->
  exists rows', setrow rows i r = Ok rows' /\ Rm rows' (set_nth [::] M i s) /\
                shape m n (set_nth [::] M i s).
Proof.
move=> h [hm hn] hi hr hs; rewrite /setrow lengthE ltbE (F2_size h) hm hi.
exists (upd rows i r); split=> //; split; first by apply: F2_upd; rewrite ?hm.
split; first by rewrite size_set_nth hm; apply/maxn_idPr.
by move=> k hk; rewrite nth_set_nth /=; case: eqP => // _; apply: hn.
Qed.

Lemma Rr_mult_by r s x a : Rr r s -> R x a ->
  exists r', mult_by o r x = Ok r' /\ Rr r' (scl a s).
Proof.
move=> hr hx; apply: (mapM_ok (Q := R) (g := fun y => y * a) hr) => y b hy.
exact: R_mul.
Qed.

Lemma Rr_accum r s x a y b t u : Rr r s -> Rr t u -> R x a -> R y b -> size s = size u ->
  exists r', accum_row_mul o r x y t = Ok r' /\ Rr r' (cmb s a u b).
Proof.
move=> hr ht hx hy hs; rewrite /accum_row_mul eqbE !lengthE (F2_size hr) (F2_size ht) hs eqxx.
apply: (map2M_ok (S := R) (g := fun v w => v * a - w * b) hr ht) => v v' w w' hv hw.
have [z1 [-> h1]] := R_mul hv hx; have [z2 [-> h2]] := R_mul hw hy.
exact: R_sub.
Qed.

Lemma Rr_sub r s t u : Rr r s -> Rr t u -> size s = size u ->
  exists r', vrow_sub o r t = Ok r' /\ Rr r' [seq p.1 - p.2 | p <- zip s u].
Proof.
move=> hr ht hs; rewrite /vrow_sub eqbE !lengthE (F2_size hr) (F2_size ht) hs eqxx.
apply: (map2M_ok (S := R) (g := fun v w => v - w) hr ht) => v v' w w' hv hw.
exact: R_sub.
Qed.

Lemma Rr_leader_from r s zero j : Rr r s -> R zero 0 ->
  find_leader o r zero j =
  Ok (if has (fun x => x != 0) s then Some (j + find (fun x : F => x != 0%R) s)%N else None).
Proof.
move=> h hz; elim: h j => //= x y l l' hxy _ IH j.
rewrite (R_neqb hxy hz) /=; case: eqP => /= [_|_]; last by rewrite addn0.
by rewrite IH addnS addSn.
Qed.
Lemma Rr_leader r s zero : Rr r s -> R zero 0 ->
  find_leader_pos o r zero =
  Ok (if has (fun x => x != 0) s then Some (find (fun x => x != 0) s) else None).
Proof. by move=> h hz; rewrite /find_leader_pos (Rr_leader_from 0 h hz). Qed.

Lemma Rr_find_nz r s zero : Rr r s -> R zero 0 ->
  exists f, find_nz o r zero = Ok f /\
    (match f with None => ~~ has (fun x => x != 0) s
     | Some x => has (fun x => x != 0) s /\ exists a, R x a /\ a != 0 end).
Proof.
move=> h hz; elim: h => [|x y l l' hxy _ [f [e hf]]] /=; first by exists None.
rewrite (R_neqb hxy hz) /=; case: eqP => /= [_|/eqP ny]; first by exists f.
by exists (Some x); split=> //; split=> //; exists y.
Qed.

Lemma get_zero_ok rows M : Rm rows M -> shape m n M -> (0 < m)%N -> (0 < n)%N ->
  exists z, get_zero o rows = Ok z /\ R z 0.
Proof.
move=> h hs hm hn; have [x [e hx]] := Rm_el h hs hm hn.
rewrite /get_zero e /=; have [z [ez hz]] := R_sub hx hx.
by exists z; split=> //; rewrite subrr in hz.
Qed.

Definition nonzero (M : seq (seq F)) := has (fun x => x != 0) (flatten M).

Lemma find_one_ok rows M : Rm rows M -> shape m n M -> (0 < m)%N -> (0 < n)%N ->
  exists f, find_one o rows = Ok f /\
   match f with None => ~~ nonzero M | Some x => nonzero M /\ R x 1 end.
Proof.
move=> h hs hm hn; have [z [ez hz]] := get_zero_ok h hs hm hn.
rewrite /find_one ez /=; have [f [ef hf]] := Rr_find_nz (F2_concat h) hz.
rewrite ef /=; case: f ef hf => [x|] ef; last by exists None.
case=> hnz [a [hx ha]]; have [y [ey hy]] := R_div hx hx ha.
by exists (Some y); rewrite ey; split=> //; rewrite divff in hy.
Qed.

Lemma nonzeroP M : shape m n M ->
  reflect (exists i j, (i < m)%N /\ (j < n)%N /\ ent M i j != 0) (nonzero M).
Proof.
case=> hm hn; apply: (iffP idP).
  case/hasP => x /flattenP[r /(nthP [::])[i hi <-]] /(nthP 0)[j hj <-] nz.
  by exists i, j; rewrite -hm hi -(hn i) -?hm.
case=> i [j [hi [hj nz]]]; apply/hasP; exists (ent M i j) => //.
by apply/flattenP; exists (nth [::] M i); apply: mem_nth; rewrite ?hm ?hn.
Qed.

(* ---- the pivot search *)
Lemma find_piv_ok k : forall rows M zero left pr, Rm rows M -> shape m n M -> R zero 0 ->
  (left < n)%N -> (pr + k = m)%N ->
  find_piv o k rows zero left pr =
  Ok (if (piv M pr left < m)%N then Some (piv M pr left) else None).
Proof.
elim: k => [|k IH] rows M zero left pr h hs hz hl hk /=.
  by rewrite ltnNge (leq_trans _ (piv_ge _ _ _)) // -hk addn0.
have hpr : (pr < m)%N by rewrite -hk -addSnnS leq_addr.
have [x [e hx]] := Rm_pel h hs hpr hl; rewrite e /= (R_neqb hx hz) /=.
rewrite /piv (drop_nth [::]) /=; last by case: hs => ->.
rewrite -/(ent M pr left); case: eqP => /= [_|_]; last by rewrite addn0 hpr.
rewrite (IH _ M) //; last by rewrite addSnnS.
by rewrite /piv addSnnS.
Qed.

Lemma swp_id (M : seq (seq F)) a : (a < size M)%N -> swp M a a = M.
Proof.
move=> ha; apply: (@eq_from_nth _ [::]); first exact: size_swp.
by move=> i _; rewrite nth_swp //; case: eqP => [->//|_].
Qed.

Lemma swp_shape (M : seq (seq F)) a b : shape m n M -> (a < m)%N -> (b < m)%N -> shape m n (swp M a b).
Proof.
case=> hm hn ha hb; split; first by rewrite size_swp ?hm.
by move=> i hi; rewrite nth_swp ?hm //; case: eqP => _; [apply: hn|case: eqP => _; apply: hn].
Qed.

Lemma swaprows_ok rows M a b : Rm rows M -> shape m n M -> (a < m)%N -> (b < m)%N ->
  exists rows', swaprows rows a b = Ok rows' /\ Rm rows' (swp M a b).
Proof.
move=> h hs ha hb; have [ra [ea [hra sa]]] := Rm_row h hs ha.
have [rb [eb [hrb sb]]] := Rm_row h hs hb.
rewrite /swaprows ea eb /= eqbE !lengthE sa sb eqxx.
have [|r1 [-> [h1 s1]]] := Rm_setrow h hs ha hrb; first by case: hs => _; apply.
have [|r2 [e2 [h2 s2]]] := Rm_setrow h1 s1 hb hra; first by case: hs => _; apply.
by exists r2.
Qed.

(* ---- clearing below the pivot *)
Lemma clear_below_ok k : forall rows M s s0 lead top left cur,
  Rm rows M -> shape m n M -> R s s0 -> R lead 1 -> (left < n)%N ->
  (top < cur)%N -> (cur + k = m)%N ->
  exists rows' s' M', [/\ clear_below o k rows s lead top left cur = Ok (rows', s'),
    Rm rows' M', shape m n M', R s' s0 &
    forall i, (i < m)%N -> nth [::] M' i =
      if (cur <= i)%N then cmb (nth [::] M i) 1 (nth [::] M top) (ent M i left) else nth [::] M i].
Proof.
elim: k => [|k IH] rows M s s0 lead top left cur h hs hs0 hl hln htc hk /=.
  exists rows, s, M; split=> // i hi; rewrite leqNgt.
  by rewrite (_ : (i < cur)%N) //; rewrite -hk addn0 in hi.
have hc : (cur < m)%N by rewrite -hk -addSnnS leq_addr.
have ht : (top < m)%N by apply: ltn_trans hc.
have [c [ec hcc]] := Rm_pel h hs hc hln; rewrite ec /=.
have [r [er [hr sr]]] := Rm_row h hs hc; rewrite er /=.
have [t [et [htr st]]] := Rm_row h hs ht; rewrite et /=.
have sM i : (i < m)%N -> size (nth [::] M i) = n by case: hs => _; apply.
have [|r' [er' hr']] := Rr_accum hr htr hl hcc; first by rewrite !sM.
rewrite er' /=.
have [|rows' [e' [h' hs']]] := Rm_setrow h hs hc hr'; first by rewrite size_cmb !sM.
rewrite e' /=.
have [s' [es' hs'']] := R_div hs0 hl (oner_neq0 F); rewrite es' /= divr1 in hs'' *.
have [||r2 [s2 [M2 [e2 h2 hs2 hr2 E2]]]] := IH _ _ s' s0 lead top left cur.+1 h' hs' hs'' hl hln.
- exact: ltnW.
- by rewrite addSnnS.
exists r2, s2, M2; split=> // i hi; rewrite E2 //.
rewrite !nth_set_nth /= (ltn_eqF htc) /ent nth_set_nth /=.
case: ltngtP => //= e; last by rewrite -e.
Qed.

(* ---- the main loop *)
Lemma rr_loop_ok k : forall fuel rows M zero one minus_one s s0 top left,
  Rm rows M -> shape m n M -> R zero 0 -> R one 1 -> R minus_one (-1) -> R s s0 ->
  (left + k = n)%N -> (k < fuel)%N -> (top <= m)%N ->
  exists rows' s', rr_loop o fuel n zero one minus_one rows s top left = Ok (rows', s') /\
    Rm rows' (prr k M top left s0).1 /\ R s' (prr k M top left s0).2.
Proof.
elim: k => [|k IH] [|fuel] rows M zero one mone s s0 top left h hs hz ho hmo hs0 hk hf ht //.
  exists rows, s; split=> //=.
  by rewrite !ltbE (_ : left < n = false)%N ?andbF // -hk addn0 ltnn.
have hl : (left < n)%N by rewrite -hk -addSnnS leq_addr.
have hk' : (left.+1 + k = n)%N by rewrite addSnnS.
rewrite /rr_loop -/rr_loop !ltbE hl andbT lengthE (F2_size h).
have hm : size M = m by case: hs.
rewrite [prr _ _ _ _ _]/= hm.
case: ltnP => htm; last by exists rows, s.
rewrite (find_piv_ok (M := M)) //; last by rewrite subnKC.
rewrite bind_ok; set p := piv M top left.
case: ltnP => hp; last exact: IH.
have nzp : ent M p left != 0 by apply: piv_nz; rewrite hm.
have hge : (top <= p)%N by exact: piv_ge.
(* after the optional swap *)
have [rows1 [s1 [e1 [h1 hs1]]]] : exists rows1 s1,
    (if (top =? p)%coq_nat then Ok (rows, s)
     else rows' <- swaprows rows top p ;; s' <- c_mul o s mone ;; Ok (rows', s'))%res
      = Ok (rows1, s1) /\
    Rm rows1 (swp M top p) /\ R s1 (if p == top then s0 else - s0).
  rewrite eqbE eq_sym; case: eqP => e.
    by exists rows, s; split=> //; rewrite e swp_id ?hm.
  have [rows1 [er h1]] := swaprows_ok h hs htm hp; rewrite er /=.
  have [s1 [es hs1]] := R_mul hs0 hmo; rewrite es /=.
  by exists rows1, s1; split=> //; split=> //; move: hs1; rewrite mulrN1.
rewrite e1 bind_ok.
have hsh1 := swp_shape hs htm hp.
set M1 := swp M top p in h1 hsh1.
have hlead : ent M1 top left = ent M p left.
  by rewrite (swp_ent hs hge hp) //; case: eqP => [<-//|_]; rewrite eqxx.
have [lead [el hld]] := Rm_pel h1 hsh1 htm hl; rewrite el bind_ok.
rewrite (R_neqb hld hz) bind_ok hlead nzp.
rewrite hlead in hld.
have [inv [ei hinv]] := R_div ho hld nzp; rewrite ei bind_ok div1r in hinv *.
have [t [et [htr st]]] := Rm_row h1 hsh1 htm; rewrite et bind_ok.
have [t' [et' ht']] := Rr_mult_by htr hinv; rewrite et' bind_ok.
have sM i : (i < m)%N -> size (nth [::] M1 i) = n by case: hsh1 => _; apply.
have [|rows2 [e2 [h2 hsh2]]] := Rm_setrow h1 hsh1 htm ht'; first by rewrite size_map sM.
rewrite e2 bind_ok.
have [s2 [es2 hs2]] := R_mul hs1 hld; rewrite es2 bind_ok.
set M2 := set_nth _ _ _ _ in h2 hsh2.
have [lead' [el' hld']] := Rm_pel h2 hsh2 htm hl; rewrite el' bind_ok.
have hone : ent M2 top left = 1.
  by rewrite /ent nth_set_nth /= eqxx ent_scl -/(ent M1 top left) hlead divff.
rewrite hone in hld'.
have [|r3 [s3 [M3 [e3 h3 hsh3 hs3 E3]]]] := @clear_below_ok (m - top.+1) rows2 M2 s2 _ lead' top left top.+1 h2 hsh2 hs2 hld' hl (ltnSn top).
  by rewrite subnKC.
rewrite lengthE (F2_size h2) (_ : size M2 = m) ?e3 ?bind_ok; last by case: hsh2.
have hM2 i : nth [::] M2 i = if i == top then scl (ent M p left)^-1 (nth [::] M1 top) else nth [::] M1 i.
  by rewrite /M2 nth_set_nth.
have -> : pstep M top left p = M3.
  apply: (@eq_from_nth _ [::]); first by rewrite size_mkseq; case: hsh3 => ->.
  move=> i; rewrite size_mkseq => hi; rewrite hm in hi; rewrite nth_mkseq ?hm // E3 //.
  rewrite -/M1 hlead /ent !hM2 eqxx.
  by case: ltngtP => //= hi'; rewrite hi'.
by apply: IH.
Qed.

End Refine.
