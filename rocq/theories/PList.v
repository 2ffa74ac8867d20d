(* Enumeration by increment and comparison. *)
From Verif Require Import Base MIntMath MIntmod MMat MBits MF2Poly MPoly MPolymod MF2nPoly MList.
From mathcomp Require Import all_ssreflect all_algebra ssrZ.
From Verif Require Import PMat PPoly.
Set Implicit Arguments.
Unset Strict Implicit.
Unset Printing Implicit Defensive.
Delimit Scope Z_scope with coqZ.

Lemma upd_cat (E : Type) (v : seq E) i x : (i < size v)%N -> upd v i x = take i v ++ x :: drop i.+1 v.
Proof.
elim: v i => [|y v IH] [|i] //= h; first by rewrite /upd /= drop0.
by rewrite -[upd _ _ _]/(y :: upd v i x) IH.
Qed.
Lemma setelt_cat (E : Type) (v : seq E) i x : setelt v i x = if (i < size v)%N then Ok (take i v ++ x :: drop i.+1 v) else Exn.
Proof.
rewrite /setelt -lengthE ltbE; case: ifP => // h; rewrite upd_cat // -lengthE //.
Qed.

Section Enum.
Variables (T : eqType) (R E : Type) (enc : T -> R) (num : T -> nat) (ltb : R -> R -> res bool) (inc : R -> res R) (B : nat).
Hypothesis num_inj : injective num.
Hypothesis Hlt : forall f g, ltb (enc f) (enc g) = Ok (num f < num g)%N.
Hypothesis Hinc : forall f, (num f < B)%N -> exists g, inc (enc f) = Ok (enc g) /\ num g = (num f).+1.
Variables (sel : R -> res (option E)) (osel : T -> option E) (b : T).
Hypothesis Hb : (num b <= B)%N.
Hypothesis Hsel : forall f, (num f < num b)%N -> sel (enc f) = Ok (osel f).
Lemma enum_gen fuel a i rv : (num b - num a < fuel)%N -> (i <= size rv)%N -> exists s : seq T,
  [seq num f | f <- s] = iota (num a) (num b - num a) /\
  loop fuel (enum_step ltb inc (enc b) sel) (enc a, i, rv) =
    let k := size (pmap osel s) in
    if (i + k <= size rv)%N then Ok (take i rv ++ pmap osel s ++ drop (i + k) rv, (i + k)%N) else Exn.
Proof.
elim: fuel a i rv => // fuel IH a i rv hf hi; rewrite /= Hlt bind_ok.
case: ltnP => h; last first.
  by exists [::]; rewrite /= addn0 hi cat_take_drop; move: h; rewrite -subn_eq0 => /eqP ->.
rewrite (Hsel h) bind_ok.
have [g [eg ng]] := Hinc (leq_trans h Hb).
have hs : (num b - num a = (num b - num g).+1)%N by rewrite ng subnSK.
case eo : (osel a) => [x|]; last first.
  rewrite bind_ok eg !bind_ok; have [|s [es hl]] := IH g i rv _ hi; first by rewrite hs ltnS in hf.
  by exists (a :: s); rewrite /= eo es hs ng.
rewrite setelt_cat; case: ltnP => hx; last first.
  have [s [es _]] : exists s : seq T, [seq num f | f <- s] = iota (num g) (num b - num g) /\ True.
    have [|s [es _]] := IH g i rv _ hi; last by exists s.
    by rewrite hs ltnS in hf.
  by exists (a :: s); rewrite /= eo es hs ng; split=> //=; rewrite leqNgt addnS ltnS (leq_trans hx) // leq_addr.
rewrite !bind_ok eg !bind_ok; set v := _ ++ _ :: _.
have sv : size v = size rv by rewrite size_cat /= size_takel ?(ltnW hx) // size_drop subnSK // subnKC // ltnW.
have [||s [es hl]] := IH g i.+1 v; first by rewrite hs ltnS in hf.
  by rewrite sv.
exists (a :: s); rewrite /= eo es hs ng; split=> //; rewrite hl sv /= addSnnS; case: ifP => // hk.
rewrite /v -cat_rcons take_size_cat ?size_rcons ?size_takel ?(ltnW hx) // -cat_rcons catA; congr (Ok (_, _)).
rewrite -!catA drop_cat size_rcons size_takel ?(ltnW hx) // addnS ltnNge ltnS leq_addr /= subSS addKn drop_drop.
by rewrite addnS addnC.
Qed.
Lemma enum_ok fuel a rv : (num b - num a < fuel)%N -> exists s : seq T,
  [/\ [seq num f | f <- s] = iota (num a) (num b - num a), uniq s, (forall f, (f \in s) = (num a <= num f < num b)%N) &
  MList.enum ltb inc fuel (enc a) (enc b) sel rv =
    let k := size (pmap osel s) in
    if (k <= size rv)%N then Ok (pmap osel s ++ drop k rv, k) else Exn].
Proof.
move=> hf; have [//|s [es hl]] := @enum_gen fuel a 0 rv hf; exists s; split=> //.
- by rewrite -(map_inj_uniq num_inj) es iota_uniq.
- move=> f; rewrite -(mem_map num_inj) es mem_iota.
  case: (leqP (num a) (num f)) => //= h; case: (leqP (num a) (num b)) => h1; first by rewrite subnKC.
  have -> : (num b - num a = 0)%N by apply/eqP; rewrite subn_eq0 ltnW.
  by rewrite addn0 ltnNge h; symmetry; apply/negbTE; rewrite -leqNgt (leq_trans (ltnW h1)).
by rewrite /MList.enum hl /= take0.
Qed.
End Enum.
