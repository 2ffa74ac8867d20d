(* Lemmas on the commands of cli/spiff on residue classes of polynomials over a field (MSpiff4.v): listings and tables for any field. *)
From Verif Require Import Base MIntMath MTextIO MList MUnits MSpiff MSpiff2 MSpiff3 MSpiff4.
From Verif Require Import PMatCli5 PPolyText PSpiff PSpiff2 PSpiff3 PSpiff7 PSpiff14.
From Coq Require Import Ascii String.
From mathcomp Require Import all_ssreflect all_algebra ssrZ zify.
From Verif Require PPoly PropList PropSpiff3.
Set Implicit Arguments.
Unset Strict Implicit.
Unset Printing Implicit Defensive.
Import GRing.Theory.
Delimit Scope Z_scope with coqZ.
Local Open Scope ring_scope.
Local Notation length := List.length.
Local Notation Forall2 := List.Forall2.
Local Notation Forall := List.Forall.
Local Notation In := List.In.

Lemma In_inE (T : eqType) (x : T) l : x \in l <-> In x l.
Proof. by elim: l => //= y l [h1 h2]; rewrite inE; split=> [/orP[/eqP ->|/h1]|[->|/h2 ->]]; [left|right|rewrite eqxx|rewrite orbT]. Qed.

Section Defs.
Variable (F : fieldType) (num : {poly F} -> nat) (m : {poly F}).
(* f has an inverse modulo m *)
Definition has_inverse (f : {poly F}) : Prop := exists w, m %| f * w - 1.
(* the residues with the property P, in increasing order of their numbers *)
Definition residues (P : {poly F} -> Prop) (l : list {poly F}) : Prop :=
  sorted ltn [seq num f | f <- l] /\ forall f, In f l <-> (size f < size m)%N /\ P f.
(* every f prime to m is a power of g modulo m *)
Definition powers_all (g : {poly F}) : Prop := coprimep m g /\ forall f, coprimep m f -> exists j, m %| f - g ^+ j.
(* the one with the lowest number *)
Definition lowest_root (g : {poly F}) : Prop :=
  [/\ (size g < size m)%N, powers_all g & forall q : {poly F}, (size q < size m)%N -> powers_all q -> (num g <= num q)%N].
(* k is the least positive exponent with f^k = 1 modulo m *)
Definition least_exp (f : {poly F}) (k : nat) : Prop :=
  [/\ (0 < k)%N, m %| f ^+ k - 1 & forall j, (0 < j < k)%N -> ~~ (m %| f ^+ j - 1)].
(* q is the minimal polynomial of f modulo m *)
Definition min_pol (f q : {poly F}) : Prop := q \is monic /\ forall g : {poly F}, (m %| g \Po f) = (q %| g).
Lemma mod_eq (a b : {poly F}) : (a %% m == b %% m) = (m %| a - b).
Proof. by rewrite -subr_eq0 -modpN -modpD. Qed.
Lemma res_lists (E : Type) (P : {poly F} -> Prop) (e : {poly F} -> E) r : PropList.lists num (fun f => (size f < size m)%N /\ P f) e r ->
  exists l, residues P l /\ r = Ok (List.map e l).
Proof. by move=> [s [_ h2 h3 h4]]; exists s; split=> //; split=> // f; rewrite -h3 In_inE. Qed.
Lemma res_lists_all (E : Type) (e : {poly F} -> E) r : PropList.lists num (fun f => (size f < size m)%N) e r ->
  exists l, residues (fun _ => True) l /\ r = Ok (List.map e l).
Proof. by move=> [s [h1 h2 h3 h4]]; apply: res_lists; exists s; split=> // f; split=> [/h3|[/h3]]. Qed.
Lemma inverse_coprime f : has_inverse f <-> coprimep f m.
Proof.
split=> [[u /dvdpP [v e]]|/Bezout_eq1_coprimepP [[u v] /= e]]; last by exists u; rewrite -e mulrC opprD addNKr -mulNr dvdp_mull.
by apply/Bezout_eq1_coprimepP; exists (u, - v); rewrite /= mulNr -e mulrC opprB addrC subrK.
Qed.
End Defs.

Section Two.
Context {I M E : Type} (arg1 : text -> prog I) (arg2 : I -> text -> prog M) (arg3 : M -> text -> prog E)
  (shwM : M -> prog unit) (shw : E -> prog unit).
Variables (F : fieldType) (m : {poly F}) (enc : {poly F} -> M) (menc : {poly F} -> E) (rd : text -> {poly F} -> Prop) (txM tx : {poly F} -> text).
Hypothesis Harg : forall s f, rd s f -> arg3 (enc m) s = ret (menc f).
Hypothesis HshwM : forall f, shwM (enc f) = MSpiff.print (txM f).
Hypothesis Hshw : forall f, shw (menc f) = MSpiff.print (tx f).
Variables (s1 s2 : text) (i : I).
Hypothesis H1 : arg1 s1 = ret i.
Hypothesis H2 : arg2 i s2 = ret (enc m).
Lemma arg12_ok : arg12 arg1 arg2 s1 s2 = ret (enc m). Proof. by rewrite /arg12 H1 pb_ret. Qed.
Lemma two_list lst o ty l : arg_type o = ret ty -> lst (enc m) ty = Ok (List.map menc l) ->
  two_list_main arg1 arg2 shw lst [:: o; s1; s2] = (lines_of tx l, Val 0%coqZ).
Proof.
move=> h1 h2; rewrite /two_list_main h1 pb_ret arg12_ok pb_ret h2 pb_ok.
by rewrite (lines_ok shw menc tx Hshw) pb_val emit_ret.
Qed.
Lemma two_tbl add sub mul div log lst knd o k u : knd (enc m) o = ret k -> k_table shw add sub mul div log (lst (enc m)) k = (u, Val tt) ->
  two_tbl_main arg1 arg2 shw add sub mul div log lst knd [:: s1; s2; o] = (u, Val 0%coqZ).
Proof. by move=> h1 h2; rewrite /two_tbl_main arg12_ok pb_ret h1 pb_ret h2 pb_val emit_ret. Qed.
Lemma two_pol f args fs qs : args <> nil -> Forall2 rd args fs -> Forall2 (fun x q => f (menc x) = Ok (enc q)) fs qs ->
  two_pol_main arg1 arg2 arg3 shwM shw f (s1 :: s2 :: args) = (listing tx (many fs) ": " fs (List.map txM qs), Val 0%coqZ).
Proof.
move=> hn ha hq.
have -> : two_pol_main arg1 arg2 arg3 shwM shw f (s1 :: s2 :: args) = (per_calc (arg3 (enc m)) shw shwM (several args) f args ;~~ ret 0%coqZ).
  by case: args hn {ha} => // a args _; rewrite /two_pol_main arg12_ok pb_ret.
by rewrite (several_many _ _ _ ha) (calc_ok _ _ menc rd tx Harg Hshw shwM enc txM _ _ _ _ _ HshwM ha hq) pb_val emit_ret.
Qed.
Lemma two_random (St : Type) (rnd : I -> M -> St -> res (E * St)) s0 s3 n (st : nat -> St) (cl : nat -> {poly F}) : int_text s3 n ->
  st 0%N = s0 -> (forall j, rnd i (enc m) (st j) = Ok (menc (cl j), st j.+1)) ->
  two_random_main arg1 arg2 shw rnd s0 [:: s1; s2; s3] = (lines_of (fun j => tx (cl j)) (List.seq 0 (Z.to_nat n)), Val 0%coqZ).
Proof.
move=> hn h0 h; rewrite /two_random_main H1 pb_ret H2 pb_ret (arg_int_ok _ _ hn) pb_ret.
rewrite (times_ok _ _ _ st (fun j => line (tx (cl j)))) //; first by rewrite pb_val emit_ret.
move=> j _; rewrite h pb_ok [fst _]/= [snd _]/= Hshw pb_print /nl pb_print emit_emit.
by rewrite -[(j + 1)%coq_nat]/(addn j 1) addn1 emit_ret.
Qed.
End Two.

(* ---- the coefficients below the degree of the modulus, with zeros in front ---- *)
Lemma pad_coefs (F : fieldType) (m f : {poly F}) (T : Type) (t0 : T) (g : F -> T) : g 0 = t0 -> (size f < size m)%N ->
  (List.repeat t0 (size (PPoly.cseq m) - 1 - size (PPoly.cseq f))%coq_nat ++ [seq g a | a <- rev (PPoly.cseq f)])%list = [seq g f`_i | i <- rev (iota 0 (maxn 1 (size m).-1))].
Proof.
move=> g0 hs; have m0 : m != 0 by rewrite -size_poly_gt0; apply: leq_ltn_trans hs.
have sc : size (PPoly.cseq f) = maxn 1 (size f) by rewrite /PPoly.cseq; case: eqP => [->|/eqP h]; rewrite ?size_poly0 //; move: h; rewrite -size_poly_gt0; case: (size f) => //= k _; rewrite maxnC /maxn; case: k.
have sm : size (PPoly.cseq m) = size m by rewrite /PPoly.cseq (negbTE m0).
rewrite -[LHS]revK -[RHS]revK; congr rev; rewrite -!map_rev revK rev_cat -map_rev revK.
have -> : forall k, List.repeat t0 k = nseq k t0 by elim=> //= k ->.
rewrite rev_nseq sm; set k := (_ - _)%coq_nat.
have ek : (size (PPoly.cseq f) + k = maxn 1 (size m).-1)%N.
  rewrite /k sc; move: hs; case: (size m) => // n; rewrite ltnS /= => h; clear -h; move: (size f) h => x h.
  by rewrite /maxn; case: ifP => h1; case: ifP => h2; lia.
apply: (@eq_from_nth _ t0); first by rewrite size_cat !size_map size_nseq size_iota.
move=> i; rewrite size_cat size_map size_nseq ek => hi; rewrite (nth_map 0%N) ?size_iota // nth_iota // add0n nth_cat size_map.
case: ltnP => h; first by rewrite (nth_map 0) // /PPoly.cseq; case: eqP h => // -> _; rewrite coef0; case: (i) => // -[].
rewrite nth_nseq; have -> : f`_i = 0 by apply: nth_default; apply: leq_trans h; rewrite sc leq_maxr.
by rewrite g0; case: ifP.
Qed.
