(* All n-tuples over a finite list; normalised homogeneous coordinates. *)
From Verif Require Import Base MIntMath MMat MList PIntMath.
From mathcomp Require Import all_ssreflect all_algebra ssrZ.
From Verif Require Import PMat PPoly PList PList2.
From Verif Require PBits2.
Set Implicit Arguments.
Unset Strict Implicit.
Unset Printing Implicit Defensive.
Delimit Scope Z_scope with coqZ.
Local Open Scope nat_scope.

Lemma divmodZ a b : 0 < b -> (Z.of_nat a / Z.of_nat b = Z.of_nat (a %/ b) /\ Z.of_nat a mod Z.of_nat b = Z.of_nat (a %% b))%coqZ.
Proof.
move=> hb; have h1 := ltP (ltn_pmod a hb); have h2 : a = (b * (a %/ b) + a %% b)%coq_nat by rewrite {1}(divn_eq a b) mulnC.
split; symmetry; [apply: (Z.div_unique_pos _ _ _ (Z.of_nat (a %% b)))|apply: (Z.mod_unique_pos _ _ (Z.of_nat (a %/ b)))]; lia.
Qed.

Section Tup.
Variables (T : eqType) (x0 : T) (s : seq T).
Let q := size s.
Hypothesis q0 : 0 < q.
Fixpoint tup (k i : nat) : seq T := if k is k'.+1 then rcons (tup k' (i %/ q)) (nth x0 s (i %% q)) else [::].
Definition tups k := [seq tup k i | i <- iota 0 (q ^ k)].
Lemma size_tup k i : size (tup k i) = k.
Proof. by elim: k i => //= k IH i; rewrite size_rcons IH. Qed.
Lemma div_lt i k : i < q ^ k.+1 -> i %/ q < q ^ k.
Proof. by move=> h; rewrite ltn_divLR // mulnC -expnS. Qed.
Lemma tup_inj k i j : uniq s -> i < q ^ k -> j < q ^ k -> tup k i = tup k j -> i = j.
Proof.
move=> us; elim: k i j => [|k IH] i j; first by rewrite expn0 !ltnS !leqn0 => /eqP -> /eqP ->.
move=> hi hj /= /rcons_inj [e1 e2]; rewrite (divn_eq i q) (divn_eq j q).
rewrite (IH _ _ (div_lt hi) (div_lt hj) e1); congr (_ + _).
by apply/eqP; rewrite -(nth_uniq x0 (ltn_pmod i q0) (ltn_pmod j q0) us) e2.
Qed.
Lemma tups_uniq k : uniq s -> uniq (tups k).
Proof.
move=> us; rewrite map_inj_in_uniq ?iota_uniq // => i j; rewrite !mem_iota !add0n /= => hi hj.
exact: tup_inj.
Qed.
Lemma mem_tups k t : (t \in tups k) = (size t == k) && all (mem s) t.
Proof.
apply/mapP/andP => [[i hi ->]|[]].
  rewrite size_tup eqxx; split=> //; elim: k i {hi} => //= k IH i; rewrite all_rcons IH andbT /=.
  by apply: mem_nth; exact: ltn_pmod.
elim: k t => [|k IH] t.
  by move=> /eqP/size0nil -> _; exists 0; rewrite ?mem_iota.
case/lastP: t => [|t x]; rewrite ?size_rcons // eqSS all_rcons => h1 /andP [hx h2].
have [i hi ei] := IH t h1 h2; move: hi; rewrite mem_iota add0n /= => hi.
have hxq : index x s < q by rewrite index_mem.
exists (i * q + index x s).
  rewrite mem_iota add0n /= expnSr; apply: (@leq_trans (i.+1 * q)); first by rewrite mulSn addnC ltn_add2r.
  by rewrite leq_mul2r hi orbT.
rewrite divnMDl // divn_small // addn0 modnMDl modn_small // -ei; congr rcons.
by rewrite nth_index.
Qed.
Lemma size_tups k : size (tups k) = q ^ k. Proof. by rewrite size_map size_iota. Qed.

Variables (E : Type) (st : T -> E) (dflt : E).
Hypothesis hq : (Z.of_nat q <= INT_MAX)%coqZ.
Lemma imod_nat a b : 0 < b -> (Z.of_nat a <= INT_MAX)%coqZ -> imod (Z.of_nat a) (Z.of_nat b) = Ok (Z.of_nat (a %% b)).
Proof.
move=> hb ha; rewrite /imod (_ : (Z.of_nat b =? 0)%coqZ = false); last by move/ltP: hb; lia.
rewrite Z.quot_div_nonneg ?Z.rem_mod_nonneg; try (by move/ltP: hb; lia).
have hz : (0 < Z.of_nat b)%coqZ by move/ltP: hb; lia.
have h2 : (0 <= Z.of_nat a / Z.of_nat b <= Z.of_nat a)%coqZ.
  split; [apply: Z.div_pos; lia|apply: Z.div_le_upper_bound; [lia|nia]].
rewrite (_ : in_int _ = true); last by rewrite /in_int /INT_MIN; lia.
by congr Ok; case: (divmodZ a hb).
Qed.
Lemma idiv_nat a b : 0 < b -> (Z.of_nat a <= INT_MAX)%coqZ -> idiv (Z.of_nat a) (Z.of_nat b) = Ok (Z.of_nat (a %/ b)).
Proof.
move=> hb ha; rewrite /idiv (_ : (Z.of_nat b =? 0)%coqZ = false); last by move/ltP: hb; lia.
rewrite Z.quot_div_nonneg; try (by move/ltP: hb; lia).
have hz : (0 < Z.of_nat b)%coqZ by move/ltP: hb; lia.
have h2 : (0 <= Z.of_nat a / Z.of_nat b <= Z.of_nat a)%coqZ.
  split; [apply: Z.div_pos; lia|apply: Z.div_le_upper_bound; [lia|nia]].
rewrite chk_ok; last by rewrite /INT_MIN; lia.
by congr Ok; case: (divmodZ a hb).
Qed.
Lemma tuple_ok k i row : k <= size row -> (Z.of_nat i <= INT_MAX)%coqZ ->
  tuple_row [seq st f | f <- s] (Z.of_nat q) k (Z.of_nat i) row = Ok ([seq st f | f <- tup k i] ++ drop k row).
Proof.
move=> hk hi; rewrite /tuple_row.
set body := fun j st0 => _.
suff H c j b r : c + j = k -> c <= size r -> (Z.of_nat b <= INT_MAX)%coqZ ->
    exists b', for_up c j body (r, Z.of_nat b) = Ok ([seq st f | f <- tup c b] ++ drop c r, b').
  by have [b' ->] := H k 0 i row (addn0 k) hk hi.
elim: c j b r => [|c IH] j b r hc hr hb; first by exists (Z.of_nat b); rewrite /= drop0.
rewrite /= /body imod_nat // bind_ok Nat2Z.id.
have -> : elt [seq st f | f <- s] (b %% q) = Ok (st (nth x0 s (b %% q))).
  by rewrite /elt (nth_error_nth' (st x0)) ?size_map ?ltn_pmod // (nth_map x0) ?ltn_pmod.
rewrite bind_ok setelt_cat (_ : (k - j - 1)%coq_nat = c); last by lia.
rewrite hr bind_ok idiv_nat // bind_ok.
have hb' : (Z.of_nat (b %/ q) <= INT_MAX)%coqZ by have := leP (leq_div b q); lia.
have [|||b' e] := IH j.+1 (b %/ q) (take c r ++ st (nth x0 s (b %% q)) :: drop c.+1 r) => //.
- by rewrite addnS -addSn.
- by rewrite size_cat size_takel ?leq_addr // ltnW.
exists b'; apply: etrans e _; congr (Ok (_, _)); rewrite drop_size_cat ?size_takel ?(ltnW hr) // map_rcons cat_rcons.
by [].
Qed.
Lemma mapM_iota (U : Type) (f : nat -> U) (g : nat -> res U) a b : (forall i, a <= i < a + b -> g i = Ok (f i)) ->
  mapM g (List.seq a b) = Ok [seq f i | i <- iota a b].
Proof.
move=> h; rewrite (PBits2.mapM_pure f) -?seqE //.
by move=> i /in_seq hi; apply: h; apply/andP; split; [apply/leP|apply/ltP]; lia.
Qed.
Lemma An_ok n : 0 < n -> (Z.of_nat (q ^ n) <= INT_MAX)%coqZ ->
  An_rows dflt [seq st f | f <- s] (Z.of_nat q) (Z.of_nat (q ^ n)) (Z.of_nat n) = Ok (mkmat [seq [seq st f | f <- t] | t <- tups n] n).
Proof.
move=> hn hqn; rewrite /An_rows; have h1 : 0 < q ^ n by rewrite expn_gt0 q0.
have -> : ((Z.of_nat (q ^ n) <=? 0) || (Z.of_nat n <=? 0))%coqZ = false by move/ltP: h1; move/ltP: hn; lia.
rewrite !Nat2Z.id (mapM_iota (f := fun i => [seq st f | f <- tup n i])).
  by rewrite bind_ok /tups -map_comp.
move=> i; rewrite add0n /= => /ltP hi; rewrite tuple_ok.
- by rewrite drop_oversize ?cats0 // -lengthE repeat_length.
- by rewrite -lengthE repeat_length.
by lia.
Qed.

(* projective points *)
Variables (z o : T).
Definition pt n k (t : seq T) : seq T := t ++ o :: nseq (n - k) z.
Definition pts n : seq (seq T) := flatten [seq [seq pt n k t | t <- tups k] | k <- iota 0 n.+1].
Lemma nseqE (U : Type) n (x : U) : repeat x n = nseq n x.
Proof. by elim: n => //= n ->. Qed.
Lemma zero_ok (x : E) c j (r : seq E) : c <= size r -> j = size r - c ->
  for_up c 0 (fun i row => setelt row (j + i)%coq_nat x) r = Ok (take j r ++ nseq c x).
Proof.
move=> hc hj; suff H d i (w : seq E) : d + i = c -> size w = j + i -> forall v, size v = d ->
    for_up d i (fun i row => setelt row (j + i)%coq_nat x) (w ++ v) = Ok (w ++ nseq d x).
  rewrite -{1}[r](cat_take_drop j) (H c 0) ?addn0 // ?size_drop ?size_takel //; rewrite hj ?leq_subr // subKn //.
elim: d i w => [|d IH] i w hd hw v hv; first by case: v hv.
have hlt : j + i < j + i + d.+1 by rewrite -{1}[j + i]addn0 ltn_add2l.
rewrite /= setelt_cat size_cat hw hv plusE hlt bind_ok.
rewrite take_size_cat // drop_cat hw ltnNge leqnSn /= subSn // subnn; case: v hv => //= y v [hv]; rewrite drop0.
rewrite -cat_rcons (IH _ (rcons w x)) ?size_rcons ?hw // ?addnS // -?addSn //.
by rewrite cat_rcons.
Qed.
Lemma Pn_row_ok n k i : k <= n -> (Z.of_nat i <= INT_MAX)%coqZ ->
  Pn_row dflt [seq st f | f <- s] (st z) (st o) (Z.of_nat q) n k (Z.of_nat i) = Ok [seq st f | f <- pt n k (tup k i)].
Proof.
move=> hk hi; rewrite /Pn_row tuple_ok //; last by rewrite -lengthE repeat_length; apply: leqW.
rewrite bind_ok nseqE drop_nseq setelt_cat size_cat size_map size_tup size_nseq subnKC; last exact: leqW.
rewrite ltnS hk bind_ok take_size_cat ?size_map ?size_tup // drop_cat size_map size_tup ltnNge leqnSn /=.
rewrite subSn // subnn drop_nseq; set w := _ ++ _.
have sw : size w = n.+1.
  by rewrite size_cat /= size_map size_tup size_nseq -subnDA addn1 subSS addnS subnKC.
have -> : (k + 1)%coq_nat = k.+1 by rewrite plusE addn1.
rewrite zero_ok ?sw //; last by rewrite minusE subSn ?leq_subr // subKn.
  congr Ok; rewrite /pt map_cat /= map_nseq /w -cat_rcons take_size_cat ?size_rcons ?size_map ?size_tup //.
  by rewrite cat_rcons.
by rewrite minusE; apply: leqW; exact: leq_subr.
Qed.
Lemma size_pts n : size (pts n) = \sum_(k < n.+1) q ^ k.
Proof.
rewrite /pts size_flatten /shape -map_comp sumnE big_map -[n.+1]subn0 -/(index_iota 0 n.+1) big_mkord subn0.
by apply: eq_bigr => k _; rewrite /= size_map size_tups.
Qed.
Lemma Pn_rows_ok n : (forall k, k <= n -> int_power (Z.of_nat q) (Z.of_nat k) = Ok (Z.of_nat (q ^ k))) ->
  (Z.of_nat (\sum_(k < n.+1) q ^ k) <= INT_MAX)%coqZ ->
  Pn_rows dflt [seq st f | f <- s] (st z) (st o) (Z.of_nat q) n = Ok (mkmat [seq [seq st f | f <- t] | t <- pts n] n.+1).
Proof.
move=> hpw hsum.
have bnd k : k <= n.+1 -> \sum_(i < k) q ^ i <= \sum_(i < n.+1) q ^ i.
  by move=> h; rewrite -!(big_mkord xpredT (fun i => q ^ i)) (big_cat_nat _ _ _ (leq0n k) h) /= leq_addr.
have hsz : Pn_size (Z.of_nat q) n = Ok (Z.of_nat (\sum_(k < n.+1) q ^ k)).
  rewrite /Pn_size.
  suff H d i : d + i = n.+1 -> for_up d i (fun k oP => a <- int_power (Z.of_nat q) (Z.of_nat k) ;; iadd oP a) (Z.of_nat (\sum_(k < i) q ^ k)) =
      Ok (Z.of_nat (\sum_(k < n.+1) q ^ k)).
    by have := H n.+1 0 (addn0 _); rewrite big_ord0.
  elim: d i => [|d IH] i e; first by rewrite /= -e.
  have hi : i <= n by rewrite -ltnS -e addSn ltnS leq_addl.
  rewrite /= hpw // bind_ok /iadd chk_ok.
    rewrite bind_ok -(IH i.+1) ?addnS -?addSn // big_ord_recr /=; congr for_up; lia.
  have h1 := bnd i.+1 hi; rewrite (big_ord_recr i) /= in h1; move/leP: h1; move: hsum; rewrite /INT_MIN; clear.
  by move: (\sum_(k < n.+1) q ^ k) (\sum_(k < i) q ^ k) (q ^ i) => a b d; rewrite -plusE; lia.
rewrite /Pn_rows hsz bind_ok.
have h0 : 0 < \sum_(k < n.+1) q ^ k by rewrite big_ord_recl expn0.
rewrite (_ : (_ <=? 0)%coqZ = false); last by move/ltP: h0; lia.
rewrite (mapM_iota (f := fun k => [seq [seq st f | f <- pt n k t] | t <- tups k])); last first.
  move=> k; rewrite add0n /= ltnS => hk; rewrite hpw // bind_ok Nat2Z.id.
  rewrite (mapM_iota (f := fun i => [seq st f | f <- pt n k (tup k i)])); first by rewrite /tups -map_comp.
  move=> i; rewrite add0n /= => hi; rewrite Pn_row_ok //.
  have h1 : \sum_(i < k.+1) q ^ i <= \sum_(i < n.+1) q ^ i by apply: bnd.
  rewrite (big_ord_recr k) /= in h1; move/leP: h1; move: hsum; move/ltP: hi; clear.
  by move: (\sum_(k < n.+1) q ^ k) (\sum_(i < k) q ^ i) (q ^ k) => a b d; rewrite -plusE; lia.
have e : List.concat [seq [seq [seq st f | f <- pt n k t] | t <- tups k] | k <- iota 0 n.+1] = [seq [seq st f | f <- t] | t <- pts n].
  rewrite /pts map_flatten -map_comp; have cE (U : Type) (x : seq (seq U)) : List.concat x = flatten x by elim: x => //= ? ? ->.
  rewrite cE; congr flatten; apply: eq_map => k /=.
  by rewrite -map_comp.
rewrite bind_ok e lengthE size_map size_pts Z.eqb_refl.
by [].
Qed.
Lemma mem_pts n v : z \in s -> o \in s ->
  (v \in pts n) = [&& size v == n.+1, all (mem s) v & [exists k : 'I_n.+1, drop k v == o :: nseq (n - k) z]].
Proof.
move=> hz ho; apply/flatten_mapP/and3P.
  move=> [k]; rewrite mem_iota add0n /= ltnS => hk /mapP [t]; rewrite mem_tups => /andP [/eqP h1 h2 ->].
  split.
  - by rewrite size_cat /= size_nseq h1 addnS subnKC.
  - by rewrite all_cat h2 /= ho; apply/allP => x /nseqP [-> _].
  by apply/existsP; exists (Ordinal (hk : k < n.+1)); rewrite /= drop_size_cat.
move=> [/eqP h1 h2 /existsP [[k hk] /= /eqP h3]].
exists k; first by rewrite -[_ :: _]/(iota 0 n.+1) mem_iota.
apply/mapP; exists (take k v); last by rewrite /pt -h3 cat_take_drop.
rewrite mem_tups size_takel ?h1 ?(ltnW hk) // eqxx /=.
by apply/allP => x /mem_take; exact: (allP h2).
Qed.
Lemma nseq_rev (U : Type) n (x : U) : rev (nseq n x) = nseq n x.
Proof. by elim: n => //= n IH; rewrite rev_cons IH -cats1 -[[:: x]]/(nseq 1 x) -nseqD addn1. Qed.
Lemma flatten_key (U : eqType) (A : nat -> seq U) key ks : uniq ks -> (forall k, k \in ks -> uniq (A k)) ->
  (forall k v, k \in ks -> v \in A k -> key v = k) -> uniq (flatten [seq A k | k <- ks]).
Proof.
elim: ks => //= k ks IH /andP [hk us] h1 h2; rewrite cat_uniq h1 ?mem_head // IH //=; last first.
- by move=> l v hl; apply: h2; rewrite inE hl orbT.
- by move=> l hl; apply: h1; rewrite inE hl orbT.
rewrite andbT; apply/hasPn => v /flatten_mapP [l hl hv]; apply/negP => hv2.
have e1 := h2 l v _ hv; have e2 := h2 k v _ hv2.
by move: hk; rewrite -e2 ?mem_head // e1 ?hl // inE hl orbT.
Qed.
Lemma pts_uniq n : uniq s -> o != z -> uniq (pts n).
Proof.
move=> us hoz; apply: (flatten_key (key := fun v => n - find (fun x => x != z) (rev v))); first exact: iota_uniq.
  move=> k _; rewrite map_inj_in_uniq ?tups_uniq // => t t'; rewrite !mem_tups => /andP [/eqP h1 _] /andP [/eqP h2 _] /eqP.
  by rewrite /pt eqseq_cat ?h1 ?h2 // => /andP [/eqP].
move=> k v; rewrite mem_iota add0n /= ltnS => hk /mapP [t _ ->].
rewrite /pt rev_cat rev_cons cat_rcons nseq_rev find_cat has_nseq eqxx andbF /= hoz addn0 size_nseq.
by rewrite subKn.
Qed.
End Tup.

(* over a field each non-zero vector is a non-zero multiple of exactly one of the points *)
Section Proj.
Import GRing.Theory.
Local Open Scope ring_scope.
Variables (F : fieldType) (m : {poly F}) (s : seq {poly F}).
Hypotheses (mi : irreducible_poly m) (hs : forall f, (f \in s) = (size f < size m)%N).
Let m0 : m != 0. Proof. exact: irredp_neq0 mi. Qed.
Let m1 : (1 < size m)%N. Proof. by case: mi. Qed.
Let red (f : {poly F}) : (size f < size m)%N -> f %% m = f. Proof. exact: modp_small. Qed.
Lemma inv_mod (c : {poly F}) : c != 0 -> (size c < size m)%N -> exists u : {poly F}, (u * c) %% m = 1.
Proof.
move=> c0 hc.
have cop : coprimep m c.
  apply/coprimepP => d dm dc; have [_ hm] := mi; rewrite -size_poly_eq1; apply/negPn/negP => hd.
  have e := hm d hd dm; have := dvdp_leq c0 dc; rewrite (eqp_size e) leqNgt hc //.
have /Bezout_eq1_coprimepP [[a b] /= e] := cop; exists b.
have -> : b * c = 1 - a * m by rewrite -e addrC addKr.
by rewrite modpD modpN modp_mull oppr0 addr0 red // size_poly1.
Qed.
Local Notation "v @ i" := (nth (0 : {poly F}) v i) (at level 9).
Lemma drop_pt n k (w : seq {poly F}) : size w = n.+1 -> (k <= n)%N ->
  (drop k w == 1 :: nseq (n - k) 0) <-> w @ k = 1 /\ forall j, (k < j)%N -> w @ j = 0.
Proof.
move=> sw hk; split.
  move/eqP => e; split=> [|j hj]; first by have := nth_drop k 0 w 0; rewrite addn0 e.
  have := nth_drop k 0 w (j - k); rewrite subnKC ?(ltnW hj) // => <-; rewrite e.
  by rewrite -subn_gt0 in hj; case: (j - k)%N hj => //= i _; rewrite nth_nseq; case: ifP.
move=> [h1 h2]; apply/eqP; apply: (eq_from_nth (x0 := 0)).
  by rewrite size_drop sw /= size_nseq subSn.
move=> i hi; rewrite nth_drop; case: i hi => [|i] hi; first by rewrite addn0.
by rewrite h2 ?addnS ?ltnS ?leq_addr //= nth_nseq; case: ifP.
Qed.
Definition smul (c : {poly F}) (w : seq {poly F}) := [seq (c * f) %% m | f <- w].
Lemma nth_smul c w j : (smul c w) @ j = (c * w @ j) %% m.
Proof.
case: (ltnP j (size w)) => h; first by rewrite (nth_map 0).
by rewrite !nth_default ?size_map // mulr0 mod0p.
Qed.
Lemma proj_ok n (v : seq {poly F}) : size v = n.+1 -> all (fun f : {poly F} => (size f < size m)%N) v -> has (fun f : {poly F} => f != 0) v ->
  exists (w : seq {poly F}) (c : {poly F}), [/\ w \in pts 0 s 0 1 n, c != 0 /\ (size c < size m)%N, v = smul c w &
    forall (w' : seq {poly F}) (c' : {poly F}), w' \in pts 0 s 0 1 n -> (size c' < size m)%N -> v = smul c' w' -> w' = w /\ c' = c].
Proof.
move=> sv av nv.
have hz : 0 \in s by rewrite hs size_poly0 ltnW.
have ho : 1 \in s by rewrite hs size_poly1.
have s0 : (0 < size s)%N by case: (s) hz.
have rv j : (size v @ j < size m)%N.
  by case: (ltnP j (size v)) => h; [apply: (all_nthP 0 av)|rewrite nth_default // size_poly0 ltnW].
have ex : exists j, (j < n.+1)%N && (v @ j != 0).
  by have /(has_nthP 0) [j hj h] := nv; exists j; rewrite -sv hj.
have ub j : (j < n.+1)%N && (v @ j != 0) -> (j <= n)%N by case/andP.
case: (ex_maxnP ex ub) => k /andP [hk vk] kmax.
have hv j : (k < j)%N -> v @ j = 0.
  move=> hj; apply/eqP/negPn/negP => h.
  have hjn : (j < n.+1)%N by rewrite ltnNge; apply/negP => hh; move: h; rewrite nth_default ?eqxx // sv.
  by have := kmax j; rewrite hjn h => /(_ isT); rewrite leqNgt hj.
have [u hu] := inv_mod vk (rv k).
have hcu (x : {poly F}) : (size x < size m)%N -> (v @ k * ((u * x) %% m)) %% m = x.
  move=> hx; rewrite modp_mul [u * x]mulrC mulrCA [_ * u]mulrC -modp_mul hu mulr1; exact: red.
exists (smul u v), (v @ k); split=> //.
- rewrite mem_pts // /smul size_map sv eqxx /=; apply/andP; split.
    by apply/allP => f /mapP [g _ ->]; rewrite /= hs ltn_modp.
  apply/existsP; exists (Ordinal hk) => /=; apply/drop_pt; rewrite ?size_map //.
  split=> [|j hj]; rewrite -/(smul u v) nth_smul //.
  by rewrite hv // mulr0 mod0p.
- apply: (eq_from_nth (x0 := 0)); first by rewrite !size_map.
  by move=> j _; rewrite nth_smul nth_smul hcu.
move=> w c hw hc e.
have [sw aw [k' hk' dw]] : [/\ size w = n.+1, all (mem s) w & exists2 k' : nat, (k' <= n)%N & w @ k' = 1 /\ forall j, (k' < j)%N -> w @ j = 0].
  move: hw; rewrite mem_pts // => /and3P [/eqP h1 h2 /existsP [[k' hk'] /= h3]]; split=> //.
  by exists k' => //; apply/(drop_pt h1 hk').
have [w1 w2] := dw.
have ek : v @ k' = c by rewrite e nth_smul w1 mulr1 red.
have c0 : c != 0.
  apply: contraNneq vk => c0; by rewrite e nth_smul c0 mul0r mod0p.
have kk : k' = k.
  apply/eqP; rewrite eqn_leq kmax ?ek ?c0 ?andbT //= leqNgt; apply/negP => h.
  by move: vk; rewrite e nth_smul w2 // mulr0 mod0p eqxx.
have ec : c = v @ k by rewrite -ek kk.
split=> //; apply: (eq_from_nth (x0 := 0)); first by rewrite size_map sw sv.
move=> j hj; rewrite nth_smul; move: (e) => /(congr1 (fun t => t @ j)); rewrite nth_smul => ->.
rewrite modp_mul mulrA ec mulrC -modp_mul hu mulr1 red //.
by have := all_nthP 0 aw j hj; rewrite /= hs.
Qed.
End Proj.
