(* Mathematics for the diagonalizability test: splitting of polynomials over finite fields,
   and the comparison of nullities with multiplicities. *)
From mathcomp Require Import all_ssreflect fingroup perm all_algebra falgebra fieldext finfield.
Set Implicit Arguments.
Unset Strict Implicit.
Unset Printing Implicit Defensive.
Import GRing.Theory.
Import FinVector.
Local Open Scope ring_scope.

(* ---- irreducible polynomials over a finite field divide x^(q^k) - x *)
Lemma irr_dvd_frob (F : finFieldType) (h : {poly F}) : irreducible_poly h -> h %| 'X^(#|F| ^ (size h).-1) - 'X.
Proof.
move=> hi; have [L hdim [z hz _]] := irredp_FAdjoin hi.
pose K := FinFieldExtType L.
pose emb : {rmorphism F -> K} := [rmorphism of in_alg L].
have hc : #|K| = (#|F| ^ (size h).-1)%N.
  by have := @card_vspace F K _ {:L}%VS; rewrite card_vspacef -hdim.
set X := 'X^_ - 'X.
have rX : root (map_poly emb X) z.
  rewrite rmorphB /= map_polyXn map_polyX rootE hornerD hornerN hornerXn hornerX -hc.
  by rewrite (expf_card (z : K)) subrr.
apply: contraLR isT => nd; have : coprimep h X.
  have [_ hd] := hi; rewrite coprimep_def; apply/negPn/negP => s1.
  have := hd _ s1 (dvdp_gcdl _ _); rewrite /eqp => /andP [_ h2]; case/negP: nd.
  exact: dvdp_trans h2 (dvdp_gcdr _ _).
rewrite -(coprimep_map emb) => /coprimep_root /(_ hz).
by move: rX; rewrite rootE => ->.
Qed.
Lemma frob_dvd (R : fieldType) q k e : (k %| e)%N -> ('X^(q ^ k) - 'X : {poly R}) %| 'X^(q ^ e) - 'X.
Proof.
move=> /dvdnP [j ->]; elim: j => [|j IH]; first by rewrite mul0n expn0 expr1 subrr dvdp0.
have -> : 'X^(q ^ (j.+1 * k)) - 'X = (('X^(q ^ (j * k)) : {poly R}) ^+ (q ^ k) - 'X^(q ^ k)) + ('X^(q ^ k) - 'X).
  by rewrite mulSn expnD mulnC exprM addrA subrK.
rewrite dvdp_add ?dvdpp //; apply: dvdp_trans IH _.
by rewrite subrXX dvdp_mulr.
Qed.
(* ---- so in an extension of degree e those with degree dividing e split *)
Lemma splits (F L : finFieldType) (f : {rmorphism F -> L}) e (h : {poly F}) (r : {poly L}) :
  #|L| = (#|F| ^ e)%N -> irreducible_poly h -> ((size h).-1 %| e)%N ->
  irreducible_poly r -> r %| map_poly f h -> size r = 2%N.
Proof.
move=> hc hi hd ri hr.
have : r %| \prod_(x : L) ('X - x%:P).
  rewrite -finField_genPoly hc; apply: dvdp_trans hr _.
  have := dvdp_trans (irr_dvd_frob hi) (frob_dvd F #|F| hd); rewrite -(dvdp_map f).
  by rewrite [map_poly f (_ - _)]rmorphB /= map_polyXn map_polyX.
have -> : \prod_(x : L) ('X - x%:P) = \prod_(x <- enum L) ('X - x%:P) :> {poly L} by rewrite big_enum.
have [s1 hq] := ri; elim: (enum L) => [|x l IH]; rewrite ?big_nil ?big_cons.
  by rewrite dvdp1 => /eqP e1; rewrite e1 in s1.
case: (boolP ('X - x%:P %| r)) => hx.
  move=> _; have := hq _ _ hx; rewrite size_XsubC => /(_ isT) /eqp_size; by rewrite size_XsubC.
rewrite Gauss_dvdpr //; rewrite coprimep_XsubC; by rewrite -dvdp_XsubCl.
Qed.

(* ---- a product of linear factors determines the factors *)
Lemma prod_perm (F : fieldType) (l l' : seq F) :
  \prod_(x <- l) ('X - x%:P) = \prod_(x <- l') ('X - x%:P) -> perm_eq l l'.
Proof.
elim: l l' => [|a l IH] l' h.
  move: (congr1 (fun p : {poly F} => size p) h); rewrite !size_prod_XsubC /=.
  by case: l' {h}.
have ha : a \in l' by rewrite -root_prod_XsubC -h big_cons rootM root_XsubC eqxx.
rewrite perm_sym (perm_trans (perm_to_rem ha)) // perm_cons perm_sym; apply: IH.
have := h; rewrite big_cons (perm_big _ (perm_to_rem ha)) big_cons => /mulfI; apply.
by rewrite polyXsubC_eq0.
Qed.
Lemma rank_diag (F : fieldType) n (d : 'rV[F]_n) : \rank (diag_mx d) = #|[pred i | d 0 i != 0]|.
Proof.
have e : (diag_mx d :=: \sum_(i | d 0 i != 0) <<delta_mx 0 i : 'rV_n>>)%MS.
  have rw i : row i (diag_mx d) = d 0 i *: delta_mx 0 i.
    apply/rowP => j; rewrite !mxE eqxx /= [j == i]eq_sym.
    by case: eqP => [->|_]; rewrite ?mulr1n ?mulr1 ?mulr0n ?mulr0.
  apply/eqmxP/andP; split.
    apply/row_subP => i; rewrite rw; have [->|h] := eqVneq (d 0 i) 0; first by rewrite scale0r sub0mx.
    by rewrite scalemx_sub // (sumsmx_sup i) // genmxE.
  apply/sumsmx_subP => i h; rewrite genmxE -[delta_mx _ _](scalerK h) -rw.
  by rewrite scalemx_sub // row_sub.
rewrite e; have md : mxdirect (\sum_(i | d 0 i != 0) <<delta_mx 0 i : 'rV[F]_n>>) by apply: mxdirect_delta => i j _ _.
rewrite (mxdirectP md).
rewrite /= (eq_bigr (fun=> 1%N)) => [|i _]; last by rewrite genmxE mxrank_delta.
by rewrite sum1_card.
Qed.

(* ---- a matrix whose characteristic polynomial splits can be diagonalized exactly if the
   eigenspaces have the multiplicities as dimensions *)
Definition can_diagonalize (F : fieldType) n (A : 'M[F]_n) : Prop :=
  exists2 P, P \in unitmx & is_diag_mx (P *m A *m invmx P).
Section Criterion.
Variables (F : fieldType) (n : nat) (A : 'M[F]_n) (s : seq (F * nat)).
Hypothesis us : uniq [seq e.1 | e <- s].
Hypothesis hs : char_poly A = \prod_(e <- s) ('X - e.1%:P) ^+ e.2.
Let rep := flatten [seq nseq e.2 e.1 | e <- s].
Lemma rep_prod : char_poly A = \prod_(x <- rep) ('X - x%:P).
Proof.
rewrite hs /rep; elim: s => [|e l IH]; first by rewrite !big_nil.
rewrite big_cons /= big_cat IH; congr (_ * _); elim: (e.2) => [|k IHk]; first by rewrite expr0 big_nil.
by rewrite exprS IHk /= big_cons.
Qed.
Lemma rep_count e : e \in s -> count_mem e.1 rep = e.2.
Proof.
rewrite /rep; elim: s us => [//|x l IH] /= /andP [nx ul]; rewrite inE count_cat count_nseq /= => /orP [/eqP ->|h].
  rewrite eqxx mul1n; suff -> : count_mem x.1 (flatten [seq nseq y.2 y.1 | y <- l]) = 0%N by rewrite addn0.
  apply/count_memPn; apply: contra nx => /flattenP [t /mapP [y hy ->]]; rewrite mem_nseq => /andP [_ /eqP ->].
  exact: (map_f (fun e => e.1)).
rewrite (IH ul h); case: eqP => [e1|]; last by rewrite mul0n.
by case/negP: nx; rewrite e1; apply: (map_f (fun e => e.1)).
Qed.
Lemma diag_criterion : can_diagonalize A <-> all (fun e => (n - \rank (A - e.1%:M)%R)%N == e.2) s.
Proof.
split=> [[P Pu /diag_mxP [d ed]]|/allP h].
  have eA : A = invmx P *m diag_mx d *m P by rewrite -ed !mulmxA mulVmx // mul1mx -mulmxA mulVmx // mulmx1.
  have hp : char_poly A = \prod_(x <- [seq d 0 i | i <- enum 'I_n]) ('X - x%:P).
    have -> : char_poly A = char_poly (diag_mx d).
      pose c := map_mx (@polyC F).
      have hc : c n n (invmx P) *m c n n P = 1%:M by rewrite -map_mxM mulVmx // map_mx1.
      have -> : char_poly A = \det (c n n (invmx P) *m char_poly_mx (diag_mx d) *m c n n P).
        rewrite /char_poly /char_poly_mx eA; congr (\det _).
        rewrite mulmxBr mulmxBl -!map_mxM -/(c n n _); congr (_ - _).
        by rewrite scalar_mxC -mulmxA hc mulmx1.
      by rewrite !det_mulmx mulrAC -det_mulmx hc det1 mul1r.
    rewrite char_poly_trig; last by apply/is_diag_mx_is_trig/diag_mx_is_diag.
    rewrite big_map big_enum; apply: eq_bigr => i _; by rewrite mxE eqxx mulr1n.
  have hperm : perm_eq rep [seq d 0 i | i <- enum 'I_n] by apply: prod_perm; rewrite -rep_prod hp.
  apply/allP => e he; rewrite -(rep_count he) (seq.permP hperm) count_map.
  have -> : A - e.1%:M = invmx P *m diag_mx (d - const_mx e.1) *m P.
    rewrite eA linearB /= diag_const_mx mulmxBr mulmxBl; congr (_ - _).
    by rewrite -mulmxA -scalar_mxC mulmxA mulVmx // mul1mx.
  rewrite mxrankMfree ?row_free_unit // -(mxrank_tr (_ *m _)) trmx_mul mxrankMfree; last by rewrite row_free_unit unitmx_tr unitmx_inv.
  rewrite mxrank_tr rank_diag -[n in (n - _)%N]card_ord -(cardC [pred i | (d - const_mx e.1) 0 i != 0]) addKn.
  rewrite -sum1_count big_enum_cond sum1_card; apply/eqP/eq_card => i.
  by rewrite !inE /= negbK !mxE subr_eq0.
have sumE : (\sum_(e <- s) e.2 = n)%N.
  have := size_char_poly A; rewrite rep_prod size_prod_XsubC => -[<-].
  rewrite /rep; elim: (s) => [|e l IH] /=; first by rewrite big_nil.
  by rewrite big_cons size_cat size_nseq IH.
suff hE : (\sum_(r <- [seq e.1 | e <- s]) eigenspace A r :=: 1%:M)%MS.
  have [P Pu hP] := (@diagonalizablePeigen F n A).2 (ex_intro2 _ _ [seq e.1 | e <- s] us hE).
  by exists P => //; move: hP; rewrite /simmx_to_for conjumx.
set S := (\sum_(r <- _) _)%MS; apply/eqmxP; rewrite submx1 /= sub1mx /row_full.
rewrite /S big_map (big_nth (0, 0%N)) big_mkord.
have md : mxdirect (\sum_(i < size s) eigenspace A (nth (0, 0%N) s i).1).
  apply: mxdirect_sum_eigenspace => i j _ _ /= e; apply: val_inj.
  have hi : (i < size [seq e.1 | e <- s])%N by rewrite size_map.
  have hj : (j < size [seq e.1 | e <- s])%N by rewrite size_map.
  by apply/eqP; rewrite -(nth_uniq 0 hi hj us) !(nth_map (0, 0%N)) // e.
rewrite (mxdirectP md) /= -[X in _ == X]sumE (big_nth (0, 0%N)) big_mkord; apply/eqP/eq_bigr => i _.
by rewrite mxrank_ker; apply/eqP/h/mem_nth.
Qed.
End Criterion.
