(* Texts that are no polynomial: streams, refusals, and the numerators of fractions. *)
From Verif Require Import Base MIntMath MIntmod MIntrat MMat MMatCli MF2Poly MPoly MPolymod MF2nPoly MFpnPoly MLinalg MRat MCyclo MTextIO MPolyText.
From Verif Require Import PIntMath PIntMath2 PIntmod PMatCli5 PTextIO3 PPolyText PF2Poly PF2Poly3 PPolyText6 PPolyText8.
From mathcomp Require Import all_ssreflect all_algebra fraction ssrZ zify.
From Verif Require Import PF2Poly2 PF2Poly4 PMat PFp PPoly PPoly2 PFpPoly PPolymod PF2n PFpn PRat PPolyText2 PPolyText3 PPolyText4 PPolyText5 PPolyText7 PPolyText9.
From Verif Require PropF2Poly PropF2nPoly PropF2nPolymod PropFpnPoly.
From Verif Require Import PropFpPoly PropFpPolymod PropLinalg PropRat PList3.
Set Implicit Arguments.
Unset Strict Implicit.
Unset Printing Implicit Defensive.
Import GRing.Theory.
Delimit Scope Z_scope with coqZ.
Local Open Scope ring_scope.
Local Notation length := List.length.
Local Notation "p %:F" := (FracField.tofrac p).

(* nothing but blanks, or something that is no blank *)
Definition bare (t : list ascii) : Prop := match t with [::] => True | x :: _ => ~ blank3 x end.
Lemma skip_bare b t : white b -> bare t -> skip_ws (b ++ t)%list = t.
Proof.
move=> hb ht; elim: hb => [|x b' hx _ IH] /=; last by case: hx => [<-|[<-|[<-|[]]]].
case: t ht => [//|x t] h /=; case: (Ascii.eqb_spec x " ") => [e|_]; first by case: h; left.
case: (Ascii.eqb_spec x "009") => [e|_]; first by case: h; right; left.
by case: (Ascii.eqb_spec x "010") => [e|_]; first by case: h; right; right; left.
Qed.
Lemma dc_in_no A (from : list ascii -> res (scan (list A))) a b t : white b -> bare t -> ends t ->
  dc_in from a (open_text (b ++ t)%list) = Ok (Rejected a, mkis t (no_text t) true false).
Proof.
move=> hb ht he; rewrite /dc_in [good _]/= skip_bare //.
by case: t ht he => [|x t] ht he //=; case: (Ascii.eqb _ _) => //; move: he => /= ->.
Qed.
Lemma q_in_ok a b w rest x : white b -> List.Forall (fun x => dc x = true) w -> w <> nil -> ends rest -> q_scan w = Ok (Read x) ->
  q_in a (open_text (b ++ w ++ rest)%list) = Ok (Read x, mkis rest (at_eof rest) false false).
Proof. by move=> hb hw hn hr e; rewrite /q_in dc_in_ok // e. Qed.
(* a printed polynomial: the sign or the slash of the first coefficient ends it *)
Lemma q_put_head l a : exists t, q_put (l ++ [:: a])%list = (rat_put a ++ t)%list.
Proof.
rewrite /q_put List.rev_app_distr /=; case: (List.map _ _) => [|w ws]; first by exists nil; rewrite /= List.app_nil_r.
by eexists.
Qed.
Lemma digits_put n : (0 <= n <= INT_MAX)%coqZ -> List.Forall digit (put_int n) /\ put_int n <> nil.
Proof.
move=> hn; rewrite /put_int; have -> : (n <? 0)%coqZ = false by clear - hn; lia.
have [||d [e [h1 [h2 _]]]] := @digits_ok 40 n nil; [|by clear; lia|by rewrite e List.app_nil_r].
by split; [clear - hn; lia|]; apply: (Z.le_lt_trans _ INT_MAX); [clear - hn; lia|].
Qed.
Lemma q_in_negative a l x : (numer x < 0)%coqZ -> exists s, q_in a (open_text (q_put (l ++ [:: x])%list)) = Ok (Rejected a, s) /\ failed s = true.
Proof.
move=> hx; have [t ->] := q_put_head l x; rewrite /rat_put /put_int; have -> : (numer x <? 0)%coqZ = true by clear - hx; lia.
have hb : ~ blank3 "-"%char by move=> [|[|[|[]]]].
set u := (_ ++ t)%list; have [v ev] : exists v, u = ("-"%char :: v)%list by rewrite /u; eexists.
by exists (mkis u (no_text u) true false); split=> //; rewrite ev; apply: (@dc_in_no _ q_scan a nil) => //; constructor.
Qed.
Lemma q_in_fraction a l x : (0 <= numer x <= INT_MAX)%coqZ -> denom x <> 1%coqZ ->
  exists l' rest, q_in a (open_text (q_put (l ++ [:: x])%list)) = Ok (Read l', mkis ("/"%char :: rest) false false false).
Proof.
move=> hx hd; have [t ->] := q_put_head l x; rewrite /rat_put; have -> : (denom x =? 1)%coqZ = false by clear - hd; lia.
have [h1 h2] := digits_put hx; have [l' [e _]] := q_scan_digits _ h1 h2.
exists l', (put_int (denom x) ++ t)%list; rewrite -List.app_assoc /=.
have hw : List.Forall (fun x => dc x = true) (put_int (numer x)).
  by apply: List.Forall_impl h1 => y /is_digit_iff; rewrite /dc => ->.
exact: (@q_in_ok a nil (put_int (numer x)) ("/"%char :: (put_int (denom x) ++ t)%list) l' (List.Forall_nil _) hw h2 erefl e).
Qed.
Lemma xbare t : bare t -> match t with [::] => True | x :: _ => is_blank (code x) = false end.
Proof.
case: t => [//|x t] /= h; apply/negP => hb; apply: h; move: hb; rewrite /is_blank /code /blank3 => hb.
have e : nat_of_ascii x = 32%N \/ nat_of_ascii x = 9%N \/ nat_of_ascii x = 10%N by move: hb; clear; lia.
by rewrite -(ascii_nat_embedding x); case: e => [->|[->|->]]; [left|right; left|right; right; left].
Qed.

(* ---- fractions ---- *)
Lemma frac_junk A R (get : A -> istr -> res (A * istr)) one (mk : A -> A -> res R) iss n0 d0 n u r b t : blanks b -> starts t ->
  (forall b, blanks b -> get n0 (open_text (b ++ t)%list) = Ok (n, mkis t false true false)) -> one n = Ok u -> mk n u = Ok r ->
  frac_in get one mk iss n0 d0 (open_text (b ++ t)%list) = Ok (r, mkis t false false false).
Proof.
move=> hb ht hg h1 hm; rewrite /frac_in; have [b' [hb' ->]] := skips b t hb ht; rewrite hg // bind_ok /=.
by rewrite Bool.andb_false_r /= h1 bind_ok /= hm.
Qed.
Section Fp.
Variable p : nat.
Hypothesis pp : prime p.
Local Notation P := (Z.of_nat p).
Hypothesis hP : (P <= 46341)%coqZ.
Variable c : cache.
Hypothesis hc : cache_valid c.
Lemma fp_in_no (g : {poly 'F_p}) b t : white b -> bare t -> ends t ->
  fp_in c (fp_enc g) (open_text (b ++ t)%list) = Ok (Rejected (fp_enc g), mkis t (no_text t) true false).
Proof. by move=> h1 h2 h3; rewrite /fp_in; have [x [-> _]] := enc_head g; rewrite bind_ok; exact: dc_in_no. Qed.
Lemma fpq_junk iss (g h : {poly 'F_p}) b x t : white b -> ~ blank3 x -> dc x = false ->
  fpq_in c iss (mkrat (fp_enc g) (fp_enc h)) (open_text (b ++ x :: t)%list) =
  Ok (qenc (@fp_enc p) g%:F, mkis (x :: t) false false false).
Proof.
move=> hb hx hd; apply: (@frac_junk _ _ _ _ _ _ _ _ (fp_enc g) (fp_enc 1)) => //.
- by move=> b' hb'; rewrite /= fp_in_no.
- exact: (PPolyText9.gp1 pp hP hc).
- by have [-> _] := C76_fp_make pp hP hc g 1; rewrite oner_eq0 frac1.
Qed.
Variable G : gfq p.
Lemma fpn_scan_no t ts1 rs b u ts2 : spread ":"%char (ts1 ++ (b ++ u) :: ts2)%list t -> ~ List.In "000"%char t -> Forall2 (@fp_word p) ts1 rs ->
  white b -> bare u -> ends u -> exists l, fpn_scan c (fp_enc (gq_m G)) t = Ok (Rejected l).
Proof.
move=> hs h0 hr hb hu he; rewrite /fpn_scan; eexists.
apply: (@sep_poly_no _ _ _ _ ":"%char ts1 (List.map (fp_menc (gq_m G)) rs) (b ++ u)%list ts2) => //; last by rewrite fp_in_no.
elim: hr {hs} => [|w r l1 l2 h _ IH]; first by constructor.
by constructor=> //; exact: (rd_fpn pp hP hc).
Qed.
End Fp.
Lemma f2_in_no_bare b t : white b -> bare t -> xstop t -> f2_in (open_text (b ++ t)%list) = Ok (f2_of_int 0, mkis t (no_text t) true false).
Proof. by move=> h1 h2 h3; apply: f2_in_no => //; exact: xbare. Qed.
Lemma xstop_not x t : ~ xd x -> xstop (x :: t).
Proof. by rewrite /xd /xstop; case: (is_xdigit _). Qed.
Lemma f2q_junk iss a b x t : white b -> ~ blank3 x -> ~ xd x ->
  f2q_in iss a (open_text (b ++ x :: t)%list) = Ok (qenc f2_enc 0, mkis (x :: t) false false false).
Proof.
move=> hb hx hd; apply: (@frac_junk _ _ _ _ _ _ _ _ (f2_enc 0) (f2_enc 1)) => //.
- by move=> b' hb'; rewrite f2_in_no_bare //; [rewrite (f2_encE isP0)|exact: xstop_not].
- by rewrite (f2_encE isP1).
- by rewrite C48_make oner_eq0 frac1 rmorph0.
Qed.
Section F2n.
Variable G : gf2.
Local Notation enc := (@PropF2nPoly.g2_enc G).
Lemma f2n_scan_no t ts1 rs b u ts2 : spread ":"%char (ts1 ++ (b ++ u) :: ts2)%list t -> ~ List.In "000"%char t -> Forall2 f2_word ts1 rs ->
  white b -> bare u -> xstop u -> exists l, f2n_scan (f2_enc (gf_m G)) t = Ok (Rejected l).
Proof.
move=> hs h0 hr hb hu he; rewrite /f2n_scan; eexists.
apply: (@sep_poly_no _ _ _ _ ":"%char ts1 (List.map (@gf_el G) [seq (map_poly (gf_emb G) r).[gf_z G] | r <- rs]) (b ++ u)%list ts2) => //; last by rewrite f2_in_no_bare.
elim: hr {hs} => [|w r l1 l2 h _ IH]; first by constructor.
by constructor=> //; exact: rd_f2.
Qed.
Lemma f2n_zero : (z <- pm_make (f2_of_int 0) (f2_enc (gf_m G)) ;; gp_const f2n_kops z) = Ok (enc 0).
Proof. by have [] := start_f2n G. Qed.
Lemma f2n_in_no iss g b t : white b -> bare t -> xstop t ->
  (if iss then f2n_iss (enc g) (open_text (b ++ t)%list) else f2n_is (enc g) (open_text (b ++ t)%list)) =
  Ok (Rejected (enc 0), mkis t (no_text t) true false).
Proof.
move=> h1 h2 h3; have K i : f2n_colons i (f2_enc (gf_m G)) (open_text (b ++ t)%list) = Ok (Rejected (enc 0), mkis t (no_text t) true false).
  have := f2n_zero; rewrite /f2n_colons; case: (pm_make _ _) => [z|||] //=; rewrite ?bind_ok => ez; rewrite ez bind_ok.
  by rewrite f2_in_no_bare.
case: iss.
  by rewrite /f2n_iss; have [a [l ->]] := g2_head g; rewrite [getk _ _]/= bind_ok; have [r [_ -> _]] := el_res a.
rewrite /f2n_is; have [a [l ->]] := g2_head g; rewrite [getk _ _]/= bind_ok.
have [r [_ -> _]] := el_res a; have [_ -> _ _] := PropF2Poly.C54_order (f2_encP (gf_m G)) (isP_int 10); rewrite bind_ok.
rewrite (_ : valN (f2_of_int 10) = 0%num) //.
by have /N.leb_nle -> : ~ (valN (f2_enc (gf_m G)) <= 0)%num by have := m_val G; lia.
Qed.
Lemma f2nq_junk iss (g h : {poly gf_L G}) b x t : white b -> ~ blank3 x -> ~ xd x ->
  f2nq_in iss (mkrat (enc g) (enc h)) (open_text (b ++ x :: t)%list) = Ok (qenc enc 0, mkis (x :: t) false false false).
Proof.
move=> hb hx hd; apply: (@frac_junk _ _ _ _ _ _ _ _ (enc 0) (enc 1)) => //.
- by move=> b' hb'; rewrite f2n_in_no //; exact: xstop_not.
- exact: PPolyText9.g2p1.
- by have [-> _] := C76_f2n_make (0 : {poly gf_L G}) 1; rewrite oner_eq0 frac1 rmorph0.
Qed.
End F2n.
(* the overload for std::istream *)
Section F2nIs.
Variable G : gf2.
Local Notation enc := (@PropF2nPoly.g2_enc G).
Local Notation qe := (qenc enc).
Local Notation get := (fun l s => x <- f2n_is l s ;; used x).
Definition cstop1 (rest : list ascii) : Prop := cstop rest /\ rest <> nil.
Local Notation ok0 := (fun l => exists g, l = enc g).
Lemma gets_f2n_is u f : f2n_bare u f -> gets get no_text cstop1 ok0 u (enc f).
Proof.
move=> [w [ts [q [qs [-> [hn hd hv] hts ->]]]]]; split; first exact: starts_xd.
move=> n0 b rest [g ->] hb [hr hr2]; rewrite -(List.app_assoc w) List.app_assoc.
have hw : f2_word (b ++ w)%list q by exists b, w; split.
by rewrite (f2n_is_ok g hw hts hr); case: (rest) hr2.
Qed.
Lemma f2nq_is_whole g h b u n rest : white b -> f2n_bare u n -> cstop rest -> rest <> nil -> match rest with x :: _ => x <> "/"%char | [::] => True end ->
  f2nq_in false (mkrat (enc g) (enc h)) (open_text (b ++ u ++ rest)%list) = Ok (qe n%:F, mkis rest false false false).
Proof.
move=> hb hu hr hn hx; rewrite /f2nq_in.
apply: (frac_whole _ _ _ no_text cstop1 ok0 erefl false (enc g) (enc h) b u (enc n) (enc 1) (qe n%:F) rest) => //; [by exists g|exact: gets_f2n_is|exact: g2p1|].
have [-> _] := C76_f2n_make n 1; by rewrite oner_eq0 frac1.
Qed.
Lemma f2nq_is_over g h b u n b2 w d rest : white b -> f2n_bare u n -> white b2 -> f2n_bare w d -> cstop rest -> rest <> nil ->
  f2nq_in false (mkrat (enc g) (enc h)) (open_text (b ++ u ++ "/"%char :: b2 ++ w ++ rest)%list) =
  if d == 0 then Exn else Ok (qe (n%:F / d%:F), mkis rest false false false).
Proof.
move=> hb hu hb2 hw hr hn; rewrite /f2nq_in.
rewrite (frac_over _ _ _ no_text cstop1 ok0 (fun _ => erefl) false (enc g) (enc h) b u (enc n) b2 w (enc d) rest) //; try by [exists g|exists h|exact: gets_f2n_is].
by rewrite /=; have [-> _] := C76_f2n_make n d; case: (d == 0) => //=; case: (rest) hn.
Qed.
(* at the end of the text the value is right, but the stream has failed *)
Lemma f2nq_is_end g h b u n b2 w d : white b -> f2n_bare u n -> white b2 -> f2n_bare w d -> d != 0 ->
  f2nq_in false (mkrat (enc g) (enc h)) (open_text (b ++ u ++ "/"%char :: b2 ++ w)%list) = Ok (qe (n%:F / d%:F), mkis nil true true false).
Proof.
move=> hb hu hb2 hw d0; rewrite /f2nq_in /frac_in.
have [hs hg] := gets_f2n_is hu; have hs' : starts (u ++ "/"%char :: b2 ++ w)%list by case: (u) hs.
have [b' [hb' ->]] := skips b _ hb hs'; rewrite hg //; last by exists g.
rewrite bind_ok /=.
have -> : MPolyText.drop1 (mkis ("/"%char :: b2 ++ w)%list false false false) = open_text (b2 ++ w)%list by [].
have [v [ts [q [qs [-> [hn hd hv] hts ed]]]]] := hw; rewrite List.app_assoc.
have hw' : f2_word (b2 ++ v)%list q by exists b2, v; split.
have := f2n_is_ok h hw' hts (rest := nil) (conj Logic.I Logic.I); rewrite List.app_nil_r => ->; rewrite bind_ok /= -ed.
by have [-> _] := C76_f2n_make n d; rewrite (negbTE d0) bind_ok.
Qed.
End F2nIs.
