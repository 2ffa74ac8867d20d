(* Polynomials over GF(2^n) and residue classes of them as text. *)
From Verif Require Import Base MIntMath MIntmod MIntrat MMat MMatCli MF2Poly MPoly MPolymod MF2nPoly MFpnPoly MLinalg MRat MCyclo MTextIO MPolyText.
From Verif Require Import PIntMath PIntMath2 PIntmod PMatCli5 PTextIO3 PPolyText PF2Poly PF2Poly3 PPolyText6.
From mathcomp Require Import all_ssreflect all_algebra ssrZ zify.
From Verif Require Import PF2Poly2 PF2Poly4 PMat PFp PPoly PPolymod PF2n PPolyText2 PPolyText3 PPolyText4 PPolyText5 PropLinalg PList3.
From Verif Require PropF2Poly PropF2nPoly PropF2nPolymod.
Set Implicit Arguments.
Unset Strict Implicit.
Unset Printing Implicit Defensive.
Import GRing.Theory.
Delimit Scope Z_scope with coqZ.
Local Open Scope ring_scope.
Local Notation length := List.length.
Local Notation is_digit := MMatCli.is_digit.

(* blanks and the hexadecimal number of a polynomial over GF(2) *)
Definition f2_word (w : list ascii) (r : {poly 'F_2}) : Prop :=
  exists b h, [/\ w = (b ++ h)%list, white b, h <> nil, List.Forall xd h & valN (f2_enc r) = hexs h].

Lemma f2_in_word w r rest : f2_word w r -> xstop rest ->
  f2_in (open_text (w ++ rest)%list) = Ok (f2_enc r, mkis rest (no_text rest) false false).
Proof.
move=> [b [h [-> hb hn hh hv]]] hr; rewrite -List.app_assoc; have [l [-> [hc hl]]] := f2_in_ok _ _ _ hb hh hn hr.
by congr (Ok (_, _)); apply: (valN_inj _ _ hc (f2_encP r).1); rewrite hl hv.
Qed.
Lemma f2_put_word r : exists t, [/\ f2_put (f2_enc r) = Ok t, t <> nil, List.Forall xd t & f2_word t r].
Proof.
have [[hw _] _] := f2_encP r; have [t [e [hn [hx hv]]]] := f2_put_ok _ hw; exists t; split=> //.
by exists nil, t; split=> //; constructor.
Qed.
Lemma pad_zeros (K : ringType) k (s : seq K) : Poly (rev (nseq k 0 ++ s)) = Poly (rev s).
Proof.
apply/polyP=> i; rewrite !coef_Poly rev_cat nth_cat; case: ltnP => // hi; rewrite [RHS]nth_default //.
by rewrite rev_nseq nth_nseq; case: ifP.
Qed.
Section F2n.
Variable G : gf2.
Local Notation L := (gf_L G).
Local Notation m := (gf_m G).
Local Notation V := (Vg m).
Local Notation I := (@Ig L (gf_emb G) (gf_z G)).
Local Notation o := f2n_kops.
Local Notation enc := (@PropF2nPoly.g2_enc G).
Local Notation menc := (@PropF2nPolymod.g2_menc G).
Local Notation el := (@gf_el G).
Local Notation at_root r := ((map_poly (gf_emb G) r).[gf_z G]).
Let sp : kspec o V I kg := f2n_kspec (gf_irr G) (gf_root G) (gf_card G).
Let mnz : m != 0 := m_neq0 (gf_irr G).

Lemma el_f2 r : f2_menc m r = el (at_root r).
Proof.
apply: PropF2nPoly.Rel; have h : PF2Poly4.isM (f2_menc m r) (r %% m) m by split; [exact: f2_encP|split; [exact: f2_encP|rewrite ltn_modp]].
apply: (VgI h); exact: (ev_mod (gf_root G)).
Qed.
Lemma make_f2 r : pm_make (f2_enc r) (f2_enc m) = Ok (el (at_root r)).
Proof. by rewrite f2_store_ok // el_f2. Qed.
Lemma el_res a : exists r : {poly 'F_2}, [/\ pm_res (el a) = f2_enc r, pm_mod (el a) = f2_enc m & at_root r = a].
Proof.
have [r [h1 [h2 _]] e] := gf_elP a; exists r; split=> //; exact: f2_encE.
Qed.
Lemma g2_head f : exists a l, enc f = el a :: l.
Proof. rewrite /PropF2nPoly.g2_enc -/(cseq f); have := cseq_ge1 f; case: (cseq f) => [//|a s] _; by exists a, (map el s). Qed.
Lemma g2_rev f : List.rev (enc f) = List.map el (rev (cseq f)).
Proof. by rewrite revE /PropF2nPoly.g2_enc -/(cseq f) -map_rev. Qed.
Lemma rd_f2 w r : f2_word w r -> ('(x, s) <- f2_in (open_text w) ;;
    if failed s then Ok None else y <- pm_make x (f2_enc m) ;; Ok (Some y)) = Ok (Some (el (at_root r))).
Proof.
by move=> hw; have := f2_in_word hw (rest := nil) Logic.I; rewrite List.app_nil_r => ->; rewrite bind_ok /= make_f2.
Qed.
Lemma g2_recompute (s : seq L) : s <> nil -> gp_recompute o (List.rev (List.map el s)) = Ok (enc (Poly (rev s))).
Proof.
move=> vn; have [|r [-> hr]] := recompute_ok sp (l := List.rev (List.map el s)) (p := Poly (rev s)).
  exists (rev s); split; last by split=> //; rewrite size_rev; case: (s) vn.
  apply: F2_rev; elim: (s) => [|v l IH] /=; constructor => //; exact: PropF2nPoly.elR.
by rewrite (PropF2nPoly.Genc hr).
Qed.
Lemma f2n_scan_ok t ts rs : spread ":"%char ts t -> ~ List.In "000"%char t -> ts <> nil -> Forall2 f2_word ts rs ->
  f2n_scan (f2_enc m) t = Ok (Read (enc (Poly (rev [seq at_root r | r <- rs])))).
Proof.
move=> hs h0 hn hr; rewrite /f2n_scan (@sep_poly_ok _ _ _ _ ":"%char ts t (List.map el [seq at_root r | r <- rs])) //; last first.
  elim: hr {hs hn} => [|w r ts' rs' hw _ IH]; constructor=> //; exact: rd_f2.
by rewrite g2_recompute // => e; move: hr hn; case: (rs) e => // _ h; inversion h.
Qed.
Lemma f2n_scan_freed t : List.Forall (eq ":"%char) t -> f2n_scan (f2_enc m) t = Ok Freed.
Proof. by move=> h; rewrite /f2n_scan sep_poly_freed. Qed.
(* ---- output ---- *)
Lemma put_f2s (s : seq L) : exists ts rs, [/\ mapM (fun a => f2_put (pm_res a)) (List.map el s) = Ok ts, Forall2 f2_word ts rs,
  List.Forall (word ":"%char) ts, List.Forall (List.Forall xd) ts & [seq at_root r | r <- rs] = s].
Proof.
elim: s => [|a s [ts [rs [e1 e2 e3 e4 e5]]]]; first by exists nil, nil; split; constructor.
have [r [er _ ea]] := el_res a; have [t [et tn tx tw]] := f2_put_word r.
have wt : word ":"%char t by split=> // /(proj1 (List.Forall_forall _ _) tx) /xd_not [].
exists (t :: ts), (r :: rs); split=> /=; [|by constructor|by constructor|by constructor|by rewrite ea e5].
by rewrite er et bind_ok e1 bind_ok.
Qed.
Lemma xd_ok sep ts : List.Forall (fun x => x <> "000"%char) sep -> List.Forall (List.Forall xd) ts -> ~ List.In "000"%char (put_sep sep ts).
Proof.
move=> h1 h2; have h : List.Forall (fun x => x <> "000"%char) (put_sep sep ts).
  apply: put_sep_all => //.
  by apply: List.Forall_impl h2 => w; apply: List.Forall_impl => x /xd_not [_ []].
by move=> /(proj1 (List.Forall_forall _ _) h).
Qed.
(* 9 as a polynomial is 1: every modulus is greater *)
Lemma m_val : (1 < valN (f2_enc m))%num.
Proof.
case: (N.lt_ge_cases 1 (valN (f2_enc m))) => // h; have [_ h2] := valN_lt 1 (f2_encP m).
have [hs _] := gf_irr G; have : (size m <= 1)%N by apply: h2; change (2 ^ N.of_nat 1)%num with 2%num; lia.
by rewrite leqNgt hs.
Qed.
Lemma colon_eq : colon (f2_enc m) = Ok [:: ":"%char].
Proof.
rewrite /colon; have [_ _ -> _] := PropF2Poly.C54_order (f2_encP m) (isP_int 9); rewrite bind_ok.
by rewrite (_ : valN (f2_of_int 9) = 1%num) //; have /N.ltb_lt -> := m_val.
Qed.
Lemma nseq_words k ts rs : Forall2 f2_word ts rs -> List.Forall (word ":"%char) ts -> List.Forall (List.Forall xd) ts ->
  [/\ Forall2 f2_word (List.repeat [:: "0"%char] k ++ ts)%list (nseq k 0 ++ rs), List.Forall (word ":"%char) (List.repeat [:: "0"%char] k ++ ts)%list &
      List.Forall (List.Forall xd) (List.repeat [:: "0"%char] k ++ ts)%list].
Proof.
move=> h1 h2 h3; have [z1 z2] := zero_xd.
elim: k => [//|k [i1 i2 i3]]; split; constructor=> //; last by split=> // -[].
exists nil, [:: "0"%char]; split=> //; by rewrite z2 -(f2_encE isP0).
Qed.
Lemma f2nm_round (d f : {poly L}) :
  exists t, f2nm_put (menc d f) = Ok t /\ f2n_scan (f2_enc m) t = Ok (Read (enc (f %% d))).
Proof.
rewrite /f2nm_put /=; have [a [l ea]] := g2_head (f %% d); rewrite {1}ea [getk _ _]/= bind_ok.
have [r [_ -> _]] := el_res a; rewrite colon_eq bind_ok.
rewrite g2_rev; have [ts [rs [-> h2 h3 h4 h5]]] := put_f2s (rev (cseq (f %% d))).
rewrite bind_ok /pad; set k := (_ - _)%coq_nat; eexists; split=> //.
have [h2' h3' h4'] := nseq_words k h2 h3 h4.
rewrite (f2n_scan_ok (put_sep_spread _ _ h3') _ _ h2'); [|by apply: xd_ok => //; constructor|].
  by rewrite map_cat map_nseq rmorph0 horner0 h5 pad_zeros revK cseqP.
move=> /List.app_eq_nil [_ e]; move: h2 h5; rewrite e => h; inversion h as [e'|]; subst rs => /esym /(congr1 size); rewrite size_rev => e2.
by have := cseq_ge1 (f %% d); rewrite e2.
Qed.
Lemma f2n_round f : exists t, f2n_put (enc f) = Ok t /\ f2n_scan (f2_enc m) t = Ok (Read (enc f)).
Proof.
rewrite /f2n_put; have [a [l ea]] := g2_head f; rewrite {1}ea [getk _ _]/= bind_ok.
have [r [_ -> _]] := el_res a; rewrite colon_eq bind_ok.
rewrite g2_rev; have [ts [rs [-> h2 h3 h4 h5]]] := put_f2s (rev (cseq f)); rewrite bind_ok; eexists; split=> //.
rewrite (f2n_scan_ok (put_sep_spread _ _ h3) _ _ h2); [|by apply: xd_ok => //; constructor|].
  by rewrite h5 revK cseqP.
move=> e; move: h2 h5; rewrite e => h; inversion h as [e'|]; subst rs => /esym /(congr1 size); rewrite size_rev => e2.
by have := cseq_ge1 f; rewrite e2.
Qed.
(* ---- streams ---- *)
Definition cstop (rest : list ascii) : Prop := xstop rest /\ match rest with x :: _ => x <> ":"%char | [::] => True end.
Lemma tail_xstop ts rest : cstop rest -> xstop (tail_text ":"%char ts ++ rest)%list.
Proof. by case: ts => [|w ts] /= []. Qed.
(* the stream after the polynomial; the other overload looks for a colon even at the end of the text *)
Definition after (iss : bool) (rest : list ascii) : istr :=
  if iss || negb (no_text rest) then mkis rest (no_text rest) false false else mkis nil true true false.
Lemma g2_promote_add (s : seq L) a : s <> nil ->
  gp_promote_and_add o (List.rev (List.map el s)) (el a) = Ok (List.rev (List.map el (s ++ [:: a]))%list).
Proof.
move=> hn; rewrite List.map_app List.rev_app_distr /=.
have [x [l' e]] : exists x l', s = (l' ++ [:: x])%list by case: (List.exists_last hn) => l [x e]; exists x, l.
rewrite e List.map_app List.rev_app_distr /= /gp_promote_and_add /gp_promote /=.
by have [z [ez _]] := R_sub (ks_c sp) (PropF2nPoly.elR x) (PropF2nPoly.elR x); rewrite /= in ez; rewrite ez.
Qed.
Lemma f2n_more_ok iss ts qs rest : Forall2 f2_word ts qs -> cstop rest ->
  forall fuel (s : seq L), s <> nil -> (length (tail_text ":"%char ts ++ rest)%list < fuel)%N ->
  f2n_more iss fuel (f2_enc m) (List.rev (List.map el s))
    (mkis (tail_text ":"%char ts ++ rest)%list (no_text (tail_text ":"%char ts ++ rest)%list) false false) =
  Ok (Read (enc (Poly (rev (s ++ [seq at_root q | q <- qs])%list))), after iss rest).
Proof.
move=> h hr; elim: h => [|w q ts' qs' hw hts IH] [//|fuel] s hn hf.
  rewrite /= List.app_nil_r; case: rest hr {hf} => [|x rest] [_ hx] /=.
    by rewrite andbT /after orbF; case: iss => /=; rewrite g2_recompute // bind_ok.
  have nx : (x =? ":")%char = false by case e: (x =? ":")%char => //; move/Ascii.eqb_eq: e.
  by rewrite andbF /peek /= nx g2_recompute // bind_ok /after orbT.
cbn [tail_text app f2n_more i_eof no_text]; rewrite andbF /peek /=.
rewrite -[MPolyText.drop1 _]/(open_text ((w ++ tail_text ":"%char ts') ++ rest)%list) -List.app_assoc.
rewrite (f2_in_word hw (tail_xstop ts' hr)) bind_ok /= make_f2 bind_ok g2_promote_add // bind_ok IH.
- by rewrite -List.app_assoc.
- by move=> /List.app_eq_nil [].
move: hf; rewrite /= !List.app_length; lia.
Qed.
Lemma f2n_colons_ok iss w ts q qs rest : f2_word w q -> Forall2 f2_word ts qs -> cstop rest ->
  f2n_colons iss (f2_enc m) (open_text (w ++ tail_text ":"%char ts ++ rest)%list) =
  Ok (Read (enc (Poly (rev [seq at_root r | r <- q :: qs]))), after iss rest).
Proof.
move=> hw hts hr; rewrite /f2n_colons (f2_encE isP0) make_f2 bind_ok; have [-> _] := PropF2nPoly.t_make (at_root 0) 0 0; rewrite bind_ok.
rewrite (f2_in_word hw (tail_xstop ts hr)) bind_ok; cbn [failed i_fail i_bad orb]; rewrite make_f2 bind_ok.
by have := f2n_more_ok iss hts hr (fuel := S (length (tail_text ":"%char ts ++ rest)%list)) (s := [:: at_root q]); apply.
Qed.
Lemma f2n_iss_ok g w ts q qs rest : f2_word w q -> Forall2 f2_word ts qs -> cstop rest ->
  f2n_iss (enc g) (open_text (w ++ tail_text ":"%char ts ++ rest)%list) =
  Ok (Read (enc (Poly (rev [seq at_root r | r <- q :: qs]))), mkis rest (no_text rest) false false).
Proof.
move=> hw hts hr; rewrite /f2n_iss; have [a [l ->]] := g2_head g; rewrite [getk _ _]/= bind_ok.
by have [r [_ -> _]] := el_res a; rewrite (f2n_colons_ok _ hw hts hr).
Qed.
Lemma f2n_is_ok g w ts q qs rest : f2_word w q -> Forall2 f2_word ts qs -> cstop rest ->
  f2n_is (enc g) (open_text (w ++ tail_text ":"%char ts ++ rest)%list) =
  Ok (Read (enc (Poly (rev [seq at_root r | r <- q :: qs]))), after false rest).
Proof.
move=> hw hts hr; rewrite /f2n_is; have [a [l ->]] := g2_head g; rewrite [getk _ _]/= bind_ok.
have [r [_ -> _]] := el_res a; have [_ -> _ _] := PropF2Poly.C54_order (f2_encP m) (isP_int 10); rewrite bind_ok.
rewrite (_ : valN (f2_of_int 10) = 0%num) //; have /N.leb_nle -> : ~ (valN (f2_enc m) <= 0)%num by have := m_val; lia.
by rewrite (f2n_colons_ok _ hw hts hr).
Qed.
Lemma f2nm_scan_ok (d : {poly L}) t f : d != 0 -> f2n_scan (f2_enc m) t = Ok (Read (enc f)) -> f2nm_scan t (enc d) = Ok (Some (menc d f)).
Proof.
move=> d0 e; rewrite /f2nm_scan; have [a [l ea]] := g2_head d; rewrite {1}ea [getk _ _]/= bind_ok.
by have [r [_ -> _]] := el_res a; rewrite e bind_ok /= (PropF2nPolymod.q_make d0).
Qed.
End F2n.
