(* Polynomials over GF(p^n) in streams, and residue classes of them as text. *)
From Verif Require Import Base MIntMath MIntmod MIntrat MMat MMatCli MF2Poly MPoly MPolymod MF2nPoly MFpnPoly MLinalg MRat MCyclo MTextIO MPolyText.
From Verif Require Import PIntMath PIntMath2 PIntmod PMatCli5 PTextIO3 PPolyText.
From mathcomp Require Import all_ssreflect all_algebra ssrZ zify.
From Verif Require Import PMat PFp PPoly PFpPoly PPolymod PFpn PropFpPoly PropFpPolymod PPolyText2 PPolyText3 PPolyText4.
From Verif Require PropFpnPoly PropFpnPolymod.
Set Implicit Arguments.
Unset Strict Implicit.
Unset Printing Implicit Defensive.
Import GRing.Theory.
Delimit Scope Z_scope with coqZ.
Local Open Scope ring_scope.
Local Notation length := List.length.
Local Notation has := MPolyText.has.

(* the words after the first one, each after a separator *)
Fixpoint tail_text (sep : ascii) (ts : list (list ascii)) : list ascii :=
  match ts with [::] => nil | w :: ts => sep :: (w ++ tail_text sep ts)%list end.
Lemma put_sep_tail sep w ts : put_sep [:: sep] (w :: ts) = (w ++ tail_text sep ts)%list.
Proof.
elim: ts w => [|w' ts IH] w; first by rewrite /= List.app_nil_r.
by rewrite -[LHS]/(w ++ sep :: put_sep [:: sep] (w' :: ts))%list IH.
Qed.
(* what may follow a polynomial *)
Definition stop (rest : list ascii) : Prop := match rest with [::] => True | x :: _ => dc x = false /\ x <> ":"%char end.
Lemma stop_ends rest : stop rest -> ends rest. Proof. by case: rest => [|x r] //= []. Qed.

Section Fpn.
Variable p : nat.
Hypothesis pp : prime p.
Hypothesis hP : (Z.of_nat p <= 46341)%coqZ.
Variable c : cache.
Hypothesis hc : cache_valid c.
Variable G : gfq p.
Local Notation P := (Z.of_nat p).
Local Notation L := (gq_L G).
Local Notation m := (gq_m G).
Local Notation V := (Vq m).
Local Notation I := (@Iq p L (gq_emb G) (gq_z G)).
Local Notation oi := (im_kops c).
Local Notation o := (fpn_kops c).
Local Notation o' := (fpn_kops' c).
Local Notation enc := (@PropFpnPoly.gq_enc p G).
Local Notation menc := (@PropFpnPolymod.gq_menc p G).
Local Notation el := (@gq_el p G).
Local Notation at_root r := ((map_poly (gq_emb G) r).[gq_z G]).
Let sp : kspec o' V I (kq p) := fpn_kspec pp hP hc (gq_irr G) (gq_root G) (gq_card G).
Let mnz := m_neq0 (gq_irr G).

Lemma tail_ends ts rest : stop rest -> ends (tail_text ":"%char ts ++ rest)%list.
Proof. by case: ts => [|w ts] /=; [exact: stop_ends|]. Qed.
Lemma promote_add (rs : list {poly 'F_p}) r : rs <> nil ->
  gp_promote_and_add o (List.rev (List.map (fp_menc m) rs)) (fp_menc m r) = Ok (List.rev (List.map (fp_menc m) (rs ++ [:: r]))%list).
Proof.
move=> hn; rewrite List.map_app List.rev_app_distr /=.
have [x [l [e hx]]] : exists x l, List.rev (List.map (fp_menc m) rs) = x :: l /\ exists a, R V I x a.
  have [x [l' e]] : exists x l', rs = (l' ++ [:: x])%list by case: (List.exists_last hn) => l [x e]; exists x, l.
  rewrite e List.map_app List.rev_app_distr /=; eexists; eexists; split=> //; eexists; exact: menc_R.
case: hx => a hx; rewrite e /gp_promote_and_add /gp_promote /=.
by have [z [ez _]] := R_sub (ks_c sp) hx hx; rewrite /= in ez; rewrite ez.
Qed.
Lemma fpn_more_ok ts qs rest : Forall2 (@fp_word p) ts qs -> stop rest ->
  forall fuel (r : {poly 'F_p}) rs, rs <> nil -> (length (tail_text ":"%char ts ++ rest)%list < fuel)%N ->
  fpn_more c fuel (fp_enc m) (fp_enc r) (List.rev (List.map (fp_menc m) rs))
    (mkis (tail_text ":"%char ts ++ rest)%list (at_eof (tail_text ":"%char ts ++ rest)%list) false false) =
  Ok (Read (enc (Poly (rev [seq at_root q | q <- (rs ++ qs)%list]))), mkis rest (at_eof rest) false false).
Proof.
move=> h hr; elim: h => [|w q ts' qs' hw hts IH] [//|fuel] r rs hn hf.
  rewrite List.app_nil_r; cbn [tail_text app fpn_more i_eof].
  have hE s x : is_char ":" x = false -> s = mkis rest (at_eof rest) false false ->
    (let '(x0, s0) := (x, s) in if is_char ":" x0 then UB else l0 <- gp_recompute o (List.rev (List.map (fp_menc m) rs));; Ok (Read l0, s0)) =
    Ok (Read (enc (Poly (rev [seq at_root q | q <- rs]))), mkis rest (at_eof rest) false false).
    by move=> /= -> ->; rewrite (recompute_els pp hP hc) // bind_ok.
  case E: (at_eof rest).
    by have := hE (mkis rest true false false) None; rewrite E /= => /(_ erefl erefl).
  case: rest hr E hE {hf} => [|x rest] //= [_ hx] E hE.
  rewrite /peek /=; have nx : (x =? ":")%char = false by case e: (x =? ":")%char => //; move/Ascii.eqb_eq: e.
  by have := hE (mkis (x :: rest) false false false) (Some x); rewrite E /= nx => /(_ erefl erefl).
cbn [tail_text app fpn_more i_eof at_eof]; rewrite /peek /=.
rewrite -[MPolyText.drop1 _]/(open_text ((w ++ tail_text ":"%char ts') ++ rest)%list) -List.app_assoc.
rewrite (fp_in_word pp hP hc r hw (tail_ends ts' hr)) bind_ok /= (make_el pp hP hc) bind_ok promote_add // bind_ok IH.
- by rewrite -List.app_assoc.
- by move=> /List.app_eq_nil [].
move: hf; rewrite /= !List.app_length; lia.
Qed.
Lemma gq_head f : exists a l, enc f = el a :: l.
Proof. rewrite /PropFpnPoly.gq_enc -/(cseq f); have := cseq_ge1 f; case: (cseq f) => [//|a s] _; by exists a, (map el s). Qed.
Lemma fpn_in_ok g w ts q qs rest : fp_word w q -> Forall2 (@fp_word p) ts qs -> stop rest ->
  fpn_in c (enc g) (open_text (w ++ tail_text ":"%char ts ++ rest)%list) =
  Ok (Read (enc (Poly (rev [seq at_root r | r <- q :: qs]))), mkis rest (at_eof rest) false false).
Proof.
move=> hw hts hr; rewrite /fpn_in; have [a [l ->]] := gq_head g; rewrite [getk _ _]/= bind_ok.
have [r [er _ _]] := el_menc a; rewrite er.
have [-> _] := C35_int (conj pp (conj hP hc)) mnz r (v := 0%coqZ) ltac:(by rewrite /INT_MIN /INT_MAX; lia).
have [x [ex _]] := const_ok sp (@menc_R p pp G ((int_of_Z 0)%:~R)%:P).
rewrite bind_ok -[gp_const o _]/(gp_const o' _) ex bind_ok.
rewrite (fp_in_word pp hP hc m hw (tail_ends ts hr)) bind_ok /= (make_el pp hP hc) bind_ok.
by have := fpn_more_ok hts hr q (fuel := S (length (tail_text ":"%char ts ++ rest)%list)) (rs := [:: q]); apply.
Qed.
(* ---- residue classes ---- *)
Lemma zero_word : fp_word [:: "0"%char] (0 : {poly 'F_p}).
Proof.
exists nil, [:: "0"%char]; split; [by []|by constructor|by []|by do 2?constructor|].
have -> : (0 : {poly 'F_p}) = Poly (rev [seq izr p v | v <- [:: 0%coqZ]]) by rewrite /= cons_poly_def mul0r add0r polyC0.
have <- : vtext p [:: 0%coqZ] = [:: "0"%char] by rewrite /vtext /comma; case: ifP.
apply: (vtext_text pp hP hc) => //; constructor => //; have := prime_gt1 pp; lia.
Qed.
Lemma pad_Poly k (s : seq L) : Poly (rev (nseq k 0 ++ s)) = Poly (rev s).
Proof.
apply/polyP=> i; rewrite !coef_Poly rev_cat nth_cat; case: ltnP => // hi; rewrite [RHS]nth_default //.
by rewrite rev_nseq nth_nseq; case: ifP.
Qed.
Lemma fpnm_round (d f : {poly L}) : exists t, fpnm_put (menc d f) = Ok t /\ fpn_scan c (fp_enc m) t = Ok (Read (enc (f %% d))).
Proof.
rewrite /fpnm_put /= enc_rev; have [ts [rs [-> h2 h3 h4 h5]]] := put_els pp hP hc (rev (cseq (f %% d))).
rewrite bind_ok /pad; set k := (_ - _)%coq_nat; eexists; split=> //.
have [h2' h3' h4'] : [/\ Forall2 (@fp_word p) (List.repeat [:: "0"%char] k ++ ts)%list (nseq k 0 ++ rs),
    List.Forall (word ":"%char) (List.repeat [:: "0"%char] k ++ ts)%list &
    List.Forall (List.Forall (fun x => dc x = true)) (List.repeat [:: "0"%char] k ++ ts)%list].
  elim: k => [//|k [i1 i2 i3]]; split; constructor=> //; [exact: zero_word|split=> // -[]//|by constructor].
rewrite (fpn_scan_ok pp hP hc G (put_sep_spread _ _ h3') _ _ h2'); [|exact: words_ok|].
  by rewrite map_cat map_nseq rmorph0 horner0 h5 pad_Poly revK cseqP.
move=> /List.app_eq_nil [_ e]; move: h2 h5; rewrite e => h; inversion h as [e'|]; subst rs => /esym /(congr1 size); rewrite size_rev => e2.
by have := cseq_ge1 (f %% d); rewrite e2.
Qed.
Lemma fpnm_scan_ok (d : {poly L}) t f : d != 0 -> fpn_scan c (fp_enc m) t = Ok (Read (enc f)) -> fpnm_scan c t (enc d) = Ok (Some (menc d f)).
Proof.
move=> d0 e; rewrite /fpnm_scan; have [a [l ea]] := gq_head d; rewrite {1}ea [getk _ _]/= bind_ok.
by have [r [-> _ _]] := el_menc a; rewrite e bind_ok /= (PropFpnPolymod.q_make pp hP hc d0).
Qed.
End Fpn.
