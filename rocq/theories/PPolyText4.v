(* Polynomials over GF(p^n) and residue classes of them as text. *)
From Verif Require Import Base MIntMath MIntmod MIntrat MMat MMatCli MF2Poly MPoly MPolymod MF2nPoly MFpnPoly MLinalg MRat MCyclo MTextIO MPolyText.
From Verif Require Import PIntMath PIntMath2 PIntmod PMatCli5 PTextIO3 PPolyText.
From mathcomp Require Import all_ssreflect all_algebra ssrZ zify.
From Verif Require Import PMat PFp PPoly PFpPoly PPolymod PFpn PropFpPoly PropFpPolymod PPolyText2 PPolyText3.
From Verif Require PropFpnPoly PropFpnPolymod.
Set Implicit Arguments.
Unset Strict Implicit.
Unset Printing Implicit Defensive.
Import GRing.Theory.
Delimit Scope Z_scope with coqZ.
Local Open Scope ring_scope.
Local Notation length := List.length.
Local Notation has := MPolyText.has.

(* the text of a polynomial over F_p: integers separated by commas, or, for p < 10, a row of digits *)
Inductive fp_text (p : nat) : list ascii -> {poly 'F_p} -> Prop :=
| fp_text_list ts vs t : spread ","%char ts t -> ~ List.In "000"%char t -> ts <> nil -> Forall2 int_text ts vs ->
    List.In ","%char t \/ (10 <= Z.of_nat p)%coqZ -> fp_text t (Poly (rev [seq (int_of_Z v)%:~R | v <- vs]))
| fp_text_digits t : List.Forall digit t -> t <> nil -> (Z.of_nat p < 10)%coqZ ->
    fp_text t (Poly (rev [seq (int_of_Z (dig x))%:~R | x <- t])).
Definition white (b : list ascii) : Prop := List.Forall (fun x => List.In x [:: " "; "009"; "010"]%char) b.
(* such a text made of digits and commas only, after blanks *)
Definition fp_word (p : nat) (w : list ascii) (f : {poly 'F_p}) : Prop :=
  exists b u, [/\ w = (b ++ u)%list, white b, u <> nil, List.Forall (fun x => dc x = true) u & fp_text u f].

Section Fp.
Variable p : nat.
Hypothesis pp : prime p.
Hypothesis hP : (Z.of_nat p <= 46341)%coqZ.
Variable c : cache.
Hypothesis hc : cache_valid c.
Local Notation P := (Z.of_nat p).
Local Notation oi := (im_kops c).

Lemma fp_scan_text t (f : {poly 'F_p}) : fp_text t f -> fp_scan c P t = Ok (Read (fp_enc f)).
Proof.
case=> [ts vs u h1 h2 h3 h4 h5|u h1 h2 h3]; first exact: fp_scan_ok h1 h2 h3 h4 h5.
exact: fp_scan_digits.
Qed.
Lemma vtext_text vs : vs <> nil -> small p vs -> fp_text (vtext p vs) (Poly (rev [seq izr p v | v <- vs])).
Proof.
move=> vn hs; have hN := small_num pp hP hs; have hW := num_words hN.
have [ne hd _] := vtext_ok pp hP hc vn hs.
have tn : List.map put_int vs <> nil by case: (vs) vn.
have h0 : ~ List.In "000"%char (vtext p vs).
  by move=> /(proj1 (List.Forall_forall _ _) hd) /dc_not [_ [_ []]].
case: (Z_lt_le_dec 9 P) => h9.
  apply: (@fp_text_list p (List.map put_int vs)) => //; last by right; lia.
    rewrite /vtext /comma; have -> : Z.ltb 9 P = true by lia.
    by apply: put_sep_spread; apply: List.Forall_impl hW => w [].
  by rewrite -[X in Forall2 _ _ X]List.map_id; apply: (F2_map hN); exact: numeral_int.
have [xs [e1 e2 e3]] : exists xs, [/\ vtext p vs = xs, List.Forall digit xs & [seq dig x | x <- xs] = vs].
  rewrite /vtext /comma; have -> : Z.ltb 9 P = false by lia.
  rewrite put_sep_nil; eexists; split=> //.
    elim: hs {vn hN hW tn ne hd h0} => [|v l hv _ IH] /=; first by constructor.
    have [|x [-> hx _]] := @put_digit v; first lia.
    by constructor.
  elim: hs {vn hN hW tn ne hd h0} => [//|v l hv _ IH] /=.
  have [|x [-> _ hx]] := @put_digit v; first lia.
  by rewrite /= IH hx.
rewrite e1 -[in X in Poly X]e3 -map_comp; apply: fp_text_digits => //; last by lia.
by rewrite -e1.
Qed.
Lemma fp_put_text (f : {poly 'F_p}) : exists t, [/\ fp_put (fp_enc f) = Ok t, t <> nil, List.Forall (fun x => dc x = true) t & fp_text t f].
Proof.
rewrite fp_put_eq; eexists; have [h1 h2 _] := vtext_ok pp hP hc (@enc_ne p f) (enc_small pp f).
by split=> //; have := vtext_text (@enc_ne p f) (enc_small pp f); rewrite Poly_enc.
Qed.
(* reading a word *)
Lemma fp_in_word (g f : {poly 'F_p}) w rest : fp_word w f -> ends rest ->
  fp_in c (fp_enc g) (open_text (w ++ rest)) = Ok (Read (fp_enc f), mkis rest (at_eof rest) false false).
Proof.
move=> [b [u [-> hb hn hd /fp_scan_text e]]] hr; rewrite -[cat _ rest]/((b ++ u) ++ rest)%list -List.app_assoc.
by rewrite (fp_in_ok g hb hn hd hr e).
Qed.
End Fp.

Section Fpn.
Variable p : nat.
Hypothesis pp : prime p.
Hypothesis hP : (Z.of_nat p <= 46341)%coqZ.
Variable c : cache.
Hypothesis hc : cache_valid c.
Variable G : gfq p.
Local Notation P := (Z.of_nat p).
Local Notation L := (gq_L G).
Local Notation m := (gq_m G).
Local Notation V := (Vq m).
Local Notation I := (@Iq p L (gq_emb G) (gq_z G)).
Local Notation oi := (im_kops c).
Local Notation o := (fpn_kops c).
Local Notation o' := (fpn_kops' c).
Local Notation enc := (@PropFpnPoly.gq_enc p G).
Local Notation el := (@gq_el p G).
Local Notation at_root r := ((map_poly (gq_emb G) r).[gq_z G]).
Let sp : kspec o' V I (kq p) := fpn_kspec pp hP hc (gq_irr G) (gq_root G) (gq_card G).
Let mnz := m_neq0 (gq_irr G).

Lemma menc_R (r : {poly 'F_p}) : R V I (fp_menc m r) (at_root r).
Proof.
have h := PropFpPolymod.mencM pp r mnz; apply: (VqI h); exact: (ev_mod (gq_root G)).
Qed.
Lemma menc_el (r : {poly 'F_p}) : fp_menc m r = el (at_root r).
Proof. by have := menc_R r; exact: (PropFpnPoly.Rel pp hP hc). Qed.
Lemma make_el (r : {poly 'F_p}) : gm_make oi (fp_enc r) (fp_enc m) = Ok (fp_menc m r).
Proof. by have [] := C35_make (conj pp (conj hP hc)) r mnz. Qed.
Lemma rd_fpn w (r : {poly 'F_p}) : fp_word w r ->
  ('(x, s) <- fp_in c (fp_enc m) (open_text w) ;; x <- alive x ;;
    if failed s then Ok None else y <- gm_make oi x (fp_enc m) ;; Ok (Some y)) = Ok (Some (fp_menc m r)).
Proof.
move=> hw; have := fp_in_word pp hP hc m hw (rest := nil); rewrite cats0 => -> //.
by rewrite bind_ok /= make_el.
Qed.
Lemma recompute_els (rs : list {poly 'F_p}) : rs <> nil ->
  gp_recompute o (List.rev (List.map (fp_menc m) rs)) = Ok (enc (Poly (rev [seq at_root r | r <- rs]))).
Proof.
move=> vn; rewrite PropFpnPoly.same_recompute; have [|r [-> hr]] := recompute_ok sp (l := List.rev (List.map (fp_menc m) rs)) (p := Poly (rev [seq at_root r | r <- rs])).
  exists (rev [seq at_root r | r <- rs]); split; last first.
    by split=> //; rewrite size_rev size_map; case: (rs) vn.
  apply: F2_rev; elim: (rs) => [|v l IH] /=; constructor => //; exact: menc_R.
by rewrite (PropFpnPoly.Genc pp hP hc hr).
Qed.
Lemma fpn_scan_ok t ts rs : spread ":"%char ts t -> ~ List.In "000"%char t -> ts <> nil -> Forall2 (@fp_word p) ts rs ->
  fpn_scan c (fp_enc m) t = Ok (Read (enc (Poly (rev [seq at_root r | r <- rs])))).
Proof.
move=> hs h0 hn hr; rewrite /fpn_scan (@sep_poly_ok _ _ _ _ ":"%char ts t (List.map (fp_menc m) rs)) //; last first.
  by apply: (F2_map hr) => w r; exact: rd_fpn.
by rewrite recompute_els // => e; move: hr hn; rewrite e => h; inversion h.
Qed.
(* a coefficient consisting of commas only *)
Lemma fpn_scan_commas t ts1 rs w ts2 : spread ":"%char (ts1 ++ w :: ts2) t -> ~ List.In "000"%char t -> Forall2 (@fp_word p) ts1 rs ->
  w <> nil -> List.Forall (eq ","%char) w -> fpn_scan c (fp_enc m) t = UB.
Proof.
move=> hs h0 hr hn hw; rewrite /fpn_scan /sep_poly cstr_id // (spread_tokens _ _ _ hs).
set rd := (fun _ => _); have hub : rd w = UB.
  rewrite /rd; have hd : List.Forall (fun x => dc x = true) w by apply: List.Forall_impl hw => x <-.
  have ef : fp_scan c P w = Ok Freed by apply: fp_scan_freed => //; left.
  have := fp_in_ok (c := c) m (b := nil) (t := w) (rest := nil) (x := Freed) (List.Forall_nil _) hn hd Logic.I ef.
  by rewrite /= cats0 => ->.
have e l : fill fpn_dflt rd (ts1 ++ w :: ts2)%list l = UB.
  elim: hr l => [|u r l1 l2 h _ IH] l /=; first by rewrite hub.
  by rewrite {1}/rd (rd_fpn h) bind_ok IH.
by case: (ts1) e => [|u l] e; rewrite -[LHS]/(bind (fill _ _ _ _) _) (e nil).
Qed.
Lemma fpn_scan_freed t : List.Forall (eq ":"%char) t -> fpn_scan c (fp_enc m) t = Ok Freed.
Proof. by move=> h; apply: sep_poly_freed. Qed.

(* ---- printing ---- *)
Lemma el_menc a : exists r : {poly 'F_p}, [/\ el a = fp_menc m r, (size r < size m)%N & at_root r = a].
Proof.
have [r -> <-] := gq_elP a; exists (r %% m); split; last exact: (ev_mod (gq_root G)).
  by rewrite /fp_menc modp_mod.
by rewrite ltn_modp.
Qed.
Lemma put_els (s : seq L) : exists ts rs, [/\ mapM (fun a => fp_put (gm_res a)) (List.map el s) = Ok ts, Forall2 (@fp_word p) ts rs,
  List.Forall (word ":"%char) ts, List.Forall (List.Forall (fun x => dc x = true)) ts & [seq at_root r | r <- rs] = s].
Proof.
elim: s => [|a s [ts [rs [e1 e2 e3 e4 e5]]]]; first by exists nil, nil; split; constructor.
have [r [er hr ea]] := el_menc a; have [t [et tn td tx]] := fp_put_text pp hP hc (r %% m).
have wt : word ":"%char t by split=> // /(proj1 (List.Forall_forall _ _) td) /dc_not [_ [_ [_ []]]].
exists (t :: ts), (r %% m :: rs); split=> /=; [|constructor=> //|by constructor|by constructor|].
- by rewrite er /= et bind_ok e1 bind_ok.
- by exists nil, t; split=> //; constructor.
- by congr cons => //; rewrite -[RHS]ea; exact: (ev_mod (gq_root G)).
Qed.
Lemma words_ok ts : List.Forall (word ":"%char) ts -> List.Forall (List.Forall (fun x => dc x = true)) ts -> ~ List.In "000"%char (put_sep [:: ":"%char] ts).
Proof.
move=> h1 h2; have h : List.Forall (fun x => x <> "000"%char) (put_sep [:: ":"%char] ts).
  apply: put_sep_all; first by constructor.
  by apply: List.Forall_impl h2 => w; apply: List.Forall_impl => x /dc_not [_ [_ []]].
by move=> /(proj1 (List.Forall_forall _ _) h).
Qed.
Lemma enc_rev f : List.rev (enc f) = List.map el (rev (cseq f)).
Proof. by rewrite revE /PropFpnPoly.gq_enc -/(cseq f) -map_rev. Qed.
Lemma fpn_round f : exists t, fpn_put (enc f) = Ok t /\ fpn_scan c (fp_enc m) t = Ok (Read (enc f)).
Proof.
rewrite /fpn_put enc_rev; have [ts [rs [-> h2 h3 h4 h5]]] := put_els (rev (cseq f)); rewrite bind_ok; eexists; split=> //.
rewrite (fpn_scan_ok (put_sep_spread _ _ h3) _ _ h2); [|exact: words_ok|].
  by rewrite h5 revK cseqP.
move=> e; move: h2 h5; rewrite e => h; inversion h as [e'|]; subst rs => /esym /(congr1 size); rewrite size_rev => e2.
by have := cseq_ge1 f; rewrite e2.
Qed.
End Fpn.
