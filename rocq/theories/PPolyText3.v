(* Polynomials over F_p and residue classes of them: what is printed is read. *)
From Verif Require Import Base MIntMath MIntmod MIntrat MMat MMatCli MF2Poly MPoly MPolymod MF2nPoly MFpnPoly MLinalg MRat MCyclo MTextIO MPolyText.
From Verif Require Import PIntMath PIntMath2 PIntmod PMatCli5 PTextIO3 PPolyText.
From mathcomp Require Import all_ssreflect all_algebra ssrZ zify.
From Verif Require Import PMat PFp PPoly PFpPoly PropFpPoly PropFpPolymod PPolyText2.
Set Implicit Arguments.
Unset Strict Implicit.
Unset Printing Implicit Defensive.
Import GRing.Theory.
Delimit Scope Z_scope with coqZ.
Local Open Scope ring_scope.
Local Notation length := List.length.
Local Notation has := MPolyText.has.

Lemma put_sep_nil ts : put_sep nil ts = List.concat ts.
Proof.
elim: ts => [//|w [|w' ts] IH]; first by rewrite /= List.app_nil_r.
by rewrite -[put_sep _ _]/(w ++ put_sep nil (w' :: ts))%list IH.
Qed.
Lemma put_sep_all (P : ascii -> Prop) sep ts : List.Forall P sep -> List.Forall (List.Forall P) ts -> List.Forall P (put_sep sep ts).
Proof.
move=> hs; elim=> [|w ts' hw hts IH]; first by constructor.
case: ts' hts IH => [//|w' ts'] hts IH; rewrite -[put_sep _ _]/(w ++ sep ++ put_sep sep (w' :: ts'))%list.
by apply/List.Forall_app; split=> //; apply/List.Forall_app.
Qed.
Lemma put_sep_ne sep ts : ts <> nil -> List.Forall (fun w => w <> nil) ts -> put_sep sep ts <> nil.
Proof. by move=> hn h; case: h hn => [//|w ts' hw _] _; case: ts' => [//|w' ts']; case: w hw. Qed.
Lemma put_sep_has sep ts : (1 < size ts)%N -> List.In sep (put_sep [:: sep] ts).
Proof. by case: ts => [//|w [//|w' ts]] _; rewrite -[put_sep _ _]/(w ++ sep :: put_sep [:: sep] (w' :: ts))%list; apply/List.in_app_iff; right; left. Qed.
Lemma put_digit v : (0 <= v < 10)%coqZ -> exists x, [/\ put_int v = [:: x], digit x & dig x = v].
Proof.
move=> h; have [d1 d2] := digit_chr v h; exists (ascii_of_nat (Z.to_nat (48 + v))); split=> //.
rewrite /put_int; have -> : Z.ltb v 0 = false by lia.
rewrite -[40%N]/(S 39) /digits; have -> : Z.ltb v 10 = true by lia.
by rewrite Z.mod_small.
Qed.

Section Fp.
Variable p : nat.
Hypothesis pp : prime p.
Hypothesis hP : (Z.of_nat p <= 46341)%coqZ.
Variable c : cache.
Hypothesis hc : cache_valid c.
Local Notation P := (Z.of_nat p).
Local Notation o := (im_kops c).
Local Notation enc := (@fp_enc p).
Local Notation izr := (@izr p).

Definition small (vs : list Z) := List.Forall (fun v => 0 <= v < P)%coqZ vs.
Definition vtext (vs : list Z) : list ascii := put_sep (comma P) (List.map put_int vs).
Lemma small_num vs : small vs -> Forall2 numeral (List.map put_int vs) vs.
Proof.
by elim=> [|v l hv _ IH]; constructor => //; apply: put_numeral; have := P_int pp hP; lia.
Qed.
Lemma num_words ts vs : Forall2 numeral ts vs -> List.Forall (fun w => [/\ word ","%char w, List.Forall (fun x => dc x = true) w, word ":"%char w & ~ List.In "000"%char w]) ts.
Proof. by elim=> [|w v l1 l2 h _ IH]; constructor => //; have [? [? [? ?]]] := numeral_word h. Qed.
Lemma vtext_ok vs : vs <> nil -> small vs ->
  [/\ vtext vs <> nil, List.Forall (fun x => dc x = true) (vtext vs)
    & fp_scan c P (vtext vs) = Ok (Read (enc (Poly (rev [seq izr v | v <- vs]))))].
Proof.
move=> vn hs; have hN := small_num hs; have hW := num_words hN.
have tn : List.map put_int vs <> nil by case: (vs) vn.
have ne : vtext vs <> nil by apply: put_sep_ne => //; apply: List.Forall_impl hW => w [[]].
have hd : List.Forall (fun x => dc x = true) (vtext vs).
  apply: put_sep_all; last by apply: List.Forall_impl hW => w [].
  by rewrite /comma; case: (Z.ltb 9 P); constructor.
split=> //; have h0 : ~ List.In "000"%char (vtext vs).
  by move=> /(proj1 (List.Forall_forall _ _) hd) /dc_not [_ [_ []]].
case: (Z_lt_le_dec 9 P) => h9.
  apply: (fp_scan_ok pp hP hc (ts := List.map put_int vs)) => //; last by right; lia.
    rewrite /vtext /comma; have -> : Z.ltb 9 P = true by lia.
    by apply: put_sep_spread; apply: List.Forall_impl hW => w [].
  by rewrite -[X in Forall2 _ _ X]List.map_id; apply: (F2_map hN); exact: numeral_int.
have [xs [e1 e2 e3]] : exists xs, [/\ vtext vs = xs, List.Forall digit xs & [seq dig x | x <- xs] = vs].
  rewrite /vtext /comma; have -> : Z.ltb 9 P = false by lia.
  rewrite put_sep_nil; eexists; split=> //.
    elim: hs {vn hN hW tn ne hd h0} => [|v l hv _ IH] /=; first by constructor.
    have [|x [-> hx _]] := @put_digit v; first lia.
    by constructor.
  elim: hs {vn hN hW tn ne hd h0} => [//|v l hv _ IH] /=.
  have [|x [-> _ hx]] := @put_digit v; first lia.
  by rewrite /= IH hx.
rewrite e1 (fp_scan_digits pp hP hc) //; last by lia.
  by rewrite -[in RHS]e3 -map_comp.
by rewrite -e1.
Qed.
Lemma enc_small f : small (List.map residue (List.rev (enc f))).
Proof.
rewrite /small revE -[List.map _ _]/[seq residue x | x <- rev (enc f)] map_rev -revE; apply: List.Forall_rev.
rewrite /enc; elim: (if _ then _ else _) => [|a s IH] /=; constructor => //.
by have := ltn_ord a; rewrite [X in (_ < X)%N]Fp_cast //; lia.
Qed.
Lemma enc_ne f : List.map residue (List.rev (enc f)) <> nil.
Proof.
move=> /(congr1 size); rewrite revE -[List.map _ _]/[seq residue x | x <- rev (enc f)] size_map size_rev /enc size_map.
by rewrite -/(cseq f) => e; have := cseq_ge1 f; rewrite e.
Qed.
Lemma enc_head f : exists x, getk (enc f) 0 = Ok x /\ modulus x = P.
Proof.
rewrite /enc -/(cseq f); have := cseq_ge1 f; case: (cseq f) => [//|a s] _.
by exists (mkim (Z.of_nat (a : nat)) P).
Qed.
Lemma fp_put_eq f : fp_put (enc f) = Ok (vtext (List.map residue (List.rev (enc f)))).
Proof. by rewrite /fp_put; have [x [-> e]] := enc_head f; rewrite bind_ok e /vtext List.map_map. Qed.
Lemma fp_round f : exists t, [/\ fp_put (enc f) = Ok t, t <> nil, List.Forall (fun x => dc x = true) t & fp_scan c P t = Ok (Read (enc f))].
Proof.
rewrite fp_put_eq; eexists; have [h1 h2 h3] := vtext_ok (@enc_ne f) (enc_small f).
by split=> //; rewrite h3 Poly_enc.
Qed.
Lemma fp_in_ok g b t rest x : List.Forall (fun x => List.In x [:: " "; "009"; "010"]%char) b -> t <> nil ->
  List.Forall (fun x => dc x = true) t -> ends rest -> fp_scan c P t = Ok x ->
  fp_in c (enc g) (open_text (b ++ t ++ rest)) = Ok (x, mkis rest (at_eof rest) (if x is Read _ then false else true) false).
Proof.
move=> hb hn ht hr e; rewrite /fp_in; have [y [-> em]] := enc_head g; rewrite bind_ok em dc_in_ok // e bind_ok.
by case: x {e}.
Qed.

(* residue classes *)
Lemma vals_zeros k f : Poly (rev [seq izr v | v <- List.repeat 0%coqZ k ++ List.map residue (List.rev (enc f))]%list) = f.
Proof.
rewrite -[RHS](Poly_enc f); set l := List.map residue _; rewrite map_cat rev_cat.
apply/polyP=> i; rewrite !coef_Poly nth_cat; case: ltnP => // hi; rewrite [RHS]nth_default //.
have -> : List.repeat 0%coqZ k = nseq k 0%coqZ by elim: (k) => //= n ->.
by rewrite map_nseq rev_nseq nth_nseq; case: ifP.
Qed.
Lemma zeros_small k vs : small vs -> small (List.repeat 0%coqZ k ++ vs)%list.
Proof.
move=> h; apply/List.Forall_app; split=> //; elim: k => [|k IH] /=; constructor => //.
by have := prime_gt1 pp; lia.
Qed.
Lemma fpm_put_eq m f : exists k, fpm_put (fp_menc m f) = Ok (vtext (List.repeat 0%coqZ k ++ List.map residue (List.rev (enc (f %% m))))%list).
Proof.
rewrite /fpm_put /fp_menc /=; have [x [-> e]] := enc_head (f %% m); rewrite bind_ok e /vtext /pad; exists (length (enc m) - 1 - length (enc (f %% m)))%coq_nat.
rewrite List.map_app List.map_map; congr (Ok (put_sep _ (_ ++ _)%list)).
by elim: (_ - _)%coq_nat => [//|n IH]; cbn [List.repeat List.map]; rewrite -IH.
Qed.
Lemma fpm_round m f : exists t, [/\ fpm_put (fp_menc m f) = Ok t, t <> nil, List.Forall (fun x => dc x = true) t & fp_scan c P t = Ok (Read (enc (f %% m)))].
Proof.
have [k ->] := fpm_put_eq m f; eexists; have hz := zeros_small k (enc_small (f %% m)).
have [|h1 h2 h3] := vtext_ok _ hz; first by move=> /List.app_eq_nil [_]; exact: enc_ne.
by split=> //; rewrite h3 vals_zeros.
Qed.
End Fp.
