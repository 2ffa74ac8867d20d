(* Rational functions as text. *)
From Verif Require Import Base MIntMath MIntmod MIntrat MMat MMatCli MF2Poly MPoly MPolymod MF2nPoly MFpnPoly MLinalg MRat MCyclo MTextIO MPolyText.
From Verif Require Import PIntMath PIntMath2 PIntmod PMatCli5 PTextIO3 PPolyText PF2Poly PF2Poly3 PPolyText6 PPolyText8.
From mathcomp Require Import all_ssreflect all_algebra fraction ssrZ zify.
From Verif Require Import PF2Poly2 PF2Poly4 PMat PFp PPoly PPoly2 PFpPoly PPolymod PF2n PRat PPolyText2 PPolyText3 PPolyText4 PPolyText5 PPolyText7.
From Verif Require PropF2Poly PropF2nPoly PropF2nPolymod.
From Verif Require Import PropFpPoly PropLinalg PropRat PList3.
Set Implicit Arguments.
Unset Strict Implicit.
Unset Printing Implicit Defensive.
Import GRing.Theory.
Delimit Scope Z_scope with coqZ.
Local Open Scope ring_scope.
Local Notation length := List.length.
Local Notation "p %:F" := (FracField.tofrac p).

Lemma blank_dc x : blank3 x -> dc x = false /\ ~ xd x.
Proof. by move=> [<-|[<-|[<-|[]]]]. Qed.
Lemma starts_dc u : u <> nil -> List.Forall (fun x => dc x = true) u -> starts u.
Proof. by case: u => [//|x u] _ h /blank_dc [e _]; inversion h; rewrite e in H1. Qed.
Lemma starts_xd u rest : u <> nil -> List.Forall xd u -> starts (u ++ rest)%list.
Proof. by case: u => [//|x u] _ h /blank_dc [_]; inversion h. Qed.
Lemma ends_slash r : ends ("/"%char :: r). Proof. by []. Qed.
Lemma xstop_slash r : xstop ("/"%char :: r). Proof. by []. Qed.
Lemma cstop_slash r : cstop ("/"%char :: r). Proof. by []. Qed.
Lemma frac1 (F : fieldType) (n : {poly F}) : n%:F / 1%:F = n%:F. Proof. by rewrite rmorph1 divr1. Qed.

(* ---------------------------------------------------------------- GF(p) *)
Section Fp.
Variable p : nat.
Hypothesis pp : prime p.
Hypothesis hP : (Z.of_nat p <= 46341)%coqZ.
Variable c : cache.
Hypothesis hc : cache_valid c.
Local Notation P := (Z.of_nat p).
Local Notation o := (im_kops c).
Local Notation enc := (@fp_enc p).
Local Notation qe := (qenc enc).
Local Notation get := (fun l s => x <- fp_in c l s ;; used x).
Let ok0 (l : list intmod) : Prop := exists g : {poly 'F_p}, l = enc g.
Definition fp_bare (u : list ascii) (f : {poly 'F_p}) : Prop := [/\ u <> nil, List.Forall (fun x => dc x = true) u & fp_text u f].
Lemma gets_fp u f : fp_bare u f -> gets get at_eof ends ok0 u (enc f).
Proof.
move=> [hn hd ht]; split; first exact: starts_dc.
move=> n0 b rest [g ->] hb hr; rewrite List.app_assoc.
have hw : fp_word (b ++ u)%list f by exists b, u; split.
by rewrite (fp_in_word pp hP hc g hw hr).
Qed.
Lemma gp1 f : gp_int o (enc f) 1 = Ok (enc 1).
Proof.
have [r [-> hr]] := int_ok (im_kspec pp hP hc) (PropFpPoly.encG pp f) (v := 1%coqZ) ltac:(by rewrite /INT_MIN /INT_MAX; lia).
by rewrite (PropFpPoly.Genc pp hP hc hr) -[int_of_Z 1]/(1%:Z) polyC1.
Qed.
Lemma fpq_whole iss g h b u n rest : white b -> fp_bare u n -> ends rest -> match rest with x :: _ => x <> "/"%char | [::] => True end ->
  fpq_in c iss (mkrat (enc g) (enc h)) (open_text (b ++ u ++ rest)%list) = Ok (qe n%:F, mkis rest (iss && at_eof rest) false false).
Proof.
move=> hb hu hr hx; rewrite /fpq_in.
apply: (frac_whole _ _ _ at_eof ends ok0 erefl iss (enc g) (enc h) b u (enc n) (enc 1) (qe n%:F) rest) => //; [by exists g|exact: gets_fp|exact: gp1|].
have [-> _] := C76_fp_make pp hP hc n 1; by rewrite oner_eq0 frac1.
Qed.
Lemma fpq_over iss g h b u n b2 w d rest : white b -> fp_bare u n -> white b2 -> fp_bare w d -> ends rest ->
  fpq_in c iss (mkrat (enc g) (enc h)) (open_text (b ++ u ++ "/"%char :: b2 ++ w ++ rest)%list) =
  if d == 0 then Exn else Ok (qe (n%:F / d%:F), mkis rest (at_eof rest) false false).
Proof.
move=> hb hu hb2 hw hr; rewrite /fpq_in.
rewrite (frac_over _ _ _ at_eof ends ok0 (fun _ => erefl) iss (enc g) (enc h) b u (enc n) b2 w (enc d) rest) //; try by [exists g|exists h|exact: gets_fp].
by have [-> _] := C76_fp_make pp hP hc n d; case: ifP.
Qed.
Lemma bare_put (f : {poly 'F_p}) : exists t, fp_put (enc f) = Ok t /\ fp_bare t f.
Proof. by have [t [et tn td tx]] := fp_put_text pp hP hc f; exists t. Qed.
Lemma start_fp : (z <- im_make 0 P ;; gp_const o z) = Ok (enc 0) /\ (z <- im_make 1 P ;; gp_const o z) = Ok (enc 1).
Proof.
have p1 := prime_gt1 pp; have hPi := P_int pp hP.
have H v : (0 <= v <= 1)%coqZ -> (z <- im_make v P ;; gp_const o z) = Ok (enc ((int_of_Z v)%:~R)%:P).
  move=> hv; rewrite im_make_int //; last by rewrite /INT_MIN /INT_MAX; lia.
  rewrite bind_ok; have hR : R (Vp p) (Ip p) (res_of p v) (izr p v) by exact: res_of_R.
  by have [r [-> hr]] := const_ok (im_kspec pp hP hc) hR; rewrite (PropFpPoly.Genc pp hP hc hr).
by rewrite !H // -[int_of_Z 1]/(1%:Z) -[int_of_Z 0]/(0%:Z) polyC0 polyC1.
Qed.
Theorem fpq_round (x : {fraction {poly 'F_p}}) : exists t, fpq_put c (qe x) = Ok t /\ fpq_scan c P t = Ok (Some (qe x)).
Proof.
have [d0 cp ex] := lowest x; rewrite /fpq_put /put_frac /=; have [tn [-> bn]] := bare_put (qnum x); rewrite bind_ok.
rewrite (eq1_ok (im_kspec pp hP hc) (PropFpPoly.encG pp _)) bind_ok.
have S t r : fpq_in c true (mkrat (enc 0) (enc 1)) (open_text t) = Ok (qe x, r) -> failed r = false -> fpq_scan c P t = Ok (Some (qe x)).
  move=> e hf; rewrite /fpq_scan; have [e0 e1] := start_fp.
  case: (im_make 0 P) e0 => [z| | |] //; rewrite !bind_ok => ->; rewrite bind_ok.
  case: (im_make 1 P) e1 => [z'| | |] //; rewrite !bind_ok => ->; rewrite bind_ok e bind_ok hf //.
case: eqP => h1.
  exists tn; split=> //; apply: (S _ (mkis nil true false false)) => //.
  have := fpq_whole true 0 1 (b := nil) (rest := nil) _ bn; rewrite List.app_nil_r => -> //.
  by congr (Ok (qe _, _)); rewrite [RHS]ex h1 frac1.
have [td [-> bd]] := bare_put (qden x); rewrite bind_ok; eexists; split=> //; apply: (S _ (mkis nil true false false)) => //.
have := fpq_over true 0 1 (b := nil) (b2 := nil) (rest := nil) _ bn _ bd; rewrite List.app_nil_r => -> //.
by rewrite (negbTE d0) -ex.
Qed.
End Fp.

(* ---------------------------------------------------------------- GF(2) *)
Section F2.
Local Notation qe := (qenc f2_enc).
Local Notation get := (fun (_ : fpoly) s => f2_in s).
Definition f2_bare (u : list ascii) (r : {poly 'F_2}) : Prop := [/\ u <> nil, List.Forall xd u & valN (f2_enc r) = hexs u].
Lemma gets_f2 u r : f2_bare u r -> gets get no_text xstop (fun _ => True) u (f2_enc r).
Proof.
move=> [hn hd ht]; split; first by rewrite -(List.app_nil_r u); exact: starts_xd.
move=> n0 b rest _ hb hr; rewrite List.app_assoc.
have hw : f2_word (b ++ u)%list r by exists b, u; split.
by rewrite (f2_in_word hw hr).
Qed.
Lemma f2q_whole iss a b u n rest : white b -> f2_bare u n -> xstop rest -> match rest with x :: _ => x <> "/"%char | [::] => True end ->
  f2q_in iss a (open_text (b ++ u ++ rest)%list) = Ok (qe n%:F, mkis rest (iss && no_text rest) false false).
Proof.
move=> hb hu hr hx; rewrite /f2q_in.
apply: (frac_whole _ _ _ no_text xstop (fun _ => True) erefl iss _ _ b u (f2_enc n) (f2_enc 1) (qe n%:F) rest) => //; [exact: gets_f2|by rewrite (f2_encE isP1)|].
by rewrite C48_make oner_eq0 frac1.
Qed.
Lemma f2q_over iss a b u n b2 w d rest : white b -> f2_bare u n -> white b2 -> f2_bare w d -> xstop rest ->
  f2q_in iss a (open_text (b ++ u ++ "/"%char :: b2 ++ w ++ rest)%list) =
  if d == 0 then Exn else Ok (qe (n%:F / d%:F), mkis rest (no_text rest) false false).
Proof.
move=> hb hu hb2 hw hr; rewrite /f2q_in.
rewrite (frac_over _ _ _ no_text xstop (fun _ => True) (fun _ => erefl) iss _ _ b u (f2_enc n) b2 w (f2_enc d) rest) //; try exact: gets_f2.
by rewrite C48_make; case: ifP.
Qed.
Lemma f2_bare_put f : exists t, f2_put (f2_enc f) = Ok t /\ f2_bare t f.
Proof.
have [[hw _] _] := f2_encP f; have [t [e [hn [hx hv]]]] := f2_put_ok _ hw; by exists t.
Qed.
Theorem f2q_round a (x : {fraction {poly 'F_2}}) : exists t, f2q_put (qe x) = Ok t /\ f2q_scan a t = Ok (Some (qe x)).
Proof.
have [d0 cp ex] := lowest x; rewrite /f2q_put /put_frac /=; have [tn [-> bn]] := f2_bare_put (qnum x); rewrite bind_ok.
rewrite (eq_1_P (encW _)) bind_ok.
case: eqP => h1.
  exists tn; split=> //; rewrite /f2q_scan.
  have := f2q_whole true a (b := nil) (rest := nil) _ bn; rewrite List.app_nil_r => -> //.
  by rewrite bind_ok /=; congr (Ok (Some (qe _))); rewrite [RHS]ex h1 frac1.
have [td [-> bd]] := f2_bare_put (qden x); rewrite bind_ok; eexists; split=> //; rewrite /f2q_scan.
have := f2q_over true a (b := nil) (b2 := nil) (rest := nil) _ bn _ bd; rewrite List.app_nil_r => -> //.
by rewrite (negbTE d0) bind_ok /= -ex.
Qed.
End F2.

(* ---------------------------------------------------------------- GF(2^n) *)
Section F2n.
Variable G : gf2.
Local Notation L := (gf_L G).
Local Notation m := (gf_m G).
Local Notation o := f2n_kops.
Local Notation enc := (@PropF2nPoly.g2_enc G).
Local Notation qe := (qenc enc).
Local Notation at_root r := ((map_poly (gf_emb G) r).[gf_z G]).
Local Notation get := (fun l s => x <- f2n_iss l s ;; used x).
Let sp := f2n_kspec (gf_irr G) (gf_root G) (gf_card G).
Let ok0 (l : list fpmod) : Prop := exists g : {poly L}, l = enc g.
(* words separated by colons, the first without blanks before it *)
Definition f2n_bare (u : list ascii) (f : {poly L}) : Prop :=
  exists w ts q qs, [/\ u = (w ++ tail_text ":"%char ts)%list, f2_bare w q, Forall2 f2_word ts qs &
    f = Poly (rev [seq at_root r | r <- q :: qs])].
Lemma gets_f2n u f : f2n_bare u f -> gets get no_text cstop ok0 u (enc f).
Proof.
move=> [w [ts [q [qs [-> [hn hd hv] hts ->]]]]]; split; first exact: starts_xd.
move=> n0 b rest [g ->] hb hr; rewrite -(List.app_assoc w) List.app_assoc.
have hw : f2_word (b ++ w)%list q by exists b, w; split.
by rewrite (f2n_iss_ok g hw hts hr).
Qed.
Lemma g2p1 f : gp_int o (enc f) 1 = Ok (enc 1).
Proof. by rewrite PropF2nPoly.t_int // -[int_of_Z 1]/(1%:Z) polyC1. Qed.
Lemma f2nq_whole g h b u n rest : white b -> f2n_bare u n -> cstop rest -> match rest with x :: _ => x <> "/"%char | [::] => True end ->
  f2nq_in true (mkrat (enc g) (enc h)) (open_text (b ++ u ++ rest)%list) = Ok (qe n%:F, mkis rest (no_text rest) false false).
Proof.
move=> hb hu hr hx; rewrite /f2nq_in.
apply: (frac_whole _ _ _ no_text cstop ok0 erefl true (enc g) (enc h) b u (enc n) (enc 1) (qe n%:F) rest) => //; [by exists g|exact: gets_f2n|exact: g2p1|].
have [-> _] := C76_f2n_make n 1; by rewrite oner_eq0 frac1.
Qed.
Lemma f2nq_over g h b u n b2 w d rest : white b -> f2n_bare u n -> white b2 -> f2n_bare w d -> cstop rest ->
  f2nq_in true (mkrat (enc g) (enc h)) (open_text (b ++ u ++ "/"%char :: b2 ++ w ++ rest)%list) =
  if d == 0 then Exn else Ok (qe (n%:F / d%:F), mkis rest (no_text rest) false false).
Proof.
move=> hb hu hb2 hw hr; rewrite /f2nq_in.
rewrite (frac_over _ _ _ no_text cstop ok0 (fun _ => erefl) true (enc g) (enc h) b u (enc n) b2 w (enc d) rest) //; try by [exists g|exists h|exact: gets_f2n].
by have [-> _] := C76_f2n_make n d; case: ifP.
Qed.
Lemma f2n_bare_put (f : {poly L}) : exists t, f2n_put (enc f) = Ok t /\ f2n_bare t f.
Proof.
rewrite /f2n_put; have [a [l ea]] := g2_head f; rewrite {1}ea [getk _ _]/= bind_ok.
have [r [_ -> _]] := el_res a; rewrite colon_eq bind_ok g2_rev.
have [b [s eb]] : exists b s, rev (cseq f) = b :: s.
  by have := cseq_ge1 f; rewrite -size_rev; case: (rev _) => [//|b s] _; exists b, s.
rewrite eb /=; have [q [er _ ea2]] := el_res b.
have [[hw _] _] := f2_encP q; have [t [e [hn [hx hv]]]] := f2_put_ok _ hw; rewrite er e bind_ok.
have [ts [rs [-> h2 h3 h4 h5]]] := put_f2s s; rewrite !bind_ok put_sep_tail; eexists; split=> //.
by exists t, ts, q, rs; split=> //; rewrite /= ea2 h5 -eb revK cseqP.
Qed.
Lemma start_f2n : (z <- pm_make (f2_of_int 0) (f2_enc m) ;; gp_const o z) = Ok (enc 0) /\
  (z <- pm_make (f2_of_int 1) (f2_enc m) ;; gp_const o z) = Ok (enc 1).
Proof.
rewrite (f2_encE isP0) (f2_encE isP1) !make_f2 !bind_ok; have [-> _] := PropF2nPoly.t_make (at_root 0) 0 0.
by have [-> _] := PropF2nPoly.t_make (at_root 1) 0 0; rewrite rmorph0 rmorph1 horner0 hornerC polyC0 polyC1.
Qed.
Theorem f2nq_round (x : {fraction {poly L}}) : exists t, f2nq_put (qe x) = Ok t /\ f2nq_scan (f2_enc m) t = Ok (Some (qe x)).
Proof.
have [d0 cp ex] := lowest x; rewrite /f2nq_put /put_frac /=; have [tn [-> bn]] := f2n_bare_put (qnum x); rewrite bind_ok.
rewrite (eq1_ok sp (PropF2nPoly.encG _)) bind_ok.
have S t r : f2nq_in true (mkrat (enc 0) (enc 1)) (open_text t) = Ok (qe x, r) -> failed r = false -> f2nq_scan (f2_enc m) t = Ok (Some (qe x)).
  move=> e hf; rewrite /f2nq_scan; have [e0 e1] := start_f2n.
  case: (pm_make (f2_of_int 0) _) e0 => [z| | |] //; rewrite !bind_ok => ->; rewrite bind_ok.
  case: (pm_make (f2_of_int 1) _) e1 => [z'| | |] //; rewrite !bind_ok => ->; rewrite bind_ok e bind_ok hf //.
case: eqP => h1.
  exists tn; split=> //; apply: (S _ (mkis nil true false false)) => //.
  have := f2nq_whole 0 1 (b := nil) (rest := nil) _ bn; rewrite List.app_nil_r => -> //.
  by congr (Ok (qe _, _)); rewrite [RHS]ex h1 frac1.
have [td [-> bd]] := f2n_bare_put (qden x); rewrite bind_ok; eexists; split=> //; apply: (S _ (mkis nil true false false)) => //.
have := f2nq_over 0 1 (b := nil) (b2 := nil) (rest := nil) _ bn _ bd; rewrite List.app_nil_r => -> //.
by rewrite (negbTE d0) -ex.
Qed.
End F2n.
