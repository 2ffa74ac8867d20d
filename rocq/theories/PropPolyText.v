(* Final theorems for the text forms of polynomials, residue classes of polynomials (C92), rational numbers and rational
   functions (C93): operator<<, the two overloads of operator>>, and from_string.

   fp_enc, gq_enc, g2_enc, f2_enc, fp_menc, ..., qenc are the objects of PropFpPoly.v, PropFpnPoly.v, PropF2nPoly.v,
   PropLinalg.v, PropFpPolymod.v, ..., PropRat.v.  Texts are described without reference to the code:
   - spread s ts t (PPolyText.v): t is the words ts with one or more s between them, any number before and after;
   - int_text w v: w is blanks, a sign or none, digits, and anything that does not start with a digit; v is the int;
   - fp_text t f (PPolyText4.v): such ints separated by commas, the coefficients of f from the highest degree down; or,
     for p < 10, a row of digits;
   - fp_word w f: blanks and such a text of digits and commas only; f2_word w r (PPolyText7.v): blanks and a hexadecimal
     number whose bits are the coefficients of r;
   - open_text t is a stream at the start of t; mkis rest eof fail bad is a stream before rest with its state.
   The result Read l of a reading function means success, Rejected failure (false or failbit), Freed an object left with
   a pointer to released memory. *)
From Verif Require Import Base MIntMath MIntmod MIntrat MMat MMatCli MF2Poly MPoly MPolymod MF2nPoly MFpnPoly MLinalg MRat MCyclo MTextIO MPolyText.
From Verif Require Import PIntMath PIntMath2 PIntmod PIntrat PMatCli5 PTextIO3 PPolyText PF2Poly PF2Poly3 PPolyText6 PPolyText8.
From mathcomp Require Import all_ssreflect all_algebra fraction ssrZ zify.
From Verif Require Import PF2Poly2 PF2Poly4 PMat PFp PPoly PPoly2 PFpPoly PPolymod PF2n PFpn PRat.
From Verif Require Import PPolyText2 PPolyText3 PPolyText4 PPolyText5 PPolyText7 PPolyText9 PPolyText10.
From Verif Require PropF2Poly PropF2nPoly PropF2nPolymod PropFpnPoly PropFpnPolymod.
From Verif Require Import PropFpPoly PropFpPolymod PropLinalg PropRat.
Set Implicit Arguments.
Unset Strict Implicit.
Unset Printing Implicit Defensive.
Import GRing.Theory.
Delimit Scope Z_scope with coqZ.
Local Open Scope ring_scope.
Local Notation "p %:F" := (FracField.tofrac p).
Local Notation frac := MIntrat.mkrat.

Definition no_slash (t : list ascii) : Prop := match t with x :: _ => x <> "/"%char | [::] => True end.

(* ================================================================ C92: GF(p) *)
Section Fp.
Variables (p : nat) (c : cache).
Local Notation P := (Z.of_nat p).
Definition ok : Prop := prime p /\ (P <= 46341)%coqZ /\ cache_valid c.
(* from_string *)
Theorem C92_fp_read : ok -> forall t (f : {poly 'F_p}), fp_text t f -> fp_scan c P t = Ok (Read (fp_enc f)).
Proof. move=> [pp [hP hc]] t f; exact: fp_scan_text. Qed.
(* a text has one meaning *)
Theorem C92_fp_meaning : ok -> forall t (f g : {poly 'F_p}), fp_text t f -> fp_text t g -> f = g.
Proof.
move=> [pp [hP hc]] t f g /(fp_scan_text pp hP hc) e /(fp_scan_text pp hP hc); rewrite e => -[e2].
by rewrite -(Poly_enc f) -(Poly_enc g) e2.
Qed.
Theorem C92_fp_reject : ok -> forall t ts1 vs w ts2, spread ","%char (ts1 ++ w :: ts2)%list t -> ~ List.In "000"%char t ->
  Forall2 int_text ts1 vs -> (forall v, ~ int_text w v) -> List.In ","%char t \/ (10 <= P)%coqZ ->
  exists l, fp_scan c P t = Ok (Rejected l).
Proof. move=> [pp [hP hc]]; exact: (fp_scan_no pp hP). Qed.
Theorem C92_fp_reject_digit : ok -> forall t, ~ List.In ","%char t -> (P < 10)%coqZ -> (exists x, List.In x t /\ ~ digit x) ->
  exists l, fp_scan c P t = Ok (Rejected l).
Proof. move=> [pp [hP hc]]; exact: (fp_scan_nondigit pp hP). Qed.
(* what is printed is a text of the polynomial, and is read back *)
Theorem C92_fp_print : ok -> forall f : {poly 'F_p}, exists t, [/\ fp_put (fp_enc f) = Ok t, fp_word t f & fp_text t f].
Proof.
move=> [pp [hP hc]] f; have [t [h1 h2 h3 h4]] := fp_put_text pp hP hc f; exists t; split=> //.
by exists nil, t; split=> //; constructor.
Qed.
Theorem C92_fp_round_trip : ok -> forall f : {poly 'F_p}, exists t, fp_put (fp_enc f) = Ok t /\ fp_scan c P t = Ok (Read (fp_enc f)).
Proof. by move=> [pp [hP hc]] f; have [t [h1 _ _ h2]] := fp_round pp hP hc f; exists t. Qed.
(* streams: the polynomial ends before the first character that is no digit or comma *)
Theorem C92_fp_stream : ok -> forall (g f : {poly 'F_p}) w rest, fp_word w f -> ends rest ->
  fp_in c (fp_enc g) (open_text (w ++ rest)%list) = Ok (Read (fp_enc f), mkis rest (at_eof rest) false false).
Proof. move=> [pp [hP hc]] g f w rest; exact: fp_in_word. Qed.
(* what does not start with a digit or comma is refused, the object is as before; bare t: t is empty or starts with no blank *)
Theorem C92_fp_stream_reject : ok -> forall (g : {poly 'F_p}) b t, white b -> bare t -> ends t ->
  fp_in c (fp_enc g) (open_text (b ++ t)%list) = Ok (Rejected (fp_enc g), mkis t (no_text t) true false).
Proof. move=> _ g b t; exact: fp_in_no. Qed.
(* residue classes *)
Theorem C92_fpm_read : ok -> forall t (f d : {poly 'F_p}), d != 0 -> fp_text t f -> fpm_scan c t (fp_enc d) = Ok (Some (fp_menc d f)).
Proof.
move=> [pp [hP hc]] t f d d0 ht; rewrite /fpm_scan; have [x [-> ex]] := enc_head d; rewrite bind_ok ex (fp_scan_text pp hP hc ht) bind_ok /=.
by have [-> _] := C35_make (conj pp (conj hP hc)) f d0.
Qed.
Theorem C92_fpm_round_trip : ok -> forall f d : {poly 'F_p}, d != 0 ->
  exists t, fpm_put (fp_menc d f) = Ok t /\ fpm_scan c t (fp_enc d) = Ok (Some (fp_menc d f)).
Proof.
move=> [pp [hP hc]] f d d0; have [t [h1 _ _ h2]] := fpm_round pp hP hc d f; exists t; split=> //.
rewrite /fpm_scan; have [x [-> ex]] := enc_head d; rewrite bind_ok ex h2 bind_ok /=.
by have [-> _] := C35_make (conj pp (conj hP hc)) (f %% d) d0; rewrite /fp_menc modp_mod.
Qed.
Theorem C92_fpm_stream : ok -> forall (g f d : {poly 'F_p}) w rest, d != 0 -> fp_word w f -> ends rest ->
  fpm_iss c (fp_menc d g) (open_text (w ++ rest)%list) = Ok (fp_menc d f, mkis rest (at_eof rest) false false).
Proof.
move=> [pp [hP hc]] g f d w rest d0 hw hr; rewrite /fpm_iss (fp_in_word pp hP hc _ hw hr) bind_ok /mod_in [alive _]/= bind_ok.
by rewrite /gp_mod (PropFpPoly.t_quot pp hP hc f d0) !bind_ok.
Qed.
(* defects *)
Theorem C92_fp_separators_refuted : ok -> forall t, List.Forall (eq ","%char) t -> t <> nil \/ (10 <= P)%coqZ ->
  fp_scan c P t = Ok Freed /\ forall d : {poly 'F_p}, fpm_scan c t (fp_enc d) = UB.
Proof.
move=> [pp [hP hc]] t h h2; have e := fp_scan_freed c h h2; split=> // d.
by rewrite /fpm_scan; have [x [-> ex]] := enc_head d; rewrite bind_ok ex e.
Qed.
Theorem C92_fp_empty_refuted : ok -> (P < 10)%coqZ -> fp_scan c P nil = UB.
Proof. move=> _; exact: fp_scan_empty. Qed.
End Fp.

(* ================================================================ C92: GF(p^n) *)
Section Fpn.
Variables (p : nat) (c : cache).
Hypothesis hok : ok p c.
Variable G : gfq p.
Local Notation L := (gq_L G).
Local Notation m := (gq_m G).
Local Notation enc := (@PropFpnPoly.gq_enc p G).
Local Notation menc := (@PropFpnPolymod.gq_menc p G).
Local Notation at_root r := ((map_poly (gq_emb G) r).[gq_z G]).
(* words between colons, each the text of a polynomial over GF(p) that represents a coefficient *)
Theorem C92_fpn_read : forall t ts rs, spread ":"%char ts t -> ~ List.In "000"%char t -> ts <> nil -> Forall2 (@fp_word p) ts rs ->
  fpn_scan c (fp_enc m) t = Ok (Read (enc (Poly (rev [seq at_root r | r <- rs])))).
Proof. case: hok => [pp [hP hc]]; exact: fpn_scan_ok. Qed.
Theorem C92_fpn_reject : forall t ts1 rs b u ts2, spread ":"%char (ts1 ++ (b ++ u) :: ts2)%list t -> ~ List.In "000"%char t ->
  Forall2 (@fp_word p) ts1 rs -> white b -> bare u -> ends u -> exists l, fpn_scan c (fp_enc m) t = Ok (Rejected l).
Proof. case: hok => [pp [hP hc]] *; apply: fpn_scan_no; eassumption. Qed.
Theorem C92_fpn_round_trip : forall f : {poly L}, exists t, fpn_put (enc f) = Ok t /\ fpn_scan c (fp_enc m) t = Ok (Read (enc f)).
Proof. case: hok => [pp [hP hc]] f; exact: fpn_round. Qed.
Theorem C92_fpn_stream : forall g w ts q qs rest, fp_word w q -> Forall2 (@fp_word p) ts qs -> stop rest ->
  fpn_in c (enc g) (open_text (w ++ tail_text ":"%char ts ++ rest)%list) =
  Ok (Read (enc (Poly (rev [seq at_root r | r <- q :: qs]))), mkis rest (at_eof rest) false false).
Proof. case: hok => [pp [hP hc]]; exact: fpn_in_ok. Qed.
Theorem C92_fpnm_read : forall t ts rs (d : {poly L}), d != 0 -> spread ":"%char ts t -> ~ List.In "000"%char t -> ts <> nil ->
  Forall2 (@fp_word p) ts rs -> fpnm_scan c t (enc d) = Ok (Some (menc d (Poly (rev [seq at_root r | r <- rs])))).
Proof.
case: hok => [pp [hP hc]] t ts rs d d0 h1 h2 h3 h4; apply: fpnm_scan_ok => //; exact: (fpn_scan_ok pp hP hc G h1).
Qed.
Theorem C92_fpnm_round_trip : forall f d : {poly L}, d != 0 ->
  exists t, fpnm_put (menc d f) = Ok t /\ fpnm_scan c t (enc d) = Ok (Some (menc d f)).
Proof.
case: hok => [pp [hP hc]] f d d0; have [t [h1 h2]] := fpnm_round pp hP hc d f; exists t; split=> //.
by rewrite (fpnm_scan_ok pp hP hc d0 h2) /PropFpnPolymod.gq_menc modp_mod.
Qed.
Theorem C92_fpnm_stream : forall g (d : {poly L}) w ts q qs rest, d != 0 -> fp_word w q -> Forall2 (@fp_word p) ts qs -> stop rest ->
  fpnm_iss c (menc d g) (open_text (w ++ tail_text ":"%char ts ++ rest)%list) =
  Ok (menc d (Poly (rev [seq at_root r | r <- q :: qs])), mkis rest (at_eof rest) false false).
Proof.
case: hok => [pp [hP hc]] g d w ts q qs rest d0 h1 h2 h3; rewrite /fpnm_iss (fpn_in_ok pp hP hc _ h1 h2 h3) bind_ok /mod_in [alive _]/= bind_ok.
by rewrite /gp_mod (PropFpnPoly.t_quot pp hP hc _ d0) !bind_ok.
Qed.
Theorem C92_fpn_separators_refuted : forall t, List.Forall (eq ":"%char) t ->
  fpn_scan c (fp_enc m) t = Ok Freed /\ forall d : {poly L}, fpnm_scan c t (enc d) = UB.
Proof.
move=> t h; have e := fpn_scan_freed c G h; split=> // d; rewrite /fpnm_scan; have [a [l ->]] := gq_head d.
by rewrite [getk _ _]/= bind_ok; have [r [-> _ _]] := el_menc a; rewrite e.
Qed.
Theorem C92_fpn_commas_refuted : forall t ts1 rs w ts2, spread ":"%char (ts1 ++ w :: ts2)%list t -> ~ List.In "000"%char t ->
  Forall2 (@fp_word p) ts1 rs -> w <> nil -> List.Forall (eq ","%char) w -> fpn_scan c (fp_enc m) t = UB.
Proof. case: hok => [pp [hP hc]]; exact: fpn_scan_commas. Qed.
End Fpn.

(* ================================================================ C92: GF(2^n) *)
Section F2n.
Variable G : gf2.
Local Notation L := (gf_L G).
Local Notation m := (gf_m G).
Local Notation enc := (@PropF2nPoly.g2_enc G).
Local Notation menc := (@PropF2nPolymod.g2_menc G).
Local Notation at_root r := ((map_poly (gf_emb G) r).[gf_z G]).
Theorem C92_f2n_read : forall t ts rs, spread ":"%char ts t -> ~ List.In "000"%char t -> ts <> nil -> Forall2 f2_word ts rs ->
  f2n_scan (f2_enc m) t = Ok (Read (enc (Poly (rev [seq at_root r | r <- rs])))).
Proof. exact: f2n_scan_ok. Qed.
Theorem C92_f2n_reject : forall t ts1 rs b u ts2, spread ":"%char (ts1 ++ (b ++ u) :: ts2)%list t -> ~ List.In "000"%char t ->
  Forall2 f2_word ts1 rs -> white b -> bare u -> xstop u -> exists l, f2n_scan (f2_enc m) t = Ok (Rejected l).
Proof. move=> *; apply: f2n_scan_no; eassumption. Qed.
Theorem C92_f2n_stream_reject : forall g b t, white b -> bare t -> xstop t ->
  f2n_iss (enc g) (open_text (b ++ t)%list) = Ok (Rejected (enc 0), mkis t (no_text t) true false) /\
  f2n_is (enc g) (open_text (b ++ t)%list) = Ok (Rejected (enc 0), mkis t (no_text t) true false).
Proof. by move=> g b t h1 h2 h3; split; [exact: (f2n_in_no true)|exact: (f2n_in_no false)]. Qed.
Theorem C92_f2n_round_trip : forall f : {poly L}, exists t, f2n_put (enc f) = Ok t /\ f2n_scan (f2_enc m) t = Ok (Read (enc f)).
Proof. exact: f2n_round. Qed.
Theorem C92_f2n_stream : forall g w ts q qs rest, f2_word w q -> Forall2 f2_word ts qs -> cstop rest ->
  f2n_iss (enc g) (open_text (w ++ tail_text ":"%char ts ++ rest)%list) =
  Ok (Read (enc (Poly (rev [seq at_root r | r <- q :: qs]))), mkis rest (no_text rest) false false).
Proof. exact: f2n_iss_ok. Qed.
(* the overload for std::istream: the same, but the last character of the text must not be that of the polynomial *)
Theorem C92_f2n_istream : forall g w ts q qs rest, f2_word w q -> Forall2 f2_word ts qs -> cstop rest -> rest <> nil ->
  f2n_is (enc g) (open_text (w ++ tail_text ":"%char ts ++ rest)%list) =
  Ok (Read (enc (Poly (rev [seq at_root r | r <- q :: qs]))), mkis rest false false false).
Proof. by move=> g w ts q qs rest h1 h2 h3 hn; rewrite (f2n_is_ok g h1 h2 h3) /after; case: (rest) hn. Qed.
Theorem C92_f2n_istream_end_refuted : forall g w ts q qs, f2_word w q -> Forall2 f2_word ts qs ->
  f2n_is (enc g) (open_text (w ++ tail_text ":"%char ts)%list) =
  Ok (Read (enc (Poly (rev [seq at_root r | r <- q :: qs]))), mkis nil true true false).
Proof. by move=> g w ts q qs h1 h2; have := f2n_is_ok g h1 h2 (rest := nil); rewrite List.app_nil_r => ->. Qed.
Theorem C92_f2nm_read : forall t ts rs (d : {poly L}), d != 0 -> spread ":"%char ts t -> ~ List.In "000"%char t -> ts <> nil ->
  Forall2 f2_word ts rs -> f2nm_scan t (enc d) = Ok (Some (menc d (Poly (rev [seq at_root r | r <- rs])))).
Proof. move=> t ts rs d d0 h1 h2 h3 h4; apply: f2nm_scan_ok => //; exact: (f2n_scan_ok G h1). Qed.
Theorem C92_f2nm_round_trip : forall f d : {poly L}, d != 0 ->
  exists t, f2nm_put (menc d f) = Ok t /\ f2nm_scan t (enc d) = Ok (Some (menc d f)).
Proof.
move=> f d d0; have [t [h1 h2]] := f2nm_round d f; exists t; split=> //.
by rewrite (f2nm_scan_ok d0 h2) /PropF2nPolymod.g2_menc modp_mod.
Qed.
Theorem C92_f2nm_stream : forall g (d : {poly L}) w ts q qs rest, d != 0 -> f2_word w q -> Forall2 f2_word ts qs -> cstop rest ->
  f2nm_iss (menc d g) (open_text (w ++ tail_text ":"%char ts ++ rest)%list) =
  Ok (menc d (Poly (rev [seq at_root r | r <- q :: qs])), mkis rest (no_text rest) false false).
Proof.
move=> g d w ts q qs rest d0 h1 h2 h3; rewrite /f2nm_iss (f2n_iss_ok _ h1 h2 h3) bind_ok /mod_in [alive _]/= bind_ok.
by rewrite /gp_mod (PropF2nPoly.t_quot _ d0) !bind_ok.
Qed.
Theorem C92_f2n_separators_refuted : forall t, List.Forall (eq ":"%char) t ->
  f2n_scan (f2_enc m) t = Ok Freed /\ forall d : {poly L}, f2nm_scan t (enc d) = UB.
Proof.
move=> t h; have e := f2n_scan_freed G h; split=> // d; rewrite /f2nm_scan; have [a [l ->]] := g2_head d.
by rewrite [getk _ _]/= bind_ok; have [r [_ -> _]] := el_res a; rewrite e.
Qed.
End F2n.

(* ================================================================ C92: the rational numbers *)
(* q_obj l: coefficients in lowest terms, constant term first, the last one not zero *)
Theorem C92_q_read : forall t ts vs, spread ","%char ts t -> ~ List.In "000"%char t -> ts <> nil -> Forall2 int_text ts vs ->
  List.In ","%char t -> List.Forall (fun v => INT_MIN < v)%coqZ vs ->
  exists l, q_scan t = Ok (Read l) /\ trimmed (List.rev (List.map (fun v => frac v 1) vs)) l.
Proof. exact: q_scan_ok. Qed.
Theorem C92_q_read_digits : forall t, List.Forall digit t -> t <> nil ->
  exists l, q_scan t = Ok (Read l) /\ trimmed (List.rev (List.map (fun x => frac (MMatCli.digit_val x) 1) t)) l.
Proof. exact: q_scan_digits. Qed.
Theorem C92_q_reject : forall t1 x t2, List.Forall digit t1 -> ~ digit x -> ~ List.In ","%char (t1 ++ x :: t2)%list ->
  ~ List.In "000"%char (t1 ++ x :: t2)%list -> exists l, q_scan (t1 ++ x :: t2)%list = Ok (Rejected l).
Proof. exact: q_scan_no. Qed.
(* degree 1 or more: the numerators are read back, the denominators are dropped *)
Theorem C92_q_numerators : forall l, q_obj l -> (2 <= List.length l)%coq_nat ->
  q_scan (q_put l) = Ok (Read (List.map (fun a => frac (numer a) 1) l)).
Proof. exact: q_round. Qed.
Theorem C92_q_round_trip : forall l, q_obj l -> (2 <= List.length l)%coq_nat ->
  q_scan (q_put l) = Ok (Read l) <-> List.Forall (fun a => denom a = 1%coqZ) l.
Proof.
move=> l h h2; rewrite (q_round _ h h2); split=> [[e]|hd].
  elim: l e {h h2} => [|a l ih] /=; first by constructor.
  by move=> [<- /ih h]; constructor.
congr (Ok (Read _)); elim: l hd {h h2} => [|[n d] l ih] h //=; inversion h; subst; rewrite ih // /whole /=; move: H1 => /= ->.
done.
Qed.
(* a constant n between 0 and 9 is read back; larger constants are taken for the digits of a polynomial, negative and
   fractional constants are rejected *)
Theorem C92_q_constant : forall v, (0 <= v <= 9)%coqZ -> q_scan (q_put [:: frac v 1]) = Ok (Read [:: frac v 1]).
Proof.
move=> v h; have : List.In v [:: 0; 1; 2; 3; 4; 5; 6; 7; 8; 9]%coqZ by rewrite /=; lia.
by move=> [<-|[<-|[<-|[<-|[<-|[<-|[<-|[<-|[<-|[<-|[]]]]]]]]]]].
Qed.
Theorem C92_q_constant_refuted : forall v, (10 <= v <= INT_MAX)%coqZ ->
  exists l, q_scan (q_put [:: frac v 1]) = Ok (Read l) /\ (2 <= List.length l)%coq_nat.
Proof. exact: q_const_misread. Qed.
Theorem C92_q_constant_rejected_refuted : forall a, rat_obj a -> (numer a < 0)%coqZ \/ denom a <> 1%coqZ ->
  exists l, q_scan (q_put [:: a]) = Ok (Rejected l).
Proof. exact: q_const_rejected. Qed.
(* streams: digits and commas are read as by from_string, so that the first sign or slash ends a printed polynomial *)
Theorem C92_q_stream : forall a b w rest l, white b -> List.Forall (fun x => dc x = true) w -> w <> nil -> ends rest ->
  q_scan w = Ok (Read l) -> q_in a (open_text (b ++ w ++ rest)%list) = Ok (Read l, mkis rest (at_eof rest) false false).
Proof. exact: q_in_ok. Qed.
Theorem C92_q_stream_reject : forall a b t, white b -> bare t -> ends t ->
  q_in a (open_text (b ++ t)%list) = Ok (Rejected a, mkis t (no_text t) true false).
Proof. exact: dc_in_no. Qed.
Theorem C92_q_stream_negative_refuted : forall a l x, (numer x < 0)%coqZ ->
  exists s, q_in a (open_text (q_put (l ++ [:: x])%list)) = Ok (Rejected a, s) /\ failed s = true.
Proof. exact: q_in_negative. Qed.
Theorem C92_q_stream_fraction_refuted : forall a l x, (0 <= numer x <= INT_MAX)%coqZ -> denom x <> 1%coqZ ->
  exists l' rest, q_in a (open_text (q_put (l ++ [:: x])%list)) = Ok (Read l', mkis ("/"%char :: rest) false false false).
Proof. exact: q_in_fraction. Qed.
Theorem C92_q_separators_refuted : forall t, List.Forall (eq ","%char) t -> t <> nil -> q_scan t = Ok Freed.
Proof. exact: q_scan_commas. Qed.
(* ======== C93: rational numbers *)
(* signed w n: a sign or none and digits, n an int; blanks: spaces, tabs and line ends; iss: the overload for
   std::istringstream; rat_obj a: lowest terms, denominator positive, no component -2^31 *)
Theorem C93_rat_whole : forall iss a b w n rest, blanks b -> signed w n -> (INT_MIN < n)%coqZ -> dstop rest -> no_slash rest ->
  rat_in iss a (open_text (b ++ w ++ rest)%list) = Ok (frac n 1, mkis rest (iss && no_text rest) false false).
Proof. exact: rat_whole. Qed.
Theorem C93_rat_over : forall iss a b w n b2 u d rest, blanks b -> signed w n -> blanks b2 -> signed u d -> dstop rest ->
  (INT_MIN < n)%coqZ -> (INT_MIN < d)%coqZ -> d <> 0%coqZ ->
  exists r, rat_in iss a (open_text (b ++ w ++ "/"%char :: b2 ++ u ++ rest)%list) = Ok (r, mkis rest (no_text rest) false false) /\
    rat_obj r /\ (numer r * d = n * denom r)%coqZ.
Proof.
move=> iss a b w n b2 u d rest h1 h2 h3 h4 h5 hn hd d0; rewrite (rat_over _ _ _ _ n _ _ d) //.
have [? [? [_ [_ [_ [_ hw]]]]]] := h2; have [? [? [_ [_ [_ [_ hu]]]]]] := h4.
have [||r [-> [hl [hx [k1 k2]]]]] := PIntrat.simplify_ok n d d0; try by move: hn hd hw hu; clear; rewrite /INT_MIN /INT_MAX; lia.
exists r; split=> //; split=> //; split=> //; have [hp _] := hl; rewrite /inr_; move: hp k1 k2 hn hd hw hu; clear; rewrite /INT_MIN /INT_MAX; lia.
Qed.
Theorem C93_rat_zero : forall iss a b w n b2 u rest, blanks b -> signed w n -> blanks b2 -> signed u 0 -> dstop rest ->
  rat_in iss a (open_text (b ++ w ++ "/"%char :: b2 ++ u ++ rest)%list) = Exn.
Proof. by move=> iss a b w n b2 u rest h1 h2 h3 h4 h5; rewrite (rat_over _ _ _ _ n _ _ 0%coqZ). Qed.
Theorem C93_rat_stream : forall iss a0 a rest, rat_obj a -> dstop rest -> no_slash rest ->
  exists eof, rat_in iss a0 (open_text (rat_put a ++ rest)%list) = Ok (a, mkis rest eof false false).
Proof. exact: rat_round. Qed.
Theorem C93_rat_round_trip : forall a0 a, rat_obj a -> rat_scan a0 (rat_put a) = Ok (Some a).
Proof. exact: rat_scan_round. Qed.
(* what is no number is read as 0, what is too large as 2^31-1, both with success *)
Theorem C93_rat_junk_refuted : forall iss a b x t, blanks b -> is_space x = false -> ~ digit x -> x <> "-"%char -> x <> "+"%char ->
  rat_in iss a (open_text (b ++ x :: t)%list) = Ok (frac 0 1, mkis (x :: t) false false false).
Proof. exact: rat_junk. Qed.
Theorem C93_rat_large_refuted : forall iss a b d x t, blanks b -> List.Forall digit d -> (INT_MAX < dec d)%coqZ -> ~ digit x ->
  rat_in iss a (open_text (b ++ d ++ x :: t)%list) = Ok (frac INT_MAX 1, mkis (x :: t) false false false).
Proof. exact: rat_large. Qed.
Theorem C93_rat_empty_refuted : forall a b, blanks b -> inr_ (numer a) ->
  exists s, rat_in false a (open_text b) = Ok (frac (numer a) 1, s) /\ failed s = false.
Proof. move=> a b; exact: rat_empty. Qed.
Theorem C93_rat_empty : forall a b, blanks b -> inr_ (numer a) -> rat_scan a b = Ok None.
Proof. by move=> a b h1 h2; rewrite /rat_scan; have [s [-> e]] := rat_empty true a b h1 h2; rewrite bind_ok e. Qed.

(* ======== C93: rational functions *)
Section FpRat.
Variables (p : nat) (c : cache).
Hypothesis hok : ok p c.
Local Notation P := (Z.of_nat p).
Local Notation qe := (qenc (@fp_enc p)).
(* fp_bare u f (PPolyText9.v): digits and commas, a text of f *)
Theorem C93_fp_whole : forall iss (g h n : {poly 'F_p}) b u rest, white b -> fp_bare u n -> ends rest -> no_slash rest ->
  fpq_in c iss (mkrat (fp_enc g) (fp_enc h)) (open_text (b ++ u ++ rest)%list) = Ok (qe n%:F, mkis rest (iss && at_eof rest) false false).
Proof. case: hok => [pp [hP hc]] *; exact: fpq_whole. Qed.
Theorem C93_fp_over : forall iss (g h n d : {poly 'F_p}) b u b2 w rest, white b -> fp_bare u n -> white b2 -> fp_bare w d -> ends rest ->
  fpq_in c iss (mkrat (fp_enc g) (fp_enc h)) (open_text (b ++ u ++ "/"%char :: b2 ++ w ++ rest)%list) =
  if d == 0 then Exn else Ok (qe (n%:F / d%:F), mkis rest (at_eof rest) false false).
Proof. case: hok => [pp [hP hc]] *; exact: fpq_over. Qed.
Theorem C93_fp_round_trip : forall x : {fraction {poly 'F_p}}, exists t, fpq_put c (qe x) = Ok t /\ fpq_scan c P t = Ok (Some (qe x)).
Proof. case: hok => [pp [hP hc]] x; exact: fpq_round. Qed.
(* what is no polynomial leaves the numerator that was there, with success; from_string gives 0 *)
Theorem C93_fp_junk_refuted : forall iss (g h : {poly 'F_p}) b x t, white b -> ~ blank3 x -> dc x = false ->
  fpq_in c iss (mkrat (fp_enc g) (fp_enc h)) (open_text (b ++ x :: t)%list) = Ok (qe g%:F, mkis (x :: t) false false false).
Proof. case: hok => [pp [hP hc]] *; exact: fpq_junk. Qed.
End FpRat.
Section F2Rat.
Local Notation qe := (qenc f2_enc).
Theorem C93_f2_whole : forall iss a b u (n : {poly 'F_2}) rest, white b -> f2_bare u n -> xstop rest -> no_slash rest ->
  f2q_in iss a (open_text (b ++ u ++ rest)%list) = Ok (qe n%:F, mkis rest (iss && no_text rest) false false).
Proof. exact: f2q_whole. Qed.
Theorem C93_f2_over : forall iss a b u (n : {poly 'F_2}) b2 w (d : {poly 'F_2}) rest,
  white b -> f2_bare u n -> white b2 -> f2_bare w d -> xstop rest ->
  f2q_in iss a (open_text (b ++ u ++ "/"%char :: b2 ++ w ++ rest)%list) =
  if d == 0 then Exn else Ok (qe (n%:F / d%:F), mkis rest (no_text rest) false false).
Proof. exact: f2q_over. Qed.
Theorem C93_f2_round_trip : forall a (x : {fraction {poly 'F_2}}), exists t, f2q_put (qe x) = Ok t /\ f2q_scan a t = Ok (Some (qe x)).
Proof. exact: f2q_round. Qed.
Theorem C93_f2_junk_refuted : forall iss a b x t, white b -> ~ blank3 x -> ~ xd x ->
  f2q_in iss a (open_text (b ++ x :: t)%list) = Ok (qe 0, mkis (x :: t) false false false).
Proof. exact: f2q_junk. Qed.
End F2Rat.
Section F2nRat.
Variable G : gf2.
Local Notation enc := (@PropF2nPoly.g2_enc G).
Local Notation qe := (qenc enc).
Theorem C93_f2n_whole : forall (g h n : {poly gf_L G}) b u rest, white b -> f2n_bare u n -> cstop rest -> no_slash rest ->
  f2nq_in true (mkrat (enc g) (enc h)) (open_text (b ++ u ++ rest)%list) = Ok (qe n%:F, mkis rest (no_text rest) false false).
Proof. move=> *; exact: f2nq_whole. Qed.
Theorem C93_f2n_over : forall (g h n d : {poly gf_L G}) b u b2 w rest, white b -> f2n_bare u n -> white b2 -> f2n_bare w d -> cstop rest ->
  f2nq_in true (mkrat (enc g) (enc h)) (open_text (b ++ u ++ "/"%char :: b2 ++ w ++ rest)%list) =
  if d == 0 then Exn else Ok (qe (n%:F / d%:F), mkis rest (no_text rest) false false).
Proof. move=> *; exact: f2nq_over. Qed.
(* the overload for std::istream, when something follows; at the end of the text the stream has failed *)
Theorem C93_f2n_istream_whole : forall (g h n : {poly gf_L G}) b u rest, white b -> f2n_bare u n -> cstop rest -> rest <> nil -> no_slash rest ->
  f2nq_in false (mkrat (enc g) (enc h)) (open_text (b ++ u ++ rest)%list) = Ok (qe n%:F, mkis rest false false false).
Proof. move=> *; exact: f2nq_is_whole. Qed.
Theorem C93_f2n_istream_over : forall (g h n d : {poly gf_L G}) b u b2 w rest, white b -> f2n_bare u n -> white b2 -> f2n_bare w d ->
  cstop rest -> rest <> nil -> f2nq_in false (mkrat (enc g) (enc h)) (open_text (b ++ u ++ "/"%char :: b2 ++ w ++ rest)%list) =
  if d == 0 then Exn else Ok (qe (n%:F / d%:F), mkis rest false false false).
Proof. move=> *; exact: f2nq_is_over. Qed.
Theorem C93_f2n_istream_end_refuted : forall (g h n d : {poly gf_L G}) b u b2 w, white b -> f2n_bare u n -> white b2 -> f2n_bare w d -> d != 0 ->
  f2nq_in false (mkrat (enc g) (enc h)) (open_text (b ++ u ++ "/"%char :: b2 ++ w)%list) = Ok (qe (n%:F / d%:F), mkis nil true true false).
Proof. move=> *; exact: f2nq_is_end. Qed.
Theorem C93_f2n_round_trip : forall x : {fraction {poly gf_L G}}, exists t, f2nq_put (qe x) = Ok t /\ f2nq_scan (f2_enc (gf_m G)) t = Ok (Some (qe x)).
Proof. exact: f2nq_round. Qed.
Theorem C93_f2n_junk_refuted : forall iss (g h : {poly gf_L G}) b x t, white b -> ~ blank3 x -> ~ xd x ->
  f2nq_in iss (mkrat (enc g) (enc h)) (open_text (b ++ x :: t)%list) = Ok (qe 0, mkis (x :: t) false false false).
Proof. exact: f2nq_junk. Qed.
End F2nRat.

(* ================================================================ concrete cases *)
Local Notation L := list_ascii_of_string.
(* x^2+3x+3 over GF(7): a list of ints with blanks, a sign and a tail, then digits *)
Example C92_ex : forall c, fp_scan c 7 (L "1,  +10,3xyz") = Ok (Read [:: mkim 3 7; mkim 3 7; mkim 1 7]) /\
  fp_scan c 7 (L "133") = Ok (Read [:: mkim 3 7; mkim 3 7; mkim 1 7]) /\
  (exists l, fp_scan c 7 (L "1,x,3") = Ok (Rejected l)) /\
  fp_put [:: mkim 3 13; mkim 12 13] = Ok (L "12,3") /\
  fp_scan c 7 (L ",") = Ok Freed /\ fp_scan c 7 nil = UB /\
  q_scan (L "12") = Ok (Read [:: frac 2 1; frac 1 1]) /\ q_scan (L "1/2,3") = Ok (Read [:: frac 3 1; frac 1 1]).
Proof. by move=> c; repeat split; try by vm_compute; eexists; vm_compute. Qed.
Example C92_ex_text : int_text (L "  +10") 10 /\ spread ","%char [:: L "1"; L "  +10"; L "3xyz"] (L "1,  +10,3xyz").
Proof.
split; last first.
  have w1 : word ","%char (L "1") by split=> // -[].
  have w2 : word ","%char (L "  +10") by split=> // /= h; decompose [or] h; congruence || contradiction.
  have w3 : word ","%char (L "3xyz") by split=> // /= h; decompose [or] h; congruence || contradiction.
  apply: (spread_word _ (L "1") _ (L "  +10,3xyz") w1); apply: (spread_word _ (L "  +10") _ (L "3xyz") w2).
  exact: spread_last.
exists (L "  "), (L "+"), (L "10"), nil; do !split=> //; try by repeat constructor.
Qed.
(* over GF(4), with modulus x^2+x+1: (x+1) Y + x, and what the two overloads of operator>> leave *)
Example C92_ex_f2n : let e := PropF2nPoly.e4 in
  f2n_scan [:: 7%num] (L ":3::6") = Ok (Read (e [:: 1; 3]%num)) /\
  f2n_iss (e [:: 0%num]) (open_text (L "3:2")) = Ok (Read (e [:: 2; 3]%num), mkis nil true false false) /\
  f2n_is (e [:: 0%num]) (open_text (L "3:2")) = Ok (Read (e [:: 2; 3]%num), mkis nil true true false) /\
  f2n_put (e [:: 2; 3]%num) = Ok (L "3:2").
Proof. by vm_compute. Qed.
Example C93_ex : rat_scan rat_default (L " -6/ 4") = Ok (Some (frac (-3) 2)) /\ rat_put (frac (-3) 2) = L "-3/2" /\
  rat_scan rat_default (L "1/0") = Exn /\ rat_scan rat_default (L "abc") = Ok (Some (frac 0 1)) /\
  rat_scan rat_default (L "99999999999/2") = Ok (Some (frac 2147483647 1)) /\ signed (L "-6") (-6).
Proof.
do !split; try by vm_compute.
exists (L "-"), (L "6"); do !split=> //; try by repeat constructor.
Qed.

Print Assumptions C92_fp_read.
Print Assumptions C92_fp_meaning.
Print Assumptions C92_fp_reject.
Print Assumptions C92_fp_reject_digit.
Print Assumptions C92_fp_print.
Print Assumptions C92_fp_round_trip.
Print Assumptions C92_fp_stream.
Print Assumptions C92_fp_stream_reject.
Print Assumptions C92_fpm_read.
Print Assumptions C92_fpm_round_trip.
Print Assumptions C92_fpm_stream.
Print Assumptions C92_fp_separators_refuted.
Print Assumptions C92_fp_empty_refuted.
Print Assumptions C92_fpn_read.
Print Assumptions C92_fpn_reject.
Print Assumptions C92_fpn_round_trip.
Print Assumptions C92_fpn_stream.
Print Assumptions C92_fpnm_read.
Print Assumptions C92_fpnm_round_trip.
Print Assumptions C92_fpnm_stream.
Print Assumptions C92_fpn_separators_refuted.
Print Assumptions C92_fpn_commas_refuted.
Print Assumptions C92_f2n_read.
Print Assumptions C92_f2n_reject.
Print Assumptions C92_f2n_stream_reject.
Print Assumptions C92_f2n_round_trip.
Print Assumptions C92_f2n_stream.
Print Assumptions C92_f2n_istream.
Print Assumptions C92_f2n_istream_end_refuted.
Print Assumptions C92_f2nm_read.
Print Assumptions C92_f2nm_round_trip.
Print Assumptions C92_f2nm_stream.
Print Assumptions C92_f2n_separators_refuted.
Print Assumptions C92_q_read.
Print Assumptions C92_q_read_digits.
Print Assumptions C92_q_reject.
Print Assumptions C92_q_numerators.
Print Assumptions C92_q_round_trip.
Print Assumptions C92_q_constant.
Print Assumptions C92_q_constant_refuted.
Print Assumptions C92_q_constant_rejected_refuted.
Print Assumptions C92_q_stream.
Print Assumptions C92_q_stream_reject.
Print Assumptions C92_q_stream_negative_refuted.
Print Assumptions C92_q_stream_fraction_refuted.
Print Assumptions C92_q_separators_refuted.
Print Assumptions C93_rat_whole.
Print Assumptions C93_rat_over.
Print Assumptions C93_rat_zero.
Print Assumptions C93_rat_stream.
Print Assumptions C93_rat_round_trip.
Print Assumptions C93_rat_junk_refuted.
Print Assumptions C93_rat_large_refuted.
Print Assumptions C93_rat_empty_refuted.
Print Assumptions C93_rat_empty.
Print Assumptions C93_fp_whole.
Print Assumptions C93_fp_over.
Print Assumptions C93_fp_round_trip.
Print Assumptions C93_fp_junk_refuted.
Print Assumptions C93_f2_whole.
Print Assumptions C93_f2_over.
Print Assumptions C93_f2_round_trip.
Print Assumptions C93_f2_junk_refuted.
Print Assumptions C93_f2n_whole.
Print Assumptions C93_f2n_over.
Print Assumptions C93_f2n_istream_whole.
Print Assumptions C93_f2n_istream_over.
Print Assumptions C93_f2n_istream_end_refuted.
Print Assumptions C93_f2n_round_trip.
Print Assumptions C93_f2n_junk_refuted.
