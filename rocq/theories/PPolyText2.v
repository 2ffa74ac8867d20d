(* Polynomials over F_p as text. *)
From Verif Require Import Base MIntMath MIntmod MIntrat MMat MMatCli MF2Poly MPoly MPolymod MF2nPoly MFpnPoly MLinalg MRat MCyclo MTextIO MPolyText.
From Verif Require Import PIntMath PIntMath2 PIntmod PMatCli5 PTextIO3 PPolyText.
From mathcomp Require Import all_ssreflect all_algebra ssrZ zify.
From Verif Require Import PMat PFp PPoly PFpPoly PropFpPoly.
Set Implicit Arguments.
Unset Strict Implicit.
Unset Printing Implicit Defensive.
Import GRing.Theory.
Delimit Scope Z_scope with coqZ.
Local Open Scope ring_scope.
Local Notation length := List.length.
Local Notation has := MPolyText.has.

Lemma im_make_int r m : (1 <= m <= INT_MAX)%coqZ -> (INT_MIN <= r <= INT_MAX)%coqZ -> im_make r m = Ok (mkim (Z.modulo r m) m).
Proof.
move=> hm hr; case: (Z.eq_dec r INT_MIN) => [e|ne]; last first.
  apply: im_make_ok => //; move: hr ne; clear; rewrite /INT_MIN /INT_MAX; lia.
have hq : in_int (Z.quot r m) = true.
  rewrite e /in_int /INT_MIN /INT_MAX.
  have h1 := Z.quot_opp_l 2147483648 m ltac:(lia); rewrite -[(-2147483648)%coqZ]/(- (2147483648))%coqZ h1.
  have h2 : (Z.quot 2147483648 m <= 2147483648)%coqZ by apply: Z.quot_le_upper_bound; lia.
  have h3 : (0 <= Z.quot 2147483648 m)%coqZ by apply: Z.quot_pos; lia.
  apply/andP; split; apply/Z.leb_le; lia.
rewrite /im_make; have -> : Z.leb m 0 = false by lia.
rewrite /imod; have -> : Z.eqb m 0 = false by lia.
rewrite hq bind_ok; have h4 : (- m < Z.rem r m <= 0)%coqZ by have := Z.rem_bound_abs r m ltac:(lia); have := Z.rem_nonpos r m ltac:(lia) ltac:(rewrite e /INT_MIN; lia); lia.
have h5 : (r = m * Z.quot r m + Z.rem r m)%coqZ by apply: Z.quot_rem; lia.
case: (Z.ltb_spec (Z.rem r m) 0) => h6.
  rewrite /iadd chk_ok /INT_MIN /INT_MAX; last by move: hm; rewrite /INT_MAX; lia.
  rewrite bind_ok; congr (Ok (mkim _ _)); apply: (Z.mod_unique _ _ (Z.quot r m - 1)%coqZ); [left; lia|lia].
rewrite bind_ok; congr (Ok (mkim _ _)); apply: (Z.mod_unique _ _ (Z.quot r m)); [left; lia|lia].
Qed.

Lemma F2_map (T U : Type) (P : T -> U -> Prop) (W : Type) (f : U -> W) (l : list T) (l' : list U) :
  Forall2 P l l' -> forall Q : T -> W -> Prop, (forall x y, P x y -> Q x (f y)) -> Forall2 Q l (List.map f l').
Proof. by move=> h Q hQ; elim: h => [|x y l1 l2 h1 _ IH] /=; constructor; auto. Qed.

Lemma revE (T : Type) (l : list T) : List.rev l = rev l.
Proof. by elim: l => [//|x l IH]; rewrite /= rev_cons -cats1 IH. Qed.
(* the value of an ASCII digit *)
Definition dig (x : ascii) : Z := (Z.of_nat (nat_of_ascii x) - 48)%coqZ.

Section Fp.
Variable p : nat.
Hypothesis pp : prime p.
Hypothesis hP : (Z.of_nat p <= 46341)%coqZ.
Variable c : cache.
Hypothesis hc : cache_valid c.
Local Notation P := (Z.of_nat p).
Local Notation V := (Vp p).
Local Notation I := (Ip p).
Local Notation o := (im_kops c).
Local Notation enc := (@fp_enc p).
Local Notation izr := (@izr p).
Let sp := im_kspec pp hP hc.

Lemma P_int : (1 <= P <= INT_MAX)%coqZ.
Proof. have := prime_gt1 pp; move: hP; rewrite /INT_MAX; lia. Qed.
Definition res_of (v : Z) : intmod := mkim (Z.modulo v P) P.
Lemma res_of_R v : R V I (res_of v) (izr v).
Proof.
split; last by rewrite /Ip /= izr_mod.
by split=> //; rewrite /canon /=; apply: Z.mod_pos_bound; have := P_int; lia.
Qed.
Lemma recompute_vals (vs : list Z) : vs <> nil ->
  gp_recompute o (List.rev (List.map res_of vs)) = Ok (enc (Poly (rev [seq izr v | v <- vs]))).
Proof.
move=> vn; have [|r [-> hr]] := recompute_ok sp (l := List.rev (List.map res_of vs)) (p := Poly (rev [seq izr v | v <- vs])).
  exists (rev [seq izr v | v <- vs]); split; last first.
    by split=> //; rewrite size_rev size_map; case: vs vn.
  apply: F2_rev; elim: (vs) => [|v l IH] /=; constructor => //; exact: res_of_R.
by rewrite (Genc pp hP hc hr).
Qed.

(* ---- words ---- *)
Lemma rd_int_ok w v : int_text w v -> rd_int (fun v => im_make v P) w = Ok (Some (res_of v)).
Proof.
move=> h; have [r e] := int_text_rest _ _ h; rewrite /rd_int e im_make_int; first by rewrite bind_ok.
  exact: P_int.
by case: h => [b [sg [d [r0 [_ [_ [_ [_ [_ [_ hm]]]]]]]]]].
Qed.
Lemma rd_int_no w : (forall v, ~ int_text w v) -> rd_int (fun v => im_make v P) w = Ok None.
Proof. by move=> h; rewrite /rd_int read_int_none. Qed.
Lemma rd_digit_ok x : digit x -> rd_digit (fun v => im_make v P) [:: x] = Ok (Some (res_of (dig x))).
Proof.
move=> h; rewrite /rd_digit (proj2 (is_digit_iff x) h) im_make_int; first by rewrite bind_ok.
  exact: P_int.
by move: h; rewrite /digit /digit_val /INT_MIN /INT_MAX; lia.
Qed.
Lemma rd_digit_no x : ~ digit x -> rd_digit (fun v => im_make v P) [:: x] = Ok None.
Proof. by move=> h; rewrite /rd_digit; case E: (MMatCli.is_digit x) => //; case: h; apply/is_digit_iff. Qed.

(* ---- from_string ---- *)
Lemma not_short t : List.In ","%char t \/ (10 <= P)%coqZ -> ~ List.In "000"%char t ->
  negb (has ","%char (cstr t)) && Z.ltb P 10 = false.
Proof.
move=> h h0; rewrite cstr_id //; case: h => [/has_In -> //|h]; have -> : Z.ltb P 10 = false by lia.
by rewrite andbF.
Qed.
Theorem fp_scan_ok t ts vs : spread ","%char ts t -> ~ List.In "000"%char t -> ts <> nil -> Forall2 int_text ts vs ->
  List.In ","%char t \/ (10 <= P)%coqZ ->
  fp_scan c P t = Ok (Read (enc (Poly (rev [seq izr v | v <- vs])))).
Proof.
move=> hs h0 hn hv hc'; rewrite /fp_scan not_short //.
rewrite (@sep_poly_ok _ _ _ _ ","%char ts t (List.map res_of vs)) //; last first.
  by apply: (F2_map hv); exact: rd_int_ok.
by rewrite recompute_vals // => e; move: hv hn; rewrite e => hv; inversion hv.
Qed.
Lemma fp_scan_no t ts1 vs w ts2 : spread ","%char (ts1 ++ w :: ts2) t -> ~ List.In "000"%char t -> Forall2 int_text ts1 vs ->
  (forall v, ~ int_text w v) -> List.In ","%char t \/ (10 <= P)%coqZ -> exists l, fp_scan c P t = Ok (Rejected l).
Proof.
move=> hs h0 hv hw hc'; rewrite /fp_scan not_short //; eexists.
apply: (@sep_poly_no _ _ _ _ ","%char ts1 (List.map res_of vs) w ts2) => //; last exact: rd_int_no.
by apply: (F2_map hv); exact: rd_int_ok.
Qed.
Lemma fp_scan_freed t : List.Forall (eq ","%char) t -> t <> nil \/ (10 <= P)%coqZ -> fp_scan c P t = Ok Freed.
Proof.
move=> h hn; have h0 : ~ List.In "000"%char t by move=> k; move: h => /List.Forall_forall /(_ _ k).
rewrite /fp_scan not_short //; first exact: sep_poly_freed.
by case: hn => [|?]; [case: t h {h0} => [//|x t] h _; inversion h; left; left | right].
Qed.
Lemma short t : ~ List.In ","%char t -> (P < 10)%coqZ -> negb (has ","%char (cstr t)) && Z.ltb P 10 = true.
Proof.
move=> h hp; have -> : Z.ltb P 10 = true by lia.
rewrite andbT has_no // => k; apply: h; elim: t k => [//|x t IH] /=; case: (x =? "000")%char => //= -[->|]; auto.
Qed.
Lemma digit_comma x : digit x -> x <> ","%char.
Proof. by move=> h e; move: h; rewrite e => /(proj1 nodig). Qed.
Theorem fp_scan_digits t : List.Forall digit t -> t <> nil -> (P < 10)%coqZ ->
  fp_scan c P t = Ok (Read (enc (Poly (rev [seq izr (dig x) | x <- t])))).
Proof.
move=> h hn hp; rewrite /fp_scan short //; last first.
  by move=> /(proj1 (List.Forall_forall _ _) h) k; exact: (digit_comma k).
have hf : Forall2 (fun w x => rd_digit (fun v => im_make v P) w = Ok (Some x)) (List.map (fun x => [:: x]) t) (List.map res_of (List.map dig t)).
  elim: h {hn} => [|x l hx _ IH] /=; constructor => //; exact: rd_digit_ok.
rewrite (fill_poly_ok _ _ _ _ _ hf) recompute_vals; first by rewrite bind_ok -(map_comp izr dig).
by case: (t) hn.
Qed.
Lemma fp_scan_nondigit t : ~ List.In ","%char t -> (P < 10)%coqZ -> (exists x, List.In x t /\ ~ digit x) ->
  exists l, fp_scan c P t = Ok (Rejected l).
Proof.
move=> hcm hp hx; rewrite /fp_scan short //.
have {hx} [t1 [x [t2 [-> [h1 h2]]]]] : exists t1 x t2, t = t1 ++ x :: t2 /\ List.Forall digit t1 /\ ~ digit x.
  case: hx => x [hin hx]; elim: t hin {hcm} => [//|y t IH] hin.
  case E: (MMatCli.is_digit y); last first.
    exists nil, y, t; split=> //; split; first by constructor.
    by move=> /is_digit_iff; rewrite E.
  case: hin => [e|hin]; first by case: hx; apply/is_digit_iff; rewrite -e.
  have [t1 [z [t2 [-> [h1 h2]]]]] := IH hin.
  by exists (y :: t1), z, t2; split=> //; split=> //; constructor=> //; apply/is_digit_iff.
rewrite List.map_app /=; eexists.
apply: (@fill_poly_no _ o im_default _ _ (List.map res_of (List.map dig t1))); last exact: rd_digit_no.
by elim: h1 {hcm} => [|z l hz _ IH] /=; constructor => //; exact: rd_digit_ok.
Qed.
Lemma fp_scan_empty : (P < 10)%coqZ -> fp_scan c P nil = UB.
Proof. by move=> hp; rewrite /fp_scan short. Qed.

(* ---- printing ---- *)
Lemma el_int (a : 'F_p) : (0 <= Z.of_nat (a : nat) <= INT_MAX)%coqZ.
Proof. have := ltn_ord a; rewrite [X in (_ < X)%N]Fp_cast //; move: P_int; lia. Qed.
Lemma numeral_word w v : numeral w v -> word ","%char w /\ List.Forall (fun x => dc x = true) w /\ word ":"%char w /\ ~ List.In "000"%char w.
Proof.
move=> [hn [hd _]]; have k (x : ascii) : ~ digit x -> ~ List.In x w by move=> hx /(proj1 (List.Forall_forall _ _) hd).
have [d1 [d2 [d3 _]]] := nodig; split; first by split=> //; apply: k.
split; first by apply: List.Forall_impl hd; exact: dc_digit.
by split; [split=> //|]; apply: k.
Qed.
Lemma dec_digits_ge0 d : List.Forall digit d -> (0 <= dec d)%coqZ.
Proof.
move=> h; suff K a : (0 <= a)%coqZ -> (0 <= List.fold_left (fun a c => 10 * a + (Z.of_nat (nat_of_ascii c) - 48))%coqZ d a)%coqZ by exact: K.
elim: h a => [//|x l hx _ IH] a ha; cbn [List.fold_left]; apply: IH; move: hx; rewrite /digit; lia.
Qed.
Lemma numeral_int w v : numeral w v -> int_text w v.
Proof.
move=> [hn [hd [hv hm]]]; exists nil, nil, w, nil; rewrite List.app_nil_r; split=> //; split; first by constructor.
split=> //; split=> //; split=> //; split; first by right; split; [right|].
by have := dec_digits_ge0 hd; rewrite /INT_MIN; lia.
Qed.
Definition texts f : list (list ascii) := List.map (fun a => put_int (residue a)) (List.rev (enc f)).
Lemma texts_num f : Forall2 (fun w v => numeral w v) (texts f) (List.map residue (List.rev (enc f))).
Proof.
rewrite /texts; have : List.Forall (fun a => 0 <= residue a <= INT_MAX)%coqZ (List.rev (enc f)).
  apply/List.Forall_rev; rewrite /enc; elim: (if _ then _ else _) => [|a s IH] /=; constructor => //; exact: el_int.
by elim=> [|x l hx _ IH] /=; constructor => //; exact: put_numeral.
Qed.
Lemma Poly_enc f : Poly (rev [seq izr v | v <- List.map residue (List.rev (enc f))]) = f.
Proof.
rewrite -[RHS](cseqP f); congr Poly.
have -> : List.map residue (List.rev (enc f)) = rev [seq residue a | a <- enc f].
  by rewrite -[List.map residue _]/[seq residue a | a <- List.rev (enc f)] revE map_rev.
rewrite map_rev revK /enc -/(cseq f) -!map_comp -[RHS]map_id; apply: eq_map => a /=.
by rewrite izr_nat natr_Zp.
Qed.
End Fp.
