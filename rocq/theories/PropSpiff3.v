(* Final theorems for the commands of cli/spiff on polynomials over GF(2) (C97). *)
From Verif Require Import Base MIntMath MFac MIntmod MMat MBits MF2Poly MF2Fac MLinalg MTextIO MPolyText MUnits MList MRandom MSpiff MSpiff2.
From Verif Require Import PF2Poly PF2Poly3 PMatCli5 PPolyText PPolyText6 PSpiff PSpiff2 PSpiff3 PSpiff7.
From Coq Require Import Ascii String.
From mathcomp Require Import all_ssreflect all_algebra ssrZ zify separable.
From Verif Require Import PF2Poly2 PF2Poly4 PropLinalg PSpiff8 PSpiff10 PRandom.
From Verif Require PropSpiff PropF2Poly PropF2Fac PropUnits PropList PropRandom PList3 PBits3 PLinalg2.
Set Implicit Arguments.
Unset Strict Implicit.
Unset Printing Implicit Defensive.
Import GRing.Theory.
Delimit Scope Z_scope with coqZ.
Local Open Scope ring_scope.
Local Notation length := List.length.
Local Notation Forall2 := List.Forall2.
Local Notation Forall := List.Forall.
Local Notation In := List.In.

(* every nonzero element is a power of x modulo m, if it is prime to m *)
Definition x_generates (m : {poly 'F_2}) : Prop := coprimep m 'X /\ forall h, coprimep m h -> exists j, h %% m = 'X ^+ j %% m.
(* k is the least positive exponent with x^k = 1 modulo m *)
Definition x_order (m : {poly 'F_2}) (k : nat) : Prop :=
  [/\ (0 < k)%N, 'X ^+ k %% m = 1 %% m & forall j, (0 < j < k)%N -> 'X ^+ j %% m <> 1 %% m].
(* the number of units modulo p *)
Definition units (p : {poly 'F_2}) : nat :=
  #|[set v : 'rV['F_2]_(size p).-1 | [exists w : 'rV['F_2]_(size p).-1, p %| rVpoly v * rVpoly w - 1]]|.
Definition deg (K : fieldType) (p : {poly K}) : Z := Z.of_nat (size p).-1.

Lemma F2_in (X Y : Type) (Q R : X -> Y -> Prop) l m : Forall2 Q l m -> (forall x y, Q x y -> R x y) -> Forall2 R l m.
Proof. by move=> h i; elim: h => [|x y l' m' h1 _ h2]; constructor=> //; exact: i. Qed.
(* a list of values with a property from the existence of each *)
Lemma F_choose (X Y : Type) (C R : X -> Y -> Prop) (G : X -> Prop) l : Forall G l -> (forall x, G x -> exists y, C x y /\ R x y) ->
  exists ys, Forall2 C l ys /\ Forall2 R l ys.
Proof.
move=> h i; elim: h => [|x l' hx _ [ys [h1 h2]]]; first by exists [::]; split; constructor.
by have [y [h3 h4]] := i _ hx; exists (y :: ys); split; constructor.
Qed.
Lemma F2_map (X Y Z : Type) (Q : X -> Z -> Prop) (f : Y -> Z) l m : Forall2 (fun x y => Q x (f y)) l m -> Forall2 Q l (List.map f m).
Proof. by elim=> [|x y l' m' h1 _ h2]; constructor. Qed.

Lemma per_f2 sev sep body args ps ts : Forall2 f2_rd args ps -> Forall2 (fun p t => body (f2_enc p) = (line t, Val tt)) ps ts ->
  per arg_f2 show_f2 sev sep body args = (listing f2_tx sev sep ps ts, Val tt).
Proof. exact: (per_ok arg_f2 show_f2 f2_enc f2_rd f2_tx f2_arg f2_shw). Qed.
Lemma per_f2_stop sev sep body pre ps ts s p post u f : Forall2 f2_rd pre ps -> Forall2 (fun p t => body (f2_enc p) = (line t, Val tt)) ps ts ->
  f2_rd s p -> body (f2_enc p) = (u, f) -> PSpiff.stops f ->
  per arg_f2 show_f2 sev sep body (pre ++ s :: post)%list = ((listing f2_tx sev sep ps ts ++ (if sev then f2_tx p ++ txt sep else [::]) ++ u)%list, f).
Proof. exact: (per_stop arg_f2 show_f2 f2_enc f2_rd f2_tx f2_arg f2_shw). Qed.
Lemma per_f2_bad sev sep body pre ps ts s post : Forall2 f2_rd pre ps -> Forall2 (fun p t => body (f2_enc p) = (line t, Val tt)) ps ts ->
  no_hex s -> per arg_f2 show_f2 sev sep body (pre ++ s :: post)%list = (listing f2_tx sev sep ps ts, Exit 1).
Proof. by move=> h1 h2 h3; apply: (per_bad arg_f2 show_f2 f2_enc f2_rd f2_tx f2_arg f2_shw) h1 h2 (arg_f2_no _ h3). Qed.
Lemma first_f2 sev sep f args ps vs : Forall2 f2_rd args ps -> Forall2 (fun p v => f (f2_enc p) = Ok v) ps vs ->
  per_first arg_f2 show_f2 sev sep f args = (listing f2_tx sev sep ps (List.map put_int vs), Val tt).
Proof. exact: (per_first_ok arg_f2 show_f2 f2_enc f2_rd f2_tx f2_arg f2_shw). Qed.
Lemma fold_f2 f F (Pre : {poly 'F_2} -> {poly 'F_2} -> Prop) : (forall a b, Pre a b -> f (f2_enc a) (f2_enc b) = Ok (f2_enc (F a b))) ->
  forall s x args xs, f2_rd s x -> Forall2 f2_rd args xs -> (forall i y, List.nth_error xs i = Some y -> Pre (List.fold_left F (List.firstn i xs) x) y) ->
  fold_main arg_f2 show_f2 f (s :: args) = (line (f2_tx (List.fold_left F xs x)), Val 0%coqZ).
Proof. exact: (fold_main_ok arg_f2 show_f2 f2_enc f2_rd f2_tx f2_arg f2_shw). Qed.
Lemma deg_body ps : Forall2 (fun p t => (d <~ call (f2_degree (f2_enc p)) ;~ show (Z.of_nat d) ;~~ nl) = (line t, Val tt)) ps (List.map (fun p => put_int (deg p)) ps).
Proof. by apply: F2_map; elim: ps => [|p l IH]; constructor=> //; rewrite f2_deg_enc pb_ok. Qed.

(* the factors of a polynomial that is not 0, with their exponents; 1 for none *)
Definition fac_text (fs : list ({poly 'F_2} * Z)) : text := if fs is nil then txt "1" else unwords (List.map (pword f2_tx) fs).
Lemma factors1 p fs : f2_factors p fs -> (p == 1) = (if fs is nil then true else false).
Proof.
case: fs => [|[q k] fs] [h1 _ h3]; first by rewrite -h3 big_nil eqxx.
apply/eqP => e; have [[hq _] hk] := h1 q k (or_introl erefl).
have : q %| 1.
  rewrite -e -h3 big_cons; apply: dvdp_mulr; rewrite /=; have -> : Z.to_nat k = (Z.to_nat k).-1.+1 by lia.
  by rewrite exprS dvdp_mulIl.
by rewrite dvdp1 => /eqP e1; rewrite e1 in hq.
Qed.
Lemma f2_facinfo p fs : f2_factors p fs -> show_facinfo show_f2 (f2_record p fs) = (fac_text fs, Val tt).
Proof.
move=> h; rewrite /f2_record (facinfo_ok show_f2 f2_enc f2_tx f2_shw) /f2_unit (factors1 h).
case: fs {h} => [|f fs] //.
rewrite /fac_text [LHS]/=.
by have -> : f2_tx 1 = txt "1" by rewrite /f2_tx /f2_number polyseq1; vm_compute.
Qed.
(* what is printed about the irreducibility and the primitivity of a polynomial *)
Definition test_words (di dp : bool) (b : bool * bool) : list text :=
  ((if di then [:: txt (if b.1 then "IRREDUCIBLE" else "reducible")] else [::]) ++
   (if dp then [:: txt (if b.2 then "PRIMITIVE" else "imprimitive")] else [::]))%list.
Definition options : list (string * (bool * bool)) := [:: ("-i"%string, (true, false)); ("-p"%string, (false, true)); ("-ip"%string, (true, true))].
Lemma arg_options o di dp : In (o, (di, dp)) options -> arg_tests (txt o) = ret (di, dp).
Proof. by case=> [[<- <- <-]|[[<- <- <-]|[[<- <- <-]|[]]]]. Qed.

Lemma number_deg (p q : {poly 'F_2}) : q != 0 -> (deg p < deg q)%coqZ -> (f2_number p < f2_number q)%num.
Proof.
move=> q0 h; have h1 : (size p <= (size q).-1)%N by move: h; rewrite /deg => /Nat2Z.inj_lt/ltP; case: (size p) => [|n].
have h2 := PList3.f2_num_size p (size q).-1; have h3 := PList3.f2_num_size q (size q).-1.
have hq : (0 < size q)%N by rewrite size_poly_gt0.
have h4 : (size q <= (size q).-1)%N = false by move: hq; clear; case: (size q) => // n _; rewrite /= ltnn.
move: h2 h3; rewrite h1 h4 /PList3.f2_num !number_enc; set n := (2 ^ _)%N => h2 /negbT; rewrite -leqNgt; move: h2; clear; lia.
Qed.
Lemma asc_app l m : ascending l -> ascending m -> (forall a b, In a l -> In b m -> (a < b)%num) -> ascending (l ++ m)%list.
Proof.
elim: l => [|n l IH] // [h1 h2] hm h; split=> [k /List.in_app_iff[h3|h3]|]; [exact: h1|by apply: h => //; left|].
by apply: IH => // a b h3 h4; apply: h => //; right.
Qed.
Lemma asc_concat (R : Z -> list {poly 'F_2} -> Prop) xss : forall lo, (forall i xs, List.nth_error xss i = Some xs -> R (lo + Z.of_nat i)%coqZ xs) ->
  (forall d xs, R d xs -> ascending (List.map f2_number xs)) ->
  (forall d e ps qs, R d ps -> R e qs -> (d < e)%coqZ -> forall p q, In p ps -> In q qs -> (f2_number p < f2_number q)%num) ->
  ascending (List.map f2_number (List.concat xss)).
Proof.
elim: xss => [|xs xss IH] lo hR h1 h2 //; rewrite [List.concat _]/= List.map_app.
have hR' i ys : List.nth_error xss i = Some ys -> R (lo + 1 + Z.of_nat i)%coqZ ys.
  by move=> h; have := hR i.+1 ys h; congr R; clear; lia.
apply: asc_app; [exact: h1 (hR O xs erefl)|exact: IH hR' h1 h2|].
move=> a b /List.in_map_iff[p [<- hp]] /List.in_map_iff[q [<- /List.in_concat[ys [/(@List.In_nth_error _ _ _)[i hi] hq]]]].
by apply: (h2 _ _ _ _ (hR O xs erefl) (hR' _ _ hi) _ _ _ hp hq); clear; lia.
Qed.

Lemma mapE (X Y : Type) (f : X -> Y) l : List.map f l = [seq f x | x <- l]. Proof. by []. Qed.
Lemma vec_words (X : Type) (put : X -> text) l : vec_out put l = unwords (List.map put l).
Proof. by elim: l => [|x [|y l] IH] //; rewrite /= -/(vec_out _ _) in IH *; rewrite IH. Qed.

Definition find_step (tm : option N) (St : Type) (draw : St -> Z * St) (fuel : nat) (rnd : bool) (t : bool * bool) (d : Z) (s : St) : prog St :=
  x <~ call (if rnd : bool
             then if snd t : bool then f2_poly_random_prim draw tm fuel d (fst t) s else f2_poly_random_irreducible draw tm fuel d s
             else a <- (if snd t : bool then f2_find_prim tm d (fst t) else f2_find_irreducible tm d) ;; Ok (a, s)) ;~
  show_f2 (fst x) ;~~ nl ;~~ ret (snd x).

Section Run.
Context (tm : option N) (c : cache) (other : string -> list text -> prog Z) (qs : list (intmod * Z) -> list (intmod * Z)) (St : Type)
  (draw : St -> Z * St) (fuel : nat) (s0 : St).
Local Notation run name args := (spiff (poly_handler tm c draw fuel s0 other) qs draw s0 (txt name :: args)).
Ltac known n h := rewrite (@PropSpiff.run_eq _ qs St draw s0 n _ h erefl erefl erefl).

(* the text printed for a polynomial, given as an argument, means that polynomial *)
Theorem C97_text p : f2_rd (f2_tx p) p.
Proof.
rewrite /f2_tx /f2_rd -number_enc; have [t [h1 [h2 [h3 h4]]]] := f2_put_ok (f2_enc p) (f2_encP p).1.1.
move: h1; rewrite (f2_put_hex _ (f2_encP p).1) => -[->]; exists nil, t, nil; rewrite List.app_nil_r.
by do 5 (split; first by []).
Qed.
Theorem C97_text_meaning s p q : f2_rd s p -> f2_rd s q -> p = q.
Proof. exact: f2_meaning. Qed.

(* ---- degrees ---- *)
Theorem C97_deg args ps : Forall2 f2_rd args ps ->
  run "f2_p_deg" args = (listing f2_tx (many ps) ": " ps (List.map (fun p => put_int (deg p)) ps), Status 0).
Proof.
by move=> h; known "f2_p_deg" f2_p_deg_main; rewrite /f2_p_deg_main (several_many _ _ _ h) (per_f2 _ _ h (deg_body ps)) pb_val emit_ret.
Qed.
(* an argument that does not begin with hexadecimal digits: the lines of those before it, then exit status 1 *)
Theorem C97_deg_bad args ps s post : Forall2 f2_rd args ps -> no_hex s ->
  run "f2_p_deg" (args ++ s :: post)%list = (listing f2_tx (many (args ++ s :: post)%list) ": " ps (List.map (fun p => put_int (deg p)) ps), Status 1).
Proof.
by move=> h hs; known "f2_p_deg" f2_p_deg_main; rewrite /f2_p_deg_main (per_f2_bad _ _ _ h (deg_body ps) hs).
Qed.

(* ---- greatest common divisor: its divisors are the common divisors of the arguments ---- *)
Theorem C97_gcd args ps : args <> nil -> Forall2 f2_rd args ps ->
  exists g, run "f2_p_gcd" args = (line (f2_tx g), Status 0) /\ forall d, d %| g <-> Forall (fun p => d %| p) ps.
Proof.
move=> hn h; inversion h as [|s p args' ps' hs hargs e1 e2]; subst; first by [].
exists (List.fold_left (@gcdp _) ps' p); split; last first.
  move=> d; elim: (ps') (p) => [|q l IH] r; first by split=> [h1|h1]; [constructor|inversion h1; subst].
  rewrite [List.fold_left _ _ _]/= IH; split=> h1; inversion h1 as [|x1 x2 h2 h3]; subst.
    by move: h2; rewrite dvdp_gcd => /andP[h4 h5]; constructor=> //; constructor.
  by inversion h3 as [|x1 x2 h4 h5]; subst; constructor=> //; rewrite dvdp_gcd h2.
known "f2_p_gcd" f2_p_gcd_main; rewrite /f2_p_gcd_main (hex_text_not _ _ "-e" "-"%char hs) //.
by rewrite (@fold_f2 _ (@gcdp _) (fun _ _ => True) (fun a b _ => f2_gcd_enc a b) _ _ _ _ hs hargs).
Qed.
(* -e: Bezout's identity *)
Theorem C97_ext_gcd s1 s2 p q : f2_rd s1 p -> f2_rd s2 q ->
  exists g r s, [/\ run "f2_p_gcd" [:: txt "-e"; s1; s2] =
      (line (f2_tx g ++ txt " = " ++ f2_tx r ++ txt " * " ++ f2_tx p ++ txt " + " ++ f2_tx s ++ txt " * " ++ f2_tx q)%list, Status 0),
    r * p + s * q = g & forall d, d %| g <-> d %| p /\ d %| q].
Proof.
move=> h1 h2; have [r [s [e hb]]] := f2_ext_enc p q; exists (gcdp p q), r, s; split=> //; last first.
  by move=> d; rewrite dvdp_gcd; split=> /andP.
known "f2_p_gcd" f2_p_gcd_main; rewrite /f2_p_gcd_main; change (teq (txt "-e") "-e") with true; cbv iota.
rewrite /f2_p_ext_gcd_main (f2_arg h1) pb_ret (f2_arg h2) pb_ret e pb_ok (bezout_ok _ _ _ f2_shw) pb_val.
have [x [ex hx]] := mul_L (f2_encP p) (isP_L (f2_encP r)); have [y [ey hy]] := mul_L (f2_encP q) (isP_L (f2_encP s)).
have [z [ez hz]] := add_W (isL_W hx) (isL_W hy).
rewrite ex bind_ok ey bind_ok ez pb_ok (neqb_P (isP_W (f2_encP _)) (isP_W hz)).
have -> : gcdp p q != p * r + q * s = false by rewrite mulrC [q * s]mulrC hb eqxx.
by rewrite pb_ok emit_ret.
Qed.

(* ---- least common multiple ---- *)
(* if at most one argument is 0, the polynomials that the printed one divides are the common multiples of the arguments *)
Theorem C97_lcm args ps : args <> nil -> Forall2 f2_rd args ps -> (length (List.filter (fun p => p == 0%R) ps) <= 1)%N ->
  exists m, run "f2_p_lcm" args = (line (f2_tx m), Status 0) /\ forall n, m %| n <-> Forall (fun p => p %| n) ps.
Proof.
move=> hn h hz; inversion h as [|s p args' ps' hs hargs e1 e2]; subst; first by [].
have hpre : forall i y, List.nth_error ps' i = Some y -> List.fold_left (@lcmq _) (List.firstn i ps') p != 0 \/ y != 0.
  move: hz; clear; elim: ps' p => [|q l IH] p hz i y; first by case: i.
  case: i => [[<-]|i].
    by move: hz => /=; case: eqP; case: eqP => //; [right|left|left].
  rewrite [List.nth_error _ _]/= [List.fold_left _ _ _]/= => hy; apply: IH hy.
  by move: hz => /=; case: eqP => [->|hp]; case: eqP => [->|hq] //=; rewrite lcmq_eq0; rewrite ?eqxx ?orbT //=;
    try (by left; apply/eqP); try (by right; apply/eqP); rewrite ?(introF eqP hp) ?(introF eqP hq).
exists (List.fold_left (@lcmq _) ps' p); split.
  by known "f2_p_lcm" f2_p_lcm_main; rewrite /f2_p_lcm_main (fold_f2 f2_lcm_enc hs hargs hpre).
move=> n; move: hpre; clear; elim: (ps') (p) => [|q l IH] r hpre; first by split=> [h1|h1]; [constructor|inversion h1; subst].
rewrite [List.fold_left _ _ _]/= IH; last by move=> i y; exact: (hpre (S i)).
have h0 := hpre O _ erefl; split=> h1; inversion h1 as [|x1 x2 h2 h3]; subst.
  by move: h2; rewrite lcmq_dvd // => /andP[h4 h5]; constructor=> //; constructor.
by inversion h3 as [|x1 x2 h4 h5]; subst; constructor=> //; rewrite lcmq_dvd // h2.
Qed.
(* with 0 twice at the front nothing is printed, although the exit status tells of success *)
Theorem C97_lcm_zero_refuted s1 s2 args : f2_rd s1 0 -> f2_rd s2 0 -> run "f2_p_lcm" (s1 :: s2 :: args) = ([::], Status 0).
Proof.
by move=> h1 h2; known "f2_p_lcm" f2_p_lcm_main; rewrite /f2_p_lcm_main /fold_main (f2_arg h1) pb_ret /= (f2_arg h2) pb_ret f2_lcm_00.
Qed.

(* without arguments these commands end with exit status 1; deg, period, factor and divisors print nothing and succeed *)
Theorem C97_no_arguments : Forall (fun name => run name [::] = ([::], Status 1))
    [:: "f2_p_gcd"; "f2_p_lcm"; "f2_p_totient"; "f2_p_test"; "f2_p_eval"; "f2_p_comp_mx"; "f2_p_list"; "f2_p_find"; "f2_p_random"; "f2_p_qp"]%string /\
  Forall (fun name => run name [::] = ([::], Status 0)) [:: "f2_p_deg"; "f2_p_period"; "f2_p_factor"; "f2_p_divisors"]%string.
Proof. by split; repeat constructor. Qed.
(* ---- the values at 0 and 1; an argument means 1 if it is odd ---- *)
Theorem C97_eval s p args vs : f2_rd s p -> (Z.of_nat (size p) <= INT_MAX - 64)%coqZ -> args <> nil -> Forall2 int_text args vs ->
  run "f2_p_eval" (s :: args) =
    (lines_of (fun v => if p.[(Z.odd v)%:R] == 1 then txt "1" else txt "0") vs, Status 0).
Proof.
move=> hs hp hn h; known "f2_p_eval" f2_p_eval_main; pose body := fun s => a <~ arg_bit s ;~ b <~ call (f2_eval_bit (f2_enc p) a) ;~ MSpiff.print (bit_put b) ;~~ nl.
have -> : f2_p_eval_main (s :: args) = (each body args ;~~ ret 0%coqZ).
  by rewrite /f2_p_eval_main; case: (args) hn => // a l _; rewrite (f2_arg hs) pb_ret.
have -> : each body args = (lines_of (fun v => if p.[(Z.odd v)%:R] == 1 then txt "1" else txt "0") vs, Val tt); last by rewrite pb_val emit_ret.
elim: h => [|s1 v l m hv _ IH] //; rewrite /lines_of /= -/(lines_of _ _) IH /body.
have [[r e] hr] := scan_ok _ _ hv; rewrite /arg_bit e.
have -> : (Z.abs v <=? 2 ^ 32 - 1)%coqZ = true by apply/Z.leb_le; move: hr; rewrite /INT_MIN /INT_MAX; clear; lia.
rewrite pb_ret; have [|b [-> hb]] := @PropF2Poly.C26_eval_bit _ p (Z.odd v) (f2_encP p).
  rewrite (len_P (f2_encP p)); move: hp; clear; set n := size p; move: (Nat.div_mod n.-1 64); lia.
rewrite pb_ok; have -> : p.[(Z.odd v)%:R] = PBits3.Ib b by rewrite hb; case: (Z.odd v).
by case: b {hb}.
Qed.
(* ---- the companion matrix: coefficients in the first row, leading one first, ones below the diagonal, and an empty line ---- *)
Theorem C97_companion s p : f2_rd s p -> (1 < size p)%N -> let n := (size p).-1 in
  run "f2_p_comp_mx" [:: s] = ((lines_of (fun i => unwords [seq txt (if (if i == 0%N then p`_(n - 1 - j) == 1 else j.+1 == i) then "1" else "0") | j <- iota 0 n]) (iota 0 n) ++
    line [::])%list, Status 0).
Proof.
move=> hs hp n; known "f2_p_comp_mx" f2_p_comp_mx_main; rewrite /f2_p_comp_mx_main (f2_arg hs) pb_ret (C49_f2_companion (f2_encP p)) hp pb_ok.
rewrite pb_print /nl /emit /=; congr ((_ ++ _)%list, _).
rewrite /mat_out /PLinalg2.mx_enc /lines_of -val_enum_ord; congr List.concat; rewrite !mapE -!map_comp; apply: eq_map => i.
rewrite /= vec_words; congr (line (unwords _)); rewrite mapE -!map_comp; apply: eq_map => j; rewrite /= /bit_el mxE.
case: ifP => _; first by rewrite oppr_eq0 -/n; case: (F2_case p`_(n - 1 - j)) => ->; rewrite ?eqxx ?oner_eq0 // eq_sym oner_eq0.
by case: (j.+1 == i :> nat); rewrite ?eqxx ?oner_eq0.
Qed.
(* ---- all polynomials of the degrees of a range, in ascending order ---- *)
Theorem C97_list s lo hi : range_text s lo hi -> (hi <= 30)%coqZ ->
  exists ps, [/\ run "f2_p_list" [:: s] = (lines_of f2_tx ps, Status 0), ascending (List.map f2_number ps) &
    forall p, In p ps <-> p != 0 /\ (lo <= deg p <= hi)%coqZ].
Proof.
move=> hs hh; known "f2_p_list" f2_p_list_main; rewrite /f2_p_list_main (range_ok _ _ _ hs) pb_ret /degrees [fst _]/= [snd _]/=.
have [hl hl2] : (0 <= lo <= INT_MAX)%coqZ by case: hs => [[/numeral_range]|[d1 [d2 [_ [/numeral_range]]]]].
have hsz (p : {poly 'F_2}) (d : nat) : size p = d.+1 <-> p != 0 /\ deg p = Z.of_nat d.
  by rewrite /deg -size_poly_gt0; case: (size p) => [|n] /=; split=> //; [case|case=> ->|case=> _ /Nat2Z.inj ->].
have [||d hd|xss [L [hR ->]]] := @over_lists unit _ f2_tx (fun d ps => ascending (List.map f2_number ps) /\ forall p, In p ps <-> p != 0 /\ deg p = d)
  (fun d _ => l <~ call (f2_poly_list d) ;~ show_lines show_f2 l) tt (Z.to_nat (hi - lo + 1)) lo.
- by move: hl; rewrite /INT_MIN; clear; lia.
- by move: hl hl2 hh; rewrite /INT_MAX; clear; lia.
- have [|ps [h1 h2 _ e]] := @PList3.f2_list_ok (Z.to_nat d); first by move: hl hh hd; clear; lia.
  rewrite Z2Nat.id in e; last by move: hl hd; clear; lia.
  exists ps; rewrite e pb_ok (lines_ok show_f2 f2_enc f2_tx f2_shw); split=> //; split.
    elim: (ps) h1 => [|p l IH] //; rewrite /= path_sortedE; last exact: ltn_trans.
    move=> /andP[/allP h1 h3]; split; last exact: IH.
    by move=> m /List.in_map_iff[q [<- /PropList.InP hq]]; have := h1 _ (map_f _ hq); rewrite /PList3.f2_num -!number_enc; clear; lia.
  move=> p; rewrite PropList.InP h2; split=> [/eqP/hsz[h3 h4]|[h3 h4]]; last by apply/eqP/hsz; rewrite h4 Z2Nat.id //; move: hl hd; clear; lia.
  by rewrite h4 Z2Nat.id //; move: hl hd; clear; lia.
exists (List.concat xss); rewrite pb_val emit_ret; split=> //.
  apply: (@asc_concat (fun d ps => ascending (List.map f2_number ps) /\ forall p, In p ps <-> p != 0 /\ deg p = d) xss lo hR) => [d xs [] //|d e ps qs' [_ h1] [_ h2] hde p q /h1[_ h3] /h2[q0 h4]].
  by apply: number_deg => //; rewrite h3 h4.
move=> p; rewrite List.in_concat; split=> [[ps [/(@List.In_nth_error _ _ _)[i hxi] hp]]|[p0 [h1 h2]]].
  have [_ h] := hR _ _ hxi; have [p0 ->] := (h p).1 hp; split=> //; split; first by clear; lia.
  have : List.nth_error xss i <> None by rewrite hxi.
  by move=> /List.nth_error_Some; rewrite L; move: hl; clear; lia.
case e : (List.nth_error xss (Z.to_nat (deg p - lo))) => [ps|].
  exists ps; split; first exact: List.nth_error_In e.
  by apply/(hR _ _ e).2; split=> //; move: h1; clear; lia.
by move: e => /List.nth_error_None; rewrite L; move: h1 h2; clear; lia.
Qed.
(* a degree above 30: undefined, but for degree 31, where nothing more is printed; both after the lower degrees *)
Theorem C97_list_refuted s d : range_text s d d -> (31 <= d)%coqZ -> run "f2_p_list" [:: s] = ([::], if (d =? 31)%coqZ then Status 0 else Undefined).
Proof.
move=> hs hd; known "f2_p_list" f2_p_list_main; rewrite /f2_p_list_main (range_ok _ _ _ hs) pb_ret /degrees [fst _]/= [snd _]/=.
have -> : Z.to_nat (d - d + 1) = 1%N by clear; lia.
cbn [MSpiff2.over]; rewrite PropList.C47_f2_poly_bad; last by right.
by case: (d =? 31)%coqZ.
Qed.
(* ---- random polynomials: n of degree d, from the random bits in turn ---- *)
Theorem C97_random s1 s2 (d : nat) n : int_text s1 (Z.of_nat d) -> int_text s2 n ->
  run "f2_p_random" [:: s1; s2] = (lines_of (fun k => f2_tx (rnd2 draw d (iter (k * d) (next draw) s0))) (List.seq 0 (Z.to_nat n)), Status 0).
Proof.
move=> h1 h2; known "f2_p_random" (f2_p_random_main draw s0); rewrite /f2_p_random_main (arg_int_ok _ _ h1) pb_ret (arg_int_ok _ _ h2) pb_ret.
rewrite (times_ok _ _ _ (fun k => iter (k * d) (next draw) s0) (fun k => line (f2_tx (rnd2 draw d (iter (k * d) (next draw) s0))))) //.
  by rewrite pb_val emit_ret.
move=> i _; rewrite PropRandom.C84_f2_poly pb_ok f2_shw pb_print [(i + 1)%coq_nat]/=.
have -> : iter ((i + 1)%coq_nat * d) (next draw) s0 = iter d (next draw) (iter (i * d) (next draw) s0) by rewrite -iterD; congr iter; clear; lia.
by rewrite /nl pb_print emit_ret.
Qed.
Theorem C97_random_one s1 : run "f2_p_random" [:: s1] = run "f2_p_random" [:: s1; txt "1"].
Proof.
known "f2_p_random" (f2_p_random_main draw s0); known "f2_p_random" (f2_p_random_main draw s0).
by rewrite /f2_p_random_main.
Qed.
(* a negative degree: nothing is printed, although the exit status tells of success *)
Theorem C97_random_refuted s1 d : int_text s1 d -> (d < 0)%coqZ -> run "f2_p_random" [:: s1] = ([::], Status 0).
Proof.
move=> h hd; known "f2_p_random" (f2_p_random_main draw s0); rewrite /f2_p_random_main (arg_int_ok _ _ h) pb_ret.
by rewrite /= PropRandom.C84_f2_poly_neg.
Qed.
End Run.

Section Mask.
(* t: the mask, which the code does not initialise *)
Context (t : N) (c : cache) (other : string -> list text -> prog Z) (qs : list (intmod * Z) -> list (intmod * Z)) (St : Type)
  (draw : St -> Z * St) (fuel : nat) (s0 : St).
Local Notation run name args := (spiff (poly_handler (Some t) c draw fuel s0 other) qs draw s0 (txt name :: args)).
Ltac known n h := rewrite (@PropSpiff.run_eq _ qs St draw s0 n _ h erefl erefl erefl).

(* ---- the number of units ---- *)
Theorem C97_totient_partial args ps : args <> nil -> Forall2 f2_rd args ps -> Forall (fun p => p != 0 /\ (deg p <= 30)%coqZ) ps ->
  run "f2_p_totient" args = (listing f2_tx (many ps) ": " ps (List.map (fun p => put_int (Z.of_nat (units p))) ps), Status 0).
Proof.
move=> hn h hp; known "f2_p_totient" (f2_p_totient_main (Some t)).
have -> : f2_p_totient_main (Some t) args = (per_first arg_f2 show_f2 (several args) ": " (f2_totient (Some t)) args ;~~ ret 0%coqZ) by case: (args) hn.
rewrite (several_many _ _ _ h) (@first_f2 _ _ _ _ _ (List.map (fun p => Z.of_nat (units p)) ps) h) ?pb_val ?emit_ret ?List.map_map //.
apply: F2_map; elim: hp => [|p l [p0 hd] _ IH]; constructor=> //; exact: PropF2Fac.C30_totient_partial (f2_encP p) p0 hd.
Qed.
(* ---- irreducibility and primitivity ---- *)
Theorem C97_test_partial o di dp args ps : In (o, (di, dp)) options -> args <> nil -> Forall2 f2_rd args ps ->
  Forall (fun p => (deg p <= if dp then 30 else INT_MAX)%coqZ) ps ->
  exists bs, Forall2 (fun p b => (di = true -> (b.1 = true <-> irreducible_poly p)) /\ (dp = true -> (b.2 = true <-> x_generates p))) ps bs /\
    run "f2_p_test" (txt o :: args) = (listing f2_tx true ": " ps (List.map (fun b => unwords (test_words di dp b)) bs), Status 0).
Proof.
move=> ho hn h hp; pose body := fun a => (if di then b <~ call (f2_is_irreducible (Some t) a) ;~ say (if b : bool then "IRREDUCIBLE" else "reducible") else ret tt) ;~~
  (if di && dp then say " " else ret tt) ;~~
  (if dp then b <~ call (f2_is_primitive (Some t) a) ;~ say (if b : bool then "PRIMITIVE" else "imprimitive") else ret tt) ;~~ nl.
have [p hd|bs [h1 h2]] := @F_choose _ _ (fun p (b : bool * bool) => (di = true -> (b.1 = true <-> irreducible_poly p)) /\ (dp = true -> (b.2 = true <-> x_generates p)))
  (fun p b => body (f2_enc p) = (line (unwords (test_words di dp b)), Val tt)) _ _ hp.
  have hi : (deg p <= INT_MAX)%coqZ by case: (dp) hd => // /Z.le_trans; apply.
  have [b1 [e1 hb1]] := PropF2Fac.C29_is_irreducible_partial t (f2_encP p) hi.
  rewrite /body; case: (dp) hd => hd.
    have [b2 [e2 hb2]] := PropUnits.C31_primitive_partial t (f2_encP p) hd.
    by exists (b1, b2); split=> //; rewrite e1 e2 !pb_ok; case: (di); case: (b1) (b2) => -[].
  by exists (b1, true); split=> //; rewrite e1 !pb_ok; case: (di) ho => ho; first case: (b1); last by case: ho => [|[|[]]].
exists bs; split=> //; known "f2_p_test" (f2_p_test_main (Some t)).
have -> : f2_p_test_main (Some t) (txt o :: args) = (per arg_f2 show_f2 true ": " body args ;~~ ret 0%coqZ).
  by rewrite /f2_p_test_main; case: (args) hn => // a l _; rewrite (arg_options ho) pb_ret.
by rewrite (per_f2 _ _ h (F2_map h2)) pb_val emit_ret.
Qed.
(* ---- the period of x ---- *)
Theorem C97_period_partial args ps : Forall2 f2_rd args ps -> Forall (fun p => p != 0 /\ (deg p <= 15)%coqZ) ps ->
  exists ks, Forall2 (fun p k => if coprimep p 'X then x_order p k else k = 0%N) ps ks /\
    run "f2_p_period" args = (listing f2_tx (many ps) ": " ps (List.map (fun k => put_int (Z.of_nat k)) ks), Status 0).
Proof.
move=> h hp.
have [p [p0 hd]|ks [h1 h2]] := @F_choose _ _ (fun p k => if coprimep p 'X then x_order p k else k = 0%N)
  (fun p k => (v <~ call (f2_period (Some t) (f2_enc p)) ;~ show v ;~~ nl) = (line (put_int (Z.of_nat k)), Val tt)) _ _ hp.
  have := PropUnits.C57_period_partial t (f2_encP p) p0 hd; case: (coprimep p 'X) => [[k [e hk]]|e]; first by exists k; rewrite e pb_ok.
  by exists 0%N; rewrite e pb_ok.
exists ks; split=> //; known "f2_p_period" (f2_p_period_main (Some t)).
by rewrite /f2_p_period_main (several_many _ _ _ h) (per_f2 _ _ h (F2_map h2)) pb_val emit_ret.
Qed.
(* ---- factorisation ---- *)
(* The factors are irreducible, in ascending order, and their product is the argument; the program's own check passes. *)
Theorem C97_factor_partial args ps : Forall2 f2_rd args ps -> Forall (fun p => p != 0 /\ (deg p <= INT_MAX)%coqZ) ps ->
  exists fss, Forall2 f2_factors ps fss /\
    run "f2_p_factor" args = (listing f2_tx (many ps) " = " ps (List.map fac_text fss), Status 0).
Proof.
move=> h hp.
have [p [p0 hd]|fss [h1 h2]] := @F_choose _ _ f2_factors
  (fun p fs => factor_body show_f2 f2_fops (f2_of_int 1) (f2_factor (Some t)) f2_neqb (f2_enc p) = (line (fac_text fs), Val tt)) _ _ hp.
  have [fs [e hf]] := f2_factor_enc t p0 hd; exists fs; split=> //.
  rewrite /factor_body e pb_ok (f2_facinfo hf) pb_val (f2_unfactor_enc p0 hf) pb_ok (neqb_P (isP_W (f2_encP p)) (isP_W (f2_encP p))) eqxx pb_ok.
  by [].
exists fss; split=> //; known "f2_p_factor" (f2_p_factor_main (Some t)).
by rewrite /f2_p_factor_main (several_many _ _ _ h) (per_f2 _ _ h (F2_map h2)) pb_val emit_ret.
Qed.
(* ---- divisors ---- *)
Theorem C97_divisors_partial args ps : Forall2 f2_rd args ps -> Forall (fun p => p != 0 /\ (deg p <= 30)%coqZ) ps ->
  exists dss, Forall2 (fun p ds => ascending (List.map f2_number ds) /\ forall d, In d ds <-> d %| p) ps dss /\
    run "f2_p_divisors" args = (listing f2_tx (many ps) ": " ps (List.map (fun ds => unwords (List.map f2_tx ds)) dss), Status 0).
Proof.
move=> h hp.
have [p [p0 hd]|dss [h1 h2]] := @F_choose _ _ (fun p ds => ascending (List.map f2_number ds) /\ forall d, In d ds <-> d %| p)
  (fun p ds => divisors_body show_f2 f2_fops (f2_of_int 1) (f2_factor (Some t)) false (f2_enc p) = (line (unwords (List.map f2_tx ds)), Val tt)) _ _ hp.
  have [|fs [e hf]] := f2_factor_enc t p0; first exact: Z.le_trans hd _.
  have [ds [e2 h1 h2]] := f2_divisors_enc p0 hf hd; exists ds; split=> //.
  by rewrite /divisors_body e pb_ok e2 bind_ok pb_ok (words_ok show_f2 f2_enc f2_tx f2_shw).
exists dss; split=> //; known "f2_p_divisors" (f2_p_divisors_main (Some t)).
have -> : f2_p_divisors_main (Some t) args = (per arg_f2 show_f2 (several args) ": " (divisors_body show_f2 f2_fops (f2_of_int 1) (f2_factor (Some t)) false) args ;~~ ret 0%coqZ).
  by rewrite /f2_p_divisors_main; case: h => // s p l m hs _; rewrite (hex_text_not _ _ "-mp" "-"%char hs).
by rewrite (several_many _ _ _ h) (per_f2 _ _ h (F2_map h2)) pb_val emit_ret.
Qed.
(* -mp: the maximal proper divisors *)
Theorem C97_maximal_partial args ps : Forall2 f2_rd args ps -> Forall (fun p => p != 0 /\ (deg p <= 30)%coqZ) ps ->
  exists os, Forall2 (fun p o => if p == 1 then o = None
      else exists ds, o = Some ds /\ ascending (List.map f2_number ds) /\ forall d, In d ds <-> exists q, irreducible_poly q /\ q * d = p) ps os /\
    run "f2_p_divisors" (txt "-mp" :: args) = (listing f2_tx (many ps) ": " ps
      (List.map (fun o => if o is Some ds then unwords (List.map f2_tx ds) else txt "(none)") os), Status 0).
Proof.
move=> h hp.
have [p [p0 hd]|os [h1 h2]] := @F_choose _ _ (fun p o => if p == 1 then o = None
      else exists ds, o = Some ds /\ ascending (List.map f2_number ds) /\ forall d, In d ds <-> exists q, irreducible_poly q /\ q * d = p)
  (fun p o => divisors_body show_f2 f2_fops (f2_of_int 1) (f2_factor (Some t)) true (f2_enc p) = (line (if o is Some ds then unwords (List.map f2_tx ds) else txt "(none)"), Val tt)) _ _ hp.
  have [|fs [e hf]] := f2_factor_enc t p0; first exact: Z.le_trans hd _.
  have := f2_maximal_enc p0 hf hd; rewrite /divisors_body e pb_ok; case: (p == 1) => [e2|[ds [e2 h1 h2]]].
    by exists None; rewrite e2 pb_ok.
  by exists (Some ds); rewrite e2 pb_ok (words_ok show_f2 f2_enc f2_tx f2_shw); split=> //; exists ds.
exists os; split=> //; known "f2_p_divisors" (f2_p_divisors_main (Some t)).
have -> : f2_p_divisors_main (Some t) (txt "-mp" :: args) = (per arg_f2 show_f2 (several args) ": " (divisors_body show_f2 f2_fops (f2_of_int 1) (f2_factor (Some t)) true) args ;~~ ret 0%coqZ) by [].
by rewrite (several_many _ _ _ h) (per_f2 _ _ h (F2_map h2)) pb_val emit_ret.
Qed.
(* every polynomial divides 0; for 0 the only divisor printed is 1 *)
Theorem C97_divisors_zero_refuted s : f2_rd s 0 -> run "f2_p_divisors" [:: s] = (line (txt "1"), Status 0).
Proof.
move=> h; known "f2_p_divisors" (f2_p_divisors_main (Some t)); rewrite /f2_p_divisors_main (hex_text_not _ _ "-mp" "-"%char h) //.
by rewrite /per /= (f2_arg h) pb_ret enc0.
Qed.
(* ---- the lowest irreducible or primitive polynomial of each degree ---- *)
Definition wanted (di dp : bool) (p : {poly 'F_2}) : Prop := (di = true -> irreducible_poly p) /\ (dp = true -> x_generates p).
Theorem C97_find_partial o di dp s lo hi : In (o, (di, dp)) options -> range_text s lo hi -> (if dp then 1 <= lo /\ hi <= 30 else 2 <= lo /\ hi < INT_MAX)%coqZ ->
  exists ps, run "f2_p_find" [:: txt "-1"; txt o; s] = (lines_of f2_tx ps, Status 0) /\ length ps = Z.to_nat (hi - lo + 1) /\
    forall i p, List.nth_error ps i = Some p -> [/\ deg p = (lo + Z.of_nat i)%coqZ, wanted di dp p &
      forall q : {poly 'F_2}, size q = size p -> wanted di dp q -> (f2_number p <= f2_number q)%num].
Proof.
move=> ho hs hh; known "f2_p_find" (f2_p_find_main (Some t) draw fuel s0).
have -> : f2_p_find_main (Some t) draw fuel s0 [:: txt "-1"; txt o; s] = (degrees (lo, hi) (find_step (Some t) draw fuel false (di, dp)) s0 ;~~ ret 0%coqZ).
  by rewrite /f2_p_find_main (arg_options ho) (range_ok _ _ _ hs) !pb_ret.
rewrite /degrees.
have [hl hl2] : (0 <= lo <= INT_MAX)%coqZ by case: hs => [[/numeral_range]|[d1 [d2 [_ [/numeral_range]]]]].
set body := find_step _ _ _ _ _; rewrite [fst _]/= [snd _]/=.
pose R d p := [/\ deg p = d, wanted di dp p & forall q : {poly 'F_2}, size q = size p -> wanted di dp q -> (f2_number p <= f2_number q)%num].
have hlt p q : f2_ltb (f2_enc q) (f2_enc p) = Ok false -> (f2_number p <= f2_number q)%num.
  by rewrite PList3.f2_Hlt /PList3.f2_num !number_enc => -[]; clear; lia.
have hf d : (lo <= d < lo + Z.of_nat (Z.to_nat (hi - lo + 1)))%coqZ -> exists p, body d s0 = (line (f2_tx p), Val s0) /\ R d p.
  move=> hd; have ed : d = Z.of_nat (Z.to_nat d) by rewrite Z2Nat.id //; move: hl hd; clear; lia.
  rewrite /body /find_step /=; case edp : dp hh => hh.
    have [||r [p [e hp hsz hw hm]]] := @PropUnits.C57_find_prim_partial t (Z.to_nat d) di; [move: hh hd; clear; lia|move: hh hd; clear; lia|].
    exists p; rewrite ed e bind_ok pb_ok (f2_encE hp) f2_shw; split=> //; split=> [||q hq hwq].
    - by rewrite /deg hsz.
    - by split; [case: hw|case: hw].
    by apply: hlt; rewrite -(f2_encE hp); apply: hm (f2_encP q) _ _; [rewrite hq|case: hwq => h1 h2; split=> //; exact: h2].
  have edi : di = true by move: ho; rewrite edp => -[[_ ->]|[[_ _ //]|[[_ _ //]|[]]]].
  have [||r [p [e hp hsz hw hm]]] := @PropF2Fac.C29_find_irreducible_partial t (Z.to_nat d); [move: hh hd; clear; lia|move: hh hd; clear; lia|].
  exists p; rewrite ed e bind_ok pb_ok (f2_encE hp) f2_shw; split=> //; split=> [||q hq hwq].
  - by rewrite /deg hsz.
  - by split=> //; rewrite edp.
  by apply: hlt; rewrite -(f2_encE hp); apply: hm (f2_encP q) _ _; [rewrite hq|case: hwq => h _; exact: h].
have hb : (lo + Z.of_nat (Z.to_nat (hi - lo + 1)) <= INT_MAX)%coqZ by move: hl2 hh; case: (dp); rewrite /INT_MAX; clear; lia.
have [||d hd|xss [L [hR ->]]] := @over_lists St _ f2_tx (fun d ps => exists p, ps = [:: p] /\ R d p) body s0 (Z.to_nat (hi - lo + 1)) lo.
- by move: hl; rewrite /INT_MIN; clear; lia.
- exact: hb.
- by have [p [e hp]] := hf d hd; exists [:: p]; rewrite e /lines_of /= List.app_nil_r; split=> //; exists p.
exists (List.concat xss); rewrite pb_val emit_ret; split=> //; rewrite -L; move: hR; clear; elim: xss lo => [|xs xss IH] lo hR; first by split=> // -[].
have [p [ep hp]] := hR O xs erefl; have [|h1 h2] := IH (lo + 1)%coqZ.
  by move=> i ys h; have [q [eq hq]] := hR i.+1 ys h; exists q; split=> //; move: hq; congr R; clear; lia.
by rewrite ep /= h1; split=> // -[|i] q /=; [move=> [<-]; move: hp; congr R; clear; lia|move=> /h2; congr R; clear; lia].
Qed.
(* degree 1: x + 1 is printed although x, which is lower, is irreducible *)
Theorem C97_find_refuted s : range_text s 1 1 -> run "f2_p_find" [:: txt "-1"; txt "-i"; s] = (line (txt "3"), Status 0).
Proof. by move=> hs; known "f2_p_find" (f2_p_find_main (Some t) draw fuel s0); rewrite /f2_p_find_main (range_ok _ _ _ hs). Qed.
(* -r: what is printed is irreducible or primitive, and of the degrees asked for; the search may not end *)
Theorem C97_find_random_partial o di dp s lo hi : In (o, (di, dp)) options -> range_text s lo hi -> (1 <= lo /\ hi <= if dp then 30 else INT_MAX - 1)%coqZ ->
  exists ps st, run "f2_p_find" [:: txt "-r"; txt o; s] = (lines_of f2_tx ps, st) /\
    (forall i p, List.nth_error ps i = Some p -> deg p = (lo + Z.of_nat i)%coqZ /\ wanted di dp p) /\
    (st = Endless \/ st = Status 0 /\ length ps = Z.to_nat (hi - lo + 1)).
Proof.
move=> ho hs hh; known "f2_p_find" (f2_p_find_main (Some t) draw fuel s0).
have -> : f2_p_find_main (Some t) draw fuel s0 [:: txt "-r"; txt o; s] = (degrees (lo, hi) (find_step (Some t) draw fuel true (di, dp)) s0 ;~~ ret 0%coqZ).
  by rewrite /f2_p_find_main (arg_options ho) (range_ok _ _ _ hs) !pb_ret.
rewrite /degrees.
have [hl hl2] : (0 <= lo <= INT_MAX)%coqZ by case: hs => [[/numeral_range]|[d1 [d2 [_ [/numeral_range]]]]].
set body := find_step _ _ _ _ _; rewrite [fst _]/= [snd _]/=.
have hb : (lo + Z.of_nat (Z.to_nat (hi - lo + 1)) <= INT_MAX)%coqZ by move: hl2 hh; case: (dp); rewrite /INT_MAX; clear; lia.
have [||d s' hd|ps [f [-> [hR hf]]]] := @over_search St _ f2_tx (fun d p => deg p = d /\ wanted di dp p) body (Z.to_nat (hi - lo + 1)) lo s0.
- by move: hl; rewrite /INT_MIN; clear; lia.
- exact: hb.
- have ed : d = Z.of_nat (Z.to_nat d) by rewrite Z2Nat.id //; move: hl hd; clear; lia.
  rewrite /body /find_step /=; case edp : dp hh => hh.
    have [||e|[p [k [e hsz hw hi']]]] := @PropRandom.C84_f2_prim_result_partial St draw t (Z.to_nat d) fuel di s'; [move: hh hd; clear; lia|move: hh hd; clear; lia| |].
      by left; rewrite ed e.
    set st := iter _ _ _ in e; right; exists p, st; move: st e => st e; rewrite ed e pb_ok f2_shw; split=> //; split; first by rewrite /deg hsz.
    by split.
  have edi : di = true by move: ho; rewrite edp => -[[_ ->]|[[_ _ //]|[[_ _ //]|[]]]].
  have [||e|[p [k [e hsz hw hi']]]] := @PropRandom.C84_f2_irr_result St draw t (Z.to_nat d) fuel s'; [move: hh hd; clear; lia|move: hh hd; clear; lia| |].
    by left; rewrite ed e.
  set st := iter _ _ _ in e; right; exists p, st; move: st e => st e; rewrite ed e pb_ok f2_shw; split=> //; split; first by rewrite /deg hsz.
  by split.
exists ps; case: hf => [->|[s' [-> L]]]; [exists Endless|exists (Status 0)]; rewrite ?pb_val ?emit_ret; split=> //; split=> //; [by left|by right].
Qed.
End Mask.

(* ---- without a value for the mask, the factoring of a separable reducible polynomial is undefined ---- *)
Section NoMask.
Context (c : cache) (other : string -> list text -> prog Z) (qs : list (intmod * Z) -> list (intmod * Z)) (St : Type)
  (draw : St -> Z * St) (fuel : nat) (s0 : St).
Local Notation run name args := (spiff (poly_handler None c draw fuel s0 other) qs draw s0 (txt name :: args)).
Ltac known n h := rewrite (@PropSpiff.run_eq _ qs St draw s0 n _ h erefl erefl erefl).
Theorem C97_mask_refuted s p : f2_rd s p -> separable_poly p -> (1 < size p)%N -> ~ irreducible_poly p -> ((size p).-1 %% 64)%N <> 0%N ->
  [/\ run "f2_p_factor" [:: s] = ([::], Undefined), run "f2_p_divisors" [:: s] = ([::], Undefined), run "f2_p_totient" [:: s] = ([::], Undefined) &
      run "f2_p_test" [:: txt "-i"; s] = ((f2_tx p ++ txt ": ")%list, Undefined)].
Proof.
move=> hs h1 h2 h3 h4.
have e1 := PropF2Fac.C28_factor_refuted (f2_encP p) h1 h2 h3 h4.
have e2 := PropF2Fac.C29_is_irreducible_refuted (f2_encP p) h1 h2 h3 h4.
have e3 := PropF2Fac.C30_totient_refuted (f2_encP p) h1 h2 h3 h4.
split.
- known "f2_p_factor" (f2_p_factor_main None); rewrite /f2_p_factor_main /per /= (f2_arg hs) pb_ret /factor_body e1.
  by [].
- known "f2_p_divisors" (f2_p_divisors_main None); rewrite /f2_p_divisors_main (hex_text_not _ _ "-mp" "-"%char hs) // /per /= (f2_arg hs) pb_ret /divisors_body e1.
  by [].
- known "f2_p_totient" (f2_p_totient_main None); rewrite /f2_p_totient_main /per_first /= (f2_arg hs) pb_ret e3.
  by [].
known "f2_p_test" (f2_p_test_main None); rewrite /f2_p_test_main /per /= pb_ret /= (f2_arg hs) pb_ret e2 f2_shw.
by rewrite /label pb_print /pbind /emit /= ?List.app_nil_r.
Qed.
End NoMask.

(* x^4 + x + 1, x^2 + x, x^3 + x, 0 *)
Example C97_ex : let d := fun s : Z => (s, (s + 12345)%coqZ) in
  let run name args := let '(t, st) := spiff (poly_handler (Some 0%num) cache_init d 5 0%coqZ (fun _ _ => usage)) (fun l => l) d 0%coqZ
    (txt name :: List.map txt args) in (string_of_list_ascii t, st) in
  let nl := String "010"%char "" in
  [/\ [/\ run "f2_p_deg" [:: "13"; " 6x"; "0"]%string = (("13: 4" ++ nl ++ "6: 2" ++ nl ++ "0: 0" ++ nl)%string, Status 0),
       run "f2_p_gcd" [:: "6"; "a"; "14"]%string = (("6" ++ nl)%string, Status 0),
       run "f2_p_gcd" [:: "-e"; "13"; "6"]%string = (("1 = 1 * 13 + 7 * 6" ++ nl)%string, Status 0),
       run "f2_p_lcm" [:: "6"; "a"]%string = (("a" ++ nl)%string, Status 0) &
       run "f2_p_totient" [:: "13"]%string = (("15" ++ nl)%string, Status 0)],
     [/\ run "f2_p_test" [:: "-ip"; "13"; "5"]%string = (("13: IRREDUCIBLE PRIMITIVE" ++ nl ++ "5: reducible PRIMITIVE" ++ nl)%string, Status 0),
       run "f2_p_period" [:: "1f"]%string = (("5" ++ nl)%string, Status 0),
       run "f2_p_factor" [:: "a"; "1"]%string = (("a = 2 3^2" ++ nl ++ "1 = 1" ++ nl)%string, Status 0),
       run "f2_p_divisors" [:: "a"]%string = (("1 2 3 5 6 a" ++ nl)%string, Status 0) &
       run "f2_p_divisors" [:: "-mp"; "a"; "1"]%string = (("a: 5 6" ++ nl ++ "1: (none)" ++ nl)%string, Status 0)],
     [/\ run "f2_p_eval" [:: "13"; "0"; "1"; "-2"]%string = (("1" ++ nl ++ "1" ++ nl ++ "1" ++ nl)%string, Status 0),
       run "f2_p_comp_mx" [:: "b"]%string = (("0 1 1" ++ nl ++ "1 0 0" ++ nl ++ "0 1 0" ++ nl ++ nl)%string, Status 0),
       run "f2_p_list" [:: "1-2"]%string = (("2" ++ nl ++ "3" ++ nl ++ "4" ++ nl ++ "5" ++ nl ++ "6" ++ nl ++ "7" ++ nl)%string, Status 0),
       run "f2_p_find" [:: "-1"; "-ip"; "3-5"]%string = (("b" ++ nl ++ "13" ++ nl ++ "25" ++ nl)%string, Status 0) &
       run "f2_p_random" [:: "4"; "3"]%string = (("10" ++ nl ++ "10" ++ nl ++ "11" ++ nl)%string, Status 0)] &
     [/\ hex_text (txt " 6x") 6, range_text (txt "3-5") 3 5, f2_rd (txt "2") 'X & f2_rd (txt "6") ('X^2 + 'X)]].
Proof.
split; [by split; vm_compute|by split; vm_compute|by split; vm_compute|].
have h n s : Forall xd s -> s <> nil -> hexs s = n -> hex_text s n by move=> h1 h2 h3; exists nil, s, nil; rewrite List.app_nil_r; do 5 (split; first by []).
split.
- exists [:: " "%char], [:: "6"%char], [:: "x"%char]; split=> //; split; first by repeat constructor.
  by split; first by repeat constructor.
- right; exists (txt "3"), (txt "5"); split=> //; split; (split; [by []|split; [by repeat constructor|by []]]).
- apply: h; [by repeat constructor|by []|].
  by rewrite /f2_number polyseqX.
apply: h; [by repeat constructor|by []|].
have -> : 'X^2 + 'X = Poly [:: 0; 1; 1] :> {poly 'F_2} by rewrite /= !cons_poly_def mul0r add0r polyC0 addr0 mulrDl mul1r expr2.
by rewrite /f2_number (@PolyK _ 0).
Qed.

Print Assumptions C97_text.
Print Assumptions C97_deg.
Print Assumptions C97_gcd.
Print Assumptions C97_ext_gcd.
Print Assumptions C97_lcm.
Print Assumptions C97_totient_partial.
Print Assumptions C97_test_partial.
Print Assumptions C97_period_partial.
Print Assumptions C97_factor_partial.
Print Assumptions C97_divisors_partial.
Print Assumptions C97_maximal_partial.
Print Assumptions C97_eval.
Print Assumptions C97_companion.
Print Assumptions C97_list.
Print Assumptions C97_find_partial.
Print Assumptions C97_find_random_partial.
Print Assumptions C97_random.
Print Assumptions C97_mask_refuted.
