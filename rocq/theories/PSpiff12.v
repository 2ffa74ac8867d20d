(* The commands on polynomials over a finite field: what they print. *)
From Verif Require Import Base MIntMath MMat MFac MPoly MPolyFac MTextIO MSpiff MSpiff2 PSpiff PSpiff2 PSpiff3 PSpiff7.
From Coq Require Import Ascii String.
From mathcomp Require Import all_ssreflect all_algebra finfield ssrZ zify.
From Verif Require Import PMat PPoly PPoly2 PPoly3 PFacPoly PPolyFac PPolyFac2 PPolyFac3 PSpiff8 PSpiff9 PSpiff11 PropSpiff3.
From Verif Require PropList.
Set Implicit Arguments.
Unset Strict Implicit.
Unset Printing Implicit Defensive.
Import GRing.Theory.
Delimit Scope Z_scope with coqZ.
Local Open Scope ring_scope.
Local Notation length := List.length.
Local Notation Forall2 := List.Forall2.
Local Notation Forall := List.Forall.
Local Notation In := List.In.

Section Lines.
Variables (K : fieldType) (num : {poly K} -> nat) (tx : {poly K} -> text).
(* the line of the monic divisors of p, in ascending order *)
Definition divisors_line (p : {poly K}) (t : text) : Prop :=
  exists ds, [/\ sorted ltn [seq num d | d <- ds], forall d, In d ds <-> d \is monic /\ d %| p & t = unwords (List.map tx ds)].
(* the line of the quotients of p by its monic irreducible factors *)
Definition maximal_line (p : {poly K}) (t : text) : Prop :=
  if (size p <= 1)%N then t = txt "(none)"
  else exists ds, [/\ sorted ltn [seq num d | d <- ds],
    forall d, In d ds <-> exists q, [/\ q \is monic, irreducible_poly q & q * d = p] & t = unwords (List.map tx ds)].
Definition test_line (p : {poly K}) (t : text) : Prop :=
  exists b : bool, (b = true <-> irreducible_poly p) /\ t = txt (if b then "IRREDUCIBLE" else "reducible").
(* the lowest irreducible polynomial of degree d *)
Definition lowest (d : Z) (p : {poly K}) : Prop :=
  [/\ deg p = d, p \is monic, irreducible_poly p & forall q : {poly K}, size q = size p -> irreducible_poly q -> (num p <= num q)%N].
End Lines.

Lemma size_30 (n : nat) : (Z.of_nat n.-1 <= 30)%coqZ -> (Z.of_nat n <= INT_MAX)%coqZ.
Proof. by rewrite /INT_MAX; case: n => [|n] //=; lia. Qed.

Section Gen.
Variables (A : Type) (o : kops A) (F : finFieldType) (V : A -> Prop) (I : A -> F) (kv : A -> nat).
Hypothesis spec : kspec o V I kv.
Hypothesis dflt : forall z, R V I z 0 -> exists z1, k_int o (k_dflt o) 0 = Ok z1 /\ c_eqb (k_c o) z z1 = Ok false.
Local Notation q := #|F|.
Hypothesis kvq : forall x, V x -> (kv x < q)%N.
Hypothesis kv0 : forall x, V x -> (kv x == 0)%N = (I x == 0).
Variables (fp : facpar A) (cst : Z -> F) (pc : nat).
Hypothesis fs : fspec V I fp cst pc.
Variables (enc : {poly F} -> list A) (num : {poly F} -> nat).
Hypothesis encG : forall p, PPoly.isG V I (enc p) p.
Hypothesis hnum : forall p, gval kv q (enc p) = num p.
Variables (arg : text -> prog (list A)) (shw : list A -> prog unit) (rd : text -> {poly F} -> Prop) (tx : {poly F} -> text).
Hypothesis Harg : forall s x, rd s x -> arg s = ret (enc x).
Hypothesis Hshw : forall x, shw (enc x) = MSpiff.print (tx x).
Variable mkone : res (list A).
Hypothesis hone : mkone = Ok (enc 1).

Lemma neq_enc (p : {poly F}) : gp_neqb o (enc p) (enc p) = Ok false.
Proof. by rewrite (neqb_ok spec (encG p) (encG p)) eqxx. Qed.
Lemma deg_per sev args ps : Forall2 rd args ps ->
  per arg shw sev ": " (fun a => show (Z.of_nat (gp_degree a)) ;~~ nl) args = (listing tx sev ": " ps (List.map (fun p => put_int (deg p)) ps), Val tt).
Proof.
move=> h; apply: (per_ok arg shw enc rd tx Harg Hshw) h _.
by apply: F2_map; elim: ps => [|p l IH]; constructor=> //; rewrite (degree_enc encG).
Qed.
Lemma test_per irr sev args ps : (forall p : {poly F}, (Z.of_nat (size p) <= INT_MAX)%coqZ -> exists b, irr (enc p) = Ok b /\ (b = true <-> irreducible_poly p)) ->
  Forall2 rd args ps -> Forall (fun p => Z.of_nat (size (p : {poly F})) <= INT_MAX)%coqZ ps ->
  exists ts, Forall2 (@test_line F) ps ts /\ per arg shw sev ": " (test_body irr) args = (listing tx sev ": " ps ts, Val tt).
Proof.
move=> hi h hp.
have [p /hi[b [e hb]]|ts [h1 h2]] := @F_choose _ _ (@test_line F) (fun p t => test_body irr (enc p) = (line t, Val tt)) _ _ hp.
  by exists (txt (if b then "IRREDUCIBLE" else "reducible")); split; [exists b|rewrite /test_body e pb_ok; case: (b)].
by exists ts; split=> //; exact: (per_ok arg shw enc rd tx Harg Hshw) h h2.
Qed.
Definition gfactor_body (a : list A) : prog unit :=
  finfo <~ call (gp_factor o fp a) ;~ show_facinfo shw finfo ;~~ nl ;~~
  one <~ call mkone ;~ check <~ call (unfactor (gp_fops o) finfo one) ;~ b <~ call (gp_neqb o check a) ;~
  if b : bool then ([::], Exit 1) else ret tt.
Lemma factor_per sev args ps : Forall2 rd args ps -> Forall (fun p => Z.of_nat (size (p : {poly F})) <= INT_MAX)%coqZ ps ->
  exists ts, Forall2 (fun p t => exists l, factors_of num p l /\ t = factor_line tx p l) ps ts /\
    per arg shw sev " = " gfactor_body args = (listing tx sev " = " ps ts, Val tt).
Proof.
move=> h hp.
have [p hd|ts [h1 h2]] := @F_choose _ _ (fun p t => exists l, factors_of num p l /\ t = factor_line tx p l) (fun p t => gfactor_body (enc p) = (line t, Val tt)) _ _ hp.
  have [l [e hf]] := factor_enc spec dflt kvq kv0 fs encG hnum hd; exists (factor_line tx p l); split; first by exists l.
  rewrite /gfactor_body e pb_ok (facinfo_enc Hshw) pb_val hone pb_ok (unfactor_enc spec kvq kv0 encG hnum Harg Hshw erefl hf) pb_ok neq_enc pb_ok.
  by [].
by exists ts; split=> //; exact: (per_ok arg shw enc rd tx Harg Hshw) h h2.
Qed.
Lemma divisors_per one sev args ps : one = enc 1 -> Forall2 rd args ps -> Forall (fun p => p != 0 /\ (deg p <= 30)%coqZ) ps ->
  exists ts, Forall2 (divisors_line num tx) ps ts /\ per arg shw sev ": " (divisors_body shw (gp_fops o) one (gp_factor o fp) false) args = (listing tx sev ": " ps ts, Val tt).
Proof.
move=> ho h hp.
have [p [p0 hd]|ts [h1 h2]] := @F_choose _ _ (divisors_line num tx) (fun p t => divisors_body shw (gp_fops o) one (gp_factor o fp) false (enc p) = (line t, Val tt)) _ _ hp.
  have [|l [e hf]] := @factor_enc _ _ _ _ _ _ spec dflt kvq kv0 _ _ _ fs _ _ encG hnum p; first exact: size_30 hd.
  have [ds [e2 h1 h2]] := divisors_enc spec kvq kv0 encG hnum Harg Hshw ho p0 hf hd; exists (unwords (List.map tx ds)); split; first by exists ds.
  by rewrite /divisors_body e pb_ok e2 bind_ok pb_ok (words_ok shw enc tx Hshw).
by exists ts; split=> //; exact: (per_ok arg shw enc rd tx Harg Hshw) h h2.
Qed.
Lemma maximal_per one sev args ps : one = enc 1 -> Forall2 rd args ps -> Forall (fun p => p != 0 /\ (deg p <= 30)%coqZ) ps ->
  exists ts, Forall2 (maximal_line num tx) ps ts /\ per arg shw sev ": " (divisors_body shw (gp_fops o) one (gp_factor o fp) true) args = (listing tx sev ": " ps ts, Val tt).
Proof.
move=> ho h hp.
have [p [p0 hd]|ts [h1 h2]] := @F_choose _ _ (maximal_line num tx) (fun p t => divisors_body shw (gp_fops o) one (gp_factor o fp) true (enc p) = (line t, Val tt)) _ _ hp.
  have [|l [e hf]] := @factor_enc _ _ _ _ _ _ spec dflt kvq kv0 _ _ _ fs _ _ encG hnum p; first exact: size_30 hd.
  have := maximal_enc spec kvq kv0 encG hnum Harg Hshw ho p0 hf hd; rewrite /maximal_line /divisors_body e pb_ok; case: leqP => hs.
    by move=> e2; exists (txt "(none)"); rewrite e2 pb_ok.
  by move=> [ds [e2 h1 h2]]; exists (unwords (List.map tx ds)); rewrite e2 pb_ok (words_ok shw enc tx Hshw); split=> //; exists ds.
by exists ts; split=> //; exact: (per_ok arg shw enc rd tx Harg Hshw) h h2.
Qed.
(* 0: its only factor is the unit 0, and the only divisor 1 is printed *)
Lemma divisors_zero one s : one = enc 1 -> rd s 0 ->
  per arg shw false ": " (divisors_body shw (gp_fops o) one (gp_factor o fp) false) [:: s] = (line (tx 1), Val tt).
Proof.
move=> ho hs; have [|l [e hf]] := @factor_enc _ _ _ _ _ _ spec dflt kvq kv0 _ _ _ fs _ _ encG hnum 0; first by rewrite size_poly0.
have e0 : l = nil by case: hf => _ _ h _; exact: h.
rewrite /per /= (Harg hs) pb_ret /divisors_body e e0 /record_of /unit_of size_poly0 /= pb_ret pb_ok /= pb_ok ho (words_ok shw enc tx Hshw [:: 1]).
by rewrite pb_val /nl /MSpiff.print /emit /= pb_val emit_ret /line /= ?List.app_nil_r.
Qed.

Hypothesis num_size : forall f n, (num f < q ^ n)%N = (size f <= n)%N.
Lemma num_deg (p r : {poly F}) : r != 0 -> (deg p < deg r)%coqZ -> (num p < num r)%N.
Proof.
move=> r0 h; have h1 : (size p <= (size r).-1)%N by move: h; rewrite /deg => /Nat2Z.inj_lt/ltP; case: (size p) => [|n].
have hq : (0 < size r)%N by rewrite size_poly_gt0.
have h2 := num_size p (size r).-1; have h3 := num_size r (size r).-1.
rewrite h1 in h2; apply: leq_trans h2 _; rewrite leqNgt h3 -ltnNge; by case: (size r) hq.
Qed.
Lemma list_range (lst : Z -> res (list (list A))) lo hi : (0 <= lo)%coqZ -> (hi < INT_MAX)%coqZ -> (lo <= INT_MAX)%coqZ ->
  (forall d : nat, (lo <= Z.of_nat d <= hi)%coqZ -> PropList.lists num (fun f => size f = d.+1) enc (lst (Z.of_nat d))) ->
  exists ps, [/\ degrees (lo, hi) (fun d (_ : unit) => l <~ call (lst d) ;~ show_lines shw l) tt = (lines_of tx ps, Val tt), sorted ltn [seq num p | p <- ps] &
    forall p, In p ps <-> p != 0 /\ (lo <= deg p <= hi)%coqZ].
Proof.
move=> hl hh hl2 hL; rewrite /degrees [fst _]/= [snd _]/=.
have hsz (p : {poly F}) (d : nat) : size p = d.+1 <-> p != 0 /\ deg p = Z.of_nat d.
  by rewrite /deg -size_poly_gt0; case: (size p) => [|n] /=; split=> //; [case|case=> ->|case=> _ /Nat2Z.inj ->].
pose R d ps := sorted ltn [seq num p | p <- ps] /\ forall p, In p ps <-> p != 0 /\ deg p = d.
have [||d hd|xss [L [hR ->]]] := @over_lists unit _ tx R
  (fun d _ => l <~ call (lst d) ;~ show_lines shw l) tt (Z.to_nat (hi - lo + 1)) lo.
- by move: hl; rewrite /INT_MIN; clear; lia.
- by move: hl hl2 hh; rewrite /INT_MAX; clear; lia.
- have ed : d = Z.of_nat (Z.to_nat d) by rewrite Z2Nat.id //; move: hl hd; clear; lia.
  have [|ps [_ h1 h2 e]] := hL (Z.to_nat d); first by move: hl hd; clear; lia.
  rewrite -ed in e; exists ps; rewrite e pb_ok (lines_ok shw enc tx Hshw); split=> //; split=> // p.
  by rewrite PropList.InP h2 hsz -ed.
exists (List.concat xss); split=> //; last first.
  move=> p; rewrite List.in_concat; split=> [[ps [/(@List.In_nth_error _ _ _)[i hxi] hp]]|[p0 [h1 h2]]].
    have [_ h] := hR _ _ hxi; have [p0 ->] := (h p).1 hp; split=> //; split; first by clear; lia.
    have : List.nth_error xss i <> None by rewrite hxi.
    by move=> /List.nth_error_Some; rewrite L; move: hl; clear; lia.
  case e : (List.nth_error xss (Z.to_nat (deg p - lo))) => [ps|].
    exists ps; split; first exact: List.nth_error_In e.
    by apply/(hR _ _ e).2; split=> //; move: h1; clear; lia.
  by move: e => /List.nth_error_None; rewrite L; move: h1 h2; clear; lia.
move: hR; clear - num_size; elim: xss lo => [|xs xss IH] lo hR //.
have hR' i ys : List.nth_error xss i = Some ys -> R (lo + 1 + Z.of_nat i)%coqZ ys.
  by move=> h; have := hR i.+1 ys h; congr R; clear; lia.
have := IH _ hR'; have [h1 h2] := hR O xs erefl; rewrite [List.concat _]/= map_cat.
rewrite !(sorted_pairwise ltn_trans) in h1 * => h3; rewrite pairwise_cat h1 h3 !andbT.
apply/allrelP => x y /mapP[p /PropList.InP hp ->] /mapP[r /PropList.InP /List.in_concat[ys [/(@List.In_nth_error _ _ _)[i hi] hr]] ->].
have [_ h4] := hR' _ _ hi; have [r0 hr2] := (h4 r).1 hr; have [_ hp2] := (h2 p).1 hp.
by apply: num_deg => //; rewrite hr2 hp2; clear; lia.
Qed.
Lemma find_range (St : Type) (s0 : St) (fnd : Z -> res (list A)) lo hi : (0 <= lo)%coqZ -> (hi < INT_MAX)%coqZ -> (lo <= INT_MAX)%coqZ ->
  (forall d : nat, (lo <= Z.of_nat d <= hi)%coqZ -> exists f : {poly F},
  [/\ fnd (Z.of_nat d) = Ok (enc f), size f = d.+1, f \is monic, irreducible_poly f &
      forall g : {poly F}, size g = d.+1 -> irreducible_poly g -> (num f <= num g)%N]) ->
  exists ps, [/\ degrees (lo, hi) (fun d s => x <~ call (a <- fnd d ;; Ok (a, s)) ;~ shw (fst x) ;~~ nl ;~~ ret (snd x)) s0 = (lines_of tx ps, Val s0),
    length ps = Z.to_nat (hi - lo + 1) & forall i p, List.nth_error ps i = Some p -> lowest num (lo + Z.of_nat i) p].
Proof.
move=> hl hh hl2 hL; rewrite /degrees [fst _]/= [snd _]/=.
have [||d hd|xss [L [hR ->]]] := @over_lists St _ tx (fun d ps => exists p, ps = [:: p] /\ lowest num d p)
  (fun d s => x <~ call (a <- fnd d ;; Ok (a, s)) ;~ shw (fst x) ;~~ nl ;~~ ret (snd x)) s0 (Z.to_nat (hi - lo + 1)) lo.
- by move: hl; rewrite /INT_MIN; clear; lia.
- by move: hl hl2 hh; rewrite /INT_MAX; clear; lia.
- have ed : d = Z.of_nat (Z.to_nat d) by rewrite Z2Nat.id //; move: hl hd; clear; lia.
  have [|p [e h1 h2 h3 h4]] := hL (Z.to_nat d); first by move: hl hd; clear; lia.
  rewrite -ed in e; exists [:: p]; rewrite e bind_ok pb_ok Hshw pb_print /nl pb_print /lines_of /= List.app_nil_r; split=> //.
  by exists p; split=> //; split=> // [|g hg]; [rewrite /deg h1 -ed|apply: h4; rewrite hg].
exists (List.concat xss); rewrite -L; move: hR; clear; elim: xss lo => [|xs xss IH] lo hR; first by split=> // -[].
have [p [ep hp]] := hR O xs erefl; have [|_ h1 h2] := IH (lo + 1)%coqZ.
  by move=> i ys h; have [r [er hr]] := hR i.+1 ys h; exists r; split=> //; move: hr; congr lowest; clear; lia.
split=> //; first by rewrite ep /= h1.
by rewrite ep => -[|i] r /=; [move=> [<-]; move: hp; congr lowest; clear; lia|move=> /h2; congr lowest; clear; lia].
Qed.
Lemma search_range (St : Type) (s0 : St) (fnd : Z -> St -> res (list A * St)) lo hi : (0 <= lo)%coqZ -> (hi < INT_MAX)%coqZ -> (lo <= INT_MAX)%coqZ ->
  (forall (d : nat) s, (lo <= Z.of_nat d <= hi)%coqZ -> fnd (Z.of_nat d) s = Div \/ exists (f : {poly F}) s',
     fnd (Z.of_nat d) s = Ok (enc f, s') /\ [/\ size f = d.+1, f \is monic, irreducible_poly f & f`_0 != 0]) ->
  exists ps f, [/\ degrees (lo, hi) (fun d s => x <~ call (fnd d s) ;~ shw (fst x) ;~~ nl ;~~ ret (snd x)) s0 = (lines_of tx ps, f),
    (forall i p, List.nth_error ps i = Some p -> [/\ deg p = (lo + Z.of_nat i)%coqZ, p \is monic, irreducible_poly p & p`_0 != 0]) &
    f = Forever \/ exists s', f = Val s' /\ length ps = Z.to_nat (hi - lo + 1)].
Proof.
move=> hl hh hl2 hL; rewrite /degrees [fst _]/= [snd _]/=.
have [||d s hd|ps [f [-> [hR hf]]]] := @over_search St _ tx (fun d (p : {poly F}) => [/\ deg p = d, p \is monic, irreducible_poly p & p`_0 != 0])
  (fun d s => x <~ call (fnd d s) ;~ shw (fst x) ;~~ nl ;~~ ret (snd x)) (Z.to_nat (hi - lo + 1)) lo s0.
- by move: hl; rewrite /INT_MIN; clear; lia.
- by move: hl hl2 hh; rewrite /INT_MAX; clear; lia.
- have ed : d = Z.of_nat (Z.to_nat d) by rewrite Z2Nat.id //; move: hl hd; clear; lia.
  have [|e|[p [s' [e [h1 h2 h3 h4]]]]] := hL (Z.to_nat d) s; first (by move: hl hd; clear; lia); rewrite -ed in e.
    by left; rewrite e.
  right; exists p, s'; rewrite e pb_ok Hshw pb_print /nl pb_print; split=> //; split=> //.
  by rewrite /deg h1 -ed.
by exists ps, f.
Qed.
End Gen.
