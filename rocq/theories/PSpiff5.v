(* The commands of spiff on residues. *)
From Verif Require Import Base MIntMath MPrimes16 MPrime MFac MIntmod MF2Poly MMatCli MTextIO MList MUnits MRandom MSpiff.
From Verif Require Import PIntMath PIntMath2 PIntmod PPrime PFac PFacGen PUnits PFpUnits PMatCli5 PPolyText PPolyText8 PTextIO3 PSpiff PSpiff2 PSpiff3.
From Verif Require PRandom PropRandom PSpiff4.
From Coq Require Import Ascii String Znumtheory Lia.
Import ListNotations.
Open Scope Z_scope.
Local Notation length := List.length.
Local Notation residues := PSpiff4.residues.

Definition lines (l : list Z) : text := List.concat (map (fun v => line (put_int v)) l).

Lemma arg_mod_ok s v m : int_text s v -> 2 <= m <= INT_MAX -> arg_mod s m = ret (mkim (v mod m) m).
Proof.
  intros H Hm. unfold arg_mod. destruct (scan_ok _ _ H) as [[r E] B].
  rewrite (proj2 (read_scan s v r) (conj E B)). unfold im_from_parsed. rewrite (PRandom.im_make_any Hm B). reflexivity.
Qed.
Lemma show_im_ok r m : m <> 0 -> show_im (mkim r m) = print (put_int r).
Proof. intros H. unfold show_im, check_modulus. cbn [modulus]. rewrite (proj2 (Z.eqb_neq m 0) H). reflexivity. Qed.
Lemma crout_ok m l : m <> 0 -> crout (map (fun r => mkim r m) l) = (lines l, Val tt).
Proof.
  intros H. induction l as [|r l IH]; [reflexivity|]. cbn [map crout]. rewrite (show_im_ok _ _ H), IH. unfold nl.
  rewrite !pb_print, !emit_emit, emit_pair. reflexivity.
Qed.

(* ---- fp_list ---- *)
Lemma list_main o ty s m l : int_text s m -> m <> 0 ->
  (if teq o "-a" then ret LIST_ALL else if teq o "-u" then ret LIST_UNITS else if teq o "-nu" then ret LIST_NON_UNITS else usage) = ret ty ->
  intmod_list m ty = Ok (map (fun r => mkim r m) l) -> fp_list_main [o; s] = (lines l, Val 0).
Proof.
  intros H Hm Ho E. unfold fp_list_main. rewrite Ho, pb_ret, (arg_int_ok _ _ H), pb_ret, E, pb_ok, (crout_ok _ _ Hm), pb_val. apply emit_ret.
Qed.
Lemma glist_main o ty sg s g m l : int_text s m -> int_text sg g -> 2 <= m <= INT_MAX ->
  (if teq o "-m" then ret LIST_MULTIPLES else if teq o "-rp" then ret LIST_REL_PRIME else usage) = ret ty ->
  intmod_glist (mkim (g mod m) m) ty = Ok (map (fun r => mkim r m) l) -> fp_list_main [o; sg; s] = (lines l, Val 0).
Proof.
  intros H Hg Hm Ho E. unfold fp_list_main. rewrite Ho, pb_ret, (arg_int_ok _ _ H), pb_ret, (arg_mod_ok _ _ _ Hg Hm), pb_ret, E, pb_ok.
  rewrite crout_ok by lia. rewrite pb_val. apply emit_ret.
Qed.

(* ---- fp_tbl ---- *)
(* a row for each a, the values f a b with a blank between them *)
Definition table (f : Z -> Z -> Z) (l : list Z) : text :=
  List.concat (map (fun a => line (unwords (map (fun b => put_int (f a b)) l))) l).
Section Tbl.
Variables (op : cache -> intmod -> intmod -> res intmod) (upd : cache -> intmod -> cache) (m : Z) (f : Z -> Z -> Z).
Variables (inv : cache -> Prop) (elts : list Z).
Hypothesis Hm : m <> 0.
Hypothesis Hop : forall c a b, inv c -> In a elts -> In b elts -> op c (mkim a m) (mkim b m) = Ok (mkim (f a b) m).
Hypothesis Hupd : forall c b, inv c -> In b elts -> inv (upd c (mkim b m)).
Lemma tbl_row_ok a l : In a elts -> (forall b, In b l -> In b elts) -> forall c first, inv c ->
  exists c', inv c' /\ tbl_row op upd c first (mkim a m) (map (fun r => mkim r m) l) =
    (line ((if first || match l with [] => true | _ => false end then [] else [" "%char]) ++ unwords (map (fun b => put_int (f a b)) l))%list, Val c').
Proof.
  intros Ha. induction l as [|b l IH]; intros Hl c first Hc.
  - exists c. split; [exact Hc|]. cbn [map tbl_row unwords]. rewrite Bool.orb_true_r. reflexivity.
  - destruct (IH (fun x K => Hl x (or_intror K)) (upd c (mkim b m)) false (Hupd c b Hc (Hl b (or_introl eq_refl)))) as (c' & Hc' & E).
    exists c'. split; [exact Hc'|]. cbn [map tbl_row]. rewrite (Hop c a b Hc Ha (Hl b (or_introl eq_refl))), pb_ok, (show_im_ok _ _ Hm), E.
    rewrite Bool.orb_false_r.
    assert (K : unwords (put_int (f a b) :: map (fun b => put_int (f a b)) l) =
      (put_int (f a b) ++ (if match l with [] => true | _ => false end then [] else [" "%char]) ++ unwords (map (fun b => put_int (f a b)) l))%list).
    { destruct l as [|x l]; [cbn; rewrite app_nil_r; reflexivity|]. rewrite unwords_cons by discriminate. reflexivity. }
    rewrite K. cbn [orb]. unfold line, say. destruct first.
    + rewrite pb_ret, pb_print, emit_pair, <- !app_assoc. reflexivity.
    + rewrite !pb_print, !emit_emit, emit_pair, <- !app_assoc. reflexivity.
Qed.
Lemma tbl_rows_ok l : (forall a, In a l -> In a elts) -> forall c, inv c ->
  tbl_rows op upd c (map (fun r => mkim r m) elts) (map (fun r => mkim r m) l) =
    (List.concat (map (fun a => line (unwords (map (fun b => put_int (f a b)) elts))) l), Val tt).
Proof.
  induction l as [|a l IH]; intros Hl c Hc; [reflexivity|]. cbn [map tbl_rows List.concat].
  destruct (tbl_row_ok a elts (Hl a (or_introl eq_refl)) (fun b K => K) c true Hc) as (c' & Hc' & ->). cbn [orb app].
  rewrite pb_val, (IH (fun x K => Hl x (or_intror K)) c' Hc'), emit_pair. reflexivity.
Qed.
Lemma tbl_ok c : inv c -> tbl_rows op upd c (map (fun r => mkim r m) elts) (map (fun r => mkim r m) elts) = (table f elts, Val tt).
Proof. exact (tbl_rows_ok elts (fun a H => H) c). Qed.
End Tbl.

Definition quotient (m a b : Z) : Z := match im_div cache_init (mkim a m) (mkim b m) with Ok q => residue q | _ => 0 end.
Lemma quotient_ok c m a b : cache_valid c -> 2 <= m <= MAXM -> 0 <= a < m -> unit_mod m b ->
  im_div c (mkim a m) (mkim b m) = Ok (mkim (quotient m a b) m) /\ 0 <= quotient m a b < m /\ (quotient m a b * b) mod m = a.
Proof.
  intros Hc Hm Ha [Hb G]. unfold quotient.
  assert (E : im_div c (mkim a m) (mkim b m) = im_div cache_init (mkim a m) (mkim b m)).
  { unfold im_div. rewrite (im_recip_indep c cache_init m b Hc cache_init_valid) by (unfold MAXM, INT_MAX in *; lia). reflexivity. }
  rewrite E. destruct (im_div_ok cache_init m a b cache_init_valid Hm Ha Hb) as [(_ & q & -> & K)|[K _]]; [|contradiction].
  cbn [residue]. split; [reflexivity|exact K].
Qed.
Lemma log_cache_valid c g m : cache_valid c -> 1 <= m <= INT_MAX -> cache_valid (log_cache c (mkim g m)).
Proof. intros H Hm. unfold log_cache. apply im_recip_cache_valid; [apply im_recip_cache_valid; [exact H|]|]; exact Hm. Qed.

(* an element and its logarithm *)
Definition two_words (x y : Z) : text := (put_int x ++ " "%char :: put_int y)%list.
Definition is_log (m g a e : Z) : Prop := 0 <= e < Z.of_nat (length (coprimes m)) /\ g ^ e mod m = a.
Lemma log_rows_ok qs m g l : 2 <= m <= MAXM -> sorts im_ltb (valid_im m) qs -> unit_mod m g -> generates m g -> (forall a, In a l -> unit_mod m a) ->
  forall c, cache_valid c -> exists es, Forall2 (is_log m g) l es /\
    log_rows qs c (mkim g m) (map (fun r => mkim r m) l) = (List.concat (map (fun p => line (two_words (fst p) (snd p))) (combine l es)), Val tt).
Proof.
  intros Hm Hq Hg Hgen. induction l as [|a l IH]; intros Hl c Hc; [exists []; split; [constructor|reflexivity]|].
  destruct (IH (fun x K => Hl x (or_intror K)) (log_cache c (mkim g m))) as (es & H1 & H2).
  { apply log_cache_valid; [exact Hc|unfold MAXM, INT_MAX in *; lia]. }
  pose proof (Hl a (or_introl eq_refl)) as Ha.
  destruct (fp_log_ok m Hm c qs g a Hc Hq Hg (proj1 Ha)) as [(e & E & Be & Pe)|[_ K]].
  - exists (e :: es). split; [constructor; [split; assumption|exact H1]|]. cbn [map log_rows combine List.concat fst snd].
    rewrite E, pb_ok, show_im_ok by lia. rewrite H2. unfold say, show, nl. rewrite !pb_print, !emit_emit, emit_pair. unfold line, two_words.
    f_equal. rewrite <- !app_assoc. reflexivity.
  - destruct (Hgen a Ha) as (k & K0 & K1). exfalso. exact (K k K0 K1).
Qed.
Lemma alog_rows_ok m g : 2 <= m <= MAXM -> 0 <= g < m -> forall n i, 0 <= i -> 
  alog_rows n i (mkim g m) (mkim (g ^ i mod m) m) =
    (List.concat (map (fun k => line (two_words (i + Z.of_nat k) (g ^ (i + Z.of_nat k) mod m))) (seq 0 n)), Val tt).
Proof.
  intros Hm Hg. induction n as [|n IH]; intros i Hi; [reflexivity|]. cbn [alog_rows seq map List.concat]. rewrite show_im_ok by lia.
  assert (B : 0 <= g ^ i mod m < m) by (apply Z.mod_pos_bound; lia).
  rewrite (im_mul_ok m) by (try lia; unfold MAXM in *; lia). rewrite pb_ok, Z.mul_mod_idemp_l by lia.
  replace (g ^ i * g) with (g ^ (i + 1)) by (rewrite Z.pow_add_r, Z.pow_1_r by lia; reflexivity). rewrite IH by lia.
  unfold say, show, nl. rewrite !pb_print, !emit_emit, emit_pair. rewrite Z.add_0_r, <- seq_shift, map_map. f_equal. f_equal.
  - unfold line, two_words. rewrite <- !app_assoc. reflexivity.
  - f_equal. apply map_ext. intros k. replace (i + 1 + Z.of_nat k) with (i + Z.of_nat (S k)) by lia. reflexivity.
Qed.
