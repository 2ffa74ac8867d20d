(* C95: the commands of cli/spiff on residues modulo m. *)
From Verif Require Import Base MIntMath MPrimes16 MPrime MFac MIntmod MF2Poly MMatCli MTextIO MList MUnits MRandom MSpiff.
From Verif Require Import PIntMath PIntMath2 PIntmod PPrime PFac PFacGen PUnits PFpUnits PSort PMatCli5 PPolyText PPolyText8 PTextIO3 PSpiff PSpiff2 PSpiff3 PSpiff5 PSpiff6.
From Verif Require PSpiff4 PropSpiff.
From Coq Require Import Ascii String Znumtheory Zpow_facts Lia.
Import ListNotations.
Open Scope Z_scope.
Local Notation length := List.length.
Local Notation residues := PSpiff4.residues.

Lemma fp_log_indep c c' qs m g a : cache_valid c -> cache_valid c' -> 2 <= m <= MAXM -> 0 <= g < m ->
  fp_log c qs (mkim g m) a = fp_log c' qs (mkim g m) a.
Proof.
  intros Hc Hc' Hm Hg. assert (Hm' : 1 <= m <= INT_MAX) by (unfold MAXM, INT_MAX in *; lia). unfold fp_log, int_sqrt_ceil. cbn [modulus].
  destruct (int_sqrt_ok true m) as (k & -> & K0 & K1 & K2); [lia|]. rewrite !bind_ok.
  assert (Kp : 0 < k) by (destruct (Z.eq_dec k 0) as [->|]; [cbn in K1; lia|lia]).
  assert (Kl : k <= 216) by (apply K2; [lia|unfold MAXM in *; lia]).
  rewrite (im_recip_indep c c' m g Hc Hc' Hm'). rewrite !(im_exp_ok _ m g k) by (unfold MAXM, INT_MAX in *; lia). unfold im_div.
  rewrite (im_recip_indep (im_recip_cache c (mkim g m)) (im_recip_cache c' (mkim g m)) m g); [reflexivity|apply im_recip_cache_valid; assumption..|exact Hm'].
Qed.
Lemma self_quotient m g : 2 <= m <= MAXM -> unit_mod m g -> quotient m g g = 1.
Proof.
  intros Hm Hg. destruct (quotient_ok cache_init m g g cache_init_valid Hm (proj1 Hg) Hg) as (_ & B & E). set (q := quotient m g g) in *. destruct Hg as [Hg G].
  assert (D : (m | g * (q - 1))).
  { apply Z.mod_divide; [lia|]. replace (g * (q - 1)) with (q * g - g) by ring. rewrite Zminus_mod, E, (Z.mod_small g m) by lia. rewrite Z.sub_diag. apply Z.mod_0_l. lia. }
  apply Z.gauss in D; [|exact G]. destruct D as [z D]. assert (z = 0) by nia. lia.
Qed.
Lemma nonunit_pow m a : 2 <= m -> Z.gcd m a <> 1 -> forall j, 0 < j -> a ^ j mod m <> 1.
Proof.
  intros Hm G j Hj E. apply G. apply Z.bezout_1_gcd. exists (- (a ^ j / m)), (a ^ (j - 1)).
  pose proof (Z.div_mod (a ^ j) m ltac:(lia)) as D. rewrite E in D.
  assert (P : a ^ (j - 1) * a = a ^ j) by (rewrite <- (Z.pow_1_r a) at 2; rewrite <- Z.pow_add_r by lia; f_equal; lia). rewrite P. lia.
Qed.
Lemma small_max m : 2 <= m <= MAXM -> 2 <= m <= INT_MAX. Proof. unfold MAXM, INT_MAX. lia. Qed.

Section Run.
Context (other : string -> list text -> prog Z) (qs : list (intmod * Z) -> list (intmod * Z)) {St : Type} (draw : St -> Z * St) (s0 : St).
Local Notation run name args := (spiff other qs draw s0 (txt name :: args)).
Ltac known n h := rewrite (PropSpiff.run_eq other qs draw s0 n _ h eq_refl eq_refl eq_refl).

(* ---- fp_list: one residue a line, in increasing order ---- *)
Theorem C95_list_all s m : int_text s m -> 1 <= m <= INT_MAX ->
  exists l, residues m (fun _ => True) l /\ run "fp_list" [txt "-a"; s] = (lines l, Status 0).
Proof.
  intros H Hm. destruct (PSpiff4.all_residues Hm) as (l & E & R). exists l. split; [exact R|]. known "fp_list" fp_list_main.
  rewrite (list_main (txt "-a") LIST_ALL s m l H); [reflexivity|lia|reflexivity|exact E].
Qed.
Theorem C95_list_units s m : int_text s m -> 2 <= m <= INT_MAX ->
  exists l, residues m (fun r => Z.gcd m r = 1) l /\ run "fp_list" [txt "-u"; s] = (lines l, Status 0).
Proof.
  intros H Hm. destruct (PSpiff4.unit_residues Hm) as (l & E & R). exists l. split; [exact R|]. known "fp_list" fp_list_main.
  rewrite (list_main (txt "-u") LIST_UNITS s m l H); [reflexivity|lia|reflexivity|exact E].
Qed.
Theorem C95_list_nonunits s m : int_text s m -> 2 <= m <= INT_MAX ->
  exists l, residues m (fun r => Z.gcd m r <> 1) l /\ run "fp_list" [txt "-nu"; s] = (lines l, Status 0).
Proof.
  intros H Hm. destruct (PSpiff4.nonunit_residues Hm) as (l & E & R). exists l. split; [exact R|]. known "fp_list" fp_list_main.
  rewrite (list_main (txt "-nu") LIST_NON_UNITS s m l H); [reflexivity|lia|reflexivity|exact E].
Qed.
Theorem C95_list_multiples s sg m g : int_text s m -> int_text sg g -> 2 <= m <= INT_MAX ->
  exists l, residues m (fun r => exists w, (w * g) mod m = r) l /\ run "fp_list" [txt "-m"; sg; s] = (lines l, Status 0).
Proof.
  intros H Hg Hm. destruct (@PSpiff4.multiple_residues m (g mod m)) as (l & E & R1 & R2); [lia|apply Z.mod_pos_bound; lia|]. exists l. split.
  - split; [exact R1|]. intros r. rewrite R2. split; intros [K1 [w K2]]; (split; [exact K1|]); exists w; rewrite <- K2; [|symmetry]; rewrite Z.mul_mod_idemp_r by lia; reflexivity.
  - known "fp_list" fp_list_main. rewrite (glist_main (txt "-m") LIST_MULTIPLES sg s g m l H Hg Hm); [reflexivity|reflexivity|exact E].
Qed.
Theorem C95_list_rel_prime s sg m g : int_text s m -> int_text sg g -> 2 <= m <= INT_MAX ->
  exists l, residues m (fun r => forall d, 0 <= d -> (d | m) -> (d | g) -> (d | r) -> d = 1) l /\ run "fp_list" [txt "-rp"; sg; s] = (lines l, Status 0).
Proof.
  intros H Hg Hm. destruct (@PSpiff4.rel_prime_residues m (g mod m)) as (l & E & R1 & R2); [lia|apply Z.mod_pos_bound; lia|]. exists l. split.
  - split; [exact R1|]. intros r. rewrite R2. pose proof (Z.div_mod g m ltac:(lia)) as D.
    assert (K : forall d, (d | m) -> ((d | g) <-> (d | g mod m))).
    { intros d Dm. split; intros Dg.
      - replace (g mod m) with (g - m * (g / m)) by lia. apply Z.divide_sub_r; [exact Dg|apply Z.divide_mul_l; exact Dm].
      - rewrite D. apply Z.divide_add_r; [apply Z.divide_mul_l; exact Dm|exact Dg]. }
    split; intros [K1 K2]; (split; [exact K1|]); intros d D0 D1 D2 D3; (apply (K2 d D0 D1); [apply (K d D1); exact D2|exact D3]).
  - known "fp_list" fp_list_main. rewrite (glist_main (txt "-rp") LIST_REL_PRIME sg s g m l H Hg Hm); [reflexivity|reflexivity|exact E].
Qed.
(* The option that the usage shows as optional is not: *)
Theorem C95_list_default_refuted s : run "fp_list" [s] = ([], Status 1).
Proof. reflexivity. Qed.
(* Modulo 1: nothing, and the status of success. *)
Theorem C95_list_one_refuted : run "fp_list" [txt "-u"; txt "1"] = ([], Status 0) /\ run "fp_list" [txt "-nu"; txt "1"] = ([], Status 0).
Proof. split; vm_compute; reflexivity. Qed.

(* ---- fp_tbl ---- *)
Ltac tbl_start H E := known "fp_tbl" (fp_tbl_main qs cache_init); unfold fp_tbl_main; rewrite (arg_int_ok _ _ H), pb_ret;
  lazymatch goal with |- context [fp_tbl_type _ _ ?o] => set (ty := fp_tbl_type _ _ o); cbv in ty; subst ty end; rewrite pb_val, emit_nil, E, pb_ok; cbv zeta.
Theorem C95_table_all s m : int_text s m -> 2 <= m <= MAXM -> exists l, residues m (fun _ => True) l /\
  run "fp_tbl" [s; txt "+"] = (table (fun a b => (a + b) mod m) l, Status 0) /\
  run "fp_tbl" [s; txt "-"] = (table (fun a b => (a - b) mod m) l, Status 0) /\
  run "fp_tbl" [s; txt "*"] = (table (fun a b => (a * b) mod m) l, Status 0) /\
  run "fp_tbl" [s; txt "."] = (table (fun a b => (a * b) mod m) l, Status 0).
Proof.
  intros H Hm. destruct (@PSpiff4.all_residues m) as (l & E & R1 & R2); [unfold MAXM, INT_MAX in *; lia|]. exists l. split; [split; assumption|].
  assert (B : forall a, In a l -> 0 <= a < m) by (intros a K; apply R2, K). assert (Hm1 : 1 <= m <= MAXM) by lia.
  repeat split; tbl_start H E.
  - rewrite (tbl_ok _ _ m (fun a b => (a + b) mod m) (fun _ => True) l); [rewrite pb_val, emit_ret; reflexivity|lia| |auto|exact I].
    intros _ a b _ Ka Kb. exact (im_add_ok m Hm1 a b (B a Ka) (B b Kb)).
  - rewrite (tbl_ok _ _ m (fun a b => (a - b) mod m) (fun _ => True) l); [rewrite pb_val, emit_ret; reflexivity|lia| |auto|exact I].
    intros _ a b _ Ka Kb. exact (im_sub_ok m Hm1 a b (B a Ka) (B b Kb)).
  - rewrite (tbl_ok _ _ m (fun a b => (a * b) mod m) (fun _ => True) l); [rewrite pb_val, emit_ret; reflexivity|lia| |auto|exact I].
    intros _ a b _ Ka Kb. exact (im_mul_ok m Hm1 a b (B a Ka) (B b Kb)).
  - rewrite (tbl_ok _ _ m (fun a b => (a * b) mod m) (fun _ => True) l); [rewrite pb_val, emit_ret; reflexivity|lia| |auto|exact I].
    intros _ a b _ Ka Kb. exact (im_mul_ok m Hm1 a b (B a Ka) (B b Kb)).
Qed.
(* on the units: products and quotients *)
Theorem C95_table_units s m : int_text s m -> 2 <= m <= MAXM -> exists l f, residues m (fun r => Z.gcd m r = 1) l /\
  run "fp_tbl" [s; txt "u*"] = (table (fun a b => (a * b) mod m) l, Status 0) /\
  run "fp_tbl" [s; txt "u."] = (table (fun a b => (a * b) mod m) l, Status 0) /\
  run "fp_tbl" [s; txt "/"] = (table f l, Status 0) /\ (forall a b, In a l -> In b l -> 0 <= f a b < m /\ (f a b * b) mod m = a).
Proof.
  intros H Hm. destruct (@PSpiff4.unit_residues m (small_max m Hm)) as (l & E & R1 & R2). exists l, (quotient m). split; [split; assumption|].
  assert (U : forall a, In a l -> unit_mod m a) by (intros a K; apply R2, K). assert (Hm1 : 1 <= m <= MAXM) by lia.
  split; [|split; [|split]]; [tbl_start H E..|].
  - rewrite (tbl_ok _ _ m (fun a b => (a * b) mod m) (fun _ => True) l); [rewrite pb_val, emit_ret; reflexivity|lia| |auto|exact I].
    intros _ a b _ Ka Kb. exact (im_mul_ok m Hm1 a b (proj1 (U a Ka)) (proj1 (U b Kb))).
  - rewrite (tbl_ok _ _ m (fun a b => (a * b) mod m) (fun _ => True) l); [rewrite pb_val, emit_ret; reflexivity|lia| |auto|exact I].
    intros _ a b _ Ka Kb. exact (im_mul_ok m Hm1 a b (proj1 (U a Ka)) (proj1 (U b Kb))).
  - rewrite (tbl_ok _ _ m (quotient m) cache_valid l); [rewrite pb_val, emit_ret; reflexivity|lia| | |exact cache_init_valid].
    + intros c a b Hc Ka Kb. exact (proj1 (quotient_ok c m a b Hc Hm (proj1 (U a Ka)) (U b Kb))).
    + intros c b Hc _. apply im_recip_cache_valid; [exact Hc|cbn [modulus]; unfold MAXM, INT_MAX in *; lia].
  - intros a b Ka Kb. exact (proj2 (quotient_ok cache_init m a b cache_init_valid Hm (proj1 (U a Ka)) (U b Kb))).
Qed.
(* logarithms to a generator g: a line for each unit *)
Definition log_header : text := (line (txt "element power") ++ line (txt "------- -----"))%list.
Definition alog_header : text := (line (txt "power element") ++ line (txt "----- -------"))%list.
Definition log_table_text (l es : list Z) : text :=
  (log_header ++ List.concat (map (fun p => line (two_words (fst p) (snd p))) (combine l es)))%list.
Definition alog_table_text (m g : Z) (n : nat) : text :=
  (alog_header ++ List.concat (map (fun k => line (two_words (Z.of_nat k) (g ^ Z.of_nat k mod m))) (seq 0 n)))%list.
Lemma tbl_log s o m g : int_text s m -> 2 <= m <= MAXM -> sorts im_ltb (valid_im m) qs -> unit_mod m g -> generates m g ->
  fp_tbl_type cache_init m o = ret (TLog (mkim g m)) ->
  exists l es, residues m (fun r => Z.gcd m r = 1) l /\ Forall2 (is_log m g) l es /\ run "fp_tbl" [s; o] = (log_table_text l es, Status 0).
Proof.
  intros H Hm Hq Hg Hgen Ho. destruct (@PSpiff4.unit_residues m (small_max m Hm)) as (l & E & R1 & R2).
  assert (U : forall a, In a l -> unit_mod m a) by (intros a K; apply R2, K).
  destruct (log_rows_ok qs m g l Hm Hq Hg Hgen U cache_init cache_init_valid) as (es & L & K). exists l, es. split; [split; assumption|]. split; [exact L|].
  known "fp_tbl" (fp_tbl_main qs cache_init). unfold fp_tbl_main. rewrite (arg_int_ok _ _ H), pb_ret, Ho, pb_ret, E, pb_ok. cbv zeta. rewrite K.
  unfold say, nl. rewrite !pb_print, !emit_emit, emit_pair, pb_val, emit_ret. unfold log_table_text, log_header, line, txt. cbn [fst snd PropSpiff.ends].
  rewrite <- !app_assoc. reflexivity.
Qed.
Lemma tbl_alog s o m g : int_text s m -> 2 <= m <= MAXM -> unit_mod m g -> fp_tbl_type cache_init m o = ret (TAlog (mkim g m)) ->
  exists l, residues m (fun r => Z.gcd m r = 1) l /\ run "fp_tbl" [s; o] = (alog_table_text m g (length l), Status 0).
Proof.
  intros H Hm Hg Ho. destruct (@PSpiff4.unit_residues m (small_max m Hm)) as (l & E & R1 & R2). exists l. split; [split; assumption|].
  known "fp_tbl" (fp_tbl_main qs cache_init). unfold fp_tbl_main. rewrite (arg_int_ok _ _ H), pb_ret, Ho, pb_ret, E, pb_ok. cbv zeta.
  rewrite (proj1 (quotient_ok cache_init m g g cache_init_valid Hm (proj1 Hg) Hg)), (self_quotient m g Hm Hg), map_length, pb_ok.
  replace (mkim 1 m) with (mkim (g ^ 0 mod m) m) by (rewrite Z.pow_0_r, Z.mod_small by lia; reflexivity).
  rewrite (alog_rows_ok m g Hm (proj1 Hg)) by lia.
  unfold say, nl. rewrite !pb_print, !emit_emit, emit_pair, pb_val, emit_ret. unfold alog_table_text, alog_header, line, txt. cbn [fst snd PropSpiff.ends].
  rewrite <- !app_assoc. reflexivity.
Qed.
(* the generator is given, ... *)
Theorem C95_table_log s sg m g : int_text s m -> 2 <= m <= MAXM -> sorts im_ltb (valid_im m) qs -> res_text m sg g -> unit_mod m g -> generates m g ->
  exists l es, residues m (fun r => Z.gcd m r = 1) l /\ Forall2 (is_log m g) l es /\
    run "fp_tbl" [s; (txt "log:" ++ sg)%list] = (log_table_text l es, Status 0).
Proof.
  intros H Hm Hq Hs Hg Hgen. apply (tbl_log s _ m g H Hm Hq Hg Hgen). cbn.
  rewrite (proj1 (res_arg m sg g (small_max m Hm) Hs)). destruct (string_of_list_ascii sg); reflexivity.
Qed.
Theorem C95_table_alog s sg m g : int_text s m -> 2 <= m <= MAXM -> res_text m sg g -> unit_mod m g ->
  exists l, residues m (fun r => Z.gcd m r = 1) l /\ run "fp_tbl" [s; (txt "alog:" ++ sg)%list] = (alog_table_text m g (length l), Status 0).
Proof.
  intros H Hm Hs Hg. apply (tbl_alog s _ m g H Hm Hg). cbn. rewrite (proj1 (res_arg m sg g (small_max m Hm) Hs)). destruct (string_of_list_ascii sg); reflexivity.
Qed.
(* ... or the least one is found; without one: status 1 *)
Definition least_generator (m g : Z) : Prop := unit_mod m g /\ generates m g /\ forall x, unit_mod m x -> generates m x -> g <= x.
Theorem C95_table_log_found s m : int_text s m -> 2 <= m <= MAXM -> sorts im_ltb (valid_im m) qs ->
  (exists g, least_generator m g /\
     (exists l es, residues m (fun r => Z.gcd m r = 1) l /\ Forall2 (is_log m g) l es /\ run "fp_tbl" [s; txt "log"] = (log_table_text l es, Status 0)) /\
     (exists l, residues m (fun r => Z.gcd m r = 1) l /\ run "fp_tbl" [s; txt "alog"] = (alog_table_text m g (length l), Status 0))) \/
  (~ exists g, unit_mod m g /\ generates m g) /\ run "fp_tbl" [s; txt "log"] = ([], Status 1) /\ run "fp_tbl" [s; txt "alog"] = ([], Status 1).
Proof.
  intros H Hm Hq. destruct (fp_find_generator_ok m Hm cache_init) as [(g & E & U & G & L)|[E N]].
  - left. exists g. split; [split; [exact U|split; [exact G|exact L]]|]. split.
    + apply (tbl_log s _ m g H Hm Hq U G). unfold fp_tbl_type. rewrite E. reflexivity.
    + apply (tbl_alog s _ m g H Hm U). unfold fp_tbl_type. rewrite E. reflexivity.
  - right. split; [intros (g & U & G); exact (N g U G)|].
    split; known "fp_tbl" (fp_tbl_main qs cache_init); unfold fp_tbl_main; rewrite (arg_int_ok _ _ H), pb_ret; unfold fp_tbl_type; rewrite E; reflexivity.
Qed.

(* ---- fp_ord ---- *)
Theorem C95_order s m args vs : int_text s m -> 2 <= m <= MAXM -> args <> [] -> Forall2 (res_text m) args vs -> Forall (fun v => Z.gcd m v = 1) vs ->
  exists ts, run "fp_ord" (s :: args) = (report ": " vs ts, Status 0) /\ Forall2 (fun v t => exists k, order_mod m v k /\ t = put_int k) vs ts.
Proof.
  intros H Hm Hn HF HU.
  assert (B : forall v, In v vs -> 0 <= v < m).
  { clear - HF Hm. induction HF as [|a v args vs Ha _ IH]; intros x; [intros []|]. intros [<-|K]; [|exact (IH x K)]. exact (proj2 (res_arg m a v (small_max m Hm) Ha)). }
  destruct (rel_list (fun v t => exists k, fp_order cache_init (mkim v m) = Ok k /\ order_mod m v k /\ t = put_int k) vs) as [ts Hts].
  { intros v Hv. rewrite Forall_forall in HU. destruct (fp_order_unit m Hm cache_init v (conj (B v Hv) (HU v Hv))) as (k & E & O & _). exists (put_int k), k. auto. }
  exists ts. known "fp_ord" (fp_ord_main cache_init). rewrite (ord_main cache_init s m args vs ts H Hn (small_max m Hm) HF); [split; [reflexivity|]|].
  - revert Hts. apply F2_impl. intros v t (k & _ & O & ->). exists k. auto.
  - revert Hts. apply F2_impl. intros v t (k & E & _ & ->). exists k. auto.
Qed.
(* An element that is no unit ends the run with the status of success. *)
Theorem C95_order_nonunit_refuted s m a v : int_text s m -> 2 <= m <= MAXM -> res_text m a v -> Z.gcd m v <> 1 ->
  run "fp_ord" [s; a] = ([], Status 0).
Proof.
  intros H Hm Ha G. known "fp_ord" (fp_ord_main cache_init). unfold fp_ord_main. cbn [each]. change (several [a]) with false.
  destruct (res_arg m a v (small_max m Hm) Ha) as [Ea Bv]. rewrite (arg_int_ok _ _ H), pb_ret, Ea, pb_ret. unfold label. rewrite pb_ret.
  rewrite (fp_order_nonunit m Hm cache_init v Bv G). reflexivity.
Qed.

(* ---- fp_max_ord: the largest order ---- *)
Theorem C95_max_order s m : int_text s m -> 2 <= m <= MAXM ->
  exists k, run "fp_max_ord" [s] = (line (put_int k), Status 0) /\ (exists x, unit_mod m x /\ order_mod m x k) /\
    forall x j, unit_mod m x -> order_mod m x j -> j <= k.
Proof.
  intros H Hm. destruct (@PSpiff4.unit_residues m (small_max m Hm)) as (l & E & R1 & R2).
  assert (U : forall a, In a l <-> unit_mod m a) by (intros a; apply R2).
  destruct (max_order_ok cache_init m l Hm (fun a K => proj1 (U a) K) 0 ltac:(lia)) as (k & Ek & L1 & L2 & L3). exists k. split; [|split].
  - known "fp_max_ord" (fp_max_ord_main cache_init). unfold fp_max_ord_main. rewrite (arg_int_ok _ _ H), pb_ret, E, pb_ok, Ek, pb_ok.
    unfold show, nl. rewrite !pb_print, emit_emit, emit_ret. reflexivity.
  - destruct L3 as [->|(a & Ha & O)]; [exfalso|exists a; split; [apply U, Ha|exact O]].
    assert (U1 : unit_mod m 1) by (split; [lia|apply Z.gcd_1_r]). destruct (fp_order_unit m Hm cache_init 1 U1) as (j & _ & O & _).
    pose proof (L2 1 j (proj2 (U 1) U1) O). destruct O as [O _]. lia.
  - intros x j Ux O. exact (L2 x j (proj2 (U x) Ux) O).
Qed.

(* ---- fp_orbit ---- *)
Definition orbit_lines (p a a0 : Z) (k : nat) : text := lines (map (fun i => (a ^ Z.of_nat i * a0) mod p) (seq 1 k)).
Lemma orbit_start s1 s2 p a : int_text s1 p -> int_text s2 a -> 2 <= p <= MAXM -> 0 <= a -> Z.odd a || Z.odd p = true ->
  forall rest a0, (rest = [] /\ a0 = 1 \/ exists s3, rest = [s3] /\ int_text s3 a0 /\ 0 <= a0) ->
  run "fp_orbit" (s1 :: s2 :: rest) =
    (let r := (orbit (S (S (Z.to_nat p))) p (a mod p) (a0 mod p) (a mod p) 0 ;~~ ret 0) in (fst r, PropSpiff.ends (snd r))).
Proof.
  intros H1 H2 Hp Ha Ho rest a0 Hr. known "fp_orbit" fp_orbit_main. cbv zeta.
  assert (Ba : a <= INT_MAX) by (destruct (scan_ok _ _ H2); lia).
  assert (X : fp_orbit_main (s1 :: s2 :: rest) = (orbit (S (S (Z.to_nat p))) p (a mod p) (a0 mod p) (a mod p) 0 ;~~ ret 0)).
  { destruct Hr as [[-> ->]|(s3 & -> & H3 & P3)]; unfold fp_orbit_main; rewrite (arg_int_ok _ _ H1), pb_ret, (arg_int_ok _ _ H2), pb_ret.
    - rewrite pb_ret, orbit_coprime_eq, Ho, pb_ok, imod_pos, pb_ok by lia. rewrite imod_pos, pb_ok by (unfold INT_MAX; lia). reflexivity.
    - assert (B3 : a0 <= INT_MAX) by (destruct (scan_ok _ _ H3); lia).
      rewrite (arg_int_ok _ _ H3), pb_ret, orbit_coprime_eq, Ho, pb_ok, imod_pos, pb_ok by lia. rewrite imod_pos, pb_ok by lia. reflexivity. }
  rewrite X. reflexivity.
Qed.
Lemma orbit_eq p a a0 k : 0 < p -> map (fun i => orbit_val p (a mod p) (a0 mod p) (Z.of_nat i)) (seq 1 k) = map (fun i => (a ^ Z.of_nat i * a0) mod p) (seq 1 k).
Proof.
  intros Hp. apply map_ext. intros i. unfold orbit_val. rewrite Z.mul_mod_idemp_r by lia. rewrite <- Z.mul_mod_idemp_l, <- Zpower_mod by lia.
  rewrite Z.mul_mod_idemp_l by lia. reflexivity.
Qed.
(* the multiples of a0 (1 if not given) by the powers of a, from a on until the power is 1 *)
Theorem C95_orbit s1 s2 p a : int_text s1 p -> int_text s2 a -> 2 <= p <= MAXM -> 0 <= a -> Z.gcd p a = 1 ->
  exists k, order_mod p a (Z.of_nat k) /\ run "fp_orbit" [s1; s2] = (orbit_lines p a 1 k, Status 0) /\
    forall s3 a0, int_text s3 a0 -> 0 <= a0 -> run "fp_orbit" [s1; s2; s3] = (orbit_lines p a a0 k, Status 0).
Proof.
  intros H1 H2 Hp Ha G.
  assert (U : unit_mod p (a mod p)) by (split; [apply Z.mod_pos_bound; lia|rewrite Z.gcd_comm, Z.gcd_mod by lia; exact G]).
  destruct (fp_order_unit p Hp cache_init (a mod p) U) as (k & _ & O & D). destruct (phi_val p Hp) as (phi & _ & Ephi & Bphi).
  assert (Lk : k <= p) by (apply Z.divide_pos_le in D; lia). pose proof (proj1 O) as K0.
  assert (Ho : Z.odd a || Z.odd p = true).
  { destruct (Z.odd a) eqn:Oa, (Z.odd p) eqn:Op; try reflexivity. exfalso. rewrite <- Z.negb_even, Bool.negb_false_iff, Z.even_spec in Oa, Op.
    assert (D2 : (2 | Z.gcd p a)) by (apply Z.gcd_greatest; [destruct Op as [x ->]; exists x; lia|destruct Oa as [x ->]; exists x; lia]).
    rewrite G in D2. destruct D2 as [x D2]. lia. }
  assert (R : forall a0, (orbit (S (S (Z.to_nat p))) p (a mod p) (a0 mod p) (a mod p) 0 ;~~ ret 0) = (orbit_lines p a a0 (Z.to_nat k), Val 0)).
  { intros a0. replace (orbit (S (S (Z.to_nat p))) p (a mod p) (a0 mod p) (a mod p) 0)
      with (orbit (S (S (Z.to_nat p))) p (a mod p) (a0 mod p) ((a mod p) mod p) 0) by (rewrite Z.mod_mod by lia; reflexivity).
    rewrite (orbit_ok p (a mod p) (a0 mod p) Hp (proj1 U) ltac:(apply Z.mod_pos_bound; lia) k (S (S (Z.to_nat p))) O Lk ltac:(lia)).
    rewrite orbit_eq, pb_val, emit_ret by lia. reflexivity. }
  exists (Z.to_nat k). split; [|split].
  - rewrite Z2Nat.id by lia. destruct O as (_ & O1 & O2). split; [lia|]. rewrite <- Zpower_mod in O1 by lia. split; [exact O1|].
    intros j Hj. specialize (O2 j Hj). rewrite <- Zpower_mod in O2 by lia. exact O2.
  - rewrite (orbit_start s1 s2 p a H1 H2 Hp Ha Ho [] 1 (or_introl (conj eq_refl eq_refl))). cbv zeta. rewrite R. reflexivity.
  - intros s3 a0 H3 P3. rewrite (orbit_start s1 s2 p a H1 H2 Hp Ha Ho [s3] a0); [|right; exists s3; auto]. cbv zeta. rewrite R. reflexivity.
Qed.
(* Not coprime: refused if both are even; otherwise p + 1 values are printed before the run is given up. *)
Theorem C95_orbit_even s1 s2 p a : int_text s1 p -> int_text s2 a -> Z.even p = true -> Z.even a = true -> run "fp_orbit" [s1; s2] = ([], Status 1).
Proof.
  intros H1 H2 Ep Ea. known "fp_orbit" fp_orbit_main. unfold fp_orbit_main.
  rewrite (arg_int_ok _ _ H1), pb_ret, (arg_int_ok _ _ H2), pb_ret, pb_ret, orbit_coprime_eq, <- !Z.negb_even, Ea, Ep, pb_ok. reflexivity.
Qed.
Theorem C95_orbit_not_coprime_refuted s1 s2 p a : int_text s1 p -> int_text s2 a -> 2 <= p <= MAXM -> 0 <= a -> Z.gcd p a <> 1 -> Z.odd a || Z.odd p = true ->
  run "fp_orbit" [s1; s2] = (orbit_lines p a 1 (S (Z.to_nat p)), Status 1).
Proof.
  intros H1 H2 Hp Ha G Ho. rewrite (orbit_start s1 s2 p a H1 H2 Hp Ha Ho [] 1 (or_introl (conj eq_refl eq_refl))). cbv zeta.
  replace (orbit (S (S (Z.to_nat p))) p (a mod p) (1 mod p) (a mod p) 0)
    with (orbit (S (S (Z.to_nat p))) p (a mod p) (1 mod p) ((a mod p) mod p) 0) by (rewrite Z.mod_mod by lia; reflexivity).
  rewrite (orbit_never p (a mod p) (1 mod p) Hp ltac:(apply Z.mod_pos_bound; lia) ltac:(apply Z.mod_pos_bound; lia)); [|apply nonunit_pow; [lia|]|lia].
  - rewrite orbit_eq by lia. reflexivity.
  - rewrite Z.gcd_comm, Z.gcd_mod by lia. exact G.
Qed.
Theorem C95_orbit_zero_refuted s1 s2 a : int_text s1 0 -> int_text s2 a -> Z.odd a = true -> run "fp_orbit" [s1; s2] = ([], Undefined).
Proof.
  intros H1 H2 Ho. known "fp_orbit" fp_orbit_main. unfold fp_orbit_main.
  rewrite (arg_int_ok _ _ H1), pb_ret, (arg_int_ok _ _ H2), pb_ret, pb_ret, orbit_coprime_eq, Ho, pb_ok. reflexivity.
Qed.

(* ---- fp_find_gen: the status is 0 even if there is none ---- *)
Theorem C95_generator args vs : args <> [] -> Forall2 int_text args vs -> Forall (fun v => 2 <= v <= MAXM) vs ->
  exists ts, run "fp_find_gen" args = (report ": " vs ts, Status 0) /\
    Forall2 (fun m t => (exists g, least_generator m g /\ t = put_int g) \/
      (~ exists g, unit_mod m g /\ generates m g) /\ t = txt "Generator not found.") vs ts.
Proof.
  intros Hn H B.
  destruct (rel_list (fun m t => ((exists g, fp_find_generator cache_init m = Ok (Some (mkim g m)) /\ t = put_int g) \/
      fp_find_generator cache_init m = Ok None /\ t = txt "Generator not found.") /\ ((exists g, least_generator m g /\ t = put_int g) \/
      (~ exists g, unit_mod m g /\ generates m g) /\ t = txt "Generator not found.")) vs) as [ts Hts].
  { intros m Hi. rewrite Forall_forall in B. destruct (fp_find_generator_ok m (B m Hi) cache_init) as [(g & E & U & G & L)|[E N]].
    - exists (put_int g). split; left; exists g; (split; [|reflexivity]); [exact E|split; [exact U|split; [exact G|exact L]]].
    - exists (txt "Generator not found."). split; right; (split; [|reflexivity]); [exact E|intros (g & U & G); exact (N g U G)]. }
  exists ts. split; [|revert Hts; apply F2_impl; intros m t [_ K]; exact K]. known "fp_find_gen" (fp_find_gen_main cache_init).
  unfold fp_find_gen_main. destruct args as [|s args]; [congruence|]. set (all := s :: args) in *.
  destruct (find_gens_ok cache_init (several all) all vs ts H) with (rv := 0) as [rv' E].
  - revert B. apply Forall_impl. intros v Hv. lia.
  - revert Hts. apply F2_impl. intros m t [K _]. exact K.
  - rewrite E, (several_eq _ _ _ H). reflexivity.
Qed.

(* ---- fp_log ---- *)
Theorem C95_log s sg m g args vs : int_text s m -> 2 <= m <= MAXM -> sorts im_ltb (valid_im m) qs -> res_text m sg g -> Z.gcd m g = 1 ->
  args <> [] -> Forall2 (res_text m) args vs -> Forall (fun v => exists e, 0 <= e /\ g ^ e mod m = v) vs ->
  exists ts, run "fp_log" (s :: sg :: args) = (report ": " vs ts, Status 0) /\ Forall2 (fun v t => exists e, is_log m g v e /\ t = put_int e) vs ts.
Proof.
  intros H Hm Hq Hs G Hn HF HE. destruct (res_arg m sg g (small_max m Hm) Hs) as [Eg Bg].
  destruct (rel_list (fun v t => exists e, (forall c, cache_valid c -> fp_log c qs (mkim g m) (mkim v m) = Ok e) /\ is_log m g v e /\ t = put_int e) vs) as [ts Hts].
  { intros v Hv. rewrite Forall_forall in HE. destruct (HE v Hv) as (e0 & P0 & Pv).
    assert (Bv : 0 <= v < m) by (rewrite <- Pv; apply Z.mod_pos_bound; lia).
    destruct (fp_log_ok m Hm cache_init qs g v cache_init_valid Hq (conj Bg G) Bv) as [(e & E & L)|[_ N]]; [|exfalso; exact (N e0 P0 Pv)].
    exists (put_int e), e. split; [|split; [exact L|reflexivity]]. intros c Hc. rewrite (fp_log_indep c cache_init qs m g _ Hc cache_init_valid Hm Bg). exact E. }
  exists ts. split; [|revert Hts; apply F2_impl; intros v t (e & _ & K); exists e; exact K].
  known "fp_log" (fp_log_main qs cache_init). unfold fp_log_main. destruct args as [|a args]; [congruence|]. set (all := a :: args) in *.
  rewrite (arg_int_ok _ _ H), pb_ret, Eg, pb_ret.
  rewrite (logs_ok qs (several all) m g all vs ts (small_max m Hm) HF) by (try exact cache_init_valid; revert Hts; apply F2_impl; intros v t (e & K & _ & ->); exists e; auto).
  rewrite pb_val, emit_ret, (several_eq _ _ _ HF). reflexivity.
Qed.
(* An element that is no power of g: nothing is printed, and the status is that of success. *)
Theorem C95_log_none_refuted s sg m g a v : int_text s m -> 2 <= m <= MAXM -> sorts im_ltb (valid_im m) qs -> res_text m sg g -> Z.gcd m g = 1 ->
  res_text m a v -> (forall e, 0 <= e -> g ^ e mod m <> v) -> run "fp_log" [s; sg; a] = ([], Status 0).
Proof.
  intros H Hm Hq Hs G Ha N. destruct (res_arg m sg g (small_max m Hm) Hs) as [Eg Bg]. destruct (res_arg m a v (small_max m Hm) Ha) as [Ea Ba].
  known "fp_log" (fp_log_main qs cache_init). unfold fp_log_main. rewrite (arg_int_ok _ _ H), pb_ret, Eg, pb_ret. change (several [a]) with false. cbn [logs].
  rewrite Ea, pb_ret. unfold label. rewrite pb_ret.
  destruct (fp_log_ok m Hm cache_init qs g v cache_init_valid Hq (conj Bg G) Ba) as [(e & _ & [E1 _] & E2)|[-> _]]; [exfalso; exact (N e E1 E2)|reflexivity].
Qed.

(* ---- fp_random: the words of the generator, as ints, modulo m ---- *)
Definition random_lines (m : Z) (n : nat) : text :=
  lines (map (fun i => to_int (fst (draw (state draw s0 i)) mod 2 ^ 32) mod m) (seq 0 n)).
Theorem C95_random s m : int_text s m -> 2 <= m <= INT_MAX -> run "fp_random" [s] = (random_lines m 1, Status 0) /\
  forall s2 n, int_text s2 n -> run "fp_random" [s; s2] = (random_lines m (Z.to_nat n), Status 0).
Proof.
  intros H Hm. split; [|intros s2 n H2]; known "fp_random" (fp_random_main draw s0); unfold fp_random_main; rewrite (arg_int_ok _ _ H), pb_ret.
  - rewrite (randoms_ok draw m 1 Hm), pb_val, emit_ret. reflexivity.
  - rewrite (arg_int_ok _ _ H2), pb_ret, (randoms_ok draw m (Z.to_nat n) Hm), pb_val, emit_ret. reflexivity.
Qed.
Theorem C95_random_small_refuted s m : int_text s m -> m < 2 -> run "fp_random" [s] = ([], Status 0).
Proof.
  intros H Hm. known "fp_random" (fp_random_main draw s0). unfold fp_random_main. rewrite (arg_int_ok _ _ H), pb_ret. cbn [randoms].
  rewrite (PropRandom.C84_intmod_small draw s0 Hm). reflexivity.
Qed.
End Run.

Example C95_ex :
  let run := fun name args => spiff (fun _ _ => ret 0) (isort im_ltb) (fun s : Z => (s, s + 1)) 5 (txt name :: args) in
  run "fp_list" [txt "-u"; txt "8"] = (lines [1; 3; 5; 7], Status 0) /\
  run "fp_list" [txt "-m"; txt "6"; txt "9"] = (lines [0; 3; 6], Status 0) /\
  run "fp_tbl" [txt "3"; txt "*"] = ((line (txt "0 0 0") ++ line (txt "0 1 2") ++ line (txt "0 2 1"))%list, Status 0) /\
  run "fp_tbl" [txt "5"; txt "/"] = ((line (txt "1 3 2 4") ++ line (txt "2 1 4 3") ++ line (txt "3 4 1 2") ++ line (txt "4 2 3 1"))%list, Status 0) /\
  run "fp_tbl" [txt "5"; txt "log"] = (log_table_text [1; 2; 3; 4] [0; 1; 3; 2], Status 0) /\
  run "fp_tbl" [txt "8"; txt "log"] = ([], Status 1) /\
  run "fp_tbl" [txt "5"; txt "alog:3"] = (alog_table_text 5 3 4, Status 0) /\
  run "fp_ord" [txt "7"; txt "2"; txt "-4"] = ((line (txt "2: 3") ++ line (txt "3: 6"))%list, Status 0) /\
  run "fp_max_ord" [txt "24"] = (line (txt "2"), Status 0) /\
  run "fp_orbit" [txt "7"; txt "2"; txt "3"] = (lines [6; 5; 3], Status 0) /\
  run "fp_orbit" [txt "9"; txt "3"] = (lines [3; 0; 0; 0; 0; 0; 0; 0; 0; 0], Status 1) /\
  run "fp_find_gen" [txt "41"; txt "8"] = ((line (txt "41: 6") ++ line (txt "8: Generator not found."))%list, Status 0) /\
  run "fp_log" [txt "7"; txt "3"; txt "6"; txt "4"] = ((line (txt "6: 3") ++ line (txt "4: 4"))%list, Status 0) /\
  run "fp_log" [txt "7"; txt "2"; txt "3"] = ([], Status 0) /\
  run "fp_random" [txt "4"; txt "3"] = (lines [1; 2; 3], Status 0).
Proof. cbv zeta. repeat split; vm_compute; reflexivity. Qed.

Print Assumptions C95_list_all. Print Assumptions C95_list_units. Print Assumptions C95_list_multiples. Print Assumptions C95_list_rel_prime.
Print Assumptions C95_table_all. Print Assumptions C95_table_units. Print Assumptions C95_table_log_found. Print Assumptions C95_table_alog.
Print Assumptions C95_order. Print Assumptions C95_max_order. Print Assumptions C95_orbit. Print Assumptions C95_orbit_not_coprime_refuted.
Print Assumptions C95_generator. Print Assumptions C95_log. Print Assumptions C95_random.
