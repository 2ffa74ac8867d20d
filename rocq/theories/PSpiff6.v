(* The commands of spiff on residues: orders, orbits, generators, logarithms, random elements. *)
From Verif Require Import Base MIntMath MPrimes16 MPrime MFac MIntmod MF2Poly MMatCli MTextIO MList MUnits MRandom MSpiff.
From Verif Require Import PIntMath PIntMath2 PIntmod PPrime PFac PFacGen PUnits PFpUnits PMatCli5 PPolyText PPolyText8 PTextIO3 PSpiff PSpiff2 PSpiff3 PSpiff5.
From Verif Require PRandom PropRandom PSpiff4.
From Coq Require Import Ascii String Znumtheory Lia.
Import ListNotations.
Open Scope Z_scope.
Local Notation length := List.length.
Local Notation residues := PSpiff4.residues.

(* the argument s is read as the residue r modulo m *)
Definition res_text (m : Z) (s : text) (r : Z) : Prop := exists v, int_text s v /\ r = v mod m.
Lemma res_arg m s r : 2 <= m <= INT_MAX -> res_text m s r -> arg_mod s m = ret (mkim r m) /\ 0 <= r < m.
Proof. intros Hm (v & H & ->). split; [exact (arg_mod_ok _ _ _ H Hm)|apply Z.mod_pos_bound; lia]. Qed.
(* a line for each argument, with labels *)
Lemma report_gen {R : text -> Z -> Prop} sep args vs ts body :
  Forall2 R args vs ->
  Forall2 (fun v t => forall s, R s v -> body s = (line ((if (1 <? length vs)%nat then put_int v ++ txt sep else []) ++ t)%list, Val tt)) vs ts ->
  each body args = (report sep vs ts, Val tt).
Proof.
  intros HF HT. unfold report. set (n := (1 <? length vs)%nat) in *. clearbody n. revert ts HT.
  induction HF as [|s v args vs H _ IH]; intros ts HT; inversion HT as [|? t ? ts' K1 K2]; subst; [reflexivity|].
  cbn [each combine map List.concat fst snd]. rewrite (K1 s H), pb_val, (IH _ K2), emit_pair. reflexivity.
Qed.
Lemma label_im sev r m sep : m <> 0 -> label sev (show_im (mkim r m)) sep = ((if sev then put_int r ++ txt sep else [])%list, Val tt).
Proof.
  intros H. unfold label. destruct sev; [|reflexivity]. rewrite (show_im_ok _ _ H), pb_print. unfold say, print, emit. reflexivity.
Qed.

(* ---- fp_ord ---- *)
Lemma ord_main c s m args vs ts : int_text s m -> args <> [] -> 2 <= m <= INT_MAX -> Forall2 (res_text m) args vs ->
  Forall2 (fun v t => exists k, fp_order c (mkim v m) = Ok k /\ t = put_int k) vs ts ->
  fp_ord_main c (s :: args) = (report ": " vs ts, Val 0).
Proof.
  intros Hs Hn Hm H HT. unfold fp_ord_main. destruct args as [|a0 args]; [congruence|]. set (all := a0 :: args) in *.
  rewrite (arg_int_ok _ _ Hs), pb_ret, (report_gen ": " all vs ts _ H); [rewrite pb_val; apply emit_ret|]. rewrite (several_eq _ _ _ H).
  revert HT. apply F2_impl. intros v t (k & E & ->) s' Hs'. rewrite (proj1 (res_arg _ _ _ Hm Hs')), pb_ret, label_im by lia.
  rewrite pb_val, E, pb_ok. unfold show, nl. rewrite pb_print. unfold print, emit, line. cbn [fst snd]. rewrite <- app_assoc. reflexivity.
Qed.
(* a non-unit stops the run *)
Lemma ord_stop c s m pre vs ts a v post : int_text s m -> 2 <= m <= INT_MAX -> Forall2 (res_text m) pre vs ->
  Forall2 (fun v t => exists k, fp_order c (mkim v m) = Ok k /\ t = put_int k) vs ts -> res_text m a v -> fp_order c (mkim v m) = Exn ->
  snd (fp_ord_main c (s :: pre ++ a :: post)) = Throw.
Proof.
  intros Hs Hm H HT Ha E. unfold fp_ord_main. destruct (pre ++ a :: post)%list as [|x l] eqn:El; [destruct pre; discriminate|]. rewrite <- El.
  rewrite (arg_int_ok _ _ Hs), pb_ret. set (sev := several (pre ++ a :: post)). clearbody sev. clear El. set (body := fun _ : text => _).
  assert (K : exists us, Forall2 (fun s u => body s = (u, Val tt)) pre us).
  { apply rel_list. intros b Hb. clear - H HT Hb Hm. revert ts HT. induction H as [|p w pre vs Hp _ IH]; intros ts HT; [contradiction|].
    inversion HT as [|? t ? ts' (k & Ek & ->) K2]; subst. destruct Hb as [->|Hb]; [|exact (IH Hb _ K2)].
    unfold body. rewrite (proj1 (res_arg _ _ _ Hm Hp)), pb_ret, label_im by lia. rewrite pb_val, Ek, pb_ok. unfold show, nl. rewrite pb_print.
    eexists. unfold print, emit. cbn [fst snd]. reflexivity. }
  destruct K as [us K].
  rewrite (each_stop body pre us a (if sev then put_int v ++ txt ": " else [])%list Throw post K); [reflexivity| |exact I].
  unfold body. rewrite (proj1 (res_arg _ _ _ Hm Ha)), pb_ret, label_im by lia. rewrite pb_val, E. unfold emit, call, pbind. cbn [fst snd]. rewrite app_nil_r. reflexivity.
Qed.

(* ---- fp_max_ord ---- *)
Lemma max_order_ok c m l : 2 <= m <= MAXM -> (forall a, In a l -> unit_mod m a) -> forall acc, 0 <= acc ->
  exists k, max_order c (map (fun r => mkim r m) l) acc = Ok k /\ acc <= k /\ (forall a j, In a l -> order_mod m a j -> j <= k) /\
    (k = acc \/ exists a, In a l /\ order_mod m a k).
Proof.
  intros Hm. induction l as [|a l IH]; intros Hl acc Ha; [exists acc; repeat split; [lia|intros a j []|left; reflexivity]|].
  destruct (fp_order_unit m Hm c a (Hl a (or_introl eq_refl))) as (j & E & O & _). cbn [map max_order]. rewrite E. cbn [bind].
  set (acc' := if acc <? j then j else acc). assert (A1 : acc <= acc' /\ j <= acc' /\ (acc' = acc \/ acc' = j)) by (unfold acc'; destruct (Z.ltb_spec acc j); lia).
  destruct (IH (fun x K => Hl x (or_intror K)) acc') as (k & Ek & L1 & L2 & L3); [lia|]. exists k. split; [exact Ek|]. split; [lia|]. split.
  - intros b i [<-|Hb] Oi; [|exact (L2 b i Hb Oi)]. assert (i = j); [|lia]. destruct O as (O1 & O2 & O3), Oi as (I1 & I2 & I3).
    destruct (Z.lt_trichotomy i j) as [K|[K|K]]; [|exact K|]; exfalso; [exact (O3 i (conj I1 K) I2)|exact (I3 j (conj O1 K) O2)].
  - destruct L3 as [->|(b & Hb & Ob)]; [|right; exists b; split; [right; exact Hb|exact Ob]].
    destruct A1 as (_ & _ & [->| ->]); [left; reflexivity|right; exists a; split; [left; reflexivity|exact O]].
Qed.

(* ---- fp_orbit ---- *)
Lemma bitZ_odd a : bitZ a = if Z.odd a then 1%N else 0%N.
Proof. unfold bitZ. change 1 with (Z.ones 1) at 1. rewrite Z.land_ones by lia. change (2 ^ 1) with 2. rewrite Zmod_odd. destruct (Z.odd a); reflexivity. Qed.
Lemma orbit_coprime_eq a p : orbit_coprime a p = Ok (Z.odd a || Z.odd p).
Proof. unfold orbit_coprime, f2_of_int. rewrite !bitZ_odd. destruct (Z.odd a), (Z.odd p); vm_compute; reflexivity. Qed.
Section Orbit.
Variables (p a a0 : Z).
Hypothesis Hp : 2 <= p <= MAXM.
Hypothesis Ha : 0 <= a < p.
Hypothesis Ha0 : 0 <= a0 < p.
Definition orbit_val (i : Z) : Z := (a ^ i * a0) mod p.
Lemma orbit_mul x y : 0 <= x < p -> 0 <= y < p -> (z <- imul x y ;; imod z p) = Ok ((x * y) mod p).
Proof.
  intros Hx Hy. unfold imul. rewrite chk_ok by (unfold MAXM, INT_MIN, INT_MAX in *; nia). cbn [bind].
  apply imod_pos; [unfold MAXM, INT_MAX in *; nia|lia].
Qed.
(* n steps from the i-th power on, none of which but possibly the last is 1 *)
Lemma orbit_run n : forall fuel i, 0 < i -> i - 1 + Z.of_nat n <= p -> (forall j, i <= j < i + Z.of_nat n -> a ^ j mod p <> 1) ->
  orbit (n + fuel) p a a0 (a ^ i mod p) (i - 1) =
    emit (lines (map (fun k => orbit_val (i + Z.of_nat k)) (seq 0 n))) (orbit fuel p a a0 (a ^ (i + Z.of_nat n) mod p) (i + Z.of_nat n - 1)).
Proof.
  induction n as [|n IH]; intros fuel i Hi L H.
  - cbn [seq map lines List.concat Nat.add]. unfold lines. cbn [map List.concat]. rewrite emit_nil. replace (i + Z.of_nat 0) with i by lia. reflexivity.
  - cbn [Nat.add orbit]. assert (B : 0 <= a ^ i mod p < p) by (apply Z.mod_pos_bound; lia).
    rewrite orbit_mul by assumption. rewrite pb_ok. destruct (Z.eqb_spec (a ^ i mod p) 1) as [K|_]; [exfalso; apply (H i); [lia|exact K]|].
    assert (Hlt : (p <? i - 1 + 1) = false) by (apply Z.ltb_ge; clear - L; lia). rewrite Hlt. rewrite orbit_mul by assumption. rewrite pb_ok.
    rewrite (Z.mul_mod_idemp_l (a ^ i) a p) by lia. replace (a ^ i * a) with (a ^ (i + 1)) by (rewrite Z.pow_add_r, Z.pow_1_r by lia; reflexivity).
    replace (i - 1 + 1) with (i + 1 - 1) by lia. rewrite IH; [|lia|lia|intros j Hj; apply H; lia].
    unfold show, nl. rewrite !pb_print, !emit_emit. replace (i + 1 + Z.of_nat n) with (i + Z.of_nat (S n)) by lia. f_equal.
    unfold lines. cbn [seq map List.concat]. rewrite <- seq_shift, !map_map.
    assert (E : orbit_val (i + Z.of_nat 0) = (a ^ i mod p * a0) mod p).
    { unfold orbit_val. rewrite Z.add_0_r, Z.mul_mod_idemp_l by lia. reflexivity. }
    rewrite E. unfold line. rewrite <- !app_assoc. f_equal. f_equal. f_equal. apply map_ext. intros k.
    replace (i + 1 + Z.of_nat k) with (i + Z.of_nat (S k)) by lia. reflexivity.
Qed.
Lemma lines_app l1 l2 : lines (l1 ++ l2) = (lines l1 ++ lines l2)%list.
Proof. unfold lines. rewrite map_app, concat_app. reflexivity. Qed.
(* the powers up to the first that is 1 *)
Lemma orbit_ok k fuel : order_mod p a k -> k <= p -> (Z.to_nat p <= fuel)%nat ->
  orbit fuel p a a0 (a mod p) 0 = (lines (map (fun i => orbit_val (Z.of_nat i)) (seq 1 (Z.to_nat k))), Val tt).
Proof.
  intros (K0 & K1 & K2) Hk Hf. rewrite (Z.mod_small 1 p) in * by lia.
  replace fuel with (Z.to_nat (k - 1) + S (fuel - Z.to_nat k))%nat by lia.
  replace (a mod p) with (a ^ 1 mod p) by (rewrite Z.pow_1_r; reflexivity). change 0 with (1 - 1).
  rewrite orbit_run; [|clear; lia|clear - Hk K0; lia|intros j Hj E; apply (K2 j); [clear - Hj K0; lia|exact E]].
  replace (1 + Z.of_nat (Z.to_nat (k - 1))) with k by lia. cbn [orbit]. rewrite K1, orbit_mul by lia. rewrite pb_ok.
  change (1 =? 1) with true. cbv iota. unfold show, nl. rewrite !pb_print, !emit_emit, emit_ret. f_equal.
  replace (Z.to_nat k) with (Z.to_nat (k - 1) + 1)%nat by lia. rewrite seq_app, map_app, lines_app, <- !app_assoc. f_equal.
  - f_equal. rewrite <- seq_shift, map_map. apply map_ext. intros i. f_equal. lia.
  - cbn [seq map lines List.concat]. unfold lines. cbn [map List.concat]. rewrite app_nil_r. unfold line. do 3 f_equal. unfold orbit_val.
    replace (Z.of_nat (1 + Z.to_nat (k - 1))) with k by lia. rewrite <- (Z.mul_mod_idemp_l (a ^ k) a0 p), K1 by lia. reflexivity.
Qed.
(* no power is 1: p + 1 of them are printed *)
Lemma orbit_never fuel : (forall j, 0 < j -> a ^ j mod p <> 1) -> (S (Z.to_nat p) <= fuel)%nat ->
  orbit fuel p a a0 (a mod p) 0 = (lines (map (fun i => orbit_val (Z.of_nat i)) (seq 1 (S (Z.to_nat p)))), Exit 1).
Proof.
  intros H Hf. replace fuel with (Z.to_nat p + S (fuel - S (Z.to_nat p)))%nat by lia.
  replace (a mod p) with (a ^ 1 mod p) by (rewrite Z.pow_1_r; reflexivity). change 0 with (1 - 1).
  rewrite orbit_run; [|lia|lia|intros j Hj; apply H; lia]. cbn [orbit].
  assert (B : 0 <= a ^ (1 + Z.of_nat (Z.to_nat p)) mod p < p) by (apply Z.mod_pos_bound; lia).
  rewrite orbit_mul by assumption. rewrite pb_ok. destruct (Z.eqb_spec (a ^ (1 + Z.of_nat (Z.to_nat p)) mod p) 1) as [K|_]; [exfalso; apply (H (1 + Z.of_nat (Z.to_nat p))); [lia|exact K]|].
  assert (Hlt : (p <? 1 + Z.of_nat (Z.to_nat p) - 1 + 1) = true) by (apply Z.ltb_lt; clear - Hp; lia). rewrite Hlt. unfold show, nl. rewrite !pb_print, !emit_emit, emit_pair. rewrite app_nil_r. f_equal.
  replace (S (Z.to_nat p)) with (Z.to_nat p + 1)%nat by lia. rewrite seq_app, map_app, lines_app, <- !app_assoc. f_equal.
  - f_equal. rewrite <- seq_shift, map_map. apply map_ext. intros i. f_equal. lia.
  - cbn [seq map lines List.concat]. unfold lines. cbn [map List.concat]. rewrite app_nil_r. unfold line. do 3 f_equal. unfold orbit_val.
    replace (Z.of_nat (1 + Z.to_nat p)) with (1 + Z.of_nat (Z.to_nat p)) by lia. rewrite Z.mul_mod_idemp_l by lia. reflexivity.
Qed.
End Orbit.

(* ---- fp_find_gen ---- *)
Lemma find_gens_ok c sev args vs ts : Forall2 int_text args vs -> Forall (fun v => v <> 0) vs ->
  Forall2 (fun v t => (exists g, fp_find_generator c v = Ok (Some (mkim g v)) /\ t = put_int g) \/
                      fp_find_generator c v = Ok None /\ t = txt "Generator not found.") vs ts ->
  forall rv, exists rv', find_gens c sev rv args =
    (List.concat (map (fun p => line ((if sev then put_int (fst p) ++ txt ": " else []) ++ snd p)%list) (combine vs ts)), Val rv').
Proof.
  intros H. revert ts. induction H as [|s v args vs Hs _ IH]; intros ts B HT rv; inversion HT as [|? t ? ts' K1 K2]; subst; [exists rv; reflexivity|].
  inversion B as [|? ? B1 B2]; subst. cbn [find_gens combine map List.concat fst snd]. rewrite (arg_int_ok _ _ Hs), pb_ret, label_ok, pb_val.
  destruct K1 as [(g & -> & ->)|[-> ->]]; rewrite pb_ok.
  - destruct (IH ts' B2 K2 rv) as [rv' E]. exists rv'. rewrite (show_im_ok _ _ B1), E. unfold nl. rewrite !pb_print, !emit_emit, emit_pair.
    unfold line. rewrite <- !app_assoc. reflexivity.
  - destruct (IH ts' B2 K2 1) as [rv' E]. exists rv'. rewrite E. unfold say, nl. rewrite !pb_print, !emit_emit, emit_pair.
    unfold line. rewrite <- !app_assoc. reflexivity.
Qed.

(* ---- fp_log ---- *)
Lemma logs_ok qs sev m g args vs ts : 2 <= m <= INT_MAX -> Forall2 (res_text m) args vs ->
  Forall2 (fun v t => exists e, (forall c, cache_valid c -> fp_log c qs (mkim g m) (mkim v m) = Ok e) /\ t = put_int e) vs ts ->
  forall c, cache_valid c -> logs qs c sev m (mkim g m) args =
    (List.concat (map (fun p => line ((if sev then put_int (fst p) ++ txt ": " else []) ++ snd p)%list) (combine vs ts)), Val tt).
Proof.
  intros Hm H. revert ts. induction H as [|s v args vs Hs _ IH]; intros ts HT c Hc; inversion HT as [|? t ? ts' (e & E & ->) K2]; subst; [reflexivity|].
  cbn [logs combine map List.concat fst snd]. rewrite (proj1 (res_arg _ _ _ Hm Hs)), pb_ret, label_im by lia. rewrite pb_val, (E c Hc), pb_ok.
  rewrite (IH ts' K2) by (apply log_cache_valid; [exact Hc|lia]). unfold show, nl. rewrite !pb_print, !emit_emit, emit_pair.
  unfold line. rewrite <- !app_assoc. reflexivity.
Qed.

(* ---- fp_random ---- *)
Section Random.
Context {St : Type} (draw : St -> Z * St).
(* the i-th state *)
Fixpoint state (s : St) (i : nat) : St := match i with O => s | S i => state (snd (draw s)) i end.
Lemma randoms_ok m n : 2 <= m <= INT_MAX -> forall s,
  randoms draw n m s = (lines (map (fun i => to_int (fst (draw (state s i)) mod 2 ^ 32) mod m) (seq 0 n)), Val tt).
Proof.
  intros Hm. induction n as [|n IH]; intros s; [reflexivity|]. cbn [randoms]. rewrite (PropRandom.C84_intmod draw s Hm), pb_ok. cbn [fst snd].
  rewrite show_im_ok by lia. rewrite IH. unfold nl. rewrite !pb_print, !emit_emit, emit_pair. cbn [seq map]. unfold lines. cbn [map List.concat].
  rewrite <- seq_shift, !map_map. unfold PRandom.word, PRandom.next.
  unfold line at 2. reflexivity.
Qed.
End Random.
