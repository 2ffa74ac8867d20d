(* The integer commands of spiff. *)
From Verif Require Import Base MIntMath MPrimes16 MPrime MFac MIntmod MF2Poly MMatCli MTextIO MList MUnits MRandom MSpiff.
From Verif Require Import PIntMath PIntMath2 PPrime PFac PFacGen PropInt PropCont PMatCli5 PPolyText PPolyText8 PTextIO3 PSpiff.
From Coq Require Import Ascii String Znumtheory Lia.
Import ListNotations.
Open Scope Z_scope.
Local Notation length := List.length.
Local Notation walk := MSpiff.walk.

Lemma F2_impl {A B} (P Q : A -> B -> Prop) l m : (forall a b, P a b -> Q a b) -> Forall2 P l m -> Forall2 Q l m.
Proof. intros H. induction 1; constructor; auto. Qed.
Lemma fold_main_ok f s v args vs g : int_text s v -> Forall2 int_text args vs -> folded f v vs = Ok g ->
  z_fold_main f (s :: args) = (line (put_int g), Val 0).
Proof.
  intros Hs H E. cbn [z_fold_main]. rewrite (arg_int_ok _ _ Hs), pb_ret, (z_fold_eq _ _ _ H), E, pb_ok. unfold show, nl.
  rewrite !pb_print, emit_emit. apply emit_ret.
Qed.
Lemma fold_main_ub f s v args vs : int_text s v -> Forall2 int_text args vs -> folded f v vs = UB -> z_fold_main f (s :: args) = ([], Undef).
Proof. intros Hs H E. cbn [z_fold_main]. rewrite (arg_int_ok _ _ Hs), pb_ret, (z_fold_eq _ _ _ H), E. reflexivity. Qed.
Lemma fold_main_bad f pre vs s post : Forall2 int_text pre vs -> no_number s ->
  (forall v ws, vs = v :: ws -> exists h, folded f v ws = Ok h) -> z_fold_main f (pre ++ s :: post) = usage.
Proof.
  intros H Hs He. destruct H as [|s' v pre vs Hv H].
  - cbn [app z_fold_main]. rewrite (arg_int_none _ Hs). reflexivity.
  - cbn [app z_fold_main]. rewrite (arg_int_ok _ _ Hv), pb_ret, (z_fold_bad f pre vs s post H Hs); [reflexivity|]. apply (He v vs eq_refl).
Qed.
Lemma gcd_main_fold s v args : int_text s v -> z_gcd_main (s :: args) = z_fold_main int_gcd (s :: args).
Proof. intros H. cbn [z_gcd_main]. rewrite (int_text_not _ _ "-e" H eq_refl). reflexivity. Qed.

(* ---- z_gcd -e ---- *)
Definition bezout_line (g r a s b : Z) : text :=
  line (put_int g ++ txt " = " ++ put_int r ++ txt " * " ++ put_int a ++ txt " + " ++ put_int s ++ txt " * " ++ put_int b)%list.
Lemma ext_main s1 s2 a b g r s : int_text s1 a -> int_text s2 b -> int_ext_gcd a b = Ok (g, r, s) ->
  z_gcd_main [txt "-e"; s1; s2] = emit (bezout_line g r a s b)
    (check <~ call (x <- imul a r ;; y <- imul b s ;; iadd x y) ;~ if g =? check then ret 0 else ([], Exit 1)).
Proof.
  intros H1 H2 E. unfold z_gcd_main. change (teq (txt "-e") "-e") with true. cbv iota. unfold z_ext_gcd_main.
  rewrite (arg_int_ok _ _ H1), pb_ret, (arg_int_ok _ _ H2), pb_ret, E, pb_ok. unfold show, say, nl. rewrite !pb_print, !emit_emit.
  unfold bezout_line, line, txt. rewrite <- !app_assoc. reflexivity.
Qed.
Lemma in_int_abs x : Z.abs x <= INT_MAX -> INT_MIN <= x <= INT_MAX.
Proof. change INT_MIN with (- INT_MAX - 1). lia. Qed.
Lemma ext_check a b g r s : a * r + b * s = g -> Z.abs (a * r) <= INT_MAX -> Z.abs (b * s) <= INT_MAX -> Z.abs g <= INT_MAX ->
  (check <~ call (x <- imul a r ;; y <- imul b s ;; iadd x y) ;~ if g =? check then ret 0 else ([], Exit 1)) = ret 0.
Proof.
  intros E A B G. unfold imul, iadd. rewrite (chk_ok (a * r)) by (apply in_int_abs; lia). cbn [bind]. rewrite (chk_ok (b * s)) by (apply in_int_abs; lia). cbn [bind].
  rewrite chk_ok by (rewrite E; apply in_int_abs; lia). rewrite pb_ok, E, Z.eqb_refl. reflexivity.
Qed.

(* ---- z_totient, z_test_prime ---- *)
Lemma totient_ok args vs ts : args <> [] -> Forall2 int_text args vs ->
  Forall2 (fun v t => exists phi, int_totient v = Ok phi /\ t = put_int phi) vs ts ->
  z_totient_main args = (report ": " vs ts, Val 0).
Proof.
  intros Hn H HT. unfold z_totient_main. destruct args as [|s0 args]; [congruence|]. set (all := s0 :: args) in *.
  rewrite (report_ok ": " all vs ts); [rewrite pb_val; apply emit_ret|exact H|]. rewrite (several_eq _ _ _ H).
  revert HT. apply F2_impl. intros v t (phi & E & ->) s Hs. rewrite (arg_int_ok _ _ Hs), pb_ret, E, pb_ok, label_ok, pb_val.
  unfold show, nl. rewrite pb_print. unfold print, emit, line. cbn [fst snd]. rewrite <- app_assoc. reflexivity.
Qed.
Lemma test_prime_ok args vs ts : Forall2 int_text args vs ->
  Forall2 (fun v t => exists b, is_prime v = Ok b /\ t = txt (if b : bool then "PRIME" else "not prime")) vs ts ->
  z_test_prime_main args = (report ": " vs ts, Val 0).
Proof.
  intros H HT. unfold z_test_prime_main.
  rewrite (report_ok ": " args vs ts); [rewrite pb_val; apply emit_ret|exact H|]. rewrite (several_eq _ _ _ H).
  revert HT. apply F2_impl. intros v t (phi & E & ->) s Hs. rewrite (arg_int_ok _ _ Hs), pb_ret, label_ok, pb_val, E, pb_ok.
  unfold say, nl. rewrite pb_print. unfold print, emit, line, txt. cbn [fst snd]. rewrite <- app_assoc. reflexivity.
Qed.

(* ---- nth_prime ---- *)
(* one number, or two with a minus sign between them *)
Definition range_text (s : text) (lo hi : Z) : Prop :=
  numeral s lo /\ hi = lo \/ exists d1 d2, s = (d1 ++ "-"%char :: d2)%list /\ numeral d1 lo /\ numeral d2 hi.
Lemma dec_nonneg d : Forall digit d -> forall a, 0 <= a -> 0 <= fold_left (fun a c => 10 * a + (Z.of_nat (nat_of_ascii c) - 48)) d a.
Proof. induction 1 as [|c d Hc _ IH]; intros a Ha; cbn [fold_left]; [exact Ha|]. apply IH. unfold digit in Hc. lia. Qed.
Lemma numeral_range d v : numeral d v -> 0 <= v <= INT_MAX.
Proof. intros (_ & H & <- & L). split; [|exact L]. apply dec_nonneg; [exact H|lia]. Qed.
Lemma scan_numeral d v r : numeral d v -> match r with [] => True | x :: _ => ~ digit x end -> scan_num (d ++ r) = Some (v, r).
Proof.
  intros (Hn & Hd & <- & L) Hr. unfold scan_num. destruct d as [|c d]; [congruence|].
  assert (Hc : digit c) by (inversion Hd; assumption). destruct (digit_ok _ Hc) as (_ & Hs & H1 & H2 & _).
  cbn [app skip_space]. rewrite Hs, H1, H2. change (c :: d ++ r) with ((c :: d) ++ r)%list. rewrite rd_digits_gen by auto. reflexivity.
Qed.
Lemma numeral_int d v : numeral d v -> int_range v = true.
Proof. intros H. apply numeral_range in H. apply int_range_iff. change INT_MIN with (- INT_MAX - 1). lia. Qed.
Lemma range_ok s lo hi : range_text s lo hi -> arg_range s = ret (lo, hi).
Proof.
  unfold arg_range. intros [[H ->]|(d1 & d2 & -> & H1 & H2)].
  - rewrite <- (app_nil_r s), (scan_numeral s lo [] H I), (numeral_int _ _ H). reflexivity.
  - rewrite (scan_numeral d1 lo ("-"%char :: d2) H1) by (unfold digit; vm_compute; lia). rewrite (numeral_int _ _ H1).
    cbn [Ascii.eqb Bool.eqb andb]. rewrite <- (app_nil_r d2), (scan_numeral d2 hi [] H2 I), (numeral_int _ _ H2). reflexivity.
Qed.
(* p is the k-th prime *)
Definition kth_prime (k p : Z) : Prop :=
  exists l, prime p /\ NoDup l /\ (forall q, In q l <-> prime q /\ q < p) /\ Z.of_nat (length l) = k - 1.
Lemma primes_from_ok n : forall lo, 1 <= lo -> lo + Z.of_nat n - 1 <= 6542 ->
  exists ps, primes_from n lo = (List.concat (map (fun p => line (put_int p)) ps), Val tt) /\ length ps = n /\
    (forall i p, nth_error ps i = Some p -> kth_prime (lo + Z.of_nat i) p).
Proof.
  induction n as [|n IH]; intros lo H1 H2.
  - exists []. repeat split. intros [|i] p K; discriminate.
  - destruct (C06_nth_prime lo) as (p & l & E & P1 & P2 & P3 & P4); [lia|]. destruct (IH (lo + 1)) as (ps & F & L & K); [lia|lia|].
    exists (p :: ps). cbn [primes_from]. rewrite E, pb_ok. unfold show, nl. rewrite !pb_print, F, emit_emit, emit_pair. cbn [map List.concat].
    split; [reflexivity|]. split; [cbn [length]; congruence|]. intros [|i] q Hq; cbn [nth_error] in Hq.
    + injection Hq as <-. exists l. rewrite Z.add_0_r. auto.
    + replace (lo + Z.of_nat (S i)) with (lo + 1 + Z.of_nat i) by lia. apply K, Hq.
Qed.
Lemma primes_from_throw n : forall lo, lo < 1 \/ 6542 < lo + Z.of_nat n - 1 -> (0 < n)%nat -> snd (primes_from n lo) = Throw.
Proof.
  induction n as [|n IH]; intros lo H H0; [lia|]. cbn [primes_from].
  destruct (Z_lt_le_dec lo 1) as [L|L]; [|destruct (Z_lt_le_dec 6542 lo) as [L'|L']].
  - rewrite C06_nth_prime_reject by lia. reflexivity.
  - rewrite C06_nth_prime_reject by lia. reflexivity.
  - destruct (C06_nth_prime lo) as (p & l & E & _); [lia|]. rewrite E, pb_ok. unfold show, nl. rewrite !pb_print, emit_emit.
    cbn [emit snd]. apply IH; lia.
Qed.
Lemma nth_prime_ok args (rs : list (Z * Z)) : args <> [] -> Forall2 (fun s r => range_text s (fst r) (snd r)) args rs ->
  Forall (fun r => 1 <= fst r /\ snd r <= 6542) rs ->
  exists pss, nth_prime_main args = (List.concat (map (fun p => line (put_int p)) (List.concat pss)), Val 0) /\
    Forall2 (fun r ps => length ps = Z.to_nat (snd r - fst r + 1) /\ forall i p, nth_error ps i = Some p -> kth_prime (fst r + Z.of_nat i) p) rs pss.
Proof.
  intros Hn H B.
  destruct (rel_list (fun r ps => primes_from (Z.to_nat (snd r - fst r + 1)) (fst r) = (List.concat (map (fun p => line (put_int p)) ps), Val tt) /\
     length ps = Z.to_nat (snd r - fst r + 1) /\ (forall i p, nth_error ps i = Some p -> kth_prime (fst r + Z.of_nat i) p)) rs) as [pss HP].
  { intros r Hr. rewrite Forall_forall in B. specialize (B _ Hr).
    destruct (Z_lt_le_dec (snd r) (fst r)) as [L|L].
    - exists []. replace (Z.to_nat (snd r - fst r + 1)) with 0%nat by lia. repeat split. intros [|i] p K; discriminate.
    - apply primes_from_ok; lia. }
  exists pss. split; [|revert HP; apply F2_impl; intros r ps (_ & K); exact K].
  unfold nth_prime_main. destruct args as [|s0 args]; [congruence|]. set (all := s0 :: args) in *. clearbody all.
  rewrite (each_ok _ all (map (fun ps => List.concat (map (fun p => line (put_int p)) ps)) pss)).
  - rewrite pb_val, emit_ret. f_equal. clear. induction pss as [|ps pss IH]; [reflexivity|]. cbn [map List.concat]. rewrite map_app, concat_app, IH. reflexivity.
  - clear B Hn. revert pss HP. induction H as [|s r all rs Hs _ IH]; intros pss HP; inversion HP; subst; [constructor|]. cbn [map].
    constructor; [|apply IH; assumption]. rewrite (range_ok _ _ _ Hs), pb_ret. cbn [fst snd]. tauto.
Qed.

(* ---- z_list ---- *)
Lemma walk_ok n : forall w d, (forall i, 0 <= i <= Z.of_nat n -> INT_MIN <= w + i * d <= INT_MAX) ->
  walk n w d = (List.concat (map (fun i => line (put_int (w + Z.of_nat i * d))) (seq 0 n)), Val tt).
Proof.
  induction n as [|n IH]; intros w d H; [reflexivity|]. cbn [walk]. unfold show, nl. rewrite !pb_print, emit_emit.
  unfold iadd at 1. rewrite chk_ok by (specialize (H 1); lia). rewrite pb_ok, IH.
  - rewrite emit_pair. cbn [seq map List.concat]. rewrite <- seq_shift, map_map. replace (w + Z.of_nat 0 * d) with w by lia.
    rewrite (map_ext (fun i => line (put_int (w + d + Z.of_nat i * d))) (fun x => line (put_int (w + Z.of_nat (S x) * d)))); [reflexivity|].
    intros i. replace (w + d + Z.of_nat i * d) with (w + Z.of_nat (S i) * d) by (rewrite Nat2Z.inj_succ; ring). reflexivity.
  - intros i Hi. replace (w + d + i * d) with (w + (i + 1) * d) by lia. apply H. lia.
Qed.
Lemma walk_ub n : forall w d, INT_MIN <= w <= INT_MAX -> (exists i, 0 <= i <= Z.of_nat n /\ ~ INT_MIN <= w + i * d <= INT_MAX) ->
  snd (walk n w d) = Undef.
Proof.
  induction n as [|n IH]; intros w d Hw (i & Hi & K); [exfalso; apply K; replace i with 0 by lia; lia|]. cbn [walk]. unfold show, nl.
  rewrite !pb_print, emit_emit. cbn [emit snd]. unfold iadd at 1.
  destruct (Z_le_dec INT_MIN (w + d)) as [L1|L1]; [destruct (Z_le_dec (w + d) INT_MAX) as [L2|L2]|]; [|rewrite chk_ub by lia; reflexivity..].
  rewrite chk_ok by lia. rewrite pb_ok. apply IH; [lia|]. exists (i - 1). assert (i <> 0) by (intros ->; apply K; lia). split; [lia|]. intros X. apply K.
  replace (w + i * d) with (w + d + (i - 1) * d) by lia. exact X.
Qed.
