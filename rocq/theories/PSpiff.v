(* Runs of the commands of spiff: sequencing, arguments, the integer commands. *)
From Verif Require Import Base MIntMath MPrimes16 MPrime MFac MIntmod MF2Poly MMatCli MTextIO MList MUnits MRandom MSpiff.
From Verif Require Import PIntMath PIntMath2 PPrime PFac PropInt PropCont PMatCli5 PPolyText PPolyText8.
From Coq Require Import Ascii String Znumtheory Lia.
Import ListNotations.
Open Scope Z_scope.
Local Notation length := List.length.

(* ---- sequencing ---- *)
Definition emit {A} (t : text) (m : prog A) : prog A := ((t ++ fst m)%list, snd m).
Lemma emit_nil {A} (m : prog A) : emit [] m = m.
Proof. destruct m; reflexivity. Qed.
Lemma emit_emit {A} t u (m : prog A) : emit t (emit u m) = emit (t ++ u) m.
Proof. unfold emit. cbn [fst snd]. rewrite app_assoc. reflexivity. Qed.
Lemma pb_ret {A B} (a : A) (k : A -> prog B) : pbind (ret a) k = k a.
Proof. unfold pbind, ret. cbn [fst snd app]. destruct (k a); reflexivity. Qed.
Lemma pb_print {B} t (k : unit -> prog B) : pbind (print t) k = emit t (k tt).
Proof. reflexivity. Qed.
Lemma pb_emit {A B} t (m : prog A) (k : A -> prog B) : pbind (emit t m) k = emit t (pbind m k).
Proof. unfold pbind, emit. destruct m as [u [a|c| | |]]; cbn [fst snd]; try reflexivity. rewrite app_assoc. reflexivity. Qed.
Lemma pb_ok {A B} (a : A) (k : A -> prog B) : pbind (call (Ok a)) k = k a.
Proof. apply (pb_ret a k). Qed.
Lemma pb_val {A B} t (a : A) (k : A -> prog B) : pbind (t, Val a) k = emit t (k a).
Proof. reflexivity. Qed.
Lemma pb_assoc {A B C} (m : prog A) (k : A -> prog B) (h : B -> prog C) : pbind (pbind m k) h = pbind m (fun a => pbind (k a) h).
Proof.
  destruct m as [t [a|c| | |]]; try reflexivity. unfold pbind. cbn [fst snd]. destruct (k a) as [u [b|c| | |]]; cbn [fst snd]; try reflexivity.
  rewrite app_assoc. reflexivity.
Qed.
Lemma emit_ret {A} t (a : A) : emit t (ret a) = (t, Val a).
Proof. unfold emit, ret. cbn [fst snd]. rewrite app_nil_r. reflexivity. Qed.
Lemma emit_pair {A} t u (f : fin A) : emit t (u, f) = ((t ++ u)%list, f).
Proof. reflexivity. Qed.
(* a run that ends here *)
Definition stops {A} (f : fin A) : Prop := match f with Val _ => False | _ => True end.
Definition recast {A B} (f : fin A) : fin B :=
  match f with Val _ => Undef | Exit c => Exit c | Throw => Throw | Undef => Undef | Forever => Forever end.
Lemma pb_stop {A B} t (f : fin A) (k : A -> prog B) : stops f -> pbind (t, f) k = (t, recast f).
Proof. destruct f; intros H; [contradiction|reflexivity..]. Qed.

(* ---- arguments ---- *)
Lemma read_scan w v r : read_int w = Some (v, r) <-> scan_num w = Some (v, r) /\ INT_MIN <= v <= INT_MAX.
Proof.
  unfold read_int, scan_num. set (u := match skip_space w with [] => _ | x :: t => _ end).
  destruct u as [neg t]. destruct (read_digits t 0 false) as [[v' r']|]; [|split; [discriminate|intros [H _]; discriminate]].
  cbn zeta. set (x := if neg then - v' else v'). destruct (Z.leb_spec INT_MIN x) as [L1|L1]; destruct (Z.leb_spec x INT_MAX) as [L2|L2]; cbn [andb];
    try (split; [discriminate|intros [K L]; injection K as K1 K2; rewrite <- K1 in L; exfalso; clear - L L1 L2; lia]).
  split; [intros K; injection K as <- <-; auto|intros [-> _]; reflexivity].
Qed.
Lemma scan_ok w v : int_text w v -> (exists r, scan_num w = Some (v, r)) /\ INT_MIN <= v <= INT_MAX.
Proof. intros H. apply int_text_rest in H. destruct H as [r H]. apply read_scan in H. destruct H as [H L]. split; [exists r; exact H|exact L]. Qed.
Lemma int_range_iff v : int_range v = true <-> INT_MIN <= v <= INT_MAX.
Proof. unfold int_range. rewrite Bool.andb_true_iff, !Z.leb_le. reflexivity. Qed.
Lemma arg_int_ok s v : int_text s v -> arg_int s = ret v.
Proof. intros H. apply scan_ok in H. destruct H as [[r H] L]. unfold arg_int. rewrite H. apply int_range_iff in L. rewrite L. reflexivity. Qed.
(* no number at all *)
Definition no_number (s : text) : Prop :=
  forall b sg d r, s = (b ++ sg ++ d ++ r)%list -> Forall (fun x => is_space x = true) b -> sg = ["-"%char] \/ sg = ["+"%char] \/ sg = [] ->
    Forall digit d -> d = [].
Lemma arg_int_none s : no_number s -> arg_int s = usage.
Proof.
  intros H. unfold arg_int. destruct (scan_num s) as [[v r]|] eqn:E; [|reflexivity]. exfalso. revert E. unfold scan_num.
  destruct (skip_space_split s) as (b & Es & Hb & _). set (u := skip_space s) in *.
  assert (K : forall sg t, u = (sg ++ t)%list -> sg = ["-"%char] \/ sg = ["+"%char] \/ sg = [] -> read_digits t 0 false = None).
  { intros sg t Hu Hs. destruct (read_digits t 0 false) as [[v' r']|] eqn:R; [|reflexivity]. apply rd_digits_inv in R.
    destruct R as (d & -> & H1 & [H2|H2] & _); [|discriminate]. exfalso. apply H2, (H b sg d r'); auto. rewrite Es, Hu. reflexivity. }
  destruct u as [|x t]; [discriminate|].
  destruct (Ascii.eqb_spec x "-"%char) as [->|_]; [rewrite (K ["-"%char] t) by auto; discriminate|].
  destruct (Ascii.eqb_spec x "+"%char) as [->|_]; [rewrite (K ["+"%char] t) by auto; discriminate|].
  rewrite (K [] (x :: t)) by auto. discriminate.
Qed.
(* a text with a number is none of the options *)
Lemma int_text_digit s v : int_text s v -> exists c, In c s /\ digit c.
Proof.
  intros (b & sg & d & r & -> & _ & Hn & Hd & _). destruct d as [|c d]; [congruence|]. exists c. split; [|inversion Hd; assumption].
  rewrite !in_app_iff. cbn [In app]. auto.
Qed.
Lemma int_text_not s v o : int_text s v -> existsb is_digit (list_ascii_of_string o) = false -> teq s o = false.
Proof.
  intros H E. unfold teq. destruct (String.eqb_spec (string_of_list_ascii s) o) as [K|]; [|reflexivity]. exfalso.
  apply int_text_digit in H. destruct H as (c & Hc & D). rewrite <- K, list_ascii_of_string_of_list_ascii in E.
  assert (X : existsb is_digit s = true) by (apply existsb_exists; exists c; split; [exact Hc|apply is_digit_iff, D]). congruence.
Qed.

(* ---- loops over the arguments ---- *)
Lemma each_ok body args ts : Forall2 (fun s t => body s = (t, Val tt)) args ts -> each body args = (List.concat ts, Val tt).
Proof.
  induction 1 as [|s t args ts H _ IH]; [reflexivity|]. cbn [each List.concat]. rewrite H, pb_val, IH. reflexivity.
Qed.
Lemma each_stop body pre ts s t f post : Forall2 (fun s t => body s = (t, Val tt)) pre ts -> body s = (t, f) -> stops f ->
  each body (pre ++ s :: post) = ((List.concat ts ++ t)%list, f).
Proof.
  intros H E S. induction H as [|s' t' pre ts H _ IH].
  - cbn [app each List.concat]. rewrite E, pb_stop by exact S. destruct f; [contradiction|reflexivity..].
  - cbn [app each List.concat]. rewrite H, pb_val, IH, emit_pair, app_assoc. reflexivity.
Qed.

(* ---- what is printed: a line for each argument, with the argument in front if there are several ---- *)
Definition txt (s : string) : text := list_ascii_of_string s.
Definition line (t : text) : text := (t ++ [newline])%list.
Definition report (sep : string) (vs : list Z) (ts : list text) : text :=
  List.concat (map (fun p => line ((if (1 <? length vs)%nat then put_int (fst p) ++ txt sep else []) ++ snd p)%list) (combine vs ts)).

Lemma label_ok sev v sep : label sev (show v) sep = ((if sev then put_int v ++ txt sep else [])%list, Val tt).
Proof. unfold label, show, say. destruct sev; reflexivity. Qed.
(* the values and their texts *)
Lemma rel_list {A B} (P : A -> B -> Prop) (l : list A) : (forall a, In a l -> exists b, P a b) -> exists bs, Forall2 P l bs.
Proof.
  induction l as [|a l IH]; intros H; [exists []; constructor|]. destruct (H a) as [b Hb]; [left; reflexivity|].
  destruct IH as [bs Hs]; [intros x Hx; apply H; right; exact Hx|]. exists (b :: bs). constructor; assumption.
Qed.
Lemma report_ok sep args vs ts body :
  Forall2 int_text args vs ->
  Forall2 (fun v t => forall s, int_text s v -> body s = (line ((if (1 <? length vs)%nat then put_int v ++ txt sep else []) ++ t)%list, Val tt)) vs ts ->
  each body args = (report sep vs ts, Val tt).
Proof.
  intros HF HT. unfold report. set (n := (1 <? length vs)%nat) in *. clearbody n.
  apply each_ok. revert args HF. induction HT as [|v t vs ts H _ IH]; intros args HF; inversion HF; subst; [constructor|].
  cbn [combine map fst snd]. constructor; [apply H; assumption|apply IH; assumption].
Qed.
Lemma several_eq {A} (args : list A) (vs : list Z) (P : A -> Z -> Prop) : Forall2 P args vs -> several args = (1 <? length vs)%nat.
Proof. intros H. unfold several. replace (length args) with (length vs) by (induction H; cbn [length]; congruence). reflexivity. Qed.

(* ---- gcd and lcm ---- *)
Fixpoint folded (f : Z -> Z -> res Z) (g : Z) (vs : list Z) : res Z :=
  match vs with [] => Ok g | a :: vs => g <- f g a ;; folded f g vs end.
Lemma z_fold_eq f args vs : Forall2 int_text args vs -> forall g, z_fold f g args = call (folded f g vs).
Proof.
  induction 1 as [|s v args vs H _ IH]; intros g; cbn [folded z_fold] in *; [reflexivity|].
  rewrite (arg_int_ok _ _ H), pb_ret. destruct (f g v) as [g'| | |]; try reflexivity. rewrite pb_ok. cbn [bind]. apply IH.
Qed.
(* a bad argument stops the run before anything is printed *)
Lemma z_fold_bad f pre vs s post : Forall2 int_text pre vs -> no_number s ->
  forall g, (exists h, folded f g vs = Ok h) -> z_fold f g (pre ++ s :: post) = usage.
Proof.
  intros H Hs. induction H as [|s' v pre vs H _ IH]; intros g [h E].
  - cbn [app z_fold]. rewrite (arg_int_none _ Hs). reflexivity.
  - cbn [app z_fold folded] in *. rewrite (arg_int_ok _ _ H), pb_ret. destruct (f g v) as [g'| | |]; try discriminate.
    rewrite pb_ok. apply IH. exists h. exact E.
Qed.
Lemma folded_gcd vs : Forall (fun v => Z.abs v <= INT_MAX) vs -> forall g, Z.abs g <= INT_MAX ->
  exists h, folded int_gcd g vs = Ok h /\ (forall d, (d | h) <-> (d | g) /\ Forall (fun v => (d | v)) vs) /\ Z.abs h <= INT_MAX /\
    (0 <= g -> Forall (fun v => 0 <= v) vs -> 0 <= h) /\ (0 < g -> 0 < h) /\ (g <> 0 -> Exists (fun v => v <> 0) vs -> 0 < h).
Proof.
  induction 1 as [|v vs Hv Hs IH]; intros g Hg.
  - exists g. repeat split; auto; try (intros [? _]; assumption); try lia. intros _ K. inversion K.
  - cbn [folded]. destruct (C01_gcd g v Hg Hv) as (x & E & D1 & D2 & D3 & Z0 & P). rewrite E. cbn [bind].
    assert (Hx : Z.abs x <= INT_MAX).
    { destruct (Z.eq_dec g 0) as [G0|G0]; [destruct (Z.eq_dec v 0) as [V0|V0]|].
      - assert (x = 0) by (apply Z0; auto). lia.
      - apply Z.divide_abs_l in D2. apply Z.divide_abs_r in D2. apply Z.divide_pos_le in D2; lia.
      - apply Z.divide_abs_l in D1. apply Z.divide_abs_r in D1. apply Z.divide_pos_le in D1; lia. }
    destruct (IH x Hx) as (h & F & Hd & Hh & Hp & Hq & Hr). exists h. split; [exact F|]. split; [|split; [exact Hh|split; [|split]]].
    + intros d. rewrite Hd. split.
      * intros [A B]. split; [eapply Z.divide_trans; eassumption|constructor; [eapply Z.divide_trans; eassumption|exact B]].
      * intros [A B]. inversion B; subst. split; [apply D3; assumption|assumption].
    + intros G0 K. inversion K; subst. apply Hp; [apply P; right; auto|assumption].
    + intros G0. apply Hq. destruct (Z.eq_dec v 0) as [->|V0].
      * assert (0 <= x) by (apply P; right; lia). assert (x <> 0) by (intros X; apply Z0 in X; lia). lia.
      * assert (0 <= x) by (apply P; left; lia). assert (x <> 0) by (intros X; apply Z0 in X; lia). lia.
    + intros G0 K. destruct (Z.eq_dec v 0) as [V0|V0].
      * inversion K; subst; [congruence|]. apply Hr; [intros X; apply Z0 in X; lia|assumption].
      * apply Hq. assert (0 <= x) by (apply P; left; lia). assert (x <> 0) by (intros X; apply Z0 in X; lia). lia.
Qed.
Lemma folded_gcd2 vs : Forall (fun v => Z.abs v <= INT_MAX) vs -> forall g, Z.abs g <= INT_MAX -> forall h, folded int_gcd g vs = Ok h ->
  (2 <= length (filter (fun v => negb (v =? 0)%Z) (g :: vs)))%nat -> 0 < h.
Proof.
  intros Hs. induction Hs as [|v vs Hv Hs IH]; intros g Hg h E L.
  - cbn [filter] in L. destruct (g =? 0); cbn in L; lia.
  - destruct (Z.eq_dec g 0) as [->|G0].
    + cbn [folded] in E. change (int_gcd 0 v) with (Ok v) in E. cbn [bind] in E. apply (IH v Hv h E). exact L.
    + destruct (folded_gcd (v :: vs)) with (g := g) as (h' & E' & _ & _ & _ & _ & P); [constructor; assumption|assumption|].
      assert (h' = h) by congruence. subst h'. apply P; [exact G0|]. set (ne := fun v => negb (v =? 0)%Z) in *.
      assert (F0 : filter ne (g :: v :: vs) = g :: filter ne (v :: vs)) by (cbn [filter]; unfold ne at 1; destruct (Z.eqb_spec g 0); [congruence|reflexivity]).
      rewrite F0 in L. rewrite Exists_exists. destruct (filter ne (v :: vs)) as [|x t] eqn:F; [cbn in L; lia|].
      exists x. assert (In x (filter ne (v :: vs))) as Hx by (rewrite F; left; reflexivity).
      apply filter_In in Hx. destruct Hx as [Hx Nx]. split; [exact Hx|]. intros ->. discriminate.
Qed.
Definition prod (vs : list Z) : Z := fold_right Z.mul 1 vs.
Lemma prod_pos vs : Forall (fun v => 0 < v) vs -> 1 <= prod vs.
Proof. unfold prod. induction 1; cbn [fold_right]; nia. Qed.
Lemma folded_lcm vs : Forall (fun v => 0 < v) vs -> forall g, 0 < g -> g * prod vs <= INT_MAX ->
  folded int_lcm g vs = Ok (fold_left Z.lcm vs g).
Proof.
  induction 1 as [|v vs Hv Hs IH]; intros g Hg B; cbn [folded fold_left prod fold_right] in *; [reflexivity|]. fold (prod vs) in B.
  pose proof (prod_pos _ Hs) as P. assert (B1 : g * v <= INT_MAX) by nia.
  rewrite (C02_lcm g v) by nia. cbn [bind].
  assert (L : 0 < Z.lcm g v <= g * v).
  { split; [pose proof (Z.lcm_nonneg g v); assert (Z.lcm g v <> 0) by (intros X; apply Z.lcm_eq_0 in X; lia); lia|].
    apply Z.divide_pos_le; [nia|]. apply Z.lcm_least; [apply Z.divide_factor_l|apply Z.divide_factor_r]. }
  apply IH; [lia|]. nia.
Qed.
