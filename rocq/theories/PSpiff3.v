(* z_factor and z_divisors. *)
From Verif Require Import Base MIntMath MPrimes16 MPrime MFac MIntmod MF2Poly MMatCli MTextIO MList MUnits MRandom MSpiff.
From Verif Require Import PIntMath PIntMath2 PPrime PFac PFacGen PFacInt PropInt PropCont PMatCli5 PPolyText PPolyText8 PTextIO3 PSpiff PSpiff2.
From Coq Require Import Ascii String Znumtheory Lia.
Import ListNotations.
Open Scope Z_scope.
Local Notation length := List.length.

(* words with one blank between them *)
Fixpoint unwords (ws : list text) : text :=
  match ws with
  | [] => []
  | [w] => w
  | w :: ws => (w ++ " "%char :: unwords ws)%list
  end.
Definition power_word (p : Z * Z) : text := (put_int (fst p) ++ (if snd p =? 1 then [] else "^"%char :: put_int (snd p)))%list.
Lemma unwords_cons w ws : ws <> [] -> unwords (w :: ws) = (w ++ " "%char :: unwords ws)%list.
Proof. destruct ws; [congruence|reflexivity]. Qed.
Lemma put_facs_tail l : put_facs put_int false l = List.concat (map (fun p => " "%char :: power_word p) l).
Proof.
  induction l as [|[p c] l IH]; [reflexivity|]. cbn [put_facs map List.concat]. rewrite IH. unfold power_word. cbn [fst snd app].
  rewrite <- app_assoc. reflexivity.
Qed.
Lemma unwords_tail w (l : list text) : (w ++ List.concat (map (fun x => " "%char :: x) l))%list = unwords (w :: l).
Proof.
  revert w. induction l as [|x l IH]; intros w; [cbn; apply app_nil_r|]. rewrite unwords_cons by discriminate. rewrite <- (IH x). reflexivity.
Qed.
Lemma put_facinfo_eq f : put_facinfo put_int f =
  unwords ((match funit f with Some u => [put_int u] | None => [] end) ++ map power_word (facs f))%list.
Proof.
  unfold put_facinfo. destruct (funit f) as [u|]; cbn [app].
  - rewrite put_facs_tail, <- unwords_tail, map_map. reflexivity.
  - destruct (facs f) as [|[p c] l]; [reflexivity|]. cbn [put_facs map]. rewrite put_facs_tail, <- unwords_tail, map_map. unfold power_word at 2.
    cbn [fst snd app]. rewrite <- app_assoc. reflexivity.
Qed.
(* the words printed for v: the sign, or 1 for 1, and the prime powers *)
Definition factor_words (v : Z) (fs : list (Z * Z)) : list text :=
  ((if v <? 0 then [txt "-1"] else if v =? 1 then [txt "1"] else []) ++ map power_word fs)%list.
Definition factorization (v : Z) (fs : list (Z * Z)) : Prop :=
  (forall p c, In (p, c) fs -> prime p /\ 1 <= c) /\ increasing (map fst fs) /\ fac_value fs = Z.abs v.
Lemma factor_run v : v <> 0 -> Z.abs v <= INT_MAX ->
  exists f, int_factor v = Ok f /\ factorization v (facs f) /\ put_facinfo put_int f = unwords (factor_words v (facs f)) /\
    unfactor int_fops f 1 = Ok v.
Proof.
  intros H0 Hv.
  assert (K : exists f, int_factor v = Ok f /\ factorization v (facs f) /\
     funit f = (if v <? 0 then Some (-1) else if v =? 1 then Some 1 else None)).
  { unfold int_factor. destruct ((-1 <=? v) && (v <=? 1))%bool eqn:E.
    - apply Bool.andb_true_iff in E. rewrite !Z.leb_le in E. eexists. split; [reflexivity|]. cbn [facs funit].
      split; [split; [intros p c []|split; [exact I|cbn; lia]]|]. destruct (Z.ltb_spec v 0); [f_equal; lia|]. destruct (Z.eqb_spec v 1); [f_equal; lia|lia].
    - apply Bool.andb_false_iff in E. rewrite !Z.leb_gt in E. destruct (Z.ltb_spec v 0) as [L|L].
      + cbn [insert_unit fac_empty funit facs bind]. unfold ineg. rewrite chk_abs by lia. rewrite bind_ok.
        destruct (int_factor_pos (-v)) with (f := mkfac [] (Some (-1))) as (g & H1 & H2 & [H3 H3'] & H4); [lia|reflexivity|].
        exists g. split; [exact H1|]. split; [split; [intros p c Hin; exact (H3 (p, c) Hin)|split; [exact H3'|lia]]|exact H2].
      + destruct (int_factor_pos v) with (f := @fac_empty Z) as (g & H1 & H2 & [H3 H3'] & H4); [lia|reflexivity|].
        exists g. split; [exact H1|]. split; [split; [intros p c Hin; exact (H3 (p, c) Hin)|split; [exact H3'|lia]]|].
        rewrite H2. destruct (Z.eqb_spec v 1); [lia|reflexivity]. }
  destruct K as (f & E & (F1 & F2 & F3) & U). exists f. split; [exact E|]. split; [split; auto|]. split.
  - rewrite put_facinfo_eq, U. unfold factor_words. destruct (v <? 0); [reflexivity|]. destruct (v =? 1); reflexivity.
  - assert (En : entries_ok int_ok (facs f)) by (apply good_entries0, good_entries; [exact F1|lia]).
    assert (EV : lval idz Z.mul 1 (facs f) = Z.abs v) by (rewrite lval_fac_value; [exact F3|apply entries_Forall, En]).
    assert (EU : Z.mul (uval idz 1 (funit f)) (lval idz Z.mul 1 (facs f)) = v).
    { rewrite EV, U. destruct (Z.ltb_spec v 0); cbn [uval]; [lia|]. destruct (Z.eqb_spec v 1); cbn [uval]; lia. }
    destruct (C41_unfactor int_fops int_ok idz Z.mul 1 int_fits C41_int_instance f 1) as (z & Ez & _ & Iz); auto.
    + unfold int_ok. cbn. unfold INT_MAX. lia.
    + rewrite U. destruct (v <? 0); [cbn; unfold int_ok, INT_MAX; lia|]. destruct (v =? 1); cbn; [unfold int_ok, INT_MAX; lia|exact I].
    + rewrite EU. split; assumption.
    + rewrite Ez. f_equal. lia.
Qed.
Lemma factor_main args vs ts : Forall2 int_text args vs ->
  Forall2 (fun v t => exists f, int_factor v = Ok f /\ t = put_facinfo put_int f /\ unfactor int_fops f 1 = Ok v) vs ts ->
  z_factor_main args = (report " = " vs ts, Val 0).
Proof.
  intros H HT. unfold z_factor_main.
  rewrite (report_ok " = " args vs ts); [rewrite pb_val; apply emit_ret|exact H|]. rewrite (several_eq _ _ _ H).
  revert HT. apply F2_impl. intros v t (f & E & -> & C) s Hs. rewrite (arg_int_ok _ _ Hs), pb_ret, label_ok, pb_val, E, pb_ok.
  unfold nl. rewrite !pb_print, C, pb_ok, Z.eqb_refl. unfold emit, ret. cbn [fst snd].
  unfold line. rewrite app_nil_r, <- app_assoc. reflexivity.
Qed.
Lemma vec_out_unwords (l : list Z) : vec_out put_int l = unwords (map put_int l).
Proof. induction l as [|x l IH]; [reflexivity|]. cbn [vec_out map unwords]. destruct l as [|y l]; [reflexivity|]. rewrite IH. reflexivity. Qed.
Lemma divisors_main mp args vs ts : args <> [] -> Forall2 int_text args vs ->
  Forall2 (fun v t => exists f, int_factor v = Ok f /\
    ((exists ds, (if mp : bool then get_maximal_proper_divisors int_fops f 1 = Ok (Some ds) else get_all_divisors int_fops f 1 = Ok ds) /\
        t = unwords (map put_int ds)) \/
     mp = true /\ get_maximal_proper_divisors int_fops f 1 = Ok None /\ t = txt "(none)")) vs ts ->
  z_divisors_main (if mp then txt "-mp" :: args else args) = (report ": " vs ts, Val 0).
Proof.
  intros Hn H HT. unfold z_divisors_main. destruct args as [|s0 args]; [congruence|].
  assert (Hm : (match (if mp then txt "-mp" :: s0 :: args else s0 :: args) with
                | s :: t => if teq s "-mp" then (true, t) else (false, if mp then txt "-mp" :: s0 :: args else s0 :: args)
                | [] => (false, if mp then txt "-mp" :: s0 :: args else s0 :: args) end) = (mp, s0 :: args)).
  { destruct mp; [reflexivity|]. inversion H; subst. rewrite (int_text_not _ _ "-mp" H2 eq_refl). reflexivity. }
  rewrite Hm. set (all := s0 :: args) in *.
  rewrite (report_ok ": " all vs ts); [rewrite pb_val; apply emit_ret|exact H|]. rewrite (several_eq _ _ _ H).
  revert HT. apply F2_impl. intros v t (f & E & K) s Hs. rewrite (arg_int_ok _ _ Hs), pb_ret, label_ok, pb_val, E, pb_ok.
  destruct K as [(ds & K & ->)|(-> & K & ->)].
  - replace (if mp then get_maximal_proper_divisors int_fops f 1 else ds0 <- get_all_divisors int_fops f 1 ;; Ok (Some ds0)) with (Ok (Some ds))
      by (destruct mp; rewrite K; reflexivity).
    rewrite pb_ok, vec_out_unwords. unfold nl. rewrite pb_print. unfold print, emit, line. cbn [fst snd]. rewrite <- app_assoc. reflexivity.
  - rewrite K, pb_ok. unfold say, nl. rewrite pb_print. unfold print, emit, line. cbn [fst snd]. rewrite <- app_assoc. reflexivity.
Qed.
