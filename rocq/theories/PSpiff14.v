(* Commands of spiff on residue classes: what the loops of MSpiff3.v print. *)
From Verif Require Import Base MIntMath MF2Poly MTextIO MList MSpiff MSpiff2 MSpiff3.
From Verif Require Import PSpiff PSpiff2 PSpiff3 PSpiff7 PMatCli5.
From Coq Require Import Ascii String Lia.
Import ListNotations.
Open Scope Z_scope.
Local Notation length := List.length.

(* rows and columns in the order of l *)
Definition grid {X} (tx : X -> text) (f : X -> X -> X) (l : list X) : text :=
  List.concat (map (fun a => line (unwords (map (fun b => tx (f a b)) l))) l).
Definition log_text {X} (tx : X -> text) (l : list X) (es : list Z) : text :=
  (line (txt "element power") ++ line (txt "------- -----") ++ List.concat (map (fun p => line (tx (fst p) ++ txt " " ++ put_int (snd p))) (combine l es)))%list.
(* the powers of exponents 0, ..., n-1 *)
Definition alog_text {X} (tx : X -> text) (pow : nat -> X) (n : nat) : text :=
  (line (txt "power element") ++ line (txt "----- -------") ++ List.concat (map (fun k => line (put_int (Z.of_nat k) ++ txt " " ++ tx (pow k))) (seq 0 n)))%list.

Section G.
Context {A X : Type} (arg : text -> prog A) (shw : A -> prog unit) (enc : X -> A) (rd : text -> X -> Prop) (tx : X -> text).
Hypothesis Harg : forall s x, rd s x -> arg s = ret (enc x).
Hypothesis Hshw : forall x, shw (enc x) = print (tx x).

Lemma row_tail op f a xs : (forall b, In b xs -> op (enc a) (enc b) = Ok (enc (f a b))) ->
  k_row shw op false (enc a) (map enc xs) = ((List.concat (map (fun b => " "%char :: tx (f a b)) xs) ++ [newline])%list, Val tt).
Proof.
  induction xs as [|b xs IH]; intros H; [reflexivity|]. cbn [map k_row]. rewrite H, pb_ok, Hshw, IH by (cbn; auto; intros; apply H; cbn; auto).
  unfold say, print. rewrite !pb_val, !emit_pair. cbn [map List.concat list_ascii_of_string app]. rewrite <- app_assoc. reflexivity.
Qed.
Lemma row_ok op f a xs : (forall b, In b xs -> op (enc a) (enc b) = Ok (enc (f a b))) ->
  k_row shw op true (enc a) (map enc xs) = (line (unwords (map (fun b => tx (f a b)) xs)), Val tt).
Proof.
  destruct xs as [|b xs]; intros H; [reflexivity|]. cbn [map k_row]. rewrite H, pb_ok, Hshw, pb_ret, (row_tail op f) by (cbn; auto; intros; apply H; cbn; auto).
  unfold print. rewrite pb_val, emit_pair. unfold line. rewrite <- (unwords_tail (tx (f a b)) (map (fun b => tx (f a b)) xs)), map_map, app_assoc. reflexivity.
Qed.
Lemma rows_ok op f elts xs : (forall a b, In a xs -> In b elts -> op (enc a) (enc b) = Ok (enc (f a b))) ->
  k_rows shw op (map enc elts) (map enc xs) = (List.concat (map (fun a => line (unwords (map (fun b => tx (f a b)) elts))) xs), Val tt).
Proof.
  induction xs as [|a xs IH]; intros H; [reflexivity|]. cbn [map k_rows]. rewrite (row_ok op f a elts), pb_val, IH.
  - rewrite emit_pair. reflexivity.
  - intros x b Hx Hb. apply H; cbn; auto.
  - intros b Hb. apply H; cbn; auto.
Qed.
Lemma grid_ok op f xs : (forall a b, In a xs -> In b xs -> op (enc a) (enc b) = Ok (enc (f a b))) ->
  k_rows shw op (map enc xs) (map enc xs) = (grid tx f xs, Val tt).
Proof. intros H. rewrite (rows_ok op f); [reflexivity|exact H]. Qed.
Lemma log_rows_ok log xs es : Forall2 (fun x e => log (enc x) = Ok e) xs es ->
  k_log_rows shw log (map enc xs) = (List.concat (map (fun p => line (tx (fst p) ++ txt " " ++ put_int (snd p))%list) (combine xs es)), Val tt).
Proof.
  induction 1 as [|x e xs es H _ IH]; [reflexivity|]. cbn [map k_log_rows combine List.concat fst snd]. rewrite H, pb_ok, Hshw, IH.
  unfold say, show, nl, print, line. rewrite !pb_val, !emit_pair, <- !app_assoc. reflexivity.
Qed.
Lemma alog_rows_ok mul (pow : nat -> X) g cnt : forall i, (forall k, mul (enc (pow k)) (enc g) = Ok (enc (pow (S k)))) ->
  k_alog_rows shw mul cnt (Z.of_nat i) (enc g) (enc (pow i)) =
  (List.concat (map (fun k => line (put_int (Z.of_nat k) ++ txt " " ++ tx (pow k))%list) (seq i cnt)), Val tt).
Proof.
  induction cnt as [|cnt IH]; intros i H; [reflexivity|]. cbn [k_alog_rows seq map List.concat]. rewrite Hshw, H, pb_ok.
  replace (Z.of_nat i + 1) with (Z.of_nat (S i)) by lia. rewrite (IH (S i) H). unfold say, show, nl, print, line. rewrite !pb_val, !emit_pair, <- !app_assoc. reflexivity.
Qed.
Context (add sub mul div : A -> A -> res A) (log : A -> A -> res Z) (list_of : sp_list_type -> res (list A)).
Local Notation tbl := (k_table shw add sub mul div log list_of).
Lemma table_log g xs es : list_of LIST_UNITS = Ok (map enc xs) -> Forall2 (fun x e => log g (enc x) = Ok e) xs es ->
  tbl (KLog g) = (log_text tx xs es, Val tt).
Proof.
  intros H1 H2. unfold k_table. rewrite H1, pb_ok, (log_rows_ok (log g) xs es H2). unfold say, nl, print. rewrite !pb_val, !emit_pair. unfold log_text, line, txt. rewrite <- !app_assoc. reflexivity.
Qed.
Lemma table_alog g pow xs : list_of LIST_UNITS = Ok (map enc xs) -> div (enc g) (enc g) = Ok (enc (pow 0%nat)) ->
  (forall k, mul (enc (pow k)) (enc g) = Ok (enc (pow (S k)))) -> tbl (KAlog (enc g)) = (alog_text tx pow (length xs), Val tt).
Proof.
  intros H1 H2 H3. unfold k_table. rewrite H1, pb_ok, H2, pb_ok, map_length. pose proof (alog_rows_ok mul pow g (length xs) 0 H3) as E. change (Z.of_nat 0) with 0 in E. rewrite E.
  unfold say, nl, print. rewrite !pb_val, !emit_pair. unfold alog_text, line, txt. rewrite <- !app_assoc. reflexivity.
Qed.
Lemma calc_ok {B Y} (shwB : B -> prog unit) (encB : Y -> B) (txB : Y -> text) sev f args xs ys : (forall y, shwB (encB y) = print (txB y)) ->
  Forall2 rd args xs -> Forall2 (fun x y => f (enc x) = Ok (encB y)) xs ys ->
  per_calc arg shw shwB sev f args = (listing tx sev ": " xs (map txB ys), Val tt).
Proof.
  intros HB H. revert ys. unfold per_calc, listing. induction H as [|s x args xs Hs H IH]; intros ys HT; inversion HT as [|? y ? ys' K1 K2]; subst; [reflexivity|].
  cbn [each combine map List.concat fst snd]. rewrite (Harg _ _ Hs), pb_ret, K1, pb_ok, (IH _ K2).
  replace (label sev (shw (enc x)) ": ") with ((if sev then tx x ++ txt ": " else [])%list, Val tt).
  2:{ unfold label. destruct sev; [|reflexivity]. rewrite Hshw. reflexivity. }
  rewrite HB, pb_val. unfold nl, line. rewrite pb_print, !pb_emit. unfold print. rewrite !pb_val, !emit_emit, emit_pair, <- !app_assoc. reflexivity.
Qed.
End G.
