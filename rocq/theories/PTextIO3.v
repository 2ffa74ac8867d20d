(* Vectors and matrices of integers modulo m as text. *)
From Verif Require Import Base MIntMath MIntmod MMat MMatCli MBits MTextIO PIntMath PIntMath2 PIntmod PMatCli5 PMatCli8 PTextIO PTextIO2.
Require Import Lia.
Import ListNotations.
Open Scope nat_scope.
Local Opaque tmx_buf_size tvec_buf_size bmx_buf_size.

(* ---- printing of integers ---- *)
Lemma digit_chr k : (0 <= k < 10)%Z -> digit (ascii_of_nat (Z.to_nat (48 + k))) /\ (Z.of_nat (nat_of_ascii (ascii_of_nat (Z.to_nat (48 + k)))) - 48 = k)%Z.
Proof. intros H. unfold digit. rewrite nat_ascii_embedding by lia. lia. Qed.
Lemma dec_snoc d c : dec (d ++ [c]) = (10 * dec d + (Z.of_nat (nat_of_ascii c) - 48))%Z.
Proof. unfold dec. rewrite fold_left_app. reflexivity. Qed.
Lemma digits_ok f : forall n acc, (0 <= n < 10 ^ Z.of_nat f)%Z -> (0 < f) ->
  exists d, digits f n acc = d ++ acc /\ d <> [] /\ Forall digit d /\ dec d = n.
Proof.
  induction f as [|f IH]; intros n acc Hn Hf; [lia|]. cbn [digits].
  destruct (digit_chr (n mod 10)) as [D1 D2]; [apply Z.mod_pos_bound; lia|].
  set (c := ascii_of_nat _) in *. destruct (Z.ltb_spec n 10).
  - exists [c]. repeat split; [discriminate|constructor; [exact D1|constructor]|]. change (dec [c]) with (10 * 0 + (Z.of_nat (nat_of_ascii c) - 48))%Z.
    rewrite D2, Z.mod_small by lia. reflexivity.
  - assert (Hp : (10 ^ Z.of_nat (S f) = 10 * 10 ^ Z.of_nat f)%Z) by (rewrite Nat2Z.inj_succ, Z.pow_succ_r; lia).
    assert (Hq : (0 <= n / 10 < 10 ^ Z.of_nat f)%Z) by (split; [apply Z.div_pos; lia|apply Z.div_lt_upper_bound; lia]).
    destruct f as [|f]; [cbn in Hq; assert (1 <= n / 10)%Z by (apply Z.div_le_lower_bound; lia); lia|].
    destruct (IH (n / 10)%Z (c :: acc) Hq ltac:(lia)) as (d & E & H1 & H2 & H3). exists (d ++ [c]). rewrite E, <- app_assoc. repeat split.
    + destruct d; discriminate.
    + apply Forall_app. split; [assumption|constructor; [exact D1|constructor]].
    + rewrite dec_snoc, H3, D2. pose proof (Z.div_mod n 10 ltac:(lia)). lia.
Qed.
Lemma put_numeral n : (0 <= n <= INT_MAX)%Z -> numeral (put_int n) n.
Proof.
  intros H. unfold put_int. destruct (Z.ltb_spec n 0); [lia|].
  destruct (digits_ok 40 n []) as (d & E & H1 & H2 & H3); [|lia|].
  - split; [lia|]. apply (Z.le_lt_trans _ INT_MAX); [lia|]. reflexivity.
  - rewrite E, app_nil_r. repeat split; try assumption. lia.
Qed.
Lemma digits_len f : forall n acc, (0 <= n)%Z -> forall k, 0 < k -> (n < 10 ^ Z.of_nat k)%Z -> List.length (digits f n acc) <= k + List.length acc.
Proof.
  induction f as [|f IH]; intros n acc H0 k Hk Hn; [cbn; lia|]. cbn [digits]. destruct (Z.ltb_spec n 10); [cbn; lia|].
  destruct k as [|k]; [lia|]. assert (Hp : (10 ^ Z.of_nat (S k) = 10 * 10 ^ Z.of_nat k)%Z) by (rewrite Nat2Z.inj_succ, Z.pow_succ_r; lia).
  assert (Hq : (0 <= n / 10 < 10 ^ Z.of_nat k)%Z) by (split; [apply Z.div_pos; lia|apply Z.div_lt_upper_bound; lia]).
  destruct k as [|k]; [cbn in Hq; assert (1 <= n / 10)%Z by (apply Z.div_le_lower_bound; lia); lia|].
  specialize (IH (n / 10)%Z (ascii_of_nat (Z.to_nat (48 + n mod 10)) :: acc) ltac:(lia) (S k) ltac:(lia) ltac:(lia)).
  cbn [List.length] in *. lia.
Qed.
Lemma put_len n k : (0 <= n)%Z -> 0 < k -> (n < 10 ^ Z.of_nat k)%Z -> List.length (put_int n) <= k.
Proof.
  intros H0 Hk Hn. unfold put_int. destruct (Z.ltb_spec n 0); [lia|]. pose proof (digits_len 40 n [] H0 k Hk Hn) as K. cbn [List.length] in K. lia.
Qed.

Section Im.
Variables (c : cache) (m : Z).
Hypothesis Hm : (1 <= m <= MAXM)%Z.
Notation z := (mkim 0 m).
Notation V := (im_valid m).
Lemma m_int : (1 <= m <= INT_MAX)%Z. Proof. clear - Hm. unfold MAXM, INT_MAX in *. lia. Qed.
Lemma im_sub_self a : V a -> c_sub (im_cops c) a a = Ok z.
Proof.
  intros [E H]. destruct a as [r m']. cbn in E; subst m'. unfold canon in H; cbn in H. cbn [c_sub im_cops].
  rewrite im_sub_ok by (unfold MAXM in *; lia). rewrite Z.sub_diag. reflexivity.
Qed.
Lemma z_valid : V z. Proof. split; [reflexivity|]. unfold canon; cbn. lia. Qed.
Lemma im_zz : c_sub (im_cops c) z z = Ok z. Proof. apply im_sub_self, z_valid. Qed.
Lemma im_rd : reads (im_getz z) (mword m). Proof. apply im_reads, m_int. Qed.
Lemma mword_chr d a x : mword m d a -> In x d -> digit x.
Proof. intros (v & (_ & H & _) & _) Hx. rewrite Forall_forall in H. auto. Qed.
Lemma mword_sp d a x : mword m d a -> In x d -> is_space x = false.
Proof. intros H Hx. apply digit_ok. apply (mword_chr _ _ _ H Hx). Qed.
Lemma mword_ok d a : mword m d a -> ~ In "#"%char d /\ ~ In "000"%char d.
Proof. intros H. split; intros Hx; apply (mword_chr _ _ _ H) in Hx; unfold digit in Hx; vm_compute in Hx; lia. Qed.
Lemma im_put_word a : V a -> mword m (im_put a) a.
Proof.
  intros [E H]. destruct a as [r m']. cbn in E; subst m'. unfold canon in H; cbn in H. unfold im_put; cbn [residue].
  exists r. pose proof m_int. split; [apply put_numeral; lia|]. rewrite Z.mod_small by lia. reflexivity.
Qed.
(* residues have at most five digits, so a row with few elements fits a line *)
Lemma out_len v : Forall V v -> List.length (vec_out im_put v) <= 6 * List.length v.
Proof.
  induction 1 as [|x v Hx H IH]; [cbn; lia|]. destruct Hx as [E Hc]. unfold canon in Hc. rewrite E in Hc.
  assert (Hp : List.length (im_put x) <= 5) by (unfold im_put; apply put_len; [lia|lia|unfold MAXM in *; change (10 ^ Z.of_nat 5)%Z with 100000%Z; lia]).
  destruct v as [|y v]; [cbn [vec_out List.length]; lia|].
  change (vec_out im_put (x :: y :: v)) with (im_put x ++ " "%char :: vec_out im_put (y :: v)).
  rewrite app_length. cbn [List.length] in *. lia.
Qed.
(* a matrix from any file *)
Lemma im_load_ok fs s : (forall t, fs s = Some t -> minus_free t /\ List.length t < tmx_buf_size) ->
  good_res (fun t => vmat V t /\ t_nr t < tmx_buf_size /\ t_nc t < tmx_buf_size) (im_load c m fs s).
Proof.
  intros H. unfold im_load. destruct (fs s) as [t|]; [|exact I]. destruct (H t eq_refl) as [H1 H2].
  pose proof (mat_load_valid (im_cops c) im_getz z V im_zz (fun s => im_get_valid m s m_int) t H1 H2) as K.
  revert K. apply good_imp. intros x (K1 & K2 & K3). repeat split; try apply K1; lia.
Qed.
End Im.
