(* A bit_t as text: what the reader takes and what the printer writes. *)
From Verif Require Import Base MIntMath MIntmod MMat MMatCli MBits MTextIO MSpiff8 PMatCli5.
From Coq Require Import Ascii Lia.
Import ListNotations.
Open Scope nat_scope.

(* digits, below 2^32, stand for the last bit of their number *)
Definition uword (d : list ascii) (b : bool) : Prop := d <> [] /\ Forall digit d /\ (dec d < 2 ^ 32)%Z /\ b = Z.odd (dec d).
Lemma land1 v : negb (Z.land v 1 =? 0)%Z = Z.odd v.
Proof. change 1%Z with (Z.ones 1) at 1. rewrite Z.land_ones by lia. change (2 ^ 1)%Z with 2%Z. rewrite Zmod_odd. destruct (Z.odd v); reflexivity. Qed.
Lemma read_uword d t : d <> [] -> Forall digit d -> (dec d < 2 ^ 32)%Z -> sep t -> read_unsigned (d ++ t) = Some (dec d, t).
Proof.
  intros Hn Hd Hv Ht. unfold read_unsigned. destruct d as [|c d]; [congruence|].
  assert (Hc : digit c) by (inversion Hd; assumption). destruct (digit_ok _ Hc) as (_ & Hs & Hm1 & Hm2 & _).
  cbn [app skip_space]. rewrite Hs, Hm1, Hm2. change (c :: d ++ t) with ((c :: d) ++ t). rewrite rd_digits by auto.
  change (fold_left _ (c :: d) 0%Z) with (dec (c :: d)). rewrite (proj2 (Z.ltb_lt _ _) Hv). reflexivity.
Qed.
Lemma bit_reads z : reads (bit_getz z) uword.
Proof.
  split.
  - intros d a (H & _). exact H.
  - intros c d a (_ & H & _) Hb. inversion H as [|? ? Hc _]; subst. unfold digit in Hc. destruct Hb as [->| ->]; vm_compute in Hc; lia.
  - intros d a (_ & H & _). rewrite Forall_forall in H. split; intros Hi; specialize (H _ Hi); unfold digit in H; vm_compute in H; lia.
  - intros b d a t Hb (Hne & Hd & Hv & ->) Ht. unfold bit_getz. destruct d as [|c d]; [congruence|]. cbn [app].
    rewrite skip_ws_app by (try assumption; inversion Hd; assumption). change (c :: d ++ t) with ((c :: d) ++ t).
    rewrite (read_uword _ _ Hne Hd Hv Ht), land1. reflexivity.
  - intros b Hb. unfold bit_getz. rewrite skip_ws_end by exact Hb. reflexivity.
Qed.
Lemma uword_sp d a x : uword d a -> In x d -> is_space x = false.
Proof. intros (_ & H & _) Hx. rewrite Forall_forall in H. apply digit_ok. auto. Qed.
Lemma uword_ok d a : uword d a -> ~ In "#"%char d /\ ~ In "000"%char d.
Proof. intros (_ & H & _). rewrite Forall_forall in H. split; intros Hx; apply H in Hx; unfold digit in Hx; vm_compute in Hx; lia. Qed.
Lemma bit_put_word b : True -> uword (bit_put b) b.
Proof. intros _. destruct b; (split; [discriminate|split; [constructor; [split; vm_compute; lia|constructor]|split; [vm_compute; reflexivity|reflexivity]]]). Qed.
Lemma bit_sub_self b : c_sub bit_ops b b = Ok false.
Proof. destruct b; reflexivity. Qed.
