(* The polynomial routines of MPoly are monotone in the coefficient operations: if every
   coefficient operation of o gives either UB or the outcome of o', so does every routine. *)
From Verif Require Import Base MIntMath MMat MPoly.
From Coq Require Import Lia.
Open Scope nat_scope.

Definition le_res {A} (r r' : res A) : Prop := r = UB \/ r = r'.
Infix "<~" := le_res (at level 70).

Lemma le_refl {A} (r : res A) : r <~ r. Proof. right; reflexivity. Qed.
Lemma le_ub {A} (r : res A) : UB <~ r. Proof. left; reflexivity. Qed.
Lemma le_trans {A} (a b c : res A) : a <~ b -> b <~ c -> a <~ c.
Proof. intros [->| ->] H; [left; reflexivity|exact H]. Qed.
Lemma le_bind {A B} (r r' : res A) (f f' : A -> res B) : r <~ r' -> (forall x, f x <~ f' x) -> bind r f <~ bind r' f'.
Proof. intros [->| ->] H; [left; reflexivity|]. destruct r'; simpl; [apply H|right|right|right]; reflexivity. Qed.
Lemma le_for_up {S} n i (f f' : nat -> S -> res S) s : (forall k t, f k t <~ f' k t) -> for_up n i f s <~ for_up n i f' s.
Proof. intros H. revert i s. induction n as [|n IH]; intros i s; simpl; [apply le_refl|]. apply le_bind; [apply H|intros; apply IH]. Qed.
Lemma le_mapM {A B} (f f' : A -> res B) l : (forall x, f x <~ f' x) -> mapM f l <~ mapM f' l.
Proof.
  intros H. induction l as [|x l IH]; simpl; [apply le_refl|]. apply le_bind; [apply H|]. intros y. apply le_bind; [exact IH|intros; apply le_refl].
Qed.
Lemma le_loop {S R} n (f f' : S -> res (S + R)) s : (forall t, f t <~ f' t) -> loop n f s <~ loop n f' s.
Proof.
  intros H. revert s. induction n as [|n IH]; intros s; simpl; [apply le_refl|].
  destruct (H s) as [-> | ->]; [left; reflexivity|]. destruct (f' s) as [[x|y]| | |]; try apply le_refl. apply IH.
Qed.

Section Mono.
Context {A : Type} (o o' : kops A).

(* the test made by comparisons for equality: neither less nor greater *)
Definition same (k : kops A) (x y : A) : res bool :=
  l <- k_ltb k x y ;; if l : bool then Ok false else g <- k_gtb k x y ;; Ok (negb g).

Record kle : Prop := {
  kl_add : forall x y, c_add (k_c o) x y <~ c_add (k_c o') x y;
  kl_sub : forall x y, c_sub (k_c o) x y <~ c_sub (k_c o') x y;
  kl_mul : forall x y, c_mul (k_c o) x y <~ c_mul (k_c o') x y;
  kl_div : forall x y, c_div (k_c o) x y <~ c_div (k_c o') x y;
  kl_neg : forall x, c_neg (k_c o) x <~ c_neg (k_c o') x;
  kl_eqb : forall x y, c_eqb (k_c o) x y <~ c_eqb (k_c o') x y;
  kl_recip : forall x, k_recip o x <~ k_recip o' x;
  kl_exp : forall x e, k_exp o x e <~ k_exp o' x e;
  kl_int : forall x v, k_int o x v <~ k_int o' x v;
  kl_isint : forall x v, k_isint o x v <~ k_isint o' x v;
  kl_same : forall x y, same o x y <~ same o' x y;
  kl_cmp : forall x y, exists b b', k_ltb o' x y = Ok b /\ k_gtb o' x y = Ok b'
}.
Hypothesis H : kle.

Ltac step :=
  first [ apply le_refl
        | apply (kl_add H) | apply (kl_sub H) | apply (kl_mul H) | apply (kl_div H) | apply (kl_neg H)
        | apply (kl_eqb H) | apply (kl_recip H) | apply (kl_exp H) | apply (kl_int H) | apply (kl_isint H)
        | match goal with
          | |- bind _ _ <~ bind _ _ => apply le_bind; [|intros ?]
          | |- for_up _ _ _ _ <~ for_up _ _ _ _ => apply le_for_up; intros ? ?
          | |- mapM _ _ <~ mapM _ _ => apply le_mapM; intros ?
          | |- loop _ _ _ <~ loop _ _ _ => apply le_loop; intros ?
          end
        | match goal with |- context [match ?x with _ => _ end] => is_var x; destruct x end
        | match goal with |- (if ?b then _ else _) <~ _ => destruct b end
        | match goal with |- (match ?b with _ => _ end) <~ _ => destruct b end ].
Ltac mono := intros; repeat step.

Lemma m_neqb x y : c_neqb (k_c o) x y <~ c_neqb (k_c o') x y.
Proof. unfold c_neqb. mono. Qed.
Lemma m_trim z l : trim_top o z l <~ trim_top o' z l.
Proof. induction l as [|x l IH]; simpl; [apply le_refl|]. apply le_bind; [apply m_neqb|]. intros []; [apply le_refl|exact IH]. Qed.
Lemma m_recompute l : gp_recompute o l <~ gp_recompute o' l.
Proof. unfold gp_recompute. mono. apply m_trim. Qed.
Lemma m_const x : gp_const o x <~ gp_const o' x. Proof. apply m_recompute. Qed.
Lemma m_linear x y : gp_linear o x y <~ gp_linear o' x y. Proof. apply m_recompute. Qed.
Lemma m_int l v : gp_int o l v <~ gp_int o' l v.
Proof. unfold gp_int. mono. apply m_const. Qed.
Lemma m_add a b : gp_add o a b <~ gp_add o' a b.
Proof.
  unfold gp_add. apply le_bind; [|intros; apply m_recompute]. revert b.
  induction a as [|x a IH]; intros [|y b]; simpl; try apply le_refl. mono. apply IH.
Qed.
Lemma m_sub a b : gp_sub o a b <~ gp_sub o' a b.
Proof.
  unfold gp_sub. apply le_bind; [|intros; apply m_recompute]. revert b.
  induction a as [|x a IH]; intros [|y b]; simpl; try apply le_refl; mono. apply IH.
Qed.
Lemma m_neg a : gp_neg o a <~ gp_neg o' a.
Proof. unfold gp_neg. destruct a as [|x [|y a]]; mono. Qed.
Lemma m_mul a b : gp_mul o a b <~ gp_mul o' a b.
Proof. unfold gp_mul. mono. apply m_recompute. Qed.
Lemma m_addc a c : gp_addc o a c <~ gp_addc o' a c.
Proof. unfold gp_addc. mono. apply m_recompute. Qed.
Lemma m_subc a c : gp_subc o a c <~ gp_subc o' a c.
Proof. unfold gp_subc. mono. apply m_recompute. Qed.
Lemma m_mulc a c : gp_mulc o a c <~ gp_mulc o' a c.
Proof. unfold gp_mulc. mono. apply m_recompute. Qed.
Lemma m_divc a c : gp_divc o a c <~ gp_divc o' a c.
Proof. unfold gp_divc. mono. apply m_recompute. Qed.

(* directions agree on being zero *)
Definition le_dir (r r' : res Z) : Prop := r = UB \/ exists d d', r = Ok d /\ r' = Ok d' /\ (d =? 0)%Z = (d' =? 0)%Z.
Lemma m_dir_top a b : le_dir (dir_top o a b) (dir_top o' a b).
Proof.
  revert b. induction a as [|x a IH]; intros [|y b]; cbn [dir_top]; try (right; exists 0%Z, 0%Z; repeat split; reflexivity).
  destruct (kl_cmp H x y) as (b1 & b2 & E1 & E2). pose proof (kl_same H x y) as S. unfold same in S. rewrite E1 in *. cbn [bind] in *.
  destruct (k_ltb o x y) as [[|]| | |]; cbn [bind] in *.
  - destruct b1; [right; exists (-1)%Z, (-1)%Z; repeat split; reflexivity|]. rewrite E2 in *. cbn [bind] in *.
    destruct b2; [right; exists (-1)%Z, 1%Z; repeat split; reflexivity|]. destruct S as [S|S]; discriminate S.
  - destruct (k_gtb o x y) as [[|]| | |]; cbn [bind] in *.
    + destruct b1; [right; exists 1%Z, (-1)%Z; repeat split; reflexivity|]. rewrite E2 in *. cbn [bind] in *.
      destruct b2; [right; exists 1%Z, 1%Z; repeat split; reflexivity|]. destruct S as [S|S]; discriminate S.
    + destruct b1; [destruct S as [S|S]; discriminate S|]. rewrite E2 in *. cbn [bind] in *.
      destruct b2; [destruct S as [S|S]; discriminate S|]. apply IH.
    + destruct b1; [destruct S as [S|S]; discriminate S|]. rewrite E2 in S. destruct S as [S|S]; discriminate S.
    + left; reflexivity.
    + destruct b1; [destruct S as [S|S]; discriminate S|]. rewrite E2 in S. destruct S as [S|S]; discriminate S.
  - destruct b1; [destruct S as [S|S]; discriminate S|]. rewrite E2 in S. destruct S as [S|S]; discriminate S.
  - left; reflexivity.
  - destruct b1; [destruct S as [S|S]; discriminate S|]. rewrite E2 in S. destruct S as [S|S]; discriminate S.
Qed.
Lemma m_eqb a b : gp_eqb o a b <~ gp_eqb o' a b.
Proof.
  unfold gp_eqb, gp_dir. destruct (length a <? length b); [apply le_refl|]. destruct (length b <? length a); [apply le_refl|].
  destruct (m_dir_top (rev a) (rev b)) as [-> |(d & d' & -> & -> & E)]; [left; reflexivity|]. cbn [bind]. rewrite E. apply le_refl.
Qed.
Lemma m_pneqb a b : gp_neqb o a b <~ gp_neqb o' a b.
Proof.
  unfold gp_neqb, gp_dir. destruct (length a <? length b); [apply le_refl|]. destruct (length b <? length a); [apply le_refl|].
  destruct (m_dir_top (rev a) (rev b)) as [-> |(d & d' & -> & -> & E)]; [left; reflexivity|]. cbn [bind]. rewrite E. apply le_refl.
Qed.
Lemma m_eq_int a v : gp_eq_int o a v <~ gp_eq_int o' a v.
Proof. unfold gp_eq_int. destruct a as [|x [|y a]]; mono. Qed.
Lemma m_sub_shift r d s : sub_shift o r d s <~ sub_shift o' r d s.
Proof. unfold sub_shift. mono. Qed.
Lemma m_div_step t d m i s : div_step o t d m i s <~ div_step o' t d m i s.
Proof. unfold div_step. destruct s. mono; [apply m_mulc|apply m_sub_shift]. Qed.
Lemma m_quot_rem a b : gp_quot_rem o a b <~ gp_quot_rem o' a b.
Proof.
  unfold gp_quot_rem. apply le_bind; [mono|intros a0]. apply le_bind; [mono|intros zero]. apply le_bind; [apply m_const|intros zp].
  apply le_bind; [apply m_eqb|intros []]; [apply le_refl|]. apply le_bind; [apply m_eqb|intros z].
  match goal with |- context [if ?b then _ else _] => destruct b end; [apply le_bind; [apply m_int|mono]|].
  apply le_bind; [mono|intros ld]. apply le_bind; [mono|intros [i|]]; [|apply le_refl].
  apply le_bind; [apply le_for_up; intros; apply m_div_step|]. intros [q r].
  apply le_bind; [mono|intros t]. apply le_bind; [mono|intros []]; [apply le_refl|]. apply le_bind; [apply m_recompute|mono].
Qed.
Lemma m_div a b : gp_div o a b <~ gp_div o' a b.
Proof. unfold gp_div. apply le_bind; [apply m_quot_rem|mono]. Qed.
Lemma m_mod a b : gp_mod o a b <~ gp_mod o' a b.
Proof. unfold gp_mod. apply le_bind; [apply m_quot_rem|mono]. Qed.
Lemma m_gcd a b : gp_gcd o a b <~ gp_gcd o' a b.
Proof.
  unfold gp_gcd. apply le_bind; [apply m_eq_int|intros []]; [apply le_refl|]. apply le_bind; [apply m_eq_int|intros []]; [apply le_refl|].
  apply le_loop. intros [c d]. unfold gcd_step. apply le_bind; [apply m_quot_rem|intros qr]. apply le_bind; [apply m_eq_int|mono].
Qed.
Lemma m_ext_gcd a b : gp_ext_gcd o a b <~ gp_ext_gcd o' a b.
Proof.
  unfold gp_ext_gcd. apply le_bind; [apply m_int|intros one]. apply le_bind; [apply m_int|intros zero].
  apply le_loop. intros [[[[[mp np] rm] rn] c] d]. unfold ext_step. apply le_bind; [apply m_quot_rem|intros qr].
  apply le_bind; [apply m_eq_int|intros []]; [apply le_refl|].
  apply le_bind; [apply m_mul|intros]. apply le_bind; [apply m_sub|intros]. apply le_bind; [apply m_mul|intros]. apply le_bind; [apply m_sub|mono].
Qed.
Lemma m_exp a e : gp_exp o a e <~ gp_exp o' a e.
Proof.
  unfold gp_exp. apply le_bind; [apply m_int|intros one]. apply le_bind; [apply m_int|intros zero]. apply le_bind; [apply m_eqb|intros []].
  - mono.
  - destruct (gp_degree a =? 0); [mono; apply m_const|]. destruct (e <? 0)%Z; [apply le_refl|].
    apply le_loop. intros [[e' xp] rv]. unfold exp_step. destruct (e' =? 0)%Z; [apply le_refl|].
    apply le_bind; [destruct (Z.odd e'); [apply m_mul|apply le_refl]|intros]. apply le_bind; [apply m_mul|mono].
Qed.
Lemma m_deriv a : gp_deriv o a <~ gp_deriv o' a.
Proof.
  unfold gp_deriv. destruct a as [|x [|y a]]; [apply le_refl|apply m_int|]. apply le_bind; [|intros; apply m_recompute].
  generalize 1%Z. generalize (y :: a). intros l. induction l as [|z l IH]; intros i; simpl; [apply le_refl|]. mono. apply IH.
Qed.
Lemma m_eval a c : gp_eval o a c <~ gp_eval o' a c.
Proof.
  unfold gp_eval. destruct (rev a) as [|x l]; [apply le_refl|]. revert x. induction l as [|y l IH]; intros x; simpl; [apply le_refl|]. mono. apply IH.
Qed.
Lemma m_get_coeff a k : gp_get_coeff o a k <~ gp_get_coeff o' a k.
Proof. unfold gp_get_coeff. mono. Qed.
Lemma m_set_coeff a k c : gp_set_coeff o a k c <~ gp_set_coeff o' a k c.
Proof.
  unfold gp_set_coeff. destruct (k <? 0)%Z; [apply le_refl|]. apply le_bind; [mono|intros a0]. apply le_bind; [mono|intros zero].
  destruct (_ <? _).
  - apply le_bind; [mono|intros []]; [apply m_recompute|apply le_refl].
  - apply le_bind; [mono|intros r]. destruct (_ =? _); [|apply le_refl]. apply le_bind; [mono|intros []]; [apply m_recompute|apply le_refl].
Qed.
End Mono.
