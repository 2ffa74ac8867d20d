(* Operands of the evaluators as texts: the numbers between the brackets. *)
From Verif Require Import Base MIntMath MIntmod MMat MMatCli PIntMath PIntMath2 PIntmod.
From mathcomp Require Import all_ssreflect fingroup perm all_algebra ssrZ zify.
From Verif Require PCli4.
From Verif Require Import PLin PLin2 PLin3 PMat PMat2 PMat3 PFp PropMat PMatCli PMatCli2 PMatCli3 PMatCli4 PMatCli5 PMatCli6 PMatCli7 PMatCli8 PMatCli9.
Set Implicit Arguments.
Unset Strict Implicit.
Unset Printing Implicit Defensive.
Import GRing.Theory.
Delimit Scope Z_scope with coqZ.
Local Open Scope ring_scope.

(* numbers separated by blanks, in brackets: a vector; rows in brackets: a matrix *)
Definition vec_text (s : string) (zs : seq Z) : Prop :=
  exists t b, [/\ list_ascii_of_string s = "["%char :: t ++ "]"%char :: b, row numeral t zs & blanks b].
Definition mat_text (s : string) (ls : seq (seq Z)) : Prop :=
  exists u b, [/\ list_ascii_of_string s = "["%char :: b ++ u ++ ["]"%char], mrows numeral u ls & blanks b].
Definition col_text (s : string) (zs : seq Z) : Prop :=
  exists t, list_ascii_of_string s = "["%char :: t ++ ["]"%char] /\ row numeral t zs.

Section T.
Variable M : Z.
Hypothesis hM : (1 <= M <= INT_MAX)%coqZ.
Definition res_of (z : Z) : intmod := mkim (Z.modulo z M) M.
Lemma row_map t zs : row numeral t zs -> row (mword M) t (map res_of zs).
Proof.
elim=> [b d a hb hw|b d a c t' l hb hw hc _ IH]; first by apply: row_one hb _; exists a.
by apply: row_cons hb _ hc IH; exists a.
Qed.
Lemma mrows_map u ls : mrows numeral u ls -> mrows (mword M) u (map (map res_of) ls).
Proof.
elim=> [t l b hr hb|t l b u' ls' hr hb _ IH]; first by apply: mr_one => //; exact: row_map.
by apply: mr_cons => //; exact: row_map.
Qed.
Lemma lb_strchr l : strchr ("["%char :: l) "[" = Some ("["%char :: l). Proof. by []. Qed.
Lemma vec_lit s zs : vec_text s zs -> vlit (im_get M) s = Ok (map res_of zs).
Proof.
case=> t [b [e hr hb]]; rewrite /vlit /vec_scan e lb_strchr.
by rewrite (vec_in _ _ (im_reads M hM) _ _ _ (row_map hr) hb).
Qed.
Variable load : string -> res (option (tmat intmod)).
Lemma mat_lit s ls n : mat_text s ls -> width ls n -> mat_scan (im_get M) load s (MI 0) = Ok (MM (mkmat (map (map res_of) ls) n)).
Proof.
case=> u [b [e hr hb]] hw; rewrite /mat_scan e lb_strchr.
rewrite (mat_in _ _ (im_reads M hM) _ _ _ hb (mrows_map hr)).
rewrite (@ragged_ok _ (map (map res_of) ls) n) //; first by move=> h; case: (mrows_ne _ _ _ hr); case: (ls) h.
by move=> r /List.in_map_iff[r' [<- /hw]]; rewrite !lengthE size_map.
Qed.
Lemma mat_lit_ragged s ls : mat_text s ls -> (forall n, ~ width ls n) -> mat_scan (im_get M) load s (MI 0) = Exn.
Proof.
case=> u [b [e hr hb]] hw; rewrite /mat_scan e lb_strchr.
rewrite (mat_in _ _ (im_reads M hM) _ _ _ hb (mrows_map hr)).
rewrite (@ragged_no _ (map (map res_of) ls)) // => n h; apply: (hw n) => r hr'.
by have := h (map res_of r); rewrite !lengthE size_map; apply; apply/List.in_map_iff; exists r.
Qed.
Lemma col_lit s zs : col_text s zs -> mat_scan (im_get M) load s (MI 0) = Ok (MM (mkmat [seq [:: res_of z] | z <- zs] 1)).
Proof.
case=> t [e hr]; rewrite /mat_scan e lb_strchr.
rewrite (col_in _ _ (im_reads M hM) _ _ (row_map hr)) /opt /=; congr (Ok (MM (mkmat _ _))).
by elim: (zs) => //= z l ->.
Qed.
End T.

Section Zm.
Variable m : nat.
Hypothesis m2 : (1 < m)%N.
Hypothesis mM : (Z.of_nat m <= INT_MAX)%coqZ.
Lemma vec_lit_zm s zs : vec_text s zs -> vlit (im_get (Z.of_nat m)) s = Ok (map (@PCli4.zm_el m) (map (@PCli4.zr m) zs)).
Proof.
move/vec_lit => ->; last by move: m2 mM; clear; lia.
by rewrite -map_comp; congr Ok; apply: eq_map => z /=; rewrite PCli4.zm_elE.
Qed.
End Zm.

Section Fp.
Variables (p : nat) (load : string -> res (option (tmat intmod))).
Hypotheses (pp : prime p) (pM : Z.le (Z.of_nat p) 46341).
Local Notation P := (Z.of_nat p).
Let hP : (1 <= P <= INT_MAX)%coqZ. Proof. by have := prime_gt1 pp; rewrite /INT_MAX; move: pM; clear; lia. Qed.
Lemma WM_cast m n m' n' (e1 : m = m') (e2 : n = n') (a : 'M['F_p]_(m, n)) : WM (castmx (e1, e2) a) = WM a.
Proof. by case: _ / e1; case: _ / e2; rewrite castmx_id. Qed.
Lemma Ip_res z : Ip p (res_of P z) = (int_of_Z z)%:~R.
Proof. by rewrite /Ip /res_of /= izr_mod. Qed.
Lemma lit_mat s ls n : mat_text s ls -> width ls n ->
  im_lit p load s = Some (WM (\matrix_(i < size ls, j < n) ((int_of_Z (nth 0%coqZ (nth [::] ls i) j))%:~R : 'F_p))).
Proof.
move=> ht hw; rewrite /im_lit (mat_lit hP load ht hw); congr Some.
have e : t_nr (mkmat (map (map (res_of P)) ls) n) = size ls by rewrite /t_nr lengthE /= size_map.
rewrite -(WM_cast e (erefl n)); congr WM; apply/matrixP=> i j; rewrite castmxE !mxE /=.
have hi : (i < size ls)%N by [].
rewrite (nth_map [::]) // (nth_map 0%coqZ) ?Ip_res //.
rewrite -lengthE (hw (nth [::] ls i)) //.
have hN T (l : seq T) d k' : List.nth k' l d = nth d l k' by elim: l k' => [|z' l IHl] [|k'] //=.
by rewrite -hN; apply: nth_In; rewrite lengthE; apply/ltP.
Qed.
Lemma lit_col s zs : col_text s zs -> im_lit p load s = Some (WM (\col_(i < size zs) ((int_of_Z (nth 0%coqZ zs i))%:~R : 'F_p))).
Proof.
move=> ht; rewrite /im_lit (col_lit hP load ht); congr Some.
have e : t_nr (mkmat [seq [:: res_of P z] | z <- zs] 1) = size zs by rewrite /t_nr lengthE /= size_map.
rewrite -(WM_cast e (erefl 1%N)); congr WM; apply/matrixP=> i j; rewrite castmxE !mxE /=.
by rewrite (nth_map 0%coqZ) // (ord1 j) /= Ip_res.
Qed.
End Fp.
