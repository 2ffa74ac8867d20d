(* The matrix evaluator modulo a prime. *)
From Verif Require Import Base MIntMath MIntmod MMat MMatCli PIntMath PIntMath2 PIntmod.
From mathcomp Require Import all_ssreflect fingroup perm all_algebra ssrZ zify.
From Verif Require Import PLin PLin2 PLin3 PMat PMat2 PMat3 PFp PropMat PMatCli PMatCli2 PMatCli6 PMatCli7 PMatCli8.
Set Implicit Arguments.
Unset Strict Implicit.
Unset Printing Implicit Defensive.
Import GRing.Theory.
Delimit Scope Z_scope with coqZ.
Local Open Scope ring_scope.

Section I.
Variables (p : nat) (c : cache) (load : string -> res (option (tmat intmod))).
Hypotheses (pp : prime p) (pM : Z.le (Z.of_nat p) 46341) (hc : cache_valid c).
Local Notation P := (Z.of_nat p).
(* the matrix that an object holds *)
Definition mx_of (t : tmat intmod) : 'M['F_p]_(t_nr t, t_nc t) :=
  \matrix_(i, j) Ip p (nth (mkim 0 P) (nth [::] (t_rows t) i) j).
(* the matrix that an operand stands for *)
Definition im_lit (s : string) : option (mval [fieldType of 'F_p]) :=
  match mat_scan (im_get P) load s (MI 0) with Ok (MM t) => Some (WM (mx_of t)) | _ => None end.
Lemma vmat_is t : vmat (im_valid P) t -> [/\ (0 < t_nr t)%N, (0 < t_nc t)%N & @mat_is _ [fieldType of 'F_p] (Vp p) (Ip p) _ _ t (mx_of t)].
Proof.
case=> h1 [h2 /List.Forall_forall h3]; split; [by rewrite /t_nr; case: (t_rows t) h1|by case: (t_nc t) h2|].
split=> //; first by move=> r /h3[].
have hN T (l : seq T) d k' : List.nth k' l d = nth d l k' by elim: l k' => [|z' l IHl] [|k'] //=.
move=> i j; set x := nth (mkim 0 P) (nth [::] (t_rows t) i) j; exists x.
have hin : List.In (nth [::] (t_rows t) i) (t_rows t) by rewrite -hN; apply: nth_In; apply/ltP.
have [hl /List.Forall_forall hv] := h3 _ hin.
have hj : (j < size (nth [::] (t_rows t) i))%N by rewrite -lengthE hl.
split; last first.
  split; last by rewrite mxE.
  by apply: hv; rewrite /x -hN; apply: nth_In; apply/ltP.
rewrite /el /rowat (nth_error_nth' [::]) ?bind_ok; last by rewrite -lengthE; exact: (ltn_ord i).
by rewrite /elt (nth_error_nth' (mkim 0 P)).
Qed.
(* matrices from files are well formed *)
Definition files_ok : Prop := forall s,
  good_res (fun t => [/\ vmat (im_valid P) t, Z.le (Z.of_nat (t_nr t)) INT_MAX & Z.le (Z.of_nat (t_nc t)) INT_MAX]) (load s).
(* the words: texts in brackets have no minus sign, and no word reads as INT_MIN *)
Definition word_ok (s : string) : Prop :=
  [/\ scan_int s <> Some INT_MIN, Z.le (Z.of_nat (String.length s)) INT_MAX &
      List.In "["%char (list_ascii_of_string s) -> ~ List.In "-"%char (list_ascii_of_string s)].
Hypothesis hf : files_ok.
Lemma strchr_in l ch t : strchr l ch = Some t -> List.In ch l.
Proof. by elim: l => //= x l IH; case: Ascii.eqb_spec => [-> _|_ /IH]; [left|right]. Qed.
Lemma len_list s : List.length (list_ascii_of_string s) = String.length s.
Proof. by elim: s => //= a s ->. Qed.
Lemma scan_valid s : word_ok s ->
  match mat_scan (im_get P) load s (MI 0) with
  | Ok (MM t) => [/\ vmat (im_valid P) t, Z.le (Z.of_nat (t_nr t)) INT_MAX & Z.le (Z.of_nat (t_nc t)) INT_MAX]
  | Exn => True
  | _ => False
  end.
Proof.
have p1 := prime_gt1 pp.
have hP : (1 <= P <= INT_MAX)%coqZ by rewrite /INT_MAX; lia.
case=> _ hl hb; rewrite /mat_scan; case e : (strchr _ _) => [u|]; last first.
  by have := hf s; rewrite /opt; case: (load s) => [[t|]|||].
have fr := hb (strchr_in e).
have := mat_bracket_valid (im_get P) (im_valid P) (fun s' => im_get_valid P s' hP) _ fr.
rewrite /opt; case: (mat_bracket_in _ _) => [[t|]|||] //= [h1 [h2 h3]]; split=> //;
  apply: Z.le_trans hl; rewrite -len_list; lia.
Qed.
Lemma im_lit_ok : @lit_ok _ [fieldType of 'F_p] (Vp p) (Ip p) (im_get P) load scan_int word_ok im_lit.
Proof.
move=> s hs; have h := scan_valid hs; split; last split.
- rewrite /im_lit; move: h; case: (mat_scan _ _ _ _) => [[t|x|i]|||] //= [h1 h2 h3].
  by have [g1 g2 g3] := vmat_is h1; exists (WM (mx_of t)); split=> //; split=> //; exists t.
- move=> v; rewrite /im_lit; move: h; case: (mat_scan _ _ _ _) => [[t|x|i]|||] //= [h1 h2 h3] [<-].
  by split=> //; exists (t_nr t), (t_nc t), (mx_of t).
move=> i hi; case: hs => hn _ _; rewrite hi in hn.
have : (INT_MIN <= i <= INT_MAX)%coqZ; last by move: hn; clear => hn [h1 h2]; split=> //; case: (Z.eq_dec i INT_MIN) => [e|]; [by case: hn; rewrite e|move: h1; clear; lia].
move: hi; rewrite /scan_int /read_int; set q := (match skip_space _ with _ :: _ => _ | _ => _ end); case: q => [ng l].
case: (read_digits l 0 false) => [[w r]|] //; set v' := if ng then _ else _.
by case: andP => // -[/Z.leb_le h1 /Z.leb_le h2] /= [<-].
Qed.
Lemma one_is : elem_is (F := [fieldType of 'F_p]) (Vp p) (Ip p) (mkim 1 P) 1.
Proof. by have p1 := prime_gt1 pp; split=> //; split=> //; rewrite /canon /=; lia. Qed.
Lemma zero_is : elem_is (F := [fieldType of 'F_p]) (Vp p) (Ip p) (mkim 0 P) 0.
Proof. by have p1 := prime_gt1 pp; split=> //; split=> //; rewrite /canon /=; lia. Qed.

(* the object that stands for a value *)
Definition im_atom (v : mval [fieldType of 'F_p]) : @matom intmod :=
  match v with
  | WM m n a => MM (mkmat [seq [seq fp_of (a i j) | j <- enum 'I_n] | i <- enum 'I_m] n)
  | WS x => MS (fp_of x)
  | WI i => MI i
  end.
Lemma atom_enc x v : atom_is (Vp p) (Ip p) x v -> x = im_atom v.
Proof.
case: v => [m n a|y|i] //=; last by case=> z [-> [h1 h2]]; rewrite -h2; congr MS; apply: (Ip_inj pp) => //; rewrite ?fp_of_I //; exact: fp_of_V.
case=> hm hn [[rows nc] [-> [/= e1 e2 h3 h4]]]; rewrite e1; congr (MM (mkmat _ _)).
apply: (@eq_from_nth _ [::]); first by rewrite size_map size_enum_ord -lengthE e2.
move=> i; rewrite -lengthE e2 => hi.
have hN T (l : seq T) d k' : List.nth k' l d = nth d l k' by elim: l k' => [|z' l IHl] [|k'] //=.
have hl : size (nth [::] rows i) = n by rewrite -lengthE; apply: h3; rewrite -hN; apply: nth_In; apply/ltP; rewrite e2.
rewrite (nth_map (Ordinal hi)) ?size_enum_ord //.
have -> : nth (Ordinal hi) (enum 'I_m) i = Ordinal hi by apply: val_inj; rewrite /= nth_enum_ord.
apply: (@eq_from_nth _ (mkim 0 P)); first by rewrite size_map size_enum_ord.
rewrite hl => j hj; rewrite (nth_map (Ordinal hj)) ?size_enum_ord //.
have -> : nth (Ordinal hj) (enum 'I_n) j = Ordinal hj by apply: val_inj; rewrite /= nth_enum_ord.
have [z [hz [g1 g2]]] := h4 (Ordinal hi) (Ordinal hj); rewrite -g2.
have -> : nth (mkim 0 P) (nth [::] rows i) j = z.
  move: hz; rewrite /el /rowat (nth_error_nth' [::]) ?bind_ok; last by rewrite -lengthE e2.
  by rewrite /elt (nth_error_nth' (mkim 0 P)) ?hl // => -[<-].
by apply: (Ip_inj pp) => //; rewrite ?fp_of_I //; exact: fp_of_V.
Qed.
End I.
