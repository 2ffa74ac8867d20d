(* Commands of spiff on residue classes of polynomials over GF(2): texts and operations. *)
From Verif Require Import Base MIntMath MFac MBits MF2Poly MF2Fac MLinalg MTextIO MPolyText MList MUnits MRandom MSpiff MSpiff2 MSpiff3.
From Verif Require Import PF2Poly PF2Poly3 PPolyText PPolyText6 PMatCli5 PSpiff PSpiff2 PSpiff3 PSpiff7.
From Coq Require Import Ascii String.
From mathcomp Require Import all_ssreflect all_algebra ssrZ zify.
From Verif Require Import PF2Poly2 PF2Poly4 PSpiff8 PSpiff10 PSpiff13 PList3 PropLinalg.
Set Implicit Arguments.
Unset Strict Implicit.
Unset Printing Implicit Defensive.
Import GRing.Theory.
Delimit Scope Z_scope with coqZ.
Local Open Scope ring_scope.
Local Notation length := List.length.
Local Notation Forall2 := List.Forall2.
Local Notation Forall := List.Forall.
Local Notation In := List.In.

(* the hexadecimal number of f mod m, with zeros in front: as many digits as residues modulo m need *)
Definition cls_tx (m f : {poly 'F_2}) : text :=
  (List.repeat "0"%char (((size m).-1 + 3) %/ 4 - length (f2_tx (f %% m))) ++ f2_tx (f %% m))%list.
Lemma cls_red m f : cls_tx m (f %% m) = cls_tx m f.
Proof. by rewrite /cls_tx modp_mod. Qed.

Section M.
Variable m : {poly 'F_2}.
Hypothesis m0 : m != 0.
Local Notation enc := (f2_menc m).
Lemma menc_isM f : isM (enc f) (f %% m) m.
Proof. by split; [exact: f2_encP|split; [exact: f2_encP|rewrite ltn_modp]]. Qed.
Lemma isM_menc a r : isM a r m -> a = enc r.
Proof. by move=> h; have k := menc_isM r; rewrite (isM_mod h) in k; exact: isM_uniq h k. Qed.
Lemma menc_red f : enc (f %% m) = enc f.
Proof. by rewrite /f2_menc modp_mod. Qed.
Lemma cls_arg s f : f2_rd s f -> arg_pm (f2_enc m) s = ret (enc f).
Proof. by move=> /codes_read[rest e]; rewrite /arg_pm /pm_from_string e bind_ok (f2_store_ok m0) bind_ok pb_ok. Qed.
Lemma cls_shw f : show_pm (enc f) = MSpiff.print (cls_tx m f).
Proof.
rewrite /show_pm /print_res.
suff -> : pm_put (enc f) = Ok (cls_tx m f) by rewrite pb_ok.
rewrite /pm_put /pm_print /= f2_deg_enc bind_ok /f2_dprint f2_deg_enc bind_ok.
have := f2_put_hex _ (f2_encP (f %% m)).1; rewrite number_enc /f2_put; case: (f2_print _) => //= t [et]; congr Ok.
rewrite /cls_tx /f2_tx -et /chars List.map_app -/(chars t).
have mr k : List.map (fun z => ascii_of_nat (Z.to_nat z)) (List.repeat 48%coqZ k) = List.repeat "0"%char k by elim: k => //= k ->.
rewrite mr; congr (List.repeat _ _ ++ _)%list; rewrite et hex_len N2Nat.inj_div log2_number.
rewrite !Z.shiftr_div_pow2 // -[(2 ^ 2)%coqZ]/4%coqZ -[N.to_nat 4]/4%N; clear.
set a := (size m).-1; set b := (size (f %% m)).-1.
have -> : (Z.of_nat a - 1 + 4 = Z.of_nat (a + 3))%coqZ by lia.
have -> : (Z.of_nat b + 4 = Z.of_nat (b + 1 * 4))%coqZ by lia.
have dE x : Nat.div x 4 = (x %/ 4)%N.
  by symmetry; apply: (Nat.div_unique _ _ _ (x %% 4)%N); [apply/ltP; rewrite ltn_mod|rewrite multE plusE mulnC -divn_eq].
rewrite -[4%coqZ]/(Z.of_nat 4) -!Nat2Z.inj_div Nat.div_add // !dE; lia.
Qed.
(* the number of digits *)
Lemma cls_len f : length (cls_tx m f) = maxn 1 (((size m).-1 + 3) %/ 4).
Proof.
rewrite /cls_tx List.app_length List.repeat_length /f2_tx hex_len N2Nat.inj_div log2_number -[N.to_nat 4]/4%N.
have dE x : Nat.div x 4 = (x %/ 4)%N.
  by symmetry; apply: (Nat.div_unique _ _ _ (x %% 4)%N); [apply/ltP; rewrite ltn_mod|rewrite multE plusE mulnC -divn_eq].
have hs : (size (f %% m)%R < size m)%N by rewrite ltn_modp.
rewrite dE; move: hs; clear; move: (size m) (size _) => [|a] b //= hb; rewrite plusE.
have h2 : (a.-1 %/ 4 < (a + 3) %/ 4)%N \/ a = 0%N.
  by case: a {hb} => [|a]; [right|left=> /=; rewrite (_ : a.+1 + 3 = 1 * 4 + a)%N ?divnMDl //; clear; lia].
have h3 : (b.-1 <= a.-1)%N by case: b hb => //= b; case: a {h2} => //= a; rewrite !ltnS.
have h4 := leq_div2r 4 h3.
case: h2 => [h2|h2]; first by rewrite subnK ?(leq_ltn_trans h4 h2) // (maxn_idPr _) // (leq_ltn_trans _ h2).
by move: h3; rewrite h2 leqn0 => /eqP ->.
Qed.
Lemma cls_round f : f2_rd (cls_tx m f) (f %% m).
Proof.
rewrite /cls_tx /f2_tx /f2_rd -number_enc; have [t [k1 [k2 [k3 k4]]]] := PPolyText6.f2_put_ok (f2_enc (f %% m)) (f2_encP (f %% m)).1.1.
move: k1; rewrite (f2_put_hex _ (f2_encP (f %% m)).1) => -[->]; set k := (_ - _)%N.
have [z1 z2] : xd "0"%char /\ codes [:: "0"%char] = [:: 48%coqZ] by [].
exists nil, (List.repeat "0"%char k ++ t)%list, nil; rewrite List.app_nil_r; split=> //; split=> //; split.
  by apply/List.Forall_app; split=> //; apply/List.Forall_forall => x /(@List.repeat_spec _ _ _ _) ->.
split; first by move=> /List.app_eq_nil[].
split=> //; rewrite -k4 /hexs /hex_value /codes List.map_app List.fold_left_app.
have -> : List.map (fun c => Z.of_nat (nat_of_ascii c)) (List.repeat "0"%char k) = List.repeat 48%coqZ k by elim: (k) => //= j ->.
by rewrite zeros_val.
Qed.
(* ---- operations ---- *)
Lemma cls_add f g : pm_add (enc f) (enc g) = Ok (enc (f + g)).
Proof. by have [c [-> /isM_menc ->]] := pm_add_ok (menc_isM f) (menc_isM g); rewrite -modpD menc_red. Qed.
Lemma cls_sub f g : pm_sub (enc f) (enc g) = Ok (enc (f - g)).
Proof. by have [c [-> /isM_menc ->]] := pm_sub_ok (menc_isM f) (menc_isM g); rewrite -modpN -modpD menc_red. Qed.
Lemma cls_mul f g : pm_mul (enc f) (enc g) = Ok (enc (f * g)).
Proof. by have [c [-> /isM_menc ->]] := pm_mul_ok (menc_isM f) (menc_isM g); rewrite modp_mul mulrC modp_mul mulrC menc_red. Qed.
Definition quo (f g : {poly 'F_2}) : {poly 'F_2} := match pm_div (enc f) (enc g) with Ok c => P (pm_res c) | _ => 0 end.
Lemma cls_div f g : coprimep m g -> pm_div (enc f) (enc g) = Ok (enc (quo f g)) /\ m %| quo f g * g - f.
Proof.
move=> hc; have hc' : coprimep (g %% m) m by rewrite coprimep_modl coprimep_sym.
have [c [t [e [h1 h2]]]] := pm_div_unit (menc_isM f) (menc_isM g) hc'.
rewrite /quo e; have [_ et] : isP (pm_res c) t by case: h1.
rewrite et (isM_menc h1); split=> //.
by move: h2; rewrite modp_mul => /eqP; rewrite -subr_eq0 -modpN -modpD.
Qed.
End M.
