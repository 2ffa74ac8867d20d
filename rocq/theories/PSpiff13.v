(* Commands of spiff on polynomials over GF(2^n): texts of elements and polynomials. *)
From Verif Require Import Base MIntMath MFac MIntmod MBits MMat MPoly MF2Poly MF2nPoly MTextIO MPolyText MSpiff MSpiff2.
From Verif Require Import PF2Poly PF2Poly3 PPolyText PPolyText6 PMatCli5 PSpiff PSpiff2 PSpiff3 PSpiff7.
From Coq Require Import Ascii String.
From mathcomp Require Import all_ssreflect all_algebra ssrZ zify.
From Verif Require Import PF2Poly2 PF2Poly4 PMat PPoly PF2n PPolyText2 PPolyText3 PPolyText7 PSpiff8 PF2Irr PropLinalg PropF2nPoly.
Set Implicit Arguments.
Unset Strict Implicit.
Unset Printing Implicit Defensive.
Import GRing.Theory.
Delimit Scope Z_scope with coqZ.
Local Open Scope ring_scope.
Local Notation length := List.length.
Local Notation Forall2 := List.Forall2.
Local Notation Forall := List.Forall.
Local Notation In := List.In.

Lemma hex_len n : length (hex n) = (N.to_nat (N.log2 n / 4)%num).+1.
Proof.
elim/(well_founded_induction N.lt_wf_0): n => n IH; rewrite hex_unfold; case: (N.ltb_spec n 16) => h.
  have -> // : (N.log2 n / 4 = 0)%num.
  apply: N.div_small; case: (N.eq_dec n 0) => [->//|n0].
  by apply/(N.log2_lt_pow2 n 4); [clear - n0; lia|].
rewrite List.app_length IH; last by apply: N.div_lt; clear - h; lia.
have e : (N.log2 n = N.log2 (n / 16) + 4)%num.
  have := N.log2_shiftr n 4; rewrite N.shiftr_div_pow2 -[(2 ^ 4)%num]/16%num => ->.
  have : (N.log2 16 <= N.log2 n)%num by apply: N.log2_le_mono.
  by rewrite -[N.log2 16]/4%num; clear; lia.
rewrite e (_ : N.log2 (n / 16) + 4 = N.log2 (n / 16) + 1 * 4)%num // N.div_add //= N2Nat.inj_add; clear; lia.
Qed.
Lemma log2_number (r : {poly 'F_2}) : N.to_nat (N.log2 (f2_number r)) = (size r).-1.
Proof.
have [->|r0] := eqVneq r 0; first by rewrite /f2_number polyseq0.
have e : size r = (size r).-1.+1 by rewrite prednK // size_poly_gt0.
have [h _] := valN_size (size r).-1 (f2_encP r).
have [h1 h2] := h e; rewrite -number_enc (N.log2_unique _ (N.of_nat (size r).-1)) ?Nat2N.id //; [exact: N.le_0_l|split=> //].
by rewrite -Nat2N.inj_succ.
Qed.

Section G2.
Variable G : gf2.
Local Notation L := (gf_L G).
Local Notation m := (gf_m G).
Local Notation el := (@gf_el G).
Local Notation enc := (@g2_enc G).
Local Notation at_root r := ((map_poly (gf_emb G) r).[gf_z G]).
Local Notation n := (size (gf_m G)).-1.
(* the hexadecimal number of an element *)
Definition el_tx (a : L) : text := hex (N.of_nat (g2_val a)).
(* the same with zeros in front, n bits *)
Definition wide_tx (a : L) : text := (List.repeat "0"%char ((n + 3) %/ 4 - length (el_tx a)) ++ el_tx a)%list.
(* the elements from the leading coefficient on, with colons between *)
Definition g2_tx (f : {poly L}) : text := put_sep [:: ":"%char] [seq el_tx a | a <- rev (if f == 0 then [:: 0] else polyseq f)].
(* words, each blanks and a hexadecimal number, with one or more colons between: the coefficients from the leading one on *)
Definition g2_text (s : text) (f : {poly L}) : Prop := exists ts rs, [/\ spread ":"%char ts s, ~ In "000"%char s, ts <> nil, Forall2 f2_word ts rs &
  f = Poly (rev [seq at_root r | r <- rs])].

Lemma el_rep a : exists r : {poly 'F_2}, [/\ el a = mkpm (f2_enc r) (f2_enc m), at_root r = a, (size r < size m)%N & el_tx a = f2_tx r].
Proof.
have [r [h1 [h2 hs]] e] := gf_elP a; exists r.
have E : el a = mkpm (f2_enc r) (f2_enc m) by case: (el a) h1 h2 => u v /= /f2_encE -> /f2_encE ->.
by split=> //; rewrite /el_tx /g2_val E /= N2Nat.id number_enc.
Qed.
Lemma put_el a : f2_put (pm_res (el a)) = Ok (el_tx a).
Proof. by have [r [-> _ _ ->]] := el_rep a; rewrite /= (f2_put_hex _ (f2_encP r).1) number_enc. Qed.
Lemma put_els s : mapM (fun a => f2_put (pm_res a)) (List.map el s) = Ok [seq el_tx a | a <- s].
Proof. by elim: s => //= a s IH; rewrite put_el bind_ok IH. Qed.
Lemma g2_put f : f2n_put (enc f) = Ok (g2_tx f).
Proof.
rewrite /f2n_put; have [a [l ea]] := g2_head f; rewrite {1}ea [getk _ _]/= bind_ok.
by have [r [_ -> _]] := el_res a; rewrite colon_eq bind_ok g2_rev put_els bind_ok.
Qed.
Lemma g2_shw f : show_f2n (enc f) = MSpiff.print (g2_tx f).
Proof. by rewrite /show_f2n /print_res g2_put pb_ok. Qed.
Lemma g2_round f : g2_text (g2_tx f) f.
Proof.
have [ts [rs [e h2 h3 h4 h5]]] := put_f2s (rev (if f == 0 then [:: 0] else polyseq f)).
move: e; rewrite put_els => -[e]; exists ts, rs; rewrite /g2_tx e; split=> //; [exact: put_sep_spread|by apply: xd_ok => //; constructor| |].
  by move=> k; move: e; rewrite k => /(congr1 size); rewrite size_map size_rev /=; case: eqP => // /eqP; rewrite -size_poly_gt0; case: (size f).
by rewrite h5 revK; case: eqP => [->|_]; [apply/polyP=> i; rewrite coef_Poly coef0; case: i => [|[|i]]|rewrite polyseqK].
Qed.
Lemma g2_arg s f : g2_text s f -> arg_f2n (f2_enc m) s = ret (enc f).
Proof. by move=> [ts [rs [h1 h2 h3 h4 ->]]]; rewrite /arg_f2n (f2n_scan_ok G h1 h2 h3 h4). Qed.
Lemma g2_meaning s f g : g2_text s f -> g2_text s g -> f = g.
Proof. by move=> /g2_arg h /g2_arg; rewrite h => -[/(@enc_inj G)]. Qed.
(* ---- elements ---- *)
Lemma codes_read s r : f2_rd s r -> exists rest, f2_read (codes s) = Ok (f2_enc r, false, rest).
Proof.
move=> [b [h [rest [-> [hb [hh [hn [hr hv]]]]]]]].
have [| | | |l [e [hc hl]]] := @read_ok (codes b) (codes h) (codes rest).
- by apply/List.Forall_map; apply: List.Forall_impl hb => x; exact: blank_code.
- exact/List.Forall_map.
- by case: (h) hn.
- by case: (rest) hr.
exists (codes rest); rewrite !codes_app e; congr (Ok (_, _, _)).
by apply: (valN_inj _ _ hc (f2_encP r).1); rewrite hl number_enc.
Qed.
Lemma pm_arg s r : f2_rd s r -> arg_pm (f2_enc m) s = ret (el (at_root r)).
Proof. by move=> /codes_read[rest e]; rewrite /arg_pm /pm_from_string e bind_ok make_f2 bind_ok pb_ok. Qed.
(* a text that is no element *)
Lemma pm_arg_no k s : no_hex s -> arg_pm k s = usage.
Proof.
move=> [b [rest [-> [hb hr]]]]; rewrite /arg_pm /pm_from_string codes_app (@read_fail (codes b) (codes rest)) //.
- by apply/List.Forall_map; apply: List.Forall_impl hb => x; exact: blank_code.
- by apply: xstop_codes; case: (rest) hr => // x l [].
by case: (rest) hr => // x l [].
Qed.
Lemma pm_shw a : pm_put (el a) = Ok (wide_tx a).
Proof.
have [r [e _ hs hx]] := el_rep a; rewrite /pm_put /pm_print e /= f2_deg_enc bind_ok /f2_dprint f2_deg_enc bind_ok.
have := f2_put_hex _ (f2_encP r).1; rewrite number_enc /f2_put; case: (f2_print _) => //= t [et]; congr Ok.
rewrite /wide_tx hx /f2_tx -et /chars List.map_app -/(chars t).
have mr k : List.map (fun z => ascii_of_nat (Z.to_nat z)) (List.repeat 48%coqZ k) = List.repeat "0"%char k by elim: k => //= k ->.
rewrite mr.
congr (List.repeat _ _ ++ _)%list; rewrite -/(f2_tx r) et hex_len N2Nat.inj_div log2_number.
have n0 : (0 < n)%N by have [k _] := gf_irr G; case: (size m) k => [|[]].
rewrite !Z.shiftr_div_pow2 // -[(2 ^ 2)%coqZ]/4%coqZ -[N.to_nat 4]/4%N; clear - n0.
set a := (size m).-1 in n0 *; set b := (size r).-1.
have -> : (Z.of_nat a - 1 + 4 = Z.of_nat (a + 3))%coqZ by lia.
have -> : (Z.of_nat b + 4 = Z.of_nat (b + 1 * 4))%coqZ by lia.
have dE x : Nat.div x 4 = (x %/ 4)%N.
  by symmetry; apply: (Nat.div_unique _ _ _ (x %% 4)%N); [apply/ltP; rewrite ltn_mod|rewrite multE plusE mulnC -divn_eq].
rewrite -[4%coqZ]/(Z.of_nat 4) -!Nat2Z.inj_div Nat.div_add // !dE; lia.
Qed.
End G2.
