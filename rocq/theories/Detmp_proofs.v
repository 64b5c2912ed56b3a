(** * Determinant and characteristic polynomial of an integer matrix *)
From Coq Require Import ZArith Znumtheory.
From mathcomp Require Import all_ssreflect all_algebra.
From mathcomp.zify Require Import ssrZ zify.
From Verif Require Import Grid Perm_model Perm_spec Delayed_model Delayed_spec Red_model Rns_model Rns_spec.
From Verif Require Import Delayed_proofs Rns_proofs Rns2_proofs Api_model Api_spec Api_proofs Prof_proofs.
From Verif Require Import Charp_model Charp_spec Charp_proofs Charp_kry Charp_luk Detmp_model Detmp_field.
Set Implicit Arguments.
Unset Strict Implicit.
Unset Printing Implicit Defensive.
Local Open Scope ring_scope.
Import GRing.Theory.
Local Open Scope Z_scope.

Lemma matbits_in N (A : nat -> nat -> Z) i j : (i < N)%N -> (j < N)%N -> bitsize (A i j) <= matbits N A.
Proof.
have inner n b (f : nat -> Z) : b <= iteri n (fun j b => Z.max b (f j)) b /\
    forall j, (j < n)%N -> f j <= iteri n (fun j b => Z.max b (f j)) b.
  elim: n => [|n [IH1 IH2]] /=; first by split=> //; lia.
  split=> [|k]; first by lia.
  by rewrite ltnS leq_eqVlt => /orP [/eqP ->|/IH2]; lia.
have outer n : forall b, b <= iteri n (fun i b => iteri N (fun j b => Z.max b (bitsize (A i j))) b) b /\
    forall i j, (i < n)%N -> (j < N)%N ->
    bitsize (A i j) <= iteri n (fun i b => iteri N (fun j b => Z.max b (bitsize (A i j))) b) b.
  elim: n => [|n IH] b; first by split=> //=; lia.
  have [IH1 IH2] := IH b => {IH}; rewrite iteriS.
  set b' := iteri n _ b in IH1 IH2 *.
  have [I1 I2] := inner N b' (fun j => bitsize (A n j)).
  split=> [|k l]; first by lia.
  by rewrite ltnS leq_eqVlt => /orP [/eqP -> /I2|/IH2 h /h]; lia.
by move=> hi hj; apply: (outer N 1).2.
Qed.

Lemma bitsize_lt a : Z.abs a < 2 ^ bitsize a.
Proof.
rewrite /bitsize; case: Z.eqb_spec => [->|a0] //.
by have := Z.log2_spec (Z.abs a) ltac:(lia); rewrite -Z.add_1_r; lia.
Qed.

Lemma bitsize_ge M b : 0 <= b -> 2 ^ b <= M -> b + 1 <= bitsize M.
Proof.
move=> b0 h; have p : 0 < 2 ^ b by apply: Z.pow_pos_nonneg.
rewrite /bitsize; case: Z.eqb_spec => [|_]; first by lia.
have := Z.log2_le_pow2 (Z.abs M) b ltac:(lia).
by lia.
Qed.

Lemma words_ge b : 0 <= b -> b <= 16 * Z.of_nat (words b).
Proof.
move=> b0; rewrite /words; have := Z.div_mod b 16 ltac:(lia); have := Z.mod_pos_bound b 16 ltac:(lia).
by case: Z.eqb_spec; lia.
Qed.

Lemma words_mono b c : 0 <= b <= c -> (words b <= words c)%N.
Proof.
move=> bc; rewrite /words.
have := Z.div_mod b 16 ltac:(lia); have := Z.mod_pos_bound b 16 ltac:(lia).
have := Z.div_mod c 16 ltac:(lia); have := Z.mod_pos_bound c 16 ltac:(lia).
by do 2 case: Z.eqb_spec; lia.
Qed.

Lemma In_mem_ (T : eqType) (x : T) s : List.In x s -> x \in s.
Proof. by elim: s => //= y s IH [->|/IH h]; rewrite in_cons ?eqxx ?h ?orbT. Qed.

Lemma mem_In_ (T : eqType) (x : T) s : x \in s -> List.In x s.
Proof. by elim: s => //= y s IH; rewrite in_cons => /orP [/eqP ->|/IH h]; [left|right]. Qed.

Section Run.
Variables (bk thr : nat) (prec : Z) (R : det_run) (N : nat) (A : nat -> nat -> Z) (ms : list Z).
Hypotheses (bk0 : (0 < bk)%N) (N0 : (0 < N)%N) (Hprec : 1 <= prec <= 63).
Hypotheses (Hin : fair (d_in R)) (Hout : fair (d_out R)).
Hypotheses (Hpr : List.Forall Znumtheory.prime (d_draws R)).
Hypothesis Hms : rns_bound (d_draws R) (2 ^ d_bits R N (matbits N A)) false = Some ms.
Hypothesis Hbits : matbits N A <= d_bits R N (matbits N A).
Hypotheses (Hri : room_in prec (two_roundings (d_how R)) ms (words (matbits N A))) (Hro : room_out prec ms).

Let k := words (matbits N A).

Lemma det_basis : basis_ok ms.
Proof. by case: (rns_bound_ok _ _ _ _ Hpr Hms). Qed.

Lemma det_prime q : (q < length ms)%N -> Znumtheory.prime (modulus ms q).
Proof.
move=> hq; have [_ [hi _]] := rns_bound_ok _ _ _ _ Hpr Hms.
by apply: (proj1 (List.Forall_forall _ _) Hpr); apply/hi/modulus_in; lia.
Qed.

Lemma matbits_pos : 0 < matbits N A.
Proof.
have := matbits_in (A := A) N0 N0; rewrite {1}/bitsize; case: Z.eqb_spec => [_|_]; first by lia.
by have := Z.log2_nonneg (Z.abs (A 0%N 0%N)); lia.
Qed.

Lemma det_room : (k <= ldm ms)%N.
Proof.
have [_ [_ hM]] := rns_bound_ok _ _ _ _ Hpr Hms; have p := matbits_pos.
apply: (@words_mono (matbits N A) (bitsize (Mprod ms))).
have := @bitsize_ge (Mprod ms) (matbits N A) ltac:(lia); rewrite product_Mprod.
by have := Z.pow_le_mono_r 2 _ _ ltac:(lia) Hbits; lia.
Qed.

Lemma amod_ok q i j : (q < length ms)%N -> (i < N)%N -> (j < N)%N ->
  amod prec R ms k A q i j = zF (modulus ms q) (A i j).
Proof.
move=> hq hi hj; rewrite /amod /arns.
have kr := det_room.
have ha : Z.abs (A i j) < 2 ^ (16 * Z.of_nat k).
  apply: Z.lt_le_trans (bitsize_lt _) _; apply: Z.pow_le_mono_r; first by [].
  apply: Z.le_trans (matbits_in (A := A) hi hj) _; apply: words_ge; have := matbits_pos; lia.
have [r [-> hr]] := init_ok _ (d_in R) (d_how R) ms k _ Hin (proj1 Hprec) (proj1 det_basis) Hri ltac:(lia) ha.
apply: (toF_repr (det_prime hq)).
by apply: residues_nth => //; lia.
Qed.

Lemma convert_residues (f : nat -> Z) d c :
  (forall q, (q < length ms)%N -> is_repr (modulus ms q) 0 d (f q)) ->
  exists x, rns_convert prec (d_out R) ms 1 (map f (List.seq 0 (length ms))) c = Some (c + x) /\
    (product ms | x - d) /\ centred (product ms) x.
Proof.
move=> hf; set r := map _ _.
have hr : residues ms d r by apply: residues_map => q hq; apply: hf; lia.
have [x [hx [rx cx]]] := convert_ok _ _ ms 1 r c Hout (proj2 Hprec) det_basis Hro (residues_length _ _ _ hr)
  ltac:(move=> i hi; have [] := residues_nth _ _ _ i hr hi; rewrite /modulus; lia).
exists x; split; first by rewrite hx; congr (Some _); lia.
split=> //; rewrite -product_Mprod; apply: crt_div; first by apply det_basis.
apply/List.Forall_forall => m hm; case: (List.In_nth _ _ 1 hm) => i [hi <-].
have [_ [q1 h1]] := residues_nth _ _ _ i rx hi.
have [_ [q2 h2]] := residues_nth _ _ _ i hr hi.
by exists (q2 - q1); rewrite /modulus in h1 h2; lia.
Qed.

Theorem DetZ_ok det0 : exists x, DetZ bk thr prec R N A det0 = Some (det0 + x) /\
  (product ms | x - \det (mx N N A)) /\ centred (product ms) x.
Proof.
rewrite /DetZ (negbTE (lt0n_neq0 N0)) Hms ltnNge det_room /=.
apply: convert_residues => q hq.
rewrite DetE //.
have -> : mx N N (amod prec R ms k A q) = mx N N (fun i j => zF (modulus ms q) (A i j)).
  by apply/matrixP => i j; rewrite !mxE amod_ok.
by rewrite zF_det; apply: ofF_repr; apply: det_prime.
Qed.

Lemma centred_of x d : (product ms | x - d) -> centred (product ms) x -> 2 * Z.abs d < product ms -> x = d.
Proof.
move=> [q hq] cx hd; rewrite /centred in cx.
have := Z.div_mod (product ms - 1) 2 ltac:(lia); have := Z.mod_pos_bound (product ms - 1) 2 ltac:(lia).
move=> h1 h2; have : q = 0 by nia.
by lia.
Qed.

Theorem DetZ_exact det0 : 2 * Z.abs (\det (mx N N A)) < product ms ->
  DetZ bk thr prec R N A det0 = Some (det0 + \det (mx N N A)).
Proof. by have [x [-> [h1 h2]]] := DetZ_ok det0 => h; rewrite (centred_of h1 h2 h). Qed.

Variables (tag : charpoly_tag) (deg : nat).
Variables (X : forall m : Z, grid 'F_(Z.to_nat m)) (v : forall m : Z, nat -> nat -> 'F_(Z.to_nat m)) (junk : nat -> nat).
Hypothesis Hv : forall m, List.In m (d_draws R) -> forall n, (0 < n <= N)%N -> exists2 c, (c < n)%N & v m n c != 0%R.

Lemma CharPolyZ_some old j : (j <= N)%N ->
  (forall q, (q < length ms)%N -> is_some (cp_mod bk prec R tag deg X v junk N ms k A q)) ->
  exists x, CharPolyZ bk prec R tag deg X v junk N A old j = Some (old j + x) /\
    (product ms | x - (char_poly (mx N N A))`_j) /\ centred (product ms) x.
Proof.
move=> hj hc; rewrite /CharPolyZ (negbTE (lt0n_neq0 N0)) Hms ltnNge det_room /=.
case: ifP => [/hasP [c /mapP [q hq ->]]|_].
  by rewrite hc //; move/mem_In_: hq => /List.in_seq; lia.
rewrite -map_comp; apply: convert_residues => q hq.
have := hc q hq; rewrite /= /cp_mod -/k.
case E: (CharPoly _ _ _ _ _ _ _ _ _) => [s|] //= _.
have hvq n : (0 < n <= N)%N -> exists2 c, (c < n)%N & v (modulus ms q) n c != 0%R.
  apply: Hv; have [_ [hi _]] := rns_bound_ok _ _ _ _ Hpr Hms; apply/hi/modulus_in; lia.
have -> := CharPoly_ok bk0 hvq E.
have -> : mx N N (amod prec R ms k A q) = mx N N (fun i j => zF (modulus ms q) (A i j)).
  by apply/matrixP => i l; rewrite !mxE amod_ok.
rewrite (nth_map 0%R) ?size_char_poly ?ltnS // zF_char.
by apply: ofF_repr; apply: det_prime.
Qed.

Theorem CharPolyZ_def old j : (j <= N)%N ->
  (tag = TagDanilevski \/ tag = TagLUK \/ tag = TagAuto /\ (N < deg)%N) ->
  exists x, CharPolyZ bk prec R tag deg X v junk N A old j = Some (old j + x) /\
    (product ms | x - (char_poly (mx N N A))`_j) /\ centred (product ms) x.
Proof.
move=> hj ht; apply: CharPolyZ_some => // q hq; rewrite /cp_mod -/k.
case E: (CharPoly _ _ _ _ _ _ _ _ _) => [s|] //=.
have hvq n : (0 < n <= N)%N -> exists2 c, (c < n)%N & v (modulus ms q) n c != 0%R.
  apply: Hv; have [_ [hi _]] := rns_bound_ok _ _ _ _ Hpr Hms; apply/hi/modulus_in; lia.
have [_ h] := CharPoly_none bk0 hvq E.
by case: h => [h|[h1 h2]]; move: ht; rewrite ?h ?h1; case=> [|[|[_ h3]]] //; lia.
Qed.

Theorem CharPolyZ_exact old j : (j <= N)%N ->
  (tag = TagDanilevski \/ tag = TagLUK \/ tag = TagAuto /\ (N < deg)%N) ->
  2 * Z.abs (char_poly (mx N N A))`_j < product ms ->
  CharPolyZ bk prec R tag deg X v junk N A old j = Some (old j + (char_poly (mx N N A))`_j).
Proof. by move=> hj ht; have [x [-> [h1 h2]]] := CharPolyZ_def old hj ht => h; rewrite (centred_of h1 h2 h). Qed.
End Run.

(** ** The bound leaves no room for the sign *)
Lemma prime_check p s : 2 <= p -> 0 <= s -> p < (s + 1) * (s + 1) ->
  List.forallb (fun d => negb (p mod Z.of_nat d =? 0)) (List.seq 2 (Z.to_nat (s - 1))) = true ->
  Znumtheory.prime p.
Proof.
move=> p2 s0 hs /List.forallb_forall h.
apply/prime_alt; split=> [|n hn [q hq]]; first by lia.
have nd d : 2 <= d <= s -> ~ (d | p).
  move=> hd; have := h (Z.to_nat d) ltac:(apply/List.in_seq; lia).
  rewrite Z2Nat.id; last by lia.
  by case: Z.eqb_spec => // h0 _ /Z.mod_divide -/(_ ltac:(lia)).
have [le|gt] := Z.le_gt_cases n s; first by apply: (nd n); [lia|exists q].
apply: (nd q); last by exists n; lia.
by nia.
Qed.

Lemma prime_2097169 : Znumtheory.prime 2097169.
Proof. by apply: (@prime_check _ 1449); [lia|lia|lia|vm_compute]. Qed.

Lemma DetZ_11 bk thr R p : (0 < bk)%N -> fair (d_in R) -> fair (d_out R) ->
  Znumtheory.prime p -> 2 ^ 21 <= p < 2 ^ 22 - 2 -> d_draws R = [:: p] -> d_bits R 1 21 = 21 ->
  DetZ bk thr 53 R 1 (fun _ _ => 2097151) 0 = Some (2097151 - p).
Proof.
move=> bk0 Hin Hout pp hp hd hb.
have hm : matbits 1 (fun _ _ => 2097151) = 21 by [].
have hms : rns_bound (d_draws R) (2 ^ d_bits R 1 21) false = Some [:: p].
  rewrite hd hb /rns_bound /build_loop.
  have -> : (2 ^ 21 * 1 <=? 1) = false by [].
  have -> : 1 mod p = 1 by apply: Z.mod_1_l; lia.
  have -> : (1 =? 0) = false by [].
  by case: Z.leb_spec => //; lia.
have pr : List.Forall Znumtheory.prime (d_draws R) by rewrite hd; constructor.
have h53 : 2 ^ 53 = 9007199254740992 by [].
have h16 : 2 ^ 16 = 65536 by [].
have h21 : 2 ^ 21 = 2097152 by [].
have h22 : 2 ^ 22 = 4194304 by [].
have ri : room_in 53 (two_roundings (d_how R)) [:: p] (words 21).
  by constructor=> //; have -> : Z.of_nat (words 21) = 2 by []; case: two_roundings; lia.
have ro : room_out 53 [:: p] by rewrite /room_out /=; lia.
rewrite -hm in hms ri.
have [x [-> [[q hq] cx]]] := @DetZ_ok bk thr 53 R 1 (fun _ _ => 2097151) [:: p] bk0 isT ltac:(lia)
   Hin Hout pr hms ltac:(rewrite hm hb; lia) ri ro 0.
have e : \det (mx 1 1 (fun _ _ => 2097151)) = 2097151 by rewrite det_mx11 mxE.
have e1 : product [:: p] = p * 1 by [].
rewrite e e1 in hq; rewrite e1 /centred in cx.
have [d0 d1] : 2 * ((p * 1 - 1) / 2) <= p * 1 - 1 /\ p * 1 - 1 < 2 * ((p * 1 - 1) / 2) + 2.
  by have := Z.div_mod (p * 1 - 1) 2 ltac:(lia); have := Z.mod_pos_bound (p * 1 - 1) 2 ltac:(lia); lia.
have hq' : x = 2097151 + q * p by lia.
have : q = -1 by nia.
by move=> q1; congr (Some _); lia.
Qed.

Lemma DetZ_sign : (exists p, Znumtheory.prime p /\ 2 ^ 21 <= p < 2 ^ 22 - 2) /\
  forall bk thr R p, (0 < bk)%N -> fair (d_in R) -> fair (d_out R) ->
  Znumtheory.prime p -> 2 ^ 21 <= p < 2 ^ 22 - 2 -> d_draws R = [:: p] -> d_bits R 1 21 = 21 ->
  DetZ bk thr 53 R 1 (fun _ _ => 2 ^ 21 - 1) 0 = Some (2 ^ 21 - 1 - p).
Proof.
split; first by exists 2097169; split; [exact: prime_2097169|vm_compute; split; congruence].
by move=> bk thr R p; have -> : 2 ^ 21 - 1 = 2097151 by []; exact: DetZ_11.
Qed.

Lemma prime_17 : Znumtheory.prime 17.
Proof. by apply: (@prime_check _ 4); [lia|lia|lia|vm_compute]. Qed.

Definition run17 : det_run := mkdet [:: 17] ltr ltr None (fun _ a => a).

Lemma DetZ_reused : exists R N A det0, List.Forall Znumtheory.prime (d_draws R) /\ fair (d_in R) /\
  fair (d_out R) /\ DetZ 1 1 53 R N A det0 <> Some (\det (mx N N A)).
Proof.
exists run17, 1%N, (fun _ _ => 3), 5; split; first by constructor=> //; exact: prime_17.
do 2 (split; first exact: Delayed_proofs.ltr_fair).
have -> : DetZ 1 1 53 run17 1 (fun _ _ => 3) 5 = Some 8 by vm_compute.
by rewrite det_mx11 mxE.
Qed.

Lemma CharPolyZ_reused X v : exists R N A old, List.Forall Znumtheory.prime (d_draws R) /\ fair (d_in R) /\
  fair (d_out R) /\
  CharPolyZ 1 53 R TagDanilevski 50 X v id N A old N = Some 2 /\ (char_poly (mx N N A))`_N = 1.
Proof.
exists run17, 1%N, (fun _ _ => 3), (fun _ => 1); split; first by constructor=> //; exact: prime_17.
do 2 (split; first exact: Delayed_proofs.ltr_fair).
split; first by vm_compute.
by have := char_poly_monic (mx 1 1 (fun _ _ => 3)); rewrite monicE lead_coefE size_char_poly => /eqP.
Qed.

Lemma DetZ_empty bk thr prec R (A : nat -> nat -> Z) det0 : DetZ bk thr prec R 0 A det0 = Some (\det (mx 0 0 A)).
Proof. by rewrite det_mx00. Qed.
