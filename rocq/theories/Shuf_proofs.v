(** * Proofs about the register shuffles *)
From Coq Require Import Arith NArith List Lia Bool.
From Verif Require Import Shuf_model Shuf_spec.
Import ListNotations.

(** Case analysis on a number below a literal. *)
Ltac lanes i tac := destruct i as [|i]; [tac | first [exfalso; cbn in *; lia | lanes i tac]].

Ltac fin :=
  intros a b j k Hj Hk; cbn in Hj;
  lanes j ltac:(lanes k ltac:(split; vm_compute; reflexivity)).

Section Shuf.
Context {T : Type}.
Notation vec := (nat -> T).

Lemma lo_128_32 : interleave_low 1 4 (@unpacklo_128_32 T). Proof. fin. Qed.
Lemma hi_128_32 : interleave_high 1 4 (@unpackhi_128_32 T). Proof. fin. Qed.
Lemma ev_128_32 : compress 0 1 4 (@pack_even_128_32 T). Proof. fin. Qed.
Lemma od_128_32 : compress 1 1 4 (@pack_odd_128_32 T). Proof. fin. Qed.
Lemma lo_128_64 : interleave_low 1 2 (@unpacklo_128_64 T). Proof. fin. Qed.
Lemma hi_128_64 : interleave_high 1 2 (@unpackhi_128_64 T). Proof. fin. Qed.
Lemma ev_128_64 : compress 0 1 2 (@pack_even_128_64 T). Proof. fin. Qed.
Lemma od_128_64 : compress 1 1 2 (@pack_odd_128_64 T). Proof. fin. Qed.
Lemma lo_128_16 : interleave_low 1 8 (@unpacklo_128_16 T). Proof. fin. Qed.
Lemma hi_128_16 : interleave_high 1 8 (@unpackhi_128_16 T). Proof. fin. Qed.
Lemma ev_128_16 : compress 0 2 8 (@pack_even_128_16 T). Proof. fin. Qed.
Lemma od_128_16 : compress 1 2 8 (@pack_odd_128_16 T). Proof. fin. Qed.
Lemma lo_256_32 : interleave_low 1 8 (@unpacklo_256_32 T). Proof. fin. Qed.
Lemma hi_256_32 : interleave_high 1 8 (@unpackhi_256_32 T). Proof. fin. Qed.
Lemma ev_256_32 : compress 0 1 8 (@pack_even_256_32 T). Proof. fin. Qed.
Lemma od_256_32 : compress 1 1 8 (@pack_odd_256_32 T). Proof. fin. Qed.
Lemma lo_256_32_avx : interleave_low 1 8 (@unpacklo_256_32_avx T). Proof. fin. Qed.
Lemma hi_256_32_avx : interleave_high 1 8 (@unpackhi_256_32_avx T). Proof. fin. Qed.
Lemma ev_256_32_avx : compress 0 1 8 (@pack_even_256_32_avx T). Proof. fin. Qed.
Lemma od_256_32_avx : compress 1 1 8 (@pack_odd_256_32_avx T). Proof. fin. Qed.
Lemma lo_256_64 : interleave_low 1 4 (@unpacklo_256_64 T). Proof. fin. Qed.
Lemma hi_256_64 : interleave_high 1 4 (@unpackhi_256_64 T). Proof. fin. Qed.
Lemma ev_256_64 : compress 0 1 4 (@pack_even_256_64 T). Proof. fin. Qed.
Lemma od_256_64 : compress 1 1 4 (@pack_odd_256_64 T). Proof. fin. Qed.
Lemma lo_256_64_avx : interleave_low 1 4 (@unpacklo_256_64_avx T). Proof. fin. Qed.
Lemma hi_256_64_avx : interleave_high 1 4 (@unpackhi_256_64_avx T). Proof. fin. Qed.
Lemma ev_256_64_avx : compress 0 1 4 (@pack_even_256_64_avx T). Proof. fin. Qed.
Lemma od_256_64_avx : compress 1 1 4 (@pack_odd_256_64_avx T). Proof. fin. Qed.
Lemma lo_256_16 : interleave_low 1 16 (@unpacklo_256_16 T). Proof. fin. Qed.
Lemma hi_256_16 : interleave_high 1 16 (@unpackhi_256_16 T). Proof. fin. Qed.
Lemma ev_256_16 : compress 0 2 16 (@pack_even_256_16 T). Proof. fin. Qed.
Lemma od_256_16 : compress 1 2 16 (@pack_odd_256_16 T). Proof. fin. Qed.
Lemma lo_512_32 : interleave_low 1 16 (@unpacklo_512_32 T). Proof. fin. Qed.
Lemma hi_512_32 : interleave_high 1 16 (@unpackhi_512_32 T). Proof. fin. Qed.
Lemma ev_512_32 : compress 0 1 16 (@pack_even_512_32 T). Proof. fin. Qed.
Lemma od_512_32 : compress 1 1 16 (@pack_odd_512_32 T). Proof. fin. Qed.
Lemma lo_512_64 : interleave_low 1 8 (@unpacklo_512_64 T). Proof. fin. Qed.
Lemma hi_512_64 : interleave_high 1 8 (@unpackhi_512_64 T). Proof. fin. Qed.
Lemma ev_512_64 : compress 0 1 8 (@pack_even_512_64 T). Proof. fin. Qed.
Lemma od_512_64 : compress 1 1 8 (@pack_odd_512_64 T). Proof. fin. Qed.

Ltac trs :=
  intros R i j Hi Hj; split; [reflexivity|intros d];
  lanes i ltac:(lanes j ltac:(vm_compute; reflexivity)).

Lemma tr_128_64 : transposes 2 (@transpose_128_64 T). Proof. trs. Qed.
Lemma tr_128_float : transposes 4 (@transpose_128_float T). Proof. trs. Qed.
Lemma tr_128_int16 : transposes 8 (@transpose_128_int16 T). Proof. trs. Qed.
Lemma tr_128_int32 : transposes 4 (@transpose_128_int32 T). Proof. trs. Qed.
Lemma tr_256_float : transposes 8 (@transpose_256_float T). Proof. trs. Qed.
Lemma tr_256_double : transposes 4 (@transpose_256_double T). Proof. trs. Qed.
Lemma tr_256_int16 : transposes 16 (@transpose_256_int16 T). Proof. trs. Qed.
Lemma tr_256_int32 : transposes 8 (@transpose_256_int32 T). Proof. trs. Qed.
Lemma tr_256_int64 : transposes 4 (@transpose_256_int64 T). Proof. trs. Qed.
Lemma tr_512_float : transposes 16 (@transpose_512_float T). Proof. trs. Qed.
Lemma tr_512_double : transposes 8 (@transpose_512_double T). Proof. trs. Qed.
Lemma tr_512_int64 : transposes 8 (@transpose_512_int64 T). Proof. trs. Qed.
End Shuf.

(** ** blend *)
Ltac small s H :=
  let m := fresh "m" in
  assert (exists m, s = N.of_nat m) as [m ->] by (exists (N.to_nat s); lia);
  let H' := fresh in
  assert (H' : m < N.to_nat 16) by lia; clear H; rename H' into H.

Lemma blend_twice : forall (T : Type) s, (s < 16)%N -> blends 2 4 s (@blendi T 8 (twice s)).
Proof.
  intros T s H; small s H; cbn in H.
  intros a b i k Hi Hk.
  lanes m ltac:(lanes i ltac:(lanes k ltac:(vm_compute; reflexivity))).
Qed.

Lemma blend_128_64_ok : forall (T : Type) s, (s < 4)%N ->
  blends 2 2 s (@blend_128_64 T s) /\ blends 4 2 s (@blend_128_64_sse T s).
Proof.
  intros T s H4; assert (H : (s < 16)%N) by lia; small s H; cbn in H.
  split; intros a b i k Hi Hk.
  - lanes m ltac:(lanes i ltac:(lanes k ltac:(vm_compute; reflexivity))).
  - lanes m ltac:(lanes i ltac:(lanes k ltac:(vm_compute; reflexivity))).
Qed.

Lemma blendi_ok : forall (T : Type) n s, blends 1 n s (@blendi T n s).
Proof.
  intros T n s a b i k Hi Hk. assert (k = 0) by lia; subst k.
  replace (i * 1 + 0) with i by lia. unfold blendi.
  rewrite Nat.mod_small by lia. now destruct (N.testbit s (N.of_nat i)).
Qed.

Lemma land_ff : forall s i, i < 8 -> N.testbit (N.land s 255) (N.of_nat i) = N.testbit s (N.of_nat i).
Proof.
  intros s i H. rewrite N.land_spec. change 255%N with (N.ones 8).
  rewrite N.ones_spec_low by lia. apply andb_true_r.
Qed.

Lemma shr_8 : forall s i, N.testbit (N.shiftr s 8) (N.of_nat i) = N.testbit s (N.of_nat (i + 8)).
Proof. intros s i. rewrite N.shiftr_spec' . f_equal. lia. Qed.

Lemma perm128_lo : forall (T : Type) (a b : nat -> T) i, i < 8 -> perm128 8 48 a b i = a i.
Proof. intros T a b i H. lanes i ltac:(vm_compute; reflexivity). Qed.
Lemma perm128_hi : forall (T : Type) (a b : nat -> T) i, i < 8 -> perm128 8 48 a b (i + 8) = b (i + 8).
Proof. intros T a b i H. lanes i ltac:(vm_compute; reflexivity). Qed.

Lemma blend_256_16_ok : forall (T : Type) s, (s < 65536)%N -> blends 1 16 s (@blend_256_16 T s).
Proof.
  intros T s H a b i k Hi Hk. assert (k = 0) by lia; subst k.
  replace (i * 1 + 0) with i by lia. unfold blend_256_16.
  destruct (N.eqb_spec (N.land s 255) (N.shiftr s 8)) as [E|E].
  - unfold blendi. destruct (Nat.lt_ge_cases i 8) as [L|L].
    + rewrite Nat.mod_small, land_ff by lia. now destruct (N.testbit s (N.of_nat i)).
    + replace (i mod 8) with (i - 8)
        by (replace i with (i - 8 + 1 * 8) at 2 by lia; rewrite Nat.mod_add, Nat.mod_small; lia).
      rewrite E, shr_8, Nat.sub_add by lia. now destruct (N.testbit s (N.of_nat i)).
  - destruct (Nat.lt_ge_cases i 8) as [L|L].
    + rewrite perm128_lo by lia. unfold blendi.
      rewrite Nat.mod_small, land_ff by lia. now destruct (N.testbit s (N.of_nat i)).
    + replace i with (i - 8 + 8) at 1 by lia. rewrite perm128_hi by lia. unfold blendi.
      rewrite Nat.sub_add by lia.
      replace (i mod 8) with (i - 8)
        by (replace i with (i - 8 + 1 * 8) at 2 by lia; rewrite Nat.mod_add, Nat.mod_small; lia).
      rewrite shr_8, Nat.sub_add by lia. now destruct (N.testbit s (N.of_nat i)).
Qed.

(** ** shuffle *)
Lemma shuffle_128_64_ok : forall (T : Type) s (a : nat -> T) i k, i < 2 -> k < 2 ->
  shuffle_128_64 s a (i * 2 + k) = a ((if N.testbit s (N.of_nat i) then 1 else 0) * 2 + k).
Proof.
  intros T s a i k Hi Hk. unfold shuffle_128_64.
  lanes i ltac:(lanes k ltac:(cbn [N.of_nat]; change (N.pos (Pos.of_succ_nat 0)) with 1%N;
    destruct (N.testbit s 0), (N.testbit s 1); vm_compute; reflexivity)).
Qed.

Lemma index_even : forall s k, Nat.even k = true -> shuffle_index s k = nibble s k.
Proof.
  intros s k E. unfold shuffle_index, nibble. rewrite E.
  change 15%N with (N.ones 4). rewrite N.land_ones, N.shiftr_div_pow2.
  replace (16 ^ N.of_nat k)%N with (2 ^ N.of_nat (4 * k))%N; [reflexivity|].
  rewrite Nat2N.inj_mul, N.pow_mul_r. reflexivity.
Qed.

Lemma land_f0 : forall x, N.land x 240 = (16 * ((x / 16) mod 16))%N.
Proof.
  intros x. change 240%N with (N.shiftl (N.ones 4) 4).
  transitivity (N.shiftl (N.land (N.shiftr x 4) (N.ones 4)) 4).
  - rewrite N.shiftl_land. apply N.bits_inj; intros m. rewrite !N.land_spec.
    destruct (N.lt_ge_cases m 4) as [L|L].
    + rewrite !(N.shiftl_spec_low _ 4 m) by lia. now rewrite !andb_false_r.
    + rewrite !(N.shiftl_spec_high' _ 4 m) by lia. rewrite N.shiftr_spec'.
      now rewrite N.sub_add by lia.
  - rewrite N.shiftl_mul_pow2, N.land_ones, N.shiftr_div_pow2. change (2 ^ 4)%N with 16%N. lia.
Qed.

Lemma index_odd : forall s k, Nat.even k = false -> shuffle_index s k = (16 * nibble s k)%N.
Proof.
  intros s k E. unfold shuffle_index, nibble. rewrite E, land_f0.
  rewrite N.shiftr_div_pow2, N.div_div by (try apply N.pow_nonzero; lia).
  destruct k as [|k]; [discriminate E|]. replace (S k - 1) with k by lia.
  replace (16 ^ N.of_nat (S k))%N with (2 ^ N.of_nat (4 * k) * 16)%N; [reflexivity|].
  rewrite Nat2N.inj_succ, N.pow_succ_r', Nat2N.inj_mul, N.pow_mul_r.
  change (2 ^ N.of_nat 4)%N with 16%N. lia.
Qed.

Lemma shuffle_ok : forall (T : Type) n s (a : nat -> T), n <= 16 ->
  match shuffle n s a with
  | Some r => (forall k, k < n -> if Nat.even k then (nibble s k < N.of_nat n)%N else nibble s k = 0%N) /\
              (forall k, k < n -> r k = a (N.to_nat (nibble s k)))
  | None => exists k, k < n /\ if Nat.even k then (N.of_nat n <= nibble s k)%N else nibble s k <> 0%N
  end.
Proof.
  intros T n s a Hn. unfold shuffle.
  destruct (forallb _ _) eqn:E.
  - rewrite forallb_forall in E.
    assert (forall k, k < n -> (shuffle_index s k < N.of_nat n)%N) as F
      by (intros k Hk; apply N.ltb_lt, E, in_seq; lia).
    assert (G : forall k, k < n -> if Nat.even k then (nibble s k < N.of_nat n)%N else nibble s k = 0%N).
    { intros k Hk. specialize (F k Hk). destruct (Nat.even k) eqn:V.
      - now rewrite index_even in F.
      - rewrite index_odd in F by assumption. lia. }
    split; [exact G|]. intros k Hk. specialize (G k Hk).
    destruct (Nat.even k) eqn:V.
    + now rewrite index_even.
    + now rewrite index_odd, G.
  - assert (H : exists k, In k (seq 0 n) /\ N.ltb (shuffle_index s k) (N.of_nat n) = false).
    { revert E. generalize (seq 0 n) as l. induction l as [|k l IH]; cbn [forallb]; [discriminate|].
      destruct (N.ltb _ _) eqn:V; cbn [andb].
      - intros E. destruct (IH E) as (k' & I & V'). exists k'; split; [now right|assumption].
      - intros _. exists k; split; [now left|assumption]. }
    destruct H as (k & I & V). apply in_seq in I. apply N.ltb_ge in V.
    exists k. split; [lia|]. destruct (Nat.even k) eqn:W.
    + now rewrite index_even in V.
    + rewrite index_odd in V by assumption. lia.
Qed.
