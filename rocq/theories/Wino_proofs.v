(** * Proofs about the Winograd schedules and the recursive product *)
From mathcomp Require Import all_ssreflect all_algebra zify ring.
From Verif Require Import Grid Perm_model Tri_model Wino_model Wino_spec.
Set Implicit Arguments.
Unset Strict Implicit.
Unset Printing Implicit Defensive.
Import GRing.Theory.
Local Open Scope ring_scope.

Section Wsum.
Variable F : comRingType.
Implicit Types f g : nat -> F.

Lemma wsumE k f : wsum k f = \sum_(i < k) f i.
Proof. by elim: k => [|k IH] /=; rewrite ?big_ord0 // big_ord_recr /= IH. Qed.

Lemma eq_wsum k f g : (forall i, (i < k)%N -> f i = g i) -> wsum k f = wsum k g.
Proof. by move=> H; rewrite !wsumE; apply: eq_bigr => i _; apply: H. Qed.

Lemma wsum_cat a b f : wsum (a + b) f = wsum a f + wsum b (fun i => f (a + i)%N).
Proof.
elim: b => [|b IH] /=; first by rewrite addn0 addr0.
by rewrite addnS /= IH addrA.
Qed.

Lemma wsumD k f g : wsum k (fun i => f i + g i) = wsum k f + wsum k g.
Proof. by rewrite !wsumE big_split. Qed.

Lemma wsumN k f : wsum k (fun i => - f i) = - wsum k f.
Proof. by rewrite !wsumE sumrN. Qed.

Lemma wgemmE ta tb m n k al A B be (C : grid F) i j :
  wgemm ta tb m n k al A B be C i j =
  if ((i < m) && (j < n))%N then al * wsum k (fun t => optr ta A i t * optr tb B t j) + be * C i j else C i j.
Proof. by rewrite /wgemm memoE. Qed.

Lemma wscalE m n a (A : grid F) i j : wscal m n a A i j = if ((i < m) && (j < n))%N then a * A i j else A i j.
Proof. by rewrite /wscal memoE. Qed.

End Wsum.

Section Wino.
Variable F : comRingType.
Notation memF := (mem F).
Notation instrF := (instr F).

Section Step.
Variables (ta tb : transp) (mr nr kr : nat) (sz : nat -> nat) (gemm : product F).
Hypothesis gemmP : gemm_right gemm mr nr kr.
Notation rd := (@rd F ta tb mr nr kr).
Notation wr := (@wr F ta tb mr nr kr sz).
Notation exec := (exec ta tb mr nr kr sz gemm).
Notation run := (run ta tb mr nr kr sz gemm).
Notation la := (la ta mr kr).
Notation ca := (ca ta mr kr).
Notation lb := (lb tb nr kr).
Notation cb := (cb tb nr kr).

Record cell := Cell { cm : nat; cn : nat; cld : nat; cg : grid F }.
Definition env := key -> cell.

Definition fits (o : operand) (m n : nat) : Prop :=
  match okey o with
  | KA _ _ => (m <= la)%N && (n <= ca)%N
  | KB _ _ => (m <= lb)%N && (n <= cb)%N
  | KC _ _ => (m <= mr)%N && (n <= nr)%N
  | KX id => (n <= old_ o)%N && (m * old_ o <= sz id)%N
  end.

Definition Inv (e : env) (M : memF) := forall k,
  fits (Op k (cld (e k))) (cm (e k)) (cn (e k)) /\
  forall p q, (p < cm (e k))%N -> (q < cn (e k))%N -> rd (Op k (cld (e k))) M p q = cg (e k) p q.

Lemma key_eqP k l : reflect (k = l) (key_eq k l).
Proof.
have bb b : eqb b b by case: b.
apply: (iffP idP) => [|->]; last by case: l => *; rewrite /= ?bb ?bb // -[eqn _ _]/(_ == _) eqxx.
by case: k l => [i j|i j|i j|a] [i' j'|i' j'|i' j'|b] //=; [| | |by move/eqnP->]; case: eqbP => // -> /eqbP ->.
Qed.

Lemma rd_wr_same o m n G M p q : fits o m n -> (p < m)%N -> (q < n)%N ->
  rd o (wr o m n G M) p q = G p q.
Proof.
case: o => [[i j|i j|i j|id] ld]; rewrite /fits /rd /wr /=.
- by move=> _ pm qn; rewrite /atop /subop; case: (ta); rewrite /sub memoE at_in /fill pm qn.
- by move=> _ pm qn; rewrite /atop /subop; case: (tb); rewrite /sub memoE at_in /fill pm qn.
- by move=> _ pm qn; rewrite /sub memoE at_in /fill pm qn.
move=> /andP[nl ms] pm qn; rewrite eqxx memo1E.
have ql : (q < ld)%N by lia.
rewrite divnMDl ?(leq_trans _ ql) // divn_small // addn0 pm modnMDl modn_small // qn !andbT.
case: ltnP => // h; exfalso.
have : (p * ld + ld <= m * ld)%N by rewrite -mulSnr leq_mul2r pm orbT.
lia.
Qed.

Lemma rd_wr_other k ld m' n' o m n G M p q : fits o m n -> fits (Op k ld) m' n' ->
  (p < m')%N -> (q < n')%N -> key_eq k (okey o) = false ->
  rd (Op k ld) (wr o m n G M) p q = rd (Op k ld) M p q.
Proof.
case: o => [[i j|i j|i j|id] ld']; case: k => [a b|a b|a b|c] //; rewrite /fits /rd /wr /=.
- rewrite /la /ca /atop /subop /at_ /fill /sub; case: (ta) => /andP[h1 h2] /andP[h3 h4] pm qn; rewrite memoE.
  + by case: a b i j => -[] [] [] //= _; rewrite ?add0n; bsolve.
  + by case: a b i j => -[] [] [] //= _; rewrite ?add0n; bsolve.
- rewrite /lb /cb /atop /subop /at_ /fill /sub; case: (tb) => /andP[h1 h2] /andP[h3 h4] pm qn; rewrite memoE.
  + by case: a b i j => -[] [] [] //= _; rewrite ?add0n; bsolve.
  + by case: a b i j => -[] [] [] //= _; rewrite ?add0n; bsolve.
- rewrite /at_ /fill /sub => /andP[h1 h2] /andP[h3 h4] pm qn; rewrite memoE.
  by case: a b i j => -[] [] [] //= _; rewrite ?add0n; bsolve.
by move=> _ _ _ _ h; case: eqP h => // ->; rewrite -[eqn _ _]/(_ == _) eqxx.
Qed.

Definition eset (e : env) (k : key) (c : cell) : env := fun k' => if key_eq k' k then c else e k'.

Lemma Inv_wr e M o m n G G' : Inv e M -> fits o m n ->
  (forall p q, (p < m)%N -> (q < n)%N -> G p q = G' p q) ->
  Inv (eset e (okey o) (Cell m n (old_ o) G')) (wr o m n G M).
Proof.
move=> I f E k; rewrite /eset; case: key_eqP => [->|/key_eqP/negbTE nk] /=.
  have -> : Op (okey o) (old_ o) = o by case: (o).
  by split=> // p q pm qn; rewrite rd_wr_same // E.
have [fk Ik] := I k; split=> // p q pm qn.
by rewrite (rd_wr_other G M f fk pm qn nk) Ik.
Qed.

Definition rok (e : env) (o : operand) (m n : nat) : Prop :=
  ((m <= cm (e (okey o)))%N && (n <= cn (e (okey o)))%N) /\
  (if okey o is KX _ then cld (e (okey o)) = old_ o else True).

Lemma rokP e M o m n p q : Inv e M -> rok e o m n -> (p < m)%N -> (q < n)%N ->
  rd o M p q = cg (e (okey o)) p q.
Proof.
move=> I [/andP[h1 h2] h3] pm qn; have [_ Ik] := I (okey o).
rewrite -(Ik p q) ?(leq_trans pm) ?(leq_trans qn) //.
by case: o h1 h2 h3 {Ik} => [[i j|i j|i j|id] ld] //= _ _ ->.
Qed.

Definition okI (c : instrF) (e : env) : Prop :=
  match c with
  | Iadd m n a b d | Isub m n a b d | Iaxpy m n a _ b d => [/\ rok e a m n, rok e b m n & fits d m n]
  | Imul al a b d => [/\ rok e a la ca, rok e b lb cb & fits d mr nr]
  | Igemm al a b be d => [/\ rok e a la ca, rok e b lb cb, fits d mr nr & rok e d mr nr]
  end.

Definition eg (e : env) (o : operand) : grid F := cg (e (okey o)).

(** Entry (p,q) of the block product. *)
Definition pr (a b : grid F) (p q : nat) : F := wsum kr (fun t => optr ta a p t * optr tb b t q).

Definition aexec (c : instrF) (e : env) : env :=
  match c with
  | Iadd m n a b d => eset e (okey d) (Cell m n (old_ d) (fun p q => eg e a p q + eg e b p q))
  | Isub m n a b d => eset e (okey d) (Cell m n (old_ d) (fun p q => eg e a p q - eg e b p q))
  | Iaxpy m n a x b d => eset e (okey d) (Cell m n (old_ d) (fun p q => eg e a p q + x * eg e b p q))
  | Imul al a b d => eset e (okey d) (Cell mr nr (old_ d) (fun p q =>
      al * pr (eg e a) (eg e b) p q))
  | Igemm al a b be d => eset e (okey d) (Cell mr nr (old_ d) (fun p q =>
      al * pr (eg e a) (eg e b) p q + be * eg e d p q))
  end.

Lemma rok_opA e M o p t : Inv e M -> rok e o la ca -> (p < mr)%N -> (t < kr)%N ->
  optr ta (rd o M) p t = optr ta (eg e o) p t.
Proof.
move=> I r pm tk; have := rokP I r; rewrite /optr /eg /la /ca; move: (rd o M) => R {r I}.
by case: (ta) => H; rewrite ?/tr H.
Qed.
Lemma rok_opB e M o t q : Inv e M -> rok e o lb cb -> (t < kr)%N -> (q < nr)%N ->
  optr tb (rd o M) t q = optr tb (eg e o) t q.
Proof.
move=> I r pm tk; have := rokP I r; rewrite /optr /eg /lb /cb; move: (rd o M) => R {r I}.
by case: (tb) => H; rewrite ?/tr H.
Qed.

Lemma stepP c e M : Inv e M -> okI c e -> Inv (aexec c e) (exec c M).
Proof.
move=> I; case: c => [m n a b d|m n a b d|m n a x b d|al a b d|al a b be d] /=.
- by case=> ra rb f; apply: Inv_wr => // p q pm qn; rewrite (rokP I ra) // (rokP I rb).
- by case=> ra rb f; apply: Inv_wr => // p q pm qn; rewrite (rokP I ra) // (rokP I rb).
- by case=> ra rb f; apply: Inv_wr => // p q pm qn; rewrite (rokP I ra) // (rokP I rb).
- case=> ra rb f; apply: Inv_wr => // p q pm qn; rewrite gemmP pm qn /= mul0r addr0 -(wsumE _ (fun t => optr ta (rd a M) p t * optr tb (rd b M) t q)).
  by congr (_ * _); apply: eq_wsum => t tk; rewrite (rok_opA I ra) // (rok_opB I rb).
case=> ra rb f rdd; apply: Inv_wr => // p q pm qn; rewrite gemmP pm qn /= -(wsumE _ (fun t => optr ta (rd a M) p t * optr tb (rd b M) t q)).
rewrite (rokP I rdd) //; congr (_ * _ + _); apply: eq_wsum => t tk.
by rewrite (rok_opA I ra) // (rok_opB I rb).
Qed.

Fixpoint oks (l : seq instrF) (e : env) : Prop :=
  if l is c :: l' then okI c e /\ oks l' (aexec c e) else True.
Fixpoint arun (l : seq instrF) (e : env) : env :=
  if l is c :: l' then arun l' (aexec c e) else e.

(** The bounds of a schedule only depend on the shapes. *)
Record shape := Shape { sm : nat; sn : nat; sld : nat }.
Definition srok (s : key -> shape) (o : operand) (m n : nat) : Prop :=
  ((m <= sm (s (okey o)))%N && (n <= sn (s (okey o)))%N) /\
  (if okey o is KX _ then sld (s (okey o)) = old_ o else True).
Definition sset (s : key -> shape) (d : operand) (m n : nat) :=
  fun k => if key_eq k (okey d) then Shape m n (old_ d) else s k.
Fixpoint soks (l : seq instrF) (s : key -> shape) : Prop :=
  if l is c :: l' then
    match c with
    | Iadd m n a b d | Isub m n a b d | Iaxpy m n a _ b d =>
       [/\ srok s a m n, srok s b m n & fits d m n] /\ soks l' (sset s d m n)
    | Imul al a b d => [/\ srok s a la ca, srok s b lb cb & fits d mr nr] /\ soks l' (sset s d mr nr)
    | Igemm al a b be d =>
       [/\ srok s a la ca, srok s b lb cb, fits d mr nr & srok s d mr nr] /\ soks l' (sset s d mr nr)
    end
  else True.

Lemma soksP l e s : (forall k, s k = Shape (cm (e k)) (cn (e k)) (cld (e k))) -> soks l s -> oks l e.
Proof.
elim: l e s => [|c l IH] e s //= E.
by case: c => [m n a b d|m n a b d|m n a x b d|al a b d|al a b be d];
  (case; rewrite /okI /srok /rok ?E /= => h /IH h'; split=> //; apply: h' => k;
   rewrite /sset /= /eset; case: ifP).
Qed.

Definition shape0 (k : key) : shape :=
  match k with
  | KA i j => Shape la ca 0
  | KB i j => Shape lb cb 0
  | KC i j => Shape mr nr 0
  | KX id => Shape 0 0 0
  end.

Lemma runP l e M : Inv e M -> oks l e -> Inv (arun l e) (run l M).
Proof. by elim: l e M => [|c l IH] e M //= I [o os]; apply: IH => //; apply: stepP. Qed.

(** Initial environment: A, B, C known, temporaries unknown. *)
Definition env0 (M : memF) : env := fun k =>
  match k with
  | KA i j => Cell la ca 0 (rd (Op k 0) M)
  | KB i j => Cell lb cb 0 (rd (Op k 0) M)
  | KC i j => Cell mr nr 0 (rd (Op k 0) M)
  | KX id => Cell 0 0 0 (fun _ _ => 0)
  end.

Lemma Inv0 M : Inv (env0 M) M.
Proof. by case=> [i j|i j|i j|id]; rewrite /fits /= ?leqnn; split. Qed.

Lemma soks0 l M : soks l shape0 -> oks l (env0 M).
Proof. by apply: soksP; case. Qed.

(** Destinations. *)
Definition dst (c : instrF) : key :=
  match c with
  | Iadd _ _ _ _ d | Isub _ _ _ _ d | Iaxpy _ _ _ _ _ d | Imul _ _ _ d | Igemm _ _ _ _ d => okey d
  end.
Definition notA (k : key) := if k is KA _ _ then false else true.
Definition notB (k : key) := if k is KB _ _ then false else true.

Lemma mA_run l M : all (notA \o dst) l -> mA (run l M) = mA M.
Proof.
elim: l M => [|c l IH] M //= /andP[h hs]; rewrite IH //.
by case: c h => [m n a b [k ld]|m n a b [k ld]|m n a x b [k ld]|al a b [k ld]|al a b be [k ld]] /=; rewrite /wr; case: k.
Qed.
Lemma mB_run l M : all (notB \o dst) l -> mB (run l M) = mB M.
Proof.
elim: l M => [|c l IH] M //= /andP[h hs]; rewrite IH //.
by case: c h => [m n a b [k ld]|m n a b [k ld]|m n a x b [k ld]|al a b [k ld]|al a b be [k ld]] /=; rewrite /wr; case: k.
Qed.

Lemma mC_wr o m n G M i j : fits o m n -> ~~ ((i < 2 * mr)%N && (j < 2 * nr)%N) ->
  mC (wr o m n G M) i j = mC M i j.
Proof.
case: o => [[a b|a b|a b|id] ld] //; rewrite /fits /wr /= => /andP[h1 h2] h3.
by rewrite memoE /at_ /fill /sub; case: a b => -[]; bsolve.
Qed.

Lemma mC_run l e M i j : oks l e -> ~~ ((i < 2 * mr)%N && (j < 2 * nr)%N) ->
  mC (run l M) i j = mC M i j.
Proof.
move=> + h; elim: l e M => [|c l IH] e M //= [o /IH ->].
by case: c o => [m n a b d|m n a b d|m n a x b d|al a b d|al a b be d] /=; [case=> _ _ f..|case=> _ _ f _]; exact: mC_wr.
Qed.

Definition quad (i j : bool) (a b : bool -> bool -> grid F) (p q : nat) : F :=
  pr (a i false) (b false j) p q + pr (a i true) (b true j) p q.

Lemma sched_ok l (alpha beta : F) M : oks l (env0 M) ->
  (forall i j, let c := arun l (env0 M) (KC i j) in
     [/\ cm c = mr, cn c = nr & forall p q, cg c p q =
        alpha * quad i j (fun a b => rd (Op (KA a b) 0) M) (fun a b => rd (Op (KB a b) 0) M) p q +
        beta * rd (Op (KC i j) 0) M p q]) ->
  is_gemm ta tb (2 * mr) (2 * nr) (2 * kr) alpha (mA M) (mB M) beta (mC M) (mC (run l M)).
Proof.
move=> o H i j; case: ifPn => [/andP[im jn]|h]; last exact: mC_run o h.
have I : Inv (arun l (env0 M)) (run l M) := runP (Inv0 M) o.
pose bi := (mr <= i)%N; pose bj := (nr <= j)%N.
pose p := (if bi then i - mr else i)%N; pose q := (if bj then j - nr else j)%N.
have [_ /(_ p q)] := I (KC bi bj); have [-> -> ->] := H bi bj.
have pm : (p < mr)%N by rewrite /p /bi; case: (leqP mr i); lia.
have qn : (q < nr)%N by rewrite /q /bj; case: (leqP nr j); lia.
have ei : ((if bi then mr else 0) + p = i)%N by rewrite /p /bi; case: (leqP mr i); lia.
have ej : ((if bj then nr else 0) + q = j)%N by rewrite /q /bj; case: (leqP nr j); lia.
rewrite /rd /= /sub ei ej => -> //; congr (_ * _ + _).
rewrite -(wsumE _ (fun t => optr ta (mA M) i t * optr tb (mB M) t j)) mul2n -addnn wsum_cat /quad /pr.
have eA x t : optr ta (subop ta (if bi then mr else 0%N) x (mA M)) p t = optr ta (mA M) i (x + t)%N.
  by rewrite /optr /subop /tr /sub; case: (ta); rewrite ei.
have eB x t : optr tb (subop tb x (if bj then nr else 0%N) (mB M)) t q = optr tb (mB M) (x + t)%N j.
  by rewrite /optr /subop /tr /sub; case: (tb); rewrite ej.
by congr (_ + _); apply: eq_wsum => t _; rewrite eA eB ?add0n.
Qed.

Lemma prBl x y z p q : pr (fun p q => x p q - y p q) z p q = pr x z p q - pr y z p q.
Proof. by rewrite /pr -wsumN -wsumD; apply: eq_wsum => t _; rewrite -mulrBl; case: (ta). Qed.
Lemma prDl x y z p q : pr (fun p q => x p q + y p q) z p q = pr x z p q + pr y z p q.
Proof. by rewrite /pr -wsumD; apply: eq_wsum => t _; rewrite -mulrDl; case: (ta). Qed.
Lemma prBr x y z p q : pr z (fun p q => x p q - y p q) p q = pr z x p q - pr z y p q.
Proof. by rewrite /pr -wsumN -wsumD; apply: eq_wsum => t _; rewrite -mulrBr; case: (tb). Qed.
Lemma prDr x y z p q : pr z (fun p q => x p q + y p q) p q = pr z x p q + pr z y p q.
Proof. by rewrite /pr -wsumD; apply: eq_wsum => t _; rewrite -mulrDr; case: (tb). Qed.

End Step.
End Wino.
