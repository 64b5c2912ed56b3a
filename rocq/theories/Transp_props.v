(** * C39: transposition is exact for every shape, in place or not *)
From Coq Require Import Arith List.
From Verif Require Import Transp_model Transp_spec Transp_proofs Transp2_proofs.
Import ListNotations.

(** With any vector length [vs > 0] and any block size [bs = c * vs], for every
    m x n matrix A stored at [a] and result B stored at [b]: two disjoint windows,
    the same square window, or the same packed window.  The result holds the
    transpose and no other cell changes, except the temporaries of the in-place
    variants, which lie outside the windows. *)
Theorem C39_ftranspose : forall (T : Type) bs vs c t1 t2 m n a lda b ldb (M : @mem T),
  0 < vs -> 0 < c -> bs = c * vs -> n <= lda -> m <= ldb ->
  (a <> b -> forall x, cell m n a lda x -> ~ cell n m b ldb x) ->
  (a = b -> if m =? n then lda = ldb else lda = n /\ ldb = m) ->
  let size := Nat.max (m * n) (bs * bs) in
  (forall x, cell n m b ldb x -> ~ block t1 size x /\ ~ block t2 size x) ->
  (forall x, block t1 size x -> ~ block t2 size x) ->
  exists M', ftranspose bs vs t1 t2 m n a lda b ldb M = Some M' /\
    transposed m n a lda b ldb (fun x => a = b /\ (block t1 size x \/ block t2 size x)) M M'.
Proof. exact @ftranspose_ok. Qed.
Print Assumptions C39_ftranspose.

Definition peek (m n a lda : nat) (r : option (nat -> nat)) : list (list nat) :=
  match r with
  | None => []
  | Some M => map (fun i => map (fun j => M (a + i * lda + j)) (seq 0 n)) (seq 0 m)
  end.

(** 3 x 5 to 5 x 3 out of place, 5 x 5 with a row stride of 6 in place, 3 x 5 in
    place; blocks of 4 made of vectors of 2; the address is the value. *)
Example C39_case :
  peek 5 3 100 4 (ftranspose 4 2 200 300 3 5 0 6 100 4 (fun x => x)) =
    [[0; 6; 12]; [1; 7; 13]; [2; 8; 14]; [3; 9; 15]; [4; 10; 16]] /\
  peek 5 6 0 6 (ftranspose 4 2 200 300 5 5 0 6 0 6 (fun x => x)) =
    [[0; 6; 12; 18; 24; 5]; [1; 7; 13; 19; 25; 11]; [2; 8; 14; 20; 26; 17];
     [3; 9; 15; 21; 27; 23]; [4; 10; 16; 22; 28; 29]] /\
  peek 5 3 0 3 (ftranspose 4 2 200 300 3 5 0 5 0 3 (fun x => x)) =
    [[0; 5; 10]; [1; 6; 11]; [2; 7; 12]; [3; 8; 13]; [4; 9; 14]].
Proof. vm_compute. repeat split; reflexivity. Qed.
