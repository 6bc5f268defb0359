(** Property theorems: PCR schedule (C01), hybrid split (C04), block-diagonal
    formats (C08, C09). *)
From Coq Require Import List ZArith Lia Arith.
Import ListNotations.
From Verif Require Import ChunkModel ChunkSpec ChunkPow2 ChunkSolve BlockDiag BlockDiagProofs.

(** C01: the schedule is defined exactly for n >= 1 and is valid. *)
Theorem C01_schedule_defined n : (exists s e, pow2 n = Some (s, e)) <-> 1 <= n.
Proof. exact (pow2_defined_iff n). Qed.
Print Assumptions C01_schedule_defined.

Theorem C01_schedule_valid n s e : pow2 n = Some (s, e) -> schedule_ok n s e.
Proof. exact (pow2_schedule_ok n s e). Qed.
Print Assumptions C01_schedule_valid.

Example C01_ex : pow2 13 = Some ([0; 7; 10; 11], [8; 11; 12; 13]).
Proof. reflexivity. Qed.

(** C04, second half: PCR is used exactly on the leading ranges longer than
    [min_size]; the Thomas part starts where the last of them ends (at row 1 if
    there is none). *)
Theorem C04_hybrid_split min_size n st fn lst : pcr_blocks min_size n = Some (st, fn, lst) ->
  exists s e, pow2 n = Some (s, e) /\
  (exists c, st = firstn c s /\ fn = firstn c e /\ c <= length s /\
     (forall i, i < c -> min_size < nth i e 0 - nth i s 0) /\
     (forall i, c <= i < length s -> nth i e 0 - nth i s 0 <= min_size) /\
     lst = last (1 :: fn) 0).
Proof. exact (pcr_blocks_spec min_size n st fn lst). Qed.
Print Assumptions C04_hybrid_split.

Example C04_ex : pcr_blocks 2 13 = Some ([0; 7], [8; 11], 11).
Proof. reflexivity. Qed.

(** C08 *)
Theorem C08_to_dense (X : Type) (zero : X) nblk sblk (l : list (Z * btensor)) :
  diag_input nblk l ->
  exists m, mk_bdm l sblk = Some m /\ bd_n m = nblk * sblk /\
  forall I J b p q, I < nblk -> J < nblk -> p < sblk -> q < sblk ->
    denotes zero l I J b p q (to_dense zero m b (I * sblk + p) (J * sblk + q)).
Proof. exact (to_dense_spec zero nblk sblk l). Qed.
Print Assumptions C08_to_dense.

Theorem C08_coo (X : Type) (zero : X) (add : X -> X -> X) (add0 : forall x, add x zero = x)
   nblk sblk (l : list (Z * btensor)) m :
  diag_input nblk l -> mk_bdm l sblk = Some m ->
  length (to_coo m) = bd_nnz m /\
  NoDup (map fst (to_coo m)) /\
  (forall e, In e (to_coo m) -> fst (fst e) < nblk * sblk /\ snd (fst e) < nblk * sblk) /\
  (forall b r c, r < nblk * sblk -> c < nblk * sblk ->
     coo_value zero add (to_coo m) b r c = to_dense zero m b r c).
Proof. exact (coo_spec zero add add0 nblk sblk l m). Qed.
Print Assumptions C08_coo.

Definition ex_t (c : nat) : nat -> nat -> nat -> nat -> nat := fun k b p q => c + k + p + q.
Example C08_ex : diag_input 3 [(1%Z, (2, ex_t 5)); ((-2)%Z, (1, ex_t 7))].
Proof.
  split; [|split].
  - repeat constructor; simpl; intuition lia.
  - discriminate.
  - intros d t [E|[E|[]]]; injection E as <- <-; simpl; lia.
Qed.

(** C09: holds when the main diagonal is filled ... *)
Theorem C09_csr_shape_partial (X : Type) nblk sblk (l : list (Z * @btensor X)) m :
  diag_input nblk l -> In 0%Z (map fst l) -> 0 < sblk -> mk_bdm l sblk = Some m ->
  csr_shape m = (nblk * sblk, nblk * sblk).
Proof. exact (csr_shape_main nblk sblk l m). Qed.
Print Assumptions C09_csr_shape_partial.

(** ... and fails in general: with only the first sub-diagonal filled the
    inferred shape is not n by n. *)
Theorem C09_csr_shape_refuted : exists l m,
  diag_input 2 l /\ @mk_bdm nat l 1 = Some m /\ bd_n m = 2 /\
  csr_shape m <> (bd_n m, bd_n m).
Proof.
  exists [((-1)%Z, (1, ex_t 0))]. eexists. split; [|split; [reflexivity|split; [reflexivity|]]].
  - split; [|split].
    + repeat constructor. intros [].
    + discriminate.
    + intros d t [E|[]]; injection E as <- <-; simpl; lia.
  - vm_compute. discriminate.
Qed.
Print Assumptions C09_csr_shape_refuted.
