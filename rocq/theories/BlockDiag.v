(** Model of SquareBatchedBlockDiagonalMatrix, chunktime.py 537-716.

    A tensor of shape (len, sbat, sblk, sblk) is [(len, f)] with
    [f k b p q] its entries; [X] is the type of numbers.  torch's sparse
    formats are modelled by their entry lists. *)
From Coq Require Import List ZArith Lia Bool Arith.
Import ListNotations.

Section BD.
Context {X : Type} (zero : X) (add : X -> X -> X).

Definition btensor := (nat * (nat -> nat -> nat -> nat -> X))%type.

(** The object after __init__ (lines 573-582). *)
Record bdm := { bd_list : list (Z * btensor); bd_nblk : nat; bd_sblk : nat }.

(** np.argsort(diags) followed by re-indexing, lines 574-578 (insertion sort by
    diagonal; the order among equal diagonals is irrelevant for distinct ones). *)
Fixpoint insert_diag (x : Z * btensor) (l : list (Z * btensor)) :=
  match l with
  | [] => [x]
  | y :: r => if (fst x <=? fst y)%Z then x :: l else y :: insert_diag x r
  end.

Definition sort_diags (l : list (Z * btensor)) := fold_right insert_diag [] l.

(** lines 573-582, __init__: nblk = data[0].shape[0] + abs(diags[0]) of the
    sorted lists.  An empty list makes [self.data[0]] raise ([None]). *)
Definition mk_bdm (l : list (Z * btensor)) (sblk : nat) : option bdm :=
  match sort_diags l with
  | [] => None
  | ((d, (len, _)) :: _) as sl =>
    Some {| bd_list := sl; bd_nblk := len + Z.abs_nat d; bd_sblk := sblk |}
  end.

Definition bd_n (m : bdm) : nat := bd_nblk m * bd_sblk m.      (* lines 598-603 *)

(** lines 612-620, [nnz]. *)
Definition bd_nnz (m : bdm) : nat :=
  fold_right (fun x acc => fst (snd x) * bd_sblk m * bd_sblk m + acc) 0 (bd_list m).

(** Slice assignment [A[:, i*s:(i+1)*s, j*s:(j+1)*s] = blk] (lines 637-641). *)
Definition write_block (s i j : nat) (blk : nat -> nat -> nat -> X)
    (D : nat -> nat -> nat -> X) : nat -> nat -> nat -> X :=
  fun b r c =>
    if (i * s <=? r) && (r <? (i + 1) * s) && (j * s <=? c) && (c <? (j + 1) * s)
    then blk b (r - i * s) (c - j * s) else D b r c.

(** Block row and column of block [k] of diagonal [d], lines 631-636. *)
Definition dense_ij (d : Z) (k : nat) : nat * nat :=
  if (d <=? 0)%Z then (Z.to_nat (Z.of_nat k - d), k) else (k, Z.to_nat (Z.of_nat k + d)).

(** lines 622-643, [to_dense]; result indexed by batch, row, column. *)
Definition to_dense (m : bdm) : nat -> nat -> nat -> X :=
  fold_left
    (fun D (x : Z * btensor) =>
       fold_left
         (fun D k => let '(i, j) := dense_ij (fst x) k in
                     write_block (bd_sblk m) i j (snd (snd x) k) D)
         (seq 0 (bd_nblk m - Z.abs_nat (fst x))) D)
    (bd_list m) (fun _ _ _ => zero).

(** Entries contributed by block [i] of diagonal [d], lines 665-695: row-major
    order of the block, with the row/column offsets of the code. *)
Definition coo_block (s : nat) (d : Z) (blk : nat -> nat -> nat -> X) (i : nat)
  : list (nat * nat * (nat -> X)) :=
  let offset := (i + Z.abs_nat d) * s in
  let '(roff, coff) := if (d <? 0)%Z then (offset, i * s) else (i * s, offset) in
  flat_map (fun p => map (fun q => (p + roff, q + coff, fun b => blk b p q)) (seq 0 s))
           (seq 0 s).

(** lines 645-705, [to_batched_coo] before coalescing: list of
    (row, column, batch vector of values). *)
Definition to_coo (m : bdm) : list (nat * nat * (nat -> X)) :=
  flat_map
    (fun x : Z * btensor =>
       flat_map (fun i => coo_block (bd_sblk m) (fst x) (snd (snd x) i) i)
                (seq 0 (fst (snd x))))
    (bd_list m).

(** Value at a position after [coalesce()] (sum of all entries there). *)
Definition coo_value (l : list (nat * nat * (nat -> X))) (b r c : nat) : X :=
  fold_right (fun e acc =>
                if (fst (fst e) =? r) && (snd (fst e) =? c) then add (snd e b) acc else acc)
             zero l.

(** lines 707-716, [to_unrolled_csr]: no [size] is given, torch infers
    (1 + max row, 1 + max column). *)
Definition csr_shape (m : bdm) : nat * nat :=
  (fold_right (fun e acc => Nat.max (S (fst (fst e))) acc) 0 (to_coo m),
   fold_right (fun e acc => Nat.max (S (snd (fst e))) acc) 0 (to_coo m)).

End BD.
Arguments bdm : clear implicits.
