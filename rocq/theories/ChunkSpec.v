(** Specifications for the block-bidiagonal solvers, independent of how the
    code computes. *)
From Coq Require Import List Arith.
Import ListNotations.

(** What a valid PCR schedule for [n] blocks is (C01). *)
Record schedule_ok (n : nat) (start fin : list nat) : Prop := {
  so_len : length start = length fin;
  so_nonempty : 0 < length start;
  so_first : nth 0 start 0 = 0;
  so_last : last fin 0 = n;
  (* consecutive ranges overlap in exactly one block *)
  so_overlap : forall i, S i < length start -> nth (S i) start 0 + 1 = nth i fin 0;
  (* every length is a power of two, the largest that fits in what is left *)
  so_greedy : forall i, i < length start ->
     exists k, nth i fin 0 = nth i start 0 + 2 ^ k
            /\ 2 ^ k <= n - nth i start 0 < 2 ^ (k + 1);
  (* after the first range each one makes progress: length at least two *)
  so_progress : forall i, 0 < i < length start -> nth i start 0 + 2 <= nth i fin 0;
  (* lengths never increase *)
  so_mono : forall i j, i <= j < length start ->
     nth j fin 0 - nth j start 0 <= nth i fin 0 - nth i start 0
}.
