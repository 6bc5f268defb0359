(** Model of the block-bidiagonal direct solvers of
    /repo/pyoptmat/chunktime.py (lines 64-484).

    Simplifications common to the file:
    - a tensor whose leading dimension runs over the time blocks is a storage
      function [nat -> _] (index of the block in the underlying contiguous
      storage); the number of blocks is passed separately;
    - one block (all batch entries, sblk x sblk or sblk x 1 numbers) is an
      element of an abstract carrier [M] (matrices) or [V] (vectors) with the
      operations of [block_ops]; the carriers are instantiated in ChunkInst.v
      by batches of mathcomp matrices over an arbitrary field;
    - [torch.linalg.lu_factor_ex] followed by [torch.linalg.lu_solve] is the
      operation [bsolve] (resp. [bsolveM] for a matrix right-hand side), i.e.
      the factorization is kept symbolically and exact arithmetic is used. *)

From Coq Require Import List Arith Lia PeanoNat.
Import ListNotations.

(** Operations on blocks. [bact] is torch.bmm / mbmm with a vector block,
    [bmul] mbmm with a matrix block (utility.py 60-64). *)
Record block_ops (M V : Type) := {
  bmul : M -> M -> M;
  bopp : M -> M;
  bzero : M;
  bact : M -> V -> V;
  bsub : V -> V -> V;
  badd : V -> V -> V;
  bsolve : M -> V -> V;
  bsolveM : M -> M -> M
}.
Arguments bmul {M V}. Arguments bopp {M V}. Arguments bzero {M V}. Arguments bact {M V}.
Arguments bsub {M V}. Arguments badd {M V}.
Arguments bsolve {M V}. Arguments bsolveM {M V}.

(** ** The PCR schedule *)

(** chunktime.py 300-301, [sz]: [2 ** floor(log2(n))].  The floating point
    log2 is replaced by the exact integer one. *)
Definition sz (n : nat) : nat := 2 ^ Nat.log2 n.

(** chunktime.py 307-311, the [while n > 0] loop.  [None] = out of fuel
    (excluded for all inputs by [pow2_total]). *)
Fixpoint pow2_loop (fuel n : nat) (start fin : list nat)
  : option (list nat * list nat) :=
  match n with
  | O => Some (start, fin)
  | S _ =>
    match fuel with
    | O => None
    | S fuel' =>
      let cz := sz (n + 1) in
      let s' := last fin 0 - 1 in
      let e' := s' + cz in
      pow2_loop fuel' (n - (cz - 1)) (start ++ [s']) (fin ++ [e'])
    end
  end.

(** chunktime.py 284-313, [BidiagonalPCRFactorization._pow2]; [n = 0] makes
    [log2] raise (a [None] here). *)
Definition pow2 (n : nat) : option (list nat * list nat) :=
  match n with
  | O => None
  | S _ => pow2_loop n (n - sz n) [0] [sz n]
  end.

(** Index of the first element satisfying [p], or the length:
    chunktime.py 399-403. *)
Fixpoint find_first (p : nat -> bool) (l : list nat) : nat :=
  match l with
  | [] => 0
  | x :: r => if p x then 0 else S (find_first p r)
  end.

(** chunktime.py 390-408, [BidiagonalHybridFactorization._pcr_blocks].
    [min_size] is the user's argument; the constructor (line 348) stores
    [min_size + 1]. *)
Definition pcr_blocks (min_size n : nat) : option (list nat * list nat * nat) :=
  match pow2 n with
  | None => None
  | Some (start, fin) =>
    let m := min_size + 1 in
    let blk_size := map (fun p => snd p - fst p) (combine start fin) in
    if hd 0 blk_size <? m then Some ([], [], 1)
    else
      let ilast := find_first (fun j => j <? m) blk_size in
      let start' := firstn ilast start in
      let fin' := firstn ilast fin in
      Some (start', fin', last fin' 0)
  end.

(** ** Storage and strided views *)

(** A 2-d view of block storage: element (a,b) lives at
    [voff + a*vst0 + b*vst1] (strides in units of one block). *)
Record view := { voff : nat; vn0 : nat; vn1 : nat; vst0 : nat; vst1 : nat }.

Definition vloc (w : view) (a b : nat) : nat := voff w + a * vst0 w + b * vst1 w.

(** [X.unsqueeze(0)] of the slice [X[s:e]] (contiguous): lines 258-261 with the
    slices of lines 236-237. *)
Definition slice_view (s e : nat) : view :=
  {| voff := s; vn0 := 1; vn1 := e - s; vst0 := e - s; vst1 := 1 |}.

(** [w[:, k:]] *)
Definition vdrop (k : nat) (w : view) : view :=
  {| voff := voff w + k * vst1 w; vn0 := vn0 w; vn1 := vn1 w - k;
     vst0 := vst0 w; vst1 := vst1 w |}.

(** [w[:, :-1]] *)
Definition vbut1 (w : view) : view :=
  {| voff := voff w; vn0 := vn0 w; vn1 := vn1 w - 1;
     vst0 := vst0 w; vst1 := vst1 w |}.

(** chunktime.py 315-326, [_cyclic_shift]: as_strided with shape
    (2*n0, n1//2) and strides (1, 2^(i+1)) blocks, same storage offset. *)
Definition cyclic_shift (w : view) (i : nat) : view :=
  {| voff := voff w; vn0 := vn0 w * 2; vn1 := vn1 w / 2;
     vst0 := 1; vst1 := 2 ^ (i + 1) |}.

(** All index pairs of an n0 x n1 view in row-major order. *)
Definition pairs (n0 n1 : nat) : list (nat * nat) :=
  flat_map (fun a => map (fun b => (a, b)) (seq 0 n1)) (seq 0 n0).

Definition upd {X} (st : nat -> X) (l : nat) (x : X) : nat -> X :=
  fun j => if j =? l then x else st j.

(** Write a materialised right-hand side [rhs a b] through the view [w]
    (torch evaluates the right-hand side before the in-place copy). *)
Definition vwrite {X} (w : view) (rhs : nat -> nat -> X) (st : nat -> X) : nat -> X :=
  fold_left (fun acc ab => upd acc (vloc w (fst ab) (snd ab)) (rhs (fst ab) (snd ab)))
            (pairs (vn0 w) (vn1 w)) st.

Definition vread {X} (w : view) (st : nat -> X) (a b : nat) : X := st (vloc w a b).

(** Plain slice assignment [st[lo:hi] = f] (f indexed by absolute position). *)
Definition slice_write {X} (lo hi : nat) (f : nat -> X) (st : nat -> X) : nat -> X :=
  fun j => if andb (lo <=? j) (j <? hi) then f j else st j.

(** torch's [is_contiguous] on a list of (size, stride), innermost first. *)
Fixpoint contig_rev (expected : nat) (l : list (nat * nat)) : bool :=
  match l with
  | [] => true
  | (n, st) :: r =>
    if n =? 1 then contig_rev expected r
    else if st =? expected then contig_rev (expected * n) r else false
  end.

(** Is [v.reshape((sbat,nblk,sblk)).transpose(0,1).unsqueeze(-1)] (lines
    163-165) already contiguous for a contiguous [v]?  If so [.contiguous()]
    (line 166) returns a tensor sharing the caller's storage. *)
Definition forward_view_contiguous (sbat nblk sblk : nat) : bool :=
  contig_rev 1 [(1, 1); (sblk, 1); (sbat, nblk * sblk); (nblk, sblk)].

Section Solvers.
Context {M V : Type} (ops : block_ops M V).

(** chunktime.py 174-192, [thomas_solve]: for i in 1 .. nblk-1, in place. *)
Definition thomas_step (A B : nat -> M) (v : nat -> V) (i : nat) : nat -> V :=
  upd v i (bsolve ops (A i) (bsub ops (v i) (bact ops (B (i - 1)) (v (i - 1))))).

Definition thomas_solve (nblk : nat) (A B : nat -> M) (v : nat -> V) : nat -> V :=
  fold_left (thomas_step A B) (seq 1 (nblk - 1))
            (upd v 0 (bsolve ops (A 0) (v 0))).

(** chunktime.py 205-212, [BidiagonalThomasFactorization.matvec]; returns the
    result and the (unchanged) self.B. *)
Definition thomas_matvec (nblk : nat) (A B : nat -> M) (v : nat -> V)
  : (nat -> V) * (nat -> M) :=
  (thomas_solve nblk A B v, B).

(** One pass of the loop in [_solve_block], lines 264-280.  State: view, padded
    B storage, v storage.  lu, pivots, B and v all have the same view. *)
Definition pcr_iter (A : nat -> M) (i : nat) (st : view * (nat -> M) * (nat -> V))
  : view * (nat -> M) * (nat -> V) :=
  let '(w, B, v) := st in
  let v1 :=
    vwrite (vdrop 1 w)
      (fun a b =>
         bsub ops (vread (vdrop 1 w) v a b)
           (bact ops (vread (vdrop 1 w) B a b)
              (bsolve ops (vread (vbut1 w) A a b) (vread (vbut1 w) v a b)))) v in
  let B1 :=
    vwrite (vdrop 2 w)
      (fun a b =>
         bopp ops
           (bmul ops (vread (vdrop 2 w) B a b)
              (bsolveM ops (vread (vbut1 (vdrop 1 w)) A a b)
                           (vread (vbut1 (vdrop 1 w)) B a b)))) B in
  (cyclic_shift w i, B1, v1).

(** chunktime.py 245-282, [_solve_block] on the slice [s:e]; the number of
    iterations is [bit_length(e-s) - 1]. The returned views are written back
    onto themselves by the caller (lines 235-238), a no-op. *)
Definition pcr_solve_block (A : nat -> M) (s e : nat) (Bv : (nat -> M) * (nat -> V))
  : (nat -> M) * (nat -> V) :=
  let '(B, v) := Bv in
  let niter := Nat.log2 (e - s) in
  let '(_, B', v') :=
    fold_left (fun st i => pcr_iter A i st) (seq 0 niter) (slice_view s e, B, v) in
  (B', v').

(** [pad(self.B, (0,0,0,0,0,0,1,0))], line 232: one zero block in front. *)
Definition pad_front (B : nat -> M) : nat -> M :=
  fun j => match j with O => bzero ops | S k => B k end.

Definition pcr_sweep (A : nat -> M) (l : list (nat * nat)) (Bv : (nat -> M) * (nat -> V)) :=
  fold_left (fun acc se => pcr_solve_block A (fst se) (snd se) acc) l Bv.

(** chunktime.py 224-243, [BidiagonalPCRFactorization.matvec].  Returns the
    solution and the value self.B is left with ([self.B[1:]] of the padded
    array). *)
Definition pcr_matvec (nblk : nat) (A B : nat -> M) (v : nat -> V)
  : option ((nat -> V) * (nat -> M)) :=
  match pow2 nblk with
  | None => None
  | Some (start, fin) =>
    let '(Bp, v') := pcr_sweep A (combine start fin) (pad_front B, v) in
    Some (slice_write 0 nblk (fun j => bsolve ops (A j) (v' j)) v',
          fun j => Bp (S j))
  end.

(** chunktime.py 350-388, [BidiagonalHybridFactorization.matvec]. *)
Definition hybrid_matvec (min_size nblk : nat) (A B : nat -> M) (v : nat -> V)
  : option ((nat -> V) * (nat -> M)) :=
  match pcr_blocks min_size nblk with
  | None => None
  | Some (start, fin, lst) =>
    let '(Bp, v') := pcr_sweep A (combine start fin) (pad_front B, v) in
    let B' := fun j => Bp (S j) in
    let v2 := slice_write 0 lst (fun j => bsolve ops (A j) (v' j)) v' in
    Some (fold_left (thomas_step A B') (seq lst (nblk - lst)) v2, B')
  end.

(** The factorization objects selectable in ode.py 331-342. *)
Inductive direct_method := Thomas | PCR | Hybrid (min_size : nat).

Definition matvec (m : direct_method) (nblk : nat) (A B : nat -> M) (v : nat -> V)
  : option ((nat -> V) * (nat -> M)) :=
  match m with
  | Thomas => Some (thomas_matvec nblk A B v)
  | PCR => pcr_matvec nblk A B v
  | Hybrid k => hybrid_matvec k nblk A B v
  end.

(** Applying one factorization object to a list of right-hand sides one after
    the other: self.A is never changed, self.B is threaded. *)
Fixpoint matvec_seq (m : direct_method) (nblk : nat) (A B : nat -> M)
         (vs : list (nat -> V)) : option (list (nat -> V)) :=
  match vs with
  | [] => Some []
  | v :: r =>
    match matvec m nblk A B v with
    | None => None
    | Some (x, B') =>
      match matvec_seq m nblk A B' r with
      | None => None
      | Some xs => Some (x :: xs)
      end
    end
  end.

(** What the storage handed to [matvec] as [v] holds afterwards: Thomas and
    hybrid return [v] itself, written in place (lines 186-192, 375, 382-388);
    PCR reduces [v] in place (lines 235-238, 266) and returns a new tensor
    (line 243). *)
Definition matvec_storage (m : direct_method) (nblk : nat) (A B : nat -> M) (v : nat -> V)
  : option (nat -> V) :=
  match m with
  | PCR =>
    match pow2 nblk with
    | None => None
    | Some (start, fin) => Some (snd (pcr_sweep A (combine start fin) (pad_front B, v)))
    end
  | _ => match matvec m nblk A B v with Some (x, _) => Some x | None => None end
  end.

(** chunktime.py 452-478, the block part of [BidiagonalForwardOperator.forward]:
    [b = A v; b[sbat:] += B v[:-sbat]]. *)
Definition forward_blocks (A B : nat -> M) (v : nat -> V) : nat -> V :=
  fun i => match i with
           | O => bact ops (A 0) (v 0)
           | S k => badd ops (bact ops (A (S k)) (v (S k))) (bact ops (B k) (v k))
           end.

End Solvers.
