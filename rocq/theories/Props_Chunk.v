(** Property theorems for the block-bidiagonal solvers (C02-C07, C76).
    C01, C04 (split), C08, C09 are in Props_Sched.v. *)
From Coq Require Import ZArith List.
From mathcomp Require Import all_ssreflect all_algebra.
From Verif Require Import ChunkModel ChunkSpec ChunkPow2 ChunkSolve ChunkInst BlockDiag BlockDiagProofs.
Import GRing.Theory.
Local Open Scope ring_scope.

(** C02, C03, C04: each factorization returns a solution of the block system
    (for every number of blocks, block size, batch size, field). *)
Theorem C02_thomas_solves (F : fieldType) nb m nblk (A B : tens4 F) v :
  (0 < nblk)%N -> nonsing_blocks nb m nblk A ->
  exists r, lu_forward nb m Thomas nblk A B v = Some r /\ bidiag_system nb m nblk A B v r.
Proof. exact (@lu_forward_correct F nb m nblk Thomas A B v). Qed.
Print Assumptions C02_thomas_solves.

Theorem C03_pcr_solves (F : fieldType) nb m nblk (A B : tens4 F) v :
  (0 < nblk)%N -> nonsing_blocks nb m nblk A ->
  exists r, lu_forward nb m PCR nblk A B v = Some r /\ bidiag_system nb m nblk A B v r.
Proof. exact (@lu_forward_correct F nb m nblk PCR A B v). Qed.
Print Assumptions C03_pcr_solves.

Theorem C04_hybrid_solves (F : fieldType) nb m nblk min_size (A B : tens4 F) v :
  (0 < nblk)%N -> nonsing_blocks nb m nblk A ->
  exists r, lu_forward nb m (Hybrid min_size) nblk A B v = Some r
         /\ bidiag_system nb m nblk A B v r.
Proof. exact (@lu_forward_correct F nb m nblk (Hybrid min_size) A B v). Qed.
Print Assumptions C04_hybrid_solves.

(** C02-C04: the solution is unique. *)
Theorem C02_unique (F : fieldType) nb m nblk (A B : tens4 F) v r r' :
  nonsing_blocks nb m nblk A ->
  bidiag_system nb m nblk A B v r -> bidiag_system nb m nblk A B v r' ->
  forall b idx, (b < nb)%N -> (idx < nblk * m)%N -> r b idx = r' b idx.
Proof. exact (@bidiag_system_unique F nb m nblk A B v r r'). Qed.
Print Assumptions C02_unique.

(** C05: all strategies (dense, thomas, pcr, hybrid) agree. *)
Theorem C05_strategies_agree (F : fieldType) lm lm' nb m nblk (A B : tens4 F) v :
  (0 < nblk)%N -> nonsing_blocks nb m nblk A ->
  exists r r', ctx_solve lm nb m nblk A B v = Some r /\ ctx_solve lm' nb m nblk A B v = Some r' /\
    forall b idx, (b < nb)%N -> (idx < nblk * m)%N -> r b idx = r' b idx.
Proof. exact (@ctx_solve_agree F lm lm' nb m nblk A B v). Qed.
Print Assumptions C05_strategies_agree.

Theorem C05_dense_solves (F : fieldType) lm nb m nblk (A B : tens4 F) v :
  (0 < nblk)%N -> nonsing_blocks nb m nblk A ->
  exists r, ctx_solve lm nb m nblk A B v = Some r /\ bidiag_system nb m nblk A B v r.
Proof. exact (@ctx_solve_correct F lm nb m nblk A B v). Qed.
Print Assumptions C05_dense_solves.

(** C06: a Thomas object can be applied to any list of right-hand sides ... *)
Theorem C06_thomas_reusable (F : fieldType) nb m nblk (A B : tens4 F) vs :
  (0 < nblk)%N -> nonsing_blocks nb m nblk A ->
  exists rs, lu_forward_seq Thomas nb m nblk A B vs = Some rs /\
    Forall2 (fun v r => bidiag_system nb m nblk A B v r) vs rs.
Proof. exact (@thomas_seq_correct F nb m nblk A B vs). Qed.
Print Assumptions C06_thomas_reusable.

(** ... but PCR and hybrid objects cannot: the second application of the same
    object on identity blocks with unit sub-diagonal is wrong. *)
Theorem C06_pcr_reuse_refuted :
  nonsing_blocks 1 1 4 one4 /\
  forall rs, lu_forward_seq PCR 1 1 4 one4 one4 [:: e0; e0] = Some rs ->
    ~ Forall2 (fun v r => bidiag_system 1 1 4 one4 one4 v r) [:: e0; e0] rs.
Proof. exact (conj (@one4_nonsing 1 1 4) (reuse_wrong (or_introl erefl))). Qed.
Print Assumptions C06_pcr_reuse_refuted.

Theorem C06_hybrid_reuse_refuted :
  nonsing_blocks 1 1 4 one4 /\
  forall rs, lu_forward_seq (Hybrid 0) 1 1 4 one4 one4 [:: e0; e0] = Some rs ->
    ~ Forall2 (fun v r => bidiag_system 1 1 4 one4 one4 v r) [:: e0; e0] rs.
Proof. exact (conj (@one4_nonsing 1 1 4) (reuse_wrong (or_intror erefl))). Qed.
Print Assumptions C06_hybrid_reuse_refuted.

(** C07: forward operator = dense matrix product, and inverse() undoes it. *)
Theorem C07_forward_is_dense (F : fieldType) nb m nblk (A B : tens4 F) D (v : tens2 F) b r :
  to_diag m nblk A B = Some D -> (0 < nblk)%N -> (b < nb)%N -> (r < nblk * m)%N ->
  op_forward nb m A B v b r = \sum_(c < nblk * m) to_dense 0 D b r c * v b c.
Proof. exact (@op_forward_dense F nb m nblk A B D v b r). Qed.
Print Assumptions C07_forward_is_dense.

Theorem C07_dense_entries (F : fieldType) m nblk (A B : tens4 F) : (0 < nblk)%N ->
  exists D, to_diag m nblk A B = Some D /\ bd_n D = (nblk * m)%N /\
  forall b k l i j, (k < nblk)%N -> (l < nblk)%N -> (i < m)%N -> (j < m)%N ->
   to_dense 0 D b (k * m + i)%N (l * m + j)%N =
     if l == k then A k b i j else if l.+1 == k then B l b i j else 0.
Proof. exact (@to_diag_ok F m nblk A B). Qed.
Print Assumptions C07_dense_entries.

Theorem C07_inverse_undoes_forward (F : fieldType) lm nb m nblk (A B : tens4 F) v :
  (0 < nblk)%N -> nonsing_blocks nb m nblk A ->
  exists r, ctx_solve lm nb m nblk A B (op_forward nb m A B v) = Some r /\
    forall b idx, (b < nb)%N -> (idx < nblk * m)%N -> r b idx = v b idx.
Proof. exact (@inverse_forward F lm nb m nblk A B v). Qed.
Print Assumptions C07_inverse_undoes_forward.

(** C76: [M(v)] keeps the caller's [v] when batch and block counts exceed one,
    and overwrites it otherwise. *)
Theorem C76_rhs_kept (F : fieldType) mth nb m nblk (A B : tens4 F) v :
  (0 < m)%N -> (1 < nblk)%N -> (1 < nb)%N -> caller_rhs_after mth nb m nblk A B v = Some v.
Proof. exact (@caller_rhs_kept F mth nb m nblk A B v). Qed.
Print Assumptions C76_rhs_kept.

Theorem C76_rhs_kept_refuted : exists w,
  caller_rhs_after Thomas 1 1 2 one4 one4 e0 = Some w /\ w 0%N 1%N <> e0 0%N 1%N.
Proof. exact rhs_lost. Qed.
Print Assumptions C76_rhs_kept_refuted.

(** The hypotheses of the solver theorems are met by a system with different,
    non-identity diagonal blocks. *)
Definition exA : tens4 [fieldType of rat] :=
  fun k b i j => if i == j then (k + b + 1)%:R else if (j < i)%N then (k + j)%:R else 0.
Example nonsing_ex : nonsing_blocks 3 2 13 exA.
Proof.
move=> k b _ _; rewrite unitmxE det_trig.
- rewrite !big_ord_recl big_ord0 !mxE /exA /= !mulr1 unitfE mulf_neq0 //;
  by rewrite addn1 Num.Theory.pnatr_eq0.
- apply/is_trig_mxP => i j ij. rewrite mxE /exA.
  by rewrite (ltn_eqF ij) ltnNge (ltnW ij).
Qed.
