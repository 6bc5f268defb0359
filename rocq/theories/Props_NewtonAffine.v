(** C16: on a batch of affine systems with non-singular matrices, Newton with an
    exact linear solve reaches residual zero after one update, for every field,
    size, batch and starting point.  chunktime.py 43-61 / solvers.py 109-125 with
    lu_linear_solve (128-137) modelled as multiplication by the inverse matrix. *)
From Coq Require Import Reals List.
From mathcomp Require Import all_ssreflect all_algebra.
From Verif Require Import NewtonModel NewtonProofs.
Import GRing.Theory.
Local Open Scope ring_scope.

Section Affine.
Variables (F : fieldType) (nb n : nat).
Definition bvec := {ffun 'I_nb -> 'cV[F]_n}.
Definition bmat := {ffun 'I_nb -> 'M[F]_n}.
Definition aff_fn (A : bmat) (c : bvec) (x : bvec) : bvec * bmat :=
  ([ffun i => A i *m x i - c i], A).
Definition lu_step (J : bmat) (r : bvec) : bvec := [ffun i => invmx (J i) *m r i].
Definition bsub (x d : bvec) : bvec := [ffun i => x i - d i].
Definition zero_res : bvec := [ffun=> 0].

Lemma aff_update (A : bmat) c x : (forall i, A i \in unitmx) ->
  fst (aff_fn A c (update (aff_fn A c) lu_step bsub x)) = zero_res.
Proof.
move=> hA; apply/ffunP => i; rewrite /update /= !ffunE /=.
by rewrite mulmxBr mulKVmx // subKr subrr.
Qed.
End Affine.

Theorem C16_affine_one_update (F : fieldType) nb n (A : bmat F nb n) c nrm rtol atol miter x0 :
  (forall i, A i \in unitmx) ->
  List.Forall (fun e => e = Num 0) (nrm (zero_res F nb n)) -> Rle 0 atol ->
  let fn := @aff_fn F nb n A c in
  let r := nr_solve fn nrm rtol atol (@lu_step F nb n) (@bsub F nb n) miter x0 in
  (res_iters r <= 1)%coq_nat /\
  ((0 < miter)%coq_nat -> finite_nonneg (norms fn nrm x0) ->
     ~ converged rtol atol (norms fn nrm x0) (norms fn nrm x0) ->
      res_iters r = 1%N /\ forall i, A i *m res_x r i = c i).
Proof.
move=> hA hn ha fn r.
case: (@affine_one_step _ _ _ fn nrm rtol atol (@lu_step F nb n) (@bsub F nb n) (zero_res F nb n) miter x0 (fun x => aff_update F nb n A c x hA) hn ha) => h1 h2.
split=> // hm hf hk; case: (h2 hm ((keep_going_iff rtol atol _ _ erefl hf hf).2 hk)) => h3 h4; split=> // i.
move/ffunP/(_ i): h4; rewrite !ffunE => /eqP; rewrite subr_eq0 => /eqP; exact.
Qed.
Print Assumptions C16_affine_one_update.

Example C16_ex (F : fieldType) : (forall i, ([ffun=> 1%:M] : bmat F 2 3) i \in unitmx).
Proof. by move=> i; rewrite ffunE unitmx1. Qed.
