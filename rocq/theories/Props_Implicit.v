(** Property theorems: the gradient returned by the adjoint pass is the gradient
    of the backward Euler solution map, which exists and is differentiable
    (C25, without assuming a differentiable family of histories). *)
From Coq Require Import Reals List String Lra Lia.
From mathcomp Require Import all_ssreflect all_algebra.
From Verif Require Import ChunkModel ChunkSolve ChunkInst NewtonModel Ode OdeForward OdeAdjoint OdeReal OdeDiff ZmodTac RField Gmres Implicit.
Import GRing.Theory.
Set Implicit Arguments. Unset Strict Implicit. Unset Printing Implicit Defensive.
Local Open Scope ring_scope.
Delimit Scope R_scope with Re.

(** C25: let [y] be an exact backward Euler history for the parameters [p th],
    along which the rate is continuously differentiable with the supplied
    Jacobians and the step matrices are invertible.  Then for parameters [p u]
    and initial conditions [y0 u] near the given ones there is exactly one exact
    history [Y u] near [y], and the adjoint pass run on [y] returns the
    derivative of the loss of [Y]. *)
Theorem C25_gradient_of_solution_map nb m np fp Jp Pp nt t mth n
    (p : R -> 'cV[RF]_np) (y : nat -> VB RF nb m) q (y0 : R -> VB RF nb m) (z0 : VB RF nb m) th og :
  (0 < n)%N -> (0 < nt)%N ->
  scheme_solution fp BackwardEuler nt t (p th) y -> y0 th = y 0%N ->
  cdiff p th q -> (forall b, cdiff (fun u => y0 u b) th (z0 b)) ->
  (forall k b, (k < nt)%N -> c1_near (fp b (t k b)) (Jp b (t k b)) (Pp b (t k b)) (y k b) (p th)) ->
  steps_regular Jp BackwardEuler nt t (p th) y ->
  exists (Y : R -> nat -> VB RF nb m) r d grad lam,
    [/\ (0 < r)%Re, (0 < d)%Re & Y th = y] /\
    (forall u, (Rabs (u - th) < d)%Re ->
      [/\ Y u 0%N = y0 u, scheme_solution fp BackwardEuler nt t (p u) (Y u) &
        forall X, X 0%N = y0 u -> scheme_solution fp BackwardEuler nt t (p u) X ->
          (forall k b, (k < nt)%N -> (dst (X k b) (y k b) <= r)%Re) -> forall k, (k < nt)%N -> X k = Y u k]) /\
    rewind (at_p Jp (p th)) (at_p Pp (p th)) mth BackwardEuler n nt t y og = Some (grad, lam) /\
    derivable_pt_lim (fun u => loss nt og (Y u)) th
      ((\sum_(i < np) grad i 0 * q i 0) + (\sum_b \sum_(c < m) lam b c 0 * z0 b c 0)).
Proof.
move=> n0 nt0 sol e0 Dp D0 c1 reg.
have sd k b : (0 < k)%N -> (k < nt)%N -> sdiff (fp b (t k b)) (Jp b (t k b) (y k b) (p th)) (Pp b (t k b) (y k b) (p th)) (y k b) (p th).
{ move=> _ kn; exact: c1_sdiff (c1 k b kn). }
have [Y [z [r [[r0 Yth z00 Dz] [d [d0 H]]]]]] := solution_map nt0 sol e0 Dp D0 sd reg.
have par : partials_along fp Jp Pp nt t (p th) (Y th).
{ move=> k b kn; rewrite Yth; exact: sdiff_partials (c1_sdiff (c1 k b kn)). }
have reg' : steps_regular Jp BackwardEuler nt t (p th) (Y th) by rewrite Yth.
have sol' : exists d, Rlt 0 d /\ forall u, Rlt (Rabs (u - th)) d -> scheme_solution fp BackwardEuler nt t (p u) (Y u).
{ exists d; split=> // u ud; by have [] := H u ud. }
have [grad [lam [E D]]] := adjoint_derivative mth og n0 nt0 sol' Dz Dp par reg'.
exists Y, r, d, grad, lam; split; first by []. split; first exact: H.
rewrite Yth in E; rewrite z00 in D; by split.
Qed.
Print Assumptions C25_gradient_of_solution_map.

(** The hypotheses hold for the nonlinear rate y' = - p y^2 at any point ... *)
Definition ex_f (_ : 'I_1) (_ : RF) (y p : 'cV[RF]_1) : 'cV[RF]_1 := (Ropp (p ord0 ord0 * (y ord0 ord0 * y ord0 ord0))%Re : RF)%:M.
Definition ex_J (_ : 'I_1) (_ : RF) (y p : 'cV[RF]_1) : 'M[RF]_1 := (Ropp (p ord0 ord0 * (2 * y ord0 ord0))%Re : RF)%:M.
Definition ex_P (_ : 'I_1) (_ : RF) (y p : 'cV[RF]_1) : 'M[RF]_1 := (Ropp (y ord0 ord0 * y ord0 ord0)%Re : RF)%:M.
Lemma prod_close a b a0 b0 d : (0 <= d <= 1)%Re -> (Rabs (a - a0) <= d)%Re -> (Rabs (b - b0) <= d)%Re ->
  (Rabs (a * b - a0 * b0) <= d * (Rabs a0 + Rabs b0 + 1))%Re.
Proof.
move=> hd ha hb; have -> : (a * b - a0 * b0 = (a - a0) * (b - b0) + ((a - a0) * b0 + a0 * (b - b0)))%Re by ring.
apply: Rle_trans (Rabs_triang _ _) _; have T := Rabs_triang ((a - a0) * b0)%Re (a0 * (b - b0))%Re.
rewrite !Rabs_mult in T *; have pa := Rabs_pos a0; have pb := Rabs_pos b0.
have q1 := Rmult_le_compat_r _ _ _ pb ha; have q2 := Rmult_le_compat_l _ _ _ pa hb.
have q3 := Rmult_le_compat _ _ _ _ (Rabs_pos _) (Rabs_pos _) ha hb.
have q4 : (d * d <= d * 1)%Re by apply: Rmult_le_compat_l; lra.
lra.
Qed.
Lemma ex_c1 b t y0 p0 : c1_near (ex_f b t) (ex_J b t) (ex_P b t) y0 p0.
Proof.
split.
- exists 1%Re; split; first lra. move=> y p _ _ Y Q th y' p' <- <- Dy Dp i.
  have Dyi := Dy ord0; have Dpi := Dp ord0.
  have D := derivable_pt_lim_opp _ _ _ (derivable_pt_lim_mult _ _ _ _ _ Dpi (derivable_pt_lim_mult _ _ _ _ _ Dyi Dyi)).
  rewrite (ord1 i); apply: (@dpl_ext _ _ _ _ _ (_ : derivable_pt_lim (fun u => Ropp (Q u ord0 ord0 * (Y u ord0 ord0 * Y u ord0 ord0))%Re) th _)) => [u|].
  { by rewrite /ex_f mxE. }
  move: D; rewrite /opp_fct /mult_fct; set l := Ropp _; set l2 := (X in _ -> derivable_pt_lim _ _ X).
  have -> : l = l2; last by [].
  rewrite /l /l2 /ex_J /ex_P !mul_scalar_mx !mxE.
  have ringR (a v c e : R) : (- (c * (v * v) + a * (e * v + v * e)) = - (a * (2 * v)) * e + - (v * v) * c)%Re by ring.
  exact: ringR.
- move=> e e0; pose M := (2 * (Rabs (y0 ord0 ord0) + Rabs (p0 ord0 ord0) + 1 + (Rabs (y0 ord0 ord0) + Rabs (y0 ord0 ord0) + 1)))%Re.
  have py := Rabs_pos (y0 ord0 ord0); have pp := Rabs_pos (p0 ord0 ord0).
  have M0 : (0 < M)%Re by rewrite /M; lra.
  pose d := Rmin 1 (e / M)%Re.
  have d0 : (0 < d)%Re by apply: Rmin_glb_lt; [lra|exact: Rdiv_lt_0_compat].
  have d1 : (0 <= d <= 1)%Re by split; [lra|exact: Rmin_l].
  have d2 : (d * M <= e)%Re.
  { have : (d * M <= e / M * M)%Re by apply: Rmult_le_compat_r; [lra|exact: Rmin_r].
    have -> : (e / M * M = e)%Re by field; lra. by []. }
  exists d; split=> // y p hy hp.
  have cy : (Rabs (y ord0 ord0 - y0 ord0 ord0) <= d)%Re.
  { have := comp_norm (y - y0) ord0; rewrite !mxE => k; exact: Rle_trans k hy. }
  have cp : (Rabs (p ord0 ord0 - p0 ord0 ord0) <= d)%Re.
  { have := comp_norm (p - p0) ord0; rewrite !mxE => k; exact: Rle_trans k hp. }
  have w1 := prod_close d1 cy cp; have w2 := prod_close d1 cy cy.
  have w3 : (0 <= d * (Rabs (y0 ord0 ord0) + Rabs (y0 ord0 ord0) + 1))%Re by apply: Rmult_le_pos; lra.
  have w4 : (0 <= d * (Rabs (y0 ord0 ord0) + Rabs (p0 ord0 ord0) + 1))%Re by apply: Rmult_le_pos; lra.
  split=> i j; rewrite (ord1 i) (ord1 j) /ex_J /ex_P !mxE /=.
  + have -> : (- (p ord0 ord0 * (2 * y ord0 ord0)) - - (p0 ord0 ord0 * (2 * y0 ord0 ord0)) = 2 * - (y ord0 ord0 * p ord0 ord0 - y0 ord0 ord0 * p0 ord0 ord0))%Re by ring.
    rewrite Rabs_mult Rabs_Ropp (Rabs_pos_eq 2); last lra. apply: Rle_trans d2; rewrite /M; lra.
  + have -> : (- (y ord0 ord0 * y ord0 ord0) - - (y0 ord0 ord0 * y0 ord0 ord0) = - (y ord0 ord0 * y ord0 ord0 - y0 ord0 ord0 * y0 ord0 ord0))%Re by ring.
    rewrite Rabs_Ropp; apply: Rle_trans d2; rewrite /M; lra.
Qed.
(** ... and the history 2, 1 (one step of size 1, p = 1) is an exact solution with
    an invertible step matrix (1 + 2 = 3): the derivative of the last value with
    respect to p exists and is what the adjoint pass returns. *)
Definition ex_times : nat -> TB RF 1 := fun k => [ffun=> INR k : RF].
Definition ex_y : nat -> VB RF 1 1 := fun k => [ffun=> (if k == 0%N then 2 else 1)%Re%:M].
Example C25_nonlinear_ex og : exists (Y : R -> nat -> VB RF 1 1) grad lam,
  Y 1%Re = ex_y /\ rewind (at_p ex_J (1%Re : RF)%:M) (at_p ex_P (1%Re : RF)%:M) PCR BackwardEuler 1 2 ex_times ex_y og = Some (grad, lam) /\
  (exists d, (0 < d)%Re /\ forall u, (Rabs (u - 1) < d)%Re -> scheme_solution ex_f BackwardEuler 2 ex_times (u : RF)%:M (Y u)) /\
  derivable_pt_lim (fun u => loss 2 og (Y u)) 1 (grad ord0 ord0).
Proof.
have Ds : cdiff (fun u : R => ((u : RF)%:M : 'cV[RF]_1)) 1%Re (1%Re : RF)%:M.
{ move=> i; rewrite (ord1 i) mxE; apply: (@dpl_ext id) => [u|]; [by rewrite mxE|exact: derivable_pt_lim_id]. }
have D0 b : cdiff (fun _ : R => ex_y 0%N b) 1%Re (([ffun=> 0] : VB RF 1 1) b) by rewrite [X in cdiff _ _ X]ffunE; exact: cdiff_cst.
have sol : scheme_solution ex_f BackwardEuler 2 ex_times (1%Re : RF)%:M ex_y.
{ move=> [//|[|//]] b _ _; rewrite /step_res /at_p /ex_f /ex_y !ffunE /=; apply/matrixP => i j; rewrite (ord1 i) (ord1 j) !mxE /=.
  have ringR : (1 - 2 - (1 - 0) * (- (1 * (1 * 1))) = 0)%Re by ring. exact: ringR. }
have reg : steps_regular ex_J BackwardEuler 2 ex_times (1%Re : RF)%:M ex_y.
{ move=> _ [//|[|//]] b _ _; rewrite /ex_J /ex_y !ffunE /= !mxE /= scale_scalar_mx -raddfB unitmxE det_scalar1 unitfE; apply/eqP.
  have ne : (1 - (1 - 0) * (- (1 * (2 * 1))) <> 0)%Re by lra. exact: ne. }
have [Y [r [d [grad [lam [[_ d0 Yth] [H [E D]]]]]]]] := C25_gradient_of_solution_map PCR og (ltn0Sn 0) (ltn0Sn 1) sol erefl Ds D0 (fun k b _ => ex_c1 _ _ _ _) reg.
exists Y, grad, lam; split=> //; split=> //; split.
- exists d; split=> // u ud; by have [] := H u ud.
- move: D; rewrite !big_ord1 !ffunE !mxE eqxx mulr0 addr0 -[1%Re]/(1 : RF) mulr1; exact.
Qed.
