(** The adjoint derivative of a loss of a simulated history, for any family of systems whose step equations determine the history. *)
From Coq Require Import Reals List String Lra Lia FunctionalExtensionality.
From mathcomp Require Import all_ssreflect all_algebra.
From Verif Require Import ChunkModel ChunkSolve ChunkInst NewtonModel Ode OdeForward OdeAdjoint OdeReal OdeBlock OdeDiff RField Gmres Implicit Pipeline SmoothMx VCGrad.
From Verif Require Import Props_Gradient.
Import GRing.Theory.
Set Implicit Arguments. Unset Strict Implicit. Unset Printing Implicit Defensive.
Local Open Scope ring_scope.
Delimit Scope R_scope with Re.

Section Generic.
Variables (nb m np nt : nat) (rate : 'I_nb -> RF -> 'cV[RF]_m -> 'cV[RF]_np -> 'cV[RF]_m) (jac : 'I_nb -> RF -> 'cV[RF]_m -> 'cV[RF]_np -> 'M[RF]_m).
Variables (dp : 'I_nb -> RF -> 'cV[RF]_m -> 'cV[RF]_np -> 'M[RF]_(m, np)) (t : nat -> TB RF nb) (y0 : VB RF nb m).
Lemma gradient_history mth n (p : R -> 'cV[RF]_np) q th dl (Y : R -> nat -> VB RF nb m) :
  (0 < n)%N -> (0 < nt)%N -> (0 < dl)%Re -> cdiff p th q ->
  (forall k b, (k < nt)%N -> c1_near (rate b (t k b)) (jac b (t k b)) (dp b (t k b)) (Y th k b) (p th)) ->
  (forall u, (Rabs (u - th) < dl)%Re -> Y u 0%N = y0 /\ scheme_solution rate BackwardEuler nt t (p u) (Y u)) ->
  (forall u, (Rabs (u - th) < dl)%Re -> forall Y', Y' 0%N = y0 -> scheme_solution rate BackwardEuler nt t (p u) Y' -> forall k, (k < nt)%N -> Y' k = Y u k) ->
  steps_regular jac BackwardEuler nt t (p th) (Y th) ->
  forall L og, loss_gradient nt L (Y th) og ->
  exists grad lam, rewind (at_p jac (p th)) (at_p dp (p th)) mth BackwardEuler n nt t (Y th) og = Some (grad, lam) /\
    derivable_pt_lim (fun u => L (Y u)) th (\sum_(i < np) grad i 0 * q i 0).
Proof.
move=> n0 nt0 dl0 Dp c1 HY uniq reg L og HL.
have th0 : (Rabs (th - th) < dl)%Re by rewrite (_ : (th - th = 0)%Re) ?Rabs_R0 //; ring.
have sol u : (Rabs (u - th) < dl)%Re -> scheme_solution rate BackwardEuler nt t (p u) (Y u) by move=> ud; have [_ H] := HY u ud; exact: H.
have sd k b : (0 < k)%N -> (k < nt)%N -> sdiff (rate b (t k b)) (jac b (t k b) (Y th k b) (p th)) (dp b (t k b) (Y th k b) (p th)) (Y th k b) (p th).
{ move=> _ kn; exact: c1_sdiff (c1 k b kn). }
have Z0 : y0 = Y th 0%N by have [-> _] := HY th th0.
have D0 b : cdiff (fun _ : R => y0 b) th (@zeroV RF nb m b) by rewrite /zeroV ffunE; exact: cdiff_cst.
have [Y' [z [r [[r0 Yth z00 Dz] [d1 [d10 H]]]]]] := solution_map nt0 (sol th th0) Z0 Dp D0 sd reg.
have same u : (Rabs (u - th) < Rmin dl d1)%Re -> forall k, (k < nt)%N -> Y' u k = Y u k.
{ move=> ud; have ul := Rlt_le_trans _ _ _ ud (Rmin_l _ _); have ur := Rlt_le_trans _ _ _ ud (Rmin_r _ _).
  have [Y00 S' _] := H u ur; exact: (uniq u ul (Y' u) Y00 S'). }
have m0 : (0 < Rmin dl d1)%Re by exact: Rmin_glb_lt.
have Dz' k b : (k < nt)%N -> cdiff (fun u => Y u k b) th (z k b).
{ move=> kn i; apply: dpl_ext_loc (Dz k b kn i); exists (Rmin dl d1); split=> // u ud; by rewrite (same u ud k kn). }
have par : partials_along rate jac dp nt t (p th) (Y th).
{ move=> k b kn; exact: sdiff_partials (c1_sdiff (c1 k b kn)). }
have sol' : exists d, Rlt 0 d /\ forall u, Rlt (Rabs (u - th)) d -> scheme_solution rate BackwardEuler nt t (p u) (Y u) by exists dl.
have [grad [lam [Eq D]]] := adjoint_derivative mth og n0 nt0 sol' Dz' Dp par reg.
exists grad, lam; split; first exact: Eq.
have A := HL Y th z erefl Dz'; have B := weighted_sum og (erefl (Y th)) Dz'.
move: A; rewrite (uniqueness_limite _ _ _ _ B D) z00.
have -> : \sum_b \sum_(c < m) lam b c 0 * @zeroV RF nb m b c 0 = 0.
{ rewrite big1 // => b _; rewrite big1 // => c _; by rewrite ffunE mxE mulr0. }
by rewrite addr0.
Qed.
End Generic.
