(** C141: calibration by gradients with the perfectly viscoplastic model. *)
From Coq Require Import Reals List String Lra Lia FunctionalExtensionality.
From mathcomp Require Import all_ssreflect all_algebra.
From Verif Require Import ChunkModel ChunkSolve ChunkInst NewtonModel Ode OdeForward OdeAdjoint OdeReal OdeBlock OdeDiff RField Gmres Implicit Pipeline SmoothMx VCGrad VCExact PVGrad GradHist.
From Verif Require Interp Models Flow Hardening Deriv Slices Props_Stress Props_Gradient.
Import GRing.Theory.
Set Implicit Arguments. Unset Strict Implicit. Unset Printing Implicit Defensive.
Local Open Scope ring_scope.
Delimit Scope R_scope with Re.
Import Props_Stress Props_Gradient.

(** Every strain-controlled perfectly viscoplastic simulation has exactly one exact history. *)
Theorem C141_exactly_one_history (E pn eta : R -> R) nb nt (times strains temps : nat -> nat -> R) :
  times_increase nb nt times ->
  (forall k b, (k < nt)%N -> (b < nb)%N -> (0 <= E (temps k b) /\ 1 <= pn (temps k b) /\ 0 < eta (temps k b))%Re) ->
  exists y : nat -> VB RF nb 1, exact_history (B := Models.inelastic E (Flow.perfect pn eta)) nt times strains temps y /\
    forall y', exact_history (B := Models.inelastic E (Flow.perfect pn eta)) nt times strains temps y' -> forall k, (k < nt)%N -> y' k = y k.
Proof.
move=> Gr P.
have [y H] := @pv_history_exists 0 (fun _ => E) (fun _ => pn) (fun _ => eta) nb nt times strains temps Gr 0 P.
exists y; split; first exact: H.
move=> y' H' k kn; apply: (@pv_unique 0 (fun _ => E) (fun _ => pn) (fun _ => eta) nb nt times strains temps Gr 0 y' y _ H' H k kn).
move=> j b jn bn; have [P1 [P2 P3]] := P j b jn bn; split; first exact: P1. split; last exact: P3. by apply: Rlt_le_trans P2; exact: Rlt_0_1.
Qed.
Print Assumptions C141_exactly_one_history.

Section Cal.
Variables (np : nat) (E pn eta : 'cV[RF]_np -> R -> R) (nb nt : nat) (times strains temps : nat -> nat -> R).
Let rate := pv_rate E pn eta (nb := nb) nt times strains temps.
Let jac := pv_jac E pn eta (nb := nb) nt times strains temps.
Variable dp : 'I_nb -> RF -> 'cV[RF]_1 -> 'cV[RF]_np -> 'M[RF]_(1, np).
Hypothesis autograd : parameter_derivatives rate dp.
Hypothesis Gr : times_increase nb nt times.
Hypothesis nt2 : (1 < nt)%N.
Lemma perfect_core mth n (p : R -> 'cV[RF]_np) q th dl (Y : R -> nat -> VB RF nb 1) :
  (0 < n)%N -> (0 < dl)%Re ->
  (forall u k b, (Rabs (u - th) < dl)%Re -> (k < nt)%N -> (b < nb)%N -> (0 <= E (p u) (temps k b) /\ 1 < pn (p u) (temps k b) /\ 0 < eta (p u) (temps k b))%Re) ->
  (forall k b, (k < nt)%N -> (b < nb)%N -> pv_smooth E pn eta (p th) (temps k b)) ->
  cdiff p th q ->
  (forall u, (Rabs (u - th) < dl)%Re -> exact_history (B := pv_family E pn eta (p u)) nt times strains temps (Y u)) ->
  forall L og, loss_gradient nt L (Y th) og ->
  exists grad lam, rewind (at_p jac (p th)) (at_p dp (p th)) mth BackwardEuler n nt (time_table nb times) (Y th) og = Some (grad, lam) /\
    derivable_pt_lim (fun u => L (Y u)) th (\sum_(i < np) grad i 0 * q i 0).
Proof.
move=> n0 dl0 Gd Sm Dp HY.
have IT k (b : 'I_nb) : (k < nt)%N -> interp_at nt times temps b (time_table nb times k b) = temps k b by move=> kn; rewrite ffunE (interp_knot temps nt2 (ltn_ord b) Gr kn).
apply: (@gradient_history nb 1 np nt rate jac dp (time_table nb times) (@zeroV RF nb 1) mth n p q th dl Y n0 (ltnW nt2) dl0 Dp) => [k b kn|u ud|u ud Y' Y0 HS k kn|].
- have S1 : pv_smooth E pn eta (p th) (interp_at nt times temps b (time_table nb times k b)) by rewrite (IT k b kn); exact: (Sm k b kn (ltn_ord b)).
  apply: c1_of_rows => [i||].
  + exact: pv_rows_smooth S1.
  + exact: pv_jac_near S1.
  + exact: autograd.
- have [Z H] := HY u ud; split; first exact: Z. exact: H.
- apply: (@pv_unique _ E pn eta nb nt times strains temps Gr (p u) Y' (Y u) _ _ (HY u ud) k kn).
  + move=> j b jn bn; have [P1 [P2 P3]] := Gd u j b ud jn bn; split; first exact: P1. split; last exact: P3. by apply: Rlt_trans P2; exact: Rlt_0_1.
  + split; first exact: Y0. exact: HS.
- move=> _ k b k0 kn; have [_ _ _ [E0 [n1 e0]]] := Sm k b kn (ltn_ord b).
  apply: pv_step_regular => //; apply: Rlt_le; apply: Rlt_trans n1; exact: Rlt_0_1.
Qed.
End Cal.

(** Gradients.  Modulus, rate sensitivity and reference stress are functions of a calibrated vector and of the temperature, continuously differentiable in the vector;
    [p u] is a line of vectors through [p th] with direction [q], [Y u] the exact simulation with the parameters [p u].  For every loss [L] of the simulated history with
    gradient [og], the adjoint pass on the simulation at [th] succeeds and returns the derivative of the loss along the line, for every linear solver and block size. *)
Theorem C141_gradient_of_exact_simulations np (E pn eta : 'cV[RF]_np -> R -> R) nb nt (times strains temps : nat -> nat -> R)
    (dp : 'I_nb -> RF -> 'cV[RF]_1 -> 'cV[RF]_np -> 'M[RF]_(1, np)) mth n (p : R -> 'cV[RF]_np) q th dl (Y : R -> nat -> VB RF nb 1) :
  parameter_derivatives (pv_rate E pn eta (nb := nb) nt times strains temps) dp ->
  times_increase nb nt times -> (1 < nt)%N -> (0 < n)%N -> (0 < dl)%Re ->
  (forall u k b, (Rabs (u - th) < dl)%Re -> (k < nt)%N -> (b < nb)%N -> (0 <= E (p u) (temps k b) /\ 1 < pn (p u) (temps k b) /\ 0 < eta (p u) (temps k b))%Re) ->
  (forall k b, (k < nt)%N -> (b < nb)%N -> pv_smooth E pn eta (p th) (temps k b)) ->
  cdiff p th q ->
  (forall u, (Rabs (u - th) < dl)%Re -> exact_history (B := Models.inelastic (E (p u)) (Flow.perfect (pn (p u)) (eta (p u)))) nt times strains temps (Y u)) ->
  forall L og, loss_gradient nt L (Y th) og ->
  exists grad lam,
    rewind (at_p (pv_jac E pn eta (nb := nb) nt times strains temps) (p th)) (at_p dp (p th)) mth BackwardEuler n nt (time_table nb times) (Y th) og = Some (grad, lam) /\
    derivable_pt_lim (fun u => L (Y u)) th (\sum_(i < np) grad i 0 * q i 0).
Proof. move=> A Gr nt2 n0 dl0 Gd Sm Dp HY L og HL; exact: (perfect_core A Gr nt2 mth n0 dl0 Gd Sm Dp HY HL). Qed.
Print Assumptions C141_gradient_of_exact_simulations.

(** The same for what solve_strain returns when it reports no failure at zero tolerance, each simulation with its own linear solver, guess and block size. *)
Theorem C141_gradient_of_runs np (E pn eta : 'cV[RF]_np -> R -> R) nb nt (times strains temps : nat -> nat -> R)
    (dp : 'I_nb -> RF -> 'cV[RF]_1 -> 'cV[RF]_np -> 'M[RF]_(1, np)) mth n (p : R -> 'cV[RF]_np) q th dl lm miter throw gt n' init (st : R -> istate RF nb 1) :
  parameter_derivatives (pv_rate E pn eta (nb := nb) nt times strains temps) dp ->
  times_increase nb nt times -> (1 < nt)%N -> (0 < n)%N -> (0 < dl)%Re ->
  (forall u k b, (Rabs (u - th) < dl)%Re -> (k < nt)%N -> (b < nb)%N -> (0 <= E (p u) (temps k b) /\ 1 < pn (p u) (temps k b) /\ 0 < eta (p u) (temps k b))%Re) ->
  (forall k b, (k < nt)%N -> (b < nb)%N -> pv_smooth E pn eta (p th) (temps k b)) ->
  cdiff p th q ->
  (forall u, (Rabs (u - th) < dl)%Re ->
     solve_strain (B := Models.inelastic (E (p u)) (Flow.perfect (pn (p u)) (eta (p u)))) nt times strains temps BackwardEuler (lm u) R0 R0 (miter u) (throw u) (gt u) (n' u) (init u) = inl (st u) /\
     i_warned (st u) = [::]) ->
  forall L og, loss_gradient nt L (i_result (st th)) og ->
  exists grad lam,
    rewind (at_p (pv_jac E pn eta (nb := nb) nt times strains temps) (p th)) (at_p dp (p th)) mth BackwardEuler n nt (time_table nb times) (i_result (st th)) og = Some (grad, lam) /\
    derivable_pt_lim (fun u => L (i_result (st u))) th (\sum_(i < np) grad i 0 * q i 0).
Proof.
move=> A Gr nt2 n0 dl0 Gd Sm Dp HY L og HL; apply: (perfect_core A Gr nt2 mth n0 dl0 Gd Sm Dp (Y := fun u => i_result (st u)) _ HL) => u ud.
have [So Wa] := HY u ud; have [Z H] := solve_strain_exact Gr So Wa.
apply/(history_steps (B := pv_family E pn eta (p u)) strains temps _ Gr); split.
- apply/ffunP => b; apply/colP => i; rewrite ffunE [RHS]mxE -(tvE (i_result (st u) 0%N b) i); exact: (Z b i (ltn_ord i)).
- move=> k b i k0 kn im; exact: (H k b i k0 kn im).
Qed.
Print Assumptions C141_gradient_of_runs.

(** Example: the three material constants are the calibrated vector, moved together through the value 2, any strain histories, two tests, any weights. *)
Definition pv_line (u : R) : 'cV[RF]_3 := \col_i (u : RF).
Definition pv_par (i : 'I_3) (p : 'cV[RF]_3) (_ : R) : R := p i 0.
Example C141_ex (strains : nat -> nat -> R) og : exists (Y : R -> nat -> VB RF 2 1) dp grad lam,
  (forall u, (Rabs (u - 2) < 1)%Re -> exact_history (B := Models.inelastic (fun _ => u) (Flow.perfect (fun _ => u) (fun _ => u))) 4 ex_t strains ex_temp (Y u)) /\
  rewind (at_p (pv_jac (pv_par (inord 0)) (pv_par (inord 1)) (pv_par (inord 2)) (nb := 2) 4 ex_t strains ex_temp) (pv_line 2%Re)) (at_p dp (pv_line 2%Re)) PCR BackwardEuler 2 4 (time_table 2 ex_t) (Y 2%Re) og = Some (grad, lam) /\
  derivable_pt_lim (fun u => loss 4 og (Y u)) 2%Re (\sum_(i < 3) grad i 0).
Proof.
have Gr : times_increase 2 4 ex_t by move=> b _ i j ij _; apply: lt_INR.
have val u i : pv_line u i 0 = u by rewrite mxE.
have par i u : pv_par i (pv_line u) = (fun _ => u) by apply: functional_extensionality => T; rewrite /pv_par val.
have bound u : (Rabs (u - 2) < 1 -> 1 < u < 3)%Re by move=> /Rabs_def2; lra.
have HY u : exists Y : nat -> VB RF 2 1, (Rabs (u - 2) < 1)%Re -> exact_history (B := Models.inelastic (fun _ => u) (Flow.perfect (fun _ => u) (fun _ => u))) 4 ex_t strains ex_temp Y.
{ case: (Rlt_dec (Rabs (u - 2)) 1) => ud; last by exists (fun _ => @zeroV RF 2 1).
  have [|Y [H _]] := @C141_exactly_one_history (fun _ => u) (fun _ => u) (fun _ => u) 2 4 ex_t strains ex_temp Gr; last by exists Y.
  move=> k b _ _; have := bound u ud; lra. }
pose Y u := sval (ClassicalEpsilon.constructive_indefinite_description _ (HY u)).
have HYu u : (Rabs (u - 2) < 1)%Re -> exact_history (B := Models.inelastic (fun _ => u) (Flow.perfect (fun _ => u) (fun _ => u))) 4 ex_t strains ex_temp (Y u) := svalP (ClassicalEpsilon.constructive_indefinite_description _ (HY u)).
have [dp Hdp] := parameter_derivatives_exist (pv_rate (nb := 2) (pv_par (inord 0)) (pv_par (inord 1)) (pv_par (inord 2)) 4 ex_t strains ex_temp).
have Dp : cdiff pv_line 2%Re (pv_line 1%Re).
{ move=> i; rewrite mxE; apply: (@dpl_ext id) => [u|]; [by rewrite mxE|exact: derivable_pt_lim_id]. }
have Sm k b : (k < 4)%N -> (b < 2)%N -> pv_smooth (pv_par (inord 0)) (pv_par (inord 1)) (pv_par (inord 2)) (pv_line 2%Re) (ex_temp k b).
{ move=> _ _; split; try exact: c1_coord. rewrite !par; lra. }
have [||grad [lam [Eq D]]] := @C141_gradient_of_exact_simulations _ _ _ _ _ _ _ _ _ dp PCR 2 pv_line _ 2%Re 1%Re Y Hdp Gr (ltn0Sn 2 : (1 < 4)%N) (ltn0Sn 1) Rlt_0_1 _ Sm Dp _ _ _ (weighted_sum og (y := Y 2%Re)).
- move=> u k b ud _ _; rewrite !par; have := bound u ud; lra.
- move=> u ud; rewrite !par; exact: HYu.
exists Y, dp, grad, lam; split; first exact: HYu. split; first exact: Eq.
move: D; rewrite (eq_bigr (fun i => grad i 0)) // => i _; by rewrite mxE -[1%Re]/(1 : RF) mulr1.
Qed.
