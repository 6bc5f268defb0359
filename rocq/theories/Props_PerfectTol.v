(** C143: perfectly viscoplastic simulations that converged only to the solver's tolerances: their distance to the exact ones, their gradients, and training with them. *)
From Coq Require Import Reals List String Lra Lia FunctionalExtensionality.
From mathcomp Require Import all_ssreflect all_algebra.
From Verif Require Import ChunkModel ChunkSolve ChunkInst NewtonModel Ode OdeForward OdeAdjoint OdeReal OdeBlock OdeDiff RField Gmres Implicit Tolerance Converge Pipeline SmoothMx VCGrad PVGrad GradHist NewtonConv.
From Verif Require Interp Models Flow Hardening Deriv Slices PipelineR PVSmooth Props_FullModel VCExact Props_Stress Props_Tolerance Props_Converge Props_Gradient Props_GradTol Props_Descent Props_PerfectGrad Props_Training Props_Global.
Import GRing.Theory.
Set Implicit Arguments. Unset Strict Implicit. Unset Printing Implicit Defensive.
Local Open Scope ring_scope.
Delimit Scope R_scope with Re.
Import Props_FullModel VCExact Props_Stress Props_Tolerance Props_Converge Props_Gradient Props_GradTol Props_Descent Props_PerfectGrad Props_Training Props_Global.

(** One step: the flow opposes differences of stress, so the residual of the step and the error of the previous stress add up, and nothing is amplified. *)
Lemma step_close E n eta dt de z z' s s' r tol : (0 <= E)%Re -> (0 < n)%Re -> (0 < eta)%Re -> (0 <= dt)%Re ->
  PipelineR.pv_step E n eta dt de z s -> (s' - z' = E * (de - dt * (Torch.pow0 (Rabs s' / eta) n * Torch.tsign s')) + r)%Re -> (Rabs r <= tol)%Re ->
  (Rabs (s' - s) <= Rabs (z' - z) + tol)%Re.
Proof.
move=> E0 n0 e0 d0; rewrite /PipelineR.pv_step.
have M1 := PipelineR.pv_rate_mono n eta s s' e0 n0; have M2 := PipelineR.pv_rate_mono n eta s' s e0 n0.
move: M1 M2; set f := (_ * _)%Re; set f' := (_ * _)%Re => M1 M2 H H' rt.
have ED : (0 <= E * dt)%Re := Rmult_le_pos _ _ E0 d0.
have Q : (s' - s = (z' - z) + r - (E * dt) * (f' - f))%Re by lra.
have a1 := Rle_abs (z' - z); have a2 := Rle_abs (- (z' - z)); rewrite Rabs_Ropp in a2.
have b1 := Rle_abs r; have b2 := Rle_abs (- r); rewrite Rabs_Ropp in b2.
case: (Rle_or_lt s s') => c.
- have P : (0 <= E * dt * (f' - f))%Re by apply: Rmult_le_pos => //; have := M1 c; lra.
  rewrite Rabs_pos_eq; lra.
- have P : (0 <= E * dt * (f - f'))%Re by apply: Rmult_le_pos => //; have := M2 (Rlt_le _ _ c); lra.
  rewrite Rabs_left; lra.
Qed.

(** Whatever the tolerances, solvers, block sizes and guesses: as many tolerances from the exact simulation as steps were taken, however stiff the material and however long the steps. *)
Theorem C143_runs_near_the_exact_history (E pn eta : R -> R) nb nt (times strains temps : nat -> nat -> R) (B := Models.inelastic E (Flow.perfect pn eta))
    lm rtol atol miter throw gt n init st (b : 'I_nb) tol (y : nat -> VB RF nb 1) :
  times_increase nb nt times ->
  (forall k, (k < nt)%N -> (0 <= E (temps k b) /\ 0 < pn (temps k b) /\ 0 < eta (temps k b))%Re) ->
  solve_strain (B := B) nt times strains temps BackwardEuler lm rtol atol miter throw gt n init = inl st -> i_warned st = [::] ->
  tol_bound (strain_f (B := B) nt times strains temps) BackwardEuler rtol atol gt n nt (time_table nb times) (i_result st) b tol ->
  exact_history (B := B) nt times strains temps y ->
  forall k, (k < nt)%N -> (Rabs (i_result st k b ord0 ord0 - y k b ord0 ord0) <= INR k * tol)%Re.
Proof.
move=> Gr P S W T Hy.
have [Z H] := proj1 (@pv_history _ (fun _ : 'cV[RF]_0 => E) (fun _ => pn) (fun _ => eta) nb nt times strains temps Gr 0 y) Hy.
have [_ [e0 _]] := integrate_writes S.
have V (z : 'cV[RF]_1) : @to_vec B z 0%N = z 0 0 by rewrite -[0%N]/(nat_of_ord (ord0 : 'I_1)) (@to_vecE B z ord0).
elim=> [|k IH] kn.
{ rewrite e0 Z !ffunE !mxE Rminus_0_r Rabs_R0 Rmult_0_l; exact: Rle_refl. }
have [P1 [P2 P3]] := P k.+1 kn.
have D := dt_pos (ltn_ord b) Gr (ltn0Sn k) kn; rewrite [k.+1.-1]/= in D.
have K := run_residual S W T (ltn0Sn k) kn.
have HH := H k.+1 b (ltn0Sn k) kn; rewrite [k.+1.-1]/= in HH.
rewrite S_INR Rmult_plus_distr_r Rmult_1_l.
apply: Rle_trans (Rplus_le_compat_r _ _ _ (IH (ltnW kn))).
move: K; rewrite Props_Tolerance.norm1 /step_res !ffunE (strain_f_knot (B := B) strains temps b _ (leq_ltn_trans (ltn0Sn k) kn) Gr (ltn0Sn k) kn) [k.+1.-1]/=.
rewrite !mxE /= !V /step_rate /= /Slices.cat /= => K.
apply: (step_close P1 P2 P3 (Rlt_le _ _ D) HH _ K).
have Fl (u v dt e de q : R) : (0 < dt -> u - v = e * (de - dt * q) + (u - v - dt * (e * (de / dt - q))))%Re by move=> d0; field; lra.
exact: Fl D.
Qed.
Print Assumptions C143_runs_near_the_exact_history.

(** Near a history at which the adjoint pass gives a derivative, it gives nearly that derivative. *)
Lemma near_core nb m np rate jac dp nt (t : nat -> TB RF nb) (p0 : 'cV[RF]_np) (y og : nat -> VB RF nb m) (q : 'cV[RF]_np) (D : R) : (0 < nt)%N ->
  (forall k b, (k < nt)%N -> c1_near (rate b (t k b)) (jac b (t k b)) (dp b (t k b)) (y k b) p0) -> steps_regular jac BackwardEuler nt t p0 y ->
  (exists grad lam, rewind (at_p jac p0) (at_p dp p0) Thomas BackwardEuler 1 nt t y og = Some (grad, lam) /\ slope grad q = D) ->
  forall e, (0 < e)%Re -> exists dlt, (0 < dlt)%Re /\ forall (y' og' : nat -> VB RF nb m) mth n, within nt dlt y' y -> within nt dlt og' og -> (0 < n)%N ->
    exists grad lam, rewind (at_p jac p0) (at_p dp p0) mth BackwardEuler n nt t y' og' = Some (grad, lam) /\ (Rabs (slope grad q - D) <= e)%Re.
Proof.
move=> nt0 c1 reg [gr0 [lam0 [E0 D0]]] e e0.
have [gr1 [lam1 [E1 Cn]]] := C129_gradient_is_continuous og nt0 c1 reg.
have Eq : gr1 = gr0 by move: E0; rewrite (E1 Thomas 1%N (ltn0Sn 0)) => -[->].
pose N : R := \sum_(i < np) (Rabs (q i ord0) : RF).
have N0 : (0 <= N)%Re by apply: (Rle_trans _ (\sum_(i < np) (R0 : RF))%R); [rewrite big1 //; exact: Rle_refl|apply: sum_le => i; exact: Rabs_pos].
have e1 : (0 < e / (N + 1))%Re by apply: Rdiv_lt_0_compat => //; lra.
have [dlt [d0 H]] := Cn _ e1; exists dlt; split=> // y' og' mth n Wy Wo n0.
have Pp i : (Rabs (p0 i ord0 - p0 i ord0) <= dlt)%Re by rewrite (_ : (_ - _ = 0)%Re) ?Rabs_R0; [exact: Rlt_le|exact: Rminus_diag_eq].
have [gr [lam [Er [Hg _]]]] := H p0 y' og' mth n Pp Wy Wo n0; exists gr, lam; split=> //.
rewrite Eq in Hg; rewrite -D0; apply: Rle_trans (pair_near q (Rlt_le _ _ e1) Hg) _; rewrite -/N.
apply: (Rmult_le_reg_r (N + 1)); first by lra.
have -> : (e / (N + 1) * N * (N + 1) = e * N)%Re by field; lra. nra.
Qed.

Section Runs.
Variables (np : nat) (E pn eta : 'cV[RF]_np -> R -> R) (nb nt : nat) (times strains temps : nat -> nat -> R).
Variable dp : 'I_nb -> RF -> 'cV[RF]_1 -> 'cV[RF]_np -> 'M[RF]_(1, np).
Let model p := Models.inelastic (E p) (Flow.perfect (pn p) (eta p)).

(** Calibration gradients from runs with tolerances: for every accuracy [e] there is a tolerance for which every run without warning yields a gradient within [e] of the
    exact derivative, whatever linear solver, guess, block size and iteration limit of the run, whatever linear solver and block size of the backward pass. *)
Theorem C143_gradient_of_runs_to_tolerance (p : R -> 'cV[RF]_np) q th dl (Y : R -> nat -> VB RF nb 1) :
  parameter_derivatives (pv_rate E pn eta (nb := nb) nt times strains temps) dp ->
  times_increase nb nt times -> (1 < nt)%N -> (0 < dl)%Re ->
  (forall u k b, (Rabs (u - th) < dl)%Re -> (k < nt)%N -> (b < nb)%N -> (0 <= E (p u) (temps k b) /\ 1 < pn (p u) (temps k b) /\ 0 < eta (p u) (temps k b))%Re) ->
  (forall k b, (k < nt)%N -> (b < nb)%N -> pv_smooth E pn eta (p th) (temps k b)) ->
  cdiff p th q ->
  (forall u, (Rabs (u - th) < dl)%Re -> exact_history (B := Models.inelastic (E (p u)) (Flow.perfect (pn (p u)) (eta (p u)))) nt times strains temps (Y u)) ->
  forall L (dL : (nat -> VB RF nb 1) -> nat -> VB RF nb 1), loss_gradient nt L (Y th) (dL (Y th)) ->
  (forall e, (0 < e)%Re -> exists dlt, (0 < dlt)%Re /\ forall y', within nt dlt y' (Y th) -> within nt e (dL y') (dL (Y th))) ->
  exists D, derivable_pt_lim (fun u => L (Y u)) th D /\
    forall e, (0 < e)%Re -> exists tol, (0 < tol)%Re /\ forall lm rtol atol miter throw gt n' init st mth n,
      solve_strain (B := model (p th)) nt times strains temps BackwardEuler lm rtol atol miter throw gt n' init = inl st -> i_warned st = [::] ->
      (forall b, tol_bound (strain_f (B := model (p th)) nt times strains temps) BackwardEuler rtol atol gt n' nt (time_table nb times) (i_result st) b tol) -> (0 < n)%N ->
      exists grad lam,
        rewind (at_p (pv_jac E pn eta (nb := nb) nt times strains temps) (p th)) (at_p dp (p th)) mth BackwardEuler n nt (time_table nb times) (i_result st) (dL (i_result st)) = Some (grad, lam) /\
        (Rabs (slope grad q - D) <= e)%Re.
Proof.
move=> A Gr nt2 dl0 Gd Sm Dp HY L dL HL cL.
have [gr [lam [Rw HD]]] := perfect_core A Gr nt2 Thomas (ltn0Sn 0) dl0 Gd Sm Dp HY HL.
exists (slope gr q); split; first exact: HD. move=> e e0.
have th0 : (Rabs (th - th) < dl)%Re by rewrite (_ : (th - th = 0)%Re) ?Rabs_R0 //; ring.
have IT k (b : 'I_nb) : (k < nt)%N -> interp_at nt times temps b (time_table nb times k b) = temps k b by move=> kn; rewrite ffunE (interp_knot temps nt2 (ltn_ord b) Gr kn).
have c1 k b : (k < nt)%N -> c1_near (pv_rate E pn eta (nb := nb) nt times strains temps b (time_table nb times k b)) (pv_jac E pn eta (nb := nb) nt times strains temps b (time_table nb times k b)) (dp b (time_table nb times k b)) (Y th k b) (p th).
{ move=> kn; have S1 : pv_smooth E pn eta (p th) (interp_at nt times temps b (time_table nb times k b)) by rewrite (IT k b kn); exact: (Sm k b kn (ltn_ord b)).
  apply: c1_of_rows => [i||]; [exact: pv_rows_smooth S1|exact: pv_jac_near S1|exact: A]. }
have reg : steps_regular (pv_jac E pn eta (nb := nb) nt times strains temps) BackwardEuler nt (time_table nb times) (p th) (Y th).
{ move=> _ k b k0 kn; have [_ _ _ [E0 [n1 e1]]] := Sm k b kn (ltn_ord b).
  apply: pv_step_regular => //; apply: Rlt_le; apply: Rlt_trans n1; exact: Rlt_0_1. }
have Rw' : exists grad lam, rewind (at_p (pv_jac E pn eta (nb := nb) nt times strains temps) (p th)) (at_p dp (p th)) Thomas BackwardEuler 1 nt (time_table nb times) (Y th) (dL (Y th)) = Some (grad, lam) /\ slope grad q = slope gr q by exists gr, lam.
have [d1 [d10 H1]] := near_core (ltnW nt2) c1 reg Rw' e0; have [d2 [d20 H2]] := cL d1 d10.
have m0 : (0 < Rmin d1 d2)%Re by exact: Rmin_glb_lt. have n0 := pos_INR nt.
exists (Rmin d1 d2 / (INR nt + 1))%Re; split; first by apply: Rdiv_lt_0_compat => //; lra.
move=> lm rtol atol miter throw gt n' init st mth n Sv W T n0'.
have Wi : within nt (Rmin d1 d2) (i_result st) (Y th).
{ move=> k b i kn; rewrite (ord1 i).
  have P j : (j < nt)%N -> (0 <= E (p th) (temps j b) /\ 0 < pn (p th) (temps j b) /\ 0 < eta (p th) (temps j b))%Re.
  { move=> jn; have [P1 [P2 P3]] := Gd th j b th0 jn (ltn_ord b); split; first exact: P1. split; last exact: P3. apply: Rlt_trans P2; exact: Rlt_0_1. }
  apply: Rle_trans (C143_runs_near_the_exact_history Gr P Sv W (T b) (HY th th0) kn) _.
  have kI : (INR k <= INR nt)%Re by apply: le_INR; apply/leP; exact: ltnW.
  apply: (Rmult_le_reg_r (INR nt + 1)); first by lra.
  have -> : (INR k * (Rmin d1 d2 / (INR nt + 1)) * (INR nt + 1) = INR k * Rmin d1 d2)%Re by field; lra. nra. }
apply: (H1 _ _ mth n) => //; [move=> k b i kn; apply: Rle_trans (Wi k b i kn) (Rmin_l _ _)|apply: H2 => k b i kn; apply: Rle_trans (Wi k b i kn) (Rmin_r _ _)].
Qed.

(** Training with them: unless the gradient at [p0] is zero, tight enough tolerances suffice for the computed gradient to be a descent direction of the exact simulations. *)
Theorem C143_steps_from_converged_runs p0 r (sim : 'cV[RF]_np -> nat -> VB RF nb 1) L (dL : (nat -> VB RF nb 1) -> nat -> VB RF nb 1) :
  parameter_derivatives (pv_rate E pn eta (nb := nb) nt times strains temps) dp ->
  times_increase nb nt times -> (1 < nt)%N -> (0 < r)%Re ->
  (forall p k b, (dst p p0 <= r)%Re -> (k < nt)%N -> (b < nb)%N -> (0 <= E p (temps k b) /\ 1 < pn p (temps k b) /\ 0 < eta p (temps k b))%Re) ->
  (forall k b, (k < nt)%N -> (b < nb)%N -> pv_smooth E pn eta p0 (temps k b)) ->
  (forall p, (dst p p0 <= r)%Re -> exact_history (B := Models.inelastic (E p) (Flow.perfect (pn p) (eta p))) nt times strains temps (sim p)) ->
  loss_gradient nt L (sim p0) (dL (sim p0)) ->
  (forall e, (0 < e)%Re -> exists dlt, (0 < dlt)%Re /\ forall y', within nt dlt y' (sim p0) -> within nt e (dL y') (dL (sim p0))) ->
  (forall q, derivable_pt_lim (fun u => L (sim (moved p0 u q))) 0 0) \/
  exists tol, (0 < tol)%Re /\ forall lm rtol atol miter throw gt n' init st mth n,
    solve_strain (B := model p0) nt times strains temps BackwardEuler lm rtol atol miter throw gt n' init = inl st -> i_warned st = [::] ->
    (forall b, tol_bound (strain_f (B := model p0) nt times strains temps) BackwardEuler rtol atol gt n' nt (time_table nb times) (i_result st) b tol) -> (0 < n)%N ->
    exists grad lam,
      rewind (at_p (pv_jac E pn eta (nb := nb) nt times strains temps) p0) (at_p dp p0) mth BackwardEuler n nt (time_table nb times) (i_result st) (dL (i_result st)) = Some (grad, lam) /\
      exists e, (0 < e)%Re /\ forall lr, (0 < lr)%Re -> (lr < e)%Re -> (L (sim (moved p0 lr (- grad))) < L (sim p0))%Re.
Proof.
move=> A Gr nt2 r0 Gd Sm HY HL cL.
have [gr [Rw [Dr [K _]]]] := C142_perfect_viscoplasticity A Gr nt2 r0 Gd Sm HY HL.
case: (eqVneq gr 0) => [gz|/eqP gn].
{ left=> q; have := Dr q; rewrite gz (_ : slope 0 q = 0%Re) // /slope big1 // => i _; by rewrite mxE mul0r. }
right; have [dl [dl0 Hd]] := along_line p0 gr r0; have N0 := dot_pos gn; set N := slope gr gr in N0.
have Sm' k b : (k < nt)%N -> (b < nb)%N -> pv_smooth E pn eta (moved p0 0%Re gr) (temps k b) by rewrite moved0; exact: Sm.
have HL' : loss_gradient nt L (sim (moved p0 0%Re gr)) (dL (sim (moved p0 0%Re gr))) by rewrite moved0.
have cL' : forall e, (0 < e)%Re -> exists dlt, (0 < dlt)%Re /\ forall y', within nt dlt y' (sim (moved p0 0%Re gr)) -> within nt e (dL y') (dL (sim (moved p0 0%Re gr))) by rewrite moved0.
have [D0 [HD H]] := @C143_gradient_of_runs_to_tolerance (fun u => moved p0 u gr) gr 0%Re dl (fun u => sim (moved p0 u gr)) A Gr nt2 dl0 (fun u k b ud => Gd _ k b (Hd u ud)) Sm' (moved_diff p0 gr) (fun u ud => HY _ (Hd u ud)) L dL HL' cL'.
have ED : D0 = N := uniqueness_limite _ _ _ _ HD (Dr gr).
have [tol [t0 Ht]] := H (N / 2)%Re ltac:(lra).
exists tol; split; first exact: t0.
move=> lm rtol atol miter throw gt n' init st mth n Sv W Tb n0.
rewrite moved0 in Ht; have [grad [lam [Rw' Cl]]] := Ht lm rtol atol miter throw gt n' init st mth n Sv W Tb n0.
exists grad, lam; split; [exact: Rw'|apply: K].
rewrite slope_opp; rewrite ED in Cl; have Fl (x : R) : (Rabs (x - N) <= N / 2 -> - x < 0)%Re by have := N0; rewrite /Rabs; case: Rcase_abs; lra.
exact: Fl Cl.
Qed.
End Runs.
Print Assumptions C143_gradient_of_runs_to_tolerance.
Print Assumptions C143_steps_from_converged_runs.

(** Put together with C120: with relative tolerance zero, any positive absolute tolerance below a threshold and enough Newton iterations, the simulation succeeds without a
    warning, the backward pass succeeds, and small steps against the gradient it returns lower the loss - for every linear solver, guess and block size. *)
Theorem C143_training_always_works np (E pn eta : 'cV[RF]_np -> R -> R) nb nt (times strains temps : nat -> nat -> R) (dp : 'I_nb -> RF -> 'cV[RF]_1 -> 'cV[RF]_np -> 'M[RF]_(1, np))
    p0 r (sim : 'cV[RF]_np -> nat -> VB RF nb 1) L (dL : (nat -> VB RF nb 1) -> nat -> VB RF nb 1) :
  parameter_derivatives (pv_rate E pn eta (nb := nb) nt times strains temps) dp ->
  times_increase nb nt times -> (1 < nt)%N -> (0 < r)%Re ->
  (forall p k b, (dst p p0 <= r)%Re -> (k < nt)%N -> (b < nb)%N -> (0 < E p (temps k b) /\ 1 < pn p (temps k b) /\ 0 < eta p (temps k b))%Re) ->
  (forall k b, (k < nt)%N -> (b < nb)%N -> pv_smooth E pn eta p0 (temps k b)) ->
  (forall p, (dst p p0 <= r)%Re -> exact_history (B := Models.inelastic (E p) (Flow.perfect (pn p) (eta p))) nt times strains temps (sim p)) ->
  loss_gradient nt L (sim p0) (dL (sim p0)) ->
  (forall e, (0 < e)%Re -> exists dlt, (0 < dlt)%Re /\ forall y', within nt dlt y' (sim p0) -> within nt e (dL y') (dL (sim p0))) ->
  (exists q s, derivable_pt_lim (fun u => L (sim (moved p0 u q))) 0 s /\ s <> 0%Re) ->
  exists tol, (0 < tol)%Re /\ forall atol lm throw gt n' init, (0 < atol)%Re -> (atol <= tol)%Re -> (0 < n')%N -> (gt = "zero" \/ gt = "previous" /\ (n' < nt)%N)%string ->
    exists N st, i_warned st = [::] /\ (forall miter, (N < miter)%N ->
      solve_strain (B := Models.inelastic (E p0) (Flow.perfect (pn p0) (eta p0))) nt times strains temps BackwardEuler lm 0%Re atol miter throw gt n' init = inl st) /\
      forall mth n, (0 < n)%N -> exists grad lam,
        rewind (at_p (pv_jac E pn eta (nb := nb) nt times strains temps) p0) (at_p dp p0) mth BackwardEuler n nt (time_table nb times) (i_result st) (dL (i_result st)) = Some (grad, lam) /\
        exists e, (0 < e)%Re /\ forall lr, (0 < lr)%Re -> (lr < e)%Re -> (L (sim (moved p0 lr (- grad))) < L (sim p0))%Re.
Proof.
move=> A Gr nt2 r0 Gd Sm HY HL cL [q [s [Hs s0]]].
have Gd' p k b : (dst p p0 <= r)%Re -> (k < nt)%N -> (b < nb)%N -> (0 <= E p (temps k b) /\ 1 < pn p (temps k b) /\ 0 < eta p (temps k b))%Re.
{ move=> Hp kn bn; have [P1 [P2 P3]] := Gd p k b Hp kn bn; split; first exact: Rlt_le. split; [exact: P2|exact: P3]. }
case: (C143_steps_from_converged_runs A Gr nt2 r0 Gd' Sm HY HL cL) => [Z|[tol [t0 H]]]; first by case: s0; exact: uniqueness_limite Hs (Z q).
exists tol; split; first exact: t0.
move=> atol lm throw gt n' init a0 at' n'0 hg.
have d0 : (dst p0 p0 <= r)%Re by rewrite dst0; exact: Rlt_le.
have par k b : (k < nt)%N -> (b < nb)%N -> (0 < E p0 (temps k b) /\ 0 < eta p0 (temps k b) /\ 1 <= pn p0 (temps k b))%Re.
{ move=> kn bn; have [P1 [P2 P3]] := Gd p0 k b d0 kn bn; split; first exact: P1. split; [exact: P3|exact: Rlt_le]. }
have [N [st HN]] := @C120_strain_control (E p0) (pn p0) (eta p0) nb nt times strains temps lm 0%Re atol throw gt n' init Gr par a0 n'0 (ltnW nt2) hg.
exists N, st; split; first by have [_] := HN N.+1 (ltnSn N).
split; first by move=> miter /HN [].
move=> mth n n0; have [Sv W] := HN N.+1 (ltnSn N).
apply: (H lm 0%Re atol N.+1 throw gt n' init st mth n Sv W _ n0) => b; split; first exact: at'.
move=> k k0 kn; cbv zeta; rewrite Rmult_0_l; exact: Rlt_le.
Qed.
Print Assumptions C143_training_always_works.

(** Example: the three constants of a material near 2, one strain step, the loss is the stress it ends with; every absolute tolerance below a threshold works. *)
Lemma ex_slope (sim : 'cV[RF]_3 -> nat -> VB RF 1 1) : (forall p, (dst p two3 <= / 2)%Re ->
    exact_history (B := Models.inelastic (fun _ => p (inord 0) ord0) (Flow.perfect (fun _ => p (inord 1) ord0) (fun _ => p (inord 2) ord0))) 2 ex_t (fun k _ => INR k) ex_temp (sim p)) ->
  exists q s, derivable_pt_lim (fun u => loss 2 (fun _ => [ffun _ => const_mx 1]) (sim (moved two3 u q))) 0 s /\ s <> 0%Re.
Proof.
move=> HY; have Gr : times_increase 1 2 ex_t by move=> b _ i j ij _; apply: lt_INR.
have two i : two3 i 0 = 2%Re by rewrite mxE.
pose q : 'cV[RF]_3 := \col_(i < 3) (if i == inord 1 then 0 else 1).
have i0 : (inord 0 == inord 1 :> 'I_3) = false by rewrite -val_eqE /= !inordK.
have i2 : (inord 2 == inord 1 :> 'I_3) = false by rewrite -val_eqE /= !inordK.
have D0 : (dst two3 two3 <= / 2)%Re by rewrite dst0; lra.
pose st p := sim p 1%N ord0 0 0.
have step p : (dst p two3 <= / 2)%Re -> PipelineR.pv_step (p (inord 0) ord0) (p (inord 1) ord0) (p (inord 2) ord0) 1 1 0 (st p).
{ move=> Hp; have [Z H] := proj1 (@pv_history _ (fun (_ : 'cV[RF]_0) _ => p (inord 0) ord0) (fun _ _ => p (inord 1) ord0) (fun _ _ => p (inord 2) ord0) 1 2 ex_t (fun k _ => INR k) ex_temp Gr 0 (sim p)) (HY p Hp).
  have := H 1%N ord0 (ltn0Sn 0) (ltnSn 1); rewrite /= Z ffunE mxE /ex_t /=.
  by rewrite Rminus_0_r. }
have L1 p : (dst p two3 <= / 2)%Re -> loss 2 (fun _ => [ffun _ => const_mx 1]) (sim p) = st p.
{ move=> Hp; have [Z _] := HY p Hp; rewrite /loss big_ord_recl big_ord1 !big_ord1 !ffunE !mxE /= Z ffunE mxE mulr0 add0r.
  by rewrite mul1r. }
have pos : (0 < st two3)%Re.
{ have := step two3 D0; rewrite /PipelineR.pv_step !two; case: (Rlt_dec 0 (st two3)) => // /Rnot_lt_le h.
  have a := PipelineR.pv_rate_mono 2 2 (st two3) 0 ltac:(lra) ltac:(lra) h; rewrite Torch.tsign_0 Rmult_0_r in a.
  set f := (_ * _)%Re in a *; lra. }
have [dl [dl0 Hd]] := along_line two3 q (ltac:(lra) : (0 < / 2)%Re).
have line u : (Rabs u < Rmin dl 1)%Re -> st (moved two3 u q) = ((1 + u / 2) * st two3)%Re.
{ move=> ud; have a := Rlt_le_trans _ _ _ ud (Rmin_r dl 1); have b := Rlt_le_trans _ _ _ ud (Rmin_l dl 1).
  have u1 : (-1 < u)%Re by move: a; rewrite /Rabs; case: Rcase_abs; lra.
  have Hu : (dst (moved two3 u q) two3 <= / 2)%Re by apply: Hd; rewrite Rminus_0_r.
  have A := step _ Hu; have B := step _ D0; rewrite !two in B.
  have e0 : moved two3 u q (inord 0) ord0 = (2 + u)%Re by rewrite /moved !mxE i0 mulr1.
  have e1 : moved two3 u q (inord 1) ord0 = 2%Re by rewrite /moved !mxE eqxx mulr0 addr0.
  have e2 : moved two3 u q (inord 2) ord0 = (2 + u)%Re by rewrite /moved !mxE i2 mulr1.
  rewrite e0 e1 e2 in A; have E0 : (0 <= 2 + u)%Re by lra. have N0 : (0 < 2)%Re by lra. have T0 : (0 < 2 + u)%Re by lra.
  apply: PipelineR.pv_unique E0 N0 T0 Rle_0_1 A _.
  move: B pos; rewrite /PipelineR.pv_step => B pos.
  have p1 : (0 < (1 + u / 2) * st two3)%Re by apply: Rmult_lt_0_compat => //; lra.
  rewrite !Torch.tsign_pos // in B *; rewrite !Rabs_pos_eq in B *; try exact: Rlt_le.
  have -> : ((1 + u / 2) * st two3 / (2 + u) = st two3 / 2)%Re by field; lra.
  set f := Torch.pow0 _ _ in B *; have -> : ((1 + u / 2) * st two3 - 0 = (1 + u / 2) * (st two3 - 0))%Re by ring.
  rewrite B; field. }
exists q, (st two3 / 2)%Re; split; last by apply: Rgt_not_eq; have := pos; rewrite /Rgt; lra.
move=> e e0; have m0 : (0 < Rmin dl 1)%Re by apply: Rmin_glb_lt; lra.
exists (mkposreal _ m0) => h hn /= hd; rewrite Rplus_0_l moved0.
have Hh : (dst (moved two3 h q) two3 <= / 2)%Re by apply: Hd; rewrite Rminus_0_r; apply: Rlt_le_trans hd (Rmin_l _ _).
rewrite (L1 _ Hh) (L1 _ D0) (line h hd).
have -> : (((1 + h / 2) * st two3 - st two3) / h - st two3 / 2 = 0)%Re by field.
by rewrite Rabs_R0.
Qed.
Example C143_ex : exists (sim : 'cV[RF]_3 -> nat -> VB RF 1 1) dp tol, (0 < tol)%Re /\
  (forall p, (dst p two3 <= / 2)%Re -> exact_history (B := Models.inelastic (fun _ => p (inord 0) ord0) (Flow.perfect (fun _ => p (inord 1) ord0) (fun _ => p (inord 2) ord0))) 2 ex_t (fun k _ => INR k) ex_temp (sim p)) /\
  forall atol, (0 < atol)%Re -> (atol <= tol)%Re -> exists N st, (forall miter, (N < miter)%N ->
    solve_strain (B := Models.inelastic (pv_par (inord 0) two3) (Flow.perfect (pv_par (inord 1) two3) (pv_par (inord 2) two3))) 2 ex_t (fun k _ => INR k) ex_temp BackwardEuler (Direct Thomas) 0%Re atol miter true "zero" 1
      (fun _ => @zeroV RF 1 1) = inl st) /\
    exists grad lam, rewind (at_p (pv_jac (pv_par (inord 0)) (pv_par (inord 1)) (pv_par (inord 2)) (nb := 1) 2 ex_t (fun k _ => INR k) ex_temp) two3) (at_p dp two3) PCR BackwardEuler 1 2 (time_table 1 ex_t) (i_result st)
        (fun _ => [ffun _ => const_mx 1]) = Some (grad, lam) /\
      exists e, (0 < e)%Re /\ forall lr, (0 < lr)%Re -> (lr < e)%Re ->
        (loss 2 (fun _ => [ffun _ => const_mx 1]) (sim (moved two3 lr (- grad))) < loss 2 (fun _ => [ffun _ => const_mx 1]) (sim two3))%Re.
Proof.
have Gr : times_increase 1 2 ex_t by move=> b _ i j ij _; apply: lt_INR.
have two i : two3 i 0 = 2%Re by rewrite mxE.
have near p i : (dst p two3 <= / 2 -> 3 / 2 <= p i ord0)%Re.
{ move=> Hp; have := Rle_trans _ _ _ (comp_dst p two3 i) Hp; rewrite two /Rabs; case: Rcase_abs => ?; lra. }
have h0 : (0 < / 2)%Re by lra.
have Fl (a b c : R) : (3 / 2 <= a -> 3 / 2 <= b -> 3 / 2 <= c -> 0 < a /\ 1 < b /\ 0 < c)%Re by lra.
have Gd p k b : (dst p two3 <= / 2)%Re -> (k < 2)%N -> (b < 1)%N -> (0 < pv_par (inord 0) p (ex_temp k b) /\ 1 < pv_par (inord 1) p (ex_temp k b) /\ 0 < pv_par (inord 2) p (ex_temp k b))%Re.
{ move=> Hp _ _; exact: Fl (near p (inord 0) Hp) (near p (inord 1) Hp) (near p (inord 2) Hp). }
have ex p : exists Y : nat -> VB RF 1 1, (dst p two3 <= / 2)%Re -> exact_history (B := Models.inelastic (fun _ => p (inord 0) ord0) (Flow.perfect (fun _ => p (inord 1) ord0) (fun _ => p (inord 2) ord0))) 2 ex_t (fun k _ => INR k) ex_temp Y.
{ case: (Rle_dec (dst p two3) (/ 2)) => hp; last by exists (fun _ => @zeroV RF 1 1).
  have [|Y [H _]] := @C141_exactly_one_history (fun _ => p (inord 0) ord0) (fun _ => p (inord 1) ord0) (fun _ => p (inord 2) ord0) 1 2 ex_t (fun k _ => INR k) ex_temp Gr; last by exists Y.
  move=> k b kn bn; have [g0 [g1 g2]] := Gd p k b hp kn bn; split; first exact: Rlt_le g0. split; first exact: Rlt_le g1. exact: g2. }
pose sim p := sval (ClassicalEpsilon.constructive_indefinite_description _ (ex p)).
have HY p : (dst p two3 <= / 2)%Re -> exact_history (B := Models.inelastic (fun _ => p (inord 0) ord0) (Flow.perfect (fun _ => p (inord 1) ord0) (fun _ => p (inord 2) ord0))) 2 ex_t (fun k _ => INR k) ex_temp (sim p)
  := svalP (ClassicalEpsilon.constructive_indefinite_description _ (ex p)).
have [dp Hdp] := parameter_derivatives_exist (pv_rate (nb := 1) (pv_par (inord 0)) (pv_par (inord 1)) (pv_par (inord 2)) 2 ex_t (fun k _ => INR k) ex_temp).
have D0 : (dst two3 two3 <= / 2)%Re by rewrite dst0; exact: Rlt_le h0.
have Sm k b : (k < 2)%N -> (b < 1)%N -> pv_smooth (pv_par (inord 0)) (pv_par (inord 1)) (pv_par (inord 2)) two3 (ex_temp k b).
{ move=> _ _; split; try exact: c1_coord. have [u [v w]] := Fl _ _ _ (near two3 (inord 0) D0) (near two3 (inord 1) D0) (near two3 (inord 2) D0). split; first exact: Rlt_le u. by split. }
have cL : forall e, (0 < e)%Re -> exists dlt, (0 < dlt)%Re /\ forall y' : nat -> VB RF 1 1, within 2 dlt y' (sim two3) -> within 2 e ((fun _ => fun _ => [ffun _ => const_mx 1] : VB RF 1 1) y') ((fun _ => fun _ => [ffun _ => const_mx 1] : VB RF 1 1) (sim two3)).
{ move=> e e0; exists 1%Re; split; first exact: Rlt_0_1. move=> y' _ k b i _; rewrite (Rminus_diag_eq _ _ erefl) Rabs_R0; exact: Rlt_le. }
have [tol [t0 H]] := C143_training_always_works Hdp Gr (ltnSn 1 : (1 < 2)%N) h0 Gd Sm HY (@weighted_sum 1 1 2 (fun _ => [ffun _ => const_mx 1]) (sim two3)) cL (ex_slope HY).
exists sim, dp, tol; split; first exact: t0. split; first exact: HY.
move=> atol a0 at'; have [N [st [_ [Sv K]]]] := H atol (Direct Thomas) true "zero"%string 1%N (fun _ => @zeroV RF 1 1) a0 at' (ltn0Sn 0) (or_introl erefl).
exists N, st; split; first exact: Sv. exact: (K PCR 1%N (ltn0Sn 0)).
Qed.
