(** C146: stress-controlled (creep) calibration with Voce/Chaboche materials: one history, runs near it, exact gradients, training - through solve_stress. *)
From Coq Require Import Reals List String Lra Lia FunctionalExtensionality.
From mathcomp Require Import all_ssreflect all_algebra.
From Verif Require Import ChunkModel ChunkSolve ChunkInst NewtonModel Ode OdeForward OdeAdjoint OdeReal OdeBlock OdeDiff RField Gmres Implicit Tolerance Converge Pipeline PipelineBoth SmoothMx VCGrad GradHist MixedVC AdjointBlock MixedGrad NewtonConv MixedClose.
From Verif Require Interp Models Flow Hardening Deriv Slices VCStep VCHistory VCStress Props_FullModel VCExact Props_Stress Props_Gradient Props_GradTol Props_Mixed Props_Descent Props_Training Props_PerfectTol Props_MixedTol Props_MixedRuns.
Import GRing.Theory.
Set Implicit Arguments. Unset Strict Implicit. Unset Printing Implicit Defensive.
Local Open Scope ring_scope.
Delimit Scope R_scope with Re.
Import Props_FullModel VCExact Props_Stress Props_Gradient Props_GradTol Props_Mixed Props_Descent Props_Training Props_PerfectTol Props_MixedTol Props_MixedRuns.

(** The backward Euler history under stress control.  Entry 0 of the state is the strain.  The model is evaluated at the stress of the table, and the strain rate is the one for
    which the model's stress rate is the stress rate of the table. *)
Definition stress_history (B : Models.rateform) nb nt (times stresses temps : nat -> nat -> R) (y : nat -> VB RF nb (Models.rf_n B)) : Prop :=
  y 0%N = @zeroV RF nb (Models.rf_n B) /\
  forall k (b : 'I_nb), (0 < k)%N -> (k < nt)%N -> exists er,
    let dt := (times k b - times k.-1 b)%Re in let new := to_vec (y k b) in let old := to_vec (y k.-1 b) in let w := Models.set0 (stresses k b) new in
    Models.rf_rate B (times k b) w er (temps k b) 0%N = ((stresses k b - stresses k.-1 b) / dt)%Re /\
    (new 0%N - old 0%N = dt * er)%Re /\
    forall i, (0 < i)%N -> (i < Models.rf_n B)%N -> (new i - old i = dt * Models.rf_rate B (times k b) w er (temps k b) i)%Re.
(** The calls of StressBasedModel (models.py 521-562) made by solve_stress and by its backward pass, as functions of the calibrated vector. *)
Definition stress_calls np nback (E pn eta s0 Rs d : 'cV[RF]_np -> R -> R) (C g : 'cV[RF]_np -> R -> nat -> R) nb nt (times stresses temps : nat -> nat -> R) (p : 'cV[RF]_np) :
    nat -> (nat -> TB RF nb) -> (nat -> VB RF nb nback.+2) -> (nat -> VB RF nb nback.+2) * (nat -> MB RF nb nback.+2) :=
  stress_G (B := family nback E pn eta s0 Rs d C g p) (nb := nb) nt times stresses temps.
(** In every step some test strains faster than the tolerance of the inner solve (measured in stress). *)
Definition stress_steps_active nb m (nt : nat) (times temps : nat -> nat -> R) (E : R -> R) (y : nat -> VB RF nb m.+1) : Prop :=
  forall k, (0 < k)%N -> (k < nt)%N -> exists b : 'I_nb,
    (/ 10 ^ 10 * (times k b - times k.-1 b) < Rabs (E (temps k b) * (y k b ord0 ord0 - y k.-1 b ord0 ord0)))%Re.
(** A run of solve_stress that reported no failure, with tolerances of at most [tol]. *)
Definition stress_run_to (B : Models.rateform) nb nt (times stresses temps : nat -> nat -> R) (tol : R) (st : istate RF nb (Models.rf_n B)) : Prop :=
  exists lm rtol atol miter throw gt n init,
    @solve_stress B nb nt times stresses temps BackwardEuler lm rtol atol miter throw gt n init = inl st /\ i_warned st = [::] /\
    forall b, tol_boundG (@stress_G B nb nt times stresses temps) BackwardEuler rtol atol gt n nt (time_table nb times) (i_result st) b tol.

(** ** solve_stress is solve_both with every flag 1 *)
Definition ones (b : nat) : R := 1%Re.
Lemma ones_controls nb : controls nb ones. Proof. by move=> b _; right. Qed.
Lemma stress_mixed (B : Models.rateform) nb nt (times stresses temps : nat -> nat -> R) (y : nat -> VB RF nb (Models.rf_n B)) :
  stress_history nt times stresses temps y <-> mixed_history nt times stresses temps ones y.
Proof.
split=> -[Z H]; split; [exact: Z| |exact: Z|] => k b k0 kn.
- split; first by rewrite /ones => /R1_neq_R0. move=> _; have [er [a [c e]]] := H k b k0 kn; exists er; split; first exact: a. split; [exact: c|exact: e].
- have [_ /(_ erefl) [er [a [c e]]]] := H k b k0 kn; exists er; split; first exact: a. split; [exact: c|exact: e].
Qed.
Lemma stress_G_both (B : Models.rateform) nb nt (times stresses temps : nat -> nat -> R) : @both_G B nb nt times stresses temps ones = @stress_G B nb nt times stresses temps.
Proof.
apply: functional_extensionality => rows; apply: functional_extensionality => ts; apply: functional_extensionality => Y; exact: both_all_stress.
Qed.
Lemma stress_callsE np nback (E pn eta s0 Rs d : 'cV[RF]_np -> R -> R) (C g : 'cV[RF]_np -> R -> nat -> R) nb nt (times stresses temps : nat -> nat -> R) :
  stress_calls (nback := nback) E pn eta s0 Rs d C g (nb := nb) nt times stresses temps = calls (nback := nback) E pn eta s0 Rs d C g (nb := nb) nt times stresses temps ones.
Proof. apply: functional_extensionality => p; by rewrite /stress_calls /calls stress_G_both. Qed.
Lemma stress_solve (B : Models.rateform) nb nt times data temps s lm rtol atol miter throw gt n init :
  @solve_both B nb nt times data temps ones s lm rtol atol miter throw gt n init = @solve_stress B nb nt times data temps s lm rtol atol miter throw gt n init.
Proof. exact: C90_all_stress. Qed.
Lemma stress_run (B : Models.rateform) nb nt (times stresses temps : nat -> nat -> R) tol (st : istate RF nb (Models.rf_n B)) :
  stress_run_to nt times stresses temps tol st -> run_to nt times stresses temps ones tol st.
Proof.
move=> [lm [rtol [atol [miter [throw [gt [n [init [So [W T]]]]]]]]]]; exists lm, rtol, atol, miter, throw, gt, n, init.
split; first by rewrite stress_solve. split; first exact: W. move=> b; by rewrite stress_G_both; exact: T.
Qed.
Lemma stress_active nb m nt times temps E (y : nat -> VB RF nb m.+1) : stress_steps_active nt times temps E y -> every_step_active nt times temps ones E y.
Proof. move=> H; right=> k k0 kn; have [b A] := H k k0 kn; by exists b. Qed.

(** C146: the stress tables determine the history. *)
Theorem C146_exactly_one_history E pn eta s0 Rs d nback C g nb nt (times stresses temps : nat -> nat -> R) :
  let B := voce_chaboche E pn eta s0 Rs d nback C g in
  times_increase nb nt times -> (forall b, (b < nb)%N -> good_entry E pn eta s0 Rs d nback C g nt temps b) ->
  exists y : nat -> VB RF nb nback.+2, stress_history (B := B) nt times stresses temps y /\
    forall y' : nat -> VB RF nb nback.+2, stress_history (B := B) nt times stresses temps y' -> forall k, (k < nt)%N -> y' k = y k.
Proof.
move=> B Gr Gd; have [y [/(stress_mixed (B := B)) H U]] := C127_exactly_one_history stresses (ones_controls (nb := nb)) Gr Gd.
exists y; split; first exact: H. move=> y' /(stress_mixed (B := B)) H' k kn; exact: U H' k kn.
Qed.
Print Assumptions C146_exactly_one_history.

(** What solve_stress returns at zero tolerance without warnings is that history, as long as the strain of some test moves in every step. *)
Theorem C146_runs_return_it E pn eta s0 Rs d nback C g nb nt (times stresses temps : nat -> nat -> R) lm miter throw gt n init (st : istate RF nb nback.+2) (y : nat -> VB RF nb nback.+2) :
  let B := voce_chaboche E pn eta s0 Rs d nback C g in
  times_increase nb nt times -> (forall b, (b < nb)%N -> good_entry E pn eta s0 Rs d nback C g nt temps b) ->
  solve_stress (B := B) nt times stresses temps BackwardEuler lm R0 R0 miter throw gt n init = inl st -> i_warned st = [::] ->
  (forall k, (0 < k)%N -> (k < nt)%N -> exists b, i_result st k b ord0 ord0 <> i_result st k.-1 b ord0 ord0) ->
  stress_history (B := B) nt times stresses temps y -> forall k, (k < nt)%N -> i_result st k = y k.
Proof.
move=> B Gr Gd; rewrite -stress_solve => So Wa Mv /(stress_mixed (B := B)) H.
apply: (C127_runs_return_it (ones_controls (nb := nb)) Gr Gd So Wa _ H); right=> k k0 kn; have [b A] := Mv k k0 kn; by exists b.
Qed.
Print Assumptions C146_runs_return_it.

(** At positive tolerances: for every accuracy there is a tolerance for which every run that reports no failure is within that accuracy of the history. *)
Theorem C146_runs_near_the_exact_history E pn eta s0 Rs d nback C g nb nt (times stresses temps : nat -> nat -> R) (Y : nat -> VB RF nb nback.+2) :
  let B := voce_chaboche E pn eta s0 Rs d nback C g in
  times_increase nb nt times -> (forall b, (b < nb)%N -> good_entry E pn eta s0 Rs d nback C g nt temps b) ->
  (forall k b, (k < nt)%N -> (b < nb)%N -> (0 < s0 (temps k b))%Re) ->
  stress_history (B := B) nt times stresses temps Y -> stress_steps_active nt times temps E Y ->
  forall eps, (0 < eps)%Re -> exists tol, (0 < tol)%Re /\ forall st, stress_run_to (B := B) nt times stresses temps tol st -> within nt eps (i_result st) Y.
Proof.
move=> B Gr Gd Sp /(stress_mixed (B := B)) HY /stress_active Act eps e0.
have [tol [t0 H]] := C145_runs_near_the_exact_history (ones_controls (nb := nb)) Gr Gd Sp HY Act e0.
exists tol; split; first exact: t0. move=> st /stress_run; exact: H.
Qed.
Print Assumptions C146_runs_near_the_exact_history.

(** The gradient: material parameters are continuously differentiable functions of a calibrated vector, [p u] is a line of such vectors, [Y u] the history with the parameters
    [p u], [L] any loss of the histories with gradient [og]: the backward pass through solve_stress, inner solve included, returns the derivative of the loss along the line. *)
Theorem C146_gradient_of_exact_simulations np nback (E pn eta s0 Rs d : 'cV[RF]_np -> R -> R) (C g : 'cV[RF]_np -> R -> nat -> R)
    nb nt (times stresses temps : nat -> nat -> R) GP mth n (p : R -> 'cV[RF]_np) q th dl (Y : R -> nat -> VB RF nb nback.+2) :
  let call := stress_calls (nback := nback) E pn eta s0 Rs d C g (nb := nb) nt times stresses temps in
  call_derivatives (fun p rows ts Y => (call p rows ts Y).1) GP ->
  times_increase nb nt times -> (1 < nt)%N -> (0 < n)%N -> (0 < dl)%Re ->
  (forall u b, (Rabs (u - th) < dl)%Re -> (b < nb)%N -> good_entry (E (p u)) (pn (p u)) (eta (p u)) (s0 (p u)) (Rs (p u)) (d (p u)) nback (C (p u)) (g (p u)) nt temps b) ->
  (forall k b, (k < nt)%N -> (b < nb)%N -> smooth_material nback E pn eta s0 Rs d C g (p th) (temps k b)) ->
  cdiff p th q ->
  (forall u, (Rabs (u - th) < dl)%Re -> stress_history (B := family nback E pn eta s0 Rs d C g (p u)) nt times stresses temps (Y u)) ->
  stress_steps_active nt times temps (E (p th)) (Y th) ->
  forall L og, loss_gradient nt L (Y th) og ->
  exists grad lam,
    rewindG (fun rows ts y => (call (p th) rows ts y).2) (GP (p th)) mth BackwardEuler n nt (time_table nb times) (Y th) og = Some (grad, lam) /\
    derivable_pt_lim (fun u => L (Y u)) th (\sum_(i < np) grad i 0 * q i 0).
Proof.
cbv zeta; rewrite stress_callsE => A Gr nt2 n0 dl0 Gd Sm Dp HY Act L og HL.
apply: (C127_gradient_of_exact_simulations mth A (ones_controls (nb := nb)) Gr nt2 n0 dl0 Gd Sm Dp _ (stress_active Act) HL) => u ud.
apply/(stress_mixed (B := family nback E pn eta s0 Rs d C g (p u))); exact: HY.
Qed.
Print Assumptions C146_gradient_of_exact_simulations.

(** The same for what solve_stress returns at zero tolerance. *)
Theorem C146_gradient_of_runs np nback (E pn eta s0 Rs d : 'cV[RF]_np -> R -> R) (C g : 'cV[RF]_np -> R -> nat -> R)
    nb nt (times stresses temps : nat -> nat -> R) GP mth n (p : R -> 'cV[RF]_np) q th dl lm miter throw gt n' init (st : R -> istate RF nb nback.+2) :
  let call := stress_calls (nback := nback) E pn eta s0 Rs d C g (nb := nb) nt times stresses temps in
  call_derivatives (fun p rows ts Y => (call p rows ts Y).1) GP ->
  times_increase nb nt times -> (1 < nt)%N -> (0 < n)%N -> (0 < dl)%Re ->
  (forall u b, (Rabs (u - th) < dl)%Re -> (b < nb)%N -> good_entry (E (p u)) (pn (p u)) (eta (p u)) (s0 (p u)) (Rs (p u)) (d (p u)) nback (C (p u)) (g (p u)) nt temps b) ->
  (forall k b, (k < nt)%N -> (b < nb)%N -> smooth_material nback E pn eta s0 Rs d C g (p th) (temps k b)) ->
  cdiff p th q ->
  (forall u, (Rabs (u - th) < dl)%Re ->
     solve_stress (B := family nback E pn eta s0 Rs d C g (p u)) nt times stresses temps BackwardEuler (lm u) R0 R0 (miter u) (throw u) (gt u) (n' u) (init u) = inl (st u) /\
     i_warned (st u) = [::] /\ forall k, (0 < k)%N -> (k < nt)%N -> exists b, i_result (st u) k b ord0 ord0 <> i_result (st u) k.-1 b ord0 ord0) ->
  stress_steps_active nt times temps (E (p th)) (i_result (st th)) ->
  forall L og, loss_gradient nt L (i_result (st th)) og ->
  exists grad lam,
    rewindG (fun rows ts y => (call (p th) rows ts y).2) (GP (p th)) mth BackwardEuler n nt (time_table nb times) (i_result (st th)) og = Some (grad, lam) /\
    derivable_pt_lim (fun u => L (i_result (st u))) th (\sum_(i < np) grad i 0 * q i 0).
Proof.
cbv zeta; rewrite stress_callsE => A Gr nt2 n0 dl0 Gd Sm Dp HY Act L og HL.
apply: (C127_gradient_of_runs mth A (ones_controls (nb := nb)) Gr nt2 n0 dl0 Gd Sm Dp (lm := lm) (miter := miter) (throw := throw) (gt := gt) (n' := n') (init := init) _ (stress_active Act) HL) => u ud.
have [So [Wa Mv]] := HY u ud; split; first by rewrite stress_solve; exact: So. split; first exact: Wa.
right=> k k0 kn; have [b Q] := Mv k k0 kn; by exists b.
Qed.
Print Assumptions C146_gradient_of_runs.

(** Gradients of runs to tolerance are near that derivative. *)
Theorem C146_gradient_of_runs_to_tolerance np nback (E pn eta s0 Rs d : 'cV[RF]_np -> R -> R) (C g : 'cV[RF]_np -> R -> nat -> R)
    nb nt (times stresses temps : nat -> nat -> R) GP (p : R -> 'cV[RF]_np) q th dl (Y : R -> nat -> VB RF nb nback.+2) :
  let call := stress_calls (nback := nback) E pn eta s0 Rs d C g (nb := nb) nt times stresses temps in
  call_derivatives (fun p rows ts Y => (call p rows ts Y).1) GP ->
  times_increase nb nt times -> (1 < nt)%N -> (0 < dl)%Re ->
  (forall u b, (Rabs (u - th) < dl)%Re -> (b < nb)%N -> good_entry (E (p u)) (pn (p u)) (eta (p u)) (s0 (p u)) (Rs (p u)) (d (p u)) nback (C (p u)) (g (p u)) nt temps b) ->
  (forall k b, (k < nt)%N -> (b < nb)%N -> smooth_material nback E pn eta s0 Rs d C g (p th) (temps k b)) ->
  (forall k b, (k < nt)%N -> (b < nb)%N -> (0 < s0 (p th) (temps k b))%Re) ->
  cdiff p th q ->
  (forall u, (Rabs (u - th) < dl)%Re -> stress_history (B := family nback E pn eta s0 Rs d C g (p u)) nt times stresses temps (Y u)) ->
  stress_steps_active nt times temps (E (p th)) (Y th) ->
  forall L (dL : (nat -> VB RF nb nback.+2) -> nat -> VB RF nb nback.+2), loss_gradient nt L (Y th) (dL (Y th)) ->
  (forall e, (0 < e)%Re -> exists dlt, (0 < dlt)%Re /\ forall y', within nt dlt y' (Y th) -> within nt e (dL y') (dL (Y th))) ->
  exists D, derivable_pt_lim (fun u => L (Y u)) th D /\
    forall e, (0 < e)%Re -> exists tol, (0 < tol)%Re /\ forall st mth n,
      stress_run_to (B := family nback E pn eta s0 Rs d C g (p th)) nt times stresses temps tol st -> (0 < n)%N ->
      exists grad lam,
        rewindG (fun rows ts y => (call (p th) rows ts y).2) (GP (p th)) mth BackwardEuler n nt (time_table nb times) (i_result st) (dL (i_result st)) = Some (grad, lam) /\
        (Rabs ((\sum_(i < np) grad i 0 * q i 0)%R - D) <= e)%Re.
Proof.
cbv zeta; rewrite stress_callsE => A Gr nt2 dl0 Gd Sm Sp Dp HY Act L dL HL cL.
have HY' u : (Rabs (u - th) < dl)%Re -> mixed_history (B := family nback E pn eta s0 Rs d C g (p u)) nt times stresses temps ones (Y u).
{ move=> ud; apply/(stress_mixed (B := family nback E pn eta s0 Rs d C g (p u))); exact: HY. }
have [D [HD H]] := C145_gradient_of_runs_to_tolerance A (ones_controls (nb := nb)) Gr nt2 dl0 Gd Sm Sp Dp HY' (stress_active Act) HL cL.
exists D; split; first exact: HD. move=> e e0; have [tol [t0 K]] := H e e0; exists tol; split; first exact: t0.
move=> st mth n /stress_run Rn n0; exact: K Rn n0.
Qed.
Print Assumptions C146_gradient_of_runs_to_tolerance.

(** Training on creep tests: unless the loss is stationary there is a tolerance such that small steps against the gradient of every run to that tolerance lower the loss. *)
Theorem C146_steps_from_converged_runs np nback (E pn eta s0 Rs d : 'cV[RF]_np -> R -> R) (C g : 'cV[RF]_np -> R -> nat -> R)
    nb nt (times stresses temps : nat -> nat -> R) GP p0 r (sim : 'cV[RF]_np -> nat -> VB RF nb nback.+2) L (dL : (nat -> VB RF nb nback.+2) -> nat -> VB RF nb nback.+2) :
  let call := stress_calls (nback := nback) E pn eta s0 Rs d C g (nb := nb) nt times stresses temps in
  call_derivatives (fun p rows ts Y => (call p rows ts Y).1) GP ->
  times_increase nb nt times -> (1 < nt)%N -> (0 < r)%Re ->
  (forall p b, (dst p p0 <= r)%Re -> (b < nb)%N -> good_entry (E p) (pn p) (eta p) (s0 p) (Rs p) (d p) nback (C p) (g p) nt temps b) ->
  (forall k b, (k < nt)%N -> (b < nb)%N -> smooth_material nback E pn eta s0 Rs d C g p0 (temps k b)) ->
  (forall k b, (k < nt)%N -> (b < nb)%N -> (0 < s0 p0 (temps k b))%Re) ->
  (forall p, (dst p p0 <= r)%Re -> stress_history (B := family nback E pn eta s0 Rs d C g p) nt times stresses temps (sim p)) ->
  stress_steps_active nt times temps (E p0) (sim p0) ->
  loss_gradient nt L (sim p0) (dL (sim p0)) ->
  (forall e, (0 < e)%Re -> exists dlt, (0 < dlt)%Re /\ forall y', within nt dlt y' (sim p0) -> within nt e (dL y') (dL (sim p0))) ->
  (forall q, derivable_pt_lim (fun u => L (sim (moved p0 u q))) 0 0) \/
  exists tol, (0 < tol)%Re /\ forall st mth n, stress_run_to (B := family nback E pn eta s0 Rs d C g p0) nt times stresses temps tol st -> (0 < n)%N ->
    exists grad lam,
      rewindG (fun rows ts y => (call p0 rows ts y).2) (GP p0) mth BackwardEuler n nt (time_table nb times) (i_result st) (dL (i_result st)) = Some (grad, lam) /\
      exists e, (0 < e)%Re /\ forall lr, (0 < lr)%Re -> (lr < e)%Re -> (L (sim (moved p0 lr (- grad))) < L (sim p0))%Re.
Proof.
cbv zeta; rewrite stress_callsE => A Gr nt2 r0 Gd Sm Sp HY Act HL cL.
have HY' p : (dst p p0 <= r)%Re -> mixed_history (B := family nback E pn eta s0 Rs d C g p) nt times stresses temps ones (sim p).
{ move=> pd; apply/(stress_mixed (B := family nback E pn eta s0 Rs d C g p)); exact: HY. }
case: (C145_steps_from_converged_runs A (ones_controls (nb := nb)) Gr nt2 r0 Gd Sm Sp HY' (stress_active Act) HL cL) => [St|[tol [t0 K]]]; [by left|right].
exists tol; split; first exact: t0. move=> st mth n /stress_run Rn n0; exact: K Rn n0.
Qed.
Print Assumptions C146_steps_from_converged_runs.

(** The hypotheses are met, and there are such runs: two creep specimens loaded slowly, at positive absolute tolerances. *)
Example C146_ex og : exists (Y : R -> nat -> VB RF 2 3) GP D,
  derivable_pt_lim (fun u => loss 4 og (Y u)) 2%Re D /\
  forall e, (0 < e)%Re -> exists atol (st : istate RF 2 3), (0 < atol)%Re /\
    solve_stress (B := ex_fam (ex_line 2%Re)) 4 ex_t ex_slow ex_temp BackwardEuler (Direct Thomas) R0 atol 10 true "zero" 2 (fun _ => @zeroV RF 2 3) = inl st /\
    exists grad lam,
      rewindG (fun rows ts y => (stress_calls (nback := 1) (const_par (inord 0)) (const_par (inord 1)) (const_par (inord 2)) (const_par (inord 3)) (const_par (inord 4)) (const_par (inord 5)) (const_seq (inord 6)) (const_seq (inord 7)) (nb := 2) 4 ex_t ex_slow ex_temp (ex_line 2%Re) rows ts y).2) (GP (ex_line 2%Re)) PCR BackwardEuler 2 4 (time_table 2 ex_t) (i_result st) og = Some (grad, lam) /\
      (Rabs (slope grad (ex_line 1%Re) - D) <= e)%Re.
Proof.
have HY u : exists Y : nat -> VB RF 2 3, (Rabs (u - 2) < 1)%Re -> stress_history (B := ex_fam (ex_line u)) 4 ex_t ex_slow ex_temp Y.
{ case: (Rlt_dec (Rabs (u - 2)) 1) => ud; last by exists (fun _ => @zeroV RF 2 3).
  have [Y [H _]] := C146_exactly_one_history ex_slow ex_times (fun b _ => Props_Mixed.ex_good b ud); exists Y => _; exact: H. }
pose Y u := sval (ClassicalEpsilon.constructive_indefinite_description _ (HY u)).
have HYu u : (Rabs (u - 2) < 1)%Re -> stress_history (B := ex_fam (ex_line u)) 4 ex_t ex_slow ex_temp (Y u) := svalP (ClassicalEpsilon.constructive_indefinite_description _ (HY u)).
have [GP HGP] := call_derivatives_exist (fun p rows ts Y => (stress_calls (nback := 1) (const_par (inord 0)) (const_par (inord 1)) (const_par (inord 2)) (const_par (inord 3)) (const_par (inord 4)) (const_par (inord 5)) (const_seq (inord 6)) (const_seq (inord 7)) (nb := 2) 4 ex_t ex_slow ex_temp p rows ts Y).1).
have two : (Rabs (2 - 2) < 1)%Re by rewrite Rminus_diag_eq // Rabs_R0; lra.
have Gd2 b : (b < 2)%N -> _ := fun _ => Props_Mixed.ex_good b two.
have Act : stress_steps_active 4 ex_t ex_temp (const_par (inord 0) (ex_line 2%Re)) (Y 2%Re).
{ have [st0 [So [Wa H]]] := ex_run_any (control := ones) erefl two; rewrite stress_solve in So.
  have Mv k : (0 < k)%N -> (k < 4)%N -> exists b, i_result st0 k b ord0 ord0 <> i_result st0 k.-1 b ord0 ord0.
  { move=> k0 kn; exists b1; have := H k k0 kn; move=> h e; move: h; rewrite e Rminus_diag_eq //; lra. }
  have Eq := C146_runs_return_it ex_times Gd2 So Wa Mv (HYu 2%Re two).
  move=> k k0 kn; exists b1.
  rewrite -(Eq k kn) -(Eq k.-1 (leq_ltn_trans (leq_pred k) kn)).
  rewrite /const_par mxE; have -> : (ex_t k b1 - ex_t k.-1 b1 = 1)%Re by rewrite /ex_t; case: (k) k0 => // k' _; rewrite [k'.+1.-1]/= S_INR /=; ring.
  apply: Rlt_le_trans (Rle_abs _); have := H k k0 kn; set z := (2 * _)%Re => h; apply: Rlt_trans h; lra. }
have cL : forall e, (0 < e)%Re -> exists dlt, (0 < dlt)%Re /\ forall y' : nat -> VB RF 2 3, within 4 dlt y' (Y 2%Re) -> within 4 e og og.
{ move=> e e0; exists 1%Re; split; first lra. move=> _ _ k b i _; rewrite (Rminus_diag_eq _ _ erefl) Rabs_R0; exact: Rlt_le. }
have Sp2 k b : (k < 4)%N -> (b < 2)%N -> (0 < const_par (inord 3) (ex_line 2%Re) (ex_temp k b))%Re by move=> _ _; rewrite /const_par mxE; lra.
have [D [HD H]] := C146_gradient_of_runs_to_tolerance HGP ex_times (ltn0Sn 2 : (1 < 4)%N) Rlt_0_1 (fun u b ud _ => Props_Mixed.ex_good b ud) (fun k b _ _ => Props_Mixed.ex_smooth k b) Sp2 Props_Mixed.ex_dir HYu
   Act (dL := fun _ => og) (weighted_sum og (y := Y 2%Re)) cL.
exists Y, GP, D; split; first exact: HD. move=> e e0; have [tol [t0 Ht]] := H e e0.
pose a := Rmin tol (/ 10); have ap : (0 < a)%Re by apply: Rmin_glb_lt => //; lra.
have [st [So Wa]] := slow_run_any ones (Rlt_le _ _ ap) (Rmin_r _ _); rewrite stress_solve in So.
have Rn : stress_run_to (B := ex_fam (ex_line 2%Re)) 4 ex_t ex_slow ex_temp tol st.
{ exists (Direct Thomas), R0, a, 10%N, true, "zero"%string, 2%N, (fun _ => @zeroV RF 2 3); split; first exact: So. split; first exact: Wa.
  move=> b; split; [exact: Rlt_le|split; [exact: Rmin_l|by left]]. }
exists a, st; split; first exact: ap. split; first exact: So. exact: (Ht st PCR 2%N Rn (ltn0Sn 1)).
Qed.
