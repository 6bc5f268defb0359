(** C148: mixed and creep batches of perfectly viscoplastic tests whose simulations converged only to the solver's tolerances: their distance to the exact history, their gradients,
    and training with them. *)
From Coq Require Import Reals List String Lra Lia FunctionalExtensionality.
From mathcomp Require Import all_ssreflect all_algebra.
From Verif Require Import ChunkModel ChunkSolve ChunkInst NewtonModel Ode OdeForward OdeAdjoint OdeReal OdeBlock OdeDiff RField Gmres Implicit Tolerance Converge Pipeline PipelineBoth SmoothMx VCGrad VCExact PVGrad PVMixed GradHist MixedVC AdjointBlock NewtonConv.
From Verif Require Props_Training Interp Models Flow Hardening Deriv Slices SmoothR PVSmooth PipelineR Props_Stress Props_Tolerance Props_Converge Props_Gradient Props_GradTol Props_Descent Props_PerfectGrad Props_Mixed Props_PerfectTol Props_MixedTol Props_MixedRuns Props_StressCal Props_PerfectMixed.
Import GRing.Theory.
Set Implicit Arguments. Unset Strict Implicit. Unset Printing Implicit Defensive.
Local Open Scope ring_scope.
Delimit Scope R_scope with Re.
Import Props_Training Props_Stress Props_Tolerance Props_Converge Props_Gradient Props_GradTol Props_Descent Props_PerfectGrad Props_Mixed Props_PerfectTol Props_MixedTol Props_MixedRuns Props_StressCal Props_PerfectMixed.

(** Whatever the tolerances, solvers, block sizes and guesses: as many tolerances from the exact history as steps were taken, if the history strains some stress-controlled test faster
    than the inner tolerance in every step. *)
Theorem C148_runs_near_the_exact_history (E pn eta : R -> R) nb nt (times data temps : nat -> nat -> R) (control : nat -> R) (B := Models.inelastic E (Flow.perfect pn eta))
    lm rtol atol miter throw gt n init st (b : 'I_nb) tol (Y : nat -> VB RF nb 1) :
  controls nb control -> times_increase nb nt times ->
  (forall k b, (k < nt)%N -> (b < nb)%N -> (0 < E (temps k b) /\ 0 < pn (temps k b) /\ 0 < eta (temps k b))%Re) ->
  solve_both (B := B) nt times data temps control BackwardEuler lm rtol atol miter throw gt n init = inl st -> i_warned st = [::] ->
  tol_boundG (both_G (B := B) (nb := nb) nt times data temps control) BackwardEuler rtol atol gt n nt (time_table nb times) (i_result st) b tol ->
  mixed_history (B := B) nt times data temps control Y -> every_step_active nt times temps control E Y ->
  forall k, (k < nt)%N -> (Rabs (i_result st k b ord0 ord0 - Y k b ord0 ord0) <= INR k * tol)%Re.
Proof.
move=> Cc Gr P So Wa T [Z HS] Act.
have Ep k b' : (k < nt)%N -> (b' < nb)%N -> (0 < E (temps k b'))%Re by move=> kn bn; have [] := P k b' kn bn.
have V (z : 'cV[RF]_1) : @to_vec B z 0%N = z ord0 ord0 := @pm_e0 E pn eta z.
elim=> [|k IH] kn.
{ have := run_zero So b (ltn0Sn 0 : (0 < Models.rf_n B)%N); rewrite /entry V => ->; rewrite Z !ffunE !mxE Rminus_0_r Rabs_R0 Rmult_0_l; exact: Rle_refl. }
have n2 : (1 < nt)%N := leq_ltn_trans (ltn0Sn k) kn.
have [ts [ZZ [q [rows [j [Hr jr kE [Hts HZ] H]]]]]] := block_rows_tol So Wa T (ltn0Sn k) kn.
have IT i (b' : 'I_nb) : (i < rows)%N -> interp_at nt times temps b' (ts i b') = temps (q + i)%N b' /\ (q + i < nt)%N.
{ move=> ir; have qi : (q + i < nt)%N by apply: leq_trans Hr; rewrite ltn_add2l.
  by rewrite Hts // ffunE (interp_knot temps n2 (ltn_ord b') Gr qi). }
have E0 i (b' : 'I_nb) : (i < rows)%N -> (0 < E (interp_at nt times temps b' (ts i b')))%Re.
{ move=> ir; have [-> qi] := IT i b' ir; exact: Ep qi (ltn_ord b'). }
have ex : forall i b, (i < rows)%N -> (both_G (B := B) nt times data temps control rows ts ZZ).1 i b = pm_f E pn eta nt times data temps control b (ts i b) (ZZ i b).
{ have alt := @both_rate_alt_p E pn eta nb nt times data temps control Cc rows ts ZZ E0; case: Act => [C0|Act].
  - move=> i b' ir; exact: (@both_rate_p E pn eta nb nt times data temps control Cc rows ts ZZ E0 (or_introl C0) i b' ir).
  - case: alt => // alt; exfalso; have [ba [ca act]] := Act k.+1 (ltn0Sn k) kn; have [_ bd] := alt j ba jr ca.
    have := proj1 (pm_model (nb := nb) pn eta data Cc Gr Ep Y ba (ltn0Sn k) kn) (HS k.+1 ba (ltn0Sn k) kn).
    have dt := dt_pos (ltn_ord ba) Gr (ltn0Sn k) kn; have e0 := Ep k.+1 ba kn (ltn_ord ba).
    move: bd; rewrite /pm_step /pm_f; case: Req_EM_T => // c1; rewrite mxE Hts // -kE ffunE !(interp_knot (nb := nb)) // (rates_knot data (ltn_ord ba) Gr (ltn0Sn k) kn) /step_rate => bd hy.
    rewrite hy in act.
    have Fl (a e t x f : R) : (0 < t)%Re -> (0 < e)%Re -> (Rabs (e * (x / t / e + f)) <= a)%Re -> (a * t < Rabs (e * (x / e + t * f)))%Re -> False.
    { move=> t0 ep h1; have -> : (e * (x / e + t * f) = t * (e * (x / t / e + f)))%Re by field; lra.
      rewrite Rabs_mult (Rabs_pos_eq t) => [h|]; last lra. nra. }
    exact: Fl dt e0 bd act. }
have [P1 [P2 P3]] := P k.+1 b kn (ltn_ord b).
have D := dt_pos (ltn_ord b) Gr (ltn0Sn k) kn.
have := H 0%N (ltn0Sn 0); rewrite ex // V Hts // HZ // -kE ffunE /entry !V => K.
have S1 := proj1 (pm_model (nb := nb) pn eta data Cc Gr Ep Y b (ltn0Sn k) kn) (HS k.+1 b (ltn0Sn k) kn).
rewrite S_INR Rmult_plus_distr_r Rmult_1_l.
apply: Rle_trans (Rplus_le_compat_r _ _ _ (IH (ltnW kn))).
move: S1 K; rewrite /pm_step /pm_f; case: Req_EM_T => c1.
- rewrite mxE !(interp_knot (nb := nb)) // (rates_knot data (ltn_ord b) Gr (ltn0Sn k) kn) /step_rate [k.+1.-1]/=.
  have Fl (s s' z z' x t e f a : R) : (0 < t)%Re -> (0 < e)%Re -> (s - z = x / e + t * f)%Re -> (Rabs (s' - z' - t * (x / t / e + f)) <= a)%Re -> (Rabs (s' - s) <= Rabs (z' - z) + a)%Re.
  { move=> t0 ep h; have -> : (s' - s = (z' - z) + (s' - z' - (s - z)))%Re by ring. rewrite h => h2.
    have E2 : (t * (x / t / e + f) = x / e + t * f)%Re by field; lra. rewrite E2 in h2.
    apply: Rle_trans (Rabs_triang _ _) _; lra. }
  exact: Fl D P1.
- rewrite (strain_f_knot (B := B) data temps b _ n2 Gr (ltn0Sn k) kn) [k.+1.-1]/= mxE /= /step_rate /= /Slices.cat /= V => S1 K.
  apply: (step_close (Rlt_le _ _ P1) P2 P3 (Rlt_le _ _ D) S1 _ K).
  have Fl (u v dt e de q0 : R) : (0 < dt -> u - v = e * (de - dt * q0) + (u - v - dt * (e * (de / dt - q0))))%Re by move=> d0; field; lra.
  exact: Fl D.
Qed.
Print Assumptions C148_runs_near_the_exact_history.

Section Cal.
Variables (np : nat) (E pn eta : 'cV[RF]_np -> R -> R) (nb nt : nat) (times data temps : nat -> nat -> R) (control : nat -> R).
Let model p := pv_family E pn eta p.
Let rate := pm_rate E pn eta (nb := nb) nt times data temps control.
Let jac := pm_jac E pn eta (nb := nb) nt times data temps control.
Let call (p : 'cV[RF]_np) : nat -> (nat -> TB RF nb) -> (nat -> VB RF nb 1) -> (nat -> VB RF nb 1) * (nat -> MB RF nb 1) := pv_calls E pn eta (nb := nb) nt times data temps control p.
Hypothesis Cc : controls nb control.
Hypothesis Gr : times_increase nb nt times.
Hypothesis nt2 : (1 < nt)%N.
Variables (p0 : 'cV[RF]_np) (Y : nat -> VB RF nb 1).
Hypothesis G0 : forall k b, (k < nt)%N -> (b < nb)%N -> (0 < E p0 (temps k b) /\ 1 < pn p0 (temps k b) /\ 0 < eta p0 (temps k b))%Re.
Hypothesis Sm : forall k b, (k < nt)%N -> (b < nb)%N -> pv_smooth E pn eta p0 (temps k b).
Hypothesis HY : mixed_history (B := model p0) nt times data temps control Y.
Hypothesis Act : every_step_active nt times temps control (E p0) Y.
Let tt := time_table nb times.
Let dp := sval (ClassicalEpsilon.constructive_indefinite_description _ (parameter_derivatives_exist rate)).
Let Hdp : parameter_derivatives rate dp := svalP (ClassicalEpsilon.constructive_indefinite_description _ (parameter_derivatives_exist rate)).
Lemma perf_IT k (b : 'I_nb) : (k < nt)%N -> interp_at nt times temps b (tt k b) = temps k b.
Proof. by move=> kn; rewrite ffunE (interp_knot temps nt2 (ltn_ord b) Gr kn). Qed.
Lemma perf_Ep k (b : 'I_nb) : (k < nt)%N -> (0 < E p0 (temps k b))%Re.
Proof. by move=> kn; have [] := G0 kn (ltn_ord b). Qed.
Lemma perf_c1 k b (z : 'cV[RF]_1) : (k < nt)%N -> c1_near (rate b (tt k b)) (jac b (tt k b)) (dp b (tt k b)) z p0.
Proof.
move=> kn; have S1 : pv_smooth E pn eta p0 (interp_at nt times temps b (tt k b)) by rewrite perf_IT //; exact: (Sm kn (ltn_ord b)).
apply: c1_of_rows => [i||].
- apply: pm_rows_smooth S1 _; rewrite perf_IT //; exact: perf_Ep.
- exact: pm_jac_near S1.
- exact: Hdp.
Qed.
Lemma perf_regular : steps_regular jac BackwardEuler nt tt p0 Y.
Proof. move=> _ k b k0 kn; exact: (pm_step_regular data control Gr b (Y k b) k0 kn G0). Qed.
(** The backward pass through the calls of the simulation is the one through the exact rates, at any history: the rate of a stress-controlled test does not depend on its strain. *)
Lemma perf_rewind GP : call_derivatives (fun p rows ts Y => (call p rows ts Y).1) GP ->
  forall (y' og' : nat -> VB RF nb 1) mth n, (0 < n)%N ->
    rewindG (fun rows ts y => (call p0 rows ts y).2) (GP p0) mth BackwardEuler n nt tt y' og' = rewind (at_p jac p0) (at_p dp p0) mth BackwardEuler n nt tt y' og'.
Proof.
move=> autograd y' og' mth n n0; have nt0 : (0 < nt)%N := ltnW nt2.
rewrite (@rewindG_eq RF nb 1 np _ _ mth (at_p jac p0) (at_p dp p0)) //.
- move=> rows ts y; exact: (@both_jac_p (E p0) (pn p0) (eta p0) nb nt times data temps control Cc rows ts y).
move=> k j b k0 kn jl; cbv zeta.
set len := slice_len nt k (k + n) in jl *; set ts := fun j => flipn nt tt (k - 1 + j)%N; set yy := fun j => flipn nt y' (k - 1 + j)%N.
pose kap i := (nt - 1 - (k - 1 + i))%N.
have lenE : (len <= nt - k)%N by rewrite /len /slice_len leq_sub2r // geq_minr.
have kap_lt i : (kap i < nt)%N by rewrite /kap; apply: leq_ltn_trans (leq_subr _ _) _; rewrite subn1 prednK.
have kap_pos i : (i < len)%N -> (0 < kap i)%N.
{ move=> il; rewrite /kap subn_gt0; have h : (i < nt - k)%N := leq_trans il lenE; move: h k0 kn; clear; move=> /ltP h /ltP a /ltP c; apply/ltP; rewrite -!minusE -!plusE in h *; lia. }
apply: autograd => c th' q' ceq Dc.
have at_knot i (b' : 'I_nb) : ts i b' = tt (kap i) b' by [].
have DE i (b' : 'I_nb) : exists l, derivable_pt_lim (fun u => E (c u) (interp_at nt times temps b' (ts i b'))) th' l.
{ rewrite at_knot perf_IT //; have [[GG [[dd [dd0 HD]] _]] _ _ _] := Sm (kap_lt i) (ltn_ord b'); eexists; apply: HD Dc; rewrite ceq dst0; exact: Rlt_le. }
have DR i (b' : 'I_nb) : cdiff (fun u => rate b' (ts i b') (yy i b') (c u)) th' (dp b' (ts i b') (yy i b') p0 *m q').
{ have Pa : partials_at (rate b' (tt (kap i) b')) (jac b' (tt (kap i) b') (yy i b') p0) (dp b' (tt (kap i) b') (yy i b') p0) (yy i b') p0 := sdiff_partials (c1_sdiff (perf_c1 b' (yy i b') (kap_lt i))).
  have := Pa (fun _ => yy i b') c th' 0 q' erefl ceq; rewrite mulmx0 add0r; apply=> //; exact: cdiff_cst. }
have Near : near th' (fun u => forall j b, (j < len)%N -> (call (c u) len ts yy).1 j b = rate b (ts j b) (yy j b) (c u)).
{ have N1 : near th' (fun u => forall (i : 'I_len) (b' : 'I_nb), (0 < E (c u) (interp_at nt times temps b' (ts i b')))%Re).
  { apply: near_all => i; apply: near_all => b'; have [l Dl] := DE i b'; apply: near_above Dl _; rewrite ceq at_knot perf_IT //; exact: perf_Ep. }
  have N2 : near th' (fun u => (forall b, (b < nb)%N -> control b = 0%Re) \/ call_active_p (E (c u)) (pn (c u)) (eta (c u)) nt times data temps control len ts yy).
  { case: Act => [C0|Ac]; first by apply: near_true => u; left.
    have j0 : (0 < len)%N by exact: leq_ltn_trans jl.
    have [ba [ca act]] := Ac (kap 0%N) (kap_pos 0%N j0) (kap_lt 0%N).
    have [l Dl] := DE 0%N ba; have Dr := DR 0%N ba ord0.
    have Dm := derivable_pt_lim_mult _ _ _ _ _ Dl Dr.
    apply: near_imp (near_abs_above Dm (a := (/ 10 ^ 10)%Re) _) => [u hu|]; first by right; exists 0%N, ba; split.
    have dt := dt_pos (ltn_ord ba) Gr (kap_pos 0%N j0) (kap_lt 0%N).
    rewrite /mult_fct ceq [X in E _ X](perf_IT ba (kap_lt 0%N)).
    have hr := @pm_history_rate np E pn eta nb nt times data temps control Cc Gr p0 Y (kap 0%N) ba G0 HY (kap_pos 0%N j0) (kap_lt 0%N).
    rewrite hr in act.
    have -> : rate ba (ts 0%N ba) (yy 0%N ba) p0 ord0 0 = pm_rate E pn eta nt times data temps control ba (times (kap 0%N) ba) (Y (kap 0%N) ba) p0 ord0 ord0.
    { rewrite at_knot ffunE /rate /pm_rate /pm_f; case: Req_EM_T => // h; by case: (h ca). }
    have Fl (a e t x : R) : (0 < t)%Re -> (a * t < Rabs (e * (t * x)))%Re -> (a < Rabs (e * x))%Re.
    { move=> t0; have -> : (e * (t * x) = t * (e * x))%Re by ring. rewrite Rabs_mult (Rabs_pos_eq t) => [h|]; last lra. apply: (Rmult_lt_reg_l t) => //; lra. }
    exact: Fl dt act. }
  have := near_and N1 N2; apply: near_imp => u [h1 h2] i b' il.
  apply: (both_rate_p Cc) h2 _ _ il => k' b'' k'l; exact: (h1 (Ordinal k'l) b''). }
move=> i; apply: dpl_ext_loc (DR j b i); have [dd [dd0 Hdd]] := Near; exists dd; split=> // u ud; by rewrite Hdd.
Qed.
Lemma perf_near GP og q D : call_derivatives (fun p rows ts Y => (call p rows ts Y).1) GP ->
  (exists grad lam, rewindG (fun rows ts y => (call p0 rows ts y).2) (GP p0) Thomas BackwardEuler 1 nt tt Y og = Some (grad, lam) /\ slope grad q = D) ->
  forall e, (0 < e)%Re -> exists dlt, (0 < dlt)%Re /\ forall (y' og' : nat -> VB RF nb 1) mth n, within nt dlt y' Y -> within nt dlt og' og -> (0 < n)%N ->
    exists grad lam, rewindG (fun rows ts y => (call p0 rows ts y).2) (GP p0) mth BackwardEuler n nt tt y' og' = Some (grad, lam) /\ (Rabs (slope grad q - D) <= e)%Re.
Proof.
move=> autograd Rw e e0; have H1 := perf_rewind autograd.
have Rw' : exists grad lam, rewind (at_p jac p0) (at_p dp p0) Thomas BackwardEuler 1 nt tt Y og = Some (grad, lam) /\ slope grad q = D by rewrite -(H1 Y og Thomas 1%N (ltn0Sn 0)).
have [d2 [d20 H2]] := near_core (ltnW nt2) (fun k b kn => perf_c1 b (Y k b) kn) perf_regular Rw' e0.
exists d2; split; first exact: d20.
move=> y' og' mth n W1 W2 n0; rewrite H1 //; exact: (H2 y' og' mth n W1 W2 n0).
Qed.
End Cal.

(** Gradients of runs to tolerance are near the derivative of the loss of the exact histories. *)
Theorem C148_gradient_of_runs_to_tolerance np (E pn eta : 'cV[RF]_np -> R -> R) nb nt (times data temps : nat -> nat -> R) (control : nat -> R)
    GP (p : R -> 'cV[RF]_np) q th dl (Y : R -> nat -> VB RF nb 1) :
  let call := pv_calls E pn eta (nb := nb) nt times data temps control in
  call_derivatives (fun p rows ts Y => (call p rows ts Y).1) GP ->
  controls nb control -> times_increase nb nt times -> (1 < nt)%N -> (0 < dl)%Re ->
  (forall u k b, (Rabs (u - th) < dl)%Re -> (k < nt)%N -> (b < nb)%N -> (0 < E (p u) (temps k b) /\ 1 < pn (p u) (temps k b) /\ 0 < eta (p u) (temps k b))%Re) ->
  (forall k b, (k < nt)%N -> (b < nb)%N -> pv_smooth E pn eta (p th) (temps k b)) ->
  cdiff p th q ->
  (forall u, (Rabs (u - th) < dl)%Re -> mixed_history (B := Models.inelastic (E (p u)) (Flow.perfect (pn (p u)) (eta (p u)))) nt times data temps control (Y u)) ->
  every_step_active nt times temps control (E (p th)) (Y th) ->
  forall L (dL : (nat -> VB RF nb 1) -> nat -> VB RF nb 1), loss_gradient nt L (Y th) (dL (Y th)) ->
  (forall e, (0 < e)%Re -> exists dlt, (0 < dlt)%Re /\ forall y', within nt dlt y' (Y th) -> within nt e (dL y') (dL (Y th))) ->
  exists D, derivable_pt_lim (fun u => L (Y u)) th D /\
    forall e, (0 < e)%Re -> exists tol, (0 < tol)%Re /\ forall st mth n,
      run_to (B := Models.inelastic (E (p th)) (Flow.perfect (pn (p th)) (eta (p th)))) nt times data temps control tol st -> (0 < n)%N ->
      exists grad lam,
        rewindG (fun rows ts y => (call (p th) rows ts y).2) (GP (p th)) mth BackwardEuler n nt (time_table nb times) (i_result st) (dL (i_result st)) = Some (grad, lam) /\
        (Rabs ((\sum_(i < np) grad i 0 * q i 0)%R - D) <= e)%Re.
Proof.
move=> call A Cc Gr nt2 dl0 Gd Sm Dp HY Act L dL HL cL.
have th0 : (Rabs (th - th) < dl)%Re by rewrite (_ : (th - th = 0)%Re) ?Rabs_R0 //; ring.
have [gr0 [lam0 [E0 D0]]] := C147_gradient_of_exact_simulations Thomas A Cc Gr nt2 (ltn0Sn 0) dl0 Gd Sm Dp HY Act HL.
exists (\sum_(i < np) gr0 i 0 * q i 0); split; first exact: D0. move=> e e0.
have G0 k b : (k < nt)%N -> (b < nb)%N -> (0 < E (p th) (temps k b) /\ 1 < pn (p th) (temps k b) /\ 0 < eta (p th) (temps k b))%Re := Gd th k b th0.
have Rw : exists grad lam, rewindG (fun rows ts y => (call (p th) rows ts y).2) (GP (p th)) Thomas BackwardEuler 1 nt (time_table nb times) (Y th) (dL (Y th)) = Some (grad, lam) /\
  slope grad q = \sum_(i < np) gr0 i 0 * q i 0 by exists gr0, lam0.
have [d1 [d10 H1]] := perf_near Cc Gr nt2 G0 Sm (HY th th0) Act A Rw e0.
have [d2 [d20 H2]] := cL d1 d10.
have N0 := pos_INR nt.
exists (Rmin d1 d2 / (INR nt + 1))%Re; split; first by apply: Rdiv_lt_0_compat; [exact: Rmin_glb_lt|lra].
move=> st mth n [lm [rtol [atol [miter [throw [gt [n' [init [So [Wa T]]]]]]]]]] n0.
have Wi : within nt (Rmin d1 d2) (i_result st) (Y th).
{ move=> k b i kn; rewrite (ord1 i).
  have P k' b' : (k' < nt)%N -> (b' < nb)%N -> (0 < E (p th) (temps k' b') /\ 0 < pn (p th) (temps k' b') /\ 0 < eta (p th) (temps k' b'))%Re.
  { move=> kn' bn'; have [P1 [P2 P3]] := G0 k' b' kn' bn'; split; first exact: P1. split; last exact: P3. apply: Rlt_trans P2; exact: Rlt_0_1. }
  apply: Rle_trans (C148_runs_near_the_exact_history Cc Gr P So Wa (T b) (HY th th0) Act kn) _.
  have kI : (INR k <= INR nt)%Re by apply: le_INR; apply/leP; exact: ltnW.
  have m0 : (0 < Rmin d1 d2)%Re by exact: Rmin_glb_lt.
  have Fl (k' N m : R) : (0 <= N)%Re -> (k' <= N)%Re -> (0 < m)%Re -> (k' * (m / (N + 1)) <= m)%Re.
  { move=> h1 h2 h3; apply: (Rmult_le_reg_r (N + 1)); first lra. have -> : (k' * (m / (N + 1)) * (N + 1) = k' * m)%Re by field; lra. nra. }
  exact: Fl N0 kI m0. }
have W1 : within nt d1 (i_result st) (Y th) by move=> k b i kn; apply: Rle_trans (Wi k b i kn) (Rmin_l _ _).
have W2 : within nt d2 (i_result st) (Y th) by move=> k b i kn; apply: Rle_trans (Wi k b i kn) (Rmin_r _ _).
exact: (H1 _ _ mth n W1 (H2 _ W2) n0).
Qed.
Print Assumptions C148_gradient_of_runs_to_tolerance.

(** Training with exact simulations of such a batch goes downhill. *)
Theorem C148_training_goes_downhill np (E pn eta : 'cV[RF]_np -> R -> R) nb nt (times data temps : nat -> nat -> R) (control : nat -> R)
    GP p0 r (sim : 'cV[RF]_np -> nat -> VB RF nb 1) L og :
  let call := pv_calls E pn eta (nb := nb) nt times data temps control in
  call_derivatives (fun p rows ts Y => (call p rows ts Y).1) GP ->
  controls nb control -> times_increase nb nt times -> (1 < nt)%N -> (0 < r)%Re ->
  (forall p k b, (dst p p0 <= r)%Re -> (k < nt)%N -> (b < nb)%N -> (0 < E p (temps k b) /\ 1 < pn p (temps k b) /\ 0 < eta p (temps k b))%Re) ->
  (forall k b, (k < nt)%N -> (b < nb)%N -> pv_smooth E pn eta p0 (temps k b)) ->
  (forall p, (dst p p0 <= r)%Re -> mixed_history (B := Models.inelastic (E p) (Flow.perfect (pn p) (eta p))) nt times data temps control (sim p)) ->
  every_step_active nt times temps control (E p0) (sim p0) ->
  loss_gradient nt L (sim p0) og ->
  exists grad, goes_downhill p0 (fun p => L (sim p))
    (fun mth n => rewindG (fun rows ts y => (call p0 rows ts y).2) (GP p0) mth BackwardEuler n nt (time_table nb times) (sim p0) og) grad.
Proof.
move=> call A Cc Gr nt2 r0 Gd Sm HY Act HL; apply: downhill => q mth n n0.
have [dl [dl0 Hd]] := along_line p0 q r0.
have HL' : loss_gradient nt L (sim (moved p0 0%Re q)) og by rewrite moved0.
have Sm' k b : (k < nt)%N -> (b < nb)%N -> pv_smooth E pn eta (moved p0 0%Re q) (temps k b) by rewrite moved0; exact: Sm.
have Act' : every_step_active nt times temps control (E (moved p0 0%Re q)) (sim (moved p0 0%Re q)) by rewrite moved0.
have := @C147_gradient_of_exact_simulations np E pn eta nb nt times data temps control GP mth n (fun u => moved p0 u q) q 0%Re dl (fun u => sim (moved p0 u q)) A Cc Gr nt2 n0 dl0
  (fun u k b ud => Gd _ k b (Hd u ud)) Sm' (moved_diff p0 q) (fun u ud => HY _ (Hd u ud)) Act' L og HL'.
rewrite moved0; exact.
Qed.
Print Assumptions C148_training_goes_downhill.

(** Training with simulations to tolerance: unless the loss is stationary there is a tolerance such that small steps against the gradient of every run to that tolerance lower the
    exact loss. *)
Theorem C148_steps_from_converged_runs np (E pn eta : 'cV[RF]_np -> R -> R) nb nt (times data temps : nat -> nat -> R) (control : nat -> R)
    GP p0 r (sim : 'cV[RF]_np -> nat -> VB RF nb 1) L (dL : (nat -> VB RF nb 1) -> nat -> VB RF nb 1) :
  let call := pv_calls E pn eta (nb := nb) nt times data temps control in
  call_derivatives (fun p rows ts Y => (call p rows ts Y).1) GP ->
  controls nb control -> times_increase nb nt times -> (1 < nt)%N -> (0 < r)%Re ->
  (forall p k b, (dst p p0 <= r)%Re -> (k < nt)%N -> (b < nb)%N -> (0 < E p (temps k b) /\ 1 < pn p (temps k b) /\ 0 < eta p (temps k b))%Re) ->
  (forall k b, (k < nt)%N -> (b < nb)%N -> pv_smooth E pn eta p0 (temps k b)) ->
  (forall p, (dst p p0 <= r)%Re -> mixed_history (B := Models.inelastic (E p) (Flow.perfect (pn p) (eta p))) nt times data temps control (sim p)) ->
  every_step_active nt times temps control (E p0) (sim p0) ->
  loss_gradient nt L (sim p0) (dL (sim p0)) ->
  (forall e, (0 < e)%Re -> exists dlt, (0 < dlt)%Re /\ forall y', within nt dlt y' (sim p0) -> within nt e (dL y') (dL (sim p0))) ->
  (forall q, derivable_pt_lim (fun u => L (sim (moved p0 u q))) 0 0) \/
  exists tol, (0 < tol)%Re /\ forall st mth n, run_to (B := Models.inelastic (E p0) (Flow.perfect (pn p0) (eta p0))) nt times data temps control tol st -> (0 < n)%N ->
    exists grad lam,
      rewindG (fun rows ts y => (call p0 rows ts y).2) (GP p0) mth BackwardEuler n nt (time_table nb times) (i_result st) (dL (i_result st)) = Some (grad, lam) /\
      exists e, (0 < e)%Re /\ forall lr, (0 < lr)%Re -> (lr < e)%Re -> (L (sim (moved p0 lr (- grad))) < L (sim p0))%Re.
Proof.
move=> call A Cc Gr nt2 r0 Gd Sm HY Act HL cL.
have [gr [Rw [Dr [K _]]]] := C148_training_goes_downhill A Cc Gr nt2 r0 Gd Sm HY Act HL.
case: (eqVneq gr 0) => [gz|/eqP gn].
{ left=> q; have := Dr q; rewrite gz (_ : slope 0 q = 0%Re) // /slope big1 // => i _; by rewrite mxE mul0r. }
right; have [dl [dl0 Hd]] := along_line p0 gr r0; have N0 := dot_pos gn; set N := slope gr gr in N0.
have Sm' k b : (k < nt)%N -> (b < nb)%N -> pv_smooth E pn eta (moved p0 0%Re gr) (temps k b) by rewrite moved0; exact: Sm.
have Act' : every_step_active nt times temps control (E (moved p0 0%Re gr)) (sim (moved p0 0%Re gr)) by rewrite moved0.
have HL' : loss_gradient nt L (sim (moved p0 0%Re gr)) (dL (sim (moved p0 0%Re gr))) by rewrite moved0.
have cL' : forall e, (0 < e)%Re -> exists dlt, (0 < dlt)%Re /\ forall y', within nt dlt y' (sim (moved p0 0%Re gr)) -> within nt e (dL y') (dL (sim (moved p0 0%Re gr))) by rewrite moved0.
have [D0 [HD H]] := @C148_gradient_of_runs_to_tolerance np E pn eta nb nt times data temps control GP (fun u => moved p0 u gr) gr 0%Re dl (fun u => sim (moved p0 u gr)) A Cc Gr nt2 dl0
  (fun u k b ud => Gd _ k b (Hd u ud)) Sm' (moved_diff p0 gr) (fun u ud => HY _ (Hd u ud)) Act' L dL HL' cL'.
have ED : D0 = N := uniqueness_limite _ _ _ _ HD (Dr gr).
have N2 : (0 < N / 2)%Re by lra.
have [tol [t0 Ht]] := H (N / 2)%Re N2; exists tol; split; first exact: t0.
move=> st mth n Rn n0; rewrite moved0 in Ht; have [grad [lam [Rw' Cl]]] := Ht st mth n Rn n0.
exists grad, lam; split; [exact: Rw'|apply: K].
rewrite slope_opp; rewrite ED in Cl; have Fl (x : R) : (Rabs (x - N) <= N / 2 -> - x < 0)%Re by have := N0; rewrite /Rabs; case: Rcase_abs; lra.
exact: Fl Cl.
Qed.
Print Assumptions C148_steps_from_converged_runs.

(** Creep batches: nothing is assumed about the runs.  Unless the loss is stationary there is a threshold such that with relative tolerance zero and any absolute tolerance below it
    the simulation succeeds, for every linear solver, block size and initial iterate, and every sufficiently small step against its gradient lowers the exact loss. *)
Theorem C148_creep_training_always_works np (E pn eta : 'cV[RF]_np -> R -> R) nb nt (times stresses temps : nat -> nat -> R)
    GP p0 r (sim : 'cV[RF]_np -> nat -> VB RF nb 1) L (dL : (nat -> VB RF nb 1) -> nat -> VB RF nb 1) :
  let call := pv_stress_calls E pn eta (nb := nb) nt times stresses temps in
  call_derivatives (fun p rows ts Y => (call p rows ts Y).1) GP ->
  times_increase nb nt times -> (1 < nt)%N -> (0 < r)%Re ->
  (forall p k b, (dst p p0 <= r)%Re -> (k < nt)%N -> (b < nb)%N -> (0 < E p (temps k b) /\ 1 < pn p (temps k b) /\ 0 < eta p (temps k b))%Re) ->
  (forall k b, (k < nt)%N -> (b < nb)%N -> pv_smooth E pn eta p0 (temps k b)) ->
  (forall p, (dst p p0 <= r)%Re -> stress_history (B := Models.inelastic (E p) (Flow.perfect (pn p) (eta p))) nt times stresses temps (sim p)) ->
  stress_steps_active nt times temps (E p0) (sim p0) ->
  loss_gradient nt L (sim p0) (dL (sim p0)) ->
  (forall e, (0 < e)%Re -> exists dlt, (0 < dlt)%Re /\ forall y', within nt dlt y' (sim p0) -> within nt e (dL y') (dL (sim p0))) ->
  (forall q, derivable_pt_lim (fun u => L (sim (moved p0 u q))) 0 0) \/
  exists tol, (0 < tol)%Re /\ forall lm atol miter throw n init, (0 <= atol)%Re -> (atol <= tol)%Re -> (0 < n)%N -> (1 < miter)%N ->
    exists st : istate RF nb 1,
      solve_stress (B := Models.inelastic (E p0) (Flow.perfect (pn p0) (eta p0))) nt times stresses temps BackwardEuler lm R0 atol miter throw "zero" n init = inl st /\ i_warned st = [::] /\
      forall mth n', (0 < n')%N -> exists grad lam,
        rewindG (fun rows ts y => (call p0 rows ts y).2) (GP p0) mth BackwardEuler n' nt (time_table nb times) (i_result st) (dL (i_result st)) = Some (grad, lam) /\
        exists e, (0 < e)%Re /\ forall lr, (0 < lr)%Re -> (lr < e)%Re -> (L (sim (moved p0 lr (- grad))) < L (sim p0))%Re.
Proof.
move=> call A Gr nt2 r0 Gd Sm HY Act HL cL.
have cE : call = pv_calls E pn eta (nb := nb) nt times stresses temps ones.
{ apply: functional_extensionality => p; by rewrite /call /pv_stress_calls /pv_calls stress_G_both. }
rewrite cE in A *.
have HY' p : (dst p p0 <= r)%Re -> mixed_history (B := Models.inelastic (E p) (Flow.perfect (pn p) (eta p))) nt times stresses temps ones (sim p).
{ move=> pd; apply/(stress_mixed (B := Models.inelastic (E p) (Flow.perfect (pn p) (eta p)))); exact: HY. }
case: (C148_steps_from_converged_runs A (ones_controls (nb := nb)) Gr nt2 r0 Gd Sm HY' (stress_active Act) HL cL) => [St|[tol [t0 K]]]; [by left|right].
exists tol; split; first exact: t0. move=> lm atol miter throw n init a0 at' n0 m0.
have [st [So Wa]] := @C91_always_solved (E p0) (Flow.perfect (pn p0) (eta p0)) nb nt times stresses temps lm R0 atol miter throw "zero" n init erefl a0 n0 m0 (ltnW nt2) (or_introl erefl).
exists st; split; first exact: So. split; first exact: Wa. move=> mth n' n'0.
have Rn : run_to (B := Models.inelastic (E p0) (Flow.perfect (pn p0) (eta p0))) nt times stresses temps ones tol st.
{ apply: stress_run; exists lm, R0, atol, miter, throw, "zero"%string, n, init; split; first exact: So. split; first exact: Wa.
  move=> b; split; first exact: Rlt_le. split; first exact: at'. by left. }
exact: (K st mth n' Rn n'0).
Qed.
Print Assumptions C148_creep_training_always_works.

(** Example: the three constants of a material near 2, one step of a creep test, the loss is the strain it ends with; every absolute tolerance below a threshold works. *)
Lemma ex_strain (sim : 'cV[RF]_3 -> nat -> VB RF 1 1) : (forall p, (dst p two3 <= / 2)%Re ->
    stress_history (B := Models.inelastic (fun _ => p (inord 0) ord0) (Flow.perfect (fun _ => p (inord 1) ord0) (fun _ => p (inord 2) ord0))) 2 ex_t ramp ex_temp (sim p)) ->
  (exists q s, derivable_pt_lim (fun u => loss 2 (fun _ => [ffun _ => const_mx 1]) (sim (moved two3 u q))) 0 s /\ s <> 0%Re) /\
  stress_steps_active 2 ex_t ex_temp (fun _ => 2%Re) (sim two3).
Proof.
move=> HY; have Gr : times_increase 1 2 ex_t by move=> b _ i j ij _; apply: lt_INR.
have two i : two3 i 0 = 2%Re by rewrite mxE.
have near p i : (dst p two3 <= / 2 -> 3 / 2 <= p i ord0)%Re.
{ move=> Hp; have := Rle_trans _ _ _ (comp_dst p two3 i) Hp; rewrite two /Rabs; case: Rcase_abs => ?; lra. }
pose q : 'cV[RF]_3 := \col_(i < 3) (if i == inord 0 then 1 else 0).
have i1 : (inord 1 == inord 0 :> 'I_3) = false by rewrite -val_eqE /= !inordK.
have i2 : (inord 2 == inord 0 :> 'I_3) = false by rewrite -val_eqE /= !inordK.
have D0 : (dst two3 two3 <= / 2)%Re by rewrite dst0; lra.
pose st p : R := sim p 1%N ord0 0 0.
pose f (n e : R) : R := pvflow (fun _ => n) (fun _ => e) (ex_temp 1 0) (ramp 1 0).
have Z p : (dst p two3 <= / 2)%Re -> sim p 0%N ord0 ord0 ord0 = 0%Re by move=> Hp; have [-> _] := HY p Hp; rewrite ffunE mxE.
have step p : (dst p two3 <= / 2)%Re -> st p = (10 / p (inord 0) ord0 + f (p (inord 1) ord0) (p (inord 2) ord0))%Re.
{ move=> Hp; have e0 : (0 < p (inord 0) ord0)%Re by have := near p (inord 0) Hp; move=> h; apply: Rlt_le_trans h; lra.
  have /(stress_mixed (B := Models.inelastic (fun _ => p (inord 0) ord0) (Flow.perfect (fun _ => p (inord 1) ord0) (fun _ => p (inord 2) ord0)))) [_ H] := HY p Hp.
  have := proj1 (@pm_model (fun _ => p (inord 0) ord0) (fun _ => p (inord 1) ord0) (fun _ => p (inord 2) ord0) 1 2 ex_t ramp ex_temp ones (ones_controls (nb := 1)) Gr (fun _ _ _ _ => e0) (sim p) 1%N ord0 (ltn0Sn 0) (ltnSn 1)) (H 1%N ord0 (ltn0Sn 0) (ltnSn 1)).
  rewrite /pm_step; case: Req_EM_T => [c1|h]; last by case: h. rewrite [1.-1]/= (Z p Hp) -/(f _ _) /ex_t /ramp /= => K.
  have Fl (s e g : R) : (s - 0 = (10 * 1 - 10 * 0) / e + (1 - 0) * g -> s = 10 / e + g)%Re.
  { move=> h; have -> : (s = s - 0)%Re by ring. rewrite h /Rdiv; ring. }
  exact: Fl K. }
have L1 p : (dst p two3 <= / 2)%Re -> loss 2 (fun _ => [ffun _ => const_mx 1]) (sim p) = st p.
{ move=> Hp; rewrite /loss big_ord_recl big_ord1 !big_ord1 !ffunE !mxE /= (Z p Hp) mulr0 add0r; by rewrite mul1r. }
split; last first.
{ move=> k k0 kn; exists (ord0 : 'I_1); have -> : k = 1%N by apply/eqP; rewrite eqn_leq k0 -ltnS kn.
  rewrite [1.-1]/= (Z _ D0) -/(st two3) (step _ D0) !two /ex_t /=.
  have f0 : (0 <= f 2 2)%Re.
  { rewrite /f /pvflow /= PipelineR.pv_rate_pos; [by apply: Rlt_le; exact: exp_pos|lra|rewrite /ramp /=; lra]. }
  move: f0; set g := f _ _ => f0; rewrite Rabs_pos_eq; lra. }
have [dl [dl0 Hd]] := along_line two3 q (ltac:(lra) : (0 < / 2)%Re).
exists q, (- (5 / 2))%Re; split; last lra.
have line u : (Rabs u < dl)%Re -> loss 2 (fun _ => [ffun _ => const_mx 1]) (sim (moved two3 u q)) = (10 / (2 + u) + f 2 2)%Re.
{ move=> ud; have Hu : (dst (moved two3 u q) two3 <= / 2)%Re by apply: Hd; rewrite Rminus_0_r.
  have e0 : moved two3 u q (inord 0) ord0 = (2 + u)%Re by rewrite /moved !mxE eqxx mulr1.
  have e1 : moved two3 u q (inord 1) ord0 = 2%Re by rewrite /moved !mxE i1 mulr0 addr0.
  have e2 : moved two3 u q (inord 2) ord0 = 2%Re by rewrite /moved !mxE i2 mulr0 addr0.
  by rewrite L1 // step // e0 e1 e2. }
have D : derivable_pt_lim (fun u => 10 / (2 + u) + f 2 2)%Re 0%Re (- (5 / 2))%Re.
{ move: (f 2 2) => g.
  have A1 : derivable_pt_lim (fun u => 2 + u)%Re 0 (0 + 1) by apply: (derivable_pt_lim_plus (fun _ => 2)%Re id); [exact: derivable_pt_lim_const|exact: derivable_pt_lim_id].
  have nz : (2 + 0 <> 0)%Re by lra.
  have A2 := derivable_pt_lim_div (fun _ => 10)%Re (fun u => 2 + u)%Re 0 0 (0 + 1) (derivable_pt_lim_const 10 0) A1 nz.
  have A3 := derivable_pt_lim_plus _ _ _ _ _ A2 (derivable_pt_lim_const g 0).
  have Eq : (- (5 / 2) = (0 * (2 + 0) - (0 + 1) * 10) / Rsqr (2 + 0) + 0)%Re by rewrite /Rsqr; field.
  rewrite [X in derivable_pt_lim _ _ X]Eq; exact: A3. }
move=> e e0; have [dd H] := D e e0; have m0 : (0 < Rmin dl dd)%Re by apply: Rmin_glb_lt => //; exact: cond_pos.
exists (mkposreal _ m0) => h hn /= hd.
have hl : (Rabs h < dl)%Re := Rlt_le_trans _ _ _ hd (Rmin_l _ _). have hr : (Rabs h < dd)%Re := Rlt_le_trans _ _ _ hd (Rmin_r _ _).
have := H h hn hr; rewrite !line ?Rabs_R0 //; by rewrite Rplus_0_l.
Qed.
Example C148_ex : exists (sim : 'cV[RF]_3 -> nat -> VB RF 1 1) GP tol, (0 < tol)%Re /\
  (forall p, (dst p two3 <= / 2)%Re -> stress_history (B := Models.inelastic (fun _ => p (inord 0) ord0) (Flow.perfect (fun _ => p (inord 1) ord0) (fun _ => p (inord 2) ord0))) 2 ex_t ramp ex_temp (sim p)) /\
  forall atol, (0 < atol)%Re -> (atol <= tol)%Re -> exists st : istate RF 1 1,
    solve_stress (B := Models.inelastic (pv_par (inord 0) two3) (Flow.perfect (pv_par (inord 1) two3) (pv_par (inord 2) two3))) 2 ex_t ramp ex_temp BackwardEuler (Direct Thomas) R0 atol 100 true "zero" 1
      (fun _ => @zeroV RF 1 1) = inl st /\
    exists grad lam, rewindG (fun rows ts y => (pv_stress_calls (pv_par (inord 0)) (pv_par (inord 1)) (pv_par (inord 2)) (nb := 1) 2 ex_t ramp ex_temp two3 rows ts y).2) (GP two3) PCR BackwardEuler 1 2 (time_table 1 ex_t) (i_result st)
        (fun _ => [ffun _ => const_mx 1]) = Some (grad, lam) /\
      exists e, (0 < e)%Re /\ forall lr, (0 < lr)%Re -> (lr < e)%Re ->
        (loss 2 (fun _ => [ffun _ => const_mx 1]) (sim (moved two3 lr (- grad))) < loss 2 (fun _ => [ffun _ => const_mx 1]) (sim two3))%Re.
Proof.
have Gr : times_increase 1 2 ex_t by move=> b _ i j ij _; apply: lt_INR.
have two i : two3 i 0 = 2%Re by rewrite mxE.
have near p i : (dst p two3 <= / 2 -> 3 / 2 <= p i ord0)%Re.
{ move=> Hp; have := Rle_trans _ _ _ (comp_dst p two3 i) Hp; rewrite two /Rabs; case: Rcase_abs => ?; lra. }
have h0 : (0 < / 2)%Re by lra.
have Fl (a b c : R) : (3 / 2 <= a -> 3 / 2 <= b -> 3 / 2 <= c -> 0 < a /\ 1 < b /\ 0 < c)%Re by lra.
have Fl1 (a b c : R) : (0 < a /\ 1 < b /\ 0 < c -> 0 < a /\ 1 <= b /\ 0 < c)%Re by lra.
have Gd p k b : (dst p two3 <= / 2)%Re -> (k < 2)%N -> (b < 1)%N -> (0 < pv_par (inord 0) p (ex_temp k b) /\ 1 < pv_par (inord 1) p (ex_temp k b) /\ 0 < pv_par (inord 2) p (ex_temp k b))%Re.
{ move=> Hp _ _; exact: Fl (near p (inord 0) Hp) (near p (inord 1) Hp) (near p (inord 2) Hp). }
have ex p : exists Y : nat -> VB RF 1 1, (dst p two3 <= / 2)%Re -> stress_history (B := Models.inelastic (fun _ => p (inord 0) ord0) (Flow.perfect (fun _ => p (inord 1) ord0) (fun _ => p (inord 2) ord0))) 2 ex_t ramp ex_temp Y.
{ case: (Rle_dec (dst p two3) (/ 2)) => hp; last by exists (fun _ => @zeroV RF 1 1).
  have [|Y [H _]] := @C147_exactly_one_history (fun _ => p (inord 0) ord0) (fun _ => p (inord 1) ord0) (fun _ => p (inord 2) ord0) 1 2 ex_t ramp ex_temp ones (ones_controls (nb := 1)) Gr.
  - move=> k b kn bn; apply: Fl1; exact: (Gd p k b hp kn bn).
  - exists Y => _; exact/(stress_mixed (B := Models.inelastic (fun _ => p (inord 0) ord0) (Flow.perfect (fun _ => p (inord 1) ord0) (fun _ => p (inord 2) ord0)))). }
pose sim p := sval (ClassicalEpsilon.constructive_indefinite_description _ (ex p)).
have HY p : (dst p two3 <= / 2)%Re -> stress_history (B := Models.inelastic (fun _ => p (inord 0) ord0) (Flow.perfect (fun _ => p (inord 1) ord0) (fun _ => p (inord 2) ord0))) 2 ex_t ramp ex_temp (sim p)
  := svalP (ClassicalEpsilon.constructive_indefinite_description _ (ex p)).
have [[q [s [Ds s0]]] Act] := ex_strain HY.
have [GP HGP] := call_derivatives_exist (fun p rows ts Y => (pv_stress_calls (pv_par (inord 0)) (pv_par (inord 1)) (pv_par (inord 2)) (nb := 1) 2 ex_t ramp ex_temp p rows ts Y).1).
have D0 : (dst two3 two3 <= / 2)%Re by rewrite dst0; exact: Rlt_le h0.
have Sm k b : (k < 2)%N -> (b < 1)%N -> pv_smooth (pv_par (inord 0)) (pv_par (inord 1)) (pv_par (inord 2)) two3 (ex_temp k b).
{ move=> _ _; split; try exact: c1_coord. have [u [v w]] := Fl _ _ _ (near two3 (inord 0) D0) (near two3 (inord 1) D0) (near two3 (inord 2) D0). split; first exact: Rlt_le u. by split. }
have Act' : stress_steps_active 2 ex_t ex_temp (pv_par (inord 0) two3) (sim two3) by have -> : pv_par (inord 0) two3 = (fun _ => 2%Re) by apply: functional_extensionality => T; rewrite /pv_par two.
have cL : forall e, (0 < e)%Re -> exists dlt, (0 < dlt)%Re /\ forall y' : nat -> VB RF 1 1, within 2 dlt y' (sim two3) -> within 2 e ((fun _ => fun _ => [ffun _ => const_mx 1] : VB RF 1 1) y') ((fun _ => fun _ => [ffun _ => const_mx 1] : VB RF 1 1) (sim two3)).
{ move=> e e0; exists 1%Re; split; first exact: Rlt_0_1. move=> y' _ k b i _; rewrite (Rminus_diag_eq _ _ erefl) Rabs_R0; exact: Rlt_le. }
case: (C148_creep_training_always_works HGP Gr (ltnSn 1 : (1 < 2)%N) h0 Gd Sm HY Act' (@weighted_sum 1 1 2 (fun _ => [ffun _ => const_mx 1]) (sim two3)) cL) => [St|[tol [t0 H]]].
{ by case: s0; exact: (uniqueness_limite _ _ _ _ Ds (St q)). }
exists sim, GP, tol; split; first exact: t0. split; first exact: HY.
have m1 : (1 < 100)%N by [].
move=> atol a0 at'; have [st [So [_ K]]] := H (Direct Thomas) atol 100%N true 1%N (fun _ => @zeroV RF 1 1) (Rlt_le _ _ a0) at' (ltn0Sn 0) m1.
exists st; split; first exact: So. exact: (K PCR 1%N (ltn0Sn 0)).
Qed.
