(** C145: batches that mix strain- and stress-controlled tests, run at positive tolerances: the runs are near the exact history, their gradients near the exact derivative, and
    training on them goes downhill. *)
From Coq Require Import Reals List String Lra Lia FunctionalExtensionality.
From mathcomp Require Import all_ssreflect all_algebra.
From Verif Require Import ChunkModel ChunkSolve ChunkInst NewtonModel Ode OdeForward OdeAdjoint OdeReal OdeBlock OdeDiff RField Gmres Implicit Tolerance Converge Pipeline PipelineBoth SmoothMx VCGrad GradHist MixedVC AdjointBlock MixedGrad NewtonConv MixedClose.
From Verif Require Interp Models Flow Hardening Deriv Slices VCHistory Props_FullModel VCExact Props_Stress Props_Gradient Props_GradTol Props_Mixed Props_Descent Props_Training Props_PerfectTol Props_MixedTol.
Import GRing.Theory.
Set Implicit Arguments. Unset Strict Implicit. Unset Printing Implicit Defensive.
Local Open Scope ring_scope.
Delimit Scope R_scope with Re.
Import Props_FullModel VCExact Props_Stress Props_Gradient Props_GradTol Props_Mixed Props_Descent Props_Training Props_PerfectTol Props_MixedTol.

(** The run of a batch that reported no failure, with tolerances of at most [tol] (relative tolerance zero, or the relative part below [tol] as well). *)
Definition run_to (B : Models.rateform) nb nt (times data temps : nat -> nat -> R) (control : nat -> R) (tol : R) (st : istate RF nb (Models.rf_n B)) : Prop :=
  exists lm rtol atol miter throw gt n init,
    @solve_both B nb nt times data temps control BackwardEuler lm rtol atol miter throw gt n init = inl st /\ i_warned st = [::] /\
    forall b, tol_boundG (@both_G B nb nt times data temps control) BackwardEuler rtol atol gt n nt (time_table nb times) (i_result st) b tol.

(** For every accuracy there is a tolerance for which every run - any linear solver, guess, block size, iteration limit, initial iterate - is within that accuracy of the exact
    history, in the stresses of the strain-controlled tests, the strains of the stress-controlled ones and all internal variables.  The flow rule need not be smooth. *)
Theorem C145_runs_near_the_exact_history E pn eta s0 Rs d nback C g nb nt (times data temps : nat -> nat -> R) (control : nat -> R) (Y : nat -> VB RF nb nback.+2) :
  let B := voce_chaboche E pn eta s0 Rs d nback C g in
  controls nb control -> times_increase nb nt times ->
  (forall b, (b < nb)%N -> good_entry E pn eta s0 Rs d nback C g nt temps b) ->
  (forall k b, (k < nt)%N -> (b < nb)%N -> (0 < s0 (temps k b))%Re) ->
  mixed_history (B := B) nt times data temps control Y -> every_step_active nt times temps control E Y ->
  forall eps, (0 < eps)%Re -> exists tol, (0 < tol)%Re /\ forall st, run_to (B := B) nt times data temps control tol st -> within nt eps (i_result st) Y.
Proof.
move=> B Cc Gr Gd Sp HY Act eps e0; have [tol [t0 H]] := mixed_runs_within Cc Gr Gd Sp HY Act e0.
exists tol; split; first exact: t0. move=> st [lm [rtol [atol [miter [throw [gt [n [init [So [W T]]]]]]]]]]; exact: (H lm rtol atol miter throw gt n init st So W T).
Qed.
Print Assumptions C145_runs_near_the_exact_history.

(** Gradients of runs to tolerance are near the derivative of the loss of the exact histories. *)
Theorem C145_gradient_of_runs_to_tolerance np nback (E pn eta s0 Rs d : 'cV[RF]_np -> R -> R) (C g : 'cV[RF]_np -> R -> nat -> R)
    nb nt (times data temps : nat -> nat -> R) (control : nat -> R) GP (p : R -> 'cV[RF]_np) q th dl (Y : R -> nat -> VB RF nb nback.+2) :
  let call := calls (nback := nback) E pn eta s0 Rs d C g (nb := nb) nt times data temps control in
  call_derivatives (fun p rows ts Y => (call p rows ts Y).1) GP ->
  controls nb control -> times_increase nb nt times -> (1 < nt)%N -> (0 < dl)%Re ->
  (forall u b, (Rabs (u - th) < dl)%Re -> (b < nb)%N -> good_entry (E (p u)) (pn (p u)) (eta (p u)) (s0 (p u)) (Rs (p u)) (d (p u)) nback (C (p u)) (g (p u)) nt temps b) ->
  (forall k b, (k < nt)%N -> (b < nb)%N -> smooth_material nback E pn eta s0 Rs d C g (p th) (temps k b)) ->
  (forall k b, (k < nt)%N -> (b < nb)%N -> (0 < s0 (p th) (temps k b))%Re) ->
  cdiff p th q ->
  (forall u, (Rabs (u - th) < dl)%Re -> mixed_history (B := family nback E pn eta s0 Rs d C g (p u)) nt times data temps control (Y u)) ->
  every_step_active nt times temps control (E (p th)) (Y th) ->
  forall L (dL : (nat -> VB RF nb nback.+2) -> nat -> VB RF nb nback.+2), loss_gradient nt L (Y th) (dL (Y th)) ->
  (forall e, (0 < e)%Re -> exists dlt, (0 < dlt)%Re /\ forall y', within nt dlt y' (Y th) -> within nt e (dL y') (dL (Y th))) ->
  exists D, derivable_pt_lim (fun u => L (Y u)) th D /\
    forall e, (0 < e)%Re -> exists tol, (0 < tol)%Re /\ forall st mth n,
      run_to (B := family nback E pn eta s0 Rs d C g (p th)) nt times data temps control tol st -> (0 < n)%N ->
      exists grad lam,
        rewindG (fun rows ts y => (call (p th) rows ts y).2) (GP (p th)) mth BackwardEuler n nt (time_table nb times) (i_result st) (dL (i_result st)) = Some (grad, lam) /\
        (Rabs ((\sum_(i < np) grad i 0 * q i 0)%R - D) <= e)%Re.
Proof.
move=> call A Cc Gr nt2 dl0 Gd Sm Sp Dp HY Act L dL HL cL.
have [D [HD Nr]] := C144_gradient_near_the_exact_history A Cc Gr nt2 dl0 Gd Sm Dp HY Act HL; exists D; split; first exact: HD. move=> e e0.
have th0 : (Rabs (th - th) < dl)%Re by rewrite (_ : (th - th = 0)%Re) ?Rabs_R0 //; ring.
have [d1 [d10 H1]] := Nr e e0; have [d2 [d20 H2]] := cL d1 d10.
have [tol [t0 H]] := C145_runs_near_the_exact_history Cc Gr (fun b => Gd th b th0) Sp (HY th th0) Act (Rmin_glb_lt _ _ _ d10 d20).
exists tol; split; first exact: t0. move=> st mth n Rn n0; have Wi := H st Rn.
have W1 : within nt d1 (i_result st) (Y th) by move=> k b i kn; apply: Rle_trans (Wi k b i kn) (Rmin_l _ _).
have W2 : within nt d2 (i_result st) (Y th) by move=> k b i kn; apply: Rle_trans (Wi k b i kn) (Rmin_r _ _).
exact: (H1 _ _ mth n W1 (H2 _ W2) n0).
Qed.
Print Assumptions C145_gradient_of_runs_to_tolerance.

(** Training: unless the loss is stationary there is a tolerance such that small steps against the gradient of every run to that tolerance lower the loss. *)
Theorem C145_steps_from_converged_runs np nback (E pn eta s0 Rs d : 'cV[RF]_np -> R -> R) (C g : 'cV[RF]_np -> R -> nat -> R)
    nb nt (times data temps : nat -> nat -> R) (control : nat -> R) GP p0 r (sim : 'cV[RF]_np -> nat -> VB RF nb nback.+2) L (dL : (nat -> VB RF nb nback.+2) -> nat -> VB RF nb nback.+2) :
  let call := calls (nback := nback) E pn eta s0 Rs d C g (nb := nb) nt times data temps control in
  call_derivatives (fun p rows ts Y => (call p rows ts Y).1) GP ->
  controls nb control -> times_increase nb nt times -> (1 < nt)%N -> (0 < r)%Re ->
  (forall p b, (dst p p0 <= r)%Re -> (b < nb)%N -> good_entry (E p) (pn p) (eta p) (s0 p) (Rs p) (d p) nback (C p) (g p) nt temps b) ->
  (forall k b, (k < nt)%N -> (b < nb)%N -> smooth_material nback E pn eta s0 Rs d C g p0 (temps k b)) ->
  (forall k b, (k < nt)%N -> (b < nb)%N -> (0 < s0 p0 (temps k b))%Re) ->
  (forall p, (dst p p0 <= r)%Re -> mixed_history (B := family nback E pn eta s0 Rs d C g p) nt times data temps control (sim p)) ->
  every_step_active nt times temps control (E p0) (sim p0) ->
  loss_gradient nt L (sim p0) (dL (sim p0)) ->
  (forall e, (0 < e)%Re -> exists dlt, (0 < dlt)%Re /\ forall y', within nt dlt y' (sim p0) -> within nt e (dL y') (dL (sim p0))) ->
  (forall q, derivable_pt_lim (fun u => L (sim (moved p0 u q))) 0 0) \/
  exists tol, (0 < tol)%Re /\ forall st mth n, run_to (B := family nback E pn eta s0 Rs d C g p0) nt times data temps control tol st -> (0 < n)%N ->
    exists grad lam,
      rewindG (fun rows ts y => (call p0 rows ts y).2) (GP p0) mth BackwardEuler n nt (time_table nb times) (i_result st) (dL (i_result st)) = Some (grad, lam) /\
      exists e, (0 < e)%Re /\ forall lr, (0 < lr)%Re -> (lr < e)%Re -> (L (sim (moved p0 lr (- grad))) < L (sim p0))%Re.
Proof.
move=> call A Cc Gr nt2 r0 Gd Sm Sp HY Act HL cL.
have d00 : (dst p0 p0 <= r)%Re by rewrite dst0; exact: Rlt_le.
case: (C144_steps_near_the_exact_history A Cc Gr nt2 r0 Gd Sm HY Act HL cL) => [St|[d1 [d10 H1]]]; [by left|right].
have [tol [t0 H]] := C145_runs_near_the_exact_history Cc Gr (fun b => Gd p0 b d00) Sp (HY p0 d00) Act d10.
exists tol; split; first exact: t0. move=> st mth n Rn n0; exact: (H1 _ mth n (H st Rn) n0).
Qed.
Print Assumptions C145_steps_from_converged_runs.

(** The hypotheses are met, and there are such runs: for every accuracy an absolute tolerance, positive, at which the simulation of a strain- and a stress-controlled test loaded
    slowly succeeds and gives a gradient of that accuracy. *)
Lemma slow_run_any (control : nat -> R) atol : (0 <= atol)%Re -> (atol <= / 10)%Re -> exists st : istate RF 2 3,
  solve_both (B := ex_fam (ex_line 2%Re)) 4 ex_t ex_slow ex_temp control BackwardEuler (Direct Thomas) R0 atol 10 true "zero" 2 (fun _ => @zeroV RF 2 3) = inl st /\ i_warned st = [::].
Proof.
move=> a0 a1; have val i : ex_line 2%Re i 0 = 2%Re by rewrite mxE.
have sm k c : (Deriv.sum k (fun j => c * (ex_slow j.+1 0 - ex_slow j 0)) = c * (INR k / 100))%Re.
{ elim: k => [|k IH]; first by rewrite /=; field. rewrite sumS IH /ex_slow !S_INR; field. }
have kb k : (k < 4)%N -> (0 <= INR k <= 3)%Re.
{ move=> kn; split; first exact: pos_INR. have := le_INR k 3; rewrite /= => h; have : (k <= 3)%coq_nat by apply/leP. move=> /h; lra. }
have [|||||st [So [Wa _]]] := @C114_elastic_range_always_solved (const_par (inord 0) (ex_line 2%Re)) (const_par (inord 1) (ex_line 2%Re)) (const_par (inord 2) (ex_line 2%Re)) (const_par (inord 3) (ex_line 2%Re))
   (Hardening.voce (const_par (inord 4) (ex_line 2%Re)) (const_par (inord 5) (ex_line 2%Re))) (Hardening.chaboche 1 (const_seq (inord 6) (ex_line 2%Re)) (const_seq (inord 7) (ex_line 2%Re)))
   2 4 ex_t ex_slow ex_temp control (Direct Thomas) R0 atol 10 true 2 (fun _ => @zeroV RF 2 3) (fun _ => 1%Re) ex_times (ltn0Sn 2) (ltn0Sn 1) (ltn0Sn 8).
- lra.
- exact: a0.
- move=> k b kn _; rewrite /const_par !val; do 4 (split; first lra). split; [exact: FullModel.rests_voce|exact: FullModel.rests_chaboche].
- move=> k b kn _ _; rewrite /const_par !val (sm k 2%Re); have := kb k kn => -[h1 h2]; rewrite Rabs_pos_eq; last by apply: Rmult_le_pos; lra.
  have : (INR k * atol <= 3 * / 10)%Re by apply: Rmult_le_compat; lra. lra.
- move=> k b kn _ _; rewrite /ex_slow; have := kb k kn => -[h1 h2]; rewrite Rabs_pos_eq; lra.
by exists st.
Qed.
Definition slow_run := slow_run_any INR.
Example C145_ex og : exists (Y : R -> nat -> VB RF 2 3) GP D,
  derivable_pt_lim (fun u => loss 4 og (Y u)) 2%Re D /\
  forall e, (0 < e)%Re -> exists atol (st : istate RF 2 3), (0 < atol)%Re /\
    solve_both (B := ex_fam (ex_line 2%Re)) 4 ex_t ex_slow ex_temp INR BackwardEuler (Direct Thomas) R0 atol 10 true "zero" 2 (fun _ => @zeroV RF 2 3) = inl st /\
    exists grad lam,
      rewindG (fun rows ts y => (calls (nback := 1) (const_par (inord 0)) (const_par (inord 1)) (const_par (inord 2)) (const_par (inord 3)) (const_par (inord 4)) (const_par (inord 5)) (const_seq (inord 6)) (const_seq (inord 7)) (nb := 2) 4 ex_t ex_slow ex_temp INR (ex_line 2%Re) rows ts y).2) (GP (ex_line 2%Re)) PCR BackwardEuler 2 4 (time_table 2 ex_t) (i_result st) og = Some (grad, lam) /\
      (Rabs (slope grad (ex_line 1%Re) - D) <= e)%Re.
Proof.
have HY u : exists Y : nat -> VB RF 2 3, (Rabs (u - 2) < 1)%Re -> mixed_history (B := ex_fam (ex_line u)) 4 ex_t ex_slow ex_temp INR Y.
{ case: (Rlt_dec (Rabs (u - 2)) 1) => ud; last by exists (fun _ => @zeroV RF 2 3).
  have [Y H] := mixed_exists ex_slow ex_times (fun b _ => Props_Mixed.ex_good b ud) ex_controls; by exists Y. }
pose Y u := sval (ClassicalEpsilon.constructive_indefinite_description _ (HY u)).
have HYu u : (Rabs (u - 2) < 1)%Re -> mixed_history (B := ex_fam (ex_line u)) 4 ex_t ex_slow ex_temp INR (Y u) := svalP (ClassicalEpsilon.constructive_indefinite_description _ (HY u)).
have [GP HGP] := call_derivatives_exist (fun p rows ts Y => (calls (nback := 1) (const_par (inord 0)) (const_par (inord 1)) (const_par (inord 2)) (const_par (inord 3)) (const_par (inord 4)) (const_par (inord 5)) (const_seq (inord 6)) (const_seq (inord 7)) (nb := 2) 4 ex_t ex_slow ex_temp INR p rows ts Y).1).
have two : (Rabs (2 - 2) < 1)%Re by rewrite Rminus_diag_eq // Rabs_R0; lra.
have Gd2 b : (b < 2)%N -> _ := fun _ => Props_Mixed.ex_good b two.
have Act : every_step_active 4 ex_t ex_temp INR (const_par (inord 0) (ex_line 2%Re)) (Y 2%Re).
{ have [st0 [So [Wa H]]] := ex_run two.
  have Str : every_step_strains 4 INR (i_result st0).
  { right=> k k0 kn; exists b1; split; first by rewrite b1E. have := H k k0 kn; move=> h e; move: h; rewrite e Rminus_diag_eq //; lra. }
  have M := C127_runs_return_it ex_controls ex_times Gd2 So Wa Str.
  have Eq := M _ (HYu 2%Re two).
  right=> k k0 kn; exists b1; split; first by rewrite b1E.
  rewrite -(Eq k kn) -(Eq k.-1 (leq_ltn_trans (leq_pred k) kn)).
  rewrite /const_par mxE; have -> : (ex_t k b1 - ex_t k.-1 b1 = 1)%Re by rewrite /ex_t; case: (k) k0 => // k' _; rewrite [k'.+1.-1]/= S_INR /=; ring.
  apply: Rlt_le_trans (Rle_abs _); have := H k k0 kn; set z := (2 * _)%Re => h; apply: Rlt_trans h; lra. }
have cL : forall e, (0 < e)%Re -> exists dlt, (0 < dlt)%Re /\ forall y' : nat -> VB RF 2 3, within 4 dlt y' (Y 2%Re) -> within 4 e og og.
{ move=> e e0; exists 1%Re; split; first lra. move=> _ _ k b i _; rewrite (Rminus_diag_eq _ _ erefl) Rabs_R0; exact: Rlt_le. }
have Sp2 k b : (k < 4)%N -> (b < 2)%N -> (0 < const_par (inord 3) (ex_line 2%Re) (ex_temp k b))%Re by move=> _ _; rewrite /const_par mxE; lra.
have [D [HD H]] := C145_gradient_of_runs_to_tolerance HGP ex_controls ex_times (ltn0Sn 2 : (1 < 4)%N) Rlt_0_1 (fun u b ud _ => Props_Mixed.ex_good b ud) (fun k b _ _ => Props_Mixed.ex_smooth k b) Sp2 Props_Mixed.ex_dir HYu
   Act (dL := fun _ => og) (weighted_sum og (y := Y 2%Re)) cL.
exists Y, GP, D; split; first exact: HD. move=> e e0; have [tol [t0 Ht]] := H e e0.
pose a := Rmin tol (/ 10); have ap : (0 < a)%Re by apply: Rmin_glb_lt => //; lra.
have [st [So Wa]] := slow_run (Rlt_le _ _ ap) (Rmin_r _ _).
have Rn : run_to (B := ex_fam (ex_line 2%Re)) 4 ex_t ex_slow ex_temp INR tol st.
{ exists (Direct Thomas), R0, a, 10%N, true, "zero"%string, 2%N, (fun _ => @zeroV RF 2 3); split; first exact: So. split; first exact: Wa.
  move=> b; split; [exact: Rlt_le|split; [exact: Rmin_l|by left]]. }
exists a, st; split; first exact: ap. split; first exact: So. exact: (Ht st PCR 2%N Rn (ltn0Sn 1)).
Qed.
