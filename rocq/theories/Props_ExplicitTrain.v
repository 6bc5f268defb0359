(** C137: training with the explicit scheme.  Simulations always succeed, do not depend on the block size, and their gradients are exact for every differentiable model. *)
From Coq Require Import Reals List String Lra Lia FunctionalExtensionality.
From mathcomp Require Import all_ssreflect all_algebra.
From Verif Require Import ChunkModel ChunkSolve ChunkInst NewtonModel Ode OdeForward OdeAdjoint OdeReal OdeBlock OdeDiff RField Gmres Implicit Tolerance Pipeline SmoothMx VCGrad NewtonConv NeuralRun.
From Verif Require Interp Models Flow Hardening Deriv Slices VCHistory Props_FullModel Props_Explicit Props_Stress Props_Gradient Props_Descent Props_Neural NeuralR.
Import GRing.Theory.
Set Implicit Arguments. Unset Strict Implicit. Unset Printing Implicit Defensive.
Local Open Scope ring_scope.
Delimit Scope R_scope with Re.
Import Props_Stress Props_Gradient Props_Descent.

(** [y] is what [odeint] returns with the explicit scheme: exact tolerances, any linear solver, any block size below the number of Newton iterations, any initial guess. *)
Definition explicit_result nb m (rate : 'I_nb -> RF -> 'cV[RF]_m -> 'cV[RF]_m) (jac : 'I_nb -> RF -> 'cV[RF]_m -> 'M[RF]_m) nt (t : nat -> TB RF nb) (y0 : VB RF nb m) (y : nat -> VB RF nb m) : Prop :=
  forall lm miter throw gt n init, (0 < n)%N -> (n < miter)%N -> (gt = "zero" \/ gt = "previous" /\ (n < nt)%N)%string ->
  exists st, integrate rate jac ForwardEuler lm (nrmR nb m) 0 0 miter throw gt n nt t y0 init = inl st /\ i_warned st = [::] /\ forall k, (k < nt)%N -> i_result st k = y k.

(** One training step of one model: [grad], [lam] are what the adjoint pass returns for the history [y], whichever linear solver and block size. *)
Definition explicit_gradient nb m np (jac : 'I_nb -> RF -> 'cV[RF]_m -> 'cV[RF]_np -> 'M[RF]_m) (dp : 'I_nb -> RF -> 'cV[RF]_m -> 'cV[RF]_np -> 'M[RF]_(m, np)) (nt : nat) (t : nat -> TB RF nb)
    (p : 'cV[RF]_np) (y og : nat -> VB RF nb m) (grad : 'cV[RF]_np) (lam : VB RF nb m) : Prop :=
  forall mth n, (0 < n)%N -> rewind (at_p jac p) (at_p dp p) mth ForwardEuler n nt t y og = Some (grad, lam).

Section One.
Variables (nb m np nt : nat) (t : nat -> TB RF nb).
Variables (rate : 'I_nb -> RF -> 'cV[RF]_m -> 'cV[RF]_np -> 'cV[RF]_m) (jac : 'I_nb -> RF -> 'cV[RF]_m -> 'cV[RF]_np -> 'M[RF]_m) (dp : 'I_nb -> RF -> 'cV[RF]_m -> 'cV[RF]_np -> 'M[RF]_(m, np)).

Lemma euler_is_result p y0 : (0 < nt)%N -> explicit_result (at_p rate p) (at_p jac p) nt t y0 (euler (at_p rate p) t y0).
Proof.
move=> nt0 lm miter throw gt n init n0 nm hg.
have [st [E W]] := @fe_never_fails nb m (at_p rate p) (at_p jac p) lm 0 0 miter throw gt n nt t y0 init (Rle_refl _) n0 nm nt0 hg.
exists st; split=> //; split=> //; have [_ [R0 _]] := integrate_writes E.
apply: (fe_is_euler R0) => k b k0 kn; exact: (integrate_exact _ _ E W).
Qed.
End One.

(** The adjoint pass on the simulation with the parameters [p0] and the initial states [y00] succeeds for every differentiable loss, and gives its derivative along every
    differentiable change of parameters and initial states. *)
Definition gradients_exact nb m np (jac : 'I_nb -> RF -> 'cV[RF]_m -> 'cV[RF]_np -> 'M[RF]_m) (dp : 'I_nb -> RF -> 'cV[RF]_m -> 'cV[RF]_np -> 'M[RF]_(m, np)) (nt : nat) (t : nat -> TB RF nb)
    (sim : 'cV[RF]_np -> VB RF nb m -> nat -> VB RF nb m) (p0 : 'cV[RF]_np) (y00 : VB RF nb m) : Prop :=
  forall L og, loss_gradient nt L (sim p0 y00) og ->
  exists grad lam, explicit_gradient jac dp nt t p0 (sim p0 y00) og grad lam /\
    forall (p : R -> 'cV[RF]_np) q (y0 : R -> VB RF nb m) (z0 : VB RF nb m) th, p th = p0 -> y0 th = y00 -> cdiff p th q -> (forall b, cdiff (fun u => y0 u b) th (z0 b)) ->
      derivable_pt_lim (fun u => L (sim (p u) (y0 u))) th (slope grad q + \sum_b slope (lam b) (z0 b))%Re.

(** The simulations [sim p y0] of every member of the family exist; and wherever [jac] and [dp] are the derivatives of the rate along the simulation, its gradients are exact.
    No condition on step sizes, stiffness or uniqueness. *)
Theorem C137_training_gradient nb m np (rate : 'I_nb -> RF -> 'cV[RF]_m -> 'cV[RF]_np -> 'cV[RF]_m) (jac : 'I_nb -> RF -> 'cV[RF]_m -> 'cV[RF]_np -> 'M[RF]_m)
    (dp : 'I_nb -> RF -> 'cV[RF]_m -> 'cV[RF]_np -> 'M[RF]_(m, np)) nt (t : nat -> TB RF nb) :
  (0 < nt)%N ->
  exists sim : 'cV[RF]_np -> VB RF nb m -> nat -> VB RF nb m,
    (forall p y0, explicit_result (at_p rate p) (at_p jac p) nt t y0 (sim p y0)) /\
    forall p0 y00, (forall k b, (k < nt)%N -> partials_at (rate b (t k b)) (jac b (t k b) (sim p0 y00 k b) p0) (dp b (t k b) (sim p0 y00 k b) p0) (sim p0 y00 k b) p0) ->
    gradients_exact jac dp nt t sim p0 y00.
Proof.
move=> nt0; exists (fun p y0 => euler (at_p rate p) t y0); split=> [p y0|]; first exact: euler_is_result.
move=> p0 y00 Hp L og HL; pose y := euler (at_p rate p0) t y00.
have Sp mth n : (0 < n)%N -> _ := fun n0 => @rewind_spec _ _ _ _ (at_p jac p0) (at_p dp p0) mth ForwardEuler n nt t y og n0 nt0 I.
have [grad [lam {}Sp]] : exists grad lam, explicit_gradient jac dp nt t p0 y og grad lam by do 2!eexists; exact: Sp.
exists grad, lam; split; first exact: Sp.
move=> p q y0 z0 th pE yE Dp D0.
have Hp' : partials_along rate jac dp nt t (p th) (euler (at_p rate (p th)) t (y0 th)) by move=> k b kn; rewrite pE yE; exact: Hp.
have [z [zE Dz]] := @euler_diff nb m np rate jac dp nt t p y0 q z0 th Dp D0 Hp'.
have [gr [lm [Rw D]]] := @adjoint_fe nb m np rate jac dp nt t Thomas 1%N p y0 q z0 th og (ltn0Sn 0) nt0 Dp D0 Hp'.
have cE : euler (at_p rate (p th)) t (y0 th) = y by rewrite pE yE.
move: Rw; rewrite cE pE (Sp Thomas 1%N (ltn0Sn 0)) ; case=> gE lE.
have A := HL (fun u => euler (at_p rate (p u)) t (y0 u)) th z cE Dz.
have B := weighted_sum og (erefl (euler (at_p rate (p th)) t (y0 th))) Dz.
move: A; rewrite (uniqueness_limite _ _ _ _ B D) -gE -lE; exact.
Qed.
Print Assumptions C137_training_gradient.

(** Hence small steps along which the adjoint gradient predicts a decrease do decrease the loss, against the gradient in particular. *)
Theorem C137_training_steps nb m np (jac : 'I_nb -> RF -> 'cV[RF]_m -> 'cV[RF]_np -> 'M[RF]_m) (dp : 'I_nb -> RF -> 'cV[RF]_m -> 'cV[RF]_np -> 'M[RF]_(m, np)) nt (t : nat -> TB RF nb)
    (sim : 'cV[RF]_np -> VB RF nb m -> nat -> VB RF nb m) p0 y00 L og :
  gradients_exact jac dp nt t sim p0 y00 -> loss_gradient nt L (sim p0 y00) og ->
  exists grad lam, explicit_gradient jac dp nt t p0 (sim p0 y00) og grad lam /\
    (forall q, (slope grad q < 0)%Re -> exists e, (0 < e)%Re /\ forall lr, (0 < lr)%Re -> (lr < e)%Re -> (L (sim (moved p0 lr q) y00) < L (sim p0 y00))%Re) /\
    (grad <> 0 -> exists e, (0 < e)%Re /\ forall lr, (0 < lr)%Re -> (lr < e)%Re -> (L (sim (moved p0 lr (- grad)) y00) < L (sim p0 y00))%Re).
Proof.
move=> G /G [grad [lam [Rw D]]]; exists grad, lam; split; first exact: Rw.
have K q : (slope grad q < 0)%Re -> exists e, (0 < e)%Re /\ forall lr, (0 < lr)%Re -> (lr < e)%Re -> (L (sim (moved p0 lr q) y00) < L (sim p0 y00))%Re.
{ move=> s0; have D0 := D (fun u => moved p0 u q) q (fun _ => y00) [ffun _ => 0] 0%Re (moved0 p0 q) erefl (moved_diff p0 q).
  have {}D0 := D0 (fun b => _); move: D0; rewrite big1 => [|b _]; last by rewrite /slope big1 // => i _; rewrite ffunE mxE mulr0.
  have Z (x : R) : (x + 0 = x)%Re by ring.
  move=> D0; have {}D0 : derivable_pt_lim (fun u => L (sim (moved p0 u q) y00)) 0 (slope grad q).
  { rewrite -(Z (slope grad q)); apply: D0 => b; rewrite ffunE; exact: cdiff_cst. }
  have := decreasing D0 s0; by rewrite moved0. }
split=> // gn; apply: K; rewrite slope_opp; have := dot_pos gn; lra.
Qed.
Print Assumptions C137_training_steps.

(** Neural differential equations: every differentiable network, with at least one forcing term; no bound on its gain. *)
Theorem C137_neural nb n s np net dnet (force : 'I_nb -> RF -> Slices.vec) (dp : 'I_nb -> RF -> 'cV[RF]_n -> 'cV[RF]_np -> 'M[RF]_(n, np)) nt (t : nat -> TB RF nb) :
  let rate := neural_rate s net dnet force (n := n) (np := np) in let jac := neural_jac s net dnet force (n := n) (np := np) in
  (0 < s)%N -> (0 < nt)%N -> differentiable_network n (n + s) np net dnet -> parameter_derivatives rate dp ->
  exists sim : 'cV[RF]_np -> VB RF nb n -> nat -> VB RF nb n,
    (forall p y0, explicit_result (at_p rate p) (at_p jac p) nt t y0 (sim p y0)) /\ forall p0 y00, gradients_exact jac dp nt t sim p0 y00.
Proof.
move=> rate jac s0 nt0 dn ag; have [sim [H G]] := @C137_training_gradient nb n np rate jac dp nt t nt0.
exists sim; split; first exact: H. move=> p0 y00; apply: G => k b kn.
by apply: sdiff_partials; apply: c1_sdiff; apply: neural_c1 => // y' p' M; exact: ag.
Qed.
Print Assumptions C137_neural.

Section Hardening.
Variables (np nback : nat) (E pn eta s0 Rs d : 'cV[RF]_np -> R -> R) (C g : 'cV[RF]_np -> R -> nat -> R).
Variables (nb nt : nat) (times strains temps : nat -> nat -> R).
Variable dp : 'I_nb -> RF -> 'cV[RF]_nback.+2 -> 'cV[RF]_np -> 'M[RF]_(nback.+2, np).
Notation B p := (family nback E pn eta s0 Rs d C g p).
(** [sim p] is the result of the explicit strain-controlled simulation with the parameters [p]. *)
Definition explicit_simulation (sim : 'cV[RF]_np -> nat -> VB RF nb nback.+2) : Prop :=
  forall p lm miter throw gt n init, (0 < n)%N -> (n < miter)%N -> (gt = "zero" \/ gt = "previous" /\ (n < nt)%N)%string ->
  exists st, solve_strain (B := B p) nt times strains temps ForwardEuler lm 0 0 miter throw gt n init = inl st /\ i_warned st = [::] /\ forall k, (k < nt)%N -> i_result st k = sim p k.

(** The Voce / Chaboche model under strain control, where the isotropic hardening has not become negative (which long explicit steps could make it). *)
Theorem C137_hardening p0 :
  parameter_derivatives (rate_p E pn eta s0 Rs d C g (nback := nback) (nb := nb) nt times strains temps) dp -> times_increase nb nt times -> (1 < nt)%N ->
  (forall k b, (k < nt)%N -> (b < nb)%N -> smooth_material nback E pn eta s0 Rs d C g p0 (temps k b) /\ (0 < eta p0 (temps k b))%Re) ->
  exists sim, explicit_simulation sim /\
    ((forall k b, (k < nt)%N -> (0 <= sim p0 k b (inord 1) ord0)%Re) -> forall L og, loss_gradient nt L (sim p0) og ->
     exists grad lam, explicit_gradient (jac_p E pn eta s0 Rs d C g (nback := nback) nt times strains temps) dp nt (time_table nb times) p0 (sim p0) og grad lam /\
       (forall p q th, p th = p0 -> cdiff p th q -> derivable_pt_lim (fun u => L (sim (p u))) th (slope grad q)) /\
       (grad <> 0 -> exists e, (0 < e)%Re /\ forall lr, (0 < lr)%Re -> (lr < e)%Re -> (L (sim (moved p0 lr (- grad))) < L (sim p0))%Re)).
Proof.
move=> ag Gr nt2 Sm; have nt0 : (0 < nt)%N by exact: ltnW.
pose rate := rate_p E pn eta s0 Rs d C g (nback := nback) (nb := nb) nt times strains temps.
pose jac := jac_p E pn eta s0 Rs d C g (nback := nback) (nb := nb) nt times strains temps.
have [sim [H G]] := @C137_training_gradient nb nback.+2 np rate jac dp nt (time_table nb times) nt0.
exists (fun p => sim p (@zeroV RF nb nback.+2)); split; first by move=> p; exact: (H p _).
move=> yp; have {}G : gradients_exact jac dp nt (time_table nb times) sim p0 (@zeroV RF nb nback.+2).
{ apply: G => k b kn; apply: sdiff_partials; apply: c1_sdiff; have [S1 ep] := Sm k b kn (ltn_ord b).
  have IT : interp_at nt times temps b (time_table nb times k b) = temps k b by rewrite ffunE (interp_knot temps nt2 (ltn_ord b) Gr kn).
  apply: c1_of_rows => [i||].
  - apply: rows_smooth; rewrite ?IT //; exact: yp.
  - apply: jac_near; rewrite ?IT //; exact: yp.
  - exact: ag. }
move=> L og HL; have [grad [lam [Rw D]]] := G L og HL; have [grad' [lam' [Rw' [_ K]]]] := C137_training_steps G HL.
have gE : grad' = grad by have := Rw Thomas 1%N (ltn0Sn 0); rewrite (Rw' Thomas 1%N (ltn0Sn 0)); case.
exists grad, lam; split; first exact: Rw. split; last by rewrite -gE.
move=> p q th pE Dp; have := D p q (fun _ => @zeroV RF nb nback.+2) [ffun _ => 0] th pE erefl Dp.
rewrite big1 => [|b _]; last by rewrite /slope big1 // => i _; rewrite ffunE mxE mulr0.
have Z (x : R) : (x + 0 = x)%Re by ring. rewrite Z; apply=> b; rewrite ffunE; exact: cdiff_cst.
Qed.
End Hardening.
Print Assumptions C137_hardening.

(** Without isotropic hardening (saturation stress or rate zero) there is nothing to check on the run. *)
Theorem C137_kinematic np nback (E pn eta s0 Rs d : 'cV[RF]_np -> R -> R) (C g : 'cV[RF]_np -> R -> nat -> R) nb nt (times strains temps : nat -> nat -> R) dp (p0 : 'cV[RF]_np) :
  parameter_derivatives (rate_p E pn eta s0 Rs d C g (nback := nback) (nb := nb) nt times strains temps) dp -> times_increase nb nt times -> (1 < nt)%N ->
  (forall k b, (k < nt)%N -> (b < nb)%N -> smooth_material nback E pn eta s0 Rs d C g p0 (temps k b) /\ (0 < eta p0 (temps k b))%Re) ->
  (forall k b, (k < nt)%N -> (b < nb)%N -> (d p0 (temps k b) * Rs p0 (temps k b) = 0)%Re) ->
  exists sim, explicit_simulation (nback := nback) E pn eta s0 Rs d C g (nb := nb) nt times strains temps sim /\
    forall L og, loss_gradient nt L (sim p0) og ->
     exists grad lam, explicit_gradient (jac_p E pn eta s0 Rs d C g (nback := nback) nt times strains temps) dp nt (time_table nb times) p0 (sim p0) og grad lam /\
       (forall p q th, p th = p0 -> cdiff p th q -> derivable_pt_lim (fun u => L (sim (p u))) th (slope grad q)) /\
       (grad <> 0 -> exists e, (0 < e)%Re /\ forall lr, (0 < lr)%Re -> (lr < e)%Re -> (L (sim (moved p0 lr (- grad))) < L (sim p0))%Re).
Proof.
move=> ag Gr nt2 Sm Z; have [sim [H G]] := C137_hardening ag Gr nt2 Sm.
exists sim; split; first exact: H.
apply: G; have [st [S0 [W R0]]] := H p0 (Direct Thomas) 2%N true "zero"%string 1%N (fun _ => @zeroV RF nb nback.+2) isT isT (or_introl erefl).
have key k (b : 'I_nb) : (k < nt)%N -> entry (B := family nback E pn eta s0 Rs d C g p0) st k b 1 = 0%Re.
{ elim: k => [|k IH] kn.
  - have [_ [R0' _]] := integrate_writes S0.
    have E0 := @entryE (family nback E pn eta s0 Rs d C g p0) nb st 0 b (Ordinal (isT : (1 < nback.+2)%N)).
    rewrite E0 R0' ffunE mxE; exact: erefl.
  - have := @Props_Explicit.C93_actual_increment (family nback E pn eta s0 Rs d C g p0) nb nt times strains temps (Direct Thomas) 2 true "zero" 1 _ st Gr S0 W b k 1 kn (isT : (1 < nback.+2)%N).
    cbv zeta; rewrite (IH (ltnW kn)) (VCHistory.vc_row1 (E p0) (pn p0) (eta p0) (s0 p0) (Rs p0) (d p0) nback (C p0) (g p0)).
    rewrite (IH (ltnW kn)) !Rminus_0_r (Z k b (ltnW kn) (ltn_ord b)) Rmult_0_l Rmult_0_r; exact. }
move=> k b kn; have E0 := @entryE (family nback E pn eta s0 Rs d C g p0) nb st k b (inord 1).
rewrite -(R0 k kn) -E0 inordK // (key k b kn); exact: Rle_refl.
Qed.
Print Assumptions C137_kinematic.

(** A tanh network of any width on any number of batch entries, whatever its parameters, forcing and time steps (here ten steps of length 1000). *)
Example C137_ex nb (force : 'I_nb -> RF -> Slices.vec) : exists dnet dp sim,
  let net := NeuralR.perceptron tanh 2 3 4 in let t := fun k => [ffun _ => (INR k * 1000)%Re] in
  (forall p y0, explicit_result (at_p (neural_rate 1 net dnet force (n := 2) (np := NeuralR.nparams 2 3 4)) p) (at_p (neural_jac 1 net dnet force (n := 2) (np := NeuralR.nparams 2 3 4)) p) 11 t y0 (sim p y0)) /\
  forall p0 y00, gradients_exact (neural_jac 1 net dnet force (n := 2) (np := NeuralR.nparams 2 3 4)) dp 11 t sim p0 y00.
Proof.
have [dnet ag] := Props_Neural.input_derivatives_exist 2 3 (NeuralR.perceptron tanh 2 3 4).
have [dp Hdp] := parameter_derivatives_exist (neural_rate 1 (NeuralR.perceptron tanh 2 3 4) dnet force (n := 2) (np := NeuralR.nparams 2 3 4)).
have [sim H] := @C137_neural nb 2 1 (NeuralR.nparams 2 3 4) (NeuralR.perceptron tanh 2 3 4) dnet force dp 11 (fun k => [ffun _ => (INR k * 1000)%Re]) isT isT
  (@Props_Neural.perceptron_network tanh NeuralR.tanh' 2 1 4 NeuralR.tanhD NeuralR.tanhC dnet ag) Hdp.
by exists dnet, dp, sim.
Qed.
(** A material with kinematic hardening only (the parameters of C135_ex, saturation rate zero), pulled and pushed at will. *)
Lemma c1_zero np (p : 'cV[RF]_np) : c1_at (fun _ => 0%Re) p.
Proof.
exists (fun _ => 0); split.
- exists 1%Re; split; first lra. move=> c th q _ _; rewrite big1 => [|i _]; [exact: derivable_pt_lim_const|by rewrite mxE mul0r].
- move=> e e0; exists 1%Re; split; first lra. move=> p' _ i; rewrite (_ : (_ - _)%Re = R0) ?Rabs_R0; [exact: Rlt_le|exact: Rminus_diag_eq].
Qed.
Example C137_material_ex strains og : exists dp sim grad lam, let rigid := fun (_ : 'cV[RF]_8) (_ : R) => 0%Re in
  explicit_simulation (nback := 1) (const_par (inord 0)) (const_par (inord 1)) (const_par (inord 2)) (const_par (inord 3)) (const_par (inord 4)) rigid (const_seq (inord 6)) (const_seq (inord 7)) (nb := 1) 4 ex_t strains ex_temp sim /\
  explicit_gradient (jac_p (const_par (inord 0)) (const_par (inord 1)) (const_par (inord 2)) (const_par (inord 3)) (const_par (inord 4)) rigid (const_seq (inord 6)) (const_seq (inord 7)) (nback := 1) 4 ex_t strains ex_temp) dp
    4 (time_table 1 ex_t) (ex_line 2%Re) (sim (ex_line 2%Re)) og grad lam /\
  forall q, derivable_pt_lim (fun u => loss 4 og (sim (moved (ex_line 2%Re) u q))) 0 (slope grad q).
Proof.
have Gr : times_increase 1 4 ex_t by move=> b _ i j ij _; apply: lt_INR.
have val i : ex_line 2%Re i 0 = 2%Re by rewrite mxE.
pose rigid := fun (_ : 'cV[RF]_8) (_ : R) => 0%Re.
have [dp Hdp] := parameter_derivatives_exist (rate_p (nb := 1) (const_par (inord 0)) (const_par (inord 1)) (const_par (inord 2)) (const_par (inord 3)) (const_par (inord 4)) rigid (const_seq (inord 6)) (const_seq (inord 7))
     (nback := 1) 4 ex_t strains ex_temp).
have Sm k b : (k < 4)%N -> (b < 1)%N -> smooth_material 1 (const_par (inord 0)) (const_par (inord 1)) (const_par (inord 2)) (const_par (inord 3)) (const_par (inord 4)) rigid (const_seq (inord 6)) (const_seq (inord 7)) (ex_line 2%Re) (ex_temp k b) /\
   (0 < const_par (inord 2) (ex_line 2%Re) (ex_temp k b))%Re.
{ move=> _ _; split; last by rewrite /const_par val; lra.
  rewrite /smooth_material /const_par /const_seq !val; split; first by split; exact: c1_coord.
  split; last lra. split; [exact: c1_coord|exact: c1_zero| |]; move=> i _; exact: c1_coord. }
have [sim [H G]] := C137_kinematic Hdp Gr (isT : (1 < 4)%N) Sm (fun k b _ _ => Rmult_0_l _).
have [grad [lam [Rw [D _]]]] := G (loss 4 og) og (@weighted_sum _ _ _ _ _).
exists dp, sim, grad, lam => r; split; first exact: H. split; first exact: Rw.
move=> q; exact: (D (fun u => moved (ex_line 2%Re) u q) q 0%Re (moved0 _ _) (moved_diff _ q)).
Qed.
