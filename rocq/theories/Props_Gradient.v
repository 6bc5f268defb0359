(** C116: calibration by gradients, end to end: the adjoint pass on a simulation of a hardening material returns the exact derivative of the loss. *)
From Coq Require Import Reals List String Lra Lia FunctionalExtensionality.
From mathcomp Require Import all_ssreflect all_algebra.
From Verif Require Import ChunkModel ChunkSolve ChunkInst NewtonModel Ode OdeForward OdeAdjoint OdeReal OdeBlock OdeDiff RField Gmres Implicit Pipeline SmoothMx VCGrad.
From Verif Require Interp Models Flow Hardening Deriv Slices VCStep VCHistory Props_FullModel VCExact Props_Stress.
Import GRing.Theory.
Set Implicit Arguments. Unset Strict Implicit. Unset Printing Implicit Defensive.
Local Open Scope ring_scope.
Delimit Scope R_scope with Re.
Import Props_FullModel VCExact Props_Stress.

(** [og] holds the derivatives of the loss [L] with respect to the history, at [y] (what autograd hands to the backward pass). *)
Definition loss_gradient nb m (nt : nat) (L : (nat -> VB RF nb m) -> R) (y og : nat -> VB RF nb m) : Prop :=
  forall (c : R -> nat -> VB RF nb m) th z, c th = y -> (forall k b, (k < nt)%N -> cdiff (fun u => c u k b) th (z k b)) ->
    derivable_pt_lim (fun u => L (c u)) th (\sum_(k < nt) \sum_b \sum_(i < m) og k b i 0 * z k b i 0).
(** [dp] gives the derivatives of the rates with respect to the parameters, wherever they exist (what autograd computes in the backward pass). *)
Definition parameter_derivatives nb m np (rate : 'I_nb -> RF -> 'cV[RF]_m -> 'cV[RF]_np -> 'cV[RF]_m) (dp : 'I_nb -> RF -> 'cV[RF]_m -> 'cV[RF]_np -> 'M[RF]_(m, np)) : Prop :=
  forall b t y p M, param_deriv (rate b t) y p M -> dp b t y p = M.
Lemma weighted_sum nb m nt (og y : nat -> VB RF nb m) : loss_gradient nt (loss nt og) y og.
Proof.
move=> c th z _ Dz; rewrite /loss.
apply: (@dpl_sum _ _ (fun (k : 'I_nt) u => _)) => k; apply: (@dpl_sum _ _ (fun b u => _)) => b; apply: (@dpl_sum _ _ (fun i u => _)) => i.
apply: dpl_scal; exact: Dz.
Qed.

Section Cal.
Variables (np nback : nat) (E pn eta s0 Rs d : 'cV[RF]_np -> R -> R) (C g : 'cV[RF]_np -> R -> nat -> R).
Variables (nb nt : nat) (times strains temps : nat -> nat -> R).
Let model p := family nback E pn eta s0 Rs d C g p.
Let rate := rate_p E pn eta s0 Rs d C g (nback := nback) (nb := nb) nt times strains temps.
Let jac := jac_p E pn eta s0 Rs d C g (nback := nback) (nb := nb) nt times strains temps.
Let good p b := good_entry (E p) (pn p) (eta p) (s0 p) (Rs p) (d p) nback (C p) (g p) nt temps b.
Variable dp : 'I_nb -> RF -> 'cV[RF]_nback.+2 -> 'cV[RF]_np -> 'M[RF]_(nback.+2, np).
Hypothesis autograd : parameter_derivatives rate dp.
Hypothesis Gr : times_increase nb nt times.
Hypothesis nt2 : (1 < nt)%N.
Lemma gradient_core mth n (p : R -> 'cV[RF]_np) q th dl (Y : R -> nat -> VB RF nb nback.+2) :
  (0 < n)%N -> (0 < dl)%Re ->
  (forall u b, (Rabs (u - th) < dl)%Re -> (b < nb)%N -> good (p u) b) ->
  (forall k b, (k < nt)%N -> (b < nb)%N -> smooth_material nback E pn eta s0 Rs d C g (p th) (temps k b)) ->
  cdiff p th q ->
  (forall u, (Rabs (u - th) < dl)%Re -> exact_history (B := model (p u)) nt times strains temps (Y u)) ->
  forall L og, loss_gradient nt L (Y th) og ->
  exists grad lam, rewind (at_p jac (p th)) (at_p dp (p th)) mth BackwardEuler n nt (time_table nb times) (Y th) og = Some (grad, lam) /\
    derivable_pt_lim (fun u => L (Y u)) th (\sum_(i < np) grad i 0 * q i 0).
Proof.
move=> n0 dl0 Gd Sm Dp HY L og HL.
have th0 : (Rabs (th - th) < dl)%Re by rewrite (_ : (th - th = 0)%Re) ?Rabs_R0 //; ring.
have nt0 : (0 < nt)%N := ltnW nt2.
have Rg : forall k (b : 'I_nb), (k < nt)%N -> VCHistory.in_range (Rs (p th)) nback (C (p th)) (g (p th)) (temps k b) (fun i => tv (Y th k b) i.+1).
{ move=> k b kn; exact: (history_range (nb := nb) Gr (fun b => Gd th b th0) (HY th th0) b kn). }
have c1 k b : (k < nt)%N -> c1_near (rate b (time_table nb times k b)) (jac b (time_table nb times k b)) (dp b (time_table nb times k b)) (Y th k b) (p th).
{ move=> kn; have IT : interp_at nt times temps b (time_table nb times k b) = temps k b by rewrite ffunE (interp_knot temps nt2 (ltn_ord b) Gr kn).
  have [[/(_ k kn) [_ [_ [ep _]]] _] [[yp _] _]] := (Gd th b th0 (ltn_ord b), Rg k b kn).
  have S1 := Sm k b kn (ltn_ord b).
  have yp' : (0 <= Y th k b (inord 1) ord0)%Re by rewrite -(tvE (Y th k b) (inord 1)) inordK.
  apply: c1_of_rows => [i||].
  - apply: rows_smooth; rewrite ?IT //.
  - apply: jac_near; rewrite ?IT //.
  - exact: autograd. }
have sol u : (Rabs (u - th) < dl)%Re -> scheme_solution rate BackwardEuler nt (time_table nb times) (p u) (Y u).
{ move=> ud; have [_ H] := HY u ud; exact: H. }
have reg : steps_regular jac BackwardEuler nt (time_table nb times) (p th) (Y th).
{ move=> _ k b k0 kn; have [/(_ k kn) [/Rlt_le E0 A] _] := Gd th b th0 (ltn_ord b).
  exact: (step_regular strains Gr k0 kn E0 A (Rg k b kn)). }
have sd k b : (0 < k)%N -> (k < nt)%N -> sdiff (rate b (time_table nb times k b)) (jac b (time_table nb times k b) (Y th k b) (p th)) (dp b (time_table nb times k b) (Y th k b) (p th)) (Y th k b) (p th).
{ move=> _ kn; exact: c1_sdiff (c1 k b kn). }
have Z0 : @zeroV RF nb nback.+2 = Y th 0%N by have [-> _] := HY th th0.
have D0 b : cdiff (fun _ : R => @zeroV RF nb nback.+2 b) th (@zeroV RF nb nback.+2 b) by rewrite {2}/zeroV ffunE; exact: cdiff_cst.
have [Y' [z [r [[r0 Yth z00 Dz] [d1 [d10 H]]]]]] := solution_map nt0 (sol th th0) Z0 Dp D0 sd reg.
have same u : (Rabs (u - th) < Rmin dl d1)%Re -> forall k, (k < nt)%N -> Y' u k = Y u k.
{ move=> ud; have ul := Rlt_le_trans _ _ _ ud (Rmin_l _ _); have ur := Rlt_le_trans _ _ _ ud (Rmin_r _ _).
  have [Y0 S' _] := H u ur.
  apply: (history_unique (nb := nb) Gr (fun b => Gd u b ul) (strains := strains)); last exact: HY.
  by split. }
have m0 : (0 < Rmin dl d1)%Re by exact: Rmin_glb_lt.
have Dz' k b : (k < nt)%N -> cdiff (fun u => Y u k b) th (z k b).
{ move=> kn i; apply: dpl_ext_loc (Dz k b kn i); exists (Rmin dl d1); split=> // u ud; by rewrite (same u ud k kn). }
have par : partials_along rate jac dp nt (time_table nb times) (p th) (Y th).
{ move=> k b kn; exact: sdiff_partials (c1_sdiff (c1 k b kn)). }
have sol' : exists d, Rlt 0 d /\ forall u, Rlt (Rabs (u - th)) d -> scheme_solution rate BackwardEuler nt (time_table nb times) (p u) (Y u).
{ by exists dl. }
have [grad [lam [Eq D]]] := adjoint_derivative mth og n0 nt0 sol' Dz' Dp par reg.
exists grad, lam; split=> //.
have A := HL Y th z erefl Dz'; have B := weighted_sum og (erefl (Y th)) Dz'.
move: A; rewrite (uniqueness_limite _ _ _ _ B D) z00.
have -> : \sum_b \sum_(c < nback.+2) lam b c 0 * @zeroV RF nb nback.+2 b c 0 = 0.
{ rewrite big1 // => b _; rewrite big1 // => c _; by rewrite ffunE mxE mulr0. }
by rewrite addr0.
Qed.
End Cal.

(** C116: a material model whose parameters depend continuously differentiably on a calibrated vector [p]; a line [p u] of such vectors through [p th] with
    direction [q]; [Y u] the exact simulation with the parameters [p u].  For every loss [L] of the simulated history with gradient [og], the adjoint
    pass run on the simulation at [th] succeeds, and what it returns is the derivative of the loss along the line, for every linear solver and block size.
    [dp] is the derivative of the rates with respect to the parameters wherever that exists. *)
Theorem C116_gradient_of_exact_simulations np nback (E pn eta s0 Rs d : 'cV[RF]_np -> R -> R) (C g : 'cV[RF]_np -> R -> nat -> R)
    nb nt (times strains temps : nat -> nat -> R) (dp : 'I_nb -> RF -> 'cV[RF]_nback.+2 -> 'cV[RF]_np -> 'M[RF]_(nback.+2, np))
    mth n (p : R -> 'cV[RF]_np) q th dl (Y : R -> nat -> VB RF nb nback.+2) :
  parameter_derivatives (rate_p E pn eta s0 Rs d C g (nback := nback) nt times strains temps) dp ->
  times_increase nb nt times -> (1 < nt)%N -> (0 < n)%N -> (0 < dl)%Re ->
  (forall u b, (Rabs (u - th) < dl)%Re -> (b < nb)%N -> good_entry (E (p u)) (pn (p u)) (eta (p u)) (s0 (p u)) (Rs (p u)) (d (p u)) nback (C (p u)) (g (p u)) nt temps b) ->
  (forall k b, (k < nt)%N -> (b < nb)%N -> smooth_material nback E pn eta s0 Rs d C g (p th) (temps k b)) ->
  cdiff p th q ->
  (forall u, (Rabs (u - th) < dl)%Re -> exact_history (B := family nback E pn eta s0 Rs d C g (p u)) nt times strains temps (Y u)) ->
  forall L og, loss_gradient nt L (Y th) og ->
  exists grad lam,
    rewind (at_p (jac_p E pn eta s0 Rs d C g (nback := nback) nt times strains temps) (p th)) (at_p dp (p th)) mth BackwardEuler n nt (time_table nb times) (Y th) og = Some (grad, lam) /\
    derivable_pt_lim (fun u => L (Y u)) th (\sum_(i < np) grad i 0 * q i 0).
Proof. move=> A Gr nt2 n0 dl0 Gd Sm Dp HY L og HL; exact: (gradient_core A Gr nt2 mth n0 dl0 Gd Sm Dp HY HL). Qed.
Print Assumptions C116_gradient_of_exact_simulations.

(** The same for what the code returns when it reports no failure: simulations run with zero tolerance, each with its own linear solver, guess, block size. *)
Theorem C116_gradient_of_runs np nback (E pn eta s0 Rs d : 'cV[RF]_np -> R -> R) (C g : 'cV[RF]_np -> R -> nat -> R)
    nb nt (times strains temps : nat -> nat -> R) (dp : 'I_nb -> RF -> 'cV[RF]_nback.+2 -> 'cV[RF]_np -> 'M[RF]_(nback.+2, np))
    mth n (p : R -> 'cV[RF]_np) q th dl lm miter throw gt n' init (st : R -> istate RF nb nback.+2) :
  parameter_derivatives (rate_p E pn eta s0 Rs d C g (nback := nback) nt times strains temps) dp ->
  times_increase nb nt times -> (1 < nt)%N -> (0 < n)%N -> (0 < dl)%Re ->
  (forall u b, (Rabs (u - th) < dl)%Re -> (b < nb)%N -> good_entry (E (p u)) (pn (p u)) (eta (p u)) (s0 (p u)) (Rs (p u)) (d (p u)) nback (C (p u)) (g (p u)) nt temps b) ->
  (forall k b, (k < nt)%N -> (b < nb)%N -> smooth_material nback E pn eta s0 Rs d C g (p th) (temps k b)) ->
  cdiff p th q ->
  (forall u, (Rabs (u - th) < dl)%Re ->
     solve_strain (B := family nback E pn eta s0 Rs d C g (p u)) nt times strains temps BackwardEuler (lm u) R0 R0 (miter u) (throw u) (gt u) (n' u) (init u) = inl (st u) /\ i_warned (st u) = [::]) ->
  forall L og, loss_gradient nt L (i_result (st th)) og ->
  exists grad lam,
    rewind (at_p (jac_p E pn eta s0 Rs d C g (nback := nback) nt times strains temps) (p th)) (at_p dp (p th)) mth BackwardEuler n nt (time_table nb times) (i_result (st th)) og = Some (grad, lam) /\
    derivable_pt_lim (fun u => L (i_result (st u))) th (\sum_(i < np) grad i 0 * q i 0).
Proof.
move=> A Gr nt2 n0 dl0 Gd Sm Dp HY L og HL; apply: (gradient_core A Gr nt2 mth n0 dl0 Gd Sm Dp (Y := fun u => i_result (st u)) _ HL) => u ud.
have [So Wa] := HY u ud; have [Z H] := solve_strain_exact Gr So Wa.
apply/(history_steps (B := family nback E pn eta s0 Rs d C g (p u)) strains temps _ Gr); split.
- apply/ffunP => b; apply/colP => i; rewrite ffunE [RHS]mxE -(tvE (i_result (st u) 0%N b) i); exact: (Z b i (ltn_ord i)).
- move=> k b i k0 kn im; exact: (H k b i k0 kn im).
Qed.
Print Assumptions C116_gradient_of_runs.

(** Derivatives with respect to the parameters are determined, so such a [dp] exists. *)
Lemma param_deriv_unique m np (f : 'cV[RF]_m -> 'cV[RF]_np -> 'cV[RF]_m) y p M M' : param_deriv f y p M -> param_deriv f y p M' -> M = M'.
Proof.
move=> H H'; apply/matrixP => i j; pose c (u : R) : 'cV[RF]_np := p + (u : RF) *: delta_mx j 0.
have c0 : c R0 = p by rewrite /c scale0r addr0.
have Dc : cdiff c R0 (delta_mx j 0).
{ move=> k; apply: (@dpl_ext (fun u => p k 0 + (delta_mx j 0 : 'cV[RF]_np) k 0 * u)) => [u|]; first by rewrite /c [RHS]mxE [X in _ = _ + X]mxE mulrC.
  have := dpl_add (dpl_cst (p k 0) R0) (dpl_scal ((delta_mx j 0 : 'cV[RF]_np) k 0) (derivable_pt_lim_id R0)); by rewrite add0r [_ * R1]mulr1. }
have A := H c R0 _ c0 Dc i; have B := H' c R0 _ c0 Dc i; have := uniqueness_limite _ _ _ _ A B; by rewrite -!colE !mxE.
Qed.
Lemma parameter_derivatives_exist nb m np (rate : 'I_nb -> RF -> 'cV[RF]_m -> 'cV[RF]_np -> 'cV[RF]_m) : exists dp, parameter_derivatives rate dp.
Proof.
exists (fun b t y p => ClassicalEpsilon.epsilon (inhabits 0) (param_deriv (rate b t) y p)) => b t y p M H.
exact: param_deriv_unique (ClassicalEpsilon.epsilon_spec (inhabits (0 : 'M[RF]_(m, np))) (param_deriv (rate b t) y p) (ex_intro _ M H)) H.
Qed.
Lemma c1_coord np (j : 'I_np) (p : 'cV[RF]_np) : c1_at (fun p => p j 0) p.
Proof.
exists (fun _ => delta_mx j 0); split.
- exists 1%Re; split; first lra. move=> c th q _ Dc; rewrite (bigD1 j) //= big1 => [|i ij]; last by rewrite mxE (negbTE ij) mul0r.
  rewrite mxE !eqxx mul1r addr0; exact: Dc.
- move=> e e0; exists 1%Re; split; first lra. move=> p' _ i; rewrite (_ : (_ - _)%Re = R0) ?Rabs_R0; [exact: Rlt_le|exact: Rminus_diag_eq].
Qed.

(** Example: one backstress, the eight material constants are the calibrated vector, moved together through the value 2; any strain history, any weights. *)
Definition ex_line (u : R) : 'cV[RF]_8 := \col_i (u : RF).
Definition const_par (i : 'I_8) (p : 'cV[RF]_8) (_ : R) : R := p i 0.
Definition const_seq (i : 'I_8) (p : 'cV[RF]_8) (_ : R) (_ : nat) : R := p i 0.
Definition ex_fam := family 1 (const_par (inord 0)) (const_par (inord 1)) (const_par (inord 2)) (const_par (inord 3)) (const_par (inord 4)) (const_par (inord 5)) (const_seq (inord 6)) (const_seq (inord 7)).
Definition ex_t (k b : nat) : R := INR k.
Definition ex_temp (k b : nat) : R := R0.
Example C116_ex (strains : nat -> nat -> R) og : exists (Y : R -> nat -> VB RF 1 3) dp grad lam,
  (forall u, (Rabs (u - 2) < 1)%Re -> exact_history (B := ex_fam (ex_line u)) 4 ex_t strains ex_temp (Y u)) /\
  rewind (at_p (jac_p (const_par (inord 0)) (const_par (inord 1)) (const_par (inord 2)) (const_par (inord 3)) (const_par (inord 4)) (const_par (inord 5)) (const_seq (inord 6)) (const_seq (inord 7))
     (nback := 1) 4 ex_t strains ex_temp) (ex_line 2%Re)) (at_p dp (ex_line 2%Re)) PCR BackwardEuler 2 4 (time_table 1 ex_t) (Y 2%Re) og = Some (grad, lam) /\
  derivable_pt_lim (fun u => loss 4 og (Y u)) 2%Re (\sum_(i < 8) grad i 0).
Proof.
have Gr : times_increase 1 4 ex_t by move=> b _ i j ij _; apply: lt_INR.
have val u i : ex_line u i 0 = u by rewrite mxE.
have bound u : (Rabs (u - 2) < 1 -> 1 < u < 3)%Re by move=> /Rabs_def2; lra.
have Gd u b : (Rabs (u - 2) < 1)%Re -> (b < 1)%N ->
  good_entry (const_par (inord 0) (ex_line u)) (const_par (inord 1) (ex_line u)) (const_par (inord 2) (ex_line u)) (const_par (inord 3) (ex_line u)) (const_par (inord 4) (ex_line u)) (const_par (inord 5) (ex_line u)) 1
    (const_seq (inord 6) (ex_line u)) (const_seq (inord 7) (ex_line u)) 4 ex_temp b.
{ move=> /bound ud _; split=> k kn.
  - rewrite /VCHistory.admissible /const_par /const_seq !val; do 6 (split; first lra); move=> i _; lra.
  - rewrite /VCHistory.no_softening /const_par /const_seq; split; first exact: Rle_refl. move=> i _; exact: Rle_refl. }
have HY u : exists Y : nat -> VB RF 1 3, (Rabs (u - 2) < 1)%Re -> exact_history (B := ex_fam (ex_line u)) 4 ex_t strains ex_temp Y.
{ case: (Rlt_dec (Rabs (u - 2)) 1) => ud; last by exists (fun _ => @zeroV RF 1 3).
  have [Y H] := history_exists strains Gr (fun b => Gd u b ud); by exists Y. }
pose Y u := sval (ClassicalEpsilon.constructive_indefinite_description _ (HY u)).
have HYu u : (Rabs (u - 2) < 1)%Re -> exact_history (B := ex_fam (ex_line u)) 4 ex_t strains ex_temp (Y u) := svalP (ClassicalEpsilon.constructive_indefinite_description _ (HY u)).
have [dp Hdp] := parameter_derivatives_exist (rate_p (nb := 1) (const_par (inord 0)) (const_par (inord 1)) (const_par (inord 2)) (const_par (inord 3)) (const_par (inord 4)) (const_par (inord 5)) (const_seq (inord 6)) (const_seq (inord 7))
     (nback := 1) 4 ex_t strains ex_temp).
have Dp : cdiff ex_line 2%Re (ex_line 1%Re).
{ move=> i; rewrite mxE; apply: (@dpl_ext id) => [u|]; [by rewrite mxE|exact: derivable_pt_lim_id]. }
have Sm k b : (k < 4)%N -> (b < 1)%N -> smooth_material 1 (const_par (inord 0)) (const_par (inord 1)) (const_par (inord 2)) (const_par (inord 3)) (const_par (inord 4)) (const_par (inord 5)) (const_seq (inord 6)) (const_seq (inord 7)) (ex_line 2%Re) (ex_temp k b).
{ move=> _ _; rewrite /smooth_material /const_par /const_seq !val; split; first by split; exact: c1_coord.
  split; last lra. split; try exact: c1_coord. move=> i _; exact: c1_coord. move=> i _; exact: c1_coord. }
have [grad [lam [Eq D]]] := C116_gradient_of_exact_simulations PCR Hdp Gr (ltn0Sn 2 : (1 < 4)%N) (ltn0Sn 1) Rlt_0_1 Gd Sm Dp HYu (weighted_sum og (y := Y 2%Re)).
exists Y, dp, grad, lam; split=> //; split=> //.
move: D; rewrite (eq_bigr (fun i => grad i 0)) // => i _; by rewrite mxE -[1%Re]/(1 : RF) mulr1.
Qed.
