(** C129: the gradient the adjoint pass computes depends continuously on the simulated history, so the gradients of simulations that converged only to the solver's
    tolerances tend to the exact derivative of the loss as the tolerances are tightened. *)
From Coq Require Import Reals List String Lra Lia FunctionalExtensionality.
From mathcomp Require Import all_ssreflect all_algebra.
From Verif Require Import ChunkModel ChunkSolve ChunkInst NewtonModel Ode OdeForward OdeAdjoint OdeReal OdeBlock OdeDiff RField Gmres Implicit Pipeline PipelineBoth Tolerance SmoothMx VCGrad AdjLimit.
From Verif Require Interp Models Flow Hardening Deriv Slices VCStep VCHistory Props_FullModel VCExact Props_Stress Props_Gradient Props_Close Props_Mixed.
Import GRing.Theory.
Set Implicit Arguments. Unset Strict Implicit. Unset Printing Implicit Defensive.
Local Open Scope ring_scope.
Delimit Scope R_scope with Re.
Import Props_FullModel VCExact Props_Stress Props_Gradient.

(** Every entry of the first [nt] rows of [y] is within [d] of the entry of [y']. *)
Definition within nb m (nt : nat) (d : R) (y y' : nat -> VB RF nb m) : Prop := forall k b i, (k < nt)%N -> (Rabs (y k b i ord0 - y' k b i ord0) <= d)%Re.

(** C129: near a solution of the update equations at which the implicit steps are solvable, the backward pass succeeds, and parameter gradient and initial-state gradient
    depend continuously on the parameters, on the history it is run on and on the incoming gradient - for both schemes, every linear solver and every block size. *)
Theorem C129_gradient_is_continuous nb m np fp Jp Pp s nt (t : nat -> TB RF nb) (p0 : 'cV[RF]_np) (y0 og0 : nat -> VB RF nb m) : (0 < nt)%N ->
  (forall k b, (k < nt)%N -> c1_near (fp b (t k b)) (Jp b (t k b)) (Pp b (t k b)) (y0 k b) p0) -> steps_regular Jp s nt t p0 y0 ->
  exists grad0 lam0, (forall mth n, (0 < n)%N -> rewind (at_p Jp p0) (at_p Pp p0) mth s n nt t y0 og0 = Some (grad0, lam0)) /\
    forall e, (0 < e)%Re -> exists d, (0 < d)%Re /\ forall (p : 'cV[RF]_np) (y og : nat -> VB RF nb m) mth n, (forall i, Rabs (p i ord0 - p0 i ord0) <= d)%Re -> within nt d y y0 -> within nt d og og0 -> (0 < n)%N ->
      exists grad lam, rewind (at_p Jp p) (at_p Pp p) mth s n nt t y og = Some (grad, lam) /\
        (forall i, Rabs (grad i ord0 - grad0 i ord0) <= e)%Re /\ (forall b i, Rabs (lam b i ord0 - lam0 b i ord0) <= e)%Re.
Proof.
move=> nt0 c1 reg.
eexists; eexists; split; first by move=> mth n n0; exact: rewind_spec n0 nt0 (regular_nonsing reg).
move=> e e0.
pose A := ('cV[RF]_np * (nat -> VB RF nb m) * (nat -> VB RF nb m))%type.
pose sz (a : A) (d : R) := (forall i, Rabs (a.1.1 i ord0 - p0 i ord0) <= d)%Re /\ within nt d a.1.2 y0 /\ within nt d a.2 og0.
have szm a d d' : (d <= d')%Re -> sz a d -> sz a d'.
{ move=> dd [S1 [S2 S3]]; split; [|split]; [move=> i|move=> k b i kn|move=> k b i kn]; apply: Rle_trans dd; [exact: S1|exact: S2|exact: S3]. }
have nd q (u v : 'cV[RF]_q) d : (0 < d)%Re -> (forall i, Rabs (u i ord0 - v i ord0) <= d / (INR q + 1))%Re -> (dst u v <= d)%Re.
{ move=> d0 H; apply: Rle_trans (norm_le_sum _) _; have q0 := pos_INR q.
  have : Rle (\sum_i (Rabs ((u - v)%R i ord0) : RF)) (\sum_(i < q) (Rdiv d (Rplus (INR q) 1) : RF)).
  { apply: sum_le => i; rewrite !mxE; exact: H. }
  rewrite sum_const => X; apply: Rle_trans X _; apply: (Rmult_le_reg_r (INR q + 1)); first by lra.
  have -> : (INR q * (d / (INR q + 1)) * (INR q + 1) = INR q * d)%Re by field; lra. lra. }
have near k b d : (k < nt)%N -> (0 < d)%Re -> ev sz (fun a => dst (a.1.2 k b) (y0 k b) <= d /\ dst a.1.1 p0 <= d)%Re.
{ move=> kn d0; have q0 := pos_INR m; have q1 := pos_INR np.
  exists (Rmin (d / (INR m + 1)) (d / (INR np + 1))); split; first by apply: Rmin_glb_lt; apply: Rdiv_lt_0_compat => //; lra.
  move=> a [S1 [S2 _]]; split; apply: nd => // i; [apply: Rle_trans (S2 k b i kn) _; exact: Rmin_l|apply: Rle_trans (S1 i) _; exact: Rmin_r]. }
have HJ k b : (k < nt)%N -> mtends sz (fun a => Jp b (t k b) (a.1.2 k b) a.1.1) (Jp b (t k b) (y0 k b) p0).
{ move=> kn i j x x0; have [_ /(_ x x0) [d [d0 D]]] := c1 k b kn; apply: ev_imp (near k b d kn d0) => a [a1 a2]; exact: (proj1 (D _ _ a1 a2)). }
have HP k b : (k < nt)%N -> mtends sz (fun a => Pp b (t k b) (a.1.2 k b) a.1.1) (Pp b (t k b) (y0 k b) p0).
{ move=> kn i j x x0; have [_ /(_ x x0) [d [d0 D]]] := c1 k b kn; apply: ev_imp (near k b d kn d0) => a [a1 a2]; exact: (proj2 (D _ _ a1 a2)). }
have HG k b : (k < nt)%N -> mtends sz (fun a => a.2 k b) (og0 k b).
{ move=> kn i j x x0; exists x; split=> // a [_ [_ S3]]; rewrite (ord1 j); exact: S3. }
have [d [d0 D]] := rewind_limit szm nt0 HJ HP HG reg (ltn0Sn 0) (rewind_spec (at_p Pp p0) Thomas og0 (ltn0Sn 0) nt0 (regular_nonsing reg)) e0.
exists d; split=> // p y og mth n S1 S2 S3 n0; exact: (D (p, y, og) mth n).
Qed.
Print Assumptions C129_gradient_is_continuous.

Section Mat.
Variables (np nback : nat) (E pn eta s0 Rs d : 'cV[RF]_np -> R -> R) (C g : 'cV[RF]_np -> R -> nat -> R).
Variables (nb nt : nat) (times strains temps : nat -> nat -> R).
Let rate := rate_p E pn eta s0 Rs d C g (nback := nback) (nb := nb) nt times strains temps.
Let jac := jac_p E pn eta s0 Rs d C g (nback := nback) (nb := nb) nt times strains temps.
Let good p b := good_entry (E p) (pn p) (eta p) (s0 p) (Rs p) (d p) nback (C p) (g p) nt temps b.
Variable dp : 'I_nb -> RF -> 'cV[RF]_nback.+2 -> 'cV[RF]_np -> 'M[RF]_(nback.+2, np).
Hypothesis autograd : parameter_derivatives rate dp.
Hypothesis Gr : times_increase nb nt times.
Hypothesis nt2 : (1 < nt)%N.
Variables (p : 'cV[RF]_np) (y : nat -> VB RF nb nback.+2).
Hypothesis Gd : forall b, (b < nb)%N -> good p b.
Hypothesis Hy : exact_history (B := family nback E pn eta s0 Rs d C g p) nt times strains temps y.
Lemma history_smooth : (forall k b, (k < nt)%N -> (b < nb)%N -> smooth_material nback E pn eta s0 Rs d C g p (temps k b)) ->
  forall k b, (k < nt)%N -> c1_near (rate b (time_table nb times k b)) (jac b (time_table nb times k b)) (dp b (time_table nb times k b)) (y k b) p.
Proof.
move=> Sm k b kn; have Rg := history_range (nb := nb) Gr Gd Hy b kn.
have IT : interp_at nt times temps b (time_table nb times k b) = temps k b by rewrite ffunE (interp_knot temps nt2 (ltn_ord b) Gr kn).
have [[/(_ k kn) [_ [_ [ep _]]] _] [[yp _] _]] := (Gd (ltn_ord b), Rg).
have S1 := Sm k b kn (ltn_ord b).
have yp' : (0 <= y k b (inord 1) ord0)%Re by rewrite -(tvE (y k b) (inord 1)) inordK.
apply: c1_of_rows => [i||].
- apply: rows_smooth; rewrite ?IT //.
- apply: jac_near; rewrite ?IT //.
- exact: autograd.
Qed.
Lemma history_regular : steps_regular jac BackwardEuler nt (time_table nb times) p y.
Proof.
move=> _ k b k0 kn; have [/(_ k kn) [/Rlt_le E0 A] _] := Gd (ltn_ord b).
exact: (step_regular strains Gr k0 kn E0 A (history_range (nb := nb) Gr Gd Hy b kn)).
Qed.
End Mat.

Lemma pair_near np (gr gr0 q : 'cV[RF]_np) e : (0 <= e)%Re -> (forall i, Rabs (gr i ord0 - gr0 i ord0) <= e)%Re ->
  (Rabs (\sum_i (gr i ord0 * q i ord0 : RF)%R - \sum_i (gr0 i ord0 * q i ord0 : RF)%R) <= e * \sum_i (Rabs (q i ord0) : RF)%R)%Re.
Proof.
move=> e0 H.
have -> : (\sum_i (gr i ord0 * q i ord0 : RF)%R - \sum_i (gr0 i ord0 * q i ord0 : RF)%R)%Re = (\sum_i ((gr i ord0 - gr0 i ord0) * q i ord0 : RF))%R.
{ rewrite -[LHS]/(\sum_i (gr i ord0 * q i ord0 : RF) - \sum_i (gr0 i ord0 * q i ord0 : RF))%R -sumrB; apply: eq_bigr => i _; by rewrite mulrBl. }
apply: Rle_trans (abs_sum _) _; rewrite -[X in Rle _ X]/((e : RF) * \sum_i (Rabs (q i ord0) : RF))%R mulr_sumr; apply: sum_le => i.
rewrite Rabs_mult; apply: Rmult_le_compat_r; [exact: Rabs_pos|exact: H].
Qed.

(** The exact simulation of a hardening material (C116): the gradient computed from any history near the exact one, with an incoming gradient near that of the loss,
    is near the derivative of the loss of the exact simulations. *)
Theorem C129_gradient_near_the_exact_history np nback (E pn eta s0 Rs d : 'cV[RF]_np -> R -> R) (C g : 'cV[RF]_np -> R -> nat -> R)
    nb nt (times strains temps : nat -> nat -> R) (dp : 'I_nb -> RF -> 'cV[RF]_nback.+2 -> 'cV[RF]_np -> 'M[RF]_(nback.+2, np))
    (p : R -> 'cV[RF]_np) q th dl (Y : R -> nat -> VB RF nb nback.+2) :
  parameter_derivatives (rate_p E pn eta s0 Rs d C g (nback := nback) nt times strains temps) dp ->
  times_increase nb nt times -> (1 < nt)%N -> (0 < dl)%Re ->
  (forall u b, (Rabs (u - th) < dl)%Re -> (b < nb)%N -> good_entry (E (p u)) (pn (p u)) (eta (p u)) (s0 (p u)) (Rs (p u)) (d (p u)) nback (C (p u)) (g (p u)) nt temps b) ->
  (forall k b, (k < nt)%N -> (b < nb)%N -> smooth_material nback E pn eta s0 Rs d C g (p th) (temps k b)) ->
  cdiff p th q ->
  (forall u, (Rabs (u - th) < dl)%Re -> exact_history (B := family nback E pn eta s0 Rs d C g (p u)) nt times strains temps (Y u)) ->
  forall L og, loss_gradient nt L (Y th) og ->
  exists D, derivable_pt_lim (fun u => L (Y u)) th D /\
    forall e, (0 < e)%Re -> exists dlt, (0 < dlt)%Re /\ forall (y' og' : nat -> VB RF nb nback.+2) mth n, within nt dlt y' (Y th) -> within nt dlt og' og -> (0 < n)%N ->
      exists grad lam,
        rewind (at_p (jac_p E pn eta s0 Rs d C g (nback := nback) nt times strains temps) (p th)) (at_p dp (p th)) mth BackwardEuler n nt (time_table nb times) y' og' = Some (grad, lam) /\
        (Rabs ((\sum_(i < np) grad i 0 * q i 0)%R - D) <= e)%Re.
Proof.
move=> A Gr nt2 dl0 Gd Sm Dp HY L og HL.
have [gr0 [lam0 [E0 D0]]] := gradient_core A Gr nt2 Thomas (ltn0Sn 0) dl0 Gd Sm Dp HY HL.
have th0 : (Rabs (th - th) < dl)%Re by rewrite (_ : (th - th = 0)%Re) ?Rabs_R0 //; ring.
exists (\sum_(i < np) gr0 i 0 * q i 0); split=> // e e0.
have [gr1 [lam1 [E1 Cn]]] := C129_gradient_is_continuous og (ltnW nt2) (history_smooth A Gr nt2 (fun b => Gd th b th0) (HY th th0) Sm) (history_regular Gr (fun b => Gd th b th0) (HY th th0)).
have Eq : gr1 = gr0 by move: E0; rewrite (E1 Thomas 1%N (ltn0Sn 0)) => -[->].
pose N : R := \sum_(i < np) (Rabs (q i ord0) : RF).
have N0 : (0 <= N)%Re by apply: (Rle_trans _ (\sum_(i < np) (R0 : RF))%R); [rewrite big1 //; exact: Rle_refl|apply: sum_le => i; exact: Rabs_pos].
have e1 : (0 < e / (N + 1))%Re by apply: Rdiv_lt_0_compat => //; lra.
have [dlt [d0 H]] := Cn _ e1; exists dlt; split=> // y' og' mth n Wy Wo n0.
have Pp i : (Rabs (p th i ord0 - p th i ord0) <= dlt)%Re by rewrite (_ : (_ - _ = 0)%Re) ?Rabs_R0; [exact: Rlt_le|exact: Rminus_diag_eq].
have [gr [lam [Er [Hg _]]]] := H (p th) y' og' mth n Pp Wy Wo n0; exists gr, lam; split=> //.
rewrite Eq in Hg; apply: Rle_trans (pair_near q (Rlt_le _ _ e1) Hg) _; rewrite -/N.
apply: (Rmult_le_reg_r (N + 1)); first by lra.
have -> : (e / (N + 1) * N * (N + 1) = e * N)%Re by field; lra. nra.
Qed.
Print Assumptions C129_gradient_near_the_exact_history.

(** The function solve_strain hands to the integrator for a block of times. *)
Definition strain_G (B : Models.rateform) nb nt (times strains temps : nat -> nat -> R) (rows : nat) (ts : nat -> TB RF nb) (y : nat -> VB RF nb (Models.rf_n B)) :=
  (func_rate (strain_f nt times strains temps) ts y, func_jac (strain_J nt times strains temps) ts y).

(** Simulations to tolerance are near the exact history, all tests of the batch together. *)
Lemma runs_within E pn eta s0 Rs d nback C g nb nt (times strains temps : nat -> nat -> R) (B := voce_chaboche E pn eta s0 Rs d nback C g) (y : nat -> VB RF nb nback.+2) :
  times_increase nb nt times -> (forall b, (b < nb)%N -> good_entry E pn eta s0 Rs d nback C g nt temps b) ->
  (forall k b, (k < nt)%N -> (b < nb)%N -> (0 < s0 (temps k b))%Re) -> exact_history (B := B) nt times strains temps y ->
  forall eps, (0 < eps)%Re -> exists tol, (0 < tol)%Re /\ forall lm rtol atol miter throw gt n init st,
    solve_strain (B := B) nt times strains temps BackwardEuler lm rtol atol miter throw gt n init = inl st -> i_warned st = [::] ->
    (forall b, tol_boundG (@strain_G B nb nt times strains temps) BackwardEuler rtol atol gt n nt (time_table nb times) (i_result st) b tol) ->
    within nt eps (i_result st) y.
Proof.
move=> Gr Gd Sp Hy eps e0.
have SG : @strain_G B nb nt times strains temps = @both_G B nb nt times strains temps (fun _ => R0).
{ apply: functional_extensionality => rows; apply: functional_extensionality => ts; apply: functional_extensionality => Z; rewrite /strain_G; symmetry; exact: both_all_strain. }
have [tol [t0 H]] : exists tol, (0 < tol)%Re /\ forall b : 'I_nb, forall lm rtol atol miter throw gt n init st,
    solve_strain (B := B) nt times strains temps BackwardEuler lm rtol atol miter throw gt n init = inl st -> i_warned st = [::] ->
    tol_boundG (@strain_G B nb nt times strains temps) BackwardEuler rtol atol gt n nt (time_table nb times) (i_result st) b tol ->
    forall k i, (k < nt)%N -> (Rabs (i_result st k b i ord0 - y k b i ord0) <= eps)%Re.
{ apply: (fin_radius (P := fun (b : 'I_nb) tol => forall lm rtol atol miter throw gt n init st,
    solve_strain (B := B) nt times strains temps BackwardEuler lm rtol atol miter throw gt n init = inl st -> i_warned st = [::] ->
    tol_boundG (@strain_G B nb nt times strains temps) BackwardEuler rtol atol gt n nt (time_table nb times) (i_result st) b tol ->
    forall k i, (k < nt)%N -> (Rabs (i_result st k b i ord0 - y k b i ord0) <= eps)%Re)).
  - move=> b r r' rr H lm rtol atol miter throw gt n init st S W [T0 [T1 T2]] k i kn; apply: (H _ _ _ _ _ _ _ _ _ S W) => //.
    split; [exact: Rle_trans T0 rr|split; [exact: Rle_trans T1 rr|]].
    case: T2 => [r0|[gz T2]]; [by left|right; split=> // j j0 jn k0 len ts Yg Q1 Q2; exact: Rle_trans (T2 j j0 jn ts Yg Q1 Q2) rr].
  - move=> b.
    have G1 : times_increase 1 nt (fun k _ => times k b) by move=> [//|//] _ i j ij jn; apply: Gr => //.
    have [z [Hz /(_ eps e0) [tol [t0 Cl]]]] := @Props_Close.C118_tighter_tolerance_converges E pn eta s0 Rs d nback C g nt (fun k _ => times k b) (fun k _ => strains k b) (fun k _ => temps k b) G1 (Gd b (ltn_ord b)) (fun k kn => Sp k b kn (ltn_ord b)).
    exists tol; split=> // lm rtol atol miter throw gt n init st S W T k i kn.
    have same j : (j < nt)%N -> z j ord0 = y j b.
    { have Hyb : exact_history (nb := 1) (B := B) nt (fun k _ => times k b) (fun k _ => strains k b) (fun k _ => temps k b) (fun k => [ffun => y k b]).
      { apply/(history_model (nb := 1) _ _ G1); have [Z K] := proj1 (history_model (nb := nb) strains temps Gr y) Hy; split.
        - by apply/ffunP => o; rewrite Z !ffunE.
        - move=> j' o j0 jn; rewrite !ffunE; exact: (K j' b j0 jn). }
      move=> jn; rewrite (history_unique (nb := 1) G1 _ Hz Hyb jn) ?ffunE //; case=> // _; exact: Gd. }
    rewrite -(same k kn).
    have ib : (i <= nback.+1)%N := ltn_ord i.
    rewrite SG in T; rewrite -(@Props_Stress.C90_all_strain B nb nt times strains temps (fun _ => R0)) // in S.
    have := Cl nb times strains temps (fun _ => R0) _ _ _ _ _ _ _ _ st b Gr S W T erefl (fun k _ => conj erefl (conj erefl erefl)) k i kn ib.
    rewrite (@entryE B nb st k b i) (@to_vecE B (z k ord0) i); exact. }
exists tol; split=> // lm rtol atol miter throw gt n init st S W T k b i kn; exact: (H b _ _ _ _ _ _ _ _ _ S W (T b) k i kn).
Qed.

(** What a calibration uses: simulations with whatever tolerances, the loss's own gradient at the simulated history.  If the loss has continuous derivatives, then for every
    accuracy [e] there is a tolerance for which every run that reports no failure yields a gradient within [e] of the exact derivative - for every linear solver, guess, block size
    and iteration limit in the forward run, every linear solver and block size in the backward pass. *)
Theorem C129_gradient_of_runs_to_tolerance np nback (E pn eta s0 Rs d : 'cV[RF]_np -> R -> R) (C g : 'cV[RF]_np -> R -> nat -> R)
    nb nt (times strains temps : nat -> nat -> R) (dp : 'I_nb -> RF -> 'cV[RF]_nback.+2 -> 'cV[RF]_np -> 'M[RF]_(nback.+2, np))
    (p : R -> 'cV[RF]_np) q th dl (Y : R -> nat -> VB RF nb nback.+2) :
  parameter_derivatives (rate_p E pn eta s0 Rs d C g (nback := nback) nt times strains temps) dp ->
  times_increase nb nt times -> (1 < nt)%N -> (0 < dl)%Re ->
  (forall u b, (Rabs (u - th) < dl)%Re -> (b < nb)%N -> good_entry (E (p u)) (pn (p u)) (eta (p u)) (s0 (p u)) (Rs (p u)) (d (p u)) nback (C (p u)) (g (p u)) nt temps b) ->
  (forall k b, (k < nt)%N -> (b < nb)%N -> smooth_material nback E pn eta s0 Rs d C g (p th) (temps k b)) ->
  (forall k b, (k < nt)%N -> (b < nb)%N -> (0 < s0 (p th) (temps k b))%Re) ->
  cdiff p th q ->
  (forall u, (Rabs (u - th) < dl)%Re -> exact_history (B := family nback E pn eta s0 Rs d C g (p u)) nt times strains temps (Y u)) ->
  forall L (dL : (nat -> VB RF nb nback.+2) -> nat -> VB RF nb nback.+2), loss_gradient nt L (Y th) (dL (Y th)) ->
  (forall e, (0 < e)%Re -> exists dlt, (0 < dlt)%Re /\ forall y', within nt dlt y' (Y th) -> within nt e (dL y') (dL (Y th))) ->
  exists D, derivable_pt_lim (fun u => L (Y u)) th D /\
    forall e, (0 < e)%Re -> exists tol, (0 < tol)%Re /\ forall lm rtol atol miter throw gt n' init st mth n,
      solve_strain (B := family nback E pn eta s0 Rs d C g (p th)) nt times strains temps BackwardEuler lm rtol atol miter throw gt n' init = inl st -> i_warned st = [::] ->
      (forall b, tol_boundG (@strain_G (family nback E pn eta s0 Rs d C g (p th)) nb nt times strains temps) BackwardEuler rtol atol gt n' nt (time_table nb times) (i_result st) b tol) ->
      (0 < n)%N ->
      exists grad lam,
        rewind (at_p (jac_p E pn eta s0 Rs d C g (nback := nback) nt times strains temps) (p th)) (at_p dp (p th)) mth BackwardEuler n nt (time_table nb times) (i_result st) (dL (i_result st)) = Some (grad, lam) /\
        (Rabs ((\sum_(i < np) grad i 0 * q i 0)%R - D) <= e)%Re.
Proof.
move=> A Gr nt2 dl0 Gd Sm Sp Dp HY L dL HL cL.
have [D [HD Nr]] := C129_gradient_near_the_exact_history A Gr nt2 dl0 Gd Sm Dp HY HL; exists D; split=> // e e0.
have th0 : (Rabs (th - th) < dl)%Re by rewrite (_ : (th - th = 0)%Re) ?Rabs_R0 //; ring.
have [d1 [d10 H1]] := Nr e e0; have [d2 [d20 H2]] := cL d1 d10.
have m0 : (0 < Rmin d1 d2)%Re by exact: Rmin_glb_lt.
have [tol [t0 H]] := runs_within Gr (fun b => Gd th b th0) Sp (HY th th0) m0; exists tol; split=> // lm rtol atol miter throw gt n' init st mth n S W T n0.
have Wi := H _ _ _ _ _ _ _ _ _ S W T.
apply: (H1 _ _ mth n) => //; [move=> k b i kn; apply: Rle_trans (Wi k b i kn) (Rmin_l _ _)|apply: H2 => k b i kn; apply: Rle_trans (Wi k b i kn) (Rmin_r _ _)].
Qed.
Print Assumptions C129_gradient_of_runs_to_tolerance.

(** The loss of a calibration: weighted squared differences of the history and the data (the mean squared error of the stresses: weight 1 / (nt nb) on the first component). *)
Definition squared_error nb m nt (w dat : nat -> VB RF nb m) (y : nat -> VB RF nb m) : R :=
  \sum_(k < nt) \sum_b \sum_(i < m) w k b i 0 * ((y k b i 0 - dat k b i 0) * (y k b i 0 - dat k b i 0)).
Definition squared_error_gradient nb m (w dat y : nat -> VB RF nb m) (k : nat) : VB RF nb m := [ffun b => \col_i (w k b i 0 * ((y k b i 0 - dat k b i 0) + (y k b i 0 - dat k b i 0)))].
Lemma squared_error_derivative nb m nt (w dat y : nat -> VB RF nb m) : loss_gradient nt (squared_error nt w dat) y (squared_error_gradient w dat y).
Proof.
move=> c th z cy Dz; rewrite /squared_error.
apply: (@dpl_sum _ _ (fun (k : 'I_nt) u => _)) => k; apply: (@dpl_sum _ _ (fun b u => _)) => b; apply: (@dpl_sum _ _ (fun i u => _)) => i.
have D1 := Dz k b (ltn_ord k) i; have D2 : derivable_pt_lim (fun u => (c u k b i ord0 - dat k b i ord0)%Re) th (z k b i ord0).
{ have := derivable_pt_lim_minus _ _ _ _ _ D1 (derivable_pt_lim_const (dat k b i ord0) th); rewrite Rminus_0_r; exact. }
have := dpl_scal (w k b i ord0) (derivable_pt_lim_mult _ _ _ _ _ D2 D2).
rewrite ffunE mxE -cy => H.
have Fl (w' x z' : R) : (w' * (z' * x + x * z') = w' * (x + x) * z')%Re by ring.
have -> : (w k b i ord0 * (c th k b i ord0 - dat k b i ord0 + (c th k b i ord0 - dat k b i ord0)) * z k b i ord0)%R = (w k b i ord0 * (z k b i ord0 * (c th k b i ord0 - dat k b i ord0) + (c th k b i ord0 - dat k b i ord0) * z k b i ord0))%Re by symmetry; exact: Fl.
exact: H.
Qed.
Lemma squared_error_continuous nb m nt (w dat y : nat -> VB RF nb m) e : (0 < e)%Re ->
  exists dlt, (0 < dlt)%Re /\ forall y', within nt dlt y' y -> within nt e (squared_error_gradient w dat y') (squared_error_gradient w dat y).
Proof.
move=> e0; have [W [W0 HW]] : exists W, (0 < W)%Re /\ forall (x : 'I_nt * 'I_nb * 'I_m), (Rabs (w x.1.1 x.1.2 x.2 ord0) * W <= e / 2)%Re.
{ apply: (fin_radius (P := fun (x : 'I_nt * 'I_nb * 'I_m) W => (Rabs (w x.1.1 x.1.2 x.2 ord0) * W <= e / 2)%Re)).
  - move=> x r r' rr H; apply: Rle_trans H; apply: Rmult_le_compat_l => //; exact: Rabs_pos.
  - move=> x; have w0 := Rabs_pos (w x.1.1 x.1.2 x.2 ord0); exists (e / 2 / (Rabs (w x.1.1 x.1.2 x.2 ord0) + 1))%Re; split; first by apply: Rdiv_lt_0_compat; lra.
    move: (Rabs _) w0 => a a0; apply: (Rmult_le_reg_r (a + 1)); first by lra.
    have -> : (a * (e / 2 / (a + 1)) * (a + 1) = a * (e / 2))%Re by field; lra. nra. }
exists W; split=> // y' H k b i kn; rewrite !ffunE !mxE.
have := HW (Ordinal kn, b, i); rewrite [(_, _, _).1.1]/= [(_, _, _).1.2]/= [(_, _, _).2]/= => hw.
have Fl (w' x x' d' : R) : (Rabs (x - x') <= W -> Rabs w' * W <= e / 2 -> Rabs (w' * ((x - d') + (x - d')) - w' * ((x' - d') + (x' - d'))) <= e)%Re.
{ move=> h h'; have -> : (w' * ((x - d') + (x - d')) - w' * ((x' - d') + (x' - d')) = 2 * (w' * (x - x')))%Re by ring.
  rewrite !Rabs_mult (Rabs_pos_eq 2); last by lra. have := Rmult_le_compat_l _ _ _ (Rabs_pos w') h; lra. }
exact: Fl (H k b i kn) hw.
Qed.

(** Example: the material of C116_ex loaded within its elastic range, any data and weights, any accuracy: a run with a positive absolute tolerance exists that yields such a gradient. *)
Definition ex_slow (k _ : nat) : R := (INR k / 100)%Re.
Notation ex_grads := (jac_p (nb := 1) (const_par (inord 0)) (const_par (inord 1)) (const_par (inord 2)) (const_par (inord 3)) (const_par (inord 4)) (const_par (inord 5)) (const_seq (inord 6)) (const_seq (inord 7)) (nback := 1) 4 ex_t ex_slow ex_temp).
Example C129_ex (w dat : nat -> VB RF 1 3) e : (0 < e)%Re -> exists (Y : R -> nat -> VB RF 1 3) dp D tol st grad lam,
  (forall u, (Rabs (u - 2) < 1)%Re -> exact_history (B := ex_fam (ex_line u)) 4 ex_t ex_slow ex_temp (Y u)) /\
  derivable_pt_lim (fun u => squared_error 4 w dat (Y u)) 2%Re D /\ (0 < tol)%Re /\
  solve_strain (B := ex_fam (ex_line 2%Re)) 4 ex_t ex_slow ex_temp BackwardEuler (Direct Thomas) R0 tol 10 true "zero" 2 (fun _ => @zeroV RF 1 3) = inl st /\
  rewind (at_p ex_grads (ex_line 2%Re)) (at_p dp (ex_line 2%Re)) PCR BackwardEuler 2 4 (time_table 1 ex_t) (i_result st) (squared_error_gradient w dat (i_result st)) = Some (grad, lam) /\
  (Rabs ((\sum_(i < 8) grad i 0)%R - D) <= e)%Re.
Proof.
move=> e0; have Gr : times_increase 1 4 ex_t by move=> b _ i j ij _; apply: lt_INR.
have HY u : exists Y : nat -> VB RF 1 3, (Rabs (u - 2) < 1)%Re -> exact_history (B := ex_fam (ex_line u)) 4 ex_t ex_slow ex_temp Y.
{ case: (Rlt_dec (Rabs (u - 2)) 1) => ud; last by exists (fun _ => @zeroV RF 1 3).
  have [Y H] := history_exists ex_slow Gr (fun b _ => Props_Mixed.ex_good b ud); by exists Y. }
pose Y u := sval (ClassicalEpsilon.constructive_indefinite_description _ (HY u)).
have HYu u : (Rabs (u - 2) < 1)%Re -> exact_history (B := ex_fam (ex_line u)) 4 ex_t ex_slow ex_temp (Y u) := svalP (ClassicalEpsilon.constructive_indefinite_description _ (HY u)).
have [dp Hdp] := parameter_derivatives_exist (rate_p (nb := 1) (const_par (inord 0)) (const_par (inord 1)) (const_par (inord 2)) (const_par (inord 3)) (const_par (inord 4)) (const_par (inord 5)) (const_seq (inord 6)) (const_seq (inord 7))
     (nback := 1) 4 ex_t ex_slow ex_temp).
have Sp k b : (k < 4)%N -> (b < 1)%N -> (0 < const_par (inord 3) (ex_line 2%Re) (ex_temp k b))%Re by move=> _ _; rewrite /const_par mxE; lra.
have [D [HD H]] := C129_gradient_of_runs_to_tolerance Hdp Gr (ltn0Sn 2 : (1 < 4)%N) Rlt_0_1 (fun u b ud _ => Props_Mixed.ex_good b ud) (fun k b _ _ => Props_Mixed.ex_smooth k b) Sp Props_Mixed.ex_dir HYu
  (@squared_error_derivative 1 3 4 w dat (Y 2%Re)) (fun e e0 => @squared_error_continuous 1 3 4 w dat (Y 2%Re) e e0).
have [tol [t0 K]] := H e e0.
pose a := Rmin tol (1 / 100); have a0 : (0 < a)%Re by apply: Rmin_glb_lt => //; lra.
have a1 : (a <= 1 / 100)%Re := Rmin_r _ _.
have val i : ex_line 2%Re i 0 = 2%Re by rewrite mxE.
have sm k c : (Deriv.sum k (fun j => c * (ex_slow j.+1 0 - ex_slow j 0)) = c * (INR k / 100))%Re.
{ elim: k => [|k IH]; first by rewrite /=; field. rewrite sumS IH /ex_slow !S_INR; field. }
have [st [S [W _]]] : exists st : istate RF 1 3, solve_both (B := ex_fam (ex_line 2%Re)) 4 ex_t ex_slow ex_temp (fun _ => R0) BackwardEuler (Direct Thomas) R0 a 10 true "zero" 2 (fun _ => @zeroV RF 1 3) = inl st /\ i_warned st = [::] /\ True.
{ have kb k : (k < 4)%N -> (0 <= INR k <= 3)%Re.
  { move=> kn; split; first exact: pos_INR. have := le_INR k 3; rewrite /= => h; have : (k <= 3)%coq_nat by apply/leP. move=> /h; lra. }
  have [|||||st [So [Wa _]]] := @C114_elastic_range_always_solved (const_par (inord 0) (ex_line 2%Re)) (const_par (inord 1) (ex_line 2%Re)) (const_par (inord 2) (ex_line 2%Re)) (const_par (inord 3) (ex_line 2%Re))
   (Hardening.voce (const_par (inord 4) (ex_line 2%Re)) (const_par (inord 5) (ex_line 2%Re))) (Hardening.chaboche 1 (const_seq (inord 6) (ex_line 2%Re)) (const_seq (inord 7) (ex_line 2%Re)))
   1 4 ex_t ex_slow ex_temp (fun _ => R0) (Direct Thomas) R0 a 10 true 2 (fun _ => @zeroV RF 1 3) (fun _ => 1%Re) Gr (ltn0Sn 2) (ltn0Sn 1) (ltn0Sn 8).
  - lra.
  - exact: Rlt_le.
  - move=> k b kn _; rewrite /const_par !val; do 4 (split; first lra). split; [exact: FullModel.rests_voce|exact: FullModel.rests_chaboche].
  - move=> k b kn _ _; rewrite /const_par !val (sm k 2%Re); have := kb k kn => -[h1 h2]; rewrite Rabs_pos_eq; last by apply: Rmult_le_pos; lra.
    have : (INR k * a <= 3 * (1 / 100))%Re by apply: Rmult_le_compat; lra. lra.
  - move=> k b kn _; lra.
  by exists st. }
rewrite (@Props_Stress.C90_all_strain _ 1) // in S.
have T b : tol_boundG (@strain_G (ex_fam (ex_line 2%Re)) 1 4 ex_t ex_slow ex_temp) BackwardEuler R0 a "zero" 2 4 (time_table 1 ex_t) (i_result st) b tol.
{ split; first exact: Rlt_le. split; [exact: Rmin_l|by left]. }
have [grad [lam [Eq Q]]] := K _ _ _ _ _ _ _ _ _ PCR 2%N S W T (ltn0Sn 1).
exists Y, dp, D, a, st, grad, lam; split=> //; split=> //; split=> //; split=> //; split=> //.
move: Q; rewrite (eq_bigr (fun i => grad i 0)) // => i _; by rewrite mxE -[1%Re]/(1 : RF) mulr1.
Qed.
