(** C135: a training step with a small learning rate lowers the loss, and calibration stops exactly where it should: at local minima the adjoint gradient is zero,
    in particular at the parameters that generated the data. *)
From Coq Require Import Reals List String Lra Lia FunctionalExtensionality.
From mathcomp Require Import all_ssreflect all_algebra.
From Verif Require Import ChunkModel ChunkSolve ChunkInst NewtonModel Ode OdeForward OdeAdjoint OdeReal OdeBlock OdeDiff RField Gmres Implicit Tolerance Pipeline SmoothMx VCGrad NewtonConv.
From Verif Require Interp Models Flow Hardening Deriv Slices VCStep VCHistory Props_FullModel VCExact Props_Stress Props_Gradient Props_GradTol.
Import GRing.Theory.
Set Implicit Arguments. Unset Strict Implicit. Unset Printing Implicit Defensive.
Local Open Scope ring_scope.
Delimit Scope R_scope with Re.
Import Props_FullModel VCExact Props_Stress Props_Gradient Props_GradTol.

(** The parameters after a step of length [lr] along [q]; a step of gradient descent is [moved p lr (- grad)]. *)
Definition moved np (p : 'cV[RF]_np) (lr : R) (q : 'cV[RF]_np) : 'cV[RF]_np := p + (lr : RF) *: q.

(** The change of the loss per unit step along [q] that the gradient predicts *)
Definition slope np (grad q : 'cV[RF]_np) : R := \sum_(i < np) grad i 0 * q i 0.
Lemma slope_opp np (gr q : 'cV[RF]_np) : slope gr (- q) = (- slope q gr)%Re.
Proof. rewrite /slope; transitivity (- \sum_(i < np) q i 0 * gr i 0)%R => //; rewrite -sumrN; apply: eq_bigr => i _; by rewrite mxE mulrN mulrC. Qed.
Lemma moved_diff np (p q : 'cV[RF]_np) : cdiff (fun u => moved p u q) 0 q.
Proof. rewrite -[X in cdiff _ _ X]add0r; apply: cdiff_add; [exact: cdiff_cst|exact: cdiff_line]. Qed.
Lemma moved0 np (p q : 'cV[RF]_np) : moved p R0 q = p.
Proof. by rewrite /moved scale0r addr0. Qed.
Lemma decreasing f l : derivable_pt_lim f 0 l -> (l < 0)%Re -> exists e, (0 < e)%Re /\ forall h, (0 < h)%Re -> (h < e)%Re -> (f h < f 0)%Re.
Proof.
move=> D l0; have h0 : (0 < - l)%Re by lra. have [e He] := D _ h0; exists e; split; first exact: cond_pos.
move=> h hp he; have hn : h <> 0%Re by lra. have ha : (Rabs h < e)%Re by rewrite Rabs_pos_eq //; lra.
have := He h hn ha; rewrite Rplus_0_l => /Rabs_def2 [A _].
have B : ((f h - f 0) / h < 0)%Re by lra.
have := Rmult_lt_compat_r _ _ _ hp B; rewrite Rmult_0_l /Rdiv Rmult_assoc Rinv_l // Rmult_1_r; lra.
Qed.
Lemma not_decreasing f l r : derivable_pt_lim f 0 l -> (0 < r)%Re -> (forall h, (Rabs h < r)%Re -> (f 0 <= f h)%Re) -> l = 0%Re.
Proof.
move=> D r0 M; case: (Rtotal_order l 0) => [L|[//|L]].
- have [e [e0 H]] := decreasing D L; have m0 : (0 < Rmin e r)%Re by exact: Rmin_glb_lt.
  have [a b] := (Rmin_l e r, Rmin_r e r); have h0 : (0 < Rmin e r / 2)%Re by lra.
  have := H (Rmin e r / 2)%Re h0 ltac:(lra). have := M (Rmin e r / 2)%Re; rewrite Rabs_pos_eq; lra.
- have D' : derivable_pt_lim (fun u => f (- u)%Re) 0 (- l)%Re.
  { have := derivable_pt_lim_comp (fun u => - u)%Re f 0 _ _ (derivable_pt_lim_opp _ _ _ (derivable_pt_lim_id 0)).
    rewrite Ropp_0 => /(_ _ D); rewrite (_ : (l * -1 = - l)%Re); last ring. exact. }
  have [e [e0 H]] := decreasing D' ltac:(lra); have m0 : (0 < Rmin e r)%Re by exact: Rmin_glb_lt.
  have [a b] := (Rmin_l e r, Rmin_r e r); have h0 : (0 < Rmin e r / 2)%Re by lra.
  have := H (Rmin e r / 2)%Re h0 ltac:(lra). have := M (- (Rmin e r / 2))%Re; rewrite Rabs_Ropp Ropp_0 Rabs_pos_eq; lra.
Qed.
Lemma dot_pos np (g : 'cV[RF]_np) : g <> 0 -> (0 < slope g g)%Re.
Proof.
rewrite /slope.
move=> gn; have sq (x : R) : (0 <= x * x)%Re by nra.
have P i : (0 <= g i ord0 * g i ord0)%Re by exact: sq.
have [Z|//] := Req_EM_T (\sum_(i < np) g i ord0 * g i ord0) 0%Re; last first.
- move=> N; have : (0 <= \sum_(i < np) g i ord0 * g i ord0)%Re; last by move=> [//|e]; rewrite -e in N.
  by apply: (big_ind (fun x : R => (0 <= x)%Re)) => [||i _]; [exact: Rle_refl|exact: Rplus_le_le_0_compat|].
- case: gn; apply/colP => i; rewrite mxE.
  have H : (g i ord0 * g i ord0 <= \sum_(i < np) g i ord0 * g i ord0)%Re.
  { rewrite (bigD1 i) //=; have : (0 <= \sum_(j < np | j != i) g j ord0 * g j ord0)%Re.
    { by apply: (big_ind (fun x : R => (0 <= x)%Re)) => [||j _]; [exact: Rle_refl|exact: Rplus_le_le_0_compat|]. }
    have Fl (a b : R) : (0 <= b -> a <= a + b)%Re by lra. exact: Fl. }
  have K (x : R) : (x * x <= 0 -> x = 0)%Re by move=> h; nra.
  apply: K; rewrite Z in H; exact: H.
Qed.

Section Train.
Variables (np nback : nat) (E pn eta s0 Rs d : 'cV[RF]_np -> R -> R) (C g : 'cV[RF]_np -> R -> nat -> R).
Variables (nb nt : nat) (times strains temps : nat -> nat -> R).
Variable dp : 'I_nb -> RF -> 'cV[RF]_nback.+2 -> 'cV[RF]_np -> 'M[RF]_(nback.+2, np).
Variables (p0 : 'cV[RF]_np) (r : R) (sim : 'cV[RF]_np -> nat -> VB RF nb nback.+2).
(** The parameters near [p0] are admissible and differentiable, and [sim p] is the exact simulation with the parameters [p]. *)
Definition trainable : Prop :=
  [/\ parameter_derivatives (rate_p E pn eta s0 Rs d C g (nback := nback) (nb := nb) nt times strains temps) dp,
      times_increase nb nt times, (1 < nt)%N, (0 < r)%Re &
      (forall p b, (dst p p0 <= r)%Re -> (b < nb)%N -> good_entry (E p) (pn p) (eta p) (s0 p) (Rs p) (d p) nback (C p) (g p) nt temps b) /\
      (forall k b, (k < nt)%N -> (b < nb)%N -> smooth_material nback E pn eta s0 Rs d C g p0 (temps k b)) /\
      (forall p, (dst p p0 <= r)%Re -> exact_history (B := family nback E pn eta s0 Rs d C g p) nt times strains temps (sim p))].
(** [grad] is what the adjoint pass returns for the history [y] and its loss gradient [og], whichever linear solver and block size. *)
Definition adjoint_gradient (y og : nat -> VB RF nb nback.+2) (grad : 'cV[RF]_np) : Prop :=
  exists lam, forall mth n, (0 < n)%N ->
    rewind (at_p (jac_p E pn eta s0 Rs d C g (nback := nback) nt times strains temps) p0) (at_p dp p0) mth BackwardEuler n nt (time_table nb times) y og = Some (grad, lam).

Hypothesis T : trainable.
Lemma along q : exists dl, (0 < dl)%Re /\ forall u, (Rabs (u - 0) < dl)%Re -> (dst (moved p0 u q) p0 <= r)%Re.
Proof.
have [_ _ _ r0 _] := T; have [e [e0 H]] := near_small (moved_diff p0 q) r0; exists e; split=> // u ud; have := H u ud; by rewrite moved0.
Qed.
Lemma gradient_exists (L : (nat -> VB RF nb nback.+2) -> R) og : loss_gradient nt L (sim p0) og ->
  exists grad, adjoint_gradient (sim p0) og grad /\ forall q, derivable_pt_lim (fun u => L (sim (moved p0 u q))) 0 (\sum_(i < np) grad i 0 * q i 0).
Proof.
move=> HL; have [A Gr nt2 r0 [Gd [Sm HY]]] := T.
have d0 : (dst p0 p0 <= r)%Re by rewrite dst0; exact: Rlt_le.
have [gr [lam [Rw _]]] := C129_gradient_is_continuous og (ltnW nt2) (history_smooth A Gr nt2 (fun b => Gd p0 b d0) (HY p0 d0) Sm) (history_regular Gr (fun b => Gd p0 b d0) (HY p0 d0)).
exists gr; split; first by exists lam.
move=> q; have [dl [dl0 Hd]] := along q.
have Sm' k b : (k < nt)%N -> (b < nb)%N -> smooth_material nback E pn eta s0 Rs d C g (moved p0 0%Re q) (temps k b) by rewrite moved0; exact: Sm.
have HL' : loss_gradient nt L (sim (moved p0 0%Re q)) og by rewrite moved0.
have [gr' [lam' [Rw' D]]] := gradient_core A Gr nt2 Thomas (ltn0Sn 0) dl0 (fun u b ud bn => Gd _ b (Hd u ud) bn) Sm' (moved_diff p0 q) (fun u ud => HY _ (Hd u ud)) HL'.
rewrite moved0 (Rw Thomas 1%N (ltn0Sn 0)) in Rw'; case: Rw' => <- _ in D; exact: D.
Qed.
End Train.

(** Every direction along which the adjoint gradient predicts a decrease decreases the loss, for all sufficiently small steps; against the gradient in particular. *)
Theorem C135_small_steps_decrease_the_loss np nback (E pn eta s0 Rs d : 'cV[RF]_np -> R -> R) (C g : 'cV[RF]_np -> R -> nat -> R)
    nb nt (times strains temps : nat -> nat -> R) dp p0 r (sim : 'cV[RF]_np -> nat -> VB RF nb nback.+2) L og :
  trainable E pn eta s0 Rs d C g nt times strains temps dp p0 r sim -> loss_gradient nt L (sim p0) og ->
  exists grad, adjoint_gradient E pn eta s0 Rs d C g nt times strains temps dp p0 (sim p0) og grad /\
    (forall q, (slope grad q < 0)%Re -> exists e, (0 < e)%Re /\ forall lr, (0 < lr)%Re -> (lr < e)%Re -> (L (sim (moved p0 lr q)) < L (sim p0))%Re) /\
    (grad <> 0 -> exists e, (0 < e)%Re /\ forall lr, (0 < lr)%Re -> (lr < e)%Re -> (L (sim (moved p0 lr (- grad))) < L (sim p0))%Re).
Proof.
move=> T HL; have [gr [Ag D]] := gradient_exists T HL; exists gr; split=> //.
have K q : (slope gr q < 0)%Re -> exists e, (0 < e)%Re /\ forall lr, (0 < lr)%Re -> (lr < e)%Re -> (L (sim (moved p0 lr q)) < L (sim p0))%Re.
{ move=> q0; have := decreasing (D q) q0; by rewrite moved0. }
split=> // gn; apply: K.
rewrite slope_opp; have := dot_pos gn; lra.
Qed.
Print Assumptions C135_small_steps_decrease_the_loss.

(** At a local minimum of the loss the adjoint gradient is zero. *)
Theorem C135_zero_gradient_at_a_minimum np nback (E pn eta s0 Rs d : 'cV[RF]_np -> R -> R) (C g : 'cV[RF]_np -> R -> nat -> R)
    nb nt (times strains temps : nat -> nat -> R) dp p0 r (sim : 'cV[RF]_np -> nat -> VB RF nb nback.+2) L og r' :
  trainable E pn eta s0 Rs d C g nt times strains temps dp p0 r sim -> loss_gradient nt L (sim p0) og ->
  (0 < r')%Re -> (forall p, (dst p p0 <= r')%Re -> (L (sim p0) <= L (sim p))%Re) ->
  adjoint_gradient E pn eta s0 Rs d C g nt times strains temps dp p0 (sim p0) og 0.
Proof.
move=> T HL r0 M; have [gr [Ag [_ K]]] := C135_small_steps_decrease_the_loss T HL.
case: (eqVneq gr 0) => [gz|/eqP gn]; first by rewrite -gz.
have [e [e0 H]] := K gn; have [e' [e'0 H']] := near_small (moved_diff p0 (- gr)) r0.
have m0 : (0 < Rmin e e')%Re by exact: Rmin_glb_lt. have [a b] := (Rmin_l e e', Rmin_r e e').
have := H (Rmin e e' / 2)%Re ltac:(lra) ltac:(lra); have := H' (Rmin e e' / 2)%Re; rewrite moved0 Rminus_0_r Rabs_pos_eq; last lra.
move=> /(_ ltac:(lra)) /M; lra.
Qed.
Print Assumptions C135_zero_gradient_at_a_minimum.

(** Data produced by the model itself: at the parameters that produced them the squared error is zero, no parameters do better, and the adjoint gradient is zero. *)
Theorem C135_true_parameters np nback (E pn eta s0 Rs d : 'cV[RF]_np -> R -> R) (C g : 'cV[RF]_np -> R -> nat -> R)
    nb nt (times strains temps : nat -> nat -> R) dp p0 r (sim : 'cV[RF]_np -> nat -> VB RF nb nback.+2) (w dat : nat -> VB RF nb nback.+2) :
  trainable E pn eta s0 Rs d C g nt times strains temps dp p0 r sim ->
  (forall k b i, (k < nt)%N -> (0 <= w k b i ord0)%Re) -> (forall k b i, (k < nt)%N -> w k b i ord0 <> 0%Re -> dat k b i ord0 = sim p0 k b i ord0) ->
  squared_error nt w dat (sim p0) = 0%Re /\ (forall y, (0 <= squared_error nt w dat y)%Re) /\
  adjoint_gradient E pn eta s0 Rs d C g nt times strains temps dp p0 (sim p0) (squared_error_gradient w dat (sim p0)) 0.
Proof.
move=> T w0 gen.
have sq (x : R) : (0 <= x * x)%Re by nra.
have P y : (0 <= squared_error nt w dat y)%Re.
{ rewrite /squared_error; do 3 (apply: (big_ind (fun x : R => (0 <= x)%Re)); [exact: Rle_refl|exact: Rplus_le_le_0_compat|move=> ? _]).
  apply: Rmult_le_pos; [exact: w0|exact: sq]. }
have Z : squared_error nt w dat (sim p0) = 0%Re.
{ rewrite /squared_error; apply: big1 => k _; apply: big1 => b _; apply: big1 => i _.
  have [e|/eqP e] := eqVneq (w k b i 0) 0; first by rewrite e mul0r.
  by rewrite (gen k b i (ltn_ord k) e) subrr !mulr0. }
split=> //; split=> //.
apply: (@C135_zero_gradient_at_a_minimum _ _ _ _ _ _ _ _ _ _ _ _ _ _ _ _ _ _ sim (squared_error nt w dat) _ 1%Re T); [exact: squared_error_derivative|lra|].
by move=> p _; rewrite Z; exact: P.
Qed.
Print Assumptions C135_true_parameters.

(** Gradients from runs that converged only to a tolerance: unless the exact gradient is zero, with tight enough tolerances the step against the computed gradient
    lowers the exact loss, for all sufficiently small learning rates. *)
Theorem C135_steps_from_converged_runs np nback (E pn eta s0 Rs d : 'cV[RF]_np -> R -> R) (C g : 'cV[RF]_np -> R -> nat -> R)
    nb nt (times strains temps : nat -> nat -> R) dp p0 r (sim : 'cV[RF]_np -> nat -> VB RF nb nback.+2) L (dL : (nat -> VB RF nb nback.+2) -> nat -> VB RF nb nback.+2) :
  trainable E pn eta s0 Rs d C g nt times strains temps dp p0 r sim -> loss_gradient nt L (sim p0) (dL (sim p0)) ->
  (forall k b, (k < nt)%N -> (b < nb)%N -> (0 < s0 p0 (temps k b))%Re) ->
  (forall e, (0 < e)%Re -> exists dlt, (0 < dlt)%Re /\ forall y', within nt dlt y' (sim p0) -> within nt e (dL y') (dL (sim p0))) ->
  adjoint_gradient E pn eta s0 Rs d C g nt times strains temps dp p0 (sim p0) (dL (sim p0)) 0 \/
  exists tol, (0 < tol)%Re /\ forall lm rtol atol miter throw gt n init st mth n',
    solve_strain (B := family nback E pn eta s0 Rs d C g p0) nt times strains temps BackwardEuler lm rtol atol miter throw gt n init = inl st -> i_warned st = [::] ->
    (forall b, tol_boundG (@strain_G (family nback E pn eta s0 Rs d C g p0) nb nt times strains temps) BackwardEuler rtol atol gt n nt (time_table nb times) (i_result st) b tol) ->
    (0 < n')%N ->
    exists grad lam,
      rewind (at_p (jac_p E pn eta s0 Rs d C g (nback := nback) nt times strains temps) p0) (at_p dp p0) mth BackwardEuler n' nt (time_table nb times) (i_result st) (dL (i_result st)) = Some (grad, lam) /\
      exists e, (0 < e)%Re /\ forall lr, (0 < lr)%Re -> (lr < e)%Re -> (L (sim (moved p0 lr (- grad))) < L (sim p0))%Re.
Proof.
move=> T HL Sp cL; have [gr [Ag [K _]]] := C135_small_steps_decrease_the_loss T HL.
case: (eqVneq gr 0) => [gz|/eqP gn]; first by left; rewrite -gz.
right; have [gr' [[lam' Ag'] D]] := gradient_exists T HL; have [lam0 Ag0] := Ag.
have Eg : gr' = gr by have := Ag' Thomas 1%N (ltn0Sn 0); rewrite (Ag0 Thomas 1%N (ltn0Sn 0)) => -[->].
rewrite {}Eg in D; have [A Gr nt2 r0 [Gd [Sm HY]]] := T; have [dl [dl0 Hd]] := along T gr.
have N0 := dot_pos gn; set N := slope gr gr in N0.
have Sm' k b : (k < nt)%N -> (b < nb)%N -> smooth_material nback E pn eta s0 Rs d C g (moved p0 0%Re gr) (temps k b) by rewrite moved0; exact: Sm.
have Sp' k b : (k < nt)%N -> (b < nb)%N -> (0 < s0 (moved p0 0%Re gr) (temps k b))%Re by rewrite moved0; exact: Sp.
have HL' : loss_gradient nt L (sim (moved p0 0%Re gr)) (dL (sim (moved p0 0%Re gr))) by rewrite moved0.
have cL' : forall e, (0 < e)%Re -> exists dlt, (0 < dlt)%Re /\ forall y', within nt dlt y' (sim (moved p0 0%Re gr)) -> within nt e (dL y') (dL (sim (moved p0 0%Re gr))) by rewrite moved0.
have [D0 [HD H]] := C129_gradient_of_runs_to_tolerance A Gr nt2 dl0 (fun u b ud bn => Gd _ b (Hd u ud) bn) Sm' Sp' (moved_diff p0 gr) (fun u ud => HY _ (Hd u ud)) HL' cL'.
have ED : D0 = N := uniqueness_limite _ _ _ _ HD (D gr).
have [tol [t0 Ht]] := H (N / 2)%Re ltac:(lra).
exists tol; split; first exact: t0.
move=> lm rtol atol miter throw gt n init st mth n' S W Tb n'0.
rewrite moved0 in Ht; have [grad [lam [Rw Cl]]] := Ht lm rtol atol miter throw gt n init st mth n' S W Tb n'0.
exists grad, lam; split; [exact: Rw|apply: K].
rewrite slope_opp; rewrite ED -/(slope grad gr) in Cl; have Fl (x : R) : (Rabs (x - N) <= N / 2 -> - x < 0)%Re by have := N0; rewrite /Rabs; case: Rcase_abs; lra.
exact: Fl Cl.
Qed.
Print Assumptions C135_steps_from_converged_runs.

(** Example: the material of C116_ex pulled within its elastic range.  It is trainable, and the gradient of the sum of its stresses is not zero. *)
Lemma ex_near (p : 'cV[RF]_8) i : (dst p (ex_line 2%Re) <= 1 / 2)%Re -> (3 / 2 <= p i ord0 <= 5 / 2)%Re.
Proof. move=> H; have := Rle_trans _ _ _ (comp_dst p (ex_line 2%Re) i) H; rewrite [ex_line _ _ _]mxE /Rabs; case: Rcase_abs; lra. Qed.
Lemma cE i (p : 'cV[RF]_8) T : const_par i p T = p i ord0. Proof. by []. Qed.
Lemma sE i (p : 'cV[RF]_8) T k : const_seq i p T k = p i ord0. Proof. by []. Qed.
Lemma ex_good (p : 'cV[RF]_8) b : (dst p (ex_line 2%Re) <= 1 / 2)%Re ->
  good_entry (const_par (inord 0) p) (const_par (inord 1) p) (const_par (inord 2) p) (const_par (inord 3) p) (const_par (inord 4) p) (const_par (inord 5) p) 1 (const_seq (inord 6) p) (const_seq (inord 7) p) 4 ex_temp b.
Proof.
move=> H; have N i := ex_near i H; split=> k kn.
- rewrite /VCHistory.admissible !cE; have := (N (inord 0), N (inord 1), N (inord 2), N (inord 3)).
  move=> [[[n0 n1] n2] n3]; have [n4 n5] := (N (inord 4), N (inord 5)); have [n6 n7] := (N (inord 6), N (inord 7)).
  split; first lra. do 5 (split; first lra). move=> i _; rewrite !sE; lra.
- rewrite /VCHistory.no_softening /const_par /const_seq; split; first exact: Rle_refl. move=> i _; exact: Rle_refl.
Qed.
Lemma ex_elastic (p : 'cV[RF]_8) (y : nat -> VB RF 1 3) : (dst p (ex_line 2%Re) <= 1 / 2)%Re -> exact_history (B := ex_fam p) 4 ex_t ex_slow ex_temp y ->
  forall k (b : 'I_1), (k < 4)%N -> y k b ord0 ord0 = (p (inord 0) ord0 * (INR k / 100))%Re.
Proof.
move=> H Hy; have Gr : times_increase 1 4 ex_t by move=> b _ i j ij _; apply: lt_INR.
pose z (k : nat) : VB RF 1 3 := [ffun _ => \col_i (if nat_of_ord i == 0%N then (p (inord 0) ord0 * (INR k / 100))%Re : RF else 0)].
have z0 (c : 'I_1) j : @to_vec (ex_fam p) (z j c) 0%N = (p (inord 0) ord0 * (INR j / 100))%Re by have E0 := @to_vecE (ex_fam p) (z j c) (ord0 : 'I_3); rewrite -[nat_of_ord _]/0%N in E0; rewrite E0 /z ffunE mxE.
have z1 (c : 'I_1) j : @to_vec (ex_fam p) (z j c) 1%N = 0%Re by have E0 := @to_vecE (ex_fam p) (z j c) (Ordinal (isT : (1 < 3)%N)); rewrite -[nat_of_ord _]/1%N in E0; rewrite E0 /z ffunE mxE.
have z2 (c : 'I_1) j : @to_vec (ex_fam p) (z j c) 2%N = 0%Re by have E0 := @to_vecE (ex_fam p) (z j c) (Ordinal (isT : (2 < 3)%N)); rewrite -[nat_of_ord _]/2%N in E0; rewrite E0 /z ffunE mxE.
have Hz : exact_history (B := ex_fam p) 4 ex_t ex_slow ex_temp z.
{ apply/(@history_steps (ex_fam p) 1 4 ex_t ex_slow ex_temp z Gr); split.
  { apply/ffunP => b; apply/colP => i; rewrite /z !ffunE !mxE; case: ifP => // _. rewrite /Rdiv Rmult_0_l Rmult_0_r //. }
  move=> j b i j0 jn i2; have N0 := ex_near (inord 0) H; have N3 := ex_near (inord 3) H; have N2 := ex_near (inord 2) H.
  have jb : (0 <= INR j <= 3)%Re.
  { split; first exact: pos_INR. have := le_INR j 3; rewrite /= => h; have : (j <= 3)%coq_nat by apply/leP. move=> /h; lra. }
  have fl : VCHistory.the_flow (const_par (inord 1) p) (const_par (inord 2) p) (const_par (inord 3) p) 1 (ex_temp j b) (@to_vec (ex_fam p) (z j b) 0%N) (fun i => @to_vec (ex_fam p) (z j b) i.+1) = 0%Re.
  { rewrite /VCHistory.the_flow /VCStep.flow z0 z1 /= z2 !cE; set s := (p (inord 0) ord0 * (INR j / 100))%Re.
    have s1 : (0 <= s <= 5 / 2 * (3 / 100))%Re by split; [apply: Rmult_le_pos; lra|apply: Rmult_le_compat; lra].
    have -> : Deriv.mac ((Rabs (s - (0 + 0)) - (p (inord 3) ord0 + 0)) / p (inord 2) ord0) = 0%Re.
    { rewrite /Deriv.mac Rmax_right //; have i0 := Rinv_0_lt_compat (p (inord 2) ord0) ltac:(lra); rewrite Rplus_0_l Rminus_0_r Rabs_pos_eq; last lra.
      have := Rmult_le_compat_r _ (s - (p (inord 3) ord0 + 0)) 0 (Rlt_le _ _ i0) ltac:(lra); rewrite Rmult_0_l; exact. }
    rewrite Torch.pow0_0 ?Rmult_0_l //; have := ex_near (inord 1) H; lra. }
  case: i i2 => [|[|[|//]]] _.
  - rewrite (VCHistory.vc_row0 (const_par (inord 0) p) (const_par (inord 1) p) (const_par (inord 2) p) (const_par (inord 3) p) (const_par (inord 4) p) (const_par (inord 5) p) 1 (const_seq (inord 6) p) (const_seq (inord 7) p)) fl !z0 /step_rate cE /ex_t /ex_slow.
    case: (j) j0 => // k _; rewrite [k.+1.-1]/= S_INR; field; lra.
  - rewrite (VCHistory.vc_row1 (const_par (inord 0) p) (const_par (inord 1) p) (const_par (inord 2) p) (const_par (inord 3) p) (const_par (inord 4) p) (const_par (inord 5) p) 1 (const_seq (inord 6) p) (const_seq (inord 7) p)) fl !z1 Rabs_R0; ring.
  - rewrite (VCHistory.vc_rowS (const_par (inord 0) p) (const_par (inord 1) p) (const_par (inord 2) p) (const_par (inord 3) p) (const_par (inord 4) p) (const_par (inord 5) p) 1 (const_seq (inord 6) p) (const_seq (inord 7) p)) fl !z2 Rabs_R0; ring. }
move=> k b kn; have -> : y k = z k := history_unique Gr (fun b _ => ex_good b H) Hy Hz kn.
by rewrite /z ffunE mxE.
Qed.
Definition ex_og (k : nat) : VB RF 1 3 := [ffun _ => \col_i (if nat_of_ord i == 0%N then 1 else 0)].
Example C135_ex : exists dp sim grad,
  trainable (const_par (inord 0)) (const_par (inord 1)) (const_par (inord 2)) (const_par (inord 3)) (const_par (inord 4)) (const_par (inord 5)) (const_seq (inord 6)) (const_seq (inord 7))
    (nback := 1) (nb := 1) 4 ex_t ex_slow ex_temp dp (ex_line 2%Re) (1 / 2)%Re sim /\
  adjoint_gradient (const_par (inord 0)) (const_par (inord 1)) (const_par (inord 2)) (const_par (inord 3)) (const_par (inord 4)) (const_par (inord 5)) (const_seq (inord 6)) (const_seq (inord 7))
    4 ex_t ex_slow ex_temp dp (ex_line 2%Re) (sim (ex_line 2%Re)) ex_og grad /\ grad <> 0 /\
  exists e, (0 < e)%Re /\ forall lr, (0 < lr)%Re -> (lr < e)%Re -> (loss 4 ex_og (sim (moved (ex_line 2%Re) lr (- grad))) < loss 4 ex_og (sim (ex_line 2%Re)))%Re.
Proof.
have Gr : times_increase 1 4 ex_t by move=> b _ i j ij _; apply: lt_INR.
have HY (p : 'cV[RF]_8) : exists Y : nat -> VB RF 1 3, (dst p (ex_line 2%Re) <= 1 / 2)%Re -> exact_history (B := ex_fam p) 4 ex_t ex_slow ex_temp Y.
{ case: (Rle_dec (dst p (ex_line 2%Re)) (1 / 2)) => pd; last by exists (fun _ => @zeroV RF 1 3).
  have [Y H] := history_exists ex_slow Gr (fun b _ => ex_good b pd); by exists Y. }
pose sim p := sval (ClassicalEpsilon.constructive_indefinite_description _ (HY p)).
have Hs p : (dst p (ex_line 2%Re) <= 1 / 2)%Re -> exact_history (B := ex_fam p) 4 ex_t ex_slow ex_temp (sim p) := svalP (ClassicalEpsilon.constructive_indefinite_description _ (HY p)).
have [dp Hdp] := parameter_derivatives_exist (rate_p (nb := 1) (const_par (inord 0)) (const_par (inord 1)) (const_par (inord 2)) (const_par (inord 3)) (const_par (inord 4)) (const_par (inord 5)) (const_seq (inord 6)) (const_seq (inord 7))
     (nback := 1) 4 ex_t ex_slow ex_temp).
exists dp, sim.
have T : trainable (const_par (inord 0)) (const_par (inord 1)) (const_par (inord 2)) (const_par (inord 3)) (const_par (inord 4)) (const_par (inord 5)) (const_seq (inord 6)) (const_seq (inord 7))
    (nback := 1) (nb := 1) 4 ex_t ex_slow ex_temp dp (ex_line 2%Re) (1 / 2)%Re sim.
{ split; [exact: Hdp|exact: Gr|exact: (ltn0Sn 2)|lra|]. split; first by move=> p b pd _; exact: ex_good. split; first by move=> k b _ _; exact: Props_Mixed.ex_smooth. exact: Hs. }
have HL : loss_gradient 4 (loss 4 ex_og) (sim (ex_line 2%Re)) ex_og := @weighted_sum _ _ _ _ _.
have [gr [Ag D]] := gradient_exists T HL.
have [gr' [[lam' Ag'] [_ K]]] := C135_small_steps_decrease_the_loss T HL; have [lam Ag0] := Ag.
have Eg : gr' = gr by have := Ag' Thomas 1%N (ltn0Sn 0); rewrite (Ag0 Thomas 1%N (ltn0Sn 0)) => -[->].
rewrite {}Eg in K.
suff gn : gr <> 0 by exists gr; split=> //; split=> //; split=> //; exact: K.
pose q : 'cV[RF]_8 := \col_i (if i == inord 0 then 1 else 0).
have [dl [dl0 Hd]] := along T q.
have Lu u : (Rabs (u - 0) < dl)%Re -> loss 4 ex_og (sim (moved (ex_line 2%Re) u q)) = ((2 + u) * (6 / 100))%Re.
{ move=> ud; have S := ex_elastic (Hd u ud) (Hs _ (Hd u ud)); rewrite /loss.
  have X (k : 'I_4) : \sum_b \sum_(i < 3) ex_og k b i 0 * sim (moved (ex_line 2%Re) u q) k b i 0 = ((2 + u) * (INR k / 100))%Re.
  { rewrite big_ord1 big_ord_recl big1 => [|i _]; last by rewrite !ffunE !mxE mul0r.
    rewrite !ffunE !mxE mul1r addr0 (S k ord0 (ltn_ord k)) /moved !mxE eqxx mulr1 //. }
  rewrite (eq_bigr _ (fun k _ => X k)) !big_ord_recl big_ord0 /=.
  have Fl (v : R) : (v * (0 / 100) + (v * (1 / 100) + (v * ((1 + 1) / 100) + (v * ((1 + 1 + 1) / 100) + 0))) = v * (6 / 100))%Re by field.
  exact: Fl. }
move=> g0; have D1 : derivable_pt_lim (fun u => loss 4 ex_og (sim (moved (ex_line 2%Re) u q))) 0 (6 / 100)%Re.
{ apply: (@dpl_ext_loc (fun u => (6 / 100 * (2 + u))%Re)); first by exists dl; split=> // u ud; rewrite Lu // Rmult_comm.
  have := derivable_pt_lim_scal _ (6 / 100) _ _ (derivable_pt_lim_plus _ _ _ _ _ (derivable_pt_lim_const 2 0) (derivable_pt_lim_id 0)).
  rewrite (_ : (6 / 100 * (0 + 1) = 6 / 100)%Re); last lra. exact. }
have := uniqueness_limite _ _ _ _ D1 (D q); rewrite g0 big1 => [|i _]; last by rewrite mxE mul0r.
have Fl : (6 / 100 <> 0)%Re by lra. exact: Fl.
Qed.
