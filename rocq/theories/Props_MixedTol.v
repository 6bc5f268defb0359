(** C144: gradients of mixed strain/stress-controlled batches computed from simulations that are only near the exact ones. *)
From Coq Require Import Reals List String Lra Lia FunctionalExtensionality.
From mathcomp Require Import all_ssreflect all_algebra.
From Verif Require Import ChunkModel ChunkSolve ChunkInst NewtonModel Ode OdeForward OdeAdjoint OdeReal OdeBlock OdeDiff RField Gmres Implicit Tolerance Converge Pipeline PipelineBoth SmoothMx VCGrad GradHist MixedVC AdjointBlock MixedGrad NewtonConv.
From Verif Require Interp Models Flow Hardening Deriv Slices VCHistory Props_FullModel VCExact Props_Stress Props_Gradient Props_GradTol Props_Mixed Props_Descent Props_Training Props_PerfectTol.
Import GRing.Theory.
Set Implicit Arguments. Unset Strict Implicit. Unset Printing Implicit Defensive.
Local Open Scope ring_scope.
Delimit Scope R_scope with Re.
Import Props_FullModel VCExact Props_Stress Props_Gradient Props_GradTol Props_Mixed Props_Descent Props_Training Props_PerfectTol.

Lemma sdiff_cont m np (f : 'cV[RF]_m -> 'cV[RF]_np -> 'cV[RF]_m) J P y0 p0 : sdiff f J P y0 p0 ->
  forall e, (0 < e)%Re -> exists r, (0 < r)%Re /\ forall y i, (dst y y0 <= r)%Re -> (Rabs (f y p0 i ord0 - f y0 p0 i ord0) <= e)%Re.
Proof.
move=> S e e0; have [d [d0 H]] := S 1%Re Rlt_0_1; have [c [c0 B]] := mat_bound J.
have m0 : (0 < Rmin d (e / (1 + c)))%Re by apply: Rmin_glb_lt => //; apply: Rdiv_lt_0_compat; lra.
exists (Rmin d (e / (1 + c))); split; first exact: m0.
move=> y i yr; have y1 := Rle_trans _ _ _ yr (Rmin_l _ _); have y2 := Rle_trans _ _ _ yr (Rmin_r _ _).
have d0' := Rlt_le _ _ d0.
have Q := H y0 y p0 p0 ltac:(rewrite dst0; lra) y1 ltac:(rewrite dst0; lra) ltac:(rewrite dst0; lra).
rewrite dst0 subrr mulmx0 addr0 Rplus_0_r Rmult_1_l in Q.
have K : (norm (f y p0 - f y0 p0)%R <= (1 + c) * dst y y0)%Re.
{ have -> : f y p0 - f y0 p0 = ((f y p0 - f y0 p0) - J *m (y - y0)) + J *m (y - y0) by rewrite subrK.
  apply: Rle_trans (norm_triangle _ _) _; have := B (y - y0); rewrite -/(dst y y0); lra. }
apply: Rle_trans (comp_dst (f y p0) (f y0 p0) i) _; rewrite /dst; apply: Rle_trans K _.
apply: (Rle_trans _ ((1 + c) * (e / (1 + c)))%Re); first by apply: Rmult_le_compat_l; lra. apply: Req_le; field; lra.
Qed.

Lemma Rlt_0_gap a b : (0 < b - a <-> a < b)%Re.
Proof. split=> ?; lra. Qed.
Section Cal.
Variables (np nback : nat) (E pn eta s0 Rs d : 'cV[RF]_np -> R -> R) (C g : 'cV[RF]_np -> R -> nat -> R).
Variables (nb nt : nat) (times data temps : nat -> nat -> R) (control : nat -> R).
Let model p := family nback E pn eta s0 Rs d C g p.
Let rate := rate_m E pn eta s0 Rs d C g (nback := nback) (nb := nb) nt times data temps control.
Let jac := jac_m E pn eta s0 Rs d C g (nback := nback) (nb := nb) nt times data temps control.
Let good p b := good_entry (E p) (pn p) (eta p) (s0 p) (Rs p) (d p) nback (C p) (g p) nt temps b.
Let call (p : 'cV[RF]_np) : nat -> (nat -> TB RF nb) -> (nat -> VB RF nb nback.+2) -> (nat -> VB RF nb nback.+2) * (nat -> MB RF nb nback.+2) :=
  both_G (B := model p) (nb := nb) nt times data temps control.
Hypothesis Cc : controls nb control.
Hypothesis Gr : times_increase nb nt times.
Hypothesis nt2 : (1 < nt)%N.
Variables (p0 : 'cV[RF]_np) (Y : nat -> VB RF nb nback.+2).
Hypothesis Gd : forall b, (b < nb)%N -> good p0 b.
Hypothesis Sm : forall k b, (k < nt)%N -> (b < nb)%N -> smooth_material nback E pn eta s0 Rs d C g p0 (temps k b).
Hypothesis HY : mixed_history (B := model p0) nt times data temps control Y.
Let tt := time_table nb times.
Let dp := sval (ClassicalEpsilon.constructive_indefinite_description _ (parameter_derivatives_exist rate)).
Let Hdp : parameter_derivatives rate dp := svalP (ClassicalEpsilon.constructive_indefinite_description _ (parameter_derivatives_exist rate)).
Lemma mixed_IT k (b : 'I_nb) : (k < nt)%N -> interp_at nt times temps b (tt k b) = temps k b.
Proof. by move=> kn; rewrite ffunE (interp_knot temps nt2 (ltn_ord b) Gr kn). Qed.
Lemma mixed_Ep k (b : 'I_nb) : (k < nt)%N -> (0 < E p0 (temps k b))%Re.
Proof. by move=> kn; have [/(_ k kn) []] := Gd (ltn_ord b). Qed.
Lemma mixed_c1 k b : (k < nt)%N -> c1_near (rate b (tt k b)) (jac b (tt k b)) (dp b (tt k b)) (Y k b) p0.
Proof.
move=> kn; have Rg := mixed_range (nb := nb) Gr Gd Cc HY b kn.
have [[/(_ k kn) [_ [_ [ep _]]] _] [[yp _] _]] := (Gd (ltn_ord b), Rg).
have S1 := Sm kn (ltn_ord b); have E1 := mixed_Ep b kn.
have yp' : (0 <= Y k b (inord 1) ord0)%Re by rewrite -(tvE (Y k b) (inord 1)) inordK.
apply: c1_of_rows => [i||].
- apply: rows_smooth_m; rewrite ?mixed_IT //.
- apply: jac_near_m; rewrite ?mixed_IT //.
- exact: Hdp.
Qed.
Lemma mixed_regular : steps_regular jac BackwardEuler nt tt p0 Y.
Proof.
move=> _ k b k0 kn; have [/(_ k kn) [/Rlt_le E0 A] _] := Gd (ltn_ord b).
exact: (step_regular_m data control Gr k0 kn E0 A (mixed_range (nb := nb) Gr Gd Cc HY b kn)).
Qed.
Hypothesis Act : every_step_active nt times temps control (E p0) Y.
(** A radius around the exact history within which the rates are differentiable and the inner solves stay active. *)
Lemma mixed_radius : exists r, (0 < r)%Re /\ forall k (b : 'I_nb) y, (k < nt)%N -> (dst y (Y k b) <= r)%Re ->
  partials_at (rate b (tt k b)) (jac b (tt k b) y p0) (dp b (tt k b) y p0) y p0 /\
  ((0 < k)%N -> (/ 10 ^ 10 * (times k b - times k.-1 b) < Rabs (E p0 (temps k b) * (Y k b ord0 ord0 - Y k.-1 b ord0 ord0)))%Re ->
     (/ 10 ^ 10 < Rabs (E p0 (temps k b) * rate b (tt k b) y p0 ord0 ord0))%Re).
Proof.
suff [r [r0 H]] : exists r, (0 < r)%Re /\ forall kb : 'I_nt * 'I_nb, forall y, (dst y (Y kb.1 kb.2) <= r)%Re ->
  partials_at (rate kb.2 (tt kb.1 kb.2)) (jac kb.2 (tt kb.1 kb.2) y p0) (dp kb.2 (tt kb.1 kb.2) y p0) y p0 /\
  ((0 < kb.1)%N -> (/ 10 ^ 10 * (times kb.1 kb.2 - times kb.1.-1 kb.2) < Rabs (E p0 (temps kb.1 kb.2) * (Y kb.1 kb.2 ord0 ord0 - Y kb.1.-1 kb.2 ord0 ord0)))%Re ->
     (/ 10 ^ 10 < Rabs (E p0 (temps kb.1 kb.2) * rate kb.2 (tt kb.1 kb.2) y p0 ord0 ord0))%Re).
{ exists r; split; first exact: r0. move=> k b y kn yr; exact: (H (Ordinal kn, b) y yr). }
apply: (fin_radius (P := fun (kb : 'I_nt * 'I_nb) r => forall y, (dst y (Y kb.1 kb.2) <= r)%Re ->
  partials_at (rate kb.2 (tt kb.1 kb.2)) (jac kb.2 (tt kb.1 kb.2) y p0) (dp kb.2 (tt kb.1 kb.2) y p0) y p0 /\
  ((0 < kb.1)%N -> (/ 10 ^ 10 * (times kb.1 kb.2 - times kb.1.-1 kb.2) < Rabs (E p0 (temps kb.1 kb.2) * (Y kb.1 kb.2 ord0 ord0 - Y kb.1.-1 kb.2 ord0 ord0)))%Re ->
     (/ 10 ^ 10 < Rabs (E p0 (temps kb.1 kb.2) * rate kb.2 (tt kb.1 kb.2) y p0 ord0 ord0))%Re))).
{ move=> kb r r' rr H y yr; apply: H; exact: Rle_trans yr rr. }
case=> [[k kn] b]; cbn [fst snd nat_of_ord].
have c1 := mixed_c1 b kn; have [[d1 [d10 H1]] _] := c1.
have K : exists r, (0 < r)%Re /\ forall y, (dst y (Y k b) <= r)%Re -> (0 < k)%N -> (/ 10 ^ 10 * (times k b - times k.-1 b) < Rabs (E p0 (temps k b) * (Y k b ord0 ord0 - Y k.-1 b ord0 ord0)))%Re ->
     (/ 10 ^ 10 < Rabs (E p0 (temps k b) * rate b (tt k b) y p0 ord0 ord0))%Re.
{ case: (posnP k) => k0; first by exists 1%Re; split; [exact: Rlt_0_1|move=> y _; rewrite k0].
  have ep := mixed_Ep b kn; have dt := dt_pos (ltn_ord b) Gr k0 kn.
  have hr : (Y k b ord0 ord0 - Y k.-1 b ord0 ord0 = (times k b - times k.-1 b) * rate b (tt k b) (Y k b) p0 ord0 ord0)%Re.
  { have := history_rate Cc Gr b Gd HY k0 kn; by rewrite /tt ffunE. }
  set x := rate b (tt k b) (Y k b) p0 ord0 ord0 in hr; pose gap := (Rabs (E p0 (temps k b) * x) - / 10 ^ 10)%Re.
  have Fl (e t x0 : R) : (0 < t)%Re -> (/ 10 ^ 10 * t < Rabs (e * (t * x0)) -> / 10 ^ 10 < Rabs (e * x0))%Re.
  { move=> t0; have -> : (e * (t * x0) = t * (e * x0))%Re by ring. rewrite Rabs_mult (Rabs_pos_eq t) => [h|]; last lra. apply: (Rmult_lt_reg_l t) => //; lra. }
  case: (Rlt_dec 0 gap) => gp; last first.
  { exists 1%Re; split; first exact: Rlt_0_1. move=> y _ _; rewrite hr => /(Fl _ _ _ dt) h; exfalso; apply: gp; rewrite /gap; exact: (proj2 (Rlt_0_gap _ _) h). }
  have h0 : (0 < gap / (2 * E p0 (temps k b)))%Re by apply: Rdiv_lt_0_compat => //; apply: Rmult_lt_0_compat ep; exact: Rlt_0_2.
  have [r [r0 H]] := sdiff_cont (c1_sdiff c1) h0; exists r; split; first exact: r0.
  move=> y yr _ _; have := H y ord0 yr; rewrite -/x; set z := rate _ _ y _ _ _.
  have Fz (e u v : R) : (0 < e)%Re -> (0 < Rabs (e * u) - / 10 ^ 10)%Re -> (Rabs (v - u) <= (Rabs (e * u) - / 10 ^ 10) / (2 * e))%Re -> (/ 10 ^ 10 < Rabs (e * v))%Re.
  { move=> e0; set G := (_ - _)%Re => g0 h.
    have h' : (e * Rabs (v - u) <= G / 2)%Re.
    { have := Rmult_le_compat_l _ _ _ (Rlt_le _ _ e0) h; have -> : (e * (G / (2 * e)) = G / 2)%Re by field; lra. by []. }
    have T := Rabs_triang (e * v) (e * (u - v)); have E1 : (e * v + e * (u - v) = e * u)%Re by ring.
    rewrite E1 (Rabs_mult e (u - v)) (Rabs_pos_eq e) ?(Rabs_minus_sym u) in T; last lra.
    have dG : G = (Rabs (e * u) - / 10 ^ 10)%Re by []. lra. }
  exact: Fz ep gp. }
have [d2 [d20 H2]] := K.
exists (Rmin d1 d2); split; first exact: Rmin_glb_lt.
move=> y yr; split; last by apply: H2; apply: Rle_trans yr (Rmin_r _ _).
apply: H1; first by apply: Rle_trans yr (Rmin_l _ _). rewrite dst0; exact: Rlt_le.
Qed.
Lemma within_dst r (y' : nat -> VB RF nb nback.+2) k (b : 'I_nb) : (0 < r)%Re -> within nt (r / (INR nback.+2 + 1)) y' Y -> (k < nt)%N -> (dst (y' k b) (Y k b) <= r)%Re.
Proof.
move=> r0 W kn; apply: Rle_trans (norm_le_sum _) _; have q0 := pos_INR nback.+2.
have : Rle (\sum_i (Rabs ((y' k b - Y k b)%R i ord0) : RF)) (\sum_(i < nback.+2) (Rdiv r (Rplus (INR nback.+2) 1) : RF)).
{ apply: sum_le => i; have := W k b i kn; by rewrite !mxE. }
rewrite sum_const => X; apply: Rle_trans X _; apply: (Rmult_le_reg_r (INR nback.+2 + 1)); first by lra.
set q := INR nback.+2 in q0 *; have -> : (q * (r / (q + 1)) * (q + 1) = q * r)%Re by field; lra. lra.
Qed.
(** Near the exact history the backward pass through the calls of solve_both is the one through the exact rates. *)
Lemma mixed_rewind GP : call_derivatives (fun p rows ts Y => (call p rows ts Y).1) GP ->
  exists dlt, (0 < dlt)%Re /\ forall (y' og' : nat -> VB RF nb nback.+2) mth n, within nt dlt y' Y -> (0 < n)%N ->
    rewindG (fun rows ts y => (call p0 rows ts y).2) (GP p0) mth BackwardEuler n nt tt y' og' = rewind (at_p jac p0) (at_p dp p0) mth BackwardEuler n nt tt y' og'.
Proof.
move=> autograd; have [r [r0 Hr]] := mixed_radius; have q0 := pos_INR nback.+2; have nt0 : (0 < nt)%N := ltnW nt2.
exists (r / (INR nback.+2 + 1))%Re; split; first by apply: Rdiv_lt_0_compat r0 _; lra.
move=> y' og' mth n W n0.
have Hd k b (kn : (k < nt)%N) := Hr k b (y' k b) kn (within_dst b r0 W kn).
rewrite (@rewindG_eq RF nb nback.+2 np _ _ mth (at_p jac p0) (at_p dp p0)) //.
- move=> rows ts y; exact: (@both_jac (E p0) (pn p0) (eta p0) (s0 p0) (Rs p0) (d p0) nback (C p0) (g p0) nb nt times data temps control Cc rows ts y).
move=> k j b k0 kn jl; cbv zeta.
set len := slice_len nt k (k + n) in jl *; set ts := fun j => flipn nt tt (k - 1 + j)%N; set yy := fun j => flipn nt y' (k - 1 + j)%N.
pose kap i := (nt - 1 - (k - 1 + i))%N.
have lenE : (len <= nt - k)%N by rewrite /len /slice_len leq_sub2r // geq_minr.
have kap_lt i : (kap i < nt)%N by rewrite /kap; apply: leq_ltn_trans (leq_subr _ _) _; rewrite subn1 prednK.
have kap_pos i : (i < len)%N -> (0 < kap i)%N.
{ move=> il; rewrite /kap subn_gt0; have h : (i < nt - k)%N := leq_trans il lenE; move: h k0 kn; clear; move=> /ltP h /ltP a /ltP c; apply/ltP; rewrite -!minusE -!plusE in h *; lia. }
apply: autograd => c th' q' ceq Dc.
have at_knot i (b' : 'I_nb) : ts i b' = tt (kap i) b' by [].
have DE i (b' : 'I_nb) : exists l, derivable_pt_lim (fun u => E (c u) (interp_at nt times temps b' (ts i b'))) th' l.
{ rewrite at_knot mixed_IT //; have [[[GG [[dd [dd0 HD]] _]] _ _ _] _] := Sm (kap_lt i) (ltn_ord b'); eexists; apply: HD Dc; rewrite ceq dst0; exact: Rlt_le. }
have DR i (b' : 'I_nb) : cdiff (fun u => rate b' (ts i b') (yy i b') (c u)) th' (dp b' (ts i b') (yy i b') p0 *m q').
{ have := proj1 (Hd (kap i) b' (kap_lt i)) (fun _ => yy i b') c th' 0 q' erefl ceq; rewrite mulmx0 add0r; apply=> //; exact: cdiff_cst. }
have Near : near th' (fun u => forall j b, (j < len)%N -> (call (c u) len ts yy).1 j b = rate b (ts j b) (yy j b) (c u)).
{ have N1 : near th' (fun u => forall (i : 'I_len) (b' : 'I_nb), (0 < E (c u) (interp_at nt times temps b' (ts i b')))%Re).
  { apply: near_all => i; apply: near_all => b'; have [l Dl] := DE i b'; apply: near_above Dl _; rewrite ceq at_knot mixed_IT //; exact: mixed_Ep. }
  have N2 : near th' (fun u => (forall b, (b < nb)%N -> control b = 0%Re) \/ call_active (E (c u)) (pn (c u)) (eta (c u)) (s0 (c u)) (Rs (c u)) (d (c u)) (C (c u)) (g (c u)) nt times data temps control len ts yy).
  { case: Act => [C0|Ac]; first by apply: near_true => u; left.
    have j0 : (0 < len)%N by exact: leq_ltn_trans jl.
    have [ba [ca act]] := Ac (kap 0%N) (kap_pos 0%N j0) (kap_lt 0%N).
    have [l Dl] := DE 0%N ba; have Dr := DR 0%N ba ord0.
    have Dm := derivable_pt_lim_mult _ _ _ _ _ Dl Dr.
    apply: near_imp (near_abs_above Dm (a := (/ 10 ^ 10)%Re) _) => [u hu|]; first by right; exists 0%N, ba; split.
    rewrite /mult_fct ceq [X in E _ X](mixed_IT ba (kap_lt 0%N)).
    exact: (proj2 (Hd (kap 0%N) ba (kap_lt 0%N)) (kap_pos 0%N j0) act). }
  have := near_and N1 N2; apply: near_imp => u [h1 h2] i b' il.
  apply: (both_rate Cc) h2 _ _ il => k' b'' k'l; exact: (h1 (Ordinal k'l) b''). }
move=> i; apply: dpl_ext_loc (DR j b i); have [dd [dd0 Hdd]] := Near; exists dd; split=> // u ud; by rewrite Hdd.
Qed.
(** hence nearly the derivative of the loss, if the backward pass on the exact history gives the derivative *)
Lemma mixed_near GP og q D : call_derivatives (fun p rows ts Y => (call p rows ts Y).1) GP ->
  (exists grad lam, rewindG (fun rows ts y => (call p0 rows ts y).2) (GP p0) Thomas BackwardEuler 1 nt tt Y og = Some (grad, lam) /\ slope grad q = D) ->
  forall e, (0 < e)%Re -> exists dlt, (0 < dlt)%Re /\ forall (y' og' : nat -> VB RF nb nback.+2) mth n, within nt dlt y' Y -> within nt dlt og' og -> (0 < n)%N ->
    exists grad lam, rewindG (fun rows ts y => (call p0 rows ts y).2) (GP p0) mth BackwardEuler n nt tt y' og' = Some (grad, lam) /\ (Rabs (slope grad q - D) <= e)%Re.
Proof.
move=> autograd Rw e e0; have [d1 [d10 H1]] := mixed_rewind autograd.
have self : within nt d1 Y Y by move=> k b i _; rewrite (Rminus_diag_eq _ _ erefl) Rabs_R0; exact: Rlt_le.
have Rw' : exists grad lam, rewind (at_p jac p0) (at_p dp p0) Thomas BackwardEuler 1 nt tt Y og = Some (grad, lam) /\ slope grad q = D by rewrite -(H1 Y og Thomas 1%N self (ltn0Sn 0)).
have [d2 [d20 H2]] := near_core (ltnW nt2) (fun k b kn => mixed_c1 b kn) mixed_regular Rw' e0.
exists (Rmin d1 d2); split; first exact: Rmin_glb_lt.
move=> y' og' mth n W1 W2 n0; rewrite H1 //; last by move=> k b i kn; apply: Rle_trans (W1 k b i kn) (Rmin_l _ _).
apply: H2 => // k b i kn; [apply: Rle_trans (W1 k b i kn) (Rmin_r _ _)|apply: Rle_trans (W2 k b i kn) (Rmin_r _ _)].
Qed.
End Cal.

(** The gradient the backward pass computes at any history near the exact one, from a cotangent near the exact one, is near the derivative of the loss:
    batches of strain- and stress-controlled tests, differentiated through the calls of solve_both, for every block size. *)
Theorem C144_gradient_near_the_exact_history np nback (E pn eta s0 Rs d : 'cV[RF]_np -> R -> R) (C g : 'cV[RF]_np -> R -> nat -> R)
    nb nt (times data temps : nat -> nat -> R) (control : nat -> R) GP (p : R -> 'cV[RF]_np) q th dl (Y : R -> nat -> VB RF nb nback.+2) :
  let call := calls (nback := nback) E pn eta s0 Rs d C g (nb := nb) nt times data temps control in
  call_derivatives (fun p rows ts Y => (call p rows ts Y).1) GP ->
  controls nb control -> times_increase nb nt times -> (1 < nt)%N -> (0 < dl)%Re ->
  (forall u b, (Rabs (u - th) < dl)%Re -> (b < nb)%N -> good_entry (E (p u)) (pn (p u)) (eta (p u)) (s0 (p u)) (Rs (p u)) (d (p u)) nback (C (p u)) (g (p u)) nt temps b) ->
  (forall k b, (k < nt)%N -> (b < nb)%N -> smooth_material nback E pn eta s0 Rs d C g (p th) (temps k b)) ->
  cdiff p th q ->
  (forall u, (Rabs (u - th) < dl)%Re -> mixed_history (B := family nback E pn eta s0 Rs d C g (p u)) nt times data temps control (Y u)) ->
  every_step_active nt times temps control (E (p th)) (Y th) ->
  forall L og, loss_gradient nt L (Y th) og ->
  exists D, derivable_pt_lim (fun u => L (Y u)) th D /\
    forall e, (0 < e)%Re -> exists dlt, (0 < dlt)%Re /\ forall (y' og' : nat -> VB RF nb nback.+2) mth n, within nt dlt y' (Y th) -> within nt dlt og' og -> (0 < n)%N ->
      exists grad lam,
        rewindG (fun rows ts y => (call (p th) rows ts y).2) (GP (p th)) mth BackwardEuler n nt (time_table nb times) y' og' = Some (grad, lam) /\
        (Rabs ((\sum_(i < np) grad i 0 * q i 0)%R - D) <= e)%Re.
Proof.
move=> call A Cc Gr nt2 dl0 Gd Sm Dp HY Act L og HL.
have [gr0 [lam0 [E0 D0]]] := @mixed_core np nback E pn eta s0 Rs d C g nb nt times data temps control Cc Gr nt2 Thomas 1 p q th dl Y GP A (ltn0Sn 0) dl0 Gd Sm Dp HY Act L og HL.
have th0 : (Rabs (th - th) < dl)%Re by rewrite (_ : (th - th = 0)%Re) ?Rabs_R0 //; ring.
exists (\sum_(i < np) gr0 i 0 * q i 0); split; first exact: D0.
apply: (@mixed_near np nback E pn eta s0 Rs d C g nb nt times data temps control Cc Gr nt2 (p th) (Y th) (fun b => Gd th b th0) Sm (HY th th0) Act GP og q _ A).
by exists gr0, lam0.
Qed.
Print Assumptions C144_gradient_near_the_exact_history.

(** Hence training a mixed batch with simulations that are only near the exact ones still goes downhill: unless the loss is stationary, one accuracy suffices for
    small steps against every gradient computed from simulations at least that accurate. *)
Theorem C144_steps_near_the_exact_history np nback (E pn eta s0 Rs d : 'cV[RF]_np -> R -> R) (C g : 'cV[RF]_np -> R -> nat -> R)
    nb nt (times data temps : nat -> nat -> R) (control : nat -> R) GP p0 r (sim : 'cV[RF]_np -> nat -> VB RF nb nback.+2) L (dL : (nat -> VB RF nb nback.+2) -> nat -> VB RF nb nback.+2) :
  let call := calls (nback := nback) E pn eta s0 Rs d C g (nb := nb) nt times data temps control in
  call_derivatives (fun p rows ts Y => (call p rows ts Y).1) GP ->
  controls nb control -> times_increase nb nt times -> (1 < nt)%N -> (0 < r)%Re ->
  (forall p b, (dst p p0 <= r)%Re -> (b < nb)%N -> good_entry (E p) (pn p) (eta p) (s0 p) (Rs p) (d p) nback (C p) (g p) nt temps b) ->
  (forall k b, (k < nt)%N -> (b < nb)%N -> smooth_material nback E pn eta s0 Rs d C g p0 (temps k b)) ->
  (forall p, (dst p p0 <= r)%Re -> mixed_history (B := family nback E pn eta s0 Rs d C g p) nt times data temps control (sim p)) ->
  every_step_active nt times temps control (E p0) (sim p0) ->
  loss_gradient nt L (sim p0) (dL (sim p0)) ->
  (forall e, (0 < e)%Re -> exists dlt, (0 < dlt)%Re /\ forall y', within nt dlt y' (sim p0) -> within nt e (dL y') (dL (sim p0))) ->
  (forall q, derivable_pt_lim (fun u => L (sim (moved p0 u q))) 0 0) \/
  exists dlt, (0 < dlt)%Re /\ forall (y' : nat -> VB RF nb nback.+2) mth n, within nt dlt y' (sim p0) -> (0 < n)%N ->
    exists grad lam,
      rewindG (fun rows ts y => (call p0 rows ts y).2) (GP p0) mth BackwardEuler n nt (time_table nb times) y' (dL y') = Some (grad, lam) /\
      exists e, (0 < e)%Re /\ forall lr, (0 < lr)%Re -> (lr < e)%Re -> (L (sim (moved p0 lr (- grad))) < L (sim p0))%Re.
Proof.
move=> call A Cc Gr nt2 r0 Gd Sm HY Act HL cL.
have [gr [Rw [Dr [K _]]]] := C142_mixed_batches A Cc Gr nt2 r0 Gd Sm HY Act HL.
case: (eqVneq gr 0) => [gz|/eqP gn].
{ left=> q; have := Dr q; rewrite gz (_ : slope 0 q = 0%Re) // /slope big1 // => i _; by rewrite mxE mul0r. }
right; have N0 := dot_pos gn; set N := slope gr gr in N0.
have d00 : (dst p0 p0 <= r)%Re by rewrite dst0; exact: Rlt_le.
have Rw' : exists grad lam, rewindG (fun rows ts y => (call p0 rows ts y).2) (GP p0) Thomas BackwardEuler 1 nt (time_table nb times) (sim p0) (dL (sim p0)) = Some (grad, lam) /\ slope grad gr = N.
{ have [lam Eq] := Rw Thomas 1%N (ltn0Sn 0); by exists gr, lam. }
have N2 : (0 < N / 2)%Re by lra.
have [d1 [d10 H1]] := @mixed_near np nback E pn eta s0 Rs d C g nb nt times data temps control Cc Gr nt2 p0 (sim p0) (fun b => Gd p0 b d00) Sm (HY p0 d00) Act GP (dL (sim p0)) gr N A Rw' (N / 2)%Re N2.
have [d2 [d20 H2]] := cL d1 d10.
exists (Rmin d1 d2); split; first exact: Rmin_glb_lt.
move=> y' mth n W n0.
have W1 : within nt d1 y' (sim p0) by move=> k b i kn; apply: Rle_trans (W k b i kn) (Rmin_l _ _).
have W2 : within nt d2 y' (sim p0) by move=> k b i kn; apply: Rle_trans (W k b i kn) (Rmin_r _ _).
have [grad [lam [Eg Cl]]] := H1 y' (dL y') mth n W1 (H2 y' W2) n0.
exists grad, lam; split; [exact: Eg|apply: K].
rewrite slope_opp; have Fl (x : R) : (Rabs (x - N) <= N / 2 -> - x < 0)%Re by have := N0; rewrite /Rabs; case: Rcase_abs; lra.
exact: Fl Cl.
Qed.
Print Assumptions C144_steps_near_the_exact_history.

(** The hypotheses are met: a test under strain control with any history and a stress ramp through yield. *)
Example C144_ex (strains : nat -> R) og : exists (Y : R -> nat -> VB RF 2 3) GP D,
  derivable_pt_lim (fun u => loss 4 og (Y u)) 2%Re D /\
  forall e, (0 < e)%Re -> exists dlt, (0 < dlt)%Re /\ forall (y' og' : nat -> VB RF 2 3) mth n, within 4 dlt y' (Y 2%Re) -> within 4 dlt og' og -> (0 < n)%N ->
    exists grad lam,
      rewindG (fun rows ts y => (calls (nback := 1) (const_par (inord 0)) (const_par (inord 1)) (const_par (inord 2)) (const_par (inord 3)) (const_par (inord 4)) (const_par (inord 5)) (const_seq (inord 6)) (const_seq (inord 7)) (nb := 2) 4 ex_t (ex_data strains) ex_temp INR (ex_line 2%Re) rows ts y).2) (GP (ex_line 2%Re)) mth BackwardEuler n 4 (time_table 2 ex_t) y' og' = Some (grad, lam) /\
      (Rabs (slope grad (ex_line 1%Re) - D) <= e)%Re.
Proof.
have [Y [GP [grad [lam [HY [HGP _]]]]]] := C127_ex strains og.
have two : (Rabs (2 - 2) < 1)%Re by rewrite Rminus_diag_eq // Rabs_R0; lra.
have [D [HD H]] := C144_gradient_near_the_exact_history HGP ex_controls ex_times (ltn0Sn 2 : (1 < 4)%N) Rlt_0_1 (fun u b ud _ => Props_Mixed.ex_good b ud) (fun k b _ _ => Props_Mixed.ex_smooth k b) Props_Mixed.ex_dir HY
   (ex_active (HY 2%Re two)) (weighted_sum og (y := Y 2%Re)).
exists Y, GP, D; split; first exact: HD. exact: H.
Qed.
