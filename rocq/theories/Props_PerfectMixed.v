(** C147: calibration by gradients with the perfectly viscoplastic model in batches that mix strain- and stress-controlled tests (solve_both) and in creep tests (solve_stress). *)
From Coq Require Import Reals List String Lra Lia FunctionalExtensionality.
From mathcomp Require Import all_ssreflect all_algebra.
From Verif Require Import ChunkModel ChunkSolve ChunkInst NewtonModel Ode OdeForward OdeAdjoint OdeReal OdeBlock OdeDiff RField Gmres Implicit Pipeline PipelineBoth SmoothMx VCGrad VCExact PVGrad PVMixed GradHist MixedVC AdjointBlock.
From Verif Require Interp Models Flow Hardening Deriv Slices SmoothR PVSmooth PipelineR Props_Stress Props_Gradient Props_PerfectGrad Props_Mixed Props_StressCal.
Import GRing.Theory.
Set Implicit Arguments. Unset Strict Implicit. Unset Printing Implicit Defensive.
Local Open Scope ring_scope.
Delimit Scope R_scope with Re.
Import Props_Stress Props_Gradient Props_PerfectGrad Props_Mixed Props_StressCal.

(** The calls of BothBasedModel (models.py 451-475, inner solve included) and of StressBasedModel (models.py 521-562) made by the simulation and by its backward pass, as functions
    of the calibrated vector. *)
Definition pv_calls np (E pn eta : 'cV[RF]_np -> R -> R) nb nt (times data temps : nat -> nat -> R) (control : nat -> R) (p : 'cV[RF]_np) :
    nat -> (nat -> TB RF nb) -> (nat -> VB RF nb 1) -> (nat -> VB RF nb 1) * (nat -> MB RF nb 1) :=
  both_G (B := pv_family E pn eta p) (nb := nb) nt times data temps control.
Definition pv_stress_calls np (E pn eta : 'cV[RF]_np -> R -> R) nb nt (times stresses temps : nat -> nat -> R) (p : 'cV[RF]_np) :
    nat -> (nat -> TB RF nb) -> (nat -> VB RF nb 1) -> (nat -> VB RF nb 1) * (nat -> MB RF nb 1) :=
  stress_G (B := pv_family E pn eta p) (nb := nb) nt times stresses temps.

Section Cal.
Variables (np : nat) (E pn eta : 'cV[RF]_np -> R -> R) (nb nt : nat) (times data temps : nat -> nat -> R) (control : nat -> R).
Let model p := pv_family E pn eta p.
Definition pm_rate (b : 'I_nb) (t : RF) (y : 'cV[RF]_1) (p : 'cV[RF]_np) : 'cV[RF]_1 := pm_f (E p) (pn p) (eta p) nt times data temps control b t y.
Definition pm_jac (b : 'I_nb) (t : RF) (y : 'cV[RF]_1) (p : 'cV[RF]_np) : 'M[RF]_1 := pm_J (E p) (pn p) (eta p) nt times data temps control b t y.
Let call (p : 'cV[RF]_np) : nat -> (nat -> TB RF nb) -> (nat -> VB RF nb 1) -> (nat -> VB RF nb 1) * (nat -> MB RF nb 1) := pv_calls E pn eta (nb := nb) nt times data temps control p.
Hypothesis Cc : controls nb control.
Hypothesis Gr : times_increase nb nt times.
Hypothesis nt2 : (1 < nt)%N.
Let good p := forall k b, (k < nt)%N -> (b < nb)%N -> (0 < E p (temps k b) /\ 1 < pn p (temps k b) /\ 0 < eta p (temps k b))%Re.
Let good_E p : good p -> forall k b, (k < nt)%N -> (b < nb)%N -> (0 < E p (temps k b))%Re.
Proof. by move=> G k b kn bn; have [] := G k b kn bn. Qed.

Lemma pm_rows_smooth (b : 'I_nb) (t : RF) (y : 'cV[RF]_1) (p : 'cV[RF]_np) (i : 'I_1) : let T := interp_at nt times temps b t in
  pv_smooth E pn eta p T -> (0 < E p T)%Re -> SmoothR.smooth (1 + np) (join y p) (fun v => pm_rate b t (ct 1 v) (ct np (SmoothR.tail 1 v)) i 0).
Proof.
move=> T Sm E0; rewrite /pm_rate /pm_f; case: (Req_EM_T (control b) 1) => c1; last exact (@pv_rows_smooth np E pn eta nb nt times data temps b t y p i Sm).
have [s1 s2 s3 [_ [n1 ep]]] := Sm.
have L F : c1_at F p -> SmoothR.smooth np (SmoothR.tail 1 (join y p)) (fun q => F (ct np q)).
{ by move=> /c1_smooth; rewrite tail_join. }
pose cs := interp_at nt times data b t; pose csr := interp_at nt times (table_rates times data) b t.
apply: (SmoothR.smooth_ext _ _ (fun v => (csr / E (ct np (SmoothR.tail 1 v)) T + Flow.fl_rate (Flow.perfect (pn (ct np (SmoothR.tail 1 v))) (eta (ct np (SmoothR.tail 1 v)))) cs Slices.vzero R0 T R0)%Re)).
{ move=> v; by rewrite mxE. }
apply: (PVSmooth.pv_creep_smooth (fun q => E (ct np q)) (fun q => pn (ct np q)) (fun q => eta (ct np q)) np R0 T (join y p)); rewrite ?ct_tail //.
- exact: (L (fun p => E p T)).
- exact: (L (fun p => pn p T)).
- exact: (L (fun p => eta p T)).
Qed.
Lemma pm_jac_near (b : 'I_nb) (t : RF) (y : 'cV[RF]_1) (p : 'cV[RF]_np) : let T := interp_at nt times temps b t in
  pv_smooth E pn eta p T -> exists r, (0 < r)%Re /\ forall y' p', (dst y' y <= r)%Re -> (dst p' p <= r)%Re -> jacobian_at ((pm_rate b t)^~ p') (pm_jac b t y' p') y'.
Proof.
move=> T Sm; rewrite /pm_rate /pm_jac /pm_f /pm_J; case: (Req_EM_T (control b) 1) => c1; last exact (@pv_jac_near np E pn eta nb nt times data temps b t y p Sm).
exists 1%Re; split; first exact: Rlt_0_1. move=> y' p' _ _ Y th z _ _; rewrite mul0mx; exact: cdiff_cst.
Qed.
Lemma pm_step_regular k (b : 'I_nb) (y : 'cV[RF]_1) (p : 'cV[RF]_np) : (0 < k)%N -> (k < nt)%N -> good p ->
  (1%:M - (time_table nb times k b - time_table nb times k.-1 b) *: pm_jac b (time_table nb times k b) y p) \in unitmx.
Proof.
move=> k0 kn G; have [E0 [n1 e0]] := G k b kn (ltn_ord b); rewrite /pm_jac /pm_J; case: (Req_EM_T (control b) 1) => c1.
- by rewrite scaler0 subr0 unitmx1.
- apply: (pv_step_regular data Gr); rewrite //; apply: Rlt_le => //; apply: Rlt_trans n1; exact: Rlt_0_1.
Qed.
Lemma pm_history_rate p (y : nat -> VB RF nb 1) k (b : 'I_nb) : good p -> mixed_history (B := model p) nt times data temps control y ->
  (0 < k)%N -> (k < nt)%N -> (y k b ord0 ord0 - y k.-1 b ord0 ord0 = (times k b - times k.-1 b) * pm_rate b (times k b) (y k b) p ord0 ord0)%Re.
Proof.
move=> G [_ H] k0 kn; have := (proj1 (pm_residual (pn p) (eta p) data Cc Gr (good_E G) y b k0 kn)) (H k b k0 kn).
rewrite /step_res !ffunE => /(congr1 (fun v : 'cV[RF]_1 => v ord0 ord0)); rewrite !mxE => /eqP; rewrite subr_eq0 => /eqP; exact.
Qed.

Lemma pm_core mth n (p : R -> 'cV[RF]_np) q th dl (Y : R -> nat -> VB RF nb 1) GP :
  call_derivatives (fun p rows ts Y => (call p rows ts Y).1) GP ->
  (0 < n)%N -> (0 < dl)%Re ->
  (forall u, (Rabs (u - th) < dl)%Re -> good (p u)) ->
  (forall k b, (k < nt)%N -> (b < nb)%N -> pv_smooth E pn eta (p th) (temps k b)) ->
  cdiff p th q ->
  (forall u, (Rabs (u - th) < dl)%Re -> mixed_history (B := model (p u)) nt times data temps control (Y u)) ->
  every_step_active nt times temps control (E (p th)) (Y th) ->
  forall L og, loss_gradient nt L (Y th) og ->
  exists grad lam, rewindG (fun rows ts y => (call (p th) rows ts y).2) (GP (p th)) mth BackwardEuler n nt (time_table nb times) (Y th) og = Some (grad, lam) /\
    derivable_pt_lim (fun u => L (Y u)) th (\sum_(i < np) grad i 0 * q i 0).
Proof.
move=> autograd n0 dl0 Gd Sm Dp HY Act L og HL.
have [dp Hdp] := parameter_derivatives_exist pm_rate.
have th0 : (Rabs (th - th) < dl)%Re by rewrite (_ : (th - th = 0)%Re) ?Rabs_R0 //; ring.
have nt0 : (0 < nt)%N := ltnW nt2.
have IT k (b : 'I_nb) : (k < nt)%N -> interp_at nt times temps b (time_table nb times k b) = temps k b.
{ by move=> kn; rewrite ffunE (interp_knot temps nt2 (ltn_ord b) Gr kn). }
have G0 := Gd th th0.
have Ep k (b : 'I_nb) : (k < nt)%N -> (0 < E (p th) (temps k b))%Re by move=> kn; have [] := G0 k b kn (ltn_ord b).
have c1 k b : (k < nt)%N -> c1_near (pm_rate b (time_table nb times k b)) (pm_jac b (time_table nb times k b)) (dp b (time_table nb times k b)) (Y th k b) (p th).
{ move=> kn; have S1 : pv_smooth E pn eta (p th) (interp_at nt times temps b (time_table nb times k b)) by rewrite (IT k b kn); exact: (Sm k b kn (ltn_ord b)).
  apply: c1_of_rows => [i||].
  - apply: pm_rows_smooth S1 _; rewrite IT //; exact: Ep.
  - exact: pm_jac_near S1.
  - exact: Hdp. }
have sol u : (Rabs (u - th) < dl)%Re -> scheme_solution pm_rate BackwardEuler nt (time_table nb times) (p u) (Y u).
{ move=> ud k b k0 kn; have [_ H] := HY u ud; exact: (proj1 (pm_residual (pn (p u)) (eta (p u)) data Cc Gr (good_E (Gd u ud)) (Y u) b k0 kn) (H k b k0 kn)). }
have [|||grad [lam [Eq D]]] := @gradient_history nb 1 np nt pm_rate pm_jac dp (time_table nb times) (@zeroV RF nb 1) mth n p q th dl Y n0 nt0 dl0 Dp c1 _ _ _ L og HL.
- move=> u ud; split; last exact: sol. by have [Z _] := HY u ud.
- move=> u ud Y' Y0 HS k kn; apply: (@pm_unique (E (p u)) (pn (p u)) (eta (p u)) nb nt times data temps control Cc Gr (good_E (Gd u ud)) Y' (Y u) _ _ (HY u ud) k kn).
  + move=> j b jn bn; have [_ [P2 P3]] := Gd u ud j b jn bn; split; last exact: P3. apply: Rlt_trans P2; exact: Rlt_0_1.
  + split; first exact: Y0. move=> j b j0 jn; apply/(pm_residual (pn (p u)) (eta (p u)) data Cc Gr (good_E (Gd u ud)) Y' b j0 jn); exact: HS.
- move=> _ k b k0 kn; exact: pm_step_regular k0 kn G0.
exists grad, lam; split; last exact: D.
have par : partials_along pm_rate pm_jac dp nt (time_table nb times) (p th) (Y th).
{ move=> k b kn; exact: sdiff_partials (c1_sdiff (c1 k b kn)). }
rewrite (@rewindG_eq RF nb 1 np _ _ mth (at_p pm_jac (p th)) (at_p dp (p th))) //.
- move=> rows ts y; exact: (@both_jac_p (E (p th)) (pn (p th)) (eta (p th)) nb nt times data temps control Cc rows ts y).
move=> k j b k0 kn jl; cbv zeta.
set len := slice_len nt k (k + n) in jl *; set ts := fun j => flipn nt (time_table nb times) (k - 1 + j)%N; set yy := fun j => flipn nt (Y th) (k - 1 + j)%N.
pose kap i := (nt - 1 - (k - 1 + i))%N.
have lenE : (len <= nt - k)%N by rewrite /len /slice_len leq_sub2r // geq_minr.
have kap_lt i : (kap i < nt)%N by rewrite /kap; apply: leq_ltn_trans (leq_subr _ _) _; rewrite subn1 prednK.
have kap_pos i : (i < len)%N -> (0 < kap i)%N.
{ move=> il; rewrite /kap subn_gt0; have h : (i < nt - k)%N := leq_trans il lenE; move: h k0 kn; clear; move=> /ltP h /ltP a /ltP c; apply/ltP; rewrite -!minusE -!plusE in h *; lia. }
apply: autograd => c th' q' ceq Dc.
have at_knot i (b' : 'I_nb) : ts i b' = time_table nb times (kap i) b' by [].
have DE i (b' : 'I_nb) : exists l, derivable_pt_lim (fun u => E (c u) (interp_at nt times temps b' (ts i b'))) th' l.
{ rewrite at_knot IT //; have [[GG [[dd [dd0 HD]] _]] _ _ _] := Sm (kap i) b' (kap_lt i) (ltn_ord b'); eexists; apply: HD Dc; rewrite ceq dst0; exact: Rlt_le. }
have DR i (b' : 'I_nb) : cdiff (fun u => pm_rate b' (ts i b') (yy i b') (c u)) th' (dp b' (ts i b') (yy i b') (p th) *m q').
{ have := par (kap i) b' (kap_lt i) (fun _ => yy i b') c th' 0 q' erefl ceq; rewrite mulmx0 add0r; apply=> //; exact: cdiff_cst. }
have Near : near th' (fun u => forall j b, (j < len)%N -> (call (c u) len ts yy).1 j b = pm_rate b (ts j b) (yy j b) (c u)).
{ have N1 : near th' (fun u => forall (i : 'I_len) (b' : 'I_nb), (0 < E (c u) (interp_at nt times temps b' (ts i b')))%Re).
  { apply: near_all => i; apply: near_all => b'; have [l Dl] := DE i b'; apply: near_above Dl _; rewrite ceq at_knot IT //; exact: Ep. }
  have N2 : near th' (fun u => (forall b, (b < nb)%N -> control b = 0%Re) \/ call_active_p (E (c u)) (pn (c u)) (eta (c u)) nt times data temps control len ts yy).
  { case: Act => [C0|Act]; first by apply: near_true => u; left.
    have j0 : (0 < len)%N by exact: leq_ltn_trans jl.
    have [ba [ca act]] := Act (kap 0%N) (kap_pos 0%N j0) (kap_lt 0%N).
    have [l Dl] := DE 0%N ba; have Dr := DR 0%N ba ord0.
    have Dm := derivable_pt_lim_mult _ _ _ _ _ Dl Dr.
    apply: near_imp (near_abs_above Dm (a := (/ 10 ^ 10)%Re) _) => [u hu|]; first by right; exists 0%N, ba; split.
    have dt := dt_pos (ltn_ord ba) Gr (kap_pos 0%N j0) (kap_lt 0%N).
    rewrite /mult_fct ceq [X in E _ X](IT (kap 0%N) ba (kap_lt 0%N)).
    have hr := pm_history_rate ba G0 (HY th th0) (kap_pos 0%N j0) (kap_lt 0%N).
    rewrite hr in act.
    have -> : pm_rate ba (ts 0%N ba) (yy 0%N ba) (p th) ord0 0 = pm_rate ba (times (kap 0%N) ba) (Y th (kap 0%N) ba) (p th) ord0 ord0 by rewrite at_knot ffunE.
    have Fl (a e t x : R) : (0 < t)%Re -> (a * t < Rabs (e * (t * x)))%Re -> (a < Rabs (e * x))%Re.
    { move=> t0; have -> : (e * (t * x) = t * (e * x))%Re by ring. rewrite Rabs_mult (Rabs_pos_eq t) => [h|]; last lra. apply: (Rmult_lt_reg_l t) => //; lra. }
    exact: Fl dt act. }
  have := near_and N1 N2; apply: near_imp => u [h1 h2] i b' il.
  apply: (both_rate_p Cc) h2 _ _ il => k' b'' k'l; exact: (h1 (Ordinal k'l) b''). }
move=> i; apply: dpl_ext_loc (DR j b i); have [dd [dd0 Hd]] := Near; exists dd; split=> // u ud; by rewrite Hd.
Qed.
End Cal.

(** A run of solve_both at zero tolerance that reports no failure is the history, if the history strains some stress-controlled test faster than the inner tolerance in every step. *)
Lemma run_pm E pn eta nb nt (times data temps : nat -> nat -> R) (control : nat -> R) lm miter throw gt n init (st : istate RF nb 1) (Y : nat -> VB RF nb 1) :
  let B := Models.inelastic E (Flow.perfect pn eta) in
  controls nb control -> times_increase nb nt times -> (forall k b, (k < nt)%N -> (b < nb)%N -> (0 < E (temps k b))%Re) ->
  solve_both (B := B) nt times data temps control BackwardEuler lm R0 R0 miter throw gt n init = inl st -> i_warned st = [::] ->
  mixed_history (B := B) nt times data temps control Y -> every_step_active nt times temps control E Y ->
  mixed_history (B := B) nt times data temps control (i_result st).
Proof.
move=> B Cc Gr Ep So Wa HY Act; split.
{ apply/ffunP => b; apply/colP => i; rewrite ffunE [RHS]mxE -(tvE (i_result st 0%N b) i); exact: (run_zero So b (ltn_ord i)). }
move=> k b k0 kn; apply/(pm_residual pn eta data Cc Gr Ep (i_result st) b k0 kn).
have n2 : (1 < nt)%N := leq_ltn_trans k0 kn.
have [ts [Z [q [rows [j [Hr jr kE [Hts HZ] H]]]]]] := block_rows So Wa k0 kn.
have IT i (b' : 'I_nb) : (i < rows)%N -> interp_at nt times temps b' (ts i b') = temps (q + i)%N b' /\ (q + i < nt)%N.
{ move=> ir; have qi : (q + i < nt)%N by apply: leq_trans Hr; rewrite ltn_add2l.
  by rewrite Hts // ffunE (interp_knot temps n2 (ltn_ord b') Gr qi). }
have E0 i (b' : 'I_nb) : (i < rows)%N -> (0 < E (interp_at nt times temps b' (ts i b')))%Re.
{ move=> ir; have [-> qi] := IT i b' ir; exact: Ep qi (ltn_ord b'). }
have ex : forall i b, (i < rows)%N -> (both_G (B := B) nt times data temps control rows ts Z).1 i b = pm_f E pn eta nt times data temps control b (ts i b) (Z i b).
{ have alt := @both_rate_alt_p E pn eta nb nt times data temps control Cc rows ts Z E0; case: Act => [C0|Act].
  - move=> i b' ir; exact: (@both_rate_p E pn eta nb nt times data temps control Cc rows ts Z E0 (or_introl C0) i b' ir).
  - case: alt => // alt; exfalso; have [ba [ca act]] := Act k k0 kn; have [_ bd] := alt j ba jr ca.
    have [_ HS] := HY; have := (proj1 (pm_model (nb := nb) pn eta data Cc Gr Ep Y ba k0 kn)) (HS k ba k0 kn).
    have dt := dt_pos (ltn_ord ba) Gr k0 kn; have e0 := Ep k ba kn (ltn_ord ba).
    move: bd; rewrite /pm_step /pm_f; case: Req_EM_T => // c1; rewrite mxE Hts // -kE ffunE !(interp_knot (nb := nb)) // (rates_knot data (ltn_ord ba) Gr k0 kn) /step_rate => bd hy.
    rewrite hy in act.
    have Fl (a e t x f : R) : (0 < t)%Re -> (0 < e)%Re -> (Rabs (e * (x / t / e + f)) <= a)%Re -> (a * t < Rabs (e * (x / e + t * f)))%Re -> False.
    { move=> t0 ep h1; have -> : (e * (x / e + t * f) = t * (e * (x / t / e + f)))%Re by field; lra.
      rewrite Rabs_mult (Rabs_pos_eq t) => [h|]; last lra. nra. }
    exact: Fl dt e0 bd act. }
apply/colP => i; rewrite /step_res !ffunE mxE [RHS]mxE mxE.
have := H b i (ltn_ord i); rewrite ex // (@to_vecE B _ (i : 'I_(Models.rf_n B))) Hts // HZ // -kE ffunE /entry => Q.
have e (y : 'cV[RF]_1) : y i 0 = to_vec (B := B) y i by symmetry; exact: (@to_vecE B y (i : 'I_(Models.rf_n B))).
rewrite mxE [X in _ + X = _]mxE [X in _ - X = _]mxE (e (i_result st k b)) (e (i_result st k.-1 b)).
apply/eqP; rewrite subr_eq0; apply/eqP; exact: Q.
Qed.

(** C147: a mixed batch of perfectly viscoplastic tests has one history. *)
Theorem C147_exactly_one_history (E pn eta : R -> R) nb nt (times data temps : nat -> nat -> R) (control : nat -> R) :
  let B := Models.inelastic E (Flow.perfect pn eta) in
  controls nb control -> times_increase nb nt times ->
  (forall k b, (k < nt)%N -> (b < nb)%N -> (0 < E (temps k b) /\ 1 <= pn (temps k b) /\ 0 < eta (temps k b))%Re) ->
  exists y : nat -> VB RF nb 1, mixed_history (B := B) nt times data temps control y /\
    forall y' : nat -> VB RF nb 1, mixed_history (B := B) nt times data temps control y' -> forall k, (k < nt)%N -> y' k = y k.
Proof.
move=> B Cc Gr P; have Ep k b : (k < nt)%N -> (b < nb)%N -> (0 < E (temps k b))%Re by move=> kn bn; have [] := P k b kn bn.
have P1 k b : (k < nt)%N -> (b < nb)%N -> (1 <= pn (temps k b) /\ 0 < eta (temps k b))%Re by move=> kn bn; have [] := P k b kn bn.
have [y H] := pm_exists data Cc Gr Ep P1; exists y; split; first exact: H.
move=> y' H' k kn; apply: (pm_unique Cc Gr Ep _ H' H kn) => j b jn bn; have [P2 P3] := P1 j b jn bn; split; last exact: P3.
apply: Rlt_le_trans P2; exact: Rlt_0_1.
Qed.
Print Assumptions C147_exactly_one_history.

(** Every run of solve_both at zero tolerance that reports no failure returns it, if in every step of the history some stress-controlled test strains faster than the tolerance of
    the inner solve (or there is none). *)
Theorem C147_runs_return_it (E pn eta : R -> R) nb nt (times data temps : nat -> nat -> R) (control : nat -> R) lm miter throw gt n init (st : istate RF nb 1) (Y : nat -> VB RF nb 1) :
  let B := Models.inelastic E (Flow.perfect pn eta) in
  controls nb control -> times_increase nb nt times ->
  (forall k b, (k < nt)%N -> (b < nb)%N -> (0 < E (temps k b) /\ 0 < pn (temps k b) /\ 0 < eta (temps k b))%Re) ->
  solve_both (B := B) nt times data temps control BackwardEuler lm R0 R0 miter throw gt n init = inl st -> i_warned st = [::] ->
  mixed_history (B := B) nt times data temps control Y -> every_step_active nt times temps control E Y ->
  forall k, (k < nt)%N -> i_result st k = Y k.
Proof.
move=> B Cc Gr P So Wa HY Act k kn; have Ep j b : (j < nt)%N -> (b < nb)%N -> (0 < E (temps j b))%Re by move=> jn bn; have [] := P j b jn bn.
apply: (pm_unique Cc Gr Ep _ (run_pm Cc Gr Ep So Wa HY Act) HY kn) => j b jn bn; have [_ P2] := P j b jn bn; exact: P2.
Qed.
Print Assumptions C147_runs_return_it.

(** Creep tests: solve_stress always succeeds at zero tolerance and returns the history, for every linear solver, block size and initial iterate. *)
Theorem C147_creep_runs (E pn eta : R -> R) nb nt (times stresses temps : nat -> nat -> R) lm miter throw n init (Y : nat -> VB RF nb 1) :
  let B := Models.inelastic E (Flow.perfect pn eta) in
  times_increase nb nt times -> (0 < nt)%N -> (0 < n)%N -> (1 < miter)%N ->
  (forall k b, (k < nt)%N -> (b < nb)%N -> (0 < E (temps k b) /\ 0 < pn (temps k b) /\ 0 < eta (temps k b))%Re) ->
  stress_history (B := B) nt times stresses temps Y -> stress_steps_active nt times temps E Y ->
  exists st : istate RF nb 1, solve_stress (B := B) nt times stresses temps BackwardEuler lm R0 R0 miter throw "zero" n init = inl st /\ i_warned st = [::] /\
    forall k, (k < nt)%N -> i_result st k = Y k.
Proof.
move=> B Gr nt0 n0 m0 P HY Act.
have [st [So Wa]] := @C91_always_solved E (Flow.perfect pn eta) nb nt times stresses temps lm R0 R0 miter throw "zero" n init erefl (Rle_refl 0) n0 m0 nt0 (or_introl erefl).
exists st; split; first exact: So. split; first exact: Wa. rewrite -stress_solve in So.
apply: (C147_runs_return_it (ones_controls (nb := nb)) Gr P So Wa _ (stress_active Act)); exact/(stress_mixed (B := B)).
Qed.
Print Assumptions C147_creep_runs.

(** The gradient: modulus, rate sensitivity and reference stress are continuously differentiable functions of a calibrated vector, [p u] is a line of such vectors, [Y u] the history
    with the parameters [p u], [L] any loss of the histories with gradient [og].  The backward pass through solve_both, inner strain-rate solve included, returns the derivative. *)
Theorem C147_gradient_of_exact_simulations np (E pn eta : 'cV[RF]_np -> R -> R) nb nt (times data temps : nat -> nat -> R) (control : nat -> R)
    GP mth n (p : R -> 'cV[RF]_np) q th dl (Y : R -> nat -> VB RF nb 1) :
  let call := pv_calls E pn eta (nb := nb) nt times data temps control in
  call_derivatives (fun p rows ts Y => (call p rows ts Y).1) GP ->
  controls nb control -> times_increase nb nt times -> (1 < nt)%N -> (0 < n)%N -> (0 < dl)%Re ->
  (forall u k b, (Rabs (u - th) < dl)%Re -> (k < nt)%N -> (b < nb)%N -> (0 < E (p u) (temps k b) /\ 1 < pn (p u) (temps k b) /\ 0 < eta (p u) (temps k b))%Re) ->
  (forall k b, (k < nt)%N -> (b < nb)%N -> pv_smooth E pn eta (p th) (temps k b)) ->
  cdiff p th q ->
  (forall u, (Rabs (u - th) < dl)%Re -> mixed_history (B := Models.inelastic (E (p u)) (Flow.perfect (pn (p u)) (eta (p u)))) nt times data temps control (Y u)) ->
  every_step_active nt times temps control (E (p th)) (Y th) ->
  forall L og, loss_gradient nt L (Y th) og ->
  exists grad lam,
    rewindG (fun rows ts y => (call (p th) rows ts y).2) (GP (p th)) mth BackwardEuler n nt (time_table nb times) (Y th) og = Some (grad, lam) /\
    derivable_pt_lim (fun u => L (Y u)) th (\sum_(i < np) grad i 0 * q i 0).
Proof.
move=> call A Cc Gr nt2 n0 dl0 Gd Sm Dp HY Act L og HL.
exact: (pm_core Cc Gr nt2 mth A n0 dl0 (fun u ud k b kn bn => Gd u k b ud kn bn) Sm Dp HY Act HL).
Qed.
Print Assumptions C147_gradient_of_exact_simulations.

(** Creep calibration with what solve_stress returns: the simulations at the parameters [p u] succeed, and the backward pass run on the one at [th] returns the derivative of the
    loss of the simulations. *)
Theorem C147_creep_calibration np (E pn eta : 'cV[RF]_np -> R -> R) nb nt (times stresses temps : nat -> nat -> R)
    GP mth n (p : R -> 'cV[RF]_np) q th dl lm miter throw n' init (Y : R -> nat -> VB RF nb 1) :
  let call := pv_stress_calls E pn eta (nb := nb) nt times stresses temps in
  call_derivatives (fun p rows ts Y => (call p rows ts Y).1) GP ->
  times_increase nb nt times -> (1 < nt)%N -> (0 < n)%N -> (0 < dl)%Re ->
  (forall u k b, (Rabs (u - th) < dl)%Re -> (k < nt)%N -> (b < nb)%N -> (0 < E (p u) (temps k b) /\ 1 < pn (p u) (temps k b) /\ 0 < eta (p u) (temps k b))%Re) ->
  (forall k b, (k < nt)%N -> (b < nb)%N -> pv_smooth E pn eta (p th) (temps k b)) ->
  cdiff p th q ->
  (forall u, (Rabs (u - th) < dl)%Re ->
     stress_history (B := Models.inelastic (E (p u)) (Flow.perfect (pn (p u)) (eta (p u)))) nt times stresses temps (Y u) /\ stress_steps_active nt times temps (E (p u)) (Y u)) ->
  (forall u, (0 < n' u)%N /\ (1 < miter u)%N) ->
  exists st : R -> istate RF nb 1,
    (forall u, (Rabs (u - th) < dl)%Re ->
       solve_stress (B := Models.inelastic (E (p u)) (Flow.perfect (pn (p u)) (eta (p u)))) nt times stresses temps BackwardEuler (lm u) R0 R0 (miter u) (throw u) "zero" (n' u) (init u) = inl (st u) /\
       i_warned (st u) = [::]) /\
    forall L og, loss_gradient nt L (i_result (st th)) og ->
    exists grad lam,
      rewindG (fun rows ts y => (call (p th) rows ts y).2) (GP (p th)) mth BackwardEuler n nt (time_table nb times) (i_result (st th)) og = Some (grad, lam) /\
      derivable_pt_lim (fun u => L (i_result (st u))) th (\sum_(i < np) grad i 0 * q i 0).
Proof.
move=> call A Gr nt2 n0 dl0 Gd Sm Dp HY Pn.
have X u : exists st : istate RF nb 1, (Rabs (u - th) < dl)%Re ->
  solve_stress (B := Models.inelastic (E (p u)) (Flow.perfect (pn (p u)) (eta (p u)))) nt times stresses temps BackwardEuler (lm u) R0 R0 (miter u) (throw u) "zero" (n' u) (init u) = inl st /\
  i_warned st = [::] /\ forall k, (k < nt)%N -> i_result st k = Y u k.
{ have [n1 m1] := Pn u; case: (Rlt_dec (Rabs (u - th)) dl) => ud.
  - have [H1 H2] := HY u ud; have P k b : (k < nt)%N -> (b < nb)%N -> (0 < E (p u) (temps k b) /\ 0 < pn (p u) (temps k b) /\ 0 < eta (p u) (temps k b))%Re.
    { move=> kn bn; have [P1 [P2 P3]] := Gd u k b ud kn bn; split; first exact: P1. split; last exact: P3. apply: Rlt_trans P2; exact: Rlt_0_1. }
    have [st H] := C147_creep_runs (lm u) (throw u) (init u) Gr (ltnW nt2) n1 m1 P H1 H2; exists st => _; exact: H.
  - have [st _] := @C91_always_solved (E (p u)) (Flow.perfect (pn (p u)) (eta (p u))) nb nt times stresses temps (lm u) R0 R0 (miter u) (throw u) "zero" (n' u) (init u) erefl (Rle_refl 0) n1 m1 (ltnW nt2) (or_introl erefl).
    by exists st. }
pose st u := sval (ClassicalEpsilon.constructive_indefinite_description _ (X u)).
have HS u := svalP (ClassicalEpsilon.constructive_indefinite_description _ (X u)).
have th0 : (Rabs (th - th) < dl)%Re by rewrite (_ : (th - th = 0)%Re) ?Rabs_R0 //; ring.
exists st; split; first by move=> u ud; have [So [Wa _]] := HS u ud. move=> L og HL.
have cE : call = pv_calls E pn eta (nb := nb) nt times stresses temps ones.
{ apply: functional_extensionality => r; by rewrite /call /pv_stress_calls /pv_calls stress_G_both. }
rewrite cE in A *.
have Rn u : (Rabs (u - th) < dl)%Re -> mixed_history (B := Models.inelastic (E (p u)) (Flow.perfect (pn (p u)) (eta (p u)))) nt times stresses temps ones (i_result (st u)).
{ move=> ud; have [H1 H2] := HY u ud; have [So [Wa _]] := HS u ud; rewrite -/(st u) -stress_solve in So.
  apply: (run_pm (ones_controls (nb := nb)) Gr _ So Wa _ (stress_active H2)); last exact/(stress_mixed (B := Models.inelastic (E (p u)) (Flow.perfect (pn (p u)) (eta (p u))))).
  by move=> k b kn bn; have [] := Gd u k b ud kn bn. }
apply: (C147_gradient_of_exact_simulations mth A (ones_controls (nb := nb)) Gr nt2 n0 dl0 Gd Sm Dp (Y := fun u => i_result (st u)) Rn _ HL).
have [_ /stress_active H2] := HY th th0; have [_ [_ Eq]] := HS th th0.
case: H2 => [C0|H2]; [by left|right] => k k0 kn; have [b Hb] := H2 k k0 kn; exists b.
by rewrite /= -/(st th) in Eq *; rewrite (Eq k kn) (Eq k.-1 (leq_ltn_trans (leq_pred k) kn)).
Qed.
Print Assumptions C147_creep_calibration.

(** The hypotheses are met: two creep specimens loaded at a constant stress rate, the three material constants moved together through the value 2, any weights. *)
Definition ramp (k b : nat) : R := (10 * INR k)%Re.
Lemma ramp_active u (Y : nat -> VB RF 2 1) : (1 < u < 3)%Re ->
  stress_history (B := Models.inelastic (fun _ => u) (Flow.perfect (fun _ => u) (fun _ => u))) 4 ex_t ramp ex_temp Y -> stress_steps_active 4 ex_t ex_temp (fun _ => u) Y.
Proof.
move=> [u1 u3] /(stress_mixed (B := Models.inelastic (fun _ => u) (Flow.perfect (fun _ => u) (fun _ => u)))) [_ H] k k0 kn; exists (ord0 : 'I_2).
have u0 : (0 < u)%Re by exact: Rlt_trans Rlt_0_1 u1.
have Gr : times_increase 2 4 ex_t by move=> b _ i j ij _; apply: lt_INR.
have D1 : (INR k - INR k.-1 = 1)%Re by move: k0; clear; case: k => // k' _; rewrite S_INR /=; ring.
have := proj1 (@pm_model (fun _ => u) (fun _ => u) (fun _ => u) 2 4 ex_t ramp ex_temp ones (ones_controls (nb := 2)) Gr (fun _ _ _ _ => u0) Y k ord0 k0 kn) (H k ord0 k0 kn).
rewrite /pm_step; case: Req_EM_T => [c1|h]; last by case: h.
have F0 : (0 <= pvflow (fun _ => u) (fun _ => u) (ex_temp k (ord0 : 'I_2)) (ramp k (ord0 : 'I_2)))%Re.
{ rewrite /pvflow /= PipelineR.pv_rate_pos //; first by apply: Rlt_le; exact: exp_pos. rewrite /ramp; apply: Rmult_lt_0_compat; first lra. exact: lt_0_INR (ltP k0). }
move=> ->; move: F0; set f := pvflow _ _ _ _; rewrite /ex_t D1 /ramp => f0.
have -> : (10 * INR k - 10 * INR k.-1 = 10)%Re by rewrite -Rmult_minus_distr_l D1; ring.
have Fl (f' v : R) : (1 < v)%Re -> (0 <= f')%Re -> (/ 10 ^ 10 * 1 < Rabs (v * (10 / v + 1 * f')))%Re.
{ move=> v0 f1; have -> : (v * (10 / v + 1 * f') = 10 + v * f')%Re by field; lra. rewrite Rabs_pos_eq; nra. }
exact: Fl u1 f0.
Qed.
Example C147_ex og : exists (Y : R -> nat -> VB RF 2 1) GP (st : R -> istate RF 2 1) grad lam,
  (forall u, (Rabs (u - 2) < 1)%Re ->
     stress_history (B := Models.inelastic (fun _ => u) (Flow.perfect (fun _ => u) (fun _ => u))) 4 ex_t ramp ex_temp (Y u) /\
     solve_stress (B := Models.inelastic (fun _ => u) (Flow.perfect (fun _ => u) (fun _ => u))) 4 ex_t ramp ex_temp BackwardEuler (Direct Thomas) R0 R0 100 true "zero" 3 (fun _ => @zeroV RF 2 1) = inl (st u)) /\
  rewindG (fun rows ts y => (pv_stress_calls (pv_par (inord 0)) (pv_par (inord 1)) (pv_par (inord 2)) (nb := 2) 4 ex_t ramp ex_temp (pv_line 2%Re) rows ts y).2) (GP (pv_line 2%Re)) PCR BackwardEuler 2 4 (time_table 2 ex_t) (i_result (st 2%Re)) og = Some (grad, lam) /\
  derivable_pt_lim (fun u => loss 4 og (i_result (st u))) 2%Re (\sum_(i < 3) grad i 0).
Proof.
have Gr : times_increase 2 4 ex_t by move=> b _ i j ij _; apply: lt_INR.
have val u i : pv_line u i 0 = u by rewrite mxE.
have par i u : pv_par i (pv_line u) = (fun _ => u) by apply: functional_extensionality => T; rewrite /pv_par val.
have bound u : (Rabs (u - 2) < 1 -> 1 < u < 3)%Re by move=> /Rabs_def2; lra.
have HY u : exists Y : nat -> VB RF 2 1, (Rabs (u - 2) < 1)%Re -> stress_history (B := Models.inelastic (fun _ => u) (Flow.perfect (fun _ => u) (fun _ => u))) 4 ex_t ramp ex_temp Y.
{ case: (Rlt_dec (Rabs (u - 2)) 1) => ud; last by exists (fun _ => @zeroV RF 2 1).
  have [|Y [H _]] := @C147_exactly_one_history (fun _ => u) (fun _ => u) (fun _ => u) 2 4 ex_t ramp ex_temp ones (ones_controls (nb := 2)) Gr.
  - move=> k b _ _; have := bound u ud; lra.
  - exists Y => _; exact/(stress_mixed (B := Models.inelastic (fun _ => u) (Flow.perfect (fun _ => u) (fun _ => u)))). }
pose Y u := sval (ClassicalEpsilon.constructive_indefinite_description _ (HY u)).
have HYu u : (Rabs (u - 2) < 1)%Re -> stress_history (B := Models.inelastic (fun _ => u) (Flow.perfect (fun _ => u) (fun _ => u))) 4 ex_t ramp ex_temp (Y u) := svalP (ClassicalEpsilon.constructive_indefinite_description _ (HY u)).
have [GP HGP] := call_derivatives_exist (fun p rows ts Y => (pv_stress_calls (pv_par (inord 0)) (pv_par (inord 1)) (pv_par (inord 2)) (nb := 2) 4 ex_t ramp ex_temp p rows ts Y).1).
have Dp : cdiff pv_line 2%Re (pv_line 1%Re).
{ move=> i; rewrite mxE; apply: (@dpl_ext id) => [u|]; [by rewrite mxE|exact: derivable_pt_lim_id]. }
have Sm k b : (k < 4)%N -> (b < 2)%N -> pv_smooth (pv_par (inord 0)) (pv_par (inord 1)) (pv_par (inord 2)) (pv_line 2%Re) (ex_temp k b).
{ move=> _ _; split; try exact: c1_coord. rewrite !par; lra. }
have Pn (u : R) : (0 < 3)%N /\ (1 < 100)%N by [].
have [||st [Hst K]] := @C147_creep_calibration _ _ _ _ 2 4 ex_t ramp ex_temp GP PCR 2 pv_line _ 2%Re 1%Re (fun _ => Direct Thomas) (fun _ => 100%N) (fun _ => true) (fun _ => 3%N) (fun _ _ => @zeroV RF 2 1) Y HGP Gr (ltn0Sn 2 : (1 < 4)%N) (ltn0Sn 1) Rlt_0_1 _ Sm Dp _ Pn.
- move=> u k b ud _ _; rewrite !par; have := bound u ud; lra.
- move=> u ud; rewrite !par; split; first exact: HYu. apply: ramp_active (bound u ud) (HYu u ud).
have [grad [lam [Eq D]]] := K _ _ (weighted_sum og (y := i_result (st 2%Re))).
exists Y, GP, st, grad, lam; split.
{ move=> u ud; split; first exact: HYu. have [So _] := Hst u ud; move: So; rewrite !par; exact. }
split; first exact: Eq.
move: D; rewrite (eq_bigr (fun i => grad i 0)) // => i _; by rewrite mxE -[1%Re]/(1 : RF) mulr1.
Qed.
