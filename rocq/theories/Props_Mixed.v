(** C127: batches that mix strain- and stress-controlled tests (solve_both, what calibration runs): one history, and exact gradients. *)
From Coq Require Import Reals List String Lra Lia FunctionalExtensionality.
From mathcomp Require Import all_ssreflect all_algebra.
From Verif Require Import ChunkModel ChunkSolve ChunkInst NewtonModel Ode OdeForward OdeAdjoint OdeReal OdeBlock OdeDiff RField Gmres Implicit Pipeline PipelineBoth SmoothMx VCGrad MixedVC AdjointBlock MixedGrad.
From Verif Require Interp Models Flow Hardening Deriv Slices VCStep VCHistory VCStress Props_FullModel VCExact Props_Stress Props_Gradient.
Import GRing.Theory.
Set Implicit Arguments. Unset Strict Implicit. Unset Printing Implicit Defensive.
Local Open Scope ring_scope.
Delimit Scope R_scope with Re.
Import Props_FullModel VCExact Props_Stress Props_Gradient.

(** [GP p rows ts Y k b] is the derivative, with respect to the parameters, of row k, test b of the call of the model with these arguments, wherever
    that derivative exists (what autograd computes in the backward pass, through the inner solve). *)
Definition call_derivatives nb m np (G : 'cV[RF]_np -> nat -> (nat -> TB RF nb) -> (nat -> VB RF nb m) -> nat -> VB RF nb m)
    (GP : 'cV[RF]_np -> nat -> (nat -> TB RF nb) -> (nat -> VB RF nb m) -> nat -> 'I_nb -> 'M[RF]_(m, np)) : Prop :=
  forall p rows ts Y k b M, (forall c th q, c th = p -> cdiff c th q -> cdiff (fun u => G (c u) rows ts Y k b) th (M *m q)) -> GP p rows ts Y k b = M.
(** The calls of BothBasedModel (models.py 451-475, inner solve included) made by solve_both and by its backward pass, as functions of the calibrated vector. *)
Definition calls np nback (E pn eta s0 Rs d : 'cV[RF]_np -> R -> R) (C g : 'cV[RF]_np -> R -> nat -> R) nb nt (times data temps : nat -> nat -> R) (control : nat -> R) (p : 'cV[RF]_np) :
    nat -> (nat -> TB RF nb) -> (nat -> VB RF nb nback.+2) -> (nat -> VB RF nb nback.+2) * (nat -> MB RF nb nback.+2) :=
  both_G (B := family nback E pn eta s0 Rs d C g p) (nb := nb) nt times data temps control.
(** In every step some stress-controlled test strains faster than the tolerance of the inner solve (measured in stress), unless there is no such test. *)
Definition every_step_active nb m (nt : nat) (times temps : nat -> nat -> R) (control : nat -> R) (E : R -> R) (y : nat -> VB RF nb m.+1) : Prop :=
  (forall b, (b < nb)%N -> control b = 0%Re) \/
  forall k, (0 < k)%N -> (k < nt)%N -> exists b : 'I_nb, control b = 1%Re /\
    (/ 10 ^ 10 * (times k b - times k.-1 b) < Rabs (E (temps k b) * (y k b ord0 ord0 - y k.-1 b ord0 ord0)))%Re.
(** In every step the strain of some stress-controlled test changes, unless there is no such test. *)
Definition every_step_strains nb m (nt : nat) (control : nat -> R) (y : nat -> VB RF nb m.+1) : Prop :=
  (forall b, (b < nb)%N -> control b = 0%Re) \/
  forall k, (0 < k)%N -> (k < nt)%N -> exists b : 'I_nb, control b = 1%Re /\ y k b ord0 ord0 <> y k.-1 b ord0 ord0.

Lemma near_above f x l a : derivable_pt_lim f x l -> (a < f x)%Re -> near x (fun u => (a < f u)%Re).
Proof.
move=> /dpl_near H af; pose e := ((f x - a) / 2)%Re; have e0 : (0 < e)%Re by rewrite /e; lra.
have N1 := H 1%Re Rlt_0_1; pose r := (e / (Rabs l + 1))%Re; have la := Rabs_pos l.
have r0 : (0 < r)%Re by apply: Rdiv_lt_0_compat; lra.
have N2 : near x (fun u => (Rabs (u - x) < r)%Re) by exists r.
have := near_and N1 N2; apply: near_imp => u [h1 h2].
have h3 : ((Rabs l + 1) * Rabs (u - x) <= e)%Re.
{ apply: Rle_trans (_ : ((Rabs l + 1) * r <= _)%Re); first by apply: Rmult_le_compat_l; lra. rewrite /r; right; field; lra. }
have h4 : (Rabs (l * (u - x)) = Rabs l * Rabs (u - x))%Re by exact: Rabs_mult.
have := Rle_abs (- (f u - f x - l * (u - x))); rewrite Rabs_Ropp; have := Rle_abs (- (l * (u - x))); rewrite Rabs_Ropp h4; rewrite /e in h3; lra.
Qed.
Lemma near_abs_above f x l a : derivable_pt_lim f x l -> (a < Rabs (f x))%Re -> near x (fun u => (a < Rabs (f u))%Re).
Proof.
move=> D; case: (Rcase_abs (f x)) => s; [rewrite (Rabs_left _ s)|rewrite (Rabs_right _ s)] => af.
- have := near_above (derivable_pt_lim_opp f x l D) af; apply: near_imp => u h; apply: Rlt_le_trans h _; rewrite /opp_fct -Rabs_Ropp; exact: Rle_abs.
- have := near_above D af; apply: near_imp => u h; apply: Rlt_le_trans h _; exact: Rle_abs.
Qed.

Section Cal.
Variables (np nback : nat) (E pn eta s0 Rs d : 'cV[RF]_np -> R -> R) (C g : 'cV[RF]_np -> R -> nat -> R).
Variables (nb nt : nat) (times data temps : nat -> nat -> R) (control : nat -> R).
Let model p := family nback E pn eta s0 Rs d C g p.
Let rate := rate_m E pn eta s0 Rs d C g (nback := nback) (nb := nb) nt times data temps control.
Let jac := jac_m E pn eta s0 Rs d C g (nback := nback) (nb := nb) nt times data temps control.
Let good p b := good_entry (E p) (pn p) (eta p) (s0 p) (Rs p) (d p) nback (C p) (g p) nt temps b.
Let call (p : 'cV[RF]_np) : nat -> (nat -> TB RF nb) -> (nat -> VB RF nb nback.+2) -> (nat -> VB RF nb nback.+2) * (nat -> MB RF nb nback.+2) :=
  both_G (B := model p) (nb := nb) nt times data temps control.
Hypothesis Cc : controls nb control.
Hypothesis Gr : times_increase nb nt times.
Hypothesis nt2 : (1 < nt)%N.

Lemma history_rate p (y : nat -> VB RF nb nback.+2) k (b : 'I_nb) : (forall b, (b < nb)%N -> good p b) -> mixed_history (B := model p) nt times data temps control y ->
  (0 < k)%N -> (k < nt)%N -> (y k b ord0 ord0 - y k.-1 b ord0 ord0 = (times k b - times k.-1 b) * rate b (times k b) (y k b) p ord0 ord0)%Re.
Proof.
move=> Gd [_ H] k0 kn; have := (proj1 (mixed_residual (nb := nb) data Gr Gd Cc y b k0 kn)) (H k b k0 kn).
rewrite /step_res !ffunE => /(congr1 (fun v : 'cV[RF]_nback.+2 => v ord0 ord0)); rewrite !mxE => /eqP; rewrite subr_eq0 => /eqP; exact.
Qed.

Lemma mixed_core mth n (p : R -> 'cV[RF]_np) q th dl (Y : R -> nat -> VB RF nb nback.+2) GP :
  call_derivatives (fun p rows ts Y => (call p rows ts Y).1) GP ->
  (0 < n)%N -> (0 < dl)%Re ->
  (forall u b, (Rabs (u - th) < dl)%Re -> (b < nb)%N -> good (p u) b) ->
  (forall k b, (k < nt)%N -> (b < nb)%N -> smooth_material nback E pn eta s0 Rs d C g (p th) (temps k b)) ->
  cdiff p th q ->
  (forall u, (Rabs (u - th) < dl)%Re -> mixed_history (B := model (p u)) nt times data temps control (Y u)) ->
  every_step_active nt times temps control (E (p th)) (Y th) ->
  forall L og, loss_gradient nt L (Y th) og ->
  exists grad lam, rewindG (fun rows ts y => (call (p th) rows ts y).2) (GP (p th)) mth BackwardEuler n nt (time_table nb times) (Y th) og = Some (grad, lam) /\
    derivable_pt_lim (fun u => L (Y u)) th (\sum_(i < np) grad i 0 * q i 0).
Proof.
move=> autograd n0 dl0 Gd Sm Dp HY Act L og HL.
have [dp Hdp] := parameter_derivatives_exist rate.
have th0 : (Rabs (th - th) < dl)%Re by rewrite (_ : (th - th = 0)%Re) ?Rabs_R0 //; ring.
have nt0 : (0 < nt)%N := ltnW nt2.
have IT k (b : 'I_nb) : (k < nt)%N -> interp_at nt times temps b (time_table nb times k b) = temps k b.
{ by move=> kn; rewrite ffunE (interp_knot temps nt2 (ltn_ord b) Gr kn). }
have Rg : forall k (b : 'I_nb), (k < nt)%N -> VCHistory.in_range (Rs (p th)) nback (C (p th)) (g (p th)) (temps k b) (fun i => tv (Y th k b) i.+1).
{ move=> k b kn; exact: (mixed_range (nb := nb) Gr (fun b => Gd th b th0) Cc (HY th th0) b kn). }
have Ep k (b : 'I_nb) : (k < nt)%N -> (0 < E (p th) (temps k b))%Re by move=> kn; have [/(_ k kn) []] := Gd th b th0 (ltn_ord b).
have c1 k b : (k < nt)%N -> c1_near (rate b (time_table nb times k b)) (jac b (time_table nb times k b)) (dp b (time_table nb times k b)) (Y th k b) (p th).
{ move=> kn; have [[/(_ k kn) [_ [_ [ep _]]] _] [[yp _] _]] := (Gd th b th0 (ltn_ord b), Rg k b kn).
  have S1 := Sm k b kn (ltn_ord b); have E1 := Ep k b kn.
  have yp' : (0 <= Y th k b (inord 1) ord0)%Re by rewrite -(tvE (Y th k b) (inord 1)) inordK.
  apply: c1_of_rows => [i||].
  - apply: rows_smooth_m; rewrite ?IT //.
  - apply: jac_near_m; rewrite ?IT //.
  - exact: Hdp. }
have sol u : (Rabs (u - th) < dl)%Re -> scheme_solution rate BackwardEuler nt (time_table nb times) (p u) (Y u).
{ move=> ud k b k0 kn; have [_ H] := HY u ud; exact: (proj1 (mixed_residual (nb := nb) data Gr (fun b => Gd u b ud) Cc (Y u) b k0 kn) (H k b k0 kn)). }
have reg : steps_regular jac BackwardEuler nt (time_table nb times) (p th) (Y th).
{ move=> _ k b k0 kn; have [/(_ k kn) [/Rlt_le E0 A] _] := Gd th b th0 (ltn_ord b).
  exact: (step_regular_m data control Gr k0 kn E0 A (Rg k b kn)). }
have sd k b : (0 < k)%N -> (k < nt)%N -> sdiff (rate b (time_table nb times k b)) (jac b (time_table nb times k b) (Y th k b) (p th)) (dp b (time_table nb times k b) (Y th k b) (p th)) (Y th k b) (p th).
{ move=> _ kn; exact: c1_sdiff (c1 k b kn). }
have Z0 : @zeroV RF nb nback.+2 = Y th 0%N by have [-> _] := HY th th0.
have D0 b : cdiff (fun _ : R => @zeroV RF nb nback.+2 b) th (@zeroV RF nb nback.+2 b) by rewrite {2}/zeroV ffunE; exact: cdiff_cst.
have [Y' [z [r [[r0 Yth z00 Dz] [d1 [d10 H]]]]]] := solution_map nt0 (sol th th0) Z0 Dp D0 sd reg.
have same u : (Rabs (u - th) < Rmin dl d1)%Re -> forall k, (k < nt)%N -> Y' u k = Y u k.
{ move=> ud; have ul := Rlt_le_trans _ _ _ ud (Rmin_l _ _); have ur := Rlt_le_trans _ _ _ ud (Rmin_r _ _).
  have [Y0 S' _] := H u ur.
  apply: (mixed_unique (nb := nb) Gr (fun b => Gd u b ul) Cc (data := data)); last exact: HY.
  split=> // k b k0 kn; apply/(mixed_residual (nb := nb) data Gr (fun b => Gd u b ul) Cc (Y' u) b k0 kn); exact: S'. }
have m0 : (0 < Rmin dl d1)%Re by exact: Rmin_glb_lt.
have Dz' k b : (k < nt)%N -> cdiff (fun u => Y u k b) th (z k b).
{ move=> kn i; apply: dpl_ext_loc (Dz k b kn i); exists (Rmin dl d1); split=> // u ud; by rewrite (same u ud k kn). }
have par : partials_along rate jac dp nt (time_table nb times) (p th) (Y th).
{ move=> k b kn; exact: sdiff_partials (c1_sdiff (c1 k b kn)). }
have sol' : exists d, Rlt 0 d /\ forall u, Rlt (Rabs (u - th)) d -> scheme_solution rate BackwardEuler nt (time_table nb times) (p u) (Y u).
{ by exists dl. }
have [grad [lam [Eq D]]] := adjoint_derivative mth og n0 nt0 sol' Dz' Dp par reg.
exists grad, lam; split; last first.
{ have A := HL Y th z erefl Dz'; have B := weighted_sum og (erefl (Y th)) Dz'.
  move: A; rewrite (uniqueness_limite _ _ _ _ B D) z00.
  have -> : \sum_b \sum_(c < nback.+2) lam b c 0 * @zeroV RF nb nback.+2 b c 0 = 0.
  { rewrite big1 // => b _; rewrite big1 // => c _; by rewrite ffunE mxE mulr0. }
  by rewrite addr0. }
rewrite (@rewindG_eq RF nb nback.+2 np _ _ mth (at_p jac (p th)) (at_p dp (p th))) //.
- move=> rows ts y; exact: (@both_jac (E (p th)) (pn (p th)) (eta (p th)) (s0 (p th)) (Rs (p th)) (d (p th)) nback (C (p th)) (g (p th)) nb nt times data temps control Cc rows ts y).
move=> k j b k0 kn jl; cbv zeta.
set len := slice_len nt k (k + n) in jl *; set ts := fun j => flipn nt (time_table nb times) (k - 1 + j)%N; set yy := fun j => flipn nt (Y th) (k - 1 + j)%N.
pose kap i := (nt - 1 - (k - 1 + i))%N.
have lenE : (len <= nt - k)%N by rewrite /len /slice_len leq_sub2r // geq_minr.
have kap_lt i : (kap i < nt)%N by rewrite /kap; apply: leq_ltn_trans (leq_subr _ _) _; rewrite subn1 prednK.
have kap_pos i : (i < len)%N -> (0 < kap i)%N.
{ move=> il; rewrite /kap subn_gt0; have h : (i < nt - k)%N := leq_trans il lenE; move: h k0 kn; clear; move=> /ltP h /ltP a /ltP c; apply/ltP; rewrite -!minusE -!plusE in h *; lia. }
apply: autograd => c th' q' ceq Dc.
have at_knot i (b' : 'I_nb) : ts i b' = time_table nb times (kap i) b' by [].
have DE i (b' : 'I_nb) : exists l, derivable_pt_lim (fun u => E (c u) (interp_at nt times temps b' (ts i b'))) th' l.
{ rewrite at_knot IT //; have [[[GG [[dd [dd0 HD]] _]] _ _ _] _] := Sm (kap i) b' (kap_lt i) (ltn_ord b'); eexists; apply: HD Dc; rewrite ceq dst0; exact: Rlt_le. }
have DR i (b' : 'I_nb) : cdiff (fun u => rate b' (ts i b') (yy i b') (c u)) th' (dp b' (ts i b') (yy i b') (p th) *m q').
{ have := par (kap i) b' (kap_lt i) (fun _ => yy i b') c th' 0 q' erefl ceq; rewrite mulmx0 add0r; apply=> //; exact: cdiff_cst. }
have Near : near th' (fun u => forall j b, (j < len)%N -> (call (c u) len ts yy).1 j b = rate b (ts j b) (yy j b) (c u)).
{ have N1 : near th' (fun u => forall (i : 'I_len) (b' : 'I_nb), (0 < E (c u) (interp_at nt times temps b' (ts i b')))%Re).
  { apply: near_all => i; apply: near_all => b'; have [l Dl] := DE i b'; apply: near_above Dl _; rewrite ceq at_knot IT //; exact: Ep. }
  have N2 : near th' (fun u => (forall b, (b < nb)%N -> control b = 0%Re) \/ call_active (E (c u)) (pn (c u)) (eta (c u)) (s0 (c u)) (Rs (c u)) (d (c u)) (C (c u)) (g (c u)) nt times data temps control len ts yy).
  { case: Act => [C0|Act]; first by apply: near_true => u; left.
    have j0 : (0 < len)%N by exact: leq_ltn_trans jl.
    have [ba [ca act]] := Act (kap 0%N) (kap_pos 0%N j0) (kap_lt 0%N).
    have [l Dl] := DE 0%N ba; have Dr := DR 0%N ba ord0.
    have Dm := derivable_pt_lim_mult _ _ _ _ _ Dl Dr.
    apply: near_imp (near_abs_above Dm (a := (/ 10 ^ 10)%Re) _) => [u hu|]; first by right; exists 0%N, ba; split.
    have dt := dt_pos (ltn_ord ba) Gr (kap_pos 0%N j0) (kap_lt 0%N).
    rewrite /mult_fct ceq [X in E _ X](IT (kap 0%N) ba (kap_lt 0%N)).
    have hr := history_rate ba (fun b => Gd th b th0) (HY th th0) (kap_pos 0%N j0) (kap_lt 0%N).
    rewrite hr in act.
    have -> : rate ba (ts 0%N ba) (yy 0%N ba) (p th) ord0 0 = rate ba (times (kap 0%N) ba) (Y th (kap 0%N) ba) (p th) ord0 ord0 by rewrite at_knot ffunE.
    have Fl (a e t x : R) : (0 < t)%Re -> (a * t < Rabs (e * (t * x)))%Re -> (a < Rabs (e * x))%Re.
    { move=> t0; have -> : (e * (t * x) = t * (e * x))%Re by ring. rewrite Rabs_mult (Rabs_pos_eq t) => [h|]; last lra. apply: (Rmult_lt_reg_l t) => //; lra. }
    exact: Fl dt act. }
  have := near_and N1 N2; apply: near_imp => u [h1 h2] i b' il.
  apply: (both_rate Cc) h2 _ _ il => k' b'' k'l; exact: (h1 (Ordinal k'l) b''). }
move=> i; apply: dpl_ext_loc (DR j b i); have [dd [dd0 Hd]] := Near; exists dd; split=> // u ud; by rewrite Hd.
Qed.
End Cal.

(** A run of solve_both at zero tolerance that reports no failure is the history, if its strains move. *)
Lemma run_mixed E pn eta s0 Rs d nback C g nb nt (times data temps : nat -> nat -> R) (control : nat -> R) lm miter throw gt n init (st : istate RF nb nback.+2) :
  let B := voce_chaboche E pn eta s0 Rs d nback C g in
  controls nb control -> times_increase nb nt times ->
  (forall b, (b < nb)%N -> good_entry E pn eta s0 Rs d nback C g nt temps b) ->
  solve_both (B := B) nt times data temps control BackwardEuler lm R0 R0 miter throw gt n init = inl st -> i_warned st = [::] ->
  every_step_strains nt control (i_result st) ->
  mixed_history (B := B) nt times data temps control (i_result st).
Proof.
move=> B Cc Gr Gd So Wa Act; split.
{ apply/ffunP => b; apply/colP => i; rewrite ffunE [RHS]mxE -(tvE (i_result st 0%N b) i); exact: (run_zero So b (ltn_ord i)). }
move=> k b k0 kn; apply/(mixed_residual (nb := nb) data Gr Gd Cc (i_result st) b k0 kn).
have n2 : (1 < nt)%N := leq_ltn_trans k0 kn.
have [ts [Y [q [rows [j [Hr jr kE [Hts HY] H]]]]]] := block_rows So Wa k0 kn.
have IT i (b' : 'I_nb) : (i < rows)%N -> interp_at nt times temps b' (ts i b') = temps (q + i)%N b' /\ (q + i < nt)%N.
{ move=> ir; have qi : (q + i < nt)%N by apply: leq_trans Hr; rewrite ltn_add2l.
  by rewrite Hts // ffunE (interp_knot temps n2 (ltn_ord b') Gr qi). }
have E0 i (b' : 'I_nb) : (i < rows)%N -> (0 < E (interp_at nt times temps b' (ts i b')))%Re.
{ move=> ir; have [-> qi] := IT i b' ir; by have [/(_ _ qi) []] := Gd b' (ltn_ord b'). }
have ex : forall i b, (i < rows)%N -> (both_G (B := B) nt times data temps control rows ts Y).1 i b = mixed_f E pn eta s0 Rs d (nback := nback) C g nt times data temps control b (ts i b) (Y i b).
{ have alt := @both_rate_alt E pn eta s0 Rs d nback C g nb nt times data temps control Cc rows ts Y E0; case: Act => [C0|Act].
  - move=> i b' ir; exact: (@both_rate E pn eta s0 Rs d nback C g nb nt times data temps control Cc rows ts Y E0 (or_introl C0) i b' ir).
  - case: alt => // alt; exfalso; have [ba [ca na]] := Act k k0 kn; have [z _] := alt j ba jr ca.
    have := H ba 0%N (ltn0Sn _); rewrite (@to_vecE B _ (ord0 : 'I_(Models.rf_n B))) /B z Rmult_0_r => Q; apply: na.
    apply: Rminus_diag_uniq; have e0 (y : 'cV[RF]_nback.+2) : to_vec (B := B) y 0%N = y ord0 ord0 by exact: (@to_vecE B y (ord0 : 'I_(Models.rf_n B))).
    by rewrite -!e0. }
apply/colP => i; rewrite /step_res !ffunE mxE [RHS]mxE mxE.
have := H b i (ltn_ord i); rewrite ex // (@to_vecE B _ (i : 'I_(Models.rf_n B))) Hts // HY // -kE ffunE /entry => Q.
have e (y : 'cV[RF]_nback.+2) : y i 0 = to_vec (B := B) y i by symmetry; exact: (@to_vecE B y (i : 'I_(Models.rf_n B))).
rewrite mxE [X in _ + X = _]mxE [X in _ - X = _]mxE (e (i_result st k b)) (e (i_result st k.-1 b)).
apply/eqP; rewrite subr_eq0; apply/eqP; exact: Q.
Qed.

(** C127: the loading of a mixed batch (each test strain or stress controlled) determines its backward Euler history: there is one, and only one. *)
Theorem C127_exactly_one_history E pn eta s0 Rs d nback C g nb nt (times data temps : nat -> nat -> R) (control : nat -> R) :
  controls nb control -> times_increase nb nt times ->
  (forall b, (b < nb)%N -> good_entry E pn eta s0 Rs d nback C g nt temps b) ->
  exists y : nat -> VB RF nb nback.+2, mixed_history (B := voce_chaboche E pn eta s0 Rs d nback C g) nt times data temps control y /\
    forall y' : nat -> VB RF nb nback.+2, mixed_history (B := voce_chaboche E pn eta s0 Rs d nback C g) nt times data temps control y' -> forall k, (k < nt)%N -> y' k = y k.
Proof.
move=> Cc Gr Gd; have [y H] := mixed_exists data Gr Gd Cc; exists y; split=> // y' H' k kn; exact: (mixed_unique Gr Gd Cc H' H kn).
Qed.
Print Assumptions C127_exactly_one_history.

(** What solve_both returns at zero tolerance without warnings is that history, as long as the strain of some stress-controlled test moves in every step. *)
Theorem C127_runs_return_it E pn eta s0 Rs d nback C g nb nt (times data temps : nat -> nat -> R) (control : nat -> R) lm miter throw gt n init (st : istate RF nb nback.+2)
    (y : nat -> VB RF nb nback.+2) :
  controls nb control -> times_increase nb nt times ->
  (forall b, (b < nb)%N -> good_entry E pn eta s0 Rs d nback C g nt temps b) ->
  solve_both (B := voce_chaboche E pn eta s0 Rs d nback C g) nt times data temps control BackwardEuler lm R0 R0 miter throw gt n init = inl st -> i_warned st = [::] ->
  every_step_strains nt control (i_result st) ->
  mixed_history (B := voce_chaboche E pn eta s0 Rs d nback C g) nt times data temps control y ->
  forall k, (k < nt)%N -> i_result st k = y k.
Proof. move=> Cc Gr Gd So Wa Act H k kn; exact: (mixed_unique Gr Gd Cc (run_mixed Cc Gr Gd So Wa Act) H kn). Qed.
Print Assumptions C127_runs_return_it.

(** The gradient.  Material parameters are continuously differentiable functions of a calibrated vector; [p u] is a line of such vectors through [p th] with
    direction [q]; [Y u] the exact history of the mixed batch with the parameters [p u]; [L] any loss of the histories with gradient [og].  The backward
    pass run on [Y th], which calls the model (inner solve included) block by block for its Jacobians and their parameter derivatives, returns the
    derivative of the loss along the line, as long as in every step some stress-controlled test strains faster than the inner tolerance. *)
Theorem C127_gradient_of_exact_simulations np nback (E pn eta s0 Rs d : 'cV[RF]_np -> R -> R) (C g : 'cV[RF]_np -> R -> nat -> R)
    nb nt (times data temps : nat -> nat -> R) (control : nat -> R) GP mth n (p : R -> 'cV[RF]_np) q th dl (Y : R -> nat -> VB RF nb nback.+2) :
  let call := calls (nback := nback) E pn eta s0 Rs d C g (nb := nb) nt times data temps control in
  call_derivatives (fun p rows ts Y => (call p rows ts Y).1) GP ->
  controls nb control -> times_increase nb nt times -> (1 < nt)%N -> (0 < n)%N -> (0 < dl)%Re ->
  (forall u b, (Rabs (u - th) < dl)%Re -> (b < nb)%N -> good_entry (E (p u)) (pn (p u)) (eta (p u)) (s0 (p u)) (Rs (p u)) (d (p u)) nback (C (p u)) (g (p u)) nt temps b) ->
  (forall k b, (k < nt)%N -> (b < nb)%N -> smooth_material nback E pn eta s0 Rs d C g (p th) (temps k b)) ->
  cdiff p th q ->
  (forall u, (Rabs (u - th) < dl)%Re -> mixed_history (B := family nback E pn eta s0 Rs d C g (p u)) nt times data temps control (Y u)) ->
  every_step_active nt times temps control (E (p th)) (Y th) ->
  forall L og, loss_gradient nt L (Y th) og ->
  exists grad lam,
    rewindG (fun rows ts y => (call (p th) rows ts y).2) (GP (p th)) mth BackwardEuler n nt (time_table nb times) (Y th) og = Some (grad, lam) /\
    derivable_pt_lim (fun u => L (Y u)) th (\sum_(i < np) grad i 0 * q i 0).
Proof. move=> call A Cc Gr nt2 n0 dl0 Gd Sm Dp HY Act L og HL; exact: (mixed_core Cc Gr nt2 mth A n0 dl0 Gd Sm Dp HY Act HL). Qed.
Print Assumptions C127_gradient_of_exact_simulations.

(** The same for what solve_both returns. *)
Theorem C127_gradient_of_runs np nback (E pn eta s0 Rs d : 'cV[RF]_np -> R -> R) (C g : 'cV[RF]_np -> R -> nat -> R)
    nb nt (times data temps : nat -> nat -> R) (control : nat -> R) GP mth n (p : R -> 'cV[RF]_np) q th dl lm miter throw gt n' init (st : R -> istate RF nb nback.+2) :
  let call := calls (nback := nback) E pn eta s0 Rs d C g (nb := nb) nt times data temps control in
  call_derivatives (fun p rows ts Y => (call p rows ts Y).1) GP ->
  controls nb control -> times_increase nb nt times -> (1 < nt)%N -> (0 < n)%N -> (0 < dl)%Re ->
  (forall u b, (Rabs (u - th) < dl)%Re -> (b < nb)%N -> good_entry (E (p u)) (pn (p u)) (eta (p u)) (s0 (p u)) (Rs (p u)) (d (p u)) nback (C (p u)) (g (p u)) nt temps b) ->
  (forall k b, (k < nt)%N -> (b < nb)%N -> smooth_material nback E pn eta s0 Rs d C g (p th) (temps k b)) ->
  cdiff p th q ->
  (forall u, (Rabs (u - th) < dl)%Re ->
     solve_both (B := family nback E pn eta s0 Rs d C g (p u)) nt times data temps control BackwardEuler (lm u) R0 R0 (miter u) (throw u) (gt u) (n' u) (init u) = inl (st u) /\
     i_warned (st u) = [::] /\ every_step_strains nt control (i_result (st u))) ->
  every_step_active nt times temps control (E (p th)) (i_result (st th)) ->
  forall L og, loss_gradient nt L (i_result (st th)) og ->
  exists grad lam,
    rewindG (fun rows ts y => (call (p th) rows ts y).2) (GP (p th)) mth BackwardEuler n nt (time_table nb times) (i_result (st th)) og = Some (grad, lam) /\
    derivable_pt_lim (fun u => L (i_result (st u))) th (\sum_(i < np) grad i 0 * q i 0).
Proof.
move=> call A Cc Gr nt2 n0 dl0 Gd Sm Dp HY Act L og HL; apply: (mixed_core Cc Gr nt2 mth A n0 dl0 Gd Sm Dp (Y := fun u => i_result (st u)) _ Act HL) => u ud.
have [So [Wa St]] := HY u ud; exact: (run_mixed Cc Gr (fun b => Gd u b ud) So Wa St).
Qed.
Print Assumptions C127_gradient_of_runs.

(** ** The hypotheses are met *)
Lemma call_derivatives_exist nb m np (G : 'cV[RF]_np -> nat -> (nat -> TB RF nb) -> (nat -> VB RF nb m) -> nat -> VB RF nb m) : exists GP, call_derivatives G GP.
Proof.
pose Q p rows ts Y k b (M : 'M[RF]_(m, np)) := forall c th q, c th = p -> cdiff c th q -> cdiff (fun u => G (c u) rows ts Y k b) th (M *m q).
exists (fun p rows ts Y k b => ClassicalEpsilon.epsilon (inhabits 0) (Q p rows ts Y k b)) => p rows ts Y k b M H.
exact: (@param_deriv_unique m np (fun _ p => G p rows ts Y k b) 0 p _ _ (ClassicalEpsilon.epsilon_spec (inhabits (0 : 'M[RF]_(m, np))) _ (ex_intro (Q p rows ts Y k b) M H)) H).
Qed.
(** The family of C116_ex; test 0 strain controlled with any history, test 1 a stress ramp through yield. *)
Definition ex_data (strains : nat -> R) (k b : nat) : R := if b == 0%N then strains k else (10 * INR k)%Re.
Lemma ex_controls : controls 2 INR.
Proof. move=> [|[|b]] //= _; [by left|by right]. Qed.
Lemma ex_good u b : (Rabs (u - 2) < 1)%Re ->
  good_entry (const_par (inord 0) (ex_line u)) (const_par (inord 1) (ex_line u)) (const_par (inord 2) (ex_line u)) (const_par (inord 3) (ex_line u)) (const_par (inord 4) (ex_line u)) (const_par (inord 5) (ex_line u)) 1
    (const_seq (inord 6) (ex_line u)) (const_seq (inord 7) (ex_line u)) 4 ex_temp b.
Proof.
have val i : ex_line u i 0 = u by rewrite mxE.
move=> /Rabs_def2 [u1 u2]; split=> k kn.
- rewrite /VCHistory.admissible /const_par /const_seq !val; do 6 (split; first lra); move=> i _; lra.
- rewrite /VCHistory.no_softening /const_par /const_seq; split; first exact: Rle_refl. move=> i _; exact: Rle_refl.
Qed.
Lemma ex_smooth k b : smooth_material 1 (const_par (inord 0)) (const_par (inord 1)) (const_par (inord 2)) (const_par (inord 3)) (const_par (inord 4)) (const_par (inord 5)) (const_seq (inord 6)) (const_seq (inord 7)) (ex_line 2%Re) (ex_temp k b).
Proof.
have val i : ex_line 2%Re i 0 = 2%Re by rewrite mxE.
rewrite /smooth_material /const_par /const_seq !val; split; first by split; exact: c1_coord.
split; last lra. split; try exact: c1_coord. move=> i _; exact: c1_coord. move=> i _; exact: c1_coord.
Qed.
Lemma ex_dir : cdiff ex_line 2%Re (ex_line 1%Re).
Proof. move=> i; rewrite mxE; apply: (@dpl_ext id) => [u|]; [by rewrite mxE|exact: derivable_pt_lim_id]. Qed.
Lemma ex_times : times_increase 2 4 ex_t.
Proof. by move=> b _ i j ij _; apply: lt_INR. Qed.
Notation ex_calls data := (calls (nback := 1) (const_par (inord 0)) (const_par (inord 1)) (const_par (inord 2)) (const_par (inord 3)) (const_par (inord 4)) (const_par (inord 5)) (const_seq (inord 6)) (const_seq (inord 7)) (nb := 2) 4 ex_t data ex_temp INR).
Definition b1 : 'I_2 := inord 1.
Lemma b1E : nat_of_ord b1 = 1%N. Proof. by rewrite /b1 inordK. Qed.
(** the ramp strains in every step: at least elastically *)
Lemma ex_active strains (y : nat -> VB RF 2 3) : mixed_history (B := ex_fam (ex_line 2%Re)) 4 ex_t (ex_data strains) ex_temp INR y ->
  every_step_active 4 ex_t ex_temp INR (const_par (inord 0) (ex_line 2%Re)) y.
Proof.
move=> H; right=> k k0 kn; exists b1; split; first by rewrite b1E.
have two : (Rabs (2 - 2) < 1)%Re by rewrite Rminus_diag_eq // Rabs_R0; lra.
have Gd b : (b < 2)%N -> _ := fun _ => ex_good b two.
have Rg := mixed_range (nb := 2) ex_times Gd ex_controls H b1 kn.
have val i : ex_line 2%Re i 0 = 2%Re by rewrite mxE.
have [_ Hs] := H; have M := (proj1 (mstep_model (nb := 2) (ex_data strains) ex_times Gd ex_controls y b1 k0 kn)) (Hs k b1 k0 kn).
move: M; rewrite /mstep; cbv zeta; case: Req_EM_T => [c1|]; last by rewrite b1E.
have e0 (v : 'cV[RF]_3) : to_vec (B := ex_fam (ex_line 2%Re)) v 0%N = v ord0 ord0 := @to_vecE (ex_fam (ex_line 2%Re)) v (ord0 : 'I_(Models.rf_n (ex_fam (ex_line 2%Re)))).
rewrite !e0 => -[-> _]; move: Rg; set h := fun i => _ => Rg.
have dE : ex_data strains k b1 = (10 * INR k)%Re by rewrite /ex_data b1E.
have dE' : ex_data strains k.-1 b1 = (10 * INR k - 10)%Re by rewrite /ex_data b1E; case: (k) k0 => // k' _; rewrite [k'.+1.-1]/= S_INR /=; ring.
have tE : (ex_t k b1 - ex_t k.-1 b1 = 1)%Re by rewrite /ex_t; case: (k) k0 => // k' _; rewrite [k'.+1.-1]/= S_INR /=; ring.
have k1 : (1 <= INR k)%Re by apply: (le_INR 1); apply/leP.
have F0 : (0 <= VCHistory.the_flow (const_par (inord 1) (ex_line 2%Re)) (const_par (inord 2) (ex_line 2%Re)) (const_par (inord 3) (ex_line 2%Re)) 1 (ex_temp k b1) (ex_data strains k b1) h)%Re.
{ apply: VCStep.flow_nonneg; have [_ /(_ 0%N (Nat.lt_0_succ 0))] := Rg; rewrite /const_seq !val /= dE => K.
  have := Rle_abs (h 1%N); lra. }
move: F0; set fl := VCHistory.the_flow _ _ _ _ _ _ _ => F0; rewrite dE dE' tE /const_par !val.
have p10 : (/ 10 ^ 10 < 1)%Re by rewrite -Rinv_1; apply: Rinv_lt_contravar; lra.
apply: Rlt_le_trans (_ : (2 * ((10 * INR k - (10 * INR k - 10)) / 2 + 1 * fl) <= _)%Re); last exact: Rle_abs.
move: F0 p10; move: (fl : R) (/ 10 ^ 10)%Re (INR k) => a c e; lra.
Qed.
Example C127_ex (strains : nat -> R) og : exists (Y : R -> nat -> VB RF 2 3) GP grad lam,
  (forall u, (Rabs (u - 2) < 1)%Re -> mixed_history (B := ex_fam (ex_line u)) 4 ex_t (ex_data strains) ex_temp INR (Y u)) /\
  call_derivatives (fun p rows ts Y => (ex_calls (ex_data strains) p rows ts Y).1) GP /\
  rewindG (fun rows ts y => (ex_calls (ex_data strains) (ex_line 2%Re) rows ts y).2) (GP (ex_line 2%Re)) PCR BackwardEuler 2 4 (time_table 2 ex_t) (Y 2%Re) og = Some (grad, lam) /\
  derivable_pt_lim (fun u => loss 4 og (Y u)) 2%Re (\sum_(i < 8) grad i 0).
Proof.
have HY u : exists Y : nat -> VB RF 2 3, (Rabs (u - 2) < 1)%Re -> mixed_history (B := ex_fam (ex_line u)) 4 ex_t (ex_data strains) ex_temp INR Y.
{ case: (Rlt_dec (Rabs (u - 2)) 1) => ud; last by exists (fun _ => @zeroV RF 2 3).
  have [Y H] := mixed_exists (ex_data strains) ex_times (fun b _ => ex_good b ud) ex_controls; by exists Y. }
pose Y u := sval (ClassicalEpsilon.constructive_indefinite_description _ (HY u)).
have HYu u : (Rabs (u - 2) < 1)%Re -> mixed_history (B := ex_fam (ex_line u)) 4 ex_t (ex_data strains) ex_temp INR (Y u) := svalP (ClassicalEpsilon.constructive_indefinite_description _ (HY u)).
have [GP HGP] := call_derivatives_exist (fun p rows ts Y => (ex_calls (ex_data strains) p rows ts Y).1).
have two : (Rabs (2 - 2) < 1)%Re by rewrite Rminus_diag_eq // Rabs_R0; lra.
have [grad [lam [Eq D]]] := C127_gradient_of_exact_simulations PCR HGP ex_controls ex_times (ltn0Sn 2 : (1 < 4)%N) (ltn0Sn 1) Rlt_0_1 (fun u b ud _ => ex_good b ud) (fun k b _ _ => ex_smooth k b) ex_dir HYu
   (ex_active (HYu 2%Re two)) (weighted_sum og (y := Y 2%Re)).
exists Y, GP, grad, lam; split=> //; split=> //; split=> //.
move: D; rewrite (eq_bigr (fun i => grad i 0)) // => i _; by rewrite mxE -[1%Re]/(1 : RF) mulr1.
Qed.
(** Runs: the same material, both tests loaded slowly below yield, by strain and by stress. *)
Definition ex_slow (k _ : nat) : R := (INR k / 100)%Re.
Lemma ex_run_any (control : nat -> R) u : control b1 = 1%Re -> (Rabs (u - 2) < 1)%Re -> exists st : istate RF 2 3,
  solve_both (B := ex_fam (ex_line u)) 4 ex_t ex_slow ex_temp control BackwardEuler (Direct Thomas) R0 R0 10 true "zero" 2 (fun _ => @zeroV RF 2 3) = inl st /\ i_warned st = [::] /\
  forall k, (0 < k)%N -> (k < 4)%N -> (/ 200 < u * (i_result st k b1 ord0 ord0 - i_result st k.-1 b1 ord0 ord0))%Re.
Proof.
move=> b11 /Rabs_def2 [u1 u2]; have val i : ex_line u i 0 = u by rewrite mxE.
have sm k c : (Deriv.sum k (fun j => c * (ex_slow j.+1 0 - ex_slow j 0)) = c * (INR k / 100))%Re.
{ elim: k => [|k IH]; first by rewrite /=; field. rewrite sumS IH /ex_slow !S_INR; field. }
have kb k : (k < 4)%N -> (0 <= INR k <= 3)%Re.
{ move=> kn; split; first exact: pos_INR. have := le_INR k 3; rewrite /= => h; have : (k <= 3)%coq_nat by apply/leP. move=> /h; lra. }
have [|||||st [So [Wa Q]]] := @C114_elastic_range_always_solved (const_par (inord 0) (ex_line u)) (const_par (inord 1) (ex_line u)) (const_par (inord 2) (ex_line u)) (const_par (inord 3) (ex_line u))
   (Hardening.voce (const_par (inord 4) (ex_line u)) (const_par (inord 5) (ex_line u))) (Hardening.chaboche 1 (const_seq (inord 6) (ex_line u)) (const_seq (inord 7) (ex_line u)))
   2 4 ex_t ex_slow ex_temp control (Direct Thomas) R0 R0 10 true 2 (fun _ => @zeroV RF 2 3) (fun _ => 1%Re) ex_times (ltn0Sn 2) (ltn0Sn 1) (ltn0Sn 8).
- lra.
- lra.
- move=> k b kn _; rewrite /const_par !val; do 4 (split; first lra). split; [exact: FullModel.rests_voce|exact: FullModel.rests_chaboche].
- move=> k b kn _ _; rewrite /const_par !val (sm k u); have := kb k kn => -[h1 h2]; rewrite Rabs_pos_eq; last by apply: Rmult_le_pos; lra.
  have : (u * (INR k / 100) <= 3 * (3 / 100))%Re by apply: Rmult_le_compat; lra. lra.
- move=> k b kn _ _; rewrite /ex_slow; have := kb k kn => -[h1 h2]; rewrite Rabs_pos_eq; lra.
exists st; split; first exact: So. split=> // k k0 kn.
have tf : Models.total_free (Hardening.voce (const_par (inord 4) (ex_line u)) (const_par (inord 5) (ex_line u))) by move=> s h t ep T e e' i Hi; split.
have tf' : Models.total_free (Hardening.chaboche 1 (const_seq (inord 6) (ex_line u)) (const_seq (inord 7) (ex_line u))) by move=> s h t ep T e e' i Hi; split.
have ent (st' : istate RF 2 3) j : entry (B := ex_fam (ex_line u)) st' j b1 0 = i_result st' j b1 ord0 ord0 := @to_vecE (ex_fam (ex_line u)) (i_result st' j b1) (ord0 : 'I_(Models.rf_n (ex_fam (ex_line u)))).
have K j : (j < 4)%N -> (Rabs (i_result st j b1 ord0 ord0 - INR j / (100 * u)) <= INR j / (10 ^ 10 * u))%Re.
{ move=> jn; have [_ [_ /(_ b11 tf tf')]] := Q b1 j jn; rewrite [entry _ _ _ _]ent.
  have -> : Deriv.sum j (fun i => ((ex_slow i.+1 b1 - ex_slow i b1) / const_par (inord 0) (ex_line u) (ex_temp i.+1 b1))%Re) = (INR j / (100 * u))%Re.
  { elim: (j) => [|i IH]; first by rewrite /=; field; lra. rewrite sumS IH /ex_slow /const_par val !S_INR; field; lra. }
  have -> : Deriv.sum j (fun i => ((ex_t i.+1 b1 - ex_t i b1) / (10 ^ 10 * const_par (inord 0) (ex_line u) (ex_temp i.+1 b1)))%Re) = (INR j / (10 ^ 10 * u))%Re.
  { elim: (j) => [|i IH]; first by rewrite /=; field; lra. rewrite sumS IH /ex_t /const_par val !S_INR; field; lra. }
  by rewrite Rmult_0_r Rplus_0_l. }
have kE : INR k = (INR k.-1 + 1)%Re by case: (k) k0 => // k' _; rewrite S_INR.
have A := K k kn; have A' := K k.-1 (leq_ltn_trans (leq_pred k) kn); have [h1 h2] := kb k kn; have [h1' h2'] := kb k.-1 (leq_ltn_trans (leq_pred k) kn).
rewrite kE in A.
have Fl (a a' x : R) : (0 <= x <= 3)%Re -> (Rabs (a - (x + 1) / (100 * u)) <= (x + 1) / (10 ^ 10 * u))%Re -> (Rabs (a' - x / (100 * u)) <= x / (10 ^ 10 * u))%Re -> (/ 200 < u * (a - a'))%Re.
{ move=> hx; set v := (/ u)%Re; have uv : (u * v = 1)%Re by rewrite /v; field; lra.
  have -> : ((x + 1) / (100 * u) = (x + 1) / 100 * v)%Re by rewrite /v; field; lra.
  have -> : (x / (100 * u) = x / 100 * v)%Re by rewrite /v; field; lra.
  have -> : ((x + 1) / (10 ^ 10 * u) = (x + 1) / 10 ^ 10 * v)%Re by rewrite /v; field; lra.
  have -> : (x / (10 ^ 10 * u) = x / 10 ^ 10 * v)%Re by rewrite /v; field; lra.
  move=> B1 B2; have C1 := Rle_abs (- (a - (x + 1) / 100 * v)); have C2 := Rle_abs (a' - x / 100 * v); rewrite Rabs_Ropp in C1.
  have C3 : (a - a' >= (1 / 100 - (2 * x + 1) / 10 ^ 10) * v)%Re by lra.
  have C4 : (u * (a - a') >= u * ((1 / 100 - (2 * x + 1) / 10 ^ 10) * v))%Re by apply: Rmult_ge_compat_l; lra.
  have C5 : (u * ((1 / 100 - (2 * x + 1) / 10 ^ 10) * v) = (1 / 100 - (2 * x + 1) / 10 ^ 10))%Re by rewrite -{2}(Rmult_1_r (_ - _)) -uv; ring.
  lra. }
exact: Fl (conj h1' h2') A A'.
Qed.
Lemma ex_run u : (Rabs (u - 2) < 1)%Re -> exists st : istate RF 2 3,
  solve_both (B := ex_fam (ex_line u)) 4 ex_t ex_slow ex_temp INR BackwardEuler (Direct Thomas) R0 R0 10 true "zero" 2 (fun _ => @zeroV RF 2 3) = inl st /\ i_warned st = [::] /\
  forall k, (0 < k)%N -> (k < 4)%N -> (/ 200 < u * (i_result st k b1 ord0 ord0 - i_result st k.-1 b1 ord0 ord0))%Re.
Proof. have b11 : INR b1 = 1%Re by rewrite b1E. exact: ex_run_any b11. Qed.
Example C127_runs_ex og : exists (st : R -> istate RF 2 3) GP grad lam,
  (forall u, (Rabs (u - 2) < 1)%Re ->
    solve_both (B := ex_fam (ex_line u)) 4 ex_t ex_slow ex_temp INR BackwardEuler (Direct Thomas) R0 R0 10 true "zero" 2 (fun _ => @zeroV RF 2 3) = inl (st u)) /\
  rewindG (fun rows ts y => (ex_calls ex_slow (ex_line 2%Re) rows ts y).2) (GP (ex_line 2%Re)) PCR BackwardEuler 2 4 (time_table 2 ex_t) (i_result (st 2%Re)) og = Some (grad, lam) /\
  derivable_pt_lim (fun u => loss 4 og (i_result (st u))) 2%Re (\sum_(i < 8) grad i 0).
Proof.
have HY u : exists st : istate RF 2 3, (Rabs (u - 2) < 1)%Re ->
  solve_both (B := ex_fam (ex_line u)) 4 ex_t ex_slow ex_temp INR BackwardEuler (Direct Thomas) R0 R0 10 true "zero" 2 (fun _ => @zeroV RF 2 3) = inl st /\ i_warned st = [::] /\
  forall k, (0 < k)%N -> (k < 4)%N -> (/ 200 < u * (i_result st k b1 ord0 ord0 - i_result st k.-1 b1 ord0 ord0))%Re.
{ case: (Rlt_dec (Rabs (u - 2)) 1) => ud; first by have [st H] := ex_run ud; exists st.
  have two : (Rabs (2 - 2) < 1)%Re by rewrite Rminus_diag_eq // Rabs_R0; lra.
  by have [st _] := ex_run two; exists st. }
pose st u := sval (ClassicalEpsilon.constructive_indefinite_description _ (HY u)).
have HS u := svalP (ClassicalEpsilon.constructive_indefinite_description _ (HY u)).
have two : (Rabs (2 - 2) < 1)%Re by rewrite Rminus_diag_eq // Rabs_R0; lra.
have [GP HGP] := call_derivatives_exist (fun p rows ts Y => (ex_calls ex_slow p rows ts Y).1).
have Act : every_step_active 4 ex_t ex_temp INR (const_par (inord 0) (ex_line 2%Re)) (i_result (st 2%Re)).
{ right=> k k0 kn; exists b1; split; first by rewrite b1E. have [_ [_ H]] := HS 2%Re two.
  rewrite /const_par mxE; have -> : (ex_t k b1 - ex_t k.-1 b1 = 1)%Re by rewrite /ex_t; case: (k) k0 => // k' _; rewrite [k'.+1.-1]/= S_INR /=; ring.
  apply: Rlt_le_trans (Rle_abs _); have := H k k0 kn; rewrite -/(st 2%Re); set z := (2 * _)%Re => h; apply: Rlt_trans h; lra. }
have Str u : (Rabs (u - 2) < 1)%Re -> every_step_strains 4 INR (i_result (st u)).
{ move=> ud; right=> k k0 kn; exists b1; split; first by rewrite b1E. have [_ [_ H]] := HS u ud; have := H k k0 kn; rewrite -/(st u) => h e; move: h; rewrite e Rminus_diag_eq //; lra. }
have [grad [lam [Eq D]]] := C127_gradient_of_runs PCR HGP ex_controls ex_times (ltn0Sn 2 : (1 < 4)%N) (ltn0Sn 1) Rlt_0_1 (fun u b ud _ => ex_good b ud) (fun k b _ _ => ex_smooth k b) ex_dir
   (st := st) (lm := fun _ => Direct Thomas) (miter := fun _ => 10%N) (throw := fun _ => true) (gt := fun _ => "zero"%string) (n' := fun _ => 2%N) (init := fun _ _ => @zeroV RF 2 3)
   (fun u ud => conj (proj1 (HS u ud)) (conj (proj1 (proj2 (HS u ud))) (Str u ud))) Act (weighted_sum og (y := i_result (st 2%Re))).
exists st, GP, grad, lam; split; first by move=> u ud; exact: (proj1 (HS u ud)). split=> //.
move: D; rewrite (eq_bigr (fun i => grad i 0)) // => i _; by rewrite mxE -[1%Re]/(1 : RF) mulr1.
Qed.
