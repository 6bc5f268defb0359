(** Batches of perfectly viscoplastic tests under mixed control: what a call of BothBasedModel returns, the one history, and the hypotheses of the adjoint gradient theorem. *)
From Coq Require Import Reals List String Lra Lia FunctionalExtensionality.
From mathcomp Require Import all_ssreflect all_algebra.
From Verif Require Import ChunkModel ChunkSolve ChunkInst NewtonModel Ode OdeForward OdeAdjoint OdeReal OdeBlock OdeDiff RField Gmres Implicit Pipeline PipelineBoth SmoothMx VCGrad MixedVC MixedGrad PVGrad.
From Verif Require Interp Models Flow Hardening Deriv Slices StressR SmoothR PVSmooth PipelineR.
Import GRing.Theory.
Set Implicit Arguments. Unset Strict Implicit. Unset Printing Implicit Defensive.
Local Open Scope ring_scope.
Delimit Scope R_scope with Re.

Section Link.
Variables (E pn eta : R -> R).
Let B := Models.inelastic E (Flow.perfect pn eta).
Variables (nb nt : nat) (times data temps : nat -> nat -> R) (control : nat -> R).
Hypothesis Cc : controls nb control.
(** inelastic strain rate at the stress s *)
Definition pvflow (T s : R) : R := Flow.fl_rate (Flow.perfect pn eta) s Slices.vzero R0 T R0.
(** The rates and Jacobian of a call at one point, with an exact inner solve. *)
Definition pm_f (b : 'I_nb) (t : RF) (y : 'cV[RF]_1) : 'cV[RF]_1 :=
  if Req_EM_T (control b) 1 then
    (\col_i ((interp_at nt times (table_rates times data) b t / E (interp_at nt times temps b t) + pvflow (interp_at nt times temps b t) (interp_at nt times data b t))%Re : RF))%R
  else strain_f (B := B) nt times data temps b t y.
Definition pm_J (b : 'I_nb) (t : RF) (y : 'cV[RF]_1) : 'M[RF]_1 :=
  if Req_EM_T (control b) 1 then 0 else strain_J (B := B) nt times data temps b t y.
Local Notation bG := (both_G (B := B) nt times data temps control).
Lemma both_jac_p rows (ts : nat -> TB RF nb) (Y : nat -> VB RF nb 1) : (bG rows ts Y).2 = func_jac pm_J ts Y.
Proof.
rewrite /both_G /Models.both_forward.
have [r /Models.sb_forward_of ->] := Models.sb_forward_some B (rows * nb) (pt_t ts) (pt_base nt times data ts) (pt_rate nt times data ts) (pt_temp nt times temps ts) (pt_y (B := B) Y).
rewrite /unflatten /Models.masked; apply: functional_extensionality => k; apply/ffunP => b; rewrite !ffunE /pm_J.
apply/matrixP => i j; rewrite !mxE pt_b.
case: Req_EM_T => [c1|c1].
- by rewrite (ord1 j) mxE.
- case: Req_EM_T => [c0|c0]; last by case: (Cc (ltn_ord b)).
  by rewrite /strain_J mxE /= pt_tE pt_yE pt_rateE pt_tempE.
Qed.
Definition call_active_p (rows : nat) (ts : nat -> TB RF nb) (Y : nat -> VB RF nb 1) : Prop :=
  exists k (b : 'I_nb), [/\ (k < rows)%N, control b = 1%Re &
    (/ 10 ^ 10 < Rabs (E (interp_at nt times temps b (ts k b)) * pm_f b (ts k b) (Y k b) ord0 ord0))%Re].
Lemma both_rate_alt_p rows (ts : nat -> TB RF nb) (Y : nat -> VB RF nb 1) :
  (forall k (b : 'I_nb), (k < rows)%N -> (0 < E (interp_at nt times temps b (ts k b)))%Re) ->
  (forall k b, (k < rows)%N -> (bG rows ts Y).1 k b = pm_f b (ts k b) (Y k b)) \/
  (forall k (b : 'I_nb), (k < rows)%N -> control b = 1%Re -> (bG rows ts Y).1 k b ord0 ord0 = 0%Re /\
     (Rabs (E (interp_at nt times temps b (ts k b)) * pm_f b (ts k b) (Y k b) ord0 ord0) <= / 10 ^ 10)%Re).
Proof.
move=> E0; rewrite /both_G /Models.both_forward.
have [i /ltP ir|er [-> alt]] := StressR.sb_affine_points B (rows * nb) (pt_t ts) (pt_base nt times data ts) (pt_rate nt times data ts) (pt_temp nt times temps ts) (pt_y (B := B) Y).
{ have [k' [b' [k'r ->]]] := pt_split ir; apply: StressR.inelastic_affine; first exact: Models.rate_free_perfect.
  rewrite pt_tempE; have := E0 k' b' k'r; lra. }
have idx k' (b' : 'I_nb) : (k' < rows)%N -> (k' * nb + b' < rows * nb)%coq_nat.
{ move=> k'r; apply/ltP; apply: (@leq_trans (k' * nb + nb)); first by rewrite ltn_add2l.
  by rewrite -mulSnr leq_mul2r k'r orbT. }
have U k' (b' : 'I_nb) er0 : (k' < rows)%N -> Models.rf_rate B (pt_t ts (k' * nb + b')%N) (Models.set0 (pt_base nt times data ts (k' * nb + b')%N) (pt_y (B := B) Y (k' * nb + b')%N)) er0 (pt_temp nt times temps ts (k' * nb + b')%N) 0%N =
   (E (interp_at nt times temps b' (ts k' b')) * (er0 - pvflow (interp_at nt times temps b' (ts k' b')) (interp_at nt times data b' (ts k' b'))))%Re.
{ move=> k'r; by rewrite pt_tempE pt_baseE pt_yE. }
case: alt => [alt|[er0 alt]]; [left|right] => k b kr.
- have ex k' (b' : 'I_nb) : (k' < rows)%N -> er (k' * nb + b')%N = (interp_at nt times (table_rates times data) b' (ts k' b') / E (interp_at nt times temps b' (ts k' b')) + pvflow (interp_at nt times temps b' (ts k' b')) (interp_at nt times data b' (ts k' b')))%Re.
  { move=> k'r; have e0 := E0 k' b' k'r.
    have := alt _ (idx k' b' k'r); rewrite U // pt_rateE => Q.
    have Fl (e x q r : R) : (0 < e)%Re -> (e * (x - q) = r)%Re -> (x = r / e + q)%Re by move=> ep <-; field; lra.
    exact: Fl. }
  rewrite /unflatten /Models.masked ffunE /pm_f; apply/colP => i; rewrite mxE pt_b; case: Req_EM_T => [c1|c1].
  + by rewrite mxE /= ex // (ord1 i) /Models.sb_rate Models.set0_0.
  + case: Req_EM_T => [c0|c0]; last by case: (Cc (ltn_ord b)).
    rewrite /strain_f mxE /= ?pt_tE pt_yE pt_rateE pt_tempE; by [].
- move=> c1; split.
  + rewrite /unflatten /Models.masked ffunE mxE pt_b; case: Req_EM_T => // _; cbn [fst snd is_left]; by rewrite er0 /Models.sb_rate Models.set0_0.
  + have := alt _ (idx k b kr); rewrite er0 U // pt_rateE /pm_f; case: Req_EM_T => // c1'; rewrite mxE; have ea := E0 k b kr.
    have Fl (e q r : R) : (0 < e)%Re -> (e * (0 - q) - r = - (e * (r / e + q)))%Re by move=> ep; field; lra.
    by rewrite Fl // Rabs_Ropp.
Qed.
Lemma both_rate_p rows (ts : nat -> TB RF nb) (Y : nat -> VB RF nb 1) :
  (forall k (b : 'I_nb), (k < rows)%N -> (0 < E (interp_at nt times temps b (ts k b)))%Re) ->
  (forall b, (b < nb)%N -> control b = 0%Re) \/ call_active_p rows ts Y ->
  forall k b, (k < rows)%N -> (bG rows ts Y).1 k b = pm_f b (ts k b) (Y k b).
Proof.
move=> E0 [C0|[ka [ba [kar ca act]]]] k b kr.
{ rewrite (both_all_strain (B := B) nt times data temps rows ts Y C0) /= /func_rate ffunE /pm_f; case: Req_EM_T => // c1.
  exfalso; have := C0 b (ltn_ord b); rewrite c1 => /R1_neq_R0; by []. }
case: (both_rate_alt_p Y E0) => [->//|/(_ ka ba kar ca) [_ Bd]]; exfalso; exact: Rlt_irrefl (Rlt_le_trans _ _ _ act Bd).
Qed.

(** ** The history *)
Hypothesis Gr : grid_ok nb nt times.
Hypothesis Ep : forall k b, (k < nt)%N -> (b < nb)%N -> (0 < E (temps k b))%Re.
Definition pm_step k (b : 'I_nb) (z s : R) : Prop :=
  if Req_EM_T (control b) 1 then (s - z = (data k b - data k.-1 b) / E (temps k b) + (times k b - times k.-1 b) * pvflow (temps k b) (data k b))%Re
  else PipelineR.pv_step (E (temps k b)) (pn (temps k b)) (eta (temps k b)) (times k b - times k.-1 b) (data k b - data k.-1 b) z s.
Lemma pm_e0 (y : 'cV[RF]_1) : @to_vec B y 0%N = y ord0 ord0.
Proof. exact: (@to_vecE B y (ord0 : 'I_(Models.rf_n B))). Qed.
Lemma pm_model (y : nat -> VB RF nb 1) k (b : 'I_nb) : (0 < k)%N -> (k < nt)%N -> mixed_step (B := B) times data temps control y k b <-> pm_step k b (y k.-1 b ord0 ord0) (y k b ord0 ord0).
Proof.
move=> k0 kn; have D := dt_pos (ltn_ord b) Gr k0 kn; have e0 := Ep kn (ltn_ord b).
have Q (dt e de q : R) : (0 < dt -> dt * (e * (de / dt - q)) = e * (de - dt * q))%Re by move=> H0; field; lra.
have Fl (dt e dd q : R) : (0 < dt -> 0 < e -> dt * (dd / dt / e + q) = dd / e + dt * q)%Re by move=> *; field; lra.
have Un er := Models.rate_free_unique E (Flow.perfect pn eta) (times k b) (@to_vec B (y k b)) (data k b) (step_rate times data k b) (temps k b) er (Models.rate_free_perfect pn eta) (Rgt_not_eq _ _ e0).
rewrite /mixed_step /pm_step; cbv zeta; case: Req_EM_T => c1; split.
- move=> [_ /(_ c1) [er [/Un -> [H _]]]]; move: H; rewrite !pm_e0 => ->; exact: Fl.
- move=> H; split; first by rewrite c1 => /R1_neq_R0. move=> _; eexists; split; first by apply/Un. split; last by case.
  rewrite !pm_e0 H; symmetry; exact: Fl.
- move=> [H _]; have c0 : control b = 0%Re by case: (Cc (ltn_ord b)).
  have := H c0 0%N (ltn0Sn 0); rewrite !pm_e0 /= /Slices.cat /= ?pm_e0 /PipelineR.pv_step => ->; exact: Q.
- move=> H; split; last by move=> /c1. move=> _ i; rewrite /= ltnS leqn0 => /eqP ->.
  rewrite !pm_e0 /= /Slices.cat /= ?pm_e0; move: H; rewrite /PipelineR.pv_step => ->; symmetry; exact: Q.
Qed.
Lemma pm_residual (y : nat -> VB RF nb 1) k (b : 'I_nb) : (0 < k)%N -> (k < nt)%N -> mixed_step (B := B) times data temps control y k b <->
  step_res pm_f BackwardEuler (time_table nb times) y k b = 0%R.
Proof.
move=> k0 kn; have n2 : (1 < nt)%N := leq_ltn_trans k0 kn; have D := dt_pos (ltn_ord b) Gr k0 kn; have e0 := Ep kn (ltn_ord b).
have RE (i : 'I_1) : step_res pm_f BackwardEuler (time_table nb times) y k b i ord0 =
  (y k b ord0 ord0 - y k.-1 b ord0 ord0 - (times k b - times k.-1 b) * (pm_f b (times k b) (y k b) ord0 ord0))%Re.
{ by rewrite /step_res !ffunE (ord1 i) !mxE. }
have Q (dt e de q : R) : (0 < dt -> dt * (e * (de / dt - q)) = e * (de - dt * q))%Re by move=> H0; field; lra.
have Fl (dt e dd q : R) : (0 < dt -> 0 < e -> dt * (dd / dt / e + q) = dd / e + dt * q)%Re by move=> *; field; lra.
apply: iff_trans (pm_model y b k0 kn) _.
have V : ((times k b - times k.-1 b) * (pm_f b (times k b) (y k b) ord0 ord0) = if Req_EM_T (control b) 1 then (data k b - data k.-1 b) / E (temps k b) + (times k b - times k.-1 b) * pvflow (temps k b) (data k b)
   else E (temps k b) * (data k b - data k.-1 b - (times k b - times k.-1 b) * pvflow (temps k b) (y k b ord0 ord0)))%Re.
{ rewrite /pm_f; case: Req_EM_T => c1; rewrite mxE !(interp_knot (nb := nb)) // (rates_knot data (ltn_ord b) Gr k0 kn) /step_rate; first exact: Fl.
  rewrite /= /Slices.cat /= ?pm_e0; exact: Q. }
rewrite /pm_step; split=> [H|H].
- apply/colP => i; rewrite RE V mxE; move: H; case: Req_EM_T => c1 H; apply: Rminus_diag_eq; exact: H.
- have := congr1 (fun v : 'cV[RF]_1 => v ord0 ord0) H; rewrite RE V mxE; move: H => _; case: Req_EM_T => c1 H; exact: Rminus_diag_uniq H.
Qed.
Lemma pm_unique (y y' : nat -> VB RF nb 1) :
  (forall k b, (k < nt)%N -> (b < nb)%N -> (0 < pn (temps k b) /\ 0 < eta (temps k b))%Re) ->
  mixed_history (B := B) nt times data temps control y -> mixed_history (B := B) nt times data temps control y' -> forall k, (k < nt)%N -> y k = y' k.
Proof.
move=> P [Z H] [Z' H']; elim=> [|k IH] kn; first by rewrite Z Z'.
apply/ffunP => b; apply/colP => i; rewrite (ord1 i).
have [P2 P3] := P k.+1 b kn (ltn_ord b); have P1 := Ep kn (ltn_ord b).
have A := (proj1 (pm_model y b (ltn0Sn k) kn)) (H k.+1 b (ltn0Sn k) kn); have A' := (proj1 (pm_model y' b (ltn0Sn k) kn)) (H' k.+1 b (ltn0Sn k) kn).
rewrite [k.+1.-1]/= -(IH (ltnW kn)) in A A'.
have D := dt_pos (ltn_ord b) Gr (ltn0Sn k) kn; rewrite [k.+1.-1]/= in D.
move: A A'; rewrite /pm_step; case: Req_EM_T => c1 A A'; last exact: PipelineR.pv_unique (Rlt_le _ _ P1) P2 P3 (Rlt_le _ _ D) A A'.
have Fu (a c z w : R) : (a - z = w -> c - z = w -> a = c)%Re by move=> *; lra.
exact: Fu A A'.
Qed.
Lemma pm_exists : (forall k b, (k < nt)%N -> (b < nb)%N -> (1 <= pn (temps k b) /\ 0 < eta (temps k b))%Re) ->
  exists y : nat -> VB RF nb 1, mixed_history (B := B) nt times data temps control y.
Proof.
move=> P.
have step k (b : 'I_nb) z : exists s, (0 < k)%N -> (k < nt)%N -> pm_step k b z s.
{ case K: ((0 < k)%N && (k < nt)%N); last by exists R0 => k0 kn; rewrite k0 kn in K.
  move/andP: K => [k0 kn]; have [P2 P3] := P k b kn (ltn_ord b); have P1 := Ep kn (ltn_ord b); have D := dt_pos (ltn_ord b) Gr k0 kn.
  rewrite /pm_step; case: Req_EM_T => c1.
  - eexists (z + _)%Re => _ _; rewrite Rplus_comm /Rminus Rplus_assoc Rplus_opp_r Rplus_0_r; reflexivity.
  - have [s Hs] := PVSmooth.pv_exists _ _ _ _ (data k b - data k.-1 b)%Re z (Rlt_le _ _ P1) P2 P3 (Rlt_le _ _ D); by exists s. }
pose F k b (z : R) := sval (ClassicalEpsilon.constructive_indefinite_description _ (step k b z)).
have HF k (b : 'I_nb) (z : R) : (0 < k)%N -> (k < nt)%N -> pm_step k b z (F k b z) := svalP (ClassicalEpsilon.constructive_indefinite_description _ (step k b z)).
pose s := fix s (k : nat) (b : 'I_nb) : R := if k is k'.+1 then F k b (s k' b) else R0.
exists (fun k => [ffun b => (\col_(i < 1) (s k b : RF))%R]); split.
- apply/ffunP => b; apply/colP => i; by rewrite /zeroV !ffunE !mxE.
- case=> [|k] b // _ kn; apply/(pm_model _ b (ltn0Sn k) kn); rewrite !ffunE !mxE; exact: (HF k.+1 b (s k b) (ltn0Sn k) kn).
Qed.
End Link.
