(** Gradients of runs that stopped at the solver tolerances (C25, C26): the adjoint pass returns the exact
    gradient of the loss over the histories that leave the same residuals in the update equations. *)
From Coq Require Import Reals List String Lra Lia.
From mathcomp Require Import all_ssreflect all_algebra.
From Verif Require Import ChunkModel ChunkSolve ChunkInst NewtonModel Ode OdeForward OdeAdjoint OdeReal OdeDiff ZmodTac RField Gmres Implicit Tolerance Props_Ode Props_Implicit.
Import GRing.Theory.
Set Implicit Arguments. Unset Strict Implicit. Unset Printing Implicit Defensive.
Local Open Scope ring_scope.
Delimit Scope R_scope with Re.

Section Shift.
Variables (nb m np : nat) (fp : 'I_nb -> RF -> 'cV[RF]_m -> 'cV[RF]_np -> 'cV[RF]_m).
Variables (nt : nat) (t : nat -> TB RF nb) (c : nat -> 'I_nb -> 'cV[RF]_m).
(** the rate plus a vector [c k b] at the time of index k *)
Definition shift (b : 'I_nb) (x : RF) (y : 'cV[RF]_m) (p : 'cV[RF]_np) : 'cV[RF]_m :=
  fp b x y p + if [pick k : 'I_nt | t k b == x] is Some k then c k b else 0.
Hypothesis inj : forall k k' b, (k < nt)%N -> (k' < nt)%N -> t k b = t k' b -> k = k'.
Lemma shift_at k b y p : (k < nt)%N -> shift b (t k b) y p = fp b (t k b) y p + c k b.
Proof.
move=> kn; rewrite /shift; case: pickP => [k' /eqP E|/(_ (Ordinal kn))]; last by rewrite eqxx.
by rewrite (inj (ltn_ord k') kn E).
Qed.
Lemma shift_partials x b J P y p : partials_at (fp b x) J P y p -> partials_at (shift b x) J P y p.
Proof.
move=> H u v th y' p' e1 e2 D1 D2; rewrite -[_ + _]addr0; apply: cdiff_add; last exact: cdiff_cst. exact: H.
Qed.
Lemma shift_c1 x b J P y p : c1_near (fp b x) J P y p -> c1_near (shift b x) J P y p.
Proof. move=> [[d [d0 H]] K]; split=> //; exists d; split=> // u v h1 h2; apply: shift_partials; exact: H. Qed.
End Shift.

(** [r k b]: residual of entry [b] in step [k] *)
Definition leaves_residual nb m np (fp : 'I_nb -> RF -> 'cV[RF]_m -> 'cV[RF]_np -> 'cV[RF]_m) (s : scheme) nt (t : nat -> TB RF nb)
    (r : nat -> 'I_nb -> 'cV[RF]_m) (p : 'cV[RF]_np) (y : nat -> VB RF nb m) : Prop :=
  forall k b, (0 < k)%N -> (k < nt)%N -> step_res (at_p fp p) s t y k b = r k b.

Lemma leaves_shift nb m np (fp : 'I_nb -> RF -> 'cV[RF]_m -> 'cV[RF]_np -> 'cV[RF]_m) nt (t : nat -> TB RF nb) (r : nat -> 'I_nb -> 'cV[RF]_m) (p : 'cV[RF]_np) (y : nat -> VB RF nb m) :
  (forall k k' b, (k < nt)%N -> (k' < nt)%N -> t k b = t k' b -> k = k') ->
  let c k (b : 'I_nb) := (t k b - t k.-1 b)^-1 *: r k b in
  scheme_solution (shift fp nt t c) BackwardEuler nt t p y <-> leaves_residual fp BackwardEuler nt t r p y.
Proof.
move=> inj c; have K k b : (0 < k)%N -> (k < nt)%N -> step_res (at_p (shift fp nt t c) p) BackwardEuler t y k b = step_res (at_p fp p) BackwardEuler t y k b - r k b.
{ move=> k0 kn; rewrite /step_res /at_p shift_at // scalerDr /c scalerA divff ?scale1r; first by rewrite opprD addrA.
  rewrite subr_eq0; apply/eqP => E; have := inj k k.-1 b kn (leq_ltn_trans (leq_pred _) kn) E; case: (k) k0 => // j _ /=; lia. }
split=> H k b k0 kn; have := H k b k0 kn; rewrite K //; first by move/subr0_eq.
by move=> ->; rewrite subrr.
Qed.

Theorem C25_gradient_of_inexact_run nb m np fp Jp Pp nt (t : nat -> TB RF nb) mth n
    (p : R -> 'cV[RF]_np) (y : nat -> VB RF nb m) q (y0 : R -> VB RF nb m) (z0 : VB RF nb m) th og :
  (0 < n)%N -> (0 < nt)%N -> (forall k k' b, (k < nt)%N -> (k' < nt)%N -> t k b = t k' b -> k = k') ->
  let r k (b : 'I_nb) := step_res (at_p fp (p th)) BackwardEuler t y k b in
  y0 th = y 0%N -> cdiff p th q -> (forall b, cdiff (fun u => y0 u b) th (z0 b)) ->
  (forall k b, (k < nt)%N -> c1_near (fp b (t k b)) (Jp b (t k b)) (Pp b (t k b)) (y k b) (p th)) ->
  steps_regular Jp BackwardEuler nt t (p th) y ->
  exists (Y : R -> nat -> VB RF nb m) rad d grad lam,
    [/\ (0 < rad)%Re, (0 < d)%Re & Y th = y] /\
    (forall u, (Rabs (u - th) < d)%Re ->
      [/\ Y u 0%N = y0 u, leaves_residual fp BackwardEuler nt t r (p u) (Y u) &
        forall X, X 0%N = y0 u -> leaves_residual fp BackwardEuler nt t r (p u) X ->
          (forall k b, (k < nt)%N -> (dst (X k b) (y k b) <= rad)%Re) -> forall k, (k < nt)%N -> X k = Y u k]) /\
    rewind (at_p Jp (p th)) (at_p Pp (p th)) mth BackwardEuler n nt t y og = Some (grad, lam) /\
    derivable_pt_lim (fun u => loss nt og (Y u)) th
      ((\sum_(i < np) grad i 0 * q i 0) + (\sum_b \sum_(c < m) lam b c 0 * z0 b c 0)).
Proof.
move=> n0 nt0 inj r e0 Dp D0 c1 reg.
pose c k (b : 'I_nb) := (t k b - t k.-1 b)^-1 *: r k b.
have LS p' X : scheme_solution (shift fp nt t c) BackwardEuler nt t p' X <-> leaves_residual fp BackwardEuler nt t r p' X by exact: leaves_shift.
have sol : scheme_solution (shift fp nt t c) BackwardEuler nt t (p th) y by apply: (proj2 (LS _ _)) => k b.
have c1' k b : (k < nt)%N -> c1_near (shift fp nt t c b (t k b)) (Jp b (t k b)) (Pp b (t k b)) (y k b) (p th).
{ move=> kn; apply: shift_c1; exact: c1. }
have [Y [rad [d [grad [lam [A [B [C D]]]]]]]] := C25_gradient_of_solution_map mth og n0 nt0 sol e0 Dp D0 c1' reg.
exists Y, rad, d, grad, lam; split=> //; split=> // u ud; have [H1 H2 H3] := B u ud; split=> //.
- exact: (proj1 (LS _ _)).
- move=> X X0 RX cl k kn; apply: H3 => //; exact: (proj2 (LS _ _)).
Qed.
Print Assumptions C25_gradient_of_inexact_run.

(** Forward Euler: there is exactly one such history for every parameter. *)
Theorem C26_gradient_of_inexact_run nb m np fp Jp Pp nt (t : nat -> TB RF nb) mth n
    (p : R -> 'cV[RF]_np) (y : nat -> VB RF nb m) q (y0 : R -> VB RF nb m) (z0 : VB RF nb m) th og :
  (0 < n)%N -> (0 < nt)%N -> (forall k k' b, (k < nt)%N -> (k' < nt)%N -> t k b = t k' b -> k = k') ->
  let r k (b : 'I_nb) := step_res (at_p fp (p th)) ForwardEuler t y k b in
  y0 th = y 0%N -> cdiff p th q -> (forall b, cdiff (fun u => y0 u b) th (z0 b)) ->
  partials_along fp Jp Pp nt t (p th) y ->
  exists (Y : R -> nat -> VB RF nb m) grad lam,
    Y th = y /\
    (forall u, [/\ Y u 0%N = y0 u, leaves_residual fp ForwardEuler nt t r (p u) (Y u) &
        forall X, X 0%N = y0 u -> leaves_residual fp ForwardEuler nt t r (p u) X -> forall k, (k < nt)%N -> X k = Y u k]) /\
    rewind (at_p Jp (p th)) (at_p Pp (p th)) mth ForwardEuler n nt t y og = Some (grad, lam) /\
    derivable_pt_lim (fun u => loss nt og (Y u)) th
      ((\sum_(i < np) grad i 0 * q i 0) + (\sum_b \sum_(c < m) lam b c 0 * z0 b c 0)).
Proof.
move=> n0 nt0 inj r e0 Dp D0 par.
have hr k b : step_res (at_p fp (p th)) ForwardEuler t y k b = r k b by [].
clearbody r.
pose c k (b : 'I_nb) := (t k.+1 b - t k b)^-1 *: r k.+1 b.
have hc k b : c k b = (t k.+1 b - t k b)^-1 *: r k.+1 b by [].
clearbody c.
pose g := shift fp nt t c.
have hne k b : (k.+1 < nt)%N -> t k.+1 b - t k b != 0.
{ move=> kn; rewrite subr_eq0; apply/eqP => E; have := inj k.+1 k b kn (ltnW kn) E; lia. }
have LS p' X k b : (k.+1 < nt)%N -> step_res (at_p g p') ForwardEuler t X k.+1 b = step_res (at_p fp p') ForwardEuler t X k.+1 b - r k.+1 b.
{ move=> kn; rewrite /step_res /at_p [k.+1.-1]/=.
  have -> : g b (t k b) (X k b) p' = fp b (t k b) (X k b) p' + c k b by apply: (shift_at fp c inj); exact: ltnW.
  by rewrite scalerDr hc scalerA (divff (hne k b kn)) scale1r opprD addrA. }
have uniq p' X X' : (X 0%N = X' 0%N) -> (forall k b, (k.+1 < nt)%N -> step_res (at_p fp p') ForwardEuler t X k.+1 b = step_res (at_p fp p') ForwardEuler t X' k.+1 b) ->
  forall k, (k < nt)%N -> X k = X' k.
{ move=> E0 H; elim=> [//|k IH] kn; apply/ffunP => b; have := H k b kn; rewrite /step_res [k.+1.-1]/= (IH (ltnW kn)).
  by move/addIr/addIr. }
pose E u := euler (at_p g (p u)) t (y0 u).
pose Y u k : VB RF nb m := if (k < nt)%N then E u k else y k.
have Es u k b : (k.+1 < nt)%N -> step_res (at_p fp (p u)) ForwardEuler t (E u) k.+1 b = r k.+1 b.
{ move=> kn; have := @euler_solution _ _ _ g nt t (p u) (y0 u) k.+1 b (ltn0Sn k) kn; rewrite LS //; exact: subr0_eq. }
have Yth : Y th = y.
{ apply: FunctionalExtensionality.functional_extensionality => k; rewrite /Y; case: ifP => // kn.
  apply: (uniq (p th)) => [|j b jn|//]; first by rewrite /E /= e0.
  by rewrite hr; exact: Es. }
have Ys u : leaves_residual fp ForwardEuler nt t r (p u) (Y u).
{ move=> [//|k] b _ kn; rewrite -(Es u k b kn) /step_res [k.+1.-1]/= /Y kn (ltnW kn) //. }
have par' : partials_along g Jp Pp nt t (p th) (E th).
{ move=> k b kn; have -> : E th k = y k by rewrite -[in RHS]Yth /Y kn. apply: shift_partials; exact: par. }
have [z [z00 Dz]] := euler_diff Dp D0 par'.
have par2 : partials_along g Jp Pp nt t (p th) (Y th) by rewrite Yth => k b kn; apply: shift_partials; exact: par.
have sol : exists d, Rlt 0 d /\ forall u, Rlt (Rabs (u - th)) d -> scheme_solution g ForwardEuler nt t (p u) (Y u).
{ exists R1; split; first exact: Rlt_0_1. by move=> u _ [//|k] b _ kn; rewrite LS // Ys // subrr. }
have DY k b : (k < nt)%N -> cdiff (fun u => Y u k b) th (z k b).
{ move=> kn; rewrite /Y kn; exact: Dz. }
have [grad [lam [A B]]] := @adjoint_derivative _ _ _ _ _ _ _ _ _ mth n p Y z q th og n0 nt0 sol DY Dp par2 ltac:(by []).
exists Y, grad, lam; split=> //; split; last first.
{ rewrite Yth in A; split=> //; rewrite z00 in B; exact: B. }
move=> u; split=> [|//|X X0 RX]; first by rewrite /Y nt0.
apply: (uniq (p u)) => [|k b kn]; first by rewrite /Y nt0.
by rewrite RX // Ys.
Qed.
Print Assumptions C26_gradient_of_inexact_run.

(** In an unwarned run these residuals are within the tolerance. *)
Theorem C25_residuals_of_a_run nb m np fp Jp s lm rtol atol miter throw gt n nt t y0 init st (p : 'cV[RF]_np) b tol :
  @integrate RF nb m (at_p fp p) (at_p Jp p) s lm (nrmR nb m) rtol atol miter throw gt n nt t y0 init = inl st -> i_warned st = [::] ->
  tol_bound (at_p fp p) s rtol atol gt n nt t (i_result st) b tol ->
  forall k, (0 < k)%N -> (k < nt)%N -> (norm (step_res (at_p fp p) s t (i_result st) k b) <= tol)%Re.
Proof. move=> S W T; exact: (run_residual S W T). Qed.
Print Assumptions C25_residuals_of_a_run.

(** The constant history 1, 1 is not a solution of y' = - p y^2 with p = 1 (its residual is 1), and its gradient is the one of
    the histories with residual 1. *)
Definition ex_inexact : nat -> VB RF 1 1 := fun _ => [ffun=> (1%Re : RF)%:M].
Example C25_inexact_ex og : exists (Y : R -> nat -> VB RF 1 1) grad lam,
  step_res (at_p ex_f (1%Re : RF)%:M) BackwardEuler ex_times ex_inexact 1 ord0 = (1%Re : RF)%:M /\
  Y 1%Re = ex_inexact /\ rewind (at_p ex_J (1%Re : RF)%:M) (at_p ex_P (1%Re : RF)%:M) PCR BackwardEuler 1 2 ex_times ex_inexact og = Some (grad, lam) /\
  (exists d, (0 < d)%Re /\ forall u, (Rabs (u - 1) < d)%Re -> leaves_residual ex_f BackwardEuler 2 ex_times (fun _ _ => (1%Re : RF)%:M) (u : RF)%:M (Y u)) /\
  derivable_pt_lim (fun u => loss 2 og (Y u)) 1 (grad ord0 ord0).
Proof.
have Ds : cdiff (fun u : R => ((u : RF)%:M : 'cV[RF]_1)) 1%Re (1%Re : RF)%:M.
{ move=> i; rewrite (ord1 i) mxE; apply: (@dpl_ext id) => [u|]; [by rewrite mxE|exact: derivable_pt_lim_id]. }
have D0 b : cdiff (fun _ : R => ex_inexact 0%N b) 1%Re (([ffun=> 0] : VB RF 1 1) b) by rewrite [X in cdiff _ _ X]ffunE; exact: cdiff_cst.
have res b : step_res (at_p ex_f (1%Re : RF)%:M) BackwardEuler ex_times ex_inexact 1 b = (1%Re : RF)%:M.
{ rewrite /step_res /at_p /ex_f /ex_inexact !ffunE /=; apply/matrixP => i j; rewrite (ord1 i) (ord1 j) !mxE /=.
  have ringR : (1 - 1 - (1 - 0) * (- (1 * (1 * 1))) = 1)%Re by ring. exact: ringR. }
have reg : steps_regular ex_J BackwardEuler 2 ex_times (1%Re : RF)%:M ex_inexact.
{ move=> _ [//|[|//]] b _ _; rewrite /ex_J /ex_inexact !ffunE /= !mxE /= scale_scalar_mx -raddfB unitmxE det_scalar1 unitfE; apply/eqP.
  have ne : (1 - (1 - 0) * (- (1 * (2 * 1))) <> 0)%Re by lra. exact: ne. }
have inj k k' (b : 'I_1) : (k < 2)%N -> (k' < 2)%N -> ex_times k b = ex_times k' b -> k = k'.
{ move=> _ _; rewrite !ffunE; exact: INR_eq. }
have [Y [r [d [grad [lam [[_ d0 Yth] [H [E D]]]]]]]] :=
  @C25_gradient_of_inexact_run _ _ _ ex_f ex_J ex_P 2 ex_times PCR 1 (fun u : R => ((u : RF)%:M : 'cV[RF]_1)) ex_inexact _ (fun _ => ex_inexact 0%N) _ 1%Re og
    (ltn0Sn 0) (ltn0Sn 1) inj erefl Ds D0 (fun k b _ => ex_c1 _ _ _ _) reg.
exists Y, grad, lam; split; first exact: res. split=> //; split=> //; split.
- exists d; split=> // u ud; have [_ L _] := H u ud => k b k0 k2; rewrite L //; by case: k k0 k2 => [//|[|//]] _ _; rewrite res.
- move: D; rewrite !big_ord1 !ffunE !mxE eqxx mulr0 addr0 -[1%Re]/(1 : RF) mulr1; exact.
Qed.
