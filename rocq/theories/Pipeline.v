(** ModelIntegrator.solve_strain, models.py 334-369: rates from the strain table,
    interpolators, StrainBasedModel and the block integrator of ode.py put together. *)
From Coq Require Import Reals List String Lra FunctionalExtensionality.
From mathcomp Require Import all_ssreflect all_algebra.
From Verif Require Import ChunkModel ChunkSolve ChunkInst NewtonModel NewtonProofs Ode OdeForward OdeAdjoint
  ZmodTac RField OdeReal OdeAffine.
From Verif Require Interp Models Flow Slices PipelineR.
Import GRing.Theory.
Set Implicit Arguments. Unset Strict Implicit. Unset Printing Implicit Defensive.
Local Open Scope ring_scope.

(** models.py 347-354: rates[0] = 0, rates[k] = difference quotient, nan -> 0.
    (0/0 is nan; for dt = 0 and a non-zero increment torch gives inf, which is not
    modelled: the statements below have strictly increasing times.) *)
Definition table_rates (times values : nat -> nat -> R) (k b : nat) : R :=
  match k with
  | O => R0
  | k'.+1 => let dt := Rminus (times k b) (times k' b) in
             if Req_EM_T dt R0 then R0 else Rdiv (Rminus (values k b) (values k' b)) dt
  end.

(** ArbitraryBatchTimeSeriesInterpolator at one query of one batch entry: the entry selected by the
    mask (Interp.select; Props_Interp shows the batched call returns exactly
    these inside the table's range and fails outside, where this is R0). *)
Definition interp_at (nt : nat) (times values : nat -> nat -> R) (b : nat) (x : R) : R :=
  List.hd R0 (Interp.select nt times values b x).

Section Strain.
Variable B : Models.rateform.
Notation m := (Models.rf_n B).

Definition to_vec (y : 'cV[RF]_m) : Slices.vec := fun i => if insub i is Some o then y o 0 else R0.

Variables (nb nt : nat) (times strains temps : nat -> nat -> R).

(** StrainBasedModel.forward, models.py 494-504, at batch entry b: the model's rate and
    Jacobian at the interpolated strain rate and temperature *)
Definition strain_f (b : 'I_nb) (t : RF) (y : 'cV[RF]_m) : 'cV[RF]_m :=
  \col_i (Models.rf_rate B t (to_vec y)
     (interp_at nt times (table_rates times strains) b t) (interp_at nt times temps b t) i : RF).
Definition strain_J (b : 'I_nb) (t : RF) (y : 'cV[RF]_m) : 'M[RF]_m :=
  \matrix_(i, j) (Models.rf_jac B t (to_vec y)
     (interp_at nt times (table_rates times strains) b t) (interp_at nt times temps b t) i j : RF).

Definition time_table (k : nat) : TB RF nb := [ffun b : 'I_nb => (times k b : RF)].

(** models.py 363-369: zero initial state *)
Definition solve_strain (s : scheme) (lm : lin_method) (rtol atol : R) (miter : nat) (throw : bool) (gt : string) (n : nat)
    (init : nat -> VB RF nb m) : istate RF nb m + ode_error :=
  integrate strain_f strain_J s lm (nrmR nb m) rtol atol miter throw gt n nt time_table (@zeroV RF nb m) init.

(** The entry i of the state at time k of batch entry b *)
Definition entry (st : istate RF nb m) (k : nat) (b : 'I_nb) (i : nat) : R := to_vec (i_result st k b) i.

Definition grid_ok : Prop := forall b, (b < nb)%N -> Interp.increasing nt (fun k => times k b).

Lemma interp_knot values k b : (1 < nt)%N -> (b < nb)%N -> grid_ok -> (k < nt)%N ->
  interp_at nt times values b (times k b) = values k b.
Proof. move=> /ltP n2 bn G /ltP kn; exact: (PipelineR.select_knot nt times values b k (G b bn) n2 kn). Qed.

Lemma to_vecE (y : 'cV[RF]_m) (i : 'I_m) : to_vec y i = y i 0.
Proof. by rewrite /to_vec insubT //= => h; congr (y _ _); apply: val_inj. Qed.
Lemma entryE st k b (i : 'I_m) : entry st k b i = i_result st k b i 0.
Proof. exact: to_vecE. Qed.

(** given strain rate of step k *)
Definition step_rate (k : nat) (b : nat) : R :=
  Rdiv (Rminus (strains k b) (strains k.-1 b)) (Rminus (times k b) (times k.-1 b)).
Lemma dt_pos k b : (b < nb)%N -> grid_ok -> (0 < k)%N -> (k < nt)%N -> Rlt R0 (Rminus (times k b) (times k.-1 b)).
Proof.
move=> bn G; case: k => [//|k] _ /ltP kn; have := G b bn k k.+1 (PeanoNat.Nat.lt_succ_diag_r k) kn => /=; lra.
Qed.
Lemma rates_knot k b : (b < nb)%N -> grid_ok -> (0 < k)%N -> (k < nt)%N -> table_rates times strains k b = step_rate k b.
Proof.
move=> bn G; case: k => [//|k] _ kn /=; have := @dt_pos k.+1 b bn G isT kn => /= H.
by case: Req_EM_T => // e; exfalso; lra.
Qed.
Lemma strain_f_knot k (b : 'I_nb) y : (1 < nt)%N -> grid_ok -> (0 < k)%N -> (k < nt)%N ->
  strain_f b (times k b) y = \col_i (Models.rf_rate B (times k b) (to_vec y) (step_rate k b) (temps k b) i : RF).
Proof.
move=> n2 G k0 kn; apply/colP=> i; rewrite !mxE !interp_knot // rates_knot //.
Qed.

Lemma strain_residual st k b (i : 'I_m) : grid_ok -> (0 < k)%N -> (k < nt)%N ->
  step_res strain_f BackwardEuler time_table (i_result st) k b i 0 =
  Rminus (Rminus (entry st k b i) (entry st k.-1 b i))
    (Rmult (Rminus (times k b) (times k.-1 b)) (Models.rf_rate B (times k b) (entry st k b) (step_rate k b) (temps k b) i)).
Proof.
move=> G k0 kn; rewrite /step_res !ffunE strain_f_knot //; last by apply: leq_ltn_trans kn.
by rewrite !mxE !entryE.
Qed.

Lemma solve_strain_exact lm miter throw gt n init st : grid_ok ->
  solve_strain BackwardEuler lm R0 R0 miter throw gt n init = inl st -> i_warned st = [::] ->
  (forall b i, (i < m)%N -> entry st 0 b i = R0) /\
  forall k b i, (0 < k)%N -> (k < nt)%N -> (i < m)%N ->
    Rminus (entry st k b i) (entry st k.-1 b i) =
    Rmult (Rminus (times k b) (times k.-1 b)) (Models.rf_rate B (times k b) (entry st k b) (step_rate k b) (temps k b) i).
Proof.
move=> G E W; split.
- have [_ [R0' _]] := integrate_writes E.
  by move=> b i im; rewrite (_ : i = Ordinal im) // entryE R0' ffunE mxE.
- move=> k b i k0 kn im; have := integrate_exact erefl erefl E W b k0 kn => /colP/(_ (Ordinal im)).
  rewrite strain_residual // mxE /= => H.
  by apply: Rminus_diag_uniq; exact: H.
Qed.
End Strain.

(** ** Elastic models *)
Section Elastic.
Variables (E : R -> R) (F : Flow.flowrule).
Notation B := (Models.inelastic E F).
Variables (nb nt : nat) (times strains temps : nat -> nat -> R).

Lemma inelastic_stress t y e T : Models.rf_rate B t y e T 0%N = Rmult (E T) (Rminus e (Flow.fl_rate F (y 0%N) (Slices.slice 1 y) t T e)).
Proof. by []. Qed.

Lemma zero_flow_affine : Flow.fl_nhist F = 0%N ->
  (forall s h t T e, Flow.fl_rate F s h t T e = R0 /\ Flow.fl_ds F s h t T e = R0) ->
  strain_f (B := B) (nb := nb) nt times strains temps =
    aff_rate (fun _ _ => 0) (fun b t => const_mx (Rmult (E (interp_at nt times temps b t)) (interp_at nt times (table_rates times strains) b t) : RF))
  /\ strain_J (B := B) (nb := nb) nt times strains temps = aff_jac (fun _ _ => 0).
Proof.
move=> N Z.
have z (i : 'I_(Models.rf_n B)) : nat_of_ord i = 0%N by case: i => [[|i] hi] //; move: (hi); rewrite /= N.
split; do 3 apply: functional_extensionality => ?.
- rewrite /aff_rate mul0mx add0r; apply/colP => i; rewrite !mxE z.
  by rewrite inelastic_stress (proj1 (Z _ _ _ _ _)) Rminus_0_r.
- rewrite /aff_jac; apply/matrixP => i j; rewrite !mxE !z.
  by rewrite /= /Slices.cat /= (proj2 (Z _ _ _ _ _)) Rmult_0_r.
Qed.
End Elastic.
