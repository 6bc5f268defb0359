(** C93: strain-controlled simulations with the forward-Euler scheme. *)
From Coq Require Import Reals List String Lra FunctionalExtensionality.
From mathcomp Require Import all_ssreflect all_algebra.
From Verif Require Import ChunkModel ChunkSolve ChunkInst NewtonModel Ode OdeForward OdeReal RField Pipeline.
From Verif Require Interp Models Flow Slices PipelineR Props_Pipeline.
Import GRing.Theory.
Set Implicit Arguments. Unset Strict Implicit. Unset Printing Implicit Defensive.
Local Open Scope R_scope.

(** The times of each batch entry increase strictly. *)
Definition times_increase (nb nt : nat) (times : nat -> nat -> R) : Prop :=
  forall b, (b < nb)%N -> forall i j, (i < j)%coq_nat -> (j < nt)%coq_nat -> times i b < times j b.

(** The strain rate imposed by the table over the step that ends at time k. *)
Definition imposed (times strains : nat -> nat -> R) (k b : nat) : R :=
  (strains k b - strains k.-1 b) / (times k b - times k.-1 b).

(** What the explicit scheme computes, for every model: the step from time k-1 to time k uses the state,
    time and temperature at k-1 (as forward Euler should) together with the strain rate imposed over
    the *previous* step, and zero for the first step. *)
Theorem C93_actual_increment (B : Models.rateform) nb nt times strains temps lm miter throw gt n init st :
  times_increase nb nt times ->
  @solve_strain B nb nt times strains temps ForwardEuler lm 0 0 miter throw gt n init = inl st -> i_warned st = [::] ->
  forall (b : 'I_nb) k i, (k.+1 < nt)%N -> (i < Models.rf_n B)%N ->
  let lagged := if k is 0%N then 0 else imposed times strains k b in
  entry st k.+1 b i - entry st k b i =
  (times k.+1 b - times k b) * Models.rf_rate B (times k b) (entry st k b) lagged (temps k b) i.
Proof.
move=> Gr S W b k i kn im lagged.
have := integrate_exact erefl erefl S W b (ltn0Sn k) kn => /colP/(_ (Ordinal im)).
rewrite /step_res !ffunE !mxE /=.
have n2 : (1 < nt)%N by apply: leq_ltn_trans kn.
rewrite !(fun v => @interp_knot nb nt times v k b n2 (ltn_ord b) Gr (ltnW kn)).
have -> : table_rates times strains k b = lagged.
{ case: k @lagged kn => [//|k] lagged kn; rewrite (rates_knot strains (ltn_ord b) Gr (ltn0Sn k) (ltnW kn)) //. }
rewrite -!entryE => Q; apply: Rminus_diag_uniq; exact: Q.
Qed.
Print Assumptions C93_actual_increment.

(** Hence the elastic stress lags one step behind the strain on an even time grid. *)
Theorem C93_elastic_lag (E : R -> R) (F : Flow.flowrule) E0 dt nb nt times strains temps lm miter throw gt n init st :
  let B := Models.inelastic E F in
  0 < dt -> (forall k b, (k < nt)%N -> (b < nb)%N -> times k b = times 0%N b + INR k * dt) ->
  (forall k b, (k < nt)%N -> (b < nb)%N -> E (temps k b) = E0) ->
  (forall s h t T e, Flow.fl_rate F s h t T e = 0) ->
  @solve_strain B nb nt times strains temps ForwardEuler lm 0 0 miter throw gt n init = inl st -> i_warned st = [::] ->
  forall (b : 'I_nb) k, (k.+1 < nt)%N -> entry st k.+1 b 0%N = E0 * (strains k b - strains 0%N b).
Proof.
move=> B dp HT HE Z S W b.
have Gr : times_increase nb nt times.
{ move=> b' bn i j ij jn.
  rewrite (HT i) //; last by apply/ltP; apply: PeanoNat.Nat.lt_trans ij jn.
  rewrite (HT j) //; last exact/ltP.
  by apply: Rplus_lt_compat_l; apply: Rmult_lt_compat_r => //; apply: lt_INR. }
have Z0 : entry st 0 b 0 = 0.
{ have [_ [R0' _]] := integrate_writes S.
  by rewrite (_ : 0%N = @Ordinal (Models.rf_n B) 0 isT) // entryE R0' ffunE mxE. }
have D k : (k.+1 < nt)%N -> times k.+1 b - times k b = dt.
{ move=> kn; rewrite (HT k.+1) // (HT k) ?S_INR //; [ring|exact: ltnW]. }
elim=> [|k IH] kn.
- have := C93_actual_increment Gr S W b kn (isT : (0 < Models.rf_n B)%N).
  rewrite Z0 /= /Slices.cat /= Z => Q; rewrite -[LHS]Rminus_0_r [LHS]Q; ring.
- have := C93_actual_increment Gr S W b kn (isT : (0 < Models.rf_n B)%N).
  rewrite (IH (ltnW kn)) (D _ kn) /= /Slices.cat /= Z HE ?(ltnW kn) // /imposed /= (D _ (ltnW kn)).
  move=> Q; have X : E0 * ((strains k.+1 b - strains k b) / dt - 0) * dt = E0 * (strains k.+1 b - strains k b) by field; lra.
  apply: (Rplus_eq_reg_r (- (E0 * (strains k b - strains 0%N b)))); rewrite [LHS]Q Rmult_comm X; ring.
Qed.
Print Assumptions C93_elastic_lag.

(** So the claim that the explicit scheme honours the imposed strain rate (an elastic simulation returns
    E times the strain) fails, although forward Euler always produces an exact run. *)
Theorem C93_elastic_tracks_refuted :
  ~ (forall (E0 : R) nb nt times strains st,
      0 < E0 -> times_increase nb nt times ->
      @solve_strain (Models.inelastic (fun _ => E0) Props_Pipeline.no_flow) nb nt times strains (fun _ _ => 0)
        ForwardEuler (Direct Thomas) 0 0 10 true "zero" 1 (fun _ => @zeroV RF nb 1) = inl st -> i_warned st = [::] ->
      forall (b : 'I_nb) k, (k < nt)%N -> entry st k b 0%N = E0 * (strains k b - strains 0%N b)).
Proof.
pose tm := fun k _ : nat => INR k.
have Gr : times_increase 1 3 tm by move=> b' _ i j ij _; apply: lt_INR.
have [st [S W]] := @fe_never_fails 1 1 (strain_f (B := Models.inelastic (fun _ => 200) Props_Pipeline.no_flow) 3 tm tm (fun _ _ => 0))
  (strain_J (B := Models.inelastic (fun _ => 200) Props_Pipeline.no_flow) 3 tm tm (fun _ _ => 0)) (Direct Thomas) 0 0 10 true "zero" 1 3
  (time_table 1 tm) (@zeroV RF 1 1) (fun _ => @zeroV RF 1 1) (Rle_refl _) isT isT isT (or_introl erefl).
have p : 0 < 200 by lra.
move=> H; have := H 200 1%N 3%N tm tm st p Gr S W (@Ordinal 1 0 isT) 1%N isT.
have -> := @C93_elastic_lag (fun _ => 200) Props_Pipeline.no_flow 200 1 1 3 tm tm _ _ _ _ _ _ _ st Rlt_0_1 _ _ _ S W (@Ordinal 1 0 isT) 0%N isT => //.
- rewrite /tm /=; lra.
- by move=> k b _ _; rewrite /tm /= Rplus_0_l Rmult_1_r.
Qed.
Print Assumptions C93_elastic_tracks_refuted.
