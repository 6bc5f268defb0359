(** C139: stress-controlled and mixed simulations with the forward-Euler scheme. *)
From Coq Require Import Reals List String Lra FunctionalExtensionality.
From mathcomp Require Import all_ssreflect all_algebra.
From Verif Require Import ChunkModel ChunkSolve ChunkInst NewtonModel Ode OdeForward OdeReal OdeBlock RField Pipeline PipelineBoth ExplicitBoth.
From Verif Require Interp Models Flow Damage Slices PipelineR StressR Torch Props_Pipeline Props_Stress.
Import GRing.Theory.
Set Implicit Arguments. Unset Strict Implicit. Unset Printing Implicit Defensive.
Local Open Scope R_scope.

(** The times of each batch entry increase strictly. *)
Definition times_increase (nb nt : nat) (times : nat -> nat -> R) : Prop :=
  forall b, (b < nb)%N -> forall i j, (i < j)%coq_nat -> (j < nt)%coq_nat -> times i b < times j b.

(** The rate of the table over the step that *ends* at time k; zero at time 0. *)
Definition lagged (times values : nat -> nat -> R) (k b : nat) : R :=
  if k is 0%N then 0 else (values k b - values k.-1 b) / (times k b - times k.-1 b).

Lemma lagged_rates nb nt times values k b : times_increase nb nt times -> (b < nb)%N -> (k < nt)%N ->
  table_rates times values k b = lagged times values k b.
Proof. move=> Gr bn; case: k => [//|k] kn; rewrite (rates_knot values bn Gr (ltn0Sn k) kn) //. Qed.

(** The explicit stress-controlled history of an InelasticModel(E, F): strain and history start at
    zero; the step from time k to time k+1 uses time, stress, temperature and history at time k, with the
    stress rate of the *previous* step: the strain advances by dt (lagged stress rate over E + inelastic
    rate), up to dt / (10^10 E) (the inner solve stops at 1e-10). *)
Definition explicit_creep (E : R -> R) (F : Flow.flowrule) (nt : nat) (times stresses temps : nat -> nat -> R) (b : nat)
    (strain : nat -> R) (hist : nat -> nat -> R) : Prop :=
  strain 0%N = 0 /\ (forall i, (i < Flow.fl_nhist F)%N -> hist 0%N i = 0) /\
  forall k, (k.+1 < nt)%N ->
    let dt := times k.+1 b - times k b in let T := temps k b in let s := stresses k b in
    Rabs (strain k.+1 - strain k - dt * (lagged times stresses k b / E T + Flow.fl_rate F s (hist k) (times k b) T 0))
      <= dt / (10 ^ 10 * E T) /\
    forall i, (i < Flow.fl_nhist F)%N ->
      hist k.+1 i - hist k i = dt * Flow.fl_hrate F s (hist k) (times k b) T 0 i.

Lemma creep_of_steps (E : R -> R) (F : Flow.flowrule) nb nt (times stresses temps : nat -> nat -> R) (st : istate RF nb (Models.rf_n (Models.inelastic E F))) (b : 'I_nb) :
  times_increase nb nt times -> Models.rate_free F -> (forall k, (k < nt)%N -> 0 < E (temps k b)) ->
  (forall i, (i < Models.rf_n (Models.inelastic E F))%N -> entry st 0 b i = 0) ->
  (forall k, (k.+1 < nt)%N -> stress_step_fe times stresses temps st k b) ->
  explicit_creep E F nt times stresses temps b (fun k => entry st k b 0%N) (fun k i => entry st k b i.+1).
Proof.
move=> Gr RF HE Z H; split; first exact: Z.
split; first by move=> i iF; apply: Z.
move=> k kn dt T s; have [e [A [S1 S2]]] := H k kn.
have D := @dt_pos nb nt times k.+1 b (ltn_ord b) Gr isT kn; rewrite [k.+1.-1]/= -/dt in D S1 S2.
have [F1 [F2 F3]] := RF s (fun i => entry st k b i.+1) (times k b) T e 0.
have Ep : 0 < E T by apply: HE; apply: ltnW.
rewrite (lagged_rates stresses Gr (ltn_ord b) (ltnW kn)) in A.
split.
- rewrite S1; move: A; rewrite -/T -/s; set l := lagged _ _ _ _; set p := Flow.fl_rate _ _ _ _ _ _ => A.
  have A' : Rabs (E T * (e - p) - (dt * l - 0) / dt) <= / 10 ^ 10.
  { have -> : (dt * l - 0) / dt = l by field; lra. rewrite /p -F1; exact: A. }
  have := StressR.strain_increment _ _ _ _ _ _ Ep D A'.
  have -> : dt * e - ((dt * l - 0) / E T + dt * p) = dt * e - dt * (l / E T + p) by field; lra.
  by [].
- move=> i iF; have := F3 i (ltP iF) => -[<- _].
  by have := S2 i.+1 isT iF => ->; congr (_ * _); rewrite /= /Slices.cat /= PeanoNat.Nat.sub_0_r.
Qed.

(** Stress control, any InelasticModel whose flow does not depend on the strain rate. *)
Theorem C139_stress_control (E : R -> R) (F : Flow.flowrule) nb nt times stresses temps lm miter throw gt n init st :
  let B := Models.inelastic E F in
  times_increase nb nt times -> Models.rate_free F -> (forall k b, (k < nt)%N -> (b < nb)%N -> 0 < E (temps k b)) ->
  @solve_stress B nb nt times stresses temps ForwardEuler lm 0 0 miter throw gt n init = inl st -> i_warned st = [::] ->
  forall b : 'I_nb, explicit_creep E F nt times stresses temps b (fun k => entry st k b 0%N) (fun k i => entry st k b i.+1).
Proof.
move=> B Gr RF HE S W b.
have A : affine_run nt times stresses temps st.
  by move=> k b' kn; apply: StressR.inelastic_affine => //; apply: Rgt_not_eq; exact: HE.
apply: creep_of_steps => //.
- by move=> k kn; apply: HE.
- by move=> i im; apply: (run_zero S).
- by move=> k kn; apply: (stress_fe (fun _ => 0) _ Gr S W A).
Qed.
Print Assumptions C139_stress_control.

(** DamagedInelasticModel: the strain rate e gives the lagged stress rate to 1e-10 in the damaged model,
    everything at time k. *)
Theorem C139_stress_control_damaged (E : R -> R) (F : Flow.flowrule) (M : Damage.damage) nb nt times stresses temps lm miter throw gt n init st :
  let B := Models.damaged E F M in
  times_increase nb nt times -> Models.rate_free F -> (forall k b, (k < nt)%N -> (b < nb)%N -> E (temps k b) <> 0) ->
  @solve_stress B nb nt times stresses temps ForwardEuler lm 0 0 miter throw gt n init = inl st -> i_warned st = [::] ->
  (forall k b, (k < nt)%N -> entry st k b (Flow.fl_nhist F).+1 <> 1) ->
  forall b : 'I_nb,
  let strain k := entry st k b 0%N in let hist k i := entry st k b i.+1 in let dam k := entry st k b (Flow.fl_nhist F).+1 in
  strain 0%N = 0 /\ (forall i, (i < Flow.fl_nhist F)%N -> hist 0%N i = 0) /\ dam 0%N = 0 /\
  forall k, (k.+1 < nt)%N ->
    let dt := times k.+1 b - times k b in let T := temps k b in let es := stresses k b / (1 - dam k) in
    exists e,
      Rabs ((1 - dam k) * E T * (e - Flow.fl_rate F es (hist k) (times k b) T e) - lagged times stresses k b) <= / 10 ^ 10 /\
      strain k.+1 - strain k = dt * e /\
      (forall i, (i < Flow.fl_nhist F)%N -> hist k.+1 i - hist k i = dt * Flow.fl_hrate F es (hist k) (times k b) T e i) /\
      dam k.+1 - dam k = dt * Damage.dm_rate M es (dam k) (times k b) T e.
Proof.
move=> B Gr RF HE S W ND b strain hist dam.
have A : affine_run nt times stresses temps st.
{ move=> k b' kn; apply: StressR.damaged_affine => //; first by apply: HE.
  by rewrite [Models.set0 _ _ _]/(entry st k b' (Flow.fl_nhist F).+1); exact: ND. }
split; first by apply: (run_zero S).
split; first by move=> i iF; apply: (run_zero S); apply: ltnW.
split; first by apply: (run_zero S).
have m0 : (0 < Models.rf_n B)%N by [].
move=> k kn dt T es; have [e [A1 [S1 S2]]] := stress_fe (fun _ => 0) m0 Gr S W A b kn.
exists e; split.
{ rewrite -(lagged_rates stresses Gr (ltn_ord b) (ltnW kn)); exact: A1. }
split; first exact: S1.
split.
- move=> i iF; have := S2 i.+1 isT (ltnW iF : (i.+1 < (Flow.fl_nhist F).+2)%N) => ->; congr (_ * _).
  have lt : PeanoNat.Nat.ltb i (Flow.fl_nhist F) = true by apply/PeanoNat.Nat.ltb_lt; apply/ltP.
  by rewrite /= /Slices.cat /= PeanoNat.Nat.sub_0_r lt.
- have := S2 (Flow.fl_nhist F).+1 isT (leqnn _) => ->; congr (_ * _).
  by rewrite /= /Slices.cat /= PeanoNat.Nat.sub_0_r PeanoNat.Nat.ltb_irrefl.
Qed.
Print Assumptions C139_stress_control_damaged.

(** Mixed batches: strain-controlled entries take explicit strain-controlled steps (for every model),
    stress-controlled entries follow the explicit creep equations, other flags stay at zero. *)
Theorem C139_mixed_strain (B : Models.rateform) nb nt times data temps control lm miter throw gt n init st :
  times_increase nb nt times ->
  @solve_both B nb nt times data temps control ForwardEuler lm 0 0 miter throw gt n init = inl st -> i_warned st = [::] ->
  forall b : 'I_nb, control b = 0 ->
  (forall i, (i < Models.rf_n B)%N -> entry st 0 b i = 0) /\
  forall k i, (k.+1 < nt)%N -> (i < Models.rf_n B)%N ->
    entry st k.+1 b i - entry st k b i =
    (times k.+1 b - times k b) * Models.rf_rate B (times k b) (entry st k b) (lagged times data k b) (temps k b) i.
Proof.
move=> Gr S W b C; split; first by move=> i im; apply: (run_zero S).
move=> k i kn im; rewrite -(lagged_rates data Gr (ltn_ord b) (ltnW kn)); exact: (both_strain_fe Gr S W kn im C).
Qed.
Print Assumptions C139_mixed_strain.
Theorem C139_mixed_stress (E : R -> R) (F : Flow.flowrule) nb nt times data temps control lm miter throw gt n init st :
  let B := Models.inelastic E F in
  times_increase nb nt times -> Models.rate_free F -> (forall k b, (k < nt)%N -> (b < nb)%N -> 0 < E (temps k b)) ->
  @solve_both B nb nt times data temps control ForwardEuler lm 0 0 miter throw gt n init = inl st -> i_warned st = [::] ->
  forall b : 'I_nb, control b = 1 ->
  explicit_creep E F nt times data temps b (fun k => entry st k b 0%N) (fun k i => entry st k b i.+1).
Proof.
move=> B Gr RF HE S W b C.
have A : affine_run nt times data temps st.
  by move=> k b' kn; apply: StressR.inelastic_affine => //; apply: Rgt_not_eq; exact: HE.
apply: creep_of_steps => //.
- by move=> k kn; apply: HE.
- by move=> i im; apply: (run_zero S).
- by move=> k kn; apply: (both_stress_fe _ Gr S W A).
Qed.
Print Assumptions C139_mixed_stress.
Theorem C139_mixed_other (B : Models.rateform) nb nt times data temps control lm miter throw gt n init st :
  times_increase nb nt times ->
  @solve_both B nb nt times data temps control ForwardEuler lm 0 0 miter throw gt n init = inl st -> i_warned st = [::] ->
  forall b : 'I_nb, control b <> 0 -> control b <> 1 -> forall k i, (k < nt)%N -> (i < Models.rf_n B)%N -> entry st k b i = 0.
Proof.
move=> Gr S W b C C'; elim=> [|k IH] i kn im; first exact: (run_zero S).
by rewrite (both_none_fe Gr S W kn im C C'); apply: IH => //; apply: ltnW.
Qed.
Print Assumptions C139_mixed_other.

(** No inelastic flow, even time grid: the strain lags one step behind stress over E. *)
Theorem C139_elastic_lag (E : R -> R) (F : Flow.flowrule) E0 dt (nb nt : nat) times stresses temps b strain hist :
  0 < dt -> 0 < E0 -> (forall k, (k < nt)%N -> times k b = times 0%N b + INR k * dt) ->
  (forall k, (k < nt)%N -> E (temps k b) = E0) ->
  (forall s h t T e, Flow.fl_rate F s h t T e = 0) ->
  explicit_creep E F nt times stresses temps b strain hist ->
  forall k, (k.+1 < nt)%N ->
  Rabs (strain k.+1 - (stresses k b - stresses 0%N b) / E0) <= (times k.+1 b - times 0%N b) / (10 ^ 10 * E0).
Proof.
move=> dp E0p HT HE Z [Z0 [_ H]].
have D k : (k.+1 < nt)%N -> times k.+1 b - times k b = dt.
{ move=> kn; rewrite (HT k.+1) // (HT k) ?S_INR //; [ring|exact: ltnW]. }
elim=> [|k IH] kn.
- have [Q _] := H 0%N kn; move: Q; cbv zeta; rewrite /lagged Z Z0 HE ?(ltnW kn) //.
  have -> : strain 1%N - 0 - (times 1%N b - times 0%N b) * (0 / E0 + 0) = strain 1%N by field; lra.
  by have -> : strain 1%N - (stresses 0%N b - stresses 0%N b) / E0 = strain 1%N by field; lra.
- have [Q _] := H k.+1 kn; move: Q; cbv zeta; rewrite /lagged [k.+1.-1]/= Z (HE k.+1) ?(ltnW kn) // (D k) ?(ltnW kn) // (D k.+1) // => Q.
  have Q' : Rabs (strain k.+2 - strain k.+1 - ((stresses k.+1 b - stresses k b) / E0 + dt * 0)) <= dt / (10 ^ 10 * E0).
  { move: Q; have -> : dt * ((stresses k.+1 b - stresses k b) / dt / E0 + 0) = (stresses k.+1 b - stresses k b) / E0 + dt * 0 by field; lra.
    by []. }
  have := StressR.strain_sum _ _ _ _ _ _ _ _ E0p (IH (ltnW kn)) Q'.
  by rewrite -[dt in (_ + dt) / _](D k.+1) // (_ : times k.+1 b - times 0%N b + (times k.+2 b - times k.+1 b) = times k.+2 b - times 0%N b); last ring.
Qed.
Print Assumptions C139_elastic_lag.

(** Constant stress and temperature from time k1 on: steady creep at the perfectly viscoplastic rate,
    one step later than the implicit scheme. *)
Theorem C139_steady_creep (E pn eta : R -> R) nb nt times stresses temps b strain hist k1 s T :
  times_increase nb nt times -> (b < nb)%N -> 0 < E T -> 0 < eta T -> s <> 0 ->
  explicit_creep E (Flow.perfect pn eta) nt times stresses temps b strain hist ->
  (forall k, (k1 <= k)%N -> (k < nt)%N -> stresses k b = s /\ temps k b = T) ->
  forall k, (k1 < k)%N -> (k < nt)%N ->
  Rabs (strain k - strain k1.+1 - (times k b - times k1.+1 b) * (Torch.tsign s * Rpower (Rabs s / eta T) (pn T))) <= (times k b - times k1.+1 b) / (10 ^ 10 * E T).
Proof.
move=> Gr bn Ep ep sn [Z0 [_ H]] C.
have rE h t e : Flow.fl_rate (Flow.perfect pn eta) s h t T e = Torch.tsign s * Rpower (Rabs s / eta T) (pn T).
{ rewrite /= Torch.pow0_pos; first ring. apply: Rdiv_lt_0_compat => //; exact: Rabs_pos_lt. }
elim=> [//|k IH] kk kn.
have [->|lt] : k1 = k \/ (k1 < k)%N by move: kk; rewrite ltnS leq_eqVlt => /orP[/eqP|]; [left|right].
{ rewrite /Rminus !Rplus_opp_r /Rdiv !Rmult_0_l Ropp_0 Rplus_0_l Rabs_R0; exact: Rle_refl. }
have [Q _] := H k kn; have [sE TE] := C k (ltnW lt) (ltnW kn).
have L0 : lagged times stresses k b = 0.
{ case: k {kk IH Q sE TE} lt kn => [//|k] lt kn; rewrite /lagged [k.+1.-1]/=.
  have [-> _] := C k.+1 (leqW lt) (ltnW kn); have [-> _] := C k lt (ltnW (ltnW kn)).
  by rewrite Rminus_diag_eq // /Rdiv Rmult_0_l. }
cbv zeta in Q; rewrite L0 sE TE rE in Q.
have Q' : Rabs (strain k.+1 - strain k - (0 / E T + (times k.+1 b - times k b) * (Torch.tsign s * Rpower (Rabs s / eta T) (pn T)))) <= (times k.+1 b - times k b) / (10 ^ 10 * E T).
{ move: Q; set p := Torch.tsign s * _.
  have -> : (times k.+1 b - times k b) * (0 / E T + p) = 0 / E T + (times k.+1 b - times k b) * p by field; lra.
  by []. }
have := StressR.creep_sum _ _ _ _ _ _ _ Ep (IH lt (ltnW kn)) Q'.
by rewrite (_ : times k b - times k1.+1 b + (times k.+1 b - times k b) = times k.+1 b - times k1.+1 b); last ring.
Qed.
Print Assumptions C139_steady_creep.

(** Models without history variables always run. *)
Theorem C139_always_solved (E : R -> R) (F : Flow.flowrule) nb nt times stresses temps lm rtol atol miter throw gt n init :
  let B := Models.inelastic E F in
  Flow.fl_nhist F = 0%N -> 0 <= atol -> (0 < n)%N -> (1 < miter)%N -> (0 < nt)%N ->
  (gt = "zero" \/ gt = "previous" /\ (n < nt)%N)%string ->
  exists st, @solve_stress B nb nt times stresses temps ForwardEuler lm rtol atol miter throw gt n init = inl st /\ i_warned st = [::].
Proof. by move=> B N a0 n0 mi nt0 hg; apply: stress_never_fails_fe => //; rewrite /= N. Qed.
Print Assumptions C139_always_solved.

(** So "the elastic strain is the applied stress change over E" (true for the implicit scheme, C91) fails. *)
Theorem C139_does_not_track :
  ~ (forall (E0 : R) nb nt times stresses st, 0 < E0 -> times_increase nb nt times ->
      @solve_stress (Models.inelastic (fun _ => E0) Props_Pipeline.no_flow) nb nt times stresses (fun _ _ => 0)
        ForwardEuler (Direct Thomas) 0 0 10 true "zero" 1 (fun _ => @zeroV RF nb 1) = inl st -> i_warned st = [::] ->
      forall (b : 'I_nb) k, (k < nt)%N ->
      Rabs (entry st k b 0%N - (stresses k b - stresses 0%N b) / E0) <= (times k b - times 0%N b) / (10 ^ 10 * E0)).
Proof.
pose tm := fun k _ : nat => INR k.
have Gr : times_increase 1 3 tm by move=> b' _ i j ij _; apply: lt_INR.
have [st [S W]] := @C139_always_solved (fun _ => 200) Props_Pipeline.no_flow 1 3 tm tm (fun _ _ => 0) (Direct Thomas) 0 0 10 true "zero" 1
  (fun _ => @zeroV RF 1 1) erefl (Rle_refl _) isT isT isT (or_introl erefl).
have p : 0 < 200 by lra.
move=> H; have := H 200 1%N 3%N tm tm st p Gr S W (@Ordinal 1 0 isT) 1%N isT.
have C := C139_stress_control Gr Props_Stress.no_flow_rate (fun _ _ _ _ => p) S W (@Ordinal 1 0 isT).
have Ht k : (k < 3)%N -> tm k (@Ordinal 1 0 isT) = tm 0%N (@Ordinal 1 0 isT) + INR k * 1 by move=> _; rewrite /tm /= Rplus_0_l Rmult_1_r.
have := @C139_elastic_lag (fun _ => 200) Props_Pipeline.no_flow 200 1 1 3 tm tm (fun _ _ => 0) _ _ _ Rlt_0_1 p Ht (fun _ _ => erefl) (fun _ _ _ _ _ => erefl) C 0%N isT.
rewrite (_ : tm 0%N (@Ordinal 1 0 isT) = 0) // (_ : tm 1%N (@Ordinal 1 0 isT) = 1) //.
move: (entry st 1 _ 0) => x.
have -> : x - (0 - 0) / 200 = x by field.
have -> : x - (1 - 0) / 200 = x - / 200 by field.
have -> : (1 - 0) / (10 ^ 10 * 200) = 1 / (10 ^ 10 * 200) by field.
have h : 1 / (10 ^ 10 * 200) < 1 / 1000 by lra.
rewrite /Rabs; case: Rcase_abs => c1; case: Rcase_abs => c2; lra.
Qed.
Print Assumptions C139_does_not_track.

(** Example: perfect viscoplasticity held at 50 with E = 200, eta = 100, n = 5 by the explicit scheme:
    the run succeeds and creeps at the rate (1/2)^5. *)
Example C139_ex : exists st,
  @solve_stress (Models.inelastic (fun _ => 200) (Flow.perfect (fun _ => 5) (fun _ => 100))) 2 9 (fun k _ => INR k) (fun _ _ => 50)
    (fun _ _ => 0) ForwardEuler (Direct Thomas) 0 0 10 true "zero" 3 (fun _ => @zeroV RF 2 1) = inl st
  /\ forall k (b : 'I_2), (0 < k)%N -> (k < 9)%N ->
     Rabs (entry st k b 0%N - entry st 1 b 0%N - (INR k - INR 1) * Rpower (50 / 100) 5) <= (INR k - INR 1) / (10 ^ 10 * 200).
Proof.
pose tm := fun k _ : nat => INR k.
have Gr : times_increase 2 9 tm by move=> b' _ i j ij _; apply: lt_INR.
have [st [S W]] := @C139_always_solved (fun _ => 200) (Flow.perfect (fun _ => 5) (fun _ => 100)) 2 9 tm (fun _ _ => 50) (fun _ _ => 0) (Direct Thomas) 0 0 10 true "zero" 3
   (fun _ => @zeroV RF 2 1) erefl (Rle_refl _) isT isT isT (or_introl erefl).
have Ep : 0 < 200 by lra. have ep : 0 < 100 by lra. have sp : 0 < 50 by lra.
exists st; split; first exact: S.
move=> k b k0 kn.
have C := C139_stress_control Gr (@Models.rate_free_perfect _ _) (fun _ _ _ _ => Ep) S W b.
have := C139_steady_creep (k1 := 0) Gr (ltn_ord b) Ep ep (Rgt_not_eq _ _ sp) C (fun _ _ _ => conj erefl erefl) k0 kn.
by rewrite Torch.tsign_pos // (Rabs_right 50) ?Rmult_1_l //; lra.
Qed.
