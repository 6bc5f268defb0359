(** C90-C92: stress-controlled and mixed simulations end to end (solve_stress, solve_both). *)
From Coq Require Import Reals List String Lra FunctionalExtensionality.
From mathcomp Require Import all_ssreflect all_algebra.
From Verif Require Import ChunkModel ChunkSolve ChunkInst NewtonModel Ode OdeForward OdeReal OdeBlock RField Pipeline PipelineBoth.
From Verif Require Interp Models Flow Damage Slices PipelineR StressR Torch Props_Pipeline.
Import GRing.Theory.
Set Implicit Arguments. Unset Strict Implicit. Unset Printing Implicit Defensive.
Local Open Scope R_scope.

(** C90: solve_both with every entry strain controlled is solve_strain, with every entry stress
    controlled it is solve_stress: same results, warnings and exceptions, for every model,
    scheme, linear solver, tolerance, guess, block size and table. *)
Theorem C90_all_strain (B : Models.rateform) nb nt times data temps control s lm rtol atol miter throw gt n init :
  (forall b, (b < nb)%N -> control b = 0) ->
  @solve_both B nb nt times data temps control s lm rtol atol miter throw gt n init =
  @solve_strain B nb nt times data temps s lm rtol atol miter throw gt n init.
Proof.
move=> C; rewrite /solve_both /solve_strain.
have -> : @both_G B nb nt times data temps control = fun _ ts y => (func_rate (strain_f nt times data temps) ts y, func_jac (strain_J nt times data temps) ts y).
{ apply: functional_extensionality => rows; apply: functional_extensionality => ts; apply: functional_extensionality => Y; exact: both_all_strain. }
exact: integrateG_pointwise.
Qed.
Print Assumptions C90_all_strain.
Theorem C90_all_stress (B : Models.rateform) nb nt times data temps control s lm rtol atol miter throw gt n init :
  (forall b, (b < nb)%N -> control b = 1) ->
  @solve_both B nb nt times data temps control s lm rtol atol miter throw gt n init =
  @solve_stress B nb nt times data temps s lm rtol atol miter throw gt n init.
Proof.
move=> C; rewrite /solve_both /solve_stress.
have -> : @both_G B nb nt times data temps control = @stress_G B nb nt times data temps.
{ apply: functional_extensionality => rows; apply: functional_extensionality => ts; apply: functional_extensionality => Y; exact: both_all_stress. }
by [].
Qed.
Print Assumptions C90_all_stress.

(** The times of each batch entry increase strictly. *)
Definition times_increase (nb nt : nat) (times : nat -> nat -> R) : Prop :=
  forall b, (b < nb)%N -> forall i j, (i < j)%coq_nat -> (j < nt)%coq_nat -> times i b < times j b.

(** The equations of a stress-controlled history of an InelasticModel(E, F): strain and history start
    at zero; over each step the strain advances by the elastic part, the tabulated stress increment
    over E, plus the creep dt * (inelastic rate at the new stress and history), up to dt / (10^10 E)
    (the inner solve stops at 1e-10); the history variables advance with their rates at the
    tabulated stress. *)
Definition creep_history (E : R -> R) (F : Flow.flowrule) (nt : nat) (times stresses temps : nat -> nat -> R) (b : nat)
    (strain : nat -> R) (hist : nat -> nat -> R) : Prop :=
  strain 0%N = 0 /\ (forall i, (i < Flow.fl_nhist F)%N -> hist 0%N i = 0) /\
  forall k, (0 < k)%N -> (k < nt)%N ->
    let dt := times k b - times k.-1 b in let T := temps k b in
    Rabs (strain k - strain k.-1 - ((stresses k b - stresses k.-1 b) / E T
            + dt * Flow.fl_rate F (stresses k b) (hist k) (times k b) T 0)) <= dt / (10 ^ 10 * E T) /\
    forall i, (i < Flow.fl_nhist F)%N ->
      hist k i - hist k.-1 i = dt * Flow.fl_hrate F (stresses k b) (hist k) (times k b) T 0 i.

Lemma creep_of_steps (E : R -> R) (F : Flow.flowrule) nb nt (times stresses temps : nat -> nat -> R) (st : istate RF nb (Models.rf_n (Models.inelastic E F))) (b : 'I_nb) :
  times_increase nb nt times -> Models.rate_free F -> (forall k, (k < nt)%N -> 0 < E (temps k b)) ->
  (forall i, (i < Models.rf_n (Models.inelastic E F))%N -> entry st 0 b i = 0) ->
  (forall k, (0 < k)%N -> (k < nt)%N -> stress_step times stresses temps st k b) ->
  creep_history E F nt times stresses temps b (fun k => entry st k b 0%N) (fun k i => entry st k b i.+1).
Proof.
move=> Gr RF HE Z H; split; first exact: Z.
split; first by move=> i iF; apply: Z.
move=> k k0 kn dt T; have [e [A [S1 S2]]] := H k k0 kn.
have D := @dt_pos nb nt times k b (ltn_ord b) Gr k0 kn; rewrite -/dt in D S1 S2.
have [F1 [F2 F3]] := RF (stresses k b) (fun i => entry st k b i.+1) (times k b) T e 0.
split.
- rewrite S1; apply: StressR.strain_increment => //; first exact: HE.
  rewrite -F1; exact: A.
- move=> i iF; have := F3 i (ltP iF) => -[<- _].
  by have := S2 i.+1 isT iF => ->; congr (_ * _); rewrite /= /Slices.cat /= PeanoNat.Nat.sub_0_r.
Qed.

(** C91: stress control, any InelasticModel whose flow does not depend on the strain rate. *)
Theorem C91_stress_control (E : R -> R) (F : Flow.flowrule) nb nt times stresses temps lm miter throw gt n init st :
  let B := Models.inelastic E F in
  times_increase nb nt times -> Models.rate_free F -> (forall k b, (k < nt)%N -> (b < nb)%N -> 0 < E (temps k b)) ->
  @solve_stress B nb nt times stresses temps BackwardEuler lm 0 0 miter throw gt n init = inl st -> i_warned st = [::] ->
  forall b : 'I_nb, creep_history E F nt times stresses temps b (fun k => entry st k b 0%N) (fun k i => entry st k b i.+1).
Proof.
move=> B Gr RF HE S W b.
have A : affine_run nt times stresses temps st.
  by move=> k b' kn; apply: StressR.inelastic_affine => //; apply: Rgt_not_eq; exact: HE.
apply: creep_of_steps => //.
- by move=> k kn; apply: HE.
- by move=> i im; apply: (run_zero S).
- by move=> k k0 kn; apply: (stress_steps (fun _ => 0) _ Gr S W A).
Qed.
Print Assumptions C91_stress_control.
(** Corollaries of the equations.  No inelastic flow: the strain is the stress change over E. *)
Theorem C91_elastic (E : R -> R) (F : Flow.flowrule) E0 nb nt times stresses temps b strain hist :
  times_increase nb nt times -> (b < nb)%N -> 0 < E0 -> (forall k, (k < nt)%N -> E (temps k b) = E0) ->
  (forall s h t T e, Flow.fl_rate F s h t T e = 0) ->
  creep_history E F nt times stresses temps b strain hist ->
  forall k, (k < nt)%N ->
  Rabs (strain k - (stresses k b - stresses 0%N b) / E0) <= (times k b - times 0%N b) / (10 ^ 10 * E0).
Proof.
move=> Gr bn E0p HE Z [Z0 [_ H]]; elim=> [|k IH] kn.
- rewrite Z0 /Rminus !Rplus_opp_r /Rdiv !Rmult_0_l Ropp_0 Rplus_0_l Rabs_R0; exact: Rle_refl.
- have [Q _] := H k.+1 isT kn; rewrite /= HE // Z in Q.
  have := StressR.strain_sum _ _ _ _ _ _ _ _ E0p (IH (ltnW kn)) Q.
  by rewrite (_ : times k b - times 0%N b + (times k.+1 b - times k b) = times k.+1 b - times 0%N b); last ring.
Qed.
Print Assumptions C91_elastic.
(** Constant stress and temperature from time k1 on: steady creep at the perfectly viscoplastic rate. *)
Theorem C91_steady_creep (E pn eta : R -> R) nb nt times stresses temps b strain hist k1 s T :
  times_increase nb nt times -> (b < nb)%N -> 0 < E T -> 0 < eta T -> s <> 0 ->
  creep_history E (Flow.perfect pn eta) nt times stresses temps b strain hist ->
  (forall k, (k1 <= k)%N -> (k < nt)%N -> stresses k b = s /\ temps k b = T) ->
  forall k, (k1 <= k)%N -> (k < nt)%N ->
  Rabs (strain k - strain k1 - (times k b - times k1 b) * (Torch.tsign s * Rpower (Rabs s / eta T) (pn T))) <= (times k b - times k1 b) / (10 ^ 10 * E T).
Proof.
move=> Gr bn Ep ep sn [Z0 [_ H]] C.
have rE h t e : Flow.fl_rate (Flow.perfect pn eta) s h t T e = Torch.tsign s * Rpower (Rabs s / eta T) (pn T).
{ rewrite /= Torch.pow0_pos; first ring. apply: Rdiv_lt_0_compat => //; exact: Rabs_pos_lt. }
elim=> [|k IH] kk kn.
- have -> : k1 = 0%N by move: kk; rewrite leqn0 => /eqP.
  rewrite /Rminus !Rplus_opp_r /Rdiv !Rmult_0_l Ropp_0 Rplus_0_l Rabs_R0; exact: Rle_refl.
- case: (ltngtP k1 k.+1) kk => // [lt|->] _; last by rewrite /Rminus !Rplus_opp_r /Rdiv !Rmult_0_l Ropp_0 Rplus_0_l Rabs_R0; exact: Rle_refl.
  have [Q _] := H k.+1 isT kn; have [sE TE] := C k.+1 (ltnW lt) kn; have [sE' _] := C k lt (ltnW kn).
  cbv zeta in Q; rewrite sE [k.+1.-1]/= sE' TE (Rminus_diag_eq s s) // rE in Q.
  have := StressR.creep_sum _ _ _ _ _ _ _ Ep (IH lt (ltnW kn)) Q.
  by rewrite (_ : times k b - times k1 b + (times k.+1 b - times k b) = times k.+1 b - times k1 b); last ring.
Qed.
Print Assumptions C91_steady_creep.
(** Models without history variables (elastic, perfectly viscoplastic) can always be run under stress
    control: for all tolerances, block sizes, linear solvers and guesses there are no failures. *)
Theorem C91_always_solved (E : R -> R) (F : Flow.flowrule) nb nt times stresses temps lm rtol atol miter throw gt n init :
  let B := Models.inelastic E F in
  Flow.fl_nhist F = 0%N -> 0 <= atol -> (0 < n)%N -> (1 < miter)%N -> (0 < nt)%N ->
  (gt = "zero" \/ gt = "previous" /\ (n < nt)%N)%string ->
  exists st, @solve_stress B nb nt times stresses temps BackwardEuler lm rtol atol miter throw gt n init = inl st /\ i_warned st = [::].
Proof. by move=> B N a0 n0 mi nt0 hg; apply: stress_never_fails => //; rewrite /= N. Qed.
Print Assumptions C91_always_solved.

(** C91 for DamagedInelasticModel: over each step the strain advances by dt e, where the strain rate e
    gives the tabulated stress rate to 1e-10 in the damaged model at the tabulated stress, the history and
    damage just computed; history and damage advance with their rates at that e. *)
Theorem C91_stress_control_damaged (E : R -> R) (F : Flow.flowrule) (M : Damage.damage) nb nt times stresses temps lm miter throw gt n init st :
  let B := Models.damaged E F M in
  times_increase nb nt times -> Models.rate_free F -> (forall k b, (k < nt)%N -> (b < nb)%N -> E (temps k b) <> 0) ->
  @solve_stress B nb nt times stresses temps BackwardEuler lm 0 0 miter throw gt n init = inl st -> i_warned st = [::] ->
  (forall k b, (k < nt)%N -> entry st k b (Flow.fl_nhist F).+1 <> 1) ->
  forall b : 'I_nb,
  let strain k := entry st k b 0%N in let hist k i := entry st k b i.+1 in let dam k := entry st k b (Flow.fl_nhist F).+1 in
  strain 0%N = 0 /\ (forall i, (i < Flow.fl_nhist F)%N -> hist 0%N i = 0) /\ dam 0%N = 0 /\
  forall k, (0 < k)%N -> (k < nt)%N ->
    let dt := times k b - times k.-1 b in let T := temps k b in let s := stresses k b in let es := s / (1 - dam k) in
    exists e,
      Rabs ((1 - dam k) * E T * (e - Flow.fl_rate F es (hist k) (times k b) T e) - (s - stresses k.-1 b) / dt) <= / 10 ^ 10 /\
      strain k - strain k.-1 = dt * e /\
      (forall i, (i < Flow.fl_nhist F)%N -> hist k i - hist k.-1 i = dt * Flow.fl_hrate F es (hist k) (times k b) T e i) /\
      dam k - dam k.-1 = dt * Damage.dm_rate M es (dam k) (times k b) T e.
Proof.
move=> B Gr RF HE S W ND b strain hist dam.
have A : affine_run nt times stresses temps st.
{ move=> k b' kn; apply: StressR.damaged_affine => //; first by apply: HE.
  by rewrite [Models.set0 _ _ _]/(entry st k b' (Flow.fl_nhist F).+1); exact: ND. }
split; first by apply: (run_zero S).
split; first by move=> i iF; apply: (run_zero S); apply: ltnW.
split; first by apply: (run_zero S).
have m0 : (0 < Models.rf_n B)%N by [].
move=> k k0 kn dt T s es; have [e [A1 [S1 S2]]] := stress_steps (fun _ => 0) m0 Gr S W A b k0 kn.
exists e; split; first exact: A1.
split; first exact: S1.
split.
- move=> i iF; have := S2 i.+1 isT (ltnW iF : (i.+1 < (Flow.fl_nhist F).+2)%N) => ->; congr (_ * _).
  have lt : PeanoNat.Nat.ltb i (Flow.fl_nhist F) = true by apply/PeanoNat.Nat.ltb_lt; apply/ltP.
  by rewrite /= /Slices.cat /= PeanoNat.Nat.sub_0_r lt.
- have := S2 (Flow.fl_nhist F).+1 isT (leqnn _) => ->; congr (_ * _).
  by rewrite /= /Slices.cat /= PeanoNat.Nat.sub_0_r PeanoNat.Nat.ltb_irrefl.
Qed.
Print Assumptions C91_stress_control_damaged.

(** C92: mixed batches.  In an exact run of solve_both the strain-controlled entries satisfy the
    equations of a strain-controlled simulation, the stress-controlled entries those of a
    stress-controlled one, whatever the other entries are; entries with any other flag stay at zero. *)
Theorem C92_strain_entries (E : R -> R) (F : Flow.flowrule) nb nt times data temps control lm miter throw gt n init st :
  let B := Models.inelastic E F in
  times_increase nb nt times ->
  @solve_both B nb nt times data temps control BackwardEuler lm 0 0 miter throw gt n init = inl st -> i_warned st = [::] ->
  forall b : 'I_nb, control b = 0 ->
  let stress k := entry st k b 0%N in let hist k i := entry st k b i.+1 in
  stress 0%N = 0 /\ (forall i, (i < Flow.fl_nhist F)%N -> hist 0%N i = 0) /\
  forall k, (0 < k)%N -> (k < nt)%N ->
    let dt := times k b - times k.-1 b in let de := data k b - data k.-1 b in
    stress k - stress k.-1 = E (temps k b) * (de - dt * Flow.fl_rate F (stress k) (hist k) (times k b) (temps k b) (de / dt)) /\
    forall i, (i < Flow.fl_nhist F)%N ->
      hist k i - hist k.-1 i = dt * Flow.fl_hrate F (stress k) (hist k) (times k b) (temps k b) (de / dt) i.
Proof.
move=> B Gr S W b C stress hist.
split; first by apply: (run_zero S).
split; first by move=> i iF; apply: (run_zero S).
move=> k k0 kn dt de; have D := @dt_pos nb nt times k b (ltn_ord b) Gr k0 kn; rewrite -/dt in D.
have H i (im : (i < Models.rf_n B)%N) := both_strain_steps Gr S W k0 kn im C.
split.
- have := H 0%N isT; rewrite inelastic_stress /step_rate -/de -/dt => Q.
  rewrite /stress Q -[Slices.slice 1 _]/(hist k) -/(stress k).
  move: (Flow.fl_rate _ _ _ _ _ _) => f; by field; lra.
- move=> i iF; have := H i.+1 iF; rewrite /hist => ->; congr (_ * _).
  by rewrite /= /Slices.cat /= PeanoNat.Nat.sub_0_r.
Qed.
Print Assumptions C92_strain_entries.
Theorem C92_stress_entries (E : R -> R) (F : Flow.flowrule) nb nt times data temps control lm miter throw gt n init st :
  let B := Models.inelastic E F in
  times_increase nb nt times -> Models.rate_free F -> (forall k b, (k < nt)%N -> (b < nb)%N -> 0 < E (temps k b)) ->
  @solve_both B nb nt times data temps control BackwardEuler lm 0 0 miter throw gt n init = inl st -> i_warned st = [::] ->
  forall b : 'I_nb, control b = 1 ->
  creep_history E F nt times data temps b (fun k => entry st k b 0%N) (fun k i => entry st k b i.+1).
Proof.
move=> B Gr RF HE S W b C.
have A : affine_run nt times data temps st.
  by move=> k b' kn; apply: StressR.inelastic_affine => //; apply: Rgt_not_eq; exact: HE.
apply: creep_of_steps => //.
- by move=> k kn; apply: HE.
- by move=> i im; apply: (run_zero S).
- by move=> k k0 kn; apply: (both_stress_steps _ Gr S W A).
Qed.
Print Assumptions C92_stress_entries.
Theorem C92_other_entries (B : Models.rateform) nb nt times data temps control lm miter throw gt n init st :
  times_increase nb nt times ->
  @solve_both B nb nt times data temps control BackwardEuler lm 0 0 miter throw gt n init = inl st -> i_warned st = [::] ->
  forall b : 'I_nb, control b <> 0 -> control b <> 1 -> forall k i, (k < nt)%N -> (i < Models.rf_n B)%N -> entry st k b i = 0.
Proof.
move=> Gr S W b C C'; elim=> [|k IH] i kn im; first exact: (run_zero S).
by have := both_none_steps Gr S W (ltn0Sn k) kn im C C' => /= ->; apply: IH => //; apply: ltnW.
Qed.
Print Assumptions C92_other_entries.
(** For perfect viscoplasticity the strain-controlled entries of a mixed batch are exactly what
    solve_strain returns for the same tables in a batch of any other composition. *)
Theorem C92_strain_entries_unaffected (E pn eta : R -> R) nb nb' nt times times' data data' temps temps' control lm lm' miter miter' throw throw' gt gt' n n' init init' st st' (b : 'I_nb) (b' : 'I_nb') :
  let B := Models.inelastic E (Flow.perfect pn eta) in
  times_increase nb nt times -> times_increase nb' nt times' -> (forall T, 0 < E T /\ 0 < eta T /\ 0 < pn T) ->
  @solve_both B nb nt times data temps control BackwardEuler lm 0 0 miter throw gt n init = inl st -> i_warned st = [::] ->
  @solve_strain B nb' nt times' data' temps' BackwardEuler lm' 0 0 miter' throw' gt' n' init' = inl st' -> i_warned st' = [::] ->
  control b = 0 ->
  (forall k, (k < nt)%N -> times k b = times' k b' /\ data k b = data' k b' /\ temps k b = temps' k b') ->
  forall k, (k < nt)%N -> entry st k b 0%N = entry st' k b' 0%N.
Proof.
move=> B Gr Gr' P S W S' W' C Same.
have /= [I [_ H]] := C92_strain_entries Gr S W C.
have [I' H'] := solve_strain_exact Gr' S' W'.
elim=> [|k IH] kn; first by rewrite I I'.
have [P1 [P2 P3]] := P (temps k.+1 b).
have D := @dt_pos nb nt times k.+1 b (ltn_ord b) Gr isT kn.
have [t1 [d1 T1]] := Same k.+1 kn; have [t0 [d0 T0]] := Same k (ltnW kn).
have [A _] := H k.+1 isT kn; have A' := H' k.+1 b' 0%N isT kn isT; rewrite /= -(IH (ltnW kn)) in A A'.
rewrite /= in D.
apply: (PipelineR.pv_unique (E (temps k.+1 b)) (pn (temps k.+1 b)) (eta (temps k.+1 b)) (times k.+1 b - times k b) (data k.+1 b - data k b) (entry st k b 0%N)) => //; try lra.
- rewrite /PipelineR.pv_step.
  move: A'; rewrite /step_rate /= /Slices.cat /= -t1 -t0 -d1 -d0 -T1 => ->.
  have F (dt e de q : R) : 0 < dt -> dt * (e * (de / dt - q)) = e * (de - dt * q) by move=> H0; field; lra.
  exact: F.
Qed.
Print Assumptions C92_strain_entries_unaffected.

(** ** The hypotheses are met *)
(** Perfect viscoplasticity held at 50 with E = 200, eta = 100, n = 5: the run succeeds and creeps
    at the rate (1/2)^5. *)
Lemma creep_run (E0 n0 eta0 s : R) nb nt (times : nat -> nat -> R) : 0 < E0 -> 0 < eta0 -> 0 < s -> (0 < nt)%N -> times_increase nb nt times ->
  exists st, @solve_stress (Models.inelastic (fun _ => E0) (Flow.perfect (fun _ => n0) (fun _ => eta0))) nb nt times (fun _ _ => s)
    (fun _ _ => 0) BackwardEuler (Direct Thomas) 0 0 10 true "zero" 3 (fun _ => @zeroV RF nb 1) = inl st
  /\ forall k (b : 'I_nb), (k < nt)%N ->
     Rabs (entry st k b 0%N - (times k b - times 0%N b) * Rpower (s / eta0) n0) <= (times k b - times 0%N b) / (10 ^ 10 * E0).
Proof.
move=> E0p etap sp ntp Gr; set E := fun _ : R => E0; set F := Flow.perfect _ _.
have [st [S W]] := @C91_always_solved E F nb nt times (fun _ _ => s) (fun _ _ => 0) (Direct Thomas) 0 0 10 true "zero" 3
   (fun _ => @zeroV RF nb 1) erefl (Rle_refl _) isT isT ntp (or_introl erefl).
exists st; split; first exact: S.
move=> k b kn.
have H := C91_stress_control Gr (@Models.rate_free_perfect _ _) (fun _ _ _ _ => E0p) S W b.
have := C91_steady_creep (k1 := 0) Gr (ltn_ord b) E0p etap (Rgt_not_eq _ _ sp) H (fun _ _ _ => conj erefl erefl) isT kn.
have -> : entry st 0 b 0 = 0 by apply: (run_zero S).
by rewrite Torch.tsign_pos // (Rabs_right s) ?Rminus_0_r ?Rmult_1_l //; apply: Rle_ge; apply: Rlt_le.
Qed.
Example C91_ex : exists st,
  @solve_stress (Models.inelastic (fun _ => 200) (Flow.perfect (fun _ => 5) (fun _ => 100))) 2 9 (fun k _ => INR k) (fun _ _ => 50)
    (fun _ _ => 0) BackwardEuler (Direct Thomas) 0 0 10 true "zero" 3 (fun _ => @zeroV RF 2 1) = inl st
  /\ forall k (b : 'I_2), (k < 9)%N -> Rabs (entry st k b 0%N - (INR k - INR 0) * Rpower (50 / 100) 5) <= (INR k - INR 0) / (10 ^ 10 * 200).
Proof. apply: creep_run => //; try lra. by move=> b' _ i j ij _; apply: lt_INR. Qed.

(** An elastic mixed batch: entry 0 is strain controlled, entry 1 stress controlled. *)
Lemma no_flow_rate : Models.rate_free Props_Pipeline.no_flow.
Proof. by move=> *; split=> //; split. Qed.
Example C92_ex : exists st,
  @solve_both (Models.inelastic (fun _ => 200) Props_Pipeline.no_flow) 2 5 (fun k _ => INR k) (fun k _ => INR k)
    (fun _ _ => 0) INR BackwardEuler (Direct Thomas) 0 0 10 true "zero" 3 (fun _ => @zeroV RF 2 1) = inl st
  /\ i_warned st = [::]
  /\ (forall k, (k < 5)%N -> entry st k (@Ordinal 2 0 isT) 0%N = 200 * INR k)
  /\ (forall k, (k < 5)%N -> Rabs (entry st k (@Ordinal 2 1 isT) 0%N - INR k / 200) <= INR k / (10 ^ 10 * 200)).
Proof.
set E := fun _ : R => 200; set F := Props_Pipeline.no_flow.
have Gr : times_increase 2 5 (fun k _ => INR k) by move=> b' _ i j ij _; apply: lt_INR.
have HB : forall t y y' e T, Models.rf_rate (Models.inelastic E F) t y e T 0%N = Models.rf_rate (Models.inelastic E F) t y' e T 0%N /\ Models.rf_jac (Models.inelastic E F) t y e T 0%N 0%N = R0.
{ by move=> t y y' e T; split=> //=; rewrite /Slices.cat /= /Flow.default_scalar Rmult_0_r. }
have [st [S W]] := @both_never_fails (Models.inelastic E F) erefl 2 5 (fun k _ => INR k) (fun k _ => INR k) (fun _ _ => 0) INR
   (Direct Thomas) 0 0 10 true "zero" 3 (fun _ => @zeroV RF 2 1) HB (Rle_refl _) isT isT isT (or_introl erefl).
exists st; split=> //; split=> //; split.
- have [Z [_ H]] := @C92_strain_entries E F 2 5 _ _ _ INR _ _ _ _ _ _ st Gr S W (@Ordinal 2 0 isT) erefl.
  elim=> [|k IH] kn; first by rewrite Z /= Rmult_0_r.
  have [/= Q _] := H k.+1 isT kn; rewrite IH in Q; last exact: ltnW.
  move: Q; rewrite -/(INR k.+1) !S_INR /E /Flow.default_scalar /=; lra.
- move=> k kn; have Ep (k' b' : nat) : (k' < 5)%N -> (b' < 2)%N -> 0 < E 0 by rewrite /E => *; lra.
  have H := C92_stress_entries Gr no_flow_rate Ep S W (b := @Ordinal 2 1 isT) erefl.
  have E0 : 0 < 200 by lra.
  have Z s h t T e : Flow.fl_rate F s h t T e = 0 by [].
  have := C91_elastic Gr (isT : (1 < 2)%N) E0 (fun _ _ => erefl) Z H kn.
  by rewrite /= !Rminus_0_r.
Qed.

(** A bar under a dead load whose damage grows at a constant rate: the hypotheses of the damaged
    theorem hold, the load being carried by a shrinking section. *)
Example C91_damaged_ex : exists st,
  let B := Models.damaged (fun _ => 200) Props_Pipeline.no_flow (Damage.constdamage (fun _ => / 20)) in
  @solve_stress B 2 9 (fun k _ => INR k) (fun _ _ => 50) (fun _ _ => 0) BackwardEuler (Direct Thomas) 0 0 10 true "zero" 3 (fun _ => @zeroV RF 2 2) = inl st
  /\ i_warned st = [::] /\ forall k (b : 'I_2), (k < 9)%N -> entry st k b 1%N = INR k / 20 /\ entry st k b 1%N <> 1.
Proof.
have Gr : times_increase 2 9 (fun k _ => INR k) by move=> b' _ i j ij _; apply: lt_INR.
have [st [S [W H]]] := @dead_load_run 200 (/ 20) 50 2 9 (fun k _ => INR k) Props_Pipeline.no_flow erefl (fun _ _ _ _ _ => conj erefl erefl) isT Gr.
exists st; split; first exact: S.
split=> // k b kn; rewrite H // (_ : INR 0 = 0) // Rminus_0_r; split; first exact: Rmult_comm.
have : INR k < 9 by rewrite (_ : 9 = INR 9); [apply: lt_INR; apply/ltP|rewrite /=; ring].
lra.
Qed.
