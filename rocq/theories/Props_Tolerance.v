(** Properties with the solver's tolerances in force (C38, C86, C91, C92, C101): what is
    guaranteed when the Newton iteration stops at rtol/atol instead of at an exact solution. *)
From Coq Require Import Reals List String Lra FunctionalExtensionality.
From mathcomp Require Import all_ssreflect all_algebra.
From Verif Require Import ChunkModel ChunkSolve ChunkInst NewtonModel Ode OdeForward OdeReal OdeBlock OdeAffine RField Pipeline PipelineBoth
  Props_Ode Props_Pipeline Props_Stress Gmres Implicit Tolerance.
From Verif Require Interp Models Flow Damage Slices PipelineR StressR Torch TolR.
Import GRing.Theory.
Set Implicit Arguments. Unset Strict Implicit. Unset Printing Implicit Defensive.
Local Open Scope R_scope.

(** ** C38 *)
(** In any unwarned backward Euler run on increasing times the stress update uses the given
    strain increment and temperature, up to the tolerance; so do the history variables. *)
Theorem C38_increment_to_tolerance (E : R -> R) (F : Flow.flowrule) nb nt (times strains temps : nat -> nat -> R) lm rtol atol miter throw gt n init st (b : 'I_nb) tol :
  let B := Models.inelastic E F in
  times_increase nb nt times ->
  @solve_strain B nb nt times strains temps BackwardEuler lm rtol atol miter throw gt n init = inl st -> i_warned st = [::] ->
  tol_bound (strain_f (B := B) nt times strains temps) BackwardEuler rtol atol gt n nt (time_table nb times) (i_result st) b tol ->
  let stress k := entry st k b 0%N in let hist k i := entry st k b i.+1 in
  stress 0%N = 0 /\ (forall i, (i < Flow.fl_nhist F)%N -> hist 0%N i = 0) /\
  forall k, (0 < k)%N -> (k < nt)%N ->
    let dt := times k b - times k.-1 b in let de := strains k b - strains k.-1 b in
    Rabs (stress k - stress k.-1 - E (temps k b) * (de - dt * Flow.fl_rate F (stress k) (hist k) (times k b) (temps k b) (de / dt))) <= tol /\
    forall i, (i < Flow.fl_nhist F)%N ->
      Rabs (hist k i - hist k.-1 i - dt * Flow.fl_hrate F (stress k) (hist k) (times k b) (temps k b) (de / dt) i) <= tol.
Proof.
move=> B Gr S W T stress hist.
have [Z H] := strain_steps_tol Gr S W T; split; first exact: Z.
split; first by move=> i iF; apply: Z.
move=> k k0 kn dt de; have D := @dt_pos nb nt times k b (ltn_ord b) Gr k0 kn; rewrite -/dt in D.
split.
- have := H k 0%N k0 kn isT; rewrite inelastic_stress /step_rate -/dt -/de -[Slices.slice 1 _]/(hist k) -/(stress k) -/(stress k.-1).
  by rewrite (_ : dt * (E (temps k b) * (de / dt - Flow.fl_rate F (stress k) (hist k) (times k b) (temps k b) (de / dt))) =
     E (temps k b) * (de - dt * Flow.fl_rate F (stress k) (hist k) (times k b) (temps k b) (de / dt))); last by field; lra.
- move=> i iF; have := H k i.+1 k0 kn iF.
  by rewrite /= /Slices.cat /= PeanoNat.Nat.sub_0_r.
Qed.
Print Assumptions C38_increment_to_tolerance.

(** Elastic behaviour: the stress follows E0 times the strain, losing at most one tolerance per step. *)
Theorem C38_elastic_to_tolerance (E : R -> R) (F : Flow.flowrule) E0 nb nt (times strains temps : nat -> nat -> R) lm rtol atol miter throw gt n init st (b : 'I_nb) tol :
  let B := Models.inelastic E F in
  times_increase nb nt times ->
  (forall s h t T e, Flow.fl_rate F s h t T e = 0) -> (forall k, E (temps k b) = E0) ->
  @solve_strain B nb nt times strains temps BackwardEuler lm rtol atol miter throw gt n init = inl st -> i_warned st = [::] ->
  tol_bound (strain_f (B := B) nt times strains temps) BackwardEuler rtol atol gt n nt (time_table nb times) (i_result st) b tol ->
  forall k, (k < nt)%N -> Rabs (entry st k b 0%N - E0 * (strains k b - strains 0%N b)) <= INR k * tol.
Proof.
move=> B Gr Z HE S W T; have /= [I [_ H]] := C38_increment_to_tolerance Gr S W T.
elim=> [|k IH] kn.
- rewrite I /Rminus !Rplus_opp_r Rmult_0_r Ropp_0 Rplus_0_l Rabs_R0 /=; lra.
- have [Q _] := H k.+1 (ltn0Sn k) kn; rewrite Z HE [k.+1.-1]/= in Q; have := IH (ltnW kn) => P.
  rewrite (_ : entry st k.+1 b 0%N - E0 * (strains k.+1 b - strains 0%N b) =
    (entry st k.+1 b 0%N - entry st k b 0%N - E0 * (strains k.+1 b - strains k b - (times k.+1 b - times k b) * 0)) +
    (entry st k b 0%N - E0 * (strains k b - strains 0%N b))); last ring.
  apply: Rle_trans (Rabs_triang _ _) _; rewrite S_INR; lra.
Qed.
Print Assumptions C38_elastic_to_tolerance.

(** ** C86 *)
(** Perfect viscoplasticity: the stress never exceeds the flow stress at the largest strain rate seen,
    the strain increments being enlarged by tol / E. *)
Theorem C86_saturates_to_tolerance (E pn eta : R -> R) nb nt (times strains temps : nat -> nat -> R) lm rtol atol miter throw gt n init st (b : 'I_nb) tol :
  let B := Models.inelastic E (Flow.perfect pn eta) in
  times_increase nb nt times -> (forall T, 0 < E T /\ 0 < pn T /\ 0 < eta T) ->
  @solve_strain B nb nt times strains temps BackwardEuler lm rtol atol miter throw gt n init = inl st -> i_warned st = [::] ->
  tol_bound (strain_f (B := B) nt times strains temps) BackwardEuler rtol atol gt n nt (time_table nb times) (i_result st) b tol ->
  forall k Smax, (k < nt)%N -> 0 <= Smax ->
   (forall j, (0 < j)%N -> (j <= k)%N ->
      eta (temps j b) * Torch.pow0 ((Rabs (strains j b - strains j.-1 b) + tol / E (temps j b)) / (times j b - times j.-1 b)) (/ pn (temps j b)) <= Smax) ->
   Rabs (entry st k b 0%N) <= Smax.
Proof.
move=> B Gr P S W T; have /= [I [_ H]] := C38_increment_to_tolerance Gr S W T.
elim=> [|k IH] M kn M0 HM; first by rewrite I Rabs_R0.
have [P1 [P2 P3]] := P (temps k.+1 b); have D := @dt_pos nb nt times k.+1 b (ltn_ord b) Gr (ltn0Sn k) kn.
have [Q _] := H k.+1 (ltn0Sn k) kn.
have [L|L] := TolR.pv_bound_tol _ _ _ _ _ _ _ _ P1 P2 P3 D Q.
- apply: Rle_trans L _; apply: IH => //; first exact: ltnW. by move=> j j0 jk; apply: HM => //; apply: leqW.
- apply: Rle_trans L _; exact: (HM k.+1 (ltn0Sn k) (leqnn _)).
Qed.
Print Assumptions C86_saturates_to_tolerance.

(** Two runs of the same test, possibly in different batches, with different block sizes, solvers,
    guesses and tolerances: the stresses differ by at most one pair of tolerances per step. *)
Theorem C86_runs_agree_to_tolerance (E pn eta : R -> R) nb nb' nt (times times' strains strains' temps temps' : nat -> nat -> R) lm lm' rtol rtol' atol atol'
    miter miter' throw throw' gt gt' n n' init init' st st' (b : 'I_nb) (b' : 'I_nb') tol tol' :
  let B := Models.inelastic E (Flow.perfect pn eta) in
  times_increase nb nt times -> times_increase nb' nt times' -> (forall T, 0 < E T /\ 0 < pn T /\ 0 < eta T) ->
  (forall k, (k < nt)%N -> times k b = times' k b' /\ strains k b = strains' k b' /\ temps k b = temps' k b') ->
  @solve_strain B nb nt times strains temps BackwardEuler lm rtol atol miter throw gt n init = inl st -> i_warned st = [::] ->
  tol_bound (strain_f (B := B) nt times strains temps) BackwardEuler rtol atol gt n nt (time_table nb times) (i_result st) b tol ->
  @solve_strain B nb' nt times' strains' temps' BackwardEuler lm' rtol' atol' miter' throw' gt' n' init' = inl st' -> i_warned st' = [::] ->
  tol_bound (strain_f (B := B) nt times' strains' temps') BackwardEuler rtol' atol' gt' n' nt (time_table nb' times') (i_result st') b' tol' ->
  forall k, (k < nt)%N -> Rabs (entry st k b 0%N - entry st' k b' 0%N) <= INR k * (tol + tol').
Proof.
move=> B Gr Gr' P same S W T S' W' T'.
have /= [I [_ H]] := C38_increment_to_tolerance Gr S W T; have /= [I' [_ H']] := C38_increment_to_tolerance Gr' S' W' T'.
elim=> [|k IH] kn; first by rewrite I I' /= Rminus_0_r Rabs_R0; lra.
have [P1 [P2 P3]] := P (temps k.+1 b); have D := @dt_pos nb nt times k.+1 b (ltn_ord b) Gr (ltn0Sn k) kn.
have [Q _] := H k.+1 (ltn0Sn k) kn; have [Q' _] := H' k.+1 (ltn0Sn k) kn.
have [e1 [e2 e3]] := same k.+1 kn; have [d1 [d2 _]] := same k (ltnW kn).
rewrite [k.+1.-1]/= -e1 -e2 -e3 -d1 -d2 in Q'.
have := TolR.pv_two_tol _ _ _ _ _ _ _ _ _ _ _ P1 P2 P3 (Rlt_le _ _ D) Q Q'; rewrite [k.+1.-1]/=.
have := IH (ltnW kn); rewrite S_INR; lra.
Qed.
Print Assumptions C86_runs_agree_to_tolerance.

(** ** C91, C92 *)
(** The equations of a stress-controlled history (creep_history of Props_Stress.v) up to [tol] per step. *)
Definition creep_history_tol (tol : R) (E : R -> R) (F : Flow.flowrule) (nt : nat) (times stresses temps : nat -> nat -> R) (b : nat)
    (strain : nat -> R) (hist : nat -> nat -> R) : Prop :=
  strain 0%N = 0 /\ (forall i, (i < Flow.fl_nhist F)%N -> hist 0%N i = 0) /\
  forall k, (0 < k)%N -> (k < nt)%N ->
    let dt := times k b - times k.-1 b in let T := temps k b in
    Rabs (strain k - strain k.-1 - ((stresses k b - stresses k.-1 b) / E T
            + dt * Flow.fl_rate F (stresses k b) (hist k) (times k b) T 0)) <= dt / (10 ^ 10 * E T) + tol /\
    forall i, (i < Flow.fl_nhist F)%N ->
      Rabs (hist k i - hist k.-1 i - dt * Flow.fl_hrate F (stresses k b) (hist k) (times k b) T 0 i) <= tol.

Lemma creep_of_steps_tol (E : R -> R) (F : Flow.flowrule) nb nt (times stresses temps : nat -> nat -> R) (st : istate RF nb (Models.rf_n (Models.inelastic E F))) (b : 'I_nb) tol :
  times_increase nb nt times -> Models.rate_free F -> (forall k, (k < nt)%N -> 0 < E (temps k b)) ->
  (forall i, (i < Models.rf_n (Models.inelastic E F))%N -> entry st 0 b i = 0) ->
  (forall k, (0 < k)%N -> (k < nt)%N -> stress_step_tol times stresses temps tol st k b) ->
  creep_history_tol tol E F nt times stresses temps b (fun k => entry st k b 0%N) (fun k i => entry st k b i.+1).
Proof.
move=> Gr RF HE Z H; split; first exact: Z.
split; first by move=> i iF; apply: Z.
move=> k k0 kn dt T; have [e [A [S1 S2]]] := H k k0 kn.
have D := @dt_pos nb nt times k b (ltn_ord b) Gr k0 kn; rewrite -/dt in D S1 S2.
have [F1 [F2 F3]] := RF (stresses k b) (fun i => entry st k b i.+1) (times k b) T e 0.
split.
- apply: (TolR.strain_increment_tol _ _ e _ _ _ (step_rate times stresses k b)) => //; first exact: HE.
  rewrite -F1; exact: A.
- move=> i iF; have := F3 i (ltP iF) => -[<- _].
  by have := S2 i.+1 isT iF; rewrite /= /Slices.cat /= PeanoNat.Nat.sub_0_r.
Qed.

(** C91: stress control to tolerance *)
Theorem C91_stress_control_to_tolerance (E : R -> R) (F : Flow.flowrule) nb nt (times stresses temps : nat -> nat -> R) lm rtol atol miter throw gt n init st (b : 'I_nb) tol :
  let B := Models.inelastic E F in
  times_increase nb nt times -> Models.rate_free F -> (forall k b, (k < nt)%N -> (b < nb)%N -> 0 < E (temps k b)) ->
  @solve_stress B nb nt times stresses temps BackwardEuler lm rtol atol miter throw gt n init = inl st -> i_warned st = [::] ->
  tol_boundG (@stress_G B nb nt times stresses temps) BackwardEuler rtol atol gt n nt (time_table nb times) (i_result st) b tol ->
  creep_history_tol tol E F nt times stresses temps b (fun k => entry st k b 0%N) (fun k i => entry st k b i.+1).
Proof.
move=> B Gr RF HE S W T.
have A : affine_run nt times stresses temps st.
  by move=> k b' kn; apply: StressR.inelastic_affine => //; apply: Rgt_not_eq; exact: HE.
apply: creep_of_steps_tol => //.
- by move=> k kn; apply: HE.
- by move=> i im; apply: (run_zero S).
- by move=> k k0 kn; apply: (stress_steps_tol (fun _ => 0) _ Gr S W T A).
Qed.
Print Assumptions C91_stress_control_to_tolerance.
(** Elastic strain and steady creep, with one tolerance per step. *)
Theorem C91_elastic_to_tolerance (E : R -> R) (F : Flow.flowrule) E0 nb nt (times stresses temps : nat -> nat -> R) b strain hist tol :
  times_increase nb nt times -> (b < nb)%N -> 0 < E0 -> (forall k, (k < nt)%N -> E (temps k b) = E0) ->
  (forall s h t T e, Flow.fl_rate F s h t T e = 0) ->
  creep_history_tol tol E F nt times stresses temps b strain hist ->
  forall k, (k < nt)%N ->
  Rabs (strain k - (stresses k b - stresses 0%N b) / E0) <= (times k b - times 0%N b) / (10 ^ 10 * E0) + INR k * tol.
Proof.
move=> Gr bn E0p HE Z [Z0 [_ H]]; elim=> [|k IH] kn.
- rewrite Z0 /Rminus !Rplus_opp_r /Rdiv !Rmult_0_l Ropp_0 !Rplus_0_l Rabs_R0; exact: Rle_refl.
- have [Q _] := H k.+1 isT kn; rewrite /= HE // Z in Q.
  have := TolR.sum_tol _ _ _ _ _ _ _ _ _ _ E0p (IH (ltnW kn)) Q.
  by rewrite (_ : times k b - times 0%N b + (times k.+1 b - times k b) = times k.+1 b - times 0%N b) ?S_INR //; ring.
Qed.
Print Assumptions C91_elastic_to_tolerance.
Theorem C91_steady_creep_to_tolerance (E pn eta : R -> R) nb nt (times stresses temps : nat -> nat -> R) b strain hist k1 s T tol :
  times_increase nb nt times -> (b < nb)%N -> 0 < E T -> 0 < eta T -> s <> 0 ->
  creep_history_tol tol E (Flow.perfect pn eta) nt times stresses temps b strain hist ->
  (forall k, (k1 <= k)%N -> (k < nt)%N -> stresses k b = s /\ temps k b = T) ->
  forall k, (k1 + k < nt)%N ->
  Rabs (strain (k1 + k)%N - strain k1 - (times (k1 + k)%N b - times k1 b) * (Torch.tsign s * Rpower (Rabs s / eta T) (pn T)))
    <= (times (k1 + k)%N b - times k1 b) / (10 ^ 10 * E T) + INR k * tol.
Proof.
move=> Gr bn Ep ep sn [Z0 [_ H]] C.
have rE h t e : Flow.fl_rate (Flow.perfect pn eta) s h t T e = Torch.tsign s * Rpower (Rabs s / eta T) (pn T).
{ rewrite /= Torch.pow0_pos; first ring. apply: Rdiv_lt_0_compat => //; exact: Rabs_pos_lt. }
elim=> [|k IH].
- move=> _; rewrite addn0 /Rminus !Rplus_opp_r /Rdiv !Rmult_0_l Ropp_0 !Rplus_0_l Rabs_R0; exact: Rle_refl.
- rewrite addnS => kn.
  have [Q _] := H (k1 + k).+1 isT kn; have [sE TE] := C (k1 + k).+1 (leqW (leq_addr _ _)) kn; have [sE' _] := C (k1 + k)%N (leq_addr _ _) (ltnW kn).
  cbv zeta in Q; rewrite sE [(k1 + k).+1.-1]/= sE' TE (Rminus_diag_eq s s) // rE in Q.
  have := TolR.creep_sum_tol _ _ _ _ _ _ _ _ _ Ep (IH (ltnW kn)) Q.
  by rewrite (_ : times (k1 + k)%N b - times k1 b + (times (k1 + k).+1 b - times (k1 + k)%N b) = times (k1 + k).+1 b - times k1 b) ?S_INR //; ring.
Qed.
Print Assumptions C91_steady_creep_to_tolerance.

(** C92: mixed control to tolerance *)
Theorem C92_strain_entries_to_tolerance (E : R -> R) (F : Flow.flowrule) nb nt (times data temps : nat -> nat -> R) control lm rtol atol miter throw gt n init st (b : 'I_nb) tol :
  let B := Models.inelastic E F in
  times_increase nb nt times ->
  @solve_both B nb nt times data temps control BackwardEuler lm rtol atol miter throw gt n init = inl st -> i_warned st = [::] ->
  tol_boundG (@both_G B nb nt times data temps control) BackwardEuler rtol atol gt n nt (time_table nb times) (i_result st) b tol ->
  control b = 0 ->
  let stress k := entry st k b 0%N in let hist k i := entry st k b i.+1 in
  stress 0%N = 0 /\ (forall i, (i < Flow.fl_nhist F)%N -> hist 0%N i = 0) /\
  forall k, (0 < k)%N -> (k < nt)%N ->
    let dt := times k b - times k.-1 b in let de := data k b - data k.-1 b in
    Rabs (stress k - stress k.-1 - E (temps k b) * (de - dt * Flow.fl_rate F (stress k) (hist k) (times k b) (temps k b) (de / dt))) <= tol /\
    forall i, (i < Flow.fl_nhist F)%N ->
      Rabs (hist k i - hist k.-1 i - dt * Flow.fl_hrate F (stress k) (hist k) (times k b) (temps k b) (de / dt) i) <= tol.
Proof.
move=> B Gr S W T C stress hist.
split; first by apply: (run_zero S).
split; first by move=> i iF; apply: (run_zero S).
have H := both_strain_steps_tol Gr S W T C.
move=> k k0 kn dt de; have D := @dt_pos nb nt times k b (ltn_ord b) Gr k0 kn; rewrite -/dt in D.
split.
- have := H k 0%N k0 kn isT; rewrite inelastic_stress /step_rate -/dt -/de -[Slices.slice 1 _]/(hist k) -/(stress k) -/(stress k.-1).
  by rewrite (_ : dt * (E (temps k b) * (de / dt - Flow.fl_rate F (stress k) (hist k) (times k b) (temps k b) (de / dt))) =
     E (temps k b) * (de - dt * Flow.fl_rate F (stress k) (hist k) (times k b) (temps k b) (de / dt))); last by field; lra.
- move=> i iF; have := H k i.+1 k0 kn iF.
  by rewrite /= /Slices.cat /= PeanoNat.Nat.sub_0_r.
Qed.
Print Assumptions C92_strain_entries_to_tolerance.
Theorem C92_stress_entries_to_tolerance (E : R -> R) (F : Flow.flowrule) nb nt (times data temps : nat -> nat -> R) control lm rtol atol miter throw gt n init st (b : 'I_nb) tol :
  let B := Models.inelastic E F in
  times_increase nb nt times -> Models.rate_free F -> (forall k b, (k < nt)%N -> (b < nb)%N -> 0 < E (temps k b)) ->
  @solve_both B nb nt times data temps control BackwardEuler lm rtol atol miter throw gt n init = inl st -> i_warned st = [::] ->
  tol_boundG (@both_G B nb nt times data temps control) BackwardEuler rtol atol gt n nt (time_table nb times) (i_result st) b tol ->
  control b = 1 ->
  creep_history_tol tol E F nt times data temps b (fun k => entry st k b 0%N) (fun k i => entry st k b i.+1).
Proof.
move=> B Gr RF HE S W T C.
have A : affine_run nt times data temps st.
  by move=> k b' kn; apply: StressR.inelastic_affine => //; apply: Rgt_not_eq; exact: HE.
apply: creep_of_steps_tol => //.
- by move=> k kn; apply: HE.
- by move=> i im; apply: (run_zero S).
- by move=> k k0 kn; apply: (both_stress_steps_tol _ Gr S W T A C).
Qed.
Print Assumptions C92_stress_entries_to_tolerance.

(** Entries under neither control stay at their zero start, up to one tolerance per step. *)
Theorem C92_other_entries_to_tolerance (B : Models.rateform) nb nt (times data temps : nat -> nat -> R) control lm rtol atol miter throw gt n init st (b : 'I_nb) tol :
  @solve_both B nb nt times data temps control BackwardEuler lm rtol atol miter throw gt n init = inl st -> i_warned st = [::] ->
  tol_boundG (@both_G B nb nt times data temps control) BackwardEuler rtol atol gt n nt (time_table nb times) (i_result st) b tol ->
  control b <> 0 -> control b <> 1 ->
  forall k i, (k < nt)%N -> (i < Models.rf_n B)%N -> Rabs (entry st k b i) <= INR k * tol.
Proof.
move=> S W T C C'; elim=> [|k IH] i kn im; first by rewrite (run_zero S) // Rabs_R0 /=; lra.
have := both_none_steps_tol S W T C C' (ltn0Sn k) kn im; have := IH i (ltnW kn) im; rewrite [k.+1.-1]/= S_INR.
have := Rabs_triang (entry st k.+1 b i - entry st k b i) (entry st k b i).
rewrite (_ : entry st k.+1 b i - entry st k b i + entry st k b i = entry st k.+1 b i); [lra|ring].
Qed.
Print Assumptions C92_other_entries_to_tolerance.

(** ** C101 *)
(** The same problem solved in two batches.  Entry [b] of the first run and entry [b'] of the second have the
    same rate and times; the batch companions, batch sizes, block sizes, linear solvers, guesses, tolerances
    and iteration limits may all differ. *)
Definition same_problem nb nb' m (f : 'I_nb -> RF -> 'cV[RF]_m -> 'cV[RF]_m) (f' : 'I_nb' -> RF -> 'cV[RF]_m -> 'cV[RF]_m)
    nt (t : nat -> TB RF nb) (t' : nat -> TB RF nb') (b : 'I_nb) (b' : 'I_nb') : Prop :=
  (forall x y, f b x y = f' b' x y) /\ (forall k, (k < nt)%N -> t k b = t' k b').

Theorem C101_backward_euler_within_tolerance nb nb' m (f : 'I_nb -> RF -> 'cV[RF]_m -> 'cV[RF]_m) Jf (f' : 'I_nb' -> RF -> 'cV[RF]_m -> 'cV[RF]_m) Jf'
    lm lm' rtol rtol' atol atol' miter miter' throw throw' gt gt' n n' nt t t' y0 y0' init init' st st' b b' L rho tol tol' :
  same_problem f f' nt t t' b b' ->
  @integrate RF nb m f Jf BackwardEuler lm (nrmR nb m) rtol atol miter throw gt n nt t y0 init = inl st -> i_warned st = [::] ->
  tol_bound f BackwardEuler rtol atol gt n nt t (i_result st) b tol ->
  @integrate RF nb' m f' Jf' BackwardEuler lm' (nrmR nb' m) rtol' atol' miter' throw' gt' n' nt t' y0' init' = inl st' -> i_warned st' = [::] ->
  tol_bound f' BackwardEuler rtol' atol' gt' n' nt t' (i_result st') b' tol' ->
  1 <= rho ->
  (forall k, (0 < k)%N -> (k < nt)%N -> 0 <= t k b - t k.-1 b /\ one_sided L (f b (t k b)) /\ 1 <= rho * (1 - (t k b - t k.-1 b) * L)) ->
  forall k, (k < nt)%N -> dst (i_result st k b) (i_result st' k b') <= rho ^ k * (dst (y0 b) (y0' b') + INR k * (tol + tol')).
Proof.
move=> [Sr St] S W T S' W' T' r1 H k kn.
have [_ [e0 _]] := integrate_writes S; have [_ [e0' _]] := integrate_writes S'.
rewrite -e0 -e0'; apply: (@two_runs nb nb' m f f' nt t t' b b' Sr St _ _ BackwardEuler L) => //.
- exact: (run_residual S W T).
- exact: (run_residual S' W' T').
Qed.
Print Assumptions C101_backward_euler_within_tolerance.

Theorem C101_forward_euler_within_tolerance nb nb' m (f : 'I_nb -> RF -> 'cV[RF]_m -> 'cV[RF]_m) Jf (f' : 'I_nb' -> RF -> 'cV[RF]_m -> 'cV[RF]_m) Jf'
    lm lm' rtol rtol' atol atol' miter miter' throw throw' gt gt' n n' nt t t' y0 y0' init init' st st' b b' L rho tol tol' :
  same_problem f f' nt t t' b b' ->
  @integrate RF nb m f Jf ForwardEuler lm (nrmR nb m) rtol atol miter throw gt n nt t y0 init = inl st -> i_warned st = [::] ->
  tol_bound f ForwardEuler rtol atol gt n nt t (i_result st) b tol ->
  @integrate RF nb' m f' Jf' ForwardEuler lm' (nrmR nb' m) rtol' atol' miter' throw' gt' n' nt t' y0' init' = inl st' -> i_warned st' = [::] ->
  tol_bound f' ForwardEuler rtol' atol' gt' n' nt t' (i_result st') b' tol' ->
  1 <= rho ->
  (forall k, (0 < k)%N -> (k < nt)%N -> 0 <= t k b - t k.-1 b /\ lipschitz L (f b (t k.-1 b)) /\ 1 + (t k b - t k.-1 b) * L <= rho) ->
  forall k, (k < nt)%N -> dst (i_result st k b) (i_result st' k b') <= rho ^ k * (dst (y0 b) (y0' b') + INR k * (tol + tol')).
Proof.
move=> [Sr St] S W T S' W' T' r1 H k kn.
have [_ [e0 _]] := integrate_writes S; have [_ [e0' _]] := integrate_writes S'.
rewrite -e0 -e0'; apply: (@two_runs nb nb' m f f' nt t t' b b' Sr St _ _ ForwardEuler L) => //.
- exact: (run_residual S W T).
- exact: (run_residual S' W' T').
Qed.
Print Assumptions C101_forward_euler_within_tolerance.

(** With zero tolerances the entries agree exactly: explicit scheme, any rate. *)
Theorem C101_forward_euler_exact nb nb' m (f : 'I_nb -> RF -> 'cV[RF]_m -> 'cV[RF]_m) Jf (f' : 'I_nb' -> RF -> 'cV[RF]_m -> 'cV[RF]_m) Jf'
    lm lm' miter miter' throw throw' gt gt' n n' nt t t' (y0 : VB RF nb m) (y0' : VB RF nb' m) init init' st st' b b' :
  same_problem f f' nt t t' b b' -> y0 b = y0' b' ->
  @integrate RF nb m f Jf ForwardEuler lm (nrmR nb m) 0 0 miter throw gt n nt t y0 init = inl st -> i_warned st = [::] ->
  @integrate RF nb' m f' Jf' ForwardEuler lm' (nrmR nb' m) 0 0 miter' throw' gt' n' nt t' y0' init' = inl st' -> i_warned st' = [::] ->
  forall k, (k < nt)%N -> i_result st k b = i_result st' k b'.
Proof.
move=> [Sr St] Y S W S' W'.
have [_ [e0 _]] := integrate_writes S; have [_ [e0' _]] := integrate_writes S'.
elim=> [|k IH] kn; first by rewrite e0 e0'.
have := integrate_exact erefl erefl S W b (ltn0Sn k) kn; have := integrate_exact erefl erefl S' W' b' (ltn0Sn k) kn.
rewrite /step_res [k.+1.-1]/= -!St // ?(ltnW kn) // -Sr -(IH (ltnW kn)).
by move/subr0_eq/(canRL (subrK _)) => -> /subr0_eq/(canRL (subrK _)) => ->.
Qed.
Print Assumptions C101_forward_euler_exact.

(** Implicit scheme: whenever the update equation of entry [b] has at most one solution. *)
Theorem C101_backward_euler_exact nb nb' m (f : 'I_nb -> RF -> 'cV[RF]_m -> 'cV[RF]_m) Jf (f' : 'I_nb' -> RF -> 'cV[RF]_m -> 'cV[RF]_m) Jf'
    lm lm' miter miter' throw throw' gt gt' n n' nt t t' (y0 : VB RF nb m) (y0' : VB RF nb' m) init init' st st' b b' :
  same_problem f f' nt t t' b b' -> y0 b = y0' b' ->
  (forall k z u v, (0 < k)%N -> (k < nt)%N ->
     (u - z - (t k b - t k.-1 b) *: f b (t k b) u = 0)%R -> (v - z - (t k b - t k.-1 b) *: f b (t k b) v = 0)%R -> u = v) ->
  @integrate RF nb m f Jf BackwardEuler lm (nrmR nb m) 0 0 miter throw gt n nt t y0 init = inl st -> i_warned st = [::] ->
  @integrate RF nb' m f' Jf' BackwardEuler lm' (nrmR nb' m) 0 0 miter' throw' gt' n' nt t' y0' init' = inl st' -> i_warned st' = [::] ->
  forall k, (k < nt)%N -> i_result st k b = i_result st' k b'.
Proof.
move=> [Sr St] Y U S W S' W'.
have [_ [e0 _]] := integrate_writes S; have [_ [e0' _]] := integrate_writes S'.
elim=> [|k IH] kn; first by rewrite e0 e0'.
have := integrate_exact erefl erefl S W b (ltn0Sn k) kn; have := integrate_exact erefl erefl S' W' b' (ltn0Sn k) kn.
rewrite /step_res [k.+1.-1]/= -!St // ?(ltnW kn) // -Sr -(IH (ltnW kn)).
move=> h1 h2; exact: (U k.+1 _ _ _ (ltn0Sn k) kn h2 h1).
Qed.
Print Assumptions C101_backward_euler_exact.

(** y' = -y in a batch of any size *)
Definition decay_K nb : 'I_nb -> RF -> 'M[RF]_1 := fun _ _ => (- 1%:M)%R.
Definition decay_c nb : 'I_nb -> RF -> 'cV[RF]_1 := fun _ _ => 0%R.
Definition unit_times nb : nat -> TB RF nb := fun k => [ffun=> INR k].
Lemma decay_invertible nb nt : steps_invertible (@decay_K nb) nt (unit_times nb).
Proof.
move=> [//|k] b _ _; rewrite !ffunE /decay_K /= scalerN opprK -[X in (X + _)%R]scale1r -scalerDl.
rewrite unitmxZ ?unitmx1 // unitfE.
apply/eqP; change (Rplus R1 (Rplus (INR k.+1) (Ropp (INR k))) <> R0); rewrite S_INR.
have -> : Rplus R1 (Rplus (Rplus (INR k) R1) (Ropp (INR k))) = Rplus R1 R1 by ring.
apply: Rgt_not_eq; exact: Rlt_0_2.
Qed.
Lemma decay_rate nb (t : nat -> TB RF nb) (y0 : VB RF nb 1) b : rate_at (aff_rate (@decay_K nb) (@decay_c nb)) BackwardEuler t y0 b = (- y0 b)%R.
Proof. by rewrite /rate_at /aff_rate /decay_K /decay_c mulNmx mul1mx addr0. Qed.
Lemma norm1 (v : 'cV[RF]_1) : norm v = Rabs (v ord0 ord0).
Proof. by rewrite /norm /dot big_ord1; exact: sqrt_Rsqr_abs. Qed.

(** With a non-zero absolute tolerance the numbers of an entry do depend on its companions: y' = -y,
    one step of size 1, atol = 1.  Alone, the entry starting at 1/2 is accepted where it starts; beside
    an entry starting at 10 it takes the step, to 1/4. *)
Theorem C101_tolerance_is_needed lm miter throw init init' : (1 < miter)%N ->
  let alone : VB RF 1 1 := [ffun=> const_mx (/ 2)] in
  let beside : VB RF 2 1 := [ffun b : 'I_2 => if val b == 0%N then const_mx (/ 2) else const_mx 10] in
  exists st st',
    @integrate RF 1 1 (aff_rate (@decay_K 1) (@decay_c 1)) (aff_jac (@decay_K 1)) BackwardEuler lm (nrmR 1 1) 0 1 miter throw "zero" 1 2 (unit_times 1) alone init = inl st /\
    @integrate RF 2 1 (aff_rate (@decay_K 2) (@decay_c 2)) (aff_jac (@decay_K 2)) BackwardEuler lm (nrmR 2 1) 0 1 miter throw "zero" 1 2 (unit_times 2) beside init' = inl st' /\
    i_warned st = [::] /\ i_warned st' = [::] /\
    i_result st 1 ord0 ord0 ord0 = / 2 /\ i_result st' 1 ord0 ord0 ord0 = / 4.
Proof.
move=> m1 alone beside.
have n2 b : norm ((unit_times 1 1%N b - unit_times 1 0%N b) *: rate_at (aff_rate (@decay_K 1) (@decay_c 1)) BackwardEuler (unit_times 1) alone b)%R <= 1.
{ rewrite decay_rate norm1 !ffunE !mxE.
  rewrite -[GRing.mul _ _]/(Rmult (1 - 0) (- (/ 2))) (_ : (1 - 0) * - / 2 = - / 2) ?Rabs_Ropp ?Rabs_pos_eq; lra. }
have [st [S [W Q]]] := @single_kept 1 1 (aff_rate (@decay_K 1) (@decay_c 1)) (aff_jac (@decay_K 1)) BackwardEuler lm 0 1 miter throw (unit_times 1) alone init (ltnW m1) n2.
have nrm10 : norm ((unit_times 2 1%N ord_max - unit_times 2 0%N ord_max) *: rate_at (aff_rate (@decay_K 2) (@decay_c 2)) BackwardEuler (unit_times 2) beside ord_max)%R = 10.
{ rewrite decay_rate norm1 !ffunE !mxE.
  rewrite -[GRing.mul _ _]/(Rmult (1 - 0) (Ropp 10)) (_ : (1 - 0) * Ropp 10 = Ropp 10) ?Rabs_Ropp ?Rabs_pos_eq; lra. }
have [st' [S' [W' Q']]] := @single_affine 2 1 (@decay_K 2) (@decay_c 2) lm 0 1 miter throw (unit_times 2) beside init' ord_max Rle_0_1 m1 (@decay_invertible 2 2) ltac:(by rewrite nrm10; lra) ltac:(by rewrite nrm10; lra).
exists st, st'; split=> //; split=> //; split=> //; split=> //; split; first by rewrite Q ffunE mxE.
have [_ [e0 _]] := integrate_writes S'.
have := Q' ord0; rewrite /step_res [1%N.-1]/= e0 /aff_rate /decay_K /decay_c mulNmx mul1mx addr0 => /colP/(_ ord0).
rewrite !ffunE !mxE /=; set q := i_result st' _ _ _ _.
change (q - / 2 - (1 - 0) * - q = 0 -> q = / 4); lra.
Qed.
Print Assumptions C101_tolerance_is_needed.

(** The hypotheses of C101 are met: y' = -y solved alone and in a batch of two, with different block
    sizes, solvers and tolerances, over any number of times. *)
Lemma decay_dissipative nb (b : 'I_nb) x : one_sided 0 (aff_rate (@decay_K nb) (@decay_c nb) b x).
Proof.
move=> u v; rewrite /aff_rate /decay_K /decay_c !mulNmx !mul1mx !addr0 (_ : (- u - - v)%R = (- (u - v))%R); last by rewrite opprB opprK addrC.
rewrite dotN Rmult_0_l; have := dot_ge0 (u - v)%R; lra.
Qed.
Example C101_ex (nt : nat) (y0 : VB RF 1 1) (y0' : VB RF 2 1) : (0 < nt)%N -> y0 ord0 = y0' ord0 ->
  exists st st',
    @integrate RF 1 1 (aff_rate (@decay_K 1) (@decay_c 1)) (aff_jac (@decay_K 1)) BackwardEuler Dense (nrmR 1 1) 0 (/ 1000) 100 true "zero" 3 nt (unit_times 1) y0 (fun _ => zeroV RF 1 1) = inl st /\
    @integrate RF 2 1 (aff_rate (@decay_K 2) (@decay_c 2)) (aff_jac (@decay_K 2)) BackwardEuler (Direct PCR) (nrmR 2 1) 0 (/ 500) 50 false "zero" 4 nt (unit_times 2) y0' (fun _ => zeroV RF 2 1) = inl st' /\
    forall k, (k < nt)%N -> dst (i_result st k ord0) (i_result st' k ord0) <= INR k * (/ 1000 + / 500).
Proof.
move=> nt0 Y.
have a1 : 0 <= / 1000 by lra. have a2 : 0 <= / 500 by lra.
have [st [S W]] := @C79_linear_ode_always_solved 1 1 (@decay_K 1) (@decay_c 1) Dense 0 (/ 1000) 100 true "zero" 3 nt (unit_times 1) y0 (fun _ => zeroV RF 1 1)
  a1 isT isT nt0 (@decay_invertible 1 nt) (or_introl erefl).
have [st' [S' W']] := @C79_linear_ode_always_solved 2 1 (@decay_K 2) (@decay_c 2) (Direct PCR) 0 (/ 500) 50 false "zero" 4 nt (unit_times 2) y0' (fun _ => zeroV RF 2 1)
  a2 isT isT nt0 (@decay_invertible 2 nt) (or_introl erefl).
exists st, st'; split=> //; split=> // k kn.
have SP : same_problem (aff_rate (@decay_K 1) (@decay_c 1)) (aff_rate (@decay_K 2) (@decay_c 2)) nt (unit_times 1) (unit_times 2) ord0 ord0.
{ by split=> // k' _; rewrite !ffunE. }
have := @C101_backward_euler_within_tolerance _ _ _ _ _ _ _ _ _ _ _ _ _ _ _ _ _ _ _ _ _ _ _ _ _ _ _ _ _ _ _ _ 0 1 _ _ SP S W
  (tol_bound_abs _ _ _ _ _ _ _ _ a1) S' W' (tol_bound_abs _ _ _ _ _ _ _ _ a2) (Rle_refl _) _ k kn.
rewrite Y dst0 pow1 Rplus_0_l Rmult_1_l; apply.
move=> j j0 jn; split; last by split; [exact: decay_dissipative|lra].
rewrite !ffunE; change (0 <= INR j - INR j.-1); have := le_INR j.-1 j (PeanoNat.Nat.le_pred_l j); lra.
Qed.

(** C38: the elastic run of C38_ex with a non-zero tolerance. *)
Example C38_tol_ex : exists st, @solve_strain (Models.inelastic (fun _ => 200) no_flow) 2 5 (fun k _ => INR k) (fun k b => INR k * INR b)
    (fun _ _ => 0) BackwardEuler (Direct Thomas) 0 (/ 100) 10 true "zero" 3 (fun _ => @zeroV RF 2 1) = inl st
  /\ forall k (b : 'I_2), (k < 5)%N -> Rabs (entry st k b 0%N - 200 * (INR k * INR b)) <= INR k * / 100.
Proof.
have a0 : 0 <= / 100 by lra.
have [st [S W]] := @C38_elastic_always_solved (fun _ => 200) no_flow 2 5 (fun k _ => INR k) (fun k b => INR k * INR b)
    (fun _ _ => 0) (Direct Thomas) 0 (/ 100) 10 true "zero" 3 (fun _ => @zeroV RF 2 1) erefl
    (fun _ _ _ _ _ => conj erefl erefl) a0 isT isT isT (or_introl erefl).
exists st; split=> // k b kn.
have G : times_increase 2 5 (fun k _ => INR k) by move=> b' _ i j ij _; apply: lt_INR.
have := @C38_elastic_to_tolerance (fun _ => 200) no_flow 200 _ _ _ _ _ _ _ _ _ _ _ _ _ _ b (/ 100) G
  (fun _ _ _ _ _ => erefl) (fun _ => erefl) S W (tol_bound_abs _ _ _ _ _ _ _ _ a0) k kn.
by rewrite /= Rmult_0_l Rminus_0_r.
Qed.
