(** C111-C113 with the solver's tolerances in force: what holds when the Newton iteration stops at rtol/atol instead of at an exact solution. *)
From Coq Require Import Reals List String Lra Lia FunctionalExtensionality.
From mathcomp Require Import all_ssreflect all_algebra.
From Verif Require Import ChunkModel ChunkSolve ChunkInst NewtonModel Ode OdeForward OdeReal OdeBlock RField Pipeline PipelineBoth Tolerance.
From Verif Require Interp Models Flow Hardening Damage Deriv Slices PipelineR StressR Torch FullModel FullTol Props_Pipeline Props_Stress Props_Models Props_Tolerance.
From Verif Require Import Props_FullModel.
Set Implicit Arguments. Unset Strict Implicit. Unset Printing Implicit Defensive.
Local Open Scope R_scope.
Import Props_Stress Props_Tolerance.

Section Run.
Variables (E : R -> R) (F : Flow.flowrule) (nb nt : nat) (times data temps : nat -> nat -> R) (control : nat -> R).
Variables (lm : lin_method) (rtol atol : R) (miter : nat) (throw : bool) (gt : string) (n : nat) (init : nat -> VB RF nb (Models.rf_n (Models.inelastic E F))).
Variable st : istate RF nb (Models.rf_n (Models.inelastic E F)).
Hypothesis Gr : times_increase nb nt times.
Hypothesis S : @solve_both (Models.inelastic E F) nb nt times data temps control BackwardEuler lm rtol atol miter throw gt n init = inl st.
Hypothesis W : i_warned st = [::].
Variables (b : 'I_nb) (tol : R).
Hypothesis T : tol_boundG (@both_G (Models.inelastic E F) nb nt times data temps control) BackwardEuler rtol atol gt n nt (time_table nb times) (i_result st) b tol.
Lemma hist_steps_tol : (control b = 0 \/ control b = 1 /\ Models.rate_free F /\ (forall k b', (k < nt)%N -> (b' < nb)%N -> 0 < E (temps k b'))) ->
  (forall i, (i < Flow.fl_nhist F)%N -> entry st 0 b i.+1 = 0) /\
  forall k, (0 < k)%N -> (k < nt)%N -> exists e, forall i, (i < Flow.fl_nhist F)%N ->
    Rabs (entry st k b i.+1 - entry st k.-1 b i.+1 -
    (times k b - times k.-1 b) * Flow.fl_hrate F (stress_of control data st k b) (fun i => entry st k b i.+1) (times k b) (temps k b) e i) <= tol.
Proof.
case=> [C|[C [RF HE]]].
- have [_ [H0 H]] := C92_strain_entries_to_tolerance Gr S W T C; split=> // k k0 kn; have [_ Hk] := H k k0 kn.
  exists ((data k b - data k.-1 b) / (times k b - times k.-1 b)) => i iF; rewrite /stress_of; case: Req_EM_T => [N|N]; [exact: Hk|by case: N].
- have [_ [H0 H]] := C92_stress_entries_to_tolerance Gr RF HE S W T C; split=> // k k0 kn; have [_ Hk] := H k k0 kn.
  exists 0 => i iF; rewrite /stress_of; case: Req_EM_T => [N|N]; [exfalso; rewrite C in N; lra|exact: Hk].
Qed.
Lemma tol_ge0 : 0 <= tol. Proof. by case: T. Qed.
End Run.

(** C111: the bounds hold up to one tolerance per step. *)
Theorem C111_internal_variables_bounded_to_tolerance E pn eta s0 Rs d nback C g nb nt (times data temps : nat -> nat -> R) control lm rtol atol miter throw gt n init st (b : 'I_nb) rmax xmax tol :
  let B := voce_chaboche E pn eta s0 Rs d nback C g in
  times_increase nb nt times ->
  @solve_both B nb nt times data temps control BackwardEuler lm rtol atol miter throw gt n init = inl st -> i_warned st = [::] ->
  tol_boundG (@both_G B nb nt times data temps control) BackwardEuler rtol atol gt n nt (time_table nb times) (i_result st) b tol ->
  control b = 0 \/ control b = 1 /\ (forall k b', (k < nt)%N -> (b' < nb)%N -> 0 < E (temps k b')) ->
  (forall k, (k < nt)%N -> let T := temps k b in 0 <= d T /\ 0 <= Rs T <= rmax /\ forall i, (i < nback)%N -> 0 <= C T i /\ 0 < g T i /\ C T i / g T i <= xmax i) ->
  forall k, (k < nt)%N -> - (INR k * tol) <= entry st k b 1%N <= rmax + INR k * tol /\ forall i, (i < nback)%N -> Rabs (entry st k b i.+2) <= xmax i + INR k * tol.
Proof.
move=> B Gr S W Tb Co P; have t0 := tol_ge0 Tb.
have [|H0 H] := @hist_steps_tol _ _ _ _ _ _ _ _ _ _ _ _ _ _ _ _ _ Gr S W b tol Tb.
{ by case: Co => [|[C1 C2]]; [left|right; split=> //; split=> //; apply: Models.rate_free_isokin]. }
elim=> [|k IH] kn.
- have [P1 [P2 P3]] := P 0%N kn; rewrite [INR 0]/= Rmult_0_l; split; first by rewrite (H0 0%N) //; lra.
  move=> i ib; rewrite (H0 i.+1) ?Rabs_R0 // Rplus_0_r; have [q1 [q2 q3]] := P3 i ib; apply: Rle_trans q3.
  apply: Rmult_le_pos => //; exact/Rlt_le/Rinv_0_lt_compat.
- have [I1 I2] := IH (ltnW kn); have [P1 [P2 P3]] := P k.+1 kn; have D := dtp Gr b (ltn0Sn k) kn; have [e He] := H k.+1 (ltn0Sn k) kn.
  rewrite [k.+1.-1]/= in D He; rewrite S_INR Rmult_plus_distr_r Rmult_1_l.
  have a0 : 0 <= INR k * tol by apply: Rmult_le_pos => //; exact: pos_INR.
  split.
  + have := He 0%N (ltn0Sn nback); rewrite /= => Q.
    apply: (FullTol.voce_step_tol _ _ _ _ _ _ _ _ _ (Rlt_le _ _ D) P1 P2 a0 t0 _ I1); exact: Q.
  + move=> i ib; have := He i.+1 ib; rewrite /= /Slices.cat /= Nat.sub_0_r /Slices.slice /= => Q.
    have [q1 [q2 q3]] := P3 i ib.
    set ep := Flow.ik_rate _ _ _ _ _ _ _ _ _ _ in Q.
    apply: (FullTol.back_step_tol _ _ (g (temps k.+1 b) i * Rabs ep) _ ep _ _ _ _ (Rlt_le _ _ D) q1 _ _ t0 a0 _ (I2 i ib)).
    * apply: Rmult_le_pos; [exact: Rlt_le|exact: Rabs_pos].
    * have -> : g (temps k.+1 b) i * Rabs ep * xmax i = (g (temps k.+1 b) i * xmax i) * Rabs ep by ring.
      apply: Rmult_le_compat_r; first exact: Rabs_pos.
      apply: (Rmult_le_reg_r (/ g (temps k.+1 b) i)); first exact: Rinv_0_lt_compat.
      rewrite (Rmult_comm (g _ _)) Rmult_assoc Rinv_r; last lra. by rewrite Rmult_1_r.
    * move: Q; by rewrite (Rmult_assoc (g _ _) (entry _ _ _ _)) (Rmult_comm (entry _ _ _ _) (Rabs _)) -Rmult_assoc.
Qed.
Print Assumptions C111_internal_variables_bounded_to_tolerance.

(** The stress bound, if the accumulated tolerance is below the initial yield stress. *)
Theorem C111_stress_bounded_to_tolerance E pn eta s0 Rs d nback C g nb nt (times data temps : nat -> nat -> R) control lm rtol atol miter throw gt n init st (b : 'I_nb) rmax xmax smax tol :
  let B := voce_chaboche E pn eta s0 Rs d nback C g in
  times_increase nb nt times ->
  @solve_both B nb nt times data temps control BackwardEuler lm rtol atol miter throw gt n init = inl st -> i_warned st = [::] ->
  tol_boundG (@both_G B nb nt times data temps control) BackwardEuler rtol atol gt n nt (time_table nb times) (i_result st) b tol ->
  control b = 0 -> 0 <= smax ->
  (forall k, (k < nt)%N -> let T := temps k b in 0 < E T /\ 0 < pn T /\ 0 < eta T /\ INR nt * tol <= s0 T /\
     0 <= d T /\ 0 <= Rs T <= rmax /\ forall i, (i < nback)%N -> 0 <= C T i /\ 0 < g T i /\ C T i / g T i <= xmax i) ->
  (forall k, (0 < k)%N -> (k < nt)%N -> let T := temps k b in
     s0 T + (rmax + INR nt * tol) + Deriv.sum nback (fun i => xmax i + INR nt * tol)
       + eta T * Torch.pow0 ((Rabs (data k b - data k.-1 b) + tol / E T) / (times k b - times k.-1 b)) (/ pn T) <= smax) ->
  forall k, (k < nt)%N -> Rabs (entry st k b 0%N) <= smax.
Proof.
move=> B Gr S W Tb Co S0 P Sm; have t0 := tol_ge0 Tb.
have I := C111_internal_variables_bounded_to_tolerance (rmax := rmax) (xmax := xmax) Gr S W Tb (or_introl Co) (fun k kn => proj2 (proj2 (proj2 (proj2 (P k kn))))).
have [Z [_ H]] := C92_strain_entries_to_tolerance Gr S W Tb Co.
elim=> [|k IH] kn; first by rewrite Z Rabs_R0.
have [P1 [P2 [P3 [P4 _]]]] := P k.+1 kn; have D := dtp Gr b (ltn0Sn k) kn; have [Q _] := H k.+1 (ltn0Sn k) kn.
have [I1 I2] := I k.+1 kn; have Smk := Sm k.+1 (ltn0Sn k) kn.
rewrite [k.+1.-1]/= in D Q Smk; cbv zeta in Q, Smk.
have kt : INR k.+1 * tol <= INR nt * tol by apply: Rmult_le_compat_r => //; apply: le_INR; apply/leP; apply: ltnW.
set F := Flow.isokin _ _ _ _ _ in Q.
have fE : Flow.fl_rate F (entry st k.+1 b 0%N) (fun i => entry st k.+1 b i.+1) (times k.+1 b) (temps k.+1 b) ((data k.+1 b - data k b) / (times k.+1 b - times k b))
  = Torch.pow0 (Deriv.mac ((Rabs (entry st k.+1 b 0%N - Deriv.sum nback (fun i => entry st k.+1 b i.+2)) - (s0 (temps k.+1 b) + entry st k.+1 b 1%N)) / eta (temps k.+1 b))) (pn (temps k.+1 b))
    * Torch.tsign (entry st k.+1 b 0%N - Deriv.sum nback (fun i => entry st k.+1 b i.+2)).
{ rewrite /= /Flow.ik_rate Flow.macaulay_mac /Flow.ik_kin /Flow.ik_iso /= /Slices.slice /=.
  congr (Torch.pow0 (Deriv.mac (_ / _)) _ * _); rewrite /Rminus Ropp_plus_distr -Rplus_assoc; reflexivity. }
rewrite fE in Q.
have K0 : 0 <= s0 (temps k.+1 b) + entry st k.+1 b 1%N by move: I1 => [I1 _]; lra.
have [L|L] := FullTol.vp_bound_tol _ _ _ _ _ _ _ _ _ _ P1 P2 P3 D K0 t0 Q; first exact: Rle_trans L (IH (ltnW kn)).
apply: Rle_trans L _.
have X := FullModel.fsum_abs nback (fun i => entry st k.+1 b i.+2).
have X' := FullModel.fsum_le nback (fun i => Rabs (entry st k.+1 b i.+2)) (fun i => xmax i + INR nt * tol) (fun i ib => Rle_trans _ _ _ (I2 i (introT ltP ib)) (Rplus_le_compat_l _ _ _ kt)).
have I1' := proj2 I1; lra.
Qed.
Print Assumptions C111_stress_bounded_to_tolerance.

(** C112: the second law, up to the tolerance times the stress and backstresses carried.  [carried] is what the residuals of a step can add to the energy per unit tolerance. *)
Definition carried (E0 : R) (C0 : nat -> R) (ni nback : nat) (s : R) (hist : nat -> R) : R :=
  Rabs s / E0 + Deriv.sum nback (fun i => Rabs (hist (ni + i)%coq_nat) / C0 i).
Section Energy.
Variables (E pn eta s0 : R -> R) (E0 : R) (iso kin : Hardening.hardening) (nback : nat) (C : R -> nat -> R) (C0 : nat -> R).
Hypotheses (E0p : 0 < E0) (HC : forall i, (i < nback)%N -> 0 < C0 i) (HK : independent_backstresses kin nback C).
Let F := Flow.isokin pn eta s0 iso kin.
Let ni := Hardening.hd_nhist iso.
Lemma one_step_tol dt s s' de T t e (h h' : nat -> R) tol : E T = E0 -> (forall i, (i < nback)%N -> C T i = C0 i) -> 0 < dt ->
  Rabs (s' - s - E T * (de - dt * Flow.fl_rate F s' h' t T e)) <= tol ->
  (forall i, (i < Flow.fl_nhist F)%N -> Rabs (h' i - h i - dt * Flow.fl_hrate F s' h' t T e i) <= tol) ->
  stored E0 C0 ni nback s' h' - stored E0 C0 ni nback s h <= s' * de + tol * carried E0 C0 ni nback s' h'.
Proof.
move=> HE HC0 D; rewrite HE => Hs Hh; have [K1 K2] := independent_shape HK.
have [q Hq] : exists q : nat -> R, forall i, (i < nback)%coq_nat -> 0 <= q i /\ Rabs (h' (ni + i)%coq_nat - h (ni + i)%coq_nat - dt * (C0 i * Flow.fl_rate F s' h' t T e - q i * h' (ni + i)%coq_nat)) <= tol.
{ apply: (@choose_q nback (fun i q => 0 <= q /\ Rabs (h' (ni + i)%coq_nat - h (ni + i)%coq_nat - dt * (C0 i * Flow.fl_rate F s' h' t T e - q * h' (ni + i)%coq_nat)) <= tol)) => i ib.
  have iF : (ni + i < Flow.fl_nhist F)%N by rewrite /= K1 ltn_add2l; apply/ltP.
  have := Hh _ iF; rewrite /= /Slices.cat.
  have -> : Nat.ltb (ni + i) (Hardening.hd_nhist iso) = false by apply/Nat.ltb_ge; rewrite /ni; exact: Nat.le_add_r.
  have -> : ((ni + i)%coq_nat - Hardening.hd_nhist iso)%coq_nat = i by rewrite /ni; lia.
  set ep := Flow.ik_rate _ _ _ _ _ _ _ _ _ _.
  have [q [q0 Hq]] := @backstress_rate kin nback C s' (Slices.slice (Hardening.hd_nhist iso) h') t ep T e i HK; rewrite Hq HC0; last exact/ltP.
  by move=> Q; exists q; split=> //; exact: Q. }
apply: (FullTol.step_energy_tol E0 nback C0 q (fun i => h (ni + i)%coq_nat) (fun i => h' (ni + i)%coq_nat) dt s s' de (Flow.fl_rate F s' h' t T e) tol) => //.
- exact: Rlt_le.
- by move=> i ib; split; [apply: HC; apply/ltP|exact: (proj1 (Hq i ib))].
- by have := FullModel.ik_sign pn eta s0 iso kin s' h' t T e; rewrite {1}/Flow.ik_kin K2.
- by move=> i ib; exact: (proj2 (Hq i ib)).
Qed.
End Energy.
Theorem C112_work_at_least_stored_energy_to_tolerance E pn eta s0 E0 iso kin nback C C0 nb nt (times data temps : nat -> nat -> R) (control : nat -> R) lm rtol atol miter throw gt n init st (b : 'I_nb) tol :
  let B := Models.inelastic E (Flow.isokin pn eta s0 iso kin) in
  0 < E0 -> (forall i, (i < nback)%N -> 0 < C0 i) -> independent_backstresses kin nback C ->
  (forall k, (k < nt)%N -> E (temps k b) = E0 /\ forall i, (i < nback)%N -> C (temps k b) i = C0 i) ->
  times_increase nb nt times ->
  @solve_both B nb nt times data temps control BackwardEuler lm rtol atol miter throw gt n init = inl st -> i_warned st = [::] ->
  tol_boundG (@both_G B nb nt times data temps control) BackwardEuler rtol atol gt n nt (time_table nb times) (i_result st) b tol ->
  control b = 0 ->
  let stress k := entry st k b 0%N in let hist k i := entry st k b i.+1 in
  let energy := stored E0 C0 (Hardening.hd_nhist iso) nback in let slack := carried E0 C0 (Hardening.hd_nhist iso) nback in
  let work k := Deriv.sum k (fun j => stress j.+1 * (data j.+1 b - data j b) + tol * slack (stress j.+1) (hist j.+1)) in
  forall j k, (j <= k)%N -> (k < nt)%N -> energy (stress k) (hist k) - energy (stress j) (hist j) <= work k - work j.
Proof.
move=> B E0p HC HK Is Gr S W Tb Co stress hist energy slack work.
have [Z [Hz H]] := C92_strain_entries_to_tolerance Gr S W Tb Co.
apply: (between (u := fun k => energy (stress k) (hist k)) (v := work)) => k kn.
have D := dtp Gr b (ltn0Sn k) kn; have [Q1 Q2] := H k.+1 (ltn0Sn k) kn; rewrite [k.+1.-1]/= in D Q1 Q2; cbv zeta in Q1, Q2.
have [s1 s2] := Is k.+1 kn; have := one_step_tol E0p HC HK s1 s2 D Q1 Q2; rewrite /work sumS -/(stress k) -/(stress k.+1) -/(hist k) -/(hist k.+1) -/energy -/slack; cbv beta; lra.
Qed.
Print Assumptions C112_work_at_least_stored_energy_to_tolerance.

(** C113: damage never decreases by more than the tolerance per step. *)
Theorem C113_damage_never_decreases_to_tolerance E F M nb nt (times data temps : nat -> nat -> R) (control : nat -> R) lm rtol atol miter throw gt n init st (b : 'I_nb) tol :
  let B := Models.damaged E F M in
  times_increase nb nt times ->
  @solve_both B nb nt times data temps control BackwardEuler lm rtol atol miter throw gt n init = inl st -> i_warned st = [::] ->
  tol_boundG (@both_G B nb nt times data temps control) BackwardEuler rtol atol gt n nt (time_table nb times) (i_result st) b tol ->
  Props_Models.never_heals M ->
  let dam k b := entry st k b (Flow.fl_nhist F).+1 in
  (forall k (b : 'I_nb), (k < nt)%N -> dam k b < 1) ->
  control b = 0 \/ Models.rate_free F /\ (forall k b', (k < nt)%N -> (b' < nb)%N -> E (temps k b') <> 0) ->
  dam 0%N b = 0 /\ forall j k, (j <= k)%N -> (k < nt)%N -> dam j b - (INR k - INR j) * tol <= dam k b.
Proof.
move=> B Gr S W Tb NH dam Lt Co; have t0 : 0 <= tol by case: Tb.
have m0 : (0 < Models.rf_n B)%N by [].
have D0 : dam 0%N b = 0 by apply: (run_zero S).
split=> // j k jk kn.
suff St : forall k, (k.+1 < nt)%N -> - (INR k.+1 * tol) - - (INR k * tol) <= dam k.+1 b - dam k b.
{ have := between (u := fun k => - (INR k * tol)) (v := dam^~ b) St jk kn; lra. }
move=> {j jk kn} {}k kn; rewrite S_INR.
have Dt := dtp Gr b (ltn0Sn k) kn; rewrite [k.+1.-1]/= in Dt.
have Step : (exists s e, Rabs (dam k.+1 b - dam k b - (times k.+1 b - times k b) * Damage.dm_rate M s (dam k.+1 b) (times k.+1 b) (temps k.+1 b) e) <= tol) -> - ((INR k + 1) * tol) - - (INR k * tol) <= dam k.+1 b - dam k b.
{ move=> [s [e /FullTol.abs_between]]; have := NH s (dam k.+1 b) (times k.+1 b) (temps k.+1 b) e (Lt k.+1 b kn) => P; have := Rmult_le_pos _ _ (Rlt_le _ _ Dt) P; lra. }
have Last : ((Flow.fl_nhist F).+1 < Models.rf_n B)%N by [].
case: (Req_EM_T (control b) 0) => [C0|C0].
- have := both_strain_steps_tol Gr S W Tb C0 (ltn0Sn k) kn Last; rewrite [k.+1.-1]/= => Q.
  apply: Step; exists (entry st k.+1 b 0%N / (1 - dam k.+1 b)), (step_rate times data k.+1 b); move: Q.
  by rewrite /= /Slices.cat /= PeanoNat.Nat.sub_0_r PeanoNat.Nat.ltb_irrefl.
- case: Co => [//|[RF HE]].
  have A : affine_run nt times data temps st.
  { move=> k' b' kn'; apply: StressR.damaged_affine => //; first by apply: HE.
    rewrite [Models.set0 _ _ _]/(entry st k' b' (Flow.fl_nhist F).+1); have := Lt k' b' kn'; move=> L E1; apply: (Rlt_irrefl 1); rewrite -{1}E1; exact: L. }
  case: (Req_EM_T (control b) 1) => [C1|C1].
  + have [e [A1 [S1 S2]]] := both_stress_steps_tol m0 Gr S W Tb A C1 (ltn0Sn k) kn.
    apply: Step; exists (data k.+1 b / (1 - dam k.+1 b)), e; have := S2 _ (ltn0Sn _) Last; rewrite [k.+1.-1]/= /dam.
    by rewrite /= /Slices.cat /= PeanoNat.Nat.sub_0_r PeanoNat.Nat.ltb_irrefl.
  + have := both_none_steps_tol S W Tb C0 C1 (ltn0Sn k) kn Last; rewrite [k.+1.-1]/= => /FullTol.abs_between.
    rewrite -/(dam k b) -/(dam k.+1 b); lra.
Qed.
Print Assumptions C113_damage_never_decreases_to_tolerance.

(** ** The hypotheses are met: the batch of C114_ex solved with atol = 1e-8. *)
Example C111_tol_ex : exists st,
  @solve_both ex_model 2 5 (fun k _ => INR k) (fun k _ => INR k / 100) (fun _ _ => 0) INR BackwardEuler (Direct Thomas) 0 (/ 10 ^ 8) 10 true "zero" 3 (fun _ => @zeroV RF 2 _) = inl st
  /\ i_warned st = [::]
  /\ (forall k, (k < 5)%N -> Rabs (entry st k (@Ordinal 2 0 isT) 0%N - 2 * INR k) <= INR k * / 10 ^ 8)
  (* the bounds of C111 and the energy inequality of C112 apply to it *)
  /\ (forall (b : 'I_2) k, (k < 5)%N -> - (INR k * / 10 ^ 8) <= entry st k b 1%N <= 30 + INR k * / 10 ^ 8 /\ forall i, (i < 2)%N -> Rabs (entry st k b i.+2) <= 10 + INR k * / 10 ^ 8)
  /\ (forall k, (k < 5)%N -> Rabs (entry st k (@Ordinal 2 0 isT) 0%N) <= 10 + 31 + Deriv.sum 2 (fun _ => 11) + 100).
Proof.
have Gr : times_increase 2 5 (fun k _ => INR k) by move=> b' _ i j ij _; apply: lt_INR.
have k5 (k : nat) : (k < 5)%N -> 0 <= INR k <= 4.
{ move=> kn; split; first exact: pos_INR. rewrite (_ : 4 = INR 4); last by rewrite /=; ring. apply: le_INR; apply/leP; exact: kn. }
have a0 : 0 < / 10 ^ 8 by apply: Rinv_0_lt_compat; apply: pow_lt; lra.
have a1 : / 10 ^ 8 < / 100.
{ apply: Rinv_lt_contravar; last by (rewrite /=; lra). apply: Rmult_lt_0_compat; [lra|apply: pow_lt; lra]. }
move: a0 a1; move: (/ 10 ^ 8) => a a0 a1.
set iso := Hardening.voce (fun _ => 30) (fun _ => 2); set kin := Hardening.chaboche 2 (fun _ _ => 100) (fun _ _ => 10).
have Pa (k b : nat) : (k < 5)%N -> (b < 2)%N -> 0 < 200 /\ 1 < 5 /\ 0 < 100 /\ 10 <= 10 /\ FullModel.rests iso 0 /\ FullModel.rests kin 0.
{ move=> _ _; do 4 (split; first lra); split; [exact: FullModel.rests_voce|exact: FullModel.rests_chaboche]. }
have Pb (k b : nat) : (k < 5)%N -> (b < 2)%N -> INR b = 0 -> Rabs (Deriv.sum k (fun j => 200 * (INR j.+1 / 100 - INR j / 100))) + INR k * a <= 10.
{ move=> kn _ _; have K := k5 k kn; rewrite ex_stress Rabs_right; last lra.
  have : INR k * a <= 4 * / 100 by apply: Rmult_le_compat; lra. lra. }
have Pc (k b : nat) : (k < 5)%N -> (b < 2)%N -> INR b = 1 -> Rabs (INR k / 100) <= 10.
{ move=> kn _ _; rewrite Rabs_right; have := k5 k kn; lra. }
have [st [S [W H]]] := @C114_elastic_range_always_solved (fun _ => 200) (fun _ => 5) (fun _ => 100) (fun _ => 10) iso kin
  2 5 (fun k _ => INR k) (fun k _ => INR k / 100) (fun _ _ => 0) INR (Direct Thomas) 0 a 10 true 3 (fun _ => @zeroV RF 2 _) (fun _ => 10) Gr isT isT isT Rlt_0_1 (Rlt_le _ _ a0) Pa Pb Pc.
exists st; split; first exact: S. split=> //.
split; first by move=> k kn; have [_ [/(_ erefl) Q _]] := H (@Ordinal 2 0 isT) k kn; move: Q; rewrite ex_stress.
have Tb (b : 'I_2) : tol_boundG (@both_G ex_model 2 5 (fun k _ => INR k) (fun k _ => INR k / 100) (fun _ _ => 0) INR) BackwardEuler 0 a "zero" 3 5 (time_table 2 (fun k _ => INR k)) (i_result st) b a.
{ split; first lra. split; first lra. by left. }
have P10 : forall i, (i < 2)%N -> 0 <= 100 /\ 0 < 10 /\ 100 / 10 <= 10 by move=> i _; lra.
split.
{ move=> b; apply: (@C111_internal_variables_bounded_to_tolerance _ _ _ _ _ _ _ _ _ _ _ _ _ _ _ _ _ _ _ _ _ _ _ _ b 30 (fun _ => 10) a Gr S W (Tb b)) => //=.
  - case: b => [[|[|b]] hb] //=; [by left|right; split=> // *; lra].
  - move=> _ _; split; [lra|split; [lra|exact: P10]]. }
have n5 : INR 5 = 5 by rewrite /=; ring.
apply: (@C111_stress_bounded_to_tolerance _ _ _ _ _ _ _ _ _ _ _ _ _ _ _ _ _ _ _ _ _ _ _ _ (@Ordinal 2 0 isT) 30 (fun _ => 10) _ a Gr S W (Tb _) erefl) => [|k kn|k k0 kn].
- rewrite /=; lra.
- cbv zeta; rewrite n5; do 3 (split; first lra); split; [lra|split; [lra|split; [lra|exact: P10]]].
- cbv zeta; rewrite n5.
  rewrite (_ : Rabs _ = / 100); last first.
  { rewrite -(prednK k0) S_INR /= (_ : _ / 100 - _ = / 100); last by field. rewrite Rabs_right; lra. }
  rewrite (_ : INR k - INR k.-1 = 1); last by rewrite -{1}(prednK k0) S_INR; ring.
  have A : 0 <= (/ 100 + a / 200) / 1 <= 1 by lra.
  have B : 0 < / 5 by lra. have := @Torch.pow0_le1 _ _ A B; rewrite /=; lra.
Qed.
