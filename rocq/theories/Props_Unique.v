(** C115: the exact simulation of a hardening model is unique, entry by entry; it exists. *)
From Coq Require Import Reals List String Lra Lia FunctionalExtensionality.
From mathcomp Require Import all_ssreflect all_algebra.
From Verif Require Import ChunkModel ChunkSolve ChunkInst NewtonModel Ode OdeForward OdeReal OdeBlock OdeDiff RField Pipeline PipelineBoth ElasticRange.
From Verif Require Interp Models Flow Hardening Damage Deriv Slices PipelineR StressR Torch FullModel VCStep VCHistory VCExact Props_Pipeline Props_Stress Props_Models Props_FullModel.
Set Implicit Arguments. Unset Strict Implicit. Unset Printing Implicit Defensive.
Local Open Scope R_scope.
Import Props_Stress Props_FullModel VCExact.

Section One.
Variables (E pn eta s0 Rs d : R -> R) (nback : nat) (C g : R -> nat -> R).
Let B := voce_chaboche E pn eta s0 Rs d nback C g.
Let F := Flow.isokin pn eta s0 (Hardening.voce Rs d) (Hardening.chaboche nback C g).
Section Run.
Variables (nb nt : nat) (times data temps : nat -> nat -> R) (control : nat -> R).
Variables (lm : lin_method) (miter : nat) (throw : bool) (gt : string) (n : nat) (init : nat -> VB RF nb (Models.rf_n B)) (st : istate RF nb (Models.rf_n B)).
Hypothesis Gr : times_increase nb nt times.
Hypothesis S : @solve_both B nb nt times data temps control BackwardEuler lm 0 0 miter throw gt n init = inl st.
Hypothesis W : i_warned st = [::].
Variable b : 'I_nb.
Hypothesis Gd : good_entry E pn eta s0 Rs d nback C g nt temps b.
Let sig k := stress_of control data st k b.
Let hist k i := entry st k b i.+1.
Let EE k := if Req_EM_T (control b) 0 then E (temps k b) else 0.
Let prev k := if Req_EM_T (control b) 0 then entry st k.-1 b 0%N else data k b.
Lemma run_model : control b = 0 \/ control b = 1 /\ (forall k b', (k < nt)%N -> (b' < nb)%N -> 0 < E (temps k b')) ->
  (forall i, (i < nback.+1)%N -> hist 0%N i = 0) /\
  forall k, (0 < k)%N -> (k < nt)%N ->
    VCHistory.model_step pn eta s0 Rs d nback C g (EE k) (temps k b) (times k b - times k.-1 b) (data k b - data k.-1 b) (prev k) (hist k.-1) (sig k) (hist k).
Proof.
move=> Co; rewrite /EE /prev /sig /stress_of; case: Req_EM_T => [c0|c0].
- have [_ [H0 H]] := C92_strain_entries Gr S W c0; split=> // k k0 kn; have [A A'] := H k k0 kn.
  split; last split.
  + by rewrite A (VCHistory.vc_rate pn eta s0 Rs d nback C g).
  + by rewrite (A' 0%N (ltn0Sn nback)) (VCHistory.vc_hrate0 pn eta s0 Rs d nback C g).
  + by move=> i /ltP ib; rewrite (A' i.+1 ib) (VCHistory.vc_hrateS pn eta s0 Rs d nback C g).
- case: Co => [//|[c1 HE]].
  have RFr : Models.rate_free F by apply: Models.rate_free_isokin.
  have [_ [H0 H]] := C92_stress_entries Gr RFr HE S W c1; split=> // k k0 kn; have [_ A'] := H k k0 kn.
  split; last split.
  + rewrite Rmult_0_l; exact: Rminus_diag_eq.
  + by rewrite (A' 0%N (ltn0Sn nback)) (VCHistory.vc_hrate0 pn eta s0 Rs d nback C g).
  + by move=> i /ltP ib; rewrite (A' i.+1 ib) (VCHistory.vc_hrateS pn eta s0 Rs d nback C g).
Qed.
Lemma EE_ge0 k : (k < nt)%N -> 0 <= EE k.
Proof. move=> kn; have [/(_ k kn) [E0 _] _] := Gd; rewrite /EE; case: Req_EM_T => [u|u]; [exact: Rlt_le|exact: Rle_refl]. Qed.
Lemma run_range : control b = 0 \/ control b = 1 /\ (forall k b', (k < nt)%N -> (b' < nb)%N -> 0 < E (temps k b')) ->
  forall k, (k < nt)%N -> VCHistory.in_range Rs nback C g (temps k b) (hist k).
Proof.
move=> Co; have [H0 H] := run_model Co; have [G1 G2] := Gd; elim=> [|k IH] kn.
- have [_ A] := G1 0%N kn; apply: (VCHistory.range_zero pn eta s0 Rs d nback C g _ _ A) => i /ltP; exact: H0.
- have [_ A] := G1 k.+1 kn; have D := dt_pos (ltn_ord b) Gr (ltn0Sn k) kn.
  apply: (VCHistory.model_step_range pn eta s0 Rs d nback C g _ _ _ _ _ _ _ _ (EE_ge0 kn) (Rlt_le _ _ D) A _ (H k.+1 (ltn0Sn k) kn)).
  apply: VCHistory.range_next (G2 k kn) (IH (ltnW kn)).
Qed.
End Run.
End One.

(** C115: two simulations of the same test with the same admissible material agree exactly, in every internal variable and (strain control) the stress, whatever the
    batches they are part of, the block size, linear solver, initial guess and iteration limit; under stress control the strains agree to the tolerance of
    the inner strain-rate solves. *)
Theorem C115_exact_runs_agree E pn eta s0 Rs d nback C g nb nb' nt (times times' data data' temps temps' : nat -> nat -> R) (control control' : nat -> R)
    lm lm' miter miter' throw throw' gt gt' n n' init init' st st' (b : 'I_nb) (b' : 'I_nb') :
  let B := voce_chaboche E pn eta s0 Rs d nback C g in
  times_increase nb nt times -> times_increase nb' nt times' ->
  @solve_both B nb nt times data temps control BackwardEuler lm 0 0 miter throw gt n init = inl st -> i_warned st = [::] ->
  @solve_both B nb' nt times' data' temps' control' BackwardEuler lm' 0 0 miter' throw' gt' n' init' = inl st' -> i_warned st' = [::] ->
  (forall k, (k < nt)%N -> times k b = times' k b' /\ data k b = data' k b' /\ temps k b = temps' k b') -> control b = control' b' ->
  good_entry E pn eta s0 Rs d nback C g nt temps b ->
  control b = 0 \/ control b = 1 /\ (forall k i, (k < nt)%N -> (i < nb)%N -> 0 < E (temps k i)) /\ (forall k i, (k < nt)%N -> (i < nb')%N -> 0 < E (temps' k i)) ->
  forall k, (k < nt)%N ->
    (control b = 0 -> entry st k b 0%N = entry st' k b' 0%N) /\
    (control b = 1 -> Rabs (entry st k b 0%N - entry st' k b' 0%N) <=
       Deriv.sum k (fun j => 2 * (times j.+1 b - times j b) / (10 ^ 10 * E (temps j.+1 b)))) /\
    forall i, (i <= nback)%N -> entry st k b i.+1 = entry st' k b' i.+1.
Proof.
move=> B Gr Gr' S W S' W' Same Cc Gd Co.
have Co1 : control b = 0 \/ control b = 1 /\ (forall k i, (k < nt)%N -> (i < nb)%N -> 0 < E (temps k i)) by case: Co => [|[? []]]; [left|right].
have Co2 : control' b' = 0 \/ control' b' = 1 /\ (forall k i, (k < nt)%N -> (i < nb')%N -> 0 < E (temps' k i)) by rewrite -Cc; case: Co => [|[? []]]; [left|right].
have [Z H] := run_model Gr S W Co1; have [Z' H'] := run_model Gr' S' W' Co2; have Rg := run_range Gr S W Gd Co1.
have [G1 G2] := Gd.
have main k : (k < nt)%N -> (control b = 0 -> entry st k b 0%N = entry st' k b' 0%N) /\ forall i, (i <= nback)%N -> entry st k b i.+1 = entry st' k b' i.+1.
{ elim: k => [|k IH] kn.
  - split; last by move=> i ib; rewrite (Z i) ?(Z' i).
    move=> c0; have /= [I _] := C92_strain_entries Gr S W c0; rewrite c0 in Cc; have /= [I' _] := C92_strain_entries Gr' S' W' (esym Cc); by rewrite I I'.
  - have [IH1 IH2] := IH (ltnW kn); have [_ A] := G1 k.+1 kn; have D := dt_pos (ltn_ord b) Gr (ltn0Sn k) kn.
    have [t1 [d1 T1]] := Same k.+1 kn; have [t0 [d0 T0]] := Same k (ltnW kn).
    have M := H k.+1 (ltn0Sn k) kn; have M' := H' k.+1 (ltn0Sn k) kn; rewrite [k.+1.-1]/= in M M' D.
    have HE := EE_ge0 control Gd kn.
    have In : VCHistory.in_range Rs nback C g (temps k.+1 b) (fun i => entry st k b i.+1) by apply: VCHistory.range_next (G2 k kn) (Rg k (ltnW kn)).
    rewrite -Cc -t1 -t0 -d1 -d0 -T1 in M'.
    set P := (X in VCHistory.model_step _ _ _ _ _ _ _ _ _ _ _ _ X _ _ _) in M; set P' := (X in VCHistory.model_step _ _ _ _ _ _ _ _ _ _ _ _ X _ _ _) in M'.
    have eP : P = P' by rewrite /P /P'; case: Req_EM_T => c0 //; apply: IH1.
    have M2 : VCHistory.model_step pn eta s0 Rs d nback C g (if Req_EM_T (control b) 0 then E (temps k.+1 b) else 0) (temps k.+1 b) (times k.+1 b - times k b)
        (data k.+1 b - data k b) P (fun i => entry st k b i.+1) (stress_of control' data' st' k.+1 b') (fun i => entry st' k.+1 b' i.+1).
    { rewrite eP; case: M' => [m1 [m2 m3]]; split=> //; split; first by rewrite (IH2 0%N).
      by move=> i ib; rewrite (IH2 i.+1) ?m3 //; apply/ltP. }
    have [Q1 Q2] := VCHistory.model_step_unique pn eta s0 Rs d nback C g _ _ _ _ _ _ _ _ _ _ HE (Rlt_le _ _ D) A In M M2.
    split; last by move=> i ib; apply: Q2; apply/ltP.
    move=> c0; move: Q1; rewrite /stress_of -Cc; by case: Req_EM_T. }
move=> k kn; have [m1 m2] := main k kn; split=> //; split=> // c1.
have RFr : Models.rate_free (Flow.isokin pn eta s0 (Hardening.voce Rs d) (Hardening.chaboche nback C g)) by apply: Models.rate_free_isokin.
case: Co => [c0|[_ [HE HE']]]; first by exfalso; rewrite c1 in c0; lra.
have /= [I [_ Hs]] := C92_stress_entries Gr RFr HE S W c1; rewrite c1 in Cc; have /= [I' [_ Hs']] := C92_stress_entries Gr' RFr HE' S' W' (esym Cc).
elim: k kn m1 m2 => [|k IH] kn _ m2; first by rewrite I I' Rminus_diag_eq // Rabs_R0 /=; lra.
have [j1 j2] := main k (ltnW kn); have IHk := IH (ltnW kn) j1 j2.
have [A _] := Hs k.+1 (ltn0Sn k) kn; have [A' _] := Hs' k.+1 (ltn0Sn k) kn; rewrite [k.+1.-1]/= in A A'.
have [t1 [d1 T1]] := Same k.+1 kn; have [t0 [d0 T0]] := Same k (ltnW kn).
rewrite -t1 -t0 -d1 -d0 -T1 in A'.
rewrite Props_FullModel.sumS.
set r := Flow.fl_rate _ _ _ _ _ _ in A; set r' := Flow.fl_rate _ _ _ _ _ _ in A'.
have er : r = r'.
{ rewrite /r /r' !(VCHistory.vc_rate pn eta s0 Rs d nback C g) /VCHistory.the_flow (m2 0%N) //.
  congr (VCStep.flow _ _ _ (_ - _)); apply: Deriv.sum_ext => i ib; apply: m2; exact/ltP. }
rewrite -er in A'.
move: A A' IHk; set u := entry st k.+1 b 0; set u' := entry st' k.+1 b' 0; set v := entry st k b 0; set v' := entry st' k b' 0; set q := _ / E _ + _; set w := _ / (10 ^ 10 * _) => A A' IHk.
have -> : 2 * (times k.+1 b - times k b) / (10 ^ 10 * E (temps k.+1 b)) = w + w by rewrite /w; field; have := HE k.+1 b kn (ltn_ord b); lra.
have -> : u - u' = (v - v') + ((u - v - q) + - (u' - v' - q)) by ring.
apply: Rle_trans (Rabs_triang _ _) _; apply: Rplus_le_compat => //; apply: Rle_trans (Rabs_triang _ _) _; rewrite Rabs_Ropp; exact: Rplus_le_compat.
Qed.
Print Assumptions C115_exact_runs_agree.

(** Under strain control there is exactly one history that satisfies all the step equations, and every simulation that converges exactly returns it. *)
Theorem C115_exactly_one_history E pn eta s0 Rs d nback C g nb nt (times strains temps : nat -> nat -> R) :
  let B := voce_chaboche E pn eta s0 Rs d nback C g in
  times_increase nb nt times -> (forall b, (b < nb)%N -> good_entry E pn eta s0 Rs d nback C g nt temps b) ->
  exists y : nat -> VB RF nb (Models.rf_n B),
    [/\ exact_history nt times strains temps y,
        forall y', exact_history nt times strains temps y' -> forall k, (k < nt)%N -> y' k = y k &
        forall lm miter throw gt n init st, @solve_strain B nb nt times strains temps BackwardEuler lm 0 0 miter throw gt n init = inl st -> i_warned st = [::] ->
          forall k, (k < nt)%N -> i_result st k = y k].
Proof.
move=> B G Gd; have [y Hy] := history_exists strains G Gd; exists y; split=> //.
- move=> y' Hy'; exact: (history_unique G Gd Hy' Hy).
- move=> lm miter throw gt n init st S W; apply: (history_unique G Gd _ Hy); split.
  + by have [_ [-> _]] := integrate_writes S.
  + move=> k b k0 kn; exact: (integrate_exact erefl erefl S W b k0 kn).
Qed.
Print Assumptions C115_exactly_one_history.

(** The hypotheses are met by the example model of C111 (E 200, n 5, eta 100, s0 10, Rs 30, d 2, two backstresses with C 100 and g 10), on any strain history. *)
Example C115_ex nb nt (times strains : nat -> nat -> R) : times_increase nb nt times ->
  exists y : nat -> VB RF nb (Models.rf_n ex_model), exact_history nt times strains (fun _ _ => 0) y.
Proof.
move=> G; have [|y [H _ _]] := @C115_exactly_one_history (fun _ => 200) (fun _ => 5) (fun _ => 100) (fun _ => 10) (fun _ => 30) (fun _ => 2) 2 (fun _ _ => 100) (fun _ _ => 10) nb nt times strains (fun _ _ => 0) G; last by exists y.
move=> b _; split=> k _; first by rewrite /VCHistory.admissible; repeat split; lra.
rewrite /VCHistory.no_softening; split=> *; lra.
Qed.
(** The mixed batch of C114_ex is an exact run, and every other exact run of the same tables agrees with it. *)
Example C115_agree_ex : exists st,
  @solve_both ex_model 2 5 (fun k _ => INR k) (fun k _ => INR k / 100) (fun _ _ => 0) INR BackwardEuler (Direct Thomas) 0 0 10 true "zero" 3 (fun _ => @zeroV RF 2 _) = inl st
  /\ forall lm miter throw gt n init st',
    @solve_both ex_model 2 5 (fun k _ => INR k) (fun k _ => INR k / 100) (fun _ _ => 0) INR BackwardEuler lm 0 0 miter throw gt n init = inl st' -> i_warned st' = [::] ->
    forall k, (k < 5)%N -> 2 * INR k = entry st' k (@Ordinal 2 0 isT) 0%N /\ forall (b : 'I_2) i, (i <= 2)%N -> entry st k b i.+1 = entry st' k b i.+1.
Proof.
have [st [S [W [H0 _]]]] := C114_ex; exists st; split=> // lm miter throw gt n init st' S' W' k kn.
have Gr : times_increase 2 5 (fun k _ => INR k) by move=> b' _ i j ij _; apply: lt_INR.
have Gd (b : 'I_2) : good_entry (fun _ => 200) (fun _ => 5) (fun _ => 100) (fun _ => 10) (fun _ => 30) (fun _ => 2) 2 (fun _ _ => 100) (fun _ _ => 10) 5 (fun _ _ => 0) b.
{ split=> j _; first by rewrite /VCHistory.admissible; repeat split; lra. rewrite /VCHistory.no_softening; split=> *; lra. }
have Co (b : 'I_2) : INR b = 0 \/ INR b = 1 /\ (forall k i, (k < 5)%N -> (i < 2)%N -> 0 < 200) /\ (forall k i, (k < 5)%N -> (i < 2)%N -> 0 < 200).
{ case: b => [[|[|b]] hb] //=; [by left|right; split=> //; split=> *; lra]. }
have A (b : 'I_2) := C115_exact_runs_agree Gr Gr S W S' W' (fun k _ => conj erefl (conj erefl erefl)) erefl (Gd b) (Co b) kn.
split; last by move=> b i ib; have [_ [_ ->]] := A b.
rewrite -(H0 k kn); have [-> //] := A (@Ordinal 2 0 isT).
Qed.
