(** C117: the shape of simulated tension, relaxation and creep curves of a hardening material. *)
From Coq Require Import Reals List String Lra Lia FunctionalExtensionality.
From mathcomp Require Import all_ssreflect all_algebra.
From Verif Require Import ChunkModel ChunkSolve ChunkInst NewtonModel Ode OdeForward OdeReal OdeBlock OdeDiff RField Pipeline PipelineBoth ElasticRange.
From Verif Require Interp Models Flow Hardening Damage Deriv Slices PipelineR StressR Torch FullModel VCStep VCHistory VCExact VCShape VCClose Props_Pipeline Props_Stress Props_Models Props_Tolerance Props_FullModel Props_FullTol Props_Unique Props_Close.
From Verif Require Import Tolerance.
Set Implicit Arguments. Unset Strict Implicit. Unset Printing Implicit Defensive.
Local Open Scope R_scope.
Import Props_Stress Props_FullModel VCExact Props_Unique.

Lemma rest_range pn eta s0 Rs d nback C g T (hist : nat -> nat -> R) : VCHistory.admissible pn eta s0 Rs d nback C g T ->
  (forall i, (i < nback.+1)%N -> hist 0%N i = 0) -> VCHistory.in_range Rs nback C g T (hist 0%N).
Proof. by move=> A Z; apply: (VCHistory.range_zero pn eta s0 Rs d nback C g _ _ A) => i /ltP; apply: Z. Qed.
Lemma rest_back nback (hist : nat -> nat -> R) : (forall i, (i < nback.+1)%N -> hist 0%N i = 0) -> VCShape.back nback (hist 0%N) = 0.
Proof. move=> Z; apply: Deriv.sum_0 => i /ltP ib; exact: Z. Qed.

(** One strain controlled test at one temperature: times, strains, stresses and internal variables. *)
Section Core.
Variables (E pn eta s0 Rs d : R -> R) (nback : nat) (C g : R -> nat -> R) (nt : nat) (time strain stress : nat -> R) (hist : nat -> nat -> R) (T : R).
Hypothesis Gr : forall k, (0 < k)%N -> (k < nt)%N -> time k.-1 < time k.
Hypothesis I : stress 0%N = 0.
Hypothesis Z : forall i, (i < nback.+1)%N -> hist 0%N i = 0.
Hypothesis H : forall k, (0 < k)%N -> (k < nt)%N ->
  VCHistory.model_step pn eta s0 Rs d nback C g (E T) T (time k - time k.-1) (strain k - strain k.-1) (stress k.-1) (hist k.-1) (stress k) (hist k).
Hypothesis ET : 0 < E T.
Hypothesis A : VCHistory.admissible pn eta s0 Rs d nback C g T.
Lemma tension_core :
  let rate k := (strain k - strain k.-1) / (time k - time k.-1) in
  0 <= rate 1%N -> (forall k, (0 < k)%N -> (k.+1 < nt)%N -> rate k <= rate k.+1) ->
  let inelastic k := strain k - stress k / E T in
  forall k, (0 < k)%N -> (k < nt)%N ->
    stress k.-1 <= stress k /\ inelastic k.-1 <= inelastic k /\ forall i, (i <= nback)%N -> hist k.-1 i <= hist k i.
Proof.
move=> rate r1 rm inelastic k k0 kn.
pose h := hist; pose dt k := time k - time k.-1.
have D j : (0 < j)%N -> (j < nt)%N -> 0 < dt j by move=> j0 jn; have := Gr j0 jn; rewrite /dt; lra.
have rp j : (0 < j)%N -> (j < nt)%N -> 0 <= rate j.
{ elim: j => [//|[|j] IH] _ jn //; apply: Rle_trans (IH (ltn0Sn j) (ltnW jn)) _; exact: rm. }
have dE j : (0 < j)%N -> (j < nt)%N -> strain j - strain j.-1 = dt j * rate j.
{ move=> j0 jn; rewrite /rate -/(dt j); have := D j j0 jn => Dj; field; lra. }
have E0 := Rlt_le _ _ ET.
have dtp j : (0 < j)%coq_nat -> (j < nt)%coq_nat -> 0 <= dt j by move=> /ltP j0 /ltP jn; apply: Rlt_le; exact: D.
have st' j : (0 < j)%coq_nat -> (j < nt)%coq_nat -> VCHistory.model_step pn eta s0 Rs d nback C g (E T) T (dt j) (strain j - strain j.-1) (stress (Nat.pred j)) (h (Nat.pred j)) (stress j) (h j).
{ by move=> /ltP j0 /ltP jn; apply: H. }
have h0 := @rest_range pn eta s0 Rs d nback C g T hist A Z; have b0 := rest_back Z.
have r0 : 0 <= stress 0%N - VCShape.back nback (h 0%N) by rewrite I b0; lra.
have fw j : (0 < j)%coq_nat -> (j < nt)%coq_nat -> 0 <= E T * (strain j - strain j.-1) /\ stress (Nat.pred j) <= stress (Nat.pred j).
{ move=> /ltP j0 /ltP jn; split; last exact: Rle_refl. rewrite dE //; apply: Rmult_le_pos E0 _; apply: Rmult_le_pos; [apply: Rlt_le; exact: D|exact: rp]. }
have [F0 M] := VCShape.curve_step pn eta s0 Rs d nback C g T (E T) A E0 nt dt (fun j => strain j - strain j.-1) stress (fun j => stress (Nat.pred j)) h dtp st' h0 r0 fw k (elimT ltP k0) (elimT ltP kn).
have F1 : VCHistory.the_flow pn eta s0 nback T (stress k) (h k) <= rate k.
{ apply: (VCShape.curve_tension pn eta s0 Rs d nback C g T (E T) A E0 nt dt (fun j => strain j - strain j.-1) stress (fun j => stress (Nat.pred j)) h dtp st' h0 r0 fw rate).
  - by move=> j /ltP j0 /ltP jn; split; last exact: dE.
  - by move=> j /ltP j0 /ltP jn; apply: rm.
  - move=> _; rewrite (VCShape.flow_rest pn eta s0 nback T); [exact: r1|rewrite I b0; ring].
  - exact/ltP.
  - exact/ltP. }
have [S1 _] := H k0 kn; rewrite dE // in S1; have Dk := D k k0 kn.
set f := VCHistory.the_flow _ _ _ _ _ _ _ in F0 F1; rewrite -/(h k) -/f -/(dt k) in S1.
split; last split.
- have : 0 <= E T * (dt k * (rate k - f)) by apply: Rmult_le_pos E0 _; apply: Rmult_le_pos; lra.
  lra.
- have e1 := dE k k0 kn; have : 0 <= dt k * f by apply: Rmult_le_pos; lra.
  have : (stress k - stress k.-1) / E T = dt k * rate k - dt k * f by rewrite S1; field; lra.
  rewrite /inelastic /Rdiv; lra.
- move=> i ib; exact: (M i (elimT (@ltP i nback.+1) ib)).
Qed.
Lemma relaxation_core j :
  (forall k, (k.+1 < nt)%N -> strain k <= strain k.+1) -> (forall k, (j < k)%N -> (k < nt)%N -> strain k = strain j) ->
  let back k := Deriv.sum nback (fun i => hist k i.+1) in
  let decay k := (stress k.-1 - stress k) / (time k - time k.-1) in
  forall k, (j < k)%N -> (k < nt)%N ->
    stress k <= stress k.-1 /\ 0 <= back k.-1 <= back k /\ back k <= stress k /\ ((k.+1 < nt)%N -> decay k.+1 <= decay k).
Proof.
move=> up hold bk decay k jk kn.
have k0 : (0 < k)%N := leq_ltn_trans (leq0n j) jk.
pose h := hist; pose dt k := time k - time k.-1.
have D i : (0 < i)%N -> (i < nt)%N -> 0 < dt i by move=> i0 ni; have := Gr i0 ni; rewrite /dt; lra.
have E0 := Rlt_le _ _ ET.
have dtp i : (0 < i)%coq_nat -> (i < nt)%coq_nat -> 0 <= dt i by move=> /ltP i0 /ltP ni; apply: Rlt_le; exact: D.
have st' i : (0 < i)%coq_nat -> (i < nt)%coq_nat -> VCHistory.model_step pn eta s0 Rs d nback C g (E T) T (dt i) (strain i - strain i.-1) (stress (Nat.pred i)) (h (Nat.pred i)) (stress i) (h i).
{ by move=> /ltP i0 /ltP ni; apply: H. }
have h0 := @rest_range pn eta s0 Rs d nback C g T hist A Z; have b0 := rest_back Z.
have r0 : 0 <= stress 0%N - VCShape.back nback (h 0%N) by rewrite I b0; lra.
have fw i : (0 < i)%coq_nat -> (i < nt)%coq_nat -> 0 <= E T * (strain i - strain i.-1) /\ stress (Nat.pred i) <= stress (Nat.pred i).
{ move=> /ltP i0 /ltP ni; split; last exact: Rle_refl. apply: Rmult_le_pos E0 _; case: i i0 ni => // i _ ni; have := up i ni; rewrite [i.+1.-1]/=; lra. }
have cs := VCShape.curve_step pn eta s0 Rs d nback C g T (E T) A E0 nt dt (fun i => strain i - strain i.-1) stress (fun i => stress (Nat.pred i)) h dtp st' h0 r0 fw.
have ci := VCShape.curve_inv pn eta s0 Rs d nback C g T (E T) A E0 nt dt (fun i => strain i - strain i.-1) stress (fun i => stress (Nat.pred i)) h dtp st' h0 r0 fw.
have cl := VCShape.curve_slower pn eta s0 Rs d nback C g T (E T) A E0 nt dt (fun i => strain i - strain i.-1) stress (fun i => stress (Nat.pred i)) h dtp st' h0 r0 fw.
pose f k := VCHistory.the_flow pn eta s0 nback T (stress k) (h k).
have drop i : (j < i)%N -> (i < nt)%N -> stress i.-1 - stress i = E T * (dt i * f i) /\ 0 <= f i.
{ move=> ji ni; have i0 : (0 < i)%N := leq_ltn_trans (leq0n j) ji; have [F0 _] := cs i (elimT ltP i0) (elimT ltP ni); split=> //.
  have [Q _] := H i0 ni; rewrite -/(dt i) -/(h i) -/(f i) in Q.
  have e : strain i - strain i.-1 = 0.
  { rewrite (hold i ji ni); case: i i0 ni ji {F0 Q} => // i _ ni; rewrite ltnS leq_eqVlt [i.+1.-1]/= => /orP [/eqP ->|ji]; first lra. rewrite (hold i ji (ltnW ni)); lra. }
  rewrite e in Q; lra. }
have fall i : (j < i)%N -> (i < nt)%N -> stress i <= stress i.-1.
{ move=> ji ni; have [e F0] := drop i ji ni; have Di := D i (leq_ltn_trans (leq0n j) ji) ni.
  have : 0 <= E T * (dt i * f i) by apply: Rmult_le_pos E0 _; apply: Rmult_le_pos; lra.
  lra. }
have grow i : (i < nt)%N -> 0 <= bk i /\ forall i', (i' < nback.+1)%N -> 0 <= h i i'.
{ elim: i => [|i IH] ni; first by rewrite /bk; split=> [|i' i'n]; [have := b0; rewrite /VCShape.back /h => ->; lra|rewrite /h Z //; lra].
  have [_ IHp] := IH (ltnW ni); have [_ M] := cs i.+1 (elimT ltP (ltn0Sn i)) (elimT ltP ni).
  have P i' : (i' < nback.+1)%N -> 0 <= h i.+1 i' by move=> i'n; apply: Rle_trans (IHp i' i'n) _; apply: M; exact/ltP.
  split=> //; rewrite /bk -(@Deriv.sum_0 nback (fun _ => 0) (fun _ _ => erefl)); apply: VCStep.sum_mono => i' /ltP i'n; exact: P. }
have [Fk M] := cs k (elimT ltP k0) (elimT ltP kn).
have kp : (k.-1 < nt)%N by apply: leq_ltn_trans (leq_pred k) kn.
split; first exact: fall. split; [split|split].
- by have [] := grow k.-1 kp.
- apply: VCStep.sum_mono => i ib; apply: (M i.+1); exact: (proj1 (Nat.succ_lt_mono _ _) ib).
- have [_] := ci k (elimT ltP kn); rewrite /VCShape.back /bk /h => r; lra.
- move=> k1; have [e1 _] := drop k.+1 (ltn_trans jk (ltnSn k)) k1; have [e0 _] := drop k jk kn.
  have D1 := D k.+1 (ltn0Sn k) k1; have D0 := D k k0 kn.
  rewrite /decay e1 e0 -/(dt k.+1) -/(dt k).
  have Fl (a t q : R) : 0 < t -> a * (t * q) / t = a * q by move=> t0; field; lra.
  rewrite !Fl //; apply: Rmult_le_compat_l E0 _; apply: (cl k.+1 (elimT ltP (ltn0Sn k)) (elimT ltP k1)); apply: (fall k.+1 _ k1); exact: ltn_trans jk (ltnSn k).
Qed.
End Core.

Section Run.
Variables (E pn eta s0 Rs d : R -> R) (nback : nat) (C g : R -> nat -> R).
Let B := voce_chaboche E pn eta s0 Rs d nback C g.
Variables (nb nt : nat) (times data temps : nat -> nat -> R) (control : nat -> R).
Variables (lm : lin_method) (miter : nat) (throw : bool) (gt : string) (n : nat) (init : nat -> VB RF nb (Models.rf_n B)) (st : istate RF nb (Models.rf_n B)).
Hypothesis Gr : times_increase nb nt times.
Hypothesis S : @solve_both B nb nt times data temps control BackwardEuler lm 0 0 miter throw gt n init = inl st.
Hypothesis W : i_warned st = [::].
Variables (b : 'I_nb) (T : R).
Hypothesis iso : forall k, (k < nt)%N -> temps k b = T.
Hypothesis A : VCHistory.admissible pn eta s0 Rs d nback C g T.
Hypothesis ET : 0 < E T.
Let hist k i := entry st k b i.+1.
Let fl k s := VCHistory.the_flow pn eta s0 nback T s (hist k).
Let dt k := times k b - times k.-1 b.
Let de k := data k b - data k.-1 b.
Section Stress.
Hypothesis c1 : control b = 1.
Hypothesis HE : forall k b', (k < nt)%N -> (b' < nb)%N -> 0 < E (temps k b').
Lemma stress_steps : (forall i, (i < nback.+1)%N -> hist 0%N i = 0) /\
  forall k, (0 < k)%N -> (k < nt)%N -> VCHistory.model_step pn eta s0 Rs d nback C g 0 T (dt k) (de k) (data k b) (hist k.-1) (data k b) (hist k) /\
    Rabs (entry st k b 0%N - entry st k.-1 b 0%N - (de k / E T + dt k * fl k (data k b))) <= dt k / (10 ^ 10 * E T).
Proof.
have [Z H] := run_model Gr S W (or_intror (conj c1 HE)).
have RFr : Models.rate_free (Flow.isokin pn eta s0 (Hardening.voce Rs d) (Hardening.chaboche nback C g)) by apply: Models.rate_free_isokin.
have [_ [_ Cr]] := C92_stress_entries Gr RFr HE S W c1.
split=> // k k0 kn; split.
- have := H k k0 kn; rewrite /stress_of iso //; case: Req_EM_T => [u|u] //; exfalso; have := c1; rewrite u; lra.
- have [] := Cr k k0 kn; by rewrite iso // (VCHistory.vc_rate pn eta s0 Rs d nback C g).
Qed.
End Stress.
End Run.

(** The steps of an exact history, one test of it at one temperature. *)
Lemma history_test E pn eta s0 Rs d nback C g nb nt (times strains temps : nat -> nat -> R) (b : 'I_nb) T (y : nat -> VB RF nb (Models.rf_n (voce_chaboche E pn eta s0 Rs d nback C g))) :
  times_increase nb nt times -> exact_history nt times strains temps y -> (forall k, (k < nt)%N -> temps k b = T) ->
  let stress k := to_vec (y k b) 0%N in let hist k i := to_vec (y k b) i.+1 in
  [/\ (forall k, (0 < k)%N -> (k < nt)%N -> times k.-1 b < times k b), stress 0%N = 0, (forall i, (i < nback.+1)%N -> hist 0%N i = 0) &
  forall k, (0 < k)%N -> (k < nt)%N ->
    VCHistory.model_step pn eta s0 Rs d nback C g (E T) T (times k b - times k.-1 b) (strains k b - strains k.-1 b) (stress k.-1) (hist k.-1) (stress k) (hist k)].
Proof.
move=> Gr Hy iso stress hist; have [Z H] := proj1 (history_model strains temps Gr y) Hy; split.
- by move=> k k0 kn; have := dt_pos (ltn_ord b) Gr k0 kn; lra.
- by rewrite /stress Z tvec0.
- by move=> i _; rewrite /hist Z tvec0.
- by move=> k k0 kn; have := H k b k0 kn; rewrite iso.
Qed.

(** C117: monotonic tension at a strain rate that does not decrease, at one temperature.  The stress never drops, the inelastic strain never decreases, and the
    isotropic and kinematic hardening variables grow.  First for the exact solution of the step equations (which exists and is unique, C115). *)
Theorem C117_tension_curve E pn eta s0 Rs d nback C g nb nt (times strains temps : nat -> nat -> R) (b : 'I_nb) T y :
  let B := voce_chaboche E pn eta s0 Rs d nback C g in
  times_increase nb nt times -> @exact_history B nb nt times strains temps y ->
  (forall k, (k < nt)%N -> temps k b = T) -> 0 < E T -> VCHistory.admissible pn eta s0 Rs d nback C g T ->
  let rate k := (strains k b - strains k.-1 b) / (times k b - times k.-1 b) in
  0 <= rate 1%N -> (forall k, (0 < k)%N -> (k.+1 < nt)%N -> rate k <= rate k.+1) ->
  let value k := to_vec (y k b) in let inelastic k := strains k b - value k 0%N / E T in
  forall k, (0 < k)%N -> (k < nt)%N ->
    value k.-1 0%N <= value k 0%N /\ inelastic k.-1 <= inelastic k /\ forall i, (i <= nback)%N -> value k.-1 i.+1 <= value k i.+1.
Proof.
move=> B Gr Hy iso ET A rate r1 rm value inelastic k k0 kn.
have [Gt I Z H] := history_test Gr Hy iso; have [q1 [q2 q3]] := @tension_core E pn eta s0 Rs d nback C g nt (fun k => times k b) (fun k => strains k b) (fun k => to_vec (y k b) 0%N) (fun k i => to_vec (y k b) i.+1) T Gt I Z H ET A r1 rm k k0 kn; split; [exact: q1|split; [exact: q2|exact: q3]].
Qed.
Print Assumptions C117_tension_curve.

(** C117: stress relaxation.  The strain never decreases and is held from time [j] on.  During the hold the stress decays, ever more slowly, and stays above the
    sum of the backstresses, which is not negative and grows. *)
Theorem C117_relaxation_curve E pn eta s0 Rs d nback C g nb nt (times strains temps : nat -> nat -> R) (b : 'I_nb) T y j :
  let B := voce_chaboche E pn eta s0 Rs d nback C g in
  times_increase nb nt times -> @exact_history B nb nt times strains temps y ->
  (forall k, (k < nt)%N -> temps k b = T) -> 0 < E T -> VCHistory.admissible pn eta s0 Rs d nback C g T ->
  (forall k, (k.+1 < nt)%N -> strains k b <= strains k.+1 b) -> (forall k, (j < k)%N -> (k < nt)%N -> strains k b = strains j b) ->
  let stress k := to_vec (y k b) 0%N in let back k := Deriv.sum nback (fun i => to_vec (y k b) i.+2) in
  let decay k := (stress k.-1 - stress k) / (times k b - times k.-1 b) in
  forall k, (j < k)%N -> (k < nt)%N ->
    stress k <= stress k.-1 /\ 0 <= back k.-1 <= back k /\ back k <= stress k /\ ((k.+1 < nt)%N -> decay k.+1 <= decay k).
Proof.
move=> B Gr Hy iso ET A up hold stress back decay k jk kn.
have [Gt I Z H] := history_test Gr Hy iso; have [q1 [q2 [q3 q4]]] := @relaxation_core E pn eta s0 Rs d nback C g nt (fun k => times k b) (fun k => strains k b) (fun k => to_vec (y k b) 0%N) (fun k i => to_vec (y k b) i.+1) T Gt I Z H ET A j up hold k jk kn; split; [exact: q1|split; [exact: q2|split; [exact: q3|exact: q4]]].
Qed.
Print Assumptions C117_relaxation_curve.

(** Now the simulations themselves, converged to tolerance, in any batch: each of the inequalities holds up to the distance C118 allows. *)
Section Tol.
Variables (E pn eta s0 Rs d : R -> R) (nback : nat) (C g : R -> nat -> R).
Let B := voce_chaboche E pn eta s0 Rs d nback C g.
Variables (nb nt : nat) (times data temps : nat -> nat -> R) (control : nat -> R) (lm : lin_method) (rtol atol : R) (miter : nat) (throw : bool) (gt : string) (n : nat).
Variables (init : nat -> VB RF nb (Models.rf_n B)) (st : istate RF nb (Models.rf_n B)) (b : 'I_nb) (T tol : R).
Hypothesis Gr : times_increase nb nt times.
Hypothesis S : @solve_both B nb nt times data temps control BackwardEuler lm rtol atol miter throw gt n init = inl st.
Hypothesis W : i_warned st = [::].
Hypothesis Tb : tol_boundG (@both_G B nb nt times data temps control) BackwardEuler rtol atol gt n nt (time_table nb times) (i_result st) b tol.
Hypothesis c0 : control b = 0.
Hypothesis iso : forall k, (k < nt)%N -> temps k b = T.
Hypothesis ET : 0 < E T.
Hypothesis A : VCHistory.admissible pn eta s0 Rs d nback C g T.
Hypothesis Yt : INR nt * tol <= s0 T.
(** How far from the exact history the values at time k can be. *)
Definition slack (k : nat) : R := INR (nback + 2) * tol * Deriv.sum k (fun j => (2 + (d T * Rs T + 2 * Deriv.sum nback (C T)) / E T) ^ j.+1).
Lemma near_exact : exists y : nat -> VB RF 1 (Models.rf_n B),
  [/\ times_increase 1 nt (fun k _ => times k b), exact_history nt (fun k _ => times k b) (fun k _ => data k b) (fun k _ => temps k b) y &
   forall k, (k < nt)%N -> (forall i, (i <= nback.+1)%N -> Rabs (entry st k b i - to_vec (y k ord0) i) <= slack k) /\
     Rabs (entry st k b 0%N - to_vec (y k ord0) 0%N) + Deriv.sum nback (fun i => Rabs (entry st k b i.+2 - to_vec (y k ord0) i.+2)) <= slack k].
Proof.
have G1 : times_increase 1 nt (fun k _ => times k b) by move=> [//|//] _ i j ij jn; apply: Gr => //.
have Gd : good_entry E pn eta s0 Rs d nback C g nt (fun k _ => temps k b) 0.
{ split=> k kn; first by rewrite iso. rewrite /VCHistory.no_softening iso ?(ltnW kn) // iso //; split=> *; exact: Rle_refl. }
have HL k : (k < nt)%N -> 2 + (d (temps k b) * Rs (temps k b) + 2 * Deriv.sum nback (C (temps k b))) / E (temps k b) <= 2 + (d T * Rs T + 2 * Deriv.sum nback (C T)) / E T by move=> kn; rewrite iso //; exact: Rle_refl.
have [y [Hy Cl]] := Props_Close.C118_near_the_exact_history (fun k _ => data k b) G1 Gd HL.
exists y; split=> // k kn.
have Q := Cl _ _ _ _ _ _ _ _ _ _ _ _ _ _ _ _ Gr S W Tb c0 (fun k _ => conj erefl (conj erefl erefl)) (fun k kn => eq_rect _ (fun t => INR nt * tol <= s0 t) Yt _ (esym (iso kn))) k kn.
rewrite -/(slack k) /Props_Close.difference in Q; move: Q; set u := entry st k b; set v := @to_vec B (y k ord0) => Q.
have S0 := VCClose.sum_nonneg nback (fun i => Rabs (u i.+2 - v i.+2)) (fun i _ => Rabs_pos _).
have P0 := Rabs_pos (u 0%N - v 0%N); have P1 := Rabs_pos (u 1%N - v 1%N).
split; last by lra.
case=> [|[|i]] ib; [lra|lra|]; have ib' : (i < nback)%coq_nat by apply/ltP.
have := VCClose.sum_term nback (fun i => Rabs (u i.+2 - v i.+2)) i (fun i _ => Rabs_pos (u i.+2 - v i.+2)) ib'; lra.
Qed.
Lemma slack_mono k : slack k.-1 <= slack k.
Proof.
have t0 : 0 <= tol by case: Tb.
case: k => [|k] /=; first exact: Rle_refl. rewrite /slack -!VCClose.growth_sum; apply: Rmult_le_compat_l; first by apply: Rmult_le_pos => //; exact: pos_INR.
apply: VCClose.growth_mono; last by lia.
have [_ [_ [_ [A4 [A5 A6]]]]] := A; have : 0 <= (d T * Rs T + 2 * Deriv.sum nback (C T)) / E T; last by lra.
apply: Rmult_le_pos; last by apply: Rlt_le; exact: Rinv_0_lt_compat.
have := Rmult_le_pos _ _ A5 A4; have := VCClose.sum_nonneg nback (C T) (fun i ib => proj1 (A6 i ib)); lra.
Qed.
End Tol.

Theorem C117_tension_curve_to_tolerance E pn eta s0 Rs d nback C g nb nt (times data temps : nat -> nat -> R) (control : nat -> R) lm rtol atol miter throw gt n init st (b : 'I_nb) T tol :
  let B := voce_chaboche E pn eta s0 Rs d nback C g in
  times_increase nb nt times ->
  @solve_both B nb nt times data temps control BackwardEuler lm rtol atol miter throw gt n init = inl st -> i_warned st = [::] ->
  tol_boundG (@both_G B nb nt times data temps control) BackwardEuler rtol atol gt n nt (time_table nb times) (i_result st) b tol ->
  control b = 0 -> (forall k, (k < nt)%N -> temps k b = T) -> 0 < E T -> VCHistory.admissible pn eta s0 Rs d nback C g T -> INR nt * tol <= s0 T ->
  let rate k := (data k b - data k.-1 b) / (times k b - times k.-1 b) in
  0 <= rate 1%N -> (forall k, (0 < k)%N -> (k.+1 < nt)%N -> rate k <= rate k.+1) ->
  let value k := entry st k b in let inelastic k := data k b - value k 0%N / E T in let eps k := 2 * slack E Rs d nback C T tol k in
  forall k, (0 < k)%N -> (k < nt)%N ->
    value k.-1 0%N <= value k 0%N + eps k /\ inelastic k.-1 <= inelastic k + eps k / E T /\ forall i, (i <= nback)%N -> value k.-1 i.+1 <= value k i.+1 + eps k.
Proof.
move=> B Gr S W Tb c0 iso ET A Yt rate r1 rm value inelastic eps k k0 kn.
have [y [G1 Hy Cl]] := near_exact Gr S W Tb c0 iso ET A Yt.
have Sm := slack_mono Tb ET A k.
have [Q1 [Q2 Q3]] := @C117_tension_curve E pn eta s0 Rs d nback C g 1 nt (fun k _ => times k b) (fun k _ => data k b) (fun k _ => temps k b) ord0 T y G1 Hy iso ET A r1 rm k k0 kn.
have kp : (k.-1 < nt)%N by apply: leq_ltn_trans (leq_pred k) kn.
have X i : (i <= nback.+1)%N -> - slack E Rs d nback C T tol k <= value k i - to_vec (y k ord0) i <= slack E Rs d nback C T tol k.
{ move=> ib; have [/(_ i ib) u _] := Cl k kn; exact: VCClose.abs_le2. }
have Y i : (i <= nback.+1)%N -> - slack E Rs d nback C T tol k <= value k.-1 i - to_vec (y k.-1 ord0) i <= slack E Rs d nback C T tol k.
{ move=> ib; have [/(_ i ib) u _] := Cl k.-1 kp; apply: VCClose.abs_le2; exact: Rle_trans u Sm. }
split; last split.
- have := X 0%N isT; have := Y 0%N isT; rewrite /eps; lra.
- have x0 := X 0%N isT; have y0 := Y 0%N isT; move: Q2; rewrite /inelastic /eps.
  set ve := to_vec (y k.-1 ord0) 0%N in y0 *; set v := to_vec (y k ord0) 0%N in x0 *; set sl := slack _ _ _ _ _ _ _ _ in x0 y0 * => Q2.
  have iE := Rinv_0_lt_compat _ ET.
  have m1 : value k 0%N * / E T <= (v + sl) * / E T by apply: Rmult_le_compat_r; lra.
  have m2 : (ve - sl) * / E T <= value k.-1 0%N * / E T by apply: Rmult_le_compat_r; lra.
  move: Q2 m1 m2; rewrite /Rdiv; lra.
- move=> i ib; have := X i.+1 ib; have := Y i.+1 ib; have := Q3 i ib; rewrite /eps; lra.
Qed.
Print Assumptions C117_tension_curve_to_tolerance.

Theorem C117_relaxation_curve_to_tolerance E pn eta s0 Rs d nback C g nb nt (times data temps : nat -> nat -> R) (control : nat -> R) lm rtol atol miter throw gt n init st (b : 'I_nb) T tol j :
  let B := voce_chaboche E pn eta s0 Rs d nback C g in
  times_increase nb nt times ->
  @solve_both B nb nt times data temps control BackwardEuler lm rtol atol miter throw gt n init = inl st -> i_warned st = [::] ->
  tol_boundG (@both_G B nb nt times data temps control) BackwardEuler rtol atol gt n nt (time_table nb times) (i_result st) b tol ->
  control b = 0 -> (forall k, (k < nt)%N -> temps k b = T) -> 0 < E T -> VCHistory.admissible pn eta s0 Rs d nback C g T -> INR nt * tol <= s0 T ->
  (forall k, (k.+1 < nt)%N -> data k b <= data k.+1 b) -> (forall k, (j < k)%N -> (k < nt)%N -> data k b = data j b) ->
  let stress k := entry st k b 0%N in let back k := Deriv.sum nback (fun i => entry st k b i.+2) in
  let eps k := 2 * slack E Rs d nback C T tol k in
  let decay k := (stress k.-1 - stress k) / (times k b - times k.-1 b) in let eps' k := eps k / (times k b - times k.-1 b) in
  forall k, (j < k)%N -> (k < nt)%N ->
    stress k <= stress k.-1 + eps k /\ - eps k <= back k.-1 <= back k + eps k /\ back k <= stress k + eps k /\ ((k.+1 < nt)%N -> decay k.+1 <= decay k + eps' k + eps' k.+1).
Proof.
move=> B Gr S W Tb c0 iso ET A Yt up hold stress back eps decay eps' k jk kn.
have [y [G1 Hy Cl]] := near_exact Gr S W Tb c0 iso ET A Yt.
have Sm i := slack_mono Tb ET A i.
have [Q1 [Q2 [Q3 Q4]]] := @C117_relaxation_curve E pn eta s0 Rs d nback C g 1 nt (fun k _ => times k b) (fun k _ => data k b) (fun k _ => temps k b) ord0 T y j G1 Hy iso ET A up hold k jk kn.
pose ys k := to_vec (y k ord0) 0%N; pose yb k := Deriv.sum nback (fun i => to_vec (y k ord0) i.+2); pose sl := slack E Rs d nback C T tol.
have k0 : (0 < k)%N := leq_ltn_trans (leq0n j) jk.
have kp : (k.-1 < nt)%N by apply: leq_ltn_trans (leq_pred k) kn.
have X i : (i < nt)%N -> - sl i <= stress i - ys i <= sl i /\ - sl i <= back i - yb i <= sl i /\ - sl i <= (stress i - ys i) - (back i - yb i) <= sl i.
{ move=> ni; have [_ u] := Cl i ni; rewrite -/(sl i) -/(ys i) -/(stress i) in u.
  have v := VCClose.sum_abs nback (fun i' => entry st i b i'.+2) (fun i' => to_vec (y i ord0) i'.+2).
  rewrite -/(back i) -/(yb i) in v.
  set w := Deriv.sum nback _ in u v.
  have a1 := VCClose.abs_le2 _ _ (Rle_refl (Rabs (stress i - ys i))); have a2 := VCClose.abs_le2 _ _ v; have p1 := Rabs_pos (stress i - ys i); have p2 := Rabs_pos (back i - yb i).
  repeat split; lra. }
have Xk := X k kn; have Xp := X k.-1 kp; have Sk := Sm k; rewrite -/(sl k) -/(sl k.-1) in Sk.
rewrite -/(ys k) -/(ys k.-1) -/(yb k) -/(yb k.-1) in Q1 Q2 Q3.
rewrite /eps -/(sl k); split; first lra. split; first lra. split; first lra.
move=> k1; have {}Q4 := Q4 k1; have X1 := X k.+1 k1; have S1 := Sm k.+1; rewrite -/(sl k.+1) [k.+1.-1]/= -/(sl k) in S1.
have D1 := dt_pos (ltn_ord b) Gr (ltn0Sn k) k1; have D0 := dt_pos (ltn_ord b) Gr k0 kn.
move: Q4; rewrite /decay /eps' /eps -/(sl k) -/(sl k.+1) -/(ys k) -/(ys k.-1) [k.+1.-1]/= -/(ys k.+1) -/(ys k).
rewrite [k.+1.-1]/= in D1.
move: (Rinv_0_lt_compat _ D1) (Rinv_0_lt_compat _ D0); rewrite /Rdiv; move: (/ (times k.+1 b - _)) (/ (times k b - _)) => q1 q0 q1p q0p Q4.
have m1 : (stress k - stress k.+1) * q1 <= (ys k - ys k.+1 + 2 * sl k.+1) * q1 by apply: Rmult_le_compat_r; lra.
have m2 : (ys k.-1 - ys k - 2 * sl k) * q0 <= (stress k.-1 - stress k) * q0 by apply: Rmult_le_compat_r; lra.
lra.
Qed.
Print Assumptions C117_relaxation_curve_to_tolerance.

(** C117: creep.  The stress is not negative, never decreases and is held from time [j] on.  During the hold the strain never decreases and creep never speeds up,
    to the tolerance of the inner strain-rate solve; hardening goes on. *)
Theorem C117_creep_curve E pn eta s0 Rs d nback C g nb nt (times data temps : nat -> nat -> R) (control : nat -> R) lm miter throw gt n init st (b : 'I_nb) T j :
  let B := voce_chaboche E pn eta s0 Rs d nback C g in
  times_increase nb nt times ->
  @solve_both B nb nt times data temps control BackwardEuler lm 0 0 miter throw gt n init = inl st -> i_warned st = [::] ->
  control b = 1 -> (forall k b', (k < nt)%N -> (b' < nb)%N -> 0 < E (temps k b')) ->
  (forall k, (k < nt)%N -> temps k b = T) -> VCHistory.admissible pn eta s0 Rs d nback C g T ->
  0 <= data 0%N b -> (forall k, (k.+1 < nt)%N -> data k b <= data k.+1 b) -> (forall k, (j < k)%N -> (k < nt)%N -> data k b = data j b) ->
  let strain k := entry st k b 0%N in let speed k := (strain k - strain k.-1) / (times k b - times k.-1 b) in
  forall k, (j < k)%N -> (k < nt)%N ->
    - / (10 ^ 10 * E T) <= speed k /\ ((k.+1 < nt)%N -> speed k.+1 <= speed k + 2 / (10 ^ 10 * E T)) /\
    forall i, (i <= nback)%N -> entry st k.-1 b i.+1 <= entry st k b i.+1.
Proof.
move=> B Gr S W c1 HE iso A d0 up hold strain speed k jk kn.
have k0 : (0 < k)%N := leq_ltn_trans (leq0n j) jk.
have nt0 : (0 < nt)%N := leq_ltn_trans (leq0n k) kn.
have ET : 0 < E T by rewrite -(iso 0%N nt0); exact: HE.
have [Z H] := stress_steps Gr S W iso c1 HE.
pose h k i := entry st k b i.+1; pose dt k := times k b - times k.-1 b.
have D i : (0 < i)%N -> (i < nt)%N -> 0 < dt i by move=> i0 ni; exact: (dt_pos (ltn_ord b) Gr i0 ni).
have dtp i : (0 < i)%coq_nat -> (i < nt)%coq_nat -> 0 <= dt i by move=> /ltP i0 /ltP ni; apply: Rlt_le; exact: D.
have st' i : (0 < i)%coq_nat -> (i < nt)%coq_nat -> VCHistory.model_step pn eta s0 Rs d nback C g 0 T (dt i) (data i b - data i.-1 b) (data i b) (h (Nat.pred i)) (data i b) (h i).
{ by move=> /ltP i0 /ltP ni; have [] := H i i0 ni. }
have h0 := @rest_range pn eta s0 Rs d nback C g T h A Z; have b0 := @rest_back nback h Z.
have r0 : 0 <= data 0%N b - VCShape.back nback (h 0%N) by rewrite b0; lra.
have fw i : (0 < i)%coq_nat -> (i < nt)%coq_nat -> 0 <= 0 * (data i b - data i.-1 b) /\ data (Nat.pred i) b <= data i b.
{ move=> /ltP i0 /ltP ni; split; first lra. by case: i i0 ni => // i _ ni; exact: up. }
have Z0 := Rle_refl 0.
have cs := VCShape.curve_step pn eta s0 Rs d nback C g T 0 A Z0 nt dt (fun i => data i b - data i.-1 b) (fun i => data i b) (fun i => data i b) h dtp st' h0 r0 fw.
have cl := VCShape.curve_slower pn eta s0 Rs d nback C g T 0 A Z0 nt dt (fun i => data i b - data i.-1 b) (fun i => data i b) (fun i => data i b) h dtp st' h0 r0 fw.
pose f k := VCHistory.the_flow pn eta s0 nback T (data k b) (h k).
pose tol := / (10 ^ 10 * E T).
have same i : (j < i)%N -> (i < nt)%N -> data i b = data i.-1 b.
{ move=> ji ni; have i0 : (0 < i)%N := leq_ltn_trans (leq0n j) ji.
  rewrite (hold i ji ni); case: i i0 ni ji => // i _ ni; rewrite ltnS leq_eqVlt [i.+1.-1]/= => /orP [/eqP -> //|ji]; by rewrite (hold i ji (ltnW ni)). }
have near i : (j < i)%N -> (i < nt)%N -> f i - tol <= speed i <= f i + tol.
{ move=> ji ni; have i0 : (0 < i)%N := leq_ltn_trans (leq0n j) ji; have [_ Q] := H i i0 ni; have Di := D i i0 ni.
  rewrite -/(dt i) -/(h i) -/(f i) -/(strain _) -/(strain _) (same i ji ni) in Q.
  have X : Rabs (speed i - f i) <= tol.
  { have e : strain i - strain i.-1 - ((data i.-1 b - data i.-1 b) / E T + dt i * f i) = dt i * (speed i - f i).
    { rewrite /speed -/(dt i); field; lra. }
    rewrite e Rabs_mult (Rabs_pos_eq (dt i)) in Q; last lra.
    apply: (Rmult_le_reg_l (dt i)) => //; apply: Rle_trans Q _; exact: Rle_refl. }
  have Y := Rle_abs (speed i - f i); have := Rle_abs (- (speed i - f i)); rewrite Rabs_Ropp; lra. }
have [Fk M] := cs k (elimT ltP k0) (elimT ltP kn).
split; last split.
- have := near k jk kn; rewrite /tol; rewrite -/(f k) in Fk; lra.
- move=> k1; have j1 : (j < k.+1)%N := ltn_trans jk (ltnSn k).
  have := near k jk kn; have := near k.+1 j1 k1.
  have : f k.+1 <= f k by apply: (cl k.+1 (elimT ltP (ltn0Sn k)) (elimT ltP k1)); rewrite (same k.+1 j1 k1); exact: Rle_refl.
  rewrite /tol /Rdiv; lra.
- move=> i ib; exact: (M i (elimT (@ltP i nback.+1) ib)).
Qed.
Print Assumptions C117_creep_curve.

(** The hypotheses are met.  The example model of C111 (E 200, n 5, eta 100, s0 10, Rs 30, d 2, two backstresses with C 100 and g 10), pulled by strain 1 in each unit of time
    (far beyond its elastic range: an elastic step would be 200), held from time 3 on: there is an exact history, and it has the shape of C117. *)
Example C117_ex nt : exists y : nat -> VB RF 1 (Models.rf_n ex_model),
  exact_history nt (fun k _ => INR k) (fun k _ => INR k) (fun _ _ => 0) y /\
  forall k, (0 < k)%N -> (k < nt)%N -> to_vec (y k.-1 ord0) 0%N <= to_vec (y k ord0) 0%N.
Proof.
have G : times_increase 1 nt (fun k _ => INR k) by move=> b' _ i j ij _; apply: lt_INR.
have [y Hy] := @C115_ex 1 nt (fun k _ => INR k) (fun k _ => INR k) G; exists y; split=> // k k0 kn.
have st k' : (0 < k')%N -> (INR k' - INR k'.-1) / (INR k' - INR k'.-1) = 1 by case: k' => // k' _; rewrite [k'.+1.-1]/= S_INR; field; lra.
have [Q _] := @C117_tension_curve (fun _ => 200) (fun _ => 5) (fun _ => 100) (fun _ => 10) (fun _ => 30) (fun _ => 2) 2 (fun _ _ => 100) (fun _ _ => 10) 1 nt (fun k _ => INR k) (fun k _ => INR k) (fun _ _ => 0)
  ord0 0 y G Hy (fun k _ => erefl) ltac:(lra) ltac:(rewrite /VCHistory.admissible; repeat split; lra) (Rle_trans 0 1 _ Rle_0_1 (Req_le _ _ (esym (st 1%N isT)))) (fun k' k'0 _ => Req_le _ _ (etrans (st k' k'0) (esym (st k'.+1 isT)))) k k0 kn.
exact: Q.
Qed.
Example C117_hold_ex nt : exists y : nat -> VB RF 1 (Models.rf_n ex_model),
  exact_history nt (fun k _ => INR k) (fun k _ => INR (minn k 3)) (fun _ _ => 0) y /\
  forall k, (3 < k)%N -> (k < nt)%N -> to_vec (y k ord0) 0%N <= to_vec (y k.-1 ord0) 0%N.
Proof.
have G : times_increase 1 nt (fun k _ => INR k) by move=> b' _ i j ij _; apply: lt_INR.
have [y Hy] := @C115_ex 1 nt (fun k _ => INR k) (fun k _ => INR (minn k 3)) G; exists y; split=> // k k3 kn.
have up k' : (k'.+1 < nt)%N -> INR (minn k' 3) <= INR (minn k'.+1 3) by move=> _; apply: le_INR; apply/leP; rewrite leq_min geq_minr andbT; exact: leq_trans (geq_minl _ _) (leqnSn k').
have hold k' : (3 < k')%N -> (k' < nt)%N -> INR (minn k' 3) = INR (minn 3 3) by move=> k3' _; rewrite minnn (minn_idPr (ltnW k3')).
have [Q _] := @C117_relaxation_curve (fun _ => 200) (fun _ => 5) (fun _ => 100) (fun _ => 10) (fun _ => 30) (fun _ => 2) 2 (fun _ _ => 100) (fun _ _ => 10) 1 nt (fun k _ => INR k) (fun k _ => INR (minn k 3)) (fun _ _ => 0)
  ord0 0 y 3 G Hy (fun k _ => erefl) ltac:(lra) ltac:(rewrite /VCHistory.admissible; repeat split; lra) up hold k k3 kn.
exact: Q.
Qed.
(** A simulation converged to atol = 1e-8 (C111_tol_ex): its tension curve. *)
Example C117_tol_ex : exists st,
  @solve_both ex_model 2 5 (fun k _ => INR k) (fun k _ => INR k / 100) (fun _ _ => 0) INR BackwardEuler (Direct Thomas) 0 (/ 10 ^ 8) 10 true "zero" 3 (fun _ => @zeroV RF 2 _) = inl st
  /\ forall k, (0 < k)%N -> (k < 5)%N -> entry st k.-1 (@Ordinal 2 0 isT) 0%N <= entry st k (@Ordinal 2 0 isT) 0%N
       + 2 * slack (fun _ => 200) (fun _ => 30) (fun _ => 2) 2 (fun _ _ => 100) 0 (/ 10 ^ 8) k.
Proof.
have [st [S [W _]]] := Props_FullTol.C111_tol_ex; exists st; split=> // k k0 kn.
have Gr : times_increase 2 5 (fun k _ => INR k) by move=> b' _ i j ij _; apply: lt_INR.
have a0 : 0 < / 10 ^ 8 by apply: Rinv_0_lt_compat; apply: pow_lt; lra.
have a1 : / 10 ^ 8 < / 100.
{ apply: Rinv_lt_contravar; last by (rewrite /=; lra). apply: Rmult_lt_0_compat; [lra|apply: pow_lt; lra]. }
have st' k' : (0 < k')%N -> (INR k' / 100 - INR k'.-1 / 100) / (INR k' - INR k'.-1) = / 100 by case: k' => // k' _; rewrite [k'.+1.-1]/= S_INR; field; lra.
have p1 : 0 <= / 100 by lra.
have Tb : tol_boundG (@both_G ex_model 2 5 (fun k _ => INR k) (fun k _ => INR k / 100) (fun _ _ => 0) INR) BackwardEuler 0 (/ 10 ^ 8) "zero" 3 5 (time_table 2 (fun k _ => INR k)) (i_result st) (@Ordinal 2 0 isT) (/ 10 ^ 8).
{ split; first exact: Rlt_le. split; [exact: Rle_refl|by left]. }
have [Q _] := @C117_tension_curve_to_tolerance (fun _ => 200) (fun _ => 5) (fun _ => 100) (fun _ => 10) (fun _ => 30) (fun _ => 2) 2 (fun _ _ => 100) (fun _ _ => 10) 2 5 (fun k _ => INR k) (fun k _ => INR k / 100) (fun _ _ => 0) INR
  _ _ _ _ _ _ _ _ _ (@Ordinal 2 0 isT) 0 (/ 10 ^ 8) Gr S W Tb erefl (fun k _ => erefl) ltac:(lra) ltac:(rewrite /VCHistory.admissible; repeat split; lra)
  ltac:(rewrite [INR 5]/=; lra) (Rle_trans 0 (/ 100) _ p1 (Req_le _ _ (esym (st' 1%N isT)))) (fun k' k'0 _ => Req_le _ _ (etrans (st' k' k'0) (esym (st' k'.+1 isT)))) k k0 kn.
exact: Q.
Qed.
