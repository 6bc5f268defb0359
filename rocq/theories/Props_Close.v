(** C118: a simulation of a hardening material that converged to the solver's tolerances is close to the exact solution of its step equations. *)
From Coq Require Import Reals List String Lra Lia FunctionalExtensionality.
From mathcomp Require Import all_ssreflect all_algebra.
From Verif Require Import ChunkModel ChunkSolve ChunkInst NewtonModel Ode OdeForward OdeReal OdeBlock OdeDiff RField Pipeline PipelineBoth Tolerance.
From Verif Require Interp Models Flow Hardening Damage Deriv Slices PipelineR StressR Torch FullModel FullTol VCStep VCHistory VCExact VCClose Props_Pipeline Props_Stress Props_Models Props_Tolerance Props_FullModel Props_FullTol Props_Unique.
Set Implicit Arguments. Unset Strict Implicit. Unset Printing Implicit Defensive.
Local Open Scope R_scope.
Import Props_Stress Props_Tolerance Props_FullModel Props_FullTol VCExact Props_Unique.

Section Mat.
Variables (E pn eta s0 Rs d : R -> R) (nback : nat) (C g : R -> nat -> R).
Let B := voce_chaboche E pn eta s0 Rs d nback C g.
(** The steps of a run, to tolerance. *)
Lemma run_near nb nt (times data temps : nat -> nat -> R) (control : nat -> R) lm rtol atol miter throw gt n init st (b : 'I_nb) tol :
  times_increase nb nt times ->
  @solve_both B nb nt times data temps control BackwardEuler lm rtol atol miter throw gt n init = inl st -> i_warned st = [::] ->
  tol_boundG (@both_G B nb nt times data temps control) BackwardEuler rtol atol gt n nt (time_table nb times) (i_result st) b tol -> control b = 0 ->
  (forall i, (i <= nback.+1)%N -> entry st 0 b i = 0) /\
  forall k, (0 < k)%N -> (k < nt)%N -> VCClose.near_step pn eta s0 Rs d nback C g tol (E (temps k b)) (temps k b) (times k b - times k.-1 b) (data k b - data k.-1 b)
    (entry st k.-1 b 0%N) (fun i => entry st k.-1 b i.+1) (entry st k b 0%N) (fun i => entry st k b i.+1).
Proof.
move=> Gr S W Tb c0; have [Z0 [Z1 H]] := C92_strain_entries_to_tolerance Gr S W Tb c0; split.
- by case=> [_|i ib]; [exact: Z0|exact: Z1].
- move=> k k0 kn; have [H0 H1] := H k k0 kn; rewrite (VCHistory.vc_rate pn eta s0 Rs d nback C g) in H0; split; [exact: H0|split].
  + have := H1 0%N (ltn0Sn nback); rewrite (VCHistory.vc_hrate0 pn eta s0 Rs d nback C g) => Q; exact: Q.
  + move=> i /ltP ib; have := H1 i.+1 ib; rewrite (VCHistory.vc_hrateS pn eta s0 Rs d nback C g) => Q; exact: Q.
Qed.
End Mat.

(** The sum of the differences of the stress and of the internal variables of two states. *)
Definition difference (nback : nat) (u v : nat -> R) : R := Rabs (u 0%N - v 0%N) + Rabs (u 1%N - v 1%N) + Deriv.sum nback (fun i => Rabs (u i.+2 - v i.+2)).

(** C118.  There is one exact history, and every simulation of the test - in whatever batch, by whatever solver, at whatever tolerances - that converged is close to it:
    the stress and all internal variables at time k together differ by at most (number of components) * tol * (L + L^2 + ... + L^k), where tol bounds the tolerance in force and
    L is 2 plus the ratio of the hardening moduli to the elastic modulus. *)
Theorem C118_near_the_exact_history E pn eta s0 Rs d nback C g nt (times strains temps : nat -> nat -> R) L :
  let B := voce_chaboche E pn eta s0 Rs d nback C g in
  times_increase 1 nt times -> good_entry E pn eta s0 Rs d nback C g nt temps 0 ->
  (forall k, (k < nt)%N -> let T := temps k 0%N in 2 + (d T * Rs T + 2 * Deriv.sum nback (C T)) / E T <= L) ->
  exists y : nat -> VB RF 1 (Models.rf_n B), exact_history nt times strains temps y /\
    forall nb (times' data' temps' : nat -> nat -> R) (control : nat -> R) lm rtol atol miter throw gt n init st (b : 'I_nb) tol,
      times_increase nb nt times' ->
      @solve_both B nb nt times' data' temps' control BackwardEuler lm rtol atol miter throw gt n init = inl st -> i_warned st = [::] ->
      tol_boundG (@both_G B nb nt times' data' temps' control) BackwardEuler rtol atol gt n nt (time_table nb times') (i_result st) b tol ->
      control b = 0 -> (forall k, (k < nt)%N -> times' k b = times k 0%N /\ data' k b = strains k 0%N /\ temps' k b = temps k 0%N) ->
      (forall k, (k < nt)%N -> INR nt * tol <= s0 (temps k 0%N)) ->
      forall k, (k < nt)%N -> difference nback (entry st k b) (to_vec (y k ord0)) <= INR (nback + 2) * tol * Deriv.sum k (fun j => L ^ j.+1).
Proof.
move=> B Gr Gd HL.
have Gd' b : (b < 1)%N -> good_entry E pn eta s0 Rs d nback C g nt temps b by case: b.
have [y Hy] := history_exists strains Gr Gd'; exists y; split=> // nb times' data' temps' control lm rtol atol miter throw gt n init st b tol Gr' S W Tb c0 Same Ys.
have Rg := history_range Gr Gd' Hy; have [Z H] := proj1 (history_model strains temps Gr y) Hy.
have t0 : 0 <= tol by case: Tb.
have [Z' H'] := run_near Gr' S W Tb c0; have [G1 G2] := Gd.
(* the effective threshold of the run is not negative *)
have K k : (k < nt)%N -> forall i, (i < nt)%N -> 0 <= s0 (temps i 0%N) + entry st k b 1%N.
{ move=> kn i ni.
  have X : - (INR k * tol) <= entry st k b 1%N.
  { elim: k kn => [|k IH] kn; first by rewrite Z' // [INR 0]/= Rmult_0_l Ropp_0; exact: Rle_refl.
    have [_ [Q _]] := H' k.+1 (ltn0Sn k) kn; rewrite [k.+1.-1]/= in Q; have [_ A] := G1 k.+1 kn; have [_ [_ Te]] := Same k.+1 kn.
    have [_ [_ [_ [A4 [A5 _]]]]] := A; have D := dt_pos (ltn_ord b) Gr' (ltn0Sn k) kn; rewrite [k.+1.-1]/= in D.
    rewrite Te in Q; have a0 := Rmult_le_pos _ _ (pos_INR k) t0.
    have -> : INR k.+1 * tol = INR k * tol + tol by rewrite S_INR; ring.
    exact: (VCClose.voce_low _ _ _ _ _ _ _ _ (Rlt_le _ _ D) A5 A4 a0 t0 Q (IH (ltnW kn))). }
  have := Ys i ni; have : INR k * tol <= INR nt * tol by apply: Rmult_le_compat_r => //; apply: le_INR; apply/leP; exact: ltnW.
  lra. }
have L0 : (0 < nt)%N -> 0 <= L.
{ move=> n0; have := HL 0%N n0; have [Ep [_ [_ [_ [A4 [A5 A6]]]]]] := G1 0%N n0; cbv zeta => HL0; apply: Rle_trans HL0.
  have : 0 <= (d (temps 0%N 0%N) * Rs (temps 0%N 0%N) + 2 * Deriv.sum nback (C (temps 0%N 0%N))) / E (temps 0%N 0%N); last by lra.
  apply: Rmult_le_pos; last by apply: Rlt_le; exact: Rinv_0_lt_compat.
  have := Rmult_le_pos _ _ A5 A4; have := VCClose.sum_nonneg nback (C (temps 0%N 0%N)) (fun i ib => proj1 (A6 i ib)); lra. }
have dE k : difference nback (entry st k b) (to_vec (y k ord0)) = VCClose.distance nback (to_vec (y k ord0) 0%N) (fun i => to_vec (y k ord0) i.+1) (entry st k b 0%N) (fun i => entry st k b i.+1) by [].
move=> k kn; rewrite -VCClose.growth_sum; elim: k kn => [|k IH] kn.
{ rewrite [VCClose.growth _ _]/= Rmult_0_r /difference.
  have e i : (i <= nback.+1)%N -> Rabs (entry st 0%N b i - to_vec (y 0%N ord0) i) = 0 by move=> ib; rewrite Z' // Z tvec0 Rminus_diag_eq // Rabs_R0.
  rewrite (e 0%N) // (e 1%N) // (Deriv.sum_0 nback); first by apply: Req_le; ring.
  by move=> i /ltP ib; apply: e. }
have n0 : (0 < nt)%N := leq_ltn_trans (leq0n _) kn.
have {}IH := IH (ltnW kn); have Hk := H k.+1 ord0 (ltn0Sn k) kn; have Hk' := H' k.+1 (ltn0Sn k) kn; rewrite [k.+1.-1]/= in Hk Hk'.
have [Et [Ed Te]] := Same k.+1 kn; have [Et0 [Ed0 _]] := Same k (ltnW kn); rewrite Et Et0 Ed Ed0 Te in Hk'.
have [Ep A] := G1 k.+1 kn; have D := dt_pos (ltn0Sn 0) Gr (ltn0Sn k) kn; rewrite [k.+1.-1]/= in D.
have In : VCHistory.in_range Rs nback C g (temps k.+1 0%N) (fun i => @to_vec B (y k ord0) i.+1) by apply: VCHistory.range_next (G2 k kn) (Rg k ord0 (ltnW kn)).
have Q := VCClose.close_step pn eta s0 Rs d nback C g tol _ _ _ _ _ _ _ _ _ _ _ _ Ep (Rlt_le _ _ D) A In (K k.+1 kn k.+1 kn) Hk Hk'.
rewrite dE; apply: Rle_trans Q _; rewrite -dE [VCClose.growth _ _]/=.
have N0 : 0 <= INR (nback + 2) * tol by apply: Rmult_le_pos => //; exact: pos_INR.
have -> : INR (nback + 2) * tol * (L * (VCClose.growth L k + 1)) = L * (INR (nback + 2) * tol * VCClose.growth L k + INR (nback + 2) * tol) by ring.
have X0 : 0 <= difference nback (entry st k b) (to_vec (y k ord0)) + INR (nback + 2) * tol by rewrite dE; have := VCClose.distance_ge0 nback (to_vec (y k ord0) 0%N) (fun i => to_vec (y k ord0) i.+1) (entry st k b 0%N) (fun i => entry st k b i.+1); lra.
apply: Rle_trans (Rmult_le_compat_r _ _ _ X0 (HL k.+1 kn)) _; apply: Rmult_le_compat_l (L0 n0) _; exact: Rplus_le_compat_r.
Qed.
Print Assumptions C118_near_the_exact_history.

(** Two simulations of the same test, whatever their solvers, tolerances and batches, agree up to their tolerances. *)
Theorem C118_runs_agree_to_tolerance E pn eta s0 Rs d nback C g nt nb nb' (times data temps times' data' temps' : nat -> nat -> R) (control control' : nat -> R)
    lm lm' rtol rtol' atol atol' miter miter' throw throw' gt gt' n n' init init' st st' (b : 'I_nb) (b' : 'I_nb') tol tol' L :
  let B := voce_chaboche E pn eta s0 Rs d nback C g in
  times_increase nb nt times -> times_increase nb' nt times' ->
  @solve_both B nb nt times data temps control BackwardEuler lm rtol atol miter throw gt n init = inl st -> i_warned st = [::] ->
  tol_boundG (@both_G B nb nt times data temps control) BackwardEuler rtol atol gt n nt (time_table nb times) (i_result st) b tol ->
  @solve_both B nb' nt times' data' temps' control' BackwardEuler lm' rtol' atol' miter' throw' gt' n' init' = inl st' -> i_warned st' = [::] ->
  tol_boundG (@both_G B nb' nt times' data' temps' control') BackwardEuler rtol' atol' gt' n' nt (time_table nb' times') (i_result st') b' tol' ->
  control b = 0 -> control' b' = 0 ->
  (forall k, (k < nt)%N -> times k b = times' k b' /\ data k b = data' k b' /\ temps k b = temps' k b') ->
  good_entry E pn eta s0 Rs d nback C g nt temps b ->
  (forall k, (k < nt)%N -> let T := temps k b in INR nt * tol <= s0 T /\ INR nt * tol' <= s0 T /\ 2 + (d T * Rs T + 2 * Deriv.sum nback (C T)) / E T <= L) ->
  forall k, (k < nt)%N -> difference nback (entry st k b) (entry st' k b') <= INR (nback + 2) * (tol + tol') * Deriv.sum k (fun j => L ^ j.+1).
Proof.
move=> B Gr Gr' S W Tb S' W' Tb' c0 c0' Same Gd HL k kn.
have G1 : times_increase 1 nt (fun k _ => times k b) by move=> [//|//] _ i j ij jn; apply: Gr => //.
have [y [_ Hy]] := @C118_near_the_exact_history E pn eta s0 Rs d nback C g nt (fun k _ => times k b) (fun k _ => data k b) (fun k _ => temps k b) L G1 Gd (fun k kn => proj2 (proj2 (HL k kn))).
have H := Hy _ _ _ _ _ _ _ _ _ _ _ _ _ _ _ _ Gr S W Tb c0 (fun k _ => conj erefl (conj erefl erefl)) (fun k kn => proj1 (HL k kn)) k kn.
have Same' j : (j < nt)%N -> times' j b' = times j b /\ data' j b' = data j b /\ temps' j b' = temps j b by move=> jn; have [-> [-> ->]] := Same j jn.
have H' := Hy _ _ _ _ _ _ _ _ _ _ _ _ _ _ _ _ Gr' S' W' Tb' c0' Same' (fun k kn => proj1 (proj2 (HL k kn))) k kn.
have Tri (u v w : nat -> R) : difference nback u w <= difference nback u v + difference nback w v.
{ have T (p q r : R) : Rabs (p - r) <= Rabs (p - q) + Rabs (r - q) by (rewrite (Rabs_minus_sym r q) (_ : p - r = (p - q) + (q - r)); [exact: Rabs_triang|ring]).
  rewrite /difference; have X : Deriv.sum nback (fun i => Rabs (u i.+2 - w i.+2)) <= Deriv.sum nback (fun i => Rabs (u i.+2 - v i.+2)) + Deriv.sum nback (fun i => Rabs (w i.+2 - v i.+2)).
  { rewrite -Deriv.sum_plus; apply: VCStep.sum_mono => i _; exact: T. }
  have := T (u 0%N) (v 0%N) (w 0%N); have := T (u 1%N) (v 1%N) (w 1%N); lra. }
apply: Rle_trans (Tri _ _ _) _; apply: Rle_trans (Rplus_le_compat _ _ _ _ H H') _; apply: Req_le; ring.
Qed.
Print Assumptions C118_runs_agree_to_tolerance.

(** Tightening the tolerances: whatever accuracy eps is wanted, there is a tolerance that guarantees it at every time, for every solver, batch and block size. *)
Theorem C118_tighter_tolerance_converges E pn eta s0 Rs d nback C g nt (times strains temps : nat -> nat -> R) :
  let B := voce_chaboche E pn eta s0 Rs d nback C g in
  times_increase 1 nt times -> good_entry E pn eta s0 Rs d nback C g nt temps 0 -> (forall k, (k < nt)%N -> 0 < s0 (temps k 0%N)) ->
  exists y : nat -> VB RF 1 (Models.rf_n B), exact_history nt times strains temps y /\ forall eps, 0 < eps -> exists tol, 0 < tol /\
    forall nb (times' data' temps' : nat -> nat -> R) (control : nat -> R) lm rtol atol miter throw gt n init st (b : 'I_nb),
      times_increase nb nt times' ->
      @solve_both B nb nt times' data' temps' control BackwardEuler lm rtol atol miter throw gt n init = inl st -> i_warned st = [::] ->
      tol_boundG (@both_G B nb nt times' data' temps' control) BackwardEuler rtol atol gt n nt (time_table nb times') (i_result st) b tol ->
      control b = 0 -> (forall k, (k < nt)%N -> times' k b = times k 0%N /\ data' k b = strains k 0%N /\ temps' k b = temps k 0%N) ->
      forall k i, (k < nt)%N -> (i <= nback.+1)%N -> Rabs (entry st k b i - to_vec (y k ord0) i) <= eps.
Proof.
move=> B Gr Gd Sp.
pose l k := 2 + (d (temps k 0%N) * Rs (temps k 0%N) + 2 * Deriv.sum nback (C (temps k 0%N))) / E (temps k 0%N).
have [L [L2 HL]] : exists L, 2 <= L /\ forall k, (k < nt)%N -> l k <= L.
{ elim: nt {Gr Gd Sp} => [|m [L [L2 IH]]]; first by exists 2; split=> //; exact: Rle_refl.
  exists (Rmax L (l m)); split; first by apply: Rle_trans L2 (Rmax_l _ _). move=> k; rewrite ltnS leq_eqVlt => /orP [/eqP ->|km]; [exact: Rmax_r|apply: Rle_trans (IH k km) (Rmax_l _ _)]. }
have [q [q0 Hq]] : exists q, 0 < q /\ forall k, (k < nt)%N -> q <= s0 (temps k 0%N).
{ elim: nt Sp {Gr Gd HL} => [|m IH] Sp; first by exists 1; split=> //; lra.
  have [|q [q0 Hq]] := IH; first by move=> k km; apply: Sp; exact: ltnW.
  exists (Rmin q (s0 (temps m 0%N))); split; first by apply: Rmin_pos => //; apply: Sp. move=> k; rewrite ltnS leq_eqVlt => /orP [/eqP ->|km]; [exact: Rmin_r|apply: Rle_trans (Rmin_l _ _) (Hq k km)]. }
have [y [Hy Cl]] := C118_near_the_exact_history strains Gr Gd HL; exists y; split=> // eps e0.
have L0 : 0 <= L by lra.
pose M := INR (nback + 2) * VCClose.growth L nt + 1; pose N := INR nt + 1.
have G0 := VCClose.growth_ge0 L nt L0.
have M0 : 0 < M by have := Rmult_le_pos _ _ (pos_INR (nback + 2)) G0; rewrite /M; lra.
have N0 : 0 < N by have := pos_INR nt; rewrite /N; lra.
exists (Rmin (eps / M) (q / N)); split; first by apply: Rmin_pos; apply: Rdiv_lt_0_compat.
set tol := Rmin _ _.
have t0 : 0 < tol by apply: Rmin_pos; apply: Rdiv_lt_0_compat.
have tN : INR nt * tol <= q.
{ apply: (Rle_trans _ (N * (q / N))); last by apply: Req_le; field; lra. apply: Rmult_le_compat; [exact: pos_INR|exact: Rlt_le|rewrite /N; lra|exact: Rmin_r]. }
have tM : INR (nback + 2) * tol * VCClose.growth L nt <= eps.
{ apply: (Rle_trans _ (M * (eps / M))); last by apply: Req_le; field; lra.
  have -> : INR (nback + 2) * tol * VCClose.growth L nt = INR (nback + 2) * VCClose.growth L nt * tol by ring.
  apply: Rmult_le_compat; [exact: Rmult_le_pos (pos_INR _) G0|exact: Rlt_le|rewrite /M; lra|exact: Rmin_l]. }
move=> nb times' data' temps' control lm rtol atol miter throw gt n init st b Gr' S W Tb c0 Same k i kn ib.
have Q := Cl _ _ _ _ _ _ _ _ _ _ _ _ _ _ _ _ Gr' S W Tb c0 Same (fun k kn => Rle_trans _ _ _ tN (Hq k kn)) k kn.
rewrite -VCClose.growth_sum in Q.
have {}Q : difference nback (entry st k b) (to_vec (y k ord0)) <= eps.
{ apply: Rle_trans Q _; apply: Rle_trans tM; apply: Rmult_le_compat_l; first by apply: Rmult_le_pos; [exact: pos_INR|exact: Rlt_le].
  by apply: VCClose.growth_mono => //; apply/leP; exact: ltnW. }
apply: Rle_trans Q; rewrite /difference; set u := entry st k b; set v := @to_vec B (y k ord0).
have S0 := VCClose.sum_nonneg nback (fun i => Rabs (u i.+2 - v i.+2)) (fun i _ => Rabs_pos _).
have P0 := Rabs_pos (u 0%N - v 0%N); have P1 := Rabs_pos (u 1%N - v 1%N).
case: i ib => [|[|i]] ib; [lra|lra|].
have : Rabs (u i.+2 - v i.+2) <= Deriv.sum nback (fun i => Rabs (u i.+2 - v i.+2)); last by lra.
have ib' : (i < nback)%coq_nat by apply/ltP.
exact: (VCClose.sum_term nback (fun i => Rabs (u i.+2 - v i.+2)) i (fun i _ => Rabs_pos (u i.+2 - v i.+2)) ib').
Qed.
Print Assumptions C118_tighter_tolerance_converges.

(** The hypotheses are met: any strain history of the example model (E 200, n 5, eta 100, s0 10, Rs 30, d 2, two backstresses with C 100 and g 10) for the exact history, and
    the simulation of C111_tol_ex (atol = 1e-8) for the run, with L = 2 + (60 + 400) / 200 = 4.3. *)
Example C118_ex : exists (y : nat -> VB RF 1 (Models.rf_n ex_model)) st,
  exact_history 5 (fun k _ => INR k) (fun k _ => INR k / 100) (fun _ _ => 0) y /\
  @solve_both ex_model 2 5 (fun k _ => INR k) (fun k _ => INR k / 100) (fun _ _ => 0) INR BackwardEuler (Direct Thomas) 0 (/ 10 ^ 8) 10 true "zero" 3 (fun _ => @zeroV RF 2 _) = inl st /\
  forall k, (k < 5)%N -> difference 2 (entry st k (@Ordinal 2 0 isT)) (to_vec (y k ord0)) <= 4 * / 10 ^ 8 * Deriv.sum k (fun j => (43 / 10) ^ j.+1).
Proof.
have [st [S [W _]]] := Props_FullTol.C111_tol_ex.
have Gr m : times_increase m 5 (fun k _ => INR k) by move=> b' _ i j ij _; apply: lt_INR.
have a0 : 0 < / 10 ^ 8 by apply: Rinv_0_lt_compat; apply: pow_lt; lra.
have a1 : / 10 ^ 8 < / 100.
{ apply: Rinv_lt_contravar; last by (rewrite /=; lra). apply: Rmult_lt_0_compat; [lra|apply: pow_lt; lra]. }
have Tb : tol_boundG (@both_G ex_model 2 5 (fun k _ => INR k) (fun k _ => INR k / 100) (fun _ _ => 0) INR) BackwardEuler 0 (/ 10 ^ 8) "zero" 3 5 (time_table 2 (fun k _ => INR k)) (i_result st) (@Ordinal 2 0 isT) (/ 10 ^ 8).
{ split; first exact: Rlt_le. split; [exact: Rle_refl|by left]. }
have Gd : good_entry (fun _ => 200) (fun _ => 5) (fun _ => 100) (fun _ => 10) (fun _ => 30) (fun _ => 2) 2 (fun _ _ => 100) (fun _ _ => 10) 5 (fun _ _ => 0) 0.
{ split=> k _; first by rewrite /VCHistory.admissible; repeat split; lra. rewrite /VCHistory.no_softening; split=> *; lra. }
have HL k : (k < 5)%N -> 2 + (2 * 30 + 2 * Deriv.sum 2 (fun _ => 100)) / 200 <= 43 / 10 by move=> _; rewrite /=; lra.
have [y [Hy Cl]] := @C118_near_the_exact_history (fun _ => 200) (fun _ => 5) (fun _ => 100) (fun _ => 10) (fun _ => 30) (fun _ => 2) 2 (fun _ _ => 100) (fun _ _ => 10) 5
  (fun k _ => INR k) (fun k _ => INR k / 100) (fun _ _ => 0) (43 / 10) (Gr 1%N) Gd HL.
exists y, st; split=> //; split=> // k kn.
have Ys k' : (k' < 5)%N -> INR 5 * / 10 ^ 8 <= 10 by move=> _; rewrite [INR 5]/=; lra.
have := Cl _ _ _ _ _ _ _ _ _ _ _ _ _ _ _ _ (Gr 2%N) S W Tb erefl (fun k _ => conj erefl (conj erefl erefl)) Ys k kn.
by have -> : INR (2 + 2) = 4 by rewrite /=; ring.
Qed.
