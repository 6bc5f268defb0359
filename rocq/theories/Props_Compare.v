(** C134: comparing perfectly viscoplastic tests -- loading, time, strength and temperature act in the expected direction. *)
From Coq Require Import Reals List String Lra FunctionalExtensionality.
From mathcomp Require Import all_ssreflect all_algebra.
From Verif Require Import ChunkModel ChunkSolve ChunkInst NewtonModel Ode OdeForward OdeReal OdeBlock OdeAffine RField Pipeline PipelineBoth
  Props_Ode Props_Pipeline Props_Stress Gmres Implicit Tolerance Props_Tolerance Props_Global.
From Verif Require Interp Models Flow Slices PipelineR StressR Torch TolR CompareR.
Import GRing.Theory.
Set Implicit Arguments. Unset Strict Implicit. Unset Printing Implicit Defensive.
Local Open Scope R_scope.

(** Two strain-controlled tests of the same material at the same times and temperatures, in any batches, with any solvers and tolerances and any
    (also reversing) loading: the test whose strain increments are at least those of the other never carries less stress. *)
Theorem C134_more_strain (E pn eta : R -> R) nb nb' nt (times times' strains strains' temps temps' : nat -> nat -> R) lm lm' rtol rtol' atol atol'
    miter miter' throw throw' gt gt' n n' init init' st st' (b : 'I_nb) (b' : 'I_nb') tol tol' :
  let B := Models.inelastic E (Flow.perfect pn eta) in
  times_increase nb nt times -> times_increase nb' nt times' ->
  (forall k, (k < nt)%N -> let T := temps k b in 0 < E T /\ 0 < pn T /\ 0 < eta T) ->
  (forall k, (k < nt)%N -> times k b = times' k b' /\ temps k b = temps' k b') ->
  (forall k, (k.+1 < nt)%N -> strains k.+1 b - strains k b <= strains' k.+1 b' - strains' k b') ->
  @solve_strain B nb nt times strains temps BackwardEuler lm rtol atol miter throw gt n init = inl st -> i_warned st = [::] ->
  tol_bound (strain_f (B := B) nt times strains temps) BackwardEuler rtol atol gt n nt (time_table nb times) (i_result st) b tol ->
  @solve_strain B nb' nt times' strains' temps' BackwardEuler lm' rtol' atol' miter' throw' gt' n' init' = inl st' -> i_warned st' = [::] ->
  tol_bound (strain_f (B := B) nt times' strains' temps') BackwardEuler rtol' atol' gt' n' nt (time_table nb' times') (i_result st') b' tol' ->
  forall k, (k < nt)%N -> entry st k b 0%N <= entry st' k b' 0%N + INR k * (tol + tol').
Proof.
move=> B Gr Gr' P same le S W T S' W' T'.
have /= [I [_ H]] := C38_increment_to_tolerance Gr S W T; have /= [I' [_ H']] := C38_increment_to_tolerance Gr' S' W' T'.
suff K k : (k < nt)%N -> 0 <= INR k * (tol + tol') /\ entry st k b 0%N <= entry st' k b' 0%N + INR k * (tol + tol') by move=> k kn; case: (K k kn).
elim: k => [|k IH] kn; first by rewrite I I' /=; lra.
have [P1 [P2 P3]] := P k.+1 kn; have D := @dt_pos nb nt times k.+1 b (ltn_ord b) Gr (ltn0Sn k) kn.
have [Q _] := H k.+1 (ltn0Sn k) kn; have [Q' _] := H' k.+1 (ltn0Sn k) kn.
have [e1 e3] := same k.+1 kn; have [d1 _] := same k (ltnW kn).
rewrite [k.+1.-1]/= -e1 -e3 -d1 in Q'; rewrite [k.+1.-1]/= in Q, D; have [i1 i2] := IH (ltnW kn).
have t0 := Rle_trans _ _ _ (Rabs_pos _) Q; have t0' := Rle_trans _ _ _ (Rabs_pos _) Q'.
have := CompareR.step_more_strain _ _ _ _ _ _ _ _ _ _ _ _ _ P1 P2 P3 (Rlt_le _ _ D) (le k kn) i1 i2 Q Q'; rewrite S_INR; lra.
Qed.
Print Assumptions C134_more_strain.

(** Tension (non-negative strain increments): more strain, in less time, on a stronger material -- a larger drag stress [eta], by the parameters or by
    the temperature, at the same modulus and exponent -- never gives less stress. *)
Theorem C134_tension (E pn eta E' pn' eta' : R -> R) nb nb' nt (times times' strains strains' temps temps' : nat -> nat -> R) lm lm' rtol rtol' atol atol'
    miter miter' throw throw' gt gt' n n' init init' st st' (b : 'I_nb) (b' : 'I_nb') tol tol' :
  let B := Models.inelastic E (Flow.perfect pn eta) in let B' := Models.inelastic E' (Flow.perfect pn' eta') in
  times_increase nb nt times -> times_increase nb' nt times' ->
  (forall k, (k < nt)%N -> let T := temps k b in let T' := temps' k b' in
     0 < E T /\ 0 < pn T /\ 0 < eta T /\ E T = E' T' /\ pn T = pn' T' /\ eta T <= eta' T') ->
  (forall k, (k.+1 < nt)%N ->
     strains k.+1 b - strains k b <= strains' k.+1 b' - strains' k b' /\ 0 <= strains' k.+1 b' - strains' k b' /\
     times' k.+1 b' - times' k b' <= times k.+1 b - times k b) ->
  @solve_strain B nb nt times strains temps BackwardEuler lm rtol atol miter throw gt n init = inl st -> i_warned st = [::] ->
  tol_bound (strain_f (B := B) nt times strains temps) BackwardEuler rtol atol gt n nt (time_table nb times) (i_result st) b tol ->
  @solve_strain B' nb' nt times' strains' temps' BackwardEuler lm' rtol' atol' miter' throw' gt' n' init' = inl st' -> i_warned st' = [::] ->
  tol_bound (strain_f (B := B') nt times' strains' temps') BackwardEuler rtol' atol' gt' n' nt (time_table nb' times') (i_result st') b' tol' ->
  forall k, (k < nt)%N -> - (INR k * tol') <= entry st' k b' 0%N /\ entry st k b 0%N <= entry st' k b' 0%N + INR k * (tol + tol').
Proof.
move=> B B' Gr Gr' P le S W T S' W' T'.
have /= [I [_ H]] := C38_increment_to_tolerance Gr S W T; have /= [I' [_ H']] := C38_increment_to_tolerance Gr' S' W' T'.
suff K k : (k < nt)%N -> (0 <= INR k * tol' <= INR k * (tol + tol')) /\ - (INR k * tol') <= entry st' k b' 0%N /\ entry st k b 0%N <= entry st' k b' 0%N + INR k * (tol + tol').
  by move=> k kn; case: (K k kn).
elim: k => [|k IH] kn; first by rewrite I I' /=; lra.
have [P1 [P2 [P3 [P4 [P5 P6]]]]] := P k.+1 kn; have D := @dt_pos nb' nt times' k.+1 b' (ltn_ord b') Gr' (ltn0Sn k) kn.
have [Q _] := H k.+1 (ltn0Sn k) kn; have [Q' _] := H' k.+1 (ltn0Sn k) kn.
rewrite [k.+1.-1]/= -P4 -P5 in Q'; rewrite [k.+1.-1]/= in Q, D; have [[i0 i1] [i2 i3]] := IH (ltnW kn); have [l1 [l2 l3]] := le k kn.
have t0 := Rle_trans _ _ _ (Rabs_pos _) Q; have t0' := Rle_trans _ _ _ (Rabs_pos _) Q'; have P3' : 0 < eta' (temps' k.+1 b') by lra.
have A := CompareR.step_tension _ _ _ _ _ _ _ _ _ P1 P2 P3' (Rlt_le _ _ D) l2 i0 i2 Q'.
have := CompareR.step_stronger _ _ _ _ _ _ _ _ _ _ _ _ _ _ _ _ P1 P2 P3 P6 (Rlt_le _ _ D) l3 l1 l2 i0 i1 i2 i3 Q Q'; rewrite S_INR; lra.
Qed.
Print Assumptions C134_tension.

(** Creep and other stress-controlled tests that start unloaded: a higher stress, held longer, on a weaker (smaller [eta]) and softer (smaller [E])
    material never gives less strain.  The modulus is constant along each test. *)
Theorem C134_creep (E pn eta E' pn' eta' : R -> R) E0 E0' nb nb' nt (times times' stresses stresses' temps temps' : nat -> nat -> R) lm lm' rtol rtol' atol atol'
    miter miter' throw throw' gt gt' n n' init init' st st' (b : 'I_nb) (b' : 'I_nb') tol tol' :
  let B := Models.inelastic E (Flow.perfect pn eta) in let B' := Models.inelastic E' (Flow.perfect pn' eta') in
  times_increase nb nt times -> times_increase nb' nt times' -> 0 < E0' -> E0' <= E0 ->
  (forall k (c : nat), (k < nt)%N -> (c < nb)%N -> 0 < E (temps k c)) -> (forall k (c : nat), (k < nt)%N -> (c < nb')%N -> 0 < E' (temps' k c)) ->
  (forall k, (k < nt)%N -> let T := temps k b in let T' := temps' k b' in
     E T = E0 /\ E' T' = E0' /\ 0 < pn T /\ pn T = pn' T' /\ 0 < eta' T' /\ eta' T' <= eta T /\
     stresses k b <= stresses' k b' /\ 0 <= stresses' k b') ->
  stresses 0%N b = 0 -> stresses' 0%N b' = 0 ->
  (forall k, (k.+1 < nt)%N -> times k.+1 b - times k b <= times' k.+1 b' - times' k b') ->
  @solve_stress B nb nt times stresses temps BackwardEuler lm rtol atol miter throw gt n init = inl st -> i_warned st = [::] ->
  tol_boundG (@stress_G B nb nt times stresses temps) BackwardEuler rtol atol gt n nt (time_table nb times) (i_result st) b tol ->
  @solve_stress B' nb' nt times' stresses' temps' BackwardEuler lm' rtol' atol' miter' throw' gt' n' init' = inl st' -> i_warned st' = [::] ->
  tol_boundG (@stress_G B' nb' nt times' stresses' temps') BackwardEuler rtol' atol' gt' n' nt (time_table nb' times') (i_result st') b' tol' ->
  forall k, (k < nt)%N ->
    entry st k b 0%N <= entry st' k b' 0%N
      + ((times k b - times 0%N b) / (10 ^ 10 * E0) + (times' k b' - times' 0%N b') / (10 ^ 10 * E0') + INR k * (tol + tol')).
Proof.
move=> B B' Gr Gr' p0 pl PE PE' P z0 z0' le S W T S' W' T'.
have [I [_ H]] := C91_stress_control_to_tolerance Gr (@Models.rate_free_perfect _ _) PE S W T.
have [I' [_ H']] := C91_stress_control_to_tolerance Gr' (@Models.rate_free_perfect _ _) PE' S' W' T'.
have p1 : 0 < E0 by lra.
pose u k := entry st k b 0%N - stresses k b / E0; pose v k := entry st' k b' 0%N - stresses' k b' / E0'.
have K k : (k < nt)%N -> u k <= v k + ((times k b - times 0%N b) / (10 ^ 10 * E0) + (times' k b' - times' 0%N b') / (10 ^ 10 * E0') + INR k * (tol + tol')).
{ elim: k => [|k IH] kn; first by rewrite /u /v I I' z0 z0' /= /Rminus !Rplus_opp_r /Rdiv; lra.
  have [q1 [q2 [q3 [q4 [q5 [q6 [q7 q8]]]]]]] := P k.+1 kn.
  have D := @dt_pos nb nt times k.+1 b (ltn_ord b) Gr (ltn0Sn k) kn; rewrite [k.+1.-1]/= in D.
  have [Q _] := H k.+1 (ltn0Sn k) kn; have [Q' _] := H' k.+1 (ltn0Sn k) kn.
  rewrite q1 [k.+1.-1]/= in Q; rewrite q2 [k.+1.-1]/= in Q'.
  have [_ A] := CompareR.creep_step _ _ _ _ _ _ _ p1 Q; have [A' _] := CompareR.creep_step _ _ _ _ _ _ _ p0 Q'.
  have M := CompareR.creep_more E0 E0' (pn (temps k.+1 b)) (eta (temps k.+1 b)) (eta' (temps' k.+1 b')) _ _ _ _ p0 pl q3 q5 q6 (Rlt_le _ _ D) (le k kn) q7 q8.
  rewrite /u /v S_INR; rewrite [Flow.fl_rate _ _ _ _ _ _]/= -q4 in A'; rewrite [Flow.fl_rate _ _ _ _ _ _]/= in A.
  exact: (CompareR.creep_combine _ _ _ _ _ _ _ _ _ _ _ _ _ _ _ _ _ _ _ _ _ _ _ (IH (ltnW kn)) A A' M). }
move=> k kn; have := K k kn; rewrite /u /v; have [_ [_ [_ [_ [_ [_ [q7 q8]]]]]]] := P k kn.
have a : stresses k b / E0 <= stresses' k b' / E0'; last lra.
apply: (Rle_trans _ (stresses' k b' / E0)); first by apply: Rmult_le_compat_r => //; exact: Rlt_le (Rinv_0_lt_compat _ p1).
apply: Rmult_le_compat_l => //; exact: Rinv_le_contravar.
Qed.
Print Assumptions C134_creep.

(** Example: the same bar pulled at two rates and at two strengths, solved by different linear solvers to different tolerances. *)
Example C134_ex : exists N st st', forall miter miter', (N < miter)%N -> (N < miter')%N ->
  @solve_strain (Models.inelastic (fun _ => 200) (Flow.perfect (fun _ => 5) (fun T => 100 - T))) 1 9 (fun k _ => INR k * 2) (fun k _ => INR k * 3) (fun _ _ => 50)
    BackwardEuler Dense 0 (1 / 1000) miter true "zero" 3 (fun _ => zeroV RF 1 1) = inl st /\
  @solve_strain (Models.inelastic (fun _ => 200) (Flow.perfect (fun _ => 5) (fun T => 100 - T))) 2 9 (fun k _ => INR k) (fun k b => INR k * (INR b + 4)) (fun _ _ => 20)
    BackwardEuler (Direct PCR) 0 (1 / 500) miter' false "zero" 4 (fun _ => zeroV RF 2 1) = inl st' /\
  forall k (b' : 'I_2), (k < 9)%N -> entry st k (ord0 : 'I_1) 0%N <= entry st' k b' 0%N + INR k * (1 / 1000 + 1 / 500).
Proof.
have G : times_increase 1 9 (fun k _ => INR k * 2) by move=> b _ i j ij _; have := lt_INR i j ij; lra.
have G' : times_increase 2 9 (fun k _ => INR k) by move=> b _ i j ij _; exact: lt_INR.
have a1 : 0 < 1 / 1000 by lra. have a2 : 0 < 1 / 500 by lra.
have [N [st H]] := @C120_strain_control (fun _ => 200) (fun _ => 5) (fun T => 100 - T) 1 9 (fun k _ => INR k * 2) (fun k _ => INR k * 3) (fun _ _ => 50)
  Dense 0 _ true "zero" 3 (fun _ => zeroV RF 1 1) G (fun _ _ _ _ => ltac:(lra)) a1 isT isT (or_introl erefl).
have [N' [st' H']] := @C120_strain_control (fun _ => 200) (fun _ => 5) (fun T => 100 - T) 2 9 (fun k _ => INR k) (fun k b => INR k * (INR b + 4)) (fun _ _ => 20)
  (Direct PCR) 0 _ false "zero" 4 (fun _ => zeroV RF 2 1) G' (fun _ _ _ _ => ltac:(lra)) a2 isT isT (or_introl erefl).
exists (N + N')%N, st, st' => miter miter' m1 m2.
have [S W] := H miter (leq_ltn_trans (leq_addr _ _) m1); have [S' W'] := H' miter' (leq_ltn_trans (leq_addl _ _) m2).
split=> //; split=> // k b' kn.
have P j : (j < 9)%N -> let T := 50 in let T' := 20 in 0 < 200 /\ 0 < 5 /\ 0 < 100 - T /\ 200 = 200 /\ 5 = 5 /\ 100 - T <= 100 - T' by move=> _ /=; lra.
have L j : (j.+1 < 9)%N -> INR j.+1 * 3 - INR j * 3 <= INR j.+1 * (INR b' + 4) - INR j * (INR b' + 4) /\ 0 <= INR j.+1 * (INR b' + 4) - INR j * (INR b' + 4) /\
  INR j.+1 - INR j <= INR j.+1 * 2 - INR j * 2 by move=> _; rewrite S_INR; have := pos_INR b'; lra.
have [_ Q] := C134_tension (b := ord0) (b' := b') G G' P L S W (tol_bound_abs _ _ _ _ _ _ _ _ (Rlt_le _ _ a1)) S' W' (tol_bound_abs _ _ _ _ _ _ _ _ (Rlt_le _ _ a2)) kn.
exact: Q.
Qed.


(** The modulus is not in this list: with a relaxation after the loading the stiffer material ends at the lower stress. *)
Example C134_modulus : exists s1 s2 z1 z2,
  PipelineR.pv_step 1 1 1 1 1 0 s1 /\ PipelineR.pv_step 1 1 1 1 0 s1 s2 /\ PipelineR.pv_step 10 1 1 1 1 0 z1 /\ PipelineR.pv_step 10 1 1 1 0 z1 z2 /\ s1 < z1 /\ z2 < s2.
Proof.
have pv (s : R) : 0 < s -> Torch.pow0 (Rabs s / 1) 1 * Torch.tsign s = s.
{ move=> s0; rewrite Torch.tsign_pos // Rmult_1_r Rabs_right; last lra. rewrite (_ : s / 1 = s); last by field. rewrite Torch.pow0_pos //; exact: Rpower_1. }
exists (/ 2), (/ 4), (10 / 11), (10 / 121); rewrite /PipelineR.pv_step !pv; lra.
Qed.
