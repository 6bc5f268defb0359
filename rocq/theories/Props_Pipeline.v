(** C38 and C86: strain-controlled simulations end to end (solve_strain). *)
From Coq Require Import Reals List String Lra FunctionalExtensionality.
From mathcomp Require Import all_ssreflect all_algebra.
From Verif Require Import ChunkModel ChunkSolve ChunkInst NewtonModel Ode OdeForward OdeReal OdeAffine RField Pipeline.
From Verif Require Interp Models Flow Slices PipelineR Torch.
Import GRing.Theory.
Set Implicit Arguments. Unset Strict Implicit. Unset Printing Implicit Defensive.

(** C38, general part: in any exact backward Euler run on strictly increasing
    times the model sees, at step k, exactly the given strain increment and the
    given temperature, whatever the block size, linear solver and guess; the first
    state is zero. *)
Theorem C38_increment_and_temperature_honoured (E : R -> R) (F : Flow.flowrule) nb nt times strains temps lm miter throw gt n init st :
  let B := Models.inelastic E F in
  (forall b, (b < nb)%N -> forall i j, (i < j)%coq_nat -> (j < nt)%coq_nat -> Rlt (times i b) (times j b)) ->
  @solve_strain B nb nt times strains temps BackwardEuler lm R0 R0 miter throw gt n init = inl st -> i_warned st = [::] ->
  let stress k b := entry st k b 0%N in
  (forall b, stress 0%N b = R0) /\
  forall k b, (0 < k)%N -> (k < nt)%N ->
    Rminus (stress k b) (stress k.-1 b) =
    Rmult (E (temps k b)) (Rminus (Rminus (strains k b) (strains k.-1 b))
      (Rmult (Rminus (times k b) (times k.-1 b))
         (Flow.fl_rate F (stress k b) (fun i => entry st k b i.+1) (times k b) (temps k b)
            (Rdiv (Rminus (strains k b) (strains k.-1 b)) (Rminus (times k b) (times k.-1 b)))))).
Proof.
move=> B G S W stress; have [Z H] := solve_strain_exact G S W; split.
- by move=> b; apply: Z.
- move=> k b k0 kn; rewrite (H k b 0%N k0 kn isT) inelastic_stress /step_rate.
  rewrite -[Slices.slice 1 _]/(fun i => entry st k b i.+1) -/(stress k b).
  have := @dt_pos nb nt times k b (ltn_ord b) G k0 kn.
  set dt := Rminus (times k b) _; set de := Rminus (strains k b) _ => D.
  set f := Flow.fl_rate _ _ _ _ _ _.
  by field; lra.
Qed.
Print Assumptions C38_increment_and_temperature_honoured.

(** C38: no inelastic flow and a modulus E0 along the temperature history. *)
Theorem C38_elastic_tracks_strain (E : R -> R) (F : Flow.flowrule) E0 nb nt times strains temps lm miter throw gt n init st :
  let B := Models.inelastic E F in
  (forall b, (b < nb)%N -> forall i j, (i < j)%coq_nat -> (j < nt)%coq_nat -> Rlt (times i b) (times j b)) ->
  (forall s h t T e, Flow.fl_rate F s h t T e = R0) -> (forall k b, E (temps k b) = E0) ->
  @solve_strain B nb nt times strains temps BackwardEuler lm R0 R0 miter throw gt n init = inl st -> i_warned st = [::] ->
  forall k b, (k < nt)%N -> entry st k b 0%N = Rmult E0 (Rminus (strains k b) (strains 0%N b)).
Proof.
move=> B G Z HE S W; have /= [I H] := C38_increment_and_temperature_honoured G S W.
elim=> [|k IH] b kn; first by rewrite I Rminus_diag_eq // Rmult_0_r.
have := H k.+1 b isT kn; rewrite /= IH ?(ltnW kn) // Z HE => Q.
have := IH b (ltnW kn); move: Q; move: (entry st k.+1 b 0%N) => x; nra.
Qed.
Print Assumptions C38_elastic_tracks_strain.

(** and such a run always exists, for every block size, linear solver and guess. *)
Theorem C38_elastic_always_solved (E : R -> R) (F : Flow.flowrule) nb nt times strains temps lm rtol atol miter throw gt n init :
  let B := Models.inelastic E F in
  Flow.fl_nhist F = 0%N -> (forall s h t T e, Flow.fl_rate F s h t T e = R0 /\ Flow.fl_ds F s h t T e = R0) ->
  Rle R0 atol -> (0 < n)%N -> (1 < miter)%N -> (0 < nt)%N -> (gt = "zero" \/ gt = "previous" /\ (n < nt)%N)%string ->
  exists st, @solve_strain B nb nt times strains temps BackwardEuler lm rtol atol miter throw gt n init = inl st /\ i_warned st = [::].
Proof.
move=> B N Z a0 n0 m1 nt0 hg; rewrite /solve_strain.
have [-> ->] := @zero_flow_affine E F nb nt times strains temps N Z.
apply: be_affine_never_fails => //.
by move=> k b _ _; rewrite scaler0 subr0 unitmx1.
Qed.
Print Assumptions C38_elastic_always_solved.

(** A zero-flow rule meeting the hypotheses, and a strictly increasing table. *)
Definition no_flow : Flow.flowrule := Flow.FlowRule 0 Flow.default_scalar Flow.default_scalar Flow.default_vec Flow.default_scalar
  Flow.default_vec (fun _ _ _ _ _ _ _ => R0) Flow.default_vec Flow.default_vec.
Example C38_ex : exists st, @solve_strain (Models.inelastic (fun _ => IZR 200) no_flow) 2 5 (fun k _ => INR k) (fun k b => Rmult (INR k) (INR b))
    (fun _ _ => R0) BackwardEuler (Direct Thomas) R0 R0 10 true "zero" 3 (fun _ => @zeroV RF 2 1) = inl st
  /\ forall k (b : 'I_2), (k < 5)%N -> entry st k b 0%N = Rmult (IZR 200) (Rmult (INR k) (INR b)).
Proof.
have [st [S W]] := @C38_elastic_always_solved (fun _ => IZR 200) no_flow 2 5 (fun k _ => INR k) (fun k b => Rmult (INR k) (INR b))
    (fun _ _ => R0) (Direct Thomas) R0 R0 10 true "zero" 3 (fun _ => @zeroV RF 2 1) erefl
    (fun _ _ _ _ _ => conj erefl erefl) (Rle_refl _) isT isT isT (or_introl erefl).
exists st; split=> // k b kn.
rewrite (@C38_elastic_tracks_strain _ no_flow (IZR 200) _ _ _ _ _ _ _ _ _ _ _ st _ _ _ S W) //.
- rewrite /= Rmult_0_l Rminus_0_r //.
- by move=> b' _ i j ij _; apply: lt_INR.
Qed.

(** C86: perfect viscoplasticity under strain control.  Starting from zero stress, the stress never
    exceeds the largest steady-state flow stress eta (|strain rate|)^(1/n) seen so far. *)
Theorem C86_flow_stress_saturates (E pn eta : R -> R) nb nt times strains temps lm miter throw gt n init st :
  let B := Models.inelastic E (Flow.perfect pn eta) in
  (forall b, (b < nb)%N -> forall i j, (i < j)%coq_nat -> (j < nt)%coq_nat -> Rlt (times i b) (times j b)) ->
  (forall T, Rlt R0 (E T) /\ Rlt R0 (pn T) /\ Rlt R0 (eta T)) ->
  @solve_strain B nb nt times strains temps BackwardEuler lm R0 R0 miter throw gt n init = inl st -> i_warned st = [::] ->
  forall k (b : 'I_nb) S, (k < nt)%N -> Rle R0 S ->
   (forall j, (0 < j)%N -> (j <= k)%N ->
      Rle (Rmult (eta (temps j b)) (Torch.pow0 (Rdiv (Rabs (Rminus (strains j b) (strains j.-1 b))) (Rminus (times j b) (times j.-1 b))) (Rinv (pn (temps j b))))) S) ->
   Rle (Rabs (entry st k b 0%N)) S.
Proof.
move=> B G P S W k b M; have /= [I H] := C38_increment_and_temperature_honoured G S W.
elim: k => [|k IH] kn M0 HM; first by rewrite I Rabs_R0.
have [P1 [P2 P3]] := P (temps k.+1 b).
have D := @dt_pos nb nt times k.+1 b (ltn_ord b) G isT kn.
have [Q|Q] := PipelineR.pv_bound _ _ _ _ _ _ _ P1 P2 P3 D (H k.+1 b isT kn).
- apply: Rle_trans Q _; apply: IH => //; first exact: ltnW.
  by move=> j j0 jk; apply: HM => //; apply: leqW.
- by apply: Rle_trans Q _; apply: (HM k.+1).
Qed.
Print Assumptions C86_flow_stress_saturates.
(** While the strain is held the stress relaxes monotonically and never changes sign. *)
Theorem C86_holds_relax (E pn eta : R -> R) nb nt times strains temps lm miter throw gt n init st :
  let B := Models.inelastic E (Flow.perfect pn eta) in
  (forall b, (b < nb)%N -> forall i j, (i < j)%coq_nat -> (j < nt)%coq_nat -> Rlt (times i b) (times j b)) ->
  (forall T, Rlt R0 (E T) /\ Rlt R0 (pn T) /\ Rlt R0 (eta T)) ->
  @solve_strain B nb nt times strains temps BackwardEuler lm R0 R0 miter throw gt n init = inl st -> i_warned st = [::] ->
  forall k (b : 'I_nb), (0 < k)%N -> (k < nt)%N -> strains k b = strains k.-1 b ->
   Rle (Rabs (entry st k b 0%N)) (Rabs (entry st k.-1 b 0%N)) /\ Rle R0 (Rmult (entry st k b 0%N) (entry st k.-1 b 0%N)).
Proof.
move=> B G P S W k b k0 kn e; have /= [I H] := C38_increment_and_temperature_honoured G S W.
have [P1 [P2 P3]] := P (temps k b).
have D := @dt_pos nb nt times k b (ltn_ord b) G k0 kn.
apply: (PipelineR.pv_relax _ _ _ _ _ _ P1 P2 P3 D); have := H k b k0 kn.
rewrite e (Rminus_diag_eq (strains k.-1 b)) // => Q; exact: Q.
Qed.
Print Assumptions C86_holds_relax.
(** Two exact runs agree: the answer does not depend on block size, linear solver, guess or
    iteration limits. *)
Theorem C86_block_independent (E pn eta : R -> R) nb nt times strains temps lm lm' miter miter' throw throw' gt gt' n n' init init' st st' :
  let B := Models.inelastic E (Flow.perfect pn eta) in
  (forall b, (b < nb)%N -> forall i j, (i < j)%coq_nat -> (j < nt)%coq_nat -> Rlt (times i b) (times j b)) ->
  (forall T, Rlt R0 (E T) /\ Rlt R0 (pn T) /\ Rlt R0 (eta T)) ->
  @solve_strain B nb nt times strains temps BackwardEuler lm R0 R0 miter throw gt n init = inl st -> i_warned st = [::] ->
  @solve_strain B nb nt times strains temps BackwardEuler lm' R0 R0 miter' throw' gt' n' init' = inl st' -> i_warned st' = [::] ->
  forall k b, (k < nt)%N -> entry st k b 0%N = entry st' k b 0%N.
Proof.
move=> B G P S W S' W'; have /= [I H] := C38_increment_and_temperature_honoured G S W.
have /= [I' H'] := C38_increment_and_temperature_honoured G S' W'.
elim=> [|k IH] b kn; first by rewrite I I'.
have [P1 [P2 P3]] := P (temps k.+1 b).
have D := @dt_pos nb nt times k.+1 b (ltn_ord b) G isT kn.
have := H k.+1 b isT kn; have := H' k.+1 b isT kn; rewrite /= (IH b (ltnW kn)) => A A'.
exact: (PipelineR.pv_unique _ _ _ _ _ _ _ _ (Rlt_le _ _ P1) P2 P3 (Rlt_le _ _ D) A' A).
Qed.
Print Assumptions C86_block_independent.
(** With rate sensitivity n = 1 (a Maxwell material) the hypotheses above are always met:
    every simulation on increasing times succeeds without a warning. *)
Theorem C86_linear_viscosity_always_solved (E eta : R -> R) nb nt times strains temps lm rtol atol miter throw gt n init :
  let B := Models.inelastic E (Flow.perfect (fun _ => R1) eta) in
  (forall b, (b < nb)%N -> forall i j, (i < j)%coq_nat -> (j < nt)%coq_nat -> Rlt (times i b) (times j b)) ->
  (forall T, Rlt R0 (E T) /\ Rlt R0 (eta T)) ->
  Rle R0 atol -> (0 < n)%N -> (1 < miter)%N -> (0 < nt)%N -> (gt = "zero" \/ gt = "previous" /\ (n < nt)%N)%string ->
  exists st, @solve_strain B nb nt times strains temps BackwardEuler lm rtol atol miter throw gt n init = inl st /\ i_warned st = [::].
Proof.
move=> B G P a0 n0 m1 nt0 hg; rewrite /solve_strain.
pose T := interp_at nt times temps; pose e := interp_at nt times (table_rates times strains).
pose K (b : 'I_nb) (t : RF) : 'M[RF]_1 := (const_mx (Ropp (Rdiv (E (T b t)) (eta (T b t))) : RF)).
pose c (b : 'I_nb) (t : RF) : 'cV[RF]_1 := const_mx (Rmult (E (T b t)) (e b t) : RF).
have z (i : 'I_(Models.rf_n B)) : nat_of_ord i = 0%N by case: i => [[|i] hi].
have -> : @strain_f B nb nt times strains temps = aff_rate K c.
{ apply: functional_extensionality => x; apply: functional_extensionality => x0; apply: functional_extensionality => x1; rewrite /aff_rate; apply/colP => i; rewrite !mxE big_ord1 !mxE z.
  rewrite inelastic_stress /= PipelineR.pv_linear; last by case: (P (T x x0)).
  have := P (T x x0) => -[_ pe]; have <- : x1 (ord0 : 'I_1) ord0 = to_vec (B:=B) x1 0%N by rewrite -(@to_vecE B x1 (ord0 : 'I_1)).
  rewrite -/T -/e; 
  change (Rmult (E (T x x0)) (Rminus (e x x0) (Rmult (/ eta (T x x0)) (x1 (ord0 : 'I_1) ord0))) =
    Rplus (Rmult (Ropp (Rdiv (E (T x x0)) (eta (T x x0)))) (x1 (ord0 : 'I_1) ord0)) (Rmult (E (T x x0)) (e x x0))).
  rewrite /Rdiv; ring. }
have -> : @strain_J B nb nt times strains temps = aff_jac K.
{ apply: functional_extensionality => x; apply: functional_extensionality => x0; apply: functional_extensionality => x1; rewrite /aff_jac; apply/matrixP => i j; rewrite !mxE !z.
  have := P (T x x0) => -[_ pe].
  rewrite /= /Slices.cat /= PipelineR.pv_linear_ds // -/T /Rdiv; ring. }
apply: be_affine_never_fails => // k b k0 kn.
have D := @dt_pos nb nt times k b (ltn_ord b) G k0 kn.
rewrite unitmxE det_mx11 !mxE eqxx unitfE !ffunE; apply/eqP.
have := P (T b (times k b)) => -[pE pe].
have : Rlt R0 (Rdiv (E (T b (times k b))) (eta (T b (times k b)))) by apply: Rdiv_lt_0_compat.
move: (Rdiv _ _) => q q0; rewrite /= /GRing.natmul /=.
change (Rplus R1 (Ropp (Rmult (Rminus (times k b) (times k.-1 b)) (Ropp q))) <> R0).
move: D; move: (Rminus _ _) => d D.
have := Rmult_lt_0_compat _ _ D q0; lra.
Qed.
Print Assumptions C86_linear_viscosity_always_solved.
