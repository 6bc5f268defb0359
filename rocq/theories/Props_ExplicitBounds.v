(** C138: internal variables in simulations with the explicit scheme. *)
From Coq Require Import Reals List String Lra Lia FunctionalExtensionality.
From mathcomp Require Import all_ssreflect all_algebra.
From Verif Require Import ChunkModel ChunkSolve ChunkInst NewtonModel Ode OdeForward OdeReal OdeDiff RField Pipeline VCGrad.
From Verif Require Interp Models Flow Hardening Deriv Slices VCStep VCHistory Props_FullModel Props_Explicit Props_Stress Props_Gradient Props_Descent Props_ExplicitTrain.
Import GRing.Theory.
Set Implicit Arguments. Unset Strict Implicit. Unset Printing Implicit Defensive.
Local Open Scope R_scope.
Import Props_FullModel Props_Stress Props_Gradient Props_Descent Props_ExplicitTrain.

Section Bounds.
Variables (E pn eta s0 Rs d : R -> R) (nback : nat) (C g : R -> nat -> R).
Notation B := (voce_chaboche E pn eta s0 Rs d nback C g).
Variables (nb nt : nat) (times strains temps : nat -> nat -> R) (lm : lin_method) (miter : nat) (throw : bool) (gt : string) (n : nat)
  (init : nat -> VB RF nb (Models.rf_n B)) (st : istate RF nb (Models.rf_n B)).
Hypothesis Gr : times_increase nb nt times.
Hypothesis S0 : solve_strain (B := B) nt times strains temps ForwardEuler lm 0 0 miter throw gt n init = inl st.
Hypothesis W : i_warned st = [::].
Variable b : 'I_nb.

(** The inelastic strain rate at time k, and the inelastic strain of the step that starts there (without its sign) *)
Definition flow_at (k : nat) : R := Flow.fl_rate (Flow.isokin pn eta s0 (Hardening.voce Rs d) (Hardening.chaboche nback C g)) (entry st k b 0%N) (fun i => entry st k b i.+1) (times k b) (temps k b) 0.
Definition plastic_step (k : nat) : R := (times k.+1 b - times k b) * Rabs (flow_at k).
Lemma flowE k : flow_at k = VCHistory.the_flow pn eta s0 nback (temps k b) (entry st k b 0%N) (fun i => entry st k b i.+1).
Proof. exact: (VCHistory.vc_rate pn eta s0 Rs d nback C g). Qed.
Lemma iso_step k : (k.+1 < nt)%N -> entry st k.+1 b 1%N = entry st k b 1%N + d (temps k b) * plastic_step k * (Rs (temps k b) - entry st k b 1%N).
Proof.
move=> kn; have := @Props_Explicit.C93_actual_increment B nb nt times strains temps lm miter throw gt n init st Gr S0 W b k 1%N kn (isT : (1 < nback.+2)%N).
cbv zeta; rewrite (VCHistory.vc_row1 E pn eta s0 Rs d nback C g) -flowE /plastic_step.
set dt := (_ - times k b); set f := Rabs _; lra.
Qed.
Lemma back_step k i : (k.+1 < nt)%N -> (i < nback)%N ->
  entry st k.+1 b i.+2 = entry st k b i.+2 + (times k.+1 b - times k b) * (C (temps k b) i * flow_at k - g (temps k b) i * entry st k b i.+2 * Rabs (flow_at k)).
Proof.
move=> kn ib; have := @Props_Explicit.C93_actual_increment B nb nt times strains temps lm miter throw gt n init st Gr S0 W b k i.+2 kn (ib : (i.+2 < nback.+2)%N).
cbv zeta; rewrite (VCHistory.vc_rowS E pn eta s0 Rs d nback C g) -flowE; lra.
Qed.
Lemma at0 i : (i < nback.+2)%N -> entry st 0 b i = 0.
Proof.
move=> ib; have [_ [R0' _]] := integrate_writes S0.
have E0 := @entryE B nb st 0 b (Ordinal (ib : (i < Models.rf_n B)%N)).
rewrite E0 R0' ffunE mxE; exact: erefl.
Qed.
Lemma step_pos k : (k.+1 < nt)%N -> 0 <= plastic_step k.
Proof. move=> kn; have D := Gr (ltn_ord b) (PeanoNat.Nat.lt_succ_diag_r k) (elimT ltP kn); apply: Rmult_le_pos; [lra|exact: Rabs_pos]. Qed.
End Bounds.

(** One explicit step multiplies the distance of each internal variable to its saturation value by one minus (its rate constant times the inelastic strain of the step):
    the isotropic hardening towards [Rs], each backstress towards [C / g] in the direction of flow. *)
Theorem C138_approach_to_saturation E pn eta s0 Rs d nback C g nb nt (times strains temps : nat -> nat -> R) lm miter throw gt n init st (b : 'I_nb) k :
  let B := voce_chaboche E pn eta s0 Rs d nback C g in let T := temps k b in
  let p := @plastic_step E pn eta s0 Rs d nback C g nb times temps st b k in let f := @flow_at E pn eta s0 Rs d nback C g nb times temps st b k in
  times_increase nb nt times ->
  @solve_strain B nb nt times strains temps ForwardEuler lm 0 0 miter throw gt n init = inl st -> i_warned st = [::] -> (k.+1 < nt)%N ->
  Rs T - entry st k.+1 b 1%N = (1 - d T * p) * (Rs T - entry st k b 1%N) /\
  forall i, (i < nback)%N -> g T i <> 0 ->
    (0 <= f -> C T i / g T i - entry st k.+1 b i.+2 = (1 - g T i * p) * (C T i / g T i - entry st k b i.+2)) /\
    (f <= 0 -> C T i / g T i + entry st k.+1 b i.+2 = (1 - g T i * p) * (C T i / g T i + entry st k b i.+2)).
Proof.
move=> B T p f Gr S W kn; split; first by rewrite (iso_step Gr S W b kn) -/p -/T; ring.
move=> i ib g0; have Q := back_step Gr S W b kn ib; rewrite -/T -/f in Q.
rewrite {}Q {}/p /plastic_step -/f; set dt := (_ - times k b).
split=> f0; [rewrite (Rabs_pos_eq f) //|rewrite (Rabs_left1 f) //]; field; exact: g0.
Qed.
Print Assumptions C138_approach_to_saturation.

(** Hence steps whose inelastic strain times the rate constants is at most one keep the internal variables within their bounds, as the implicit scheme always does (C111). *)
Theorem C138_short_steps_keep_the_bounds E pn eta s0 Rs d nback C g nb nt (times strains temps : nat -> nat -> R) lm miter throw gt n init st (b : 'I_nb) rmax xmax :
  let B := voce_chaboche E pn eta s0 Rs d nback C g in
  times_increase nb nt times ->
  @solve_strain B nb nt times strains temps ForwardEuler lm 0 0 miter throw gt n init = inl st -> i_warned st = [::] ->
  (forall k, (k < nt)%N -> let T := temps k b in 0 <= d T /\ 0 <= Rs T <= rmax /\ forall i, (i < nback)%N -> 0 <= C T i /\ 0 < g T i /\ C T i / g T i <= xmax i) ->
  (forall k, (k.+1 < nt)%N -> let T := temps k b in let p := @plastic_step E pn eta s0 Rs d nback C g nb times temps st b k in d T * p <= 1 /\ forall i, (i < nback)%N -> g T i * p <= 1) ->
  forall k, (k < nt)%N -> 0 <= entry st k b 1%N <= rmax /\ forall i, (i < nback)%N -> Rabs (entry st k b i.+2) <= xmax i.
Proof.
move=> B Gr S W P Sh; elim=> [|k IH] kn.
- have [P1 [P2 P3]] := P 0%N kn; split; first by rewrite (at0 S b (isT : (1 < nback.+2)%N)); lra.
  move=> i ib; rewrite (at0 S b (ib : (i.+2 < nback.+2)%N)) Rabs_R0; have [q1 [q2 q3]] := P3 i ib; apply: Rle_trans q3.
  apply: Rmult_le_pos => //; exact/Rlt_le/Rinv_0_lt_compat.
- have [I1 I2] := IH (ltnW kn); have [P1 [P2 P3]] := P k (ltnW kn); have [Q1 Q2] := Sh k kn; have p0 := @step_pos E pn eta s0 Rs d nback C g nb nt times temps st Gr b k kn.
  have [A1 A2] := C138_approach_to_saturation b Gr S W kn.
  set T := temps k b in A1 A2 P1 P2 P3 Q1 Q2; set p := @plastic_step _ _ _ _ _ _ _ _ _ _ _ _ _ _ _ in A1 A2 Q1 Q2 p0.
  have dp : 0 <= d T * p by apply: Rmult_le_pos.
  have X : entry st k.+1 b 1%N = d T * p * Rs T + (1 - d T * p) * entry st k b 1%N by lra.
  split.
  { rewrite X; set a := d T * p in dp Q1 *; split; first by apply: Rplus_le_le_0_compat; apply: Rmult_le_pos; lra.
    apply: (Rle_trans _ (a * rmax + (1 - a) * rmax)); last lra. apply: Rplus_le_compat; apply: Rmult_le_compat_l; lra. }
  move=> i ib; have [q1 [q2 q3]] := P3 i ib; have [//|B1 B2] := A2 i ib _; first lra.
  have {}I2 := I2 i ib; have gp : 0 <= g T i * p by apply: Rmult_le_pos => //; lra. have {}Q2 := Q2 i ib.
  have q0 : 0 <= C T i / g T i by apply: Rmult_le_pos => //; exact/Rlt_le/Rinv_0_lt_compat.
  set c := C T i / g T i in q0 q3 B1 B2; set a := g T i * p in gp Q2 B1 B2; set x := entry st k b i.+2 in I2 B1 B2 *; set x' := entry st k.+1 b i.+2 in B1 B2 *.
  have K u : Rabs u <= xmax i -> Rabs (a * u) <= a * xmax i by move=> h; rewrite Rabs_mult (Rabs_pos_eq a) //; apply: Rmult_le_compat_l.
  have K' u : Rabs u <= xmax i -> Rabs ((1 - a) * u) <= (1 - a) * xmax i by move=> h; rewrite Rabs_mult (Rabs_pos_eq (1 - a)); [apply: Rmult_le_compat_l => //; lra|lra].
  have M : exists u, Rabs u <= xmax i /\ x' = a * u + (1 - a) * x.
  { case: (Rle_dec 0 (@flow_at E pn eta s0 Rs d nback C g nb times temps st b k)) => f0.
    - exists c; split; first by rewrite Rabs_pos_eq. have := B1 f0; lra.
    - exists (- c); split; first by rewrite Rabs_Ropp Rabs_pos_eq. have := B2 ltac:(lra); lra. }
  have [u [hu ->]] := M; apply: Rle_trans (Rabs_triang _ _) _; have := K u hu; have := K' x I2; lra.
Qed.
Print Assumptions C138_short_steps_keep_the_bounds.

(** And exactly those steps do: below saturation, the isotropic hardening overshoots its saturation value in one explicit step if and only if the inelastic strain of the
    step times the rate constant exceeds one. *)
Theorem C138_long_steps_overshoot E pn eta s0 Rs d nback C g nb nt (times strains temps : nat -> nat -> R) lm miter throw gt n init st (b : 'I_nb) k :
  let B := voce_chaboche E pn eta s0 Rs d nback C g in let T := temps k b in
  times_increase nb nt times ->
  @solve_strain B nb nt times strains temps ForwardEuler lm 0 0 miter throw gt n init = inl st -> i_warned st = [::] -> (k.+1 < nt)%N ->
  entry st k b 1%N < Rs T -> (Rs T < entry st k.+1 b 1%N <-> 1 < d T * @plastic_step E pn eta s0 Rs d nback C g nb times temps st b k).
Proof.
move=> B T Gr S W kn lt; have [A _] := C138_approach_to_saturation b Gr S W kn; rewrite -/T in A.
set p := @plastic_step _ _ _ _ _ _ _ _ _ _ _ _ _ _ _ in A *.
split=> h.
- case: (Rlt_le_dec 1 (d T * p)) => // q; have := Rmult_le_pos (1 - d T * p) (Rs T - entry st k b 1%N) ltac:(lra) ltac:(lra); lra.
- have := Rmult_lt_0_compat (d T * p - 1) (Rs T - entry st k b 1%N) ltac:(lra) ltac:(lra); lra.
Qed.
Print Assumptions C138_long_steps_overshoot.

(** So the isotropic hardening of a run whose steps are short enough stays non-negative, and its calibration gradients are exact (C137). *)
Theorem C138_short_steps_calibrate np nback (E pn eta s0 Rs d : 'cV[RF]_np -> R -> R) (C g : 'cV[RF]_np -> R -> nat -> R) nb nt (times strains temps : nat -> nat -> R) dp (p0 : 'cV[RF]_np)
    lm miter throw gt n init st :
  let B := family nback E pn eta s0 Rs d C g p0 in
  parameter_derivatives (rate_p E pn eta s0 Rs d C g (nback := nback) (nb := nb) nt times strains temps) dp -> times_increase nb nt times -> (1 < nt)%N ->
  (forall k b, (k < nt)%N -> (b < nb)%N -> smooth_material nback E pn eta s0 Rs d C g p0 (temps k b) /\ 0 < eta p0 (temps k b) /\ 0 <= d p0 (temps k b) /\ 0 <= Rs p0 (temps k b)) ->
  @solve_strain B nb nt times strains temps ForwardEuler lm 0 0 miter throw gt n init = inl st -> i_warned st = [::] ->
  (forall k (b : 'I_nb), (k.+1 < nt)%N -> d p0 (temps k b) * @plastic_step (E p0) (pn p0) (eta p0) (s0 p0) (Rs p0) (d p0) nback (C p0) (g p0) nb times temps st b k <= 1) ->
  exists sim, explicit_simulation (nback := nback) E pn eta s0 Rs d C g (nb := nb) nt times strains temps sim /\ (forall k, (k < nt)%N -> i_result st k = sim p0 k) /\
    forall L og, loss_gradient nt L (sim p0) og ->
     exists grad lam, explicit_gradient (jac_p E pn eta s0 Rs d C g (nback := nback) nt times strains temps) dp nt (time_table nb times) p0 (sim p0) og grad lam /\
       (forall p q th, p th = p0 -> cdiff p th q -> derivable_pt_lim (fun u => L (sim (p u))) th (slope grad q)).
Proof.
move=> B ag Gr nt2 Sm S0 W Sh.
have [sim [H G]] := C137_hardening ag Gr nt2 (fun k b kn bn => conj (proj1 (Sm k b kn bn)) (proj1 (proj2 (Sm k b kn bn)))).
have R1 k : (k < nt)%N -> i_result st k = sim p0 k.
{ have [st' [S' [W' E']]] := H p0 (Direct Thomas) 2%N true "zero"%string 1%N (fun _ => @zeroV RF nb nback.+2) isT isT (or_introl erefl).
  move=> kn; rewrite -(E' k kn); have [_ [Ra _]] := integrate_writes S0; have [_ [Rb _]] := integrate_writes S'.
  rewrite (fe_is_euler Ra (fun k b k0 kn => integrate_exact erefl erefl S0 W b k0 kn) kn).
  by rewrite (fe_is_euler Rb (fun k b k0 kn => integrate_exact erefl erefl S' W' b k0 kn) kn). }
exists sim; split; first exact: H. split; first exact: R1.
move=> L og HL; have [|grad [lam [Rw [D _]]]] := G _ L og HL; last by exists grad, lam.
move=> k b; rewrite -[sim p0 k]/(sim p0 k) => kn; rewrite -(R1 k kn).
have E0 := @entryE B nb st k b (inord 1); rewrite inordK // in E0.
suff {R1 G H}: 0 <= entry st k b 1%N by rewrite E0.
elim: k kn {E0} => [|k IH] kn; first by rewrite (at0 S0 b (isT : (1 < nback.+2)%N)); lra.
have [_ [_ [d0 r0]]] := Sm k b (ltnW kn) (ltn_ord b).
rewrite (iso_step Gr S0 W b kn); have := Sh k b kn; have {}IH := IH (ltnW kn).
have p0' := @step_pos (E p0) (pn p0) (eta p0) (s0 p0) (Rs p0) (d p0) nback (C p0) (g p0) nb nt times temps st Gr b k kn.
set P := plastic_step _ _ _ _ _ in p0' *; move=> a1; have a0 := Rmult_le_pos _ _ d0 p0'; set a := d p0 _ * P in a0 a1 *.
have -> : entry st k b 1%N + a * (Rs p0 (temps k b) - entry st k b 1%N) = a * Rs p0 (temps k b) + (1 - a) * entry st k b 1%N by ring.
by apply: Rplus_le_le_0_compat; apply: Rmult_le_pos => //; lra.
Qed.
Print Assumptions C138_short_steps_calibrate.

(** Both sides occur: with E = n = 1, eta = 1, saturation 1 and rate constant [dd], pulled at unit rate, the hardening reaches [dd] at the third step: within its bound for
    dd <= 1, four times its saturation value for dd = 4. *)
Definition ex_model (dd : R) := voce_chaboche (fun _ => 1) (fun _ => 2) (fun _ => 1) (fun _ => 0) (fun _ => 1) (fun _ => dd) 0 (fun _ _ => 0) (fun _ _ => 0).
Example C138_ex dd lm : exists st, @solve_strain (ex_model dd) 1 4 (fun k _ => INR k) (fun k _ => INR k) (fun _ _ => 0) ForwardEuler lm 0 0 10 true "zero" 1 (fun _ => @zeroV RF 1 2) = inl st /\
  i_warned st = [::] /\ entry st 2 ord0 1 = 0 /\ entry st 3 ord0 1 = dd /\ @plastic_step (fun _ => 1) (fun _ => 2) (fun _ => 1) (fun _ => 0) (fun _ => 1) (fun _ => dd) 0 (fun _ _ => 0) (fun _ _ => 0) 1 (fun k _ => INR k) (fun _ _ => 0) st ord0 2 = 1.
Proof.
pose tm := fun k _ : nat => INR k.
have Gr : times_increase 1 4 tm by move=> b' _ i j ij _; apply: lt_INR.
have [st [S0 W]] := @fe_never_fails 1 2 (strain_f (B := ex_model dd) 4 tm tm (fun _ _ => 0)) (strain_J (B := ex_model dd) 4 tm tm (fun _ _ => 0)) lm 0 0 10 true "zero" 1 4
  (time_table 1 tm) (@zeroV RF 1 2) (fun _ => @zeroV RF 1 2) (Rle_refl _) isT isT isT (or_introl erefl).
exists st; split; first exact: S0. split; first exact: W.
have FE k := @flowE (fun _ => 1) (fun _ => 2) (fun _ => 1) (fun _ => 0) (fun _ => 1) (fun _ => dd) 0 (fun _ _ => 0) (fun _ _ => 0) 1 tm (fun _ _ => 0) st ord0 k.
have row0 k : (k.+1 < 4)%N -> entry (B := ex_model dd) st k.+1 ord0 0 = entry (B := ex_model dd) st k ord0 0 + ((if k is 0%N then 0 else 1) - @flow_at (fun _ => 1) (fun _ => 2) (fun _ => 1) (fun _ => 0) (fun _ => 1) (fun _ => dd) 0 (fun _ _ => 0) (fun _ _ => 0) 1 tm (fun _ _ => 0) st ord0 k).
{ move=> kn; have := @Props_Explicit.C93_actual_increment (ex_model dd) 1 4 tm tm (fun _ _ => 0) lm 10 true "zero" 1 _ st Gr S0 W ord0 k 0%N kn isT.
  cbv zeta; rewrite (VCHistory.vc_row0 (fun _ => 1) (fun _ => 2) (fun _ => 1) (fun _ => 0) (fun _ => 1) (fun _ => dd) 0 (fun _ _ => 0) (fun _ _ => 0)) -FE.
  set f := flow_at _ _ _ _ _; rewrite {1 2}/tm S_INR; have -> : (match k with 0%N => 0 | _.+1 => Props_Explicit.imposed tm tm k 0 end) = (if k is 0%N then 0 else 1).
  { case: k {f kn} => // k; rewrite /Props_Explicit.imposed /tm [k.+1.-1]/= S_INR; field; lra. }
  set q := (if k is 0%N then 0 else 1); lra. }
have row1 k : (k.+1 < 4)%N -> entry (B := ex_model dd) st k.+1 ord0 1 = entry (B := ex_model dd) st k ord0 1 + dd * Rabs (@flow_at (fun _ => 1) (fun _ => 2) (fun _ => 1) (fun _ => 0) (fun _ => 1) (fun _ => dd) 0 (fun _ _ => 0) (fun _ _ => 0) 1 tm (fun _ _ => 0) st ord0 k) * (1 - entry (B := ex_model dd) st k ord0 1).
{ move=> kn; have := @iso_step (fun _ => 1) (fun _ => 2) (fun _ => 1) (fun _ => 0) (fun _ => 1) (fun _ => dd) 0 (fun _ _ => 0) (fun _ _ => 0) 1 4 tm tm (fun _ _ => 0) lm 10 true "zero" 1 _ st Gr S0 W ord0 k kn.
  rewrite /plastic_step {1 2}/tm S_INR; have Z : INR k + 1 - INR k = 1 by ring. rewrite Z Rmult_1_l; exact. }
have fl k : entry (B := ex_model dd) st k ord0 1 = 0 -> @flow_at (fun _ => 1) (fun _ => 2) (fun _ => 1) (fun _ => 0) (fun _ => 1) (fun _ => dd) 0 (fun _ _ => 0) (fun _ _ => 0) 1 tm (fun _ _ => 0) st ord0 k =
   Torch.pow0 (Deriv.mac (Rabs (entry (B := ex_model dd) st k ord0 0))) 2 * Torch.tsign (entry (B := ex_model dd) st k ord0 0).
{ move=> h0; rewrite FE /VCHistory.the_flow /VCStep.flow h0 /= Rplus_0_l !Rminus_0_r; have D x : x / 1 = x by field. rewrite D; exact: erefl. }
have m0 : Deriv.mac 0 = 0 by rewrite /Deriv.mac Rmax_left //; exact: Rle_refl.
have s0 : entry (B := ex_model dd) st 0 ord0 0 = 0 := @at0 _ _ _ _ _ _ 0 _ _ 1 4 tm tm _ lm 10 true "zero" 1 _ st S0 ord0 0 isT.
have h0 : entry (B := ex_model dd) st 0 ord0 1 = 0 := @at0 _ _ _ _ _ _ 0 _ _ 1 4 tm tm _ lm 10 true "zero" 1 _ st S0 ord0 1 isT.
have f0 := fl 0%N h0; rewrite s0 Torch.tsign_0 Rmult_0_r in f0.
have s1 := row0 0%N isT; rewrite f0 s0 in s1; have h1 := row1 0%N isT; rewrite f0 h0 Rabs_R0 in h1.
have {}s1 : entry (B := ex_model dd) st 1 ord0 0 = 0 by rewrite s1; ring. have {}h1 : entry (B := ex_model dd) st 1 ord0 1 = 0 by rewrite h1; ring.
have f1 := fl 1%N h1; rewrite s1 Torch.tsign_0 Rmult_0_r in f1.
have s2 := row0 1%N isT; rewrite f1 s1 in s2; have h2 := row1 1%N isT; rewrite f1 h1 Rabs_R0 in h2.
have {}s2 : entry (B := ex_model dd) st 2 ord0 0 = 1 by rewrite s2; ring. have {}h2 : entry (B := ex_model dd) st 2 ord0 1 = 0 by rewrite h2; ring.
have f2 : @flow_at (fun _ => 1) (fun _ => 2) (fun _ => 1) (fun _ => 0) (fun _ => 1) (fun _ => dd) 0 (fun _ _ => 0) (fun _ _ => 0) 1 tm (fun _ _ => 0) st ord0 2 = 1.
{ rewrite (fl 2%N h2) s2 Rabs_R1 Torch.tsign_pos; last lra. rewrite /Deriv.mac Rmax_left; last lra. rewrite Torch.pow0_one; ring. }
have h3 := row1 2%N isT; rewrite f2 h2 Rabs_R1 in h3.
split; first exact: h2. split; first by rewrite h3; ring.
by rewrite /plastic_step f2 Rabs_R1 /=; ring.
Qed.
