(** C111-C113: simulations of the full models (hardening, damage) end to end: bounds, second law, damage. *)
From Coq Require Import Reals List String Lra Lia FunctionalExtensionality.
From mathcomp Require Import all_ssreflect all_algebra.
From Verif Require Import ChunkModel ChunkSolve ChunkInst NewtonModel Ode OdeForward OdeReal OdeBlock RField Pipeline PipelineBoth ElasticRange.
From Verif Require Interp Models Flow Hardening Damage Deriv Slices PipelineR StressR Torch FullModel Props_Pipeline Props_Stress Props_Models.
Set Implicit Arguments. Unset Strict Implicit. Unset Printing Implicit Defensive.
Local Open Scope R_scope.
Import Props_Stress.

(** The viscoplastic model with Voce isotropic hardening and nback Chaboche backstresses.  The state of an entry is: 0 the stress (the strain under stress control),
    1 the isotropic hardening, 2 + i the i-th backstress. *)
Definition voce_chaboche (E n eta s0 Rs d : R -> R) (nback : nat) (C g : R -> nat -> R) : Models.rateform :=
  Models.inelastic E (Flow.isokin n eta s0 (Hardening.voce Rs d) (Hardening.chaboche nback C g)).
(** The stress of entry b at time k under its control. *)
Definition stress_of (control : nat -> R) (data : nat -> nat -> R) (B : Models.rateform) nb (st : istate RF nb (Models.rf_n B)) (k : nat) (b : 'I_nb) : R :=
  if Req_EM_T (control b) 0 then entry st k b 0%N else data k b.

Section Run.
Variables (E : R -> R) (F : Flow.flowrule) (nb nt : nat) (times data temps : nat -> nat -> R) (control : nat -> R).
Variables (lm : lin_method) (miter : nat) (throw : bool) (gt : string) (n : nat) (init : nat -> VB RF nb (Models.rf_n (Models.inelastic E F))).
Variable st : istate RF nb (Models.rf_n (Models.inelastic E F)).
Hypothesis Gr : times_increase nb nt times.
Hypothesis S : @solve_both (Models.inelastic E F) nb nt times data temps control BackwardEuler lm 0 0 miter throw gt n init = inl st.
Hypothesis W : i_warned st = [::].
Variable b : 'I_nb.
Lemma dtp k : (0 < k)%N -> (k < nt)%N -> 0 < times k b - times k.-1 b.
Proof. move=> k0 kn; exact: (dt_pos (ltn_ord b) Gr k0 kn). Qed.
Lemma hist_steps : (control b = 0 \/ control b = 1 /\ Models.rate_free F /\ (forall k b', (k < nt)%N -> (b' < nb)%N -> 0 < E (temps k b'))) ->
  (forall i, (i < Flow.fl_nhist F)%N -> entry st 0 b i.+1 = 0) /\
  forall k, (0 < k)%N -> (k < nt)%N -> exists e, forall i, (i < Flow.fl_nhist F)%N ->
    entry st k b i.+1 - entry st k.-1 b i.+1 =
    (times k b - times k.-1 b) * Flow.fl_hrate F (stress_of control data st k b) (fun i => entry st k b i.+1) (times k b) (temps k b) e i.
Proof.
case=> [C|[C [RF HE]]].
- have [_ [H0 H]] := C92_strain_entries Gr S W C; split=> // k k0 kn; have [_ Hk] := H k k0 kn.
  eexists=> i iF; rewrite (Hk i iF) /stress_of; case: Req_EM_T => // N; by case: N.
- have [_ [H0 H]] := C92_stress_entries Gr RF HE S W C; split=> // k k0 kn; have [_ Hk] := H k k0 kn.
  exists 0 => i iF; rewrite (Hk i iF) /stress_of; case: Req_EM_T => // N; exfalso; rewrite C in N; lra.
Qed.
End Run.

(** C111: in every simulation of the model (any batch, mixed controls, block size, linear solver, temperature history) the isotropic hardening stays between
    zero and the largest saturation value met, and each backstress within the largest C / g met. *)
Theorem C111_internal_variables_bounded E pn eta s0 Rs d nback C g nb nt times data temps control lm miter throw gt n init st (b : 'I_nb) rmax xmax :
  let B := voce_chaboche E pn eta s0 Rs d nback C g in
  times_increase nb nt times ->
  @solve_both B nb nt times data temps control BackwardEuler lm 0 0 miter throw gt n init = inl st -> i_warned st = [::] ->
  control b = 0 \/ control b = 1 /\ (forall k b', (k < nt)%N -> (b' < nb)%N -> 0 < E (temps k b')) ->
  (forall k, (k < nt)%N -> let T := temps k b in 0 <= d T /\ 0 <= Rs T <= rmax /\ forall i, (i < nback)%N -> 0 <= C T i /\ 0 < g T i /\ C T i / g T i <= xmax i) ->
  forall k, (k < nt)%N -> 0 <= entry st k b 1%N <= rmax /\ forall i, (i < nback)%N -> Rabs (entry st k b i.+2) <= xmax i.
Proof.
move=> B Gr S W Co P.
have [|H0 H] := @hist_steps _ _ _ _ _ _ _ _ _ _ _ _ _ _ _ Gr S W b.
{ by case: Co => [|[C1 C2]]; [left|right; split=> //; split=> //; apply: Models.rate_free_isokin]. }
elim=> [|k IH] kn.
- have [P1 [P2 P3]] := P 0%N kn; split; first by rewrite (H0 0%N) //; lra.
  move=> i ib; rewrite (H0 i.+1) ?Rabs_R0 //; have [q1 [q2 q3]] := P3 i ib; apply: Rle_trans q3.
  apply: Rmult_le_pos => //; exact/Rlt_le/Rinv_0_lt_compat.
- have [I1 I2] := IH (ltnW kn); have [P1 [P2 P3]] := P k.+1 kn; have D := dtp Gr b (ltn0Sn k) kn; have [e He] := H k.+1 (ltn0Sn k) kn.
  rewrite [k.+1.-1]/= in D He.
  split.
  + have := He 0%N (ltn0Sn nback); rewrite /= => Q.
    apply: (FullModel.voce_step _ _ _ _ _ _ _ (Rlt_le _ _ D) P1 P2 _ I1); exact: Q.
  + move=> i ib; have := He i.+1 ib; rewrite /= /Slices.cat /= Nat.sub_0_r /Slices.slice /= => Q.
    have [q1 [q2 q3]] := P3 i ib.
    set ep := Flow.ik_rate _ _ _ _ _ _ _ _ _ _ in Q.
    apply: (FullModel.back_step _ _ (g (temps k.+1 b) i * Rabs ep) _ ep _ _ (Rlt_le _ _ D) q1 _ _ _ (I2 i ib)).
    * apply: Rmult_le_pos; [exact: Rlt_le|exact: Rabs_pos].
    * have -> : g (temps k.+1 b) i * Rabs ep * xmax i = (g (temps k.+1 b) i * xmax i) * Rabs ep by ring.
      apply: Rmult_le_compat_r; first exact: Rabs_pos.
      apply: (Rmult_le_reg_r (/ g (temps k.+1 b) i)); first exact: Rinv_0_lt_compat.
      rewrite (Rmult_comm (g _ _)) Rmult_assoc Rinv_r; last lra. by rewrite Rmult_1_r.
    * by rewrite Q (Rmult_assoc (g _ _) (entry _ _ _ _)) (Rmult_comm (entry _ _ _ _)) -Rmult_assoc.
Qed.
Print Assumptions C111_internal_variables_bounded.

(** Under strain control the stress never exceeds the largest yield stress (initial yield stress, saturated hardening, saturated backstresses) plus the
    viscous overstress at the imposed strain rate. *)
Theorem C111_stress_bounded E pn eta s0 Rs d nback C g nb nt times data temps control lm miter throw gt n init st (b : 'I_nb) rmax xmax smax :
  let B := voce_chaboche E pn eta s0 Rs d nback C g in
  times_increase nb nt times ->
  @solve_both B nb nt times data temps control BackwardEuler lm 0 0 miter throw gt n init = inl st -> i_warned st = [::] ->
  control b = 0 -> 0 <= smax ->
  (forall k, (k < nt)%N -> let T := temps k b in 0 < E T /\ 0 < pn T /\ 0 < eta T /\ 0 <= s0 T /\
     0 <= d T /\ 0 <= Rs T <= rmax /\ forall i, (i < nback)%N -> 0 <= C T i /\ 0 < g T i /\ C T i / g T i <= xmax i) ->
  (forall k, (0 < k)%N -> (k < nt)%N -> let T := temps k b in
     s0 T + rmax + Deriv.sum nback xmax + eta T * Torch.pow0 (Rabs (data k b - data k.-1 b) / (times k b - times k.-1 b)) (/ pn T) <= smax) ->
  forall k, (k < nt)%N -> Rabs (entry st k b 0%N) <= smax.
Proof.
move=> B Gr S W Co S0 P Sm.
have I := C111_internal_variables_bounded (rmax := rmax) (xmax := xmax) Gr S W (or_introl Co) (fun k kn => proj2 (proj2 (proj2 (proj2 (P k kn))))).
have [Z [_ H]] := C92_strain_entries Gr S W Co.
elim=> [|k IH] kn; first by rewrite Z Rabs_R0.
have [P1 [P2 [P3 [P4 _]]]] := P k.+1 kn; have D := dtp Gr b (ltn0Sn k) kn; have [Q _] := H k.+1 (ltn0Sn k) kn.
have [I1 I2] := I k.+1 kn; have Smk := Sm k.+1 (ltn0Sn k) kn.
rewrite [k.+1.-1]/= in D Q Smk; cbv zeta in Q, Smk.
set F := Flow.isokin _ _ _ _ _ in Q.
have fE : Flow.fl_rate F (entry st k.+1 b 0%N) (fun i => entry st k.+1 b i.+1) (times k.+1 b) (temps k.+1 b) ((data k.+1 b - data k b) / (times k.+1 b - times k b))
  = Torch.pow0 (Deriv.mac ((Rabs (entry st k.+1 b 0%N - Deriv.sum nback (fun i => entry st k.+1 b i.+2)) - (s0 (temps k.+1 b) + entry st k.+1 b 1%N)) / eta (temps k.+1 b))) (pn (temps k.+1 b))
    * Torch.tsign (entry st k.+1 b 0%N - Deriv.sum nback (fun i => entry st k.+1 b i.+2)).
{ rewrite /= /Flow.ik_rate Flow.macaulay_mac /Flow.ik_kin /Flow.ik_iso /= /Slices.slice /=.
  congr (Torch.pow0 (Deriv.mac (_ / _)) _ * _); rewrite /Rminus Ropp_plus_distr -Rplus_assoc; reflexivity. }
rewrite fE in Q.
have K0 : 0 <= s0 (temps k.+1 b) + entry st k.+1 b 1%N by apply: Rplus_le_le_0_compat => //; exact: (proj1 I1).
have [L|L] := FullModel.vp_bound _ _ _ _ _ _ _ _ _ P1 P2 P3 D K0 Q; first exact: Rle_trans L (IH (ltnW kn)).
apply: Rle_trans L _.
have X := FullModel.fsum_abs nback (fun i => entry st k.+1 b i.+2).
have X' := FullModel.fsum_le nback (fun i => Rabs (entry st k.+1 b i.+2)) xmax (fun i ib => I2 i (introT ltP ib)).
have I1' := proj2 I1; lra.
Qed.
Print Assumptions C111_stress_bounded.

(** C112: the second law.  For constant modulus and backstress moduli (an isothermal test, or temperature independent moduli; any isotropic hardening; recovery allowed) the
    work done on the material between any two times is at least the increase of the energy stored, elastically and in the backstresses.  In particular
    loading that returns to the same state never produces work, and no history from the virgin state does. *)
Definition stored (E0 : R) (C0 : nat -> R) (ni nback : nat) (s : R) (hist : nat -> R) : R :=
  s * s / (2 * E0) + Deriv.sum nback (fun i => hist (ni + i)%coq_nat * hist (ni + i)%coq_nat / (2 * C0 i)).
(** the kinematic hardening models with independent backstresses: Chaboche's, without and with static recovery *)
Definition independent_backstresses (kin : Hardening.hardening) (nback : nat) (C : R -> nat -> R) : Prop :=
  (exists g, (forall T i, 0 <= g T i) /\ kin = Hardening.chaboche nback C g) \/
  (exists g b r, (forall T i, 0 <= g T i /\ 0 <= b T i) /\ kin = Hardening.chaboche_recovery nback C g b r).
Lemma backstress_rate kin nback C s h t ep T e i : independent_backstresses kin nback C -> 
  exists q, 0 <= q /\ Hardening.hd_rate kin s h t ep T e i = C T i * ep - q * h i.
Proof.
case=> [[g [Hg ->]]|[g [c [r [Hg ->]]]]].
- exists (g T i * Rabs ep); split; first by apply: Rmult_le_pos => //; exact: Rabs_pos. rewrite /=; ring.
- have [q1 q2] := Hg T i; exists (g T i * Rabs ep + c T i * Torch.pow0 (Rabs (h i)) (r T i - 1)); split.
  + apply: Rplus_le_le_0_compat; apply: Rmult_le_pos => //; [exact: Rabs_pos|exact: Torch.pow0_ge0].
  + rewrite /=; ring.
Qed.
Lemma independent_shape kin nback C : independent_backstresses kin nback C -> 
  Hardening.hd_nhist kin = nback /\ (forall h, Hardening.hd_value kin h = Deriv.sum nback h).
Proof. by case=> [[g [_ ->]]|[g [c [r [_ ->]]]]]. Qed.
Lemma choose_q (nback : nat) (Q : nat -> R -> Prop) : (forall i, (i < nback)%coq_nat -> exists q, Q i q) -> exists q : nat -> R, forall i, (i < nback)%coq_nat -> Q i (q i).
Proof.
elim: nback => [|m IH] H; first by exists (fun _ => 0) => i; lia.
have [|q Hq] := IH; first by move=> i im; apply: H; lia.
have [|v Hv] := H m; first lia.
exists (fun i => if Nat.eqb i m then v else q i) => i im; case: (Nat.eqb_spec i m) => [->//|ne]; apply: Hq; lia.
Qed.
Section Energy.
Variables (E pn eta s0 : R -> R) (E0 : R) (iso kin : Hardening.hardening) (nback : nat) (C : R -> nat -> R) (C0 : nat -> R).
Hypotheses (E0p : 0 < E0) (HC : forall i, (i < nback)%N -> 0 < C0 i) (HK : independent_backstresses kin nback C).
Let F := Flow.isokin pn eta s0 iso kin.
Let ni := Hardening.hd_nhist iso.
Lemma one_step dt s s' de T t e (h h' : nat -> R) : E T = E0 -> (forall i, (i < nback)%N -> C T i = C0 i) -> 0 < dt ->
  s' - s = E T * (de - dt * Flow.fl_rate F s' h' t T e) -> (forall i, (i < Flow.fl_nhist F)%N -> h' i - h i = dt * Flow.fl_hrate F s' h' t T e i) ->
  stored E0 C0 ni nback s' h' - stored E0 C0 ni nback s h <= s' * de.
Proof.
move=> HE HC0 D; rewrite HE => Hs Hh; have [K1 K2] := independent_shape HK.
have [q Hq] : exists q : nat -> R, forall i, (i < nback)%coq_nat -> 0 <= q i /\ h' (ni + i)%coq_nat - h (ni + i)%coq_nat = dt * (C0 i * Flow.fl_rate F s' h' t T e - q i * h' (ni + i)%coq_nat).
{ apply: (@choose_q nback (fun i q => 0 <= q /\ h' (ni + i)%coq_nat - h (ni + i)%coq_nat = dt * (C0 i * Flow.fl_rate F s' h' t T e - q * h' (ni + i)%coq_nat))) => i ib.
  have iF : (ni + i < Flow.fl_nhist F)%N by rewrite /= K1 ltn_add2l; apply/ltP.
  have := Hh _ iF; rewrite /= /Slices.cat.
  have -> : Nat.ltb (ni + i) (Hardening.hd_nhist iso) = false by apply/Nat.ltb_ge; rewrite /ni; exact: Nat.le_add_r.
  have -> : ((ni + i)%coq_nat - Hardening.hd_nhist iso)%coq_nat = i by rewrite /ni; lia.
  set ep := Flow.ik_rate _ _ _ _ _ _ _ _ _ _.
  have [q [q0 Hq]] := @backstress_rate kin nback C s' (Slices.slice (Hardening.hd_nhist iso) h') t ep T e i HK; rewrite Hq HC0; last exact/ltP.
  by move=> Q; exists q; split=> //; exact: Q. }
apply: (FullModel.step_energy E0 nback C0 q (fun i => h (ni + i)%coq_nat) (fun i => h' (ni + i)%coq_nat) dt s s' de (Flow.fl_rate F s' h' t T e)) => //.
- exact: Rlt_le.
- by move=> i ib; split; [apply: HC; apply/ltP|exact: (proj1 (Hq i ib))].
- by have := FullModel.ik_sign pn eta s0 iso kin s' h' t T e; rewrite {1}/Flow.ik_kin K2.
- by move=> i ib; exact: (proj2 (Hq i ib)).
Qed.

Section Run2.
Variables (nb nt : nat) (times data temps : nat -> nat -> R) (control : nat -> R) (lm : lin_method) (miter : nat) (throw : bool) (gt : string) (n : nat).
Variables (init : nat -> VB RF nb (Models.rf_n (Models.inelastic E F))) (st : istate RF nb (Models.rf_n (Models.inelastic E F))) (b : 'I_nb).
Hypotheses (Gr : times_increase nb nt times) (W : i_warned st = [::]).
Hypothesis S : @solve_both (Models.inelastic E F) nb nt times data temps control BackwardEuler lm 0 0 miter throw gt n init = inl st.
Hypothesis Is : forall k, (k < nt)%N -> E (temps k b) = E0 /\ forall i, (i < nback)%N -> C (temps k b) i = C0 i.
Let hist k i := entry st k b i.+1.
Lemma stored_0 s h : (forall i, (i < Flow.fl_nhist F)%N -> h i = 0) -> stored E0 C0 ni nback s h = s * s / (2 * E0).
Proof.
move=> H; rewrite /stored; have [K1 _] := independent_shape HK.
have -> : Deriv.sum nback (fun i => h (ni + i)%coq_nat * h (ni + i)%coq_nat / (2 * C0 i)) = Deriv.sum nback (fun _ => 0 * 0).
{ apply: FullModel.fsum_ext => i ib; rewrite H; last by rewrite /= K1 ltn_add2l; apply/ltP.
  rewrite /Rdiv; ring. }
rewrite FullModel.fsum_scal; ring.
Qed.
Lemma between (u v : nat -> R) : (forall k, (k.+1 < nt)%N -> u k.+1 - u k <= v k.+1 - v k) -> forall j k, (j <= k)%N -> (k < nt)%N -> u k - u j <= v k - v j.
Proof.
move=> H j; elim=> [|k IH] jk kn; first by move: jk; rewrite leqn0 => /eqP ->; lra.
case: (ltngtP j k.+1) jk => // [jk|->] _; last lra.
have := IH jk (ltnW kn); have := H k kn; lra.
Qed.
Lemma sumS (k : nat) f : Deriv.sum k.+1 f = Deriv.sum k f + f k.
Proof. by []. Qed.
Lemma strain_energy : control b = 0 -> forall j k, (j <= k)%N -> (k < nt)%N ->
  stored E0 C0 ni nback (entry st k b 0%N) (hist k) - stored E0 C0 ni nback (entry st j b 0%N) (hist j) <=
  Deriv.sum k (fun j => entry st j.+1 b 0%N * (data j.+1 b - data j b)) - Deriv.sum j (fun j => entry st j.+1 b 0%N * (data j.+1 b - data j b)).
Proof.
move=> Co; have [Z [Hz H]] := C92_strain_entries Gr S W Co.
apply: (between (u := fun k => stored E0 C0 ni nback (entry st k b 0%N) (hist k)) (v := fun k => Deriv.sum k (fun j => entry st j.+1 b 0%N * (data j.+1 b - data j b)))) => k kn.
have D := dtp Gr b (ltn0Sn k) kn; have [Q1 Q2] := H k.+1 (ltn0Sn k) kn; rewrite [k.+1.-1]/= in D Q1 Q2; cbv zeta in Q1, Q2.
have [s1 s2] := Is kn; have := one_step s1 s2 D Q1 Q2; rewrite sumS -/(hist k) -/(hist k.+1); cbv beta; lra.
Qed.
Lemma stress_energy : (forall k b', (k < nt)%N -> (b' < nb)%N -> 0 < E (temps k b')) -> control b = 1 -> Models.rate_free F -> forall j k, (j <= k)%N -> (k < nt)%N ->
  stored E0 C0 ni nback (data k b) (hist k) - stored E0 C0 ni nback (data j b) (hist j) <=
  Deriv.sum k (fun j => data j.+1 b * (entry st j.+1 b 0%N - entry st j b 0%N) + Rabs (data j.+1 b) * ((times j.+1 b - times j b) / (10 ^ 10 * E0))) -
  Deriv.sum j (fun j => data j.+1 b * (entry st j.+1 b 0%N - entry st j b 0%N) + Rabs (data j.+1 b) * ((times j.+1 b - times j b) / (10 ^ 10 * E0))).
Proof.
move=> Ep Co RF; have [Z [Hz H]] := C92_stress_entries Gr RF Ep S W Co.
apply: (between (u := fun k => stored E0 C0 ni nback (data k b) (hist k)) (v := fun k => Deriv.sum k (fun j => data j.+1 b * (entry st j.+1 b 0%N - entry st j b 0%N) + Rabs (data j.+1 b) * ((times j.+1 b - times j b) / (10 ^ 10 * E0))))) => k kn.
have D := dtp Gr b (ltn0Sn k) kn; have [Q1 Q2] := H k.+1 (ltn0Sn k) kn; rewrite [k.+1.-1]/= in D Q1 Q2; cbv zeta in Q1, Q2.
  have [s1 s2] := Is kn; rewrite s1 in Q1; set ep := Flow.fl_rate _ _ _ _ _ _ in Q1.
  have Q0 : data k.+1 b - data k b = E (temps k.+1 b) * ((data k.+1 b - data k b) / E0 + (times k.+1 b - times k b) * ep - (times k.+1 b - times k b) * ep).
  { rewrite s1; field; lra. }
  have G := one_step s1 s2 D Q0 Q2; rewrite sumS; cbv beta; rewrite -/(hist k) -/(hist k.+1) in G *.
  set de := entry st k.+1 b 0%N - entry st k b 0%N in Q1 *; set u := (data k.+1 b - data k b) / E0 + _ in Q1 G *.
  have : data k.+1 b * u - data k.+1 b * de <= Rabs (data k.+1 b) * ((times k.+1 b - times k b) / (10 ^ 10 * E0)).
  { have -> : data k.+1 b * u - data k.+1 b * de = - (data k.+1 b * (de - u)) by ring.
    apply: Rle_trans (Rle_abs _) _; rewrite Rabs_Ropp Rabs_mult; apply: Rmult_le_compat_l; [exact: Rabs_pos|exact: Q1]. }
  lra.
Qed.
End Run2.
End Energy.

Theorem C112_work_at_least_stored_energy E pn eta s0 E0 iso kin nback C C0 nb nt (times data temps : nat -> nat -> R) (control : nat -> R) lm miter throw gt n init st (b : 'I_nb) :
  let B := Models.inelastic E (Flow.isokin pn eta s0 iso kin) in
  0 < E0 -> (forall i, (i < nback)%N -> 0 < C0 i) -> independent_backstresses kin nback C ->
  (forall k, (k < nt)%N -> E (temps k b) = E0 /\ forall i, (i < nback)%N -> C (temps k b) i = C0 i) ->
  times_increase nb nt times ->
  @solve_both B nb nt times data temps control BackwardEuler lm 0 0 miter throw gt n init = inl st -> i_warned st = [::] ->
  let hist k i := entry st k b i.+1 in let energy := stored E0 C0 (Hardening.hd_nhist iso) nback in
  (control b = 0 -> energy (entry st 0%N b 0%N) (hist 0%N) = 0 /\ let work k := Deriv.sum k (fun j => entry st j.+1 b 0%N * (data j.+1 b - data j b)) in
     forall j k, (j <= k)%N -> (k < nt)%N -> energy (entry st k b 0%N) (hist k) - energy (entry st j b 0%N) (hist j) <= work k - work j) /\
  (control b = 1 -> Models.total_free iso -> (forall k b', (k < nt)%N -> (b' < nb)%N -> 0 < E (temps k b')) ->
     let work k := Deriv.sum k (fun j => data j.+1 b * (entry st j.+1 b 0%N - entry st j b 0%N) + Rabs (data j.+1 b) * ((times j.+1 b - times j b) / (10 ^ 10 * E0))) in
     forall j k, (j <= k)%N -> (k < nt)%N -> energy (data k b) (hist k) - energy (data j b) (hist j) <= work k - work j).
Proof.
move=> B E0p HC HK Is Gr S W hist energy; split=> [Co|Co Fi Ep]; last move=> work j k jk kn.
- have [Z [Hz _]] := C92_strain_entries Gr S W Co; split; last by move=> work j k; apply: (strain_energy E0p HC HK Gr W S Is Co).
  by rewrite /energy (@stored_0 pn eta s0 E0 iso kin nback C C0 HK _ _ Hz) Z /Rdiv !Rmult_0_l.
- apply: (stress_energy E0p HC HK Gr W S Is Ep Co) => //; apply: Models.rate_free_isokin => //.
  by case: HK => [[g [_ ->]]|[g [c [r [_ ->]]]]]; [apply: Models.total_free_chaboche|apply: Models.total_free_chaboche_recovery].
Qed.
Print Assumptions C112_work_at_least_stored_energy.

(** From the virgin state the work is never negative. *)
Theorem C112_virgin_material_absorbs_work E pn eta s0 E0 iso kin nback C C0 nb nt (times data temps : nat -> nat -> R) (control : nat -> R) lm miter throw gt n init st (b : 'I_nb) :
  let B := Models.inelastic E (Flow.isokin pn eta s0 iso kin) in
  0 < E0 -> (forall i, (i < nback)%N -> 0 < C0 i) -> independent_backstresses kin nback C ->
  (forall k, (k < nt)%N -> E (temps k b) = E0 /\ forall i, (i < nback)%N -> C (temps k b) i = C0 i) ->
  times_increase nb nt times ->
  @solve_both B nb nt times data temps control BackwardEuler lm 0 0 miter throw gt n init = inl st -> i_warned st = [::] -> control b = 0 ->
  forall k, (k < nt)%N -> entry st k b 0%N * entry st k b 0%N / (2 * E0) <= Deriv.sum k (fun j => entry st j.+1 b 0%N * (data j.+1 b - data j b)).
Proof.
move=> B E0p HC HK Is Gr S W Co k kn.
have [/(_ Co) [Z H] _] := C112_work_at_least_stored_energy E0p HC HK Is Gr S W.
have := H 0%N k (leq0n _) kn; rewrite Z /= /stored.
set w := Deriv.sum k _; set X := Deriv.sum nback _; set a := _ / _.
have X0 : 0 <= X.
{ have Y : forall i, (i < nback)%coq_nat -> 0 * 0 <= entry st k b (Hardening.hd_nhist iso + i)%coq_nat.+1 * entry st k b (Hardening.hd_nhist iso + i)%coq_nat.+1 / (2 * C0 i).
  { move=> i ib; rewrite Rmult_0_l; apply: Rmult_le_pos; first exact: Rle_0_sqr.
    apply/Rlt_le/Rinv_0_lt_compat; have := HC i (introT ltP ib); lra. }
  have := FullModel.fsum_le nback (fun _ => 0 * 0) _ Y; rewrite FullModel.fsum_scal Rmult_0_l => Y'; exact: Y'. }
lra.
Qed.
Print Assumptions C112_virgin_material_absorbs_work.

(** C113: damage accumulates.  In every simulation of a damaged model, of any batch with any controls, the damage of an entry starts at zero and never
    decreases, as long as it stays below one. *)
Theorem C113_damage_never_decreases E F M nb nt (times data temps : nat -> nat -> R) (control : nat -> R) lm miter throw gt n init st :
  let B := Models.damaged E F M in
  times_increase nb nt times ->
  @solve_both B nb nt times data temps control BackwardEuler lm 0 0 miter throw gt n init = inl st -> i_warned st = [::] ->
  Props_Models.never_heals M ->
  let dam k b := entry st k b (Flow.fl_nhist F).+1 in
  (forall k (b : 'I_nb), (k < nt)%N -> dam k b < 1) ->
  forall b : 'I_nb, control b = 0 \/ Models.rate_free F /\ (forall k b', (k < nt)%N -> (b' < nb)%N -> E (temps k b') <> 0) ->
  dam 0%N b = 0 /\ forall j k, (j <= k)%N -> (k < nt)%N -> dam j b <= dam k b.
Proof.
move=> B Gr S W NH dam Lt b Co.
have m0 : (0 < Models.rf_n B)%N by [].
have D0 : dam 0%N b = 0 by apply: (run_zero S).
split=> // j k jk kn.
suff St : forall k, (k.+1 < nt)%N -> 0 - 0 <= dam k.+1 b - dam k b.
{ have := between (u := fun _ => 0) (v := dam^~ b) St jk kn; lra. }
move=> {j jk kn} {}k kn.
have Dt := dtp Gr b (ltn0Sn k) kn; rewrite [k.+1.-1]/= in Dt.
have Step : (exists s e, dam k.+1 b - dam k b = (times k.+1 b - times k b) * Damage.dm_rate M s (dam k.+1 b) (times k.+1 b) (temps k.+1 b) e) -> 0 - 0 <= dam k.+1 b - dam k b.
{ move=> [s [e ->]]; have := NH s (dam k.+1 b) (times k.+1 b) (temps k.+1 b) e (Lt k.+1 b kn) => P; have := Rmult_le_pos _ _ (Rlt_le _ _ Dt) P; lra. }
have Last : ((Flow.fl_nhist F).+1 < Models.rf_n B)%N by [].
case: (Req_EM_T (control b) 0) => [C0|C0].
- have := both_strain_steps Gr S W (ltn0Sn k) kn Last C0; rewrite [k.+1.-1]/= => Q.
  apply: Step; exists (entry st k.+1 b 0%N / (1 - dam k.+1 b)), (step_rate times data k.+1 b); rewrite /dam Q; congr (_ * _).
  by rewrite /= /Slices.cat /= PeanoNat.Nat.sub_0_r PeanoNat.Nat.ltb_irrefl.
- case: Co => [//|[RF HE]].
  have A : affine_run nt times data temps st.
  { move=> k' b' kn'; apply: StressR.damaged_affine => //; first by apply: HE.
    rewrite [Models.set0 _ _ _]/(entry st k' b' (Flow.fl_nhist F).+1); have := Lt k' b' kn'; move=> L E1; apply: (Rlt_irrefl 1); rewrite -{1}E1; exact: L. }
  case: (Req_EM_T (control b) 1) => [C1|C1].
  + have [e [A1 [S1 S2]]] := both_stress_steps m0 Gr S W A (ltn0Sn k) kn C1.
    apply: Step; exists (data k.+1 b / (1 - dam k.+1 b)), e; have := S2 _ (ltn0Sn _) Last; rewrite [k.+1.-1]/= /dam => ->; congr (_ * _).
    by rewrite /= /Slices.cat /= PeanoNat.Nat.sub_0_r PeanoNat.Nat.ltb_irrefl.
  + have := both_none_steps Gr S W (ltn0Sn k) kn Last C0 C1; rewrite [k.+1.-1]/= => Q.
    rewrite /dam Q; move: (entry st k b _) => x; rewrite !Rminus_diag_eq //; exact: Rle_refl.
Qed.
Print Assumptions C113_damage_never_decreases.

(** C114: elastic range.  A batch of tests, with any controls, none of which leaves the initial elastic range (the bound Y of an entry is at most its yield stress
    at every temperature met) is always solved, without warnings, whatever the hardening and with any tolerances (rtol below one); the internal variables stay zero,
    a strain-controlled entry gets the elastic stress within one absolute tolerance per step and a stress-controlled one the elastic strain, up to that and the
    tolerance of the inner solve. *)
Theorem C114_elastic_range_always_solved E pn eta s0 iso kin nb nt (times data temps : nat -> nat -> R) (control : nat -> R) lm rtol atol miter throw n init (Y : nat -> R) :
  let B := Models.inelastic E (Flow.isokin pn eta s0 iso kin) in
  times_increase nb nt times -> (1 < nt)%N -> (0 < n)%N -> (1 < miter)%N -> rtol < 1 -> 0 <= atol ->
  (forall k b, (k < nt)%N -> (b < nb)%N -> let T := temps k b in
     0 < E T /\ 1 < pn T /\ 0 < eta T /\ Y b <= s0 T /\ FullModel.rests iso T /\ FullModel.rests kin T) ->
  (forall k b, (k < nt)%N -> (b < nb)%N -> control b = 0 -> Rabs (Deriv.sum k (fun j => E (temps j.+1 b) * (data j.+1 b - data j b))) + INR k * atol <= Y b) ->
  (forall k b, (k < nt)%N -> (b < nb)%N -> control b = 1 -> Rabs (data k b) <= Y b) ->
  exists st, @solve_both B nb nt times data temps control BackwardEuler lm rtol atol miter throw "zero" n init = inl st /\ i_warned st = [::] /\
  forall (b : 'I_nb) k, (k < nt)%N ->
    (forall i, (i < Flow.fl_nhist (Flow.isokin pn eta s0 iso kin))%N -> entry st k b i.+1 = 0) /\
    (control b = 0 -> Rabs (entry st k b 0%N - Deriv.sum k (fun j => E (temps j.+1 b) * (data j.+1 b - data j b))) <= INR k * atol) /\
    (control b = 1 -> Models.total_free iso -> Models.total_free kin ->
     Rabs (entry st k b 0%N - Deriv.sum k (fun j => (data j.+1 b - data j b) / E (temps j.+1 b)))
       <= INR k * atol + Deriv.sum k (fun j => (times j.+1 b - times j b) / (10 ^ 10 * E (temps j.+1 b)))).
Proof.
move=> B Gr nt2 n0 m1 r1 a0 P Hs Ht.
set F := Flow.isokin _ _ _ _ _ in B *.
have El k b : (k < nt)%N -> (b < nb)%N -> FullModel.elastic_upto F (temps k b) (Y b).
{ move=> kn bn; have [_ [P2 [P3 [P4 [P5 P6]]]]] := P k b kn bn => s h t e Hs'.
  apply: (FullModel.ik_elastic pn eta s0 iso kin (temps k b) P2 P3 P5 P6); exact: Rle_trans Hs' P4. }
have [st [S [W Q]]] := ElasticRange.elastic_run Gr nt2 El r1 a0 Hs Ht lm throw init n0 m1.
exists st; split; first exact: S. split=> // b k kn; have [Q1 [Q2 Q3]] := Q k kn.
split; first by move=> i iF; apply: Q1.
split; first by move=> c; apply: Q2.
move=> c ti tk; apply: Q3 => //; split; first by apply: Models.rate_free_isokin.
by move=> k' b' kn' bn'; exact: (proj1 (P k' b' kn' bn')).
Qed.
Print Assumptions C114_elastic_range_always_solved.
(** With zero tolerances the stress is the elastic one exactly. *)
Theorem C114_elastic_range_exact E pn eta s0 iso kin nb nt (times data temps : nat -> nat -> R) (control : nat -> R) lm miter throw n init (Y : nat -> R) :
  let B := Models.inelastic E (Flow.isokin pn eta s0 iso kin) in
  times_increase nb nt times -> (1 < nt)%N -> (0 < n)%N -> (1 < miter)%N ->
  (forall k b, (k < nt)%N -> (b < nb)%N -> let T := temps k b in
     0 < E T /\ 1 < pn T /\ 0 < eta T /\ Y b <= s0 T /\ FullModel.rests iso T /\ FullModel.rests kin T) ->
  (forall k b, (k < nt)%N -> (b < nb)%N -> control b = 0 -> Rabs (Deriv.sum k (fun j => E (temps j.+1 b) * (data j.+1 b - data j b))) <= Y b) ->
  (forall k b, (k < nt)%N -> (b < nb)%N -> control b = 1 -> Rabs (data k b) <= Y b) ->
  exists st, @solve_both B nb nt times data temps control BackwardEuler lm 0 0 miter throw "zero" n init = inl st /\ i_warned st = [::] /\
  forall (b : 'I_nb) k, (k < nt)%N ->
    (forall i, (i < Flow.fl_nhist (Flow.isokin pn eta s0 iso kin))%N -> entry st k b i.+1 = 0) /\
    (control b = 0 -> entry st k b 0%N = Deriv.sum k (fun j => E (temps j.+1 b) * (data j.+1 b - data j b))).
Proof.
move=> B Gr nt2 n0 m1 P Hs Ht.
have Hs' k b : (k < nt)%N -> (b < nb)%N -> control b = 0 -> Rabs (Deriv.sum k (fun j => E (temps j.+1 b) * (data j.+1 b - data j b))) + INR k * 0 <= Y b.
{ by move=> *; rewrite Rmult_0_r Rplus_0_r; apply: Hs. }
have [st [S [W Q]]] := C114_elastic_range_always_solved lm throw init Gr nt2 n0 m1 Rlt_0_1 (Rle_refl 0) P Hs' Ht.
exists st; split; first exact: S. split=> // b k kn; have [Q1 [Q2 _]] := Q b k kn; split=> // c; have := Q2 c; rewrite Rmult_0_r.
exact: FullModel.abs_le0.
Qed.
Print Assumptions C114_elastic_range_exact.
(** the hardening models that rest: all the shipped ones but theta0-recovery (whose threshold moves without flow) and the default-exponent FA recovery *)
Theorem C114_models_at_rest T : FullModel.rests Hardening.nokin T /\ (forall Rs d, FullModel.rests (Hardening.voce Rs d) T) /\ (forall tau theta, FullModel.rests (Hardening.theta0voce tau theta) T) /\
  (forall C g, FullModel.rests (Hardening.fa_norecovery C g) T) /\ (forall nback C g, FullModel.rests (Hardening.chaboche nback C g) T) /\
  (forall nback C g b r, (forall i, r T i <> 1) -> FullModel.rests (Hardening.chaboche_recovery nback C g b r) T).
Proof.
split; first exact: FullModel.rests_nokin. split; first by move=> *; apply: FullModel.rests_voce. split; first by move=> *; apply: FullModel.rests_theta0voce.
split; first by move=> *; apply: FullModel.rests_fa_norecovery. split; first by move=> *; apply: FullModel.rests_chaboche. by move=> *; apply: FullModel.rests_chaboche_recovery.
Qed.
Print Assumptions C114_models_at_rest.

(** ** The hypotheses are met *)
(** A mixed batch (entry 0 strain controlled, entry 1 stress controlled), two backstresses, loaded in the elastic range. *)
Definition ex_model := voce_chaboche (fun _ => 200) (fun _ => 5) (fun _ => 100) (fun _ => 10) (fun _ => 30) (fun _ => 2) 2 (fun _ _ => 100) (fun _ _ => 10).
Lemma ex_stress k : Deriv.sum k (fun j => 200 * (INR j.+1 / 100 - INR j / 100)) = 2 * INR k.
Proof. elim: k => [|k IH]; first by rewrite /= Rmult_0_r. rewrite sumS IH !S_INR; lra. Qed.
Example C114_ex : exists st,
  @solve_both ex_model 2 5 (fun k _ => INR k) (fun k _ => INR k / 100) (fun _ _ => 0) INR BackwardEuler (Direct Thomas) 0 0 10 true "zero" 3 (fun _ => @zeroV RF 2 _) = inl st
  /\ i_warned st = [::]
  /\ (forall k, (k < 5)%N -> entry st k (@Ordinal 2 0 isT) 0%N = 2 * INR k)
  (* the bounds of C111 and the energy inequality of C112 apply to it *)
  /\ (forall (b : 'I_2) k, (k < 5)%N -> 0 <= entry st k b 1%N <= 30 /\ forall i, (i < 2)%N -> Rabs (entry st k b i.+2) <= 10)
  /\ (forall k, (k < 5)%N -> Rabs (entry st k (@Ordinal 2 0 isT) 0%N) <= 10 + 30 + Deriv.sum 2 (fun _ => 10) + 100)
  /\ (forall k, (k < 5)%N -> entry st k (@Ordinal 2 0 isT) 0%N * entry st k (@Ordinal 2 0 isT) 0%N / (2 * 200) <=
        Deriv.sum k (fun j => entry st j.+1 (@Ordinal 2 0 isT) 0%N * (INR j.+1 / 100 - INR j / 100))).
Proof.
have Gr : times_increase 2 5 (fun k _ => INR k) by move=> b' _ i j ij _; apply: lt_INR.
have k5 (k : nat) : (k < 5)%N -> 0 <= INR k <= 4.
{ move=> kn; split; first exact: pos_INR. rewrite (_ : 4 = INR 4); last by rewrite /=; ring. apply: le_INR; apply/leP; exact: kn. }
set iso := Hardening.voce (fun _ => 30) (fun _ => 2); set kin := Hardening.chaboche 2 (fun _ _ => 100) (fun _ _ => 10).
have Pa (k b : nat) : (k < 5)%N -> (b < 2)%N -> 0 < 200 /\ 1 < 5 /\ 0 < 100 /\ 10 <= 10 /\ FullModel.rests iso 0 /\ FullModel.rests kin 0.
{ move=> _ _; do 4 (split; first lra); split; [exact: FullModel.rests_voce|exact: FullModel.rests_chaboche]. }
have Pb (k b : nat) : (k < 5)%N -> (b < 2)%N -> INR b = 0 -> Rabs (Deriv.sum k (fun j => 200 * (INR j.+1 / 100 - INR j / 100))) <= 10.
{ move=> kn _ _; rewrite ex_stress Rabs_right; have := k5 k kn; lra. }
have Pc (k b : nat) : (k < 5)%N -> (b < 2)%N -> INR b = 1 -> Rabs (INR k / 100) <= 10.
{ move=> kn _ _; rewrite Rabs_right; have := k5 k kn; lra. }
have [st [S [W H]]] := @C114_elastic_range_exact (fun _ => 200) (fun _ => 5) (fun _ => 100) (fun _ => 10) iso kin
  2 5 (fun k _ => INR k) (fun k _ => INR k / 100) (fun _ _ => 0) INR (Direct Thomas) 10 true 3 (fun _ => @zeroV RF 2 _) (fun _ => 10) Gr isT isT isT Pa Pb Pc.
exists st; split; first exact: S. split=> //.
have b0 (k : nat) : (k < 5)%N -> entry st k (@Ordinal 2 0 isT) 0%N = 2 * INR k by move=> kn; have [_ ->] := H (@Ordinal 2 0 isT) k kn; [exact: ex_stress|by []].
split=> //.
have P10 : forall i, (i < 2)%N -> 0 <= 100 /\ 0 < 10 /\ 100 / 10 <= 10 by move=> i _; lra.
split.
{ move=> b; apply: (@C111_internal_variables_bounded _ _ _ _ _ _ _ _ _ _ _ _ _ _ _ _ _ _ _ _ _ _ b 30 (fun _ => 10) Gr S W) => //=.
  - case: b => [[|[|b]] hb] //=; [by left|right; split=> // *; lra].
  - move=> _ _; split; [lra|split; [lra|exact: P10]]. }
split.
{ apply: (@C111_stress_bounded _ _ _ _ _ _ _ _ _ _ _ _ _ _ _ _ _ _ _ _ _ _ (@Ordinal 2 0 isT) 30 (fun _ => 10) _ Gr S W erefl) => [|k kn|k k0 kn] /=.
  - lra.
  - repeat split; try lra.
  - rewrite -/(INR k) (_ : Rabs _ / _ = / 100); last first.
    { rewrite -(prednK k0) S_INR /= (_ : _ / 100 - _ = / 100); last by field. rewrite Rabs_right; [field|]; lra. }
    have := @Torch.pow0_le1 (/ 100) (/ 5); have A : 0 <= / 100 <= 1 by lra. have B : 0 < / 5 by lra. move=> /(_ A B); lra. }
move=> k kn.
apply: (@C112_virgin_material_absorbs_work _ _ _ _ 200 _ _ 2 _ (fun _ => 100) _ _ _ _ _ _ _ _ _ _ _ _ _ (@Ordinal 2 0 isT) _ _ _ _ Gr S W erefl k kn) => //; try lra.
- by move=> *; lra.
- left; exists (fun _ _ => 10); split=> // *; lra.
- by move=> *; split.
Qed.
(** A bar under a dead load whose damage grows at a constant rate, run through solve_both. *)
Example C113_ex : exists st,
  let B := Models.damaged (fun _ => 200) Props_Pipeline.no_flow (Damage.constdamage (fun _ => / 20)) in
  @solve_both B 2 9 (fun k _ => INR k) (fun _ _ => 50) (fun _ _ => 0) (fun _ => 1) BackwardEuler (Direct Thomas) 0 0 10 true "zero" 3 (fun _ => @zeroV RF 2 2) = inl st
  /\ i_warned st = [::] /\ (forall k (b : 'I_2), (k < 9)%N -> entry st k b 1%N = INR k / 20 /\ entry st k b 1%N < 1)
  /\ forall (b : 'I_2) j k, (j <= k)%N -> (k < 9)%N -> entry st j b 1%N <= entry st k b 1%N.
Proof.
have Gr : times_increase 2 9 (fun k _ => INR k) by move=> b' _ i j ij _; apply: lt_INR.
have [st [S [W H]]] := @dead_load_run 200 (/ 20) 50 2 9 (fun k _ => INR k) Props_Pipeline.no_flow erefl (fun _ _ _ _ _ => conj erefl erefl) isT Gr.
rewrite -(C90_all_stress _ _ _ _ _ _ _ _ _ _ _ (control := fun _ => 1)) // in S.
exists st; split; first exact: S.
have L k (b : 'I_2) : (k < 9)%N -> entry st k b 1%N = INR k / 20 /\ entry st k b 1%N < 1.
{ move=> kn; rewrite H // (_ : INR 0 = 0) // Rminus_0_r; split; first exact: Rmult_comm.
  have : INR k < 9 by rewrite (_ : 9 = INR 9); [apply: lt_INR; apply/ltP|rewrite /=; ring].
  lra. }
split=> //; split=> // b; apply: (proj2 (C113_damage_never_decreases Gr S W _ _ (or_intror (conj no_flow_rate _)))) => //.
- by move=> s d t T e _ /=; lra.
- by move=> k b' kn; apply: (proj2 (L k b' kn)).
Qed.
