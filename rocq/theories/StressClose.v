(** Backward Euler steps of the Voce / Chaboche model at a given stress (what stress-controlled tests solve): steps from nearby states, satisfying the equations only up to a
    residual, end nearby.  The flow rule is continuous but not Lipschitz, so unlike VCClose.v the bound depends on the step. *)
From Coq Require Import Reals Lra Lia Ranalysis.
From Verif Require Import Torch Slices Deriv Hardening Flow Models VCStep VCHistory VCClose.
Local Open Scope R_scope.

Section Flow.
Variables (n eta : R).
Hypotheses (np : 0 < n) (ep : 0 < eta).
Let P u := mpow n (u / eta).
Lemma P_mono u v : u <= v -> P u <= P v.
Proof. intros H. unfold P, mpow. apply pow0_mono; [apply mac_ge0| |exact np]. apply mac_mono, div_mono; [exact ep|exact H]. Qed.
Lemma P_neg u : u <= 0 -> P u = 0.
Proof. intros H. unfold P. apply mpow_neg; [exact np|]. now apply div_neg. Qed.
Lemma P_ge0 u : 0 <= P u.
Proof. apply mpow_ge0. Qed.
Lemma P_cont u w : 0 < w -> exists dlt, 0 < dlt /\ forall v, Rabs (v - u) <= dlt -> Rabs (P v - P u) <= w.
Proof.
  intros W. assert (C : continuity P).
  { unfold P. apply (continuity_comp (fun u => u / eta) (mpow n)); [|now apply mpow_continuous].
    apply (continuity_mult (fun u => u) (fun _ => / eta)); [apply continuity_id|apply continuity_const; intros a b; reflexivity]. }
  destruct (C u w W) as [a [A H]]. exists (a / 2). split; [lra|]. intros v V. destruct (Req_dec u v) as [->|N].
  - rewrite Rminus_diag_eq, Rabs_R0 by reflexivity. lra.
  - left. apply (H v). split; [split; [exact I|exact N]|]. cbn. unfold R_dist. lra.
Qed.
(** flows up by at most 2 w *)
Lemma flow_up k1 r1 k2 r2 dl w : 0 <= k1 -> 0 <= k2 -> 0 <= dl ->
  P (r1 - k1 + 2 * dl) - P (r1 - k1) <= w -> P (- r1 - k1) - P (- r1 - k1 - 2 * dl) <= w -> P dl <= w ->
  let f1 := flow n eta k1 r1 in let f2 := flow n eta k2 r2 in
  r2 - r1 <= dl -> (Rabs f1 <= Rabs f2 -> - dl <= k2 - k1) -> (Rabs f2 <= Rabs f1 -> k2 - k1 <= dl) -> f1 <= f2 -> f2 - f1 <= 2 * w.
Proof.
  intros K1 K2 D W1 W2 W3 f1 f2 Hr HA HB L.
  destruct (flow_split n eta k1 r1 np ep K1) as [E1 _]. destruct (flow_split n eta k2 r2 np ep K2) as [E2 _]. fold f1 in E1. fold f2 in E2. fold (P (r1 - k1)) (P (- r1 - k1)) in E1. fold (P (r2 - k2)) (P (- r2 - k2)) in E2.
  pose proof (P_ge0 dl) as D0. pose proof (P_ge0 (r1 - k1)). pose proof (P_ge0 (- r1 - k1)). pose proof (P_ge0 (r2 - k2)). pose proof (P_ge0 (- r2 - k2)).
  destruct (Rle_lt_dec (Rabs f1) (Rabs f2)) as [A|A].
  - specialize (HA A). assert (M : P (r2 - k2) <= P (r1 - k1 + 2 * dl)) by (apply P_mono; lra).
    destruct (Rle_lt_dec (- r1 - k1) 0) as [N|N]; [rewrite (P_neg _ N) in *; lra|].
    rewrite (P_neg (r1 - k1)) in * by lra. destruct (Rle_lt_dec f2 0) as [Z|Z]; [rewrite !Rabs_left1 in A by lra; lra|].
    pose proof (flow_pos_r n eta np ep k2 r2 K2 Z). assert (P (- r1 - k1) <= P dl) by (apply P_mono; lra). lra.
  - specialize (HB (Rlt_le _ _ A)). assert (M : P (- r1 - k1 - 2 * dl) <= P (- r2 - k2)) by (apply P_mono; lra).
    destruct (Rle_lt_dec (r2 - k2) 0) as [N|N]; [rewrite (P_neg _ N) in *; lra|].
    rewrite (P_neg (- r2 - k2)) in * by lra. destruct (Rle_lt_dec 0 f1) as [Z|Z]; [rewrite !Rabs_pos_eq in A by lra; lra|].
    assert (Q : 0 < flow n eta k1 (- r1)) by (rewrite flow_odd; fold f1; lra). pose proof (flow_pos_r n eta np ep k1 (- r1) K1 Q).
    assert (P (r2 - k2) <= P dl) by (apply P_mono; lra). lra.
Qed.
(** Near thresholds and driving stresses give near flows, provided the threshold moves the right way. *)
Lemma flow_near k1 r1 w : 0 <= k1 -> 0 < w -> exists dlt, 0 < dlt /\ forall k2 r2, 0 <= k2 ->
  let f1 := flow n eta k1 r1 in let f2 := flow n eta k2 r2 in
  (f1 <= f2 -> r2 - r1 <= dlt) -> (f2 <= f1 -> - dlt <= r2 - r1) -> (Rabs f1 <= Rabs f2 -> - dlt <= k2 - k1) -> (Rabs f2 <= Rabs f1 -> k2 - k1 <= dlt) -> Rabs (f2 - f1) <= w.
Proof.
  intros K1 W. assert (W2 : 0 < w / 2) by lra.
  destruct (P_cont (r1 - k1) _ W2) as [a [A HA]]. destruct (P_cont (- r1 - k1) _ W2) as [b [B HB]]. destruct (P_cont 0 _ W2) as [c [C HC]].
  set (dl := Rmin (Rmin a b) c / 2). assert (M : 0 < Rmin (Rmin a b) c) by (repeat apply Rmin_glb_lt; assumption).
  pose proof (Rmin_l (Rmin a b) c). pose proof (Rmin_r (Rmin a b) c). pose proof (Rmin_l a b). pose proof (Rmin_r a b).
  assert (D0 : 0 < dl) by (unfold dl; lra). assert (Da : 2 * dl <= a) by (unfold dl; lra). assert (Db : 2 * dl <= b) by (unfold dl; lra). assert (Dc : 2 * dl <= c) by (unfold dl; lra).
  assert (up : forall u, (Rabs (P (u + 2 * dl) - P u) <= w / 2) -> P (u + 2 * dl) - P u <= w / 2) by (intros u Q; pose proof (Rle_abs (P (u + 2 * dl) - P u)); lra).
  assert (dn : forall u, (Rabs (P (u - 2 * dl) - P u) <= w / 2) -> P u - P (u - 2 * dl) <= w / 2).
  { intros u Q. apply abs_le2 in Q. lra. }
  assert (Z : P dl <= w / 2).
  { specialize (HC dl). rewrite Rminus_0_r, (Rabs_pos_eq dl) in HC by lra. specialize (HC ltac:(lra)). rewrite (P_neg 0) in HC by lra. apply abs_le2 in HC. lra. }
  assert (sp : forall u, Rabs (u + 2 * dl - u) <= 2 * dl) by (intros u; replace (u + 2 * dl - u) with (2 * dl) by ring; rewrite Rabs_pos_eq; lra).
  assert (sm : forall u, Rabs (u - 2 * dl - u) <= 2 * dl) by (intros u; replace (u - 2 * dl - u) with (- (2 * dl)) by ring; rewrite Rabs_Ropp, Rabs_pos_eq; lra).
  exists dl. split; [exact D0|]. intros k2 r2 K2 f1 f2 R1 R2 X1 X2.
  destruct (Rle_lt_dec f1 f2) as [L|L].
  - rewrite Rabs_pos_eq by lra. replace w with (2 * (w / 2)) by field.
    specialize (R1 L). apply (flow_up k1 r1 k2 r2 dl (w / 2)); trivial; try lra.
    + apply up, HA. pose proof (sp (r1 - k1)). lra.
    + apply dn, HB. pose proof (sm (- r1 - k1)). lra.
  - rewrite Rabs_left by lra. replace w with (2 * (w / 2)) by field.
    assert (o1 : flow n eta k1 (- r1) = - f1) by apply flow_odd. assert (o2 : flow n eta k2 (- r2) = - f2) by apply flow_odd.
    pose proof (flow_up k1 (- r1) k2 (- r2) dl (w / 2) K1 K2 (Rlt_le _ _ D0)) as U. cbv zeta in U. rewrite o1, o2, !Rabs_Ropp in U.
    replace (- (f2 - f1)) with (- f2 - - f1) by ring. rewrite Ropp_involutive in U. apply U; trivial.
    + apply up, HB. pose proof (sp (- r1 - k1)). lra.
    + apply dn, HA. pose proof (sm (r1 - k1)). lra.
    + specialize (R2 ltac:(lra)). lra.
    + lra.
Qed.
End Flow.

Section VC.
Variables (n eta s0 Rs d : R -> R) (nback : nat) (C g : R -> nat -> R).
Notation F := (the_flow n eta s0 nback).
(** One step at stress [sg] from history [h] to [h'], the equations of the internal variables holding up to [tol]. *)
Definition near_creep (tol T dt sg : R) (h h' : vec) : Prop :=
  let f := F T sg h' in
  Rabs (h' 0%nat - h 0%nat - dt * (d T * (Rs T - h' 0%nat) * Rabs f)) <= tol /\
  forall i, (i < nback)%nat -> Rabs (h' (S i) - h (S i) - dt * (C T i * f - g T i * h' (S i) * Rabs f)) <= tol.
Lemma creep_close T dt sg h h1 : 0 <= dt -> admissible n eta s0 Rs d nback C g T -> in_range Rs nback C g T h -> 0 < s0 T ->
  model_step n eta s0 Rs d nback C g 0 T dt 0 sg h sg h1 -> forall e, 0 < e -> exists dlt, 0 < dlt /\ forall hb h2,
    (forall i, (i <= nback)%nat -> Rabs (hb i - h i) <= dlt) -> near_creep dlt T dt sg hb h2 ->
    Rabs (dt * F T sg h2 - dt * F T sg h1) <= e /\ forall i, (i <= nback)%nat -> Rabs (h2 i - h1 i) <= e.
Proof.
  intros Hdt A I Sp S1 e He. pose proof A as (A1 & A2 & A3 & A4 & A5 & A6). apply model_vc in S1.
  set (f1 := flow (n T) (eta T) (s0 T + h1 0%nat) (sg - sum nback (fun i => h1 (S i)))).
  assert (C0 : 0 <= sum nback (C T)) by (apply sum_nonneg; intros; now apply A6). pose proof (Rmult_le_pos _ _ A5 A4) as DR.
  assert (K1 : 0 <= s0 T + h1 0%nat).
  { apply (two_k1 0 (n T) (eta T) (s0 T) (Rs T) (d T) nback (C T) (g T) dt 0 sg (h 0%nat) (fun i => h (S i)) A3 A5 Hdt (proj1 I) _ _ _ S1). }
  set (K := 1 + d T * Rs T + 2 * sum nback (C T)). assert (K0 : 1 <= K) by (unfold K; lra).
  set (q := e / (2 * K)). assert (q0 : 0 < q) by (apply Rdiv_lt_0_compat; lra). assert (qK : q * K = e / 2) by (unfold q; field; lra).
  assert (w0 : 0 < q / (dt + 1)) by (apply Rdiv_lt_0_compat; lra). assert (qw : dt * (q / (dt + 1)) <= q).
  { apply Rmult_le_reg_r with (dt + 1); [lra|]. replace (dt * (q / (dt + 1)) * (dt + 1)) with (dt * q) by (field; lra). nra. }
  destruct (flow_near (n T) (eta T) A1 A2 (s0 T + h1 0%nat) (sg - sum nback (fun i => h1 (S i))) _ K1 w0) as [da [a0 HN]].
  assert (N0 : 0 < INR nback + 1) by (pose proof (pos_INR nback); lra).
  set (dl := Rmin (Rmin (da / (2 * (INR nback + 1))) (e / 4)) (s0 T / 2)).
  assert (D0 : 0 < dl) by (unfold dl; repeat apply Rmin_glb_lt; try lra; apply Rdiv_lt_0_compat; lra).
  pose proof (Rmin_l (Rmin (da / (2 * (INR nback + 1))) (e / 4)) (s0 T / 2)) as M1. pose proof (Rmin_r (Rmin (da / (2 * (INR nback + 1))) (e / 4)) (s0 T / 2)) as M2.
  pose proof (Rmin_l (da / (2 * (INR nback + 1))) (e / 4)) as M3. pose proof (Rmin_r (da / (2 * (INR nback + 1))) (e / 4)) as M4. fold dl in M1, M2.
  assert (Da : 2 * dl * (INR nback + 1) <= da).
  { apply Rle_trans with (2 * (da / (2 * (INR nback + 1))) * (INR nback + 1)); [apply Rmult_le_compat_r; lra|]. right. field. lra. }
  exists dl. split; [exact D0|]. intros hb h2 Hb [B X]. set (f2 := F T sg h2) in *.
  assert (K2 : 0 <= s0 T + h2 0%nat).
  { assert (Lb : - dl <= hb 0%nat) by (specialize (Hb 0%nat ltac:(lia)); apply abs_le2 in Hb; destruct I as [[I0 _] _]; lra).
    pose proof (voce_low dl dl dt (d T) (Rs T) (hb 0%nat) (h2 0%nat) f2 Hdt A5 A4 (Rlt_le _ _ D0) (Rlt_le _ _ D0) B Lb). lra. }
  set (b := h2 0%nat - dt * (d T * (Rs T - h2 0%nat) * Rabs f2)). set (c := fun j => h2 (S j) - dt * (C T j * f2 - g T j * h2 (S j) * Rabs f2)).
  assert (S2 : vc_step 0 (n T) (eta T) (s0 T) (Rs T) (d T) nback (C T) (g T) dt 0 sg b c sg (h2 0%nat) (fun i => h2 (S i))).
  { unfold vc_step. change (flow (n T) (eta T) (s0 T + h2 0%nat) (sg - sum nback (fun i => h2 (S i)))) with f2. unfold b, c. split; [ring|]. split; [ring|]. intros i Hi. ring. }
  assert (Pb : Rabs (b - h 0%nat) <= 2 * dl).
  { specialize (Hb 0%nat ltac:(lia)). apply abs_le2 in Hb. apply abs_le2 in B. unfold b. apply Rabs_le. lra. }
  assert (Pc : forall i, (i < nback)%nat -> Rabs (c i - h (S i)) <= 2 * dl).
  { intros i Hi. specialize (Hb (S i) ltac:(lia)). apply abs_le2 in Hb. specialize (X i Hi). apply abs_le2 in X. unfold c. apply Rabs_le. lra. }
  assert (Sc : sum nback (fun i => Rabs (c i - h (S i))) <= da).
  { apply Rle_trans with (INR nback * (2 * dl)); [|pose proof (pos_INR nback); nra].
    assert (Gen : forall m, (m <= nback)%nat -> sum m (fun i => Rabs (c i - h (S i))) <= INR m * (2 * dl)); [|now apply Gen].
    induction m as [|m IH]; intros Hm; [cbn; lra|]. cbn [sum]. rewrite S_INR. specialize (IH ltac:(lia)). specialize (Pc m ltac:(lia)). lra. }
  assert (Da2 : 2 * dl <= da) by (pose proof (pos_INR nback); nra).
  destruct (two_k 0 (n T) (eta T) (s0 T) (Rs T) (d T) nback (C T) (g T) dt 0 sg (h 0%nat) (fun i => h (S i)) sg b c A5 Hdt (proj1 I) _ _ _ _ _ _ S1 S2) as [KA KB].
  destruct (two_r 0 (n T) (eta T) (s0 T) (Rs T) (d T) nback (C T) (g T) dt 0 sg (h 0%nat) (fun i => h (S i)) sg b c Hdt (fun i => range_mul _ _ _ _ _ _ _ _ T h i A I) _ _ _ _ _ _ S1 S2) as [RA RB].
  cbv zeta in KA, KB, RA, RB. cbv beta in KA, KB, RA, RB.
  assert (Q : Rabs (dt * f2 - dt * f1) <= q).
  { replace (dt * f2 - dt * f1) with (dt * (f2 - f1)) by ring. rewrite Rabs_mult, (Rabs_pos_eq dt) by exact Hdt. eapply Rle_trans; [|exact qw]. apply Rmult_le_compat_l; [exact Hdt|].
    assert (ZZ : Rabs (sg - sg) = 0) by (rewrite Rminus_diag_eq, Rabs_R0; reflexivity). rewrite ZZ in RA, RB.
    apply (HN (s0 T + h2 0%nat) (sg - sum nback (fun i => h2 (S i))) K2).
    - intros L. specialize (RA L). lra.
    - intros L. specialize (RB L). lra.
    - intros L. specialize (KA L). lra.
    - intros L. specialize (KB L). lra. }
  split; [apply Rle_trans with (1 := Q); assert (q * 1 <= q * K) by (apply Rmult_le_compat_l; lra); lra|].
  destruct (two_close 0 (n T) (eta T) (s0 T) (Rs T) (d T) nback (C T) (g T) dt 0 sg (h 0%nat) (fun i => h (S i)) sg b c (Rle_refl 0) A5 Hdt (proj1 I) (fun i => range_mul _ _ _ _ _ _ _ _ T h i A I) _ _ _ _ _ _ S1 S2 q Q) as (_ & Hh & Hx).
  intros [|i] Hi.
  - eapply Rle_trans; [exact Hh|]. assert (d T * Rs T * q <= q * K) by (unfold K; nra). lra.
  - eapply Rle_trans; [apply Hx; lia|]. specialize (Pc i ltac:(lia)).
    assert (Ci : C T i <= sum nback (C T)) by (apply (sum_term nback (C T)); [intros; now apply A6|lia]).
    assert (2 * C T i * q <= q * K) by (unfold K; nra). lra.
Qed.
End VC.
