(** Properties C47-C50: hardening.py. *)
From Coq Require Import Reals Lra Lia List Arith.
From Verif Require Import Torch Deriv Slices Hardening.
Import ListNotations.
Local Open Scope R_scope.

(** C47: [value_exact] and [rate_exact] (Hardening.v) say that along every
    differentiable curve of stress, history, inelastic rate and strain rate the
    value and the history rate change as the returned derivatives predict. *)
Theorem C47_voce Rs d s h t ep T e : value_exact (voce Rs d) h /\ rate_exact (voce Rs d) s h t ep T e.
Proof. split; [apply voce_value|apply voce_rate]. Qed.
Print Assumptions C47_voce.
Theorem C47_theta0voce tau theta s h t ep T e :
  value_exact (theta0voce tau theta) h /\ rate_exact (theta0voce tau theta) s h t ep T e.
Proof. split; [apply theta0voce_value|apply theta0voce_rate]. Qed.
Print Assumptions C47_theta0voce.
Theorem C47_theta0recovery tau theta R0 r1 r2 s h t ep T e : 1 <= r2 T \/ h 0%nat <> R0 T ->
  value_exact (theta0recovery tau theta R0 r1 r2) h /\ rate_exact (theta0recovery tau theta R0 r1 r2) s h t ep T e.
Proof. split; [apply theta0recovery_value|now apply theta0recovery_rate]. Qed.
Print Assumptions C47_theta0recovery.

(** C48 *)
Theorem C48_none s h t ep T e : value_exact nokin h /\ rate_exact nokin s h t ep T e.
Proof. split; [apply nokin_value|apply nokin_rate]. Qed.
Print Assumptions C48_none.
Theorem C48_frederick_armstrong C g b r s h t ep T e :
  match r with Some r => 1 <= r T \/ h 0%nat <> 0 | None => True end ->
  value_exact (fa C g b r) h /\ rate_exact (fa C g b r) s h t ep T e.
Proof. split; [apply fa_value|now apply fa_rate]. Qed.
Print Assumptions C48_frederick_armstrong.
Theorem C48_frederick_armstrong_norecovery C g s h t ep T e :
  value_exact (fa_norecovery C g) h /\ rate_exact (fa_norecovery C g) s h t ep T e.
Proof. split; [apply fan_value|apply fan_rate]. Qed.
Print Assumptions C48_frederick_armstrong_norecovery.
Theorem C48_chaboche n C g s h t ep T e :
  value_exact (chaboche n C g) h /\ rate_exact (chaboche n C g) s h t ep T e.
Proof. split; [apply chaboche_value|apply chaboche_rate]. Qed.
Print Assumptions C48_chaboche.
Theorem C48_chaboche_recovery n C g b r s h t ep T e : (forall i, (i < n)%nat -> 1 <= r T i \/ h i <> 0) ->
  value_exact (chaboche_recovery n C g b r) h /\ rate_exact (chaboche_recovery n C g b r) s h t ep T e.
Proof. split; [apply chaboche_recovery_value|now apply chaboche_recovery_rate]. Qed.
Print Assumptions C48_chaboche_recovery.
Theorem C48_superimposed ms d0 s h t ep T e :
  (forall k, (k < length ms)%nat -> value_exact (nth k ms d0) (slice (off hd_nhist ms k) h) /\
     rate_exact (nth k ms d0) s (slice (off hd_nhist ms k) h) t ep T e) ->
  value_exact (superimposed ms) h /\ rate_exact (superimposed ms) s h t ep T e.
Proof.
  intros H. split.
  - apply super_value_exact with (d0 := d0). intros k Hk. now apply H.
  - apply super_rate_exact with (d0 := d0). intros k Hk. now apply H.
Qed.
Print Assumptions C48_superimposed.
(** The superimposed model is the sum of the values on consecutive slices. *)
Theorem C48_superimposed_blocks ms d0 : 
  (forall h, hd_value (superimposed ms) h = sum (length ms) (fun k => hd_value (nth k ms d0) (slice (off hd_nhist ms k) h))) /\
  (forall s h t ep T e k i, (k < length ms)%nat -> (i < hd_nhist (nth k ms d0))%nat ->
     hd_rate (superimposed ms) s h t ep T e (off hd_nhist ms k + i)%nat
     = hd_rate (nth k ms d0) s (slice (off hd_nhist ms k) h) t ep T e i) /\
  hd_nhist (superimposed ms) = list_sum (map hd_nhist ms).
Proof.
  split; [|split].
  - intros. apply super_value_sum.
  - intros. now apply (super_block ms d0 (fun o m => hd_rate m s (slice o h) t ep T e)).
  - apply super_nhist.
Qed.
Print Assumptions C48_superimposed_blocks.

(** C49 *)
Theorem C49_theta0voce_is_voce tau theta : (forall T, tau T <> 0) ->
  same_model (theta0voce tau theta) (voce tau (fun T => theta T / tau T)).
Proof. apply theta0voce_is_voce. Qed.
Print Assumptions C49_theta0voce_is_voce.
Theorem C49_recovery_off tau theta R0 r2 :
  same_model (theta0recovery tau theta R0 (fun _ => 0) r2) (theta0voce tau theta).
Proof. apply theta0recovery_is_theta0voce. Qed.
Print Assumptions C49_recovery_off.
Theorem C49_fa_default C g : same_model (fa C g None None) (fa_norecovery C g).
Proof. apply fa_default. Qed.
Print Assumptions C49_fa_default.
Theorem C49_chaboche_is_superimposed_fa n C g :
  same_model (superimposed (map (fun k => fa_norecovery (fun T => C T k) (fun T => g T k)) (seq 0 n))) (chaboche n C g).
Proof. apply chaboche_superimposed. Qed.
Print Assumptions C49_chaboche_is_superimposed_fa.
Theorem C49_chaboche_recovery_off n C g r : same_model (chaboche_recovery n C g (fun _ _ => 0) r) (chaboche n C g).
Proof. apply chaboche_recovery_0. Qed.
Print Assumptions C49_chaboche_recovery_off.

(** C50: histories of backward Euler steps of any length and sizes. *)
Theorem C50_voce_saturates Rs d T dt s t ep e x : 0 <= d T ->
  be_history (voce Rs d) 0 T dt s t ep e x -> 0 <= x 0%nat 0%nat <= Rs T ->
  forall k, 0 <= x k 0%nat <= Rs T /\ x k 0%nat <= x (S k) 0%nat.
Proof.
  intros Hd H H0. assert (I : forall k, 0 <= x k 0%nat <= Rs T).
  { induction k as [|k IH]; auto. destruct (H k) as [Hdt E]. eapply voce_be_step in E; auto. now apply E. }
  intros k. split; auto. destruct (H k) as [Hdt E]. eapply voce_be_step in E; auto. now apply E.
Qed.
Print Assumptions C50_voce_saturates.
Theorem C50_voce_approaches Rs d T dt s t ep e x : 0 <= d T -> be_history (voce Rs d) 0 T dt s t ep e x ->
  forall k, Rabs (Rs T - x (S k) 0%nat) <= Rabs (Rs T - x k 0%nat).
Proof. intros Hd H k. destruct (H k) as [Hdt E]. eapply voce_be_step in E; auto. now apply E. Qed.
Print Assumptions C50_voce_approaches.
Theorem C50_voce_step_exists Rs d dt s t ep T e x0 : 0 <= dt -> 0 <= d T ->
  exists x1, be_step (voce Rs d) 0 dt s t ep T e x0 x1 /\
    forall x1', be_step (voce Rs d) 0 dt s t ep T e x0 x1' -> x1' 0%nat = x1 0%nat.
Proof. apply voce_be_exists. Qed.
Print Assumptions C50_voce_step_exists.
Theorem C50_chaboche_bounded n C g i T dt s t ep e x : 0 <= C T i -> 0 < g T i ->
  be_history (chaboche n C g) i T dt s t ep e x -> Rabs (x 0%nat i) <= C T i / g T i ->
  forall k, Rabs (x k i) <= C T i / g T i.
Proof.
  intros HC Hg H H0. induction k as [|k IH]; auto. destruct (H k) as [Hdt E]. now apply (chaboche_be_step n C g i _ _ _ _ _ _ _ _ Hdt HC Hg E).
Qed.
Print Assumptions C50_chaboche_bounded.
Theorem C50_frederick_armstrong_bounded C g T dt s t ep e x : 0 <= C T -> 0 < g T ->
  be_history (fa_norecovery C g) 0 T dt s t ep e x -> Rabs (x 0%nat 0%nat) <= C T / g T ->
  forall k, Rabs (x k 0%nat) <= C T / g T.
Proof.
  intros HC Hg H H0. induction k as [|k IH]; auto. destruct (H k) as [Hdt E]. now apply (fan_be_step C g _ _ _ _ _ _ _ _ Hdt HC Hg E).
Qed.
Print Assumptions C50_frederick_armstrong_bounded.
Theorem C50_chaboche_recovery_bounded n C g b r i T dt s t ep e x : 0 <= C T i -> 0 < g T i -> 0 <= b T i ->
  be_history (chaboche_recovery n C g b r) i T dt s t ep e x -> Rabs (x 0%nat i) <= C T i / g T i ->
  forall k, Rabs (x k i) <= C T i / g T i.
Proof.
  intros HC Hg Hb H H0. induction k as [|k IH]; auto. destruct (H k) as [Hdt E].
  apply (backstress_recovery_step (C T i) (g T i) (b T i) (pow0 (Rabs (x (S k) i)) (r T i - 1)) (dt k) (ep k) (x k i)); auto.
  apply Rmult_le_pos; auto. apply pow0_ge0.
Qed.
Print Assumptions C50_chaboche_recovery_bounded.

(** ** Concrete instances *)
(** A curve through a state, meeting the hypotheses of the exactness statements. *)
Example ex_curve : through (fun y => 3 + 2 * y) 3 2 /\ vthrough 2 (fun y i => INR i + y * y) (fun i => INR i) (fun _ => 0).
Proof.
  split; [split; [ring|]|].
  - eapply D_eq; [apply D_plus; [apply D_const|apply D_scal, D_id]|ring].
  - intros i _. split; [ring|]. eapply D_eq; [apply D_plus; [apply D_const|apply (D_mult (fun y => y) (fun y => y)); apply D_id]|]. ring.
Qed.
(** A backward Euler history of Voce hardening, infinitely long: with unit steps,
    d = 1, R = 8, |ep| = 1 each step halves the distance to R. *)
Example ex_history : be_history (voce (fun _ => 8) (fun _ => 1)) 0 0 (fun _ => 1) (fun _ => 0) (fun _ => 0)
  (fun k => (-1) ^ k) (fun _ => 0) (fun k _ => 8 - 8 * (/ 2) ^ k).
Proof.
  intros k. split; [lra|]. unfold be_step. cbn [voce hd_rate]. rewrite pow_1_abs. simpl. field.
Qed.
(** And a backstress history with C = 4, g = 2 at the bound. *)
Example ex_back : be_history (fa_norecovery (fun _ => 4) (fun _ => 2)) 0 0 (fun _ => 1) (fun _ => 0) (fun _ => 0)
  (fun k => 1) (fun _ => 0) (fun _ _ => 2) /\ Rabs 2 <= 4 / 2.
Proof.
  split; [|rewrite Rabs_right; lra]. intros k. split; [lra|]. unfold be_step. cbn [fa_norecovery hd_rate]. rewrite Rabs_R1. ring.
Qed.
