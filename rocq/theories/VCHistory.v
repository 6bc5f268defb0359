(** Histories of the Voce / Chaboche model: what admissible parameters are, and the step equations in terms of the model's own rates. *)
From Coq Require Import Reals Lra Lia.
From Verif Require Import Torch Slices Deriv Hardening Flow Models VCStep.
Local Open Scope R_scope.

(** Material parameters as a user supplies them, at one temperature: exponent, drag stress, threshold, saturation value and rate of the isotropic hardening,
    modulus and recovery of each backstress. *)
Definition admissible (n eta s0 Rs d : R -> R) (nback : nat) (C g : R -> nat -> R) (T : R) : Prop :=
  0 < n T /\ 0 < eta T /\ 0 <= s0 T /\ 0 <= Rs T /\ 0 <= d T /\ forall i, (i < nback)%nat -> 0 <= C T i /\ 0 < g T i.
(** From temperature T to temperature T' the saturation values of the hardening do not drop (in particular: T' = T). *)
Definition no_softening (Rs : R -> R) (nback : nat) (C g : R -> nat -> R) (T T' : R) : Prop :=
  Rs T <= Rs T' /\ forall i, (i < nback)%nat -> C T i / g T i <= C T' i / g T' i.

Section VC.
Variables (E n eta s0 Rs d : R -> R) (nback : nat) (C g : R -> nat -> R).
Notation F := (isokin n eta s0 (voce Rs d) (chaboche nback C g)).
Definition the_flow (T s : R) (h : vec) : R := flow (n T) (eta T) (s0 T + h 0%nat) (s - sum nback (fun i => h (S i))).
Lemma vc_rate s h t T e : fl_rate F s h t T e = the_flow T s h.
Proof.
  cbn. unfold ik_rate, ik_kin, ik_iso, the_flow, flow. cbn. unfold slice. cbn. rewrite macaulay_mac.
  f_equal. f_equal. f_equal. f_equal. ring.
Qed.
Lemma vc_hrate0 s h t T e : fl_hrate F s h t T e 0%nat = d T * (Rs T - h 0%nat) * Rabs (the_flow T s h).
Proof. rewrite <- (vc_rate s h t T e). reflexivity. Qed.
Lemma vc_hrateS s h t T e i : fl_hrate F s h t T e (S i) = C T i * the_flow T s h - g T i * h (S i) * Rabs (the_flow T s h).
Proof. rewrite <- (vc_rate s h t T e). cbn. unfold cat. cbn. rewrite Nat.sub_0_r. reflexivity. Qed.
Lemma vc_row0 t y e T : rf_rate (inelastic E F) t y e T 0%nat = E T * (e - the_flow T (y 0%nat) (fun i => y (S i))).
Proof. rewrite <- (vc_rate (y 0%nat) (fun i => y (S i)) t T e). reflexivity. Qed.
Lemma vc_row1 t y e T : rf_rate (inelastic E F) t y e T 1%nat = d T * (Rs T - y 1%nat) * Rabs (the_flow T (y 0%nat) (fun i => y (S i))).
Proof. rewrite <- (vc_rate (y 0%nat) (fun i => y (S i)) t T e). reflexivity. Qed.
Lemma vc_rowS t y e T i : rf_rate (inelastic E F) t y e T (S (S i)) =
  C T i * the_flow T (y 0%nat) (fun i => y (S i)) - g T i * y (S (S i)) * Rabs (the_flow T (y 0%nat) (fun i => y (S i))).
Proof. rewrite <- (vc_hrateS (y 0%nat) (fun i => y (S i)) t T e i). reflexivity. Qed.
(** What the internal variables satisfy throughout. *)
Definition in_range (T : R) (h : vec) : Prop := 0 <= h 0%nat <= Rs T /\ forall i, (i < nback)%nat -> Rabs (h (S i)) <= C T i / g T i.
Lemma range_zero T h : admissible n eta s0 Rs d nback C g T -> (forall i, (i < S nback)%nat -> h i = 0) -> in_range T h.
Proof.
  intros (_ & _ & _ & A & _ & B) Z. unfold in_range. rewrite (Z 0%nat) by lia. split; [lra|]. intros i Hi. rewrite Z by lia. rewrite Rabs_R0.
  destruct (B i Hi). apply Rmult_le_pos; [auto|]. left. now apply Rinv_0_lt_compat.
Qed.
Lemma range_next T T' h : no_softening Rs nback C g T T' -> in_range T h -> in_range T' h.
Proof. intros [A B] [P Q]. split; [lra|]. intros i Hi. specialize (B i Hi). specialize (Q i Hi). lra. Qed.
Lemma range_mul T h i : admissible n eta s0 Rs d nback C g T -> in_range T h -> (i < nback)%nat -> 0 <= g T i /\ g T i * Rabs (h (S i)) <= C T i.
Proof.
  intros (_ & _ & _ & _ & _ & B) [_ Q] Hi. destruct (B i Hi) as [_ G]. split; [lra|]. specialize (Q i Hi). pose proof (Rmult_le_compat_l (g T i) _ _ (Rlt_le _ _ G) Q) as M.
  replace (g T i * (C T i / g T i)) with (C T i) in M by (field; lra). exact M.
Qed.
Lemma mul_range T h : admissible n eta s0 Rs d nback C g T -> 0 <= h 0%nat <= Rs T -> (forall i, (i < nback)%nat -> g T i * Rabs (h (S i)) <= C T i) -> in_range T h.
Proof.
  intros (_ & _ & _ & _ & _ & B) P Q. split; [exact P|]. intros i Hi. destruct (B i Hi) as [_ G]. apply Rmult_le_reg_l with (g T i); [exact G|].
  replace (g T i * (C T i / g T i)) with (C T i) by (field; lra). auto.
Qed.
(** One backward Euler step of the model, with modulus EE (zero when the stress is prescribed). *)
Definition model_step (EE T dt de s : R) (h : vec) (s' : R) (h' : vec) : Prop :=
  s' - s = EE * (de - dt * the_flow T s' h') /\ h' 0%nat - h 0%nat = dt * (d T * (Rs T - h' 0%nat) * Rabs (the_flow T s' h')) /\
  forall i, (i < nback)%nat -> h' (S i) - h (S i) = dt * (C T i * the_flow T s' h' - g T i * h' (S i) * Rabs (the_flow T s' h')).
Lemma model_vc EE T dt de s h s' h' : model_step EE T dt de s h s' h' <->
  vc_step EE (n T) (eta T) (s0 T) (Rs T) (d T) nback (C T) (g T) dt de s (h 0%nat) (fun i => h (S i)) s' (h' 0%nat) (fun i => h' (S i)).
Proof. reflexivity. Qed.
Lemma model_step_unique EE T dt de s h s1 h1 s2 h2 : 0 <= EE -> 0 <= dt -> admissible n eta s0 Rs d nback C g T -> in_range T h ->
  model_step EE T dt de s h s1 h1 -> model_step EE T dt de s h s2 h2 -> s1 = s2 /\ forall i, (i < S nback)%nat -> h1 i = h2 i.
Proof.
  intros HE Hdt A I S1 S2. pose proof A as (A1 & A2 & A3 & A4 & A5 & A6). apply model_vc in S1, S2.
  destruct (vc_step_unique EE (n T) (eta T) (s0 T) (Rs T) (d T) nback (C T) (g T) dt de s (h 0%nat) (fun i => h (S i)) HE A1 A2 A3 A5 Hdt (proj1 I)
    (fun i => range_mul T h i A I) _ _ _ _ _ _ S1 S2) as (P & Q & X).
  split; [exact P|]. intros [|i] Hi; [exact Q|]. apply X. lia.
Qed.
Lemma model_step_exists EE T dt de s h : 0 <= EE -> 0 <= dt -> admissible n eta s0 Rs d nback C g T -> in_range T h -> {y | model_step EE T dt de s h (fst y) (snd y)}.
Proof.
  intros HE Hdt A I. pose proof A as (A1 & A2 & A3 & A4 & A5 & A6).
  destruct (vc_step_exists EE (n T) (eta T) (s0 T) (Rs T) (d T) nback (C T) (g T) dt de s (h 0%nat) (fun i => h (S i)) HE A1 A2 A3 A5 Hdt (proj1 I) (fun i => range_mul T h i A I)) as (y & Hy).
  exists (fst (fst y), fun i => match i with O => snd (fst y) | S j => snd y j end). apply model_vc. cbn [fst snd]. exact Hy.
Qed.
Lemma model_step_range EE T dt de s h s' h' : 0 <= EE -> 0 <= dt -> admissible n eta s0 Rs d nback C g T -> in_range T h -> model_step EE T dt de s h s' h' -> in_range T h'.
Proof.
  intros HE Hdt A I S1. pose proof A as (A1 & A2 & A3 & A4 & A5 & A6). apply model_vc in S1.
  destruct (vc_step_range EE (n T) (eta T) (s0 T) (Rs T) (d T) nback (C T) (g T) dt de s (h 0%nat) (fun i => h (S i)) A5 Hdt (proj1 I) (fun i => range_mul T h i A I) _ _ _ S1) as (P & Q).
  now apply mul_range.
Qed.
End VC.
