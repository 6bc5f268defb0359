(** Shape of simulated curves of the Voce / Chaboche model: what one backward Euler step does to the signs and the order of things. *)
From Coq Require Import Reals Lra Lia.
From Verif Require Import Torch Slices Deriv Hardening Flow Models VCStep VCHistory.
Local Open Scope R_scope.

Section Shape.
Variables (n eta s0 Rs d : R -> R) (nback : nat) (C g : R -> nat -> R) (T EE : R).
Notation fl := (the_flow n eta s0 nback T).
Notation step := (model_step n eta s0 Rs d nback C g EE T).
Notation adm := (admissible n eta s0 Rs d nback C g T).
Notation rng := (in_range Rs nback C g T).
Definition back (h : vec) : R := sum nback (fun i => h (S i)).
Hypothesis A : adm.
Hypothesis E0 : 0 <= EE.
Lemma kp h : rng h -> 0 <= s0 T + h 0%nat.
Proof. intros [P _]. destruct A as (_ & _ & a & _). lra. Qed.
(** From a state with non-negative shifted stress, loading forward keeps the flow non-negative and lets the hardening grow. *)
Lemma step_forward dt de s h s' h' : 0 <= dt -> rng h -> step dt de s h s' h' -> 0 <= EE * de -> 0 <= s - back h ->
  0 <= fl s' h' /\ 0 <= s' - back h' /\ (forall i, (i < S nback)%nat -> h i <= h' i).
Proof.
  intros Hdt I St Hd Hr. pose proof (model_step_range n eta s0 Rs d nback C g EE T dt de s h s' h' E0 Hdt A I St) as I'.
  pose proof A as (a1 & a2 & a3 & a4 & a5 & a6). destruct St as (S1 & S2 & S3). set (f := fl s' h') in *.
  assert (X : forall i, (i < nback)%nat -> h' (S i) = back_new dt (C T i) (g T i) (h (S i)) f).
  { intros i Hi. apply back_eq; [exact Hdt|destruct (a6 i Hi); lra|]. exact (S3 i Hi). }
  assert (X0 : forall i, (i < nback)%nat -> h (S i) = back_new dt (C T i) (g T i) (h (S i)) 0).
  { intros i Hi. unfold back_new. rewrite Rabs_R0, !Rmult_0_r, !Rplus_0_r. unfold Rdiv. now rewrite Rinv_1, Rmult_1_r. }
  assert (M : forall i f', (i < nback)%nat -> f <= f' -> back_new dt (C T i) (g T i) (h (S i)) f <= back_new dt (C T i) (g T i) (h (S i)) f').
  { intros i f' Hi L. destruct (range_mul n eta s0 Rs d nback C g T h i A I Hi) as [G1 G2]. now apply back_mono. }
  assert (F0 : 0 <= f).
  { destruct (Rlt_le_dec f 0) as [L|L]; [|exact L]. exfalso.
    assert (B : back h' <= back h). { apply sum_mono. intros i Hi. apply Rle_trans with (back_new dt (C T i) (g T i) (h (S i)) 0); [rewrite (X i Hi); apply M; [exact Hi|lra]|right; symmetry; auto]. }
    assert (0 <= EE * (dt * - f)) by (apply Rmult_le_pos; [exact E0|]; apply Rmult_le_pos; lra).
    assert (0 <= s' - back h') by lra. pose proof (flow_nonneg (n T) (eta T) (s0 T + h' 0%nat) _ H0). unfold f, the_flow, back in *. lra. }
  assert (G : forall i, (i < S nback)%nat -> h i <= h' i).
  { intros [|i] Hi.
    - destruct I' as [P' _]. assert (0 <= dt * (d T * (Rs T - h' 0%nat) * Rabs f)) by (apply Rmult_le_pos; [exact Hdt|]; apply Rmult_le_pos; [apply Rmult_le_pos; lra|apply Rabs_pos]). lra.
    - assert (Hi' : (i < nback)%nat) by lia. apply Rle_trans with (back_new dt (C T i) (g T i) (h (S i)) 0); [right; auto|]. rewrite (X i Hi'). destruct (range_mul n eta s0 Rs d nback C g T h i A I Hi') as [G1 G2]. now apply back_mono. }
  split; [exact F0|split; [|exact G]].
  destruct (Rle_lt_or_eq_dec _ _ F0) as [L|L].
  - pose proof (flow_pos_r (n T) (eta T) a1 a2 (s0 T + h' 0%nat) (s' - back h') (kp h' I')) as K. pose proof (kp h' I'). assert (s0 T + h' 0%nat < s' - back h') by (apply K; exact L). lra.
  - assert (B : back h' = back h). { apply sum_ext. intros i Hi. rewrite (X i Hi), <- L. symmetry. now apply X0. }
    rewrite B. rewrite <- L in S1. lra.
Qed.
(** A lower shifted stress and a higher resistance mean a slower flow. *)
Lemma flow_slower s h s' h' : rng h -> rng h' -> (forall i, (i < S nback)%nat -> h i <= h' i) -> s' <= s -> 0 <= s' - back h' -> fl s' h' <= fl s h.
Proof.
  intros I I' M Hs Hr. unfold the_flow. pose proof (kp h I). pose proof (kp h' I'). pose proof A as (a1 & a2 & _).
  apply flow_mono; [exact a1|exact a2| | | |]; auto.
  - pose proof (M 0%nat ltac:(lia)). lra.
  - assert (back h <= back h') by (apply sum_mono; intros i Hi; apply M; lia). unfold back in *. lra.
Qed.

Section Curve.
(** increments of time and of imposed strain, stress before (sp) and after (s) each step, hardening variables *)
Variables (N : nat) (dt de s sp : nat -> R) (h : nat -> vec).
Hypothesis dtp : forall k, (0 < k)%nat -> (k < N)%nat -> 0 <= dt k.
Hypothesis st : forall k, (0 < k)%nat -> (k < N)%nat -> step (dt k) (de k) (sp k) (h (pred k)) (s k) (h k).
Hypothesis h0 : rng (h 0%nat).
Hypothesis r0 : 0 <= s 0%nat - back (h 0%nat).
Hypothesis fwd : forall k, (0 < k)%nat -> (k < N)%nat -> 0 <= EE * de k /\ s (pred k) <= sp k.
Lemma curve_inv k : (k < N)%nat -> rng (h k) /\ 0 <= s k - back (h k).
Proof.
  induction k as [|k IH]; intros Hk; [auto|]. destruct (IH ltac:(lia)) as [I Hr]. pose proof (st (S k) ltac:(lia) Hk) as S1. pose proof (dtp (S k) ltac:(lia) Hk) as D.
  destruct (fwd (S k) ltac:(lia) Hk) as [F1 F2]. cbn [pred] in *.
  destruct (step_forward (dt (S k)) (de (S k)) (sp (S k)) (h k) (s (S k)) (h (S k)) D I S1 F1 ltac:(lra)) as (P & Q & M).
  split; [|exact Q]. exact (model_step_range n eta s0 Rs d nback C g EE T _ _ _ _ _ _ E0 D A I S1).
Qed.
Lemma curve_step k : (0 < k)%nat -> (k < N)%nat -> 0 <= fl (s k) (h k) /\ forall i, (i < S nback)%nat -> h (pred k) i <= h k i.
Proof.
  intros K0 Hk. destruct (curve_inv (pred k) ltac:(lia)) as [I Hr]. destruct (fwd k K0 Hk) as [F1 F2].
  destruct (step_forward (dt k) (de k) (sp k) (h (pred k)) (s k) (h k) (dtp k K0 Hk) I (st k K0 Hk) F1 ltac:(lra)) as (P & _ & M). now split.
Qed.
Lemma curve_slower k : (0 < k)%nat -> (k < N)%nat -> s k <= s (pred k) -> fl (s k) (h k) <= fl (s (pred k)) (h (pred k)).
Proof.
  intros K0 Hk L. destruct (curve_inv (pred k) ltac:(lia)) as [I _]. destruct (curve_inv k Hk) as [I' Hr']. destruct (curve_step k K0 Hk) as [_ M].
  now apply flow_slower.
Qed.
(** Monotonic loading at a strain rate that does not decrease: the flow never exceeds the imposed rate. *)
Lemma curve_tension (rate : nat -> R) : (forall k, (0 < k)%nat -> (k < N)%nat -> sp k = s (pred k) /\ de k = dt k * rate k) ->
  (forall k, (0 < k)%nat -> (S k < N)%nat -> rate k <= rate (S k)) -> ((1 < N)%nat -> fl (s 0%nat) (h 0%nat) <= rate 1%nat) ->
  forall k, (0 < k)%nat -> (k < N)%nat -> fl (s k) (h k) <= rate k.
Proof.
  intros Hs Hm Hi k K0 Hk.
  assert (G : forall k b, (0 < k)%nat -> (k < N)%nat -> fl (s (pred k)) (h (pred k)) <= b -> b <= rate k -> fl (s k) (h k) <= rate k).
  { clear k K0 Hk. intros k b K0 Hk Hb Hr. destruct (Rle_lt_dec (fl (s k) (h k)) (rate k)) as [L|L]; [exact L|]. destruct (Hs k K0 Hk) as [S1 S2].
    destruct (st k K0 Hk) as (Q & _). rewrite S1, S2 in Q.
    assert (Z : 0 <= EE * (dt k * (fl (s k) (h k) - rate k))) by (apply Rmult_le_pos; [exact E0|]; apply Rmult_le_pos; [auto|lra]).
    pose proof (curve_slower k K0 Hk ltac:(lra)). lra. }
  induction k as [|k IH]; [lia|]. destruct k as [|k].
  - apply (G 1%nat (rate 1%nat)); auto; try lia; try lra.
  - apply (G (S (S k)) (rate (S k))); auto; try lia; [cbn [pred]; apply IH; lia|apply Hm; lia].
Qed.
End Curve.
Lemma flow_rest s h : s - back h = 0 -> fl s h = 0.
Proof. intros H. unfold the_flow, flow. change (sum nback (fun i => h (S i))) with (back h). rewrite H, tsign_0. ring. Qed.
End Shape.
