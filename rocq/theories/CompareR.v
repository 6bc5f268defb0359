(** Comparison of two backward Euler steps of perfect viscoplasticity.  (No code is modelled here.) *)
From Coq Require Import Reals Lra Lia.
From Verif Require Import Torch PipelineR.
Local Open Scope R_scope.

Definition pvf (n eta s : R) : R := pow0 (Rabs s / eta) n * tsign s.

Lemma pvf_0 n eta : pvf n eta 0 = 0.
Proof. unfold pvf. rewrite tsign_0. ring. Qed.
Lemma pvf_mono n eta s s' : 0 < eta -> 0 < n -> s <= s' -> pvf n eta s <= pvf n eta s'.
Proof. apply pv_rate_mono. Qed.
Lemma pvf_pos n eta s : 0 < eta -> 0 < n -> 0 <= s -> 0 <= pvf n eta s.
Proof. intros. rewrite <- (pvf_0 n eta). now apply pvf_mono. Qed.
Lemma pvf_neg n eta s : 0 < eta -> 0 < n -> s <= 0 -> pvf n eta s <= 0.
Proof. intros. rewrite <- (pvf_0 n eta). now apply pvf_mono. Qed.
(** a weaker material flows faster in tension *)
Lemma pvf_weaker n eta eta' s : 0 < eta -> 0 < n -> eta <= eta' -> 0 <= s -> pvf n eta' s <= pvf n eta s.
Proof.
  intros He Hn L [Hs| <-]; [|rewrite !pvf_0; lra]. unfold pvf. rewrite tsign_pos by lra. rewrite !Rmult_1_r.
  apply pow0_mono; auto.
  - apply Rmult_le_pos; [apply Rabs_pos|]. left. apply Rinv_0_lt_compat. lra.
  - unfold Rdiv. apply Rmult_le_compat_l; [apply Rabs_pos|]. apply Rinv_le_contravar; lra.
Qed.

Definition near_step (E n eta dt de z s tol : R) : Prop := Rabs (s - z - E * (de - dt * pvf n eta s)) <= tol.
Lemma near_lo E n eta dt de z s tol : near_step E n eta dt de z s tol -> z + E * de - E * dt * pvf n eta s - tol <= s <= z + E * de - E * dt * pvf n eta s + tol.
Proof.
  unfold near_step. set (x := s - z - _). intros H. pose proof (Rle_abs x). pose proof (Rle_abs (- x)) as Q. rewrite Rabs_Ropp in Q.
  assert (s = z + E * de - E * dt * pvf n eta s + x) by (unfold x; ring). lra.
Qed.
(** the same material and time step, a larger strain increment *)
Lemma step_more_strain E n eta dt de de' z z' s s' tol tol' d : 0 < E -> 0 < n -> 0 < eta -> 0 <= dt -> de <= de' -> 0 <= d -> z <= z' + d ->
  near_step E n eta dt de z s tol -> near_step E n eta dt de' z' s' tol' -> s <= s' + (d + (tol + tol')).
Proof.
  intros HE Hn He Hd L D Hz H H'.
  assert (0 <= tol) by (apply Rle_trans with (2 := H); apply Rabs_pos). assert (0 <= tol') by (apply Rle_trans with (2 := H'); apply Rabs_pos).
  apply near_lo in H. apply near_lo in H'. destruct (Rle_dec s s') as [S|S]; [lra|].
  assert (M : pvf n eta s' <= pvf n eta s) by (apply pvf_mono; lra).
  assert (E * dt * pvf n eta s' <= E * dt * pvf n eta s) by (apply Rmult_le_compat_l; [apply Rmult_le_pos; lra|auto]).
  assert (E * de <= E * de') by (apply Rmult_le_compat_l; lra). lra.
Qed.
(** in tension the stress does not become compressive *)
Lemma step_tension E n eta dt de z s tol d : 0 < E -> 0 < n -> 0 < eta -> 0 <= dt -> 0 <= de -> 0 <= d -> - d <= z ->
  near_step E n eta dt de z s tol -> - (d + tol) <= s.
Proof.
  intros HE Hn He Hd L D Hz H. assert (0 <= tol) by (apply Rle_trans with (2 := H); apply Rabs_pos).
  apply near_lo in H. destruct (Rle_dec 0 s) as [S|S]; [lra|].
  assert (M : pvf n eta s <= 0) by (apply pvf_neg; lra).
  assert (E * dt * pvf n eta s <= E * dt * 0) by (apply Rmult_le_compat_l; [apply Rmult_le_pos; lra|auto]).
  assert (0 <= E * de) by (apply Rmult_le_pos; lra). lra.
Qed.
(** in tension: a larger strain increment, in less time, on a stronger material *)
Lemma step_stronger E n eta eta' dt dt' de de' z z' s s' tol tol' d d' : 0 < E -> 0 < n -> 0 < eta -> eta <= eta' -> 0 <= dt' -> dt' <= dt -> de <= de' -> 0 <= de' ->
  0 <= d' -> d' <= d -> - d' <= z' -> z <= z' + d ->
  near_step E n eta dt de z s tol -> near_step E n eta' dt' de' z' s' tol' -> s <= s' + (d + (tol + tol')).
Proof.
  intros HE Hn He Le Hd Ld L De D D' Ht Hz H H'.
  assert (0 <= tol) by (apply Rle_trans with (2 := H); apply Rabs_pos). assert (0 <= tol') by (apply Rle_trans with (2 := H'); apply Rabs_pos).
  assert (He' : 0 < eta') by lra.
  pose proof (step_tension _ _ _ _ _ _ _ _ _ HE Hn He' Hd De D Ht H') as T.
  apply near_lo in H. apply near_lo in H'. destruct (Rle_dec s s') as [S|S]; [lra|].
  destruct (Rle_dec s 0) as [S0|S0]; [lra|].
  assert (M : dt' * pvf n eta' s' <= dt * pvf n eta s).
  { assert (F0 : 0 <= pvf n eta s) by (apply pvf_pos; lra).
    assert (F1 : pvf n eta' s' <= pvf n eta s).
    { apply Rle_trans with (pvf n eta' s); [apply pvf_mono; lra|apply pvf_weaker; lra]. }
    apply Rle_trans with (dt' * pvf n eta s); [apply Rmult_le_compat_l; auto|apply Rmult_le_compat_r; auto]. }
  assert (E * (dt' * pvf n eta' s') <= E * (dt * pvf n eta s)) by (apply Rmult_le_compat_l; lra).
  assert (E * de <= E * de') by (apply Rmult_le_compat_l; lra). lra.
Qed.

(** creep: the strain of two tests, step by step *)
Lemma creep_more E E' n eta eta' dt dt' sg sg' : 0 < E' -> E' <= E -> 0 < n -> 0 < eta' -> eta' <= eta -> 0 <= dt -> dt <= dt' -> sg <= sg' -> 0 <= sg' ->
  dt * pvf n eta sg <= dt' * pvf n eta' sg'.
Proof.
  intros HE LE Hn He Le Hd Ld L S. assert (F0 : 0 <= pvf n eta' sg') by (apply pvf_pos; lra).
  assert (F1 : pvf n eta sg <= pvf n eta' sg').
  { apply Rle_trans with (pvf n eta sg'); [apply pvf_mono; lra|apply pvf_weaker; lra]. }
  apply Rle_trans with (dt * pvf n eta' sg'); [apply Rmult_le_compat_l; auto|apply Rmult_le_compat_r; auto].
Qed.
Lemma creep_step E dt f ds a x tol : 0 < E -> Rabs (a - x - (ds / E + dt * f)) <= tol -> x + ds / E + dt * f - tol <= a <= x + ds / E + dt * f + tol.
Proof.
  intros HE. set (y := a - x - _). intros H. pose proof (Rle_abs y). pose proof (Rle_abs (- y)) as Q. rewrite Rabs_Ropp in Q.
  assert (a = x + ds / E + dt * f + y) by (unfold y; ring). lra.
Qed.
Lemma creep_combine e e' q q' a x a' x' s1 s0 s1' s0' F F' t1 t0 ti t1' t0' ti' k tol tol' :
  x - s0 / e <= x' - s0' / e' + ((t0 - ti) / q + (t0' - ti') / q' + k * (tol + tol')) ->
  a <= x + (s1 - s0) / e + F + ((t1 - t0) / q + tol) -> x' + (s1' - s0') / e' + F' - ((t1' - t0') / q' + tol') <= a' -> F <= F' ->
  a - s1 / e <= a' - s1' / e' + ((t1 - ti) / q + (t1' - ti') / q' + (k + 1) * (tol + tol')).
Proof.
  unfold Rdiv, Rminus. rewrite !Rmult_plus_distr_r, <- !Ropp_mult_distr_l. lra.
Qed.
