(** Standard-library side of the tolerance theorems: single perturbed steps.  (No code is modelled here.) *)
From Coq Require Import Reals Lra Lia.
From Verif Require Import Torch PipelineR.
Local Open Scope R_scope.

(** a perturbed viscoplastic step is an exact one for a slightly different strain increment *)
Lemma pv_perturbed E n eta dt de z s tol : 0 < E ->
  Rabs (s - z - E * (de - dt * (pow0 (Rabs s / eta) n * tsign s))) <= tol ->
  exists de', Rabs de' <= Rabs de + tol / E /\ pv_step E n eta dt de' z s.
Proof.
  intros HE H. set (f := pow0 (Rabs s / eta) n * tsign s) in *.
  set (r := s - z - E * (de - dt * f)) in *. exists (de + r / E). split.
  - apply Rle_trans with (1 := Rabs_triang _ _). apply Rplus_le_compat_l. unfold Rdiv. rewrite Rabs_mult.
    rewrite (Rabs_right (/ E)) by (left; now apply Rinv_0_lt_compat).
    apply Rmult_le_compat_r; [left; now apply Rinv_0_lt_compat|auto].
  - unfold pv_step. fold f. unfold r. field. lra.
Qed.
Lemma pv_bound_tol E n eta dt de z s tol : 0 < E -> 0 < n -> 0 < eta -> 0 < dt ->
  Rabs (s - z - E * (de - dt * (pow0 (Rabs s / eta) n * tsign s))) <= tol ->
  Rabs s <= Rabs z \/ Rabs s <= eta * pow0 ((Rabs de + tol / E) / dt) (/ n).
Proof.
  intros HE Hn He Hd H. destruct (pv_perturbed _ _ _ _ _ _ _ _ HE H) as (de' & L & P).
  destruct (pv_bound _ _ _ _ _ _ _ HE Hn He Hd P) as [Q|Q]; [left; auto|right].
  apply Rle_trans with (1 := Q). apply Rmult_le_compat_l; [lra|]. apply pow0_mono.
  - apply Rmult_le_pos; [apply Rabs_pos|left; now apply Rinv_0_lt_compat].
  - apply Rmult_le_compat_r; [left; now apply Rinv_0_lt_compat|auto].
  - now apply Rinv_0_lt_compat.
Qed.
(** two perturbed steps *)
Lemma pv_two_tol E n eta dt de z z' s s' tol tol' : 0 < E -> 0 < n -> 0 < eta -> 0 <= dt ->
  Rabs (s - z - E * (de - dt * (pow0 (Rabs s / eta) n * tsign s))) <= tol ->
  Rabs (s' - z' - E * (de - dt * (pow0 (Rabs s' / eta) n * tsign s'))) <= tol' ->
  Rabs (s - s') <= Rabs (z - z') + (tol + tol').
Proof.
  intros HE Hn He Hd H H'.
  assert (ED : 0 <= E * dt) by (apply Rmult_le_pos; lra).
  pose proof (pv_rate_mono n eta s s' He Hn) as M1. pose proof (pv_rate_mono n eta s' s He Hn) as M2.
  set (f := pow0 (Rabs s / eta) n * tsign s) in *. set (f' := pow0 (Rabs s' / eta) n * tsign s') in *.
  replace (s - z - E * (de - dt * f)) with (s - z - E * de + E * dt * f) in H by ring.
  replace (s' - z' - E * (de - dt * f')) with (s' - z' - E * de + E * dt * f') in H' by ring.
  assert (K : forall x t, Rabs x <= t -> - t <= x <= t).
  { intros x t Hx. pose proof (Rle_abs x). pose proof (Rle_abs (- x)) as Q. rewrite Rabs_Ropp in Q. lra. }
  apply K in H. apply K in H'. destruct H as [A A2], H' as [B B2].
  assert (Z1 := Rle_abs (z - z')). assert (Z2 := Rle_abs (- (z - z'))). rewrite Rabs_Ropp in Z2.
  apply Rabs_le. destruct (Rle_dec s s') as [L|L].
  - specialize (M1 L). assert (E * dt * f <= E * dt * f') by now apply Rmult_le_compat_l. lra.
  - assert (L' : s' <= s) by lra. specialize (M2 L'). assert (E * dt * f' <= E * dt * f) by now apply Rmult_le_compat_l. lra.
Qed.
Lemma strain_increment_tol E dt e a x f sl ds tol : 0 < E -> 0 < dt -> sl = ds / dt ->
  Rabs (E * (e - f) - sl) <= / 10 ^ 10 -> Rabs (a - x - dt * e) <= tol ->
  Rabs (a - x - (ds / E + dt * f)) <= dt / (10 ^ 10 * E) + tol.
Proof.
  intros HE Hd -> H1 H2.
  replace (a - x - (ds / E + dt * f)) with (dt / E * (E * (e - f) - ds / dt) + (a - x - dt * e)) by (field; lra).
  apply Rle_trans with (1 := Rabs_triang _ _). apply Rplus_le_compat; [|auto].
  rewrite Rabs_mult, (Rabs_right (dt / E)) by (left; now apply Rdiv_lt_0_compat).
  replace (dt / (10 ^ 10 * E)) with (dt / E * / 10 ^ 10) by (field; lra).
  apply Rmult_le_compat_l; [left; now apply Rdiv_lt_0_compat|auto].
Qed.
Lemma sum_tol E dt dt' a b c c0 d k tol : 0 < E ->
  Rabs (b - (c - c0) / E) <= dt / (10 ^ 10 * E) + k * tol -> Rabs (a - b - ((d - c) / E + dt' * 0)) <= dt' / (10 ^ 10 * E) + tol ->
  Rabs (a - (d - c0) / E) <= (dt + dt') / (10 ^ 10 * E) + (k + 1) * tol.
Proof.
  intros HE H1 H2. replace (a - (d - c0) / E) with ((b - (c - c0) / E) + (a - b - ((d - c) / E + dt' * 0))) by (field; lra).
  apply Rle_trans with (1 := Rabs_triang _ _). unfold Rdiv in *. rewrite Rmult_plus_distr_r. lra.
Qed.
Lemma creep_sum_tol E dt dt' a b b0 p k tol : 0 < E ->
  Rabs (b - b0 - dt * p) <= dt / (10 ^ 10 * E) + k * tol -> Rabs (a - b - (0 / E + dt' * p)) <= dt' / (10 ^ 10 * E) + tol ->
  Rabs (a - b0 - (dt + dt') * p) <= (dt + dt') / (10 ^ 10 * E) + (k + 1) * tol.
Proof.
  intros HE H1 H2. replace (a - b0 - (dt + dt') * p) with ((b - b0 - dt * p) + (a - b - (0 / E + dt' * p))) by (field; lra).
  apply Rle_trans with (1 := Rabs_triang _ _). unfold Rdiv in *. rewrite Rmult_plus_distr_r. lra.
Qed.
