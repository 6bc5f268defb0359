(** Steps of the viscoplastic models solved to a tolerance (companion of FullModel.v). *)
From Coq Require Import Reals Lra Lia.
From Verif Require Import Torch Deriv Hardening Flow Slices PipelineR FullModel.
Local Open Scope R_scope.

Lemma abs_between x a : Rabs x <= a -> - a <= x <= a.
Proof. intros H. unfold Rabs in H. destruct (Rcase_abs x); lra. Qed.
Lemma voce_step_tol dt d Rs M ep h h' a tol : 0 <= dt -> 0 <= d -> 0 <= Rs <= M -> 0 <= a -> 0 <= tol ->
  Rabs (h' - h - dt * (d * (Rs - h') * Rabs ep)) <= tol -> - a <= h <= M + a -> - (a + tol) <= h' <= M + (a + tol).
Proof.
  intros Hdt Hd HR Ha Ht E H. set (k := dt * d * Rabs ep).
  assert (Hk : 0 <= k) by (unfold k; repeat apply Rmult_le_pos; auto; apply Rabs_pos).
  apply abs_between in E. replace (dt * (d * (Rs - h') * Rabs ep)) with (k * Rs - k * h') in E by (unfold k; ring).
  assert (0 <= k * Rs) by (apply Rmult_le_pos; lra). assert (k * Rs <= k * M) by (apply Rmult_le_compat_l; lra).
  assert (0 <= k * (a + tol)) by (apply Rmult_le_pos; lra).
  split; apply (Rmult_le_reg_l (1 + k)); lra.
Qed.
Lemma back_step_tol dt C q M ep x x' tol a : 0 <= dt -> 0 <= C -> 0 <= q -> C * Rabs ep <= q * M -> 0 <= tol -> 0 <= a ->
  Rabs (x' - x - dt * (C * ep - q * x')) <= tol -> Rabs x <= M + a -> Rabs x' <= M + (a + tol).
Proof.
  intros Hdt HC Hq HM Ht Ha E H. assert (Hk : 0 <= dt * q) by now apply Rmult_le_pos.
  set (r := x' - x - dt * (C * ep - q * x')) in *.
  assert (F : (1 + dt * q) * x' = x + dt * (C * ep) + r) by (unfold r; ring).
  apply (Rmult_le_reg_l (1 + dt * q)); [lra|]. rewrite <- (Rabs_right (1 + dt * q)) at 1 by lra. rewrite <- Rabs_mult, F.
  eapply Rle_trans; [apply Rabs_triang|]. eapply Rle_trans; [apply Rplus_le_compat_r, Rabs_triang|].
  rewrite !Rabs_mult, (Rabs_right dt), (Rabs_right C) by lra.
  assert (dt * (C * Rabs ep) <= dt * (q * M)) by now apply Rmult_le_compat_l.
  assert (0 <= dt * q * (a + tol)) by (apply Rmult_le_pos; lra). lra.
Qed.
Lemma vp_bound_tol E dt n eta k X de s s' tol : 0 < E -> 0 < n -> 0 < eta -> 0 < dt -> 0 <= k -> 0 <= tol ->
  Rabs (s' - s - E * (de - dt * (pow0 (mac ((Rabs (s' - X) - k) / eta)) n * tsign (s' - X)))) <= tol ->
  Rabs s' <= Rabs s \/ Rabs s' <= Rabs X + k + eta * pow0 ((Rabs de + tol / E) / dt) (/ n).
Proof.
  intros HE Hn He Hd Hk Ht H. set (f := pow0 _ n * tsign _) in *. set (r := s' - s - E * (de - dt * f)) in *.
  destruct (vp_bound E dt n eta k X (de + r / E) s s') as [L|L]; auto.
  { fold f. unfold r. field. lra. }
  right. eapply Rle_trans; [exact L|]. apply Rplus_le_compat_l, Rmult_le_compat_l; [lra|]. apply pow0_mono.
  - apply Rmult_le_pos; [apply Rabs_pos|left; now apply Rinv_0_lt_compat].
  - apply Rmult_le_compat_r; [left; now apply Rinv_0_lt_compat|]. eapply Rle_trans; [apply Rabs_triang|]. apply Rplus_le_compat_l.
    unfold Rdiv. rewrite Rabs_mult, (Rabs_right (/ E)) by (left; now apply Rinv_0_lt_compat). apply Rmult_le_compat_r; auto. left. now apply Rinv_0_lt_compat.
  - now apply Rinv_0_lt_compat.
Qed.
(** energy of a step solved to a tolerance *)
Lemma prod_le a r t : Rabs r <= t -> a * r <= Rabs a * t.
Proof. intros H. eapply Rle_trans; [apply Rle_abs|]. rewrite Rabs_mult. apply Rmult_le_compat_l; auto. apply Rabs_pos. Qed.
Lemma step_energy_tol E nb (C q x x' : nat -> R) dt s s' de ep tol : 0 < E -> 0 <= dt -> (forall i, (i < nb)%nat -> 0 < C i /\ 0 <= q i) ->
  Rabs (s' - s - E * (de - dt * ep)) <= tol -> 0 <= (s' - sum nb x') * ep -> (forall i, (i < nb)%nat -> Rabs (x' i - x i - dt * (C i * ep - q i * x' i)) <= tol) ->
  (s' * s' / (2 * E) + sum nb (fun i => x' i * x' i / (2 * C i))) - (s * s / (2 * E) + sum nb (fun i => x i * x i / (2 * C i)))
    <= s' * de + tol * (Rabs s' / E + sum nb (fun i => Rabs (x' i) / C i)).
Proof.
  intros HE Hdt HC Hs D Hx. assert (IE : 0 < / E) by now apply Rinv_0_lt_compat.
  assert (A : s' * s' / (2 * E) - s * s / (2 * E) <= s' * de - dt * (s' * ep) + tol * (Rabs s' / E)).
  { pose proof (half_square s' s E HE) as Q. set (r := s' - s - E * (de - dt * ep)) in *.
    replace (s' * (s' - s) / E) with (s' * de - dt * (s' * ep) + (s' * r) * / E) in Q by (unfold r; field; lra).
    assert (s' * r * / E <= Rabs s' * tol * / E) by (apply Rmult_le_compat_r; [lra|now apply prod_le]). unfold Rdiv in *. lra. }
  assert (B : sum nb (fun i => x' i * x' i / (2 * C i)) - sum nb (fun i => x i * x i / (2 * C i)) <= dt * (sum nb x' * ep) + tol * sum nb (fun i => Rabs (x' i) / C i)).
  { rewrite <- fsum_minus. replace (dt * (sum nb x' * ep)) with ((dt * ep) * sum nb x') by ring. rewrite <- !fsum_scal, <- sum_plus. apply fsum_le. intros i Hi. destruct (HC i Hi) as [C0 q0].
    assert (IC : 0 < / C i) by now apply Rinv_0_lt_compat.
    pose proof (half_square (x' i) (x i) (C i) C0) as Q. specialize (Hx i Hi). set (r := x' i - x i - dt * (C i * ep - q i * x' i)) in *.
    replace (x' i * (x' i - x i) / C i) with (dt * ep * x' i - dt * q i * (x' i * x' i) / C i + (x' i * r) * / C i) in Q by (unfold r; field; lra).
    assert (0 <= dt * q i * (x' i * x' i) / C i). { apply Rmult_le_pos; [|lra]. apply Rmult_le_pos; [now apply Rmult_le_pos|]. apply Rle_0_sqr. }
    assert (x' i * r * / C i <= Rabs (x' i) * tol * / C i) by (apply Rmult_le_compat_r; [lra|now apply prod_le]). unfold Rdiv in *. lra. }
  assert (0 <= dt * ((s' - sum nb x') * ep)) by now apply Rmult_le_pos. lra.
Qed.
