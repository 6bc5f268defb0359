(** Standard-library side of Pipeline.v: interpolation at the knots and single
    backward Euler steps of perfect viscoplasticity. *)
From Coq Require Import Reals Lra Lia List Arith.
From Verif Require Import Torch Deriv Slices Hardening Flow Interp.
Import ListNotations.
Local Open Scope R_scope.

Lemma select_knot nt times values b k : increasing nt (fun i => times i b) -> (2 <= nt)%nat -> (k < nt)%nat ->
  hd 0 (select nt times values b (times k b)) = values k b.
Proof.
  intros HI Hn Hk. destruct (select_in nt times values Hn b (times k b) HI) as (y & E & Hy).
  - split; cbv beta; apply (increasing_le nt (fun i => times i b)); auto; lia.
  - rewrite E. simpl. exact (interpolates_node nt (fun i => times i b) (fun i => values i b) k y HI Hn Hk Hy).
Qed.

(** s - z = E (de - dt * flow(s)) *)
Definition pv_step (E n eta dt de z s : R) : Prop := s - z = E * (de - dt * (pow0 (Rabs s / eta) n * tsign s)).

Lemma pv_rate_pos n eta s : 0 < eta -> 0 < s -> pow0 (Rabs s / eta) n * tsign s = Rpower (s / eta) n.
Proof.
  intros He Hs. rewrite tsign_pos, Rabs_right by lra. rewrite pow0_pos by now apply Rdiv_lt_0_compat. ring.
Qed.
Lemma pv_rate_odd n eta s : pow0 (Rabs (- s) / eta) n * tsign (- s) = - (pow0 (Rabs s / eta) n * tsign s).
Proof.
  rewrite Rabs_Ropp. destruct (Rtotal_order s 0) as [H|[->|H]].
  - rewrite (tsign_neg s), tsign_pos by lra. ring.
  - rewrite Ropp_0, tsign_0. ring.
  - rewrite (tsign_pos s), tsign_neg by lra. ring.
Qed.
Lemma pv_rate_mono n eta s s' : 0 < eta -> 0 < n -> s <= s' ->
  pow0 (Rabs s / eta) n * tsign s <= pow0 (Rabs s' / eta) n * tsign s'.
Proof.
  intros He Hn H.
  assert (P : forall x, 0 <= x -> 0 <= pow0 (Rabs x / eta) n * tsign x).
  { intros x [Hx| <-]; [rewrite tsign_pos by lra; pose proof (pow0_ge0 (Rabs x / eta) n); lra|rewrite tsign_0; lra]. }
  assert (M : forall x y, 0 <= x -> x <= y -> pow0 (Rabs x / eta) n * tsign x <= pow0 (Rabs y / eta) n * tsign y).
  { intros x y [Hx| <-] Hxy; [|rewrite tsign_0, Rmult_0_r; auto].
    rewrite !tsign_pos, !Rmult_1_r by lra. rewrite !Rabs_right by lra. apply pow0_mono; auto.
    - apply Rmult_le_pos; [lra|left; now apply Rinv_0_lt_compat].
    - apply Rmult_le_compat_r; [left; now apply Rinv_0_lt_compat|auto]. }
  destruct (Rle_dec 0 s); [auto|]. destruct (Rle_dec 0 s').
  - pose proof (P s' r). pose proof (P (- s)) as Q. rewrite pv_rate_odd in Q. lra.
  - pose proof (M (- s') (- s)) as Q. rewrite !pv_rate_odd in Q. lra.
Qed.
Lemma pv_unique E n eta dt de z s s' : 0 <= E -> 0 < n -> 0 < eta -> 0 <= dt ->
  pv_step E n eta dt de z s -> pv_step E n eta dt de z s' -> s = s'.
Proof.
  intros HE Hn He Hd H H'. unfold pv_step in *.
  set (f := pow0 (Rabs s / eta) n * tsign s) in *. set (f' := pow0 (Rabs s' / eta) n * tsign s') in *.
  assert (ED : 0 <= E * dt) by now apply Rmult_le_pos.
  assert (Q : s - s' = - (E * dt) * (f - f')) by lra.
  destruct (Rtotal_order s s') as [L|[|L]]; auto; exfalso.
  - assert (f <= f') by (apply pv_rate_mono; lra). nra.
  - assert (f' <= f) by (apply pv_rate_mono; lra). nra.
Qed.
(** the stress moves towards zero or is bounded by the steady flow stress *)
Lemma pv_bound_pos E n eta dt de z s : 0 < E -> 0 < n -> 0 < eta -> 0 < dt -> pv_step E n eta dt de z s ->
  0 < s -> z < s -> 0 < de /\ s <= eta * Rpower (de / dt) (/ n).
Proof.
  intros HE Hn He Hd H Hs Hz. unfold pv_step in H. rewrite pv_rate_pos in H by auto.
  assert (P : 0 < Rpower (s / eta) n) by apply exp_pos.
  assert (Q : 0 < de - dt * Rpower (s / eta) n) by (apply (Rmult_lt_reg_l E); lra).
  assert (Q2 : dt * Rpower (s / eta) n < de) by lra.
  assert (0 < dt * Rpower (s / eta) n) by now apply Rmult_lt_0_compat.
  split; [lra|].
  assert (Q3 : Rpower (s / eta) n < de / dt). { apply (Rmult_lt_reg_l dt); auto. unfold Rdiv. field_simplify; lra. }
  assert (Q4 : Rpower (Rpower (s / eta) n) (/ n) <= Rpower (de / dt) (/ n)).
  { apply Rpower_mono_base; try lra. left. now apply Rinv_0_lt_compat. }
  rewrite Rpower_mult, Rinv_r, Rpower_1 in Q4; [|now apply Rdiv_lt_0_compat|lra].
  apply (Rmult_le_compat_l eta) in Q4; [|lra]. replace (eta * (s / eta)) with s in Q4 by (field; lra). exact Q4.
Qed.
Lemma pv_bound E n eta dt de z s : 0 < E -> 0 < n -> 0 < eta -> 0 < dt -> pv_step E n eta dt de z s ->
  Rabs s <= Rabs z \/ Rabs s <= eta * pow0 (Rabs de / dt) (/ n).
Proof.
  intros HE Hn He Hd H.
  assert (K : forall z s de, pv_step E n eta dt de z s -> 0 < s -> Rabs s <= Rabs z \/ Rabs s <= eta * pow0 (Rabs de / dt) (/ n)).
  { clear z s de H. intros z s de H Hs. destruct (Rle_dec s z).
    - left. rewrite !Rabs_right by lra. auto.
    - right. destruct (pv_bound_pos E n eta dt de z s) as [Q1 Q2]; auto; try lra.
      rewrite !Rabs_right by lra. rewrite pow0_pos by (apply Rdiv_lt_0_compat; lra). auto. }
  destruct (Rtotal_order s 0) as [L|[->|L]].
  - destruct (K (- z) (- s) (- de)) as [Q|Q].
    + unfold pv_step in *. rewrite pv_rate_odd. lra.
    + lra.
    + left. now rewrite !Rabs_Ropp in Q.
    + right. now rewrite !Rabs_Ropp in Q.
  - left. rewrite Rabs_R0. apply Rabs_pos.
  - auto.
Qed.

(** no strain increment: the stress relaxes without changing sign *)
Lemma pv_relax E n eta dt z s : 0 < E -> 0 < n -> 0 < eta -> 0 < dt -> pv_step E n eta dt 0 z s -> Rabs s <= Rabs z /\ 0 <= s * z.
Proof.
  intros HE Hn He Hd H. unfold pv_step in H.
  assert (ED : 0 < E * dt) by now apply Rmult_lt_0_compat.
  set (f := pow0 (Rabs s / eta) n * tsign s) in *. assert (Q : z = s + (E * dt) * f) by lra.
  destruct (Rtotal_order s 0) as [L|[->|L]].
  - assert (f <= 0). { unfold f. rewrite tsign_neg by lra. pose proof (pow0_ge0 (Rabs s / eta) n). lra. }
    assert (z <= s) by nra. rewrite !Rabs_left1 by lra. split; [lra|nra].
  - rewrite Rabs_R0. split; [apply Rabs_pos|lra].
  - assert (0 <= f). { unfold f. rewrite tsign_pos by lra. pose proof (pow0_ge0 (Rabs s / eta) n). lra. }
    assert (s <= z) by nra. rewrite !Rabs_right by lra. split; [lra|nra].
Qed.
Lemma pv_linear eta s : 0 < eta -> pow0 (Rabs s / eta) 1 * tsign s = / eta * s.
Proof.
  intros He. assert (0 < / eta) by now apply Rinv_0_lt_compat.
  rewrite pow0_1.
  - replace (Rabs s / eta * tsign s) with (/ eta * (Rabs s * tsign s)) by (field; lra). now rewrite abs_tsign.
  - apply Rmult_le_pos; [apply Rabs_pos|lra].
Qed.
Lemma pv_linear_ds eta s : 0 < eta -> 1 * pow0 (Rabs s / eta) (1 - 1) / eta = / eta.
Proof.
  intros He. replace (1 - 1) with 0 by ring. unfold pow0. destruct (Rlt_dec 0 _).
  - rewrite Rpower_O by auto. field. lra.
  - destruct (Req_EM_T 0 0); [field; lra|lra].
Qed.
