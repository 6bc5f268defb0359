(** Explicit relaxation steps of perfect viscoplasticity.  (No code is modelled here.) *)
From Coq Require Import Reals Lra Lia.
From Verif Require Import Torch PipelineR CompareR.
Local Open Scope R_scope.

(** the flow per unit of stress grows with the stress *)
Lemma flow_ratio n eta x y : 1 <= n -> 0 < eta -> 0 < x -> x <= y -> pow0 (x / eta) n * y <= pow0 (y / eta) n * x.
Proof.
  intros Hn He Hx L. assert (Hy : 0 < y) by lra.
  rewrite !pow0_pos by now apply Rdiv_lt_0_compat.
  assert (S : forall z, 0 < z -> Rpower (z / eta) n = Rpower (z / eta) (n - 1) * (z / eta)).
  { intros z Hz. rewrite <- (Rpower_1 (z / eta)) at 3 by now apply Rdiv_lt_0_compat. rewrite <- Rpower_plus. f_equal. lra. }
  rewrite !S by auto.
  assert (M : Rpower (x / eta) (n - 1) <= Rpower (y / eta) (n - 1)).
  { apply Rle_Rpower_l; [lra|]. split; [now apply Rdiv_lt_0_compat|]. apply Rmult_le_compat_r; [left; now apply Rinv_0_lt_compat|auto]. }
  replace (Rpower (x / eta) (n - 1) * (x / eta) * y) with (Rpower (x / eta) (n - 1) * (x / eta * y)) by ring.
  replace (Rpower (y / eta) (n - 1) * (y / eta) * x) with (Rpower (y / eta) (n - 1) * (x / eta * y)) by (field; lra).
  apply Rmult_le_compat_r; [|auto]. apply Rmult_le_pos; [left; now apply Rdiv_lt_0_compat|lra].
Qed.
Lemma flow_scaled n eta x y c : 1 <= n -> 0 < eta -> 0 < x -> x <= y -> 0 <= c ->
  (c * pow0 (y / eta) n <= y -> c * pow0 (x / eta) n <= x) /\ forall r, r * x <= c * pow0 (x / eta) n -> r * y <= c * pow0 (y / eta) n.
Proof.
  intros Hn He Hx L Hc. pose proof (flow_ratio n eta x y Hn He Hx L) as Q. set (fx := pow0 (x / eta) n) in *. set (fy := pow0 (y / eta) n) in *.
  assert (Q' : c * (fx * y) <= c * (fy * x)) by now apply Rmult_le_compat_l.
  split; [intros H|intros r H].
  - assert (c * fy * x <= y * x) by (apply Rmult_le_compat_r; lra).
    assert (c * fx * y <= x * y) by lra. assert (c * fx <= x) by (apply (Rmult_le_reg_r y); lra). lra.
  - assert (r * x * y <= c * fx * y) by (apply Rmult_le_compat_r; lra).
    assert (r * y * x <= c * fy * x) by lra. assert (r * y <= c * fy) by (apply (Rmult_le_reg_r x); lra). lra.
Qed.
(** one explicit step of a hold *)
Definition fe_hold (E n eta dt z s : R) : Prop := s = z - E * dt * pvf n eta z.
Lemma fe_hold_sym E n eta dt z s : fe_hold E n eta dt z s -> fe_hold E n eta dt (- z) (- s).
Proof. unfold fe_hold, pvf. intros ->. rewrite Rabs_Ropp. replace (tsign (- z)) with (- tsign z); [ring|].
  destruct (Rtotal_order 0 z) as [P|[P|P]]; [rewrite tsign_pos, tsign_neg by lra|subst z; rewrite Ropp_0, tsign_0|rewrite tsign_neg, tsign_pos by lra]; lra. Qed.
Lemma fe_hold_pos E n eta dt z s : 0 < z -> fe_hold E n eta dt z s -> s = z - E * dt * pow0 (z / eta) n.
Proof. unfold fe_hold, pvf. intros Hz ->. rewrite tsign_pos, Rabs_right by lra. ring. Qed.
Lemma fe_hold_0 E n eta dt s : fe_hold E n eta dt 0 s -> s = 0.
Proof. unfold fe_hold. intros ->. rewrite pvf_0. ring. Qed.

(** steps short enough for the stress at their start *)
Lemma safe_pos E n eta dt h z s : 0 < E -> 1 <= n -> 0 < eta -> 0 <= dt -> dt <= h -> 0 < z -> E * h * pow0 (z / eta) n <= z ->
  fe_hold E n eta dt z s -> 0 <= s <= z /\ (0 < s -> E * h * pow0 (s / eta) n <= s).
Proof.
  intros HE Hn He Hd Hh Hz H F. apply fe_hold_pos in F; auto.
  assert (P : 0 <= pow0 (z / eta) n) by apply pow0_ge0.
  assert (A : 0 <= E * dt * pow0 (z / eta) n) by (apply Rmult_le_pos; [apply Rmult_le_pos; lra|auto]).
  assert (B : E * dt * pow0 (z / eta) n <= E * h * pow0 (z / eta) n) by (apply Rmult_le_compat_r; [auto|apply Rmult_le_compat_l; lra]).
  split; [lra|]. intros Hs. apply (flow_scaled n eta s z (E * h)); auto; try lra. apply Rmult_le_pos; lra.
Qed.
Lemma safe_step E n eta dt h z s : 0 < E -> 1 <= n -> 0 < eta -> 0 <= dt -> dt <= h -> E * h * pow0 (Rabs z / eta) n <= Rabs z ->
  fe_hold E n eta dt z s -> 0 <= s * z /\ Rabs s <= Rabs z /\ E * h * pow0 (Rabs s / eta) n <= Rabs s.
Proof.
  intros HE Hn He Hd Hh H F.
  assert (K : forall z s, 0 <= z -> E * h * pow0 (Rabs z / eta) n <= Rabs z -> fe_hold E n eta dt z s -> 0 <= s * z /\ Rabs s <= Rabs z /\ E * h * pow0 (Rabs s / eta) n <= Rabs s).
  { clear H F z s. intros z s [Hz| <-] H F.
    - rewrite (Rabs_right z) in * by lra. destruct (safe_pos E n eta dt h z s HE Hn He Hd Hh Hz H F) as ([S1 S2] & S3).
      rewrite (Rabs_right s) by lra. split; [apply Rmult_le_pos; lra|]. split; [auto|].
      destruct S1 as [S1| <-]; [auto|]. replace (0 / eta) with 0 by (field; lra). rewrite pow0_0 by lra. lra.
    - apply fe_hold_0 in F. subst s. split; [lra|]. split; [apply Rle_refl|auto]. }
  destruct (Rle_dec 0 z) as [P|P]; [now apply K|].
  assert (H' : E * h * pow0 (Rabs (- z) / eta) n <= Rabs (- z)) by now rewrite Rabs_Ropp.
  destruct (K (- z) (- s)) as (A & B & C); auto; [lra|now apply fe_hold_sym|].
  rewrite !Rabs_Ropp in *. split; [lra|auto].
Qed.
(** steps too long *)
Lemma unsafe_step E n eta dt h r z s : 0 < E -> 1 <= n -> 0 < eta -> 0 < h -> h <= dt -> 1 <= r -> z <> 0 -> (1 + r) * Rabs z <= E * h * pow0 (Rabs z / eta) n ->
  fe_hold E n eta dt z s -> s * z < 0 /\ r * Rabs z <= Rabs s /\ (1 + r) * Rabs s <= E * h * pow0 (Rabs s / eta) n.
Proof.
  intros HE Hn He Hd Hh Hr Hz H F.
  assert (K : forall z s, 0 < z -> (1 + r) * Rabs z <= E * h * pow0 (Rabs z / eta) n -> fe_hold E n eta dt z s -> s * z < 0 /\ r * Rabs z <= Rabs s /\ (1 + r) * Rabs s <= E * h * pow0 (Rabs s / eta) n).
  { clear Hz H F z s. intros z s Hz H F. rewrite (Rabs_right z) in * by lra. apply fe_hold_pos in F; auto.
    assert (P : 0 <= pow0 (z / eta) n) by apply pow0_ge0.
    assert (B : E * h * pow0 (z / eta) n <= E * dt * pow0 (z / eta) n) by (apply Rmult_le_compat_r; [auto|apply Rmult_le_compat_l; lra]).
    assert (Q : z <= r * z) by (replace z with (1 * z) at 1 by ring; apply Rmult_le_compat_r; lra).
    assert (S : s <= - (r * z)) by lra. assert (Sn : s < 0) by lra.
    split; [assert (0 < - s * z) by (apply Rmult_lt_0_compat; lra); lra|].
    rewrite (Rabs_left s) by auto. split; [lra|].
    apply (flow_scaled n eta z (- s) (E * h)); auto; try lra. apply Rmult_le_pos; lra. }
  destruct (Rtotal_order 0 z) as [P|[P|P]]; [now apply K|lra|].
  assert (H' : (1 + r) * Rabs (- z) <= E * h * pow0 (Rabs (- z) / eta) n) by now rewrite Rabs_Ropp.
  destruct (K (- z) (- s)) as (A & B & C); auto; [lra|now apply fe_hold_sym|].
  rewrite !Rabs_Ropp in *. split; [lra|auto].
Qed.
