(** Symmetries of the Voce / Chaboche model: reversing the sign of the loading, changing the unit of stress by c and the unit of time by q. *)
From Coq Require Import Reals Lra Lia.
From Verif Require Import Torch Slices Deriv Hardening Flow Models VCStep VCHistory VCClose.
Local Open Scope R_scope.

Lemma tsign_scale c x : 0 < c -> tsign (c * x) = tsign x.
Proof.
  intros H. destruct (Rtotal_order x 0) as [L|[L|L]].
  - rewrite !tsign_neg; [reflexivity|lra|]. pose proof (Rmult_lt_compat_l c x 0 H L). lra.
  - rewrite L, Rmult_0_r. reflexivity.
  - rewrite !tsign_pos; [reflexivity|lra|]. now apply Rmult_lt_0_compat.
Qed.
Lemma mac_scale c x : 0 < c -> mac (c * x) = c * mac x.
Proof.
  intros H. destruct (Rle_lt_dec 0 x) as [L|L].
  - rewrite !mac_pos; [reflexivity|lra|]. apply Rmult_le_pos; lra.
  - rewrite !mac_neg; [ring|lra|]. pose proof (Rmult_lt_compat_l c x 0 H L). lra.
Qed.
Lemma flow_scale n eta k r c q : 0 < n -> 0 < eta -> 0 < c -> 0 < q -> flow n (c * eta * Rpower q (/ n)) (c * k) (c * r) = flow n eta k r / q.
Proof.
  intros Hn He Hc Hq. unfold flow. rewrite tsign_scale, Rabs_mult, (Rabs_pos_eq c) by lra. set (p := Rpower q (/ n)).
  assert (P : 0 < p) by apply exp_pos.
  replace ((c * Rabs r - c * k) / (c * eta * p)) with (/ p * ((Rabs r - k) / eta)) by (field; lra). rewrite mac_scale by now apply Rinv_0_lt_compat.
  set (x := mac ((Rabs r - k) / eta)). assert (X0 : 0 <= x) by apply mac_ge0.
  assert (F : pow0 (/ p * x) n = pow0 x n / q); [|rewrite F; field; lra].
  destruct (Req_dec x 0) as [Z|Z]; [rewrite Z, Rmult_0_r, pow0_0 by lra; field; lra|].
  assert (X : 0 < x) by lra. assert (I : 0 < / p) by now apply Rinv_0_lt_compat. rewrite !pow0_pos by (try apply Rmult_lt_0_compat; assumption).
  rewrite <- Rpower_mult_distr by assumption. assert (Q : Rpower (/ p) n = / q).
  { unfold Rpower at 1. rewrite ln_Rinv by assumption. unfold p, Rpower. rewrite ln_exp. replace (n * - (/ n * ln q)) with (- ln q) by (field; lra). now rewrite exp_Ropp, exp_ln. }
  rewrite Q. field. lra.
Qed.

(** State after a change of units: the isotropic hardening keeps its sign when the loading is reversed (m = -1), stress and backstresses change theirs. *)
Definition image (m c : R) (u : nat -> R) (i : nat) : R := match i with 1%nat => c * u 1%nat | _ => m * c * u i end.
Definition himage (m c : R) (h : vec) (i : nat) : R := match i with 0%nat => c * h 0%nat | _ => m * c * h i end.
Lemma himage_image m c u i : himage m c (fun j => u (S j)) i = image m c u (S i).
Proof. destruct i; reflexivity. Qed.

Section Sym.
Variables (n eta s0 Rs d : R -> R) (nback : nat) (C g : R -> nat -> R) (m c q : R).
Hypotheses (Hm : m = 1 \/ m = -1) (Hc : 0 < c) (Hq : 0 < q).
(** The parameters in the new units. *)
Let eta' T := c * eta T * Rpower q (/ n T).
Let s0' T := c * s0 T.
Let Rs' T := c * Rs T.
Let C' T i := c * C T i.
Lemma flow_image T s h : 0 < n T -> 0 < eta T -> the_flow n eta' s0' nback T (m * c * s) (himage m c h) = m * (the_flow n eta s0 nback T s h / q).
Proof.
  intros Hn He. unfold the_flow, eta', s0'. cbn [himage]. rewrite sum_scal. rewrite <- Rmult_minus_distr_l, <- Rmult_plus_distr_l.
  destruct Hm as [-> | ->].
  - replace (1 * c * (s - sum nback (fun i => h (S i)))) with (c * (s - sum nback (fun i => h (S i)))) by ring. rewrite flow_scale by assumption. ring.
  - replace (-1 * c * (s - sum nback (fun i => h (S i)))) with (- (c * (s - sum nback (fun i => h (S i))))) by ring. rewrite flow_odd, flow_scale by assumption. ring.
Qed.
Lemma m_abs x : Rabs (m * x) = Rabs x.
Proof. destruct Hm as [-> | ->]; [now rewrite Rmult_1_l|]. replace (-1 * x) with (- x) by ring. apply Rabs_Ropp. Qed.
Lemma step_image EE T dt de s h s' h' : 0 < n T -> 0 < eta T -> model_step n eta s0 Rs d nback C g EE T dt de s h s' h' ->
  model_step n eta' s0' Rs' d nback C' g (c * EE) T (q * dt) (m * de) (m * c * s) (himage m c h) (m * c * s') (himage m c h').
Proof.
  intros Hn He (A & B & X). unfold model_step. rewrite flow_image by assumption. set (f := the_flow n eta s0 nback T s' h') in *.
  assert (F : Rabs (m * (f / q)) = Rabs f / q). { rewrite m_abs. unfold Rdiv. rewrite Rabs_mult, (Rabs_pos_eq (/ q)); [reflexivity|]. left. now apply Rinv_0_lt_compat. }
  split; [|split].
  - replace (m * c * s' - m * c * s) with (m * c * (s' - s)) by ring. rewrite A. field. lra.
  - cbn [himage]. rewrite F. unfold Rs'. replace (c * h' 0%nat - c * h 0%nat) with (c * (h' 0%nat - h 0%nat)) by ring. rewrite B. field. lra.
  - intros i Hi. cbn [himage]. rewrite F. unfold C'. replace (m * c * h' (S i) - m * c * h (S i)) with (m * c * (h' (S i) - h (S i))) by ring. rewrite (X i Hi). field. lra.
Qed.
Lemma admissible_image T : admissible n eta s0 Rs d nback C g T -> admissible n eta' s0' Rs' d nback C' g T.
Proof.
  intros (A1 & A2 & A3 & A4 & A5 & A6). assert (P : 0 < Rpower q (/ n T)) by apply exp_pos. unfold eta', s0', Rs', C'. repeat split; try assumption.
  - apply Rmult_lt_0_compat; [now apply Rmult_lt_0_compat|assumption].
  - apply Rmult_le_pos; lra.
  - apply Rmult_le_pos; lra.
  - destruct (A6 i H). apply Rmult_le_pos; lra.
  - now destruct (A6 i H).
Qed.
Lemma no_softening_image T T' : no_softening Rs nback C g T T' -> no_softening Rs' nback C' g T T'.
Proof.
  intros [A B]. unfold Rs', C'. split; [apply Rmult_le_compat_l; lra|]. intros i Hi. unfold Rdiv. rewrite !Rmult_assoc. apply Rmult_le_compat_l; [lra|]. now apply B.
Qed.
End Sym.
