(** Properties C53-C62: scaling.py, the helpers of optimize.py and temperature.py. *)
From Coq Require Import Reals Lra Lia List Arith.
From Verif Require Import Torch Interp Scaling Temperature.
Import ListNotations.
Local Open Scope R_scope.

(** C53 *)
Theorem C53_bounded_clamped l u : l < u ->
  (forall x, l <= bounded_scale l u true x <= u) /\
  (forall x y, x <= y -> bounded_scale l u true x <= bounded_scale l u true y) /\
  bounded_scale l u true 0 = l /\ bounded_scale l u true 1 = u /\
  (forall x, 0 <= x <= 1 -> bounded_unscale l u (bounded_scale l u true x) = x) /\
  (forall y, l <= y <= u -> bounded_scale l u true (bounded_unscale l u y) = y) /\
  (forall x, x <= 0 -> bounded_scale l u true x = l) /\
  (forall x, 1 <= x -> bounded_scale l u true x = u).
Proof.
  intros H. repeat split.
  - now apply bounded_in.
  - now apply bounded_in.
  - intros. now apply bounded_mono.
  - unfold bounded_scale. rewrite tclamp_id by lra. ring.
  - unfold bounded_scale. rewrite tclamp_id by lra. ring.
  - intros. now apply bounded_unscaled.
  - intros. now apply bounded_scaled.
  - intros. unfold bounded_scale. rewrite tclamp_lo by lra. ring.
  - intros. unfold bounded_scale. rewrite tclamp_hi by lra. ring.
Qed.
Print Assumptions C53_bounded_clamped.

Theorem C53_bounded_unclamped l u : l < u ->
  (forall x, bounded_unscale l u (bounded_scale l u false x) = x) /\
  (forall y, bounded_scale l u false (bounded_unscale l u y) = y).
Proof.
  intros H. split; intros.
  - now apply bounded_unscaled.
  - now apply bounded_scaled.
Qed.
Print Assumptions C53_bounded_unclamped.

(** C54 *)
Theorem C54_log_clamped l u : 0 < l < u ->
  (forall x, l <= log_scale l u true x <= u) /\
  (forall x y, x <= y -> log_scale l u true x <= log_scale l u true y) /\
  log_scale l u true 0 = l /\ log_scale l u true 1 = u /\
  (forall x, 0 <= x <= 1 -> log_unscale l u (log_scale l u true x) = x) /\
  (forall y, l <= y <= u -> log_scale l u true (log_unscale l u y) = y).
Proof.
  intros H. repeat split.
  - now apply log_in.
  - now apply log_in.
  - intros. now apply log_mono.
  - now apply (log_ends l u true).
  - now apply (log_ends l u true).
  - intros. now apply log_unscaled.
  - intros. apply log_scaled; auto. lra.
Qed.
Print Assumptions C54_log_clamped.

Theorem C54_log_unclamped l u : 0 < l < u ->
  (forall x, log_unscale l u (log_scale l u false x) = x) /\
  (forall y, 0 < y -> log_scale l u false (log_unscale l u y) = y).
Proof.
  intros H. split; intros.
  - now apply log_unscaled.
  - now apply log_scaled.
Qed.
Print Assumptions C54_log_unclamped.

(** C55 *)
Theorem C55_simple_inverts s : s <> 0 ->
  (forall x, simple_unscale s (simple_scale s x) = x) /\ (forall y, simple_scale s (simple_unscale s y) = y) /\
  (forall loc sc, simple_mean s loc sc = simple_scale s loc) /\
  (forall loc sc z, simple_scale s (loc + z * sc) = fst (simple_stat s loc sc) + z * snd (simple_stat s loc sc)).
Proof.
  intros H. repeat split; intros.
  - now apply simple_rt.
  - now apply simple_rt.
  - unfold simple_stat, simple_scale. simpl. ring.
Qed.
Print Assumptions C55_simple_inverts.

(** C56: scale_mean for the bounded function is the value scale(loc); for
    the log-bounded one it is its logarithm, which is never the value. *)
Theorem C56_bounded_scale_mean l u c loc sc : bounded_mean l u c loc sc = bounded_scale l u c loc.
Proof. reflexivity. Qed.
Print Assumptions C56_bounded_scale_mean.
(** A scaled parameter loc + z*scale (a normal sample) maps to the reported
    location plus z times the reported scale. *)
Theorem C56_bounded_stat l u loc sc z :
  bounded_scale l u false (loc + z * sc) = fst (bounded_stat l u false loc sc) + z * snd (bounded_stat l u false loc sc).
Proof. unfold bounded_stat, bounded_scale. simpl. ring. Qed.
Print Assumptions C56_bounded_stat.
Theorem C56_log_stat l u loc sc z : 0 < l -> 0 < u ->
  ln (log_scale l u false (loc + z * sc)) = fst (fst (log_stat l u loc sc)) + z * snd (fst (log_stat l u loc sc)).
Proof. intros. rewrite log_scale_exp, ln_exp by auto. unfold log_stat, bounded_scale. simpl. ring. Qed.
Print Assumptions C56_log_stat.
Theorem C56_log_scale_mean_refuted l u loc sc : 0 < l < u ->
  log_mean l u loc sc = ln (log_scale l u false loc) /\
  log_mean l u loc sc < log_scale l u false loc.
Proof.
  intros H. rewrite log_mean_is_log by lra. split; [reflexivity|]. apply ln_lt_id.
  rewrite log_scale_exp by lra. apply exp_pos.
Qed.
Print Assumptions C56_log_scale_mean_refuted.

(** C57 *)
Theorem C57_bounded_scale_function l u x :
  opt_bounded l u None x = bounded_scale l u true x /\
  (forall m, opt_bounded l u (Some m) x = Rmax (bounded_scale l u true x) m /\ m <= opt_bounded l u (Some m) x).
Proof.
  split; [reflexivity|]. intros m. split; [reflexivity|]. apply Rmax_r.
Qed.
Print Assumptions C57_bounded_scale_function.
Theorem C57_bound_factor mean f x : 
  Rmin (mean * (1 - f)) (mean * (1 + f)) <= opt_bound_factor mean f None x <= Rmax (mean * (1 - f)) (mean * (1 + f)) /\
  opt_bound_factor mean f None (1 / 2) = mean.
Proof.
  split; [apply opt_bounded_between|]. unfold opt_bound_factor, opt_bounded. rewrite tclamp_id by lra. field.
Qed.
Print Assumptions C57_bound_factor.
(** with a min_bound the value is the one without, or the min_bound when that is larger. *)
Theorem C57_bound_factor_min mean f m x :
  m <= opt_bound_factor mean f (Some m) x /\
  (m <= opt_bound_factor mean f None x -> opt_bound_factor mean f (Some m) x = opt_bound_factor mean f None x) /\
  (opt_bound_factor mean f None x <= m -> opt_bound_factor mean f (Some m) x = m).
Proof.
  unfold opt_bound_factor, opt_bounded. split; [apply Rmax_r|]. split; intros H; [now apply Rmax_left | now apply Rmax_right].
Qed.
Print Assumptions C57_bound_factor_min.
(** out of range, the helpers return the violated bound. *)
Theorem C57_clamp_helpers_outside l u sc x : l <= u ->
  (x <= l -> opt_clamp l u x = l) /\ (u <= x -> opt_clamp l u x = u) /\
  (x / sc <= l -> opt_bound_and_scale sc l u x = l) /\ (u <= x / sc -> opt_bound_and_scale sc l u x = u) /\
  (exp (x / sc) <= l -> opt_log_bound_and_scale sc l u x = l) /\
  (u <= exp (x / sc) -> opt_log_bound_and_scale sc l u x = u).
Proof.
  assert (A : forall y, l <= u -> y <= l -> tclamp l u y = l).
  { intros y Hu Hy. unfold tclamp, Rmin, Rmax. repeat destruct (Rle_dec _ _); lra. }
  assert (B : forall y, l <= u -> u <= y -> tclamp l u y = u).
  { intros y Hu Hy. unfold tclamp, Rmin, Rmax. repeat destruct (Rle_dec _ _); lra. }
  intros H. repeat split; intros; (apply A || apply B); auto.
Qed.
Print Assumptions C57_clamp_helpers_outside.
Theorem C57_clamp_helpers l u sc x : l <= u ->
  (l <= opt_clamp l u x <= u /\ (l <= x <= u -> opt_clamp l u x = x)) /\
  (l <= opt_bound_and_scale sc l u x <= u /\ (l <= x / sc <= u -> opt_bound_and_scale sc l u x = x / sc)) /\
  (l <= opt_log_bound_and_scale sc l u x <= u /\
     (l <= exp (x / sc) <= u -> opt_log_bound_and_scale sc l u x = exp (x / sc))).
Proof. intros H. repeat split; try (now apply tclamp_in); now apply tclamp_id. Qed.
Print Assumptions C57_clamp_helpers.

(** A constant material parameter whose raw value is mapped by one of the helpers has, at every temperature, the mapped value: it stays in the bounds
    whatever raw value an optimizer tries, and reaches both. *)
Theorem C57_constant_parameter l u x T T' :
  let par := forward (fun v => v) (constant_value (opt_bounded l u None) x) in
  Rmin l u <= par T <= Rmax l u /\ par T = par T' /\ (x = 0 -> par T = l) /\ (x = 1 -> par T = u) /\ (x = 1 / 2 -> par T = (l + u) / 2).
Proof.
  cbv zeta. unfold forward, constant_value. split; [apply opt_bounded_between|]. split; [reflexivity|]. unfold opt_bounded.
  repeat split; intros ->; rewrite tclamp_id by lra; lra.
Qed.
Print Assumptions C57_constant_parameter.

(** C58 *)
Theorem C58_polyval scaling scale_fn coefs T : scale_fn coefs <> [] ->
  forward scaling (polynomial_value scale_fn coefs) T = scaling (Some (polyval (scale_fn coefs) T)).
Proof. intros H. unfold forward. now rewrite polynomial_correct. Qed.
Print Assumptions C58_polyval.

(** C59 *)
Theorem C59_piecewise_interpolates n control values m T : (2 <= n)%nat -> increasing n control ->
  (forall j, (j < m)%nat -> in_range n control (T j)) ->
  exists out, piecewise_value n control values m T = Some out /\
    forall j, (j < m)%nat -> interpolates n control (values j) (T j) (out j).
Proof. apply piecewise_in_range. Qed.
Print Assumptions C59_piecewise_interpolates.
Theorem C59_control_points n control values m T : (2 <= n)%nat -> increasing n control ->
  (forall j, (j < m)%nat -> in_range n control (T j)) ->
  exists out, piecewise_value n control values m T = Some out /\
    forall j i, (j < m)%nat -> (i < n)%nat -> T j = control i -> out j = values j i.
Proof.
  intros Hn HT HR. destruct (piecewise_in_range n control values m T Hn HT HR) as (out & E & I).
  exists out. split; [exact E|]. intros j i Hj Hi Ht. specialize (I j Hj). rewrite Ht in I.
  apply (interpolates_node n control (values j) i); auto.
Qed.
Print Assumptions C59_control_points.
Theorem C59_out_of_range_raises n control values m T j : (2 <= n)%nat -> increasing n control ->
  (j < m)%nat -> T j < control 0%nat \/ control (n - 1)%nat < T j -> piecewise_value n control values m T = None.
Proof.
  intros Hn HT Hj H. apply (piecewise_out_of_range n control values m T j); auto. unfold in_range. lra.
Qed.
Print Assumptions C59_out_of_range_raises.

(** C60 *)
Theorem C60_rate_sensitivity_clipped As A mu b k cutoff T : 1 <= cutoff ->
  1 <= km_rate_value As A mu b k cutoff T <= cutoff /\
  (1 <= - mu T * b ^ 3 / (k * T * As A) <= cutoff ->
   km_rate_value As A mu b k cutoff T = - mu T * b ^ 3 / (k * T * As A)).
Proof. intros H. split; [now apply km_rate_in|]. intros. now apply tclamp_id. Qed.
Print Assumptions C60_rate_sensitivity_clipped.
Theorem C60_viscosity As Bs A B mu eps0 b k T : 0 < eps0 -> - mu T * b ^ 3 / (k * T * As A) <= km_default_cutoff ->
  km_visc_value As Bs A B mu eps0 b k T =
  exp (Bs B) * mu T * Rpower eps0 (- (1 / km_rate_value As A mu b k km_default_cutoff T)).
Proof.
  intros He H. unfold km_visc_value. rewrite pow0_pos by auto. unfold km_rate_value, km_default_cutoff in *.
  rewrite <- (tclamp_cutoff _ 20 1000) by lra. f_equal. f_equal. unfold Rdiv. ring.
Qed.
Print Assumptions C60_viscosity.
Theorem C60_viscosity_inconsistent_refuted As Bs A B mu eps0 b k T : 0 < eps0 -> eps0 <> 1 -> mu T <> 0 ->
  km_default_cutoff < - mu T * b ^ 3 / (k * T * As A) ->
  km_visc_value As Bs A B mu eps0 b k T <>
  exp (Bs B) * mu T * Rpower eps0 (- (1 / km_rate_value As A mu b k km_default_cutoff T)).
Proof.
  intros He H1 Hm H E. unfold km_visc_value, km_rate_value, km_default_cutoff in *. rewrite pow0_pos in E by auto.
  set (x := - mu T * b ^ 3 / (k * T * As A)) in *.
  rewrite (tclamp_hi 1 20) in E by lra.
  apply Rmult_eq_reg_l in E; [|apply Rmult_integral_contrapositive; split; [apply Rgt_not_eq, exp_pos|auto]].
  revert E. apply Rpower_ne; auto. intros E.
  assert (20 < tclamp 1 1000 x). { unfold tclamp, Rmin, Rmax. destruct (Rle_dec x 1); destruct (Rle_dec _ 1000); lra. }
  set (c := tclamp 1 1000 x) in *. assert (C : c <> 0) by lra.
  assert (c * (-1 / c) = -1) as F by (field; exact C). rewrite E in F. lra.
Qed.
Print Assumptions C60_viscosity_inconsistent_refuted.

(** C61 *)
Theorem C61_arrhenius_bounds As Qs A Q T : 0 < As A -> 0 < Qs Q -> 0 < T ->
  0 < arrhenius_value As Qs A Q T < As A /\
  0 < inverse_arrhenius_value As Qs A Q T < As A /\
  inverse_arrhenius_value As Qs A Q T = As A - arrhenius_value As Qs A Q T.
Proof.
  intros HA HQ HT. unfold inverse_arrhenius_value, arrhenius_value.
  assert (0 < exp (- Qs Q / T)) by apply exp_pos.
  assert (exp (- Qs Q / T) < 1).
  { rewrite <- exp_0. apply exp_increasing. assert (0 < Qs Q / T) by now apply Rdiv_lt_0_compat. unfold Rdiv in *. lra. }
  assert (0 < As A * exp (- Qs Q / T)) by (apply Rmult_lt_0_compat; auto).
  assert (As A * exp (- Qs Q / T) < As A * 1) by (apply Rmult_lt_compat_l; auto).
  repeat split; lra.
Qed.
Print Assumptions C61_arrhenius_bounds.
Theorem C61_arrhenius_monotone As Qs A Q T T' : 0 < As A -> 0 < Qs Q -> 0 < T < T' ->
  arrhenius_value As Qs A Q T < arrhenius_value As Qs A Q T' /\
  inverse_arrhenius_value As Qs A Q T' < inverse_arrhenius_value As Qs A Q T.
Proof.
  intros HA HQ HT. unfold inverse_arrhenius_value, arrhenius_value.
  assert (exp (- Qs Q / T) < exp (- Qs Q / T')).
  { apply exp_increasing. unfold Rdiv. rewrite !Ropp_mult_distr_l_reverse. apply Ropp_lt_contravar.
    apply Rmult_lt_compat_l; auto. apply Rinv_lt_contravar; [apply Rmult_lt_0_compat; lra|lra]. }
  split; apply Rmult_lt_compat_l; lra.
Qed.
Print Assumptions C61_arrhenius_monotone.
(** the activation law: T times the logarithm of value/A is the same number -Q at every
    temperature (for the inverse form, of 1 - value/A). *)
Theorem C61_arrhenius_law As Qs A Q T : 0 < As A -> 0 < Qs Q -> 0 < T ->
  T * ln (arrhenius_value As Qs A Q T / As A) = - Qs Q /\
  T * ln (1 - inverse_arrhenius_value As Qs A Q T / As A) = - Qs Q.
Proof.
  intros HA HQ HT. unfold arrhenius_value, inverse_arrhenius_value.
  replace (As A * exp (- Qs Q / T) / As A) with (exp (- Qs Q / T)) by (field; lra).
  replace (1 - As A * (1 - exp (- Qs Q / T)) / As A) with (exp (- Qs Q / T)) by (field; lra).
  rewrite ln_exp. split; field; lra.
Qed.
Print Assumptions C61_arrhenius_law.

(** C62 *)
Theorem C62_shear_exp As A mu T : shear_exp_value As A mu T = shear_value exp (As A) mu T.
Proof. reflexivity. Qed.
Print Assumptions C62_shear_exp.
Section C62.
Variables (ts gs qs ps : R -> R) (tau0 g0 q p k b : R).
Hypotheses (Ht : 0 <= ts tau0) (Hq : 0 < qs q) (Hp : 0 < ps p).
Theorem C62_mts_bounds mu T : 0 < mu T * b ^ 3 * gs g0 -> 0 <= k * T <= mu T * b ^ 3 * gs g0 ->
  exists y, mts_value ts gs qs ps tau0 g0 q p k b mu T = Some y /\ 0 <= y <= ts tau0 /\
    (T = 0 -> y = ts tau0) /\ (k * T = mu T * b ^ 3 * gs g0 -> y = 0).
Proof.
  intros HD HT. destruct (mts_in_range ts gs qs ps tau0 g0 q p k b mu T Hq Hp HD HT) as (E & X & Y).
  eexists. split; [exact E|].
  assert (Pq : 0 < 1 / qs q) by (apply Rdiv_lt_0_compat; lra).
  assert (Pp : 0 < 1 / ps p) by (apply Rdiv_lt_0_compat; lra).
  repeat split.
  - apply Rmult_le_pos; auto. apply pow0_ge0.
  - rewrite <- (Rmult_1_r (ts tau0)) at 2. apply Rmult_le_compat_l; auto. now apply pow0_le1.
  - intros ET. replace (k * T / (mu T * b ^ 3 * gs g0)) with 0 by (rewrite ET; unfold Rdiv; ring).
    rewrite (pow0_0 (1 / qs q)) by lra. rewrite Rminus_0_r, pow0_one. ring.
  - intros ET. rewrite ET. replace (mu T * b ^ 3 * gs g0 / (mu T * b ^ 3 * gs g0)) with 1.
    + rewrite pow0_one, Rminus_diag_eq, pow0_0 by lra. ring.
    + unfold Rdiv. rewrite Rinv_r; lra.
Qed.
Theorem C62_mts_monotone mu T T' : mu T = mu T' -> 0 < mu T * b ^ 3 * gs g0 -> 0 <= k -> 0 <= T <= T' ->
  k * T' <= mu T * b ^ 3 * gs g0 ->
  exists y y', mts_value ts gs qs ps tau0 g0 q p k b mu T = Some y /\
    mts_value ts gs qs ps tau0 g0 q p k b mu T' = Some y' /\ y' <= y.
Proof.
  intros Em HD Hk HT HT'.
  assert (A0 : 0 <= k * T) by (apply Rmult_le_pos; lra).
  assert (A1 : k * T <= k * T') by (apply Rmult_le_compat_l; lra).
  destruct (mts_in_range ts gs qs ps tau0 g0 q p k b mu T Hq Hp HD ltac:(lra)) as (E & X & Y).
  rewrite Em in HD, HT'.
  destruct (mts_in_range ts gs qs ps tau0 g0 q p k b mu T' Hq Hp HD ltac:(lra)) as (E' & X' & Y').
  eexists. eexists. split; [exact E|]. split; [exact E'|].
  assert (Pq : 0 < 1 / qs q) by (apply Rdiv_lt_0_compat; lra).
  assert (Pp : 0 < 1 / ps p) by (apply Rdiv_lt_0_compat; lra).
  apply Rmult_le_compat_l; auto. apply pow0_mono; try lra. apply Rplus_le_compat_l, Ropp_le_contravar.
  rewrite Em. apply pow0_mono; auto; [rewrite <- Em; lra|]. unfold Rdiv. apply Rmult_le_compat_r; auto.
  left. now apply Rinv_0_lt_compat.
Qed.
(** the law, read as a balance of energies: at a strictly positive temperature below
    the vanishing one, the strength y is the one whose barrier
    mu b^3 g0 (1 - (y / tau0)^p)^q is kT. *)
Theorem C62_mts_law mu T : 0 < ts tau0 -> 0 < mu T * b ^ 3 * gs g0 -> 0 < k * T < mu T * b ^ 3 * gs g0 ->
  exists y, mts_value ts gs qs ps tau0 g0 q p k b mu T = Some y /\ 0 < y < ts tau0 /\
    mu T * b ^ 3 * gs g0 * Rpower (1 - Rpower (y / ts tau0) (ps p)) (qs q) = k * T.
Proof.
  intros Ht' HD HT. destruct (mts_in_range ts gs qs ps tau0 g0 q p k b mu T Hq Hp HD ltac:(lra)) as (E & X & Y).
  eexists. split; [exact E|]. set (D := mu T * b ^ 3 * gs g0) in *. set (x := k * T / D) in *.
  assert (Hx : 0 < x < 1).
  { unfold x. split; [apply Rdiv_lt_0_compat; lra|]. apply (Rmult_lt_reg_r D); [lra|]. unfold Rdiv.
    rewrite Rmult_assoc, Rinv_l; lra. }
  assert (Pq : 0 < 1 / qs q) by (apply Rdiv_lt_0_compat; lra).
  assert (Pp : 0 < 1 / ps p) by (apply Rdiv_lt_0_compat; lra).
  assert (W : forall z e, 0 < z < 1 -> 0 < e -> 0 < Rpower z e < 1).
  { intros z e Hz He. split; [apply exp_pos|]. unfold Rpower. rewrite <- exp_0. apply exp_increasing.
    assert (ln z < 0) by (rewrite <- ln_1; apply ln_increasing; lra). nra. }
  rewrite (pow0_pos x) by lra. pose proof (W x _ Hx Pq) as Hr. set (r := Rpower x (1 / qs q)) in *.
  rewrite pow0_pos by lra. pose proof (W (1 - r) _ ltac:(lra) Pp) as Hw. set (w := Rpower (1 - r) (1 / ps p)) in *.
  split; [split; nra|].
  replace (ts tau0 * w / ts tau0) with w by (field; lra).
  unfold w. rewrite Rpower_mult. replace (1 / ps p * ps p) with 1 by (field; lra).
  rewrite Rpower_1 by lra. replace (1 - (1 - r)) with r by ring.
  unfold r. rewrite Rpower_mult. replace (1 / qs q * qs q) with 1 by (field; lra).
  rewrite Rpower_1 by lra. unfold x. field. lra.
Qed.
(** Above the temperature where the strength vanishes the result is nan
    (unless 1/p happens to be an integer). *)
Theorem C62_mts_above_is_nan mu T : 0 < mu T * b ^ 3 * gs g0 -> mu T * b ^ 3 * gs g0 < k * T ->
  (forall z, 1 / ps p <> IZR z) -> mts_value ts gs qs ps tau0 g0 q p k b mu T = None.
Proof.
  intros HD HT Hz. unfold mts_value. set (D := mu T * b ^ 3 * gs g0) in *.
  assert (1 < k * T / D). 
  { unfold Rdiv. rewrite <- (Rinv_r D) by lra. apply Rmult_lt_compat_r; auto. now apply Rinv_0_lt_compat. }
  rewrite tpow_nonneg by lra. rewrite tpow_neg_nonint; auto.
  rewrite pow0_pos by lra. enough (1 < Rpower (k * T / D) (1 / qs q)) by lra.
  unfold Rpower. rewrite <- exp_0 at 1. apply exp_increasing. apply Rmult_lt_0_compat.
  - apply Rdiv_lt_0_compat; lra.
  - rewrite <- ln_1. apply ln_increasing; lra.
Qed.
End C62.
Print Assumptions C62_mts_bounds.
Print Assumptions C62_mts_monotone.
Print Assumptions C62_mts_law.
Print Assumptions C62_mts_above_is_nan.

(** ** Concrete instances *)
Example ex_C53 : bounded_scale 2 5 true 3 = 5 /\ bounded_scale 2 5 true (1/3) = 3 /\ bounded_scale 2 5 false 3 = 11.
Proof. unfold bounded_scale. rewrite tclamp_hi, tclamp_id by lra. lra. Qed.
Example ex_C54 : (0 < 1 < 100) /\ log_scale 1 100 true 0 = 1 /\ log_scale 1 100 true 7 = 100.
Proof.
  split; [lra|]. split; [apply log_ends; lra|]. unfold log_scale. rewrite tclamp_hi by lra.
  rewrite Rminus_diag_eq, Rpower_O, Rpower_1 by lra. ring.
Qed.
Example ex_C57 : opt_bound_factor (-10) (1/2) None 0 = -5 /\ opt_bound_factor (-10) (1/2) None 1 = -15.
Proof. unfold opt_bound_factor, opt_bounded. rewrite !tclamp_id by lra. lra. Qed.
Example ex_C58 : polynomial_value (fun c => c) [1; -2; 3] 5 = Some 18 /\ polyval [1; -2; 3] 5 = 18.
Proof. split; unfold polynomial_value, polyval; simpl; [f_equal|]; ring. Qed.
Definition ex_control (k : nat) : R := INR k * 100.
Example ex_C59 : increasing 4 ex_control /\ in_range 4 ex_control 250 /\ in_range 4 ex_control 0 /\ ~ in_range 4 ex_control 301.
Proof.
  unfold in_range, ex_control. cbn [Nat.sub]. split; [|simpl; lra].
  intros i j H _. apply Rmult_lt_compat_r; [lra|]. now apply lt_INR.
Qed.
Example ex_C60 : km_default_cutoff < - 100 * 1 ^ 3 / (1 * 1 * (- 1)) /\ 1 <= - 10 * 1 ^ 3 / (1 * 1 * (- 1)) <= 20.
Proof. unfold km_default_cutoff. lra. Qed.
Example ex_C62 : 0 < 2 * 1 ^ 3 * 3 /\ 0 <= 1 * 5 <= 2 * 1 ^ 3 * 3 /\ (forall z, 1 / (2/3) <> IZR z).
Proof.
  split; [lra|]. split; [lra|]. intros z H. assert (3 = 2 * IZR z) as E by lra.
  rewrite <- mult_IZR in E. apply eq_IZR in E. lia.
Qed.
