(** Model of scaling.py and of the scaling helpers of optimize.py 48-112,
    for one entry of the (elementwise) tensors. *)
From Coq Require Import Reals Lra Lia.
From Verif Require Import Torch.
Local Open Scope R_scope.

(** ** SimpleScalingFunction, scaling.py 62-129 *)
Section Simple.
Variable s : R.
(** scaling.py 80-88 *)
Definition simple_scale (x : R) : R := s * x.
(** scaling.py 90-98 *)
Definition simple_unscale (x : R) : R := x / s.
(** scaling.py 100-119: the (loc, scale) reported; the text around them is dropped. *)
Definition simple_stat (loc sc : R) : R * R := (simple_scale loc, sc * s).
(** scaling.py 121-129 *)
Definition simple_mean (loc sc : R) : R := simple_scale loc.
End Simple.

(** ** BoundedScalingFunction, scaling.py 132-209 *)
Section Bounded.
Variables (l u : R) (clamp : bool).
(** scaling.py 155-168 *)
Definition bounded_scale (x : R) : R :=
  let xp := if clamp then tclamp 0 1 x else x in xp * (u - l) + l.
(** scaling.py 170-178 *)
Definition bounded_unscale (x : R) : R := (x - l) / (u - l).
(** scaling.py 180-199 *)
Definition bounded_stat (loc sc : R) : R * R := (bounded_scale loc, sc * (u - l)).
(** scaling.py 201-209 *)
Definition bounded_mean (loc sc : R) : R := bounded_scale loc.
End Bounded.

(** ** LogBoundedScalingFunction, scaling.py 212-306.
    [l ** (1 - xp)] with l > 0 is [Rpower]; the theorems assume 0 < l, u. *)
Section LogBounded.
Variables (l u : R) (clamp : bool).
(** scaling.py 240-253 *)
Definition log_scale (x : R) : R :=
  let xp := if clamp then tclamp 0 1 x else x in Rpower l (1 - xp) * Rpower u xp.
(** scaling.py 255-265 *)
Definition log_unscale (x : R) : R := (ln x - ln l) / (ln u - ln l).
(** scaling.py 267-293: (loc, scale, mean) reported. *)
Definition log_stat (loc sc : R) : R * R * R :=
  let A := ln u - ln l in let B := ln l in
  let mean := A * loc + B in let sp := A * sc in
  (mean, sp, exp (mean + sp * sp / 2)).
(** scaling.py 295-306 *)
Definition log_mean (loc sc : R) : R := let A := ln u - ln l in let B := ln l in A * loc + B.
End LogBounded.

(** ** optimize.py helpers *)
(** bounded_scale_function, optimize.py 65-80 *)
Definition opt_bounded (l u : R) (min_bound : option R) (x : R) : R :=
  match min_bound with
  | None => tclamp 0 1 x * (u - l) + l
  | Some m => Rmax (tclamp 0 1 x * (u - l) + l) m
  end.
(** bound_factor, optimize.py 48-62 *)
Definition opt_bound_factor (mean factor : R) (min_bound : option R) (x : R) : R :=
  opt_bounded (mean * (1 - factor)) (mean * (1 + factor)) min_bound x.
(** clamp_scale_function, optimize.py 83-90 *)
Definition opt_clamp (l u x : R) : R := tclamp l u x.
(** bound_and_scale, optimize.py 93-101 *)
Definition opt_bound_and_scale (sc l u x : R) : R := tclamp l u (x / sc).
(** log_bound_and_scale, optimize.py 104-112 *)
Definition opt_log_bound_and_scale (sc l u x : R) : R := tclamp l u (exp (x / sc)).

(** ** Proofs *)
Lemma simple_rt s x : s <> 0 -> simple_unscale s (simple_scale s x) = x /\ simple_scale s (simple_unscale s x) = x.
Proof. intros. unfold simple_unscale, simple_scale. split; field; auto. Qed.

Lemma bounded_in l u x : l < u -> l <= bounded_scale l u true x <= u.
Proof.
  intros H. unfold bounded_scale. pose proof (tclamp_in 0 1 x ltac:(lra)) as [A B]. split.
  - assert (0 <= tclamp 0 1 x * (u - l)) by (apply Rmult_le_pos; lra). lra.
  - assert (tclamp 0 1 x * (u - l) <= 1 * (u - l)) by (apply Rmult_le_compat_r; lra). lra.
Qed.
Lemma bounded_mono l u c x y : l < u -> x <= y -> bounded_scale l u c x <= bounded_scale l u c y.
Proof.
  intros H Hxy. unfold bounded_scale. apply Rplus_le_compat_r, Rmult_le_compat_r; [lra|].
  destruct c; auto. now apply tclamp_mono.
Qed.
Lemma bounded_unscaled l u c x : l < u -> (c = true -> 0 <= x <= 1) -> bounded_unscale l u (bounded_scale l u c x) = x.
Proof.
  intros H Hx. unfold bounded_unscale, bounded_scale. destruct c.
  - rewrite tclamp_id by auto. field. lra.
  - field. lra.
Qed.
Lemma bounded_unscale_range l u y : l < u -> l <= y <= u -> 0 <= bounded_unscale l u y <= 1.
Proof.
  intros H Hy. unfold bounded_unscale, Rdiv. assert (0 < / (u - l)) by (apply Rinv_0_lt_compat; lra). split.
  - apply Rmult_le_pos; lra.
  - replace 1 with ((u - l) * / (u - l)) by (field; lra). apply Rmult_le_compat_r; lra.
Qed.
Lemma bounded_scaled l u c y : l < u -> (c = true -> l <= y <= u) -> bounded_scale l u c (bounded_unscale l u y) = y.
Proof.
  intros H Hy. unfold bounded_scale. destruct c.
  - rewrite tclamp_id by (apply bounded_unscale_range; auto). unfold bounded_unscale. field. lra.
  - unfold bounded_unscale. field. lra.
Qed.

Lemma log_scale_exp l u c x : 0 < l -> 0 < u ->
  log_scale l u c x = exp (bounded_scale (ln l) (ln u) c x).
Proof.
  intros Hl Hu. unfold log_scale, bounded_scale, Rpower. rewrite <- exp_plus. f_equal. destruct c; ring.
Qed.
Lemma log_unscale_ln l u y : log_unscale l u y = bounded_unscale (ln l) (ln u) (ln y).
Proof. reflexivity. Qed.
Lemma exp_le x y : x <= y -> exp x <= exp y.
Proof. intros [H| ->]; [left; now apply exp_increasing|lra]. Qed.
Lemma ln_le' x y : 0 < x -> x <= y -> ln x <= ln y.
Proof. intros Hx [H| ->]; [left; now apply ln_increasing|lra]. Qed.
Lemma log_in l u x : 0 < l < u -> l <= log_scale l u true x <= u.
Proof.
  intros H. rewrite log_scale_exp by lra. assert (ln l < ln u) by (apply ln_increasing; lra).
  pose proof (bounded_in (ln l) (ln u) x H0) as [A B].
  apply exp_le in A, B. rewrite exp_ln in A, B by lra. lra.
Qed.
Lemma log_mono l u c x y : 0 < l < u -> x <= y -> log_scale l u c x <= log_scale l u c y.
Proof.
  intros H Hxy. rewrite !log_scale_exp by lra. apply exp_le, bounded_mono; auto. apply ln_increasing; lra.
Qed.
Lemma log_unscaled l u c x : 0 < l < u -> (c = true -> 0 <= x <= 1) -> log_unscale l u (log_scale l u c x) = x.
Proof.
  intros H Hx. rewrite log_unscale_ln, log_scale_exp, ln_exp by lra. apply bounded_unscaled; auto. apply ln_increasing; lra.
Qed.
Lemma log_scaled l u c y : 0 < l < u -> 0 < y -> (c = true -> l <= y <= u) -> log_scale l u c (log_unscale l u y) = y.
Proof.
  intros H Hp Hy. rewrite log_unscale_ln, log_scale_exp by lra. rewrite bounded_scaled.
  - now apply exp_ln.
  - apply ln_increasing; lra.
  - intros E. specialize (Hy E). split; apply ln_le'; lra.
Qed.
Lemma log_ends l u c : 0 < l < u -> log_scale l u c 0 = l /\ log_scale l u c 1 = u.
Proof.
  intros H. rewrite !log_scale_exp by lra. unfold bounded_scale. destruct c; rewrite ?tclamp_id by lra;
    (split; [replace (0 * (ln u - ln l) + ln l) with (ln l) by ring|replace (1 * (ln u - ln l) + ln l) with (ln u) by ring]; apply exp_ln; lra).
Qed.
Lemma ln_lt_id y : 0 < y -> ln y < y.
Proof.
  intros H. rewrite <- (ln_exp y) at 2. apply ln_increasing; auto.
  pose proof (exp_ineq1 y ltac:(lra)). lra.
Qed.
Lemma log_mean_is_log l u loc sc : 0 < l -> 0 < u -> log_mean l u loc sc = ln (log_scale l u false loc).
Proof. intros. rewrite log_scale_exp, ln_exp by auto. unfold log_mean, bounded_scale. ring. Qed.

Lemma affine_between l u t : 0 <= t <= 1 -> Rmin l u <= t * (u - l) + l <= Rmax l u.
Proof.
  intros H. destruct (Rle_dec l u) as [Hl|Hl].
  - rewrite Rmin_left, Rmax_right by lra. split.
    + assert (0 <= t * (u - l)) by (apply Rmult_le_pos; lra). lra.
    + assert (t * (u - l) <= 1 * (u - l)) by (apply Rmult_le_compat_r; lra). lra.
  - rewrite Rmin_right, Rmax_left by lra. split.
    + assert (t * (l - u) <= 1 * (l - u)) by (apply Rmult_le_compat_r; lra). lra.
    + assert (0 <= t * (l - u)) by (apply Rmult_le_pos; lra). lra.
Qed.
Lemma opt_bounded_between l u x : Rmin l u <= opt_bounded l u None x <= Rmax l u.
Proof. apply affine_between, tclamp_in. lra. Qed.
