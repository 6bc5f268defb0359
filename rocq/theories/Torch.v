(** Elementwise torch operations over the reals, shared by the models of
    scaling.py, temperature.py, optimize.py, hardening.py, flowrules.py,
    damage.py and models.py.  Each batch point is a real number: floating point
    rounding is not modelled. *)
From Coq Require Import Reals Lra Lia ZArith.
Local Open Scope R_scope.

(** torch.clamp(x, lo, hi) = min(max(x, lo), hi) (so [hi] when lo > hi);
    used in scaling.py 164, 249, temperature.py 359, optimize.py 77-112. *)
Definition tclamp (lo hi x : R) : R := Rmin (Rmax x lo) hi.

(** torch.sign *)
Definition tsign (x : R) : R := if Rlt_dec 0 x then 1 else if Rlt_dec x 0 then -1 else 0.

(** Real power with torch's conventions on a non-negative base:
    0 ** 0 = 1, 0 ** y = 0 for y > 0.  (0 ** y for y < 0 is inf in torch: every
    theorem that uses this function there excludes it or uses [tpow].) *)
Definition pow0 (x y : R) : R :=
  if Rlt_dec 0 x then Rpower x y else if Req_EM_T y 0 then 1 else 0.

(** torch ** with the non-finite results made explicit: [None] is inf or nan.
    A negative base gives a number only for integer exponents. *)
Definition tpow (x y : R) : option R :=
  if Rlt_dec 0 x then Some (Rpower x y)
  else if Rlt_dec x 0 then
    (if Req_EM_T y (IZR (Int_part y)) then Some (powerRZ x (Int_part y)) else None)
  else if Req_EM_T y 0 then Some 1
  else if Rlt_dec 0 y then Some 0 else None.

(** ** Facts *)
Lemma tclamp_in lo hi x : lo <= hi -> lo <= tclamp lo hi x <= hi.
Proof. intros H. unfold tclamp, Rmin, Rmax. destruct (Rle_dec x lo); destruct (Rle_dec _ hi); lra. Qed.
Lemma tclamp_id lo hi x : lo <= x <= hi -> tclamp lo hi x = x.
Proof. intros H. unfold tclamp, Rmin, Rmax. destruct (Rle_dec x lo); destruct (Rle_dec _ hi); lra. Qed.
Lemma tclamp_mono lo hi x y : x <= y -> tclamp lo hi x <= tclamp lo hi y.
Proof.
  intros H. unfold tclamp, Rmin, Rmax.
  destruct (Rle_dec x lo); destruct (Rle_dec y lo); repeat destruct (Rle_dec _ hi); lra.
Qed.
Lemma tclamp_lo lo hi x : lo <= hi -> x <= lo -> tclamp lo hi x = lo.
Proof. intros H Hx. unfold tclamp, Rmin, Rmax. destruct (Rle_dec x lo); destruct (Rle_dec _ hi); lra. Qed.
Lemma tclamp_hi lo hi x : lo <= hi -> hi <= x -> tclamp lo hi x = hi.
Proof. intros H Hx. unfold tclamp, Rmin, Rmax. destruct (Rle_dec x lo); destruct (Rle_dec _ hi); lra. Qed.

Lemma tsign_pos x : 0 < x -> tsign x = 1.
Proof. intros. unfold tsign. destruct (Rlt_dec 0 x); lra. Qed.
Lemma tsign_neg x : x < 0 -> tsign x = -1.
Proof. intros. unfold tsign. destruct (Rlt_dec 0 x); [lra|]. destruct (Rlt_dec x 0); lra. Qed.
Lemma tsign_0 : tsign 0 = 0.
Proof. unfold tsign. destruct (Rlt_dec 0 0); [lra|]. destruct (Rlt_dec 0 0); lra. Qed.
Lemma tsign_abs x : tsign x * x = Rabs x.
Proof.
  destruct (Rtotal_order x 0) as [H|[->|H]].
  - rewrite tsign_neg, Rabs_left; lra.
  - rewrite tsign_0, Rabs_R0; ring.
  - rewrite tsign_pos, Rabs_right; lra.
Qed.
Lemma abs_tsign x : Rabs x * tsign x = x.
Proof.
  destruct (Rtotal_order x 0) as [H|[->|H]].
  - rewrite tsign_neg, Rabs_left; lra.
  - rewrite tsign_0; ring.
  - rewrite tsign_pos, Rabs_right; lra.
Qed.

Lemma pow0_pos x y : 0 < x -> pow0 x y = Rpower x y.
Proof. intros. unfold pow0. destruct (Rlt_dec 0 x); [auto|lra]. Qed.
Lemma pow0_0 y : y <> 0 -> pow0 0 y = 0.
Proof. intros. unfold pow0. destruct (Rlt_dec 0 0); [lra|]. destruct (Req_EM_T y 0); [lra|auto]. Qed.
Lemma pow0_ge0 x y : 0 <= pow0 x y.
Proof.
  unfold pow0. destruct (Rlt_dec 0 x).
  - left. apply exp_pos.
  - destruct (Req_EM_T y 0); lra.
Qed.
Lemma pow0_gt0 x y : 0 < x -> 0 < pow0 x y.
Proof. intros. rewrite pow0_pos by auto. apply exp_pos. Qed.
Lemma pow0_1 x : 0 <= x -> pow0 x 1 = x.
Proof.
  intros [H| <-].
  - rewrite pow0_pos, Rpower_1; auto.
  - apply pow0_0. lra.
Qed.
Lemma pow0_one y : pow0 1 y = 1.
Proof. rewrite pow0_pos by lra. unfold Rpower. now rewrite ln_1, Rmult_0_r, exp_0. Qed.
Lemma tpow_nonneg x y : 0 <= x -> (0 < x \/ 0 <= y) -> tpow x y = Some (pow0 x y).
Proof.
  intros Hx Hy. unfold tpow, pow0. destruct (Rlt_dec 0 x); [auto|].
  destruct (Rlt_dec x 0); [lra|]. destruct (Req_EM_T y 0); [auto|]. destruct (Rlt_dec 0 y); [auto|lra].
Qed.
Lemma tpow_neg_nonint x y : x < 0 -> (forall z, y <> IZR z) -> tpow x y = None.
Proof.
  intros Hx Hy. unfold tpow. destruct (Rlt_dec 0 x); [lra|]. destruct (Rlt_dec x 0); [|lra].
  destruct (Req_EM_T y _); [|auto]. exfalso. now apply (Hy (Int_part y)).
Qed.

Lemma Rpower_mono_base x x' y : 0 < x -> x <= x' -> 0 <= y -> Rpower x y <= Rpower x' y.
Proof.
  intros Hx H Hy. unfold Rpower. destruct H as [H| ->]; [|lra].
  assert (ln x < ln x') by (apply ln_increasing; auto).
  destruct (Rle_lt_or_eq_dec 0 y Hy) as [H1| <-].
  - left. apply exp_increasing. apply Rmult_lt_compat_l; auto.
  - rewrite !Rmult_0_l. lra.
Qed.
Lemma pow0_mono x x' y : 0 <= x -> x <= x' -> 0 < y -> pow0 x y <= pow0 x' y.
Proof.
  intros [Hx| <-] H Hy.
  - rewrite !pow0_pos by lra. apply Rpower_mono_base; lra.
  - rewrite pow0_0 by lra. apply pow0_ge0.
Qed.
Lemma pow0_le1 x y : 0 <= x <= 1 -> 0 < y -> pow0 x y <= 1.
Proof. intros H Hy. rewrite <- (pow0_one y). apply pow0_mono; lra. Qed.
Lemma Rpower_pred x y : 0 < x -> Rpower x (y - 1) * x = Rpower x y.
Proof. intros H. rewrite <- (Rpower_1 x) at 2 by auto. rewrite <- Rpower_plus. f_equal. ring. Qed.
Lemma pow0_pred x y : 0 <= x -> 1 < y -> pow0 x (y - 1) * x = pow0 x y.
Proof.
  intros [H| <-] Hy.
  - rewrite !pow0_pos by auto. now apply Rpower_pred.
  - rewrite !pow0_0 by lra. ring.
Qed.
