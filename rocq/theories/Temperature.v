(** Model of temperature.py.  Every class is elementwise in the temperature
    batch, so a parameter is a function of one temperature; parameters that may
    be batched with it are taken at the same batch point.  The exception is
    PiecewiseScaling, whose masked selection works on the whole batch. *)
From Coq Require Import Reals Lra Lia List Arith.
From Verif Require Import Torch Interp Scaling.
Import ListNotations.
Local Open Scope R_scope.

(** TemperatureParameter.forward, temperature.py 63-70: the numerical scaling
    is applied to the value.  [option]: None is a raised exception or nan/inf. *)
Definition forward {A} (scaling : A -> A) (value : R -> A) (T : R) : A := scaling (value T).

(** ConstantParameter.value, 97-107 *)
Definition constant_value {A} (p_scale : A -> A) (pvalue : A) (T : R) : A := p_scale pvalue.

(** ShearModulusScaling.value, 149-159 *)
Definition shear_value (A_scale : R -> R) (A : R) (mu : R -> R) (T : R) : R := A_scale A * mu T.
(** ShearModulusScalingExp.value, 201-211 *)
Definition shear_exp_value (A_scale : R -> R) (A : R) (mu : R -> R) (T : R) : R := exp (A_scale A) * mu T.

(** MTSScaling.value, 286-300; [b ** 3.0] is an integer power. *)
Definition mts_value (tau0_scale g0_scale q_scale p_scale : R -> R) (tau0 g0 q p k b : R) (mu : R -> R) (T : R) : option R :=
  match tpow (k * T / (mu T * b ^ 3 * g0_scale g0)) (1 / q_scale q) with
  | None => None
  | Some x => match tpow (1 - x) (1 / p_scale p) with
              | None => None
              | Some y => Some (tau0_scale tau0 * y)
              end
  end.

(** KMRateSensitivityScaling.value, 349-363 (default cutoff = 20, line 332). *)
Definition km_rate_value (A_scale : R -> R) (A : R) (mu : R -> R) (b k cutoff : R) (T : R) : R :=
  tclamp 1 cutoff (- mu T * b ^ 3 / (k * T * A_scale A)).
Definition km_default_cutoff : R := 20.

(** KMViscosityScaling.value, 438-449; the rate sensitivity is built at 427-429
    with cutoff = 1000. [eps0 ** (-1/n)] for eps0 > 0. *)
Definition km_visc_value (A_scale B_scale : R -> R) (A B : R) (mu : R -> R) (eps0 b k : R) (T : R) : R :=
  let n := km_rate_value A_scale A mu b k 1000 T in
  exp (B_scale B) * mu T * pow0 eps0 (- 1 / n).

(** PolynomialScaling.value, 484-501; [coefs] are the coefficients at one batch
    point; [acoefs[0]] raises on an empty list. *)
Definition polynomial_value (scale_fn : list R -> list R) (coefs : list R) (T : R) : option R :=
  match scale_fn coefs with
  | [] => None
  | c0 :: cs => Some (fold_left (fun res c => res * T + c) cs (0 + c0))
  end.

(** PiecewiseScaling.value, 540-572, on [m] temperatures in row-major order;
    [values j k] is the value at control point k used by entry j (the same row
    for all j, or the row of j's batch).  The mask, the candidate values and the
    selection are those of ArbitraryBatchTimeSeriesInterpolator ([select]): the
    code at 551-572 is the same expression.  [reshape(T.shape)] raises if the
    number of selected entries differs. *)
Definition piecewise_value (n : nat) (control : nat -> R) (values : nat -> nat -> R) (m : nat) (T : nat -> R)
  : option (nat -> R) :=
  let flat := flat_map (fun j => select n (fun k _ => control k) (fun k j => values j k) j (T j)) (seq 0 m) in
  if (length flat =? m)%nat then Some (fun j => nth j flat 0) else None.

(** ArrheniusScaling.value, 613-623 *)
Definition arrhenius_value (A_scale Q_scale : R -> R) (A Q T : R) : R := A_scale A * exp (- Q_scale Q / T).
(** InverseArrheniusScaling.value, 664-674 *)
Definition inverse_arrhenius_value (A_scale Q_scale : R -> R) (A Q T : R) : R := A_scale A * (1 - exp (- Q_scale Q / T)).

(** ** Specification of polynomial evaluation: numpy.polyval. *)
Fixpoint sum_n (n : nat) (f : nat -> R) : R := match n with O => 0 | S n' => sum_n n' f + f n' end.
Definition polyval (c : list R) (T : R) : R :=
  sum_n (length c) (fun i => nth i c 0 * T ^ (length c - 1 - i)).

(** ** Proofs *)
Lemma sum_n_ext n f g : (forall i, (i < n)%nat -> f i = g i) -> sum_n n f = sum_n n g.
Proof. induction n; simpl; intros H; [auto|]. rewrite IHn, H; auto. Qed.
Lemma sum_n_scal n f a : a * sum_n n f = sum_n n (fun i => a * f i).
Proof. induction n; simpl; [ring|]. rewrite <- IHn. ring. Qed.
Lemma polyval_snoc c x T : polyval (c ++ [x]) T = polyval c T * T + x.
Proof.
  unfold polyval. rewrite app_length. cbn [length]. replace (length c + 1)%nat with (S (length c)) by lia.
  cbn [sum_n]. rewrite app_nth2, Nat.sub_diag by lia. cbn [nth].
  replace (S (length c) - 1 - length c)%nat with 0%nat by lia. rewrite Rmult_comm with (r2 := T).
  rewrite sum_n_scal. f_equal; [|ring]. apply sum_n_ext. intros i Hi.
  rewrite app_nth1 by auto. replace (S (length c) - 1 - i)%nat with (S (length c - 1 - i)) by lia. cbn [pow]. ring.
Qed.
Lemma horner T cs : forall acc pre, acc = polyval pre T ->
  fold_left (fun res c => res * T + c) cs acc = polyval (pre ++ cs) T.
Proof.
  induction cs as [|c cs IH]; intros acc pre H; simpl.
  - now rewrite app_nil_r.
  - rewrite (IH _ (pre ++ [c])), <- app_assoc; auto. now rewrite polyval_snoc, H.
Qed.
Lemma polynomial_correct sf coefs T : sf coefs <> [] -> polynomial_value sf coefs T = Some (polyval (sf coefs) T).
Proof.
  intros H. unfold polynomial_value. destruct (sf coefs) as [|c0 cs]; [congruence|].
  f_equal. apply (horner T cs (0 + c0) [c0]). unfold polyval. simpl. ring.
Qed.

Lemma piecewise_in_range n control values m T : (2 <= n)%nat -> increasing n control ->
  (forall j, (j < m)%nat -> in_range n control (T j)) ->
  exists out, piecewise_value n control values m T = Some out /\
    forall j, (j < m)%nat -> interpolates n control (values j) (T j) (out j).
Proof.
  intros Hn HT HR. unfold piecewise_value.
  set (g := fun j => select n (fun k _ => control k) (fun k j => values j k) j (T j)).
  assert (G : forall j, (0 <= j < 0 + m)%nat -> exists y, g j = [y] /\ interpolates n control (values j) (T j) y).
  { intros j Hj. assert (Hj' : (j < m)%nat) by lia. 
    destruct (select_in n (fun k _ => control k) (fun k j => values j k) Hn j (T j) HT (HR j Hj')) as (y & E & I).
    exists y. auto. }
  destruct (flat_map_single n Hn g 0 0 m) as [L N].
  { intros k Hk. destruct (G k Hk) as (y & E & _). now exists y. }
  rewrite L, Nat.eqb_refl. eexists. split; [reflexivity|]. intros j Hj. cbv beta.
  destruct (G j ltac:(lia)) as (y & E & I). specialize (N j Hj). 
  rewrite Nat.add_0_l in N. rewrite E in N. injection N as <-. exact I.
Qed.
Lemma piecewise_out_of_range n control values m T j : (2 <= n)%nat -> increasing n control ->
  (j < m)%nat -> ~ in_range n control (T j) -> piecewise_value n control values m T = None.
Proof.
  intros Hn HT Hj HR. unfold piecewise_value.
  set (g := fun j => select n (fun k _ => control k) (fun k j => values j k) j (T j)).
  assert (L : (length (flat_map g (seq 0 m)) < m * 1)%nat).
  { apply (flat_map_len_lt n Hn) with (i := j); try lia.
    - intros k _. unfold g. now apply select_le.
    - unfold g. rewrite select_out; auto. }
  destruct (Nat.eqb_spec (length (flat_map g (seq 0 m))) m) as [E|E]; [lia|reflexivity].
Qed.

Lemma km_rate_in As A mu b k c T : 1 <= c -> 1 <= km_rate_value As A mu b k c T <= c.
Proof. intros. now apply tclamp_in. Qed.
Lemma tclamp_cutoff x c c' : 1 <= c -> c <= c' -> x <= c -> tclamp 1 c x = tclamp 1 c' x.
Proof.
  intros H1 H2 H. unfold tclamp, Rmin, Rmax. destruct (Rle_dec x 1); repeat destruct (Rle_dec _ _); lra.
Qed.

Lemma Rpower_ne a x y : 0 < a -> a <> 1 -> x <> y -> Rpower a x <> Rpower a y.
Proof.
  intros Ha H1 Hxy E. unfold Rpower in E. apply exp_inv in E.
  assert (ln a <> 0). { intros L. apply H1. rewrite <- ln_1 in L. now apply ln_inv in L; try lra. }
  apply Hxy. apply Rmult_eq_reg_r with (ln a); auto.
Qed.

(** MTS *)
Lemma mts_in_range ts gs qs ps tau0 g0 q p k b mu T :
  0 < qs q -> 0 < ps p -> 0 < mu T * b ^ 3 * gs g0 -> 0 <= k * T <= mu T * b ^ 3 * gs g0 ->
  mts_value ts gs qs ps tau0 g0 q p k b mu T =
  Some (ts tau0 * pow0 (1 - pow0 (k * T / (mu T * b ^ 3 * gs g0)) (1 / qs q)) (1 / ps p)) /\
  0 <= k * T / (mu T * b ^ 3 * gs g0) <= 1 /\ 
  0 <= 1 - pow0 (k * T / (mu T * b ^ 3 * gs g0)) (1 / qs q) <= 1.
Proof.
  intros Hq Hp HD HT. set (D := mu T * b ^ 3 * gs g0) in *.
  assert (0 < / D) by now apply Rinv_0_lt_compat.
  assert (0 < 1 / qs q) by (unfold Rdiv; rewrite Rmult_1_l; now apply Rinv_0_lt_compat).
  assert (0 < 1 / ps p) by (unfold Rdiv; rewrite Rmult_1_l; now apply Rinv_0_lt_compat).
  assert (X : 0 <= k * T / D <= 1).
  { unfold Rdiv. split; [apply Rmult_le_pos; lra|]. rewrite <- (Rinv_r D) by lra. apply Rmult_le_compat_r; lra. }
  pose proof (pow0_le1 _ (1 / qs q) X ltac:(auto)). pose proof (pow0_ge0 (k * T / D) (1 / qs q)).
  split; [|lra]. unfold mts_value. fold D. rewrite tpow_nonneg by lra. rewrite tpow_nonneg by lra. reflexivity.
Qed.
