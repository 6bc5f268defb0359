(** The flow rate of PerfectViscoplasticity with exponent at least one, as a function of the stress: odd, increasing, and convex on the
    positive axis, with the derivative the code computes as its slope.  (No code is modelled here.) *)
From Coq Require Import Reals Lra Lia Psatz.
From Verif Require Import Torch Slices Deriv Flow NewtonScalar.
Open Scope R_scope.

Lemma ln_le_minus1 x : 0 < x -> ln x <= x - 1.
Proof. intros X. pose proof (exp_ineq1_le (ln x)) as H. rewrite exp_ln in H by auto. lra. Qed.
Lemma mean_power w th : 0 < w -> 0 <= th <= 1 -> Rpower w th <= th * w + (1 - th).
Proof.
  intros W T. assert (M : 0 < th * w + (1 - th)).
  { destruct (Rle_lt_dec th (1 / 2)); [pose proof (Rmult_le_pos th w ltac:(lra) ltac:(lra)); lra|pose proof (Rmult_lt_0_compat th w ltac:(lra) W); lra]. }
  set (m := th * w + (1 - th)) in *. unfold Rpower. rewrite <- (exp_ln m) by auto. 
  assert (L : th * ln w <= ln m); [|destruct L as [L| ->]; [left; now apply exp_increasing|lra]].
  assert (IM : 0 < / m) by now apply Rinv_0_lt_compat.
  pose proof (ln_le_minus1 (w * / m) ltac:(now apply Rmult_lt_0_compat)) as A. pose proof (ln_le_minus1 (/ m) IM) as B.
  rewrite ln_mult in A by auto. rewrite ln_Rinv in * by auto.
  pose proof (Rmult_le_compat_l th _ _ (proj1 T) A). pose proof (Rmult_le_compat_l (1 - th) _ _ ltac:(lra) B).
  assert (E : th * (w * / m - 1) + (1 - th) * (/ m - 1) = 0) by (replace (th * (w * / m - 1) + (1 - th) * (/ m - 1)) with (m * / m - 1) by (unfold m; ring); rewrite Rinv_r by lra; ring).
  lra.
Qed.
Lemma bernoulli_real u n : 0 < u -> 1 <= n -> 1 + n * (u - 1) <= Rpower u n.
Proof.
  intros U N. pose proof (mean_power (Rpower u n) (/ n) (exp_pos _)) as H.
  assert (I : 0 < / n <= 1) by (split; [apply Rinv_0_lt_compat; lra|rewrite <- Rinv_1; apply Rinv_le_contravar; lra]).
  specialize (H ltac:(lra)). rewrite Rpower_mult, Rinv_r, Rpower_1 in H by lra.
  apply (Rmult_le_compat_l n) in H; [|lra]. replace (n * (/ n * Rpower u n + (1 - / n))) with (Rpower u n + n - 1) in H by (field; lra). lra.
Qed.
Lemma pow0_tangent x y n : 0 <= x -> 0 <= y -> 1 <= n -> pow0 x n + n * pow0 x (n - 1) * (y - x) <= pow0 y n.
Proof.
  intros X Y N. assert (Y0 : 0 <= pow0 y n). { destruct Y as [Y| <-]; [rewrite pow0_pos by auto; left; apply exp_pos|rewrite pow0_0 by lra; lra]. }
  destruct X as [X| <-].
  - rewrite !pow0_pos by auto.
    assert (E : Rpower x (n - 1) * x = Rpower x n). { rewrite <- (Rpower_1 x X) at 2. rewrite <- Rpower_plus. f_equal. ring. }
    pose proof (exp_pos (n * ln x)) as P. change (0 < Rpower x n) in P.
    destruct Y as [Y| <-].
    + rewrite pow0_pos by auto. pose proof (bernoulli_real (y / x) n ltac:(now apply Rdiv_lt_0_compat) N) as B.
      assert (E2 : Rpower y n = Rpower x n * Rpower (y / x) n).
      { rewrite Rpower_mult_distr; [f_equal; field; lra|auto|now apply Rdiv_lt_0_compat]. }
      rewrite E2. apply (Rmult_le_compat_l (Rpower x n)) in B; [|lra]. eapply Rle_trans; [|exact B]. right. rewrite <- E. field. lra.
    + assert (Rpower x n <= n * Rpower x n) by nra. rewrite pow0_0 by lra. nra.
  - rewrite (pow0_0 n) by lra. destruct (Req_dec n 1) as [->|NE].
    + replace (1 - 1) with 0 by ring. destruct Y as [Y| <-].
      * rewrite (pow0_pos y), Rpower_1, pow0_00 by auto. lra.
      * rewrite (pow0_0 1) by lra. lra.
    + rewrite pow0_0 by lra. lra.
Qed.

(** stress rate lost to the flow, and its slope *)
Lemma perfect_odd_convex (E : R) pn eta h t T e : 0 <= E -> 0 < eta T -> 1 <= pn T ->
  odd_convex (fun s => E * fl_rate (perfect pn eta) s h t T e) (fun s => E * fl_ds (perfect pn eta) s h t T e).
Proof.
  intros E0 H N. assert (I : 0 < / eta T) by now apply Rinv_0_lt_compat. repeat split.
  - intros s. rewrite !perfect_spow by auto. replace (- s / eta T) with (- (s / eta T)) by (unfold Rdiv; ring). rewrite spow_odd. ring.
  - intros s. cbn [perfect fl_ds]. now rewrite Rabs_Ropp.
  - intros s. cbn [perfect fl_ds]. pose proof (pow0_ge0 (Rabs s / eta T) (pn T - 1)). unfold Rdiv. repeat apply Rmult_le_pos; lra.
  - intros s u S U. cbn [perfect fl_rate fl_ds]. rewrite !Rabs_pos_eq by auto.
    pose proof (pow0_tangent (s / eta T) (u / eta T) (pn T) ltac:(unfold Rdiv; apply Rmult_le_pos; lra) ltac:(unfold Rdiv; apply Rmult_le_pos; lra) N) as Q.
    assert (V : forall v, 0 <= v -> pow0 (v / eta T) (pn T) * tsign v = pow0 (v / eta T) (pn T)).
    { intros v [P| <-]; [rewrite tsign_pos by auto; ring|]. unfold Rdiv. rewrite Rmult_0_l, pow0_0 by lra. ring. }
    rewrite !V by auto. apply (Rmult_le_compat_l E) in Q; [|auto]. eapply Rle_trans; [|exact Q]. right. unfold Rdiv. ring.
Qed.

(** Square-law Newton iterations from zero: a large load needs many of them. *)
Lemma square_newton (c : R) (s : nat -> R) : 0 < c -> s 0%nat = 0 ->
  (forall j, newton_to 1 (fun s => 1 * fl_rate (perfect (fun _ => 2) (fun _ => 1)) s vzero 0 0 0) (fun s => 1 * fl_ds (perfect (fun _ => 2) (fun _ => 1)) s vzero 0 0 0) (s j) c (s (S j))) ->
  forall m, 9 * 2 ^ m * 2 ^ m <= c -> forall j, (j <= m)%nat -> c <= Rabs (s j + 1 * fl_rate (perfect (fun _ => 2) (fun _ => 1)) (s j) vzero 0 0 0 - c).
Proof.
  intros C S0 IT m M.
  assert (V : forall u, 0 <= u -> fl_rate (perfect (fun _ => 2) (fun _ => 1)) u vzero 0 0 0 = u * u).
  { intros u U. cbn [perfect fl_rate]. unfold Rdiv. rewrite Rinv_1, Rmult_1_r, Rabs_pos_eq by auto. destruct U as [U| <-]; [|rewrite pow0_0 by lra; ring].
    rewrite pow0_pos, tsign_pos by auto. replace 2 with (1 + 1) by ring. rewrite Rpower_plus, Rpower_1 by auto. ring. }
  assert (DV : forall u, 0 <= u -> fl_ds (perfect (fun _ => 2) (fun _ => 1)) u vzero 0 0 0 = 2 * u).
  { intros u U. cbn [perfect fl_ds]. unfold Rdiv. rewrite Rinv_1, !Rmult_1_r, Rabs_pos_eq by auto. replace (2 - 1) with 1 by ring. rewrite pow0_1 by auto. ring. }
  assert (ST : forall j, 0 <= s j -> s (S j) * (1 + 2 * s j) = c + s j * s j).
  { intros j P. pose proof (IT j) as Q. unfold newton_to in Q. rewrite V, DV in Q by auto. rewrite !Rmult_1_l in Q. rewrite Q. ring. }
  assert (P : forall j, 0 <= s j).
  { induction j as [|j IH]; [lra|]. pose proof (ST j IH). destruct (Rle_lt_dec 0 (s (S j))) as [|L]; [auto|exfalso]. nra. }
  assert (L : forall j, c <= (s (S j) + 1 / 2) * 2 ^ j).
  { induction j as [|j IH].
    - pose proof (ST 0%nat (P _)) as Q. rewrite S0 in Q. simpl. lra.
    - pose proof (ST (S j) (P _)) as Q. pose proof (P (S j)). pose proof (P (S (S j))).
      assert (s (S j) / 2 - 1 / 4 <= s (S (S j))).
      { apply Rmult_le_reg_r with (1 + 2 * s (S j)); [lra|]. rewrite Q. nra. }
      simpl. pose proof (pow_lt 2 j ltac:(lra)). nra. }
  intros j Hj. rewrite V by auto. destruct j as [|j].
  - rewrite S0. rewrite Rabs_left; lra.
  - assert (W : 2 ^ j <= 2 ^ m) by (apply Rle_pow; [lra|lia]). pose proof (L j) as LJ. pose proof (P (S j)) as PJ.
    set (w := 2 ^ m) in *. assert (W1 : 1 <= w) by (apply pow_R1_Rle; lra).
    assert (A : c <= (s (S j) + 1 / 2) * w). { eapply Rle_trans; [exact LJ|]. apply Rmult_le_compat_l; lra. }
    assert (B : 9 * w <= s (S j) + 1 / 2). { apply Rmult_le_reg_r with w; [lra|]. lra. }
    assert (2 * c <= s (S j) * s (S j)). { assert (c <= (s (S j) + 1 / 2) * ((s (S j) + 1 / 2) / 9)) by (eapply Rle_trans; [exact A|]; apply Rmult_le_compat_l; lra). nra. }
    rewrite Rabs_pos_eq; lra.
Qed.
