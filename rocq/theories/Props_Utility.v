(** C73 (brackets), C74 (finite differences), C75 (neural ODE wrapper), C85 (add_id) *)
From Coq Require Import Reals Lra Lia List ZArith.
From Verif Require Import Torch Deriv Slices Hardening Flow Utility.
Import ListNotations.
Local Open Scope R_scope.

(** macaulay x = max(x, 0); heaviside is 0, 1/2, 1 *)
Theorem C73_macaulay_heaviside : forall x,
  macaulay x = Rmax x 0
  /\ (x < 0 -> heaviside x = 0) /\ (x = 0 -> heaviside x = 1 / 2) /\ (0 < x -> heaviside x = 1).
Proof.
  intros x. split; [apply macaulay_mac|]. unfold heaviside. repeat split; intros H.
  - rewrite tsign_neg; lra.
  - rewrite H, tsign_0. lra.
  - rewrite tsign_pos; lra.
Qed.
Print Assumptions C73_macaulay_heaviside.
Example C73_ex : macaulay (-3) = 0 /\ macaulay 3 = 3 /\ heaviside 0 = 1 / 2.
Proof.
  rewrite !(proj1 (C73_macaulay_heaviside _)), Rmax_right, Rmax_left by lra.
  repeat split. apply (C73_macaulay_heaviside 0). reflexivity.
Qed.

(** batch_differentiate and new_differentiate are exact on every batched affine
    function x_b -> A_b x_b + c_b, at every point and every eps > 0. *)
Theorem C74_affine_exact : forall (n : nat) (A : nat -> nat -> nat -> R) (c x0 : nat -> nat -> R) (eps : R) (b i j : nat),
  0 < eps -> (j < n)%nat ->
  let fn := fun (x : nat -> nat -> R) b i => sum n (fun k => A b i k * x b k) + c b i in
  batch_differentiate fn x0 eps b i j = A b i j /\ new_differentiate_vec fn x0 eps b i j = A b i j.
Proof.
  intros n A c x0 eps b i j He Hj fn. split; unfold batch_differentiate, new_differentiate_vec;
    change fn with (affine_on n A c); rewrite affine_perturb by auto;
    field; pose proof (increment_ge eps (x0 b j) He); lra.
Qed.
Print Assumptions C74_affine_exact.
Theorem C74_flat_exact : forall (a c : nat -> nat -> R) (x0 : nat -> R) (eps : R) (b i : nat), 0 < eps ->
  new_differentiate_flat (fun x b i => a b i * x b + c b i) x0 eps b i = a b i.
Proof.
  intros a c x0 eps b i He. unfold new_differentiate_flat.
  pose proof (increment_ge eps (x0 0%nat) He). field. lra.
Qed.
Print Assumptions C74_flat_exact.
(** For any pointwise differentiable function the quotient is the partial derivative at
    some point no further away than eps * max(|x|, 1). *)
Theorem C74_mean_value : forall (f : (nat -> R) -> R) (df : R -> R) (x0 : nat -> nat -> R) (eps : R) (b i j : nat),
  0 < eps -> (forall z, 0 <= z <= eps * Rmax (Rabs (x0 b j)) 1 ->
     derivable_pt_lim (fun z => f (fun k => x0 b k + (if Nat.eqb k j then z else 0))) z (df z)) ->
  (forall v w, (forall k, v k = w k) -> f v = f w) ->
  exists z, 0 < z < eps * Rmax (Rabs (x0 b j)) 1
    /\ batch_differentiate (fun x b _ => f (x b)) x0 eps b i j = df z
    /\ new_differentiate_vec (fun x b _ => f (x b)) x0 eps b i j = df z.
Proof.
  intros f df x0 eps b i j He Hd Hext. unfold batch_differentiate, new_differentiate_vec, perturb.
  pose proof (increment_ge eps (x0 b j) He) as Hi. rewrite <- increment_max in * by auto.
  set (h := increment eps (x0 b j)) in *.
  destruct (MVT_cor2 (fun z => f (fun k => x0 b k + (if Nat.eqb k j then z else 0))) df 0 h) as (z & E & Hz); [lra|auto|].
  exists z. split; [lra|].
  assert (E0 : f (fun k => x0 b k + (if Nat.eqb k j then 0 else 0)) = f (x0 b)).
  { apply Hext. intros k. destruct (Nat.eqb k j); ring. }
  rewrite E0 in E. fold h. rewrite E. split; field; lra.
Qed.
Print Assumptions C74_mean_value.
(** The old differentiate: exact at a non-zero scalar point ... *)
Theorem C74_differentiate_partial : forall (a c x0 : nat -> R) (eps : R) (b : nat), 0 < eps -> x0 b <> 0 ->
  differentiate_scalar (fun x b => a b * x b + c b) x0 eps b = Some (a b).
Proof.
  intros a c x0 eps b He Hx. unfold differentiate_scalar, tdiv.
  pose proof (Rabs_pos_lt _ Hx). assert (0 < Rabs (x0 b) * eps) by now apply Rmult_lt_0_compat.
  destruct (Req_EM_T _ 0); [lra|]. f_equal. field. lra.
Qed.
Print Assumptions C74_differentiate_partial.
(** ... a non-number at zero for every function, and for vectors only the diagonal of
    the Jacobian is a number, whatever the function. *)
Theorem C74_differentiate_refuted :
  (forall fn (x0 : nat -> R) eps b, x0 b = 0 -> differentiate_scalar fn x0 eps b = None)
  /\ (forall fn x0 eps b i j, i <> j -> differentiate_vec fn x0 eps b i j = None).
Proof.
  split.
  - intros fn x0 eps b H. unfold differentiate_scalar, tdiv. rewrite H, Rabs_R0, Rmult_0_l.
    destruct (Req_EM_T 0 0); [auto|lra].
  - intros fn x0 eps b i j H. unfold differentiate_vec, tdiv. apply Nat.eqb_neq in H. rewrite H.
    destruct (Req_EM_T 0 0); [auto|lra].
Qed.
Print Assumptions C74_differentiate_refuted.
Example C74_ex : batch_differentiate (fun x b i => sum 2 (fun k => INR (k + i) * x b k) + 1) (fun _ _ => 0) (1/1000) 0 1 1 = 2
  /\ differentiate_vec (fun x b i => sum 1 (fun k => 3 * x b k) + 1) (fun _ _ => 0) (1/1000) 0 0 0 = Some 3.
Proof.
  split.
  - refine (eq_trans (proj1 (C74_affine_exact 2 (fun b i k => INR (k + i)) (fun _ _ => 1) (fun _ _ => 0) (1/1000) 0 1 1 _ _)) _); [lra|lia|].
    simpl. lra.
  - unfold differentiate_vec, tdiv. simpl. pose proof (increment_ge (1/1000) 0 ltac:(lra)).
    destruct (Req_EM_T _ 0); [lra|]. f_equal. unfold perturb. simpl. field. lra.
Qed.

(** NeuralODE: for a forcing of size s >= 1 the second output is n columns wide and is
    the derivative of the rate along every curve of states, the forcing fixed. *)
Theorem C75_state_jacobian : forall jac net n s n_out (f y : nat -> vec),
  (1 <= s)%nat ->
  (forall x (X : R -> vec) x', vthrough (n + s) X x x' ->
     forall i, (i < n_out)%nat -> derivable_pt_lim (fun z => net (X z) i) 0 (sum (n + s) (fun j => jac net x i j * x' j))) ->
  exists J, neural_forward jac net n s n_out f y = (fun b => net (cat n (y b) (f b)), Some J)
   /\ forall b, j_rows (J b) = n_out /\ j_cols (J b) = n
      /\ forall (Y : R -> vec) y', vthrough n Y (y b) y' -> forall i, (i < n_out)%nat ->
           derivable_pt_lim (fun z => net (cat n (Y z) (f b)) i) 0 (sum n (fun j => j_at (J b) i j * y' j)).
Proof.
  intros jac net n s n_out f y Hs Hj. eexists. split; [reflexivity|]. intros b. simpl.
  split; [auto|]. split. { rewrite py_stop_neg; lia. }
  intros Y y' HY i Hi.
  assert (HX : vthrough (n + s) (fun z => cat n (Y z) (f b)) (cat n (y b) (f b)) (cat n y' vzero)).
  { intros k Hk. unfold through, cat. destruct (Nat.ltb_spec k n).
    - apply HY; auto.
    - split; [auto|]. apply D_const. }
  eapply D_eq. { exact (Hj _ _ _ HX i Hi). }
  rewrite sum_app. rewrite (sum_0 s).
  - rewrite Rplus_0_r. apply sum_ext. intros j Hjn. unfold cat. destruct (Nat.ltb_spec j n); [auto|lia].
  - intros j Hjs. unfold cat. destruct (Nat.ltb_spec (n + j) n); [lia|]. unfold vzero. ring.
Qed.
Print Assumptions C75_state_jacobian.
(** With an empty forcing the slice [: -0] keeps no column at all. *)
Theorem C75_empty_forcing_refuted : forall jac net n n_out f y, exists J,
  snd (neural_forward jac net n 0 n_out f y) = Some J /\ forall b, j_cols (J b) = 0%nat.
Proof. intros. eexists. split; [reflexivity|]. intros b. reflexivity. Qed.
Print Assumptions C75_empty_forcing_refuted.
Definition ex_net (x : vec) : vec := fun i => x i * x 1%nat.
Definition ex_jac (_ : vec -> vec) (x : vec) : mat := fun i j =>
  (if Nat.eqb i j then x 1%nat else 0) + (if Nat.eqb j 1 then x i else 0).
(** hypothesis met: a nonlinear network with one state and one force *)
Example C75_ex : forall x (X : R -> vec) x', vthrough (1 + 1) X x x' ->
     forall i, (i < 1)%nat -> derivable_pt_lim (fun z => ex_net (X z) i) 0 (sum (1 + 1) (fun j => ex_jac ex_net x i j * x' j)).
Proof.
  intros x X x' H i Hi. assert (i = 0)%nat as -> by lia. unfold ex_net.
  destruct (H 0%nat ltac:(lia)) as [E0 D0]. destruct (H 1%nat ltac:(lia)) as [E1 D1].
  eapply D_eq; [exact (D_mult _ _ _ _ _ D0 D1)|]. simpl. unfold ex_jac. simpl. rewrite E0, E1. ring.
Qed.

(** add_id adds one to the diagonal of every batch matrix, and is an error exactly for
    non-square, non-empty Jacobians. *)
Theorem C85_add_id : forall n m df,
  (n = m -> exists r, add_id n m df = Some r /\ forall b i j, r b i j = df b i j + (if Nat.eq_dec i j then 1 else 0))
  /\ (add_id n m df = None <-> n <> m /\ n <> 0%nat).
Proof.
  intros n m df. unfold add_id. split.
  - intros <-. rewrite Nat.eqb_refl. eexists. split; [reflexivity|]. intros b i j. destruct (Nat.eq_dec i j) as [->|N].
    + now rewrite Nat.eqb_refl.
    + apply Nat.eqb_neq in N. now rewrite N.
  - destruct (Nat.eqb_spec (n * n) (n * m)) as [E|E]; split; try discriminate.
    + intros [N Z]. apply Nat.mul_cancel_l in E; auto. contradiction.
    + intros _. split; [intros ->; auto|intros ->; auto].
    + auto.
Qed.
Print Assumptions C85_add_id.
Example C85_ex : add_id 2 3 (fun _ _ _ => 0) = None.
Proof. reflexivity. Qed.
