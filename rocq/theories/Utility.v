(** Model of the numerical-differentiation and neural-ODE helpers:
    pyoptmat/utility.py 113-276 (batch_differentiate, new_differentiate,
    differentiate), 512-524 (add_id) and pyoptmat/neuralode.py. *)
From Coq Require Import Reals Lra Lia List ZArith.
From Verif Require Import Torch Deriv Slices Hardening.
Import ListNotations.
Local Open Scope R_scope.

(** A batched function: [fn x b i] is component [i] of the output at batch
    index [b]; batch dimensions are flattened into one index. *)
Definition batched := (nat -> vec) -> (nat -> vec).

(** utility.py 153-154: inc = abs(x) * eps; inc[inc < eps] = eps *)
Definition increment (eps x : R) : R := if Rlt_dec (Rabs x * eps) eps then eps else Rabs x * eps.

(** utility.py 152-157: dx = zeros_like(x0); dx[..., j] = inc; x0 + dx *)
Definition perturb (x0 : nat -> vec) (j : nat) (inc : nat -> R) : nat -> vec :=
  fun b k => x0 b k + (if Nat.eqb k j then inc b else 0).

(** utility.py 113-173, batch_differentiate, for outputs and inputs of rank at
    most one past the batch dimensions (a rank-0 input or output is carried as a
    vector of length one, lines 138-144, and squeezed at the end, 166-171). *)
Definition batch_differentiate (fn : batched) (x0 : nat -> vec) (eps : R) (b i j : nat) : R :=
  let inc := fun b => increment eps (x0 b j) in
  (fn (perturb x0 j inc) b i - fn x0 b i) / inc b.

(** utility.py 176-224, new_differentiate, input of rank one past the batch *)
Definition new_differentiate_vec (fn : batched) (x0 : nat -> vec) (eps : R) (b i j : nat) : R :=
  let inc := fun b => increment eps (x0 b j) in
  (fn (perturb x0 j inc) b i - fn x0 b i) / inc b.
(** same, rank-0 input (the [flatten] branch, 200-202 and 217-218).  Line 213 then reads
    x0[..., (0,)] of an [(nbatch,)] tensor: the increment of the batch entry 0
    is used for every batch entry. *)
Definition new_differentiate_flat (fn : (nat -> R) -> nat -> vec) (x0 : nat -> R) (eps : R) (b i : nat) : R :=
  let inc := increment eps (x0 0%nat) in
  (fn (fun b => x0 b + inc) b i - fn x0 b i) / inc.

(** Division that makes a zero denominator visible: torch returns inf or nan. *)
Definition tdiv (x y : R) : option R := if Req_EM_T y 0 then None else Some (x / y).

(** utility.py 227-276, differentiate, rank-0 input and output: dx = abs(x0)*eps (260),
    no lower limit on the increment *)
Definition differentiate_scalar (fn : (nat -> R) -> nat -> R) (x0 : nat -> R) (eps : R) (b : nat) : option R :=
  let dx := fun b => Rabs (x0 b) * eps in
  tdiv (fn (fun b => x0 b + dx b) b - fn x0 b) (dx b).
(** differentiate, rank-1 input and output of the same size (otherwise line 274
    fails or broadcasts a size of one): the quotient is by the whole vector dx,
    which is zero except at component [j] *)
Definition differentiate_vec (fn : batched) (x0 : nat -> vec) (eps : R) (b i j : nat) : option R :=
  let inc := fun b => increment eps (x0 b j) in
  tdiv (fn (perturb x0 j inc) b i - fn x0 b i) (if Nat.eqb i j then inc b else 0).

(** utility.py 512-524, add_id: df plus the batched identity; the identity of size
    df.shape[1] is reshaped to df.shape[1:], an error unless the matrix is square *)
Definition add_id (n m : nat) (df : nat -> mat) : option (nat -> mat) :=
  if Nat.eqb (n * n) (n * m) then Some (fun b i j => df b i j + (if Nat.eqb i j then 1 else 0)) else None.

(** ** neuralode.py *)
(** Python's x[: stop] on a dimension of length [len] *)
Definition py_stop (len : nat) (stop : Z) : nat :=
  if Z.ltb stop 0 then Z.to_nat (Z.max 0 (Z.of_nat len + stop)) else Nat.min (Z.to_nat stop) len.

Record jmat := JMat { j_rows : nat; j_cols : nat; j_at : mat }.

(** utility.py 31-57, jacobianize() with one argument: the value, and a one-element
    tuple holding functorch.jacrev mapped over the batch.  [net] is the network at one
    batch point and [jac net x] is what reverse-mode AD returns there. *)
Definition jacobianize (jac : (vec -> vec) -> vec -> mat) (n_in n_out : nat) (net : vec -> vec) (x : nat -> vec)
  : (nat -> vec) * list (nat -> jmat) :=
  (fun b => net (x b), [fun b => JMat n_out n_in (jac net (x b))]).

(** neuralode.py 53-65, NeuralODE.forward; [f] is force(t), of size [s]; [y] has size [n] *)
Definition neural_forward (jac : (vec -> vec) -> vec -> mat) (net : vec -> vec) (n s n_out : nat) (f y : nat -> vec)
  : (nat -> vec) * option (nat -> jmat) :=
  let x := fun b => cat n (y b) (f b) in
  let vj := jacobianize jac (n + s) n_out net x in
  (fst vj, match nth_error (snd vj) 0 with
           | Some J => Some (fun b => JMat (j_rows (J b)) (py_stop (j_cols (J b)) (- Z.of_nat s)) (j_at (J b)))
           | None => None end).

(** ** Facts *)
Lemma increment_max eps x : 0 < eps -> increment eps x = eps * Rmax (Rabs x) 1.
Proof.
  intros He. unfold increment. destruct (Rlt_dec _ _) as [H|H].
  - assert (Rabs x < 1) by (apply (Rmult_lt_reg_r eps); lra). rewrite Rmax_right; lra.
  - assert (1 <= Rabs x) by (apply (Rmult_le_reg_r eps); lra). rewrite Rmax_left; lra.
Qed.
Lemma increment_ge eps x : 0 < eps -> eps <= increment eps x.
Proof. intros He. unfold increment. destruct (Rlt_dec _ _); lra. Qed.

Definition affine_on (n : nat) (A : nat -> mat) (c : nat -> vec) : batched :=
  fun x b i => sum n (fun k => A b i k * x b k) + c b i.
Lemma affine_perturb n A c x0 j inc b i : (j < n)%nat ->
  affine_on n A c (perturb x0 j inc) b i - affine_on n A c x0 b i = A b i j * inc b.
Proof.
  intros Hj. unfold affine_on.
  replace (sum n (fun k => A b i k * perturb x0 j inc b k))
    with (sum n (fun k => A b i k * x0 b k) + sum n (fun k => A b i k * (if Nat.eqb k j then inc b else 0))).
  2:{ rewrite <- sum_plus. apply sum_ext. intros k _. unfold perturb. ring. }
  rewrite (sum_single n j (fun k => A b i k * (if Nat.eqb k j then inc b else 0))); auto.
  - rewrite Nat.eqb_refl. ring.
  - intros k _ N. apply Nat.eqb_neq in N. rewrite N. ring.
Qed.
Lemma py_stop_neg len s : (1 <= s <= len)%nat -> py_stop len (- Z.of_nat s) = (len - s)%nat.
Proof. intros H. unfold py_stop. destruct (Z.ltb_spec (- Z.of_nat s) 0); lia. Qed.
Lemma py_stop_0 len : py_stop len (- Z.of_nat 0) = 0%nat.
Proof. reflexivity. Qed.
