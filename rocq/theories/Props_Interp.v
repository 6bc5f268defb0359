(** Property theorems for the interpolators (C30-C33, C80). *)
From Coq Require Import Reals List Lra Lia.
From Verif Require Import Interp.
Import ListNotations.
Local Open Scope R_scope.

(** Column b of a (time, batch) table. *)
Notation col A b := (fun k => A k b).

Theorem C30_interpolant_determined n T V x y y' : increasing n T ->
  interpolates n T V x y -> interpolates n T V x y' -> y = y'.
Proof. exact (interpolates_unique n T V x y y'). Qed.
Print Assumptions C30_interpolant_determined.

Theorem C30_piecewise_linear nt nb times values nq t : (2 <= nt)%nat ->
  (forall b, (b < nb)%nat -> increasing nt (col times b)) ->
  (forall q b, (q < nq)%nat -> (b < nb)%nat -> in_range nt (col times b) (t q b)) ->
  exists out, abtsi nt nb times values nq t = Some out /\
    forall q b, (q < nq)%nat -> (b < nb)%nat ->
      interpolates nt (col times b) (col values b) (t q b) (out q b).
Proof. intros H. exact (abtsi_in_range nt nb times values H nq t). Qed.
Print Assumptions C30_piecewise_linear.

(** One-dimensional queries: same values; for a batch of one the result is a
    scalar instead of a vector of length one. *)
Theorem C30_piecewise_linear_1d nt nb times values t : (2 <= nt)%nat ->
  (forall b, (b < nb)%nat -> increasing nt (col times b)) ->
  (forall b, (b < nb)%nat -> in_range nt (col times b) (t b)) ->
  exists l, length l = nb /\
    abtsi1 nt nb times values t = (match l with [r] => Scalar r | _ => Vec l end) /\
    forall b, (b < nb)%nat -> interpolates nt (col times b) (col values b) (t b) (nth b l 0).
Proof. intros H. exact (abtsi1_in_range nt nb times values H t). Qed.
Print Assumptions C30_piecewise_linear_1d.

Theorem C30_data_at_nodes nt nb times values nq t : (2 <= nt)%nat ->
  (forall b, (b < nb)%nat -> increasing nt (col times b)) ->
  (forall q b, (q < nq)%nat -> (b < nb)%nat -> in_range nt (col times b) (t q b)) ->
  exists out, abtsi nt nb times values nq t = Some out /\
    forall q b i, (q < nq)%nat -> (b < nb)%nat -> (i < nt)%nat -> t q b = times i b -> out q b = values i b.
Proof.
  intros Hn HT HR. destruct (C30_piecewise_linear nt nb times values nq t Hn HT HR) as (out & E & I).
  exists out. split; auto. intros q b i Hq Hb Hi Ht.
  apply (interpolates_node nt (col times b) (col values b)); auto.
  rewrite <- Ht. now apply I.
Qed.
Print Assumptions C30_data_at_nodes.

Theorem C31_out_of_range_raises nt nb times values nq t q b : (2 <= nt)%nat ->
  (forall b, (b < nb)%nat -> increasing nt (col times b)) ->
  (q < nq)%nat -> (b < nb)%nat -> ~ (times 0%nat b <= t q b <= times (nt - 1)%nat b) ->
  abtsi nt nb times values nq t = None.
Proof. intros H. exact (abtsi_out_of_range nt nb times values H nq t q b). Qed.
Print Assumptions C31_out_of_range_raises.

(** Refutation for one-dimensional queries: a tensor that is too short comes
    back instead of an exception. *)
Theorem C31_one_dimensional_refuted nt nb times values t b : (2 <= nt)%nat ->
  (forall b, (b < nb)%nat -> increasing nt (col times b)) ->
  (b < nb)%nat -> ~ (times 0%nat b <= t b <= times (nt - 1)%nat b) ->
  match abtsi1 nt nb times values t with Scalar _ => (1 < nb)%nat | Vec l => (length l < nb)%nat end.
Proof. intros H. exact (abtsi1_out_of_range nt nb times values H t b). Qed.
Print Assumptions C31_one_dimensional_refuted.

Theorem C32_precached nt times values t b : (2 <= nt)%nat -> increasing nt (col times b) ->
  in_range nt (col times b) (t b) ->
  interpolates nt (col times b) (col values b) (t b) (batch_tsi nt times values t b).
Proof. intros H. exact (batch_tsi_in_range nt times values H t b). Qed.
Print Assumptions C32_precached.

Theorem C32_one_shot_batch nt times values t b : (2 <= nt)%nat -> increasing nt (col times b) ->
  in_range nt (col times b) (t b) ->
  interpolates nt (col times b) (col values b) (t b) (interp_batch nt times values t b).
Proof. intros H. exact (interp_batch_in_range nt times values H t b). Qed.
Print Assumptions C32_one_shot_batch.

Theorem C32_one_shot_single nt times values t b : (2 <= nt)%nat -> increasing nt times -> in_range nt times t ->
  interpolates nt times (col values b) t (interp_single nt times values t b).
Proof. exact (interp_single_in_range nt times values t b). Qed.
Print Assumptions C32_one_shot_single.

Theorem C32_all_agree nt nb times values t : (2 <= nt)%nat ->
  (forall b, (b < nb)%nat -> increasing nt (col times b)) ->
  (forall b, (b < nb)%nat -> in_range nt (col times b) (t b)) ->
  exists out, abtsi nt nb times values 1 (fun _ b => t b) = Some out /\
  forall b, (b < nb)%nat ->
    batch_tsi nt times values t b = out 0%nat b /\ interp_batch nt times values t b = out 0%nat b /\
    interp_single nt (col times b) values (t b) b = out 0%nat b.
Proof.
  intros Hn HT HR.
  destruct (C30_piecewise_linear nt nb times values 1 (fun _ b => t b) Hn HT) as (out & E & I); auto.
  exists out. split; auto. intros b Hb.
  assert (I0 := I 0%nat b (le_n 1) Hb). cbv beta in I0.
  repeat split; (apply (interpolates_unique nt (col times b) (col values b) (t b)); [now apply HT| |exact I0]).
  - apply C32_precached; auto.
  - apply C32_one_shot_batch; auto.
  - apply C32_one_shot_single; auto.
Qed.
Print Assumptions C32_all_agree.

Theorem C33_entry_zero nt times values t : (2 <= nt)%nat -> increasing nt (col times 0%nat) ->
  in_range nt (col times 0%nat) (t 0%nat) ->
  interpolates nt (col times 0%nat) (col values 0%nat) (t 0%nat) (cheater nt times values t 0%nat).
Proof. intros H. exact (cheater_zero nt times values H t). Qed.
Print Assumptions C33_entry_zero.

Theorem C33_same_bracket nt times values t b i : (2 <= nt)%nat -> increasing nt (col times 0%nat) -> (S i < nt)%nat ->
  (times i 0%nat < t 0%nat <= times (S i) 0%nat \/ (i = 0%nat /\ t 0%nat <= times 0%nat 0%nat)) ->
  times i b <= t b <= times (S i) b ->
  interpolates nt (col times b) (col values b) (t b) (cheater nt times values t b).
Proof.
  intros Hn HT Hi [H|[-> H]] Hb.
  - now apply (cheater_other nt times values Hn t b i).
  - apply cheater_other_first; auto. lia.
Qed.
Print Assumptions C33_same_bracket.

(** C80: queries before the first time silently continue the last segment
    (precached) or the chord from the last point to the first (one-shot). *)
Theorem C80_left_of_range_refuted nt times values t b : (2 <= nt)%nat -> increasing nt (col times b) ->
  t b < times 0%nat b ->
  batch_tsi nt times values t b
  = values (nt - 1)%nat b + (values (nt - 1)%nat b - values (nt - 2)%nat b)
      / (times (nt - 1)%nat b - times (nt - 2)%nat b) * (t b - times (nt - 1)%nat b) /\
  interp_batch nt times values t b
  = values (nt - 1)%nat b + (values 0%nat b - values (nt - 1)%nat b)
      / (times 0%nat b - times (nt - 1)%nat b) * (t b - times (nt - 1)%nat b).
Proof.
  intros H HT Hx. split.
  - now apply batch_tsi_left.
  - now apply interp_batch_left.
Qed.
Print Assumptions C80_left_of_range_refuted.

(** ** Concrete instances *)
Definition ex_times (k b : nat) : R := INR k * (INR b + 1).
Definition ex_values (k b : nat) : R := INR k * INR k - INR b.
Example ex_increasing n b : increasing n (col ex_times b).
Proof.
  intros i j Hij _. unfold ex_times. apply Rmult_lt_compat_r.
  - pose proof (pos_INR b). lra.
  - now apply lt_INR.
Qed.
Example C30_ex : forall q b, (q < 2)%nat -> (b < 3)%nat ->
  in_range 4 (col ex_times b) (INR q + /2).
Proof.
  intros q b Hq Hb. unfold in_range, ex_times. cbn [Nat.sub].
  replace (INR 3) with 3 by (cbn; lra). replace (INR 0) with 0 by reflexivity.
  pose proof (pos_INR q). pose proof (pos_INR b).
  assert (INR q <= 1) by (apply (le_INR q 1); lia). nra.
Qed.
(** The precached interpolator does not continue the first segment on the left. *)
Example C80_ex : batch_tsi 3 ex_times ex_values (fun _ => -1) 0 <> -1.
Proof.
  destruct (C80_left_of_range_refuted 3 ex_times ex_values (fun _ => -1) 0) as [E _].
  - lia.
  - apply ex_increasing.
  - unfold ex_times. cbn. lra.
  - rewrite E. unfold ex_times, ex_values. cbn. lra.
Qed.
