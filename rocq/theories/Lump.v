(** Backstresses that can be merged: those with the same recovery rate, and those that are switched off. *)
From Coq Require Import Reals Lra Lia Arith.
From Verif Require Import Torch Deriv Slices VCStep VCHistory.
Local Open Scope R_scope.

(** [to i = Some j]: backstress i of the larger model is part of backstress j of the smaller; [to i = None]: it is dropped. *)
Definition part (to : nat -> option nat) (j i : nat) : bool := match to i with Some j' => Nat.eqb j' j | None => false end.
(** Sum of the parts of backstress j *)
Definition total (to : nat -> option nat) (N : nat) (x : nat -> R) (j : nat) : R := sum N (fun i => if part to j i then x i else 0).

Lemma total_scal to N a x j : total to N (fun i => a * x i) j = a * total to N x j.
Proof. unfold total. rewrite <- sum_scal. apply sum_ext; intros i _. destruct (part to j i); ring. Qed.
Lemma total_minus to N x x' j : total to N (fun i => x i - x' i) j = total to N x j - total to N x' j.
Proof. unfold total. rewrite <- sum_minus. apply sum_ext; intros i _. destruct (part to j i); ring. Qed.
Lemma total_ext to N x x' j : (forall i, (i < N)%nat -> part to j i = true -> x i = x' i) -> total to N x j = total to N x' j.
Proof. intros H. apply sum_ext; intros i Hi. destruct (part to j i) eqn:E; auto. Qed.
(** Nothing is lost by grouping, as long as the dropped entries are zero. *)
Lemma sum_total to N M x : (forall i j, (i < N)%nat -> to i = Some j -> (j < M)%nat) -> (forall i, (i < N)%nat -> to i = None -> x i = 0) ->
  sum M (total to N x) = sum N x.
Proof.
  intros H1 H2. unfold total. induction N as [|N IH].
  - cbn [sum]. apply sum_0; reflexivity.
  - cbn [sum]. rewrite sum_plus, IH by (intros; try eapply H1; try apply H2; try eassumption; lia). f_equal.
    unfold part. destruct (to N) as [j|] eqn:E.
    + rewrite (sum_single M j); [now rewrite Nat.eqb_refl|apply (H1 N); auto|].
      intros i _ Hi. destruct (Nat.eqb_spec j i); [congruence|reflexivity].
    + rewrite sum_0 by reflexivity. symmetry; apply H2; auto.
Qed.

Section Step.
Variables (n eta s0 Rs d : R -> R) (N M : nat) (C g C' g' : R -> nat -> R) (to : nat -> option nat).
(** The smaller model's parameters (primed) at temperature T. *)
Definition merges (T : R) : Prop :=
  (forall i j, (i < N)%nat -> to i = Some j -> (j < M)%nat /\ g T i = g' T j) /\
  (forall i, (i < N)%nat -> to i = None -> C T i = 0) /\
  (forall j, (j < M)%nat -> C' T j = total to N (C T) j).
Definition merged (h : vec) : vec := fun i => match i with O => h O | S j => total to N (fun i => h (S i)) j end.
Definition dropped_zero (h : vec) : Prop := forall i, (i < N)%nat -> to i = None -> h (S i) = 0.

Lemma step_merged EE T dt de s h s' h' : merges T -> 0 <= dt -> (forall i, (i < N)%nat -> 0 < g T i) -> dropped_zero h ->
  model_step n eta s0 Rs d N C g EE T dt de s h s' h' ->
  dropped_zero h' /\ model_step n eta s0 Rs d M C' g' EE T dt de s (merged h) s' (merged h').
Proof.
  intros [M1 [M2 M3]] Hdt Hg Z [H1 [H2 H3]].
  assert (Z' : dropped_zero h').
  { intros i Hi Ti. specialize (H3 i Hi). rewrite (Z i Hi Ti), (M2 i Hi Ti) in H3.
    pose proof (Rabs_pos (the_flow n eta s0 N T s' h')) as Ha. specialize (Hg i Hi).
    assert (K : h' (S i) * (1 + dt * (g T i * Rabs (the_flow n eta s0 N T s' h'))) = 0) by nra.
    assert (0 <= dt * (g T i * Rabs (the_flow n eta s0 N T s' h'))) by (apply Rmult_le_pos; [auto|apply Rmult_le_pos; lra]).
    apply Rmult_integral in K. destruct K; [auto|lra]. }
  split; [exact Z'|].
  assert (F : the_flow n eta s0 M T s' (merged h') = the_flow n eta s0 N T s' h').
  { unfold the_flow. cbn [merged]. f_equal. f_equal.
    apply (sum_total to N M (fun i => h' (S i))); [intros i j Hi Ti; apply (M1 i j Hi Ti)|intros i Hi Ti; apply (Z' i Hi Ti)]. }
  split; [|split]; rewrite F; [exact H1|exact H2|].
  intros j Hj. cbn [merged]. rewrite <- total_minus.
  rewrite (total_ext to N _ (fun i => dt * (C T i * the_flow n eta s0 N T s' h' - g' T j * h' (S i) * Rabs (the_flow n eta s0 N T s' h')))).
  - rewrite total_scal, total_minus, (M3 j Hj). f_equal. f_equal.
    + rewrite Rmult_comm, <- total_scal. apply total_ext; intros; ring.
    + rewrite (Rmult_comm (g' T j * _)). rewrite <- Rmult_assoc, <- total_scal. apply total_ext; intros; ring.
  - intros i Hi P. rewrite (H3 i Hi). unfold part in P. destruct (to i) as [j'|] eqn:E; [|discriminate].
    apply Nat.eqb_eq in P; subst j'. now rewrite (proj2 (M1 i j Hi E)).
Qed.
End Step.
