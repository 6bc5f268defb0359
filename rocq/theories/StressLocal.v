(** The inner solve of the stress-controlled models and the masked combination read the points of the batch only
    (models.py 451-475 and 521-562): the values the tensors would have beyond the batch play no role. *)
From Coq Require Import Reals List Lia String.
From Verif Require Import NewtonModel NewtonLocal Slices Models.
Local Open Scope R_scope.

Section Local.
Variables (B : rateform) (N : nat) (control control' t t' cs cs' csr csr' cT cT' : nat -> R) (y y' : nat -> vec).
Hypothesis H : forall i, (i < N)%nat -> control i = control' i /\ t i = t' i /\ cs i = cs' i /\ csr i = csr' i /\ cT i = cT' i /\ y i = y' i.
Definition agree_points (p p' : option ((nat -> vec) * (nat -> mat))) : Prop :=
  match p, p' with Some (r, J), Some (r', J') => forall i, (i < N)%nat -> r i = r' i /\ J i = J' i | _, _ => False end.
Lemma sb_solve_points : exists q q', (sb_solve B N t cs csr cT y = Ok q \/ sb_solve B N t cs csr cT y = Warned q) /\
  (sb_solve B N t' cs' csr' cT' y' = Ok q' \/ sb_solve B N t' cs' csr' cT' y' = Warned q') /\ forall i, (i < N)%nat -> res_x q i = res_x q' i.
Proof.
  assert (P : forall t cs csr cT y, exists q, (sb_solve B N t cs csr cT y = Ok q \/ sb_solve B N t cs csr cT y = Warned q) /\
     q = nr_solve (sb_RJ B t cs csr cT y) (sb_norm N) (/ 10 ^ 6) (/ 10 ^ 10) (sb_solver DiagSolve) sb_sub 100 (fun _ => 0)).
  { intros. rewrite sb_solve_def. unfold sb_solve_with, newton_raphson. cbn [choose_solver Nat.eqb]. unfold newton_raphson_core.
    eexists. split; [|reflexivity]. destruct (_ =? _)%nat; auto. }
  destruct (P t cs csr cT y) as (q & Hq & Eq). destruct (P t' cs' csr' cT' y') as (q' & Hq' & Eq').
  exists q, q'. split; [exact Hq|]. split; [exact Hq'|]. rewrite Eq, Eq'.
  assert (FE : forall x x' : nat -> R, (forall i, (i < N)%nat -> x i = x' i) -> forall i, (i < N)%nat ->
    fst (sb_RJ B t cs csr cT y x) i = fst (sb_RJ B t' cs' csr' cT' y' x') i /\ snd (sb_RJ B t cs csr cT y x) i = snd (sb_RJ B t' cs' csr' cT' y' x') i).
  { intros x x' Hx i Hi. destruct (H i Hi) as (_ & E1 & E2 & E3 & E4 & E5). unfold sb_RJ. cbn [fst snd]. now rewrite E1, E2, E3, E4, E5, (Hx i Hi). }
  apply (nr_solve_rel _ _ _ (sb_RJ B t cs csr cT y) (sb_RJ B t' cs' csr' cT' y') (sb_norm N) (sb_norm N) (/ 10 ^ 6) (/ 10 ^ 10)
    (sb_solver DiagSolve) (sb_solver DiagSolve) sb_sub sb_sub (fun x x' => forall i, (i < N)%nat -> x i = x' i)).
  - intros x x' Hx. unfold sb_norm. apply map_ext_in. intros i Hi%in_seq. do 2 f_equal. apply (FE x x' Hx i). lia.
  - intros x x' Hx i Hi. unfold sb_sub, sb_solver. destruct (FE x x' Hx i Hi) as [E1 E2]. now rewrite E1, E2, (Hx i Hi).
  - intros i _. reflexivity.
Qed.
Lemma sb_forward_points : agree_points (sb_forward B N t cs csr cT y) (sb_forward B N t' cs' csr' cT' y').
Proof.
  destruct sb_solve_points as (q & q' & Hq & Hq' & E). rewrite (sb_forward_of _ _ _ _ _ _ _ _ Hq), (sb_forward_of _ _ _ _ _ _ _ _ Hq').
  intros i Hi. destruct (H i Hi) as (_ & E1 & E2 & E3 & E4 & E5). now rewrite (E i Hi), E1, E2, E4, E5.
Qed.
Lemma both_forward_points : agree_points (both_forward B N control t csr cs cT y) (both_forward B N control' t' csr' cs' cT' y').
Proof.
  unfold both_forward. pose proof sb_forward_points as S.
  destruct (sb_forward B N t cs csr cT y) as [[r J]|]; destruct (sb_forward B N t' cs' csr' cT' y') as [[r' J']|]; try destruct S.
  intros i Hi. destruct (S i Hi) as [S1 S2]. destruct (H i Hi) as (E0 & E1 & E2 & E3 & E4 & E5). unfold masked, strain_forward. cbn [fst snd].
  now rewrite E0, E1, E3, E4, E5, S1, S2.
Qed.
End Local.
