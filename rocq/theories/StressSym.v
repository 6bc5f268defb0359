(** The inner solve of the stress-controlled models and the masked combination (models.py 451-475 and 521-562) on two batches of points
    that correspond under a map of the points and a sign change of the state components: same iterations, corresponding results. *)
From Coq Require Import Reals List Lia Lra String Bool.
From Verif Require Import NewtonModel NewtonLocal Slices Models.
Local Open Scope R_scope.

(** Component j of the state multiplied by sg j. *)
Definition flip (sg : nat -> R) (y : vec) : vec := fun j => sg j * y j.
(** The laws of the material correspond at the times t and t': rate, Jacobian and strain rate derivative. *)
Definition sym_at (B : rateform) (sg : nat -> R) (t t' : R) : Prop := forall y e T, let y' := flip sg y in let e' := sg 0%nat * e in
  (forall i, (i < rf_n B)%nat -> rf_rate B t' y' e' T i = sg i * rf_rate B t y e T i) /\
  (forall i j, (i < rf_n B)%nat -> (j < rf_n B)%nat -> rf_jac B t' y' e' T i j = sg i * rf_jac B t y e T i j * sg j) /\
  rf_de B t' y' e' T 0%nat = rf_de B t y e T 0%nat.

Section Sym.
Variables (B : rateform) (sg : nat -> R) (N N' : nat) (pi : nat -> nat).
Variables (control control' t t' cs cs' csr csr' cT cT' : nat -> R) (y y' : nat -> vec).
Hypotheses (n0 : (0 < rf_n B)%nat) (sg1 : forall j, sg j * sg j = 1).
Hypothesis H : forall i, (i < N')%nat -> (pi i < N)%nat /\ control' i = control (pi i) /\ sym_at B sg (t (pi i)) (t' i) /\
  cs' i = sg 0%nat * cs (pi i) /\ csr' i = sg 0%nat * csr (pi i) /\ cT' i = cT (pi i) /\ forall j, y' i j = flip sg (y (pi i)) j.
Hypothesis onto : forall i, (i < N)%nat -> exists i', (i' < N')%nat /\ pi i' = i.
Lemma set_flip c v v' : (forall j, v' j = flip sg v j) -> set0 (sg 0%nat * c) v' = flip sg (set0 c v).
Proof.
  intros E. apply FunctionalExtensionality.functional_extensionality. intros j. unfold set0, flip.
  destruct (Nat.eqb_spec j 0) as [->|]; [reflexivity|]. apply E.
Qed.
Lemma sg_abs j x : Rabs (sg j * x) = Rabs x.
Proof.
  rewrite Rabs_mult. replace (Rabs (sg j)) with 1; [ring|]. assert (A : Rabs (sg j) * Rabs (sg j) = 1) by (rewrite <- Rabs_mult, sg1; apply Rabs_R1).
  pose proof (Rabs_pos (sg j)). nra.
Qed.
Definition relE (x x' : nat -> R) : Prop := forall i, (i < N')%nat -> x' i = sg 0%nat * x (pi i).
Lemma RJ_rel x x' : relE x x' -> forall i, (i < N')%nat ->
  fst (sb_RJ B t' cs' csr' cT' y' x') i = sg 0%nat * fst (sb_RJ B t cs csr cT y x) (pi i) /\ snd (sb_RJ B t' cs' csr' cT' y' x') i = snd (sb_RJ B t cs csr cT y x) (pi i).
Proof.
  intros Hx i Hi. destruct (H i Hi) as (_ & _ & S & E2 & E3 & E4 & E5). unfold sb_RJ. cbn [fst snd].
  rewrite E2, E3, E4, (set_flip _ _ _ E5), (Hx i Hi). destruct (S (set0 (cs (pi i)) (y (pi i))) (x (pi i)) (cT (pi i))) as (S1 & _ & S3).
  split; [rewrite (S1 0%nat n0); ring|exact S3].
Qed.
Lemma any_points (p p' : nat -> bool) : (forall i, (i < N')%nat -> p' i = p (pi i)) -> existsb p (seq 0 N) = existsb p' (seq 0 N').
Proof.
  intros Hp. apply eq_iff_eq_true. rewrite !existsb_exists. split; intros (i & Hi%in_seq & E).
  - destruct (onto i ltac:(lia)) as (i' & L & <-). exists i'. split; [apply in_seq; lia|]. now rewrite Hp.
  - exists (pi i). split; [apply in_seq; destruct (H i ltac:(lia)) as (L & _); lia|]. now rewrite <- Hp by lia.
Qed.
Lemma existsb_map {X Y} (f : X -> Y) p l : existsb p (map f l) = existsb (fun x => p (f x)) l.
Proof. induction l as [|x l IH]; [reflexivity|]. cbn. now rewrite IH. Qed.
Lemma combine_map2 {X Y Z} (f : X -> Y) (g : X -> Z) l : combine (map f l) (map g l) = map (fun x => (f x, g x)) l.
Proof. induction l as [|x l IH]; [reflexivity|]. cbn. now rewrite IH. Qed.
Lemma keep_rel rtol atol r r' s s' : (forall i, (i < N')%nat -> r' i = sg 0%nat * r (pi i)) -> (forall i, (i < N')%nat -> s' i = sg 0%nat * s (pi i)) ->
  keep_going rtol atol (sb_norm N r) (sb_norm N s) = keep_going rtol atol (sb_norm N' r') (sb_norm N' s').
Proof.
  intros Hr Hs. unfold keep_going, any_gt, any_ratio_gt, sb_norm. rewrite !combine_map2, !existsb_map. cbn [fst snd].
  f_equal; apply any_points; intros i Hi; rewrite (Hr i Hi), ?(Hs i Hi), !sg_abs; reflexivity.
Qed.
Lemma sb_solve_rel : exists q q', (sb_solve B N t cs csr cT y = Ok q \/ sb_solve B N t cs csr cT y = Warned q) /\
  (sb_solve B N' t' cs' csr' cT' y' = Ok q' \/ sb_solve B N' t' cs' csr' cT' y' = Warned q') /\ relE (res_x q) (res_x q').
Proof.
  assert (P : forall N t cs csr cT y, exists q, (sb_solve B N t cs csr cT y = Ok q \/ sb_solve B N t cs csr cT y = Warned q) /\
     q = nr_solve (sb_RJ B t cs csr cT y) (sb_norm N) (/ 10 ^ 6) (/ 10 ^ 10) (sb_solver DiagSolve) sb_sub 100 (fun _ => 0)).
  { intros. rewrite sb_solve_def. unfold sb_solve_with, newton_raphson. cbn [choose_solver Nat.eqb]. unfold newton_raphson_core.
    eexists. split; [|reflexivity]. destruct (_ =? _)%nat; auto. }
  destruct (P N t cs csr cT y) as (q & Hq & Eq). destruct (P N' t' cs' csr' cT' y') as (q' & Hq' & Eq').
  exists q, q'. split; [exact Hq|]. split; [exact Hq'|]. rewrite Eq, Eq'.
  apply (nr_solve_test _ _ _ _ _ _ (sb_RJ B t cs csr cT y) (sb_RJ B t' cs' csr' cT' y') (sb_norm N) (sb_norm N') (/ 10 ^ 6) (/ 10 ^ 10)
    (sb_solver DiagSolve) (sb_solver DiagSolve) sb_sub sb_sub relE).
  - intros x x' z z' Hx Hz. apply keep_rel; intros i Hi; now apply RJ_rel.
  - intros x x' Hx i Hi. unfold sb_sub, sb_solver. destruct (RJ_rel x x' Hx i Hi) as [E1 E2]. rewrite E1, E2, (Hx i Hi). unfold Rdiv. ring.
  - intros i _. ring.
Qed.
Definition rel_points (p p' : option ((nat -> vec) * (nat -> mat))) : Prop :=
  match p, p' with Some (r, J), Some (r', J') => forall i, (i < N')%nat -> (forall j, (j < rf_n B)%nat -> r' i j = sg j * r (pi i) j) /\
      forall j k, (j < rf_n B)%nat -> (k < rf_n B)%nat -> J' i j k = sg j * J (pi i) j k * sg k | _, _ => False end.
Lemma sb_forward_rel : rel_points (sb_forward B N t cs csr cT y) (sb_forward B N' t' cs' csr' cT' y').
Proof.
  destruct sb_solve_rel as (q & q' & Hq & Hq' & E). rewrite (sb_forward_of _ _ _ _ _ _ _ _ Hq), (sb_forward_of _ _ _ _ _ _ _ _ Hq').
  intros i Hi. destruct (H i Hi) as (_ & _ & S & E2 & E3 & E4 & E5). unfold sb_rate, sb_jac. cbv zeta. rewrite E2, E4, (set_flip _ _ _ E5), (E i Hi).
  destruct (S (set0 (cs (pi i)) (y (pi i))) (res_x q (pi i)) (cT (pi i))) as (S1 & S2 & S3). split.
  - intros j Hj. unfold set0 at 1 3. destruct (Nat.eqb_spec j 0) as [->|]; [reflexivity|]. now apply S1.
  - intros j k Hj Hk. destruct (Nat.eqb_spec k 0); [ring|]. destruct (Nat.eqb_spec j 0) as [->|]; [|now apply S2].
    rewrite S2, S3 by auto. unfold Rdiv. ring.
Qed.
Lemma both_forward_rel : rel_points (both_forward B N control t csr cs cT y) (both_forward B N' control' t' csr' cs' cT' y').
Proof.
  unfold both_forward. pose proof sb_forward_rel as S.
  destruct (sb_forward B N t cs csr cT y) as [[r J]|]; destruct (sb_forward B N' t' cs' csr' cT' y') as [[r' J']|]; try destruct S.
  intros i Hi. destruct (S i Hi) as [Sr SJ]. destruct (H i Hi) as (_ & E1 & Q & E2 & E3 & E4 & E5). unfold masked, strain_forward. cbn [fst snd].
  rewrite E1, E3, E4. assert (Ey : y' i = flip sg (y (pi i))) by (apply FunctionalExtensionality.functional_extensionality; exact E5). rewrite Ey.
  destruct (Q (y (pi i)) (csr (pi i)) (cT (pi i))) as (S1 & S2 & _).
  destruct (Req_EM_T (control (pi i)) 1); [split; [now apply Sr|now apply SJ]|].
  destruct (Req_EM_T (control (pi i)) 0); [split; [now apply S1|now apply S2]|]. split; intros; unfold vzero, mzero; ring.
Qed.
End Sym.
