(** The inner solve of the stress-controlled models when the stress rate is affine in the
    strain rate (models.py 529-548). *)
From Coq Require Import Reals Lra Lia Arith List.
From Verif Require Import Slices Flow Damage NewtonModel NewtonProofs Models.
Local Open Scope R_scope.

(** The stress rate is affine in the strain rate at this point, with a non-zero slope
    (which is the reported derivative). *)
Definition affine_at (B : rateform) (t : R) (y : vec) (T : R) : Prop :=
  exists a b, a <> 0 /\ forall e, rf_rate B t y e T 0%nat = b + a * e /\ rf_de B t y e T 0%nat = a.

Lemma sb_affine_points B N t cs csr cT y :
  (forall i, (i < N)%nat -> affine_at B (t i) (set0 (cs i) (y i)) (cT i)) ->
  exists er, sb_forward B N t cs csr cT y =
      Some (fun i => sb_rate B (t i) (y i) (cs i) (cT i) (er i), fun i => sb_jac B (t i) (y i) (cs i) (cT i) (er i)) /\
    ((forall i, (i < N)%nat -> rf_rate B (t i) (set0 (cs i) (y i)) (er i) (cT i) 0%nat = csr i) \/
     (forall i, er i = 0) /\
     forall i, (i < N)%nat -> Rabs (rf_rate B (t i) (set0 (cs i) (y i)) (er i) (cT i) 0%nat - csr i) <= / 10 ^ 10).
Proof.
  intros H. set (g := fun i e => rf_rate B (t i) (set0 (cs i) (y i)) e (cT i) 0%nat).
  destruct (sb_affine B N t cs csr cT y (fun i => g i 1 - g i 0) (fun i => g i 0) (/ 10 ^ 6) (/ 10 ^ 10) 100) as (r & Hr & C).
  - lia.
  - left. apply Rinv_0_lt_compat, pow_lt. lra.
  - split; [left; apply Rinv_0_lt_compat, pow_lt; lra|]. rewrite <- Rinv_1. apply Rinv_lt_contravar; [rewrite Rmult_1_l; apply pow_lt; lra|]. lra.
  - intros i Hi. destruct (H i Hi) as (a & b & Ha & E). unfold g.
    rewrite (proj1 (E 1)), (proj1 (E 0)). split; [lra|]. intros e. destruct (E e) as [-> ->]. split; lra.
  - exists (res_x r). split; [apply sb_forward_of; left; rewrite sb_solve_def; exact Hr|].
    destruct C as [C|[C1 C2]]; [left|right].
    + intros i Hi. specialize (C i Hi). unfold sb_RJ in C. cbn [fst] in C. lra.
    + split; [now rewrite C1|exact C2].
Qed.

(** InelasticModel with a flow rule that does not depend on the strain rate *)
Lemma inelastic_affine E F t y T : rate_free F -> E T <> 0 -> affine_at (inelastic E F) t y T.
Proof.
  intros RF HE. exists (E T), (- E T * fl_rate F (y 0%nat) (slice 1 y) t T 0). split; [exact HE|].
  intros e. cbn [inelastic rf_rate rf_de]. cbv zeta. rewrite !cat_l by lia.
  destruct (RF (y 0%nat) (slice 1 y) t T e 0) as (-> & -> & _). split; ring.
Qed.
(** DamagedInelasticModel, away from full damage *)
Lemma damaged_affine E F M t y T : rate_free F -> E T <> 0 -> y (1 + fl_nhist F)%nat <> 1 -> affine_at (damaged E F M) t y T.
Proof.
  intros RF HE Hd. set (d := y (1 + fl_nhist F)%nat) in *.
  exists ((1 - d) * E T), (- (1 - d) * E T * fl_rate F (y 0%nat / (1 - d)) (slice 1 y) t T 0). split.
  - apply Rmult_integral_contrapositive_currified; [lra|exact HE].
  - intros e. cbn [damaged rf_rate rf_de]. cbv zeta. fold d. rewrite !cat_l by lia.
    destruct (RF (y 0%nat / (1 - d)) (slice 1 y) t T e 0) as (-> & -> & _). split; ring.
Qed.

(** increments of the strain from the condition on the strain rate *)
Lemma strain_increment E dt e p s s0 : 0 < E -> 0 < dt ->
  Rabs (E * (e - p) - (s - s0) / dt) <= / 10 ^ 10 ->
  Rabs (dt * e - ((s - s0) / E + dt * p)) <= dt / (10 ^ 10 * E).
Proof.
  intros HE Hd H. set (q := / 10 ^ 10) in *.
  replace (dt * e - ((s - s0) / E + dt * p)) with ((dt / E) * (E * (e - p) - (s - s0) / dt)) by (field; lra).
  replace (dt / (10 ^ 10 * E)) with ((dt / E) * q).
  2:{ unfold q. assert (10 ^ 10 <> 0) by (apply pow_nonzero; lra). generalize dependent (10 ^ 10). intros; field. split; lra. }
  rewrite Rabs_mult. assert (0 < dt / E) by now apply Rdiv_lt_0_compat.
  rewrite (Rabs_right (dt / E)) by lra. apply Rmult_le_compat_l; lra.
Qed.
Lemma strain_sum E dt dt' a b c c0 d : 0 < E ->
  Rabs (b - (c - c0) / E) <= dt / (10 ^ 10 * E) -> Rabs (a - b - ((d - c) / E + dt' * 0)) <= dt' / (10 ^ 10 * E) ->
  Rabs (a - (d - c0) / E) <= (dt + dt') / (10 ^ 10 * E).
Proof.
  intros HE H1 H2. replace (a - (d - c0) / E) with ((b - (c - c0) / E) + (a - b - ((d - c) / E + dt' * 0))) by (field; lra).
  apply Rle_trans with (1 := Rabs_triang _ _). unfold Rdiv in *. rewrite Rmult_plus_distr_r. lra.
Qed.
Lemma creep_sum E dt dt' a b b0 p : 0 < E ->
  Rabs (b - b0 - dt * p) <= dt / (10 ^ 10 * E) -> Rabs (a - b - (0 / E + dt' * p)) <= dt' / (10 ^ 10 * E) ->
  Rabs (a - b0 - (dt + dt') * p) <= (dt + dt') / (10 ^ 10 * E).
Proof.
  intros HE H1 H2. replace (a - b0 - (dt + dt') * p) with ((b - b0 - dt * p) + (a - b - (0 / E + dt' * p))) by (field; lra).
  apply Rle_trans with (1 := Rabs_triang _ _). unfold Rdiv in *. rewrite Rmult_plus_distr_r. lra.
Qed.

(** Only the entries other than the stress slot are read. *)
From Coq Require Import FunctionalExtensionality.
Lemma sb_forward_ext B N t cs csr cT y y' : (forall i, set0 (cs i) (y i) = set0 (cs i) (y' i)) ->
  sb_forward B N t cs csr cT y = sb_forward B N t cs csr cT y'.
Proof.
  intros H. assert (E : sb_RJ B t cs csr cT y = sb_RJ B t cs csr cT y').
  { apply functional_extensionality. intros er. unfold sb_RJ. f_equal; apply functional_extensionality; intros i; now rewrite H. }
  assert (ES : sb_solve B N t cs csr cT y = sb_solve B N t cs csr cT y').
  { rewrite !sb_solve_def. unfold sb_solve_with. now rewrite E. }
  destruct (sb_forward_some B N t cs csr cT y) as [r Hr].
  rewrite (sb_forward_of _ _ _ _ _ _ _ _ Hr). rewrite ES in Hr. rewrite (sb_forward_of _ _ _ _ _ _ _ _ Hr).
  do 2 f_equal; apply functional_extensionality; intros i; unfold sb_rate, sb_jac; now rewrite H.
Qed.

(** the inner solve returns its initial guess when that is already a solution *)
Lemma sb_zero B N t cs csr cT y :
  (forall i, (i < N)%nat -> rf_rate B (t i) (set0 (cs i) (y i)) 0 (cT i) 0%nat = csr i) ->
  sb_forward B N t cs csr cT y =
    Some (fun i => sb_rate B (t i) (y i) (cs i) (cT i) 0, fun i => sb_jac B (t i) (y i) (cs i) (cT i) 0).
Proof.
  intros H.
  assert (S : exists r, sb_solve B N t cs csr cT y = Ok r /\ res_x r = fun _ => 0).
  { rewrite sb_solve_def. unfold sb_solve_with, newton_raphson. cbn [choose_solver Nat.eqb]. unfold newton_raphson_core.
    pose proof (nr_solve_spec (sb_RJ B t cs csr cT y) (sb_norm N) (/ 10 ^ 6) (/ 10 ^ 10) (sb_solver DiagSolve) sb_sub 100 (fun _ => 0)) as P. cbv zeta in P.
    set (r := nr_solve _ _ _ _ _ _ _ _) in *. destruct P as (P1 & P2 & _ & _ & _ & P6 & _).
    assert (K0 : keep_going (/ 10 ^ 6) (/ 10 ^ 10) (norms (sb_RJ B t cs csr cT y) (sb_norm N) (fun _ => 0)) (norms (sb_RJ B t cs csr cT y) (sb_norm N) (fun _ => 0)) = false).
    { unfold keep_going. rewrite any_gt_all_le; [reflexivity|]. apply sb_norm_le. intros i Hi.
      unfold sb_RJ. cbn [fst]. rewrite H by auto. unfold Rminus. rewrite Rplus_opp_r, Rabs_R0. left. apply Rinv_0_lt_compat, pow_lt. lra. }
    assert (Z : res_iters r = 0%nat).
    { destruct (res_iters r) as [|k] eqn:E; auto. assert (P := P6 0%nat (Nat.lt_0_succ k)). change (point _ _ _ _ 0) with (fun _ : nat => 0) in P. congruence. }
    exists r. destruct (Nat.eqb_spec (res_iters r) 100); [lia|]. split; [reflexivity|]. rewrite P2, Z. reflexivity. }
  destruct S as (r & S & X). rewrite (sb_forward_of _ _ _ _ _ _ _ _ (or_introl S)). now rewrite X.
Qed.
