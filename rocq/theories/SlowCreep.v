(** The inner solve of the stress-controlled models (models.py 529-548) when the initial guess, no straining, is already within its tolerance: it is returned. *)
From Coq Require Import Reals Lra Lia Arith List.
From Verif Require Import Slices Flow NewtonModel NewtonProofs Models.
Local Open Scope R_scope.
Lemma sb_small B N t cs csr cT y :
  (forall i, (i < N)%nat -> Rabs (rf_rate B (t i) (set0 (cs i) (y i)) 0 (cT i) 0%nat - csr i) <= / 10 ^ 10) ->
  sb_forward B N t cs csr cT y =
    Some (fun i => sb_rate B (t i) (y i) (cs i) (cT i) 0, fun i => sb_jac B (t i) (y i) (cs i) (cT i) 0).
Proof.
  intros H.
  assert (S : exists r, sb_solve B N t cs csr cT y = Ok r /\ res_x r = fun _ => 0).
  { rewrite sb_solve_def. unfold sb_solve_with, newton_raphson. cbn [choose_solver Nat.eqb]. unfold newton_raphson_core.
    pose proof (nr_solve_spec (sb_RJ B t cs csr cT y) (sb_norm N) (/ 10 ^ 6) (/ 10 ^ 10) (sb_solver DiagSolve) sb_sub 100 (fun _ => 0)) as P. cbv zeta in P.
    set (r := nr_solve _ _ _ _ _ _ _ _) in *. destruct P as (P1 & P2 & _ & _ & _ & P6 & _).
    assert (K0 : keep_going (/ 10 ^ 6) (/ 10 ^ 10) (norms (sb_RJ B t cs csr cT y) (sb_norm N) (fun _ => 0)) (norms (sb_RJ B t cs csr cT y) (sb_norm N) (fun _ => 0)) = false).
    { unfold keep_going. rewrite any_gt_all_le; [reflexivity|]. apply sb_norm_le. intros i Hi.
      unfold sb_RJ. cbn [fst]. now apply H. }
    assert (Z : res_iters r = 0%nat).
    { destruct (res_iters r) as [|k] eqn:E; auto. assert (P := P6 0%nat (Nat.lt_0_succ k)). change (point _ _ _ _ 0) with (fun _ : nat => 0) in P. congruence. }
    exists r. destruct (Nat.eqb_spec (res_iters r) 100); [lia|]. split; [reflexivity|]. rewrite P2, Z. reflexivity. }
  destruct S as (r & S & X). rewrite (sb_forward_of _ _ _ _ _ _ _ _ (or_introl S)). now rewrite X.
Qed.
