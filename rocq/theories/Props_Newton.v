(** Property theorems for the Newton, backtracking-Newton and GMRES solvers
    (C10-C15, C17, C77).  C16 on matrices is in Props_NewtonAffine.v.

    Vocabulary (NewtonProofs.v): [norms fn nrm x] = residual norms at x, one per
    batch entry; [point fn step sub x0 k] = the k-th Newton iterate;
    [converged rtol atol n n0] = every norm <= atol, or every norm <= rtol * starting norm;
    [res_evals] = the points at which the residual function was called, in order. *)
From Coq Require Import List Reals Lra Lia Bool String Arith.
Import ListNotations.
From Verif Require Import NewtonModel NewtonProofs.
Local Open Scope R_scope.

(** C10 *)
Theorem C10_bounded_work X RT JT (fn : X -> RT * JT) nrm rtol atol step sub miter throw x0 :
  match newton_raphson_chunk fn nrm rtol atol step sub miter throw x0 with
  | Ok r | Warned r =>
      (res_iters r <= miter)%nat /\
      List.length (res_evals r) = S (res_iters r) /\
      res_evals r = map (point fn step sub x0) (seq 0 (S (res_iters r))) /\
      res_x r = point fn step sub x0 (res_iters r) /\ res_J r = snd (fn (res_x r))
  | Raised => throw = true
  end.
Proof. exact (chunk_spec fn nrm rtol atol step sub miter throw x0). Qed.
Print Assumptions C10_bounded_work.

Theorem C10_success_is_convergence X RT JT (fn : X -> RT * JT) nrm rtol atol step sub miter throw x0 r :
  newton_raphson_chunk fn nrm rtol atol step sub miter throw x0 = Ok r ->
  List.length (norms fn nrm (res_x r)) = List.length (norms fn nrm x0) ->
  no_nan (norms fn nrm (res_x r)) -> finite_nonneg (norms fn nrm x0) ->
  converged rtol atol (norms fn nrm (res_x r)) (norms fn nrm x0).
Proof. exact (chunk_truthful fn nrm rtol atol step sub miter throw x0 r). Qed.
Print Assumptions C10_success_is_convergence.

Theorem C10_converged_start_kept X RT JT (fn : X -> RT * JT) nrm rtol atol step sub miter throw x0 :
  (0 < miter)%nat -> finite_nonneg (norms fn nrm x0) ->
  converged rtol atol (norms fn nrm x0) (norms fn nrm x0) ->
  exists r, newton_raphson_chunk fn nrm rtol atol step sub miter throw x0 = Ok r /\
    res_x r = x0 /\ res_iters r = 0%nat /\ res_evals r = [x0] /\ res_caller r = x0.
Proof. exact (chunk_start_converged fn nrm rtol atol step sub miter throw x0). Qed.
Print Assumptions C10_converged_start_kept.

Example C10_ex : exists r,
  newton_raphson_chunk sc_fn sc_nrm (1/2) (1/2) sc_step Rminus 10 true 0 = Ok r /\
  no_nan (norms sc_fn sc_nrm (res_x r)) /\ finite_nonneg (norms sc_fn sc_nrm 0).
Proof.
  destruct sc_chunk_overwrites as (r & E & _). exists r. split; [exact E|]. split.
  - constructor; [discriminate|constructor].
  - constructor; [|constructor]. eexists. split; [reflexivity|]. apply Rabs_pos.
Qed.

(** C11 is false of the code: a residual that becomes NaN ends the loop and is
    reported as success, even with throw_on_fail=True. *)
Theorem C11_nan_reported_as_success_refuted : exists r,
  newton_raphson_chunk nan_fn (fun e => [e]) (1/2) (1/2) (fun _ _ => 1) Rminus 5 true 0 = Ok r /\
  norms nan_fn (fun e => [e]) (res_x r) = [NaN] /\ res_iters r = 1%nat.
Proof. exact nan_mid_ok. Qed.
Print Assumptions C11_nan_reported_as_success_refuted.

(** ... and it always happens when the first residual is NaN (batch of one). *)
Theorem C11_nan_start_always_ok X RT JT (fn : X -> RT * JT) nrm rtol atol step sub miter throw x0 :
  (0 < miter)%nat -> norms fn nrm x0 = [NaN] ->
  exists r, newton_raphson_chunk fn nrm rtol atol step sub miter throw x0 = Ok r /\ res_x r = x0.
Proof. exact (nan_start_ok fn nrm rtol atol step sub miter throw x0). Qed.
Print Assumptions C11_nan_start_always_ok.

(** C12: raises iff none of the first miter iterates meets the tolerances ... *)
Theorem C12_raise_rule_partial X RT JT (fn : X -> RT * JT) nrm rtol atol step sub miter x0 :
  (forall k, (k < miter)%nat ->
     List.length (norms fn nrm (point fn step sub x0 k)) = List.length (norms fn nrm x0) /\
     finite_nonneg (norms fn nrm (point fn step sub x0 k))) ->
  finite_nonneg (norms fn nrm x0) ->
  (newton_raphson_chunk fn nrm rtol atol step sub miter true x0 = Raised <->
   forall k, (k < miter)%nat ->
     ~ converged rtol atol (norms fn nrm (point fn step sub x0 k)) (norms fn nrm x0)).
Proof. exact (chunk_raise_iff fn nrm rtol atol step sub miter x0). Qed.
Print Assumptions C12_raise_rule_partial.

Theorem C12_no_throw_same_value X RT JT (fn : X -> RT * JT) nrm rtol atol step sub miter x0 :
  newton_raphson_chunk fn nrm rtol atol step sub miter false x0 <> Raised /\
  (newton_raphson_chunk fn nrm rtol atol step sub miter true x0 = Raised <->
   newton_raphson_chunk fn nrm rtol atol step sub miter false x0
     = Warned (nr_solve fn nrm rtol atol step sub miter x0)) /\
  (forall r, newton_raphson_chunk fn nrm rtol atol step sub miter true x0 = Ok r <->
             newton_raphson_chunk fn nrm rtol atol step sub miter false x0 = Ok r).
Proof. exact (chunk_nothrow_value fn nrm rtol atol step sub miter x0). Qed.
Print Assumptions C12_no_throw_same_value.

(** ... so the stated "iff not met after miter iterations" is false: the iterate
    after exactly miter updates may satisfy the tolerances and it still raises. *)
Theorem C12_converged_at_miter_raises_refuted :
  newton_raphson_chunk sc_fn sc_nrm (1/2) (1/2) sc_step Rminus 1 true 0 = Raised /\
  converged (1/2) (1/2) (norms sc_fn sc_nrm (point sc_fn sc_step Rminus 0 1)) (norms sc_fn sc_nrm 0).
Proof. exact (conj sc_raised sc_final_converged). Qed.
Print Assumptions C12_converged_at_miter_raises_refuted.

(** C13 *)
Theorem C13_newton_raphson X RT JT (fn : X -> RT * JT) nrm solvers sub rtol atol miter
    linsolver size x0 :
  match newton_raphson fn nrm solvers sub rtol atol miter linsolver size x0 with
  | Raised => size <> 1%nat /\ linsolver <> "lu"%string /\ linsolver <> "diag"%string
  | Warned r =>
      (exists k, choose_solver size linsolver = Some k /\
         res_x r = point fn (solvers k) sub x0 miter) /\
      res_J r = snd (fn (res_x r)) /\ res_iters r = miter /\
      List.length (res_evals r) = S miter
  | Ok r =>
      (exists k, choose_solver size linsolver = Some k /\
         res_x r = point fn (solvers k) sub x0 (res_iters r)) /\
      res_J r = snd (fn (res_x r)) /\ (res_iters r < miter)%nat /\
      List.length (res_evals r) = S (res_iters r) /\
      (List.length (norms fn nrm (res_x r)) = List.length (norms fn nrm x0) ->
       no_nan (norms fn nrm (res_x r)) -> finite_nonneg (norms fn nrm x0) ->
       converged rtol atol (norms fn nrm (res_x r)) (norms fn nrm x0))
  end.
Proof. exact (newton_raphson_spec fn nrm solvers sub rtol atol miter linsolver size x0). Qed.
Print Assumptions C13_newton_raphson.

Theorem C13_solver_choice size name :
  choose_solver size name =
  if (size =? 1)%nat then Some DiagSolve else
  if string_dec name "lu" then Some LuSolve else
  if string_dec name "diag" then Some DiagSolve else None.
Proof. exact (choose_solver_spec size name). Qed.
Print Assumptions C13_solver_choice.

(** C14, for the function as a whole; [bt_path] (NewtonProofs.v) says which points are accepted. *)
Theorem C14_backtracking X RT JT (fn : X -> RT * JT) nrm solvers axpy rtol atol miter max_bt linsolver size x0 :
  exists o st, newton_raphson_bt fn nrm solvers axpy rtol atol miter max_bt linsolver size x0 = Some (o, st) /\
  Forall (bt_step_ok max_bt) st /\
  match o with
  | Raised => size <> 1%nat /\ linsolver <> "lu"%string /\ linsolver <> "diag"%string
  | Ok r | Warned r =>
      (exists k, choose_solver size linsolver = Some k /\
         bt_path fn nrm atol (solvers k) axpy x0 st (res_x r)) /\
      (o = Warned r <-> res_iters r = miter) /\
      res_caller r = x0 /\ res_J r = snd (fn (res_x r)) /\
      (res_iters r <= miter)%nat /\ List.length st = res_iters r /\
      (List.length (res_evals r) <= 1 + miter * (max_bt + 2))%nat /\
      (o = Ok r -> List.length (norms fn nrm (res_x r)) = List.length (norms fn nrm x0) ->
        no_nan (norms fn nrm (res_x r)) -> finite_nonneg (norms fn nrm x0) ->
        converged rtol atol (norms fn nrm (res_x r)) (norms fn nrm x0))
  end.
Proof.
  unfold newton_raphson_bt. destruct (choose_solver size linsolver) as [k|] eqn:Ec.
  - destruct (bt_spec fn nrm rtol atol (solvers k) axpy miter max_bt x0) as (o & st & E & H1 & H2).
    pose proof (bt_core_path fn nrm rtol atol (solvers k) axpy miter max_bt x0 o st E) as H3.
    exists o, st. split; [exact E|]. split; [exact H1|]. destruct o; try contradiction; (split; [eauto|exact H2]).
  - do 2 eexists. split; [reflexivity|]. split; [constructor|].
    rewrite C13_solver_choice in Ec. destruct (Nat.eqb_spec size 1); [discriminate|].
    destruct (string_dec linsolver "lu"); [discriminate|]. destruct (string_dec linsolver "diag"); [discriminate|]. auto.
Qed.
Print Assumptions C14_backtracking.

(** [all_gt] in [bt_step_ok] means: every entry strictly decreased. *)
Theorem C14_all_gt_meaning l1 l2 : List.length l1 = List.length l2 -> all_gt l1 l2 = true ->
  Forall2 (fun e1 e2 => match e1, e2 with
                        | Num a, Num b => b < a | Inf, Num _ => True | _, _ => False end) l1 l2.
Proof. exact (all_gt_spec l1 l2). Qed.
Print Assumptions C14_all_gt_meaning.

(** C15: newton_raphson_bt leaves x0 alone (res_caller r = x0 in C14);
    newton_raphson and newton_raphson_chunk update it in place. *)
Theorem C15_newton_overwrites_x0_refuted : exists r,
  newton_raphson sc_fn sc_nrm (fun _ => sc_step) Rminus (1/2) (1/2) 10 "lu" 1 0 = Ok r /\ res_caller r = 1.
Proof. exact sc_overwrites. Qed.
Print Assumptions C15_newton_overwrites_x0_refuted.

Theorem C15_chunk_overwrites_x0_refuted : exists r,
  newton_raphson_chunk sc_fn sc_nrm (1/2) (1/2) sc_step Rminus 10 true 0 = Ok r /\ res_caller r = 1.
Proof. exact sc_chunk_overwrites. Qed.
Print Assumptions C15_chunk_overwrites_x0_refuted.

(** what always holds: x0 ends up equal to the returned point *)
Theorem C15_caller_holds_result X RT JT (fn : X -> RT * JT) nrm rtol atol step sub miter x0 :
  res_caller (nr_solve fn nrm rtol atol step sub miter x0)
  = res_x (nr_solve fn nrm rtol atol step sub miter x0).
Proof. exact (caller_overwritten fn nrm rtol atol step sub miter x0). Qed.
Print Assumptions C15_caller_holds_result.

(** C17 *)
Theorem C17_gmres X (resn : X -> list ext) tol x0 cand maxiter check :
  (0 < maxiter)%nat -> (0 < check)%nat ->
  exists x k, gmres resn tol x0 cand maxiter check = Some (x, k) /\ (k < maxiter)%nat /\
  (all_below tol (resn x0) -> x = x0 /\ k = 0%nat) /\
  (~ all_below tol (resn x0) ->
     x = cand k /\
     ((S k < maxiter)%nat -> all_below tol (resn x) /\ (S k mod check = 0)%nat) /\
     (forall j, (j < k)%nat -> (S j mod check = 0)%nat -> ~ all_below tol (resn (cand j)))).
Proof. exact (gmres_spec resn tol x0 cand maxiter check). Qed.
Print Assumptions C17_gmres.

(** C77: preconditioner reuse, over every history of solves by one object. *)
Theorem C77_preconditioner_reuse X RT JT P (factor : JT -> P) lin sub
    (h : list (problem X RT JT)) stored :
  let '(os, st) := reuse_history factor lin sub stored h in
  Forall2 (fun p o => reuse_outcome_ok (pr_fn p) (pr_nrm p) (pr_rtol p) (pr_atol p)
                        (pr_miter p) (pr_x0 p) o) h os /\
  (st = stored \/ exists pr x, In pr h /\ st = Some (factor (snd (pr_fn pr x)))) /\
  (h <> [] -> st <> None).
Proof. exact (reuse_history_spec factor lin sub h stored). Qed.
Print Assumptions C77_preconditioner_reuse.

(** Each solve of a history starts from the preconditioner the previous ones left, ... *)
Theorem C77_history_threads X RT JT P (factor : JT -> P) lin sub (h1 h2 : list (problem X RT JT)) pr stored :
  let before := snd (reuse_history factor lin sub stored h1) in
  nth_error (fst (reuse_history factor lin sub stored (h1 ++ pr :: h2))) (List.length h1) =
  Some (fst (reuse_solve (pr_fn pr) (pr_nrm pr) (pr_rtol pr) (pr_atol pr) factor lin sub
               (pr_refactor pr) (pr_miter pr) before (pr_x0 pr))).
Proof.
  cbv zeta. rewrite reuse_history_app. cbn [fst].
  pose proof (C77_preconditioner_reuse X RT JT P factor lin sub h1 stored) as H.
  destruct (reuse_history factor lin sub stored h1) as [os st]. destruct H as (H & _).
  assert (HL : List.length h1 = List.length os) by (clear -H; induction H; simpl; congruence).
  cbn [fst snd]. rewrite nth_error_app2; rewrite <- HL; [|auto].
  rewrite Nat.sub_diag. cbn [reuse_history].
  destruct (reuse_solve _ _ _ _ _ _ _ _ _ _ _) as [o st1].
  now destruct (reuse_history factor lin sub st1 h2).
Qed.
Print Assumptions C77_history_threads.
(** ... uses it (or, the first time, one built at the starting point) and rebuilds it exactly
    after a linear solve of more than [refactor] iterations. *)
Theorem C77_reuse_rule X RT JT P (fn : X -> RT * JT) nrm rtol atol (factor : JT -> P) lin sub refactor miter stored x0 :
  let pc0 := match stored with Some p => p | None => factor (snd (fn x0)) end in
  let '(o, st) := reuse_solve fn nrm rtol atol factor lin sub refactor miter stored x0 in
  exists x J i p, (o = Ok (x, J, i) \/ o = Warned (x, J, i)) /\ st = Some p /\
    reuse_path fn factor lin sub refactor pc0 x0 i p x.
Proof. exact (reuse_solve_path fn nrm rtol atol factor lin sub refactor miter stored x0). Qed.
Print Assumptions C77_reuse_rule.
