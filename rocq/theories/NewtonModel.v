(** Model of the Newton solvers: chunktime.py 22-61 (newton_raphson_chunk),
    solvers.py 11-75 (newton_raphson_bt), 78-125 (newton_raphson),
    128-149 (linear solver selection), 274-376 (gmres control flow),
    379-433 (PreconditionerReuseNonlinearSolver).

    A whole batched tensor is one element of an abstract carrier; residual
    functions and linear solvers are arbitrary functions.  Residual norms are
    lists (one entry per batch element) of extended numbers, because NaN and
    infinity decide the control flow. *)
From Coq Require Import List Reals Lra Bool String Arith.
Import ListNotations.
Local Open Scope R_scope.

(** Non-negative floating point values as torch.norm returns them. *)
Inductive ext := Num (r : R) | Inf | NaN.

Definition Rltb (x y : R) : bool := if Rlt_dec x y then true else false.

(** [e > r] for a finite threshold; comparisons with NaN are False. *)
Definition gtb (e : ext) (r : R) : bool :=
  match e with Num a => Rltb r a | Inf => true | NaN => false end.

(** [a < r] *)
Definition ltb (e : ext) (r : R) : bool :=
  match e with Num a => Rltb a r | Inf => false | NaN => false end.

(** [e1 > e2] *)
Definition egtb (e1 e2 : ext) : bool :=
  match e1, e2 with
  | Num a, Num b => Rltb b a
  | Inf, Num _ => true
  | _, _ => false
  end.

(** IEEE division of non-negative values. *)
Definition ediv (a b : ext) : ext :=
  match a, b with
  | NaN, _ | _, NaN => NaN
  | Inf, Inf => NaN
  | Inf, Num _ => Inf
  | Num _, Inf => Num 0
  | Num x, Num y =>
    if Req_EM_T y 0 then (if Req_EM_T x 0 then NaN else Inf) else Num (x / y)
  end.

(** [e1 - e2 > r] (used by the line search mask). *)
Definition esub_gtb (e1 e2 : ext) (r : R) : bool :=
  match e1, e2 with
  | Num a, Num b => Rltb r (a - b)
  | Inf, Num _ => true
  | _, _ => false
  end.

Definition any_gt (l : list ext) (r : R) : bool := existsb (fun e => gtb e r) l.

Definition any_ratio_gt (l l0 : list ext) (r : R) : bool :=
  existsb (fun p => gtb (ediv (fst p) (snd p)) r) (combine l l0).

Definition all_gt (l1 l2 : list ext) : bool :=
  forallb (fun p => egtb (fst p) (snd p)) (combine l1 l2).

Definition all_lt (l : list ext) (r : R) : bool := forallb (fun e => ltb e r) l.

Section Newton.
Context {X RT JT : Type}.
Variables (fn : X -> RT * JT) (nrm : RT -> list ext).
Variables (rtol atol : R).

(** Test of the while loop (without the iteration limit):
    [torch.any(nR > atol) and torch.any(nR / nR0 > rtol)]. *)
Definition keep_going (nR nR0 : list ext) : bool :=
  any_gt nR atol && any_ratio_gt nR nR0 rtol.

(** A Python variable holding a tensor: either the caller's own x0 object or a
    tensor created inside the function. *)
Inductive tref := Caller | Fresh (v : X).

(** Value of a variable when the caller's tensor currently holds [c]. *)
Definition deref (c : X) (t : tref) : X := match t with Caller => c | Fresh v => v end.

(** What a solve leaves behind. *)
Record nr_result := {
  res_x : X;              (* returned point *)
  res_J : JT;             (* returned Jacobian *)
  res_iters : nat;        (* value of i at the end *)
  res_evals : list X;     (* points at which fn was called, in order *)
  res_caller : X          (* value of the caller's x0 tensor afterwards *)
}.

Section Plain.
Variable step : JT -> RT -> X.          (* solver(J, R) *)
Variable sub : X -> X -> X.             (* x - dx *)

(** The while loop (chunktime.py 50-54, solvers.py 116-120): [x -= ...] is an
    in-place update of whatever tensor [x] refers to. [rem] = miter - i. *)
Fixpoint nr_loop (rem i : nat) (caller : X) (x : tref) (R : RT) (J : JT)
         (nR0 : list ext) (evals : list X) : nr_result :=
  let stop := {| res_x := deref caller x; res_J := J; res_iters := i;
                 res_evals := evals; res_caller := caller |} in
  match rem with
  | O => stop
  | S rem' =>
    if keep_going (nrm R) nR0 then
      let v := sub (deref caller x) (step J R) in
      let caller' := match x with Caller => v | Fresh _ => caller end in
      let x' := match x with Caller => Caller | Fresh _ => Fresh v end in
      let RJ := fn v in
      nr_loop rem' (S i) caller' x' (fst RJ) (snd RJ) nR0 (evals ++ [v])
    else stop
  end.

(** Set-up shared by newton_raphson_chunk (chunktime.py 43-48) and
    newton_raphson (solvers.py 109-114): [x = x0], first evaluation. *)
Definition nr_solve (miter : nat) (x0 : X) : nr_result :=
  let RJ := fn x0 in
  nr_loop miter 0 x0 Caller (fst RJ) (snd RJ) (nrm (fst RJ)) [x0].

(** The three ways newton_raphson_chunk can finish (chunktime.py 56-61). *)
Inductive outcome (A : Type) := Ok (a : A) | Warned (a : A) | Raised.
Arguments Ok {A}. Arguments Warned {A}. Arguments Raised {A}.

Definition newton_raphson_chunk (miter : nat) (throw_on_fail : bool) (x0 : X)
  : outcome nr_result :=
  let r := nr_solve miter x0 in
  if (res_iters r =? miter)%nat then (if throw_on_fail then Raised else Warned r) else Ok r.

(** newton_raphson (solvers.py 78-125) after the solver has been chosen. *)
Definition newton_raphson_core (miter : nat) (x0 : X) : outcome nr_result :=
  let r := nr_solve miter x0 in
  if (res_iters r =? miter)%nat then Warned r else Ok r.

End Plain.

Section Backtrack.
Variable solver : JT -> RT -> X.
Variable axpy : X -> list R -> X -> X.     (* x - alpha * dx, alpha per batch entry *)

(** One accepted update. *)
Record bt_step := {
  bt_prev : list ext; bt_new : list ext; bt_k : nat; bt_alpha : list R
}.

(** Line search loop (solvers.py 59-67). [fuel] bounds the number of passes;
    [None] = fuel exhausted (excluded by [line_search_total]). *)
Fixpoint line_search (fuel : nat) (max_bt k : nat) (x dx : X) (nR_prev : list ext)
    (alpha : list R) (evals : list X)
  : option (X * (RT * JT) * nat * list R * list X) :=
  match fuel with
  | O => None
  | S fuel' =>
    let xp := axpy x alpha dx in
    let RJ := fn xp in
    let nR := nrm (fst RJ) in
    let evals' := evals ++ [xp] in
    if all_gt nR_prev nR || (max_bt <? k)%nat then Some (xp, RJ, k, alpha, evals')
    else
      let alpha' := map (fun p : R * (ext * ext) =>
                           if esub_gtb (fst (snd p)) (snd (snd p)) atol then fst p / 2 else fst p)
                        (combine alpha (combine nR nR_prev)) in
      line_search fuel' max_bt (S k) x dx nR_prev alpha' evals'
  end.

(** Outer loop (solvers.py 53-70). [x = xp] rebinds x to a new tensor, so the
    caller's tensor is not written. *)
Fixpoint bt_loop (rem i max_bt : nat) (caller : X) (x : tref) (R : RT) (J : JT)
    (nR0 : list ext) (evals : list X) (steps : list bt_step)
  : option (nr_result * list bt_step) :=
  let stop := Some ({| res_x := deref caller x; res_J := J; res_iters := i;
                       res_evals := evals; res_caller := caller |}, steps) in
  match rem with
  | O => stop
  | S rem' =>
    if keep_going (nrm R) nR0 then
      let dx := solver J R in
      match line_search (max_bt + 2) max_bt 0 (deref caller x) dx (nrm R)
              (map (fun _ => 1) (nrm R)) evals with
      | None => None
      | Some (xp, RJ, k, alpha, evals') =>
        bt_loop rem' (S i) max_bt caller (Fresh xp) (fst RJ) (snd RJ) nR0 evals'
          (steps ++ [{| bt_prev := nrm R; bt_new := nrm (fst RJ); bt_k := k; bt_alpha := alpha |}])
      end
    else stop
  end.

Definition newton_raphson_bt_core (miter max_bt : nat) (x0 : X)
  : option (outcome nr_result * list bt_step) :=
  let RJ := fn x0 in
  match bt_loop miter 0 max_bt x0 Caller (fst RJ) (snd RJ) (nrm (fst RJ)) [x0] [] with
  | None => None
  | Some (r, st) => Some (if (res_iters r =? miter)%nat then Warned _ r else Ok _ r, st)
  end.
End Backtrack.
End Newton.
Arguments Ok {A}. Arguments Warned {A}. Arguments Raised {A}.
Arguments Caller {X}. Arguments Fresh {X}.
Arguments nr_result : clear implicits.

(** ** Choice of the linear solver: solvers.py 36-43 and 100-107 *)
Inductive lin_kind := LuSolve | DiagSolve.

Definition choose_solver (size : nat) (linsolver : string) : option lin_kind :=
  if (size =? 1)%nat then Some DiagSolve
  else if String.eqb linsolver "lu" then Some LuSolve
  else if String.eqb linsolver "diag" then Some DiagSolve
  else None.                                          (* raises ValueError *)

(** solvers.py 78-125, newton_raphson as a whole; [solvers] gives the two
    linear solves. *)
Definition newton_raphson {X RT JT} (fn : X -> RT * JT) (nrm : RT -> list ext)
    (solvers : lin_kind -> JT -> RT -> X) (sub : X -> X -> X) (rtol atol : R)
    (miter : nat) (linsolver : string) (size : nat) (x0 : X)
  : outcome (nr_result X JT) :=
  match choose_solver size linsolver with
  | None => Raised
  | Some k => newton_raphson_core fn nrm rtol atol (solvers k) sub miter x0
  end.

(** solvers.py 11-75, newton_raphson_bt as a whole. *)
Definition newton_raphson_bt {X RT JT} (fn : X -> RT * JT) (nrm : RT -> list ext)
    (solvers : lin_kind -> JT -> RT -> X) (axpy : X -> list R -> X -> X) (rtol atol : R)
    (miter max_bt : nat) (linsolver : string) (size : nat) (x0 : X)
  : option (outcome (nr_result X JT) * list bt_step) :=
  match choose_solver size linsolver with
  | None => Some (Raised, [])
  | Some k => newton_raphson_bt_core fn nrm rtol atol (solvers k) axpy miter max_bt x0
  end.

(** ** GMRES control flow, solvers.py 274-376.
    The Krylov basis and the least-squares problem enter only through the
    candidate [cand k] = value of x computed at the check of iteration k
    (lines 361-366), an arbitrary function here. *)
Section Gmres.
Context {X : Type}.
Variables (resn : X -> list ext) (tol : R) (x0 : X) (cand : nat -> X).

(** Iterations k, k+1, ..., maxiter-1 (lines 341-372); [x] is the current
    value.  Returns x and the final value of k. *)
Fixpoint gmres_loop (rem k maxiter check : nat) (x : X) : X * nat :=
  match rem with
  | O => (x, (k - 1)%nat)
  | S rem' =>
    if ((S k mod check =? 0) || (S k =? maxiter))%nat then
      let x' := cand k in
      if all_lt (resn x') tol then (x', k) else gmres_loop rem' (S k) maxiter check x'
    else gmres_loop rem' (S k) maxiter check x
  end.

(** [None]: [maxiter = 0] leaves k undefined and [check = 0] divides by zero. *)
Definition gmres (maxiter check : nat) : option (X * nat) :=
  if all_lt (resn x0) tol then Some (x0, 0%nat)
  else match maxiter, check with
       | O, _ | _, O => None
       | _, _ => Some (gmres_loop maxiter 0 maxiter check x0)
       end.
End Gmres.

(** ** PreconditionerReuseNonlinearSolver.solve, solvers.py 392-433.
    State across calls: the stored preconditioner ([None] before the first
    solve).  [lin P J R x] is the gmres call, returning dx and niter. *)
Section Reuse.
Context {X RT JT P : Type}.
Variables (fn : X -> RT * JT) (nrm : RT -> list ext) (rtol atol : R).
Variables (factor : JT -> P) (lin : P -> JT -> RT -> X -> X * nat) (sub : X -> X -> X).
Variable l_refactor : nat.       (* (n * 2) // 3, line 408 *)

Fixpoint reuse_loop (rem i : nat) (pc : P) (x : X) (R : RT) (J : JT) (nR0 : list ext)
  : X * JT * nat * P :=
  match rem with
  | O => (x, J, i, pc)
  | S rem' =>
    if keep_going rtol atol (nrm R) nR0 then
      let '(dx, niter) := lin pc J R x in
      let x' := sub x dx in
      let RJ := fn x' in
      let pc' := if (l_refactor <? niter)%nat then factor (snd RJ) else pc in
      reuse_loop rem' (S i) pc' x' (fst RJ) (snd RJ) nR0
    else (x, J, i, pc)
  end.

Definition reuse_solve (miter : nat) (stored : option P) (x0 : X)
  : outcome (X * JT * nat) * option P :=
  let RJ := fn x0 in
  let pc := match stored with Some p => p | None => factor (snd RJ) end in
  let '(x, J, i, pc') := reuse_loop miter 0 pc x0 (fst RJ) (snd RJ) (nrm (fst RJ)) in
  ((if (i =? miter)%nat then Warned (x, J, i) else Ok (x, J, i)), Some pc').
End Reuse.

(** One object used for a history of solves (the object's only state is the
    stored preconditioner).  Each problem has its own residual function,
    tolerances and starting point. *)
Record problem (X RT JT : Type) := {
  pr_fn : X -> RT * JT; pr_nrm : RT -> list ext; pr_rtol : R; pr_atol : R;
  pr_miter : nat; pr_x0 : X; pr_refactor : nat
}.
Arguments pr_fn {X RT JT}. Arguments pr_nrm {X RT JT}. Arguments pr_rtol {X RT JT}.
Arguments pr_atol {X RT JT}. Arguments pr_miter {X RT JT}. Arguments pr_x0 {X RT JT}.
Arguments pr_refactor {X RT JT}.

Fixpoint reuse_history {X RT JT P} (factor : JT -> P) (lin : P -> JT -> RT -> X -> X * nat)
    (sub : X -> X -> X) (stored : option P) (h : list (problem X RT JT))
  : list (outcome (X * JT * nat)) * option P :=
  match h with
  | [] => ([], stored)
  | p :: h' =>
    let (o, st) := reuse_solve (pr_fn p) (pr_nrm p) (pr_rtol p) (pr_atol p) factor lin sub
                     (pr_refactor p) (pr_miter p) stored (pr_x0 p) in
    let (os, st') := reuse_history factor lin sub st h' in
    (o :: os, st')
  end.
