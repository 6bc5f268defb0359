(** Model of the time integrators, ode.py 46-574, over an arbitrary field.

    Tensors: a quantity with one (nbatch, nsize) slice per time is a function
    [nat -> VB] (VB = one column vector per batch entry, ChunkInst.v); times
    have one scalar per batch entry ([TB]).  The user's function is given
    pointwise in time: rate [f b t y] and Jacobian [Jf b t y] of batch entry b
    (the library calls it on stacked times and relies on this). *)
From Coq Require Import Reals List String.
From mathcomp Require Import all_ssreflect all_algebra.
From Verif Require Import ChunkModel ChunkInst NewtonModel.
Import GRing.Theory.
Set Implicit Arguments. Unset Strict Implicit. Unset Printing Implicit Defensive.
Local Open Scope ring_scope.

Inductive scheme := BackwardEuler | ForwardEuler.

(** Ways integrate can raise. *)
Inductive ode_error :=
| ErrEmpty        (* result[0] = y0 with no times: IndexError *)
| ErrStep         (* range(1, nt, 0): ValueError *)
| ErrGuessName    (* ode.py 408 *)
| ErrGuessShape   (* dy.reshape in RJ (ode.py 492) on a guess of the wrong size *)
| ErrSolve        (* throw_on_fail *)
| ErrFuel.        (* model artefact: excluded by integrate_total *)

Section Ode.
Variables (F : fieldType) (nb m : nat).
Notation vb := (VB F nb m).
Notation mb := (MB F nb m).
Definition TB := {ffun 'I_nb -> F}.
Variables (f : 'I_nb -> F -> 'cV[F]_m -> 'cV[F]_m) (Jf : 'I_nb -> F -> 'cV[F]_m -> 'M[F]_m).

Definition zeroV : vb := [ffun=> 0].
Definition addV (u v : vb) : vb := [ffun b => u b + v b].
Definition subV (u v : vb) : vb := [ffun b => u b - v b].

(** [yd, yJ = func(times, y)], ode.py 503. *)
Definition func_rate (ts : nat -> TB) (y : nat -> vb) : nat -> vb :=
  fun k => [ffun b => f b (ts k b) (y k b)].
Definition func_jac (ts : nat -> TB) (y : nat -> vb) : nat -> mb :=
  fun k => [ffun b => Jf b (ts k b) (y k b)].

(** [times.diff(dim=0)] *)
Definition tdiff (ts : nat -> TB) : nat -> TB := fun k => [ffun b => ts k.+1 b - ts k b].

(** Residual before flattening: ode.py 81-85 (backward), 189-193 (forward). *)
Definition form_residual (s : scheme) (dy yd : nat -> vb) (dt : nat -> TB) : nat -> vb :=
  fun k => [ffun b => dy k.+1 b - dy k b
              - dt k b *: (match s with BackwardEuler => yd k.+1 b | ForwardEuler => yd k b end)].

(** Blocks handed to BidiagonalForwardOperator: ode.py 91-93 and 199-203. *)
Definition form_A (s : scheme) (yJ : nat -> mb) (dt : nat -> TB) : nat -> mb :=
  fun k => [ffun b => match s with
                      | BackwardEuler => 1%:M - dt k b *: yJ k.+1 b
                      | ForwardEuler => 1%:M end].
Definition form_B (s : scheme) (yJ : nat -> mb) (dt : nat -> TB) : nat -> mb :=
  fun k => [ffun b => match s with
                      | BackwardEuler => - 1%:M
                      | ForwardEuler => - 1%:M - dt k.+1 b *: yJ k.+1 b end].

(** Entries of a (nblk, nbatch, m, m) tensor given by blocks. *)
Definition unblkM (A : nat -> mb) : tens4 F := fun k b i j =>
  if insub b is Some b' then
    if insub i is Some i' then if insub j is Some j' then A k b' i' j' else 0 else 0
  else 0.

(** ode.py 490-505: the residual function of a block of [n] steps.  [x] has
    shape (nbatch, n*m); [ts] are the block's times.  Line 502 puts a zero row
    in front of dy. *)
Definition dys (x : tens2 F) (k : nat) : vb := if k is k'.+1 then blkV nb m x k' else zeroV.
Definition ys (x : tens2 F) (ystart : vb) (k : nat) : vb := addV (dys x k) ystart.
Definition block_times (tstart : TB) (ts : nat -> TB) (k : nat) : TB :=
  if k is k'.+1 then ts k' else tstart.

Definition block_RJ (s : scheme) (tstart : TB) (ts : nat -> TB) (ystart : vb) (x : tens2 F)
  : tens2 F * ((nat -> mb) * (nat -> mb)) :=
  let y := ys x ystart in
  let times := block_times tstart ts in
  let dt := tdiff times in
  (flat (form_residual s (dys x) (func_rate times y) dt),
   (form_A s (func_jac times y) dt, form_B s (func_jac times y) dt)).

(** [solver.solve(J, R)], chunktime.py 501-513.  ctx_solve is None only for an
    empty system (n = 0), which no block is ([ctx_solve_defined]). *)
Definition block_linsolve (lm : lin_method) (n : nat) (J : (nat -> mb) * (nat -> mb)) (r : tens2 F)
  : tens2 F :=
  match ctx_solve lm nb m n (unblkM J.1) (unblkM J.2) r with
  | Some x => x
  | None => fun _ _ => 0
  end.

Definition tsub (x dx : tens2 F) : tens2 F := fun b i => x b i - dx b i.

Section Integrate.
(** Solver options: ode.py 288-352. [nrm n] is torch.norm over the n*m residual
    entries of each batch entry. *)
Variables (s : scheme) (lm : lin_method) (nrm : nat -> tens2 F -> list ext).
Variables (rtol atol : R) (miter : nat) (throw : bool).

(** ode.py 477-519, block_update for a block of [n] steps. *)
Definition block_update (n : nat) (tstart : TB) (ts : nat -> TB) (ystart : vb) (guess : tens2 F)
  : outcome (nat -> vb) :=
  let out r := fun k => addV (blkV nb m (res_x r) k) ystart in
  match newton_raphson_chunk (block_RJ s tstart ts ystart) (nrm n) rtol atol
          (block_linsolve lm n) tsub miter throw guess with
  | Ok r => Ok (out r)
  | Warned r => Warned (out r)
  | Raised => Raised
  end.

(** Length of the slice [a[lo:hi]] of an array of length [len]. *)
Definition slice_len (len lo hi : nat) : nat := minn hi len - lo.

(** ode.py 390-410, _initial_guess: number of rows and rows, or a ValueError. *)
Definition initial_guess (gt : string) (n nt : nat) (result : nat -> vb) (k : nat)
  : option (nat * (nat -> vb)) :=
  let len := slice_len nt k (k + n) in
  if String.eqb gt "zero" then Some (len, fun _ => zeroV)
  else if String.eqb gt "previous" then
    let g := if (k < n + 1)%N then (len, fun _ => zeroV)
             else (slice_len nt (k - n) k, fun j => subV (result (k - n + j)%N) (result (k - n - 1)%N)) in
    let blk := (n - len)%N in
    Some ((g.1 - blk)%N, fun j => g.2 (blk + j)%N)
  else None.

(** State of the loop: the results array, the log of indices written to it, and
    the (start, length) of the blocks whose solve issued a warning. *)
Record istate := { i_result : nat -> vb; i_writes : seq nat; i_warned : seq (nat * nat) }.

(** One pass of the loop of ode.py 374-381. *)
Definition int_step (gt : string) (n nt : nat) (t : nat -> TB) (k : nat) (st : istate)
  : istate + ode_error :=
  let len := slice_len nt k (k + n) in
  match initial_guess gt n nt (i_result st) k with
  | None => inr ErrGuessName
  | Some (glen, g) =>
    if glen != len then inr ErrGuessShape
    else
      let wr warned out :=
        inl {| i_result := fun j => if (k <= j < k + len)%N then out (j - k)%N else i_result st j;
               i_writes := i_writes st ++ iota k len;
               i_warned := if warned then i_warned st ++ [:: (k, len)] else i_warned st |} in
      (* the guess tensor has exactly glen rows *)
      let grows := fun j => if (j < glen)%N then g j else zeroV in
      match block_update len (t (k - 1)%N) (fun j => t (k + j)%N) (i_result st (k - 1)%N) (flat grows) with
      | Ok out => wr false out
      | Warned out => wr true out
      | Raised => inr ErrSolve
      end
  end.

(** [for k in range(1, nt, n)] *)
Fixpoint int_loop (fuel : nat) (gt : string) (n nt : nat) (t : nat -> TB) (k : nat) (st : istate)
  : istate + ode_error :=
  if (k < nt)%N then
    match fuel with
    | O => inr ErrFuel
    | fuel'.+1 =>
      match int_step gt n nt t k st with
      | inl st' => int_loop fuel' gt n nt t (k + n)%N st'
      | inr e => inr e
      end
    end
  else inl st.

(** ode.py 354-388, integrate; [init] is the content of torch.empty. *)
Definition integrate (gt : string) (n nt : nat) (t : nat -> TB) (y0 : vb) (init : nat -> vb)
  : istate + ode_error :=
  if nt == 0%N then inr ErrEmpty
  else if n == 0%N then inr ErrStep
  else int_loop nt gt n nt t 1
         {| i_result := fun j => if j == 0%N then y0 else init j;
            i_writes := [:: 0%N]; i_warned := [::] |}.
End Integrate.

(** ** The adjoint pass *)
Section Adjoint.
Variable np : nat.    (* total number of scalar parameters *)
(** Derivative of the rate with respect to the parameters (what autograd
    contracts with in ode.py 412-423). *)
Variable Pf : 'I_nb -> F -> 'cV[F]_m -> 'M[F]_(m, np).
Variable mth : direct_method.

Definition trB (A : mb) : mb := [ffun b => (A b)^T].

(** ode.py 95-131 and 205-240, update_adjoint on a block with [n] steps:
    [J], [grads] have rows 0..n, [dt] rows 0..n-1. *)
Definition adj_dJ (s : scheme) (dt : nat -> TB) (J : nat -> mb) : nat -> mb :=
  fun k => [ffun b => dt k b *: (trB (match s with BackwardEuler => J k | ForwardEuler => J k.+1 end)) b].
Definition adj_A (s : scheme) dt J : nat -> mb :=
  fun k => [ffun b => match s with BackwardEuler => 1%:M + adj_dJ s dt J k b | ForwardEuler => 1%:M end].
Definition adj_B (s : scheme) dt J : nat -> mb :=
  fun k => [ffun b => match s with BackwardEuler => - 1%:M
                      | ForwardEuler => adj_dJ s dt J k.+1 b - 1%:M end].
Definition adj_rhs (s : scheme) dt J (a_prev : vb) (grads : nat -> vb) : nat -> vb :=
  fun k => [ffun b => grads k.+1 b + adj_dJ s dt J k b *m
      (match s with BackwardEuler => grads k.+1 b - a_prev b | ForwardEuler => - a_prev b end)].

Definition update_adjoint (s : scheme) (n : nat) (dt : nat -> TB) (J : nat -> mb) (a_prev : vb)
    (grads : nat -> vb) : option (nat -> vb) :=
  match matvec (fops F nb m) mth n (adj_A s dt J) (adj_B s dt J) (adj_rhs s dt J a_prev grads) with
  | Some (x, _) => Some (fun k => if k is k'.+1 then addV (x k') a_prev else a_prev)
  | None => None
  end.

(** ode.py 412-423, _get_param_partial on [n] rows: sum over rows and batch of
    (df/dp)^T a. *)
Definition param_partial (n : nat) (ts : nat -> TB) (y a : nat -> vb) : 'cV[F]_np :=
  \sum_(k < n) \sum_b (Pf b (ts k b) (y k b))^T *m a k b.

(** ode.py 133-151 and 242-260, accumulate. *)
Definition accumulate (s : scheme) (n : nat) (prev : 'cV[F]_np) (ts : nat -> TB)
    (y a grads : nat -> vb) : 'cV[F]_np :=
  let dt := tdiff ts in
  prev + match s with
         | BackwardEuler =>
           param_partial n ts y (fun k => [ffun b => (- dt k b) *: (a k.+1 b - grads k.+1 b)])
         | ForwardEuler =>
           param_partial n (fun k => ts k.+1) (fun k => y k.+1) (fun k => [ffun b => (- dt k b) *: a k b])
         end.

(** ode.py 425-475, rewind: [tf], [rf], [gf] are the time-flipped times, results
    and output gradients. *)
Fixpoint rewind_loop (fuel : nat) (s : scheme) (n nt : nat) (tf : nat -> TB) (rf gf : nat -> vb)
    (k : nat) (grad : 'cV[F]_np) (a_prev : vb) : option ('cV[F]_np * vb) :=
  if (k < nt)%N then
    match fuel with
    | O => None
    | fuel'.+1 =>
      let len := slice_len nt k (k + n) in
      let ts := fun j => tf (k - 1 + j)%N in
      let y := fun j => rf (k - 1 + j)%N in
      let g := fun j => gf (k - 1 + j)%N in
      match update_adjoint s len (tdiff ts) (func_jac ts y) a_prev g with
      | None => None
      | Some a => rewind_loop fuel' s n nt tf rf gf (k + n)%N (accumulate s len grad ts y a g) (a len)
      end
    end
  else Some (grad, a_prev).

(** Flip of an array of length nt. *)
Definition flipn {A} (nt : nat) (a : nat -> A) (k : nat) : A := a (nt - 1 - k)%N.

Definition rewind (s : scheme) (n nt : nat) (t : nat -> TB) (result og : nat -> vb)
  : option ('cV[F]_np * vb) :=
  if n == 0%N then None
  else rewind_loop nt s n nt (flipn nt t) (flipn nt result) (flipn nt og) 1 0 (flipn nt og 0).
End Adjoint.
End Ode.
