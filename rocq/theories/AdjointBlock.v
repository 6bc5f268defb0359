(** The backward pass of ode.py 412-475 for a function that treats the points of a call together (as the stress-controlled models do): one call per
    block for the Jacobians (rows 0..len) and one for the parameter derivatives (len rows). *)
From Coq Require Import Reals List String FunctionalExtensionality.
From mathcomp Require Import all_ssreflect all_algebra.
From Verif Require Import ChunkModel ChunkSolve ChunkInst NewtonModel Ode.
Import GRing.Theory.
Set Implicit Arguments. Unset Strict Implicit. Unset Printing Implicit Defensive.
Local Open Scope ring_scope.

Section Block.
Variables (F : fieldType) (nb m np : nat).
Notation vb := (VB F nb m).
Notation mb := (MB F nb m).
(** [GJ rows ts y]: Jacobians of a call; [GP rows ts y k b]: derivative of row k of entry b of a call with respect to the parameters *)
Variable GJ : nat -> (nat -> TB F nb) -> (nat -> vb) -> nat -> mb.
Variable GP : nat -> (nat -> TB F nb) -> (nat -> vb) -> nat -> 'I_nb -> 'M[F]_(m, np).
Variable mth : direct_method.
(** ode.py 412-423 *)
Definition param_partialG (n : nat) (ts : nat -> TB F nb) (y a : nat -> vb) : 'cV[F]_np :=
  \sum_(k < n) \sum_b (GP n ts y k b)^T *m a k b.
(** ode.py 133-151 and 242-260 *)
Definition accumulateG (s : scheme) (n : nat) (prev : 'cV[F]_np) (ts : nat -> TB F nb) (y a grads : nat -> vb) : 'cV[F]_np :=
  let dt := tdiff ts in
  prev + match s with
         | BackwardEuler => param_partialG n ts y (fun k => [ffun b => (- dt k b) *: (a k.+1 b - grads k.+1 b)])
         | ForwardEuler => param_partialG n (fun k => ts k.+1) (fun k => y k.+1) (fun k => [ffun b => (- dt k b) *: a k b])
         end.
(** ode.py 425-475 *)
Fixpoint rewindG_loop (fuel : nat) (s : scheme) (n nt : nat) (tf : nat -> TB F nb) (rf gf : nat -> vb)
    (k : nat) (grad : 'cV[F]_np) (a_prev : vb) : option ('cV[F]_np * vb) :=
  if (k < nt)%N then
    match fuel with
    | O => None
    | fuel'.+1 =>
      let len := slice_len nt k (k + n) in
      let ts := fun j => tf (k - 1 + j)%N in
      let y := fun j => rf (k - 1 + j)%N in
      let g := fun j => gf (k - 1 + j)%N in
      match update_adjoint mth s len (tdiff ts) (GJ len.+1 ts y) a_prev g with
      | None => None
      | Some a => rewindG_loop fuel' s n nt tf rf gf (k + n)%N (accumulateG s len grad ts y a g) (a len)
      end
    end
  else Some (grad, a_prev).
Definition rewindG (s : scheme) (n nt : nat) (t : nat -> TB F nb) (result og : nat -> vb) : option ('cV[F]_np * vb) :=
  if n == 0%N then None
  else rewindG_loop nt s n nt (flipn nt t) (flipn nt result) (flipn nt og) 1 0 (flipn nt og 0).

(** When the calls of the backward pass return the pointwise derivatives, it is the pointwise backward pass. *)
Variables (Jf : 'I_nb -> F -> 'cV[F]_m -> 'M[F]_m) (Pf : 'I_nb -> F -> 'cV[F]_m -> 'M[F]_(m, np)).
Lemma rewindG_eq n nt t result og :
  (forall rows ts y, GJ rows ts y = func_jac Jf ts y) ->
  (forall k j b, (0 < k)%N -> (k < nt)%N -> (j < slice_len nt k (k + n))%N ->
     let ts := fun j => flipn nt t (k - 1 + j)%N in let y := fun j => flipn nt result (k - 1 + j)%N in
     GP (slice_len nt k (k + n)) ts y j b = Pf b (ts j b) (y j b)) ->
  rewindG BackwardEuler n nt t result og = rewind Jf Pf mth BackwardEuler n nt t result og.
Proof.
move=> HJ HP; rewrite /rewindG /rewind; case: ifP => // _.
suff L fuel k grad a : (0 < k)%N ->
  rewindG_loop fuel BackwardEuler n nt (flipn nt t) (flipn nt result) (flipn nt og) k grad a = rewind_loop Jf Pf mth fuel BackwardEuler n nt (flipn nt t) (flipn nt result) (flipn nt og) k grad a by exact: L.
elim: fuel k grad a => [|fuel IH] k grad a k0 //=; case: ifP => // kn; rewrite HJ.
case: update_adjoint => // a'.
have -> : accumulateG BackwardEuler (slice_len nt k (k + n)) grad (fun j => flipn nt t (k - 1 + j)%N) (fun j => flipn nt result (k - 1 + j)%N) a' (fun j => flipn nt og (k - 1 + j)%N) =
  accumulate Pf BackwardEuler (slice_len nt k (k + n)) grad (fun j => flipn nt t (k - 1 + j)%N) (fun j => flipn nt result (k - 1 + j)%N) a' (fun j => flipn nt og (k - 1 + j)%N).
{ rewrite /accumulateG /accumulate; congr (_ + _); apply: eq_bigr => j _; apply: eq_bigr => b _; by rewrite (HP k j b k0 kn (ltn_ord j)). }
apply: IH; exact: leq_trans k0 (leq_addr _ _).
Qed.
End Block.
