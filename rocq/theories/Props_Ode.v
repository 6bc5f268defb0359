(** Property theorems for the time integrators (C18-C29, C78, C79).
    [integrate] is odeint's forward pass (Ode.v), [rewind] the adjoint pass. *)
From Coq Require Import Reals List String.
From mathcomp Require Import all_ssreflect all_algebra.
From Verif Require Import ChunkModel ChunkSolve ChunkInst NewtonModel NewtonProofs Ode OdeForward OdeAdjoint
  OdeReal OdeDiff OdeAffine OdeApi ZmodTac RField.
Import GRing.Theory.
Local Open Scope ring_scope.

(** C18: every index 0..nt-1 is written exactly once and in order, index 0 holds
    y0, nothing else is written; the only failures are the documented ones. *)
Theorem C18_fills_every_time_once (F : fieldType) nb m f Jf s lm nrm rtol atol miter throw gt n nt t y0 init st :
  @integrate F nb m f Jf s lm nrm rtol atol miter throw gt n nt t y0 init = inl st ->
  i_writes st = iota 0 nt /\ i_result st 0%N = y0 /\
  (forall j, (nt <= j)%N -> (0 < j)%N -> i_result st j = init j).
Proof. exact: integrate_writes. Qed.
Print Assumptions C18_fills_every_time_once.

(** ... and what torch.empty happened to contain never shows in the results. *)
Theorem C18_uninitialised_storage_invisible (F : fieldType) nb m f Jf s lm nrm rtol atol miter throw gt n nt t y0
    init init' :
  match @integrate F nb m f Jf s lm nrm rtol atol miter throw gt n nt t y0 init,
        @integrate F nb m f Jf s lm nrm rtol atol miter throw gt n nt t y0 init' with
  | inl st, inl st' => forall j, (j < nt)%N -> i_result st j = i_result st' j
  | inr e, inr e' => e = e'
  | _, _ => False
  end.
Proof.
have := @integrate_init F nb m f Jf s lm nrm rtol atol miter throw gt n nt t y0 init init'.
by rewrite /same_upto; case: integrate => [x|e]; case: integrate => [y|e'] // [].
Qed.
Print Assumptions C18_uninitialised_storage_invisible.

Theorem C18_always_terminates (F : fieldType) nb m f Jf s lm nrm rtol atol miter throw gt n nt t y0 init :
  @integrate F nb m f Jf s lm nrm rtol atol miter throw gt n nt t y0 init <> inr ErrFuel.
Proof. exact: integrate_fuel. Qed.
Print Assumptions C18_always_terminates.

(** C19: every component of every backward Euler step meets a tolerance. *)
Theorem C19_backward_euler_to_tolerance nb m f Jf lm rtol atol miter throw gt n nt t y0 init st k b (c : 'I_m) :
  @integrate RF nb m f Jf BackwardEuler lm (nrmR nb m) rtol atol miter throw gt n nt t y0 init = inl st ->
  i_warned st = [::] -> (0 < k)%N -> (k < nt)%N ->
  let y := i_result st in
  let r := (y k b - y k.-1 b - (t k b - t k.-1 b) *: f b (t k b) (y k b)) c 0 in
  let k0 := block_start n k in
  let len := slice_len nt k0 (k0 + n) in
  Rle (Rabs r) atol \/
  Rle (Rabs r) (rtol * block_norm f BackwardEuler t (start_hist (guess_incr gt n len y k0) y k0) k0 len b).
Proof. by move=> H W k0 kn; apply: (integrate_step_tol _ _ H k0 kn); rewrite W. Qed.
Print Assumptions C19_backward_euler_to_tolerance.

(** Same, with warnings elsewhere: only the block of step k matters. *)
Theorem C19_unwarned_block nb m f Jf s lm rtol atol miter throw gt n nt t y0 init st i :
  @integrate RF nb m f Jf s lm (nrmR nb m) rtol atol miter throw gt n nt t y0 init = inl st ->
  let k0 := (i * n).+1 in let len := slice_len nt k0 (k0 + n) in
  (k0 < nt)%N -> (k0, len) \notin i_warned st ->
  (forall b, Rle (block_norm f s t (i_result st) k0 len b) atol) \/
  (forall b, Rle (block_norm f s t (i_result st) k0 len b)
     (rtol * block_norm f s t (start_hist (guess_incr gt n len (i_result st) k0) (i_result st) k0) k0 len b)).
Proof. by move=> H k0 len; apply: (integrate_tol H). Qed.
Print Assumptions C19_unwarned_block.

(** C20 *)
Theorem C20_forward_euler_to_tolerance nb m f Jf lm rtol atol miter throw gt n nt t y0 init st k b (c : 'I_m) :
  @integrate RF nb m f Jf ForwardEuler lm (nrmR nb m) rtol atol miter throw gt n nt t y0 init = inl st ->
  i_warned st = [::] -> (0 < k)%N -> (k < nt)%N ->
  let y := i_result st in
  let r := (y k b - y k.-1 b - (t k b - t k.-1 b) *: f b (t k.-1 b) (y k.-1 b)) c 0 in
  let k0 := block_start n k in
  let len := slice_len nt k0 (k0 + n) in
  Rle (Rabs r) atol \/
  Rle (Rabs r) (rtol * block_norm f ForwardEuler t (start_hist (guess_incr gt n len y k0) y k0) k0 len b).
Proof. by move=> H W k0 kn; apply: (integrate_step_tol _ _ H k0 kn); rewrite W. Qed.
Print Assumptions C20_forward_euler_to_tolerance.

(** C21, forward Euler: with zero tolerances and enough iterations every block
    size gives the step-by-step recursion. *)
Theorem C21_forward_euler_any_block nb m f Jf lm miter throw gt n nt t y0 init :
  (0 < n)%N -> (n < miter)%N -> (0 < nt)%N ->
  (gt = "zero" \/ gt = "previous" /\ (n < nt)%N)%string ->
  exists st, @integrate RF nb m f Jf ForwardEuler lm (nrmR nb m) 0 0 miter throw gt n nt t y0 init = inl st
    /\ forall k, (k < nt)%N -> i_result st k = euler f t y0 k.
Proof.
move=> n0 nm nt0 hg.
have [st [E W]] := @fe_never_fails nb m f Jf lm 0 0 miter throw gt n nt t y0 init (Rle_refl _) n0 nm nt0 hg.
exists st; split=> //; have [_ [R0 _]] := integrate_writes E.
apply: (fe_is_euler R0) => k b k0 kn; exact: (integrate_exact _ _ E W).
Qed.
Print Assumptions C21_forward_euler_any_block.

(** C21, backward Euler: two exact runs agree whatever their block sizes, linear
    solvers and guesses. *)
Theorem C21_backward_euler_any_two_blocks nb m f Jf lm lm' miter miter' throw throw' gt gt' n n' nt t y0 init init'
    st st' :
  implicit_unique f nt t ->
  @integrate RF nb m f Jf BackwardEuler lm (nrmR nb m) 0 0 miter throw gt n nt t y0 init = inl st ->
  @integrate RF nb m f Jf BackwardEuler lm' (nrmR nb m) 0 0 miter' throw' gt' n' nt t y0 init' = inl st' ->
  i_warned st = [::] -> i_warned st' = [::] ->
  forall k, (k < nt)%N -> i_result st k = i_result st' k.
Proof.
move=> U E E' W W'; have [_ [R0 _]] := integrate_writes E; have [_ [R0' _]] := integrate_writes E'.
apply: (be_unique _ U) => [|k b k0 kn|k b k0 kn]; first by rewrite R0 R0'.
- exact: (integrate_exact _ _ E W).
- exact: (integrate_exact _ _ E' W').
Qed.
Print Assumptions C21_backward_euler_any_two_blocks.

(** C22 *)
Theorem C22_assembly_is_jacobian nb m f Jf s tstart ts ystart n (x : R -> tens2 RF) xd th :
  (forall b idx, (b < nb)%N -> (idx < n * m)%N -> derivable_pt_lim (fun u => x u b idx) th (xd b idx)) ->
  (forall k b, (k <= n)%N -> let t := block_times tstart ts k b in let y := ys (x th) ystart k b in
     jacobian_at (f b t) (Jf b t y) y) ->
  let RJ u := @block_RJ RF nb m f Jf s tstart ts ystart (x u) in
  forall b idx, (b < nb)%N -> (idx < n * m)%N ->
  derivable_pt_lim (fun u => fst (RJ u) b idx) th
    (op_forward nb m (unblkM (RJ th).2.1) (unblkM (RJ th).2.2) xd b idx).
Proof. exact: block_jacobian. Qed.
Print Assumptions C22_assembly_is_jacobian.

(** C23 *)
Theorem C23_exact_after_j_updates (F : fieldType) nb m f Jf lm tstart ts ystart n x0 j i b :
  (0 < n)%N -> (j <= n)%N -> (i < j)%N ->
  let x := point (@block_RJ F nb m f Jf ForwardEuler tstart ts ystart) (block_linsolve lm n) (@tsub F) x0 j in
  let t := block_times tstart ts in
  let y k := dys nb m x k b + ystart b in
  y i.+1 = y i + (t i.+1 b - t i b) *: f b (t i b) (y i).
Proof.
move=> n0 jn ij x t y.
have := @fe_exact_after F nb m f Jf lm tstart ts ystart n x0 j n0 jn i ij.
move/ffunP/(_ b); rewrite [fe_res _ _ _ _ _ _ b]ffunE [RHS]ffunE => /eqP; rewrite subr_eq0 => /eqP H.
by rewrite /y /t -H; zmod.
Qed.
Print Assumptions C23_exact_after_j_updates.

Theorem C23_forward_euler_never_fails nb m f Jf lm rtol atol miter throw gt n nt t y0 init :
  Rle 0 atol -> (0 < n)%N -> (n < miter)%N -> (0 < nt)%N ->
  (gt = "zero" \/ gt = "previous" /\ (n < nt)%N)%string ->
  exists st, @integrate RF nb m f Jf ForwardEuler lm (nrmR nb m) rtol atol miter throw gt n nt t y0 init = inl st
    /\ i_warned st = [::].
Proof. exact: fe_never_fails. Qed.
Print Assumptions C23_forward_euler_never_fails.

(** C24 *)
Theorem C24_zero_guess (F : fieldType) nb m n nt result k :
  initial_guess "zero" n nt result k = Some (slice_len nt k (k + n), fun _ => zeroV F nb m).
Proof. by []. Qed.
Print Assumptions C24_zero_guess.

Theorem C24_previous_guess (F : fieldType) nb m n nt (result : nat -> VB F nb m) k i :
  (0 < n)%N -> (n < nt)%N -> (k < nt)%N -> k = (i * n).+1 ->
  let len := slice_len nt k (k + n) in
  exists g, initial_guess "previous" n nt result k = Some (len, g) /\
  forall j b, (j < len)%N ->
    g j b = if i is i'.+1 then result (k - len + j)%N b - result (k - n - 1)%N b else 0.
Proof.
move=> n0 nn kn kE len; have [g [E H]] := @guess_previous F nb m n nt result k i n0 nn kn kE.
exists g; split=> // j b jl; rewrite H //; by case: (i) => [|i']; rewrite ffunE.
Qed.
Print Assumptions C24_previous_guess.

Theorem C24_unknown_guess (F : fieldType) nb m gt n nt result k : gt <> "zero"%string -> gt <> "previous"%string ->
  @initial_guess F nb m gt n nt result k = None.
Proof. exact: guess_other. Qed.
Print Assumptions C24_unknown_guess.

(** Refutation of the general claim: with the "previous" guess and block_size
    at least the number of times, integrate raises on its first block. *)
Theorem C24_previous_guess_refuted (F : fieldType) nb m f Jf s lm nrm rtol atol miter throw n nt t y0 init :
  (1 < nt)%N -> (nt <= n)%N ->
  @integrate F nb m f Jf s lm nrm rtol atol miter throw "previous" n nt t y0 init = inr ErrGuessShape.
Proof. exact: integrate_previous_short. Qed.
Print Assumptions C24_previous_guess_refuted.

(** C25: [y u] is any differentiable family of exact backward Euler histories for
    parameters [p u]; [loss] is the og-weighted sum of the outputs.  The returned
    gradients are the derivative of the loss. *)
Theorem C25_adjoint_backward_euler nb m np fp Jp Pp nt t mth n
    (p : R -> 'cV[RF]_np) (y : R -> nat -> VB RF nb m) (z : nat -> VB RF nb m) q th og :
  (0 < n)%N -> (0 < nt)%N ->
  (exists d, Rlt 0 d /\ forall u, Rlt (Rabs (u - th)) d -> scheme_solution fp BackwardEuler nt t (p u) (y u)) ->
  (forall k b, (k < nt)%N -> cdiff (fun u => y u k b) th (z k b)) -> cdiff p th q ->
  partials_along fp Jp Pp nt t (p th) (y th) -> steps_regular Jp BackwardEuler nt t (p th) (y th) ->
  exists grad lam,
    rewind (at_p Jp (p th)) (at_p Pp (p th)) mth BackwardEuler n nt t (y th) og = Some (grad, lam) /\
    derivable_pt_lim (fun u => loss nt og (y u)) th
      ((\sum_(i < np) grad i 0 * q i 0) + (\sum_b \sum_(c < m) lam b c 0 * z 0%N b c 0)).
Proof. exact: adjoint_derivative. Qed.
Print Assumptions C25_adjoint_backward_euler.

(** C26: forward Euler, for any differentiable parameters and initial conditions. *)
Theorem C26_adjoint_forward_euler nb m np fp Jp Pp nt t mth n
    (p : R -> 'cV[RF]_np) (y0 : R -> VB RF nb m) q (z0 : VB RF nb m) th og :
  (0 < n)%N -> (0 < nt)%N -> cdiff p th q -> (forall b, cdiff (fun u => y0 u b) th (z0 b)) ->
  let Y u := euler (at_p fp (p u)) t (y0 u) in
  partials_along fp Jp Pp nt t (p th) (Y th) ->
  exists grad lam,
    rewind (at_p Jp (p th)) (at_p Pp (p th)) mth ForwardEuler n nt t (Y th) og = Some (grad, lam) /\
    derivable_pt_lim (fun u => loss nt og (Y u)) th
      ((\sum_(i < np) grad i 0 * q i 0) + (\sum_b \sum_(c < m) lam b c 0 * z0 b c 0)).
Proof. exact: adjoint_fe. Qed.
Print Assumptions C26_adjoint_forward_euler.

(** C27 *)
Theorem C27_adjoint_block_independent (F : fieldType) nb m np (Jf : 'I_nb -> F -> 'cV[F]_m -> 'M[F]_m) Pf s mth mth' n n' nt
    (t : nat -> TB F nb) (result og : nat -> VB F nb m) :
  (0 < n)%N -> (0 < n')%N -> (0 < nt)%N ->
  (s = BackwardEuler -> forall k b, (0 < k)%N -> (k < nt)%N ->
     (1%:M - (t k b - t k.-1 b) *: Jf b (t k b) (result k b)) \in unitmx) ->
  exists g, @rewind F nb m Jf np Pf mth s n nt t result og = Some g /\
            @rewind F nb m Jf np Pf mth' s n' nt t result og = Some g.
Proof.
move=> n0 n0' nt0 H.
have ns : adj_nonsing Jf s nt (flipn nt t) (flipn nt result).
{ case: s H => // H k b kn; have := H erefl (nt - 1 - k)%N b; rewrite /hstep /flipn.
  have -> : (nt - 1 - k.+1)%N = (nt - 1 - k).-1 by rewrite subnS.
  apply; first by rewrite -subnDA add1n subn_gt0.
  apply: leq_ltn_trans (leq_subr _ _) _; rewrite subn1 prednK //. }
by eexists; rewrite !rewind_spec.
Qed.
Print Assumptions C27_adjoint_block_independent.

(** C28: slots of the backward pass.  [func], [extra]: (requires_grad, used) flags
    of the function's and the extra parameters. *)
Theorem C28_gradient_slots nt func extra y0r :
  ((1 < nt)%coq_nat -> List.Forall (fun p => p = (true, true)) (func ++ extra)) ->
  apply_args (adjoint_params func extra) y0r =
    [:: ASolver; ATimes] ++ (List.map AFunc (List.seq 0 (List.length func)) ++
      List.map AExtra (List.seq 0 (List.length extra))) ++ (if y0r then [:: AY0] else [::]) /\
  exists sl, backward_slots nt (adjoint_params func extra) y0r = Some sl /\
    List.Forall2 slot_for (apply_args (adjoint_params func extra) y0r) sl.
Proof.
move=> H; split; last exact: slots_line_up.
by rewrite /apply_args adjoint_params_args.
Qed.
Print Assumptions C28_gradient_slots.

Theorem C78_frozen_parameter_breaks_backward nt func extra y0r p :
  List.In p (func ++ extra) -> p <> (true, true) -> (1 < nt)%coq_nat ->
  backward_slots nt (adjoint_params func extra) y0r = None.
Proof. exact: frozen_raises. Qed.
Print Assumptions C78_frozen_parameter_breaks_backward.

(** C29 *)
Theorem C29_accepted_options o c : construct o = inl c <->
  o_extra o = [::] /\
  (o_method o = "backward-euler" /\ c_scheme c = BackwardEuler \/
   o_method o = "forward-euler" /\ c_scheme c = ForwardEuler)%string /\
  (o_linear o = "dense" /\ c_linear c = Dense \/
   o_linear o = "direct" /\ c_linear c = Direct (c_direct c))%string /\
  (o_direct o = "thomas" /\ c_direct c = Thomas \/
   o_direct o = "pcr" /\ c_direct c = PCR \/
   o_direct o = "hybrid" /\ c_direct c = Hybrid (o_min_size o))%string.
Proof. exact: construct_ok. Qed.
Print Assumptions C29_accepted_options.

(** C79: linear ODEs. *)
Theorem C79_linear_ode_always_solved nb m K c lm rtol atol miter throw gt n nt t y0 init :
  Rle 0 atol -> (0 < n)%N -> (1 < miter)%N -> (0 < nt)%N -> steps_invertible K nt t ->
  (gt = "zero" \/ gt = "previous" /\ (n < nt)%N)%string ->
  exists st, @integrate RF nb m (aff_rate K c) (aff_jac K) BackwardEuler lm (nrmR nb m) rtol atol miter throw
      gt n nt t y0 init = inl st /\ i_warned st = [::].
Proof. exact: be_affine_never_fails. Qed.
Print Assumptions C79_linear_ode_always_solved.

Theorem C79_linear_ode_block_independent nb m K c lm lm' miter gt n n' nt t y0 init :
  (0 < n)%N -> (0 < n')%N -> (1 < miter)%N -> (0 < nt)%N -> steps_invertible K nt t ->
  (gt = "zero" \/ gt = "previous" /\ (n < nt)%N /\ (n' < nt)%N)%string ->
  exists st st',
    @integrate RF nb m (aff_rate K c) (aff_jac K) BackwardEuler lm (nrmR nb m) 0 0 miter true gt n nt t y0 init = inl st /\
    @integrate RF nb m (aff_rate K c) (aff_jac K) BackwardEuler lm' (nrmR nb m) 0 0 miter true gt n' nt t y0 init = inl st' /\
    (forall k, (k < nt)%N -> i_result st k = i_result st' k) /\
    (forall k b, (0 < k)%N -> (k < nt)%N ->
       i_result st k b = i_result st k.-1 b + (t k b - t k.-1 b) *: (K b (t k b) *m i_result st k b + c b (t k b))).
Proof.
move=> n0 n0' m1 nt0 ns hg.
have hg1 : (gt = "zero" \/ gt = "previous" /\ (n < nt)%N)%string by tauto.
have hg2 : (gt = "zero" \/ gt = "previous" /\ (n' < nt)%N)%string by tauto.
have [st [E W]] := @be_affine_never_fails nb m K c lm 0 0 miter true gt n nt t y0 init (Rle_refl _) n0 m1 nt0 ns hg1.
have [st' [E' W']] := @be_affine_never_fails nb m K c lm' 0 0 miter true gt n' nt t y0 init (Rle_refl _) n0' m1 nt0 ns hg2.
exists st, st'; split=> //; split=> //; split.
- exact: (C21_backward_euler_any_two_blocks _ _ _ _ _ _ _ _ _ _ _ _ _ _ _ _ _ _ _ _ _ (affine_implicit_unique ns) E E' W W').
- move=> k b k0 kn; have := integrate_exact erefl erefl E W b k0 kn.
  by rewrite /step_res => /eqP; rewrite subr_eq0 subr_eq addrC => /eqP.
Qed.
Print Assumptions C79_linear_ode_block_independent.

(** ** Concrete instances *)
(** y' = -y + 1, two batch entries, times 0,1,2,...: hypotheses of C79 (and so of
    C19, C21) hold. *)
Definition ex_K : 'I_2 -> RF -> 'M[RF]_1 := fun _ _ => - 1%:M.
Definition ex_c : 'I_2 -> RF -> 'cV[RF]_1 := fun _ _ => const_mx 1.
Definition ex_t : nat -> TB RF 2 := fun k => [ffun=> INR k].
Example ex_invertible nt : steps_invertible ex_K nt ex_t.
Proof.
move=> [//|k] b _ _; rewrite !ffunE /ex_K /= scalerN opprK -[1%:M in X in X + _]scale1r -scalerDl.
rewrite unitmxZ ?unitmx1 // unitfE.
apply/eqP; change (Rplus R1 (Rplus (INR k.+1) (Ropp (INR k))) <> R0); rewrite S_INR.
have -> : Rplus R1 (Rplus (Rplus (INR k) R1) (Ropp (INR k))) = Rplus R1 R1 by ring.
apply: Rgt_not_eq; exact: Rlt_0_2.
Qed.

Example C19_ex : exists st,
  @integrate RF 2 1 (aff_rate ex_K ex_c) (aff_jac ex_K) BackwardEuler (Direct PCR) (nrmR 2 1) 0 0 100 true
    "previous" 3 11 ex_t [ffun=> 0] (fun _ => [ffun=> 0]) = inl st /\ i_warned st = [::].
Proof.
apply: C79_linear_ode_always_solved => //; [exact: Rle_refl|exact: ex_invertible|by right].
Qed.

(** A rate with exact partial derivatives: K y + L p. *)
Example C25_ex m np (K : 'M[RF]_m) (L : 'M[RF]_(m, np)) y0 p0 :
  partials_at (fun y p => K *m y + L *m p) K L y0 p0.
Proof. by move=> y p th y' p' _ _ Hy Hp; apply: cdiff_add; apply: cdiff_mulmx. Qed.

Example C24_ex : (1 < 5)%N && (5 <= 8)%N. Proof. by []. Qed.

Example C29_ex : construct {| o_method := "forward-euler"; o_linear := "direct"; o_direct := "hybrid";
    o_min_size := 4; o_extra := [::] |}
  = inl {| c_scheme := ForwardEuler; c_linear := Direct (Hybrid 4); c_direct := Hybrid 4 |}.
Proof. by []. Qed.

Example C28_ex : backward_slots 10 (adjoint_params [:: (true, true); (true, true)] [:: (true, true)]) true
  = Some [:: SNone; SNone; SGrad (AFunc 0); SGrad (AFunc 1); SGrad (AExtra 0); SGrad AY0].
Proof. by []. Qed.
