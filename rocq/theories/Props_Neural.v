(** C131: neural ODEs.  For a network with a Lipschitz constant L in the state and steps with 2 h L <= 1 backward Euler has exactly one history, converged runs are close to
    it, and the adjoint pass returns the derivative of the loss with respect to the network's parameters. *)
From Coq Require Import Reals List String Lra Lia FunctionalExtensionality.
From mathcomp Require Import all_ssreflect all_algebra.
From Verif Require Import ChunkModel ChunkSolve ChunkInst NewtonModel Ode OdeForward OdeAdjoint OdeReal OdeDiff ZmodTac RField Gmres Implicit Tolerance Converge SmoothMx NeuralRun.
From Verif Require SmoothR Slices Hardening Utility Deriv NeuralR Props_Gradient Props_GradTol Props_Implicit.
Import GRing.Theory.
Set Implicit Arguments. Unset Strict Implicit. Unset Printing Implicit Defensive.
Local Open Scope ring_scope.
Delimit Scope R_scope with Re.
Import Props_Gradient Props_GradTol.

(** [y] starts at [y0] and satisfies the backward Euler equations at every requested time. *)
Definition euler_history nb m (rate : 'I_nb -> RF -> 'cV[RF]_m -> 'cV[RF]_m) (nt : nat) (t : nat -> TB RF nb) (y0 : VB RF nb m) (y : nat -> VB RF nb m) : Prop :=
  y 0%N = y0 /\ forall k b, (0 < k)%N -> (k < nt)%N -> y k b = y k.-1 b + (t k b - t k.-1 b) *: rate b (t k b) (y k b).
Lemma euler_res nb m (rate : 'I_nb -> RF -> 'cV[RF]_m -> 'cV[RF]_m) nt t y0 y : euler_history rate nt t y0 y <->
  y 0%N = y0 /\ forall k b, (0 < k)%N -> (k < nt)%N -> step_res rate BackwardEuler t y k b = 0.
Proof.
rewrite /step_res; split=> -[e H]; split=> // k b k0 kn; have K := H k b k0 kn.
- by rewrite {1}K [_ + _ - _]addrC addKr subrr.
- by apply/eqP; rewrite -subr_eq0 opprD addrA; apply/eqP.
Qed.

(** Time steps short compared with the Lipschitz constant *)
Definition short_steps nb (nt : nat) (t : nat -> TB RF nb) (L : R) : Prop :=
  forall k b, (0 < k)%N -> (k < nt)%N -> (0 <= t k b - t k.-1 b)%Re /\ (2 * ((t k b - t k.-1 b) * L) <= 1)%Re.

Theorem C131_exactly_one_history nb m (rate : 'I_nb -> RF -> 'cV[RF]_m -> 'cV[RF]_m) nt (t : nat -> TB RF nb) (y0 : VB RF nb m) L :
  short_steps nt t L -> (forall k b, (0 < k)%N -> (k < nt)%N -> lipschitz L (rate b (t k b))) ->
  exists y, euler_history rate nt t y0 y /\ forall y', euler_history rate nt t y0 y' -> forall k, (k < nt)%N -> y' k = y k.
Proof.
move=> st li; have [y [e H]] := lip_history_exists st li y0; exists y; split; first by apply/euler_res.
move=> y' /euler_res [e' H'] k kn; apply/ffunP => b; apply: (lip_history_unique st li) => //; by rewrite e e'.
Qed.
Print Assumptions C131_exactly_one_history.

(** Runs that converged to [tol] stay within a fixed multiple of [tol] of it, whatever solver, block size and guess. *)
Theorem C131_runs_near_the_history nb m (rate : 'I_nb -> RF -> 'cV[RF]_m -> 'cV[RF]_m) jac lm rtol atol miter throw gt n nt (t : nat -> TB RF nb) y0 init st (b : 'I_nb) L tol y :
  @integrate RF nb m rate jac BackwardEuler lm (nrmR nb m) rtol atol miter throw gt n nt t y0 init = inl st -> i_warned st = [::] ->
  tol_bound rate BackwardEuler rtol atol gt n nt t (i_result st) b tol -> (0 <= tol)%Re -> (0 <= L)%Re ->
  short_steps nt t L -> (forall k b, (0 < k)%N -> (k < nt)%N -> lipschitz L (rate b (t k b))) -> euler_history rate nt t y0 y ->
  forall k, (k < nt)%N -> (dst (i_result st k b) (y k b) <= exp (2 * L * (t k b - t 0%N b)) * (INR k * tol))%Re.
Proof.
move=> S W T t0 L0 ss li /euler_res [e H] k kn.
have [_ [e0 _]] := integrate_writes S.
apply: (lip_history_close ss li L0 t0) => //; first by rewrite e e0.
- move=> j j0 jn; exact: (run_residual S W T j0 jn).
- by move=> j j0 jn; exact: H.
Qed.
Print Assumptions C131_runs_near_the_history.

(** What a training step relies on.  For parameters [p u] and initial states [y0 u] near [p th], [y0 th]: there is exactly one history [Y u]; the adjoint pass on it (every
    linear solver and block size) succeeds and gives the derivative of the loss sum(og * results) along the change of parameters [q] and initial states [z0]; and the
    gradients of runs converged to a tolerance tend to it as the tolerance is tightened. *)
Definition exact_training nb m np (rate : 'I_nb -> RF -> 'cV[RF]_m -> 'cV[RF]_np -> 'cV[RF]_m) (jac : 'I_nb -> RF -> 'cV[RF]_m -> 'cV[RF]_np -> 'M[RF]_m)
    (dp : 'I_nb -> RF -> 'cV[RF]_m -> 'cV[RF]_np -> 'M[RF]_(m, np)) (nt : nat) (t : nat -> TB RF nb) (p : R -> 'cV[RF]_np) (th : R) (q : 'cV[RF]_np)
    (y0 : R -> VB RF nb m) (z0 : VB RF nb m) (og : nat -> VB RF nb m) : Prop :=
  exists (Y : R -> nat -> VB RF nb m) grad lam,
    (exists d, (0 < d)%Re /\ forall u, (Rabs (u - th) < d)%Re -> euler_history (at_p rate (p u)) nt t (y0 u) (Y u) /\
       forall X, euler_history (at_p rate (p u)) nt t (y0 u) X -> forall k, (k < nt)%N -> X k = Y u k) /\
    (forall mth n, (0 < n)%N -> rewind (at_p jac (p th)) (at_p dp (p th)) mth BackwardEuler n nt t (Y th) og = Some (grad, lam)) /\
    derivable_pt_lim (fun u => loss nt og (Y u)) th ((\sum_(i < np) grad i 0 * q i 0) + (\sum_b \sum_(c < m) lam b c 0 * z0 b c 0)) /\
    forall e, (0 < e)%Re -> exists tol, (0 < tol)%Re /\ forall lm rtol atol miter throw gt n init st mth n',
      @integrate RF nb m (at_p rate (p th)) (at_p jac (p th)) BackwardEuler lm (nrmR nb m) rtol atol miter throw gt n nt t (y0 th) init = inl st -> i_warned st = [::] ->
      (forall b, tol_bound (at_p rate (p th)) BackwardEuler rtol atol gt n nt t (i_result st) b tol) -> (0 < n')%N ->
      exists grad' lam', rewind (at_p jac (p th)) (at_p dp (p th)) mth BackwardEuler n' nt t (i_result st) og = Some (grad', lam') /\
        (forall i, Rabs (grad' i ord0 - grad i ord0) <= e)%Re /\ (forall b i, Rabs (lam' b i ord0 - lam b i ord0) <= e)%Re.

Theorem C131_training_gradient nb n s np net dnet (force : 'I_nb -> RF -> Slices.vec) (dp : 'I_nb -> RF -> 'cV[RF]_n -> 'cV[RF]_np -> 'M[RF]_(n, np)) nt (t : nat -> TB RF nb)
    (p : R -> 'cV[RF]_np) th q (y0 : R -> VB RF nb n) (z0 : VB RF nb n) og L :
  let rate := neural_rate s net dnet force (n := n) (np := np) in let jac := neural_jac s net dnet force (n := n) (np := np) in
  (0 < s)%N -> (0 < nt)%N -> differentiable_network n (n + s) np net dnet -> parameter_derivatives rate dp ->
  (0 <= L)%Re -> short_steps nt t L ->
  (exists r, (0 < r)%Re /\ forall p', (dst p' (p th) <= r)%Re -> forall k b, (k < nt)%N -> lipschitz L (fun y => rate b (t k b) y p')) ->
  cdiff p th q -> (forall b, cdiff (fun u => y0 u b) th (z0 b)) ->
  exact_training rate jac dp nt t p th q y0 z0 og.
Proof.
move=> rate jac s0 nt0 dn ag L0 ss [r [r0 li]] Dp D0.
have li0 k b : (k < nt)%N -> lipschitz L (fun y => rate b (t k b) y (p th)) by apply: li; rewrite dst0; exact: Rlt_le.
have [y [Hy Uy]] := @C131_exactly_one_history nb n (at_p rate (p th)) nt t (y0 th) L ss (fun k b _ kn => li0 k b kn).
have [ye Hr] := proj1 (euler_res _ _ _ _ _) Hy.
have c1 k b : (k < nt)%N -> c1_near (rate b (t k b)) (jac b (t k b)) (dp b (t k b)) (y k b) (p th).
{ move=> kn; apply: neural_c1 => //; move=> y' p' M; exact: ag. }
have reg : steps_regular jac BackwardEuler nt t (p th) y.
{ move=> _ k b k0 kn; have [h0 hL] := ss k b k0 kn; apply: (lip_regular h0 hL) => v.
  have HJ := @neural_jacobian_at nb n s np net dnet force dn b (t k b) (y k b) (p th) s0; exact: (lip_jacobian (li0 k b kn) HJ). }
have [grad [lam [Rw Ct]]] := C129_gradient_is_continuous og nt0 c1 reg.
have [Y [r' [d [grad' [lam' [[r'0 d0 Yth] [HY [Rw' Dl]]]]]]]] :=
  @Props_Implicit.C25_gradient_of_solution_map nb n np rate jac dp nt t Thomas 1 p y q y0 z0 th og (ltn0Sn 0) nt0 Hr (esym ye) Dp D0 c1 reg.
have [Eg El] : grad' = grad /\ lam' = lam by move: Rw'; rewrite (Rw Thomas 1%N (ltn0Sn 0)) => -[-> ->].
rewrite {}Eg {}El in Dl.
exists Y, grad, lam; split; [|split; [|split=> //]].
- have [d' [d'0 Hd']] := near_small Dp r0.
  exists (Rmin d d'); split; first exact: Rmin_glb_lt.
  move=> u ud; have ud1 : (Rabs (u - th) < d)%Re by apply: Rlt_le_trans ud (Rmin_l _ _).
  have ud2 : (Rabs (u - th) < d')%Re by apply: Rlt_le_trans ud (Rmin_r _ _).
  have [Y0 Ys _] := HY u ud1.
  have liu k b : (0 < k)%N -> (k < nt)%N -> lipschitz L (at_p rate (p u) b (t k b)) by move=> _ kn; exact: li (Hd' u ud2) k b kn.
  have Hu : euler_history (at_p rate (p u)) nt t (y0 u) (Y u) by apply/euler_res.
  split=> // X HX k kn.
  have [Z [_ UZ]] := @C131_exactly_one_history nb n (at_p rate (p u)) nt t (y0 u) L ss liu.
  by rewrite (UZ X HX k kn) (UZ _ Hu k kn).
- by move=> mth n0 n00; rewrite Yth; exact: Rw.
- move=> e e0; have [d1 [d10 Hd]] := Ct e e0.
  have [tol [tol0 Ht]] : exists tol, (0 < tol)%Re /\ forall kb : 'I_nt * 'I_nb, (exp (2 * L * (t kb.1 kb.2 - t 0%N kb.2)) * (INR kb.1 * tol) <= d1)%Re.
  { apply: (@fin_radius _ (fun (kb : 'I_nt * 'I_nb) (tol : R) => exp (2 * L * (t kb.1 kb.2 - t 0%N kb.2)) * (INR kb.1 * tol) <= d1)%Re) => [kb a a' aa H|kb].
    - apply: Rle_trans H; apply: Rmult_le_compat_l; [exact: Rlt_le (exp_pos _)|apply: Rmult_le_compat_l; [exact: pos_INR|exact: aa]].
    - set c := exp _; have c0 : (0 < c)%Re by exact: exp_pos. have i0 := pos_INR kb.1.
      exists (d1 / (c * (INR kb.1 + 1)))%Re; split; first by apply: Rdiv_lt_0_compat => //; apply: Rmult_lt_0_compat => //; lra.
      have -> : (c * (INR kb.1 * (d1 / (c * (INR kb.1 + 1)))) = d1 * (INR kb.1 / (INR kb.1 + 1)))%Re by field; lra.
      have : (INR kb.1 / (INR kb.1 + 1) <= 1)%Re by apply: (Rmult_le_reg_r (INR kb.1 + 1)); [lra|rewrite /Rdiv Rmult_assoc Rinv_l; lra].
      move=> K; have := Rmult_le_compat_l _ _ _ (Rlt_le _ _ d10) K; lra. }
  exists tol; split=> // lm rtol atol miter throw gt bl init st mth n' S W T n'0.
  apply: (Hd (p th) (i_result st) og mth n') => // [i|k b i kn|k b i kn].
  + rewrite Rminus_eq_0 Rabs_R0; exact: Rlt_le.
  + apply: Rle_trans (comp_dst _ _ _) _.
    have := C131_runs_near_the_history S W (T b) (Rlt_le _ _ tol0) L0 ss (fun k b _ kn => li0 k b kn) Hy kn.
    move=> A; apply: Rle_trans A _; exact: Ht (Ordinal kn, b).
  + rewrite Rminus_eq_0 Rabs_R0; exact: Rlt_le.
Qed.
Print Assumptions C131_training_gradient.

(** ** A network with one hidden layer (any activation with a continuous derivative of size at most one, such as tanh) *)
Section Perceptron.
Variables (act act' : R -> R) (nb n s H : nat).
Hypothesis actD : forall x, derivable_pt_lim act x (act' x).
Hypothesis actC : forall x, SmoothR.cont1 act' x.
Hypothesis actB : forall x, (Rabs (act' x) <= 1)%Re.
Let np := NeuralR.nparams n (n + s) H.
Let net := NeuralR.perceptron act n (n + s) H.
Variables (dnet : Slices.vec -> Slices.vec -> Slices.mat) (force : 'I_nb -> RF -> Slices.vec).
Hypothesis autograd : forall q x M, NeuralR.input_deriv n (n + s) (net q) x M -> forall i j, (i < n)%coq_nat -> (j < n + s)%coq_nat -> dnet q x i j = M i j.
Let rate := neural_rate s net dnet force (n := n) (np := np).
Lemma perceptron_network : differentiable_network n (n + s) np net dnet.
Proof.
split.
- move=> q q' x E; exact: NeuralR.perceptron_params.
- move=> q x x' E; exact: NeuralR.perceptron_inputs.
- move=> i x q Hi; exact: (NeuralR.perceptron_smooth act act' n (n + s) H actD actC i).
- exact: autograd.
Qed.
(** weights |W_out| |W_in| summed: a Lipschitz constant of the network in the state *)
Definition total_gain (p : 'cV[RF]_np) : R := Deriv.sum n (NeuralR.gain n (n + s) H (tv p)).
Lemma perceptron_lipschitz b t p : lipschitz (total_gain p) (fun y => rate b t y p).
Proof.
move=> y y'; apply: Rle_trans (norm_le_sum _) _; rewrite /total_gain sumE.
have -> : Rmult (\sum_(i < n) (NeuralR.gain n (n + s) H (tv p) i : RF)) (dst y y') = \sum_(i < n) (Rmult (NeuralR.gain n (n + s) H (tv p) i) (dst y y') : RF) by rewrite -[LHS]/(_ * _ : RF)%R mulr_suml.
apply: sum_le => i; rewrite !mxE /=; apply: (NeuralR.perceptron_gain act act') => //; first exact: dst_ge0.
move=> j Hj; rewrite /Slices.cat; case: PeanoNat.Nat.ltb_spec => h.
- have h' : (j < n)%N by apply/ltP. rewrite !(tv_lt _ h'); exact: comp_dst.
- rewrite Rminus_eq_0 Rabs_R0; exact: dst_ge0.
Qed.

(** C131: training such a network: exactly one history, exact gradients. *)
Theorem C131_perceptron (dp : 'I_nb -> RF -> 'cV[RF]_n -> 'cV[RF]_np -> 'M[RF]_(n, np)) nt (t : nat -> TB RF nb) (p : R -> 'cV[RF]_np) th q (y0 : R -> VB RF nb n) (z0 : VB RF nb n) og L :
  (0 < s)%N -> (0 < nt)%N -> parameter_derivatives rate dp -> (total_gain (p th) < L)%Re -> short_steps nt t L ->
  cdiff p th q -> (forall b, cdiff (fun u => y0 u b) th (z0 b)) ->
  exact_training rate (neural_jac s net dnet force (n := n) (np := np)) dp nt t p th q y0 z0 og.
Proof.
move=> s0 nt0 ag gL ss Dp D0.
have g0 : (0 <= total_gain (p th))%Re.
{ rewrite /total_gain sumE; apply: sum_nonneg => i; rewrite /NeuralR.gain sumE; apply: sum_nonneg => h; apply: Rmult_le_pos; first exact: Rabs_pos.
  rewrite sumE; apply: sum_nonneg => j; exact: Rabs_pos. }
apply: (C131_training_gradient _ s0 nt0 perceptron_network ag _ ss _ Dp D0); first lra.
have [r [r0 Hr]] := NeuralR.gain_cont n (n + s) H (tv (p th)) (L - total_gain (p th))%Re ltac:(lra).
exists r; split=> // p' Hp k b _ y y'; apply: Rle_trans (perceptron_lipschitz b (t k b) p' y y') _.
apply: Rmult_le_compat_r; first exact: dst_ge0.
have := Hr (tv p') _; rewrite -/(total_gain p') -/(total_gain (p th)) => K.
have {}K : (Rabs (total_gain p' - total_gain (p th)) < L - total_gain (p th))%Re.
{ apply: K => j /ltP jn; rewrite !(tv_lt _ jn); exact: Rle_trans (comp_dst _ _ _) Hp. }
have := Rle_abs (total_gain p' - total_gain (p th)); lra.
Qed.
End Perceptron.
Print Assumptions C131_perceptron.

(** The parameter vectors of [NeuralR.perceptron] cover all networks of that shape: any output weights, input weights and biases. *)
Theorem C131_every_perceptron act n m H (W2 W1 : nat -> nat -> R) (b : nat -> R) : exists q : Slices.vec, forall x i, (i < n)%coq_nat ->
  NeuralR.perceptron act n m H q x i = Deriv.sum H (fun h => (W2 i h * act (Deriv.sum m (fun j => W1 h j * x j) + b h))%Re).
Proof. exact: NeuralR.every_perceptron. Qed.
Print Assumptions C131_every_perceptron.

(** What AD returns exists: *)
Lemma input_deriv_unique n N0 (N : Slices.vec -> Slices.vec) x M M' : NeuralR.input_deriv n N0 N x M -> NeuralR.input_deriv n N0 N x M' ->
  forall i j, (i < n)%coq_nat -> (j < N0)%coq_nat -> M i j = M' i j.
Proof.
move=> HM HM' i j Hi Hj; pose X (z : R) : Slices.vec := fun k => (x k + z * (if Nat.eqb k j then 1 else 0))%Re.
have V : Hardening.vthrough N0 X x (fun k => if Nat.eqb k j then 1%Re else 0%Re).
{ move=> k Hk; split; first by rewrite /X Rmult_0_l Rplus_0_r.
  rewrite /X; apply: (Deriv.D_eq _ _ (0 + 1 * (if Nat.eqb k j then 1 else 0))%Re); last by rewrite Rplus_0_l Rmult_1_l.
  apply: Deriv.D_plus; [exact: Deriv.D_const|apply: Deriv.D_scal_r; exact: Deriv.D_id]. }
have S (W : Slices.mat) : Deriv.sum N0 (fun k => W i k * (if Nat.eqb k j then 1 else 0))%Re = W i j.
{ elim: N0 Hj {HM HM' V} => [|k IH] Hj; first by lia. rewrite /=; case: (PeanoNat.Nat.eqb_spec k j) => [<-|ne].
  - rewrite Deriv.sum_0 => [|l Hl]; first by rewrite Rmult_1_r Rplus_0_l.
    by case: (PeanoNat.Nat.eqb_spec l k) => [E|_]; [lia|rewrite Rmult_0_r].
  - rewrite IH; last lia. by rewrite Rmult_0_r Rplus_0_r. }
have := uniqueness_limite _ _ _ _ (HM X _ V i Hi) (HM' X _ V i Hi); by rewrite !S.
Qed.
Lemma input_derivatives_exist n N0 (net : Slices.vec -> Slices.vec -> Slices.vec) : exists dnet,
  forall q x M, NeuralR.input_deriv n N0 (net q) x M -> forall i j, (i < n)%coq_nat -> (j < N0)%coq_nat -> dnet q x i j = M i j.
Proof.
exists (fun q x => ClassicalEpsilon.epsilon (inhabits (fun _ _ => 0%Re)) (NeuralR.input_deriv n N0 (net q) x)) => q x M HM i j Hi Hj.
exact: input_deriv_unique (ClassicalEpsilon.epsilon_spec _ (NeuralR.input_deriv n N0 (net q) x) (ex_intro _ M HM)) HM i j Hi Hj.
Qed.
(** Example: two hidden units with tanh, one state, one force, two batch entries; all seven weights and biases moved together through 1/2, ten steps of 1/8. *)
Definition ex_line (u : R) : 'cV[RF]_(NeuralR.nparams 1 2 2) := const_mx (u : RF).
Definition ex_times (k : nat) : TB RF 2 := [ffun _ => ((INR k * / 8)%Re : RF)].
Example C131_ex (force : 'I_2 -> RF -> Slices.vec) (y0 : VB RF 2 1) og : exists dnet dp,
  let net := NeuralR.perceptron tanh 1 2 2 in
  exact_training (neural_rate 1 net dnet force (n := 1) (np := NeuralR.nparams 1 2 2)) (neural_jac 1 net dnet force (n := 1) (np := NeuralR.nparams 1 2 2)) dp 11 ex_times ex_line (/ 2)%Re (const_mx 1) (fun _ => y0) 0 og.
Proof.
have [dnet ag] := input_derivatives_exist 1 2 (NeuralR.perceptron tanh 1 2 2).
have [dp Hdp] := parameter_derivatives_exist (neural_rate 1 (NeuralR.perceptron tanh 1 2 2) dnet force (n := 1) (np := NeuralR.nparams 1 2 2)).
exists dnet, dp => net.
apply: (@C131_perceptron tanh NeuralR.tanh' 2 1 1 2 NeuralR.tanhD NeuralR.tanhC NeuralR.tanhB dnet force ag dp 11 ex_times ex_line (/ 2)%Re _ _ _ _ 2%Re) => //.
- have q k : (k < 8)%N -> tv (ex_line (/ 2)%Re) k = (/ 2)%Re.
  { move=> kn. have kn' : (k < NeuralR.nparams 1 2 2)%N by exact: kn. by rewrite (tv_lt _ kn') mxE. }
  rewrite /total_gain /NeuralR.gain /NeuralR.q_out /NeuralR.q_in /=; rewrite !q // (Rabs_pos_eq (/ 2)); lra.
- move=> k b k0 kn; rewrite !ffunE; case: k k0 kn => // k _ _; rewrite [k.+1.-1]/= S_INR; lra.
- move=> i; apply: (@dpl_ext (fun u => u)) => [u|]; first by rewrite mxE. rewrite mxE; exact: derivable_pt_lim_id.
- move=> b i; rewrite ffunE mxE; exact: derivable_pt_lim_const.
Qed.
