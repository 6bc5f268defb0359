(** Property theorems: with a fixed absolute tolerance, refining the grid does not converge (C107). *)
From Coq Require Import Reals List String Lra Lia.
From mathcomp Require Import all_ssreflect all_algebra.
From Verif Require Import ChunkModel ChunkSolve ChunkInst NewtonModel NewtonProofs Ode OdeForward OdeReal OdeAffine OdeDiff RField Gmres Implicit Tolerance Converge NewtonConv SmallSteps ZmodTac Props_SmallSteps.
Import GRing.Theory.
Set Implicit Arguments. Unset Strict Implicit. Unset Printing Implicit Defensive.
Local Open Scope ring_scope.
Delimit Scope R_scope with Re.

(** C107: when the increment h f over one step, at the initial state, is at most atol / block size, the initial state is returned at every
    time, without a warning. *)
Theorem C107_stagnation nb m f Jf (s : scheme) lm rtol atol miter throw n nt (t : nat -> TB RF nb) (y0 : VB RF nb m) init :
  (0 < n)%N -> (0 < nt)%N -> (0 < miter)%N ->
  (forall k (b : 'I_nb), (0 < k)%N -> (k < nt)%N ->
     (INR n * norm ((t k b - t k.-1 b) *: f b (if s is BackwardEuler then t k b else t k.-1 b) (y0 b))%R <= atol)%Re) ->
  exists st, integrate f Jf s lm (nrmR nb m) rtol atol miter throw "zero" n nt t y0 init = inl st /\ i_warned st = [::] /\
    forall k, (k < nt)%N -> i_result st k = y0.
Proof.
move=> n0 nt0 m0 small; rewrite /integrate gtn_eqF // gtn_eqF //.
have key : forall fuel k st, (nt <= fuel + k)%N -> (0 < k)%N -> i_warned st = [::] ->
  (forall j, (j < k)%N -> (j < nt)%N -> i_result st j = y0) ->
  exists st', int_loop f Jf s lm (nrmR nb m) rtol atol miter throw fuel "zero" n nt t k st = inl st' /\ i_warned st' = [::] /\
  (forall k, (k < nt)%N -> i_result st' k = y0).
{ elim=> [|fuel IH] k st hf k0 W B; rewrite [int_loop _ _ _ _ _ _ _ _ _ _ _ _ _ _ _ _]/=; case: ifP => [kn|kn].
  - by move: hf; rewrite add0n leqNgt kn.
  - have jk j : (j < nt)%N -> (j < k)%N by move=> jn; apply: leq_trans jn _; rewrite leqNgt kn.
    exists st; split=> //; split=> // j jn; exact: B (jk j jn) jn.
  - rewrite /int_step guess_zero eqxx [~~ true]/= /block_update; set len := slice_len nt k (k + n); set x0 := flat _.
    have lenn : (len <= n)%N by rewrite /len /slice_len leq_subLR; exact: geq_minl.
    have len0 : (0 < len)%N by exact: slice_len_gt0.
    have kl j : (j < len)%N -> (k + j < nt)%N.
    { move=> jl; have : (k + j < minn (k + n) nt)%N by rewrite -(slice_len_add n (ltnW kn)) ltn_add2l.
      by rewrite leq_min => /andP[]. }
    set tb := block_times (t (k - 1)%N) (fun j => t (k + j)%N).
    have tE j : tb j.+1 = t (k + j)%N by [].
    have tE' j : tb j = t (k + j).-1.
    { case: j => [|j]; rewrite /tb /=; first by rewrite addn0 subn1. by rewrite addnS. }
    have kj j : (0 < k + j)%N by rewrite addn_gt0 k0.
    have z0 (j : nat) : (j < len)%N -> blkV nb m x0 j = zeroV RF nb m by move=> jl; rewrite /x0 blkV_flat jl.
    have z1 (j : nat) (b : 'I_nb) : (j <= len)%N -> dys nb m x0 j b = 0.
    { case: j => [_|j jl]; first by rewrite /= ffunE. by rewrite [dys _ _ _ _]/= z0 // ffunE. }
    have ye : i_result st (k - 1)%N = y0 by apply: B; [rewrite subn1 prednK|apply: leq_ltn_trans (leq_subr 1 k) kn].
    have bn (b : 'I_nb) : (sqrt (sumsq (len * m) (fst (block_RJ f Jf s (t (k - 1)%N) (fun j => t (k + j)%N) (i_result st (k - 1)%N) x0) b)) <= atol)%Re.
    { have np : (0 < INR n)%Re by apply: lt_0_INR; apply/ltP.
      have at0 : (0 <= atol)%Re by apply: Rle_trans (small k b k0 kn); apply: Rmult_le_pos; [lra|exact: norm_ge0].
      have E0 : (0 <= atol / INR n)%Re by apply: Rmult_le_pos => //; apply: Rlt_le; exact: Rinv_0_lt_compat.
      apply: (Rle_trans _ (INR len * (atol / INR n))); last first.
      { have -> : atol = (INR n * (atol / INR n))%Re by field; lra. have e : (INR n * (atol / INR n) / INR n = atol / INR n)%Re by field; lra.
        rewrite e; apply: Rmult_le_compat_r => //; apply: le_INR; exact/leP. }
      apply: bn_le => // j jl; rewrite /block_RJ [fst _]/= blkV_flat /form_residual ffunE !z1 //; last exact: ltnW.
      rewrite subr0 sub0r normN.
      have e : (norm (tdiff tb j b *: (match s with BackwardEuler => func_rate f tb (ys x0 (i_result st (k - 1)%N)) j.+1 b | ForwardEuler => func_rate f tb (ys x0 (i_result st (k - 1)%N)) j b end))
        = norm ((t (k + j)%N b - t (k + j).-1 b) *: f b (if s is BackwardEuler then t (k + j)%N b else t (k + j).-1 b) (y0 b)))%Re.
      { rewrite /tdiff ffunE tE (tE' j); congr (norm (_ *: _)); rewrite ye; case: (s); by rewrite /func_rate ffunE /ys /addV ffunE z1 ?add0r ?tE ?tE' //; exact: ltnW. }
      rewrite e; have := small (k + j)%N b (kj j) (kl j jl) => h.
      apply: (Rmult_le_reg_l (INR n)) => //; have -> : (INR n * (atol / INR n) = atol)%Re by field; lra. exact: h. }
    have stop : keep_going rtol atol (norms (block_RJ f Jf s (t (k - 1)%N) (fun j => t (k + j)%N) (i_result st (k - 1)%N)) (nrmR nb m len) x0)
       (norms (block_RJ f Jf s (t (k - 1)%N) (fun j => t (k + j)%N) (i_result st (k - 1)%N)) (nrmR nb m len) x0) = false.
    { apply: converged_keep; [exact: nrmR_finite|exact: nrmR_finite|left].
      have h b : b \in iota 0 nb -> (sqrt (sumsq (len * m) ((block_RJ f Jf s (t (k - 1)%N) (fun j => t (k + j)%N) (i_result st (k - 1)%N) x0).1 b)) <= atol)%Re by rewrite mem_iota add0n => b0; exact: bn (Ordinal b0).
      rewrite /norms /nrmR /all_le; elim: (iota 0 nb) h => [|b l IHl] h; constructor; first by eexists; split; first reflexivity; apply: h; rewrite mem_head.
      by apply: IHl => c cl; apply: h; rewrite inE cl orbT. }
    have -> : newton_raphson_chunk (block_RJ f Jf s (t (k - 1)%N) (fun j => t (k + j)%N) (i_result st (k - 1)%N)) (nrmR nb m len) rtol atol (block_linsolve lm len) (@tsub RF) miter throw x0
      = Ok {| res_x := x0; res_J := snd (block_RJ f Jf s (t (k - 1)%N) (fun j => t (k + j)%N) (i_result st (k - 1)%N) x0); res_iters := 0; res_evals := [:: x0]; res_caller := x0 |}.
    { rewrite /newton_raphson_chunk /nr_solve; case: (miter) m0 => [//|mm] _; move: stop; rewrite /norms => stop. cbn [nr_loop]; by rewrite stop. }
    apply: (IH (k + n)%N) => //.
    + apply: leq_trans hf _; by rewrite addSn -addnS leq_add2l -[X in (X < _)%N]addn0 ltn_add2l.
    + move=> j jk jn; cbn [i_result]; case: ifP => [/andP[kj1 kj2]|/negbT].
      * have jl : (j - k < len)%N by rewrite ltn_subLR.
        rewrite [res_x _]/= z0 // ye; apply/ffunP => b; by rewrite !ffunE add0r.
      * rewrite negb_and -ltnNge -leqNgt => /orP[jk2|jk2]; first exact: B.
        exfalso; move: jk2; rewrite /len (slice_len_add n (ltnW kn)) leqNgt; apply/negP; rewrite negbK leq_min jk jn //.
  - have jk j : (j < nt)%N -> (j < k)%N by move=> jn; apply: leq_trans jn _; rewrite leqNgt kn.
    exists st; split=> //; split=> // j jn; exact: B (jk j jn) jn. }
apply: (key nt 1%N) => //; [by rewrite addn1|].
by move=> [|//] _ _; cbn [i_result].
Qed.
Print Assumptions C107_stagnation.

(** y' = 1 *)
Definition one_f (_ : 'I_1) (_ : RF) (_ : 'cV[RF]_1) : 'cV[RF]_1 := (1%Re : RF)%:M.
Definition one_J (_ : 'I_1) (_ : RF) (_ : 'cV[RF]_1) : 'M[RF]_1 := 0.
Definition zero_y0 : VB RF 1 1 := [ffun _ => 0].

(** The property would be: on [0, 1], with given positive tolerances, results at time 1 on finer and finer grids come close to the value
    1 of the solution.  Instead they are all 0 from some grid on: *)
Theorem C107_refinement_converges_refuted (s : scheme) lm rtol atol miter throw n : (0 < atol)%Re -> (0 < n)%N -> (0 < miter)%N ->
  exists N0, forall N t init, (N0 <= N)%N -> @even_grid 1 0 1 N t ->
    exists st, integrate one_f one_J s lm (nrmR 1 1) rtol atol miter throw "zero" n N.+1 t zero_y0 init = inl st /\ i_warned st = [::] /\
      forall k, (k <= N)%N -> i_result st k ord0 ord0 ord0 = 0 /\ (t k ord0 = INR k / INR N)%Re.
Proof.
move=> a0 n0 m0; have [N0 HN] := nat_above (INR n / atol + 1)%Re.
have np := pos_INR n.
exists N0 => N t init hN g.
have h : (INR n / atol + 1 <= INR N)%Re by apply: Rle_trans HN _; apply: le_INR; apply/leP.
have q0 : (0 <= INR n / atol)%Re by apply: Rmult_le_pos => //; apply: Rlt_le; exact: Rinv_0_lt_compat.
have N1 : (0 < N)%N by rewrite lt0n; apply/eqP => e; move: h; rewrite e [INR 0]/=; lra.
have gs := even_grid_steps Rlt_0_1 N1 g.
have small : (INR n / INR N <= atol)%Re by apply: div_le => //; lra.
have [|st [E [W D]]] := @C107_stagnation 1 1 one_f one_J s lm rtol atol miter throw n N.+1 t zero_y0 init n0 (ltn0Sn N) m0.
{ move=> k b k0 kN; have [_ e] := gs k b kN; rewrite -[(t k b - t k.-1 b)%R]/(t k b - t k.-1 b)%Re (e k0) normZ norm_1 /one_f sc_1 Rabs_R1 Rabs_pos_eq.
  - apply: Rle_trans small; apply: Req_le; field; lra.
  - apply: Rlt_le; apply: Rdiv_lt_0_compat; lra. }
exists st; split=> //; split=> // k kN; rewrite D // /zero_y0 ffunE mxE; split=> //.
have e : (0 + INR k * ((1 - 0) / INR N) = INR k / INR N)%Re by field; lra.
exact: etrans (g k ord0 kN) e.
Qed.
Print Assumptions C107_refinement_converges_refuted.

(** With the default tolerances, block size and scheme: the final error is 1 with any number of steps from 10^8 on, and below 10^-6 with ten steps. *)
Example C107_defaults N t init : (10 ^ 8 <= INR N)%Re -> @even_grid 1 0 1 N t ->
  exists st, integrate one_f one_J BackwardEuler (Direct Thomas) (nrmR 1 1) (/ 10 ^ 6) (/ 10 ^ 8) 100 false "zero" 1 N.+1 t zero_y0 init = inl st /\ i_warned st = [::] /\
    i_result st N ord0 ord0 ord0 = 0.
Proof.
move=> h g.
have N1 : (0 < N)%N by rewrite lt0n; apply/eqP => e; move: h; rewrite e [INR 0]/=; lra.
have gs := even_grid_steps Rlt_0_1 N1 g.
have [|st [E [W D]]] := @C107_stagnation 1 1 one_f one_J BackwardEuler (Direct Thomas) (/ 10 ^ 6) (/ 10 ^ 8) 100 false 1 N.+1 t zero_y0 init erefl (ltn0Sn N) erefl.
{ move=> k b k0 kN; have [_ e] := gs k b kN; rewrite -[(t k b - t k.-1 b)%R]/(t k b - t k.-1 b)%Re (e k0) normZ norm_1 /one_f sc_1 Rabs_R1 Rabs_pos_eq.
  - rewrite [INR 1]/=; have -> : (1 * ((1 - 0) / INR N * 1) = / INR N)%Re by field; lra.
    apply: Rinv_le_contravar => //; apply: pow_lt; lra.
  - apply: Rlt_le; apply: Rdiv_lt_0_compat; lra. }
by exists st; rewrite D // /zero_y0 ffunE mxE.
Qed.
Example C107_ten_steps t init : @even_grid 1 0 1 10 t ->
  exists st, integrate one_f one_J BackwardEuler (Direct Thomas) (nrmR 1 1) (/ 10 ^ 6) (/ 10 ^ 8) 100 false "zero" 1 11 t zero_y0 init = inl st /\ i_warned st = [::] /\
    (Rabs (i_result st 10 ord0 ord0 ord0 - 1) <= / 10 ^ 6)%Re.
Proof.
move=> g; have gs := even_grid_steps Rlt_0_1 (isT : (0 < 10)%N) g.
have H10 : INR 10 = 10%Re by rewrite /=; lra.
have st k (b : 'I_1) : (0 < k)%N -> (k < 11)%N -> (0 <= t k b - t k.-1 b <= / 10)%Re.
{ move=> k0 kN; have [_ e] := gs k b kN; rewrite (e k0) H10; lra. }
have ts k (b : 'I_1) : (k < 11)%N -> t k b = (INR k / 10)%Re.
{ move=> kN; have e : (0 + INR k * ((1 - 0) / INR 10) = INR k / 10)%Re by rewrite H10; lra. exact: etrans (g k b kN) e. }
have sm k (b : 'I_1) : (0 < k)%N -> (k < 11)%N -> smooth_near (one_f b (t k b)) (one_J b (t k b)) (zero_y0 b) 10 0.
{ move=> _ _; split=> [x _ Y th y' _ _|x x' v _ _]; first by rewrite mul0mx; exact: cdiff_cst.
  rewrite /one_J subrr mul0mx norm0; lra. }
have jb k (b : 'I_1) y v : (0 < k)%N -> (k < 11)%N -> (dst y (zero_y0 b) <= 10)%Re -> (norm (one_J b (t k b) y *m v) <= 0 * norm v)%Re
  by move=> _ _ _; rewrite mul0mx norm0; lra.
have fb k (b : 'I_1) y : (0 < k)%N -> (k < 11)%N -> (dst y (zero_y0 b) <= 10)%Re -> (norm (one_f b (t k b) y) <= 1)%Re
  by move=> _ _ _; rewrite norm_1 sc_1 Rabs_R1; lra.
have [||| s [E [W [_ D]]]] := @small_steps_run 1 1 one_f one_J (Direct Thomas) (/ 10 ^ 6) (/ 10 ^ 8) 100 false 1 11 t zero_y0 10 0 0 1 (/ 10)%Re
  isT isT isT (Rle_refl _) (Rle_refl _) Rle_0_1 ltac:(lra) sm jb fb st _ _ _ init.
- lra.
- lra.
- move=> k b kN; rewrite -[(t k b - t 0%N b)%R]/(t k b - t 0%N b)%Re !ts // [INR 0]/= [INR 1]/=.
  have : (INR k <= 10)%Re by rewrite -H10; apply: le_INR; apply/leP. lra.
exists s; split=> //; split=> //.
have So k : (0 < k)%N -> (k < 11)%N -> solves_on (t k.-1 ord0) (t k ord0) (one_f ord0) (fun x => (x : RF)%:M).
{ move=> _ _; split=> [x i _|x _ i]; rewrite (ord1 i).
  - apply: derivable_continuous_pt; exists 1%Re; apply: (@dpl_ext _ _ _ _ _ (derivable_pt_lim_id x)) => u; by rewrite sc_1.
  - rewrite /one_f sc_1; apply: (@dpl_ext _ _ _ _ _ (derivable_pt_lim_id x)) => u; by rewrite sc_1. }
have Sm k (x : R) : (0 < k)%N -> (k < 11)%N -> (t k.-1 ord0 < x < t k ord0)%Re -> (dst (one_f ord0 x (x : RF)%:M) (one_f ord0 (t k ord0) (t k ord0)%:M) <= 0 * / 10)%Re.
{ move=> _ _ _; rewrite /dst subrr norm0; lra. }
have Os k : (0 < k)%N -> (k < 11)%N -> (dot (i_result s k ord0 - (t k ord0)%:M)%R (one_f ord0 (t k ord0) (i_result s k ord0) - one_f ord0 (t k ord0) (t k ord0)%:M)%R
   <= 0 * (dst (i_result s k ord0) (t k ord0)%:M * dst (i_result s k ord0) (t k ord0)%:M))%Re.
{ move=> _ _; rewrite subrr /dot big_ord1 [(0 : 'cV[RF]_1) _ _]mxE mulr0 Rmult_0_l; exact: Rle_refl. }
have He k : (0 < k)%N -> (k < 11)%N -> (norm (i_result s k ord0 - i_result s k.-1 ord0 - (t k ord0 - t k.-1 ord0) *: one_f ord0 (t k ord0) (i_result s k ord0))%R <= / 10 ^ 8)%Re.
{ move=> k0 kN; apply: Rle_trans (D ltac:(lra) ltac:(lra) k ord0 k0 kN) _; lra. }
have B := @implicit_error_at 1 11 (fun k => t k ord0) (fun _ => one_f ord0) (fun k => i_result s k ord0) (fun x => (x : RF)%:M) 0 0 (/ 10) (/ 10 ^ 8)
  (fun j j0 jN => st j ord0 j0 jN) So (Rle_refl _) ltac:(lra) Sm (Rle_refl _) ltac:(lra) ltac:(lra) Os He 10%N isT.
move: B; rewrite !dst_1 !sc_1 !ts // H10 Rmult_0_r !Rmult_0_l exp_0 [INR 0]/=.
have -> : i_result s 0%N ord0 ord0 ord0 = 0%Re :> R by have [_ [-> _]] := integrate_writes E; rewrite /zero_y0 ffunE mxE.
have -> : (10 / 10 = 1)%Re by field. have -> : (0 - 0 / 10 = 0)%Re by field. rewrite Rabs_R0; lra.
Qed.
