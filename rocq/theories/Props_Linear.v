(** C121: a linear viscosity (exponent exactly one). *)
From Coq Require Import Reals List String Lra Psatz FunctionalExtensionality.
From mathcomp Require Import all_ssreflect all_algebra.
From Verif Require Import ChunkModel ChunkSolve ChunkInst NewtonModel Ode OdeForward OdeReal OdeBlock RField Pipeline PipelineBoth Props_Stress NewtonScalar NewtonGlobal Props_Global Torch Deriv Slices Hardening Flow Models VCGrad.
Import GRing.Theory.
Set Implicit Arguments. Unset Strict Implicit. Unset Printing Implicit Defensive.
Local Open Scope ring_scope.
Delimit Scope R_scope with Re.

Lemma inside_rate n eta s0 iso kin s h t T e : (0 < eta T)%Re -> n T = 1%Re -> (Rabs (s - ik_kin iso kin h) <= s0 T + ik_iso iso h)%Re ->
  ik_rate n eta s0 iso kin s h t T e = 0%Re /\ ik_ds n eta s0 iso kin s h t T e = (/ eta T)%Re.
Proof.
move=> e0 n1 le.
have M : macaulay ((Rabs (s - ik_kin iso kin h) - s0 T - ik_iso iso h) / eta T) = 0%Re.
{ rewrite macaulay_mac mac_neg //; have i0 := Rinv_0_lt_compat _ e0; have Fl (u w : R) : (u <= 0 -> 0 < w -> u * w <= 0)%Re by nra. apply: Fl => //; lra. }
rewrite /ik_rate /ik_ds n1 M; split.
- rewrite pow0_0 ?Rmult_0_l //; lra.
- have -> : (1 - 1 = 0)%Re by lra. rewrite /pow0; case: Rlt_dec => [/Rlt_irrefl //|_]; case: Req_EM_T => // _; rewrite /Rdiv; lra.
Qed.

(** Everywhere strictly inside the yield surface the reported derivative of the flow rate is one over the viscosity, and it is wrong: there is no flow nearby. *)
Theorem C121_derivative_refuted n eta s0 iso kin s h t T e : (0 < eta T)%Re -> n T = 1%Re ->
  (Rabs (s - hd_value kin (slice (hd_nhist iso) h)) < s0 T + hd_value iso h)%Re -> ~ flow_exact (isokin n eta s0 iso kin) s h t T e.
Proof.
move=> e0 n1 lt F; set x := hd_value kin _ in lt.
have C0 : forall c, through (fun _ => c) c 0%Re by move=> c; split=> //; exact: D_const.
have [D1 _] := F (fun y => s + y)%Re (fun _ => h) (fun _ => e) 1%Re (fun _ => 0%Re) 0%Re
  ltac:(split; [exact: Rplus_0_r|eapply D_eq; [apply D_plus; [apply D_const|apply D_id]|exact: Rplus_0_l]]) ltac:(by move=> i _; exact: C0) (C0 e) ltac:(by right).
have D2 : D (fun y => fl_rate (isokin n eta s0 iso kin) (s + y)%Re h t T e) 0%Re 0%Re.
{ apply: (D_ext_loc (fun _ => 0%Re) _ 0%Re 0%Re (s0 T + hd_value iso h - Rabs (s - x))%Re _ _ (D_const _ _)); first lra.
  move=> y; rewrite Rminus_0_r => hy.
  suff le : (Rabs (s + y - ik_kin iso kin h) <= s0 T + ik_iso iso h)%Re by have [H _] := @inside_rate n eta s0 iso kin (s + y) h t T e e0 n1 le; rewrite [RHS]H.
  rewrite /ik_kin /ik_iso -/x; have := Rabs_triang (s - x) y; rewrite (_ : (s + y - x = s - x + y)%Re); [lra|ring]. }
have U := uniqueness_limite _ _ _ _ D1 D2.
have [_ ds] := @inside_rate n eta s0 iso kin s h t T e e0 n1 (Rlt_le _ _ lt).
move: U; rewrite [fl_ds _ _ _ _ _ _]/= ds (sum_0 _ (fun j => _ * 0)%Re) => [|i _]; last exact: Rmult_0_r.
have := Rinv_0_lt_compat _ e0; lra.
Qed.
Print Assumptions C121_derivative_refuted.

Section Elastic.
Variables (Em eta sy Rs d dt c : R) (lm : lin_method) (rtol atol : R) (miter : nat).
Definition linear_model := Models.inelastic (fun _ => Em) (isokin (fun _ => 1%Re) (fun _ => eta) (fun _ => sy) (voce (fun _ => Rs) (fun _ => d)) nokin).
Let B := linear_model.
Hypotheses (E0 : (0 < Em)%Re) (e0 : (0 < eta)%Re) (t0p : (0 < dt)%Re) (c0 : (0 < c)%Re) (el : (Em * c <= sy)%Re).
Let K : R := (Em * dt / eta)%Re.
Let q : R := (K / (1 + K))%Re.
Hypotheses (rq : (rtol < q ^ miter)%Re) (aq : (atol < Em * c * q ^ miter)%Re).

Lemma lin_at (t s e T : R) (y : vec) : y 0%N = s -> y 1%N = 0%Re -> (Rabs s <= sy)%Re ->
  rf_rate B t y e T 0%N = (Em * e)%Re /\ rf_rate B t y e T 1%N = 0%Re /\
  rf_jac B t y e T 0%N 0%N = (- Em * / eta)%Re /\ rf_jac B t y e T 1%N 0%N = 0%Re /\ rf_jac B t y e T 1%N 1%N = 0%Re.
Proof.
move=> y0 y1 le.
have [r ds] := @inside_rate (fun _ => 1%Re) (fun _ => eta) (fun _ => sy) (voce (fun _ => Rs) (fun _ => d)) nokin s (slice 1 y) t T e e0 erefl
  ltac:(rewrite /ik_kin /ik_iso /= /slice /= y1 Rminus_0_r Rplus_0_r; exact: le).
rewrite /B /linear_model; cbn [inelastic rf_rate rf_jac isokin fl_rate fl_ds fl_hrate fl_hds fl_hdh Nat.ltb Nat.leb]; cbv zeta; rewrite y0 /cat /= ?r ?ds Rabs_R0 tsign_0 ?/vzero; repeat split; ring.
Qed.
Lemma K0 : (0 < K)%Re. Proof. by apply: Rdiv_lt_0_compat => //; apply: Rmult_lt_0_compat. Qed.
Lemma q01 : (0 < q < 1)%Re.
Proof. have k := K0; rewrite /q; split; first by apply: Rdiv_lt_0_compat => //; lra. apply: (Rmult_lt_reg_r (1 + K)); first lra. rewrite /Rdiv Rmult_assoc Rinv_l; lra. Qed.
Lemma qj j : (0 < q ^ j <= 1)%Re.
Proof. have [a b] := q01; split; first exact: pow_lt. elim: j => [|j IH] /=; first lra. have := pow_lt q j a; nra. Qed.

Let tt (k b : nat) : R := (INR k * dt)%Re.
Let ee (k b : nat) : R := (INR k * c)%Re.
Let TT (k b : nat) : R := 0%Re.
Let m := Models.rf_n B.
Let G := fun (_ : nat) (ts : nat -> TB RF 1) y => (func_rate (@strain_f B 1 2 tt ee TT) ts y, func_jac (@strain_J B 1 2 tt ee TT) ts y).
Let t0 := time_table 1 tt 0%N.
Let ts (j : nat) := time_table 1 tt (1 + j)%N.
Let rfn := block_RJG G BackwardEuler 1 t0 ts (zeroV RF 1 m).
Let x0 : tens2 RF := @flat RF 1 m (fun j => if (j < 1)%N then zeroV RF 1 m else zeroV RF 1 m).
Let pt j := NewtonProofs.point rfn (block_linsolve lm 1) (@tsub RF) x0 j.
Let b0 : 'I_1 := ord0.
Let i0 : 'I_m := Ordinal (isT : (0 < 2)%N).
Let i1 : 'I_m := Ordinal (isT : (1 < 2)%N).

Lemma lv_grid : times_increase 1 2 tt.
Proof. by move=> b _ i j ij _; apply: Rmult_lt_compat_r => //; apply: lt_INR. Qed.
Lemma lv_rate : interp_at 2 tt (table_rates tt ee) 0 (tt 1 0) = (c / dt)%Re.
Proof. rewrite (@interp_knot 1) //; last exact: lv_grid. rewrite (@rates_knot 1 2) //; last exact: lv_grid. rewrite /step_rate /ee /tt /=; field; lra. Qed.
Lemma ordm (i : 'I_m) : i = i0 \/ i = i1.
Proof. by case: i => [[|[|//]] h]; [left|right]; apply: val_inj. Qed.
Definition elst (s : R) : 'cV[RF]_m := \col_i ((if val i == 0%N then s else 0%Re) : RF).
Lemma el0 s : elst s i0 ord0 = s. Proof. by rewrite mxE. Qed.
Lemma el1 s : elst s i1 ord0 = 0%Re. Proof. by rewrite mxE. Qed.

Section Step.
Variables (x : tens2 RF) (s : R).
Hypotheses (xs : dys 1 m x 1 b0 = elst s) (s0 : (0 <= s <= Em * c)%Re).
Let A := form_A BackwardEuler (G 2 (block_times t0 ts) (ys x (zeroV RF 1 m))).2 (tdiff (block_times t0 ts)).
Let Bb := form_B BackwardEuler (G 2 (block_times t0 ts) (ys x (zeroV RF 1 m))).2 (tdiff (block_times t0 ts)).
Lemma lv_y : ys x (zeroV RF 1 m) 1 b0 = elst s.
Proof. by rewrite /ys /addV ffunE xs [zeroV _ _ _ _]ffunE addr0. Qed.
Lemma lv_t : block_times t0 ts 1 b0 = tt 1 0. Proof. by rewrite /= ffunE. Qed.
Lemma lv_dt : tdiff (block_times t0 ts) 0 b0 = dt.
Proof. rewrite /tdiff ffunE /= !ffunE /tt /=. have Fl (u : R) : (1 * u - 0 * u = u)%Re by ring. exact: Fl. Qed.
Let Rt := rf_rate B (tt 1 0) (to_vec (B := B) (elst s)) (c / dt)%Re (interp_at 2 tt TT 0 (tt 1 0)).
Let Jt := rf_jac B (tt 1 0) (to_vec (B := B) (elst s)) (c / dt)%Re (interp_at 2 tt TT 0 (tt 1 0)).
Lemma lv_at : Rt 0%N = (Em * (c / dt))%Re /\ Rt 1%N = 0%Re /\ Jt 0%N 0%N = (- Em * / eta)%Re /\ Jt 1%N 0%N = 0%Re /\ Jt 1%N 1%N = 0%Re.
Proof.
apply: (@lin_at _ s).
- by rewrite (@to_vecE B (elst s) i0) el0.
- by rewrite (@to_vecE B (elst s) i1) el1.
- rewrite Rabs_pos_eq; lra.
Qed.
Lemma lv_res : blkV 1 m (fst (rfn x)) 0 b0 = elst (s - Em * c)%Re.
Proof.
have [r0 [r1 _]] := lv_at.
rewrite /rfn /block_RJG [fst _]/= blkV_flat /form_residual ffunE lv_dt xs [dys 1 m x 0 b0]ffunE.
have -> : (func_rate (@strain_f B 1 2 tt ee TT) (block_times t0 ts) (ys x (zeroV RF 1 m))) 1 b0 = \col_i (Rt i : RF).
{ by rewrite /func_rate ffunE lv_y lv_t /strain_f lv_rate. }
apply/colP => i; have [->|->] := ordm i; rewrite !mxE /= ?r0 ?r1.
- have Fl (a b h : R) : (0 < h -> a - 0 - h * (Em * (b / h)) = a - Em * b)%Re by move=> h0; field; lra. exact: Fl.
- have Fl (h : R) : (0 - 0 - h * 0 = 0)%Re by ring. exact: Fl.
Qed.
Lemma lv_A : A 0 b0 i0 i0 = (1 + K)%Re /\ A 0 b0 i1 i0 = 0%Re /\ A 0 b0 i1 i1 = 1%Re.
Proof.
have [_ [_ [j0 [j1 j2]]]] := lv_at.
have AE : A 0 b0 = 1%:M - dt *: \matrix_(i, j) (Jt i j : RF).
{ rewrite /A /form_A ffunE lv_dt; congr (_ - _ *: _). by rewrite /= /func_jac ffunE lv_y lv_t /strain_J lv_rate. }
rewrite AE !mxE /= j0 j1 j2 /K; split; [|split].
- have Fl (h u w : R) : (1 - h * (- u * / w) = 1 + u * h / w)%Re by rewrite /Rdiv; ring. exact: Fl.
- have Fl (h : R) : (0 - h * 0 = 0)%Re by ring. exact: Fl.
- have Fl (h : R) : (1 - h * 0 = 1)%Re by ring. exact: Fl.
Qed.
Lemma lv_solve (v : 'cV[RF]_m) r : A 0 b0 *m v = elst r -> v = elst (r / (1 + K))%Re.
Proof.
have [a0 [a1 a2]] := lv_A; have k := K0.
have sum2 (u : 'I_m -> RF) : \sum_i u i = u i0 + u i1.
{ rewrite !big_ord_recl big_ord0 addr0; congr (_ + _); congr u; exact: val_inj. }
move=> H; have H0 := congr1 (fun M : 'cV[RF]_m => M i0 ord0) H; have H1 := congr1 (fun M : 'cV[RF]_m => M i1 ord0) H.
move: H0 H1; cbv beta; rewrite el0 el1 !(mxE, sum2) a0 a1 a2 => h0 h1.
have v1 : v i1 ord0 = 0%Re. { have Fl (u w : R) : (0 * u + 1 * w = 0 -> w = 0)%Re by lra. exact: Fl h1. }
have v0 : v i0 ord0 = (r / (1 + K))%Re.
{ move: h0; rewrite v1. have Fl (u w a : R) : ((1 + K) * u + a * 0 = w -> u = w / (1 + K))%Re by move=> <-; field; lra. exact: Fl. }
by apply/colP => i; have [->|->] := ordm i; rewrite ?el0 ?el1.
Qed.
Lemma lv_update : dys 1 m (NewtonProofs.update rfn (block_linsolve lm 1) (@tsub RF) x) 1 b0 = elst (s - (s - Em * c) / (1 + K))%Re.
Proof.
set dx := block_linsolve lm 1 (A, Bb) (fst (rfn x)).
have ns' : forall i, (i < 1)%N -> nonsing (A i).
{ move=> [|//] _ b; rewrite (ord1 b); apply: VCGrad.unit_of_kernel => v h.
  have -> := lv_solve (r := 0%Re) (v := v) _; last by rewrite h; apply/colP => i; rewrite !mxE; case: ifP.
  apply/colP => i; rewrite !mxE; case: ifP => // _; rewrite /Rdiv; exact: Rmult_0_l. }
have [S0 _] := @linsolve_blocks RF 1 m lm 1 A Bb (fst (rfn x)) isT ns'.
have E : A 0 b0 *m blkV 1 m dx 0 b0 = elst (s - Em * c)%Re.
{ rewrite -lv_res; have := S0 (elimT ltP (ltnSn 0)); move/ffunP/(_ b0) => <-.
  have E' (M : MB RF 1 m) (u : VB RF 1 m) : bact (fops RF 1 m) M u b0 = M b0 *m u b0 by rewrite /= ffunE.
  by rewrite E'. }
have -> : NewtonProofs.update rfn (block_linsolve lm 1) (@tsub RF) x = tsub x dx by [].
have -> : dys 1 m (tsub x dx) 1 b0 = dys 1 m x 1 b0 - blkV 1 m dx 0 b0 by apply/colP => i; rewrite /= !ffunE !mxE.
rewrite xs (lv_solve E); apply/colP => i; have [->|->] := ordm i; rewrite !mxE //=.
have Fl : (0 - 0 = 0)%Re by ring. exact: Fl.
Qed.
End Step.
(** The iterates are known: the error shrinks by the fixed factor K / (1 + K). *)
Lemma lv_point j : dys 1 m (pt j) 1 b0 = elst (Em * c * (1 - q ^ j))%Re.
Proof.
have k := K0; have ec : (0 < Em * c)%Re by apply: Rmult_lt_0_compat.
elim: j => [|j IH].
- by rewrite /pt /= /x0 blkV_flat; apply/colP => i; rewrite ffunE !mxE /= Rminus_diag_eq // Rmult_0_r; case: ifP.
- have b : (0 <= Em * c * (1 - q ^ j) <= Em * c)%Re by have := qj j; nra.
  have -> : pt j.+1 = NewtonProofs.update rfn (block_linsolve lm 1) (@tsub RF) (pt j) by [].
  rewrite (lv_update IH b); congr elst. rewrite [(q ^ j.+1)%Re]/=; move: (q ^ j)%Re => w; rewrite /q; field; lra.
Qed.
Lemma lv_norm j : sqrt (sumsq (1 * m) (fst (rfn (pt j)) b0)) = (Em * c * q ^ j)%Re.
Proof.
have ec : (0 < Em * c)%Re by apply: Rmult_lt_0_compat.
have b : (0 <= Em * c * (1 - q ^ j) <= Em * c)%Re by have := qj j; nra.
have H := lv_res (lv_point j) b; set v := fst (rfn (pt j)) in H *.
have e i : v b0 (val i) = elst (Em * c * (1 - q ^ j) - Em * c)%Re i ord0 by rewrite -H ffunE mxE mul0n add0n.
have -> : sumsq (1 * m) (v b0) = Rsqr (Em * c * q ^ j)%Re.
{ rewrite /sumsq !big_ord_recl big_ord0 addr0. have := e i0; have := e i1; rewrite el0 el1 /= => -> ->.
  have Fl (u w : R) : ((u * (1 - w) - u) * (u * (1 - w) - u) + 0 * 0 = Rsqr (u * w))%Re by rewrite /Rsqr; ring. exact: Fl. }
rewrite sqrt_Rsqr //; have := qj j; nra.
Qed.
Lemma q_anti i j : (i <= j)%N -> (q ^ j <= q ^ i)%Re.
Proof.
move=> ij; rewrite -{1}(subnK ij) -plusE pow_add; have [a _] := qj i; have [_ b] := qj (j - i)%N.
have Fl (u w : R) : (0 < u -> w <= 1 -> w * u <= u)%Re by nra. exact: Fl.
Qed.
Lemma lv_going j : (j <= miter)%N -> keep_going rtol atol (NewtonProofs.norms rfn (nrmR 1 m 1) (pt j)) (NewtonProofs.norms rfn (nrmR 1 m 1) x0) = true.
Proof.
move=> jm; apply: Bool.not_false_is_true => Kg.
have ec : (0 < Em * c)%Re by apply: Rmult_lt_0_compat.
have qa := q_anti jm; have lo := Rmult_le_compat_l _ _ _ (Rlt_le _ _ ec) qa.
have [al|rl] := NewtonProofs.keep_going_false rtol atol _ _ (nrmR_len 1 m 1 _ _) (nrmR_nonan 1 m 1 _) (nrmR_finite 1 m 1 _) Kg.
- have := nrmR_all_le al (ltn_ord b0); rewrite lv_norm; lra.
- have h := nrmR_all_le_rel rl (ltn_ord b0).
  have h' := Rle_trans _ _ _ (Req_le _ _ (esym (lv_norm j))) h.
  have h2 : (rtol * sqrt (sumsq (1 * m) (fst (rfn x0) b0)) = rtol * (Em * c * q ^ 0))%Re := congr1 (Rmult rtol) (lv_norm 0).
  have h3 := Rle_trans _ _ _ h' (Req_le _ _ h2).
  move: h3; rewrite [(q ^ 0)%Re]/=; nra.
Qed.
Lemma lv_run throw n init : (0 < n)%N ->
  exists st, i_warned st = [:: (1, 1)%N] /\
  @solve_strain B 1 2 tt ee TT BackwardEuler lm rtol atol miter throw "zero" n init = if throw then inr ErrSolve else inl st.
Proof.
move=> n0; rewrite /solve_strain -integrateG_pointwise /integrateG -/G (gtn_eqF (ltn0Sn 1)) (gtn_eqF n0).
have sl : slice_len 2 1 (1 + n) = 1%N by rewrite /slice_len; case: (n) n0 => // n' _; rewrite add1n minnC /minn; case: ifP.
have [r H] := newton_stuck throw lv_going.
have E : @block_updateG RF 1 m G BackwardEuler lm (nrmR 1 m) rtol atol miter throw 1 (time_table 1 tt 0%N) ts (zeroV RF 1 m) x0 =
  (if throw then Raised else Warned (fun k => addV (blkV 1 m (res_x r) k) (zeroV RF 1 m))) by rewrite /block_updateG -/rfn H; case: (throw).
exists {| i_result := fun j => if (1 <= j < 1 + 1)%N then addV (blkV 1 m (res_x r) (j - 1)%N) (zeroV RF 1 m) else if j == 0%N then zeroV RF 1 m else init j;
  i_writes := [:: 0%N; 1%N]; i_warned := [:: (1, 1)%N] |}; split=> //.
rewrite loop_step /int_stepG guess_zero sl eqxx [~~ true]/= -[(1 - 1)%N]/0%N.
have -> : @flat RF 1 m (fun j => if (j < 1)%N then zeroV RF 1 m else zeroV RF 1 m) = x0 by [].
rewrite E; case: (throw) => //; apply: (@loop_done 1 m G); by case: (n) n0.
Qed.
End Elastic.

(** One elastic step (stress E c at most the yield stress) of a Voce material with exponent one, from rest: the Newton error only shrinks by K / (1 + K),
    K = E dt / eta, per iteration, so that if the tolerances are not reached by that within the iteration limit the run raises, or warns.
    With an exponent above one the same step is always solved, in one iteration and exactly (C114). *)
Theorem C121_elastic_step_refuted Em eta sy Rs d dt c lm rtol atol miter n init :
  let K := (Em * dt / eta)%Re in let q := (K / (1 + K))%Re in
  (0 < Em)%Re -> (0 < eta)%Re -> (0 < dt)%Re -> (0 < c)%Re -> (Em * c <= sy)%Re -> (0 < n)%N ->
  (rtol < q ^ miter)%Re -> (atol < Em * c * q ^ miter)%Re ->
  forall throw, exists st, i_warned st = [:: (1, 1)%N] /\
  @solve_strain (inelastic (fun _ => Em) (isokin (fun _ => 1%Re) (fun _ => eta) (fun _ => sy) (voce (fun _ => Rs) (fun _ => d)) nokin)) 1 2
    (fun k _ => (INR k * dt)%Re) (fun k _ => (INR k * c)%Re) (fun _ _ => 0%Re)
    BackwardEuler lm rtol atol miter throw "zero" n init = if throw then inr ErrSolve else inl st.
Proof. move=> K q E0 e0 d0 c0 el n0 rq aq throw; exact: (@lv_run Em eta sy Rs d dt c lm rtol atol miter E0 e0 d0 c0 el rq aq throw n init n0). Qed.
Print Assumptions C121_elastic_step_refuted.

Theorem C121_outside_partial n eta s0 Rs d nb C g s h t T e : n T = 1%Re -> (0 < eta T)%Re -> (0 <= s0 T + h 0%N)%Re ->
  (s0 T + h 0%N < Rabs (s - sum nb (fun i => h i.+1)))%Re ->
  flow_exact (isokin n eta s0 (voce Rs d) (chaboche nb C g)) s h t T e.
Proof.
move=> n1 e0 y0 out; apply: Props_Flow.C41_isokin_derivatives => //.
- exact: voce_wf.
- exact: chaboche_wf.
- right; rewrite (_ : hd_value (chaboche nb C g) _ = sum nb (fun i => h i.+1)) /=; [lra|by []].
- by right.
- exact: voce_value.
- exact: chaboche_value.
- move=> ep; exact: voce_rate.
- move=> ep; exact: chaboche_rate.
Qed.
Print Assumptions C121_outside_partial.

(** The hypotheses are met, by everyday numbers and the defaults of ode.py: E = 150 GPa, eta = 100 MPa, yield stress 100 MPa, one second, strain 1e-4 (15 MPa). *)
Lemma q_lower (K : R) j : (0 < K -> 1 - INR j * / (1 + K) <= (K / (1 + K)) ^ j)%Re.
Proof.
move=> k; have e : (K / (1 + K) = 1 - / (1 + K))%Re by field; lra.
have i0 := Rinv_0_lt_compat (1 + K) ltac:(lra).
have i1 : (/ (1 + K) < 1)%Re by rewrite -Rinv_1; apply: Rinv_lt_contravar; lra.
rewrite e; move: (/ (1 + K))%Re i0 i1 => w w0 w1; elim: j => [|j IH]; first by rewrite /=; lra.
rewrite S_INR /=; have := pos_INR j; have := Rmult_le_compat_l (1 - w) _ _ ltac:(lra) IH; nra.
Qed.
Example C121_ex : forall throw, exists st, i_warned st = [:: (1, 1)%N] /\
  @solve_strain (inelastic (fun _ => 150000%Re) (isokin (fun _ => 1%Re) (fun _ => 100%Re) (fun _ => 100%Re) (voce (fun _ => 50%Re) (fun _ => 10%Re)) nokin)) 1 2
    (fun k _ => (INR k * 1)%Re) (fun k _ => (INR k * (1 / 10000))%Re) (fun _ _ => 0%Re)
    BackwardEuler (Direct Thomas) (1 / 10 ^ 6) (1 / 10 ^ 8) 100 throw "zero" 1 (fun _ => zeroV RF 1 _) = if throw then inr ErrSolve else inl st.
Proof.
have := q_lower 100 (K := 150000 * 1 / 100) ltac:(lra).
rewrite (_ : INR 100 = 100)%Re; last by rewrite INR_IZR_INZ.
have -> : (1 - 100 * / (1 + 150000 * 1 / 100) = 1401 / 1501)%Re by field.
move=> Q; apply: C121_elastic_step_refuted => //; lra.
Qed.
Example C121_derivative_ex : (Rabs (5 - hd_value nokin (slice 1 vzero)) < 10 + hd_value (voce (fun _ => 50%Re) (fun _ => 10%Re)) vzero)%Re.
Proof. rewrite /= /vzero Rminus_0_r Rabs_pos_eq; lra. Qed.
