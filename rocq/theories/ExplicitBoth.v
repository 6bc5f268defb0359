(** Stress-controlled and mixed simulations with the forward-Euler scheme
    (models.py 320-379, 507-560 driven by ode.py 118-160 and 443-520): the rows of a
    block, as in PipelineBoth.v, for the other scheme. *)
From Coq Require Import Reals List String Lra FunctionalExtensionality.
From mathcomp Require Import all_ssreflect all_algebra.
From Verif Require Import ChunkModel ChunkSolve ChunkInst NewtonModel NewtonProofs Ode OdeForward ZmodTac OdeReal OdeBlock RField Pipeline PipelineBoth.
From Verif Require Interp Models Flow Slices PipelineR StressR.
Import GRing.Theory.
Set Implicit Arguments. Unset Strict Implicit. Unset Printing Implicit Defensive.
Local Open Scope ring_scope.
Delimit Scope R_scope with Re.

Section Runs.
Variable B : Models.rateform.
Notation m := (Models.rf_n B).
Variables (nb nt : nat) (times data temps : nat -> nat -> R) (control : nat -> R).
Variables (lm : lin_method) (miter : nat) (throw : bool) (gt : string) (n : nat) (init : nat -> VB RF nb m).

(** The call that made the step from time k to time k+1: its row [j] is time k. *)
Lemma block_rows_fe (G : nat -> (nat -> TB RF nb) -> (nat -> VB RF nb m) -> (nat -> VB RF nb m) * (nat -> MB RF nb m)) st :
  integrateG G ForwardEuler lm (nrmR nb m) R0 R0 miter throw gt n nt (time_table nb times) (@zeroV RF nb m) init = inl st ->
  i_warned st = [::] -> forall k, (k.+1 < nt)%N ->
  exists ts Y k0 rows j, [/\ (k0 + rows <= nt)%N, (j < rows)%N, k = (k0 + j)%N,
     (forall j, (j < rows)%N -> ts j = time_table nb times (k0 + j)%N) /\ (forall j, (j < rows)%N -> Y j = i_result st (k0 + j)%N) &
     forall b i, (i < m)%N -> Rminus (entry st k.+1 b i) (entry st k b i) =
        Rmult (Rminus (times k.+1 b) (times k b)) (to_vec ((G rows ts Y).1 j b) i)].
Proof.
move=> E W k' kn.
have n0 : (0 < n)%N by move: E; rewrite /integrateG; case: eqP => // _; case: eqP => //; rewrite lt0n => /eqP.
have [k [kp ek]] : exists k, (0 < k)%N /\ k = k'.+1 by exists k'.+1.
rewrite -ek in kn; have ek' : k' = k.-1 by rewrite ek.
pose k0 := block_start n k.
have k0k : (k0 <= k)%N by rewrite /k0 /block_start -[k in (_ < k)%N]prednK // ltnS leq_trunc_div.
have k0n : (k0 < nt)%N by apply: leq_ltn_trans k0k kn.
pose len := slice_len nt k0 (k0 + n).
have kl : (k - k0 < len)%N.
{ rewrite ltn_subLR // /len slice_len_add; last exact: ltnW.
  rewrite leq_min kn andbT /k0 /block_start addSn -mulSnr.
  by rewrite -[k in (k < _)%N](prednK kp) ltnS ltn_ceil. }
have [ts [Y [Hts [HY Res]]]] := @integrateG_exact nb m G ForwardEuler lm R0 R0 miter throw gt n nt (time_table nb times) _ init st erefl erefl E W (k.-1 %/ n)%N k0n.
rewrite -/(block_start n k) -/k0 -/len in Hts HY Res.
have e1 : (k0 - 1 + (k - k0).+1)%N = k by rewrite addnS -addSn subn1 /= subnKC.
have e2 : (k0 - 1 + (k - k0))%N = k.-1 by rewrite -[in RHS]e1 addnS.
have r1 : ts (k - k0).+1 = time_table nb times k by rewrite Hts // e1.
have r2 : ts (k - k0)%N = time_table nb times k.-1 by rewrite Hts ?e2 // ltnW.
have q1 : Y (k - k0).+1 = i_result st k by rewrite HY // e1.
have q2 : Y (k - k0)%N = i_result st k.-1 by rewrite HY ?e2 // ltnW.
rewrite ek' prednK //.
exists ts, Y, (k0 - 1)%N, len.+1, (k - k0)%N; split=> //.
- rewrite /len addnS -addSn subn1 prednK // slice_len_add; last exact: ltnW. exact: geq_minr.
- exact: ltnW.
- move=> b i im; have := Res (k - k0)%N b kl => /colP/(_ (Ordinal im)).
  rewrite /row_res r1 r2 q1 q2 !ffunE !mxE !entryO to_vecO => H.
  by apply: Rminus_diag_uniq; exact: H.
Qed.

(** strain-controlled entries of solve_both: the update equations of C93 *)
Lemma both_strain_fe st : grid_ok nb nt times ->
  solve_both nt times data temps control ForwardEuler lm R0 R0 miter throw gt n init = inl st -> i_warned st = [::] ->
  forall k (b : 'I_nb) i, (k.+1 < nt)%N -> (i < m)%N -> control b = R0 ->
    Rminus (entry st k.+1 b i) (entry st k b i) =
    Rmult (Rminus (times k.+1 b) (times k b)) (Models.rf_rate B (times k b) (entry st k b) (table_rates times data k b) (temps k b) i).
Proof.
move=> Gr E W k b i kn im C.
have [ts [Y [q [rows [j [Hr jr kE [Hts HY] H]]]]]] := block_rows_fe E W kn.
have n2 : (1 < nt)%N by apply: leq_ltn_trans kn.
rewrite H // (both_row_strain data temps n2 Gr Hts HY Hr jr C) -kE.
by rewrite to_vecO mxE.
Qed.

Lemma both_none_fe st : grid_ok nb nt times ->
  solve_both nt times data temps control ForwardEuler lm R0 R0 miter throw gt n init = inl st -> i_warned st = [::] ->
  forall k (b : 'I_nb) i, (k.+1 < nt)%N -> (i < m)%N -> control b <> R0 -> control b <> R1 ->
    entry st k.+1 b i = entry st k b i.
Proof.
move=> Gr E W k b i kn im C C'.
have [ts [Y [q [rows [j [Hr jr kE [Hts HY] H]]]]]] := block_rows_fe E W kn.
have := H b i im; rewrite (both_row_none _ _ _ _ _ _ jr C C') to_vecO mxE Rmult_0_r => Q.
exact: Rminus_diag_uniq.
Qed.

(** One stress-controlled explicit step, from time k to time k+1: everything is evaluated at time k;
    the strain rate e makes the stress rate the table's rate *at time k* to 1e-10. *)
Definition stress_step_fe (st : istate RF nb m) (k : nat) (b : 'I_nb) : Prop := exists e : R,
  let dt := Rminus (times k.+1 b) (times k b) in
  let y := Models.set0 (data k b) (entry st k b) in
  Rle (Rabs (Rminus (Models.rf_rate B (times k b) y e (temps k b) 0%N) (table_rates times data k b))) (Rinv (pow 10 10)) /\
  Rminus (entry st k.+1 b 0%N) (entry st k b 0%N) = Rmult dt e /\
  forall i, (0 < i)%N -> (i < m)%N -> Rminus (entry st k.+1 b i) (entry st k b i) = Rmult dt (Models.rf_rate B (times k b) y e (temps k b) i).

Lemma stress_rows_step_fe st k (b : 'I_nb) (g : 'cV[RF]_m) er : (0 < m)%N ->
  Rle (Rabs (Rminus (Models.rf_rate B (times k b) (Models.set0 (data k b) (entry st k b)) er (temps k b) 0%N) (table_rates times data k b))) (Rinv (pow 10 10)) ->
  g = \col_i (Models.sb_rate B (times k b) (entry st k b) (data k b) (temps k b) er i : RF) ->
  (forall i, (i < m)%N -> Rminus (entry st k.+1 b i) (entry st k b i) = Rmult (Rminus (times k.+1 b) (times k b)) (to_vec g i)) ->
  stress_step_fe st k b.
Proof.
move=> m0 A gE H; exists er; cbv zeta; split; first exact: A.
split.
- by rewrite H // gE to_vecO mxE.
- by move=> i i0 im; rewrite H // gE to_vecO mxE /= sb_rate_pos.
Qed.

Lemma both_stress_fe st : (0 < m)%N -> grid_ok nb nt times ->
  solve_both nt times data temps control ForwardEuler lm R0 R0 miter throw gt n init = inl st -> i_warned st = [::] ->
  affine_run nt times data temps st ->
  forall k (b : 'I_nb), (k.+1 < nt)%N -> control b = R1 -> stress_step_fe st k b.
Proof.
move=> m0 Gr E W Aff k b kn C.
have [ts [Y [q [rows [j [Hr jr kE [Hts HY] H]]]]]] := block_rows_fe E W kn.
have n2 : (1 < nt)%N by apply: leq_ltn_trans kn.
have [j' b' j'r|er Q] := @stress_rows B nb nt times data temps control ts Y rows q (i_result st) n2 Gr Hts HY Hr.
  by apply: Aff; apply: leq_trans Hr; rewrite ltn_add2l.
have [Q1 /= [_ /(_ C) Q2]] := Q j b jr; rewrite -kE in Q1 Q2.
exact: (stress_rows_step_fe m0 Q1 Q2 (H b)).
Qed.

Lemma stress_fe st : (0 < m)%N -> grid_ok nb nt times ->
  solve_stress nt times data temps ForwardEuler lm R0 R0 miter throw gt n init = inl st -> i_warned st = [::] ->
  affine_run nt times data temps st ->
  forall k (b : 'I_nb), (k.+1 < nt)%N -> stress_step_fe st k b.
Proof.
move=> m0 Gr E W Aff k b kn.
have [ts [Y [q [rows [j [Hr jr kE [Hts HY] H]]]]]] := block_rows_fe E W kn.
have n2 : (1 < nt)%N by apply: leq_ltn_trans kn.
have [j' b' j'r|er Q] := @stress_rows B nb nt times data temps control ts Y rows q (i_result st) n2 Gr Hts HY Hr.
  by apply: Aff; apply: leq_trans Hr; rewrite ltn_add2l.
have [Q1 /= [Q2 _]] := Q j b jr; rewrite -kE in Q1 Q2.
exact: (stress_rows_step_fe m0 Q1 Q2 (H b)).
Qed.
End Runs.

(** ** Existence: a function that does not depend on the state *)
Section ConstBlock.
Variables (F : fieldType) (nb m : nat).
Notation vb := (VB F nb m).
Notation mb := (MB F nb m).
Variable G : nat -> (nat -> TB F nb) -> (nat -> vb) -> (nat -> vb) * (nat -> mb).
Variables (n : nat) (tstart : TB F nb) (ts : nat -> TB F nb) (ystart : vb).
Let times := block_times tstart ts.
Variable c : nat -> 'I_nb -> 'cV[F]_m.
Definition const_block : Prop := forall Y k b, (k <= n)%N -> (G n.+1 times Y).1 k b = c k b /\ (G n.+1 times Y).2 k b = 0.
Hypothesis HG : const_block.
Variable lm : lin_method.
Let rfn := block_RJG G ForwardEuler n tstart ts ystart.

Definition feG_res (x : tens2 F) (k : nat) : vb :=
  [ffun b => dys nb m x k.+1 b - dys nb m x k b - (times k.+1 b - times k b) *: c k b].

Lemma feG_rfn_res x k : (k < n)%N -> blkV nb m (fst (rfn x)) k = feG_res x k.
Proof.
move=> kn; rewrite /rfn /block_RJG /= blkV_flat; apply/ffunP=> b; rewrite [LHS]ffunE [RHS]ffunE.
have [-> _] := @HG (ys x ystart) k b (ltnW kn); by rewrite !ffunE.
Qed.

Lemma feG_const_update x : (0 < n)%N ->
  forall i, (i < n)%N -> feG_res (update rfn (block_linsolve lm n) (@tsub F) x) i = zeroV F nb m.
Proof.
move=> n0.
set A := form_A ForwardEuler (G n.+1 times (ys x ystart)).2 (tdiff times).
set B := form_B ForwardEuler (G n.+1 times (ys x ystart)).2 (tdiff times).
set dx := block_linsolve lm n (A, B) (fst (rfn x)).
have AE k b : A k b = 1%:M by rewrite ffunE.
have BE k b : (k < n)%N -> B k b = - 1%:M.
  by move=> kn; rewrite /B /form_B ffunE; have [_ ->] := @HG (ys x ystart) k.+1 b kn; rewrite !scaler0 ?subr0 ?oppr0 ?addr0 ?add0r.
have [S0 S1] : bidiag_solution (fops F nb m) n A B (feG_res x) (blkV nb m dx).
{ have ns' : forall k, (k < n)%N -> nonsing (A k) by move=> k kn b; rewrite AE; exact: unitmx1.
  have [T0 T1] := @linsolve_blocks F nb m lm n A B (fst (rfn x)) n0 ns'.
  split=> [h|i h]; first by rewrite T0 // feG_rfn_res.
  by rewrite T1 // feG_rfn_res //; apply/ltP. }
have upd_x : update rfn (block_linsolve lm n) (@tsub F) x = tsub x dx by [].
have blkS i b : blkV nb m (tsub x dx) i b = blkV nb m x i b - blkV nb m dx i b.
  by apply/colP => j; rewrite !ffunE !mxE.
have dyS i b : dys nb m (tsub x dx) i b = dys nb m x i b - dys nb m dx i b.
{ case: i => [|i] /=; last exact: blkS. by rewrite ffunE subr0. }
have row i b : (i < n)%N -> dys nb m dx i.+1 b - dys nb m dx i b = feG_res x i b.
{ case: i => [|i] h.
  - have := S0 (elimT ltP h); move/ffunP/(_ b) => <-.
    have E (M : mb) (u : vb) : bact (fops F nb m) M u b = M b *m u b by rewrite /= ffunE.
    by rewrite E AE mul1mx [dys nb m dx 0 b]ffunE subr0.
  - have := S1 i (elimT ltP h); move/ffunP/(_ b) => <-.
    have E (M N : mb) (u v : vb) : badd (fops F nb m) (bact (fops F nb m) M u) (bact (fops F nb m) N v) b
      = M b *m u b + N b *m v b by rewrite /= !ffunE.
    by rewrite E AE BE ?(ltnW h) // mul1mx mulNmx mul1mx. }
move=> i ij; rewrite upd_x; apply/ffunP=> b; rewrite [RHS]ffunE [LHS]ffunE !dyS.
move: (row i b ij); rewrite [feG_res x i b]ffunE.
move: (dys nb m dx i.+1 b) (dys nb m dx i b) (dys nb m x i.+1 b) (dys nb m x i b) => X1 X0 u1 u0.
move: (times i.+1 b - times i b) => h E.
suff -> : u1 - X1 - (u0 - X0) - h *: c i b = (u1 - u0 - h *: c i b) - (X1 - X0) by rewrite E subrr.
zmod.
Qed.
End ConstBlock.

Section ConstRun.
Variables (nb m : nat).
Notation vb := (VB RF nb m).
Variable G : nat -> (nat -> TB RF nb) -> (nat -> vb) -> (nat -> vb) * (nat -> MB RF nb m).

Lemma feG_block_ok c lm rtol atol miter throw len t0 ts ystart x0 :
  0 <=R atol -> (0 < len)%N -> (1 < miter)%N -> const_block G len t0 ts c ->
  exists r, newton_raphson_chunk (block_RJG G ForwardEuler len t0 ts ystart)
     (nrmR nb m len) rtol atol (block_linsolve lm len) (@tsub RF) miter throw x0 = Ok r.
Proof.
move=> a0 l0 m1 HG.
set fn := block_RJG _ _ _ _ _ _; set step := block_linsolve _ _.
rewrite /newton_raphson_chunk.
have /= := nr_solve_spec fn (nrmR nb m len) rtol atol step (@tsub RF) miter x0.
set r := nr_solve _ _ _ _ _ _ _ _ => -[_ [_ [_ [_ [_ [HK _]]]]]].
case: (Nat.eqb_spec (res_iters r) miter) => e; last by eexists.
have : keep_going rtol atol (norms fn (nrmR nb m len) (point fn step (@tsub RF) x0 1))
  (norms fn (nrmR nb m len) x0) = true by apply: HK; apply/ltP; rewrite e.
rewrite /keep_going /norms (_ : any_gt _ _ = false) //.
apply: any_gt_all_le.
suff Z : all_le (nrmR nb m len (fst (fn (point fn step (@tsub RF) x0 1)))) 0.
{ apply: List.Forall_impl Z => ex [q [-> hq]]; exists q; split=> //; exact: Rle_trans hq a0. }
apply: nrmR_zero => b idx bn il.
have m0 : (0 < m)%N by move: il; case: (m) => //; rewrite muln0.
have kl : (idx %/ m < len)%N by rewrite ltn_divLR.
have := @feG_const_update RF nb m G len t0 ts ystart c HG lm x0 l0 (idx %/ m)%N kl.
rewrite -(@feG_rfn_res RF nb m G len t0 ts ystart c HG) // => /ffunP/(_ (Ordinal bn))/colP/(_ (Ordinal (ltn_pmod idx m0))).
by rewrite !ffunE !mxE /= -divn_eq.
Qed.

Lemma feG_const_never_fails lm rtol atol miter throw gt n nt t y0 init :
  0 <=R atol -> (0 < n)%N -> (1 < miter)%N -> (0 < nt)%N ->
  (forall k, (0 < k)%N -> (k < nt)%N ->
     exists c, const_block G (slice_len nt k (k + n)) (t (k - 1)%N) (fun j => t (k + j)%N) c) ->
  (gt = "zero" \/ gt = "previous" /\ (n < nt)%N)%string ->
  exists st, integrateG G ForwardEuler lm (nrmR nb m) rtol atol miter throw
      gt n nt t y0 init = inl st /\ i_warned st = [::].
Proof.
move=> a0 n0 nm nt0 ns hg; rewrite /integrateG gtn_eqF // gtn_eqF //.
have key : forall fuel k i st, (nt <= fuel + k)%N -> k = (i * n).+1 -> i_warned st = [::] ->
  exists st', int_loopG G ForwardEuler lm (nrmR nb m) rtol atol miter throw
     fuel gt n nt t k st = inl st' /\ i_warned st' = [::].
{ elim=> [|fuel IH] k i st hf kE W /=; case: ifP => [kn|_]; try by eexists.
  - by move: hf; rewrite add0n leqNgt kn.
  - have [g E] : exists g, initial_guess gt n nt (i_result st) k = Some (slice_len nt k (k + n), g).
    { case: hg => [->|[-> hn]]; first by eexists; exact: guess_zero.
      by have [g [-> _]] := @guess_previous RF nb m n nt (i_result st) k i n0 hn kn kE; eexists. }
    rewrite /int_stepG E eqxx /= /block_updateG.
    set x0 := flat _.
    have k0 : (0 < k)%N by rewrite kE.
    have [c HG] := ns k k0 kn.
    have [r ->] := @feG_block_ok c lm rtol atol miter throw (slice_len nt k (k + n)) (t (k - 1)%N)
       (fun j => t (k + j)%N) (i_result st (k - 1)%N) x0 a0 (slice_len_gt0 n0 kn) nm HG.
    apply: (IH (k + n)%N i.+1) => //; last by rewrite kE addSn mulSnr.
    apply: leq_trans hf _; by rewrite addSn -addnS leq_add2l -[X in (X < _)%N]addn0 ltn_add2l. }
apply: (key nt 1%N 0%N) => //; exact: leq_addr.
Qed.
End ConstRun.

Section NoHistory.
Variable B : Models.rateform.
Notation m := (Models.rf_n B).
Hypothesis m1 : m = 1%N.
Variables (nb nt : nat) (times data temps : nat -> nat -> R) (control : nat -> R).

Lemma stress_never_fails_fe lm rtol atol miter throw gt n init :
  0 <=R atol -> (0 < n)%N -> (1 < miter)%N -> (0 < nt)%N -> (gt = "zero" \/ gt = "previous" /\ (n < nt)%N)%string ->
  exists st, @solve_stress B nb nt times data temps ForwardEuler lm rtol atol miter throw gt n init = inl st /\ i_warned st = [::].
Proof.
move=> a0 n0 mi nt0 hg; apply: feG_const_never_fails => // k k0 kn.
exists (fun k' b => (stress_G (B := B) (nb := nb) nt times data temps (slice_len nt k (k + n)).+1
   (block_times (time_table nb times (k - 1)%N) (fun j => time_table nb times (k + j)%N)) (fun _ => @zeroV RF nb m)).1 k' b) => Y j b jl.
by rewrite (stress_G_jac m1); split=> //; rewrite (@stress_G_const B m1 nb nt times data temps _ _ Y (fun _ => @zeroV RF nb m)).
Qed.

Lemma both_never_fails_fe lm rtol atol miter throw gt n init :
  (forall t y y' e T, Models.rf_rate B t y e T 0%N = Models.rf_rate B t y' e T 0%N /\ Models.rf_jac B t y e T 0%N 0%N = R0) ->
  0 <=R atol -> (0 < n)%N -> (1 < miter)%N -> (0 < nt)%N -> (gt = "zero" \/ gt = "previous" /\ (n < nt)%N)%string ->
  exists st, @solve_both B nb nt times data temps control ForwardEuler lm rtol atol miter throw gt n init = inl st /\ i_warned st = [::].
Proof.
move=> HB a0 n0 mi nt0 hg; apply: feG_const_never_fails => // k k0 kn.
set len := slice_len _ _ _; pose tb := block_times (time_table nb times (k - 1)%N) (fun j => time_table nb times (k + j)%N).
pose G := both_G (B := B) (nb := nb) nt times data temps control len.+1 tb.
have GE Y Y' j b : (G Y).1 j b = (G Y').1 j b.
{ rewrite /G /both_G /Models.both_forward (@StressR.sb_forward_ext _ _ _ _ _ _ (pt_y Y) (pt_y Y')) => [|i]; last exact: (pt_set0 m1).
  case: Models.sb_forward => [[r J]|//]; rewrite /unflatten !ffunE; apply/colP => i; rewrite !mxE /Models.masked.
  by case: Req_EM_T => // _; case: Req_EM_T => // _ /=; rewrite (ord_m1 m1); case: (HB (pt_t tb (j * nb + b)) (pt_y Y (j * nb + b)) (pt_y Y' (j * nb + b)) (pt_rate nt times data tb (j * nb + b)) (pt_temp nt times temps tb (j * nb + b))). }
have GJ Y j b : (G Y).2 j b = 0.
{ rewrite /G /both_G /Models.both_forward.
  have [r /Models.sb_forward_of ->] := Models.sb_forward_some B (len.+1 * nb) (pt_t tb) (pt_base nt times data tb) (pt_rate nt times data tb) (pt_temp nt times temps tb) (pt_y Y).
  rewrite /unflatten !ffunE; apply/matrixP => i i'; rewrite !mxE /Models.masked.
  case: Req_EM_T => // _ /=; first by rewrite /Models.sb_jac (ord_m1 m1 i').
  case: Req_EM_T => // _ /=; rewrite !(ord_m1 m1).
  by case: (HB (pt_t tb (j * nb + b)) (pt_y Y (j * nb + b)) (pt_y Y (j * nb + b)) (pt_rate nt times data tb (j * nb + b)) (pt_temp nt times temps tb (j * nb + b))). }
exists (fun k' b => (G (fun _ => @zeroV RF nb m)).1 k' b) => Y j b jl.
by split; [exact: GE|exact: GJ].
Qed.
End NoHistory.
