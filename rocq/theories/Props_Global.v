(** C120: perfectly viscoplastic simulations always succeed when enough Newton iterations are allowed. *)
From Coq Require Import Reals List String Lra FunctionalExtensionality.
From mathcomp Require Import all_ssreflect all_algebra.
From Verif Require Import ChunkModel ChunkSolve ChunkInst NewtonModel Ode OdeForward OdeReal OdeBlock RField Pipeline PipelineBoth Props_Stress NewtonScalar NewtonGlobal PowerTangent.
Import GRing.Theory.
Set Implicit Arguments. Unset Strict Implicit. Unset Printing Implicit Defensive.
Local Open Scope ring_scope.
Delimit Scope R_scope with Re.

Lemma odd_convex_0 : odd_convex (fun _ => 0%Re) (fun _ => 0%Re).
Proof. split; [|split; [|split]] => *; lra. Qed.

Section Both.
Variables (E pn eta : R -> R).
Let B := Models.inelastic E (Flow.perfect pn eta).
Variables (nb nt : nat) (times data temps : nat -> nat -> R) (control : nat -> R).
Hypothesis Gr : times_increase nb nt times.
Hypothesis par : forall k b, (k < nt)%N -> (b < nb)%N -> (0 < E (temps k b) /\ 0 < eta (temps k b) /\ 1 <= pn (temps k b))%Re.

Lemma both_scalar k n : (0 < k)%N -> (k < nt)%N -> let len := slice_len nt k (k + n) in
     let ts j := time_table nb times (k + j)%N in let tb := block_times (time_table nb times (k - 1)%N) ts in
     exists a p dp, scalar_block (@both_G B nb nt times data temps control) len (time_table nb times (k - 1)%N) ts a p dp /\
     (forall j b, (0 < j)%N -> (j <= len)%N -> odd_convex (p j b) (dp j b)) /\
     forall j b, (j < len)%N -> (0 <= tb j.+1 b - tb j b)%Re.
Proof.
move=> k0 kn len ts tb.
pose T j (b : 'I_nb) : R := interp_at nt times temps b (tb j b).
pose e j (b : 'I_nb) : R := interp_at nt times (table_rates times data) b (tb j b).
pose G := @both_G B nb nt times data temps control len.+1 tb.
pose isS (b : 'I_nb) := if Req_EM_T (control b) 1 then true else false.
pose isE (b : 'I_nb) := if Req_EM_T (control b) 0 then true else false.
pose fl j (b : 'I_nb) (s : R) : R := Flow.fl_rate (Flow.perfect pn eta) s Slices.vzero (tb j b) (T j b) (e j b).
pose ds j (b : 'I_nb) (s : R) : R := Flow.fl_ds (Flow.perfect pn eta) s Slices.vzero (tb j b) (T j b) (e j b).
pose strained b := ~~ isS b && isE b.
exists (fun j b => if strained b then (E (T j b) * e j b)%Re else (G (fun _ => @zeroV RF nb 1)).1 j b ord0 ord0),
  (fun j b s => if strained b then (E (T j b) * fl j b s)%Re else 0%Re), (fun j b s => if strained b then (E (T j b) * ds j b s)%Re else 0%Re).
split; [|split].
- move=> Y j b j0 jl; rewrite -/tb -/(G Y).
  have y0 : to_vec (B := B) (Y j b) 0%N = Y j b ord0 ord0 by exact: (@to_vecE B (Y j b) (ord0 : 'I_(Models.rf_n B))).
  split.
  + apply/colP => i; rewrite [RHS]mxE ord1 /strained.
    rewrite /G /both_G /Models.both_forward (@StressR.sb_forward_ext _ _ _ _ _ _ (pt_y (B := B) Y) (pt_y (B := B) (fun _ => @zeroV RF nb 1))) => [|i']; last exact: pt_set0.
    have [r /Models.sb_forward_of ->] := Models.sb_forward_some B (len.+1 * nb) (pt_t tb) (pt_base nt times data tb) (pt_rate nt times data tb) (pt_temp nt times temps tb) (pt_y (B := B) (fun _ => @zeroV RF nb 1)).
    rewrite /unflatten /Models.masked !ffunE !mxE !pt_b /isS /isE.
    case: (Req_EM_T (control b) 1) => ?; first by rewrite /= Rminus_0_r.
    case: (Req_EM_T (control b) 0) => ?; last by rewrite /= Rminus_0_r.
    rewrite /Models.strain_forward /= pt_yE /= /Slices.cat /= y0 ?pt_rateE pt_tempE -/(T j b) -/(e j b); rewrite /fl /=.
    have Fl (a b' c : R) : (a * (b' - c) = a * b' - a * c)%Re by ring. exact: Fl.
  + apply/matrixP => i i'; rewrite [RHS]mxE !ord1 /strained.
    rewrite /G /both_G /Models.both_forward.
    have [r /Models.sb_forward_of ->] := Models.sb_forward_some B (len.+1 * nb) (pt_t tb) (pt_base nt times data tb) (pt_rate nt times data tb) (pt_temp nt times temps tb) (pt_y (B := B) Y).
    rewrite /unflatten /Models.masked !ffunE !mxE !pt_b /isS /isE.
    case: (Req_EM_T (control b) 1) => ?; first by rewrite /= /Models.sb_jac /= Ropp_0.
    case: (Req_EM_T (control b) 0) => ?; last by rewrite /= Ropp_0.
    rewrite /Models.strain_forward /= pt_yE /= /Slices.cat /= y0 ?pt_rateE pt_tempE -/(T j b) -/(e j b); rewrite /ds /=.
    have Fl (a c : R) : (- a * c = - (a * c))%Re by ring. exact: Fl.
- move=> [//|j] b _ jl; rewrite /strained; case: (~~ isS b && isE b); last exact: odd_convex_0.
  have kj : (k + j < nt)%N.
  { have : (k + j < minn (k + n) nt)%N by rewrite -(slice_len_add n (ltnW kn)) ltn_add2l. by rewrite leq_min => /andP[]. }
  have [p1 [p2 p3]] := par kj (ltn_ord b).
  have TE : T j.+1 b = temps (k + j)%N b.
  { rewrite /T /tb /= ffunE (@interp_knot nb) //; exact: leq_ltn_trans kn. }
  apply: perfect_odd_convex; rewrite ?TE //; lra.
- move=> j b jl; have kj : (k + j < nt)%N.
  { have : (k + j < minn (k + n) nt)%N by rewrite -(slice_len_add n (ltnW kn)) ltn_add2l. by rewrite leq_min => /andP[]. }
  have := @dt_pos nb nt times (k + j)%N b (ltn_ord b) Gr ltac:(by rewrite addn_gt0 k0) kj.
  rewrite /tb; case: j jl kj => [|j] jl kj /=; rewrite !ffunE ?addn0 ?addnS ?subn1 /=; lra.
Qed.
End Both.

(** A perfectly viscoplastic material (exponent at least one, positive modulus and viscosity at the tabulated temperatures) under any mixture
    of strain and stress control on increasing times: for every block size, linear solver, initial guess and pair of tolerances with a
    positive absolute one there is a number of iterations from which on the run always succeeds, without a warning, and with the same result. *)
Theorem C120_mixed_control (E pn eta : R -> R) nb nt (times data temps : nat -> nat -> R) (control : nat -> R) lm rtol atol throw gt n init :
  let B := Models.inelastic E (Flow.perfect pn eta) in
  times_increase nb nt times ->
  (forall k b, (k < nt)%N -> (b < nb)%N -> (0 < E (temps k b) /\ 0 < eta (temps k b) /\ 1 <= pn (temps k b))%Re) ->
  (0 < atol)%Re -> (0 < n)%N -> (0 < nt)%N -> (gt = "zero" \/ gt = "previous" /\ (n < nt)%N)%string ->
  exists N st, forall miter, (N < miter)%N ->
    @solve_both B nb nt times data temps control BackwardEuler lm rtol atol miter throw gt n init = inl st /\ i_warned st = [::].
Proof.
move=> B Gr par a0 n0 nt0 hg; apply: (@scalar_run_ok nb (@both_G B nb nt times data temps control)) => // k k0 kn.
exact: (@both_scalar E pn eta nb nt times data temps control Gr par k n k0 kn).
Qed.
Print Assumptions C120_mixed_control.
Theorem C120_strain_control (E pn eta : R -> R) nb nt (times strains temps : nat -> nat -> R) lm rtol atol throw gt n init :
  let B := Models.inelastic E (Flow.perfect pn eta) in
  times_increase nb nt times ->
  (forall k b, (k < nt)%N -> (b < nb)%N -> (0 < E (temps k b) /\ 0 < eta (temps k b) /\ 1 <= pn (temps k b))%Re) ->
  (0 < atol)%Re -> (0 < n)%N -> (0 < nt)%N -> (gt = "zero" \/ gt = "previous" /\ (n < nt)%N)%string ->
  exists N st, forall miter, (N < miter)%N ->
    @solve_strain B nb nt times strains temps BackwardEuler lm rtol atol miter throw gt n init = inl st /\ i_warned st = [::].
Proof.
move=> B Gr par a0 n0 nt0 hg.
have [N [st H]] := @C120_mixed_control E pn eta nb nt times strains temps (fun _ => 0%Re) lm rtol atol throw gt n init Gr par a0 n0 nt0 hg.
exists N, st => miter mN; rewrite -(@C90_all_strain B nb nt times strains temps (fun _ => 0%Re)) //; exact: H.
Qed.
Print Assumptions C120_strain_control.

(** If no point before the limit passes the test, the solve fails. *)
Lemma newton_stuck (X RT JT : Type) (fn : X -> RT * JT) (nrm : RT -> list ext) rtol atol step sub miter throw x0 :
  (forall j, (j <= miter)%N -> keep_going rtol atol (NewtonProofs.norms fn nrm (NewtonProofs.point fn step sub x0 j)) (NewtonProofs.norms fn nrm x0) = true) ->
  exists r, newton_raphson_chunk fn nrm rtol atol step sub miter throw x0 = if throw then Raised else Warned r.
Proof.
move=> H; have := NewtonProofs.nr_solve_spec fn nrm rtol atol step sub miter x0; rewrite /newton_raphson_chunk.
set r := nr_solve _ _ _ _ _ _ _ _; cbv zeta => -[H1 [H2 [_ [_ [_ [_ HF]]]]]]; exists r.
case: Nat.eqb_spec => e; first by case: throw.
have lt : (res_iters r < miter)%coq_nat by apply/ltP; rewrite ltn_neqAle; apply/andP; split; [exact/eqP|exact/leP].
have := HF lt; by rewrite H2 H //; apply: ltnW; apply/ltP.
Qed.

Lemma nrmR_len nb m n v v' : List.length (nrmR nb m n v) = List.length (nrmR nb m n v').
Proof. by rewrite /nrmR; elim: (iota 0 nb) => //= b l ->. Qed.
Lemma loop_step nb m G s lm nrm rtol atol miter throw fuel gt n nt t k (st : istate RF nb m) :
  int_loopG G s lm nrm rtol atol miter throw fuel.+1 gt n nt t k st =
  if (k < nt)%N then match int_stepG G s lm nrm rtol atol miter throw gt n nt t k st with
    inl st' => int_loopG G s lm nrm rtol atol miter throw fuel gt n nt t (k + n) st' | inr e => inr e end else inl st.
Proof. by []. Qed.
Lemma loop_done nb m G s lm nrm rtol atol miter throw fuel gt n nt t k (st : istate RF nb m) : (nt <= k)%N ->
  int_loopG G s lm nrm rtol atol miter throw fuel gt n nt t k st = inl st.
Proof. by move=> h; case: fuel => [|fuel]; rewrite /= ltnNge h. Qed.

Section NoLimit.
Variables (c : R) (lm : lin_method) (rtol atol : R) (miter : nat).
Let B := Models.inelastic (fun _ => 1%Re) (Flow.perfect (fun _ => 2%Re) (fun _ => 1%Re)).
Let tt (k b : nat) : R := INR k.
Let ee (k b : nat) : R := (INR k * c)%Re.
Let TT (k b : nat) : R := 0%Re.
Hypothesis c0 : (0 < c)%Re.
Hypothesis big : (9 * 2 ^ miter * 2 ^ miter <= c)%Re.
Hypotheses (ca : (atol < c)%Re) (cr : (rtol < 1)%Re).
Let G := fun (_ : nat) (ts : nat -> TB RF 1) y => (func_rate (@strain_f B 1 2 tt ee TT) ts y, func_jac (@strain_J B 1 2 tt ee TT) ts y).
Let p (s : R) : R := (1 * Flow.fl_rate (Flow.perfect (fun _ => 2%Re) (fun _ => 1%Re)) s Slices.vzero 0 0 0)%Re.
Let dp (s : R) : R := (1 * Flow.fl_ds (Flow.perfect (fun _ => 2%Re) (fun _ => 1%Re)) s Slices.vzero 0 0 0)%Re.
Let t0 := time_table 1 tt 0%N.
Let ts (j : nat) := time_table 1 tt (1 + j)%N.

Lemma nl_grid : times_increase 1 2 tt.
Proof. move=> b _ i j ij _; exact: lt_INR. Qed.
Lemma nl_block : scalar_block G 1 t0 ts (fun _ _ => c) (fun _ _ => p) (fun _ _ => dp).
Proof.
move=> Y [//|[|//]] b _ _; rewrite /G /=.
have y0 (y : 'cV[RF]_1) : to_vec (B := B) y 0%N = y ord0 ord0 by exact: (@to_vecE B y (ord0 : 'I_(Models.rf_n B))).
have tE : ts 0%N b = tt 1%N b by rewrite /ts ffunE.
have eE : interp_at 2 tt (table_rates tt ee) b (ts 0%N b) = c.
{ rewrite tE (@interp_knot 1) //; last exact: nl_grid. rewrite (@rates_knot 1 2) //; last exact: nl_grid. rewrite /step_rate /ee /tt /=; field. }
split; [apply/colP => i|apply/matrixP => i j]; rewrite /func_rate /func_jac ffunE [LHS]mxE [RHS]mxE (ord1 i) ?(ord1 j) -[block_times t0 ts 1]/(ts 0%N) eE /= /Slices.cat /= y0 /p /dp /=.
- have Fl (u v : R) : (1 * (u - v) = u - 1 * v)%Re by ring. exact: Fl.
- have Fl (u : R) : (- (1) * u = - (1 * u))%Re by ring. exact: Fl.
Qed.

Let rfn := block_RJG G BackwardEuler 1 t0 ts (zeroV RF 1 1).
Let x0 : tens2 RF := @flat RF 1 1 (fun j => if (j < 1)%N then zeroV RF 1 1 else zeroV RF 1 1).
Let pt j := NewtonProofs.point rfn (block_linsolve lm 1) (@tsub RF) x0 j.
Let b0 : 'I_1 := ord0.
Lemma nl_dt : dtk t0 ts 0 b0 = 1%Re.
Proof. rewrite /dtk /= !ffunE /tt /=; ring. Qed.
Lemma nl_residual j : (j <= miter)%N -> (c <= Rabs (sres t0 ts (zeroV RF 1 1) (fun _ _ => c) (fun _ _ => p) (pt j) 0 b0))%Re.
Proof.
move=> jm; rewrite /sres nl_dt sv0 ffunE mxE.
pose s j := sv (zeroV RF 1 1) (pt j) 1 b0.
have -> : (s j - 0%R - 1 * (c - p (s j)) = s j + p (s j) - c)%Re.
{ have Fl (u v w : R) : (u - 0 - 1 * (v - w) = u + w - v)%Re by ring. exact: Fl. }
apply: (@square_newton c s c0 _ _ miter big j); last exact/leP.
- by rewrite /s /sv /pt /= /x0 !blkV_flat !ffunE !mxE addr0.
- move=> i; have oc : odd_convex p dp.
  { exact: (perfect_odd_convex 1 (fun _ => 2%Re) (fun _ => 1%Re) Slices.vzero 0 0 0 ltac:(lra) ltac:(lra) ltac:(lra)). }
  have := @sc_update 1 G 1 t0 ts (zeroV RF 1 1) _ _ _ nl_block (fun _ _ _ _ => oc) _ isT lm (pt i) 0 b0 isT.
  rewrite nl_dt sv0 ffunE mxE => H.
  have {H} := H ltac:(by move=> [|//] b _; rewrite (ord1 b); have := nl_dt; rewrite /dtk => ->; lra).
  rewrite (_ : (0%R + 1 * c)%Re = c) //. have Fl (u : R) : (0 + 1 * u = u)%Re by ring. exact: Fl.
Qed.
Lemma nl_norm j (v := fst (rfn (pt j))) : (sqrt (sumsq (1 * 1) (v b0)) = Rabs (sres t0 ts (zeroV RF 1 1) (fun _ _ => c) (fun _ _ => p) (pt j) 0 b0))%Re.
Proof.
have := @sres_eq 1 G 1 t0 ts (zeroV RF 1 1) _ _ _ nl_block (pt j) 0 b0 isT.
move=> /(congr1 (fun M : 'cV[RF]_1 => M ord0 ord0)); rewrite mxE ffunE mxE => h.
rewrite /sumsq muln1 big_ord1 -h; exact: sqrt_Rsqr_abs.
Qed.
Lemma nl_norm0 : sqrt (sumsq (1 * 1) (fst (rfn x0) b0)) = c.
Proof.
have s0 : sv (zeroV RF 1 1) x0 1 b0 = 0%Re by rewrite /sv /= /x0 !blkV_flat !ffunE !mxE addr0.
apply: etrans (nl_norm 0) _; rewrite -[pt 0]/x0 /sres nl_dt sv0 ffunE mxE s0 /p /= Torch.tsign_0.
have Fl (u q : R) : (0 - 0 - 1 * (u - 1 * (q * 0)) = - u)%Re by ring.
apply: etrans (congr1 Rabs (Fl _ _)) _; rewrite Rabs_Ropp; exact: Rabs_pos_eq (Rlt_le _ _ c0).
Qed.
Lemma nl_going j : (j <= miter)%N -> keep_going rtol atol (NewtonProofs.norms rfn (nrmR 1 1 1) (pt j)) (NewtonProofs.norms rfn (nrmR 1 1 1) x0) = true.
Proof.
move=> jm; apply: Bool.not_false_is_true => K.
have [al|rl] := NewtonProofs.keep_going_false rtol atol _ _ (nrmR_len 1 1 1 _ _) (nrmR_nonan 1 1 1 _) (nrmR_finite 1 1 1 _) K.
- have := nrmR_all_le al (ltn_ord b0); rewrite nl_norm => h; have := nl_residual jm; lra.
- have h := nrmR_all_le_rel rl (ltn_ord b0).
  have h' := Rle_trans _ _ _ (Req_le _ _ (esym (nl_norm j))) h.
  have h2 : (rtol * sqrt (sumsq (1 * 1) (fst (rfn x0) b0)) = rtol * c)%Re := congr1 (Rmult rtol) nl_norm0.
  have h3 := Rle_trans _ _ _ h' (Req_le _ _ h2).
  have := nl_residual jm; have := Rmult_lt_compat_r c rtol 1 c0 cr; lra.
Qed.
Lemma nl_run throw n init : (0 < n)%N ->
  exists st, i_warned st = [:: (1, 1)%N] /\
  @solve_strain B 1 2 tt ee TT BackwardEuler lm rtol atol miter throw "zero" n init = if throw then inr ErrSolve else inl st.
Proof.
move=> n0; rewrite /solve_strain -integrateG_pointwise /integrateG -/G (gtn_eqF (ltn0Sn 1)) (gtn_eqF n0).
have sl : slice_len 2 1 (1 + n) = 1%N by rewrite /slice_len; case: (n) n0 => // n' _; rewrite add1n minnC /minn; case: ifP.
have [r H] := newton_stuck throw nl_going.
have E : @block_updateG RF 1 1 G BackwardEuler lm (nrmR 1 1) rtol atol miter throw 1 (time_table 1 tt 0%N) ts (zeroV RF 1 1) x0 =
  (if throw then Raised else Warned (fun k => addV (blkV 1 1 (res_x r) k) (zeroV RF 1 1))) by rewrite /block_updateG -/rfn H; case: (throw).
exists {| i_result := fun j => if (1 <= j < 1 + 1)%N then addV (blkV 1 1 (res_x r) (j - 1)%N) (zeroV RF 1 1) else if j == 0%N then zeroV RF 1 1 else init j;
  i_writes := [:: 0%N; 1%N]; i_warned := [:: (1, 1)%N] |}; split=> //.
rewrite loop_step /int_stepG guess_zero sl eqxx [~~ true]/= -[(1 - 1)%N]/0%N.
have -> : @flat RF 1 1 (fun j => if (j < 1)%N then zeroV RF 1 1 else zeroV RF 1 1) = x0 by [].
rewrite E; case: (throw) => //; apply: (@loop_done 1 1 G); by case: (n) n0.
Qed.
End NoLimit.

(** No fixed number of iterations is enough: for every limit and tolerances (relative one below 1) there is a single loading step of a
    square-law material that needs more, and the run raises or warns. *)
Theorem C120_no_fixed_limit lm rtol atol miter n init : (rtol < 1)%Re -> (0 < n)%N ->
  exists c : R, (0 < c)%Re /\ forall throw, exists st, i_warned st = [:: (1, 1)%N] /\
  @solve_strain (Models.inelastic (fun _ => 1%Re) (Flow.perfect (fun _ => 2%Re) (fun _ => 1%Re))) 1 2 (fun k _ => INR k) (fun k _ => (INR k * c)%Re) (fun _ _ => 0%Re)
    BackwardEuler lm rtol atol miter throw "zero" n init = if throw then inr ErrSolve else inl st.
Proof.
move=> r1 n0; pose c := (9 * 2 ^ miter * 2 ^ miter + Rabs atol + 1)%Re.
have p2 : (0 < 2 ^ miter)%Re by apply: pow_lt; lra.
have p4 := Rmult_lt_0_compat _ _ p2 p2; have ab := Rabs_pos atol; have al := Rle_abs atol.
have c0 : (0 < c)%Re by rewrite /c; lra.
exists c; split=> // throw; apply: nl_run => //; rewrite /c; lra.
Qed.
Print Assumptions C120_no_fixed_limit.

(** The hypotheses of C120_mixed_control are met: two entries, one strain and one stress controlled, with the defaults of ode.py. *)
Example C120_ex : exists N st, forall miter, (N < miter)%N ->
  @solve_both (Models.inelastic (fun _ => 200%Re) (Flow.perfect (fun _ => 5%Re) (fun _ => 100%Re))) 2 9 (fun k _ => INR k) (fun k b => (INR k * INR b.+1)%Re) (fun _ _ => 300%Re)
    INR BackwardEuler (Direct Thomas) (1 / 10 ^ 6) (1 / 10 ^ 8) miter true "zero" 3 (fun _ => zeroV RF 2 1) = inl st /\ i_warned st = [::].
Proof.
apply: C120_mixed_control => //; try (by left); try lra.
- by move=> b _ i j ij _; apply: lt_INR.
- by move=> k b _ _; lra.
Qed.
