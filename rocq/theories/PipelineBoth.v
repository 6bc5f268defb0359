(** ModelIntegrator.solve_stress and solve_both, models.py 298-333 and 370-412: rates from the
    table, interpolators, StressBasedModel/BothBasedModel and the block integrator put
    together.  The stress-controlled models solve for the strain rates of all the points of a
    block at once, so the integrator is the one of OdeBlock.v. *)
From Coq Require Import Reals List String Lra FunctionalExtensionality.
From mathcomp Require Import all_ssreflect all_algebra.
From Verif Require Import ChunkModel ChunkSolve ChunkInst NewtonModel NewtonProofs Ode OdeForward
  ZmodTac RField OdeReal OdeBlock Pipeline.
From Verif Require Interp Models Flow Damage Slices PipelineR StressR.
Import GRing.Theory.
Set Implicit Arguments. Unset Strict Implicit. Unset Printing Implicit Defensive.
Local Open Scope ring_scope.

Section Both.
Variable B : Models.rateform.
Notation m := (Models.rf_n B).
Variables (nb nt : nat).
(** data: the controlled quantity (idata in solve_both, stresses in solve_stress);
    control: one flag per batch entry *)
Variables (times data temps : nat -> nat -> R) (control : nat -> R).

(** The (rows, nbatch) points of a call in the order of the flattened tensor: point
    [k * nb + b] is row k of batch entry b. *)
Definition pt_t (ts : nat -> TB RF nb) (i : nat) : R := if insub (i %% nb)%N is Some b then ts (i %/ nb)%N b else R0.
Definition pt_y (Y : nat -> VB RF nb m) (i : nat) : Slices.vec :=
  if insub (i %% nb)%N is Some b then to_vec (Y (i %/ nb)%N b) else Slices.vzero.
(** the three interpolators, models.py 308-322 and 387-402 *)
Definition pt_rate ts i : R := interp_at nt times (table_rates times data) (i %% nb)%N (pt_t ts i).
Definition pt_base ts i : R := interp_at nt times data (i %% nb)%N (pt_t ts i).
Definition pt_temp ts i : R := interp_at nt times temps (i %% nb)%N (pt_t ts i).
(** back to (rows, nbatch) tensors *)
Definition unflatten (o : option ((nat -> Slices.vec) * (nat -> Slices.mat))) : (nat -> VB RF nb m) * (nat -> MB RF nb m) :=
  match o with
  | Some (r, J) => (fun k => [ffun b : 'I_nb => \col_i (r (k * nb + b)%N i : RF)],
                    fun k => [ffun b : 'I_nb => \matrix_(i, j) (J (k * nb + b)%N i j : RF)])
  | None => (fun _ => [ffun=> 0], fun _ => [ffun=> 0])
  end.

(** BothBasedModel.forward, models.py 451-475 *)
Definition both_G (rows : nat) (ts : nat -> TB RF nb) (Y : nat -> VB RF nb m) :=
  unflatten (Models.both_forward B (rows * nb) (fun i => control (i %% nb)%N) (pt_t ts) (pt_rate ts) (pt_base ts) (pt_temp ts) (pt_y Y)).
(** StressBasedModel.forward, models.py 521-562 *)
Definition stress_G (rows : nat) (ts : nat -> TB RF nb) (Y : nat -> VB RF nb m) :=
  unflatten (Models.sb_forward B (rows * nb) (pt_t ts) (pt_base ts) (pt_rate ts) (pt_temp ts) (pt_y Y)).

(** models.py 298-333 *)
Definition solve_both (s : scheme) (lm : lin_method) (rtol atol : R) (miter : nat) (throw : bool) (gt : string) (n : nat)
    (init : nat -> VB RF nb m) : istate RF nb m + ode_error :=
  integrateG both_G s lm (nrmR nb m) rtol atol miter throw gt n nt (time_table nb times) (@zeroV RF nb m) init.
(** models.py 370-412 *)
Definition solve_stress (s : scheme) (lm : lin_method) (rtol atol : R) (miter : nat) (throw : bool) (gt : string) (n : nat)
    (init : nat -> VB RF nb m) : istate RF nb m + ode_error :=
  integrateG stress_G s lm (nrmR nb m) rtol atol miter throw gt n nt (time_table nb times) (@zeroV RF nb m) init.

(** ** points *)
Lemma pt_b k (b : 'I_nb) : ((k * nb + b) %% nb)%N = b.
Proof. by rewrite modnMDl modn_small. Qed.
Lemma pt_k k (b : 'I_nb) : ((k * nb + b) %/ nb)%N = k.
Proof.
have h : (0 < nb)%N by exact: leq_ltn_trans (ltn_ord b).
by rewrite divnMDl // divn_small // addn0.
Qed.
Lemma pt_tE ts k (b : 'I_nb) : pt_t ts (k * nb + b)%N = ts k b.
Proof. by rewrite /pt_t pt_b pt_k valK. Qed.
Lemma pt_yE Y k (b : 'I_nb) : pt_y Y (k * nb + b)%N = to_vec (Y k b).
Proof. by rewrite /pt_y pt_b pt_k valK. Qed.
Lemma pt_rateE ts k (b : 'I_nb) : pt_rate ts (k * nb + b)%N = interp_at nt times (table_rates times data) b (ts k b).
Proof. by rewrite /pt_rate pt_tE pt_b. Qed.
Lemma pt_baseE ts k (b : 'I_nb) : pt_base ts (k * nb + b)%N = interp_at nt times data b (ts k b).
Proof. by rewrite /pt_base pt_tE pt_b. Qed.
Lemma pt_tempE ts k (b : 'I_nb) : pt_temp ts (k * nb + b)%N = interp_at nt times temps b (ts k b).
Proof. by rewrite /pt_temp pt_tE pt_b. Qed.

(** ** all entries under the same control *)
Lemma both_all_strain rows ts Y : (forall b, (b < nb)%N -> control b = R0) ->
  both_G rows ts Y = (func_rate (strain_f (B := B) (nb := nb) nt times data temps) ts Y,
                      func_jac (strain_J (B := B) (nb := nb) nt times data temps) ts Y).
Proof.
move=> C; rewrite /both_G /Models.both_forward.
have [r /Models.sb_forward_of ->] := Models.sb_forward_some B (rows * nb) (pt_t ts) (pt_base ts) (pt_rate ts) (pt_temp ts) (pt_y Y).
rewrite /unflatten /Models.masked; congr (_, _); apply: functional_extensionality => k; apply/ffunP => b; rewrite !ffunE.
- apply/colP => i; rewrite !mxE pt_b C ?ltn_ord //.
  case: Req_EM_T => [e|_]; first by have := R1_neq_R0; rewrite -e.
  case: Req_EM_T => // _ /=; by rewrite pt_tE pt_yE pt_rateE pt_tempE.
- apply/matrixP => i j; rewrite !mxE pt_b C ?ltn_ord //.
  case: Req_EM_T => [e|_]; first by have := R1_neq_R0; rewrite -e.
  case: Req_EM_T => // _ /=; by rewrite pt_tE pt_yE pt_rateE pt_tempE.
Qed.
Lemma both_all_stress rows ts Y : (forall b, (b < nb)%N -> control b = R1) -> both_G rows ts Y = stress_G rows ts Y.
Proof.
move=> C; rewrite /both_G /stress_G /Models.both_forward.
case: Models.sb_forward => [[r J]|//].
rewrite /unflatten /Models.masked; congr (_, _); apply: functional_extensionality => k; apply/ffunP => b; rewrite !ffunE.
- by apply/colP => i; rewrite !mxE pt_b C ?ltn_ord //; case: Req_EM_T.
- by apply/matrixP => i j; rewrite !mxE pt_b C ?ltn_ord //; case: Req_EM_T.
Qed.

(** ** a row of a call whose times are knots of the table and whose states are [Z] *)
Section Row.
Variables (ts : nat -> TB RF nb) (Y : nat -> VB RF nb m) (rows k0 : nat) (Z : nat -> VB RF nb m).
Hypotheses (n2 : (1 < nt)%N) (Gr : grid_ok nb nt times) (Hts : forall j, (j < rows)%N -> ts j = time_table nb times (k0 + j)%N)
  (HY : forall j, (j < rows)%N -> Y j = Z (k0 + j)%N) (Hr : (k0 + rows <= nt)%N).

Lemma row_lt j : (j < rows)%N -> (k0 + j < nt)%N.
Proof. by move=> jr; apply: leq_trans Hr; rewrite ltn_add2l. Qed.
Lemma row_t j (b : 'I_nb) : (j < rows)%N -> pt_t ts (j * nb + b)%N = times (k0 + j)%N b.
Proof. by move=> jr; rewrite pt_tE Hts // ffunE. Qed.
Lemma row_y j (b : 'I_nb) : (j < rows)%N -> pt_y Y (j * nb + b)%N = to_vec (Z (k0 + j)%N b).
Proof. by move=> jr; rewrite pt_yE HY. Qed.
Lemma row_rate j (b : 'I_nb) : (j < rows)%N -> pt_rate ts (j * nb + b)%N = table_rates times data (k0 + j)%N b.
Proof. by move=> jr; rewrite /pt_rate row_t // pt_b (@interp_knot nb) // row_lt. Qed.
Lemma row_base j (b : 'I_nb) : (j < rows)%N -> pt_base ts (j * nb + b)%N = data (k0 + j)%N b.
Proof. by move=> jr; rewrite /pt_base row_t // pt_b (@interp_knot nb) // row_lt. Qed.
Lemma row_temp j (b : 'I_nb) : (j < rows)%N -> pt_temp ts (j * nb + b)%N = temps (k0 + j)%N b.
Proof. by move=> jr; rewrite /pt_temp row_t // pt_b (@interp_knot nb) // row_lt. Qed.

Lemma both_row_strain j (b : 'I_nb) : (j < rows)%N -> control b = R0 ->
  (both_G rows ts Y).1 j b = \col_i (Models.rf_rate B (times (k0 + j)%N b) (to_vec (Z (k0 + j)%N b))
     (table_rates times data (k0 + j)%N b) (temps (k0 + j)%N b) i : RF).
Proof.
move=> jr C; rewrite /both_G /Models.both_forward.
have [r /Models.sb_forward_of ->] := Models.sb_forward_some B (rows * nb) (pt_t ts) (pt_base ts) (pt_rate ts) (pt_temp ts) (pt_y Y).
rewrite /unflatten /Models.masked ffunE; apply/colP => i; rewrite !mxE pt_b C.
case: Req_EM_T => [e|_]; first by have := R1_neq_R0; rewrite -e.
case: Req_EM_T => // _ /=; by rewrite row_t // row_y // row_rate // row_temp.
Qed.
Lemma both_row_none j (b : 'I_nb) : (j < rows)%N -> control b <> R0 -> control b <> R1 -> (both_G rows ts Y).1 j b = 0.
Proof.
move=> jr C C'; rewrite /both_G /Models.both_forward.
case: Models.sb_forward => [[r J]|]; last by rewrite /= ffunE.
rewrite /unflatten /Models.masked ffunE; apply/colP => i; rewrite !mxE pt_b.
by case: Req_EM_T => // _; case: Req_EM_T.
Qed.
(** the strain rates of the inner solve, when the model is affine at every point *)
Lemma stress_rows : (forall j (b : 'I_nb), (j < rows)%N ->
    StressR.affine_at B (times (k0 + j)%N b) (Models.set0 (data (k0 + j)%N b) (to_vec (Z (k0 + j)%N b))) (temps (k0 + j)%N b)) ->
  exists er : nat -> 'I_nb -> R, forall j (b : 'I_nb), (j < rows)%N ->
    Rle (Rabs (Rminus (Models.rf_rate B (times (k0 + j)%N b) (Models.set0 (data (k0 + j)%N b) (to_vec (Z (k0 + j)%N b))) (er j b) (temps (k0 + j)%N b) 0%N)
               (table_rates times data (k0 + j)%N b))) (Rinv (pow 10 10)) /\
    let r := \col_i (Models.sb_rate B (times (k0 + j)%N b) (to_vec (Z (k0 + j)%N b)) (data (k0 + j)%N b) (temps (k0 + j)%N b) (er j b) i : RF) in
    (stress_G rows ts Y).1 j b = r /\ (control b = R1 -> (both_G rows ts Y).1 j b = r).
Proof.
move=> A; have [|er [E C]] := StressR.sb_affine_points B (rows * nb) (pt_t ts) (pt_base ts) (pt_rate ts) (pt_temp ts) (pt_y Y).
{ move=> i /ltP ir; have nb0 : (0 < nb)%N by case: (nb) ir => //; rewrite muln0.
  pose b := Ordinal (ltn_pmod i nb0); have jr : (i %/ nb < rows)%N by rewrite ltn_divLR.
  have := A (i %/ nb)%N b jr; rewrite {6}(divn_eq i nb) -[(i %% nb)%N]/(nat_of_ord b).
  rewrite -row_t // -row_y // -row_base // -row_temp // /= -divn_eq //. }
exists (fun j b => er (j * nb + b)%N) => j b jr.
have jn : (j * nb + b < rows * nb)%N.
{ apply: (@leq_trans (j.+1 * nb)); last by rewrite leq_mul2r jr orbT.
  by rewrite mulSn addnC ltn_add2r. }
split.
- case: C => [/(_ (j * nb + b)%N (ltP jn))|[_ /(_ (j * nb + b)%N (ltP jn))]]; rewrite row_t // row_y // row_rate // row_base // row_temp //.
  move=> ->; rewrite Rminus_diag_eq // Rabs_R0; apply: Rlt_le; apply: Rinv_0_lt_compat; apply: pow_lt; lra.
- cbv zeta; split.
  + rewrite /stress_G E /unflatten ffunE; apply/colP => i; rewrite !mxE row_t // row_y // row_base // row_temp //.
  + move=> Cb; rewrite /both_G /Models.both_forward E /unflatten /Models.masked ffunE.
    by apply/colP => i; rewrite !mxE pt_b Cb; case: Req_EM_T => // _ /=; rewrite row_t // row_y // row_base // row_temp.
Qed.
End Row.
End Both.

(** ** Exact runs *)
Section Runs.
Variable B : Models.rateform.
Notation m := (Models.rf_n B).
Variables (nb nt : nat) (times data temps : nat -> nat -> R) (control : nat -> R).
Variables (lm : lin_method) (miter : nat) (throw : bool) (gt : string) (n : nat) (init : nat -> VB RF nb m).

Lemma to_vecO (y : 'cV[RF]_m) i (im : (i < m)%N) : to_vec y i = y (Ordinal im) 0.
Proof. exact: (to_vecE y (Ordinal im)). Qed.
Lemma entryO (st : istate RF nb m) k b i (im : (i < m)%N) : entry st k b i = i_result st k b (Ordinal im) 0.
Proof. exact: to_vecO. Qed.

(** [slope] of the table over step k *)
Notation slope := (step_rate times data).

Lemma block_rows (G : nat -> (nat -> TB RF nb) -> (nat -> VB RF nb m) -> (nat -> VB RF nb m) * (nat -> MB RF nb m)) st :
  integrateG G BackwardEuler lm (nrmR nb m) R0 R0 miter throw gt n nt (time_table nb times) (@zeroV RF nb m) init = inl st ->
  i_warned st = [::] -> forall k, (0 < k)%N -> (k < nt)%N ->
  exists ts Y k0 rows j, [/\ (k0 + rows <= nt)%N, (j < rows)%N, k = (k0 + j)%N,
     (forall j, (j < rows)%N -> ts j = time_table nb times (k0 + j)%N) /\ (forall j, (j < rows)%N -> Y j = i_result st (k0 + j)%N) &
     forall b i, (i < m)%N -> Rminus (entry st k b i) (entry st k.-1 b i) =
        Rmult (Rminus (times k b) (times k.-1 b)) (to_vec ((G rows ts Y).1 j b) i)].
Proof.
move=> E W k kp kn.
have n0 : (0 < n)%N by move: E; rewrite /integrateG; case: eqP => // _; case: eqP => //; rewrite lt0n => /eqP.
pose k0 := block_start n k.
have k0k : (k0 <= k)%N by rewrite /k0 /block_start -[k in (_ < k)%N]prednK // ltnS leq_trunc_div.
have k0n : (k0 < nt)%N by apply: leq_ltn_trans k0k kn.
pose len := slice_len nt k0 (k0 + n).
have kl : (k - k0 < len)%N.
{ rewrite ltn_subLR // /len slice_len_add; last exact: ltnW.
  rewrite leq_min kn andbT /k0 /block_start addSn -mulSnr.
  by rewrite -[k in (k < _)%N](prednK kp) ltnS ltn_ceil. }
have [ts [Y [Hts [HY Res]]]] := @integrateG_exact nb m G BackwardEuler lm R0 R0 miter throw gt n nt (time_table nb times) _ init st erefl erefl E W (k.-1 %/ n)%N k0n.
rewrite -/(block_start n k) -/k0 -/len in Hts HY Res.
have e1 : (k0 - 1 + (k - k0).+1)%N = k by rewrite addnS -addSn subn1 /= subnKC.
have e2 : (k0 - 1 + (k - k0))%N = k.-1 by rewrite -[in RHS]e1 addnS.
have r1 : ts (k - k0).+1 = time_table nb times k by rewrite Hts // e1.
have r2 : ts (k - k0)%N = time_table nb times k.-1 by rewrite Hts ?e2 // ltnW.
have q1 : Y (k - k0).+1 = i_result st k by rewrite HY // e1.
have q2 : Y (k - k0)%N = i_result st k.-1 by rewrite HY ?e2 // ltnW.
exists ts, Y, (k0 - 1)%N, len.+1, (k - k0).+1; split=> //.
- rewrite /len addnS -addSn subn1 prednK // slice_len_add; last exact: ltnW. exact: geq_minr.
- move=> b i im; have := Res (k - k0)%N b kl => /colP/(_ (Ordinal im)).
  rewrite /row_res r1 r2 q1 q2 !ffunE !mxE !entryO to_vecO => H.
  by apply: Rminus_diag_uniq; exact: H.
Qed.

Lemma run_zero (G : nat -> (nat -> TB RF nb) -> (nat -> VB RF nb m) -> (nat -> VB RF nb m) * (nat -> MB RF nb m)) s rtol atol st :
  integrateG G s lm (nrmR nb m) rtol atol miter throw gt n nt (time_table nb times) (@zeroV RF nb m) init = inl st ->
  forall b i, (i < m)%N -> entry st 0 b i = R0.
Proof.
move=> E b i im; have [_ [R0' _]] := integrateG_writes E.
by rewrite entryO R0' ffunE mxE.
Qed.

(** strain-controlled entries of solve_both: the update equations of solve_strain *)
Lemma both_strain_steps st : grid_ok nb nt times ->
  solve_both nt times data temps control BackwardEuler lm R0 R0 miter throw gt n init = inl st -> i_warned st = [::] ->
  forall k (b : 'I_nb) i, (0 < k)%N -> (k < nt)%N -> (i < m)%N -> control b = R0 ->
    Rminus (entry st k b i) (entry st k.-1 b i) =
    Rmult (Rminus (times k b) (times k.-1 b)) (Models.rf_rate B (times k b) (entry st k b) (slope k b) (temps k b) i).
Proof.
move=> Gr E W k b i k0 kn im C.
have [ts [Y [q [rows [j [Hr jr kE [Hts HY] H]]]]]] := block_rows E W k0 kn.
have n2 : (1 < nt)%N by apply: leq_ltn_trans kn.
rewrite H // (both_row_strain data temps n2 Gr Hts HY Hr jr C) -kE (rates_knot data (ltn_ord b) Gr k0 kn).
by rewrite to_vecO mxE.
Qed.

Lemma both_none_steps st : grid_ok nb nt times ->
  solve_both nt times data temps control BackwardEuler lm R0 R0 miter throw gt n init = inl st -> i_warned st = [::] ->
  forall k (b : 'I_nb) i, (0 < k)%N -> (k < nt)%N -> (i < m)%N -> control b <> R0 -> control b <> R1 ->
    entry st k b i = entry st k.-1 b i.
Proof.
move=> Gr E W k b i k0 kn im C C'.
have [ts [Y [q [rows [j [Hr jr kE [Hts HY] H]]]]]] := block_rows E W k0 kn.
have := H b i im; rewrite (both_row_none _ _ _ _ _ _ jr C C') to_vecO mxE Rmult_0_r => Q.
exact: Rminus_diag_uniq.
Qed.

Definition affine_run (st : istate RF nb m) : Prop := forall k (b : 'I_nb), (k < nt)%N ->
  StressR.affine_at B (times k b) (Models.set0 (data k b) (entry st k b)) (temps k b).

(** One stress-controlled step: the state entry 0 (the strain) advances by dt e where the
    strain rate e makes the stress rate the slope of the table to 1e-10; the other entries
    advance with the model's rates at that strain rate and at the tabulated stress. *)
Definition stress_step (st : istate RF nb m) (k : nat) (b : 'I_nb) : Prop := exists e : R,
  let dt := Rminus (times k b) (times k.-1 b) in
  let y := Models.set0 (data k b) (entry st k b) in
  Rle (Rabs (Rminus (Models.rf_rate B (times k b) y e (temps k b) 0%N) (slope k b))) (Rinv (pow 10 10)) /\
  Rminus (entry st k b 0%N) (entry st k.-1 b 0%N) = Rmult dt e /\
  forall i, (0 < i)%N -> (i < m)%N -> Rminus (entry st k b i) (entry st k.-1 b i) = Rmult dt (Models.rf_rate B (times k b) y e (temps k b) i).

Lemma sb_rate_pos t (y : Slices.vec) cs cT er i : (0 < i)%N -> Models.sb_rate B t y cs cT er i = Models.rf_rate B t (Models.set0 cs y) er cT i.
Proof. by case: i. Qed.

Lemma stress_rows_step st k (b : 'I_nb) (g : 'cV[RF]_m) er : (0 < m)%N -> grid_ok nb nt times -> (0 < k)%N -> (k < nt)%N ->

  Rle (Rabs (Rminus (Models.rf_rate B (times k b) (Models.set0 (data k b) (entry st k b)) er (temps k b) 0%N) (table_rates times data k b))) (Rinv (pow 10 10)) ->
  g = \col_i (Models.sb_rate B (times k b) (entry st k b) (data k b) (temps k b) er i : RF) ->
  (forall i, (i < m)%N -> Rminus (entry st k b i) (entry st k.-1 b i) = Rmult (Rminus (times k b) (times k.-1 b)) (to_vec g i)) ->
  stress_step st k b.
Proof.
move=> m0 Gr k0 kn A gE H; exists er; cbv zeta; split; first by rewrite -(rates_knot data (ltn_ord b) Gr k0 kn).
split.
- by rewrite H // gE to_vecO mxE.
- by move=> i i0 im; rewrite H // gE to_vecO mxE /= sb_rate_pos.
Qed.

Lemma both_stress_steps st : (0 < m)%N -> grid_ok nb nt times ->
  solve_both nt times data temps control BackwardEuler lm R0 R0 miter throw gt n init = inl st -> i_warned st = [::] ->
  affine_run st ->
  forall k (b : 'I_nb), (0 < k)%N -> (k < nt)%N -> control b = R1 -> stress_step st k b.
Proof.
move=> m0 Gr E W Aff k b k0 kn C.
have [ts [Y [q [rows [j [Hr jr kE [Hts HY] H]]]]]] := block_rows E W k0 kn.
have n2 : (1 < nt)%N by apply: leq_ltn_trans kn.
have [j' b' j'r|er Q] := @stress_rows B nb nt times data temps control ts Y rows q (i_result st) n2 Gr Hts HY Hr.
  by apply: Aff; apply: leq_trans Hr; rewrite ltn_add2l.
have [Q1 /= [_ /(_ C) Q2]] := Q j b jr; rewrite -kE in Q1 Q2.
exact: (stress_rows_step m0 Gr k0 kn Q1 Q2 (H b)).
Qed.

Lemma stress_steps st : (0 < m)%N -> grid_ok nb nt times ->
  solve_stress nt times data temps BackwardEuler lm R0 R0 miter throw gt n init = inl st -> i_warned st = [::] ->
  affine_run st ->
  forall k (b : 'I_nb), (0 < k)%N -> (k < nt)%N -> stress_step st k b.
Proof.
move=> m0 Gr E W Aff k b k0 kn.
have [ts [Y [q [rows [j [Hr jr kE [Hts HY] H]]]]]] := block_rows E W k0 kn.
have n2 : (1 < nt)%N by apply: leq_ltn_trans kn.
have [j' b' j'r|er Q] := @stress_rows B nb nt times data temps control ts Y rows q (i_result st) n2 Gr Hts HY Hr.
  by apply: Aff; apply: leq_trans Hr; rewrite ltn_add2l.
have [Q1 /= [Q2 _]] := Q j b jr; rewrite -kE in Q1 Q2.
exact: (stress_rows_step m0 Gr k0 kn Q1 Q2 (H b)).
Qed.
End Runs.

(** ** Models whose only state is the controlled one *)
Section NoHistory.
Variable B : Models.rateform.
Notation m := (Models.rf_n B).
Hypothesis m1 : m = 1%N.
Variables (nb nt : nat) (times data temps : nat -> nat -> R) (control : nat -> R).

Lemma pt_set0 (Y Y' : nat -> VB RF nb m) c i : Models.set0 c (pt_y Y i) = Models.set0 c (pt_y Y' i).
Proof.
apply: functional_extensionality => j; rewrite /Models.set0; case: PeanoNat.Nat.eqb_spec => // j0.
have z (y : 'cV[RF]_m) : to_vec y j = R0.
{ rewrite /to_vec insubF // m1; apply/negbTE; rewrite -leqNgt; case: (j) j0 => //. }
by rewrite /pt_y; case: insub => // b; rewrite !z.
Qed.
Lemma stress_G_const rows ts Y Y' : stress_G nt times data temps rows ts Y = stress_G (B := B) (nb := nb) nt times data temps rows ts Y'.
Proof. rewrite /stress_G; congr unflatten; apply: StressR.sb_forward_ext => i; exact: pt_set0. Qed.
Lemma ord_m1 (i : 'I_m) : nat_of_ord i = 0%N.
Proof. case: i => [[|i] hi] //=; exfalso; by rewrite m1 in hi. Qed.
Lemma stress_G_jac rows ts Y k b : (stress_G (B := B) (nb := nb) nt times data temps rows ts Y).2 k b = 0.
Proof.
rewrite /stress_G.
have [r /Models.sb_forward_of ->] := Models.sb_forward_some B (rows * nb) (pt_t ts) (pt_base nt times data ts) (pt_rate nt times data ts) (pt_temp nt times temps ts) (pt_y Y).
by rewrite /unflatten ffunE; apply/matrixP => i j; rewrite !mxE /Models.sb_jac (ord_m1 j).
Qed.

Lemma stress_never_fails lm rtol atol miter throw gt n init :
  0 <=R atol -> (0 < n)%N -> (1 < miter)%N -> (0 < nt)%N -> (gt = "zero" \/ gt = "previous" /\ (n < nt)%N)%string ->
  exists st, @solve_stress B nb nt times data temps BackwardEuler lm rtol atol miter throw gt n init = inl st /\ i_warned st = [::].
Proof.
move=> a0 n0 mi nt0 hg; apply: beG_affine_never_fails => // k k0 kn len ts tb.
exists (fun _ _ => 0), (fun k b => (stress_G (B := B) (nb := nb) nt times data temps len.+1 tb (fun _ => @zeroV RF nb m)).1 k b); split.
- by move=> Y j b j0 jl; rewrite mul0mx add0r stress_G_jac (stress_G_const _ _ _ (fun _ => @zeroV RF nb m)).
- by move=> j b jl; rewrite scaler0 subr0 unitmx1.
Qed.

(** mixed control, when the strain-controlled rate does not depend on the stress either *)
Lemma both_never_fails lm rtol atol miter throw gt n init :
  (forall t y y' e T, Models.rf_rate B t y e T 0%N = Models.rf_rate B t y' e T 0%N /\ Models.rf_jac B t y e T 0%N 0%N = R0) ->
  0 <=R atol -> (0 < n)%N -> (1 < miter)%N -> (0 < nt)%N -> (gt = "zero" \/ gt = "previous" /\ (n < nt)%N)%string ->
  exists st, @solve_both B nb nt times data temps control BackwardEuler lm rtol atol miter throw gt n init = inl st /\ i_warned st = [::].
Proof.
move=> HB a0 n0 mi nt0 hg; apply: beG_affine_never_fails => // k k0 kn len ts tb.
pose G := both_G (B := B) (nb := nb) nt times data temps control len.+1 tb.
have GE Y Y' j b : (G Y).1 j b = (G Y').1 j b.
{ rewrite /G /both_G /Models.both_forward (@StressR.sb_forward_ext _ _ _ _ _ _ (pt_y Y) (pt_y Y')) => [|i]; last exact: pt_set0.
  case: Models.sb_forward => [[r J]|//]; rewrite /unflatten !ffunE; apply/colP => i; rewrite !mxE /Models.masked.
  by case: Req_EM_T => // _; case: Req_EM_T => // _ /=; rewrite ord_m1; case: (HB (pt_t tb (j * nb + b)) (pt_y Y (j * nb + b)) (pt_y Y' (j * nb + b)) (pt_rate nt times data tb (j * nb + b)) (pt_temp nt times temps tb (j * nb + b))). }
have GJ Y j b : (G Y).2 j b = 0.
{ rewrite /G /both_G /Models.both_forward.
  have [r /Models.sb_forward_of ->] := Models.sb_forward_some B (len.+1 * nb) (pt_t tb) (pt_base nt times data tb) (pt_rate nt times data tb) (pt_temp nt times temps tb) (pt_y Y).
  rewrite /unflatten !ffunE; apply/matrixP => i i'; rewrite !mxE /Models.masked.
  case: Req_EM_T => // _ /=; first by rewrite /Models.sb_jac (ord_m1 i').
  case: Req_EM_T => // _ /=; rewrite !ord_m1.
  by case: (HB (pt_t tb (j * nb + b)) (pt_y Y (j * nb + b)) (pt_y Y (j * nb + b)) (pt_rate nt times data tb (j * nb + b)) (pt_temp nt times temps tb (j * nb + b))). }
exists (fun _ _ => 0), (fun k b => (G (fun _ => @zeroV RF nb m)).1 k b); split.
- by move=> Y j b j0 jl; rewrite mul0mx add0r; split; [exact: GE|exact: GJ].
- by move=> j b jl; rewrite scaler0 subr0 unitmx1.
Qed.
End NoHistory.

(** ** A bar under a dead load whose damage grows at a constant rate *)
Lemma dead_load_run (E0 r s : R) nb nt (times : nat -> nat -> R) (F : Flow.flowrule) :
  let B := Models.damaged (fun _ => E0) F (Damage.constdamage (fun _ => r)) in
  Flow.fl_nhist F = 0%N ->
  (forall s h t T e, Flow.fl_rate F s h t T e = R0 /\ Flow.fl_ds F s h t T e = R0) ->
  (0 < nt)%N -> grid_ok nb nt times ->
  exists st, @solve_stress B nb nt times (fun _ _ => s) (fun _ _ => R0) BackwardEuler (Direct Thomas) R0 R0 10 true "zero" 3 (fun _ => @zeroV RF nb (Models.rf_n B)) = inl st
  /\ i_warned st = [::] /\ forall k (b : 'I_nb), (k < nt)%N -> entry st k b 1%N = Rmult r (Rminus (times k b) (times 0%N b)).
Proof.
move=> B N Z ntp Gr.
pose dt := fun (_ _ : nat) => s; pose tp := fun (_ _ : nat) => R0.
have T0 k b : table_rates times dt k b = R0.
{ case: k => [//|k] /=; case: Req_EM_T => // d; rewrite /dt /Rminus Rplus_opp_r /Rdiv; exact: Rmult_0_l. }
have R0' ts i : pt_rate (nb := nb) nt times dt ts i = R0.
{ rewrite /pt_rate /interp_at /Interp.select; elim: (List.seq 0 (nt - 1)) => [//|q l IH] /=.
  case: ifP => // _ /=; rewrite /Interp.poss /Interp.slope !T0 /=.
  by rewrite /Rminus Rplus_opp_r /Rdiv !Rmult_0_l Rplus_0_l. }
have GE rows ts Y : stress_G (B := B) (nb := nb) nt times dt tp rows ts Y =
  (fun _ => [ffun _ => \col_i (Models.set0 R0 (fun _ => Rmult R1 r) i : RF)], fun _ => [ffun _ => 0]).
{ rewrite /stress_G StressR.sb_zero.
  - rewrite /unflatten; congr (_, _); apply: functional_extensionality => k; apply/ffunP => b; rewrite !ffunE.
    + apply/colP => i; rewrite !mxE; case: i => [[|i] hi] //=.
      by rewrite /Models.sb_rate /Models.set0 /= /Slices.cat /= N.
    + apply/matrixP => i j; rewrite !mxE; case: i => [i hi]; case: j => [j hj] /=; rewrite /= in hi hj.
      rewrite /Models.sb_jac; case: j hj => [//|j] hj /=; rewrite N in hi hj *; case: j hj => [|//] _.
      case: i hi => [|[|//]] _ /=; rewrite /Slices.cat /= ?N //=.
      by rewrite !(proj1 (Z _ _ _ _ _)) (proj2 (Z _ _ _ _ _)) /Rdiv /Rminus !(Rmult_0_r, Rmult_0_l, Ropp_0, Rplus_0_l, Rplus_0_r).
  - move=> i _; rewrite R0' /= /Slices.cat /= (proj1 (Z _ _ _ _ _)); ring. }
have [st [S W]] : exists st, @solve_stress B nb nt times dt tp BackwardEuler (Direct Thomas) R0 R0 10 true "zero" 3 (fun _ => @zeroV RF nb (Models.rf_n B)) = inl st /\ i_warned st = [::].
{ apply: beG_affine_never_fails => //; try exact: Rle_refl; last by left.
  move=> k k0 kn len ts tb.
  exists (fun _ _ => 0), (fun _ _ => \col_i (Models.set0 R0 (fun _ => Rmult R1 r) i : RF)); split.
  - by move=> Y j b j0 jl; rewrite GE !ffunE mul0mx add0r.
  - by move=> j b jl; rewrite scaler0 subr0 unitmx1. }
exists st; split=> //; split=> // k b.
have im : (1 < Models.rf_n B)%N by rewrite /= N.
elim: k => [|k IH] kn; first by rewrite (run_zero S) // /Rminus Rplus_opp_r Rmult_0_r.
have [ts [Y [q [rows [j [Hr jr kE [Hts HY] H]]]]]] := block_rows S W (ltn0Sn k) kn.
have := H b 1%N im; rewrite GE ffunE to_vecO mxE /= /Models.set0 /= (IH (ltnW kn)).
by move: (entry _ _ _ _) => d Q; apply: (Rplus_eq_reg_r (- (r * (times k b - times 0%N b)))); rewrite -/(Rminus _ _) Q; ring.
Qed.
