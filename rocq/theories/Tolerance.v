(** Runs with non-zero tolerances: how far two histories that satisfy the same
    update equations up to residuals can be apart.  (No code is modelled here.) *)
From Coq Require Import Reals List String Lra Lia.
From mathcomp Require Import all_ssreflect all_algebra.
From Verif Require Import ChunkModel ChunkSolve ChunkInst NewtonModel NewtonProofs Ode OdeForward OdeReal OdeAffine OdeBlock Pipeline PipelineBoth ZmodTac RField Gmres Implicit.
Import GRing.Theory.
Set Implicit Arguments. Unset Strict Implicit. Unset Printing Implicit Defensive.
Local Open Scope ring_scope.
Delimit Scope R_scope with Re.

(** ** Specification *)
(** one-sided Lipschitz condition: (u - v).(f u - f v) <= L |u - v|^2.  L = 0: the
    rate is dissipative (monotone). *)
Definition one_sided (m : nat) (L : R) (f : 'cV[RF]_m -> 'cV[RF]_m) : Prop :=
  forall u v, (dot (u - v)%R (f u - f v)%R <= L * (dst u v * dst u v))%Re.
Definition lipschitz (m : nat) (L : R) (f : 'cV[RF]_m -> 'cV[RF]_m) : Prop :=
  forall u v, (dst (f u) (f v) <= L * dst u v)%Re.

(** [tol] bounds the tolerance in force for entry [b] of a run: the absolute tolerance
    and the relative one times the residual norm of the initial guess of each block *)
Definition tol_bound nb m (f : 'I_nb -> RF -> 'cV[RF]_m -> 'cV[RF]_m) (s : scheme) (rtol atol : R) (gt : string) (n nt : nat)
    (t : nat -> TB RF nb) (y : nat -> VB RF nb m) (b : 'I_nb) (tol : R) : Prop :=
  (atol <= tol)%Re /\ forall k, (0 < k)%N -> (k < nt)%N ->
    let k0 := block_start n k in let len := slice_len nt k0 (k0 + n) in
    (rtol * block_norm f s t (start_hist (guess_incr gt n len y k0) y k0) k0 len b <= tol)%Re.

(** ** One implicit step *)
Section Steps.
Variables (m : nat).
Implicit Types y a : 'cV[RF]_m.
Lemma dot4 (d A G r r' : 'cV[RF]_m) (h : R) : dot d (A + ((h : RF) *: G + (r - r'))) = (dot d A + (h * dot d G + (dot d r + - dot d r')))%Re.
Proof. by rewrite !dotDr dotZr dotN. Qed.
Lemma implicit_step_at (g : 'cV[RF]_m -> 'cV[RF]_m) (h L rho : R) y y' a a' e e' : (0 <= h)%Re -> (dot (y - y')%R (g y - g y')%R <= L * (dst y y' * dst y y'))%Re ->
  (1 <= rho)%Re -> (1 <= rho * (1 - h * L))%Re ->
  (norm (y - a - (h : RF) *: g y)%R <= e)%Re -> (norm (y' - a' - (h : RF) *: g y')%R <= e')%Re ->
  (dst y y' <= rho * (dst a a' + (e + e')))%Re.
Proof.
move=> h0 os r1 rL He He'.
set r := y - a - _ in He; set r' := y' - a' - _ in He'.
have d0 := dst_ge0 y y'; have a0 := dst_ge0 a a'.
have E : y - y' = (a - a') + ((h : RF) *: (g y - g y') + (r - r')) by rewrite /r /r' scalerBr; zmod.
have N : (dst y y' * dst y y' <= dst y y' * dst a a' + (h * (L * (dst y y' * dst y y')) + dst y y' * (e + e')))%Re.
{ rewrite {1 2}/dst norm_sq {2}E dot4.
  have q1 := dot_le_norm (y - y') (a - a'); have q2 := Rmult_le_compat_l _ _ _ h0 os.
  have q3 := dot_le_norm (y - y') r; have q4 := dot_le_norm (y - y') (- r'); rewrite dotN normN in q4.
  rewrite -/(dst y y') -/(dst a a') in q1 q3 q4.
  have q5 := Rmult_le_compat_l _ _ _ d0 He; have q6 := Rmult_le_compat_l _ _ _ d0 He'.
  apply: Rle_trans (Rplus_le_compat _ _ _ _ q1 (Rplus_le_compat _ _ _ _ q2 (Rplus_le_compat _ _ _ _ (Rle_trans _ _ _ q3 q5) (Rle_trans _ _ _ q4 q6)))) _.
  rewrite -(norm_sq (y - y')) -/(dst y y'); lra. }
have ee : (0 <= e + e')%Re by have := norm_ge0 r; have := norm_ge0 r'; lra.
have [z|nz] := Req_dec (dst y y') 0; first by rewrite z; apply: Rmult_le_pos; lra.
have dp : (0 < dst y y')%Re by lra.
have M : ((1 - h * L) * dst y y' <= dst a a' + (e + e'))%Re.
{ apply: (Rmult_le_reg_l (dst y y')) => //; lra. }
have M2 := Rmult_le_compat_l rho _ _ ltac:(lra) M.
apply: Rle_trans M2; rewrite -Rmult_assoc -{1}[dst y y']Rmult_1_l; exact: Rmult_le_compat_r.
Qed.
Lemma implicit_step (g : 'cV[RF]_m -> 'cV[RF]_m) (h L rho : R) y y' a a' e e' : (0 <= h)%Re -> one_sided L g ->
  (1 <= rho)%Re -> (1 <= rho * (1 - h * L))%Re ->
  (norm (y - a - (h : RF) *: g y)%R <= e)%Re -> (norm (y' - a' - (h : RF) *: g y')%R <= e')%Re ->
  (dst y y' <= rho * (dst a a' + (e + e')))%Re.
Proof. move=> h0 os; exact: implicit_step_at (os y y'). Qed.
(** One explicit step *)
Lemma explicit_step (g : 'cV[RF]_m -> 'cV[RF]_m) (h L rho : R) y y' a a' e e' : (0 <= h)%Re -> lipschitz L g ->
  (1 <= rho)%Re -> (1 + h * L <= rho)%Re ->
  (norm (y - a - (h : RF) *: g a)%R <= e)%Re -> (norm (y' - a' - (h : RF) *: g a')%R <= e')%Re ->
  (dst y y' <= rho * (dst a a' + (e + e')))%Re.
Proof.
move=> h0 li r1 rL He He'.
set r := y - a - _ in He; set r' := y' - a' - _ in He'.
have a0 := dst_ge0 a a'.
have E : y - y' = (a - a') + ((h : RF) *: (g a - g a') + (r - r')) by rewrite /r /r' scalerBr; zmod.
have ee : (0 <= e + e')%Re by have := norm_ge0 r; have := norm_ge0 r'; lra.
have T1 := norm_triangle (a - a') ((h : RF) *: (g a - g a') + (r - r')).
have T2 := norm_triangle ((h : RF) *: (g a - g a')) (r - r'); have T3 := norm_triangle r (- r').
rewrite normN in T3; rewrite normZ (Rabs_pos_eq _ h0) in T2; have q := Rmult_le_compat_l _ _ _ h0 (li a a').
have K : (norm (y - y')%R <= dst a a' + (h * (L * dst a a') + (e + e')))%Re.
{ rewrite {1}E; apply: Rle_trans T1 _; apply: Rplus_le_compat_l; apply: Rle_trans T2 _; apply: Rplus_le_compat => //.
  apply: Rle_trans T3 _; exact: Rplus_le_compat. }
apply: Rle_trans K _.
have w := Rmult_le_compat_r _ _ _ a0 rL; have w2 := Rmult_le_compat_r _ _ _ ee r1. lra.
Qed.
(** accumulated over k steps *)
Lemma accumulate (d : nat -> R) (nt : nat) rho e : (1 <= rho)%Re -> (0 <= e)%Re ->
  (forall k, (0 < k)%N -> (k < nt)%N -> (d k <= rho * (d k.-1 + e))%Re) ->
  forall k, (k < nt)%N -> (d k <= rho ^ k * (d 0%N + INR k * e))%Re.
Proof.
move=> r1 e0 H; elim=> [|k IH] kn; first by rewrite /=; lra.
apply: Rle_trans (H k.+1 (ltn0Sn k) kn) _; rewrite [k.+1.-1]/= [(rho ^ k.+1)%Re]/= Rmult_assoc.
apply: Rmult_le_compat_l; first lra.
have := IH (ltnW kn); have p1 : (1 <= rho ^ k)%Re by apply: pow_R1_Rle.
have := Rmult_le_compat_r _ _ _ e0 p1; rewrite S_INR; lra.
Qed.
End Steps.

(** ** Residuals of a run *)
Section Run.
Variables (nb m : nat) (f : 'I_nb -> RF -> 'cV[RF]_m -> 'cV[RF]_m) (Jf : 'I_nb -> RF -> 'cV[RF]_m -> 'M[RF]_m).
Lemma step_norm_block s t y k len j b : (j < len)%N -> (norm (step_res f s t y (k + j)%N b) <= block_norm f s t y k len b)%Re.
Proof.
move=> jl; apply: sqrt_le_1_alt; rewrite /dot (bigD1 (Ordinal jl)) //= -[_ + _ : RF]/(Rplus _ _) -{1}[bigop _ _ _]Rplus_0_r.
apply: Rplus_le_compat_l; rewrite big_mkcond; apply: sum_nonneg => i; case: ifP => _; last exact: Rle_refl.
apply: sum_nonneg => c; exact: Rle_0_sqr.
Qed.
Lemma run_residual s lm rtol atol miter throw gt n nt t y0 init st b tol :
  @integrate RF nb m f Jf s lm (nrmR nb m) rtol atol miter throw gt n nt t y0 init = inl st -> i_warned st = [::] ->
  tol_bound f s rtol atol gt n nt t (i_result st) b tol ->
  forall k, (0 < k)%N -> (k < nt)%N -> (norm (step_res f s t (i_result st) k b) <= tol)%Re.
Proof.
move=> H W [Ha Hr] k kp kn.
have n0 : (0 < n)%N by move: H; rewrite /integrate; case: eqP => // _; case: eqP => //; rewrite lt0n => /eqP.
pose k0 := block_start n k.
have k0k : (k0 <= k)%N by rewrite /k0 /block_start -[k in (_ < k)%N]prednK // ltnS leq_trunc_div.
have k0n : (k0 < nt)%N by apply: leq_ltn_trans k0k kn.
pose len := slice_len nt k0 (k0 + n).
have kl : (k - k0 < len)%N.
{ rewrite ltn_subLR // /len slice_len_add; last exact: ltnW.
  rewrite leq_min kn andbT /k0 /block_start addSn -mulSnr.
  by rewrite -[k in (k < _)%N](prednK kp) ltnS ltn_ceil. }
have := @integrate_tol nb m f Jf s lm rtol atol miter throw gt n nt t y0 init st H (k.-1 %/ n)%N k0n.
rewrite W => /(_ isT) T.
have Q := @step_norm_block s t (i_result st) k0 len (k - k0)%N b kl; rewrite subnKC // in Q.
apply: Rle_trans Q _; case: T => /(_ b) T; first exact: Rle_trans T Ha.
apply: Rle_trans T _; exact: (Hr k kp kn).
Qed.
(** with an absolute tolerance only, [tol] is that tolerance *)
Lemma tol_bound_abs s atol gt n nt t y b : (0 <= atol)%Re -> tol_bound f s 0 atol gt n nt t y b atol.
Proof. move=> a0; split=> [|k _ _]; first exact: Rle_refl. exact: Rle_trans (Req_le _ _ (Rmult_0_l _)) a0. Qed.
End Run.

(** Two runs that share one problem: entry [b] of the first and entry [b'] of the second
    have the same rate, times; the batches, block sizes, solvers may differ *)
Section Two.
Variables (nb nb' m : nat) (f : 'I_nb -> RF -> 'cV[RF]_m -> 'cV[RF]_m) (f' : 'I_nb' -> RF -> 'cV[RF]_m -> 'cV[RF]_m).
Variables (nt : nat) (t : nat -> TB RF nb) (t' : nat -> TB RF nb') (b : 'I_nb) (b' : 'I_nb').
Hypothesis same_rate : forall x y, f b x y = f' b' x y.
Hypothesis same_time : forall k, (k < nt)%N -> t k b = t' k b'.
Lemma two_runs (y : nat -> VB RF nb m) (y' : nat -> VB RF nb' m) s L rho e e' :
  (1 <= rho)%Re ->
  (forall k, (0 < k)%N -> (k < nt)%N -> (0 <= t k b - t k.-1 b)%Re /\
     match s with
     | BackwardEuler => one_sided L (f b (t k b)) /\ (1 <= rho * (1 - (t k b - t k.-1 b) * L))%Re
     | ForwardEuler => lipschitz L (f b (t k.-1 b)) /\ (1 + (t k b - t k.-1 b) * L <= rho)%Re
     end) ->
  (forall k, (0 < k)%N -> (k < nt)%N -> (norm (step_res f s t y k b) <= e)%Re) ->
  (forall k, (0 < k)%N -> (k < nt)%N -> (norm (step_res f' s t' y' k b') <= e')%Re) ->
  forall k, (k < nt)%N -> (dst (y k b) (y' k b') <= rho ^ k * (dst (y 0%N b) (y' 0%N b') + INR k * (e + e')))%Re.
Proof.
move=> r1 H He He'.
case: nt H He He' same_time => [//|[|nt']] H He He' st0.
{ move=> [|//] _ /=; lra. }
have e0 : (0 <= e + e')%Re by have := Rle_trans _ _ _ (norm_ge0 _) (He 1%N isT isT); have := Rle_trans _ _ _ (norm_ge0 _) (He' 1%N isT isT); lra.
apply: (accumulate (d := fun k => dst (y k b) (y' k b'))) => // k k0 kn.
have kn' : (k.-1 < nt'.+2)%N by apply: leq_ltn_trans (leq_pred _) kn.
have [h0 Hs] := H k k0 kn; have R1 := He k k0 kn; have R2 := He' k k0 kn.
move: R1 R2; rewrite /step_res -!st0 //; move: Hs; clear H He He'; case: s => -[Hs1 Hs2]; rewrite -!same_rate => R1 R2.
- exact: (implicit_step h0 Hs1 r1 Hs2 R1 R2).
- exact: (explicit_step h0 Hs1 r1 Hs2 R1 R2).
Qed.
End Two.

(** ** The same for functions of a whole block (solve_stress, solve_both) *)
(** [tol] bounds the tolerance in force: absolute tolerance only, or the "zero" guess (the
    default), for which the relative tolerance multiplies the residual of the constant state *)
Definition tol_boundG nb m (G : nat -> (nat -> TB RF nb) -> (nat -> VB RF nb m) -> (nat -> VB RF nb m) * (nat -> MB RF nb m))
    (s : scheme) (rtol atol : R) (gt : string) (n nt : nat) (t : nat -> TB RF nb) (y : nat -> VB RF nb m) (b : 'I_nb) (tol : R) : Prop :=
  (0 <= tol)%Re /\ (atol <= tol)%Re /\
  (rtol = R0 \/ gt = "zero"%string /\ forall k, (0 < k)%N -> (k < nt)%N ->
    let k0 := block_start n k in let len := slice_len nt k0 (k0 + n) in
    forall ts Yg, (forall j, (j <= len)%N -> ts j = t (k0 - 1 + j)%N) -> (forall j, (j <= len)%N -> Yg j = y (k0 - 1)%N) ->
    (rtol * rows_norm G s len ts Yg b <= tol)%Re).

Section RunsG.
Variable B : Models.rateform.
Notation m := (Models.rf_n B).
Variables (nb nt : nat) (times data temps : nat -> nat -> R) (control : nat -> R).
Variables (lm : lin_method) (rtol atol : R) (miter : nat) (throw : bool) (gt : string) (n : nat) (init : nat -> VB RF nb m).
Notation slope := (step_rate times data).

Lemma block_rows_tol (G : nat -> (nat -> TB RF nb) -> (nat -> VB RF nb m) -> (nat -> VB RF nb m) * (nat -> MB RF nb m)) st b tol :
  integrateG G BackwardEuler lm (nrmR nb m) rtol atol miter throw gt n nt (time_table nb times) (@zeroV RF nb m) init = inl st ->
  i_warned st = [::] -> tol_boundG G BackwardEuler rtol atol gt n nt (time_table nb times) (i_result st) b tol ->
  forall k, (0 < k)%N -> (k < nt)%N ->
  exists ts Y k0 rows j, [/\ (k0 + rows <= nt)%N, (j < rows)%N, k = (k0 + j)%N,
     (forall j, (j < rows)%N -> ts j = time_table nb times (k0 + j)%N) /\ (forall j, (j < rows)%N -> Y j = i_result st (k0 + j)%N) &
     forall i, (i < m)%N -> (Rabs (entry st k b i - entry st k.-1 b i -
        (times k b - times k.-1 b) * to_vec ((G rows ts Y).1 j b) i) <= tol)%Re].
Proof.
move=> E W [t0 [Ta Tr]] k kp kn.
have n0 : (0 < n)%N by move: E; rewrite /integrateG; case: eqP => // _; case: eqP => //; rewrite lt0n => /eqP.
pose k0 := block_start n k.
have k0k : (k0 <= k)%N by rewrite /k0 /block_start -[k in (_ < k)%N]prednK // ltnS leq_trunc_div.
have k0n : (k0 < nt)%N by apply: leq_ltn_trans k0k kn.
pose len := slice_len nt k0 (k0 + n).
have kl : (k - k0 < len)%N.
{ rewrite ltn_subLR // /len slice_len_add; last exact: ltnW.
  rewrite leq_min kn andbT /k0 /block_start addSn -mulSnr.
  by rewrite -[k in (k < _)%N](prednK kp) ltnS ltn_ceil. }
have := @integrateG_tol nb m G BackwardEuler lm rtol atol miter throw gt n nt (time_table nb times) _ init st E (k.-1 %/ n)%N k0n.
rewrite W => /(_ isT) [ts [Y [Hts [HY [Yg T]]]]].
rewrite -/(block_start n k) -/k0 -/len in Hts HY T.
have Nb : (rows_norm G BackwardEuler len ts Y b <= tol)%Re.
{ case: T => [/(_ b) T|[/(_ b) T Z]]; first exact: Rle_trans T Ta.
  apply: Rle_trans T _; case: Tr => [->|[g Tr]]; first by rewrite Rmult_0_l.
  apply: (Tr k kp kn) => //; exact: Z. }
have e1 : (k0 - 1 + (k - k0).+1)%N = k by rewrite addnS -addSn subn1 /= subnKC.
have e2 : (k0 - 1 + (k - k0))%N = k.-1 by rewrite -[in RHS]e1 addnS.
have r1 : ts (k - k0).+1 = time_table nb times k by rewrite Hts // e1.
have r2 : ts (k - k0)%N = time_table nb times k.-1 by rewrite Hts ?e2 // ltnW.
have q1 : Y (k - k0).+1 = i_result st k by rewrite HY // e1.
have q2 : Y (k - k0)%N = i_result st k.-1 by rewrite HY ?e2 // ltnW.
exists ts, Y, (k0 - 1)%N, len.+1, (k - k0).+1; split=> //.
- rewrite /len addnS -addSn subn1 prednK // slice_len_add; last exact: ltnW. exact: geq_minr.
- move=> i im; have := @row_le_norm nb m G BackwardEuler len ts Y (k - k0)%N b (Ordinal im) kl.
  rewrite /row_res r1 r2 q1 q2 !ffunE !mxE !entryO to_vecO => H.
  exact: Rle_trans H Nb.
Qed.

Lemma both_strain_steps_tol st (b : 'I_nb) tol : grid_ok nb nt times ->
  solve_both nt times data temps control BackwardEuler lm rtol atol miter throw gt n init = inl st -> i_warned st = [::] ->
  tol_boundG (both_G nt times data temps control) BackwardEuler rtol atol gt n nt (time_table nb times) (i_result st) b tol ->
  control b = R0 -> forall k i, (0 < k)%N -> (k < nt)%N -> (i < m)%N ->
    (Rabs (entry st k b i - entry st k.-1 b i -
      (times k b - times k.-1 b) * Models.rf_rate B (times k b) (entry st k b) (slope k b) (temps k b) i) <= tol)%Re.
Proof.
move=> Gr E W T C k i k0 kn im.
have [ts [Y [q [rows [j [Hr jr kE [Hts HY] H]]]]]] := block_rows_tol E W T k0 kn.
have n2 : (1 < nt)%N by apply: leq_ltn_trans kn.
have := H i im; rewrite (both_row_strain data temps n2 Gr Hts HY Hr jr C) -kE (rates_knot data (ltn_ord b) Gr k0 kn).
by rewrite to_vecO mxE.
Qed.

Lemma both_none_steps_tol st (b : 'I_nb) tol :
  solve_both nt times data temps control BackwardEuler lm rtol atol miter throw gt n init = inl st -> i_warned st = [::] ->
  tol_boundG (both_G nt times data temps control) BackwardEuler rtol atol gt n nt (time_table nb times) (i_result st) b tol ->
  control b <> R0 -> control b <> R1 -> forall k i, (0 < k)%N -> (k < nt)%N -> (i < m)%N ->
    (Rabs (entry st k b i - entry st k.-1 b i) <= tol)%Re.
Proof.
move=> E W T C C' k i k0 kn im.
have [ts [Y [q [rows [j [Hr jr kE [Hts HY] H]]]]]] := block_rows_tol E W T k0 kn.
by have := H i im; rewrite (both_row_none _ _ _ _ _ _ jr C C') to_vecO mxE Rmult_0_r Rminus_0_r.
Qed.

(** One stress-controlled step, to [tol] *)
Definition stress_step_tol (tol : R) (st : istate RF nb m) (k : nat) (b : 'I_nb) : Prop := exists e : R,
  let dt := (times k b - times k.-1 b)%Re in
  let y := Models.set0 (data k b) (entry st k b) in
  (Rabs (Models.rf_rate B (times k b) y e (temps k b) 0%N - slope k b) <= / 10 ^ 10)%Re /\
  (Rabs (entry st k b 0%N - entry st k.-1 b 0%N - dt * e) <= tol)%Re /\
  forall i, (0 < i)%N -> (i < m)%N -> (Rabs (entry st k b i - entry st k.-1 b i - dt * Models.rf_rate B (times k b) y e (temps k b) i) <= tol)%Re.

Lemma stress_rows_step_tol tol st k (b : 'I_nb) (g : 'cV[RF]_m) er : (0 < m)%N -> grid_ok nb nt times -> (0 < k)%N -> (k < nt)%N ->
  (Rabs (Models.rf_rate B (times k b) (Models.set0 (data k b) (entry st k b)) er (temps k b) 0%N - table_rates times data k b) <= / 10 ^ 10)%Re ->
  g = \col_i (Models.sb_rate B (times k b) (entry st k b) (data k b) (temps k b) er i : RF) ->
  (forall i, (i < m)%N -> (Rabs (entry st k b i - entry st k.-1 b i - (times k b - times k.-1 b) * to_vec g i) <= tol)%Re) ->
  stress_step_tol tol st k b.
Proof.
move=> m0 Gr k0 kn A gE H; exists er; cbv zeta; split; first by rewrite -(rates_knot data (ltn_ord b) Gr k0 kn).
split.
- by have := H 0%N m0; rewrite gE to_vecO mxE.
- by move=> i i0 im; have := H i im; rewrite gE to_vecO mxE /= sb_rate_pos.
Qed.

Lemma both_stress_steps_tol st (b : 'I_nb) tol : (0 < m)%N -> grid_ok nb nt times ->
  solve_both nt times data temps control BackwardEuler lm rtol atol miter throw gt n init = inl st -> i_warned st = [::] ->
  tol_boundG (both_G nt times data temps control) BackwardEuler rtol atol gt n nt (time_table nb times) (i_result st) b tol ->
  affine_run nt times data temps st -> control b = R1 ->
  forall k, (0 < k)%N -> (k < nt)%N -> stress_step_tol tol st k b.
Proof.
move=> m0 Gr E W T Aff C k k0 kn.
have [ts [Y [q [rows [j [Hr jr kE [Hts HY] H]]]]]] := block_rows_tol E W T k0 kn.
have n2 : (1 < nt)%N by apply: leq_ltn_trans kn.
have [j' b' j'r|er Q] := @stress_rows B nb nt times data temps control ts Y rows q (i_result st) n2 Gr Hts HY Hr.
  by apply: Aff; apply: leq_trans Hr; rewrite ltn_add2l.
have [Q1 /= [_ /(_ C) Q2]] := Q j b jr; rewrite -kE in Q1 Q2.
exact: (stress_rows_step_tol m0 Gr k0 kn Q1 Q2 H).
Qed.
Lemma stress_steps_tol st (b : 'I_nb) tol : (0 < m)%N -> grid_ok nb nt times ->
  solve_stress nt times data temps BackwardEuler lm rtol atol miter throw gt n init = inl st -> i_warned st = [::] ->
  tol_boundG (stress_G nt times data temps) BackwardEuler rtol atol gt n nt (time_table nb times) (i_result st) b tol ->
  affine_run nt times data temps st ->
  forall k, (0 < k)%N -> (k < nt)%N -> stress_step_tol tol st k b.
Proof.
move=> m0 Gr E W T Aff k k0 kn.
have [ts [Y [q [rows [j [Hr jr kE [Hts HY] H]]]]]] := block_rows_tol E W T k0 kn.
have n2 : (1 < nt)%N by apply: leq_ltn_trans kn.
have [j' b' j'r|er Q] := @stress_rows B nb nt times data temps control ts Y rows q (i_result st) n2 Gr Hts HY Hr.
  by apply: Aff; apply: leq_trans Hr; rewrite ltn_add2l.
have [Q1 /= [Q2 _]] := Q j b jr; rewrite -kE in Q1 Q2.
exact: (stress_rows_step_tol m0 Gr k0 kn Q1 Q2 H).
Qed.
(** strain control *)
Lemma strain_steps_tol st (b : 'I_nb) tol : grid_ok nb nt times ->
  solve_strain nt times data temps BackwardEuler lm rtol atol miter throw gt n init = inl st -> i_warned st = [::] ->
  tol_bound (strain_f nt times data temps) BackwardEuler rtol atol gt n nt (time_table nb times) (i_result st) b tol ->
  (forall i, (i < m)%N -> entry st 0 b i = R0) /\
  forall k i, (0 < k)%N -> (k < nt)%N -> (i < m)%N ->
    (Rabs (entry st k b i - entry st k.-1 b i -
      (times k b - times k.-1 b) * Models.rf_rate B (times k b) (entry st k b) (slope k b) (temps k b) i) <= tol)%Re.
Proof.
move=> G E W T; split.
- have [_ [R0' _]] := integrate_writes E.
  by move=> i im; rewrite (_ : i = Ordinal im) // entryE R0' ffunE mxE.
- move=> k i k0 kn im; have := run_residual E W T k0 kn.
  have := comp_norm (step_res (strain_f nt times data temps) BackwardEuler (time_table nb times) (i_result st) k b) (Ordinal im).
  rewrite strain_residual // => h1 h2; exact: Rle_trans h1 h2.
Qed.
End RunsG.

(** ** One step (two times, block size one): when the start is kept, when it is replaced *)
Section Single.
Variables (nb m : nat) (f : 'I_nb -> RF -> 'cV[RF]_m -> 'cV[RF]_m) (Jf : 'I_nb -> RF -> 'cV[RF]_m -> 'M[RF]_m).
Lemma single_unfold s lm rtol atol miter throw t y0 init :
  @integrate RF nb m f Jf s lm (nrmR nb m) rtol atol miter throw "zero" 1 2 t y0 init =
  match newton_raphson_chunk (block_RJ f Jf s (t 0%N) (fun j => t (1 + j)%N) y0) (nrmR nb m 1) rtol atol (block_linsolve lm 1) (@tsub RF) miter throw
     (flat (fun j => if (j < 1)%N then @zeroV RF nb m else zeroV RF nb m)) with
  | Ok r => inl {| i_result := fun j => if (1 <= j < 1 + 1)%N then addV (blkV nb m (res_x r) (j - 1)%N) y0 else if j == 0%N then y0 else init j;
                   i_writes := [:: 0%N] ++ iota 1 1; i_warned := [::] |}
  | Warned r => inl {| i_result := fun j => if (1 <= j < 1 + 1)%N then addV (blkV nb m (res_x r) (j - 1)%N) y0 else if j == 0%N then y0 else init j;
                   i_writes := [:: 0%N] ++ iota 1 1; i_warned := [:: (1%N, 1%N)] |}
  | Raised => inr ErrSolve
  end.
Proof.
rewrite /integrate /= /int_step /= /block_update /=.
by case: (newton_raphson_chunk _ _ _ _ _ _ _ _ _).
Qed.

Definition rate_at (s : scheme) (t : nat -> TB RF nb) (y0 : VB RF nb m) (b : 'I_nb) : 'cV[RF]_m :=
  match s with BackwardEuler => f b (t 1%N b) (y0 b) | ForwardEuler => f b (t 0%N b) (y0 b) end.
Lemma single_start s t y0 x b : blkV nb m x 0 = zeroV RF nb m ->
  sqrt (sumsq (1 * m) (fst (block_RJ f Jf s (t 0%N) (fun j => t (1 + j)%N) y0 x) (val b))) =
  norm ((t 1%N b - t 0%N b) *: rate_at s t y0 b).
Proof.
move=> xz.
have -> := @block_norm_flat nb m f Jf s t (fun _ => y0) x 1%N 1%N b isT; last first.
{ by case=> // _; rewrite xz; apply/ffunP => i; rewrite !ffunE add0r. }
rewrite /block_norm big_ord1 /norm /dot; congr (sqrt _); apply: eq_bigr => c _.
rewrite /step_res /rate_at /=; case: s; rewrite subrr sub0r mxE; exact: mulrNN.
Qed.

Lemma nrmR_all_le_intro n v a : (forall b : 'I_nb, (sqrt (sumsq (n * m) (v (val b))) <= a)%Re) -> all_le (nrmR nb m n v) a.
Proof.
move=> H; rewrite /all_le /nrmR.
have H' : forall b, b \in iota 0 nb -> (sqrt (sumsq (n * m) (v b)) <= a)%Re.
{ by move=> b; rewrite mem_iota add0n => bn; exact: (H (Ordinal bn)). }
elim: (iota 0 nb) H' => [|b l IH] H' /=; constructor; first by eexists; split; [reflexivity|apply: H'; rewrite inE eqxx].
by apply: IH => b' hb; apply: H'; rewrite inE hb orbT.
Qed.
(** If one step's increment is within atol for every entry, the run returns the start. *)
Lemma single_kept s lm rtol atol miter throw (t : nat -> TB RF nb) y0 init : (0 < miter)%N ->
  (forall b, (norm ((t 1%N b - t 0%N b) *: rate_at s t y0 b)%R <= atol)%Re) ->
  exists st, @integrate RF nb m f Jf s lm (nrmR nb m) rtol atol miter throw "zero" 1 2 t y0 init = inl st /\
    i_warned st = [::] /\ i_result st 1%N = y0.
Proof.
move=> m0 H; rewrite single_unfold; set x0 := flat _.
have z0 : blkV nb m x0 0 = zeroV RF nb m by rewrite /x0 blkV_flat.
have [r [-> [rx _]]] := @chunk_start_converged _ _ _ (block_RJ f Jf s (t 0%N) (fun j => t (1 + j)%N) y0) (nrmR nb m 1) rtol atol
   (block_linsolve lm 1) (@tsub RF) miter throw x0 (ltP m0) (nrmR_finite _ _ _ _)
   (or_introl (nrmR_all_le_intro (fun b => eq_rect_r (fun q => (q <= atol)%Re) (H b) (single_start s t y0 b z0)))).
eexists; split; first reflexivity; split=> //=; rewrite rx subnn z0; by apply/ffunP => i; rewrite !ffunE add0r.
Qed.
End Single.
(** A linear problem: if one entry's increment is above the tolerances, every entry takes the exact step. *)
Lemma single_affine nb m K c lm rtol atol miter throw (t : nat -> TB RF nb) y0 init (b0 : 'I_nb) : (0 <= atol)%Re -> (1 < miter)%N -> steps_invertible K 2 t ->
  let d := norm ((t 1%N b0 - t 0%N b0) *: rate_at (@aff_rate RF nb m K c) BackwardEuler t y0 b0)%R in
  (atol < d)%Re -> (rtol * d < d)%Re ->
  exists st, @integrate RF nb m (aff_rate K c) (aff_jac K) BackwardEuler lm (nrmR nb m) rtol atol miter throw "zero" 1 2 t y0 init = inl st /\
    i_warned st = [::] /\ forall b, step_res (aff_rate K c) BackwardEuler t (i_result st) 1 b = 0.
Proof.
move=> a0 m1 ns d d1 d2.
have ns' j b : (j < 1)%N -> (1%:M - (block_times (t 0%N) (fun j => t (1 + j)%N) j.+1 b
         - block_times (t 0%N) (fun j => t (1 + j)%N) j b) *: K b (block_times (t 0%N) (fun j => t (1 + j)%N) j.+1 b)) \in unitmx.
{ by case: j => // _; exact: (ns 1%N b isT isT). }
rewrite single_unfold; set x0 := flat _.
have [r E] := @be_affine_block_ok nb m K c lm rtol atol miter throw 1 (t 0%N) (fun j => t (1 + j)%N) y0 x0 a0 isT m1 ns'.
rewrite E; eexists; split; first reflexivity; split=> //.
have z0 : blkV nb m x0 0 = zeroV RF nb m by rewrite /x0 blkV_flat.
set fn := block_RJ _ _ _ _ _ _ in E.
have /= S := nr_solve_spec fn (nrmR nb m 1) rtol atol (block_linsolve lm 1) (@tsub RF) miter x0.
move: E S; rewrite /newton_raphson_chunk; set rr := nr_solve _ _ _ _ _ _ _ _ => E S.
have {E} Er : rr = r by move: E; case: (Nat.eqb _ _); [case: throw|move=> [->]].
rewrite Er in S; case: S => _ [S2 [_ [_ [_ [_ S7]]]]].
have Z : be_res K c (t 0%N) (fun j => t (1 + j)%N) y0 (res_x r) 0 = zeroV RF nb m.
{ case I : (res_iters r) S2 S7 => [|k] S2 S7; last by rewrite S2; apply: (@be_affine_update RF nb m K c lm _ _ _ 1%N).
  exfalso; rewrite /= in S2.
  have : ~ converged rtol atol (norms fn (nrmR nb m 1) x0) (norms fn (nrmR nb m 1) x0).
  { case=> C.
    - have := nrmR_all_le C (ltn_ord b0); rewrite (single_start (aff_rate K c) (aff_jac K) BackwardEuler t y0 b0 z0) -/d; lra.
    - have := nrmR_all_le_rel C (ltn_ord b0); rewrite (single_start (aff_rate K c) (aff_jac K) BackwardEuler t y0 b0 z0) -/d; lra. }
  move/(keep_going_iff rtol atol _ _ erefl (nrmR_finite _ _ _ _) (nrmR_finite _ _ _ _)).2 => KG.
  have : (0 < miter)%coq_nat by apply/ltP; apply: ltnW.
  by move/S7; rewrite S2 /norms KG. }
by move=> b; move/ffunP/(_ b): Z; rewrite !ffunE /step_res /= subnn => <-; rewrite !ffunE /=; congr (_ - _); zmod.
Qed.
