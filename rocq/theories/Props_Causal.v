(** C122: what happens later in a test cannot change what was computed earlier. *)
From Coq Require Import Reals List String Lra FunctionalExtensionality.
From mathcomp Require Import all_ssreflect all_algebra.
From Verif Require Import ChunkModel ChunkSolve ChunkInst NewtonModel NewtonLocal Ode OdeForward OdeReal OdeBlock OdeLocal RField Pipeline PipelineBoth Props_Stress.
From Verif Require Interp Models Flow Slices StressLocal NewtonProofs Props_Pipeline Props_Global.
Import GRing.Theory.
Set Implicit Arguments. Unset Strict Implicit. Unset Printing Implicit Defensive.
Local Open Scope ring_scope.
Delimit Scope R_scope with Re.

(** Two tables agree on the rows up to K. *)
Definition same_rows (nb K : nat) (a a' : nat -> nat -> R) : Prop := forall k b, (k <= K)%N -> (b < nb)%N -> a k b = a' k b.

Section Calls.
Variables (B : Models.rateform) (nb nt nt' n k K : nat) (times times' data data' temps temps' : nat -> nat -> R) (control : nat -> R).
Notation m := (Models.rf_n B).
Hypotheses (n0 : (0 < n)%N) (k0 : (0 < k)%N) (kK : (k + n <= K.+1)%N) (Kn : (K < nt)%N) (Kn' : (K < nt')%N).
Hypotheses (G : grid_ok nb nt times) (G' : grid_ok nb nt' times').
Hypotheses (ET : same_rows nb K times times') (ED : same_rows nb K data data') (EP : same_rows nb K temps temps').
Notation T := (block_times (time_table nb times (k - 1)%N) (fun j => time_table nb times (k + j)%N)).
Notation T' := (block_times (time_table nb times (k - 1)%N) (fun j => time_table nb times' (k + j)%N)).
Lemma K_pos : (1 <= K)%N.
Proof. by rewrite -ltnS; apply: leq_trans kK; apply: (leq_add k0 n0). Qed.
Lemma row_T j : (j <= n)%N -> (k.-1 + j <= K)%N.
Proof. by move=> jn; rewrite -ltnS -addSn prednK //; apply: leq_trans kK; rewrite leq_add2l. Qed.
Lemma T_row j (b : 'I_nb) : (j <= n)%N -> T j b = times (k.-1 + j)%N b /\ T' j b = times (k.-1 + j)%N b.
Proof.
case: j => [|j] jn; first by rewrite /= ffunE addn0 subn1.
by rewrite /= !ffunE -addSnnS prednK //; split=> //; rewrite (ET _ (ltn_ord b)) // -ltnS -addnS; apply: leq_trans kK; rewrite leq_add2l.
Qed.
Lemma rates_same r b : (r <= K)%N -> (b < nb)%N -> table_rates times data r b = table_rates times' data' r b.
Proof. by case: r => // r rK bn; rewrite /table_rates (ET rK bn) (ET (ltnW rK) bn) (ED rK bn) (ED (ltnW rK) bn). Qed.
Lemma interp_same v v' j (b : 'I_nb) : same_rows nb K v v' -> (j <= n)%N ->
  interp_at nt times v b (T j b) = interp_at nt' times' v' b (T' j b).
Proof.
move=> E jn; have [-> ->] := T_row b jn; have rK := row_T jn.
rewrite (@interp_knot nb) //; last exact: leq_ltn_trans Kn. 2: exact: leq_ltn_trans K_pos Kn.
by rewrite (ET rK (ltn_ord b)) (@interp_knot nb) ?E //; [exact: leq_ltn_trans K_pos Kn'|exact: leq_ltn_trans Kn'].
Qed.
Lemma rate_rows : same_rows nb K (table_rates times data) (table_rates times' data').
Proof. by move=> r b; apply: rates_same. Qed.
Lemma calls_strain : same_calls
  (fun _ ts y => (func_rate (strain_f (B := B) nt times data temps) ts y, func_jac (strain_J (B := B) nt times data temps) ts y))
  (fun _ ts y => (func_rate (strain_f (B := B) nt' times' data' temps') ts y, func_jac (strain_J (B := B) nt' times' data' temps') ts y)) n T T'.
Proof.
move=> Y Y' EY j jn /=; have Tb (b : 'I_nb) : T j b = T' j b by have [-> ->] := T_row b jn.
split; apply/eq_ffun => b; rewrite /strain_f /strain_J (interp_same b rate_rows jn) (interp_same b EP jn) (Tb b) (EY j jn) //.
Qed.
Lemma unflat_same p p' j : StressLocal.agree_points (n.+1 * nb) p p' -> (j <= n)%N ->
  (@unflatten B nb p).1 j = (@unflatten B nb p').1 j /\ (@unflatten B nb p).2 j = (@unflatten B nb p').2 j.
Proof.
case: p => [[r J]|]; case: p' => [[r' J']|] //= H jn.
have lt (b : 'I_nb) : (j * nb + b < n.+1 * nb)%coq_nat by apply/ltP; apply: (@leq_trans (j.+1 * nb)); [rewrite mulSn addnC ltn_add2r|rewrite leq_mul2r ltnS jn orbT].
split; apply/eq_ffun => b; by have [E1 E2] := H _ (lt b); rewrite ?E1 ?E2.
Qed.
Lemma pts_same Y Y' : (forall j, (j <= n)%N -> Y j = Y' j) -> forall i, (i < n.+1 * nb)%coq_nat ->
  control (i %% nb)%N = control (i %% nb)%N /\ pt_t T i = pt_t T' i /\ pt_base nt times data T i = pt_base nt' times' data' T' i /\ pt_rate nt times data T i = pt_rate nt' times' data' T' i /\
  pt_temp nt times temps T i = pt_temp nt' times' temps' T' i /\ @pt_y B nb Y i = @pt_y B nb Y' i.
Proof.
move=> EY i /ltP ilt.
have nb0 : (0 < nb)%N by move: ilt; case: (posnP nb) => // ->; rewrite muln0.
have bl : (i %% nb < nb)%N by rewrite ltn_mod.
have jn : (i %/ nb <= n)%N by rewrite -ltnS ltn_divLR.
rewrite (divn_eq i nb) -[X in (i %/ nb * nb + X)%N]/(nat_of_ord (Ordinal bl)).
set b := Ordinal bl; set j := (i %/ nb)%N in jn *.
by rewrite !pt_tE !pt_baseE !pt_rateE !pt_tempE !pt_yE (interp_same b ED jn) (interp_same b rate_rows jn) (interp_same b EP jn) (EY j jn);
  have [-> ->] := T_row b jn.
Qed.
Lemma calls_both : same_calls (both_G (B := B) (nb := nb) nt times data temps control) (both_G (B := B) (nb := nb) nt' times' data' temps' control) n T T'.
Proof. by move=> Y Y' EY j jn; apply: unflat_same jn; apply: StressLocal.both_forward_points; apply: pts_same. Qed.
Lemma calls_stress : same_calls (stress_G (B := B) (nb := nb) nt times data temps) (stress_G (B := B) (nb := nb) nt' times' data' temps') n T T'.
Proof. by move=> Y Y' EY j jn; apply: unflat_same jn; apply: (StressLocal.sb_forward_points _ _ _ _ _ _ _ _ _ _ _ _ _ _ (pts_same EY)). Qed.
End Calls.

(** Two runs agree up to row K: where both return, the rows up to K are the same and so are the warnings of the blocks that start there. *)
Definition agree_until (nb m K : nat) (x x' : istate RF nb m + ode_error) : Prop :=
  match x, x' with
  | inl st, inl st' => (forall k, (k <= K)%N -> i_result st k = i_result st' k) /\ [seq p <- i_warned st | (p.1 <= K)%N] = [seq p <- i_warned st' | (p.1 <= K)%N]
  | _, _ => True
  end.
(** A run on the first K + 1 rows of a test and the run on the whole test: an error in the first is an error of the second. *)
Definition truncation_agrees (nb m K : nat) (short long : istate RF nb m + ode_error) : Prop :=
  match short, long with
  | inr e, _ => long = inr e
  | inl _, inl _ => agree_until K short long
  | inl _, inr _ => True
  end.

Section Run.
Variables (B : Models.rateform) (s : scheme) (lm : lin_method) (rtol atol : R) (miter : nat) (throw : bool) (gt : string) (n q nb nt nt' : nat).
Variables (times times' data data' temps temps' : nat -> nat -> R) (control : nat -> R) (init init' : nat -> VB RF nb (Models.rf_n B)).
Notation K := (q * n)%N.
Hypotheses (n0 : (0 < n)%N) (Kn : (K < nt)%N) (Kn' : (K < nt')%N) (I : times_increase nb nt times) (I' : times_increase nb nt' times').
Hypotheses (ET : same_rows nb K times times') (ED : same_rows nb K data data') (EP : same_rows nb K temps temps').
Lemma tables_same j : (j <= K)%N -> time_table nb times j = time_table nb times' j.
Proof. by move=> jK; apply/eq_ffun => b; rewrite (ET jK (ltn_ord b)). Qed.
Notation fnG := (nat -> (nat -> TB RF nb) -> (nat -> VB RF nb (Models.rf_n B)) -> (nat -> VB RF nb (Models.rf_n B)) * (nat -> MB RF nb (Models.rf_n B))).
Lemma runs_same (G G' : fnG) :
  (forall k, (0 < k)%N -> (k + n <= K.+1)%N ->
    same_calls G G' n (block_times (time_table nb times (k - 1)%N) (fun j => time_table nb times (k + j)%N)) (block_times (time_table nb times (k - 1)%N) (fun j => time_table nb times' (k + j)%N))) ->
  let x := integrateG G s lm (nrmR nb (Models.rf_n B)) rtol atol miter throw gt n nt (time_table nb times) (zeroV RF nb _) init in
  let x' := integrateG G' s lm (nrmR nb (Models.rf_n B)) rtol atol miter throw gt n nt' (time_table nb times') (zeroV RF nb _) init' in
  agree_until K x x' /\ (nt = K.+1 -> truncation_agrees K x x').
Proof.
move=> C x x'.
have [[e [Ex Ex']]|[rows [w [A [A' [L _]]]]]] := @integrate_same nb (Models.rf_n B) G G' s lm rtol atol miter throw gt n nt nt' q (time_table nb times) (time_table nb times')
  (zeroV RF nb _) init init' n0 Kn Kn' tables_same C; first by rewrite /x /x' Ex Ex'.
have H : agree_until K x x'.
{ rewrite /agree_until; case Ex: x => [st|//]; case Ex': x' => [st'|//]; have [a1 a2] := A _ Ex; have [a1' a2'] := A' _ Ex'; split; last by rewrite a2 a2'.
  by move=> k kK; rewrite a1 // a1'. }
split=> // E; have [st Es] := L E; move: H; rewrite /truncation_agrees /x Es; by case: x'.
Qed.

Lemma run_strain k : (0 < k)%N -> (k + n <= K.+1)%N -> same_calls (fun _ ts y => (func_rate (strain_f (B := B) nt times data temps) ts y, func_jac (strain_J (B := B) nt times data temps) ts y)) (fun _ ts y => (func_rate (strain_f (B := B) nt' times' data' temps') ts y, func_jac (strain_J (B := B) nt' times' data' temps') ts y)) n
  (block_times (time_table nb times (k - 1)%N) (fun j => time_table nb times (k + j)%N)) (block_times (time_table nb times (k - 1)%N) (fun j => time_table nb times' (k + j)%N)).
Proof. by move=> k0 kK; apply: (calls_strain n0 k0 kK Kn Kn' I I' ET ED EP). Qed.
Lemma run_both k : (0 < k)%N -> (k + n <= K.+1)%N -> same_calls (both_G (B := B) (nb := nb) nt times data temps control) (both_G (B := B) (nb := nb) nt' times' data' temps' control) n
  (block_times (time_table nb times (k - 1)%N) (fun j => time_table nb times (k + j)%N)) (block_times (time_table nb times (k - 1)%N) (fun j => time_table nb times' (k + j)%N)).
Proof. by move=> k0 kK; apply: (calls_both control n0 k0 kK Kn Kn' I I' ET ED EP). Qed.
Lemma run_stress k : (0 < k)%N -> (k + n <= K.+1)%N -> same_calls (stress_G (B := B) (nb := nb) nt times data temps) (stress_G (B := B) (nb := nb) nt' times' data' temps') n
  (block_times (time_table nb times (k - 1)%N) (fun j => time_table nb times (k + j)%N)) (block_times (time_table nb times (k - 1)%N) (fun j => time_table nb times' (k + j)%N)).
Proof. by move=> k0 kK; apply: (calls_stress control n0 k0 kK Kn Kn' I I' ET ED EP). Qed.

(** Whatever the later rows are (how many, at which times, with which strains and temperatures), the rows up to the end of a block are the same. *)
Theorem C122_strain : agree_until K (solve_strain nt times data temps s lm rtol atol miter throw gt n init) (solve_strain nt' times' data' temps' s lm rtol atol miter throw gt n init').
Proof. by have [H _] := runs_same run_strain. Qed.
Theorem C122_both : agree_until K (solve_both nt times data temps control s lm rtol atol miter throw gt n init) (solve_both nt' times' data' temps' control s lm rtol atol miter throw gt n init').
Proof. by have [H _] := runs_same run_both. Qed.
Theorem C122_stress : agree_until K (solve_stress nt times data temps s lm rtol atol miter throw gt n init) (solve_stress nt' times' data' temps' s lm rtol atol miter throw gt n init').
Proof. by have [H _] := runs_same run_stress. Qed.
(** Simulating the first part of a test only: the same rows as in the whole test; if it fails, the whole test fails with the same error. *)
Theorem C122_truncated : nt = K.+1 ->
  truncation_agrees K (solve_strain nt times data temps s lm rtol atol miter throw gt n init) (solve_strain nt' times' data' temps' s lm rtol atol miter throw gt n init') /\
  truncation_agrees K (solve_both nt times data temps control s lm rtol atol miter throw gt n init) (solve_both nt' times' data' temps' control s lm rtol atol miter throw gt n init') /\
  truncation_agrees K (solve_stress nt times data temps s lm rtol atol miter throw gt n init) (solve_stress nt' times' data' temps' s lm rtol atol miter throw gt n init').
Proof.
move=> E; split; [|split].
- by have [_ H] := runs_same run_strain; exact: H.
- by have [_ H] := runs_same run_both; exact: H.
- by have [_ H] := runs_same run_stress; exact: H.
Qed.
End Run.
Print Assumptions C122_strain.
Print Assumptions C122_both.
Print Assumptions C122_stress.
Print Assumptions C122_truncated.

(** ** Why whole blocks: the stopping test of a block is shared by its rows *)
Lemma newton_first (X RT JT : Type) (fn : X -> RT * JT) (nrm : RT -> list ext) rtol atol step sub miter throw x0 : (0 < miter)%N ->
  keep_going rtol atol (NewtonProofs.norms fn nrm x0) (NewtonProofs.norms fn nrm x0) = false ->
  exists r, newton_raphson_chunk fn nrm rtol atol step sub miter throw x0 = Ok r /\ res_x r = x0.
Proof.
move=> m0 H; have := NewtonProofs.nr_solve_spec fn nrm rtol atol step sub miter x0; rewrite /newton_raphson_chunk.
set r := nr_solve _ _ _ _ _ _ _ _; cbv zeta => -[_ [H2 [_ [_ [_ [HK _]]]]]].
have i0 : res_iters r = 0%N.
{ case: (posnP (res_iters r)) => // /ltP p; by have := HK 0%N p; rewrite -[NewtonProofs.point _ _ _ _ 0]/x0 H. }
exists r; rewrite H2 i0; split=> //; case: Nat.eqb_spec => // e; by rewrite -e in m0.
Qed.
Lemma newton_second (X RT JT : Type) (fn : X -> RT * JT) (nrm : RT -> list ext) rtol atol step sub miter throw x0 (x1 := NewtonProofs.update fn step sub x0) : (1 < miter)%N ->
  keep_going rtol atol (NewtonProofs.norms fn nrm x0) (NewtonProofs.norms fn nrm x0) = true ->
  keep_going rtol atol (NewtonProofs.norms fn nrm x1) (NewtonProofs.norms fn nrm x0) = false ->
  exists r, newton_raphson_chunk fn nrm rtol atol step sub miter throw x0 = Ok r /\ res_x r = x1.
Proof.
move=> m1 H0 H1; have := NewtonProofs.nr_solve_spec fn nrm rtol atol step sub miter x0; rewrite /newton_raphson_chunk.
set r := nr_solve _ _ _ _ _ _ _ _; cbv zeta => -[_ [H2 [_ [_ [_ [HK HF]]]]]].
have i1 : res_iters r = 1%N.
{ case E: (res_iters r) => [|[|i]] //.
  - have lt : (res_iters r < miter)%coq_nat by rewrite E; apply/ltP; exact: ltnW.
    by have := HF lt; rewrite H2 E -[NewtonProofs.point _ _ _ _ 0]/x0 H0.
  - have lt : (1 < res_iters r)%coq_nat by rewrite E; apply/ltP.
    by have := HK 1%N lt; rewrite -[NewtonProofs.point _ _ _ _ 1]/x1 H1. }
exists r; rewrite H2 i1; split=> //; case: Nat.eqb_spec => // e; by rewrite -e in m1.
Qed.

Section Unaligned.
Variables (a rtol : R) (lm : lin_method) (miter : nat) (throw : bool) (n nt : nat).
Hypotheses (a0 : (0 < a)%Re) (r0 : (0 <= rtol < 1)%Re) (m1 : (1 < miter)%N) (n1 : (1 < n)%N) (nt1 : (1 < nt)%N) (nt3 : (nt <= 3)%N).
Let B := Models.inelastic (fun _ => 1%Re) Props_Pipeline.no_flow.
Let tt (k b : nat) : R := INR k.
Let ee (k b : nat) : R := (if k == 2%N then 3 * a else if k == 1%N then a else 0)%Re.
Let TT (k b : nat) : R := 0%Re.
Let c (k : nat) : R := (if k == 1%N then a else 2 * a)%Re.
Let G := fun (_ : nat) (ts : nat -> TB RF 1) y => (func_rate (@strain_f B 1 nt tt ee TT) ts y, func_jac (@strain_J B 1 nt tt ee TT) ts y).
Let t0 := time_table 1 tt 0%N.
Let ts (j : nat) := time_table 1 tt (1 + j)%N.
Let L := nt.-1.
Lemma un_grid : times_increase 1 nt tt.
Proof. move=> b _ i j ij _; exact: lt_INR. Qed.
Lemma un_block : affine_block G L t0 ts (fun _ _ => 0) (fun k _ => const_mx (c k : RF)).
Proof.
move=> Y [//|k] b _ kL; rewrite mul0mx add0r.
have kn : (k.+1 < nt)%N by rewrite -(prednK (ltnW nt1)) ltnS.
have tE : ts k b = tt k.+1 b by rewrite /ts ffunE.
have eE : interp_at nt tt (table_rates tt ee) b (ts k b) = c k.+1.
{ rewrite tE (@interp_knot 1) //; last exact: un_grid. rewrite (@rates_knot 1 nt) //; last exact: un_grid. rewrite /step_rate /ee /tt /c /=.
  have {kL}: (k < 2)%N := leq_trans kn nt3. case: k {tE kn} => [|[|//]] _ /=; field. }
split; [apply/colP => i|apply/matrixP => i j]; rewrite /G /= /func_rate /func_jac ffunE [LHS]mxE [RHS]mxE (ord1 i) ?(ord1 j) eE /= /Slices.cat /=.
- have Fl (u : R) : (1 * (u - 0) = u)%Re by ring. exact: Fl.
- have Fl : (- (1) * 0 = 0)%Re by ring. exact: Fl.
Qed.
Let rfn := block_RJG G BackwardEuler L t0 ts (zeroV RF 1 1).
Let x0 : tens2 RF := @flat RF 1 1 (fun j => if (j < L)%N then zeroV RF 1 1 else zeroV RF 1 1).
Lemma un_res0 k (b : 'I_1) : (k < L)%N -> fst (rfn x0) b k = (- c k.+1)%Re.
Proof.
move=> kL; have /ffunP/(_ b)/colP/(_ ord0) := @beG_rfn_res RF 1 1 G L t0 ts (zeroV RF 1 1) _ _ un_block x0 k kL.
rewrite blkVE muln1 addn0 => ->; rewrite [beG_res _ _ _ _ _ _ _ _]ffunE mul0mx add0r !mxE.
have z j : dys 1 1 x0 j b ord0 ord0 = 0 by case: j => [|j] /=; rewrite ?blkV_flat ?if_same ffunE mxE.
rewrite !z; have -> : block_times t0 ts k.+1 b - block_times t0 ts k b = 1%Re :> R.
{ have E j : block_times t0 ts j b = INR j by case: j => [|j] /=; rewrite /t0 /ts ffunE /tt. rewrite !E S_INR; have Fl (u : R) : (u + 1 - u = 1)%Re by ring. exact: Fl. }
have Fl (u : R) : (0 - 0 - 1 * u = - u)%Re by ring. exact: Fl.
Qed.
Lemma un_exact k (b : 'I_1) (x1 := NewtonProofs.update rfn (block_linsolve lm L) (@tsub RF) x0) : (k < L)%N -> fst (rfn x1) b k = 0.
Proof.
move=> kL; have u : forall k b, (k < L)%N -> (1%:M - (block_times t0 ts k.+1 b - block_times t0 ts k b) *: (0 : 'M[RF]_1)) \in unitmx by move=> *; rewrite scaler0 subr0 unitmx1.
have L0 : (0 < L)%N by exact: leq_ltn_trans kL.
have H := @beG_affine_update RF 1 1 G L t0 ts (zeroV RF 1 1) _ _ un_block lm x0 L0 u k kL.
have := @beG_rfn_res RF 1 1 G L t0 ts (zeroV RF 1 1) _ _ un_block x1 k kL; rewrite H => /ffunP/(_ b)/colP/(_ ord0).
by rewrite blkVE muln1 addn0 ffunE mxE.
Qed.
Lemma un_row1 (b : 'I_1) (x1 := NewtonProofs.update rfn (block_linsolve lm L) (@tsub RF) x0) : blkV 1 1 x1 0 b ord0 ord0 = a.
Proof.
have L0 : (0 < L)%N by rewrite -ltnS prednK // ltnW.
have := un_exact b L0; rewrite -[NewtonProofs.update _ _ _ _]/x1.
have := @beG_rfn_res RF 1 1 G L t0 ts (zeroV RF 1 1) _ _ un_block x1 0 L0 => /ffunP/(_ b)/colP/(_ ord0).
rewrite blkVE muln1 addn0 => -> ; rewrite [beG_res _ _ _ _ _ _ _ _]ffunE mul0mx add0r !mxE.
have -> : block_times t0 ts 1 b - block_times t0 ts 0 b = 1%Re :> R.
{ rewrite /= /t0 /ts !ffunE /tt /=; have Fl : (1 - 0 = 1)%Re by ring. exact: Fl. }
have -> : dys 1 1 x1 0 b ord0 ord0 = 0%Re by rewrite /= ffunE mxE.
rewrite -[dys 1 1 x1 1]/(blkV 1 1 x1 0) /c /=; move: (blkV _ _ _ _ _ _ _) => z h.
have Fl (u w : R) : (u - 0 - 1 * w = 0 -> u = w)%Re by lra. exact: Fl.
Qed.
Lemma un_run init (r : nr_result (tens2 RF) ((nat -> MB RF 1 1) * (nat -> MB RF 1 1))) :
  newton_raphson_chunk rfn (nrmR 1 1 L) rtol a (block_linsolve lm L) (@tsub RF) miter throw x0 = Ok r ->
  exists st, @solve_strain B 1 nt tt ee TT BackwardEuler lm rtol a miter throw "zero" n init = inl st /\ i_result st 1%N = blkV 1 1 (res_x r) 0.
Proof.
move=> H; rewrite /solve_strain -integrateG_pointwise /integrateG -/G (gtn_eqF (ltnW nt1)) (gtn_eqF (ltnW n1)).
have sl : slice_len nt 1 (1 + n) = L.
{ rewrite /slice_len /L; have le : (nt <= 1 + n)%N by apply: leq_trans nt3 _; rewrite add1n ltnS. by rewrite (minn_idPr le) subn1. }
have E : @block_updateG RF 1 1 G BackwardEuler lm (nrmR 1 1) rtol a miter throw L (time_table 1 tt 0%N) ts (zeroV RF 1 1) x0 =
  Ok (fun k => addV (blkV 1 1 (res_x r) k) (zeroV RF 1 1)) by rewrite /block_updateG -/rfn H.
suff main f st0 : i_result st0 0%N = zeroV RF 1 1 -> exists st, int_loopG G BackwardEuler lm (nrmR 1 1) rtol a miter throw f.+1 "zero" n nt (time_table 1 tt) 1 st0 = inl st /\
  i_result st 1%N = blkV 1 1 (res_x r) 0.
{ have := main L {| i_result := fun j => if j == 0%N then zeroV RF 1 1 else init j; i_writes := [:: 0%N]; i_warned := [::] |} erefl. by rewrite [L.+1](prednK (ltnW nt1)). }
move=> z0; rewrite Props_Global.loop_step nt1 /int_stepG guess_zero sl eqxx [~~ true]/= -[(1 - 1)%N]/0%N.
have -> : @flat RF 1 1 (fun j => if (j < L)%N then zeroV RF 1 1 else zeroV RF 1 1) = x0 by [].
rewrite z0 E; eexists; split; first by apply: (@Props_Global.loop_done 1 1 G); apply: leq_trans nt3 _; rewrite add1n ltnS.
have L0 : (1 < 1 + L)%N by rewrite add1n ltnS -ltnS prednK // ltnW.
rewrite /= L0; apply/ffunP => b; by rewrite !ffunE addr0.
Qed.
Lemma un_sum : L = 1%N \/ L = 2%N.
Proof. by rewrite /L; move: nt1 nt3; case: (nt) => [|[|[|[|]]]] //; [left|right]. Qed.
Lemma un_short init : L = 1%N ->
  exists st, @solve_strain B 1 nt tt ee TT BackwardEuler lm rtol a miter throw "zero" n init = inl st /\ i_result st 1%N ord0 ord0 ord0 = 0%Re.
Proof.
move=> L1.
have K : keep_going rtol a (NewtonProofs.norms rfn (nrmR 1 1 L) x0) (NewtonProofs.norms rfn (nrmR 1 1 L) x0) = false.
{ rewrite /keep_going /NewtonProofs.norms (NewtonProofs.any_gt_all_le _ a) //.
  rewrite /nrmR /=; constructor; [|by constructor]. eexists; split; first reflexivity.
  have e : fst (rfn x0) 0%N 0%N = (- a)%Re by apply: (@un_res0 0 (ord0 : 'I_1)); rewrite L1.
  have -> : sumsq (L * 1) (fst (rfn x0) 0%N) = (- a * - a)%R by rewrite /sumsq L1 muln1 big_ord1 -[nat_of_ord ord0]/0%N e.
  have -> : ((- a) * (- a) = a * a :> RF)%R by rewrite mulrNN.
  rewrite sqrt_square; lra. }
have [r [H1 H2]] := newton_first (block_linsolve lm L) (@tsub RF) throw (ltnW m1) K.
have [st [S1 S2]] := un_run init H1; exists st; split=> //; rewrite S2 H2 /x0 blkV_flat if_same ffunE mxE //.
Qed.
Lemma un_long init : L = 2%N ->
  exists st, @solve_strain B 1 nt tt ee TT BackwardEuler lm rtol a miter throw "zero" n init = inl st /\ i_result st 1%N ord0 ord0 ord0 = a.
Proof.
move=> L2.
have N0 : (a < sqrt (sumsq (L * 1) (fst (rfn x0) 0%N)))%Re.
{ have e : fst (rfn x0) 0%N 0%N = (- a)%Re by apply: (@un_res0 0 (ord0 : 'I_1)); rewrite L2.
  have e' : fst (rfn x0) 0%N 1%N = (- (2 * a))%Re by apply: (@un_res0 1 (ord0 : 'I_1)); rewrite L2.
  have -> : sumsq (L * 1) (fst (rfn x0) 0%N) = ((- a) * (- a) + (- (2 * a)) * (- (2 * a)))%Re by rewrite /sumsq L2 muln1 big_ord_recl big_ord1 -[nat_of_ord ord0]/0%N -[nat_of_ord (lift _ _)]/1%N e e'.
  rewrite -[X in (X < _)%Re](sqrt_square a); last lra. apply: sqrt_lt_1_alt.
  have Fl : (0 <= a * a < (- a) * (- a) + (- (2 * a)) * (- (2 * a)))%Re by nra. exact: Fl. }
have K0 : keep_going rtol a (NewtonProofs.norms rfn (nrmR 1 1 L) x0) (NewtonProofs.norms rfn (nrmR 1 1 L) x0) = true.
{ apply: Bool.not_false_is_true => K.
  have [al|rl] := NewtonProofs.keep_going_false rtol a _ _ (Props_Global.nrmR_len 1 1 L _ _) (nrmR_nonan 1 1 L _) (nrmR_finite 1 1 L _) K.
  - have h := nrmR_all_le al (ltn0Sn 0); exact: (Rlt_irrefl a (Rlt_le_trans _ _ _ N0 h)).
  - have h := nrmR_all_le_rel rl (ltn0Sn 0); move: N0 h; move: (sqrt _) => z h1 h2.
    have Fl (u : R) : (a < u -> u <= rtol * u -> False)%Re by nra. exact: Fl h1 h2. }
have K1 : keep_going rtol a (NewtonProofs.norms rfn (nrmR 1 1 L) (NewtonProofs.update rfn (block_linsolve lm L) (@tsub RF) x0)) (NewtonProofs.norms rfn (nrmR 1 1 L) x0) = false.
{ rewrite /keep_going /NewtonProofs.norms (NewtonProofs.any_gt_all_le _ a) //.
  have Z := @nrmR_zero 1 1 L (fst (rfn (NewtonProofs.update rfn (block_linsolve lm L) (@tsub RF) x0))).
  have {}Z := Z ltac:(move=> [|//] idx _; rewrite muln1 => i2; exact: (un_exact (ord0 : 'I_1) i2)).
  apply: List.Forall_impl Z => ex [q [-> hq]]; exists q; split=> //; lra. }
have [r [H1 H2]] := newton_second throw m1 K0 K1.
have [st [S1 S2]] := un_run init H1; exists st; split=> //; rewrite S2 H2; exact: un_row1.
Qed.
End Unaligned.

(** Inside a block it is otherwise: for every absolute tolerance a there is a test of a linear elastic bar (E = 1, strains 0, a, 3 a at the
    times 0, 1, 2, blocks of two or more steps) whose second row is 0 when the test is cut off after it and a when it is not. *)
Theorem C122_blocks_needed a rtol lm miter throw n init : (0 < a)%Re -> (0 <= rtol < 1)%Re -> (1 < miter)%N -> (1 < n)%N ->
  let run nt := @solve_strain (Models.inelastic (fun _ => 1%Re) Props_Pipeline.no_flow) 1 nt (fun k _ => INR k) (fun k _ => if k == 2%N then 3 * a else if k == 1%N then a else 0)%Re (fun _ _ => 0%Re)
    BackwardEuler lm rtol a miter throw "zero" n init in
  exists st st', run 2%N = inl st /\ run 3%N = inl st' /\ entry st 1 ord0 0 = 0%Re /\ entry st' 1 ord0 0 = a.
Proof.
move=> a0 r0 m1 n1 run.
have [st [S1 S2]] := @un_short a rtol lm miter throw n 2 a0 m1 n1 isT isT init erefl.
have [st' [S1' S2']] := @un_long a rtol lm miter throw n 3 a0 r0 m1 n1 isT isT init erefl.
exists st, st'; split; [exact: S1|split; [exact: S1'|split]].
- by rewrite -S2; exact: (@entryE _ _ st 1 ord0 ord0).
- by rewrite -S2'; exact: (@entryE _ _ st' 1 ord0 ord0).
Qed.
Print Assumptions C122_blocks_needed.
(** A test reversed after row 4 against the monotonic one, and its first five rows alone: blocks of two steps, every material and mixed control. *)
Example C122_ex B s lm rtol atol miter throw gt control init : 
  let up (k b : nat) := (INR k / 1000)%Re in let down (k b : nat) := (if (k <= 4)%N then INR k / 1000 else (8 - INR k) / 1000)%Re in
  let run nt data := @solve_both B 3 nt (fun k _ => INR k) data (fun _ _ => 500%Re) control s lm rtol atol miter throw gt 2 init in
  agree_until 4 (run 7%N up) (run 9%N down) /\ truncation_agrees 4 (run 5%N up) (run 9%N down).
Proof.
move=> up down run; have G nt : times_increase 3 nt (fun k _ => INR k) by move=> b _ i j ij _; exact: lt_INR.
have E : same_rows 3 (2 * 2) up down by move=> k b k4 _; rewrite /up /down (k4 : (k <= 4)%N).
have H7 := @C122_both B s lm rtol atol miter throw gt 2 2 3 7 9 _ _ up down _ _ control init init isT isT isT (G _) (G _) (fun _ _ _ _ => erefl) E (fun _ _ _ _ => erefl).
split; first exact: H7.
have [_ [H _]] := @C122_truncated B s lm rtol atol miter throw gt 2 2 3 5 9 (fun k _ => INR k) (fun k _ => INR k) up down (fun _ _ => 500%Re) (fun _ _ => 500%Re) control init init isT isT isT (G 5%N) (G 9%N) (fun _ _ _ _ => erefl) E (fun _ _ _ _ => erefl) erefl.
exact: H.
Qed.
Print Assumptions C122_ex.
