(** A uniform change of the unit of the states: two integrations (ode.py 354-519) whose states are proportional make the same decisions and
    return proportional results, provided the products (time step) x (rate) are proportional, the products (time step) x (Jacobian) are equal
    and the absolute tolerance is expressed in the new unit. *)
From Coq Require Import Reals List String Lia Lra.
From mathcomp Require Import all_ssreflect all_algebra.
From Verif Require Import ChunkModel ChunkSolve ChunkInst BlockDiag NewtonModel Ode OdeForward RField OdeReal OdeBlock NewtonLocal ChunkRel OdeLocal OdeSym.
Import GRing.Theory.
Set Implicit Arguments. Unset Strict Implicit. Unset Printing Implicit Defensive.
Local Open Scope ring_scope.
Delimit Scope R_scope with Re.

Section Lin.
Variables (F : fieldType) (nb m : nat) (c : F).
Definition sclV (v v' : VB F nb m) : Prop := forall b, v' b = c *: v b.
Definition sclM (A A' : MB F nb m) : Prop := forall b, A' b = A b.
Definition sclT (n : nat) (x x' : tens2 F) : Prop := forall k, (k < n)%N -> sclV (blkV nb m x k) (blkV nb m x' k).
Lemma sclT_entry n x x' (b : 'I_nb) idx : sclT n x x' -> (idx < n * m)%N -> x' b idx = c * x b idx.
Proof.
move=> H il; have m0 : (0 < m)%N by move: il; case: (m) => //; rewrite muln0.
have kl : (idx %/ m < n)%N by rewrite ltn_divLR.
have := H _ kl b; move=> /colP/(_ (Ordinal (ltn_pmod idx m0))).
by rewrite mxE !blkVE /= -divn_eq.
Qed.
Lemma scl_tsub n (x x' d d' : tens2 F) : sclT n x x' -> sclT n d d' -> sclT n (tsub x d) (tsub x' d').
Proof.
move=> H L k kn b; have := L k kn b; have := H k kn b.
move=> /colP E1 /colP E2; apply/colP => j; move: (E1 j) (E2 j); rewrite !mxE !blkVE /tsub => -> ->; by rewrite mulrBr.
Qed.
Lemma sclM_eq a a' : sclM a a' -> a' = a. Proof. by move=> H; apply/ffunP. Qed.
Lemma scl_mul a a' b b' : sclM a a' -> sclM b b' -> sclM (bmul (fops F nb m) a b) (bmul (fops F nb m) a' b').
Proof. by move=> /sclM_eq -> /sclM_eq ->. Qed.
Lemma scl_opp a a' : sclM a a' -> sclM (bopp (fops F nb m) a) (bopp (fops F nb m) a').
Proof. by move=> /sclM_eq ->. Qed.
Lemma scl_zero : sclM (bzero (fops F nb m)) (bzero (fops F nb m)). Proof. by []. Qed.
Lemma scl_act a a' v v' : sclM a a' -> sclV v v' -> sclV (bact (fops F nb m) a v) (bact (fops F nb m) a' v').
Proof. by move=> /sclM_eq -> Hv i; rewrite [LHS]ffunE Hv -scalemxAr; congr (_ *: _); rewrite [RHS]ffunE. Qed.
Lemma scl_sub v v' w w' : sclV v v' -> sclV w w' -> sclV (bsub (fops F nb m) v w) (bsub (fops F nb m) v' w').
Proof. by move=> Hv Hw i; rewrite [LHS]ffunE Hv Hw -scalerBr; congr (_ *: _); rewrite [RHS]ffunE. Qed.
Lemma scl_solve a a' v v' : sclM a a' -> sclV v v' -> sclV (bsolve (fops F nb m) a v) (bsolve (fops F nb m) a' v').
Proof. by move=> /sclM_eq -> Hv i; rewrite [LHS]ffunE Hv -scalemxAr; congr (_ *: _); rewrite [RHS]ffunE. Qed.
Lemma scl_solveM a a' b b' : sclM a a' -> sclM b b' -> sclM (bsolveM (fops F nb m) a b) (bsolveM (fops F nb m) a' b').
Proof. by move=> /sclM_eq -> /sclM_eq ->. Qed.
Lemma linsolve_scl lm n (A B A' B' : nat -> MB F nb m) r r' : (0 < n)%N ->
  (forall k, (k < n)%N -> sclM (A k) (A' k)) -> (forall k, (k.+1 < n)%N -> sclM (B k) (B' k)) -> sclT n r r' ->
  sclT n (block_linsolve lm n (A, B) r) (block_linsolve lm n (A', B') r').
Proof.
move=> n0 HA HB Hr; case: lm => [|mth].
- rewrite /block_linsolve -[(A, B).1]/A -[(A, B).2]/B -[(A', B').1]/A' -[(A', B').2]/B' /ctx_solve /solve_dense.
  have [X [-> [_ S]]] := @to_diag_ok F m n (unblkM A) (unblkM B) n0.
  have [X' [-> [_ S']]] := @to_diag_ok F m n (unblkM A') (unblkM B') n0.
  move=> k kn b; apply/colP => j; rewrite mxE !blkVE.
  have m0 : (0 < m)%N by exact: leq_ltn_trans (ltn_ord j).
  case: insubP => [u _ uE|_]; last by rewrite mulr0.
  have -> : \matrix_(r0 < n * m, c < n * m) to_dense 0 X' b r0 c = \matrix_(r0 < n * m, c < n * m) to_dense 0 X b r0 c.
  { apply/matrixP => p q; rewrite !mxE.
    have pl : (p %/ m < n)%N by rewrite ltn_divLR. have ql : (q %/ m < n)%N by rewrite ltn_divLR.
    have -> : to_dense 0 X' b p q = to_dense 0 X' b (p %/ m * m + p %% m)%N (q %/ m * m + q %% m)%N by rewrite -!divn_eq.
    have -> : to_dense 0 X b p q = to_dense 0 X b (p %/ m * m + p %% m)%N (q %/ m * m + q %% m)%N by rewrite -!divn_eq.
    rewrite S' ?ltn_pmod // S ?ltn_pmod // /unblkM.
    rewrite !valK !(insubT (fun i => i < m)%N (ltn_pmod _ m0)).
    case: eqP => [e|_]; first by rewrite (HA _ pl b).
    case: eqP => [e|_] //. by rewrite (HB (q %/ m)%N) ?e. }
  have -> : \col_(r0 < n * m) r' b r0 = c *: \col_(r0 < n * m) r b r0.
  { apply/colP => p; rewrite !mxE; apply: (@sclT_entry n) => //. }
  by rewrite -scalemxAr mxE.
- rewrite /block_linsolve /= /lu_forward.
  have EM n1 (C : nat -> MB F n1 m) : blkM n1 m (unblkM C) = C by apply: FunctionalExtensionality.functional_extensionality => k; exact: blkM_unblkM.
  rewrite !EM.
  have := @matvec_rel _ _ _ _ (fops F nb m) (fops F nb m) sclM sclV scl_mul scl_opp scl_zero scl_act scl_sub scl_solve scl_solveM mth n A A' B B' (blkV nb m r) (blkV nb m r')
    (elimT ltP n0) (fun k h => HA k (introT ltP h)) (fun k h => HB k ltac:(apply/ltP; have := elimT ltP n0; lia)) (fun k h => Hr k (introT ltP h)).
  case: (matvec _ _ _ _ _ _) => [[x Bx]|]; case: (matvec _ _ _ _ _ _) => [[x' Bx']|] //; last first.
  { by move=> _ k kn b; apply/colP => j; rewrite mxE !blkVE mulr0. }
  by move=> H k kn; rewrite !blkV_flat; apply: H; apply/ltP.
Qed.
End Lin.

Section Test.
Variables (X RT JT : Type) (fn fn' : X -> RT * JT) (nrm nrm' : RT -> list ext) (rtol atol rtol' atol' : R).
Variables (step step' : JT -> RT -> X) (sub sub' : X -> X -> X) (Q : X -> X -> Prop).
Hypothesis same : forall x x' y y', Q x x' -> Q y y' -> keep_going rtol atol (nrm (fst (fn x))) (nrm (fst (fn y))) = keep_going rtol' atol' (nrm' (fst (fn' x'))) (nrm' (fst (fn' y'))).
Hypothesis kept : forall x x', Q x x' -> Q (sub x (step (snd (fn x)) (fst (fn x)))) (sub' x' (step' (snd (fn' x')) (fst (fn' x')))).
(** NewtonLocal.nr_loop_test with the tolerances of the second run in their own units *)
Lemma nr_loop_test2 x0 x0' : Q x0 x0' -> forall rem i ev ev' x x', Q x x' ->
  let r := nr_loop fn nrm rtol atol step sub rem i x Caller (fst (fn x)) (snd (fn x)) (nrm (fst (fn x0))) ev in
  let r' := nr_loop fn' nrm' rtol' atol' step' sub' rem i x' Caller (fst (fn' x')) (snd (fn' x')) (nrm' (fst (fn' x0'))) ev' in
  Q (res_x r) (res_x r') /\ res_iters r = res_iters r'.
Proof.
  intros q0. induction rem as [|rem IH]; intros i ev ev' x x' q; [now split|].
  cbn [nr_loop]. rewrite (same q q0). destruct (keep_going rtol' atol' _ _); [|now split].
  apply IH. now apply kept.
Qed.
Lemma chunk_test2 miter throw x0 x0' : Q x0 x0' ->
  out_rel (fun r r' => Q (res_x r) (res_x r')) (newton_raphson_chunk fn nrm rtol atol step sub miter throw x0) (newton_raphson_chunk fn' nrm' rtol' atol' step' sub' miter throw x0').
Proof.
  intros q. unfold newton_raphson_chunk, nr_solve. destruct (nr_loop_test2 q miter 0%nat (cons x0 nil) (cons x0' nil) q) as [H1 H2]. cbv zeta. rewrite H2.
  destruct (_ =? _)%nat; [destruct throw|]; simpl; auto.
Qed.
End Test.

Section Run.
Variables (nb m : nat) (c : R).
Hypothesis c0 : (0 < c)%Re.
Notation sclV := (@sclV RF nb m c).
Notation sclT := (@sclT RF nb m c).
Notation fnG := (nat -> (nat -> TB RF nb) -> (nat -> VB RF nb m) -> (nat -> VB RF nb m) * (nat -> MB RF nb m)).
Lemma norm_scl n (v v' : tens2 RF) (b : 'I_nb) : sclT n v v' -> sqrt (sumsq (n * m) (v' b)) = (c * sqrt (sumsq (n * m) (v b)))%Re.
Proof.
move=> H; rewrite -[X in (X * _)%Re](sqrt_square c); last exact: Rlt_le.
rewrite -sqrt_mult; [|by apply: Rmult_le_pos; exact: Rlt_le|exact: sumsq_ge0]; congr sqrt.
rewrite /sumsq (_ : (c * c * _)%Re = (c : RF) * c * \sum_(i < n * m) v b i * v b i) // mulr_sumr; apply: eq_bigr => i _; rewrite (sclT_entry b H) //.
by rewrite mulrACA.
Qed.
Lemma gtb_scl x y : gtb (Num (c * x)%Re) (c * y)%Re = gtb (Num x) y.
Proof.
rewrite /= /Rltb; case: (Rlt_dec y x); case: (Rlt_dec (c * y) (c * x)) => // h h'; exfalso.
- apply: h; exact: Rmult_lt_compat_l.
- apply: h'; exact: Rmult_lt_reg_l h.
Qed.
Lemma ediv_scl x y : ediv (Num (c * x)%Re) (Num (c * y)%Re) = ediv (Num x) (Num y).
Proof.
have Z u : (c * u = 0)%Re -> u = 0%Re by move=> h; have [] := Rmult_integral _ _ h; lra.
rewrite /=; case: (Req_EM_T y 0) => [->|hy].
- rewrite Rmult_0_r; case: (Req_EM_T 0 0) => // _; case: (Req_EM_T x 0) => [->|hx]; first by rewrite Rmult_0_r; case: (Req_EM_T 0 0).
  case: (Req_EM_T (c * x) 0) => // e'; by have := hx (Z _ e').
- case: (Req_EM_T (c * y) 0) => e; first by have := hy (Z _ e).
  congr Num; field; split; lra.
Qed.
Lemma test_scl n rtol atol (v v' w w' : tens2 RF) : sclT n v v' -> sclT n w w' ->
  keep_going rtol atol (nrmR nb m n v) (nrmR nb m n w) = keep_going rtol (c * atol)%Re (nrmR nb m n v') (nrmR nb m n w').
Proof.
move=> Hv Hw; rewrite /keep_going /any_gt /any_ratio_gt !existsb_has /nrmR !combine_maps !has_map; congr (_ && _); apply: eq_in_has => b; rewrite mem_iota add0n => /= bn.
- by rewrite (norm_scl (Ordinal bn) Hv) -[RHS]/(gtb (Num _) _) gtb_scl.
- have := ediv_scl (sqrt (sumsq (n * m) (v b))) (sqrt (sumsq (n * m) (w b))); rewrite /= => E.
  by rewrite (norm_scl (Ordinal bn) Hv) (norm_scl (Ordinal bn) Hw) E.
Qed.

(** The increments are proportional, the Jacobians of the increments equal: row i = k + 1 for backward Euler, i = k for forward Euler. *)
Definition scaled_work (s : scheme) (G G' : fnG) (n : nat) (T T' : nat -> TB RF nb) : Prop :=
  forall Y Y', (forall j, (j <= n)%N -> sclV (Y j) (Y' j)) -> forall k, (k < n)%N -> forall b, let i := if s is BackwardEuler then k.+1 else k in
    tdiff T' k b *: (G' n.+1 T' Y').1 i b = (c : RF) *: (tdiff T k b *: (G n.+1 T Y).1 i b) /\
    tdiff T' k b *: (G' n.+1 T' Y').2 i b = tdiff T k b *: (G n.+1 T Y).2 i b.

Section Block.
Variables (G G' : fnG) (s : scheme) (n : nat) (t0 t0' : TB RF nb) (ts ts' : nat -> TB RF nb) (ystart ystart' : VB RF nb m).
Hypotheses (n0 : (0 < n)%N) (Hy : sclV ystart ystart') (HG : scaled_work s G G' n (block_times t0 ts) (block_times t0' ts')).
Let fn := block_RJG G s n t0 ts ystart.
Let fn' := block_RJG G' s n t0' ts' ystart'.
Lemma dys_scl (x x' : tens2 RF) : sclT n x x' -> forall j, (j <= n)%N -> sclV (dys nb m x j) (dys nb m x' j).
Proof. move=> H [|j] jn; last exact: H. by move=> b; rewrite /= !ffunE scaler0. Qed.
Lemma ys_scl (x x' : tens2 RF) : sclT n x x' -> forall j, (j <= n)%N -> sclV (ys x ystart j) (ys x' ystart' j).
Proof. by move=> H j jn b; rewrite [LHS]ffunE (dys_scl H jn) Hy -scalerDr; congr (_ *: _); rewrite [RHS]ffunE. Qed.
Lemma res_scl (x x' : tens2 RF) : sclT n x x' -> sclT n (fst (fn x)) (fst (fn' x')).
Proof.
move=> H k kn b; rewrite /fn /fn' /block_RJG [fst _]/= [fst (flat _, _)]/= !blkV_flat.
rewrite [LHS]ffunE (_ : form_residual _ _ _ _ k b = dys nb m x k.+1 b - dys nb m x k b -
  tdiff (block_times t0 ts) k b *: (G n.+1 (block_times t0 ts) (ys x ystart)).1 (if s is BackwardEuler then k.+1 else k) b); last by rewrite ffunE; case: (s).
rewrite !scalerBr -(dys_scl H kn) -(dys_scl H (ltnW kn)); have [E _] := HG (ys_scl H) kn b; rewrite -E; by case: (s).
Qed.
Lemma upd_scl (x x' : tens2 RF) lm : sclT n x x' ->
  sclT n (tsub x (block_linsolve lm n (snd (fn x)) (fst (fn x)))) (tsub x' (block_linsolve lm n (snd (fn' x')) (fst (fn' x')))).
Proof.
move=> H.
have L : sclT n (block_linsolve lm n (snd (fn x)) (fst (fn x))) (block_linsolve lm n (snd (fn' x')) (fst (fn' x'))).
{ apply: linsolve_scl => // [k kn b|k kn b|]; last exact: res_scl.
  - rewrite [LHS]ffunE (_ : form_A _ _ _ k b = match s with BackwardEuler => 1%:M - tdiff (block_times t0 ts) k b *: (G n.+1 (block_times t0 ts) (ys x ystart)).2 k.+1 b
      | ForwardEuler => 1%:M end); last by rewrite ffunE.
    by move: (HG (ys_scl H) kn b); case: (s) => -[_ E] //; rewrite -E.
  - rewrite [LHS]ffunE (_ : form_B _ _ _ k b = match s with BackwardEuler => - 1%:M
      | ForwardEuler => - 1%:M - tdiff (block_times t0 ts) k.+1 b *: (G n.+1 (block_times t0 ts) (ys x ystart)).2 k.+1 b end); last by rewrite ffunE.
    by move: (HG (ys_scl H) kn b); case: (s) => -[_ E] //; rewrite -E. }
exact: scl_tsub H L.
Qed.
Lemma block_scl lm rtol atol miter throw g g' : sclT n g g' ->
  out_rel (fun o o' => forall k, (k < n)%N -> sclV (o k) (o' k))
    (block_updateG G s lm (nrmR nb m) rtol atol miter throw n t0 ts ystart g) (block_updateG G' s lm (nrmR nb m) rtol (c * atol)%Re miter throw n t0' ts' ystart' g').
Proof.
move=> Hg; have := @chunk_test2 _ _ _ fn fn' (nrmR nb m n) (nrmR nb m n) rtol atol rtol (c * atol)%Re (block_linsolve lm n) (block_linsolve lm n) (@tsub RF) (@tsub RF) (sclT n)
  (fun x x' y y' h h' => test_scl rtol atol (res_scl h) (res_scl h')) (fun x x' h => upd_scl lm h) miter throw g g' Hg.
rewrite /block_updateG -/fn -/fn'; case: (newton_raphson_chunk fn _ _ _ _ _ _ _ _) => [r|r|]; case: (newton_raphson_chunk fn' _ _ _ _ _ _ _ _) => [r'|r'|] //= H k kn b.
all: rewrite [LHS]ffunE H // Hy -scalerDr; congr (_ *: _); by rewrite [RHS]ffunE.
Qed.
End Block.

Section Loop.
Variables (G G' : fnG) (s : scheme) (lm : lin_method) (rtol atol : R) (miter : nat) (throw : bool) (gt : string) (n nt : nat) (t t' : nat -> TB RF nb).
Hypothesis n0 : (0 < n)%N.
Hypothesis HG : forall k, (0 < k)%N -> (k < nt)%N ->
  scaled_work s G G' (slice_len nt k (k + n)) (block_times (t (k - 1)%N) (fun j => t (k + j)%N)) (block_times (t' (k - 1)%N) (fun j => t' (k + j)%N)).
Notation step G t at_ := (int_stepG G s lm (nrmR nb m) rtol at_ miter throw gt n nt t).
Notation loop G t at_ fuel := (int_loopG G s lm (nrmR nb m) rtol at_ miter throw fuel gt n nt t).
(** Rows before k proportional, with the same history of writes and warnings. *)
Definition scl_upto (k : nat) (st st' : istate RF nb m) : Prop :=
  (forall j, (j < k)%N -> (j < nt)%N -> sclV (i_result st j) (i_result st' j)) /\ i_writes st = i_writes st' /\ i_warned st = i_warned st'.
Lemma zero_scl : sclV (zeroV RF nb m) (zeroV RF nb m).
Proof. by move=> b; rewrite !ffunE scaler0. Qed.
Lemma step_scl k st st' : (0 < k)%N -> (k < nt)%N -> scl_upto k st st' -> rel_sum (scl_upto (k + n)) (step G t atol k st) (step G' t' (c * atol)%Re k st').
Proof.
move=> k0 kn [Hr [Hw Ha]]; rewrite /int_stepG; set len := slice_len nt k (k + n).
have k1 : (k - 1 < k)%N by rewrite subn1 ltn_predL.
have len0 : (0 < len)%N by rewrite /len /slice_len subn_gt0 leq_min kn andbT -[X in (X < _)%N]addn0 ltn_add2l.
have GE : match initial_guess gt n nt (i_result st) k, initial_guess gt n nt (i_result st') k with
  | Some (l, g), Some (l', g') => l = l' /\ forall j, (j < l)%N -> (l <= len)%N -> sclV (g j) (g' j) | None, None => True | _, _ => False end.
{ rewrite /initial_guess -/len; case: String.eqb; first by split=> // j _ _; exact: zero_scl.
  case: String.eqb => //; case: ltnP => h.
  - by split=> // j _ _; exact: zero_scl.
  - have nk : (n <= k)%N by apply: leq_trans h; exact: leq_addr.
    have sl : slice_len nt (k - n) k = n by rewrite /slice_len (minn_idPl (ltnW kn)) subKn.
    rewrite sl; split=> // j jl _; set i := (n - len + j)%N.
    have ik : (k - n + i < k)%N by rewrite -ltn_subRL subKn // /i -ltn_subRL.
    have jk : (k - n - 1 < k)%N by apply: leq_ltn_trans (leq_subr _ _) _; rewrite ltn_subrL n0.
    by move=> b; rewrite [LHS]ffunE (Hr _ ik (ltn_trans ik kn)) (Hr _ jk (ltn_trans jk kn)) -scalerBr; congr (_ *: _); rewrite [RHS]ffunE. }
move: GE; case: (initial_guess gt n nt (i_result st) k) => [[l g]|]; case: (initial_guess gt n nt (i_result st') k) => [[l' g']|] // -[<- Hg].
case: eqP => [ln|//] /=; rewrite ln.
have Hg' : sclT len (flat (fun j => if (j < len)%N then g j else zeroV RF nb m)) (flat (fun j => if (j < len)%N then g' j else zeroV RF nb m)).
{ move=> j jn; rewrite !blkV_flat jn; apply: Hg; rewrite ln //. }
have := @block_scl G G' s len (t (k - 1)%N) (t' (k - 1)%N) (fun j => t (k + j)%N) (fun j => t' (k + j)%N) (i_result st (k - 1)%N) (i_result st' (k - 1)%N)
  len0 (Hr _ k1 (ltn_trans k1 kn)) (HG k0 kn) lm rtol atol miter throw _ _ Hg'.
have kl j : (j < k + n)%N -> (j < nt)%N -> (k <= j < k + len)%N = (k <= j)%N.
{ move=> j1 j2; case: (leqP k j) => //= kj; have le : (k <= minn (k + n) nt)%N by rewrite leq_min leq_addr ltnW.
  by rewrite /len /slice_len (subnKC le) leq_min j1 j2. }
case: (block_updateG G _ _ _ _ _ _ _ _ _ _ _ _) => [o|o|]; case: (block_updateG G' _ _ _ _ _ _ _ _ _ _ _ _) => [o'|o'|] //= H;
  (split; [|by rewrite /= Hw Ha]) => j jk jt /=; rewrite (kl j jk jt); case: leqP => hj.
all: try (by apply: Hr).
all: apply: H; rewrite ltn_subLR //; move: (kl j jk jt); by rewrite hj => /andP[].
Qed.
Lemma loop_scl : forall fuel k st st', (0 < k)%N -> (nt <= fuel + k)%N -> scl_upto k st st' -> rel_sum (scl_upto nt) (loop G t atol fuel k st) (loop G' t' (c * atol)%Re fuel k st').
Proof.
have done k st st' : (nt <= k)%N -> scl_upto k st st' -> scl_upto nt st st' by move=> kn [H1 H2]; split=> // j jn _; apply: H1 => //; exact: leq_trans kn.
elim=> [|fuel IH] k st st' k0 kf H.
- by rewrite /= ltnNge kf /=; apply: done H.
- rewrite [int_loopG G _ _ _ _ _ _ _ _ _ _ _ _ _ _]/= [int_loopG G' _ _ _ _ _ _ _ _ _ _ _ _ _ _]/=; case: ltnP => kn; last exact: done H.
  have := step_scl k0 kn H; case: (step G t atol k st) => [s1|e]; case: (step G' t' (c * atol)%Re k st') => [s1'|e'] //= H1.
  apply: IH => //; first exact: ltn_addr. by apply: leq_trans kf _; rewrite addSnnS leq_add2l -addn1 leq_add2l.
Qed.
Lemma integrate_scl y0 y0' init init' : sclV y0 y0' ->
  rel_sum (scl_upto nt) (integrateG G s lm (nrmR nb m) rtol atol miter throw gt n nt t y0 init) (integrateG G' s lm (nrmR nb m) rtol (c * atol)%Re miter throw gt n nt t' y0' init').
Proof.
move=> H0; rewrite /integrateG; case: eqP => // _; case: eqP => // _; apply: loop_scl => //; first exact: leq_addr.
by split=> // -[|j].
Qed.
End Loop.
End Run.
