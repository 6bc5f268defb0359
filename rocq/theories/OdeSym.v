(** Symmetries of a simulation: two integrations (ode.py 354-519) whose batches correspond under a map of the entries and whose states
    correspond up to the signs of their components make the same decisions and return corresponding results, provided the products
    (time step) x (rate) and (time step) x (Jacobian) correspond. *)
From Coq Require Import Reals List String Lia.
From mathcomp Require Import all_ssreflect all_algebra.
From Verif Require Import ChunkModel ChunkSolve ChunkInst BlockDiag NewtonModel Ode OdeForward RField OdeReal OdeBlock NewtonLocal ChunkRel OdeLocal.
Import GRing.Theory.
Set Implicit Arguments. Unset Strict Implicit. Unset Printing Implicit Defensive.
Local Open Scope ring_scope.

Section Conj.
Variables (F : fieldType).
Lemma invmx_conj n (D A : 'M[F]_n) : D *m D = 1%:M -> invmx (D *m A *m D) = D *m invmx A *m D.
Proof.
move=> DD; have Du : D \in unitmx by have [] := mulmx1_unit DD.
case Au: (A \in unitmx).
- have U : D *m A *m D \in unitmx by rewrite !unitmx_mul Du Au.
  apply: (can_inj (mulKmx U)); rewrite mulmxV // !mulmxA -(mulmxA (D *m A) D D) DD mulmx1 -(mulmxA D A) mulmxV // mulmx1 DD //.
- have N : (D *m A *m D \in unitmx) = false by rewrite !unitmx_mul Du Au.
  by rewrite /invmx N Au.
Qed.
Definition sgm (sg : nat -> F) n m : 'M[F]_n := diag_mx (\row_j sg (j %% m)%N).
Lemma sgm_mulV sg n m (v : 'cV[F]_n) i : (sgm sg n m *m v) i 0 = sg (i %% m)%N * v i 0.
Proof. by rewrite /sgm mul_diag_mx !mxE. Qed.
Lemma sgm_conj sg n m (A : 'M[F]_n) i j : (sgm sg n m *m A *m sgm sg n m) i j = sg (i %% m)%N * A i j * sg (j %% m)%N.
Proof. by rewrite /sgm mul_mx_diag mul_diag_mx !mxE. Qed.
Lemma sgm_sq sg n m : (forall j, sg j * sg j = 1) -> sgm sg n m *m sgm sg n m = 1%:M.
Proof. by move=> H; apply/matrixP => i j; rewrite /sgm mul_mx_diag !mxE; case: eqP => [->|_]; rewrite ?mulr1n ?H // mulr0n mul0r. Qed.
End Conj.

Section Lin.
Variables (F : fieldType) (nb nb' m : nat) (sigma : 'I_nb' -> 'I_nb) (sg : nat -> F).
Hypothesis sg1 : forall j, sg j * sg j = 1.
Notation D := (sgm sg m m).
Definition relV (v : VB F nb m) (v' : VB F nb' m) : Prop := forall b, v' b = D *m v (sigma b).
Definition relM (A : MB F nb m) (A' : MB F nb' m) : Prop := forall b, A' b = D *m A (sigma b) *m D.
Definition relT (n : nat) (x x' : tens2 F) : Prop := forall k, (k < n)%N -> relV (blkV nb m x k) (blkV nb' m x' k).
Lemma DD : D *m D = 1%:M. Proof. exact: sgm_sq. Qed.
Lemma relT_entry n x x' (b : 'I_nb') idx : relT n x x' -> (idx < n * m)%N -> x' b idx = sg (idx %% m)%N * x (sigma b) idx.
Proof.
move=> H il; have m0 : (0 < m)%N by move: il; case: (m) => //; rewrite muln0.
have kl : (idx %/ m < n)%N by rewrite ltn_divLR.
have := H _ kl b; move=> /colP/(_ (Ordinal (ltn_pmod idx m0))).
by rewrite sgm_mulV !blkVE /= -divn_eq modn_mod.
Qed.
Lemma sub_rel n (x x' d d' : tens2 F) : relT n x x' -> relT n d d' -> relT n (tsub x d) (tsub x' d').
Proof.
move=> H L k kn b; have := L k kn b; have := H k kn b.
move=> /colP E1 /colP E2; apply/colP => j; move: (E1 j) (E2 j); rewrite !sgm_mulV !blkVE /tsub => -> ->; by rewrite mulrBr.
Qed.
Lemma conj_act (A : 'M[F]_m) (v : 'cV[F]_m) : D *m A *m D *m (D *m v) = D *m (A *m v).
Proof. by rewrite !mulmxA -(mulmxA _ D D) DD mulmx1. Qed.
Lemma conj_mul (A B : 'M[F]_m) : D *m A *m D *m (D *m B *m D) = D *m (A *m B) *m D.
Proof. by rewrite !mulmxA -(mulmxA _ D D) DD mulmx1. Qed.
Lemma rel_mul a a' b b' : relM a a' -> relM b b' -> relM (bmul (fops F nb m) a b) (bmul (fops F nb' m) a' b').
Proof. by move=> Ha Hb i; rewrite [LHS]ffunE Ha Hb conj_mul; congr (_ *m _ *m _); rewrite [RHS]ffunE. Qed.
Lemma rel_opp a a' : relM a a' -> relM (bopp (fops F nb m) a) (bopp (fops F nb' m) a').
Proof. by move=> Ha i; rewrite [LHS]ffunE Ha -mulNmx -mulmxN; congr (_ *m _ *m _); rewrite [RHS]ffunE. Qed.
Lemma rel_zero : relM (bzero (fops F nb m)) (bzero (fops F nb' m)).
Proof. move=> i; rewrite [LHS]ffunE. rewrite (_ : bzero (fops F nb m) (sigma i) = 0); [by rewrite mulmx0 mul0mx|exact: ffunE]. Qed.
Lemma rel_act a a' v v' : relM a a' -> relV v v' -> relV (bact (fops F nb m) a v) (bact (fops F nb' m) a' v').
Proof. by move=> Ha Hv i; rewrite [LHS]ffunE Ha Hv conj_act; congr (_ *m _); rewrite [RHS]ffunE. Qed.
Lemma rel_sub v v' w w' : relV v v' -> relV w w' -> relV (bsub (fops F nb m) v w) (bsub (fops F nb' m) v' w').
Proof. by move=> Hv Hw i; rewrite [LHS]ffunE Hv Hw -mulmxBr; congr (_ *m _); rewrite [RHS]ffunE. Qed.
Lemma rel_solve a a' v v' : relM a a' -> relV v v' -> relV (bsolve (fops F nb m) a v) (bsolve (fops F nb' m) a' v').
Proof. by move=> Ha Hv i; rewrite [LHS]ffunE Ha Hv invmx_conj ?DD // conj_act; congr (_ *m _); rewrite [RHS]ffunE. Qed.
Lemma rel_solveM a a' b b' : relM a a' -> relM b b' -> relM (bsolveM (fops F nb m) a b) (bsolveM (fops F nb' m) a' b').
Proof. by move=> Ha Hb i; rewrite [LHS]ffunE Ha Hb invmx_conj ?DD // conj_mul; congr (_ *m _ *m _); rewrite [RHS]ffunE. Qed.
Lemma linsolve_rel lm n (A B : nat -> MB F nb m) (A' B' : nat -> MB F nb' m) r r' : (0 < n)%N ->
  (forall k, (k < n)%N -> relM (A k) (A' k)) -> (forall k, (k.+1 < n)%N -> relM (B k) (B' k)) -> relT n r r' ->
  relT n (block_linsolve lm n (A, B) r) (block_linsolve lm n (A', B') r').
Proof.
move=> n0 HA HB Hr; case: lm => [|mth].
- rewrite /block_linsolve -[(A, B).1]/A -[(A, B).2]/B -[(A', B').1]/A' -[(A', B').2]/B' /ctx_solve /solve_dense.
  have [X [-> [_ S]]] := @to_diag_ok F m n (unblkM A) (unblkM B) n0.
  have [X' [-> [_ S']]] := @to_diag_ok F m n (unblkM A') (unblkM B') n0.
  move=> k kn b; apply/colP => j; rewrite sgm_mulV !blkVE modn_small //.
  have m0 : (0 < m)%N by exact: leq_ltn_trans (ltn_ord j).
  case: insubP => [u _ uE|_]; last by rewrite mulr0.
  have -> : \matrix_(r0 < n * m, c < n * m) to_dense 0 X' b r0 c = sgm sg (n * m) m *m (\matrix_(r0 < n * m, c < n * m) to_dense 0 X (sigma b) r0 c) *m sgm sg (n * m) m.
  { apply/matrixP => p q; rewrite sgm_conj !mxE.
    have pl : (p %/ m < n)%N by rewrite ltn_divLR. have ql : (q %/ m < n)%N by rewrite ltn_divLR.
    have -> : to_dense 0 X' b p q = to_dense 0 X' b (p %/ m * m + p %% m)%N (q %/ m * m + q %% m)%N by rewrite -!divn_eq.
    have -> : to_dense 0 X (sigma b) p q = to_dense 0 X (sigma b) (p %/ m * m + p %% m)%N (q %/ m * m + q %% m)%N by rewrite -!divn_eq.
    rewrite S' ?ltn_pmod // S ?ltn_pmod // /unblkM.
    rewrite !valK !(insubT (fun i => i < m)%N (ltn_pmod _ m0)).
    case: eqP => [e|_]; first by rewrite (HA _ pl b) sgm_conj /= !modn_mod.
    case: eqP => [e|_]; last by rewrite mulr0 mul0r.
    by rewrite (HB (q %/ m)%N) ?e // sgm_conj /= !modn_mod. }
  have -> : \col_(r0 < n * m) r' b r0 = sgm sg (n * m) m *m \col_(r0 < n * m) r (sigma b) r0.
  { apply/colP => p; rewrite sgm_mulV !mxE; apply: (@relT_entry n) => //. }
  rewrite invmx_conj ?sgm_sq // !mulmxA -(mulmxA _ (sgm sg _ m) (sgm sg _ m)) sgm_sq // mulmx1 -!mulmxA sgm_mulV uE.
  by rewrite modnMDl modn_small.
- rewrite /block_linsolve /= /lu_forward.
  have EM n1 (C : nat -> MB F n1 m) : blkM n1 m (unblkM C) = C by apply: FunctionalExtensionality.functional_extensionality => k; exact: blkM_unblkM.
  rewrite !EM.
  have := @matvec_rel _ _ _ _ (fops F nb m) (fops F nb' m) relM relV rel_mul rel_opp rel_zero rel_act rel_sub rel_solve rel_solveM mth n A A' B B' (blkV nb m r) (blkV nb' m r')
    (elimT ltP n0) (fun k h => HA k (introT ltP h)) (fun k h => HB k ltac:(apply/ltP; have := elimT ltP n0; lia)) (fun k h => Hr k (introT ltP h)).
  case: (matvec _ _ _ _ _ _) => [[x Bx]|]; case: (matvec _ _ _ _ _ _) => [[x' Bx']|] //; last first.
  { by move=> _ k kn b; apply/colP => j; rewrite sgm_mulV !blkVE mulr0. }
  by move=> H k kn; rewrite !blkV_flat; apply: H; apply/ltP.
Qed.
End Lin.

Section Run.
Variables (nb nb' m : nat) (sigma : 'I_nb' -> 'I_nb) (sg : nat -> RF).
Hypotheses (sg1 : forall j, sg j * sg j = 1) (onto : forall b, exists b', sigma b' = b).
Notation D := (sgm sg m m).
Notation relV := (@relV RF nb nb' m sigma sg).
Notation relM := (@relM RF nb nb' m sigma sg).
Notation relT := (@relT RF nb nb' m sigma sg).
Notation fnG nb := (nat -> (nat -> TB RF nb) -> (nat -> VB RF nb m) -> (nat -> VB RF nb m) * (nat -> MB RF nb m)).
Lemma norm_rel n (v v' : tens2 RF) (b : 'I_nb') : relT n v v' -> sqrt (sumsq (n * m) (v' b)) = sqrt (sumsq (n * m) (v (sigma b))).
Proof.
move=> H; congr sqrt; apply: eq_bigr => i _; rewrite (relT_entry b H) //.
by rewrite mulrACA sg1 mul1r.
Qed.
Lemma existsb_has T (f : T -> bool) l : existsb f l = has f l.
Proof. by elim: l => //= x l ->. Qed.
Lemma combine_maps T U W (f : T -> U) (g : T -> W) l : combine (map f l) (map g l) = map (fun x => (f x, g x)) l.
Proof. by elim: l => //= x l ->. Qed.
(** An existential test over the entries of a batch. *)
Lemma any_rel (p p' : nat -> bool) : (forall b : 'I_nb', p' b = p (sigma b)) -> has p (iota 0 nb) = has p' (iota 0 nb').
Proof.
move=> H; apply/hasP/hasP => -[b]; rewrite mem_iota /= add0n => bn h.
- have [b' E] := onto (Ordinal bn); exists (nat_of_ord b'); first by rewrite mem_iota /= add0n.
  by rewrite H E.
- exists (nat_of_ord (sigma (Ordinal bn))); first by rewrite mem_iota /= add0n.
  by rewrite -(H (Ordinal bn)).
Qed.
Lemma test_rel n rtol atol (v v' w w' : tens2 RF) : relT n v v' -> relT n w w' ->
  keep_going rtol atol (nrmR nb m n v) (nrmR nb m n w) = keep_going rtol atol (nrmR nb' m n v') (nrmR nb' m n w').
Proof.
move=> Hv Hw; rewrite /keep_going /any_gt /any_ratio_gt !existsb_has /nrmR !combine_maps !has_map; congr (_ && _); apply: any_rel => b /=.
- by rewrite (norm_rel b Hv).
- by rewrite (norm_rel b Hv) (norm_rel b Hw).
Qed.

(** The products with the time step correspond: row i = k + 1 for backward Euler, i = k for forward Euler. *)
Definition same_work (s : scheme) (G : fnG nb) (G' : fnG nb') (n : nat) (T : nat -> TB RF nb) (T' : nat -> TB RF nb') : Prop :=
  forall Y Y', (forall j, (j <= n)%N -> relV (Y j) (Y' j)) -> forall k, (k < n)%N -> forall b, let i := if s is BackwardEuler then k.+1 else k in
    tdiff T' k b *: (G' n.+1 T' Y').1 i b = D *m (tdiff T k (sigma b) *: (G n.+1 T Y).1 i (sigma b)) /\
    tdiff T' k b *: (G' n.+1 T' Y').2 i b = D *m (tdiff T k (sigma b) *: (G n.+1 T Y).2 i (sigma b)) *m D.

Section Block.
Variables (G : fnG nb) (G' : fnG nb') (s : scheme) (n : nat) (t0 : TB RF nb) (t0' : TB RF nb') (ts : nat -> TB RF nb) (ts' : nat -> TB RF nb') (ystart : VB RF nb m) (ystart' : VB RF nb' m).
Hypotheses (n0 : (0 < n)%N) (Hy : relV ystart ystart') (HG : same_work s G G' n (block_times t0 ts) (block_times t0' ts')).
Let fn := block_RJG G s n t0 ts ystart.
Let fn' := block_RJG G' s n t0' ts' ystart'.
Lemma dys_rel (x x' : tens2 RF) : relT n x x' -> forall j, (j <= n)%N -> relV (dys nb m x j) (dys nb' m x' j).
Proof. move=> H [|j] jn; last exact: H. by move=> b; rewrite /= !ffunE mulmx0. Qed.
Lemma ys_rel (x x' : tens2 RF) : relT n x x' -> forall j, (j <= n)%N -> relV (ys x ystart j) (ys x' ystart' j).
Proof. by move=> H j jn b; rewrite [LHS]ffunE (dys_rel H jn) Hy -mulmxDr; congr (_ *m _); rewrite [RHS]ffunE. Qed.
Lemma res_rel (x x' : tens2 RF) : relT n x x' -> relT n (fst (fn x)) (fst (fn' x')).
Proof.
move=> H k kn b; rewrite /fn /fn' /block_RJG [fst _]/= [fst (flat _, _)]/= !blkV_flat.
rewrite [LHS]ffunE (_ : form_residual _ _ _ _ k (sigma b) = dys nb m x k.+1 (sigma b) - dys nb m x k (sigma b) -
  tdiff (block_times t0 ts) k (sigma b) *: (G n.+1 (block_times t0 ts) (ys x ystart)).1 (if s is BackwardEuler then k.+1 else k) (sigma b)); last by rewrite ffunE; case: (s).
rewrite !mulmxBr -(dys_rel H kn) -(dys_rel H (ltnW kn)); have [E _] := HG (ys_rel H) kn b; rewrite -E; by case: (s).
Qed.
Lemma one_rel : 1%:M = D *m 1%:M *m D. Proof. by rewrite mulmx1 DD. Qed.
Lemma upd_rel (x x' : tens2 RF) lm : relT n x x' ->
  relT n (tsub x (block_linsolve lm n (snd (fn x)) (fst (fn x)))) (tsub x' (block_linsolve lm n (snd (fn' x')) (fst (fn' x')))).
Proof.
move=> H.
have L : relT n (block_linsolve lm n (snd (fn x)) (fst (fn x))) (block_linsolve lm n (snd (fn' x')) (fst (fn' x'))).
{ apply: linsolve_rel => // [k kn b|k kn b|]; last exact: res_rel.
  - rewrite [LHS]ffunE (_ : form_A _ _ _ k (sigma b) = match s with BackwardEuler => 1%:M - tdiff (block_times t0 ts) k (sigma b) *: (G n.+1 (block_times t0 ts) (ys x ystart)).2 k.+1 (sigma b)
      | ForwardEuler => 1%:M end); last by rewrite ffunE.
    move: (HG (ys_rel H) kn b); case: (s) => -[_ E]; last exact: one_rel.
    by rewrite mulmxBr mulmxBl -E -one_rel.
  - rewrite [LHS]ffunE (_ : form_B _ _ _ k (sigma b) = match s with BackwardEuler => - 1%:M
      | ForwardEuler => - 1%:M - tdiff (block_times t0 ts) k.+1 (sigma b) *: (G n.+1 (block_times t0 ts) (ys x ystart)).2 k.+1 (sigma b) end); last by rewrite ffunE.
    move: (HG (ys_rel H) kn b); case: (s) => -[_ E]; first by rewrite mulmxN mulNmx -one_rel.
    by rewrite mulmxBr mulmxBl -E mulmxN mulNmx -one_rel. }
exact: sub_rel H L.
Qed.
Lemma block_rel lm rtol atol miter throw g g' : relT n g g' ->
  out_rel (fun o o' => forall k, (k < n)%N -> relV (o k) (o' k))
    (block_updateG G s lm (nrmR nb m) rtol atol miter throw n t0 ts ystart g) (block_updateG G' s lm (nrmR nb' m) rtol atol miter throw n t0' ts' ystart' g').
Proof.
move=> Hg; have := @chunk_test _ _ _ _ _ _ fn fn' (nrmR nb m n) (nrmR nb' m n) rtol atol (block_linsolve lm n) (block_linsolve lm n) (@tsub RF) (@tsub RF) (relT n)
  (fun x x' y y' h h' => test_rel rtol atol (res_rel h) (res_rel h')) (fun x x' h => upd_rel lm h) miter throw g g' Hg.
rewrite /block_updateG -/fn -/fn'; case: (newton_raphson_chunk fn _ _ _ _ _ _ _ _) => [r|r|]; case: (newton_raphson_chunk fn' _ _ _ _ _ _ _ _) => [r'|r'|] //= H k kn b.
all: rewrite [LHS]ffunE H // Hy -mulmxDr; congr (_ *m _); by rewrite [RHS]ffunE.
Qed.
End Block.

Section Loop.
Variables (G : fnG nb) (G' : fnG nb') (s : scheme) (lm : lin_method) (rtol atol : R) (miter : nat) (throw : bool) (gt : string) (n nt : nat) (t : nat -> TB RF nb) (t' : nat -> TB RF nb').
Hypothesis n0 : (0 < n)%N.
Hypothesis HG : forall k, (0 < k)%N -> (k < nt)%N ->
  same_work s G G' (slice_len nt k (k + n)) (block_times (t (k - 1)%N) (fun j => t (k + j)%N)) (block_times (t' (k - 1)%N) (fun j => t' (k + j)%N)).
Notation step G nb t := (int_stepG G s lm (nrmR nb m) rtol atol miter throw gt n nt t).
Notation loop G nb t fuel := (int_loopG G s lm (nrmR nb m) rtol atol miter throw fuel gt n nt t).
(** States whose rows before k correspond, with the same history of writes and warnings. *)
Definition rel_upto (k : nat) (st : istate RF nb m) (st' : istate RF nb' m) : Prop :=
  (forall j, (j < k)%N -> (j < nt)%N -> relV (i_result st j) (i_result st' j)) /\ i_writes st = i_writes st' /\ i_warned st = i_warned st'.
Definition rel_sum {A A'} (P : A -> A' -> Prop) (x : A + ode_error) (x' : A' + ode_error) : Prop :=
  match x, x' with inl a, inl a' => P a a' | inr e, inr e' => e = e' | _, _ => False end.
Lemma zero_rel : relV (zeroV RF nb m) (zeroV RF nb' m).
Proof. by move=> b; rewrite !ffunE mulmx0. Qed.
Lemma step_rel k st st' : (0 < k)%N -> (k < nt)%N -> rel_upto k st st' -> rel_sum (rel_upto (k + n)) (step G nb t k st) (step G' nb' t' k st').
Proof.
move=> k0 kn [Hr [Hw Ha]]; rewrite /int_stepG; set len := slice_len nt k (k + n).
have k1 : (k - 1 < k)%N by rewrite subn1 ltn_predL.
have len0 : (0 < len)%N by rewrite /len /slice_len subn_gt0 leq_min kn andbT -[X in (X < _)%N]addn0 ltn_add2l.
have GE : match initial_guess gt n nt (i_result st) k, initial_guess gt n nt (i_result st') k with
  | Some (l, g), Some (l', g') => l = l' /\ forall j, (j < l)%N -> (l <= len)%N -> relV (g j) (g' j) | None, None => True | _, _ => False end.
{ rewrite /initial_guess -/len; case: String.eqb; first by split=> // j _ _; exact: zero_rel.
  case: String.eqb => //; case: ltnP => h.
  - by split=> // j _ _; exact: zero_rel.
  - have nk : (n <= k)%N by apply: leq_trans h; exact: leq_addr.
    have sl : slice_len nt (k - n) k = n by rewrite /slice_len (minn_idPl (ltnW kn)) subKn.
    rewrite sl; split=> // j jl _; set i := (n - len + j)%N.
    have ik : (k - n + i < k)%N by rewrite -ltn_subRL subKn // /i -ltn_subRL.
    have jk : (k - n - 1 < k)%N by apply: leq_ltn_trans (leq_subr _ _) _; rewrite ltn_subrL n0.
    by move=> b; rewrite [LHS]ffunE (Hr _ ik (ltn_trans ik kn)) (Hr _ jk (ltn_trans jk kn)) -mulmxBr; congr (_ *m _); rewrite [RHS]ffunE. }
move: GE; case: (initial_guess gt n nt (i_result st) k) => [[l g]|]; case: (initial_guess gt n nt (i_result st') k) => [[l' g']|] // -[<- Hg].
case: eqP => [ln|//] /=; rewrite ln.
have Hg' : relT len (flat (fun j => if (j < len)%N then g j else zeroV RF nb m)) (flat (fun j => if (j < len)%N then g' j else zeroV RF nb' m)).
{ move=> j jn; rewrite !blkV_flat jn; apply: Hg; rewrite ln //. }
have := @block_rel G G' s len (t (k - 1)%N) (t' (k - 1)%N) (fun j => t (k + j)%N) (fun j => t' (k + j)%N) (i_result st (k - 1)%N) (i_result st' (k - 1)%N)
  len0 (Hr _ k1 (ltn_trans k1 kn)) (HG k0 kn) lm rtol atol miter throw _ _ Hg'.
have kl j : (j < k + n)%N -> (j < nt)%N -> (k <= j < k + len)%N = (k <= j)%N.
{ move=> j1 j2; case: (leqP k j) => //= kj; have le : (k <= minn (k + n) nt)%N by rewrite leq_min leq_addr ltnW.
  by rewrite /len /slice_len (subnKC le) leq_min j1 j2. }
case: (block_updateG G _ _ _ _ _ _ _ _ _ _ _ _) => [o|o|]; case: (block_updateG G' _ _ _ _ _ _ _ _ _ _ _ _) => [o'|o'|] //= H;
  (split; [|by rewrite /= Hw Ha]) => j jk jt /=; rewrite (kl j jk jt); case: leqP => hj.
all: try (by apply: Hr).
all: apply: H; rewrite ltn_subLR //; move: (kl j jk jt); by rewrite hj => /andP[].
Qed.
Lemma loop_rel : forall fuel k st st', (0 < k)%N -> (nt <= fuel + k)%N -> rel_upto k st st' -> rel_sum (rel_upto nt) (loop G nb t fuel k st) (loop G' nb' t' fuel k st').
Proof.
have done k st st' : (nt <= k)%N -> rel_upto k st st' -> rel_upto nt st st' by move=> kn [H1 H2]; split=> // j jn _; apply: H1 => //; exact: leq_trans kn.
elim=> [|fuel IH] k st st' k0 kf H.
- by rewrite /= ltnNge kf /=; apply: done H.
- rewrite [int_loopG G _ _ _ _ _ _ _ _ _ _ _ _ _ _]/= [int_loopG G' _ _ _ _ _ _ _ _ _ _ _ _ _ _]/=; case: ltnP => kn; last exact: done H.
  have := step_rel k0 kn H; case: (step G nb t k st) => [s1|e]; case: (step G' nb' t' k st') => [s1'|e'] //= H1.
  apply: IH => //; first exact: ltn_addr. by apply: leq_trans kf _; rewrite addSnnS leq_add2l -addn1 leq_add2l.
Qed.
Lemma integrate_rel y0 y0' init init' : relV y0 y0' ->
  rel_sum (rel_upto nt) (integrateG G s lm (nrmR nb m) rtol atol miter throw gt n nt t y0 init) (integrateG G' s lm (nrmR nb' m) rtol atol miter throw gt n nt t' y0' init').
Proof.
move=> H0; rewrite /integrateG; case: eqP => // _; case: eqP => // _; apply: loop_rel => //; first exact: leq_addr.
by split=> // -[|j].
Qed.
End Loop.
End Run.
