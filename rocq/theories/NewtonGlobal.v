(** Backward Euler blocks of scalar equations y' = a - p(y) with p odd, increasing and convex on the positive axis: Newton's method
    converges from every initial guess, and every run of the integrator succeeds when enough iterations are allowed.
    (No code is modelled here.) *)
From Coq Require Import Reals List String Lra Lia.
From mathcomp Require Import all_ssreflect all_algebra.
From Verif Require Import ChunkModel ChunkSolve ChunkInst NewtonModel NewtonProofs Ode OdeForward OdeReal OdeBlock RField Gmres Implicit Tolerance Converge NewtonConv SmallSteps NewtonScalar ZmodTac.
Import GRing.Theory.
Set Implicit Arguments. Unset Strict Implicit. Unset Printing Implicit Defensive.
Local Open Scope ring_scope.
Delimit Scope R_scope with Re.

Section More.
Variables (X RT JT : Type) (fn : X -> RT * JT) (nrm : RT -> list ext) (rtol atol : R) (step : JT -> RT -> X) (sub : X -> X -> X).
Lemma nr_loop_more rem d : forall i caller x Rv J nR0 ev,
  (res_iters (nr_loop fn nrm rtol atol step sub rem i caller x Rv J nR0 ev) < i + rem)%N ->
  nr_loop fn nrm rtol atol step sub (rem + d) i caller x Rv J nR0 ev = nr_loop fn nrm rtol atol step sub rem i caller x Rv J nR0 ev.
Proof.
elim: rem => [|rem IH] i caller x Rv J nR0 ev /=; first by rewrite addn0 ltnn.
case: ifP => // _ H; apply: IH; by rewrite addSnnS.
Qed.
(** If the iterates eventually converge, there is a number of iterations from which on the outcome is always the same success. *)
Lemma newton_enough throw x0 N : keep_going rtol atol (norms fn nrm (point fn step sub x0 N)) (norms fn nrm x0) = false ->
  exists r, forall miter, (N < miter)%N -> newton_raphson_chunk fn nrm rtol atol step sub miter throw x0 = Ok r.
Proof.
move=> stop; exists (nr_solve fn nrm rtol atol step sub N.+1 x0) => miter mN.
have := nr_solve_spec fn nrm rtol atol step sub N.+1 x0; cbv zeta; set r := nr_solve _ _ _ _ _ _ _ _ => -[_ [_ [_ [_ [_ [HK _]]]]]].
have it : (res_iters r <= N)%N by rewrite leqNgt; apply/negP => /ltP /HK; rewrite stop.
have E : nr_solve fn nrm rtol atol step sub miter x0 = r by rewrite /nr_solve -(subnKC mN); apply: nr_loop_more; rewrite add0n ltnS.
rewrite /newton_raphson_chunk E; case: Nat.eqb_spec => // e; by move: mN; rewrite -e ltnNge it.
Qed.
End More.

Lemma all_eventually n (P : nat -> nat -> Prop) : (forall i, (i < n)%N -> exists J, forall j, (J <= j)%coq_nat -> P i j) ->
  exists J, forall i, (i < n)%N -> forall j, (J <= j)%coq_nat -> P i j.
Proof.
elim: n => [|n IH] H; first by exists 0%N.
have [J1 H1] := IH (fun i h => H i (ltnW h)); have [J2 H2] := H n (ltnSn n).
exists (maxn J1 J2) => i; rewrite ltnS leq_eqVlt => /orP[/eqP -> |h] j /leP; rewrite geq_max => /andP[/leP a /leP c]; [exact: H2|exact: H1].
Qed.

Section Scalar.
Variables (nb : nat).
Notation vb := (VB RF nb 1).
Variable G : nat -> (nat -> TB RF nb) -> (nat -> vb) -> (nat -> vb) * (nat -> MB RF nb 1).
Variables (len : nat) (tstart : TB RF nb) (ts : nat -> TB RF nb) (ystart : vb).
Let times := block_times tstart ts.
Variables (a : nat -> 'I_nb -> R) (p dp : nat -> 'I_nb -> R -> R).
Definition scalar_block : Prop := forall Y k b, (0 < k)%N -> (k <= len)%N ->
  (G len.+1 times Y).1 k b = const_mx ((a k b - p k b (Y k b ord0 ord0))%Re : RF) /\ (G len.+1 times Y).2 k b = const_mx ((- dp k b (Y k b ord0 ord0))%Re : RF).
Hypothesis HG : scalar_block.
Hypothesis nice : forall k b, (0 < k)%N -> (k <= len)%N -> odd_convex (p k b) (dp k b).
Hypothesis steps : forall k b, (k < len)%N -> (0 <= times k.+1 b - times k b)%Re.
Hypothesis len0 : (0 < len)%N.
Variable lm : lin_method.
Let rfn := block_RJG G BackwardEuler len tstart ts ystart.
Let upd := update rfn (block_linsolve lm len) (@tsub RF).

Definition sv (x : tens2 RF) (k : nat) (b : 'I_nb) : R := (dys nb 1 x k b + ystart b)%R ord0 ord0.
Definition dtk (k : nat) (b : 'I_nb) : R := (times k.+1 b - times k b)%Re.
Definition sres (x : tens2 RF) (k : nat) (b : 'I_nb) : R := (sv x k.+1 b - sv x k b - dtk k b * (a k.+1 b - p k.+1 b (sv x k.+1 b)))%Re.

Lemma sres_eq x k b : (k < len)%N -> blkV nb 1 (fst (rfn x)) k b = const_mx (sres x k b : RF).
Proof.
move=> kn; rewrite /rfn /block_RJG /= blkV_flat.
apply/colP => i; rewrite ord1 !mxE.
rewrite /form_residual !ffunE. have [-> _] := @HG (ys x ystart) k.+1 b isT kn.
rewrite !mxE /sres /sv /dtk !ffunE !mxE.
have Fl (u v w e q : R) : (u - v - e * q = u + w - (v + w) - e * q)%Re by ring. exact: Fl.
Qed.

Lemma sv0 x b : sv x 0%N b = ystart b ord0 ord0.
Proof. by rewrite /sv [dys _ _ _ _]/= ffunE add0r. Qed.

Lemma sc_update x k b : (k < len)%N -> newton_to (dtk k b) (p k.+1 b) (dp k.+1 b) (sv x k.+1 b) (sv (upd x) k b + dtk k b * a k.+1 b)%Re (sv (upd x) k.+1 b).
Proof.
move=> kl.
set A := form_A BackwardEuler (G len.+1 times (ys x ystart)).2 (tdiff times).
set B := form_B BackwardEuler (G len.+1 times (ys x ystart)).2 (tdiff times).
set dx := block_linsolve lm len (A, B) (fst (rfn x)).
have AE i c : (i < len)%N -> A i c = const_mx ((1 + dtk i c * dp i.+1 c (sv x i.+1 c))%Re : RF).
{ move=> il; rewrite /A /form_A ffunE; have [_ ->] := @HG (ys x ystart) i.+1 c isT il.
  have yE : ys x ystart i.+1 c = dys nb 1 x i.+1 c + ystart c by rewrite /ys /addV ffunE.
  have tE : tdiff times i c = times i.+1 c - times i c by rewrite /tdiff ffunE.
  rewrite yE tE -/(sv x i.+1 c); apply/matrixP => u v; rewrite !ord1 !mxE.
  have Fl (e q : R) : (1 - e * (- q) = 1 + e * q)%Re by ring. exact: Fl. }
have BE i c : B i c = - 1%:M by rewrite ffunE.
have ns' : forall i, (i < len)%N -> nonsing (A i).
{ move=> i il c; rewrite AE // unitmxE det_mx11 mxE unitfE; apply/eqP.
  have h := steps c il; have [_ [_ [d0 _]]] := nice c (ltn0Sn i) il; have := Rmult_le_pos _ _ h (d0 (sv x i.+1 c)).
  rewrite -/(dtk i c) => q e. have e' : (1 + dtk i c * dp i.+1 c (sv x i.+1 c) = 0)%Re := e. lra. }
have [S0 S1] := @linsolve_blocks RF nb 1 lm len A B (fst (rfn x)) len0 ns'.
have row : A k b *m dys nb 1 dx k.+1 b - dys nb 1 dx k b = const_mx (sres x k b : RF).
{ rewrite -(sres_eq x b kl); case: k kl => [|i] h.
  - have := S0 (elimT ltP h); move/ffunP/(_ b) => <-.
    have E (M : MB RF nb 1) (u : vb) : bact (fops RF nb 1) M u b = M b *m u b by rewrite /= ffunE.
    by rewrite E [dys nb 1 dx 0 b]ffunE subr0.
  - have := S1 i (elimT ltP h); move/ffunP/(_ b) => <-.
    have E (M M' : MB RF nb 1) (u v : vb) : badd (fops RF nb 1) (bact (fops RF nb 1) M u) (bact (fops RF nb 1) M' v) b
      = M b *m u b + M' b *m v b by rewrite /= !ffunE.
    by rewrite E BE mulNmx mul1mx. }
have dE i : sv (upd x) i b = (sv x i b - dys nb 1 dx i b ord0 ord0)%Re.
{ have -> : upd x = tsub x dx by []. rewrite /sv; case: i => [|i] /=; rewrite !ffunE !mxE.
  - rewrite !add0r; have Fl (u : R) : (u = u - 0)%Re by ring. exact: Fl.
  - have Fl (u v w : R) : (u - v + w = u + w - v)%Re by ring. exact: Fl. }
rewrite /newton_to !dE.
have {row} := congr1 (fun M : 'cV[RF]_1 => M ord0 ord0) row; rewrite AE // !mxE big_ord1 !mxE /sres.
move: (sv x k.+1 b) (sv x k b) (dys nb 1 dx k.+1 b ord0 ord0) (dys nb 1 dx k b ord0 ord0) (dtk k b) (a k.+1 b) => s1 s0 X1 X0 h a1.
have Fl (dps ps s1' s0' X1' X0' h' a' : R) : ((1 + h' * dps) * X1' - X0' = s1' - s0' - h' * (a' - ps))%Re ->
  ((s1' - X1') * (1 + h' * dps) = s0' - X0' + h' * a' + h' * (dps * s1' - ps))%Re.
{ move=> q; have -> : ((s1' - X1') * (1 + h' * dps) = s1' * (1 + h' * dps) - ((1 + h' * dps) * X1' - X0') - X0')%Re by ring. rewrite q; ring. }
exact: Fl.
Qed.

Let pt x0 j := point rfn (block_linsolve lm len) (@tsub RF) x0 j.
Lemma sv_converges x0 b : forall k, (k <= len)%N -> exists r, Un_cv (fun j => sv (pt x0 j) k b) r.
Proof.
elim=> [|k IH] kl.
- exists (ystart b ord0 ord0) => eps E; exists 0%N => j _; by rewrite sv0 R_dist_eq.
- have [r V] := IH (ltnW kl).
  have V' : Un_cv (fun j => sv (pt x0 j.+1) k b + dtk k b * a k.+1 b)%Re (r + dtk k b * a k.+1 b)%Re.
  { apply: CV_plus; last by move=> eps E; exists 0%N => j _; rewrite R_dist_eq.
    move=> eps E; have [J HJ] := V eps E; exists J => j hj; apply: HJ; exact: le_S. }
  have [r' [_ [V2 _]]] := @newton_converges (dtk k b) (p k.+1 b) (dp k.+1 b) (fun j => sv (pt x0 j) k.+1 b) _ _ (steps b kl) (nice b (ltn0Sn k) kl) (fun j => sc_update (pt x0 j) b kl) V'.
  by exists r'.
Qed.
Lemma sres_converges x0 b k : (k < len)%N -> Un_cv (fun j => sres (pt x0 j) k b) 0%Re.
Proof.
move=> kl; have [r V] := sv_converges x0 b (ltnW kl).
have V' : Un_cv (fun j => sv (pt x0 j.+1) k b + dtk k b * a k.+1 b)%Re (r + dtk k b * a k.+1 b)%Re.
{ apply: CV_plus; last by move=> eps E; exists 0%N => j _; rewrite R_dist_eq.
  move=> eps E; have [J HJ] := V eps E; exists J => j hj; apply: HJ; exact: le_S. }
have [r' [E [V2 V3]]] := @newton_converges (dtk k b) (p k.+1 b) (dp k.+1 b) (fun j => sv (pt x0 j) k.+1 b) _ _ (steps b kl) (nice b (ltn0Sn k) kl) (fun j => sc_update (pt x0 j) b kl) V'.
have cst (c : R) : Un_cv (fun _ => c) c by move=> eps E'; exists 0%N => j _; rewrite R_dist_eq.
have := CV_minus _ _ _ _ (CV_minus _ _ _ _ V2 V) (CV_mult _ _ _ _ (cst (dtk k b)) (CV_minus _ _ _ _ (cst (a k.+1 b)) V3)).
by rewrite (_ : r' - r - dtk k b * (a k.+1 b - p k.+1 b r') = 0)%Re //; lra.
Qed.

Lemma nrmR_small (v : tens2 RF) n A : (forall b : 'I_nb, (sqrt (sumsq (n * 1) (v b)) <= A)%Re) -> all_le (nrmR nb 1 n v) A.
Proof.
move=> h; rewrite /nrmR /all_le.
have h' b : b \in iota 0 nb -> (sqrt (sumsq (n * 1) (v b)) <= A)%Re.
{ rewrite mem_iota add0n => bn; exact: (h (Ordinal bn)). }
elim: (iota 0 nb) h' => [|b l IH] h'; constructor.
- by eexists; split; first reflexivity; apply: h'; rewrite mem_head.
- by apply: IH => c cl; apply: h'; rewrite inE cl orbT.
Qed.
Lemma norm_const (c : R) : norm (const_mx (c : RF) : 'cV[RF]_1) = Rabs c.
Proof. rewrite /norm /dot big_ord1 !mxE; exact: sqrt_Rsqr_abs. Qed.

Lemma scalar_block_ok rtol atol throw x0 : (0 < atol)%Re -> exists N r, forall miter, (N < miter)%N ->
  newton_raphson_chunk rfn (nrmR nb 1 len) rtol atol (block_linsolve lm len) (@tsub RF) miter throw x0 = Ok r.
Proof.
move=> a0; have lp : (0 < INR len)%Re by apply: lt_0_INR; apply/ltP.
have e0 : (0 < atol / INR len)%Re by apply: Rdiv_lt_0_compat.
have [J HJ] : exists J, forall i, (i < nb)%N -> forall j, (J <= j)%coq_nat -> forall (bn : (i < nb)%N) k, (k < len)%N -> (Rabs (sres (pt x0 j) k (Ordinal bn)) <= atol / INR len)%Re.
{ apply: all_eventually => i bn.
  have [J HJ] := @all_eventually len (fun k j => (Rabs (sres (pt x0 j) k (Ordinal bn)) <= atol / INR len)%Re)
    (fun k kl => ltac:(have [J H] := abs_of_cv _ _ (sres_converges x0 (Ordinal bn) kl) _ e0; exists J => j hj; have := H j hj; by rewrite Rminus_0_r)).
  exists J => j hj bn' k kl; rewrite (bool_irrelevance bn' bn); exact: HJ. }
exists J; apply: newton_enough; apply: converged_keep; [exact: nrmR_finite|exact: nrmR_finite|left].
apply: nrmR_small => b.
have -> : atol = (INR len * (atol / INR len))%Re by field; lra.
apply: bn_le; first lra. move=> k kl; rewrite sres_eq // norm_const; have := HJ b (ltn_ord b) J (le_n _) (ltn_ord b) k kl.
by have -> : Ordinal (ltn_ord b) = b by apply: val_inj.
Qed.
End Scalar.

Section Run.
Variables (nb : nat).
Variable G : nat -> (nat -> TB RF nb) -> (nat -> VB RF nb 1) -> (nat -> VB RF nb 1) * (nat -> MB RF nb 1).
Lemma scalar_run_ok lm rtol atol throw gt n nt t y0 init :
  (0 < atol)%Re -> (0 < n)%N -> (0 < nt)%N ->
  (forall k, (0 < k)%N -> (k < nt)%N -> let len := slice_len nt k (k + n) in
     let ts j := t (k + j)%N in let tb := block_times (t (k - 1)%N) ts in
     exists a p dp, scalar_block G len (t (k - 1)%N) ts a p dp /\
     (forall j b, (0 < j)%N -> (j <= len)%N -> odd_convex (p j b) (dp j b)) /\
     forall j b, (j < len)%N -> (0 <= tb j.+1 b - tb j b)%Re) ->
  (gt = "zero" \/ gt = "previous" /\ (n < nt)%N)%string ->
  exists N st, forall miter, (N < miter)%N -> integrateG G BackwardEuler lm (nrmR nb 1) rtol atol miter throw
      gt n nt t y0 init = inl st /\ i_warned st = [::].
Proof.
move=> a0 n0 nt0 ns hg.
have key : forall fuel k i st, (nt <= fuel + k)%N -> k = (i * n).+1 -> i_warned st = [::] ->
  exists N st', forall miter, (N < miter)%N -> int_loopG G BackwardEuler lm (nrmR nb 1) rtol atol miter throw
     fuel gt n nt t k st = inl st' /\ i_warned st' = [::].
{ elim=> [|fuel IH] k i st hf kE W.
  - exists 0%N, st => miter _ /=; case: ifP => // kn. by move: hf; rewrite add0n leqNgt kn.
  - case kn : (k < nt)%N; last by exists 0%N, st => miter _; rewrite /= kn.
    have [g E] : exists g, initial_guess gt n nt (i_result st) k = Some (slice_len nt k (k + n), g).
    { case: hg => [->|[-> hn]]; first by eexists; exact: guess_zero.
      by have [g [-> _]] := @guess_previous RF nb 1 n nt (i_result st) k i n0 hn kn kE; eexists. }
    have k0 : (0 < k)%N by rewrite kE.
    have /= [a [p [dp [HG [ns' sp]]]]] := ns k k0 kn.
    set x0 := @flat RF nb 1 (fun j => if (j < slice_len nt k (k + n))%N then g j else zeroV RF nb 1).
    have [N1 [r H1]] := @scalar_block_ok nb G (slice_len nt k (k + n)) (t (k - 1)%N)
       (fun j => t (k + j)%N) (i_result st (k - 1)%N) a p dp HG ns' sp (slice_len_gt0 n0 kn) lm rtol atol throw x0 a0.
    set st1 := {| i_result := fun j => if (k <= j < k + slice_len nt k (k + n))%N then addV (blkV nb 1 (res_x r) (j - k)%N) (i_result st (k - 1)%N) else i_result st j;
               i_writes := i_writes st ++ iota k (slice_len nt k (k + n)); i_warned := i_warned st |}.
    have [N2 [st' H2]] := IH (k + n)%N i.+1 st1 ltac:(apply: leq_trans hf _; by rewrite addSn -addnS leq_add2l -[X in (X < _)%N]addn0 ltn_add2l)
      ltac:(by rewrite kE addSn mulSnr) W.
    exists (maxn N1 N2), st' => miter; rewrite gtn_max => /andP[m1 m2].
    rewrite /= kn /int_stepG E eqxx [~~ true]/= /block_updateG -/x0 H1 //; exact: H2. }
have [N [st H]] := key nt 1%N 0%N {| i_result := fun j => if j == 0%N then y0 else init j; i_writes := [:: 0%N]; i_warned := [::] |} (leq_addr _ _) erefl erefl.
exists N, st => miter mN; rewrite /integrateG gtn_eqF // gtn_eqF //; exact: H.
Qed.
End Run.
