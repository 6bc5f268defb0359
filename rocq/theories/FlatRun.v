(** Runs on which the function is locally constant: if at the first guess of every block (the value before the block, guess type "zero") the Jacobian vanishes, and the
    rates there are also those along the solution they give, one Newton update solves every block and the run follows that solution
    (or, with a positive absolute tolerance, keeps the value before the block when that already meets it).  Used for material models loaded
    within their elastic range (ode.py 474-519, solvers.py 15-107 as modelled in OdeBlock.v and NewtonModel.v). *)
From Coq Require Import Reals List String Lra FunctionalExtensionality.
From mathcomp Require Import all_ssreflect all_algebra.
From Verif Require Import ChunkModel ChunkSolve ChunkInst NewtonModel NewtonProofs Ode OdeForward OdeReal OdeAffine OdeBlock ZmodTac RField.
Import GRing.Theory.
Set Implicit Arguments. Unset Strict Implicit. Unset Printing Implicit Defensive.
Local Open Scope ring_scope.

Delimit Scope R_scope with Re.
Lemma all_le_weaken l a a' : Rle a a' -> all_le l a -> all_le l a'.
Proof. move=> aa; rewrite /all_le; apply: List.Forall_impl => e [r [-> h]]; exists r; split=> //; exact: Rle_trans h aa. Qed.
Section Flat.
Variables (nb m : nat).
Notation vb := (VB RF nb m).
Notation mb := (MB RF nb m).
Variable G : nat -> (nat -> TB RF nb) -> (nat -> vb) -> (nat -> vb) * (nat -> mb).

Section Block.
Variables (n : nat) (tstart : TB RF nb) (ts : nat -> TB RF nb) (ystart : vb) (lm : lin_method).
Let times := block_times tstart ts.
Let g := G n.+1 times (fun _ => ystart).
Let rfn := block_RJG G BackwardEuler n tstart ts ystart.
Hypothesis J0 : forall k b, (k < n)%N -> g.2 k.+1 b = 0.
Definition zero_x : tens2 RF := flat (fun _ => zeroV RF nb m).
Lemma ys_zero : ys zero_x ystart = fun _ => ystart.
Proof.
apply: functional_extensionality => k; apply/ffunP => b; rewrite !ffunE; case: k => [|k] /=; first by rewrite ffunE add0r.
by rewrite blkV_flat ffunE add0r.
Qed.
Lemma dys_zero k b : dys nb m zero_x k b = 0.
Proof. by case: k => [|k] /=; rewrite ?blkV_flat ffunE. Qed.
Definition follows (x : tens2 RF) : Prop := forall k b, (k < n)%N ->
  dys nb m x k.+1 b = dys nb m x k b + (times k.+1 b - times k b) *: g.1 k.+1 b.
Lemma flat_update : (0 < n)%N -> follows (update rfn (block_linsolve lm n) (@tsub RF) zero_x).
Proof.
move=> n0.
set x1 := update _ _ _ _.
have E : rfn zero_x = (flat (form_residual BackwardEuler (dys nb m zero_x) g.1 (tdiff times)), (form_A BackwardEuler g.2 (tdiff times), form_B BackwardEuler g.2 (tdiff times))).
  by rewrite /rfn /block_RJG ys_zero.
set R := flat _ in E; set A := form_A _ _ _ in E; set B := form_B _ _ _ in E.
set dx := block_linsolve lm n (A, B) R.
have xE : x1 = tsub zero_x dx by rewrite /x1 /update E.
have AE k b : (k < n)%N -> A k b = 1%:M.
  move=> kn; rewrite ffunE (J0 b kn) scaler0 subr0; reflexivity.
have RE k b : blkV nb m R k b = - ((times k.+1 b - times k b) *: g.1 k.+1 b).
  by rewrite /R blkV_flat ffunE !dys_zero subrr sub0r !ffunE.
have [S0 S1] : bidiag_solution (fops RF nb m) n A B (blkV nb m R) (blkV nb m dx).
  apply: (linsolve_blocks lm B R n0) => k kn b; rewrite (AE k b kn); exact: unitmx1.
have dyS i b : dys nb m x1 i b = - dys nb m dx i b.
{ rewrite xE; case: i => [|i] /=; first by rewrite ffunE oppr0.
  apply/colP => j; rewrite !ffunE !mxE /tsub.
  have -> : zero_x b (i * m + j)%N = 0.
  { have := dys_zero i.+1 b => /colP/(_ j); by rewrite /= !ffunE !mxE. }
  by rewrite sub0r. }
move=> k b kn; rewrite !dyS.
suff H : dys nb m dx k.+1 b - dys nb m dx k b = - ((times k.+1 b - times k b) *: g.1 k.+1 b).
{ rewrite -[_ *: _]opprK -H; zmod. }
case: k kn => [|k] kn.
- have := S0 (elimT ltP kn); move/ffunP/(_ b); rewrite RE => <-.
  have F (M : mb) (u : vb) : bact (fops RF nb m) M u b = M b *m u b by rewrite /= ffunE.
  rewrite F (AE _ b kn) mul1mx [dys nb m dx 0 b]ffunE subr0; reflexivity.
- have := S1 k (elimT ltP kn); move/ffunP/(_ b); rewrite RE => <-.
  have F (M N : mb) (u v : vb) : badd (fops RF nb m) (bact (fops RF nb m) M u) (bact (fops RF nb m) N v) b = M b *m u b + N b *m v b by rewrite /= !ffunE.
  rewrite F (AE _ b kn) mul1mx [B _ b]ffunE mulNmx mul1mx; reflexivity.
Qed.
(** the rates along the solution are those at the guess *)
Hypothesis Same : forall x, follows x -> forall k b, (k < n)%N -> (G n.+1 times (ys x ystart)).1 k.+1 b = g.1 k.+1 b.
Lemma follows_zero x : follows x -> all_le (nrmR nb m n (fst (rfn x))) 0.
Proof.
move=> Fx; apply: nrmR_zero => b idx bn il.
have m0 : (0 < m)%N by move: il; case: (m) => //; rewrite muln0.
have kl : (idx %/ m < n)%N by rewrite ltn_divLR.
have : blkV nb m (fst (rfn x)) (idx %/ m) = zeroV RF nb m.
{ rewrite /rfn /block_RJG /= blkV_flat; apply/ffunP=> b'; rewrite [LHS]ffunE [RHS]ffunE (Same Fx) // Fx // !ffunE; zmod. }
move=> /ffunP/(_ (Ordinal bn))/colP/(_ (Ordinal (ltn_pmod idx m0))).
by rewrite !ffunE !mxE /= -divn_eq.
Qed.
Variables (rtol atol : R).
Hypotheses (rtol1 : Rlt rtol R1) (atol0 : Rle R0 atol).
(** the guess already meets the absolute tolerance: the block keeps the value before it *)
Definition stays (x : tens2 RF) : Prop := (forall k b, dys nb m x k b = 0) /\
  forall k b (c : 'I_m), (k < n)%N -> Rle (Rabs (((times k.+1 b - times k b) *: g.1 k.+1 b) c 0)) atol.
Lemma flat_block miter throw : (0 < n)%N -> (1 < miter)%N ->
  exists r, newton_raphson_chunk rfn (nrmR nb m n) rtol atol (block_linsolve lm n) (@tsub RF) miter throw zero_x = Ok r /\ (follows (res_x r) \/ stays (res_x r)).
Proof.
move=> n0 m1; rewrite /newton_raphson_chunk.
have /= := nr_solve_spec rfn (nrmR nb m n) rtol atol (block_linsolve lm n) (@tsub RF) miter zero_x.
set r := nr_solve _ _ _ _ _ _ _ _ => -[H1 [H2 [_ [_ [_ [HK HL]]]]]].
have stop : keep_going rtol atol (norms rfn (nrmR nb m n) (point rfn (block_linsolve lm n) (@tsub RF) zero_x 1)) (norms rfn (nrmR nb m n) zero_x) = false.
{ rewrite /keep_going /norms (_ : any_gt _ _ = false) //; apply: any_gt_all_le.
  apply: all_le_weaken atol0 (follows_zero (flat_update n0)). }
have it : (res_iters r <= 1)%N.
{ case: leqP => // lt; have := HK 1%N (elimT ltP lt); by rewrite stop. }
case: (Nat.eqb_spec (res_iters r) miter) => e; first by move: it; rewrite e leqNgt m1.
have O : newton_raphson_chunk rfn (nrmR nb m n) rtol atol (block_linsolve lm n) (@tsub RF) miter throw zero_x = Ok r.
{ rewrite /newton_raphson_chunk -/r; by case: (Nat.eqb_spec (res_iters r) miter). }
exists r; split=> //.
have xE := H2; case E : (res_iters r) it xE => [|[|i]] // _ xE; last by left; rewrite xE; exact: flat_update.
right.
have Z : forall b : 'I_nb, sqrt (sumsq (n * m) (fst (rfn zero_x) b)) <=R atol.
{ have := chunk_truthful _ _ _ _ _ _ _ _ _ _ O.
  rewrite /norms => /(_ (etrans (nrmR_len _ _ _ _) (esym (nrmR_len _ _ _ _))) (@nrmR_nonan _ _ _ _) (@nrmR_finite _ _ _ _)).
  rewrite xE /=; case=> C b; first exact: (nrmR_all_le C (ltn_ord b)).
  have := nrmR_all_le_rel C (ltn_ord b) => {C}; have := sqrt_pos (sumsq (n * m) (fst (rfn zero_x) b)).
  move: (sqrt _) => q q0 q1; apply: Rle_trans atol0; apply: (Rmult_le_reg_l (1 - rtol)%Re); first lra.
  rewrite Rmult_0_r; lra. }
rewrite xE; split=> [k b|k b c kn]; first exact: dys_zero.
have lt : (k * m + c < n * m)%N.
{ apply: leq_trans (_ : k.+1 * m <= _)%N; last by rewrite leq_mul2r kn orbT.
  by rewrite mulSn addnC ltn_add2r. }
have Q := Rle_trans _ _ _ (comp_le_norm (fst (rfn zero_x) b) lt) (Z b).
have : Rle (Rabs (blkV nb m (fst (rfn zero_x)) k b c 0)) atol by rewrite ffunE mxE.
by rewrite /rfn /block_RJG ys_zero blkV_flat ffunE !dys_zero subrr sub0r mxE Rabs_Ropp [tdiff _ _ _]ffunE.
Qed.
End Block.

(** Whole runs: [Q] is an invariant of the values at the steps. *)
Lemma flat_run (Q : nat -> vb -> Prop) lm rtol atol miter throw n nt (t : nat -> TB RF nb) (y0 : vb) init :
  Rlt rtol R1 -> Rle R0 atol ->
  (0 < n)%N -> (1 < miter)%N -> (0 < nt)%N -> Q 0%N y0 ->
  (forall k ystart, (0 < k)%N -> (k < nt)%N -> Q (k - 1)%N ystart ->
     let len := slice_len nt k (k + n) in let tb := block_times (t (k - 1)%N) (fun j => t (k + j)%N) in
     let g := G len.+1 tb (fun _ => ystart) in
     (forall j b, (j < len)%N -> g.2 j.+1 b = 0) /\
     (forall Y : nat -> vb, Y 0%N = ystart -> (forall j b, (j < len)%N -> Y j.+1 b = Y j b + (tb j.+1 b - tb j b) *: g.1 j.+1 b) ->
       (forall j, (j < len)%N -> Q (k + j)%N (Y j.+1)) /\ forall j b, (j < len)%N -> (G len.+1 tb Y).1 j.+1 b = g.1 j.+1 b) /\
     ((forall j b (c : 'I_m), (j < len)%N -> Rle (Rabs (((tb j.+1 b - tb j b) *: g.1 j.+1 b) c 0)) atol) -> forall j, (j < len)%N -> Q (k + j)%N ystart)) ->
  exists st, integrateG G BackwardEuler lm (nrmR nb m) rtol atol miter throw "zero" n nt t y0 init = inl st /\ i_warned st = [::] /\
    forall k, (k < nt)%N -> Q k (i_result st k).
Proof.
move=> r1 a0 n0 nm nt0 Q0 ns; rewrite /integrateG gtn_eqF // gtn_eqF //.
have key : forall fuel k st, (nt <= fuel + k)%N -> (0 < k)%N -> i_warned st = [::] -> (forall j, (j < k)%N -> (j < nt)%N -> Q j (i_result st j)) ->
  exists st', int_loopG G BackwardEuler lm (nrmR nb m) rtol atol miter throw
     fuel "zero" n nt t k st = inl st' /\ i_warned st' = [::] /\ forall j, (j < nt)%N -> Q j (i_result st' j).
{ elim=> [|fuel IH] k st hf k0 W P /=; case: ifP => [kn|kn].
  - by move: hf; rewrite add0n leqNgt kn.
  - exists st; split=> //; split=> // j jn; apply: P => //; apply: leq_trans jn _; by rewrite leqNgt kn.
  - rewrite /int_stepG guess_zero eqxx /= /block_updateG.
    have -> : flat (fun j => if (j < slice_len nt k (k + n))%N then zeroV RF nb m else zeroV RF nb m) = zero_x.
    { by rewrite /zero_x; congr flat; apply: functional_extensionality => j; case: ifP. }
    have k1 : (k - 1 < k)%N by rewrite subn1 prednK.
    have [J0 [H Hs]] := ns k (i_result st (k - 1)%N) k0 kn (P _ k1 (ltn_trans k1 kn)).
    set len := slice_len _ _ _ in J0 H Hs *.
    have Yok x : follows len (t (k - 1)%N) (fun j => t (k + j)%N) (i_result st (k - 1)%N) x ->
      (forall j, (j < len)%N -> Q (k + j)%N (ys x (i_result st (k - 1)%N) j.+1)) /\ forall j b, (j < len)%N -> (G len.+1 (block_times (t (k - 1)%N) (fun j => t (k + j)%N)) (ys x (i_result st (k - 1)%N))).1 j.+1 b = (G len.+1 (block_times (t (k - 1)%N) (fun j => t (k + j)%N)) (fun _ => i_result st (k - 1)%N)).1 j.+1 b.
    { move=> Fx; apply: H; first by apply/ffunP => b; rewrite !ffunE add0r.
      move=> j b jl; rewrite /ys [addV _ _ b]ffunE [addV (dys nb m x j) _ b]ffunE Fx //; zmod. }
    have [r [-> Fr]] := @flat_block len (t (k - 1)%N) (fun j => t (k + j)%N) (i_result st (k - 1)%N) lm J0 (fun x Fx => proj2 (Yok x Fx)) rtol atol r1 a0 miter throw (slice_len_gt0 n0 kn) nm.
    have QY j : (j < len)%N -> Q (k + j)%N (ys (res_x r) (i_result st (k - 1)%N) j.+1).
    { case: Fr => [Fr|[Z Sm]] jl; first exact: (proj1 (Yok _ Fr)).
      have -> : ys (res_x r) (i_result st (k - 1)%N) j.+1 = i_result st (k - 1)%N; last exact: Hs.
      by apply/ffunP => b; rewrite /ys [addV _ _ b]ffunE Z add0r. }
    apply: IH => //.
    + apply: leq_trans hf _; by rewrite addSn -addnS leq_add2l -[X in (X < _)%N]addn0 ltn_add2l.
    + by rewrite addn_gt0 k0.
    + move=> j jk jn /=; case: ifP => [/andP[kj jl]|ne]; first by have := QY (j - k)%N; rewrite subnKC // => /(_ _); rewrite -(ltn_add2l k) subnKC // => /(_ jl).
      apply: P => //; rewrite ltnNge; apply/negP => kj; move: ne; rewrite kj /= /len slice_len_add; [by rewrite leq_min jk jn|exact: ltnW].
  - exists st; split=> //; split=> // j jn; apply: P => //; apply: leq_trans jn _; by rewrite leqNgt kn. }
apply: (key nt 1%N) => //; first exact: leq_addr.
by case=> // _ _ /=.
Qed.
End Flat.
