(** Backward Euler on linear(-in-state) ODEs: one Newton update solves a block,
    so integrate always succeeds.  Also: uninitialised storage never reaches
    the results. *)
From Coq Require Import Reals List String Lra FunctionalExtensionality.
From mathcomp Require Import all_ssreflect all_algebra.
From Verif Require Import ChunkModel ChunkSolve ChunkInst NewtonModel NewtonProofs Ode OdeForward OdeReal
  ZmodTac RField.
Import GRing.Theory.
Set Implicit Arguments. Unset Strict Implicit. Unset Printing Implicit Defensive.
Local Open Scope ring_scope.

Section Affine.
Variables (F : fieldType) (nb m : nat).
Notation vb := (VB F nb m).
Notation mb := (MB F nb m).
(** y' = K(t) y + c(t) *)
Variables (K : 'I_nb -> F -> 'M[F]_m) (c : 'I_nb -> F -> 'cV[F]_m).
Definition aff_rate b t (y : 'cV[F]_m) : 'cV[F]_m := K b t *m y + c b t.
Definition aff_jac b t (y : 'cV[F]_m) : 'M[F]_m := K b t.

Variables (lm : lin_method) (tstart : TB F nb) (ts : nat -> TB F nb) (ystart : vb).
Let times := block_times tstart ts.
Let rfn := block_RJ aff_rate aff_jac BackwardEuler tstart ts ystart.

Definition be_res (x : tens2 F) (k : nat) : vb :=
  [ffun b => dys nb m x k.+1 b - dys nb m x k b
     - (times k.+1 b - times k b) *: aff_rate b (times k.+1 b) (dys nb m x k.+1 b + ystart b)].

Lemma be_rfn_res x k : blkV nb m (fst (rfn x)) k = be_res x k.
Proof. by rewrite /rfn /block_RJ /= blkV_flat; apply/ffunP=> b; rewrite !ffunE. Qed.

Lemma be_affine_update n x : (0 < n)%N ->
  (forall k b, (k < n)%N -> (1%:M - (times k.+1 b - times k b) *: K b (times k.+1 b)) \in unitmx) ->
  forall i, (i < n)%N -> be_res (update rfn (block_linsolve lm n) (@tsub F) x) i = zeroV F nb m.
Proof.
move=> n0 ns.
set A := form_A BackwardEuler (func_jac aff_jac times (ys x ystart)) (tdiff times).
set B := form_B BackwardEuler (func_jac aff_jac times (ys x ystart)) (tdiff times).
set dx := block_linsolve lm n (A, B) (fst (rfn x)).
have AE k b : A k b = 1%:M - (times k.+1 b - times k b) *: K b (times k.+1 b) by rewrite !ffunE.
have BE k b : B k b = - 1%:M by rewrite ffunE.
have [S0 S1] : bidiag_solution (fops F nb m) n A B (be_res x) (blkV nb m dx).
{ have ns' : forall k, (k < n)%N -> nonsing (A k) by move=> k kn b; rewrite AE; apply: ns.
  have [T0 T1] := @linsolve_blocks F nb m lm n A B (fst (rfn x)) n0 ns'.
  split=> [h|i h]; first by rewrite T0 // be_rfn_res.
  by rewrite T1 // be_rfn_res. }
have upd_x : update rfn (block_linsolve lm n) (@tsub F) x = tsub x dx by [].
have blkS i b : blkV nb m (tsub x dx) i b = blkV nb m x i b - blkV nb m dx i b.
  by apply/colP => j; rewrite !ffunE !mxE.
have dyS i b : dys nb m (tsub x dx) i b = dys nb m x i b - dys nb m dx i b.
{ case: i => [|i] /=; last exact: blkS. by rewrite ffunE subr0. }
have row i b : (i < n)%N -> A i b *m dys nb m dx i.+1 b - dys nb m dx i b = be_res x i b.
{ case: i => [|i] h.
  - have := S0 (elimT ltP h); move/ffunP/(_ b) => <-.
    have E (M : mb) (u : vb) : bact (fops F nb m) M u b = M b *m u b by rewrite /= ffunE.
    by rewrite E [dys nb m dx 0 b]ffunE subr0.
  - have := S1 i (elimT ltP h); move/ffunP/(_ b) => <-.
    have E (M N : mb) (u v : vb) : badd (fops F nb m) (bact (fops F nb m) M u) (bact (fops F nb m) N v) b
      = M b *m u b + N b *m v b by rewrite /= !ffunE.
    by rewrite E BE mulNmx mul1mx. }
move=> i ij; rewrite upd_x; apply/ffunP=> b; rewrite [RHS]ffunE [LHS]ffunE !dyS.
move: (row i b ij); rewrite AE [be_res x i b]ffunE /aff_rate.
move: (dys nb m dx i.+1 b) (dys nb m dx i b) (dys nb m x i.+1 b) (dys nb m x i b) => X1 X0 u1 u0.
move: (times i.+1 b - times i b) => h E.
suff -> : u1 - X1 - (u0 - X0) - h *: (K b (times i.+1 b) *m (u1 - X1 + ystart b) + c b (times i.+1 b))
  = (u1 - u0 - h *: (K b (times i.+1 b) *m (u1 + ystart b) + c b (times i.+1 b)))
    - ((1%:M - h *: K b (times i.+1 b)) *m X1 - X0) by rewrite E subrr.
rewrite mulmxBl mul1mx !mulmxDr !mulmxN -scalemxAl !scalerDr !scalerN; zmod.
Qed.
End Affine.

Section AffineR.
Variables (nb m : nat).
Notation vb := (VB RF nb m).
Variables (K : 'I_nb -> RF -> 'M[RF]_m) (c : 'I_nb -> RF -> 'cV[RF]_m).

Definition steps_invertible (nt : nat) (t : nat -> TB RF nb) : Prop :=
  forall k b, (0 < k)%N -> (k < nt)%N -> (1%:M - (t k b - t k.-1 b) *: K b (t k b)) \in unitmx.

Lemma be_affine_block_ok lm rtol atol miter throw len t0 ts ystart x0 :
  0 <=R atol -> (0 < len)%N -> (1 < miter)%N ->
  (forall k b, (k < len)%N -> (1%:M - (block_times t0 ts k.+1 b - block_times t0 ts k b)
       *: K b (block_times t0 ts k.+1 b)) \in unitmx) ->
  exists r, newton_raphson_chunk (block_RJ (aff_rate K c) (aff_jac K) BackwardEuler t0 ts ystart)
     (nrmR nb m len) rtol atol (block_linsolve lm len) (@tsub RF) miter throw x0 = Ok r.
Proof.
move=> a0 l0 m1 ns.
set fn := block_RJ _ _ _ _ _ _; set step := block_linsolve _ _.
rewrite /newton_raphson_chunk.
have /= := nr_solve_spec fn (nrmR nb m len) rtol atol step (@tsub RF) miter x0.
set r := nr_solve _ _ _ _ _ _ _ _ => -[_ [_ [_ [_ [_ [HK _]]]]]].
case: (Nat.eqb_spec (res_iters r) miter) => e; last by eexists.
have : keep_going rtol atol (norms fn (nrmR nb m len) (point fn step (@tsub RF) x0 1))
  (norms fn (nrmR nb m len) x0) = true by apply: HK; apply/ltP; rewrite e.
rewrite /keep_going /norms (_ : any_gt _ _ = false) //.
apply: any_gt_all_le.
suff Z : all_le (nrmR nb m len (fst (fn (point fn step (@tsub RF) x0 1)))) 0.
{ apply: List.Forall_impl Z => ex [q [-> hq]]; exists q; split=> //; exact: Rle_trans hq a0. }
apply: nrmR_zero => b idx bn il.
have m0 : (0 < m)%N by move: il; case: (m) => //; rewrite muln0.
have kl : (idx %/ m < len)%N by rewrite ltn_divLR.
have := @be_affine_update RF nb m K c lm t0 ts ystart len x0 l0 ns (idx %/ m)%N kl.
rewrite -be_rfn_res => /ffunP/(_ (Ordinal bn))/colP/(_ (Ordinal (ltn_pmod idx m0))).
by rewrite !ffunE !mxE /= -divn_eq.
Qed.

Lemma be_affine_never_fails lm rtol atol miter throw gt n nt t y0 init :
  0 <=R atol -> (0 < n)%N -> (1 < miter)%N -> (0 < nt)%N -> steps_invertible nt t ->
  (gt = "zero" \/ gt = "previous" /\ (n < nt)%N)%string ->
  exists st, integrate (aff_rate K c) (aff_jac K) BackwardEuler lm (nrmR nb m) rtol atol miter throw
      gt n nt t y0 init = inl st /\ i_warned st = [::].
Proof.
move=> a0 n0 nm nt0 ns hg; rewrite /integrate gtn_eqF // gtn_eqF //.
have key : forall fuel k i st, (nt <= fuel + k)%N -> k = (i * n).+1 -> i_warned st = [::] ->
  exists st', int_loop (aff_rate K c) (aff_jac K) BackwardEuler lm (nrmR nb m) rtol atol miter throw
     fuel gt n nt t k st = inl st' /\ i_warned st' = [::].
{ elim=> [|fuel IH] k i st hf kE W /=; case: ifP => [kn|_]; try by eexists.
  - by move: hf; rewrite add0n leqNgt kn.
  - have [g E] : exists g, initial_guess gt n nt (i_result st) k = Some (slice_len nt k (k + n), g).
    { case: hg => [->|[-> hn]]; first by eexists; exact: guess_zero.
      by have [g [-> _]] := @guess_previous RF nb m n nt (i_result st) k i n0 hn kn kE; eexists. }
    rewrite /int_step E eqxx /= /block_update.
    set x0 := flat _.
    have ns' j b : (j < slice_len nt k (k + n))%N ->
      (1%:M - (block_times (t (k - 1)%N) (fun j => t (k + j)%N) j.+1 b
         - block_times (t (k - 1)%N) (fun j => t (k + j)%N) j b)
       *: K b (block_times (t (k - 1)%N) (fun j => t (k + j)%N) j.+1 b)) \in unitmx.
    { move=> jl.
      have kj : (k + j < nt)%N.
      { have : (k + j < minn (k + n) nt)%N by rewrite -(slice_len_add n (ltnW kn)) ltn_add2l.
        by rewrite leq_min => /andP[]. }
      have k0 : (0 < k)%N by rewrite kE.
      have := ns (k + j)%N b; rewrite addn_gt0 k0 => /(_ isT kj).
      rewrite /=; case: j {jl kj} => [|j] /=; first by rewrite addn0 subn1.
      by rewrite addnS. }
    have [r ->] := @be_affine_block_ok lm rtol atol miter throw (slice_len nt k (k + n)) (t (k - 1)%N)
       (fun j => t (k + j)%N) (i_result st (k - 1)%N) x0 a0 (slice_len_gt0 n0 kn) nm ns'.
    apply: (IH (k + n)%N i.+1) => //; last by rewrite kE addSn mulSnr.
    apply: leq_trans hf _; by rewrite addSn -addnS leq_add2l -[X in (X < _)%N]addn0 ltn_add2l. }
apply: (key nt 1%N 0%N) => //; exact: leq_addr.
Qed.

(** Regular linear steps have unique solutions. *)
Lemma affine_implicit_unique nt t : steps_invertible nt t -> implicit_unique (aff_rate K c) nt t.
Proof.
move=> ns k b z u v k0 kn; have U := ns k b k0 kn; rewrite /aff_rate.
set h := t k b - t k.-1 b in U *.
have E w : w - z - h *: (K b (t k b) *m w + c b (t k b)) = 0 ->
  (1%:M - h *: K b (t k b)) *m w = z + h *: c b (t k b).
{ rewrite scalerDr mulmxBl mul1mx -scalemxAl => /eqP; rewrite -addrA -opprD addrA => /eqP e.
  apply/eqP; rewrite -subr_eq0 -[X in _ == X]e; apply/eqP; zmod. }
by move/E => Eu /E Ev; rewrite -[u](mulKmx U) Eu -Ev mulKmx.
Qed.
End AffineR.

(** ** Uninitialised storage *)
Section Init.
Variables (F : fieldType) (nb m : nat).
Notation vb := (VB F nb m).
Variables (f : 'I_nb -> F -> 'cV[F]_m -> 'cV[F]_m) (Jf : 'I_nb -> F -> 'cV[F]_m -> 'M[F]_m).
Variables (s : scheme) (lm : lin_method) (nrm : nat -> tens2 F -> list ext).
Variables (rtol atol : R) (miter : nat) (throw : bool).
Variables (gt : string) (n nt : nat) (t : nat -> TB F nb).
Notation istep := (int_step f Jf s lm nrm rtol atol miter throw gt n nt t).
Notation iloop := (int_loop f Jf s lm nrm rtol atol miter throw).

Definition same_upto (k : nat) (a b : istate F nb m + ode_error) : Prop :=
  match a, b with
  | inl x, inl y => (forall j, (j < k)%N -> i_result x j = i_result y j) /\ i_writes x = i_writes y
                    /\ i_warned x = i_warned y
  | inr e, inr e' => e = e'
  | _, _ => False
  end.

Lemma guess_upto (r r' : nat -> vb) k : (0 < k)%N -> (0 < n)%N ->
  (forall j, (j < k)%N -> r j = r' j) ->
  match initial_guess gt n nt r k, initial_guess gt n nt r' k with
  | Some (l, g), Some (l', g') => l = l' /\ (l = slice_len nt k (k + n) -> forall j, (j < l)%N -> g j = g' j)
  | None, None => True
  | _, _ => False
  end.
Proof.
move=> k0 n0 H; rewrite /initial_guess; case: ifP => // _; case: ifP => // _.
case: ifP => [//|nk]; split=> //= e j.
have ln : (slice_len nt k (k + n) <= n)%N by rewrite /slice_len leq_subLR geq_minl.
rewrite e => jl.
move/negbT: nk; rewrite addn1 -leqNgt => nk.
congr subV; apply: H; last first.
- by apply: leq_ltn_trans (leq_subr _ _) _; rewrite ltn_subrL n0 k0.
- have nk' : (n <= k)%N by exact: ltnW.
  rewrite -ltn_subRL subKn //.
  by apply: (@leq_trans (n - slice_len nt k (k + n) + slice_len nt k (k + n))); rewrite ?ltn_add2l // subnK.
Qed.

Lemma int_step_upto k st st' : (0 < k)%N -> (0 < n)%N ->
  same_upto k (inl st) (inl st') ->
  same_upto (k + slice_len nt k (k + n)) (istep k st) (istep k st').
Proof.
move=> k0 n0 [H [W Wa]]; rewrite /int_step.
have := @guess_upto (i_result st) (i_result st') k k0 n0 H.
case: initial_guess => [[l g]|]; case: initial_guess => [[l' g']|] //= [<- Hg].
case: eqP => //= le.
have -> : (fun j => if (j < l)%N then g j else zeroV F nb m) = (fun j => if (j < l)%N then g' j else zeroV F nb m).
{ by apply: functional_extensionality => j; case: ifP => // jl; rewrite Hg. }
rewrite (H (k - 1)%N); last by rewrite subn1 prednK.
case: block_update => [out|out|] //=; (split; [|by rewrite ?W ?Wa]) => j jl;
  by rewrite jl andbT; case: leqP => // jk; rewrite H.
Qed.

Lemma int_loop_upto fuel k st st' : (0 < k)%N -> (0 < n)%N ->
  same_upto (minn k nt) (inl st) (inl st') ->
  same_upto nt (iloop fuel gt n nt t k st) (iloop fuel gt n nt t k st').
Proof.
move=> + n0; elim: fuel k st st' => [|fuel IH] k st st' k0 H /=; case: ifP => [kn|/negbT kn] //;
  try by move: H; rewrite -leqNgt in kn; rewrite (minn_idPr kn).
rewrite (minn_idPl (ltnW kn)) in H.
have := int_step_upto k0 n0 H.
case: (istep k st) => [s1|e1]; case: (istep k st') => [s2|e2] //= S.
apply: IH; first by rewrite ltn_addr.
by move: S; rewrite (slice_len_add n (ltnW kn)).
Qed.

Lemma integrate_init y0 init init' :
  same_upto nt (integrate f Jf s lm nrm rtol atol miter throw gt n nt t y0 init)
     (integrate f Jf s lm nrm rtol atol miter throw gt n nt t y0 init').
Proof.
rewrite /integrate; case: eqP => // /eqP nt0; case: eqP => // /eqP n0.
apply: int_loop_upto => //; first by rewrite lt0n.
rewrite (minn_idPl _) ?lt0n //; split=> // j; by rewrite ltnS leqn0 => /eqP->.
Qed.
End Init.
