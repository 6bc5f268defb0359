(** Proofs about integrate (C18, C21, C23, C24), over an arbitrary field. *)
From Coq Require Import Reals List String.
From mathcomp Require Import all_ssreflect all_algebra.
From Verif Require Import ChunkModel ChunkSolve ChunkInst NewtonModel NewtonProofs Ode ZmodTac.
Import GRing.Theory.
Set Implicit Arguments. Unset Strict Implicit. Unset Printing Implicit Defensive.
Local Open Scope ring_scope.

Section Fwd.
Variables (F : fieldType) (nb m : nat).
Notation vb := (VB F nb m).
Notation mb := (MB F nb m).
Variables (f : 'I_nb -> F -> 'cV[F]_m -> 'cV[F]_m) (Jf : 'I_nb -> F -> 'cV[F]_m -> 'M[F]_m).

(** ** Specification: the update equation of step k *)
Definition step_res (s : scheme) (t : nat -> TB F nb) (y : nat -> vb) (k : nat) (b : 'I_nb) : 'cV[F]_m :=
  y k b - y k.-1 b - (t k b - t k.-1 b) *:
    match s with
    | BackwardEuler => f b (t k b) (y k b)
    | ForwardEuler => f b (t k.-1 b) (y k.-1 b)
    end.

(** ** Slices and the loop *)
Lemma slice_len_add nt k n : (k <= nt)%N -> (k + slice_len nt k (k + n))%N = minn (k + n) nt.
Proof. by move=> h; rewrite /slice_len subnKC // leq_min leq_addr h. Qed.

Lemma slice_len_gt0 nt k n : (0 < n)%N -> (k < nt)%N -> (0 < slice_len nt k (k + n))%N.
Proof. by move=> n0 kn; rewrite /slice_len subn_gt0 leq_min kn andbT -[X in (X < _)%N]addn0 ltn_add2l. Qed.

Section Loop.
Variables (s : scheme) (lm : lin_method) (nrm : nat -> tens2 F -> list ext).
Variables (rtol atol : R) (miter : nat) (throw : bool).
Variables (gt : string) (n nt : nat) (t : nat -> TB F nb).
Notation istep := (int_step f Jf s lm nrm rtol atol miter throw gt n nt t).
Notation iloop := (int_loop f Jf s lm nrm rtol atol miter throw).
Notation integr := (integrate f Jf s lm nrm rtol atol miter throw gt n nt t).

Definition start_state (y0 : vb) (init : nat -> vb) : istate F nb m :=
  {| i_result := fun j => if j == 0%N then y0 else init j;
     i_writes := [:: 0%N]; i_warned := [::] |}.

(** Induction principle: [P k st] with k = number of filled entries. *)
Lemma int_loop_ind (P : nat -> istate F nb m -> Prop) : (0 < n)%N ->
  (forall k st st', (0 < k)%N -> (k < nt)%N -> (exists i, k = (i * n).+1) -> P k st -> istep k st = inl st' ->
     P (k + slice_len nt k (k + n))%N st') ->
  forall fuel k st st', (0 < k)%N -> (exists i, k = (i * n).+1) -> P (minn k nt) st ->
  iloop fuel gt n nt t k st = inl st' -> P nt st'.
Proof.
move=> n0 Hs; elim=> [|fuel IH] k st st' k0 ik Pk /=; case: (boolP (k < nt)%N) => // kn.
- by case=> <-; rewrite -leqNgt in kn; rewrite (minn_idPr kn) in Pk.
- case E : (istep k st) => [st1|//].
  move: Pk; rewrite (minn_idPl (ltnW kn)) => Pk.
  have := Hs k st st1 k0 kn ik Pk E; rewrite slice_len_add 1?ltnW // => P1 /IH; apply=> //.
  + by rewrite ltn_addr.
  + by case: ik => i ->; exists i.+1; rewrite mulSn addSn addnC.
- by case=> <-; rewrite -leqNgt in kn; rewrite (minn_idPr kn) in Pk.
Qed.

Lemma integrate_ind (P : nat -> istate F nb m -> Prop) y0 init st :
  P 1%N (start_state y0 init) ->
  (forall k st st', (0 < k)%N -> (k < nt)%N -> (exists i, k = (i * n).+1) -> P k st -> istep k st = inl st' ->
     P (k + slice_len nt k (k + n))%N st') ->
  integr y0 init = inl st -> P nt st.
Proof.
move=> P1 Hs; rewrite /integrate; case: eqP => // /eqP nt0; case: eqP => // /eqP n0.
apply: (int_loop_ind _ Hs) => //; first by rewrite lt0n.
- by exists 0%N.
- by rewrite (minn_idPl _) // lt0n.
Qed.

(** The loop never runs out of fuel. *)
Lemma int_loop_fuel fuel k st : (0 < n)%N -> (nt <= fuel + k)%N ->
  iloop fuel gt n nt t k st <> inr ErrFuel.
Proof.
move=> n0; elim: fuel k st => [|fuel IH] k st h /=; case: ifP => // kn.
- by move: h; rewrite add0n leqNgt kn.
- case E : (istep k st) => [st'|e].
  + apply: IH; apply: leq_trans h _; by rewrite addSn -addnS leq_add2l -[X in (X < _)%N]addn0 ltn_add2l.
  + move: E; rewrite /int_step; case: initial_guess => [[gl g]|[<-]//]; case: ifP => // _; first by case=> <-.
    by case: block_update => // [[<-]].
Qed.

Lemma integrate_fuel y0 init : integr y0 init <> inr ErrFuel.
Proof.
rewrite /integrate; case: eqP => //; case: eqP => // /eqP n0 _; apply: int_loop_fuel; first by rewrite lt0n.
by rewrite leq_addr.
Qed.

(** What one successful pass does. *)
Lemma int_stepE k st st' : istep k st = inl st' ->
  let len := slice_len nt k (k + n) in
  exists g r, initial_guess gt n nt (i_result st) k = Some (len, g) /\
    let grows := fun j => if (j < len)%N then g j else zeroV F nb m in
    let out := newton_raphson_chunk (block_RJ f Jf s (t (k - 1)%N) (fun j => t (k + j)%N) (i_result st (k - 1)%N))
          (nrm len) rtol atol (block_linsolve lm len) (@tsub F) miter throw (flat grows) in
    (out = Ok r \/ out = Warned r) /\
    (forall j, i_result st' j = if (k <= j < k + len)%N
        then addV (blkV nb m (res_x r) (j - k)) (i_result st (k - 1)%N) else i_result st j) /\
    i_writes st' = i_writes st ++ iota k len /\
    (i_warned st' = i_warned st /\ out = Ok r \/ i_warned st' = i_warned st ++ [:: (k, len)] /\ out = Warned r).
Proof.
rewrite /int_step; case E : initial_guess => [[gl g]|//]; case: eqP => //= -> .
rewrite /block_update; set out := newton_raphson_chunk _ _ _ _ _ _ _ _ _.
case EO : out => [r|r|//] [<-] /=; exists g, r; split=> //; split; auto.
Qed.

Lemma integrate_writes y0 init st : integr y0 init = inl st ->
  i_writes st = iota 0 nt /\ i_result st 0%N = y0 /\
  (forall j, (nt <= j)%N -> (0 < j)%N -> i_result st j = init j).
Proof.
move=> H.
pose P k (st : istate F nb m) := i_writes st = iota 0 k /\ i_result st 0%N = y0 /\
  (forall j, (k <= j)%N -> (0 < j)%N -> i_result st j = init j).
apply: (@integrate_ind P y0 init st _ _ H) => [|k st1 st2 k0 kn _ [W [R0 I]] /int_stepE[g [r [_ [_ [Rs [Ws _]]]]]]] /=.
- by split=> //; split=> // j _ ; case: j.
- split; first by rewrite Ws W iotaD add0n.
  split; first by rewrite Rs leqn0 (gtn_eqF k0).
  move=> j kj j0; rewrite Rs ltnNge kj andbF I //; apply: leq_trans kj; exact: leq_addr.
Qed.
End Loop.

(** ** The block residual is the update equation of each step *)
Lemma block_step_res s x (t : nat -> TB F nb) (y : nat -> vb) k len j b : (0 < k)%N -> (j < len)%N ->
  (forall i, (i < len)%N -> y (k + i)%N = addV (blkV nb m x i) (y (k - 1)%N)) ->
  let times := block_times (t (k - 1)%N) (fun j => t (k + j)%N) in
  form_residual s (dys nb m x) (func_rate f times (ys x (y (k - 1)%N))) (tdiff times) j b
  = step_res s t y (k + j)%N b.
Proof.
move=> k0 jl Hy times.
have yE i : (i <= len)%N -> ys x (y (k - 1)%N) i = y (k - 1 + i)%N.
{ case: i => [|i] il; first by rewrite addn0 /ys /=; apply/ffunP=> c; rewrite !ffunE add0r.
  by rewrite /ys /= -Hy // subn1 -addSnnS prednK. }
have tE i : times i = t (k - 1 + i)%N.
{ case: i => [|i] /=; first by rewrite addn0. by rewrite subn1 -addSnnS prednK. }
have kj : (k + j).-1 = (k - 1 + j)%N by rewrite subn1 -[in LHS](prednK k0).
have kj' : (k - 1 + j.+1)%N = (k + j)%N by rewrite addnS -kj prednK // addn_gt0 k0.
rewrite ffunE.
have dyE : dys nb m x j.+1 b - dys nb m x j b = y (k + j)%N b - y (k + j).-1 b.
{ rewrite kj -(yE j (ltnW jl)) Hy // !ffunE /=. by zmod. }
rewrite dyE [tdiff _ _ _]ffunE !tE kj' -kj /step_res; congr (_ - _ *: _).
by case: s; rewrite ffunE !tE ?yE ?kj' -?kj // ltnW.
Qed.

(** ** Initial guess *)
Lemma guess_zero n nt result k :
  initial_guess "zero" n nt result k = Some (slice_len nt k (k + n), fun _ => zeroV F nb m).
Proof. by []. Qed.

Lemma guess_previous n nt result k i : (0 < n)%N -> (n < nt)%N -> (k < nt)%N -> k = (i * n).+1 ->
  exists g, initial_guess "previous" n nt result k = Some (slice_len nt k (k + n), g) /\
  forall j, (j < slice_len nt k (k + n))%N ->
    g j = if i is i'.+1 then
            subV (result (k - slice_len nt k (k + n) + j)%N) (result (k - n - 1)%N)
          else zeroV F nb m.
Proof.
move=> n0 nnt kn kE; rewrite /initial_guess /=.
set len := slice_len nt k (k + n).
have lenn : (len <= n)%N by rewrite /len /slice_len leq_subLR geq_min leqnn.
case: i kE => [|i] kE.
- have len1 : len = n by rewrite /len /slice_len kE mul0n add1n (minn_idPl _) // subn1.
  rewrite kE mul0n addn1 ltnS n0 /= len1 subnn subn0; eexists; split; first reflexivity. by [].
- have -> : (k < n + 1)%N = false by rewrite kE mulSn addn1 ltnS ltnNge leq_addr.
  rewrite /=.
  have kk : slice_len nt (k - n) k = n.
    by rewrite /slice_len (minn_idPl (ltnW kn)) subKn // kE mulSn -addnS leq_addr.
  rewrite kk subKn //; eexists; split; first reflexivity.
  move=> j jl /=; congr (subV (result _) _).
  rewrite addnA; congr (_ + _)%N; rewrite addnBA // subnK //.
  by rewrite kE mulSn -addnS leq_addr.
Qed.

Lemma guess_other gt n nt result k : gt <> "zero"%string -> gt <> "previous"%string ->
  @initial_guess F nb m gt n nt result k = None.
Proof.
move=> h1 h2; rewrite /initial_guess.
case: (String.eqb_spec gt "zero") => // _; by case: (String.eqb_spec gt "previous").
Qed.

(** first block shorter than block_size: the "previous" guess is too short *)
Lemma guess_previous_short n nt result : (1 < nt)%N -> (nt <= n)%N ->
  exists glen g, @initial_guess F nb m "previous" n nt result 1 = Some (glen, g) /\
    (glen < slice_len nt 1 (1 + n))%N.
Proof.
move=> nt1 hn; rewrite /initial_guess /= addn1 ltnS (leq_trans _ hn) 1?ltnW //=.
have lenE : slice_len nt 1 (1 + n) = nt.-1.
  by rewrite /slice_len (minn_idPr (leq_trans hn (leq_addl 1 n))) subn1.
rewrite lenE; do 2!eexists; split; first reflexivity.
have nt0 : (0 < nt.-1)%N by case: (nt) nt1 => [|[]].
rewrite ltn_subrL nt0 andbT subn_gt0; apply: leq_trans hn; by case: (nt) nt1 => [|[]].
Qed.

Lemma integrate_previous_short (s : scheme) lm nrm rtol atol miter throw n nt t y0 init :
  (1 < nt)%N -> (nt <= n)%N ->
  integrate f Jf s lm nrm rtol atol miter throw "previous" n nt t y0 init = inr ErrGuessShape.
Proof.
move=> nt1 hn; rewrite /integrate gtn_eqF 1?ltnW // gtn_eqF; last by apply: leq_trans hn; apply: ltnW.
case: nt nt1 hn => // nt nt1 hn /=; rewrite nt1 /int_step.
have [gl [g [-> lt]]] := @guess_previous_short n nt.+1 (fun j => if j == 0%N then y0 else init j) nt1 hn.
by rewrite ltn_eqF.
Qed.

End Fwd.

(** ** The linear solve of a block, on blocks *)
Section FE.
Variables (F : fieldType) (nb m : nat).
Notation vb := (VB F nb m).
Notation mb := (MB F nb m).
Variables (f : 'I_nb -> F -> 'cV[F]_m -> 'cV[F]_m) (Jf : 'I_nb -> F -> 'cV[F]_m -> 'M[F]_m).

Lemma blkM_unblkM (A : nat -> mb) k : blkM nb m (unblkM A) k = A k.
Proof. by apply/ffunP=> b; apply/matrixP=> i j; rewrite ffunE mxE /unblkM !valK. Qed.

Lemma ctx_solve_defined lm n (A B : tens4 F) r : (0 < n)%N -> exists x, ctx_solve lm nb m n A B r = Some x.
Proof.
move=> n0; case: lm => [|mth] /=.
- by rewrite /solve_dense; have [D [-> _]] := to_diag_ok m A B n0; eexists.
- rewrite /lu_forward; case: mth => [||ms] //=; try by eexists.
  + rewrite /pcr_matvec; have [s [e ->]] := proj2 (ChunkPow2.pow2_defined_iff n) (elimT ltP n0).
    by case: pcr_sweep => ? ?; eexists.
  + rewrite /hybrid_matvec /pcr_blocks; have [s [e ->]] := proj2 (ChunkPow2.pow2_defined_iff n) (elimT ltP n0).
    by case: ifP => _; case: pcr_sweep => ? ?; eexists.
Qed.

Lemma linsolve_blocks lm n (A B : nat -> mb) r : (0 < n)%N ->
  (forall k, (k < n)%N -> nonsing (A k)) ->
  bidiag_solution (fops F nb m) n A B (blkV nb m r) (blkV nb m (block_linsolve lm n (A, B) r)).
Proof.
move=> n0 ns.
have ns' : nonsing_blocks nb m n (unblkM A).
{ move=> k b kn bn; have := ns k kn (Ordinal bn); rewrite -blkM_unblkM ffunE //. }
have [x [E S]] := ctx_solve_correct lm (unblkM B) r n0 ns'.
rewrite /block_linsolve /= E.
have := proj1 (@system_blocks F nb m n (unblkM A) (unblkM B) r x n0) S.
case=> S0 S1; split=> [h|i h]; first by have := S0 h; rewrite blkM_unblkM.
by have := S1 i h; rewrite !blkM_unblkM.
Qed.

Variables (lm : lin_method) (tstart : TB F nb) (ts : nat -> TB F nb) (ystart : vb).
Let times := block_times tstart ts.
Let rfn := block_RJ f Jf ForwardEuler tstart ts ystart.

(** residual of step k of the block at the point x *)
Definition fe_res (x : tens2 F) (k : nat) : vb :=
  [ffun b => dys nb m x k.+1 b - dys nb m x k b
     - (times k.+1 b - times k b) *: f b (times k b) (dys nb m x k b + ystart b)].

Lemma rfn_res x k : blkV nb m (fst (rfn x)) k = fe_res x k.
Proof. by rewrite /rfn /block_RJ /= blkV_flat; apply/ffunP=> b; rewrite !ffunE. Qed.

Lemma fe_update n x j : (0 < n)%N -> (j < n)%N ->
  (forall i, (i < j)%N -> fe_res x i = zeroV F nb m) ->
  forall i, (i <= j)%N -> fe_res (update rfn (block_linsolve lm n) (@tsub F) x) i = zeroV F nb m.
Proof.
move=> n0 jn Hz.
set A := form_A ForwardEuler (func_jac Jf times (ys x ystart)) (tdiff times).
set B := form_B ForwardEuler (func_jac Jf times (ys x ystart)) (tdiff times).
set dx := block_linsolve lm n (A, B) (fst (rfn x)).
have [S0 S1] : bidiag_solution (fops F nb m) n A B (fe_res x) (blkV nb m dx).
{ have ns : forall k, (k < n)%N -> nonsing (A k) by move=> k _ b; rewrite ffunE unitmx1.
  have [T0 T1] := @linsolve_blocks lm n A B (fst (rfn x)) n0 ns.
  split=> [h|i h]; first by rewrite T0 // rfn_res.
  by rewrite T1 // rfn_res. }
have upd_x : update rfn (block_linsolve lm n) (@tsub F) x = tsub x dx by [].
have blkS i b : blkV nb m (tsub x dx) i b = blkV nb m x i b - blkV nb m dx i b.
  by apply/colP => c; rewrite !ffunE !mxE.
move: (blkV nb m dx) S0 S1 blkS => X S0 S1 blkS.
have AX k b : A k b *m X k b = X k b by rewrite ffunE mul1mx.
have rowE (M N : mb) (u v w : vb) b :
    badd (fops F nb m) (bact (fops F nb m) M u) (bact (fops F nb m) N v) = w ->
    M b *m u b + N b *m v b = w b by move=> <-; rewrite /= !ffunE.
have dx0 i : (i < j)%N -> X i = zeroV F nb m.
{ elim: i => [|i IH] ij.
  - have := S0 (elimT ltP n0); rewrite Hz // => /ffunP S; apply/ffunP=> b.
    by rewrite -S [RHS]ffunE AX.
  - have i1 : (i.+1 < n)%N by apply: ltn_trans ij jn.
    have := S1 i (elimT ltP i1); rewrite Hz // IH 1?ltnW // => S; apply/ffunP=> b.
    by move: (rowE _ _ _ _ _ b S); rewrite AX [zeroV _ _ _ b]ffunE mulmx0 addr0. }
have dxj : X j = fe_res x j.
{ case: j jn Hz dx0 => [|j] jn Hz dx0.
  - have := S0 (elimT ltP n0) => /ffunP S; apply/ffunP=> b.
    by rewrite -S [RHS]ffunE AX.
  - have := S1 j (elimT ltP jn); rewrite (dx0 j) // => S; apply/ffunP=> b.
    by move: (rowE _ _ _ _ _ b S); rewrite AX [zeroV _ _ _ b]ffunE mulmx0 addr0. }
have dyS i : (i <= j)%N -> dys nb m (tsub x dx) i = dys nb m x i.
{ case: i => [//|i] ij /=; apply/ffunP=> b; by rewrite blkS dx0 // [zeroV _ _ _ b]ffunE subr0. }
move=> i ij; rewrite upd_x; apply/ffunP=> b; rewrite [RHS]ffunE [LHS]ffunE (dyS i ij).
move: ij; rewrite leq_eqVlt => /orP[/eqP->|ij].
- rewrite {1}/dys blkS dxj [fe_res x j b]ffunE /=; zmod.
- rewrite dyS //. have /ffunP/(_ b) := Hz i ij; by rewrite !ffunE.
Qed.

(** C23: after j Newton updates the first j steps are exact. *)
Lemma fe_exact_after n x0 j : (0 < n)%N -> (j <= n)%N ->
  forall i, (i < j)%N ->
  fe_res (point rfn (block_linsolve lm n) (@tsub F) x0 j) i = zeroV F nb m.
Proof.
move=> n0; elim: j => [//|j IH] jn i; rewrite ltnS => ij.
by apply: (@fe_update n _ j) => //; apply: IH; apply: ltnW.
Qed.

Lemma fe_exact_stays n x0 j : (0 < n)%N -> (n <= j)%N -> forall i, (i < n)%N ->
  fe_res (point rfn (block_linsolve lm n) (@tsub F) x0 j) i = zeroV F nb m.
Proof.
move=> n0; elim: j => [|j IH] nj i iN; first by move: nj; rewrite leqn0 gtn_eqF.
case: n n0 nj iN IH => // n _ nj iN IH.
move: nj; rewrite leq_eqVlt => /orP[/eqP e|nj]; first by rewrite -e; apply: fe_exact_after.
apply: (@fe_update n.+1 _ n) => // i' hi; apply: IH => //; exact: ltnW.
Qed.
End FE.
