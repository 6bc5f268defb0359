(** The integrator of Ode.v for a user function that sees a whole block at once.

    ode.py calls [func(times, y)] on the stacked (block, batch) times and states
    (ode.py 503).  Ode.v models functions whose value at each point depends on that
    point only.  The stress-controlled models are not of this form: their inner
    Newton iteration (models.py 429-440) stops when all the points of the block have
    converged, so the strain rate found at one point depends on the others.  Here
    the function is [G rows ts y]: [rows] is the number of stacked rows, and the
    result gives the rates and the Jacobians of all the rows.  For a pointwise
    function this is the model of Ode.v ([integrateG_pointwise]). *)
From Coq Require Import Reals List String Lra.
From mathcomp Require Import all_ssreflect all_algebra.
From Verif Require Import ChunkModel ChunkSolve ChunkInst NewtonModel NewtonProofs Ode OdeForward ZmodTac RField OdeReal.
Import GRing.Theory.
Set Implicit Arguments. Unset Strict Implicit. Unset Printing Implicit Defensive.
Local Open Scope ring_scope.

Section OdeG.
Variables (F : fieldType) (nb m : nat).
Notation vb := (VB F nb m).
Notation mb := (MB F nb m).
Variable G : nat -> (nat -> TB F nb) -> (nat -> vb) -> (nat -> vb) * (nat -> mb).

(** ode.py 490-505 *)
Definition block_RJG (s : scheme) (n : nat) (tstart : TB F nb) (ts : nat -> TB F nb) (ystart : vb) (x : tens2 F)
  : tens2 F * ((nat -> mb) * (nat -> mb)) :=
  let y := ys x ystart in
  let times := block_times tstart ts in
  let dt := tdiff times in
  let RJ := G n.+1 times y in
  (flat (form_residual s (dys nb m x) RJ.1 dt), (form_A s RJ.2 dt, form_B s RJ.2 dt)).

Section Integrate.
Variables (s : scheme) (lm : lin_method) (nrm : nat -> tens2 F -> list ext).
Variables (rtol atol : R) (miter : nat) (throw : bool).

(** ode.py 477-519 *)
Definition block_updateG (n : nat) (tstart : TB F nb) (ts : nat -> TB F nb) (ystart : vb) (guess : tens2 F)
  : outcome (nat -> vb) :=
  let out r := fun k => addV (blkV nb m (res_x r) k) ystart in
  match newton_raphson_chunk (block_RJG s n tstart ts ystart) (nrm n) rtol atol
          (block_linsolve lm n) (@tsub F) miter throw guess with
  | Ok r => Ok (out r)
  | Warned r => Warned (out r)
  | Raised => Raised
  end.

(** ode.py 374-381 *)
Definition int_stepG (gt : string) (n nt : nat) (t : nat -> TB F nb) (k : nat) (st : istate F nb m)
  : istate F nb m + ode_error :=
  let len := slice_len nt k (k + n) in
  match initial_guess gt n nt (i_result st) k with
  | None => inr ErrGuessName
  | Some (glen, g) =>
    if glen != len then inr ErrGuessShape
    else
      let wr warned out :=
        inl {| i_result := fun j => if (k <= j < k + len)%N then out (j - k)%N else i_result st j;
               i_writes := i_writes st ++ iota k len;
               i_warned := if warned then i_warned st ++ [:: (k, len)] else i_warned st |} in
      let grows := fun j => if (j < glen)%N then g j else zeroV F nb m in
      match block_updateG len (t (k - 1)%N) (fun j => t (k + j)%N) (i_result st (k - 1)%N) (flat grows) with
      | Ok out => wr false out
      | Warned out => wr true out
      | Raised => inr ErrSolve
      end
  end.

Fixpoint int_loopG (fuel : nat) (gt : string) (n nt : nat) (t : nat -> TB F nb) (k : nat) (st : istate F nb m)
  : istate F nb m + ode_error :=
  if (k < nt)%N then
    match fuel with
    | O => inr ErrFuel
    | fuel'.+1 =>
      match int_stepG gt n nt t k st with
      | inl st' => int_loopG fuel' gt n nt t (k + n)%N st'
      | inr e => inr e
      end
    end
  else inl st.

(** ode.py 354-388 *)
Definition integrateG (gt : string) (n nt : nat) (t : nat -> TB F nb) (y0 : vb) (init : nat -> vb)
  : istate F nb m + ode_error :=
  if nt == 0%N then inr ErrEmpty
  else if n == 0%N then inr ErrStep
  else int_loopG nt gt n nt t 1
         {| i_result := fun j => if j == 0%N then y0 else init j;
            i_writes := [:: 0%N]; i_warned := [::] |}.
End Integrate.
End OdeG.

(** For a pointwise function nothing changes. *)
Lemma integrateG_pointwise (F : fieldType) nb m
  (f : 'I_nb -> F -> 'cV[F]_m -> 'cV[F]_m) (Jf : 'I_nb -> F -> 'cV[F]_m -> 'M[F]_m)
  s lm nrm rtol atol miter throw gt n nt t y0 init :
  integrateG (fun _ ts y => (func_rate f ts y, func_jac Jf ts y)) s lm nrm rtol atol miter throw gt n nt t y0 init
  = integrate f Jf s lm nrm rtol atol miter throw gt n nt t y0 init.
Proof. by []. Qed.

Section LoopG.
Variables (F : fieldType) (nb m : nat).
Notation vb := (VB F nb m).
Notation mb := (MB F nb m).
Variable G : nat -> (nat -> TB F nb) -> (nat -> vb) -> (nat -> vb) * (nat -> mb).
Variables (s : scheme) (lm : lin_method) (nrm : nat -> tens2 F -> list ext).
Variables (rtol atol : R) (miter : nat) (throw : bool).
Variables (gt : string) (n nt : nat) (t : nat -> TB F nb).
Notation istep := (int_stepG G s lm nrm rtol atol miter throw gt n nt t).
Notation iloop := (int_loopG G s lm nrm rtol atol miter throw).
Notation integr := (integrateG G s lm nrm rtol atol miter throw gt n nt t).

Lemma int_loopG_ind (P : nat -> istate F nb m -> Prop) : (0 < n)%N ->
  (forall k st st', (0 < k)%N -> (k < nt)%N -> (exists i, k = (i * n).+1) -> P k st -> istep k st = inl st' ->
     P (k + slice_len nt k (k + n))%N st') ->
  forall fuel k st st', (0 < k)%N -> (exists i, k = (i * n).+1) -> P (minn k nt) st ->
  iloop fuel gt n nt t k st = inl st' -> P nt st'.
Proof.
move=> n0 Hs; elim=> [|fuel IH] k st st' k0 ik Pk /=; case: (boolP (k < nt)%N) => // kn.
- by case=> <-; rewrite -leqNgt in kn; rewrite (minn_idPr kn) in Pk.
- case E : (istep k st) => [st1|//].
  move: Pk; rewrite (minn_idPl (ltnW kn)) => Pk.
  have := Hs k st st1 k0 kn ik Pk E; rewrite slice_len_add 1?ltnW // => P1 /IH; apply=> //.
  + by rewrite ltn_addr.
  + by case: ik => i ->; exists i.+1; rewrite mulSn addSn addnC.
- by case=> <-; rewrite -leqNgt in kn; rewrite (minn_idPr kn) in Pk.
Qed.

Lemma integrateG_ind (P : nat -> istate F nb m -> Prop) y0 init st :
  P 1%N (start_state y0 init) ->
  (forall k st st', (0 < k)%N -> (k < nt)%N -> (exists i, k = (i * n).+1) -> P k st -> istep k st = inl st' ->
     P (k + slice_len nt k (k + n))%N st') ->
  integr y0 init = inl st -> P nt st.
Proof.
move=> P1 Hs; rewrite /integrateG; case: eqP => // /eqP nt0; case: eqP => // /eqP n0.
apply: (int_loopG_ind _ Hs) => //; first by rewrite lt0n.
- by exists 0%N.
- by rewrite (minn_idPl _) // lt0n.
Qed.

Lemma int_stepGE k st st' : istep k st = inl st' ->
  let len := slice_len nt k (k + n) in
  exists g r, initial_guess gt n nt (i_result st) k = Some (len, g) /\
    let grows := fun j => if (j < len)%N then g j else zeroV F nb m in
    let out := newton_raphson_chunk (block_RJG G s len (t (k - 1)%N) (fun j => t (k + j)%N) (i_result st (k - 1)%N))
          (nrm len) rtol atol (block_linsolve lm len) (@tsub F) miter throw (flat grows) in
    (out = Ok r \/ out = Warned r) /\
    (forall j, i_result st' j = if (k <= j < k + len)%N
        then addV (blkV nb m (res_x r) (j - k)) (i_result st (k - 1)%N) else i_result st j) /\
    i_writes st' = i_writes st ++ iota k len /\
    (i_warned st' = i_warned st /\ out = Ok r \/ i_warned st' = i_warned st ++ [:: (k, len)] /\ out = Warned r).
Proof.
rewrite /int_stepG; case E : initial_guess => [[gl g]|//]; case: eqP => //= -> .
rewrite /block_updateG; set out := newton_raphson_chunk _ _ _ _ _ _ _ _ _.
case EO : out => [r|r|//] [<-] /=; exists g, r; split=> //; split; auto.
Qed.

Lemma integrateG_writes y0 init st : integr y0 init = inl st ->
  i_writes st = iota 0 nt /\ i_result st 0%N = y0 /\
  (forall j, (nt <= j)%N -> (0 < j)%N -> i_result st j = init j).
Proof.
move=> H.
pose P k (st : istate F nb m) := i_writes st = iota 0 k /\ i_result st 0%N = y0 /\
  (forall j, (k <= j)%N -> (0 < j)%N -> i_result st j = init j).
apply: (@integrateG_ind P y0 init st _ _ H) => [|k st1 st2 k0 kn _ [W [R0 I]] /int_stepGE[g [r [_ [_ [Rs [Ws _]]]]]]] /=.
- by split=> //; split=> // j _ ; case: j.
- split; first by rewrite Ws W iotaD add0n.
  split; first by rewrite Rs leqn0 (gtn_eqF k0).
  move=> j kj j0; rewrite Rs ltnNge kj andbF I //; apply: leq_trans kj; exact: leq_addr.
Qed.

(** Whatever holds of the block solves that were accepted, and depends on the written
    entries only, holds of the finished history: [Q k len ystart x] is a fact about
    the increments [x] of the block of [len] steps starting at [k]. *)
Lemma integrateG_blocks (Q : nat -> nat -> vb -> tens2 F -> Prop) y0 init st :
  (forall k len ystart g r, (0 < k)%N -> (k < nt)%N -> len = slice_len nt k (k + n) ->
     newton_raphson_chunk (block_RJG G s len (t (k - 1)%N) (fun j => t (k + j)%N) ystart)
          (nrm len) rtol atol (block_linsolve lm len) (@tsub F) miter throw g = Ok r ->
     (gt = "zero"%string -> forall j, (j < len)%N -> blkV nb m g j = zeroV F nb m) ->
     Q k len ystart (res_x r)) ->
  integr y0 init = inl st ->
  forall i, let k0 := (i * n).+1 in let len := slice_len nt k0 (k0 + n) in
  (k0 < nt)%N -> (k0, len) \notin i_warned st ->
  exists x, (forall j, (j < len)%N -> i_result st (k0 + j)%N = addV (blkV nb m x j) (i_result st (k0 - 1)%N)) /\
            Q k0 len (i_result st (k0 - 1)%N) x.
Proof.
move=> HQ H.
have n0 : (0 < n)%N by move: H; rewrite /integrateG; case: eqP => // _; case: eqP => //; rewrite lt0n => /eqP.
pose ok (st : istate F nb m) k0 len := exists x, (forall j, (j < len)%N ->
   i_result st (k0 + j)%N = addV (blkV nb m x j) (i_result st (k0 - 1)%N)) /\ Q k0 len (i_result st (k0 - 1)%N) x.
have ok_ext st1 st2 k0 len : (0 < k0)%N -> (forall j, (j < k0 + len)%N -> i_result st2 j = i_result st1 j) ->
   ok st1 k0 len -> ok st2 k0 len.
{ move=> k00 E [x [X1 X2]]; have e : i_result st2 (k0 - 1)%N = i_result st1 (k0 - 1)%N.
    by apply: E; rewrite subn1 ltn_addr // prednK.
  exists x; split; last by rewrite e.
  by move=> j jl; rewrite e E ?ltn_add2l // X1. }
pose P k (st : istate F nb m) :=
  (forall p, p \in i_warned st -> (p.1 < k)%N) /\
  forall i, let k0 := (i * n).+1 in let len := slice_len nt k0 (k0 + n) in
  (k0 < k)%N -> (k0 < nt)%N -> (k0, len) \notin i_warned st -> ok st k0 len.
suff [_ W] : P nt st by move=> i k0 len h; apply: W.
apply: (@integrateG_ind P y0 init st _ _ H).
- by split=> // i k0 len; rewrite ltnS.
- move=> k st1 st2 kp kn [i kE] [Pw Pb] /int_stepGE [g [r [E [_ [Rs [_ W]]]]]].
  set len := slice_len nt k (k + n) in E Rs W *.
  have below j : (j < k)%N -> i_result st2 j = i_result st1 j by move=> jk; rewrite Rs leqNgt jk.
  have T : i_warned st2 = i_warned st1 ++ [:: (k, len)] \/ i_warned st2 = i_warned st1 /\ ok st2 k len.
  { case: W => [[W O]|[W _]]; last by left.
    right; split=> //; exists (res_x r).
    have e : i_result st2 (k - 1)%N = i_result st1 (k - 1)%N by apply: below; rewrite subn1 prednK.
    split; first by move=> j jl; rewrite Rs leq_addr ltn_add2l jl addKn e.
    rewrite e; apply: (HQ k len _ _ r kp kn erefl O).
    by move=> gz j jl; rewrite blkV_flat jl; move: E; rewrite gz guess_zero => -[<-]. }
  have len0 : (0 < len)%N by apply: slice_len_gt0.
  have lt_k p : (p < k -> p < k + len)%N by move=> h; rewrite ltn_addr.
  split.
  + move=> p; case: T => [->|[-> _]]; last by move/Pw/lt_k.
    by rewrite mem_cat inE => /orP[/Pw/lt_k//|/eqP->/=]; rewrite -[X in (X < _)%N]addn0 ltn_add2l.
  + move=> i' k0 len' hk hnt nw.
    have sl : forall a, (slice_len nt a (a + n) <= n)%N by move=> a; rewrite /slice_len leq_subLR geq_minl.
    case: (ltngtP k0 k) => [lt|gt'|e].
    * apply: (@ok_ext st1) => //.
      - move=> j hj; apply: below; apply: leq_trans hj _.
        apply: (@leq_trans (k0 + n)); first by rewrite leq_add2l; exact: sl.
        move: lt; rewrite /k0 kE ltnS ltn_mul2r n0 /= addSn ltnS => lt.
        by rewrite -mulSnr leq_mul2r lt orbT.
      - apply: Pb => //; apply: contra nw => nw; case: T => [->|[-> _]] //.
        by rewrite mem_cat nw.
    * exfalso; have hk' : (k0 < k + n)%N by apply: leq_trans hk _; rewrite leq_add2l; exact: sl.
      move: gt' hk'; rewrite /k0 kE ltnS ltn_mul2r n0 /= => gt'.
      by rewrite addSn ltnS -mulSnr ltn_mul2r n0 /= ltnNge gt'.
    * move: nw; rewrite /len' e -/len; case: T => [->|[_ B]]; last by move=> _.
      by rewrite mem_cat mem_head orbT.
Qed.
End LoopG.

(** ** Over the reals *)
Section RealG.
Variables (nb m : nat).
Notation vb := (VB RF nb m).
Notation mb := (MB RF nb m).
Variable G : nat -> (nat -> TB RF nb) -> (nat -> vb) -> (nat -> vb) * (nat -> mb).

(** Residual of the update equation for step [j] of a block of [n] steps whose rows
    (first row = the value before the block) are [Y], at times [ts]. *)
Definition row_res (s : scheme) (n : nat) (ts : nat -> TB RF nb) (Y : nat -> vb) (j : nat) (b : 'I_nb) : 'cV[RF]_m :=
  Y j.+1 b - Y j b - (ts j.+1 b - ts j b) *:
    (match s with BackwardEuler => (G n.+1 ts Y).1 j.+1 b | ForwardEuler => (G n.+1 ts Y).1 j b end).
Definition rows_norm (s : scheme) (n : nat) (ts : nat -> TB RF nb) (Y : nat -> vb) (b : 'I_nb) : R :=
  sqrt (\sum_(j < n) \sum_(c < m) row_res s n ts Y j b c 0 * row_res s n ts Y j b c 0).

Lemma rows_norm_flat s t0 ts ystart x len (b : 'I_nb) :
  sqrt (sumsq (len * m) (fst (block_RJG G s len t0 ts ystart x) (val b)))
  = rows_norm s len (block_times t0 ts) (ys x ystart) b.
Proof.
rewrite /rows_norm /sumsq; congr (sqrt _).
rewrite (@sum_blocks RF len m (fun i => (block_RJG G s len t0 ts ystart x).1 b i * (block_RJG G s len t0 ts ystart x).1 b i)).
apply: eq_bigr => j _; apply: eq_bigr => c _.
have e : ys x ystart j.+1 b - ys x ystart j b = dys nb m x j.+1 b - dys nb m x j b.
  by rewrite /ys /addV !(ffunE (fun b => _ + _)) opprD addrACA subrr addr0.
rewrite /block_RJG; cbv zeta; rewrite [fst (_, _)]/= flatE /form_residual /row_res e ffunE /tdiff ffunE.
by rewrite !ffunE.
Qed.

Lemma row_le_norm s n ts Y j b c : (j < n)%N ->
  Rabs (row_res s n ts Y j b c 0) <=R rows_norm s n ts Y b.
Proof.
move=> jl.
pose v i := if insub (i %% m)%N is Some c then row_res s n ts Y (i %/ m)%N b c 0 else 0.
have m0 : (0 < m)%N by apply: leq_ltn_trans (ltn_ord c).
have vE i (c' : 'I_m) : v (i * m + c')%N = row_res s n ts Y i b c' 0.
  by rewrite /v modnMDl modn_small // valK divnMDl // divn_small // addn0.
have -> : rows_norm s n ts Y b = sqrt (sumsq (n * m) v).
{ rewrite /rows_norm /sumsq (@sum_blocks RF n m (fun i => v i * v i)); congr (sqrt _).
  by apply: eq_bigr => i _; apply: eq_bigr => c' _; rewrite !vE. }
rewrite -vE; apply: comp_le_norm.
apply: (@leq_trans (j.+1 * m)); last by rewrite leq_mul2r jl orbT.
by rewrite mulSn addnC ltn_add2r.
Qed.

Section Loop.
Variables (s : scheme) (lm : lin_method).
Variables (rtol atol : R) (miter : nat) (throw : bool).
Variables (gt : string) (n nt : nat) (t : nat -> TB RF nb).
Notation integr := (integrateG G s lm (nrmR nb m) rtol atol miter throw gt n nt t).

(** Every block not warned about satisfies its update equations to tolerance: the
    rows [Y] the function was last called on are the returned values, the times [ts]
    are the requested ones. *)
Lemma integrateG_tol y0 init st : integr y0 init = inl st ->
  forall i, let k0 := (i * n).+1 in let len := slice_len nt k0 (k0 + n) in
  (k0 < nt)%N -> (k0, len) \notin i_warned st ->
  exists ts Y, (forall j, (j <= len)%N -> ts j = t (k0 - 1 + j)%N) /\
    (forall j, (j <= len)%N -> Y j = i_result st (k0 - 1 + j)%N) /\
    exists Yg, (forall b, rows_norm s len ts Y b <=R atol) \/
      (forall b, rows_norm s len ts Y b <=R rtol * rows_norm s len ts Yg b) /\
      (gt = "zero"%string -> forall j, (j <= len)%N -> Yg j = i_result st (k0 - 1)%N).
Proof.
move=> H i k0 len kn nw.
pose Q k len ystart (x : tens2 RF) := exists x0 : tens2 RF,
  (forall b, rows_norm s len (block_times (t (k - 1)%N) (fun j => t (k + j)%N)) (ys x ystart) b <=R atol) \/
  (forall b, rows_norm s len (block_times (t (k - 1)%N) (fun j => t (k + j)%N)) (ys x ystart) b <=R
     rtol * rows_norm s len (block_times (t (k - 1)%N) (fun j => t (k + j)%N)) (ys x0 ystart) b) /\
  (gt = "zero"%string -> forall j, (j < len)%N -> blkV nb m x0 j = zeroV RF nb m).
have HQ : forall k len ystart g r, (0 < k)%N -> (k < nt)%N -> len = slice_len nt k (k + n) ->
     newton_raphson_chunk (block_RJG G s len (t (k - 1)%N) (fun j => t (k + j)%N) ystart)
          (nrmR nb m len) rtol atol (block_linsolve lm len) (@tsub RF) miter throw g = Ok r ->
     (gt = "zero"%string -> forall j, (j < len)%N -> blkV nb m g j = zeroV RF nb m) ->
     Q k len ystart (res_x r).
{ move=> k l ystart g r _ _ _ O gz; exists g.
  have := chunk_truthful _ _ _ _ _ _ _ _ _ _ O.
  rewrite /norms => /(_ (etrans (nrmR_len _ _ _ _) (esym (nrmR_len _ _ _ _))) (@nrmR_nonan _ _ _ _) (@nrmR_finite _ _ _ _)).
  case=> C; [left|right; split=> //] => b.
  - by have := nrmR_all_le C (ltn_ord b); rewrite rows_norm_flat.
  - by have := nrmR_all_le_rel C (ltn_ord b); rewrite !rows_norm_flat. }
have [x [X [x0 T]]] := integrateG_blocks HQ H kn nw.
exists (block_times (t (k0 - 1)%N) (fun j => t (k0 + j)%N)), (ys x (i_result st (k0 - 1)%N)).
split; first by case=> [|j] _ /=; rewrite ?addn0 // /k0 subn1 /= addSn addnS.
split.
- case=> [|j] jl; first by rewrite addn0 /ys /=; apply/ffunP=> b; rewrite !ffunE add0r.
  by rewrite {1}/ys /= -X // /k0 subn1 /= addnS addSn.
- exists (ys x0 (i_result st (k0 - 1)%N)); case: T => [T|[T Z]]; [by left|right; split=> // gz].
  case=> [|j] jl; first by rewrite /ys /=; apply/ffunP=> b; rewrite !ffunE add0r.
  by rewrite /ys /= Z //; apply/ffunP=> b; rewrite !ffunE add0r.
Qed.

(** Zero tolerances: the update equations hold exactly. *)
Lemma integrateG_exact y0 init st : rtol = 0 -> atol = 0 -> integr y0 init = inl st -> i_warned st = [::] ->
  forall i, let k0 := (i * n).+1 in let len := slice_len nt k0 (k0 + n) in (k0 < nt)%N ->
  exists ts Y, (forall j, (j <= len)%N -> ts j = t (k0 - 1 + j)%N) /\
    (forall j, (j <= len)%N -> Y j = i_result st (k0 - 1 + j)%N) /\
    forall j b, (j < len)%N -> row_res s len ts Y j b = 0.
Proof.
move=> r0 a0 H W i k0 len kn.
have := integrateG_tol H kn; rewrite W => /(_ isT) [ts [Y [Hts [HY [Yg T]]]]].
exists ts, Y; split=> //; split=> // j b jl; apply/colP => c; rewrite [RHS]mxE.
have z x : Rabs x <=R 0 -> x = 0 :> R.
{ move=> h; have := Rabs_pos x => h'; have e : Rabs x = 0 by apply: Rle_antisym.
  by case: (Req_dec x 0) => // /Rabs_no_R0. }
apply: z; apply: Rle_trans (row_le_norm s ts Y b c jl) _.
case: T => [/(_ b)|[/(_ b)]]; rewrite ?a0 ?r0 //.
by rewrite Rmult_0_l.
Qed.
End Loop.
End RealG.

(** ** Blocks on which the function is affine *)
Section AffineBlock.
Variables (F : fieldType) (nb m : nat).
Notation vb := (VB F nb m).
Notation mb := (MB F nb m).
Variable G : nat -> (nat -> TB F nb) -> (nat -> vb) -> (nat -> vb) * (nat -> mb).
Variables (n : nat) (tstart : TB F nb) (ts : nat -> TB F nb) (ystart : vb).
Let times := block_times tstart ts.
(** On this block row k of the function is K(k) y + c(k), and its Jacobian K(k). *)
Variables (K : nat -> 'I_nb -> 'M[F]_m) (c : nat -> 'I_nb -> 'cV[F]_m).
Definition affine_block : Prop := forall Y k b, (0 < k)%N -> (k <= n)%N ->
  (G n.+1 times Y).1 k b = K k b *m Y k b + c k b /\ (G n.+1 times Y).2 k b = K k b.
Hypothesis HG : affine_block.
Variable lm : lin_method.
Let rfn := block_RJG G BackwardEuler n tstart ts ystart.

Definition beG_res (x : tens2 F) (k : nat) : vb :=
  [ffun b => dys nb m x k.+1 b - dys nb m x k b
     - (times k.+1 b - times k b) *: (K k.+1 b *m (dys nb m x k.+1 b + ystart b) + c k.+1 b)].

Lemma beG_rfn_res x k : (k < n)%N -> blkV nb m (fst (rfn x)) k = beG_res x k.
Proof.
move=> kn; rewrite /rfn /block_RJG /= blkV_flat; apply/ffunP=> b; rewrite [LHS]ffunE [RHS]ffunE.
have [-> _] := @HG (ys x ystart) k.+1 b isT kn; by rewrite !ffunE.
Qed.

Lemma beG_affine_update x : (0 < n)%N ->
  (forall k b, (k < n)%N -> (1%:M - (times k.+1 b - times k b) *: K k.+1 b) \in unitmx) ->
  forall i, (i < n)%N -> beG_res (update rfn (block_linsolve lm n) (@tsub F) x) i = zeroV F nb m.
Proof.
move=> n0 ns.
set A := form_A BackwardEuler (G n.+1 times (ys x ystart)).2 (tdiff times).
set B := form_B BackwardEuler (G n.+1 times (ys x ystart)).2 (tdiff times).
set dx := block_linsolve lm n (A, B) (fst (rfn x)).
have AE k b : (k < n)%N -> A k b = 1%:M - (times k.+1 b - times k b) *: K k.+1 b.
  by move=> kn; rewrite ffunE; have [_ ->] := @HG (ys x ystart) k.+1 b isT kn; rewrite !ffunE.
have BE k b : B k b = - 1%:M by rewrite ffunE.
have [S0 S1] : bidiag_solution (fops F nb m) n A B (beG_res x) (blkV nb m dx).
{ have ns' : forall k, (k < n)%N -> nonsing (A k) by move=> k kn b; rewrite AE //; apply: ns.
  have [T0 T1] := @linsolve_blocks F nb m lm n A B (fst (rfn x)) n0 ns'.
  split=> [h|i h]; first by rewrite T0 // beG_rfn_res.
  by rewrite T1 // beG_rfn_res //; apply/ltP. }
have upd_x : update rfn (block_linsolve lm n) (@tsub F) x = tsub x dx by [].
have blkS i b : blkV nb m (tsub x dx) i b = blkV nb m x i b - blkV nb m dx i b.
  by apply/colP => j; rewrite !ffunE !mxE.
have dyS i b : dys nb m (tsub x dx) i b = dys nb m x i b - dys nb m dx i b.
{ case: i => [|i] /=; last exact: blkS. by rewrite ffunE subr0. }
have row i b : (i < n)%N -> A i b *m dys nb m dx i.+1 b - dys nb m dx i b = beG_res x i b.
{ case: i => [|i] h.
  - have := S0 (elimT ltP h); move/ffunP/(_ b) => <-.
    have E (M : mb) (u : vb) : bact (fops F nb m) M u b = M b *m u b by rewrite /= ffunE.
    by rewrite E [dys nb m dx 0 b]ffunE subr0.
  - have := S1 i (elimT ltP h); move/ffunP/(_ b) => <-.
    have E (M N : mb) (u v : vb) : badd (fops F nb m) (bact (fops F nb m) M u) (bact (fops F nb m) N v) b
      = M b *m u b + N b *m v b by rewrite /= !ffunE.
    by rewrite E BE mulNmx mul1mx. }
move=> i ij; rewrite upd_x; apply/ffunP=> b; rewrite [RHS]ffunE [LHS]ffunE !dyS.
move: (row i b ij); rewrite AE // [beG_res x i b]ffunE.
move: (dys nb m dx i.+1 b) (dys nb m dx i b) (dys nb m x i.+1 b) (dys nb m x i b) => X1 X0 u1 u0.
move: (times i.+1 b - times i b) => h E.
suff -> : u1 - X1 - (u0 - X0) - h *: (K i.+1 b *m (u1 - X1 + ystart b) + c i.+1 b)
  = (u1 - u0 - h *: (K i.+1 b *m (u1 + ystart b) + c i.+1 b))
    - ((1%:M - h *: K i.+1 b) *m X1 - X0) by rewrite E subrr.
rewrite mulmxBl mul1mx !mulmxDr !mulmxN -scalemxAl !scalerDr !scalerN; zmod.
Qed.
End AffineBlock.

Section AffineRunR.
Variables (nb m : nat).
Notation vb := (VB RF nb m).
Variable G : nat -> (nat -> TB RF nb) -> (nat -> vb) -> (nat -> vb) * (nat -> MB RF nb m).

Lemma beG_block_ok K c lm rtol atol miter throw len t0 ts ystart x0 :
  0 <=R atol -> (0 < len)%N -> (1 < miter)%N -> affine_block G len t0 ts K c ->
  (forall k b, (k < len)%N -> (1%:M - (block_times t0 ts k.+1 b - block_times t0 ts k b) *: K k.+1 b) \in unitmx) ->
  exists r, newton_raphson_chunk (block_RJG G BackwardEuler len t0 ts ystart)
     (nrmR nb m len) rtol atol (block_linsolve lm len) (@tsub RF) miter throw x0 = Ok r.
Proof.
move=> a0 l0 m1 HG ns.
set fn := block_RJG _ _ _ _ _ _; set step := block_linsolve _ _.
rewrite /newton_raphson_chunk.
have /= := nr_solve_spec fn (nrmR nb m len) rtol atol step (@tsub RF) miter x0.
set r := nr_solve _ _ _ _ _ _ _ _ => -[_ [_ [_ [_ [_ [HK _]]]]]].
case: (Nat.eqb_spec (res_iters r) miter) => e; last by eexists.
have : keep_going rtol atol (norms fn (nrmR nb m len) (point fn step (@tsub RF) x0 1))
  (norms fn (nrmR nb m len) x0) = true by apply: HK; apply/ltP; rewrite e.
rewrite /keep_going /norms (_ : any_gt _ _ = false) //.
apply: any_gt_all_le.
suff Z : all_le (nrmR nb m len (fst (fn (point fn step (@tsub RF) x0 1)))) 0.
{ apply: List.Forall_impl Z => ex [q [-> hq]]; exists q; split=> //; exact: Rle_trans hq a0. }
apply: nrmR_zero => b idx bn il.
have m0 : (0 < m)%N by move: il; case: (m) => //; rewrite muln0.
have kl : (idx %/ m < len)%N by rewrite ltn_divLR.
have := @beG_affine_update RF nb m G len t0 ts ystart K c HG lm x0 l0 ns (idx %/ m)%N kl.
rewrite -(@beG_rfn_res RF nb m G len t0 ts ystart K c HG) // => /ffunP/(_ (Ordinal bn))/colP/(_ (Ordinal (ltn_pmod idx m0))).
by rewrite !ffunE !mxE /= -divn_eq.
Qed.

(** If the function is affine on every block (with regular steps), every run succeeds
    without warnings. *)
Lemma beG_affine_never_fails lm rtol atol miter throw gt n nt t y0 init :
  0 <=R atol -> (0 < n)%N -> (1 < miter)%N -> (0 < nt)%N ->
  (forall k, (0 < k)%N -> (k < nt)%N -> let len := slice_len nt k (k + n) in
     let ts j := t (k + j)%N in let tb := block_times (t (k - 1)%N) ts in
     exists K c, affine_block G len (t (k - 1)%N) ts K c /\
     forall j b, (j < len)%N -> (1%:M - (tb j.+1 b - tb j b) *: K j.+1 b) \in unitmx) ->
  (gt = "zero" \/ gt = "previous" /\ (n < nt)%N)%string ->
  exists st, integrateG G BackwardEuler lm (nrmR nb m) rtol atol miter throw
      gt n nt t y0 init = inl st /\ i_warned st = [::].
Proof.
move=> a0 n0 nm nt0 ns hg; rewrite /integrateG gtn_eqF // gtn_eqF //.
have key : forall fuel k i st, (nt <= fuel + k)%N -> k = (i * n).+1 -> i_warned st = [::] ->
  exists st', int_loopG G BackwardEuler lm (nrmR nb m) rtol atol miter throw
     fuel gt n nt t k st = inl st' /\ i_warned st' = [::].
{ elim=> [|fuel IH] k i st hf kE W /=; case: ifP => [kn|_]; try by eexists.
  - by move: hf; rewrite add0n leqNgt kn.
  - have [g E] : exists g, initial_guess gt n nt (i_result st) k = Some (slice_len nt k (k + n), g).
    { case: hg => [->|[-> hn]]; first by eexists; exact: guess_zero.
      by have [g [-> _]] := @guess_previous RF nb m n nt (i_result st) k i n0 hn kn kE; eexists. }
    rewrite /int_stepG E eqxx /= /block_updateG.
    set x0 := flat _.
    have k0 : (0 < k)%N by rewrite kE.
    have /= [K [c [HG ns']]] := ns k k0 kn.
    have [r ->] := @beG_block_ok K c lm rtol atol miter throw (slice_len nt k (k + n)) (t (k - 1)%N)
       (fun j => t (k + j)%N) (i_result st (k - 1)%N) x0 a0 (slice_len_gt0 n0 kn) nm HG ns'.
    apply: (IH (k + n)%N i.+1) => //; last by rewrite kE addSn mulSnr.
    apply: leq_trans hf _; by rewrite addSn -addnS leq_add2l -[X in (X < _)%N]addn0 ltn_add2l. }
apply: (key nt 1%N 0%N) => //; exact: leq_addr.
Qed.
End AffineRunR.
