(** integrate over the reals: tolerances (C19, C20), block size independence
    (C21), Jacobian of the block residual (C22), termination of forward Euler
    (C23), adjoint gradients as derivatives (C25, C26). *)
From Coq Require Import Reals List String Lra.
From mathcomp Require Import all_ssreflect all_algebra.
From Verif Require Import ChunkModel ChunkSolve ChunkInst NewtonModel NewtonProofs Ode OdeForward OdeAdjoint
  ZmodTac RField.
Import GRing.Theory.
Set Implicit Arguments. Unset Strict Implicit. Unset Printing Implicit Defensive.
Local Open Scope ring_scope.

Notation RF := R_fieldType.
Notation "x <=R y" := (Rle x y) (at level 70).

Section RealNorm.
Variables (nb m : nat).
(** torch.norm(R, dim=-1) of a (nbatch, n*m) tensor: ode.py 507-515, chunktime.py 46. *)
Definition sumsq (k : nat) (v : nat -> R) : R := \sum_(i < k) (v i * v i : RF).
Definition nrmR (n : nat) (v : tens2 RF) : list ext :=
  [seq Num (sqrt (sumsq (n * m) (v b))) | b <- iota 0 nb].

Lemma sumsq_ge0 k v : 0 <=R sumsq k v.
Proof.
rewrite /sumsq; elim: k => [|k IH]; first by rewrite big_ord0; exact: Rle_refl.
rewrite big_ord_recr /=; apply: Rplus_le_le_0_compat => //.
exact: Rle_0_sqr.
Qed.

Lemma sumsq_comp k v i : (i < k)%N -> (v i * v i : R) <=R sumsq k v.
Proof.
elim: k => [//|k IH]; rewrite ltnS leq_eqVlt => /orP[/eqP->|ik]; rewrite /sumsq big_ord_recr /=.
- have H := sumsq_ge0 k v; rewrite -[X in X <=R _]Rplus_0_l; exact: Rplus_le_compat_r.
- have := IH ik; have := Rle_0_sqr (v k); rewrite /Rsqr /sumsq R_addE R_mulE => H1 H2.
  apply: Rle_trans H2 _. rewrite -[X in X <=R _]Rplus_0_r. by apply: Rplus_le_compat_l.
Qed.

Lemma comp_le_norm k v i : (i < k)%N -> Rabs (v i) <=R sqrt (sumsq k v).
Proof. move=> ik; rewrite -sqrt_Rsqr_abs; apply: sqrt_le_1_alt; exact: sumsq_comp. Qed.

Lemma norm_zero k v : sqrt (sumsq k v) <=R 0 -> forall i, (i < k)%N -> v i = 0.
Proof.
move=> h i ik; have := comp_le_norm v ik => h'.
have := Rabs_pos (v i) => h''.
have : Rabs (v i) = 0 by apply: Rle_antisym => //; apply: Rle_trans h' h.
by case: (Req_dec (v i) 0) => // /Rabs_no_R0.
Qed.

Lemma nrmR_finite n v : finite_nonneg (nrmR n v).
Proof.
rewrite /nrmR; elim: (iota 0 nb) => [|b l IH] /=; constructor => //.
by eexists; split; first reflexivity; apply: sqrt_pos.
Qed.
Lemma nrmR_nonan n v : no_nan (nrmR n v).
Proof. by rewrite /nrmR; elim: (iota 0 nb) => [|b l IH] /=; constructor. Qed.
Lemma nrmR_len n v : List.length (nrmR n v) = nb.
Proof. by rewrite /nrmR -[List.length _]/(size _) size_map size_iota. Qed.

Lemma nrmR_all_le n v a : all_le (nrmR n v) a -> forall b, (b < nb)%N -> sqrt (sumsq (n * m) (v b)) <=R a.
Proof.
rewrite /nrmR => H b bn.
have : forall l, all_le [seq Num (sqrt (sumsq (n * m) (v b))) | b <- l] a -> b \in l ->
   sqrt (sumsq (n * m) (v b)) <=R a.
{ elim=> [//|c l IH] H1; inversion H1 as [|? ? [r [e hr]] H2]; subst.
  rewrite inE => /orP[/eqP->|]; last exact: IH.
  by case: e => ->. }
by move/(_ _ H); apply; rewrite mem_iota.
Qed.

Lemma nrmR_all_le_rel n v v0 a : all_le_rel (nrmR n v) (nrmR n v0) a ->
  forall b, (b < nb)%N -> sqrt (sumsq (n * m) (v b)) <=R a * sqrt (sumsq (n * m) (v0 b)).
Proof.
rewrite /nrmR => H b bn.
have : forall l, all_le_rel [seq Num (sqrt (sumsq (n * m) (v b))) | b <- l]
          [seq Num (sqrt (sumsq (n * m) (v0 b))) | b <- l] a -> b \in l ->
   sqrt (sumsq (n * m) (v b)) <=R a * sqrt (sumsq (n * m) (v0 b)).
{ elim=> [//|c l IH] H1; inversion H1 as [|? ? ? ? [r [r0 [e [e0 hr]]]] H2]; subst.
  rewrite inE => /orP[/eqP->|]; last exact: IH.
  by case: e => ->; case: e0 => ->. }
by move/(_ _ H); apply; rewrite mem_iota.
Qed.

Lemma nrmR_zero n v : (forall b idx, (b < nb)%N -> (idx < n * m)%N -> v b idx = 0) -> all_le (nrmR n v) 0.
Proof.
move=> H; rewrite /nrmR.
have H' : forall b, b \in iota 0 nb -> sumsq (n * m) (v b) = 0.
{ move=> b; rewrite mem_iota add0n => bn; rewrite /sumsq big1 // => i _; by rewrite H // mul0r. }
elim: (iota 0 nb) H' => [|b l IH] H'; constructor.
- eexists; split; first reflexivity. rewrite H' ?mem_head // sqrt_0; exact: Rle_refl.
- by apply: IH => c cl; apply: H'; rewrite inE cl orbT.
Qed.
End RealNorm.

Section Real.
Variables (nb m : nat).
Notation vb := (VB RF nb m).
Notation mb := (MB RF nb m).
Variables (f : 'I_nb -> RF -> 'cV[RF]_m -> 'cV[RF]_m) (Jf : 'I_nb -> RF -> 'cV[RF]_m -> 'M[RF]_m).

(** Euclidean norm of the update-equation residuals of the [len] steps from [k0]. *)
Definition block_norm (s : scheme) (t : nat -> TB RF nb) (y : nat -> vb) (k0 len : nat) (b : 'I_nb) : R :=
  sqrt (\sum_(j < len) \sum_(c < m) step_res f s t y (k0 + j)%N b c 0 * step_res f s t y (k0 + j)%N b c 0).

(** The history before the solve of a block: everything from [k0] on is the
    value at [k0 - 1] plus the guessed increment. *)
Definition start_hist (g : nat -> vb) (y : nat -> vb) (k0 : nat) (j : nat) : vb :=
  if (j < k0)%N then y (k0 - 1)%N else addV (g (j - k0)%N) (y (k0 - 1)%N).

(** Increments guessed for the block at [k0]. *)
Definition guess_incr (gt : string) (n len : nat) (y : nat -> vb) (k0 : nat) (j : nat) : vb :=
  if String.eqb gt "previous" && (n < k0)%N then subV (y (k0 - len + j)%N) (y (k0 - n - 1)%N)
  else zeroV RF nb m.

(** Block containing step [k]. *)
Definition block_start (n k : nat) : nat := ((k.-1 %/ n) * n).+1.

Definition tol_met (rtol atol : R) (N N0 : 'I_nb -> R) : Prop :=
  (forall b, N b <=R atol) \/ (forall b, N b <=R rtol * N0 b).

(** norm of the flattened block residual = norm over steps *)
Lemma block_norm_flat s t y x k len (b : 'I_nb) : (0 < k)%N ->
  (forall i, (i < len)%N -> y (k + i)%N = addV (blkV nb m x i) (y (k - 1)%N)) ->
  sqrt (sumsq (len * m) (fst (block_RJ f Jf s (t (k - 1)%N) (fun j => t (k + j)%N) (y (k - 1)%N) x) (val b)))
  = block_norm s t y k len b.
Proof.
move=> k0 Hy; rewrite /block_norm /sumsq; congr (sqrt _).
rewrite (@sum_blocks RF len m (fun i => (block_RJ f Jf s (t (k - 1)%N) (fun j => t (k + j)%N) (y (k - 1)%N) x).1 b i
   * (block_RJ f Jf s (t (k - 1)%N) (fun j => t (k + j)%N) (y (k - 1)%N) x).1 b i)).
apply: eq_bigr => j _; apply: eq_bigr => c _.
by rewrite /block_RJ /= flatE (@block_step_res _ _ _ f s x t y k len j b k0 (ltn_ord j) Hy).
Qed.

Lemma block_norm_ext s t y y' k len b : (0 < k)%N ->
  (forall j, (j < k + len)%N -> y j = y' j) -> block_norm s t y k len b = block_norm s t y' k len b.
Proof.
move=> k0 H; rewrite /block_norm; congr (sqrt _); apply: eq_bigr => j _; apply: eq_bigr => c _.
have h1 : y (k + j)%N = y' (k + j)%N by apply: H; rewrite ltn_add2l.
have h2 : y (k + j).-1 = y' (k + j).-1.
  by apply: H; apply: leq_ltn_trans (leq_pred _) _; rewrite ltn_add2l.
by rewrite /step_res h1 h2.
Qed.

Lemma step_le_block_norm s t y k len j b c : (j < len)%N ->
  Rabs (step_res f s t y (k + j)%N b c 0) <=R block_norm s t y k len b.
Proof.
move=> jl.
pose v i := if insub (i %% m)%N is Some c then step_res f s t y (k + i %/ m)%N b c 0 else 0.
have m0 : (0 < m)%N by apply: leq_ltn_trans (ltn_ord c).
have vE i (c' : 'I_m) : v (i * m + c')%N = step_res f s t y (k + i)%N b c' 0.
  by rewrite /v modnMDl modn_small // valK divnMDl // divn_small // addn0.
have -> : block_norm s t y k len b = sqrt (sumsq (len * m) v).
{ rewrite /block_norm /sumsq (@sum_blocks RF len m (fun i => v i * v i)); congr (sqrt _).
  by apply: eq_bigr => i _; apply: eq_bigr => c' _; rewrite !vE. }
rewrite -vE; apply: comp_le_norm.
apply: (@leq_trans (j.+1 * m)); last by rewrite leq_mul2r jl orbT.
by rewrite mulSn addnC ltn_add2r.
Qed.

Section Loop.
Variables (s : scheme) (lm : lin_method).
Variables (rtol atol : R) (miter : nat) (throw : bool).
Variables (gt : string) (n nt : nat) (t : nat -> TB RF nb).
Notation istep := (int_step f Jf s lm (nrmR nb m) rtol atol miter throw gt n nt t).
Notation integr := (integrate f Jf s lm (nrmR nb m) rtol atol miter throw gt n nt t).

Lemma guess_rows k i st len g : (0 < n)%N -> (k < nt)%N -> k = (i * n).+1 ->
  len = slice_len nt k (k + n) ->
  initial_guess gt n nt (i_result st) k = Some (len, g) ->
  forall j, (j < len)%N -> g j = guess_incr gt n len (@i_result RF nb m st) k j.
Proof.
move=> n0 kn kE lE E j jl.
case: (String.eqb_spec gt "zero") => [e|nz].
- by move: E; rewrite e /= guess_zero => -[_ <-].
- case: (String.eqb_spec gt "previous") => [e|np]; last by rewrite guess_other in E.
  move: E; rewrite /guess_incr e /=.
  case: (ltnP n nt) => [nnt|ntn].
  + have [g' [-> Hg]] := @guess_previous RF nb m n nt (i_result st) k i n0 nnt kn kE.
    rewrite -lE in Hg * => -[<-]; rewrite Hg //.
    case: (i) kE => [|i'] ->; first by rewrite mul0n ltnS leqNgt n0.
    by rewrite mulSn ltnS leq_addr.
  + have nk : (n < k)%N = false by apply/negbTE; rewrite -leqNgt; apply: leq_trans ntn; exact: ltnW.
    rewrite nk /initial_guess /= addn1 ltnS leqNgt nk /= => -[_ <-] //.
Qed.

Lemma step_tol k i st st' : (0 < n)%N -> (k < nt)%N -> k = (i * n).+1 -> istep k st = inl st' ->
  let len := slice_len nt k (k + n) in
  let y := i_result st' in
  (i_warned st' = i_warned st ++ [:: (k, len)] \/
   i_warned st' = i_warned st /\
   tol_met rtol atol (block_norm s t y k len)
     (block_norm s t (start_hist (guess_incr gt n len y k) y k) k len)) /\
  (forall j, (j < k)%N -> i_result st' j = i_result st j).
Proof.
move=> n0 kn kE /int_stepE [g [r [E [_ [Rs [_ W]]]]]] len y.
have k0 : (0 < k)%N by rewrite kE.
have below j : (j < k)%N -> i_result st' j = i_result st j.
  by move=> jk; rewrite Rs leqNgt jk.
split=> //; case: W => [[W O]|[W _]]; last by left.
right; split=> //.
have ym : y (k - 1)%N = i_result st (k - 1)%N by apply: below; rewrite subn1 prednK.
have yI i' : (i' < len)%N -> y (k + i')%N = addV (blkV nb m (res_x r) i') (y (k - 1)%N).
{ move=> il; rewrite /y Rs leq_addr ltn_add2l il addKn -/y ym //. }
set g' := guess_incr gt n len y k.
set yg := start_hist g' y k.
have ygm : yg (k - 1)%N = y (k - 1)%N by rewrite /yg /start_hist subn1 prednK // leqnn.
set x0 := flat _ in O.
have gE i' : (i' < len)%N -> g i' = g' i'.
{ move=> il; rewrite (guess_rows n0 kn kE erefl E il) /g' /guess_incr.
  case: ifP => // /andP[_ nk]; congr subV; symmetry; apply: below.
  - rewrite -ltn_subRL subKn //. rewrite /len /slice_len leq_subLR.
    apply: leq_trans (geq_minl _ _) _. rewrite leq_add2l. exact: ltnW.
  - by apply: leq_ltn_trans (leq_subr _ _) _; rewrite ltn_subrL k0 andbT; apply: leq_trans n0 _. }
have ygI i' : (i' < len)%N -> yg (k + i')%N = addV (blkV nb m x0 i') (yg (k - 1)%N).
{ move=> il; rewrite ygm /x0 blkV_flat il gE // /yg /start_hist ltnNge leq_addr /= addKn //. }
have := chunk_truthful _ _ _ _ _ _ _ _ _ _ O.
rewrite /norms => /(_ (etrans (nrmR_len _ _ _ _) (esym (nrmR_len _ _ _ _))) (@nrmR_nonan _ _ _ _) (@nrmR_finite _ _ _ _)).
rewrite -ym => -[H|H]; [left|right] => b.
- by have := nrmR_all_le H (ltn_ord b); rewrite block_norm_flat.
- have := nrmR_all_le_rel H (ltn_ord b); rewrite block_norm_flat //.
  by rewrite -ygm block_norm_flat // ygm.
Qed.

(** The tolerances hold for every block that was not warned about. *)
Definition block_ok (st : istate RF nb m) (k len : nat) : Prop :=
  tol_met rtol atol (block_norm s t (i_result st) k len)
    (block_norm s t (start_hist (guess_incr gt n len (i_result st) k) (i_result st) k) k len).

Lemma guess_incr_ext len (y y' : nat -> vb) k j : (0 < k)%N -> (len <= n)%N -> (j < len)%N ->
  (forall j, (j < k)%N -> y j = y' j) -> guess_incr gt n len y k j = guess_incr gt n len y' k j.
Proof.
move=> k0 ln jl H; rewrite /guess_incr; case: ifP => // /andP[_ nk]; congr subV; apply: H.
- rewrite -ltn_subRL subKn //; apply: leq_trans ln _; exact: ltnW.
- apply: leq_ltn_trans (leq_subr _ _) _; rewrite ltn_subrL k0 andbT.
  by apply: leq_ltn_trans (leq0n _) (leq_trans jl ln).
Qed.

Lemma start_hist_ext g g' (y y' : nat -> vb) k len : (0 < k)%N ->
  (forall j, (j < len)%N -> g j = g' j) -> (forall j, (j < k)%N -> y j = y' j) ->
  forall j, (j < k + len)%N -> start_hist g y k j = start_hist g' y' k j.
Proof.
move=> k0 hg hy j jl; rewrite /start_hist (hy (k - 1)%N); last by rewrite subn1 prednK.
by case: ltnP => // kj; rewrite hg // ltn_subLR.
Qed.

Lemma block_ok_ext st st' k len : (0 < k)%N -> (len <= n)%N ->
  (forall j, (j < k + len)%N -> i_result st' j = i_result st j) -> block_ok st k len -> block_ok st' k len.
Proof.
move=> k0 ln H; rewrite /block_ok.
have H1 b : block_norm s t (i_result st') k len b = block_norm s t (i_result st) k len b.
  by apply: block_norm_ext.
have Hk j : (j < k)%N -> i_result st' j = i_result st j by move=> jk; apply: H; rewrite ltn_addr.
have H2 b : block_norm s t (start_hist (guess_incr gt n len (i_result st') k) (i_result st') k) k len b =
   block_norm s t (start_hist (guess_incr gt n len (i_result st) k) (i_result st) k) k len b.
{ apply: block_norm_ext => //; apply: start_hist_ext => // j jl; exact: guess_incr_ext. }
by case=> HH; [left|right] => b; rewrite H1 ?H2.
Qed.

Lemma slice_le len k : (slice_len len k (k + n) <= n)%N.
Proof. by rewrite /slice_len leq_subLR geq_minl. Qed.

Lemma integrate_tol y0 init st : integr y0 init = inl st ->
  forall i, let k0 := (i * n).+1 in let len := slice_len nt k0 (k0 + n) in
  (k0 < nt)%N -> (k0, len) \notin i_warned st -> block_ok st k0 len.
Proof.
move=> H.
have n0 : (0 < n)%N by move: H; rewrite /integrate; case: eqP => // _; case: eqP => //; rewrite lt0n => /eqP.
pose P k (st : istate RF nb m) :=
  (forall p, p \in i_warned st -> (p.1 < k)%N) /\
  forall i, let k0 := (i * n).+1 in let len := slice_len nt k0 (k0 + n) in
  (k0 < k)%N -> (k0 < nt)%N -> (k0, len) \notin i_warned st -> block_ok st k0 len.
suff [_ Q] : P nt st by move=> i k0 len h; apply: Q.
apply: (@integrate_ind _ _ _ f Jf s lm (nrmR nb m) rtol atol miter throw gt n nt t P y0 init st _ _ H).
- by split=> // i k0 len; rewrite ltnS.
- move=> k st1 st2 kp kn [i kE] [Pw Pb] ST.
  have [T below] := @step_tol k i st1 st2 n0 kn kE ST.
  set len := slice_len nt k (k + n) in T *.
  have len0 : (0 < len)%N by apply: slice_len_gt0.
  have lt_k p : (p < k -> p < k + len)%N by move=> h; rewrite ltn_addr.
  split.
  + move=> p; case: T => [->|[-> _]]; last by move/Pw/lt_k.
    by rewrite mem_cat inE => /orP[/Pw/lt_k//|/eqP->/=]; rewrite -[X in (X < _)%N]addn0 ltn_add2l.
  + move=> i' k0 len' hk hnt nw.
    case: (ltngtP k0 k) => [lt|gt'|e].
    * apply: (@block_ok_ext st1) => //; first exact: slice_le.
      - move=> j hj; apply: below; apply: leq_trans hj _.
        apply: (@leq_trans (k0 + n)); first by rewrite leq_add2l; exact: slice_le.
        move: lt; rewrite /k0 kE ltnS ltn_mul2r n0 /= addSn ltnS => lt.
        by rewrite -mulSnr leq_mul2r lt orbT.
      - apply: Pb => //; apply: contra nw => nw; case: T => [->|[-> _]] //.
        by rewrite mem_cat nw.
    * exfalso; have hk' : (k0 < k + n)%N by apply: leq_trans hk _; rewrite leq_add2l; exact: slice_le.
      move: gt' hk'; rewrite /k0 kE ltnS ltn_mul2r n0 /= => gt'.
      by rewrite addSn ltnS -mulSnr ltn_mul2r n0 /= ltnNge gt'.
    * move: nw; rewrite /len' e -/len; case: T => [->|[_ B]]; last by move=> _.
      by rewrite mem_cat mem_head orbT.
Qed.

(** C19/C20, one component of one step. *)
Lemma integrate_step_tol y0 init st k b (c : 'I_m) : integr y0 init = inl st ->
  (0 < k)%N -> (k < nt)%N ->
  let y := i_result st in
  let k0 := block_start n k in
  let len := slice_len nt k0 (k0 + n) in
  (k0, len) \notin i_warned st ->
  Rabs (step_res f s t y k b c 0) <=R atol \/
  Rabs (step_res f s t y k b c 0)
    <=R rtol * block_norm s t (start_hist (guess_incr gt n len y k0) y k0) k0 len b.
Proof.
move=> H kp kn y k0 len nw.
have n0 : (0 < n)%N by move: H; rewrite /integrate; case: eqP => // _; case: eqP => //; rewrite lt0n => /eqP.
have k0k : (k0 <= k)%N by rewrite /k0 /block_start -[k in (_ < k)%N]prednK // ltnS leq_trunc_div.
have k0n : (k0 < nt)%N by apply: leq_ltn_trans k0k kn.
have kl : (k - k0 < len)%N.
{ rewrite ltn_subLR // /len slice_len_add; last exact: ltnW.
  rewrite leq_min kn andbT /k0 /block_start addSn -mulSnr.
  by rewrite -[k in (k < _)%N](prednK kp) ltnS ltn_ceil. }
have := integrate_tol H; move=> /(_ (k.-1 %/ n)%N) /= /(_ k0n nw).
have := @step_le_block_norm s t y k0 len (k - k0) b c kl; rewrite subnKC // => L.
case=> T; [left|right]; exact: Rle_trans L (T b).
Qed.

Lemma integrate_exact y0 init st : rtol = 0 -> atol = 0 ->
  integr y0 init = inl st -> i_warned st = [::] ->
  forall k b, (0 < k)%N -> (k < nt)%N -> step_res f s t (i_result st) k b = 0.
Proof.
move=> r0 a0 H W k b kp kn; apply/colP => c; rewrite [RHS]mxE.
have := @integrate_step_tol y0 init st k b c H kp kn; rewrite W => /(_ isT).
have z x : Rabs x <=R 0 -> x = 0 :> R.
{ move=> h; have := Rabs_pos x => h'; have e : Rabs x = 0 by apply: Rle_antisym.
  by case: (Req_dec x 0) => // /Rabs_no_R0. }
rewrite a0 r0; case=> h; apply: z; first exact: h.
by move: h; rewrite Rmult_0_l.
Qed.
End Loop.

(** ** Forward Euler: the block solves always succeed *)
Lemma fe_block_ok lm rtol atol miter throw len t0 ts ystart x0 :
  0 <=R atol -> (0 < len)%N -> (len < miter)%N ->
  exists r, newton_raphson_chunk (block_RJ f Jf ForwardEuler t0 ts ystart) (nrmR nb m len) rtol atol
     (block_linsolve lm len) (@tsub RF) miter throw x0 = Ok r.
Proof.
move=> a0 l0 lm'.
set fn := block_RJ _ _ _ _ _ _; set step := block_linsolve _ _.
rewrite /newton_raphson_chunk.
have /= := nr_solve_spec fn (nrmR nb m len) rtol atol step (@tsub RF) miter x0.
set r := nr_solve _ _ _ _ _ _ _ _ => -[_ [_ [_ [_ [_ [K _]]]]]].
case: (Nat.eqb_spec (res_iters r) miter) => e; last by eexists.
have : keep_going rtol atol (norms fn (nrmR nb m len) (point fn step (@tsub RF) x0 len))
  (norms fn (nrmR nb m len) x0) = true by apply: K; apply/ltP; rewrite e.
rewrite /keep_going /norms (_ : any_gt _ _ = false) //.
apply: any_gt_all_le.
suff Z : all_le (nrmR nb m len (fst (fn (point fn step (@tsub RF) x0 len)))) 0.
{ apply: List.Forall_impl Z => ex [q [-> hq]]; exists q; split=> //; exact: Rle_trans hq a0. }
apply: nrmR_zero => b idx bn il.
have m0 : (0 < m)%N by move: il; case: (m) => //; rewrite muln0.
have kl : (idx %/ m < len)%N by rewrite ltn_divLR.
have := @fe_exact_after RF nb m f Jf lm t0 ts ystart len x0 len l0 (leqnn _) (idx %/ m)%N kl.
rewrite -(rfn_res f Jf) => /ffunP/(_ (Ordinal bn))/colP/(_ (Ordinal (ltn_pmod idx m0))).
by rewrite !ffunE !mxE /= -divn_eq.
Qed.

Lemma fe_never_fails lm rtol atol miter throw gt n nt t y0 init :
  0 <=R atol -> (0 < n)%N -> (n < miter)%N -> (0 < nt)%N ->
  (gt = "zero" \/ gt = "previous" /\ (n < nt)%N)%string ->
  exists st, integrate f Jf ForwardEuler lm (nrmR nb m) rtol atol miter throw gt n nt t y0 init = inl st
    /\ i_warned st = [::].
Proof.
move=> a0 n0 nm nt0 hg; rewrite /integrate gtn_eqF // gtn_eqF //.
have key : forall fuel k i st, (nt <= fuel + k)%N -> k = (i * n).+1 -> i_warned st = [::] ->
  exists st', int_loop f Jf ForwardEuler lm (nrmR nb m) rtol atol miter throw fuel gt n nt t k st = inl st'
    /\ i_warned st' = [::].
{ elim=> [|fuel IH] k i st hf kE W /=; case: ifP => [kn|_]; try by eexists.
  - by move: hf; rewrite add0n leqNgt kn.
  - have [g E] : exists g, initial_guess gt n nt (i_result st) k = Some (slice_len nt k (k + n), g).
    { case: hg => [->|[-> hn]]; first by eexists; exact: guess_zero.
      by have [g [-> _]] := @guess_previous RF nb m n nt (i_result st) k i n0 hn kn kE; eexists. }
    rewrite /int_step E eqxx /= /block_update.
    set x0 := flat _.
    have [r ->] := @fe_block_ok lm rtol atol miter throw (slice_len nt k (k + n)) (t (k - 1)%N)
       (fun j => t (k + j)%N) (i_result st (k - 1)%N) x0 a0 (slice_len_gt0 n0 kn)
       (leq_ltn_trans (slice_le n nt k) nm).
    apply: (IH (k + n)%N i.+1) => //; last by rewrite kE addSn mulSnr.
    apply: leq_trans hf _; by rewrite addSn -addnS leq_add2l -[X in (X < _)%N]addn0 ltn_add2l. }
apply: (key nt 1%N 0%N) => //; exact: leq_addr.
Qed.

(** The step-by-step explicit recursion. *)
Fixpoint euler (t : nat -> TB RF nb) (y0 : vb) (k : nat) : vb :=
  if k is k'.+1 then
    [ffun b => euler t y0 k' b + (t k b - t k' b) *: f b (t k' b) (euler t y0 k' b)]
  else y0.

Lemma fe_is_euler (t : nat -> TB RF nb) (y : nat -> vb) y0 nt : y 0%N = y0 ->
  (forall k b, (0 < k)%N -> (k < nt)%N -> step_res f ForwardEuler t y k b = 0) ->
  forall k, (k < nt)%N -> y k = euler t y0 k.
Proof.
move=> e H; elim=> [//|k IH] kn; apply/ffunP=> b; rewrite /= [RHS]ffunE -IH; last exact: ltnW.
have := H k.+1 b isT kn; rewrite /step_res /= => /eqP; rewrite subr_eq0 subr_eq addrC => /eqP ->; by [].
Qed.

(** Each implicit step has at most one solution. *)
Definition implicit_unique (nt : nat) (t : nat -> TB RF nb) : Prop :=
  forall k b z u v, (0 < k)%N -> (k < nt)%N ->
    u - z - (t k b - t k.-1 b) *: f b (t k b) u = 0 ->
    v - z - (t k b - t k.-1 b) *: f b (t k b) v = 0 -> u = v.

Lemma be_unique (t : nat -> TB RF nb) (y y' : nat -> vb) nt : y 0%N = y' 0%N -> implicit_unique nt t ->
  (forall k b, (0 < k)%N -> (k < nt)%N -> step_res f BackwardEuler t y k b = 0) ->
  (forall k b, (0 < k)%N -> (k < nt)%N -> step_res f BackwardEuler t y' k b = 0) ->
  forall k, (k < nt)%N -> y k = y' k.
Proof.
move=> e U H H'; elim=> [//|k IH] kn; apply/ffunP=> b.
have := H k.+1 b isT kn; have := H' k.+1 b isT kn; rewrite /step_res /= IH; last exact: ltnW.
by move=> h1 h2; apply: (U k.+1 b (y' k b)).
Qed.
End Real.
