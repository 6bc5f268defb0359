(** C132: stopping an integration and resuming it from the state reached, forwards and backwards. *)
From Coq Require Import Reals List String Lra Lia FunctionalExtensionality.
From mathcomp Require Import all_ssreflect all_algebra.
From Verif Require Import ChunkModel ChunkSolve ChunkInst NewtonModel NewtonLocal Ode OdeForward OdeAdjoint OdeReal OdeBlock OdeLocal ZmodTac RField Gmres Implicit Tolerance Converge NeuralRun Resume.
From Verif Require NewtonProofs Props_Global Props_Decompose Props_Neural Props_Causal.
Import GRing.Theory.
Set Implicit Arguments. Unset Strict Implicit. Unset Printing Implicit Defensive.
Local Open Scope ring_scope.
Delimit Scope R_scope with Re.
Import Props_Decompose Props_Neural Props_Causal.

(** A run of a whole test, a run [hd] of its rows up to K, and a run [tl] of its rows from K on started from the last state of [hd] ([from_row K t]: the times
    from row K on): the same rows and the same warnings, or the same error. *)
Definition stop_and_resume (F : fieldType) nb m (run : nat -> (nat -> TB F nb) -> VB F nb m -> (nat -> VB F nb m) -> istate F nb m + ode_error) (nt K : nat) (t : nat -> TB F nb)
    (y0 : VB F nb m) (init init1 init2 : nat -> VB F nb m) : Prop :=
  match run K.+1 t y0 init1 with
  | inr e => run nt t y0 init = inr e
  | inl hd => match run (nt - K)%N (from_row K t) (i_result hd K) init2 with
    | inr e => run nt t y0 init = inr e
    | inl tl => exists whole, run nt t y0 init = inl whole /\ (forall k, (k <= K)%N -> i_result whole k = i_result hd k) /\
        (forall k, (K <= k)%N -> (k < nt)%N -> i_result whole k = i_result tl (k - K)%N) /\
        i_warned whole = i_warned hd ++ [seq ((K + p.1)%N, p.2) | p <- i_warned tl]
    end
  end.

(** At the end of any block, with initial guess "zero" (the default), in both schemes, whatever the rate, its Jacobian, the linear solver and the tolerances *)
Theorem C132_at_a_block_end (F : fieldType) nb m (f : 'I_nb -> F -> 'cV[F]_m -> 'cV[F]_m) Jf s lm nrm rtol atol miter throw n q nt (t : nat -> TB F nb) y0 init init1 init2 :
  (0 < n)%N -> (q * n < nt)%N -> stop_and_resume (integrate f Jf s lm nrm rtol atol miter throw "zero" n) nt (q * n) t y0 init init1 init2.
Proof.
move=> n0 qn; rewrite /stop_and_resume.
have [[e [-> ->]] //|[hd [-> [[e [-> ->]] //|[tl [whole [-> E [H1 H2] W]]]]]]] := @resume_core F nb m f Jf s lm nrm rtol atol miter throw n t n0 q nt y0 init init1 init2 qn.
exists whole; split=> //; split=> //; split=> // k Kk kn; by rewrite -H2 subnKC.
Qed.
Print Assumptions C132_at_a_block_end.

(** Backpropagating in two stages: the adjoint pass over the rows from K on returns [lam2], the derivative with respect to the state the second stage started from;
    handed to the first stage as the gradient of its last row (in place of og K, which [lam2] contains), the parameter gradients add up to that of the whole run and
    the derivatives with respect to the initial state agree.  Any row K; linear solvers and block sizes may differ. *)
Theorem C132_backward (F : fieldType) nb m np (Jf : 'I_nb -> F -> 'cV[F]_m -> 'M[F]_m) (Pf : 'I_nb -> F -> 'cV[F]_m -> 'M[F]_(m, np)) s mth mth1 mth2 n n1 n2 nt K t y og :
  (0 < n)%N -> (0 < n1)%N -> (0 < n2)%N -> (K < nt)%N -> solvable Jf s nt t y ->
  exists g1 g2 lam1 lam2, [/\ rewind Jf Pf mth2 s n2 (nt - K)%N (from_row K t) (from_row K y) (from_row K og) = Some (g2, lam2),
    rewind Jf Pf mth1 s n1 K.+1 t y (fun k => if k == K then lam2 else og k) = Some (g1, lam1) &
    rewind Jf Pf mth s n nt t y og = Some (g1 + g2, lam1)].
Proof. exact: checkpoint_core. Qed.
Print Assumptions C132_backward.

(** At any row and whatever solvers, block sizes, guesses and tolerances the two stages use: for a rate with Lipschitz constant L and steps with 2 h L <= 1 the rows of
    two converged stages together are as close to the one history of the whole test as those of a single run (C131). *)
Theorem C132_anywhere nb m (rate : 'I_nb -> RF -> 'cV[RF]_m -> 'cV[RF]_m) jac jac' lm lm' rtol rtol' atol atol' miter miter' throw throw' gt gt' n n' nt K (t : nat -> TB RF nb)
    y0 init init' hd tl (b : 'I_nb) L tol y : (K < nt)%N ->
  @integrate RF nb m rate jac BackwardEuler lm (nrmR nb m) rtol atol miter throw gt n K.+1 t y0 init = inl hd -> i_warned hd = [::] ->
  tol_bound rate BackwardEuler rtol atol gt n K.+1 t (i_result hd) b tol ->
  @integrate RF nb m rate jac' BackwardEuler lm' (nrmR nb m) rtol' atol' miter' throw' gt' n' (nt - K)%N (from_row K t) (i_result hd K) init' = inl tl -> i_warned tl = [::] ->
  tol_bound rate BackwardEuler rtol' atol' gt' n' (nt - K)%N (from_row K t) (i_result tl) b tol ->
  (0 <= tol)%Re -> (0 <= L)%Re -> short_steps nt t L -> (forall k b, (0 < k)%N -> (k < nt)%N -> lipschitz L (rate b (t k b))) -> euler_history rate nt t y0 y ->
  forall k, (k < nt)%N -> (dst ((if (k <= K)%N then i_result hd k else i_result tl (k - K)%N) b) (y k b) <= exp (2 * L * (t k b - t 0%N b)) * (INR k * tol))%Re.
Proof.
move=> Kn S1 W1 T1 S2 W2 T2 t0 L0 ss li /euler_res [e H] k kn.
have [_ [e1 _]] := integrate_writes S1; have [_ [e2 _]] := integrate_writes S2.
pose z k := if (k <= K)%N then i_result hd k else i_result tl (k - K)%N.
have zt j : (K <= j)%N -> z j = i_result tl (j - K)%N.
{ move=> Kj; rewrite /z; case: ifP => // jK; have -> : j = K by apply/eqP; rewrite eqn_leq Kj jK. by rewrite subnn e2. }
apply: (@lip_history_close nb m rate nt t L ss li z y b tol L0 t0) => // [|j j0 jn|j j0 jn]; last exact: H.
- by rewrite /z leq0n e1 e.
have [jK|Kj] := leqP j K.
- have -> : step_res rate BackwardEuler t z j b = step_res rate BackwardEuler t (i_result hd) j b.
  { by rewrite /step_res /z jK (leq_trans (leq_pred _) jK). }
  exact: (run_residual S1 W1 T1 j0 jK).
- have jKn : (j - K < nt - K)%N by rewrite ltn_sub2r.
  have jK0 : (0 < j - K)%N by rewrite subn_gt0.
  have := run_residual S2 W2 T2 jK0 jKn; rewrite /step_res (zt _ (ltnW Kj)) (zt j.-1); last by rewrite -ltnS prednK.
  have -> : (j.-1 - K)%N = (j - K).-1 by rewrite -subn1 -subnDA addnC subnDA subn1.
  have fr i : (0 < i)%N -> from_row K t i.-1 = t (K + i).-1 by case: i => // i _; rewrite addnS.
  by rewrite (fr _ jK0) /from_row subnKC // ltnW.
Qed.
Print Assumptions C132_anywhere.

(** ** The other initial guess *)
Section Previous.
Variables (a rtol : R) (lm : lin_method) (miter : nat) (throw : bool) (d : nat).
Hypotheses (a0 : (0 < a)%Re) (r0 : (0 <= rtol < 1)%Re) (m1 : (1 < miter)%N).
Definition prev_c (u : R) : R := (a * (3 + u) / 2)%Re.
Definition prev_f (b : 'I_1) (u : RF) (y : 'cV[RF]_1) : 'cV[RF]_1 := const_mx (prev_c u : RF).
Definition prev_J (b : 'I_1) (u : RF) (y : 'cV[RF]_1) : 'M[RF]_1 := 0.
Definition prev_t (k : nat) : TB RF 1 := [ffun _ => INR (d + k) : RF].
Let G := fun (_ : nat) (ts : nat -> TB RF 1) y => (func_rate prev_f ts y, func_jac prev_J ts y).
Section Block.
Variables (k : nat) (ystart : VB RF 1 1) (x0 : tens2 RF).
Hypothesis k0 : (0 < k)%N.
Let t0 := prev_t (k - 1)%N.
Let ts (j : nat) := prev_t (k + j)%N.
Let rfn := block_RJG G BackwardEuler 1 t0 ts ystart.
Lemma prev_block : affine_block G 1 t0 ts (fun _ _ => 0) (fun j b => const_mx (prev_c (INR (d + k)) : RF)).
Proof.
move=> Y [//|[|//]] b _ _; rewrite mul0mx add0r /G /= /func_rate /func_jac !ffunE; split=> //.
by rewrite /prev_f addn0.
Qed.
Lemma prev_dt (b : 'I_1) : block_times t0 ts 1 b - block_times t0 ts 0 b = 1.
Proof.
rewrite /= /t0 /ts !ffunE addn0; have -> : INR (d + k) = (INR (d + (k - 1)) + 1)%Re by rewrite -S_INR -addnS subn1 prednK.
have Fl (u : R) : (u + 1 - u = 1)%Re by ring. exact: Fl.
Qed.
Lemma prev_res (x : tens2 RF) : fst (rfn x) 0%N 0%N = (x 0%N 0%N - prev_c (INR (d + k)))%Re.
Proof.
have /ffunP/(_ ord0)/colP/(_ ord0) := @beG_rfn_res RF 1 1 G 1 t0 ts ystart _ _ prev_block x 0 (ltn0Sn 0).
rewrite blkVE -[(0 * 1 + ord0)%N]/0%N -[nat_of_ord ord0]/0%N => ->; rewrite [beG_res _ _ _ _ _ _ _ _]ffunE mul0mx add0r prev_dt scale1r !mxE.
rewrite /= [zeroV _ _ _ _]ffunE mxE subr0 blkVE //.
Qed.
Lemma prev_norm (x : tens2 RF) : sqrt (sumsq (1 * 1) (fst (rfn x) 0%N)) = Rabs (x 0%N 0%N - prev_c (INR (d + k))).
Proof. rewrite /sumsq muln1 big_ord1 -[nat_of_ord ord0]/0%N prev_res; exact: (sqrt_Rsqr_abs (x 0%N 0%N - prev_c (INR (d + k)))%Re). Qed.
Lemma prev_out : exists out, @block_updateG RF 1 1 G BackwardEuler lm (nrmR 1 1) rtol a miter throw 1 t0 ts ystart x0 = Ok out /\
  ((Rabs (x0 0%N 0%N - prev_c (INR (d + k))) <= a)%Re -> out 0%N ord0 ord0 ord0 = (x0 0%N 0%N + ystart ord0 ord0 ord0)%Re) /\
  ((a < Rabs (x0 0%N 0%N - prev_c (INR (d + k))))%Re -> out 0%N ord0 ord0 ord0 = (prev_c (INR (d + k)) + ystart ord0 ord0 ord0)%Re).
Proof.
have bE (x : tens2 RF) : addV (blkV 1 1 x 0) ystart ord0 ord0 ord0 = (x 0%N 0%N + ystart ord0 ord0 ord0)%Re by rewrite ffunE mxE blkVE.
have one (x : tens2 RF) v : (Rabs (x 0%N 0%N - prev_c (INR (d + k))) <= a)%Re -> keep_going rtol a (NewtonProofs.norms rfn (nrmR 1 1 1) x) v = false.
{ move=> h; rewrite /keep_going /NewtonProofs.norms (NewtonProofs.any_gt_all_le _ a) //.
  rewrite /nrmR /=; constructor; [|by constructor]. eexists; split; first reflexivity. by rewrite prev_norm. }
rewrite /block_updateG -/rfn.
have [le|gt] := Rle_lt_dec (Rabs (x0 0%N 0%N - prev_c (INR (d + k)))) a.
{ have [r [-> H2]] := newton_first (block_linsolve lm 1) (@tsub RF) throw (ltnW m1) (one x0 _ le).
  eexists; split; first reflexivity. cbv beta; rewrite bE H2; split=> // h; exfalso; lra. }
set x1 := NewtonProofs.update rfn (block_linsolve lm 1) (@tsub RF) x0.
have E1 : x1 0%N 0%N = prev_c (INR (d + k)).
{ have u : forall j (b : 'I_1), (j < 1)%N -> (1%:M - (block_times t0 ts j.+1 b - block_times t0 ts j b) *: (0 : 'M[RF]_1)) \in unitmx by move=> *; rewrite scaler0 subr0 unitmx1.
  have H := @beG_affine_update RF 1 1 G 1 t0 ts ystart _ _ prev_block lm x0 (ltn0Sn 0) u 0 (ltn0Sn 0).
  have := @beG_rfn_res RF 1 1 G 1 t0 ts ystart _ _ prev_block x1 0 (ltn0Sn 0); rewrite H => /ffunP/(_ ord0)/colP/(_ ord0).
  rewrite blkVE -[(0 * 1 + ord0)%N]/0%N -[nat_of_ord ord0]/0%N prev_res ffunE mxE; move: (x1 _ _) => z.
  have Fl (p q : R) : (p - q = 0 -> p = q)%Re by lra. exact: Fl. }
have K0 : keep_going rtol a (NewtonProofs.norms rfn (nrmR 1 1 1) x0) (NewtonProofs.norms rfn (nrmR 1 1 1) x0) = true.
{ apply: Bool.not_false_is_true => K.
  have [al|rl] := NewtonProofs.keep_going_false rtol a _ _ (Props_Global.nrmR_len 1 1 1 _ _) (nrmR_nonan 1 1 1 _) (nrmR_finite 1 1 1 _) K.
  - have h := nrmR_all_le al (ltn0Sn 0); rewrite prev_norm in h; lra.
  - have h := nrmR_all_le_rel rl (ltn0Sn 0); rewrite prev_norm in h; nra. }
have K1 : keep_going rtol a (NewtonProofs.norms rfn (nrmR 1 1 1) x1) (NewtonProofs.norms rfn (nrmR 1 1 1) x0) = false.
{ apply: one; rewrite E1 Rminus_eq_0 Rabs_R0; lra. }
have [r [-> H2]] := newton_second throw m1 K0 K1.
eexists; split; first reflexivity. cbv beta; rewrite bE H2 -/x1 E1; split=> // h; exfalso; lra.
Qed.
End Block.
Lemma prev_step gt k (st : istate RF 1 1) u nt : (0 < k)%N -> (k < nt)%N -> (gt = "zero"%string /\ u = 0%Re \/ gt = "previous"%string /\ (if (k < 2)%N then u = 0%Re else
    u = (i_result st (k - 1)%N ord0 ord0 ord0 - i_result st (k - 2)%N ord0 ord0 ord0)%Re)) ->
  exists st', int_stepG G BackwardEuler lm (nrmR 1 1) rtol a miter throw gt 1 nt prev_t k st = inl st' /\ (i_warned st' = i_warned st /\ forall j, j != k -> i_result st' j = i_result st j) /\
  ((Rabs (u - prev_c (INR (d + k))) <= a)%Re -> i_result st' k ord0 ord0 ord0 = (u + i_result st (k - 1)%N ord0 ord0 ord0)%Re) /\
  ((a < Rabs (u - prev_c (INR (d + k))))%Re -> i_result st' k ord0 ord0 ord0 = (prev_c (INR (d + k)) + i_result st (k - 1)%N ord0 ord0 ord0)%Re).
Proof.
move=> k0 kn gu; have sl : slice_len nt k (k + 1) = 1%N by rewrite /slice_len addn1 (minn_idPl kn) subSnn.
have [g [Eg gE]] : exists g, initial_guess gt 1 nt (i_result st) k = Some (1%N, g) /\ g 0%N ord0 ord0 ord0 = u.
{ case: gu => [[-> ->]|[-> E]]; rewrite /initial_guess /= sl; first by (eexists; split; [reflexivity|rewrite ffunE mxE]).
  case: ifP E => k2 E /=; first by (eexists; split; [reflexivity|rewrite E ffunE mxE]).
  have k1 : (1 < k)%N by rewrite ltnNge -ltnS -[(_ < 2)%N]/((k < 2)%N) k2.
  have -> : slice_len nt (k - 1) k = 1%N by rewrite /slice_len (minn_idPl (ltnW kn)) subKn.
  eexists; split; [reflexivity|rewrite /= addn0 ffunE !mxE -subnDA E subnn addn0 //]. }
rewrite /int_stepG Eg sl eqxx [~~ true]/=.
have [out [-> [O1 O2]]] := @prev_out k (i_result st (k - 1)%N) (flat (fun j => if (j < 1)%N then g j else zeroV RF 1 1)) k0.
have fE : (flat (fun j => if (j < 1)%N then g j else zeroV RF 1 1)) 0%N 0%N = u.
{ rewrite -gE. have := @blkVE RF 1 1 (flat (fun j => if (j < 1)%N then g j else zeroV RF 1 1)) 0 ord0 ord0. by rewrite blkV_flat /= => ->. }
rewrite fE in O1 O2; eexists; split; first reflexivity; rewrite /= addn1 !ltnS leqnn subnn; split=> //; split=> // j jk.
by rewrite -eqn_leq eq_sym (negbTE jk).
Qed.
Notation run gt nt y0 init := (@integrate RF 1 1 prev_f prev_J BackwardEuler lm (nrmR 1 1) rtol a miter throw gt 1 nt prev_t y0 init).
Lemma prev_first gt (y0 : VB RF 1 1) init nt : (1 < nt)%N -> gt = "zero"%string \/ gt = "previous"%string -> (a < Rabs (0 - prev_c (INR (d + 1))))%Re ->
  exists st, i_result st 0%N = y0 /\ i_warned st = [::] /\ i_result st 1%N ord0 ord0 ord0 = (prev_c (INR (d + 1)) + y0 ord0 ord0 ord0)%Re /\
    run gt nt y0 init = int_loopG G BackwardEuler lm (nrmR 1 1) rtol a miter throw nt.-1 gt 1 nt prev_t 2 st.
Proof.
move=> n1 gE far; rewrite -integrateG_pointwise /integrateG (gtn_eqF (ltnW n1)) -[(1 == 0)%N]/false.
set s0 := {| i_result := _; i_writes := _; i_warned := _ |}.
have gu : gt = "zero"%string /\ 0%Re = 0%Re \/ gt = "previous"%string /\ (if (1 < 2)%N then 0%Re = 0%Re else 0%Re = (i_result s0 (1 - 1)%N ord0 ord0 ord0 - i_result s0 (1 - 2)%N ord0 ord0 ord0)%Re).
{ by case: gE => ->; [left|right]. }
have [st [E [[W S1] [_ S2]]]] := @prev_step gt 1 s0 0%Re nt (ltn0Sn 0) n1 gu.
exists st; rewrite (S1 0%N isT) (S2 far); split=> //; split; [by rewrite W|split=> //].
by rewrite -{1}(prednK (ltnW n1)) Props_Global.loop_step n1 -/G E.
Qed.
End Previous.

(** With the guess "previous" it is otherwise: for every absolute tolerance a the ODE y' = a (3 + t) / 2 from y 0 = 0 at the times 0, 1, 2, blocks of one step: a single run
    gives y 2 = 4 a (the increment of the first step is accepted as that of the second), a run stopped at time 1 and resumed gives y 2 = 9 a / 2. *)
Theorem C132_previous_guess a rtol lm miter throw init init1 init2 : (0 < a)%Re -> (0 <= rtol < 1)%Re -> (1 < miter)%N ->
  let run nt t y0 := @integrate RF 1 1 (fun _ (u : RF) _ => const_mx (a * (3 + u) / 2 : RF)%Re) (fun _ _ _ => 0) BackwardEuler lm (nrmR 1 1) rtol a miter throw "previous" 1 nt t y0 in
  let t (k : nat) : TB RF 1 := [ffun _ => INR k : RF] in
  exists whole hd tl, run 3%N t (zeroV RF 1 1) init = inl whole /\ run 2%N t (zeroV RF 1 1) init1 = inl hd /\ run 2%N (from_row 1 t) (i_result hd 1%N) init2 = inl tl /\
    i_result whole 2%N ord0 ord0 ord0 = (4 * a)%Re /\ i_result tl 1%N ord0 ord0 ord0 = (9 / 2 * a)%Re.
Proof.
move=> a0 r0 m1 run t.
have c1 : prev_c a (INR (0 + 1)) = (2 * a)%Re by rewrite /prev_c /=; lra.
have c2 : prev_c a (INR (1 + 1)) = (5 / 2 * a)%Re by rewrite /prev_c /=; lra.
have far1 : (a < Rabs (0 - prev_c a (INR (0 + 1))))%Re by rewrite c1 Rabs_left; lra.
have far2 : (a < Rabs (0 - prev_c a (INR (1 + 1))))%Re by rewrite c2 Rabs_left; lra.
have tE : t = prev_t 0 by apply: functional_extensionality => k.
have tE1 : from_row 1 t = prev_t 1 by apply: functional_extensionality => k.
have pr : "previous"%string = "zero"%string \/ "previous"%string = "previous"%string by right.
have [hd [H0 [_ [H1 HE]]]] := @prev_first a rtol lm miter throw 0 a0 r0 m1 "previous"%string (zeroV RF 1 1) init1 2 isT pr far1.
have [tl [T0 [_ [T1 TE]]]] := @prev_first a rtol lm miter throw 1 a0 r0 m1 "previous"%string (i_result hd 1%N) init2 2 isT pr far2.
have [s1 [S0 [_ [S1 SE]]]] := @prev_first a rtol lm miter throw 0 a0 r0 m1 "previous"%string (zeroV RF 1 1) init 3 isT pr far1.
have z0 : zeroV RF 1 1 ord0 ord0 ord0 = 0%Re by rewrite ffunE mxE.
rewrite c1 z0 Rplus_0_r in H1 S1; rewrite c2 H1 in T1.
have gu : "previous"%string = "zero"%string /\ (2 * a = 0)%Re \/ "previous"%string = "previous"%string /\ (if (2 < 2)%N then (2 * a = 0)%Re else
   (2 * a = i_result s1 (2 - 1)%N ord0 ord0 ord0 - i_result s1 (2 - 2)%N ord0 ord0 ord0)%Re).
{ right; split=> //=; rewrite -[(2 - 1)%N]/1%N -[(2 - 2)%N]/0%N S1 S0 z0; lra. }
have [st [E [_ [E2 _]]]] := @prev_step a rtol lm miter throw 0 a0 r0 m1 "previous"%string 2 s1 (2 * a)%Re 3 (ltn0Sn 1) isT gu.
exists st, hd, tl; rewrite /run tE tE1; split; [|split; [|split; [|split]]].
- rewrite SE (Props_Global.loop_step (fun (_ : nat) ts y => (func_rate (prev_f a) ts y, func_jac prev_J ts y))) -[(2 < 3)%N]/true E; exact: Props_Global.loop_done.
- rewrite HE; exact: Props_Global.loop_done.
- rewrite TE; exact: Props_Global.loop_done.
- rewrite E2; first by rewrite -[(2 - 1)%N]/1%N S1; lra.
  rewrite /prev_c /= Rabs_left; lra.
- rewrite T1; lra.
Qed.
Print Assumptions C132_previous_guess.

(** Example: the same ODE with the default guess, a first run stopped at time 1 and a second one to time 2: both converge without warning; together they are the single run
    (C132_at_a_block_end) and satisfy the hypotheses of C132_anywhere (with L = 0 and tol = a), whose exact history is 0, 2 a, 9 a / 2. *)
Example C132_ex a lm miter throw init init1 init2 : (0 < a)%Re -> (1 < miter)%N ->
  let f := fun (_ : 'I_1) (u : RF) (_ : 'cV[RF]_1) => const_mx (a * (3 + u) / 2 : RF)%Re : 'cV[RF]_1 in
  let run nt t y0 := @integrate RF 1 1 f (fun _ _ _ => 0) BackwardEuler lm (nrmR 1 1) 0%Re a miter throw "zero" 1 nt t y0 in
  let t (k : nat) : TB RF 1 := [ffun _ => INR k : RF] in
  exists hd tl whole, [/\ run 2%N t (zeroV RF 1 1) init1 = inl hd, run 2%N (from_row 1 t) (i_result hd 1%N) init2 = inl tl, run 3%N t (zeroV RF 1 1) init = inl whole &
    i_result whole 2%N ord0 ord0 ord0 = (9 / 2 * a)%Re] /\ i_warned hd = [::] /\ i_warned tl = [::] /\
    tol_bound f BackwardEuler 0%Re a "zero" 1 2 t (i_result hd) ord0 a /\ tol_bound f BackwardEuler 0%Re a "zero" 1 2 (from_row 1 t) (i_result tl) ord0 a /\
    short_steps 3 t 0%Re /\ (forall k b, lipschitz 0%Re (f b (t k b))) /\ exists y, euler_history f 3 t (zeroV RF 1 1) y /\ y 2%N ord0 ord0 ord0 = (9 / 2 * a)%Re.
Proof.
move=> a0 m1 f run t; have r0 : (0 <= 0 < 1)%Re by lra.
have c1 : prev_c a (INR (0 + 1)) = (2 * a)%Re by rewrite /prev_c /=; lra.
have c2 : prev_c a (INR (1 + 1)) = (5 / 2 * a)%Re by rewrite /prev_c /=; lra.
have far1 : (a < Rabs (0 - prev_c a (INR (0 + 1))))%Re by rewrite c1 Rabs_left; lra.
have far2 : (a < Rabs (0 - prev_c a (INR (1 + 1))))%Re by rewrite c2 Rabs_left; lra.
have tE : t = prev_t 0 by apply: functional_extensionality => k.
have tE1 : from_row 1 t = prev_t 1 by apply: functional_extensionality => k.
have ze : "zero"%string = "zero"%string \/ "zero"%string = "previous"%string by left.
have [hd [H0 [HW [H1 HE]]]] := @prev_first a 0%Re lm miter throw 0 a0 r0 m1 "zero"%string (zeroV RF 1 1) init1 2 isT ze far1.
have [tl [T0 [TW [T1 TE]]]] := @prev_first a 0%Re lm miter throw 1 a0 r0 m1 "zero"%string (i_result hd 1%N) init2 2 isT ze far2.
rewrite Props_Global.loop_done // in HE; rewrite Props_Global.loop_done // in TE.
have z0 : zeroV RF 1 1 ord0 ord0 ord0 = 0%Re by rewrite ffunE mxE.
rewrite c1 z0 Rplus_0_r in H1; rewrite c2 H1 in T1.
have St := @C132_at_a_block_end RF 1 1 f (fun _ _ _ => 0) BackwardEuler lm (nrmR 1 1) 0%Re a miter throw 1 1 3 t (zeroV RF 1 1) init init1 init2 isT isT.
rewrite /stop_and_resume -[(1 * 1)%N]/1%N -[(3 - 1)%N]/2%N in St.
have HE' : run 2%N t (zeroV RF 1 1) init1 = inl hd by rewrite /run tE.
have TE' : run 2%N (from_row 1 t) (i_result hd 1%N) init2 = inl tl by rewrite /run tE1.
rewrite -[integrate _ _ _ _ _ _ _ _ _ _ _ 2 t]/(run 2%N t) HE' -[integrate _ _ _ _ _ _ _ _ _ _ _ 2 (from_row 1 t)]/(run 2%N (from_row 1 t)) TE' in St.
have [whole [WE [_ [WR _]]]] := St.
have tb nt' (t' : nat -> TB RF 1) y' : tol_bound f BackwardEuler 0%Re a "zero" 1 nt' t' y' ord0 a.
{ split; first exact: Rle_refl. by move=> k k0 kn; cbv zeta; rewrite Rmult_0_l; exact: Rlt_le. }
exists hd, tl, whole; split; first by split=> //; rewrite (WR 2%N isT isT) -[(2 - 1)%N]/1%N T1; lra.
split=> //; split=> //; split; first exact: tb. split; first exact: tb. split; last split.
- move=> k b k0 _; rewrite /t !ffunE; have -> : INR k = (INR k.-1 + 1)%Re by rewrite -S_INR prednK.
  move: (INR k.-1) => x; have Fl : (0 <= x + 1 - x)%Re /\ (2 * ((x + 1 - x) * 0) <= 1)%Re by lra. exact: Fl.
- move=> k b y y'; rewrite /f dst0 Rmult_0_l; exact: Rle_refl.
- pose y (k : nat) : VB RF 1 1 := [ffun _ => const_mx (match k with 0%N => 0 | 1%N => 2 * a | _ => 9 / 2 * a end : RF)%Re].
  exists y; split; last by rewrite ffunE mxE.
  split=> [|k b k0 k3]; first by apply/ffunP => b; rewrite !ffunE; apply/colP => i; rewrite !mxE.
  rewrite /y /t /f !ffunE; apply/colP => i; rewrite !mxE.
  case: k k0 k3 => [//|[|[|//]]] _ _; rewrite /=; move: a0; clear=> a0.
  + have Fl : (2 * a = 0 + (1 - 0) * (a * (3 + 1) / 2))%Re by field. exact: Fl.
  + have Fl : (9 / 2 * a = 2 * a + (1 + 1 - 1) * (a * (3 + (1 + 1)) / 2))%Re by field. exact: Fl.
Qed.
