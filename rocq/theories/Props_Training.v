(** C142: training steps with backward Euler go downhill: mixed strain/stress batches, perfectly viscoplastic materials, neural differential equations. *)
From Coq Require Import Reals List String Lra Lia FunctionalExtensionality.
From mathcomp Require Import all_ssreflect all_algebra.
From Verif Require Import ChunkModel ChunkSolve ChunkInst NewtonModel Ode OdeForward OdeAdjoint OdeReal OdeBlock OdeDiff RField Gmres Implicit Tolerance Converge Pipeline SmoothMx VCGrad PVGrad GradHist MixedVC AdjointBlock MixedGrad NewtonConv NeuralRun.
From Verif Require Interp Models Flow Hardening Deriv Slices VCHistory Props_FullModel VCExact Props_Stress Props_Gradient Props_GradTol Props_Mixed Props_Descent Props_Neural Props_PerfectGrad.
Import GRing.Theory.
Set Implicit Arguments. Unset Strict Implicit. Unset Printing Implicit Defensive.
Local Open Scope ring_scope.
Delimit Scope R_scope with Re.
Import Props_FullModel VCExact Props_Stress Props_Gradient Props_GradTol Props_Mixed Props_Descent Props_Neural Props_PerfectGrad.

(** [back mth n] is the outcome of the backward pass with the linear solver [mth] and block size [n]; [los p] the loss with the parameters [p].
    The outcome is one vector [grad], whatever solver and block size; it is the derivative of the loss in every direction; small steps along which it predicts a
    decrease decrease the loss, against it in particular; and it is zero at local minima. *)
Definition goes_downhill np (X : Type) (p0 : 'cV[RF]_np) (los : 'cV[RF]_np -> R) (back : direct_method -> nat -> option ('cV[RF]_np * X)) (grad : 'cV[RF]_np) : Prop :=
  (forall mth n, (0 < n)%N -> exists lam, back mth n = Some (grad, lam)) /\
  (forall q, derivable_pt_lim (fun u => los (moved p0 u q)) 0 (slope grad q)) /\
  (forall q, (slope grad q < 0)%Re -> exists e, (0 < e)%Re /\ forall lr, (0 < lr)%Re -> (lr < e)%Re -> (los (moved p0 lr q) < los p0)%Re) /\
  (grad <> 0 -> exists e, (0 < e)%Re /\ forall lr, (0 < lr)%Re -> (lr < e)%Re -> (los (moved p0 lr (- grad)) < los p0)%Re) /\
  (forall r, (0 < r)%Re -> (forall p, (dst p p0 <= r)%Re -> (los p0 <= los p)%Re) -> grad = 0).

Section Generic.
Variables (np : nat) (X : Type) (p0 : 'cV[RF]_np) (los : 'cV[RF]_np -> R) (back : direct_method -> nat -> option ('cV[RF]_np * X)).
Lemma slope_inj (g g' : 'cV[RF]_np) : (forall q, slope g q = slope g' q) -> g = g'.
Proof.
move=> H; apply/colP => j.
have K (a : 'cV[RF]_np) : slope a (delta_mx j 0) = a j 0.
{ rewrite /slope (bigD1 j) //= big1 => [|i ij]; last by rewrite mxE (negbTE ij) mulr0. by rewrite mxE !eqxx mulr1 addr0. }
by rewrite -K H K.
Qed.
Lemma downhill : (forall q mth n, (0 < n)%N -> exists grad lam, back mth n = Some (grad, lam) /\ derivable_pt_lim (fun u => los (moved p0 u q)) 0 (slope grad q)) ->
  exists grad, goes_downhill p0 los back grad.
Proof.
move=> H; have [gr [lam0 [B0 _]]] := H 0 Thomas 1%N (ltn0Sn 0).
have D q : derivable_pt_lim (fun u => los (moved p0 u q)) 0 (slope gr q).
{ have [gr' [lam' [B' D]]] := H q Thomas 1%N (ltn0Sn 0); by move: B' D; rewrite B0 => -[<- _]. }
have K q : (slope gr q < 0)%Re -> exists e, (0 < e)%Re /\ forall lr, (0 < lr)%Re -> (lr < e)%Re -> (los (moved p0 lr q) < los p0)%Re.
{ move=> q0; have := decreasing (D q) q0; by rewrite moved0. }
have N : gr <> 0 -> exists e, (0 < e)%Re /\ forall lr, (0 < lr)%Re -> (lr < e)%Re -> (los (moved p0 lr (- gr)) < los p0)%Re.
{ move=> gn; apply: K; rewrite slope_opp; have := dot_pos gn; lra. }
exists gr; split; last (split; first exact: D; split; first exact: K; split; first exact: N).
- move=> mth n n0; have [gr' [lam' [B' _]]] := H 0 mth n n0; exists lam'; rewrite B'; congr (Some (_, _)).
  apply: slope_inj => q; have [g1 [l1 [B1 D1]]] := H q mth n n0.
  move: D1; rewrite B' in B1; case: B1 => <- _ D1; exact: uniqueness_limite D1 (D q).
- move=> r r0 M; case: (eqVneq gr 0) => [//|/eqP gn]; exfalso.
  have [e [e0 He]] := N gn; have [e' [e'0 H']] := near_small (moved_diff p0 (- gr)) r0.
  have m0 : (0 < Rmin e e')%Re by exact: Rmin_glb_lt. have [a b] := (Rmin_l e e', Rmin_r e e').
  have := He (Rmin e e' / 2)%Re ltac:(lra) ltac:(lra); have := H' (Rmin e e' / 2)%Re; rewrite moved0 Rminus_0_r Rabs_pos_eq; last lra.
  move=> /(_ ltac:(lra)) /M; lra.
Qed.
End Generic.

(** Calibration against data the model itself produced (noise-free): at the parameters that produced them the squared error is zero and so is the gradient. *)
Theorem C142_true_parameters nb m nt np (X : Type) (p0 : 'cV[RF]_np) (sim : 'cV[RF]_np -> nat -> VB RF nb m) (w dat : nat -> VB RF nb m) (back : direct_method -> nat -> option ('cV[RF]_np * X)) grad :
  goes_downhill p0 (fun p => squared_error nt w dat (sim p)) back grad ->
  (forall k b i, (k < nt)%N -> (0 <= w k b i ord0)%Re) -> (forall k b i, (k < nt)%N -> w k b i ord0 <> 0%Re -> dat k b i ord0 = sim p0 k b i ord0) ->
  squared_error nt w dat (sim p0) = 0%Re /\ grad = 0.
Proof.
move=> [_ [_ [_ [_ M]]]] w0 gen.
have sq (x : R) : (0 <= x * x)%Re by nra.
have P y : (0 <= squared_error nt w dat y)%Re.
{ rewrite /squared_error; do 3 (apply: (big_ind (fun x : R => (0 <= x)%Re)); [exact: Rle_refl|exact: Rplus_le_le_0_compat|move=> ? _]).
  apply: Rmult_le_pos; [exact: w0|exact: sq]. }
have Z : squared_error nt w dat (sim p0) = 0%Re.
{ rewrite /squared_error; apply: big1 => k _; apply: big1 => b _; apply: big1 => i _.
  have [e|/eqP e] := eqVneq (w k b i 0) 0; first by rewrite e mul0r.
  by rewrite (gen k b i (ltn_ord k) e) subrr !mulr0. }
split; first exact: Z.
apply: (M 1%Re Rlt_0_1) => p _; rewrite Z; exact: P.
Qed.
Print Assumptions C142_true_parameters.

(** The parameters near [p0] (moved along any line) stay within [r] for a while. *)
Lemma along_line np (p0 q : 'cV[RF]_np) r : (0 < r)%Re -> exists dl, (0 < dl)%Re /\ forall u, (Rabs (u - 0) < dl)%Re -> (dst (moved p0 u q) p0 <= r)%Re.
Proof. move=> r0; have [e [e0 H]] := near_small (moved_diff p0 q) r0; exists e; split=> // u ud; have := H u ud; by rewrite moved0. Qed.

(** Perfectly viscoplastic materials under strain control *)
Theorem C142_perfect_viscoplasticity np (E pn eta : 'cV[RF]_np -> R -> R) nb nt (times strains temps : nat -> nat -> R) dp p0 r (sim : 'cV[RF]_np -> nat -> VB RF nb 1) L og :
  parameter_derivatives (pv_rate E pn eta (nb := nb) nt times strains temps) dp ->
  times_increase nb nt times -> (1 < nt)%N -> (0 < r)%Re ->
  (forall p k b, (dst p p0 <= r)%Re -> (k < nt)%N -> (b < nb)%N -> (0 <= E p (temps k b) /\ 1 < pn p (temps k b) /\ 0 < eta p (temps k b))%Re) ->
  (forall k b, (k < nt)%N -> (b < nb)%N -> pv_smooth E pn eta p0 (temps k b)) ->
  (forall p, (dst p p0 <= r)%Re -> exact_history (B := Models.inelastic (E p) (Flow.perfect (pn p) (eta p))) nt times strains temps (sim p)) ->
  loss_gradient nt L (sim p0) og ->
  exists grad, goes_downhill p0 (fun p => L (sim p))
    (fun mth n => rewind (at_p (pv_jac E pn eta (nb := nb) nt times strains temps) p0) (at_p dp p0) mth BackwardEuler n nt (time_table nb times) (sim p0) og) grad.
Proof.
move=> A Gr nt2 r0 Gd Sm HY HL; apply: downhill => q mth n n0.
have [dl [dl0 Hd]] := along_line p0 q r0.
have HL' : loss_gradient nt L (sim (moved p0 0%Re q)) og by rewrite moved0.
have := perfect_core A Gr nt2 mth n0 dl0 (fun u k b ud => Gd _ k b (Hd u ud)) _ (moved_diff p0 q) (fun u ud => HY _ (Hd u ud)) HL'.
rewrite moved0; exact.
Qed.
Print Assumptions C142_perfect_viscoplasticity.

(** Batches that mix strain- and stress-controlled tests of a Voce / Chaboche material, as calibration runs them (solve_both) *)
Theorem C142_mixed_batches np nback (E pn eta s0 Rs d : 'cV[RF]_np -> R -> R) (C g : 'cV[RF]_np -> R -> nat -> R)
    nb nt (times data temps : nat -> nat -> R) (control : nat -> R) GP p0 r (sim : 'cV[RF]_np -> nat -> VB RF nb nback.+2) L og :
  let call := calls (nback := nback) E pn eta s0 Rs d C g (nb := nb) nt times data temps control in
  call_derivatives (fun p rows ts Y => (call p rows ts Y).1) GP ->
  controls nb control -> times_increase nb nt times -> (1 < nt)%N -> (0 < r)%Re ->
  (forall p b, (dst p p0 <= r)%Re -> (b < nb)%N -> good_entry (E p) (pn p) (eta p) (s0 p) (Rs p) (d p) nback (C p) (g p) nt temps b) ->
  (forall k b, (k < nt)%N -> (b < nb)%N -> smooth_material nback E pn eta s0 Rs d C g p0 (temps k b)) ->
  (forall p, (dst p p0 <= r)%Re -> mixed_history (B := family nback E pn eta s0 Rs d C g p) nt times data temps control (sim p)) ->
  every_step_active nt times temps control (E p0) (sim p0) ->
  loss_gradient nt L (sim p0) og ->
  exists grad, goes_downhill p0 (fun p => L (sim p))
    (fun mth n => rewindG (fun rows ts y => (call p0 rows ts y).2) (GP p0) mth BackwardEuler n nt (time_table nb times) (sim p0) og) grad.
Proof.
move=> call A Cc Gr nt2 r0 Gd Sm HY Act HL; apply: downhill => q mth n n0.
have [dl [dl0 Hd]] := along_line p0 q r0.
have HL' : loss_gradient nt L (sim (moved p0 0%Re q)) og by rewrite moved0.
have Sm' k b : (k < nt)%N -> (b < nb)%N -> smooth_material nback E pn eta s0 Rs d C g (moved p0 0%Re q) (temps k b) by rewrite moved0; exact: Sm.
have Act' : every_step_active nt times temps control (E (moved p0 0%Re q)) (sim (moved p0 0%Re q)) by rewrite moved0.
have := @mixed_core np nback E pn eta s0 Rs d C g nb nt times data temps control Cc Gr nt2 mth n (fun u => moved p0 u q) q 0%Re dl (fun u => sim (moved p0 u q)) GP A n0 dl0
  (fun u b ud => Gd _ b (Hd u ud)) Sm' (moved_diff p0 q) (fun u ud => HY _ (Hd u ud)) Act' L og HL'.
rewrite moved0; exact.
Qed.
Print Assumptions C142_mixed_batches.

(** Neural differential equations: every differentiable network, time steps short compared with its Lipschitz constant *)
Theorem C142_neural nb n s np net dnet (force : 'I_nb -> RF -> Slices.vec) (dp : 'I_nb -> RF -> 'cV[RF]_n -> 'cV[RF]_np -> 'M[RF]_(n, np)) nt (t : nat -> TB RF nb)
    (y0 : VB RF nb n) Lc p0 r (sim : 'cV[RF]_np -> nat -> VB RF nb n) L og :
  let rate := neural_rate s net dnet force (n := n) (np := np) in let jac := neural_jac s net dnet force (n := n) (np := np) in
  (0 < s)%N -> (0 < nt)%N -> differentiable_network n (n + s) np net dnet -> parameter_derivatives rate dp ->
  short_steps nt t Lc -> (0 < r)%Re ->
  (forall p, (dst p p0 <= r)%Re -> forall k b, (k < nt)%N -> lipschitz Lc (fun y => rate b (t k b) y p)) ->
  (forall p, (dst p p0 <= r)%Re -> euler_history (at_p rate p) nt t y0 (sim p)) ->
  loss_gradient nt L (sim p0) og ->
  exists grad, goes_downhill p0 (fun p => L (sim p)) (fun mth n => rewind (at_p jac p0) (at_p dp p0) mth BackwardEuler n nt t (sim p0) og) grad.
Proof.
move=> rate jac s0 nt0 dn ag ss r0 li HY HL; apply: downhill => q mth n' n0.
have [dl [dl0 Hd]] := along_line p0 q r0.
have d0 : (dst p0 p0 <= r)%Re by rewrite dst0; exact: Rlt_le.
have HL' : loss_gradient nt L (sim (moved p0 0%Re q)) og by rewrite moved0.
have := @gradient_history nb n np nt rate jac dp t y0 mth n' (fun u => moved p0 u q) q 0%Re dl (fun u => sim (moved p0 u q)) n0 nt0 dl0 (moved_diff p0 q).
rewrite moved0; apply=> //.
- move=> k b kn; apply: neural_c1 => //; move=> y' p' M; exact: ag.
- move=> u ud; have [e H] := proj1 (euler_res _ _ _ _ _) (HY _ (Hd u ud)); split; first exact: e. exact: H.
- move=> u ud Y' Y0 HS k kn; have [y [_ Uy]] := @C131_exactly_one_history nb n (at_p rate (moved p0 u q)) nt t y0 Lc ss (fun k b _ kn => li _ (Hd u ud) k b kn).
  rewrite (Uy _ _ k kn); last by apply/euler_res; split. symmetry; apply: Uy => //; exact: HY (Hd u ud).
- move=> _ k b k0 kn; have [h0 hL] := ss k b k0 kn; apply: (lip_regular h0 hL) => v.
  have HJ := @neural_jacobian_at nb n s np net dnet force dn b (t k b) (sim p0 k b) p0 s0; exact: (lip_jacobian (li p0 d0 k b kn) HJ).
Qed.
Print Assumptions C142_neural.

(** Perceptrons: whatever the weights, if the steps are short compared with the size of the weights, the histories exist for all weights nearby and training goes downhill. *)
Theorem C142_perceptron (act act' : R -> R) nb n s H (dnet : Slices.vec -> Slices.vec -> Slices.mat) (force : 'I_nb -> RF -> Slices.vec)
    (dp : 'I_nb -> RF -> 'cV[RF]_n -> 'cV[RF]_(NeuralR.nparams n (n + s) H) -> 'M[RF]_(n, NeuralR.nparams n (n + s) H)) nt (t : nat -> TB RF nb) (y0 : VB RF nb n) (p0 : 'cV[RF]_(NeuralR.nparams n (n + s) H)) (Lc : R) :
  (forall x, derivable_pt_lim act x (act' x)) -> (forall x, SmoothR.cont1 act' x) -> (forall x, (Rabs (act' x) <= 1)%Re) ->
  (forall q x M, NeuralR.input_deriv n (n + s) (NeuralR.perceptron act n (n + s) H q) x M -> forall i j, (i < n)%coq_nat -> (j < n + s)%coq_nat -> dnet q x i j = M i j) ->
  let rate := neural_rate s (NeuralR.perceptron act n (n + s) H) dnet force (n := n) (np := NeuralR.nparams n (n + s) H) in
  let jac := neural_jac s (NeuralR.perceptron act n (n + s) H) dnet force (n := n) (np := NeuralR.nparams n (n + s) H) in
  (0 < s)%N -> (0 < nt)%N -> parameter_derivatives rate dp -> (@total_gain n s H p0 < Lc)%Re -> short_steps nt t Lc ->
  exists (sim : 'cV[RF]_(NeuralR.nparams n (n + s) H) -> nat -> VB RF nb n) r, (0 < r)%Re /\
    (forall p, (dst p p0 <= r)%Re -> euler_history (at_p rate p) nt t y0 (sim p)) /\
    forall L og, loss_gradient nt L (sim p0) og ->
    exists grad, goes_downhill p0 (fun p => L (sim p)) (fun mth n => rewind (at_p jac p0) (at_p dp p0) mth BackwardEuler n nt t (sim p0) og) grad.
Proof.
move=> aD aC aB ad rate jac s0 nt0 ag gL ss.
have [r [r0 Hr]] := NeuralR.gain_cont n (n + s) H (tv p0) (Lc - @total_gain n s H p0)%Re ltac:(lra).
have li p : (dst p p0 <= r)%Re -> forall k b, (k < nt)%N -> lipschitz Lc (fun y => rate b (t k b) y p).
{ move=> Hp k b _ y y'; apply: Rle_trans (@perceptron_lipschitz act act' nb n s H aD aB dnet force b (t k b) p y y') _.
  apply: Rmult_le_compat_r; first exact: dst_ge0.
  have K : (Rabs (@total_gain n s H p - @total_gain n s H p0) < Lc - @total_gain n s H p0)%Re.
  { apply: Hr => j /ltP jn; rewrite !(tv_lt _ jn); exact: Rle_trans (comp_dst _ _ _) Hp. }
  have := Rle_abs (@total_gain n s H p - @total_gain n s H p0); lra. }
have ex p : exists y : nat -> VB RF nb n, (dst p p0 <= r)%Re -> euler_history (at_p rate p) nt t y0 y.
{ case: (Rle_dec (dst p p0) r) => hp; last by exists (fun _ => @zeroV RF nb n).
  have [y [Hy _]] := @C131_exactly_one_history nb n (at_p rate p) nt t y0 Lc ss (fun k b _ kn => li p hp k b kn); by exists y. }
pose sim p := sval (ClassicalEpsilon.constructive_indefinite_description _ (ex p)).
have HY p : (dst p p0 <= r)%Re -> euler_history (at_p rate p) nt t y0 (sim p) := svalP (ClassicalEpsilon.constructive_indefinite_description _ (ex p)).
exists sim, r; split; first exact: r0. split; first exact: HY.
move=> L og HL; apply: (@C142_neural nb n s _ _ dnet force dp nt t y0 Lc p0 r sim L og s0 nt0 _ ag ss r0 li HY HL).
exact: (perceptron_network aD aC ad).
Qed.
Print Assumptions C142_perceptron.

(** Examples.  Three constants of a perfectly viscoplastic material near 2, two strain-controlled tests; data produced by the model at 2: the loss and its gradient vanish there. *)
Definition two3 : 'cV[RF]_3 := pv_line 2%Re.
Example C142_ex_perfect (strains : nat -> nat -> R) : exists (sim : 'cV[RF]_3 -> nat -> VB RF 2 1) dp,
  (forall p, (dst p two3 <= / 2)%Re -> exact_history (B := Models.inelastic (fun _ => p (inord 0) ord0) (Flow.perfect (fun _ => p (inord 1) ord0) (fun _ => p (inord 2) ord0))) 4 ex_t strains ex_temp (sim p)) /\
  goes_downhill two3 (fun p => squared_error 4 (fun _ => [ffun _ => const_mx 1]) (sim two3) (sim p))
    (fun mth n => rewind (at_p (pv_jac (pv_par (inord 0)) (pv_par (inord 1)) (pv_par (inord 2)) (nb := 2) 4 ex_t strains ex_temp) two3) (at_p dp two3) mth BackwardEuler n 4 (time_table 2 ex_t) (sim two3)
       (squared_error_gradient (fun _ => [ffun _ => const_mx 1]) (sim two3) (sim two3))) 0.
Proof.
have Gr : times_increase 2 4 ex_t by move=> b _ i j ij _; apply: lt_INR.
have two i : two3 i 0 = 2%Re by rewrite mxE.
have near p i : (dst p two3 <= / 2 -> 3 / 2 <= p i ord0)%Re.
{ move=> Hp; have := Rle_trans _ _ _ (comp_dst p two3 i) Hp; rewrite two /Rabs; case: Rcase_abs => ?; lra. }
have h0 : (0 < / 2)%Re by lra.
have Fl (a b c : R) : (3 / 2 <= a -> 3 / 2 <= b -> 3 / 2 <= c -> 0 <= a /\ 1 < b /\ 0 < c)%Re by lra.
have Gd p k b : (dst p two3 <= / 2)%Re -> (k < 4)%N -> (b < 2)%N -> (0 <= pv_par (inord 0) p (ex_temp k b) /\ 1 < pv_par (inord 1) p (ex_temp k b) /\ 0 < pv_par (inord 2) p (ex_temp k b))%Re.
{ move=> Hp _ _; exact: Fl (near p (inord 0) Hp) (near p (inord 1) Hp) (near p (inord 2) Hp). }
have ex p : exists Y : nat -> VB RF 2 1, (dst p two3 <= / 2)%Re -> exact_history (B := Models.inelastic (fun _ => p (inord 0) ord0) (Flow.perfect (fun _ => p (inord 1) ord0) (fun _ => p (inord 2) ord0))) 4 ex_t strains ex_temp Y.
{ case: (Rle_dec (dst p two3) (/ 2)) => hp; last by exists (fun _ => @zeroV RF 2 1).
  have [|Y [H _]] := @C141_exactly_one_history (fun _ => p (inord 0) ord0) (fun _ => p (inord 1) ord0) (fun _ => p (inord 2) ord0) 2 4 ex_t strains ex_temp Gr; last by exists Y.
  move=> k b kn bn; have [g0 [g1 g2]] := Gd p k b hp kn bn; split; first exact: g0. split; first exact: Rlt_le g1. exact: g2. }
pose sim p := sval (ClassicalEpsilon.constructive_indefinite_description _ (ex p)).
have HY p : (dst p two3 <= / 2)%Re -> exact_history (B := Models.inelastic (fun _ => p (inord 0) ord0) (Flow.perfect (fun _ => p (inord 1) ord0) (fun _ => p (inord 2) ord0))) 4 ex_t strains ex_temp (sim p)
  := svalP (ClassicalEpsilon.constructive_indefinite_description _ (ex p)).
have [dp Hdp] := parameter_derivatives_exist (pv_rate (nb := 2) (pv_par (inord 0)) (pv_par (inord 1)) (pv_par (inord 2)) 4 ex_t strains ex_temp).
exists sim, dp; split; first exact: HY.
have D0 : (dst two3 two3 <= / 2)%Re by rewrite dst0; exact: Rlt_le h0.
have Sm k b : (k < 4)%N -> (b < 2)%N -> pv_smooth (pv_par (inord 0)) (pv_par (inord 1)) (pv_par (inord 2)) two3 (ex_temp k b).
{ move=> _ _; split; try exact: c1_coord. have := Fl _ _ _ (near two3 (inord 0) D0) (near two3 (inord 1) D0) (near two3 (inord 2) D0). by case=> u [v w]; repeat split. }
have [grad G] := C142_perfect_viscoplasticity Hdp Gr (ltn0Sn 2 : (1 < 4)%N) h0 Gd Sm HY (@squared_error_derivative 2 1 4 (fun _ => [ffun _ => const_mx 1]) (sim two3) (sim two3)).
have [|_ gz] := C142_true_parameters G _ (fun k b i kn w => erefl); last by rewrite -gz.
move=> k b i _; rewrite ffunE mxE; exact: Rlt_le Rlt_0_1.
Qed.
