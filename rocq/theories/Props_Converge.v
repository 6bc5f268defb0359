(** C104: the computed history converges to the exact solution of the differential equation. *)
From Coq Require Import Reals List String Lra FunctionalExtensionality.
From mathcomp Require Import all_ssreflect all_algebra.
From Verif Require Import ChunkModel ChunkSolve ChunkInst NewtonModel Ode OdeForward OdeDiff OdeReal OdeAffine RField Pipeline
  Props_Ode Props_Pipeline Props_Stress Gmres Implicit Tolerance Converge Props_Tolerance.
From Verif Require Interp Models.
Import GRing.Theory.
Set Implicit Arguments. Unset Strict Implicit. Unset Printing Implicit Defensive.
Local Open Scope R_scope.

(** ** Error bounds *)
(** Backward Euler: the error at each time is at most exp(2 L T) times (initial error + T M H + number of
    steps times tolerance), for any exact solution [Y] whose rate changes by at most [M] per unit time, a
    one-sided Lipschitz constant [L] of the rate and steps of at most [H]. *)
Theorem C104_backward_euler_error nb m (f : 'I_nb -> RF -> 'cV[RF]_m -> 'cV[RF]_m) Jf lm rtol atol miter throw gt n nt t y0 init st b L M H tol (Y : R -> 'cV[RF]_m) :
  @integrate RF nb m f Jf BackwardEuler lm (nrmR nb m) rtol atol miter throw gt n nt t y0 init = inl st -> i_warned st = [::] ->
  tol_bound f BackwardEuler rtol atol gt n nt t (i_result st) b tol -> 0 <= tol ->
  0 <= L -> 0 <= M -> 0 <= H -> 2 * (H * L) <= 1 ->
  (forall k, (0 < k)%N -> (k < nt)%N -> 0 <= t k b - t k.-1 b <= H /\ one_sided L (f b (t k b)) /\
     solves_on (t k.-1 b) (t k b) (f b) Y /\
     forall x, t k.-1 b < x < t k b -> dst (f b x (Y x)) (f b (t k b) (Y (t k b))) <= M * (t k b - x)) ->
  forall k, (k < nt)%N ->
    dst (i_result st k b) (Y (t k b)) <= exp (2 * L * (t k b - t 0%N b)) * (dst (y0 b) (Y (t 0%N b)) + (t k b - t 0%N b) * (M * H) + INR k * tol).
Proof.
move=> S W T t0 L0 M0 H0 HL A k kn.
have [_ [e0 _]] := integrate_writes S; rewrite -e0.
apply: (@implicit_error m nt (fun k => t k b) (fun _ => f b) (fun k => i_result st k b) Y L M H tol) => //.
- by move=> j j0 jn; have [] := A j j0 jn.
- by move=> j j0 jn; have [_ [_ []]] := A j j0 jn.
- move=> j x j0 jn P; have [h [_ [_ /(_ x P) q]]] := A j j0 jn; apply: Rle_trans q _; apply: Rmult_le_compat_l => //; lra.
- by move=> j j0 jn; have [_ []] := A j j0 jn.
- move=> j j0 jn; exact: (run_residual S W T j0 jn).
Qed.
Print Assumptions C104_backward_euler_error.

(** Forward Euler, with a Lipschitz constant. *)
Theorem C104_forward_euler_error nb m (f : 'I_nb -> RF -> 'cV[RF]_m -> 'cV[RF]_m) Jf lm rtol atol miter throw gt n nt t y0 init st b L M H tol (Y : R -> 'cV[RF]_m) :
  @integrate RF nb m f Jf ForwardEuler lm (nrmR nb m) rtol atol miter throw gt n nt t y0 init = inl st -> i_warned st = [::] ->
  tol_bound f ForwardEuler rtol atol gt n nt t (i_result st) b tol -> 0 <= tol ->
  0 <= L -> 0 <= M -> 0 <= H ->
  (forall k, (0 < k)%N -> (k < nt)%N -> 0 <= t k b - t k.-1 b <= H /\ lipschitz L (f b (t k.-1 b)) /\
     solves_on (t k.-1 b) (t k b) (f b) Y /\
     forall x, t k.-1 b < x < t k b -> dst (f b x (Y x)) (f b (t k.-1 b) (Y (t k.-1 b))) <= M * (x - t k.-1 b)) ->
  forall k, (k < nt)%N ->
    dst (i_result st k b) (Y (t k b)) <= exp (L * (t k b - t 0%N b)) * (dst (y0 b) (Y (t 0%N b)) + (t k b - t 0%N b) * (M * H) + INR k * tol).
Proof.
move=> S W T t0 L0 M0 H0 A k kn.
have [_ [e0 _]] := integrate_writes S; rewrite -e0.
apply: (@explicit_error m nt (fun k => t k b) (fun _ => f b) (fun k => i_result st k b) Y L M H tol) => //.
- by move=> j j0 jn; have [] := A j j0 jn.
- by move=> j j0 jn; have [_ [_ []]] := A j j0 jn.
- move=> j x j0 jn P; have [h [_ [_ /(_ x P) q]]] := A j j0 jn; apply: Rle_trans q _; apply: Rmult_le_compat_l => //; lra.
- by move=> j j0 jn; have [_ []] := A j j0 jn.
- move=> j j0 jn; exact: (run_residual S W T j0 jn).
Qed.
Print Assumptions C104_forward_euler_error.

(** ** Convergence *)
(** A problem on [a, c]: rate [g], exact solution [Y]. *)
Definition smooth_problem m (a c L M : R) (g : R -> 'cV[RF]_m -> 'cV[RF]_m) (Y : R -> 'cV[RF]_m) : Prop :=
  a <= c /\ 0 <= L /\ 0 <= M /\ solves_on a c g Y /\
  (forall x, a <= x <= c -> lipschitz L (g x)) /\
  (forall x x', a <= x <= c -> a <= x' <= c -> dst (g x (Y x)) (g x' (Y x')) <= M * Rabs (x - x')).
(** a run of entry [b] of some batch on that problem: steps at most [d] inside [a, c], started on the
    solution, no warnings, absolute tolerance with (number of times) * atol <= d *)
Definition fine_run nb m (f : 'I_nb -> RF -> 'cV[RF]_m -> 'cV[RF]_m) Jf s lm atol miter throw gt n nt t y0 init st (b : 'I_nb)
    (a c d : R) (g : R -> 'cV[RF]_m -> 'cV[RF]_m) (Y : R -> 'cV[RF]_m) : Prop :=
  @integrate RF nb m f Jf s lm (nrmR nb m) 0 atol miter throw gt n nt t y0 init = inl st /\ i_warned st = [::] /\
  (forall x y, f b x y = g x y) /\ y0 b = Y (t 0%N b) /\ 0 <= atol /\ INR nt * atol <= d /\
  (forall k, (k < nt)%N -> a <= t k b <= c) /\ (forall k, (0 < k)%N -> (k < nt)%N -> 0 <= t k b - t k.-1 b <= d).

Lemma solves_sub m a c a' c' (g : R -> 'cV[RF]_m -> 'cV[RF]_m) Y : a <= a' -> c' <= c -> solves_on a c g Y -> solves_on a' c' g Y.
Proof. by move=> ha hc [C D]; split=> [x i P|x P]; [apply: C|apply: D]; lra. Qed.
Lemma solves_ext m a c (g g' : R -> 'cV[RF]_m -> 'cV[RF]_m) Y : (forall x y, g' x y = g x y) -> solves_on a c g Y -> solves_on a c g' Y.
Proof. by move=> E [C D]; split=> // x P; rewrite E; apply: D. Qed.
Lemma lipschitz_one_sided m L (g : 'cV[RF]_m -> 'cV[RF]_m) : lipschitz L g -> one_sided L g.
Proof.
move=> H u v; apply: Rle_trans (dot_le_norm _ _) _; have := H u v; rewrite /dst => q.
have := Rmult_le_compat_l _ _ _ (norm_ge0 (u - v)%R) q; lra.
Qed.

Theorem C104_convergence m (s : scheme) a c L M (g : R -> 'cV[RF]_m -> 'cV[RF]_m) Y eps : smooth_problem a c L M g Y -> 0 < eps ->
  exists d, 0 < d /\
  forall nb (f : 'I_nb -> RF -> 'cV[RF]_m -> 'cV[RF]_m) Jf lm atol miter throw gt n nt t y0 init st b,
    fine_run f Jf s lm atol miter throw gt n nt t y0 init st b a c d g Y ->
    forall k, (k < nt)%N -> dst (i_result st k b) (Y (t k b)) <= eps.
Proof.
move=> [ac [L0 [M0 [So [Li Sm]]]]] e0.
pose K := exp (2 * L * (c - a)) * ((c - a) * M + 1).
have ex0 : 0 < exp (2 * L * (c - a)) by exact: exp_pos.
have K0 : 0 < K by apply: Rmult_lt_0_compat => //; have := Rmult_le_pos (c - a) M ltac:(lra) M0; lra.
pose d := Rmin (eps / K) (/ (2 * L + 1)).
have d0 : 0 < d by apply: Rmin_glb_lt; [apply: Rdiv_lt_0_compat|apply: Rinv_0_lt_compat; lra].
have dL : 2 * (d * L) <= 1.
{ have q : d <= / (2 * L + 1) by exact: Rmin_r. have p : 0 < 2 * L + 1 by lra.
  have := Rmult_le_compat_r _ _ _ (Rlt_le _ _ p) q; rewrite Rinv_l; lra. }
exists d; split=> // nb f Jf lm atol miter throw gt n nt t y0 init st b [S [W [E [Y0 [at0 [nat_ [rng stp]]]]]]] k kn.
have nt0 : (0 < nt)%N by apply: leq_ltn_trans kn.
have T := @tol_bound_abs nb m f s atol gt n nt t (i_result st) b at0.
have [k1 k2] := rng k kn; have [z1 z2] := rng 0%N nt0.
have tk : 0 <= t k b - t 0%N b.
{ elim: {-2}k (leqnn k) => [|j IH] jk; first lra. have jn : (j.+1 < nt)%N by apply: leq_ltn_trans kn.
  have := stp j.+1 (ltn0Sn j) jn; rewrite [j.+1.-1]/=; have := IH (ltnW jk); lra. }
have B : dst (i_result st k b) (Y (t k b)) <= exp (2 * L * (t k b - t 0%N b)) * (dst (y0 b) (Y (t 0%N b)) + (t k b - t 0%N b) * (M * d) + INR k * atol).
{ have pre j (jn : (j < nt)%N) : (j.-1 < nt)%N by apply: leq_ltn_trans (leq_pred _) jn.
  have So' j : (0 < j)%N -> (j < nt)%N -> solves_on (t j.-1 b) (t j b) (f b) Y.
  { move=> j0 jn; apply: (solves_ext E); apply: (solves_sub _ _ So); [have := rng _ (pre j jn); lra|have := rng _ jn; lra]. }
  clear T; case: s S => S.
  - apply: (C104_backward_euler_error S W (@tol_bound_abs nb m f BackwardEuler atol gt n nt t (i_result st) b at0) at0 L0 M0 (Rlt_le _ _ d0) dL) => // j j0 jn.
    split; first exact: stp. have rj := rng j jn; have rp := rng _ (pre j jn).
    split. { apply: lipschitz_one_sided => u v; rewrite !E; exact: Li. }
    split; first exact: So'.
    move=> x P; rewrite !E; have := Sm x (t j b) ltac:(lra) rj; rewrite Rabs_minus_sym Rabs_pos_eq //; lra.
  - apply: Rle_trans (C104_forward_euler_error S W (@tol_bound_abs nb m f ForwardEuler atol gt n nt t (i_result st) b at0) at0 L0 M0 (Rlt_le _ _ d0) _ kn) _.
    + move=> j j0 jn; split; first exact: stp. have rj := rng j jn; have rp := rng _ (pre j jn).
      split. { move=> u v; rewrite !E; exact: Li. }
      split; first exact: So'.
      move=> x P; rewrite !E; have := Sm x (t j.-1 b) ltac:(lra) rp; rewrite Rabs_pos_eq //; lra.
    + apply: Rmult_le_compat_r.
      * have := Rmult_le_pos _ _ tk (Rmult_le_pos _ _ M0 (Rlt_le _ _ d0)); have := Rmult_le_pos _ _ (pos_INR k) at0; have := dst_ge0 (y0 b) (Y (t 0%N b)); lra.
      * apply: exp_le; have := Rmult_le_pos _ _ L0 tk; lra. }
apply: Rle_trans B _; rewrite Y0 dst0 Rplus_0_l.
have ka : INR k * atol <= d.
{ apply: Rle_trans nat_; apply: Rmult_le_compat_r => //; apply: le_INR; apply/leP; exact: ltnW. }
have h1 : (t k b - t 0%N b) * (M * d) + INR k * atol <= ((c - a) * M + 1) * d.
{ have Md := Rmult_le_pos _ _ M0 (Rlt_le _ _ d0).
  have := Rmult_le_compat_r _ _ _ Md (_ : t k b - t 0%N b <= c - a); move=> /(_ ltac:(lra)); lra. }
have h2 : exp (2 * L * (t k b - t 0%N b)) <= exp (2 * L * (c - a)).
{ apply: exp_le; apply: Rmult_le_compat_l; lra. }
have P1 : 0 <= (t k b - t 0%N b) * (M * d) + INR k * atol.
{ have := Rmult_le_pos _ _ tk (Rmult_le_pos _ _ M0 (Rlt_le _ _ d0)); have := Rmult_le_pos _ _ (pos_INR k) at0; lra. }
apply: Rle_trans (Rmult_le_compat _ _ _ _ (Rlt_le _ _ (exp_pos _)) P1 h2 h1) _.
have : d <= eps / K by exact: Rmin_l.
move=> /(Rmult_le_compat_l K _ _ (Rlt_le _ _ K0)); rewrite /Rdiv [eps * _]Rmult_comm -Rmult_assoc Rinv_r ?Rmult_1_l; last lra.
rewrite /K Rmult_assoc //.
Qed.
Print Assumptions C104_convergence.

(** ** Strain-controlled simulations *)
(** The model driven by the given strain and temperature histories, both linear between the given points,
    during step [k] of test [b]: the rate of the state at time [x]. *)
Definition driven (B : Models.rateform) (times strains temps : nat -> nat -> R) (b k : nat) (x : R) (y : 'cV[RF]_(Models.rf_n B)) : 'cV[RF]_(Models.rf_n B) :=
  (\col_i (Models.rf_rate B x (to_vec y) ((strains k b - strains k.-1 b) / (times k b - times k.-1 b))
     (temps k.-1 b + (temps k b - temps k.-1 b) * ((x - times k.-1 b) / (times k b - times k.-1 b))) i : RF))%R.

Theorem C104_strain_control_error (B : Models.rateform) nb nt (times strains temps : nat -> nat -> R) lm rtol atol miter throw gt n init st (b : 'I_nb)
    L M H tol (Y : R -> 'cV[RF]_(Models.rf_n B)) :
  times_increase nb nt times ->
  @solve_strain B nb nt times strains temps BackwardEuler lm rtol atol miter throw gt n init = inl st -> i_warned st = [::] ->
  tol_bound (strain_f (B := B) nt times strains temps) BackwardEuler rtol atol gt n nt (time_table nb times) (i_result st) b tol -> 0 <= tol ->
  0 <= L -> 0 <= M -> 0 <= H -> 2 * (H * L) <= 1 ->
  let g := driven (B := B) times strains temps b in
  (forall k, (0 < k)%N -> (k < nt)%N -> times k b - times k.-1 b <= H /\ one_sided L (g k (times k b)) /\
     solves_on (times k.-1 b) (times k b) (g k) Y /\
     forall x, times k.-1 b < x < times k b -> dst (g k x (Y x)) (g k (times k b) (Y (times k b))) <= M * (times k b - x)) ->
  forall k, (k < nt)%N ->
    dst (i_result st k b) (Y (times k b)) <=
      exp (2 * L * (times k b - times 0%N b)) * (norm (Y (times 0%N b)) + (times k b - times 0%N b) * (M * H) + INR k * tol).
Proof.
move=> G S W T t0 L0 M0 H0 HL g A k kn.
have [_ [e0 _]] := integrate_writes S.
have -> : norm (Y (times 0%N b)) = dst (i_result st 0%N b) (Y (times 0%N b)) by rewrite e0 /dst ffunE sub0r normN.
have bn : (b < nb)%N by [].
apply: (@implicit_error _ nt (fun k => times k b) g (fun k => i_result st k b) Y L M H tol) => //.
- move=> j j0 jn; have [] := A j j0 jn; have := @dt_pos nb nt times j b bn G j0 jn; lra.
- by move=> j j0 jn; have [_ [_ []]] := A j j0 jn.
- move=> j x j0 jn P; have [h [_ [_ /(_ x P) q]]] := A j j0 jn; apply: Rle_trans q _; apply: Rmult_le_compat_l => //; lra.
- by move=> j j0 jn; have [_ []] := A j j0 jn.
- move=> j j0 jn; have := run_residual S W T j0 jn; rewrite /step_res !ffunE strain_f_knot //; last exact: leq_ltn_trans j0 jn.
  have dt := @dt_pos nb nt times j b bn G j0 jn.
  rewrite (_ : g j (times j b) (i_result st j b) = (\col_i (Models.rf_rate B (times j b) (to_vec (i_result st j b)) (step_rate times strains j b) (temps j b) i : RF))%R) //.
  rewrite /g /driven /step_rate; apply/colP => i; rewrite !mxE; congr (Models.rf_rate _ _ _ _ _ _).
  by rewrite /Rdiv Rinv_r ?Rmult_1_r; lra.
Qed.
Print Assumptions C104_strain_control_error.

(** A viscoplastic model without internal variables whose flow rate does not decrease with the stress: no
    exponential factor, the error is of first order in the step uniformly.  [s]: the exact stress history. *)
Lemma norm_single m (u : 'cV[RF]_m) (i : 'I_m) : m = 1%N -> norm u = Rabs (u i ord0).
Proof. move=> e; subst m; by rewrite norm1 (ord1 i). Qed.
Lemma mono_prod a c fa fc E e : 0 <= E -> (a <= c -> fa <= fc) -> (c <= a -> fc <= fa) -> (a - c) * (E * (e - fa) - E * (e - fc)) <= 0.
Proof.
move=> E0 h1 h2; case: (Rle_or_lt a c) => [q|/Rlt_le q].
- have h := h1 q; have := Rmult_le_pos (c - a) (E * (fc - fa)) ltac:(lra) (Rmult_le_pos E (fc - fa) E0 ltac:(lra)); lra.
- have h := h2 q; have := Rmult_le_pos (a - c) (E * (fa - fc)) ltac:(lra) (Rmult_le_pos E (fa - fc) E0 ltac:(lra)); lra.
Qed.
Theorem C104_viscoplastic_stress_error (E : R -> R) (F : Flow.flowrule) nb nt (times strains temps : nat -> nat -> R) lm rtol atol miter throw gt n init st (b : 'I_nb)
    M H tol (s : R -> R) :
  let B := Models.inelastic E F in
  Flow.fl_nhist F = 0%N -> (forall T, 0 <= E T) ->
  (forall h t T e s1 s2, s1 <= s2 -> Flow.fl_rate F s1 h t T e <= Flow.fl_rate F s2 h t T e) ->
  times_increase nb nt times ->
  @solve_strain B nb nt times strains temps BackwardEuler lm rtol atol miter throw gt n init = inl st -> i_warned st = [::] ->
  tol_bound (strain_f (B := B) nt times strains temps) BackwardEuler rtol atol gt n nt (time_table nb times) (i_result st) b tol -> 0 <= tol ->
  0 <= M -> 0 <= H ->
  let rate k x sg := let e := (strains k b - strains k.-1 b) / (times k b - times k.-1 b) in
    let T := temps k.-1 b + (temps k b - temps k.-1 b) * ((x - times k.-1 b) / (times k b - times k.-1 b)) in
    E T * (e - Flow.fl_rate F sg (fun _ => 0) x T e) in
  (forall k, (0 < k)%N -> (k < nt)%N -> times k b - times k.-1 b <= H /\
     (forall x, times k.-1 b <= x <= times k b -> continuity_pt s x) /\
     (forall x, times k.-1 b < x < times k b -> derivable_pt_lim s x (rate k x (s x)) /\
        Rabs (rate k x (s x) - rate k (times k b) (s (times k b))) <= M * (times k b - x))) ->
  forall k, (k < nt)%N ->
    Rabs (entry st k b 0%N - s (times k b)) <= Rabs (s (times 0%N b)) + (times k b - times 0%N b) * (M * H) + INR k * tol.
Proof.
move=> B F0 E0 mono G S W T t0 M0 H0 rate A k kn.
have m1 : Models.rf_n B = 1%N by rewrite /B /= F0.
pose i0 : 'I_(Models.rf_n B) := Ordinal (ltn0Sn _).
pose Y : R -> 'cV[RF]_(Models.rf_n B) := fun x => (\col_i (s x : RF))%R.
have iE (i : 'I_(Models.rf_n B)) : i = i0 by apply: val_inj; case: i => [[|i] hi] //=; exfalso; move: hi; rewrite m1.
have hz (y : 'cV[RF]_(Models.rf_n B)) : Slices.slice 1 (to_vec y) = (fun _ => 0).
{ apply: functional_extensionality => i; rewrite /Slices.slice /to_vec insubF //; apply/negbTE; rewrite -leqNgt m1; exact: leq_addr. }
have drE j x y i : driven times strains temps b j x y i ord0 = rate j x (y i0 ord0).
{ by rewrite mxE (iE i) /rate /= /Slices.cat /= hz (to_vecE y i0). }
have dE (u v : 'cV[RF]_(Models.rf_n B)) : dst u v = Rabs (u i0 ord0 - v i0 ord0) by rewrite /dst (norm_single _ i0 m1) !mxE.
have := @C104_strain_control_error B nb nt times strains temps lm rtol atol miter throw gt n init st b 0 M H tol Y G S W T t0 (Rle_refl _) M0 H0.
move=> /(_ ltac:(lra)) Q.
have fin : dst (i_result st k b) (Y (times k b)) <= exp (2 * 0 * (times k b - times 0%N b)) * (norm (Y (times 0%N b)) + (times k b - times 0%N b) * (M * H) + INR k * tol); last first.
{ move: fin; rewrite dE (norm_single _ i0 m1) !mxE Rmult_0_r Rmult_0_l exp_0 Rmult_1_l -(to_vecE (i_result st k b) i0); apply. }
apply: Q => //.
move=> j j0 jn; have [h [C D]] := A j j0 jn; split=> //; split.
- move=> u v; rewrite Rmult_0_l.
  rewrite /dot (bigD1 i0) //= big1 => [|i]; last by rewrite (iE i) eqxx.
  have subE (p q : 'cV[RF]_(Models.rf_n B)) : (p - q)%R i0 ord0 = (p i0 ord0 - q i0 ord0)%Re by rewrite !mxE.
  rewrite addr0 !subE !drE /rate -[(_ * _)%R]/(_ * _)%Re.
  set e := (_ / _)%Re. set TT := (_ + _)%Re.
  have e0 := E0 TT.
  apply: mono_prod => // q; exact: mono.
- split; [split|].
  + move=> x i P; rewrite (_ : (fun u => Y u i ord0) = s); first exact: C. by apply: functional_extensionality => u; rewrite mxE.
  + move=> x P i; rewrite drE mxE; have [D1 _] := D x P.
    rewrite (_ : (fun u => Y u i 0%R) = s) //. by apply: functional_extensionality => u; rewrite mxE.
  + move=> x P; rewrite dE !drE !mxE; exact: (proj2 (D x P)).
Qed.
Print Assumptions C104_viscoplastic_stress_error.

(** The hypotheses are met: y' = -y, y(0) = 1 on [0, 1] with N + 1 steps; the error is at most 1/(N + 1). *)
Definition grid1 (h : R) : nat -> TB RF 1 := fun k => [ffun=> (INR k * h : RF)]%R.
Lemma exp_neg_lip x x' : 0 <= x -> 0 <= x' -> Rabs (exp (- x) - exp (- x')) <= Rabs (x - x').
Proof.
have W : forall x x', 0 <= x -> x < x' -> Rabs (exp (- x) - exp (- x')) <= Rabs (x - x').
{ move=> {}x {}x' x0 xx.
  have [c [E P]] := @MVT_cor2 (fun u => exp (- u)) (fun u => - exp (- u)) x x' xx
    (fun c _ => ltac:(have := derivable_pt_lim_comp Ropp exp c (-1) (exp (- c)) (derivable_pt_lim_opp id c 1 (derivable_pt_lim_id c)) (derivable_pt_lim_exp (- c)); rewrite /comp (_ : exp (- c) * -1 = - exp (- c)); [done|ring])).
  have e1 : exp (- c) <= 1 by rewrite -exp_0; apply: exp_le; lra.
  have e2 := exp_pos (- c).
  have p1 := Rmult_le_pos (exp (- c)) (x' - x) (Rlt_le _ _ e2) ltac:(lra).
  have p2 := Rmult_le_compat_r (x' - x) _ _ ltac:(lra) e1.
  rewrite Rabs_pos_eq; last lra. rewrite Rabs_left1; lra. }
move=> x0 x0'; case: (Rtotal_order x x') => [h|[->|h]]; [exact: W| |].
- rewrite !Rminus_eq_0 Rabs_R0; lra.
- rewrite Rabs_minus_sym [Rabs (x - x')]Rabs_minus_sym; exact: W.
Qed.
Example C104_ex (N : nat) : let h := / INR N.+1 in let Y x := ((exp (- x) : RF)%:M : 'cV[RF]_1)%R in
  exists st,
    @integrate RF 1 1 (aff_rate (@decay_K 1) (@decay_c 1)) (aff_jac (@decay_K 1)) BackwardEuler Dense (nrmR 1 1) 0 0 100 true "zero" 3 N.+2 (grid1 h) [ffun=> Y 0] (fun _ => zeroV RF 1 1) = inl st /\
    forall k, (k <= N.+1)%N -> dst (i_result st k ord0) (Y (INR k * h)) <= h.
Proof.
move=> h Y.
have n0 : 0 < INR N.+1 by apply: lt_0_INR; apply/ltP.
have h0 : 0 < h by apply: Rinv_0_lt_compat.
have dt k : grid1 h k.+1 ord0 - grid1 h k ord0 = h by rewrite !ffunE S_INR; change (((INR k + 1) * h - INR k * h) = h)%Re; ring.
have inv : steps_invertible (@decay_K 1) N.+2 (grid1 h).
{ move=> [//|k] b _ _; rewrite (ord1 b) [k.+1.-1]/= -[(_ - _)%R]/(_ - _)%Re dt /decay_K scalerN opprK -[X in (X + _)%R]scale1r -scalerDl.
  rewrite unitmxZ ?unitmx1 // unitfE; apply/eqP => q; have : 1 + h = 0 := q; lra. }
have [st [S W]] := @C79_linear_ode_always_solved 1 1 (@decay_K 1) (@decay_c 1) Dense 0 0 100 true "zero" 3 N.+2 (grid1 h) [ffun=> Y 0] (fun _ => zeroV RF 1 1)
  (Rle_refl _) isT isT isT inv (or_introl erefl).
exists st; split=> // k kN.
have fE x y : aff_rate (@decay_K 1) (@decay_c 1) ord0 x y = (- y)%R by rewrite /aff_rate /decay_K /decay_c mulNmx mul1mx addr0.
have gE j : grid1 h j ord0 = INR j * h by rewrite ffunE.
have YE x : Y x ord0 ord0 = exp (- x) by rewrite mxE.
have dY x x' : 0 <= x -> 0 <= x' -> dst (aff_rate (@decay_K 1) (@decay_c 1) ord0 x (Y x)) (aff_rate (@decay_K 1) (@decay_c 1) ord0 x' (Y x')) <= Rabs (x - x').
{ move=> p p'; rewrite !fE /dst (_ : (- Y x - - Y x')%R = (- (Y x - Y x'))%R); last by rewrite opprD opprK.
  rewrite normN norm1 (_ : (Y x - Y x')%R ord0 ord0 = exp (- x) - exp (- x')); [exact: exp_neg_lip|by rewrite !mxE]. }
have := @C104_backward_euler_error _ _ _ _ _ _ _ _ _ _ _ _ _ _ _ _ ord0 0 1 h 0 Y S W (tol_bound_abs _ _ _ _ _ _ _ _ (Rle_refl 0)) (Rle_refl _) (Rle_refl _) Rle_0_1 (Rlt_le _ _ h0) ltac:(lra).
move=> Q; apply: Rle_trans (_ : INR k * h * h <= _); last first.
{ rewrite -{3}[h]Rmult_1_l; apply: Rmult_le_compat_r; first lra.
  rewrite /h; apply: (Rmult_le_reg_r (INR N.+1)) => //; rewrite Rmult_assoc Rinv_l; last lra.
  by rewrite Rmult_1_r Rmult_1_l; apply: le_INR; apply/leP. }
have z : grid1 h 0 ord0 = 0 by rewrite gE [INR 0]/= Rmult_0_l.
rewrite -gE; apply: Rle_trans (Q _ k kN) _ => [[//|j] _ jn|]; last first.
{ rewrite !z (_ : [ffun=> Y 0] ord0 = Y 0); last by rewrite ffunE.
  rewrite dst0 Rminus_0_r Rmult_0_r !Rmult_0_l exp_0 Rmult_1_l Rmult_0_r; lra. }
- rewrite dt; split; first lra. split; first exact: decay_dissipative.
  have jh : 0 <= grid1 h j ord0 by rewrite gE; apply: Rmult_le_pos; [exact: pos_INR|lra].
  have jh' := dt j.
  split.
  + split=> [x i P|x P i']; last first.
    { rewrite fE !mxE (ord1 i') eqxx.
      apply: (@dpl_ext (fun u => exp (- u))) => [u|]; first by rewrite mxE.
      have := derivable_pt_lim_comp Ropp exp x (-1) (exp (- x)) (derivable_pt_lim_opp id x 1 (derivable_pt_lim_id x)) (derivable_pt_lim_exp (- x)).
      by rewrite /comp (_ : exp (- x) * -1 = - exp (- x)); [|ring]. }
    rewrite (_ : (fun u => Y u i ord0) = (fun u => exp (- u))).
    * apply: derivable_continuous_pt; apply: (derivable_pt_comp Ropp exp); [exact: derivable_pt_opp (derivable_pt_id _)|exact: derivable_pt_exp].
    * apply: functional_extensionality => u; by rewrite (ord1 i) YE.
  + move=> x; rewrite [j.+1.-1]/= Rmult_1_l => P; move: jh' jh P; move: (grid1 h j ord0) (grid1 h j.+1 ord0) => u v jh' jh P.
    have := dY x v (Rle_trans _ _ _ jh (Rlt_le _ _ (proj1 P))) (Rle_trans _ _ _ jh (Rlt_le _ _ (Rlt_trans _ _ _ (proj1 P) (proj2 P)))).
    rewrite Rabs_minus_sym Rabs_pos_eq //; have := proj2 P; lra.
Qed.
