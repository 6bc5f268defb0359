(** Property theorems: backward Euler runs with small steps never fail and converge to the
    solution of the differential equation (C106). *)
From Coq Require Import Reals List String Lra Lia.
From mathcomp Require Import all_ssreflect all_algebra.
From Verif Require Import ChunkModel ChunkSolve ChunkInst NewtonModel NewtonProofs Ode OdeForward OdeReal OdeAffine OdeDiff RField Gmres Implicit Tolerance Converge NewtonConv SmallSteps ZmodTac.
Import GRing.Theory.
Set Implicit Arguments. Unset Strict Implicit. Unset Printing Implicit Defensive.
Local Open Scope ring_scope.
Delimit Scope R_scope with Re.

(** For times in [a, c] and states within [Rad] of the initial one, the rate is bounded by [M], its
    Jacobian is the supplied one, is bounded by [L] and Lipschitz with constant [K]. *)
Definition regular_rate nb m (f : 'I_nb -> RF -> 'cV[RF]_m -> 'cV[RF]_m) Jf (y0 : VB RF nb m) (a c Rad K L M : R) : Prop :=
  [/\ (0 <= K)%Re, (0 <= L)%Re & (0 <= M)%Re] /\
  forall (b : 'I_nb) (x : R), (a <= x <= c)%Re ->
    [/\ smooth_near (f b x) (Jf b x) (y0 b) Rad K,
        forall y v, (dst y (y0 b) <= Rad)%Re -> (norm (Jf b x y *m v) <= L * norm v)%Re &
        forall y, (dst y (y0 b) <= Rad)%Re -> (norm (f b x y) <= M)%Re].

(** C106: explicit conditions on the steps, which [H] bounds. *)
Theorem C106_small_steps_never_fail nb m f Jf lm rtol atol miter throw n nt (t : nat -> TB RF nb) (y0 : VB RF nb m) init a c Rad K L M H :
  regular_rate f Jf y0 a c Rad K L M -> (0 < n)%N -> (1 < miter)%N -> (0 < nt)%N -> (0 <= H)%Re ->
  (forall k (b : 'I_nb), (0 < k)%N -> (k < nt)%N -> (a <= t k b <= c)%Re /\ (0 <= t k b - t k.-1 b <= H)%Re) ->
  (2 * (H * L) <= 1)%Re ->
  (INR n * (H * (K / 2 * (2 ^ n.+1 * 2 ^ n.+1))) * (INR n * (H * M)) <= rtol)%Re ->
  (forall k (b : 'I_nb), (k < nt)%N -> (M * (t k b - t 0%N b) + INR k * (rtol * (INR n * (H * M))) + 2 ^ n.+1 * (INR n * (H * M)) <= Rad)%Re) ->
  exists st, integrate f Jf BackwardEuler lm (nrmR nb m) rtol atol miter throw "zero" n nt t y0 init = inl st /\ i_warned st = [::] /\
    forall k b, (k < nt)%N -> (dst (i_result st k b) (y0 b) <= M * (t k b - t 0%N b) + INR k * (rtol * (INR n * (H * M))))%Re.
Proof.
move=> [[K0 L0 M0] reg] n0 m1 nt0 H0 st HL small room.
have [s [E [W [D _]]]] := @small_steps_run nb m f Jf lm rtol atol miter throw n nt t y0 Rad K L M H n0 m1 nt0 K0 L0 M0 H0
  (fun k b k0 kn => let: And3 h _ _ := reg b (t k b) (proj1 (st k b k0 kn)) in h)
  (fun k b y v k0 kn => let: And3 _ h _ := reg b (t k b) (proj1 (st k b k0 kn)) in h y v)
  (fun k b y k0 kn => let: And3 _ _ h := reg b (t k b) (proj1 (st k b k0 kn)) in h y)
  (fun k b k0 kn => proj2 (st k b k0 kn)) HL small room init.
by exists s.
Qed.
Print Assumptions C106_small_steps_never_fail.

(** the grid of [N] equal steps over [a, c] *)
Definition even_grid nb (a c : R) (N : nat) (t : nat -> TB RF nb) : Prop :=
  forall k b, (k <= N)%N -> t k b = (a + INR k * ((c - a) / INR N))%Re.

Lemma even_grid_steps nb a c N (t : nat -> TB RF nb) : (a < c)%Re -> (0 < N)%N -> even_grid a c N t ->
  forall k b, (k <= N)%N -> (a <= t k b <= c)%Re /\ ((0 < k)%N -> (t k b - t k.-1 b = (c - a) / INR N)%Re).
Proof.
move=> ac N0 E k b kN; have Np : (0 < INR N)%Re by apply: lt_0_INR; apply/ltP.
have hp : (0 < (c - a) / INR N)%Re by apply: Rdiv_lt_0_compat; lra.
split.
- rewrite E //; have h := Rmult_le_compat_r _ _ _ (Rlt_le _ _ hp) (le_INR _ _ (elimT leP kN)); have h2 := Rmult_le_pos _ _ (pos_INR k) (Rlt_le _ _ hp).
  have e : (INR N * ((c - a) / INR N) = c - a)%Re by field; lra. lra.
- case: k kN => [//|k] kN _; rewrite !E //=; last exact: ltnW. rewrite -/(INR k.+1) S_INR; ring.
Qed.

Lemma nat_above (x : R) : exists N, (x <= INR N)%Re.
Proof.
have [h _] := archimed x; case: (Z_le_gt_dec 0 (up x)) => z.
- exists (Z.to_nat (up x)); rewrite INR_IZR_INZ Znat.Z2Nat.id //; lra.
- exists 0%N; have : (IZR (up x) <= 0)%Re by apply: IZR_le; lia. rewrite [INR 0]/=; lra.
Qed.
Lemma div_le (x y N : R) : (0 < y)%Re -> (0 < N)%Re -> (x / y <= N)%Re -> (x / N <= y)%Re.
Proof.
move=> y0 N0 h; apply: (Rmult_le_reg_r N) => //; have -> : (x / N * N = x)%Re by field; lra.
have := Rmult_le_compat_r y _ _ (Rlt_le _ _ y0) h; have -> : (x / y * y = x)%Re by field; lra. lra.
Qed.

(** C106: for every relative tolerance between 0 and 1 and every block size, when the solution cannot leave the
    region, every sufficiently fine grid is solved without failure or warning ... *)
Theorem C106_converges nb m f Jf lm rtol n (y0 : VB RF nb m) a c Rad K L M M2 (Y : 'I_nb -> R -> 'cV[RF]_m) :
  regular_rate f Jf y0 a c Rad K L M -> (a < c)%Re -> (0 < n)%N -> (0 < rtol < 1)%Re ->
  (M * (c - a) * (1 + INR n * rtol) < Rad)%Re -> (0 <= M2)%Re ->
  (forall b, [/\ Y b a = y0 b, solves_on a c (f b) (Y b), forall x, (a <= x <= c)%Re -> (dst (Y b x) (y0 b) <= Rad)%Re &
     forall x x', (a <= x <= c)%Re -> (a <= x' <= c)%Re -> (dst (f b x (Y b x)) (f b x' (Y b x')) <= M2 * Rabs (x - x'))%Re]) ->
  exists N0 C, (0 < C)%Re /\ forall N t atol miter throw init, (N0 <= N)%N -> even_grid a c N t -> (0 <= atol)%Re -> (1 < miter)%N ->
    exists st, integrate f Jf BackwardEuler lm (nrmR nb m) rtol atol miter throw "zero" n N.+1 t y0 init = inl st /\ i_warned st = [::] /\
      forall k b, (k <= N)%N -> (dst (i_result st k b) (Y b (t k b)) <= C * (/ INR N + INR N * atol))%Re.
Proof.
move=> [[K0 L0 M0] reg] ac n0 [rt0 rt1] gap M20 sol.
set T := (c - a)%Re in gap *; have T0 : (0 < T)%Re by rewrite /T; lra.
set beta := (2 ^ n.+1)%Re; have bp : (0 < beta)%Re by apply: pow_lt; lra.
have np := pos_INR n.
pose X1 := (2 * (T * L))%Re; pose X2 := (INR n * (K / 2 * (beta * beta)) * (INR n * M) * (T * T) / rtol)%Re.
pose X3 := (beta * (INR n * M) * T / (Rad - M * T * (1 + INR n * rtol)))%Re.
pose G := (T * M2 + T * (K / 2 * (beta * (INR n * M) * (beta * (INR n * M)))) * T)%Re.
have G0 : (0 <= G)%Re.
{ apply: Rplus_le_le_0_compat; first by apply: Rmult_le_pos; lra. apply: Rmult_le_pos; last lra. apply: Rmult_le_pos; first lra.
  apply: Rmult_le_pos; first lra. exact: Rle_0_sqr. }
have nM := Rmult_le_pos _ _ np M0.
have X10 : (0 <= X1)%Re by have := Rmult_le_pos _ _ (Rlt_le _ _ T0) L0; rewrite /X1; lra.
have X2n : (0 <= INR n * (K / 2 * (beta * beta)) * (INR n * M) * (T * T))%Re.
{ apply: Rmult_le_pos; last by apply: Rmult_le_pos; lra. apply: Rmult_le_pos => //; apply: Rmult_le_pos => //; apply: Rmult_le_pos; [lra|apply: Rmult_le_pos; lra]. }
have X20 : (0 <= X2)%Re by apply: Rmult_le_pos => //; apply: Rlt_le; exact: Rinv_0_lt_compat.
have X30 : (0 <= X3)%Re.
{ apply: Rmult_le_pos; last by apply: Rlt_le; apply: Rinv_0_lt_compat; lra. apply: Rmult_le_pos; last lra. apply: Rmult_le_pos => //; lra. }
have [N0 HN0] := nat_above (X1 + X2 + X3 + 1)%Re.
have ex := exp_pos (2 * L * T).
exists N0, (exp (2 * L * T) * (1 + G * T))%Re; split.
{ apply: Rmult_lt_0_compat => //; have := Rmult_le_pos _ _ G0 (Rlt_le _ _ T0); lra. }
move=> N t atol miter throw init hN gr at0 m1.
have HN : (X1 + X2 + X3 + 1 <= INR N)%Re by apply: Rle_trans HN0 _; apply: le_INR; apply/leP.
have Np : (0 < INR N)%Re by lra.
have N1 : (0 < N)%N by rewrite lt0n; apply/eqP => e; rewrite e [INR 0]/= in Np; lra.
set H := (T / INR N)%Re; have Hp : (0 < H)%Re by apply: Rdiv_lt_0_compat.
have NH : (INR N * H = T)%Re by rewrite /H; field; lra.
have HT : (H <= T)%Re.
{ have := Rmult_le_compat_r H 1 (INR N) ltac:(lra) ltac:(lra); lra. }
have gs := even_grid_steps ac N1 gr.
have tk k b : (k <= N)%N -> (t k b - t 0%N b = INR k * H)%Re by move=> kN; rewrite !gr // [INR 0]/= /H /T; field; lra.
have Cn0 : (0 <= INR n * (H * M))%Re by apply: Rmult_le_pos => //; apply: Rmult_le_pos; lra.
have HL : (2 * (H * L) <= 1)%Re.
{ have h : (X1 / 1 <= INR N)%Re by lra. have := div_le Rlt_0_1 Np h; rewrite /X1 /H; have -> : (2 * (T * L) / INR N = 2 * (T / INR N * L))%Re by field; lra. lra. }
have small : (INR n * (H * (K / 2 * (beta * beta))) * (INR n * (H * M)) <= rtol)%Re.
{ have h : (X2 <= INR N)%Re by lra. have := div_le rt0 Np h; set Q := (INR n * _ * _ * _)%Re in X2n *.
  have -> : (INR n * (H * (K / 2 * (beta * beta))) * (INR n * (H * M)) = Q / INR N * / INR N)%Re by rewrite /Q /H; field; lra.
  have i1 : (/ INR N <= 1)%Re by rewrite -Rinv_1; apply: Rinv_le_contravar; lra.
  have q0 : (0 <= Q / INR N)%Re by apply: Rmult_le_pos => //; apply: Rlt_le; exact: Rinv_0_lt_compat.
  have := Rmult_le_compat_l _ _ _ q0 i1; lra. }
have room k (b : 'I_nb) : (k < N.+1)%N -> (M * (t k b - t 0%N b)%R + INR k * (rtol * (INR n * (H * M))) + beta * (INR n * (H * M)) <= Rad)%Re.
{ move=> kN; rewrite -[(t k b - t 0%N b)%R]/(t k b - t 0%N b)%Re tk //.
  have kn := le_INR _ _ (elimT leP (kN : (k <= N)%N)).
  have h3 : (beta * (INR n * M) * T / INR N <= Rad - M * T * (1 + INR n * rtol))%Re.
  { apply: div_le => //; first lra. rewrite -/X3; lra. }
  have e3 : (beta * (INR n * (H * M)) = beta * (INR n * M) * T / INR N)%Re by rewrite /H; field; lra.
  have k1 := Rmult_le_compat_r (M * H) _ _ ltac:(apply: Rmult_le_pos; lra) kn.
  have k2 := Rmult_le_compat_r (rtol * (INR n * (H * M))) _ _ ltac:(apply: Rmult_le_pos; lra) kn.
  have e1 : (INR N * (M * H) = M * T)%Re by rewrite -NH; ring.
  have e2 : (INR N * (rtol * (INR n * (H * M))) = M * T * (INR n * rtol))%Re by rewrite -NH; ring.
  rewrite e3; lra. }
have st k (b : 'I_nb) : (0 < k)%N -> (k < N.+1)%N -> (a <= t k b <= c)%Re /\ (0 <= t k b - t k.-1 b <= H)%Re.
{ move=> k0 kN; have [r s] := gs k b kN; split=> //; rewrite (s k0) -/T -/H; lra. }
have [s [E [W [D Rs]]]] := @small_steps_run nb m f Jf lm rtol atol miter throw n N.+1 t y0 Rad K L M H n0 m1 (ltn0Sn N) K0 L0 M0 (Rlt_le _ _ Hp)
  (fun k b k0 kn => let: And3 h _ _ := reg b (t k b) (proj1 (st k b k0 kn)) in h)
  (fun k b y v k0 kn => let: And3 _ h _ := reg b (t k b) (proj1 (st k b k0 kn)) in h y v)
  (fun k b y k0 kn => let: And3 _ _ h := reg b (t k b) (proj1 (st k b k0 kn)) in h y)
  (fun k b k0 kn => proj2 (st k b k0 kn)) HL small room init.
have {}Rs := Rs at0 rt1.
exists s; split=> //; split=> // k b kN.
have [Ya So Yt Ys] := sol b.
set tol := (atol + H * (K / 2 * (beta * (INR n * (H * M)) * (beta * (INR n * (H * M))))))%Re in Rs.
have tol0 : (0 <= tol)%Re.
{ apply: Rplus_le_le_0_compat => //; apply: Rmult_le_pos; first lra. apply: Rmult_le_pos; first lra. exact: Rle_0_sqr. }
have t0a : t 0%N b = a by rewrite gr // [INR 0]/= Rmult_0_l Rplus_0_r.
have ydst j : (j < N.+1)%N -> (dst (i_result s j b) (y0 b) <= Rad)%Re.
{ move=> jN; have := D j b jN; have := room j b jN; have := Rmult_le_pos _ _ (Rlt_le _ _ bp) Cn0; lra. }
have aa : (a <= a <= c)%Re by lra.
have solk j : (0 < j)%N -> (j < N.+1)%N -> solves_on (t j.-1 b) (t j b) (f b) (Y b).
{ move=> j0 jN; have [[l1 _] _] := gs j.-1 b (leq_trans (leq_pred j) jN); have [[_ l2] _] := gs j b jN; have [Sc Sd] := So.
  split=> [x i hx|x hx]; [apply: Sc; lra|apply: Sd; lra]. }
have smk j (x : R) : (0 < j)%N -> (j < N.+1)%N -> (t j.-1 b < x < t j b)%Re -> (dst (f b x (Y b x)) (f b (t j b) (Y b (t j b))) <= M2 * H)%Re.
{ move=> j0 jN hx; have [[l1 _] _] := gs j.-1 b (leq_trans (leq_pred j) jN); have [[l3 l2] _] := gs j b jN.
  have [_ [_ h2]] := st j b j0 jN.
  apply: Rle_trans (Ys x (t j b) _ _) _; [lra|lra|].
  apply: Rmult_le_compat_l => //; rewrite Rabs_left; lra. }
have osk j : (0 < j)%N -> (j < N.+1)%N -> (dot (i_result s j b - Y b (t j b))%R (f b (t j b) (i_result s j b) - f b (t j b) (Y b (t j b)))%R
     <= L * (dst (i_result s j b) (Y b (t j b)) * dst (i_result s j b) (Y b (t j b))))%Re.
{ move=> j0 jN; have [q1 _] := gs j b jN; have [h1 h2 _] := reg b (t j b) q1.
  have lp := ball_lipschitz h1 h2 (ydst j jN) (Yt _ q1).
  have d1 := dot_le_norm (i_result s j b - Y b (t j b))%R (f b (t j b) (i_result s j b) - f b (t j b) (Y b (t j b)))%R.
  have d0 : (0 <= dst (i_result s j b) (Y b (t j b)))%Re by exact: norm_ge0.
  have d2 := Rmult_le_compat_l _ _ _ d0 lp; rewrite /dst in d2 *; move: d1 d2; set uu := dot _ _; set vv := norm _; set ww := norm _. nra. }
have B := @implicit_error_at m N.+1 (fun k => t k b) (fun _ => f b) (fun k => i_result s k b) (Y b) L M2 H tol
  (fun j j0 jN => proj2 (st j b j0 jN)) solk L0 HL smk M20 (Rlt_le _ _ Hp) tol0 osk (fun j j0 jN => Rs j b j0 jN) k kN.
apply: Rle_trans B _.
have z0 : (dst (i_result s 0%N b) (Y b (t 0%N b)) <= 0)%Re.
{ have := D 0%N b (ltn0Sn N); rewrite t0a Ya [INR 0]/= -[(a - a)%R]/(a - a)%Re => h; apply: Rle_trans h _; lra. }
have kn := le_INR _ _ (elimT leP (kN : (k <= N)%N)).
have tkH : (t k b - t 0%N b = INR k * H)%Re by exact: tk.
have kH : (INR k * H <= T)%Re by have := Rmult_le_compat_r H _ _ (Rlt_le _ _ Hp) kn; lra.
have kH0 : (0 <= INR k * H)%Re by apply: Rmult_le_pos; [exact: pos_INR|lra].
rewrite tkH.
have e1 : (exp (2 * L * (INR k * H)) <= exp (2 * L * T))%Re by apply: exp_le; apply: Rmult_le_compat_l => //; lra.
have e2 : (INR k * H * (M2 * H) <= T * M2 * H)%Re.
{ have := Rmult_le_compat_r (M2 * H) _ _ ltac:(apply: Rmult_le_pos; lra) kH; lra. }
have e3 : (INR k * tol <= INR N * tol)%Re by exact: Rmult_le_compat_r.
pose kk := (K / 2 * (beta * (INR n * M) * (beta * (INR n * M))))%Re.
have kk0 : (0 <= kk)%Re by apply: Rmult_le_pos; [lra|exact: Rle_0_sqr].
have e4 : (INR N * tol <= INR N * atol + T * kk * T * H)%Re.
{ have -> : (INR N * tol = INR N * atol + (INR N * H) * kk * H * H)%Re by rewrite /tol /kk; ring.
  rewrite NH; have := Rmult_le_compat_l (T * kk * H) _ _ ltac:(apply: Rmult_le_pos; [apply: Rmult_le_pos; lra|lra]) HT; lra. }
have GH : (T * M2 * H + T * kk * T * H = G * H)%Re by rewrite /G /kk; ring.
have GHT : (G * H = G * T * / INR N)%Re by rewrite /H; field; lra.
have GT := Rmult_le_pos _ _ G0 (Rlt_le _ _ T0).
have iN : (0 < / INR N)%Re by exact: Rinv_0_lt_compat.
have Na : (0 <= INR N * atol)%Re by apply: Rmult_le_pos; lra.
have tl : (dst (i_result s 0%N b) (Y b (t 0%N b)) + INR k * H * (M2 * H) + INR k * tol <= (1 + G * T) * (/ INR N + INR N * atol))%Re.
{ have q1 := Rmult_le_pos _ _ GT Na; lra. }
have p0 : (0 <= (1 + G * T) * (/ INR N + INR N * atol))%Re by apply: Rmult_le_pos; lra.
rewrite [(exp (2 * L * T) * _ * _)%Re]Rmult_assoc; apply: Rle_trans (Rmult_le_compat_l _ _ _ (Rlt_le _ _ (exp_pos _)) tl) _.
exact: Rmult_le_compat_r.
Qed.
Print Assumptions C106_converges.

(** A case: y' = -y^2, y(0) = 1, on [0, 1/8], with the default relative tolerance and blocks of two steps.  The solution is 1 / (1 + x). *)
Definition sq_f (_ : 'I_1) (_ : RF) (y : 'cV[RF]_1) : 'cV[RF]_1 := (Ropp (y ord0 ord0 * y ord0 ord0)%Re : RF)%:M.
Definition sq_Jf (_ : 'I_1) (_ : RF) (y : 'cV[RF]_1) : 'M[RF]_1 := (Ropp (2 * y ord0 ord0)%Re : RF)%:M.
Definition sq_y0 : VB RF 1 1 := [ffun _ => (1%Re : RF)%:M].
Definition sq_Y (_ : 'I_1) (x : R) : 'cV[RF]_1 := ((/ (1 + x))%Re : RF)%:M.

Lemma norm_1 (u : 'cV[RF]_1) : norm u = Rabs (u ord0 ord0).
Proof. by rewrite /norm /dot big_ord1 -[_ * _]/(Rsqr _) sqrt_Rsqr_abs. Qed.
Lemma dst_1 (u v : 'cV[RF]_1) : dst u v = Rabs (u ord0 ord0 - v ord0 ord0)%Re.
Proof. by rewrite /dst norm_1 !mxE. Qed.
Lemma sc_1 (x : RF) : (x%:M : 'cV[RF]_1) ord0 ord0 = x.
Proof. by rewrite !mxE /= mulr1n. Qed.
Lemma dst_sq_y0 (y : 'cV[RF]_1) b : (dst y (sq_y0 b) <= 1)%Re -> (0 <= y ord0 ord0 <= 2)%Re.
Proof. by rewrite dst_1 /sq_y0 ffunE sc_1 /Rabs; case: Rcase_abs => ? ?; lra. Qed.

Lemma sq_regular : regular_rate sq_f sq_Jf sq_y0 0 (1 / 8) 1 2 4 4.
Proof.
split; first by split; lra. move=> b x _; split.
- split=> [y _ Y th y' e D i|y y' v _ _].
  + have Dy := D ord0; have DD := derivable_pt_lim_opp _ _ _ (derivable_pt_lim_mult _ _ _ _ _ Dy Dy).
    rewrite (ord1 i); apply: (@dpl_ext _ _ _ _ _ (_ : derivable_pt_lim (fun u => (- (Y u ord0 ord0 * Y u ord0 ord0))%Re) th _)) => [u|].
    { by rewrite /sq_f sc_1. }
    move: DD; rewrite /opp_fct /mult_fct; set l := (- _)%Re; set l2 := (X in _ -> derivable_pt_lim _ _ X).
    have -> : l = l2; last by [].
    rewrite /l /l2 /sq_Jf -e mul_scalar_mx !mxE.
    have ringR (a c : R) : (- (c * a + a * c) = - (2 * a) * c)%Re by ring. exact: ringR.
  + rewrite /sq_Jf -raddfB mul_scalar_mx normZ dst_1.
    apply: Rmult_le_compat_r; first exact: norm_ge0.
    set a1 := y ord0 ord0; set a2 := y' ord0 ord0.
    have A (a c : R) : (Rabs (- (2 * a) - - (2 * c)) <= 2 * Rabs (a - c))%Re.
    { have -> : (- (2 * a) - - (2 * c) = - (2 * (a - c)))%Re by ring. rewrite Rabs_Ropp Rabs_mult (Rabs_pos_eq 2); lra. }
    exact: A.
- move=> y v /dst_sq_y0 hy; rewrite /sq_Jf mul_scalar_mx normZ; apply: Rmult_le_compat_r; first exact: norm_ge0.
  rewrite Rabs_left1; lra.
- move=> y /dst_sq_y0 hy; rewrite norm_1 /sq_f sc_1 Rabs_left1; nra.
Qed.

Lemma sq_solution b : [/\ sq_Y b 0 = sq_y0 b, solves_on 0 (1 / 8) (sq_f b) (sq_Y b), forall x, (0 <= x <= 1 / 8)%Re -> (dst (sq_Y b x) (sq_y0 b) <= 1)%Re &
     forall x x', (0 <= x <= 1 / 8)%Re -> (0 <= x' <= 1 / 8)%Re -> (dst (sq_f b x (sq_Y b x)) (sq_f b x' (sq_Y b x')) <= 2 * Rabs (x - x'))%Re].
Proof.
have Dv x : (0 <= x)%Re -> derivable_pt_lim (fun u => (/ (1 + u))%Re) x (- (/ (1 + x) * / (1 + x)))%Re.
{ move=> x0; have nz : (1 + x <> 0)%Re by lra.
  have h := @derivable_pt_lim_div (fct_cte 1) (fun u => (1 + u)%Re) x 0 1 (derivable_pt_lim_const 1 x) _ nz.
  have {}h := h ltac:(rewrite -[X in derivable_pt_lim _ _ X]Rplus_0_l; exact: (derivable_pt_lim_plus _ _ _ _ _ (derivable_pt_lim_const 1 x) (derivable_pt_lim_id x))).
  apply: (@dpl_ext _ _ _ _ _ (_ : derivable_pt_lim (div_fct (fct_cte 1%Re) (fun u : R => (1 + u)%Re)) x _)) => [u|].
  - by rewrite /div_fct /fct_cte /Rdiv Rmult_1_l.
  - have -> : (- (/ (1 + x) * / (1 + x)) = (0 * (1 + x) - 1 * fct_cte 1 x) / Rsqr (1 + x))%Re; last exact: h.
    rewrite /fct_cte /Rsqr; field; exact: nz. }
have ib x : (0 <= x)%Re -> (0 < / (1 + x) <= 1)%Re.
{ move=> x0; split; first by apply: Rinv_0_lt_compat; lra. rewrite -{2}Rinv_1; apply: Rinv_le_contravar; lra. }
split.
- by rewrite /sq_Y /sq_y0 ffunE Rplus_0_r Rinv_1.
- split=> [x i [x0 _]|x [x0 _] i]; rewrite (ord1 i).
  + apply: derivable_continuous_pt; exists (- (/ (1 + x) * / (1 + x)))%Re.
    apply: (@dpl_ext _ _ _ _ _ (Dv x x0)) => u; by rewrite /sq_Y sc_1.
  + rewrite /sq_f !sc_1; apply: (@dpl_ext _ _ _ _ _ (Dv x (Rlt_le _ _ x0))) => u; by rewrite /sq_Y sc_1.
- move=> x [x0 _]; rewrite dst_1 /sq_y0 ffunE !sc_1; have := ib x x0; rewrite /Rabs; case: Rcase_abs => ? ?; lra.
- move=> x x' [x0 _] [x'0 _]; rewrite dst_1 /sq_f !sc_1.
  have -> : (- (/ (1 + x) * / (1 + x)) - - (/ (1 + x') * / (1 + x')) = (/ (1 + x) * (/ (1 + x') * / (1 + x')) + / (1 + x) * / (1 + x) * / (1 + x')) * (x - x'))%Re.
  { field; lra. }
  rewrite Rabs_mult; apply: Rmult_le_compat_r; first exact: Rabs_pos.
  have [a0 a1] := ib x x0; have [b0 b1] := ib x' x'0; move: (/ (1 + x))%Re (/ (1 + x'))%Re a0 a1 b0 b1 => a b' a0 a1 b0 b1.
  have p1 : (0 <= b' * b' <= 1)%Re by nra. have p2 : (0 <= a * a <= 1)%Re by nra.
  rewrite Rabs_pos_eq; nra.
Qed.

Example C106_ex : exists N0 C, (0 < C)%Re /\ forall N t init, (N0 <= N)%N -> @even_grid 1 0 (1 / 8) N t ->
    exists st, integrate sq_f sq_Jf BackwardEuler (Direct Thomas) (nrmR 1 1) (/ 10 ^ 6) 0 100 true "zero" 2 N.+1 t sq_y0 init = inl st /\ i_warned st = [::] /\
      forall k b, (k <= N)%N -> (Rabs (i_result st k b ord0 ord0 - / (1 + t k b)) <= C * / INR N)%Re.
Proof.
have [|||||N0 [C [C0 H]]] := @C106_converges 1 1 sq_f sq_Jf (Direct Thomas) (/ 10 ^ 6) 2 sq_y0 0 (1 / 8) 1 2 4 4 2 sq_Y sq_regular _ _ _ _ _ sq_solution; try lra; first by [].
- rewrite [INR 2]/=; lra.
exists N0, C; split=> // N t init hN g; have [s [E [W D]]] := H N t 0%Re 100%N true init hN g (Rle_refl _) erefl.
exists s; split=> //; split=> // k b kN; have := D k b kN; by rewrite dst_1 /sq_Y sc_1 Rmult_0_r Rplus_0_r.
Qed.
