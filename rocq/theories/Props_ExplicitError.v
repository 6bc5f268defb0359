(** C140: the explicit strain-controlled simulation and the exact solution: the error of the lag. *)
From Coq Require Import Reals List String Lra FunctionalExtensionality.
From mathcomp Require Import all_ssreflect all_algebra.
From Verif Require Import ChunkModel ChunkSolve ChunkInst NewtonModel Ode OdeForward OdeDiff OdeReal OdeAffine RField Pipeline
  Props_Ode Props_Pipeline Props_Stress Gmres Implicit Tolerance Converge Props_Tolerance Props_Converge.
From Verif Require Interp Models Flow Slices Torch Props_Explicit.
Import GRing.Theory.
Set Implicit Arguments. Unset Strict Implicit. Unset Printing Implicit Defensive.
Local Open Scope R_scope.

(** The strain rate imposed during step k (which ends at time k); the test starts from rest. *)
Definition strain_rate (times strains : nat -> nat -> R) (b k : nat) : R :=
  if k is 0%N then 0 else (strains k b - strains k.-1 b) / (times k b - times k.-1 b).
(** Total variation of the imposed strain rate over the first k steps, the jump from rest included. *)
Fixpoint rate_variation (times strains : nat -> nat -> R) (b k : nat) : R :=
  if k is k'.+1 then rate_variation times strains b k' + Rabs (strain_rate times strains b k - strain_rate times strains b k') else 0.

Lemma variation_ge0 times strains b k : 0 <= rate_variation times strains b k.
Proof. elim: k => [|k IH] /=; [lra|have := Rabs_pos (strain_rate times strains b k.+1 - strain_rate times strains b k); rewrite /=; lra]. Qed.

(** d_k <= exp(c h_k) (d_{k-1} + h_k E + e_k): the errors of the steps add up *)
Lemma accumulate_steps (d T e : nat -> R) (nt : nat) (c E : R) : 0 <= c -> 0 <= E ->
  (forall k, (0 < k)%N -> (k < nt)%N -> T k.-1 <= T k /\ 0 <= e k.-1 <= e k /\
     d k <= exp (c * (T k - T k.-1)) * (d k.-1 + ((T k - T k.-1) * E + (e k - e k.-1)))) -> e 0%N = 0 ->
  forall k, (k < nt)%N -> d k <= exp (c * (T k - T 0%N)) * (d 0%N + (T k - T 0%N) * E + e k) /\ T 0%N <= T k.
Proof.
move=> c0 E0 H e0; elim=> [|k IH] kn.
{ rewrite !Rminus_eq_0 Rmult_0_r exp_0 e0; lra. }
have [IH1 IH2] := IH (ltnW kn); have [m1 [ee m2]] := H k.+1 (ltn0Sn k) kn; move: m1 ee m2; rewrite [k.+1.-1]/= => m1 ee m2.
split; last lra.
apply: Rle_trans m2 _.
rewrite (_ : c * (T k.+1 - T 0%N) = c * (T k.+1 - T k) + c * (T k - T 0%N)); last by ring.
rewrite exp_plus Rmult_assoc; apply: Rmult_le_compat_l; first exact: Rlt_le (exp_pos _).
have e1 : 1 <= exp (c * (T k - T 0%N)) by apply: exp_ge1; apply: Rmult_le_pos => //; lra.
have s0 : 0 <= (T k.+1 - T k) * E + (e k.+1 - e k) by have := Rmult_le_pos (T k.+1 - T k) E ltac:(lra) E0; lra.
have := Rmult_le_compat_r _ _ _ s0 e1; lra.
Qed.

(** Error of the explicit scheme: the classical Euler bound plus a term for the lag: P (how much the
    state rate changes per unit of strain rate) times the largest step times the total variation of the
    imposed strain rate. *)
Theorem C140_explicit_error (B : Models.rateform) nb nt (times strains temps : nat -> nat -> R) lm rtol atol miter throw gt n init st (b : 'I_nb)
    L P M H tol (Y : R -> 'cV[RF]_(Models.rf_n B)) :
  times_increase nb nt times ->
  @solve_strain B nb nt times strains temps ForwardEuler lm rtol atol miter throw gt n init = inl st -> i_warned st = [::] ->
  tol_bound (strain_f (B := B) nt times strains temps) ForwardEuler rtol atol gt n nt (time_table nb times) (i_result st) b tol -> 0 <= tol ->
  0 <= L -> 0 <= P -> 0 <= M -> 0 <= H ->
  let rate (k : nat) (y : 'cV[RF]_(Models.rf_n B)) (e : R) : 'cV[RF]_(Models.rf_n B) := (\col_i (Models.rf_rate B (times k b) (to_vec y) e (temps k b) i : RF))%R in
  let g := driven (B := B) times strains temps b in
  (forall k, (0 < k)%N -> (k < nt)%N -> times k b - times k.-1 b <= H /\ lipschitz L (g k (times k.-1 b)) /\
     (forall y e e', dst (rate k.-1 y e) (rate k.-1 y e') <= P * Rabs (e - e')) /\
     solves_on (times k.-1 b) (times k b) (g k) Y /\
     forall x, times k.-1 b < x < times k b -> dst (g k x (Y x)) (g k (times k.-1 b) (Y (times k.-1 b))) <= M * (x - times k.-1 b)) ->
  forall k, (k < nt)%N ->
    dst (i_result st k b) (Y (times k b)) <=
      exp (L * (times k b - times 0%N b)) *
        (norm (Y (times 0%N b)) + (times k b - times 0%N b) * (M * H) + (P * H * rate_variation times strains b k + INR k * tol)).
Proof.
move=> G S W T t0 L0 P0 M0 H0 rate g A k kn.
have [_ [e0 _]] := integrate_writes S.
have -> : norm (Y (times 0%N b)) = dst (i_result st 0%N b) (Y (times 0%N b)) by rewrite e0 /dst ffunE sub0r normN.
have bn : (b < nb)%N by [].
have MH : 0 <= M * H by exact: Rmult_le_pos.
have PH : 0 <= P * H by exact: Rmult_le_pos.
apply: (proj1 (@accumulate_steps (fun k => dst (i_result st k b) (Y (times k b))) (fun k => times k b)
   (fun k => P * H * rate_variation times strains b k + INR k * tol) nt L (M * H) L0 MH _ _ k kn)); last first.
{ by rewrite /=; ring. }
move=> j j0 jn; have [hH [li [PP [so sm]]]] := A j j0 jn.
have h0 := @dt_pos nb nt times j b bn G j0 jn.
set h := times j b - times j.-1 b in h0 hH *.
have V0 := variation_ge0 times strains b j.-1.
have Vs : rate_variation times strains b j = rate_variation times strains b j.-1 + Rabs (strain_rate times strains b j - strain_rate times strains b j.-1).
{ by case: j j0 {jn hH li PP so sm h h0 V0}. }
set J := Rabs (strain_rate times strains b j - strain_rate times strains b j.-1) in Vs.
have J0 : 0 <= J by exact: Rabs_pos.
have jS : INR j = INR j.-1 + 1 by rewrite -S_INR prednK.
have it := Rmult_le_pos _ _ (pos_INR j.-1) t0.
have PHJ : 0 <= P * H * J by exact: Rmult_le_pos.
have PHV : 0 <= P * H * rate_variation times strains b j.-1 by exact: Rmult_le_pos.
split; first by move: h0; rewrite /h; lra.
split.
{ split; first lra. rewrite Vs jS; lra. }
have jp : (j.-1 < nt)%N by apply: leq_ltn_trans (leq_pred _) jn.
have n2 : (1 < nt)%N by apply: leq_ltn_trans jn.
have lagE : table_rates times strains j.-1 b = strain_rate times strains b j.-1.
{ case: (j.-1) jp => [//|q] qn; exact: (rates_knot strains bn G (ltn0Sn q) qn). }
have gE y : g j (times j.-1 b) y = rate j.-1 y (strain_rate times strains b j).
{ rewrite /g /driven /rate; apply/colP => i; rewrite !mxE.
  have -> : strain_rate times strains b j = (strains j b - strains j.-1 b) / (times j b - times j.-1 b) by case: j j0 {jn hH li PP so sm h h0 V0 Vs J J0 jS it PHJ PHV jp lagE}.
  by rewrite (Rminus_diag_eq (times j.-1 b) _ erefl) [0 / _]/Rdiv Rmult_0_l Rmult_0_r Rplus_0_r. }
have fE y : strain_f (B := B) nt times strains temps b (time_table nb times j.-1 b) y = rate j.-1 y (strain_rate times strains b j.-1).
{ by rewrite /strain_f /rate ffunE; apply/colP => i; rewrite !mxE !(fun v => @interp_knot nb nt times v j.-1 b n2 bn G jp) lagE. }
have res : norm (i_result st j b - i_result st j.-1 b - (h : RF) *: g j (times j.-1 b) (i_result st j.-1 b))%R <= h * (P * J) + tol.
{ have := run_residual S W T j0 jn; rewrite /step_res !ffunE [X in (X <= _)%Re -> _](_ : _ =
     norm (i_result st j b - i_result st j.-1 b - (h : RF) *: rate j.-1 (i_result st j.-1 b) (strain_rate times strains b j.-1))%R); last first.
  { by rewrite -fE !ffunE. }
  move=> Q; rewrite gE.
  set ra := rate j.-1 (i_result st j.-1 b) (strain_rate times strains b j); set rb := rate j.-1 (i_result st j.-1 b) (strain_rate times strains b j.-1) in Q *.
  have -> : (i_result st j b - i_result st j.-1 b - (h : RF) *: ra)%R = ((i_result st j b - i_result st j.-1 b - (h : RF) *: rb) + (h : RF) *: (rb - ra))%R.
  { by rewrite scalerBr addrA subrK. }
  apply: Rle_trans (norm_triangle _ _) _; rewrite normZ (Rabs_pos_eq _ (Rlt_le _ _ h0)).
  have := PP (i_result st j.-1 b) (strain_rate times strains b j.-1) (strain_rate times strains b j).
  rewrite -/rb -/ra /dst (Rabs_minus_sym (strain_rate times strains b j.-1)) -/J => q.
  have := Rmult_le_compat_l _ _ _ (Rlt_le _ _ h0) q; move: Q; rewrite -/rb; lra. }
have dh : h = times j b - times j.-1 b by [].
have xh x : times j.-1 b < x < times j b -> x - times j.-1 b <= H by move=> Px; lra.
have Tr := truncation (_ : times j.-1 b <= times j b) so (fun x Px => Rle_trans _ _ _ (sm x Px) (Rmult_le_compat_l M _ H M0 (xh x Px))).
have hl0 : 0 <= h * L by apply: Rmult_le_pos; lra.
have := @explicit_step _ (g j (times j.-1 b)) h L (exp (L * h)) (i_result st j b) (Y (times j b)) (i_result st j.-1 b) (Y (times j.-1 b))
  (h * (P * J) + tol) (h * (M * H)) (Rlt_le _ _ h0) li _ _ res (Tr _).
have x1 : 1 <= exp (L * h) by apply: exp_ge1; lra.
have x2 : 1 + h * L <= exp (L * h) by have := exp_ineq1_le (L * h); lra.
have x3 : times j.-1 b <= times j b by move: h0; rewrite /h; lra.
move=> /(_ x1 x2 x3) Q; apply: Rle_trans Q _; apply: Rmult_le_compat_l; first exact: Rlt_le (exp_pos _).
have hPJ : h * (P * J) <= P * H * J.
{ have := Rmult_le_compat_r (P * J) _ _ (Rmult_le_pos _ _ P0 J0) hH; lra. }
rewrite Vs jS; lra.
Qed.
Print Assumptions C140_explicit_error.

(** Viscoplastic models without internal variables whose flow rate is Lipschitz in the stress (with
    constant Lf) and does not depend on the strain rate: the stress error.  [s]: the exact stress history. *)
Theorem C140_viscoplastic_stress_error (E0 Lf : R) (F : Flow.flowrule) nb nt (times strains temps : nat -> nat -> R) lm rtol atol miter throw gt n init st (b : 'I_nb)
    M H tol (s : R -> R) :
  let B := Models.inelastic (fun _ => E0) F in
  Flow.fl_nhist F = 0%N -> Models.rate_free F -> 0 <= E0 -> 0 <= Lf ->
  (forall h t T e s1 s2, Rabs (Flow.fl_rate F s1 h t T e - Flow.fl_rate F s2 h t T e) <= Lf * Rabs (s1 - s2)) ->
  times_increase nb nt times ->
  @solve_strain B nb nt times strains temps ForwardEuler lm rtol atol miter throw gt n init = inl st -> i_warned st = [::] ->
  tol_bound (strain_f (B := B) nt times strains temps) ForwardEuler rtol atol gt n nt (time_table nb times) (i_result st) b tol -> 0 <= tol ->
  0 <= M -> 0 <= H ->
  let rate k x sg := let e := (strains k b - strains k.-1 b) / (times k b - times k.-1 b) in
    let T := temps k.-1 b + (temps k b - temps k.-1 b) * ((x - times k.-1 b) / (times k b - times k.-1 b)) in
    E0 * (e - Flow.fl_rate F sg (fun _ => 0) x T e) in
  (forall k, (0 < k)%N -> (k < nt)%N -> times k b - times k.-1 b <= H /\
     (forall x, times k.-1 b <= x <= times k b -> continuity_pt s x) /\
     (forall x, times k.-1 b < x < times k b -> derivable_pt_lim s x (rate k x (s x)) /\
        Rabs (rate k x (s x) - rate k (times k.-1 b) (s (times k.-1 b))) <= M * (x - times k.-1 b))) ->
  forall k, (k < nt)%N ->
    Rabs (entry st k b 0%N - s (times k b)) <= exp (E0 * Lf * (times k b - times 0%N b)) *
      (Rabs (s (times 0%N b)) + (times k b - times 0%N b) * (M * H) + (E0 * H * rate_variation times strains b k + INR k * tol)).
Proof.
move=> B F0 Rfree E0p L0 lip G S W T t0 M0 H0 rate A k kn.
have m1 : Models.rf_n B = 1%N by rewrite /B /= F0.
pose i0 : 'I_(Models.rf_n B) := Ordinal (ltn0Sn _).
pose Y : R -> 'cV[RF]_(Models.rf_n B) := fun x => (\col_i (s x : RF))%R.
have iE (i : 'I_(Models.rf_n B)) : i = i0 by apply: val_inj; case: i => [[|i] hi] //=; exfalso; move: hi; rewrite m1.
have hz (y : 'cV[RF]_(Models.rf_n B)) : Slices.slice 1 (to_vec y) = (fun _ => 0).
{ apply: functional_extensionality => i; rewrite /Slices.slice /to_vec insubF //; apply/negbTE; rewrite -leqNgt m1; exact: leq_addr. }
have drE j x y i : driven times strains temps b j x y i ord0 = rate j x (y i0 ord0).
{ by rewrite mxE (iE i) /rate /= /Slices.cat /= hz (to_vecE y i0). }
have dE (u v : 'cV[RF]_(Models.rf_n B)) : dst u v = Rabs (u i0 ord0 - v i0 ord0) by rewrite /dst (norm_single _ i0 m1) !mxE.
have := @C140_explicit_error B nb nt times strains temps lm rtol atol miter throw gt n init st b (E0 * Lf) E0 M H tol Y G S W T t0
  (Rmult_le_pos _ _ E0p L0) E0p M0 H0.
cbv zeta => Q.
have fin : dst (i_result st k b) (Y (times k b)) <= exp (E0 * Lf * (times k b - times 0%N b)) * (norm (Y (times 0%N b)) + (times k b - times 0%N b) * (M * H) + (E0 * H * rate_variation times strains b k + INR k * tol)); last first.
{ move: fin; rewrite dE (norm_single _ i0 m1) !mxE -(to_vecE (i_result st k b) i0); apply. }
apply: Q => //.
move=> j j0 jn; have [h [C D]] := A j j0 jn; split=> //; split.
- move=> u v; rewrite !dE !drE /rate.
  set e := (_ / _)%Re. set TT := (_ + _)%Re.
  rewrite -Rmult_minus_distr_l Rabs_mult (Rabs_pos_eq _ E0p) Rmult_assoc; apply: Rmult_le_compat_l => //.
  rewrite (_ : forall a c d : R, a - c - (a - d) = d - c); last by move=> *; ring.
  rewrite (Rabs_minus_sym (u i0 ord0)); exact: lip.
- split; [|split; [split|]].
  + move=> y e e'; rewrite dE !mxE /= /Slices.cat /= hz.
    have [<- _] := Rfree (to_vec y 0%N) (fun _ => 0) (times j.-1 b) (temps j.-1 b) e' e.
    rewrite -Rmult_minus_distr_l Rabs_mult (Rabs_pos_eq _ E0p); apply: Req_le; congr (_ * Rabs _); ring.
  + move=> x i P; rewrite (_ : (fun u => Y u i ord0) = s); first exact: C. by apply: functional_extensionality => u; rewrite mxE.
  + move=> x P i; rewrite drE mxE; have [D1 _] := D x P.
    rewrite (_ : (fun u => Y u i 0%R) = s) //. by apply: functional_extensionality => u; rewrite mxE.
  + move=> x P; rewrite dE !drE !mxE; exact: (proj2 (D x P)).
Qed.
Print Assumptions C140_viscoplastic_stress_error.

(** ** A linear viscosity (n = 1) pulled at a constant strain rate r, in even steps d: the explicit
    simulation against the exact stress eta r (1 - exp(-E t / eta)) *)
Definition maxwell (E0 eta0 : R) := Models.inelastic (fun _ => E0) (Flow.perfect (fun _ => 1) (fun _ => eta0)).
Lemma maxwell_rate eta0 s h t T e : 0 < eta0 -> Flow.fl_rate (Flow.perfect (fun _ => 1) (fun _ => eta0)) s h t T e = s / eta0.
Proof.
move=> p; cbn [Flow.perfect Flow.fl_rate].
case: (Rtotal_order s 0) => [n|[->|n]].
- rewrite Torch.pow0_pos; last by apply: Rdiv_lt_0_compat => //; apply: Rabs_pos_lt; lra.
  rewrite Torch.tsign_neg // Rabs_left // Rpower_1; [field; lra|apply: Rdiv_lt_0_compat; lra].
- rewrite Torch.tsign_0 /Rdiv; ring.
- rewrite Torch.pow0_pos; last by apply: Rdiv_lt_0_compat => //; apply: Rabs_pos_lt; lra.
  rewrite Torch.tsign_pos // Rabs_right; last lra. rewrite Rpower_1; [field; lra|apply: Rdiv_lt_0_compat; lra].
Qed.
Lemma even_rate (r d : R) b k : 0 < d -> strain_rate (fun k _ => INR k * d) (fun k _ => r * (INR k * d)) b k = if k is 0%N then 0 else r.
Proof. move=> dp; case: k => [//|k]; rewrite /strain_rate [k.+1.-1]/= S_INR; field; lra. Qed.
Lemma even_variation (r d : R) b k : 0 < d -> rate_variation (fun k _ => INR k * d) (fun k _ => r * (INR k * d)) b k <= Rabs r.
Proof.
move=> dp; set tt := fun k _ => _; set ss := fun k _ => _.
have SR j : strain_rate tt ss b j = if j is 0%N then 0 else r by exact: even_rate.
have VS j : rate_variation tt ss b j.+1 = rate_variation tt ss b j + Rabs (strain_rate tt ss b j.+1 - strain_rate tt ss b j) by [].
case: k => [|k]; first exact: Rabs_pos.
elim: k => [|k IH].
- rewrite VS !SR [rate_variation _ _ _ 0]/= Rplus_0_l Rminus_0_r; lra.
- apply: Rle_trans IH; rewrite VS !SR Rminus_diag_eq // Rabs_R0; lra.
Qed.

Theorem C140_maxwell_error (E0 eta0 r d : R) nb nt temps lm miter throw gt n init st :
  0 < E0 -> 0 < eta0 -> 0 < d ->
  @solve_strain (maxwell E0 eta0) nb nt (fun k _ => INR k * d) (fun k _ => r * (INR k * d)) temps ForwardEuler lm 0 0 miter throw gt n init = inl st -> i_warned st = [::] ->
  forall (b : 'I_nb) k, (k < nt)%N ->
    Rabs (entry st k b 0%N - eta0 * r * (1 - exp (- (E0 * (INR k * d) / eta0)))) <=
      exp (E0 / eta0 * (INR k * d)) * (E0 * Rabs r * (1 + E0 / eta0 * (INR k * d)) * d).
Proof.
move=> Ep ep dp S W b k kn.
pose s x := eta0 * r * (1 - exp (- (E0 * x / eta0))).
have ei : 0 < / eta0 by exact: Rinv_0_lt_compat.
have G : times_increase nb nt (fun k _ => INR k * d).
{ by move=> b' _ i j ij _; apply: Rmult_lt_compat_r => //; apply: lt_INR. }
have st0 j : (0 < j)%N -> INR j * d - INR j.-1 * d = d.
{ by case: j => [//|j] _; rewrite [j.+1.-1]/= S_INR; ring. }
have rE j : (0 < j)%N -> (r * (INR j * d) - r * (INR j.-1 * d)) / (INR j * d - INR j.-1 * d) = r.
{ move=> j0; rewrite -Rmult_minus_distr_l st0 //; field; lra. }
have ds x : derivable_pt_lim s x (E0 * (r - s x / eta0)).
{ have Q := derivable_pt_lim_comp (fun u => - (E0 * u / eta0)) exp x (- (E0 / eta0)) (exp (- (E0 * x / eta0))).
  have Q1 : derivable_pt_lim (fun u => - (E0 * u / eta0)) x (- (E0 / eta0)).
  { have := derivable_pt_lim_scal id (- (E0 / eta0)) x 1 (derivable_pt_lim_id x); rewrite Rmult_1_r.
    rewrite (_ : mult_real_fct (- (E0 / eta0)) id = (fun u => - (E0 * u / eta0))) //.
    apply: functional_extensionality => u; rewrite /mult_real_fct /id; field; lra. }
  have Q2 := Q Q1 (derivable_pt_lim_exp _).
  have Q3 := derivable_pt_lim_scal _ (eta0 * r) x _ (derivable_pt_lim_minus _ _ x 0 _ (derivable_pt_lim_const 1 x) Q2).
  have -> : E0 * (r - s x / eta0) = eta0 * r * (0 - exp (- (E0 * x / eta0)) * - (E0 / eta0)) by rewrite /s; field; lra.
  exact: Q3. }
have lipF h t T e s1 s2 : Rabs (Flow.fl_rate (Flow.perfect (fun _ => 1) (fun _ => eta0)) s1 h t T e - Flow.fl_rate (Flow.perfect (fun _ => 1) (fun _ => eta0)) s2 h t T e) <= / eta0 * Rabs (s1 - s2).
{ rewrite !maxwell_rate // /Rdiv -Rmult_minus_distr_r Rabs_mult (Rabs_pos_eq _ (Rlt_le _ _ ei)); lra. }
have := @C140_viscoplastic_stress_error E0 (/ eta0) (Flow.perfect (fun _ => 1) (fun _ => eta0)) nb nt (fun k _ => INR k * d) (fun k _ => r * (INR k * d)) temps
  lm 0 0 miter throw gt n init st b (E0 * Rabs r * (E0 / eta0)) d 0 s erefl (@Models.rate_free_perfect _ _) (Rlt_le _ _ Ep) (Rlt_le _ _ ei) lipF G S W
  (tol_bound_abs _ _ _ _ _ _ _ _ (Rle_refl 0)) (Rle_refl _) _ (Rlt_le _ _ dp).
cbv zeta => Q.
have M0 : 0 <= E0 * Rabs r * (E0 / eta0).
{ apply: Rmult_le_pos; first by apply: Rmult_le_pos; [lra|exact: Rabs_pos]. apply: Rlt_le; exact: Rdiv_lt_0_compat. }
have A : forall j, (0 < j)%N -> (j < nt)%N -> INR j * d - INR j.-1 * d <= d /\
  (forall x, INR j.-1 * d <= x <= INR j * d -> continuity_pt s x) /\
  (forall x, INR j.-1 * d < x < INR j * d -> derivable_pt_lim s x (E0 * (r - s x / eta0)) /\
     Rabs (E0 * (r - s x / eta0) - E0 * (r - s (INR j.-1 * d) / eta0)) <= E0 * Rabs r * (E0 / eta0) * (x - INR j.-1 * d)).
{ move=> j j0 jn; split; first by rewrite st0 //; lra.
  split=> [x _|x P]; first by apply: derivable_continuous_pt; exists (E0 * (r - s x / eta0)); exact: ds.
  split; first exact: ds.
  have u0 : 0 <= INR j.-1 * d by apply: Rmult_le_pos; [exact: pos_INR|lra].
  move: (INR j.-1 * d) P u0 => u P u0.
  have c0 : 0 <= E0 / eta0 by apply: Rlt_le; exact: Rdiv_lt_0_compat.
  have sE y : E0 * (r - s y / eta0) = E0 * r * exp (- (E0 / eta0 * y)).
  { rewrite /s (_ : E0 * y / eta0 = E0 / eta0 * y); last by field; lra. field; lra. }
  rewrite !sE -Rmult_minus_distr_l !Rabs_mult (Rabs_pos_eq E0) ?Rmult_assoc; last lra.
  apply: Rmult_le_compat_l; first lra. apply: Rmult_le_compat_l; first exact: Rabs_pos.
  have pe y : 0 <= y -> 0 <= E0 * (/ eta0 * y) by move=> y0; apply: Rmult_le_pos; [lra|apply: Rmult_le_pos; lra].
  apply: Rle_trans (exp_neg_lip (pe x ltac:(lra)) (pe u u0)) _.
  have -> : E0 * (/ eta0 * x) - E0 * (/ eta0 * u) = E0 * (/ eta0 * (x - u)) by ring.
  rewrite Rabs_pos_eq; [lra|apply: pe; lra]. }
have := Q M0 _ k kn; rewrite -/(s (INR k * d)) => {}Q.
apply: Rle_trans (Q _) _.
{ move=> j j0 jn; have [A1 [A2 A3]] := A j j0 jn; split; [exact: A1|split; [exact: A2|]].
  move=> x P; rewrite rE // !maxwell_rate //; exact: A3. }
have s0 : s (INR 0 * d) = 0 by rewrite /s [INR 0]/= Rmult_0_l Rmult_0_r /Rdiv Rmult_0_l Ropp_0 exp_0; ring.
rewrite s0 Rabs_R0 [INR 0]/= Rmult_0_l Rminus_0_r.
apply: Rmult_le_compat_l; first exact: Rlt_le (exp_pos _).
have V := @even_variation r d b k dp; have Ed : 0 <= E0 * d by apply: Rmult_le_pos; lra.
have := Rmult_le_compat_l _ _ _ Ed V; lra.
Qed.
Print Assumptions C140_maxwell_error.

(** Refining the steps: any accuracy is reached, over any duration tf. *)
Theorem C140_maxwell_converges (E0 eta0 r tf eps : R) : 0 < E0 -> 0 < eta0 -> 0 <= tf -> 0 < eps ->
  exists d0, 0 < d0 /\ forall d nb nt temps lm miter throw gt n init st, 0 < d <= d0 ->
    @solve_strain (maxwell E0 eta0) nb nt (fun k _ => INR k * d) (fun k _ => r * (INR k * d)) temps ForwardEuler lm 0 0 miter throw gt n init = inl st -> i_warned st = [::] ->
    forall (b : 'I_nb) k, (k < nt)%N -> INR k * d <= tf ->
      Rabs (entry st k b 0%N - eta0 * r * (1 - exp (- (E0 * (INR k * d) / eta0)))) <= eps.
Proof.
move=> Ep ep t0 e0.
have c0 : 0 <= E0 / eta0 by apply: Rlt_le; exact: Rdiv_lt_0_compat.
pose C := exp (E0 / eta0 * tf) * (E0 * Rabs r * (1 + E0 / eta0 * tf)) + 1.
have C1 : 0 <= exp (E0 / eta0 * tf) * (E0 * Rabs r * (1 + E0 / eta0 * tf)).
{ apply: Rmult_le_pos; first exact: Rlt_le (exp_pos _). apply: Rmult_le_pos; last by have := Rmult_le_pos _ _ c0 t0; lra.
  by apply: Rmult_le_pos; [lra|exact: Rabs_pos]. }
have Cp : 0 < C by rewrite /C; lra.
exists (eps / C); split; first exact: Rdiv_lt_0_compat.
move=> d nb nt temps lm miter throw gt n init st [dp dd] S W b k kn kt.
apply: Rle_trans (C140_maxwell_error Ep ep dp S W b kn) _.
have u0 : 0 <= INR k * d by apply: Rmult_le_pos; [exact: pos_INR|lra].
move: (INR k * d) u0 kt => u u0 kt.
have cu : E0 / eta0 * u <= E0 / eta0 * tf by exact: Rmult_le_compat_l.
have cu0 : 0 <= E0 / eta0 * u by exact: Rmult_le_pos.
have Er : 0 <= E0 * Rabs r by apply: Rmult_le_pos; [lra|exact: Rabs_pos].
have h1 : exp (E0 / eta0 * u) * (E0 * Rabs r * (1 + E0 / eta0 * u) * d) <= exp (E0 / eta0 * tf) * (E0 * Rabs r * (1 + E0 / eta0 * tf) * d).
{ apply: Rmult_le_compat; [exact: Rlt_le (exp_pos _)| |exact: exp_le|].
  - apply: Rmult_le_pos; last lra. apply: Rmult_le_pos => //; lra.
  - apply: Rmult_le_compat_r; first lra. apply: Rmult_le_compat_l => //; lra. }
apply: Rle_trans h1 _.
have := Rmult_le_compat_l C _ _ (Rlt_le _ _ Cp) dd; rewrite (_ : C * (eps / C) = eps); last by field; lra.
have : C * d = exp (E0 / eta0 * tf) * (E0 * Rabs r * (1 + E0 / eta0 * tf) * d) + d by rewrite /C; ring.
lra.
Qed.
Print Assumptions C140_maxwell_converges.

(** The lag term cannot be improved: an elastic test at constant strain rate is off by exactly
    E0 (P) times d (H) times |r| (the variation of the strain rate), from the first step on. *)
Theorem C140_lag_is_sharp (E0 r d : R) nb nt temps lm miter throw gt n init st :
  0 <= E0 -> 0 < d ->
  @solve_strain (Models.inelastic (fun _ => E0) Props_Pipeline.no_flow) nb nt (fun k _ => INR k * d) (fun k _ => r * (INR k * d)) temps
    ForwardEuler lm 0 0 miter throw gt n init = inl st -> i_warned st = [::] ->
  forall (b : 'I_nb) k, (0 < k)%N -> (k < nt)%N ->
    Rabs (entry st k b 0%N - E0 * (r * (INR k * d))) = E0 * d * Rabs r.
Proof.
move=> Ep dp S W b [//|k] _ kn.
have := @Props_Explicit.C93_elastic_lag (fun _ => E0) Props_Pipeline.no_flow E0 d nb nt _ _ temps lm miter throw gt n init st dp _ _ _ S W b k kn => ->.
- rewrite S_INR (_ : E0 * (r * (INR k * d) - r * (INR 0 * d)) - E0 * (r * ((INR k + 1) * d)) = - (E0 * d * r)); last by rewrite /=; ring.
  rewrite Rabs_Ropp Rabs_mult (Rabs_pos_eq (E0 * d)) //; apply: Rmult_le_pos; lra.
- by move=> j b' _ _; rewrite [INR 0]/=; ring.
- by [].
- by [].
Qed.
Print Assumptions C140_lag_is_sharp.

(** Such runs exist for every step, block size (below the iteration limit) and number of times. *)
Example C140_ex (d : R) nb nt n : 0 < d -> (0 < nt)%N -> (0 < n)%N -> (n < 100)%N -> exists st,
  @solve_strain (maxwell 200 100) nb nt (fun k _ => INR k * d) (fun k _ => 3 * (INR k * d)) (fun _ _ => 0)
    ForwardEuler (Direct Thomas) 0 0 100 true "zero" n (fun _ => @zeroV RF nb 1) = inl st /\ i_warned st = [::] /\
  forall (b : 'I_nb) k, (k < nt)%N ->
    Rabs (entry st k b 0%N - 100 * 3 * (1 - exp (- (200 * (INR k * d) / 100)))) <= exp (200 / 100 * (INR k * d)) * (200 * Rabs 3 * (1 + 200 / 100 * (INR k * d)) * d).
Proof.
move=> dp nt0 n0 n100.
have [st [S W]] := @fe_never_fails nb 1 (strain_f (B := maxwell 200 100) nt (fun k _ => INR k * d) (fun k _ => 3 * (INR k * d)) (fun _ _ => 0))
  (strain_J (B := maxwell 200 100) nt (fun k _ => INR k * d) (fun k _ => 3 * (INR k * d)) (fun _ _ => 0)) (Direct Thomas) 0 0 100 true "zero" n nt
  (time_table nb (fun k _ => INR k * d)) (@zeroV RF nb 1) (fun _ => @zeroV RF nb 1) (Rle_refl _) n0 n100 nt0 (or_introl erefl).
exists st; split; first exact: S.
split; first exact: W.
have p1 : 0 < 200 by lra. have p2 : 0 < 100 by lra.
exact: (C140_maxwell_error p1 p2 dp S W).
Qed.
