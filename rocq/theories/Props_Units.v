(** C130: changing the units of stress and time changes nothing but the numbers, if the absolute tolerance is converted too. *)
From Coq Require Import Reals List String Lra.
From mathcomp Require Import all_ssreflect all_algebra.
From Verif Require Import ChunkModel ChunkSolve ChunkInst NewtonModel Ode OdeForward OdeReal OdeBlock OdeSym OdeScale RField Pipeline PipelineBoth PipelineSym Props_Stress Props_Clock Props_RateIndep Tolerance Props_Tolerance Props_Pipeline Props_Causal Props_FullModel.
From Verif Require Interp Models Hardening Damage Flow StressSym Units Slices Props_Symmetry.
Import GRing.Theory.
Set Implicit Arguments. Unset Strict Implicit. Unset Printing Implicit Defensive.
Local Open Scope ring_scope.
Delimit Scope R_scope with Re.

(** Two runs, the second one in a unit of stress that makes the numbers c times larger: the same error, or results that differ by the factor and the same warnings. *)
Definition runs_in_units (c : R) (B B' : Models.rateform) nb nt (x : istate RF nb (Models.rf_n B) + ode_error) (x' : istate RF nb (Models.rf_n B') + ode_error) : Prop :=
  match x, x' with
  | inl st, inl st' => (forall k (b : 'I_nb) i, (k < nt)%N -> (i < Models.rf_n B)%N -> entry st' k b i = (c * entry st k b i)%Re) /\ i_warned st' = i_warned st
  | inr e, inr e' => e = e'
  | _, _ => False
  end.
(** The temperatures of a test. *)
Definition occurs nb nt (temps : nat -> nat -> R) (T : R) : Prop := exists k b, [/\ (k < nt)%N, (b < nb)%N & T = temps k b].

Section Conv.
Variables (n_ : nat) (rt rt' : R -> Slices.vec -> R -> R -> Slices.vec) (jc jc' : R -> Slices.vec -> R -> R -> Slices.mat) (de de' : R -> Slices.vec -> R -> R -> Slices.vec).
Let B := Models.RateForm n_ rt jc de.
Let B' := Models.RateForm n_ rt' jc' de'.
Variables (nb nt : nat) (c q : R) (times times' data data' temps : nat -> nat -> R).
Hypotheses (Hc : (0 < c)%Re) (Hq : (0 < q)%Re) (U : Units.rf_unit c q (occurs nb nt temps) B B').
Hypotheses (I : times_increase nb nt times) (I' : times_increase nb nt times').
Hypothesis Hdt : forall k (b : 'I_nb), (k.+1 < nt)%N -> (times' k.+1 b - times' k b = q * (times k.+1 b - times k b))%Re.
Hypothesis Hde : forall k (b : 'I_nb), (k.+1 < nt)%N -> (data' k.+1 b - data' k b = data k.+1 b - data k b)%Re.
Notation G := (fun (_ : nat) ts y => (func_rate (strain_f (B := B) (nb := nb) nt times data temps) ts y, func_jac (strain_J (B := B) (nb := nb) nt times data temps) ts y)).
Notation G' := (fun (_ : nat) ts y => (func_rate (strain_f (B := B') (nb := nb) nt times' data' temps) ts y, func_jac (strain_J (B := B') (nb := nb) nt times' data' temps) ts y)).
Lemma rates_conv r (b : 'I_nb) : (r < nt)%N -> table_rates times' data' r b = (/ q * table_rates times data r b)%Re.
Proof.
case: r => [|r] rn; first by rewrite /= Rmult_0_r.
rewrite (rates_div _ _ I' rn) (rates_div _ _ I rn) Hdt // Hde //; have := inc_dt b I rn; move=> d; field; lra.
Qed.
Section Rows.
Variables (k len : nat).
Hypotheses (k0 : (0 < k)%N) (kn : (k < nt)%N) (kl : (k + len <= nt)%N).
Notation T := (block_times (time_table nb times (k - 1)%N) (fun j => time_table nb times (k + j)%N)).
Notation T' := (block_times (time_table nb times' (k - 1)%N) (fun j => time_table nb times' (k + j)%N)).
Lemma conv_work s : @scaled_work nb n_ c s G G' len T T'.
Proof.
move=> Y Y' HY j jl b i.
have il : (i <= len)%N by rewrite /i; case: (s) => //; exact: ltnW.
have rn := @rowT nt k len k0 kl i il.
have rj : ((k.-1 + j).+1 < nt)%N by rewrite -addnS; exact: (@rowT nt k len k0 kl).
have Ed : tdiff T' j b = (q * tdiff T j b)%Re by rewrite !tdiff_at // addnS Hdt.
have R1 (tt : nat -> nat -> R) (v : nat -> nat -> R) : times_increase nb nt tt -> interp_at nt tt v b (block_times (time_table nb tt (k - 1)%N) (fun j => time_table nb tt (k + j)%N) i b) = v (k.-1 + i)%N b.
{ move=> It; rewrite T_knot //; apply: (@interp_knot nb) => //; exact: leq_ltn_trans k0 kn. }
have EY : Y' i b = (c : RF) *: Y i b := HY i il b.
have Ev i' : (i' < n_)%coq_nat -> @to_vec B' (Y' i b) i' = (c * @to_vec B (Y i b) i')%Re.
{ move=> /ltP h; have := @to_vecE B' (Y' i b) (Ordinal h); have := @to_vecE B (Y i b) (Ordinal h) => /= -> ->. by rewrite EY mxE. }
have [_ L] := U; have [L1 L2] := L (to_vec (B := B) (Y i b)) (to_vec (B := B') (Y' i b)) (T i b) (T' i b) (table_rates times data (k.-1 + i)%N b) (temps (k.-1 + i)%N b)
  (ex_intro _ _ (ex_intro _ _ (And3 rn (ltn_ord b) erefl))) Ev.
have Fl (u x : R) : (q * u * (c * / q * x) = c * (u * x))%Re by field; lra.
have Fl' (u x : R) : (q * u * (/ q * x) = u * x)%Re by field; lra.
split; rewrite /func_rate /func_jac Ed [X in _ *: X]ffunE ?[X in _ *: (_ *: X)]ffunE ?[X in _ = _ *: X]ffunE /strain_f /strain_J !R1 // rates_conv //.
- apply/colP => p; rewrite !mxE (L1 p (elimT ltP (ltn_ord p))); exact: Fl.
- apply/matrixP => p p'; rewrite !mxE (L2 p p' (elimT ltP (ltn_ord p)) (elimT ltP (ltn_ord p'))); exact: Fl'.
Qed.
End Rows.
Lemma conv_run s lm rtol atol miter throw gt n init init' :
  runs_in_units c nt (@solve_strain B nb nt times data temps s lm rtol atol miter throw gt n init) (@solve_strain B' nb nt times' data' temps s lm rtol (c * atol) miter throw gt n init').
Proof.
have C x x' : rel_sum (@scl_upto nb n_ c nt nt) x x' -> @runs_in_units c B B' nb nt x x'.
{ case: x => [st|e]; case: x' => [st'|e'] //= -[H [_ W]]; split=> // k b i kn im.
  by rewrite -![entry _ k b i]/(entry _ k b (Ordinal im)) (@entryE B' nb st' k b (Ordinal im)) (@entryE B nb st k b (Ordinal im)) (H k kn kn b) mxE. }
apply: C; rewrite /solve_strain; case: n => [|n]; first by rewrite /integrate /integrateG; case: eqP.
refine (@integrate_scl nb n_ c Hc G G' s lm rtol atol miter throw gt n.+1 nt (time_table nb times) (time_table nb times') (ltn0Sn n) _ _ _ init init' _).
- by move=> k k0 kn; exact: (@conv_work k _ k0 kn (slice_in _ kn) s).
- by move=> b; rewrite !ffunE scaler0.
Qed.
End Conv.

Section Claims.
Variables (c q : R) (nb nt : nat) (times data temps : nat -> nat -> R).
Variables (s : scheme) (lm : lin_method) (rtol atol : R) (miter : nat) (throw : bool) (gt : string) (n : nat).
(** Stresses c times larger numbers, times q times larger; each test may also have its own origin of time and strain. *)
Theorem C130_strain_control B B' (t0 e0 : nat -> R) init init' : (0 < c)%Re -> (0 < q)%Re -> times_increase nb nt times ->
  Units.model_units c q (occurs nb nt temps) B B' ->
  runs_in_units c nt (@solve_strain B nb nt times data temps s lm rtol atol miter throw gt n init)
    (@solve_strain B' nb nt (fun k b => t0 b + q * times k b)%Re (fun k b => e0 b + data k b)%Re temps s lm rtol (c * atol) miter throw gt n init').
Proof.
move=> Hc Hq I /(Units.model_unit c q _ Hc Hq); case: B init => n1 rt jc de init; case: B' init' => n2 rt' jc' de' init' U.
have e : n2 = n1 by have [] := U. subst n2.
apply: (@conv_run n1 rt rt' jc jc' de de' nb nt c q times _ data _ temps Hc Hq U I).
- move=> b bn i j ij jn; have := I b bn i j ij jn => L; have := Rmult_lt_compat_l q _ _ Hq L; lra.
- move=> k b _; ring.
- move=> k b _; ring.
Qed.
(** Only another unit of time: the same results with the same tolerances. *)
Theorem C130_unit_of_time B B' (t0 : nat -> R) init init' : (0 < q)%Re -> times_increase nb nt times ->
  Units.model_units 1 q (occurs nb nt temps) B B' ->
  runs_in_units 1 nt (@solve_strain B nb nt times data temps s lm rtol atol miter throw gt n init)
    (@solve_strain B' nb nt (fun k b => t0 b + q * times k b)%Re data temps s lm rtol atol miter throw gt n init').
Proof.
move=> Hq I /(Units.model_unit 1 q _ Rlt_0_1 Hq); case: B init => n1 rt jc de init; case: B' init' => n2 rt' jc' de' init' U.
have e : n2 = n1 by have [] := U. subst n2.
have H := @conv_run n1 rt rt' jc jc' de de' nb nt 1 q times (fun k b => t0 b + q * times k b)%Re data data temps Rlt_0_1 Hq U I _ _ _ s lm rtol atol miter throw gt n init init'.
rewrite Rmult_1_l in H; apply: H => //.
- move=> b bn i j ij jn; have := I b bn i j ij jn => L; have := Rmult_lt_compat_l q _ _ Hq L; lra.
- move=> k b _; ring.
Qed.
End Claims.
Print Assumptions C130_strain_control.
Print Assumptions C130_unit_of_time.

(** The tolerance has to be converted: for every absolute tolerance a and every factor c > 1 the elastic bar of modulus 1 (in the new unit: c) strained
    by a in one step stays unstressed in the old unit, and does not in the new one if the tolerance remains a. *)
Theorem C130_tolerance_conversion_needed c a lm miter throw n init init' : (1 < c)%Re -> (0 < a)%Re -> (1 < miter)%N -> (1 < n)%N ->
  let bar E := Models.inelastic (fun _ => E) (Flow.super_rule nil) in
  let run B i := @solve_strain B 1 2 (fun k _ => INR k) (fun k _ => if k == 2%N then 3 * a else if k == 1%N then a else 0)%Re (fun _ _ => 0%Re) BackwardEuler lm 0 a miter throw "zero" n i in
  Units.model_units c 1 (fun _ => True) (bar 1%Re) (bar (c * 1)%Re) /\ ~ runs_in_units c 2 (run (bar 1%Re) init) (run (bar (c * 1)%Re) init').
Proof.
move=> c1 a0 m1 n1 bar run; split; first by apply: (Units.mu_inelastic c 1 _ (fun _ => 1%Re)); constructor.
have [st [S1 S2]] := @un_short a 0%Re lm miter throw n 2 a0 m1 n1 isT isT init erefl.
have Gr : times_increase 1 2 (fun k _ => INR k) by move=> b _ i j ij _; apply: lt_INR.
have [st' [S1' W]] := @C38_elastic_always_solved (fun _ => c * 1)%Re (Flow.super_rule nil) 1 2 (fun k _ => INR k) (fun k _ => if k == 2%N then 3 * a else if k == 1%N then a else 0)%Re (fun _ _ => 0%Re)
  lm 0%Re a miter throw "zero" n init' erefl (fun _ _ _ _ _ => conj erefl erefl) (Rlt_le _ _ a0) (ltnW n1) m1 isT (or_introl erefl).
have R1 : run (bar 1%Re) init = inl st by exact: S1.
have R2 : run (bar (c * 1)%Re) init' = inl st' by exact: S1'.
rewrite R1 R2 /= => -[H _].
have Q := @C38_elastic_to_tolerance (fun _ => c * 1)%Re (Flow.super_rule nil) (c * 1)%Re 1 2 _ _ _ _ _ _ _ _ _ _ _ st' ord0 a Gr (fun _ _ _ _ _ => erefl) (fun _ => erefl) S1' W _ 1%N isT.
have T : tol_bound (strain_f (B := bar (c * 1)%Re) 2 (fun k _ => INR k) (fun k _ => if k == 2%N then 3 * a else if k == 1%N then a else 0)%Re (fun _ _ => 0%Re)) BackwardEuler 0 a "zero" n 2
  (time_table 1 (fun k _ => INR k)) (i_result st') ord0 a.
{ split; [lra|] => k _ _; cbv zeta; rewrite Rmult_0_l; lra. }
have {Q} := Q T; have := H 1%N ord0 0%N isT isT.
pose o := @Ordinal (Models.rf_n (bar 1%Re)) 0 isT.
have E0 : entry st 1 ord0 0 = i_result st 1%N ord0 o ord0 := @entryE (bar 1%Re) 1 st 1 ord0 o.
rewrite E0 (_ : i_result st 1%N ord0 o ord0 = 0%Re); last by rewrite -S2 (ord1 o).
rewrite Rmult_0_r => ->; rewrite [_ == _]/= /=.
have Fl : (Rabs (0 - c * 1 * (a - 0)) <= 1 * a)%Re -> False by rewrite Rminus_0_l Rabs_Ropp Rabs_pos_eq; nra.
exact: Fl.
Qed.
Print Assumptions C130_tolerance_conversion_needed.
(** Why Hayhurst-Leckie damage is not in the list: the stress derivative it returns is not that of its rate (C51), and does not convert with it. *)
Theorem C130_hayhurst_does_not_convert q A xi phi (s d t t' T e : R) : (0 < q)%Re -> q <> 1%Re -> (0 < A)%Re -> (0 < xi)%Re -> s <> 0%Re -> (d < 1)%Re ->
  let M := Damage.hayhurst (fun _ => A) (fun _ => xi) (fun _ => phi) in let M' := Damage.hayhurst (fun _ => A * Rpower q (/ xi))%Re (fun _ => xi) (fun _ => phi) in
  Damage.dm_rate M' s d t' T (/ q * e)%Re = (/ q * Damage.dm_rate M s d t T e)%Re /\ Damage.dm_ds M' s d t' T (/ q * e)%Re <> (/ q * Damage.dm_ds M s d t T e)%Re.
Proof.
move=> Hq q1 HA Hx Hs Hd M M'; rewrite /M /M' /=.
have w0 : (0 < Rpower q (- / xi))%Re by exact: exp_pos.
have E : (Rabs s / (A * Rpower q (/ xi)) = Rpower q (- / xi) * (Rabs s / A))%Re by rewrite Rpower_Ropp /Rdiv Rinv_mult; ring.
have P : (0 < Rabs s / A)%Re by apply: Rdiv_lt_0_compat => //; exact: Rabs_pos_lt.
have P1 : (0 < 1 - d)%Re by lra.
rewrite E !(Units.pow0_scale (Rpower q (- / xi)) (Rabs s / A)) // !Torch.pow0_pos //; split.
- rewrite Rpower_mult (_ : - / xi * xi = - (1))%Re; last by field; lra. rewrite Rpower_Ropp Rpower_1 //; ring.
- have s1 : Torch.tsign s <> 0%Re by rewrite /Torch.tsign; case: (Rlt_dec 0 s) => ?; [lra|]; case: (Rlt_dec s 0) => ?; lra.
  rewrite Rpower_mult (_ : - / xi * (xi - 1) = - (1) + / xi)%Re; last by field; lra.
  rewrite Rpower_plus Rpower_Ropp Rpower_1 // => H.
  have F1 := exp_pos ((xi - 1) * ln (Rabs s / A)); have F2 := exp_pos ((xi - phi) * ln (1 - d)); have F3 : (0 < / q)%Re by exact: Rinv_0_lt_compat.
  change (0 < Rpower (Rabs s / A) (xi - 1))%Re in F1; change (0 < Rpower (1 - d) (xi - phi))%Re in F2; move: H.
  set u := Rpower _ (xi - 1) in F1 *; set v := Rpower (1 - d) _ in F2 *; set z := Rpower q (/ xi); set g := Torch.tsign s in s1 *; move=> H.
  have Z : (/ q * u * v * g * (z - 1) = 0)%Re by have := H; lra.
  have z1 : z = 1%Re by move: Z => /Rmult_integral [/Rmult_integral [/Rmult_integral [/Rmult_integral []|]|]|]; lra.
  have := ln_1; rewrite -z1 /z /Rpower ln_exp => /Rmult_integral []; first by have := Rinv_0_lt_compat _ Hx; lra.
  move=> l0; apply: q1; apply: ln_inv => //; [lra|by rewrite ln_1].
Qed.
Print Assumptions C130_hayhurst_does_not_convert.
(** The material of C119 in MPa and hours instead of GPa and seconds: any strain history, any solver, GPa tolerance 1e-8. *)
Example C130_ex nb nt (data : nat -> nat -> R) s lm miter throw gt n init init' :
  let B := voce_chaboche (fun T => 200 - T / 10)%Re (fun _ => 5)%Re (fun _ => 100)%Re (fun _ => 10)%Re (fun _ => 30)%Re (fun _ => 2)%Re 2 (fun _ _ => 100)%Re (fun _ _ => 10)%Re in
  let B' := Props_Symmetry.other_units 1000 (/ 3600) (fun T => 200 - T / 10)%Re (fun _ => 5)%Re (fun _ => 100)%Re (fun _ => 10)%Re (fun _ => 30)%Re (fun _ => 2)%Re 2 (fun _ _ => 100)%Re (fun _ _ => 10)%Re in
  runs_in_units 1000 nt (@solve_strain B nb nt (fun k _ => INR k) data (fun k b => INR (k + b)) s lm (/ 1000000) (/ 100000000) miter throw gt n init)
    (@solve_strain B' nb nt (fun k b => 0 + / 3600 * INR k)%Re (fun k b => 0 + data k b)%Re (fun k b => INR (k + b)) s lm (/ 1000000) (1000 * / 100000000) miter throw gt n init').
Proof.
apply: (@C130_strain_control 1000 (/ 3600) nb nt (fun k _ => INR k)); [lra|lra|by move=> b' _ i j ij _; apply: lt_INR|].
apply: (Units.mu_inelastic 1000 (/ 3600) _ (fun T => 200 - T / 10)%Re).
apply: (Units.fu_isokin 1000 (/ 3600) _ (fun _ => 5)%Re (fun _ => 100)%Re (fun _ => 10)%Re); [by move=> T _; lra| |].
- exact: (Units.hu_voce 1000 (/ 3600) (fun _ => 30)%Re (fun _ => 2)%Re).
- exact: (Units.hu_chaboche 1000 (/ 3600) 2 (fun _ _ => 100)%Re (fun _ _ => 10)%Re).
Qed.
(** A Larson-Miller damaged material with a Kocks-Mecking switch between a viscoplastic and a rate-independent rule, in another unit of time. *)
Example C130_ex_damaged q nb nt (data temps : nat -> nat -> R) mu mu' s lm rtol atol miter throw gt n init init' : (0 < q)%Re -> (forall T, Flow.tp_value mu' T = 1 * Flow.tp_value mu T)%Re ->
  let vp m := Flow.perfect (fun _ => 5)%Re m in
  let F := Flow.km_rule (vp (fun _ => 100)%Re) (Flow.ri_rule (vp (fun _ => 300)%Re) 1 (/ 10)) 1 mu 2 3 4 (/ 100) (fun x => x) in
  let F' := Flow.km_rule (vp (fun _ => Units.viscosity 1 q 100 5)) (Flow.ri_rule (vp (fun _ => Units.viscosity 1 q 300 5)) 1 (/ 10 / q)) 1 mu' 2 (3 / q) (1 * 4) (/ 100 / q) (fun x => x) in
  let D := Damage.larsonmiller (fun _ => 10)%Re (fun _ => -500)%Re (fun _ => 3000)%Re (/ 100) in
  let D' := Damage.larsonmiller (fun _ => 10 - ln q / ln 10)%Re (fun _ => -500)%Re (fun _ => 3000)%Re (/ 100) in
  runs_in_units 1 nt (@solve_strain (Models.damaged (fun _ => 200)%Re F D) nb nt (fun k _ => INR k) data temps s lm rtol atol miter throw gt n init)
    (@solve_strain (Models.damaged (fun _ => 200)%Re F' D') nb nt (fun k b => 0 + q * INR k)%Re data temps s lm rtol atol miter throw gt n init').
Proof.
move=> Hq Hm vp F F' D D'; apply: (@C130_unit_of_time q nb nt (fun k _ => INR k)) => //; first by move=> b' _ i j ij _; apply: lt_INR.
apply: Units.mu_damaged => //; last by constructor.
have P m := Units.fu_perfect 1 q (occurs nb nt temps) (fun _ => 5)%Re m (fun T _ => ltac:(lra)).
apply: Units.fu_km => //; apply: Units.fu_ri; exact: P.
Qed.
Print Assumptions C130_ex_damaged.
