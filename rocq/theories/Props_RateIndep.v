(** C126: the rate-independent response depends on the strain path only, not on the speed at which it is followed. *)
From Coq Require Import Reals List String Lra.
From mathcomp Require Import all_ssreflect all_algebra.
From Verif Require Import ChunkModel ChunkSolve ChunkInst NewtonModel Ode OdeForward OdeReal OdeBlock OdeSym RField Pipeline PipelineBoth PipelineSym Props_Stress Props_Clock.
From Verif Require Import Props_Explicit.
From Verif Require Interp Models Hardening Flow StressSym Symmetry RateIndep.
Import GRing.Theory.
Set Implicit Arguments. Unset Strict Implicit. Unset Printing Implicit Defensive.
Local Open Scope ring_scope.
Delimit Scope R_scope with Re.

Section RI.
Variables (B : Models.rateform) (nb nt : nat).
Notation m := (Models.rf_n B).
Notation one := (fun _ : nat => 1%Re).
Variables (times times' data temps : nat -> nat -> R).
Hypotheses (RI : RateIndep.rate_independent B) (I : times_increase nb nt times) (I' : times_increase nb nt times').
Lemma sgm_one : sgm (one : nat -> RF) m m = 1%:M.
Proof. by apply/matrixP => i j; rewrite !mxE; case: eqP. Qed.
Notation G := (fun (_ : nat) ts y => (func_rate (strain_f (B := B) (nb := nb) nt times data temps) ts y, func_jac (strain_J (B := B) (nb := nb) nt times data temps) ts y)).
Notation G' := (fun (_ : nat) ts y => (func_rate (strain_f (B := B) (nb := nb) nt times' data temps) ts y, func_jac (strain_J (B := B) (nb := nb) nt times' data temps) ts y)).
Section Rows.
Variables (k len : nat).
Hypotheses (k0 : (0 < k)%N) (kn : (k < nt)%N) (kl : (k + len <= nt)%N).
Notation T := (block_times (time_table nb times (k - 1)%N) (fun j => time_table nb times (k + j)%N)).
Notation T' := (block_times (time_table nb times' (k - 1)%N) (fun j => time_table nb times' (k + j)%N)).
Lemma RI_work s : (forall j (b : 'I_nb), (j < len)%N -> let i := if s is BackwardEuler then j.+1 else j in
    exists a, [/\ (0 < a)%Re, tdiff T' j b = (tdiff T j b / a)%Re & table_rates times' data (k.-1 + i)%N b = (a * table_rates times data (k.-1 + i)%N b)%Re]) ->
  same_work id one s G G' len T T'.
Proof.
move=> H Y Y' HY j jl b i; rewrite sgm_one !mul1mx mulmx1.
have [a [a0 Ed Er]] := H j b jl; rewrite -/i in Er; rewrite Ed /=.
have il : (i <= len)%N by rewrite /i; case: (s) => //; exact: ltnW.
have rn := @rowT nt k len k0 kl i il.
have EY : Y' i b = Y i b by have := HY i il b; rewrite /relV sgm_one mul1mx.
have R1 (tt : nat -> nat -> R) (v : nat -> nat -> R) : times_increase nb nt tt -> interp_at nt tt v b (block_times (time_table nb tt (k - 1)%N) (fun j => time_table nb tt (k + j)%N) i b) = v (k.-1 + i)%N b.
{ move=> It; rewrite T_knot //; apply: (@interp_knot nb) => //; exact: leq_ltn_trans k0 kn. }
have [L1 L2] := RI (T i b) (T' i b) (to_vec (B := B) (Y i b)) (table_rates times data (k.-1 + i)%N b) (temps (k.-1 + i)%N b) a0.
have Fl (u w : R) : (u / a * (a * w) = u * w)%Re by field; lra.
split; rewrite /func_rate /func_jac [X in _ *: X]ffunE [X in _ = _ *: X]ffunE /strain_f /strain_J EY !R1 // Er.
- by apply/colP => q; rewrite !mxE (L1 q (elimT ltP (ltn_ord q))); exact: Fl.
- by apply/matrixP => q q'; rewrite !mxE (L2 q q' (elimT ltP (ltn_ord q)) (elimT ltP (ltn_ord q'))); exact: Fl.
Qed.
End Rows.
End RI.

Section Retimed.
Variables (B : Models.rateform) (nb nt : nat) (times times' data temps : nat -> nat -> R).
Variables (lm : lin_method) (rtol atol : R) (miter : nat) (throw : bool) (gt : string) (n : nat) (init init' : nat -> VB RF nb (Models.rf_n B)).
Hypotheses (RI : RateIndep.rate_independent B) (I : times_increase nb nt times).
Notation solve s t i := (@solve_strain B nb nt t data temps s lm rtol atol miter throw gt n i).
Lemma tdiff_at (tt : nat -> nat -> R) k j (b : 'I_nb) : (0 < k)%N ->
  tdiff (block_times (time_table nb tt (k - 1)%N) (fun j => time_table nb tt (k + j)%N)) j b = (tt (k.-1 + j.+1)%N b - tt (k.-1 + j)%N b)%Re.
Proof. by move=> k0; rewrite /tdiff ffunE !T_knot. Qed.
Lemma inc_dt (tt : nat -> nat -> R) r (b : 'I_nb) : times_increase nb nt tt -> (r.+1 < nt)%N -> (0 < tt r.+1 b - tt r b)%Re.
Proof. move=> It rn; have := It b (ltn_ord b) r r.+1 (le_n r.+1) (elimT ltP rn); lra. Qed.
Lemma rates_div (tt : nat -> nat -> R) r (b : 'I_nb) : times_increase nb nt tt -> (r.+1 < nt)%N -> table_rates tt data r.+1 b = ((data r.+1 b - data r b) / (tt r.+1 b - tt r b))%Re.
Proof. move=> It rn; rewrite /table_rates; case: (Req_EM_T _ 0) => // e; have := inc_dt b It rn; lra. Qed.
Lemma outcome x x' : @runs_correspond B nb nb nt id (fun _ => 1%Re) x x' -> same_outcome nt x x'.
Proof. exact: clock_same. Qed.
(** Backward Euler: any other increasing times for the same strains. *)
Theorem C126_backward : times_increase nb nt times' -> same_outcome nt (solve BackwardEuler times init) (solve BackwardEuler times' init').
Proof.
move=> I'.
have W := (fun k len k0 kn kl H => @RI_work B nb nt times times' data temps RI I I' k len k0 kn kl BackwardEuler H).
apply: outcome; refine (@sym_run B nb nb nt id (fun _ => 1%Re) times times' one_one (@id_onto nb) BackwardEuler lm rtol atol miter throw gt n init init' _ _ (fun k len k0 kn kl => W k len k0 kn kl _)) => {W} j b jl.
have rn : ((k.-1 + j).+1 < nt)%N by rewrite -addnS; exact: (@rowT nt k len k0 kl).
have d := inc_dt b I rn; have d' := inc_dt b I' rn; rewrite !tdiff_at // addnS !rates_div //.
move: d d'; move: (times _.+1 b - times _ b)%Re (times' _.+1 b - times' _ b)%Re => u u' d d'.
have Fl : (u' = u / (u / u'))%Re by field; lra.
exists (u / u')%Re; split; [exact: Rdiv_lt_0_compat|exact: Fl|field; lra].
Qed.
(** Either scheme: uniformly faster or slower tests (the factor may differ from test to test). *)
Theorem C126_uniform s speed shift : (forall b, (b < nb)%N -> (0 < speed b)%Re) ->
  (forall k b, (k < nt)%N -> (b < nb)%N -> times' k b = (times k b / speed b + shift b)%Re) -> same_outcome nt (solve s times init) (solve s times' init').
Proof.
move=> Sp HT.
have I' : times_increase nb nt times'.
{ move=> b bn i j ij jn; have i_n : (i < nt)%N by apply/ltP; apply: PeanoNat.Nat.lt_trans ij jn. have j_n : (j < nt)%N by apply/ltP.
  rewrite !HT //; apply: Rplus_lt_compat_r; apply: Rmult_lt_compat_r; last exact: I. exact: Rinv_0_lt_compat (Sp b bn). }
have W := (fun k len k0 kn kl H => @RI_work B nb nt times times' data temps RI I I' k len k0 kn kl s H).
apply: outcome; refine (@sym_run B nb nb nt id (fun _ => 1%Re) times times' one_one (@id_onto nb) s lm rtol atol miter throw gt n init init' _ _ (fun k len k0 kn kl => W k len k0 kn kl _)) => {W} j b jl; set i : nat := match s with BackwardEuler => _ | _ => _ end.
have rn : ((k.-1 + j).+1 < nt)%N by rewrite -addnS; exact: (@rowT nt k len k0 kl).
have sb := Sp b (ltn_ord b); exists (speed b); split=> //.
- rewrite !tdiff_at // addnS (HT _ _ rn) // (HT _ _ (ltnW rn)) //.
  have Fl (u v w : R) : (u / speed b + w - (v / speed b + w) = (u - v) / speed b)%Re by field; lra. exact: Fl.
- have il : (i <= len)%N by rewrite /i; case: (s) => //; exact: ltnW.
  have := @rowT nt k len k0 kl i il; case: (k.-1 + i)%N => [|r] rn'; first by rewrite /= Rmult_0_r.
  rewrite !rates_div // (HT _ _ rn') // (HT _ _ (ltnW rn')) //; have := inc_dt b I rn'.
  move=> d; field; lra.
Qed.
End Retimed.
(** The materials: the wrapper with lambda = 1 around any strain-rate-blind rule of the library, and superpositions of such rules. *)
Theorem C126_library E F : RateIndep.ri_flow F -> RateIndep.rate_independent (Models.inelastic E F).
Proof. exact: RateIndep.ri_model. Qed.
Print Assumptions C126_backward.
Print Assumptions C126_uniform.
Print Assumptions C126_library.
(** Row 0 is the zero start. *)
Lemma i_start (B : Models.rateform) nb nt times data temps s lm rtol atol miter throw gt n init st :
  @solve_strain B nb nt times data temps s lm rtol atol miter throw gt n init = inl st -> i_result st 0%N = zeroV RF nb (Models.rf_n B).
Proof. by move=> E; have [_ [H _]] := integrate_writes E. Qed.
(** Forward Euler follows the speed of the previous step (C93), so that uneven changes of speed do show: a linear elastic bar strained
    0, 1, 2 at the times 0, 1, 2 and 0, 1, 3 has the stresses 1 and 2 at the end. *)
Theorem C126_uniform_needed rate (B := Models.inelastic (fun _ => 1%Re) (Flow.super_rule nil)) (init : nat -> VB RF 1 (Models.rf_n B)) : (0 < rate)%Re ->
  exists st, @solve_strain B 1 3 (fun k _ => if k == 2%N then 1 + rate else INR k)%Re (fun k _ => INR k) (fun _ _ => 0%Re)
    ForwardEuler (Direct Thomas) 0 0 10 true "zero" 1 init = inl st /\ entry st 2 ord0 0 = rate.
Proof.
move=> Hr; set tm := fun k _ : nat => _.
have Gr : times_increase 1 3 tm.
{ move=> b' _ i j ij jn; rewrite /tm; move: ij jn; case: i => [|[|i]]; case: j => [|[|[|j]]] ij jn /=; try lra; try (exfalso; Lia.lia). }
have [st [Es W]] : exists st, @solve_strain B 1 3 tm (fun k _ => INR k) (fun _ _ => 0%Re) ForwardEuler (Direct Thomas) 0 0 10 true "zero" 1 init = inl st /\ i_warned st = [::].
{ exact: (@fe_never_fails 1 1 (strain_f (B := B) 3 tm (fun k _ => INR k) (fun _ _ => 0%Re)) (strain_J (B := B) 3 tm (fun k _ => INR k) (fun _ _ => 0%Re)) (Direct Thomas) 0 0 10 true "zero" 1 3
  (time_table 1 tm) (@zeroV RF 1 1) init (Rle_refl _) isT isT isT (or_introl erefl)). }
exists st; split=> //.
have H1 := @C93_actual_increment B 1 3 tm _ _ _ _ _ _ _ _ st Gr Es W ord0 1 0 isT isT.
have H0 := @C93_actual_increment B 1 3 tm _ _ _ _ _ _ _ _ st Gr Es W ord0 0 0 isT isT.
have Z0 : entry st 0 ord0 0 = 0%Re.
{ have R1 := i_start Es; pose o := @Ordinal (Models.rf_n B) 0 isT.
  have E0 : entry st 0 ord0 0 = i_result st 0%N ord0 o ord0 := @entryE B 1 st 0 ord0 o. rewrite E0 R1 /zeroV ffunE mxE; reflexivity. }
have Fr t y e : Models.rf_rate B t y e 0 0%N = e by rewrite /B /= /Slices.cat /= /Slices.loop_add /=; ring.
cbv zeta in H0, H1; rewrite Fr /imposed Z0 in H0; rewrite Fr /imposed /tm /= in H1.
move: H1 H0; move: (entry st 1 ord0 0) (entry st 2 ord0 0) => u v H1 H0; move: H1; rewrite (_ : u = 0%Re); last lra.
rewrite (_ : (1 - 0) / (1 - 0) = 1)%Re; [lra|field].
Qed.
Print Assumptions C126_uniform_needed.
(** A rate-independent Voce + Chaboche material over five steps: the same strains at the times 0, 1, 2, ... and 0, 1, 4, 9, ... *)
Example C126_ex lm rtol atol miter throw gt n (F := Flow.ri_rule ex_rule 1 (1 / 1000)%Re) (B := Models.inelastic (fun _ => 150000%Re) F) (init init' : nat -> VB RF 3 (Models.rf_n B)) :
  let run t i := @solve_strain B 3 6 t (fun k b => sin (INR k * INR b)) (fun _ _ => 500%Re) BackwardEuler lm rtol atol miter throw gt n i in
  same_outcome 6 (run (fun k _ => INR k) init) (run (fun k _ => INR (k * k)) init').
Proof.
move=> run; apply: C126_backward.
- apply: C126_library; apply: RateIndep.rf_wrap; apply: RateIndep.bf_isokin; [left|right]; constructor.
- by move=> b _ i j ij _; apply: lt_INR.
- by move=> b _ i j ij _; apply: lt_INR; apply/ltP; move/ltP: ij => ij; rewrite ltn_mul.
Qed.
Print Assumptions C126_ex.
