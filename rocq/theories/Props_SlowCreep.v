(** C149: creep slower than the tolerance of the inner strain-rate solve (models.py 529-548): lost in a batch of its own, exact in the company of a faster test; how far the company can change a test. *)
From Coq Require Import Reals List String Lra Lia FunctionalExtensionality.
From mathcomp Require Import all_ssreflect all_algebra.
From Verif Require Import ChunkModel ChunkSolve ChunkInst NewtonModel Ode OdeForward OdeReal OdeBlock RField Pipeline PipelineBoth MixedGrad SlowCreep.
From Verif Require Interp Models Flow Slices PipelineR StressR Torch Props_Pipeline Props_Stress Props_StressCal Props_PerfectMixed.
Import GRing.Theory.
Set Implicit Arguments. Unset Strict Implicit. Unset Printing Implicit Defensive.
Local Open Scope R_scope.
Import Props_Stress.

(** Norton's law. *)
Definition norton (pn eta : R -> R) (T s : R) : R := Torch.tsign s * Rpower (Rabs s / eta T) (pn T).
(** Every test is held at its own non-zero stress and temperature from the first time on. *)
Definition held (nb nt : nat) (stresses temps : nat -> nat -> R) (s T : nat -> R) : Prop :=
  forall k b, (k < nt)%N -> (b < nb)%N -> stresses k b = s b /\ temps k b = T b /\ s b <> 0.

Lemma norton_rate pn eta T s h t e : 0 < eta T -> s <> 0 -> Flow.fl_rate (Flow.perfect pn eta) s h t T e = norton pn eta T s.
Proof. move=> e0 sn; rewrite /norton /= Torch.pow0_pos; first ring. apply: Rdiv_lt_0_compat => //; exact: Rabs_pos_lt. Qed.
Lemma norton_abs pn eta T s : s <> 0 -> Rabs (norton pn eta T s) = Rpower (Rabs s / eta T) (pn T).
Proof.
move=> sn; rewrite /norton Rabs_mult (Rabs_pos_eq (Rpower _ _)); last by left; exact: exp_pos.
suff -> : Rabs (Torch.tsign s) = 1 by rewrite Rmult_1_l.
rewrite /Torch.tsign; case: Rlt_dec => h; first by rewrite Rabs_R1. case: Rlt_dec => h2; last by lra. rewrite Rabs_left; lra.
Qed.

(** Slow creep is not simulated at all: if in no test of the batch E times the creep rate exceeds 1e-10, solve_stress succeeds and returns zero strain at every time, however long the hold,
    and even when the implicit steps themselves are solved exactly (zero tolerances), whatever the linear solver, block size and initial iterate. *)
Theorem C149_slow_creep_is_lost (E pn eta : R -> R) nb nt times stresses temps (s T : nat -> R) lm miter throw n init :
  times_increase nb nt times -> (1 < nt)%N -> (0 < n)%N -> (1 < miter)%N ->
  held nb nt stresses temps s T -> (forall b, (b < nb)%N -> 0 < E (T b) /\ 0 < eta (T b)) ->
  (forall b, (b < nb)%N -> E (T b) * Rpower (Rabs (s b) / eta (T b)) (pn (T b)) <= / 10 ^ 10) ->
  exists st, @solve_stress (Models.inelastic E (Flow.perfect pn eta)) nb nt times stresses temps BackwardEuler lm 0 0 miter throw "zero" n init = inl st /\ i_warned st = [::] /\
    forall k (b : 'I_nb), (k < nt)%N -> entry st k b 0%N = 0.
Proof.
set B := Models.inelastic _ _; move=> Gr nt2 n0 m0 H P Slow.
have [st [So Wa]] := @C91_always_solved E (Flow.perfect pn eta) nb nt times stresses temps lm R0 R0 miter throw "zero" n init erefl (Rle_refl 0) n0 m0 (ltnW nt2) (or_introl erefl).
exists st; split; first exact: So. split; first exact: Wa.
elim=> [|k IH] b kn; first exact: (run_zero So b (ltn0Sn 0 : (0 < Models.rf_n B)%N)).
have [ts [Y [q [rows [j [Hr jr kE [Hts HY] Q]]]]]] := block_rows So Wa (ltn0Sn k) kn.
have := Q b 0%N isT; rewrite [k.+1.-1]/= (IH b (ltnW kn)).
suff -> : (stress_G (B := B) nt times stresses temps rows ts Y).1 j b = 0%R.
{ have z : to_vec (B := B) (0%R : 'cV[RF]_1) 0%N = 0 by rewrite (@to_vecE B (0%R : 'cV[RF]_1) ord0) mxE.
  have Fl (a d e : R) : e = 0 -> a - 0 = d * e -> a = 0 by move=> ->; lra. exact: Fl z. }
have rate0 k' (b' : 'I_nb) : (k' < nt)%N -> table_rates times stresses k' b' = 0.
{ case: k' => [//|k'] kn'. rewrite (rates_knot stresses (ltn_ord b') Gr (ltn0Sn k') kn') /step_rate.
  have [-> _] := H k'.+1 b' kn' (ltn_ord b'); have [-> _] := H k' b' (ltnW kn') (ltn_ord b'). rewrite /Rdiv; ring. }
rewrite /stress_G sb_small.
{ by apply/colP => i; rewrite /unflatten ffunE !mxE (ord1 i) /Models.sb_rate Models.set0_0. }
move=> i /ltP ir; have [k' [b' [k'r ->]]] := pt_split ir.
have kq : (q + k' < nt)%N by apply: leq_trans Hr; rewrite ltn_add2l.
rewrite pt_rateE pt_baseE pt_tempE pt_tE Hts // ffunE !(interp_knot _ nt2 (ltn_ord b') Gr kq) rate0 //.
have [-> [-> sn]] := H (q + k')%N b' kq (ltn_ord b'); have [Ep ep] := P b' (ltn_ord b').
rewrite [Models.rf_rate _ _ _ _ _ _](_ : _ = E (T b') * (0 - Flow.fl_rate (Flow.perfect pn eta) (s b') Slices.vzero 0 (T b') 0)); last by [].
rewrite norton_rate //.
have := Slow b' (ltn_ord b'); rewrite -(norton_abs pn eta _ sn) => h.
rewrite (_ : E (T b') * (0 - norton pn eta (T b') (s b')) - 0 = - (E (T b') * norton pn eta (T b') (s b'))); last ring.
rewrite Rabs_Ropp Rabs_mult (Rabs_pos_eq (E _)) //; lra.
Qed.
Print Assumptions C149_slow_creep_is_lost.

(** The same tests in a batch with one test (of any stress) that creeps faster: every test of the batch returns Norton's law exactly, the slow ones included. *)
Theorem C149_exact_in_company (E pn eta : R -> R) nb nt times stresses temps (s T : nat -> R) lm miter throw n init (fast : 'I_nb) :
  times_increase nb nt times -> (1 < nt)%N -> (0 < n)%N -> (1 < miter)%N ->
  held nb nt stresses temps s T -> (forall b, (b < nb)%N -> 0 < E (T b) /\ 0 < pn (T b) /\ 0 < eta (T b)) ->
  / 10 ^ 10 < E (T fast) * Rpower (Rabs (s fast) / eta (T fast)) (pn (T fast)) ->
  exists st, @solve_stress (Models.inelastic E (Flow.perfect pn eta)) nb nt times stresses temps BackwardEuler lm 0 0 miter throw "zero" n init = inl st /\ i_warned st = [::] /\
    forall k (b : 'I_nb), (k < nt)%N -> entry st k b 0%N = (times k b - times 0%N b) * norton pn eta (T b) (s b).
Proof.
set B := Models.inelastic _ _; move=> Gr nt2 n0 m0 H P Fast.
pose Y k : VB RF nb 1 := [ffun b : 'I_nb => (\col__ ((times k b - times 0%N b) * norton pn eta (T b) (s b) : RF))%R].
have YE k (b : 'I_nb) : to_vec (B := B) (Y k b) 0%N = (times k b - times 0%N b) * norton pn eta (T b) (s b) by rewrite (@to_vecE B (Y k b) ord0) ffunE mxE.
have [] := @Props_PerfectMixed.C147_creep_runs E pn eta nb nt times stresses temps lm miter throw n init Y Gr (ltnW nt2) n0 m0.
- move=> k b kn bn; have [_ [-> _]] := H k b kn bn; exact: P.
- split.
  { apply/ffunP => b; rewrite !ffunE; apply/colP => i; rewrite !mxE. have Fl (a x : R) : (a - a) * x = 0 by ring. exact: Fl. }
  move=> k b k0 kn; have [-> [-> sn]] := H k b kn (ltn_ord b).
  have [-> _] := H k.-1 b (leq_ltn_trans (leq_pred k) kn) (ltn_ord b); have [_ [_ ep]] := P b (ltn_ord b).
  exists (norton pn eta (T b) (s b)); cbv zeta; rewrite !YE.
  split; last split; last by case=> [|i] //.
  + rewrite [Models.rf_rate _ _ _ _ _ _](_ : _ = E (T b) * (norton pn eta (T b) (s b) - Flow.fl_rate (Flow.perfect pn eta) (s b) Slices.vzero 0 (T b) 0)); last by [].
    rewrite norton_rate // /Rdiv; ring.
  + move: (norton _ _ _ _) => x; ring.
- move=> k k0 kn; exists fast; have [_ [-> sn]] := H k fast kn (ltn_ord fast); have [Ep _] := P fast (ltn_ord fast).
  rewrite !ffunE !mxE.
  have := dt_pos (ltn_ord fast) Gr k0 kn; have := Fast; rewrite -(norton_abs pn eta _ sn).
  move: (norton _ _ _ _) => x.
  have Fl (a e d d' w : R) : 0 < e -> a < e * Rabs w -> 0 < d - d' -> forall z, a * (d - d') < Rabs (e * ((d - z) * w - (d' - z) * w)).
  { move=> e0 h dd z; have -> : e * ((d - z) * w - (d' - z) * w) = (d - d') * (e * w) by ring.
    rewrite !Rabs_mult (Rabs_pos_eq (d - d')) ?(Rabs_pos_eq e); nra. }
  move=> h dd; exact: Fl.
- move=> st [So [Wa R]]; exists st; split; first exact: So. split; first exact: Wa.
  move=> k b kn; by rewrite /entry R // YE.
Qed.
Print Assumptions C149_exact_in_company.

(** Hence solve_stress does not treat the tests of a batch independently of one another, and no bound holds for the difference: the same creep test (same material, times, stress, temperature,
    settings), simulated alone and beside another test, gives strains further apart than any given M. *)
Theorem C149_own_result_refuted (M : R) : exists (E pn eta : R -> R) (times alone both temps : nat -> nat -> R) st1 st2,
  (forall k, both k 0%N = alone k 0%N) /\
  @solve_stress (Models.inelastic E (Flow.perfect pn eta)) 1 2 times alone temps BackwardEuler (Direct Thomas) 0 0 100 true "zero" 1 (fun _ => @zeroV RF 1 1) = inl st1 /\ i_warned st1 = [::] /\
  @solve_stress (Models.inelastic E (Flow.perfect pn eta)) 2 2 times both temps BackwardEuler (Direct Thomas) 0 0 100 true "zero" 1 (fun _ => @zeroV RF 2 1) = inl st2 /\ i_warned st2 = [::] /\
  M < Rabs (entry st2 1 ord0 0%N - entry st1 1 ord0 0%N).
Proof.
pose E (_ : R) := 1; pose pn (_ : R) := 1; pose eta (_ : R) := 10 ^ 10.
pose times (k b : nat) := INR k * ((Rabs M + 1) * 10 ^ 10); pose alone (k b : nat) := 1; pose both (k b : nat) := if b is 0%N then 1 else 2.
have D : 0 < 10 ^ 10 by apply: pow_lt; lra.
have M0 := Rabs_pos M.
have Gr nb : times_increase nb 2 times.
{ move=> b _ i j ij _; rewrite /times; apply: Rmult_lt_compat_r; first by apply: Rmult_lt_0_compat; lra. exact: lt_INR. }
have rp x : 0 < x -> Rpower x 1 = x := Rpower_1 x.
have [|||st1 [S1 [W1 R1]]] := @C149_slow_creep_is_lost E pn eta 1 2 times alone (fun _ _ => 0) (fun _ => 1) (fun _ => 0) (Direct Thomas) 100 true 1 (fun _ => @zeroV RF 1 1) (Gr 1%N) isT isT isT.
- move=> k b _ _; rewrite /alone; split=> //; split=> //; lra.
- move=> b _; rewrite /E /eta; split; lra.
- move=> b _; rewrite /E /eta /pn Rabs_R1 rp; first (rewrite /Rdiv; lra). apply: Rdiv_lt_0_compat; lra.
have [|||st2 [S2 [W2 R2]]] := @C149_exact_in_company E pn eta 2 2 times both (fun _ _ => 0) (fun b => both 0%N b) (fun _ => 0) (Direct Thomas) 100 true 1 (fun _ => @zeroV RF 2 1) ord_max (Gr 2%N) isT isT isT.
- move=> k b _ _; rewrite /both; split=> //; split=> //; case: b => [|b]; lra.
- move=> b _; rewrite /E /eta /pn; split; [|split]; lra.
- rewrite /E /eta /pn /= Rabs_pos_eq; last lra. rewrite rp; last by apply: Rdiv_lt_0_compat; [lra|exact: D].
  have := Rinv_0_lt_compat _ D; rewrite /Rdiv /=; lra.
exists E, pn, eta, times, alone, both, (fun _ _ => 0), st1, st2; split; first by []. split; first exact: S1. split; first exact: W1. split; first exact: S2. split; first exact: W2.
rewrite R1 // R2 // /times /both /norton /eta /pn [INR 1]/= [INR 0]/= Rabs_R1 rp; last by apply: Rdiv_lt_0_compat; lra.
rewrite /Torch.tsign; case: Rlt_dec => h; last lra.
rewrite (_ : _ - 0 = Rabs M + 1).
- rewrite Rabs_pos_eq; last lra. have := Rle_abs M; lra.
- have : 10 ^ 10 <> 0 by lra. move: (10 ^ 10) => d dn; field; exact: dn.
Qed.
Print Assumptions C149_own_result_refuted.

(** The company of other tests changes a test's strain by at most 2e-10 / E per unit of time: two exact simulations of the same test, in any two batches and with any settings. *)
Theorem C149_company_changes_little (E pn eta : R -> R) nt nb nb' (times stresses temps times' stresses' temps' : nat -> nat -> R) lm miter throw gt n init st lm' miter' throw' gt' n' init' st' (b : 'I_nb) (b' : 'I_nb') e :
  times_increase nb nt times -> times_increase nb' nt times' ->
  (forall k c, (k < nt)%N -> (c < nb)%N -> 0 < E (temps k c)) -> (forall k c, (k < nt)%N -> (c < nb')%N -> 0 < E (temps' k c)) ->
  (forall k, (k < nt)%N -> times' k b' = times k b /\ stresses' k b' = stresses k b /\ temps' k b' = temps k b /\ e <= E (temps k b)) -> 0 < e ->
  @solve_stress (Models.inelastic E (Flow.perfect pn eta)) nb nt times stresses temps BackwardEuler lm 0 0 miter throw gt n init = inl st -> i_warned st = [::] ->
  @solve_stress (Models.inelastic E (Flow.perfect pn eta)) nb' nt times' stresses' temps' BackwardEuler lm' 0 0 miter' throw' gt' n' init' = inl st' -> i_warned st' = [::] ->
  forall k, (k < nt)%N -> Rabs (entry st' k b' 0%N - entry st k b 0%N) <= 2 * (times k b - times 0%N b) / (10 ^ 10 * e).
Proof.
move=> Gr Gr' Ep Ep' Same e0 S W S' W'.
have [Z [_ H]] := C91_stress_control Gr (@Models.rate_free_perfect _ _) Ep S W b.
have [Z' [_ H']] := C91_stress_control Gr' (@Models.rate_free_perfect _ _) Ep' S' W' b'.
have D : 0 < 10 ^ 10 by apply: pow_lt; lra.
elim=> [|k IH] kn.
- rewrite Z Z' !Rminus_eq_0 Rabs_R0 Rmult_0_r /Rdiv Rmult_0_l; exact: Rle_refl.
have [Q _] := H k.+1 isT kn; have [Q' _] := H' k.+1 isT kn.
have [t1 [s1 [T1 eE]]] := Same k.+1 kn; have [t0 [s0 _]] := Same k (ltnW kn).
move: Q'; rewrite [k.+1.-1]/= t1 t0 s1 s0 T1 => Q'; move: Q; rewrite [k.+1.-1]/= => Q.
have dt := dt_pos (ltn_ord b) Gr (ltn0Sn k) kn; rewrite [k.+1.-1]/= in dt.
have le : (times k.+1 b - times k b) / (10 ^ 10 * E (temps k.+1 b)) <= (times k.+1 b - times k b) / (10 ^ 10 * e).
{ apply: Rmult_le_compat_l; first lra. apply: Rinv_le_contravar; first exact: Rmult_lt_0_compat. apply: Rmult_le_compat_l => //; lra. }
have := IH (ltnW kn).
rewrite (_ : 2 * (times k.+1 b - times 0%N b) / (10 ^ 10 * e) = 2 * (times k b - times 0%N b) / (10 ^ 10 * e) + 2 * ((times k.+1 b - times k b) / (10 ^ 10 * e))); last by rewrite /Rdiv; ring.
move: Q Q'; rewrite /=; move: (_ + _ * (_ * _)) => X.
have Fl (a a0 c c0 x d f : R) : Rabs (c - c0 - x) <= d -> Rabs (a - a0 - x) <= d -> d <= f -> forall g, Rabs (a0 - c0) <= g -> Rabs (a - c) <= g + 2 * f.
{ move=> h1 h2 h3 g h4; have -> : a - c = (a0 - c0) + ((a - a0 - x) - (c - c0 - x)) by ring.
  apply: Rle_trans (Rabs_triang _ _) _; have := Rabs_triang (a - a0 - x) (- (c - c0 - x)); rewrite Rabs_Ropp -/(Rminus _ _); lra. }
move=> q q' h; exact: (Fl _ _ _ _ _ _ _ q q' le _ h).
Qed.
Print Assumptions C149_company_changes_little.

(** The rows of the call that step k of a run with block size n belongs to (as PipelineBoth.block_rows, with their extent). *)
Lemma block_rows_at (B : Models.rateform) nb nt (times : nat -> nat -> R) lm miter throw gt n init
    (G : nat -> (nat -> TB RF nb) -> (nat -> VB RF nb (Models.rf_n B)) -> (nat -> VB RF nb (Models.rf_n B)) * (nat -> MB RF nb (Models.rf_n B))) st :
  integrateG G BackwardEuler lm (nrmR nb (Models.rf_n B)) R0 R0 miter throw gt n nt (time_table nb times) (@zeroV RF nb (Models.rf_n B)) init = inl st ->
  i_warned st = [::] -> forall k, (0 < k)%N -> (k < nt)%N ->
  let q := ((k.-1 %/ n) * n)%N in let rows := (slice_len nt q.+1 (q.+1 + n)).+1 in
  exists ts Y, [/\ (q + rows <= nt)%N, (k - q < rows)%N, (q < k)%N,
     (forall j, (j < rows)%N -> ts j = time_table nb times (q + j)%N) &
     forall b i, (i < Models.rf_n B)%N -> Rminus (entry st k b i) (entry st k.-1 b i) =
        Rmult (Rminus (times k b) (times k.-1 b)) (to_vec ((G rows ts Y).1 (k - q)%N b) i)].
Proof.
move=> E W k kp kn q rows.
have n0 : (0 < n)%N by move: E; rewrite /integrateG; case: eqP => // _; case: eqP => //; rewrite lt0n => /eqP.
have k0k : (q.+1 <= k)%N by rewrite -[k in (_ < k)%N]prednK // ltnS leq_trunc_div.
have k0n : (q.+1 < nt)%N by apply: leq_ltn_trans k0k kn.
have kl : (k - q.+1 < slice_len nt q.+1 (q.+1 + n))%N.
{ rewrite ltn_subLR // slice_len_add; last exact: ltnW.
  rewrite leq_min kn andbT addSn -mulSnr.
  by rewrite -[k in (k < _)%N](prednK kp) ltnS ltn_ceil. }
have [ts [Y [Hts [HY Res]]]] := @integrateG_exact nb (Models.rf_n B) G BackwardEuler lm R0 R0 miter throw gt n nt (time_table nb times) _ init st erefl erefl E W (k.-1 %/ n)%N k0n.
rewrite -/(block_start n k) [block_start n k](_ : _ = q.+1) // in Hts HY Res.
have kq : (k - q)%N = (k - q.+1).+1 by rewrite subnS prednK // subn_gt0.
have e1 : (q + (k - q.+1).+1)%N = k by rewrite -kq subnKC // ltnW.
have e2 : (q + (k - q.+1))%N = k.-1 by rewrite -[in RHS]e1 addnS.
have q1 : (q.+1 - 1)%N = q by rewrite subn1.
rewrite q1 in Hts HY.
have r1 : ts (k - q.+1).+1 = time_table nb times k by rewrite Hts // e1.
have r2 : ts (k - q.+1)%N = time_table nb times k.-1 by rewrite Hts ?e2 // ltnW.
have y1 : Y (k - q.+1).+1 = i_result st k by rewrite HY // e1.
have y2 : Y (k - q.+1)%N = i_result st k.-1 by rewrite HY ?e2 // ltnW.
exists ts, Y; split=> //.
- rewrite /rows addnS -addSn slice_len_add; last exact: ltnW. exact: geq_minr.
- by rewrite kq.
- move=> b i im; have := Res (k - q.+1)%N b kl => /colP/(_ (Ordinal im)).
  rewrite /row_res r1 r2 y1 y2 !ffunE !mxE !entryO to_vecO kq => H.
  by apply: Rminus_diag_uniq; exact: H.
Qed.

(** A test loaded in the first step and held afterwards, the only one of its batch. *)
Section Loaded.
Variables (nt : nat) (times : nat -> nat -> R) (s : R).
Definition loaded (k b : nat) : R := if k is 0%N then 0 else s.
Notation E1 := (fun _ : R => 1).
Definition c0 (_ _ : nat) : R := 0.
Variables (pn eta : R -> R).
Let B := Models.inelastic E1 (Flow.perfect pn eta).
Variables (lm : lin_method) (miter : nat) (throw : bool) (gt : string) (n : nat) (init : nat -> VB RF 1 (Models.rf_n B)) (st : istate RF 1 (Models.rf_n B)).
Hypothesis Gr : times_increase 1 nt times.
Hypothesis nt2 : (1 < nt)%N.
Hypothesis S : @solve_stress B 1 nt times loaded c0 BackwardEuler lm 0 0 miter throw gt n init = inl st.
Hypothesis W : i_warned st = [::].
Hypothesis sp : 0 < s.
Hypothesis ep : 0 < eta 0.
Let f := Rpower (s / eta 0) (pn 0).
Hypothesis Ld : / 10 ^ 10 < s / (times 1%N 0%N - times 0%N 0%N) + f.
Lemma f_pos : 0 < f. Proof using Type. exact: exp_pos. Qed.
Lemma f_rate k h t e : (0 < k)%N -> Flow.fl_rate (Flow.perfect pn eta) (loaded k 0) h t 0 e = f.
Proof.
case: k => // k _; rewrite /loaded norton_rate //; last lra.
rewrite /norton /Torch.tsign; case: Rlt_dec => h'; last lra. by rewrite Rabs_pos_eq; [rewrite Rmult_1_l|lra].
Qed.
Lemma loaded_zero : entry st 0 ord0 0%N = 0.
Proof using S. exact: (run_zero S ord0 (isT : (0 < Models.rf_n B)%N)). Qed.
(** the step that loads, and those in the same call, are exact *)
Lemma loaded_step k : (0 < k)%N -> (k < nt)%N -> ((k.-1 %/ n) * n <= 1)%N ->
  entry st k ord0 0%N - entry st k.-1 ord0 0%N = (loaded k 0 - loaded k.-1 0) + (times k 0%N - times k.-1 0%N) * f.
Proof.
move=> k0 kn qle; have [ts [Y [Hr jr qk Hts Q]]] := block_rows_at S W k0 kn.
set q := ((k.-1 %/ n) * n)%N in qle Hr jr qk Hts Q; set rows := (slice_len _ _ _).+1 in Hr jr Hts Q.
rewrite (Q ord0 0%N isT) /stress_G.
have idx i : (i < rows)%N -> [/\ pt_t ts i = times (q + i)%N 0%N, pt_base nt times loaded ts i = loaded (q + i)%N 0 ,
   pt_rate nt times loaded ts i = table_rates times loaded (q + i)%N 0 & pt_temp nt times c0 ts i = 0].
{ move=> ir; have kq : (q + i < nt)%N by apply: leq_trans Hr; rewrite ltn_add2l.
  have e : i = (i * 1 + (ord0 : 'I_1))%N by rewrite muln1 addn0.
  rewrite {1 3 5 7}e pt_tE pt_baseE pt_rateE pt_tempE Hts // ffunE !(interp_knot _ nt2 (ltn_ord ord0) Gr kq); by split. }
have [i /ltP ir|er [-> alt]] := StressR.sb_affine_points B (rows * 1) (pt_t ts) (pt_base nt times loaded ts) (pt_rate nt times loaded ts) (pt_temp nt times c0 ts) (pt_y (B := B) Y).
{ apply: StressR.inelastic_affine; first exact: Models.rate_free_perfect. lra. }
have rt i (h : R) : (i < rows)%N -> (0 < q + i)%N -> Models.rf_rate B (pt_t ts i) (Models.set0 (pt_base nt times loaded ts i) (pt_y Y i)) h (pt_temp nt times c0 ts i) 0%N = h - f.
{ move=> ir qi; have [-> -> _ ->] := idx i ir.
  rewrite [Models.rf_rate _ _ _ _ _ _](_ : _ = 1 * (h - Flow.fl_rate (Flow.perfect pn eta) (loaded (q + i)%N 0) Slices.vzero 0 0 0)); last by [].
  rewrite f_rate //; ring. }
have slope i : (i < rows)%N -> (0 < q + i)%N -> pt_rate nt times loaded ts i = (loaded (q + i)%N 0 - loaded (q + i).-1 0) / (times (q + i)%N 0%N - times (q + i).-1 0%N).
{ move=> ir qi; have [_ _ -> _] := idx i ir. have kq : (q + i < nt)%N by apply: leq_trans Hr; rewrite ltn_add2l.
  exact: (rates_knot loaded (isT : (0 < 1)%N) Gr qi kq). }
have dt := dt_pos (isT : (0 < 1)%N) Gr k0 kn.
rewrite muln1 in alt.
case: alt => [alt|[er0 alt]].
- have kk : (k = q + (k - q))%N by rewrite subnKC // ltnW.
  have qk0 : (0 < q + (k - q))%N by rewrite -kk.
  have := alt (k - q)%N (ltP jr); rewrite rt // slope // -kk => ex.
  rewrite /unflatten ffunE to_vecO mxE muln1 addn0 /Models.sb_rate Models.set0_0.
  have Fl (x a d : R) : x - f = a / d -> 0 < d -> d * x = a + d * f by move=> h d0; rewrite (_ : x = a / d + f); [field; lra|lra].
  exact: (Fl _ _ _ ex dt).
- exfalso. have ir : (1 - q < rows)%N.
  { apply: leq_ltn_trans jr; apply: leq_sub2r; exact: k0. }
  have e1 : (q + (1 - q) = 1)%N by rewrite subnKC.
  have qi : (0 < q + (1 - q))%N by rewrite e1.
  have := alt (1 - q)%N (ltP ir); rewrite er0 rt // slope // e1 [1.-1]/= [loaded 1 0]/= [loaded 0 0]/=.
  have Fl (x : R) : / 10 ^ 10 < x + f -> Rabs (0 - f - x) <= / 10 ^ 10 -> False.
  { move=> h1; rewrite (_ : 0 - f - x = - (x + f)); last ring. rewrite Rabs_Ropp => h2; have := Rle_abs (x + f); lra. }
  apply: Fl; by rewrite Rminus_0_r.
Qed.
(** a later call of held times only is not simulated if the creep is slow *)
Lemma held_step k : (0 < k)%N -> (k < nt)%N -> (1 < (k.-1 %/ n) * n)%N -> f <= / 10 ^ 10 -> entry st k ord0 0%N = entry st k.-1 ord0 0%N.
Proof.
move=> k0 kn qle Slow; have [ts [Y [Hr jr qk Hts Q]]] := block_rows_at S W k0 kn.
set q := ((k.-1 %/ n) * n)%N in qle Hr jr qk Hts Q; set rows := (slice_len _ _ _).+1 in Hr jr Hts Q.
have := Q ord0 0%N isT; rewrite /stress_G SlowCreep.sb_small.
{ rewrite /unflatten ffunE to_vecO mxE /Models.sb_rate Models.set0_0 => h; apply: Rminus_diag_uniq; rewrite h; exact: Rmult_0_r. }
move=> i /ltP ir; rewrite muln1 in ir; have kq : (q + i < nt)%N by apply: leq_trans Hr; rewrite ltn_add2l.
have e : i = (i * 1 + (ord0 : 'I_1))%N by rewrite muln1 addn0.
rewrite e pt_rateE pt_baseE pt_tempE pt_tE Hts // ffunE !(interp_knot _ nt2 (ltn_ord ord0) Gr kq).
have qi : (1 < q + i)%N by apply: leq_trans qle (leq_addr _ _).
rewrite (rates_knot loaded (isT : (0 < 1)%N) Gr (ltnW qi) kq) /step_rate.
rewrite [Models.rf_rate _ _ _ _ _ _](_ : _ = 1 * (0 - Flow.fl_rate (Flow.perfect pn eta) (loaded (q + i)%N 0) Slices.vzero 0 0 0)); last by [].
rewrite f_rate; last exact: ltnW.
move: qi; case: (q + i)%N => [|[|m]] // _; rewrite [m.+2.-1]/= [loaded m.+2 _]/= [loaded m.+1 _]/= Rminus_eq_0 /Rdiv Rmult_0_l.
rewrite (_ : 1 * (0 - f) - 0 = - f); last ring. by rewrite Rabs_Ropp Rabs_pos_eq //; left; exact: f_pos.
Qed.
End Loaded.

(** The block size is not only a matter of performance: the same creep test (loaded in the first step, then held at constant stress) run alone with block sizes 1 and 3 gives strains further
    apart than any given M, though every implicit step is solved exactly in both. *)
Theorem C149_block_size_refuted (M : R) : exists (pn eta : R -> R) (times stresses temps : nat -> nat -> R) st1 st3,
  times_increase 1 4 times /\
  @solve_stress (Models.inelastic (fun _ => 1) (Flow.perfect pn eta)) 1 4 times stresses temps BackwardEuler (Direct Thomas) 0 0 100 true "zero" 1 (fun _ => @zeroV RF 1 1) = inl st1 /\ i_warned st1 = [::] /\
  @solve_stress (Models.inelastic (fun _ => 1) (Flow.perfect pn eta)) 1 4 times stresses temps BackwardEuler (Direct Thomas) 0 0 100 true "zero" 3 (fun _ => @zeroV RF 1 1) = inl st3 /\ i_warned st3 = [::] /\
  entry st1 2 ord0 0%N = entry st3 2 ord0 0%N /\ M < entry st3 3 ord0 0%N - entry st1 3 ord0 0%N.
Proof.
pose pn (_ : R) := 1; pose eta (_ : R) := 10 ^ 10; pose D := (Rabs M + 1) * 10 ^ 10; pose times (k b : nat) := INR k * D.
have d10 : 0 < 10 ^ 10 by apply: pow_lt; lra.
have M0 := Rabs_pos M; have D0 : 0 < D by apply: Rmult_lt_0_compat; [lra|exact: d10].
have Gr : times_increase 1 4 times by move=> b _ i j ij _; apply: Rmult_lt_compat_r D0 _; exact: lt_INR.
have fE : Rpower (1 / eta 0) (pn 0) = / 10 ^ 10.
{ rewrite /pn Rpower_1; first by rewrite /eta /Rdiv Rmult_1_l. apply: Rdiv_lt_0_compat; [lra|exact: d10]. }
have Ld : / 10 ^ 10 < 1 / (times 1%N 0%N - times 0%N 0%N) + Rpower (1 / eta 0) (pn 0).
{ rewrite fE /times [INR 1]/= [INR 0]/=; have : 0 < 1 / (1 * D - 0 * D) by apply: Rdiv_lt_0_compat; lra. lra. }
have run n : (0 < n)%N -> exists st, @solve_stress (Models.inelastic (fun _ => 1) (Flow.perfect pn eta)) 1 4 times (loaded 1) c0 BackwardEuler (Direct Thomas) 0 0 100 true "zero" n (fun _ => @zeroV RF 1 1) = inl st /\ i_warned st = [::].
{ move=> n0; have h4 : (0 < 4)%N by []. have h100 : (1 < 100)%N by []. exact: (@C91_always_solved (fun _ => 1) (Flow.perfect pn eta) 1 4 times (loaded 1) c0 (Direct Thomas) 0 0 100 true "zero" n _ erefl (Rle_refl 0) n0 h100 h4 (or_introl erefl)). }
have [st1 [S1 W1]] := run 1%N (ltn0Sn 0); have [st3 [S3 W3]] := run 3%N (ltn0Sn 2).
have ex n st S W k := @loaded_step 4 times 1 pn eta (Direct Thomas) 100 true "zero" n (fun _ => @zeroV RF 1 1) st Gr isT S W Rlt_0_1 d10 Ld k.
have z1 := loaded_zero S1; have z3 := loaded_zero S3.
have a1 := ex _ _ S1 W1 1%N isT isT isT; have a2 := ex _ _ S1 W1 2%N isT isT isT.
have b1 := ex _ _ S3 W3 1%N isT isT isT; have b2 := ex _ _ S3 W3 2%N isT isT isT; have b3 := ex _ _ S3 W3 3%N isT isT isT.
have a3 := @held_step 4 times 1 pn eta (Direct Thomas) 100 true "zero" 1 (fun _ => @zeroV RF 1 1) st1 Gr isT S1 W1 Rlt_0_1 d10 3%N isT isT isT.
have le : Rpower (1 / eta 0) (pn 0) <= / 10 ^ 10 by rewrite fE; exact: Rle_refl.
move/(_ le): a3; move: a1 a2 b1 b2 b3; rewrite !fE => a1 a2 b1 b2 b3 a3.
exists pn, eta, times, (loaded 1), c0, st1, st3; split; first exact: Gr. split; first exact: S1. split; first exact: W1. split; first exact: S3. split; first exact: W3.
have [i1 [i2 i3]] : INR 1 = 1 /\ INR 2 = 2 /\ INR 3 = 3 by rewrite /=; split; [|split]; lra.
rewrite [3.-1]/= in a3; move: a1 a2 b1 b2 b3.
rewrite [1.-1]/= [2.-1]/= [3.-1]/= a3 /times i1 i2 i3 [INR 0]/= /loaded z1 z3 => a1 a2 b1 b2 b3.
have Fl (x1 x2 y1 y2 y3 g d : R) : x1 - 0 = 1 - 0 + (1 * d - 0 * d) * g -> x2 - x1 = 1 - 1 + (2 * d - 1 * d) * g -> y1 - 0 = 1 - 0 + (1 * d - 0 * d) * g ->
  y2 - y1 = 1 - 1 + (2 * d - 1 * d) * g -> y3 - y2 = 1 - 1 + (3 * d - 2 * d) * g -> x2 = y2 /\ y3 - x2 = d * g by move=> ? ? ? ? ?; split; lra.
have [A1 A2] := Fl _ _ _ _ _ _ _ a1 a2 b1 b2 b3.
split; first exact: A1.
rewrite A2 /D (_ : _ * / 10 ^ 10 = Rabs M + 1); last by field; lra. have := Rle_abs M; lra.
Qed.
Print Assumptions C149_block_size_refuted.
