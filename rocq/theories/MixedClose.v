(** Runs of mixed strain/stress batches to tolerance stay near the exact history. *)
From Coq Require Import Reals List String Lra Lia FunctionalExtensionality.
From mathcomp Require Import all_ssreflect all_algebra.
From Verif Require Import ChunkModel ChunkSolve ChunkInst NewtonModel Ode OdeForward OdeAdjoint OdeReal OdeBlock OdeDiff RField Gmres Implicit Tolerance Converge Pipeline PipelineBoth SmoothMx VCGrad GradHist MixedVC AdjointBlock MixedGrad NewtonConv.
From Verif Require Interp Models Flow Hardening Deriv Slices VCHistory VCClose StressClose StressR Props_FullModel VCExact Props_Stress Props_Gradient Props_GradTol Props_Mixed Props_Close.
Import GRing.Theory.
Set Implicit Arguments. Unset Strict Implicit. Unset Printing Implicit Defensive.
Local Open Scope ring_scope.
Delimit Scope R_scope with Re.
Import Props_FullModel VCExact Props_Stress Props_Gradient Props_GradTol Props_Mixed.

Lemma arith_step (er er' ey ey' D sl fr fy tol q e1 : R) : (ey - ey' = D * (sl + fy) -> Rabs (er - er' - D * (sl + fr)) <= tol -> tol <= q -> Rabs (D * fr - D * fy) <= e1 -> e1 <= q -> Rabs ((er - ey) - (er' - ey')) <= 2 * q)%Re.
Proof.
move=> H1 H2 H3 H4 H5; have -> : ((er - ey) - (er' - ey') = (er - er' - D * (sl + fr)) + (D * fr - D * fy))%Re.
      { have -> : ((er - ey) - (er' - ey') = er - er' - (ey - ey'))%Re by ring. rewrite H1; ring. }
      apply: Rle_trans (Rabs_triang _ _) _; lra.
Qed.
Lemma arith_gap (Et D sl fr fy e1 g0 w : R) : (0 < Et -> 0 < D -> e1 <= g0 -> Rabs (D * fr - D * fy) <= e1 -> Et * g0 < Rabs (Et * (D * (sl + fy))) - w * D -> Rabs (Et * (sl + fr)) <= w -> False)%Re.
Proof.
move=> H1 H2 H3 H4 H5 H6.
      have A1 : (Rabs (Et * (D * (sl + fy))) <= Rabs (Et * (sl + fr)) * D + Et * Rabs (D * fr - D * fy))%Re.
      { have B1 : (Rabs (Et * (sl + fr)) * D = Rabs (Et * (sl + fr) * D))%Re by rewrite (Rabs_mult (Et * _)) (Rabs_pos_eq D) //; exact: Rlt_le.
        have B2 : (Et * Rabs (D * fr - D * fy) = Rabs (Et * (D * fr - D * fy)))%Re by rewrite (Rabs_mult Et) (Rabs_pos_eq Et) //; exact: Rlt_le.
        rewrite B1 B2; have -> : (Et * (D * (sl + fy)) = Et * (sl + fr) * D + - (Et * (D * fr - D * fy)))%Re by ring.
        apply: Rle_trans (Rabs_triang _ _) _; rewrite Rabs_Ropp; exact: Rle_refl. }
have A2 := Rmult_le_compat_r _ _ _ (Rlt_le _ _ H2) H6.
      have A3 := Rmult_le_compat_l _ _ _ (Rlt_le _ _ H1) (Rle_trans _ _ _ H4 H3). lra.
Qed.

Lemma arith_sum (u v n q : R) : (Rabs u <= n * (2 * q) -> Rabs (v - u) <= 2 * q -> Rabs v <= (n + 1) * (2 * q))%Re.
Proof. move=> Hu Hv; have X := Rabs_triang (v - u) u; have E : (v - u + u = v)%Re by ring. rewrite E in X; lra. Qed.

Section Runs.
Variables (E pn eta s0 Rs d : R -> R) (nback : nat) (C g : R -> nat -> R).
Let B := voce_chaboche E pn eta s0 Rs d nback C g.
Variables (nb nt : nat) (times data temps : nat -> nat -> R) (control : nat -> R).
Hypothesis Cc : controls nb control.
Hypothesis Gr : times_increase nb nt times.
Hypothesis Gd : forall b, (b < nb)%N -> good_entry E pn eta s0 Rs d nback C g nt temps b.
Hypothesis Sp : forall k b, (k < nt)%N -> (b < nb)%N -> (0 < s0 (temps k b))%Re.
Variable Y : nat -> VB RF nb nback.+2.
Hypothesis HY : mixed_history (B := B) nt times data temps control Y.
Notation bG := (both_G (B := B) (nb := nb) nt times data temps control).
Notation fm := (mixed_f E pn eta s0 Rs d (nback := nback) C g (nb := nb) nt times data temps control).
Let F T sg h := VCHistory.the_flow pn eta s0 nback T sg h.
Let hY k (b : 'I_nb) i := @to_vec B (Y k b) i.+1.
Let dt k b := (times k b - times k.-1 b)%Re.
Let nc tol k b := StressClose.near_creep pn eta s0 Rs d nback C g tol (temps k b) (dt k b) (data k b).

(** Any sequence of internal variables satisfying the equations of a stress-controlled test up to a small enough residual is near the exact one. *)
Lemma creep_history_close (b : 'I_nb) : control b = 1%Re -> forall m, (m < nt)%N -> forall e, (0 < e)%Re -> exists tol, (0 < tol)%Re /\ forall z : nat -> Slices.vec,
  (forall i, (i <= nback)%coq_nat -> z 0%N i = 0%Re) -> (forall k, (0 < k)%N -> (k <= m)%N -> nc tol k b (z k.-1) (z k)) ->
  forall k, (k <= m)%N -> (forall i, (i <= nback)%coq_nat -> (Rabs (z k i - hY k b i) <= e)%Re) /\
    ((0 < k)%N -> (Rabs (dt k b * F (temps k b) (data k b) (z k) - dt k b * F (temps k b) (data k b) (hY k b)) <= e)%Re).
Proof.
move=> c1; elim=> [|m IH] mn e e0.
{ exists 1%Re; split; first lra. move=> z Z _ [|//] _; split=> // i ib; rewrite Z // /hY (proj1 HY) tvec0 Rminus_diag_eq // Rabs_R0; exact: Rlt_le. }
have [_ Hs] := HY; have := proj1 (mstep_model data Gr Gd Cc Y b (ltn0Sn m) mn) (Hs m.+1 b (ltn0Sn m) mn).
rewrite /mstep; cbv zeta; case: Req_EM_T => // _ [_ S1].
have [/(_ m.+1 mn) [Ep A] G2] := Gd (ltn_ord b).
have In : VCHistory.in_range Rs nback C g (temps m.+1 b) (hY m b).
{ have I0 := mixed_range (nb := nb) Gr Gd Cc HY b (ltnW mn); exact: VCHistory.range_next (G2 m mn) I0. }
have [dl [d0 Hd]] := StressClose.creep_close _ _ _ _ _ _ _ _ _ _ _ _ _ (Rlt_le _ _ (dt_pos (ltn_ord b) Gr (ltn0Sn m) mn)) A In (Sp mn (ltn_ord b)) S1 _ e0.
have [tol [t0 Ht]] := IH (ltnW mn) (Rmin dl e) (Rmin_glb_lt _ _ _ d0 e0).
exists (Rmin dl tol); split; first exact: Rmin_glb_lt.
have wk tol' tol'' k h h' : (tol' <= tol'')%Re -> nc tol' k b h h' -> nc tol'' k b h h'.
{ by move=> le [P1 P2]; split=> [|i ib]; [exact: Rle_trans P1 le|exact: Rle_trans (P2 i ib) le]. }
move=> z Z N.
have Hm := Ht z Z (fun k k0 km => wk _ _ _ _ _ (Rmin_r _ _) (N k k0 (leqW km))).
move=> k; rewrite leq_eqVlt => /orP [/eqP ->|]; last first.
{ rewrite ltnS => km; have [P1 P2] := Hm k km; split=> [i ib|k0]; [exact: Rle_trans (P1 i ib) (Rmin_r _ _)|exact: Rle_trans (P2 k0) (Rmin_r _ _)]. }
have [P1 _] := Hm m (leqnn m).
have [Q1 Q2] := Hd (z m) (z m.+1) (fun i ib => Rle_trans _ _ _ (P1 i ib) (Rmin_l _ _)) (wk _ _ _ _ _ (Rmin_l _ _) (N m.+1 (ltn0Sn m) (leqnn _))).
by split=> // _.
Qed.

Section Run.
Variables (lm : lin_method) (rtol atol : R) (miter : nat) (throw : bool) (gt : string) (n : nat) (init : nat -> VB RF nb nback.+2) (st : istate RF nb nback.+2).
Hypothesis S : @solve_both B nb nt times data temps control BackwardEuler lm rtol atol miter throw gt n init = inl st.
Hypothesis W : i_warned st = [::].
Let ent k (b : 'I_nb) i := entry (B := B) st k b i.
Let hrun k (b : 'I_nb) i := ent k b i.+1.
Lemma run_creep (b : 'I_nb) tol : tol_boundG bG BackwardEuler rtol atol gt n nt (time_table nb times) (i_result st) b tol -> control b = 1%Re ->
  (forall i, (i <= nback.+1)%N -> ent 0 b i = 0%Re) /\ forall k, (0 < k)%N -> (k < nt)%N -> nc tol k b (hrun k.-1 b) (hrun k b).
Proof.
move=> T c1; split; first by move=> i ib; exact: (run_zero S).
have Aff : affine_run (B := B) (nb := nb) nt times data temps st.
{ move=> k b' kn; apply: StressR.inelastic_affine; first exact: VCStress.vc_rate_free. have [/(_ k kn) [e0 _] _] := Gd (ltn_ord b'); apply: Rgt_not_eq; exact: e0. }
move=> k k0 kn; have [er [_ [_ H]]] := @both_stress_steps_tol B nb nt times data temps control lm rtol atol miter throw gt n init st b tol (ltn0Sn nback.+1 : (0 < Models.rf_n B)%N) Gr S W T Aff c1 k k0 kn.
split=> [|i /ltP ib].
- have := H 1%N (ltn0Sn 0) (ltn0Sn _); rewrite (VCHistory.vc_row1 E pn eta s0 Rs d nback C g); exact.
- have := H i.+2 (ltn0Sn _) ib; rewrite (VCHistory.vc_rowS E pn eta s0 Rs d nback C g); exact.
Qed.
(** The strain of a stress-controlled test: its equation holds to tolerance, or no inner solve of the block did anything. *)
Lemma run_strain (b : 'I_nb) tol k : tol_boundG bG BackwardEuler rtol atol gt n nt (time_table nb times) (i_result st) b tol -> control b = 1%Re -> (0 < k)%N -> (k < nt)%N ->
  (Rabs (ent k b 0%N - ent k.-1 b 0%N - dt k b * (step_rate times data k b / E (temps k b) + F (temps k b) (data k b) (hrun k b))) <= tol)%Re \/
  forall b' : 'I_nb, control b' = 1%Re -> (Rabs (E (temps k b') * (step_rate times data k b' / E (temps k b') + F (temps k b') (data k b') (hrun k b'))) <= / 10 ^ 10)%Re.
Proof.
move=> T c1 k0 kn; have [ts [Z [q [rows [j [Hr jr kE [Hts HZ] H]]]]]] := block_rows_tol S W T k0 kn.
have n2 : (1 < nt)%N by apply: leq_ltn_trans kn.
have IT (tab : nat -> nat -> R) j' (b' : 'I_nb) : (j' < rows)%N -> interp_at nt times tab b' (ts j' b') = tab (q + j')%N b'.
{ move=> j'r; rewrite Hts // ffunE; apply: (interp_knot tab n2 (ltn_ord b') Gr); apply: leq_trans Hr; by rewrite ltn_add2l. }
have E0 j' (b' : 'I_nb) : (j' < rows)%N -> (0 < E (interp_at nt times temps b' (ts j' b')))%Re.
{ move=> j'r; rewrite IT //; have qn : (q + j' < nt)%N by apply: leq_trans Hr; rewrite ltn_add2l. by have [/(_ _ qn) []] := Gd (ltn_ord b'). }
have fm0 (b' : 'I_nb) : control b' = 1%Re -> fm b' (ts j b') (Z j b') ord0 ord0 = (step_rate times data k b' / E (temps k b') + F (temps k b') (data k b') (hrun k b'))%Re.
{ move=> c; rewrite /mixed_f; case: Req_EM_T => [c'|c']; last by case: (c' c). rewrite mxE VCStress.creep_row0 !IT // HZ // -kE (rates_knot data (ltn_ord b') Gr k0 kn); by []. }
case: (@both_rate_alt E pn eta s0 Rs d nback C g nb nt times data temps control Cc rows ts Z E0) => [R1|R2]; [left|right].
- have := H 0%N (ltn0Sn _); rewrite R1 // (@to_vecE B _ (ord0 : 'I_nback.+2)) fm0 //; exact.
- move=> b' c; have [_] := R2 j b' jr c; rewrite fm0 // IT // -kE; exact.
Qed.
End Run.

Lemma dt0 k (b : 'I_nb) : (0 < k)%N -> (k < nt)%N -> (0 < dt k b)%Re.
Proof. move=> k0 kn; exact: (dt_pos (ltn_ord b) Gr k0 kn). Qed.
Lemma exact_strain k (b : 'I_nb) : control b = 1%Re -> (0 < k)%N -> (k < nt)%N ->
  (@to_vec B (Y k b) 0%N - @to_vec B (Y k.-1 b) 0%N = dt k b * (step_rate times data k b / E (temps k b) + F (temps k b) (data k b) (hY k b)))%Re.
Proof.
move=> c1 k0 kn; have [_ Hs] := HY; have := proj1 (mstep_model data Gr Gd Cc Y b k0 kn) (Hs k b k0 kn).
rewrite /mstep; cbv zeta; case: Req_EM_T => [c'|c']; last by case: (c' c1). move=> [-> _].
have D := dt0 b k0 kn; have [/(_ k kn) [e0 _] _] := Gd (ltn_ord b).
have Fl (t e dd q : R) : (0 < t -> 0 < e -> dd / e + t * q = t * (dd / t / e + q))%Re by move=> *; field; lra.
exact: Fl.
Qed.
Hypothesis Act : every_step_active nt times temps control E Y.
Lemma active_gap (b : 'I_nb) : control b = 1%Re -> exists e0, (0 < e0)%Re /\ forall k, (0 < k)%N -> (k < nt)%N -> exists ba : 'I_nb, control ba = 1%Re /\
  (E (temps k ba) * e0 < Rabs (E (temps k ba) * (@to_vec B (Y k ba) 0%N - @to_vec B (Y k.-1 ba) 0%N)) - / 10 ^ 10 * dt k ba)%Re.
Proof.
move=> c1; case: Act => [C0|Ac]; first by exfalso; have := C0 b (ltn_ord b); rewrite c1 => /R1_neq_R0.
suff H m : (m <= nt)%N -> exists e0, (0 < e0)%Re /\ forall k, (0 < k)%N -> (k < m)%N -> exists ba : 'I_nb, control ba = 1%Re /\
  (E (temps k ba) * e0 < Rabs (E (temps k ba) * (@to_vec B (Y k ba) 0%N - @to_vec B (Y k.-1 ba) 0%N)) - / 10 ^ 10 * dt k ba)%Re by exact: H.
elim: m => [|m IH] mn; first by exists 1%Re; split; [lra|].
have [e0 [p0 H]] := IH (ltnW mn); case: (posnP m) => [m0|mp].
{ exists 1%Re; split; first lra. move=> k k0; rewrite m0 ltnS leqn0 => /eqP kz; by rewrite kz in k0. }
have [ba [ca Ha]] := Ac m mp mn; have [/(_ m mn) [Ep _] _] := Gd (ltn_ord ba).
have e0' (y : 'cV[RF]_nback.+2) : @to_vec B y 0%N = y ord0 ord0 := @to_vecE B y (ord0 : 'I_nback.+2).
set gap := (Rabs (E (temps m ba) * (@to_vec B (Y m ba) 0%N - @to_vec B (Y m.-1 ba) 0%N)) - / 10 ^ 10 * dt m ba)%Re.
have g0 : (0 < gap)%Re by rewrite /gap !e0'; move: Ha; rewrite /dt; lra.
exists (Rmin e0 (gap / (2 * E (temps m ba)))); split; first by apply: Rmin_glb_lt => //; apply: Rdiv_lt_0_compat => //; lra.
move=> k k0; rewrite ltnS leq_eqVlt => /orP [/eqP ->|km].
- exists ba; split; first exact: ca. rewrite -/gap; have M := Rmin_r e0 (gap / (2 * E (temps m ba))).
  apply: Rle_lt_trans (Rmult_le_compat_l _ _ _ (Rlt_le _ _ Ep) M) _.
  have -> : (E (temps m ba) * (gap / (2 * E (temps m ba))) = gap / 2)%Re by field; lra. lra.
- have [bb [cb Hb]] := H k k0 km; exists bb; split; first exact: cb.
  have kn := ltn_trans km mn; have [/(_ k kn) [Ek _] _] := Gd (ltn_ord bb).
  exact: Rle_lt_trans (Rmult_le_compat_l _ _ _ (Rlt_le _ _ Ek) (Rmin_l _ _)) Hb.
Qed.
(** Stress-controlled tests *)
Lemma stress_within (b : 'I_nb) : control b = 1%Re -> forall e, (0 < e)%Re -> exists tol, (0 < tol)%Re /\ forall lm rtol atol miter throw gt n init st,
  @solve_both B nb nt times data temps control BackwardEuler lm rtol atol miter throw gt n init = inl st -> i_warned st = [::] ->
  (forall b, tol_boundG bG BackwardEuler rtol atol gt n nt (time_table nb times) (i_result st) b tol) ->
  forall k i, (k < nt)%N -> (i <= nback.+1)%N -> (Rabs (entry (B := B) st k b i - @to_vec B (Y k b) i) <= e)%Re.
Proof.
move=> c1 e ep; case: (posnP nt) => [n0|ntp].
{ exists 1%Re; split; first lra. move=> lm rtol atol miter throw gt n init st _ _ _ k i; by rewrite n0. }
have [g0 [g0p Hg]] := active_gap c1.
have N0 : (0 < INR nt + 1)%Re by have := pos_INR nt; lra.
pose q := (e / (2 * (INR nt + 1)))%Re; have q0 : (0 < q)%Re by apply: Rdiv_lt_0_compat; lra.
pose e1 := Rmin (Rmin e q) g0; have e10 : (0 < e1)%Re by apply: Rmin_glb_lt => //; exact: Rmin_glb_lt.
have e1e : (e1 <= e)%Re by apply: Rle_trans (Rmin_l _ _) (Rmin_l _ _).
have e1q : (e1 <= q)%Re by apply: Rle_trans (Rmin_l _ _) (Rmin_r _ _).
have e1g : (e1 <= g0)%Re by exact: Rmin_r.
have wk tol' tol'' k b' h h' : (tol' <= tol'')%Re -> nc tol' k b' h h' -> nc tol'' k b' h h'.
{ by move=> le [P1 P2]; split=> [|i ib]; [exact: Rle_trans P1 le|exact: Rle_trans (P2 i ib) le]. }
pose P (b' : 'I_nb) tol := control b' = 1%Re -> forall z : nat -> Slices.vec,
  (forall i, (i <= nback)%coq_nat -> z 0%N i = 0%Re) -> (forall k, (0 < k)%N -> (k <= nt.-1)%N -> nc tol k b' (z k.-1) (z k)) ->
  forall k, (k <= nt.-1)%N -> (forall i, (i <= nback)%coq_nat -> (Rabs (z k i - hY k b' i) <= e1)%Re) /\
    ((0 < k)%N -> (Rabs (dt k b' * F (temps k b') (data k b') (z k) - dt k b' * F (temps k b') (data k b') (hY k b')) <= e1)%Re).
have [tol1 [t10 HP]] : exists tol, (0 < tol)%Re /\ forall b', P b' tol.
{ apply: fin_radius.
  - move=> b' r r' rr Hp c' z Z N; apply: (Hp c' z Z) => k k0 kn; exact: wk rr (N k k0 kn).
  - move=> b'; case: (Req_EM_T (control b') 1) => [c'|c']; last by exists 1%Re; split; [lra|].
    have np : (nt.-1 < nt)%N by rewrite prednK.
    have [tol [t0 Ht]] := creep_history_close c' np e10; exists tol; split; first exact: t0. by move=> _. }
exists (Rmin tol1 q); split; first exact: Rmin_glb_lt.
move=> lm rtol atol miter throw gt n init st So W T.
have Cl (b' : 'I_nb) (c' : control b' = 1%Re) := HP b' c' (fun k i => entry (B := B) st k b' i.+1)
  (fun i ib => proj1 (run_creep So W (T b') c') i.+1 (introT ltP (le_n_S _ _ ib)))
  (fun k k0 kn => wk _ _ _ _ _ _ (Rmin_l tol1 q) (proj2 (run_creep So W (T b') c') k k0 (leq_trans (introT leP (le_n_S _ _ (elimT leP kn))) (eq_leq (prednK ntp))))).
have le1 k : (k < nt)%N -> (k <= nt.-1)%N by move=> kn; rewrite -ltnS prednK.
have stp k : (0 < k)%N -> (k < nt)%N -> (Rabs ((entry (B := B) st k b 0%N - @to_vec B (Y k b) 0%N) - (entry (B := B) st k.-1 b 0%N - @to_vec B (Y k.-1 b) 0%N)) <= 2 * q)%Re.
{ move=> k0 kn; have X := exact_strain c1 k0 kn; case: (run_strain So W (T b) c1 k0 kn) => [Q|Q].
  - have [_ /(_ k0) Z] := Cl b c1 k (le1 k kn); have tq := Rmin_r tol1 q.
    exact: arith_step X Q tq Z e1q.
  - exfalso; have [ba [ca Ha]] := Hg k k0 kn; have D := dt0 ba k0 kn; have [/(_ k kn) [Ep _] _] := Gd (ltn_ord ba).
    have [_ /(_ k0) Z] := Cl ba ca k (le1 k kn); have Qa := Q ba ca; rewrite (exact_strain ca k0 kn) in Ha.
    exact: arith_gap Ep D e1g Z Ha Qa. }
have str k : (k < nt)%N -> (Rabs (entry (B := B) st k b 0%N - @to_vec B (Y k b) 0%N) <= INR k * (2 * q))%Re.
{ elim: k => [|k IH] kn.
  - rewrite (proj1 (run_creep So W (T b) c1) 0%N isT) (proj1 HY) tvec0 (Rminus_diag_eq 0 0 erefl) Rabs_R0 [INR 0]/= Rmult_0_l; exact: Rle_refl.
  - have := stp k.+1 (ltn0Sn k) kn; have := IH (ltnW kn); rewrite [k.+1.-1]/= S_INR.
    move=> Hu Hv; exact: arith_sum Hu Hv. }
move=> k [|i] kn ib; last first.
{ have [H _] := Cl b c1 k (le1 k kn); exact: Rle_trans (H i (le_S_n _ _ (elimT leP ib))) e1e. }
apply: Rle_trans (str k kn) _.
have kN : (INR k <= INR nt)%Re by apply: le_INR; apply/leP; exact: ltnW.
have -> : (2 * q = e / (INR nt + 1))%Re by rewrite /q; field; lra.
apply: (Rmult_le_reg_r (INR nt + 1)) => //.
have -> : (INR k * (e / (INR nt + 1)) * (INR nt + 1) = INR k * e)%Re by field; lra.
nra.
Qed.

(** Strain-controlled tests: one of them alone has the history of C118. *)
Lemma strain_within (b : 'I_nb) : control b = 0%Re -> forall e, (0 < e)%Re -> exists tol, (0 < tol)%Re /\ forall lm rtol atol miter throw gt n init st,
  @solve_both B nb nt times data temps control BackwardEuler lm rtol atol miter throw gt n init = inl st -> i_warned st = [::] ->
  (forall b, tol_boundG bG BackwardEuler rtol atol gt n nt (time_table nb times) (i_result st) b tol) ->
  forall k i, (k < nt)%N -> (i <= nback.+1)%N -> (Rabs (entry (B := B) st k b i - @to_vec B (Y k b) i) <= e)%Re.
Proof.
move=> c0 e ep.
have G1 : times_increase 1 nt (fun k _ => times k b) by move=> [//|//] _ i j ij jn; apply: Gr.
have [z [Hz /(_ e ep) [tol [t0 Cl]]]] := @Props_Close.C118_tighter_tolerance_converges E pn eta s0 Rs d nback C g nt (fun k _ => times k b) (fun k _ => data k b) (fun k _ => temps k b) G1 (Gd (ltn_ord b)) (fun k kn => Sp kn (ltn_ord b)).
exists tol; split; first exact: t0. move=> lm rtol atol miter throw gt n init st So W T k i kn ib.
have same j : (j < nt)%N -> z j ord0 = Y j b.
{ have Hyb : exact_history (nb := 1) (B := B) nt (fun k _ => times k b) (fun k _ => data k b) (fun k _ => temps k b) (fun k => [ffun => Y k b]).
  { apply/(history_model (nb := 1) _ _ G1); have [Z K] := HY; split.
    - by apply/ffunP => o; rewrite Z !ffunE.
    - move=> j' o j0 jn; rewrite !ffunE; have := proj1 (mstep_model data Gr Gd Cc Y b j0 jn) (K j' b j0 jn).
      rewrite /mstep; cbv zeta; case: Req_EM_T => [c'|c']; first by exfalso; rewrite c0 in c'; lra. exact. }
  move=> jn; rewrite (history_unique (nb := 1) G1 _ Hz Hyb jn) ?ffunE //; case=> // _; exact: Gd. }
rewrite -(same k kn); exact: (Cl nb times data temps control _ _ _ _ _ _ _ _ st b Gr So W (T b) c0 (fun k _ => conj erefl (conj erefl erefl)) k i kn ib).
Qed.
(** All tests of the batch together. *)
Lemma mixed_runs_within : forall eps, (0 < eps)%Re -> exists tol, (0 < tol)%Re /\ forall lm rtol atol miter throw gt n init st,
  @solve_both B nb nt times data temps control BackwardEuler lm rtol atol miter throw gt n init = inl st -> i_warned st = [::] ->
  (forall b, tol_boundG bG BackwardEuler rtol atol gt n nt (time_table nb times) (i_result st) b tol) -> within nt eps (i_result st) Y.
Proof.
move=> eps e0.
pose P (b : 'I_nb) tol := forall lm rtol atol miter throw gt n init st,
  @solve_both B nb nt times data temps control BackwardEuler lm rtol atol miter throw gt n init = inl st -> i_warned st = [::] ->
  (forall b, tol_boundG bG BackwardEuler rtol atol gt n nt (time_table nb times) (i_result st) b tol) ->
  forall k i, (k < nt)%N -> (i <= nback.+1)%N -> (Rabs (entry (B := B) st k b i - @to_vec B (Y k b) i) <= eps)%Re.
have [tol [t0 H]] : exists tol, (0 < tol)%Re /\ forall b, P b tol.
{ apply: fin_radius.
  - move=> b r r' rr H lm rtol atol miter throw gt n init st So W T; apply: (H lm rtol atol miter throw gt n init st So W) => b'.
    have [T0 [T1 T2]] := T b'; split; [exact: Rle_trans T0 rr|split; [exact: Rle_trans T1 rr|]].
    case: T2 => [r0|[gz T2]]; [by left|right; split; first exact: gz]. move=> j j0 jn k0 len ts Yg Q1 Q2; exact: Rle_trans (T2 j j0 jn ts Yg Q1 Q2) rr.
  - move=> b; case: (Cc (ltn_ord b)) => [c0|c1]; [exact (strain_within c0 e0)|exact (stress_within c1 e0)]. }
exists tol; split; first exact: t0. move=> lm rtol atol miter throw gt n init st So W T k b i kn.
have := H b lm rtol atol miter throw gt n init st So W T k i kn (ltn_ord i : (i <= nback.+1)%N).
rewrite (@entryE B nb st k b i) (@to_vecE B (Y k b) i); exact.
Qed.
End Runs.
