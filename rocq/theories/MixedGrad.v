(** Mixed control of the Voce / Chaboche model: the calls of BothBasedModel with an active inner solve return the rates of MixedVC, which meet the
    hypotheses of the adjoint gradient theorem along the exact history. *)
From Coq Require Import Reals List String Lra Lia FunctionalExtensionality.
From mathcomp Require Import all_ssreflect all_algebra.
From Verif Require Import ChunkModel ChunkSolve ChunkInst NewtonModel Ode OdeForward OdeAdjoint OdeReal OdeBlock OdeDiff RField Gmres Implicit Pipeline PipelineBoth SmoothMx VCGrad MixedVC AdjointBlock.
From Verif Require Interp Models Flow Hardening Deriv Slices StressR VCStep VCHistory VCStress Props_FullModel VCExact SmoothR VCSmooth VCRegular.
Import GRing.Theory.
Set Implicit Arguments. Unset Strict Implicit. Unset Printing Implicit Defensive.
Local Open Scope ring_scope.
Delimit Scope R_scope with Re.
Import Props_FullModel VCExact.

Section Link.
Variables (E pn eta s0 Rs d : R -> R) (nback : nat) (C g : R -> nat -> R).
Let B := voce_chaboche E pn eta s0 Rs d nback C g.
Variables (nb nt : nat) (times data temps : nat -> nat -> R) (control : nat -> R).
Hypothesis Cc : controls nb control.
Let fm := mixed_f E pn eta s0 Rs d (nback := nback) C g (nb := nb) nt times data temps control.
Let Jm := mixed_J E pn eta s0 Rs d (nback := nback) C g (nb := nb) nt times data temps control.
Local Notation bG := (both_G (B := B) nt times data temps control).
Lemma both_jac rows (ts : nat -> TB RF nb) (Y : nat -> VB RF nb nback.+2) : (bG rows ts Y).2 = func_jac Jm ts Y.
Proof.
rewrite /both_G /Models.both_forward.
have [r /Models.sb_forward_of ->] := Models.sb_forward_some B (rows * nb) (pt_t ts) (pt_base nt times data ts) (pt_rate nt times data ts) (pt_temp nt times temps ts) (pt_y (B := B) Y).
rewrite /unflatten /Models.masked; apply: functional_extensionality => k; apply/ffunP => b; rewrite !ffunE /Jm /mixed_J.
apply/matrixP => i j; rewrite !mxE pt_b.
case: Req_EM_T => [c1|c1].
- cbn [fst snd is_left]; rewrite pt_tE pt_yE pt_baseE pt_tempE mxE.
  exact: (VCStress.creep_jac_any E pn eta s0 Rs d nback C g).
- case: Req_EM_T => [c0|c0]; last by case: (Cc (ltn_ord b)).
  by rewrite /strain_J mxE /= pt_tE pt_yE pt_rateE pt_tempE.
Qed.
(** The inner solve of a call does something: at some point the strain rate it looks for exceeds its tolerance. *)
Definition call_active (rows : nat) (ts : nat -> TB RF nb) (Y : nat -> VB RF nb nback.+2) : Prop :=
  exists k (b : 'I_nb), [/\ (k < rows)%N, control b = 1%Re &
    (/ 10 ^ 10 < Rabs (E (interp_at nt times temps b (ts k b)) * fm b (ts k b) (Y k b) ord0 ord0))%Re].
Lemma pt_split rows i : (i < rows * nb)%N -> exists k (b : 'I_nb), (k < rows)%N /\ i = (k * nb + b)%N.
Proof.
move=> h; have nb0 : (0 < nb)%N by case: (nb) h => //; rewrite muln0.
exists (i %/ nb)%N, (Ordinal (ltn_pmod i nb0)); split; first by rewrite ltn_divLR.
exact: divn_eq.
Qed.
(** Either a call returns the exact rates, or its inner solve stopped at once: every strain rate it returns is zero and within the tolerance. *)
Lemma both_rate_alt rows (ts : nat -> TB RF nb) (Y : nat -> VB RF nb nback.+2) :
  (forall k (b : 'I_nb), (k < rows)%N -> (0 < E (interp_at nt times temps b (ts k b)))%Re) ->
  (forall k b, (k < rows)%N -> (bG rows ts Y).1 k b = fm b (ts k b) (Y k b)) \/
  (forall k (b : 'I_nb), (k < rows)%N -> control b = 1%Re -> (bG rows ts Y).1 k b ord0 ord0 = 0%Re /\
     (Rabs (E (interp_at nt times temps b (ts k b)) * fm b (ts k b) (Y k b) ord0 ord0) <= / 10 ^ 10)%Re).
Proof.
move=> E0; rewrite /both_G /Models.both_forward.
have [i /ltP ir|er [-> alt]] := StressR.sb_affine_points B (rows * nb) (pt_t ts) (pt_base nt times data ts) (pt_rate nt times data ts) (pt_temp nt times temps ts) (pt_y (B := B) Y).
{ have [k' [b' [k'r ->]]] := pt_split ir; apply: StressR.inelastic_affine; first exact: VCStress.vc_rate_free.
  rewrite pt_tempE; have := E0 k' b' k'r; lra. }
have idx k' (b' : 'I_nb) : (k' < rows)%N -> (k' * nb + b' < rows * nb)%coq_nat.
{ move=> k'r; apply/ltP; apply: (@leq_trans (k' * nb + nb)); first by rewrite ltn_add2l.
  by rewrite -mulSnr leq_mul2r k'r orbT. }
have U k' (b' : 'I_nb) er0 : (k' < rows)%N -> Models.rf_rate B (pt_t ts (k' * nb + b')%N) (Models.set0 (pt_base nt times data ts (k' * nb + b')%N) (pt_y (B := B) Y (k' * nb + b')%N)) er0 (pt_temp nt times temps ts (k' * nb + b')%N) 0%N =
   (E (interp_at nt times temps b' (ts k' b')) * (er0 - VCHistory.the_flow pn eta s0 nback (interp_at nt times temps b' (ts k' b')) (interp_at nt times data b' (ts k' b')) (fun i => @to_vec B (Y k' b') i.+1)))%Re.
{ move=> k'r; rewrite (VCHistory.vc_row0 E pn eta s0 Rs d nback C g) pt_tempE pt_baseE pt_yE; by []. }
case: alt => [alt|[er0 alt]]; [left|right] => k b kr.
- have ex k' (b' : 'I_nb) : (k' < rows)%N -> er (k' * nb + b')%N = (interp_at nt times (table_rates times data) b' (ts k' b') / E (interp_at nt times temps b' (ts k' b')) + VCHistory.the_flow pn eta s0 nback (interp_at nt times temps b' (ts k' b')) (interp_at nt times data b' (ts k' b')) (fun i => @to_vec B (Y k' b') i.+1))%Re.
  { move=> k'r; have e0 := E0 k' b' k'r.
    have := alt _ (idx k' b' k'r); rewrite U // pt_rateE => Q.
    have Fl (e x q r : R) : (0 < e)%Re -> (e * (x - q) = r)%Re -> (x = r / e + q)%Re by move=> ep <-; field; lra.
    exact: Fl. }
  rewrite /unflatten /Models.masked ffunE /fm /mixed_f; apply/colP => i; rewrite mxE pt_b; case: Req_EM_T => [c1|c1].
  + rewrite mxE /= ex // pt_tE pt_yE pt_baseE pt_tempE /VCStress.creep_rate /VCStress.creep_strain_rate VCHistory.vc_rate; by [].
  + case: Req_EM_T => [c0|c0]; last by case: (Cc (ltn_ord b)).
    by rewrite /strain_f mxE /= pt_tE pt_yE pt_rateE pt_tempE.
- move=> c1; split.
  + rewrite /unflatten /Models.masked ffunE mxE pt_b; case: Req_EM_T => // _; cbn [fst snd is_left]; by rewrite er0 /Models.sb_rate Models.set0_0.
  + have := alt _ (idx k b kr); rewrite er0 U // pt_rateE /fm /mixed_f; case: Req_EM_T => // c1'; rewrite mxE VCStress.creep_row0; have ea := E0 k b kr.
    have Fl (e q r : R) : (0 < e)%Re -> (e * (0 - q) - r = - (e * (r / e + q)))%Re by move=> ep; field; lra.
    by rewrite Fl // Rabs_Ropp.
Qed.
Lemma both_rate rows (ts : nat -> TB RF nb) (Y : nat -> VB RF nb nback.+2) :
  (forall k (b : 'I_nb), (k < rows)%N -> (0 < E (interp_at nt times temps b (ts k b)))%Re) ->
  (forall b, (b < nb)%N -> control b = 0%Re) \/ call_active rows ts Y ->
  forall k b, (k < rows)%N -> (bG rows ts Y).1 k b = fm b (ts k b) (Y k b).
Proof.
move=> E0 [C0|[ka [ba [kar ca act]]]] k b kr.
{ rewrite (both_all_strain (B := B) nt times data temps rows ts Y C0) /= /func_rate ffunE /fm /mixed_f; case: Req_EM_T => // c1.
  exfalso; have := C0 b (ltn_ord b); rewrite c1 => /R1_neq_R0; by []. }
case: (both_rate_alt Y E0) => [->//|/(_ ka ba kar ca) [_ Bd]]; exfalso; exact: Rlt_irrefl (Rlt_le_trans _ _ _ act Bd).
Qed.
End Link.

Section Family.
Variables (np nback : nat) (E pn eta s0 Rs d : 'cV[RF]_np -> R -> R) (C g : 'cV[RF]_np -> R -> nat -> R).
Variables (nb nt : nat) (times data temps : nat -> nat -> R) (control : nat -> R).
(** the rates and Jacobian of MixedVC as functions of the calibrated parameters *)
Definition rate_m (b : 'I_nb) (t : RF) (y : 'cV[RF]_nback.+2) (p : 'cV[RF]_np) : 'cV[RF]_nback.+2 :=
  mixed_f (E p) (pn p) (eta p) (s0 p) (Rs p) (d p) (nback := nback) (C p) (g p) nt times data temps control b t y.
Definition jac_m (b : 'I_nb) (t : RF) (y : 'cV[RF]_nback.+2) (p : 'cV[RF]_np) : 'M[RF]_nback.+2 :=
  mixed_J (E p) (pn p) (eta p) (s0 p) (Rs p) (d p) (nback := nback) (C p) (g p) nt times data temps control b t y.
Lemma rows_smooth_m (b : 'I_nb) (t : RF) (y : 'cV[RF]_nback.+2) (p : 'cV[RF]_np) (i : 'I_nback.+2) : let T := interp_at nt times temps b t in
  smooth_material nback E pn eta s0 Rs d C g p T -> (0 < E p T)%Re -> (0 < eta p T)%Re -> (0 <= y (inord 1) ord0)%Re ->
  SmoothR.smooth (nback.+2 + np) (join y p) (fun v => rate_m b t (ct nback.+2 v) (ct np (SmoothR.tail nback.+2 v)) i 0).
Proof.
move=> T Sm Ep ep yp; rewrite /rate_m /mixed_f; case: (Req_EM_T (control b) 1) => c1b; last exact: (rows_smooth (b := b) data i Sm ep yp).
move: Sm => [[c1 c2 c3 c4] [[c5 c6 c7 c8] [n1 sp]]].
pose cs := interp_at nt times data b t; pose csr := interp_at nt times (table_rates times data) b t.
apply: (SmoothR.smooth_ext _ _ (fun v => let q := ct np (SmoothR.tail nback.+2 v) in VCStress.creep_rate (E q) (pn q) (eta q) (s0 q) (Rs q) (d q) nback (C q) (g q) t v cs csr T i)).
{ move=> v; rewrite mxE; symmetry; apply: VCStress.creep_rate_ext; last exact/ltP.
  move=> j /ltP jm; exact: (tvK v jm). }
have L F : c1_at F p -> SmoothR.smooth np (SmoothR.tail nback.+2 (join y p)) (fun q => F (ct np q)).
{ by move=> /c1_smooth; rewrite tail_join. }
apply: (VCStress.creep_rows_smooth (fun q => E (ct np q)) (fun q => pn (ct np q)) (fun q => eta (ct np q)) (fun q => s0 (ct np q)) (fun q => Rs (ct np q)) (fun q => d (ct np q)) nback
   (fun q => C (ct np q)) (fun q => g (ct np q)) np t T cs csr (join y p)); rewrite ?ct_tail //.
- exact: (L (fun p => E p T)).
- exact: (L (fun p => pn p T)).
- exact: (L (fun p => eta p T)).
- exact: (L (fun p => s0 p T)).
- exact: (L (fun p => Rs p T)).
- exact: (L (fun p => d p T)).
- move=> k /ltP kn; exact: (L (fun p => C p T k) (c7 k kn)).
- move=> k /ltP kn; exact: (L (fun p => g p T k) (c8 k kn)).
- have : join y p 1%N = y (inord 1) ord0 by rewrite -(join_l y p (inord 1)) inordK.
  move=> ->; lra.
- exact/ltP.
Qed.
Lemma jac_near_m (b : 'I_nb) (t : RF) (y : 'cV[RF]_nback.+2) (p : 'cV[RF]_np) : let T := interp_at nt times temps b t in
  smooth_material nback E pn eta s0 Rs d C g p T -> (0 < E p T)%Re -> (0 < eta p T)%Re -> (0 <= y (inord 1) ord0)%Re ->
  exists r, (0 < r)%Re /\ forall y' p', (dst y' y <= r)%Re -> (dst p' p <= r)%Re -> jacobian_at ((rate_m b t)^~ p') (jac_m b t y' p') y'.
Proof.
move=> T Sm Ep ep yp; rewrite /rate_m /jac_m /mixed_f /mixed_J; case: (Req_EM_T (control b) 1) => c1b; last exact: (jac_near (b := b) data Sm ep yp).
move: Sm => [[c1 c2 c3 c4] [[c5 c6 c7 c8] [n1 sp]]].
pose cs := interp_at nt times data b t; pose csr := interp_at nt times (table_rates times data) b t.
have L F : c1_at F p -> SmoothR.smooth np (SmoothR.tail nback.+2 (join y p)) (fun q => F (ct np q)).
{ by move=> /c1_smooth; rewrite tail_join. }
have [||||||||r [r0 H]] := VCStress.creep_jac_near (fun q => E (ct np q)) (fun q => pn (ct np q)) (fun q => eta (ct np q)) (fun q => s0 (ct np q)) nback
   np T (join y p); rewrite ?ct_tail //.
- exact: (L (fun p => E p T)).
- exact: (L (fun p => pn p T)).
- exact: (L (fun p => eta p T)).
- exact: (L (fun p => s0 p T)).
- have : join y p 1%N = y (inord 1) ord0 by rewrite -(join_l y p (inord 1)) inordK.
  move=> ->; lra.
exists r; split=> // y' p' Hy Hp Y th z Yy Dy i.
have := H (join y' p') (join_near Hy Hp); rewrite ct_tail => -[h1 [h2 [h3 h4]]].
have h4' : (0 < s0 p' T + tv y' 1)%Re by move: h4; rewrite /join.
have cur j : (j < nback.+2)%coq_nat -> tv (Y th) j = tv y' j /\ derivable_pt_lim (fun u => tv (Y u) j) th (tv z j).
{ move=> /ltP jm; rewrite Yy; split=> //; rewrite (tv_lt z jm); apply: (@dpl_ext (fun u => Y u (Ordinal jm) 0)) => [u|]; [by rewrite (tv_lt _ jm)|exact: Dy]. }
have := VCStress.creep_exact (E p') (pn p') (eta p') (s0 p') (Rs p') (d p') nback (C p') (g p') t (tv y') cs csr T (fun u => tv (Y u)) th (tv z) (Rgt_not_eq _ _ h1) h2 h3 h4' cur i (elimT ltP (ltn_ord i)).
rewrite sumE; set a := (X in Deriv.D _ _ X -> _); set a' := (X in _ -> derivable_pt_lim _ _ X).
have -> : a = a' by rewrite /a /a' !mxE; apply: eq_bigr => j _; rewrite mxE tvE.
by apply: dpl_ext => u; rewrite mxE.
Qed.
Lemma step_regular_m k (b : 'I_nb) (y : 'cV[RF]_nback.+2) (p : 'cV[RF]_np) : grid_ok nb nt times -> (0 < k)%N -> (k < nt)%N ->
  (0 <= E p (temps k b))%Re -> VCHistory.admissible (pn p) (eta p) (s0 p) (Rs p) (d p) nback (C p) (g p) (temps k b) ->
  VCHistory.in_range (Rs p) nback (C p) (g p) (temps k b) (fun i => tv y i.+1) ->
  (1%:M - (time_table nb times k b - time_table nb times k.-1 b) *: jac_m b (time_table nb times k b) y p) \in unitmx.
Proof.
move=> G k0 kn E0 A Rg; rewrite /jac_m /mixed_J; case: Req_EM_T => c1b; last exact: (step_regular data G k0 kn E0 A Rg).
have dt := dt_pos (ltn_ord b) G k0 kn; have n2 : (1 < nt)%N := leq_ltn_trans k0 kn.
have Ad := A; move: Ad => [a1 [a2 [a3 [a4 [a5 a6]]]]].
apply: unit_of_kernel => x; rewrite mulmxBl mul1mx => /eqP; rewrite subr_eq0 => /eqP Hx.
pose cs := interp_at nt times data b (times k b); pose csr := interp_at nt times (table_rates times data) b (times k b).
have rg : (0 <= tv y 1 <= Rs p (temps k b))%Re /\ forall i, (i < nback)%coq_nat -> (0 <= g p (temps k b) i)%Re /\ (g p (temps k b) i * Rabs (tv y i.+2) <= C p (temps k b) i)%Re.
{ split; first by case: Rg. move=> i ib; exact: (VCHistory.range_mul _ _ _ _ _ _ _ _ _ _ i A Rg ib). }
have := VCStress.creep_regular (E p) (pn p) (eta p) (s0 p) (Rs p) (d p) nback (C p) (g p) (times k b) (tv y) cs csr (temps k b) _ (tv x) a1 a2 a5 rg dt.
move=> K; apply/colP => i; rewrite mxE -(tvE x i); apply: K; last exact/ltP.
move=> j /ltP jm; rewrite (tv_lt x jm) {1}Hx -scalemxAl 2!mxE !ffunE; congr (_ * _); rewrite sumE; apply: eq_bigr => l _; rewrite mxE tvE (interp_knot temps n2 (ltn_ord b) G kn); exact: erefl.
Qed.
End Family.
