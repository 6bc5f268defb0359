(** The strain-controlled Voce / Chaboche simulation meets the hypotheses of the adjoint gradient theorem along its exact history. *)
From Coq Require Import Reals List String Lra Lia FunctionalExtensionality.
From mathcomp Require Import all_ssreflect all_algebra.
From Verif Require Import ChunkModel ChunkSolve ChunkInst NewtonModel Ode OdeForward OdeAdjoint OdeReal OdeBlock OdeDiff RField Gmres Implicit Pipeline SmoothMx.
From Verif Require Interp Models Flow Hardening Deriv Slices VCStep VCHistory Props_FullModel VCExact SmoothR VCSmooth VCRegular.
Import GRing.Theory.
Set Implicit Arguments. Unset Strict Implicit. Unset Printing Implicit Defensive.
Local Open Scope ring_scope.
Delimit Scope R_scope with Re.
Import Props_FullModel VCExact.

(** Material parameters that depend on a vector of calibrated parameters [p] and on temperature. *)
Section Family.
Variables (np nback : nat) (E pn eta s0 Rs d : 'cV[RF]_np -> R -> R) (C g : 'cV[RF]_np -> R -> nat -> R).
Definition family (p : 'cV[RF]_np) : Models.rateform := voce_chaboche (E p) (pn p) (eta p) (s0 p) (Rs p) (d p) nback (C p) (g p).
(** Every material parameter is a continuously differentiable function of [p], at the temperature [T]; rate sensitivity above one and a positive threshold. *)
Definition smooth_material (p : 'cV[RF]_np) (T : R) : Prop :=
  [/\ c1_at (fun p => E p T) p, c1_at (fun p => pn p T) p, c1_at (fun p => eta p T) p & c1_at (fun p => s0 p T) p] /\
  [/\ c1_at (fun p => Rs p T) p, c1_at (fun p => d p T) p, (forall i, (i < nback)%N -> c1_at (fun p => C p T i) p) & (forall i, (i < nback)%N -> c1_at (fun p => g p T i) p)] /\
  (1 < pn p T)%Re /\ (0 < s0 p T)%Re.
Variables (nb nt : nat) (times strains temps : nat -> nat -> R).
Definition rate_p (b : 'I_nb) (t : RF) (y : 'cV[RF]_nback.+2) (p : 'cV[RF]_np) : 'cV[RF]_nback.+2 := strain_f (B := family p) nt times strains temps b t y.
Definition jac_p (b : 'I_nb) (t : RF) (y : 'cV[RF]_nback.+2) (p : 'cV[RF]_np) : 'M[RF]_nback.+2 := strain_J (B := family p) nt times strains temps b t y.

Let vc q := VCSmooth.model_at (fun q => E (ct np q)) (fun q => pn (ct np q)) (fun q => eta (ct np q)) (fun q => s0 (ct np q)) (fun q => Rs (ct np q)) (fun q => d (ct np q)) nback
   (fun q => C (ct np q)) (fun q => g (ct np q)) q.
Lemma rows_smooth (b : 'I_nb) (t : RF) (y : 'cV[RF]_nback.+2) (p : 'cV[RF]_np) (i : 'I_nback.+2) : let T := interp_at nt times temps b t in
  smooth_material p T -> (0 < eta p T)%Re -> (0 <= y (inord 1) ord0)%Re ->
  SmoothR.smooth (nback.+2 + np) (join y p) (fun v => rate_p b t (ct nback.+2 v) (ct np (SmoothR.tail nback.+2 v)) i 0).
Proof.
move=> T [[c1 c2 c3 c4] [[c5 c6 c7 c8] [n1 sp]]] ep yp.
pose e := interp_at nt times (table_rates times strains) b t.
apply: (SmoothR.smooth_ext _ _ (fun v => Models.rf_rate (vc (SmoothR.tail nback.+2 v)) t v e T i)).
{ move=> v; rewrite /rate_p /strain_f mxE; symmetry; apply: (VCRegular.vc_rate_ext (E (ct np _))); last exact/ltP.
  move=> j /ltP jm; exact: (tvK v jm). }
have L F : c1_at F p -> SmoothR.smooth np (SmoothR.tail nback.+2 (join y p)) (fun q => F (ct np q)).
{ by move=> /c1_smooth; rewrite tail_join. }
apply: (VCSmooth.vc_rows_smooth (fun q => E (ct np q)) (fun q => pn (ct np q)) (fun q => eta (ct np q)) (fun q => s0 (ct np q)) (fun q => Rs (ct np q)) (fun q => d (ct np q)) nback
   (fun q => C (ct np q)) (fun q => g (ct np q)) np t T e (join y p)); rewrite ?ct_tail //.
- exact: (L (fun p => E p T)).
- exact: (L (fun p => pn p T)).
- exact: (L (fun p => eta p T)).
- exact: (L (fun p => s0 p T)).
- exact: (L (fun p => Rs p T)).
- exact: (L (fun p => d p T)).
- move=> k /ltP kn; exact: (L (fun p => C p T k) (c7 k kn)).
- move=> k /ltP kn; exact: (L (fun p => g p T k) (c8 k kn)).
- have : join y p 1%N = y (inord 1) ord0 by rewrite -(join_l y p (inord 1)) inordK.
  move=> ->; lra.
- exact/ltP.
Qed.

Lemma jac_near (b : 'I_nb) (t : RF) (y : 'cV[RF]_nback.+2) (p : 'cV[RF]_np) : let T := interp_at nt times temps b t in
  smooth_material p T -> (0 < eta p T)%Re -> (0 <= y (inord 1) ord0)%Re ->
  exists r, (0 < r)%Re /\ forall y' p', (dst y' y <= r)%Re -> (dst p' p <= r)%Re -> jacobian_at ((rate_p b t)^~ p') (jac_p b t y' p') y'.
Proof.
move=> T [[c1 c2 c3 c4] [[c5 c6 c7 c8] [n1 sp]]] ep yp.
pose e := interp_at nt times (table_rates times strains) b t.
have L F : c1_at F p -> SmoothR.smooth np (SmoothR.tail nback.+2 (join y p)) (fun q => F (ct np q)).
{ by move=> /c1_smooth; rewrite tail_join. }
have [||||||r [r0 H]] := VCSmooth.vc_jac_near (fun q => E (ct np q)) (fun q => pn (ct np q)) (fun q => eta (ct np q)) (fun q => s0 (ct np q)) (fun q => Rs (ct np q)) (fun q => d (ct np q)) nback
   (fun q => C (ct np q)) (fun q => g (ct np q)) np t T e (join y p); rewrite ?ct_tail //.
- exact: (L (fun p => pn p T)).
- exact: (L (fun p => eta p T)).
- exact: (L (fun p => s0 p T)).
- have : join y p 1%N = y (inord 1) ord0 by rewrite -(join_l y p (inord 1)) inordK.
  move=> ->; lra.
exists r; split=> // y' p' Hy Hp Y th z Yy Dy i.
have X := H (join y' p') (join_near Hy Hp) (tv y').
have M : Models.model_exact (family p') t (tv y') e T.
{ have := X; rewrite /VCSmooth.model_at ct_tail; apply=> j /ltP jm; by rewrite /join jm. }
have := VCRegular.exact_shift _ _ _ _ _ _ (fun u => tv (Y u)) th (tv z) (M i (elimT ltP (ltn_ord i))).
have cur j : (j < nback.+2)%coq_nat -> tv (Y th) j = tv y' j /\ derivable_pt_lim (fun u => tv (Y u) j) th (tv z j).
{ move=> /ltP jm; rewrite Yy; split=> //; rewrite (tv_lt z jm); apply: (@dpl_ext (fun u => Y u (Ordinal jm) 0)) => [u|]; [by rewrite (tv_lt _ jm)|exact: Dy]. }
move=> /(_ cur); rewrite sumE; set a := (X in derivable_pt_lim _ _ X -> _); set a' := (X in _ -> derivable_pt_lim _ _ X).
have -> : a = a' by rewrite /a /a' !mxE; apply: eq_bigr => j _; rewrite mxE tvE.
by apply: dpl_ext => u; rewrite /rate_p /strain_f mxE.
Qed.

Lemma unit_of_kernel n (A : 'M[RF]_n) : (forall x : 'cV[RF]_n, A *m x = 0 -> x = 0) -> A \in unitmx.
Proof.
move=> H; rewrite -row_full_unit -cokermx_eq0; apply/eqP/matrixP => i j.
have Z : col j (cokermx A) = 0 by apply: H; rewrite colE mulmxA mulmx_coker mul0mx.
by have := congr1 (fun M : 'cV[RF]_n => M i 0) Z; rewrite !mxE.
Qed.
Lemma step_regular k (b : 'I_nb) (y : 'cV[RF]_nback.+2) (p : 'cV[RF]_np) : grid_ok nb nt times -> (0 < k)%N -> (k < nt)%N ->
  (0 <= E p (temps k b))%Re -> VCHistory.admissible (pn p) (eta p) (s0 p) (Rs p) (d p) nback (C p) (g p) (temps k b) ->
  VCHistory.in_range (Rs p) nback (C p) (g p) (temps k b) (fun i => tv y i.+1) ->
  (1%:M - (time_table nb times k b - time_table nb times k.-1 b) *: jac_p b (time_table nb times k b) y p) \in unitmx.
Proof.
move=> G k0 kn E0 A Rg; have dt := dt_pos (ltn_ord b) G k0 kn; have n2 : (1 < nt)%N := leq_ltn_trans k0 kn.
have Ad := A; move: Ad => [a1 [a2 [a3 [a4 [a5 a6]]]]].
apply: unit_of_kernel => x; rewrite mulmxBl mul1mx => /eqP; rewrite subr_eq0 => /eqP Hx.
pose e := interp_at nt times (table_rates times strains) b (times k b).
have rg : (0 <= tv y 1 <= Rs p (temps k b))%Re /\ forall i, (i < nback)%coq_nat -> (0 <= g p (temps k b) i)%Re /\ (g p (temps k b) i * Rabs (tv y i.+2) <= C p (temps k b) i)%Re.
{ split; first by case: Rg. move=> i ib; exact: (VCHistory.range_mul _ _ _ _ _ _ _ _ _ _ i A Rg ib). }
have := VCRegular.regular (E p) (pn p) (eta p) (s0 p) (Rs p) (d p) nback (C p) (g p) (times k b) (temps k b) e (tv y) E0 a1 a2 a5 rg _ (tv x) dt.
move=> K; apply/colP => i; rewrite mxE -(tvE x i); apply: K; last exact/ltP.
move=> j /ltP jm; rewrite (tv_lt x jm) {1}Hx -scalemxAl 2!mxE !ffunE; congr (_ * _); rewrite sumE; apply: eq_bigr => l _; rewrite mxE tvE (interp_knot temps n2 (ltn_ord b) G kn); exact: erefl.
Qed.
End Family.
