(** The strain-controlled perfectly viscoplastic simulation meets the hypotheses of the adjoint gradient theorem, for parameters that depend smoothly on a calibrated vector. *)
From Coq Require Import Reals List String Lra Lia FunctionalExtensionality.
From mathcomp Require Import all_ssreflect all_algebra.
From Verif Require Import ChunkModel ChunkSolve ChunkInst NewtonModel Ode OdeForward OdeAdjoint OdeReal OdeBlock OdeDiff RField Gmres Implicit Pipeline SmoothMx VCGrad VCExact.
From Verif Require Interp Models Flow Hardening Deriv Slices SmoothR VCRegular PVSmooth PipelineR.
Import GRing.Theory.
Set Implicit Arguments. Unset Strict Implicit. Unset Printing Implicit Defensive.
Local Open Scope ring_scope.
Delimit Scope R_scope with Re.

(** The model with the parameters [p]: modulus, rate sensitivity and reference stress are functions of [p] and of the temperature. *)
Section Family.
Variables (np : nat) (E pn eta : 'cV[RF]_np -> R -> R).
Definition pv_family (p : 'cV[RF]_np) : Models.rateform := Models.inelastic (E p) (Flow.perfect (pn p) (eta p)).
Definition pv_smooth (p : 'cV[RF]_np) (T : R) : Prop :=
  [/\ c1_at (fun p => E p T) p, c1_at (fun p => pn p T) p, c1_at (fun p => eta p T) p & (0 <= E p T)%Re /\ (1 < pn p T)%Re /\ (0 < eta p T)%Re].
Variables (nb nt : nat) (times strains temps : nat -> nat -> R).
Definition pv_rate (b : 'I_nb) (t : RF) (y : 'cV[RF]_1) (p : 'cV[RF]_np) : 'cV[RF]_1 := strain_f (B := pv_family p) nt times strains temps b t y.
Definition pv_jac (b : 'I_nb) (t : RF) (y : 'cV[RF]_1) (p : 'cV[RF]_np) : 'M[RF]_1 := strain_J (B := pv_family p) nt times strains temps b t y.
Let pv q := PVSmooth.model_at (fun q => E (ct np q)) (fun q => pn (ct np q)) (fun q => eta (ct np q)) q.
Lemma pv_rows_smooth (b : 'I_nb) (t : RF) (y : 'cV[RF]_1) (p : 'cV[RF]_np) (i : 'I_1) : let T := interp_at nt times temps b t in
  pv_smooth p T -> SmoothR.smooth (1 + np) (join y p) (fun v => pv_rate b t (ct 1 v) (ct np (SmoothR.tail 1 v)) i 0).
Proof.
move=> T [c1 c2 c3 [E0 [n1 ep]]].
pose e := interp_at nt times (table_rates times strains) b t.
apply: (SmoothR.smooth_ext _ _ (fun v => Models.rf_rate (pv (SmoothR.tail 1 v)) t v e T 0%N)).
{ move=> v; rewrite (ord1 i) /pv_rate /strain_f mxE /pv /PVSmooth.model_at /pv_family /=; rewrite /Slices.cat /=.
  have X : @to_vec (pv_family (ct np (SmoothR.tail 1 v))) (ct 1 v) 0%N = v 0%N by rewrite -[RHS](tvK v (ltn0Sn 0)).
  by rewrite /= in X; rewrite -[v 0%N]X. }
have L F : c1_at F p -> SmoothR.smooth np (SmoothR.tail 1 (join y p)) (fun q => F (ct np q)).
{ by move=> /c1_smooth; rewrite tail_join. }
apply: (PVSmooth.pv_row_smooth (fun q => E (ct np q)) (fun q => pn (ct np q)) (fun q => eta (ct np q)) np t T e (join y p)); rewrite ?ct_tail //.
- exact: (L (fun p => E p T)).
- exact: (L (fun p => pn p T)).
- exact: (L (fun p => eta p T)).
Qed.
Lemma pv_jac_near (b : 'I_nb) (t : RF) (y : 'cV[RF]_1) (p : 'cV[RF]_np) : let T := interp_at nt times temps b t in
  pv_smooth p T -> exists r, (0 < r)%Re /\ forall y' p', (dst y' y <= r)%Re -> (dst p' p <= r)%Re -> jacobian_at ((pv_rate b t)^~ p') (pv_jac b t y' p') y'.
Proof.
move=> T [c1 c2 c3 [E0 [n1 ep]]].
pose e := interp_at nt times (table_rates times strains) b t.
have L F : c1_at F p -> SmoothR.smooth np (SmoothR.tail 1 (join y p)) (fun q => F (ct np q)).
{ by move=> /c1_smooth; rewrite tail_join. }
have [||||r [r0 H]] := PVSmooth.pv_jac_near (fun q => E (ct np q)) (fun q => pn (ct np q)) (fun q => eta (ct np q)) np t T e (join y p); rewrite ?ct_tail //.
- exact: (L (fun p => pn p T)).
- exact: (L (fun p => eta p T)).
exists r; split=> // y' p' Hy Hp Y th z Yy Dy i.
have M : Models.model_exact (pv_family p') t (tv y') e T.
{ have := H (join y' p') (join_near Hy Hp) (tv y'); rewrite /PVSmooth.model_at ct_tail; exact. }
have := VCRegular.exact_shift _ _ _ _ _ _ (fun u => tv (Y u)) th (tv z) (M i (elimT ltP (ltn_ord i))).
have cur j : (j < 1)%coq_nat -> tv (Y th) j = tv y' j /\ derivable_pt_lim (fun u => tv (Y u) j) th (tv z j).
{ move=> /ltP jm; rewrite Yy; split=> //; rewrite (tv_lt z jm); apply: (@dpl_ext (fun u => Y u (Ordinal jm) 0)) => [u|]; [by rewrite (tv_lt _ jm)|exact: Dy]. }
move=> /(_ cur); rewrite sumE; set a := (X in derivable_pt_lim _ _ X -> _); set a' := (X in _ -> derivable_pt_lim _ _ X).
have -> : a = a' by rewrite /a /a' !mxE; apply: eq_bigr => j _; rewrite mxE tvE.
by apply: dpl_ext => u; rewrite /pv_rate /strain_f mxE.
Qed.
Hypothesis Gr : grid_ok nb nt times.
Lemma pv_step_regular k (b : 'I_nb) (y : 'cV[RF]_1) (p : 'cV[RF]_np) : (0 < k)%N -> (k < nt)%N ->
  (0 <= E p (temps k b))%Re -> (0 <= pn p (temps k b))%Re -> (0 < eta p (temps k b))%Re ->
  (1%:M - (time_table nb times k b - time_table nb times k.-1 b) *: pv_jac b (time_table nb times k b) y p) \in unitmx.
Proof.
move=> k0 kn E0 n0 e0; have dt := dt_pos (ltn_ord b) Gr k0 kn; have n2 : (1 < nt)%N := leq_ltn_trans k0 kn.
rewrite unitmxE det_mx11 unitfE; apply/eqP.
have IT : interp_at nt times temps b (time_table nb times k b) = temps k b by rewrite ffunE (interp_knot temps n2 (ltn_ord b) Gr kn).
have X (M : 'M[RF]_1) (c : RF) : (1%:M - c *: M) 0 0 = 1 - c * M 0 0 by rewrite !mxE.
rewrite X; set J := pv_jac _ _ _ _ _ _.
have J0 : (J <= 0)%Re by rewrite /J mxE; apply: (PVSmooth.pv_jac_sign (E p) (pn p) (eta p)); rewrite IT.
have -> : time_table nb times k b - time_table nb times k.-1 b = (times k b - times k.-1 b)%Re by rewrite !ffunE.
have F (d j : R) : (0 < d)%Re -> (j <= 0)%Re -> (1 - d * j <> 0)%Re by move=> *; nra.
exact: (F _ J dt J0).
Qed.

(** Every step equation determines the stress: one history, for every material. *)
Lemma pv_history (p : 'cV[RF]_np) (y : nat -> VB RF nb 1) : exact_history (B := pv_family p) nt times strains temps y <->
  y 0%N = @zeroV RF nb 1 /\ forall k (b : 'I_nb), (0 < k)%N -> (k < nt)%N ->
    PipelineR.pv_step (E p (temps k b)) (pn p (temps k b)) (eta p (temps k b)) (times k b - times k.-1 b) (strains k b - strains k.-1 b) (y k.-1 b 0 0) (y k b 0 0).
Proof.
apply: iff_trans (history_steps (B := pv_family p) strains temps y Gr) _.
have V (z : 'cV[RF]_1) : @to_vec (pv_family p) z 0%N = z 0 0 by rewrite -[0%N]/(nat_of_ord (ord0 : 'I_1)) (@to_vecE (pv_family p) z ord0).
have Q (dt e de q : R) : (0 < dt -> dt * (e * (de / dt - q)) = e * (de - dt * q))%Re by move=> H0; field; lra.
split=> [[Z H]|[Z H]]; split; try exact: Z.
- move=> k b k0 kn; have D := dt_pos (ltn_ord b) Gr k0 kn.
  have := H k b 0%N k0 kn (ltn0Sn 0); rewrite !V /= /Slices.cat /= ?V /PipelineR.pv_step => ->; exact: Q.
- move=> k b i k0 kn; rewrite /= ltnS leqn0 => /eqP ->; have D := dt_pos (ltn_ord b) Gr k0 kn.
  have := H k b k0 kn; rewrite !V /= /Slices.cat /= ?V /PipelineR.pv_step => ->; symmetry; exact: Q.
Qed.
Lemma pv_unique (p : 'cV[RF]_np) (y y' : nat -> VB RF nb 1) :
  (forall k b, (k < nt)%N -> (b < nb)%N -> (0 <= E p (temps k b) /\ 0 < pn p (temps k b) /\ 0 < eta p (temps k b))%Re) ->
  exact_history (B := pv_family p) nt times strains temps y -> exact_history (B := pv_family p) nt times strains temps y' -> forall k, (k < nt)%N -> y k = y' k.
Proof.
move=> P /pv_history [Z H] /pv_history [Z' H']; elim=> [|k IH] kn; first by rewrite Z Z'.
apply/ffunP => b; apply/colP => i; rewrite (ord1 i).
have [P1 [P2 P3]] := P k.+1 b kn (ltn_ord b).
have A := H k.+1 b (ltn0Sn k) kn; have A' := H' k.+1 b (ltn0Sn k) kn; rewrite [k.+1.-1]/= -(IH (ltnW kn)) in A A'.
have D := dt_pos (ltn_ord b) Gr (ltn0Sn k) kn; rewrite [k.+1.-1]/= in D.
exact: PipelineR.pv_unique P1 P2 P3 (Rlt_le _ _ D) A A'.
Qed.
Lemma pv_history_exists (p : 'cV[RF]_np) :
  (forall k b, (k < nt)%N -> (b < nb)%N -> (0 <= E p (temps k b) /\ 1 <= pn p (temps k b) /\ 0 < eta p (temps k b))%Re) ->
  exists y : nat -> VB RF nb 1, exact_history (B := pv_family p) nt times strains temps y.
Proof.
move=> P.
have step k (b : 'I_nb) z : exists s, (0 < k)%N -> (k < nt)%N -> PipelineR.pv_step (E p (temps k b)) (pn p (temps k b)) (eta p (temps k b)) (times k b - times k.-1 b) (strains k b - strains k.-1 b) z s.
{ case K: ((0 < k)%N && (k < nt)%N); last by exists R0 => k0 kn; rewrite k0 kn in K.
  move/andP: K => [k0 kn]; have [P1 [P2 P3]] := P k b kn (ltn_ord b); have D := dt_pos (ltn_ord b) Gr k0 kn.
  have [s Hs] := PVSmooth.pv_exists _ _ _ _ (strains k b - strains k.-1 b) z P1 P2 P3 (Rlt_le _ _ D); by exists s. }
pose F k b (z : R) := sval (ClassicalEpsilon.constructive_indefinite_description _ (step k b z)).
have HF k (b : 'I_nb) (z : R) : (0 < k)%N -> (k < nt)%N -> PipelineR.pv_step (E p (temps k b)) (pn p (temps k b)) (eta p (temps k b)) (times k b - times k.-1 b) (strains k b - strains k.-1 b) z (F k b z) := svalP (ClassicalEpsilon.constructive_indefinite_description _ (step k b z)).
pose s := fix s (k : nat) (b : 'I_nb) : R := if k is k'.+1 then F k b (s k' b) else R0.
exists (fun k => [ffun b => (\col_(i < 1) (s k b : RF))%R]); apply/pv_history; split.
- apply/ffunP => b; apply/colP => i; by rewrite /zeroV !ffunE !mxE.
- case=> [|k] b // _ kn; rewrite !ffunE !mxE; exact: (HF k.+1 b (s k b) (ltn0Sn k) kn).
Qed.
End Family.
