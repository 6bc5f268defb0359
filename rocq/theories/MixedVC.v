(** Histories of the Voce / Chaboche model when some tests of the batch are strain controlled and some stress controlled (ModelIntegrator.solve_both with
    an exact inner solve): existence, uniqueness and range. *)
From Coq Require Import Reals List String Lra Lia FunctionalExtensionality.
From mathcomp Require Import all_ssreflect all_algebra.
From Verif Require Import ChunkModel ChunkSolve ChunkInst NewtonModel Ode OdeForward OdeReal OdeBlock OdeDiff RField Pipeline.
From Verif Require Interp Models Flow Hardening Deriv Slices VCStep VCHistory VCStress Props_FullModel VCExact.
Set Implicit Arguments. Unset Strict Implicit. Unset Printing Implicit Defensive.
Local Open Scope R_scope.

Import Props_FullModel VCExact.

(** Every test is either strain controlled (0) or stress controlled (1). *)
Definition controls (nb : nat) (control : nat -> R) : Prop := forall b, (b < nb)%N -> control b = 0 \/ control b = 1.

Section Hist.
Variables (B : Models.rateform) (nb nt : nat) (times data temps : nat -> nat -> R) (control : nat -> R).
Local Notation m := (Models.rf_n B).
(** Backward Euler step k of test b.  Strain control: entry 0 of the state is the stress and the model's rates are taken at the strain rate of the table.
    Stress control: entry 0 of the state is the strain, the model is evaluated at the stress of the table, with the strain rate [er] that makes the
    stress rate the one of the table. *)
Definition mixed_step (y : nat -> VB RF nb m) (k : nat) (b : 'I_nb) : Prop :=
  let dt := times k b - times k.-1 b in
  let v := to_vec (y k b) in
  (control b = 0 -> forall i, (i < m)%N -> v i - to_vec (y k.-1 b) i = dt * Models.rf_rate B (times k b) v (step_rate times data k b) (temps k b) i) /\
  (control b = 1 -> exists er, let w := Models.set0 (data k b) v in
     Models.rf_rate B (times k b) w er (temps k b) 0%N = step_rate times data k b /\
     v 0%N - to_vec (y k.-1 b) 0%N = dt * er /\
     forall i, (0 < i)%N -> (i < m)%N -> v i - to_vec (y k.-1 b) i = dt * Models.rf_rate B (times k b) w er (temps k b) i).
Definition mixed_history (y : nat -> VB RF nb m) : Prop :=
  y 0%N = @zeroV RF nb m /\ forall k b, (0 < k)%N -> (k < nt)%N -> mixed_step y k b.
End Hist.

Section VC.
Variables (E pn eta s0 Rs d : R -> R) (nback : nat) (C g : R -> nat -> R).
Let B := voce_chaboche E pn eta s0 Rs d nback C g.
Variables (nb nt : nat) (times data temps : nat -> nat -> R) (control : nat -> R).
(** The rates and Jacobian of BothBasedModel at one point, with an exact inner solve. *)
Definition mixed_f (b : 'I_nb) (t : RF) (y : 'cV[RF]_nback.+2) : 'cV[RF]_nback.+2 :=
  if Req_EM_T (control b) 1 then
    (\col_i (VCStress.creep_rate E pn eta s0 Rs d nback C g t (@to_vec B y) (interp_at nt times data b t) (interp_at nt times (table_rates times data) b t) (interp_at nt times temps b t) i : RF))%R
  else strain_f (B := B) nt times data temps b t y.
Definition mixed_J (b : 'I_nb) (t : RF) (y : 'cV[RF]_nback.+2) : 'M[RF]_nback.+2 :=
  if Req_EM_T (control b) 1 then
    (\matrix_(i, j) (VCStress.creep_jac E pn eta s0 Rs d nback C g t (@to_vec B y) (interp_at nt times data b t) (interp_at nt times (table_rates times data) b t) (interp_at nt times temps b t) i j : RF))%R
  else strain_J (B := B) nt times data temps b t y.

Hypothesis G : grid_ok nb nt times.
Hypothesis Gd : forall b, (b < nb)%N -> good_entry E pn eta s0 Rs d nback C g nt temps b.
Hypothesis Cc : controls nb control.
(** one step in terms of the flow rule *)
Definition mstep (k : nat) (b : 'I_nb) (s : R) (h : Slices.vec) (s' : R) (h' : Slices.vec) : Prop :=
  let T := temps k b in let dt := times k b - times k.-1 b in let dd := data k b - data k.-1 b in
  if Req_EM_T (control b) 1 then
    s' - s = dd / E T + dt * VCHistory.the_flow pn eta s0 nback T (data k b) h' /\
    VCHistory.model_step pn eta s0 Rs d nback C g 0 T dt 0 (data k b) h (data k b) h'
  else VCHistory.model_step pn eta s0 Rs d nback C g (E T) T dt dd s h s' h'.
Lemma E_pos k (b : 'I_nb) : (k < nt)%N -> 0 < E (temps k b).
Proof. by move=> kn; have [/(_ k kn) [e0 _] _] := Gd (ltn_ord b). Qed.
Lemma mstep_range k (b : 'I_nb) s h s' h' : (0 < k)%N -> (k < nt)%N -> VCHistory.in_range Rs nback C g (temps k b) h -> mstep k b s h s' h' -> VCHistory.in_range Rs nback C g (temps k b) h'.
Proof.
move=> k0 kn In; have [/(_ k kn) [e0 A] _] := Gd (ltn_ord b); have D := Rlt_le _ _ (dt_pos (ltn_ord b) G k0 kn).
rewrite /mstep; cbv zeta; case: Req_EM_T => c1.
- move=> [_ M]; exact: (VCHistory.model_step_range pn eta s0 Rs d nback C g _ _ _ _ _ _ _ _ (Rle_refl 0) D A In M).
- move=> M; exact: (VCHistory.model_step_range pn eta s0 Rs d nback C g _ _ _ _ _ _ _ _ (Rlt_le _ _ e0) D A In M).
Qed.
Lemma mstep_unique k (b : 'I_nb) s h s1 h1 s2 h2 : (0 < k)%N -> (k < nt)%N -> VCHistory.in_range Rs nback C g (temps k b) h -> mstep k b s h s1 h1 -> mstep k b s h s2 h2 ->
  s1 = s2 /\ forall i, (i < nback.+1)%coq_nat -> h1 i = h2 i.
Proof.
move=> k0 kn In; have [/(_ k kn) [e0 A] _] := Gd (ltn_ord b); have D := Rlt_le _ _ (dt_pos (ltn_ord b) G k0 kn).
rewrite /mstep; cbv zeta; case: Req_EM_T => c1.
- move=> [M1 H1] [M2 H2]; have [_ Q] := VCHistory.model_step_unique pn eta s0 Rs d nback C g _ _ _ _ _ _ _ _ _ _ (Rle_refl 0) D A In H1 H2.
  split=> //; have Fl : VCHistory.the_flow pn eta s0 nback (temps k b) (data k b) h1 = VCHistory.the_flow pn eta s0 nback (temps k b) (data k b) h2.
  { rewrite /VCHistory.the_flow (Q 0%N); last exact/ltP. congr (VCStep.flow _ _ _ (_ - _)); apply: Deriv.sum_ext => i ib; apply: Q; lia. }
  rewrite -Fl in M2; lra.
- move=> M M'; exact: (VCHistory.model_step_unique pn eta s0 Rs d nback C g _ _ _ _ _ _ _ _ _ _ (Rlt_le _ _ e0) D A In M M').
Qed.
Lemma mstep_exists k (b : 'I_nb) s h : (0 < k)%N -> (k < nt)%N -> VCHistory.in_range Rs nback C g (temps k b) h -> {z | mstep k b s h (fst z) (snd z)}.
Proof.
move=> k0 kn In; have [/(_ k kn) [e0 A] _] := Gd (ltn_ord b); have D := Rlt_le _ _ (dt_pos (ltn_ord b) G k0 kn).
rewrite /mstep; cbv zeta; case: Req_EM_T => c1.
- have [z Hz] := VCHistory.model_step_exists pn eta s0 Rs d nback C g 0 (temps k b) (times k b - times k.-1 b) 0 (data k b) h (Rle_refl 0) D A In.
  have z1 : fst z = data k b by case: Hz; lra.
  exists (s + ((data k b - data k.-1 b) / E (temps k b) + (times k b - times k.-1 b) * VCHistory.the_flow pn eta s0 nback (temps k b) (data k b) (snd z)), snd z); split=> /=; first ring.
  by rewrite z1 in Hz.
- exact: (VCHistory.model_step_exists pn eta s0 Rs d nback C g _ _ _ _ _ _ (Rlt_le _ _ e0) D A In).
Qed.

Lemma mstep_model (y : nat -> VB RF nb nback.+2) k (b : 'I_nb) : (0 < k)%N -> (k < nt)%N -> mixed_step (B := B) times data temps control y k b <->
  mstep k b (@to_vec B (y k.-1 b) 0%N) (fun i => @to_vec B (y k.-1 b) i.+1) (@to_vec B (y k b) 0%N) (fun i => @to_vec B (y k b) i.+1).
Proof.
move=> k0 kn; have D := dt_pos (ltn_ord b) G k0 kn; have E0 := E_pos b kn.
rewrite /mixed_step /mstep; cbv zeta; case: Req_EM_T => [c1|c1].
- have c0 : control b <> 0 by rewrite c1; lra.
  set v := @to_vec B (y k b); set v' := @to_vec B (y k.-1 b).
  pose f := VCHistory.the_flow pn eta s0 nback (temps k b) (data k b) (fun i => v i.+1).
  have r0 er : Models.rf_rate B (times k b) (Models.set0 (data k b) v) er (temps k b) 0%N = E (temps k b) * (er - f) by rewrite (VCHistory.vc_row0 E pn eta s0 Rs d nback C g).
  have r1 er : Models.rf_rate B (times k b) (Models.set0 (data k b) v) er (temps k b) 1%N = d (temps k b) * (Rs (temps k b) - v 1%N) * Rabs f by rewrite (VCHistory.vc_row1 E pn eta s0 Rs d nback C g).
  have rS er i : Models.rf_rate B (times k b) (Models.set0 (data k b) v) er (temps k b) i.+2 = C (temps k b) i * f - g (temps k b) i * v i.+2 * Rabs f by rewrite (VCHistory.vc_rowS E pn eta s0 Rs d nback C g).
  have Fl1 (dt e dd q er : R) : 0 < dt -> 0 < e -> e * (er - q) = dd / dt -> dt * er = dd / e + dt * q.
  { move=> dt0 ep Q; have -> : er = dd / dt / e + q by rewrite -Q; field; lra. field; lra. }
  have Fl2 (dt e dd q : R) : 0 < dt -> 0 < e -> e * (dd / (dt * e) + q - q) = dd / dt by move=> *; field; lra.
  have Fl3 (dt e dd q : R) : 0 < dt -> 0 < e -> dd / e + dt * q = dt * (dd / (dt * e) + q) by move=> *; field; lra.
  split.
  + move=> [_ /(_ c1) [er [Q0 [Q1 Q2]]]]; split.
    * rewrite Q1; apply: Fl1 => //; rewrite r0 in Q0; exact: Q0.
    * split; first ring. split.
      -- have := Q2 1%N (ltn0Sn 0) (ltn0Sn _); rewrite r1; exact.
      -- move=> i /ltP ib; have := Q2 i.+2 (ltn0Sn _) ib; rewrite rS; exact.
  + move=> [Q1 [_ [Q2 Q3]]]; split=> // _; exists ((data k b - data k.-1 b) / ((times k b - times k.-1 b) * E (temps k b)) + f); split; last split.
    * rewrite r0 /step_rate; exact: Fl2.
    * rewrite Q1; exact: Fl3.
    * case=> [//|[|i]] _ im; [rewrite r1; exact: Q2|rewrite rS; apply: Q3; exact/ltP].
- have c0 : control b = 0 by case: (Cc (ltn_ord b)).
  have Fl (dt e de q : R) : 0 < dt -> dt * (e * (de / dt - q)) = e * (de - dt * q) by move=> H0; field; lra.
  split.
  + move=> [/(_ c0) H _]; split; last split.
    * have := H 0%N (ltn0Sn _); rewrite (VCHistory.vc_row0 E pn eta s0 Rs d nback C g) /step_rate => ->; exact: Fl.
    * have := H 1%N (ltn0Sn _); rewrite (VCHistory.vc_row1 E pn eta s0 Rs d nback C g); exact.
    * move=> i /ltP ib; have := H i.+2 ib; rewrite (VCHistory.vc_rowS E pn eta s0 Rs d nback C g); exact.
  + move=> [H1 [H2 H3]]; split=> // _ i im; case: i im => [|[|i]] im.
    * rewrite (VCHistory.vc_row0 E pn eta s0 Rs d nback C g) H1 /step_rate; symmetry; exact: Fl.
    * rewrite (VCHistory.vc_row1 E pn eta s0 Rs d nback C g); exact: H2.
    * rewrite (VCHistory.vc_rowS E pn eta s0 Rs d nback C g); apply: H3; exact/ltP.
Qed.
Lemma mixed_range (y : nat -> VB RF nb nback.+2) : mixed_history (B := B) nt times data temps control y ->
  forall k (b : 'I_nb), (k < nt)%N -> VCHistory.in_range Rs nback C g (temps k b) (fun i => @to_vec B (y k b) i.+1).
Proof.
move=> [Z H] k b; have [G1 G2] := Gd (ltn_ord b); elim: k => [|k IH] kn.
- have [_ A] := G1 0%N kn; apply: (VCHistory.range_zero pn eta s0 Rs d nback C g _ _ A) => i _; by rewrite Z tvec0.
- have M := (proj1 (mstep_model y b (ltn0Sn k) kn)) (H k.+1 b (ltn0Sn k) kn).
  apply: (mstep_range (ltn0Sn k) kn _ M); apply: VCHistory.range_next (G2 k kn) (IH (ltnW kn)).
Qed.
Lemma mixed_unique (y y' : nat -> VB RF nb nback.+2) : mixed_history (B := B) nt times data temps control y -> mixed_history (B := B) nt times data temps control y' ->
  forall k, (k < nt)%N -> y k = y' k.
Proof.
move=> Hy Hy'; have Rg := mixed_range Hy; move: Hy Hy' => [Z H] [Z' H'].
elim=> [|k IH] kn; first by rewrite Z Z'.
apply/ffunP => b; apply/colP => i; have [G1 G2] := Gd (ltn_ord b).
have M := (proj1 (mstep_model y b (ltn0Sn k) kn)) (H k.+1 b (ltn0Sn k) kn); have M' := (proj1 (mstep_model y' b (ltn0Sn k) kn)) (H' k.+1 b (ltn0Sn k) kn).
rewrite [k.+1.-1]/= -(IH (ltnW kn)) in M M'.
have In := VCHistory.range_next _ _ _ _ _ _ _ (G2 k kn) (Rg k b (ltnW kn)).
have [Q1 Q2] := mstep_unique (ltn0Sn k) kn In M M'.
rewrite -!(to_vecE (B := B)); case: i => [[|i] im] //=; apply: Q2; exact/ltP.
Qed.
Lemma entry_exists_mixed (b : 'I_nb) k : (k < nt)%N -> {Y : nat -> R * Slices.vec |
  Y 0%N = (0, fun _ => 0) /\ forall j, (0 < j)%N -> (j <= k)%N -> mstep j b (Y j.-1).1 (Y j.-1).2 (Y j).1 (Y j).2}.
Proof.
elim: k => [|k IH] kn.
{ exists (fun _ => (0, fun _ => 0)); split=> // j j0; by rewrite leqn0 => /eqP je; rewrite je in j0. }
have [Y [Y0 HY]] := IH (ltnW kn); have [G1 G2] := Gd (ltn_ord b).
have Rg j : (j <= k)%N -> VCHistory.in_range Rs nback C g (temps j b) (Y j).2.
{ elim: j => [|j IHj] jk.
  - have [_ A] := G1 0%N (leq_ltn_trans (leq0n k) (ltnW kn)); apply: (VCHistory.range_zero pn eta s0 Rs d nback C g _ _ A) => i _; by rewrite Y0.
  - have jn : (j.+1 < nt)%N := leq_ltn_trans jk (ltnW kn).
    apply: (mstep_range (ltn0Sn j) jn _ (HY j.+1 (ltn0Sn j) jk)).
    apply: VCHistory.range_next (G2 j jn) (IHj (ltnW jk)). }
have In : VCHistory.in_range Rs nback C g (temps k.+1 b) (Y k).2 by apply: VCHistory.range_next (G2 k kn) (Rg k (leqnn k)).
have [z Hz] := mstep_exists (Y k).1 (ltn0Sn k) kn In.
exists (fun j => if (j <= k)%N then Y j else z); split=> // j j0; rewrite leq_eqVlt => /orP [/eqP ->|jk].
- rewrite [k.+1.-1]/= leqnn ltnn; exact: Hz.
- have jk' : (j <= k)%N := jk. rewrite jk' (leq_trans (leq_pred j) jk'); exact: HY.
Qed.
Lemma mixed_exists : exists y : nat -> VB RF nb nback.+2, mixed_history (B := B) nt times data temps control y.
Proof.
case: (posnP nt) => [n0|n0].
{ exists (fun _ => @zeroV RF nb nback.+2); split=> // k b _; by rewrite n0. }
have kn : (nt.-1 < nt)%N by rewrite prednK.
pose Y b := sval (entry_exists_mixed b kn).
have HY b : Y b 0%N = (0, fun _ => 0) /\ forall j, (0 < j)%N -> (j <= nt.-1)%N -> mstep j b (Y b j.-1).1 (Y b j.-1).2 (Y b j).1 (Y b j).2 := svalP (entry_exists_mixed b kn).
pose y k : VB RF nb nback.+2 := [ffun b => (\col_i ((if (nat_of_ord i) is i'.+1 then (Y b k).2 i' else (Y b k).1) : RF))%R].
have yE k b i : (i < nback.+2)%N -> @to_vec B (y k b) i = (if (i : nat) is i'.+1 then (Y b k).2 i' else (Y b k).1).
{ move=> ib; rewrite -[i]/(nat_of_ord (Ordinal ib : 'I_(Models.rf_n B))) to_vecE /y ffunE mxE; by []. }
exists y; split.
{ apply/ffunP => b; apply/colP => i; rewrite /y !ffunE !mxE; have [-> _] := HY b; by case: (nat_of_ord i). }
move=> k b k0 kl; have kk : (k <= nt.-1)%N by rewrite -ltnS prednK.
apply/(mstep_model y b k0 kl); have [_ /(_ k k0 kk)] := HY b.
have fl s : VCHistory.the_flow pn eta s0 nback (temps k b) s (fun i => @to_vec B (y k b) i.+1) = VCHistory.the_flow pn eta s0 nback (temps k b) s (Y b k).2.
{ rewrite /VCHistory.the_flow !yE //; congr (VCStep.flow _ _ _ (_ - _)); apply: Deriv.sum_ext => i /ltP ib; by rewrite yE. }
rewrite /mstep /VCHistory.model_step !fl !yE //; cbv zeta; case: Req_EM_T => c1.
- move=> [H0 [H1 [H2 H3]]]; split=> //; split=> //; split=> // i /ltP ib; rewrite !yE //; apply: H3; exact/ltP.
- move=> [H1 [H2 H3]]; split=> //; split=> // i /ltP ib; rewrite !yE //; apply: H3; exact/ltP.
Qed.
(** the step equations in the form the integrator uses *)
Lemma mixed_residual (y : nat -> VB RF nb nback.+2) k (b : 'I_nb) : (0 < k)%N -> (k < nt)%N -> mixed_step (B := B) times data temps control y k b <->
  step_res mixed_f BackwardEuler (time_table nb times) y k b = 0%R.
Proof.
move=> k0 kn; have n2 : (1 < nt)%N := leq_ltn_trans k0 kn; have D := dt_pos (ltn_ord b) G k0 kn; have E0 := E_pos b kn.
have RE (i : 'I_nback.+2) : step_res mixed_f BackwardEuler (time_table nb times) y k b i ord0 =
  @to_vec B (y k b) i - @to_vec B (y k.-1 b) i - (times k b - times k.-1 b) * (mixed_f b (times k b) (y k b) i ord0).
{ by rewrite /step_res !ffunE !mxE !(@to_vecE B _ (i : 'I_(Models.rf_n B))). }
apply: iff_trans (mstep_model y b k0 kn) _.
suff H : mstep k b (@to_vec B (y k.-1 b) 0%N) (fun i => @to_vec B (y k.-1 b) i.+1) (@to_vec B (y k b) 0%N) (fun i => @to_vec B (y k b) i.+1) <->
  forall i : 'I_nback.+2, @to_vec B (y k b) i - @to_vec B (y k.-1 b) i = (times k b - times k.-1 b) * (mixed_f b (times k b) (y k b) i ord0).
{ split=> [/H Q|Q]; first by apply/colP => i; rewrite RE mxE; apply: Rminus_diag_eq; exact: Q.
  apply/H => i; apply: Rminus_diag_uniq; by rewrite -RE Q mxE. }
rewrite /mstep /mixed_f; cbv zeta; case: Req_EM_T => [c1|c1].
- have r (i : 'I_nback.+2) : (\col_i (VCStress.creep_rate E pn eta s0 Rs d nback C g (times k b) (@to_vec B (y k b)) (interp_at nt times data b (times k b)) (interp_at nt times (table_rates times data) b (times k b)) (interp_at nt times temps b (times k b)) i : RF))%R i ord0
     = VCStress.creep_rate E pn eta s0 Rs d nback C g (times k b) (@to_vec B (y k b)) (data k b) (step_rate times data k b) (temps k b) i.
  { by rewrite mxE !(interp_knot (nb := nb)) // (rates_knot data (ltn_ord b) G k0 kn). }
  have Fl (dt e dd q : R) : 0 < dt -> 0 < e -> dt * (dd / dt / e + q) = dd / e + dt * q by move=> *; field; lra.
  split.
  + move=> [Q0 [_ [Q1 Q2]]] [[|[|i]] im]; rewrite r.
    * rewrite VCStress.creep_row0 [LHS]Q0 /step_rate; symmetry; exact: Fl.
    * rewrite VCStress.creep_row1; exact: Q1.
    * rewrite VCStress.creep_rowS; apply: Q2; exact/ltP.
  + move=> Q; split; last split; [|ring|split].
    * have := Q ord0; rewrite r VCStress.creep_row0 => ->; rewrite /step_rate; exact: Fl.
    * pose o : 'I_nback.+2 := Ordinal (ltn0Sn nback : (1 < nback.+2)%N); have Q' := Q o; rewrite (r o) VCStress.creep_row1 in Q'; exact: Q'.
    * move=> i /ltP ib; pose o : 'I_nback.+2 := Ordinal (ib : (i.+2 < nback.+2)%N); have Q' := Q o; rewrite (r o) VCStress.creep_rowS in Q'; exact: Q'.
- have r (i : 'I_nback.+2) : strain_f (B := B) nt times data temps b (times k b) (y k b) i ord0 = Models.rf_rate B (times k b) (@to_vec B (y k b)) (step_rate times data k b) (temps k b) i.
  { by rewrite (strain_f_knot (B := B) data temps b (y k b) n2 G k0 kn) mxE. }
  have Fl (dt e de q : R) : 0 < dt -> dt * (e * (de / dt - q)) = e * (de - dt * q) by move=> H0; field; lra.
  split.
  + move=> [Q0 [Q1 Q2]] [[|[|i]] im]; rewrite r.
    * rewrite (VCHistory.vc_row0 E pn eta s0 Rs d nback C g) [LHS]Q0 /step_rate; symmetry; exact: Fl.
    * rewrite (VCHistory.vc_row1 E pn eta s0 Rs d nback C g); exact: Q1.
    * rewrite (VCHistory.vc_rowS E pn eta s0 Rs d nback C g); apply: Q2; exact/ltP.
  + move=> Q; split; last split.
    * have := Q ord0; rewrite r (VCHistory.vc_row0 E pn eta s0 Rs d nback C g) => ->; rewrite /step_rate; exact: Fl.
    * pose o : 'I_nback.+2 := Ordinal (ltn0Sn nback : (1 < nback.+2)%N); have Q' := Q o; rewrite (r o) (VCHistory.vc_row1 E pn eta s0 Rs d nback C g) in Q'; exact: Q'.
    * move=> i /ltP ib; pose o : 'I_nback.+2 := Ordinal (ib : (i.+2 < nback.+2)%N); have Q' := Q o; rewrite (r o) (VCHistory.vc_rowS E pn eta s0 Rs d nback C g) in Q'; exact: Q'.
Qed.
End VC.
