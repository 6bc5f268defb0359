(** Exact backward Euler histories of the Voce / Chaboche model under strain control: existence, uniqueness and range. *)
From Coq Require Import Reals List String Lra Lia FunctionalExtensionality.
From mathcomp Require Import all_ssreflect all_algebra.
From Verif Require Import ChunkModel ChunkSolve ChunkInst NewtonModel Ode OdeForward OdeReal OdeBlock OdeDiff RField Pipeline.
From Verif Require Interp Models Flow Hardening Deriv Slices VCStep VCHistory Props_FullModel.
Set Implicit Arguments. Unset Strict Implicit. Unset Printing Implicit Defensive.
Local Open Scope R_scope.

Import Props_FullModel.

Section Hist.
Variables (B : Models.rateform) (nb nt : nat) (times strains temps : nat -> nat -> R).
Local Notation m := (Models.rf_n B).
(** A history that starts at zero and satisfies every backward Euler step equation of the simulation exactly. *)
Definition exact_history (y : nat -> VB RF nb m) : Prop :=
  y 0%N = @zeroV RF nb m /\
  forall k b, (0 < k)%N -> (k < nt)%N -> step_res (strain_f nt times strains temps) BackwardEuler (time_table nb times) y k b = 0%R.
Lemma history_steps (y : nat -> VB RF nb m) : grid_ok nb nt times -> exact_history y <->
  y 0%N = @zeroV RF nb m /\ forall k b (i : nat), (0 < k)%N -> (k < nt)%N -> (i < m)%N ->
    to_vec (y k b) i - to_vec (y k.-1 b) i = (times k b - times k.-1 b) * Models.rf_rate B (times k b) (to_vec (y k b)) (step_rate times strains k b) (temps k b) i.
Proof.
move=> G; have X k b (i : 'I_m) : (0 < k)%N -> (k < nt)%N -> step_res (strain_f nt times strains temps) BackwardEuler (time_table nb times) y k b i ord0 =
  to_vec (y k b) i - to_vec (y k.-1 b) i - (times k b - times k.-1 b) * Models.rf_rate B (times k b) (to_vec (y k b)) (step_rate times strains k b) (temps k b) i.
{ move=> k0 kn; rewrite /step_res !ffunE (strain_f_knot (B := B) strains temps b (y k b) _ G k0 kn); last by apply: leq_ltn_trans kn.
  by rewrite !mxE !to_vecE. }
split=> [[Z H]|[Z H]]; split=> // k b.
- move=> i k0 kn im; have := X k b (Ordinal im) k0 kn; rewrite (H k b k0 kn) mxE => e; apply: Rminus_diag_uniq; exact: (esym e).
- move=> k0 kn; apply/colP => i; rewrite (X k b i k0 kn) mxE; apply: Rminus_diag_eq; exact: H.
Qed.
End Hist.

Section VC.
Variables (E pn eta s0 Rs d : R -> R) (nback : nat) (C g : R -> nat -> R).
Let B := voce_chaboche E pn eta s0 Rs d nback C g.
(** Parameters are admissible at every temperature of the entry, and their saturation values never drop from one time to the next. *)
Definition good_entry (nt : nat) (temps : nat -> nat -> R) (b : nat) : Prop :=
  (forall k, (k < nt)%N -> 0 < E (temps k b) /\ VCHistory.admissible pn eta s0 Rs d nback C g (temps k b)) /\
  (forall k, (k.+1 < nt)%N -> VCHistory.no_softening Rs nback C g (temps k b) (temps k.+1 b)).
Variables (nb nt : nat) (times strains temps : nat -> nat -> R).
Hypothesis G : grid_ok nb nt times.
Hypothesis Gd : forall b, (b < nb)%N -> good_entry nt temps b.
Let step k b s h s' h' := VCHistory.model_step pn eta s0 Rs d nback C g (E (temps k b)) (temps k b) (times k b - times k.-1 b) (strains k b - strains k.-1 b) s h s' h'.
Lemma tvec0 (b : 'I_nb) i : @to_vec B (@zeroV RF nb (Models.rf_n B) b) i = 0.
Proof. rewrite /to_vec; case: insub => [j|//]; by rewrite /zeroV ffunE mxE. Qed.
Lemma history_model (y : nat -> VB RF nb (Models.rf_n B)) : exact_history nt times strains temps y <->
  y 0%N = @zeroV RF nb (Models.rf_n B) /\ forall k (b : 'I_nb), (0 < k)%N -> (k < nt)%N ->
    step k b (to_vec (y k.-1 b) 0%N) (fun i => to_vec (y k.-1 b) i.+1) (to_vec (y k b) 0%N) (fun i => to_vec (y k b) i.+1).
Proof.
apply: iff_trans (history_steps strains temps y G) _; split=> [[Z H]|[Z H]]; split=> // k b.
- move=> k0 kn; have D := dt_pos (ltn_ord b) G k0 kn; split; last split.
  + have := H k b 0%N k0 kn (ltn0Sn _); rewrite (VCHistory.vc_row0 E pn eta s0 Rs d nback C g) /step_rate => ->.
    have Fl (dt e de q : R) : 0 < dt -> dt * (e * (de / dt - q)) = e * (de - dt * q) by move=> H0; field; lra.
    exact: Fl.
  + have := H k b 1%N k0 kn (ltn0Sn _); rewrite (VCHistory.vc_row1 E pn eta s0 Rs d nback C g) => Q; exact: Q.
  + move=> i /ltP ib; have := H k b i.+2 k0 kn ib; rewrite (VCHistory.vc_rowS E pn eta s0 Rs d nback C g) => Q; exact: Q.
- move=> i k0 kn im; have D := dt_pos (ltn_ord b) G k0 kn; have [H1 [H2 H3]] := H k b k0 kn.
  case: i im => [|[|i]] im.
  + rewrite (VCHistory.vc_row0 E pn eta s0 Rs d nback C g) H1 /step_rate {H1 H2 H3}.
    have Fl (dt e de q : R) : 0 < dt -> e * (de - dt * q) = dt * (e * (de / dt - q)) by move=> H0; field; lra.
    exact: Fl.
  + rewrite (VCHistory.vc_row1 E pn eta s0 Rs d nback C g); exact: H2.
  + rewrite (VCHistory.vc_rowS E pn eta s0 Rs d nback C g); apply: H3; exact/ltP.
Qed.

Lemma E_ge0 k (b : 'I_nb) : (k < nt)%N -> 0 <= E (temps k b).
Proof. by move=> kn; have [/(_ k kn) [/Rlt_le e0 _] _] := Gd (ltn_ord b). Qed.
Lemma history_range (y : nat -> VB RF nb (Models.rf_n B)) : exact_history nt times strains temps y ->
  forall k (b : 'I_nb), (k < nt)%N -> VCHistory.in_range Rs nback C g (temps k b) (fun i => @to_vec B (y k b) i.+1).
Proof.
move=> /history_model [Z H] k b; have [G1 G2] := Gd (ltn_ord b); elim: k => [|k IH] kn.
- have [_ A] := G1 0%N kn; apply: (VCHistory.range_zero pn eta s0 Rs d nback C g _ _ A) => i _; by rewrite Z tvec0.
- have [_ A] := G1 k.+1 kn; have D := dt_pos (ltn_ord b) G (ltn0Sn k) kn.
  apply: (VCHistory.model_step_range pn eta s0 Rs d nback C g _ _ _ _ _ _ _ _ (E_ge0 b kn) (Rlt_le _ _ D) A _ (H k.+1 b (ltn0Sn k) kn)).
  apply: VCHistory.range_next (G2 k kn) (IH (ltnW kn)).
Qed.
Lemma history_unique (y y' : nat -> VB RF nb (Models.rf_n B)) : exact_history nt times strains temps y -> exact_history nt times strains temps y' -> forall k, (k < nt)%N -> y k = y' k.
Proof.
move=> Hy Hy'; have Rg := history_range Hy; move/history_model: Hy => [Z H]; move/history_model: Hy' => [Z' H'].
elim=> [|k IH] kn; first by rewrite Z Z'.
apply/ffunP => b; apply/colP => i; have [G1 G2] := Gd (ltn_ord b); have [_ A] := G1 k.+1 kn; have D := dt_pos (ltn_ord b) G (ltn0Sn k) kn.
have M := H k.+1 b (ltn0Sn k) kn; have M' := H' k.+1 b (ltn0Sn k) kn; rewrite [k.+1.-1]/= -(IH (ltnW kn)) in M M' D.
have In : VCHistory.in_range Rs nback C g (temps k.+1 b) (fun i => @to_vec B (y k b) i.+1) by apply: VCHistory.range_next (G2 k kn) (Rg k b (ltnW kn)).
have [Q1 Q2] := VCHistory.model_step_unique pn eta s0 Rs d nback C g _ _ _ _ _ _ _ _ _ _ (E_ge0 b kn) (Rlt_le _ _ D) A In M M'.
rewrite -!(to_vecE (B := B)); case: i => [[|i] im] //=; apply: Q2; exact/ltP.
Qed.
Lemma entry_exists (b : 'I_nb) k : (k < nt)%N -> {Y : nat -> R * Slices.vec |
  Y 0%N = (0, fun _ => 0) /\ forall j, (0 < j)%N -> (j <= k)%N -> step j b (Y j.-1).1 (Y j.-1).2 (Y j).1 (Y j).2}.
Proof.
elim: k => [|k IH] kn.
{ exists (fun _ => (0, fun _ => 0)); split=> // j j0; by rewrite leqn0 => /eqP je; rewrite je in j0. }
have [Y [Y0 HY]] := IH (ltnW kn); have [G1 G2] := Gd (ltn_ord b).
have Rg j : (j <= k)%N -> VCHistory.in_range Rs nback C g (temps j b) (Y j).2.
{ elim: j => [|j IHj] jk.
  - have [_ A] := G1 0%N (leq_ltn_trans (leq0n k) (ltnW kn)); apply: (VCHistory.range_zero pn eta s0 Rs d nback C g _ _ A) => i _; by rewrite Y0.
  - have jn : (j.+1 < nt)%N := leq_ltn_trans jk (ltnW kn).
    have [_ A] := G1 j.+1 jn; have D := dt_pos (ltn_ord b) G (ltn0Sn j) jn.
    apply: (VCHistory.model_step_range pn eta s0 Rs d nback C g _ _ _ _ _ _ _ _ (E_ge0 b jn) (Rlt_le _ _ D) A _ (HY j.+1 (ltn0Sn j) jk)).
    apply: VCHistory.range_next (G2 j jn) (IHj (ltnW jk)). }
have [_ A] := G1 k.+1 kn; have D := dt_pos (ltn_ord b) G (ltn0Sn k) kn.
have In : VCHistory.in_range Rs nback C g (temps k.+1 b) (Y k).2 by apply: VCHistory.range_next (G2 k kn) (Rg k (leqnn k)).
have [z Hz] := VCHistory.model_step_exists pn eta s0 Rs d nback C g (E (temps k.+1 b)) (temps k.+1 b) (times k.+1 b - times k b) (strains k.+1 b - strains k b) (Y k).1 (Y k).2
  (E_ge0 b kn) (Rlt_le _ _ D) A In.
exists (fun j => if (j <= k)%N then Y j else z); split=> // j j0; rewrite leq_eqVlt => /orP [/eqP ->|jk].
- rewrite [k.+1.-1]/= leqnn ltnn; exact: Hz.
- have jk' : (j <= k)%N := jk. rewrite jk' (leq_trans (leq_pred j) jk'); exact: HY.
Qed.
Lemma history_exists : exists y : nat -> VB RF nb (Models.rf_n B), exact_history nt times strains temps y.
Proof.
case: (posnP nt) => [n0|n0].
{ exists (fun _ => @zeroV RF nb (Models.rf_n B)); split=> // k b _; by rewrite n0. }
have kn : (nt.-1 < nt)%N by rewrite prednK.
pose Y b := sval (entry_exists b kn).
have HY b : Y b 0%N = (0, fun _ => 0) /\ forall j, (0 < j)%N -> (j <= nt.-1)%N -> step j b (Y b j.-1).1 (Y b j.-1).2 (Y b j).1 (Y b j).2 := svalP (entry_exists b kn).
pose y k : VB RF nb (Models.rf_n B) := [ffun b => (\col_i ((if (nat_of_ord i) is i'.+1 then (Y b k).2 i' else (Y b k).1) : RF))%R].
have yE k b i : (i < nback.+2)%N -> @to_vec B (y k b) i = (if (i : nat) is i'.+1 then (Y b k).2 i' else (Y b k).1).
{ move=> ib; rewrite -[i]/(nat_of_ord (Ordinal ib : 'I_(Models.rf_n B))) to_vecE /y ffunE mxE; by []. }
exists y; apply/history_model; split.
{ apply/ffunP => b; apply/colP => i; rewrite /y !ffunE !mxE; have [-> _] := HY b; by case: (nat_of_ord i). }
move=> k b k0 kl; have kk : (k <= nt.-1)%N by rewrite -ltnS prednK.
have [_ /(_ k k0 kk) [H1 [H2 H3]]] := HY b.
have fl : VCHistory.the_flow pn eta s0 nback (temps k b) (to_vec (y k b) 0%N) (fun i => @to_vec B (y k b) i.+1) = VCHistory.the_flow pn eta s0 nback (temps k b) (Y b k).1 (Y b k).2.
{ rewrite /VCHistory.the_flow !yE //; congr (VCStep.flow _ _ _ (_ - _)); apply: Deriv.sum_ext => i /ltP ib; by rewrite yE. }
rewrite /step /VCHistory.model_step fl !yE //; split=> //; split=> // i /ltP ib; rewrite !yE //; apply: H3; exact/ltP.
Qed.
End VC.
