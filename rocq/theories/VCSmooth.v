(** The rates of the Voce / Chaboche model as continuously differentiable functions of the state and of the material parameters. *)
From Coq Require Import Reals Lra Lia.
From Verif Require Import Torch Slices Deriv Hardening Flow Models VCStep VCHistory SmoothR.
From Verif Require Props_Flow.
Local Open Scope R_scope.

Section VCS.
(** material functions: parameter vector, temperature *)
Variables (E n eta s0 Rs d : vec -> R -> R) (nback : nat) (C g : vec -> R -> nat -> R) (np : nat).
Variables (t T e : R) (v0 : vec).
Notation m := (S (S nback)).
Notation par := (tail m).
Definition model_at (q : vec) : rateform := inelastic (E q) (isokin (n q) (eta q) (s0 q) (voce (Rs q) (d q)) (chaboche nback (C q) (g q))).
Notation sm F := (smooth np (par v0) F).
Hypotheses (sE : sm (fun q => E q T)) (sn : sm (fun q => n q T)) (se : sm (fun q => eta q T)) (ss : sm (fun q => s0 q T)) (sR : sm (fun q => Rs q T)) (sd : sm (fun q => d q T)).
Hypotheses (sC : forall i, (i < nback)%nat -> sm (fun q => C q T i)) (sg : forall i, (i < nback)%nat -> sm (fun q => g q T i)).
Hypotheses (n1 : 1 < n (par v0) T) (e0 : 0 < eta (par v0) T) (y0 : 0 < s0 (par v0) T + v0 1%nat).
Notation sv F := (smooth (m + np) v0 F).
Let fl (v : vec) : R := the_flow (n (par v)) (eta (par v)) (s0 (par v)) nback T (v 0%nat) (fun i => v (S i)).
Let sK : sv (fun v => s0 (par v) T + v 1%nat).
Proof. apply smooth_plus; [now apply (smooth_tail m np v0 (fun q => s0 q T))|apply smooth_coord; lia]. Qed.
Let sr : sv (fun v => v 0%nat - sum nback (fun i => v (S (S i)))).
Proof. apply smooth_minus; [apply smooth_coord; lia|]. apply (smooth_sum (m + np) v0 nback (fun i v => v (S (S i)))). intros i Hi. apply smooth_coord. lia. Qed.
Lemma vc_flow_smooth : sv fl /\ sv (fun v => Rabs (fl v)).
Proof.
  pose proof (smooth_tail m np v0 _ sn) as tn. pose proof (smooth_tail m np v0 _ se) as te.
  split; [exact (smooth_flow _ _ _ _ _ _ tn te sK sr n1 e0 y0)|exact (smooth_abs_flow _ _ _ _ _ _ tn te sK sr n1 e0 y0)].
Qed.
Lemma vc_rows_smooth i : (i < m)%nat -> sv (fun v => rf_rate (model_at (par v)) t v e T i).
Proof.
  intros Hi. destruct vc_flow_smooth as [F1 F2]. destruct i as [|[|i]].
  - apply (smooth_ext _ _ (fun v => E (par v) T * (e - fl v))); [intros v; symmetry; apply (vc_row0 (E (par v)))|].
    apply smooth_mult; [now apply (smooth_tail m np v0 (fun q => E q T))|]. apply (smooth_minus _ _ (fun _ => e)); [apply smooth_const|exact F1].
  - apply (smooth_ext _ _ (fun v => d (par v) T * (Rs (par v) T - v 1%nat) * Rabs (fl v))); [intros v; symmetry; apply (vc_row1 (E (par v)))|].
    apply (smooth_mult _ _ (fun v => d (par v) T * (Rs (par v) T - v 1%nat))); [|exact F2].
    apply smooth_mult; [now apply (smooth_tail m np v0 (fun q => d q T))|]. apply smooth_minus; [now apply (smooth_tail m np v0 (fun q => Rs q T))|apply smooth_coord; lia].
  - apply (smooth_ext _ _ (fun v => C (par v) T i * fl v - g (par v) T i * v (S (S i)) * Rabs (fl v))); [intros v; symmetry; apply (vc_rowS (E (par v)))|].
    apply smooth_minus.
    + apply (smooth_mult _ _ (fun v => C (par v) T i)); [|exact F1]. apply (smooth_tail m np v0 (fun q => C q T i)), sC. lia.
    + apply (smooth_mult _ _ (fun v => g (par v) T i * v (S (S i)))); [|exact F2]. apply smooth_mult; [apply (smooth_tail m np v0 (fun q => g q T i)), sg; lia|apply smooth_coord; lia].
Qed.
(** Nearby the analytic Jacobian of the code is exact. *)
Lemma vc_jac_near : exists r, 0 < r /\ forall v, near (m + np) v0 r v -> forall y, (forall i, (i < m)%nat -> y i = v i) -> model_exact (model_at (par v)) t y e T.
Proof.
  destruct (flow_near (m + np) v0 _ _ _ (smooth_tail m np v0 _ sn) (smooth_tail m np v0 _ se) sK n1 e0 y0) as (r & Hr & H). exists r. split; [exact Hr|]. intros v Hv y Hy.
  destruct (H v Hv) as (A & B & K). apply inelastic_exact, Props_Flow.C41_voce_chaboche_derivatives; auto. unfold slice. cbn. rewrite Hy by lia. lra.
Qed.
End VCS.
