(** The Voce / Chaboche model under a prescribed stress: the rates and Jacobian that StressBasedModel returns (models.py 521-562) once the inner solve is
    exact, as smooth functions of state and material parameters, and the kernel of the step matrix. *)
From Coq Require Import Reals Lra Lia.
From Verif Require Import Torch Slices Deriv Hardening Flow Models VCStep VCHistory VCRegular SmoothR.
From Verif Require Props_Flow.
Local Open Scope R_scope.

Section Creep.
Variables (E n eta s0 Rs d : R -> R) (nback : nat) (C g : R -> nat -> R).
Notation F := (isokin n eta s0 (voce Rs d) (chaboche nback C g)).
Notation B := (inelastic E F).
(** the strain rate at which the model produces the stress rate csr *)
Definition creep_strain_rate (t : R) (y : vec) (cs csr T : R) : R := csr / E T + fl_rate F cs (slice 1 y) t T 0.
Definition creep_rate (t : R) (y : vec) (cs csr T : R) : vec := sb_rate B t y cs T (creep_strain_rate t y cs csr T).
Definition creep_jac (t : R) (y : vec) (cs csr T : R) : mat := sb_jac B t y cs T (creep_strain_rate t y cs csr T).

Lemma vc_rate_free : rate_free F.
Proof.
  apply rate_free_isokin.
  - intros s h t ep T e e' i Hi. split; reflexivity.
  - intros s h t ep T e e' i Hi. split; reflexivity.
Qed.
Lemma creep_row0 t y cs csr T : creep_rate t y cs csr T 0%nat = csr / E T + the_flow n eta s0 nback T cs (fun i => y (S i)).
Proof. unfold creep_rate, sb_rate. rewrite set0_0. unfold creep_strain_rate. rewrite vc_rate. reflexivity. Qed.
Lemma creep_row1 t y cs csr T : creep_rate t y cs csr T 1%nat = d T * (Rs T - y 1%nat) * Rabs (the_flow n eta s0 nback T cs (fun i => y (S i))).
Proof. unfold creep_rate, sb_rate. rewrite set0_S, (vc_row1 E). reflexivity. Qed.
Lemma creep_rowS t y cs csr T i : creep_rate t y cs csr T (S (S i)) =
  C T i * the_flow n eta s0 nback T cs (fun i => y (S i)) - g T i * y (S (S i)) * Rabs (the_flow n eta s0 nback T cs (fun i => y (S i))).
Proof. unfold creep_rate, sb_rate. rewrite set0_S, (vc_rowS E). reflexivity. Qed.
Lemma creep_rate_ext t (y y' : vec) cs csr T i : (forall j, (j < S (S nback))%nat -> y j = y' j) -> (i < S (S nback))%nat ->
  creep_rate t y cs csr T i = creep_rate t y' cs csr T i.
Proof.
  intros H Hi.
  assert (K : the_flow n eta s0 nback T cs (fun i => y (S i)) = the_flow n eta s0 nback T cs (fun i => y' (S i))).
  { unfold the_flow. rewrite (H 1%nat) by lia. do 2 f_equal. apply sum_ext. intros j Hj. apply H. lia. }
  destruct i as [|[|i]]; [rewrite !creep_row0|rewrite !creep_row1|rewrite !creep_rowS]; rewrite K; auto; [rewrite (H 1%nat) by lia|rewrite (H (S (S i))) by lia]; reflexivity.
Qed.
(** The Jacobian does not depend on the strain rate it is evaluated at. *)
Lemma creep_jac_any t y cs csr T e i j : sb_jac B t y cs T e i j = creep_jac t y cs csr T i j.
Proof. unfold creep_jac. generalize (creep_strain_rate t y cs csr T). intros e'. reflexivity. Qed.

Lemma creep_exact t y cs csr T Y th y' : E T <> 0 -> 1 < n T -> 0 < eta T -> 0 < s0 T + y 1%nat ->
  (forall j, (j < S (S nback))%nat -> Y th j = y j /\ D (fun u => Y u j) th (y' j)) -> forall i, (i < S (S nback))%nat ->
  D (fun u => creep_rate t (Y u) cs csr T i) th (sum (S (S nback)) (fun j => creep_jac t y cs csr T i j * y' j)).
Proof.
  intros HE Hn He Hk HY i Hi.
  assert (X : D (fun z => creep_rate t (Y (th + z)) cs csr T i) 0 (sum (S (S nback)) (fun j => creep_jac t y cs csr T i j * y' j))).
  { apply (rate_free_exact E F t y cs csr T (fun z => Y (th + z)) y' vc_rate_free HE); [|intros j Hj|exact Hi].
    - intros e. apply Props_Flow.C41_voce_chaboche_derivatives; auto. unfold slice. cbn. lra.
    - destruct (HY j Hj) as [Y0 DY]. split; [now rewrite Rplus_0_r|]. intros eps Hp. destruct (DY eps Hp) as [dl Hd]. exists dl. intros h h0 hd. rewrite Rplus_0_l, Rplus_0_r. now apply Hd. }
  intros eps Hp. destruct (X eps Hp) as [dl Hd]. exists dl. intros h h0 hd. specialize (Hd h h0 hd). now rewrite Rplus_0_l, Rplus_0_r in Hd.
Qed.
End Creep.

(** The step matrix: its kernel is trivial, because the internal variables alone form the step matrix of a material of zero modulus. *)
Lemma creep_regular (E n eta s0 Rs d : R -> R) nback (C g : R -> nat -> R) t (y : vec) cs csr T dt (z : vec) : 0 < n T -> 0 < eta T -> 0 <= d T ->
  (0 <= y 1%nat <= Rs T /\ forall i, (i < nback)%nat -> 0 <= g T i /\ g T i * Rabs (y (S (S i))) <= C T i) -> 0 < dt ->
  (forall i, (i < S (S nback))%nat -> z i = dt * sum (S (S nback)) (fun j => creep_jac E n eta s0 Rs d nback C g t y cs csr T i j * z j)) ->
  forall i, (i < S (S nback))%nat -> z i = 0.
Proof.
  intros Hn He Hd Rg Hdt Hz.
  pose proof (regular (fun _ => 0) n eta s0 Rs d nback C g t T 0 (set0 cs y) (Rle_refl 0) Hn He Hd Rg dt (set0 0 z) Hdt) as K.
  assert (K' : forall i, (i < S (S nback))%nat -> set0 0 z i = 0).
  { apply K. intros [|i] Hi.
    - rewrite (jac_row0 (fun _ => 0) n eta s0 Rs d nback C g). rewrite set0_0. ring.
    - rewrite set0_S. rewrite (Hz (S i) Hi). f_equal. apply sum_ext. intros [|j] Hj; [rewrite set0_0; unfold creep_jac, sb_jac; cbn [Nat.eqb]; ring|].
      rewrite set0_S. f_equal. }
  assert (T1 : forall i, (S i < S (S nback))%nat -> z (S i) = 0) by (intros i Hi; exact (K' (S i) Hi)).
  intros [|i] Hi; [|now apply T1]. rewrite (Hz 0%nat Hi).
  rewrite sum_0; [ring|]. intros [|j] Hj; [unfold creep_jac, sb_jac; cbn [Nat.eqb]; ring|rewrite T1 by exact Hj; ring].
Qed.

Section CreepS.
Variables (E n eta s0 Rs d : vec -> R -> R) (nback : nat) (C g : vec -> R -> nat -> R) (np : nat).
Variables (t T cs csr : R) (v0 : vec).
Notation m := (S (S nback)).
Notation par := (tail m).
Notation sm F := (smooth np (par v0) F).
Hypotheses (sE : sm (fun q => E q T)) (sn : sm (fun q => n q T)) (se : sm (fun q => eta q T)) (ss : sm (fun q => s0 q T)) (sR : sm (fun q => Rs q T)) (sd : sm (fun q => d q T)).
Hypotheses (sC : forall i, (i < nback)%nat -> sm (fun q => C q T i)) (sg : forall i, (i < nback)%nat -> sm (fun q => g q T i)).
Hypotheses (E0 : 0 < E (par v0) T) (n1 : 1 < n (par v0) T) (e0 : 0 < eta (par v0) T) (y0 : 0 < s0 (par v0) T + v0 1%nat).
Notation sv F := (smooth (m + np) v0 F).
Let fl (v : vec) : R := the_flow (n (par v)) (eta (par v)) (s0 (par v)) nback T cs (fun i => v (S i)).
Let sK : sv (fun v => s0 (par v) T + v 1%nat).
Proof. apply smooth_plus; [now apply (smooth_tail m np v0 (fun q => s0 q T))|apply smooth_coord; lia]. Qed.
Let sr : sv (fun v => cs - sum nback (fun i => v (S (S i)))).
Proof. apply (smooth_minus _ _ (fun _ => cs)); [apply smooth_const|]. apply (smooth_sum (m + np) v0 nback (fun i v => v (S (S i)))). intros i Hi. apply smooth_coord. lia. Qed.
Let flow_smooth : sv fl /\ sv (fun v => Rabs (fl v)).
Proof.
  pose proof (smooth_tail m np v0 _ sn) as tn. pose proof (smooth_tail m np v0 _ se) as te.
  split; [exact (smooth_flow _ _ _ _ _ _ tn te sK sr n1 e0 y0)|exact (smooth_abs_flow _ _ _ _ _ _ tn te sK sr n1 e0 y0)].
Qed.
Notation cr v := (creep_rate (E (par v)) (n (par v)) (eta (par v)) (s0 (par v)) (Rs (par v)) (d (par v)) nback (C (par v)) (g (par v)) t).
Lemma creep_rows_smooth i : (i < m)%nat -> sv (fun v => cr v v cs csr T i).
Proof.
  intros Hi. destruct flow_smooth as [F1 F2]. destruct i as [|[|i]].
  - apply (smooth_ext _ _ (fun v => csr / E (par v) T + fl v)); [intros v; symmetry; apply creep_row0|].
    apply smooth_plus; [|exact F1]. apply (smooth_div _ _ (fun _ => csr)); [exact E0|apply smooth_const|now apply (smooth_tail m np v0 (fun q => E q T))].
  - apply (smooth_ext _ _ (fun v => d (par v) T * (Rs (par v) T - v 1%nat) * Rabs (fl v))); [intros v; symmetry; apply (creep_row1 (E (par v)))|].
    apply (smooth_mult _ _ (fun v => d (par v) T * (Rs (par v) T - v 1%nat))); [|exact F2].
    apply smooth_mult; [now apply (smooth_tail m np v0 (fun q => d q T))|]. apply smooth_minus; [now apply (smooth_tail m np v0 (fun q => Rs q T))|apply smooth_coord; lia].
  - apply (smooth_ext _ _ (fun v => C (par v) T i * fl v - g (par v) T i * v (S (S i)) * Rabs (fl v))); [intros v; symmetry; apply (creep_rowS (E (par v)))|].
    apply smooth_minus.
    + apply (smooth_mult _ _ (fun v => C (par v) T i)); [|exact F1]. apply (smooth_tail m np v0 (fun q => C q T i)), sC. lia.
    + apply (smooth_mult _ _ (fun v => g (par v) T i * v (S (S i)))); [|exact F2]. apply smooth_mult; [apply (smooth_tail m np v0 (fun q => g q T i)), sg; lia|apply smooth_coord; lia].
Qed.
Lemma creep_jac_near : exists r, 0 < r /\ forall v, near (m + np) v0 r v -> 0 < E (par v) T /\ 1 < n (par v) T /\ 0 < eta (par v) T /\ 0 < s0 (par v) T + v 1%nat.
Proof.
  destruct (flow_near (m + np) v0 _ _ _ (smooth_tail m np v0 _ sn) (smooth_tail m np v0 _ se) sK n1 e0 y0) as (r & Hr & H).
  destruct (cont_pos (m + np) v0 _ (smooth_cont _ _ _ (smooth_tail m np v0 _ sE)) E0) as (r' & Hr' & H').
  exists (Rmin r r'). split; [now apply Rmin_glb_lt|]. intros v Hv. split.
  - apply H'. apply (near_le _ _ _ _ _ (Rmin_r r r') Hv).
  - apply H. apply (near_le _ _ _ _ _ (Rmin_l r r') Hv).
Qed.
End CreepS.
