(** Model of hardening.py at one batch point.  A temperature-dependent
    parameter is a function of the temperature. *)
From Coq Require Import Reals Lra Lia List Arith Bool.
From Verif Require Import Torch Deriv Slices.
Import ListNotations.
Local Open Scope bool_scope.
Local Open Scope R_scope.

(** What a hardening model provides (methods of HardeningModel subclasses):
    arguments are stress, history, time, inelastic rate, temperature, total
    strain rate.  dhistory_rate_derate is an (nhist,1) column, here a vector. *)
Record hardening := Hardening {
  hd_nhist : nat;
  hd_value : vec -> R;
  hd_dvalue : vec -> vec;
  hd_rate : R -> vec -> R -> R -> R -> R -> vec;
  hd_dstress : R -> vec -> R -> R -> R -> R -> vec;
  hd_dhistory : R -> vec -> R -> R -> R -> R -> mat;
  hd_derate : R -> vec -> R -> R -> R -> R -> vec;
  hd_dtotal : R -> vec -> R -> R -> R -> R -> vec }.

(** HardeningModel.dhistory_rate_dtotalrate, hardening.py 33-51: zeros. *)
Definition default_dtotal (s : R) (h : vec) (t ep T e : R) : vec := vzero.

(** VoceIsotropicHardeningModel, hardening.py 64-186 *)
Definition voce (Rs d : R -> R) : hardening := {|
  hd_nhist := 1;
  hd_value h := h 0%nat;
  hd_dvalue h := fun _ => 1;
  hd_rate s h t ep T e := fun _ => d T * (Rs T - h 0%nat) * Rabs ep;
  hd_dstress s h t ep T e := vzero;
  hd_dhistory s h t ep T e := fun _ _ => - d T * 1 * Rabs ep;
  hd_derate s h t ep T e := fun _ => d T * (Rs T - h 0%nat) * tsign ep;
  hd_dtotal := default_dtotal |}.

(** Theta0VoceIsotropicHardeningModel, hardening.py 189-318 *)
Definition theta0voce (tau theta : R -> R) : hardening := {|
  hd_nhist := 1;
  hd_value h := h 0%nat;
  hd_dvalue h := fun _ => 1;
  hd_rate s h t ep T e := fun _ => theta T * (1 - h 0%nat / tau T) * Rabs ep;
  hd_dstress s h t ep T e := vzero;
  hd_dhistory s h t ep T e := fun _ _ => - theta T / tau T * 1 * Rabs ep;
  hd_derate s h t ep T e := fun _ => theta T * (1 - h 0%nat / tau T) * tsign ep;
  hd_dtotal := default_dtotal |}.

(** Theta0RecoveryVoceIsotropicHardeningModel, hardening.py 321-444 *)
Definition theta0recovery (tau theta R0 r1 r2 : R -> R) : hardening := {|
  hd_nhist := 1;
  hd_value h := h 0%nat;
  hd_dvalue h := fun _ => 1;
  hd_rate s h t ep T e := fun _ =>
    theta T * (1 - h 0%nat / tau T) * Rabs ep
    + r1 T * (R0 T - h 0%nat) * pow0 (Rabs (R0 T - h 0%nat)) (r2 T - 1);
  hd_dstress s h t ep T e := vzero;
  hd_dhistory s h t ep T e := fun _ _ =>
    let recovery := r2 T * r1 T * pow0 (Rabs (R0 T - h 0%nat)) (r2 T - 1) in
    - theta T / tau T * 1 * Rabs ep - recovery;
  hd_derate s h t ep T e := fun _ => theta T * (1 - h 0%nat / tau T) * tsign ep;
  hd_dtotal := default_dtotal |}.

(** NoKinematicHardeningModel, hardening.py 458-554 (all vectors are empty) *)
Definition nokin : hardening := {|
  hd_nhist := 0;
  hd_value h := 0;
  hd_dvalue h := vzero;
  hd_rate s h t ep T e := vzero;
  hd_dstress s h t ep T e := vzero;
  hd_dhistory s h t ep T e := mzero;
  hd_derate s h t ep T e := vzero;
  hd_dtotal := default_dtotal |}.

(** FAKinematicHardeningModel, hardening.py 557-702.  The docstring's 2/3 C is
    C in the code (line 643), which is what is modelled.  b, r default to the
    constants 0 and 1 (lines 586-589). *)
Definition fa (C g : R -> R) (ob orr : option (R -> R)) : hardening :=
  let b := match ob with Some b => b | None => fun _ => 0 end in
  let r := match orr with Some r => r | None => fun _ => 1 end in {|
  hd_nhist := 1;
  hd_value h := h 0%nat;
  hd_dvalue h := fun _ => 1;
  hd_rate s h t ep T e := fun _ =>
    C T * 1 * ep - g T * h 0%nat * Rabs ep - b T * pow0 (Rabs (h 0%nat)) (r T - 1) * h 0%nat;
  hd_dstress s h t ep T e := vzero;
  hd_dhistory s h t ep T e := fun _ _ =>
    - g T * 1 * Rabs ep - b T * r T * pow0 (Rabs (h 0%nat)) (r T - 1);
  hd_derate s h t ep T e := fun _ => C T - g T * h 0%nat * tsign ep;
  hd_dtotal := default_dtotal |}.

(** FAKinematicHardeningModelNoRecovery, hardening.py 705-834 *)
Definition fa_norecovery (C g : R -> R) : hardening := {|
  hd_nhist := 1;
  hd_value h := h 0%nat;
  hd_dvalue h := fun _ => 1;
  hd_rate s h t ep T e := fun _ => C T * 1 * ep - g T * h 0%nat * Rabs ep;
  hd_dstress s h t ep T e := vzero;
  hd_dhistory s h t ep T e := fun _ _ => - g T * 1 * Rabs ep;
  hd_derate s h t ep T e := fun _ => C T - g T * h 0%nat * tsign ep;
  hd_dtotal := default_dtotal |}.

(** torch.diag_embed *)
Definition diag_embed (v : vec) : mat := fun i j => if i =? j then v i else 0.

(** ChabocheHardeningModel, hardening.py 837-978 *)
Definition chaboche (nback : nat) (C g : R -> vec) : hardening := {|
  hd_nhist := nback;
  hd_value h := sum nback h;
  hd_dvalue h := fun _ => 1;
  hd_rate s h t ep T e := fun i => C T i * ep - g T i * h i * Rabs ep;
  hd_dstress s h t ep T e := vzero;
  hd_dhistory s h t ep T e := diag_embed (fun i => - g T i * Rabs ep);
  hd_derate s h t ep T e := fun i => C T i * 1 - g T i * h i * tsign ep;
  hd_dtotal := default_dtotal |}.

(** ChabocheHardeningModelRecovery, hardening.py 981-1137 *)
Definition chaboche_recovery (nback : nat) (C g b r : R -> vec) : hardening := {|
  hd_nhist := nback;
  hd_value h := sum nback h;
  hd_dvalue h := fun _ => 1;
  hd_rate s h t ep T e := fun i =>
    C T i * ep - g T i * h i * Rabs ep - b T i * pow0 (Rabs (h i)) (r T i - 1) * h i;
  hd_dstress s h t ep T e := vzero;
  hd_dhistory s h t ep T e := fun i j =>
    diag_embed (fun i => - g T i * Rabs ep) i j
    + diag_embed (fun i => - b T i * r T i * pow0 (Rabs (h i)) (r T i - 1)) i j;
  hd_derate s h t ep T e := fun i => C T i * 1 - g T i * h i * tsign ep;
  hd_dtotal := default_dtotal |}.

(** SuperimposedKinematicHardening, hardening.py 1140-1311: the loops over
    (offset, nhist, model) are [loop_add]/[loop_assign]/[loop_assign2]. *)
Definition superimposed (ms : list hardening) : hardening := {|
  hd_nhist := total (map hd_nhist ms);
  hd_value h := loop_add hd_nhist (fun o m => hd_value m (slice o h)) ms;
  hd_dvalue h := loop_assign hd_nhist (fun o m => hd_dvalue m (slice o h)) ms;
  hd_rate s h t ep T e := loop_assign hd_nhist (fun o m => hd_rate m s (slice o h) t ep T e) ms;
  hd_dstress s h t ep T e := loop_assign hd_nhist (fun o m => hd_dstress m s (slice o h) t ep T e) ms;
  hd_dhistory s h t ep T e := loop_assign2 hd_nhist (fun o m => hd_dhistory m s (slice o h) t ep T e) ms;
  hd_derate s h t ep T e := loop_assign hd_nhist (fun o m => hd_derate m s (slice o h) t ep T e) ms;
  hd_dtotal s h t ep T e := loop_assign hd_nhist (fun o m => hd_dtotal m s (slice o h) t ep T e) ms |}.

(** ** Specification: exact derivatives *)
(** [through f x v]: the curve f passes through x at parameter 0 with velocity v. *)
Definition through (f : R -> R) (x v : R) : Prop := f 0 = x /\ D f 0 v.
Definition vthrough (n : nat) (f : R -> vec) (x v : vec) : Prop :=
  forall i, (i < n)%nat -> through (fun y => f y i) (x i) (v i).

(** The value map's derivative is exact. *)
Definition value_exact (m : hardening) (h : vec) : Prop :=
  forall H h', vthrough (hd_nhist m) H h h' ->
  D (fun y => hd_value m (H y)) 0 (sum (hd_nhist m) (fun j => hd_dvalue m h j * h' j)).

(** The history rate's derivatives are exact along every differentiable curve
    of stress, history, inelastic rate and total rate (|ep| is only crossed at
    zero with zero velocity, where it is not differentiable otherwise). *)
Definition rate_exact (m : hardening) (s : R) (h : vec) (t ep T e : R) : Prop :=
  forall S H EP E s' h' ep' e',
  through S s s' -> vthrough (hd_nhist m) H h h' -> through EP ep ep' -> through E e e' ->
  ep <> 0 \/ ep' = 0 ->
  forall i, (i < hd_nhist m)%nat ->
  D (fun y => hd_rate m (S y) (H y) t (EP y) T (E y) i) 0
    (hd_dstress m s h t ep T e i * s' + sum (hd_nhist m) (fun j => hd_dhistory m s h t ep T e i j * h' j)
     + hd_derate m s h t ep T e i * ep' + hd_dtotal m s h t ep T e i * e').

(** Only the first nhist entries of the history are read. *)
Definition agree (n : nat) (h h' : vec) : Prop := forall i, (i < n)%nat -> h i = h' i.

(** ** Proofs *)
Lemma voce_value_exact1 h H h' : vthrough 1 H h h' -> D (fun y => H y 0%nat) 0 (sum 1 (fun j => 1 * h' j)).
Proof. intros V. destruct (V 0%nat) as [_ V']; [lia|]. eapply D_eq; [exact V'|]. simpl. ring. Qed.

Lemma voce_value Rs d h : value_exact (voce Rs d) h.
Proof. intros H h' V. now apply (voce_value_exact1 h). Qed.
Lemma theta0voce_value tau theta h : value_exact (theta0voce tau theta) h.
Proof. intros H h' V. now apply (voce_value_exact1 h). Qed.
Lemma theta0recovery_value tau theta R0 r1 r2 h : value_exact (theta0recovery tau theta R0 r1 r2) h.
Proof. intros H h' V. now apply (voce_value_exact1 h). Qed.
Lemma fa_value C g b r h : value_exact (fa C g b r) h.
Proof. intros H h' V. now apply (voce_value_exact1 h). Qed.
Lemma fan_value C g h : value_exact (fa_norecovery C g) h.
Proof. intros H h' V. now apply (voce_value_exact1 h). Qed.
Lemma nokin_value h : value_exact nokin h.
Proof. intros H h' V. simpl. apply D_const. Qed.
Lemma sum_value n h H h' : vthrough n H h h' -> D (fun y => sum n (H y)) 0 (sum n (fun j => 1 * h' j)).
Proof.
  intros V. apply (D_sum n (fun i y => H y i)). intros i Hi. destruct (V i Hi) as [_ V'].
  eapply D_eq; [exact V'|ring].
Qed.
Lemma chaboche_value n C g h : value_exact (chaboche n C g) h.
Proof. intros H h' V. now apply (sum_value n h). Qed.
Lemma chaboche_recovery_value n C g b r h : value_exact (chaboche_recovery n C g b r) h.
Proof. intros H h' V. now apply (sum_value n h). Qed.

Lemma sum_diag n v h' i : (i < n)%nat -> sum n (fun j => diag_embed v i j * h' j) = v i * h' i.
Proof.
  intros Hi. rewrite (sum_single n i); auto.
  - unfold diag_embed. now rewrite Nat.eqb_refl.
  - intros j Hj Hn. unfold diag_embed. destruct (Nat.eqb_spec i j); [congruence|ring].
Qed.

(** One component of Voce type: a (c - b h) |ep|. *)
Lemma voce_rate Rs d s h t ep T e : rate_exact (voce Rs d) s h t ep T e.
Proof.
  intros S H EP E s' h' ep' e' HS HH HEP HE C i Hi. destruct (HH 0%nat ltac:(simpl in *; lia)) as [H0 H1]. destruct HEP as [P0 P1].
  cbn [voce hd_rate hd_dstress hd_dhistory hd_derate hd_dtotal hd_nhist sum vzero default_dtotal].
  eapply D_eq.
  - apply D_mult; [apply D_scal, D_minus; [apply D_const|exact H1]|]. apply D_Rabs; eauto. now rewrite P0.
  - cbv beta zeta. rewrite P0, H0. unfold vzero, default_dtotal, vzero. ring.
Qed.
Lemma theta0voce_rate tau theta s h t ep T e : rate_exact (theta0voce tau theta) s h t ep T e.
Proof.
  intros S H EP E s' h' ep' e' HS HH HEP HE C i Hi. destruct (HH 0%nat ltac:(simpl in *; lia)) as [H0 H1]. destruct HEP as [P0 P1].
  cbn [theta0voce hd_rate hd_dstress hd_dhistory hd_derate hd_dtotal hd_nhist sum vzero default_dtotal].
  eapply D_eq.
  - apply D_mult; [apply D_scal, D_minus; [apply D_const|apply D_div_c; exact H1]|]. apply D_Rabs; eauto. now rewrite P0.
  - cbv beta zeta. rewrite P0, H0. unfold vzero, default_dtotal, vzero, Rdiv. ring.
Qed.
Lemma theta0recovery_rate tau theta R0 r1 r2 s h t ep T e : 1 <= r2 T \/ h 0%nat <> R0 T ->
  rate_exact (theta0recovery tau theta R0 r1 r2) s h t ep T e.
Proof.
  intros Hr S H EP E s' h' ep' e' HS HH HEP HE C i Hi. destruct (HH 0%nat ltac:(simpl in *; lia)) as [H0 H1]. destruct HEP as [P0 P1].
  cbn [theta0recovery hd_rate hd_dstress hd_dhistory hd_derate hd_dtotal hd_nhist sum vzero default_dtotal].
  eapply D_eq.
  - apply D_plus.
    + apply D_mult; [apply D_scal, D_minus; [apply D_const|apply D_div_c; exact H1]|]. apply D_Rabs; eauto. now rewrite P0.
    + eapply D_ext with (f := fun y => r1 T * (pow0 (Rabs (R0 T - H y 0%nat)) (r2 T - 1) * (R0 T - H y 0%nat))).
      { intros y. ring. }
      apply D_scal. apply (D_recov (fun y => R0 T - H y 0%nat)); [|apply D_minus; [apply D_const|exact H1]].
      rewrite H0. destruct Hr; [auto|right; lra].
  - cbv beta zeta. rewrite P0, H0. unfold vzero, default_dtotal, vzero, Rdiv. ring.
Qed.
Lemma nokin_rate s h t ep T e : rate_exact nokin s h t ep T e.
Proof. intros S H EP E s' h' ep' e' HS HH HEP HE C i Hi. simpl in Hi. lia. Qed.
Lemma fa_rate C g ob orr s h t ep T e :
  (match orr with Some r => 1 <= r T \/ h 0%nat <> 0 | None => True end) ->
  rate_exact (fa C g ob orr) s h t ep T e.
Proof.
  intros Hr S H EP E s' h' ep' e' HS HH HEP HE K i Hi. destruct (HH 0%nat ltac:(simpl in *; lia)) as [H0 H1]. destruct HEP as [P0 P1].
  unfold fa. set (b := match ob with Some b => b | None => fun _ => 0 end). set (r := match orr with Some r => r | None => fun _ => 1 end).
  assert (Hr' : 1 <= r T \/ h 0%nat <> 0) by (unfold r; destruct orr; [auto|left; lra]).
  cbn [hd_rate hd_dstress hd_dhistory hd_derate hd_dtotal hd_nhist sum vzero default_dtotal].
  eapply D_eq.
  - apply D_minus; [apply D_minus|].
    + apply D_scal. exact P1.
    + apply D_mult; [apply D_scal; exact H1|]. apply D_Rabs; eauto. now rewrite P0.
    + eapply D_ext with (f := fun y => b T * (pow0 (Rabs (H y 0%nat)) (r T - 1) * H y 0%nat)).
      { intros y. ring. }
      apply D_scal. apply (D_recov (fun y => H y 0%nat)); [|exact H1]. now rewrite H0.
  - cbv beta zeta. rewrite P0, H0. unfold vzero, default_dtotal, vzero, Rdiv. ring.
Qed.
Lemma fan_rate C g s h t ep T e : rate_exact (fa_norecovery C g) s h t ep T e.
Proof.
  intros S H EP E s' h' ep' e' HS HH HEP HE K i Hi. destruct (HH 0%nat ltac:(simpl in *; lia)) as [H0 H1]. destruct HEP as [P0 P1].
  cbn [fa_norecovery hd_rate hd_dstress hd_dhistory hd_derate hd_dtotal hd_nhist sum vzero default_dtotal].
  eapply D_eq.
  - apply D_minus; [apply D_scal; exact P1|]. apply D_mult; [apply D_scal; exact H1|]. apply D_Rabs; eauto. now rewrite P0.
  - cbv beta zeta. rewrite P0, H0. unfold vzero, default_dtotal, vzero, Rdiv. ring.
Qed.
Lemma chaboche_rate n C g s h t ep T e : rate_exact (chaboche n C g) s h t ep T e.
Proof.
  intros S H EP E s' h' ep' e' HS HH HEP HE K i Hi. cbn [hd_nhist chaboche] in Hi, HH.
  destruct (HH i Hi) as [H0 H1]. destruct HEP as [P0 P1].
  cbn [chaboche hd_rate hd_dstress hd_dhistory hd_derate hd_dtotal hd_nhist]. rewrite sum_diag by auto.
  eapply D_eq.
  - apply D_minus; [apply D_scal; exact P1|]. apply D_mult; [apply D_scal; exact H1|]. apply D_Rabs; eauto. now rewrite P0.
  - cbv beta zeta. rewrite P0, H0. unfold vzero, default_dtotal, vzero, Rdiv. ring.
Qed.
Lemma chaboche_recovery_rate n C g b r s h t ep T e : (forall i, (i < n)%nat -> 1 <= r T i \/ h i <> 0) ->
  rate_exact (chaboche_recovery n C g b r) s h t ep T e.
Proof.
  intros Hr S H EP E s' h' ep' e' HS HH HEP HE K i Hi. cbn [hd_nhist chaboche_recovery] in Hi, HH.
  destruct (HH i Hi) as [H0 H1]. destruct HEP as [P0 P1].
  cbn [chaboche_recovery hd_rate hd_dstress hd_dhistory hd_derate hd_dtotal hd_nhist].
  rewrite (sum_ext n _ (fun j => diag_embed (fun i => - g T i * Rabs ep) i j * h' j
     + diag_embed (fun i => - b T i * r T i * pow0 (Rabs (h i)) (r T i - 1)) i j * h' j)) by (intros; ring).
  rewrite sum_plus, !sum_diag by auto.
  eapply D_eq.
  - apply D_minus; [apply D_minus|].
    + apply D_scal. exact P1.
    + apply D_mult; [apply D_scal; exact H1|]. apply D_Rabs; eauto. now rewrite P0.
    + eapply D_ext with (f := fun y => b T i * (pow0 (Rabs (H y i)) (r T i - 1) * H y i)).
      { intros y. ring. }
      apply D_scal. apply (D_recov (fun y => H y i)); [|exact H1]. rewrite H0. auto.
  - cbv beta zeta. rewrite P0, H0. unfold vzero, default_dtotal, vzero, Rdiv. ring.
Qed.

(** Superimposed models. *)
Section Super.
Variables (ms : list hardening) (d0 : hardening).
Notation m_ k := (nth k ms d0).
Notation off_ k := (off hd_nhist ms k).

Lemma super_nhist : hd_nhist (superimposed ms) = size hd_nhist ms.
Proof. cbn [superimposed hd_nhist]. now rewrite total_sum. Qed.

Lemma super_value_sum h : hd_value (superimposed ms) h = sum (length ms) (fun k => hd_value (m_ k) (slice (off_ k) h)).
Proof. cbn [superimposed hd_value]. rewrite loop_add_rec, (rec_add_sum _ _ _ d0). reflexivity. Qed.

Lemma super_block (f : nat -> hardening -> vec) k i : (k < length ms)%nat -> (i < hd_nhist (m_ k))%nat ->
  loop_assign hd_nhist f ms (off_ k + i)%nat = f (off_ k) (m_ k) i.
Proof.
  intros Hk Hi. rewrite loop_assign_rec by (apply (off_lt _ _ _ _ d0); auto).
  now rewrite (rec_assign_block _ _ _ _ _ _ d0).
Qed.
Lemma super_block2 (f : nat -> hardening -> mat) k i j : (k < length ms)%nat -> (i < hd_nhist (m_ k))%nat -> (j < size hd_nhist ms)%nat ->
  loop_assign2 hd_nhist f ms (off_ k + i)%nat j =
  if (off_ k <=? j) && (j <? off_ k + hd_nhist (m_ k)) then f (off_ k) (m_ k) i (j - off_ k)%nat else 0.
Proof.
  intros Hk Hi Hj. rewrite loop_assign2_rec by (auto; apply (off_lt _ _ _ _ d0); auto).
  now rewrite (rec_assign2_block _ _ _ _ _ _ _ d0).
Qed.

Lemma super_rate_exact s h t ep T e :
  (forall k, (k < length ms)%nat -> rate_exact (m_ k) s (slice (off_ k) h) t ep T e) ->
  rate_exact (superimposed ms) s h t ep T e.
Proof.
  intros X S H EP E s' h' ep' e' HS HH HEP HE C i Hi. rewrite super_nhist in *.
  destruct (block_decomp hd_nhist ms d0 i Hi) as (k & i' & Hk & Hi' & ->).
  cbn [superimposed hd_rate hd_dstress hd_dhistory hd_derate hd_dtotal].
  apply D_ext with (f := fun y => hd_rate (m_ k) (S y) (slice (off_ k) (H y)) t (EP y) T (E y) i').
  { intros y. now rewrite super_block. }
  rewrite !super_block by auto.
  rewrite (sum_ext _ _ (fun j => if (off_ k <=? j) && (j <? off_ k + hd_nhist (m_ k)) then
      hd_dhistory (m_ k) s (slice (off_ k) h) t ep T e i' (j - off_ k)%nat * h' j else 0)).
  2:{ intros j Hj. rewrite super_block2 by auto. destruct (_ && _); ring. }
  rewrite sum_block by (now apply off_block).
  rewrite (sum_ext _ _ (fun j => hd_dhistory (m_ k) s (slice (off_ k) h) t ep T e i' j * slice (off_ k) h' j)).
  2:{ intros j Hj. unfold slice at 2. do 2 f_equal. lia. }
  apply (X k Hk S (fun y => slice (off_ k) (H y)) EP E s' (slice (off_ k) h') ep' e'); auto.
  intros j Hj. apply (HH (off_ k + j)%nat). pose proof (off_block hd_nhist ms k d0 Hk). lia.
Qed.

Lemma super_value_exact h :
  (forall k, (k < length ms)%nat -> value_exact (m_ k) (slice (off_ k) h)) ->
  value_exact (superimposed ms) h.
Proof.
  intros X H h' HH. rewrite super_nhist in *.
  apply D_ext with (f := fun y => sum (length ms) (fun k => hd_value (m_ k) (slice (off_ k) (H y)))).
  { intros y. now rewrite super_value_sum. }
  eapply D_eq.
  - apply (D_sum (length ms) (fun k y => hd_value (m_ k) (slice (off_ k) (H y))) 0
      (fun k => sum (hd_nhist (m_ k)) (fun j => hd_dvalue (m_ k) (slice (off_ k) h) j * h' (off_ k + j)%nat))).
    intros k Hk. apply (X k Hk (fun y => slice (off_ k) (H y)) (slice (off_ k) h')).
    intros j Hj. apply (HH (off_ k + j)%nat). pose proof (off_block hd_nhist ms k d0 Hk). lia.
  - cbn [superimposed hd_dvalue].
    rewrite (sum_ext (size hd_nhist ms) _ (fun j => rec_assign hd_nhist (fun o m => hd_dvalue m (slice o h)) 0 ms j * h' j)).
    2:{ intros j Hj. now rewrite loop_assign_rec. }
    clear X HH. change (sum (length ms) (fun k => sum (hd_nhist (m_ k)) (fun j => hd_dvalue (m_ k) (slice (0 + off_ k) h) j * h' (0 + off_ k + j)%nat))
       = sum (size hd_nhist ms) (fun j => rec_assign hd_nhist (fun o m => hd_dvalue m (slice o h)) 0 ms j * h' (0 + j)%nat)).
    generalize 0%nat. induction ms as [|m r IH]; intros o; [reflexivity|].
    cbn [length]. rewrite sum_S, size_cons, sum_app. f_equal.
    + cbn [nth]. apply sum_ext. intros j Hj. cbn [rec_assign]. unfold cat. destruct (Nat.ltb_spec j (hd_nhist m)); [|lia].
      unfold off. cbn [firstn map]. rewrite (eq_refl : list_sum [] = 0%nat). now rewrite Nat.add_0_r.
    + rewrite (sum_ext _ _ (fun k => sum (hd_nhist (nth k r d0)) (fun j => hd_dvalue (nth k r d0) (slice (o + hd_nhist m + off hd_nhist r k) h) j * h' (o + hd_nhist m + off hd_nhist r k + j)%nat))).
      * rewrite IH. apply sum_ext. intros j Hj. cbn [rec_assign]. unfold cat. destruct (Nat.ltb_spec (hd_nhist m + j) (hd_nhist m)); [lia|].
        f_equal; f_equal; lia.
      * intros k Hk. cbn [nth]. rewrite off_S, Nat.add_assoc. reflexivity.
Qed.
End Super.

(** ** Saturation under backward Euler (C50)
    One step of size dt solves x1 = x0 + dt * rate(x1). *)
Definition be_step (m : hardening) (i : nat) (dt s t ep T e : R) (x0 x1 : vec) : Prop :=
  x1 i = x0 i + dt * hd_rate m s x1 t ep T e i.

(** A history of steps: any number of them, of any size, at any inelastic rates. *)
Definition be_history (m : hardening) (i : nat) (T : R) (dt s t ep e : nat -> R) (x : nat -> vec) : Prop :=
  forall k, 0 <= dt k /\ be_step m i (dt k) (s k) (t k) (ep k) T (e k) (x k) (x (S k)).

Lemma voce_be_step Rs d dt s t ep T e x0 x1 : 0 <= dt -> 0 <= d T ->
  be_step (voce Rs d) 0 dt s t ep T e x0 x1 ->
  (0 <= x0 0%nat <= Rs T -> 0 <= x1 0%nat <= Rs T /\ x0 0%nat <= x1 0%nat) /\
  Rabs (Rs T - x1 0%nat) <= Rabs (Rs T - x0 0%nat).
Proof.
  unfold be_step. cbn [voce hd_rate]. intros Hdt Hd E. set (k := dt * d T * Rabs ep).
  assert (Hk : 0 <= k) by (unfold k; repeat apply Rmult_le_pos; auto; apply Rabs_pos).
  assert (E' : dt * (d T * (Rs T - x1 0%nat) * Rabs ep) = k * (Rs T - x1 0%nat)) by (unfold k; ring).
  rewrite E' in E. assert (F : (1 + k) * (Rs T - x1 0%nat) = Rs T - x0 0%nat) by lra.
  clearbody k. clear E'. split.
  - intros H. split; [split|]; nra.
  - rewrite <- F, Rabs_mult. rewrite (Rabs_right (1 + k)) by lra. pose proof (Rabs_pos (Rs T - x1 0%nat)). nra.
Qed.
Lemma voce_be_exists Rs d dt s t ep T e x0 : 0 <= dt -> 0 <= d T ->
  exists x1, be_step (voce Rs d) 0 dt s t ep T e x0 x1 /\
    forall x1', be_step (voce Rs d) 0 dt s t ep T e x0 x1' -> x1' 0%nat = x1 0%nat.
Proof.
  intros Hdt Hd. set (k := dt * d T * Rabs ep).
  assert (Hk : 0 <= k) by (unfold k; repeat apply Rmult_le_pos; auto; apply Rabs_pos).
  exists (fun _ => (x0 0%nat + k * Rs T) / (1 + k)). unfold be_step. cbn [voce hd_rate]. split.
  - replace (dt * (d T * (Rs T - (x0 0%nat + k * Rs T) / (1 + k)) * Rabs ep)) with (k * (Rs T - (x0 0%nat + k * Rs T) / (1 + k))) by (unfold k; ring).
    field. lra.
  - intros x1 E. assert (E' : dt * (d T * (Rs T - x1 0%nat) * Rabs ep) = k * (Rs T - x1 0%nat)) by (unfold k; ring).
    rewrite E' in E. apply Rmult_eq_reg_r with (1 + k); [|lra]. unfold Rdiv. rewrite Rmult_assoc, Rinv_l by lra. lra.
Qed.

(** Backstresses: |x| <= C/g is kept. *)
Lemma backstress_step C g dt ep x0 x1 : 0 <= dt -> 0 <= C -> 0 < g ->
  x1 = x0 + dt * (C * ep - g * x1 * Rabs ep) -> Rabs x0 <= C / g -> Rabs x1 <= C / g.
Proof.
  intros Hdt HC Hg E H. set (k := dt * g * Rabs ep).
  assert (Hk : 0 <= k) by (unfold k; repeat apply Rmult_le_pos; try lra; apply Rabs_pos).
  assert (F : (1 + k) * x1 = x0 + dt * C * ep) by (unfold k; lra).
  assert (A : (1 + k) * Rabs x1 <= C / g + k * (C / g)).
  { rewrite <- (Rabs_right (1 + k)) at 1 by lra. rewrite <- Rabs_mult, F. eapply Rle_trans; [apply Rabs_triang|].
    apply Rplus_le_compat; auto. rewrite !Rabs_mult, (Rabs_right dt), (Rabs_right C) by lra. right. unfold k. field. lra. }
  apply Rmult_le_reg_l with (1 + k); lra.
Qed.
Lemma chaboche_be_step n C g i dt s t ep T e x0 x1 : 0 <= dt -> 0 <= C T i -> 0 < g T i ->
  be_step (chaboche n C g) i dt s t ep T e x0 x1 -> Rabs (x0 i) <= C T i / g T i -> Rabs (x1 i) <= C T i / g T i.
Proof. intros Hdt HC Hg E. now apply (backstress_step (C T i) (g T i) dt ep). Qed.
Lemma fan_be_step C g dt s t ep T e x0 x1 : 0 <= dt -> 0 <= C T -> 0 < g T ->
  be_step (fa_norecovery C g) 0 dt s t ep T e x0 x1 -> Rabs (x0 0%nat) <= C T / g T -> Rabs (x1 0%nat) <= C T / g T.
Proof.
  intros Hdt HC Hg E. unfold be_step in E. cbn [fa_norecovery hd_rate] in E. rewrite Rmult_1_r in E.
  now apply (backstress_step (C T) (g T) dt ep).
Qed.
(** With static recovery the bound still holds (b >= 0). *)
Lemma backstress_recovery_step C g b p dt ep x0 x1 : 0 <= dt -> 0 <= C -> 0 < g -> 0 <= b * p ->
  x1 = x0 + dt * (C * ep - g * x1 * Rabs ep - b * p * x1) -> Rabs x0 <= C / g -> Rabs x1 <= C / g.
Proof.
  intros Hdt HC Hg Hb E H. set (k := dt * g * Rabs ep). set (q := dt * (b * p)).
  assert (Hk : 0 <= k) by (unfold k; repeat apply Rmult_le_pos; try lra; apply Rabs_pos).
  assert (Hq : 0 <= q) by (unfold q; apply Rmult_le_pos; lra).
  assert (F : (1 + k + q) * x1 = x0 + dt * C * ep) by (unfold k, q; lra).
  assert (Hcg : 0 <= C / g) by (apply Rmult_le_pos; [lra|left; now apply Rinv_0_lt_compat]).
  assert (A : (1 + k + q) * Rabs x1 <= C / g + k * (C / g)).
  { rewrite <- (Rabs_right (1 + k + q)) at 1 by lra. rewrite <- Rabs_mult, F. eapply Rle_trans; [apply Rabs_triang|].
    apply Rplus_le_compat; auto. rewrite !Rabs_mult, (Rabs_right dt), (Rabs_right C) by lra. right. unfold k. field. lra. }
  apply Rmult_le_reg_l with (1 + k + q); [lra|]. assert (0 <= q * (C / g)) by now apply Rmult_le_pos. lra.
Qed.

(** ** Equivalent formulations (C49) *)
(** Two models with the same observable behaviour. *)
Definition same_model (m m' : hardening) : Prop :=
  hd_nhist m = hd_nhist m' /\
  (forall h, hd_value m h = hd_value m' h) /\
  (forall h i, (i < hd_nhist m)%nat -> hd_dvalue m h i = hd_dvalue m' h i) /\
  (forall s h t ep T e i, (i < hd_nhist m)%nat ->
    hd_rate m s h t ep T e i = hd_rate m' s h t ep T e i /\
    hd_dstress m s h t ep T e i = hd_dstress m' s h t ep T e i /\
    (forall j, (j < hd_nhist m)%nat -> hd_dhistory m s h t ep T e i j = hd_dhistory m' s h t ep T e i j) /\
    hd_derate m s h t ep T e i = hd_derate m' s h t ep T e i /\
    hd_dtotal m s h t ep T e i = hd_dtotal m' s h t ep T e i).

Lemma theta0voce_is_voce tau theta : (forall T, tau T <> 0) ->
  same_model (theta0voce tau theta) (voce tau (fun T => theta T / tau T)).
Proof.
  intros H. split; [reflexivity|]. split; [reflexivity|]. split; [reflexivity|]. intros s h t ep T e i Hi.
  cbn [theta0voce voce hd_rate hd_dstress hd_dhistory hd_derate hd_dtotal]. specialize (H T).
  repeat split; intros; try field; auto.
Qed.
Lemma theta0recovery_is_theta0voce tau theta R0 r2 : 
  same_model (theta0recovery tau theta R0 (fun _ => 0) r2) (theta0voce tau theta).
Proof.
  split; [reflexivity|]. split; [reflexivity|]. split; [reflexivity|]. intros s h t ep T e i Hi.
  cbn [theta0voce theta0recovery hd_rate hd_dstress hd_dhistory hd_derate hd_dtotal]. cbv zeta.
  repeat split; intros; ring.
Qed.
Lemma fa_default C g : same_model (fa C g None None) (fa_norecovery C g).
Proof.
  split; [reflexivity|]. split; [reflexivity|]. split; [reflexivity|]. intros s h t ep T e i Hi.
  cbn [fa fa_norecovery hd_rate hd_dstress hd_dhistory hd_derate hd_dtotal].
  repeat split; intros; ring.
Qed.
Lemma chaboche_recovery_0 n C g r : same_model (chaboche_recovery n C g (fun _ _ => 0) r) (chaboche n C g).
Proof.
  split; [reflexivity|]. split; [reflexivity|]. split; [reflexivity|]. intros s h t ep T e i Hi.
  cbn [chaboche chaboche_recovery hd_rate hd_dstress hd_dhistory hd_derate hd_dtotal].
  repeat split; intros; try ring. unfold diag_embed. destruct (i =? j); ring.
Qed.

Definition fa_list (n : nat) (C g : R -> vec) : list hardening :=
  map (fun k => fa_norecovery (fun T => C T k) (fun T => g T k)) (seq 0 n).
Lemma fa_list_len n C g : length (fa_list n C g) = n.
Proof. unfold fa_list. now rewrite map_length, seq_length. Qed.
Lemma fa_list_nth n C g k d : (k < n)%nat -> nth k (fa_list n C g) d = fa_norecovery (fun T => C T k) (fun T => g T k).
Proof.
  intros H. unfold fa_list. rewrite nth_indep with (d' := fa_norecovery (fun T => C T 0%nat) (fun T => g T 0%nat)).
  - change (fa_norecovery (fun T => C T 0%nat) (fun T => g T 0%nat)) with ((fun k => fa_norecovery (fun T => C T k) (fun T => g T k)) 0%nat).
    rewrite map_nth, seq_nth by auto. reflexivity.
  - now rewrite map_length, seq_length.
Qed.
Lemma list_sum_ones {A} (f : A -> nat) l : (forall x, In x l -> f x = 1%nat) -> list_sum (map f l) = length l.
Proof.
  induction l as [|a l IH]; intros H; [reflexivity|]. change (f a + list_sum (map f l) = S (length l))%nat.
  rewrite (H a) by (now left). rewrite IH; [reflexivity|]. intros x Hx. apply H. now right.
Qed.
Lemma fa_list_ones n C g x : In x (fa_list n C g) -> hd_nhist x = 1%nat.
Proof. unfold fa_list. intros H. apply in_map_iff in H. destruct H as (k & <- & _). reflexivity. Qed.
Lemma firstn_In {A} k (l : list A) x : In x (firstn k l) -> In x l.
Proof. intros H. rewrite <- (firstn_skipn k l). apply in_or_app. now left. Qed.
Lemma fa_list_off n C g k : (k <= n)%nat -> off hd_nhist (fa_list n C g) k = k.
Proof.
  intros H. unfold off. rewrite list_sum_ones.
  - rewrite firstn_length, fa_list_len. lia.
  - intros x Hx. apply firstn_In in Hx. now apply fa_list_ones in Hx.
Qed.
Lemma fa_list_size n C g : size hd_nhist (fa_list n C g) = n.
Proof. unfold size. rewrite list_sum_ones; [apply fa_list_len|apply fa_list_ones]. Qed.

Lemma chaboche_superimposed n C g : same_model (superimposed (fa_list n C g)) (chaboche n C g).
Proof.
  set (d0 := nokin). assert (N : hd_nhist (superimposed (fa_list n C g)) = n) by (rewrite super_nhist; apply fa_list_size).
  assert (B : forall (f : nat -> hardening -> vec) i, (i < n)%nat ->
     loop_assign hd_nhist f (fa_list n C g) i = f i (fa_norecovery (fun T => C T i) (fun T => g T i)) 0%nat).
  { intros f i Hi. pose proof (super_block (fa_list n C g) d0 f i 0) as Q. rewrite fa_list_off, fa_list_nth, Nat.add_0_r in Q by lia.
    apply Q; [now rewrite fa_list_len|]. simpl. lia. }
  split; [exact N|]. split; [|split].
  - intros h. rewrite (super_value_sum _ d0), fa_list_len. apply sum_ext. intros k Hk.
    rewrite fa_list_off, fa_list_nth by lia. cbn. unfold slice. now rewrite Nat.add_0_r.
  - intros h i Hi. rewrite N in Hi. cbn [superimposed hd_dvalue]. now rewrite B.
  - intros s h t ep T e i Hi. rewrite N in *. cbn [superimposed hd_rate hd_dstress hd_dhistory hd_derate hd_dtotal].
    rewrite !B by auto. cbn [chaboche fa_norecovery hd_rate hd_dstress hd_dhistory hd_derate hd_dtotal]. unfold slice. rewrite !Nat.add_0_r.
    repeat split; intros; try ring.
    pose proof (super_block2 (fa_list n C g) d0 (fun o m => hd_dhistory m s (slice o h) t ep T e) i 0 j) as Q.
    rewrite fa_list_off, fa_list_nth, Nat.add_0_r, fa_list_len, fa_list_size in Q by lia.
    unfold slice in Q. rewrite Q; auto. cbn [fa_norecovery hd_dhistory hd_nhist]. unfold diag_embed.
    destruct (Nat.eqb_spec i j) as [<-|Hn].
    + destruct (Nat.leb_spec i i); destruct (Nat.ltb_spec i (i + 1)); try lia. cbn [andb]. ring.
    + destruct (Nat.leb_spec i j); destruct (Nat.ltb_spec j (i + 1)); try lia; reflexivity.
Qed.
