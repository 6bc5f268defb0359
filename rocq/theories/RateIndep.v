(** Which materials do not feel the speed of loading: RateIndependentFlowRuleWrapper with lambda = 1 around rules that do not depend on the strain
    rate (flowrules.py 697-882). *)
From Coq Require Import Reals Lra Lia List Arith Bool FunctionalExtensionality.
From Verif Require Import Torch Deriv Slices Hardening Flow Damage NewtonModel Models StressSym Symmetry.
Import ListNotations.
Local Open Scope bool_scope.
Local Open Scope R_scope.

(** Rates and Jacobian scale with the strain rate, at every time. *)
Definition rate_independent (B : rateform) : Prop := forall t t' y e T a, 0 < a ->
  (forall i, (i < rf_n B)%nat -> rf_rate B t' y (a * e) T i = a * rf_rate B t y e T i) /\
  (forall i j, (i < rf_n B)%nat -> (j < rf_n B)%nat -> rf_jac B t' y (a * e) T i j = a * rf_jac B t y e T i j).

Definition hd_blind (m : hardening) : Prop := forall s h t t' ep T e e', forall i, (i < hd_nhist m)%nat ->
  hd_rate m s h t' ep T e' i = hd_rate m s h t ep T e i /\ hd_dstress m s h t' ep T e' i = hd_dstress m s h t ep T e i /\
  hd_derate m s h t' ep T e' i = hd_derate m s h t ep T e i /\
  forall j, (j < hd_nhist m)%nat -> hd_dhistory m s h t' ep T e' i j = hd_dhistory m s h t ep T e i j.
Lemma superimposed_cons_blind m ms : hd_blind m -> hd_blind (superimposed ms) -> hd_blind (superimposed (m :: ms)).
Proof.
  intros Hm Hs s h t t' ep T e e' i Hi. cbn [superimposed hd_rate hd_dstress hd_dhistory hd_derate hd_nhist] in *. rewrite total_cons in Hi.
  rewrite total_cons, !(loop_assign_cons _ (fun m h => hd_rate m _ h _ _ _ _)), !(loop_assign_cons _ (fun m h => hd_dstress m _ h _ _ _ _)),
    !(loop_assign_cons _ (fun m h => hd_derate m _ h _ _ _ _)) by exact Hi.
  destruct (Nat.ltb_spec i (hd_nhist m)) as [L|L].
  - destruct (Hm s h t t' ep T e e' i L) as (C1 & C2 & C3 & C5). repeat split; try assumption. intros j Hj.
    rewrite !(loop_assign2_cons _ (fun m h => hd_dhistory m _ h _ _ _ _)) by assumption.
    destruct (Nat.ltb_spec i (hd_nhist m)); [|lia]. destruct (Nat.ltb_spec j (hd_nhist m)); [now apply C5|reflexivity].
  - destruct (Hs s (slice (hd_nhist m) h) t t' ep T e e' (i - hd_nhist m)%nat) as (C1 & C2 & C3 & C5); [cbn [superimposed hd_nhist]; lia|]. repeat split; try assumption. intros j Hj.
    rewrite !(loop_assign2_cons _ (fun m h => hd_dhistory m _ h _ _ _ _)) by assumption.
    destruct (Nat.ltb_spec i (hd_nhist m)); [lia|]. destruct (Nat.ltb_spec j (hd_nhist m)); [reflexivity|apply C5; cbn [superimposed hd_nhist]; lia].
Qed.
Lemma law_blind m : isotropic_law m \/ kinematic_law m -> hd_blind m.
Proof.
  intros [[]|H]; try (intros s h t t' ep T e e' i Hi; repeat split; reflexivity).
  induction H; try (intros s h t t' ep T e e' i Hi; repeat split; reflexivity). now apply superimposed_cons_blind.
Qed.

Definition fl_like (F : flowrule) (a : R) (e e' : R) : Prop := forall s h t t' T,
  fl_rate F s h t' T e' = a * fl_rate F s h t T e /\ fl_ds F s h t' T e' = a * fl_ds F s h t T e /\
  (forall j, (j < fl_nhist F)%nat -> fl_dh F s h t' T e' j = a * fl_dh F s h t T e j) /\
  forall i, (i < fl_nhist F)%nat -> fl_hrate F s h t' T e' i = a * fl_hrate F s h t T e i /\ fl_hds F s h t' T e' i = a * fl_hds F s h t T e i /\
    forall j, (j < fl_nhist F)%nat -> fl_hdh F s h t' T e' i j = a * fl_hdh F s h t T e i j.
(** Independent of the strain rate and of the time. *)
Definition fl_blind (F : flowrule) : Prop := forall e e', fl_like F 1 e e'.
(** Proportional to the strain rate. *)
Definition fl_prop (F : flowrule) : Prop := forall a e, 0 < a -> fl_like F a e (a * e).
Lemma perfect_blind n eta : fl_blind (perfect n eta).
Proof. intros e e' s h t t' T. cbn. repeat split; try (intros; lia); ring. Qed.
Lemma isokin_blind n eta s0 iso kin : hd_blind iso -> hd_blind kin -> fl_blind (isokin n eta s0 iso kin).
Proof.
  intros Hi Hk e e' s h t t' T. cbn [isokin fl_nhist fl_rate fl_ds fl_dh fl_hrate fl_hds fl_hdh]. cbv zeta.
  change (ik_rate n eta s0 iso kin s h t' T e') with (ik_rate n eta s0 iso kin s h t T e). set (ep := ik_rate n eta s0 iso kin s h t T e).
  change (ik_ds n eta s0 iso kin s h t' T e') with (ik_ds n eta s0 iso kin s h t T e).
  change (ik_diso n eta s0 iso kin s h t' T e') with (ik_diso n eta s0 iso kin s h t T e). change (ik_dkin n eta s0 iso kin s h t' T e') with (ik_dkin n eta s0 iso kin s h t T e).
  split; [ring|]. split; [ring|]. split; [intros; ring|]. intros i Hii. unfold cat. destruct (Nat.ltb_spec i (hd_nhist iso)) as [L|L].
  - destruct (Hi s h t t' ep T e e' i L) as (C1 & C2 & C3 & C5). rewrite C1, C2, C3. repeat split; try ring. intros j Hj. destruct (Nat.ltb_spec j (hd_nhist iso)); [rewrite C5 by auto|]; ring.
  - destruct (Hk s (slice (hd_nhist iso) h) t t' ep T e e' (i - hd_nhist iso)%nat ltac:(lia)) as (C1 & C2 & C3 & C5). rewrite C1, C2, C3. repeat split; try ring.
    intros j Hj. destruct (Nat.ltb_spec j (hd_nhist iso)); [|rewrite C5 by lia]; ring.
Qed.
Lemma super_nil_like a e e' : fl_like (super_rule []) a e e'.
Proof. intros s h t t' T. cbn. unfold loop_add. cbn. split; [ring|]. split; [ring|]. split; intros; cbn in *; lia. Qed.
Lemma super_cons_like a e e' F Fs : fl_like F a e e' -> fl_like (super_rule Fs) a e e' -> fl_like (super_rule (F :: Fs)) a e e'.
Proof.
  intros H1 H2 s h t t' T. destruct (H1 s h t t' T) as (A1 & A2 & A4 & A5). destruct (H2 s (slice (fl_nhist F) h) t t' T) as (B1 & B2 & B4 & B5).
  cbn [super_rule fl_nhist fl_rate fl_ds fl_dh fl_hrate fl_hds fl_hdh] in *. rewrite total_cons.
  rewrite !(loop_add_cons _ (fun m h => fl_rate m _ h _ _ _)), !(loop_add_cons _ (fun m h => fl_ds m _ h _ _ _)), A1, A2, B1, B2.
  split; [ring|]. split; [ring|]. split.
  { intros j Hj. rewrite !(loop_assign_cons _ (fun m h => fl_dh m _ h _ _ _)) by exact Hj. destruct (Nat.ltb_spec j (fl_nhist F)); [now apply A4|apply B4; lia]. }
  intros i Hi. rewrite !(loop_assign_cons _ (fun m h => fl_hrate m _ h _ _ _)), !(loop_assign_cons _ (fun m h => fl_hds m _ h _ _ _)) by exact Hi.
  destruct (Nat.ltb_spec i (fl_nhist F)) as [L|L].
  - destruct (A5 i L) as (C1 & C2 & C4). repeat split; try assumption. intros j Hj. rewrite !(loop_assign2_cons _ (fun m h => fl_hdh m _ h _ _ _)) by assumption.
    destruct (Nat.ltb_spec i (fl_nhist F)); [|lia]. destruct (Nat.ltb_spec j (fl_nhist F)); [now apply C4|ring].
  - destruct (B5 (i - fl_nhist F)%nat ltac:(lia)) as (C1 & C2 & C4). repeat split; try assumption. intros j Hj. rewrite !(loop_assign2_cons _ (fun m h => fl_hdh m _ h _ _ _)) by assumption.
    destruct (Nat.ltb_spec i (fl_nhist F)); [lia|]. destruct (Nat.ltb_spec j (fl_nhist F)); [ring|apply C4; lia].
Qed.
Lemma ri_prop F er : fl_blind F -> fl_prop (ri_rule F 1 er).
Proof.
  intros H a e Ha s h t t' T. destruct (H e (a * e) s h t t' T) as (A1 & A2 & A4 & A5). cbn.
  assert (S : ri_scale 1 er (a * e) = a * ri_scale 1 er e) by (unfold ri_scale; rewrite Rabs_mult, (Rabs_right a) by lra; unfold Rdiv; ring).
  rewrite S, A1, A2. split; [ring|]. split; [ring|]. split; [intros j Hj; rewrite A4 by auto; ring|].
  intros i Hi. destruct (A5 i Hi) as (C1 & C2 & C4). rewrite C1, C2. repeat split; try ring. intros j Hj. rewrite C4 by auto. ring.
Qed.
(** The library's strain-rate-blind flow rules, and its rate-independent ones. *)
Inductive blind_flow : flowrule -> Prop :=
| bf_perfect n eta : blind_flow (perfect n eta)
| bf_isokin n eta s0 iso kin : isotropic_law iso \/ kinematic_law iso -> isotropic_law kin \/ kinematic_law kin -> blind_flow (isokin n eta s0 iso kin)
| bf_nil : blind_flow (super_rule [])
| bf_cons F Fs : blind_flow F -> blind_flow (super_rule Fs) -> blind_flow (super_rule (F :: Fs)).
Inductive ri_flow : flowrule -> Prop :=
| rf_wrap F eps_ref : blind_flow F -> ri_flow (ri_rule F 1 eps_ref)
| rf_nil : ri_flow (super_rule [])
| rf_cons F Fs : ri_flow F -> ri_flow (super_rule Fs) -> ri_flow (super_rule (F :: Fs)).
Lemma blind_flow_blind F : blind_flow F -> fl_blind F.
Proof.
  induction 1; intros e e'.
  - apply perfect_blind.
  - apply isokin_blind; now apply law_blind.
  - apply super_nil_like.
  - apply super_cons_like; auto.
Qed.
Lemma ri_flow_prop F : ri_flow F -> fl_prop F.
Proof.
  induction 1; intros a e Ha.
  - apply ri_prop; auto using blind_flow_blind.
  - apply super_nil_like.
  - apply super_cons_like; auto.
Qed.
Lemma ri_model E F : ri_flow F -> rate_independent (inelastic E F).
Proof.
  intros HF%ri_flow_prop t t' y e T a Ha. destruct (HF a e Ha (y 0%nat) (slice 1 y) t t' T) as (A1 & A2 & A4 & A5).
  cbn [inelastic rf_n rf_rate rf_jac]. cbv zeta. rewrite A1, A2. split.
  - intros [|i] Hi; unfold cat; cbn; [ring|]. rewrite Nat.sub_0_r. apply A5; lia.
  - intros [|i] [|j] Hi Hj; unfold cat; cbn; rewrite ?Nat.sub_0_r; [ring|rewrite A4 by lia; ring| |]; destruct (A5 i ltac:(lia)) as (_ & C2 & C4); [exact C2|apply C4; lia].
Qed.
