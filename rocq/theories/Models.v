(** Model of models.py 47-269 (InelasticModel, DamagedInelasticModel) and
    426-560 (BothBasedModel, StrainBasedModel, StressBasedModel).
    A state is a vector [nat -> R]; one batch point at a time except where the
    Newton solve couples the batch. *)
From Coq Require Import Reals Lra Lia List Arith Bool String.
From Verif Require Import Torch Deriv Slices Hardening Flow Damage NewtonModel.
Import ListNotations.
Local Open Scope bool_scope.
Local Open Scope R_scope.

(** What forward(t, y, erate, T) returns: rate, Jacobian, derivative with
    respect to the strain rate.  (The fourth value, models.py 133-137, is an
    unused zero tensor.) *)
Record rateform := RateForm {
  rf_n : nat;
  rf_rate : R -> vec -> R -> R -> vec;
  rf_jac : R -> vec -> R -> R -> mat;
  rf_de : R -> vec -> R -> R -> vec }.

(** InelasticModel.forward, models.py 75-137 *)
Definition inelastic (E : R -> R) (F : flowrule) : rateform := {|
  rf_n := 1 + fl_nhist F;
  rf_rate t y e T := let s := y 0%nat in let h := slice 1 y in
    cat 1 (fun _ => E T * (e - fl_rate F s h t T e)) (fl_hrate F s h t T e);
  rf_jac t y e T := let s := y 0%nat in let h := slice 1 y in
    fun i => if i <? 1 then cat 1 (fun _ => - E T * fl_ds F s h t T e) (fun j => - E T * fl_dh F s h t T e j)
      else cat 1 (fun _ => fl_hds F s h t T e (i - 1)%nat) (fl_hdh F s h t T e (i - 1)%nat);
  rf_de t y e T := let s := y 0%nat in let h := slice 1 y in
    cat 1 (fun _ => E T * (1 - fl_de F s h t T e)) (fl_hde F s h t T e) |}.

(** DamagedInelasticModel.forward, models.py 169-269; state [s, h, d] with d at
    index 1 + nhist *)
Definition damaged (E : R -> R) (F : flowrule) (M : damage) : rateform :=
  let n := fl_nhist F in {|
  rf_n := 2 + n;
  rf_rate t y e T := let s := y 0%nat in let h := slice 1 y in let d := y (1 + n)%nat in
    cat 1 (fun _ => (1 - d) * E T * (e - fl_rate F (s / (1 - d)) h t T e))
      (cat n (fl_hrate F (s / (1 - d)) h t T e) (fun _ => dm_rate M (s / (1 - d)) d t T e));
  rf_jac t y e T := let s := y 0%nat in let h := slice 1 y in let d := y (1 + n)%nat in
    fun i =>
      if i <? 1 then
        cat 1 (fun _ => - E T * fl_ds F (s / (1 - d)) h t T e)
          (cat n (fun j => - E T * fl_dh F (s / (1 - d)) h t T e j * (1 - d))
            (fun _ => - E T * (e - fl_rate F (s / (1 - d)) h t T e) - E T * fl_ds F (s / (1 - d)) h t T e * s / (1 - d)))
      else if i - 1 <? n then
        cat 1 (fun _ => fl_hds F (s / (1 - d)) h t T e (i - 1)%nat / (1 - d))
          (cat n (fl_hdh F (s / (1 - d)) h t T e (i - 1)%nat)
            (fun _ => fl_hds F (s / (1 - d)) h t T e (i - 1)%nat * s / (1 - d) ^ 2))
      else
        cat 1 (fun _ => dm_ds M (s / (1 - d)) d t T e / (1 - d))
          (cat n (fun _ => 0) (fun _ => dm_dd M (s / (1 - d)) d t T e));
  rf_de t y e T := let s := y 0%nat in let h := slice 1 y in let d := y (1 + n)%nat in
    cat 1 (fun _ => E T * (1 - d) * (1 - fl_de F (s / (1 - d)) h t T e))
      (cat n (fl_hde F (s / (1 - d)) h t T e) (fun _ => dm_de M (s / (1 - d)) d t T e)) |}.

(** yp = y.clone(); yp[...,0] = cs  (models.py 539-540, 549-550) *)
Definition set0 (c : R) (y : vec) : vec := fun i => if i =? 0 then c else y i.

(** StressBasedModel.forward after the solve, models.py 549-560 *)
Definition sb_rate (B : rateform) (t : R) (y : vec) (cs cT er : R) : vec :=
  set0 er (rf_rate B t (set0 cs y) er cT).
Definition sb_jac (B : rateform) (t : R) (y : vec) (cs cT er : R) : mat :=
  let J := rf_jac B t (set0 cs y) er cT in
  fun i j => if j =? 0 then 0
    else if i =? 0 then - J 0%nat j / rf_de B t (set0 cs y) er cT 0%nat else J i j.

(** The inner solve, models.py 532-548: one Newton iteration for the whole batch
    of nb points (the iteration counter and the stopping test are shared).
    newton_raphson's defaults are rtol 1e-6, atol 1e-10, miter 100; the last
    axis has size one, so the linear solve divides by the diagonal
    (solvers.py 100-107, 140-149). *)
Section Batch.
Variables (B : rateform) (nb : nat).
Variables (t cs csr cT : nat -> R) (y : nat -> vec).
Definition sb_RJ (er : nat -> R) : (nat -> R) * (nat -> R) :=
  (fun i => rf_rate B (t i) (set0 (cs i) (y i)) (er i) (cT i) 0%nat - csr i,
   fun i => rf_de B (t i) (set0 (cs i) (y i)) (er i) (cT i) 0%nat).
Definition sb_norm (r : nat -> R) : list ext := map (fun i => Num (Rabs (r i))) (seq 0 nb).
Definition sb_solver (k : lin_kind) (J r : nat -> R) : nat -> R := fun i => r i / J i.
Definition sb_sub (x dx : nat -> R) : nat -> R := fun i => x i - dx i.
Definition sb_solve_with (rtol atol : R) (miter : nat) : outcome (nr_result (nat -> R) (nat -> R)) :=
  newton_raphson sb_RJ sb_norm sb_solver sb_sub rtol atol miter "lu" 1 (fun _ => 0).
Definition sb_solve := sb_solve_with (/ 10 ^ 6) (/ 10 ^ 10) 100.
(** forward: rates and Jacobians of all points (a warning does not stop it). *)
Definition sb_forward : option ((nat -> vec) * (nat -> mat)) :=
  match sb_solve with
  | Ok r | Warned r =>
    Some (fun i => sb_rate B (t i) (y i) (cs i) (cT i) (res_x r i),
          fun i => sb_jac B (t i) (y i) (cs i) (cT i) (res_x r i))
  | Raised => None
  end.
End Batch.

(** StrainBasedModel.forward, models.py 494-504 *)
Definition strain_forward (B : rateform) (t er cT : nat -> R) (y : nat -> vec) : (nat -> vec) * (nat -> mat) :=
  (fun i => rf_rate B (t i) (y i) (er i) (cT i), fun i => rf_jac B (t i) (y i) (er i) (cT i)).

(** BothBasedModel.forward, models.py 451-475: masked assignments into zeros. *)
Definition masked {A} (mask : nat -> bool) (src dst : nat -> A) : nat -> A := fun i => if mask i then src i else dst i.
Definition both_forward (B : rateform) (nb : nat) (control : nat -> R) (t rate base cT : nat -> R) (y : nat -> vec)
  : option ((nat -> vec) * (nat -> mat)) :=
  let st := strain_forward B t rate cT y in
  match sb_forward B nb t base rate cT y with
  | None => None
  | Some ss =>
    let e_control i := if Req_EM_T (control i) 0 then true else false in
    let s_control i := if Req_EM_T (control i) 1 then true else false in
    Some (masked s_control (fst ss) (masked e_control (fst st) (fun _ => vzero)),
          masked s_control (snd ss) (masked e_control (snd st) (fun _ => mzero)))
  end.

(** ** Specification *)
(** The returned Jacobian and strain rate derivative are exact along every
    differentiable curve of state and strain rate; row i of the result. *)
Definition row_exact (B : rateform) (t : R) (y : vec) (e T : R) (i : nat) : Prop :=
  forall Y E y' e', vthrough (rf_n B) Y y y' -> through E e e' -> e <> 0 \/ e' = 0 ->
  D (fun z => rf_rate B t (Y z) (E z) T i) 0
    (sum (rf_n B) (fun j => rf_jac B t y e T i j * y' j) + rf_de B t y e T i * e').
Definition model_exact (B : rateform) (t : R) (y : vec) (e T : R) : Prop :=
  forall i, (i < rf_n B)%nat -> row_exact B t y e T i.

(** ** Proofs *)
Lemma inelastic_exact E F t y e T : flow_exact F (y 0%nat) (slice 1 y) t T e -> model_exact (inelastic E F) t y e T.
Proof.
  intros X i Hi Y Er y' e' HY HE C. cbn [inelastic rf_n] in *.
  assert (HS : through (fun z => Y z 0%nat) (y 0%nat) (y' 0%nat)) by (apply HY; lia).
  assert (HH : vthrough (fl_nhist F) (fun z => slice 1 (Y z)) (slice 1 y) (slice 1 y')) by (intros j Hj; apply (HY (1 + j)%nat); lia).
  destruct (X _ _ _ _ _ _ HS HH HE C) as [X1 X2].
  cbn [inelastic rf_rate rf_jac rf_de]. cbv zeta. destruct i as [|i].
  - change (0 <? 1)%nat with true. cbv iota.
    apply D_ext with (f := fun z => E T * (Er z - fl_rate F (Y z 0%nat) (slice 1 (Y z)) t T (Er z))); [reflexivity|].
    eapply D_eq; [apply D_scal, D_minus; [exact (proj2 HE)|exact X1]|].
    rewrite (sum_cat 1 (fl_nhist F) _ _ y'). cbn [sum]. rewrite cat_l by lia.
    rewrite (sum_ext (fl_nhist F) (fun j => - E T * _ * _) (fun j => - E T * (fl_dh F (y 0%nat) (slice 1 y) t T e j * slice 1 y' j)))
      by (intros; unfold slice; ring).
    rewrite sum_scal. ring.
  - replace (S i) with (1 + i)%nat by lia. destruct (Nat.ltb_spec (1 + i) 1); [lia|]. replace (1 + i - 1)%nat with i by lia.
    apply D_ext with (f := fun z => fl_hrate F (Y z 0%nat) (slice 1 (Y z)) t T (Er z) i).
    { intros z. now rewrite cat_r. }
    eapply D_eq; [exact (X2 i ltac:(lia))|]. rewrite (sum_cat 1 (fl_nhist F) _ _ y'). cbn [sum]. rewrite cat_r.
    unfold slice. ring.
Qed.

(** Damaged model *)
Section Damaged.
Variables (E : R -> R) (F : flowrule) (M : damage) (t : R) (y : vec) (e T : R).
Notation n := (fl_nhist F).
Notation s := (y 0%nat).
Notation h := (slice 1 y).
Notation d := (y (1 + n)%nat).
Hypotheses (Hd : d <> 1) (XF : flow_exact F (s / (1 - d)) h t T e) (WF : fl_wf F).

Lemma sum_cat3 a b c (y' : vec) :
  sum (2 + n) (fun j => cat 1 a (cat n b c) j * y' j)
  = a 0%nat * y' 0%nat + sum n (fun j => b j * slice 1 y' j) + c 0%nat * y' (1 + n)%nat.
Proof.
  replace (2 + n)%nat with (1 + (n + 1))%nat by lia. rewrite (sum_cat 1 (n + 1) a (cat n b c) y'). cbn [sum].
  rewrite (sum_ext (n + 1) _ (fun j => cat n b c j * slice 1 y' j)) by (intros; unfold slice; ring).
  rewrite (sum_cat n 1 b c (slice 1 y')). cbn [sum]. unfold slice at 2. rewrite Nat.add_0_r. ring.
Qed.
Lemma eff_stress Y y' : vthrough (2 + n) Y y y' ->
  through (fun z => Y z 0%nat / (1 - Y z (1 + n)%nat)) (s / (1 - d)) (y' 0%nat / (1 - d) + s * y' (1 + n)%nat / (1 - d) ^ 2).
Proof.
  intros HY. destruct (HY 0%nat ltac:(lia)) as [S0 S1]. destruct (HY (1 + n)%nat ltac:(lia)) as [D0 D1].
  split; [now rewrite S0, D0|]. eapply D_eq.
  - apply D_div; [rewrite D0; lra|exact S1|apply D_minus; [apply D_const|exact D1]].
  - cbv beta. rewrite S0, D0. field. lra.
Qed.

Lemma damaged_rows i : (i <= n)%nat -> row_exact (damaged E F M) t y e T i.
Proof.
  intros Hi Y Er y' e' HY HE C. cbn [damaged rf_n] in *.
  pose proof (eff_stress Y y' HY) as HS. destruct (HY (1 + n)%nat ltac:(lia)) as [D0 D1].
  assert (HH : vthrough n (fun z => slice 1 (Y z)) h (slice 1 y')) by (intros j Hj; apply (HY (1 + j)%nat); lia).
  destruct (XF _ _ _ _ _ _ HS HH HE C) as [X1 X2].
  pose proof (WF (s / (1 - d)) (slice 1 (Y 0)) h t T e (vthrough_0 _ _ _ _ HH)) as [W1 _].
  cbn [damaged rf_rate rf_jac rf_de]. cbv zeta. destruct i as [|i].
  - change (0 <? 1)%nat with true. cbv iota.
    apply D_ext with (f := fun z => (1 - Y z (1 + n)%nat) * E T * (Er z - fl_rate F (Y z 0%nat / (1 - Y z (1 + n)%nat)) (slice 1 (Y z)) t T (Er z))); [reflexivity|].
    eapply D_eq.
    + apply D_mult; [apply D_scal_r, D_minus; [apply D_const|exact D1]|apply D_minus; [exact (proj2 HE)|exact X1]].
    + cbv beta. pose proof (proj1 HS) as HS0. cbv beta in HS0. rewrite HS0, D0, (proj1 HE), W1, sum_cat3, !cat_l by lia.
      rewrite (sum_ext n (fun j => - E T * _ * (1 - d) * _) (fun j => - E T * (1 - d) * (fl_dh F (s / (1 - d)) h t T e j * slice 1 y' j))) by (intros; ring).
      rewrite sum_scal. field. lra.
  - replace (S i) with (1 + i)%nat by lia. destruct (Nat.ltb_spec (1 + i) 1); [lia|]. replace (1 + i - 1)%nat with i by lia.
    destruct (Nat.ltb_spec i n); [|lia].
    apply D_ext with (f := fun z => fl_hrate F (Y z 0%nat / (1 - Y z (1 + n)%nat)) (slice 1 (Y z)) t T (Er z) i).
    { intros z. rewrite cat_r, cat_l by lia. reflexivity. }
    eapply D_eq; [exact (X2 i ltac:(lia))|]. rewrite sum_cat3, cat_r, cat_l by lia. field. lra.
Qed.

(** The true derivative of the damage rate, whatever the returned row says. *)
Lemma damaged_last_true Y Er y' e' : damage_exact M (s / (1 - d)) d t T e ->
  vthrough (2 + n) Y y y' -> through Er e e' -> e <> 0 \/ e' = 0 ->
  D (fun z => rf_rate (damaged E F M) t (Y z) (Er z) T (1 + n)%nat) 0
    (sum (2 + n) (fun j => rf_jac (damaged E F M) t y e T (1 + n)%nat j * y' j) + rf_de (damaged E F M) t y e T (1 + n)%nat * e'
     + dm_ds M (s / (1 - d)) d t T e * s / (1 - d) ^ 2 * y' (1 + n)%nat).
Proof.
  intros XM HY HE C. pose proof (eff_stress Y y' HY) as HS. pose proof (HY (1 + n)%nat ltac:(lia)) as HD.
  pose proof (XM _ _ _ _ _ _ HS HD HE C) as X1.
  cbn [damaged rf_rate rf_jac rf_de]. cbv zeta.
  destruct (Nat.ltb_spec (1 + n) 1); [lia|]. destruct (Nat.ltb_spec (1 + n - 1) n); [lia|].
  apply D_ext with (f := fun z => dm_rate M (Y z 0%nat / (1 - Y z (1 + n)%nat)) (Y z (1 + n)%nat) t T (Er z)).
  { intros z. rewrite cat_r. unfold cat. now destruct (Nat.ltb_spec n n); [lia|]. }
  eapply D_eq; [exact X1|]. rewrite sum_cat3, sum_0 by (intros; ring). rewrite cat_r.
  unfold cat. destruct (Nat.ltb_spec n n); [lia|]. field. lra.
Qed.
Lemma damaged_last : damage_exact M (s / (1 - d)) d t T e -> dm_ds M (s / (1 - d)) d t T e * s = 0 ->
  row_exact (damaged E F M) t y e T (1 + n)%nat.
Proof.
  intros XM Z Y Er y' e' HY HE C. eapply D_eq; [apply (damaged_last_true Y Er y' e' XM HY HE C)|].
  cbn [damaged rf_n]. unfold Rdiv at 1. rewrite Z. ring.
Qed.
End Damaged.

(** Stress control: the implicit function's derivative. *)
Lemma set0_0 c y : set0 c y 0%nat = c.
Proof. reflexivity. Qed.
Lemma set0_S c y i : set0 c y (S i) = y (S i).
Proof. reflexivity. Qed.
Lemma set0_through n c Y y y' : vthrough n Y y y' -> vthrough n (fun z => set0 c (Y z)) (set0 c y) (set0 0 y').
Proof.
  intros V i Hi. destruct i.
  - split; [reflexivity|exact (D_const c 0)].
  - apply (V (S i) Hi).
Qed.
Lemma sb_sum B t y cs cT er y' i : (i <> 0)%nat -> 
  sum (rf_n B) (fun j => sb_jac B t y cs cT er i j * y' j)
  = sum (rf_n B) (fun j => rf_jac B t (set0 cs y) er cT i j * set0 0 y' j).
Proof.
  intros Hi. apply sum_ext. intros j Hj. unfold sb_jac, set0. cbv zeta. destruct (Nat.eqb_spec j 0); [ring|].
  destruct (Nat.eqb_spec i 0); [contradiction|reflexivity].
Qed.
Lemma sb_sum0 B t y cs cT er y' :
  sum (rf_n B) (fun j => sb_jac B t y cs cT er 0%nat j * y' j)
  = - sum (rf_n B) (fun j => rf_jac B t (set0 cs y) er cT 0%nat j * set0 0 y' j) / rf_de B t (set0 cs y) er cT 0%nat.
Proof.
  unfold Rdiv. rewrite <- sum_opp, <- sum_scal_r. apply sum_ext. intros j Hj. unfold sb_jac, set0. cbv zeta.
  destruct (Nat.eqb_spec j 0); [ring|]. cbn. unfold Rdiv. ring.
Qed.
Lemma D_zero_unique f l : D f 0 l -> (exists r, 0 < r /\ forall z, Rabs z < r -> f z = f 0) -> l = 0.
Proof.
  intros H (r & Hr & E). apply (uniqueness_limite f 0); [exact H|].
  apply (D_ext_loc (fun _ => f 0) f 0 0 r Hr); [|apply D_const]. intros z Hz. rewrite Rminus_0_r in Hz. symmetry. now apply E.
Qed.

Section Implicit.
Variables (B : rateform) (t : R) (y : vec) (cs csr cT er0 : R).
Notation yp := (set0 cs y).
Hypotheses (X : model_exact B t yp er0 cT) (Hn : (0 < rf_n B)%nat) (HJ : rf_de B t yp er0 cT 0%nat <> 0).
Variables (Y : R -> vec) (y' : vec) (er : R -> R) (er' : R).
Hypotheses (HY : vthrough (rf_n B) Y y y') (HE : through er er0 er') (C : er0 <> 0 \/ er' = 0)
  (Sol : exists r, 0 < r /\ forall z, Rabs z < r -> rf_rate B t (set0 cs (Y z)) (er z) cT 0%nat = csr).
Lemma implicit_rate : er' = sum (rf_n B) (fun j => sb_jac B t y cs cT er0 0%nat j * y' j).
Proof.
  pose proof (X 0%nat Hn _ _ _ _ (set0_through _ cs _ _ _ HY) HE C) as DX.
  apply D_zero_unique in DX.
  - rewrite sb_sum0. apply Rmult_eq_reg_r with (rf_de B t yp er0 cT 0%nat); auto. unfold Rdiv. rewrite Rmult_assoc, Rinv_l, Rmult_1_r by auto. lra.
  - destruct Sol as (r & Hr & S0). exists r. split; auto. intros z Hz. rewrite (S0 z Hz), (S0 0); auto. now rewrite Rabs_R0.
Qed.
Lemma implicit_hist i : (0 < i < rf_n B)%nat ->
  D (fun z => sb_rate B t (Y z) cs cT (er z) i) 0
    (sum (rf_n B) (fun j => sb_jac B t y cs cT er0 i j * y' j) + rf_de B t yp er0 cT i * er').
Proof.
  intros Hi. pose proof (X i ltac:(lia) _ _ _ _ (set0_through _ cs _ _ _ HY) HE C) as DX.
  rewrite sb_sum by lia. destruct i; [lia|]. exact DX.
Qed.
Lemma implicit_0 : D (fun z => sb_rate B t (Y z) cs cT (er z) 0%nat) 0 (sum (rf_n B) (fun j => sb_jac B t y cs cT er0 0%nat j * y' j)).
Proof. rewrite <- implicit_rate. exact (proj2 HE). Qed.
End Implicit.

(** Models whose rates do not depend on the strain rate except through the
    elastic term: the solution of the stress control equation is explicit. *)
Definition rate_free (F : flowrule) : Prop := forall s h t T e e', 
  fl_rate F s h t T e = fl_rate F s h t T e' /\ fl_de F s h t T e = 0 /\
  forall i, (i < fl_nhist F)%nat -> fl_hrate F s h t T e i = fl_hrate F s h t T e' i /\ fl_hde F s h t T e i = 0.

Lemma rate_free_unique E F t y cs csr cT er : rate_free F -> E cT <> 0 ->
  (rf_rate (inelastic E F) t (set0 cs y) er cT 0%nat = csr <-> er = csr / E cT + fl_rate F cs (slice 1 y) t cT 0).
Proof.
  intros RF HE. cbn [inelastic rf_rate]. cbv zeta. rewrite cat_l by lia.
  replace (slice 1 (set0 cs y)) with (slice 1 y) by reflexivity. rewrite set0_0.
  rewrite (proj1 (RF cs (slice 1 y) t cT er 0)). split; intros H.
  - rewrite <- H. field. auto.
  - rewrite H. field. auto.
Qed.
Lemma rate_free_exact E F t y cs csr cT Y y' : rate_free F -> E cT <> 0 -> 
  (forall e, flow_exact F cs (slice 1 y) t cT e) -> vthrough (1 + fl_nhist F) Y y y' ->
  let er y := csr / E cT + fl_rate F cs (slice 1 y) t cT 0 in
  forall i, (i < 1 + fl_nhist F)%nat ->
  D (fun z => sb_rate (inelastic E F) t (Y z) cs cT (er (Y z)) i) 0
    (sum (1 + fl_nhist F) (fun j => sb_jac (inelastic E F) t y cs cT (er y) i j * y' j)).
Proof.
  intros RF HE X HY er i Hi.
  assert (HH : vthrough (fl_nhist F) (fun z => slice 1 (Y z)) (slice 1 y) (slice 1 y')) by (intros j Hj; apply (HY (1 + j)%nat); lia).
  assert (HS : through (fun _ => cs) cs 0) by (split; [reflexivity|apply D_const]).
  assert (H0 : forall e, through (fun _ => e) e 0) by (split; [reflexivity|apply D_const]).
  destruct (X (er y) _ _ _ _ _ _ HS HH (H0 (er y)) (or_intror eq_refl)) as [X1 X2].
  assert (Ede : fl_de F cs (slice 1 y) t cT (er y) = 0) by apply (RF cs (slice 1 y) t cT (er y) 0).
  destruct i as [|i].
  - apply D_ext with (f := fun z => csr / E cT + fl_rate F cs (slice 1 (Y z)) t cT (er y)).
    { intros z. unfold sb_rate. rewrite set0_0. unfold er. now rewrite (proj1 (RF cs (slice 1 (Y z)) t cT 0 (csr / E cT + fl_rate F cs (slice 1 y) t cT 0))). }
    eapply D_eq; [apply D_plus; [apply D_const|exact X1]|].
    rewrite (sum_app 1). cbn [sum].
    rewrite (sum_ext (fl_nhist F) (fun j => sb_jac _ _ _ _ _ _ _ (1 + j)%nat * _) (fun j => fl_dh F cs (slice 1 y) t cT (er y) j * slice 1 y' j)).
    + unfold sb_jac. cbn [Nat.eqb]. ring.
    + intros j Hj. unfold sb_jac. cbn [Nat.eqb Nat.add]. cbv zeta. cbn [inelastic rf_jac rf_de]. cbv zeta.
      change (0 <? 1)%nat with true. cbv iota. change (S j) with (1 + j)%nat. rewrite cat_r, cat_l by lia. rewrite set0_0.
      change (slice 1 (set0 cs y)) with (slice 1 y). rewrite Ede. unfold slice. field. auto.
  - apply D_ext with (f := fun z => fl_hrate F cs (slice 1 (Y z)) t cT (er y) i).
    { intros z. unfold sb_rate. rewrite set0_S. cbn [inelastic rf_rate]. cbv zeta. change (S i) with (1 + i)%nat. rewrite cat_r, set0_0.
      change (slice 1 (set0 cs (Y z))) with (slice 1 (Y z)). apply (RF cs (slice 1 (Y z)) t cT (er y) (er (Y z))). lia. }
    eapply D_eq; [exact (X2 i ltac:(lia))|].
    rewrite (sum_app 1). cbn [sum].
    rewrite (sum_ext (fl_nhist F) (fun j => sb_jac _ _ _ _ _ _ _ (1 + j)%nat * _) (fun j => fl_hdh F cs (slice 1 y) t cT (er y) i j * slice 1 y' j)).
    + unfold sb_jac. cbn [Nat.eqb]. ring.
    + intros j Hj. unfold sb_jac. cbn [Nat.eqb Nat.add]. cbv zeta. cbn [inelastic rf_jac]. cbv zeta.
      destruct (Nat.ltb_spec (S i) 1); [lia|]. change (S j) with (1 + j)%nat. rewrite cat_r, set0_0.
      replace (S i - 1)%nat with i by lia. reflexivity.
Qed.
Lemma rate_free_perfect n eta : rate_free (perfect n eta).
Proof. intros s h t T e e'. repeat split; reflexivity. Qed.
(** A hardening model's rate does not depend on the total strain rate (true of
    all models shipped with the library, below). *)
Definition total_free (m : hardening) : Prop := forall s h t ep T e e' i, (i < hd_nhist m)%nat ->
  hd_rate m s h t ep T e i = hd_rate m s h t ep T e' i /\ hd_dtotal m s h t ep T e i = 0.
Lemma rate_free_isokin n eta s0 iso kin : total_free iso -> total_free kin -> rate_free (isokin n eta s0 iso kin).
Proof.
  intros A B s h t T e e'. cbn [isokin fl_rate fl_de fl_hrate fl_hde]. cbv zeta.
  assert (Q : ik_rate n eta s0 iso kin s h t T e = ik_rate n eta s0 iso kin s h t T e') by reflexivity.
  split; [exact Q|]. split; [reflexivity|]. intros i Hi. cbn [isokin fl_nhist] in Hi. rewrite <- Q. unfold cat.
  destruct (Nat.ltb_spec i (hd_nhist iso)); [now apply A|apply B; lia].
Qed.
Lemma total_free_voce Rs d : total_free (voce Rs d).
Proof. split; reflexivity. Qed.
Lemma total_free_theta0voce a b : total_free (theta0voce a b).
Proof. split; reflexivity. Qed.
Lemma total_free_theta0recovery a b c d e : total_free (theta0recovery a b c d e).
Proof. split; reflexivity. Qed.
Lemma total_free_nokin : total_free nokin.
Proof. split; reflexivity. Qed.
Lemma total_free_fa C g b r : total_free (fa C g b r).
Proof. split; reflexivity. Qed.
Lemma total_free_fan C g : total_free (fa_norecovery C g).
Proof. split; reflexivity. Qed.
Lemma total_free_chaboche n C g : total_free (chaboche n C g).
Proof. split; reflexivity. Qed.
Lemma total_free_chaboche_recovery n C g b r : total_free (chaboche_recovery n C g b r).
Proof. split; reflexivity. Qed.

Lemma total_free_superimposed ms d0 : (forall k, (k < List.length ms)%nat -> total_free (nth k ms d0)) -> total_free (superimposed ms).
Proof.
  intros A s h t ep T e e' i Hi. rewrite super_nhist in Hi. destruct (block_decomp hd_nhist ms d0 i Hi) as (k & i' & Hk & Hi' & ->).
  cbn [superimposed hd_rate hd_dtotal]. rewrite !(super_block ms d0) by auto. now apply A.
Qed.
Lemma rate_free_super ms d0 : (forall k, (k < List.length ms)%nat -> rate_free (nth k ms d0)) -> rate_free (super_rule ms).
Proof.
  intros A s h t T e e'. rewrite sf_nhist. cbn [super_rule fl_rate fl_de fl_hrate fl_hde]. rewrite !(sf_add ms d0). split; [|split].
  - apply sum_ext. intros k Hk. now apply (A k Hk).
  - apply sum_0. intros k Hk. now apply (A k Hk _ _ _ _ _ e').
  - intros i Hi. destruct (block_decomp fl_nhist ms d0 i Hi) as (k & i' & Hk & Hi' & ->). rewrite !(sf_block ms d0) by auto. now apply (A k Hk).
Qed.

(** ** The inner Newton solve *)
From Verif Require Import NewtonProofs.
Section Solve.
Variables (B : rateform) (nb : nat) (t cs csr cT : nat -> R) (y : nat -> vec).
Notation RJ := (sb_RJ B t cs csr cT y).
Notation slv rt at_ mi := (sb_solve_with B nb t cs csr cT y rt at_ mi).
Lemma sb_norm_finite r : finite_nonneg (sb_norm nb r).
Proof.
  unfold finite_nonneg, sb_norm. apply Forall_forall. intros e He. apply in_map_iff in He as (i & <- & _).
  eexists. split; [reflexivity|apply Rabs_pos].
Qed.
Lemma sb_norm_nonan r : no_nan (sb_norm nb r).
Proof. apply Forall_forall. intros e He. apply in_map_iff in He as (i & <- & _). discriminate. Qed.
Lemma sb_norm_le r a : all_le (sb_norm nb r) a <-> forall i, (i < nb)%nat -> Rabs (r i) <= a.
Proof.
  unfold all_le, sb_norm. rewrite Forall_forall. split.
  - intros H i Hi. destruct (H (Num (Rabs (r i)))) as (q & E & Hq); [|inversion E; now subst].
    apply in_map_iff. exists i. split; auto. apply in_seq. lia.
  - intros H e He. apply in_map_iff in He as (i & <- & Hi). apply in_seq in Hi. exists (Rabs (r i)). split; auto. apply H. lia.
Qed.
Lemma sb_norm_rel r r0 c : all_le_rel (sb_norm nb r) (sb_norm nb r0) c -> forall i, (i < nb)%nat -> Rabs (r i) <= c * Rabs (r0 i).
Proof.
  unfold all_le_rel, sb_norm. assert (G : forall a k, Forall2 (fun e e0 => exists q q0, e = Num q /\ e0 = Num q0 /\ q <= c * q0)
     (map (fun i => Num (Rabs (r i))) (seq a k)) (map (fun i => Num (Rabs (r0 i))) (seq a k)) -> forall i, (a <= i < a + k)%nat -> Rabs (r i) <= c * Rabs (r0 i)).
  { intros a k. revert a. induction k; intros a H i Hi; [lia|]. cbn [seq map] in H. inversion H as [|? ? ? ? (q & q0 & E & E0 & L) H']; subst.
    destruct (Nat.eq_dec i a) as [->|]; [inversion E; inversion E0; now subst|]. apply (IHk (S a)); auto. lia. }
  intros H i Hi. apply (G _ _ H). lia.
Qed.
Lemma sb_never_raises rt at_ mi : slv rt at_ mi <> Raised.
Proof. unfold sb_solve_with, newton_raphson. cbn [choose_solver Nat.eqb]. unfold newton_raphson_core. destruct (_ =? _)%nat; discriminate. Qed.
(** A silent return means the tolerances are met. *)
Lemma sb_ok rt at_ mi r : slv rt at_ mi = Ok r ->
  (forall i, (i < nb)%nat -> Rabs (fst (RJ (res_x r)) i) <= at_) \/
  (forall i, (i < nb)%nat -> Rabs (fst (RJ (res_x r)) i) <= rt * Rabs (fst (RJ (fun _ => 0)) i)).
Proof.
  unfold sb_solve_with, newton_raphson. cbn [choose_solver Nat.eqb]. unfold newton_raphson_core.
  pose proof (nr_solve_spec RJ (sb_norm nb) rt at_ (sb_solver DiagSolve) sb_sub mi (fun _ => 0)) as H. cbv zeta in H.
  set (r' := nr_solve _ _ _ _ _ _ _ _) in *. destruct H as (H1 & H2 & H3 & H4 & H5 & H6 & H7).
  destruct (Nat.eqb_spec (res_iters r') mi); [discriminate|]. intros E. injection E as <-.
  assert (C : converged rt at_ (sb_norm nb (fst (RJ (res_x r')))) (sb_norm nb (fst (RJ (fun _ => 0))))).
  { apply keep_going_false; [unfold sb_norm; now rewrite !map_length|apply sb_norm_nonan|apply sb_norm_finite|apply H7; lia]. }
  destruct C as [C|C]; [left|right]; [now apply sb_norm_le|now apply sb_norm_rel].
Qed.
(** If the stress rate is affine in the strain rate, one update is exact. *)
Lemma sb_affine a b rt at_ mi : (1 < mi)%nat -> 0 <= at_ -> 0 <= rt < 1 ->
  (forall i, (i < nb)%nat -> a i <> 0 /\ forall e, rf_rate B (t i) (set0 (cs i) (y i)) e (cT i) 0%nat = b i + a i * e /\
     rf_de B (t i) (set0 (cs i) (y i)) e (cT i) 0%nat = a i) ->
  exists r, slv rt at_ mi = Ok r /\
    ((forall i, (i < nb)%nat -> fst (RJ (res_x r)) i = 0) \/
     (res_x r = (fun _ => 0) /\ forall i, (i < nb)%nat -> Rabs (fst (RJ (res_x r)) i) <= at_)).
Proof.
  intros Hm Ha Hrt Aff. unfold sb_solve_with, newton_raphson. cbn [choose_solver Nat.eqb]. unfold newton_raphson_core.
  pose proof (nr_solve_spec RJ (sb_norm nb) rt at_ (sb_solver DiagSolve) sb_sub mi (fun _ => 0)) as H. cbv zeta in H.
  set (r := nr_solve _ _ _ _ _ _ _ _) in *. destruct H as (H1 & H2 & H3 & H4 & H5 & H6 & H7).
  set (pt := point RJ (sb_solver DiagSolve) sb_sub (fun _ => 0)) in *.
  assert (Z1 : forall i, (i < nb)%nat -> fst (RJ (pt 1%nat)) i = 0).
  { intros i Hi. destruct (Aff i Hi) as [An Ae]. change (pt 1%nat) with (update RJ (sb_solver DiagSolve) sb_sub (fun _ => 0)).
    unfold update, sb_sub, sb_solver, sb_RJ. cbn [fst snd]. rewrite !(proj1 (Ae _)), (proj2 (Ae _)). field. auto. }
  assert (K1 : keep_going rt at_ (norms RJ (sb_norm nb) (pt 1%nat)) (norms RJ (sb_norm nb) (fun _ => 0)) = false).
  { unfold keep_going. rewrite any_gt_all_le; [reflexivity|]. apply sb_norm_le. intros i Hi. rewrite Z1, Rabs_R0; auto. }
  assert (L : (res_iters r <= 1)%nat).
  { destruct (Nat.le_gt_cases (res_iters r) 1) as [|G]; auto. specialize (H6 1%nat G). congruence. }
  exists r. destruct (Nat.eqb_spec (res_iters r) mi); [lia|]. split; [reflexivity|].
  destruct (res_iters r) as [|[|k]] eqn:IT; [|left|lia].
  - assert (E0 : res_x r = fun _ => 0) by (rewrite H2; reflexivity).
    assert (K : keep_going rt at_ (sb_norm nb (fst (RJ (res_x r)))) (sb_norm nb (fst (RJ (fun _ => 0)))) = false) by (apply H7; lia).
    apply keep_going_false in K; [|unfold sb_norm; now rewrite !map_length|apply sb_norm_nonan|apply sb_norm_finite].
    right. split; auto. destruct K as [K|K].
    + now apply sb_norm_le.
    + intros i Hi. apply sb_norm_rel with (i := i) in K; auto. rewrite E0 in *.
      pose proof (Rabs_pos (fst (RJ (fun _ => 0)) i)). nra.
  - rewrite H2. auto.
Qed.
End Solve.

Lemma sb_solve_def B nb t cs csr cT y : sb_solve B nb t cs csr cT y = sb_solve_with B nb t cs csr cT y (/ 10 ^ 6) (/ 10 ^ 10) 100.
Proof. reflexivity. Qed.
Lemma sb_forward_of B nb t cs csr cT y r : sb_solve B nb t cs csr cT y = Ok r \/ sb_solve B nb t cs csr cT y = Warned r ->
  sb_forward B nb t cs csr cT y = Some (fun i => sb_rate B (t i) (y i) (cs i) (cT i) (res_x r i), fun i => sb_jac B (t i) (y i) (cs i) (cT i) (res_x r i)).
Proof.
  unfold sb_forward. generalize (sb_solve B nb t cs csr cT y). intros o [->| ->]; reflexivity.
Qed.
Lemma sb_forward_some B nb t cs csr cT y : exists r, (sb_solve B nb t cs csr cT y = Ok r \/ sb_solve B nb t cs csr cT y = Warned r).
Proof.
  pose proof (sb_never_raises B nb t cs csr cT y (/ 10 ^ 6) (/ 10 ^ 10) 100) as N. rewrite <- sb_solve_def in N.
  revert N. generalize (sb_solve B nb t cs csr cT y). intros [r|r|] N; [exists r; auto|exists r; auto|now destruct N].
Qed.
#[global] Opaque sb_solve.
