(** Model of flowrules.py at one batch point. *)
From Coq Require Import Reals Lra Lia List Arith Bool.
From Verif Require Import Torch Deriv Slices Hardening Temperature.
Import ListNotations.
Local Open Scope bool_scope.
Local Open Scope R_scope.

(** utility.heaviside and utility.macaulay, utility.py 478-509 *)
Definition heaviside (x : R) : R := (tsign x + 1) / 2.
Definition macaulay (x : R) : R := x * heaviside x.

(** What a flow rule provides; arguments stress, history, time, temperature,
    total strain rate. flow_rate returns (fl_rate, fl_ds), history_rate
    returns (fl_hrate, fl_hdh); dflow_dhist's (1, nhist) row is a vector. *)
Record flowrule := FlowRule {
  fl_nhist : nat;
  fl_rate : R -> vec -> R -> R -> R -> R;
  fl_ds : R -> vec -> R -> R -> R -> R;
  fl_dh : R -> vec -> R -> R -> R -> vec;
  fl_de : R -> vec -> R -> R -> R -> R;
  fl_hrate : R -> vec -> R -> R -> R -> vec;
  fl_hdh : R -> vec -> R -> R -> R -> mat;
  fl_hds : R -> vec -> R -> R -> R -> vec;
  fl_hde : R -> vec -> R -> R -> R -> vec }.

(** FlowRule's defaults, flowrules.py 43-119: zeros. *)
Definition default_scalar (s : R) (h : vec) (t T e : R) : R := 0.
Definition default_vec (s : R) (h : vec) (t T e : R) : vec := vzero.

(** ** Kocks-Mecking activation energy, flowrules.py 197-213, 462-478.
    The modulus is a temperature parameter with a numerical scaling
    (temperature.py 63-70); the code calls [mu.value], not [mu]. *)
Record tparam := TParam { tp_scaling : R -> R; tp_value : R -> R }.
Definition tp_forward (p : tparam) (T : R) : R := forward (tp_scaling p) (tp_value p) T.
Definition km_g (k : R) (mu : tparam) (b eps0 eps : R) (T e : R) : R :=
  k * T / (tp_value mu T * b ^ 3) * ln (eps0 / (Rabs e + eps)).

(** KocksMeckingRegimeFlowRule, flowrules.py 122-365.  The constructor raises
    if the numbers of internal variables differ (lines 184-188). *)
Section KM.
Variables (m1 m2 : flowrule) (g0 : R) (mu : tparam) (b eps0 k eps : R) (g0_scale : R -> R).
(** switch_values, 215-230, for one entry *)
Definition km_second (T e : R) : bool :=
  if Rlt_dec (g0_scale g0) (km_g k mu b eps0 eps T e) then true else false.
Definition km_switch {A} (v1 v2 : A) (T e : R) : A := if km_second T e then v2 else v1.
Definition km_rule : flowrule := {|
  fl_nhist := fl_nhist m1;
  fl_rate s h t T e := km_switch (fl_rate m1 s h t T e) (fl_rate m2 s h t T e) T e;
  fl_ds s h t T e := km_switch (fl_ds m1 s h t T e) (fl_ds m2 s h t T e) T e;
  fl_dh s h t T e := km_switch (fl_dh m1 s h t T e) (fl_dh m2 s h t T e) T e;
  fl_de s h t T e := km_switch (fl_de m1 s h t T e) (fl_de m2 s h t T e) T e;
  fl_hrate s h t T e := km_switch (fl_hrate m1 s h t T e) (fl_hrate m2 s h t T e) T e;
  fl_hdh s h t T e := km_switch (fl_hdh m1 s h t T e) (fl_hdh m2 s h t T e) T e;
  fl_hds s h t T e := km_switch (fl_hds m1 s h t T e) (fl_hds m2 s h t T e) T e;
  fl_hde s h t T e := km_switch (fl_hde m1 s h t T e) (fl_hde m2 s h t T e) T e |}.
(** Constructor, 157-188: None is ValueError. *)
Definition km_init : option flowrule := if fl_nhist m1 =? fl_nhist m2 then Some km_rule else None.
End KM.

(** SoftKocksMeckingRegimeFlowRule, flowrules.py 368-694 *)
Section Soft.
Variables (m1 m2 : flowrule) (g0 : R) (mu : tparam) (b eps0 k sf eps : R) (g0_scale : R -> R).
(** dg_e, 480-494 *)
Definition soft_dg (T e : R) : R := - (k * T / (tp_value mu T * b ^ 3) / (Rabs e + eps)) * tsign e.
(** f, 496-509 *)
Definition soft_f (T e : R) : R := (tanh (sf * (km_g k mu b eps0 eps T e - g0_scale g0)) + 1) / 2.
(** df_e, 511-530 *)
Definition soft_df (T e : R) : R :=
  sf / (2 * (cosh (sf * (km_g k mu b eps0 eps T e - g0_scale g0))) ^ 2) * soft_dg T e.
(** blend_values, 532-547 *)
Definition blend (v1 v2 T e : R) : R := (1 - soft_f T e) * v1 + soft_f T e * v2.
Definition soft_rule : flowrule := {|
  fl_nhist := fl_nhist m1;
  fl_rate s h t T e := blend (fl_rate m1 s h t T e) (fl_rate m2 s h t T e) T e;
  fl_ds s h t T e := blend (fl_ds m1 s h t T e) (fl_ds m2 s h t T e) T e;
  fl_dh s h t T e := fun j => blend (fl_dh m1 s h t T e j) (fl_dh m2 s h t T e j) T e;
  fl_de s h t T e := blend (fl_de m1 s h t T e) (fl_de m2 s h t T e) T e
    + soft_df T e * (fl_rate m2 s h t T e - fl_rate m1 s h t T e);
  fl_hrate s h t T e := fun i => blend (fl_hrate m1 s h t T e i) (fl_hrate m2 s h t T e i) T e;
  fl_hdh s h t T e := fun i j => blend (fl_hdh m1 s h t T e i j) (fl_hdh m2 s h t T e i j) T e;
  fl_hds s h t T e := fun i => blend (fl_hds m1 s h t T e i) (fl_hds m2 s h t T e i) T e;
  fl_hde s h t T e := fun i => blend (fl_hde m1 s h t T e i) (fl_hde m2 s h t T e i) T e
    + (fl_hrate m2 s h t T e i - fl_hrate m1 s h t T e i) * soft_df T e |}.
Definition soft_init : option flowrule := if fl_nhist m1 =? fl_nhist m2 then Some soft_rule else None.
End Soft.

(** RateIndependentFlowRuleWrapper, flowrules.py 697-882 *)
Section RI.
Variables (base : flowrule) (lmbda eps_ref : R).
(** scale, 743-753; dscale, 755-768 *)
Definition ri_scale (e : R) : R := 1 - lmbda + lmbda * Rabs e / eps_ref.
Definition ri_dscale (e : R) : R := tsign e * lmbda / eps_ref.
Definition ri_rule : flowrule := {|
  fl_nhist := fl_nhist base;
  fl_rate s h t T e := ri_scale e * fl_rate base s h t T e;
  fl_ds s h t T e := ri_scale e * fl_ds base s h t T e;
  fl_dh s h t T e := fun j => fl_dh base s h t T e j * ri_scale e;
  fl_de s h t T e := fl_de base s h t T e * ri_scale e + fl_rate base s h t T e * ri_dscale e;
  fl_hrate s h t T e := fun i => ri_scale e * fl_hrate base s h t T e i;
  fl_hdh s h t T e := fun i j => ri_scale e * fl_hdh base s h t T e i j;
  fl_hds s h t T e := fun i => ri_scale e * fl_hds base s h t T e i;
  fl_hde s h t T e := fun i => fl_hde base s h t T e i * ri_scale e + fl_hrate base s h t T e i * ri_dscale e |}.
End RI.

(** SuperimposedFlowRule, flowrules.py 885-1056 *)
Definition super_rule (ms : list flowrule) : flowrule := {|
  fl_nhist := total (map fl_nhist ms);
  fl_rate s h t T e := loop_add fl_nhist (fun o m => fl_rate m s (slice o h) t T e) ms;
  fl_ds s h t T e := loop_add fl_nhist (fun o m => fl_ds m s (slice o h) t T e) ms;
  fl_dh s h t T e := loop_assign fl_nhist (fun o m => fl_dh m s (slice o h) t T e) ms;
  fl_de s h t T e := loop_add fl_nhist (fun o m => fl_de m s (slice o h) t T e) ms;
  fl_hrate s h t T e := loop_assign fl_nhist (fun o m => fl_hrate m s (slice o h) t T e) ms;
  fl_hdh s h t T e := loop_assign2 fl_nhist (fun o m => fl_hdh m s (slice o h) t T e) ms;
  fl_hds s h t T e := loop_assign fl_nhist (fun o m => fl_hds m s (slice o h) t T e) ms;
  fl_hde s h t T e := loop_assign fl_nhist (fun o m => fl_hde m s (slice o h) t T e) ms |}.

(** PerfectViscoplasticity, flowrules.py 1059-1126 *)
Definition perfect (n eta : R -> R) : flowrule := {|
  fl_nhist := 0;
  fl_rate s h t T e := pow0 (Rabs s / eta T) (n T) * tsign s;
  fl_ds s h t T e := n T * pow0 (Rabs s / eta T) (n T - 1) / eta T;
  fl_dh := default_vec;
  fl_de := default_scalar;
  fl_hrate s h t T e := vzero;
  fl_hdh s h t T e := mzero;
  fl_hds := default_vec;
  fl_hde := default_vec |}.

(** IsoKinViscoplasticity, flowrules.py 1129-1427 *)
Section IsoKin.
Variables (n eta s0 : R -> R) (iso kin : hardening).
Definition ik_iso (h : vec) : R := hd_value iso h.
Definition ik_kin (h : vec) : R := hd_value kin (slice (hd_nhist iso) h).
(** flow_rate, 1167-1193 *)
Definition ik_rate (s : R) (h : vec) (t T e : R) : R :=
  pow0 (macaulay ((Rabs (s - ik_kin h) - s0 T - ik_iso h) / eta T)) (n T) * tsign (s - ik_kin h).
Definition ik_ds (s : R) (h : vec) (t T e : R) : R :=
  n T * pow0 (macaulay ((Rabs (s - ik_kin h) - s0 T - ik_iso h) / eta T)) (n T - 1) / eta T.
(** dflow_diso, 1195-1221 *)
Definition ik_diso (s : R) (h : vec) (t T e : R) : R :=
  let iv := (Rabs (s - ik_kin h) - s0 T - ik_iso h) / eta T in
  - n T * pow0 (macaulay iv) (n T - 1) / eta T * tsign (s - ik_kin h).
(** dflow_dkin, 1223-1247 *)
Definition ik_dkin (s : R) (h : vec) (t T e : R) : R :=
  - n T * pow0 (macaulay ((Rabs (s - ik_kin h) - s0 T - ik_iso h) / eta T)) (n T - 1) / eta T.
Definition isokin : flowrule := {|
  fl_nhist := hd_nhist iso + hd_nhist kin;
  fl_rate := ik_rate;
  fl_ds := ik_ds;
  (* 1342-1365 *)
  fl_dh s h t T e := cat (hd_nhist iso) (fun j => ik_diso s h t T e * hd_dvalue iso h j)
                       (fun j => ik_dkin s h t T e * hd_dvalue kin (slice (hd_nhist iso) h) j);
  fl_de := default_scalar;
  (* 1257-1340 *)
  fl_hrate s h t T e := let ep := ik_rate s h t T e in
    cat (hd_nhist iso) (hd_rate iso s h t ep T e) (hd_rate kin s (slice (hd_nhist iso) h) t ep T e);
  fl_hdh s h t T e := let ep := ik_rate s h t T e in let hk := slice (hd_nhist iso) h in
    fun i => if i <? hd_nhist iso then
        cat (hd_nhist iso)
          (fun j => hd_dhistory iso s h t ep T e i j + hd_derate iso s h t ep T e i * (ik_diso s h t T e * hd_dvalue iso h j))
          (fun j => hd_derate iso s h t ep T e i * ik_dkin s h t T e * hd_dvalue kin hk j)
      else
        cat (hd_nhist iso)
          (fun j => hd_derate kin s hk t ep T e (i - hd_nhist iso)%nat * (ik_diso s h t T e * hd_dvalue iso h j))
          (fun j => hd_dhistory kin s hk t ep T e (i - hd_nhist iso)%nat j
             + hd_derate kin s hk t ep T e (i - hd_nhist iso)%nat * (ik_dkin s h t T e * hd_dvalue kin hk j));
  (* 1367-1400 *)
  fl_hds s h t T e := let ep := ik_rate s h t T e in let hk := slice (hd_nhist iso) h in
    cat (hd_nhist iso)
      (fun i => hd_dstress iso s h t ep T e i + hd_derate iso s h t ep T e i * ik_ds s h t T e)
      (fun i => hd_dstress kin s hk t ep T e i + hd_derate kin s hk t ep T e i * ik_ds s h t T e);
  (* 1402-1427 *)
  fl_hde s h t T e := let ep := ik_rate s h t T e in let hk := slice (hd_nhist iso) h in
    cat (hd_nhist iso) (hd_dtotal iso s h t ep T e) (hd_dtotal kin s hk t ep T e) |}.
End IsoKin.

(** ** Specification: every derivative a flow rule returns is exact, along
    every differentiable curve of stress, history and strain rate through the
    state (a kink of |e| is only touched with zero velocity). *)
Definition flow_exact (F : flowrule) (s : R) (h : vec) (t T e : R) : Prop :=
  forall S H E s' h' e',
  through S s s' -> vthrough (fl_nhist F) H h h' -> through E e e' -> e <> 0 \/ e' = 0 ->
  D (fun y => fl_rate F (S y) (H y) t T (E y)) 0
    (fl_ds F s h t T e * s' + sum (fl_nhist F) (fun j => fl_dh F s h t T e j * h' j) + fl_de F s h t T e * e') /\
  forall i, (i < fl_nhist F)%nat ->
  D (fun y => fl_hrate F (S y) (H y) t T (E y) i) 0
    (fl_hds F s h t T e i * s' + sum (fl_nhist F) (fun j => fl_hdh F s h t T e i j * h' j) + fl_hde F s h t T e i * e').

(** ** Proofs *)
Lemma macaulay_mac x : macaulay x = mac x.
Proof.
  unfold macaulay, heaviside. destruct (Rtotal_order x 0) as [N|[->|P]].
  - rewrite tsign_neg, mac_neg by lra. field.
  - rewrite tsign_0, mac_neg by lra. field.
  - rewrite tsign_pos, mac_pos by lra. field.
Qed.

(** Perfect viscoplasticity *)
Lemma pow0_div x a n : 0 <= x -> 0 < a -> 0 < n -> pow0 (x / a) n = pow0 x n / Rpower a n.
Proof.
  intros [Hx| <-] Ha Hn.
  - rewrite !pow0_pos; auto; [|now apply Rdiv_lt_0_compat]. unfold Rdiv, Rpower.
    rewrite ln_mult, ln_Rinv; auto; [|now apply Rinv_0_lt_compat]. rewrite <- exp_Ropp, <- exp_plus. f_equal. ring.
  - unfold Rdiv. rewrite !Rmult_0_l, pow0_0 by lra. ring.
Qed.
Lemma perfect_spow n eta s h t T e : 0 < eta T -> fl_rate (perfect n eta) s h t T e = spow (n T) (s / eta T).
Proof.
  intros He. cbn [perfect fl_rate]. unfold spow. f_equal.
  - f_equal. unfold Rdiv. rewrite Rabs_mult, (Rabs_right (/ eta T)); auto. left. now apply Rinv_0_lt_compat.
  - assert (0 < / eta T) by now apply Rinv_0_lt_compat. destruct (Rtotal_order s 0) as [N|[->|P]].
    + rewrite !tsign_neg; auto. unfold Rdiv. nra.
    + unfold Rdiv. now rewrite Rmult_0_l.
    + rewrite !tsign_pos; auto. unfold Rdiv. nra.
Qed.
Lemma Rabs_div_pos s a : 0 < a -> Rabs (s / a) = Rabs s / a.
Proof. intros. unfold Rdiv. rewrite Rabs_mult, (Rabs_right (/ a)); auto. left. now apply Rinv_0_lt_compat. Qed.
Lemma perfect_exact n eta s h t T e : 0 < eta T -> 1 <= n T \/ s <> 0 -> flow_exact (perfect n eta) s h t T e.
Proof.
  intros He Hn S H E s' h' e' [S0 S1] HH HE C. split; [|intros i Hi; simpl in Hi; lia].
  apply D_ext with (f := fun y => spow (n T) (S y / eta T)).
  { intros y. now rewrite perfect_spow. }
  eapply D_eq.
  - apply (D_comp (spow (n T)) (fun y => S y / eta T)).
    + apply D_div_c. exact S1.
    + apply D_spow1. cbv beta. rewrite S0. destruct Hn as [Hn|Hs]; [auto|right]. intros Z. apply Hs.
      apply Rmult_eq_reg_r with (/ eta T); [|apply Rgt_not_eq, Rinv_0_lt_compat; auto]. rewrite Rmult_0_l. exact Z.
  - cbv beta. rewrite S0, Rabs_div_pos by auto. cbn [perfect fl_ds fl_dh fl_de fl_nhist sum]. unfold default_scalar, Rdiv. ring.
Qed.

(** The flow function of IsoKin. *)
Lemma ik_core n eta s0 X Y x' y' : 1 < n \/ 0 < Rabs (X 0) - s0 - Y 0 -> 0 < eta -> D X 0 x' -> D Y 0 y' -> X 0 <> 0 \/ 0 <= s0 + Y 0 ->
  D (fun z => pow0 (macaulay ((Rabs (X z) - s0 - Y z) / eta)) n * tsign (X z)) 0
    (n * pow0 (macaulay ((Rabs (X 0) - s0 - Y 0) / eta)) (n - 1) / eta * x'
     + - n * pow0 (macaulay ((Rabs (X 0) - s0 - Y 0) / eta)) (n - 1) / eta * tsign (X 0) * y').
Proof.
  intros Hn He HX HY C.
  apply D_ext with (f := fun z => pow0 (mac ((Rabs (X z) - s0 - Y z) / eta)) n * tsign (X z)).
  { intros z. now rewrite macaulay_mac. }
  rewrite macaulay_mac. destruct (Req_dec (X 0) 0) as [Z|NZ].
  - destruct C as [C|C]; [contradiction|].
    assert (M0 : mac ((Rabs (X 0) - s0 - Y 0) / eta) = 0).
    { apply mac_neg. rewrite Z, Rabs_R0. unfold Rdiv. assert (0 < / eta) by now apply Rinv_0_lt_compat. nra. }
    destruct Hn as [Hn|Hn]; [|rewrite Z, Rabs_R0 in Hn; exfalso; lra].
    rewrite M0, (pow0_0 (n - 1)) by lra. unfold Rdiv. rewrite !Rmult_0_r, !Rmult_0_l, Rplus_0_l.
    destruct (D_bound X 0 x' HX) as (d1 & Hd1 & B1). destruct (D_bound Y 0 y' HY) as (d2 & Hd2 & B2).
    set (K := ((Rabs x' + 1) + (Rabs y' + 1)) / eta).
    apply (D_squeeze _ (fun z => spow n (K * z)) 0 (Rmin d1 d2)); [now apply Rmin_pos| |rewrite Rmult_0_r; apply spow_0|].
    + intros z Hz. assert (Hz1 : Rabs (z - 0) < d1) by (apply Rlt_le_trans with (1 := Hz), Rmin_l).
      assert (Hz2 : Rabs (z - 0) < d2) by (apply Rlt_le_trans with (1 := Hz), Rmin_r).
      specialize (B1 z Hz1). specialize (B2 z Hz2). rewrite Z in B1. rewrite Rminus_0_r in *.
      rewrite Rabs_spow by lra. rewrite Rabs_mult, (Rabs_right (pow0 _ _)) by (apply Rle_ge, pow0_ge0).
      apply Rle_trans with (pow0 (mac ((Rabs (X z) - s0 - Y z) / eta)) n * 1).
      { apply Rmult_le_compat_l; [apply pow0_ge0|]. unfold tsign. destruct (Rlt_dec 0 (X z)); [rewrite Rabs_R1; lra|].
        destruct (Rlt_dec (X z) 0); [rewrite Rabs_left; lra|rewrite Rabs_R0; lra]. }
      rewrite Rmult_1_r. apply pow0_mono; [apply mac_ge0| |lra].
      assert (Ie : 0 < / eta) by now apply Rinv_0_lt_compat.
      apply Rmax_lub; [|apply Rabs_pos]. unfold K. unfold Rdiv. rewrite !Rabs_mult, (Rabs_right (/ eta)) by lra.
      rewrite (Rabs_right (Rabs x' + 1 + (Rabs y' + 1))) by (pose proof (Rabs_pos x'); pose proof (Rabs_pos y'); lra).
      rewrite Rmult_assoc, (Rmult_comm (/ eta)), <- Rmult_assoc. apply Rmult_le_compat_r; [lra|].
      rewrite Rmult_plus_distr_r. assert (- (Y z - Y 0) <= Rabs (Y z - Y 0)) by (rewrite <- Rabs_Ropp; apply Rle_abs).
      rewrite Rminus_0_r in B1. lra.
    + eapply D_eq; [apply (D_comp (spow n) (fun z => K * z)); [apply D_scal, D_id|]|].
      * cbv beta. rewrite Rmult_0_r. now apply D_spow_0.
      * ring.
  - eapply D_eq.
    + apply D_mult.
      * assert (P : 1 < n \/ 0 < (Rabs (X 0) - s0 - Y 0) / eta) by (destruct Hn; [now left|right; now apply Rdiv_lt_0_compat]).
        apply (D_macpow_pos (fun z => (Rabs (X z) - s0 - Y z) / eta)); [exact P|].
        apply D_div_c, D_minus; [apply D_minus; [apply D_Rabs; eauto|apply D_const]|exact HY].
      * eapply D_tsign; eauto.
    + cbv beta. destruct (Rdichotomy _ _ NZ).
      * rewrite tsign_neg by auto. unfold Rdiv. ring.
      * rewrite tsign_pos by auto. unfold Rdiv. ring.
Qed.

Lemma cat_l n a b i : (i < n)%nat -> cat n a b i = a i.
Proof. intros H. unfold cat. destruct (Nat.ltb_spec i n); [auto|lia]. Qed.
Lemma cat_r n a b i : cat n a b (n + i)%nat = b i.
Proof. unfold cat. destruct (Nat.ltb_spec (n + i) n); [lia|]. f_equal. lia. Qed.
Lemma sum_cat n m a b h : sum (n + m) (fun j => cat n a b j * h j) = sum n (fun j => a j * h j) + sum m (fun j => b j * h (n + j)%nat).
Proof.
  rewrite sum_app. f_equal; apply sum_ext; intros i Hi.
  - now rewrite cat_l.
  - now rewrite cat_r.
Qed.

Section IsoKinExact.
Variables (n eta s0 : R -> R) (iso kin : hardening).
Variables (s : R) (h : vec) (t T e : R).
Notation ep := (ik_rate n eta s0 iso kin s h t T e).
Notation hk := (slice (hd_nhist iso) h).
Hypotheses (Hn : 1 < n T \/ 0 < Rabs (s - ik_kin iso kin h) - s0 T - ik_iso iso h) (He : 0 < eta T)
  (Hy : s <> ik_kin iso kin h \/ 0 <= s0 T + ik_iso iso h)
  (Viso : value_exact iso h) (Vkin : value_exact kin hk).

Lemma ik_flow_D S H s' h' : through S s s' -> vthrough (hd_nhist iso + hd_nhist kin) H h h' ->
  (forall y y', agree (hd_nhist iso) y y' -> hd_value iso y = hd_value iso y') ->
  (forall y y', agree (hd_nhist kin) y y' -> hd_value kin y = hd_value kin y') ->
  forall e1 : R -> R,
  D (fun y => ik_rate n eta s0 iso kin (S y) (H y) t T (e1 y)) 0
    (ik_ds n eta s0 iso kin s h t T e * s' +
     sum (hd_nhist iso) (fun j => ik_diso n eta s0 iso kin s h t T e * hd_dvalue iso h j * h' j) +
     sum (hd_nhist kin) (fun j => ik_dkin n eta s0 iso kin s h t T e * hd_dvalue kin hk j * h' (hd_nhist iso + j)%nat)) /\
  through (fun y => ik_rate n eta s0 iso kin (S y) (H y) t T (e1 y)) ep
    (ik_ds n eta s0 iso kin s h t T e * s' +
     sum (hd_nhist iso) (fun j => ik_diso n eta s0 iso kin s h t T e * hd_dvalue iso h j * h' j) +
     sum (hd_nhist kin) (fun j => ik_dkin n eta s0 iso kin s h t T e * hd_dvalue kin hk j * h' (hd_nhist iso + j)%nat)).
Proof.
  intros [S0 S1] HH Aiso Akin e1.
  assert (H1 : vthrough (hd_nhist iso) H h h') by (intros i Hi; apply HH; lia).
  assert (H2 : vthrough (hd_nhist kin) (fun y => slice (hd_nhist iso) (H y)) hk (slice (hd_nhist iso) h')).
  { intros i Hi. apply (HH (hd_nhist iso + i)%nat). lia. }
  pose proof (Viso H h' H1) as DI. pose proof (Vkin _ _ H2) as DK.
  assert (I0 : hd_value iso (H 0) = hd_value iso h) by (apply Aiso; intros i Hi; apply (H1 i Hi)).
  assert (K0 : hd_value kin (slice (hd_nhist iso) (H 0)) = hd_value kin hk) by (apply Akin; intros i Hi; apply (H2 i Hi)).
  assert (G : D (fun y => ik_rate n eta s0 iso kin (S y) (H y) t T (e1 y)) 0
    (ik_ds n eta s0 iso kin s h t T e * s' +
     sum (hd_nhist iso) (fun j => ik_diso n eta s0 iso kin s h t T e * hd_dvalue iso h j * h' j) +
     sum (hd_nhist kin) (fun j => ik_dkin n eta s0 iso kin s h t T e * hd_dvalue kin hk j * h' (hd_nhist iso + j)%nat))).
  { unfold ik_rate. eapply D_eq.
    - apply (ik_core (n T) (eta T) (s0 T) (fun y => S y - ik_kin iso kin (H y)) (fun y => ik_iso iso (H y))).
      + cbv beta. unfold ik_kin, ik_iso in *. rewrite I0, K0, S0. destruct Hn; [now left|now right].
      + exact He.
      + apply D_minus; [exact S1|exact DK].
      + exact DI.
      + cbv beta. unfold ik_kin, ik_iso in *. rewrite I0, K0, S0. destruct Hy; [left; lra|now right].
    - cbv beta. unfold ik_kin, ik_iso in *. rewrite I0, K0, S0.
      unfold ik_ds, ik_diso, ik_dkin, ik_kin, ik_iso. cbv zeta.
      set (P := pow0 _ _). set (sg := tsign _).
      rewrite (sum_ext (hd_nhist iso) (fun j => - n T * P / eta T * sg * hd_dvalue iso h j * h' j) (fun j => (- n T * P / eta T * sg) * (hd_dvalue iso h j * h' j))) by (intros; ring).
      rewrite (sum_ext (hd_nhist kin) (fun j => - n T * P / eta T * hd_dvalue kin hk j * h' (hd_nhist iso + j)%nat) (fun j => (- n T * P / eta T) * (hd_dvalue kin hk j * slice (hd_nhist iso) h' j)))
        by (intros; unfold slice; ring).
      rewrite !sum_scal. unfold Rdiv. ring. }
  split; [exact G|]. split; [|exact G].
  unfold ik_rate, ik_kin, ik_iso. now rewrite I0, K0, S0.
Qed.

(** No flow implies no change of flow. *)
Lemma ik_zero_flow : ep = 0 -> pow0 (macaulay ((Rabs (s - ik_kin iso kin h) - s0 T - ik_iso iso h) / eta T)) (n T - 1) = 0.
Proof.
  unfold ik_rate. set (x := s - ik_kin iso kin h) in *. rewrite macaulay_mac. intros E.
  set (m := mac ((Rabs x - s0 T - ik_iso iso h) / eta T)) in *.
  assert (Hm : 0 <= m) by apply mac_ge0. destruct Hm as [Hm|Hm].
  2:{ rewrite <- Hm. apply pow0_0. destruct Hn as [Hn1|Hn1]; [lra|exfalso]. fold x in Hn1.
      assert (0 < (Rabs x - s0 T - ik_iso iso h) / eta T) by now apply Rdiv_lt_0_compat.
      unfold m in Hm. rewrite mac_pos in Hm; lra. }
  exfalso. pose proof (pow0_gt0 m (n T) Hm).
  assert (X0 : x <> 0).
  { intros Z. assert (M : m = 0); [|lra]. unfold m. apply mac_neg. rewrite Z, Rabs_R0.
    destruct Hy as [Hy'|Hy']; [unfold x in Z; lra|]. unfold Rdiv. assert (0 < / eta T) by now apply Rinv_0_lt_compat. nra. }
  destruct (Rdichotomy _ _ X0); [rewrite tsign_neg in E by auto|rewrite tsign_pos in E by auto]; lra.
Qed.

Hypotheses (Riso : rate_exact iso s h t ep T e) (Rkin : rate_exact kin s hk t ep T e)
  (Aiso : forall y y', agree (hd_nhist iso) y y' -> hd_value iso y = hd_value iso y')
  (Akin : forall y y', agree (hd_nhist kin) y y' -> hd_value kin y = hd_value kin y').

Lemma isokin_exact : flow_exact (isokin n eta s0 iso kin) s h t T e.
Proof.
  intros S H E s' h' e' HS HH HE C. cbn [isokin fl_nhist] in HH.
  destruct (ik_flow_D S H s' h' HS HH Aiso Akin E) as [DF TF].
  set (ep' := ik_ds n eta s0 iso kin s h t T e * s' + _ + _) in DF, TF.
  assert (C' : ep <> 0 \/ ep' = 0).
  { destruct (Req_dec ep 0) as [Z|]; [right|now left]. apply ik_zero_flow in Z. unfold ep', ik_ds, ik_diso, ik_dkin. cbv zeta.
    rewrite Z. unfold Rdiv. rewrite !sum_0; [ring| |]; intros; ring. }
  assert (H1 : vthrough (hd_nhist iso) H h h') by (intros i Hi; apply HH; lia).
  assert (H2 : vthrough (hd_nhist kin) (fun y => slice (hd_nhist iso) (H y)) hk (slice (hd_nhist iso) h')).
  { intros i Hi. apply (HH (hd_nhist iso + i)%nat). lia. }
  split.
  - cbn [isokin fl_rate fl_ds fl_dh fl_de fl_nhist]. eapply D_eq; [exact DF|]. rewrite sum_cat. unfold ep', default_scalar. cbv beta. ring.
  - intros i Hi. cbn [isokin fl_nhist] in Hi. cbn [isokin fl_hrate fl_hds fl_hdh fl_hde fl_nhist]. cbv zeta.
    destruct (Nat.lt_ge_cases i (hd_nhist iso)) as [L|G].
    + apply D_ext with (f := fun y => hd_rate iso (S y) (H y) t (ik_rate n eta s0 iso kin (S y) (H y) t T (E y)) T (E y) i).
      { intros y. now rewrite cat_l. }
      eapply D_eq.
      * exact (Riso S H (fun y => ik_rate n eta s0 iso kin (S y) (H y) t T (E y)) E s' h' ep' e' HS H1 TF HE C' i L).
      * destruct (Nat.ltb_spec i (hd_nhist iso)); [|lia]. rewrite sum_cat, !cat_l by auto. unfold ep'.
        rewrite (sum_ext (hd_nhist iso) (fun j => (_ + _) * _) (fun j => hd_dhistory iso s h t ep T e i j * h' j
           + hd_derate iso s h t ep T e i * (ik_diso n eta s0 iso kin s h t T e * hd_dvalue iso h j * h' j))) by (intros; ring).
        rewrite sum_plus, sum_scal.
        rewrite (sum_ext (hd_nhist kin) (fun j => hd_derate iso s h t ep T e i * ik_dkin n eta s0 iso kin s h t T e * hd_dvalue kin hk j * h' (hd_nhist iso + j)%nat)
          (fun j => hd_derate iso s h t ep T e i * (ik_dkin n eta s0 iso kin s h t T e * hd_dvalue kin hk j * h' (hd_nhist iso + j)%nat))) by (intros; ring).
        rewrite sum_scal. ring.
    + replace i with (hd_nhist iso + (i - hd_nhist iso))%nat by lia. set (i' := (i - hd_nhist iso)%nat). assert (Hi' : (i' < hd_nhist kin)%nat) by lia.
      apply D_ext with (f := fun y => hd_rate kin (S y) (slice (hd_nhist iso) (H y)) t (ik_rate n eta s0 iso kin (S y) (H y) t T (E y)) T (E y) i').
      { intros y. now rewrite cat_r. }
      eapply D_eq.
      * exact (Rkin S _ (fun y => ik_rate n eta s0 iso kin (S y) (H y) t T (E y)) E s' _ ep' e' HS H2 TF HE C' i' Hi').
      * destruct (Nat.ltb_spec (hd_nhist iso + i') (hd_nhist iso)); [lia|].
        replace (hd_nhist iso + i' - hd_nhist iso)%nat with i' by lia. rewrite sum_cat, !cat_r. unfold ep'.
        rewrite (sum_ext (hd_nhist kin) (fun j => (_ + _) * _) (fun j => hd_dhistory kin s hk t ep T e i' j * slice (hd_nhist iso) h' j
           + hd_derate kin s hk t ep T e i' * (ik_dkin n eta s0 iso kin s h t T e * hd_dvalue kin hk j * h' (hd_nhist iso + j)%nat))) by (intros; unfold slice; ring).
        rewrite sum_plus, sum_scal.
        rewrite (sum_ext (hd_nhist iso) (fun j => hd_derate kin s hk t ep T e i' * (ik_diso n eta s0 iso kin s h t T e * hd_dvalue iso h j) * h' j)
          (fun j => hd_derate kin s hk t ep T e i' * (ik_diso n eta s0 iso kin s h t T e * hd_dvalue iso h j * h' j))) by (intros; ring).
        rewrite sum_scal. ring.
Qed.
End IsoKinExact.


(** Only the model's own history entries are read (the arrays in the code have
    exactly nhist entries). *)
Definition fl_wf (F : flowrule) : Prop := forall s h h' t T e, agree (fl_nhist F) h h' ->
  fl_rate F s h t T e = fl_rate F s h' t T e /\
  agree (fl_nhist F) (fl_hrate F s h t T e) (fl_hrate F s h' t T e).
Definition hd_wf (m : hardening) : Prop := forall h h', agree (hd_nhist m) h h' -> 
  hd_value m h = hd_value m h' /\
  forall s t ep T e, agree (hd_nhist m) (hd_rate m s h t ep T e) (hd_rate m s h' t ep T e).

Lemma vthrough_0 n H h h' : vthrough n H h h' -> agree n (H 0) h.
Proof. intros V i Hi. apply (V i Hi). Qed.

Lemma perfect_wf n eta : fl_wf (perfect n eta).
Proof. intros s h h' t T e A. split; [reflexivity|]. intros i Hi. simpl in Hi. lia. Qed.
Lemma isokin_wf n eta s0 iso kin : hd_wf iso -> hd_wf kin -> fl_wf (isokin n eta s0 iso kin).
Proof.
  intros Wi Wk s h h' t T e A. cbn [isokin fl_nhist fl_rate fl_hrate] in *. cbv zeta.
  assert (A1 : agree (hd_nhist iso) h h') by (intros i Hi; apply A; lia).
  assert (A2 : agree (hd_nhist kin) (slice (hd_nhist iso) h) (slice (hd_nhist iso) h')) by (intros i Hi; apply A; lia).
  destruct (Wi _ _ A1) as [V1 R1]. destruct (Wk _ _ A2) as [V2 R2].
  assert (E : ik_rate n eta s0 iso kin s h t T e = ik_rate n eta s0 iso kin s h' t T e) by (unfold ik_rate, ik_kin, ik_iso; now rewrite V1, V2).
  split; [exact E|]. rewrite E. intros i Hi. unfold cat. destruct (Nat.ltb_spec i (hd_nhist iso)); [now apply R1|apply R2; lia].
Qed.

(** Superimposed flow rules *)
Section SuperFlow.
Variables (ms : list flowrule) (d0 : flowrule).
Notation m_ k := (nth k ms d0).
Notation off_ k := (off fl_nhist ms k).
Lemma sf_nhist : fl_nhist (super_rule ms) = size fl_nhist ms.
Proof. cbn [super_rule fl_nhist]. now rewrite total_sum. Qed.
Lemma sf_add (f : nat -> flowrule -> R) : loop_add fl_nhist f ms = sum (length ms) (fun k => f (off_ k) (m_ k)).
Proof. rewrite loop_add_rec, (rec_add_sum _ _ _ d0). reflexivity. Qed.
Lemma sf_block (f : nat -> flowrule -> vec) k i : (k < length ms)%nat -> (i < fl_nhist (m_ k))%nat ->
  loop_assign fl_nhist f ms (off_ k + i)%nat = f (off_ k) (m_ k) i.
Proof.
  intros Hk Hi. rewrite loop_assign_rec by (apply (off_lt _ _ _ _ d0); auto).
  now rewrite (rec_assign_block _ _ _ _ _ _ d0).
Qed.
Lemma sf_block2 (f : nat -> flowrule -> mat) k i j : (k < length ms)%nat -> (i < fl_nhist (m_ k))%nat -> (j < size fl_nhist ms)%nat ->
  loop_assign2 fl_nhist f ms (off_ k + i)%nat j =
  if (off_ k <=? j) && (j <? off_ k + fl_nhist (m_ k)) then f (off_ k) (m_ k) i (j - off_ k)%nat else 0.
Proof.
  intros Hk Hi Hj. rewrite loop_assign2_rec by (auto; apply (off_lt _ _ _ _ d0); auto).
  now rewrite (rec_assign2_block _ _ _ _ _ _ _ d0).
Qed.
Lemma sf_slice H h h' k : (k < length ms)%nat -> vthrough (size fl_nhist ms) H h h' ->
  vthrough (fl_nhist (m_ k)) (fun y => slice (off_ k) (H y)) (slice (off_ k) h) (slice (off_ k) h').
Proof. intros Hk V j Hj. apply (V (off_ k + j)%nat). pose proof (off_block fl_nhist ms k d0 Hk). lia. Qed.
Lemma sf_agree h h' k : (k < length ms)%nat -> agree (size fl_nhist ms) h h' ->
  agree (fl_nhist (m_ k)) (slice (off_ k) h) (slice (off_ k) h').
Proof. intros Hk V j Hj. apply (V (off_ k + j)%nat). pose proof (off_block fl_nhist ms k d0 Hk). lia. Qed.

Lemma super_rule_exact s h t T e :
  (forall k, (k < length ms)%nat -> flow_exact (m_ k) s (slice (off_ k) h) t T e) ->
  flow_exact (super_rule ms) s h t T e.
Proof.
  intros X S H E s' h' e' HS HH HE C. rewrite sf_nhist in *. split.
  - cbn [super_rule fl_rate fl_ds fl_dh fl_de].
    apply D_ext with (f := fun y => sum (length ms) (fun k => fl_rate (m_ k) (S y) (slice (off_ k) (H y)) t T (E y))).
    { intros y. now rewrite sf_add. }
    eapply D_eq.
    + apply (D_sum (length ms) (fun k y => fl_rate (m_ k) (S y) (slice (off_ k) (H y)) t T (E y)) 0
        (fun k => fl_ds (m_ k) s (slice (off_ k) h) t T e * s' +
           sum (fl_nhist (m_ k)) (fun j => fl_dh (m_ k) s (slice (off_ k) h) t T e j * slice (off_ k) h' j) +
           fl_de (m_ k) s (slice (off_ k) h) t T e * e')).
      intros k Hk. exact (proj1 (X k Hk S _ E s' _ e' HS (sf_slice H h h' k Hk HH) HE C)).
    + rewrite !sum_plus, !sum_scal_r, !sf_add. f_equal. f_equal.
      rewrite (sum_ext (size fl_nhist ms) _ (fun j => rec_assign fl_nhist (fun o m => fl_dh m s (slice o h) t T e) 0 ms j * h' (0 + j)%nat)).
      2:{ intros j Hj. now rewrite loop_assign_rec. }
      rewrite (sum_blocks fl_nhist _ h' d0 ms 0). reflexivity.
  - intros i Hi. destruct (block_decomp fl_nhist ms d0 i Hi) as (k & i' & Hk & Hi' & ->).
    cbn [super_rule fl_hrate fl_hds fl_hdh fl_hde].
    apply D_ext with (f := fun y => fl_hrate (m_ k) (S y) (slice (off_ k) (H y)) t T (E y) i').
    { intros y. now rewrite sf_block. }
    rewrite !sf_block by auto.
    rewrite (sum_ext _ _ (fun j => if (off_ k <=? j) && (j <? off_ k + fl_nhist (m_ k)) then
        fl_hdh (m_ k) s (slice (off_ k) h) t T e i' (j - off_ k)%nat * h' j else 0)).
    2:{ intros j Hj. rewrite sf_block2 by auto. destruct (_ && _); ring. }
    rewrite sum_block by (now apply off_block).
    rewrite (sum_ext _ _ (fun j => fl_hdh (m_ k) s (slice (off_ k) h) t T e i' j * slice (off_ k) h' j)).
    2:{ intros j Hj. unfold slice at 2. do 2 f_equal. lia. }
    exact (proj2 (X k Hk S _ E s' _ e' HS (sf_slice H h h' k Hk HH) HE C) i' Hi').
Qed.
Lemma super_rule_wf : (forall k, (k < length ms)%nat -> fl_wf (m_ k)) -> fl_wf (super_rule ms).
Proof.
  intros W s h h' t T e A. rewrite sf_nhist in *. cbn [super_rule fl_rate fl_hrate]. split.
  - rewrite !sf_add. apply sum_ext. intros k Hk. apply (W k Hk). now apply sf_agree.
  - intros i Hi. destruct (block_decomp fl_nhist ms d0 i Hi) as (k & i' & Hk & Hi' & ->). rewrite !sf_block by auto.
    apply (W k Hk); auto. now apply sf_agree.
Qed.
End SuperFlow.

(** Rate independent wrapper *)
Lemma ri_scale_D lmbda eps_ref E e e' : through E e e' -> e <> 0 \/ e' = 0 ->
  D (fun y => ri_scale lmbda eps_ref (E y)) 0 (ri_dscale lmbda eps_ref e * e') /\
  ri_scale lmbda eps_ref (E 0) = ri_scale lmbda eps_ref e.
Proof.
  intros [E0 E1] C. unfold ri_scale. split; [|now rewrite E0]. eapply D_eq.
  - apply D_plus; [apply D_const|]. apply D_div_c, D_scal, D_Rabs; [exact E1|]. now rewrite E0.
  - rewrite E0. unfold ri_dscale, Rdiv. ring.
Qed.
Lemma ri_exact base lmbda eps_ref s h t T e : fl_wf base -> flow_exact base s h t T e ->
  flow_exact (ri_rule base lmbda eps_ref) s h t T e.
Proof.
  intros W X S H E s' h' e' HS HH HE C. cbn [ri_rule fl_nhist fl_rate fl_ds fl_dh fl_de fl_hrate fl_hds fl_hdh fl_hde] in *.
  destruct (ri_scale_D lmbda eps_ref E e e' HE C) as [SD S0]. destruct (X S H E s' h' e' HS HH HE C) as [X1 X2].
  destruct (W s (H 0) h t T e (vthrough_0 _ _ _ _ HH)) as [W1 W2].
  split.
  - eapply D_eq; [apply D_mult; [exact SD|exact X1]|]. cbv beta. rewrite S0. destruct HS as [-> _], HE as [-> _]. rewrite W1.
    rewrite (sum_ext _ (fun j => _ * _ * _) (fun j => ri_scale lmbda eps_ref e * (fl_dh base s h t T e j * h' j))) by (intros; ring).
    rewrite sum_scal. ring.
  - intros i Hi. eapply D_eq; [apply D_mult; [exact SD|exact (X2 i Hi)]|]. cbv beta. rewrite S0. destruct HS as [-> _], HE as [-> _]. rewrite (W2 i Hi).
    rewrite (sum_ext _ (fun j => _ * _ * _) (fun j => ri_scale lmbda eps_ref e * (fl_hdh base s h t T e i j * h' j))) by (intros; ring).
    rewrite sum_scal. ring.
Qed.
Lemma ri_wf base lmbda eps_ref : fl_wf base -> fl_wf (ri_rule base lmbda eps_ref).
Proof.
  intros W s h h' t T e A. destruct (W s h h' t T e A) as [W1 W2]. cbn [ri_rule fl_rate fl_hrate fl_nhist]. split; [now rewrite W1|].
  intros i Hi. now rewrite (W2 i Hi).
Qed.

(** Kocks-Mecking *)
Lemma km_g_D k mu b eps0 eps T E e e' : 0 < eps -> 0 < eps0 -> through E e e' -> e <> 0 \/ e' = 0 ->
  D (fun y => km_g k mu b eps0 eps T (E y)) 0 (soft_dg mu b k eps T e * e') /\ km_g k mu b eps0 eps T (E 0) = km_g k mu b eps0 eps T e.
Proof.
  intros He H0 [E0 E1] C. split; [|now rewrite E0]. unfold km_g. pose proof (Rabs_pos e) as Pe.
  eapply D_eq.
  - apply D_scal. apply D_ln.
    + rewrite E0. apply Rdiv_lt_0_compat; lra.
    + apply D_div; [rewrite E0; lra|apply D_const|apply D_plus; [apply D_Rabs; [exact E1|now rewrite E0]|apply D_const]].
  - cbv beta. rewrite E0. unfold soft_dg. set (a := k * T / _). field. lra.
Qed.
Lemma km_g_antitone k mu b eps0 eps T e e' : 0 <= k * T / (tp_value mu T * b ^ 3) -> 0 < eps -> 0 < eps0 ->
  Rabs e <= Rabs e' -> km_g k mu b eps0 eps T e' <= km_g k mu b eps0 eps T e.
Proof.
  intros Hc He H0 Hle. unfold km_g. apply Rmult_le_compat_l; auto. pose proof (Rabs_pos e).
  assert (L : eps0 / (Rabs e' + eps) <= eps0 / (Rabs e + eps)).
  { unfold Rdiv. apply Rmult_le_compat_l; [lra|]. apply Rinv_le_contravar; lra. }
  destruct L as [L|L]; [|rewrite L; lra]. left. apply ln_increasing; [apply Rdiv_lt_0_compat; lra|exact L].
Qed.
Lemma km_second_true g0 mu b eps0 k eps sc T e : km_second g0 mu b eps0 k eps sc T e = true <-> sc g0 < km_g k mu b eps0 eps T e.
Proof. unfold km_second. destruct (Rlt_dec _ _); split; auto; discriminate. Qed.

Lemma km_exact m1 m2 g0 mu b eps0 k eps sc s h t T e : 0 < eps -> 0 < eps0 -> fl_nhist m1 = fl_nhist m2 ->
  km_g k mu b eps0 eps T e <> sc g0 ->
  (if km_second g0 mu b eps0 k eps sc T e then flow_exact m2 s h t T e else flow_exact m1 s h t T e) ->
  flow_exact (km_rule m1 m2 g0 mu b eps0 k eps sc) s h t T e.
Proof.
  intros He H0 N NE X S H E s' h' e' HS HH HE C.
  destruct (km_g_D k mu b eps0 eps T E e e' He H0 HE C) as [GD G0].
  assert (L : exists d, 0 < d /\ forall y, Rabs (y - 0) < d -> km_second g0 mu b eps0 k eps sc T (E y) = km_second g0 mu b eps0 k eps sc T e).
  { destruct (Rlt_dec (sc g0) (km_g k mu b eps0 eps T e)) as [P|P].
    - destruct (D_near_pos (fun y => km_g k mu b eps0 eps T (E y) - sc g0) 0 (soft_dg mu b k eps T e * e' - 0)) as (d & Hd & Hy).
      + apply D_minus; [exact GD|apply D_const].
      + cbv beta. rewrite G0. lra.
      + exists d. split; auto. intros y Y. specialize (Hy y Y). unfold km_second. destruct (Rlt_dec _ _), (Rlt_dec _ _); auto; lra.
    - destruct (D_near_neg (fun y => km_g k mu b eps0 eps T (E y) - sc g0) 0 (soft_dg mu b k eps T e * e' - 0)) as (d & Hd & Hy).
      + apply D_minus; [exact GD|apply D_const].
      + cbv beta. rewrite G0. lra.
      + exists d. split; auto. intros y Y. specialize (Hy y Y). unfold km_second. destruct (Rlt_dec _ _), (Rlt_dec _ _); auto; lra. }
  destruct L as (d & Hd & Hy). cbn [km_rule fl_nhist fl_rate fl_ds fl_dh fl_de fl_hrate fl_hds fl_hdh fl_hde] in *. unfold km_switch in *.
  destruct (km_second g0 mu b eps0 k eps sc T e).
  - rewrite N in *. destruct (X S H E s' h' e' HS HH HE C) as [X1 X2]. split.
    + eapply D_ext_loc; [exact Hd| |exact X1]. intros y Y. cbv beta. now rewrite (Hy y Y).
    + intros i Hi. eapply D_ext_loc; [exact Hd| |exact (X2 i Hi)]. intros y Y. cbv beta. now rewrite (Hy y Y).
  - destruct (X S H E s' h' e' HS HH HE C) as [X1 X2]. split.
    + eapply D_ext_loc; [exact Hd| |exact X1]. intros y Y. cbv beta. now rewrite (Hy y Y).
    + intros i Hi. eapply D_ext_loc; [exact Hd| |exact (X2 i Hi)]. intros y Y. cbv beta. now rewrite (Hy y Y).
Qed.

(** tanh *)
Lemma cosh_pos x : 0 < cosh x.
Proof. unfold cosh. pose proof (exp_pos x). pose proof (exp_pos (- x)). lra. Qed.
Lemma cosh_sinh x : cosh x * cosh x - sinh x * sinh x = 1.
Proof.
  unfold cosh, sinh. assert (E : exp x * exp (- x) = 1) by (rewrite <- exp_plus, Rplus_opp_r; apply exp_0).
  replace (_ - _) with (exp x * exp (- x)) by field. exact E.
Qed.
Lemma D_tanh x : D tanh x (/ (cosh x) ^ 2).
Proof.
  pose proof (cosh_pos x). unfold tanh. eapply D_eq; [apply D_div; [lra|apply derivable_pt_lim_sinh|apply derivable_pt_lim_cosh]|].
  replace (cosh x * cosh x - sinh x * sinh x) with 1 by (symmetry; apply cosh_sinh). field. lra.
Qed.
Lemma tanh_bound x : -1 < tanh x < 1.
Proof.
  unfold tanh. pose proof (cosh_pos x) as P. pose proof (exp_pos x). pose proof (exp_pos (- x)).
  split; [apply Rmult_lt_reg_r with (cosh x)|apply Rmult_lt_reg_r with (cosh x)]; auto;
  unfold Rdiv; rewrite Rmult_assoc, Rinv_l, Rmult_1_r by lra; unfold cosh, sinh; lra.
Qed.
Lemma tanh_0 : tanh 0 = 0.
Proof. unfold tanh. rewrite sinh_0. unfold Rdiv. ring. Qed.
Lemma tanh_lt x y : x < y -> tanh x < tanh y.
Proof.
  intros L. unfold tanh. pose proof (cosh_pos x) as Px. pose proof (cosh_pos y) as Py.
  apply Rmult_lt_reg_r with (cosh x * cosh y); [nra|].
  replace (sinh x / cosh x * (cosh x * cosh y)) with (sinh x * cosh y) by (field; lra).
  replace (sinh y / cosh y * (cosh x * cosh y)) with (sinh y * cosh x) by (field; lra).
  assert (Q : sinh y * cosh x - sinh x * cosh y = sinh (y - x)).
  { unfold sinh, cosh. replace (y - x) with (y + - x) by ring. rewrite Ropp_plus_distr, Ropp_involutive, !exp_plus. field. }
  assert (0 < sinh (y - x)); [|lra]. unfold sinh. assert (exp (- (y - x)) < exp (y - x)) by (apply exp_increasing; lra). lra.
Qed.

Section SoftFacts.
Variables (m1 m2 : flowrule) (g0 : R) (mu : tparam) (b eps0 k sf eps : R) (sc : R -> R).
Notation g T e := (km_g k mu b eps0 eps T e).
Notation f T e := (soft_f g0 mu b eps0 k sf eps sc T e).
Lemma soft_f_bound T e : 0 < f T e < 1.
Proof. unfold soft_f. pose proof (tanh_bound (sf * (g T e - sc g0))). lra. Qed.
Lemma soft_f_half T e : g T e = sc g0 -> f T e = 1 / 2.
Proof. intros H. unfold soft_f. rewrite H, Rminus_diag_eq, Rmult_0_r, tanh_0 by auto. field. Qed.
Lemma soft_f_mono T e T' e' : 0 < sf -> g T e < g T' e' -> f T e < f T' e'.
Proof.
  intros Hs L. unfold soft_f. assert (tanh (sf * (g T e - sc g0)) < tanh (sf * (g T' e' - sc g0))); [|lra].
  apply tanh_lt, Rmult_lt_compat_l; lra.
Qed.
Lemma soft_f_D T E e e' : 0 < eps -> 0 < eps0 -> through E e e' -> e <> 0 \/ e' = 0 ->
  D (fun y => f T (E y)) 0 (soft_df g0 mu b eps0 k sf eps sc T e * e').
Proof.
  intros He H0 HE C. destruct (km_g_D k mu b eps0 eps T E e e' He H0 HE C) as [GD G0]. unfold soft_f.
  eapply D_eq.
  - apply D_div_c, D_plus; [|apply D_const]. apply (D_comp tanh); [|apply D_tanh].
    apply D_scal, D_minus; [exact GD|apply D_const].
  - cbv beta. rewrite G0. unfold soft_df. pose proof (cosh_pos (sf * (g T e - sc g0))). field. lra.
Qed.
Lemma soft_exact s h t T e : 0 < eps -> 0 < eps0 -> fl_nhist m1 = fl_nhist m2 -> fl_wf m1 -> fl_wf m2 ->
  flow_exact m1 s h t T e -> flow_exact m2 s h t T e ->
  flow_exact (soft_rule m1 m2 g0 mu b eps0 k sf eps sc) s h t T e.
Proof.
  intros He H0 N W1 W2 X1 X2 S H E s' h' e' HS HH HE C.
  pose proof (soft_f_D T E e e' He H0 HE C) as FD.
  cbn [soft_rule fl_nhist fl_rate fl_ds fl_dh fl_de fl_hrate fl_hds fl_hdh fl_hde] in *.
  pose proof HH as HH2. rewrite N in HH2.
  destruct (X1 S H E s' h' e' HS HH HE C) as [A1 B1]. destruct (X2 S H E s' h' e' HS HH2 HE C) as [A2 B2].
  destruct (W1 s (H 0) h t T e (vthrough_0 _ _ _ _ HH)) as [V1 U1]. destruct (W2 s (H 0) h t T e (vthrough_0 _ _ _ _ HH2)) as [V2 U2].
  rewrite <- N in *. unfold blend. destruct HS as [S0 S1], HE as [E0 E1].
  split.
  - eapply D_eq.
    + apply D_plus; apply D_mult; [apply D_minus; [apply D_const|exact FD]|exact A1|exact FD|exact A2].
    + cbv beta. rewrite S0, E0, V1, V2.
      rewrite (sum_ext _ (fun j => (_ + _) * _) (fun j => (1 - f T e) * (fl_dh m1 s h t T e j * h' j) + f T e * (fl_dh m2 s h t T e j * h' j))) by (intros; ring).
      rewrite sum_plus, !sum_scal. ring.
  - intros i Hi. eapply D_eq.
    + apply D_plus; apply D_mult; [apply D_minus; [apply D_const|exact FD]|exact (B1 i Hi)|exact FD|exact (B2 i Hi)].
    + cbv beta. rewrite S0, E0, (U1 i Hi), (U2 i Hi).
      rewrite (sum_ext _ (fun j => (_ + _) * _) (fun j => (1 - f T e) * (fl_hdh m1 s h t T e i j * h' j) + f T e * (fl_hdh m2 s h t T e i j * h' j))) by (intros; ring).
      rewrite sum_plus, !sum_scal. ring.
Qed.
Lemma soft_wf : fl_nhist m1 = fl_nhist m2 -> fl_wf m1 -> fl_wf m2 -> fl_wf (soft_rule m1 m2 g0 mu b eps0 k sf eps sc).
Proof.
  intros N W1 W2 s h h' t T e A. cbn [soft_rule fl_nhist] in *. pose proof A as A2. rewrite N in A2.
  destruct (W1 s h h' t T e A) as [V1 U1]. destruct (W2 s h h' t T e A2) as [V2 U2]. rewrite <- N in *.
  cbn [soft_rule fl_rate fl_hrate]. split; [now rewrite V1, V2|]. intros i Hi. now rewrite (U1 i Hi), (U2 i Hi).
Qed.
Lemma km_wf : fl_nhist m1 = fl_nhist m2 -> fl_wf m1 -> fl_wf m2 -> fl_wf (km_rule m1 m2 g0 mu b eps0 k eps sc).
Proof.
  intros N W1 W2 s h h' t T e A. cbn [km_rule fl_nhist] in *. pose proof A as A2. rewrite N in A2.
  destruct (W1 s h h' t T e A) as [V1 U1]. destruct (W2 s h h' t T e A2) as [V2 U2]. rewrite <- N in *.
  cbn [km_rule fl_rate fl_hrate]. unfold km_switch. destruct (km_second _ _ _ _ _ _ _ _ _); auto.
Qed.
End SoftFacts.

(** Well-formedness of the hardening models. *)
Lemma wf1 (m : hardening) : hd_nhist m = 1%nat -> (forall h h', h 0%nat = h' 0%nat -> hd_value m h = hd_value m h') ->
  (forall h h' s t ep T e, h 0%nat = h' 0%nat -> hd_rate m s h t ep T e 0%nat = hd_rate m s h' t ep T e 0%nat) -> hd_wf m.
Proof.
  intros N V W h h' A. rewrite N in *. assert (E : h 0%nat = h' 0%nat) by (apply A; lia). split; [auto|].
  intros s t ep T e i Hi. replace i with 0%nat by lia. auto.
Qed.
Lemma voce_wf Rs d : hd_wf (voce Rs d).
Proof. apply wf1; simpl; auto. intros. now rewrite H. Qed.
Lemma theta0voce_wf tau theta : hd_wf (theta0voce tau theta).
Proof. apply wf1; simpl; auto. intros. now rewrite H. Qed.
Lemma theta0recovery_wf tau theta R0 r1 r2 : hd_wf (theta0recovery tau theta R0 r1 r2).
Proof. apply wf1; simpl; auto. intros. now rewrite H. Qed.
Lemma fa_wf C g b r : hd_wf (fa C g b r).
Proof. apply wf1; simpl; auto. intros. now rewrite H. Qed.
Lemma fan_wf C g : hd_wf (fa_norecovery C g).
Proof. apply wf1; simpl; auto. intros. now rewrite H. Qed.
Lemma nokin_wf : hd_wf nokin.
Proof. intros h h' A. split; [reflexivity|]. intros s t ep T e i Hi. simpl in Hi. lia. Qed.
Lemma chaboche_wf n C g : hd_wf (chaboche n C g).
Proof.
  intros h h' A. cbn [chaboche hd_nhist hd_value hd_rate] in *. split; [now apply sum_ext|].
  intros s t ep T e i Hi. now rewrite (A i Hi).
Qed.
Lemma chaboche_recovery_wf n C g b r : hd_wf (chaboche_recovery n C g b r).
Proof.
  intros h h' A. cbn [chaboche_recovery hd_nhist hd_value hd_rate] in *. split; [now apply sum_ext|].
  intros s t ep T e i Hi. now rewrite (A i Hi).
Qed.
Lemma superimposed_wf ms d0 : (forall k, (k < length ms)%nat -> hd_wf (nth k ms d0)) -> hd_wf (superimposed ms).
Proof.
  intros W h h' A. rewrite super_nhist in *.
  assert (AS : forall k, (k < length ms)%nat -> agree (hd_nhist (nth k ms d0)) (slice (off hd_nhist ms k) h) (slice (off hd_nhist ms k) h')).
  { intros k Hk j Hj. apply (A (off hd_nhist ms k + j)%nat). pose proof (off_block hd_nhist ms k d0 Hk). lia. }
  split.
  - rewrite !(super_value_sum ms d0). apply sum_ext. intros k Hk. now apply (W k Hk), AS.
  - intros s t ep T e i Hi. destruct (block_decomp hd_nhist ms d0 i Hi) as (k & i' & Hk & Hi' & ->).
    cbn [superimposed hd_rate]. rewrite !(super_block ms d0) by auto. now apply (W k Hk); [apply AS|].
Qed.

(** Perfect viscoplasticity: shape *)
Lemma spow_odd n x : spow n (- x) = - spow n x.
Proof.
  unfold spow. rewrite Rabs_Ropp. destruct (Rtotal_order x 0) as [N|[->|P]].
  - rewrite (tsign_neg x), (tsign_pos (- x)) by lra. ring.
  - rewrite Ropp_0, tsign_0. ring.
  - rewrite (tsign_pos x), (tsign_neg (- x)) by lra. ring.
Qed.
Lemma spow_pos n x : 0 < x -> spow n x = Rpower x n.
Proof. intros H. unfold spow. rewrite Rabs_right, tsign_pos, pow0_pos by lra. ring. Qed.
Lemma spow_gt0 n x : 0 < x -> 0 < spow n x.
Proof. intros H. rewrite spow_pos by auto. apply exp_pos. Qed.
Lemma spow_lt n x y : 0 < n -> x < y -> spow n x < spow n y.
Proof.
  intros Hn L.
  assert (P : forall a b, 0 < a -> a < b -> spow n a < spow n b).
  { intros a b Ha Hab. rewrite !spow_pos by lra. unfold Rpower. apply exp_increasing, Rmult_lt_compat_l; auto. apply ln_increasing; auto. }
  assert (Z : forall a b, 0 <= a -> a < b -> spow n a < spow n b).
  { intros a b [Ha| <-] Hab; [now apply P|]. rewrite spow_0. now apply spow_gt0. }
  destruct (Rle_lt_dec 0 x); [now apply Z|]. destruct (Rle_lt_dec y 0).
  - assert (Q : spow n (- y) < spow n (- x)) by (apply Z; lra). rewrite !spow_odd in Q. lra.
  - assert (0 < spow n y) by now apply spow_gt0. assert (Q : 0 < spow n (- x)) by (apply spow_gt0; lra). rewrite spow_odd in Q. lra.
Qed.

(** Elastic range *)
Lemma ik_zero n eta s0 iso kin s h t T e : 0 < n T -> 0 < eta T ->
  Rabs (s - ik_kin iso kin h) <= s0 T + ik_iso iso h -> ik_rate n eta s0 iso kin s h t T e = 0.
Proof.
  intros Hn He L. unfold ik_rate. rewrite macaulay_mac, mac_neg, pow0_0; [ring|lra|].
  assert (0 < / eta T) by now apply Rinv_0_lt_compat. unfold Rdiv. nra.
Qed.
Lemma ik_flows n eta s0 iso kin s h t T e : 0 < n T -> 0 < eta T ->
  s0 T + ik_iso iso h < Rabs (s - ik_kin iso kin h) -> ik_rate n eta s0 iso kin s h t T e =
  Rpower ((Rabs (s - ik_kin iso kin h) - s0 T - ik_iso iso h) / eta T) (n T) * tsign (s - ik_kin iso kin h).
Proof.
  intros Hn He L. unfold ik_rate.
  assert (0 < (Rabs (s - ik_kin iso kin h) - s0 T - ik_iso iso h) / eta T) by (apply Rdiv_lt_0_compat; lra).
  rewrite macaulay_mac, mac_pos, pow0_pos by lra. reflexivity.
Qed.
