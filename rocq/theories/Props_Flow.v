(** Properties C40-C46, C81, C82: flowrules.py. *)
From Coq Require Import Reals Lra Lia List Arith.
From Verif Require Import Torch Deriv Slices Hardening Temperature Flow.
Import ListNotations.
Local Open Scope R_scope.

(** C40 *)
Theorem C40_perfect_value n eta s h t T e : 0 < eta T ->
  (0 < s -> fl_rate (perfect n eta) s h t T e = Rpower (s / eta T) (n T)) /\
  (s = 0 -> fl_rate (perfect n eta) s h t T e = 0) /\
  (s < 0 -> fl_rate (perfect n eta) s h t T e = - Rpower (- s / eta T) (n T)).
Proof.
  intros He. repeat split; intros Hs; rewrite perfect_spow by auto.
  - apply spow_pos. now apply Rdiv_lt_0_compat.
  - subst. unfold Rdiv. rewrite Rmult_0_l. apply spow_0.
  - replace (s / eta T) with (- (- s / eta T)) by (field; lra). rewrite spow_odd, spow_pos; auto. apply Rdiv_lt_0_compat; lra.
Qed.
Print Assumptions C40_perfect_value.
(** [flow_exact] (Flow.v): along every differentiable curve of stress, history
    and strain rate the flow rate and the history rate change as the returned
    derivatives predict.  Zero stress is included. *)
Theorem C40_perfect_derivatives n eta s h t T e : 0 < eta T -> 1 <= n T -> flow_exact (perfect n eta) s h t T e.
Proof. intros. apply perfect_exact; auto. Qed.
Print Assumptions C40_perfect_derivatives.
Theorem C40_perfect_shape n eta h t T e : 0 < eta T -> 0 < n T ->
  (forall s, fl_rate (perfect n eta) (- s) h t T e = - fl_rate (perfect n eta) s h t T e) /\
  (forall s s', s < s' -> fl_rate (perfect n eta) s h t T e < fl_rate (perfect n eta) s' h t T e) /\
  (forall s, 0 <= fl_rate (perfect n eta) s h t T e * s) /\
  (forall s, s <> 0 -> 0 < fl_rate (perfect n eta) s h t T e * s).
Proof.
  intros He Hn. assert (I : 0 < / eta T) by now apply Rinv_0_lt_compat.
  assert (M : forall s s', s < s' -> fl_rate (perfect n eta) s h t T e < fl_rate (perfect n eta) s' h t T e).
  { intros s s' L. rewrite !perfect_spow by auto. apply spow_lt; auto. unfold Rdiv. nra. }
  assert (Z : fl_rate (perfect n eta) 0 h t T e = 0) by (apply C40_perfect_value; auto).
  assert (S : forall s, s <> 0 -> 0 < fl_rate (perfect n eta) s h t T e * s).
  { intros s Hs. destruct (Rdichotomy _ _ Hs) as [L|L]; pose proof (M _ _ L); nra. }
  repeat split; auto.
  - intros s. rewrite !perfect_spow by auto. replace (- s / eta T) with (- (s / eta T)) by (field; lra). apply spow_odd.
  - intros s. destruct (Req_dec s 0) as [->|Hs]; [rewrite Rmult_0_r; lra|]. specialize (S s Hs). lra.
Qed.
Print Assumptions C40_perfect_shape.
Example C40_example : fl_rate (perfect (fun _ => 2) (fun _ => 2)) 4 vzero 0 300 1 = 4.
Proof.
  pose proof (C40_perfect_value (fun _ => 2) (fun _ => 2) 4 vzero 0 300 1) as [H _]; [lra|]. rewrite H by lra. cbv beta.
  replace 2 with (INR 2) at 2 by (simpl; lra). rewrite Rpower_pow by lra. field.
Qed.

(** C41: the hardening models' own derivatives are C47 and C48.  The exponent must exceed one, or the point must be strictly outside the yield surface
    (C121: neither can be dropped). *)
Theorem C41_isokin_derivatives n eta s0 iso kin s h t T e :
  hd_wf iso -> hd_wf kin -> 1 < n T \/ 0 < Rabs (s - hd_value kin (slice (hd_nhist iso) h)) - s0 T - hd_value iso h -> 0 < eta T ->
  s <> hd_value kin (slice (hd_nhist iso) h) \/ 0 <= s0 T + hd_value iso h ->
  value_exact iso h -> value_exact kin (slice (hd_nhist iso) h) ->
  (forall ep, rate_exact iso s h t ep T e) -> (forall ep, rate_exact kin s (slice (hd_nhist iso) h) t ep T e) ->
  flow_exact (isokin n eta s0 iso kin) s h t T e.
Proof.
  intros W1 W2 Hn He Hy V1 V2 R1 R2. apply isokin_exact; auto.
  - intros y y' A. now apply W1.
  - intros y y' A. now apply W2.
Qed.
Print Assumptions C41_isokin_derivatives.
(** The combinations shipped with the library need no hypothesis on the models. *)
Theorem C41_voce_chaboche_derivatives n eta s0 Rs d nb C g s h t T e : 1 < n T -> 0 < eta T -> 0 <= s0 T + h 0%nat ->
  flow_exact (isokin n eta s0 (voce Rs d) (chaboche nb C g)) s h t T e.
Proof.
  intros Hn He Hy. apply C41_isokin_derivatives; auto.
  - apply voce_wf.
  - apply chaboche_wf.
  - apply voce_value.
  - apply chaboche_value.
  - intros. apply voce_rate.
  - intros. apply chaboche_rate.
Qed.
Print Assumptions C41_voce_chaboche_derivatives.
(** Example: at a point exactly on the yield surface. *)
Example C41_example : flow_exact (isokin (fun _ => 2) (fun _ => 1) (fun _ => 3) (voce (fun _ => 1) (fun _ => 1)) (chaboche 2 (fun _ _ => 1) (fun _ _ => 1)))
  7 (fun _ => 1) 0 300 1 /\
  Rabs (7 - hd_value (chaboche 2 (fun _ _ => 1) (fun _ _ => 1)) (slice 1 (fun _ => 1))) = 3 + 1 + 1.
Proof.
  split; [apply C41_voce_chaboche_derivatives; lra|]. simpl. unfold slice. rewrite Rabs_right; lra.
Qed.

(** C42.  [iso]'s value is the hardening k, [kin]'s the backstress x. *)
Theorem C42_elastic_range n eta s0 iso kin s h t T e : 0 < n T -> 0 < eta T -> 0 <= s0 T + hd_value iso h ->
  (fl_rate (isokin n eta s0 iso kin) s h t T e = 0 <->
   Rabs (s - hd_value kin (slice (hd_nhist iso) h)) <= s0 T + hd_value iso h).
Proof.
  intros Hn He Hy. cbn [isokin fl_rate]. split.
  - intros Z. apply Rnot_lt_le. intros L. rewrite (ik_flows n eta s0 iso kin s h t T e Hn He L) in Z.
    set (x := s - ik_kin iso kin h) in *. set (u := (Rabs x - s0 T - ik_iso iso h) / eta T) in *.
    assert (0 < Rpower u (n T)) by apply exp_pos.
    assert (X0 : x <> 0). { intros X. fold (ik_kin iso kin h) in L. fold x in L. rewrite X, Rabs_R0 in L. lra. }
    destruct (Rdichotomy _ _ X0); [rewrite tsign_neg in Z by auto|rewrite tsign_pos in Z by auto]; lra.
  - intros L. now apply ik_zero.
Qed.
Print Assumptions C42_elastic_range.
Theorem C42_flow_outside n eta s0 iso kin s h t T e : 0 < n T -> 0 < eta T ->
  s0 T + hd_value iso h < Rabs (s - hd_value kin (slice (hd_nhist iso) h)) ->
  fl_rate (isokin n eta s0 iso kin) s h t T e =
  Rpower ((Rabs (s - hd_value kin (slice (hd_nhist iso) h)) - s0 T - hd_value iso h) / eta T) (n T)
  * tsign (s - hd_value kin (slice (hd_nhist iso) h)).
Proof. intros. now apply ik_flows. Qed.
Print Assumptions C42_flow_outside.
(** Flow never opposes the overstress, whatever the sign of s0 + k. *)
Theorem C42_direction n eta s0 iso kin s h t T e :
  0 <= fl_rate (isokin n eta s0 iso kin) s h t T e * (s - hd_value kin (slice (hd_nhist iso) h)).
Proof.
  cbn [isokin fl_rate]. unfold ik_rate. fold (ik_kin iso kin h). set (x := s - ik_kin iso kin h).
  set (p := pow0 _ _). assert (0 <= p) by apply pow0_ge0. destruct (Rtotal_order x 0) as [N|[->|P]].
  - rewrite tsign_neg by auto. nra.
  - lra.
  - rewrite tsign_pos by auto. nra.
Qed.
Print Assumptions C42_direction.
Example C42_example : let m := isokin (fun _ => 1) (fun _ => 2) (fun _ => 3) (voce (fun _ => 1) (fun _ => 1)) nokin in
  fl_rate m 4 (fun _ => 1) 0 0 1 = 0 /\ fl_rate m (-8) (fun _ => 1) 0 0 1 = -2.
Proof.
  cbv zeta. split.
  - apply C42_elastic_range; try lra; simpl; try lra. rewrite Rminus_0_r, Rabs_right; lra.
  - rewrite C42_flow_outside; try lra; simpl; rewrite ?Rminus_0_r, ?(Rabs_left (-8)) by lra; [|lra].
    rewrite tsign_neg by lra. replace ((- -8 - 3 - 1) / 2) with 2 by field. rewrite Rpower_1; lra.
Qed.

(** C43 *)
Theorem C43_superimposed_blocks ms d0 :
  fl_nhist (super_rule ms) = list_sum (map fl_nhist ms) /\
  (forall s h t T e, fl_rate (super_rule ms) s h t T e =
     sum (length ms) (fun k => fl_rate (nth k ms d0) s (slice (off fl_nhist ms k) h) t T e)) /\
  (forall s h t T e k i, (k < length ms)%nat -> (i < fl_nhist (nth k ms d0))%nat ->
     fl_hrate (super_rule ms) s h t T e (off fl_nhist ms k + i)%nat
     = fl_hrate (nth k ms d0) s (slice (off fl_nhist ms k) h) t T e i) /\
  (forall s h t T e k i k' j, (k < length ms)%nat -> (i < fl_nhist (nth k ms d0))%nat ->
     (k' < length ms)%nat -> (j < fl_nhist (nth k' ms d0))%nat -> k <> k' ->
     fl_hdh (super_rule ms) s h t T e (off fl_nhist ms k + i)%nat (off fl_nhist ms k' + j)%nat = 0).
Proof.
  split; [apply sf_nhist|]. split; [|split].
  - intros. apply (sf_add ms d0).
  - intros. now apply (sf_block ms d0 (fun o m => fl_hrate m s (slice o h) t T e)).
  - intros s h t T e k i k' j Hk Hi Hk' Hj NE. cbn [super_rule fl_hdh].
    assert (B : forall a b, (a < b)%nat -> (b < length ms)%nat -> (off fl_nhist ms a + fl_nhist (nth a ms d0) <= off fl_nhist ms b)%nat).
    { clear. induction ms as [|m r IH]; intros a b L Lb; simpl in Lb; [lia|]. destruct b; [lia|]. rewrite off_S. destruct a.
      - unfold off at 1. simpl. lia.
      - rewrite off_S. cbn [nth]. specialize (IH a b). lia. }
    rewrite (sf_block2 ms d0); auto; [|now apply (off_lt _ _ _ _ d0)].
    destruct (Nat.leb_spec (off fl_nhist ms k) (off fl_nhist ms k' + j)); [|reflexivity].
    destruct (Nat.ltb_spec (off fl_nhist ms k' + j) (off fl_nhist ms k + fl_nhist (nth k ms d0))); [|reflexivity].
    exfalso. destruct (Nat.lt_trichotomy k k') as [L|[L|L]]; [| |]; [|lia|].
    + specialize (B k k' L Hk'). lia.
    + specialize (B k' k L Hk). lia.
Qed.
Print Assumptions C43_superimposed_blocks.
Theorem C43_superimposed_derivatives ms d0 s h t T e :
  (forall k, (k < length ms)%nat -> flow_exact (nth k ms d0) s (slice (off fl_nhist ms k) h) t T e) ->
  flow_exact (super_rule ms) s h t T e.
Proof. apply super_rule_exact. Qed.
Print Assumptions C43_superimposed_derivatives.
Example C43_example : let ms := [isokin (fun _ => 2) (fun _ => 1) (fun _ => 3) (voce (fun _ => 1) (fun _ => 1)) nokin; perfect (fun _ => 3) (fun _ => 1);
     isokin (fun _ => 2) (fun _ => 1) (fun _ => 3) (voce (fun _ => 1) (fun _ => 1)) (chaboche 2 (fun _ _ => 1) (fun _ _ => 1))] in
  fl_nhist (super_rule ms) = 4%nat /\ flow_exact (super_rule ms) 5 (fun _ => 1) 0 300 1.
Proof.
  cbv zeta. split; [reflexivity|]. apply C43_superimposed_derivatives with (d0 := perfect (fun _ => 1) (fun _ => 1)).
  intros [|[|[|k]]] Hk; simpl in Hk; [| | |lia]; cbn [nth].
  - apply C41_isokin_derivatives; try lra; auto using voce_wf, nokin_wf, voce_value, nokin_value, voce_rate, nokin_rate.
  - apply C40_perfect_derivatives; lra.
  - apply C41_voce_chaboche_derivatives; try lra. unfold slice. lra.
Qed.

(** C44 *)
Theorem C44_lambda_zero base eps_ref s h t T e i j : let w := ri_rule base 0 eps_ref in
  fl_rate w s h t T e = fl_rate base s h t T e /\ fl_ds w s h t T e = fl_ds base s h t T e /\
  fl_dh w s h t T e j = fl_dh base s h t T e j /\ fl_de w s h t T e = fl_de base s h t T e /\
  fl_hrate w s h t T e i = fl_hrate base s h t T e i /\ fl_hdh w s h t T e i j = fl_hdh base s h t T e i j /\
  fl_hds w s h t T e i = fl_hds base s h t T e i /\ fl_hde w s h t T e i = fl_hde base s h t T e i.
Proof.
  cbv zeta. cbn [ri_rule fl_rate fl_ds fl_dh fl_de fl_hrate fl_hdh fl_hds fl_hde]. unfold ri_scale, ri_dscale, Rdiv.
  repeat split; ring.
Qed.
Print Assumptions C44_lambda_zero.
Theorem C44_homogeneous base eps_ref s h t T e c : 0 < c ->
  (forall e', fl_rate base s h t T e' = fl_rate base s h t T e /\ forall i, fl_hrate base s h t T e' i = fl_hrate base s h t T e i) ->
  fl_rate (ri_rule base 1 eps_ref) s h t T (c * e) = c * fl_rate (ri_rule base 1 eps_ref) s h t T e /\
  forall i, fl_hrate (ri_rule base 1 eps_ref) s h t T (c * e) i = c * fl_hrate (ri_rule base 1 eps_ref) s h t T e i.
Proof.
  intros Hc B. cbn [ri_rule fl_rate fl_hrate]. destruct (B (c * e)) as [-> B2].
  assert (Q : ri_scale 1 eps_ref (c * e) = c * ri_scale 1 eps_ref e).
  { unfold ri_scale, Rdiv. rewrite Rabs_mult, (Rabs_right c) by lra. ring. }
  split; [rewrite Q; ring|]. intros i. rewrite B2, Q. ring.
Qed.
Print Assumptions C44_homogeneous.
(** No strain rate, no flow. *)
Theorem C44_rate_independent_at_rest base eps_ref s h t T : fl_rate (ri_rule base 1 eps_ref) s h t T 0 = 0.
Proof. cbn [ri_rule fl_rate]. unfold ri_scale, Rdiv. rewrite Rabs_R0. ring. Qed.
Print Assumptions C44_rate_independent_at_rest.
Theorem C44_derivatives base lmbda eps_ref s h t T e : fl_wf base -> flow_exact base s h t T e ->
  flow_exact (ri_rule base lmbda eps_ref) s h t T e.
Proof. apply ri_exact. Qed.
Print Assumptions C44_derivatives.
Example C44_example : flow_exact (ri_rule (perfect (fun _ => 3) (fun _ => 1)) (1/2) 1) 5 vzero 0 300 2 /\
  fl_rate (ri_rule (perfect (fun _ => 1) (fun _ => 1)) 1 1) 5 vzero 0 300 (3 * 2) = 3 * fl_rate (ri_rule (perfect (fun _ => 1) (fun _ => 1)) 1 1) 5 vzero 0 300 2.
Proof.
  split.
  - apply C44_derivatives; [apply perfect_wf|apply C40_perfect_derivatives; lra].
  - apply C44_homogeneous; [lra|]. split; reflexivity.
Qed.

(** C45: [g] is the activation energy, [sc g0] the (scaled) threshold. *)
Theorem C45_first m1 m2 g0 mu b eps0 k eps sc s h t T e : km_g k mu b eps0 eps T e <= sc g0 ->
  let m := km_rule m1 m2 g0 mu b eps0 k eps sc in
  fl_rate m s h t T e = fl_rate m1 s h t T e /\ fl_ds m s h t T e = fl_ds m1 s h t T e /\
  fl_dh m s h t T e = fl_dh m1 s h t T e /\ fl_de m s h t T e = fl_de m1 s h t T e /\
  fl_hrate m s h t T e = fl_hrate m1 s h t T e /\ fl_hdh m s h t T e = fl_hdh m1 s h t T e /\
  fl_hds m s h t T e = fl_hds m1 s h t T e /\ fl_hde m s h t T e = fl_hde m1 s h t T e.
Proof.
  intros L. cbv zeta. cbn [km_rule fl_rate fl_ds fl_dh fl_de fl_hrate fl_hdh fl_hds fl_hde]. unfold km_switch, km_second.
  destruct (Rlt_dec _ _); [lra|]. repeat split.
Qed.
Print Assumptions C45_first.
Theorem C45_second m1 m2 g0 mu b eps0 k eps sc s h t T e : sc g0 < km_g k mu b eps0 eps T e ->
  let m := km_rule m1 m2 g0 mu b eps0 k eps sc in
  fl_rate m s h t T e = fl_rate m2 s h t T e /\ fl_ds m s h t T e = fl_ds m2 s h t T e /\
  fl_dh m s h t T e = fl_dh m2 s h t T e /\ fl_de m s h t T e = fl_de m2 s h t T e /\
  fl_hrate m s h t T e = fl_hrate m2 s h t T e /\ fl_hdh m s h t T e = fl_hdh m2 s h t T e /\
  fl_hds m s h t T e = fl_hds m2 s h t T e /\ fl_hde m s h t T e = fl_hde m2 s h t T e.
Proof.
  intros L. cbv zeta. cbn [km_rule fl_rate fl_ds fl_dh fl_de fl_hrate fl_hdh fl_hds fl_hde]. unfold km_switch, km_second.
  destruct (Rlt_dec _ _); [|lra]. repeat split.
Qed.
Print Assumptions C45_second.
Theorem C45_rejects m1 m2 g0 mu b eps0 k eps sc :
  (km_init m1 m2 g0 mu b eps0 k eps sc = None <-> fl_nhist m1 <> fl_nhist m2) /\
  forall m, km_init m1 m2 g0 mu b eps0 k eps sc = Some m -> fl_nhist m = fl_nhist m1 /\ fl_nhist m = fl_nhist m2.
Proof.
  unfold km_init. destruct (Nat.eqb_spec (fl_nhist m1) (fl_nhist m2)) as [E|E]; repeat split; try discriminate; try congruence; auto.
  - now inversion H.
  - inversion H. exact E.
Qed.
Print Assumptions C45_rejects.
Theorem C45_faster_stays_first m1 m2 g0 mu b eps0 k eps sc s h t T e e' :
  0 < k -> 0 < T -> 0 < tp_value mu T -> 0 < b -> 0 < eps -> 0 < eps0 -> Rabs e <= Rabs e' ->
  km_g k mu b eps0 eps T e <= sc g0 ->
  fl_rate (km_rule m1 m2 g0 mu b eps0 k eps sc) s h t T e' = fl_rate m1 s h t T e' /\
  fl_hrate (km_rule m1 m2 g0 mu b eps0 k eps sc) s h t T e' = fl_hrate m1 s h t T e'.
Proof.
  intros Hk HT Hm Hb He H0 L G. assert (G' : km_g k mu b eps0 eps T e' <= sc g0).
  { apply Rle_trans with (2 := G). apply km_g_antitone; auto. left. apply Rdiv_lt_0_compat; [nra|].
    apply Rmult_lt_0_compat; auto. now apply pow_lt. }
  destruct (C45_first m1 m2 g0 mu b eps0 k eps sc s h t T e' G') as (A & _ & _ & _ & B & _). auto.
Qed.
Print Assumptions C45_faster_stays_first.
(** Away from the threshold the selected model's exact derivatives are exact for the switch. *)
Theorem C45_derivatives m1 m2 g0 mu b eps0 k eps sc s h t T e : 0 < eps -> 0 < eps0 -> fl_nhist m1 = fl_nhist m2 ->
  km_g k mu b eps0 eps T e <> sc g0 -> flow_exact m1 s h t T e -> flow_exact m2 s h t T e ->
  flow_exact (km_rule m1 m2 g0 mu b eps0 k eps sc) s h t T e.
Proof. intros. apply km_exact; auto. destruct (km_second _ _ _ _ _ _ _ _ _); auto. Qed.
Print Assumptions C45_derivatives.

(** C46 *)
Theorem C46_convex_combination m1 m2 g0 mu b eps0 k sf eps sc T e :
  exists f, 0 < f < 1 /\ (km_g k mu b eps0 eps T e = sc g0 -> f = 1 / 2) /\
  (0 < sf -> sc g0 < km_g k mu b eps0 eps T e -> 1 / 2 < f) /\
  (0 < sf -> km_g k mu b eps0 eps T e < sc g0 -> f < 1 / 2) /\
  forall s h t, let m := soft_rule m1 m2 g0 mu b eps0 k sf eps sc in
    fl_rate m s h t T e = (1 - f) * fl_rate m1 s h t T e + f * fl_rate m2 s h t T e /\
    forall i, fl_hrate m s h t T e i = (1 - f) * fl_hrate m1 s h t T e i + f * fl_hrate m2 s h t T e i.
Proof.
  exists (soft_f g0 mu b eps0 k sf eps sc T e). split; [apply soft_f_bound|]. split; [apply soft_f_half|].
  assert (Z : forall x, 0 < sf -> (0 < x -> 0 < tanh (sf * x)) /\ (x < 0 -> tanh (sf * x) < 0)).
  { intros x Hs. split; intros Hx; rewrite <- tanh_0; apply tanh_lt; nra. }
  split; [|split].
  - intros Hs L. unfold soft_f. destruct (Z (km_g k mu b eps0 eps T e - sc g0) Hs) as [Q _]. specialize (Q ltac:(lra)). lra.
  - intros Hs L. unfold soft_f. destruct (Z (km_g k mu b eps0 eps T e - sc g0) Hs) as [_ Q]. specialize (Q ltac:(lra)). lra.
  - intros s h t. split; reflexivity.
Qed.
Print Assumptions C46_convex_combination.
(** A larger activation energy moves the blend toward the second model. *)
Theorem C46_weight_monotone m1 m2 g0 mu b eps0 k sf eps sc s h t T e T' e' : 0 < sf ->
  km_g k mu b eps0 eps T e < km_g k mu b eps0 eps T' e' ->
  fl_rate m1 s h t T e = 0 -> fl_rate m1 s h t T' e' = 0 -> fl_rate m2 s h t T e = 1 -> fl_rate m2 s h t T' e' = 1 ->
  fl_rate (soft_rule m1 m2 g0 mu b eps0 k sf eps sc) s h t T e < fl_rate (soft_rule m1 m2 g0 mu b eps0 k sf eps sc) s h t T' e'.
Proof.
  intros Hs L A A' B B'. cbn [soft_rule fl_rate]. unfold blend. rewrite A, A', B, B'.
  pose proof (soft_f_mono g0 mu b eps0 k sf eps sc T e T' e' Hs L). lra.
Qed.
Print Assumptions C46_weight_monotone.
Theorem C46_derivatives m1 m2 g0 mu b eps0 k sf eps sc s h t T e :
  0 < eps -> 0 < eps0 -> fl_nhist m1 = fl_nhist m2 -> fl_wf m1 -> fl_wf m2 ->
  flow_exact m1 s h t T e -> flow_exact m2 s h t T e ->
  flow_exact (soft_rule m1 m2 g0 mu b eps0 k sf eps sc) s h t T e.
Proof. apply soft_exact. Qed.
Print Assumptions C46_derivatives.
Theorem C46_rejects m1 m2 g0 mu b eps0 k sf eps sc :
  (soft_init m1 m2 g0 mu b eps0 k sf eps sc = None <-> fl_nhist m1 <> fl_nhist m2).
Proof. unfold soft_init. destruct (Nat.eqb_spec (fl_nhist m1) (fl_nhist m2)) as [E|E]; split; try discriminate; congruence. Qed.
Print Assumptions C46_rejects.
(** Example for C45 and C46: threshold hit exactly at |e| + eps = eps0, g = 0. *)
Example C46_example : let mu := TParam (fun x => x) (fun _ => 1) in
  let a := perfect (fun _ => 3) (fun _ => 1) in let c := ri_rule (perfect (fun _ => 2) (fun _ => 1)) 1 1 in
  flow_exact (soft_rule a c 0 mu 1 2 1 10 1 (fun x => x)) 5 vzero 0 300 1 /\
  flow_exact (km_rule a c 1 mu 1 2 1 1 (fun x => x)) 5 vzero 0 300 1 /\
  km_g 1 mu 1 2 1 300 1 = 0.
Proof.
  cbv zeta. assert (G : km_g 1 (TParam (fun x => x) (fun _ => 1)) 1 2 1 300 1 = 0).
  { unfold km_g. rewrite Rabs_R1. replace (2 / (1 + 1)) with 1 by field. rewrite ln_1. ring. }
  split; [|split; [|exact G]].
  - apply C46_derivatives; try lra; auto using perfect_wf, ri_wf.
    + apply C40_perfect_derivatives; lra.
    + apply C44_derivatives; [apply perfect_wf|apply C40_perfect_derivatives; lra].
  - apply C45_derivatives; try lra; auto.
    + apply C40_perfect_derivatives; lra.
    + apply C44_derivatives; [apply perfect_wf|apply C40_perfect_derivatives; lra].
Qed.

(** C81: the documented evolution law of the backstress has 2/3 C where the
    code has C, so it does not hold. *)
Theorem C81_documented_backstress_rate_refuted :
  ~ (forall C g h t ep T e s, hd_rate (fa_norecovery C g) s h t ep T e 0%nat = 2 / 3 * C T * ep - g T * h 0%nat * Rabs ep).
Proof.
  intros H. specialize (H (fun _ => 1) (fun _ => 0) vzero 0 1 0 0 0). cbn [fa_norecovery hd_rate] in H. lra.
Qed.
Print Assumptions C81_documented_backstress_rate_refuted.
Theorem C81_actual_backstress_rate C g b r s h t ep T e :
  hd_rate (fa_norecovery C g) s h t ep T e 0%nat = C T * ep - g T * h 0%nat * Rabs ep /\
  hd_rate (fa C g b r) s h t ep T e 0%nat = C T * ep - g T * h 0%nat * Rabs ep
    - match b with Some b => b T | None => 0 end * pow0 (Rabs (h 0%nat)) (match r with Some r => r T | None => 1 end - 1) * h 0%nat.
Proof. cbn [fa_norecovery fa hd_rate]. destruct b, r; split; ring. Qed.
Print Assumptions C81_actual_backstress_rate.

(** C82: the activation energy with the scaled modulus mu(T), the one other
    parts of the library use, is not what the regime switch computes. *)
Theorem C82_scaled_modulus_refuted :
  ~ (forall m1 m2 g0 mu b eps0 k eps s h t T e, 0 < tp_forward mu T ->
      k * T / (tp_forward mu T * b ^ 3) * ln (eps0 / (Rabs e + eps)) <= g0 ->
      fl_rate (km_rule m1 m2 g0 mu b eps0 k eps (fun x => x)) s h t T e = fl_rate m1 s h t T e).
Proof.
  intros H. set (mu := TParam (fun x => 2 * x) (fun _ => 1)).
  specialize (H (perfect (fun _ => 1) (fun _ => 1)) (ri_rule (perfect (fun _ => 1) (fun _ => 1)) 1 (1/2)) (ln 2 * (3 / 4)) mu 1 4 1 1 1 vzero 0 1 1).
  unfold tp_forward, forward, mu in H. cbn [tp_scaling tp_value] in H.
  rewrite Rabs_R1 in H. replace (4 / (1 + 1)) with 2 in H by field.
  assert (L : 0 < ln 2) by (rewrite <- ln_1; apply ln_increasing; lra).
  assert (Q : 1 * 1 / (2 * 1 * 1 ^ 3) * ln 2 <= ln 2 * (3 / 4)) by (replace (1 * 1 / (2 * 1 * 1 ^ 3)) with (1/2) by field; lra).
  specialize (H ltac:(lra) Q).
  assert (G : ln 2 * (3 / 4) < km_g 1 mu 1 4 1 1 1).
  { unfold km_g. cbn [tp_value mu]. rewrite Rabs_R1. replace (4 / (1 + 1)) with 2 by field. unfold mu. cbn [tp_value].
    replace (1 * 1 / (1 * 1 ^ 3)) with 1 by field. lra. }
  destruct (C45_second (perfect (fun _ => 1) (fun _ => 1)) (ri_rule (perfect (fun _ => 1) (fun _ => 1)) 1 (1/2)) (ln 2 * (3 / 4)) mu 1 4 1 1 (fun x => x) 1 vzero 0 1 1 G) as [E _].
  unfold mu in E. rewrite E in H. cbn [ri_rule fl_rate perfect] in H. unfold ri_scale in H. rewrite Rabs_R1, tsign_pos in H by lra.
  rewrite pow0_pos in H by lra. assert (0 < Rpower (1 / 1) 1) by apply exp_pos. lra.
Qed.
Print Assumptions C82_scaled_modulus_refuted.
(** With an identity scaling the two agree. *)
Theorem C82_unscaled_modulus m1 m2 g0 v b eps0 k eps s h t T e : let mu := TParam (fun x => x) v in
  k * T / (tp_forward mu T * b ^ 3) * ln (eps0 / (Rabs e + eps)) <= g0 ->
  fl_rate (km_rule m1 m2 g0 mu b eps0 k eps (fun x => x)) s h t T e = fl_rate m1 s h t T e.
Proof. intros mu L. now destruct (C45_first m1 m2 g0 mu b eps0 k eps (fun x => x) s h t T e L) as [E _]. Qed.
Print Assumptions C82_unscaled_modulus.
