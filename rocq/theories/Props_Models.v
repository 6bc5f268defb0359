(** Properties C34-C37, C39, C51, C52, C83: models.py and damage.py. *)
From Coq Require Import Reals Lra Lia List Arith String.
From Verif Require Import Torch Deriv Slices Hardening Flow Damage NewtonModel NewtonProofs Models.
Import ListNotations.
Local Open Scope R_scope.

(** C34.  State [stress, history...]. *)
Theorem C34_rate_form E F t y e T :
  rf_n (inelastic E F) = S (fl_nhist F) /\
  rf_rate (inelastic E F) t y e T 0%nat = E T * (e - fl_rate F (y 0%nat) (fun i => y (S i)) t T e) /\
  (forall i, rf_rate (inelastic E F) t y e T (S i) = fl_hrate F (y 0%nat) (fun i => y (S i)) t T e i).
Proof. split; [reflexivity|]. split; [reflexivity|]. intros i. cbn [inelastic rf_rate]. cbv zeta. change (S i) with (1 + i)%nat. now rewrite cat_r. Qed.
Print Assumptions C34_rate_form.
(** [model_exact] (Models.v): along every differentiable curve of state and
    strain rate each component changes as Jacobian and strain rate derivative
    predict. *)
Theorem C34_jacobians E F t y e T : flow_exact F (y 0%nat) (fun i => y (S i)) t T e -> model_exact (inelastic E F) t y e T.
Proof. apply inelastic_exact. Qed.
Print Assumptions C34_jacobians.
Example C34_example : let F := isokin (fun _ => 2) (fun _ => 1) (fun _ => 3) (voce (fun _ => 1) (fun _ => 1)) (chaboche 2 (fun _ _ => 1) (fun _ _ => 1)) in
  model_exact (inelastic (fun _ => 200) F) 0 (fun _ => 7) 1 300 /\ rf_n (inelastic (fun _ => 200) F) = 4%nat.
Proof.
  cbv zeta. split; [|reflexivity]. apply C34_jacobians, isokin_exact; try lra; try (left; lra);
    auto using voce_value, chaboche_value, voce_rate, chaboche_rate.
  - simpl. unfold ik_iso. simpl. lra.
  - intros a b A. now apply voce_wf.
  - intros a b A. now apply chaboche_wf.
Qed.

(** C35.  State [stress, history..., damage]. *)
Theorem C35_rate_form E F M t y e T : let d := y (S (fl_nhist F)) in let s := y 0%nat / (1 - d) in
  rf_n (damaged E F M) = S (S (fl_nhist F)) /\
  rf_rate (damaged E F M) t y e T 0%nat = (1 - d) * (E T * (e - fl_rate F s (fun i => y (S i)) t T e)) /\
  (forall i, (i < fl_nhist F)%nat -> rf_rate (damaged E F M) t y e T (S i) = fl_hrate F s (fun i => y (S i)) t T e i) /\
  rf_rate (damaged E F M) t y e T (S (fl_nhist F)) = dm_rate M s d t T e.
Proof.
  cbv zeta. split; [reflexivity|]. cbn [damaged rf_rate]. cbv zeta. split; [|split].
  - rewrite cat_l by lia. cbn [Nat.add]. unfold slice. cbn [Nat.add]. ring.
  - intros i Hi. change (S i) with (1 + i)%nat. now rewrite cat_r, cat_l.
  - change (S (fl_nhist F)) with (1 + fl_nhist F)%nat. rewrite cat_r. unfold cat. now destruct (Nat.ltb_spec (fl_nhist F) (fl_nhist F)); [lia|].
Qed.
Print Assumptions C35_rate_form.
(** All rows of the Jacobian except the damage row are exact. *)
Theorem C35_stress_and_history_rows E F M t y e T i : let d := y (S (fl_nhist F)) in let s := y 0%nat / (1 - d) in
  d <> 1 -> fl_wf F -> flow_exact F s (fun i => y (S i)) t T e -> (i <= fl_nhist F)%nat ->
  row_exact (damaged E F M) t y e T i.
Proof. cbv zeta. intros. now apply damaged_rows. Qed.
Print Assumptions C35_stress_and_history_rows.
(** The damage row is exact where the damage rate does not react to the stress. *)
Theorem C35_damage_row_partial E F M t y e T : let d := y (S (fl_nhist F)) in let s := y 0%nat / (1 - d) in
  d <> 1 -> damage_exact M s d t T e -> dm_ds M s d t T e * y 0%nat = 0 ->
  row_exact (damaged E F M) t y e T (S (fl_nhist F)).
Proof. cbv zeta. intros. now apply damaged_last. Qed.
Print Assumptions C35_damage_row_partial.
(** What is missing from the damage row in general: the (damage, damage) entry
    lacks d_s * s / (1-d)^2. *)
Theorem C35_damage_row_error E F M t y e T Y Er y' e' : let d := y (S (fl_nhist F)) in let s := y 0%nat / (1 - d) in
  let n := S (S (fl_nhist F)) in
  d <> 1 -> damage_exact M s d t T e -> vthrough n Y y y' -> through Er e e' -> e <> 0 \/ e' = 0 ->
  D (fun z => rf_rate (damaged E F M) t (Y z) (Er z) T (S (fl_nhist F))) 0
    (sum n (fun j => rf_jac (damaged E F M) t y e T (S (fl_nhist F)) j * y' j) + rf_de (damaged E F M) t y e T (S (fl_nhist F)) * e'
     + dm_ds M s d t T e * y 0%nat / (1 - d) ^ 2 * y' (S (fl_nhist F))).
Proof. cbv zeta. intros. now apply (damaged_last_true E F M t y e T). Qed.
Print Assumptions C35_damage_row_error.
(** Witness for the refutation: Larson-Miller damage with eps = 0 (exact by C51). *)
Theorem C35_damage_row_refuted :
  ~ (forall E F M t y e T, let d := y (S (fl_nhist F)) in let s := y 0%nat / (1 - d) in
      d < 1 -> fl_wf F -> flow_exact F s (fun i => y (S i)) t T e -> damage_exact M s d t T e ->
      row_exact (damaged E F M) t y e T (S (fl_nhist F))).
Proof.
  intros H. set (M := larsonmiller (fun _ => 0) (fun _ => -1) (fun _ => 0) 0). set (F := perfect (fun _ => 1) (fun _ => 1)).
  set (y := fun i : nat => match i with O => 1 | _ => 0 end : R).
  assert (XM : damage_exact M (1 / (1 - 0)) 0 0 1 1).
  { intros S Dm E s' d' e' HS HD HE C. replace (1 / (1 - 0)) with 1 in * by field.
    eapply D_eq; [apply (larsonmiller_D (fun _ => 0) (fun _ => -1) (fun _ => 0) 0 S Dm 1 0 s' d' 0 1 1 E); auto; try lra|].
    - rewrite Rabs_R1. lra.
    - fold M. rewrite Rabs_R1. cbn [M larsonmiller dm_de]. field. }
  specialize (H (fun _ => 1) F M 0 y 1 1). cbv zeta in H. cbn [F fl_nhist perfect y] in H.
  specialize (H ltac:(lra) (perfect_wf _ _)). fold F in H.
  assert (XF : flow_exact F (1 / (1 - 0)) (fun i => y (S i)) 0 1 1) by (apply perfect_exact; lra).
  specialize (H XF XM). set (y' := fun i : nat => match i with 1%nat => 1 | _ => 0 end : R).
  assert (HY : vthrough 2 (fun z i => match i with O => 1 | _ => z end) y y').
  { intros i Hi. destruct i as [|[|i]]; [split; [reflexivity|apply (D_const 1)]|split; [reflexivity|apply D_id]|lia]. }
  assert (HE : through (fun _ => 1) 1 0) by (split; [reflexivity|apply D_const]).
  pose proof (H _ _ _ _ HY HE (or_intror eq_refl)) as D1.
  pose proof (C35_damage_row_error (fun _ => 1) F M 0 y 1 1 _ _ _ _ ltac:(cbv [y F perfect fl_nhist]; lra) XM HY HE (or_intror eq_refl)) as D2.
  pose proof (uniqueness_limite _ _ _ _ D1 D2) as U. cbn [damaged rf_n F perfect fl_nhist Nat.add] in U.
  fold F in U. cbn [y y'] in U. 
  assert (N : dm_ds M (1 / (1 - 0)) 0 0 1 1 = 1).
  { cbn [M larsonmiller dm_ds]. replace (1 / (1 - 0)) with 1 by field. rewrite Rabs_R1, tsign_pos by lra.
    replace (0 - 0 / 1) with 0 by field. rewrite Rpower_O by lra. replace (1 * (1 - 0)) with 1 by ring. rewrite pow0_pos by lra.
    replace (- -1 / 1) with 1 by field. rewrite Rpower_1 by lra. field. }
  rewrite N in U. lra.
Qed.
Print Assumptions C35_damage_row_refuted.

(** C36: stress control.  [sb_rate]/[sb_jac] are what StressBasedModel returns
    for the strain rate er found by the inner solve. *)
(** When the inner solve returns silently the stress rate at the prescribed
    stress meets the request to the solver's tolerances, in every batch. *)
Theorem C36_silent_solve B nb t cs csr cT y r : sb_solve B nb t cs csr cT y = Ok r ->
  sb_forward B nb t cs csr cT y = Some (fun i => sb_rate B (t i) (y i) (cs i) (cT i) (res_x r i), fun i => sb_jac B (t i) (y i) (cs i) (cT i) (res_x r i)) /\
  ((forall i, (i < nb)%nat -> Rabs (rf_rate B (t i) (set0 (cs i) (y i)) (res_x r i) (cT i) 0%nat - csr i) <= / 10 ^ 10) \/
   (forall i, (i < nb)%nat -> Rabs (rf_rate B (t i) (set0 (cs i) (y i)) (res_x r i) (cT i) 0%nat - csr i)
      <= / 10 ^ 6 * Rabs (rf_rate B (t i) (set0 (cs i) (y i)) 0 (cT i) 0%nat - csr i))).
Proof. intros H. split; [now apply sb_forward_of; left|]. rewrite sb_solve_def in H. apply sb_ok in H. exact H. Qed.
Print Assumptions C36_silent_solve.
(** Base models whose flow does not depend on the strain rate (all but the
    Kocks-Mecking and rate-independent wrappers): the solve always succeeds and
    is exact, unless every point's request is already met to 1e-10 at zero
    strain rate. *)
Theorem C36_exact_solve E F nb t cs csr cT y : rate_free F -> (forall i, (i < nb)%nat -> E (cT i) <> 0) ->
  exists r, sb_solve (inelastic E F) nb t cs csr cT y = Ok r /\
  ((forall i, (i < nb)%nat -> rf_rate (inelastic E F) (t i) (set0 (cs i) (y i)) (res_x r i) (cT i) 0%nat = csr i) \/
   (res_x r = (fun _ => 0) /\ forall i, (i < nb)%nat -> Rabs (rf_rate (inelastic E F) (t i) (set0 (cs i) (y i)) 0 (cT i) 0%nat - csr i) <= / 10 ^ 10)).
Proof.
  intros RF HE. destruct (sb_affine (inelastic E F) nb t cs csr cT y (fun i => E (cT i)) (fun i => - E (cT i) * fl_rate F (cs i) (slice 1 (y i)) (t i) (cT i) 0) (/ 10 ^ 6) (/ 10 ^ 10) 100) as (r & Hr & C).
  - lia.
  - left. apply Rinv_0_lt_compat, pow_lt. lra.
  - split; [left; apply Rinv_0_lt_compat, pow_lt; lra|]. rewrite <- Rinv_1. apply Rinv_lt_contravar; [rewrite Rmult_1_l; apply pow_lt; lra|]. lra.
  - intros i Hi. split; [now apply HE|]. intros e. cbn [inelastic rf_rate rf_de]. cbv zeta. rewrite !cat_l by lia.
    change (slice 1 (set0 (cs i) (y i))) with (slice 1 (y i)). rewrite set0_0.
    destruct (RF (cs i) (slice 1 (y i)) (t i) (cT i) e 0) as (-> & -> & _). split; ring.
  - exists r. split; [rewrite sb_solve_def; exact Hr|]. destruct C as [C|[C1 C2]]; [left|right].
    + intros i Hi. specialize (C i Hi). unfold sb_RJ in C. cbn [fst] in C. lra.
    + split; auto. intros i Hi. specialize (C2 i Hi). unfold sb_RJ in C2. cbn [fst] in C2. rewrite C1 in C2. exact C2.
Qed.
Print Assumptions C36_exact_solve.
(** Values: the first component is the strain rate, the others the history rates
    at that strain rate and the prescribed stress. *)
Theorem C36_values B t y cs cT er i :
  sb_rate B t y cs cT er 0%nat = er /\
  sb_rate B t y cs cT er (S i) = rf_rate B t (fun j => if (j =? 0)%nat then cs else y j) er cT (S i).
Proof.
  split; [reflexivity|]. unfold sb_rate. rewrite set0_S. reflexivity.
Qed.
Print Assumptions C36_values.
(** The Jacobian's first row is the derivative of the implicitly defined strain
    rate [er] along any curve of states, for every base model. *)
Theorem C36_strain_rate_row B t y cs csr cT er0 Y y' er er' :
  model_exact B t (set0 cs y) er0 cT -> (0 < rf_n B)%nat -> rf_de B t (set0 cs y) er0 cT 0%nat <> 0 ->
  vthrough (rf_n B) Y y y' -> through er er0 er' -> er0 <> 0 \/ er' = 0 ->
  (exists r, 0 < r /\ forall z, Rabs z < r -> rf_rate B t (set0 cs (Y z)) (er z) cT 0%nat = csr) ->
  D (fun z => sb_rate B t (Y z) cs cT (er z) 0%nat) 0 (sum (rf_n B) (fun j => sb_jac B t y cs cT er0 0%nat j * y' j)).
Proof. intros X Hn HJ HY HE C Sol. exact (implicit_0 B t y cs csr cT er0 X Hn HJ Y y' er er' HY HE C Sol). Qed.
Print Assumptions C36_strain_rate_row.
(** The full Jacobian is exact for every base model without strain rate
    dependence; nothing is assumed about the implicit strain rate. *)
Theorem C36_jacobian_partial E F t y cs csr cT Y y' : rate_free F -> E cT <> 0 ->
  (forall e, flow_exact F cs (fun i => y (S i)) t cT e) -> vthrough (S (fl_nhist F)) Y y y' ->
  exists er, (forall y e, rf_rate (inelastic E F) t (set0 cs y) e cT 0%nat = csr <-> e = er y) /\
  forall i, (i < S (fl_nhist F))%nat ->
  D (fun z => sb_rate (inelastic E F) t (Y z) cs cT (er (Y z)) i) 0
    (sum (S (fl_nhist F)) (fun j => sb_jac (inelastic E F) t y cs cT (er y) i j * y' j)).
Proof.
  intros RF HE X HY. exists (fun y => csr / E cT + fl_rate F cs (slice 1 y) t cT 0). split.
  - intros y0 e. now apply rate_free_unique.
  - intros i Hi. now apply rate_free_exact.
Qed.
Print Assumptions C36_jacobian_partial.
(** In general each history row lacks the term (d hrate/d erate) * er'. *)
Theorem C36_history_row_error B t y cs cT er0 Y y' er er' i :
  model_exact B t (set0 cs y) er0 cT -> (0 < i < rf_n B)%nat ->
  vthrough (rf_n B) Y y y' -> through er er0 er' -> er0 <> 0 \/ er' = 0 ->
  D (fun z => sb_rate B t (Y z) cs cT (er z) i) 0
    (sum (rf_n B) (fun j => sb_jac B t y cs cT er0 i j * y' j) + rf_de B t (set0 cs y) er0 cT i * er').
Proof. intros X Hi HY HE C. exact (implicit_hist B t y cs cT er0 X ltac:(lia) Y y' er er' HY HE C i Hi). Qed.
Print Assumptions C36_history_row_error.
(** Witness: a rate-independent wrapper around Voce viscoplasticity. *)
Theorem C36_jacobian_refuted :
  ~ (forall E F t y cs csr cT er0 Y y' er er' i,
      flow_exact F cs (fun i => y (S i)) t cT er0 -> E cT <> 0 -> rf_de (inelastic E F) t (set0 cs y) er0 cT 0%nat <> 0 ->
      vthrough (S (fl_nhist F)) Y y y' -> through er er0 er' -> er0 <> 0 ->
      (exists r, 0 < r /\ forall z, Rabs z < r -> rf_rate (inelastic E F) t (set0 cs (Y z)) (er z) cT 0%nat = csr) ->
      (i < S (fl_nhist F))%nat ->
      D (fun z => sb_rate (inelastic E F) t (Y z) cs cT (er z) i) 0
        (sum (S (fl_nhist F)) (fun j => sb_jac (inelastic E F) t y cs cT er0 i j * y' j))).
Proof.
  intros H. set (G := isokin (fun _ => 2) (fun _ => 1) (fun _ => 0) (voce (fun _ => 1) (fun _ => 1)) nokin).
  set (F := ri_rule G 1 1). set (y := vzero). set (Y := fun (z : R) (i : nat) => z). set (y' := fun _ : nat => 1).
  set (f := fun z : R => fl_rate G (1/2) (slice 1 (Y z)) 0 0 1).
  assert (XG : forall e, flow_exact G (1/2) (slice 1 y) 0 0 e).
  { intros e. apply isokin_exact.
    - left; lra.
    - lra.
    - left. unfold ik_kin. simpl. lra.
    - apply voce_value.
    - apply nokin_value.
    - apply voce_rate.
    - apply nokin_rate.
    - intros a b A. now apply voce_wf.
    - intros a b A. now apply nokin_wf. }
  assert (HH : vthrough 1 (fun z => slice 1 (Y z)) (slice 1 y) (slice 1 y')).
  { intros i Hi. split; [reflexivity|apply D_id]. }
  assert (RP : forall x, 0 < x -> Rpower x 2 = x * x) by (intros x Hx; replace 2 with (1 + 1) by ring; now rewrite Rpower_plus, Rpower_1).
  assert (P4 : pow0 (macaulay ((Rabs (1/2 - 0) - 0 - 0) / 1)) 2 = 1/4).
  { rewrite Rminus_0_r, Rabs_right, macaulay_mac, mac_pos by lra. rewrite pow0_pos by lra.
    rewrite RP by lra. field. }
  assert (P2 : pow0 (macaulay ((Rabs (1/2 - 0) - 0 - 0) / 1)) (2 - 1) = 1/2).
  { rewrite Rminus_0_r, Rabs_right, macaulay_mac, mac_pos by lra. replace (2 - 1) with 1 by ring. rewrite pow0_1 by lra. field. }
  assert (f0 : f 0 = 1/4).
  { unfold f, G. cbn [isokin fl_rate]. unfold ik_rate, ik_kin, ik_iso. cbn [voce nokin hd_value]. unfold slice, Y. cbn [Nat.add].
    rewrite P4, tsign_pos by lra. ring. }
  assert (fD : D f 0 (-1)).
  { destruct (XG 1 (fun _ => 1/2) _ (fun _ => 1) 0 _ 0 (conj eq_refl (D_const _ _)) HH (conj eq_refl (D_const _ _)) (or_intror eq_refl)) as [X1 _].
    eapply D_eq; [exact X1|]. unfold G. cbn [isokin fl_ds fl_dh fl_de fl_nhist voce nokin hd_nhist Nat.add sum]. unfold cat, default_scalar.
    cbn [Nat.ltb Nat.leb]. cbv beta. unfold ik_diso, ik_kin, ik_iso. cbn [voce nokin hd_value hd_dvalue]. unfold slice, y, vzero, y'. cbn [Nat.add].
    cbv zeta. rewrite P2, tsign_pos by lra. field. }
  set (er := fun z => (3/4) / (1 - f z)).
  assert (HE : through er 1 (-4/3)).
  { split; [unfold er; rewrite f0; field|]. unfold er. eapply D_eq; [apply D_div; [rewrite f0; lra|apply D_const|apply D_minus; [apply D_const|exact fD]]|].
    cbv beta. rewrite f0. field. }
  assert (FF : forall z e, fl_rate F (1/2) (slice 1 (Y z)) 0 0 e = Rabs e * f z).
  { intros z e. unfold F. cbn [ri_rule fl_rate]. unfold ri_scale. change (fl_rate G (1/2) (slice 1 (Y z)) 0 0 e) with (f z). field. }
  assert (HY : vthrough 2 Y y y') by (intros i Hi; split; [reflexivity|apply D_id]).
  assert (XF : flow_exact F (1/2) (slice 1 y) 0 0 1).
  { apply ri_exact; [|apply XG]. apply isokin_wf; [apply voce_wf|apply nokin_wf]. }
  assert (f0' : fl_rate G (1/2) (slice 1 y) 0 0 1 = 1/4) by exact f0.
  assert (Je : rf_de (inelastic (fun _ => 1) F) 0 (set0 (1/2) y) 1 0 0%nat <> 0).
  { cbn [inelastic rf_de]. cbv zeta. rewrite cat_l by lia. change (slice 1 (set0 (1/2) y)) with (slice 1 y). rewrite set0_0.
    unfold F. cbn [ri_rule fl_de]. rewrite f0'. unfold ri_dscale. rewrite tsign_pos by lra.
    cbn [G isokin fl_de]. unfold default_scalar. lra. }
  assert (Sol : exists r, 0 < r /\ forall z, Rabs z < r -> rf_rate (inelastic (fun _ => 1) F) 0 (set0 (1/2) (Y z)) (er z) 0 0%nat = 3/4).
  { destruct (D_near_pos (fun z => 1 - f z) 0 (0 - -1)) as (r & Hr & P); [apply D_minus; [apply D_const|exact fD]|rewrite f0; lra|].
    exists r. split; auto. intros z Hz. specialize (P z). rewrite Rminus_0_r in P. specialize (P Hz). cbn [inelastic rf_rate]. cbv zeta. rewrite cat_l by lia.
    change (slice 1 (set0 (1/2) (Y z))) with (slice 1 (Y z)). rewrite set0_0, FF. unfold er.
    rewrite Rabs_right; [field; lra|]. apply Rle_ge. apply Rlt_le, Rdiv_lt_0_compat; lra. }
  specialize (H (fun _ => 1) F 0 y (1/2) (3/4) 0 1 Y y' er (-4/3) 1%nat XF ltac:(lra) Je HY HE ltac:(lra) Sol ltac:(cbn; lia)).
  pose proof (C36_history_row_error (inelastic (fun _ => 1) F) 0 y (1/2) 0 1 Y y' er (-4/3) 1%nat) as T.
  specialize (T (inelastic_exact _ _ _ _ _ _ XF) ltac:(cbn; lia) HY HE ltac:(left; lra)).
  pose proof (uniqueness_limite _ _ _ _ H T) as U. cbn [inelastic rf_n] in U.
  assert (J1 : rf_de (inelastic (fun _ => 1) F) 0 (set0 (1/2) y) 1 0 1%nat = 1/4).
  { cbn [inelastic rf_de]. cbv zeta. change 1%nat with (1 + 0)%nat at 2. rewrite cat_r. change (slice 1 (set0 (1/2) y)) with (slice 1 y). rewrite set0_0.
    unfold F. cbn [ri_rule fl_hde]. unfold ri_dscale. rewrite tsign_pos by lra.
    assert (Q : fl_hde G (1/2) (slice 1 y) 0 0 1 0%nat = 0) by reflexivity. rewrite Q.
    assert (Q2 : fl_hrate G (1/2) (slice 1 y) 0 0 1 0%nat = 1/4).
    { cbn [G isokin fl_hrate]. cbv zeta. rewrite cat_l by (cbn; lia). cbn [voce hd_rate].
      change (ik_rate _ _ _ _ _ _ _ _ _ _) with (fl_rate G (1/2) (slice 1 y) 0 0 1). rewrite f0'. unfold slice, y, vzero. rewrite Rabs_right; lra. }
    rewrite Q2. field. }
  rewrite J1 in U. change (1 + fl_nhist F)%nat with (S (fl_nhist F)) in U. lra.
Qed.
Print Assumptions C36_jacobian_refuted.
Example C36_example : let F := isokin (fun _ => 2) (fun _ => 1) (fun _ => 0) (voce (fun _ => 1) (fun _ => 1)) (chaboche 3 (fun _ _ => 1) (fun _ _ => 1)) in
  rate_free F /\ forall y e, 0 <= y 1%nat -> flow_exact F 5 (fun i => y (S i)) 0 300 e.
Proof.
  cbv zeta. split; [apply rate_free_isokin; [apply total_free_voce|apply total_free_chaboche]|].
  intros y e Hy. apply isokin_exact; try lra; try (left; lra); auto using voce_value, chaboche_value, voce_rate, chaboche_rate.
  - right. unfold ik_iso. simpl. lra.
  - intros a b A. now apply voce_wf.
  - intros a b A. now apply chaboche_wf.
Qed.

(** C37 *)
Theorem C37_dispatch B nb control t rate base cT y :
  exists rates jacs srates sjacs, both_forward B nb control t rate base cT y = Some (rates, jacs) /\
    sb_forward B nb t base rate cT y = Some (srates, sjacs) /\
    forall i, (control i = 0 -> rates i = rf_rate B (t i) (y i) (rate i) (cT i) /\ jacs i = rf_jac B (t i) (y i) (rate i) (cT i)) /\
      (control i = 1 -> rates i = srates i /\ jacs i = sjacs i) /\
      (control i <> 0 -> control i <> 1 -> rates i = vzero /\ jacs i = mzero).
Proof.
  unfold both_forward. destruct (sb_forward B nb t base rate cT y) as [[sr sj]|] eqn:E.
  - do 4 eexists. split; [reflexivity|]. split; [reflexivity|]. intros i. unfold masked, strain_forward. cbn [fst snd].
    repeat split; intros; destruct (Req_EM_T (control i) 1), (Req_EM_T (control i) 0); try lra; try contradiction; reflexivity.
  - exfalso. unfold sb_forward in E. pose proof (sb_never_raises B nb t base rate cT y (/ 10 ^ 6) (/ 10 ^ 10) 100) as N. rewrite <- sb_solve_def in N.
    destruct (sb_solve _ _ _ _ _ _ _); try discriminate. now apply N.
Qed.
Print Assumptions C37_dispatch.
(** Changing the control of other experiments changes nothing for this one. *)
Theorem C37_independent B nb control control' t rate base cT y i r r' : control i = control' i ->
  both_forward B nb control t rate base cT y = Some r -> both_forward B nb control' t rate base cT y = Some r' ->
  fst r i = fst r' i /\ snd r i = snd r' i.
Proof.
  intros E. unfold both_forward. destruct (sb_forward B nb t base rate cT y) as [[sr sj]|]; [|discriminate].
  intros H H'. injection H as <-. injection H' as <-. unfold masked. cbn [fst snd]. now rewrite E.
Qed.
Print Assumptions C37_independent.
Example C37_example : let B := inelastic (fun _ => 100) (perfect (fun _ => 2) (fun _ => 1)) in
  exists rates jacs, both_forward B 2 (fun i => INR i) (fun _ => 0) (fun _ => 1) (fun _ => 0) (fun _ => 300) (fun _ => vzero) = Some (rates, jacs) /\
   rates 0%nat 0%nat = 100.
Proof.
  cbv zeta. destruct (C37_dispatch (inelastic (fun _ => 100) (perfect (fun _ => 2) (fun _ => 1))) 2 (fun i => INR i) (fun _ => 0) (fun _ => 1) (fun _ => 0) (fun _ => 300) (fun _ => vzero)) as (r & j & sr & sj & E & _ & H).
  exists r, j. split; [exact E|]. destruct (H 0%nat) as [H0 _]. destruct (H0 eq_refl) as [-> _]. cbn [inelastic rf_rate perfect fl_rate]. cbv zeta. rewrite cat_l by lia.
  unfold vzero. rewrite tsign_0. ring.
Qed.

(** C39 *)
Theorem C39_same_rates E F t y e T i : y (S (fl_nhist F)) = 0 -> (i < S (fl_nhist F))%nat ->
  rf_rate (damaged E F nodamage) t y e T i = rf_rate (inelastic E F) t y e T i /\
  rf_rate (damaged E F nodamage) t y e T (S (fl_nhist F)) = 0.
Proof.
  intros D0 Hi. destruct (C35_rate_form E F nodamage t y e T) as (_ & R0 & RH & RD). destruct (C34_rate_form E F t y e T) as (_ & Q0 & QH).
  rewrite D0 in *. replace (y 0%nat / (1 - 0)) with (y 0%nat) in * by field. split; [|exact RD].
  destruct i; [rewrite R0, Q0; ring|]. rewrite RH, QH by lia. reflexivity.
Qed.
Print Assumptions C39_same_rates.
(** Histories of explicit ([x] at the start of the step) or implicit ([x] at its
    end) Euler steps, of any length and step sizes. *)
Definition state_used (implicit : bool) (x : nat -> vec) (k : nat) : vec := if implicit then x (S k) else x k.
Definition euler_history (implicit : bool) (B : rateform) (dt t e T : nat -> R) (x : nat -> vec) : Prop :=
  forall k i, (i < rf_n B)%nat ->
  x (S k) i = x k i + dt k * rf_rate B (t k) (state_used implicit x k) (e k) (T k) i.
Theorem C39_no_damage_history b E F dt t e T x : euler_history b (damaged E F nodamage) dt t e T x -> x 0%nat (S (fl_nhist F)) = 0 ->
  (forall k, x k (S (fl_nhist F)) = 0) /\ euler_history b (inelastic E F) dt t e T x.
Proof.
  intros H X0. assert (Z : forall k, x k (S (fl_nhist F)) = 0).
  { induction k as [|k IH]; auto. rewrite H by (cbn; lia).
    destruct (C35_rate_form E F nodamage (t k) (state_used b x k) (e k) (T k)) as (_ & _ & _ & ->). cbn [nodamage dm_rate]. rewrite IH. ring. }
  split; auto. intros k i Hi. cbn [inelastic rf_n] in Hi. rewrite H by (cbn [damaged rf_n]; lia). do 2 f_equal.
  apply C39_same_rates; [unfold state_used; destruct b; apply Z|lia].
Qed.
Print Assumptions C39_no_damage_history.
Example C39_example : exists x, euler_history false (damaged (fun _ => 1) (perfect (fun _ => 2) (fun _ => 1)) nodamage) (fun _ => 1/2) INR (fun _ => 1) (fun _ => 0) x /\
  x 0%nat = vzero /\ x 1%nat 0%nat = 1/2.
Proof.
  exists (fun k => Nat.iter k (fun y i => y i + 1/2 * rf_rate (damaged (fun _ => 1) (perfect (fun _ => 2) (fun _ => 1)) nodamage) 0 y 1 0 i) vzero).
  split; [|split; [reflexivity|]].
  - intros k i Hi. cbn [Nat.iter]. reflexivity.
  - cbn [Nat.iter nat_rect]. destruct (C35_rate_form (fun _ => 1) (perfect (fun _ => 2) (fun _ => 1)) nodamage 0 vzero 1 0) as (_ & -> & _).
    cbn [perfect fl_rate fl_nhist]. unfold vzero. replace (0 / (1 - 0)) with 0 by field. rewrite tsign_0. field.
Qed.

(** C51 *)
Theorem C51_none s d t T e : damage_exact nodamage s d t T e.
Proof. apply nodamage_exact. Qed.
Print Assumptions C51_none.
Theorem C51_constant r s d t T e : damage_exact (constdamage r) s d t T e.
Proof. apply constdamage_exact. Qed.
Print Assumptions C51_constant.
(** Larson-Miller: the damage derivative is exact, the stress derivative is the
    true one times |s| / (|s| + eps). *)
Theorem C51_larson_miller_partial C A B eps s d t T e S Dm E s' d' : s <> 0 -> d < 1 -> T <> 0 -> 0 <= eps ->
  through S s s' -> through Dm d d' ->
  D (fun y => dm_rate (larsonmiller C A B eps) (S y) (Dm y) t T (E y)) 0
    ((Rabs s + eps) / Rabs s * dm_ds (larsonmiller C A B eps) s d t T e * s' + dm_dd (larsonmiller C A B eps) s d t T e * d').
Proof.
  intros Hs Hd HT He HS HD. apply larsonmiller_D; auto. assert (0 < Rabs s) by now apply Rabs_pos_lt. lra.
Qed.
Print Assumptions C51_larson_miller_partial.
Theorem C51_larson_miller_no_offset C A B s d t T e : s <> 0 -> d < 1 -> T <> 0 -> damage_exact (larsonmiller C A B 0) s d t T e.
Proof.
  intros Hs Hd HT S Dm E s' d' e' HS HD HE K. assert (0 < Rabs s) by now apply Rabs_pos_lt.
  eapply D_eq; [apply (larsonmiller_D C A B 0 S Dm s d s' d' t T e E); auto; lra|].
  cbn [larsonmiller dm_de]. field. lra.
Qed.
Print Assumptions C51_larson_miller_no_offset.
(** Hayhurst-Leckie: the true derivatives are xi/A and (xi - phi) times the
    returned ones. *)
Theorem C51_hayhurst_true A xi phi s d t T e S Dm E s' d' : s <> 0 -> d < 1 -> 0 < A T ->
  through S s s' -> through Dm d d' ->
  D (fun y => dm_rate (hayhurst A xi phi) (S y) (Dm y) t T (E y)) 0
    (xi T / A T * dm_ds (hayhurst A xi phi) s d t T e * s' + (xi T - phi T) * dm_dd (hayhurst A xi phi) s d t T e * d').
Proof. intros. now apply hayhurst_D. Qed.
Print Assumptions C51_hayhurst_true.
Theorem C51_hayhurst_exact_iff A xi phi s d t T e : s <> 0 -> d < 1 -> 0 < A T ->
  (damage_exact (hayhurst A xi phi) s d t T e <-> xi T = A T /\ xi T - phi T = 1).
Proof.
  intros Hs Hd HA. assert (Ps : 0 < Rabs s / A T) by (apply Rdiv_lt_0_compat; auto; now apply Rabs_pos_lt).
  assert (N1 : dm_ds (hayhurst A xi phi) s d t T e <> 0).
  { cbn [hayhurst dm_ds]. rewrite !pow0_pos by lra. pose proof (exp_pos ((xi T - 1) * ln (Rabs s / A T))). pose proof (exp_pos ((xi T - phi T) * ln (1 - d))).
    unfold Rpower. assert (0 < exp ((xi T - 1) * ln (Rabs s / A T)) * exp ((xi T - phi T) * ln (1 - d))) by now apply Rmult_lt_0_compat.
    destruct (Rdichotomy _ _ Hs); [rewrite tsign_neg by auto|rewrite tsign_pos by auto]; lra. }
  assert (N2 : dm_dd (hayhurst A xi phi) s d t T e <> 0).
  { cbn [hayhurst dm_dd]. rewrite !pow0_pos by lra. pose proof (exp_pos (xi T * ln (Rabs s / A T))). pose proof (exp_pos ((xi T - phi T - 1) * ln (1 - d))).
    unfold Rpower. assert (0 < exp (xi T * ln (Rabs s / A T)) * exp ((xi T - phi T - 1) * ln (1 - d))) by now apply Rmult_lt_0_compat. lra. }
  split.
  - intros X. split.
    + pose proof (X (fun z => s + z) (fun _ => d) (fun _ => e) 1 0 0) as X1.
      assert (HS : through (fun z => s + z) s 1). { split; [ring|]. eapply D_eq; [apply D_plus; [apply D_const|apply D_id]|ring]. }
      assert (HD : through (fun _ => d) d 0) by (split; [auto|apply D_const]).
      assert (HE : through (fun _ => e) e 0) by (split; [auto|apply D_const]).
      specialize (X1 HS HD HE (or_intror eq_refl)).
      pose proof (uniqueness_limite _ _ _ _ X1 (hayhurst_D A xi phi _ _ s d 1 0 t T e (fun _ => e) Hs Hd HA HS HD)) as U.
      assert (Q : (1 - xi T / A T) * dm_ds (hayhurst A xi phi) s d t T e = 0) by lra.
      apply Rmult_integral in Q. destruct Q as [Q|Q]; [|contradiction]. assert (xi T / A T = 1) by lra.
      replace (xi T) with (xi T / A T * A T) by (field; lra). rewrite H. ring.
    + pose proof (X (fun _ => s) (fun z => d + z) (fun _ => e) 0 1 0) as X1.
      assert (HD : through (fun z => d + z) d 1). { split; [ring|]. eapply D_eq; [apply D_plus; [apply D_const|apply D_id]|ring]. }
      assert (HS : through (fun _ => s) s 0) by (split; [auto|apply D_const]).
      assert (HE : through (fun _ => e) e 0) by (split; [auto|apply D_const]).
      specialize (X1 HS HD HE (or_intror eq_refl)).
      pose proof (uniqueness_limite _ _ _ _ X1 (hayhurst_D A xi phi _ _ s d 0 1 t T e (fun _ => e) Hs Hd HA HS HD)) as U.
      assert (Q : (1 - (xi T - phi T)) * dm_dd (hayhurst A xi phi) s d t T e = 0) by lra.
      apply Rmult_integral in Q. destruct Q as [Q|Q]; [lra|contradiction].
  - intros [E1 E2] S Dm E s' d' e' HS HD HE K. eapply D_eq; [apply (hayhurst_D A xi phi S Dm s d s' d' t T e E Hs Hd HA HS HD)|].
    rewrite E2, E1. cbn [hayhurst dm_de]. field. lra.
Qed.
Print Assumptions C51_hayhurst_exact_iff.
Theorem C51_hayhurst_refuted : ~ (forall A xi phi s d t T e, 0 < A T -> s <> 0 -> d < 1 -> damage_exact (hayhurst A xi phi) s d t T e).
Proof.
  intros H. specialize (H (fun _ => 1) (fun _ => 2) (fun _ => 1) 1 0 0 0 0 ltac:(lra) ltac:(lra) ltac:(lra)).
  apply C51_hayhurst_exact_iff in H; lra.
Qed.
Print Assumptions C51_hayhurst_refuted.

(** C52 *)
Theorem C52_rates_nonnegative s d t T e :
  0 <= dm_rate nodamage s d t T e /\
  (forall r, 0 <= r T -> 0 <= dm_rate (constdamage r) s d t T e) /\
  (forall A xi phi, 0 < A T -> 0 < xi T -> d < 1 -> exists v, hl_torch A xi phi s d T = Some v /\ v = dm_rate (hayhurst A xi phi) s d t T e /\ 0 <= v) /\
  (forall C A B eps, s <> 0 -> d < 1 -> exists v, lm_torch C A B s d T = Some v /\ v = dm_rate (larsonmiller C A B eps) s d t T e /\ 0 < v).
Proof.
  split; [simpl; lra|]. split; [intros r Hr; simpl; lra|]. split.
  - intros A xi phi HA Hx Hd. rewrite (hl_finite A xi phi s d t T e HA Hx Hd). eexists. split; [reflexivity|]. split; [reflexivity|].
    cbn [hayhurst dm_rate]. apply Rmult_le_pos; apply pow0_ge0.
  - intros C A B eps Hs Hd. rewrite (lm_finite C A B eps s d t T e Hs Hd). eexists. split; [reflexivity|]. split; [reflexivity|].
    cbn [larsonmiller dm_rate]. apply Rmult_lt_0_compat; [apply exp_pos|]. apply pow0_gt0. apply Rmult_lt_0_compat; [now apply Rabs_pos_lt|lra].
Qed.
Print Assumptions C52_rates_nonnegative.
(** Damage never decreases along an explicit or implicit Euler history of the
    damaged model, as long as the material has not failed. *)
Definition never_heals (M : damage) : Prop := forall s d t T e, d < 1 -> 0 <= dm_rate M s d t T e.
Theorem C52_history b E F M dt t e T x : never_heals M -> euler_history b (damaged E F M) dt t e T x ->
  (forall k, 0 <= dt k) -> (forall k, x k (S (fl_nhist F)) < 1) ->
  forall j k, (j <= k)%nat -> x j (S (fl_nhist F)) <= x k (S (fl_nhist F)).
Proof.
  intros NH H Hdt Hd j k L. induction L as [|k L IH]; [lra|]. apply Rle_trans with (1 := IH).
  rewrite H by (cbn; lia). destruct (C35_rate_form E F M (t k) (state_used b x k) (e k) (T k)) as (_ & _ & _ & ->).
  assert (0 <= dm_rate M ((state_used b x k) 0%nat / (1 - (state_used b x k) (S (fl_nhist F)))) ((state_used b x k) (S (fl_nhist F))) (t k) (T k) (e k)) by (apply NH; unfold state_used; destruct b; apply Hd).
  specialize (Hdt k). nra.
Qed.
Print Assumptions C52_history.
Theorem C52_models_never_heal : never_heals nodamage /\ (forall r, (forall T, 0 <= r T) -> never_heals (constdamage r)) /\
  (forall A xi phi, never_heals (hayhurst A xi phi)) /\ (forall C A B eps, never_heals (larsonmiller C A B eps)).
Proof.
  split; [intros s d t T e _; simpl; lra|]. split; [intros r Hr s d t T e _; simpl; specialize (Hr T); lra|]. split.
  - intros A xi phi s d t T e _. cbn [hayhurst dm_rate]. apply Rmult_le_pos; apply pow0_ge0.
  - intros C A B eps s d t T e _. cbn [larsonmiller dm_rate]. apply Rmult_le_pos; [left; apply exp_pos|apply pow0_ge0].
Qed.
Print Assumptions C52_models_never_heal.

(** C83: the documented rate form of DamagedInelasticModel is not the one computed. *)
Theorem C83_documented_damaged_form_refuted :
  ~ (forall E F M t y e T, let d := y (S (fl_nhist F)) in 0 <= d < 1 ->
      rf_rate (damaged E F M) t y e T 0%nat = E T * (e - (1 - d) * fl_rate F (y 0%nat / (1 - d)) (fun i => y (S i)) t T e)).
Proof.
  intros H. specialize (H (fun _ => 1) (perfect (fun _ => 1) (fun _ => 1)) nodamage 0 (fun i => match i with O => 0 | _ => 1/2 end) 1 0).
  cbv zeta in H. cbn [perfect fl_nhist] in H. specialize (H ltac:(lra)).
  destruct (C35_rate_form (fun _ => 1) (perfect (fun _ => 1) (fun _ => 1)) nodamage 0 (fun i => match i with O => 0 | _ => 1/2 end) 1 0) as (_ & R0 & _).
  rewrite R0 in H. cbn [perfect fl_nhist fl_rate] in H. replace (0 / (1 - 1 / 2)) with 0 in H by field. rewrite tsign_0 in H. lra.
Qed.
Print Assumptions C83_documented_damaged_form_refuted.
