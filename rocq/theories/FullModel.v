(** One backward Euler step of the viscoplastic models with hardening (flowrules.py 1129-1427, hardening.py): bounds and energy. *)
From Coq Require Import Reals List Lra Lia FunctionalExtensionality.
From Verif Require Import Torch Deriv Hardening Flow Slices Models PipelineR NewtonModel NewtonProofs.
Local Open Scope R_scope.

Lemma voce_step dt d Rs M ep h h' : 0 <= dt -> 0 <= d -> 0 <= Rs <= M -> h' - h = dt * (d * (Rs - h') * Rabs ep) -> 0 <= h <= M -> 0 <= h' <= M.
Proof.
  intros Hdt Hd HR E H. set (k := dt * d * Rabs ep).
  assert (Hk : 0 <= k) by (unfold k; repeat apply Rmult_le_pos; auto; apply Rabs_pos).
  assert (F : (1 + k) * h' = h + k * Rs) by (unfold k; lra).
  assert (0 <= k * Rs) by (apply Rmult_le_pos; lra). assert (k * Rs <= k * M) by (apply Rmult_le_compat_l; lra).
  split; apply (Rmult_le_reg_l (1 + k)); lra.
Qed.
Lemma back_step dt C q M ep x x' : 0 <= dt -> 0 <= C -> 0 <= q -> C * Rabs ep <= q * M -> x' - x = dt * (C * ep - q * x') -> Rabs x <= M -> Rabs x' <= M.
Proof.
  intros Hdt HC Hq HM E H. assert (Hk : 0 <= dt * q) by now apply Rmult_le_pos.
  assert (F : (1 + dt * q) * x' = x + dt * (C * ep)) by lra.
  apply (Rmult_le_reg_l (1 + dt * q)); [lra|]. rewrite <- (Rabs_right (1 + dt * q)) at 1 by lra. rewrite <- Rabs_mult, F.
  eapply Rle_trans; [apply Rabs_triang|]. rewrite !Rabs_mult, (Rabs_right dt), (Rabs_right C) by lra.
  assert (dt * (C * Rabs ep) <= dt * (q * M)) by now apply Rmult_le_compat_l. lra.
Qed.

(** the flow rate has the sign of the effective stress *)
Lemma ik_sign n eta s0 iso kin s h t T e : 0 <= (s - ik_kin iso kin h) * ik_rate n eta s0 iso kin s h t T e.
Proof.
  unfold ik_rate. set (p := pow0 _ _). assert (P : 0 <= p) by apply pow0_ge0. set (x := s - _).
  destruct (Rtotal_order x 0) as [H|[->|H]]; [rewrite tsign_neg by lra; nra|lra|rewrite tsign_pos by lra; nra].
Qed.

(** the stress moves towards zero, or is at most the rate-dependent yield stress *)
Lemma vp_bound_pos E dt n eta k X de s s' : 0 < E -> 0 < n -> 0 < eta -> 0 < dt -> 0 <= k ->
  s' - s = E * (de - dt * (pow0 (mac ((Rabs (s' - X) - k) / eta)) n * tsign (s' - X))) ->
  0 < s' -> s < s' -> s' <= Rabs X + k + eta * pow0 (Rabs de / dt) (/ n).
Proof.
  intros HE Hn He Hd Hk H Hs Hlt. pose proof (Rle_abs X) as AX.
  assert (P : 0 <= eta * pow0 (Rabs de / dt) (/ n)) by (apply Rmult_le_pos; [lra|apply pow0_ge0]).
  destruct (Rle_dec (s' - X) k) as [L|L]; [lra|]. assert (G : 0 < s' - X - k) by lra.
  assert (Q : 0 < de - dt * (pow0 (mac ((Rabs (s' - X) - k) / eta)) n * tsign (s' - X))) by (apply (Rmult_lt_reg_l E); lra).
  rewrite tsign_pos, Rabs_right, Rmult_1_r in Q by lra. set (z := (s' - X - k) / eta) in *.
  assert (Z : 0 < z) by (apply Rdiv_lt_0_compat; lra). rewrite mac_pos in Q by lra. rewrite pow0_pos in Q by auto.
  assert (Q1 : Rpower z n < de / dt).
  { apply (Rmult_lt_reg_l dt); auto. replace (dt * (de / dt)) with de by (field; lra). lra. }
  assert (Q2 : 0 < Rpower z n) by apply exp_pos.
  assert (de0 : 0 < de). { assert (0 < dt * Rpower z n) by now apply Rmult_lt_0_compat. lra. }
  rewrite (Rabs_right de) by lra. rewrite pow0_pos by (apply Rdiv_lt_0_compat; lra).
  assert (Q3 : z <= Rpower (de / dt) (/ n)).
  { rewrite <- (Rpower_1 z) at 1 by auto. replace 1 with (n * / n) by (field; lra). rewrite <- Rpower_mult. apply Rle_Rpower_l; [left; now apply Rinv_0_lt_compat|lra]. }
  assert (Q4 : s' - X - k <= eta * Rpower (de / dt) (/ n)).
  { replace (s' - X - k) with (eta * z) by (unfold z; field; lra). apply Rmult_le_compat_l; lra. }
  lra.
Qed.
Lemma vp_bound E dt n eta k X de s s' : 0 < E -> 0 < n -> 0 < eta -> 0 < dt -> 0 <= k ->
  s' - s = E * (de - dt * (pow0 (mac ((Rabs (s' - X) - k) / eta)) n * tsign (s' - X))) ->
  Rabs s' <= Rabs s \/ Rabs s' <= Rabs X + k + eta * pow0 (Rabs de / dt) (/ n).
Proof.
  intros HE Hn He Hd Hk H.
  destruct (Rtotal_order s' 0) as [N|[->|N]].
  - destruct (Rle_dec s s') as [L|L].
    + left. rewrite !Rabs_left1 by lra. lra.
    + right. rewrite (Rabs_left s') by lra. rewrite <- (Rabs_Ropp X), <- (Rabs_Ropp de).
      apply (vp_bound_pos E dt n eta k (- X) (- de) (- s) (- s')); auto; try lra.
      replace (- s' - - X) with (- (s' - X)) by ring. rewrite Rabs_Ropp.
      assert (O : tsign (- (s' - X)) = - tsign (s' - X)).
      { destruct (Rtotal_order (s' - X) 0) as [Q|[->|Q]]; [rewrite (tsign_neg (s' - X)), tsign_pos by lra; ring|rewrite Ropp_0, tsign_0; ring|rewrite (tsign_pos (s' - X)), tsign_neg by lra; ring]. }
      rewrite O. replace (- s' - - s) with (- (s' - s)) by ring. rewrite H. ring.
  - left. rewrite Rabs_R0. apply Rabs_pos.
  - destruct (Rle_dec s' s) as [L|L].
    + left. rewrite !Rabs_right by lra. lra.
    + right. rewrite (Rabs_right s') by lra. apply (vp_bound_pos E dt n eta k X de s s'); auto; lra.
Qed.

(** ** Energy *)
Lemma half_square a b C : 0 < C -> (a * a - b * b) / (2 * C) <= a * (a - b) / C.
Proof.
  intros H. apply (Rmult_le_reg_l (2 * C)); [lra|]. replace (2 * C * ((a * a - b * b) / (2 * C))) with (a * a - b * b) by (field; lra).
  replace (2 * C * (a * (a - b) / C)) with (2 * (a * (a - b))) by (field; lra). pose proof (Rle_0_sqr (a - b)) as Q. unfold Rsqr in Q. lra.
Qed.
(** a backstress stores at most the work done on it *)
Lemma back_energy dt C q ep x x' : 0 <= dt -> 0 < C -> 0 <= q -> x' - x = dt * (C * ep - q * x') -> (x' * x' - x * x) / (2 * C) <= dt * (x' * ep).
Proof.
  intros Hdt HC Hq E. eapply Rle_trans; [now apply half_square|]. rewrite E.
  replace (x' * (dt * (C * ep - q * x')) / C) with (dt * (x' * ep) - dt * q * (x' * x') / C) by (field; lra).
  assert (0 <= dt * q * (x' * x') / C). { apply Rmult_le_pos; [|left; now apply Rinv_0_lt_compat]. apply Rmult_le_pos; [now apply Rmult_le_pos|]. apply Rle_0_sqr. }
  lra.
Qed.
Lemma fsum_le n f g : (forall i, (i < n)%nat -> f i <= g i) -> sum n f <= sum n g.
Proof. induction n as [|n IH]; intros H; cbn; [lra|]. apply Rplus_le_compat; [apply IH; intros; apply H; lia|apply H; lia]. Qed.
Lemma fsum_ext n f g : (forall i, (i < n)%nat -> f i = g i) -> sum n f = sum n g.
Proof. induction n as [|n IH]; intros H; cbn; [reflexivity|]. rewrite IH, H by (auto; intros; apply H; lia). reflexivity. Qed.
Lemma fsum_scal n f a : sum n (fun i => a * f i) = a * sum n f.
Proof. induction n as [|n IH]; cbn; [ring|]. rewrite IH. ring. Qed.
Lemma fsum_minus n f g : sum n (fun i => f i - g i) = sum n f - sum n g.
Proof. induction n as [|n IH]; cbn; [ring|]. rewrite IH. ring. Qed.
Lemma fsum_abs n f : Rabs (sum n f) <= sum n (fun i => Rabs (f i)).
Proof. induction n as [|n IH]; cbn; [rewrite Rabs_R0; lra|]. eapply Rle_trans; [apply Rabs_triang|]. lra. Qed.
Lemma step_energy E nb (C q x x' : nat -> R) dt s s' de ep : 0 < E -> 0 <= dt -> (forall i, (i < nb)%nat -> 0 < C i /\ 0 <= q i) ->
  s' - s = E * (de - dt * ep) -> 0 <= (s' - sum nb x') * ep -> (forall i, (i < nb)%nat -> x' i - x i = dt * (C i * ep - q i * x' i)) ->
  (s' * s' / (2 * E) + sum nb (fun i => x' i * x' i / (2 * C i))) - (s * s / (2 * E) + sum nb (fun i => x i * x i / (2 * C i))) <= s' * de.
Proof.
  intros HE Hdt HC Hs D Hx.
  assert (A : s' * s' / (2 * E) - s * s / (2 * E) <= s' * de - dt * (s' * ep)).
  { pose proof (half_square s' s E HE) as Q. rewrite Hs in Q. replace (s' * (E * (de - dt * ep)) / E) with (s' * de - dt * (s' * ep)) in Q by (field; lra).
    unfold Rdiv in *. lra. }
  assert (B : sum nb (fun i => x' i * x' i / (2 * C i)) - sum nb (fun i => x i * x i / (2 * C i)) <= dt * (sum nb x' * ep)).
  { rewrite <- fsum_minus. replace (dt * (sum nb x' * ep)) with ((dt * ep) * sum nb x') by ring. rewrite <- fsum_scal. apply fsum_le. intros i Hi. destruct (HC i Hi).
    replace (dt * ep * x' i) with (dt * (x' i * ep)) by ring.
    pose proof (back_energy dt (C i) (q i) ep (x i) (x' i) Hdt ltac:(auto) ltac:(auto) (Hx i Hi)) as Q. unfold Rdiv in *. lra. }
  assert (0 <= dt * ((s' - sum nb x') * ep)) by now apply Rmult_le_pos.
  lra.
Qed.

(** ** Elastic range *)
(** [h] is the history of the virgin material *)
Definition virgin (n : nat) (h : vec) : Prop := forall i, (i < n)%nat -> h i = 0.
(** a hardening model that stays at rest when the material does not flow *)
Definition rests (m : hardening) (T : R) : Prop := forall s h t e, virgin (hd_nhist m) h -> hd_value m h = 0 /\
  forall i, (i < hd_nhist m)%nat -> hd_rate m s h t 0 T e i = 0 /\ hd_dstress m s h t 0 T e i = 0 /\
    forall j, (j < hd_nhist m)%nat -> hd_dhistory m s h t 0 T e i j = 0.
(** a flow rule that is elastic in the virgin state for stresses up to Y *)
Definition elastic_upto (F : flowrule) (T Y : R) : Prop := forall s h t e, Rabs s <= Y -> virgin (fl_nhist F) h ->
  fl_rate F s h t T e = 0 /\ fl_ds F s h t T e = 0 /\ (forall j, (j < fl_nhist F)%nat -> fl_dh F s h t T e j = 0) /\
  forall i, (i < fl_nhist F)%nat -> fl_hrate F s h t T e i = 0 /\ fl_hds F s h t T e i = 0 /\ forall j, (j < fl_nhist F)%nat -> fl_hdh F s h t T e i j = 0.
Lemma fsum_zero n f : (forall i, (i < n)%nat -> f i = 0) -> sum n f = 0.
Proof. intros H. rewrite (fsum_ext n f (fun _ => 0 * 0)) by (intros; rewrite H by auto; ring). rewrite fsum_scal. ring. Qed.
Lemma rests_voce Rs d T : rests (voce Rs d) T.
Proof.
  intros s h t e V. cbn [voce hd_nhist] in V. split; [apply V; lia|]. intros i Hi. cbn. unfold vzero. rewrite Rabs_R0.
  repeat split; intros; ring.
Qed.
Lemma rests_theta0voce tau theta T : rests (theta0voce tau theta) T.
Proof.
  intros s h t e V. cbn [theta0voce hd_nhist] in V. split; [apply V; lia|]. intros i Hi. cbn. unfold vzero. rewrite Rabs_R0.
  repeat split; intros; ring.
Qed.
Lemma rests_nokin T : rests nokin T.
Proof. intros s h t e V. split; [reflexivity|]. intros i Hi. cbn in Hi. lia. Qed.
Lemma rests_fa_norecovery C g T : rests (fa_norecovery C g) T.
Proof.
  intros s h t e V. cbn [fa_norecovery hd_nhist] in V. split; [apply V; lia|]. intros i Hi. cbn. unfold vzero. rewrite Rabs_R0.
  repeat split; intros; ring.
Qed.
Lemma rests_chaboche nback C g T : rests (chaboche nback C g) T.
Proof.
  intros s h t e V. cbn [chaboche hd_nhist] in V. split; [now apply fsum_zero|]. intros i Hi. cbn. unfold vzero, diag_embed. rewrite Rabs_R0.
  repeat split; intros; [ring|]. destruct (i =? j)%nat; ring.
Qed.
Lemma rests_chaboche_recovery nback C g b r T : (forall i, r T i <> 1) -> rests (chaboche_recovery nback C g b r) T.
Proof.
  intros Hr s h t e V. cbn [chaboche_recovery hd_nhist] in V. split; [now apply fsum_zero|]. intros i Hi. cbn. unfold vzero, diag_embed.
  rewrite (V i Hi), !Rabs_R0, pow0_0 by (specialize (Hr i); lra). repeat split; intros; [ring|]. destruct (i =? j)%nat; ring.
Qed.
Lemma ik_elastic n eta s0 iso kin T : 1 < n T -> 0 < eta T -> rests iso T -> rests kin T -> elastic_upto (isokin n eta s0 iso kin) T (s0 T).
Proof.
  intros Hn He Ri Rk s h t e Hs V. cbn [isokin fl_nhist] in V.
  assert (Vi : virgin (hd_nhist iso) h) by (intros i Hi; apply V; lia).
  assert (Vk : virgin (hd_nhist kin) (slice (hd_nhist iso) h)) by (intros i Hi; apply V; lia).
  assert (Z : macaulay ((Rabs (s - ik_kin iso kin h) - s0 T - ik_iso iso h) / eta T) = 0).
  { unfold ik_kin, ik_iso. rewrite (proj1 (Ri s h t e Vi)), (proj1 (Rk s _ t e Vk)), macaulay_mac. unfold mac.
    rewrite Rmax_right; [reflexivity|]. rewrite Rminus_0_r, Rminus_0_r. apply (Rmult_le_reg_r (eta T)); [lra|]. unfold Rdiv. rewrite Rmult_assoc, Rinv_l by lra. lra. }
  assert (Z1 : ik_rate n eta s0 iso kin s h t T e = 0) by (unfold ik_rate; rewrite Z, pow0_0 by lra; ring).
  assert (Z2 : ik_ds n eta s0 iso kin s h t T e = 0) by (unfold ik_ds; rewrite Z, pow0_0 by lra; unfold Rdiv; ring).
  assert (Z3 : ik_diso n eta s0 iso kin s h t T e = 0) by (unfold ik_diso; cbv zeta; rewrite Z, pow0_0 by lra; unfold Rdiv; ring).
  assert (Z4 : ik_dkin n eta s0 iso kin s h t T e = 0) by (unfold ik_dkin; rewrite Z, pow0_0 by lra; unfold Rdiv; ring).
  destruct (Ri s h t e Vi) as [_ Ri']. destruct (Rk s _ t e Vk) as [_ Rk'].
  cbn [isokin fl_rate fl_ds fl_dh fl_hrate fl_hds fl_hdh fl_nhist]. cbv zeta. rewrite Z1.
  split; [auto|split; [auto|split]].
  - intros j Hj. unfold cat. destruct (j <? hd_nhist iso)%nat; rewrite ?Z3, ?Z4; ring.
  - intros i Hi. destruct (Nat.ltb_spec i (hd_nhist iso)) as [L|L].
    + destruct (Ri' i L) as (A & B & Cc). repeat split.
      * rewrite cat_l by auto. exact A.
      * rewrite cat_l by auto. rewrite B, Z2. ring.
      * intros j Hj. unfold cat. destruct (Nat.ltb_spec j (hd_nhist iso)); rewrite ?Z3, ?Z4; [rewrite Cc by auto|]; ring.
    + destruct (Rk' (i - hd_nhist iso)%nat ltac:(lia)) as (A & B & Cc). unfold cat at 1 2. destruct (Nat.ltb_spec i (hd_nhist iso)); [lia|]. repeat split.
      * exact A.
      * rewrite B, Z2. ring.
      * intros j Hj. unfold cat. destruct (Nat.ltb_spec j (hd_nhist iso)); rewrite ?Z3, ?Z4; [ring|rewrite Cc by lia; ring].
Qed.
Lemma inelastic_elastic E F T Y y t e : elastic_upto F T Y -> Rabs (y 0%nat) <= Y -> (forall i, (i < fl_nhist F)%nat -> y (S i) = 0) ->
  let B := inelastic E F in rf_rate B t y e T 0%nat = E T * e /\ (forall i, (i < fl_nhist F)%nat -> rf_rate B t y e T (S i) = 0) /\
  forall i j, (i < rf_n B)%nat -> (j < rf_n B)%nat -> rf_jac B t y e T i j = 0.
Proof.
  intros H Hs V B. destruct (H (y 0%nat) (slice 1 y) t e Hs V) as (A1 & A2 & A3 & A4). subst B. cbn [inelastic rf_rate rf_jac rf_n]. cbv zeta.
  split; [|split].
  - rewrite cat_l by lia. rewrite A1. ring.
  - intros i Hi. unfold cat. cbn [Nat.ltb Nat.leb]. rewrite Nat.sub_succ, Nat.sub_0_r. now apply A4.
  - intros i j Hi Hj. destruct i as [|i].
    + cbn [Nat.ltb Nat.leb]. unfold cat. destruct j as [|j]; cbn [Nat.ltb Nat.leb]; [rewrite A2; ring|]. rewrite Nat.sub_succ, Nat.sub_0_r, A3 by lia. ring.
    + change (S i <? 1)%nat with false. cbv iota. rewrite Nat.sub_succ, Nat.sub_0_r. unfold cat. destruct (A4 i ltac:(lia)) as (_ & B1 & B2).
      destruct j as [|j]; cbn [Nat.ltb Nat.leb]; [exact B1|]. rewrite Nat.sub_succ, Nat.sub_0_r. apply B2. lia.
Qed.

(** the inner solve of the stress-controlled models reads the points of the batch only *)
Lemma sb_forward_local B N t cs csr cT y y' : (forall i, (i < N)%nat -> set0 (cs i) (y i) = set0 (cs i) (y' i)) ->
  exists r J r' J', sb_forward B N t cs csr cT y = Some (r, J) /\ sb_forward B N t cs csr cT y' = Some (r', J') /\
  forall i, (i < N)%nat -> r i = r' i /\ J i = J' i.
Proof.
  intros H.
  assert (P : forall y, exists q, (sb_solve B N t cs csr cT y = Ok q \/ sb_solve B N t cs csr cT y = Warned q) /\
     q = nr_solve (sb_RJ B t cs csr cT y) (sb_norm N) (/ 10 ^ 6) (/ 10 ^ 10) (sb_solver DiagSolve) sb_sub 100 (fun _ => 0)).
  { intros z. rewrite sb_solve_def. unfold sb_solve_with, newton_raphson. cbn [choose_solver Nat.eqb]. unfold newton_raphson_core.
    eexists. split; [|reflexivity]. destruct (_ =? _)%nat; auto. }
  destruct (P y) as (q & Hq & Eq). destruct (P y') as (q' & Hq' & Eq').
  set (f := sb_RJ B t cs csr cT y) in *. set (f' := sb_RJ B t cs csr cT y') in *. set (st := sb_solver DiagSolve) in *.
  assert (FE : forall x x' : nat -> R, (forall i, (i < N)%nat -> x i = x' i) -> forall i, (i < N)%nat -> fst (f x) i = fst (f' x') i /\ snd (f x) i = snd (f' x') i).
  { intros x x' Hx i Hi. unfold f, f', sb_RJ. cbn [fst snd]. now rewrite (H i Hi), (Hx i Hi). }
  assert (PE : forall k i, (i < N)%nat -> point f st sb_sub (fun _ => 0) k i = point f' st sb_sub (fun _ => 0) k i).
  { induction k as [|k IH]; intros i Hi; [reflexivity|]. set (a := point f st sb_sub (fun _ => 0) k) in *. set (a' := point f' st sb_sub (fun _ => 0) k) in *.
    change (a i - fst (f a) i / snd (f a) i = a' i - fst (f' a') i / snd (f' a') i). destruct (FE a a' IH i Hi) as [E1 E2]. now rewrite E1, E2, (IH i Hi). }
  assert (NE : forall k, norms f (sb_norm N) (point f st sb_sub (fun _ => 0) k) = norms f' (sb_norm N) (point f' st sb_sub (fun _ => 0) k)).
  { intros k. unfold norms, sb_norm. apply map_ext_in. intros i Hi%in_seq. do 2 f_equal. apply (FE _ _ (PE k) i). lia. }
  pose proof (nr_solve_spec f (sb_norm N) (/ 10 ^ 6) (/ 10 ^ 10) st sb_sub 100 (fun _ => 0)) as S1. cbv zeta in S1. rewrite <- Eq in S1.
  pose proof (nr_solve_spec f' (sb_norm N) (/ 10 ^ 6) (/ 10 ^ 10) st sb_sub 100 (fun _ => 0)) as S2. cbv zeta in S2. rewrite <- Eq' in S2.
  destruct S1 as (A1 & A2 & _ & _ & _ & A3 & A4). destruct S2 as (B1 & B2 & _ & _ & _ & B3 & B4).
  assert (I : res_iters q = res_iters q').
  { pose proof (NE 0%nat) as N0. change (point f st sb_sub (fun _ => 0) 0) with (fun _ : nat => 0) in N0. change (point f' st sb_sub (fun _ => 0) 0) with (fun _ : nat => 0) in N0.
    destruct (Nat.lt_trichotomy (res_iters q) (res_iters q')) as [L|[L|L]]; auto; exfalso.
    - specialize (A4 ltac:(lia)). specialize (B3 _ L). rewrite A2, NE, N0 in A4. congruence.
    - specialize (B4 ltac:(lia)). specialize (A3 _ L). rewrite B2, <- NE, <- N0 in B4. congruence. }
  assert (X : forall i, (i < N)%nat -> res_x q i = res_x q' i) by (intros i Hi; rewrite A2, B2, <- I; now apply PE).
  do 4 eexists. split; [apply (sb_forward_of _ _ _ _ _ _ _ _ Hq)|]. split; [apply (sb_forward_of _ _ _ _ _ _ _ _ Hq')|].
  intros i Hi. rewrite (X i Hi). unfold sb_rate, sb_jac. now rewrite (H i Hi).
Qed.
Lemma rate_incr x y d q : q <> 0 -> x + q * (y * (d / q)) = x + y * d.
Proof. intros. field. auto. Qed.

(** bookkeeping of the distance to the elastic solution (ElasticRange.v) *)
Lemma within_plus x a c y : Rabs (a - x) <= c -> Rabs x + c <= y -> Rabs a <= y.
Proof. intros H1 H2. replace a with (x + (a - x)) by ring. eapply Rle_trans; [apply Rabs_triang|lra]. Qed.
Lemma rate_back dt d : dt <> 0 -> dt * (d / dt) = d.
Proof. intros H. field. exact H. Qed.
Lemma mul_swap a b c : a * (b * c) = b * (a * c).
Proof. ring. Qed.
Lemma inner_scale E dt u s : 0 < E -> 0 <= dt -> Rabs (E * u - s) <= / 10 ^ 10 -> Rabs (dt * u - (dt * s) / E) <= dt / (10 ^ 10 * E).
Proof.
  intros HE Hd H. replace (dt * u - dt * s / E) with ((dt / E) * (E * u - s)) by (field; lra).
  assert (0 <= dt / E) by (apply Rmult_le_pos; [lra|left; now apply Rinv_0_lt_compat]).
  rewrite Rabs_mult, (Rabs_right (dt / E)) by lra. replace (dt / (10 ^ 10 * E)) with (dt / E * / 10 ^ 10) by (field; lra).
  now apply Rmult_le_compat_l.
Qed.
Lemma abs_step_eq a s d k t : 0 <= t -> Rabs (a - s) <= k * t -> Rabs (a + d - (s + d)) <= (k + 1) * t.
Proof. intros Ht H. replace (a + d - (s + d)) with (a - s) by ring. lra. Qed.
Lemma abs_step_le a s d d' k t e e' : 0 <= t -> Rabs (a - s) <= k * t + e -> Rabs (d - d') <= e' -> Rabs (a + d - (s + d')) <= (k + 1) * t + (e + e').
Proof. intros Ht H H'. replace (a + d - (s + d')) with (a - s + (d - d')) by ring. eapply Rle_trans; [apply Rabs_triang|lra]. Qed.
Lemma abs_skip_eq a s d k t : Rabs (a - s) <= k * t -> Rabs d <= t -> Rabs (a - (s + d)) <= (k + 1) * t.
Proof. intros H H'. replace (a - (s + d)) with (a - s + - d) by ring. eapply Rle_trans; [apply Rabs_triang|rewrite Rabs_Ropp; lra]. Qed.
Lemma abs_skip_le a s d d' k t e e' : Rabs (a - s) <= k * t + e -> Rabs (d - d') <= e' -> Rabs d <= t -> Rabs (a - (s + d')) <= (k + 1) * t + (e + e').
Proof. intros H H' Hd. replace (a - (s + d')) with (a - s + ((d - d') + - d)) by ring. eapply Rle_trans; [apply Rabs_triang|]. pose proof (Rabs_triang (d - d') (- d)). rewrite Rabs_Ropp in *. lra. Qed.
Lemma abs_le0 a b : Rabs (a - b) <= 0 -> a = b.
Proof. intros H. unfold Rabs in H. destruct (Rcase_abs _); lra. Qed.
