(** Newton's method for x + K p(x) = c with an odd function p that is increasing and convex on the positive axis, when the right-hand
    side c itself varies from iteration to iteration and converges: the iterates converge to the root from any starting point.
    (No code is modelled here.) *)
From Coq Require Import Reals Lra Lia Psatz.
Open Scope R_scope.

(** p is odd, dp is even and non-negative, and the tangents (with slope dp) lie below p on the positive axis *)
Definition odd_convex (p dp : R -> R) : Prop :=
  (forall s, p (- s) = - p s) /\ (forall s, dp (- s) = dp s) /\ (forall s, 0 <= dp s) /\
  (forall s u, 0 <= s -> 0 <= u -> p s + dp s * (u - s) <= p u).

Lemma Rabs_le2 x a : - a <= x -> x <= a -> Rabs x <= a.
Proof. intros; apply Rabs_le; lra. Qed.
Lemma Rabs_le_inv2 x a : Rabs x <= a -> - a <= x <= a.
Proof. unfold Rabs. destruct (Rcase_abs x); lra. Qed.

Section Nice.
Variables (p dp : R -> R).
Hypothesis N : odd_convex p dp.
Lemma oc_0 : p 0 = 0.
Proof. destruct N as [O _]. pose proof (O 0) as H. rewrite Ropp_0 in H. lra. Qed.
Lemma oc_mono s u : 0 <= s -> s <= u -> p s <= p u.
Proof. intros S U. destruct N as (_ & _ & D & T). pose proof (T s u S ltac:(lra)). pose proof (Rmult_le_pos (dp s) (u - s) (D s) ltac:(lra)). lra. Qed.
Lemma oc_pos s : 0 <= s -> 0 <= p s.
Proof. intros. rewrite <- oc_0. apply oc_mono; lra. Qed.
Lemma oc_dp_pos s B : 0 <= s -> s <= B -> dp s <= p (B + 1).
Proof. intros S SB. destruct N as (_ & _ & D & T). pose proof (T s (s + 1) S ltac:(lra)). pose proof (oc_pos s S). pose proof (oc_mono (s + 1) (B + 1) ltac:(lra) ltac:(lra)). lra. Qed.
Lemma oc_dp s B : Rabs s <= B -> dp s <= p (B + 1).
Proof.
  intros H. apply Rabs_le_inv2 in H. destruct (Rle_lt_dec 0 s); [apply oc_dp_pos; lra|].
  destruct N as (_ & E & _). rewrite <- (E s). apply oc_dp_pos; lra.
Qed.
Lemma oc_lip_pos s u B : 0 <= s -> s <= u -> u <= B -> 0 <= p u - p s <= p (B + 1) * (u - s).
Proof.
  intros S U UB. pose proof (oc_mono s u S U). destruct N as (_ & _ & D & T). pose proof (T u s ltac:(lra) S).
  pose proof (oc_dp_pos u B ltac:(lra) UB). pose proof (Rmult_le_compat_r (u - s) _ _ ltac:(lra) H1). lra.
Qed.
Lemma oc_lip_le s u B : Rabs s <= B -> Rabs u <= B -> s <= u -> 0 <= p u - p s <= p (B + 1) * (u - s).
Proof.
  intros HS HU U. apply Rabs_le_inv2 in HS. apply Rabs_le_inv2 in HU. pose proof N as (O & _).
  destruct (Rle_lt_dec 0 s); [apply oc_lip_pos; lra|]. destruct (Rle_lt_dec 0 u).
  - pose proof (oc_lip_pos 0 u B ltac:(lra) ltac:(lra) ltac:(lra)). pose proof (oc_lip_pos 0 (- s) B ltac:(lra) ltac:(lra) ltac:(lra)).
    rewrite O in *. rewrite oc_0 in *. lra.
  - pose proof (oc_lip_pos (- u) (- s) B ltac:(lra) ltac:(lra) ltac:(lra)). rewrite !O in *. lra.
Qed.
Lemma oc_lip s u B : Rabs s <= B -> Rabs u <= B -> Rabs (p u - p s) <= p (B + 1) * Rabs (u - s).
Proof.
  intros HS HU. destruct (Rle_lt_dec s u).
  - pose proof (oc_lip_le s u B HS HU r). rewrite (Rabs_pos_eq (u - s)) by lra. apply Rabs_le2; lra.
  - pose proof (oc_lip_le u s B HU HS ltac:(lra)). rewrite (Rabs_left (u - s)) by lra. apply Rabs_le2; lra.
Qed.
Lemma oc_cont : continuity p.
Proof.
  intros x eps E. pose (B := Rabs x + 1). assert (P : 0 <= p (B + 1)) by (apply oc_pos; unfold B; pose proof (Rabs_pos x); lra).
  exists (Rmin 1 (eps / (p (B + 1) + 1))). split; [apply Rmin_glb_lt; [lra|apply Rdiv_lt_0_compat; lra]|].
  intros y [_ Hy]. simpl in *. unfold R_dist in *.
  assert (H1 : Rabs (y - x) < 1) by (eapply Rlt_le_trans; [exact Hy|apply Rmin_l]).
  assert (H2 : Rabs (y - x) < eps / (p (B + 1) + 1)) by (eapply Rlt_le_trans; [exact Hy|apply Rmin_r]).
  assert (Rabs y <= B) by (unfold B; pose proof (Rabs_triang (y - x) x); replace (y - x + x) with y in * by ring; lra).
  eapply Rle_lt_trans; [apply (oc_lip x y B); [unfold B; lra|auto]|].
  assert (Rabs (y - x) * (p (B + 1) + 1) < eps).
  { apply Rmult_lt_compat_r with (r := p (B + 1) + 1) in H2; [|lra]. replace (eps / (p (B + 1) + 1) * (p (B + 1) + 1)) with eps in H2 by (field; lra). exact H2. }
  pose proof (Rabs_pos (y - x)). nra.
Qed.
End Nice.

Lemma cv_of_abs u l : (forall eps, 0 < eps -> exists J, forall j, (J <= j)%nat -> Rabs (u j - l) <= eps) -> Un_cv u l.
Proof.
  intros H eps E. destruct (H (eps / 2) ltac:(lra)) as [J HJ]. exists J. intros j Hj. unfold R_dist. specialize (HJ j Hj). lra.
Qed.
Lemma abs_of_cv u l : Un_cv u l -> forall eps, 0 < eps -> exists J, forall j, (J <= j)%nat -> Rabs (u j - l) <= eps.
Proof. intros H eps E. destruct (H eps E) as [J HJ]. exists J. intros j Hj. specialize (HJ j Hj). unfold R_dist in HJ. lra. Qed.

Lemma nat_above x : exists m, x < INR m.
Proof.
  destruct (archimed (Rabs x)) as [H _]. pose proof (Rle_abs x). pose proof (Rabs_pos x). exists (Z.to_nat (up (Rabs x))).
  rewrite INR_IZR_INZ, Z2Nat.id; [lra|]. apply le_IZR. lra.
Qed.
Lemma contraction_tail (e : nat -> R) theta eta J : 0 <= theta < 1 -> 0 <= eta -> (forall j, 0 <= e j) ->
  (forall j, (J <= j)%nat -> e (S j) <= theta * e j + eta) ->
  forall eps, 0 < eps -> exists J', forall j, (J' <= j)%nat -> e j <= eta / (1 - theta) + eps.
Proof.
  intros Th Et E0 H eps Ep.
  assert (G : forall m, e (J + m)%nat <= theta ^ m * e J + eta / (1 - theta)).
  { induction m as [|m IH].
    - rewrite Nat.add_0_r. simpl. assert (0 <= eta / (1 - theta)) by (apply Rmult_le_pos; [lra|left; apply Rinv_0_lt_compat; lra]). lra.
    - replace (J + S m)%nat with (S (J + m)) by lia. eapply Rle_trans; [apply H; lia|].
      pose proof (Rmult_le_compat_l theta _ _ (proj1 Th) IH) as Q.
      assert (eta / (1 - theta) = theta * (eta / (1 - theta)) + eta) by (field; lra). simpl. lra. }
  destruct (pow_lt_1_zero theta ltac:(rewrite Rabs_pos_eq; lra) (eps / (e J + 1)) ltac:(apply Rdiv_lt_0_compat; [lra|pose proof (E0 J); lra])) as [m0 Hm].
  exists (J + m0)%nat. intros j Hj. replace j with (J + (j - J))%nat by lia. eapply Rle_trans; [apply G|].
  specialize (Hm (j - J)%nat ltac:(lia)). pose proof (E0 J). pose proof (pow_le theta (j - J) (proj1 Th)).
  rewrite Rabs_pos_eq in Hm by auto.
  assert (theta ^ (j - J) * (e J + 1) < eps).
  { apply Rmult_lt_compat_r with (r := e J + 1) in Hm; [|lra]. replace (eps / (e J + 1) * (e J + 1)) with eps in Hm by (field; lra). exact Hm. }
  nra.
Qed.

Section Step.
Variables (K : R) (p dp : R -> R).
Hypothesis K0 : 0 <= K.
Hypothesis N : odd_convex p dp.

(** one Newton iteration from s for x + K p(x) = c gives s' *)
Definition newton_to (s c s' : R) : Prop := s' * (1 + K * dp s) = c + K * (dp s * s - p s).

Lemma newton_to_odd s c s' : newton_to s c s' -> newton_to (- s) (- c) (- s').
Proof. unfold newton_to. destruct N as (O & E & _). rewrite O, E. intros. lra. Qed.

Lemma newton_bound s c s' B : newton_to s c s' -> Rabs c <= B -> Rabs s <= B -> Rabs s' <= B.
Proof.
  assert (G : forall s c s', 0 <= s -> newton_to s c s' -> Rabs c <= B -> Rabs s <= B -> Rabs s' <= B).
  { clear s c s'. intros s c s' S H C SB. unfold newton_to in H. apply Rabs_le_inv2 in C. apply Rabs_le_inv2 in SB.
    pose proof (oc_pos _ _ N s S) as P. destruct N as (_ & _ & D & T). pose proof (D s) as Ds.
    pose proof (T s 0 S ltac:(lra)) as T0. rewrite (oc_0 _ _ N) in T0.
    pose proof (Rmult_le_pos _ _ K0 P) as KP. pose proof (Rmult_le_pos _ _ K0 Ds) as KD. pose proof (Rmult_le_pos K (dp s * s - p s) K0 ltac:(lra)).
    assert (B0 : 0 <= B) by lra. pose proof (Rmult_le_compat_l _ _ _ KD (proj2 SB)). pose proof (Rmult_le_pos _ _ KD B0).
    apply Rabs_le2.
    - apply Rmult_le_reg_r with (1 + K * dp s); [lra|]. rewrite H. nra.
    - apply Rmult_le_reg_r with (1 + K * dp s); [lra|]. rewrite H. nra. }
  intros H C S. destruct (Rle_lt_dec 0 s); [now apply (G s c s')|].
  rewrite <- Rabs_Ropp. apply (G (- s) (- c) (- s')); [lra|now apply newton_to_odd|now rewrite Rabs_Ropp|now rewrite Rabs_Ropp].
Qed.

Variables (r c : R).
Hypothesis root : r + K * p r = c.
Lemma newton_gap s c1 s' : newton_to s c1 s' -> (s' - r) * (1 + K * dp s) = (c1 - c) + K * (p r - (p s + dp s * (r - s))).
Proof. unfold newton_to. intros H. rewrite <- root. replace ((s' - r) * (1 + K * dp s)) with (s' * (1 + K * dp s) - r * (1 + K * dp s)) by ring. rewrite H. ring. Qed.

Lemma div_ge1 x y q : 1 <= q -> 0 <= y -> x * q <= y -> x <= y.
Proof. intros. destruct (Rle_lt_dec x 0); [lra|]. nra. Qed.

Lemma newton_above s c1 s' : 0 <= r -> 0 <= s -> newton_to s c1 s' -> r - Rabs (c1 - c) <= s'.
Proof.
  intros R0' S H. apply newton_gap in H. destruct N as (_ & _ & D & T). pose proof (T s r S R0'). pose proof (Rmult_le_pos _ _ K0 (D s)).
  pose proof (Rmult_le_pos K (p r - (p s + dp s * (r - s))) K0 ltac:(lra)).
  pose proof (Rle_abs (- (c1 - c))). rewrite Rabs_Ropp in *.
  assert (- (s' - r) <= Rabs (c1 - c)); [|lra]. apply div_ge1 with (1 + K * dp s); [lra|apply Rabs_pos|]. lra.
Qed.
Lemma newton_right s c1 s' B : 0 <= r -> r <= s -> s <= B -> newton_to s c1 s' ->
  s' - r <= (1 - / (1 + K * p (B + 1))) * (s - r) + Rabs (c1 - c).
Proof.
  intros R0' S SB H. apply newton_gap in H. pose proof (oc_dp_pos _ _ N s B ltac:(lra) SB) as DB.
  pose proof (oc_mono _ _ N r s R0' S) as M. destruct N as (_ & _ & D & T). pose proof (D s) as Ds. pose proof (Rmult_le_pos _ _ K0 Ds) as KD.
  pose proof (Rmult_le_compat_l _ _ _ K0 DB) as KDB. pose proof (Rmult_le_pos K (p s - p r) K0 ltac:(lra)) as KM.
  pose proof (Rle_abs (c1 - c)) as A. pose proof (Rabs_pos (c1 - c)) as AP.
  set (q := 1 + K * dp s) in *. set (MM := 1 + K * p (B + 1)). assert (Q1 : 1 <= q) by (unfold q; lra). assert (QM : q <= MM) by (unfold q, MM; lra).
  assert (E : (s' - r) * q <= Rabs (c1 - c) + (q - 1) * (s - r)) by (unfold q in *; lra).
  assert (I1 : / MM <= / q) by (apply Rinv_le_contravar; lra).
  assert (I2 : s' - r <= Rabs (c1 - c) * / q + (1 - / q) * (s - r)).
  { apply Rmult_le_reg_r with q; [lra|]. eapply Rle_trans; [exact E|]. right. field. lra. }
  assert (I3 : / q <= 1) by (rewrite <- Rinv_1; apply Rinv_le_contravar; lra).
  pose proof (Rmult_le_compat_l _ _ _ AP I3). pose proof (Rmult_le_compat_r (s - r) _ _ ltac:(lra) I1). lra.
Qed.
Lemma newton_left s c1 s' B : 0 <= s -> s <= r -> r <= B -> newton_to s c1 s' ->
  s' - r <= K * p (B + 1) * (r - s) + Rabs (c1 - c).
Proof.
  intros S SR RB H. apply newton_gap in H. pose proof (oc_lip_pos _ _ N s r B S SR RB) as L. destruct N as (_ & _ & D & T). pose proof (D s) as Ds.
  pose proof (Rmult_le_pos _ _ K0 Ds) as KD. pose proof (Rle_abs (c1 - c)) as A. pose proof (Rabs_pos (c1 - c)) as AP.
  pose proof (Rmult_le_compat_l _ _ _ K0 (proj2 L)). pose proof (Rmult_le_pos (K * dp s) (r - s) KD ltac:(lra)).
  pose proof (Rmult_le_pos _ _ K0 (proj1 L)).
  apply div_ge1 with (1 + K * dp s); lra.
Qed.
(** from the wrong side: towards zero by at least a fixed amount *)
Lemma newton_up s c1 s' B g : s < 0 -> - s <= B -> 0 <= g -> g <= c1 -> newton_to s c1 s' -> s + g / (1 + K * p (B + 1)) <= s'.
Proof.
  intros S SB G C H. unfold newton_to in H. pose proof (oc_dp _ _ N s B ltac:(rewrite Rabs_left; lra)) as DB.
  pose proof (oc_pos _ _ N (- s) ltac:(lra)) as P. destruct N as (O & _ & D & _). rewrite O in P. pose proof (D s) as Ds.
  pose proof (Rmult_le_pos _ _ K0 Ds) as KD. pose proof (Rmult_le_compat_l _ _ _ K0 DB) as KDB. pose proof (Rmult_le_pos _ _ K0 P).
  set (q := 1 + K * dp s) in *. set (MM := 1 + K * p (B + 1)).
  assert (E : g <= (s' - s) * q) by (unfold q in *; lra).
  assert (Q1 : 1 <= q <= MM) by (unfold q, MM; lra).
  assert (0 <= s' - s) by (destruct (Rle_lt_dec 0 (s' - s)); [auto|nra]).
  assert (g <= (s' - s) * MM) by nra.
  assert (g / MM <= s' - s); [|lra]. apply Rmult_le_reg_r with MM; [lra|]. unfold Rdiv. rewrite Rmult_assoc, Rinv_l by lra. lra.
Qed.
End Step.

Lemma root_exists K p dp c : 0 <= K -> odd_convex p dp -> 0 <= c -> exists r, 0 <= r <= c /\ r + K * p r = c.
Proof.
  intros K0 N C.
  assert (Q : continuity (fun x => x + K * p x - c)).
  { apply continuity_minus; [|apply continuity_const; now intros ? ?]. apply continuity_plus; [apply derivable_continuous, derivable_id|].
    apply continuity_scal. now apply oc_cont with dp. }
  destruct (IVT_cor _ 0 c Q C) as [z [Hz Ez]].
  - rewrite (oc_0 _ _ N). pose proof (Rmult_le_pos _ _ K0 (oc_pos _ _ N c C)). nra.
  - exists z. split; [exact Hz|lra].
Qed.

Section Converge.
Variables (K : R) (p dp : R -> R) (x cs : nat -> R).
Hypothesis K0 : 0 <= K.
Hypothesis N : odd_convex p dp.
Hypothesis iter : forall j, newton_to K p dp (x j) (cs j) (x (S j)).

Lemma iter_bound B : Rabs (x 0%nat) <= B -> (forall j, Rabs (cs j) <= B) -> forall j, Rabs (x j) <= B.
Proof. intros H0 HC. induction j as [|j IH]; [exact H0|]. apply newton_bound with (1 := K0) (2 := N) (3 := iter j); auto. Qed.

Lemma cv_bounded c : Un_cv cs c -> exists B, 0 <= B /\ Rabs c <= B /\ (forall j, Rabs (cs j) <= B) /\ forall j, Rabs (x j) <= B.
Proof.
  intros H. destruct (maj_by_pos cs (exist _ c H)) as [B [B0 HB]].
  exists (Rmax (Rabs (x 0%nat)) (Rmax B (Rabs c))). set (B' := Rmax _ _).
  assert (H1 : Rabs (x 0%nat) <= B') by apply Rmax_l. assert (H2 : Rmax B (Rabs c) <= B') by apply Rmax_r.
  assert (H3 : B <= Rmax B (Rabs c)) by apply Rmax_l. assert (H4 : Rabs c <= Rmax B (Rabs c)) by apply Rmax_r.
  assert (HC : forall j, Rabs (cs j) <= B') by (intros j; specialize (HB j); lra).
  repeat split; [lra|lra|exact HC|]. now apply iter_bound.
Qed.

Lemma converge_zero : Un_cv cs 0 -> Un_cv x 0.
Proof.
  intros H. destruct (cv_bounded 0 H) as (B & B0 & _ & _ & XB).
  set (MM := 1 + K * p (B + 1)). pose proof (oc_pos _ _ N (B + 1) ltac:(lra)) as PB. pose proof (Rmult_le_pos _ _ K0 PB) as KP.
  assert (M1 : 1 <= MM) by (unfold MM; lra). assert (I : 0 < / MM <= 1) by (split; [apply Rinv_0_lt_compat; lra|rewrite <- Rinv_1; apply Rinv_le_contravar; lra]).
  assert (root : 0 + K * p 0 = 0) by (rewrite (oc_0 _ _ N); ring).
  assert (G : forall j, Rabs (x (S j)) <= (1 - / MM) * Rabs (x j) + Rabs (cs j)).
  { intros j. assert (G : forall s c1 s', 0 <= s -> s <= B -> newton_to K p dp s c1 s' -> Rabs s' <= (1 - / MM) * Rabs s + Rabs c1).
    { intros s c1 s' S SB Hs. pose proof (newton_above K p dp K0 N 0 0 root s c1 s' ltac:(lra) S Hs) as A.
      pose proof (newton_right K p dp K0 N 0 0 root s c1 s' B ltac:(lra) S SB Hs) as A2. fold MM in A2. rewrite !Rminus_0_r in *. rewrite (Rabs_pos_eq s) by auto.
      pose proof (Rmult_le_pos (1 - / MM) s ltac:(lra) S). apply Rabs_le2; lra. }
    pose proof (Rabs_le_inv2 _ _ (XB j)) as XJ. destruct (Rle_lt_dec 0 (x j)); [apply G; [auto|lra|apply iter]|].
    rewrite <- (Rabs_Ropp (x (S j))), <- (Rabs_Ropp (x j)), <- (Rabs_Ropp (cs j)). apply G; [lra|lra|]. now apply newton_to_odd. }
  apply cv_of_abs. intros eps E.
  destruct (abs_of_cv _ _ H (eps / 2 * / MM)) as [J HJ]; [apply Rmult_lt_0_compat; lra|].
  destruct (contraction_tail (fun j => Rabs (x j)) (1 - / MM) (eps / 2 * / MM) J) with (eps := eps / 2) as [J' HJ'].
  - lra.
  - apply Rmult_le_pos; lra.
  - intros. apply Rabs_pos.
  - intros j Hj. specialize (HJ j Hj). rewrite Rminus_0_r in HJ. pose proof (G j). lra.
  - lra.
  - exists J'. intros j Hj. rewrite Rminus_0_r. specialize (HJ' j Hj). replace (eps / 2 * / MM / (1 - (1 - / MM))) with (eps / 2) in HJ' by (field; lra). lra.
Qed.

Lemma converge_pos c : 0 < c -> Un_cv cs c -> exists r, r + K * p r = c /\ Un_cv x r.
Proof.
  intros C H. destruct (root_exists K p dp c K0 N ltac:(lra)) as (r & [R0' RC] & root).
  exists r. split; [exact root|].
  assert (RP : 0 < r). { destruct R0' as [|<-]; [auto|]. rewrite (oc_0 _ _ N) in root. lra. }
  destruct (cv_bounded c H) as (B & B0 & CB & _ & XB). rewrite Rabs_pos_eq in CB by lra.
  set (MM := 1 + K * p (B + 1)). pose proof (oc_pos _ _ N (B + 1) ltac:(lra)) as PB. pose proof (Rmult_le_pos _ _ K0 PB) as KP.
  assert (M1 : 1 <= MM) by (unfold MM; lra). assert (I : 0 < / MM <= 1) by (split; [apply Rinv_0_lt_compat; lra|rewrite <- Rinv_1; apply Rinv_le_contravar; lra]).
  destruct (abs_of_cv _ _ H (Rmin (c / 2) r)) as [J0 HJ0]; [apply Rmin_glb_lt; lra|].
  assert (H0 : forall j, (J0 <= j)%nat -> c / 2 <= cs j /\ Rabs (cs j - c) <= r).
  { intros j Hj. specialize (HJ0 j Hj). pose proof (Rmin_l (c / 2) r). pose proof (Rmin_r (c / 2) r). apply Rabs_le_inv2 in HJ0. split; [lra|apply Rabs_le2; lra]. }
  (* some later iterate is non-negative *)
  assert (EX : exists J1, (J0 <= J1)%nat /\ 0 <= x J1).
  { set (g := c / 2 / MM). assert (GP : 0 < g) by (unfold g; apply Rdiv_lt_0_compat; lra).
    assert (Q : forall m, (exists J1, (J0 <= J1)%nat /\ 0 <= x J1) \/ x (J0 + m)%nat < 0 /\ x J0 + INR m * g <= x (J0 + m)%nat).
    { induction m as [|m IH].
      - rewrite Nat.add_0_r. simpl. destruct (Rle_lt_dec 0 (x J0)); [left; exists J0; split; [lia|lra]|right; lra].
      - destruct IH as [IH|[X1 X2]]; [now left|]. rewrite S_INR. replace (J0 + S m)%nat with (S (J0 + m)) by lia.
        destruct (H0 (J0 + m)%nat ltac:(lia)) as [C2 _]. pose proof (Rabs_le_inv2 _ _ (XB (J0 + m)%nat)).
        pose proof (newton_up K p dp K0 N (x (J0 + m)%nat) (cs (J0 + m)%nat) (x (S (J0 + m))) B (c / 2) X1 ltac:(lra) ltac:(lra) C2 (iter _)) as U.
        fold MM in U. fold g in U. destruct (Rle_lt_dec 0 (x (S (J0 + m)))); [left; exists (S (J0 + m)); split; [lia|lra]|right; split; [auto|lra]]. }
    destruct (nat_above (B / g)) as [m Hm]. destruct (Q m) as [|[X1 X2]]; [auto|exfalso].
    pose proof (Rabs_le_inv2 _ _ (XB J0)). assert (B < INR m * g). { apply Rmult_lt_compat_r with (r := g) in Hm; [|auto]. replace (B / g * g) with B in Hm by (field; lra). exact Hm. } lra. }
  destruct EX as (J1 & J01 & X1).
  assert (POS : forall j, (J1 <= j)%nat -> 0 <= x j).
  { intros j Hj. induction Hj as [|j Hj IH]; [exact X1|]. pose proof (newton_above K p dp K0 N r c root (x j) (cs j) (x (S j)) R0' IH (iter j)).
    destruct (H0 j ltac:(lia)). lra. }
  apply cv_of_abs. intros eps E. set (eta := eps / 4 * / MM * / MM).
  assert (EP : 0 < eta) by (unfold eta; repeat apply Rmult_lt_0_compat; lra).
  destruct (abs_of_cv _ _ H eta EP) as [J2 HJ2].
  set (J3 := S (Nat.max J1 J2)).
  assert (LOW : forall j, (J3 <= j)%nat -> r - eta <= x j).
  { intros [|j] Hj; [unfold J3 in Hj; lia|]. pose proof (newton_above K p dp K0 N r c root (x j) (cs j) (x (S j)) R0' (POS j ltac:(unfold J3 in Hj; lia)) (iter j)).
    specialize (HJ2 j ltac:(unfold J3 in Hj; lia)). lra. }
  destruct (contraction_tail (fun j => Rmax 0 (x j - r)) (1 - / MM) (MM * eta) J3) with (eps := eps / 2) as [J' HJ'].
  - lra.
  - apply Rmult_le_pos; lra.
  - intros. apply Rmax_l.
  - intros j Hj. specialize (HJ2 j ltac:(unfold J3 in Hj; lia)). specialize (LOW j Hj). specialize (POS j ltac:(unfold J3 in Hj; lia)).
    pose proof (Rabs_le_inv2 _ _ (XB j)) as XJ. pose proof (Rmax_l 0 (x j - r)) as E0.
    pose proof (Rmult_le_pos (1 - / MM) _ ltac:(lra) E0) as E1. pose proof (Rmult_le_compat_r eta _ _ ltac:(lra) M1) as E2.
    apply Rmax_lub; [lra|]. destruct (Rle_lt_dec r (x j)) as [L|L].
    + pose proof (newton_right K p dp K0 N r c root (x j) (cs j) (x (S j)) B R0' L ltac:(lra) (iter j)) as Q. fold MM in Q.
      rewrite Rmax_right by lra. lra.
    + pose proof (newton_left K p dp K0 N r c root (x j) (cs j) (x (S j)) B POS ltac:(lra) ltac:(lra) (iter j)) as Q.
      pose proof (Rmult_le_compat_l (K * p (B + 1)) (r - x j) eta KP ltac:(lra)). unfold MM in *. lra.
  - lra.
  - exists (Nat.max J3 J'). intros j Hj. specialize (HJ' j ltac:(lia)). specialize (LOW j ltac:(lia)). cbv beta in HJ'.
    replace (MM * eta / (1 - (1 - / MM))) with (eps / 4 * (/ MM * MM)) in HJ' by (unfold eta; field; lra). rewrite Rinv_l in HJ' by lra.
    assert (eta <= eps). { unfold eta. pose proof (Rmult_le_compat_l (eps / 4) _ _ ltac:(lra) (proj2 I)). pose proof (Rmult_le_compat (eps / 4 * / MM) (eps / 4 * 1) (/ MM) 1 ltac:(apply Rmult_le_pos; lra) ltac:(lra) ltac:(lra) ltac:(lra)). lra. }
    pose proof (Rmax_r 0 (x j - r)). apply Rabs_le2; lra.
Qed.
End Converge.

(** the iterates converge to a root, for any limit of the right-hand sides *)
Lemma newton_converges K p dp x cs c : 0 <= K -> odd_convex p dp -> (forall j, newton_to K p dp (x j) (cs j) (x (S j))) -> Un_cv cs c ->
  exists r, r + K * p r = c /\ Un_cv x r /\ Un_cv (fun j => p (x j)) (p r).
Proof.
  intros K0 N IT H.
  assert (G : exists r, r + K * p r = c /\ Un_cv x r).
  { destruct (Rtotal_order c 0) as [L|[->|L]].
    - destruct (converge_pos K p dp (fun j => - x j) (fun j => - cs j) K0 N) with (c := - c) as (r & E & V).
      + intros j. now apply newton_to_odd.
      + lra.
      + now apply CV_opp.
      + exists (- r). destruct N as (O & _). rewrite O. split; [lra|]. apply CV_opp in V. unfold opp_seq in V. intros eps Ep. destruct (V eps Ep) as [J HJ]. exists J. intros j Hj. specialize (HJ j Hj). now rewrite Ropp_involutive in HJ.
    - exists 0. rewrite (oc_0 _ _ N). split; [ring|]. now apply converge_zero with K p dp cs.
    - now apply converge_pos with dp cs. }
  destruct G as (r & E & V). exists r. split; [exact E|]. split; [exact V|].
  apply (continuity_seq p x r); [|exact V]. now apply oc_cont with dp.
Qed.
