(** How far apart two backward Euler steps of the Voce / Chaboche model can end when they start from nearby states, and histories that satisfy the step equations only
    up to a residual.  Only one of the two starting states has to lie in the range of the hardening variables. *)
From Coq Require Import Reals Lra Lia.
From Verif Require Import Torch Slices Deriv Hardening Flow Models VCStep VCHistory.
Local Open Scope R_scope.

Lemma abs_le2 a b : Rabs a <= b -> - b <= a <= b.
Proof. intros H. pose proof (Rle_abs a). pose proof (Rle_abs (- a)) as A. rewrite Rabs_Ropp in A. lra. Qed.
Lemma sum_abs N (a b : nat -> R) : Rabs (sum N a - sum N b) <= sum N (fun i => Rabs (a i - b i)).
Proof.
  induction N as [|N IH]; cbn; [rewrite Rminus_0_r, Rabs_R0; lra|]. replace (sum N a + a N - (sum N b + b N)) with ((sum N a - sum N b) + (a N - b N)) by ring.
  pose proof (Rabs_triang (sum N a - sum N b) (a N - b N)). lra.
Qed.
Lemma sum_nonneg N (a : nat -> R) : (forall i, (i < N)%nat -> 0 <= a i) -> 0 <= sum N a.
Proof. induction N as [|N IH]; intros H; cbn; [lra|]. specialize (IH ltac:(intros; apply H; lia)). specialize (H N ltac:(lia)). lra. Qed.
Lemma sum_term N (a : nat -> R) i : (forall j, (j < N)%nat -> 0 <= a j) -> (i < N)%nat -> a i <= sum N a.
Proof.
  induction N as [|N IH]; intros H Hi; [lia|]. cbn. destruct (Nat.eq_dec i N) as [->|D].
  - pose proof (sum_nonneg N a (fun j Hj => H j ltac:(lia))). lra.
  - specialize (IH (fun j Hj => H j ltac:(lia)) ltac:(lia)). specialize (H N ltac:(lia)). lra.
Qed.

Section Gap.
Variables (n eta : R).
Hypotheses (np : 0 < n) (ep : 0 < eta).
(** A larger flow needs a larger driving stress, up to the difference dk of the thresholds. *)
Lemma flow_gap k1 r1 k2 r2 dk : 0 <= k1 -> 0 <= k2 -> 0 <= dk -> flow n eta k1 r1 < flow n eta k2 r2 ->
  (Rabs (flow n eta k1 r1) <= Rabs (flow n eta k2 r2) -> - dk <= k2 - k1) -> (Rabs (flow n eta k2 r2) <= Rabs (flow n eta k1 r1) -> k2 - k1 <= dk) -> - dk < r2 - r1.
Proof.
  intros K1 K2 D L U V. set (f1 := flow n eta k1 r1) in *. set (f2 := flow n eta k2 r2) in *.
  destruct (Rlt_le_dec 0 f2) as [P|P].
  - pose proof (flow_pos_r n eta np ep k2 r2 K2 P) as R2. destruct (Rle_lt_dec 0 f1) as [Q|Q].
    + specialize (U ltac:(rewrite !Rabs_pos_eq; lra)). destruct (Rlt_le_dec (- dk) (r2 - r1)) as [|W]; [assumption|]. exfalso.
      (* r1 - k1 >= r2 - k2 > 0 *)
      assert (X : flow n eta k2 r2 <= flow n eta k1 r1); [|unfold f1, f2 in L; lra].
      unfold flow. rewrite !tsign_pos, !Rmult_1_r by lra. apply pow0_mono; [apply mac_ge0| |exact np]. apply mac_mono, div_mono; [exact ep|]. rewrite !Rabs_pos_eq by lra. lra.
    + pose proof (flow_odd n eta k1 r1) as O. pose proof (flow_pos_r n eta np ep k1 (- r1) K1 ltac:(rewrite O; unfold f1 in Q; lra)). lra.
  - pose proof (flow_odd n eta k1 r1) as O. pose proof (flow_odd n eta k2 r2) as O2.
    pose proof (flow_pos_r n eta np ep k1 (- r1) K1 ltac:(rewrite O; unfold f1 in L; lra)) as R1.
    specialize (V ltac:(rewrite !Rabs_left1; lra)). destruct (Rlt_le_dec (- dk) (r2 - r1)) as [|W]; [assumption|]. exfalso.
    assert (X : flow n eta k1 (- r1) <= flow n eta k2 (- r2)); [|rewrite O, O2 in X; unfold f1, f2 in L; lra].
    unfold flow. rewrite !tsign_pos, !Rmult_1_r by lra. apply pow0_mono; [apply mac_ge0| |exact np]. apply mac_mono, div_mono; [exact ep|]. rewrite !Rabs_pos_eq by lra. lra.
Qed.
End Gap.

(** The updates are Lipschitz in the plastic strain increment and do not expand the starting value. *)
Section Lip.
Variable dt : R.
Hypothesis dtp : 0 <= dt.
Lemma div_shrink a q : 1 <= q -> Rabs (a / q) <= Rabs a.
Proof.
  intros H. unfold Rdiv. rewrite Rabs_mult, (Rabs_pos_eq (/ q)) by (left; apply Rinv_0_lt_compat; lra).
  rewrite <- (Rmult_1_r (Rabs a)) at 2. apply Rmult_le_compat_l; [apply Rabs_pos|]. rewrite <- Rinv_1. apply Rinv_le_contravar; lra.
Qed.
Lemma one_le a f : 0 <= a -> 1 <= 1 + dt * a * Rabs f.
Proof. intros H. pose proof (Rmult_le_pos _ _ (Rmult_le_pos _ _ dtp H) (Rabs_pos f)). lra. Qed.
Lemma voce_start d Rs h h' f : 0 <= d -> Rabs (voce_new dt d Rs h' f - voce_new dt d Rs h f) <= Rabs (h' - h).
Proof.
  intros H. pose proof (one_le d f H). unfold voce_new.
  replace ((h' + dt * d * Rs * Rabs f) / (1 + dt * d * Rabs f) - (h + dt * d * Rs * Rabs f) / (1 + dt * d * Rabs f)) with ((h' - h) / (1 + dt * d * Rabs f)) by (field; lra).
  now apply div_shrink.
Qed.
Lemma back_start C g x x' f : 0 <= g -> Rabs (back_new dt C g x' f - back_new dt C g x f) <= Rabs (x' - x).
Proof.
  intros H. pose proof (one_le g f H). unfold back_new.
  replace ((x' + dt * C * f) / (1 + dt * g * Rabs f) - (x + dt * C * f) / (1 + dt * g * Rabs f)) with ((x' - x) / (1 + dt * g * Rabs f)) by (field; lra).
  now apply div_shrink.
Qed.
Lemma voce_lip d Rs h f f' : 0 <= d -> 0 <= h <= Rs -> Rabs (voce_new dt d Rs h f' - voce_new dt d Rs h f) <= d * Rs * Rabs (dt * f' - dt * f).
Proof.
  intros H I. pose proof (one_le d f H). pose proof (one_le d f' H). unfold voce_new.
  replace ((h + dt * d * Rs * Rabs f') / (1 + dt * d * Rabs f') - (h + dt * d * Rs * Rabs f) / (1 + dt * d * Rabs f))
    with ((d * (Rs - h) * (dt * Rabs f' - dt * Rabs f)) / ((1 + dt * d * Rabs f') * (1 + dt * d * Rabs f))) by (field; lra).
  eapply Rle_trans; [apply div_shrink; rewrite <- (Rmult_1_l 1); apply Rmult_le_compat; lra|].
  rewrite !Rabs_mult, (Rabs_pos_eq d), (Rabs_pos_eq (Rs - h)) by lra.
  apply Rmult_le_compat; [apply Rmult_le_pos; lra|apply Rabs_pos|apply Rmult_le_compat_l; lra|].
  rewrite <- !Rmult_minus_distr_l, !Rabs_mult. apply Rmult_le_compat_l; [apply Rabs_pos|]. apply Rabs_triang_inv2.
Qed.
Lemma back_lip C g x f f' : 0 <= g -> g * Rabs x <= C -> Rabs (back_new dt C g x f' - back_new dt C g x f) <= 2 * C * Rabs (dt * f' - dt * f).
Proof.
  intros H I. pose proof (one_le g f H) as Q. pose proof (one_le g f' H) as Q'. unfold back_new.
  assert (C0 : 0 <= C). { pose proof (Rmult_le_pos _ _ H (Rabs_pos x)). lra. }
  set (u := dt * f). set (u' := dt * f').
  assert (U : dt * g * Rabs f = g * Rabs u) by (unfold u; rewrite Rabs_mult, (Rabs_pos_eq dt) by lra; ring).
  assert (U' : dt * g * Rabs f' = g * Rabs u') by (unfold u'; rewrite Rabs_mult, (Rabs_pos_eq dt) by lra; ring).
  rewrite U in *. rewrite U' in *. replace (dt * C * f') with (C * u') by (unfold u'; ring). replace (dt * C * f) with (C * u) by (unfold u; ring).
  replace ((x + C * u') / (1 + g * Rabs u') - (x + C * u) / (1 + g * Rabs u))
    with ((C * (u' - u) - g * x * (Rabs u' - Rabs u) + C * g * (u' * Rabs u - u * Rabs u')) / ((1 + g * Rabs u') * (1 + g * Rabs u))) by (field; lra).
  (* u'|u| - u|u'| vanishes for equal signs, and is at most 2 min |.| |u'-u| otherwise *)
  assert (X : Rabs (u' * Rabs u - u * Rabs u') <= 2 * (Rabs u * Rabs u')).
  { eapply Rle_trans; [apply Rabs_triang|]. rewrite Rabs_Ropp, !Rabs_mult, !Rabs_Rabsolu. lra. }
  set (num := C * (u' - u) - g * x * (Rabs u' - Rabs u) + C * g * (u' * Rabs u - u * Rabs u')).
  assert (N : Rabs num <= 2 * C * Rabs (u' - u) * ((1 + g * Rabs u') * (1 + g * Rabs u))).
  { assert (N1 : Rabs (C * (u' - u) - g * x * (Rabs u' - Rabs u)) <= 2 * C * Rabs (u' - u)).
    { eapply Rle_trans; [apply Rabs_triang|]. rewrite Rabs_Ropp, !Rabs_mult, (Rabs_pos_eq C), (Rabs_pos_eq g) by lra.
      pose proof (Rabs_triang_inv2 u' u) as T. pose proof (Rmult_le_compat _ _ _ _ (Rmult_le_pos _ _ H (Rabs_pos x)) (Rabs_pos (Rabs u' - Rabs u)) I T). lra. }
    assert (N2 : Rabs (u' * Rabs u - u * Rabs u') <= Rabs (u' - u) * (Rabs u' + Rabs u)).
    { unfold Rabs. destruct (Rcase_abs u), (Rcase_abs u'); repeat destruct (Rcase_abs _); nra. }
    assert (N3 : Rabs (C * g * (u' * Rabs u - u * Rabs u')) <= C * g * (Rabs (u' - u) * (Rabs u' + Rabs u))).
    { rewrite Rabs_mult, (Rabs_pos_eq (C * g)) by (apply Rmult_le_pos; lra). apply Rmult_le_compat_l; [apply Rmult_le_pos; lra|exact N2]. }
    unfold num. eapply Rle_trans; [apply Rabs_triang|]. eapply Rle_trans; [apply Rplus_le_compat; eassumption|].
    pose proof (Rabs_pos (u' - u)). pose proof (Rabs_pos u). pose proof (Rabs_pos u').
    set (a := Rabs u) in *. set (a' := Rabs u') in *. set (w := Rabs (u' - u)) in *.
    assert (0 <= C * w) by (apply Rmult_le_pos; lra). assert (0 <= C * w * (g * a)) by (apply Rmult_le_pos; [|apply Rmult_le_pos]; lra).
    assert (0 <= C * w * (g * a')) by (apply Rmult_le_pos; [|apply Rmult_le_pos]; lra).
    assert (0 <= C * w * (g * a) * (g * a')) by (apply Rmult_le_pos; [|apply Rmult_le_pos]; lra).
    replace (2 * C * w * ((1 + g * a') * (1 + g * a))) with (2 * (C * w) + 2 * (C * w * (g * a)) + 2 * (C * w * (g * a')) + 2 * (C * w * (g * a) * (g * a'))) by ring.
    replace (C * g * (w * (a' + a))) with (C * w * (g * a) + C * w * (g * a')) by ring. lra. }
  assert (P : 0 < (1 + g * Rabs u') * (1 + g * Rabs u)) by (apply Rmult_lt_0_compat; lra).
  unfold Rdiv. rewrite Rabs_mult, (Rabs_pos_eq (/ _)) by (left; now apply Rinv_0_lt_compat).
  apply Rmult_le_reg_r with ((1 + g * Rabs u') * (1 + g * Rabs u)); [exact P|]. rewrite Rmult_assoc, Rinv_l, Rmult_1_r by lra. exact N.
Qed.
End Lip.

(** ** Two steps *)
Section Two.
Variables (E n eta s0 Rs d : R) (nb : nat) (C g : nat -> R) (dt de s h : R) (x : nat -> R) (a b : R) (c : nat -> R).
Hypotheses (E0 : 0 <= E) (n0 : 0 < n) (eta0 : 0 < eta) (s00 : 0 <= s0) (d0 : 0 <= d) (dt0 : 0 <= dt) (hR : 0 <= h <= Rs).
Hypothesis back : forall i, (i < nb)%nat -> 0 <= g i /\ g i * Rabs (x i) <= C i.
Variables (s1 h1 : R) (x1 : nat -> R) (s2 h2 : R) (x2 : nat -> R).
Let f1 := flow n eta (s0 + h1) (s1 - sum nb x1).
Let f2 := flow n eta (s0 + h2) (s2 - sum nb x2).
Hypothesis S1 : vc_step E n eta s0 Rs d nb C g dt de s h x s1 h1 x1.
Hypothesis S2 : vc_step E n eta s0 Rs d nb C g dt de a b c s2 h2 x2.
Hypothesis K2 : 0 <= s0 + h2.
Let D := Rabs (a - s) + Rabs (b - h) + sum nb (fun i => Rabs (c i - x i)).
Lemma two_s1 : s1 = s + E * (de - dt * f1). Proof. destruct S1 as [H _]. fold f1 in H. lra. Qed.
Lemma two_s2 : s2 = a + E * (de - dt * f2). Proof. destruct S2 as [H _]. fold f2 in H. lra. Qed.
Lemma two_h1 : h1 = voce_new dt d Rs h f1. Proof. destruct S1 as (_ & H & _). fold f1 in H. now apply voce_eq in H. Qed.
Lemma two_h2 : h2 = voce_new dt d Rs b f2. Proof. destruct S2 as (_ & H & _). fold f2 in H. now apply voce_eq in H. Qed.
Lemma two_x1 i : (i < nb)%nat -> x1 i = back_new dt (C i) (g i) (x i) f1.
Proof. intros Hi. destruct S1 as (_ & _ & H). specialize (H i Hi). fold f1 in H. destruct (back i Hi). apply back_eq in H; auto. Qed.
Lemma two_x2 i : (i < nb)%nat -> x2 i = back_new dt (C i) (g i) (c i) f2.
Proof. intros Hi. destruct S2 as (_ & _ & H). specialize (H i Hi). fold f2 in H. destruct (back i Hi). apply back_eq in H; auto. Qed.
Lemma two_k1 : 0 <= s0 + h1.
Proof. rewrite two_h1. pose proof (voce_range dt d Rs h dt0 f1 Rs d0 hR ltac:(lra)). lra. Qed.
Lemma two_k : (Rabs f1 <= Rabs f2 -> - Rabs (b - h) <= (s0 + h2) - (s0 + h1)) /\ (Rabs f2 <= Rabs f1 -> (s0 + h2) - (s0 + h1) <= Rabs (b - h)).
Proof.
  pose proof (abs_le2 _ _ (voce_start dt dt0 d Rs h b f2 d0)) as A. rewrite two_h1, two_h2. split; intros H.
  - pose proof (voce_mono dt d Rs h dt0 f1 f2 d0 ltac:(lra) H). lra.
  - pose proof (voce_mono dt d Rs h dt0 f2 f1 d0 ltac:(lra) H). lra.
Qed.
Lemma two_r : (f1 <= f2 -> (s2 - sum nb x2) - (s1 - sum nb x1) <= Rabs (a - s) - E * (dt * f2 - dt * f1) + sum nb (fun i => Rabs (c i - x i))) /\
  (f2 <= f1 -> - (Rabs (a - s) + E * (dt * f2 - dt * f1) + sum nb (fun i => Rabs (c i - x i))) <= (s2 - sum nb x2) - (s1 - sum nb x1)).
Proof.
  pose proof (abs_le2 (a - s) _ (Rle_refl _)) as A. pose proof two_s1 as H1. pose proof two_s2 as H2.
  assert (X : sum nb (fun i => x2 i - x1 i) = sum nb x2 - sum nb x1) by (clear; induction nb as [|k IH]; cbn; [ring|rewrite IH; ring]).
  assert (Y : sum nb (fun i => - Rabs (c i - x i)) = - sum nb (fun i => Rabs (c i - x i))) by (clear; induction nb as [|k IH]; cbn; [ring|rewrite IH; ring]).
  split; intros H.
  - assert (M : sum nb (fun i => - Rabs (c i - x i)) <= sum nb (fun i => x2 i - x1 i)); [|lra].
    apply sum_mono. intros i Hi. destruct (back i Hi) as [G0 G1]. rewrite (two_x1 i Hi), (two_x2 i Hi).
    pose proof (abs_le2 _ _ (back_start dt dt0 (C i) (g i) (x i) (c i) f2 G0)). pose proof (back_mono dt (C i) (g i) (x i) dt0 G0 f1 f2 G1 H). lra.
  - assert (M : sum nb (fun i => x2 i - x1 i) <= sum nb (fun i => Rabs (c i - x i))); [|lra].
    apply sum_mono. intros i Hi. destruct (back i Hi) as [G0 G1]. rewrite (two_x1 i Hi), (two_x2 i Hi).
    pose proof (abs_le2 _ _ (back_start dt dt0 (C i) (g i) (x i) (c i) f2 G0)). pose proof (back_mono dt (C i) (g i) (x i) dt0 G0 f2 f1 G1 H). lra.
Qed.
Lemma two_flow : E * Rabs (dt * f2 - dt * f1) <= D.
Proof.
  destruct two_k as [KA KB]. destruct two_r as [RA RB]. pose proof two_k1 as K1. pose proof (Rabs_pos (b - h)) as B0. pose proof (Rabs_pos (a - s)) as A0.
  assert (S0 : 0 <= sum nb (fun i => Rabs (c i - x i))) by (apply sum_nonneg; intros; apply Rabs_pos).
  unfold D. destruct (Rtotal_order f1 f2) as [L|[L|L]].
  - pose proof (flow_gap n eta n0 eta0 (s0 + h1) (s1 - sum nb x1) (s0 + h2) (s2 - sum nb x2) _ K1 K2 B0 L KA KB) as G.
    specialize (RA (Rlt_le _ _ L)). pose proof (Rmult_le_compat_l dt _ _ dt0 (Rlt_le _ _ L)). rewrite Rabs_pos_eq by lra. lra.
  - rewrite L. rewrite Rminus_eq_0, Rabs_R0. lra.
  - assert (KA' : Rabs (flow n eta (s0 + h2) (s2 - sum nb x2)) <= Rabs (flow n eta (s0 + h1) (s1 - sum nb x1)) -> - Rabs (b - h) <= (s0 + h1) - (s0 + h2)) by (intros H; specialize (KB H); lra).
    assert (KB' : Rabs (flow n eta (s0 + h1) (s1 - sum nb x1)) <= Rabs (flow n eta (s0 + h2) (s2 - sum nb x2)) -> (s0 + h1) - (s0 + h2) <= Rabs (b - h)) by (intros H; specialize (KA H); lra).
    pose proof (flow_gap n eta n0 eta0 (s0 + h2) (s2 - sum nb x2) (s0 + h1) (s1 - sum nb x1) _ K2 K1 B0 L KA' KB') as G.
    specialize (RB (Rlt_le _ _ L)). pose proof (Rmult_le_compat_l dt _ _ dt0 (Rlt_le _ _ L)). rewrite Rabs_left1 by lra. lra.
Qed.
(** All new values, given how far apart the plastic strain increments are. *)
Lemma two_close q : Rabs (dt * f2 - dt * f1) <= q ->
  Rabs (s2 - s1) <= Rabs (a - s) + E * q /\ Rabs (h2 - h1) <= Rabs (b - h) + d * Rs * q /\ forall i, (i < nb)%nat -> Rabs (x2 i - x1 i) <= Rabs (c i - x i) + 2 * C i * q.
Proof.
  intros Q. split; [|split].
  - rewrite two_s1, two_s2. replace (a + E * (de - dt * f2) - (s + E * (de - dt * f1))) with ((a - s) + - (E * (dt * f2 - dt * f1))) by ring.
    eapply Rle_trans; [apply Rabs_triang|]. rewrite Rabs_Ropp, Rabs_mult, (Rabs_pos_eq E) by lra. pose proof (Rmult_le_compat_l E _ _ E0 Q). lra.
  - rewrite two_h1, two_h2. replace (voce_new dt d Rs b f2 - voce_new dt d Rs h f1) with ((voce_new dt d Rs b f2 - voce_new dt d Rs h f2) + (voce_new dt d Rs h f2 - voce_new dt d Rs h f1)) by ring.
    eapply Rle_trans; [apply Rabs_triang|]. pose proof (voce_start dt dt0 d Rs h b f2 d0). pose proof (voce_lip dt dt0 d Rs h f1 f2 d0 hR).
    pose proof (Rmult_le_compat_l (d * Rs) _ _ ltac:(apply Rmult_le_pos; lra) Q). lra.
  - intros i Hi. destruct (back i Hi) as [G0 G1]. rewrite (two_x1 i Hi), (two_x2 i Hi).
    replace (back_new dt (C i) (g i) (c i) f2 - back_new dt (C i) (g i) (x i) f1)
      with ((back_new dt (C i) (g i) (c i) f2 - back_new dt (C i) (g i) (x i) f2) + (back_new dt (C i) (g i) (x i) f2 - back_new dt (C i) (g i) (x i) f1)) by ring.
    eapply Rle_trans; [apply Rabs_triang|]. pose proof (back_start dt dt0 (C i) (g i) (x i) (c i) f2 G0). pose proof (back_lip dt dt0 (C i) (g i) (x i) f1 f2 G0 G1).
    assert (C0 : 0 <= 2 * C i) by (pose proof (Rmult_le_pos _ _ G0 (Rabs_pos (x i))); lra). pose proof (Rmult_le_compat_l (2 * C i) _ _ C0 Q). lra.
Qed.
Lemma two_dist q : Rabs (dt * f2 - dt * f1) <= q ->
  Rabs (s2 - s1) + Rabs (h2 - h1) + sum nb (fun i => Rabs (x2 i - x1 i)) <= D + (E + d * Rs + 2 * sum nb C) * q.
Proof.
  intros Q. destruct (two_close q Q) as (A & B & X). unfold D.
  assert (M : sum nb (fun i => Rabs (x2 i - x1 i)) <= sum nb (fun i => Rabs (c i - x i)) + 2 * sum nb C * q); [|lra].
  clear - X. induction nb as [|k IH]; cbn; [lra|]. specialize (IH ltac:(intros; apply X; lia)). specialize (X k ltac:(lia)). lra.
Qed.
End Two.

(** ** Histories that satisfy the step equations up to a residual *)
Section VC.
Variables (n eta s0 Rs d : R -> R) (nback : nat) (C g : R -> nat -> R).
(** Sum of the differences of the stress and of all internal variables. *)
Definition distance (s : R) (h : vec) (s' : R) (h' : vec) : R := Rabs (s' - s) + Rabs (h' 0%nat - h 0%nat) + sum nback (fun i => Rabs (h' (S i) - h (S i))).
(** A step whose equations hold up to tol in each component. *)
Definition near_step (tol EE T dt de s : R) (h : vec) (s' : R) (h' : vec) : Prop :=
  let f := the_flow n eta s0 nback T s' h' in
  Rabs (s' - s - EE * (de - dt * f)) <= tol /\ Rabs (h' 0%nat - h 0%nat - dt * (d T * (Rs T - h' 0%nat) * Rabs f)) <= tol /\
  forall i, (i < nback)%nat -> Rabs (h' (S i) - h (S i) - dt * (C T i * f - g T i * h' (S i) * Rabs f)) <= tol.
(** The same values solve the step exactly from a starting state at most tol away in each component. *)
Lemma near_exact tol EE T dt de s h s' h' : near_step tol EE T dt de s h s' h' -> exists sa ha,
  model_step n eta s0 Rs d nback C g EE T dt de sa ha s' h' /\ Rabs (sa - s) <= tol /\ Rabs (ha 0%nat - h 0%nat) <= tol /\ forall i, (i < nback)%nat -> Rabs (ha (S i) - h (S i)) <= tol.
Proof.
  intros (A & B & X). set (f := the_flow n eta s0 nback T s' h') in *.
  exists (s' - EE * (de - dt * f)), (fun i => match i with O => h' 0%nat - dt * (d T * (Rs T - h' 0%nat) * Rabs f) | S j => h' (S j) - dt * (C T j * f - g T j * h' (S j) * Rabs f) end).
  split; [|split; [|split]].
  - unfold model_step. fold f. split; [ring|]. split; [ring|]. intros i Hi. ring.
  - replace (s' - EE * (de - dt * f) - s) with (s' - s - EE * (de - dt * f)) by ring. exact A.
  - match goal with |- Rabs ?u <= _ => replace u with (h' 0%nat - h 0%nat - dt * (d T * (Rs T - h' 0%nat) * Rabs f)) by ring end. exact B.
  - intros i Hi. match goal with |- Rabs ?u <= _ => replace u with (h' (S i) - h (S i) - dt * (C T i * f - g T i * h' (S i) * Rabs f)) by ring end. now apply X.
Qed.
Lemma distance_ge0 s h s' h' : 0 <= distance s h s' h'.
Proof. unfold distance. pose proof (sum_nonneg nback (fun i => Rabs (h' (S i) - h (S i))) (fun i _ => Rabs_pos _)). pose proof (Rabs_pos (s' - s)). pose proof (Rabs_pos (h' 0%nat - h 0%nat)). lra. Qed.
Lemma distance_shift tol s h s' h' sa ha : Rabs (sa - s') <= tol -> Rabs (ha 0%nat - h' 0%nat) <= tol -> (forall i, (i < nback)%nat -> Rabs (ha (S i) - h' (S i)) <= tol) ->
  distance s h sa ha <= distance s h s' h' + INR (nback + 2) * tol.
Proof.
  intros A B X. unfold distance. rewrite plus_INR. cbn [INR].
  assert (T : forall u v w, Rabs (u - v) <= tol -> Rabs (u - w) <= Rabs (v - w) + tol).
  { intros u v w H. replace (u - w) with ((u - v) + (v - w)) by ring. pose proof (Rabs_triang (u - v) (v - w)). lra. }
  pose proof (T _ _ s A). pose proof (T _ _ (h 0%nat) B).
  assert (M : sum nback (fun i => Rabs (ha (S i) - h (S i))) <= sum nback (fun i => Rabs (h' (S i) - h (S i))) + INR nback * tol); [|lra].
  clear - X T. induction nback as [|k IH]; [cbn; lra|]. rewrite S_INR. cbn [sum]. specialize (IH ltac:(intros; apply X; lia)). pose proof (T _ _ (h (S k)) (X k ltac:(lia))). lra.
Qed.
(** One step: an exact step from a state in range, and a step with residual from a nearby state. *)
Lemma close_step tol EE T dt de s h s1 h1 sb hb s2 h2 : 0 < EE -> 0 <= dt -> admissible n eta s0 Rs d nback C g T -> in_range Rs nback C g T h -> 0 <= s0 T + h2 0%nat ->
  model_step n eta s0 Rs d nback C g EE T dt de s h s1 h1 -> near_step tol EE T dt de sb hb s2 h2 ->
  distance s1 h1 s2 h2 <= (2 + (d T * Rs T + 2 * sum nback (C T)) / EE) * (distance s h sb hb + INR (nback + 2) * tol).
Proof.
  intros HE Hdt A I K S1 N. pose proof A as (A1 & A2 & A3 & A4 & A5 & A6). destruct (near_exact _ _ _ _ _ _ _ _ _ N) as (sa & ha & S2 & P1 & P2 & P3).
  pose proof (distance_shift tol s h sb hb sa ha P1 P2 P3) as Sh. apply model_vc in S1, S2.
  set (f1 := flow (n T) (eta T) (s0 T + h1 0%nat) (s1 - sum nback (fun i => h1 (S i)))). set (f2 := flow (n T) (eta T) (s0 T + h2 0%nat) (s2 - sum nback (fun i => h2 (S i)))).
  assert (F : EE * Rabs (dt * f2 - dt * f1) <= distance s h sa ha).
  { apply (two_flow EE (n T) (eta T) (s0 T) (Rs T) (d T) nback (C T) (g T) dt de s (h 0%nat) (fun i => h (S i)) sa (ha 0%nat) (fun i => ha (S i))
      A1 A2 A3 A5 Hdt (proj1 I) (fun i => range_mul _ _ _ _ _ _ _ _ T h i A I) _ _ _ _ _ _ S1 S2 K). }
  assert (Q : Rabs (dt * f2 - dt * f1) <= distance s h sa ha / EE) by (apply Rmult_le_reg_l with EE; [exact HE|]; replace (EE * (distance s h sa ha / EE)) with (distance s h sa ha) by (field; lra); exact F).
  pose proof (two_dist EE (n T) (eta T) (s0 T) (Rs T) (d T) nback (C T) (g T) dt de s (h 0%nat) (fun i => h (S i)) sa (ha 0%nat) (fun i => ha (S i))
      (Rlt_le _ _ HE) A5 Hdt (proj1 I) (fun i => range_mul _ _ _ _ _ _ _ _ T h i A I) _ _ _ _ _ _ S1 S2 _ Q) as M.
  eapply Rle_trans; [exact M|].
  match goal with |- ?u <= _ => change u with (distance s h sa ha + (EE + d T * Rs T + 2 * sum nback (C T)) * (distance s h sa ha / EE)) end.
  replace (distance s h sa ha + (EE + d T * Rs T + 2 * sum nback (C T)) * (distance s h sa ha / EE)) with ((2 + (d T * Rs T + 2 * sum nback (C T)) / EE) * distance s h sa ha) by (field; lra).
  apply Rmult_le_compat_l; [|exact Sh]. assert (C0 : 0 <= sum nback (C T)) by (apply sum_nonneg; intros; now apply A6).
  pose proof (Rmult_le_pos _ _ A5 A4). assert (0 <= (d T * Rs T + 2 * sum nback (C T)) / EE); [|lra]. apply Rmult_le_pos; [lra|]. left. now apply Rinv_0_lt_compat.
Qed.
Lemma voce_low tol a dt dd RR h h' f : 0 <= dt -> 0 <= dd -> 0 <= RR -> 0 <= a -> 0 <= tol -> Rabs (h' - h - dt * (dd * (RR - h') * Rabs f)) <= tol -> - a <= h -> - (a + tol) <= h'.
Proof.
  intros H1 H2 H3 H4 H5 Q I. apply abs_le2 in Q. destruct (Rle_lt_dec 0 h') as [|N]; [lra|].
  assert (0 <= dt * (dd * (RR - h') * Rabs f)); [|lra]. apply Rmult_le_pos; [lra|]. apply Rmult_le_pos; [|apply Rabs_pos]. apply Rmult_le_pos; lra.
Qed.
(** Growth of a distance that is multiplied by at most L after one more residual at each step. *)
Fixpoint growth (L : R) (k : nat) : R := match k with O => 0 | S k' => L * (growth L k' + 1) end.
Lemma growth_sum L k : growth L k = sum k (fun j => L ^ S j).
Proof. induction k as [|k IH]; [reflexivity|]. cbn [growth]. rewrite IH, sum_S, Rmult_plus_distr_l, <- sum_scal. replace (L ^ 1) with L by ring. rewrite Rmult_1_r. apply Rplus_comm. Qed.
Lemma growth_mono L k k' : 0 <= L -> (k <= k')%nat -> growth L k <= growth L k'.
Proof.
  intros H K. assert (M : forall j, growth L j <= growth L (S j)).
  { intros j. induction j as [|j IH]; [cbn; lra|]. change (L * (growth L j + 1) <= L * (growth L (S j) + 1)). apply Rmult_le_compat_l; lra. }
  induction K as [|m K IH]; [lra|]. specialize (M m). lra.
Qed.
Lemma growth_ge0 L k : 0 <= L -> 0 <= growth L k.
Proof. intros H. induction k as [|k IH]; cbn [growth]; [lra|]. apply Rmult_le_pos; lra. Qed.
End VC.
