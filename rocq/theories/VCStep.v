(** One backward Euler step of the viscoplastic model with Voce isotropic hardening and Chaboche backstresses (InelasticModel models.py 75-137 with
    IsoKinViscoplasticity flowrules.py 1129-1427, VoceIsotropicHardeningModel hardening.py 64-186 and ChabocheHardeningModel hardening.py 837-978), over the
    reals: the step has exactly one solution. *)
From Coq Require Import Reals Lra Lia Ranalysis Rsqrt_def.
From Verif Require Import Torch Slices Deriv.
Local Open Scope R_scope.

(** The flow rate as a function of the shifted stress r and the flow stress k. *)
Definition flow (n eta k r : R) : R := pow0 (mac ((Rabs r - k) / eta)) n * tsign r.
Lemma mac_mono a b : a <= b -> mac a <= mac b.
Proof. intros H. unfold mac. apply Rle_max_compat_r; exact H. Qed.
Lemma div_mono a b e : 0 < e -> a <= b -> a / e <= b / e.
Proof. intros He H. apply Rmult_le_compat_r; [|exact H]. left. now apply Rinv_0_lt_compat. Qed.
Lemma div_mul a b : b <> 0 -> a / b * b = a.
Proof. intros H. field. exact H. Qed.
Section Flow1.
Variables (n eta : R).
Hypotheses (np : 0 < n) (ep : 0 < eta).
Lemma flow_odd k r : flow n eta k (- r) = - flow n eta k r.
Proof.
  unfold flow. rewrite Rabs_Ropp. assert (T : tsign (- r) = - tsign r); [|rewrite T; ring].
  destruct (Rtotal_order r 0) as [H|[H|H]]; [rewrite (tsign_neg r), tsign_pos by lra; ring|rewrite H, Ropp_0, tsign_0; ring|rewrite (tsign_pos r), tsign_neg by lra; ring].
Qed.
Lemma flow_pos_r k r : 0 <= k -> 0 < flow n eta k r -> k < r.
Proof.
  intros Hk H. unfold flow in H. destruct (Rlt_le_dec k (Rabs r)) as [L|L].
  - destruct (Rlt_le_dec 0 r) as [P|P]; [rewrite Rabs_pos_eq in L by lra; exact L|]. exfalso.
    pose proof (pow0_ge0 (mac ((Rabs r - k) / eta)) n) as Q. destruct (Req_dec r 0) as [Z|Z]; [rewrite Z, tsign_0 in H; lra|rewrite tsign_neg in H by lra; lra].
  - exfalso. rewrite mac_neg, pow0_0 in H; [lra|lra|]. apply Rmult_le_reg_r with eta; [exact ep|]. rewrite div_mul; lra.
Qed.
Lemma flow_nonneg k r : 0 <= r -> 0 <= flow n eta k r.
Proof. intros H. unfold flow. apply Rmult_le_pos; [apply pow0_ge0|]. destruct (Req_dec r 0) as [Z|Z]; [rewrite Z, tsign_0; lra|rewrite tsign_pos; lra]. Qed.
Lemma flow_mono k k' r r' : 0 <= k -> k' <= k -> 0 <= r -> r <= r' -> flow n eta k r <= flow n eta k' r'.
Proof.
  intros H0 H1 H2 H3. unfold flow. destruct (Req_dec r 0) as [Z|Z].
  - rewrite Z, tsign_0, Rmult_0_r. apply (flow_nonneg k' r'). lra.
  - rewrite !tsign_pos, !Rmult_1_r by lra. apply pow0_mono; [apply mac_ge0| |exact np]. apply mac_mono, div_mono; [exact ep|]. rewrite !Rabs_pos_eq by lra. lra.
Qed.
End Flow1.

(** The closed forms of the backward Euler updates of the hardening variables for a given plastic strain rate f. *)
Section Updates.
Variables (dt d Rs h0 : R).
Hypotheses (dtp : 0 <= dt).
Definition voce_new (f : R) : R := (h0 + dt * d * Rs * Rabs f) / (1 + dt * d * Rabs f).
Lemma denom_pos a f : 0 <= a -> 0 < 1 + dt * a * Rabs f.
Proof. intros H. pose proof (Rmult_le_pos _ _ (Rmult_le_pos _ _ dtp H) (Rabs_pos f)). lra. Qed.
Lemma voce_eq f h : 0 <= d -> (h - h0 = dt * (d * (Rs - h) * Rabs f) <-> h = voce_new f).
Proof.
  intros Hd. pose proof (denom_pos d f Hd) as P. unfold voce_new. split; intros H.
  - apply Rmult_eq_reg_r with (1 + dt * d * Rabs f); [|lra]. rewrite ?div_mul by lra. lra.
  - subst h. field. lra.
Qed.
Lemma voce_mono f f' : 0 <= d -> h0 <= Rs -> Rabs f <= Rabs f' -> voce_new f <= voce_new f'.
Proof.
  intros Hd H H'. pose proof (denom_pos d f Hd) as P. pose proof (denom_pos d f' Hd) as P'.
  assert (E : forall g, 0 < 1 + dt * d * Rabs g -> voce_new g = Rs - (Rs - h0) / (1 + dt * d * Rabs g)) by (intros g Pg; unfold voce_new; field; lra).
  rewrite !E by assumption. assert (Q : (Rs - h0) / (1 + dt * d * Rabs f') <= (Rs - h0) / (1 + dt * d * Rabs f)); [|lra].
  apply Rmult_le_compat_l; [lra|]. apply Rinv_le_contravar; [exact P|]. pose proof (Rmult_le_compat_l (dt * d) _ _ (Rmult_le_pos _ _ dtp Hd) H'). lra.
Qed.
Lemma voce_range f M : 0 <= d -> 0 <= h0 <= M -> 0 <= Rs <= M -> 0 <= voce_new f <= M.
Proof.
  intros Hd H H'. pose proof (denom_pos d f Hd) as P. unfold voce_new. pose proof (Rmult_le_pos _ _ (Rmult_le_pos _ _ dtp Hd) (Rabs_pos f)) as Q.
  assert (Q1 : 0 <= dt * d * Rs * Rabs f) by (replace (dt * d * Rs * Rabs f) with ((dt * d * Rabs f) * Rs) by ring; apply Rmult_le_pos; lra).
  assert (Q2 : dt * d * Rs * Rabs f <= dt * d * Rabs f * M) by (replace (dt * d * Rs * Rabs f) with ((dt * d * Rabs f) * Rs) by ring; apply Rmult_le_compat_l; lra).
  split.
  - apply Rmult_le_pos; [lra|]. left. now apply Rinv_0_lt_compat.
  - apply Rmult_le_reg_r with (1 + dt * d * Rabs f); [exact P|]. rewrite ?div_mul by lra. lra.
Qed.
End Updates.
Section Back.
Variables (dt C g x0 : R).
Hypotheses (dtp : 0 <= dt) (gp : 0 <= g).
Definition back_new (f : R) : R := (x0 + dt * C * f) / (1 + dt * g * Rabs f).
Lemma back_eq f x : (x - x0 = dt * (C * f - g * x * Rabs f) <-> x = back_new f).
Proof.
  pose proof (denom_pos dt dtp g f gp) as P. unfold back_new. split; intros H.
  - apply Rmult_eq_reg_r with (1 + dt * g * Rabs f); [|lra]. rewrite ?div_mul by lra. lra.
  - subst x. field. lra.
Qed.
Lemma back_mono f f' : g * Rabs x0 <= C -> f <= f' -> back_new f <= back_new f'.
Proof.
  intros H L. pose proof (denom_pos dt dtp g f gp) as P. pose proof (denom_pos dt dtp g f' gp) as P'.
  assert (X1 : - C <= g * x0 <= C). { pose proof (Rle_abs x0). pose proof (Rle_abs (- x0)) as A. rewrite Rabs_Ropp in A.
    pose proof (Rmult_le_compat_l g _ _ gp H0). pose proof (Rmult_le_compat_l g _ _ gp A). lra. }
  unfold back_new. apply Rmult_le_reg_r with (1 + dt * g * Rabs f); [exact P|]. rewrite div_mul by lra.
  apply Rmult_le_reg_r with (1 + dt * g * Rabs f'); [exact P'|].
  replace ((x0 + dt * C * f') / (1 + dt * g * Rabs f') * (1 + dt * g * Rabs f) * (1 + dt * g * Rabs f')) with ((x0 + dt * C * f') * (1 + dt * g * Rabs f)) by (field; lra).
  (* difference = dt C (f' - f) + dt g x0 (|f| - |f'|) + dt^2 C g (f'|f| - f|f'|) *)
  assert (C0 : 0 <= C). { pose proof (Rmult_le_pos _ _ gp (Rabs_pos x0)). lra. }
  assert (A1 : Rabs (Rabs f - Rabs f') <= f' - f). { pose proof (Rabs_triang_inv2 f f') as T. rewrite (Rabs_minus_sym f f'), (Rabs_pos_eq (f' - f)) in T by lra. exact T. }
  assert (A2 : g * x0 * (Rabs f - Rabs f') >= - (C * (f' - f))).
  { assert (B : Rabs (g * x0 * (Rabs f - Rabs f')) <= C * (f' - f)).
    { rewrite Rabs_mult. apply Rmult_le_compat; try apply Rabs_pos; [|exact A1]. apply Rabs_le. lra. }
    pose proof (Rle_abs (- (g * x0 * (Rabs f - Rabs f')))) as B'. rewrite Rabs_Ropp in B'. lra. }
  assert (A3 : 0 <= f' * Rabs f - f * Rabs f').
  { unfold Rabs. destruct (Rcase_abs f), (Rcase_abs f'); try nra. }
  assert (A4 : 0 <= dt * (C * (f' - f) + g * x0 * (Rabs f - Rabs f'))) by (apply Rmult_le_pos; lra).
  assert (A5 : 0 <= dt * dt * C * g * (f' * Rabs f - f * Rabs f')) by (repeat apply Rmult_le_pos; lra).
  lra.
Qed.
Lemma back_range f : g * Rabs x0 <= C -> g * Rabs (back_new f) <= C.
Proof.
  intros H. pose proof (denom_pos dt dtp g f gp) as P. pose proof (Rmult_le_pos _ _ (Rmult_le_pos _ _ dtp gp) (Rabs_pos f)) as Q.
  assert (C0 : 0 <= C). { pose proof (Rmult_le_pos _ _ gp (Rabs_pos x0)). lra. }
  unfold back_new, Rdiv. rewrite Rabs_mult, (Rabs_pos_eq (/ _)) by (left; now apply Rinv_0_lt_compat).
  apply Rmult_le_reg_r with (1 + dt * g * Rabs f); [exact P|]. rewrite !Rmult_assoc, Rinv_l, Rmult_1_r by lra.
  pose proof (Rabs_triang x0 (dt * (C * f))) as T. rewrite (Rabs_mult dt), (Rabs_mult C), (Rabs_pos_eq dt), (Rabs_pos_eq C) in T by assumption.
  pose proof (Rmult_le_compat_l g _ _ gp T). nra.
Qed.
End Back.

(** ** The flow as a difference of two one-sided powers *)
Definition mpow (n x : R) : R := pow0 (mac x) n.
Lemma mpow_neg n x : 0 < n -> x <= 0 -> mpow n x = 0.
Proof. intros H L. unfold mpow. rewrite mac_neg, pow0_0; lra. Qed.
Lemma mpow_ge0 n x : 0 <= mpow n x.
Proof. apply pow0_ge0. Qed.
Lemma div_neg a e : 0 < e -> a <= 0 -> a / e <= 0.
Proof. intros He H. apply Rmult_le_reg_r with e; [exact He|]. rewrite div_mul; lra. Qed.
Lemma flow_split n eta k r : 0 < n -> 0 < eta -> 0 <= k ->
  flow n eta k r = mpow n ((r - k) / eta) - mpow n ((- r - k) / eta) /\ Rabs (flow n eta k r) = mpow n ((r - k) / eta) + mpow n ((- r - k) / eta).
Proof.
  intros Hn He Hk. unfold flow. destruct (Rtotal_order r 0) as [H|[H|H]].
  - rewrite tsign_neg, Rabs_left by lra. rewrite (mpow_neg n ((r - k) / eta)) by (trivial; apply div_neg; lra). fold (mpow n ((- r - k) / eta)).
    pose proof (mpow_ge0 n ((- r - k) / eta)). split; [ring|]. replace (mpow n ((- r - k) / eta) * -1) with (- mpow n ((- r - k) / eta)) by ring. rewrite Rabs_Ropp, Rabs_pos_eq; lra.
  - subst r. rewrite tsign_0, Rmult_0_r, Rabs_R0, !mpow_neg by (trivial; apply div_neg; lra). lra.
  - rewrite tsign_pos, (Rabs_pos_eq r) by lra. rewrite (mpow_neg n ((- r - k) / eta)) by (trivial; apply div_neg; lra). fold (mpow n ((r - k) / eta)).
    pose proof (mpow_ge0 n ((r - k) / eta)). split; [ring|]. rewrite Rmult_1_r, Rabs_pos_eq; lra.
Qed.
Lemma mpow_continuous n : 0 < n -> continuity (mpow n).
Proof.
  intros Hn x. destruct (Rtotal_order x 0) as [H|[H|H]].
  - intros e He. exists (- x). split; [lra|]. intros y [_ Hy]. unfold dist in *. cbn in *. unfold R_dist in *. apply Rabs_def2 in Hy. rewrite !mpow_neg by lra. rewrite Rminus_diag_eq, Rabs_R0; lra.
  - subst x. intros e He. destruct (pow0_small n e Hn He) as (dl & Hd & P). exists dl. split; [exact Hd|]. intros y [_ Hy]. unfold dist in *. cbn in *. unfold R_dist in *.
    rewrite (mpow_neg n 0) by lra. rewrite Rminus_0_r in *. rewrite Rabs_pos_eq by apply mpow_ge0. unfold mpow. apply P. split; [apply mac_ge0|]. eapply Rle_lt_trans; [apply mac_abs|exact Hy].
  - assert (Q : derivable_pt_lim (mpow n) x (n * Rpower x (n - 1))).
    { apply (D_ext_loc (fun y => Rpower y n) _ _ _ x H).
      - intros y Hy. apply Rabs_def2 in Hy. unfold mpow. rewrite mac_pos, pow0_pos; lra.
      - eapply D_eq; [apply (D_Rpower (fun y => y) x 1 n H (D_id x))|ring]. }
    apply derivable_continuous_pt. exists (n * Rpower x (n - 1)). exact Q.
Qed.

Lemma continuity_sum N (f : nat -> R -> R) : (forall i, (i < N)%nat -> continuity (f i)) -> continuity (fun z => sum N (fun i => f i z)).
Proof.
  induction N as [|N IH]; intros H; cbn; [apply continuity_const; intros a b; reflexivity|].
  apply (continuity_plus (fun z => sum N (fun i => f i z)) (f N)); [apply IH; intros; apply H; lia|apply H; lia].
Qed.

(** ** The step *)
Section Step.
Variables (E n eta s0 Rs d : R) (nb : nat) (C g : nat -> R) (dt de s h : R) (x : nat -> R).
Hypotheses (E0 : 0 <= E) (n0 : 0 < n) (eta0 : 0 < eta) (s00 : 0 <= s0) (d0 : 0 <= d) (dt0 : 0 <= dt) (hR : 0 <= h <= Rs).
Hypothesis back : forall i, (i < nb)%nat -> 0 <= g i /\ g i * Rabs (x i) <= C i.
Definition new_back (f : R) (i : nat) : R := back_new dt (C i) (g i) (x i) f.
Definition new_r (f : R) : R := s + E * (de - dt * f) - sum nb (new_back f).
Definition new_k (f : R) : R := s0 + voce_new dt d Rs h f.
Definition residual (f : R) : R := f - flow n eta (new_k f) (new_r f).
Lemma sum_mono N (a b : nat -> R) : (forall i, (i < N)%nat -> a i <= b i) -> sum N a <= sum N b.
Proof. induction N as [|N IH]; intros H; cbn; [lra|]. specialize (IH ltac:(intros; apply H; lia)). specialize (H N ltac:(lia)). lra. Qed.
Lemma new_r_anti f f' : f <= f' -> new_r f' <= new_r f.
Proof.
  intros H. unfold new_r. assert (A : sum nb (new_back f) <= sum nb (new_back f')).
  { apply sum_mono. intros i Hi. destruct (back i Hi). now apply back_mono. }
  pose proof (Rmult_le_compat_l dt _ _ dt0 H) as B. pose proof (Rmult_le_compat_l E (de - dt * f') (de - dt * f) E0 ltac:(lra)). lra.
Qed.
Lemma new_k_mono f f' : Rabs f <= Rabs f' -> new_k f <= new_k f'.
Proof. intros H. unfold new_k. pose proof (voce_mono dt d Rs h dt0 f f' d0 ltac:(lra) H). lra. Qed.
Lemma new_k_ge0 f : 0 <= new_k f.
Proof. unfold new_k. pose proof (voce_range dt d Rs h dt0 f Rs d0 hR ltac:(lra)). lra. Qed.
Lemma residual_lt f f' : residual f = 0 -> residual f' = 0 -> f < f' -> False.
Proof.
  unfold residual. intros A A' L. pose proof (new_r_anti f f' ltac:(lra)) as M. pose proof (new_k_ge0 f) as K. pose proof (new_k_ge0 f') as K'.
  destruct (Rlt_le_dec 0 f') as [P|P].
  - pose proof (flow_pos_r n eta n0 eta0 (new_k f') (new_r f') K' ltac:(lra)) as R1.
    destruct (Rle_lt_dec 0 f) as [Q|Q].
    + pose proof (new_k_mono f f' ltac:(rewrite !Rabs_pos_eq; lra)) as KM. pose proof (flow_mono n eta n0 eta0 (new_k f') (new_k f) (new_r f') (new_r f) K' KM ltac:(lra) M). lra.
    + pose proof (flow_nonneg n eta (new_k f) (new_r f) ltac:(lra)). lra.
  - pose proof (flow_odd n eta (new_k f) (new_r f)) as O. pose proof (flow_odd n eta (new_k f') (new_r f')) as O'.
    pose proof (flow_pos_r n eta n0 eta0 (new_k f) (- new_r f) K ltac:(lra)) as R1.
    pose proof (new_k_mono f' f ltac:(rewrite !Rabs_left1; lra)) as KM. pose proof (flow_mono n eta n0 eta0 (new_k f) (new_k f') (- new_r f) (- new_r f') K KM ltac:(lra) ltac:(lra)). lra.
Qed.
Lemma residual_unique f f' : residual f = 0 -> residual f' = 0 -> f = f'.
Proof. intros A A'. destruct (Rtotal_order f f') as [H|[H|H]]; [destruct (residual_lt _ _ A A' H)|exact H|destruct (residual_lt _ _ A' A H)]. Qed.

Lemma continuity_div_pos (a b : R -> R) : continuity a -> continuity b -> (forall z, 0 < b z) -> continuity (fun z => a z / b z).
Proof. intros A B P. apply (continuity_div a b A B). intros z. specialize (P z). lra. Qed.
Lemma continuity_id : continuity (fun z => z).
Proof. apply derivable_continuous, derivable_id. Qed.
Lemma continuity_lin a b (f : R -> R) : continuity f -> continuity (fun z => a + b * f z).
Proof. intros H. apply (continuity_plus (fun _ => a) (fun z => b * f z)); [apply continuity_const; intros u v; reflexivity|]. apply (continuity_scal f b H). Qed.
Lemma new_k_cont : continuity new_k.
Proof.
  unfold new_k, voce_new. apply (continuity_plus (fun _ => s0)); [apply continuity_const; intros u v; reflexivity|].
  apply continuity_div_pos; [apply continuity_lin, Rcontinuity_abs|apply continuity_lin, Rcontinuity_abs|]. intros z. now apply denom_pos.
Qed.
Lemma new_r_cont : continuity new_r.
Proof.
  unfold new_r. apply (continuity_minus (fun f => s + E * (de - dt * f)) (fun f => sum nb (new_back f))).
  - apply continuity_lin. apply (continuity_minus (fun _ => de)); [apply continuity_const; intros u v; reflexivity|]. apply (continuity_scal (fun z => z) dt continuity_id).
  - apply (continuity_sum nb (fun i f => new_back f i)). intros i Hi. destruct (back i Hi) as [G _]. unfold new_back, back_new.
    apply continuity_div_pos; [apply continuity_lin, continuity_id|apply continuity_lin, Rcontinuity_abs|]. intros z. now apply denom_pos.
Qed.
Lemma residual_cont : continuity residual.
Proof.
  assert (X : residual = fun f => f - (mpow n ((new_r f - new_k f) / eta) - mpow n ((- new_r f - new_k f) / eta))).
  { apply FunctionalExtensionality.functional_extensionality. intros f. unfold residual. now rewrite (proj1 (flow_split n eta _ (new_r f) n0 eta0 (new_k_ge0 f))). }
  assert (c : forall a : R -> R, continuity a -> continuity (fun f => mpow n ((a f - new_k f) / eta))).
  { intros a Ca. apply (continuity_comp (fun f => (a f - new_k f) / eta) (mpow n)); [|now apply mpow_continuous].
    apply continuity_div_pos; [apply (continuity_minus a new_k Ca new_k_cont)|apply continuity_const; intros u v; reflexivity|auto]. }
  rewrite X. apply (continuity_minus (fun f => f)); [apply continuity_id|].
  apply (continuity_minus (fun f => mpow n ((new_r f - new_k f) / eta))); apply c; [apply new_r_cont|]. apply (continuity_opp new_r new_r_cont).
Qed.
Lemma residual_root : {f | residual f = 0}.
Proof.
  set (M := flow n eta 0 (Rabs (new_r 0))).
  assert (M0 : 0 <= M) by (apply flow_nonneg, Rabs_pos).
  assert (B1 : 0 <= residual M).
  { unfold residual. destruct (Rle_lt_dec (new_r M) 0) as [H|H].
    - pose proof (flow_odd n eta (new_k M) (new_r M)) as O. pose proof (flow_nonneg n eta (new_k M) (- new_r M) ltac:(lra)). lra.
    - pose proof (new_r_anti 0 M M0) as A. pose proof (Rle_abs (new_r 0)).
      pose proof (flow_mono n eta n0 eta0 (new_k M) 0 (new_r M) (Rabs (new_r 0)) (new_k_ge0 M) (new_k_ge0 M) ltac:(lra) ltac:(lra)). fold M in H1. lra. }
  assert (B2 : residual (- M) <= 0).
  { unfold residual. destruct (Rle_lt_dec 0 (new_r (- M))) as [H|H].
    - pose proof (flow_nonneg n eta (new_k (- M)) (new_r (- M)) H). lra.
    - pose proof (flow_odd n eta (new_k (- M)) (new_r (- M))) as O. pose proof (new_r_anti (- M) 0 ltac:(lra)) as A. pose proof (Rle_abs (- new_r 0)) as A'. rewrite Rabs_Ropp in A'.
      pose proof (flow_mono n eta n0 eta0 (new_k (- M)) 0 (- new_r (- M)) (Rabs (new_r 0)) (new_k_ge0 _) (new_k_ge0 _) ltac:(lra) ltac:(lra)). fold M in H0. lra. }
  destruct (IVT_cor residual (- M) M residual_cont ltac:(lra)) as (z & _ & Hz); [|exists z; exact Hz].
  replace (residual (- M) * residual M) with (- ((- residual (- M)) * residual M)) by ring. pose proof (Rmult_le_pos (- residual (- M)) (residual M) ltac:(lra) B1). lra.
Qed.

(** The backward Euler equations of the step: new stress s', isotropic hardening h' and backstresses x'. *)
Definition vc_step (s' h' : R) (x' : nat -> R) : Prop :=
  let f := flow n eta (s0 + h') (s' - sum nb x') in
  s' - s = E * (de - dt * f) /\ h' - h = dt * (d * (Rs - h') * Rabs f) /\ forall i, (i < nb)%nat -> x' i - x i = dt * (C i * f - g i * x' i * Rabs f).
Lemma vc_step_residual s' h' x' : vc_step s' h' x' ->
  exists f, residual f = 0 /\ s' = s + E * (de - dt * f) /\ h' = voce_new dt d Rs h f /\ forall i, (i < nb)%nat -> x' i = new_back f i.
Proof.
  intros (A & B & D). set (f := flow n eta (s0 + h') (s' - sum nb x')) in *. exists f.
  apply voce_eq in B; [|assumption..].
  assert (X : forall i, (i < nb)%nat -> x' i = new_back f i). { intros i Hi. destruct (back i Hi). apply back_eq; auto. }
  repeat split; auto; [|lra]. unfold residual, new_r, new_k. rewrite <- B, <- (sum_ext nb x' (new_back f)) by exact X.
  replace (s + E * (de - dt * f)) with s' by lra. fold f. lra.
Qed.
Lemma vc_step_unique s1 h1 x1 s2 h2 x2 : vc_step s1 h1 x1 -> vc_step s2 h2 x2 -> s1 = s2 /\ h1 = h2 /\ forall i, (i < nb)%nat -> x1 i = x2 i.
Proof.
  intros A B. destruct (vc_step_residual _ _ _ A) as (f & F1 & F2 & F3 & F4). destruct (vc_step_residual _ _ _ B) as (f' & G1 & G2 & G3 & G4).
  assert (f = f') by now apply residual_unique. subst f'. subst. repeat split; auto. intros i Hi. now rewrite F4, G4.
Qed.
Lemma vc_step_exists : {y | vc_step (fst (fst y)) (snd (fst y)) (snd y)}.
Proof.
  destruct residual_root as (f & Hf). exists ((s + E * (de - dt * f), voce_new dt d Rs h f), new_back f). unfold vc_step. cbn [fst snd].
  unfold residual, new_r, new_k in Hf. replace (flow n eta (s0 + voce_new dt d Rs h f) (s + E * (de - dt * f) - sum nb (new_back f))) with f by lra.
  split; [ring|]. split; [now apply voce_eq|]. intros i Hi. destruct (back i Hi). now apply back_eq.
Qed.
(** The next step starts in the same range. *)
Lemma vc_step_range s' h' x' : vc_step s' h' x' -> 0 <= h' <= Rs /\ forall i, (i < nb)%nat -> g i * Rabs (x' i) <= C i.
Proof.
  intros A. destruct (vc_step_residual _ _ _ A) as (f & F1 & F2 & F3 & F4). subst h'. split; [apply voce_range; auto; lra|].
  intros i Hi. rewrite F4 by exact Hi. destruct (back i Hi). now apply back_range.
Qed.
End Step.
