(** Calculus toolbox over the standard library's [derivable_pt_lim], and the
    specification of "these partial derivatives are exact" used for the
    constitutive models: along every differentiable curve through the state,
    the function has the derivative predicted by the chain rule. *)
From Coq Require Import Reals Lra Lia.
From Verif Require Import Torch.
Local Open Scope R_scope.

Notation D := derivable_pt_lim.

(** Finite sums, vectors as functions [nat -> R] with a size kept apart. *)
Fixpoint sum (n : nat) (f : nat -> R) : R := match n with O => 0 | S n' => sum n' f + f n' end.

Lemma sum_ext n f g : (forall i, (i < n)%nat -> f i = g i) -> sum n f = sum n g.
Proof. induction n; simpl; intros H; [auto|]. rewrite IHn, H; auto. Qed.
Lemma sum_0 n f : (forall i, (i < n)%nat -> f i = 0) -> sum n f = 0.
Proof. induction n; simpl; intros H; [auto|]. rewrite IHn, H; auto. ring. Qed.
Lemma sum_plus n f g : sum n (fun i => f i + g i) = sum n f + sum n g.
Proof. induction n; simpl; [ring|]. rewrite IHn. ring. Qed.
Lemma sum_scal n a f : sum n (fun i => a * f i) = a * sum n f.
Proof. induction n; simpl; [ring|]. rewrite IHn. ring. Qed.
Lemma sum_scal_r n a f : sum n (fun i => f i * a) = sum n f * a.
Proof. induction n; simpl; [ring|]. rewrite IHn. ring. Qed.
Lemma sum_minus n f g : sum n (fun i => f i - g i) = sum n f - sum n g.
Proof. induction n; simpl; [ring|]. rewrite IHn. ring. Qed.
Lemma sum_opp n f : sum n (fun i => - f i) = - sum n f.
Proof. induction n; simpl; [ring|]. rewrite IHn. ring. Qed.
Lemma sum_app n m f : sum (n + m) f = sum n f + sum m (fun i => f (n + i)%nat).
Proof.
  induction m; simpl.
  - rewrite Nat.add_0_r. ring.
  - rewrite Nat.add_succ_r. simpl. rewrite IHm. ring.
Qed.
Lemma sum_single n k f : (k < n)%nat -> (forall i, (i < n)%nat -> i <> k -> f i = 0) -> sum n f = f k.
Proof.
  induction n; intros Hk H; [lia|]. simpl. destruct (Nat.eq_dec k n) as [->|Hn].
  - rewrite sum_0 by (intros i Hi; apply H; lia). ring.
  - rewrite IHn by (try lia; intros i Hi; apply H; lia). rewrite (H n); [ring|lia|auto].
Qed.
Lemma sum_S n f : sum (S n) f = f 0%nat + sum n (fun i => f (S i)).
Proof. change (S n) with (1 + n)%nat. rewrite sum_app. simpl. ring. Qed.

(** ** Rules *)
Lemma D_eq f x l l' : D f x l -> l = l' -> D f x l'.
Proof. now intros H <-. Qed.
Lemma D_ext f g x l : (forall y, f y = g y) -> D f x l -> D g x l.
Proof.
  intros E H eps He. destruct (H eps He) as [d Hd]. exists d. intros h H1 H2. rewrite <- !E. auto.
Qed.
Lemma D_ext_loc f g x l d : 0 < d -> (forall y, Rabs (y - x) < d -> f y = g y) -> D f x l -> D g x l.
Proof.
  intros Hd E H eps He. destruct (H eps He) as [d' Hd'].
  assert (Hm : 0 < Rmin d d') by (apply Rmin_pos; [auto|apply cond_pos]).
  exists (mkposreal _ Hm). intros h H1 H2. simpl in H2. rewrite <- !E.
  - apply Hd'; auto. apply Rlt_le_trans with (1 := H2), Rmin_r.
  - rewrite Rminus_diag_eq, Rabs_R0 by auto. auto.
  - replace (x + h - x) with h by ring. apply Rlt_le_trans with (1 := H2), Rmin_l.
Qed.
Lemma D_const c x : D (fun _ => c) x 0.
Proof. apply derivable_pt_lim_const. Qed.
Lemma D_id x : D (fun y => y) x 1.
Proof. apply derivable_pt_lim_id. Qed.
Lemma D_plus f g x l m : D f x l -> D g x m -> D (fun y => f y + g y) x (l + m).
Proof. intros. now apply (derivable_pt_lim_plus f g). Qed.
Lemma D_minus f g x l m : D f x l -> D g x m -> D (fun y => f y - g y) x (l - m).
Proof. intros. now apply (derivable_pt_lim_minus f g). Qed.
Lemma D_opp f x l : D f x l -> D (fun y => - f y) x (- l).
Proof. intros. now apply (derivable_pt_lim_opp f). Qed.
Lemma D_mult f g x l m : D f x l -> D g x m -> D (fun y => f y * g y) x (l * g x + f x * m).
Proof. intros. now apply (derivable_pt_lim_mult f g). Qed.
Lemma D_scal a f x l : D f x l -> D (fun y => a * f y) x (a * l).
Proof. intros. now apply (derivable_pt_lim_scal f a). Qed.
Lemma D_scal_r a f x l : D f x l -> D (fun y => f y * a) x (l * a).
Proof. intros H. apply (D_ext (fun y => a * f y)); [intros; ring|]. rewrite Rmult_comm. now apply D_scal. Qed.
Lemma D_div_c a f x l : D f x l -> D (fun y => f y / a) x (l / a).
Proof. intros H. now apply D_scal_r. Qed.
Lemma D_comp g f x l m : D f x l -> D g (f x) m -> D (fun y => g (f y)) x (m * l).
Proof. intros. now apply (derivable_pt_lim_comp f g). Qed.
Lemma D_inv f x l : f x <> 0 -> D f x l -> D (fun y => / f y) x (- l / (f x * f x)).
Proof.
  intros H Hf. apply (D_ext (fun y => 1 / f y)); [intros; unfold Rdiv; ring|].
  eapply D_eq; [exact (derivable_pt_lim_div (fun _ => 1) f x 0 l (D_const 1 x) Hf H)|].
  unfold Rsqr. field. auto.
Qed.
Lemma D_div f g x l m : g x <> 0 -> D f x l -> D g x m ->
  D (fun y => f y / g y) x ((l * g x - f x * m) / (g x * g x)).
Proof.
  intros H Hf Hg. eapply D_eq; [exact (derivable_pt_lim_div f g x l m Hf Hg H)|]. unfold Rsqr. field. auto.
Qed.
Lemma D_sum n f x l : (forall i, (i < n)%nat -> D (f i) x (l i)) -> D (fun y => sum n (fun i => f i y)) x (sum n l).
Proof.
  induction n; simpl; intros H; [apply D_const|]. apply (D_plus (fun y => sum n (fun i => f i y)) (f n)); auto.
Qed.
Lemma D_exp f x l : D f x l -> D (fun y => exp (f y)) x (exp (f x) * l).
Proof. intros H. apply (D_comp exp); auto. apply derivable_pt_lim_exp. Qed.
Lemma D_ln f x l : 0 < f x -> D f x l -> D (fun y => ln (f y)) x (/ f x * l).
Proof. intros Hp H. apply (D_comp ln); auto. now apply derivable_pt_lim_ln. Qed.

(** Continuity at the point. *)
Lemma D_cont f x l : D f x l -> forall eps, 0 < eps -> exists d, 0 < d /\ forall y, Rabs (y - x) < d -> Rabs (f y - f x) < eps.
Proof.
  intros H eps He. assert (C : continuity_pt f x) by (apply derivable_continuous_pt; exists l; auto).
  destruct (C eps He) as (d & Hd & Hc). exists d. split; [exact Hd|]. intros y Hy.
  destruct (Req_dec y x) as [->|Hn].
  - rewrite Rminus_diag_eq, Rabs_R0; auto.
  - apply (Hc y). split; [|exact Hy]. split; [exact I|auto].
Qed.
Lemma D_near_pos f x l : D f x l -> 0 < f x -> exists d, 0 < d /\ forall y, Rabs (y - x) < d -> 0 < f y.
Proof.
  intros H Hp. destruct (D_cont f x l H (f x) Hp) as (d & Hd & Hc). exists d. split; auto.
  intros y Hy. specialize (Hc y Hy). apply Rabs_def2 in Hc. lra.
Qed.
Lemma D_near_neg f x l : D f x l -> f x < 0 -> exists d, 0 < d /\ forall y, Rabs (y - x) < d -> f y < 0.
Proof.
  intros H Hp. destruct (D_near_pos (fun y => - f y) x (- l)) as (d & Hd & Hc); [now apply D_opp|lra|].
  exists d. split; auto. intros y Hy. specialize (Hc y Hy). lra.
Qed.

(** A function squeezed by one with zero value and zero slope. *)
Lemma D_squeeze f g x d : 0 < d -> (forall y, Rabs (y - x) < d -> Rabs (f y) <= Rabs (g y)) ->
  g x = 0 -> D g x 0 -> D f x 0.
Proof.
  intros Hd B G0 Hg. assert (F0 : f x = 0).
  { specialize (B x). rewrite Rminus_diag_eq, Rabs_R0, G0, Rabs_R0 in B by auto. specialize (B Hd).
    pose proof (Rabs_pos (f x)). destruct (Req_dec (f x) 0) as [|N]; auto. apply Rabs_no_R0 in N. lra. }
  intros eps He. destruct (Hg eps He) as [d' Hd'].
  assert (Hm : 0 < Rmin d d') by (apply Rmin_pos; [auto|apply cond_pos]).
  exists (mkposreal _ Hm). intros h H1 H2. simpl in H2.
  assert (h1 : Rabs h < d) by (apply Rlt_le_trans with (1 := H2), Rmin_l).
  assert (h2 : Rabs h < d') by (apply Rlt_le_trans with (1 := H2), Rmin_r).
  specialize (Hd' h H1 h2). rewrite F0, G0, !Rminus_0_r in *.
  apply Rle_lt_trans with (2 := Hd'). unfold Rdiv. rewrite !Rabs_mult. apply Rmult_le_compat_r; [apply Rabs_pos|].
  apply B. replace (x + h - x) with h by ring. auto.
Qed.

(** Absolute value: exact except at a kink crossed with non-zero speed. *)
Lemma D_Rabs f x l : D f x l -> f x <> 0 \/ l = 0 -> D (fun y => Rabs (f y)) x (tsign (f x) * l).
Proof.
  intros H C. destruct (Rtotal_order (f x) 0) as [N|[Z|P]].
  - destruct (D_near_neg f x l H N) as (d & Hd & Hc). rewrite tsign_neg by auto.
    apply (D_ext_loc (fun y => - f y) _ x _ d Hd).
    + intros y Hy. rewrite Rabs_left; auto.
    + replace (-1 * l) with (- l) by ring. now apply D_opp.
  - destruct C as [C| ->]; [contradiction|]. rewrite Rmult_0_r.
    apply (D_squeeze _ f x 1); auto; [lra|]. intros y _. rewrite Rabs_Rabsolu. lra.
  - destruct (D_near_pos f x l H P) as (d & Hd & Hc). rewrite tsign_pos by auto.
    apply (D_ext_loc f _ x _ d Hd).
    + intros y Hy. rewrite Rabs_right; auto. left. now apply Hc.
    + now rewrite Rmult_1_l.
Qed.
Lemma D_tsign f x l : D f x l -> f x <> 0 -> D (fun y => tsign (f y)) x 0.
Proof.
  intros H C. destruct (Rdichotomy _ _ C) as [N|P].
  - destruct (D_near_neg f x l H N) as (d & Hd & Hc). apply (D_ext_loc (fun _ => -1) _ x _ d Hd); [|apply D_const].
    intros y Hy. rewrite tsign_neg; auto.
  - destruct (D_near_pos f x l H P) as (d & Hd & Hc). apply (D_ext_loc (fun _ => 1) _ x _ d Hd); [|apply D_const].
    intros y Hy. rewrite tsign_pos; auto.
Qed.

(** ** Powers *)
Lemma D_Rpower f x l n : 0 < f x -> D f x l -> D (fun y => Rpower (f y) n) x (n * Rpower (f x) (n - 1) * l).
Proof.
  intros Hp H. apply (D_comp (fun u => Rpower u n)); auto. now apply derivable_pt_lim_power.
Qed.
Lemma D_pow0 f x l n : 0 < f x -> D f x l -> D (fun y => pow0 (f y) n) x (n * pow0 (f x) (n - 1) * l).
Proof.
  intros Hp H. destruct (D_near_pos f x l H Hp) as (d & Hd & Hc).
  apply (D_ext_loc (fun y => Rpower (f y) n) _ x _ d Hd).
  - intros y Hy. rewrite pow0_pos; auto.
  - rewrite pow0_pos by auto. now apply D_Rpower.
Qed.

(** pow0 is continuous at 0 for positive exponents. *)
Lemma pow0_small n eps : 0 < n -> 0 < eps -> exists d, 0 < d /\ forall u, 0 <= u < d -> pow0 u n < eps.
Proof.
  intros Hn He. exists (Rpower eps (/ n)). split; [apply exp_pos|]. intros u [[H| <-] Hu].
  - rewrite pow0_pos by auto. replace eps with (Rpower (Rpower eps (/ n)) n).
    + unfold Rpower at 1 2. apply exp_increasing. apply Rmult_lt_compat_l; auto.
      apply ln_increasing; auto.
    + rewrite Rpower_mult, Rinv_l, Rpower_1; auto. lra.
  - rewrite pow0_0 by lra. auto.
Qed.
(** The signed power |x|^n sign(x). *)
Definition spow (n x : R) : R := pow0 (Rabs x) n * tsign x.
Lemma Rabs_spow n x : 0 < n -> Rabs (spow n x) = pow0 (Rabs x) n.
Proof.
  intros Hn. unfold spow. rewrite Rabs_mult, (Rabs_right (pow0 _ _)) by (apply Rle_ge, pow0_ge0).
  destruct (Rtotal_order x 0) as [N|[->|P]].
  - rewrite tsign_neg by auto. rewrite (Rabs_left (-1)) by lra. ring.
  - rewrite Rabs_R0, pow0_0 by lra. ring.
  - rewrite tsign_pos by auto. rewrite Rabs_R1. ring.
Qed.
Lemma spow_0 n : spow n 0 = 0.
Proof. unfold spow. rewrite tsign_0. ring. Qed.
Lemma D_spow_0 n : 1 < n -> D (spow n) 0 0.
Proof.
  intros Hn eps He. destruct (pow0_small (n - 1) eps) as (d & Hd & Hc); try lra.
  exists (mkposreal d Hd). intros h H1 H2. simpl in H2. rewrite spow_0, Rplus_0_l, !Rminus_0_r.
  unfold Rdiv. rewrite Rabs_mult, Rabs_spow by lra. rewrite <- pow0_pred by (try lra; apply Rabs_pos).
  rewrite Rmult_assoc, <- Rabs_mult, Rinv_r, Rabs_R1, Rmult_1_r by auto. apply Hc. split; [apply Rabs_pos|auto].
Qed.
Lemma D_spow1 n x : 1 <= n \/ x <> 0 -> D (spow n) x (n * pow0 (Rabs x) (n - 1)).
Proof.
  intros Hn. destruct (Req_dec x 0) as [->|Hx].
  - destruct Hn as [Hn|]; [|lra]. destruct Hn as [Hn| <-].
    + rewrite Rabs_R0, pow0_0, Rmult_0_r by lra. now apply D_spow_0.
    + rewrite Rabs_R0. replace (1 - 1) with 0 by ring. replace (pow0 0 0) with 1.
      * rewrite Rmult_1_l. apply (D_ext (fun y => y)); [|apply D_id].
        intros y. unfold spow. rewrite pow0_1 by apply Rabs_pos. now rewrite abs_tsign.
      * unfold pow0. destruct (Rlt_dec 0 0); [lra|]. destruct (Req_EM_T 0 0); [auto|lra].
  - unfold spow. eapply D_eq.
    + apply (D_mult (fun y => pow0 (Rabs y) n) tsign).
      * apply (D_pow0 Rabs); [now apply Rabs_pos_lt|]. apply (D_Rabs (fun y => y)); [apply D_id|auto].
      * apply (D_tsign (fun y => y) x 1); [apply D_id|auto].
    + destruct (Rdichotomy _ _ Hx).
      * rewrite tsign_neg by auto. ring.
      * rewrite tsign_pos by auto. ring.
Qed.
Lemma D_spow f x l n : 1 <= n \/ f x <> 0 -> D f x l ->
  D (fun y => pow0 (Rabs (f y)) n * tsign (f y)) x (n * pow0 (Rabs (f x)) (n - 1) * l).
Proof. intros Hn H. apply (D_comp (spow n)); auto. now apply D_spow1. Qed.

(** |x|^(r-1) x, the static recovery terms. *)
Lemma pow0_00 : pow0 0 0 = 1.
Proof. unfold pow0. destruct (Rlt_dec 0 0); [lra|]. destruct (Req_EM_T 0 0); [auto|lra]. Qed.
Lemma recov_spow r x : 1 <= r \/ x <> 0 -> pow0 (Rabs x) (r - 1) * x = spow r x.
Proof.
  intros H. unfold spow. destruct (Req_dec x 0) as [->|Hx].
  - rewrite tsign_0. ring.
  - assert (0 < Rabs x) by now apply Rabs_pos_lt. rewrite !pow0_pos by auto.
    rewrite <- (abs_tsign x) at 2. rewrite <- Rmult_assoc, Rpower_pred; auto.
Qed.
Lemma D_recov f x l r : 1 <= r \/ f x <> 0 -> D f x l ->
  D (fun y => pow0 (Rabs (f y)) (r - 1) * f y) x (r * pow0 (Rabs (f x)) (r - 1) * l).
Proof.
  intros Hr H. destruct Hr as [Hr|Hx].
  - apply (D_ext (fun y => spow r (f y))); [intros; symmetry; apply recov_spow; auto|].
    apply (D_comp (spow r)); auto. apply D_spow1; auto.
  - eapply D_eq.
    + apply D_mult; [|exact H]. apply (D_pow0 (fun y => Rabs (f y))); [now apply Rabs_pos_lt|].
      apply D_Rabs; eauto.
    + assert (E : pow0 (Rabs (f x)) (r - 1) = pow0 (Rabs (f x)) (r - 1 - 1) * Rabs (f x)).
      { assert (0 < Rabs (f x)) by now apply Rabs_pos_lt. rewrite !pow0_pos by auto. symmetry. now apply Rpower_pred. }
      cbv beta. rewrite E. generalize (pow0 (Rabs (f x)) (r - 1 - 1)). intros P. rewrite <- (tsign_abs (f x)). ring.
Qed.

(** Macaulay bracket to a power. *)
Definition mac (x : R) : R := Rmax x 0.
Lemma mac_ge0 x : 0 <= mac x.
Proof. apply Rmax_r. Qed.
Lemma mac_pos x : 0 <= x -> mac x = x.
Proof. intros. unfold mac. now apply Rmax_left. Qed.
Lemma mac_neg x : x <= 0 -> mac x = 0.
Proof. intros. unfold mac. now apply Rmax_right. Qed.
Lemma mac_abs x : mac x <= Rabs x.
Proof. unfold mac. apply Rmax_lub; [apply Rle_abs|apply Rabs_pos]. Qed.
Lemma D_macpow1 n u : 1 < n -> D (fun v => pow0 (mac v) n) u (n * pow0 (mac u) (n - 1)).
Proof.
  intros Hn. destruct (Rtotal_order u 0) as [N|[->|P]].
  - rewrite mac_neg by lra. rewrite pow0_0, Rmult_0_r by lra.
    apply (D_ext_loc (fun _ => 0) _ u _ (- u)); [lra| |apply D_const].
    intros y Hy. apply Rabs_def2 in Hy. rewrite mac_neg, pow0_0 by lra. auto.
  - rewrite mac_neg by lra. rewrite pow0_0, Rmult_0_r by lra.
    apply (D_squeeze _ (spow n) 0 1); [lra| |apply spow_0|now apply D_spow_0].
    intros y _. rewrite Rabs_spow by lra. rewrite Rabs_right by (apply Rle_ge, pow0_ge0).
    apply pow0_mono; [apply mac_ge0|apply mac_abs|lra].
  - rewrite mac_pos by lra. apply (D_ext_loc (fun v => pow0 v n) _ u _ u P).
    + intros y Hy. apply Rabs_def2 in Hy. rewrite mac_pos; auto. lra.
    + eapply D_eq; [apply (D_pow0 (fun v => v)); [auto|apply D_id]|]. ring.
Qed.
Lemma D_macpow f x l n : 1 < n -> D f x l -> D (fun y => pow0 (mac (f y)) n) x (n * pow0 (mac (f x)) (n - 1) * l).
Proof. intros Hn H. apply (D_comp (fun v => pow0 (mac v) n)); auto. now apply D_macpow1. Qed.
Lemma D_macpow_pos f x l n : 1 < n \/ 0 < f x -> D f x l -> D (fun y => pow0 (mac (f y)) n) x (n * pow0 (mac (f x)) (n - 1) * l).
Proof.
  intros [Hn|P] H; [now apply D_macpow|]. apply (D_comp (fun v => pow0 (mac v) n)); auto.
  rewrite mac_pos by lra. apply (D_ext_loc (fun v => pow0 v n) _ (f x) _ (f x) P).
  - intros y Hy. apply Rabs_def2 in Hy. rewrite mac_pos; auto. lra.
  - eapply D_eq; [apply (D_pow0 (fun v => v)); [auto|apply D_id]|]. ring.
Qed.

(** Local Lipschitz bound. *)
Lemma D_bound f x l : D f x l -> exists d, 0 < d /\ forall y, Rabs (y - x) < d -> Rabs (f y - f x) <= (Rabs l + 1) * Rabs (y - x).
Proof.
  intros H. destruct (H 1 Rlt_0_1) as [d Hd]. exists d. split; [apply cond_pos|]. intros y Hy.
  destruct (Req_dec y x) as [->|Hn].
  - rewrite !Rminus_diag_eq, Rabs_R0 by auto. lra.
  - assert (Hh : y - x <> 0) by lra. specialize (Hd (y - x) Hh Hy).
    replace (x + (y - x)) with y in Hd by ring.
    replace (f y - f x) with (((f y - f x) / (y - x) - l) * (y - x) + l * (y - x)) by (field; auto).
    eapply Rle_trans; [apply Rabs_triang|]. rewrite !Rabs_mult, <- Rmult_plus_distr_r.
    apply Rmult_le_compat_r; [apply Rabs_pos|]. lra.
Qed.
