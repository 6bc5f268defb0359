(** Property C56 (the mean reported for a log-normal parameter): scaling.py 267-293. *)
From Coq Require Import Reals Lra.
From Coquelicot Require Import Coquelicot.
From Verif Require Import Torch Scaling.
Local Open Scope R_scope.

(** Specification: the standard normal density, up to its constant factor. *)
Definition gauss (z : R) : R := exp (- (z * z) / 2).

Lemma gauss_cont z : continuous gauss z.
Proof.
  apply (ex_derive_continuous gauss). unfold gauss. auto_derive. auto.
Qed.
Lemma gauss_int a b : ex_RInt gauss a b.
Proof. apply (ex_RInt_continuous gauss). intros z _. apply gauss_cont. Qed.


(** the density has a finite positive total weight *)
Definition gG (x : R) : R := RInt gauss 0 x.
Lemma gauss_pos z : 0 < gauss z.
Proof. apply exp_pos. Qed.
Lemma gG_diff a b : gG b - gG a = RInt gauss a b.
Proof.
  unfold gG. pose proof (RInt_Chasles gauss 0 a b (gauss_int _ _) (gauss_int _ _)) as H.
  unfold plus in H; simpl in H. rewrite <- H. ring.
Qed.
Lemma gG_incr a b : a <= b -> gG a <= gG b.
Proof.
  intros H. enough (0 <= gG b - gG a) by lra. rewrite gG_diff.
  apply RInt_ge_0; [exact H | apply gauss_int | intros; left; apply gauss_pos].
Qed.
Lemma gauss_even z : gauss (- z) = gauss z.
Proof. unfold gauss. f_equal. field. Qed.
Lemma gG_odd x : gG (- x) = - gG x.
Proof.
  unfold gG.
  pose proof (RInt_comp_lin gauss (-1) 0 0 x (gauss_int _ _)) as H.
  replace (-1 * 0 + 0) with 0 in H by ring. replace (-1 * x + 0) with (- x) in H by ring. rewrite <- H.
  rewrite (RInt_ext _ (fun y => opp (gauss y))).
  2:{ intros z _. replace (-1 * z + 0) with (- z) by ring. rewrite gauss_even.
      unfold scal, opp; simpl; unfold mult; simpl. ring. }
  exact (RInt_opp gauss 0 x (gauss_int _ _)).
Qed.
Lemma gauss_le z : gauss z <= exp (1 / 2) * exp (- z).
Proof.
  unfold gauss. rewrite <- exp_plus. pose proof (Rle_0_sqr (z - 1)) as H. unfold Rsqr in H.
  destruct (Req_dec (- (z * z) / 2) (1 / 2 + - z)) as [-> | N]; [lra|]. left. apply exp_increasing. lra.
Qed.
Lemma gG_bound x : gG x <= exp (1 / 2).
Proof.
  destruct (Rle_dec 0 x) as [H|H].
  2:{ apply Rle_trans with (gG 0); [apply gG_incr; lra|]. unfold gG. rewrite RInt_point. left; apply exp_pos. }
  assert (I : is_RInt (fun z => exp (1 / 2) * exp (- z)) 0 x (minus (- exp (1/2) * exp (- x)) (- exp (1/2) * exp (-0)))).
  { apply (is_RInt_derive (fun z => - exp (1/2) * exp (- z))).
    - intros z _. auto_derive; auto. ring.
    - intros z _. apply (ex_derive_continuous (V := R_NormedModule)). auto_derive. auto. }
  apply Rle_trans with (minus (- exp (1/2) * exp (- x)) (- exp (1/2) * exp (-0))).
  - apply (is_RInt_le gauss (fun z => exp (1 / 2) * exp (- z)) 0 x).
    + exact H. + apply (RInt_correct (V := R_CompleteNormedModule)), gauss_int. + exact I. + intros; apply gauss_le.
  - unfold minus, plus, opp; simpl. rewrite Ropp_0, exp_0.
    pose proof (exp_pos (- x)). pose proof (exp_pos (1/2)). nra.
Qed.
Lemma gauss_total : exists N, 0 < N /\ is_RInt_gen gauss (Rbar_locally m_infty) (Rbar_locally p_infty) N.
Proof.
  destruct (completeness (fun y => exists x, y = gG x)) as [L HL].
  - exists (exp (1/2)). intros y (x & ->). apply gG_bound.
  - exists (gG 0), 0. reflexivity.
  - exists (L + L).
    assert (HL0 : forall x, gG x <= L) by (intros x; apply (proj1 HL); now exists x).
    assert (Hap : forall eps, 0 < eps -> exists M, forall x, M < x -> L - eps < gG x).
    { intros eps He. destruct (Classical_Prop.classic (exists x, L - eps < gG x)) as [(M & HM)|HN].
      - exists M. intros x Hx. apply Rlt_le_trans with (gG M); [exact HM | apply gG_incr; lra].
      - exfalso. enough (L <= L - eps) by lra. apply (proj2 HL). intros y (x & ->).
        apply Rnot_lt_le. intros Hc. apply HN. now exists x. }
    split.
    + assert (0 < gG 1).
      { unfold gG. apply RInt_gt_0; [lra | intros; apply gauss_pos | intros; apply gauss_cont]. }
      specialize (HL0 1). lra.
    + intros P (eps & HP). destruct (Hap (eps / 2)) as [M HM]; [destruct eps; simpl; lra|].
      apply Filter_prod with (fun a => a < - M) (fun b => M < b).
      * exists (- M). auto.
      * exists M. auto.
      * intros a b Ha Hb. simpl. exists (RInt gauss a b). split; [exact (RInt_correct (V := R_CompleteNormedModule) _ _ _ (gauss_int a b))|].
        apply HP. rewrite <- gG_diff. replace (gG a) with (- gG (- a)) by (rewrite gG_odd; ring).
        pose proof (HM b Hb). pose proof (HM (- a) ltac:(lra)). pose proof (HL0 b). pose proof (HL0 (- a)).
        unfold ball; simpl; unfold AbsRing_ball, abs, minus, plus, opp; simpl. apply Rabs_def1; lra.
Qed.

(** the parameter is log_scale (loc + z * sc) with z standard normal.  Weighted by
    the density over any window [a,b] of z it is the reported mean times the
    density over the window moved by the reported scale; *)
Lemma log_window l u loc sc a b : 0 < l -> 0 < u ->
  let '(_, sp, mean) := log_stat l u loc sc in
  RInt (fun z => log_scale l u false (loc + z * sc) * gauss z) a b =
  mean * RInt gauss (a - sp) (b - sp).
Proof.
  intros Hl Hu. unfold log_stat. set (sp := (ln u - ln l) * sc). set (mean := (ln u - ln l) * loc + ln l).
  transitivity (RInt (fun y => scal (exp (mean + sp * sp / 2)) (gauss y)) (a - sp) (b - sp)).
  2:{ exact (RInt_scal gauss (a - sp) (b - sp) (exp (mean + sp * sp / 2)) (gauss_int _ _)). }
  replace (a - sp) with (1 * a + - sp) by ring. replace (b - sp) with (1 * b + - sp) by ring.
  rewrite <- (RInt_comp_lin (fun y => scal (exp (mean + sp * sp / 2)) (gauss y)) 1 (- sp) a b).
  2:{ exact (ex_RInt_scal gauss _ _ _ (gauss_int _ _)). }
  apply RInt_ext. intros z _. unfold scal; simpl; unfold mult; simpl.
  rewrite log_scale_exp by auto. unfold gauss, bounded_scale. rewrite Rmult_1_l, <- !exp_plus. f_equal.
  unfold sp, mean. field.
Qed.
(** hence, over all z: *)
Lemma log_total l u loc sc N : 0 < l -> 0 < u ->
  is_RInt_gen gauss (Rbar_locally m_infty) (Rbar_locally p_infty) N ->
  is_RInt_gen (fun z => log_scale l u false (loc + z * sc) * gauss z)
              (Rbar_locally m_infty) (Rbar_locally p_infty) (snd (log_stat l u loc sc) * N).
Proof.
  intros Hl Hu HN. pose proof (log_window l u loc sc) as HW.
  destruct (log_stat l u loc sc) as [[mn sp] mean] eqn:E. simpl.
  assert (Hint : forall a b, ex_RInt (fun z => log_scale l u false (loc + z * sc) * gauss z) a b).
  { intros a b. apply (ex_RInt_ext (fun z => exp (bounded_scale (ln l) (ln u) false (loc + z * sc)) * gauss z)).
    - intros z _. now rewrite log_scale_exp.
    - apply (ex_RInt_continuous (V := R_CompleteNormedModule)). intros z _.
      apply (ex_derive_continuous (V := R_NormedModule)). unfold bounded_scale, gauss. auto_derive. auto. }
  intros P HP.
  assert (HP' : locally N (fun y => P (mean * y))).
  { apply (continuous_scal_r (V := R_NormedModule) mean (fun y : R => y) N (continuous_id N)). exact HP. }
  destruct (HN _ HP') as [Q1 Q2 H1 H2 H12].
  apply Filter_prod with (fun a => Q1 (a - sp)) (fun b => Q2 (b - sp)).
  - destruct H1 as [M H1]. exists (M + sp). intros a Ha. apply H1. lra.
  - destruct H2 as [M H2]. exists (M + sp). intros b Hb. apply H2. lra.
  - intros a b Ha Hb. destruct (H12 _ _ Ha Hb) as (y & Hy & HPy). simpl in *.
    exists (mean * y). split; [|exact HPy].
    rewrite <- (is_RInt_unique _ _ _ _ Hy), <- HW by auto. exact (RInt_correct (V := R_CompleteNormedModule) _ _ _ (Hint a b)).
Qed.
(** C56 (scale_stat of LogBoundedScalingFunction): with N > 0 the total weight of
    the density of z, the total weight of the parameter log_scale (loc + z * sc)
    is the reported mean times N; that is, the reported mean is the expected value
    of the parameter when the scaled parameter is normal with the given loc and scale. *)
Theorem C56_log_normal_mean l u loc sc : 0 < l -> 0 < u ->
  exists N, 0 < N /\ is_RInt_gen gauss (Rbar_locally m_infty) (Rbar_locally p_infty) N /\
  is_RInt_gen (fun z => log_scale l u false (loc + z * sc) * gauss z)
              (Rbar_locally m_infty) (Rbar_locally p_infty) (snd (log_stat l u loc sc) * N).
Proof.
  intros Hl Hu. destruct gauss_total as (N & HN & HI). exists N. split; [exact HN|]. split; [exact HI|].
  now apply log_total.
Qed.
Print Assumptions C56_log_normal_mean.
(** a case: loc 0, scale 1 between 1 and e: the reported mean is the mean e^(1/2) of a
    standard log-normal variable, not the value log_scale loc = 1. *)
Example ex_C56_log_normal_mean : log_stat 1 (exp 1) 0 1 = (0, 1, exp (1 / 2)) /\ log_scale 1 (exp 1) false 0 = 1.
Proof.
  split.
  - unfold log_stat. rewrite ln_1, ln_exp. f_equal; [f_equal; ring|]. f_equal. field.
  - rewrite log_scale_exp by (try apply exp_pos; lra). unfold bounded_scale. rewrite ln_1. rewrite <- exp_0. f_equal. ring.
Qed.
