(** C102, C103: the densities the statistical models assign. *)
From Coq Require Import Reals ZArith List String Bool Lia Lra Permutation.
From Verif Require Props_Inference.
From Verif Require Import Experiments Inference DetR Bayes BayesFacts.
From Verif Require Det.
Import ListNotations.
Local Open Scope string_scope.

(** The normal density the log of which is used. *)
Lemma normal_density mu s x : (0 < s)%R ->
  exp (normal_logp mu s x) = (/ (s * sqrt (2 * PI)) * exp (- ((x - mu) ^ 2 / (2 * s ^ 2))))%R.
Proof.
  intros Hs. assert (P : (0 < sqrt (2 * PI))%R) by (apply sqrt_lt_R0; pose proof PI_RGT_0; lra).
  unfold normal_logp, Rminus. rewrite !exp_plus, !exp_Ropp, !exp_ln by auto. rewrite Rinv_mult. ring.
Qed.
Lemma normal_diff mu mu' s x : (normal_logp mu s x - normal_logp mu' s x = - ((x - mu) ^ 2 / (2 * s ^ 2)) + (x - mu') ^ 2 / (2 * s ^ 2))%R.
Proof. unfold normal_logp. lra. Qed.
Lemma rsum_minus n f g : (rsum n f - rsum n g = rsum n (fun i => f i - g i))%R.
Proof. induction n; simpl; [lra|]. rewrite <- IHn. lra. Qed.
Lemma lsum_minus {A} (f g : A -> R) l : (lsum f l - lsum g l = lsum (fun i => f i - g i) l)%R.
Proof. induction l; simpl; [lra|]. rewrite <- IHl. lra. Qed.
Lemma rsum_le n f g : (forall i, (i < n)%nat -> (f i <= g i)%R) -> (rsum n f <= rsum n g)%R.
Proof. induction n; simpl; intros H; [lra|]. pose proof (H n (Nat.lt_succ_diag_r n)). assert (rsum n f <= rsum n g)%R by auto. lra. Qed.
Lemma rsum_opp n f : rsum n (fun i => - f i)%R = (- rsum n f)%R.
Proof. induction n; simpl; [lra|]. rewrite IHn. lra. Qed.

(** ** C102: StatisticalModel *)
Lemma stat_sites_nodup names : forall seen, NoDup names -> (forall n, In n names -> ~ In n seen) -> stat_sites seen names = names.
Proof.
  induction names as [|n names IH]; intros seen N H; cbn [stat_sites]; [reflexivity|]. inversion N; subst.
  destruct (existsb (String.eqb n) seen) eqn:E.
  - exfalso. apply existsb_exists in E. destruct E as (x & Hx & E). apply String.eqb_eq in E. subst. apply (H x); [now left|auto].
  - f_equal. apply IH; auto. intros m Hm [<-|Q]; [contradiction|]. apply (H m); [now right|auto].
Qed.
(** Summing over the parameters by position *)
Lemma osum_positions (f : string -> option R) (g : nat -> R) (names : list string) :
  (forall i k, nth_error names i = Some k -> f k = Some (g i)) -> osum f names = Some (rsum (List.length names) g).
Proof.
  revert g. induction names as [|n names IH]; intros g H; cbn [osum List.length]; [reflexivity|].
  rewrite (H 0%nat n eq_refl), (IH (fun i => g (S i))) by (intros i k Hk; apply (H (S i) k Hk)).
  f_equal. generalize (List.length names). clear. induction n; cbn [rsum] in *; lra.
Qed.
Lemma init_at {P} names (ics : list P) i k v : NoDup names -> nth_error names i = Some k -> nth_error ics i = Some v ->
  get_attr (det_init names ics) k = Some v.
Proof.
  intros N Hk Hv. apply init_last with (i := i); auto. intros j Hj Q.
  rewrite NoDup_nth_error in N. assert (j = i); [|lia]. apply N; [|congruence]. apply nth_error_Some. congruence.
Qed.
Lemma combine_nth_error {A B} (l : list A) (l' : list B) i a b : nth_error l i = Some a -> nth_error l' i = Some b -> nth_error (combine l l') i = Some (a, b).
Proof. revert l l'. induction i; intros [|x l] [|y l']; simpl; intros H H'; try discriminate; [congruence|auto]. Qed.

(** The log density of parameter values [theta] and measurements [obs]: each parameter once, under its own
    prior, plus a normal density for every measured point, centred at what the deterministic model with the
    same names and values returns. *)
Theorem C102_joint_density forward names locs scales tn eps njunk ntrials ntimes types thetas obs res noise :
  NoDup names -> List.length locs = List.length names -> List.length scales = List.length names -> List.length thetas = List.length names ->
  forward (det_init names thetas) = Some res -> stat_noise tn eps njunk ntrials types = Some noise ->
  stat_joint forward names locs scales tn eps njunk ntrials ntimes types (det_init names thetas) obs =
  Some (rsum (List.length names) (fun i => normal_logp (nth i locs 0) (nth i scales 0) (nth i thetas 0))
        + rsum ntrials (fun b => rsum ntimes (fun t => normal_logp (at2 res b t) (nth b noise 0) (at2 obs b t))), obs)%R.
Proof.
  intros N L1 L2 L3 HF HN. unfold stat_joint. rewrite HF, HN, stat_sites_nodup by auto.
  rewrite (osum_positions _ (fun i => normal_logp (nth i locs 0) (nth i scales 0) (nth i thetas 0))%R); [reflexivity|].
  intros i k Hk. assert (Hi : (i < List.length names)%nat) by (apply nth_error_Some; congruence).
  assert (E : forall l : list R, List.length l = List.length names -> nth_error l i = Some (nth i l 0%R)) by (intros; apply nth_error_nth'; lia).
  unfold stat_priors. rewrite (init_at names (combine locs scales) i k (nth i locs 0, nth i scales 0)%R), (init_at names thetas i k (nth i thetas 0%R)); auto.
  apply combine_nth_error; auto.
Qed.
Print Assumptions C102_joint_density.

(** Per-type noise: every point of test [b] has the noise given for its own type. *)
Theorem C102_noise_of_own_type eps njunk ntrials types noise : List.length njunk = List.length types ->
  stat_noise true eps njunk ntrials types = Some noise ->
  forall b c, nth_error types b = Some c -> In c [0; 1; 2; 3; 4; 5; 6]%Z -> nth_error noise b = nth_error eps (Z.to_nat c).
Proof.
  unfold stat_noise, type_noise. intros L H b c Hb Hc.
  assert (K : forall codes acc w, List.length acc = List.length types -> NoDup codes ->
     fold_left (fun acc i => match acc, nth_error eps (Z.to_nat i) with Some w, Some e => Some (fill types i e w) | _, _ => None end) codes (Some acc) = Some w ->
     (In c codes -> nth_error w b = nth_error eps (Z.to_nat c)) /\ (~ In c codes -> nth_error w b = nth_error acc b)).
  { assert (NN : forall codes, fold_left (fun acc i => match acc, nth_error eps (Z.to_nat i) with Some w, Some e => Some (fill types i e w) | _, _ => None end) codes (@None (list R)) = None).
    { induction codes as [|i codes IHc]; cbn [fold_left]; auto. }
    induction codes as [|i codes IH]; intros acc w La ND HF; cbn [fold_left] in HF.
    - injection HF as <-. split; [contradiction|auto].
    - inversion ND; subst. destruct (nth_error eps (Z.to_nat i)) as [e|] eqn:E; [|rewrite NN in HF; discriminate].
      destruct (IH _ _ (fill_length types i e acc La) H3 HF) as [I1 I2].
      assert (Ha : exists x, nth_error acc b = Some x).
      { destruct (nth_error acc b) eqn:Q; [eauto|]. apply nth_error_None in Q. assert (nth_error types b <> None) by congruence. apply nth_error_Some in H0. lia. }
      destruct Ha as [x Hx]. pose proof (fill_nth types i e acc b c x Hb Hx) as FN. split.
      + intros [->|Q]; [|auto]. rewrite I2 by auto. rewrite FN, Z.eqb_refl. auto.
      + intros Q. rewrite I2 by (intros Q'; apply Q; now right). rewrite FN, Hx. destruct (Z.eqb_spec c i); [|auto]. exfalso. apply Q. now left. }
  destruct (K exp_codes njunk noise L) as [K1 _]; [|exact H|now apply K1].
  unfold exp_codes. repeat constructor; simpl; intuition discriminate.
Qed.
Print Assumptions C102_noise_of_own_type.

(** Comparing parameter values on the same data is comparing sums of squares: prior plus residuals, each
    over twice its variance. *)
Theorem C102_penalised_least_squares forward names locs scales tn eps njunk ntrials ntimes types th1 th2 obs res1 res2 noise :
  NoDup names -> List.length locs = List.length names -> List.length scales = List.length names ->
  List.length th1 = List.length names -> List.length th2 = List.length names ->
  forward (det_init names th1) = Some res1 -> forward (det_init names th2) = Some res2 ->
  stat_noise tn eps njunk ntrials types = Some noise ->
  let misfit th res := (rsum (List.length names) (fun i => (nth i th 0 - nth i locs 0) ^ 2 / (2 * nth i scales 0 ^ 2))
      + rsum ntrials (fun b => rsum ntimes (fun t => (at2 obs b t - at2 res b t) ^ 2 / (2 * nth b noise 0 ^ 2))))%R in
  exists lp1 lp2, stat_joint forward names locs scales tn eps njunk ntrials ntimes types (det_init names th1) obs = Some (lp1, obs) /\
    stat_joint forward names locs scales tn eps njunk ntrials ntimes types (det_init names th2) obs = Some (lp2, obs) /\
    (lp1 - lp2 = misfit th2 res2 - misfit th1 res1)%R.
Proof.
  intros N L1 L2 L3 L4 F1 F2 HN misfit. do 2 eexists.
  split; [apply (C102_joint_density forward names locs scales tn eps njunk ntrials ntimes types th1 obs res1 noise); auto|].
  split; [apply (C102_joint_density forward names locs scales tn eps njunk ntrials ntimes types th2 obs res2 noise); auto|]. unfold misfit.
  match goal with |- (?p + ?a - (?q + ?b) = ?c + ?d - (?e + ?f))%R => assert (A : (p - q = c - e)%R); [|assert (B : (a - b = d - f)%R); [|lra]] end.
  - rewrite !rsum_minus. apply rsum_ext. intros i _. unfold normal_logp. lra.
  - rewrite !rsum_minus. apply rsum_ext. intros b _. rewrite !rsum_minus. apply rsum_ext. intros t _. unfold normal_logp. lra.
Qed.
Print Assumptions C102_penalised_least_squares.

(** Measurements produced by the model itself: no other parameter values make them likelier. *)
Theorem C102_truth_maximises_likelihood forward names locs scales tn eps njunk ntrials ntimes types truth th obs res noise :
  NoDup names -> List.length locs = List.length names -> List.length scales = List.length names ->
  List.length truth = List.length names -> List.length th = List.length names ->
  forward (det_init names truth) = Some obs -> forward (det_init names th) = Some res ->
  stat_noise tn eps njunk ntrials types = Some noise ->
  let prior th := rsum (List.length names) (fun i => normal_logp (nth i locs 0) (nth i scales 0) (nth i th 0))%R in
  exists lp0 lp, stat_joint forward names locs scales tn eps njunk ntrials ntimes types (det_init names truth) obs = Some (lp0, obs) /\
    stat_joint forward names locs scales tn eps njunk ntrials ntimes types (det_init names th) obs = Some (lp, obs) /\
    (lp - prior th <= lp0 - prior truth)%R.
Proof.
  intros N L1 L2 L3 L4 F1 F2 HN prior. do 2 eexists.
  split; [apply (C102_joint_density forward names locs scales tn eps njunk ntrials ntimes types truth obs obs noise); auto|].
  split; [apply (C102_joint_density forward names locs scales tn eps njunk ntrials ntimes types th obs res noise); auto|]. unfold prior.
  match goal with |- (?p + ?a - ?p <= ?q + ?b - ?q)%R => assert (B : (a <= b)%R); [|lra] end.
  apply rsum_le. intros b _. apply rsum_le. intros t _. unfold normal_logp.
  assert (0 <= (at2 obs b t - at2 res b t) ^ 2 / (2 * nth b noise 0 ^ 2))%R.
  { destruct (Req_dec (nth b noise 0%R) 0) as [->|Z].
    - unfold Rdiv. replace (2 * 0 ^ 2)%R with 0%R by ring. rewrite Rinv_0. lra.
    - apply Rmult_le_pos; [apply pow2_ge_0|]. apply Rlt_le, Rinv_0_lt_compat. assert (0 < nth b noise 0 ^ 2)%R by (rewrite <- Rsqr_pow2; apply Rsqr_pos_lt; auto). lra. }
  replace ((at2 obs b t - at2 obs b t) ^ 2 / (2 * nth b noise 0 ^ 2))%R with 0%R by (unfold Rdiv; ring). lra.
Qed.
Print Assumptions C102_truth_maximises_likelihood.

(** A name given twice is sampled once, under the last prior given for it, and both arguments of the maker
    get that one value. *)
Theorem C102_repeated_name forward n l1 s1 l2 s2 tn eps njunk ntrials ntimes types x obs res noise :
  forward [(n, x)] = Some res -> stat_noise tn eps njunk ntrials types = Some noise ->
  stat_joint forward [n; n] [l1; l2] [s1; s2] tn eps njunk ntrials ntimes types [(n, x)] obs =
  Some (normal_logp l2 s2 x + rsum ntrials (fun b => rsum ntimes (fun t => normal_logp (at2 res b t) (nth b noise 0) (at2 obs b t))), obs)%R
  /\ get_params [n; n] [(n, x)] = Some [x; x].
Proof.
  intros HF HN. unfold stat_joint, get_params. rewrite HF, HN. cbn. rewrite !String.eqb_refl. cbn. rewrite ?String.eqb_refl. split; [|reflexivity].
  do 2 f_equal. lra.
Qed.
Print Assumptions C102_repeated_name.

(** With the deterministic model of Det.v: StatisticalModel at fixed values is DeterministicModel. *)
Theorem C102_mean_is_deterministic_model maker storage junk (names : list string) times temps idata nt cycles types control
    locs scales tn eps njunk ntrials ntimes thetas obs res warned noise :
  let forward attrs := option_map fst (@Det.det_forward R maker storage junk names attrs times temps idata nt cycles types control) in
  NoDup names -> List.length locs = List.length names -> List.length scales = List.length names -> List.length thetas = List.length names ->
  Det.det_forward maker storage junk names (det_init names thetas) times temps idata nt cycles types control = Some (res, warned) ->
  stat_noise tn eps njunk ntrials types = Some noise ->
  stat_joint forward names locs scales tn eps njunk ntrials ntimes types (det_init names thetas) obs =
  Some (rsum (List.length names) (fun i => normal_logp (nth i locs 0) (nth i scales 0) (nth i thetas 0))
        + rsum ntrials (fun b => rsum ntimes (fun t => normal_logp (at2 res b t) (nth b noise 0) (at2 obs b t))), obs)%R.
Proof.
  intros forward N L1 L2 L3 HF HN. apply C102_joint_density; auto. unfold forward. now rewrite HF.
Qed.
Print Assumptions C102_mean_is_deterministic_model.

Example C102_ex : stat_joint (fun a => option_map (fun x => [[x; x]]) (get_attr a "E")) ["E"; "n"] [1; 2]%R [3; 4]%R true [1; 2; 3; 4; 5; 6; 7]%R [0]%R 1 2 [3]%Z
    (det_init ["E"; "n"] [5; 6])%R [[7; 8]]%R =
  Some (normal_logp 1 3 5 + normal_logp 2 4 6 + (normal_logp 5 4 7 + normal_logp 5 4 8), [[7; 8]])%R.
Proof.
  rewrite (C102_joint_density _ ["E"; "n"] [1; 2]%R [3; 4]%R true [1; 2; 3; 4; 5; 6; 7]%R [0]%R 1 2 [3]%Z [5; 6]%R [[7; 8]]%R [[5; 5]]%R [4]%R); auto.
  - cbn. do 2 f_equal. lra.
  - apply nodupb_spec. reflexivity.
Qed.

(** ** C103: HierarchicalStatisticalModel *)
(** One evaluation of the training loss.  With [p k] the tensor the parameter store holds for site [k] after
    the guide ran, it is minus
      - the log density of every population mean and scale under its prior (and of the noise, if inferred),
      - and, for each test, its type's weight times the log density of its own parameters given the
        population and of its measurements given what the model simulates with those parameters. *)
Theorem C103_loss_is_weighted_posterior class_attr solve h limit table s D tr gv s' pred res noise :
  complete tensor h -> well_named tensor class_attr h -> (2 <= limit)%nat ->
  guide tensor t_dim h (d_trials D) s = inl (tr, gv, s') -> fits h (d_trials D) s' ->
  noise_vector h s' D = Some noise ->
  let p k := t_at (stored s' (k +++ h_param_suffix tensor h)) in
  solve (map (fun v => stored s' (v +++ h_param_suffix tensor h)) (h_names tensor h)) = Some pred ->
  convert_results (d_junk D) pred (d_cycles D) (d_types D) = Some res ->
  let weight b := nth b (make_weight_tensor table (d_types D)) 0%R in
  let population := lsum (fun r => match r with (v, ll, ls, ss) =>
       rsum (t_size ll) (fun i => normal_logp (t_at ll i) (t_at ls i) (p (v +++ h_loc_suffix tensor h) i)) +
       rsum (t_size ll) (fun i => half_logp (t_at ss i) (p (v +++ h_scale_suffix tensor h) i)) end)%R (rows tensor h) in
  let inferred_noise := if h_include_noise tensor h then rsum (t_size (h_noise tensor h)) (fun i => half_logp (t_at (h_noise tensor h) i) (p "eps" i)) else 0%R in
  let test b := (lsum (fun r => match r with (v, ll, ls, ss) =>
       rsum (t_size ll) (fun i => normal_logp (p (v +++ h_loc_suffix tensor h) i) (p (v +++ h_scale_suffix tensor h) i) (p v (b * t_size ll + i)%nat)) end) (rows tensor h)
     + rsum (d_times D) (fun t => normal_logp (at2 res b t) (nth b noise 0) (at2 (d_obs D) b t)))%R in
  svi_loss class_attr solve limit h table s D =
    Some (- (population + inferred_noise + rsum (d_trials D) (fun b => weight b * test b)), res, s')%R.
Proof. intros C W HL G F N p S V. exact (svi_value class_attr h C W solve limit table s D tr gv s' pred res noise HL G F N S V). Qed.
Print Assumptions C103_loss_is_weighted_posterior.

(** Tests of a type without a weight (weight zero) do not influence the loss through their measurements. *)
Theorem C103_unweighted_measurements_ignored class_attr solve limit h table s D obs :
  let D' := Data (d_trials D) (d_times D) (d_types D) (d_cycles D) obs (d_junk D) (d_njunk D) in
  (forall b, (b < d_trials D)%nat -> nth b (make_weight_tensor table (d_types D)) 0%R = 0%R \/ nth b obs [] = nth b (d_obs D) []) ->
  svi_loss class_attr solve limit h table s D' = svi_loss class_attr solve limit h table s D.
Proof.
  intros D' H. unfold svi_loss. cbn [d_trials D']. destruct (guide tensor t_dim h (d_trials D) s) as [[[tr gv] s']|]; [|reflexivity].
  destruct (traverse _ gv) as [vs|]; [|reflexivity]. unfold hier_forward.
  destruct (model_trace _ _ _ _ _ _ _) as [nodes|]; [|reflexivity].
  change (full_noise h vs D') with (full_noise h vs D). change (results solve h vs D') with (results solve h vs D).
  destruct (full_noise h vs D) as [noise|]; [|reflexivity]. destruct (results solve h vs D) as [res|]; [|reflexivity].
  assert (E : forall nd, site_logp class_attr h vs D' res noise (make_weight_tensor table (d_types D')) nd =
     site_logp class_attr h vs D res noise (make_weight_tensor table (d_types D)) nd).
  { intros [nm|k pl e [|]]; [reflexivity| |reflexivity]. cbn [site_logp D' d_trials d_types]. f_equal. apply rsum_ext. intros b Hb.
    destruct (H b Hb) as [->|Q]; [lra|]. f_equal. unfold obs_logp, at2. subst D'. cbn [d_times d_obs]. now rewrite Q. }
  assert (E2 : forall l, osum (site_logp class_attr h vs D' res noise (make_weight_tensor table (d_types D'))) l =
     osum (site_logp class_attr h vs D res noise (make_weight_tensor table (d_types D))) l).
  { induction l as [|x l IH]; cbn [osum]; [reflexivity|]. now rewrite IH, E. }
  now rewrite E2.
Qed.
Print Assumptions C103_unweighted_measurements_ignored.

(** For fixed population and noise parameters the loss compares test parameters by weighted sums of squares. *)
Theorem C103_penalised_least_squares class_attr solve h limit table s1 s2 D tr1 gv1 s1' tr2 gv2 s2' pred1 pred2 res1 res2 noise :
  complete tensor h -> well_named tensor class_attr h -> (2 <= limit)%nat ->
  guide tensor t_dim h (d_trials D) s1 = inl (tr1, gv1, s1') -> fits h (d_trials D) s1' ->
  guide tensor t_dim h (d_trials D) s2 = inl (tr2, gv2, s2') -> fits h (d_trials D) s2' ->
  let param s k := stored s (k +++ h_param_suffix tensor h) in
  (forall v, In v (h_names tensor h) -> param s1' (v +++ h_loc_suffix tensor h) = param s2' (v +++ h_loc_suffix tensor h)
      /\ param s1' (v +++ h_scale_suffix tensor h) = param s2' (v +++ h_scale_suffix tensor h)) ->
  param s1' "eps" = param s2' "eps" ->
  noise_vector h s1' D = Some noise ->
  solve (map (param s1') (h_names tensor h)) = Some pred1 -> convert_results (d_junk D) pred1 (d_cycles D) (d_types D) = Some res1 ->
  solve (map (param s2') (h_names tensor h)) = Some pred2 -> convert_results (d_junk D) pred2 (d_cycles D) (d_types D) = Some res2 ->
  let weight b := nth b (make_weight_tensor table (d_types D)) 0%R in
  let misfit s res b := (lsum (fun r => match r with (v, ll, ls, ss) =>
       rsum (t_size ll) (fun i => (t_at (param s v) (b * t_size ll + i)%nat - t_at (param s (v +++ h_loc_suffix tensor h)) i) ^ 2
                                   / (2 * t_at (param s (v +++ h_scale_suffix tensor h)) i ^ 2)) end) (rows tensor h)
     + rsum (d_times D) (fun t => (at2 (d_obs D) b t - at2 res b t) ^ 2 / (2 * nth b noise 0 ^ 2)))%R in
  exists l1 l2, svi_loss class_attr solve limit h table s1 D = Some (l1, res1, s1') /\ svi_loss class_attr solve limit h table s2 D = Some (l2, res2, s2') /\
    (l1 - l2 = rsum (d_trials D) (fun b => weight b * (misfit s1' res1 b - misfit s2' res2 b)))%R.
Proof.
  intros C W HL G1 F1 G2 F2 param same same_eps N S1 V1 S2 V2 weight misfit.
  assert (N2 : noise_vector h s2' D = Some noise).
  { rewrite <- N. unfold noise_vector, eps_value. unfold param in same_eps. now rewrite same_eps. }
  do 2 eexists. split; [exact (svi_value class_attr h C W solve limit table s1 D tr1 gv1 s1' pred1 res1 noise HL G1 F1 N S1 V1)|].
  split; [exact (svi_value class_attr h C W solve limit table s2 D tr2 gv2 s2' pred2 res2 noise HL G2 F2 N2 S2 V2)|].
  assert (HR : forall v ll ls ss, In (v, ll, ls, ss) (rows tensor h) -> In v (h_names tensor h)).
  { intros v ll ls ss Hr. rewrite <- (rows_names tensor h C). change v with (rname tensor (v, ll, ls, ss)). now apply in_map. }
  assert (ET : lsum (top_logp h s1') (rows tensor h) = lsum (top_logp h s2') (rows tensor h)).
  { apply lsum_ext. intros [[[v ll] ls] ss] Hr. destruct (same v (HR _ _ _ _ Hr)) as [Q1 Q2]. unfold top_logp. unfold param in Q1, Q2. now rewrite Q1, Q2. }
  assert (EE : eps_logp h s1' = eps_logp h s2').
  { unfold eps_logp. unfold param in same_eps. now rewrite same_eps. }
  rewrite ET, EE.
  match goal with |- (- (?a + ?b) - - (?a + ?c) = ?d)%R => assert (K : (c - b = d)%R); [|lra] end.
  rewrite rsum_minus. apply rsum_ext. intros b _. fold (weight b). rewrite <- Rmult_minus_distr_l. f_equal. unfold misfit.
  match goal with |- (?a + ?b - (?c + ?d) = ?e + ?f - (?g + ?i))%R => assert (K1 : (a - c = e - g)%R); [|assert (K2 : (b - d = f - i)%R); [|lra]] end.
  - rewrite !lsum_minus. apply lsum_ext. intros [[[v ll] ls] ss] Hr. destruct (same v (HR _ _ _ _ Hr)) as [Q1 Q2]. unfold test_logp. fold (param s1' v) (param s2' v).
    fold (param s1' (v +++ h_loc_suffix tensor h)) (param s2' (v +++ h_loc_suffix tensor h)) (param s1' (v +++ h_scale_suffix tensor h)) (param s2' (v +++ h_scale_suffix tensor h)).
    rewrite Q1, Q2, !rsum_minus. apply rsum_ext. intros i _. unfold normal_logp. lra.
  - unfold obs_logp. rewrite !rsum_minus. apply rsum_ext. intros t _. unfold normal_logp. lra.
Qed.
Print Assumptions C103_penalised_least_squares.

(** The first evaluation, on an empty parameter store: the population is at its prior means and scales, and
    every test is simulated with the prior means. *)
Lemma fresh_store class_attr h n : complete tensor h -> well_named tensor class_attr h ->
  exists tr gv s', guide tensor t_dim h n [] = inl (tr, gv, s') /\
   (forall v ll ls ss, In (v, ll, ls, ss) (rows tensor h) ->
     stored s' ((v +++ h_loc_suffix tensor h) +++ h_param_suffix tensor h) = ll /\
     stored s' ((v +++ h_scale_suffix tensor h) +++ h_param_suffix tensor h) = ss /\
     stored s' (v +++ h_param_suffix tensor h) = tval (PRepeat tensor n ll)) /\
   (h_include_noise tensor h = true -> stored s' ("eps" +++ h_param_suffix tensor h) = h_noise tensor h).
Proof.
  intros C W. do 3 eexists. split; [exact (guide_ok tensor t_dim class_attr h n [] C W)|].
  assert (ND : NoDup (map (it_param tensor) (items tensor t_dim h n))).
  { pose proof (sites_nodup class_attr h C W n) as N.
    assert (E : map (it_param tensor) (items tensor t_dim h n) = map (fun k => k +++ h_param_suffix tensor h) (map (it_site tensor) (items tensor t_dim h n))).
    { rewrite map_map. apply map_ext_in. intros i Hi. destruct (item_cases h n i Hi) as [(v & ll & ls & ss & _ & [[-> ->]|[[-> ->]|[-> ->]]])|(-> & -> & _)]; reflexivity. }
    rewrite E. clear E. induction N as [|x l Hx N IH]; cbn [map]; constructor; auto. intros Q. apply in_map_iff in Q. destruct Q as (y & Q & Hy).
    apply append_inj_r in Q. now subst. }
  rewrite (run_fresh tensor (items tensor t_dim h n) []) by exact ND. cbn [fst snd app].
  assert (S : forall i, In i (items tensor t_dim h n) -> stored (map (fun i => (it_param tensor i, it_init tensor i)) (items tensor t_dim h n)) (it_param tensor i) = tval (it_init tensor i)).
  { intros i Hi. unfold stored. assert (Q : sget tensor (it_param tensor i) (map (fun i => (it_param tensor i, it_init tensor i)) (items tensor t_dim h n)) = Some (it_init tensor i)); [|now rewrite Q].
    revert ND Hi. generalize (items tensor t_dim h n). induction l as [|x l IH]; cbn [map]; intros ND Hi; [contradiction|]. inversion ND; subst. unfold sget. cbn [find fst].
    destruct Hi as [->|Hi]; [now rewrite String.eqb_refl|]. destruct (String.eqb_spec (it_param tensor x) (it_param tensor i)) as [Q|Q].
    - exfalso. apply H1. rewrite Q. now apply in_map.
    - apply (IH H2 Hi). }
  split.
  - intros v ll ls ss Hr. repeat split.
    + refine (S (Item tensor (v +++ h_loc_suffix tensor h) false (t_dim ll) ((v +++ h_loc_suffix tensor h) +++ h_param_suffix tensor h) (PVal tensor ll)) _).
      unfold items. apply in_or_app. left. apply in_flat_map. eexists. split; [exact Hr|]. left. reflexivity.
    + refine (S (Item tensor (v +++ h_scale_suffix tensor h) false (t_dim ll) ((v +++ h_scale_suffix tensor h) +++ h_param_suffix tensor h) (PVal tensor ss)) _).
      unfold items. apply in_or_app. left. apply in_flat_map. eexists. split; [exact Hr|]. right. left. reflexivity.
    + refine (S (Item tensor v true (t_dim ll) (v +++ h_param_suffix tensor h) (PRepeat tensor n ll)) _).
      unfold items. apply in_or_app. right. apply in_or_app. right. apply in_map_iff. eexists. split; [|exact Hr]. reflexivity.
  - intros I. refine (S (Item tensor "eps" false (if type_noise_on tensor t_dim h then 1 else 0) ("eps" +++ h_param_suffix tensor h) (PVal tensor (h_noise tensor h))) _).
    unfold items. apply in_or_app. right. apply in_or_app. left. unfold eps_items. rewrite I. left. reflexivity.
Qed.
Theorem C103_first_evaluation class_attr solve h limit table D pred res noise :
  complete tensor h -> well_named tensor class_attr h -> (2 <= limit)%nat ->
  (forall v ll ls ss, In (v, ll, ls, ss) (rows tensor h) -> t_shape ls = t_shape ll /\ t_shape ss = t_shape ll) ->
  (if type_noise_on tensor t_dim h then type_noise (map (t_at (h_noise tensor h)) (seq 0 (t_size (h_noise tensor h)))) (d_njunk D) (d_types D)
   else Some (repeat (t_at (h_noise tensor h) 0) (d_trials D))) = Some noise ->
  solve (map (fun ll => tval (PRepeat tensor (d_trials D) ll)) (h_loc_loc tensor h)) = Some pred ->
  convert_results (d_junk D) pred (d_cycles D) (d_types D) = Some res ->
  exists lp s', svi_loss class_attr solve limit h table [] D = Some (lp, res, s') /\
  (lp = - (lsum (fun r => match r with (v, ll, ls, ss) =>
             rsum (t_size ll) (fun i => normal_logp (t_at ll i) (t_at ls i) (t_at ll i)) + rsum (t_size ll) (fun i => half_logp (t_at ss i) (t_at ss i)) end) (rows tensor h)
           + (if h_include_noise tensor h then rsum (t_size (h_noise tensor h)) (fun i => half_logp (t_at (h_noise tensor h) i) (t_at (h_noise tensor h) i)) else 0)
           + rsum (d_trials D) (fun b => nth b (make_weight_tensor table (d_types D)) 0 *
               (lsum (fun r => match r with (v, ll, ls, ss) => rsum (t_size ll) (fun i => normal_logp (t_at ll i) (t_at ss i) (t_at ll i)) end) (rows tensor h)
                + rsum (d_times D) (fun t => normal_logp (at2 res b t) (nth b noise 0) (at2 (d_obs D) b t))))))%R.
Proof.
  intros C W HL Sh N S V. destruct (fresh_store class_attr h (d_trials D) C W) as (tr & gv & s' & G & P & E).
  assert (F : fits h (d_trials D) s').
  { split; [|intros I; now rewrite (E I)]. intros v ll ls ss Hr. destruct (P _ _ _ _ Hr) as (-> & -> & ->). destruct (Sh _ _ _ _ Hr) as [-> ->]. cbn. auto. }
  assert (EV : eps_value h s' = h_noise tensor h) by (unfold eps_value; destruct (h_include_noise tensor h); auto).
  assert (N' : noise_vector h s' D = Some noise) by (unfold noise_vector; rewrite EV; exact N).
  assert (S' : solve (map (fun v => stored s' (v +++ h_param_suffix tensor h)) (h_names tensor h)) = Some pred).
  { rewrite <- S. f_equal. rewrite <- (rows_names tensor h C), <- (rows_locs tensor h C), !map_map. apply map_ext_in.
    intros [[[v ll] ls] ss] Hr. exact (proj2 (proj2 (P _ _ _ _ Hr))). }
  do 2 eexists. split; [exact (svi_value class_attr h C W solve limit table [] D tr gv s' pred res noise HL G F N' S' V)|].
  f_equal. f_equal; [f_equal|].
  - apply lsum_ext. intros [[[v ll] ls] ss] Hr. unfold top_logp. destruct (P _ _ _ _ Hr) as (-> & -> & _). reflexivity.
  - unfold eps_logp. destruct (h_include_noise tensor h); [now rewrite E|reflexivity].
  - apply rsum_ext. intros b _. f_equal. f_equal. apply lsum_ext. intros [[[v ll] ls] ss] Hr. unfold test_logp. destruct (P _ _ _ _ Hr) as (-> & -> & ->).
    apply rsum_ext. intros i Hi. cbn [tval t_at]. f_equal. rewrite Nat.add_comm, Nat.mod_add by lia. now rewrite Nat.mod_small.
Qed.
Print Assumptions C103_first_evaluation.

(** The noise vector these statements mention: with a one-dimensional noise prior every test has the entry of its own type, with a scalar prior
    all tests share it. *)
Theorem C103_noise_of_own_type h s D noise : noise_vector h s D = Some noise ->
  (t_dim (h_noise tensor h) = 0%nat -> forall b, (b < d_trials D)%nat -> nth b noise 0%R = t_at (eps_value h s) 0) /\
  (t_dim (h_noise tensor h) = 1%nat -> List.length (d_njunk D) = List.length (d_types D) ->
   forall b c, nth_error (d_types D) b = Some c -> In c [0; 1; 2; 3; 4; 5; 6]%Z -> (Z.to_nat c < t_size (eps_value h s))%nat /\ nth b noise 0%R = t_at (eps_value h s) (Z.to_nat c)).
Proof.
  intros N. split.
  - intros E b Hb. unfold noise_vector, type_noise_on in N. rewrite E in N. cbn in N. injection N as <-.
    rewrite nth_indep with (d' := t_at (eps_value h s) 0) by (now rewrite repeat_length). apply nth_repeat.
  - intros E L b c Hb Hc. unfold noise_vector, type_noise_on in N. rewrite E in N. cbn [Nat.ltb Nat.leb] in N.
    set (eps := map (t_at (eps_value h s)) (seq 0 (t_size (eps_value h s)))) in *.
    pose proof (C102_noise_of_own_type eps (d_njunk D) (d_trials D) (d_types D) noise L N b c Hb Hc) as K.
    assert (Lc : (Z.to_nat c < List.length eps)%nat).
    { destruct (Props_Inference.C71_type_noise eps (d_njunk D) (d_types D) L) as [X _]. destruct (Nat.lt_ge_cases (List.length eps) 7) as [Q|Q]; [rewrite (X Q) in N; discriminate|].
      cbn in Hc. intuition lia. }
    assert (Ls : List.length eps = t_size (eps_value h s)) by (unfold eps; now rewrite map_length, seq_length).
    split; [lia|]. rewrite (nth_error_nth' _ 0%R Lc) in K. apply nth_error_nth with (d := 0%R) in K. rewrite K. unfold eps.
    rewrite nth_indep with (d' := t_at (eps_value h s) 0) by (fold eps; lia). rewrite map_nth, seq_nth by lia. reflexivity.
Qed.
Print Assumptions C103_noise_of_own_type.

Lemma forall2_in {A B} (P : A -> B -> Prop) la lb : Forall2 P la lb -> forall a, In a la -> exists b, In b lb /\ P a b.
Proof. induction 1; cbn; intros z E; [contradiction|]. destruct E as [<-|E]; [eauto|]. destruct (IHForall2 _ E) as (b & ? & ?). eauto. Qed.
(** The test parameters belong to the data set they were created for: evaluating with another number of
    tests raises (unless they were created for a single test, which is broadcast). *)
Theorem C103_other_number_of_tests_raises class_attr solve h limit table s D v p m sh :
  complete tensor h -> well_named tensor class_attr h -> In v (h_names tensor h) ->
  sget tensor (v +++ h_param_suffix tensor h) s = Some p -> t_shape (tval p) = m :: sh -> m <> d_trials D -> m <> 1%nat ->
  svi_loss class_attr solve limit h table s D = None.
Proof.
  intros C W Hv Hp Sh M1 M2. unfold svi_loss. rewrite (guide_ok tensor t_dim class_attr h (d_trials D) s C W).
  assert (T : traverse (guide_value class_attr h (d_trials D)) (fst (run tensor (items tensor t_dim h (d_trials D)) s)) = None); [|now rewrite T].
  apply traverse_none. exists (v, p). split.
  - rewrite <- (rows_names tensor h C) in Hv. apply in_map_iff in Hv. destruct Hv as ([[[v' ll] ls] ss] & E & Hr). cbn in E. subst v'.
    set (i := Item tensor v true (t_dim ll) (v +++ h_param_suffix tensor h) (PRepeat tensor (d_trials D) ll)).
    assert (Hi : In i (items tensor t_dim h (d_trials D))).
    { unfold items. apply in_or_app. right. apply in_or_app. right. apply in_map_iff. eexists. split; [|exact Hr]. reflexivity. }
    pose proof (run_vals tensor (items tensor t_dim h (d_trials D)) s) as RV.
    pose proof (run_keeps tensor (items tensor t_dim h (d_trials D)) s _ _ Hp) as K.
    destruct (forall2_in _ _ _ RV i Hi) as ([k q] & Hk & Q1 & Q2). cbn in Q1, Q2. change (it_param tensor i) with (v +++ h_param_suffix tensor h) in Q2.
    rewrite K in Q2. injection Q2 as <-. now subst k.
  - unfold guide_value. cbn [fst snd].
    rewrite <- (rows_names tensor h C) in Hv. apply in_map_iff in Hv. destruct Hv as ([[[v' ll] ls] ss] & E & Hr). cbn in E. subst v'.
    rewrite (proj2 (proj2 (prior_var class_attr h C W _ _ _ _ Hr))). unfold expand. rewrite Sh. cbn [tl].
    destruct (shape_eqb (m :: sh) (d_trials D :: sh)) eqn:E1; [apply shape_eqb_eq in E1; congruence|].
    destruct (shape_eqb (m :: sh) (1 :: sh)) eqn:E2; [apply shape_eqb_eq in E2; congruence|]. reflexivity.
Qed.
Print Assumptions C103_other_number_of_tests_raises.

(** ... and when they were created for a single test, every test uses them: the loss is the one of a store
    that holds a copy for each test. *)
Theorem C103_single_test_parameters_shared class_attr solve h limit table s1 s2 D :
  complete tensor h -> well_named tensor class_attr h -> (2 <= limit)%nat -> d_trials D <> 1%nat ->
  let get s k := sget tensor (k +++ h_param_suffix tensor h) s in
  (forall v ll ls ss, In (v, ll, ls, ss) (rows tensor h) ->
     (exists l, get s1 (v +++ h_loc_suffix tensor h) = Some l /\ get s2 (v +++ h_loc_suffix tensor h) = Some l) /\
     (exists l, get s1 (v +++ h_scale_suffix tensor h) = Some l /\ get s2 (v +++ h_scale_suffix tensor h) = Some l) /\
     (exists p, get s1 v = Some p /\ t_shape (tval p) = 1%nat :: t_shape ll /\
                get s2 v = Some (PRepeat tensor (d_trials D) (Tensor (t_shape ll) (t_at (tval p)))))) ->
  (h_include_noise tensor h = true -> exists e, get s1 "eps" = Some e /\ get s2 "eps" = Some e) ->
  option_map fst (svi_loss class_attr solve limit h table s1 D) = option_map fst (svi_loss class_attr solve limit h table s2 D).
Proof.
  intros C W HL N1 get HR HE. unfold svi_loss. rewrite !(guide_ok tensor t_dim class_attr h (d_trials D) _ C W).
  assert (B : forall i, In i (items tensor t_dim h (d_trials D)) -> exists p1 p2, sget tensor (it_param tensor i) s1 = Some p1 /\ sget tensor (it_param tensor i) s2 = Some p2 /\
     guide_value class_attr h (d_trials D) (it_site tensor i, p1) = guide_value class_attr h (d_trials D) (it_site tensor i, p2)).
  { intros i Hi. destruct (item_cases h _ i Hi) as [(v & ll & ls & ss & Hr & Q)|(Q1 & Q2 & I)].
    - destruct (HR _ _ _ _ Hr) as ((l & A1 & A2) & (l' & B1 & B2) & (p & C1 & Sh & C2)).
      destruct Q as [[Q1 Q2]|[[Q1 Q2]|[Q1 Q2]]]; rewrite Q1, Q2; [eauto|eauto|]. do 2 eexists. split; [exact C1|]. split; [exact C2|].
      unfold guide_value. cbn [fst snd]. rewrite (proj2 (proj2 (prior_var class_attr h C W _ _ _ _ Hr))). unfold expand. cbn [tval t_shape t_at tl]. rewrite Sh. cbn [tl].
      rewrite shape_eqb_refl. destruct (shape_eqb (1 :: t_shape ll) (d_trials D :: t_shape ll)) eqn:E1; [apply shape_eqb_eq in E1; congruence|].
      now rewrite shape_eqb_refl.
    - destruct (HE I) as (e & E1 & E2). rewrite Q1, Q2. eauto. }
  assert (R1 : snd (run tensor (items tensor t_dim h (d_trials D)) s1) = s1).
  { apply run_again. intros i Hi. destruct (B i Hi) as (p1 & p2 & ? & _). eauto. }
  assert (R2 : snd (run tensor (items tensor t_dim h (d_trials D)) s2) = s2).
  { apply run_again. intros i Hi. destruct (B i Hi) as (p1 & p2 & _ & ? & _). eauto. }
  pose proof (run_vals tensor (items tensor t_dim h (d_trials D)) s1) as V1. pose proof (run_vals tensor (items tensor t_dim h (d_trials D)) s2) as V2.
  rewrite R1 in *. rewrite R2 in *.
  assert (T : traverse (guide_value class_attr h (d_trials D)) (fst (run tensor (items tensor t_dim h (d_trials D)) s1)) =
              traverse (guide_value class_attr h (d_trials D)) (fst (run tensor (items tensor t_dim h (d_trials D)) s2))).
  { revert B V1 V2. generalize (fst (run tensor (items tensor t_dim h (d_trials D)) s1)) (fst (run tensor (items tensor t_dim h (d_trials D)) s2)).
    generalize (items tensor t_dim h (d_trials D)). induction l as [|i l IH]; intros g1 g2 B V1 V2; inversion V1 as [|? [k1 q1] ? g1' [K1 P1] V1']; inversion V2 as [|? [k2 q2] ? g2' [K2 P2] V2']; subst; [reflexivity|].
    cbn [traverse]. cbn in K1, K2, P1, P2. subst k1 k2. destruct (B i (or_introl eq_refl)) as (p1 & p2 & S1 & S2 & E). rewrite S1 in P1. rewrite S2 in P2. injection P1 as <-. injection P2 as <-.
    rewrite E, (IH g1' g2' (fun j Hj => B j (or_intror Hj)) V1' V2'). reflexivity. }
  rewrite T. destruct (traverse (guide_value class_attr h (d_trials D)) (fst (run tensor (items tensor t_dim h (d_trials D)) s2))) as [vs|]; [|reflexivity].
  assert (X : forall s, (forall i, In i (items tensor t_dim h (d_trials D)) -> exists v, sget tensor (it_param tensor i) s = Some v) ->
     exists l, get_extra_params tensor (extra_names tensor h true) s = inl l).
  { intros s Hs. destruct (extra_params_in tensor (extra_names tensor h true) s) as (l & E & _); [|eauto].
    intros p Hp. assert (Hi : In p (map (it_param tensor) (items tensor t_dim h (d_trials D)))).
    { rewrite (items_params tensor t_dim h (d_trials D)) by auto. unfold Inference.prm. rewrite !map_app, !in_app_iff. auto. }
    apply in_map_iff in Hi. destruct Hi as (i & <- & Hi). auto. }
  unfold hier_forward. rewrite !(model_trace_ok tensor t_dim class_attr h limit true _ HL C W).
  destruct (X s1) as (l1 & ->); [intros i Hi; destruct (B i Hi) as (p1 & p2 & ? & _); eauto|].
  destruct (X s2) as (l2 & ->); [intros i Hi; destruct (B i Hi) as (p1 & p2 & _ & ? & _); eauto|].
  destruct (full_noise h vs D) as [noise|]; [|reflexivity]. destruct (results solve h vs D) as [res|]; [|reflexivity].
  destruct (osum _ _); reflexivity.
Qed.
Print Assumptions C103_single_test_parameters_shared.

(** The densities: [normal_logp] is the logarithm of the normal density, [half_logp] the one of the absolute
    value of a centred normal variable. *)
Theorem C103_densities mu s x : (0 < s)%R ->
  exp (normal_logp mu s x) = (/ (s * sqrt (2 * PI)) * exp (- (((x - mu) / s) ^ 2 / 2)))%R /\
  exp (half_logp s x) = (exp (normal_logp 0 s x) + exp (normal_logp 0 s (- x)))%R.
Proof.
  intros Hs. assert (Hp : (0 < sqrt (2 * PI))%R) by (apply sqrt_lt_R0; pose proof PI_RGT_0; lra).
  split.
  - unfold normal_logp. unfold Rminus. rewrite !exp_plus, !exp_Ropp, !exp_ln by assumption.
    replace ((x + - mu) ^ 2 / (2 * s ^ 2))%R with (((x + - mu) / s) ^ 2 / 2)%R by (field; lra). rewrite Rinv_mult. lra.
  - unfold half_logp. rewrite exp_plus, exp_ln by lra. unfold normal_logp.
    replace ((- x - 0) ^ 2)%R with ((x - 0) ^ 2)%R by ring. lra.
Qed.
Print Assumptions C103_densities.

(** The hypotheses are met: two scalar parameters, per-type noise that is inferred, two tests. *)
Definition sc (x : R) : tensor := Tensor [] (fun _ => x).
Definition ex_model : hsm tensor := Build_hsm tensor ["n"; "eta"] [sc 1; sc 2]%R [sc 3; sc 4]%R [sc 5; sc 6]%R
  (Tensor [7%nat] (fun i => INR (S i))) "_loc" "_scale" "_param" true.
Definition ex_data : data := Data 2 3 [0; 3]%Z [[0; 0; 0]; [0; 1; 1]]%Z [[1; 2; 3]; [4; 5; 6]]%R [[0; 0; 0]; [0; 0; 0]]%R [0; 0]%R.
Lemma ex_complete : complete tensor ex_model. Proof. repeat split. Qed.
Lemma ex_named : well_named tensor (fun _ => false) ex_model.
Proof.
  split; [apply nodupb_spec; reflexivity|]. split; [|reflexivity]. intros k Hk. split; [|reflexivity]. intros Q.
  assert (N : NoDup (site_names tensor ex_model ++ forbidden)) by (apply nodupb_spec; reflexivity).
  clear -Hk Q N. induction (site_names tensor ex_model) as [|x l IH]; [contradiction|]. inversion N; subst. destruct Hk as [->|Hk]; [|auto].
  apply H1. apply in_or_app. now right.
Qed.
Example C103_ex : exists lp res s',
  svi_loss (fun _ => false) (fun _ => Some [[1; 2; 3]; [1; 2; 5]]%R) 10 ex_model [(0, 1%R); (3, 2%R)]%Z [] ex_data = Some (lp, res, s').
Proof.
  destruct (C103_first_evaluation (fun _ => false) (fun _ => Some [[1; 2; 3]; [1; 2; 5]]%R) ex_model 10 [(0, 1%R); (3, 2%R)]%Z ex_data
     [[1; 2; 3]; [1; 2; 5]]%R [[1; 2; 3]; [0; 0; 3]]%R [INR 1; INR 4]) as (lp & s' & L & _).
  - exact ex_complete.
  - exact ex_named.
  - lia.
  - intros v ll ls ss H. cbn in H. destruct H as [E|[E|[]]]; inversion E; subst; auto.
  - reflexivity.
  - reflexivity.
  - cbn. repeat (f_equal; try lra).
  - eauto.
Qed.
(** A store created for one test, evaluated on two. *)
Example C103_shared_ex :
  let st (p : tensor -> pval tensor) : Inference.store tensor := [("n_loc_param", PVal tensor (sc 1)); ("n_scale_param", PVal tensor (sc 2)); ("eta_loc_param", PVal tensor (sc 3));
    ("eta_scale_param", PVal tensor (sc 4)); ("eps_param", PVal tensor (h_noise tensor ex_model)); ("n_param", p (sc 8)); ("eta_param", p (sc 9))] in
  let s1 := st (fun t => PVal tensor (Tensor [1%nat] (t_at t))) in
  let s2 := st (fun t => PRepeat tensor 2 t) in
  forall solve, option_map fst (svi_loss (fun _ => false) solve 10 ex_model [(0, 1%R); (3, 2%R)]%Z s1 ex_data)
    = option_map fst (svi_loss (fun _ => false) solve 10 ex_model [(0, 1%R); (3, 2%R)]%Z s2 ex_data).
Proof.
  intros st s1 s2 solve. apply C103_single_test_parameters_shared; [exact ex_complete|exact ex_named|lia|discriminate| |].
  - intros v ll ls ss H. cbn in H. destruct H as [E|[E|[]]]; inversion E; subst; (split; [|split]); eexists; split; try reflexivity; split; reflexivity.
  - intros _. eexists. split; reflexivity.
Qed.
