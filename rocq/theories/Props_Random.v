(** Property theorems: random test conditions (C108) and the bands drawn by visualize_variance (C109). *)
From Coq Require Import Reals ZArith Lra Lia List Bool Arith Permutation Sorted.
From Verif Require Import Experiments Cycle RandomTests Props_Exp Props_Cycle.
Import ListNotations.
Local Open Scope R_scope.

(** [x] lies between the two ends of a range given in either order. *)
Definition between (r : R * R) (x : R) : Prop := fst r <= x <= snd r \/ snd r <= x <= fst r.
Lemma between_minmax r x : Rmin (fst r) (snd r) <= x <= Rmax (fst r) (snd r) -> between r x.
Proof. unfold Rmin, Rmax, between. destruct (Rle_dec (fst r) (snd r)); lra. Qed.

(** C108: whatever number the generator draws, the strain rate is positive and in the range asked for, and the
    test sampled from it loads from zero to the maximum strain at that rate. *)
Theorem C108_random_tension rates max_strain u n : 0 < fst rates -> 0 < snd rates -> 0 <= u < 1 -> (2 <= n)%nat ->
  let (emax, rate) := random_tension rates max_strain u in
  emax = max_strain /\ 0 < rate /\ between rates rate /\
  let (times, strains) := sample_tension emax rate n in
  List.length times = n /\ List.length strains = n /\
  nth 0 times 0 = 0 /\ nth 0 strains 0 = 0 /\ nth (n - 1) times 0 = max_strain / rate /\ nth (n - 1) strains 0 = max_strain /\
  forall i, (i < n)%nat -> nth i strains 0 = rate * nth i times 0.
Proof.
  intros H1 H2 Hu Hn. cbn [random_tension]. pose proof (log_uniform_range rates u H1 H2 Hu) as B.
  set (rate := log_uniform rates u) in *. assert (P : 0 < rate). { eapply Rlt_le_trans; [|apply (proj1 B)]. apply Rmin_glb_lt; auto. }
  destruct (C67_sample_tension max_strain rate n) as (L1 & L2 & Z & E & M & _). destruct (Z ltac:(lia)) as [Z1 Z2].
  cbv zeta in *. cbn [sample_tension fst snd] in *. split; [reflexivity|]. split; [exact P|]. split; [now apply between_minmax|].
  split; [exact L1|]. split; [exact L2|]. split; [exact Z1|]. split; [exact Z2|]. split; [|split; [apply E; [exact Hn|lra]|exact M]].
  rewrite linspace_last by auto. reflexivity.
Qed.
Print Assumptions C108_random_tension.

(** The same for a random cycle with N repeats: the draws are in their ranges; the sampled history
    starts at zero, its times never decrease, no strain exceeds the drawn extremes, the strain never changes
    faster than the largest rate of the range, and every cycle visits the drawn maximum strain and R times it. *)
Theorem C108_random_cycle max_strain Rr rates th ch u N nload nhold :
  0 < fst rates -> 0 < snd rates -> 0 <= fst th -> 0 <= snd th -> 0 <= fst ch -> 0 <= snd ch ->
  (forall i, 0 <= u i < 1) -> (1 <= nload)%nat ->
  let c := random_cycle max_strain Rr rates th ch u in
  between max_strain (cy_max_strain c) /\ between Rr (cy_R c) /\ between rates (cy_strain_rate c) /\ between th (cy_tension_hold c) /\ between ch (cy_compression_hold c) /\
  exists times strains cycles, sample_cycle c N nload nhold = Some (times, strains, cycles) /\
    let n := (4 * nload + 2 * nhold)%nat in
    List.length times = (1 + N * n)%nat /\ List.length strains = List.length times /\
    (forall i j, (i <= j < List.length times)%nat ->
       nth i times 0 <= nth j times 0 /\
       Rabs (nth i strains 0) <= Rmax 1 (Rabs (cy_R c)) * Rabs (cy_max_strain c) /\
       Rabs (nth j strains 0 - nth i strains 0) <= Rmax (fst rates) (snd rates) * (nth j times 0 - nth i times 0)) /\
    (forall k, (k < N)%nat -> nth (k * n) strains 0 = 0 /\ nth (k * n + nload) strains 0 = cy_max_strain c /\
       nth (k * n + 3 * nload + nhold) strains 0 = cy_R c * cy_max_strain c).
Proof.
  intros H1 H2 H3 H4 H5 H6 Hu Hn. cbv zeta. set (c := random_cycle max_strain Rr rates th ch u).
  pose proof (log_uniform_range rates (u 2%nat) H1 H2 (Hu 2%nat)) as Br.
  assert (B : forall r i, between r (uniform (fst r) (snd r) (u i))) by (intros; apply between_minmax, uniform_range; auto).
  assert (P : 0 < cy_strain_rate c). { cbn. eapply Rlt_le_trans; [|apply (proj1 Br)]. apply Rmin_glb_lt; auto. }
  assert (Th : 0 <= cy_tension_hold c). { cbn. destruct (B th 3%nat); lra. }
  assert (Ch : 0 <= cy_compression_hold c). { cbn. destruct (B ch 4%nat); lra. }
  assert (V : valid c) by (repeat split; auto).
  split; [apply (B max_strain 0%nat)|]. split; [apply (B Rr 1%nat)|]. split; [now apply between_minmax|]. split; [apply (B th 3%nat)|]. split; [apply (B ch 4%nat)|].
  destruct (C69_shape c N nload nhold) as (times & strains & cycles & E & L1 & L2 & L3). exists times, strains, cycles. split; [exact E|]. split; [exact L1|]. split; [exact L2|].
  destruct (C69_times c N nload nhold times strains cycles V E) as (_ & _ & T & _). pose proof (C69_strains c N nload nhold times strains cycles V E) as S. cbv zeta in S.
  destruct (C69_landmarks c N nload nhold times strains cycles V Hn E) as [Lm1 Lm2]. split.
  - intros i j Hij. split; [now apply T|]. destruct (S i ltac:(lia)) as [Sb Sr]. split.
    + assert (M1 : Rabs (cy_max_strain c) <= Rmax 1 (Rabs (cy_R c)) * Rabs (cy_max_strain c)).
      { rewrite <- (Rmult_1_l (Rabs (cy_max_strain c))) at 1. apply Rmult_le_compat_r; [apply Rabs_pos|apply Rmax_l]. }
      assert (M2 : Rabs (cy_R c * cy_max_strain c) <= Rmax 1 (Rabs (cy_R c)) * Rabs (cy_max_strain c)).
      { rewrite Rabs_mult. apply Rmult_le_compat_r; [apply Rabs_pos|apply Rmax_r]. }
      pose proof (Rle_abs (cy_max_strain c)). pose proof (Rle_abs (- cy_max_strain c)). rewrite Rabs_Ropp in *.
      pose proof (Rle_abs (cy_R c * cy_max_strain c)). pose proof (Rle_abs (- (cy_R c * cy_max_strain c))). rewrite Rabs_Ropp in *.
      pose proof (Rabs_pos (cy_max_strain c)).
      set (X := Rmax 1 (Rabs (cy_R c)) * Rabs (cy_max_strain c)) in *. apply Rabs_le. revert Sb. unfold Rmin, Rmax. repeat destruct Rle_dec; lra.
    + specialize (Sr j Hij). eapply Rle_trans; [exact Sr|]. apply Rmult_le_compat_r; [|apply (proj2 Br)]. pose proof (T i j Hij). lra.
  - intros k Hk. destruct (Lm1 k ltac:(lia)) as [_ Z]. destruct (Lm2 k Hk) as (A1 & _ & A2 & _). auto.
Qed.
Print Assumptions C108_random_cycle.

(** The dictionary's entry "R" is documented as max / min; the sampled history has min / max = R. *)
Theorem C108_R_is_max_over_min_refuted : exists c times strains cycles, valid c /\ sample_cycle c 1 1 0 = Some (times, strains, cycles) /\
  nth 1 strains 0 = 1 /\ nth 3 strains 0 = / 2 /\ (forall i, (i < List.length strains)%nat -> 0 <= nth i strains 0 <= 1) /\
  nth 1 strains 0 / nth 3 strains 0 <> cy_R c.
Proof.
  set (c := Cycle 1 (/ 2) 1 0 0). assert (V : valid c) by (repeat split; cbn; lra).
  destruct (C69_shape c 1 1 0) as (times & strains & cycles & E & L1 & L2 & L3). exists c, times, strains, cycles. split; [exact V|]. split; [exact E|].
  destruct (C69_landmarks c 1 1 0 times strains cycles V ltac:(lia) E) as [_ Lm]. destruct (Lm 0%nat ltac:(lia)) as (A1 & _ & A2 & _). cbn [Nat.mul Nat.add cy_max_strain cy_R c] in A1, A2.
  change (nth 1 strains 0 = 1) in A1. change (nth 3 strains 0 = / 2 * 1) in A2.
  split; [exact A1|]. split; [lra|]. split.
  - intros i Hi. destruct (C69_strains c 1 1 0 times strains cycles V E i ltac:(lia)) as [B _]. cbn [cy_max_strain cy_R c] in B. revert B. unfold Rmin, Rmax. repeat destruct Rle_dec; lra.
  - rewrite A1, A2. cbn. lra.
Qed.
Print Assumptions C108_R_is_max_over_min_refuted.
(** The default ranges (the strain rates are given in decreasing order). *)
Example C108_ex u : (forall i, 0 <= u i < 1) ->
  let c := random_cycle (0, 2 / 100) (-1, 1) (/ 1000, / 100000) (0, 3600) (0, 600) u in
  0 <= cy_max_strain c <= 2 / 100 /\ / 100000 <= cy_strain_rate c <= / 1000.
Proof.
  intros Hu. destruct (C108_random_cycle (0, 2 / 100) (-1, 1) (/ 1000, / 100000) (0, 3600) (0, 600) u 3 10 10) as (A & _ & B & _); cbn [fst snd]; try lra; try lia; auto.
  cbv zeta. unfold between in *. cbn [fst snd] in *. lra.
Qed.

(** C109: when the number of curves times alpha is at least one (and alpha at most a half), the band is defined, and at least the
    fraction 1 - 2 alpha of the curves lies inside it. *)
Theorem C109_band_covers alpha values : 0 <= alpha <= / 2 -> 1 <= INR (List.length values) * alpha ->
  exists lo hi mean, band alpha values = Some (lo, hi, mean) /\ lo <= hi /\ In lo values /\ In hi values /\
    INR (List.length values) * (1 - 2 * alpha) <= INR (inside lo hi values).
Proof.
  intros Ha Hn. set (n := List.length values) in *. pose proof (pos_INR n) as Np.
  pose proof (pint_bounds (INR n * alpha) ltac:(apply Rmult_le_pos; lra)) as [K1 K1']. pose proof (pint_bounds (INR n * (1 - alpha)) ltac:(apply Rmult_le_pos; lra)) as [K2 K2'].
  unfold band. fold n. set (k1 := pint (INR n * alpha)) in *. set (k2 := pint (INR n * (1 - alpha))) in *.
  assert (k1p : (1 <= k1)%nat). { apply (INR_lt 0). cbn. lra. }
  assert (nn : INR n * alpha <= INR n * (1 - alpha)) by (apply Rmult_le_compat_l; lra).
  assert (k12 : (k1 <= k2)%nat). { apply Nat.lt_succ_r, INR_lt. rewrite S_INR. lra. }
  assert (k2n : (k2 <= n)%nat). { apply INR_le. pose proof (Rmult_le_compat_l (INR n) (1 - alpha) 1 Np ltac:(lra)). lra. }
  unfold kthvalue. fold n. rewrite !(proj2 (Nat.leb_le _ _)) by lia. cbn [andb].
  assert (L : List.length (sort values) = n) by apply sort_length. pose proof (sort_sorted values) as So.
  do 3 eexists. split; [reflexivity|].
  assert (I : forall k, (k < n)%nat -> In (nth k (sort values) 0) values).
  { intros k Hk. apply (Permutation_in _ (Permutation_sym (sort_perm values))). apply nth_In. lia. }
  split; [apply sorted_nth_le; [exact So|lia]|]. split; [apply I; lia|]. split; [apply I; lia|].
  rewrite (inside_perm _ _ _ _ (sort_perm values)). pose proof (sorted_inside (sort values) (k1 - 1) (k2 - 1) So ltac:(lia)) as C.
  apply le_INR in C. rewrite minus_INR, S_INR, !minus_INR in C by lia. cbn [INR] in C. lra.
Qed.
Print Assumptions C109_band_covers.

(** The mean line: the deviations of the curves from it sum to zero, and it stays between any bounds common to all the curves. *)
Lemma dev_sum m l : fold_right Rplus 0 (map (fun v => v - m) l) = fold_right Rplus 0 l - INR (List.length l) * m.
Proof. induction l as [|x l IH]; [cbn; lra|]. change (List.length (x :: l)) with (S (List.length l)). rewrite S_INR. cbn [map fold_right]. rewrite IH. lra. Qed.
Lemma sum_bounds a b l : (forall v, In v l -> a <= v <= b) -> INR (List.length l) * a <= fold_right Rplus 0 l <= INR (List.length l) * b.
Proof.
  induction l as [|x l IH]; intros H; [cbn; lra|]. change (List.length (x :: l)) with (S (List.length l)). rewrite S_INR. cbn [fold_right].
  specialize (IH ltac:(intros; apply H; now right)). specialize (H x ltac:(now left)). lra.
Qed.
Theorem C109_mean_line alpha values lo hi mean : band alpha values = Some (lo, hi, mean) ->
  fold_right Rplus 0 (map (fun v => v - mean) values) = 0 /\ forall a b, (forall v, In v values -> a <= v <= b) -> a <= mean <= b.
Proof.
  unfold band. destruct kthvalue as [h|] eqn:K; [|discriminate]. destruct (kthvalue (pint (INR (List.length values) * alpha)) values); [|discriminate]. intros [= <- <- <-].
  assert (P : 0 < INR (List.length values)).
  { apply lt_0_INR. revert K. unfold kthvalue. destruct (1 <=? _)%nat eqn:E1; cbn [andb]; [|discriminate]. destruct (_ <=? List.length values)%nat eqn:E2; [|discriminate].
    intros _. apply Nat.leb_le in E1, E2. lia. }
  split; [rewrite dev_sum; field; lra|]. intros a b H. pose proof (sum_bounds a b values H) as [A B].
  split; [apply (Rmult_le_reg_l (INR (List.length values)))|apply (Rmult_le_reg_l (INR (List.length values)))]; auto;
    replace (INR (List.length values) * (fold_right Rplus 0 values / INR (List.length values))) with (fold_right Rplus 0 values) by (field; lra); assumption.
Qed.
Print Assumptions C109_mean_line.

(** With fewer curves than 1 / alpha (20 for the default alpha) the call raises instead of drawing. *)
Theorem C109_small_batches_refuted alpha values : 0 <= alpha -> INR (List.length values) * alpha < 1 -> band alpha values = None.
Proof.
  intros Ha Hn. unfold band. assert (Z : pint (INR (List.length values) * alpha) = 0%nat).
  { pose proof (pint_bounds (INR (List.length values) * alpha) ltac:(apply Rmult_le_pos; [apply pos_INR|auto])) as [K _].
    destruct (pint _) as [|k]; [reflexivity|]. rewrite S_INR in K. pose proof (pos_INR k). lra. }
  rewrite Z. cbn. destruct kthvalue; reflexivity.
Qed.
Print Assumptions C109_small_batches_refuted.
Example C109_ex : exists lo hi mean, band (5 / 100) (map INR (seq 0 40)) = Some (lo, hi, mean) /\ lo <= hi /\ 36 <= INR (inside lo hi (map INR (seq 0 40))).
Proof.
  assert (E : INR (List.length (map INR (seq 0 40))) = 40) by (rewrite map_length, seq_length; cbn; lra).
  destruct (C109_band_covers (5 / 100) (map INR (seq 0 40)) ltac:(lra) ltac:(rewrite E; lra)) as (lo & hi & mean & B & L & _ & _ & C).
  exists lo, hi, mean. split; [exact B|]. split; [exact L|]. rewrite E in C. lra.
Qed.
Example C109_mean_ex : exists lo hi mean, band (5 / 100) (map INR (seq 0 40)) = Some (lo, hi, mean) /\ 0 <= mean <= 39.
Proof.
  destruct C109_ex as (lo & hi & mean & B & _). exists lo, hi, mean. split; [exact B|]. apply (proj2 (C109_mean_line _ _ _ _ _ B)).
  intros v Hv. apply in_map_iff in Hv. destruct Hv as (k & <- & Hk). apply in_seq in Hk. split; [apply pos_INR|]. replace 39 with (INR 39) by (cbn; lra). apply le_INR. lia.
Qed.
Example C109_nineteen : band (5 / 100) (map INR (seq 0 19)) = None.
Proof. apply C109_small_batches_refuted; [lra|]. rewrite map_length, seq_length. cbn. lra. Qed.
