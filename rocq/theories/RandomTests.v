(** Models of generate_random_tension and generate_random_cycle (experiments.py 372-444) and of the percentile
    bands of visualize_variance (utility.py 67-87). *)
From Coq Require Import Reals ZArith Lra Lia List Bool Arith Permutation Sorted.
From Verif Require Import Experiments Cycle.
Import ListNotations.
Local Open Scope R_scope.

(** numpy.random.uniform(low, high): low + (high - low) u for the generator's next number u in [0, 1); low > high is accepted. *)
Definition uniform (low high u : R) : R := low + (high - low) * u.
(** experiments.py 384-388 (and 440-441): 10 ** uniform(log10 range[0], log10 range[1]) *)
Definition log_uniform (range : R * R) (u : R) : R := Rpower 10 (uniform (log10 (fst range)) (log10 (snd range)) u).
Definition random_tension (strain_rate : R * R) (max_strain u : R) : R * R := (max_strain, log_uniform strain_rate u).
(** experiments.py 437-444: five draws in the order of the dictionary. *)
Definition random_cycle (max_strain Rr strain_rate tension_hold compression_hold : R * R) (u : nat -> R) : cycle :=
  Cycle (uniform (fst max_strain) (snd max_strain) (u 0%nat)) (uniform (fst Rr) (snd Rr) (u 1%nat)) (log_uniform strain_rate (u 2%nat))
    (uniform (fst tension_hold) (snd tension_hold) (u 3%nat)) (uniform (fst compression_hold) (snd compression_hold) (u 4%nat)).

Lemma uniform_range a b u : 0 <= u < 1 -> Rmin a b <= uniform a b u <= Rmax a b.
Proof.
  intros [H0 H1]. unfold uniform, Rmin, Rmax. destruct (Rle_dec a b) as [L|L].
  - pose proof (Rmult_le_pos (b - a) u ltac:(lra) H0). pose proof (Rmult_le_compat_l (b - a) u 1 ltac:(lra) ltac:(lra)). lra.
  - pose proof (Rmult_le_pos (a - b) u ltac:(lra) H0). pose proof (Rmult_le_compat_l (a - b) u 1 ltac:(lra) ltac:(lra)). lra.
Qed.
Lemma ln10_pos : 0 < ln 10. Proof. rewrite <- ln_1. apply ln_increasing; lra. Qed.
Lemma pow_log10 x : 0 < x -> Rpower 10 (log10 x) = x.
Proof. intros H. unfold Rpower, log10. pose proof ln10_pos. replace (ln x / ln 10 * ln 10) with (ln x) by (field; lra). now apply exp_ln. Qed.
Lemma pow10_le x y : x <= y -> Rpower 10 x <= Rpower 10 y.
Proof. intros H. apply Rle_Rpower; lra. Qed.
Lemma log_uniform_range r u : 0 < fst r -> 0 < snd r -> 0 <= u < 1 -> Rmin (fst r) (snd r) <= log_uniform r u <= Rmax (fst r) (snd r).
Proof.
  intros H1 H2 Hu. destruct r as [a b]. cbn [fst snd] in *. unfold log_uniform. cbn [fst snd]. pose proof (uniform_range (log10 a) (log10 b) u Hu) as [L U].
  assert (M : forall x y, 0 < x -> 0 < y -> x <= y -> log10 x <= log10 y).
  { intros x y X Y [L'|L']; [|rewrite L'; lra]. unfold log10. apply Rmult_le_compat_r. { left. apply Rinv_0_lt_compat, ln10_pos. } left. now apply ln_increasing. }
  split.
  - rewrite <- (pow_log10 (Rmin a b)) by (apply Rmin_glb_lt; auto). apply pow10_le. eapply Rle_trans; [|exact L].
    apply Rmin_glb; apply M; auto; try (apply Rmin_glb_lt; auto); [apply Rmin_l|apply Rmin_r].
  - rewrite <- (pow_log10 (Rmax a b)) by (eapply Rlt_le_trans; [exact H1|apply Rmax_l]). apply pow10_le. eapply Rle_trans; [exact U|].
    apply Rmax_lub; apply M; auto; try (eapply Rlt_le_trans; [exact H1|apply Rmax_l]); [apply Rmax_l|apply Rmax_r].
Qed.

(** ** Percentile bands *)
(** torch.kthvalue(k) along one dimension: the k-th smallest entry, counted from one; other k raise. *)
Fixpoint insert (x : R) (l : list R) : list R :=
  match l with [] => [x] | y :: r => if Rle_dec x y then x :: l else y :: insert x r end.
Definition sort (l : list R) : list R := fold_right insert [] l.
Definition kthvalue (k : nat) (l : list R) : option R :=
  if (1 <=? k)%nat && (k <=? List.length l)%nat then Some (nth (k - 1) (sort l) 0) else None.
(** int(x) for a float x (truncation towards zero); here x >= 0 *)
Definition pint (x : R) : nat := Z.to_nat (Int_part x).
(** utility.py 79-82 (and 84-87) at one time: the limits of the shaded band and the mean line. *)
Definition band (alpha : R) (values : list R) : option (R * R * R) :=
  let n := List.length values in
  match kthvalue (pint (INR n * (1 - alpha))) values, kthvalue (pint (INR n * alpha)) values with
  | Some hi, Some lo => Some (lo, hi, fold_right Rplus 0 values / INR n)
  | _, _ => None
  end.

Lemma insert_perm x l : Permutation (x :: l) (insert x l).
Proof. induction l as [|y l IH]; cbn; [reflexivity|]. destruct (Rle_dec x y); [reflexivity|]. eapply perm_trans; [apply perm_swap|]. now constructor. Qed.
Lemma sort_perm l : Permutation l (sort l).
Proof. induction l as [|x l IH]; cbn; [constructor|]. eapply perm_trans; [|apply insert_perm]. now constructor. Qed.
Lemma insert_sorted x l : StronglySorted Rle l -> StronglySorted Rle (insert x l).
Proof.
  induction l as [|y l IH]; cbn; intros H; [now repeat constructor|]. destruct (Rle_dec x y) as [L|L].
  - constructor; [exact H|]. inversion_clear H. constructor; [exact L|]. eapply Forall_impl; [|eassumption]. intros z Z. lra.
  - inversion_clear H. constructor; [auto|]. apply (Permutation_Forall (insert_perm x l)). constructor; [lra|auto].
Qed.
Lemma sort_sorted l : StronglySorted Rle (sort l).
Proof. induction l; cbn; [constructor|]. now apply insert_sorted. Qed.
Lemma sort_length l : List.length (sort l) = List.length l.
Proof. symmetry. apply Permutation_length, sort_perm. Qed.
Lemma sorted_nth_le l i j : StronglySorted Rle l -> (i <= j < List.length l)%nat -> nth i l 0 <= nth j l 0.
Proof.
  intros S. revert i j. induction S as [|x l S IH F]; intros i j H; [cbn in H; lia|]. destruct i as [|i], j as [|j]; cbn in *; try lia; try lra.
  - rewrite Forall_forall in F. apply F, nth_In. lia.
  - apply IH. lia.
Qed.

(** number of entries in [lo, hi] *)
Definition inside (lo hi : R) (l : list R) : nat := List.length (filter (fun x => if Rle_dec lo x then if Rle_dec x hi then true else false else false) l).
Lemma perm_filter {A} (f : A -> bool) l l' : Permutation l l' -> Permutation (filter f l) (filter f l').
Proof.
  induction 1; cbn; try constructor; auto.
  - destruct (f x); auto.
  - destruct (f x), (f y); try reflexivity; apply perm_swap.
  - eapply perm_trans; eassumption.
Qed.
Lemma inside_perm lo hi l l' : Permutation l l' -> inside lo hi l = inside lo hi l'.
Proof. intros P. apply Permutation_length, perm_filter, P. Qed.
Lemma inside_app lo hi a b : inside lo hi (a ++ b) = (inside lo hi a + inside lo hi b)%nat.
Proof. unfold inside. now rewrite filter_app, app_length. Qed.
Lemma inside_all lo hi l : (forall x, In x l -> lo <= x <= hi) -> inside lo hi l = List.length l.
Proof.
  unfold inside. induction l as [|x l IH]; intros H; [reflexivity|]. cbn. destruct (H x (or_introl eq_refl)) as [H1 H2].
  destruct (Rle_dec lo x); [|lra]. destruct (Rle_dec x hi); [|lra]. cbn. f_equal. apply IH. intros y Y. apply H. now right.
Qed.
Lemma sorted_inside l i j : StronglySorted Rle l -> (i <= j < List.length l)%nat -> (S j - i <= inside (nth i l 0%R) (nth j l 0%R) l)%nat.
Proof.
  intros S H. assert (E : l = firstn i l ++ firstn (Datatypes.S j - i) (skipn i l) ++ skipn (Datatypes.S j - i) (skipn i l)) by (now rewrite !firstn_skipn).
  rewrite E at 3. rewrite !inside_app, (inside_all _ _ (firstn (Datatypes.S j - i) (skipn i l))).
  - rewrite firstn_length, skipn_length. lia.
  - intros x X. apply (In_nth _ _ 0) in X. destruct X as [k [K <-]]. rewrite firstn_length, skipn_length in K.
    assert (N : nth k (firstn (Datatypes.S j - i) (skipn i l)) 0 = nth (i + k) l 0).
    { rewrite <- (firstn_skipn i l) at 2. rewrite app_nth2 by (rewrite firstn_length; lia). rewrite firstn_length, Nat.min_l by lia.
      replace (i + k - i)%nat with k by lia. rewrite <- (firstn_skipn (Datatypes.S j - i) (skipn i l)) at 2. rewrite app_nth1; [reflexivity|]. rewrite firstn_length, skipn_length. lia. }
    rewrite N. split; apply sorted_nth_le; auto; lia.
Qed.
Lemma pint_bounds x : 0 <= x -> INR (pint x) <= x < INR (pint x) + 1.
Proof.
  intros H. unfold pint. destruct (base_Int_part x) as [B1 B2]. assert (Z : (0 <= Int_part x)%Z).
  { apply le_IZR. apply IZR_le. assert (-1 < Int_part x)%Z by (apply lt_IZR; lra). lia. }
  rewrite INR_IZR_INZ, Z2Nat.id by auto. lra.
Qed.
