(** Property C69: sample_cycle_normalized_times. *)
From Coq Require Import Reals ZArith Lra Lia List Arith.
From Verif Require Import Experiments Cycle.
Import ListNotations.
Local Open Scope R_scope.

(** A positive strain rate and non-negative holds; [nload], [nhold], [N] arbitrary. *)
Definition valid (c : cycle) : Prop := 0 < cy_strain_rate c /\ 0 <= cy_tension_hold c /\ 0 <= cy_compression_hold c.
(** The length of one cycle: load, hold, reverse, hold, unload. *)
Definition cycle_period (c : cycle) : R :=
  let e1 := cy_max_strain c in let e2 := cy_R c * cy_max_strain c in
  (Rabs e1 + Rabs (e1 - e2) + Rabs e2) / cy_strain_rate c + cy_tension_hold c + cy_compression_hold c.
Lemma period_eq c : valid c -> period c = cycle_period c.
Proof.
  intros (H & _). unfold period, c4, c3, c2, c1, c0, t1, t2, t3, t4, t5, emax, emin, erate, cycle_period. cbv zeta. field. lra.
Qed.

Theorem C69_shape c N nload nhold : exists times strains cycles, sample_cycle c N nload nhold = Some (times, strains, cycles) /\
  List.length times = (1 + N * (4 * nload + 2 * nhold))%nat /\ List.length strains = List.length times /\ List.length cycles = List.length times.
Proof.
  rewrite sample_eq. do 3 eexists. split; [reflexivity|]. rewrite map_length, all_cycles_length, all_times_length. unfold Ntotal. repeat split; lia.
Qed.
Print Assumptions C69_shape.
(** Times never decrease, cycle k's samples lie in its own window, and carry
    cycle number k. *)
Theorem C69_times c N nload nhold times strains cycles : valid c -> sample_cycle c N nload nhold = Some (times, strains, cycles) ->
  let n := (4 * nload + 2 * nhold)%nat in let P := cycle_period c in
  nth 0 times 0 = 0 /\ nth 0 cycles 0%Z = 0%Z /\
  (forall i j, (i <= j < List.length times)%nat -> nth i times 0 <= nth j times 0) /\
  (forall k r, (k < N)%nat -> (1 <= r <= n)%nat -> INR k * P <= nth (k * n + r) times 0 <= INR (S k) * P /\ nth (k * n + r) cycles 0%Z = Z.of_nat k).
Proof.
  intros V. rewrite sample_eq. intros E. injection E as <- <- <-. cbv zeta. rewrite <- (period_eq c V). pose proof V as (H & H' & H'').
  split; [reflexivity|]. split; [reflexivity|]. split.
  - intros i j L. apply sorted_nth; auto. now apply all_times_sorted.
  - intros k r Hk Hr. replace (4 * nload + 2 * nhold)%nat with (Ntotal nload nhold) in * by (unfold Ntotal; lia).
    destruct r as [|r]; [lia|]. rewrite all_times_nth, all_cycles_nth by lia. split; auto.
    destruct (cyc_times_sorted c nload nhold H H' H'' k) as [_ B]. rewrite S_INR.
    assert (In (nth r (cyc_times c nload nhold k) 0) (cyc_times c nload nhold k)) by (apply nth_In; rewrite cyc_times_length; lia).
    apply B in H0. lra.
Qed.
Print Assumptions C69_times.
(** The strain stays between the smallest and largest of 0, max_strain and
    R * max_strain and never changes faster than the strain rate. *)
Theorem C69_strains c N nload nhold times strains cycles : valid c -> sample_cycle c N nload nhold = Some (times, strains, cycles) ->
  let e1 := cy_max_strain c in let e2 := cy_R c * cy_max_strain c in
  forall i, (i < List.length times)%nat ->
  Rmin 0 (Rmin e1 e2) <= nth i strains 0 <= Rmax 0 (Rmax e1 e2) /\
  forall j, (i <= j < List.length times)%nat -> Rabs (nth j strains 0 - nth i strains 0) <= cy_strain_rate c * (nth j times 0 - nth i times 0).
Proof.
  intros V. rewrite sample_eq. intros E. injection E as <- <- <-. cbv zeta. pose proof V as (H & H' & H'').
  assert (M : forall i, (i < List.length (all_times c N nload nhold))%nat -> nth i (map (strain_at c) (all_times c N nload nhold)) 0 = strain_at c (nth i (all_times c N nload nhold) 0)).
  { intros i Hi. rewrite nth_indep with (d' := strain_at c 0) by (rewrite map_length; auto). apply map_nth. }
  intros i Hi. split.
  - rewrite M by auto. set (lo := Rmin 0 _). set (hi := Rmax 0 _).
    assert (lo <= 0 /\ lo <= emax c /\ lo <= emin c /\ 0 <= hi /\ emax c <= hi /\ emin c <= hi) as (A1 & A2 & A3 & A4 & A5 & A6).
    { unfold lo, hi, emax, emin. set (a := cy_max_strain c). set (b := cy_R c * a).
      pose proof (Rmin_l 0 (Rmin a b)). pose proof (Rmin_r 0 (Rmin a b)). pose proof (Rmin_l a b). pose proof (Rmin_r a b).
      pose proof (Rmax_l 0 (Rmax a b)). pose proof (Rmax_r 0 (Rmax a b)). pose proof (Rmax_l a b). pose proof (Rmax_r a b). lra. }
    apply strain_bounds; auto.
  - intros j Hj. rewrite !M by lia. apply strain_lip; auto. apply sorted_nth; auto. now apply all_times_sorted.
Qed.
Print Assumptions C69_strains.
(** With at least one load step: cycle boundaries are sampled, with zero strain;
    the peak strains are sampled at the ends of the loading phases and held. *)
Theorem C69_landmarks c N nload nhold times strains cycles : valid c -> (1 <= nload)%nat -> sample_cycle c N nload nhold = Some (times, strains, cycles) ->
  let n := (4 * nload + 2 * nhold)%nat in let P := cycle_period c in
  (forall k, (k <= N)%nat -> nth (k * n) times 0 = INR k * P /\ nth (k * n) strains 0 = 0) /\
  (forall k, (k < N)%nat ->
     nth (k * n + nload) strains 0 = cy_max_strain c /\ nth (k * n + nload + nhold) strains 0 = cy_max_strain c /\
     nth (k * n + 3 * nload + nhold) strains 0 = cy_R c * cy_max_strain c /\ nth (k * n + 3 * nload + 2 * nhold) strains 0 = cy_R c * cy_max_strain c /\
     nth (k * n + nload) times 0 = INR k * P + Rabs (cy_max_strain c) / cy_strain_rate c).
Proof.
  intros V Hn. rewrite sample_eq. intros E. injection E as <- <- <-. cbv zeta. pose proof V as (H & H' & H'').
  rewrite <- (period_eq c V). replace (4 * nload + 2 * nhold)%nat with (Ntotal nload nhold) in * by (unfold Ntotal; lia).
  assert (NT : (1 <= Ntotal nload nhold)%nat) by (unfold Ntotal; lia).
  pose proof (t1_pos c H) as T1. pose proof (t3_pos c H) as T3. pose proof (t5_pos c H) as T5.
  assert (M : forall i, (i < List.length (all_times c N nload nhold))%nat -> nth i (map (strain_at c) (all_times c N nload nhold)) 0 = strain_at c (nth i (all_times c N nload nhold) 0)).
  { intros i Hi. rewrite nth_indep with (d' := strain_at c 0) by (rewrite map_length; auto). apply map_nth. }
  assert (LN : List.length (all_times c N nload nhold) = (1 + N * Ntotal nload nhold)%nat) by apply all_times_length.
  (* a sample at offset x of cycle k has strain G x *)
  assert (GX : forall k i x, (i < List.length (all_times c N nload nhold))%nat -> nth i (all_times c N nload nhold) 0 = INR k * period c + x -> 0 <= x <= period c ->
     nth i (map (strain_at c) (all_times c N nload nhold)) 0 = G c x).
  { intros k i x Hi Ei Hx. rewrite M by auto. rewrite Ei. rewrite INR_IZR_INZ. rewrite (strain_G c H H' H'' (Z.of_nat k)) by lra. f_equal. ring. }
  (* ends of segments *)
  assert (SE : forall k l1 ti ni l2, (k < N)%nat -> segs c nload nhold = l1 ++ (ti, ni) :: l2 -> (1 <= ni)%nat ->
     nth (k * Ntotal nload nhold + seg_count l1 + ni) (all_times c N nload nhold) 0 = INR k * period c + (seg_total l1 + ti) /\ (seg_count l1 + ni <= Ntotal nload nhold)%nat).
  { intros k l1 ti ni l2 Hk Es Hni. assert (L : (seg_count l1 + ni <= Ntotal nload nhold)%nat).
    { rewrite <- (segs_count c), Es. clear. induction l1 as [|[a b] l1 IH]; cbn; lia. }
    split; auto. replace (k * Ntotal nload nhold + seg_count l1 + ni)%nat with (k * Ntotal nload nhold + S (seg_count l1 + ni - 1))%nat by lia.
    rewrite all_times_nth by lia. unfold cyc_times. rewrite Es, seg_end by auto. ring. }
  assert (IX : forall k r, (k < N)%nat -> (r <= Ntotal nload nhold)%nat -> (k * Ntotal nload nhold + r < List.length (all_times c N nload nhold))%nat).
  { intros k r Hk Hr. rewrite LN. assert (S k * Ntotal nload nhold <= N * Ntotal nload nhold)%nat by (apply Nat.mul_le_mono_r; lia). lia. }
  unfold segs, divisions, timesteps in SE. cbn [combine] in SE. split.
  - intros k Hk. assert (Q : nth (k * Ntotal nload nhold) (all_times c N nload nhold) 0 = INR k * period c).
    { destruct k; [cbn; ring|]. destruct (SE k [(t1 c, nload); (t2 c, nhold); (t3 c, (2 * nload)%nat); (t4 c, nhold)] (t5 c) nload [] ltac:(lia) eq_refl Hn) as [Se _].
      cbn [seg_count seg_total] in Se. replace (S k * Ntotal nload nhold)%nat with (k * Ntotal nload nhold + (nload + (nhold + (2 * nload + (nhold + 0)))) + nload)%nat by (unfold Ntotal; lia).
      rewrite Se, S_INR. unfold period, c4, c3, c2, c1, c0. ring. }
    split; auto. rewrite (GX k _ 0).
    + now apply G_0.
    + rewrite LN. assert (k * Ntotal nload nhold <= N * Ntotal nload nhold)%nat by (apply Nat.mul_le_mono_r; lia). lia.
    + rewrite Q. ring.
    + split; [lra|]. now apply period_pos.
  - intros k Hk.
    assert (PP : c0 c <= c1 c /\ c1 c <= c2 c /\ c2 c <= c3 c /\ c3 c <= period c /\ 0 <= c0 c).
    { unfold period, c4, c3, c2, c1, c0. unfold t2, t4. lra. }
    destruct (SE k [] (t1 c) nload _ Hk eq_refl Hn) as [S1 I1]. cbn [seg_count seg_total] in S1, I1. rewrite Nat.add_0_r in S1. cbn [Nat.add] in I1.
    destruct (SE k [(t1 c, nload); (t2 c, nhold)] (t3 c) (2 * nload)%nat _ Hk eq_refl ltac:(lia)) as [S3 I3]. cbn [seg_count seg_total] in S3, I3.
    split; [|split; [|split; [|split]]].
    + rewrite (GX k _ (c0 c)); [now apply G_c0|now apply IX|rewrite S1; unfold c0; ring|lra].
    + destruct nhold as [|nh].
      * rewrite Nat.add_0_r. rewrite (GX k _ (c0 c)); [now apply G_c0|now apply IX|rewrite S1; unfold c0; ring|lra].
      * destruct (SE k [(t1 c, nload)] (t2 c) (S nh) _ Hk eq_refl ltac:(lia)) as [S2 I2]. cbn [seg_count seg_total] in S2, I2. rewrite Nat.add_0_r in S2.
        rewrite (GX k _ (c1 c)); [now apply G_c0|rewrite <- Nat.add_assoc; apply IX; auto; lia|rewrite S2; unfold c1, c0; ring|lra].
    + replace (k * Ntotal nload nhold + 3 * nload + nhold)%nat with (k * Ntotal nload nhold + (nload + (nhold + 0)) + 2 * nload)%nat by lia.
      rewrite (GX k _ (c2 c)); [now apply G_c2|rewrite <- Nat.add_assoc; apply IX; auto; lia|rewrite S3; unfold c2, c1, c0; ring|lra].
    + destruct nhold as [|nh].
      * replace (k * Ntotal nload 0 + 3 * nload + 2 * 0)%nat with (k * Ntotal nload 0 + (nload + (0 + 0)) + 2 * nload)%nat by lia.
        rewrite (GX k _ (c2 c)); [now apply G_c2|rewrite <- Nat.add_assoc; apply IX; auto; lia|rewrite S3; unfold c2, c1, c0; ring|lra].
      * destruct (SE k [(t1 c, nload); (t2 c, S nh); (t3 c, (2 * nload)%nat)] (t4 c) (S nh) _ Hk eq_refl ltac:(lia)) as [S4 I4]. cbn [seg_count seg_total] in S4, I4.
        replace (k * Ntotal nload (S nh) + 3 * nload + 2 * S nh)%nat with (k * Ntotal nload (S nh) + (nload + (S nh + (2 * nload + 0))) + S nh)%nat by lia.
        rewrite (GX k _ (c3 c)); [now apply G_c2|rewrite <- Nat.add_assoc; apply IX; auto; lia|rewrite S4; unfold c3, c2, c1, c0; ring|lra].
    + rewrite S1. unfold t1, emax, erate. ring.
Qed.
Print Assumptions C69_landmarks.
(** Every cycle repeats the previous one. *)
Theorem C69_periodic c N nload nhold times strains cycles : valid c -> (1 <= nload)%nat -> sample_cycle c N nload nhold = Some (times, strains, cycles) ->
  let n := (4 * nload + 2 * nhold)%nat in
  forall i, (i + n < List.length times)%nat ->
  nth (i + n) times 0 = nth i times 0 + cycle_period c /\ nth (i + n) strains 0 = nth i strains 0.
Proof.
  intros V Hn E. cbv zeta. intros i Hi. pose proof V as (H & H' & H'').
  assert (T : nth (i + (4 * nload + 2 * nhold)) times 0 = nth i times 0 + cycle_period c).
  { destruct i as [|i].
    - destruct (C69_landmarks c N nload nhold times strains cycles V Hn E) as [L _].
      assert (HN : (1 <= N)%nat) by (destruct (C69_shape c N nload nhold) as (a & b & d & E' & LL & _); rewrite E in E'; injection E' as -> -> ->; rewrite LL in Hi; destruct N; lia).
      destruct (L 1%nat HN) as [L1 _]. destruct (L 0%nat ltac:(lia)) as [L0 _]. cbn [Nat.add] in *. rewrite Nat.mul_1_l in L1. rewrite L1.
      rewrite Nat.mul_0_l in L0. rewrite L0. cbn [INR]. ring.
    - rewrite sample_eq in E. injection E as <- _ _. rewrite all_times_length in Hi. rewrite <- (period_eq c V).
      replace (4 * nload + 2 * nhold)%nat with (Ntotal nload nhold) in * by (unfold Ntotal; lia). set (n := Ntotal nload nhold) in *.
      assert (Hn0 : n <> 0%nat) by (unfold n, Ntotal; lia). pose proof (Nat.div_mod i n Hn0) as DM. pose proof (Nat.mod_upper_bound i n Hn0).
      set (k := (i / n)%nat) in *. set (r := (i mod n)%nat) in *.
      assert (Hk : (S k < N)%nat) by nia.
      replace (S i) with (k * n + S r)%nat by lia. replace (k * n + S r + n)%nat with (S k * n + S r)%nat by lia. unfold n.
      rewrite !all_times_nth by (unfold n in *; lia). unfold cyc_times. rewrite S_INR.
      replace ((INR k + 1) * period c) with (INR k * period c + period c) by ring. rewrite seg_times_shift.
      rewrite nth_indep with (d' := (fun x => x + period c) 0) by (rewrite map_length, seg_times_length, segs_count; fold n; lia). now rewrite (map_nth (fun x => x + period c)). }
  split; auto. rewrite sample_eq in E. injection E as <- <- <-.
  assert (M : forall i, (i < List.length (all_times c N nload nhold))%nat -> nth i (map (strain_at c) (all_times c N nload nhold)) 0 = strain_at c (nth i (all_times c N nload nhold) 0)).
  { intros j Hj. rewrite nth_indep with (d' := strain_at c 0) by (rewrite map_length; auto). apply map_nth. }
  rewrite !M by lia. rewrite T, <- (period_eq c V). now apply strain_periodic.
Qed.
Print Assumptions C69_periodic.
Example C69_example : let c := Cycle 1 (-1) (1/10) 5 0 in valid c /\ cycle_period c = 45 /\
  exists times strains cycles, sample_cycle c 2 1 1 = Some (times, strains, cycles) /\ nth 1 strains 0 = 1 /\ nth 6 times 0 = 45 /\ nth 7 cycles 0%Z = 1%Z.
Proof.
  cbv zeta. set (c := Cycle 1 (-1) (1/10) 5 0). assert (V : valid c) by (unfold valid, c; cbn; lra).
  assert (P : cycle_period c = 45).
  { unfold cycle_period, c. cbn. rewrite (Rabs_right 1), (Rabs_right (1 - -1 * 1)), Rabs_left by lra. field. }
  split; auto. split; auto. destruct (C69_shape c 2 1 1) as (ti & st & cy & E & _). exists ti, st, cy. split; auto.
  destruct (C69_landmarks c 2 1 1 ti st cy V ltac:(lia) E) as [A B]. destruct (A 1%nat ltac:(lia)) as [A1 _]. destruct (B 0%nat ltac:(lia)) as (B1 & _).
  destruct (C69_times c 2 1 1 ti st cy V E) as (_ & _ & _ & D). destruct (D 1%nat 1%nat ltac:(lia) ltac:(lia)) as [_ D1]. cbn [Nat.add Nat.mul] in *.
  split; [exact B1|]. split; [rewrite A1, P; cbn; ring|exact D1].
Qed.
