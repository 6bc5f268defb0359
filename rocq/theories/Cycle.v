(** Model of sample_cycle_normalized_times, experiments.py 447-521. *)
From Coq Require Import Reals ZArith Lra Lia List Bool Arith Sorted.
From Verif Require Import Experiments.
Import ListNotations.
Local Open Scope R_scope.

(** the cycle dictionary, experiments.py 411-444 *)
Record cycle := Cycle { cy_max_strain : R; cy_R : R; cy_strain_rate : R; cy_tension_hold : R; cy_compression_hold : R }.

(** a[n : n + len(vals)] = vals; numpy raises when the slice is cut short *)
Definition write {A} (n : nat) (vals a : list A) : option (list A) :=
  if n + List.length vals <=? List.length a then Some (firstn n a ++ vals ++ skipn (n + List.length vals) a) else None.

Section Cycle.
Variables (c : cycle) (N nload nhold : nat).
(** experiments.py 473-488 *)
Definition emax := cy_max_strain c.
Definition emin := cy_R c * cy_max_strain c.
Definition erate := cy_strain_rate c.
Definition t1 := Rabs emax / erate.
Definition t2 := cy_tension_hold c.
Definition t3 := Rabs (emax - emin) / erate.
Definition t4 := cy_compression_hold c.
Definition t5 := Rabs emin / erate.
Definition divisions := [t1; t2; t3; t4; t5].
Definition timesteps := [nload; nhold; 2 * nload; nhold; nload]%nat.
(** np.cumsum(divisions) *)
Definition c0 := t1.
Definition c1 := c0 + t2.
Definition c2 := c1 + t3.
Definition c3 := c2 + t4.
Definition c4 := c3 + t5.
Definition period := c4.
Definition Ntotal := (nload * 4 + nhold * 2)%nat.

(** the loops, experiments.py 493-500: state n, tc, times, cycles *)
Definition lstate := (nat * R * list R * list Z)%type.
Definition seg_step (k : nat) (seg : R * nat) (st : lstate) : option lstate :=
  let '(n, tc, times, cycles) := st in
  let '(ti, ni) := seg in
  match write n (tl (linspace tc (tc + ti) (ni + 1))) times, write n (repeat (Z.of_nat k) ni) cycles with
  | Some times', Some cycles' => Some ((n + ni)%nat, tc + ti, times', cycles')
  | _, _ => None
  end.
Fixpoint seg_loop (k : nat) (segs : list (R * nat)) (st : lstate) : option lstate :=
  match segs with
  | [] => Some st
  | s :: rest => match seg_step k s st with None => None | Some st' => seg_loop k rest st' end
  end.
Fixpoint cyc_loop (ks : list nat) (st : lstate) : option lstate :=
  match ks with
  | [] => Some st
  | k :: rest => match seg_loop k (combine divisions timesteps) st with None => None | Some st' => cyc_loop rest st' end
  end.

(** times % period (floor modulus); nan for period zero *)
Definition fmod (x p : R) : option R := if Req_EM_T p 0 then None else Some (x - IZR (Int_part (x / p)) * p).
(** np.piecewise, experiments.py 502-519: no condition holds for nan, and the
    default value is 0.  The conditions are disjoint. *)
Definition in_range (a x b : R) : bool := if Rle_dec a x then if Rlt_dec x b then true else false else false.
Definition piece (tp : R) : R :=
  if in_range 0 tp c0 then tp / t1 * emax
  else if in_range c0 tp c1 then tp * 0 + emax
  else if in_range c1 tp c2 then emax - (tp - c1) / t3 * (emax - emin)
  else if in_range c2 tp c3 then tp * 0 + emin
  else if in_range c3 tp c4 then emin - (tp - c3) / t5 * emin
  else 0.
Definition strain_at (t : R) : R := match fmod t period with None => 0 | Some tp => piece tp end.
Definition sample_cycle : option (list R * list R * list Z) :=
  match cyc_loop (seq 0 N) (1%nat, 0, repeat 0 (1 + Ntotal * N), repeat 0%Z (1 + Ntotal * N)) with
  | None => None
  | Some (_, _, times, cycles) => Some (times, map strain_at times, cycles)
  end.

(** ** The strain as a function of time *)
Hypotheses (He : 0 < erate) (H2 : 0 <= t2) (H4 : 0 <= t4).
Lemma t1_pos : 0 <= t1. Proof. apply Rmult_le_pos; [apply Rabs_pos|left; now apply Rinv_0_lt_compat]. Qed.
Lemma t3_pos : 0 <= t3. Proof. apply Rmult_le_pos; [apply Rabs_pos|left; now apply Rinv_0_lt_compat]. Qed.
Lemma t5_pos : 0 <= t5. Proof. apply Rmult_le_pos; [apply Rabs_pos|left; now apply Rinv_0_lt_compat]. Qed.
Definition sg (x : R) : R := if Rle_dec 0 x then 1 else -1.
Lemma sg_abs x : Rabs (sg x) = 1.
Proof. unfold sg. destruct (Rle_dec 0 x); [apply Rabs_R1|]. rewrite Rabs_left; lra. Qed.
Lemma sg_spec x : sg x * erate * (Rabs x / erate) = x.
Proof.
  replace (sg x * erate * (Rabs x / erate)) with (sg x * Rabs x) by (field; lra). unfold sg.
  destruct (Rle_dec 0 x); [rewrite Rabs_right|rewrite Rabs_left]; lra.
Qed.
(** clamp x to [0, t] *)
Definition cl (x t : R) : R := Rmax 0 (Rmin x t).
Lemma cl_mid x t : 0 <= x <= t -> cl x t = x.
Proof. intros H. unfold cl. rewrite Rmin_left, Rmax_right; lra. Qed.
Lemma cl_low x t : x <= 0 -> 0 <= t -> cl x t = 0.
Proof. intros H H'. unfold cl. rewrite Rmin_left, Rmax_left; lra. Qed.
Lemma cl_high x t : t <= x -> 0 <= t -> cl x t = t.
Proof. intros H H'. unfold cl. rewrite Rmin_right, Rmax_right; lra. Qed.
Lemma cl_mono x y t : x <= y -> cl x t <= cl y t.
Proof. intros H. unfold cl. apply Rle_max_compat_l. now apply Rle_min_compat_r. Qed.
Lemma cl_split x a b : 0 <= a -> 0 <= b -> cl x (a + b) = cl x a + cl (x - a) b.
Proof.
  intros Ha Hb. destruct (Rle_dec x 0); [rewrite !cl_low by lra; ring|]. destruct (Rle_dec x a).
  - rewrite (cl_mid x (a + b)), (cl_mid x a), cl_low by lra. ring.
  - rewrite (cl_high x a) by lra. destruct (Rle_dec x (a + b)); [rewrite (cl_mid x), cl_mid by lra; ring|]. rewrite !cl_high by lra. ring.
Qed.
Definition G (x : R) : R := erate * (sg emax * cl x t1 - sg (emax - emin) * cl (x - c1) t3 - sg emin * cl (x - c3) t5).
Lemma G_lip x y : 0 <= x -> x <= y -> y <= period -> Rabs (G y - G x) <= erate * (y - x).
Proof.
  intros Hx Hxy Hy. pose proof t1_pos. pose proof t3_pos. pose proof t5_pos.
  assert (T : forall z, cl z period = cl z t1 + cl (z - c0) t2 + cl (z - c1) t3 + cl (z - c2) t4 + cl (z - c3) t5).
  { intros z. unfold period, c4. rewrite cl_split by (unfold c3, c2, c1, c0; lra). unfold c3 at 1. rewrite cl_split by (unfold c2, c1, c0; lra).
    unfold c2 at 1. rewrite cl_split by (unfold c1, c0; lra). unfold c1 at 1. rewrite cl_split by (unfold c0; lra). reflexivity. }
  pose proof (T x) as Tx. pose proof (T y) as Ty. rewrite (cl_mid x) in Tx by lra. rewrite (cl_mid y) in Ty by lra.
  pose proof (cl_mono x y t1 Hxy) as M1. pose proof (cl_mono (x - c0) (y - c0) t2 ltac:(lra)) as M2.
  pose proof (cl_mono (x - c1) (y - c1) t3 ltac:(lra)) as M3. pose proof (cl_mono (x - c2) (y - c2) t4 ltac:(lra)) as M4.
  pose proof (cl_mono (x - c3) (y - c3) t5 ltac:(lra)) as M5.
  unfold G. set (d1 := cl y t1 - cl x t1). set (d3 := cl (y - c1) t3 - cl (x - c1) t3). set (d5 := cl (y - c3) t5 - cl (x - c3) t5).
  replace (_ - _) with (erate * (sg emax * d1 + - (sg (emax - emin) * d3) + - (sg emin * d5))) by (unfold d1, d3, d5; ring).
  rewrite Rabs_mult, (Rabs_right erate) by lra. apply Rmult_le_compat_l; [lra|].
  eapply Rle_trans; [apply Rabs_triang|]. eapply Rle_trans; [apply Rplus_le_compat_r, Rabs_triang|].
  rewrite !Rabs_Ropp, !Rabs_mult, !sg_abs, !Rmult_1_l. rewrite !Rabs_right by (unfold d1, d3, d5; lra). unfold d1, d3, d5. lra.
Qed.
Lemma G_0 : G 0 = 0.
Proof.
  pose proof t1_pos. pose proof t3_pos. pose proof t5_pos. unfold G.
  rewrite (cl_mid 0) by lra. rewrite !cl_low by (unfold c3, c2, c1, c0; lra). ring.
Qed.
Lemma G_period : G period = 0.
Proof.
  pose proof t1_pos. pose proof t3_pos. pose proof t5_pos. unfold G. rewrite !cl_high by (unfold period, c4, c3, c2, c1, c0; lra).
  replace (erate * _) with (sg emax * erate * t1 - sg (emax - emin) * erate * t3 - sg emin * erate * t5) by ring.
  unfold t1, t3, t5. rewrite !sg_spec. ring.
Qed.
Lemma piece_G x : 0 <= x < period -> piece x = G x.
Proof.
  intros Hx. pose proof t1_pos. pose proof t3_pos. pose proof t5_pos.
  pose proof (sg_spec emax) as S1. pose proof (sg_spec (emax - emin)) as S3. pose proof (sg_spec emin) as S5.
  fold t1 in S1. fold t3 in S3. fold t5 in S5.
  assert (A : forall e t y, sg e * erate * t = e -> 0 < t -> y / t * e = sg e * erate * y).
  { intros e t y E Ht. rewrite <- E at 1. field. lra. }
  unfold piece, in_range, G, period, c4, c3, c2, c1, c0 in *.
  destruct (Rle_dec 0 x); [|lra]. destruct (Rlt_dec x t1).
  { rewrite (A emax t1 x) by lra. rewrite cl_mid, !cl_low by lra. ring. }
  rewrite (cl_high x t1) by lra. destruct (Rle_dec t1 x); [|lra]. destruct (Rlt_dec x (t1 + t2)).
  { rewrite !cl_low by lra. rewrite <- S1 at 1. ring. }
  destruct (Rle_dec (t1 + t2) x); [|lra]. destruct (Rlt_dec x (t1 + t2 + t3)).
  { rewrite (A (emax - emin) t3) by lra. rewrite cl_mid, cl_low by lra. rewrite <- S1 at 1. ring. }
  rewrite (cl_high (x - (t1 + t2)) t3) by lra. destruct (Rle_dec (t1 + t2 + t3) x); [|lra]. destruct (Rlt_dec x (t1 + t2 + t3 + t4)).
  { rewrite cl_low by lra. transitivity (emax - (emax - emin)); [ring|]. rewrite <- S1 at 1. rewrite <- S3 at 1. ring. }
  destruct (Rle_dec (t1 + t2 + t3 + t4) x); [|lra]. destruct (Rlt_dec x (t1 + t2 + t3 + t4 + t5)); [|lra].
  rewrite (A emin t5) by lra. rewrite cl_mid by lra. transitivity (emax - (emax - emin) - sg emin * erate * (x - (t1 + t2 + t3 + t4))); [ring|].
  rewrite <- S1 at 1. rewrite <- S3 at 1. ring.
Qed.
Lemma period_pos : 0 <= period.
Proof. pose proof t1_pos. pose proof t3_pos. pose proof t5_pos. unfold period, c4, c3, c2, c1, c0. lra. Qed.
(** floor division *)
Lemma fmod_spec t : 0 < period -> exists k : Z, IZR k * period <= t < IZR k * period + period /\ strain_at t = G (t - IZR k * period).
Proof.
  intros P. exists (Int_part (t / period)). destruct (base_Int_part (t / period)) as [B1 B2].
  assert (E : t = t / period * period) by (field; lra).
  assert (A1 : IZR (Int_part (t / period)) * period <= t) by (rewrite E at 2; apply Rmult_le_compat_r; lra).
  assert (A2 : t < IZR (Int_part (t / period)) * period + period).
  { rewrite E at 1. replace (IZR _ * period + period) with ((IZR (Int_part (t / period)) + 1) * period) by ring. apply Rmult_lt_compat_r; lra. }
  split; [lra|]. unfold strain_at, fmod. destruct (Req_EM_T period 0); [lra|]. apply piece_G. lra.
Qed.
Lemma strain_shift k t : 0 < period -> IZR k * period <= t <= IZR k * period + period -> strain_at t = G (t - IZR k * period).
Proof.
  intros P [A B]. destruct (fmod_spec t P) as (j & J & ->).
  destruct (Req_dec t (IZR k * period + period)) as [E|NE].
  - assert (j = (k + 1)%Z).
    { assert (IZR (k + 1) * period <= t) by (rewrite plus_IZR; lra). assert (t < IZR (k + 2) * period) by (rewrite plus_IZR; lra).
      assert (Q1 : IZR j < IZR (k + 2)) by (apply Rmult_lt_reg_r with period; lra).
      assert (Q2 : IZR (k + 1) < IZR (j + 1)) by (apply Rmult_lt_reg_r with period; [lra|]; rewrite (plus_IZR j); lra).
      apply lt_IZR in Q1, Q2. lia. }
    subst j. rewrite plus_IZR. replace (t - (IZR k + 1) * period) with 0 by lra. replace (t - IZR k * period) with period by lra.
    now rewrite G_0, G_period.
  - assert (j = k); [|now subst].
    assert (Q1 : IZR j < IZR (k + 1)) by (apply Rmult_lt_reg_r with period; [lra|]; rewrite plus_IZR; lra).
    assert (Q2 : IZR k < IZR (j + 1)) by (apply Rmult_lt_reg_r with period; [lra|]; rewrite plus_IZR; lra).
    apply lt_IZR in Q1, Q2. lia.
Qed.
Lemma strain_zero_period t : period = 0 -> strain_at t = 0.
Proof. intros E. unfold strain_at, fmod. destruct (Req_EM_T period 0); [reflexivity|contradiction]. Qed.
Lemma strain_lip t t' : t <= t' -> Rabs (strain_at t' - strain_at t) <= erate * (t' - t).
Proof.
  intros L. destruct (Req_dec period 0) as [Z|Z].
  { rewrite !strain_zero_period, Rminus_0_r, Rabs_R0 by auto. apply Rmult_le_pos; lra. }
  assert (P : 0 < period) by (pose proof period_pos; lra).
  destruct (fmod_spec t P) as (k & K & _). destruct (fmod_spec t' P) as (k' & K' & _).
  rewrite (strain_shift k t P) by lra. rewrite (strain_shift k' t' P) by lra.
  destruct (Z.eq_dec k k') as [<-|NE].
  - eapply Rle_trans; [apply G_lip; lra|]. apply Rmult_le_compat_l; lra.
  - assert (IZR k < IZR k' + 1) by (apply Rmult_lt_reg_r with period; lra).
    assert (k < k')%Z by (rewrite <- plus_IZR in H; apply lt_IZR in H; lia).
    assert (IZR (k + 1) <= IZR k') by (apply IZR_le; lia). rewrite plus_IZR in H1.
    assert ((IZR k + 1) * period <= IZR k' * period) by (apply Rmult_le_compat_r; lra).
    pose proof (G_lip (t - IZR k * period) period ltac:(lra) ltac:(lra) ltac:(lra)) as A. rewrite G_period in A.
    pose proof (G_lip 0 (t' - IZR k' * period) ltac:(lra) ltac:(lra) ltac:(lra)) as B. rewrite G_0 in B.
    replace (G (t' - IZR k' * period) - G (t - IZR k * period)) with ((G (t' - IZR k' * period) - 0) + (0 - G (t - IZR k * period))) by ring.
    eapply Rle_trans; [apply Rabs_triang|]. eapply Rle_trans; [apply Rplus_le_compat; [exact B|exact A]|].
    rewrite <- Rmult_plus_distr_l. apply Rmult_le_compat_l; lra.
Qed.
Lemma strain_periodic t : strain_at (t + period) = strain_at t.
Proof.
  destruct (Req_dec period 0) as [Z|Z]; [now rewrite !strain_zero_period|]. assert (P : 0 < period) by (pose proof period_pos; lra).
  destruct (fmod_spec t P) as (k & K & _). rewrite (strain_shift k t P) by lra.
  rewrite (strain_shift (k + 1) (t + period) P) by (rewrite plus_IZR; lra). f_equal. rewrite plus_IZR. ring.
Qed.
Lemma zero_all : period = 0 -> emax = 0 /\ emin = 0.
Proof.
  intros Z. pose proof t1_pos. pose proof t3_pos. pose proof t5_pos. unfold period, c4, c3, c2, c1, c0 in Z.
  assert (A : forall x, Rabs x / erate = 0 -> x = 0).
  { intros x E. assert (AX : Rabs x = 0) by (replace (Rabs x) with (Rabs x / erate * erate) by (field; lra); rewrite E; ring).
    destruct (Req_dec x 0); auto. exfalso. now apply (Rabs_no_R0 x). }
  split; apply A; [fold t1|fold t5]; lra.
Qed.
Lemma strain_G k t : IZR k * period <= t <= IZR k * period + period -> strain_at t = G (t - IZR k * period).
Proof.
  intros H. destruct (Req_dec period 0) as [Z|Z]; [|apply strain_shift; auto; pose proof period_pos; lra].
  rewrite strain_zero_period by auto. rewrite Z in *. replace (t - IZR k * 0) with 0 by lra. now rewrite G_0.
Qed.
Lemma G_c0 : G c0 = emax /\ G c1 = emax.
Proof.
  pose proof t1_pos. pose proof t3_pos. pose proof t5_pos. unfold G. 
  split; rewrite cl_high, !cl_low by (unfold c3, c2, c1, c0; lra); (transitivity (sg emax * erate * t1); [ring|apply sg_spec]).
Qed.
Lemma G_c2 : G c2 = emin /\ G c3 = emin.
Proof.
  pose proof t1_pos. pose proof t3_pos. pose proof t5_pos. unfold G.
  split; rewrite !(cl_high _ t1), !(cl_high _ t3), !cl_low by (unfold c3, c2, c1, c0; lra);
    (transitivity (sg emax * erate * t1 - sg (emax - emin) * erate * t3); [ring|unfold t1, t3; rewrite !sg_spec; ring]).
Qed.
Lemma G_bounds x lo hi : lo <= 0 <= hi -> lo <= emax <= hi -> lo <= emin <= hi -> 0 <= x <= period -> lo <= G x <= hi.
Proof.
  intros B0 B1 B2 Hx. pose proof t1_pos. pose proof t3_pos. pose proof t5_pos.
  pose proof (sg_spec emax) as S1. pose proof (sg_spec (emax - emin)) as S3. pose proof (sg_spec emin) as S5.
  fold t1 in S1. fold t3 in S3. fold t5 in S5.
  (* a point between 0 and t of the way gives a convex combination *)
  assert (A : forall e t y, sg e * erate * t = e -> 0 <= y <= t -> 0 <= t -> exists w, 0 <= w <= 1 /\ sg e * erate * y = w * e).
  { intros e t y E Hy Ht. destruct (Req_dec t 0) as [Z|Z].
    - exists 0. split; [lra|]. replace y with 0 by lra. ring.
    - exists (y / t). split; [split; [apply Rmult_le_pos; [lra|left; apply Rinv_0_lt_compat; lra]|]|].
      + apply Rmult_le_reg_r with t; [lra|]. unfold Rdiv. rewrite Rmult_assoc, Rinv_l, Rmult_1_r, Rmult_1_l; lra.
      + rewrite <- E at 2. field. auto. }
  assert (CV : forall a b w, lo <= a <= hi -> lo <= b <= hi -> 0 <= w <= 1 -> lo <= a + w * (b - a) <= hi) by (intros; nra).
  unfold G. unfold period, c4, c3, c2, c1, c0 in *.
  destruct (Rle_dec x t1).
  { rewrite (cl_mid x), !cl_low by lra. destruct (A emax t1 x S1) as (w & Hw & E); try lra.
    replace (erate * _) with (sg emax * erate * x) by ring. rewrite E. replace (w * emax) with (0 + w * (emax - 0)) by ring. apply CV; lra. }
  rewrite (cl_high x) by lra. destruct (Rle_dec x (t1 + t2)).
  { rewrite !cl_low by lra. replace (erate * _) with (sg emax * erate * t1) by ring. lra. }
  destruct (Rle_dec x (t1 + t2 + t3)).
  { rewrite (cl_mid (x - (t1 + t2))), cl_low by lra. destruct (A (emax - emin) t3 (x - (t1 + t2)) S3) as (w & Hw & E); try lra.
    replace (erate * _) with (sg emax * erate * t1 - sg (emax - emin) * erate * (x - (t1 + t2))) by ring. rewrite E, S1.
    replace (emax - w * (emax - emin)) with (emax + w * (emin - emax)) by ring. apply CV; lra. }
  rewrite (cl_high (x - (t1 + t2))) by lra. destruct (Rle_dec x (t1 + t2 + t3 + t4)).
  { rewrite !cl_low by lra. replace (erate * _) with (sg emax * erate * t1 - sg (emax - emin) * erate * t3) by ring. lra. }
  rewrite cl_mid by lra. destruct (A emin t5 (x - (t1 + t2 + t3 + t4)) S5) as (w & Hw & E); try lra.
  replace (erate * _) with (sg emax * erate * t1 - sg (emax - emin) * erate * t3 - sg emin * erate * (x - (t1 + t2 + t3 + t4))) by ring.
  rewrite E, S1, S3. replace (emax - (emax - emin) - w * emin) with (emin + w * (0 - emin)) by ring. apply CV; lra.
Qed.
Lemma strain_bounds t lo hi : lo <= 0 <= hi -> lo <= emax <= hi -> lo <= emin <= hi -> lo <= strain_at t <= hi.
Proof.
  intros B0 B1 B2. destruct (Req_dec period 0) as [Z|Z]; [rewrite strain_zero_period; auto|]. assert (P : 0 < period) by (pose proof period_pos; lra).
  destruct (fmod_spec t P) as (k & K & ->). apply G_bounds; auto. lra.
Qed.

(** ** The sample times *)
Definition segs := combine divisions timesteps.
Fixpoint seg_times (tc : R) (l : list (R * nat)) : list R :=
  match l with [] => [] | (ti, ni) :: l' => tl (linspace tc (tc + ti) (ni + 1)) ++ seg_times (tc + ti) l' end.
Fixpoint seg_count (l : list (R * nat)) : nat := match l with [] => 0 | (_, ni) :: l' => ni + seg_count l' end.
Fixpoint seg_total (l : list (R * nat)) : R := match l with [] => 0 | (ti, _) :: l' => ti + seg_total l' end.
Lemma tl_lin_length a b n : List.length (tl (linspace a b (n + 1))) = n.
Proof. pose proof (linspace_length a b (n + 1)). destruct (linspace a b (n + 1)); cbn in *; lia. Qed.
Lemma seg_times_length l : forall tc, List.length (seg_times tc l) = seg_count l.
Proof. induction l as [|[ti ni] l IH]; intros tc; cbn; auto. now rewrite app_length, tl_lin_length, IH. Qed.
Lemma write_fresh {A} (done vals : list A) z m : (List.length vals <= m)%nat ->
  write (List.length done) vals (done ++ repeat z m) = Some ((done ++ vals) ++ repeat z (m - List.length vals)).
Proof.
  intros L. unfold write. rewrite app_length, repeat_length. destruct (Nat.leb_spec (List.length done + List.length vals) (List.length done + m)); [|lia].
  f_equal. rewrite firstn_app, firstn_all, Nat.sub_diag, firstn_O, app_nil_r, <- app_assoc. do 2 f_equal.
  rewrite skipn_app. rewrite skipn_all2 by lia. cbn [app]. replace (List.length done + List.length vals - List.length done)%nat with (List.length vals) by lia.
  replace m with (List.length vals + (m - List.length vals))%nat at 1 by lia. rewrite repeat_app, skipn_app, skipn_all2, repeat_length, Nat.sub_diag by (rewrite repeat_length; lia).
  reflexivity.
Qed.
Lemma seg_loop_spec k l : forall dt dc tc m, List.length dt = List.length dc -> (seg_count l <= m)%nat ->
  seg_loop k l (List.length dt, tc, dt ++ repeat 0 m, dc ++ repeat 0%Z m) =
  Some (List.length (dt ++ seg_times tc l), tc + seg_total l, (dt ++ seg_times tc l) ++ repeat 0 (m - seg_count l),
        (dc ++ repeat (Z.of_nat k) (seg_count l)) ++ repeat 0%Z (m - seg_count l)).
Proof.
  induction l as [|[ti ni] l IH]; intros dt dc tc m E L; cbn [seg_loop seg_count seg_total seg_times] in *.
  - cbn [repeat]. now rewrite !app_nil_r, Nat.sub_0_r, Rplus_0_r.
  - cbn [seg_step]. rewrite write_fresh by (rewrite tl_lin_length; lia). rewrite E, write_fresh by (rewrite repeat_length; lia).
    rewrite tl_lin_length, repeat_length. replace (List.length dc + ni)%nat with (List.length (dt ++ tl (linspace tc (tc + ti) (ni + 1)))).
    2: { rewrite app_length, tl_lin_length. lia. }
    rewrite IH by (rewrite ?app_length, ?tl_lin_length, ?repeat_length; lia).
    rewrite <- !app_assoc. rewrite Rplus_assoc. replace (m - ni - seg_count l)%nat with (m - (ni + seg_count l))%nat by lia.
    rewrite repeat_app, <- !app_assoc. reflexivity.
Qed.
Lemma segs_count : seg_count segs = Ntotal.
Proof. unfold segs, divisions, timesteps, Ntotal. cbn [combine seg_count]. lia. Qed.
Lemma segs_total : seg_total segs = period.
Proof. unfold segs, divisions, timesteps, period, c4, c3, c2, c1, c0. cbn [combine seg_total]. ring. Qed.
Lemma cyc_loop_spec n0 : forall n dt dc m, List.length dt = List.length dc -> (n * Ntotal <= m)%nat ->
  exists n' tc', cyc_loop (seq n0 n) (List.length dt, INR n0 * period, dt ++ repeat 0 m, dc ++ repeat 0%Z m) =
  Some (n', tc', (dt ++ flat_map (fun k => seg_times (INR k * period) segs) (seq n0 n)) ++ repeat 0 (m - n * Ntotal),
     (dc ++ flat_map (fun k => repeat (Z.of_nat k) Ntotal) (seq n0 n)) ++ repeat 0%Z (m - n * Ntotal)).
Proof.
  intros n. revert n0. induction n as [|n IH]; intros n0 dt dc m E L.
  - cbn. do 2 eexists. now rewrite !app_nil_r, Nat.sub_0_r.
  - cbn [seq cyc_loop]. fold segs. rewrite seg_loop_spec by (auto; rewrite segs_count; lia). rewrite segs_total, segs_count.
    replace (INR n0 * period + period) with (INR (S n0) * period) by (rewrite S_INR; ring).
    destruct (IH (S n0) (dt ++ seg_times (INR n0 * period) segs) (dc ++ repeat (Z.of_nat n0) Ntotal) (m - Ntotal)%nat) as (n' & tc' & ->).
    + rewrite !app_length, seg_times_length, segs_count, repeat_length. lia.
    + lia.
    + exists n', tc'. cbn [flat_map]. rewrite <- !app_assoc. replace (m - Ntotal - n * Ntotal)%nat with (m - S n * Ntotal)%nat by lia. reflexivity.
Qed.
Definition cyc_times (k : nat) := seg_times (INR k * period) segs.
Definition all_times := 0 :: flat_map cyc_times (seq 0 N).
Definition all_cycles := 0%Z :: flat_map (fun k => repeat (Z.of_nat k) Ntotal) (seq 0 N).
Lemma sample_eq : sample_cycle = Some (all_times, map strain_at all_times, all_cycles).
Proof.
  unfold sample_cycle. destruct (cyc_loop_spec 0 N [0] [0%Z] (Ntotal * N)%nat eq_refl ltac:(lia)) as (n' & tc' & E).
  cbn [INR List.length] in E. rewrite Rmult_0_l in E. change (repeat 0 (1 + Ntotal * N)) with ([0] ++ repeat 0 (Ntotal * N)).
  change (repeat 0%Z (1 + Ntotal * N)) with ([0%Z] ++ repeat 0%Z (Ntotal * N)). rewrite E.
  replace (Ntotal * N - N * Ntotal)%nat with 0%nat by lia. cbn [repeat]. rewrite !app_nil_r. reflexivity.
Qed.
(** Blocks *)
Lemma flat_nth {A} (f : nat -> list A) m d : (forall k, List.length (f k) = m) -> forall n n0 k r, (k < n)%nat -> (r < m)%nat ->
  nth (k * m + r) (flat_map f (seq n0 n)) d = nth r (f (n0 + k)%nat) d.
Proof.
  intros L. induction n as [|n IH]; intros n0 k r Hk Hr; [lia|]. cbn [seq flat_map]. destruct k.
  - cbn. rewrite app_nth1 by (rewrite L; auto). now rewrite Nat.add_0_r.
  - rewrite app_nth2 by (rewrite L; lia). rewrite L. replace (S k * m + r - m)%nat with (k * m + r)%nat by lia. rewrite IH by lia. f_equal. f_equal. lia.
Qed.
Lemma flat_length {A} (f : nat -> list A) m : (forall k, List.length (f k) = m) -> forall n n0, List.length (flat_map f (seq n0 n)) = (n * m)%nat.
Proof. intros L. induction n as [|n IH]; intros n0; auto. cbn [seq flat_map]. now rewrite app_length, L, IH. Qed.
Lemma cyc_times_length k : List.length (cyc_times k) = Ntotal.
Proof. unfold cyc_times. now rewrite seg_times_length, segs_count. Qed.
Lemma all_times_length : List.length all_times = (1 + N * Ntotal)%nat.
Proof. unfold all_times. cbn [List.length]. now rewrite (flat_length _ Ntotal cyc_times_length). Qed.
Lemma all_cycles_length : List.length all_cycles = (1 + N * Ntotal)%nat.
Proof. unfold all_cycles. cbn [List.length]. rewrite (flat_length _ Ntotal); auto. intros. apply repeat_length. Qed.
Lemma all_times_nth k r : (k < N)%nat -> (r < Ntotal)%nat -> nth (k * Ntotal + S r) all_times 0 = nth r (cyc_times k) 0.
Proof. intros Hk Hr. unfold all_times. replace (k * Ntotal + S r)%nat with (S (k * Ntotal + r)) by lia. cbn [nth]. now rewrite (flat_nth _ Ntotal 0 cyc_times_length). Qed.
Lemma all_cycles_nth k r : (k < N)%nat -> (r < Ntotal)%nat -> nth (k * Ntotal + S r) all_cycles 0%Z = Z.of_nat k.
Proof.
  intros Hk Hr. unfold all_cycles. replace (k * Ntotal + S r)%nat with (S (k * Ntotal + r)) by lia. cbn [nth].
  rewrite (flat_nth (fun k => repeat (Z.of_nat k) Ntotal) Ntotal) by (auto; intros; apply repeat_length).
  rewrite nth_indep with (d' := Z.of_nat (0 + k)) by (rewrite repeat_length; auto). now rewrite nth_repeat.
Qed.
(** Sortedness and range *)
Lemma StronglySorted_app l l' : StronglySorted Rle l -> StronglySorted Rle l' -> (forall x y, In x l -> In y l' -> x <= y) -> StronglySorted Rle (l ++ l').
Proof.
  intros S S' H. induction S as [|a l S IH F]; cbn; auto. constructor.
  - apply IH. intros x y Hx Hy. apply H; auto. now right.
  - apply Forall_app. split; auto. apply Forall_forall. intros y Hy. apply H; auto. now left.
Qed.
Lemma sorted_nth l : StronglySorted Rle l -> forall i j, (i <= j < List.length l)%nat -> nth i l 0 <= nth j l 0.
Proof.
  intros S. induction S as [|a l S IH F]; intros i j H; cbn in *; [lia|]. destruct i, j; try lia; try lra.
  - rewrite Forall_forall in F. apply F, nth_In. lia.
  - apply IH. lia.
Qed.
Lemma linspace_sorted a b n : a <= b -> StronglySorted Rle (linspace a b n) /\ forall x, In x (linspace a b n) -> a <= x <= b.
Proof.
  intros L. destruct n as [|[|n]].
  - split; [constructor|easy].
  - unfold linspace. cbn. split; [repeat constructor|]. intros x [<-|[]]. lra.
  - assert (Q : 0 <= (b - a) / (INR (S (S n)) - 1)).
    { apply Rmult_le_pos; [lra|]. left. apply Rinv_0_lt_compat. rewrite S_INR. pose proof (lt_0_INR (S n) ltac:(lia)). lra. }
    assert (B : b = a + (INR (S (S n)) - 1) * ((b - a) / (INR (S (S n)) - 1))).
    { field. rewrite S_INR. pose proof (lt_0_INR (S n) ltac:(lia)). lra. }
    unfold linspace. set (h := (b - a) / (INR (S (S n)) - 1)) in *. split.
    + generalize 0%nat. generalize (S (S n)). intros m. induction m as [|m IH]; intros s; cbn; [constructor|]. constructor; [apply IH|].
      apply Forall_forall. intros x Hx. apply in_map_iff in Hx as (i & <- & Hi). apply in_seq in Hi.
      assert (INR s <= INR i) by (apply le_INR; lia). nra.
    + intros x Hx. apply in_map_iff in Hx as (i & <- & Hi). apply in_seq in Hi. pose proof (pos_INR i).
      assert (INR i <= INR (S (S n)) - 1) by (rewrite S_INR; assert (INR i <= INR (S n)) by (apply le_INR; lia); lra). nra.
Qed.
Lemma tl_sorted l : StronglySorted Rle l -> StronglySorted Rle (tl l).
Proof. intros S. destruct S; auto. constructor. Qed.
Lemma in_tl {A} (x : A) l : In x (tl l) -> In x l.
Proof. destruct l; cbn; auto. Qed.
Lemma seg_times_sorted l : (forall ti ni, In (ti, ni) l -> 0 <= ti) -> forall tc,
  0 <= seg_total l /\ StronglySorted Rle (seg_times tc l) /\ forall x, In x (seg_times tc l) -> tc <= x <= tc + seg_total l.
Proof.
  induction l as [|[ti ni] l IH]; intros H tc; cbn.
  - split; [lra|]. split; [constructor|easy].
  - assert (Ht : 0 <= ti) by (apply (H ti ni); now left). destruct (IH ltac:(intros; eapply H; right; eauto) (tc + ti)) as (T & S & B).
    destruct (linspace_sorted tc (tc + ti) (ni + 1) ltac:(lra)) as [S1 B1]. split; [lra|]. split.
    + apply StronglySorted_app; auto; [now apply tl_sorted|]. intros x y Hx Hy. apply in_tl, B1 in Hx. apply B in Hy. lra.
    + intros x Hx. apply in_app_or in Hx as [Hx|Hx]; [apply in_tl, B1 in Hx|apply B in Hx]; lra.
Qed.
Lemma segs_nonneg ti ni : In (ti, ni) segs -> 0 <= ti.
Proof.
  pose proof t1_pos. pose proof t3_pos. pose proof t5_pos. unfold segs, divisions, timesteps. cbn.
  intros X. repeat (destruct X as [X|X]; [injection X as <- <-; auto|]). easy.
Qed.
Lemma cyc_times_sorted k : StronglySorted Rle (cyc_times k) /\ forall x, In x (cyc_times k) -> INR k * period <= x <= INR k * period + period.
Proof. unfold cyc_times. destruct (seg_times_sorted segs segs_nonneg (INR k * period)) as (_ & S & B). rewrite segs_total in B. auto. Qed.
Lemma all_times_sorted : StronglySorted Rle all_times.
Proof.
  assert (Q : forall n n0, StronglySorted Rle (flat_map cyc_times (seq n0 n)) /\ forall x, In x (flat_map cyc_times (seq n0 n)) -> INR n0 * period <= x).
  { induction n as [|n IH]; intros n0; cbn [seq flat_map]; [split; [constructor|easy]|]. destruct (IH (S n0)) as [S2 B]. destruct (cyc_times_sorted n0) as [S1 B1].
    pose proof period_pos. assert (I : INR (S n0) * period = INR n0 * period + period) by (rewrite S_INR; ring). split.
    - apply StronglySorted_app; auto. intros x y Hx Hy. apply B1 in Hx. apply B in Hy. lra.
    - intros x Hx. apply in_app_or in Hx as [Hx|Hx]; [apply B1 in Hx|apply B in Hx]; lra. }
  unfold all_times. destruct (Q N 0%nat) as [S B]. constructor; auto. apply Forall_forall. intros x Hx. apply B in Hx. cbn in Hx. lra.
Qed.
(** Segment ends *)
Lemma tl_lin_last a b n : (1 <= n)%nat -> nth (n - 1) (tl (linspace a b (n + 1))) 0 = b.
Proof.
  intros Hn. pose proof (linspace_length a b (n + 1)) as L. pose proof (linspace_last a b (n + 1) 0 ltac:(lia)) as E.
  destruct (linspace a b (n + 1)); cbn in *; [lia|]. replace (n + 1 - 1)%nat with (S (n - 1)) in E by lia. exact E.
Qed.
Lemma seg_end l1 ti ni l2 tc : (1 <= ni)%nat -> nth (seg_count l1 + ni - 1) (seg_times tc (l1 ++ (ti, ni) :: l2)) 0 = tc + seg_total l1 + ti.
Proof.
  intros Hn. revert tc. induction l1 as [|[tj nj] l1 IH]; intros tc; cbn [seg_count seg_total app seg_times].
  - rewrite app_nth1 by (rewrite tl_lin_length; lia). rewrite Nat.add_0_l, tl_lin_last by auto. ring.
  - rewrite app_nth2 by (rewrite tl_lin_length; lia). rewrite tl_lin_length. replace (nj + seg_count l1 + ni - 1 - nj)%nat with (seg_count l1 + ni - 1)%nat by lia.
    rewrite IH. ring.
Qed.
Lemma seg_times_shift l : forall tc d, seg_times (tc + d) l = map (fun x => x + d) (seg_times tc l).
Proof.
  induction l as [|[ti ni] l IH]; intros tc d; cbn; auto. rewrite map_app. f_equal.
  - unfold linspace. rewrite Nat.add_comm. cbn [Nat.add seq map tl]. rewrite map_map. apply map_ext. intros i. replace (tc + d + ti - (tc + d)) with (tc + ti - tc) by ring. ring.
  - replace (tc + d + ti) with (tc + ti + d) by ring. apply IH.
Qed.
End Cycle.
