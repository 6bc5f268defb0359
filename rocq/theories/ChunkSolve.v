(** Correctness of the Thomas, PCR and hybrid solvers over an abstract block
    algebra. The laws are section hypotheses; ChunkInst.v discharges them. *)
From Coq Require Import List Arith Lia PeanoNat Bool.
Import ListNotations.
From Verif Require Import ChunkModel ChunkSpec ChunkPow2.

(** Algebraic laws used: [ns] is "non-singular block". *)
Record block_laws {M V} (ops : block_ops M V) (ns : M -> Prop) : Prop := {
  l_solve_act : forall A x, ns A -> bsolve ops A (bact ops A x) = x;
  l_act_solve : forall A v, ns A -> bact ops A (bsolve ops A v) = v;
  l_solve_add : forall A u v, ns A ->
     bsolve ops A (badd ops u v) = badd ops (bsolve ops A u) (bsolve ops A v);
  l_act_add : forall A u v, bact ops A (badd ops u v) = badd ops (bact ops A u) (bact ops A v);
  l_act_mul : forall A B x, bact ops (bmul ops A B) x = bact ops A (bact ops B x);
  l_act_solveM : forall A B x, ns A -> bact ops (bsolveM ops A B) x = bsolve ops A (bact ops B x);
  l_act_opp : forall A u x, bsub ops u (bact ops A x) = badd ops u (bact ops (bopp ops A) x);
  l_sub_add : forall u v, bsub ops (badd ops u v) v = u;
  l_add_sub : forall u v, badd ops (bsub ops u v) v = u;
  l_cancel : forall u v w, bsub ops (badd ops u v) (badd ops v w) = bsub ops u w
}.

(** [x] solves the block bidiagonal system with [n] rows. *)
Definition bidiag_solution {M V} (ops : block_ops M V) (n : nat) (A B : nat -> M)
    (b x : nat -> V) : Prop :=
  (0 < n -> bact ops (A 0) (x 0) = b 0) /\
  (forall i, S i < n ->
     badd ops (bact ops (A (S i)) (x (S i))) (bact ops (B i) (x i)) = b (S i)).

Section Proofs.
Context {M V : Type} (ops : block_ops M V) (ns : M -> Prop).
Hypothesis L : block_laws ops ns.

Notation act := (bact ops).
Notation solve := (bsolve ops).
Notation sub := (bsub ops).
Notation add := (badd ops).

(** ** Uniqueness *)
Lemma solution_unique n A B b x y :
  (forall i, i < n -> ns (A i)) ->
  bidiag_solution ops n A B b x -> bidiag_solution ops n A B b y ->
  forall i, i < n -> x i = y i.
Proof.
  intros HA [x0 xs] [y0 ys]. induction i as [|i IH]; intros Hi.
  - rewrite <- (l_solve_act _ _ L (A 0) (x 0)), <- (l_solve_act _ _ L (A 0) (y 0)) by auto.
    now rewrite x0, y0 by lia.
  - rewrite <- (l_solve_act _ _ L (A (S i)) (x (S i))),
            <- (l_solve_act _ _ L (A (S i)) (y (S i))) by auto.
    f_equal.
    rewrite <- (l_sub_add _ _ L (act (A (S i)) (x (S i))) (act (B i) (x i))), xs by lia.
    rewrite <- (l_sub_add _ _ L (act (A (S i)) (y (S i))) (act (B i) (y i))), ys by lia.
    now rewrite IH by lia.
Qed.

(** ** Thomas *)
Lemma upd_same {X} (f : nat -> X) l x : upd f l x l = x.
Proof. unfold upd. now rewrite Nat.eqb_refl. Qed.
Lemma upd_other {X} (f : nat -> X) l x j : j <> l -> upd f l x j = f j.
Proof. unfold upd. intros H. now apply Nat.eqb_neq in H as ->. Qed.

(** Running the Thomas loop from row [lo] when rows below are already solved
    (generic, also used for the tail of the hybrid solver). *)
Lemma thomas_loop n A B x : forall k lo v,
  0 < lo -> lo + k <= n -> (forall i, i < n -> ns (A i)) ->
  (forall j, j < lo -> v j = x j) ->
  (forall j, lo <= j < n -> v j = add (act (A j) (x j)) (act (B (j - 1)) (x (j - 1)))) ->
  let r := fold_left (thomas_step ops A B) (seq lo k) v in
  (forall j, j < lo + k -> r j = x j) /\ (forall j, lo + k <= j -> r j = v j).
Proof.
  induction k as [|k IH]; intros lo v Hlo Hn HA Hlow Hhi; simpl.
  - split; [intros j Hj; apply Hlow; lia|reflexivity].
  - set (v1 := thomas_step ops A B v lo).
    assert (E1 : v1 lo = x lo).
    { unfold v1, thomas_step. rewrite upd_same.
      rewrite Hhi, (Hlow (lo - 1)) by lia.
      rewrite (l_sub_add _ _ L). apply (l_solve_act _ _ L). apply HA. lia. }
    assert (E2 : forall j, j <> lo -> v1 j = v j).
    { intros j Hj. unfold v1, thomas_step. now apply upd_other. }
    destruct (IH (S lo) v1) as [R1 R2]; try lia; auto.
    + intros j Hj. destruct (Nat.eq_dec j lo) as [->|Hne]; [exact E1|].
      rewrite E2 by lia. apply Hlow. lia.
    + intros j Hj. rewrite E2 by lia. apply Hhi. lia.
    + split.
      * intros j Hj. apply R1. lia.
      * intros j Hj. rewrite R2 by lia. apply E2. lia.
Qed.

(** Thomas constructs a solution, so one always exists. *)
Lemma thomas_loop_solves n A B b : (forall i, i < n -> ns (A i)) ->
  forall k, S k <= n ->
  let r := fold_left (thomas_step ops A B) (seq 1 k) (upd b 0 (solve (A 0) (b 0))) in
  bidiag_solution ops (S k) A B b r /\ (forall j, S k <= j -> r j = b j).
Proof.
  intros HA. induction k as [|k IH]; intros Hk.
  - simpl. split; [split|].
    + intros _. rewrite upd_same. apply (l_act_solve _ _ L). apply HA; lia.
    + intros i Hi. lia.
    + intros j Hj. apply upd_other. lia.
  - rewrite seq_S, fold_left_app. cbn [fold_left].
    specialize (IH ltac:(lia)). cbv zeta in IH.
    set (r := fold_left _ (seq 1 k) _) in *. destruct IH as [[I0 I1] I2].
    unfold thomas_step at 1. cbv zeta.
    replace (1 + k) with (S k) by lia. replace (S k - 1) with k by lia.
    split; [split|].
    + intros _. rewrite upd_other by lia. apply I0. lia.
    + intros i Hi. destruct (Nat.eq_dec i k) as [->|Hne].
      * unfold thomas_step. replace (S k - 1) with k by lia.
        rewrite upd_same, upd_other by lia.
        rewrite (l_act_solve _ _ L) by (apply HA; lia).
        rewrite (l_add_sub _ _ L). apply I2. lia.
      * unfold thomas_step. rewrite !upd_other by lia. apply I1. lia.
    + intros j Hj. unfold thomas_step. rewrite upd_other by lia. apply I2. lia.
Qed.

Lemma thomas_correct n A B b : 0 < n -> (forall i, i < n -> ns (A i)) ->
  bidiag_solution ops n A B b (thomas_solve ops n A B b).
Proof.
  intros Hn HA. unfold thomas_solve.
  destruct (thomas_loop_solves n A B b HA (n - 1) ltac:(lia)) as [H _].
  now replace (S (n - 1)) with n in H by lia.
Qed.

(** ** Writes through views *)
Lemma in_pairs n0 n1 a b : In (a, b) (pairs n0 n1) <-> a < n0 /\ b < n1.
Proof.
  unfold pairs. rewrite in_flat_map. split.
  - intros (a' & Ha & Hb). apply in_map_iff in Hb as (b' & E & Hb).
    injection E as <- <-. rewrite in_seq in *. lia.
  - intros [Ha Hb]. exists a. rewrite in_seq. split; [lia|].
    apply in_map_iff. exists b. rewrite in_seq. split; [reflexivity|lia].
Qed.

Lemma fold_upd_out {X} (w : view) (rhs : nat -> nat -> X) j : forall l st,
  (forall a b, In (a, b) l -> vloc w a b <> j) ->
  fold_left (fun acc ab => upd acc (vloc w (fst ab) (snd ab)) (rhs (fst ab) (snd ab))) l st j = st j.
Proof.
  induction l as [|[a b] l IH]; intros st H; [reflexivity|].
  simpl. rewrite IH.
  - apply upd_other. intros ->. apply (H a b); [now left|reflexivity].
  - intros a' b' Hin. apply H. now right.
Qed.

Lemma vwrite_out {X} w (rhs : nat -> nat -> X) st j :
  (forall a b, a < vn0 w -> b < vn1 w -> vloc w a b <> j) -> vwrite w rhs st j = st j.
Proof.
  intros H. unfold vwrite. apply fold_upd_out.
  intros a b Hin. apply in_pairs in Hin as [Ha Hb]. now apply H.
Qed.

Lemma vwrite_in {X} w (rhs : nat -> nat -> X) st a b :
  (forall a1 b1 a2 b2, a1 < vn0 w -> b1 < vn1 w -> a2 < vn0 w -> b2 < vn1 w ->
      vloc w a1 b1 = vloc w a2 b2 -> a1 = a2 /\ b1 = b2) ->
  a < vn0 w -> b < vn1 w -> vwrite w rhs st (vloc w a b) = rhs a b.
Proof.
  intros Hinj Ha Hb. unfold vwrite.
  assert (Hin : In (a, b) (pairs (vn0 w) (vn1 w))) by now apply in_pairs.
  assert (Hall : forall a' b', In (a', b') (pairs (vn0 w) (vn1 w)) -> a' < vn0 w /\ b' < vn1 w)
    by (intros a' b' H'; now apply in_pairs).
  revert Hin Hall st. induction (pairs (vn0 w) (vn1 w)) as [|[a' b'] l IH]; intros Hin Hall st;
    [destruct Hin|].
  simpl. destruct (in_dec (fun x y : nat * nat => ltac:(decide equality; apply Nat.eq_dec))
                          (a, b) l) as [Hl|Hl].
  - apply IH; auto. intros a2 b2 H2. apply Hall. now right.
  - destruct Hin as [E|Hin]; [|contradiction]. injection E as -> ->.
    rewrite fold_upd_out; [apply upd_same|].
    intros a2 b2 H2 E. assert (H3 := Hall a2 b2 (or_intror H2)).
    destruct (Hinj a2 b2 a b) as [-> ->]; tauto.
Qed.

(** ** Reduction of one block *)
(** Normal form of the view after [i] shifts of a block of [2^m] rows. *)
Record is_view (m i s : nat) (w : view) : Prop := {
  iv_off : voff w = s;
  iv_n0 : vn0 w = 2 ^ i;
  iv_n1 : vn1 w = 2 ^ (m - i);
  iv_st1 : vst1 w = 2 ^ i;
  iv_st0 : 0 < i -> vst0 w = 1
}.

Lemma is_view_loc m i s w a b : is_view m i s w -> a < 2 ^ i ->
  vloc w a b = s + a + b * 2 ^ i.
Proof.
  intros [H1 H2 H3 H4 H5] Ha. unfold vloc. rewrite H1, H4.
  destruct i as [|i].
  - simpl in Ha. assert (a = 0) by lia. subst. lia.
  - rewrite H5 by lia. lia.
Qed.

Lemma slice_is_view m s : is_view m 0 s (slice_view s (s + 2 ^ m)).
Proof. constructor; simpl; try lia. rewrite Nat.sub_0_r. lia. Qed.

Lemma cyclic_is_view m i s w : is_view m i s w -> i < m -> is_view m (S i) s (cyclic_shift w i).
Proof.
  intros [H1 H2 H3 H4 H5] Hi. constructor; cbn [cyclic_shift voff vn0 vn1 vst0 vst1]; auto.
  - rewrite H2, Nat.pow_succ_r'. lia.
  - rewrite H3. replace (m - i) with (S (m - S i)) by lia.
    rewrite Nat.pow_succ_r', Nat.mul_comm. apply Nat.div_mul. lia.
  - now rewrite Nat.add_1_r.
Qed.

Lemma loc_inj p a1 b1 a2 b2 : a1 < p -> a2 < p ->
  a1 + b1 * p = a2 + b2 * p -> a1 = a2 /\ b1 = b2.
Proof.
  intros H1 H2 E. assert (b1 = b2).
  { destruct (Nat.lt_trichotomy b1 b2) as [H|[H|H]]; [|exact H|]; exfalso; nia. }
  subst. lia.
Qed.

Section OneBlock.
Variables (A : nat -> M) (x : nat -> V) (s m : nat).
Hypothesis HA : forall j, s <= j < s + 2 ^ m -> ns (A j).

(** Rows of the block after [i] reductions. *)
Definition reduced (i : nat) (B : nat -> M) (v : nat -> V) : Prop :=
  forall a b, a < 2 ^ i -> b < 2 ^ (m - i) ->
    let j := s + a + b * 2 ^ i in
    match b with
    | O => v j = act (A j) (x j)
    | S b' => v j = add (act (A j) (x j)) (act (B j) (x (s + a + b' * 2 ^ i)))
    end.

Lemma pow_split i : i < m -> 2 ^ (m - i) = 2 * 2 ^ (m - S i) /\ 2 ^ m = 2 ^ i * 2 ^ (m - i).
Proof.
  intros H. split.
  - replace (m - i) with (S (m - S i)) by lia. apply Nat.pow_succ_r'.
  - rewrite <- Nat.pow_add_r. f_equal. lia.
Qed.

Lemma in_block i a b : i <= m -> a < 2 ^ i -> b < 2 ^ (m - i) ->
  s <= s + a + b * 2 ^ i < s + 2 ^ m.
Proof.
  intros Hi Ha Hb. assert (2 ^ m = 2 ^ i * 2 ^ (m - i)).
  { rewrite <- Nat.pow_add_r. f_equal. lia. }
  nia.
Qed.

Lemma pcr_iter_spec i w B v : i < m -> is_view m i s w -> reduced i B v ->
  let '(w', B', v') := pcr_iter ops A i (w, B, v) in
  is_view m (S i) s w' /\ reduced (S i) B' v' /\
  (forall j, j <= s \/ s + 2 ^ m <= j -> B' j = B j /\ v' j = v j).
Proof.
  intros Hi Hw Hred. unfold pcr_iter.
  set (v1 := vwrite (vdrop 1 w) _ v). set (B1 := vwrite (vdrop 2 w) _ B).
  pose proof Hw as [Ho Hn0 Hn1 Hst1 Hst0].
  pose proof (Nat.pow_nonzero 2 i ltac:(lia)) as Hp.
  assert (Hloc : forall k a b, a < 2 ^ i -> vloc (vdrop k w) a b = s + a + (b + k) * 2 ^ i).
  { intros k a b Ha. unfold vloc, vdrop; simpl. rewrite Ho, Hst1.
    destruct i as [|i'].
    - simpl in Ha. assert (a = 0) by lia. subst. simpl. lia.
    - rewrite Hst0 by lia. lia. }
  assert (Hlocb : forall a b, a < 2 ^ i -> vloc (vbut1 w) a b = s + a + b * 2 ^ i).
  { intros a b Ha. change (vloc (vbut1 w) a b) with (vloc w a b). now apply is_view_loc with m. }
  assert (Hlocd : forall a b, a < 2 ^ i -> vloc (vbut1 (vdrop 1 w)) a b = s + a + (b + 1) * 2 ^ i).
  { intros a b Ha. change (vloc (vbut1 (vdrop 1 w)) a b) with (vloc (vdrop 1 w) a b). now apply Hloc. }
  assert (Hinj : forall k a1 b1 a2 b2, a1 < vn0 (vdrop k w) -> b1 < vn1 (vdrop k w) ->
      a2 < vn0 (vdrop k w) -> b2 < vn1 (vdrop k w) ->
      vloc (vdrop k w) a1 b1 = vloc (vdrop k w) a2 b2 -> a1 = a2 /\ b1 = b2).
  { intros k a1 b1 a2 b2 H1 _ H2 _ E. simpl in H1, H2. rewrite Hn0 in H1, H2.
    rewrite !Hloc in E by auto.
    destruct (loc_inj (2 ^ i) a1 (b1 + k) a2 (b2 + k)) as [E1 E2]; auto; try lia. }
  (* characterisation of v1 *)
  assert (V0 : forall a, a < 2 ^ i -> v1 (s + a) = v (s + a)).
  { intros a Ha. apply vwrite_out. simpl. rewrite Hn0. intros a' b' Ha' _ E.
    rewrite Hloc in E by auto.
    destruct (loc_inj (2 ^ i) a' (b' + 1) a 0) as [E1 E2]; auto; try lia. }
  assert (V1 : forall a b, a < 2 ^ i -> S b < 2 ^ (m - i) ->
     v1 (s + a + S b * 2 ^ i) =
     sub (v (s + a + S b * 2 ^ i))
         (act (B (s + a + S b * 2 ^ i))
              (solve (A (s + a + b * 2 ^ i)) (v (s + a + b * 2 ^ i))))).
  { intros a b Ha Hb. replace (s + a + S b * 2 ^ i) with (vloc (vdrop 1 w) a b).
    2:{ rewrite Hloc by auto. f_equal. f_equal. lia. }
    unfold v1. rewrite vwrite_in.
    - unfold vread. now rewrite Hlocb by auto.
    - apply Hinj.
    - simpl. now rewrite Hn0.
    - simpl. rewrite Hn1. lia. }
  assert (B2 : forall a b, a < 2 ^ i -> S (S b) < 2 ^ (m - i) ->
     B1 (s + a + S (S b) * 2 ^ i) =
     bopp ops (bmul ops (B (s + a + S (S b) * 2 ^ i))
         (bsolveM ops (A (s + a + S b * 2 ^ i)) (B (s + a + S b * 2 ^ i))))).
  { intros a b Ha Hb. replace (s + a + S (S b) * 2 ^ i) with (vloc (vdrop 2 w) a b).
    2:{ rewrite Hloc by auto. f_equal. f_equal. lia. }
    unfold B1. rewrite vwrite_in.
    - unfold vread. rewrite !Hlocd by auto.
      replace (b + 1) with (S b) by lia. reflexivity.
    - apply Hinj.
    - simpl. now rewrite Hn0.
    - simpl. rewrite Hn1. lia. }
  destruct (pow_split i Hi) as [Hs1 Hs2].
  split; [now apply cyclic_is_view|]. split.
  - intros a' b' Ha' Hb'.
    rewrite Nat.pow_succ_r' in Ha'.
    (* split a' = a + c 2^i *)
    set (c := a' / 2 ^ i). set (a := a' mod 2 ^ i).
    assert (Ea : a' = a + c * 2 ^ i)
      by (unfold a, c; rewrite Nat.mul_comm, Nat.add_comm; now apply Nat.div_mod).
    assert (Ha : a < 2 ^ i) by (unfold a; now apply Nat.mod_upper_bound).
    assert (Hc : c < 2) by (unfold c; apply Nat.div_lt_upper_bound; lia).
    assert (Ej : forall b0, s + a' + b0 * 2 ^ S i = s + a + (c + 2 * b0) * 2 ^ i).
    { intros b0. rewrite Nat.pow_succ_r', Ea. ring. }
    clearbody a c. cbv zeta.
    destruct b' as [|b'].
    + (* decoupled rows *)
      rewrite Ej, Nat.mul_0_r, Nat.add_0_r.
      destruct c as [|[|c']]; [| |lia].
      * rewrite Nat.mul_0_l, Nat.add_0_r. rewrite V0 by auto.
        assert (R := Hred a 0 Ha ltac:(lia)). cbv zeta in R.
        now rewrite Nat.mul_0_l, Nat.add_0_r in R.
      * assert (Hlt1 : 1 < 2 ^ (m - i)) by lia.
        assert (R1 := Hred a 1 Ha Hlt1). cbv zeta in R1.
        assert (R0 := Hred a 0 Ha ltac:(lia)). cbv zeta in R0.
        rewrite (V1 a 0 Ha Hlt1), R1, R0.
        rewrite (l_solve_act _ _ L); [apply (l_sub_add _ _ L)|].
        apply HA. apply in_block; auto; lia.
    + (* still coupled rows *)
      rewrite !Ej.
      assert (Hb : c + 2 * S b' < 2 ^ (m - i)) by lia.
      replace (c + 2 * S b') with (S (S (c + 2 * b'))) in * by lia.
      set (b := c + 2 * b') in *.
      assert (R2 := Hred a (S (S b)) Ha Hb). cbv zeta in R2. cbn [Nat.sub] in R2.
      assert (R1 := Hred a (S b) Ha ltac:(lia)). cbv zeta in R1.
      rewrite (V1 a (S b) Ha Hb), (B2 a b Ha Hb), R2, R1.
      assert (HnA : ns (A (s + a + S b * 2 ^ i))) by (apply HA, in_block; auto; lia).
      rewrite (l_solve_add _ _ L), (l_solve_act _ _ L), (l_act_add _ _ L) by auto.
      rewrite (l_cancel _ _ L).
      rewrite <- (l_act_opp _ _ L), (l_act_mul _ _ L), (l_act_solveM _ _ L) by auto.
      reflexivity.
  - intros j Hj.
    assert (Hout : forall k a b, k = 1 \/ k = 2 -> a < vn0 (vdrop k w) -> b < vn1 (vdrop k w) ->
                   vloc (vdrop k w) a b <> j).
    { intros k a b Hk Ha Hb. simpl in Ha, Hb. rewrite Hn0 in Ha. rewrite Hn1 in Hb.
      rewrite Hloc by auto.
      assert (Hbb : b + k < 2 ^ (m - i)) by lia.
      pose proof (in_block i a (b + k) ltac:(lia) Ha Hbb) as Hin.
      destruct Hj as [Hj|Hj]; [|lia]. destruct Hk; subst k; nia. }
    split; apply vwrite_out; intros a b; apply Hout; auto.
Qed.

Lemma pcr_iters_spec : forall k i w B v, i + k = m -> is_view m i s w -> reduced i B v ->
  let '(w', B', v') := fold_left (fun st i => pcr_iter ops A i st) (seq i k) (w, B, v) in
  reduced m B' v' /\
  (forall j, j <= s \/ s + 2 ^ m <= j -> B' j = B j /\ v' j = v j).
Proof.
  induction k as [|k IH]; intros i w B v Hik Hw Hred.
  - simpl. split; auto. assert (i = m) by lia. subst i. exact Hred.
  - cbn [seq fold_left].
    pose proof (pcr_iter_spec i w B v ltac:(lia) Hw Hred) as Hstep.
    destruct (pcr_iter ops A i (w, B, v)) as [[w1 B1] v1].
    destruct Hstep as (Hw1 & Hr1 & Hout1).
    specialize (IH (S i) w1 B1 v1 ltac:(lia) Hw1 Hr1).
    destruct (fold_left _ _ _) as [[w2 B2] v2].
    destruct IH as [Hr2 Hout2]. split; [exact Hr2|].
    intros j Hj. destruct (Hout1 j Hj) as [E1 E2]. destruct (Hout2 j Hj) as [E3 E4].
    split; congruence.
Qed.

(** If the first row is decoupled and all others are coupled to their
    predecessor, after [_solve_block] all rows are decoupled. *)
Lemma pcr_solve_block_spec B v :
  v s = act (A s) (x s) ->
  (forall j, s < j < s + 2 ^ m -> v j = add (act (A j) (x j)) (act (B j) (x (j - 1)))) ->
  let '(B', v') := pcr_solve_block ops A s (s + 2 ^ m) (B, v) in
  (forall j, s <= j < s + 2 ^ m -> v' j = act (A j) (x j)) /\
  (forall j, j <= s \/ s + 2 ^ m <= j -> B' j = B j /\ v' j = v j).
Proof.
  intros H0 H1. unfold pcr_solve_block.
  replace (s + 2 ^ m - s) with (2 ^ m) by lia.
  rewrite Nat.log2_pow2 by lia.
  pose proof (pcr_iters_spec m 0 (slice_view s (s + 2 ^ m)) B v eq_refl (slice_is_view m s)) as H.
  destruct (fold_left _ _ _) as [[w' B'] v'].
  destruct H as [Hr Hout].
  - intros a b Ha Hb. simpl in Ha. assert (a = 0) by lia. subst a.
    rewrite Nat.sub_0_r in Hb. cbv zeta. change (2 ^ 0) with 1.
    destruct b as [|b].
    + replace (s + 0 + 0 * 1) with s by lia. exact H0.
    + rewrite H1 by lia. replace (s + 0 + S b * 1 - 1) with (s + 0 + b * 1) by lia.
      reflexivity.
  - split; [|exact Hout].
    intros j Hj. specialize (Hr (j - s) 0). cbv zeta in Hr.
    rewrite Nat.mul_0_l, Nat.add_0_r in Hr. replace (s + (j - s)) with j in Hr by lia.
    apply Hr; [lia|]. rewrite Nat.sub_diag. simpl. lia.
Qed.
End OneBlock.

(** ** Sweep over the schedule *)
(** State when rows [< d] are decoupled and the rest are as in the original
    (padded) system. *)
Definition sweep_inv (n : nat) (A Bp0 : nat -> M) (x : nat -> V) (d : nat)
           (B : nat -> M) (v : nat -> V) : Prop :=
  (forall j, j < d -> v j = act (A j) (x j)) /\
  (forall j, d <= j < n -> v j = add (act (A j) (x j)) (act (Bp0 j) (x (j - 1)))) /\
  (forall j, d <= j -> B j = Bp0 j).

(** One block that begins at an already decoupled row. *)
Lemma sweep_step n A Bp0 x s m B v :
  (forall j, j < n -> ns (A j)) -> s + 2 ^ m <= n ->
  sweep_inv n A Bp0 x (S s) B v ->
  let '(B', v') := pcr_solve_block ops A s (s + 2 ^ m) (B, v) in
  sweep_inv n A Bp0 x (s + 2 ^ m) B' v'.
Proof.
  intros HA Hn (I1 & I2 & I3).
  pose proof (pcr_solve_block_spec A x s m ltac:(intros j Hj; apply HA; lia) B v) as H.
  destruct (pcr_solve_block _ _ _ _ _) as [B' v'].
  destruct H as [H1 H2].
  - apply I1. lia.
  - intros j Hj. rewrite I2, I3 by lia. reflexivity.
  - pose proof (Nat.pow_nonzero 2 m ltac:(lia)).
    split; [|split].
    + intros j Hj. destruct (Nat.le_gt_cases s j) as [Hs|Hs]; [apply H1; lia|].
      destruct (H2 j ltac:(lia)) as [_ ->]. apply I1. lia.
    + intros j Hj. destruct (H2 j ltac:(lia)) as [_ ->]. apply I2. lia.
    + intros j Hj. destruct (H2 j ltac:(lia)) as [-> _]. apply I3. lia.
Qed.

Lemma last_cons_indep {X} (a d d' : X) l : last (a :: l) d = last (a :: l) d'.
Proof. revert a. induction l as [|b l IH]; intros a; [reflexivity|]. apply (IH b). Qed.

(** Decoupled prefix after processing a chain of ranges. *)
Lemma sweep_chain n A Bp0 x : (forall j, j < n -> ns (A j)) ->
  forall l s, chain n s l -> forall k B v, k <= length l ->
  sweep_inv n A Bp0 x (S s) B v ->
  let '(B', v') := pcr_sweep ops A (firstn k l) (B, v) in
  sweep_inv n A Bp0 x (last (map snd (firstn k l)) (S s)) B' v'.
Proof.
  intros HA. induction 1 as [s H1 H2|s l H1 H2 Hc IH]; intros k B v Hk Hinv.
  - destruct k as [|[|k]]; simpl in Hk; [exact Hinv| |lia].
    simpl. unfold pcr_sweep; simpl.
    pose proof (sweep_step n A Bp0 x s (Nat.log2 (n - s)) B v HA) as H.
    fold (sz (n - s)) in H. rewrite H2 in H. apply H; [lia|exact Hinv].
  - destruct k as [|k]; [exact Hinv|]. simpl in Hk.
    cbn [firstn]. unfold pcr_sweep. cbn [fold_left fst snd].
    pose proof (sweep_step n A Bp0 x s (Nat.log2 (n - s)) B v HA) as H.
    fold (sz (n - s)) in H. specialize (H ltac:(lia) Hinv).
    destruct (pcr_solve_block ops A s (s + sz (n - s)) (B, v)) as [B1 v1].
    pose proof (sz_pos (n - s)) as Hsz.
    specialize (IH k B1 v1 ltac:(lia)).
    replace (S (s + sz (n - s) - 1)) with (s + sz (n - s)) in IH by lia.
    specialize (IH H). unfold pcr_sweep in IH.
    destruct (fold_left _ _ _) as [B2 v2].
    cbn [map snd]. destruct (firstn k l) as [|p q] eqn:E; [exact IH|].
    cbn [map] in IH |- *. rewrite (last_cons_indep _ _ (s + sz (n - s))). exact IH.
Qed.

Lemma init_inv n A B b x : 0 < n -> bidiag_solution ops n A B b x ->
  sweep_inv n A (pad_front ops B) x 1 (pad_front ops B) b.
Proof.
  intros Hn [H0 H1]. split; [|split].
  - intros j Hj. assert (j = 0) by lia. subst. symmetry. now apply H0.
  - intros [|j] Hj; [lia|]. simpl. rewrite Nat.sub_0_r. symmetry. apply H1. lia.
  - reflexivity.
Qed.

Lemma pcr_matvec_spec n A B b x : (forall j, j < n -> ns (A j)) -> 0 < n ->
  bidiag_solution ops n A B b x ->
  exists r B', pcr_matvec ops n A B b = Some (r, B') /\ forall j, j < n -> r j = x j.
Proof.
  intros HA Hn Hx. destruct (pow2_chain n Hn) as (l & E & Hc).
  unfold pcr_matvec. rewrite E, combine_fst_snd.
  pose proof (sweep_chain n A (pad_front ops B) x HA l 0 Hc (length l)
                (pad_front ops B) b (le_n _) (init_inv n A B b x Hn Hx)) as H.
  rewrite firstn_all in H.
  destruct (pcr_sweep ops A l (pad_front ops B, b)) as [Bp v'].
  do 2 eexists. split; [reflexivity|].
  replace (last (map snd l) 1) with n in H.
  2:{ pose proof (chain_last_end _ _ _ Hc) as Hl.
      pose proof (chain_nonempty _ _ _ Hc) as Hne.
      destruct l as [|p l]; [easy|]. simpl map in *. rewrite <- Hl.
      generalize (snd p) as q. clear. induction (map snd l) as [|y ys IH]; intros q; [reflexivity|].
      cbn [last] in *. apply (IH y). }
  destruct H as [H _]. intros j Hj. unfold slice_write.
  assert (Hb : andb (0 <=? j) (j <? n) = true).
  { apply andb_true_iff. split; [apply Nat.leb_le; lia|now apply Nat.ltb_lt]. }
  rewrite Hb, H by auto. apply (l_solve_act _ _ L). now apply HA.
Qed.

Lemma firstn_map {X Y} (f : X -> Y) k l : firstn k (map f l) = map f (firstn k l).
Proof. revert l. induction k as [|k IH]; intros [|y l]; simpl; congruence. Qed.

Lemma hybrid_tail n A B x lst Bp v' :
  (forall j, j < n -> ns (A j)) -> 0 < lst <= n ->
  sweep_inv n A (pad_front ops B) x lst Bp v' ->
  forall j, j < n ->
  fold_left (thomas_step ops A (fun k => Bp (S k))) (seq lst (n - lst))
    (slice_write 0 lst (fun k => solve (A k) (v' k)) v') j = x j.
Proof.
  intros HA Hl (I1 & I2 & I3) j Hj.
  edestruct (thomas_loop n A (fun k => Bp (S k)) x (n - lst) lst) as [H _].
  6:{ apply H. lia. }
  - lia.
  - lia.
  - exact HA.
  - intros k Hk. unfold slice_write.
    assert (Hb : andb (0 <=? k) (k <? lst) = true).
    { apply andb_true_iff. split; [apply Nat.leb_le; lia|now apply Nat.ltb_lt]. }
    rewrite Hb, I1 by auto. apply (l_solve_act _ _ L). apply HA. lia.
  - intros k Hk. unfold slice_write.
    assert (Hb : andb (0 <=? k) (k <? lst) = false).
    { apply andb_false_iff. right. apply Nat.ltb_ge. lia. }
    rewrite Hb, I2 by lia. replace (S (k - 1)) with k by lia. now rewrite I3 by lia.
Qed.

Lemma hybrid_matvec_spec k n A B b x : (forall j, j < n -> ns (A j)) -> 0 < n ->
  bidiag_solution ops n A B b x ->
  exists r B', hybrid_matvec ops k n A B b = Some (r, B') /\ forall j, j < n -> r j = x j.
Proof.
  intros HA Hn Hx. destruct (pow2_chain n Hn) as (l & E & Hc).
  unfold hybrid_matvec, pcr_blocks. rewrite E, combine_fst_snd.
  destruct (Nat.ltb_spec (hd 0 (map (fun p => snd p - fst p) l)) (k + 1)) as [Hlt|Hge].
  - unfold pcr_sweep; simpl combine; cbn [fold_left].
    do 2 eexists. split; [reflexivity|].
    apply hybrid_tail with B; [exact HA|lia|]. now apply init_inv with (b := b).
  - set (il := find_first _ _).
    rewrite !firstn_map, combine_fst_snd.
    destruct (find_first_spec (fun j => j <? k + 1) (map (fun p => snd p - fst p) l))
      as (F1 & F2 & F3). fold il in F1, F2, F3. rewrite map_length in F1, F3.
    assert (Hil : 0 < il).
    { destruct (Nat.eq_dec il 0) as [Hz|Hz]; [exfalso|lia].
      destruct (chain_hd _ _ _ Hc) as [r ->]. rewrite Hz in F3. simpl in F3, Hge.
      specialize (F3 ltac:(lia)). apply Nat.ltb_lt in F3. lia. }
    pose proof (sweep_chain n A (pad_front ops B) x HA l 0 Hc il
                  (pad_front ops B) b F1 (init_inv n A B b x Hn Hx)) as H.
    destruct (pcr_sweep ops A (firstn il l) (pad_front ops B, b)) as [Bp v'].
    do 2 eexists. split; [reflexivity|].
    assert (Hlast : last (map snd (firstn il l)) 1 = last (map snd (firstn il l)) 0).
    { destruct (chain_hd _ _ _ Hc) as [r ->]. destruct il as [|il']; [lia|].
      cbn [firstn map]. apply last_cons_indep. }
    rewrite Hlast in H.
    apply hybrid_tail with B; [exact HA| |exact H].
    (* bounds on last *)
    assert (Hin : In (last (map snd (firstn il l)) 0) (map snd l)).
    { destruct (chain_hd _ _ _ Hc) as [r Hr]. rewrite Hr in *. destruct il as [|il']; [lia|].
      cbn [firstn map].
      assert (Hgen : forall (q : nat) ys, In (last (q :: ys) 0) (q :: ys)).
      { clear. intros q ys. revert q. induction ys as [|y ys IH]; intros q; [now left|].
        right. apply (IH y). }
      specialize (Hgen (snd (0, 0 + sz (n - 0))) (map snd (firstn il' r))).
      destruct Hgen as [Hg|Hg]; [left; exact Hg|right].
      apply in_map_iff in Hg as (p & Ep & Hp). apply in_map_iff. exists p. split; [exact Ep|].
      rewrite <- (firstn_skipn il' r). apply in_or_app. now left. }
    apply In_nth with (d := 0) in Hin as (q & Hq & Eq). rewrite map_length in Hq.
    destruct (chain_greedy _ _ _ Hc q Hq) as [G1 G2]. rewrite <- Eq, G2.
    pose proof (sz_pos (n - nth q (map fst l) 0)).
    pose proof (sz_bounds (n - nth q (map fst l) 0) ltac:(lia)). lia.
Qed.

(** All direct methods return the solution of the system. *)
Lemma matvec_spec mth n A B b : (forall j, j < n -> ns (A j)) -> 0 < n ->
  exists r B', matvec ops mth n A B b = Some (r, B') /\ bidiag_solution ops n A B b r.
Proof.
  intros HA Hn. pose proof (thomas_correct n A B b Hn HA) as HT.
  assert (Htr : forall r, (forall j, j < n -> r j = thomas_solve ops n A B b j) ->
                bidiag_solution ops n A B b r).
  { intros r Hr. destruct HT as [T0 T1]. split.
    - intros _. rewrite Hr by lia. now apply T0.
    - intros i Hi. rewrite !Hr by lia. now apply T1. }
  destruct mth as [| |k]; simpl.
  - do 2 eexists; split; [reflexivity|exact HT].
  - destruct (pcr_matvec_spec n A B b _ HA Hn HT) as (r & B' & E & H). eauto.
  - destruct (hybrid_matvec_spec k n A B b _ HA Hn HT) as (r & B' & E & H). eauto.
Qed.

(** What PCR leaves in self.B for four blocks (any block algebra). *)
Lemma pcr4_B A B v : exists r B', pcr_matvec ops 4 A B v = Some (r, B') /\
  B' 0 = B 0 /\
  B' 1 = bopp ops (bmul ops (B 1) (bsolveM ops (A 1) (B 0))) /\
  B' 2 = bopp ops (bmul ops (B 2) (bsolveM ops (A 2) (B 1))).
Proof. do 2 eexists. repeat split; reflexivity. Qed.

Lemma hybrid4_B A B v : exists r B', hybrid_matvec ops 0 4 A B v = Some (r, B') /\
  B' 0 = B 0 /\
  B' 1 = bopp ops (bmul ops (B 1) (bsolveM ops (A 1) (B 0))) /\
  B' 2 = bopp ops (bmul ops (B 2) (bsolveM ops (A 2) (B 1))).
Proof. do 2 eexists. repeat split; reflexivity. Qed.

(** Forward operator. *)
Lemma forward_solution n A B v : bidiag_solution ops n A B (forward_blocks ops A B v) v.
Proof. split; reflexivity. Qed.

(** The hybrid uses PCR exactly on the leading ranges longer than min_size. *)
Lemma pcr_blocks_spec k n st fn lst : pcr_blocks k n = Some (st, fn, lst) ->
  exists s e, pow2 n = Some (s, e) /\
  (exists c, st = firstn c s /\ fn = firstn c e /\ c <= length s /\
     (forall i, i < c -> k < nth i e 0 - nth i s 0) /\
     (forall i, c <= i < length s -> nth i e 0 - nth i s 0 <= k) /\
     lst = last (1 :: fn) 0).
Proof.
  unfold pcr_blocks. destruct (pow2 n) as [[s e]|] eqn:E; [|discriminate].
  intros H. exists s, e. split; [reflexivity|].
  pose proof (pow2_schedule_ok _ _ _ E) as [O1 O2 O3 O4 O5 O6 O7 O8].
  assert (Hn : forall i, i < length s ->
     nth i (map (fun p => snd p - fst p) (combine s e)) 0 = nth i e 0 - nth i s 0).
  { intros i Hi.
    change 0 with ((fun p : nat * nat => snd p - fst p) (0,0)) at 1.
    rewrite map_nth, combine_nth by auto. reflexivity. }
  set (bs := map (fun p => snd p - fst p) (combine s e)) in *.
  assert (Lbs : length bs = length s) by (unfold bs; rewrite map_length, combine_length; lia).
  destruct (find_first_spec (fun j => j <? k + 1) bs) as (F1 & F2 & F3).
  set (il := find_first (fun j => j <? k + 1) bs) in *.
  assert (Hhd : hd 0 bs = nth 0 bs 0) by (destruct bs; reflexivity).
  destruct (Nat.ltb_spec (hd 0 bs) (k + 1)) as [Hlt|Hge].
  - injection H as <- <- <-. exists 0. repeat split; try lia.
    intros i Hi. rewrite Hhd, Hn in Hlt by lia.
    pose proof (O8 0 i ltac:(lia)). lia.
  - injection H as <- <- <-. exists il.
    repeat split; try lia.
    + intros i Hi. specialize (F2 i Hi). rewrite Hn in F2 by lia.
      apply Nat.ltb_ge in F2. lia.
    + intros i Hi. assert (Hil : il < length bs) by lia. specialize (F3 Hil).
      rewrite Hn in F3 by lia. apply Nat.ltb_lt in F3.
      pose proof (O8 il i ltac:(lia)). lia.
    + destruct il as [|il'] eqn:Ei.
      * exfalso. rewrite Hhd in Hge. specialize (F3 ltac:(lia)). apply Nat.ltb_lt in F3. lia.
      * destruct e as [|e0 e]; [simpl in *; lia|]. cbn [firstn]. 
        cbn [last]. reflexivity.
Qed.

(** Thomas leaves its data alone, so it can be applied repeatedly. *)
Lemma thomas_seq n A B vs : 0 < n -> (forall j, j < n -> ns (A j)) ->
  exists xs, matvec_seq ops Thomas n A B vs = Some xs /\
             Forall2 (fun v x => bidiag_solution ops n A B v x) vs xs.
Proof.
  intros Hn HA. induction vs as [|v vs (xs & E & H)]; simpl.
  - eauto.
  - simpl in E. rewrite E. eexists; split; [reflexivity|]. constructor; auto.
    now apply thomas_correct.
Qed.

End Proofs.
