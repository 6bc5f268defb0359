(** Writing blocks into slices, as SuperimposedKinematicHardening
    (hardening.py 1140-1311) and SuperimposedFlowRule (flowrules.py) do:
      offsets = [0] + list(np.cumsum(nhist_per))[:-1]
      for o, n, model in zip(offsets, nhist_per, models):
          res[..., o : o + n] = ...
    Vectors are functions [nat -> R]; only entries below the size matter. *)
From Coq Require Import Reals Lra Lia List Arith Bool.
From Verif Require Import Torch Deriv.
Import ListNotations.
Local Open Scope bool_scope.
Local Open Scope R_scope.

Definition vec := nat -> R.
Definition mat := nat -> nat -> R.
Definition vzero : vec := fun _ => 0.
Definition mzero : mat := fun _ _ => 0.

(** h[..., o:] or h[..., o:o+n] *)
Definition slice (o : nat) (h : vec) : vec := fun i => h (o + i)%nat.
(** torch.cat([a, b], -1) with a of size n *)
Definition cat (n : nat) (a b : vec) : vec := fun i => if i <? n then a i else b (i - n)%nat.
(** res[o:o+n] = w *)
Definition assign (o n : nat) (w acc : vec) : vec :=
  fun i => if (o <=? i) && (i <? o + n) then w (i - o)%nat else acc i.
(** res[o:o+n, o:o+n] = W *)
Definition assign2 (o n : nat) (W acc : mat) : mat :=
  fun i j => if (o <=? i) && (i <? o + n) && ((o <=? j) && (j <? o + n)) then W (i - o)%nat (j - o)%nat else acc i j.

(** np.cumsum *)
Fixpoint cumsum (a : nat) (ns : list nat) : list nat :=
  match ns with [] => [] | n :: r => (a + n)%nat :: cumsum (a + n) r end.
(** [0] + list(np.cumsum(ns))[:-1], hardening.py 1155, flowrules.py 962 *)
Definition offsets (ns : list nat) : list nat := 0%nat :: removelast (cumsum 0 ns).
(** sum(ns) *)
Definition total (ns : list nat) : nat := fold_left Nat.add ns 0%nat.

(** The loops, over items (o, n, x). *)
Section Loops.
Context {M : Type} (nh : M -> nat).
Definition items (ms : list M) : list (nat * M) := combine (offsets (map nh ms)) ms.
Definition loop_add (f : nat -> M -> R) (ms : list M) : R :=
  fold_left (fun v p => v + f (fst p) (snd p)) (items ms) 0.
Definition loop_assign (f : nat -> M -> vec) (ms : list M) : vec :=
  fold_left (fun acc p => assign (fst p) (nh (snd p)) (f (fst p) (snd p)) acc) (items ms) vzero.
Definition loop_assign2 (f : nat -> M -> mat) (ms : list M) : mat :=
  fold_left (fun acc p => assign2 (fst p) (nh (snd p)) (f (fst p) (snd p)) acc) (items ms) mzero.

(** Specification: block k occupies [off k, off k + n_k). *)
Definition off (ms : list M) (k : nat) : nat := list_sum (map nh (firstn k ms)).
Definition size (ms : list M) : nat := list_sum (map nh ms).

Fixpoint items_from (o : nat) (ms : list M) : list (nat * M) :=
  match ms with [] => [] | m :: r => (o, m) :: items_from (o + nh m) r end.

Lemma combine_cumsum o ms : combine (o :: removelast (cumsum o (map nh ms))) ms = items_from o ms.
Proof.
  revert o. induction ms as [|m r IH]; intros o; [reflexivity|].
  cbn [map cumsum items_from]. destruct r as [|m' r'].
  - reflexivity.
  - rewrite <- IH. cbn [map cumsum removelast combine]. reflexivity.
Qed.
Lemma items_eq ms : items ms = items_from 0 ms.
Proof. apply combine_cumsum. Qed.

Lemma total_sum ns : total ns = list_sum ns.
Proof. unfold total, list_sum. apply fold_symmetric; intros; lia. Qed.

(** Recursive forms. *)
Fixpoint rec_add (f : nat -> M -> R) (o : nat) (ms : list M) : R :=
  match ms with [] => 0 | m :: r => f o m + rec_add f (o + nh m) r end.
Fixpoint rec_assign (f : nat -> M -> vec) (o : nat) (ms : list M) : vec :=
  match ms with [] => vzero | m :: r => cat (nh m) (f o m) (rec_assign f (o + nh m) r) end.
Definition cat2 (n : nat) (A B : mat) : mat :=
  fun i j => if i <? n then (if j <? n then A i j else 0) else (if j <? n then 0 else B (i - n)%nat (j - n)%nat).
Fixpoint rec_assign2 (f : nat -> M -> mat) (o : nat) (ms : list M) : mat :=
  match ms with [] => mzero | m :: r => cat2 (nh m) (f o m) (rec_assign2 f (o + nh m) r) end.

Lemma loop_add_rec f ms : loop_add f ms = rec_add f 0 ms.
Proof.
  unfold loop_add. rewrite items_eq. enough (G : forall ms o v,
    fold_left (fun v p => v + f (fst p) (snd p)) (items_from o ms) v = v + rec_add f o ms) by (rewrite G; ring).
  induction ms0 as [|m r IH]; intros o v; simpl; [ring|]. rewrite IH. ring.
Qed.
Lemma assign_lookup f ms : forall o acc i,
  fold_left (fun acc p => assign (fst p) (nh (snd p)) (f (fst p) (snd p)) acc) (items_from o ms) acc i
  = if (o <=? i) && (i <? o + size ms) then rec_assign f o ms (i - o)%nat else acc i.
Proof.
  induction ms as [|m r IH]; intros o acc i.
  - cbn [items_from fold_left]. unfold size. simpl. destruct (Nat.leb_spec o i); destruct (Nat.ltb_spec i (o + 0)); cbn; auto. lia.
  - cbn [items_from fold_left]. rewrite IH. cbn [fst snd rec_assign]. unfold size. cbn [map].
    rewrite (eq_refl : list_sum (nh m :: map nh r) = (nh m + list_sum (map nh r))%nat). fold (size r).
    unfold assign, cat.
    destruct (Nat.leb_spec (o + nh m) i); destruct (Nat.ltb_spec i (o + nh m + size r)); destruct (Nat.leb_spec o i);
      destruct (Nat.ltb_spec i (o + nh m)); destruct (Nat.ltb_spec i (o + (nh m + size r))); destruct (Nat.ltb_spec (i - o) (nh m));
      cbn; try lia; auto. f_equal. lia.
Qed.
Lemma loop_assign_rec f ms i : (i < size ms)%nat -> loop_assign f ms i = rec_assign f 0 ms i.
Proof.
  intros H. unfold loop_assign. rewrite items_eq, assign_lookup.
  destruct (Nat.leb_spec 0 i); destruct (Nat.ltb_spec i (0 + size ms)); cbn; try lia. f_equal. lia.
Qed.
Lemma assign2_lookup f ms : forall o acc i j,
  fold_left (fun acc p => assign2 (fst p) (nh (snd p)) (f (fst p) (snd p)) acc) (items_from o ms) acc i j
  = if (o <=? i) && (i <? o + size ms) && ((o <=? j) && (j <? o + size ms)) then
      (if existsb (fun p => (fst p <=? i) && (i <? fst p + nh (snd p)) && ((fst p <=? j) && (j <? fst p + nh (snd p)))) (items_from o ms)
       then rec_assign2 f o ms (i - o)%nat (j - o)%nat else acc i j)
    else acc i j.
Proof.
  induction ms as [|m r IH]; intros o acc i j.
  - cbn [items_from fold_left existsb]. destruct (_ && _); auto.
  - cbn [items_from fold_left existsb fst snd]. rewrite IH. cbn [rec_assign2]. unfold size. cbn [map].
    rewrite (eq_refl : list_sum (nh m :: map nh r) = (nh m + list_sum (map nh r))%nat). fold (size r).
    unfold assign2, cat2.
    assert (EX : existsb (fun p => (fst p <=? i) && (i <? fst p + nh (snd p)) && ((fst p <=? j) && (j <? fst p + nh (snd p)))) (items_from (o + nh m) r) = true ->
       (o + nh m <= i)%nat /\ (o + nh m <= j)%nat /\ (i < o + nh m + size r)%nat /\ (j < o + nh m + size r)%nat).
    { clear. revert o. generalize (nh m). induction r as [|m' r IH]; intros n o; cbn [items_from existsb]; [discriminate|].
      intros H. unfold size in *. cbn [map]. rewrite (eq_refl : list_sum (nh m' :: map nh r) = (nh m' + list_sum (map nh r))%nat).
      apply Bool.orb_prop in H. destruct H as [H|H].
      - cbn [fst snd] in H. repeat (apply andb_prop in H; destruct H as [H ?H]).
        repeat match goal with H : _ && _ = true |- _ => apply andb_prop in H; destruct H end.
        repeat match goal with H : (_ <=? _) = true |- _ => apply Nat.leb_le in H | H : (_ <? _) = true |- _ => apply Nat.ltb_lt in H end. lia.
      - specialize (IH (nh m') (o + n)%nat H). lia. }
    destruct (existsb _ _) eqn:E.
    + destruct (EX eq_refl) as (H1 & H2 & H3 & H4).
      destruct (Nat.leb_spec (o + nh m) i); destruct (Nat.ltb_spec i (o + nh m + size r)); try lia.
      destruct (Nat.leb_spec (o + nh m) j); destruct (Nat.ltb_spec j (o + nh m + size r)); try lia.
      destruct (Nat.leb_spec o i); destruct (Nat.ltb_spec i (o + (nh m + size r))); try lia.
      destruct (Nat.leb_spec o j); destruct (Nat.ltb_spec j (o + (nh m + size r))); try lia.
      rewrite Bool.orb_true_r. cbn [andb].
      destruct (Nat.ltb_spec (i - o) (nh m)); try lia. destruct (Nat.ltb_spec (j - o) (nh m)); try lia.
      f_equal; lia.
    + clear EX.
      replace (if (o + nh m <=? i) && (i <? o + nh m + size r) && ((o + nh m <=? j) && (j <? o + nh m + size r)) then
         if (o <=? i) && (i <? o + nh m) && ((o <=? j) && (j <? o + nh m)) then f o m (i - o)%nat (j - o)%nat else acc i j
         else if (o <=? i) && (i <? o + nh m) && ((o <=? j) && (j <? o + nh m)) then f o m (i - o)%nat (j - o)%nat else acc i j)
       with (if (o <=? i) && (i <? o + nh m) && ((o <=? j) && (j <? o + nh m)) then f o m (i - o)%nat (j - o)%nat else acc i j)
        by (now destruct (_ && _ && (_ && (j <? o + nh m + size r)))).
      rewrite Bool.orb_false_r.
      destruct ((o <=? i) && (i <? o + nh m) && ((o <=? j) && (j <? o + nh m))) eqn:B.
      * repeat match goal with H : _ && _ = true |- _ => apply andb_prop in H; destruct H end.
        repeat match goal with H : (_ <=? _) = true |- _ => apply Nat.leb_le in H | H : (_ <? _) = true |- _ => apply Nat.ltb_lt in H end.
        destruct (Nat.leb_spec o i); destruct (Nat.ltb_spec i (o + (nh m + size r))); try lia.
        destruct (Nat.leb_spec o j); destruct (Nat.ltb_spec j (o + (nh m + size r))); try lia. cbn [andb].
        destruct (Nat.ltb_spec (i - o) (nh m)); try lia. destruct (Nat.ltb_spec (j - o) (nh m)); try lia. auto.
      * clear B. now destruct ((o <=? i) && (i <? o + (nh m + size r)) && ((o <=? j) && (j <? o + (nh m + size r)))).
Qed.
Lemma rec_assign2_off f ms : forall o i j,
  existsb (fun p => (fst p <=? i + o) && (i + o <? fst p + nh (snd p)) && ((fst p <=? j + o) && (j + o <? fst p + nh (snd p)))) (items_from o ms) = false ->
  rec_assign2 f o ms i j = 0.
Proof.
  induction ms as [|m r IH]; intros o i j H; [reflexivity|].
  cbn [items_from existsb fst snd] in H. apply Bool.orb_false_elim in H. destruct H as [H1 H2].
  cbn [rec_assign2]. unfold cat2.
  destruct (Nat.ltb_spec i (nh m)); destruct (Nat.ltb_spec j (nh m)); auto.
  - destruct (Nat.leb_spec o (i + o)); destruct (Nat.ltb_spec (i + o) (o + nh m)); try lia.
    destruct (Nat.leb_spec o (j + o)); destruct (Nat.ltb_spec (j + o) (o + nh m)); try lia.
  - apply IH. replace (i - nh m + (o + nh m))%nat with (i + o)%nat by lia.
    replace (j - nh m + (o + nh m))%nat with (j + o)%nat by lia. exact H2.
Qed.
Lemma loop_assign2_rec f ms i j : (i < size ms)%nat -> (j < size ms)%nat -> loop_assign2 f ms i j = rec_assign2 f 0 ms i j.
Proof.
  intros Hi Hj. unfold loop_assign2. rewrite items_eq, assign2_lookup.
  destruct (Nat.leb_spec 0 i); destruct (Nat.ltb_spec i (0 + size ms)); try lia.
  destruct (Nat.leb_spec 0 j); destruct (Nat.ltb_spec j (0 + size ms)); try lia. cbn [andb].
  destruct (existsb _ _) eqn:E.
  - f_equal; lia.
  - symmetry. apply rec_assign2_off. rewrite !Nat.add_0_r. exact E.
Qed.

(** Block form. *)
Lemma rec_assign_block f ms : forall o k i d, (k < length ms)%nat -> (i < nh (nth k ms d))%nat ->
  rec_assign f o ms (off ms k + i)%nat = f (o + off ms k)%nat (nth k ms d) i.
Proof.
  induction ms as [|m r IH]; intros o k i d Hk Hi; [simpl in Hk; lia|].
  destruct k as [|k]; cbn [nth] in *.
  - unfold off. cbn [firstn map]. rewrite (eq_refl : list_sum [] = 0%nat). rewrite Nat.add_0_l, Nat.add_0_r. cbn [rec_assign]. unfold cat.
    destruct (Nat.ltb_spec i (nh m)); [auto|lia].
  - unfold off. cbn [firstn map]. rewrite (eq_refl : list_sum (nh m :: map nh (firstn k r)) = (nh m + list_sum (map nh (firstn k r)))%nat).
    fold (off r k). cbn [rec_assign]. unfold cat. destruct (Nat.ltb_spec (nh m + off r k + i) (nh m)); [lia|].
    replace (nh m + off r k + i - nh m)%nat with (off r k + i)%nat by lia. rewrite (IH (o + nh m)%nat k i d); [|simpl in Hk; lia|auto].
    now rewrite Nat.add_assoc.
Qed.
Lemma off_lt ms k i d : (k < length ms)%nat -> (i < nh (nth k ms d))%nat -> (off ms k + i < size ms)%nat.
Proof.
  revert k. induction ms as [|m r IH]; intros k Hk Hi; [simpl in Hk; lia|]. unfold size, off. cbn [map].
  rewrite (eq_refl : list_sum (nh m :: map nh r) = (nh m + list_sum (map nh r))%nat).
  destruct k as [|k]; cbn [nth firstn map] in *.
  - rewrite (eq_refl : list_sum [] = 0%nat). lia.
  - rewrite (eq_refl : list_sum (nh m :: map nh (firstn k r)) = (nh m + list_sum (map nh (firstn k r)))%nat).
    fold (off r k). fold (size r). specialize (IH k). simpl in Hk. specialize (IH ltac:(lia) Hi). lia.
Qed.
Lemma rec_add_sum f ms d : forall o, rec_add f o ms = sum (length ms) (fun k => f (o + off ms k)%nat (nth k ms d)).
Proof.
  induction ms as [|m r IH]; intros o; [reflexivity|]. cbn [rec_add length]. rewrite sum_S. f_equal.
  - unfold off. cbn. now rewrite Nat.add_0_r.
  - rewrite IH. apply sum_ext. intros k _. unfold off. cbn [firstn map nth].
    rewrite (eq_refl : list_sum (nh m :: map nh (firstn k r)) = (nh m + list_sum (map nh (firstn k r)))%nat). now rewrite Nat.add_assoc.
Qed.
(** Block-diagonal matrices. *)
Lemma rec_assign2_block f ms : forall o k i j d, (k < length ms)%nat -> (i < nh (nth k ms d))%nat ->
  (j < size ms)%nat ->
  rec_assign2 f o ms (off ms k + i)%nat j =
  if (off ms k <=? j) && (j <? off ms k + nh (nth k ms d)) then f (o + off ms k)%nat (nth k ms d) i (j - off ms k)%nat else 0.
Proof.
  induction ms as [|m r IH]; intros o k i j d Hk Hi Hj; [simpl in Hk; lia|].
  unfold size in Hj. cbn [map] in Hj. rewrite (eq_refl : list_sum (nh m :: map nh r) = (nh m + list_sum (map nh r))%nat) in Hj. fold (size r) in Hj.
  destruct k as [|k]; cbn [nth] in *.
  - unfold off. cbn [firstn map]. rewrite (eq_refl : list_sum [] = 0%nat). rewrite Nat.add_0_l, Nat.add_0_r. cbn [rec_assign2]. unfold cat2.
    destruct (Nat.ltb_spec i (nh m)); [|lia]. cbn. rewrite Nat.sub_0_r. auto.
  - unfold off. cbn [firstn map]. rewrite (eq_refl : list_sum (nh m :: map nh (firstn k r)) = (nh m + list_sum (map nh (firstn k r)))%nat).
    fold (off r k). cbn [rec_assign2]. unfold cat2. destruct (Nat.ltb_spec (nh m + off r k + i) (nh m)); [lia|].
    replace (nh m + off r k + i - nh m)%nat with (off r k + i)%nat by lia.
    destruct (Nat.ltb_spec j (nh m)).
    + destruct (Nat.leb_spec (nh m + off r k) j); [lia|reflexivity].
    + rewrite (IH (o + nh m)%nat k i (j - nh m)%nat d); [|simpl in Hk; lia|auto|lia].
      destruct (Nat.leb_spec (off r k) (j - nh m)); destruct (Nat.leb_spec (nh m + off r k) j); try lia; cbn [andb]; auto.
      destruct (Nat.ltb_spec (j - nh m) (off r k + nh (nth k r d))); destruct (Nat.ltb_spec j (nh m + off r k + nh (nth k r d))); try lia; auto.
      rewrite Nat.add_assoc; f_equal; lia.
Qed.
End Loops.

Lemma sum_block N a n g : (a + n <= N)%nat ->
  sum N (fun j => if (a <=? j) && (j <? a + n) then g j else 0) = sum n (fun j => g (a + j)%nat).
Proof.
  intros H. replace N with (a + (n + (N - a - n)))%nat by lia. rewrite !sum_app.
  rewrite (sum_0 a), (sum_0 (N - a - n)).
  - rewrite Rplus_0_l, Rplus_0_r. apply sum_ext. intros i Hi.
    destruct (Nat.leb_spec a (a + i)); destruct (Nat.ltb_spec (a + i) (a + n)); try lia. reflexivity.
  - intros i Hi. destruct (Nat.leb_spec a (a + (n + i))); destruct (Nat.ltb_spec (a + (n + i)) (a + n)); try lia; reflexivity.
  - intros i Hi. destruct (Nat.leb_spec a i); try lia. reflexivity.
Qed.
Lemma size_cons {M} (nh : M -> nat) m r : size nh (m :: r) = (nh m + size nh r)%nat.
Proof. reflexivity. Qed.
Lemma off_S {M} (nh : M -> nat) m r k : off nh (m :: r) (S k) = (nh m + off nh r k)%nat.
Proof. reflexivity. Qed.
Lemma off_block {M} (nh : M -> nat) ms k d : (k < length ms)%nat -> (off nh ms k + nh (nth k ms d) <= size nh ms)%nat.
Proof.
  revert k. induction ms as [|m r IH]; intros k Hk; [simpl in Hk; lia|]. rewrite size_cons. destruct k; cbn [nth].
  - unfold off. simpl. lia.
  - rewrite off_S. simpl in Hk. specialize (IH k ltac:(lia)). lia.
Qed.
Lemma block_decomp {M} (nh : M -> nat) ms d i : (i < size nh ms)%nat ->
  exists k i', (k < length ms)%nat /\ (i' < nh (nth k ms d))%nat /\ i = (off nh ms k + i')%nat.
Proof.
  revert i. induction ms as [|m r IH]; intros i Hi; [unfold size in Hi; simpl in Hi; lia|]. rewrite size_cons in Hi.
  destruct (Nat.lt_ge_cases i (nh m)).
  - exists 0%nat, i. simpl. repeat split; auto; lia.
  - destruct (IH (i - nh m)%nat ltac:(lia)) as (k & i' & A & B & C). exists (S k), i'. rewrite off_S. simpl. repeat split; auto; lia.
Qed.

Lemma sum_blocks {M} (nh : M -> nat) (f : nat -> M -> vec) (g : vec) d ms : forall o,
  sum (size nh ms) (fun j => rec_assign nh f o ms j * g (o + j)%nat)
  = sum (length ms) (fun k => sum (nh (nth k ms d)) (fun j => f (o + off nh ms k)%nat (nth k ms d) j * g (o + off nh ms k + j)%nat)).
Proof.
  induction ms as [|m r IH]; intros o; [reflexivity|].
  cbn [length]. rewrite sum_S, size_cons, sum_app. f_equal.
  - cbn [nth]. apply sum_ext. intros j Hj. cbn [rec_assign]. unfold cat. destruct (Nat.ltb_spec j (nh m)); [|lia].
    unfold off. cbn [firstn map]. rewrite (eq_refl : list_sum [] = 0%nat). now rewrite Nat.add_0_r.
  - rewrite (sum_ext (length r) _ (fun k => sum (nh (nth k r d)) (fun j => f (o + nh m + off nh r k)%nat (nth k r d) j * g (o + nh m + off nh r k + j)%nat))).
    + rewrite <- IH. apply sum_ext. intros j Hj. cbn [rec_assign]. unfold cat. destruct (Nat.ltb_spec (nh m + j) (nh m)); [lia|].
      f_equal; f_equal; lia.
    + intros k Hk. cbn [nth]. rewrite off_S, Nat.add_assoc. reflexivity.
Qed.
