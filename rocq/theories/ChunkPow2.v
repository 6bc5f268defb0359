(** Proofs about the PCR schedule (C01). *)
From Coq Require Import List Arith Lia PeanoNat.
Import ListNotations.
From Verif Require Import ChunkModel ChunkSpec.

Lemma sz_bounds n : 0 < n -> sz n <= n < 2 * sz n.
Proof.
  intros H; unfold sz. pose proof (Nat.log2_spec n H) as [H1 H2].
  rewrite Nat.pow_succ_r' in H2. lia.
Qed.

Lemma sz_pos n : 1 <= sz n.
Proof. unfold sz. pose proof (Nat.pow_nonzero 2 (Nat.log2 n)). lia. Qed.

Lemma sz_ge2 n : 2 <= n -> 2 <= sz n.
Proof.
  intros H. unfold sz. assert (1 <= Nat.log2 n) by (apply Nat.log2_le_pow2; simpl; lia).
  change 2 with (2^1) at 1. apply Nat.pow_le_mono_r; lia.
Qed.

Lemma sz_mono a b : a <= b -> sz a <= sz b.
Proof. intros H. unfold sz. apply Nat.pow_le_mono_r; [lia|]. now apply Nat.log2_le_mono. Qed.

(** Greedy chain of ranges from position [s] up to [n]. *)
Inductive chain (n : nat) : nat -> list (nat * nat) -> Prop :=
| chain_last s : s < n -> s + sz (n - s) = n -> chain n s [(s, n)]
| chain_cons s l : s < n -> s + sz (n - s) < n ->
    chain n (s + sz (n - s) - 1) l -> chain n s ((s, s + sz (n - s)) :: l).

Lemma pow2_loop_spec N : forall fuel n start fin,
  n <= fuel -> start <> [] -> length start = length fin ->
  last fin 0 + n = N -> 1 <= last fin 0 ->
  exists l, pow2_loop fuel n start fin = Some (start ++ map fst l, fin ++ map snd l)
         /\ (n = 0 -> l = []) /\ (0 < n -> chain N (last fin 0 - 1) l).
Proof.
  induction fuel as [|fuel IH]; intros n start fin Hf Hs Hl HN Hp.
  - assert (n = 0) by lia. subst n. exists []. simpl. rewrite !app_nil_r.
    repeat split; lia || auto.
  - destruct n as [|n].
    + exists []. simpl. rewrite !app_nil_r. repeat split; lia || auto.
    + cbn [pow2_loop]. set (cz := sz (S n + 1)) in *.
      set (s' := last fin 0 - 1) in *.
      assert (Hcz : 2 <= cz) by (unfold cz; apply sz_ge2; lia).
      assert (Hcz2 : cz <= S n + 1) by (unfold cz; apply sz_bounds; lia).
      assert (Hsz : cz = sz (N - s')) by (unfold cz, s'; f_equal; lia).
      destruct (IH (S n - (cz - 1)) (start ++ [s']) (fin ++ [s' + cz]))
        as (l & E & H0 & H1).
      * lia.
      * destruct start; discriminate.
      * rewrite !app_length; simpl; lia.
      * rewrite last_last. unfold s'. lia.
      * rewrite last_last. lia.
      * exists ((s', s' + cz) :: l). split; [|split].
        -- rewrite E. simpl. now rewrite <- !app_assoc.
        -- lia.
        -- intros _. rewrite last_last in H1.
           destruct (Nat.eq_dec (S n - (cz - 1)) 0) as [Hz|Hz].
           ++ rewrite (H0 Hz). rewrite Hsz.
              assert (HH : s' + sz (N - s') = N) by (rewrite <- Hsz; unfold s'; lia).
              rewrite HH. apply chain_last; [unfold s'; lia|exact HH].
           ++ rewrite Hsz in H1 |- *. apply chain_cons; [unfold s'; lia| |apply H1; lia].
              rewrite <- Hsz. unfold s'; lia.
Qed.

Lemma pow2_chain n : 0 < n ->
  exists l, pow2 n = Some (map fst l, map snd l) /\ chain n 0 l.
Proof.
  intros Hn. destruct n as [|m]; [lia|]. unfold pow2. remember (S m) as n eqn:En. clear En m.
  pose proof (sz_bounds n Hn) as [H1 H2]. pose proof (sz_pos n) as H3.
  destruct (pow2_loop_spec n n (n - sz n) [0] [sz n]) as (l & E & H0 & Hc);
    [lia|discriminate|reflexivity|cbn [last]; lia|cbn [last]; lia|].
  exists ((0, sz n) :: l). split; [exact E|].
  destruct (Nat.eq_dec (n - sz n) 0) as [Hz|Hz].
  - rewrite (H0 Hz). assert (Hs : sz n = n) by lia. rewrite Hs.
    apply chain_last; [lia|]. rewrite Nat.sub_0_r. lia.
  - assert (Hc' := Hc ltac:(lia)). simpl in Hc'.
    replace (sz n) with (0 + sz (n - 0)) by (now rewrite Nat.sub_0_r).
    apply chain_cons; rewrite ?Nat.sub_0_r; simpl; try lia. exact Hc'.
Qed.

Lemma pow2_total n : 0 < n -> exists s e, pow2 n = Some (s, e).
Proof. intros H. destruct (pow2_chain n H) as (l & E & _). eauto. Qed.

Lemma combine_fst_snd {X Y} (l : list (X * Y)) : combine (map fst l) (map snd l) = l.
Proof. induction l as [|[x y] l IH]; simpl; congruence. Qed.

Lemma chain_nonempty n s l : chain n s l -> l <> [].
Proof. destruct 1; discriminate. Qed.

Lemma chain_hd n s l : chain n s l -> exists r, l = (s, s + sz (n - s)) :: r.
Proof. destruct 1 as [s H1 H2|]; eexists; [rewrite H2|]; reflexivity. Qed.

Lemma chain_last_end n s l : chain n s l -> last (map snd l) 0 = n.
Proof.
  induction 1 as [s H1 H2|s l H1 H2 Hc IH]; [reflexivity|].
  destruct (chain_hd _ _ _ Hc) as [r ->]. simpl in *. exact IH.
Qed.

Lemma chain_overlap n s l : chain n s l -> forall i, S i < length l ->
  nth (S i) (map fst l) 0 + 1 = nth i (map snd l) 0.
Proof.
  induction 1 as [s H1 H2|s l H1 H2 Hc IH]; intros i Hi; simpl in Hi; [lia|].
  destruct (chain_hd _ _ _ Hc) as [r Hr].
  destruct i as [|i].
  - rewrite Hr. simpl. pose proof (sz_pos (n - s)). lia.
  - specialize (IH i ltac:(lia)). cbn [map nth]. exact IH.
Qed.

Lemma chain_greedy n s l : chain n s l -> forall i, i < length l ->
  s <= nth i (map fst l) 0 < n /\
  nth i (map snd l) 0 = nth i (map fst l) 0 + sz (n - nth i (map fst l) 0).
Proof.
  induction 1 as [s H1 H2|s l H1 H2 Hc IH]; intros i Hi; simpl in Hi.
  - assert (i = 0) by lia. subst. simpl. lia.
  - destruct i as [|i]; simpl; [lia|].
    specialize (IH i ltac:(lia)). pose proof (sz_pos (n - s)). lia.
Qed.

Lemma chain_start_mono n s l : chain n s l -> forall i j, i <= j < length l ->
  nth i (map fst l) 0 <= nth j (map fst l) 0.
Proof.
  induction 1 as [s H1 H2|s l H1 H2 Hc IH]; intros i j Hij; simpl in Hij.
  - assert (i = 0) by lia. assert (j = 0) by lia. subst. lia.
  - destruct i as [|i], j as [|j]; simpl; try lia.
    + pose proof (chain_greedy _ _ _ Hc j ltac:(lia)) as [Hj _].
      pose proof (sz_pos (n - s)). lia.
    + apply IH. lia.
Qed.

Lemma chain_progress n s l : chain n s l -> forall i, 0 < i < length l ->
  nth i (map fst l) 0 + 2 <= n.
Proof.
  induction 1 as [s H1 H2|s l H1 H2 Hc IH]; intros i Hij; simpl in Hij; [lia|].
  destruct i as [|i]; [lia|]. destruct i as [|i].
  - simpl. destruct (chain_hd _ _ _ Hc) as [r ->]. simpl. pose proof (sz_pos (n-s)). lia.
  - cbn [map nth]. apply (IH (S i)). lia.
Qed.

Lemma pow2_schedule_ok n s e : pow2 n = Some (s, e) -> schedule_ok n s e.
Proof.
  intros E. destruct n as [|m]; [discriminate|]. set (n := S m) in *.
  destruct (pow2_chain n ltac:(lia)) as (l & E' & Hc). rewrite E in E'.
  injection E' as -> ->.
  pose proof (chain_nonempty _ _ _ Hc) as Hne.
  constructor.
  - now rewrite !map_length.
  - rewrite map_length. destruct l; [easy|simpl; lia].
  - destruct (chain_hd _ _ _ Hc) as [r ->]. reflexivity.
  - now apply chain_last_end with 0.
  - intros i Hi. rewrite map_length in Hi. now apply chain_overlap with n 0.
  - intros i Hi. rewrite map_length in Hi.
    destruct (chain_greedy _ _ _ Hc i Hi) as [H1 H2].
    exists (Nat.log2 (n - nth i (map fst l) 0)). split; [exact H2|].
    rewrite Nat.add_1_r. apply Nat.log2_spec. lia.
  - intros i Hi. rewrite map_length in Hi.
    destruct (chain_greedy _ _ _ Hc i ltac:(lia)) as [H1 H2].
    pose proof (chain_progress _ _ _ Hc i Hi). rewrite H2.
    pose proof (sz_ge2 (n - nth i (map fst l) 0)). lia.
  - intros i j Hij. rewrite map_length in Hij.
    destruct (chain_greedy _ _ _ Hc i ltac:(lia)) as [H1 H2].
    destruct (chain_greedy _ _ _ Hc j ltac:(lia)) as [H3 H4].
    pose proof (chain_start_mono _ _ _ Hc i j ltac:(lia)).
    rewrite H2, H4.
    pose proof (sz_mono (n - nth j (map fst l) 0) (n - nth i (map fst l) 0)). lia.
Qed.

Lemma pow2_defined_iff n : (exists s e, pow2 n = Some (s, e)) <-> 1 <= n.
Proof.
  split.
  - intros (s & e & E). destruct n; [discriminate|lia].
  - intros H. now apply pow2_total.
Qed.

(** The prefix of blocks used by the hybrid solver. *)
Lemma find_first_spec p l :
  let k := find_first p l in
  k <= length l /\ (forall i, i < k -> p (nth i l 0) = false) /\
  (k < length l -> p (nth k l 0) = true).
Proof.
  induction l as [|x l IH]; simpl; [repeat split; lia|].
  destruct (p x) eqn:E; simpl.
  - repeat split; try lia; auto.
  - destruct IH as (H1 & H2 & H3). repeat split; [lia| |].
    + intros [|i] Hi; [exact E|]. apply H2. lia.
    + intros H. apply H3. lia.
Qed.
