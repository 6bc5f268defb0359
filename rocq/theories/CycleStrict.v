(** More about the sampled cycles of Cycle.v: strictly increasing times, the cycle column, the largest strain of a cycle. *)
From Coq Require Import Reals List String ZArith Lia Lra Bool Sorting.Sorted.
From Verif Require Import Experiments Cycle Props_Exp Props_Cycle.
Import ListNotations.
Local Open Scope R_scope.

Lemma SS_lt_app l l' : StronglySorted Rlt l -> StronglySorted Rlt l' -> (forall x y, In x l -> In y l' -> x < y) -> StronglySorted Rlt (l ++ l').
Proof.
  intros H H' A. induction H as [|a l H IH F]; cbn; auto. constructor.
  - apply IH. intros x y Hx Hy. apply A; auto. now right.
  - apply Forall_app. split; auto. apply Forall_forall. intros y Hy. apply A; auto. now left.
Qed.
Lemma SS_lt_nth l : StronglySorted Rlt l -> forall i j, (i < j < List.length l)%nat -> nth i l 0 < nth j l 0.
Proof.
  intros H. induction H as [|a l H IH F]; intros i j L; cbn in *; [lia|]. destruct i, j; try lia.
  - rewrite Forall_forall in F. apply F, nth_In. lia.
  - apply IH. lia.
Qed.
Lemma lin_strict a t n : (n = 0%nat \/ 0 < t) -> 0 <= t ->
  StronglySorted Rlt (tl (linspace a (a + t) (n + 1))) /\ forall x, In x (tl (linspace a (a + t) (n + 1))) -> a < x <= a + t.
Proof.
  intros C T. rewrite Nat.add_1_r. unfold linspace. cbn [seq map tl]. rewrite S_INR.
  destruct n as [|n]; [cbn; split; [constructor|easy]|]. destruct C as [C|C]; [easy|].
  replace ((a + t - a) / (INR (S n) + 1 - 1)) with (t / INR (S n)) by (pose proof (lt_0_INR (S n) ltac:(lia)); unfold Rdiv; replace (INR (S n) + 1 - 1) with (INR (S n)) by lra; ring).
  pose proof (lt_0_INR (S n) ltac:(lia)) as P. assert (Q : 0 < t / INR (S n)) by now apply Rdiv_lt_0_compat.
  assert (B : t = INR (S n) * (t / INR (S n))) by (field; lra). set (h := t / INR (S n)) in *. split.
  - generalize 1%nat. generalize (S n). intros m. induction m as [|m IH]; intros s; cbn; [constructor|]. constructor; [apply IH|].
    apply Forall_forall. intros x Hx. apply in_map_iff in Hx as (i & <- & Hi). apply in_seq in Hi.
    assert (INR s < INR i) by (apply lt_INR; lia). nra.
  - intros x Hx. apply in_map_iff in Hx as (i & <- & Hi). apply in_seq in Hi.
    assert (INR i <= INR (S n)) by (apply le_INR; lia). assert (0 < INR i) by (apply lt_0_INR; lia). nra.
Qed.
Lemma seg_strict l : (forall ti ni, In (ti, ni) l -> 0 <= ti /\ (ni = 0%nat \/ 0 < ti)) -> forall tc,
  0 <= seg_total l /\ StronglySorted Rlt (seg_times tc l) /\ forall x, In x (seg_times tc l) -> tc < x <= tc + seg_total l.
Proof.
  induction l as [|[ti ni] l IH]; intros H tc; cbn.
  - split; [lra|]. split; [constructor|easy].
  - destruct (H ti ni) as [Ht Hs]; [now left|]. destruct (IH ltac:(intros; eapply H; right; eauto) (tc + ti)) as (T & G & B).
    destruct (lin_strict tc ti ni Hs Ht) as [S1 B1]. split; [lra|]. split.
    + apply SS_lt_app; auto. intros x y Hx Hy. apply B1 in Hx. apply B in Hy. lra.
    + intros x Hx. apply in_app_or in Hx as [Hx|Hx]; [apply B1 in Hx|apply B in Hx]; lra.
Qed.
(** Every phase takes time, or has no samples. *)
Definition phases_take_time (c : cycle) (nhold : nat) : Prop :=
  cy_max_strain c <> 0 /\ cy_R c <> 0 /\ cy_R c <> 1 /\ (nhold = 0%nat \/ 0 < cy_tension_hold c /\ 0 < cy_compression_hold c).
Lemma all_times_strict c N nload nhold : valid c -> phases_take_time c nhold -> StronglySorted Rlt (all_times c N nload nhold).
Proof.
  intros (V1 & V2 & V3) (A & B & C & D).
  assert (S0 : forall ti ni, In (ti, ni) (segs c nload nhold) -> 0 <= ti /\ (ni = 0%nat \/ 0 < ti)).
  { unfold segs, divisions, timesteps, t1, t2, t3, t4, t5, emax, emin, erate. cbn. intros ti ni.
    assert (E : forall x, x <> 0 -> 0 < Rabs x / cy_strain_rate c) by (intros x Hx; apply Rdiv_lt_0_compat; auto; now apply Rabs_pos_lt).
    assert (E2 : cy_R c * cy_max_strain c <> 0) by (intros F; apply Rmult_integral in F; tauto).
    assert (E3 : cy_max_strain c - cy_R c * cy_max_strain c <> 0).
    { replace (cy_max_strain c - cy_R c * cy_max_strain c) with ((1 - cy_R c) * cy_max_strain c) by ring. intros F. apply Rmult_integral in F. lra. }
    pose proof (E _ A). pose proof (E _ E2). pose proof (E _ E3).
    intros X. repeat (destruct X as [X|X]; [injection X as <- <-; split; [lra|]; (destruct D as [->|[D1 D2]]; [tauto|right; lra]) || (right; lra)|]). easy. }
  assert (Q : forall n n0, StronglySorted Rlt (flat_map (cyc_times c nload nhold) (seq n0 n)) /\ forall x, In x (flat_map (cyc_times c nload nhold) (seq n0 n)) -> INR n0 * period c < x).
  { induction n as [|n IH]; intros n0; cbn [seq flat_map]; [split; [constructor|easy]|]. destruct (IH (S n0)) as [S2 B2].
    destruct (seg_strict _ S0 (INR n0 * period c)) as (T1 & S1 & B1). rewrite (segs_total c nload nhold) in B1, T1. fold (cyc_times c nload nhold n0) in S1, B1.
    assert (I : INR (S n0) * period c = INR n0 * period c + period c) by (rewrite S_INR; ring). split.
    - apply SS_lt_app; auto. intros x y Hx Hy. apply B1 in Hx. apply B2 in Hy. lra.
    - intros x Hx. apply in_app_or in Hx as [Hx|Hx]; [apply B1 in Hx|apply B2 in Hx]; lra. }
  unfold all_times. destruct (Q N 0%nat) as [G B0]. constructor; auto. apply Forall_forall. intros x Hx. apply B0 in Hx. cbn in Hx. lra.
Qed.
(** the row that ends a phase of the first cycle *)
Lemma first_cycle_end c N nload nhold l1 ti ni l2 : (1 <= N)%nat -> (1 <= ni)%nat -> segs c nload nhold = l1 ++ (ti, ni) :: l2 ->
  nth (seg_count l1 + ni) (all_times c N nload nhold) 0 = seg_total l1 + ti.
Proof.
  intros HN Hn E. pose proof (segs_count c nload nhold) as Cn. rewrite E in Cn.
  assert (Ca : forall a b, seg_count (a ++ b) = (seg_count a + seg_count b)%nat) by (induction a as [|[? ?] a IH]; intros; cbn; auto; rewrite IH; lia).
  rewrite Ca in Cn. cbn [seg_count] in Cn.
  replace (seg_count l1 + ni)%nat with (0 * Ntotal nload nhold + S (seg_count l1 + ni - 1))%nat by lia.
  rewrite all_times_nth by (rewrite <- ?Cn; lia). unfold cyc_times. rewrite E, seg_end by auto. cbn [INR]. ring.
Qed.

(** the cycle column is numbered without gaps, and ends with the last cycle *)
Lemma cycles_numbered c N nload nhold times strains cycles : (1 <= N)%nat -> (1 <= nload)%nat -> sample_cycle c N nload nhold = Some (times, strains, cycles) ->
  forall v, In v cycles <-> (0 <= v <= last cycles 0)%Z.
Proof.
  intros HN Hn. rewrite sample_eq. intros E. injection E as <- <- <-.
  pose proof (all_cycles_length N nload nhold) as L. set (n := Ntotal nload nhold) in *. assert (n1 : (1 <= n)%nat) by (unfold n, Ntotal; lia).
  assert (La : last (all_cycles N nload nhold) 0%Z = Z.of_nat (N - 1)).
  { assert (G : forall (l : list Z) d, last l d = nth (List.length l - 1) l d).
    { intros l d. induction l as [|a l IH]; auto. cbn [last List.length]. destruct l as [|b l]; auto. rewrite IH. cbn [List.length]. now replace (S (S (List.length l)) - 1)%nat with (S (S (List.length l) - 1)) by lia. }
    rewrite G, L. replace (1 + N * n - 1)%nat with ((N - 1) * n + S (n - 1))%nat by nia. apply all_cycles_nth; unfold n in *; lia. }
  rewrite La. intros v. split.
  - intros [<-|H]; [lia|]. apply in_flat_map in H as (k & Hk & H). apply repeat_spec in H. apply in_seq in Hk. lia.
  - intros H. right. apply in_flat_map. exists (Z.to_nat v). split; [apply in_seq; lia|]. rewrite Z2Nat.id by lia. fold n. destruct n; [lia|]. now left.
Qed.

(** the largest strain met by any cycle, and its smallest *)
Lemma cycle_extremes c N nload nhold times strains cycles : valid c -> (1 <= N)%nat -> (1 <= nload)%nat -> sample_cycle c N nload nhold = Some (times, strains, cycles) ->
  let e1 := cy_max_strain c in let e2 := cy_R c * cy_max_strain c in
  forall t, (t < List.length cycles)%nat ->
    is_max_over (fun t' => (t' < List.length cycles)%nat /\ nth t' cycles 0%Z = nth t cycles 0%Z) (fun t' => nth t' strains 0) (Rmax 0 (Rmax e1 e2)).
Proof.
  intros V HN Hn E e1 e2 t Ht.
  destruct (C69_shape c N nload nhold) as (t' & s' & c' & E' & L1 & L2 & L3). rewrite E in E'. injection E' as <- <- <-.
  destruct (C69_times c N nload nhold times strains cycles V E) as (_ & Z0 & _ & Cy). destruct (C69_landmarks c N nload nhold times strains cycles V Hn E) as [Lz Lm].
  set (n := (4 * nload + 2 * nhold)%nat) in *. assert (n1 : (1 <= n)%nat) by (unfold n; lia).
  assert (exists k, (k < N)%nat /\ nth t cycles 0%Z = Z.of_nat k) as (k & Hk & ->).
  { destruct t as [|t]; [exists 0%nat; split; [lia|exact Z0]|]. exists (t / n)%nat. pose proof (Nat.div_mod t n ltac:(lia)) as D. pose proof (Nat.mod_upper_bound t n ltac:(lia)) as M.
    assert (Hk : (t / n < N)%nat) by (apply Nat.div_lt_upper_bound; lia). split; [exact Hk|].
    replace (S t) with (t / n * n + S (t mod n))%nat by lia. apply Cy; lia. }
  assert (B : forall r, (1 <= r <= n)%nat -> (k * n + r < List.length cycles)%nat /\ nth (k * n + r) cycles 0%Z = Z.of_nat k).
  { intros r Hr. split; [rewrite L3, L1; nia|]. now apply Cy. }
  destruct (Lm k Hk) as (M1 & _ & M2 & _). destruct (Lz (S k) ltac:(lia)) as [_ M0]. replace (S k * n)%nat with (k * n + n)%nat in M0 by lia.
  split.
  - unfold Rmax at 1. destruct Rle_dec as [r|r].
    + unfold Rmax. destruct Rle_dec as [q|q].
      * exists (k * n + (3 * nload + nhold))%nat. split; [apply B; unfold n; lia|]. rewrite Nat.add_assoc. exact M2.
      * exists (k * n + nload)%nat. split; [apply B; unfold n; lia|]. exact M1.
    + exists (k * n + n)%nat. split; [apply B; lia|]. exact M0.
  - intros i [Hi _]. rewrite L3 in Hi. apply (C69_strains c N nload nhold times strains cycles V E i Hi).
Qed.
Lemma max_scaled (Q : nat -> Prop) f a v : 0 <= a -> is_max_over Q f v -> is_max_over Q (fun k => a * f k) (a * v).
Proof. intros H [(k & K1 & K2) M]. split; [exists k; split; auto; now rewrite K2|]. intros j Hj. apply Rmult_le_compat_l; auto. Qed.
Lemma max_unique (Q : nat -> Prop) f g v w : (forall k, Q k -> f k = g k) -> is_max_over Q f v -> is_max_over Q g w -> v = w.
Proof.
  intros H [(k & K1 & K2) M] [(j & J1 & J2) M']. pose proof (M j J1) as A. pose proof (M' k K1) as B.
  rewrite H in A by auto. rewrite <- (H k) in B by auto. lra.
Qed.

(** a cyclic column: the maximum over the cycle *)
Lemma cyclic_column j c p o t : t = 2%Z \/ t = 4%Z -> convert_results [j] [p] [c] [t] = Some [o] ->
  List.length p = List.length c -> c <> [] -> (forall v, In v c <-> (0 <= v <= last c 0)%Z) ->
  forall k, (k < List.length c)%nat ->
    is_max_over (fun k' => (k' < List.length c)%nat /\ nth k' c 0%Z = nth k c 0%Z) (fun k' => nth k' p 0) (nth k o 0).
Proof.
  intros T C L N G. rewrite C63_dispatch in C.
  assert (C' : format_cyclic [c] [p] = Some [o]) by (destruct T as [-> | ->]; exact C). clear C T.
  destruct (C64_cycle_maximum_partial c [p]) as (out & E & Lo & H); [auto|discriminate| |auto|].
  - intros q [<-|[]]; auto.
  - cbn [List.length repeat] in E, H. rewrite C' in E. injection E as <-. apply (H 0%nat). lia.
Qed.
Lemma type_cyclic t s : s = "strain_cyclic"%string \/ s = "stress_cyclic"%string ->
  nth_error ["tensile"; "relaxation"; "strain_cyclic"; "creep"; "stress_cyclic"; "abstract_tensile"; "direct_data"]%string (Z.to_nat t) = Some s ->
  (0 <= t)%Z -> t = 2%Z \/ t = 4%Z.
Proof.
  intros S H T. assert (L : (Z.to_nat t < 7)%nat) by (apply (proj1 (nth_error_Some ["tensile"; "relaxation"; "strain_cyclic"; "creep"; "stress_cyclic"; "abstract_tensile"; "direct_data"]%string (Z.to_nat t))); congruence).
  assert (C : (t = 0 \/ t = 1 \/ t = 2 \/ t = 3 \/ t = 4 \/ t = 5 \/ t = 6)%Z) by lia.
  destruct C as [->|[->|[->|[->|[->|[->| ->]]]]]]; cbn in H; injection H as <-; destruct S as [S|S]; try discriminate S; auto.
Qed.
