(** The conversion of relaxation and creep columns of a mixed data set (experiments.py 136-155, 236-263),
    and monotone sequences. *)
From Coq Require Import Reals List String ZArith Lia Lra Bool.
From Verif Require Import Experiments Props_Exp.
Import ListNotations.
Local Open Scope R_scope.

(** one column of the converted results *)
Lemma convert_column junk results cycles types out n b : List.length junk = n -> List.length results = n -> List.length cycles = n ->
  List.length types = n ->
  (forall i j, (i < n)%nat -> (j < n)%nat -> nth i types 9%Z = nth j types 9%Z -> (1 <= nth i types 9 <= 4)%Z -> nth i cycles [] = nth j cycles []) ->
  convert_results junk results cycles types = Some out -> (b < n)%nat ->
  convert_results [nth b junk []] [nth b results []] [nth b cycles []] [nth b types 9%Z] = Some [nth b out []].
Proof.
  intros Lj Lr Lc Lt Sh C Hb.
  pose (mk := fun i => Experiment (nth i types 9%Z) (nth i cycles []) (nth i results [])).
  pose (xs := map mk (seq 0 n)).
  assert (Lx : List.length xs = n) by (unfold xs; now rewrite map_length, seq_length).
  assert (M : forall (A : Type) (l : list A) d, List.length l = n -> map (fun i => nth i l d) (seq 0 n) = l).
  { intros A l d L. apply nth_ext with (d := d) (d' := d); rewrite map_length, seq_length; auto. intros i Hi.
    rewrite nth_indep with (d' := nth 0 l d) by (now rewrite map_length, seq_length). rewrite (map_nth (fun i => nth i l d)), seq_nth; auto. }
  assert (E1 : map x_results xs = results) by (unfold xs; rewrite map_map; apply M; auto).
  assert (E2 : map x_cycles xs = cycles) by (unfold xs; rewrite map_map; apply M; auto).
  assert (E3 : map x_type xs = types) by (unfold xs; rewrite map_map; apply M; auto).
  rewrite <- E1, <- E2, <- E3 in C.
  apply C63_columnwise_partial in C; [|congruence|].
  - destruct C as [_ C]. apply (C b (mk b)). unfold xs. apply map_nth_error.
    rewrite (nth_error_nth' _ 0%nat) by (now rewrite seq_length). f_equal. apply seq_nth; auto.
  - intros x y Hx Hy. unfold xs in Hx, Hy. apply in_map_iff in Hx as (i & <- & Hi). apply in_map_iff in Hy as (j & <- & Hj).
    apply in_seq in Hi, Hj. cbn. intros T Rg. apply Sh; auto; lia.
Qed.

(** a relaxation or creep column: the change since the first flagged row *)
Lemma hold_column j c p o t t0 : t = 1%Z \/ t = 3%Z -> convert_results [j] [p] [c] [t] = Some [o] ->
  List.length p = List.length c -> first_flag c t0 ->
  List.length o = List.length c /\
  forall k, (k < List.length c)%nat -> nth k o 0 = if Z.eqb (nth k c 0%Z) 1 then nth k p 0 - nth t0 p 0 else 0.
Proof.
  intros T C L F. rewrite C63_dispatch in C.
  assert (C' : format_relaxation [c] [p] = Some [o]) by (destruct T as [-> | ->]; exact C). clear C T.
  destruct (C65_relaxation_partial c t0 [p]) as (out & E & Lo & H); [discriminate| |auto|].
  - intros q [<-|[]]; auto.
  - cbn [List.length repeat] in E, H. rewrite C' in E. injection E as <-. apply (H 0%nat). lia.
Qed.

(** a sequence that shrinks without changing sign is monotone *)
Lemma shrinking_monotone (s : nat -> R) t0 n :
  (forall k, (t0 <= k)%nat -> (S k < n)%nat -> Rabs (s (S k)) <= Rabs (s k) /\ 0 <= s (S k) * s k) ->
  (forall k, (t0 <= k)%nat -> (S k < n)%nat -> s (S k) <= s k) \/ (forall k, (t0 <= k)%nat -> (S k < n)%nat -> s k <= s (S k)).
Proof.
  intros H.
  assert (G : forall u : nat -> R, 0 <= u t0 -> (forall k, (t0 <= k)%nat -> (S k < n)%nat -> Rabs (u (S k)) <= Rabs (u k) /\ 0 <= u (S k) * u k) ->
    forall k, (t0 <= k)%nat -> (k < n)%nat -> 0 <= u k).
  { intros u U0 Hu k Hk. induction Hk as [|k Hk IH]; intros Kn; auto. specialize (IH ltac:(lia)). destruct (Hu k Hk Kn) as [A B].
    destruct (Req_dec (u k) 0) as [Z|Z].
    - rewrite Z, Rabs_R0 in A. assert (u (S k) = 0) by (destruct (Req_dec (u (S k)) 0) as [|N]; auto; apply Rabs_pos_lt in N; lra). lra.
    - destruct (Rle_lt_dec 0 (u (S k))); auto. exfalso. assert (u (S k) * u k < 0) by (apply Ropp_lt_cancel; rewrite Ropp_0, Ropp_mult_distr_l; apply Rmult_lt_0_compat; lra). lra. }
  destruct (Rle_lt_dec 0 (s t0)) as [P|P].
  - left. intros k Hk Kn. destruct (H k Hk Kn) as [A _]. pose proof (G s P H k Hk ltac:(lia)). pose proof (G s P H (S k) ltac:(lia) Kn).
    rewrite !Rabs_pos_eq in A; auto.
  - right. intros k Hk Kn. destruct (H k Hk Kn) as [A _].
    assert (H' : forall k, (t0 <= k)%nat -> (S k < n)%nat -> Rabs (- s (S k)) <= Rabs (- s k) /\ 0 <= - s (S k) * - s k).
    { intros i Hi Ki. rewrite !Rabs_Ropp. destruct (H i Hi Ki). split; auto. replace (- s (S i) * - s i) with (s (S i) * s i) by ring. auto. }
    pose proof (G (fun k => - s k) ltac:(cbn; lra) H' k Hk ltac:(lia)). pose proof (G (fun k => - s k) ltac:(cbn; lra) H' (S k) ltac:(lia) Kn). cbn in *.
    rewrite <- (Rabs_Ropp (s (S k))), <- (Rabs_Ropp (s k)), !Rabs_pos_eq in A; auto. lra.
Qed.

(** the loaded type code of a creep or relaxation test *)
Lemma type_hold t s : s = "relaxation"%string \/ s = "creep"%string ->
  nth_error ["tensile"; "relaxation"; "strain_cyclic"; "creep"; "stress_cyclic"; "abstract_tensile"; "direct_data"]%string (Z.to_nat t) = Some s ->
  (0 <= t)%Z -> t = 1%Z \/ t = 3%Z.
Proof.
  intros S H T. assert (L : (Z.to_nat t < 7)%nat) by (apply (proj1 (nth_error_Some ["tensile"; "relaxation"; "strain_cyclic"; "creep"; "stress_cyclic"; "abstract_tensile"; "direct_data"]%string (Z.to_nat t))); congruence).
  assert (C : (t = 0 \/ t = 1 \/ t = 2 \/ t = 3 \/ t = 4 \/ t = 5 \/ t = 6)%Z) by lia.
  destruct C as [->|[->|[->|[->|[->|[->| ->]]]]]]; cbn in H; injection H as <-; destruct S as [S|S]; try discriminate S; auto.
Qed.
