(** Properties C63-C68, C70, C84: experiments.py (post-processing, loading,
    tension and creep generators). *)
From Coq Require Import Reals ZArith Lra Lia List Bool Arith String.
From Verif Require Import Experiments.
Import ListNotations.
Local Open Scope R_scope.

(** C63.  Experiments of one type that reads the cycle column of the group's
    first experiment (relaxation 1, strain_cyclic 2, creep 3, stress_cyclic 4)
    must share their cycle column; then converting the batch is converting
    every experiment alone (also in success or failure).  Missing: groups with
    different cycle columns, refuted below. *)
Theorem C63_columnwise_partial junk xs out : List.length junk = List.length xs ->
  (forall x y, In x xs -> In y xs -> x_type x = x_type y -> (1 <= x_type x <= 4)%Z -> x_cycles x = x_cycles y) ->
  (convert_results junk (map x_results xs) (map x_cycles xs) (map x_type xs) = Some out <->
   List.length out = List.length xs /\
   forall i x, nth_error xs i = Some x ->
     convert_results [nth i junk []] [x_results x] [x_cycles x] [x_type x] = Some [nth i out []]).
Proof.
  intros E Sh. unfold convert_results.
  assert (ND : NoDup (map fst exp_fns_num)) by (cbn; repeat (constructor; [cbn; intuition discriminate|]); constructor).
  assert (CW : forall zs, (forall x y, In x zs -> In y zs -> x_type x = x_type y -> (1 <= x_type x <= 4)%Z -> x_cycles x = x_cycles y) ->
    forall i (f : fmt), In (i, f) exp_fns_num -> forall ys, ys <> [] -> ys = filter (fun x => Z.eqb (x_type x) i) zs ->
     f (map x_cycles ys) (map x_results ys) = traverse (alone f) ys).
  { intros zs Shz i f Hf ys Ne Ey. cbn in Hf. destruct ys as [|y0 ys'] eqn:Ys; [easy|]. rewrite <- Ys in *.
    assert (In0 : In y0 zs /\ x_type y0 = i).
    { assert (I : In y0 ys) by (rewrite Ys; now left). rewrite Ey in I. apply filter_In in I as [I1 I2]. apply Z.eqb_eq in I2. auto. }
    assert (SH : (1 <= i <= 4)%Z -> forall y, In y ys -> x_cycles y = x_cycles y0).
    { intros Hi y Hy. rewrite Ey in Hy. apply filter_In in Hy as [I1 I2]. apply Z.eqb_eq in I2. destruct In0. apply Shz; auto; congruence || lia. }
    repeat match type of Hf with _ \/ _ => destruct Hf as [Hf|Hf] end; try contradiction; injection Hf as <- <-.
    - now apply tensile_columnwise.
    - apply (relaxation_columnwise _ (x_cycles y0)); auto. apply SH. lia.
    - apply (cyclic_columnwise _ (x_cycles y0)); auto. apply SH. lia.
    - apply (relaxation_columnwise _ (x_cycles y0)); auto. apply SH. lia.
    - apply (cyclic_columnwise _ (x_cycles y0)); auto. apply SH. lia.
    - now apply abstract_columnwise.
    - now apply direct_columnwise. }
  rewrite (convert_spec xs exp_fns_num ND (CW xs Sh) junk out E).
  assert (S1 : forall x j o, convert_loop exp_fns_num [x_results x] [x_cycles x] [x_type x] [j] = Some [o] <->
     match lookup exp_fns_num (x_type x) with Some f => alone f x = Some o | None => o = j end).
  { intros x j o. assert (Sh1 : forall a b, In a [x] -> In b [x] -> x_type a = x_type b -> (1 <= x_type a <= 4)%Z -> x_cycles a = x_cycles b).
    { intros a b [<-|[]] [<-|[]]. auto. }
    rewrite (convert_spec [x] exp_fns_num ND (CW [x] Sh1) [j] [o] eq_refl). split.
    - intros H. inversion H; subst. auto.
    - intros H. constructor; auto. constructor. }
  split.
  - intros H. destruct (Forall3_nth _ _ _ _ (Experiment 0 [] []) [] [] H) as (L1 & L2 & HN). split; auto.
    intros i x Hx. apply S1. assert (Hi : (i < List.length xs)%nat) by (apply nth_error_Some; congruence).
    specialize (HN i Hi). apply nth_error_nth with (d := Experiment 0 [] []) in Hx. now rewrite Hx in HN.
  - intros [L H]. apply (Forall3_intro _ _ _ _ (Experiment 0 [] []) [] []); auto. intros i Hi. apply S1, H.
    now apply nth_error_nth'.
Qed.
Print Assumptions C63_columnwise_partial.
(** Which post-processing an experiment gets. *)
Theorem C63_dispatch j r c t :
  convert_results [j] [r] [c] [t] =
    (if (t =? 0) || (t =? 6) then Some [r]
     else if (t =? 1) || (t =? 3) then format_relaxation [c] [r]
     else if (t =? 2) || (t =? 4) then format_cyclic [c] [r]
     else if t =? 5 then format_abstract_tensile [c] [r]
     else Some [j])%Z%bool.
Proof.
  assert (P1 : forall f : fmt, f [c] [r] = match f [c] [r] with Some new => match new with [v] => Some [v] | _ => f [c] [r] end | None => None end).
  { intros f. destruct (f [c] [r]) as [[|v [|]]|]; reflexivity. }
  assert (PR : format_relaxation [c] [r] = None \/ exists v, format_relaxation [c] [r] = Some [v]).
  { unfold format_relaxation. cbn. destruct (sel _ r); eauto. }
  assert (PC : format_cyclic [c] [r] = None \/ exists v, format_cyclic [c] [r] = Some [v]).
  { unfold format_cyclic. destruct c; auto. cbn [traverse]. destruct (cyclic_loop _ _ _ _); eauto. }
  assert (PA : format_abstract_tensile [c] [r] = None \/ exists v, format_abstract_tensile [c] [r] = Some [v]).
  { unfold format_abstract_tensile. cbn. destruct (abstract_col _ _); eauto. }
  unfold convert_results, exp_fns_num, convert_loop. cbn [map existsb].
  destruct (Z.eqb_spec t 0) as [->|N0]; [reflexivity|].
  destruct (Z.eqb_spec t 1) as [->|N1].
  { cbn -[format_relaxation]. destruct PR as [->|[v ->]]; reflexivity. }
  destruct (Z.eqb_spec t 2) as [->|N2].
  { cbn -[format_cyclic]. destruct PC as [->|[v ->]]; reflexivity. }
  destruct (Z.eqb_spec t 3) as [->|N3].
  { cbn -[format_relaxation]. destruct PR as [->|[v ->]]; reflexivity. }
  destruct (Z.eqb_spec t 4) as [->|N4].
  { cbn -[format_cyclic]. destruct PC as [->|[v ->]]; reflexivity. }
  destruct (Z.eqb_spec t 5) as [->|N5].
  { cbn -[format_abstract_tensile]. destruct PA as [->|[v ->]]; reflexivity. }
  destruct (Z.eqb_spec t 6) as [->|N6]; reflexivity.
Qed.
Print Assumptions C63_dispatch.
Lemma refute_cyclic : format_cyclic [[0; 0]; [0; 1]]%Z [[1; 2]; [1; 2]] = Some [[2; 2]; [2; 2]].
Proof. cbv -[Rmax IZR Rplus Rminus]. rewrite Rmax_right by lra. reflexivity. Qed.
Lemma refute_cyclic1 : format_cyclic [[0; 1]]%Z [[1; 2]] = Some [[1; 2]].
Proof. reflexivity. Qed.
Theorem C63_columnwise_refuted :
  ~ (forall junk xs out, List.length junk = List.length xs ->
      convert_results junk (map x_results xs) (map x_cycles xs) (map x_type xs) = Some out ->
      forall i x, nth_error xs i = Some x ->
      convert_results [nth i junk []] [x_results x] [x_cycles x] [x_type x] = Some [nth i out []]).
Proof.
  intros H.
  assert (B : convert_results [[]; []] [[1; 2]; [1; 2]] [[0; 0]; [0; 1]]%Z [2; 2]%Z = Some [[2; 2]; [2; 2]]).
  { unfold convert_results, exp_fns_num. cbn [convert_loop map Z.eqb Pos.eqb existsb orb sel]. rewrite refute_cyclic. reflexivity. }
  specialize (H [[]; []] [Experiment 2 [0; 0]%Z [1; 2]; Experiment 2 [0; 1]%Z [1; 2]] _ eq_refl B 1%nat _ eq_refl).
  rewrite C63_dispatch in H. cbn [x_type x_cycles x_results Z.eqb Pos.eqb orb] in H. rewrite refute_cyclic1 in H. injection H. lra.
Qed.
Print Assumptions C63_columnwise_refuted.
Example C63_example : let xs := [Experiment 2 [0; 0; 1]%Z [1; 3; 2]; Experiment 0 [0; 0; 0]%Z [4; 5; 6]; Experiment 2 [0; 0; 1]%Z [7; 6; 5]; Experiment 1 [0; 1; 1]%Z [1; 2; 4]] in
  (forall x y, In x xs -> In y xs -> x_type x = x_type y -> (1 <= x_type x <= 4)%Z -> x_cycles x = x_cycles y) /\
  convert_results [[]; []; []; []] (map x_results xs) (map x_cycles xs) (map x_type xs) =
   Some [[3; 3; 2]; [4; 5; 6]; [7; 7; 5]; [0; 2 - 2; 4 - 2]].
Proof.
  cbv zeta. split.
  - intros x y. cbn. intuition; subst; cbn in *; congruence || lia.
  - unfold convert_results. cbv -[Rmax IZR Rplus Rminus]. rewrite (Rmax_right 1 3), (Rmax_left 7 6) by lra. reflexivity.
Qed.

(** C64.  In a group sharing the cycle column [uc] (numbered 0..last without
    gaps) every entry becomes the maximum over its own cycle.  Missing: groups
    with different cycle columns, refuted below. *)
Definition is_max_over (P : nat -> Prop) (f : nat -> R) (v : R) : Prop := (exists k, P k /\ f k = v) /\ forall k, P k -> f k <= v.
Theorem C64_cycle_maximum_partial uc ps : uc <> [] -> ps <> [] -> (forall p, In p ps -> List.length p = List.length uc) ->
  (forall c, In c uc <-> (0 <= c <= last uc 0)%Z) ->
  exists out, format_cyclic (repeat uc (List.length ps)) ps = Some out /\ List.length out = List.length ps /\
  forall j, (j < List.length ps)%nat -> List.length (nth j out []) = List.length uc /\
  forall t, (t < List.length uc)%nat ->
    is_max_over (fun t' => (t' < List.length uc)%nat /\ nth t' uc 0%Z = nth t uc 0%Z) (fun t' => nth t' (nth j ps []) 0) (nth t (nth j out []) 0).
Proof.
  intros Hu Hp Hl Hc. unfold format_cyclic. destruct ps as [|p0 ps0] eqn:Eps; [easy|]. rewrite <- Eps in *.
  assert (Er : repeat uc (List.length ps) = uc :: repeat uc (List.length ps0)) by (rewrite Eps; reflexivity). rewrite Er.
  destruct uc as [|c0 uc0] eqn:Euc; [easy|]. rewrite <- Euc in *. clear Er.
  set (f := fun p => cyclic_loop uc _ p (map (fun _ => 0) p)).
  assert (A : forall p, In p ps -> exists r, f p = Some r).
  { intros p Pp. unfold f. destruct (cyclic_loop uc _ p _) as [r|] eqn:L; eauto. exfalso.
    apply cyclic_loop_none in L; [|symmetry; auto|now rewrite map_length]. destruct L as (i & Hi & N). apply in_seq in Hi.
    assert (I : In (Z.of_nat i) uc) by (apply Hc; lia). apply (In_nth _ _ 0%Z) in I as (k & Hk & Ek). rewrite <- (Hl p Pp) in Hk. now apply (N k). }
  assert (B : exists out, traverse f ps = Some out).
  { clear -A. induction ps as [|p ps IH]; cbn; eauto. destruct (A p (or_introl eq_refl)) as [r ->]. destruct IH as [o ->]; eauto. intros q Hq. apply A. now right. }
  destruct B as [out B]. exists out. split; auto. pose proof (traverse_length _ _ _ B) as L. split; auto.
  intros j Hj. apply traverse_some in B. pose proof (Forall2_nth _ _ _ [] [] B j Hj) as Fj. cbv beta in Fj.
  assert (Lj : List.length (nth j ps []) = List.length uc) by (apply Hl, nth_In; auto).
  unfold f in Fj. apply cyclic_loop_some in Fj; [|auto|now rewrite map_length|apply seq_NoDup].
  destruct Fj as [Lr Fj]. rewrite Lj in *. split; auto. intros t Ht. destruct (Fj t Ht) as [F1 _].
  assert (I : In (nth t uc 0%Z) uc) by now apply nth_In. apply Hc in I.
  destruct (F1 (Z.to_nat (nth t uc 0%Z))) as [(k & K1 & K2 & K3) F3].
  - apply in_seq. lia.
  - lia.
  - split; [exists k; auto|]. intros k' [K4 K5]. auto.
Qed.
Print Assumptions C64_cycle_maximum_partial.
(** A cycle number that is skipped makes it raise. *)
Theorem C64_gap_raises uc cs p ps i : (0 <= i <= last uc 0)%Z -> ~ In i uc -> List.length p = List.length uc ->
  format_cyclic (uc :: cs) (p :: ps) = None.
Proof.
  intros Hi NI Hl. unfold format_cyclic. destruct uc as [|c0 uc0] eqn:Eu; [reflexivity|]. rewrite <- Eu in *. cbn [traverse].
  replace (cyclic_loop uc _ p _) with (@None (list R)); [reflexivity|]. symmetry.
  apply cyclic_loop_none; [auto|now rewrite map_length|]. exists (Z.to_nat i). split; [apply in_seq; lia|].
  intros k Hk E. apply NI. rewrite Z2Nat.id in E by lia. rewrite <- E. apply nth_In. lia.
Qed.
Print Assumptions C64_gap_raises.
Theorem C64_own_cycle_refuted :
  ~ (forall cs ps out, List.length cs = List.length ps ->
      (forall c, In c cs -> forall v, In v c <-> (0 <= v <= last c 0)%Z) ->
      (forall j, (j < List.length ps)%nat -> List.length (nth j ps []) = List.length (nth j cs [])) ->
      format_cyclic cs ps = Some out ->
      forall j t, (j < List.length ps)%nat -> (t < List.length (nth j ps []))%nat ->
      is_max_over (fun t' => (t' < List.length (nth j ps []))%nat /\ nth t' (nth j cs []) 0%Z = nth t (nth j cs []) 0%Z)
        (fun t' => nth t' (nth j ps []) 0) (nth t (nth j out []) 0)).
Proof.
  intros H. specialize (fun A B => H [[0; 0]; [0; 1]]%Z [[1; 2]; [1; 2]] _ eq_refl A B refute_cyclic).
  destruct (fun A B => H A B 1%nat 0%nat) as [(k & [K1 K2] & K3) _]; cbn; try lia.
  - intros c [<-|[<-|[]]] v; cbn; split; intros; intuition lia.
  - intros [|[|j]] Hj; cbn in *; lia.
  - cbn in *. destruct k as [|[|k]]; cbn in *; lra || lia.
Qed.
Print Assumptions C64_own_cycle_refuted.
Example C64_example : let uc := [0; 0; 1; 1; 2]%Z in (forall c, In c uc <-> (0 <= c <= last uc 0)%Z) /\
  format_cyclic [uc; uc] [[1; 2; 3; 4; 5]; [5; 4; 3; 2; 1]] = Some [[2; 2; 4; 4; 5]; [5; 5; 3; 3; 1]].
Proof.
  cbv zeta. split.
  - intros c. cbn. split; intros; intuition lia.
  - cbv -[Rmax IZR Rplus Rminus]. rewrite (Rmax_right 1 2), (Rmax_right 3 4), (Rmax_left 5 4), (Rmax_left 3 2) by lra. reflexivity.
Qed.

(** C65.  [t0] is the first flagged time. *)
Definition first_flag (c : list Z) (t0 : nat) : Prop :=
  (t0 < List.length c)%nat /\ nth t0 c 0%Z = 1%Z /\ forall t, (t < t0)%nat -> nth t c 0%Z <> 1%Z.
Lemma sel_first c : forall p t0, first_flag c t0 -> List.length p = List.length c ->
  exists tl, sel (map (fun c => Z.eqb c 1) c) p = nth t0 p 0 :: tl.
Proof.
  induction c as [|a c IH]; intros p t0 (H1 & H2 & H3) L; cbn in H1; [lia|]. destruct p as [|v p]; [discriminate|]. cbn [map sel].
  destruct (Z.eqb_spec a 1) as [E|E].
  - destruct t0; [cbn; eauto|]. exfalso. now apply (H3 0%nat); [lia|].
  - destruct t0; [now cbn in H2|]. cbn [nth]. apply IH; [|cbn in L; lia]. split; [lia|]. split; [exact H2|].
    intros t Ht. apply (H3 (S t)). lia.
Qed.
Theorem C65_relaxation_partial c t0 ps : ps <> [] -> (forall p, In p ps -> List.length p = List.length c) -> first_flag c t0 ->
  exists out, format_relaxation (repeat c (List.length ps)) ps = Some out /\ List.length out = List.length ps /\
  forall j, (j < List.length ps)%nat -> List.length (nth j out []) = List.length c /\
  forall t, (t < List.length c)%nat ->
    nth t (nth j out []) 0 = if Z.eqb (nth t c 0%Z) 1 then nth t (nth j ps []) 0 - nth t0 (nth j ps []) 0 else 0.
Proof.
  intros Hp Hl F0. unfold format_relaxation. destruct ps as [|p0 ps0] eqn:Eps; [easy|]. rewrite <- Eps in *.
  assert (Er : repeat c (List.length ps) = c :: repeat c (List.length ps0)) by (rewrite Eps; reflexivity). rewrite Er. clear Er.
  set (m := map (fun c => Z.eqb c 1) c).
  rewrite (traverse_total _ (fun p => put m (map (fun v => v - nth t0 p 0) (sel m p)) (map (fun _ => 0) p))).
  2: { intros p Pp. destruct (sel_first c p t0 F0 (Hl p Pp)) as [tl E]. fold m in E. rewrite E at 1. rewrite E. reflexivity. }
  eexists. split; [reflexivity|]. split; [apply map_length|]. intros j Hj.
  set (g := fun p => put m _ _). rewrite nth_indep with (d' := g []) by (rewrite map_length; auto). rewrite (map_nth g). unfold g.
  assert (Lj : List.length (nth j ps []) = List.length c) by (apply Hl, nth_In; auto).
  rewrite put_length, map_length. split; auto. intros t Ht.
  rewrite (put_sel _ m (nth j ps []) _ 0 0); [|unfold m; now rewrite map_length|now rewrite map_length|lia].
  unfold m. rewrite nth_indep with (d' := Z.eqb 0 1) by (rewrite map_length; auto). rewrite (map_nth (fun c => Z.eqb c 1)).
  destruct (Z.eqb (nth t c 0%Z) 1); auto. exact (map_nth (fun _ => 0) (nth j ps []) 0 t).
Qed.
Print Assumptions C65_relaxation_partial.
Theorem C65_no_hold_raises c cs p ps : ~ In 1%Z c -> format_relaxation (c :: cs) (p :: ps) = None.
Proof.
  intros N. cbn. assert (E : sel (map (fun c => Z.eqb c 1) c) p = []).
  { revert p. induction c as [|a c IH]; intros [|v p]; cbn; auto. destruct (Z.eqb_spec a 1); [exfalso; apply N; now left|]. apply IH. intros I. apply N. now right. }
  now rewrite E.
Qed.
Print Assumptions C65_no_hold_raises.
Theorem C65_own_hold_refuted :
  ~ (forall cs ps out, List.length cs = List.length ps -> format_relaxation cs ps = Some out ->
      forall j t t0, (j < List.length ps)%nat -> List.length (nth j ps []) = List.length (nth j cs []) ->
      first_flag (nth j cs []) t0 -> (t < List.length (nth j ps []))%nat ->
      nth t (nth j out []) 0 = if Z.eqb (nth t (nth j cs []) 0%Z) 1 then nth t (nth j ps []) 0 - nth t0 (nth j ps []) 0 else 0).
Proof.
  intros H. specialize (H [[1; 1]; [0; 1]]%Z [[1; 2]; [1; 2]] [[1 - 1; 2 - 1]; [1 - 1; 2 - 1]] eq_refl eq_refl 1%nat 1%nat 1%nat).
  cbn in H. specialize (H ltac:(lia) eq_refl). assert (F : first_flag [0; 1]%Z 1).
  { split; [cbn; lia|]. split; [reflexivity|]. intros [|t] Ht; cbn; [lia|lia]. }
  specialize (H F ltac:(lia)). lra.
Qed.
Print Assumptions C65_own_hold_refuted.
Example C65_example : let c := [0; 0; 1; 1]%Z in first_flag c 2 /\ format_relaxation [c; c] [[1; 2; 3; 5]; [4; 3; 2; 1]] = Some [[0; 0; 3 - 3; 5 - 3]; [0; 0; 2 - 2; 1 - 2]].
Proof. cbv zeta. split; [|reflexivity]. split; [cbn; lia|]. split; [reflexivity|]. intros [|[|t]] Ht; cbn; lia. Qed.

(** C66 *)
Lemma first_true_spec m : (exists i, (i < List.length m)%nat /\ nth i m false = true) ->
  nth (first_true m) m false = true /\ (first_true m < List.length m)%nat /\ forall i, (i < first_true m)%nat -> nth i m false = false.
Proof.
  induction m as [|b m IH]; intros (i & Hi & E); cbn in *; [lia|]. destruct b.
  - repeat split; auto; lia.
  - destruct i; [discriminate|]. assert (X : existsb (fun b => b) m = true).
    { apply existsb_exists. exists true. split; auto. rewrite <- E. apply nth_In. lia. }
    rewrite X. destruct IH as (I1 & I2 & I3); [exists i; split; auto; lia|]. repeat split; auto; [lia|].
    intros [|k] Hk; auto. apply I3. lia.
Qed.
Theorem C66_abstract_tensile cs ps : List.length cs = List.length ps ->
  (forall j, (j < List.length ps)%nat -> List.length (nth j ps []) = List.length (nth j cs []) /\ nth j ps [] <> []) ->
  exists out, format_abstract_tensile cs ps = Some out /\ List.length out = List.length ps /\
  forall j, (j < List.length ps)%nat -> let c := nth j cs [] in let p := nth j ps [] in let o := nth j out [] in
  List.length o = List.length c /\ forall t, (t < List.length c)%nat ->
   (nth t c 0%Z = 0%Z -> nth t o 0 = 0) /\
   (nth t c 0%Z = 1%Z -> exists t0, first_flag c t0 /\ nth t o 0 = nth t0 p 0) /\
   (nth t c 0%Z = 2%Z -> is_max_over (fun t' => (t' < List.length c)%nat) (fun t' => nth t' p 0) (nth t o 0)).
Proof.
  intros L H. unfold format_abstract_tensile.
  set (g := fun cp : list Z * list R => match abstract_col (fst cp) (snd cp) with Some r => r | None => [] end).
  assert (G : forall j, (j < List.length ps)%nat -> abstract_col (nth j cs []) (nth j ps []) = Some (g (nth j cs [], nth j ps []))).
  { intros j Hj. destruct (H j Hj) as [_ Ne]. unfold g. cbn [fst snd]. unfold abstract_col. destruct (tmax (nth j ps [])) eqn:T; auto. now apply tmax_none in T. }
  rewrite (traverse_total _ g).
  2: { intros x Hx. apply (In_nth _ _ ([], [])) in Hx as (j & Hj & Ex). rewrite combine_length in Hj. rewrite combine_nth in Ex by auto. subst x. cbn [fst snd]. apply G. lia. }
  eexists. split; [reflexivity|]. rewrite map_length, combine_length. split; [lia|]. intros j Hj. cbv zeta.
  rewrite nth_indep with (d' := g ([], [])) by (rewrite map_length, combine_length; lia). rewrite (map_nth g), combine_nth by auto.
  destruct (H j Hj) as [Lj Ne]. specialize (G j Hj). set (c := nth j cs []) in *. set (p := nth j ps []) in *. revert G. generalize (g (c, p)).
  intros o. unfold abstract_col. destruct (tmax p) as [mv|] eqn:T; [|discriminate]. cbv zeta. intros G. injection G as <-. rewrite map_length. split; auto.
  intros t Ht. set (F := fun ci : Z => _ + _ + _). rewrite nth_indep with (d' := F 0%Z) by (rewrite map_length; auto). rewrite (map_nth F). unfold F.
  split; [|split]; intros E; rewrite E; cbn [Z.eqb Pos.eqb].
  - ring.
  - set (mk := map (Z.eqb 1) c). assert (Lm : List.length mk = List.length c) by (unfold mk; now rewrite map_length).
    assert (Nm : forall i, (i < List.length c)%nat -> nth i mk false = Z.eqb 1 (nth i c 0%Z)).
    { intros i Hi. unfold mk. rewrite nth_indep with (d' := Z.eqb 1 0) by (rewrite map_length; auto). now rewrite (map_nth (Z.eqb 1)). }
    destruct (first_true_spec mk) as (F1 & F2 & F3).
    { exists t. split; [lia|]. rewrite Nm by auto. now rewrite E. }
    exists (first_true mk). split; [|ring]. split; [lia|]. rewrite Nm in F1 by lia. apply Z.eqb_eq in F1. split; auto.
    intros i Hi E1. specialize (F3 i Hi). rewrite Nm in F3 by lia. rewrite E1 in F3. discriminate.
  - apply tmax_some in T as [T1 T2]. replace (0 + 0 + 0 + mv) with mv by ring. split.
    + apply (In_nth _ _ 0) in T1 as (k & Hk & Ek). exists k. split; auto. lia.
    + intros k Hk. apply T2, nth_In. lia.
Qed.
Print Assumptions C66_abstract_tensile.
Example C66_example : exists out, format_abstract_tensile [[0; 1; 1; 2]; [0; 0; 1; 2]]%Z [[1; 2; 4; 3]; [1; 2; 3; 4]] = Some out /\
  nth 2 (nth 0 out []) 0 = 2 /\ nth 3 (nth 0 out []) 0 = 4 /\ nth 1 (nth 1 out []) 0 = 0.
Proof.
  eexists. split; [reflexivity|]. cbv -[Rmax IZR Rplus Rminus]. rewrite (Rmax_left 4 3), (Rmax_right 2 4), (Rmax_right 1 4) by lra.
  repeat split; ring.
Qed.

(** C67 *)
Theorem C67_tension_tests rates temps elimits n : List.length rates = List.length temps -> List.length elimits = List.length temps ->
  exists out, make_tension_tests rates temps elimits n = Some out /\ List.length out = List.length temps /\
  forall i rate T el, nth_error rates i = Some rate -> nth_error temps i = Some T -> nth_error elimits i = Some el ->
  exists times strains temperatures cycles, nth_error out i = Some (times, strains, temperatures, cycles) /\
    List.length times = n /\ List.length strains = n /\ temperatures = repeat T n /\ cycles = repeat 0%Z n /\
    ((1 <= n)%nat -> nth 0 times 0 = 0 /\ nth 0 strains 0 = 0) /\
    ((2 <= n)%nat -> nth (n - 1) strains 0 = el /\ nth (n - 1) times 0 = el / rate) /\
    (rate <> 0 -> forall k, (k < n)%nat -> nth k strains 0 = rate * nth k times 0) /\
    (0 <= el / rate -> forall k, (S k < n)%nat -> nth k times 0 <= nth (S k) times 0) /\
    (0 < el / rate -> forall k, (S k < n)%nat -> nth k times 0 < nth (S k) times 0).
Proof.
  intros L1 L2. unfold make_tension_tests.
  rewrite (traverse_total _ (fun i => tension_col (nth i rates 0) (nth i temps 0) (nth i elimits 0) n)).
  2: { intros i Hi. apply in_seq in Hi. rewrite !(nth_error_nth' _ 0) by lia. reflexivity. }
  eexists. split; [reflexivity|]. rewrite map_length, seq_length. split; auto. intros i rate T el Hr HT He.
  assert (Hi : (i < List.length temps)%nat) by (apply nth_error_Some; congruence).
  exists (linspace 0 (el / rate) n), (linspace 0 el n), (repeat T n), (repeat 0%Z n). rewrite !linspace_length.
  split; [|repeat split; auto].
  - rewrite nth_error_map. rewrite (nth_error_nth' _ 0%nat) by (rewrite seq_length; auto). rewrite seq_nth by auto. cbn [option_map Nat.add].
    apply nth_error_nth with (d := 0) in Hr, HT, He. now rewrite Hr, HT, He.
  - now rewrite linspace_first.
  - now rewrite linspace_first.
  - now apply linspace_last.
  - now apply linspace_last.
  - intros Nz k Hk. rewrite !linspace_nth by auto. unfold Rdiv.
    replace (rate * (0 + INR k * ((el * / rate - 0) * / (INR n - 1)))) with (INR k * (el * / (INR n - 1)) * (rate * / rate)) by ring. rewrite Rinv_r by auto. ring.
  - intros P k Hk. pose proof (linspace_step 0 (el / rate) n k 0 Hk) as S. assert (2 <= INR n) by (apply (le_INR 2); lia).
    assert (0 <= (el / rate - 0) / (INR n - 1)); [|lra]. apply Rmult_le_pos; [lra|]. left. apply Rinv_0_lt_compat. lra.
  - intros P k Hk. pose proof (linspace_step 0 (el / rate) n k 0 Hk) as S. assert (2 <= INR n) by (apply (le_INR 2); lia).
    assert (0 < (el / rate - 0) / (INR n - 1)); [|lra]. apply Rdiv_lt_0_compat; lra.
Qed.
Print Assumptions C67_tension_tests.
Theorem C67_sample_tension max_strain rate n : let times := fst (sample_tension max_strain rate n) in let strains := snd (sample_tension max_strain rate n) in
  List.length times = n /\ List.length strains = n /\ ((1 <= n)%nat -> nth 0 times 0 = 0 /\ nth 0 strains 0 = 0) /\
  ((2 <= n)%nat -> rate <> 0 -> nth (n - 1) strains 0 = max_strain) /\
  (forall k, (k < n)%nat -> nth k strains 0 = rate * nth k times 0) /\
  (0 <= max_strain / rate -> forall k, (S k < n)%nat -> nth k times 0 <= nth (S k) times 0).
Proof.
  cbv zeta. cbn [sample_tension fst snd]. rewrite map_length, linspace_length.
  assert (M : forall k, (k < n)%nat -> nth k (map (fun t => t * rate) (linspace 0 (max_strain / rate) n)) 0 = rate * nth k (linspace 0 (max_strain / rate) n) 0).
  { intros k Hk. rewrite nth_indep with (d' := (fun t => t * rate) 0) by (rewrite map_length, linspace_length; auto). rewrite (map_nth (fun t => t * rate)). ring. }
  repeat split; auto.
  - now apply linspace_first.
  - rewrite M by auto. rewrite linspace_first by auto. ring.
  - intros Hn Nz. rewrite M by lia. rewrite linspace_last by auto. field. auto.
  - intros P k Hk. pose proof (linspace_step 0 (max_strain / rate) n k 0 Hk) as S. assert (2 <= INR n) by (apply (le_INR 2); lia).
    assert (0 <= (max_strain / rate - 0) / (INR n - 1)); [|lra]. apply Rmult_le_pos; [lra|]. left. apply Rinv_0_lt_compat. lra.
Qed.
Print Assumptions C67_sample_tension.
Example C67_example : exists out times strains, make_tension_tests [1; 2] [300; 400] [3; 6] 4 = Some out /\
  nth_error out 1 = Some (times, strains, [400; 400; 400; 400], [0; 0; 0; 0]%Z) /\ nth 1 times 0 = 1 /\ nth 1 strains 0 = 2 /\ nth 3 strains 0 = 6.
Proof.
  do 3 eexists. split; [reflexivity|]. split; [reflexivity|]. rewrite !linspace_nth by lia. cbn [INR]. repeat split; field.
Qed.

(** C68.  Extra hypothesis: the loading ends before the requested end time.
    Missing: the other case, refuted below. *)
Definition increasing (l : list R) : Prop := forall k, (S k < List.length l)%nat -> nth k l 0 < nth (S k) l 0.
Lemma tl_length {A} (l : list A) n : List.length l = S n -> List.length (tl l) = n.
Proof. destruct l; cbn; lia. Qed.
Lemma tl_nth {A} (l : list A) k d : nth k (tl l) d = nth (S k) l d.
Proof. destruct l; cbn; auto. now destruct k. Qed.
Lemma lin_increasing a b n : a < b -> increasing (linspace a b n).
Proof.
  intros L k Hk. rewrite linspace_length in Hk. pose proof (linspace_step a b n k 0 Hk). assert (2 <= INR n) by (apply (le_INR 2); lia).
  assert (0 < (b - a) / (INR n - 1)) by (apply Rdiv_lt_0_compat; lra). lra.
Qed.
Lemma log10_pow x : 0 < x -> Rpower 10 (log10 x) = x.
Proof. intros H. unfold Rpower, log10. replace (ln x / ln 10 * ln 10) with (ln x); [now apply exp_ln|]. field. intros E. assert (0 < ln 10) by (rewrite <- ln_1; apply ln_increasing; lra). lra. Qed.
Lemma log_increasing a b n : 0 < a < b -> increasing (logspace a b n).
Proof.
  intros [A L] k Hk. unfold logspace in *. rewrite map_length in Hk.
  rewrite !nth_indep with (d := 0) (d' := Rpower 10 0) by (rewrite map_length; lia). rewrite !map_nth. apply Rpower_lt; [lra|].
  apply lin_increasing; auto. unfold log10. apply Rmult_lt_compat_r; [apply Rinv_0_lt_compat; rewrite <- ln_1; apply ln_increasing; lra|now apply ln_increasing].
Qed.
Lemma logspace_length a b n : List.length (logspace a b n) = n.
Proof. unfold logspace. now rewrite map_length, linspace_length. Qed.
Theorem C68_creep_tests_partial log stress temps rates holds nl nh : (2 <= nl)%nat ->
  List.length temps = List.length stress -> List.length rates = List.length stress -> List.length holds = List.length stress ->
  exists out, make_creep_tests log stress temps rates holds nl nh = Some out /\ List.length out = List.length stress /\
  forall i s t lr T, nth_error stress i = Some s -> nth_error holds i = Some t -> nth_error rates i = Some lr -> nth_error temps i = Some T ->
  exists times stresses temperatures cycles, nth_error out i = Some (times, stresses, temperatures, cycles) /\
    List.length times = (nl + nh)%nat /\ List.length stresses = (nl + nh)%nat /\ temperatures = repeat T (nl + nh) /\
    cycles = repeat 0%Z nl ++ repeat 1%Z nh /\
    nth 0 times 0 = 0 /\ nth 0 stresses 0 = 0 /\ nth (nl - 1) times 0 = s / lr /\ nth (nl - 1) stresses 0 = s /\
    (lr <> 0 -> forall k, (k < nl)%nat -> nth k stresses 0 = lr * nth k times 0) /\
    (forall k, (nl <= k < nl + nh)%nat -> nth k stresses 0 = s) /\
    (0 < s / lr < t -> increasing times) /\
    ((1 <= nh)%nat -> (log = true -> 0 < t) -> nth (nl + nh - 1) times 0 = t).
Proof.
  intros Hn L1 L2 L3. unfold make_creep_tests.
  set (hold := fun s t lr => if log then logspace (s / lr) t (nh + 1) else linspace (s / lr) t (nh + 1)).
  set (col := fun s t lr (T : R) => (linspace 0 (s / lr) nl ++ tl (hold s t lr), linspace 0 s nl ++ repeat s nh, repeat T (nl + nh), repeat 0%Z nl ++ repeat 1%Z nh)).
  assert (C : forall s t lr T, creep_col log s t lr T nl nh = Some (col s t lr T)).
  { intros s t lr T. unfold creep_col. destruct nl as [|n]; [lia|]. rewrite linspace_last by lia. reflexivity. }
  rewrite (traverse_total _ (fun i => col (nth i stress 0) (nth i holds 0) (nth i rates 0) (nth i temps 0))).
  2: { intros i Hi. apply in_seq in Hi. rewrite !(nth_error_nth' _ 0) by lia. apply C. }
  eexists. split; [reflexivity|]. rewrite map_length, seq_length. split; auto. intros i s t lr T Hs Ht Hr HT.
  assert (Hi : (i < List.length stress)%nat) by (apply nth_error_Some; congruence).
  assert (LH : List.length (tl (hold s t lr)) = nh).
  { apply tl_length. unfold hold. destruct log; rewrite ?logspace_length, ?linspace_length; lia. }
  do 4 eexists. split.
  - rewrite nth_error_map. rewrite (nth_error_nth' _ 0%nat) by (rewrite seq_length; auto). rewrite seq_nth by auto. cbn [option_map Nat.add].
    apply nth_error_nth with (d := 0) in Hs, Ht, Hr, HT. rewrite Hs, Ht, Hr, HT. unfold col. reflexivity.
  - rewrite !app_length, LH, !linspace_length, repeat_length.
    assert (N1 : forall k, (k < nl)%nat -> nth k (linspace 0 (s / lr) nl ++ tl (hold s t lr)) 0 = nth k (linspace 0 (s / lr) nl) 0) by (intros; apply app_nth1; now rewrite linspace_length).
    assert (N2 : forall k, (k < nl)%nat -> nth k (linspace 0 s nl ++ repeat s nh) 0 = nth k (linspace 0 s nl) 0) by (intros; apply app_nth1; now rewrite linspace_length).
    assert (N3 : forall k, (nl <= k)%nat -> nth k (linspace 0 (s / lr) nl ++ tl (hold s t lr)) 0 = nth (S (k - nl)) (hold s t lr) 0).
    { intros k Hk. rewrite app_nth2 by (rewrite linspace_length; lia). rewrite linspace_length. now rewrite tl_nth. }
    repeat split; auto.
    + rewrite N1 by lia. apply linspace_first. lia.
    + rewrite N2 by lia. apply linspace_first. lia.
    + rewrite N1 by lia. now apply linspace_last.
    + rewrite N2 by lia. now apply linspace_last.
    + intros Nz k Hk. rewrite N1, N2 by lia. rewrite !linspace_nth by lia. assert (2 <= INR nl) by (apply (le_INR 2); lia). field. split; lra.
    + intros k Hk. rewrite app_nth2 by (rewrite linspace_length; lia). rewrite linspace_length. rewrite nth_indep with (d' := s) by (rewrite repeat_length; lia). apply nth_repeat.
    + intros P k Hk. rewrite app_length, LH, linspace_length in Hk.
      assert (IH : increasing (hold s t lr)) by (unfold hold; destruct log; [now apply log_increasing|now apply lin_increasing]).
      assert (LHo : List.length (hold s t lr) = (nh + 1)%nat) by (unfold hold; destruct log; rewrite ?logspace_length, ?linspace_length; auto).
      destruct (Nat.lt_total (S k) nl) as [Q|[Q|Q]].
      * rewrite !N1 by lia. apply lin_increasing; [lra|]. now rewrite linspace_length.
      * rewrite N1, N3 by lia. replace k with (nl - 1)%nat at 1 by lia. rewrite linspace_last by auto. replace (S k - nl)%nat with 0%nat by lia.
        replace (s / lr) with (nth 0 (hold s t lr) 0); [apply IH; lia|].
        unfold hold. destruct log; [|now apply linspace_first; lia]. unfold logspace.
        rewrite nth_indep with (d' := Rpower 10 0) by (rewrite map_length, linspace_length; lia). rewrite map_nth, linspace_first by lia. apply log10_pow. lra.
      * rewrite !N3 by lia. replace (S k - nl)%nat with (S (k - nl)) by lia. apply IH. lia.
    + intros H1 Hl. rewrite N3 by lia. replace (S (nl + nh - 1 - nl)) with (nh + 1 - 1)%nat by lia. unfold hold. destruct log; [|apply linspace_last; lia].
      unfold logspace. rewrite nth_indep with (d' := Rpower 10 0) by (rewrite map_length, linspace_length; lia). rewrite map_nth, linspace_last by lia. apply log10_pow; auto.
Qed.
Print Assumptions C68_creep_tests_partial.
Theorem C68_increasing_refuted :
  ~ (forall stress temps rates holds nl nh out, (2 <= nl)%nat -> (1 <= nh)%nat ->
      (forall i, 0 < nth i stress 1) -> (forall i, 0 < nth i rates 1) -> (forall i, 0 < nth i holds 1) ->
      make_creep_tests false stress temps rates holds nl nh = Some out ->
      forall i times st te cy, nth_error out i = Some (times, st, te, cy) -> increasing times).
Proof.
  intros H. destruct (C68_creep_tests_partial false [2] [300] [1] [1] 2 1 ltac:(lia) eq_refl eq_refl eq_refl) as (out & E & _ & K).
  destruct (K 0%nat 2 1 1 300 eq_refl eq_refl eq_refl eq_refl) as (ti & st & te & cy & E1 & L & _ & _ & _ & _ & _ & T1 & _ & _ & _ & _ & T2).
  assert (Q : forall x, 0 < x -> forall i, 0 < nth i [x] 1) by (intros x Hx [|[|i]]; cbn; lra).
  specialize (H [2] [300] [1] [1] 2%nat 1%nat out ltac:(lia) ltac:(lia) (Q 2 ltac:(lra)) (Q 1 ltac:(lra)) (Q 1 ltac:(lra)) E 0%nat ti st te cy E1 1%nat).
  rewrite L in H. specialize (H ltac:(lia)). cbn [Nat.add Nat.sub] in *. rewrite T1, T2 in H; [lra|lia|discriminate].
Qed.
Print Assumptions C68_increasing_refuted.
Example C68_example : exists out times stresses, make_creep_tests false [100] [300] [10] [50] 3 2 = Some out /\
  nth_error out 0 = Some (times, stresses, [300; 300; 300; 300; 300], [0; 0; 0; 1; 1]%Z) /\ increasing times /\ nth 4 times 0 = 50.
Proof.
  destruct (C68_creep_tests_partial false [100] [300] [10] [50] 3 2 ltac:(lia) eq_refl eq_refl eq_refl) as (out & E & _ & H).
  destruct (H 0%nat 100 50 10 300 eq_refl eq_refl eq_refl eq_refl) as (ti & st & te & cy & E1 & _ & _ & -> & -> & _ & _ & _ & _ & _ & _ & I & Lst).
  exists out, ti, st. split; auto. split; auto. split; [apply I; lra|]. apply Lst; [lia|discriminate].
Qed.

(** C84: hold_times is documented as the hold time, but is used as the end time
    of the test. *)
Theorem C84_hold_duration_refuted :
  ~ (forall stress temps rates holds nl nh out i times st te cy t, (2 <= nl)%nat -> (1 <= nh)%nat ->
      make_creep_tests false stress temps rates holds nl nh = Some out -> nth_error holds i = Some t ->
      nth_error out i = Some (times, st, te, cy) -> nth (nl + nh - 1) times 0 - nth (nl - 1) times 0 = t).
Proof.
  intros H. destruct (C68_creep_tests_partial false [100] [300] [10] [50] 3 2 ltac:(lia) eq_refl eq_refl eq_refl) as (out & E & _ & K).
  destruct (K 0%nat 100 50 10 300 eq_refl eq_refl eq_refl eq_refl) as (ti & st & te & cy & E1 & _ & _ & _ & _ & _ & _ & T1 & _ & _ & _ & _ & T2).
  specialize (H [100] [300] [10] [50] 3%nat 2%nat out 0%nat ti st te cy 50 ltac:(lia) ltac:(lia) E eq_refl E1). cbn [Nat.add Nat.sub] in *.
  rewrite T1, T2 in H; [lra|lia|discriminate].
Qed.
Print Assumptions C84_hold_duration_refuted.

(** C70 *)
Theorem C70_load_results x j2 jr : let n := List.length (ds_control x) in
  List.length (ds_type x) = n -> List.length (ds_strain x) = n -> List.length (ds_stress x) = n -> List.length j2 = n -> List.length jr = n ->
  (forall s, In s (ds_type x) -> In s ["tensile"; "relaxation"; "strain_cyclic"; "creep"; "stress_cyclic"; "abstract_tensile"; "direct_data"]%string) ->
  (forall s, In s (ds_control x) -> s = "strain"%string \/ s = "stress"%string) ->
  exists l, load_results x j2 jr = Some l /\ ld_times l = ds_time x /\ ld_temps l = ds_temp x /\ ld_cycles l = ds_cycle x /\
    List.length (ld_idata l) = n /\ List.length (ld_results l) = n /\
  forall i, (i < n)%nat ->
    (nth i (ds_control x) EmptyString = "strain"%string ->
       nth i (ld_control l) 9%Z = 0%Z /\ nth i (ld_idata l) [] = nth i (ds_strain x) [] /\ nth i (ld_results l) [] = nth i (ds_stress x) []) /\
    (nth i (ds_control x) EmptyString = "stress"%string ->
       nth i (ld_control l) 9%Z = 1%Z /\ nth i (ld_idata l) [] = nth i (ds_stress x) [] /\ nth i (ld_results l) [] = nth i (ds_strain x) []) /\
    nth_error ["tensile"; "relaxation"; "strain_cyclic"; "creep"; "stress_cyclic"; "abstract_tensile"; "direct_data"]%string
      (Z.to_nat (nth i (ld_types l) 9%Z)) = Some (nth i (ds_type x) EmptyString).
Proof.
  cbv zeta. intros L1 L2 L3 L4 L5 HT HC. unfold load_results.
  assert (CT : forall s, s = "strain"%string \/ s = "stress"%string -> control_map s = Some (if String.eqb s "strain" then 0%Z else 1%Z)) by (intros s [->| ->]; reflexivity).
  assert (TT : forall s, In s ["tensile"; "relaxation"; "strain_cyclic"; "creep"; "stress_cyclic"; "abstract_tensile"; "direct_data"]%string ->
     exists z, exp_map s = Some z /\ nth_error ["tensile"; "relaxation"; "strain_cyclic"; "creep"; "stress_cyclic"; "abstract_tensile"; "direct_data"]%string (Z.to_nat z) = Some s).
  { intros s Hs. cbn in Hs. repeat (destruct Hs as [<-|Hs]; [eexists; split; reflexivity|]). easy. }
  rewrite (traverse_total control_map (fun s => if String.eqb s "strain" then 0%Z else 1%Z)) by (intros; auto).
  rewrite (traverse_total exp_map (fun s => match exp_map s with Some z => z | None => 0%Z end)) by (intros s Hs; destruct (TT s (HT s Hs)) as (z & -> & _); auto).
  eexists. split; [reflexivity|]. cbn [ld_times ld_temps ld_cycles ld_idata ld_results ld_types ld_control].
  set (F := fun s => if String.eqb s "strain" then 0%Z else 1%Z). set (ctl := map F (ds_control x)). set (m0 := map (fun c => Z.eqb c 0) ctl). set (m1 := map (fun c => Z.eqb c 1) ctl).
  rewrite !put_length. repeat split; auto.
  all: assert (N : nth i ctl 9%Z = F (nth i (ds_control x) EmptyString)) by
    (unfold ctl; rewrite nth_indep with (d' := F EmptyString) by (rewrite map_length; auto); apply map_nth).
  all: assert (M0 : nth i m0 false = Z.eqb (nth i ctl 9%Z) 0) by
    (unfold m0; rewrite nth_indep with (d' := Z.eqb 9 0) by (unfold ctl; rewrite !map_length; auto); apply (map_nth (fun c => Z.eqb c 0))).
  all: assert (M1 : nth i m1 false = Z.eqb (nth i ctl 9%Z) 1) by
    (unfold m1; rewrite nth_indep with (d' := Z.eqb 9 1) by (unfold ctl; rewrite !map_length; auto); apply (map_nth (fun c => Z.eqb c 1))).
  all: assert (Lm : List.length m0 = List.length (ds_control x) /\ List.length m1 = List.length (ds_control x)) by (unfold m0, m1, ctl; now rewrite !map_length).
  all: destruct Lm as [Lm0 Lm1].
  7: { rewrite nth_indep with (d' := (fun s => match exp_map s with Some z => z | None => 0%Z end) EmptyString) by (rewrite map_length; lia).
       rewrite (map_nth (fun s => match exp_map s with Some z => z | None => 0%Z end)).
       destruct (TT (nth i (ds_type x) EmptyString)) as (z & -> & E); [apply HT, nth_In; lia|exact E]. }
  all: rewrite H0 in N; cbn in N; rewrite N in M0, M1; cbn in M0, M1; auto.
  all: rewrite put_sel_id; rewrite ?put_length; try lia; rewrite M1; auto.
  all: rewrite put_sel_id; rewrite ?put_length; try lia; rewrite M0; auto.
Qed.
Print Assumptions C70_load_results.
Theorem C70_unknown_raises x j2 jr :
  (exists s, In s (ds_type x) /\ ~ In s ["tensile"; "relaxation"; "strain_cyclic"; "creep"; "stress_cyclic"; "abstract_tensile"; "direct_data"]%string) \/
  (exists s, In s (ds_control x) /\ s <> "strain"%string /\ s <> "stress"%string) ->
  load_results x j2 jr = None.
Proof.
  assert (TN : forall (f : string -> option Z) l s, In s l -> f s = None -> traverse f l = None).
  { intros f l s Hs E. destruct (traverse f l) as [r|] eqn:T; auto. apply traverse_some in T. exfalso. induction T; [easy|]. destruct Hs as [<-|Hs]; [congruence|auto]. }
  unfold load_results. intros [(s & Hs & N)|(s & Hs & N1 & N2)].
  - rewrite (TN exp_map _ s Hs); auto. unfold exp_map.
    repeat match goal with |- context [String.eqb s ?c] => destruct (String.eqb_spec s c) as [->|]; [exfalso; apply N; cbn; tauto|] end. reflexivity.
  - rewrite (TN control_map _ s Hs); [now destruct (traverse exp_map _)|]. unfold control_map.
    destruct (String.eqb_spec s "strain"); [easy|]. destruct (String.eqb_spec s "stress"); [easy|reflexivity].
Qed.
Print Assumptions C70_unknown_raises.
Example C70_example : load_results (Dataset [[1]; [2]] [[300]; [301]] [[3]; [4]] [[5]; [6]] [[0]; [1]]%Z ["tensile"; "creep"]%string ["strain"; "stress"]%string) [[]; []] [[]; []]
  = Some (Loaded [[1]; [2]] [[300]; [301]] [[3]; [6]] [[5]; [4]] [[0]; [1]]%Z [0; 3]%Z [0; 1]%Z).
Proof. reflexivity. Qed.
