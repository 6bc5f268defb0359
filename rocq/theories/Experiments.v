(** Model of experiments.py 72-319 (load_results, convert_results, the format
    functions, make_tension_tests), 322-369 (make_creep_tests), 391-408
    (sample_tension) and 524-548 (the dictionaries).
    A tensor of shape (ntime, nexp) is the list of its columns, one per
    experiment; cycle counts and types are integers, results finite reals.
    [None] = the call raises. *)
From Coq Require Import Reals ZArith Lra Lia List Bool Arith String.
Import ListNotations.
Local Open Scope R_scope.

(** ** Torch indexing *)
(** x[:, mask] on a list of columns, or x[mask] on one column *)
Fixpoint sel {A} (m : list bool) (xs : list A) : list A :=
  match m, xs with
  | b :: m', x :: xs' => if b then x :: sel m' xs' else sel m' xs'
  | _, _ => []
  end.
(** x[:, mask] = new *)
Fixpoint put {A} (m : list bool) (new old : list A) : list A :=
  match m, old with
  | true :: m', o :: old' => match new with v :: new' => v :: put m' new' old' | [] => o :: put m' [] old' end
  | false :: m', o :: old' => o :: put m' new old'
  | _, _ => old
  end.
(** torch.max of a column (raises when empty) *)
Fixpoint tmax (xs : list R) : option R :=
  match xs with
  | [] => None
  | x :: xs' => match tmax xs' with None => Some x | Some m => Some (Rmax x m) end
  end.
Fixpoint traverse {A B} (f : A -> option B) (l : list A) : option (list B) :=
  match l with
  | [] => Some []
  | x :: l' => match f x, traverse f l' with Some y, Some r => Some (y :: r) | _, _ => None end
  end.

(** ** The format functions: cycles -> predictions -> processed *)
Definition fmt := list (list Z) -> list (list R) -> option (list (list R)).

(** experiments.py 158-174 and 216-233 *)
Definition format_direct_data : fmt := fun cycles predictions => Some predictions.
Definition format_tensile : fmt := fun cycles predictions => Some predictions.

(** torch.max(cycles == 1, 0)[1]: index of the first maximal entry *)
Fixpoint first_true (m : list bool) : nat :=
  match m with
  | [] => 0
  | true :: _ => 0
  | false :: m' => if existsb (fun b => b) m' then S (first_true m') else 0
  end.
(** format_abstract_tensile, experiments.py 177-213, column by column (all
    operations act on the columns separately); torch.max raises on an empty
    column. *)
Definition abstract_col (c : list Z) (p : list R) : option (list R) :=
  match tmax p with
  | None => None
  | Some mvalue =>
    let first := nth (first_true (map (Z.eqb 1) c)) p 0 in
    Some (map (fun ci => (0 + (if Z.eqb ci 0 then 0 else 0))
                         + (if Z.eqb ci 1 then first else 0)
                         + (if Z.eqb ci 2 then mvalue else 0)) c)
  end.
Definition format_abstract_tensile : fmt := fun cycles predictions =>
  traverse (fun cp => abstract_col (fst cp) (snd cp)) (combine cycles predictions).

(** format_relaxation, experiments.py 236-263: rcurve comes from column 0;
    curve[0] raises when no row is flagged. *)
Definition format_relaxation : fmt := fun cycles predictions =>
  match cycles with
  | [] => None
  | c0 :: _ =>
    let rcurve := map (fun c => Z.eqb c 1) c0 in
    traverse (fun p =>
      match sel rcurve p with
      | [] => None
      | v0 :: _ => Some (put rcurve (map (fun v => v - v0) (sel rcurve p)) (map (fun _ => 0) p))
      end) predictions
  end.

(** format_cyclic, experiments.py 266-290: the cycle numbers of column 0 are
    used for all columns; uc[-1] raises on an empty column, torch.max on an
    empty cycle. *)
Definition cyclic_step (uc : list Z) (i : Z) (p r : list R) : option (list R) :=
  let curr := map (fun c => Z.eqb c i) uc in
  match tmax (sel curr p) with
  | None => None
  | Some v => Some (put curr (map (fun _ => v) (sel curr p)) r)
  end.
Fixpoint cyclic_loop (uc : list Z) (is : list nat) (p r : list R) : option (list R) :=
  match is with
  | [] => Some r
  | i :: is' => match cyclic_step uc (Z.of_nat i) p r with None => None | Some r' => cyclic_loop uc is' p r' end
  end.
Definition format_cyclic : fmt := fun cycles predictions =>
  match cycles with
  | [] => None
  | uc :: _ =>
    match uc with
    | [] => None
    | _ => traverse (fun p => cyclic_loop uc (seq 0 (Z.to_nat (last uc 0%Z + 1))) p (map (fun _ => 0) p)) predictions
    end
  end.

(** exp_map, exp_fns, exp_fns_num, control_map: experiments.py 524-548 *)
Definition exp_map (s : string) : option Z :=
  if String.eqb s "tensile" then Some 0%Z else if String.eqb s "relaxation" then Some 1%Z
  else if String.eqb s "strain_cyclic" then Some 2%Z else if String.eqb s "creep" then Some 3%Z
  else if String.eqb s "stress_cyclic" then Some 4%Z else if String.eqb s "abstract_tensile" then Some 5%Z
  else if String.eqb s "direct_data" then Some 6%Z else None.
Definition exp_fns_num : list (Z * fmt) :=
  [(0%Z, format_tensile); (1%Z, format_relaxation); (2%Z, format_cyclic); (3%Z, format_relaxation);
   (4%Z, format_cyclic); (5%Z, format_abstract_tensile); (6%Z, format_direct_data)].
Definition control_map (s : string) : option Z :=
  if String.eqb s "strain" then Some 0%Z else if String.eqb s "stress" then Some 1%Z else None.

(** convert_results, experiments.py 136-155; [junk] is the uninitialised
    torch.empty_like(results). *)
Fixpoint convert_loop (fns : list (Z * fmt)) (results : list (list R)) (cycles : list (list Z)) (types : list Z)
  (processed : list (list R)) : option (list (list R)) :=
  match fns with
  | [] => Some processed
  | (i, func) :: rest =>
    let current := map (fun t => Z.eqb t i) types in
    if existsb (fun b => b) current then
      match func (sel current cycles) (sel current results) with
      | None => None
      | Some new => convert_loop rest results cycles types (put current new processed)
      end
    else convert_loop rest results cycles types processed
  end.
Definition convert_results (junk results : list (list R)) (cycles : list (list Z)) (types : list Z) : option (list (list R)) :=
  convert_loop exp_fns_num results cycles types junk.

(** load_results, experiments.py 72-133; junk2, junkr are the uninitialised
    data[2] and results.  (data[2, :, mask] selects 2 first: torch treats an
    integer index as select, so no axes are moved.) *)
Record dataset := Dataset { ds_time : list (list R); ds_temp : list (list R); ds_strain : list (list R);
  ds_stress : list (list R); ds_cycle : list (list Z); ds_type : list string; ds_control : list string }.
Record loaded := Loaded { ld_times : list (list R); ld_temps : list (list R); ld_idata : list (list R);
  ld_results : list (list R); ld_cycles : list (list Z); ld_types : list Z; ld_control : list Z }.
Definition load_results (x : dataset) (junk2 junkr : list (list R)) : option loaded :=
  match traverse exp_map (ds_type x), traverse control_map (ds_control x) with
  | Some types, Some control =>
    let m0 := map (fun c => Z.eqb c 0) control in
    let m1 := map (fun c => Z.eqb c 1) control in
    let d2 := put m1 (sel m1 (ds_stress x)) (put m0 (sel m0 (ds_strain x)) junk2) in
    let re := put m1 (sel m1 (ds_strain x)) (put m0 (sel m0 (ds_stress x)) junkr) in
    Some (Loaded (ds_time x) (ds_temp x) d2 re (ds_cycle x) types control)
  | _, _ => None
  end.

(** ** Test generators *)
(** torch/np linspace with n points (one point: the start) *)
Definition linspace (a b : R) (n : nat) : list R := map (fun i => a + INR i * ((b - a) / (INR n - 1))) (seq 0 n).

(** make_tension_tests, experiments.py 293-319: columns of times, strains,
    temperatures, cycles; rates[i], elimits[i] raise when missing.  rates of
    zero give inf/nan in the code and are excluded where division matters. *)
Definition tension_col (rate T el : R) (n : nat) : list R * list R * list R * list Z :=
  (linspace 0 (el / rate) n, linspace 0 el n, repeat T n, repeat 0%Z n).
Definition make_tension_tests (rates temperatures elimits : list R) (nsteps : nat) : option (list (list R * list R * list R * list Z)) :=
  traverse (fun i => match nth_error rates i, nth_error elimits i with
    | Some r, Some el => Some (tension_col r (nth i temperatures 0) el nsteps)
    | _, _ => None end) (seq 0 (List.length temperatures)).
(** sample_tension, experiments.py 391-408 *)
Definition sample_tension (max_strain strain_rate : R) (n : nat) : list R * list R :=
  let times := linspace 0 (max_strain / strain_rate) n in
  (times, map (fun t => t * strain_rate) times).

(** torch.logspace(log10 a, log10 b, n): 10 ** linspace; a, b > 0 *)
Definition log10 (x : R) : R := ln x / ln 10.
Definition logspace (a b : R) (n : nat) : list R := map (fun v => Rpower 10 v) (linspace (log10 a) (log10 b) n).
(** one pass of the loop of make_creep_tests, experiments.py 345-369.  With
    nsteps_load = 0 the index nsteps_load - 1 = -1 reads the last entry of the
    still zero column, or raises if the column is empty. *)
Definition creep_col (log : bool) (s t lr T : R) (nl nh : nat) : option (list R * list R * list R * list Z) :=
  let load := linspace 0 (s / lr) nl in
  let start := match nl with
    | O => match nh with O => None | _ => Some 0 end
    | _ => Some (nth (nl - 1) load 0)
    end in
  match start with
  | None => None
  | Some t0 =>
    Some (load ++ tl (if log then logspace t0 t (nh + 1) else linspace t0 t (nh + 1)),
          linspace 0 s nl ++ repeat s nh, repeat T (nl + nh), repeat 0%Z nl ++ repeat 1%Z nh)
  end.
(** zip stops at the shortest list; the other columns stay zero (cycles do not). *)
Definition make_creep_tests (log : bool) (stress temperature rate hold_times : list R) (nl nh : nat)
  : option (list (list R * list R * list R * list Z)) :=
  traverse (fun i => match nth_error stress i, nth_error hold_times i, nth_error rate i, nth_error temperature i with
    | Some s, Some t, Some lr, Some T => creep_col log s t lr T nl nh
    | _, _, _, _ => Some (repeat 0 (nl + nh), repeat 0 (nl + nh), repeat 0 (nl + nh), repeat 0%Z nl ++ repeat 1%Z nh)
    end) (seq 0 (List.length stress)).

(** ** Lemmas *)
Lemma traverse_some {A B} (f : A -> option B) l r : traverse f l = Some r <-> Forall2 (fun x y => f x = Some y) l r.
Proof.
  revert r. induction l as [|x l IH]; intros r; cbn.
  - split; [intros H; injection H as <-; constructor|intros H; inversion H; reflexivity].
  - destruct (f x) as [y|] eqn:E.
    + destruct (traverse f l) as [q|].
      * split; [intros H; injection H as <-; constructor; auto; now apply IH|].
        intros H. inversion H as [|? ? ? ? E' F]; subst. apply IH in F. injection F as ->. congruence.
      * split; [discriminate|]. intros H. inversion H as [|? ? ? ? E' F]; subst. apply IH in F. discriminate.
    + split; [discriminate|]. intros H. inversion H; congruence.
Qed.
Lemma traverse_length {A B} (f : A -> option B) l r : traverse f l = Some r -> List.length r = List.length l.
Proof. intros H. apply traverse_some in H. induction H; cbn; auto. Qed.
Lemma Forall2_nth {A B} (P : A -> B -> Prop) l r a b : Forall2 P l r -> forall i, (i < List.length l)%nat -> P (nth i l a) (nth i r b).
Proof. intros H. induction H; intros i Hi; cbn in *; [lia|]. destruct i; auto. apply IHForall2. lia. Qed.
Lemma Forall2_intro {A B} (P : A -> B -> Prop) l r a b : List.length l = List.length r ->
  (forall i, (i < List.length l)%nat -> P (nth i l a) (nth i r b)) -> Forall2 P l r.
Proof.
  revert r. induction l as [|x l IH]; intros [|y r] E H; cbn in *; try discriminate; constructor.
  - apply (H 0%nat). lia.
  - apply IH; [lia|]. intros i Hi. apply (H (S i)). lia.
Qed.
Lemma sel_length {A B} m (xs : list A) (ys : list B) : List.length xs = List.length ys -> List.length (sel m xs) = List.length (sel m ys).
Proof.
  revert xs ys. induction m as [|b m IH]; intros [|x xs] [|y ys] E; cbn in *; try discriminate; auto.
  injection E as E. destruct b; cbn; auto.
Qed.
Lemma put_length {A} m (new old : list A) : List.length (put m new old) = List.length old.
Proof.
  revert new old. induction m as [|b m IH]; intros new [|o old]; cbn; auto; destruct b; cbn; auto.
  destruct new; cbn; auto.
Qed.
(** Masked assignment of a map of the selected entries. *)
Lemma put_sel {A B} (f : A -> B) m xs old d d' : List.length m = List.length xs -> List.length old = List.length xs ->
  forall i, (i < List.length xs)%nat ->
  nth i (put m (map f (sel m xs)) old) d' = if nth i m false then f (nth i xs d) else nth i old d'.
Proof.
  revert xs old. induction m as [|b m IH]; intros [|x xs] [|o old] E1 E2 i Hi; cbn in *; try lia; try discriminate.
  destruct b; cbn; destruct i; auto; apply IH; lia.
Qed.
Lemma sel_in {A} m (xs : list A) d v : List.length m = List.length xs ->
  (In v (sel m xs) <-> exists i, (i < List.length xs)%nat /\ nth i m false = true /\ nth i xs d = v).
Proof.
  revert xs. induction m as [|b m IH]; intros [|x xs] E; cbn in *; try discriminate.
  - split; [easy|]. intros (i & Hi & _). lia.
  - injection E as E. specialize (IH xs E). split.
    + intros H. destruct b; cbn in H.
      * destruct H as [->|H]; [exists 0%nat; repeat split; auto; lia|]. apply IH in H as (i & Hi & A1 & A2). exists (S i). repeat split; auto. lia.
      * apply IH in H as (i & Hi & A1 & A2). exists (S i). repeat split; auto. lia.
    + intros (i & Hi & A1 & A2). destruct i; cbn in *.
      * subst. now left.
      * assert (In v (sel m xs)) by (apply IH; exists i; repeat split; auto; lia). destruct b; cbn; auto.
Qed.
Lemma sel_map {A B} (f : A -> B) m xs : sel m (map f xs) = map f (sel m xs).
Proof. revert xs. induction m as [|b m IH]; intros [|x xs]; cbn; auto. destruct b; cbn; now rewrite IH. Qed.

Lemma tmax_some xs m : tmax xs = Some m <-> In m xs /\ forall x, In x xs -> x <= m.
Proof.
  revert m. induction xs as [|x xs IH]; intros m; cbn.
  - split; [discriminate|intros [[] _]].
  - destruct (tmax xs) as [q|] eqn:E.
    + destruct (proj1 (IH q) eq_refl) as [Q1 Q2]. split.
      * intros H. injection H as <-. split.
        -- unfold Rmax. destruct (Rle_dec x q); auto.
        -- intros z [<-|Hz]; [apply Rmax_l|]. apply Rle_trans with q; [auto|apply Rmax_r].
      * intros [H1 H2]. f_equal. unfold Rmax. destruct (Rle_dec x q) as [L|L].
        -- destruct H1 as [<-|H1]; [apply Rle_antisym; auto|]. apply Rle_antisym; auto.
        -- destruct H1 as [<-|H1]; auto. specialize (Q2 m H1). specialize (H2 x (or_introl eq_refl)). lra.
    + destruct xs as [|z xs]; [|cbn in E; destruct (tmax xs); discriminate]. split.
      * intros H. injection H as <-. split; [now left|]. intros z [<-|[]]. lra.
      * intros [[<-|[]] _]. reflexivity.
Qed.
Lemma tmax_none xs : tmax xs = None <-> xs = [].
Proof. destruct xs; cbn; [easy|]. destruct (tmax xs); split; discriminate. Qed.

(** *** The cyclic loop *)
Lemma cyclic_step_some uc i p r r' : List.length uc = List.length p -> List.length r = List.length p ->
  cyclic_step uc i p r = Some r' ->
  List.length r' = List.length p /\
  exists v, (exists k, (k < List.length p)%nat /\ nth k uc 0%Z = i /\ nth k p 0 = v) /\
    (forall k, (k < List.length p)%nat -> nth k uc 0%Z = i -> nth k p 0 <= v) /\
    forall k, (k < List.length p)%nat -> nth k r' 0 = if Z.eqb (nth k uc 0%Z) i then v else nth k r 0.
Proof.
  intros E1 E2. unfold cyclic_step. set (m := map _ uc).
  assert (Em : List.length m = List.length p) by (unfold m; now rewrite map_length).
  assert (Nm : forall k, (k < List.length p)%nat -> nth k m false = Z.eqb (nth k uc 0%Z) i).
  { intros k Hk. unfold m. rewrite nth_indep with (d' := Z.eqb 0 i) by (fold m; lia). now rewrite (map_nth (fun c => Z.eqb c i)). }
  destruct (tmax (sel m p)) as [v|] eqn:T; [|discriminate]. intros H. injection H as <-.
  rewrite put_length. split; auto. exists v. apply tmax_some in T as [T1 T2]. split; [|split].
  - apply (sel_in m p 0) in T1 as (k & Hk & A1 & A2); auto. exists k. rewrite Nm in A1 by auto. apply Z.eqb_eq in A1. auto.
  - intros k Hk A. apply T2. apply (sel_in m p 0); auto. exists k. rewrite Nm by auto. rewrite A, Z.eqb_refl. auto.
  - intros k Hk. rewrite (put_sel _ m p r 0 0) by auto. now rewrite Nm.
Qed.
Lemma cyclic_step_none uc i p r : List.length uc = List.length p ->
  (cyclic_step uc i p r = None <-> forall k, (k < List.length p)%nat -> nth k uc 0%Z <> i).
Proof.
  intros E1. unfold cyclic_step. set (m := map _ uc).
  assert (Em : List.length m = List.length p) by (unfold m; now rewrite map_length).
  assert (Nm : forall k, (k < List.length p)%nat -> nth k m false = Z.eqb (nth k uc 0%Z) i).
  { intros k Hk. unfold m. rewrite nth_indep with (d' := Z.eqb 0 i) by (fold m; lia). now rewrite (map_nth (fun c => Z.eqb c i)). }
  destruct (tmax (sel m p)) as [v|] eqn:T.
  - split; [discriminate|]. intros H. exfalso. apply tmax_some in T as [T1 T2].
    apply (sel_in m p 0) in T1 as (k & Hk & A1 & A2); auto. rewrite Nm in A1 by auto. apply Z.eqb_eq in A1. now apply (H k).
  - split; auto. intros _ k Hk A. apply tmax_none in T.
    assert (In (nth k p 0) (sel m p)) by (apply (sel_in m p 0); auto; exists k; rewrite Nm, A, Z.eqb_refl by auto; auto).
    rewrite T in H. easy.
Qed.
Lemma cyclic_loop_some uc p : List.length uc = List.length p -> forall is r r', List.length r = List.length p -> NoDup is ->
  cyclic_loop uc is p r = Some r' ->
  List.length r' = List.length p /\ forall k, (k < List.length p)%nat ->
    (forall i, In i is -> nth k uc 0%Z = Z.of_nat i ->
       (exists k', (k' < List.length p)%nat /\ nth k' uc 0%Z = nth k uc 0%Z /\ nth k' p 0 = nth k r' 0) /\
       (forall k', (k' < List.length p)%nat -> nth k' uc 0%Z = nth k uc 0%Z -> nth k' p 0 <= nth k r' 0)) /\
    ((forall i, In i is -> nth k uc 0%Z <> Z.of_nat i) -> nth k r' 0 = nth k r 0).
Proof.
  intros E1. induction is as [|i is IH]; intros r r' E2 ND; cbn.
  - intros H. injection H as <-. split; auto. intros k Hk. split; [easy|auto].
  - destruct (cyclic_step uc (Z.of_nat i) p r) as [r1|] eqn:S; [|discriminate]. intros H.
    apply cyclic_step_some in S as (L1 & v & V1 & V2 & V3); auto. inversion ND as [|? ? NI ND']; subst.
    destruct (IH r1 r' L1 ND' H) as (L2 & I). split; auto. intros k Hk. destruct (I k Hk) as [I1 I2]. split.
    + intros j [<-|Hj] Ek; [|now apply (I1 j)].
      assert (Q : nth k r' 0 = v).
      { rewrite I2; [rewrite V3 by auto; now rewrite Ek, Z.eqb_refl|]. intros j Hj Ej. rewrite Ek in Ej. apply Nat2Z.inj in Ej. now subst. }
      rewrite Q, Ek. split; auto.
    + intros NE. rewrite I2 by auto. rewrite V3 by auto. destruct (Z.eqb_spec (nth k uc 0%Z) (Z.of_nat i)) as [E|]; auto.
      exfalso. now apply (NE i (or_introl eq_refl)).
Qed.
Lemma cyclic_loop_none uc p : List.length uc = List.length p -> forall is r, List.length r = List.length p ->
  (cyclic_loop uc is p r = None <-> exists i, In i is /\ forall k, (k < List.length p)%nat -> nth k uc 0%Z <> Z.of_nat i).
Proof.
  intros E1. induction is as [|i is IH]; intros r E2; cbn.
  - split; [discriminate|]. intros (i & [] & _).
  - destruct (cyclic_step uc (Z.of_nat i) p r) as [r1|] eqn:S.
    + pose proof S as S'. apply cyclic_step_some in S as (L1 & v & (k & Hk & Ek & _) & _); auto. rewrite (IH r1 L1). split.
      * intros (j & Hj & A). exists j. auto.
      * intros (j & [<-|Hj] & A); [exfalso; now apply (A k)|]. exists j. auto.
    + split; auto. intros _. exists i. split; auto. now apply (cyclic_step_none uc (Z.of_nat i) p r).
Qed.

(** *** convert_results column by column *)
Record experiment := Experiment { x_type : Z; x_cycles : list Z; x_results : list R }.
(** The format function applied to one experiment alone. *)
Definition alone (f : fmt) (x : experiment) : option (list R) :=
  match f [x_cycles x] [x_results x] with Some [p] => Some p | _ => None end.
Definition columnwise (f : fmt) : Prop := forall xs, xs <> [] ->
  f (map x_cycles xs) (map x_results xs) = traverse (alone f) xs.
(** columnwise on groups whose experiments share their cycle column *)
Definition columnwise_shared (f : fmt) : Prop := forall xs c, xs <> [] -> (forall x, In x xs -> x_cycles x = c) ->
  f (map x_cycles xs) (map x_results xs) = traverse (alone f) xs.
Lemma traverse_ext {A B} (f g : A -> option B) l : (forall x, In x l -> f x = g x) -> traverse f l = traverse g l.
Proof. induction l as [|x l IH]; cbn; auto. intros H. rewrite (H x) by auto. rewrite IH by auto. reflexivity. Qed.
Lemma traverse_map {A B C} (f : B -> option C) (g : A -> B) l : traverse f (map g l) = traverse (fun x => f (g x)) l.
Proof. induction l as [|x l IH]; cbn; auto. now rewrite IH. Qed.
Lemma traverse_total {A B} (f : A -> option B) (g : A -> B) l : (forall x, In x l -> f x = Some (g x)) -> traverse f l = Some (map g l).
Proof. induction l as [|x l IH]; cbn; auto. intros H. rewrite (H x) by auto. rewrite IH by auto. reflexivity. Qed.
Lemma tensile_columnwise : columnwise format_tensile.
Proof. intros xs _. unfold alone, format_tensile. symmetry. now apply traverse_total. Qed.
Lemma direct_columnwise : columnwise format_direct_data.
Proof. intros xs _. unfold alone, format_direct_data. symmetry. now apply traverse_total. Qed.
Lemma abstract_columnwise : columnwise format_abstract_tensile.
Proof.
  intros xs _. unfold alone, format_abstract_tensile. induction xs as [|x xs IH]; cbn; auto. rewrite IH. cbn.
  destruct (abstract_col _ _); reflexivity.
Qed.
Lemma relaxation_columnwise : columnwise_shared format_relaxation.
Proof.
  intros [|x0 xs] c Ne Hc; [easy|]. unfold alone, format_relaxation. set (ys := x0 :: xs) in *.
  replace (map x_cycles ys) with (c :: map x_cycles xs) by (cbn; now rewrite (Hc x0 (or_introl eq_refl))).
  rewrite traverse_map. apply traverse_ext. intros x Hx. rewrite (Hc x Hx). cbn [traverse].
  destruct (sel _ (x_results x)); reflexivity.
Qed.
Lemma cyclic_columnwise : columnwise_shared format_cyclic.
Proof.
  intros [|x0 xs] c Ne Hc; [easy|]. unfold alone, format_cyclic. set (ys := x0 :: xs) in *.
  replace (map x_cycles ys) with (c :: map x_cycles xs) by (cbn; now rewrite (Hc x0 (or_introl eq_refl))).
  destruct c as [|c1 c].
  - cbn. rewrite (Hc x0) by (left; auto). reflexivity.
  - rewrite traverse_map. apply traverse_ext. intros x Hx. rewrite (Hc x Hx). cbn [traverse].
    destruct (cyclic_loop _ _ _ _); reflexivity.
Qed.
Lemma columnwise_weaken f : columnwise f -> columnwise_shared f.
Proof. intros H xs c Ne _. now apply H. Qed.

Inductive Forall3 {A B C} (P : A -> B -> C -> Prop) : list A -> list B -> list C -> Prop :=
| F3_nil : Forall3 P [] [] []
| F3_cons x y z xs ys zs : P x y z -> Forall3 P xs ys zs -> Forall3 P (x :: xs) (y :: ys) (z :: zs).
Lemma Forall3_impl {A B C} (P Q : A -> B -> C -> Prop) xs ys zs : (forall x y z, P x y z -> Q x y z) -> Forall3 P xs ys zs -> Forall3 Q xs ys zs.
Proof. intros H F. induction F; constructor; auto. Qed.
Lemma Forall3_nth {A B C} (P : A -> B -> C -> Prop) xs ys zs a b c : Forall3 P xs ys zs ->
  List.length ys = List.length xs /\ List.length zs = List.length xs /\
  forall i, (i < List.length xs)%nat -> P (nth i xs a) (nth i ys b) (nth i zs c).
Proof.
  intros H. induction H as [|x y z xs ys zs Pxyz H (E1 & E2 & IH)]; cbn.
  - repeat split; auto. intros i Hi. lia.
  - repeat split; auto. intros [|i] Hi; auto. apply IH. lia.
Qed.
Lemma Forall3_intro {A B C} (P : A -> B -> C -> Prop) xs : forall ys zs a b c, List.length ys = List.length xs -> List.length zs = List.length xs ->
  (forall i, (i < List.length xs)%nat -> P (nth i xs a) (nth i ys b) (nth i zs c)) -> Forall3 P xs ys zs.
Proof.
  induction xs as [|x xs IH]; intros [|y ys] [|z zs] a b c E1 E2 H; cbn in *; try discriminate; constructor.
  - apply (H 0%nat). lia.
  - apply (IH ys zs a b c); [lia|lia|]. intros i Hi. apply (H (S i)). lia.
Qed.

Definition lookup (fns : list (Z * fmt)) (t : Z) : option fmt :=
  match find (fun p => Z.eqb t (fst p)) fns with Some p => Some (snd p) | None => None end.
Definition mask (i : Z) (xs : list experiment) := map (fun t => Z.eqb t i) (map x_type xs).
Lemma sel_mask {A} (g : experiment -> A) i xs : sel (mask i xs) (map g xs) = map g (filter (fun x => Z.eqb (x_type x) i) xs).
Proof. unfold mask. induction xs as [|x xs IH]; cbn; auto. destruct (Z.eqb (x_type x) i); cbn; now rewrite IH. Qed.
Lemma mask_any i xs : existsb (fun b => b) (mask i xs) = false -> forall x, In x xs -> x_type x <> i.
Proof.
  unfold mask. rewrite map_map. intros H x Hx E. assert (existsb (fun b => b) (map (fun x => Z.eqb (x_type x) i) xs) = true); [|congruence].
  apply existsb_exists. exists true. split; auto. apply in_map_iff. exists x. split; auto. now apply Z.eqb_eq.
Qed.
Lemma mask_some i xs : existsb (fun b => b) (mask i xs) = true -> filter (fun x => Z.eqb (x_type x) i) xs <> [].
Proof.
  unfold mask. rewrite map_map. intros H. apply existsb_exists in H as (b & Hb & ->). apply in_map_iff in Hb as (x & E & Hx).
  intros N. assert (In x (filter (fun x => Z.eqb (x_type x) i) xs)) by (apply filter_In; auto). rewrite N in H. easy.
Qed.
(** One masked assignment. *)
Lemma put_group (P : experiment -> list R -> Prop) i xs new old : List.length old = List.length xs ->
  Forall2 P (filter (fun x => Z.eqb (x_type x) i) xs) new ->
  Forall3 (fun x o o' => if Z.eqb (x_type x) i then P x o' else o' = o) xs old (put (mask i xs) new old).
Proof.
  revert old new. induction xs as [|x xs IH]; intros [|o old] new E F; cbn in *; try discriminate; [constructor|].
  injection E as E. destruct (Z.eqb (x_type x) i) eqn:T; cbn.
  - inversion F as [|? v ? new' Pv F']; subst. constructor; [now rewrite T|]. now apply IH.
  - constructor; [now rewrite T|]. now apply IH.
Qed.
Lemma group_exists (f : experiment -> option (list R)) i xs old out :
  Forall3 (fun x (o o' : list R) => if Z.eqb (x_type x) i then f x = Some o' else True) xs old out ->
  exists new, traverse f (filter (fun x => Z.eqb (x_type x) i) xs) = Some new /\ sel (mask i xs) out = new.
Proof.
  intros H. induction H as [|x o o' xs old out Hx H (new & IH & IS)]; cbn.
  - exists []. auto.
  - destruct (Z.eqb (x_type x) i) eqn:T; cbn.
    + rewrite Hx, IH. eexists. split; [reflexivity|]. f_equal. exact IS.
    + exists new. auto.
Qed.
Lemma convert_spec xs (fns : list (Z * fmt)) : NoDup (map fst fns) ->
  (forall i (f : fmt), In (i, f) fns -> forall ys, ys <> [] -> ys = filter (fun x => Z.eqb (x_type x) i) xs ->
     f (map x_cycles ys) (map x_results ys) = traverse (alone f) ys) ->
  forall old out, List.length old = List.length xs ->
  (convert_loop fns (map x_results xs) (map x_cycles xs) (map x_type xs) old = Some out <->
   Forall3 (fun x o o' => match lookup fns (x_type x) with Some f => alone f x = Some o' | None => o' = o end) xs old out).
Proof.
  induction fns as [|[i f] fns IH]; intros ND CW old out E.
  - cbn. split.
    + intros H. injection H as <-. revert old E. induction xs as [|x xs IHx]; intros [|o old] E; cbn in *; try discriminate; constructor; auto.
      apply IHx; auto. easy.
    + intros H. f_equal. clear -H. induction H as [|x o o' xs old out Hx H IHH]; auto. cbn in Hx. now f_equal.
  - cbn [map fst] in ND. inversion ND as [|? ? NI ND']; subst.
    assert (CW' : forall j (g : fmt), In (j, g) fns -> forall ys, ys <> [] -> ys = filter (fun x => Z.eqb (x_type x) j) xs ->
     g (map x_cycles ys) (map x_results ys) = traverse (alone g) ys) by (intros; eapply CW; [right|..]; eauto).
    assert (LK : forall t, lookup ((i, f) :: fns) t = if Z.eqb t i then Some f else lookup fns t).
    { intros t. unfold lookup. cbn [find fst]. destruct (Z.eqb t i); reflexivity. }
    assert (LN : lookup fns i = None).
    { unfold lookup. destruct (find (fun p : Z * fmt => Z.eqb i (fst p)) fns) as [p|] eqn:F; auto. apply find_some in F as [F1 F2]. apply Z.eqb_eq in F2.
      exfalso. apply NI. rewrite F2. now apply in_map. }
    cbn [convert_loop]. fold (mask i xs). rewrite !sel_mask. destruct (existsb _ (mask i xs)) eqn:M.
    + pose proof (mask_some _ _ M) as Ne. rewrite (CW i f (or_introl eq_refl) _ Ne eq_refl).
      set (ys := filter _ xs) in *. split.
      * destruct (traverse (alone f) ys) as [new|] eqn:TR; [|discriminate].
        intros H. apply IH in H; auto; [|now rewrite put_length].
        apply traverse_some in TR. pose proof (put_group _ i xs new old E TR) as G.
        destruct (Forall3_nth _ _ _ _ (Experiment 0 [] []) [] [] H) as (L1 & L2 & HN).
        destruct (Forall3_nth _ _ _ _ (Experiment 0 [] []) [] [] G) as (L3 & L4 & GN).
        apply (Forall3_intro _ _ _ _ (Experiment 0 [] []) [] []); auto. intros k Hk. specialize (HN k Hk). specialize (GN k Hk).
        rewrite LK. cbv beta in HN, GN. revert HN GN. destruct (Z.eqb_spec (x_type (nth k xs (Experiment 0 [] []))) i) as [T|T]; intros HN GN.
        -- rewrite T, LN in HN. now rewrite HN.
        -- rewrite <- GN. exact HN.
      * intros H. destruct (group_exists (alone f) i xs old out) as (new & TR & SN).
        { eapply Forall3_impl; [|exact H]. intros x o o'. cbv beta. rewrite LK. destruct (Z.eqb (x_type x) i); auto. }
        fold ys in TR. rewrite TR. apply IH; auto; [now rewrite put_length|].
        apply traverse_some in TR. pose proof (put_group _ i xs new old E TR) as G.
        destruct (Forall3_nth _ _ _ _ (Experiment 0 [] []) [] [] H) as (L1 & L2 & HN).
        destruct (Forall3_nth _ _ _ _ (Experiment 0 [] []) [] [] G) as (L3 & L4 & GN).
        apply (Forall3_intro _ _ _ _ (Experiment 0 [] []) [] []); auto. intros k Hk. specialize (HN k Hk). specialize (GN k Hk).
        cbv beta in HN, GN. rewrite LK in HN. revert HN GN. destruct (Z.eqb_spec (x_type (nth k xs (Experiment 0 [] []))) i) as [T|T]; intros HN GN.
        -- rewrite T, LN. rewrite HN in GN. now injection GN.
        -- rewrite GN. exact HN.
    + rewrite IH by auto. pose proof (mask_any _ _ M) as NT. split; intros H.
      * clear -H LK NT. induction H as [|x o o' xs old out Hx H IHH]; constructor.
        -- rewrite LK. destruct (Z.eqb_spec (x_type x) i) as [T|T]; auto. exfalso. now apply (NT x (or_introl eq_refl)).
        -- apply IHH. intros y Hy. apply NT. now right.
      * clear -H LK NT. induction H as [|x o o' xs old out Hx H IHH]; constructor.
        -- rewrite LK in Hx. destruct (Z.eqb_spec (x_type x) i) as [T|T]; auto. exfalso. now apply (NT x (or_introl eq_refl)).
        -- apply IHH. intros y Hy. apply NT. now right.
Qed.
(** The two masked assignments of load_results. *)
Lemma put_sel_id {A} m (xs old : list A) d : List.length m = List.length xs -> List.length old = List.length xs ->
  forall i, (i < List.length xs)%nat -> nth i (put m (sel m xs) old) d = if nth i m false then nth i xs d else nth i old d.
Proof. intros E1 E2 i Hi. rewrite <- (map_id (sel m xs)). now apply (put_sel (fun x => x)). Qed.

(** linspace *)
Lemma linspace_length a b n : List.length (linspace a b n) = n.
Proof. unfold linspace. now rewrite map_length, seq_length. Qed.
Lemma linspace_nth a b n i d : (i < n)%nat -> nth i (linspace a b n) d = a + INR i * ((b - a) / (INR n - 1)).
Proof.
  intros Hi. unfold linspace. rewrite nth_indep with (d' := (fun i => a + INR i * ((b - a) / (INR n - 1))) 0%nat) by (rewrite map_length, seq_length; auto).
  rewrite (map_nth (fun i => a + INR i * ((b - a) / (INR n - 1)))). now rewrite seq_nth by auto.
Qed.
Lemma linspace_last a b n d : (2 <= n)%nat -> nth (n - 1) (linspace a b n) d = b.
Proof.
  intros Hn. rewrite linspace_nth by lia. rewrite minus_INR by lia. simpl (INR 1).
  assert (2 <= INR n) by (apply (le_INR 2); auto). field. lra.
Qed.
Lemma linspace_first a b n d : (1 <= n)%nat -> nth 0 (linspace a b n) d = a.
Proof. intros Hn. rewrite linspace_nth by lia. simpl INR. ring. Qed.
Lemma linspace_step a b n i d : (S i < n)%nat -> nth (S i) (linspace a b n) d - nth i (linspace a b n) d = (b - a) / (INR n - 1).
Proof. intros Hi. rewrite !linspace_nth by lia. rewrite S_INR. ring. Qed.
