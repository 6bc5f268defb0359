(** DeterministicModel's parameter store (optimize.py 127-143) and the conversion of columns
    that are returned as simulated (experiments.py 136-174, 216-233). *)
From Coq Require Import Reals List String ZArith Lia Bool.
From Verif Require Import Experiments.
Import ListNotations.

(** ** Parameters *)
Section Params.
Context {P : Type}.
Definition store := list (string * P).
(** setattr: a later assignment replaces an earlier one (lines 136-137; [zip] stops at the shorter list).
    Simplification: the names do not collide with the module's own attributes. *)
Definition set_attr (s : store) (k : string) (v : P) : store := (k, v) :: s.
Definition det_init (names : list string) (ics : list P) : store :=
  fold_left (fun s p => set_attr s (fst p) (snd p)) (combine names ics) [].
(** getattr raises (None) when the attribute is missing *)
Fixpoint get_attr (s : store) (k : string) : option P :=
  match s with [] => None | (k', v) :: s' => if String.eqb k' k then Some v else get_attr s' k end.
(** get_params, lines 139-143 *)
Definition get_params (names : list string) (s : store) : option (list P) := traverse (get_attr s) names.

Lemma fold_get l : forall s k, get_attr (fold_left (fun s p => set_attr s (fst p) (snd p)) l s) k =
  match get_attr (rev l) k with Some v => Some v | None => get_attr s k end.
Proof.
  induction l as [|[k' v] l IH]; intros s k; cbn [fold_left rev]; [reflexivity|]. rewrite IH. cbn [fst snd].
  assert (A : forall a b, get_attr (a ++ b) k = match get_attr a k with Some v => Some v | None => get_attr b k end).
  { induction a as [|[q w] a IA]; intros b; cbn; [reflexivity|]. destruct (String.eqb q k); auto. }
  rewrite A. cbn. destruct (get_attr (rev l) k); auto. destruct (String.eqb k' k); auto.
Qed.
Lemma get_in s k v : get_attr s k = Some v -> In (k, v) s.
Proof.
  induction s as [|[q w] s IH]; cbn; [discriminate|]. destruct (String.eqb_spec q k) as [->|]; [|auto].
  intros H. injection H as ->. auto.
Qed.
Lemma get_none s k : get_attr s k = None <-> ~ In k (map fst s).
Proof.
  induction s as [|[q w] s IH]; cbn; [tauto|]. destruct (String.eqb_spec q k) as [->|N].
  - split; [discriminate|]. intros H. exfalso. auto.
  - rewrite IH. intuition.
Qed.
Lemma init_none names ics k : get_attr (det_init names ics) k = None <-> ~ In k (firstn (List.length ics) names).
Proof.
  unfold det_init. rewrite fold_get. cbn [get_attr].
  assert (E : map fst (combine names ics) = firstn (List.length ics) names).
  { revert ics. induction names as [|n names IH]; intros [|i ics]; cbn; auto. now rewrite IH. }
  rewrite <- E. destruct (get_attr (rev (combine names ics)) k) as [v|] eqn:G.
  - split; [discriminate|]. intros H. exfalso. apply H. apply get_in in G. rewrite <- in_rev in G. now apply (in_map fst) in G.
  - split; [|auto]. intros _. apply get_none in G. now rewrite map_rev, <- in_rev in G.
Qed.
(** the last assignment to a name wins *)
Lemma init_last names ics i k v : nth_error names i = Some k -> nth_error ics i = Some v ->
  (forall j, (i < j < List.length ics)%nat -> nth_error names j <> Some k) ->
  get_attr (det_init names ics) k = Some v.
Proof.
  intros Hk Hv L. unfold det_init. rewrite fold_get.
  assert (G : get_attr (rev (combine names ics)) k = Some v); [|now rewrite G].
  revert ics i Hk Hv L. induction names as [|n names IH]; intros ics i Hk Hv L; [destruct i; discriminate|].
  destruct ics as [|c ics]; [destruct i; discriminate|]. cbn [combine rev].
  assert (A : forall a b, get_attr (a ++ b) k = match get_attr a k with Some v => Some v | None => get_attr b k end).
  { induction a as [|[q w] a IA]; intros b; cbn; [reflexivity|]. destruct (String.eqb q k); auto. }
  rewrite A. destruct i as [|i].
  - cbn in Hk, Hv. injection Hk as ->. injection Hv as ->.
    destruct (get_attr (rev (combine names ics)) k) as [w|] eqn:G.
    + exfalso. apply get_in in G. rewrite <- in_rev in G. apply In_nth_error in G as [j G].
      assert (J : (j < List.length (combine names ics))%nat) by (apply nth_error_Some; congruence).
      rewrite combine_length in J. apply (L (S j)); [cbn; lia|]. cbn.
      clear -G. revert ics j G. induction names as [|n names IH]; intros [|c ics] [|j] G; cbn in *; try discriminate; [congruence|eauto].
    + cbn. now rewrite String.eqb_refl.
  - cbn in Hk, Hv. rewrite (IH ics i Hk Hv); [reflexivity|]. intros j J. apply (L (S j)). cbn. lia.
Qed.
End Params.

(** ** Columns returned as simulated *)
Lemma mask_nth (types : list Z) i k d : nth k (map (fun t => Z.eqb t i) types) false = true -> (k < List.length types)%nat /\ nth k types d = i.
Proof.
  intros H. destruct (Nat.lt_ge_cases k (List.length types)) as [L|L].
  - split; auto. rewrite (nth_indep _ _ (Z.eqb d i)) in H by (now rewrite map_length). rewrite (map_nth (fun t => Z.eqb t i)) in H. now apply Z.eqb_eq in H.
  - rewrite nth_overflow in H by (now rewrite map_length). discriminate.
Qed.
Lemma put_skip {A} m : forall (new old : list A) k d, nth k m false = false -> nth k (put m new old) d = nth k old d.
Proof.
  induction m as [|[|] m IH]; intros new [|o old] [|k] d H; cbn in *; try discriminate; try reflexivity.
  - destruct new; cbn; apply IH; auto.
  - apply IH; auto.
Qed.
(** a column keeps its value through the formats of the other types *)
Lemma convert_keep fns results cycles types k d : forall processed out,
  ~ In (nth k types d) (map fst fns) -> (k < List.length types)%nat ->
  convert_loop fns results cycles types processed = Some out -> nth k out [] = nth k processed [].
Proof.
  induction fns as [|[i f] fns IH]; intros processed out N L H; cbn in H; [congruence|]. cbn in N.
  destruct (existsb _ _); [|apply IH in H; auto].
  destruct (f _ _) as [new|]; [|discriminate]. apply IH in H; auto. rewrite H. apply put_skip.
  destruct (nth k (map _ types) false) eqn:M; auto. apply (mask_nth types i k d) in M as [_ M]. exfalso. auto.
Qed.
Lemma convert_as_simulated junk results cycles types out k d :
  List.length results = List.length types -> List.length junk = List.length types -> (k < List.length types)%nat ->
  convert_results junk results cycles types = Some out ->
  nth k types d = 0%Z \/ nth k types d = 6%Z -> nth k out [] = nth k results [].
Proof.
  intros Lr Lj Lk H T. unfold convert_results in H.
  assert (G : forall fns1 i (f : fmt) fns2 junk', (i = 0 \/ i = 6)%Z -> f = format_tensile \/ f = format_direct_data -> nth k types d = i ->
    List.length junk' = List.length types -> ~ In i (map fst fns2) ->
    convert_loop (fns1 ++ (i, f) :: fns2) results cycles types junk' = Some out -> nth k out [] = nth k results []).
  { induction fns1 as [|[i' f'] fns1 IH]; intros i f fns2 junk' Hi Hf Ti Lj' N C; cbn [app convert_loop] in C.
    - assert (M : nth k (map (fun t => Z.eqb t i) types) false = true).
      { rewrite (nth_indep _ _ (Z.eqb d i)) by (now rewrite map_length). rewrite (map_nth (fun t => Z.eqb t i)), Ti. apply Z.eqb_refl. }
      assert (X : existsb (fun b => b) (map (fun t => Z.eqb t i) types) = true).
      { apply existsb_exists. exists true. split; auto. rewrite <- M. apply nth_In. now rewrite map_length. }
      rewrite X in C.
      assert (E : f (sel (map (fun t => Z.eqb t i) types) cycles) (sel (map (fun t => Z.eqb t i) types) results)
                  = Some (sel (map (fun t => Z.eqb t i) types) results)) by (destruct Hf as [->| ->]; reflexivity).
      rewrite E in C. apply (convert_keep _ _ _ _ k d) in C; auto; [|now rewrite Ti].
      rewrite C. rewrite (put_sel_id _ _ _ []) by (try rewrite map_length; congruence). now rewrite M.
    - destruct (existsb _ _).
      + destruct (f' _ _) as [new|]; [|discriminate]. eapply IH in C; eauto. now rewrite put_length.
      + eapply IH in C; eauto. }
  destruct T as [T|T].
  - apply (G [] 0%Z format_tensile _ junk) in H; auto. cbn. intuition discriminate.
  - apply (G [(0%Z, format_tensile); (1%Z, format_relaxation); (2%Z, format_cyclic); (3%Z, format_relaxation);
   (4%Z, format_cyclic); (5%Z, format_abstract_tensile)] 6%Z format_direct_data [] junk) in H; auto.
Qed.

Lemma load_lengths x j2 jr l : load_results x j2 jr = Some l ->
  List.length (ld_types l) = List.length (ds_type x) /\ List.length (ld_control l) = List.length (ds_control x).
Proof.
  unfold load_results. destruct (traverse exp_map (ds_type x)) as [t|] eqn:T; [|discriminate].
  destruct (traverse control_map (ds_control x)) as [c|] eqn:C; [|discriminate]. intros H. injection H as <-. cbn.
  split; eapply traverse_length; eauto.
Qed.
Lemma type_as_simulated t s : s = "tensile"%string \/ s = "direct_data"%string ->
  nth_error ["tensile"; "relaxation"; "strain_cyclic"; "creep"; "stress_cyclic"; "abstract_tensile"; "direct_data"]%string (Z.to_nat t) = Some s ->
  (0 <= t)%Z -> t = 0%Z \/ t = 6%Z.
Proof.
  intros S H T. assert (L : (Z.to_nat t < 7)%nat) by (apply (proj1 (nth_error_Some ["tensile"; "relaxation"; "strain_cyclic"; "creep"; "stress_cyclic"; "abstract_tensile"; "direct_data"]%string (Z.to_nat t))); congruence).
  assert (C : (t = 0 \/ t = 1 \/ t = 2 \/ t = 3 \/ t = 4 \/ t = 5 \/ t = 6)%Z) by lia.
  destruct C as [->|[->|[->|[->|[->|[->| ->]]]]]]; cbn in H; injection H as <-; destruct S as [S|S]; try discriminate S; auto.
Qed.
Lemma load_types_nonneg x j2 jr l b : load_results x j2 jr = Some l -> (0 <= nth b (ld_types l) 9)%Z.
Proof.
  unfold load_results. destruct (traverse exp_map (ds_type x)) as [t|] eqn:T; [|discriminate].
  destruct (traverse control_map (ds_control x)) as [c|] eqn:C; [|discriminate]. intros H. injection H as <-. cbn.
  apply traverse_some in T. clear C. revert b. induction T as [|s t0 l r Hs _ IH]; intros [|b]; cbn; try lia; [|apply IH].
  revert Hs. unfold exp_map. repeat (destruct (String.eqb _ _); [intros H; injection H as <-; lia|]). discriminate.
Qed.
