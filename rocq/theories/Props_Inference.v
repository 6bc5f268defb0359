(** C71 (per-type weights and noise), C72 (sites of the hierarchical model and its guide) *)
From Coq Require Import Reals Lra ZArith List String Ascii Bool Lia Permutation.
From Verif Require Import Experiments Inference.
Import ListNotations.
Local Open Scope string_scope.

(** *** C71 *)
(** The codes the weights and the noise range over, in order, are the codes of exactly the type names a data set may carry. *)
Theorem C71_codes_of_names : traverse exp_map exp_names = Some exp_codes /\ forall s c, exp_map s = Some c <-> exists i, nth_error exp_names i = Some s /\ nth_error exp_codes i = Some c.
Proof.
  split; [reflexivity|]. intros s c. split.
  - unfold exp_map. intros H. repeat match type of H with context [String.eqb s ?n] => destruct (String.eqb_spec s n) as [->|_] end; [..|discriminate]; injection H as <-.
    + now exists 0%nat. + now exists 1%nat. + now exists 2%nat. + now exists 3%nat. + now exists 4%nat. + now exists 5%nat. + now exists 6%nat.
  - intros (i & A & B). do 7 (destruct i as [|i]; [cbn in A, B; injection A as <-; injection B as <-; reflexivity|]). destruct i; discriminate.
Qed.
Print Assumptions C71_codes_of_names.
(** Default: every experiment of a known type weighs one, any other code zero. *)
Theorem C71_default_weights : forall types, exists table,
  weight_table None = Some table /\ List.length (make_weight_tensor table types) = List.length types /\
  forall k t, nth_error types k = Some t ->
    nth_error (make_weight_tensor table types) k = Some (if (0 <=? t)%Z && (t <=? 6)%Z then 1%R else 0%R).
Proof.
  intros types. eexists. split; [reflexivity|]. split.
  { unfold make_weight_tensor. apply fold_fill_length. now rewrite repeat_length. }
  intros k t Ht. unfold make_weight_tensor.
  assert (Hx : nth_error (repeat 0%R (List.length types)) k = Some 0%R).
  { assert (k < List.length types)%nat by (apply nth_error_Some; congruence).
    clear Ht. revert k H. induction types as [|t0 ts IH]; simpl; intros k H; [lia|]. destruct k; simpl; [auto|]. apply IH. lia. }
  assert (ND : NoDup (map fst (map (fun c => (c, 1%R)) exp_codes))).
  { simpl. repeat constructor; simpl; intuition discriminate. }
  destruct (fold_fill_nth _ _ _ _ _ _ Ht Hx ND) as [P Q].
  destruct (Z.leb_spec 0 t); destruct (Z.leb_spec t 6); simpl andb; cbv iota.
  - apply P. assert (t = 0 \/ t = 1 \/ t = 2 \/ t = 3 \/ t = 4 \/ t = 5 \/ t = 6)%Z as E by lia.
    simpl. intuition (subst; auto 10).
  - apply Q. simpl. lia.
  - apply Q. simpl. lia.
  - apply Q. simpl. lia.
Qed.
Print Assumptions C71_default_weights.

(** A dictionary (distinct keys): an experiment gets the weight listed under the name of
    its type, and zero if its type is not listed. *)
Theorem C71_custom_weights : forall (d : list (string * R)) table types, NoDup (map fst d) ->
  weight_table (Some d) = Some table ->
  List.length (make_weight_tensor table types) = List.length types /\
  forall k s t, exp_map s = Some t -> nth_error types k = Some t ->
    (forall v, In (s, v) d -> nth_error (make_weight_tensor table types) k = Some v)
    /\ (~ In s (map fst d) -> nth_error (make_weight_tensor table types) k = Some 0%R).
Proof.
  intros d table types ND HT. split.
  { unfold make_weight_tensor. apply fold_fill_length. now rewrite repeat_length. }
  simpl in HT.
  assert (NT : NoDup (map fst table)).
  { clear types. revert table HT. induction d as [|[s v] d IH]; simpl; intros table HT.
    - inversion HT. constructor.
    - destruct (exp_map s) as [c|] eqn:E; [|discriminate].
      destruct (traverse _ d) as [t'|] eqn:Q; [|discriminate]. inversion HT; subst. simpl. inversion ND; subst.
      constructor; [|auto]. intros Hin. apply in_map_iff in Hin. destruct Hin as ([c' v'] & E' & Hin). simpl in E'. subst c'.
      destruct (traverse_in _ _ _ Q _ Hin) as ([s' w] & Hs & R'). simpl in R'. destruct (exp_map s') eqn:E2; [|discriminate].
      inversion R'; subst. rewrite (exp_map_inj _ _ _ E E2) in H1. apply H1. change s' with (fst (s', v')). now apply in_map. }
  intros k s t Hs Ht. unfold make_weight_tensor.
  assert (Hx : nth_error (repeat 0%R (List.length types)) k = Some 0%R).
  { assert (k < List.length types)%nat by (apply nth_error_Some; congruence).
    clear Ht. revert k H. induction types as [|t0 ts IH]; simpl; intros k H; [lia|]. destruct k; simpl; [auto|]. apply IH. lia. }
  destruct (fold_fill_nth _ _ _ _ _ _ Ht Hx NT) as [P Q]. split.
  - intros v Hv. apply P. destruct (traverse_out _ _ _ HT _ Hv) as (b & E & Hb). simpl in E. rewrite Hs in E. inversion E; subst. auto.
  - intros N. apply Q. intros Hin. apply in_map_iff in Hin. destruct Hin as ([c' v'] & E' & Hin). simpl in E'. subst c'.
    destruct (traverse_in _ _ _ HT _ Hin) as ([s' w] & Hs' & R'). simpl in R'. destruct (exp_map s') eqn:E2; [|discriminate].
    inversion R'; subst. rewrite (exp_map_inj _ _ _ Hs E2) in N. apply N. change s' with (fst (s', v')). now apply in_map.
Qed.
Print Assumptions C71_custom_weights.
(** An unknown type name in the dictionary is an error at construction, nothing else is. *)
Theorem C71_unknown_type : forall d, weight_table (Some d) = None <-> exists s v, In (s, v) d /\ exp_map s = None.
Proof.
  intros d. simpl. rewrite traverse_none. split.
  - intros ([s v] & H & E). exists s, v. split; [auto|]. simpl in E. destruct (exp_map s); [discriminate|auto].
  - intros (s & v & H & E). exists (s, v). split; [auto|]. simpl. now rewrite E.
Qed.
Print Assumptions C71_unknown_type.

(** Type-specific noise: experiment k gets eps[type of k]; a noise vector with fewer than
    seven entries is an error; an experiment with an unknown code keeps uninitialised memory. *)
Theorem C71_type_noise : forall eps junk types, List.length junk = List.length types ->
  ((List.length eps < 7)%nat -> type_noise eps junk types = None) /\
  ((7 <= List.length eps)%nat -> exists w, type_noise eps junk types = Some w /\ List.length w = List.length types /\
     forall k t, nth_error types k = Some t ->
       nth_error w k = if (0 <=? t)%Z && (t <=? 6)%Z then nth_error eps (Z.to_nat t) else nth_error junk k).
Proof.
  intros eps junk types HL. unfold type_noise, exp_codes. cbn [fold_left].
  destruct eps as [|e0 [|e1 [|e2 [|e3 [|e4 [|e5 [|e6 eps]]]]]]]; (split; [intros H; simpl in H; try lia; reflexivity|]);
    intros H; simpl in H; try lia. clear H.
  eexists. split; [reflexivity|]. split.
  { repeat rewrite fill_length; auto; repeat rewrite fill_length; auto. }
  intros k t Ht.
  assert (Hk : (k < List.length junk)%nat) by (rewrite HL; apply nth_error_Some; congruence).
  apply nth_error_Some in Hk. destruct (nth_error junk k) as [x|] eqn:Hx; [|congruence].
  erewrite fill_nth; [|exact Ht|]. 2:{ do 6 (eapply fill_nth; [exact Ht|]). exact Hx. }
  destruct (Z.leb_spec 0 t); destruct (Z.leb_spec t 6); simpl andb; cbv iota.
  - assert (t = 0 \/ t = 1 \/ t = 2 \/ t = 3 \/ t = 4 \/ t = 5 \/ t = 6)%Z as E by lia.
    intuition (subst; reflexivity).
  - repeat (rewrite (proj2 (Z.eqb_neq _ _)) by lia). reflexivity.
  - repeat (rewrite (proj2 (Z.eqb_neq _ _)) by lia). reflexivity.
  - repeat (rewrite (proj2 (Z.eqb_neq _ _)) by lia). reflexivity.
Qed.
Print Assumptions C71_type_noise.
Example C71_ex : exists table, weight_table (Some [("creep", 2%R); ("tensile", 3%R)]) = Some table
  /\ make_weight_tensor table [3; 0; 1; 3]%Z = [2; 3; 0; 2]%R.
Proof. eexists. split; reflexivity. Qed.
Example C71_ex_noise : type_noise [1; 2; 3; 4; 5; 6; 7]%R [9; 9]%R [6; 2]%Z = Some [7; 3]%R.
Proof. reflexivity. Qed.

(** *** C72 *)
Lemma Forall2_in_l {A B} (P : A -> B -> Prop) l l' : Forall2 P l l' -> forall x, In x l -> exists y, In y l' /\ P x y.
Proof. induction 1; intros z Hz; [contradiction|]. destruct Hz as [<-|Hz]; [exists y; simpl; auto|]. destruct (IHForall2 _ Hz) as (w & ? & ?). exists w. simpl. auto. Qed.
Lemma Forall2_in_r {A B} (P : A -> B -> Prop) l l' : Forall2 P l l' -> forall y, In y l' -> exists x, In x l /\ P x y.
Proof. induction 1; intros z Hz; [contradiction|]. destruct Hz as [<-|Hz]; [exists x; simpl; auto|]. destruct (IHForall2 _ Hz) as (w & ? & ?). exists w. simpl. auto. Qed.
(** With one prior of each kind per name and all site names distinct (and not clashing
    with the object's own attributes), for every parameter store and number of trials the guide
    runs, samples exactly: a location and a scale site per parameter, eps iff the noise is
    inferred, then one site per parameter inside the plate; and the model run on the store
    the guide leaves samples the very same sites in the same plates, with the same event dimensions,
    in the same order, followed by the observation. *)
Theorem C72_same_sites : forall (T : Type) (dim : T -> nat) (class_attr : string -> bool) (h : hsm T) (limit n : nat) (s : store T),
  (2 <= limit)%nat -> complete T h -> well_named T class_attr h ->
  exists tr vals s', guide T dim h n s = inl (tr, vals, s')
  /\ map node_name tr = (flat_map (fun v => [v +++ h_loc_suffix T h; v +++ h_scale_suffix T h]) (h_names T h)
        ++ (if h_include_noise T h then ["eps"] else []) ++ ["trials"] ++ h_names T h)%list
  /\ (forall x p e o, In (NSample x p e o) tr -> o = false /\ (p = true <-> In x (h_names T h)))
  /\ forall made, model_trace T dim class_attr limit h made s' = inl (tr ++ [NPlate "time"; NSample "obs" true 0 true])%list.
Proof.
  intros T dim ca h limit n s HL C W. do 3 eexists. split; [now apply guide_ok with (class_attr := ca)|].
  split; [|split].
  - rewrite latent_names by auto. f_equal. f_equal. unfold eps_nodes. destruct (h_include_noise T h); reflexivity.
  - intros x p e o Hin. unfold latent in Hin. rewrite !in_app_iff in Hin.
    pose proof (split_nodup T ca h W) as SN.
    assert (DJ : forall k, In k (flat_map (fun v => [v +++ h_loc_suffix T h; v +++ h_scale_suffix T h]) (h_names T h)) -> ~ In k (h_names T h)).
    { revert SN. generalize (flat_map (fun v => [v +++ h_loc_suffix T h; v +++ h_scale_suffix T h]) (h_names T h)).
      induction l as [|y l IH]; simpl; intros N k Hk; [contradiction|]. inversion N; subst. destruct Hk as [<-|Hk]; [|auto].
      intros Q. apply H1. apply in_or_app; auto. }
    destruct Hin as [Hin|[Hin|[[Hin|[]]|Hin]]].
    + apply in_flat_map in Hin. destruct Hin as (r & Hr & Hin).
      assert (Hv : In (rname T r) (h_names T h)) by (rewrite <- (rows_names T h C); now apply in_map).
      destruct Hin as [E|[E|[]]]; inversion E; subst; (split; [auto|]); (split; [discriminate|]); intros Q; exfalso; revert Q; apply DJ;
        apply in_flat_map; exists (rname T r); simpl; auto.
    + unfold eps_nodes in Hin. destruct (h_include_noise T h); [|contradiction]. destruct Hin as [E|[]]. inversion E; subst.
      split; [auto|]. split; [discriminate|]. intros Q. exfalso. destruct W as (_ & W & _). destruct (W "eps") as [W' _].
      * unfold site_names. apply in_flat_map. exists "eps". simpl. auto.
      * apply W'. unfold forbidden. apply in_or_app. right. simpl. auto.
    + discriminate.
    + apply in_map_iff in Hin. destruct Hin as (r & E & Hr). inversion E; subst. split; [auto|]. split; [|auto]. intros _.
      rewrite <- (rows_names T h C). now apply in_map.
  - intros made. rewrite model_trace_ok by auto.
    destruct (extra_params_in T (extra_names T h made) (snd (run T (items T dim h n) s))) as (l & E & _).
    2:{ now rewrite E. }
    intros p Hp. unfold extra_names in Hp. destruct made; [|contradiction Hp].
    pose proof (run_vals T (items T dim h n) s) as F.
    assert (Hi : In p (map (it_param T) (items T dim h n))).
    { rewrite items_params by auto. unfold prm. rewrite !map_app, !in_app_iff. auto. }
    apply in_map_iff in Hi. destruct Hi as (i & <- & Hi). 
    destruct (Forall2_in_l _ _ _ F _ Hi) as (y & _ & _ & H). eauto.
Qed.
Print Assumptions C72_same_sites.

(** The hypothesis in practice: default suffixes, distinct names, none of which ends in
    _loc or _scale or is one of the object's attribute or site names. *)
Theorem C72_default_suffixes : forall (T : Type) (class_attr : string -> bool) (h : hsm T),
  h_loc_suffix T h = "_loc" -> h_scale_suffix T h = "_scale" ->
  NoDup (h_names T h) ->
  (forall v, In v (h_names T h) -> ~ In v forbidden /\ (forall w, v <> w +++ "_loc" /\ v <> w +++ "_scale")) ->
  (forall v, In v (h_names T h) -> class_attr v = false /\ class_attr (v +++ "_loc") = false /\ class_attr (v +++ "_scale") = false) ->
  class_attr "eps" = false -> well_named T class_attr h.
Proof.
  intros T ca h E1 E2 N H1 H2 HE. unfold well_named, site_names. rewrite E1, E2. split; [|split; [|auto]].
  - apply flat3_nodup; auto; [exact loc_scale_differ|]. intros v w Hv. now apply (H1 v Hv).
  - intros k Hk. apply in_flat_map in Hk. destruct Hk as (v & Hv & Hk). destruct (H2 v Hv) as (C1 & C2 & C3).
    destruct Hk as [<-|[<-|[<-|[]]]]; (split; [|auto]).
    + intros Q. assert (L : last_char (v +++ "_loc") = Some "c"%char) by (rewrite last_char_app; reflexivity).
      revert L. unfold forbidden, reserved in Q. simpl in Q.
      repeat match type of Q with _ \/ _ => destruct Q as [Q|Q]; [rewrite <- Q; discriminate|] end. contradiction.
    + intros Q. assert (L : last_char (v +++ "_scale") = Some "e"%char) by (rewrite last_char_app; reflexivity).
      assert (L2 : (6 <= String.length (v +++ "_scale"))%nat) by (rewrite append_length; simpl; lia).
      assert (L3 : exists w, v +++ "_scale" = w +++ "_scale") by (exists v; auto). clear H1 H2 C1 C2 C3.
      unfold forbidden, reserved in Q. simpl in Q.
      assert (X : forall q, v +++ "_scale" = q -> String.substring (String.length q - 6) 6 q = "_scale").
      { intros q <-. rewrite append_length. simpl String.length. replace (String.length v + 6 - 6)%nat with (String.length v) by lia.
        clear. induction v as [|c v IH]; [reflexivity|]. exact IH. }
      repeat match type of Q with _ \/ _ => destruct Q as [Q|Q]; [symmetry in Q; specialize (X _ Q); discriminate X|] end. contradiction.
    + now apply (H1 v Hv).
Qed.
Print Assumptions C72_default_suffixes.

(** On an empty store, the guide returns the priors' centres (repeated once per trial for the
    bottom level) and the extra parameters are, in order, one tensor per parameter. *)
Theorem C72_extra_params : forall (T : Type) (dim : T -> nat) class_attr (h : hsm T) (n : nat),
  complete T h -> well_named T class_attr h ->
  exists tr vals s', guide T dim h n [] = inl (tr, vals, s')
    /\ get_extra_params T (extra_names T h true) s' = inl (map (PRepeat T n) (h_loc_loc T h))
    /\ (forall i v, nth_error (h_names T h) i = Some v ->
          (exists m, nth_error (h_loc_loc T h) i = Some m /\ In (v, PRepeat T n m) vals /\ In (v +++ h_loc_suffix T h, PVal T m) vals)
          /\ (exists m, nth_error (h_scale_scale T h) i = Some m /\ In (v +++ h_scale_suffix T h, PVal T m) vals)).
Proof.
  intros T dim ca h n C W. do 3 eexists. split; [now apply guide_ok with (class_attr := ca)|].
  assert (N : NoDup (map fst (@nil (string * pval T)) ++ map (it_param T) (items T dim h n))).
  { simpl. rewrite items_params by auto. apply FinFun.Injective_map_NoDup.
    { intros a b H. unfold prm in H. now apply append_inj_r in H. }
    pose proof (full_nodup T dim ca h C W) as FN. rewrite map_app, latent_names in FN by auto. apply nodup_app_l in FN.
    replace (if h_include_noise T h then ["eps"] else []) with (map node_name (eps_nodes T dim h)) by (unfold eps_nodes; destruct (h_include_noise T h); reflexivity).
    rewrite app_assoc in FN. change (["trials"] ++ h_names T h)%list with ("trials" :: h_names T h) in FN.
    apply NoDup_remove_1 in FN. now rewrite <- app_assoc in FN. }
  rewrite run_fresh by exact N. cbn [fst snd app]. split.
  - unfold extra_names. rewrite <- (rows_locs T h C), <- (rows_names T h C) at 1. rewrite !map_map.
    assert (G : forall r, In r (rows T h) -> sget T (rname T r +++ h_param_suffix T h) (map (fun i => (it_param T i, it_init T i)) (items T dim h n)) = Some (PRepeat T n (rloc T r))).
    { intros r Hr. simpl in N.
      assert (Hi : In (bot_item T dim h n r) (items T dim h n)) by (unfold items; rewrite !in_app_iff; right; right; now apply in_map).
      revert N Hi. generalize (items T dim h n). induction l as [|i l IH]; simpl; intros N Hi; [contradiction|]. inversion N; subst.
      unfold sget. simpl. destruct Hi as [->|Hi].
      - simpl. unfold prm. now rewrite String.eqb_refl.
      - destruct (String.eqb_spec (it_param T i) (rname T r +++ h_param_suffix T h)) as [E|E].
        + exfalso. apply H1. rewrite E. change (rname T r +++ h_param_suffix T h) with (it_param T (bot_item T dim h n r)). now apply in_map.
        + apply IH; auto. }
    revert G. generalize (rows T h). induction l as [|r l IH]; simpl; intros G; [auto|].
    rewrite (G r) by auto. rewrite IH by auto. reflexivity.
  - intros i v Hv. rewrite <- (rows_names T h C) in Hv. rewrite nth_error_map in Hv.
    destruct (nth_error (rows T h) i) as [r|] eqn:Hr; [|discriminate]. simpl in Hv. inversion Hv; subst. clear Hv.
    pose proof (nth_error_In _ _ Hr) as Hin.
    assert (K : forall it, In it (items T dim h n) -> In (it_site T it, it_init T it) (map (fun i => (it_site T i, it_init T i)) (items T dim h n))).
    { intros it Hit. apply (in_map (fun i => (it_site T i, it_init T i))). auto. }
    split.
    + exists (rloc T r). split; [rewrite <- (rows_locs T h C), nth_error_map, Hr; auto|]. split.
      * apply (K (bot_item T dim h n r)). unfold items. rewrite !in_app_iff. right; right. now apply in_map.
      * apply (K (Item T (rname T r +++ h_loc_suffix T h) false (dim (rloc T r)) (prm T h (rname T r +++ h_loc_suffix T h)) (PVal T (rloc T r)))).
        unfold items. rewrite !in_app_iff. left. apply in_flat_map. exists r. simpl. auto.
    + exists (snd r). split.
      * clear -C Hr. unfold complete, rows in *. destruct h as [vs a b c]; simpl in *. destruct C as (H1 & H2 & H3).
        revert a b c i H1 H2 H3 Hr. induction vs as [|v vs IH]; intros [|x a] [|y b] [|z c] [|i]; simpl; intros H1 H2 H3 Hr; try discriminate.
        -- inversion Hr; subst. auto.
        -- apply (IH a b c i); simpl in *; try lia; exact Hr.
      * apply (K (Item T (rname T r +++ h_scale_suffix T h) false (dim (rloc T r)) (prm T h (rname T r +++ h_scale_suffix T h)) (PVal T (snd r)))).
        unfold items. rewrite !in_app_iff. left. apply in_flat_map. exists r. simpl. auto.
Qed.
Print Assumptions C72_extra_params.
(** Before make_guide there are no extra parameters; after it, any name whose parameter is not yet
    in the store makes get_extra_params raise. *)
Theorem C72_extra_params_before : forall (T : Type) (h : hsm T) (s : store T),
  get_extra_params T (extra_names T h false) s = inl []
  /\ (forall v, In v (h_names T h) -> sget T (v +++ h_param_suffix T h) s = None -> exists p, get_extra_params T (extra_names T h true) s = inr (StoreErr p)).
Proof.
  intros T h s. split; [reflexivity|]. intros v Hv Hs. unfold extra_names.
  induction (h_names T h) as [|w l IH]; [contradiction|]. simpl. destruct Hv as [->|Hv].
  - rewrite Hs. eauto.
  - destruct (sget T (w +++ h_param_suffix T h) s); [|eauto]. destruct (IH Hv) as [q E]. rewrite E. eauto.
Qed.
Print Assumptions C72_extra_params_before.
Lemma vals_unique T (s : store T) its l : Forall2 (fun i sv => fst sv = it_site T i /\ sget T (it_param T i) s = Some (snd sv)) its l ->
  forall its' l', Forall2 (fun i sv => fst sv = it_site T i /\ sget T (it_param T i) s = Some (snd sv)) its' l' ->
  Forall2 (fun i j => it_site T i = it_site T j /\ it_param T i = it_param T j) its its' -> l' = l.
Proof.
  induction 1 as [|i x ita la [A B] F IH]; intros its' l' F' SP.
  - inversion SP; subst. inversion F'. auto.
  - inversion SP as [|? j ? its2 [S1 S2] SP']; subst. inversion F' as [|? y ? lb [A' B'] F2]; subst.
    rewrite (IH _ _ F2 SP'). f_equal. destruct x, y; simpl in *. rewrite S2 in B. congruence.
Qed.
(** Running the guide again, even with another number of trials, changes neither the store
    nor the values it returns. *)
Theorem C72_guide_stable : forall (T : Type) (dim : T -> nat) class_attr (h : hsm T) (n n' : nat) (s : store T) tr vals s',
  complete T h -> well_named T class_attr h -> guide T dim h n s = inl (tr, vals, s') -> guide T dim h n' s' = inl (tr, vals, s').
Proof.
  intros T dim ca h n n' s tr vals s' C W H. rewrite (guide_ok T dim ca) in H by auto. inversion H; subst. clear H.
  rewrite (guide_ok T dim ca) by auto. set (s' := snd (run T (items T dim h n) s)).
  pose proof (run_vals T (items T dim h n) s) as F. fold s' in F.
  assert (SP : Forall2 (fun i j => it_site T i = it_site T j /\ it_param T i = it_param T j) (items T dim h n) (items T dim h n')).
  { unfold items. apply Forall2_app; [|apply Forall2_app].
    - generalize (flat_map (top_items T dim h) (rows T h)). induction l; constructor; auto.
    - generalize (eps_items T dim h). induction l; constructor; auto.
    - generalize (rows T h). induction l; simpl; constructor; auto. }
  assert (ST : snd (run T (items T dim h n') s') = s').
  { apply run_again. intros i Hi. 
    destruct (Forall2_in_r _ _ _ SP _ Hi) as (j & Hj & _ & E). rewrite <- E.
    destruct (Forall2_in_l _ _ _ F _ Hj) as (y & _ & _ & H). eauto. }
  rewrite ST. do 3 f_equal.
  pose proof (run_vals T (items T dim h n') s') as F'. rewrite ST in F'.
  eapply vals_unique; eauto.
Qed.
Print Assumptions C72_guide_stable.

(** Distinct names are not enough: with the default suffixes the names x and x_loc give the
    guide two sites called x_loc. *)
Definition ex_h (names : list string) : hsm nat := Build_hsm nat names [0; 0] [0; 0] [0; 0] 0 "_loc" "_scale" "_param" true.
Theorem C72_distinct_names_refuted : exists names, NoDup names /\ List.length names = 2
  /\ guide nat (fun _ => 0) (ex_h names) 3 [] = inr DuplicateSite
  /\ model_trace nat (fun _ => 0) (fun _ => false) 10 (ex_h names) false [] <> inr DuplicateSite.
Proof.
  exists ["x"; "x_loc"]. split; [repeat constructor; simpl; intuition discriminate|].
  split; [reflexivity|]. split; [vm_compute; reflexivity|]. vm_compute. discriminate.
Qed.
Print Assumptions C72_distinct_names_refuted.
(** A parameter or top-level variable that has the name of an attribute of the class (a method of Module, say) is never a site of the model: reading it finds the method. *)
Lemma get_avoids (T : Type) dim class_attr (h : hsm T) v : class_attr v = true -> forall fuel plate k tr tr',
  get T dim class_attr fuel h plate k tr = inl tr' -> ~ In v (map node_name tr) -> ~ In v (map node_name tr').
Proof.
  intros Hv. induction fuel as [|fuel IH]; intros plate k tr tr' G N; [discriminate|]. cbn [get] in G.
  destruct (lookup_attr T dim class_attr h k) as [a|] eqn:L; [|discriminate].
  assert (KV : a <> Plain -> k <> v).
  { intros NP ->. unfold lookup_attr in L. rewrite Hv in L. congruence. }
  destruct a as [|e|e l sc].
  - injection G as <-. exact N.
  - destruct (existsb _ tr); injection G as <-; [exact N|]. rewrite map_app, in_app_iff. intros [H|[H|[]]]; [now apply N|]. simpl in H. apply KV; [discriminate|exact H].
  - destruct (existsb _ tr); [injection G as <-; exact N|].
    destruct (get T dim class_attr fuel h plate l tr) as [tr1|] eqn:G1; [|discriminate].
    destruct (get T dim class_attr fuel h plate sc tr1) as [tr2|] eqn:G2; [|discriminate].
    injection G as <-. rewrite map_app, in_app_iff. intros [H|[H|[]]].
    + revert H. apply (IH _ _ _ _ G2), (IH _ _ _ _ G1), N.
    + simpl in H. apply KV; [discriminate|exact H].
Qed.
Lemma get_all_avoids (T : Type) dim class_attr (h : hsm T) v fuel plate : class_attr v = true -> forall ks tr tr',
  get_all T dim class_attr fuel h plate ks tr = inl tr' -> ~ In v (map node_name tr) -> ~ In v (map node_name tr').
Proof.
  intros Hv. induction ks as [|k ks IH]; intros tr tr' G N; cbn [get_all] in G; [injection G as <-; exact N|].
  destruct (get T dim class_attr fuel h plate k tr) as [tr1|] eqn:G1; [|discriminate].
  apply (IH _ _ G). exact (get_avoids T dim class_attr h v Hv _ _ _ _ _ G1 N).
Qed.
Theorem C72_class_attributes_not_sampled : forall (T : Type) (dim : T -> nat) (class_attr : string -> bool) (h : hsm T) (limit : nat) (made : bool) (s : store T) v tr,
  class_attr v = true -> ~ In v ["trials"; "time"; "obs"] ->
  model_trace T dim class_attr limit h made s = inl tr -> ~ In v (map node_name tr).
Proof.
  intros T dim class_attr h limit made s v tr Hv Nv M. unfold model_trace in M.
  destruct (get_all T dim class_attr limit h false (top_vars T h) []) as [tr1|] eqn:G1; [|discriminate].
  destruct (get T dim class_attr limit h false "eps" tr1) as [tr2|] eqn:G2; [|discriminate].
  destruct (get_all T dim class_attr limit h true (h_names T h) _) as [tr3|] eqn:G3; [|discriminate].
  destruct (get_extra_params T _ s); [|discriminate].
  unfold checked in M. destruct (nodupb _); [|discriminate]. injection M as <-.
  rewrite map_app, in_app_iff. intros [H|H].
  - revert H. apply (get_all_avoids T dim class_attr h v limit true Hv _ _ _ G3).
    rewrite map_app, in_app_iff. intros [H|[H|[]]]; [|apply Nv; simpl in *; auto].
    revert H. apply (get_avoids T dim class_attr h v Hv _ _ _ _ _ G2). apply (get_all_avoids T dim class_attr h v limit false Hv _ _ _ G1). intros [].
  - apply Nv. simpl in *. tauto.
Qed.
Print Assumptions C72_class_attributes_not_sampled.
(** Hence distinct names whose sites are distinct too are not enough: a parameter called "eval" is a site of the guide, which fits it, and not of the model. *)
Theorem C72_method_name_refuted : exists names tr gtr vals s,
  let class_attr := String.eqb "eval" in
  NoDup (site_names nat (ex_h names)) /\ complete nat (ex_h names) /\
  guide nat (fun _ => 0) (ex_h names) 3 [] = inl (gtr, vals, s) /\
  model_trace nat (fun _ => 0) class_attr 10 (ex_h names) false [] = inl tr /\
  In "eval" (map node_name gtr) /\ ~ In "eval" (map node_name tr).
Proof.
  exists ["n"; "eval"]. eexists _, _, _, _. cbv zeta.
  split; [apply nodupb_spec; reflexivity|]. split; [repeat split|].
  split; [vm_compute; reflexivity|]. split; [vm_compute; reflexivity|].
  split; [simpl; auto 12|].
  simpl. intuition discriminate.
Qed.
Print Assumptions C72_method_name_refuted.
(** the hypotheses are met by ordinary names *)
Example C72_ex : complete nat (ex_h ["n"; "eta"]) /\ well_named nat (fun _ => false) (ex_h ["n"; "eta"]).
Proof.
  split; [repeat split|]. unfold well_named. split; [apply nodupb_spec; reflexivity|]. split; [|auto].
  intros k Hk. split; [|auto]. unfold site_names, forbidden, reserved in *. simpl in *.
  intuition (subst; discriminate).
Qed.
