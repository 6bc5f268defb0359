(** Facts about Bayes.v. *)
From Coq Require Import Reals ZArith List String Bool Lia Lra Permutation.
From Verif Require Import Experiments Inference DetR Bayes.
Import ListNotations.
Local Open Scope string_scope.

(** ** Sums *)
Lemma rsum_ext n f g : (forall i, (i < n)%nat -> f i = g i) -> rsum n f = rsum n g.
Proof. induction n; simpl; intros H; [auto|]. rewrite IHn, H by auto. reflexivity. Qed.
Lemma rsum_plus n f g : rsum n (fun i => f i + g i)%R = (rsum n f + rsum n g)%R.
Proof. induction n; simpl; [lra|]. rewrite IHn. lra. Qed.
Lemma rsum_scal n c f : rsum n (fun i => c * f i)%R = (c * rsum n f)%R.
Proof. induction n; simpl; [lra|]. rewrite IHn. lra. Qed.
Lemma rsum_zero n : rsum n (fun _ => 0)%R = 0%R.
Proof. induction n; simpl; [auto|]. rewrite IHn. lra. Qed.
Lemma lsum_app {A} (f : A -> R) l l' : lsum f (l ++ l') = (lsum f l + lsum f l')%R.
Proof. induction l; simpl; [lra|]. rewrite IHl. lra. Qed.
Lemma lsum_ext {A} (f g : A -> R) l : (forall a, In a l -> f a = g a) -> lsum f l = lsum g l.
Proof. induction l; simpl; intros H; [auto|]. rewrite IHl, H by auto. reflexivity. Qed.
Lemma lsum_rsum {A} n (c : nat -> R) (f : A -> nat -> R) l :
  lsum (fun a => rsum n (fun b => c b * f a b))%R l = rsum n (fun b => c b * lsum (fun a => f a b) l)%R.
Proof.
  induction l; simpl.
  - rewrite (rsum_ext n _ (fun _ => 0%R)); [now rewrite rsum_zero|]. intros. lra.
  - rewrite IHl, <- rsum_plus. apply rsum_ext. intros. lra.
Qed.
Lemma osum_app {A} (f : A -> option R) l l' x y : osum f l = Some x -> osum f l' = Some y -> osum f (l ++ l') = Some (x + y)%R.
Proof.
  revert x. induction l; simpl; intros x H H'.
  - injection H as <-. rewrite H'. f_equal. lra.
  - destruct (f a) as [u|]; [|discriminate]. destruct (osum f l) as [v|]; [|discriminate]. injection H as <-.
    rewrite (IHl v) by auto. f_equal. lra.
Qed.
Lemma osum_some {A} (f : A -> option R) g l : (forall a, In a l -> f a = Some (g a)) -> osum f l = Some (lsum g l).
Proof. induction l; simpl; intros H; [auto|]. rewrite IHl, H by auto. reflexivity. Qed.
Lemma osum_map {A B} (f : B -> option R) (h : A -> B) l : osum f (map h l) = osum (fun a => f (h a)) l.
Proof. induction l; simpl; [auto|]. now rewrite IHl. Qed.
Lemma shape_eqb_refl a : shape_eqb a a = true.
Proof. unfold shape_eqb. now destruct (list_eq_dec Nat.eq_dec a a). Qed.
Lemma shape_eqb_eq a b : shape_eqb a b = true <-> a = b.
Proof. unfold shape_eqb. destruct (list_eq_dec Nat.eq_dec a b); split; auto; discriminate. Qed.

(** ** Attribute lookup *)
Section Facts.
Variables (class_attr : string -> bool) (h : hsm tensor).
Notation loc v := (v +++ h_loc_suffix tensor h).
Notation scl v := (v +++ h_scale_suffix tensor h).
Notation prm v := (v +++ h_param_suffix tensor h).
Hypothesis C : complete tensor h.
Hypothesis W : well_named tensor class_attr h.

Lemma keys_priors : map fst (priors h) = map fst (assignments tensor t_dim h).
Proof.
  unfold priors, assignments. rewrite !map_app, !map_map. f_equal. f_equal.
  generalize (rows tensor h). induction l as [|[[[v a] b] c] l IH]; simpl; [auto|]. now rewrite IH.
Qed.
Lemma last_of_in k p l : NoDup (map fst l) -> In (k, p) l -> last_of k l = p.
Proof.
  induction l as [|[k' q] l IH]; simpl; intros N H; [contradiction|]. inversion N; subst. destruct H as [E|H].
  - inversion E; subst. assert (Z : last_of k l = PNone).
    { clear -H2. induction l as [|[a b] l IH]; simpl in *; [auto|]. rewrite IH by auto.
      destruct (String.eqb_spec k a); [subst; exfalso; auto|auto]. }
    now rewrite Z, String.eqb_refl.
  - rewrite (IH H3 H). destruct p; auto. destruct (String.eqb_spec k k') as [->|]; [|auto].
    exfalso. apply H2. change k' with (fst (k', PNone)). now apply in_map.
Qed.
Lemma priors_nodup : NoDup (map fst (priors h)).
Proof. rewrite keys_priors. now apply assign_nodup with (class_attr := class_attr). Qed.
Lemma prior_var v ll ls ss : In (v, ll, ls, ss) (rows tensor h) ->
  prior_of class_attr h (loc v) = PNormal ll ls /\ prior_of class_attr h (scl v) = PHalf ss
  /\ prior_of class_attr h v = PBot (loc v) (scl v).
Proof.
  intros Hr. pose proof priors_nodup as ND. destruct W as (_ & W2 & _).
  assert (Hn : In v (h_names tensor h)).
  { rewrite <- (rows_names tensor h C). change v with (rname tensor (v, ll, ls, ss)). now apply in_map. }
  assert (HS : forall k, In k [loc v; scl v; v] -> class_attr k = false).
  { intros k Hk. apply W2. unfold site_names. apply in_flat_map. exists v. auto. }
  assert (HA : forall ka, In ka (var_priors h (v, ll, ls, ss)) -> In ka (priors h)).
  { intros ka Hka. unfold priors. apply in_or_app. right. apply in_or_app. left. apply in_flat_map. eexists. split; [exact Hr|]. auto. }
  unfold prior_of. rewrite (HS (loc v)), (HS (scl v)), (HS v) by (simpl; auto).
  repeat split; (apply last_of_in; [exact ND|apply HA; simpl; auto]).
Qed.
Lemma prior_eps : prior_of class_attr h "eps" = if h_include_noise _ h then PHalf (h_noise _ h) else PNone.
Proof.
  unfold prior_of. rewrite (proj2 (proj2 W)). apply last_of_in; [apply priors_nodup|].
  unfold priors. apply in_or_app. right. apply in_or_app. right. simpl. auto.
Qed.

(** ** The guide's values *)
(** the tensor stored under a key *)
Definition stored (s : Inference.store tensor) (k : string) : tensor :=
  match sget tensor k s with Some p => tval p | None => Tensor [] (fun _ => 0%R) end.
Lemma vget_map {A} (f : A -> string) (g : A -> tensor) l a : NoDup (map f l) -> In a l -> vget (f a) (map (fun i => (f i, g i)) l) = Some (g a).
Proof.
  induction l as [|x l IH]; simpl; intros N H; [contradiction|]. inversion N; subst. destruct H as [->|H].
  - now rewrite String.eqb_refl.
  - destruct (String.eqb_spec (f x) (f a)) as [E|]; [|auto]. exfalso. apply H2. rewrite E. now apply in_map.
Qed.
Notation its n := (items tensor t_dim h n).
Lemma sites_nodup n : NoDup (map (it_site tensor) (its n)).
Proof.
  pose proof (full_nodup tensor t_dim class_attr h C W) as N. rewrite map_app, latent_names in N by auto.
  assert (E : map (it_site tensor) (its n) = (flat_map (fun v => [loc v; scl v]) (h_names tensor h) ++ (if h_include_noise _ h then ["eps"] else []) ++ h_names tensor h)%list).
  { unfold items. rewrite <- (rows_names tensor h C), !map_app. f_equal; [|f_equal].
    - generalize (rows tensor h). induction l as [|r l IH]; simpl; [auto|]. now rewrite IH.
    - unfold eps_items. destruct (h_include_noise tensor h); reflexivity.
    - now rewrite !map_map. }
  rewrite E. apply nodup_app_l in N.
  assert (P : Permutation (flat_map (fun v => [loc v; scl v]) (h_names tensor h) ++ map node_name (eps_nodes tensor t_dim h) ++ ["trials"] ++ h_names tensor h)
     ("trials" :: flat_map (fun v => [loc v; scl v]) (h_names tensor h) ++ (if h_include_noise _ h then ["eps"] else []) ++ h_names tensor h)).
  { assert (Q : forall a b c : list string, Permutation (a ++ b ++ ["trials"] ++ c) ("trials" :: a ++ b ++ c)).
    { intros a b c. symmetry. rewrite !app_assoc. rewrite <- (app_assoc (a ++ b)). cbn [app]. apply Permutation_middle. }
    unfold eps_nodes. destruct (h_include_noise tensor h); apply Q. }
  eapply Permutation_NoDup in N; [|exact P]. now inversion N.
Qed.
(** the shapes of the stored parameters fit the priors and the number of trials *)
Definition fits (n : nat) (s : Inference.store tensor) : Prop :=
  (forall v ll ls ss, In (v, ll, ls, ss) (rows tensor h) ->
     t_shape ls = t_shape ll /\ t_shape ss = t_shape ll /\
     t_shape (stored s (prm (loc v))) = t_shape ll /\ t_shape (stored s (prm (scl v))) = t_shape ll /\
     t_shape (stored s (prm v)) = n :: t_shape ll) /\
  (h_include_noise _ h = true -> t_shape (stored s (prm "eps")) = t_shape (h_noise _ h)).

Definition value_list (n : nat) (s : Inference.store tensor) : values := map (fun i => (it_site tensor i, stored s (it_param tensor i))) (its n).
Lemma item_cases n i : In i (its n) ->
  (exists v ll ls ss, In (v, ll, ls, ss) (rows tensor h) /\
     (it_site _ i = loc v /\ it_param _ i = prm (loc v) \/ it_site _ i = scl v /\ it_param _ i = prm (scl v) \/ it_site _ i = v /\ it_param _ i = prm v))
  \/ it_site _ i = "eps" /\ it_param _ i = prm "eps" /\ h_include_noise _ h = true.
Proof.
  unfold items. rewrite !in_app_iff. intros [H|[H|H]].
  - apply in_flat_map in H. destruct H as ([[[v a] b] c] & Hr & H). left. exists v, a, b, c. split; [auto|].
    destruct H as [<-|[<-|[]]]; simpl; auto.
  - right. unfold eps_items in H. destruct (h_include_noise tensor h); [|contradiction]. destruct H as [<-|[]]. simpl. auto.
  - apply in_map_iff in H. destruct H as ([[[v a] b] c] & <- & Hr). left. exists v, a, b, c. simpl. auto.
Qed.
Lemma guide_values n s : fits n (snd (run tensor (its n) s)) ->
  traverse (guide_value class_attr h n) (fst (run tensor (its n) s)) = Some (value_list n (snd (run tensor (its n) s))).
Proof.
  intros F. unfold value_list. pose proof (run_vals tensor (its n) s) as V.
  set (s' := snd (run tensor (its n) s)) in *.
  assert (K0 : forall l gv, (forall i, In i l -> In i (its n)) ->
     Forall2 (fun i sv => fst sv = it_site tensor i /\ sget tensor (it_param tensor i) s' = Some (snd sv)) l gv ->
     traverse (guide_value class_attr h n) gv = Some (map (fun i => (it_site tensor i, stored s' (it_param tensor i))) l)); [|now apply K0].
  clear V. induction l as [|i l IH]; intros gv HI V; inversion V as [|? [k p] ? gv' [K P] V']; subst; [reflexivity|].
  cbn [traverse map]. simpl in K, P. subst k.
  assert (G : guide_value class_attr h n (it_site tensor i, p) = Some (it_site tensor i, stored s' (it_param tensor i))).
  { unfold guide_value. cbn [fst snd]. unfold stored. rewrite P.
    destruct (item_cases n i (HI i (or_introl eq_refl))) as [(v & ll & ls & ss & Hr & Q)|(Q1 & Q2 & Q3)].
    - destruct (prior_var _ _ _ _ Hr) as (L1 & L2 & L3). destruct F as [F _]. destruct (F _ _ _ _ Hr) as (_ & _ & _ & _ & F5).
      destruct Q as [[Q1 Q2]|[[Q1 Q2]|[Q1 Q2]]]; rewrite Q1; [now rewrite L1|now rewrite L2|].
      rewrite L3. rewrite Q2 in P. unfold stored in F5. rewrite P in F5. unfold expand. rewrite F5. cbn [tl]. now rewrite shape_eqb_refl.
    - rewrite Q1, prior_eps, Q3. reflexivity. }
  rewrite G. rewrite (IH gv'); [reflexivity| |exact V']. intros j Hj. apply HI. now right.
Qed.
Lemma value_var n s v ll ls ss : In (v, ll, ls, ss) (rows tensor h) ->
  vget (loc v) (value_list n s) = Some (stored s (prm (loc v))) /\
  vget (scl v) (value_list n s) = Some (stored s (prm (scl v))) /\
  vget v (value_list n s) = Some (stored s (prm v)).
Proof.
  intros Hr. unfold value_list.
  pose proof (fun i Hi => vget_map (it_site tensor) (fun i => stored s (it_param tensor i)) (its n) i (sites_nodup n) Hi) as V.
  repeat split.
  - refine (V (Item tensor (loc v) false (t_dim ll) (prm (loc v)) (PVal tensor ll)) _).
    unfold items. apply in_or_app. left. apply in_flat_map. eexists. split; [exact Hr|]. left. reflexivity.
  - refine (V (Item tensor (scl v) false (t_dim ll) (prm (scl v)) (PVal tensor ss)) _).
    unfold items. apply in_or_app. left. apply in_flat_map. eexists. split; [exact Hr|]. right. left. reflexivity.
  - refine (V (Item tensor v true (t_dim ll) (prm v) (PRepeat tensor n ll)) _).
    unfold items. apply in_or_app. right. apply in_or_app. right. apply in_map_iff. eexists. split; [|exact Hr]. reflexivity.
Qed.
Lemma value_eps n s : h_include_noise _ h = true -> vget "eps" (value_list n s) = Some (stored s (prm "eps")).
Proof.
  intros I. unfold value_list.
  refine (vget_map (it_site tensor) (fun i => stored s (it_param tensor i)) (its n)
     (Item tensor "eps" false (if type_noise_on tensor t_dim h then 1 else 0) (prm "eps") (PVal tensor (h_noise tensor h))) (sites_nodup n) _).
  unfold items. apply in_or_app. right. apply in_or_app. left. unfold eps_items. rewrite I. left. reflexivity.
Qed.

(** ** The value of the loss *)
Variable solve : list tensor -> option (list (list R)).
(** log density of the population mean and scale of one parameter, and of its value in test [b] *)
Definition top_logp (s : Inference.store tensor) (r : string * tensor * tensor * tensor) : R :=
  match r with (v, ll, ls, ss) =>
    (rsum (t_size ll) (fun i => normal_logp (t_at ll i) (t_at ls i) (t_at (stored s (prm (loc v))) i)) +
     rsum (t_size ll) (fun i => half_logp (t_at ss i) (t_at (stored s (prm (scl v))) i)))%R end.
Definition test_logp (s : Inference.store tensor) (b : nat) (r : string * tensor * tensor * tensor) : R :=
  match r with (v, ll, ls, ss) =>
    rsum (t_size ll) (fun i => normal_logp (t_at (stored s (prm (loc v))) i) (t_at (stored s (prm (scl v))) i)
                                 (t_at (stored s (prm v)) (b * t_size ll + i)%nat)) end.
Definition eps_logp (s : Inference.store tensor) : R :=
  if h_include_noise _ h then rsum (t_size (h_noise _ h)) (fun i => half_logp (t_at (h_noise _ h) i) (t_at (stored s (prm "eps")) i)) else 0%R.
Definition eps_value (s : Inference.store tensor) : tensor := if h_include_noise _ h then stored s (prm "eps") else h_noise _ h.
Definition noise_vector (s : Inference.store tensor) (D : data) : option (list R) :=
  if type_noise_on _ t_dim h then type_noise (map (t_at (eps_value s)) (seq 0 (t_size (eps_value s)))) (d_njunk D) (d_types D)
  else Some (repeat (t_at (eps_value s) 0) (d_trials D)).

Section Value.
Variables (D : data) (s : Inference.store tensor) (res : list (list R)) (noise w : list R).
Notation n := (d_trials D).
Hypothesis F : fits n s.
Notation vs := (value_list n s).
Notation site := (site_logp class_attr h vs D res noise w).
Lemma top_sites : osum site (flat_map (top_nodes tensor t_dim h) (rows tensor h)) = Some (lsum (top_logp s) (rows tensor h)).
Proof.
  assert (K : forall rs, incl rs (rows tensor h) -> osum site (flat_map (top_nodes tensor t_dim h) rs) = Some (lsum (top_logp s) rs)); [|apply K, incl_refl].
  induction rs as [|[[[v ll] ls] ss] rs IH]; intros I; [reflexivity|].
  assert (Hr : In (v, ll, ls, ss) (rows tensor h)) by (apply I; left; reflexivity).
  destruct (prior_var _ _ _ _ Hr) as (L1 & L2 & _). destruct (value_var n s _ _ _ _ Hr) as (V1 & V2 & _).
  destruct F as [F1 _]. destruct (F1 _ _ _ _ Hr) as (S1 & S2 & S3 & S4 & _).
  cbn [flat_map]. change (lsum (top_logp s) ((v, ll, ls, ss) :: rs)) with (top_logp s (v, ll, ls, ss) + lsum (top_logp s) rs)%R.
  apply osum_app; [|apply IH; intros x Hx; apply I; now right].
  unfold top_nodes, rname, rloc. cbn [fst snd osum]. unfold site_logp at 1 2. unfold dist_of. rewrite L1, L2, V1, V2. unfold normal.
  rewrite S1, shape_eqb_refl. cbn [d_shape half_normal]. rewrite S2, S3, S4, shape_eqb_refl. unfold event_logp. cbn [d_shape d_logp half_normal].
  unfold top_logp, t_size. rewrite S2. f_equal. lra.
Qed.
Lemma eps_sites : osum site (eps_nodes tensor t_dim h) = Some (eps_logp s).
Proof.
  unfold eps_nodes, eps_logp. destruct (h_include_noise tensor h) eqn:I; [|reflexivity].
  cbn [osum]. unfold site_logp, dist_of. rewrite prior_eps, I, (value_eps n s I). cbn [half_normal d_shape].
  rewrite (proj2 F I), shape_eqb_refl. unfold event_logp. cbn [half_normal d_shape d_logp]. unfold t_size. f_equal. lra.
Qed.
Lemma bot_sites : osum site (map (bot_node tensor t_dim) (rows tensor h)) =
  Some (rsum n (fun b => nth b w 0 * lsum (test_logp s b) (rows tensor h))%R).
Proof.
  rewrite <- (lsum_rsum n (fun b => nth b w 0%R) (fun r b => test_logp s b r)). rewrite osum_map. apply osum_some.
  intros [[[v ll] ls] ss] Hr. unfold bot_node, rname, rloc, site_logp. cbn [fst snd].
  destruct (prior_var _ _ _ _ Hr) as (_ & _ & L3). destruct (value_var n s _ _ _ _ Hr) as (V1 & V2 & V3).
  destruct F as [F1 _]. destruct (F1 _ _ _ _ Hr) as (S1 & S2 & S3 & S4 & S5).
  unfold dist_of. rewrite L3, V1, V2, V3. unfold normal. rewrite S3, S4, shape_eqb_refl. cbn [d_shape]. rewrite S5, shape_eqb_refl.
  f_equal.
Qed.
Lemma obs_sites : osum site [NPlate "time"; NSample "obs" true 0 true] = Some (rsum n (fun b => nth b w 0 * obs_logp D res noise b)%R).
Proof. cbn [osum site_logp]. f_equal. lra. Qed.
Lemma all_sites : osum site (latent tensor t_dim h ++ [NPlate "time"; NSample "obs" true 0 true])%list =
  Some (lsum (top_logp s) (rows tensor h) + eps_logp s +
        rsum n (fun b => nth b w 0 * (lsum (test_logp s b) (rows tensor h) + obs_logp D res noise b)))%R.
Proof.
  assert (P0 : osum site [NPlate "trials"] = Some 0%R) by (cbn [osum site_logp]; f_equal; lra).
  unfold latent. rewrite (osum_app site _ _ _ _ (osum_app site _ _ _ _ top_sites (osum_app site _ _ _ _ eps_sites (osum_app site _ _ _ _ P0 bot_sites))) obs_sites).
  f_equal. rewrite (rsum_ext n (fun b => nth b w 0 * (lsum (test_logp s b) (rows tensor h) + obs_logp D res noise b))%R
    (fun b => nth b w 0 * lsum (test_logp s b) (rows tensor h) + nth b w 0 * obs_logp D res noise b)%R) by (intros; lra).
  rewrite rsum_plus. lra.
Qed.
End Value.

Lemma svi_value limit table s D tr gv s' pred res noise : (2 <= limit)%nat ->
  guide tensor t_dim h (d_trials D) s = inl (tr, gv, s') -> fits (d_trials D) s' ->
  noise_vector s' D = Some noise ->
  solve (map (fun v => stored s' (prm v)) (h_names tensor h)) = Some pred ->
  convert_results (d_junk D) pred (d_cycles D) (d_types D) = Some res ->
  svi_loss class_attr solve limit h table s D =
    Some (- (lsum (top_logp s') (rows tensor h) + eps_logp s' +
        rsum (d_trials D) (fun b => nth b (make_weight_tensor table (d_types D)) 0 * (lsum (test_logp s' b) (rows tensor h) + obs_logp D res noise b))), res, s')%R.
Proof.
  intros HL G F N S V. unfold svi_loss. pose proof (guide_ok tensor t_dim class_attr h (d_trials D) s C W) as GE.
  rewrite GE in G. injection G as <- <- <-. rewrite GE, (guide_values (d_trials D) s F).
  set (s' := snd (run tensor (its (d_trials D)) s)) in *.
  unfold hier_forward. rewrite (model_trace_ok tensor t_dim class_attr h limit true s' HL C W).
  destruct (extra_params_in tensor (extra_names tensor h true) s') as (l & E & _).
  { intros p Hp. pose proof (run_vals tensor (its (d_trials D)) s) as RV.
    assert (Hi : In p (map (it_param tensor) (its (d_trials D)))).
    { rewrite items_params by auto. unfold Inference.prm. rewrite !map_app, !in_app_iff. auto. }
    apply in_map_iff in Hi. destruct Hi as (i & <- & Hi).
    assert (FI : forall l l', Forall2 (fun i sv => fst sv = it_site tensor i /\ sget tensor (it_param tensor i) (snd (run tensor (its (d_trials D)) s)) = Some (snd sv)) l l' ->
       In i l -> exists v, sget tensor (it_param tensor i) s' = Some v).
    { induction 1 as [|x y l0 l0' [_ Q] _ IH]; intros J; [contradiction|]. destruct J as [->|J]; [eauto|auto]. }
    exact (FI _ _ RV Hi). }
  rewrite E.
  assert (FN : full_noise h (value_list (d_trials D) s') D = Some noise).
  { unfold full_noise. unfold noise_vector, eps_value in N. destruct (h_include_noise tensor h) eqn:I; [rewrite (value_eps _ s' I)|]; exact N. }
  assert (RS : results solve h (value_list (d_trials D) s') D = Some res).
  { unfold results.
    assert (T : traverse (fun k => vget k (value_list (d_trials D) s')) (h_names tensor h) = Some (map (fun v => stored s' (prm v)) (h_names tensor h))).
    { assert (HV : forall v, In v (h_names tensor h) -> vget v (value_list (d_trials D) s') = Some (stored s' (prm v))).
      { intros v Hv. rewrite <- (rows_names tensor h C) in Hv. apply in_map_iff in Hv. destruct Hv as ([[[v' a] b] c] & <- & Hr).
        exact (proj2 (proj2 (value_var _ s' _ _ _ _ Hr))). }
      revert HV. generalize (h_names tensor h). induction l0 as [|v l0 IH]; intros HV; cbn [traverse map]; [reflexivity|].
      rewrite HV by (left; reflexivity). rewrite IH; [reflexivity|]. intros u Hu. apply HV. now right. }
    rewrite T, S. exact V. }
  rewrite FN, RS, (all_sites D s' res noise (make_weight_tensor table (d_types D)) F). reflexivity.
Qed.
End Facts.
