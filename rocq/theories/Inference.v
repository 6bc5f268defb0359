(** Model of the statistical bookkeeping of pyoptmat/optimize.py: which latent
    sites HierarchicalStatisticalModel and its guide sample, the extra parameters
    of the adjoint solver, per-type weights and per-type noise.
    Distributions, the integration of the material model and the values drawn are
    not modelled here: a site is its name, whether it is inside the "trials" plate
    and its event dimension. *)
From Coq Require Import Reals ZArith List String Bool Lia Permutation.
From Verif Require Import Experiments.
Import ListNotations.
Local Open Scope string_scope.
Infix "+++" := String.append (at level 60, right associativity).

(** ** Per-type weights and noise *)
(** experiments.py 524-533: exp_map in dictionary order *)
Definition exp_names : list string :=
  ["tensile"; "relaxation"; "strain_cyclic"; "creep"; "stress_cyclic"; "abstract_tensile"; "direct_data"].
Definition exp_codes : list Z := [0; 1; 2; 3; 4; 5; 6]%Z.

(** dest[types == i] = v for a scalar v *)
Definition fill {A} (types : list Z) (i : Z) (v : A) (dest : list A) : list A :=
  map (fun tw => if Z.eqb (fst tw) i then v else snd tw) (combine types dest).

(** optimize.py 333-337: weights is None, or a dictionary keyed by type names
    (an unknown name is a KeyError: None) *)
Definition weight_table (weights : option (list (string * R))) : option (list (Z * R)) :=
  match weights with
  | None => Some (map (fun c => (c, 1%R)) exp_codes)
  | Some d => traverse (fun nv => match exp_map (fst nv) with Some c => Some (c, snd nv) | None => None end) d
  end.
(** optimize.py 552-562, _make_weight_tensor *)
Definition make_weight_tensor (table : list (Z * R)) (types : list Z) : list R :=
  fold_left (fun w cv => fill types (fst cv) (snd cv) w) table (repeat 0%R (List.length types)).

(** optimize.py 243-249 and 522-528: full_noise = empty; full_noise[types == i] = eps[i]
    for every code i ([None]: eps too short, IndexError); [junk] is the content of
    torch.empty *)
Definition type_noise (eps junk : list R) (types : list Z) : option (list R) :=
  fold_left (fun acc i => match acc, nth_error eps (Z.to_nat i) with
                          | Some w, Some e => Some (fill types i e w)
                          | _, _ => None end) exp_codes (Some junk).

(** ** Sites *)
Section Sites.
Variables (T : Type) (dim : T -> nat).

(** The arguments of HierarchicalStatisticalModel that matter here; [h_noise_dim] is
    noise_prior.dim() *)
Record hsm := {
  h_names : list string; h_loc_loc : list T; h_loc_scale : list T; h_scale_scale : list T;
  h_noise : T; h_loc_suffix : string; h_scale_suffix : string; h_param_suffix : string; h_include_noise : bool }.

Inductive attr := Plain | Top (edim : nat) | Bot (edim : nat) (loc scale : string).

(** names of the ordinary attributes __init__ assigns before the loop, optimize.py 325-351 *)
Definition reserved : list string :=
  ["maker"; "loc_suffix"; "scale_suffix"; "param_suffix"; "include_noise"; "names"; "weights";
   "loc_loc_priors"; "loc_scale_priors"; "scale_scale_priors"; "noise_prior"; "type_noise"; "bot_vars"; "top_vars"; "dims"].

(** zip of the four lists *)
Fixpoint zip4 (vs : list string) (a b c : list T) : list (string * T * T * T) :=
  match vs, a, b, c with
  | v :: vs, x :: a, y :: b, z :: c => (v, x, y, z) :: zip4 vs a b c
  | _, _, _, _ => []
  end.
Definition rows (h : hsm) := zip4 (h_names h) (h_loc_loc h) (h_loc_scale h) (h_scale_scale h).

(** optimize.py 352-393: the attribute assignments of __init__ in order *)
Definition var_attrs (h : hsm) (r : string * T * T * T) : list (string * attr) :=
  match r with (v, ll, ls, ss) =>
    [(v +++ h_loc_suffix h, Top (dim ll)); (v +++ h_scale_suffix h, Top (dim ll));
     (v, Bot (dim ll) (v +++ h_loc_suffix h) (v +++ h_scale_suffix h))] end.
Definition type_noise_on (h : hsm) : bool := Nat.ltb 0 (dim (h_noise h)).
Definition eps_attr (h : hsm) : attr :=
  if h_include_noise h then Top (if type_noise_on h then 1 else 0) else Plain.
Definition assignments (h : hsm) : list (string * attr) :=
  map (fun n => (n, Plain)) reserved ++ flat_map (var_attrs h) (rows h) ++ [("eps", eps_attr h); ("extra_param_names", Plain)].
(** optimize.py 361, 367: top_vars *)
Definition top_vars (h : hsm) : list string :=
  flat_map (fun r => match r with (v, _, _, _) => [v +++ h_loc_suffix h; v +++ h_scale_suffix h] end) (rows h).

(** getattr: class attributes (methods) come first, then the last assignment *)
Variable class_attr : string -> bool.
Fixpoint last_assoc (k : string) (l : list (string * attr)) : option attr :=
  match l with
  | [] => None
  | (k', a) :: l => match last_assoc k l with Some b => Some b | None => if String.eqb k k' then Some a else None end
  end.
Definition lookup_attr (h : hsm) (k : string) : option attr :=
  if class_attr k then Some Plain else last_assoc k (assignments h).

Inductive node := NPlate (name : string) | NSample (name : string) (plate : bool) (edim : nat) (observed : bool).
Definition node_name (n : node) : string := match n with NPlate s => s | NSample s _ _ _ => s end.
Inductive serror := AttributeErr | RecursionErr | StoreErr (p : string) | DuplicateSite.

(** Reading a PyroSample attribute inside a model call samples it once and caches it;
    the prior of a bottom-level variable reads its two top-level variables first. *)
Fixpoint get (fuel : nat) (h : hsm) (plate : bool) (k : string) (tr : list node) : list node + serror :=
  match fuel with
  | O => inr RecursionErr
  | S fuel =>
    match lookup_attr h k with
    | None => inr AttributeErr
    | Some Plain => inl tr
    | Some (Top e) => if existsb (fun n => String.eqb (node_name n) k) tr then inl tr else inl (tr ++ [NSample k plate e false])%list
    | Some (Bot e l s) => if existsb (fun n => String.eqb (node_name n) k) tr then inl tr else
        match get fuel h plate l tr with
        | inr e => inr e
        | inl tr => match get fuel h plate s tr with
                    | inr e => inr e
                    | inl tr => inl (tr ++ [NSample k plate e false])%list
                    end
        end
    end
  end.
Fixpoint get_all (fuel : nat) (h : hsm) (plate : bool) (ks : list string) (tr : list node) : list node + serror :=
  match ks with
  | [] => inl tr
  | k :: ks => match get fuel h plate k tr with inl tr => get_all fuel h plate ks tr | inr e => inr e end
  end.

(** ** The parameter store *)
Inductive pval := PVal (t : T) | PRepeat (n : nat) (t : T).
Definition store := list (string * pval).
Definition sget (k : string) (s : store) : option pval :=
  match find (fun kv => String.eqb (fst kv) k) s with Some kv => Some (snd kv) | None => None end.
(** pyro.param(name, init) *)
Definition param (k : string) (init : pval) (s : store) : pval * store :=
  match sget k s with Some v => (v, s) | None => (init, s ++ [(k, init)])%list end.

(** optimize.py 484-496, get_extra_params; [extra] is self.extra_param_names, [] before
    make_guide and set by line 480 *)
Definition extra_names (h : hsm) (made : bool) : list string :=
  if made then map (fun v => v +++ h_param_suffix h) (h_names h) else [].
Fixpoint get_extra_params (extra : list string) (s : store) : list pval + serror :=
  match extra with
  | [] => inl []
  | p :: ps => match sget p s with
               | None => inr (StoreErr p)
               | Some v => match get_extra_params ps s with inl l => inl (v :: l) | inr e => inr e end
               end
  end.

(** pyro's trace refuses two sites of the same name *)
Fixpoint nodupb (l : list string) : bool :=
  match l with [] => true | x :: l => negb (existsb (String.eqb x) l) && nodupb l end.
Definition checked (tr : list node) : list node + serror :=
  if nodupb (map node_name tr) then inl tr else inr DuplicateSite.

(** optimize.py 498-550, forward: the sites, in the order they are sampled.  The recursion
    limit stands for Python's. *)
Definition model_trace (limit : nat) (h : hsm) (made : bool) (s : store) : list node + serror :=
  match get_all limit h false (top_vars h) [] with
  | inr e => inr e
  | inl tr =>
    match get limit h false "eps" tr with
    | inr e => inr e
    | inl tr =>
      match get_all limit h true (h_names h) (tr ++ [NPlate "trials"])%list with
      | inr e => inr e
      | inl tr =>
        match get_extra_params (extra_names h made) s with
        | inr e => inr e
        | inl _ => checked (tr ++ [NPlate "time"; NSample "obs" true 0 true])%list
        end
      end
    end
  end.

(** optimize.py 424-478: the guide.  State: nodes, delta values drawn, parameter store. *)
Definition gstate : Type := list node * list (string * pval) * store.
Definition gsample (plate : bool) (edim : nat) (site pname : string) (init : pval) (st : gstate) : gstate :=
  match st with (tr, vals, s) =>
    let '(v, s') := param pname init s in
    (tr ++ [NSample site plate edim false], vals ++ [(site, v)], s')%list end.
Definition guide_top (h : hsm) (st : gstate) (r : string * T * T * T) : gstate :=
  match r with (v, ll, ls, ss) =>
    (* both parameters are created before the two samples: lines 435-453 *)
    match st with (tr, vals, s) =>
      let '(lp, s1) := param ((v +++ h_loc_suffix h) +++ h_param_suffix h) (PVal ll) s in
      let '(sp, s2) := param ((v +++ h_scale_suffix h) +++ h_param_suffix h) (PVal ss) s1 in
      ((tr ++ [NSample (v +++ h_loc_suffix h) false (dim ll) false; NSample (v +++ h_scale_suffix h) false (dim ll) false])%list,
       (vals ++ [(v +++ h_loc_suffix h, lp); (v +++ h_scale_suffix h, sp)])%list, s2) end end.
(** zip(self.names, self.loc_loc_priors, self.dims), line 469; dims has one entry per row *)
Fixpoint zip2 (vs : list string) (a : list T) (n : nat) : list (string * T) :=
  match n, vs, a with S n, v :: vs, x :: a => (v, x) :: zip2 vs a n | _, _, _ => [] end.
Definition guide_bot (h : hsm) (ntrials : nat) (st : gstate) (r : string * T) : gstate :=
  gsample true (dim (snd r)) (fst r) (fst r +++ h_param_suffix h) (PRepeat ntrials (snd r)) st.
Definition guide (h : hsm) (ntrials : nat) (s : store) : (list node * list (string * pval) * store) + serror :=
  let st := fold_left (guide_top h) (rows h) ([], [], s) in
  let st := if h_include_noise h
            then gsample false (if type_noise_on h then 1 else 0) "eps" ("eps" +++ h_param_suffix h) (PVal (h_noise h)) st
            else st in
  let st := match st with (tr, vals, s) => ((tr ++ [NPlate "trials"])%list, vals, s) end in
  let st := fold_left (guide_bot h ntrials) (zip2 (h_names h) (h_loc_loc h) (List.length (rows h))) st in
  match st with (tr, vals, s) =>
    match checked tr with inl tr => inl (tr, vals, s) | inr e => inr e end end.
End Sites.

(** ** Facts: masked filling *)
Lemma fill_length {A} types i (v : A) d : List.length d = List.length types -> List.length (fill types i v d) = List.length types.
Proof. intros H. unfold fill. rewrite map_length, combine_length, H. lia. Qed.
Lemma fill_nth {A} types i (v : A) d k t x : nth_error types k = Some t -> nth_error d k = Some x ->
  nth_error (fill types i v d) k = Some (if Z.eqb t i then v else x).
Proof.
  unfold fill. revert d k. induction types as [|t0 ts IH]; intros [|x0 d] [|k]; simpl; intros H1 H2; try discriminate.
  - inversion H1; inversion H2; subst. auto.
  - apply IH; auto.
Qed.
Lemma traverse_in {A B} (f : A -> option B) l r : traverse f l = Some r -> forall b, In b r -> exists a, In a l /\ f a = Some b.
Proof.
  revert r. induction l as [|a l IH]; simpl; intros r H b Hb.
  - inversion H; subst. contradiction.
  - destruct (f a) eqn:E; [|discriminate]. destruct (traverse f l); [|discriminate]. inversion H; subst.
    destruct Hb as [<-|Hb]; [exists a; auto|]. destruct (IH _ eq_refl _ Hb) as (a' & ? & ?). exists a'; auto.
Qed.
Lemma traverse_out {A B} (f : A -> option B) l r : traverse f l = Some r -> forall a, In a l -> exists b, f a = Some b /\ In b r.
Proof.
  revert r. induction l as [|a l IH]; simpl; intros r H b Hb; [contradiction|].
  destruct (f a) eqn:E; [|discriminate]. destruct (traverse f l); [|discriminate]. inversion H; subst.
  destruct Hb as [<-|Hb]; [exists b0; simpl; auto|]. destruct (IH _ eq_refl _ Hb) as (b' & ? & ?). exists b'. simpl. auto.
Qed.
Lemma traverse_none {A B} (f : A -> option B) l : traverse f l = None <-> exists a, In a l /\ f a = None.
Proof.
  induction l as [|a l IH]; simpl.
  - split; [discriminate|]. intros (a & [] & _).
  - destruct (f a) eqn:E.
    + destruct (traverse f l) eqn:Q.
      * split; [discriminate|]. intros (a' & [<-|H] & H'); [congruence|].
        assert (Some l0 = None) by (apply IH; exists a'; auto). discriminate.
      * split; [|auto]. intros _. destruct (proj1 IH eq_refl) as (a' & ? & ?). exists a'; auto.
    + split; [|auto]. intros _. exists a; auto.
Qed.

Lemma fold_fill_length tbl types : forall w : list R, List.length w = List.length types ->
  List.length (fold_left (fun w cv => fill types (fst cv) (snd cv) w) tbl w) = List.length types.
Proof. induction tbl; simpl; intros w H; [auto|]. apply IHtbl. now apply fill_length. Qed.
Lemma fold_fill_nth tbl types : forall (w : list R) k t x, nth_error types k = Some t -> nth_error w k = Some x ->
  NoDup (map fst tbl) ->
  (forall v, In (t, v) tbl -> nth_error (fold_left (fun w cv => fill types (fst cv) (snd cv) w) tbl w) k = Some v)
  /\ (~ In t (map fst tbl) -> nth_error (fold_left (fun w cv => fill types (fst cv) (snd cv) w) tbl w) k = Some x).
Proof.
  induction tbl as [|[c v0] tbl IH]; simpl; intros w k t x Ht Hx ND.
  - split; [contradiction|auto].
  - inversion ND as [|? ? N1 N2]; subst.
    pose proof (fill_nth types c v0 w k t x Ht Hx) as F. destruct (IH _ _ _ _ Ht F N2) as [P Q]. split.
    + intros v [E|Hin]; [|auto]. inversion E; subst. rewrite Z.eqb_refl in Q. auto.
    + intros N. rewrite Q by auto. destruct (Z.eqb_spec t c); [subst; exfalso; auto|auto].
Qed.

Lemma exp_map_inj a b c : exp_map a = Some c -> exp_map b = Some c -> a = b.
Proof.
  unfold exp_map. intros H1 H2.
  repeat match type of H1 with context [String.eqb a ?s] => destruct (String.eqb_spec a s); [subst a|] end;
  repeat match type of H2 with context [String.eqb b ?s] => destruct (String.eqb_spec b s); [subst b|] end; congruence.
Qed.

(** ** Facts: sites *)
Lemma nodupb_spec l : nodupb l = true <-> NoDup l.
Proof.
  induction l as [|x l IH]; simpl.
  - split; [constructor|auto].
  - rewrite andb_true_iff, negb_true_iff, IH. split.
    + intros [H1 H2]. constructor; auto. intros Hin. assert (existsb (String.eqb x) l = true).
      { apply existsb_exists. exists x. split; [auto|apply String.eqb_refl]. } congruence.
    + intros H. inversion H; subst. split; [|auto]. destruct (existsb _ l) eqn:E; [|auto].
      apply existsb_exists in E. destruct E as (y & Hy & E). apply String.eqb_eq in E. subst. contradiction.
Qed.
Lemma seen_spec k tr : existsb (fun n => String.eqb (node_name n) k) tr = true <-> In k (map node_name tr).
Proof.
  rewrite existsb_exists, in_map_iff. split; intros (n & H); exists n.
  - destruct H as [H1 H2]. apply String.eqb_eq in H2. auto.
  - destruct H as [H1 H2]. split; [auto|]. now apply String.eqb_eq.
Qed.
Lemma seen_false k tr : ~ In k (map node_name tr) -> existsb (fun n => String.eqb (node_name n) k) tr = false.
Proof. intros H. destruct (existsb _ tr) eqn:E; [|auto]. apply seen_spec in E. contradiction. Qed.
Lemma last_assoc_in k a l : NoDup (map fst l) -> In (k, a) l -> last_assoc k l = Some a.
Proof.
  induction l as [|[k' a'] l IH]; simpl; intros ND H; [contradiction|]. inversion ND; subst.
  destruct H as [E|H].
  - inversion E; subst. assert (N : last_assoc k l = None).
    { clear -H2. induction l as [|[k' a'] l IH]; simpl in *; [auto|]. rewrite IH by auto.
      destruct (String.eqb_spec k k'); [subst; exfalso; auto|auto]. }
    now rewrite N, String.eqb_refl.
  - now rewrite (IH H3 H).
Qed.
Lemma last_assoc_none k l : ~ In k (map fst l) -> last_assoc k l = None.
Proof.
  induction l as [|[k' a'] l IH]; simpl in *; intros H; [auto|]. rewrite IH by auto.
  destruct (String.eqb_spec k k'); [subst; exfalso; auto|auto].
Qed.
Lemma triple_perm {A} (f g : A -> A) l :
  Permutation (flat_map (fun v => [f v; g v; v]) l) (flat_map (fun v => [f v; g v]) l ++ l)%list.
Proof.
  induction l as [|x l IH]; simpl; [auto|]. do 2 constructor.
  etransitivity; [|apply Permutation_middle]. constructor. auto.
Qed.

Lemma nodup_app_disj {A} (l l' : list A) : NoDup l -> NoDup l' -> (forall x, In x l -> ~ In x l') -> NoDup (l ++ l').
Proof.
  induction l as [|x l IH]; intros N N' H; [auto|]. inversion N; subst. cbn [app]. constructor.
  - rewrite in_app_iff. intros [Q|Q]; [contradiction|]. apply (H x); [now left|auto].
  - apply IH; auto. intros y Hy. apply H. now right.
Qed.
Section SiteFacts.
Variables (T : Type) (dim : T -> nat) (class_attr : string -> bool) (h : hsm T).
Notation vars := (h_names T h).
Notation loc v := (v +++ h_loc_suffix T h).
Notation scl v := (v +++ h_scale_suffix T h).
Definition site_names : list string := flat_map (fun v => [loc v; scl v; v]) vars.
Definition forbidden : list string := (reserved ++ ["eps"; "extra_param_names"; "obs"; "trials"; "time"])%list.
(** The names a caller must keep apart, and one prior of each kind per name *)
Definition well_named : Prop :=
  NoDup site_names /\ (forall k, In k site_names -> ~ In k forbidden /\ class_attr k = false) /\ class_attr "eps" = false.
Definition complete : Prop :=
  List.length (h_loc_loc T h) = List.length vars /\ List.length (h_loc_scale T h) = List.length vars
  /\ List.length (h_scale_scale T h) = List.length vars.

Definition rname (r : string * T * T * T) : string := fst (fst (fst r)).
Definition rloc (r : string * T * T * T) : T := snd (fst (fst r)).
Lemma rows_names : complete -> map rname (rows T h) = vars.
Proof.
  unfold complete, rows. destruct h as [vs a b c]; simpl. intros (H1 & H2 & H3).
  clear h. revert a b c H1 H2 H3. induction vs as [|v vs IH]; intros [|x a] [|y b] [|z c]; simpl; intros; try discriminate; auto.
  f_equal. apply IH; auto.
Qed.
Lemma rows_locs : complete -> map rloc (rows T h) = h_loc_loc T h.
Proof.
  unfold complete, rows. destruct h as [vs a b c]; simpl. intros (H1 & H2 & H3).
  clear h. revert a b c H1 H2 H3. induction vs as [|v vs IH]; intros [|x a] [|y b] [|z c]; simpl; intros; try discriminate; auto.
  f_equal. apply IH; auto.
Qed.
Lemma rows_zip2 : complete -> zip2 T vars (h_loc_loc T h) (List.length (rows T h)) = map (fun r => (rname r, rloc r)) (rows T h).
Proof.
  unfold complete, rows. destruct h as [vs a b c]; simpl. intros (H1 & H2 & H3).
  clear h. revert a b c H1 H2 H3. induction vs as [|v vs IH]; intros [|x a] [|y b] [|z c]; simpl; intros; try discriminate; auto.
  f_equal. apply IH; auto.
Qed.

Lemma keys_assign : complete -> map fst (assignments T dim h) = (reserved ++ site_names ++ ["eps"; "extra_param_names"])%list.
Proof.
  intros C. unfold assignments. rewrite !map_app. f_equal. 
  f_equal. unfold site_names. rewrite <- (rows_names C). 
  generalize (rows T h). induction l as [|[[[v a] b] c] l IH]; simpl; [auto|]. rewrite IH. auto.
Qed.
Lemma reserved_nodup : NoDup (reserved ++ ["eps"; "extra_param_names"; "obs"; "trials"; "time"]).
Proof. apply nodupb_spec. reflexivity. Qed.
Lemma assign_nodup : complete -> well_named -> NoDup (map fst (assignments T dim h)).
Proof.
  intros C (W1 & W2 & _). rewrite keys_assign by auto.
  apply Permutation_NoDup with (l := (site_names ++ reserved ++ ["eps"; "extra_param_names"])%list).
  { rewrite app_assoc. rewrite (app_assoc reserved). apply Permutation_app_tail, Permutation_app_comm. }
  assert (ND : NoDup (reserved ++ ["eps"; "extra_param_names"])) by (apply nodupb_spec; reflexivity).
  apply nodup_app_disj; auto. intros x Hx Q. destruct (W2 x Hx) as [N _]. apply N. unfold forbidden.
  apply in_app_iff in Q. apply in_app_iff. destruct Q as [Q|Q]; [now left|right].
  destruct Q as [Q|[Q|[]]]; [left|right; left]; auto.
Qed.
Lemma lookup_var r : complete -> well_named -> In r (rows T h) ->
  lookup_attr T dim class_attr h (loc (rname r)) = Some (Top (dim (rloc r)))
  /\ lookup_attr T dim class_attr h (scl (rname r)) = Some (Top (dim (rloc r)))
  /\ lookup_attr T dim class_attr h (rname r) = Some (Bot (dim (rloc r)) (loc (rname r)) (scl (rname r))).
Proof.
  intros C W Hr. pose proof (assign_nodup C W) as ND. destruct W as (_ & W & _).
  assert (Hn : In (rname r) vars). { rewrite <- rows_names by auto. now apply in_map. }
  assert (HS : forall k, In k [loc (rname r); scl (rname r); rname r] -> class_attr k = false).
  { intros k Hk. apply W. unfold site_names. apply in_flat_map. exists (rname r). auto. }
  assert (HA : forall ka, In ka (var_attrs T dim h r) -> In ka (assignments T dim h)).
  { intros ka Hka. unfold assignments. apply in_or_app. right. apply in_or_app. left. apply in_flat_map. exists r. auto. }
  destruct r as [[[v a] b] c]. unfold rname, rloc in *. cbn in HS, HA |- *.
  unfold lookup_attr. rewrite (HS (loc v)), (HS (scl v)), (HS v) by auto.
  repeat split; (apply last_assoc_in; [exact ND|apply HA; auto]).
Qed.
Lemma lookup_eps : complete -> well_named -> lookup_attr T dim class_attr h "eps" = Some (eps_attr T dim h).
Proof.
  intros C W. unfold lookup_attr. rewrite (proj2 (proj2 W)). apply last_assoc_in; [now apply assign_nodup|].
  unfold assignments. apply in_or_app. right. apply in_or_app. right. simpl. auto.
Qed.

(** *** the model's trace *)
Definition top_nodes (r : string * T * T * T) : list node :=
  [NSample (loc (rname r)) false (dim (rloc r)) false; NSample (scl (rname r)) false (dim (rloc r)) false].
Definition eps_nodes : list node :=
  if h_include_noise T h then [NSample "eps" false (if type_noise_on T dim h then 1 else 0) false] else [].
Definition bot_node (r : string * T * T * T) : node := NSample (rname r) true (dim (rloc r)) false.
Definition latent : list node :=
  (flat_map top_nodes (rows T h) ++ eps_nodes ++ [NPlate "trials"] ++ map bot_node (rows T h))%list.

Lemma get_all_top fuel rs : forall tr, complete -> well_named -> incl rs (rows T h) ->
  NoDup (map node_name tr ++ map node_name (flat_map top_nodes rs)) ->
  get_all T dim class_attr (S fuel) h false (flat_map (fun r => [loc (rname r); scl (rname r)]) rs) tr = inl (tr ++ flat_map top_nodes rs)%list.
Proof.
  induction rs as [|r rs IH]; intros tr C W I ND; cbn [flat_map app].
  - cbn. now rewrite app_nil_r.
  - destruct (lookup_var r C W (I r (or_introl eq_refl))) as (L1 & L2 & _).
    cbn [get_all get]. rewrite L1.
    assert (N1 : ~ In (loc (rname r)) (map node_name tr)).
    { intros Q. apply NoDup_remove_2 in ND. apply ND. apply in_or_app; auto. }
    rewrite seen_false by auto. cbn [get_all get]. rewrite L2.
    assert (N2 : ~ In (scl (rname r)) (map node_name (tr ++ [NSample (loc (rname r)) false (dim (rloc r)) false]))).
    { rewrite map_app. cbn [map node_name]. cbn [flat_map top_nodes map node_name app] in ND.
      change (loc (rname r) :: scl (rname r) :: ?x) with ([loc (rname r)] ++ scl (rname r) :: x)%list in ND.
      rewrite app_assoc in ND. apply NoDup_remove_2 in ND. intros Q. apply ND. apply in_or_app; auto. }
    rewrite seen_false by auto. rewrite <- !app_assoc. cbn [app]. rewrite IH; auto.
    + rewrite <- app_assoc. reflexivity.
    + intros x Hx. apply I. right. auto.
    + rewrite map_app, <- app_assoc. exact ND.
Qed.
Lemma get_all_bot fuel rs : forall tr, complete -> well_named -> incl rs (rows T h) ->
  (forall r, In r (rows T h) -> In (loc (rname r)) (map node_name tr) /\ In (scl (rname r)) (map node_name tr)) ->
  NoDup (map node_name tr ++ map rname rs) ->
  get_all T dim class_attr (S (S fuel)) h true (map rname rs) tr = inl (tr ++ map bot_node rs)%list.
Proof.
  induction rs as [|r rs IH]; intros tr C W I P ND; cbn [map].
  - cbn. now rewrite app_nil_r.
  - assert (Hr : In r (rows T h)) by (apply I; left; auto).
    destruct (lookup_var r C W Hr) as (L1 & L2 & L3). destruct (P r Hr) as [P1 P2].
    cbn [get_all get]. rewrite L3. rewrite seen_false.
    2:{ intros Q. cbn [map] in ND. apply NoDup_remove_2 in ND. apply ND. apply in_or_app; auto. }
    rewrite L1. apply seen_spec in P1. rewrite P1. rewrite L2. apply seen_spec in P2. rewrite P2.
    rewrite IH; auto.
    + rewrite <- app_assoc. reflexivity.
    + intros x Hx. apply I. right. auto.
    + intros r' Hr'. rewrite map_app, !in_app_iff. destruct (P r' Hr'). auto.
    + rewrite map_app, <- app_assoc. exact ND.
Qed.
Lemma top_names rs : map node_name (flat_map top_nodes rs) = flat_map (fun v => [loc v; scl v]) (map rname rs).
Proof. induction rs as [|r rs IH]; simpl; [auto|]. now rewrite IH. Qed.
Lemma bot_names rs : map node_name (map bot_node rs) = map rname rs.
Proof. rewrite map_map. apply map_ext. auto. Qed.
Lemma split_nodup : well_named -> NoDup (flat_map (fun v => [loc v; scl v]) vars ++ vars).
Proof. intros (W & _). eapply Permutation_NoDup; [apply (triple_perm (fun v => loc v) (fun v => scl v))|exact W]. Qed.
Lemma latent_names : complete -> map node_name latent =
  (flat_map (fun v => [loc v; scl v]) vars ++ map node_name eps_nodes ++ ["trials"] ++ vars)%list.
Proof. intros C. unfold latent. rewrite !map_app, top_names, bot_names, rows_names by auto. auto. Qed.
Lemma full_nodup : complete -> well_named -> NoDup (map node_name (latent ++ [NPlate "time"; NSample "obs" true 0 true])).
Proof.
  intros C W. rewrite map_app, latent_names by auto.
  apply Permutation_NoDup with (l := ((flat_map (fun v => [loc v; scl v]) vars ++ vars) ++ (map node_name eps_nodes ++ ["trials"; "time"; "obs"]))%list).
  { rewrite <- !app_assoc. apply Permutation_app_head. cbn [map node_name app].
    rewrite Permutation_app_comm, <- app_assoc. apply Permutation_app_head. cbn [app]. constructor.
    rewrite Permutation_app_comm. auto. }
  pose proof (split_nodup W) as N. destruct W as (W1 & W2 & _).
  assert (W3 : forall k, In k (flat_map (fun v => [loc v; scl v]) vars ++ vars)%list -> ~ In k forbidden).
  { intros k Hk. apply W2. eapply Permutation_in; [apply Permutation_sym, (triple_perm (fun v => loc v) (fun v => scl v))|exact Hk]. }
  assert (NE : NoDup (map node_name eps_nodes ++ ["trials"; "time"; "obs"])).
  { apply nodupb_spec. unfold eps_nodes. destruct (h_include_noise T h); reflexivity. }
  apply nodup_app_disj; auto. intros x Hx Q. apply (W3 x Hx).
  unfold forbidden. apply in_or_app. right. unfold eps_nodes in Q. destruct (h_include_noise T h); simpl in *; tauto.
Qed.
Lemma nodup_app_l {A} (l l' : list A) : NoDup (l ++ l') -> NoDup l.
Proof. induction l; simpl; intros H; [constructor|]. inversion H; subst. constructor; [rewrite in_app_iff in *; tauto|auto]. Qed.

Lemma model_trace_ok limit made s : (2 <= limit)%nat -> complete -> well_named ->
  model_trace T dim class_attr limit h made s =
  match get_extra_params T (extra_names T h made) s with
  | inl _ => inl (latent ++ [NPlate "time"; NSample "obs" true 0 true])%list
  | inr e => inr e
  end.
Proof.
  intros HL C W. destruct limit as [|[|limit]]; [lia|lia|]. unfold model_trace.
  assert (TV : top_vars T h = flat_map (fun r => [loc (rname r); scl (rname r)]) (rows T h)).
  { unfold top_vars. generalize (rows T h). induction l as [|[[[v a] b] c] l IH]; simpl; [auto|]. now rewrite IH. }
  pose proof (full_nodup C W) as FN.
  assert (N0 : NoDup (map node_name (flat_map top_nodes (rows T h)))).
  { rewrite map_app in FN. apply nodup_app_l in FN. unfold latent in FN. rewrite map_app in FN. now apply nodup_app_l in FN. }
  rewrite TV, get_all_top; auto; [|apply incl_refl].
  assert (GE : get T dim class_attr (S (S limit)) h false "eps" ([] ++ flat_map top_nodes (rows T h)) = inl (flat_map top_nodes (rows T h) ++ eps_nodes)%list).
  { cbn [get app]. rewrite lookup_eps by auto. unfold eps_attr, eps_nodes. destruct (h_include_noise T h) eqn:EN.
    - rewrite seen_false; [auto|]. rewrite top_names, rows_names by auto. intros Q.
      destruct W as (_ & W & _). destruct (W "eps") as [W' _].
      + unfold site_names. rewrite in_flat_map in *. destruct Q as (v & Hv & Q). exists v. split; [auto|]. simpl in *. tauto.
      + apply W'. unfold forbidden. apply in_or_app. right. simpl. auto.
    - now rewrite app_nil_r. }
  rewrite GE. rewrite <- (rows_names C) at 1. rewrite get_all_bot; auto; [| apply incl_refl | |].
  - destruct (get_extra_params T _ s); [|auto]. unfold checked. rewrite (proj2 (nodupb_spec _)).
    + unfold latent. now rewrite <- !app_assoc.
    + replace (((flat_map top_nodes (rows T h) ++ eps_nodes) ++ [NPlate "trials"]) ++ map bot_node (rows T h))%list with latent; [exact FN|].
      unfold latent. now rewrite <- !app_assoc.
  - intros r Hr. rewrite !map_app, top_names, !in_app_iff.
    assert (Hv : In (rname r) (map rname (rows T h))) by now apply in_map.
    split; left; left; apply in_flat_map; exists (rname r); simpl; auto.
  - rewrite <- bot_names, <- map_app. rewrite map_app in FN. apply nodup_app_l in FN.
    replace ((flat_map top_nodes (rows T h) ++ eps_nodes) ++ [NPlate "trials"])%list with (flat_map top_nodes (rows T h) ++ eps_nodes ++ [NPlate "trials"])%list by now rewrite app_assoc.
    unfold latent in FN. rewrite <- !app_assoc. exact FN.
Qed.

(** *** the guide *)
Record item := Item { it_site : string; it_plate : bool; it_edim : nat; it_param : string; it_init : pval T }.
Definition run_item (st : gstate T) (i : item) : gstate T :=
  gsample T (it_plate i) (it_edim i) (it_site i) (it_param i) (it_init i) st.
Definition prm (k : string) : string := k +++ h_param_suffix T h.
Definition top_items (r : string * T * T * T) : list item :=
  [Item (loc (rname r)) false (dim (rloc r)) (prm (loc (rname r))) (PVal T (rloc r));
   Item (scl (rname r)) false (dim (rloc r)) (prm (scl (rname r))) (PVal T (snd r))].
Definition eps_items : list item :=
  if h_include_noise T h then [Item "eps" false (if type_noise_on T dim h then 1 else 0) (prm "eps") (PVal T (h_noise T h))] else [].
Definition bot_item (n : nat) (r : string * T * T * T) : item := Item (rname r) true (dim (rloc r)) (prm (rname r)) (PRepeat T n (rloc r)).
Definition items (n : nat) : list item := (flat_map top_items (rows T h) ++ eps_items ++ map (bot_item n) (rows T h))%list.
Definition it_node (i : item) : node := NSample (it_site i) (it_plate i) (it_edim i) false.

(** one pass of pyro.param over the items *)
Fixpoint run (its : list item) (s : store T) : list (string * pval T) * store T :=
  match its with
  | [] => ([], s)
  | i :: its => let '(v, s1) := param T (it_param i) (it_init i) s in
                let '(l, s2) := run its s1 in ((it_site i, v) :: l, s2)
  end.
Lemma run_fold its : forall tr vals s, fold_left run_item its (tr, vals, s) =
  ((tr ++ map it_node its)%list, (vals ++ fst (run its s))%list, snd (run its s)).
Proof.
  induction its as [|i its IH]; intros tr vals s; simpl.
  - now rewrite !app_nil_r.
  - unfold run_item, gsample. destruct (param T _ _ s) as [v s1]. fold run_item. rewrite IH.
    destruct (run its s1) as [l s2]. simpl. now rewrite <- !app_assoc.
Qed.
Lemma run_app a b s : run (a ++ b) s = (fst (run a s) ++ fst (run b (snd (run a s))), snd (run b (snd (run a s))))%list.
Proof.
  revert s. induction a as [|i a IH]; intros s; simpl; [now destruct (run b s)|].
  destruct (param T _ _ s) as [v s1]. rewrite IH. destruct (run a s1) as [l s2]. reflexivity.
Qed.
Lemma fold_top rs st : fold_left (guide_top T dim h) rs st = fold_left run_item (flat_map top_items rs) st.
Proof.
  revert st. induction rs as [|[[[v a] b] c] rs IH]; intros [[tr vals] s]; [reflexivity|]. cbn [fold_left flat_map top_items app].
  rewrite IH. f_equal. cbn [guide_top]. unfold run_item, gsample. cbn. 
  unfold prm, rloc, rname. cbn [fst snd].
  destruct (param T ((v +++ h_loc_suffix T h) +++ h_param_suffix T h) (PVal T a) s) as [lp s1] eqn:E1. cbn.
  destruct (param T ((v +++ h_scale_suffix T h) +++ h_param_suffix T h) (PVal T c) s1) as [sp s2].
  now rewrite <- !app_assoc.
Qed.
Lemma fold_bot n rs st : fold_left (guide_bot T dim h n) (map (fun r => (rname r, rloc r)) rs) st = fold_left run_item (map (bot_item n) rs) st.
Proof. revert st. induction rs as [|r rs IH]; intros st; [reflexivity|]. cbn [fold_left map]. rewrite IH. reflexivity. Qed.

Lemma guide_ok n s : complete -> well_named ->
  guide T dim h n s = inl (latent, fst (run (items n) s), snd (run (items n) s)).
Proof.
  intros C W. unfold guide. rewrite fold_top, rows_zip2 by auto.
  rewrite run_fold. 
  assert (E : (if h_include_noise T h
      then gsample T false (if type_noise_on T dim h then 1 else 0) "eps" ("eps" +++ h_param_suffix T h) (PVal T (h_noise T h))
             (([] ++ map it_node (flat_map top_items (rows T h)))%list, ([] ++ fst (run (flat_map top_items (rows T h)) s))%list, snd (run (flat_map top_items (rows T h)) s))
      else (([] ++ map it_node (flat_map top_items (rows T h)))%list, ([] ++ fst (run (flat_map top_items (rows T h)) s))%list, snd (run (flat_map top_items (rows T h)) s)))
    = fold_left run_item (eps_items) (([] ++ map it_node (flat_map top_items (rows T h)))%list, ([] ++ fst (run (flat_map top_items (rows T h)) s))%list, snd (run (flat_map top_items (rows T h)) s))).
  { unfold eps_items. destruct (h_include_noise T h); reflexivity. }
  rewrite E, run_fold, fold_bot, run_fold. 
  assert (L : ((([] ++ map it_node (flat_map top_items (rows T h))) ++ map it_node eps_items) ++ [NPlate "trials"] )%list
     = (flat_map top_nodes (rows T h) ++ eps_nodes ++ [NPlate "trials"])%list).
  { cbn [app]. rewrite <- app_assoc. f_equal; [|f_equal].
    - generalize (rows T h). induction l as [|r l IH]; simpl; [auto|]. now rewrite IH.
    - unfold eps_items, eps_nodes. destruct (h_include_noise T h); reflexivity. }
  rewrite L. assert (L2 : ((flat_map top_nodes (rows T h) ++ eps_nodes ++ [NPlate "trials"]) ++ map it_node (map (bot_item n) (rows T h)))%list = latent).
  { unfold latent. rewrite <- !app_assoc. do 3 f_equal. rewrite map_map. reflexivity. }
  rewrite L2. unfold checked. rewrite (proj2 (nodupb_spec _)).
  2:{ pose proof (full_nodup C W) as FN. rewrite map_app in FN. now apply nodup_app_l in FN. }
  f_equal. unfold items. rewrite !run_app. cbn [app fst snd]. now rewrite !app_assoc.
Qed.

Lemma sget_app k s s' : sget T k (s ++ s')%list = match sget T k s with Some v => Some v | None => sget T k s' end.
Proof.
  unfold sget. induction s as [|[k' v] s IH]; simpl; [auto|]. destruct (String.eqb k' k); [auto|]. exact IH.
Qed.
Lemma param_has k i s v s' : param T k i s = (v, s') -> sget T k s' = Some v.
Proof.
  unfold param. destruct (sget T k s) eqn:E; intros H; inversion H; subst; [auto|].
  rewrite sget_app, E. unfold sget. simpl. now rewrite String.eqb_refl.
Qed.
Lemma param_keeps k i s v s' k' w : param T k i s = (v, s') -> sget T k' s = Some w -> sget T k' s' = Some w.
Proof.
  unfold param. destruct (sget T k s) eqn:E; intros H Q; inversion H; subst; [auto|]. now rewrite sget_app, Q.
Qed.
Lemma run_keeps its : forall s k w, sget T k s = Some w -> sget T k (snd (run its s)) = Some w.
Proof.
  induction its as [|i its IH]; simpl; intros s k w H; [auto|].
  destruct (param T _ _ s) as [v s1] eqn:E. specialize (IH s1 k w (param_keeps _ _ _ _ _ _ _ E H)).
  destruct (run its s1). exact IH.
Qed.
(** every item's parameter is in the store afterwards, and its site has that value *)
Lemma run_vals its : forall s, Forall2 (fun i sv => fst sv = it_site i /\ sget T (it_param i) (snd (run its s)) = Some (snd sv)) its (fst (run its s)).
Proof.
  induction its as [|i its IH]; simpl; intros s; [constructor|].
  destruct (param T _ _ s) as [v s1] eqn:E. specialize (IH s1).
  pose proof (run_keeps its s1 _ _ (param_has _ _ _ _ _ E)) as K. destruct (run its s1) as [l s2]. simpl in *. constructor; auto.
Qed.
Lemma run_again its : forall s, (forall i, In i its -> exists v, sget T (it_param i) s = Some v) -> snd (run its s) = s.
Proof.
  induction its as [|i its IH]; simpl; intros s H; [auto|].
  destruct (H i (or_introl eq_refl)) as [v Hv]. unfold param. rewrite Hv.
  specialize (IH s (fun j Hj => H j (or_intror Hj))). destruct (run its s). exact IH.
Qed.
Lemma run_fresh its : forall s, NoDup (map fst s ++ map it_param its) ->
  run its s = (map (fun i => (it_site i, it_init i)) its, s ++ map (fun i => (it_param i, it_init i)) its)%list.
Proof.
  induction its as [|i its IH]; simpl; intros s N; [now rewrite app_nil_r|].
  assert (Q : sget T (it_param i) s = None).
  { apply NoDup_remove_2 in N. unfold sget. destruct (find _ s) as [[k v]|] eqn:E; [|auto]. exfalso. apply N.
    apply find_some in E. destruct E as [E1 E2]. simpl in E2. apply String.eqb_eq in E2. subst.
    apply in_or_app. left. change (it_param i) with (fst (it_param i, v)). now apply in_map. }
  unfold param. rewrite Q. rewrite IH.
  - now rewrite <- app_assoc.
  - rewrite map_app, <- app_assoc. exact N.
Qed.

Lemma extra_params_in ps s : (forall p, In p ps -> exists v, sget T p s = Some v) ->
  exists l, get_extra_params T ps s = inl l /\ Forall2 (fun p v => sget T p s = Some v) ps l.
Proof.
  induction ps as [|p ps IH]; simpl; intros H; [exists []; auto|].
  destruct (H p (or_introl eq_refl)) as [v Hv]. rewrite Hv. destruct IH as (l & E & F); [auto|]. rewrite E.
  exists (v :: l). split; auto.
Qed.
Lemma items_params n : complete -> map it_param (items n) =
  map prm (flat_map (fun v => [loc v; scl v]) vars ++ (if h_include_noise T h then ["eps"] else []) ++ vars)%list.
Proof.
  intros C. unfold items. rewrite <- (rows_names C). rewrite !map_app. f_equal; [|f_equal].
  - generalize (rows T h). induction l as [|r l IH]; simpl; [auto|]. now rewrite IH.
  - unfold eps_items. destruct (h_include_noise T h); reflexivity.
  - now rewrite !map_map.
Qed.
End SiteFacts.

Lemma append_length a b : String.length (a +++ b) = (String.length a + String.length b)%nat.
Proof. induction a; simpl; auto. Qed.
Fixpoint last_char (s : string) : option Ascii.ascii :=
  match s with EmptyString => None | String c EmptyString => Some c | String _ s => last_char s end.
Lemma last_char_app a c s : last_char (a +++ String c s) = last_char (String c s).
Proof.
  induction a as [|x a IH]; [reflexivity|]. rewrite <- IH. simpl. destruct (a +++ String c s) eqn:E; [|reflexivity].
  destruct a; discriminate.
Qed.
Lemma append_inj_r s x y : x +++ s = y +++ s -> x = y.
Proof.
  revert y. induction x as [|a x IH]; intros [|b y] H; simpl in *; auto.
  - apply (f_equal String.length) in H. simpl in H. rewrite append_length in H. lia.
  - apply (f_equal String.length) in H. simpl in H. rewrite append_length in H. lia.
  - inversion H; subst. f_equal. auto.
Qed.

Lemma flat3_nodup (vs : list string) sl ss :
  NoDup vs -> (forall x y, x +++ sl <> y +++ ss) -> (forall v w, In v vs -> v <> w +++ sl /\ v <> w +++ ss) ->
  NoDup (flat_map (fun v => [v +++ sl; v +++ ss; v]) vs).
Proof.
  intros N D E. apply Permutation_NoDup with (l := (flat_map (fun v => [v +++ sl; v +++ ss]) vs ++ vs)%list).
  { apply Permutation_sym, (triple_perm (fun v => v +++ sl) (fun v => v +++ ss)). }
  apply nodup_app_disj; auto.
  - clear E. induction vs as [|v vs IH]; simpl; [constructor|]. inversion N; subst.
    constructor; [|constructor; [|auto]].
    + intros [Q|Q]; [apply (D v v); auto|]. apply in_flat_map in Q. destruct Q as (w & Hw & [Q|[Q|[]]]).
      * apply append_inj_r in Q. subst. contradiction.
      * apply (D v w); auto.
    + intros Q. apply in_flat_map in Q. destruct Q as (w & Hw & [Q|[Q|[]]]).
      * apply (D w v); auto.
      * apply append_inj_r in Q. subst. contradiction.
  - intros x Hx Hv. apply in_flat_map in Hx. destruct Hx as (w & Hw & [<-|[<-|[]]]); destruct (E _ w Hv); contradiction.
Qed.
Lemma loc_scale_differ x y : x +++ "_loc" <> y +++ "_scale".
Proof. intros H. apply (f_equal last_char) in H. rewrite !last_char_app in H. discriminate. Qed.
