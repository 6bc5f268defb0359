(** Model of the entry points of ode.py: options (288-352, 523-526) and the
    plumbing of gradients in odeint_adjoint (529-673). *)
From Coq Require Import List String Bool Arith Lia.
From Verif Require Import ChunkModel ChunkInst Ode.
Import ListNotations.
Local Open Scope string_scope.
Local Open Scope list_scope.

Inductive api_error := KeyErr | ValueErr | TypeErr.

(** Keyword arguments of odeint/odeint_adjoint that select code; [o_extra] are
    keyword names which FixedGridBlockSolver.__init__ does not declare. *)
Record options := {
  o_method : string; o_linear : string; o_direct : string; o_min_size : nat;
  o_extra : list string
}.

Record solver_cfg := { c_scheme : scheme; c_linear : lin_method; c_direct : direct_method }.

(** [int_methods[method]], ode.py 523-526, 572. *)
Definition int_method (s : string) : option scheme :=
  if String.eqb s "backward-euler" then Some BackwardEuler
  else if String.eqb s "forward-euler" then Some ForwardEuler
  else None.

(** direct_solve_method, ode.py 331-342. *)
Definition direct_of (s : string) (min_size : nat) : option direct_method :=
  if String.eqb s "thomas" then Some Thomas
  else if String.eqb s "pcr" then Some PCR
  else if String.eqb s "hybrid" then Some (Hybrid min_size)
  else None.

(** Solver construction, ode.py 572 (dictionary lookup), 326-328 (the leftover
    keywords go to ChunkTimeOperatorSolverContext, which takes none), chunktime.py
    496-499, ode.py 331-342. The forward operator keeps the direct solver, used
    when linear_solve_method is "direct". *)
Definition construct (o : options) : solver_cfg + api_error :=
  match int_method (o_method o) with
  | None => inr KeyErr
  | Some s =>
    match o_extra o with
    | _ :: _ => inr TypeErr
    | [] =>
      if negb (String.eqb (o_linear o) "dense" || String.eqb (o_linear o) "direct") then inr ValueErr
      else match direct_of (o_direct o) (o_min_size o) with
           | None => inr ValueErr
           | Some d => inl {| c_scheme := s;
                              c_linear := if String.eqb (o_linear o) "dense" then Dense else Direct d;
                              c_direct := d |}
           end
    end
  end.

Lemma construct_ok o c : construct o = inl c <->
  o_extra o = [] /\
  (o_method o = "backward-euler" /\ c_scheme c = BackwardEuler \/
   o_method o = "forward-euler" /\ c_scheme c = ForwardEuler) /\
  (o_linear o = "dense" /\ c_linear c = Dense \/
   o_linear o = "direct" /\ c_linear c = Direct (c_direct c)) /\
  (o_direct o = "thomas" /\ c_direct c = Thomas \/
   o_direct o = "pcr" /\ c_direct c = PCR \/
   o_direct o = "hybrid" /\ c_direct c = Hybrid (o_min_size o)).
Proof.
  destruct o as [me li di ms ex], c as [cs cl cd]; unfold construct; cbn.
  assert (Hm : forall s, int_method me = Some s <->
      me = "backward-euler" /\ s = BackwardEuler \/ me = "forward-euler" /\ s = ForwardEuler).
  { intros s. unfold int_method. destruct (String.eqb_spec me "backward-euler"); [subst|
      destruct (String.eqb_spec me "forward-euler"); [subst|]]; split; intros H;
      try (injection H as <-); try tauto; try discriminate;
      destruct H as [[? ->]|[? ->]]; try discriminate; try reflexivity; contradiction. }
  assert (Hd : forall d, direct_of di ms = Some d <->
      di = "thomas" /\ d = Thomas \/ di = "pcr" /\ d = PCR \/ di = "hybrid" /\ d = Hybrid ms).
  { intros d. unfold direct_of. destruct (String.eqb_spec di "thomas"); [subst|
      destruct (String.eqb_spec di "pcr"); [subst|destruct (String.eqb_spec di "hybrid"); [subst|]]];
      split; intros H; try (injection H as <-); try tauto; try discriminate;
      destruct H as [[? ->]|[[? ->]|[? ->]]]; try discriminate; try reflexivity; contradiction. }
  split.
  - destruct (int_method me) as [s|]; [|discriminate]. destruct ex; [|discriminate].
    destruct (String.eqb_spec li "dense"); cbn.
    + destruct (direct_of di ms) as [d|]; [|discriminate]. intros H. injection H as <- <- <-.
      specialize (Hm s). specialize (Hd d). tauto.
    + destruct (String.eqb_spec li "direct"); cbn; [|discriminate].
      destruct (direct_of di ms) as [d|]; [|discriminate]. intros H. injection H as <- <- <-.
      specialize (Hm s). specialize (Hd d). tauto.
  - intros (-> & H1 & H2 & H3). apply Hm in H1. apply Hd in H3. rewrite H1, H3.
    destruct H2 as [[-> ->]|[-> ->]]; reflexivity.
Qed.

(** ** Gradient slots *)

(** Arguments of [wrapper.apply(solver, times, *adjoint_params)], ode.py 662-673. *)
Inductive arg := ASolver | ATimes | AFunc (i : nat) | AExtra (i : nat) | AY0.

(** A parameter as autograd.grad sees it: it needs requires_grad and to be part
    of the graph of the rate. *)
Record aparam := { ap_arg : arg; ap_requires : bool; ap_used : bool }.

Definition adjoint_params (func extra : list (bool * bool)) : list aparam :=
  map (fun p => {| ap_arg := AFunc (fst p); ap_requires := fst (snd p); ap_used := snd (snd p) |})
      (combine (seq 0 (List.length func)) func) ++
  map (fun p => {| ap_arg := AExtra (fst p); ap_requires := fst (snd p); ap_used := snd (snd p) |})
      (combine (seq 0 (List.length extra)) extra).

Definition apply_args (ps : list aparam) (y0_requires : bool) : list arg :=
  [ASolver; ATimes] ++ map ap_arg ps ++ (if y0_requires then [AY0] else []).

(** Returned gradients. *)
Inductive slot := SNone | SGrad (of : arg).

(** rewind, ode.py 425-475: the tuple of parameter gradients. With two or more
    times autograd.grad runs over all parameters (line 423) and raises when one
    does not require gradients or is unused. *)
Definition rewind_slots (nt : nat) (ps : list aparam) : option (list slot) :=
  match ps with
  | [] => Some []
  | _ =>
    if (1 <? nt)%nat && negb (forallb (fun p => ap_requires p && ap_used p) ps) then None
    else Some (map (fun p => SGrad (ap_arg p)) ps)
  end.

(** backward, ode.py 599-611. *)
Definition backward_slots (nt : nat) (ps : list aparam) (y0_requires : bool) : option (list slot) :=
  match rewind_slots nt ps with
  | None => None
  | Some g =>
    if y0_requires then Some (([SNone; SNone] ++ g) ++ [SGrad AY0]) else Some ([SNone; SNone] ++ g)
  end.

(** "the slot belongs to the argument" *)
Definition slot_for (a : arg) (s : slot) : Prop :=
  match a with
  | ASolver | ATimes => s = SNone
  | _ => s = SGrad a
  end.

Lemma adjoint_params_args func extra :
  map ap_arg (adjoint_params func extra)
  = map AFunc (seq 0 (List.length func)) ++ map AExtra (seq 0 (List.length extra)).
Proof.
  unfold adjoint_params. rewrite map_app, !map_map. cbn.
  assert (H : forall (g : nat -> arg) (l : list (bool * bool)) n,
    map (fun p => g (fst p)) (combine (seq n (List.length l)) l) = map g (seq n (List.length l))).
  { intros g l. induction l as [|x l IH]; intros n; cbn; [reflexivity|]. now rewrite IH. }
  now rewrite !H.
Qed.

Lemma slots_line_up nt func extra y0r : 
  ((1 < nt)%nat -> Forall (fun p => p = (true, true)) (func ++ extra)) ->
  exists sl, backward_slots nt (adjoint_params func extra) y0r = Some sl /\
    Forall2 slot_for (apply_args (adjoint_params func extra) y0r) sl.
Proof.
  intros Hok. set (ps := adjoint_params func extra).
  assert (Hr : rewind_slots nt ps = Some (map (fun p => SGrad (ap_arg p)) ps)).
  { unfold rewind_slots. destruct ps as [|p ps'] eqn:E; [reflexivity|]. rewrite <- E.
    destruct (Nat.ltb_spec 1 nt) as [Hn|_]; [|reflexivity].
    replace (forallb _ ps) with true; [reflexivity|]. symmetry. apply forallb_forall.
    intros q Hq. specialize (Hok Hn). apply Forall_app in Hok as [H1 H2].
    rewrite Forall_forall in H1, H2.
    unfold ps, adjoint_params in Hq. apply in_app_iff in Hq as [Hq|Hq];
      apply in_map_iff in Hq as ([i [r u]] & <- & Hq); apply in_combine_r in Hq.
    - apply H1 in Hq. now injection Hq as -> ->.
    - apply H2 in Hq. now injection Hq as -> ->. }
  unfold backward_slots. rewrite Hr.
  assert (Hp : forall p, In p ps -> slot_for (ap_arg p) (SGrad (ap_arg p))).
  { intros p Hp. assert (In (ap_arg p) (map ap_arg ps)) as Hi by now apply in_map.
    unfold ps in Hi. rewrite adjoint_params_args in Hi.
    apply in_app_iff in Hi as [Hi|Hi]; apply in_map_iff in Hi as (i & <- & _); reflexivity. }
  assert (Hf : Forall2 slot_for (map ap_arg ps) (map (fun p => SGrad (ap_arg p)) ps)).
  { clear -Hp. induction ps as [|p ps IH]; cbn; constructor.
    - apply Hp. now left.
    - apply IH. intros q Hq. apply Hp. now right. }
  unfold apply_args. destruct y0r; eexists; (split; [reflexivity|]); cbn;
    repeat constructor; try reflexivity.
  - apply Forall2_app; auto. repeat constructor.
  - rewrite app_nil_r. auto.
Qed.

(** One frozen or unused parameter makes every backward pass over two or more
    times raise. *)
Lemma frozen_raises nt func extra y0r p : In p (func ++ extra) -> p <> (true, true) -> (1 < nt)%nat ->
  backward_slots nt (adjoint_params func extra) y0r = None.
Proof.
  intros Hi Hp Hn. unfold backward_slots, rewind_slots.
  assert (Hx : exists q, In q (adjoint_params func extra) /\ (ap_requires q && ap_used q)%bool = false).
  { assert (G : forall (g : nat -> arg) l n, In p l -> exists q,
        In q (map (fun p => {| ap_arg := g (fst p); ap_requires := fst (snd p); ap_used := snd (snd p) |})
               (combine (seq n (List.length l)) l)) /\ (ap_requires q && ap_used q)%bool = false).
    { intros g l. induction l as [|x l IH]; intros n [].
      - subst x. eexists. cbn. split; [left; reflexivity|]. cbn.
        destruct p as [[] []]; auto. contradiction.
      - destruct (IH (S n) H) as (q & Hq & E). exists q. cbn. auto. }
    apply in_app_iff in Hi as [Hi|Hi].
    - destruct (G AFunc func 0 Hi) as (q & Hq & E). exists q. split; auto.
      apply in_app_iff. auto.
    - destruct (G AExtra extra 0 Hi) as (q & Hq & E). exists q. split; auto.
      apply in_app_iff. auto. }
  destruct Hx as (q & Hq & E). destruct (adjoint_params func extra) as [|a l] eqn:Ea; [contradiction|].
  rewrite <- Ea in *. destruct (Nat.ltb_spec 1 nt); [|lia].
  replace (forallb _ _) with false; [reflexivity|]. symmetry.
  apply not_true_is_false. intros Ht. rewrite forallb_forall in Ht. specialize (Ht q Hq).
  cbn in Ht. congruence.
Qed.
