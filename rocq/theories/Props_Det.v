(** C94-C95: DeterministicModel, from its parameters to the converted results. *)
From Coq Require Import Reals List String ZArith Lra Lia FunctionalExtensionality.
From mathcomp Require Import all_ssreflect all_algebra.
From Verif Require Import ChunkModel ChunkSolve ChunkInst NewtonModel Ode OdeForward OdeReal OdeBlock RField Pipeline PipelineBoth Det.
From Verif Require Models Flow Slices PipelineR StressR Torch Experiments DetR Props_Pipeline Props_Stress Props_Exp.
Delimit Scope Z_scope with Z.
Set Implicit Arguments. Unset Strict Implicit. Unset Printing Implicit Defensive.
Local Open Scope R_scope.
Import Experiments DetR.

(** C94: the maker is called with the initial conditions, in the order of the names; a name without an
    initial condition is an error when the model is evaluated; of a repeated name the last value counts. *)
Theorem C94_parameters_in_order (P : Type) (names : list string) (ics : list P) :
  List.NoDup names -> List.length ics = List.length names -> get_params names (det_init names ics) = Some ics.
Proof.
move=> ND L; apply/traverse_some.
have H i k v : List.nth_error names i = Some k -> List.nth_error ics i = Some v -> get_attr (det_init names ics) k = Some v.
{ move=> Hk Hv; apply: (init_last _ _ _ _ _ Hk Hv) => j [ij jl] Hj.
  have il : (i < List.length names)%coq_nat by apply: (proj1 (List.nth_error_Some _ _)); rewrite Hk.
  have := proj1 (List.NoDup_nth_error names) ND i j il; rewrite Hk Hj => /(_ erefl) e; lia. }
move: (det_init names ics) H => s; clear ND; elim: names ics L => [|n names IH] [|c ics] //= L H.
constructor; first exact: (H 0%N).
apply: IH => [|i k v Hk Hv]; [lia|exact: (H i.+1)].
Qed.
Print Assumptions C94_parameters_in_order.
Theorem C94_missing_parameter (P : Type) (names : list string) (ics : list P) k :
  List.In k names -> ~ List.In k (List.firstn (List.length ics) names) -> get_params names (det_init names ics) = None.
Proof.
move=> Hk N; case G : get_params => [r|//]; exfalso.
move/traverse_some: G => F; have := proj2 (init_none names ics k) N => E.
have [y Hy] : exists y, get_attr (det_init names ics) k = Some y.
{ move: (det_init names ics) F => q F; clear E N; elim: F Hk => [//|z y l r' Hz _ IH] /= [zk|]; last exact: IH.
  by exists y; rewrite -zk. }
by rewrite E in Hy.
Qed.
Print Assumptions C94_missing_parameter.
Theorem C94_repeated_name (P : Type) (names : list string) (ics : list P) ps i j k v :
  get_params names (det_init names ics) = Some ps ->
  List.nth_error names i = Some k -> List.nth_error names j = Some k -> List.nth_error ics j = Some v ->
  (forall j', (j < j')%coq_nat /\ (j' < List.length ics)%coq_nat -> List.nth_error names j' <> Some k) ->
  List.nth_error ps i = Some v.
Proof.
move=> G Hi Hj Hv L; have E := init_last _ _ _ _ _ Hj Hv L.
move/traverse_some: G => F; elim: F i Hi => [|x y l r Hx _ IH] [|i] //=.
- by case=> xk; rewrite xk E in Hx.
- exact: IH.
Qed.
Print Assumptions C94_repeated_name.
Example C94_ex : get_params [:: "E"; "n"]%string (det_init [:: "E"; "n"]%string [:: 100; 5]) = Some [:: 100; 5] /\
  get_params [:: "E"; "E"]%string (det_init [:: "E"; "E"]%string [:: 100; 5]) = Some [:: 5; 5] /\
  get_params [:: "E"; "n"]%string (det_init [:: "E"; "n"]%string [:: 100]) = None.
Proof. by []. Qed.

(** ** C95: evaluating the model on a loaded data set *)
(** The times of every test of the data set increase strictly over its nt rows. *)
Definition data_times_increase (nt : nat) (cols : list (list R)) : Prop :=
  forall b, (b < List.length cols)%N -> forall i j, (i < j)%coq_nat -> (j < nt)%coq_nat -> tbl cols i b < tbl cols j b.
(** A data set with nt rows of n tests each, with the names load_results knows. *)
Definition well_formed (x : dataset) (n : nat) : Prop :=
  List.length (ds_time x) = n /\ List.length (ds_control x) = n /\ List.length (ds_type x) = n /\
  List.length (ds_strain x) = n /\ List.length (ds_stress x) = n /\
  (forall s, List.In s (ds_type x) -> List.In s [:: "tensile"; "relaxation"; "strain_cyclic"; "creep"; "stress_cyclic"; "abstract_tensile"; "direct_data"]%string) /\
  (forall s, List.In s (ds_control x) -> s = "strain"%string \/ s = "stress"%string).
(** test b is a strain-controlled test whose result is the recorded stress itself *)
Definition tensile_test (x : dataset) (b : nat) : Prop :=
  List.nth b (ds_control x) EmptyString = "strain"%string /\
  (List.nth b (ds_type x) EmptyString = "tensile"%string \/ List.nth b (ds_type x) EmptyString = "direct_data"%string).
Definition exact_settings (o : settings) : Prop := o_scheme o = BackwardEuler /\ o_rtol o = 0 /\ o_atol o = 0.

Section Data.
Variables (P : Type) (maker : list P -> option (Models.rateform * settings)) (storage : forall nb m, nat -> VB RF nb m).
Variables (x : dataset) (n nt : nat) (junk j2 jr : list (list R)).
Hypotheses (Wx : well_formed x n) (Lj : List.length junk = n) (L2 : List.length j2 = n) (Lr : List.length jr = n).

(** load_results followed by forward *)
Definition evaluate (names : list string) (ics : list P) : option (list (list R) * list (list R) * seq (nat * nat)) :=
  match load_results x j2 jr with
  | None => None
  | Some l =>
    match det_forward maker storage junk names (det_init names ics) (ld_times l) (ld_temps l) (ld_idata l) nt (ld_cycles l) (ld_types l) (ld_control l) with
    | None => None
    | Some (out, w) => Some (out, ld_results l, w)
    end
  end.

Lemma evaluate_test names ics B o out res w (b : nat) : List.NoDup names -> List.length ics = List.length names ->
  maker ics = Some (B, o) -> exact_settings o -> evaluate names ics = Some (out, res, w) -> (b < n)%N -> tensile_test x b ->
  exists nb (bb : 'I_nb) data control lm miter throw gt bs init st,
    nat_of_ord bb = b /\ nb = List.length (ds_time x) /\
    @solve_both B nb nt (tbl (ds_time x)) data (tbl (ds_temp x)) control BackwardEuler lm 0 0 miter throw gt bs init = inl st /\ i_warned st = w /\
    control b = 0 /\ (forall k, data k b = tbl (ds_strain x) k b) /\
    (forall k, (k < nt)%N -> tbl out k b = entry st k bb 0%N) /\ (forall k, tbl res k b = tbl (ds_stress x) k b).
Proof.
move=> ND L M [o1 [o2 o3]]; rewrite /evaluate.
have [W1 [W2 [W3 [W4 [W5 [W6 W7]]]]]] := Wx.
have := @Props_Exp.C70_load_results x j2 jr; rewrite /= W2 W3 W4 W5 L2 Lr => /(_ erefl erefl erefl erefl erefl W6 W7).
case=> l [Hl [l1 [l2 [l3 [l4 [l5 H]]]]]].
rewrite Hl; case F : det_forward => [[out' w']|//] [<- <- <-] bn [C T].
have bc : (b < n)%coq_nat by apply/ltP.
have [Hs [_ Ht]] := H b bc; have [H1 [H2 H3]] := Hs C; have [B1 B2] := load_lengths _ _ _ _ Hl; rewrite W3 in B1.
have T' : List.nth b (ld_types l) 9%Z = 0%Z \/ List.nth b (ld_types l) 9%Z = 6%Z.
{ exact: (type_as_simulated _ _ T Ht (load_types_nonneg _ _ _ _ _ Hl)). }
have bt : (b < List.length (ld_times l))%N by rewrite l1 W1.
have [||st [S [W E]]] := @forward_direct P maker storage junk names _ _ _ _ nt _ _ _ _ _ ics B o (Ordinal bt) F (C94_parameters_in_order ND L) M _ _ T'.
- by rewrite B1 l1 W1.
- by rewrite l1 W1.
rewrite o1 o2 o3 in S.
exists (List.length (ld_times l)), (Ordinal bt), (tbl (ld_idata l)), (ctl (ld_control l)).
do 6 eexists; exists st; split=> //; split; first by rewrite l1.
rewrite -l1 -l2; split; first exact: S.
split=> //; split; last split; last split=> //.
- by rewrite /ctl (List.nth_indep _ _ 9%Z) ?H1 // B2 W2.
- by move=> k; rewrite /tbl H2.
- by move=> k; rewrite /tbl H3.
Qed.
End Data.

(** An elastic model (no inelastic flow): every strain-controlled test whose result is the stress comes out
    as E times the strain, whatever the other tests of the data set are. *)
Theorem C95_elastic_tests (P : Type) maker storage x n nt junk j2 jr names (ics : list P) E F E0 o out res b :
  well_formed x n -> List.length junk = n -> List.length j2 = n -> List.length jr = n ->
  List.NoDup names -> List.length ics = List.length names ->
  maker ics = Some (Models.inelastic E F, o) -> exact_settings o ->
  data_times_increase nt (ds_time x) ->
  (forall s h t T e, Flow.fl_rate F s h t T e = 0) -> (forall T, E T = E0) ->
  evaluate maker storage x nt junk j2 jr names ics = Some (out, res, [::]) ->
  (b < n)%N -> tensile_test x b ->
  forall k, (k < nt)%N -> tbl out k b = E0 * (tbl (ds_strain x) k b - tbl (ds_strain x) 0%N b).
Proof.
move=> Wx Lj L2 Lr ND L M X Gr Z HE Ev bn T.
have [nb [bb [data [control [lm [mi [th [gt [bs [init [st [e1 [e2 [S [W [C [D [O _]]]]]]]]]]]]]]]]]] := evaluate_test Wx Lj L2 Lr ND L M X Ev bn T.
have Gr' : Props_Stress.times_increase nb nt (tbl (ds_time x)) by move=> b' bn'; apply: Gr; rewrite -e2.
rewrite -e1 in C.
have [I [_ H]] := Props_Stress.C92_strain_entries Gr' S W C; rewrite e1 in H.
elim=> [|k IH] kn; first by rewrite O // I (Rminus_diag_eq (tbl (ds_strain x) 0%N b)) // Rmult_0_r.
have [/= Q _] := H k.+1 isT kn; rewrite Z HE !D in Q.
have := IH (ltnW kn); rewrite !O //; last exact: ltnW.
lra.
Qed.
Print Assumptions C95_elastic_tests.

(** Synthetic data: if the recorded stress of a strain-controlled test is what an exact simulation of the same
    perfectly viscoplastic model gives for that test (in a batch of any composition, block size, linear solver,
    guess), then evaluating the model at those parameters returns the recorded results of that test exactly. *)
Theorem C95_synthetic_data_reproduced (P : Type) maker storage x n nt junk j2 jr names (ics : list P) E pn eta o out res b
    nb' (b' : 'I_nb') times' strains' temps' lm' miter' throw' gt' n' init' st' :
  well_formed x n -> List.length junk = n -> List.length j2 = n -> List.length jr = n ->
  List.NoDup names -> List.length ics = List.length names ->
  maker ics = Some (Models.inelastic E (Flow.perfect pn eta), o) -> exact_settings o ->
  (forall T, 0 < E T /\ 0 < eta T /\ 0 < pn T) ->
  data_times_increase nt (ds_time x) -> Props_Stress.times_increase nb' nt times' ->
  @solve_strain (Models.inelastic E (Flow.perfect pn eta)) nb' nt times' strains' temps' BackwardEuler lm' 0 0 miter' throw' gt' n' init' = inl st' ->
  i_warned st' = [::] ->
  (forall k, (k < nt)%N -> tbl (ds_time x) k b = times' k b' /\ tbl (ds_strain x) k b = strains' k b' /\
     tbl (ds_temp x) k b = temps' k b' /\ tbl (ds_stress x) k b = entry st' k b' 0%N) ->
  evaluate maker storage x nt junk j2 jr names ics = Some (out, res, [::]) ->
  (b < n)%N -> tensile_test x b ->
  forall k, (k < nt)%N -> tbl out k b = tbl res k b.
Proof.
move=> Wx Lj L2 Lr ND L M X Ps Gr Gr1 S1 W1 Same Ev bn T k kn.
have [nb [bb [data [control [lm [mi [th [gt [bs [init [st [e1 [e2 [S [W [C [D [O Rs]]]]]]]]]]]]]]]]]] := evaluate_test Wx Lj L2 Lr ND L M X Ev bn T.
have Gr' : Props_Stress.times_increase nb nt (tbl (ds_time x)) by move=> b1 bn'; apply: Gr; rewrite -e2.
rewrite -e1 in C.
rewrite O // Rs; have [_ [_ [_ ->]]] := Same k kn.
apply: (Props_Stress.C92_strain_entries_unaffected Gr' Gr1 Ps S W S1 W1 C) => // k' kn'.
by rewrite e1 D; have [-> [-> [-> _]]] := Same k' kn'.
Qed.
Print Assumptions C95_synthetic_data_reproduced.

(** A data set of a strain-controlled tensile test and a stress-controlled direct_data test; elastic model. *)
Definition ex_set : dataset := Dataset [:: [:: 0; 1; 2]; [:: 0; 2; 4]] [:: [:: 0; 0; 0]; [:: 0; 0; 0]] [:: [:: 0; 1; 3]; [:: 0; 0; 0]]
  [:: [:: 0; 0; 0]; [:: 0; 5; 7]] [:: [:: 0%Z; 0%Z; 0%Z]; [:: 0%Z; 0%Z; 0%Z]] [:: "tensile"; "direct_data"]%string [:: "strain"; "stress"]%string.
Definition ex_settings := Settings BackwardEuler (Direct Thomas) 0 0 10 true "zero" 3.
Definition ex_maker (ps : list (R -> R)) : option (Models.rateform * settings) :=
  if ps is [:: E] then Some (Models.inelastic E Props_Pipeline.no_flow, ex_settings) else None.
Example C95_ex : exists out res,
  evaluate ex_maker (fun nb m _ => @zeroV RF nb m) ex_set 3 [:: [::]; [::]] [:: [::]; [::]] [:: [::]; [::]] [:: "E"]%string [:: fun _ => 200] = Some (out, res, [::]) /\
  tbl out 0%N 0%N = 0 /\ tbl out 1%N 0%N = 200 * 1 /\ tbl out 2%N 0%N = 200 * 3.
Proof.
set ev := evaluate _ _ _ _ _ _ _ _ _.
have [out [res Ev]] : exists out res, ev = Some (out, res, [::]).
{ rewrite /ev /evaluate /det_forward.
  have HB : forall t y y' e T, Models.rf_rate (Models.inelastic (fun _ => 200) Props_Pipeline.no_flow) t y e T 0%N = Models.rf_rate (Models.inelastic (fun _ => 200) Props_Pipeline.no_flow) t y' e T 0%N /\ Models.rf_jac (Models.inelastic (fun _ => 200) Props_Pipeline.no_flow) t y e T 0%N 0%N = R0.
  { by move=> t y y' e T; split=> //=; rewrite /Slices.cat /= /Flow.default_scalar Rmult_0_r. }
  have -> : load_results ex_set [:: [::]; [::]] [:: [::]; [::]] = Some (Loaded (ds_time ex_set) (ds_temp ex_set) [:: [:: 0; 1; 3]; [:: 0; 5; 7]]
    [:: [:: 0; 0; 0]; [:: 0; 0; 0]] (ds_cycle ex_set) [:: 0%Z; 6%Z] [:: 0%Z; 1%Z]) by [].
  rewrite (C94_parameters_in_order (names := [:: "E"]%string) (ics := [:: (fun _ => 200)])); last first; [by []|by constructor; [|constructor]|].
  cbv beta iota zeta delta [ex_maker o_scheme o_lm o_rtol o_atol o_miter o_throw o_guess o_block ex_settings ld_times ld_temps ld_idata ld_results ld_cycles ld_types ld_control].
  set S := solve_both _ _ _ _ _ _ _ _ _ _ _ _ _ _.
  have [st [-> W]] : exists st, S = inl st /\ i_warned st = [::].
  { apply: both_never_fails HB _ _ _ _ _ => //; [exact: Rle_refl|by left]. }
  rewrite W; do 2 eexists; reflexivity. }
exists out, res; split=> //.
have H := @C95_elastic_tests _ ex_maker _ ex_set 2 3 _ _ _ [:: "E"]%string [:: fun _ => 200] (fun _ => 200) Props_Pipeline.no_flow 200 ex_settings out res 0 _ _ _ _ _ _ _ _ _ _ _ Ev.
have Q : forall k : nat, (k < 3)%N -> tbl out k 0%N = 200 * (tbl (ds_strain ex_set) k 0%N - tbl (ds_strain ex_set) 0%N 0%N).
{ apply: H => //.
  - do 5 split=> //; split=> [q|q] /=; intuition.
  - by constructor; [|constructor].
  - move=> [|[|b]] //= _ i j; rewrite /tbl /=; case: j => [|[|[|j]]]; case: i => [|[|[|i]]] //= *; try lra; lia.
  - by split; [|left]. }
by rewrite !Q // /tbl /=; split; [|split]; lra.
Qed.
