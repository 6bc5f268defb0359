(** C95 and C96 for a model that integrates with an absolute tolerance (rtol 0): what a user with practical solver settings gets from a data set. *)
From Coq Require Import Reals List String ZArith Lra Lia FunctionalExtensionality.
From mathcomp Require Import all_ssreflect all_algebra.
From Verif Require Import ChunkModel ChunkSolve ChunkInst NewtonModel Ode OdeForward OdeReal OdeBlock RField Pipeline PipelineBoth Det Tolerance.
From Verif Require Models Flow Slices PipelineR StressR Torch TolR Experiments DetR HoldR Props_Pipeline Props_Stress Props_Exp Props_Det Props_Hold Props_Tolerance.
Delimit Scope Z_scope with Z.
Set Implicit Arguments. Unset Strict Implicit. Unset Printing Implicit Defensive.
Local Open Scope R_scope.
Import Experiments DetR Props_Det Props_Hold.

(** Backward Euler with the absolute tolerance [a] and no relative one. *)
Definition absolute_settings (a : R) (o : settings) : Prop := o_scheme o = BackwardEuler /\ o_rtol o = 0 /\ o_atol o = a.
Lemma abs_boundG nb m (G : nat -> (nat -> TB RF nb) -> (nat -> VB RF nb m) -> (nat -> VB RF nb m) * (nat -> MB RF nb m)) s a gt n nt t y (b : 'I_nb) :
  0 <= a -> tol_boundG G s 0 a gt n nt t y b a.
Proof. by move=> a0; split=> //; split; [exact: Rle_refl|left]. Qed.

Section Data.
Variables (P : Type) (maker : list P -> option (Models.rateform * settings)) (storage : forall nb m, nat -> VB RF nb m) (a : R).
Variables (x : dataset) (n nt : nat) (junk j2 jr : list (list R)).
Hypotheses (Wx : well_formed x n) (Lj : List.length junk = n) (L2 : List.length j2 = n) (Lr : List.length jr = n).
Lemma evaluate_test_abs names ics B o out res w (b : nat) : List.NoDup names -> List.length ics = List.length names ->
  maker ics = Some (B, o) -> absolute_settings a o -> evaluate maker storage x nt junk j2 jr names ics = Some (out, res, w) -> (b < n)%N -> tensile_test x b ->
  exists nb (bb : 'I_nb) data control lm miter throw gt bs init st,
    nat_of_ord bb = b /\ nb = List.length (ds_time x) /\
    @solve_both B nb nt (tbl (ds_time x)) data (tbl (ds_temp x)) control BackwardEuler lm 0 a miter throw gt bs init = inl st /\ i_warned st = w /\
    control b = 0 /\ (forall k, data k b = tbl (ds_strain x) k b) /\
    (forall k, (k < nt)%N -> tbl out k b = entry st k bb 0%N) /\ (forall k, tbl res k b = tbl (ds_stress x) k b).
Proof.
move=> ND L M [o1 [o2 o3]]; rewrite /evaluate.
have [W1 [W2 [W3 [W4 [W5 [W6 W7]]]]]] := Wx.
have := @Props_Exp.C70_load_results x j2 jr; rewrite /= W2 W3 W4 W5 L2 Lr => /(_ erefl erefl erefl erefl erefl W6 W7).
case=> l [Hl [l1 [l2 [l3 [l4 [l5 H]]]]]].
rewrite Hl; case F : det_forward => [[out' w']|//] [<- <- <-] bn [C T].
have bc : (b < n)%coq_nat by apply/ltP.
have [Hs [_ Ht]] := H b bc; have [H1 [H2 H3]] := Hs C; have [B1 B2] := load_lengths _ _ _ _ Hl; rewrite W3 in B1.
have T' : List.nth b (ld_types l) 9%Z = 0%Z \/ List.nth b (ld_types l) 9%Z = 6%Z.
{ exact: (type_as_simulated _ _ T Ht (load_types_nonneg _ _ _ _ _ Hl)). }
have bt : (b < List.length (ld_times l))%N by rewrite l1 W1.
have [||st [S [W E]]] := @forward_direct P maker storage junk names _ _ _ _ nt _ _ _ _ _ ics B o (Ordinal bt) F (C94_parameters_in_order ND L) M _ _ T'.
- by rewrite B1 l1 W1.
- by rewrite l1 W1.
rewrite o1 o2 o3 in S.
exists (List.length (ld_times l)), (Ordinal bt), (tbl (ld_idata l)), (ctl (ld_control l)).
do 6 eexists; exists st; split=> //; split; first by rewrite l1.
rewrite -l1 -l2; split; first exact: S.
split=> //; split; last split; last split=> //.
- by rewrite /ctl (List.nth_indep _ _ 9%Z) ?H1 // B2 W2.
- by move=> k; rewrite /tbl H2.
- by move=> k; rewrite /tbl H3.
Qed.
Lemma evaluate_hold_abs (Sc : shared_cycles x n) names ics B o out res w (b t0 : nat) : List.NoDup names -> List.length ics = List.length names ->
  maker ics = Some (B, o) -> absolute_settings a o -> evaluate maker storage x nt junk j2 jr names ics = Some (out, res, w) -> (b < n)%N ->
  (List.nth b (ds_type x) EmptyString = "relaxation"%string \/ List.nth b (ds_type x) EmptyString = "creep"%string) -> hold_from x b nt t0 ->
  exists nb (bb : 'I_nb) data control lm miter throw gt bs init st,
    nat_of_ord bb = b /\ nb = List.length (ds_time x) /\
    @solve_both B nb nt (tbl (ds_time x)) data (tbl (ds_temp x)) control BackwardEuler lm 0 a miter throw gt bs init = inl st /\ i_warned st = w /\
    (List.nth b (ds_control x) EmptyString = "strain"%string -> control b = 0 /\ (forall k, data k b = tbl (ds_strain x) k b)) /\
    (List.nth b (ds_control x) EmptyString = "stress"%string -> control b = 1 /\ (forall k, data k b = tbl (ds_stress x) k b)) /\
    forall k, (k < nt)%N -> tbl out k b = if (t0 <= k)%N then entry st k bb 0%N - entry st t0 bb 0%N else 0.
Proof.
move=> ND L M [o1 [o2 o3]]; rewrite /evaluate.
have [W1 [W2 [W3 [W4 [W5 [W6 W7]]]]]] := Wx.
have := @Props_Exp.C70_load_results x j2 jr; rewrite /= W2 W3 W4 W5 L2 Lr => /(_ erefl erefl erefl erefl erefl W6 W7).
case=> l [Hl [l1 [l2 [l3 [l4 [l5 H]]]]]].
rewrite Hl /det_forward (C94_parameters_in_order ND L) M.
case S : solve_both => [st|//]; case C : convert_results => [o'|//] [<- _ <-] bn T [tn [lc F]].
have bc : (b < n)%coq_nat by apply/ltP.
have [B1 B2] := load_lengths _ _ _ _ Hl; rewrite W3 in B1.
have bt : (b < List.length (ld_times l))%N by rewrite l1 W1.
have [Hs [Hst Ht]] := H b bc.
have T' : List.nth b (ld_types l) 9%Z = 1%Z \/ List.nth b (ld_types l) 9%Z = 3%Z.
{ exact: (HoldR.type_hold _ _ T Ht (load_types_nonneg _ _ _ _ _ Hl)). }
have Col : List.length (List.nth b (state0 nt (i_result st)) nil) = nt.
{ have nthm : forall (A : Type) (x0 : A) (i : nat) (s : seq A), List.nth i s x0 = seq.nth x0 s i by move=> A x0; elim=> [|i IH] [|y s] //=.
  rewrite nthm /state0 (nth_map (Ordinal bt)) ?size_enum_ord // List.map_length List.seq_length //. }
have FF : Props_Exp.first_flag (List.nth b (ds_cycle x) nil) t0.
{ split; first by rewrite lc; apply/ltP.
  split; first by apply/F.
  move=> t /ltP tt /(F t (ltn_trans tt tn)); by rewrite leqNgt tt. }
have Sh : forall i j, (i < n)%coq_nat -> (j < n)%coq_nat -> List.nth i (ld_types l) 9%Z = List.nth j (ld_types l) 9%Z ->
  (1 <= List.nth i (ld_types l) 9 <= 4)%Z -> List.nth i (ld_cycles l) nil = List.nth j (ld_cycles l) nil.
{ move=> i j Hi Hj e rg; rewrite l3; have [_ [_ Ti]] := H i Hi; have [_ [_ Tj]] := H j Hj; rewrite -e Ti in Tj; case: Tj => Tj.
  apply: (proj2 Sc) => //; try exact/ltP.
  have : (List.nth i (ld_types l) 9 = 1 \/ List.nth i (ld_types l) 9 = 2 \/ List.nth i (ld_types l) 9 = 3 \/ List.nth i (ld_types l) 9 = 4)%Z by lia.
  by case=> [q|[q|[q|q]]]; rewrite q /= in Ti; case: Ti => <-; intuition. }
have e1 : List.length (state0 nt (i_result st)) = n by rewrite state0_length l1 W1.
have e2 : List.length (ld_cycles l) = n by rewrite l3 (proj1 Sc).
have := @HoldR.convert_column junk _ _ _ o' n b Lj e1 e2 B1 Sh C bc; rewrite l3 => C'.
have [|Lo V] := HoldR.hold_column _ _ _ _ _ _ T' C' _ FF; first by rewrite Col.
rewrite o1 o2 o3 in S.
exists (List.length (ld_times l)), (Ordinal bt), (tbl (ld_idata l)), (ctl (ld_control l)).
do 6 eexists; exists st; split=> //; split; first by rewrite l1.
rewrite -l1 -l2; split; first exact: S.
split=> //; split; last split.
- move=> /Hs [H1 [H2 _]]; split; first by rewrite /ctl (List.nth_indep _ _ 9%Z) ?H1 // B2 W2.
  by move=> k; rewrite /tbl H2.
- move=> /Hst [H1 [H2 _]]; split; first by rewrite /ctl (List.nth_indep _ _ 9%Z) ?H1 // B2 W2.
  by move=> k; rewrite /tbl H2.
move=> k kn; rewrite /tbl V ?lc; last exact/ltP.
have E k' : (k' < nt)%N -> List.nth k' (List.nth b (state0 nt (i_result st)) nil) 0 = entry st k' (Ordinal bt) 0%N.
  by move=> kn'; rewrite -(@state0_nth _ nt B st (Ordinal bt) k' kn').
rewrite !E //.
have := F k kn; case: Z.eqb_spec => [-> [/(_ erefl) -> _] //|N [_ tk]].
by case: (t0 <= k)%N tk => // /(_ isT).
Qed.

End Data.

(** An elastic model: every strain-controlled test whose result is the stress comes out as E times the strain, to one tolerance per time step. *)
Theorem C95_elastic_tests_to_tolerance (P : Type) maker storage a x n nt junk j2 jr names (ics : list P) E F E0 o out res b :
  well_formed x n -> List.length junk = n -> List.length j2 = n -> List.length jr = n ->
  List.NoDup names -> List.length ics = List.length names ->
  maker ics = Some (Models.inelastic E F, o) -> absolute_settings a o -> 0 <= a ->
  data_times_increase nt (ds_time x) ->
  (forall s h t T e, Flow.fl_rate F s h t T e = 0) -> (forall T, E T = E0) ->
  evaluate maker storage x nt junk j2 jr names ics = Some (out, res, [::]) ->
  (b < n)%N -> tensile_test x b ->
  forall k, (k < nt)%N -> Rabs (tbl out k b - E0 * (tbl (ds_strain x) k b - tbl (ds_strain x) 0%N b)) <= INR k * a.
Proof.
move=> Wx Lj L2 Lr ND L M X a0 Gr Z HE Ev bn T.
have [nb [bb [data [control [lm [mi [th [gt [bs [init [st [e1 [e2 [S [W [C [D [O _]]]]]]]]]]]]]]]]]] := evaluate_test_abs Wx Lj L2 Lr ND L M X Ev bn T.
have Gr' : Props_Stress.times_increase nb nt (tbl (ds_time x)) by move=> b' bn'; apply: Gr; rewrite -e2.
rewrite -e1 in C.
have [I [_ H]] := Props_Tolerance.C92_strain_entries_to_tolerance Gr' S W (abs_boundG _ _ _ _ _ _ _ _ a0) C; rewrite e1 in H.
elim=> [|k IH] kn.
{ rewrite O // I !Rminus_eq_0 Rmult_0_r Rminus_0_r Rabs_R0 Rmult_0_l; exact: Rle_refl. }
rewrite S_INR; have [/= Q _] := H k.+1 isT kn; rewrite Z HE !D in Q.
have := IH (ltnW kn); rewrite !O //; last exact: ltnW.
have Fl (s s0 e1' e0 e00 t k' : R) : Rabs (s - s0 - E0 * (e1' - e0 - t * 0)) <= a -> Rabs (s0 - E0 * (e0 - e00)) <= k' * a -> Rabs (s - E0 * (e1' - e00)) <= (k' + 1) * a.
{ move=> h1 h2; rewrite (_ : s - E0 * (e1' - e00) = (s - s0 - E0 * (e1' - e0 - t * 0)) + (s0 - E0 * (e0 - e00))); last ring.
  apply: Rle_trans (Rabs_triang _ _) _; lra. }
exact: (Fl _ _ _ _ _ _ _ Q).
Qed.
Print Assumptions C95_elastic_tests_to_tolerance.

(** Synthetic data: recorded stresses generated by a run to the absolute tolerance [a'] are returned, at the same parameters, to the sum of the two tolerances per time step. *)
Theorem C95_synthetic_data_to_tolerance (P : Type) maker storage a a' x n nt junk j2 jr names (ics : list P) E pn eta o out res b
    nb' (b' : 'I_nb') (times' strains' temps' : nat -> nat -> R) lm' miter' throw' gt' n' init' st' :
  well_formed x n -> List.length junk = n -> List.length j2 = n -> List.length jr = n ->
  List.NoDup names -> List.length ics = List.length names ->
  maker ics = Some (Models.inelastic E (Flow.perfect pn eta), o) -> absolute_settings a o -> 0 <= a -> 0 <= a' ->
  (forall T, 0 < E T /\ 0 < eta T /\ 0 < pn T) ->
  data_times_increase nt (ds_time x) -> Props_Stress.times_increase nb' nt times' ->
  @solve_strain (Models.inelastic E (Flow.perfect pn eta)) nb' nt times' strains' temps' BackwardEuler lm' 0 a' miter' throw' gt' n' init' = inl st' ->
  i_warned st' = [::] ->
  (forall k, (k < nt)%N -> tbl (ds_time x) k b = times' k b' /\ tbl (ds_strain x) k b = strains' k b' /\
     tbl (ds_temp x) k b = temps' k b' /\ tbl (ds_stress x) k b = entry st' k b' 0%N) ->
  evaluate maker storage x nt junk j2 jr names ics = Some (out, res, [::]) ->
  (b < n)%N -> tensile_test x b ->
  forall k, (k < nt)%N -> Rabs (tbl out k b - tbl res k b) <= INR k * (a + a').
Proof.
move=> Wx Lj L2 Lr ND L M X a0 a0' Ps Gr Gr1 S1 W1 Same Ev bn T.
have [nb [bb [data [control [lm [mi [th [gt [bs [init [st [e1 [e2 [S [W [C [D [O Rs]]]]]]]]]]]]]]]]]] := evaluate_test_abs Wx Lj L2 Lr ND L M X Ev bn T.
have Gr' : Props_Stress.times_increase nb nt (tbl (ds_time x)) by move=> b1 bn'; apply: Gr; rewrite -e2.
rewrite -e1 in C.
have [I [_ H]] := Props_Tolerance.C92_strain_entries_to_tolerance Gr' S W (abs_boundG _ _ _ _ _ _ _ _ a0) C; rewrite e1 in H.
have T1 : tol_bound (strain_f (B := Models.inelastic E (Flow.perfect pn eta)) nt times' strains' temps') BackwardEuler 0 a' gt' n' nt (time_table nb' times') (i_result st') b' a'.
{ exact: Tolerance.tol_bound_abs. }
have /= [I' [_ H']] := Props_Tolerance.C38_increment_to_tolerance Gr1 S1 W1 T1.
move=> k kn; rewrite O // Rs; have [_ [_ [_ ->]]] := Same k kn.
elim: k kn => [|k IH] kn; first by rewrite I I' Rminus_0_r Rabs_R0 Rmult_0_l; exact: Rle_refl.
have [P1 [P3 P2]] := Ps (temps' k.+1 b'); have dt := dt_pos (ltn_ord b') Gr1 (ltn0Sn k) kn.
have [Q _] := H k.+1 (ltn0Sn k) kn; have [Q' _] := H' k.+1 (ltn0Sn k) kn.
have [s1 [s2 [s3 _]]] := Same k.+1 kn; have [t1 [t2 _]] := Same k (ltnW kn).
move: Q; rewrite [k.+1.-1]/= !D s1 s2 s3 t1 t2 => Q.
have := TolR.pv_two_tol _ _ _ _ _ _ _ _ _ _ _ P1 P2 P3 (Rlt_le _ _ dt) Q Q'; rewrite [k.+1.-1]/=.
have := IH (ltnW kn); rewrite S_INR; lra.
Qed.
Print Assumptions C95_synthetic_data_to_tolerance.

(** A creep test held at stress s and temperature T from row t0 on: the converted result is zero before the hold and the power-law creep strain during it, to 1e-10 / E per unit time and one
    tolerance per step of the hold. *)
Theorem C96_creep_tests_to_tolerance (P : Type) maker storage a x n nt junk j2 jr names (ics : list P) E pn eta o out res b t0 s T :
  well_formed x n -> shared_cycles x n -> List.length junk = n -> List.length j2 = n -> List.length jr = n ->
  List.NoDup names -> List.length ics = List.length names ->
  maker ics = Some (Models.inelastic E (Flow.perfect pn eta), o) -> absolute_settings a o -> 0 <= a ->
  (forall T, 0 < E T /\ 0 < eta T) -> data_times_increase nt (ds_time x) ->
  evaluate maker storage x nt junk j2 jr names ics = Some (out, res, [::]) -> (b < n)%N ->
  List.nth b (ds_type x) EmptyString = "creep"%string -> List.nth b (ds_control x) EmptyString = "stress"%string ->
  hold_from x b nt t0 -> s <> 0 ->
  (forall k, (t0 <= k)%N -> (k < nt)%N -> tbl (ds_stress x) k b = s /\ tbl (ds_temp x) k b = T) ->
  forall k, (k < nt)%N ->
   ((k < t0)%N -> tbl out k b = 0) /\
   ((t0 <= k)%N -> let dt := tbl (ds_time x) k b - tbl (ds_time x) t0 b in
      Rabs (tbl out k b - dt * (Torch.tsign s * Rpower (Rabs s / eta T) (pn T))) <= dt / (10 ^ 10 * E T) + INR (k - t0) * a).
Proof.
move=> Wx Sc Lj L2 Lr ND L M X a0 Ps Gr Ev bn Ty C H s0 Hs k kn.
have [nb [bb [data [control [lm [mi [th [gt [bs [init [st [e1 [e2 [S [W [_ [D O]]]]]]]]]]]]]]]]] := evaluate_hold_abs Wx Lj L2 Lr Sc ND L M X Ev bn (or_intror Ty) H.
have Gr' : Props_Stress.times_increase nb nt (tbl (ds_time x)) by move=> b' bn'; apply: Gr; rewrite -e2.
have [c1 d1] := D C; rewrite -e1 in c1.
split=> [kt|tk dt]; first by rewrite O // leqNgt kt.
rewrite O // tk.
have CH := Props_Tolerance.C92_stress_entries_to_tolerance Gr' (@Models.rate_free_perfect _ _) (fun k b _ _ => proj1 (Ps _)) S W (abs_boundG _ _ _ _ _ _ _ _ a0) c1.
have Hs' : forall k, (t0 <= k)%N -> (k < nt)%N -> data k bb = s /\ tbl (ds_temp x) k bb = T by move=> k' tk' kn'; rewrite e1 d1; exact: Hs.
have := Props_Tolerance.C91_steady_creep_to_tolerance (k1 := t0) (k := (k - t0)%N) Gr' (ltn_ord bb) (proj1 (Ps T)) (proj2 (Ps T)) s0 CH Hs'.
rewrite subnKC // e1; exact.
Qed.
Print Assumptions C96_creep_tests_to_tolerance.

(** The data set of C95_ex, evaluated with the absolute tolerance 1/100: the run reports no failure, and the results are within the tolerances. *)
Definition ex_settings_abs := Settings BackwardEuler (Direct Thomas) 0 (/ 100) 10 true "zero" 3.
Definition ex_maker_abs (ps : list (R -> R)) : option (Models.rateform * settings) :=
  if ps is [:: E] then Some (Models.inelastic E Props_Pipeline.no_flow, ex_settings_abs) else None.
Example C95_tolerance_ex : exists out res,
  evaluate ex_maker_abs (fun nb m _ => @zeroV RF nb m) ex_set 3 [:: [::]; [::]] [:: [::]; [::]] [:: [::]; [::]] [:: "E"]%string [:: fun _ => 200] = Some (out, res, [::]) /\
  Rabs (tbl out 1%N 0%N - 200 * 1) <= / 100 /\ Rabs (tbl out 2%N 0%N - 200 * 3) <= 2 / 100.
Proof.
set ev := evaluate _ _ _ _ _ _ _ _ _.
have a0 : 0 <= / 100 by lra.
have [out [res Ev]] : exists out res, ev = Some (out, res, [::]).
{ rewrite /ev /evaluate /det_forward.
  have HB : forall t y y' e T, Models.rf_rate (Models.inelastic (fun _ => 200) Props_Pipeline.no_flow) t y e T 0%N = Models.rf_rate (Models.inelastic (fun _ => 200) Props_Pipeline.no_flow) t y' e T 0%N /\ Models.rf_jac (Models.inelastic (fun _ => 200) Props_Pipeline.no_flow) t y e T 0%N 0%N = R0.
  { by move=> t y y' e T; split=> //=; rewrite /Slices.cat /= /Flow.default_scalar Rmult_0_r. }
  have -> : load_results ex_set [:: [::]; [::]] [:: [::]; [::]] = Some (Loaded (ds_time ex_set) (ds_temp ex_set) [:: [:: 0; 1; 3]; [:: 0; 5; 7]]
    [:: [:: 0; 0; 0]; [:: 0; 0; 0]] (ds_cycle ex_set) [:: 0%Z; 6%Z] [:: 0%Z; 1%Z]) by [].
  rewrite (C94_parameters_in_order (names := [:: "E"]%string) (ics := [:: (fun _ => 200)])); last first; [by []|by constructor; [|constructor]|].
  cbv beta iota zeta delta [ex_maker_abs o_scheme o_lm o_rtol o_atol o_miter o_throw o_guess o_block ex_settings_abs ld_times ld_temps ld_idata ld_results ld_cycles ld_types ld_control].
  set S := solve_both _ _ _ _ _ _ _ _ _ _ _ _ _ _.
  have [st [-> W]] : exists st, S = inl st /\ i_warned st = [::].
  { apply: both_never_fails HB _ _ _ _ _ => //; by left. }
  rewrite W; do 2 eexists; reflexivity. }
exists out, res; split=> //.
have H := @C95_elastic_tests_to_tolerance _ ex_maker_abs _ (/ 100) ex_set 2 3 _ _ _ [:: "E"]%string [:: fun _ => 200] (fun _ => 200) Props_Pipeline.no_flow 200 ex_settings_abs out res 0 _ _ _ _ _ _ _ _ a0 _ _ _ Ev.
have Q : forall k : nat, (k < 3)%N -> Rabs (tbl out k 0%N - 200 * (tbl (ds_strain ex_set) k 0%N - tbl (ds_strain ex_set) 0%N 0%N)) <= INR k * / 100.
{ apply: H => //.
  - do 5 split=> //; split=> [q|q] /=; intuition.
  - by constructor; [|constructor].
  - move=> [|[|b]] //= _ i j; rewrite /tbl /=; case: j => [|[|[|j]]]; case: i => [|[|[|i]]] //= *; try lra; lia.
  - by split; [|left]. }
have q1 := Q 1%N isT; have q2 := Q 2%N isT; move: q1 q2; rewrite /(tbl (ds_strain ex_set)) /= !Rminus_0_r /Rdiv Rmult_1_l; split; assumption.
Qed.
