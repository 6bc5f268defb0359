(** C110: cyclic tests of a data set, from loading to the converted results, and for the histories that
    sample_cycle_normalized_times generates. *)
From Coq Require Import Reals List String ZArith Lra Lia FunctionalExtensionality.
From mathcomp Require Import all_ssreflect all_algebra.
From Verif Require Import ChunkModel ChunkSolve ChunkInst NewtonModel Ode OdeForward OdeReal OdeBlock RField Pipeline PipelineBoth Det.
From Verif Require Models Flow Slices PipelineR StressR Torch Experiments DetR HoldR Cycle CycleStrict Props_Cycle Props_Pipeline Props_Stress Props_Exp Props_Det Props_Hold.
Delimit Scope Z_scope with Z.
Set Implicit Arguments. Unset Strict Implicit. Unset Printing Implicit Defensive.
Local Open Scope R_scope.
Import Experiments DetR Props_Det Props_Hold.

(** The rows of test b carry cycle numbers 0, 1, ..., without gaps, nt rows in all. *)
Definition cycles_counted (x : dataset) (b nt : nat) : Prop :=
  (0 < nt)%N /\ List.length (List.nth b (ds_cycle x) nil) = nt /\
  forall v, List.In v (List.nth b (ds_cycle x) nil) <-> (0 <= v <= List.last (List.nth b (ds_cycle x) nil) 0)%Z.
(** The cycle number of row k of test b. *)
Definition cycle_of (x : dataset) (b k : nat) : Z := List.nth k (List.nth b (ds_cycle x) nil) 0%Z.

Section Data.
Variables (P : Type) (maker : list P -> option (Models.rateform * settings)) (storage : forall nb m, nat -> VB RF nb m).
Variables (x : dataset) (n nt : nat) (junk j2 jr : list (list R)).
Hypotheses (Wx : well_formed x n) (Sc : shared_cycles x n) (Lj : List.length junk = n) (L2 : List.length j2 = n) (Lr : List.length jr = n).

Lemma evaluate_cyclic names ics B o out res w (b : nat) : List.NoDup names -> List.length ics = List.length names ->
  maker ics = Some (B, o) -> exact_settings o -> evaluate maker storage x nt junk j2 jr names ics = Some (out, res, w) -> (b < n)%N ->
  (List.nth b (ds_type x) EmptyString = "strain_cyclic"%string \/ List.nth b (ds_type x) EmptyString = "stress_cyclic"%string) -> cycles_counted x b nt ->
  exists nb (bb : 'I_nb) data control lm miter throw gt bs init st,
    nat_of_ord bb = b /\ nb = List.length (ds_time x) /\
    @solve_both B nb nt (tbl (ds_time x)) data (tbl (ds_temp x)) control BackwardEuler lm 0 0 miter throw gt bs init = inl st /\ i_warned st = w /\
    (List.nth b (ds_control x) EmptyString = "strain"%string -> control b = 0 /\ (forall k, data k b = tbl (ds_strain x) k b)) /\
    (List.nth b (ds_control x) EmptyString = "stress"%string -> control b = 1 /\ (forall k, data k b = tbl (ds_stress x) k b)) /\
    forall k, (k < nt)%N -> Props_Exp.is_max_over (fun k' => (k' < nt)%N /\ cycle_of x b k' = cycle_of x b k) (fun k' => entry st k' bb 0%N) (tbl out k b).
Proof.
move=> ND L M [o1 [o2 o3]]; rewrite /evaluate.
have [W1 [W2 [W3 [W4 [W5 [W6 W7]]]]]] := Wx.
have := @Props_Exp.C70_load_results x j2 jr; rewrite /= W2 W3 W4 W5 L2 Lr => /(_ erefl erefl erefl erefl erefl W6 W7).
case=> l [Hl [l1 [l2 [l3 [l4 [l5 H]]]]]].
rewrite Hl /det_forward (C94_parameters_in_order ND L) M.
case S : solve_both => [st|//]; case C : convert_results => [o'|//] [<- _ <-] bn T [n0 [lc G]].
have bc : (b < n)%coq_nat by apply/ltP.
have [B1 B2] := load_lengths _ _ _ _ Hl; rewrite W3 in B1.
have bt : (b < List.length (ld_times l))%N by rewrite l1 W1.
have [Hs [Hst Ht]] := H b bc.
have T' : List.nth b (ld_types l) 9%Z = 2%Z \/ List.nth b (ld_types l) 9%Z = 4%Z.
{ exact: (CycleStrict.type_cyclic _ _ T Ht (load_types_nonneg _ _ _ _ _ Hl)). }
have Col : List.length (List.nth b (state0 nt (i_result st)) nil) = nt.
{ have nthm : forall (A : Type) (x0 : A) (i : nat) (s : seq A), List.nth i s x0 = seq.nth x0 s i by move=> A x0; elim=> [|i IH] [|y s] //=.
  rewrite nthm /state0 (nth_map (Ordinal bt)) ?size_enum_ord // List.map_length List.seq_length //. }
have Sh : forall i j, (i < n)%coq_nat -> (j < n)%coq_nat -> List.nth i (ld_types l) 9%Z = List.nth j (ld_types l) 9%Z ->
  (1 <= List.nth i (ld_types l) 9 <= 4)%Z -> List.nth i (ld_cycles l) nil = List.nth j (ld_cycles l) nil.
{ move=> i j Hi Hj e rg; rewrite l3; have [_ [_ Ti]] := H i Hi; have [_ [_ Tj]] := H j Hj; rewrite -e Ti in Tj; case: Tj => Tj.
  apply: (proj2 Sc) => //; try exact/ltP.
  have : (List.nth i (ld_types l) 9 = 1 \/ List.nth i (ld_types l) 9 = 2 \/ List.nth i (ld_types l) 9 = 3 \/ List.nth i (ld_types l) 9 = 4)%Z by lia.
  by case=> [q|[q|[q|q]]]; rewrite q /= in Ti; case: Ti => <-; intuition. }
have e1 : List.length (state0 nt (i_result st)) = n by rewrite state0_length l1 W1.
have e2 : List.length (ld_cycles l) = n by rewrite l3 (proj1 Sc).
have := @HoldR.convert_column junk _ _ _ o' n b Lj e1 e2 B1 Sh C bc; rewrite l3 => C'.
have cn : List.nth b (ds_cycle x) nil <> nil by move=> e; move: n0; rewrite -lc e.
have V := CycleStrict.cyclic_column _ _ _ _ _ T' C' _ cn G; rewrite Col lc in V; move: (V erefl) => {}V.
rewrite o1 o2 o3 in S.
exists (List.length (ld_times l)), (Ordinal bt), (tbl (ld_idata l)), (ctl (ld_control l)).
do 6 eexists; exists st; split=> //; split; first by rewrite l1.
rewrite -l1 -l2; split; first exact: S.
split=> //; split; last split.
- move=> /Hs [H1 [H2 _]]; split; first by rewrite /ctl (List.nth_indep _ _ 9%Z) ?H1 // B2 W2.
  by move=> k; rewrite /tbl H2.
- move=> /Hst [H1 [H2 _]]; split; first by rewrite /ctl (List.nth_indep _ _ 9%Z) ?H1 // B2 W2.
  by move=> k; rewrite /tbl H2.
move=> k kn.
have E k' : (k' < nt)%N -> List.nth k' (List.nth b (state0 nt (i_result st)) nil) 0 = entry st k' (Ordinal bt) 0%N.
  by move=> kn'; rewrite -(@state0_nth _ nt B st (Ordinal bt) k' kn').
have [[k' [[K1 K2] K3]] Mx] := V k (ltP kn); split.
- exists k'; split; first by split=> //; apply/ltP.
  by rewrite -E //; apply/ltP.
- by move=> q [/ltP q1 q2]; have := Mx q (conj q1 q2); rewrite E //; apply/ltP.
Qed.
End Data.

(** The converted result of a cyclic test (strain or stress control): at every row, the maximum of the simulated response over the
    row's own cycle.  [solve_both] is the simulation of the whole data set (C90, C92 say what it computes). *)
Theorem C110_peak_of_own_cycle (P : Type) maker storage x n nt junk j2 jr names (ics : list P) B o out res w (b : nat) :
  well_formed x n -> shared_cycles x n -> List.length junk = n -> List.length j2 = n -> List.length jr = n ->
  List.NoDup names -> List.length ics = List.length names -> maker ics = Some (B, o) -> exact_settings o ->
  evaluate maker storage x nt junk j2 jr names ics = Some (out, res, w) -> (b < n)%N ->
  (List.nth b (ds_type x) EmptyString = "strain_cyclic"%string \/ List.nth b (ds_type x) EmptyString = "stress_cyclic"%string) ->
  cycles_counted x b nt ->
  exists nb (bb : 'I_nb) data control lm miter throw gt bs init st,
    nat_of_ord bb = b /\ nb = List.length (ds_time x) /\
    @solve_both B nb nt (tbl (ds_time x)) data (tbl (ds_temp x)) control BackwardEuler lm 0 0 miter throw gt bs init = inl st /\ i_warned st = w /\
    (List.nth b (ds_control x) EmptyString = "strain"%string -> control b = 0 /\ (forall k, data k b = tbl (ds_strain x) k b)) /\
    (List.nth b (ds_control x) EmptyString = "stress"%string -> control b = 1 /\ (forall k, data k b = tbl (ds_stress x) k b)) /\
    forall k, (k < nt)%N -> Props_Exp.is_max_over (fun k' => (k' < nt)%N /\ cycle_of x b k' = cycle_of x b k) (fun k' => entry st k' bb 0%N) (tbl out k b).
Proof. move=> Wx Sc Lj L2 Lr ND L M X Ev bn Ty CC; exact: (evaluate_cyclic Wx Sc Lj L2 Lr ND L M X Ev bn Ty CC). Qed.
Print Assumptions C110_peak_of_own_cycle.

(** Test b of the data set is the sampled history of N repeats of cycle c. *)
Definition generated (x : dataset) (b : nat) (c : Cycle.cycle) (N nload nhold nt : nat) : Prop :=
  Cycle.sample_cycle c N nload nhold = Some (List.nth b (ds_time x) nil, List.nth b (ds_strain x) nil, List.nth b (ds_cycle x) nil) /\
  nt = (1 + N * (4 * nload + 2 * nhold))%nat.
Lemma generated_counted x b c N nload nhold nt : (0 < N)%N -> (0 < nload)%N -> generated x b c N nload nhold nt -> cycles_counted x b nt.
Proof.
move=> /ltP N0 /ltP n0 [E ->]; split; first by rewrite add1n.
have [t [s [cy [E' [l1 [l2 l3]]]]]] := Props_Cycle.C69_shape c N nload nhold; rewrite E in E'; case: E' => *; subst.
split; first by rewrite l3 l1.
exact: (CycleStrict.cycles_numbered c N nload nhold _ _ _ N0 n0 E).
Qed.

(** A generated strain-controlled cyclic test of an elastic material: every row of the converted result is the modulus times
    the largest strain of the cycle, the same for every cycle. *)
Theorem C110_elastic_generated (P : Type) maker storage x n nt junk j2 jr names (ics : list P) E F E0 o out res b c N nload nhold :
  well_formed x n -> shared_cycles x n -> List.length junk = n -> List.length j2 = n -> List.length jr = n ->
  List.NoDup names -> List.length ics = List.length names ->
  maker ics = Some (Models.inelastic E F, o) -> exact_settings o ->
  data_times_increase nt (ds_time x) ->
  (forall s h t T e, Flow.fl_rate F s h t T e = 0) -> (forall T, E T = E0) -> 0 <= E0 ->
  evaluate maker storage x nt junk j2 jr names ics = Some (out, res, [::]) -> (b < n)%N ->
  List.nth b (ds_type x) EmptyString = "strain_cyclic"%string -> List.nth b (ds_control x) EmptyString = "strain"%string ->
  Props_Cycle.valid c -> (0 < N)%N -> (0 < nload)%N -> generated x b c N nload nhold nt ->
  forall k, (k < nt)%N -> tbl out k b = E0 * Rmax 0 (Rmax (Cycle.cy_max_strain c) (Cycle.cy_R c * Cycle.cy_max_strain c)).
Proof.
move=> Wx Sc Lj L2 Lr ND L M X Gr Z HE E0p Ev bn Ty C V N0 n0 G k kn.
have CC := generated_counted N0 n0 G.
have [nb [bb [data [control [lm [mi [th [gt [bs [init [st [e1 [e2 [S [W [D [_ O]]]]]]]]]]]]]]]]] := evaluate_cyclic Wx Sc Lj L2 Lr ND L M X Ev bn (or_introl Ty) CC.
have Gr' : Props_Stress.times_increase nb nt (tbl (ds_time x)) by move=> b' bn'; apply: Gr; rewrite -e2.
have [c1 d1] := D C; rewrite -e1 in c1.
have [I [_ H]] := Props_Stress.C92_strain_entries Gr' S W c1; rewrite e1 in H.
have [Eg en] := G.
have s0 : tbl (ds_strain x) 0%N b = 0.
{ have [Q _] := Props_Cycle.C69_landmarks c N nload nhold _ _ _ V (ltP n0) Eg. have [_ q] := Q 0%N (Nat.le_0_l _); exact: q. }
have El : forall k', (k' < nt)%N -> entry st k' bb 0%N = E0 * tbl (ds_strain x) k' b.
{ elim=> [|k' IH] kn'; first by rewrite I s0 Rmult_0_r.
  have [/= Q _] := H k'.+1 isT kn'; rewrite Z HE !d1 in Q; have := IH (ltnW kn'); lra. }
have kn' : (k < List.length (List.nth b (ds_cycle x) nil))%coq_nat by rewrite (proj1 (proj2 CC)); apply/ltP.
have Mx := CycleStrict.cycle_extremes c N nload nhold _ _ _ V (ltP N0) (ltP n0) Eg k kn'.
have := CycleStrict.max_scaled _ _ _ _ E0p Mx; rewrite (proj1 (proj2 CC)) => {}Mx.
apply: (CycleStrict.max_unique _ _ (fun q => E0 * tbl (ds_strain x) q b) _ _ _ (O k kn)); last first.
{ case: Mx => [[q [[q1 q2] q3]] q4]; split; first by exists q; split; [split; [apply/ltP|]|exact: q3].
  by move=> j [/ltP j1 j2']; apply: q4. }
by move=> q [q1 _]; rewrite El.
Qed.
Print Assumptions C110_elastic_generated.

(** A generated strain-controlled cyclic test of a perfectly viscoplastic material (the temperature may vary): no peak exceeds the flow stress at
    the strain rate of the cycle. *)
Theorem C110_viscoplastic_generated (P : Type) maker storage x n nt junk j2 jr names (ics : list P) E pn eta o out res b c N nload nhold smax :
  well_formed x n -> shared_cycles x n -> List.length junk = n -> List.length j2 = n -> List.length jr = n ->
  List.NoDup names -> List.length ics = List.length names ->
  maker ics = Some (Models.inelastic E (Flow.perfect pn eta), o) -> exact_settings o ->
  data_times_increase nt (ds_time x) -> (forall T, 0 < E T /\ 0 < pn T /\ 0 < eta T) ->
  evaluate maker storage x nt junk j2 jr names ics = Some (out, res, [::]) -> (b < n)%N ->
  List.nth b (ds_type x) EmptyString = "strain_cyclic"%string -> List.nth b (ds_control x) EmptyString = "strain"%string ->
  Props_Cycle.valid c -> (0 < N)%N -> (0 < nload)%N -> generated x b c N nload nhold nt ->
  (forall k, (k < nt)%N -> let T := tbl (ds_temp x) k b in eta T * Rpower (Cycle.cy_strain_rate c) (/ pn T) <= smax) ->
  forall k, (k < nt)%N -> Rabs (tbl out k b) <= smax.
Proof.
move=> Wx Sc Lj L2 Lr ND L M X Gr Ps Ev bn Ty C V N0 n0 G Sm k kn.
have CC := generated_counted N0 n0 G.
have [nb [bb [data [control [lm [mi [th [gt [bs [init [st [e1 [e2 [S [W [D [_ O]]]]]]]]]]]]]]]]] := evaluate_cyclic Wx Sc Lj L2 Lr ND L M X Ev bn (or_introl Ty) CC.
have Gr' : Props_Stress.times_increase nb nt (tbl (ds_time x)) by move=> b' bn'; apply: Gr; rewrite -e2.
have [c1 d1] := D C; rewrite -e1 in c1.
have [I [_ H]] := Props_Stress.C92_strain_entries Gr' S W c1; rewrite e1 in H.
have [Eg en] := G.
have Sp : 0 <= smax.
{ have := Sm k kn; cbv zeta; have [_ [_ q]] := Ps (tbl (ds_temp x) k b).
  have := Rmult_lt_0_compat _ _ q (exp_pos (/ pn (tbl (ds_temp x) k b) * ln (Cycle.cy_strain_rate c))); rewrite /Rpower; lra. }
have [t [s [cy [E' [l1 _]]]]] := Props_Cycle.C69_shape c N nload nhold; rewrite Eg in E'; case: E' => ? ? ?; subst t s cy.
have El : forall k', (k' < nt)%N -> Rabs (entry st k' bb 0%N) <= smax.
{ elim=> [|k' IH] kn'; first by rewrite I Rabs_R0.
  have [P1 [P2 P3]] := Ps (tbl (ds_temp x) k'.+1 b).
  have dtp : 0 < tbl (ds_time x) k'.+1 b - tbl (ds_time x) k' b.
  { have := Gr' b; rewrite -{1}e1 => /(_ (ltn_ord bb) k' k'.+1 (Nat.lt_succ_diag_r _) (ltP kn')); lra. }
  have [q _] := H k'.+1 isT kn'; rewrite [k'.+1.-1]/= !d1 in q.
  have [|B] := PipelineR.pv_bound _ _ _ _ _ _ _ P1 P2 P3 dtp q; first by have := IH (ltnW kn'); lra.
  apply: Rle_trans B _; apply: Rle_trans (Sm k'.+1 kn'); apply: Rmult_le_compat_l; first exact: Rlt_le.
  have kl : (k'.+1 < List.length (List.nth b (ds_time x) nil))%coq_nat by rewrite l1; move/ltP: kn'; rewrite en.
  have [_ /(_ k'.+1)] := Props_Cycle.C69_strains c N nload nhold _ _ _ V Eg k' (Nat.lt_trans _ _ _ (Nat.lt_succ_diag_r _) kl).
  move=> /(_ (conj (Nat.le_succ_diag_r _) kl)) Li.
  have q1 : Rabs (tbl (ds_strain x) k'.+1 b - tbl (ds_strain x) k' b) / (tbl (ds_time x) k'.+1 b - tbl (ds_time x) k' b) <= Cycle.cy_strain_rate c.
  { apply: (Rmult_le_reg_r (tbl (ds_time x) k'.+1 b - tbl (ds_time x) k' b)) => //; rewrite /Rdiv Rmult_assoc Rinv_l ?Rmult_1_r; first exact: Li. lra. }
  have q0 : 0 <= Rabs (tbl (ds_strain x) k'.+1 b - tbl (ds_strain x) k' b) / (tbl (ds_time x) k'.+1 b - tbl (ds_time x) k' b).
  { apply: Rmult_le_pos; [exact: Rabs_pos|exact/Rlt_le/Rinv_0_lt_compat]. }
  rewrite -(Torch.pow0_pos (Cycle.cy_strain_rate c)) //; last exact: (proj1 V).
  apply: Torch.pow0_mono => //; exact: Rinv_0_lt_compat. }
have [[q [[q1 _] <-]] _] := O k kn; exact: El.
Qed.
Print Assumptions C110_viscoplastic_generated.

(** The times of a generated history increase strictly (so that the data set can be simulated) if every phase takes time or is not sampled ... *)
Theorem C110_times_increase c N nload nhold times strains cycles : Props_Cycle.valid c -> CycleStrict.phases_take_time c nhold ->
  Cycle.sample_cycle c N nload nhold = Some (times, strains, cycles) ->
  forall i j : nat, (i < j)%N -> (j < List.length times)%N -> List.nth i times 0 < List.nth j times 0.
Proof.
move=> V Ph; rewrite Cycle.sample_eq => -[<- _ _] i j /ltP ij /ltP jl.
exact: (CycleStrict.SS_lt_nth _ (CycleStrict.all_times_strict _ N nload nhold V Ph) i j (conj ij jl)).
Qed.
Print Assumptions C110_times_increase.
(** ... but not in general: without a tension hold (the usual fatigue test) and with any samples in it, the sampling repeats a time, in every
    such history (nhold defaults to 10). *)
Theorem C110_zero_hold_refuted c N nload nhold times strains cycles : (0 < N)%N -> (0 < nload)%N -> (0 < nhold)%N ->
  Cycle.cy_tension_hold c = 0 -> Cycle.sample_cycle c N nload nhold = Some (times, strains, cycles) ->
  List.nth nload times 0 = List.nth (nload + nhold) times 0.
Proof.
move=> /ltP N0 /ltP n0 /ltP h0 H; rewrite Cycle.sample_eq => -[<- _ _].
have -> := CycleStrict.first_cycle_end c N nload nhold nil (Cycle.t1 c) nload _ N0 n0 erefl.
have := CycleStrict.first_cycle_end c N nload nhold [:: (Cycle.t1 c, nload)] (Cycle.t2 c) nhold _ N0 h0 erefl.
rewrite /= Nat.add_0_r => e; apply: etrans (esym e); rewrite /Cycle.t2 H; ring.
Qed.
Print Assumptions C110_zero_hold_refuted.

(** Two cycles of one percent strain, fully reversed, with holds: 33 rows, elastic model of modulus 200: every row is converted to 200 * 0.01. *)
Definition ex_c : Cycle.cycle := Cycle.Cycle (/ 100) (-1) (/ 1000) 10 10.
Definition ex_cyclic : dataset := Dataset [:: Cycle.all_times ex_c 2 3 2] [:: List.repeat 0 33] [:: List.map (Cycle.strain_at ex_c) (Cycle.all_times ex_c 2 3 2)]
  [:: List.repeat 0 33] [:: Cycle.all_cycles 2 3 2] [:: "strain_cyclic"]%string [:: "strain"]%string.
Example C110_ex : exists out res,
  evaluate ex_maker (fun nb m _ => @zeroV RF nb m) ex_cyclic 33 [:: [::]] [:: [::]] [:: [::]] [:: "E"]%string [:: fun _ => 200] = Some (out, res, [::]) /\
  forall k, (k < 33)%N -> tbl out k 0%N = 200 * / 100.
Proof.
have G : generated ex_cyclic 0%N ex_c 2 3 2 33 by split; [exact: Cycle.sample_eq|].
have V : Props_Cycle.valid ex_c by repeat split=> /=; lra.
have CC := generated_counted (isT : (0 < 2)%N) (isT : (0 < 3)%N) G.
set ev := evaluate _ _ _ _ _ _ _ _ _.
have [out [res Ev]] : exists out res, ev = Some (out, res, [::]).
{ rewrite /ev /evaluate /det_forward.
  have HB : forall t y y' e T, Models.rf_rate (Models.inelastic (fun _ => 200) Props_Pipeline.no_flow) t y e T 0%N = Models.rf_rate (Models.inelastic (fun _ => 200) Props_Pipeline.no_flow) t y' e T 0%N /\ Models.rf_jac (Models.inelastic (fun _ => 200) Props_Pipeline.no_flow) t y e T 0%N 0%N = R0.
  { by move=> t y y' e T; split=> //=; rewrite /Slices.cat /= /Flow.default_scalar Rmult_0_r. }
  have -> : load_results ex_cyclic [:: [::]] [:: [::]] = Some (Loaded (ds_time ex_cyclic) (ds_temp ex_cyclic) (ds_strain ex_cyclic)
    (ds_stress ex_cyclic) (ds_cycle ex_cyclic) [:: 2%Z] [:: 0%Z]) by [].
  rewrite (C94_parameters_in_order (names := [:: "E"]%string) (ics := [:: (fun _ => 200)])); last first; [by []|by constructor; [|constructor]|].
  cbv beta iota zeta delta [ex_maker o_scheme o_lm o_rtol o_atol o_miter o_throw o_guess o_block ex_settings ld_times ld_temps ld_idata ld_results ld_cycles ld_types ld_control].
  set S := solve_both _ _ _ _ _ _ _ _ _ _ _ _ _ _.
  have [st [-> W]] : exists st, S = inl st /\ i_warned st = [::].
  { apply: both_never_fails HB _ _ _ _ _ => //; [exact: Rle_refl|by left]. }
  rewrite W.
  have : List.length (state0 33 (i_result st)) = 1%N by rewrite state0_length.
  have : forall p, List.In p (state0 33 (i_result st)) -> List.length p = 33%N.
  { by move=> p /List.in_map_iff [b [<- _]]; rewrite List.map_length List.seq_length. }
  case: (state0 33 (i_result st)) => [|p [|q l]] // /(_ p (or_introl erefl)) lp _.
  have [c1 [c2 c3]] := CC.
  have Cv : exists o1, convert_results [:: [::]] [:: p] (ds_cycle ex_cyclic) [:: 2%Z] = Some o1.
  { change (ds_cycle ex_cyclic) with [:: List.nth 0 (ds_cycle ex_cyclic) nil].
    move: (List.nth 0 (ds_cycle ex_cyclic) nil) c2 c3 => uc c2 c3; rewrite Props_Exp.C63_dispatch.
    have [||q qi|out [E _]] := Props_Exp.C64_cycle_maximum_partial uc [:: p] _ _ _ c3; [by move=> e; rewrite e in c2|by []|by case: qi => [<-|[]]; rewrite lp c2|].
    by exists out; exact: E. }
  by case: Cv => o1 ->; do 2 eexists; reflexivity. }
exists out, res; split=> // k kn.
have -> : / 100 = Rmax 0 (Rmax (Cycle.cy_max_strain ex_c) (Cycle.cy_R ex_c * Cycle.cy_max_strain ex_c)).
{ rewrite /= Rmax_right; first by rewrite Rmax_left //; lra.
  apply: Rle_trans (Rmax_l _ _); lra. }
apply: (@C110_elastic_generated _ ex_maker (fun nb m _ => @zeroV RF nb m) ex_cyclic 1 33 [:: [::]] [:: [::]] [:: [::]] [:: "E"]%string [:: fun _ => 200]
  (fun _ => 200) Props_Pipeline.no_flow 200 ex_settings out res 0 ex_c 2 3 2) => //.
- do 5 split=> //; split=> [q|q] /=; intuition.
- by split=> // [[|i]] [|j].
- by constructor; [|constructor].
- move=> [|b] // _ i j ij jl.
  apply: (C110_times_increase V _ (proj1 G)); [|exact/ltP|rewrite Cycle.all_times_length; exact/ltP].
  by repeat split=> /=; try lra; right; lra.
- lra.
Qed.
