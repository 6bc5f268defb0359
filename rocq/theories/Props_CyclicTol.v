(** C110 for a model that integrates with an absolute tolerance (rtol 0). *)
From Coq Require Import Reals List String ZArith Lra Lia FunctionalExtensionality.
From mathcomp Require Import all_ssreflect all_algebra.
From Verif Require Import ChunkModel ChunkSolve ChunkInst NewtonModel Ode OdeForward OdeReal OdeBlock RField Pipeline PipelineBoth Det Tolerance.
From Verif Require Models Flow Slices PipelineR StressR Torch TolR Experiments DetR HoldR Cycle CycleStrict Props_Cycle Props_Pipeline Props_Stress Props_Exp Props_Det Props_Hold Props_Tolerance Props_EvalTol Props_CyclicTests.
Delimit Scope Z_scope with Z.
Set Implicit Arguments. Unset Strict Implicit. Unset Printing Implicit Defensive.
Local Open Scope R_scope.
Import Experiments DetR Props_Det Props_Hold Props_EvalTol Props_CyclicTests.

(** a perturbed viscoplastic step is an exact one from a slightly different stress *)
Lemma pv_bound_add E n eta dt de z s tol : 0 < E -> 0 < n -> 0 < eta -> 0 < dt ->
  Rabs (s - z - E * (de - dt * (Torch.pow0 (Rabs s / eta) n * Torch.tsign s))) <= tol ->
  Rabs s <= Rabs z + tol \/ Rabs s <= eta * Torch.pow0 (Rabs de / dt) (/ n).
Proof.
move=> E0 n0 e0 d0 H; pose r := s - z - E * (de - dt * (Torch.pow0 (Rabs s / eta) n * Torch.tsign s)).
have St : PipelineR.pv_step E n eta dt de (z + r) s by rewrite /PipelineR.pv_step /r; ring.
case: (PipelineR.pv_bound _ _ _ _ _ _ _ E0 n0 e0 d0 St) => Q; [left|by right].
apply: Rle_trans Q _; apply: Rle_trans (Rabs_triang _ _) _; exact: Rplus_le_compat_l.
Qed.

Section Data.
Variables (P : Type) (maker : list P -> option (Models.rateform * settings)) (storage : forall nb m, nat -> VB RF nb m) (a : R).
Variables (x : dataset) (n nt : nat) (junk j2 jr : list (list R)).
Hypotheses (Wx : well_formed x n) (Sc : shared_cycles x n) (Lj : List.length junk = n) (L2 : List.length j2 = n) (Lr : List.length jr = n).
Lemma evaluate_cyclic_abs names ics B o out res w (b : nat) : List.NoDup names -> List.length ics = List.length names ->
  maker ics = Some (B, o) -> absolute_settings a o -> evaluate maker storage x nt junk j2 jr names ics = Some (out, res, w) -> (b < n)%N ->
  (List.nth b (ds_type x) EmptyString = "strain_cyclic"%string \/ List.nth b (ds_type x) EmptyString = "stress_cyclic"%string) -> cycles_counted x b nt ->
  exists nb (bb : 'I_nb) data control lm miter throw gt bs init st,
    nat_of_ord bb = b /\ nb = List.length (ds_time x) /\
    @solve_both B nb nt (tbl (ds_time x)) data (tbl (ds_temp x)) control BackwardEuler lm 0 a miter throw gt bs init = inl st /\ i_warned st = w /\
    (List.nth b (ds_control x) EmptyString = "strain"%string -> control b = 0 /\ (forall k, data k b = tbl (ds_strain x) k b)) /\
    (List.nth b (ds_control x) EmptyString = "stress"%string -> control b = 1 /\ (forall k, data k b = tbl (ds_stress x) k b)) /\
    forall k, (k < nt)%N -> Props_Exp.is_max_over (fun k' => (k' < nt)%N /\ cycle_of x b k' = cycle_of x b k) (fun k' => entry st k' bb 0%N) (tbl out k b).
Proof.
move=> ND L M [o1 [o2 o3]]; rewrite /evaluate.
have [W1 [W2 [W3 [W4 [W5 [W6 W7]]]]]] := Wx.
have := @Props_Exp.C70_load_results x j2 jr; rewrite /= W2 W3 W4 W5 L2 Lr => /(_ erefl erefl erefl erefl erefl W6 W7).
case=> l [Hl [l1 [l2 [l3 [l4 [l5 H]]]]]].
rewrite Hl /det_forward (C94_parameters_in_order ND L) M.
case S : solve_both => [st|//]; case C : convert_results => [o'|//] [<- _ <-] bn T [n0 [lc G]].
have bc : (b < n)%coq_nat by apply/ltP.
have [B1 B2] := load_lengths _ _ _ _ Hl; rewrite W3 in B1.
have bt : (b < List.length (ld_times l))%N by rewrite l1 W1.
have [Hs [Hst Ht]] := H b bc.
have T' : List.nth b (ld_types l) 9%Z = 2%Z \/ List.nth b (ld_types l) 9%Z = 4%Z.
{ exact: (CycleStrict.type_cyclic _ _ T Ht (load_types_nonneg _ _ _ _ _ Hl)). }
have Col : List.length (List.nth b (state0 nt (i_result st)) nil) = nt.
{ have nthm : forall (A : Type) (x0 : A) (i : nat) (s : seq A), List.nth i s x0 = seq.nth x0 s i by move=> A x0; elim=> [|i IH] [|y s] //=.
  rewrite nthm /state0 (nth_map (Ordinal bt)) ?size_enum_ord // List.map_length List.seq_length //. }
have Sh : forall i j, (i < n)%coq_nat -> (j < n)%coq_nat -> List.nth i (ld_types l) 9%Z = List.nth j (ld_types l) 9%Z ->
  (1 <= List.nth i (ld_types l) 9 <= 4)%Z -> List.nth i (ld_cycles l) nil = List.nth j (ld_cycles l) nil.
{ move=> i j Hi Hj e rg; rewrite l3; have [_ [_ Ti]] := H i Hi; have [_ [_ Tj]] := H j Hj; rewrite -e Ti in Tj; case: Tj => Tj.
  apply: (proj2 Sc) => //; try exact/ltP.
  have : (List.nth i (ld_types l) 9 = 1 \/ List.nth i (ld_types l) 9 = 2 \/ List.nth i (ld_types l) 9 = 3 \/ List.nth i (ld_types l) 9 = 4)%Z by lia.
  by case=> [q|[q|[q|q]]]; rewrite q /= in Ti; case: Ti => <-; intuition. }
have e1 : List.length (state0 nt (i_result st)) = n by rewrite state0_length l1 W1.
have e2 : List.length (ld_cycles l) = n by rewrite l3 (proj1 Sc).
have := @HoldR.convert_column junk _ _ _ o' n b Lj e1 e2 B1 Sh C bc; rewrite l3 => C'.
have cn : List.nth b (ds_cycle x) nil <> nil by move=> e; move: n0; rewrite -lc e.
have V := CycleStrict.cyclic_column _ _ _ _ _ T' C' _ cn G; rewrite Col lc in V; move: (V erefl) => {}V.
rewrite o1 o2 o3 in S.
exists (List.length (ld_times l)), (Ordinal bt), (tbl (ld_idata l)), (ctl (ld_control l)).
do 6 eexists; exists st; split=> //; split; first by rewrite l1.
rewrite -l1 -l2; split; first exact: S.
split=> //; split; last split.
- move=> /Hs [H1 [H2 _]]; split; first by rewrite /ctl (List.nth_indep _ _ 9%Z) ?H1 // B2 W2.
  by move=> k; rewrite /tbl H2.
- move=> /Hst [H1 [H2 _]]; split; first by rewrite /ctl (List.nth_indep _ _ 9%Z) ?H1 // B2 W2.
  by move=> k; rewrite /tbl H2.
move=> k kn.
have E k' : (k' < nt)%N -> List.nth k' (List.nth b (state0 nt (i_result st)) nil) 0 = entry st k' (Ordinal bt) 0%N.
  by move=> kn'; rewrite -(@state0_nth _ nt B st (Ordinal bt) k' kn').
have [[k' [[K1 K2] K3]] Mx] := V k (ltP kn); split.
- exists k'; split; first by split=> //; apply/ltP.
  by rewrite -E //; apply/ltP.
- by move=> q [/ltP q1 q2]; have := Mx q (conj q1 q2); rewrite E //; apply/ltP.
Qed.

End Data.

(** A generated strain-controlled cyclic test of an elastic material: every row of the converted result is the modulus times the largest strain of the cycle, to one tolerance per time step. *)
Theorem C110_elastic_generated_to_tolerance (P : Type) maker storage a x n nt junk j2 jr names (ics : list P) E F E0 o out res b c N nload nhold :
  well_formed x n -> shared_cycles x n -> List.length junk = n -> List.length j2 = n -> List.length jr = n ->
  List.NoDup names -> List.length ics = List.length names ->
  maker ics = Some (Models.inelastic E F, o) -> absolute_settings a o -> 0 <= a ->
  data_times_increase nt (ds_time x) ->
  (forall s h t T e, Flow.fl_rate F s h t T e = 0) -> (forall T, E T = E0) -> 0 <= E0 ->
  evaluate maker storage x nt junk j2 jr names ics = Some (out, res, [::]) -> (b < n)%N ->
  List.nth b (ds_type x) EmptyString = "strain_cyclic"%string -> List.nth b (ds_control x) EmptyString = "strain"%string ->
  Props_Cycle.valid c -> (0 < N)%N -> (0 < nload)%N -> generated x b c N nload nhold nt ->
  forall k, (k < nt)%N -> Rabs (tbl out k b - E0 * Rmax 0 (Rmax (Cycle.cy_max_strain c) (Cycle.cy_R c * Cycle.cy_max_strain c))) <= INR nt * a.
Proof.
move=> Wx Sc Lj L2 Lr ND L M X a0 Gr Z HE E0p Ev bn Ty C V N0 n0 G k kn.
have CC := generated_counted N0 n0 G.
have [nb [bb [data [control [lm [mi [th [gt [bs [init [st [e1 [e2 [S [W [D [_ O]]]]]]]]]]]]]]]]] := evaluate_cyclic_abs Wx Sc Lj L2 Lr ND L M X Ev bn (or_introl Ty) CC.
have Gr' : Props_Stress.times_increase nb nt (tbl (ds_time x)) by move=> b' bn'; apply: Gr; rewrite -e2.
have [c1 d1] := D C; rewrite -e1 in c1.
have [I [_ H]] := Props_Tolerance.C92_strain_entries_to_tolerance Gr' S W (abs_boundG _ _ _ _ _ _ _ _ a0) c1; rewrite e1 in H.
have [Eg en] := G.
have s0 : tbl (ds_strain x) 0%N b = 0.
{ have [Q _] := Props_Cycle.C69_landmarks c N nload nhold _ _ _ V (ltP n0) Eg. have [_ q] := Q 0%N (Nat.le_0_l _); exact: q. }
have El : forall k', (k' < nt)%N -> Rabs (entry st k' bb 0%N - E0 * tbl (ds_strain x) k' b) <= INR k' * a.
{ elim=> [|k' IH] kn'; first by rewrite I s0 Rmult_0_r Rminus_0_r Rabs_R0 Rmult_0_l; exact: Rle_refl.
  rewrite S_INR; have [/= Q _] := H k'.+1 isT kn'; rewrite Z HE !d1 in Q; have := IH (ltnW kn').
  have Fl (s s1 e e0 t k0 : R) : Rabs (s - s1 - E0 * (e - e0 - t * 0)) <= a -> Rabs (s1 - E0 * e0) <= k0 * a -> Rabs (s - E0 * e) <= (k0 + 1) * a.
  { move=> h1 h2; rewrite (_ : s - E0 * e = (s - s1 - E0 * (e - e0 - t * 0)) + (s1 - E0 * e0)); last ring.
    apply: Rle_trans (Rabs_triang _ _) _; lra. }
  exact: (Fl _ _ _ _ _ _ Q). }
have El' k' : (k' < nt)%N -> Rabs (entry st k' bb 0%N - E0 * tbl (ds_strain x) k' b) <= INR nt * a.
{ move=> h; apply: Rle_trans (El k' h) _; apply: Rmult_le_compat_r => //; apply: le_INR; exact/leP/ltnW. }
have kn' : (k < List.length (List.nth b (ds_cycle x) nil))%coq_nat by rewrite (proj1 (proj2 CC)); apply/ltP.
have Mx := CycleStrict.cycle_extremes c N nload nhold _ _ _ V (ltP N0) (ltP n0) Eg k kn'.
have := CycleStrict.max_scaled _ _ _ _ E0p Mx; rewrite (proj1 (proj2 CC)) => {}Mx.
move: Mx (O k kn); move: (E0 * Rmax _ _) => mx [[q [[/ltP q1 q2] q3]] q4] [[q' [[q1' q2'] q3']] q4'].
have Ab (v : R) : - Rabs v <= v <= Rabs v by split; [rewrite /Rabs; case: Rcase_abs => ?; lra|exact: Rle_abs].
have u1 : mx - INR nt * a <= tbl out k b.
{ have h1 : entry st q bb 0%N <= tbl out k b by apply: q4'; split=> //; exact/ltP.
  have h2 := El' q q1; have [h3 _] := Ab (entry st q bb 0%N - E0 * tbl (ds_strain x) q b).
  have Fl (m e s0' g o1 r : R) : e = m -> s0' <= o1 -> r <= g -> - r <= s0' - e -> m - g <= o1 by lra.
  exact: (Fl _ _ _ _ _ _ q3 h1 h2 h3). }
have u2 : tbl out k b <= mx + INR nt * a.
{ have h1 : E0 * tbl (ds_strain x) q' b <= mx by apply: q4; split=> //; exact/ltP.
  have h2 := El' q' q1'; have [_ h3] := Ab (entry st q' bb 0%N - E0 * tbl (ds_strain x) q' b).
  have Fl (m e s0' g o1 r : R) : s0' = o1 -> e <= m -> r <= g -> s0' - e <= r -> o1 <= m + g by lra.
  exact: (Fl _ _ _ _ _ _ q3' h1 h2 h3). }
have Fl (o1 m g : R) : m - g <= o1 -> o1 <= m + g -> Rabs (o1 - m) <= g by move=> ? ?; rewrite /Rabs; case: Rcase_abs => ?; lra.
exact: (Fl _ _ _ u1 u2).
Qed.
Print Assumptions C110_elastic_generated_to_tolerance.

(** The test of C110_ex (two cycles of one percent strain, 33 rows), evaluated with the absolute tolerance 1/100. *)
Example C110_tolerance_ex : exists out res,
  evaluate ex_maker_abs (fun nb m _ => @zeroV RF nb m) ex_cyclic 33 [:: [::]] [:: [::]] [:: [::]] [:: "E"]%string [:: fun _ => 200] = Some (out, res, [::]) /\
  forall k, (k < 33)%N -> Rabs (tbl out k 0%N - 200 * / 100) <= 33 / 100.
Proof.
have a0 : 0 <= / 100 by lra.
have G : generated ex_cyclic 0%N ex_c 2 3 2 33 by split; [exact: Cycle.sample_eq|].
have V : Props_Cycle.valid ex_c by repeat split=> /=; lra.
have CC := generated_counted (isT : (0 < 2)%N) (isT : (0 < 3)%N) G.
set ev := evaluate _ _ _ _ _ _ _ _ _.
have [out [res Ev]] : exists out res, ev = Some (out, res, [::]).
{ rewrite /ev /evaluate /det_forward.
  have HB : forall t y y' e T, Models.rf_rate (Models.inelastic (fun _ => 200) Props_Pipeline.no_flow) t y e T 0%N = Models.rf_rate (Models.inelastic (fun _ => 200) Props_Pipeline.no_flow) t y' e T 0%N /\ Models.rf_jac (Models.inelastic (fun _ => 200) Props_Pipeline.no_flow) t y e T 0%N 0%N = R0.
  { by move=> t y y' e T; split=> //=; rewrite /Slices.cat /= /Flow.default_scalar Rmult_0_r. }
  have -> : load_results ex_cyclic [:: [::]] [:: [::]] = Some (Loaded (ds_time ex_cyclic) (ds_temp ex_cyclic) (ds_strain ex_cyclic)
    (ds_stress ex_cyclic) (ds_cycle ex_cyclic) [:: 2%Z] [:: 0%Z]) by [].
  rewrite (C94_parameters_in_order (names := [:: "E"]%string) (ics := [:: (fun _ => 200)])); last first; [by []|by constructor; [|constructor]|].
  cbv beta iota zeta delta [ex_maker_abs o_scheme o_lm o_rtol o_atol o_miter o_throw o_guess o_block ex_settings_abs ld_times ld_temps ld_idata ld_results ld_cycles ld_types ld_control].
  set S := solve_both _ _ _ _ _ _ _ _ _ _ _ _ _ _.
  have [st [-> W]] : exists st, S = inl st /\ i_warned st = [::].
  { apply: both_never_fails HB _ _ _ _ _ => //; by left. }
  rewrite W.
  have : List.length (state0 33 (i_result st)) = 1%N by rewrite state0_length.
  have : forall p, List.In p (state0 33 (i_result st)) -> List.length p = 33%N.
  { by move=> p /List.in_map_iff [b [<- _]]; rewrite List.map_length List.seq_length. }
  case: (state0 33 (i_result st)) => [|p [|q l]] // /(_ p (or_introl erefl)) lp _.
  have [c1 [c2 c3]] := CC.
  have Cv : exists o1, convert_results [:: [::]] [:: p] (ds_cycle ex_cyclic) [:: 2%Z] = Some o1.
  { change (ds_cycle ex_cyclic) with [:: List.nth 0 (ds_cycle ex_cyclic) nil].
    move: (List.nth 0 (ds_cycle ex_cyclic) nil) c2 c3 => uc c2 c3; rewrite Props_Exp.C63_dispatch.
    have [||q qi|out [E _]] := Props_Exp.C64_cycle_maximum_partial uc [:: p] _ _ _ c3; [by move=> e; rewrite e in c2|by []|by case: qi => [<-|[]]; rewrite lp c2|].
    by exists out; exact: E. }
  by case: Cv => o1 ->; do 2 eexists; reflexivity. }
exists out, res; split=> // k kn.
have M : Rmax 0 (Rmax (Cycle.cy_max_strain ex_c) (Cycle.cy_R ex_c * Cycle.cy_max_strain ex_c)) = / 100.
{ rewrite /= Rmax_right; first by rewrite Rmax_left //; lra.
  apply: Rle_trans (Rmax_l _ _); lra. }
have H := @C110_elastic_generated_to_tolerance _ ex_maker_abs (fun nb m _ => @zeroV RF nb m) (/ 100) ex_cyclic 1 33 [:: [::]] [:: [::]] [:: [::]] [:: "E"]%string [:: fun _ => 200]
  (fun _ => 200) Props_Pipeline.no_flow 200 ex_settings_abs out res 0 ex_c 2 3 2; rewrite M in H.
have Fl (u : R) : u <= INR 33 * / 100 -> u <= 33 / 100 by rewrite (_ : INR 33 = 33); [|rewrite INR_IZR_INZ]; move=> // h; rewrite /Rdiv.
apply: Fl; apply: H => //.
- do 5 split=> //; split=> [q|q] /=; intuition.
- by split=> // [[|i]] [|j].
- by constructor; [|constructor].
- move=> [|b] // _ i j ij jl.
  apply: (C110_times_increase V _ (proj1 G)); [|exact/ltP|rewrite Cycle.all_times_length; exact/ltP].
  by repeat split=> /=; try lra; right; lra.
- lra.
Qed.

(** A generated strain-controlled cyclic test of a perfectly viscoplastic material: no peak exceeds the flow stress at the strain rate of the cycle by more than one tolerance per time step. *)
Theorem C110_viscoplastic_generated_to_tolerance (P : Type) maker storage a x n nt junk j2 jr names (ics : list P) E pn eta o out res b c N nload nhold smax :
  well_formed x n -> shared_cycles x n -> List.length junk = n -> List.length j2 = n -> List.length jr = n ->
  List.NoDup names -> List.length ics = List.length names ->
  maker ics = Some (Models.inelastic E (Flow.perfect pn eta), o) -> absolute_settings a o -> 0 <= a ->
  data_times_increase nt (ds_time x) -> (forall T, 0 < E T /\ 0 < pn T /\ 0 < eta T) ->
  evaluate maker storage x nt junk j2 jr names ics = Some (out, res, [::]) -> (b < n)%N ->
  List.nth b (ds_type x) EmptyString = "strain_cyclic"%string -> List.nth b (ds_control x) EmptyString = "strain"%string ->
  Props_Cycle.valid c -> (0 < N)%N -> (0 < nload)%N -> generated x b c N nload nhold nt ->
  (forall k, (k < nt)%N -> let T := tbl (ds_temp x) k b in eta T * Rpower (Cycle.cy_strain_rate c) (/ pn T) <= smax) ->
  forall k, (k < nt)%N -> Rabs (tbl out k b) <= smax + INR nt * a.
Proof.
move=> Wx Sc Lj L2 Lr ND L M X a0 Gr Ps Ev bn Ty C V N0 n0 G Sm k kn.
have CC := generated_counted N0 n0 G.
have [nb [bb [data [control [lm [mi [th [gt [bs [init [st [e1 [e2 [S [W [D [_ O]]]]]]]]]]]]]]]]] := evaluate_cyclic_abs Wx Sc Lj L2 Lr ND L M X Ev bn (or_introl Ty) CC.
have Gr' : Props_Stress.times_increase nb nt (tbl (ds_time x)) by move=> b' bn'; apply: Gr; rewrite -e2.
have [c1 d1] := D C; rewrite -e1 in c1.
have [I [_ H]] := Props_Tolerance.C92_strain_entries_to_tolerance Gr' S W (abs_boundG _ _ _ _ _ _ _ _ a0) c1; rewrite e1 in H.
have [Eg en] := G.
have Sp : 0 <= smax.
{ have := Sm k kn; cbv zeta; have [_ [_ q]] := Ps (tbl (ds_temp x) k b).
  have := Rmult_lt_0_compat _ _ q (exp_pos (/ pn (tbl (ds_temp x) k b) * ln (Cycle.cy_strain_rate c))); rewrite /Rpower; lra. }
have [t [s [cy [E' [l1 _]]]]] := Props_Cycle.C69_shape c N nload nhold; rewrite Eg in E'; case: E' => ? ? ?; subst t s cy.
have El : forall k', (k' < nt)%N -> Rabs (entry st k' bb 0%N) <= smax + INR k' * a.
{ elim=> [|k' IH] kn'; first by rewrite I Rabs_R0 Rmult_0_l Rplus_0_r.
  have [P1 [P2 P3]] := Ps (tbl (ds_temp x) k'.+1 b).
  have dtp : 0 < tbl (ds_time x) k'.+1 b - tbl (ds_time x) k' b.
  { have := Gr' b; rewrite -{1}e1 => /(_ (ltn_ord bb) k' k'.+1 (Nat.lt_succ_diag_r _) (ltP kn')); lra. }
  have [q _] := H k'.+1 isT kn'; rewrite [k'.+1.-1]/= !d1 in q.
  have Ih := IH (ltnW kn'); rewrite S_INR; have ka : 0 <= INR k' * a by apply: Rmult_le_pos => //; exact: pos_INR.
  have fl : eta (tbl (ds_temp x) k'.+1 b) * Torch.pow0 (Rabs (tbl (ds_strain x) k'.+1 b - tbl (ds_strain x) k' b) / (tbl (ds_time x) k'.+1 b - tbl (ds_time x) k' b)) (/ pn (tbl (ds_temp x) k'.+1 b)) <= smax.
  { apply: Rle_trans (Sm k'.+1 kn'); apply: Rmult_le_compat_l; first exact: Rlt_le.
    have kl : (k'.+1 < List.length (List.nth b (ds_time x) nil))%coq_nat by rewrite l1; move/ltP: kn'; rewrite en.
    have [_ /(_ k'.+1)] := Props_Cycle.C69_strains c N nload nhold _ _ _ V Eg k' (Nat.lt_trans _ _ _ (Nat.lt_succ_diag_r _) kl).
    move=> /(_ (conj (Nat.le_succ_diag_r _) kl)) Li.
    have q1 : Rabs (tbl (ds_strain x) k'.+1 b - tbl (ds_strain x) k' b) / (tbl (ds_time x) k'.+1 b - tbl (ds_time x) k' b) <= Cycle.cy_strain_rate c.
    { apply: (Rmult_le_reg_r (tbl (ds_time x) k'.+1 b - tbl (ds_time x) k' b)) => //; rewrite /Rdiv Rmult_assoc Rinv_l ?Rmult_1_r; first exact: Li. lra. }
    have q0 : 0 <= Rabs (tbl (ds_strain x) k'.+1 b - tbl (ds_strain x) k' b) / (tbl (ds_time x) k'.+1 b - tbl (ds_time x) k' b).
    { apply: Rmult_le_pos; [exact: Rabs_pos|exact/Rlt_le/Rinv_0_lt_compat]. }
    rewrite -(Torch.pow0_pos (Cycle.cy_strain_rate c)) //; last exact: (proj1 V).
    apply: Torch.pow0_mono => //; exact: Rinv_0_lt_compat. }
  move: Ih ka fl q; move: (entry st k'.+1 bb 0%N) (entry st k' bb 0%N) => s z Ih ka fl q.
  case: (pv_bound_add (E := E (tbl (ds_temp x) k'.+1 b)) (n := pn (tbl (ds_temp x) k'.+1 b)) (eta := eta (tbl (ds_temp x) k'.+1 b)) (dt := tbl (ds_time x) k'.+1 b - tbl (ds_time x) k' b) (de := tbl (ds_strain x) k'.+1 b - tbl (ds_strain x) k' b) (z := z) (s := s) (tol := a)) => // Q; lra. }
have [[q [[q1 _] <-]] _] := O k kn; apply: Rle_trans (El q q1) _; apply: Rplus_le_compat_l; apply: Rmult_le_compat_r => //; apply: le_INR; exact/leP/ltnW.
Qed.
Print Assumptions C110_viscoplastic_generated_to_tolerance.

(** The same test of a Maxwell material (n = 1, viscosity 100): no peak exceeds the flow stress 100 * 0.001 by more than 33 tolerances. *)
Definition ex_maxwell_abs (ps : list (R -> R)) : option (Models.rateform * settings) :=
  if ps is [:: eta] then Some (Models.inelastic (fun _ => 200) (Flow.perfect (fun _ => 1) eta), ex_settings_abs) else None.
Example C110_viscoplastic_tolerance_ex : exists out res,
  evaluate ex_maxwell_abs (fun nb m _ => @zeroV RF nb m) ex_cyclic 33 [:: [::]] [:: [::]] [:: [::]] [:: "eta"]%string [:: fun _ => 100] = Some (out, res, [::]) /\
  forall k, (k < 33)%N -> Rabs (tbl out k 0%N) <= 1 / 10 + 33 / 100.
Proof.
have a0 : 0 <= / 100 by lra.
have G : generated ex_cyclic 0%N ex_c 2 3 2 33 by split; [exact: Cycle.sample_eq|].
have V : Props_Cycle.valid ex_c by repeat split=> /=; lra.
have Gr : data_times_increase 33 (ds_time ex_cyclic).
{ move=> [|b] // _ i j ij jl.
  apply: (C110_times_increase V _ (proj1 G)); [|exact/ltP|rewrite Cycle.all_times_length; exact/ltP].
  by repeat split=> /=; try lra; right; lra. }
have CC := generated_counted (isT : (0 < 2)%N) (isT : (0 < 3)%N) G.
set ev := evaluate _ _ _ _ _ _ _ _ _.
have [out [res Ev]] : exists out res, ev = Some (out, res, [::]).
{ rewrite /ev /evaluate /det_forward.
  have -> : load_results ex_cyclic [:: [::]] [:: [::]] = Some (Loaded (ds_time ex_cyclic) (ds_temp ex_cyclic) (ds_strain ex_cyclic)
    (ds_stress ex_cyclic) (ds_cycle ex_cyclic) [:: 2%Z] [:: 0%Z]) by [].
  rewrite (C94_parameters_in_order (names := [:: "eta"]%string) (ics := [:: (fun _ => 100)])); last first; [by []|by constructor; [|constructor]|].
  cbv beta iota zeta delta [ex_maxwell_abs o_scheme o_lm o_rtol o_atol o_miter o_throw o_guess o_block ex_settings_abs ld_times ld_temps ld_idata ld_results ld_cycles ld_types ld_control].
  rewrite Props_Stress.C90_all_strain; last by case.
  set S := solve_strain _ _ _ _ _ _ _ _ _ _ _ _ _.
  have [st [-> W]] : exists st, S = inl st /\ i_warned st = [::].
  { apply: Props_Pipeline.C86_linear_viscosity_always_solved => //; try (by left); try (by move=> T; split; exact: (IZR_lt 0)); by move=> b bn; apply: Gr. }
  rewrite W.
  have : List.length (state0 33 (i_result st)) = 1%N by rewrite state0_length.
  have : forall p, List.In p (state0 33 (i_result st)) -> List.length p = 33%N.
  { by move=> p /List.in_map_iff [b [<- _]]; rewrite List.map_length List.seq_length. }
  case: (state0 33 (i_result st)) => [|p [|q l]] // /(_ p (or_introl erefl)) lp _.
  have [c1 [c2 c3]] := CC.
  have Cv : exists o1, convert_results [:: [::]] [:: p] (ds_cycle ex_cyclic) [:: 2%Z] = Some o1.
  { change (ds_cycle ex_cyclic) with [:: List.nth 0 (ds_cycle ex_cyclic) nil].
    move: (List.nth 0 (ds_cycle ex_cyclic) nil) c2 c3 => uc c2 c3; rewrite Props_Exp.C63_dispatch.
    have [||q qi|out [E _]] := Props_Exp.C64_cycle_maximum_partial uc [:: p] _ _ _ c3; [by move=> e; rewrite e in c2|by []|by case: qi => [<-|[]]; rewrite lp c2|].
    by exists out; exact: E. }
  by case: Cv => o1 ->; do 2 eexists; reflexivity. }
exists out, res; split=> // k kn.
have H := @C110_viscoplastic_generated_to_tolerance _ ex_maxwell_abs (fun nb m _ => @zeroV RF nb m) (/ 100) ex_cyclic 1 33 [:: [::]] [:: [::]] [:: [::]] [:: "eta"]%string [:: fun _ => 100]
  (fun _ => 200) (fun _ => 1) (fun _ => 100) ex_settings_abs out res 0 ex_c 2 3 2 (1 / 10).
have Fl (u : R) : u <= 1 / 10 + INR 33 * / 100 -> u <= 1 / 10 + 33 / 100 by rewrite (_ : INR 33 = 33); [|rewrite INR_IZR_INZ]; move=> // h; rewrite /Rdiv.
apply: Fl; apply: H => //.
- do 5 split=> //; split=> [q|q] /=; intuition.
- by split=> // [[|i]] [|j].
- by constructor; [|constructor].
- by move=> T; lra.
- move=> k' _; cbv zeta; rewrite Rinv_1 Rpower_1 /=; lra.
Qed.
