(** C96 (relaxation) for a model that integrates with an absolute tolerance (rtol 0). *)
From Coq Require Import Reals List String ZArith Lra Lia FunctionalExtensionality.
From mathcomp Require Import all_ssreflect all_algebra.
From Verif Require Import ChunkModel ChunkSolve ChunkInst NewtonModel Ode OdeForward OdeReal OdeBlock RField Pipeline PipelineBoth Det Tolerance.
From Verif Require Models Flow PipelineR Torch Experiments DetR Props_Stress Props_Exp Props_Det Props_Hold Props_Tolerance Props_EvalTol Props_CyclicTol.
Set Implicit Arguments. Unset Strict Implicit. Unset Printing Implicit Defensive.
Local Open Scope R_scope.
Import Experiments DetR Props_Det Props_Hold Props_EvalTol.

(** a value that relaxes towards zero from a perturbed start *)
Lemma relax_bounds (a s z r : R) : Rabs r <= a -> Rabs s <= Rabs (z + r) -> 0 <= s * (z + r) ->
  (0 <= z + r -> 0 <= s <= z + r) /\ (z + r <= 0 -> z + r <= s <= 0).
Proof.
move=> ra h1 h2; split=> h.
- rewrite (Rabs_right (z + r)) in h1; last exact: Rle_ge.
  move: h1; rewrite /Rabs; case: Rcase_abs => sn h1; last lra.
  case: (Req_EM_T (z + r) 0) => [q|q]; first lra.
  have p : 0 < - s * (z + r) by apply: Rmult_lt_0_compat; lra.
  lra.
- have e : Rabs (z + r) = - (z + r) by rewrite /Rabs; case: Rcase_abs => ?; lra.
  rewrite e in h1; move: h1; rewrite /Rabs; case: Rcase_abs => sn h1; first lra.
  case: (Req_EM_T s 0) => [q|q]; first lra.
  case: (Req_EM_T (z + r) 0) => [q'|q']; first lra.
  have p : 0 < s * - (z + r) by apply: Rmult_lt_0_compat; lra.
  lra.
Qed.

Section Seq.
Variables (f : nat -> R) (a : R) (t0 nt : nat).
Hypotheses (a0 : 0 <= a) (St : forall k, (t0 <= k)%N -> (k.+1 < nt)%N -> exists r, Rabs r <= a /\ Rabs (f k.+1) <= Rabs (f k + r) /\ 0 <= f k.+1 * (f k + r)).
Lemma relax_seq_pos : 0 <= f t0 -> forall k, (t0 + k < nt)%N -> - (INR k * a) <= f (t0 + k)%N <= f t0 + INR k * a.
Proof.
move=> p; elim=> [|k IH] kn; first by rewrite addn0 /= Rmult_0_l; lra.
rewrite addnS in kn *; have := IH (ltnW kn); have [r [h1 [h2 h3]]] := St (leq_addr k t0) kn.
have [b1 b2] := relax_bounds h1 h2 h3; rewrite S_INR.
have ka : 0 <= INR k * a by apply: Rmult_le_pos => //; exact: pos_INR.
have r1 := Rle_abs r; have r2 : - Rabs r <= r by rewrite /Rabs; case: Rcase_abs => ?; lra.
case: (Rle_dec 0 (f (t0 + k)%N + r)) => q; [have := b1 q|have := b2 (Rlt_le _ _ (Rnot_le_lt _ _ q))]; lra.
Qed.
Lemma relax_seq_step : 0 <= f t0 -> forall k, ((t0 + k).+1 < nt)%N -> f (t0 + k).+1 <= f (t0 + k)%N + INR k.+1 * a.
Proof.
move=> p k kn; have := relax_seq_pos p (ltnW kn); have [r [h1 [h2 h3]]] := St (leq_addr k t0) kn.
have [b1 b2] := relax_bounds h1 h2 h3; rewrite S_INR.
have ka : 0 <= INR k * a by apply: Rmult_le_pos => //; exact: pos_INR.
have r1 := Rle_abs r.
case: (Rle_dec 0 (f (t0 + k)%N + r)) => q; [have := b1 q|have := b2 (Rlt_le _ _ (Rnot_le_lt _ _ q))]; lra.
Qed.
End Seq.

(** A relaxation test of a perfectly viscoplastic material, held at constant strain from row t0 on, evaluated by a model that integrates to the absolute tolerance a: the converted result is zero up to
    the start of the hold; afterwards it goes in one direction (down for a tensile hold, up for a compressive one), except for moves back of at most one tolerance per step of the hold so far. *)
Theorem C96_relaxation_tests_to_tolerance (P : Type) maker storage a x n nt junk j2 jr names (ics : list P) E pn eta o out res b t0 :
  well_formed x n -> shared_cycles x n -> List.length junk = n -> List.length j2 = n -> List.length jr = n ->
  List.NoDup names -> List.length ics = List.length names ->
  maker ics = Some (Models.inelastic E (Flow.perfect pn eta), o) -> absolute_settings a o -> 0 <= a ->
  (forall T, 0 < E T /\ 0 < pn T /\ 0 < eta T) -> data_times_increase nt (ds_time x) ->
  evaluate maker storage x nt junk j2 jr names ics = Some (out, res, [::]) -> (b < n)%N ->
  List.nth b (ds_type x) EmptyString = "relaxation"%string -> List.nth b (ds_control x) EmptyString = "strain"%string ->
  hold_from x b nt t0 -> (forall k, (t0 <= k)%N -> (k < nt)%N -> tbl (ds_strain x) k b = tbl (ds_strain x) t0 b) ->
  (forall k, (k <= t0)%N -> tbl out k b = 0) /\
  ((forall k, (t0 + k < nt)%N -> tbl out (t0 + k) b <= INR k * a /\ (((t0 + k).+1 < nt)%N -> tbl out (t0 + k).+1 b <= tbl out (t0 + k) b + INR k.+1 * a)) \/
   (forall k, (t0 + k < nt)%N -> - (INR k * a) <= tbl out (t0 + k) b /\ (((t0 + k).+1 < nt)%N -> tbl out (t0 + k) b - INR k.+1 * a <= tbl out (t0 + k).+1 b))).
Proof.
move=> Wx Sc Lj L2 Lr ND L M X a0 Ps Gr Ev bn Ty C H Hs.
have [nb [bb [data [control [lm [mi [th [gt [bs [init [st [e1 [e2 [S [W [D [_ O]]]]]]]]]]]]]]]]] := evaluate_hold_abs Wx Lj L2 Lr Sc ND L M X Ev bn (or_introl Ty) H.
have Gr' : Props_Stress.times_increase nb nt (tbl (ds_time x)) by move=> b' bn'; apply: Gr; rewrite -e2.
have [c1 d1] := D C; rewrite -e1 in c1.
split.
{ move=> k kt; have kn := leq_ltn_trans kt (proj1 H); rewrite O //; case: ifP => // tk.
  have -> : k = t0 by apply/eqP; rewrite eqn_leq kt tk. exact: Rminus_diag_eq. }
have [I [_ Q]] := Props_Tolerance.C92_strain_entries_to_tolerance Gr' S W (abs_boundG _ _ _ _ _ _ _ _ a0) c1; rewrite e1 in Q.
have Mo : forall k, (t0 <= k)%N -> (k.+1 < nt)%N ->
  exists r, Rabs r <= a /\ Rabs (entry st k.+1 bb 0%N) <= Rabs (entry st k bb 0%N + r) /\ 0 <= entry st k.+1 bb 0%N * (entry st k bb 0%N + r).
{ move=> k tk kn; have [P1 [P2 P3]] := Ps (tbl (ds_temp x) k.+1 b).
  have [q _] := Q k.+1 isT kn; rewrite [k.+1.-1]/= !d1 (Hs k.+1 (leqW tk) kn) (Hs k tk (ltnW kn)) in q.
  have dtp : 0 < tbl (ds_time x) k.+1 b - tbl (ds_time x) k b.
  { have := Gr' b; rewrite -{1}e1 => /(_ (ltn_ord bb) k k.+1 (Nat.lt_succ_diag_r _) (ltP kn)); lra. }
  move: q; rewrite (Rminus_diag_eq (tbl (ds_strain x) t0 b)) //; move: (entry st k.+1 bb 0%N) (entry st k bb 0%N) => s z q.
  eexists; split; first exact: q.
  apply: (PipelineR.pv_relax _ _ _ _ _ _ P1 P2 P3 dtp); rewrite /PipelineR.pv_step /=; ring. }
have sub k : (t0 + k < nt)%N -> tbl out (t0 + k) b = entry st (t0 + k) bb 0%N - entry st t0 bb 0%N by move=> h; rewrite O // leq_addr.
case: (Rle_dec 0 (entry st t0 bb 0%N)) => sg; [left|right] => k kn.
- rewrite sub //; split; first by have := relax_seq_pos a0 Mo sg kn; lra.
  by move=> kn'; rewrite -addnS sub ?addnS //; have := relax_seq_step a0 Mo sg kn'; lra.
- have Mo' : forall k, (t0 <= k)%N -> (k.+1 < nt)%N -> exists r, Rabs r <= a /\ Rabs (- entry st k.+1 bb 0%N) <= Rabs (- entry st k bb 0%N + r) /\ 0 <= - entry st k.+1 bb 0%N * (- entry st k bb 0%N + r).
  { move=> j j1 j2'; have [r [r1 [r2 r3]]] := Mo j j1 j2'; exists (- r); rewrite !Rabs_Ropp; split=> //; split.
    - have -> : - entry st j bb 0%N + - r = - (entry st j bb 0%N + r) by ring. by rewrite Rabs_Ropp.
    - have -> : - entry st j.+1 bb 0%N * (- entry st j bb 0%N + - r) = entry st j.+1 bb 0%N * (entry st j bb 0%N + r) by ring. exact: r3. }
  have sg' : 0 <= - entry st t0 bb 0%N by lra.
  rewrite sub //; split; first by have := relax_seq_pos a0 Mo' sg' kn; lra.
  by move=> kn'; rewrite -addnS sub ?addnS //; have := relax_seq_step a0 Mo' sg' kn'; lra.
Qed.
Print Assumptions C96_relaxation_tests_to_tolerance.

(** The creep test of C96_ex, evaluated with the absolute tolerance 1/100. *)
Definition ex_creep_maker_abs (ps : list (R -> R)) : option (Models.rateform * settings) :=
  if ps is [:: pn; eta] then Some (Models.inelastic (fun _ => 200) (Flow.perfect pn eta), ex_settings_abs) else None.
Example C96_tolerance_ex : exists out res,
  evaluate ex_creep_maker_abs (fun nb m _ => @zeroV RF nb m) ex_creep 4 [:: [::]] [:: [::]] [:: [::]] [:: "n"; "eta"]%string [:: (fun _ => 5); (fun _ => 100)] = Some (out, res, [::]) /\
  tbl out 0%N 0%N = 0 /\ Rabs (tbl out 3%N 0%N - 2 * Rpower (50 / 100) 5) <= 2 / (10 ^ 10 * 200) + 2 / 100.
Proof.
have a0 : 0 <= / 100 by lra.
set ev := evaluate _ _ _ _ _ _ _ _ _.
have ND : NoDup [:: "n"; "eta"]%string by constructor; [by case|constructor; [|constructor]].
have [out [res Ev]] : exists out res, ev = Some (out, res, [::]).
{ rewrite /ev /evaluate /det_forward.
  have -> : load_results ex_creep [:: [::]] [:: [::]] = Some (Loaded (ds_time ex_creep) (ds_temp ex_creep) [:: [:: 0; 50; 50; 50]]
    [:: [:: 0; 0; 0; 0]] (ds_cycle ex_creep) [:: 3%Z] [:: 1%Z]) by [].
  rewrite (C94_parameters_in_order ND) //.
  cbv beta iota zeta delta [ex_creep_maker_abs o_scheme o_lm o_rtol o_atol o_miter o_throw o_guess o_block ex_settings_abs ld_times ld_temps ld_idata ld_results ld_cycles ld_types ld_control].
  rewrite Props_Stress.C90_all_stress; last by case.
  set S := solve_stress _ _ _ _ _ _ _ _ _ _ _ _ _.
  have [st [-> W]] : exists st, S = inl st /\ i_warned st = [::].
  { apply: Props_Stress.C91_always_solved => //; by left. }
  rewrite W.
  have : List.length (state0 4 (i_result st)) = 1%N by rewrite state0_length.
  have : forall p, List.In p (state0 4 (i_result st)) -> List.length p = 4%N.
  { by move=> p /List.in_map_iff [b [<- _]]; rewrite List.map_length List.seq_length. }
  case: (state0 4 (i_result st)) => [|p [|q l]] //= /(_ p (or_introl erefl)).
  by case: p => [|p0 [|p1 [|p2 [|p3 [|p4 p]]]]] //= _ _; do 2 eexists; reflexivity. }
exists out, res; split=> //.
have H : forall k, (k < 4)%N ->
   ((k < 1)%N -> tbl out k 0%N = 0) /\
   ((1 <= k)%N -> let dt := tbl (ds_time ex_creep) k 0%N - tbl (ds_time ex_creep) 1%N 0%N in
      Rabs (tbl out k 0%N - dt * (Torch.tsign 50 * Rpower (Rabs 50 / 100) 5)) <= dt / (10 ^ 10 * 200) + INR (k - 1) * / 100).
{ apply: (@C96_creep_tests_to_tolerance _ ex_creep_maker_abs (fun nb m _ => @zeroV RF nb m) (/ 100) ex_creep 1 4 [:: [::]] [:: [::]] [:: [::]] [:: "n"; "eta"]%string [:: (fun _ => 5); (fun _ => 100)]
    (fun _ => 200) (fun _ => 5) (fun _ => 100) ex_settings_abs out res 0 1 50 0) => //.
  - do 5 split=> //; split=> [q|q] /=; intuition.
  - by split=> // [[|i]] [|j].
  - by move=> T; lra.
  - move=> [|b] //= _ i j; rewrite /tbl /=; case: j => [|[|[|[|j]]]]; case: i => [|[|[|[|i]]]] //= *; try lra; lia.
  - by split=> //; split=> // [[|[|[|[|k]]]]] //= _; split.
  - by move=> [|[|[|[|k]]]] //= _ _; rewrite /tbl /=. }
split; first exact: (proj1 (H 0%N isT) isT).
have := proj2 (H 3%N isT) isT; rewrite Torch.tsign_pos; last lra. rewrite (Rabs_right 50); last lra.
rewrite /tbl /= !Rmult_1_l; have -> : 3 - 1 = 2 by lra.
by rewrite /Rdiv (_ : 1 + 1 = 2) //; lra.
Qed.

(** A relaxation test of a Maxwell material (n = 1), loaded over one step and held for two, with the absolute tolerance 1/100: the run reports no failure and the theorem applies. *)
Definition ex_relax : dataset := Dataset [:: [:: 0; 1; 2; 3]] [:: [:: 0; 0; 0; 0]] [:: [:: 0; / 100; / 100; / 100]]
  [:: [:: 0; 0; 0; 0]] [:: [:: 0%Z; 1%Z; 1%Z; 1%Z]] [:: "relaxation"]%string [:: "strain"]%string.
Definition ex_relax_maker_abs (ps : list (R -> R)) : option (Models.rateform * settings) :=
  if ps is [:: eta] then Some (Models.inelastic (fun _ => 200) (Flow.perfect (fun _ => 1) eta), ex_settings_abs) else None.
Example C96_relaxation_tolerance_ex : exists out res,
  evaluate ex_relax_maker_abs (fun nb m _ => @zeroV RF nb m) ex_relax 4 [:: [::]] [:: [::]] [:: [::]] [:: "eta"]%string [:: (fun _ => 100)] = Some (out, res, [::]) /\
  tbl out 0%N 0%N = 0 /\ tbl out 1%N 0%N = 0 /\
  (tbl out 3%N 0%N <= 2 / 100 /\ tbl out 3%N 0%N <= tbl out 2%N 0%N + 2 / 100 \/
   - (2 / 100) <= tbl out 3%N 0%N /\ tbl out 2%N 0%N - 2 / 100 <= tbl out 3%N 0%N).
Proof.
have a0 : 0 <= / 100 by lra.
set ev := evaluate _ _ _ _ _ _ _ _ _.
have ND : NoDup [:: "eta"]%string by constructor; [by case|constructor].
have Gr : data_times_increase 4 (ds_time ex_relax).
{ move=> [|b] //= _ i j; rewrite /tbl /=; case: j => [|[|[|[|j]]]]; case: i => [|[|[|[|i]]]] //= *; try lra; lia. }
have [out [res Ev]] : exists out res, ev = Some (out, res, [::]).
{ rewrite /ev /evaluate /det_forward.
  have -> : load_results ex_relax [:: [::]] [:: [::]] = Some (Loaded (ds_time ex_relax) (ds_temp ex_relax) (ds_strain ex_relax)
    (ds_stress ex_relax) (ds_cycle ex_relax) [:: 1%Z] [:: 0%Z]) by [].
  rewrite (C94_parameters_in_order ND) //.
  cbv beta iota zeta delta [ex_relax_maker_abs o_scheme o_lm o_rtol o_atol o_miter o_throw o_guess o_block ex_settings_abs ld_times ld_temps ld_idata ld_results ld_cycles ld_types ld_control].
  rewrite Props_Stress.C90_all_strain; last by case.
  set S := solve_strain _ _ _ _ _ _ _ _ _ _ _ _ _.
  have [st [-> W]] : exists st, S = inl st /\ i_warned st = [::].
  { apply: Props_Pipeline.C86_linear_viscosity_always_solved => //; try (by left); try (by move=> T; split; exact: (IZR_lt 0)); by move=> b bn; apply: Gr. }
  rewrite W.
  have : List.length (state0 4 (i_result st)) = 1%N by rewrite state0_length.
  have : forall p, List.In p (state0 4 (i_result st)) -> List.length p = 4%N.
  { by move=> p /List.in_map_iff [b [<- _]]; rewrite List.map_length List.seq_length. }
  case: (state0 4 (i_result st)) => [|p [|q l]] //= /(_ p (or_introl erefl)).
  by case: p => [|p0 [|p1 [|p2 [|p3 [|p4 p]]]]] //= _ _; do 2 eexists; reflexivity. }
exists out, res; split=> //.
have [Z D] : (forall k, (k <= 1)%N -> tbl out k 0%N = 0) /\
  ((forall k, (1 + k < 4)%N -> tbl out (1 + k) 0 <= INR k * / 100 /\ (((1 + k).+1 < 4)%N -> tbl out (1 + k).+1 0 <= tbl out (1 + k) 0 + INR k.+1 * / 100)) \/
   (forall k, (1 + k < 4)%N -> - (INR k * / 100) <= tbl out (1 + k) 0 /\ (((1 + k).+1 < 4)%N -> tbl out (1 + k) 0 - INR k.+1 * / 100 <= tbl out (1 + k).+1 0))).
{ apply: (@C96_relaxation_tests_to_tolerance _ ex_relax_maker_abs (fun nb m _ => @zeroV RF nb m) (/ 100) ex_relax 1 4 [:: [::]] [:: [::]] [:: [::]] [:: "eta"]%string [:: (fun _ => 100)]
    (fun _ => 200) (fun _ => 1) (fun _ => 100) ex_settings_abs out res 0 1) => //.
  - do 5 split=> //; split=> [q|q] /=; intuition.
  - by split=> // [[|i]] [|j].
  - by move=> T; lra.
  - by split=> //; split=> // [[|[|[|[|k]]]]] //= _; split.
  - by move=> [|[|[|[|k]]]] //= _ _; rewrite /tbl /=. }
split; first exact: Z. split; first exact: Z.
have I2 : INR 2 = 2 by rewrite INR_IZR_INZ.
by case: D => D; [left|right]; have [d1 _] := D 2%N isT; have [_ /(_ isT) d2] := D 1%N isT; move: d1 d2; rewrite I2.
Qed.
