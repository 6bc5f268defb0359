(** C96: creep and relaxation tests of a data set, from loading to the converted results. *)
From Coq Require Import Reals List String ZArith Lra Lia FunctionalExtensionality.
From mathcomp Require Import all_ssreflect all_algebra.
From Verif Require Import ChunkModel ChunkSolve ChunkInst NewtonModel Ode OdeForward OdeReal OdeBlock RField Pipeline PipelineBoth Det.
From Verif Require Models Flow Slices PipelineR StressR Torch Experiments DetR HoldR Props_Pipeline Props_Stress Props_Exp Props_Det.
Delimit Scope Z_scope with Z.
Set Implicit Arguments. Unset Strict Implicit. Unset Printing Implicit Defensive.
Local Open Scope R_scope.
Import Experiments DetR Props_Det.

(** Tests of the same type that are converted by their cycle counts have the same cycle counts. *)
Definition shared_cycles (x : dataset) (n : nat) : Prop :=
  List.length (ds_cycle x) = n /\
  forall i j, (i < n)%N -> (j < n)%N -> List.nth i (ds_type x) EmptyString = List.nth j (ds_type x) EmptyString ->
   List.In (List.nth i (ds_type x) EmptyString) [:: "relaxation"; "strain_cyclic"; "creep"; "stress_cyclic"]%string ->
   List.nth i (ds_cycle x) nil = List.nth j (ds_cycle x) nil.
(** The rows of test b from t0 on are flagged as the hold, the earlier ones are not. *)
Definition hold_from (x : dataset) (b nt t0 : nat) : Prop :=
  (t0 < nt)%N /\ List.length (List.nth b (ds_cycle x) nil) = nt /\
  forall k, (k < nt)%N -> (List.nth k (List.nth b (ds_cycle x) nil) 0%Z = 1%Z <-> (t0 <= k)%N).

Section Data.
Variables (P : Type) (maker : list P -> option (Models.rateform * settings)) (storage : forall nb m, nat -> VB RF nb m).
Variables (x : dataset) (n nt : nat) (junk j2 jr : list (list R)).
Hypotheses (Wx : well_formed x n) (Sc : shared_cycles x n) (Lj : List.length junk = n) (L2 : List.length j2 = n) (Lr : List.length jr = n).

Lemma evaluate_hold names ics B o out res w (b t0 : nat) : List.NoDup names -> List.length ics = List.length names ->
  maker ics = Some (B, o) -> exact_settings o -> evaluate maker storage x nt junk j2 jr names ics = Some (out, res, w) -> (b < n)%N ->
  (List.nth b (ds_type x) EmptyString = "relaxation"%string \/ List.nth b (ds_type x) EmptyString = "creep"%string) -> hold_from x b nt t0 ->
  exists nb (bb : 'I_nb) data control lm miter throw gt bs init st,
    nat_of_ord bb = b /\ nb = List.length (ds_time x) /\
    @solve_both B nb nt (tbl (ds_time x)) data (tbl (ds_temp x)) control BackwardEuler lm 0 0 miter throw gt bs init = inl st /\ i_warned st = w /\
    (List.nth b (ds_control x) EmptyString = "strain"%string -> control b = 0 /\ (forall k, data k b = tbl (ds_strain x) k b)) /\
    (List.nth b (ds_control x) EmptyString = "stress"%string -> control b = 1 /\ (forall k, data k b = tbl (ds_stress x) k b)) /\
    forall k, (k < nt)%N -> tbl out k b = if (t0 <= k)%N then entry st k bb 0%N - entry st t0 bb 0%N else 0.
Proof.
move=> ND L M [o1 [o2 o3]]; rewrite /evaluate.
have [W1 [W2 [W3 [W4 [W5 [W6 W7]]]]]] := Wx.
have := @Props_Exp.C70_load_results x j2 jr; rewrite /= W2 W3 W4 W5 L2 Lr => /(_ erefl erefl erefl erefl erefl W6 W7).
case=> l [Hl [l1 [l2 [l3 [l4 [l5 H]]]]]].
rewrite Hl /det_forward (C94_parameters_in_order ND L) M.
case S : solve_both => [st|//]; case C : convert_results => [o'|//] [<- _ <-] bn T [tn [lc F]].
have bc : (b < n)%coq_nat by apply/ltP.
have [B1 B2] := load_lengths _ _ _ _ Hl; rewrite W3 in B1.
have bt : (b < List.length (ld_times l))%N by rewrite l1 W1.
have [Hs [Hst Ht]] := H b bc.
have T' : List.nth b (ld_types l) 9%Z = 1%Z \/ List.nth b (ld_types l) 9%Z = 3%Z.
{ exact: (HoldR.type_hold _ _ T Ht (load_types_nonneg _ _ _ _ _ Hl)). }
have Col : List.length (List.nth b (state0 nt (i_result st)) nil) = nt.
{ have nthm : forall (A : Type) (x0 : A) (i : nat) (s : seq A), List.nth i s x0 = seq.nth x0 s i by move=> A x0; elim=> [|i IH] [|y s] //=.
  rewrite nthm /state0 (nth_map (Ordinal bt)) ?size_enum_ord // List.map_length List.seq_length //. }
have FF : Props_Exp.first_flag (List.nth b (ds_cycle x) nil) t0.
{ split; first by rewrite lc; apply/ltP.
  split; first by apply/F.
  move=> t /ltP tt /(F t (ltn_trans tt tn)); by rewrite leqNgt tt. }
have Sh : forall i j, (i < n)%coq_nat -> (j < n)%coq_nat -> List.nth i (ld_types l) 9%Z = List.nth j (ld_types l) 9%Z ->
  (1 <= List.nth i (ld_types l) 9 <= 4)%Z -> List.nth i (ld_cycles l) nil = List.nth j (ld_cycles l) nil.
{ move=> i j Hi Hj e rg; rewrite l3; have [_ [_ Ti]] := H i Hi; have [_ [_ Tj]] := H j Hj; rewrite -e Ti in Tj; case: Tj => Tj.
  apply: (proj2 Sc) => //; try exact/ltP.
  have : (List.nth i (ld_types l) 9 = 1 \/ List.nth i (ld_types l) 9 = 2 \/ List.nth i (ld_types l) 9 = 3 \/ List.nth i (ld_types l) 9 = 4)%Z by lia.
  by case=> [q|[q|[q|q]]]; rewrite q /= in Ti; case: Ti => <-; intuition. }
have e1 : List.length (state0 nt (i_result st)) = n by rewrite state0_length l1 W1.
have e2 : List.length (ld_cycles l) = n by rewrite l3 (proj1 Sc).
have := @HoldR.convert_column junk _ _ _ o' n b Lj e1 e2 B1 Sh C bc; rewrite l3 => C'.
have [|Lo V] := HoldR.hold_column _ _ _ _ _ _ T' C' _ FF; first by rewrite Col.
rewrite o1 o2 o3 in S.
exists (List.length (ld_times l)), (Ordinal bt), (tbl (ld_idata l)), (ctl (ld_control l)).
do 6 eexists; exists st; split=> //; split; first by rewrite l1.
rewrite -l1 -l2; split; first exact: S.
split=> //; split; last split.
- move=> /Hs [H1 [H2 _]]; split; first by rewrite /ctl (List.nth_indep _ _ 9%Z) ?H1 // B2 W2.
  by move=> k; rewrite /tbl H2.
- move=> /Hst [H1 [H2 _]]; split; first by rewrite /ctl (List.nth_indep _ _ 9%Z) ?H1 // B2 W2.
  by move=> k; rewrite /tbl H2.
move=> k kn; rewrite /tbl V ?lc; last exact/ltP.
have E k' : (k' < nt)%N -> List.nth k' (List.nth b (state0 nt (i_result st)) nil) 0 = entry st k' (Ordinal bt) 0%N.
  by move=> kn'; rewrite -(@state0_nth _ nt B st (Ordinal bt) k' kn').
rewrite !E //.
have := F k kn; case: Z.eqb_spec => [-> [/(_ erefl) -> _] //|N [_ tk]].
by case: (t0 <= k)%N tk => // /(_ isT).
Qed.
End Data.

(** A creep test of a perfectly viscoplastic material (power-law creep), held at stress s and temperature T from row t0
    on: the converted result is zero before the hold and, during the hold, the strain since the start of the
    hold, which is elapsed time times the creep rate sign(s) |s/eta|^n to within 1e-10 / E per unit time. *)
Theorem C96_creep_tests (P : Type) maker storage x n nt junk j2 jr names (ics : list P) E pn eta o out res b t0 s T :
  well_formed x n -> shared_cycles x n -> List.length junk = n -> List.length j2 = n -> List.length jr = n ->
  List.NoDup names -> List.length ics = List.length names ->
  maker ics = Some (Models.inelastic E (Flow.perfect pn eta), o) -> exact_settings o ->
  (forall T, 0 < E T /\ 0 < eta T) -> data_times_increase nt (ds_time x) ->
  evaluate maker storage x nt junk j2 jr names ics = Some (out, res, [::]) -> (b < n)%N ->
  List.nth b (ds_type x) EmptyString = "creep"%string -> List.nth b (ds_control x) EmptyString = "stress"%string ->
  hold_from x b nt t0 -> s <> 0 ->
  (forall k, (t0 <= k)%N -> (k < nt)%N -> tbl (ds_stress x) k b = s /\ tbl (ds_temp x) k b = T) ->
  forall k, (k < nt)%N ->
   ((k < t0)%N -> tbl out k b = 0) /\
   ((t0 <= k)%N -> let dt := tbl (ds_time x) k b - tbl (ds_time x) t0 b in
      Rabs (tbl out k b - dt * (Torch.tsign s * Rpower (Rabs s / eta T) (pn T))) <= dt / (10 ^ 10 * E T)).
Proof.
move=> Wx Sc Lj L2 Lr ND L M X Ps Gr Ev bn Ty C H s0 Hs k kn.
have [nb [bb [data [control [lm [mi [th [gt [bs [init [st [e1 [e2 [S [W [_ [D O]]]]]]]]]]]]]]]]] := evaluate_hold Wx Sc Lj L2 Lr ND L M X Ev bn (or_intror Ty) H.
have Gr' : Props_Stress.times_increase nb nt (tbl (ds_time x)) by move=> b' bn'; apply: Gr; rewrite -e2.
have [c1 d1] := D C; rewrite -e1 in c1.
split=> [kt|tk dt]; first by rewrite O // leqNgt kt.
rewrite O // tk.
have CH := Props_Stress.C92_stress_entries Gr' (@Models.rate_free_perfect _ _) (fun k b _ _ => proj1 (Ps _)) S W c1.
have := Props_Stress.C91_steady_creep (k1 := t0) Gr' (ltn_ord bb) (proj1 (Ps T)) (proj2 (Ps T)) s0 CH.
rewrite e1 => /(_ _ k tk kn); apply=> k' tk' kn'; rewrite d1; exact: Hs.
Qed.
Print Assumptions C96_creep_tests.

(** A relaxation test of a perfectly viscoplastic material, held at constant strain (temperature may vary) from row t0
    on: the converted result is zero up to the start of the hold and changes in one direction afterwards
    (down for a tensile hold, up for a compressive one). *)
Theorem C96_relaxation_tests (P : Type) maker storage x n nt junk j2 jr names (ics : list P) E pn eta o out res b t0 :
  well_formed x n -> shared_cycles x n -> List.length junk = n -> List.length j2 = n -> List.length jr = n ->
  List.NoDup names -> List.length ics = List.length names ->
  maker ics = Some (Models.inelastic E (Flow.perfect pn eta), o) -> exact_settings o ->
  (forall T, 0 < E T /\ 0 < pn T /\ 0 < eta T) -> data_times_increase nt (ds_time x) ->
  evaluate maker storage x nt junk j2 jr names ics = Some (out, res, [::]) -> (b < n)%N ->
  List.nth b (ds_type x) EmptyString = "relaxation"%string -> List.nth b (ds_control x) EmptyString = "strain"%string ->
  hold_from x b nt t0 -> (forall k, (t0 <= k)%N -> (k < nt)%N -> tbl (ds_strain x) k b = tbl (ds_strain x) t0 b) ->
  (forall k, (k <= t0)%N -> tbl out k b = 0) /\
  ((forall k, (t0 <= k)%N -> (k.+1 < nt)%N -> tbl out k.+1 b <= tbl out k b) \/
   (forall k, (t0 <= k)%N -> (k.+1 < nt)%N -> tbl out k b <= tbl out k.+1 b)).
Proof.
move=> Wx Sc Lj L2 Lr ND L M X Ps Gr Ev bn Ty C H Hs.
have [nb [bb [data [control [lm [mi [th [gt [bs [init [st [e1 [e2 [S [W [D [_ O]]]]]]]]]]]]]]]]] := evaluate_hold Wx Sc Lj L2 Lr ND L M X Ev bn (or_introl Ty) H.
have Gr' : Props_Stress.times_increase nb nt (tbl (ds_time x)) by move=> b' bn'; apply: Gr; rewrite -e2.
have [c1 d1] := D C; rewrite -e1 in c1.
split.
{ move=> k kt; have kn := leq_ltn_trans kt (proj1 H); rewrite O //; case: ifP => // tk.
  have -> : k = t0 by apply/eqP; rewrite eqn_leq kt tk. exact: Rminus_diag_eq. }
have [I [_ Q]] := Props_Stress.C92_strain_entries Gr' S W c1.
have Mo : forall k, (t0 <= k)%coq_nat -> (k.+1 < nt)%coq_nat ->
  Rabs (entry st k.+1 bb 0%N) <= Rabs (entry st k bb 0%N) /\ 0 <= entry st k.+1 bb 0%N * entry st k bb 0%N.
{ move=> k /leP tk /ltP kn; have [P1 [P2 P3]] := Ps (tbl (ds_temp x) k.+1 b).
  have [q _] := Q k.+1 isT kn; rewrite [k.+1.-1]/= e1 !d1 (Hs k.+1 (leqW tk) kn) (Hs k tk (ltnW kn)) in q.
  have dtp : 0 < tbl (ds_time x) k.+1 b - tbl (ds_time x) k b.
  { have := Gr' b; rewrite -{1}e1 => /(_ (ltn_ord bb) k k.+1 (Nat.lt_succ_diag_r _) (ltP kn)); lra. }
  apply: (PipelineR.pv_relax _ _ _ _ _ _ P1 P2 P3 dtp).
  move: q; rewrite (Rminus_diag_eq (tbl (ds_strain x) t0 b)) // => q; exact: q. }
have [G|G] := HoldR.shrinking_monotone _ _ _ Mo; [left|right]=> k tk kn; have kn' := ltnW kn; rewrite !O // tk (leqW tk); have := G k (leP tk) (ltP kn); lra.
Qed.
Print Assumptions C96_relaxation_tests.

(** A single creep test loaded over one step and held for two. *)
Definition ex_creep : dataset := Dataset [:: [:: 0; 1; 2; 3]] [:: [:: 0; 0; 0; 0]] [:: [:: 0; 0; 0; 0]]
  [:: [:: 0; 50; 50; 50]] [:: [:: 0%Z; 1%Z; 1%Z; 1%Z]] [:: "creep"]%string [:: "stress"]%string.
Definition ex_creep_maker (ps : list (R -> R)) : option (Models.rateform * settings) :=
  if ps is [:: pn; eta] then Some (Models.inelastic (fun _ => 200) (Flow.perfect pn eta), ex_settings) else None.
Example C96_ex : exists out res,
  evaluate ex_creep_maker (fun nb m _ => @zeroV RF nb m) ex_creep 4 [:: [::]] [:: [::]] [:: [::]] [:: "n"; "eta"]%string [:: (fun _ => 5); (fun _ => 100)] = Some (out, res, [::]) /\
  tbl out 0%N 0%N = 0 /\ Rabs (tbl out 3%N 0%N - 2 * Rpower (50 / 100) 5) <= 2 / (10 ^ 10 * 200).
Proof.
set ev := evaluate _ _ _ _ _ _ _ _ _.
have ND : NoDup [:: "n"; "eta"]%string by constructor; [by case|constructor; [|constructor]].
have [out [res Ev]] : exists out res, ev = Some (out, res, [::]).
{ rewrite /ev /evaluate /det_forward.
  have -> : load_results ex_creep [:: [::]] [:: [::]] = Some (Loaded (ds_time ex_creep) (ds_temp ex_creep) [:: [:: 0; 50; 50; 50]]
    [:: [:: 0; 0; 0; 0]] (ds_cycle ex_creep) [:: 3%Z] [:: 1%Z]) by [].
  rewrite (C94_parameters_in_order ND) //.
  cbv beta iota zeta delta [ex_creep_maker o_scheme o_lm o_rtol o_atol o_miter o_throw o_guess o_block ex_settings ld_times ld_temps ld_idata ld_results ld_cycles ld_types ld_control].
  rewrite Props_Stress.C90_all_stress; last by case.
  set S := solve_stress _ _ _ _ _ _ _ _ _ _ _ _ _.
  have [st [-> W]] : exists st, S = inl st /\ i_warned st = [::].
  { apply: Props_Stress.C91_always_solved => //; [exact: Rle_refl|by left]. }
  rewrite W.
  have : List.length (state0 4 (i_result st)) = 1%N by rewrite state0_length.
  have : forall p, List.In p (state0 4 (i_result st)) -> List.length p = 4%N.
  { by move=> p /List.in_map_iff [b [<- _]]; rewrite List.map_length List.seq_length. }
  case: (state0 4 (i_result st)) => [|p [|q l]] //= /(_ p (or_introl erefl)).
  by case: p => [|p0 [|p1 [|p2 [|p3 [|p4 p]]]]] //= _ _; do 2 eexists; reflexivity. }
exists out, res; split=> //.
have H : forall k, (k < 4)%N ->
   ((k < 1)%N -> tbl out k 0%N = 0) /\
   ((1 <= k)%N -> let dt := tbl (ds_time ex_creep) k 0%N - tbl (ds_time ex_creep) 1%N 0%N in
      Rabs (tbl out k 0%N - dt * (Torch.tsign 50 * Rpower (Rabs 50 / 100) 5)) <= dt / (10 ^ 10 * 200)).
{ apply: (@C96_creep_tests _ ex_creep_maker (fun nb m _ => @zeroV RF nb m) ex_creep 1 4 [:: [::]] [:: [::]] [:: [::]] [:: "n"; "eta"]%string [:: (fun _ => 5); (fun _ => 100)]
    (fun _ => 200) (fun _ => 5) (fun _ => 100) ex_settings out res 0 1 50 0) => //.
  - do 5 split=> //; split=> [q|q] /=; intuition.
  - by split=> // [[|i]] [|j].
  - by move=> T; lra.
  - move=> [|b] //= _ i j; rewrite /tbl /=; case: j => [|[|[|[|j]]]]; case: i => [|[|[|[|i]]]] //= *; try lra; lia.
  - by split=> //; split=> // [[|[|[|[|k]]]]] //= _; split.
  - by move=> [|[|[|[|k]]]] //= _ _; rewrite /tbl /=. }
split; first exact: (proj1 (H 0%N isT) isT).
have := proj2 (H 3%N isT) isT; rewrite Torch.tsign_pos; last lra. rewrite (Rabs_right 50); last lra.
rewrite /tbl /= !Rmult_1_l; have -> : 3 - 1 = 2 by lra.
by [].
Qed.
