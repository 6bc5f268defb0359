(** C133: nested models.  Backstresses with the same recovery rate act as one with the sum of the moduli, switched-off mechanisms change nothing: the larger model contains the smaller. *)
From Coq Require Import Reals List String Lra Lia FunctionalExtensionality.
From mathcomp Require Import all_ssreflect all_algebra.
From Verif Require Import ChunkModel ChunkSolve ChunkInst NewtonModel Ode OdeForward OdeReal OdeBlock OdeDiff RField Pipeline PipelineBoth Tolerance.
From Verif Require Deriv Models Flow Hardening Deriv Slices Torch VCStep VCHistory VCExact Lump Props_Pipeline Props_Stress Props_Tolerance Props_FullModel Props_FullTol Props_Unique Props_Close.
Set Implicit Arguments. Unset Strict Implicit. Unset Printing Implicit Defensive.
Local Open Scope R_scope.
Import Props_Stress Props_Tolerance Props_FullModel Props_FullTol VCExact Props_Unique Props_Close.

(** Which backstress of the smaller model (M backstresses, moduli C', recovery rates g') backstress i of the larger model (N, C, g) is part of: [to i = Some j]; [to i = None]: it
    is left out.  The parts of a backstress have its recovery rate and their moduli add up to its modulus; what is left out is switched off. *)
Definition contains (N M : nat) (C g C' g' : R -> nat -> R) (to : nat -> option nat) (T : R) : Prop :=
  (forall i j, (i < N)%N -> to i = Some j -> (j < M)%N /\ g T i = g' T j) /\
  (forall i, (i < N)%N -> to i = None -> C T i = 0) /\
  (forall j, (j < M)%N -> C' T j = Deriv.sum N (fun i => if to i == Some j then C T i else 0)).
Lemma contains_merges N M C g C' g' to T : contains N M C g C' g' to T -> Lump.merges N M C g C' g' to T.
Proof.
move=> [H1 [H2 H3]]; split; [|split].
- move=> i j /ltP iN ti; have [jM e] := H1 i j iN ti; split=> //; exact/ltP.
- move=> i /ltP iN; exact: H2.
- move=> j /ltP jM; rewrite (H3 j jM); apply: Deriv.sum_ext => i _; rewrite /Lump.part; case: (to i) => [j'|//].
  have -> : (Some j' == Some j) = Nat.eqb j' j by case: PeanoNat.Nat.eqb_spec => [->|ne]; [exact: eqxx|apply/eqP => -[]]. by [].
Qed.
(** The state of the smaller model: stress, isotropic variable, and the sums of the parts of its backstresses. *)
Definition gather (N M : nat) (to : nat -> option nat) (nb : nat) (y : VB RF nb N.+2) : VB RF nb M.+2 :=
  [ffun b => (\col_i ((match nat_of_ord i with 0%N => y b ord0 ord0 | 1%N => y b (inord 1) ord0
     | j.+2 => Deriv.sum N (fun i => if to i == Some j then y b (inord i.+2) ord0 else 0) end) : RF))%R].

Section Nest.
Variables (E pn eta s0 Rs d : R -> R) (N M : nat) (C g C' g' : R -> nat -> R) (to : nat -> option nat).
Let B := voce_chaboche E pn eta s0 Rs d N C g.
Let B' := voce_chaboche E pn eta s0 Rs d M C' g'.
Variables (nb nt : nat) (times strains temps : nat -> nat -> R).
Hypothesis G : times_increase nb nt times.
Hypothesis Gd : forall b, (b < nb)%N -> good_entry E pn eta s0 Rs d N C g nt temps b.
Hypothesis Ct : forall k b, (k < nt)%N -> (b < nb)%N -> contains N M C g C' g' to (temps k b).
Lemma vecN (y : VB RF nb N.+2) (b : 'I_nb) i : (i < N.+2)%N -> @to_vec B (y b) i = y b (inord i) ord0.
Proof.
move=> iN; have E0 := @to_vecE B (y b) (inord i : 'I_N.+2); rewrite -E0; congr (to_vec _ _).
by rewrite (inordK iN).
Qed.
Lemma gather_vec (y : VB RF nb N.+2) (b : 'I_nb) i : (i < M.+2)%N -> @to_vec B' (gather M to y b) i =
  if i is i'.+1 then Lump.merged N to (fun i => @to_vec B (y b) i.+1) i' else @to_vec B (y b) 0%N.
Proof.
move=> iM; have := @to_vecE B' (gather M to y b) (Ordinal iM : 'I_M.+2); rewrite -[nat_of_ord _]/i => ->; rewrite /gather ffunE mxE -[nat_of_ord _]/i.
case: i iM => [|[|j]] iM.
- rewrite vecN //; congr (y b _ _); apply: val_inj; by rewrite /= inordK.
- by rewrite /Lump.merged vecN.
- rewrite /Lump.merged /Lump.total; apply: Deriv.sum_ext => i /ltP iN; rewrite vecN //.
Qed.
Lemma gather_history (y : nat -> VB RF nb N.+2) : exact_history (B := B) nt times strains temps y ->
  (forall k (b : 'I_nb), (k < nt)%N -> Lump.dropped_zero N to (fun i => @to_vec B (y k b) i.+1)) /\
  exact_history (B := B') nt times strains temps (fun k => gather M to (y k)).
Proof.
move=> /(history_model strains temps G) [Z H].
have D k (b : 'I_nb) : (k < nt)%N -> Lump.dropped_zero N to (fun i => @to_vec B (y k b) i.+1).
{ elim: k => [|k IH] kn; first by move=> i _ _; rewrite Z; exact: tvec0.
  have dt := dt_pos (ltn_ord b) G (ltn0Sn k) kn; have [Q1 _] := Gd (ltn_ord b); have [_ [_ [_ [_ [_ [_ A]]]]]] := Q1 _ kn.
  have [X _] := Lump.step_merged pn eta s0 Rs d N M C g C' g' to _ _ _ _ _ _ _ _ (contains_merges (Ct kn (ltn_ord b))) (Rlt_le _ _ dt) (fun i iN => proj2 (A i iN)) (IH (ltnW kn)) (H k.+1 b (ltn0Sn k) kn).
  exact: X. }
split=> //; apply/(history_model strains temps G); split.
{ apply/ffunP => b; apply/colP => i; rewrite /gather Z !ffunE !mxE; case: (nat_of_ord i) => [|[|j]]; rewrite ?ffunE ?mxE //.
  apply: Deriv.sum_0 => i' _; case: ifP => // _; by rewrite ?ffunE ?mxE. }
move=> k b k0 kn; have dt := dt_pos (ltn_ord b) G k0 kn; have [Q1 _] := Gd (ltn_ord b); have [_ [_ [_ [_ [_ [_ A]]]]]] := Q1 _ kn.
have kn' : (k.-1 < nt)%N by apply: leq_ltn_trans (leq_pred _) kn.
have [_ X] := Lump.step_merged pn eta s0 Rs d N M C g C' g' to _ _ _ _ _ _ _ _ (contains_merges (Ct kn (ltn_ord b))) (Rlt_le _ _ dt) (fun i iN => proj2 (A i iN)) (D k.-1 b kn') (H k b k0 kn).
have [H1 [H2 H3]] := X.
have fl : VCHistory.the_flow pn eta s0 M (temps k b) (@to_vec B' (gather M to (y k) b) 0%N) (fun i => @to_vec B' (gather M to (y k) b) i.+1) =
  VCHistory.the_flow pn eta s0 M (temps k b) (@to_vec B (y k b) 0%N) (Lump.merged N to (fun i => @to_vec B (y k b) i.+1)).
{ rewrite /VCHistory.the_flow !gather_vec //; congr (VCStep.flow _ _ _ (_ - _)); apply: Deriv.sum_ext => i /ltP ib; by rewrite gather_vec. }
rewrite /VCHistory.model_step fl !gather_vec //; split=> //; split=> // i /ltP ib; rewrite !gather_vec //; apply: H3; exact/ltP.
Qed.
End Nest.

(** C133.  Gathering the backstresses of the exact history of the larger model gives the exact history of the smaller; what is left out stays zero. *)
Theorem C133_gathered_history E pn eta s0 Rs d N M C g C' g' to nb nt (times strains temps : nat -> nat -> R) (y : nat -> VB RF nb N.+2) :
  times_increase nb nt times -> (forall b, (b < nb)%N -> good_entry E pn eta s0 Rs d N C g nt temps b) ->
  (forall k b, (k < nt)%N -> (b < nb)%N -> contains N M C g C' g' to (temps k b)) ->
  exact_history (B := voce_chaboche E pn eta s0 Rs d N C g) nt times strains temps y ->
  exact_history (B := voce_chaboche E pn eta s0 Rs d M C' g') nt times strains temps (fun k => gather M to (y k)) /\
  forall k b i, (k < nt)%N -> (i < N)%N -> to i = None -> y k b (inord i.+2) ord0 = 0.
Proof.
move=> G Gd Ct H; have [D X] := gather_history G Gd Ct H; split=> // k b i kn iN ti.
have := D k b kn i (elimT ltP iN) ti; by rewrite (@vecN E pn eta s0 Rs d N C g).
Qed.
Print Assumptions C133_gathered_history.

(** The two models respond identically: same stress, same isotropic variable, and every backstress of the smaller model is the sum of its parts. *)
Theorem C133_same_response E pn eta s0 Rs d N M C g C' g' to nb nt (times strains temps : nat -> nat -> R) (y : nat -> VB RF nb N.+2) (y' : nat -> VB RF nb M.+2) :
  times_increase nb nt times -> (forall b, (b < nb)%N -> good_entry E pn eta s0 Rs d N C g nt temps b) -> (forall b, (b < nb)%N -> good_entry E pn eta s0 Rs d M C' g' nt temps b) ->
  (forall k b, (k < nt)%N -> (b < nb)%N -> contains N M C g C' g' to (temps k b)) ->
  exact_history (B := voce_chaboche E pn eta s0 Rs d N C g) nt times strains temps y -> exact_history (B := voce_chaboche E pn eta s0 Rs d M C' g') nt times strains temps y' ->
  forall k b, (k < nt)%N -> y' k b ord0 ord0 = y k b ord0 ord0 /\ y' k b (inord 1) ord0 = y k b (inord 1) ord0 /\
    forall j, (j < M)%N -> y' k b (inord j.+2) ord0 = Deriv.sum N (fun i => if to i == Some j then y k b (inord i.+2) ord0 else 0).
Proof.
move=> G Gd Gd' Ct H H' k b kn; have [X _] := C133_gathered_history G Gd Ct H.
have e : y' k = gather M to (y k) by exact: (history_unique (C := C') (g := g') G Gd' H' X kn).
rewrite e /gather !ffunE !mxE inordK //; split=> //; split=> // j jM; by rewrite mxE inordK.
Qed.
Print Assumptions C133_same_response.

(** [stress] is the simulated stress response of a strain-controlled test (column 0 of the tables) of the material [B], in whatever batch and by whatever solver, converged to [tol]. *)
Definition simulated_stress (B : Models.rateform) (nt : nat) (times strains temps : nat -> nat -> R) (tol : R) (stress : nat -> R) : Prop :=
  exists nb (times' data' temps' : nat -> nat -> R) (control : nat -> R) lm rtol atol miter throw gt n init st (b : 'I_nb),
    [/\ times_increase nb nt times', @solve_both B nb nt times' data' temps' control BackwardEuler lm rtol atol miter throw gt n init = inl st, i_warned st = [::] &
        tol_boundG (@both_G B nb nt times' data' temps' control) BackwardEuler rtol atol gt n nt (time_table nb times') (i_result st) b tol] /\
    [/\ control b = 0, forall k, (k < nt)%N -> times' k b = times k 0%N /\ data' k b = strains k 0%N /\ temps' k b = temps k 0%N & forall k, stress k = entry st k b 0%N].
Lemma simulated_near E pn eta s0 Rs d N C g nt (times strains temps : nat -> nat -> R) :
  let B := voce_chaboche E pn eta s0 Rs d N C g in
  times_increase 1 nt times -> good_entry E pn eta s0 Rs d N C g nt temps 0 -> (forall k, (k < nt)%N -> 0 < s0 (temps k 0%N)) ->
  exists y : nat -> VB RF 1 N.+2, exact_history (B := B) nt times strains temps y /\ forall eps, 0 < eps -> exists tol, 0 < tol /\
    forall stress, simulated_stress B nt times strains temps tol stress -> forall k, (k < nt)%N -> Rabs (stress k - y k ord0 ord0 ord0) <= eps.
Proof.
move=> B G Gd Sp; have [y [Hy Cl]] := C118_tighter_tolerance_converges strains G Gd Sp; exists y; split=> // eps e0; have [tol [t0 H]] := Cl eps e0; exists tol; split=> //.
move=> stress [nb [times' [data' [temps' [control [lm [rtol [atol [miter [throw [gt [n [init [st [b [[G' So W Tb] [c0 Same Es]]]]]]]]]]]]]]]]] k kn.
have Q := H nb times' data' temps' control lm rtol atol miter throw gt n init st b G' So W Tb c0 Same k 0%N kn (leq0n _).
rewrite Es; have E0 := @to_vecE B (y k ord0) (ord0 : 'I_N.+2); rewrite -E0; exact: Q.
Qed.

(** Simulations of the two models agree as closely as wanted once the tolerances are tight enough. *)
Theorem C133_simulations_agree E pn eta s0 Rs d N M C g C' g' to nt (times strains temps : nat -> nat -> R) eps :
  times_increase 1 nt times -> good_entry E pn eta s0 Rs d N C g nt temps 0 -> good_entry E pn eta s0 Rs d M C' g' nt temps 0 -> (forall k, (k < nt)%N -> 0 < s0 (temps k 0%N)) ->
  (forall k, (k < nt)%N -> contains N M C g C' g' to (temps k 0%N)) -> 0 < eps ->
  exists tol, 0 < tol /\ forall stress stress',
    simulated_stress (voce_chaboche E pn eta s0 Rs d N C g) nt times strains temps tol stress -> simulated_stress (voce_chaboche E pn eta s0 Rs d M C' g') nt times strains temps tol stress' ->
    forall k, (k < nt)%N -> Rabs (stress k - stress' k) <= eps.
Proof.
move=> G Gd Gd' Sp Ct e0.
have [y [Hy Cl]] := simulated_near strains G Gd Sp; have [y' [Hy' Cl']] := simulated_near strains G Gd' Sp.
have e2 : 0 < eps / 2 by lra.
have [tol [t0 H]] := Cl _ e2; have [tol' [t0' H']] := Cl' _ e2.
exists (Rmin tol tol'); split; first exact: Rmin_pos.
have le0 : Rmin tol tol' <= tol := Rmin_l _ _; have le1 : Rmin tol tol' <= tol' := Rmin_r _ _.
have weaker B t1 t2 stress : t1 <= t2 -> simulated_stress B nt times strains temps t1 stress -> simulated_stress B nt times strains temps t2 stress.
{ move=> tt [nb [times' [data' [temps' [control [lm [rtol [atol [miter [throw [gt [n [init [st [b [[G' So W Tb] Re]]]]]]]]]]]]]]]].
  exists nb, times', data', temps', control, lm, rtol, atol, miter, throw, gt, n, init, st, b; split=> //; split=> //.
  have [T1 [T2 T3]] := Tb; split; first exact: Rle_trans T1 tt. split; first exact: Rle_trans T2 tt.
  case: T3 => [->|[gz T3]]; [by left|right; split=> // k k0 kn bk ln ts Yg A1 A2]; exact: Rle_trans (T3 k k0 kn ts Yg A1 A2) tt. }
move=> stress stress' S S' k kn.
have A := H stress (weaker _ _ _ _ le0 S) k kn; have A' := H' stress' (weaker _ _ _ _ le1 S') k kn.
have one (P : nat -> Prop) : P 0%N -> forall b, (b < 1)%N -> P b by move=> p0 [|//].
have [E0 _] := C133_same_response G (one _ Gd) (one _ Gd') (fun k b kn b1 => one (fun b => contains N M C g C' g' to (temps k b)) (Ct k kn) b b1) Hy Hy' ord0 kn.
rewrite E0 in A'; move: A A'; move: (y k ord0 ord0 ord0 : R) (stress k) (stress' k) => a u v A A'.
have -> : u - v = (u - a) + - (v - a) by ring. apply: Rle_trans (Rabs_triang _ _) _; rewrite Rabs_Ropp; lra.
Qed.
Print Assumptions C133_simulations_agree.

(** Calibration with more backstresses can fit no worse: every admissible smaller model is contained in an admissible larger one. *)
Theorem C133_larger_models_fit_as_well E pn eta s0 Rs d N M C' g' : (M <= N)%N -> exists C g, forall nb nt (times strains temps : nat -> nat -> R),
  times_increase nb nt times -> (forall b, (b < nb)%N -> good_entry E pn eta s0 Rs d M C' g' nt temps b) ->
  (forall b, (b < nb)%N -> good_entry E pn eta s0 Rs d N C g nt temps b) /\
  forall (y : nat -> VB RF nb N.+2) (y' : nat -> VB RF nb M.+2),
    exact_history (B := voce_chaboche E pn eta s0 Rs d N C g) nt times strains temps y -> exact_history (B := voce_chaboche E pn eta s0 Rs d M C' g') nt times strains temps y' ->
    forall k b, (k < nt)%N -> y k b ord0 ord0 = y' k b ord0 ord0.
Proof.
move=> MN; pose C T i := if (i < M)%N then C' T i else 0; pose g T i := if (i < M)%N then g' T i else 1; exists C, g => nb nt times strains temps G Gd'.
have Gd b : (b < nb)%N -> good_entry E pn eta s0 Rs d N C g nt temps b.
{ move=> bn; have [Q1 Q2] := Gd' b bn; split=> k kn.
  - have [e [a1 [a2 [a3 [a4 [a5 a6]]]]]] := Q1 k kn; split=> //; do 5 (split=> //); move=> i _; rewrite /C /g; case: ltP => iM; [exact: a6|lra].
  - have [a1 a2] := Q2 k kn; split=> // i _; rewrite /C /g; case: ltP => iM; [exact: a2|lra]. }
split=> // y y' H H' k b kn; pose to i := if (i < M)%N then Some i else None.
have Ct k' b' : (k' < nt)%N -> (b' < nb)%N -> contains N M C g C' g' to (temps k' b').
{ move=> _ _; split; [|split] => [i j _|i _|j jM]; rewrite /to /C /g.
  - by case: ifP => // iM -[<-].
  - by case: ifP.
  - rewrite (@Deriv.sum_single N j); [by rewrite jM eqxx|apply/ltP; exact: leq_trans MN|].
    move=> i _ ne; case: (i < M)%N; last by []. by case: ifP => // /eqP [] /ne. }
by have [-> _] := C133_same_response G Gd Gd' Ct H H' b kn.
Qed.
Print Assumptions C133_larger_models_fit_as_well.

(** Without backstresses, hardening and threshold the model is perfect viscoplasticity. *)
Theorem C133_perfect_viscoplasticity (E pn eta d : R -> R) C g nb nt (times strains temps : nat -> nat -> R) (y : nat -> VB RF nb 2) (y' : nat -> VB RF nb 1) :
  times_increase nb nt times -> (forall k b, (k < nt)%N -> (b < nb)%N -> 0 < E (temps k b) /\ 0 < pn (temps k b) /\ 0 < eta (temps k b) /\ 0 <= d (temps k b)) ->
  exact_history (B := voce_chaboche E pn eta (fun _ => 0) (fun _ => 0) d 0 C g) nt times strains temps y ->
  exact_history (B := Models.inelastic E (Flow.perfect pn eta)) nt times strains temps y' ->
  forall k b, (k < nt)%N -> y k b ord0 ord0 = y' k b ord0 ord0 /\ y k b (inord 1) ord0 = 0.
Proof.
move=> G P H H' k b kn; set B := voce_chaboche _ _ _ _ _ _ _ _ _ in H; set B' := Models.inelastic _ _ in H'.
have Gd b' : (b' < nb)%N -> good_entry E pn eta (fun _ => 0) (fun _ => 0) d 0 C g nt temps b'.
{ move=> bn; split=> j jn; last by split; [exact: Rle_refl|move=> i /ltP].
  have [a1 [a2 [a3 a4]]] := P j b' jn bn; split=> //; split=> //; split=> //; split; first exact: Rle_refl. split; first exact: Rle_refl. by split=> // i /ltP. }
pose z k : VB RF nb 2 := [ffun b => (\col_i (if nat_of_ord i == 0%N then y' k b ord0 ord0 else 0))%R].
have v' (c : 'I_nb) j : @to_vec B' (y' j c) 0%N = y' j c ord0 ord0 := @to_vecE B' (y' j c) (ord0 : 'I_1).
have z0 (c : 'I_nb) j : @to_vec B (z j c) 0%N = y' j c ord0 ord0 by have E0 := @to_vecE B (z j c) (ord0 : 'I_2); rewrite -[nat_of_ord _]/0%N in E0; rewrite E0 /z ffunE mxE.
have z1 (c : 'I_nb) j : @to_vec B (z j c) 1%N = 0 by have E0 := @to_vecE B (z j c) (Ordinal (ltnSn 1) : 'I_2); rewrite -[nat_of_ord _]/1%N in E0; rewrite E0 /z ffunE mxE.
have Hz : exact_history (B := B) nt times strains temps z.
{ move/(@history_steps B' nb nt times strains temps y' G): H' => [Z S]; apply/(@history_steps B nb nt times strains temps z G); split.
  { apply/ffunP => b'; apply/colP => i; rewrite /z Z !ffunE !mxE; by case: ifP. }
  move=> j b' i j0 jn i2; have [e0 [n0 [eta0 _]]] := P j b' jn (ltn_ord b').
  have fl : VCHistory.the_flow pn eta (fun _ => 0) 0 (temps j b') (@to_vec B (z j b') 0%N) (fun i => @to_vec B (z j b') i.+1) = Torch.pow0 (Rabs (y' j b' ord0 ord0) / eta (temps j b')) (pn (temps j b')) * Torch.tsign (y' j b' ord0 ord0).
  { rewrite /VCHistory.the_flow /VCStep.flow z0 z1 /= Rplus_0_l !Rminus_0_r; congr (Torch.pow0 _ _ * _).
    rewrite /Deriv.mac Rmax_left //; apply: Rmult_le_pos; [exact: Rabs_pos|exact: Rlt_le (Rinv_0_lt_compat _ eta0)]. }
  case: i i2 => [|[|//]] _.
  - rewrite (VCHistory.vc_row0 E pn eta (fun _ => 0) (fun _ => 0) d 0 C g) fl !z0; have := S j b' 0%N j0 jn (ltnSn 0); rewrite !v' => ->; by rewrite /= v'.
  - rewrite (VCHistory.vc_row1 E pn eta (fun _ => 0) (fun _ => 0) d 0 C g) !z1; ring. }
have -> : y k = z k by exact: (history_unique (C := C) (g := g) G Gd H Hz kn).
by rewrite /z !ffunE !mxE inordK.
Qed.
Print Assumptions C133_perfect_viscoplasticity.

(** Example: backstresses with moduli 60, 40 and 0 and recovery rates 10, 10 and 7 act as one with modulus 100 and recovery rate 10 on every strain history. *)
Definition ex_C (T : R) (i : nat) : R := match i with 0%N => 60 | 1%N => 40 | _ => 0 end.
Definition ex_g (T : R) (i : nat) : R := match i with 0%N | 1%N => 10 | _ => 7 end.
Definition ex_to (i : nat) : option nat := if (i < 2)%N then Some 0%N else None.
Example C133_ex nb nt (times strains : nat -> nat -> R) : times_increase nb nt times ->
  exists (y : nat -> VB RF nb 5) (y' : nat -> VB RF nb 3),
    exact_history (B := voce_chaboche (fun _ => 200) (fun _ => 5) (fun _ => 100) (fun _ => 10) (fun _ => 30) (fun _ => 2) 3 ex_C ex_g) nt times strains (fun _ _ => 0) y /\
    exact_history (B := voce_chaboche (fun _ => 200) (fun _ => 5) (fun _ => 100) (fun _ => 10) (fun _ => 30) (fun _ => 2) 1 (fun _ _ => 100) (fun _ _ => 10)) nt times strains (fun _ _ => 0) y' /\
    forall k b, (k < nt)%N -> y' k b ord0 ord0 = y k b ord0 ord0 /\ y' k b (inord 2) ord0 = y k b (inord 2) ord0 + y k b (inord 3) ord0 /\ y k b (inord 4) ord0 = 0.
Proof.
move=> G.
have Gd b : (b < nb)%N -> good_entry (fun _ => 200) (fun _ => 5) (fun _ => 100) (fun _ => 10) (fun _ => 30) (fun _ => 2) 3 ex_C ex_g nt (fun _ _ => 0) b.
{ move=> _; split=> k _; last by split=> *; exact: Rle_refl. split; first lra. do 5 (split; first lra).
  by case=> [|[|i]] _ /=; lra. }
have Gd' b : (b < nb)%N -> good_entry (fun _ => 200) (fun _ => 5) (fun _ => 100) (fun _ => 10) (fun _ => 30) (fun _ => 2) 1 (fun _ _ => 100) (fun _ _ => 10) nt (fun _ _ => 0) b.
{ move=> _; split=> k _; last by split=> *; exact: Rle_refl. split; first lra. do 5 (split; first lra). move=> i _; lra. }
have [y H] := history_exists strains G Gd; have [y' H'] := history_exists strains G Gd'; exists y, y'; split=> //; split=> // k b kn.
have Ct k' b' : (k' < nt)%N -> (b' < nb)%N -> contains 3 1 ex_C ex_g (fun _ _ => 100) (fun _ _ => 10) ex_to 0.
{ move=> _ _; split; [|split].
  - by case=> [|[|[|//]]] j _; rewrite /ex_to //= => -[<-].
  - by case=> [|[|[|//]]].
  - by case=> [|//] _; rewrite /ex_to /=; lra. }
have [a1 [_ a3]] := C133_same_response G Gd Gd' Ct H H' b kn; have [_ Z] := C133_gathered_history G Gd Ct H.
split=> //; split; last exact: (Z k b 2%N kn isT erefl).
rewrite (a3 0%N isT) /ex_to /=; move: (y k b (inord 2) ord0 : R) (y k b (inord 3) ord0 : R) => u v; lra.
Qed.
