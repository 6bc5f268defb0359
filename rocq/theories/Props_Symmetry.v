(** C119: simulations of a hardening material respect reversal of the loading and changes of the units of stress and time. *)
From Coq Require Import Reals List String Lra Lia FunctionalExtensionality.
From mathcomp Require Import all_ssreflect all_algebra.
From Verif Require Import ChunkModel ChunkSolve ChunkInst NewtonModel Ode OdeForward OdeReal OdeBlock OdeDiff RField Pipeline PipelineBoth Tolerance.
From Verif Require Interp Models Flow Hardening Damage Deriv Slices PipelineR StressR Torch FullModel FullTol VCStep VCHistory VCExact VCClose VCSym Props_Pipeline Props_Stress Props_Models Props_Tolerance Props_FullModel Props_FullTol Props_Unique Props_Close.
Set Implicit Arguments. Unset Strict Implicit. Unset Printing Implicit Defensive.
Local Open Scope R_scope.
Import Props_Stress Props_FullModel VCExact Props_Unique Props_Close.

(** The state (stress, isotropic hardening, backstresses) in a unit of stress that makes all stresses c times larger, after reversing the loading if m = -1. *)
Definition image (m c : R) (u : nat -> R) (i : nat) : R := match i with 1%N => c * u 1%N | _ => m * c * u i end.
Lemma imageE m c u i : image m c u i = VCSym.image m c u i. Proof. by []. Qed.
(** The same material in other units: stresses c times larger, times q times larger. *)
Definition other_units (c q : R) (E pn eta s0 Rs d : R -> R) nback (C g : R -> nat -> R) : Models.rateform :=
  voce_chaboche (fun T => c * E T) pn (fun T => c * eta T * Rpower q (/ pn T)) (fun T => c * s0 T) (fun T => c * Rs T) d nback (fun T i => c * C T i) g.

Section Sym.
Variables (E pn eta s0 Rs d : R -> R) (nback : nat) (C g : R -> nat -> R) (m c q : R).
Hypotheses (Hm : m = 1 \/ m = -1) (Hc : 0 < c) (Hq : 0 < q).
Let B := voce_chaboche E pn eta s0 Rs d nback C g.
Let B' := other_units c q E pn eta s0 Rs d nback C g.
Lemma good_image nt temps b : good_entry E pn eta s0 Rs d nback C g nt temps b ->
  good_entry (fun T => c * E T) pn (fun T => c * eta T * Rpower q (/ pn T)) (fun T => c * s0 T) (fun T => c * Rs T) d nback (fun T i => c * C T i) g nt temps b.
Proof.
move=> [G1 G2]; split=> k kn; last exact: VCSym.no_softening_image (G2 k kn).
have [Ep A] := G1 k kn; split; first exact: Rmult_lt_0_compat. exact: (VCSym.admissible_image pn eta s0 Rs d nback C g c q Hc _ A).
Qed.
Lemma exact_image nb nt (times strains temps times' strains' : nat -> nat -> R) (y : nat -> VB RF nb (Models.rf_n B)) (y' : nat -> VB RF nb (Models.rf_n B')) :
  times_increase nb nt times -> (forall b, (b < nb)%N -> good_entry E pn eta s0 Rs d nback C g nt temps b) ->
  (forall k k' b, (k < nt)%N -> (k' < nt)%N -> (b < nb)%N -> times' k b - times' k' b = q * (times k b - times k' b) /\ strains' k b - strains' k' b = m * (strains k b - strains k' b)) ->
  exact_history nt times strains temps y -> exact_history nt times' strains' temps y' ->
  forall k (b : 'I_nb) i, (k < nt)%N -> (i <= nback.+1)%N -> to_vec (y' k b) i = image m c (to_vec (y k b)) i.
Proof.
move=> Gr Gd Tr Hy Hy' k b i kn ib.
have Gr' : times_increase nb nt times'.
{ move=> b' bn i' j' ij jn; have := Gr b' bn i' j' ij jn; have in' : (i' < nt)%N by apply/ltP; lia.
  have [e _] := Tr j' i' b' (introT ltP jn) in' bn => L; have : 0 < q * (times j' b' - times i' b') by apply: Rmult_lt_0_compat => //; lra.
  lra. }
have Gd' b' : (b' < nb)%N -> good_entry (fun T => c * E T) pn (fun T => c * eta T * Rpower q (/ pn T)) (fun T => c * s0 T) (fun T => c * Rs T) d nback (fun T i => c * C T i) g nt temps b'.
{ by move=> bn; apply: good_image; apply: Gd. }
pose y2 k : VB RF nb (Models.rf_n B') := [ffun b => (\col_i (image m c (@to_vec B (y k b)) (nat_of_ord i) : RF))%R].
have yE k' (b' : 'I_nb) i' : (i' < nback.+2)%N -> @to_vec B' (y2 k' b') i' = image m c (@to_vec B (y k' b')) i'.
{ move=> ib'; rewrite -[i']/(nat_of_ord (Ordinal ib' : 'I_(Models.rf_n B'))) to_vecE /y2 ffunE mxE; by []. }
have [Z H] := proj1 (history_model strains temps Gr y) Hy.
have Hy2 : exact_history nt times' strains' temps y2.
{ apply: (proj2 (history_model strains' temps Gr' y2)); split.
  - apply/ffunP => b'; apply/colP => i'; rewrite /y2 !ffunE !mxE Z /image !tvec0; case: (nat_of_ord i') => [|[|?]]; by rewrite Rmult_0_r.
  - move=> k' b' k0 k'n; have kp : (k'.-1 < nt)%N by apply: leq_ltn_trans (leq_pred k') k'n.
    have [-> ->] := Tr k' k'.-1 b' k'n kp (ltn_ord b'); have [G1 _] := Gd b' (ltn_ord b'); have [_ [A1 [A2 _]]] := G1 k' k'n.
    have := VCSym.step_image pn eta s0 Rs d nback C g m c q Hm Hc Hq _ _ _ _ _ _ _ _ A1 A2 (H k' b' k0 k'n) => Q.
    have fl : VCHistory.the_flow pn (fun T => c * eta T * Rpower q (/ pn T)) (fun T => c * s0 T) nback (temps k' b') (to_vec (y2 k' b') 0%N) (fun i => @to_vec B' (y2 k' b') i.+1) =
      VCHistory.the_flow pn (fun T => c * eta T * Rpower q (/ pn T)) (fun T => c * s0 T) nback (temps k' b') (m * c * to_vec (y k' b') 0%N) (VCSym.himage m c (fun i => @to_vec B (y k' b') i.+1)).
    { rewrite /VCHistory.the_flow !yE //; congr (VCStep.flow _ _ _ (_ - _)); apply: Deriv.sum_ext => j /ltP jb; by rewrite yE. }
    case: Q => [Q1 [Q2 Q3]]; rewrite /VCHistory.model_step fl !yE //; split; first exact: Q1. split; first exact: Q2.
    move=> j /ltP jb; rewrite !yE //; apply: Q3; exact/ltP. }
by rewrite (history_unique Gr' Gd' Hy' Hy2 kn) yE.
Qed.
End Sym.

(** C119.  Exact histories: reversed loading, other units of stress and time, another origin of time and strain. *)
Theorem C119_exact_histories E pn eta s0 Rs d nback C g nb nt (times strains temps : nat -> nat -> R) m c q t0 e0 y y' :
  let B := voce_chaboche E pn eta s0 Rs d nback C g in let B' := other_units c q E pn eta s0 Rs d nback C g in
  m = 1 \/ m = -1 -> 0 < c -> 0 < q ->
  times_increase nb nt times -> (forall b, (b < nb)%N -> good_entry E pn eta s0 Rs d nback C g nt temps b) ->
  @exact_history B nb nt times strains temps y -> @exact_history B' nb nt (fun k b => t0 + q * times k b) (fun k b => e0 + m * strains k b) temps y' ->
  forall k (b : 'I_nb) i, (k < nt)%N -> (i <= nback.+1)%N -> to_vec (y' k b) i = image m c (to_vec (y k b)) i.
Proof.
move=> B B' Hm Hc Hq Gr Gd Hy Hy'; apply: (exact_image Hm Hc Hq Gr Gd _ Hy Hy') => k k' b _ _ _; split; ring.
Qed.
Print Assumptions C119_exact_histories.

(** Simulations to tolerance.  [st] simulates the test, [st'] the reversed or rescaled test of the rescaled material, each in its own batch with its own solver. *)
Theorem C119_runs_to_tolerance E pn eta s0 Rs d nback C g nt nb nb' (times data temps times' data' temps' : nat -> nat -> R) (control control' : nat -> R) m c q t0 e0
    lm lm' rtol rtol' atol atol' miter miter' throw throw' gt gt' n n' init init' st st' (b : 'I_nb) (b' : 'I_nb') tol tol' L :
  let B := voce_chaboche E pn eta s0 Rs d nback C g in let B' := other_units c q E pn eta s0 Rs d nback C g in
  m = 1 \/ m = -1 -> 0 < c -> 0 < q ->
  times_increase nb nt times -> times_increase nb' nt times' ->
  @solve_both B nb nt times data temps control BackwardEuler lm rtol atol miter throw gt n init = inl st -> i_warned st = [::] ->
  tol_boundG (@both_G B nb nt times data temps control) BackwardEuler rtol atol gt n nt (time_table nb times) (i_result st) b tol ->
  @solve_both B' nb' nt times' data' temps' control' BackwardEuler lm' rtol' atol' miter' throw' gt' n' init' = inl st' -> i_warned st' = [::] ->
  tol_boundG (@both_G B' nb' nt times' data' temps' control') BackwardEuler rtol' atol' gt' n' nt (time_table nb' times') (i_result st') b' tol' ->
  control b = 0 -> control' b' = 0 ->
  (forall k, (k < nt)%N -> times' k b' = t0 + q * times k b /\ data' k b' = e0 + m * data k b /\ temps' k b' = temps k b) ->
  good_entry E pn eta s0 Rs d nback C g nt temps b ->
  (forall k, (k < nt)%N -> let T := temps k b in INR nt * tol <= s0 T /\ INR nt * tol' <= c * s0 T /\ 2 + (d T * Rs T + 2 * Deriv.sum nback (C T)) / E T <= L) ->
  forall k, (k < nt)%N -> difference nback (entry st' k b') (image m c (entry st k b)) <= INR (nback + 2) * (c * tol + tol') * Deriv.sum k (fun j => L ^ j.+1).
Proof.
move=> B B' Hm Hc Hq Gr Gr' S W Tb S' W' Tb' c0 c0' Same Gd HL k kn.
have G1 : times_increase 1 nt (fun k _ => times k b) by move=> [//|//] _ i j ij jn; apply: Gr => //.
have G1' : times_increase 1 nt (fun k _ => t0 + q * times k b).
{ move=> [//|//] _ i j ij jn; have := Gr b (ltn_ord b) i j ij jn => L0; have : 0 < q * (times j b - times i b) by apply: Rmult_lt_0_compat => //; lra. lra. }
have Gd' := good_image q Hc Gd.
have [y [Hy Cl]] := @C118_near_the_exact_history E pn eta s0 Rs d nback C g nt (fun k _ => times k b) (fun k _ => data k b) (fun k _ => temps k b) L G1 Gd (fun k kn => proj2 (proj2 (HL k kn))).
have HL' j : (j < nt)%N -> 2 + (d (temps j b) * (c * Rs (temps j b)) + 2 * Deriv.sum nback (fun i => c * C (temps j b) i)) / (c * E (temps j b)) <= L.
{ move=> jn; have [_ [_ Lj]] := HL j jn; apply: Rle_trans Lj; apply: Req_le; rewrite Deriv.sum_scal; have [/(_ j jn) [Ep _] _] := Gd; field; lra. }
have [y' [Hy' Cl']] := @C118_near_the_exact_history (fun T => c * E T) pn (fun T => c * eta T * Rpower q (/ pn T)) (fun T => c * s0 T) (fun T => c * Rs T) d nback (fun T i => c * C T i) g nt
  (fun k _ => t0 + q * times k b) (fun k _ => e0 + m * data k b) (fun k _ => temps k b) L G1' Gd' HL'.
have H := Cl _ _ _ _ _ _ _ _ _ _ _ _ _ _ _ _ Gr S W Tb c0 (fun k _ => conj erefl (conj erefl erefl)) (fun k kn => proj1 (HL k kn)) k kn.
have H' := Cl' _ _ _ _ _ _ _ _ _ _ _ _ _ _ _ _ Gr' S' W' Tb' c0' Same (fun k kn => proj1 (proj2 (HL k kn))) k kn.
have Gdd b0 : (b0 < 1)%N -> good_entry E pn eta s0 Rs d nback C g nt (fun k _ => temps k b) b0 by case: b0.
have X i : (i <= nback.+1)%N -> to_vec (y' k ord0) i = image m c (to_vec (y k ord0)) i by move=> ib; exact: (@C119_exact_histories E pn eta s0 Rs d nback C g 1 nt _ _ _ m c q t0 e0 y y' Hm Hc Hq G1 Gdd Hy Hy' k ord0 i kn ib).
move: X H H'; set v := @to_vec B (y k ord0); set v' := to_vec (y' k ord0); set u := entry st k b; set u' := entry st' k b'; move=> X H H'.
have ma : Rabs (m * c) = c by rewrite Rabs_mult (Rabs_pos_eq c); [case: Hm => ->; rewrite ?Rabs_R1 ?(Rabs_left (-1)); lra|lra].
have Sc i : Rabs (image m c v i - image m c u i) = c * Rabs (u i - v i).
{ case: i => [|[|i]] /=.
  - by rewrite -Rmult_minus_distr_l Rabs_mult ma Rabs_minus_sym.
  - by rewrite -Rmult_minus_distr_l Rabs_mult (Rabs_pos_eq c); [rewrite Rabs_minus_sym|lra].
  - by rewrite -Rmult_minus_distr_l Rabs_mult ma Rabs_minus_sym. }
have T i : (i <= nback.+1)%N -> Rabs (u' i - image m c u i) <= Rabs (u' i - v' i) + c * Rabs (u i - v i).
{ move=> ib; rewrite -Sc -X // (_ : u' i - image m c u i = (u' i - v' i) + (v' i - image m c u i)); [exact: Rabs_triang|ring]. }
apply: (Rle_trans _ (difference nback u' v' + c * difference nback u v)).
{ rewrite /difference; have := T 0%N isT; have := T 1%N isT.
  have : Deriv.sum nback (fun i => Rabs (u' i.+2 - image m c u i.+2)) <= Deriv.sum nback (fun i => Rabs (u' i.+2 - v' i.+2)) + c * Deriv.sum nback (fun i => Rabs (u i.+2 - v i.+2)).
  { rewrite -Deriv.sum_scal -Deriv.sum_plus; apply: VCStep.sum_mono => i /ltP ib; exact: T. }
  lra. }
have := Rmult_le_compat_l c _ _ (Rlt_le _ _ Hc) H; lra.
Qed.
Print Assumptions C119_runs_to_tolerance.

Lemma same_units E pn eta s0 Rs d nback C g : other_units 1 1 E pn eta s0 Rs d nback C g = voce_chaboche E pn eta s0 Rs d nback C g.
Proof.
have p1 x : Rpower 1 x = 1 by rewrite /Rpower ln_1 Rmult_0_r exp_0.
rewrite /other_units; congr (voce_chaboche _ _ _ _ _ _ _ _ _); apply: functional_extensionality => T; rewrite ?p1 ?Rmult_1_l ?Rmult_1_r //.
by apply: functional_extensionality => i; rewrite Rmult_1_l.
Qed.
(** The same material pushed instead of pulled: stress and backstresses change sign, the isotropic hardening does not. *)
Theorem C119_reversed_loading E pn eta s0 Rs d nback C g nt nb nb' (times data temps times' data' temps' : nat -> nat -> R) (control control' : nat -> R)
    lm lm' rtol rtol' atol atol' miter miter' throw throw' gt gt' n n' init init' st st' (b : 'I_nb) (b' : 'I_nb') tol tol' L :
  let B := voce_chaboche E pn eta s0 Rs d nback C g in
  times_increase nb nt times -> times_increase nb' nt times' ->
  @solve_both B nb nt times data temps control BackwardEuler lm rtol atol miter throw gt n init = inl st -> i_warned st = [::] ->
  tol_boundG (@both_G B nb nt times data temps control) BackwardEuler rtol atol gt n nt (time_table nb times) (i_result st) b tol ->
  @solve_both B nb' nt times' data' temps' control' BackwardEuler lm' rtol' atol' miter' throw' gt' n' init' = inl st' -> i_warned st' = [::] ->
  tol_boundG (@both_G B nb' nt times' data' temps' control') BackwardEuler rtol' atol' gt' n' nt (time_table nb' times') (i_result st') b' tol' ->
  control b = 0 -> control' b' = 0 ->
  (forall k, (k < nt)%N -> times' k b' = times k b /\ data' k b' = - data k b /\ temps' k b' = temps k b) ->
  good_entry E pn eta s0 Rs d nback C g nt temps b ->
  (forall k, (k < nt)%N -> let T := temps k b in INR nt * tol <= s0 T /\ INR nt * tol' <= s0 T /\ 2 + (d T * Rs T + 2 * Deriv.sum nback (C T)) / E T <= L) ->
  forall k, (k < nt)%N ->
    Rabs (entry st' k b' 0%N + entry st k b 0%N) + Rabs (entry st' k b' 1%N - entry st k b 1%N) + Deriv.sum nback (fun i => Rabs (entry st' k b' i.+2 + entry st k b i.+2))
      <= INR (nback + 2) * (tol + tol') * Deriv.sum k (fun j => L ^ j.+1).
Proof.
move=> B Gr Gr' S W Tb S' W' Tb' c0 c0' Same Gd HL k kn.
suff main B2 (init2 : nat -> VB RF nb' (Models.rf_n B2)) (st2 : istate RF nb' (Models.rf_n B2)) : B2 = other_units 1 1 E pn eta s0 Rs d nback C g ->
  @solve_both B2 nb' nt times' data' temps' control' BackwardEuler lm' rtol' atol' miter' throw' gt' n' init2 = inl st2 -> i_warned st2 = [::] ->
  tol_boundG (@both_G B2 nb' nt times' data' temps' control') BackwardEuler rtol' atol' gt' n' nt (time_table nb' times') (i_result st2) b' tol' ->
  Rabs (entry st2 k b' 0%N + entry st k b 0%N) + Rabs (entry st2 k b' 1%N - entry st k b 1%N) + Deriv.sum nback (fun i => Rabs (entry st2 k b' i.+2 + entry st k b i.+2))
      <= INR (nback + 2) * (tol + tol') * Deriv.sum k (fun j => L ^ j.+1).
{ exact: main (esym (same_units E pn eta s0 Rs d nback C g)) S' W' Tb'. }
move=> e; move: init2 st2; rewrite {}e => {}init' {S' W' Tb'} {}st' S' W' Tb'.
have Same' j : (j < nt)%N -> times' j b' = 0 + 1 * times j b /\ data' j b' = 0 + -1 * data j b /\ temps' j b' = temps j b by move=> jn; have [-> [-> ->]] := Same j jn; split; first ring; split=> //; ring.
have HL' j : (j < nt)%N -> let T := temps j b in INR nt * tol <= s0 T /\ INR nt * tol' <= 1 * s0 T /\ 2 + (d T * Rs T + 2 * Deriv.sum nback (C T)) / E T <= L by move=> jn; cbv zeta; rewrite Rmult_1_l; exact: HL.
have := C119_runs_to_tolerance (or_intror erefl) Rlt_0_1 Rlt_0_1 Gr Gr' S W Tb S' W' Tb' c0 c0' Same' Gd HL' kn.
rewrite Rmult_1_l /difference /image.
have P (a x : R) : a - -1 * 1 * x = a + x by ring.
rewrite !P Rmult_1_l (Deriv.sum_ext nback (fun i => Rabs (entry st' k b' i.+2 - -1 * 1 * entry st k b i.+2)) (fun i => Rabs (entry st' k b' i.+2 + entry st k b i.+2))) // => i _; by rewrite P.
Qed.
Print Assumptions C119_reversed_loading.

(** The hypotheses are met: the example model of C111 and any strain history; its reversed test in MPa instead of GPa and hours instead of seconds has an exact history too. *)
Example C119_ex nt (strains : nat -> nat -> R) : exists (y : nat -> VB RF 1 (Models.rf_n ex_model))
    (y' : nat -> VB RF 1 (Models.rf_n (other_units 1000 (/ 3600) (fun _ => 200) (fun _ => 5) (fun _ => 100) (fun _ => 10) (fun _ => 30) (fun _ => 2) 2 (fun _ _ => 100) (fun _ _ => 10)))),
  exact_history nt (fun k _ => INR k) strains (fun _ _ => 0) y /\ exact_history nt (fun k _ => 0 + / 3600 * INR k) (fun k b => 0 + -1 * strains k b) (fun _ _ => 0) y' /\
  forall k, (k < nt)%N -> to_vec (y' k ord0) 0%N = -1 * 1000 * to_vec (y k ord0) 0%N /\ to_vec (y' k ord0) 1%N = 1000 * to_vec (y k ord0) 1%N.
Proof.
have G : times_increase 1 nt (fun k _ => INR k) by move=> b' _ i j ij _; apply: lt_INR.
have c0 : 0 < 1000 by lra. have q0 : 0 < / 3600 by lra.
have G' : times_increase 1 nt (fun k _ => 0 + / 3600 * INR k) by move=> b' _ i j ij _; have := lt_INR _ _ ij; lra.
have Gd b : (b < 1)%N -> good_entry (fun _ => 200) (fun _ => 5) (fun _ => 100) (fun _ => 10) (fun _ => 30) (fun _ => 2) 2 (fun _ _ => 100) (fun _ _ => 10) nt (fun _ _ => 0) b.
{ move=> _; split=> k _; first by rewrite /VCHistory.admissible; repeat split; lra. rewrite /VCHistory.no_softening; split=> *; lra. }
have [y Hy] := history_exists strains G Gd.
have [y' Hy'] := history_exists (fun k b => 0 + -1 * strains k b) G' (fun b bn => good_image (/ 3600) c0 (Gd b bn)).
exists y, y'; split=> //; split=> // k kn.
have X i := @C119_exact_histories _ _ _ _ _ _ _ _ _ _ _ _ _ _ (-1) 1000 (/ 3600) 0 0 y y' (or_intror erefl) c0 q0 G Gd Hy Hy' k ord0 i kn.
by rewrite (X 0%N) // (X 1%N).
Qed.
