(** C124: resetting the clock changes nothing.  C125: reversing the load reverses the response, exactly. *)
From Coq Require Import Reals List String Lra.
From mathcomp Require Import all_ssreflect all_algebra.
From Verif Require Import ChunkModel ChunkSolve ChunkInst NewtonModel Ode OdeForward OdeReal OdeBlock OdeSym RField Pipeline PipelineBoth PipelineSym Props_Stress.
From Verif Require Models Hardening Flow Damage StressSym Symmetry.
Set Implicit Arguments. Unset Strict Implicit. Unset Printing Implicit Defensive.
Delimit Scope R_scope with Re.

(** Same error, or the same rows and the same warnings. *)
Definition same_outcome (B : Models.rateform) (nb nt : nat) (x x' : istate RF nb (Models.rf_n B) + ode_error) : Prop :=
  match x, x' with
  | inl st, inl st' => (forall k (b : 'I_nb) i, (k < nt)%N -> (i < Models.rf_n B)%N -> entry st' k b i = entry st k b i) /\ i_warned st' = i_warned st
  | inr e, inr e' => e = e'
  | _, _ => False
  end.
(** Same error, or rows with the marked components negated, the other ones equal, and the same warnings. *)
Definition reversed_outcome (B : Models.rateform) (rev : nat -> bool) (nb nt : nat) (x x' : istate RF nb (Models.rf_n B) + ode_error) : Prop :=
  match x, x' with
  | inl st, inl st' => (forall k (b : 'I_nb) i, (k < nt)%N -> (i < Models.rf_n B)%N -> entry st' k b i = if rev i then (- entry st k b i)%Re else entry st k b i) /\ i_warned st' = i_warned st
  | inr e, inr e' => e = e'
  | _, _ => False
  end.

Lemma id_onto nb (b : 'I_nb) : exists b', id b' = b. Proof. by exists b. Qed.
Lemma shift_increase nb nt (times times' : nat -> nat -> R) (shift : nat -> R) :
  (forall k b, (k < nt)%N -> (b < nb)%N -> times' k b = (times k b + shift b)%Re) -> times_increase nb nt times -> times_increase nb nt times'.
Proof.
move=> E I b bn i j ij jn; have i_n : (i < nt)%N by apply/ltP; apply: PeanoNat.Nat.lt_trans ij jn. have j_n : (j < nt)%N by apply/ltP.
rewrite !E //; apply: Rplus_lt_compat_r; exact: I.
Qed.

Section Clock.
Variables (B : Models.rateform) (nb nt : nat) (times data temps times' : nat -> nat -> R) (control shift : nat -> R).
Variables (s : scheme) (lm : lin_method) (rtol atol : R) (miter : nat) (throw : bool) (gt : string) (n : nat) (init init' : nat -> VB RF nb (Models.rf_n B)).
Hypotheses (m0 : (0 < Models.rf_n B)%N) (A : Symmetry.autonomous B) (I : times_increase nb nt times).
Hypothesis HT : forall k b, (k < nt)%N -> (b < nb)%N -> times' k b = (times k b + shift b)%Re.
Lemma clock_same x x' : @runs_correspond B nb nb nt id (fun _ => 1%Re) x x' -> same_outcome nt x x'.
Proof. by case: x => [st|e]; case: x' => [st'|e'] //= -[H W]; split=> // k b i kn im; rewrite H // Rmult_1_l. Qed.
Lemma one_one (j : nat) : (1 * 1 = 1)%Re. Proof. by rewrite Rmult_1_l. Qed.
Lemma clock_dt k (b : 'I_nb) : (k.+1 < nt)%N -> (times' k.+1 b - times' k b = times k.+1 (id b) - times k (id b))%Re.
Proof. move=> kn; rewrite !HT //; [rewrite /=; ring|exact: ltnW]. Qed.
Lemma clock_law k (b : 'I_nb) : (k < nt)%N -> StressSym.sym_at B (fun _ => 1%Re) (times k (id b)) (times' k b).
Proof. by move=> _; exact: Symmetry.autonomous_sym. Qed.
Lemma clock_data (v : nat -> nat -> R) k (b : 'I_nb) : (k < nt)%N -> v k b = (1 * v k (id b))%Re.
Proof. by rewrite Rmult_1_l. Qed.
(** Every material whose laws do not mention the time; every test may have its own shift. *)
Theorem C124_strain : same_outcome nt (solve_strain nt times data temps s lm rtol atol miter throw gt n init) (solve_strain nt times' data temps s lm rtol atol miter throw gt n init').
Proof. by apply: clock_same; exact: (sym_strain one_one (@id_onto nb) I (shift_increase HT I) clock_dt clock_law (clock_data data) (fun _ _ _ => erefl)). Qed.
Theorem C124_both : same_outcome nt (solve_both nt times data temps control s lm rtol atol miter throw gt n init) (solve_both nt times' data temps control s lm rtol atol miter throw gt n init').
Proof. by apply: clock_same; exact: (sym_both m0 one_one (@id_onto nb) I (shift_increase HT I) clock_dt clock_law (clock_data data) (fun _ _ _ => erefl) (fun _ => erefl)). Qed.
Lemma clock_stress (con : nat -> R) : same_outcome nt (solve_stress nt times data temps s lm rtol atol miter throw gt n init) (solve_stress nt times' data temps s lm rtol atol miter throw gt n init').
Proof.
apply: clock_same.
exact: (@sym_stress B nb nb nt id (fun _ => 1%Re) times data temps times' data temps con con m0 one_one (@id_onto nb) I (shift_increase HT I) clock_dt clock_law (clock_data data) (fun _ _ _ => erefl) (fun _ => erefl) s lm rtol atol miter throw gt n init init').
Qed.
Theorem C124_stress : same_outcome nt (solve_stress nt times data temps s lm rtol atol miter throw gt n init) (solve_stress nt times' data temps s lm rtol atol miter throw gt n init').
Proof. exact: (clock_stress (fun _ => 0%Re)). Qed.
End Clock.
(** All materials that can be built from the library's classes are of this kind. *)
Theorem C124_library B : Symmetry.any_model B -> Symmetry.autonomous B /\ (0 < Models.rf_n B)%N.
Proof. by move=> H; split; [exact: Symmetry.any_autonomous|case: H]. Qed.
Print Assumptions C124_strain.
Print Assumptions C124_both.
Print Assumptions C124_stress.
Print Assumptions C124_library.

Section Reversal.
Variables (B : Models.rateform) (rev : nat -> bool) (nb nt : nat) (times data temps data' : nat -> nat -> R) (control : nat -> R).
Variables (s : scheme) (lm : lin_method) (rtol atol : R) (miter : nat) (throw : bool) (gt : string) (n : nat) (init init' : nat -> VB RF nb (Models.rf_n B)).
Hypotheses (L : Symmetry.library_model B rev) (I : times_increase nb nt times).
Hypothesis HD : forall k b, (k < nt)%N -> (b < nb)%N -> data' k b = (- data k b)%Re.
Notation sg := (Symmetry.signs (-1)%Re rev).
Lemma library_pos : (0 < Models.rf_n B)%N. Proof. by case: L. Qed.
Lemma library_rev0 : rev 0%N. Proof. by case: L. Qed.
Lemma mone : (-1 * -1 = 1)%Re. Proof. ring. Qed.
Lemma reversed x x' : @runs_correspond B nb nb nt id sg x x' -> reversed_outcome rev nt x x'.
Proof.
case: x => [st|e]; case: x' => [st'|e'] //= -[H W]; split=> // k b i kn im; rewrite H // /Symmetry.signs.
by case: (rev i); [have Fl (u : R) : (-1 * u = - u)%Re by ring|have Fl (u : R) : (1 * u = u)%Re by ring]; exact: Fl.
Qed.
Lemma rev_law k (b : 'I_nb) : (k < nt)%N -> StressSym.sym_at B sg (times k (id b)) (times k b).
Proof. by move=> _; exact: (Symmetry.library_sym _ mone _ _ L). Qed.
Lemma rev_data k (b : 'I_nb) : (k < nt)%N -> data' k b = (sg 0%N * data k (id b))%Re.
Proof. move=> kn; rewrite HD // /Symmetry.signs library_rev0 /=; ring. Qed.
(** Strain control: the stress and the backstresses change sign, the isotropic variables and the damage do not. *)
Theorem C125_strain : reversed_outcome rev nt (solve_strain nt times data temps s lm rtol atol miter throw gt n init) (solve_strain nt times data' temps s lm rtol atol miter throw gt n init').
Proof. by apply: reversed; exact: (sym_strain (Symmetry.signs1 _ mone rev) (@id_onto nb) I I (fun _ _ _ => erefl) rev_law rev_data (fun _ _ _ => erefl)). Qed.
(** Mixed control: in stress-controlled tests the strain takes the place of the stress. *)
Theorem C125_both : reversed_outcome rev nt (solve_both nt times data temps control s lm rtol atol miter throw gt n init) (solve_both nt times data' temps control s lm rtol atol miter throw gt n init').
Proof. by apply: reversed; exact: (sym_both library_pos (Symmetry.signs1 _ mone rev) (@id_onto nb) I I (fun _ _ _ => erefl) rev_law rev_data (fun _ _ _ => erefl) (fun _ => erefl)). Qed.
Lemma rev_stress (con : nat -> R) : reversed_outcome rev nt (solve_stress nt times data temps s lm rtol atol miter throw gt n init) (solve_stress nt times data' temps s lm rtol atol miter throw gt n init').
Proof.
apply: reversed.
exact: (@sym_stress B nb nb nt id sg times data temps times data' temps con con library_pos (Symmetry.signs1 _ mone rev) (@id_onto nb) I I (fun _ _ _ => erefl) rev_law rev_data (fun _ _ _ => erefl) (fun _ => erefl) s lm rtol atol miter throw gt n init init').
Qed.
Theorem C125_stress : reversed_outcome rev nt (solve_stress nt times data temps s lm rtol atol miter throw gt n init) (solve_stress nt times data' temps s lm rtol atol miter throw gt n init').
Proof. exact: (rev_stress (fun _ => 0%Re)). Qed.
End Reversal.
Print Assumptions C125_strain.
Print Assumptions C125_both.
Print Assumptions C125_stress.

(** A damaged Voce + Chaboche material with a Kocks-Mecking switch to a rate-independent rule, two tests at different temperatures (one of them
    creep): shifted by an hour, and reversed.  Components: stress, isotropic variable, two backstresses, damage. *)
Definition ex_rule : Flow.flowrule := Flow.isokin (fun _ => 5%Re) (fun _ => 100%Re) (fun _ => 10%Re) (Hardening.voce (fun _ => 50%Re) (fun _ => 2%Re)) (Hardening.chaboche 2 (fun _ i => INR i + 1)%Re (fun _ i => 3)%Re).
Definition ex_material : Models.rateform := Models.damaged (fun T => 150000 - 50 * T)%Re
  (Flow.km_rule ex_rule (Flow.ri_rule ex_rule 1 1) 1 (Flow.TParam id (fun _ => 60000%Re)) 1 1 1 (1 / 10)%Re id) (Damage.hayhurst (fun _ => 300%Re) (fun _ => 4%Re) (fun _ => 2%Re)).
Lemma ex_in : Symmetry.library_model ex_material (fun i => match i with 0%N => true | S j => (Nat.ltb j 3) && ~~ (Nat.ltb j 1) end).
Proof.
have H : Symmetry.library_flow ex_rule (fun j => ~~ (Nat.ltb j 1)) by apply: (Symmetry.lf_isokin _ _ _ (Hardening.voce _ _) (Hardening.chaboche _ _ _)); constructor.
apply: (Symmetry.lm_damaged _ (Flow.km_rule _ _ _ _ _ _ _ _ _)); last by constructor.
apply: Symmetry.lf_km => //; exact: Symmetry.lf_ri.
Qed.
Example C124_C125_ex s lm rtol atol miter throw gt n (init init' : nat -> VB RF 2 (Models.rf_n ex_material)) :
  let t0 (k b : nat) := INR k in let t1 (k b : nat) := (INR k + 3600)%Re in
  let data (c : R) (k b : nat) := (c * (if b == 1%N then 100 else INR k / 1000))%Re in let temps (k b : nat) := (500 + 100 * INR b)%Re in
  let run t c init := solve_both 9 t (data c) temps (fun b => if b == 1%N then 1%Re else 0%Re) s lm rtol atol miter throw gt n init in
  same_outcome 9 (run t0 1%Re init) (run t1 1%Re init') /\
  reversed_outcome (fun i => match i with 0%N => true | S j => (Nat.ltb j 3) && ~~ (Nat.ltb j 1) end) 9 (run t0 1%Re init) (run t0 (-1)%Re init').
Proof.
move=> t0 t1 data temps run; have I : times_increase 2 9 t0 by move=> b _ i j ij _; exact: lt_INR.
split.
- apply: (@C124_both ex_material 2 9 _ _ _ _ _ (fun _ => 3600%Re)) => //.
- have D k b : (k < 9)%N -> (b < 2)%N -> data (-1)%Re k b = (- data 1%Re k b)%Re by move=> _ _; rewrite /data; ring.
  exact: (@C125_both ex_material _ 2 9 t0 (data 1%Re) temps (data (-1)%Re) (fun b => if b == 1%N then 1%Re else 0%Re) s lm rtol atol miter throw gt n init init' ex_in I D).
Qed.
Print Assumptions C124_C125_ex.
