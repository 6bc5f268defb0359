(** C123: the order of the tests in a batch and repeated tests do not change any test's result. *)
From Coq Require Import Reals List String Lra.
From mathcomp Require Import all_ssreflect all_algebra.
From Verif Require Import ChunkModel ChunkSolve ChunkInst NewtonModel Ode OdeForward OdeReal OdeBlock OdeSym RField Pipeline PipelineBoth PipelineSym Props_Stress.
From Verif Require Models StressSym Props_Pipeline.
Set Implicit Arguments. Unset Strict Implicit. Unset Printing Implicit Defensive.
Delimit Scope R_scope with Re.

(** Column b of the second table is column sigma b of the first. *)
Definition columns_from (nb nb' nt : nat) (sigma : 'I_nb' -> 'I_nb) (a a' : nat -> nat -> R) : Prop :=
  forall k (b : 'I_nb'), (k < nt)%N -> a' k b = a k (sigma b).
(** The second run fails with the same error, or returns in entry b the history of entry sigma b of the first, with the same warnings. *)
Definition entries_from (B : Models.rateform) (nb nb' nt : nat) (sigma : 'I_nb' -> 'I_nb)
    (x : istate RF nb (Models.rf_n B) + ode_error) (x' : istate RF nb' (Models.rf_n B) + ode_error) : Prop :=
  match x, x' with
  | inl st, inl st' => (forall k (b : 'I_nb') i, (k < nt)%N -> (i < Models.rf_n B)%N -> entry st' k b i = entry st k (sigma b) i) /\ i_warned st' = i_warned st
  | inr e, inr e' => e = e'
  | _, _ => False
  end.

Section Rearranged.
Variables (B : Models.rateform) (nb nb' nt : nat) (sigma : 'I_nb' -> 'I_nb).
Variables (times data temps times' data' temps' : nat -> nat -> R) (control control' : nat -> R).
Variables (s : scheme) (lm : lin_method) (rtol atol : R) (miter : nat) (throw : bool) (gt : string) (n : nat).
Variables (init : nat -> VB RF nb (Models.rf_n B)) (init' : nat -> VB RF nb' (Models.rf_n B)).
Hypotheses (m0 : (0 < Models.rf_n B)%N) (onto : forall b, exists b', sigma b' = b) (I : times_increase nb nt times).
Hypotheses (HT : columns_from nt sigma times times') (HD : columns_from nt sigma data data') (HP : columns_from nt sigma temps temps').
Hypothesis HC : forall b : 'I_nb', control' b = control (sigma b).

Lemma rearranged_increase : times_increase nb' nt times'.
Proof.
move=> b bn i j ij jn; have i_n : (i < nt)%N by apply/ltP; apply: PeanoNat.Nat.lt_trans ij jn. have j_n : (j < nt)%N by apply/ltP.
have Hi := HT (Ordinal bn) i_n; have Hj := HT (Ordinal bn) j_n; rewrite /= in Hi Hj; rewrite Hi Hj; exact: I.
Qed.
Lemma same_law t : StressSym.sym_at B (fun _ => 1%Re) t t.
Proof.
move=> y e T; have -> : StressSym.flip (fun _ => 1%Re) y = y by apply: FunctionalExtensionality.functional_extensionality => j; rewrite /StressSym.flip Rmult_1_l.
by rewrite Rmult_1_l; split; [|split] => // *; rewrite ?Rmult_1_l ?Rmult_1_r.
Qed.
Lemma entries x x' : @runs_correspond B nb nb' nt sigma (fun _ => 1%Re) x x' -> entries_from nt sigma x x'.
Proof. by case: x => [st|e]; case: x' => [st'|e'] //= -[H W]; split=> // k b i kn im; rewrite H // Rmult_1_l. Qed.
Lemma one1 (j : nat) : (1 * 1 = 1)%Re. Proof. by rewrite Rmult_1_l. Qed.
Lemma times_same k (b : 'I_nb') : (k.+1 < nt)%N -> (times' k.+1 b - times' k b = times k.+1 (sigma b) - times k (sigma b))%Re.
Proof. by move=> kn; rewrite !HT // ltnW. Qed.
Lemma law_same k (b : 'I_nb') : (k < nt)%N -> StressSym.sym_at B (fun _ => 1%Re) (times k (sigma b)) (times' k b).
Proof. by move=> kn; rewrite HT //; exact: same_law. Qed.
Lemma data_same k (b : 'I_nb') : (k < nt)%N -> data' k b = (1 * data k (sigma b))%Re.
Proof. by move=> kn; rewrite HD // Rmult_1_l. Qed.

(** Strain control: any batch of tests, in any order and with any repetitions. *)
Theorem C123_strain : entries_from nt sigma (solve_strain nt times data temps s lm rtol atol miter throw gt n init) (solve_strain nt times' data' temps' s lm rtol atol miter throw gt n init').
Proof. by apply: entries; exact: (sym_strain one1 onto I rearranged_increase times_same law_same data_same HP). Qed.
(** Mixed control. *)
Theorem C123_both : entries_from nt sigma (solve_both nt times data temps control s lm rtol atol miter throw gt n init) (solve_both nt times' data' temps' control' s lm rtol atol miter throw gt n init').
Proof. by apply: entries; exact: (sym_both m0 one1 onto I rearranged_increase times_same law_same data_same HP HC). Qed.
End Rearranged.
(** Stress control. *)
Theorem C123_stress (B : Models.rateform) (nb nb' nt : nat) (sigma : 'I_nb' -> 'I_nb) (times data temps times' data' temps' : nat -> nat -> R)
    s lm rtol atol miter throw gt n (init : nat -> VB RF nb (Models.rf_n B)) (init' : nat -> VB RF nb' (Models.rf_n B)) :
  (0 < Models.rf_n B)%N -> (forall b, exists b', sigma b' = b) -> times_increase nb nt times ->
  columns_from nt sigma times times' -> columns_from nt sigma data data' -> columns_from nt sigma temps temps' ->
  entries_from nt sigma (solve_stress nt times data temps s lm rtol atol miter throw gt n init) (solve_stress nt times' data' temps' s lm rtol atol miter throw gt n init').
Proof.
move=> m0 onto I HT HD HP; apply: entries.
exact: (@sym_stress B nb nb' nt sigma (fun _ => 1%Re) times data temps times' data' temps' (fun _ => 0%Re) (fun _ => 0%Re) m0 one1 onto I (rearranged_increase I HT) (times_same HT) (law_same B HT) (data_same HD) HP (fun _ => erefl) s lm rtol atol miter throw gt n init init').
Qed.
Print Assumptions C123_strain.
Print Assumptions C123_both.
Print Assumptions C123_stress.
(** Three tests (a strain-controlled one, a creep test and a faster strain-controlled one) in the order 2, 0, 1, with the creep test given twice:
    any material, scheme, tolerance and solver. *)
Definition third (b : 'I_4) : 'I_3 := nth ord0 [:: inord 2; inord 0; inord 1; inord 1] b.
Example C123_ex (B : Models.rateform) s lm rtol atol miter throw gt n (init : nat -> VB RF 3 (Models.rf_n B)) (init' : nat -> VB RF 4 (Models.rf_n B)) : (0 < Models.rf_n B)%N ->
  let times (k b : nat) := (INR k / (INR b + 1))%Re in let data (k b : nat) := (if b == 1%N then 100 else INR k / 1000)%Re in
  let control (b : nat) := (if b == 1%N then 1 else 0)%Re in
  entries_from 5 third (solve_both 5 times data (fun _ _ => 500%Re) control s lm rtol atol miter throw gt n init)
    (solve_both 5 (fun k b => times k (third (inord b))) (fun k b => data k (third (inord b))) (fun _ _ => 500%Re) (fun b => control (third (inord b))) s lm rtol atol miter throw gt n init').
Proof.
move=> m0 times data control; apply: C123_both => //.
- case=> -[|[|[|//]]] h; [exists (inord 1)|exists (inord 2)|exists (inord 0)]; apply: val_inj; by rewrite /third /= !inordK.
- move=> b _ i j ij _; rewrite /times; apply: Rmult_lt_compat_r; last exact: lt_INR.
  apply: Rinv_0_lt_compat; have := pos_INR b; lra.
- by move=> k b _; rewrite inord_val.
- by move=> k b _; rewrite inord_val.
- by move=> b; rewrite inord_val.
Qed.
Print Assumptions C123_ex.
