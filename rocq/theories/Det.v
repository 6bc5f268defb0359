(** DeterministicModel.forward, optimize.py 145-164: parameters, simulation of all the tests with
    their own control (solve_both) and conversion of the first state variable. *)
From Coq Require Import Reals List String ZArith Lia.
From mathcomp Require Import all_ssreflect all_algebra.
From Verif Require Import ChunkModel ChunkSolve ChunkInst NewtonModel Ode OdeForward RField OdeReal OdeBlock Pipeline PipelineBoth.
From Verif Require Models Experiments DetR.
Delimit Scope Z_scope with Z.
Set Implicit Arguments. Unset Strict Implicit. Unset Printing Implicit Defensive.

(** the keyword arguments of ModelIntegrator passed on to the integrator (models.py 274-296) *)
Record settings := Settings { o_scheme : scheme; o_lm : lin_method; o_rtol : R; o_atol : R; o_miter : nat;
  o_throw : bool; o_guess : string; o_block : nat }.

(** entry (row k, test b) of a tensor given by its columns *)
Definition tbl (cols : list (list R)) (k b : nat) : R := List.nth k (List.nth b cols nil) R0.
Definition ctl (control : list Z) (b : nat) : R := IZR (List.nth b control 2%Z).

Section Det.
Context {P : Type}.
(** the maker calls the model's constructor; None: it raises *)
Variable maker : list P -> option (Models.rateform * settings).
(** contents of the integrator's uninitialised storage and of convert_results' *)
Variable storage : forall nb m, nat -> VB RF nb m.
Variable junk : list (list R).

(** predictions[:, :, 0] by columns *)
Definition state0 (nb nt : nat) m (res : nat -> VB RF nb m) : list (list R) :=
  List.map (fun b : 'I_nb => List.map (fun k => if insub 0%N is Some o then res k b o ord0 else R0 : R) (List.seq 0 nt)) (enum 'I_nb).

(** forward: the converted predictions and the blocks for which a convergence warning was printed;
    None: an exception.  exp_data = [times, temperatures, idata]. *)
Definition det_forward (names : list string) (attrs : @DetR.store P) (times temps idata : list (list R)) (nt : nat)
    (cycles : list (list Z)) (types control : list Z) : option (list (list R) * seq (nat * nat)) :=
  match DetR.get_params names attrs with
  | None => None
  | Some ps =>
    match maker ps with
    | None => None
    | Some (B, o) =>
      let nb := List.length times in
      match @solve_both B nb nt (tbl times) (tbl idata) (tbl temps) (ctl control) (o_scheme o) (o_lm o) (o_rtol o) (o_atol o)
              (o_miter o) (o_throw o) (o_guess o) (o_block o) (@storage nb (Models.rf_n B)) with
      | inr _ => None
      | inl st =>
        match Experiments.convert_results junk (state0 nt (i_result st)) cycles types with
        | None => None
        | Some out => Some (out, i_warned st)
        end
      end
    end
  end.

Lemma state0_nth nb nt B (st : istate RF nb (Models.rf_n B)) (b : 'I_nb) k : (k < nt)%N ->
  List.nth k (List.nth b (state0 nt (i_result st)) nil) R0 = entry st k b 0%N.
Proof.
move=> kn; rewrite /state0.
set g := fun b : 'I_nb => _.
have nthm : forall (A : Type) (x0 : A) (i : nat) (s : seq A), List.nth i s x0 = seq.nth x0 s i by move=> A x0; elim=> [|i IH] [|x s] //=.
have -> : List.nth b [seq g i | i <- enum 'I_nb] nil = g b.
{ by rewrite nthm (nth_map b) ?size_enum_ord // nth_ord_enum. }
rewrite /g nthm -[List.map _ _]/([seq _ | k <- _]) (nth_map 0%N); last by rewrite -[size _]/(List.length _) List.seq_length.
by rewrite -nthm List.seq_nth //; apply/ltP.
Qed.
Lemma state0_length nb nt m (res : nat -> VB RF nb m) : List.length (state0 nt res) = nb.
Proof. by rewrite List.map_length -[List.length _]/(size _) size_enum_ord. Qed.

(** A test returned as simulated *)
Lemma forward_direct names attrs times temps idata nt cycles types control out w ps B o (b : 'I_(List.length times)) :
  det_forward names attrs times temps idata nt cycles types control = Some (out, w) ->
  DetR.get_params names attrs = Some ps -> maker ps = Some (B, o) ->
  List.length types = List.length times -> List.length junk = List.length times ->
  List.nth b types 9%Z = 0%Z \/ List.nth b types 9%Z = 6%Z ->
  exists st, @solve_both B (List.length times) nt (tbl times) (tbl idata) (tbl temps) (ctl control) (o_scheme o) (o_lm o) (o_rtol o) (o_atol o)
              (o_miter o) (o_throw o) (o_guess o) (o_block o) (@storage _ (Models.rf_n B)) = inl st /\ i_warned st = w /\
    forall k, (k < nt)%N -> tbl out k b = entry st k b 0%N.
Proof.
move=> F G M Lt Lj T; move: F; rewrite /det_forward G M.
case S : solve_both => [st|//]; case C : Experiments.convert_results => [o'|//] [<- <-].
exists st; split=> //; split=> // k kn.
have lb : (b < List.length types)%coq_nat by apply/ltP; rewrite Lt.
have := @DetR.convert_as_simulated junk _ cycles types o' b 9%Z _ _ lb C T.
rewrite state0_length Lt Lj => /(_ erefl erefl) E.
by rewrite /tbl E state0_nth.
Qed.
End Det.
