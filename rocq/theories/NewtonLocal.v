(** Newton iterations on related problems stay related: if the relation is kept by an update and related points give the same answer to
    the stopping test, both iterations make the same decisions (NewtonModel.v, chunktime.py 43-61 and solvers.py 109-125). *)
From Coq Require Import Reals List Lia.
From Verif Require Import NewtonModel.

Definition out_rel {A A'} (P : A -> A' -> Prop) (o : outcome A) (o' : outcome A') : Prop :=
  match o, o' with Ok a, Ok a' => P a a' | Warned a, Warned a' => P a a' | Raised, Raised => True | _, _ => False end.
Section Test.
Variables (X RT JT X' RT' JT' : Type) (fn : X -> RT * JT) (fn' : X' -> RT' * JT') (nrm : RT -> list ext) (nrm' : RT' -> list ext) (rtol atol : R).
Variables (step : JT -> RT -> X) (step' : JT' -> RT' -> X') (sub : X -> X -> X) (sub' : X' -> X' -> X') (Q : X -> X' -> Prop).
Hypothesis same : forall x x' y y', Q x x' -> Q y y' ->
  keep_going rtol atol (nrm (fst (fn x))) (nrm (fst (fn y))) = keep_going rtol atol (nrm' (fst (fn' x'))) (nrm' (fst (fn' y'))).
Hypothesis kept : forall x x', Q x x' -> Q (sub x (step (snd (fn x)) (fst (fn x)))) (sub' x' (step' (snd (fn' x')) (fst (fn' x')))).

Lemma nr_loop_test x0 x0' : Q x0 x0' -> forall rem i ev ev' x x', Q x x' ->
  let r := nr_loop fn nrm rtol atol step sub rem i x Caller (fst (fn x)) (snd (fn x)) (nrm (fst (fn x0))) ev in
  let r' := nr_loop fn' nrm' rtol atol step' sub' rem i x' Caller (fst (fn' x')) (snd (fn' x')) (nrm' (fst (fn' x0'))) ev' in
  Q (res_x r) (res_x r') /\ res_iters r = res_iters r'.
Proof.
  intros q0. induction rem as [|rem IH]; intros i ev ev' x x' q; [now split|].
  cbn [nr_loop]. rewrite (same _ _ _ _ q q0). destruct (keep_going rtol atol _ _); [|now split].
  apply IH. now apply kept.
Qed.
Lemma nr_solve_test miter x0 x0' : Q x0 x0' ->
  let r := nr_solve fn nrm rtol atol step sub miter x0 in let r' := nr_solve fn' nrm' rtol atol step' sub' miter x0' in
  Q (res_x r) (res_x r') /\ res_iters r = res_iters r'.
Proof. intros q. unfold nr_solve. now apply nr_loop_test. Qed.
Lemma chunk_test miter throw x0 x0' : Q x0 x0' ->
  out_rel (fun r r' => Q (res_x r) (res_x r')) (newton_raphson_chunk fn nrm rtol atol step sub miter throw x0) (newton_raphson_chunk fn' nrm' rtol atol step' sub' miter throw x0').
Proof.
  intros q. unfold newton_raphson_chunk. destruct (nr_solve_test miter _ _ q) as [H1 H2]. cbv zeta. rewrite H2.
  destruct (_ =? _)%nat; [destruct throw|]; simpl; auto.
Qed.
End Test.

Section Rel.
Variables (X RT JT : Type) (fn fn' : X -> RT * JT) (nrm nrm' : RT -> list ext) (rtol atol : R).
Variables (step step' : JT -> RT -> X) (sub sub' : X -> X -> X) (Q : X -> X -> Prop).
Hypothesis same : forall x x', Q x x' -> nrm (fst (fn x)) = nrm' (fst (fn' x')).
Hypothesis kept : forall x x', Q x x' -> Q (sub x (step (snd (fn x)) (fst (fn x)))) (sub' x' (step' (snd (fn' x')) (fst (fn' x')))).
Lemma nr_solve_rel miter x0 x0' : Q x0 x0' ->
  let r := nr_solve fn nrm rtol atol step sub miter x0 in let r' := nr_solve fn' nrm' rtol atol step' sub' miter x0' in
  Q (res_x r) (res_x r') /\ res_iters r = res_iters r'.
Proof. apply nr_solve_test; [|exact kept]. intros x x' y y' qx qy. now rewrite (same _ _ qx), (same _ _ qy). Qed.
Lemma chunk_rel miter throw x0 x0' : Q x0 x0' ->
  out_rel (fun r r' => Q (res_x r) (res_x r')) (newton_raphson_chunk fn nrm rtol atol step sub miter throw x0) (newton_raphson_chunk fn' nrm' rtol atol step' sub' miter throw x0').
Proof. apply chunk_test; [|exact kept]. intros x x' y y' qx qy. now rewrite (same _ _ qx), (same _ _ qy). Qed.
End Rel.
