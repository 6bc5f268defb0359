From Coq Require Import List Reals Lra Lia Bool String Arith.
Import ListNotations.
From Verif Require Import NewtonModel.
Local Open Scope R_scope.

(** ** Specification vocabulary *)

(** "every norm is at most a" *)
Definition all_le (l : list ext) (a : R) : Prop :=
  Forall (fun e => exists r, e = Num r /\ r <= a) l.

(** "every norm is at most c times the corresponding starting norm" *)
Definition all_le_rel (l l0 : list ext) (c : R) : Prop :=
  Forall2 (fun e e0 => exists r r0, e = Num r /\ e0 = Num r0 /\ r <= c * r0) l l0.

Definition no_nan (l : list ext) : Prop := Forall (fun e => e <> NaN) l.
Definition finite_nonneg (l : list ext) : Prop := Forall (fun e => exists r, e = Num r /\ 0 <= r) l.

(** The tolerances are met. *)
Definition converged (rtol atol : R) (nR nR0 : list ext) : Prop :=
  all_le nR atol \/ all_le_rel nR nR0 rtol.

Lemma Rltb_true x y : Rltb x y = true <-> x < y.
Proof. unfold Rltb. destruct (Rlt_dec x y); split; auto; discriminate || contradiction. Qed.
Lemma Rltb_false x y : Rltb x y = false <-> y <= x.
Proof.
  unfold Rltb. destruct (Rlt_dec x y); split; intros; auto; try discriminate; lra.
Qed.

Lemma any_gt_false l a : no_nan l -> any_gt l a = false -> all_le l a.
Proof.
  intros Hn H. unfold all_le. induction l as [|e l IH]; [constructor|].
  inversion Hn as [|? ? Hne Hn']; subst. simpl in H. apply orb_false_iff in H as [Ha Hb].
  constructor; [|now apply IH]. destruct e as [r| |]; simpl in Ha; try discriminate.
  - exists r. split; auto. now apply Rltb_false.
  - contradiction.
Qed.

Lemma any_ratio_false l l0 c : List.length l = List.length l0 -> no_nan l -> finite_nonneg l0 ->
  any_ratio_gt l l0 c = false -> all_le_rel l l0 c.
Proof.
  unfold any_ratio_gt, all_le_rel. revert l0.
  induction l as [|e l IH]; intros [|e0 l0] Hl Hn Hf H; simpl in Hl; try discriminate; constructor.
  - inversion Hn; subst. inversion Hf as [|? ? (r0 & -> & Hr0) ?]; subst.
    simpl in H. apply orb_false_iff in H as [H1 _].
    destruct e as [r| |]; simpl in H1; try discriminate; [|contradiction].
    exists r, r0. repeat split; auto.
    destruct (Req_EM_T r0 0) as [->|Hne].
    + destruct (Req_EM_T r 0) as [->|]; [lra|discriminate].
    + simpl in H1. apply Rltb_false in H1.
      assert (Hd : r / r0 * r0 <= c * r0) by (apply Rmult_le_compat_r; lra).
      replace (r / r0 * r0) with r in Hd by (now field). exact Hd.
  - inversion Hn; inversion Hf; subst. simpl in H. apply orb_false_iff in H as [_ Hb].
    apply IH; auto.
Qed.

Lemma keep_going_false rtol atol l l0 : List.length l = List.length l0 ->
  no_nan l -> finite_nonneg l0 -> keep_going rtol atol l l0 = false -> converged rtol atol l l0.
Proof.
  intros Hl Hn Hf H. unfold keep_going in H. apply andb_false_iff in H as [H|H].
  - left. now apply any_gt_false.
  - right. now apply any_ratio_false.
Qed.

Lemma any_gt_all_le l a : all_le l a -> any_gt l a = false.
Proof.
  unfold any_gt. induction 1 as [|e l (r & -> & Hr) _ IH]; simpl; [reflexivity|].
  rewrite IH, orb_false_r. now apply Rltb_false.
Qed.

Lemma any_ratio_all l l0 c : all_le_rel l l0 c -> finite_nonneg l -> finite_nonneg l0 ->
  any_ratio_gt l l0 c = false.
Proof.
  unfold any_ratio_gt. intros H. induction H as [|e e0 l l0 (r & r0 & -> & -> & Hr) _ IH];
    intros Hf Hf0; simpl; [reflexivity|].
  inversion Hf as [|? ? (q & Eq & Hq) Hf']; subst. injection Eq as <-.
  inversion Hf0 as [|? ? (q0 & Eq0 & Hq0) Hf0']; subst. injection Eq0 as <-.
  rewrite IH, orb_false_r by assumption.
  destruct (Req_EM_T r0 0) as [->|Hne].
  - destruct (Req_EM_T r 0); [reflexivity|]. exfalso. lra.
  - simpl. apply Rltb_false. apply Rmult_le_reg_r with r0; [lra|].
    replace (r / r0 * r0) with r by (now field). exact Hr.
Qed.

Lemma converged_keep rtol atol l l0 : finite_nonneg l -> finite_nonneg l0 ->
  converged rtol atol l l0 -> keep_going rtol atol l l0 = false.
Proof.
  intros Hf Hf0 [H|H]; unfold keep_going.
  - now rewrite any_gt_all_le.
  - rewrite any_ratio_all by assumption. apply andb_false_r.
Qed.

Section Newton.
Context {X RT JT : Type}.
Variables (fn : X -> RT * JT) (nrm : RT -> list ext) (rtol atol : R).
Variables (step : JT -> RT -> X) (sub : X -> X -> X).

(** One Newton update, and the norms at a point. *)
Definition update (x : X) : X := sub x (step (snd (fn x)) (fst (fn x))).
Definition norms (x : X) : list ext := nrm (fst (fn x)).
Definition point (x0 : X) (k : nat) : X := Nat.iter k update x0.

Lemma nr_loop_spec x0 : forall rem i evals,
  evals = map (point x0) (seq 0 (S i)) ->
  let r := nr_loop fn nrm rtol atol step sub rem i (point x0 i) Caller
             (fst (fn (point x0 i))) (snd (fn (point x0 i))) (norms x0) evals in
  (i <= res_iters r <= i + rem)%nat /\
  res_x r = point x0 (res_iters r) /\
  res_caller r = point x0 (res_iters r) /\
  res_J r = snd (fn (res_x r)) /\
  res_evals r = map (point x0) (seq 0 (S (res_iters r))) /\
  (forall k, (i <= k < res_iters r)%nat ->
      keep_going rtol atol (norms (point x0 k)) (norms x0) = true) /\
  ((res_iters r < i + rem)%nat -> keep_going rtol atol (norms (res_x r)) (norms x0) = false).
Proof.
  induction rem as [|rem IH]; intros i evals Hev; cbn [nr_loop].
  - cbn. repeat split; auto; try lia.
  - destruct (keep_going rtol atol (nrm (fst (fn (point x0 i)))) (norms x0)) eqn:Hk.
    + cbn [deref].
      assert (Hn : sub (point x0 i) (step (snd (fn (point x0 i))) (fst (fn (point x0 i))))
                   = point x0 (S i)) by reflexivity.
      rewrite Hn.
      specialize (IH (S i) (evals ++ [point x0 (S i)])).
      cbv zeta in IH |- *.
      destruct IH as (H1 & H2 & H3 & H4 & H5 & H6 & H7).
      { rewrite Hev, (seq_S (S i)), map_app. reflexivity. }
      repeat split; auto; try lia.
      * intros k Hk'. destruct (Nat.eq_dec k i) as [->|]; [exact Hk|]. apply H6. lia.
      * intros Hlt. apply H7. lia.
    + cbn. repeat split; auto; lia.
Qed.

Lemma nr_solve_spec miter x0 :
  let r := nr_solve fn nrm rtol atol step sub miter x0 in
  (res_iters r <= miter)%nat /\
  res_x r = point x0 (res_iters r) /\
  res_caller r = point x0 (res_iters r) /\
  res_J r = snd (fn (res_x r)) /\
  res_evals r = map (point x0) (seq 0 (S (res_iters r))) /\
  (forall k, (k < res_iters r)%nat ->
      keep_going rtol atol (norms (point x0 k)) (norms x0) = true) /\
  ((res_iters r < miter)%nat -> keep_going rtol atol (norms (res_x r)) (norms x0) = false).
Proof.
  pose proof (nr_loop_spec x0 miter 0 [x0] eq_refl) as H.
  unfold nr_solve. cbv zeta in H |- *. cbn [point Nat.iter] in H. unfold norms in *.
  change (point x0 0) with x0 in H.
  destruct H as (H1 & H2 & H3 & H4 & H5 & H6 & H7).
  repeat split; auto; try lia. intros k Hk. apply H6. lia.
Qed.

(** C10 *)
Lemma chunk_spec miter throw x0 :
  match newton_raphson_chunk fn nrm rtol atol step sub miter throw x0 with
  | Ok r | Warned r =>
      (res_iters r <= miter)%nat /\
      List.length (res_evals r) = S (res_iters r) /\
      res_evals r = map (point x0) (seq 0 (S (res_iters r))) /\
      res_x r = point x0 (res_iters r) /\ res_J r = snd (fn (res_x r))
  | Raised => throw = true
  end.
Proof.
  unfold newton_raphson_chunk.
  pose proof (nr_solve_spec miter x0) as H. cbv zeta in H.
  set (r := nr_solve _ _ _ _ _ _ _ _) in *. destruct H as (H1 & H2 & H3 & H4 & H5 & H6 & H7).
  assert (HL : List.length (res_evals r) = S (res_iters r))
    by (rewrite H5, map_length, seq_length; reflexivity).
  destruct (res_iters r =? miter)%nat; [destruct throw|]; auto 10.
Qed.

Lemma chunk_truthful miter throw x0 r :
  newton_raphson_chunk fn nrm rtol atol step sub miter throw x0 = Ok r ->
  List.length (norms (res_x r)) = List.length (norms x0) ->
  no_nan (norms (res_x r)) -> finite_nonneg (norms x0) ->
  converged rtol atol (norms (res_x r)) (norms x0).
Proof.
  unfold newton_raphson_chunk. pose proof (nr_solve_spec miter x0) as H. cbv zeta in H.
  set (r' := nr_solve _ _ _ _ _ _ _ _) in *. destruct H as (H1 & H2 & H3 & H4 & H5 & H6 & H7).
  destruct (Nat.eqb_spec (res_iters r') miter) as [|Hne]; [destruct throw; discriminate|].
  intros E Hl Hn Hf. injection E as <-. apply keep_going_false; auto. apply H7. lia.
Qed.

Lemma chunk_start_converged miter throw x0 : (0 < miter)%nat ->
  finite_nonneg (norms x0) -> converged rtol atol (norms x0) (norms x0) ->
  exists r, newton_raphson_chunk fn nrm rtol atol step sub miter throw x0 = Ok r /\
    res_x r = x0 /\ res_iters r = 0%nat /\ res_evals r = [x0] /\ res_caller r = x0.
Proof.
  intros Hm Hf Hc. unfold newton_raphson_chunk, nr_solve.
  destruct miter as [|m]; [lia|]. cbn [nr_loop].
  fold (norms x0). rewrite converged_keep by assumption. cbn.
  eexists. split; [reflexivity|]. cbn. auto.
Qed.

(** C12: the exact rule for raising, and equality of the values otherwise. *)
Lemma chunk_raise_rule miter x0 :
  (newton_raphson_chunk fn nrm rtol atol step sub miter true x0 = Raised <->
   forall k, (k < miter)%nat -> keep_going rtol atol (norms (point x0 k)) (norms x0) = true).
Proof.
  unfold newton_raphson_chunk. pose proof (nr_solve_spec miter x0) as H. cbv zeta in H.
  set (r := nr_solve _ _ _ _ _ _ _ _) in *. destruct H as (H1 & H2 & H3 & H4 & H5 & H6 & H7).
  destruct (Nat.eqb_spec (res_iters r) miter) as [He|Hne]; split; intros H; auto.
  - intros k Hk. apply H6. lia.
  - discriminate.
  - exfalso. rewrite H2 in H7. rewrite H in H7 by lia. assert (true = false) by (apply H7; lia).
    discriminate.
Qed.

Lemma chunk_nothrow_value miter x0 :
  newton_raphson_chunk fn nrm rtol atol step sub miter false x0 <> Raised /\
  (newton_raphson_chunk fn nrm rtol atol step sub miter true x0 = Raised <->
   newton_raphson_chunk fn nrm rtol atol step sub miter false x0
     = Warned (nr_solve fn nrm rtol atol step sub miter x0)) /\
  (forall r, newton_raphson_chunk fn nrm rtol atol step sub miter true x0 = Ok r <->
             newton_raphson_chunk fn nrm rtol atol step sub miter false x0 = Ok r).
Proof.
  unfold newton_raphson_chunk. destruct (_ =? _)%nat; repeat split; intros; try discriminate; auto.
Qed.

(** If the tolerances are never met (at none of the first miter points), it raises. *)
Lemma chunk_raises_when_unmet miter x0 :
  (forall k, (k < miter)%nat -> List.length (norms (point x0 k)) = List.length (norms x0)) ->
  (forall k, (k < miter)%nat -> no_nan (norms (point x0 k))) -> finite_nonneg (norms x0) ->
  (forall k, (k < miter)%nat -> ~ converged rtol atol (norms (point x0 k)) (norms x0)) ->
  newton_raphson_chunk fn nrm rtol atol step sub miter true x0 = Raised.
Proof.
  intros Hl Hn Hf Hc. apply chunk_raise_rule. intros k Hk.
  destruct (keep_going _ _ _ _) eqn:E; [reflexivity|]. exfalso. apply (Hc k Hk).
  apply keep_going_false; auto.
Qed.

(** In-place update: the caller's x0 ends up holding the returned point. *)
Lemma caller_overwritten miter x0 :
  res_caller (nr_solve fn nrm rtol atol step sub miter x0)
  = res_x (nr_solve fn nrm rtol atol step sub miter x0).
Proof.
  pose proof (nr_solve_spec miter x0) as H. cbv zeta in H.
  destruct H as (_ & -> & -> & _). reflexivity.
Qed.

(** C16: an exact linear solve of an affine residual. *)
Lemma affine_one_step (zero : RT) miter x0 :
  (forall x, fst (fn (update x)) = zero) ->
  Forall (fun e => e = Num 0) (nrm zero) -> 0 <= atol ->
  let r := nr_solve fn nrm rtol atol step sub miter x0 in
  (res_iters r <= 1)%nat /\
  ((0 < miter)%nat -> keep_going rtol atol (norms x0) (norms x0) = true ->
      res_iters r = 1%nat /\ fst (fn (res_x r)) = zero).
Proof.
  intros Hz Hn Ha. cbv zeta. pose proof (nr_solve_spec miter x0) as H. cbv zeta in H.
  set (r := nr_solve _ _ _ _ _ _ _ _) in *. destruct H as (H1 & H2 & H3 & H4 & H5 & H6 & H7).
  assert (Hstop : keep_going rtol atol (norms (point x0 1)) (norms x0) = false).
  { unfold keep_going. rewrite any_gt_all_le; [reflexivity|].
    unfold norms. simpl point. change (point x0 1) with (update x0). rewrite Hz.
    unfold all_le. eapply Forall_impl; [|exact Hn]. intros e ->. exists 0. split; auto. }
  assert (Hle : (res_iters r <= 1)%nat).
  { destruct (Nat.le_gt_cases (res_iters r) 1) as [|Hgt]; auto. exfalso.
    specialize (H6 1%nat ltac:(lia)). congruence. }
  split; [exact Hle|]. intros Hm Hk.
  destruct (res_iters r) as [|[|n]] eqn:E; [exfalso| |lia].
  - rewrite H2 in H7. change (point x0 0) with x0 in H7. rewrite H7 in Hk by lia. discriminate.
  - split; auto. rewrite H2. apply Hz.
Qed.

End Newton.

(** ** newton_raphson *)
Lemma newton_raphson_spec {X RT JT} (fn : X -> RT * JT) nrm solvers sub rtol atol miter
    linsolver size x0 :
  match newton_raphson fn nrm solvers sub rtol atol miter linsolver size x0 with
  | Raised => size <> 1%nat /\ linsolver <> "lu"%string /\ linsolver <> "diag"%string
  | Warned r =>
      (exists k, choose_solver size linsolver = Some k /\
         res_x r = point fn (solvers k) sub x0 miter) /\
      res_J r = snd (fn (res_x r)) /\ res_iters r = miter /\
      List.length (res_evals r) = S miter
  | Ok r =>
      (exists k, choose_solver size linsolver = Some k /\
         res_x r = point fn (solvers k) sub x0 (res_iters r)) /\
      res_J r = snd (fn (res_x r)) /\ (res_iters r < miter)%nat /\
      List.length (res_evals r) = S (res_iters r) /\
      (List.length (norms fn nrm (res_x r)) = List.length (norms fn nrm x0) ->
       no_nan (norms fn nrm (res_x r)) -> finite_nonneg (norms fn nrm x0) ->
       converged rtol atol (norms fn nrm (res_x r)) (norms fn nrm x0))
  end.
Proof.
  unfold newton_raphson. destruct (choose_solver size linsolver) as [k|] eqn:Ec.
  - unfold newton_raphson_core.
    pose proof (nr_solve_spec fn nrm rtol atol (solvers k) sub miter x0) as H. cbv zeta in H.
    set (r := nr_solve _ _ _ _ _ _ _ _) in *. destruct H as (H1 & H2 & H3 & H4 & H5 & H6 & H7).
    assert (HL : List.length (res_evals r) = S (res_iters r))
      by (rewrite H5, map_length, seq_length; reflexivity).
    destruct (Nat.eqb_spec (res_iters r) miter) as [He|Hne].
    + rewrite He in *. repeat split; auto. exists k. auto.
    + repeat split; eauto; try lia.
      intros Hl Hn Hf. apply keep_going_false; auto. apply H7. lia.
  - unfold choose_solver in Ec.
    destruct (Nat.eqb_spec size 1); [discriminate|].
    destruct (String.eqb_spec linsolver "lu"); [discriminate|].
    destruct (String.eqb_spec linsolver "diag"); [discriminate|]. auto.
Qed.

Lemma choose_solver_spec size name :
  choose_solver size name =
  if (size =? 1)%nat then Some DiagSolve else
  if string_dec name "lu" then Some LuSolve else
  if string_dec name "diag" then Some DiagSolve else None.
Proof.
  unfold choose_solver. destruct (size =? 1)%nat; auto.
  destruct (String.eqb_spec name "lu"), (string_dec name "lu"); try congruence.
  destruct (String.eqb_spec name "diag"), (string_dec name "diag"); congruence.
Qed.

(** ** Backtracking *)
Section BT.
Context {X RT JT : Type}.
Variables (fn : X -> RT * JT) (nrm : RT -> list ext) (rtol atol : R).
Variables (solver : JT -> RT -> X) (axpy : X -> list R -> X -> X).

Notation norms := (norms fn nrm).

(** alpha entries are powers of one half *)
Definition halvings (m : nat) (a : R) : Prop := exists j, (j <= m)%nat /\ a = (/ 2) ^ j.

Lemma halvings_half m a : halvings m a -> halvings (S m) (a / 2).
Proof. intros (j & Hj & ->). exists (S j). split; [lia|]. simpl. lra. Qed.
Lemma halvings_weaken m m' a : (m <= m')%nat -> halvings m a -> halvings m' a.
Proof. intros H (j & Hj & ->). exists j. split; [lia|reflexivity]. Qed.

Lemma line_search_spec max_bt x dx nR_prev : forall fuel k alpha evals,
  (k + fuel = max_bt + 2)%nat -> (0 < fuel)%nat -> Forall (halvings k) alpha ->
  exists xp kk al ev, 
    line_search fn nrm atol axpy fuel max_bt k x dx nR_prev alpha evals
      = Some (xp, fn xp, kk, al, ev) /\
    (k <= kk <= max_bt + 1)%nat /\
    xp = axpy x al dx /\
    Forall (halvings kk) al /\
    (all_gt nR_prev (norms xp) = true \/ kk = (max_bt + 1)%nat) /\
    List.length ev = (List.length evals + (kk - k) + 1)%nat /\
    (exists pre, ev = pre ++ [xp]).
Proof.
  induction fuel as [|fuel IH]; intros k alpha evals Hk Hf Ha; [lia|].
  cbn [line_search].
  destruct (all_gt nR_prev (nrm (fst (fn (axpy x alpha dx))))) eqn:Hg; cbn [orb].
  - exists (axpy x alpha dx), k, alpha, (evals ++ [axpy x alpha dx]).
    rewrite app_length. simpl. repeat split; eauto; try lia.
  - destruct (Nat.ltb_spec max_bt k) as [Hlt|Hge].
    + exists (axpy x alpha dx), k, alpha, (evals ++ [axpy x alpha dx]).
      rewrite app_length. simpl. repeat split; eauto; lia.
    + set (alpha' := map _ _).
      destruct (IH (S k) alpha' (evals ++ [axpy x alpha dx])) as (xp & kk & al & ev & E & H1 & H2 & H3 & H4 & H5 & H6).
      * lia.
      * lia.
      * unfold alpha'. apply Forall_forall. intros a Hin. apply in_map_iff in Hin as ((a0 & e) & <- & Hin).
        apply in_combine_l in Hin. rewrite Forall_forall in Ha. specialize (Ha _ Hin). simpl.
        destruct (esub_gtb _ _ _); [now apply halvings_half|].
        apply halvings_weaken with k; auto.
      * exists xp, kk, al, ev. rewrite E. rewrite app_length in H5. simpl in H5.
        repeat split; auto; lia.
Qed.

(** What every accepted update satisfies. *)
Definition bt_step_ok (max_bt : nat) (s : bt_step) : Prop :=
  (all_gt (bt_prev s) (bt_new s) = true \/ bt_k s = (max_bt + 1)%nat) /\
  (bt_k s <= max_bt + 1)%nat /\ Forall (halvings (max_bt + 1)) (bt_alpha s).

Lemma bt_loop_spec max_bt x0 : forall rem i caller x evals steps,
  let cur := deref caller x in
  Forall (bt_step_ok max_bt) steps -> List.length steps = i ->
  (S i <= List.length evals <= 1 + i * (max_bt + 2))%nat ->
  (exists pre, evals = pre ++ [cur]) ->
  exists r st,
    bt_loop fn nrm rtol atol solver axpy rem i max_bt caller x (fst (fn cur)) (snd (fn cur))
      (norms x0) evals steps = Some (r, st) /\
    (i <= res_iters r <= i + rem)%nat /\
    res_J r = snd (fn (res_x r)) /\
    res_caller r = caller /\
    Forall (bt_step_ok max_bt) st /\ List.length st = res_iters r /\
    (List.length (res_evals r) <= 1 + res_iters r * (max_bt + 2))%nat /\
    (exists pre, res_evals r = pre ++ [res_x r]) /\
    ((res_iters r < i + rem)%nat -> keep_going rtol atol (norms (res_x r)) (norms x0) = false).
Proof.
  induction rem as [|rem IH]; intros i caller x evals steps cur Hs Hl He Hp; cbn [bt_loop].
  - do 2 eexists. split; [reflexivity|]. cbn. repeat split; auto; lia.
  - destruct (keep_going rtol atol (nrm (fst (fn cur))) (norms x0)) eqn:Hk.
    + destruct (line_search_spec max_bt (deref caller x) (solver (snd (fn cur)) (fst (fn cur)))
         (nrm (fst (fn cur))) (max_bt + 2) 0
         (map (fun _ => 1) (nrm (fst (fn cur)))) evals)
        as (xp & kk & al & ev & E & H1 & H2 & H3 & H4 & H5 & H6); try lia.
      { apply Forall_forall. intros a Hin. apply in_map_iff in Hin as (? & <- & _).
        exists 0%nat. split; [lia|reflexivity]. }
      rewrite E.
      set (s := {| bt_prev := _; bt_new := _; bt_k := kk; bt_alpha := al |}).
      assert (Hok : bt_step_ok max_bt s).
      { split; [exact H4|]. split; [simpl; lia|]. simpl.
        eapply Forall_impl; [|exact H3]. intros a. apply halvings_weaken. lia. }
      destruct (IH (S i) caller (Fresh xp) ev (steps ++ [s])) as (r & st & E' & G).
      * apply Forall_app. split; auto.
      * rewrite app_length. simpl. lia.
      * nia.
      * exact H6.
      * cbn [deref] in E'. rewrite E'. exists r, st. split; [reflexivity|].
        destruct G as (G1 & G2 & G3 & G4 & G5 & G6 & G7 & G8).
        repeat split; auto; try lia. intros Hlt. apply G8. lia.
    + do 2 eexists. split; [reflexivity|]. cbn. repeat split; auto; lia.
Qed.

(** What one accepted update does, stated without the loop. [ls_alpha x dx k] is the scale per
    batch entry after k rejected trials: an entry is halved after a rejected trial
    exactly when its own norm grew by more than atol. *)
Section LineSearchSpec.
Variables (x dx : X).
Definition halve_failing (alpha : list R) : list R :=
  map (fun p : R * (ext * ext) => if esub_gtb (fst (snd p)) (snd (snd p)) atol then fst p / 2 else fst p)
      (combine alpha (combine (norms (axpy x alpha dx)) (norms x))).
Fixpoint ls_alpha (k : nat) : list R :=
  match k with O => map (fun _ => 1) (norms x) | S k' => halve_failing (ls_alpha k') end.
Definition ls_trial (k : nat) : X := axpy x (ls_alpha k) dx.
End LineSearchSpec.

(** y is reached from x by the accepted step s: Newton direction at x, scale and trial number
    of s; every earlier trial failed to reduce all norms. *)
Definition bt_accept (x : X) (s : bt_step) (y : X) : Prop :=
  let dx := solver (snd (fn x)) (fst (fn x)) in
  bt_prev s = norms x /\ bt_new s = norms y /\
  bt_alpha s = ls_alpha x dx (bt_k s) /\ y = ls_trial x dx (bt_k s) /\
  forall j, (j < bt_k s)%nat -> all_gt (norms x) (norms (ls_trial x dx j)) = false.
Inductive bt_path : X -> list bt_step -> X -> Prop :=
| bt_nil x : bt_path x [] x
| bt_snoc x l y s z : bt_path x l y -> bt_accept y s z -> bt_path x (l ++ [s]) z.

Lemma line_search_trials max_bt x dx : forall fuel k evals r,
  (forall j, (j < k)%nat -> all_gt (norms x) (norms (ls_trial x dx j)) = false) ->
  line_search fn nrm atol axpy fuel max_bt k x dx (norms x) (ls_alpha x dx k) evals = Some r ->
  let '(xp, RJ, kk, al, _) := r in
  RJ = fn xp /\ al = ls_alpha x dx kk /\ xp = ls_trial x dx kk /\
  forall j, (j < kk)%nat -> all_gt (norms x) (norms (ls_trial x dx j)) = false.
Proof.
  induction fuel as [|fuel IH]; intros k evals r Hj E; [discriminate|].
  cbn [line_search] in E. fold (ls_trial x dx k) in E.
  destruct (all_gt (norms x) (nrm (fst (fn (ls_trial x dx k))))) eqn:Hg; cbn [orb] in E.
  - injection E as <-. auto.
  - destruct (max_bt <? k)%nat.
    + injection E as <-. auto.
    + refine (IH (S k) _ r _ E). intros j Hk. destruct (Nat.eq_dec j k) as [->|]; [exact Hg|].
      apply Hj. lia.
Qed.

Lemma bt_loop_path max_bt x0 : forall rem i caller x evals steps r st,
  let cur := deref caller x in
  bt_path x0 steps cur ->
  bt_loop fn nrm rtol atol solver axpy rem i max_bt caller x (fst (fn cur)) (snd (fn cur))
      (norms x0) evals steps = Some (r, st) ->
  bt_path x0 st (res_x r).
Proof.
  induction rem as [|rem IH]; intros i caller x evals steps r st cur Hp E; cbn [bt_loop] in E.
  - injection E as <- <-. exact Hp.
  - destruct (keep_going rtol atol (nrm (fst (fn cur))) (norms x0)) eqn:Hk.
    + destruct (line_search _ _ _ _ _ _ _ _ _ _ _ _) as [[[[[xp RJ] kk] al] ev]|] eqn:El; [|discriminate].
      apply (line_search_trials max_bt cur) in El; [|intros; lia].
      destruct El as (-> & Ha & Hx & Hj).
      eapply IH; [|exact E]. econstructor; [exact Hp|]. red. cbn. auto.
    + injection E as <- <-. exact Hp.
Qed.

Lemma bt_core_path miter max_bt x0 o st :
  newton_raphson_bt_core fn nrm rtol atol solver axpy miter max_bt x0 = Some (o, st) ->
  match o with Raised => False | Ok r | Warned r => bt_path x0 st (res_x r) end.
Proof.
  unfold newton_raphson_bt_core. fold (norms x0).
  destruct (bt_loop _ _ _ _ _ _ _ _ _ _ _ _ _ _ _ _) as [[r st']|] eqn:E; [|discriminate].
  apply (bt_loop_path max_bt x0) in E; [|constructor].
  intros H. injection H as <- <-. destruct (_ =? _)%nat; exact E.
Qed.

Lemma bt_spec miter max_bt x0 :
  exists o st, newton_raphson_bt_core fn nrm rtol atol solver axpy miter max_bt x0 = Some (o, st) /\
  Forall (bt_step_ok max_bt) st /\
  match o with
  | Raised => False
  | Ok r | Warned r =>
      (o = Warned r <-> res_iters r = miter) /\
      res_caller r = x0 /\ res_J r = snd (fn (res_x r)) /\
      (res_iters r <= miter)%nat /\ List.length st = res_iters r /\
      (List.length (res_evals r) <= 1 + miter * (max_bt + 2))%nat /\
      (o = Ok r -> List.length (norms (res_x r)) = List.length (norms x0) ->
        no_nan (norms (res_x r)) -> finite_nonneg (norms x0) ->
        converged rtol atol (norms (res_x r)) (norms x0))
  end.
Proof.
  destruct (bt_loop_spec max_bt x0 miter 0 x0 Caller [x0] []) as (r & st & E & G); try (simpl; lia).
  - constructor.
  - exists []. reflexivity.
  - cbn [deref] in E. unfold newton_raphson_bt_core. fold (norms x0). rewrite E.
    destruct G as (G1 & G2 & G3 & G4 & G5 & G6 & G7 & G8).
    do 2 eexists. split; [reflexivity|]. split; [exact G4|].
    destruct (Nat.eqb_spec (res_iters r) miter) as [He|Hne].
    + repeat split; auto; try lia; try nia. intros; discriminate.
    + repeat split; auto; try lia; try nia; try (intros; discriminate).
      intros _ Hl Hn Hf. apply keep_going_false; auto. apply G8. lia.
Qed.

End BT.

(** ** GMRES *)
Section GM.
Context {X : Type}.
Variables (resn : X -> list ext) (tol : R) (x0 : X) (cand : nat -> X).

(** every norm is a number below tol *)
Definition all_below (l : list ext) : Prop := Forall (fun e => exists r, e = Num r /\ r < tol) l.

Lemma all_lt_below l : all_lt l tol = true <-> all_below l.
Proof.
  unfold all_lt, all_below. rewrite forallb_forall, Forall_forall. split; intros H e He.
  - specialize (H e He). destruct e as [r| |]; simpl in H; try discriminate.
    exists r. split; auto. now apply Rltb_true.
  - destruct (H e He) as (r & -> & Hr). simpl. now apply Rltb_true.
Qed.

Lemma gmres_loop_spec maxiter check : (0 < maxiter)%nat ->
  forall rem k x, (k + rem = maxiter)%nat -> (0 < rem)%nat ->
  let r := gmres_loop resn tol cand rem k maxiter check x in
  (k <= snd r < maxiter)%nat /\
  ((S (snd r) < maxiter)%nat ->
      all_below (resn (fst r)) /\ fst r = cand (snd r) /\ (S (snd r) mod check = 0)%nat) /\
  (S (snd r) = maxiter -> fst r = cand (snd r)) /\
  (forall j, (k <= j < snd r)%nat -> (S j mod check = 0)%nat -> ~ all_below (resn (cand j))).
Proof.
  intros Hm. induction rem as [|rem IH]; intros k x Hk Hr; [lia|].
  cbn [gmres_loop].
  destruct ((S k mod check =? 0) || (S k =? maxiter))%nat eqn:Ec.
  - destruct (all_lt (resn (cand k)) tol) eqn:Ea.
    + cbn. repeat split; try lia.
      * now apply all_lt_below.
      * apply orb_true_iff in Ec as [Ec|Ec]; [now apply Nat.eqb_eq|].
        apply Nat.eqb_eq in Ec. lia.
    + destruct rem as [|rem].
      * cbn. replace (k - 0)%nat with k by lia. repeat split; try lia.
      * destruct (IH (S k) (cand k) ltac:(lia) ltac:(lia)) as (H1 & H2 & H3 & H4).
        repeat split; auto; try lia; try (apply H2; auto).
        intros j Hj Hmod. destruct (Nat.eq_dec j k) as [->|].
        -- intros Hb. apply all_lt_below in Hb. congruence.
        -- apply H4; auto. lia.
  - apply orb_false_iff in Ec as [Ec1 Ec2]. apply Nat.eqb_neq in Ec1, Ec2.
    destruct rem as [|rem]; [lia|].
    destruct (IH (S k) x ltac:(lia) ltac:(lia)) as (H1 & H2 & H3 & H4).
    repeat split; auto; try lia; try (apply H2; auto).
    intros j Hj Hmod. destruct (Nat.eq_dec j k) as [->|]; [contradiction|]. apply H4; auto. lia.
Qed.

Lemma gmres_spec maxiter check : (0 < maxiter)%nat -> (0 < check)%nat ->
  exists x k, gmres resn tol x0 cand maxiter check = Some (x, k) /\ (k < maxiter)%nat /\
  (all_below (resn x0) -> x = x0 /\ k = 0%nat) /\
  (~ all_below (resn x0) ->
     x = cand k /\
     ((S k < maxiter)%nat -> all_below (resn x) /\ (S k mod check = 0)%nat) /\
     (forall j, (j < k)%nat -> (S j mod check = 0)%nat -> ~ all_below (resn (cand j)))).
Proof.
  intros Hm Hc. unfold gmres.
  destruct (all_lt (resn x0) tol) eqn:E0.
  - exists x0, 0%nat. repeat split; auto; try lia; exfalso; apply H; now apply all_lt_below.
  - destruct maxiter as [|m]; [lia|]. destruct check as [|c]; [lia|].
    destruct (gmres_loop_spec (S m) (S c) ltac:(lia) (S m) 0 x0 ltac:(lia) ltac:(lia))
      as (H1 & H2 & H3 & H4).
    destruct (gmres_loop _ _ _ _ _ _ _ _) as [x k] eqn:E. cbn [fst snd] in *.
    exists x, k. split; [reflexivity|]. split; [lia|]. split.
    + intros Hb. apply all_lt_below in Hb. congruence.
    + intros _. split; [|split; [intros Hk; apply H2 in Hk; tauto|intros j Hj; apply H4; lia]].
      destruct (Nat.eq_dec (S k) (S m)) as [e|e]; [auto|]. apply H2. lia.
Qed.
End GM.

(** ** Preconditioner reuse *)
Section ReuseProofs.
Context {X RT JT P : Type}.
Variables (fn : X -> RT * JT) (nrm : RT -> list ext) (rtol atol : R).
Variables (factor : JT -> P) (lin : P -> JT -> RT -> X -> X * nat) (sub : X -> X -> X).
Variable l_refactor : nat.

Lemma reuse_loop_spec x0 (Q : P -> Prop) : (forall x, Q (factor (snd (fn x)))) ->
  forall rem i pc x, Q pc ->
  let '(x', J', i', pc') := reuse_loop fn nrm rtol atol factor lin sub l_refactor rem i pc x
       (fst (fn x)) (snd (fn x)) (norms fn nrm x0) in
  (i <= i' <= i + rem)%nat /\ J' = snd (fn x') /\ Q pc' /\
  ((i' < i + rem)%nat -> keep_going rtol atol (norms fn nrm x') (norms fn nrm x0) = false).
Proof.
  intros HQ. induction rem as [|rem IH]; intros i pc x Hpc; cbn [reuse_loop].
  - repeat split; auto; lia.
  - destruct (keep_going _ _ _ _) eqn:Hk.
    + destruct (lin pc (snd (fn x)) (fst (fn x)) x) as [dx niter].
      set (pc' := if (l_refactor <? niter)%nat then _ else _).
      assert (Hp' : Q pc') by (unfold pc'; destruct (_ <? _)%nat; auto).
      specialize (IH (S i) pc' (sub x dx) Hp').
      destruct (reuse_loop _ _ _ _ _ _ _ _ rem (S i) pc' _ _ _ _) as [[[x' J'] i'] pc''].
      destruct IH as (H1 & H2 & H3 & H4). repeat split; auto; try lia. intros; apply H4; lia.
    + repeat split; auto; lia.
Qed.

Definition reuse_outcome_ok (miter : nat) (x0 : X) (o : outcome (X * JT * nat)) : Prop :=
  match o with
  | Raised => False
  | Warned (x, J, i) => J = snd (fn x) /\ i = miter
  | Ok (x, J, i) => J = snd (fn x) /\ (i < miter)%nat /\
      (List.length (norms fn nrm x) = List.length (norms fn nrm x0) ->
       no_nan (norms fn nrm x) -> finite_nonneg (norms fn nrm x0) ->
       converged rtol atol (norms fn nrm x) (norms fn nrm x0))
  end.

Lemma reuse_spec miter stored x0 :
  let '(o, st) := reuse_solve fn nrm rtol atol factor lin sub l_refactor miter stored x0 in
  (exists p, st = Some p /\ (stored = Some p \/ exists x, p = factor (snd (fn x)))) /\
  reuse_outcome_ok miter x0 o.
Proof.
  unfold reuse_solve.
  set (pc := match stored with Some p => p | None => factor (snd (fn x0)) end).
  pose proof (reuse_loop_spec x0 (fun p => stored = Some p \/ exists x, p = factor (snd (fn x)))
    (fun x => or_intror (ex_intro _ x eq_refl)) miter 0 pc x0) as H.
  fold (norms fn nrm x0).
  destruct (reuse_loop _ _ _ _ _ _ _ _ _ _ _ _ _ _ _) as [[[x J] i] pc'].
  destruct H as (H1 & H2 & H3 & H4).
  { unfold pc. destruct stored; [now left|right; eauto]. }
  split; [eauto|].
  destruct (Nat.eqb_spec i miter) as [->|Hne]; cbn [reuse_outcome_ok]; auto.
  repeat split; auto; [lia|]. intros Hl Hn Hf. apply keep_going_false; auto. apply H4. lia.
Qed.
(** n updates from (pc, x) to (pc', x'): each solves with the preconditioner in force, and the
    preconditioner is rebuilt at the new point exactly when the linear solve took more than
    l_refactor iterations *)
Inductive reuse_path (pc : P) (x : X) : nat -> P -> X -> Prop :=
| rp_none : reuse_path pc x 0 pc x
| rp_more n pc1 x1 dx niter : reuse_path pc x n pc1 x1 ->
    lin pc1 (snd (fn x1)) (fst (fn x1)) x1 = (dx, niter) ->
    reuse_path pc x (S n)
      (if le_lt_dec niter l_refactor then pc1 else factor (snd (fn (sub x1 dx)))) (sub x1 dx).

Lemma reuse_loop_path x0 pc0 : forall rem i pc x, reuse_path pc0 x0 i pc x ->
  let '(x', J', i', pc') := reuse_loop fn nrm rtol atol factor lin sub l_refactor rem i pc x
       (fst (fn x)) (snd (fn x)) (norms fn nrm x0) in
  reuse_path pc0 x0 i' pc' x'.
Proof.
  induction rem as [|rem IH]; intros i pc x Hp; cbn [reuse_loop]; auto.
  destruct (keep_going _ _ _ _); auto.
  destruct (lin pc (snd (fn x)) (fst (fn x)) x) as [dx niter] eqn:El.
  replace (if (l_refactor <? niter)%nat then factor (snd (fn (sub x dx))) else pc)
    with (if le_lt_dec niter l_refactor then pc else factor (snd (fn (sub x dx)))).
  - apply IH. eapply rp_more; eauto.
  - destruct (le_lt_dec niter l_refactor), (Nat.ltb_spec l_refactor niter); auto; lia.
Qed.

Lemma reuse_solve_path miter stored x0 :
  let pc0 := match stored with Some p => p | None => factor (snd (fn x0)) end in
  let '(o, st) := reuse_solve fn nrm rtol atol factor lin sub l_refactor miter stored x0 in
  exists x J i p, (o = Ok (x, J, i) \/ o = Warned (x, J, i)) /\ st = Some p /\ reuse_path pc0 x0 i p x.
Proof.
  unfold reuse_solve. cbv zeta.
  set (pc := match stored with Some p => p | None => factor (snd (fn x0)) end).
  pose proof (reuse_loop_path x0 pc miter 0 pc x0 (rp_none _ _)) as H.
  fold (norms fn nrm x0).
  destruct (reuse_loop _ _ _ _ _ _ _ _ _ _ _ _ _ _ _) as [[[x J] i] pc'].
  exists x, J, i, pc'. destruct (i =? miter)%nat; auto.
Qed.
End ReuseProofs.

Lemma reuse_history_spec {X RT JT P} (factor : JT -> P) lin sub (h : list (problem X RT JT)) :
  forall stored,
  let '(os, st) := reuse_history factor lin sub stored h in
  Forall2 (fun p o => reuse_outcome_ok (pr_fn p) (pr_nrm p) (pr_rtol p) (pr_atol p)
                        (pr_miter p) (pr_x0 p) o) h os /\
  (st = stored \/ exists pr x, In pr h /\ st = Some (factor (snd (pr_fn pr x)))) /\
  (h <> [] -> st <> None).
Proof.
  induction h as [|p h IH]; intros stored; cbn [reuse_history]; [intuition|].
  pose proof (reuse_spec (pr_fn p) (pr_nrm p) (pr_rtol p) (pr_atol p) factor lin sub
     (pr_refactor p) (pr_miter p) stored (pr_x0 p)) as H.
  destruct (reuse_solve _ _ _ _ _ _ _ _ _ _ _) as [o st].
  specialize (IH st). destruct (reuse_history factor lin sub st h) as [os st'] eqn:E.
  destruct H as ((q & -> & Hq) & Ho). destruct IH as (H1 & H2 & H3).
  repeat split.
  - constructor; auto.
  - destruct H2 as [->|(pr & x & Hin & ->)].
    + destruct Hq as [->|(x & ->)]; [now left|right].
      exists p, x. split; [now left|reflexivity].
    + right. exists pr, x. split; [now right|reflexivity].
  - intros _. destruct H2 as [->|(pr & x & Hin & ->)]; discriminate.
Qed.

Lemma reuse_history_app {X RT JT P} (factor : JT -> P) lin sub (h1 h2 : list (problem X RT JT)) : forall stored,
  reuse_history factor lin sub stored (h1 ++ h2) =
  (fst (reuse_history factor lin sub stored h1) ++
     fst (reuse_history factor lin sub (snd (reuse_history factor lin sub stored h1)) h2),
   snd (reuse_history factor lin sub (snd (reuse_history factor lin sub stored h1)) h2)).
Proof.
  induction h1 as [|p h1 IH]; intros stored; cbn [reuse_history app].
  - cbn [fst snd app]. now destruct (reuse_history factor lin sub stored h2).
  - destruct (reuse_solve _ _ _ _ _ _ _ _ _ _ _) as [o st]. rewrite IH.
    now destruct (reuse_history factor lin sub st h1) as [os st'].
Qed.

(** ** Statement-level forms *)
Lemma keep_going_iff rtol atol l l0 : List.length l = List.length l0 ->
  finite_nonneg l -> finite_nonneg l0 ->
  (keep_going rtol atol l l0 = true <-> ~ converged rtol atol l l0).
Proof.
  intros Hl Hf Hf0. split.
  - intros H Hc. rewrite converged_keep in H by assumption. discriminate.
  - intros H. destruct (keep_going _ _ _ _) eqn:E; [reflexivity|]. exfalso. apply H.
    apply keep_going_false; auto. unfold no_nan. eapply Forall_impl; [|exact Hf].
    intros e (r & -> & _). discriminate.
Qed.

Lemma all_gt_spec l1 l2 : List.length l1 = List.length l2 -> all_gt l1 l2 = true ->
  Forall2 (fun e1 e2 => match e1, e2 with
                        | Num a, Num b => b < a | Inf, Num _ => True | _, _ => False end) l1 l2.
Proof.
  unfold all_gt. revert l2. induction l1 as [|a l1 IH]; intros [|b l2] Hl H; try discriminate; constructor.
  - simpl in H. apply andb_true_iff in H as [Ha _].
    destruct a, b; simpl in Ha; try discriminate; auto. now apply Rltb_true.
  - simpl in H. apply andb_true_iff in H as [_ Hb]. apply IH; auto.
Qed.

Section Forms.
Context {X RT JT : Type}.
Variables (fn : X -> RT * JT) (nrm : RT -> list ext) (rtol atol : R).
Variables (step : JT -> RT -> X) (sub : X -> X -> X).

Lemma chunk_raise_iff miter x0 :
  (forall k, (k < miter)%nat ->
     List.length (norms fn nrm (point fn step sub x0 k)) = List.length (norms fn nrm x0) /\
     finite_nonneg (norms fn nrm (point fn step sub x0 k))) ->
  finite_nonneg (norms fn nrm x0) ->
  (newton_raphson_chunk fn nrm rtol atol step sub miter true x0 = Raised <->
   forall k, (k < miter)%nat ->
     ~ converged rtol atol (norms fn nrm (point fn step sub x0 k)) (norms fn nrm x0)).
Proof.
  intros Hk H0. rewrite chunk_raise_rule. split; intros H k Hlt.
  - apply keep_going_iff; try apply Hk; auto.
  - apply keep_going_iff; try apply Hk; auto.
Qed.

(** Without the NaN proviso: any NaN in the initial norms of a one-entry batch
    ends the loop at once. *)
Lemma nan_start_ok miter throw x0 : (0 < miter)%nat -> norms fn nrm x0 = [NaN] ->
  exists r, newton_raphson_chunk fn nrm rtol atol step sub miter throw x0 = Ok r /\ res_x r = x0.
Proof.
  intros Hm H. unfold newton_raphson_chunk, nr_solve. destruct miter as [|m]; [lia|].
  cbn [nr_loop]. unfold norms in H. rewrite H. cbn. eexists. split; reflexivity.
Qed.
End Forms.

(** Concrete scalar problems for examples and counterexamples. *)
Definition sc_fn (x : R) : R * R := (x - 1, 1).
Definition sc_nrm (r : R) : list ext := [Num (Rabs r)].
Definition sc_step (J r : R) : R := r / J.

Lemma sc_point1 x : point sc_fn sc_step Rminus x 1 = 1.
Proof. unfold point, update, sc_fn, sc_step. simpl. field. Qed.

Lemma sc_keep0 : keep_going (1/2) (1/2) (norms sc_fn sc_nrm 0) (norms sc_fn sc_nrm 0) = true.
Proof.
  apply keep_going_iff; auto.
  - constructor; [|constructor]. eexists. split; [reflexivity|]. apply Rabs_pos.
  - constructor; [|constructor]. eexists. split; [reflexivity|]. apply Rabs_pos.
  - unfold norms, sc_nrm, sc_fn. cbn [fst].
    replace (0 - 1) with (-1) by lra. rewrite Rabs_left by lra.
    intros [H|H].
    + inversion H as [|? ? (r & E & Hr) _]; subst. injection E as <-. lra.
    + inversion H as [|? ? ? ? (r & r0 & E & E0 & Hr) _]; subst. injection E as <-. injection E0 as <-. lra.
Qed.

Lemma sc_raised : newton_raphson_chunk sc_fn sc_nrm (1/2) (1/2) sc_step Rminus 1 true 0 = Raised.
Proof.
  apply chunk_raise_rule. intros k Hk. replace k with 0%nat by lia. exact sc_keep0.
Qed.

Lemma sc_final_converged :
  converged (1/2) (1/2) (norms sc_fn sc_nrm (point sc_fn sc_step Rminus 0 1)) (norms sc_fn sc_nrm 0).
Proof.
  left. rewrite sc_point1. unfold norms, sc_nrm, sc_fn. cbn. constructor; [|constructor].
  eexists. split; [reflexivity|]. replace (1 - 1) with 0 by lra. rewrite Rabs_R0. lra.
Qed.

Lemma sc_solve1 : True /\
  res_iters (nr_solve sc_fn sc_nrm (1/2) (1/2) sc_step Rminus 10 0) = 1%nat /\
  res_caller (nr_solve sc_fn sc_nrm (1/2) (1/2) sc_step Rminus 10 0) = 1.
Proof.
  split; [exact I|].
  pose proof (nr_solve_spec sc_fn sc_nrm (1/2) (1/2) sc_step Rminus 10 0) as H. cbv zeta in H.
  set (r := nr_solve _ _ _ _ _ _ _ _) in *. clearbody r.
  destruct H as (H1 & H2 & H3 & H4 & H5 & H6 & H7).
  assert (Hs : keep_going (1/2) (1/2) (norms sc_fn sc_nrm (point sc_fn sc_step Rminus 0 1))
                 (norms sc_fn sc_nrm 0) = false).
  { apply converged_keep; try exact sc_final_converged;
      (constructor; [|constructor]; eexists; split; [reflexivity|]; apply Rabs_pos). }
  assert (Hi : res_iters r = 1%nat).
  { destruct (Nat.lt_trichotomy (res_iters r) 1) as [Hlt|[|Hgt]]; auto; exfalso.
    - assert (res_iters r = 0%nat) as E by lia. rewrite E in *. rewrite H2 in H7.
      change (point sc_fn sc_step Rminus 0 0) with 0 in H7. rewrite sc_keep0 in H7.
      assert (true = false) by (apply H7; lia). discriminate.
    - rewrite H6 in Hs by lia. discriminate. }
  split; [exact Hi|]. rewrite H3, Hi. apply sc_point1.
Qed.

Lemma sc_overwrites : exists r,
  newton_raphson sc_fn sc_nrm (fun _ => sc_step) Rminus (1/2) (1/2) 10 "lu" 1 0 = Ok r /\ res_caller r = 1.
Proof.
  unfold newton_raphson. replace (choose_solver 1 "lu") with (Some DiagSolve) by reflexivity.
  unfold newton_raphson_core. destruct sc_solve1 as (_ & H1 & H2).
  set (r := nr_solve _ _ _ _ _ _ _ _) in *. clearbody r.
  rewrite H1. cbn [Nat.eqb]. exists r. auto.
Qed.

Lemma sc_chunk_overwrites : exists r,
  newton_raphson_chunk sc_fn sc_nrm (1/2) (1/2) sc_step Rminus 10 true 0 = Ok r /\ res_caller r = 1.
Proof.
  unfold newton_raphson_chunk. destruct sc_solve1 as (_ & H1 & H2).
  set (r := nr_solve _ _ _ _ _ _ _ _) in *. clearbody r.
  rewrite H1. cbn [Nat.eqb]. exists r. auto.
Qed.

(** a residual that turns into NaN after the first update *)
Definition nan_fn (x : R) : ext * R := (if Req_EM_T x 0 then Num 1 else NaN, 1).
Lemma nan_mid_ok : exists r,
  newton_raphson_chunk nan_fn (fun e => [e]) (1/2) (1/2) (fun _ _ => 1) Rminus 5 true 0 = Ok r /\
  norms nan_fn (fun e => [e]) (res_x r) = [NaN] /\ res_iters r = 1%nat.
Proof.
  unfold newton_raphson_chunk, nr_solve.
  assert (H0 : nan_fn 0 = (Num 1, 1)) by (unfold nan_fn; destruct (Req_EM_T 0 0); [reflexivity|lra]).
  assert (H1 : nan_fn (0 - 1) = (NaN, 1)) by (unfold nan_fn; destruct (Req_EM_T (0-1) 0); [lra|reflexivity]).
  cbn [nr_loop deref]. rewrite H0. cbn [fst snd].
  assert (Hk : keep_going (1/2) (1/2) [Num 1] [Num 1] = true).
  { unfold keep_going. cbn. destruct (Req_EM_T 1 0); [lra|]. cbn.
    rewrite !orb_false_r, andb_true_iff. split; apply Rltb_true; lra. }
  rewrite Hk. rewrite H1. cbn [fst snd].
  cbn -[Rminus]. eexists. split; [reflexivity|]. cbn [res_x res_iters]. unfold norms. rewrite H1. auto.
Qed.
