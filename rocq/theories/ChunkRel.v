(** The direct methods (chunktime.py 153-388) are parametric in the block operations: if two sets of operations respect a relation between
    their blocks and the n diagonal blocks, n - 1 sub-diagonal blocks and n right-hand side blocks of two systems are related, so are the
    solutions.  With equality as the relation: no method reads outside its slices; with a projection: every batch entry is solved on its own. *)
From Coq Require Import List Arith Lia Bool.
From Verif Require Import ChunkModel ChunkPow2 ChunkSpec ChunkSolve.
Import ListNotations.

Section Rel.
Context {M V M' V' : Type} (ops : block_ops M V) (ops' : block_ops M' V') (RM : M -> M' -> Prop) (RV : V -> V' -> Prop).
Definition agr {X X'} (Q : X -> X' -> Prop) (n : nat) (f : nat -> X) (g : nat -> X') : Prop := forall j, j < n -> Q (f j) (g j).
Hypotheses (r_mul : forall a a' b b', RM a a' -> RM b b' -> RM (bmul ops a b) (bmul ops' a' b'))
  (r_opp : forall a a', RM a a' -> RM (bopp ops a) (bopp ops' a')) (r_zero : RM (bzero ops) (bzero ops'))
  (r_act : forall a a' v v', RM a a' -> RV v v' -> RV (bact ops a v) (bact ops' a' v'))
  (r_sub : forall v v' w w', RV v v' -> RV w w' -> RV (bsub ops v w) (bsub ops' v' w'))
  (r_solve : forall a a' v v', RM a a' -> RV v v' -> RV (bsolve ops a v) (bsolve ops' a' v'))
  (r_solveM : forall a a' b b', RM a a' -> RM b b' -> RM (bsolveM ops a b) (bsolveM ops' a' b')).

Lemma agr_upd {X X'} (Q : X -> X' -> Prop) n f g l x x' : Q x x' -> agr Q n f g -> agr Q n (upd f l x) (upd g l x').
Proof. intros q H j Hj. unfold upd. destruct (j =? l); auto. Qed.

Lemma thomas_agr n A A' B B' : agr RM n A A' -> agr RM (n - 1) B B' -> forall k lo v v', 0 < lo -> lo + k <= n -> agr RV n v v' ->
  agr RV n (fold_left (thomas_step ops A B) (seq lo k) v) (fold_left (thomas_step ops' A' B') (seq lo k) v').
Proof.
  intros HA HB. induction k as [|k IH]; intros lo v v' L N Hv; [exact Hv|]. cbn [seq fold_left]. apply IH; [lia|lia|].
  unfold thomas_step. apply agr_upd; [|exact Hv]. apply r_solve; [apply HA; lia|]. apply r_sub; [apply Hv; lia|]. apply r_act; [apply HB|apply Hv]; lia.
Qed.
Lemma vwrite_agr {X X'} (Q : X -> X' -> Prop) n w rhs rhs' st st' :
  (forall a b, a < vn0 w -> b < vn1 w -> Q (rhs a b) (rhs' a b)) -> agr Q n st st' -> agr Q n (vwrite w rhs st) (vwrite w rhs' st').
Proof.
  intros H. unfold vwrite.
  assert (Hall : forall a b, In (a, b) (pairs (vn0 w) (vn1 w)) -> Q (rhs a b) (rhs' a b)).
  { intros a b Hin. apply in_pairs in Hin as [? ?]. auto. }
  revert Hall st st'. induction (pairs (vn0 w) (vn1 w)) as [|[a b] l IH]; intros Hall st st' S; [exact S|].
  cbn [fold_left fst snd]. apply IH.
  - intros a' b' Hin. apply Hall. now right.
  - apply agr_upd; [|exact S]. apply Hall. now left.
Qed.

Section Block.
Variables (n s m : nat) (A : nat -> M) (A' : nat -> M').
Hypotheses (HA : agr RM n A A') (Hn : s + 2 ^ m <= n).
Lemma iter_agr i w B B' v v' : i < m -> is_view m i s w -> agr RM n B B' -> agr RV n v v' ->
  let '(w1, B1, v1) := pcr_iter ops A i (w, B, v) in let '(w2, B2, v2) := pcr_iter ops' A' i (w, B', v') in
  w1 = w2 /\ is_view m (S i) s w1 /\ agr RM n B1 B2 /\ agr RV n v1 v2.
Proof.
  intros Hi Hw HB Hv. unfold pcr_iter. pose proof Hw as [Ho Hn0 Hn1 Hst1 Hst0].
  assert (Hloc : forall k a b, a < 2 ^ i -> b + k < 2 ^ (m - i) -> vloc (vdrop k w) a b < n).
  { intros k a b Ha Hb. unfold vloc, vdrop; simpl. rewrite Ho, Hst1. pose proof (in_block s m i a (b + k) ltac:(lia) Ha Hb) as Hin.
    destruct i as [|i'].
    - simpl in Ha. assert (a = 0) by lia. subst. simpl in *. lia.
    - rewrite Hst0 by lia. lia. }
  assert (Hloc0 : forall a b, a < 2 ^ i -> b < 2 ^ (m - i) -> vloc w a b < n).
  { intros a b Ha Hb. rewrite (is_view_loc m i s w a b Hw Ha). pose proof (in_block s m i a b ltac:(lia) Ha Hb). lia. }
  split; [reflexivity|]. split; [now apply cyclic_is_view|]. split.
  - apply vwrite_agr; [|exact HB]. intros a b Ha Hb. cbn [vdrop vn0 vn1] in Ha, Hb. rewrite Hn0 in Ha. rewrite Hn1 in Hb. unfold vread.
    change (vloc (vbut1 (vdrop 1 w)) a b) with (vloc (vdrop 1 w) a b).
    apply r_opp, r_mul; [apply HB, Hloc; lia|]. apply r_solveM; [apply HA, Hloc|apply HB, Hloc]; lia.
  - apply vwrite_agr; [|exact Hv]. intros a b Ha Hb. cbn [vdrop vn0 vn1] in Ha, Hb. rewrite Hn0 in Ha. rewrite Hn1 in Hb. unfold vread.
    change (vloc (vbut1 w) a b) with (vloc w a b).
    apply r_sub; [apply Hv, Hloc; lia|]. apply r_act; [apply HB, Hloc; lia|]. apply r_solve; [apply HA, Hloc0|apply Hv, Hloc0]; lia.
Qed.
Lemma iters_agr : forall k i w B B' v v', i + k = m -> is_view m i s w -> agr RM n B B' -> agr RV n v v' ->
  let '(w1, B1, v1) := fold_left (fun st i => pcr_iter ops A i st) (seq i k) (w, B, v) in
  let '(w2, B2, v2) := fold_left (fun st i => pcr_iter ops' A' i st) (seq i k) (w, B', v') in agr RM n B1 B2 /\ agr RV n v1 v2.
Proof.
  induction k as [|k IH]; intros i w B B' v v' E Hw HB Hv; [simpl; auto|]. cbn [seq fold_left].
  pose proof (iter_agr i w B B' v v' ltac:(lia) Hw HB Hv) as S.
  destruct (pcr_iter ops A i (w, B, v)) as [[w1 B1] v1]. destruct (pcr_iter ops' A' i (w, B', v')) as [[w2 B2] v2].
  destruct S as (<- & Hw1 & HB1 & Hv1). apply IH; auto. lia.
Qed.
Lemma block_agr B B' v v' : agr RM n B B' -> agr RV n v v' ->
  let '(B1, v1) := pcr_solve_block ops A s (s + 2 ^ m) (B, v) in let '(B2, v2) := pcr_solve_block ops' A' s (s + 2 ^ m) (B', v') in agr RM n B1 B2 /\ agr RV n v1 v2.
Proof.
  intros HB Hv. unfold pcr_solve_block. replace (s + 2 ^ m - s) with (2 ^ m) by lia. rewrite Nat.log2_pow2 by lia.
  pose proof (iters_agr m 0 (slice_view s (s + 2 ^ m)) B B' v v' eq_refl (slice_is_view m s) HB Hv) as H.
  destruct (fold_left _ _ _) as [[w1 B1] v1]. destruct (fold_left _ _ _) as [[w2 B2] v2]. exact H.
Qed.
End Block.

Lemma sweep_agr n A A' : agr RM n A A' -> forall l s, chain n s l -> forall k B B' v v', k <= length l -> agr RM n B B' -> agr RV n v v' ->
  let '(B1, v1) := pcr_sweep ops A (firstn k l) (B, v) in let '(B2, v2) := pcr_sweep ops' A' (firstn k l) (B', v') in agr RM n B1 B2 /\ agr RV n v1 v2.
Proof.
  intros HA. induction 1 as [s H1 H2|s l H1 H2 Hc IH]; intros k B B' v v' Hk HB Hv.
  - destruct k as [|[|k]]; simpl in Hk; [simpl; auto| |lia]. unfold pcr_sweep; cbn [firstn fold_left fst snd].
    pose proof (block_agr n s (Nat.log2 (n - s)) A A' HA) as H. fold (sz (n - s)) in H. rewrite H2 in H. apply H; auto.
  - destruct k as [|k]; [simpl; auto|]. simpl in Hk. unfold pcr_sweep. cbn [firstn fold_left fst snd].
    pose proof (block_agr n s (Nat.log2 (n - s)) A A' HA) as H. fold (sz (n - s)) in H. specialize (H ltac:(lia) B B' v v' HB Hv).
    destruct (pcr_solve_block ops A _ _ _) as [B1 v1]. destruct (pcr_solve_block ops' A' _ _ _) as [B2 v2]. destruct H as [HB1 Hv1].
    apply (IH k); auto. lia.
Qed.
Lemma pad_agr n B B' : agr RM (n - 1) B B' -> agr RM n (pad_front ops B) (pad_front ops' B').
Proof. intros H [|j] Hj; [exact r_zero|]. apply H. lia. Qed.
Lemma slice_agr n hi A A' v v' : agr RM n A A' -> agr RV n v v' ->
  agr RV n (slice_write 0 hi (fun j => bsolve ops (A j) (v j)) v) (slice_write 0 hi (fun j => bsolve ops' (A' j) (v' j)) v').
Proof. intros HA Hv j Hj. unfold slice_write. destruct (andb _ _); auto. Qed.

Lemma chain_pos n s l : chain n s l -> Forall (fun p => 0 < snd p) l.
Proof. induction 1; repeat constructor; auto; simpl; pose proof (sz_pos (n - s)); lia. Qed.
Lemma last_pos l : Forall (fun x => 0 < x) (1 :: l) -> 0 < last (1 :: l) 0.
Proof.
  generalize 1 as a. induction l as [|b l IH]; intros a F; [now inversion F|].
  change (last (a :: b :: l) 0) with (last (b :: l) 0). apply IH. now inversion F.
Qed.
Lemma matvec_rel mth n A A' B B' v v' : 0 < n -> agr RM n A A' -> agr RM (n - 1) B B' -> agr RV n v v' ->
  match matvec ops mth n A B v, matvec ops' mth n A' B' v' with
  | Some (x, _), Some (x', _) => agr RV n x x' | None, None => True | _, _ => False end.
Proof.
  intros Hn HA HB Hv. destruct (pow2_chain n Hn) as (l & E & Hc). pose proof (pad_agr _ _ _ HB) as HP. destruct mth as [| |k]; simpl.
  - unfold thomas_solve. apply thomas_agr; auto; try lia. apply agr_upd; [|exact Hv]. apply r_solve; [apply HA|apply Hv]; lia.
  - unfold pcr_matvec. rewrite E, combine_fst_snd.
    pose proof (sweep_agr n A A' HA l 0 Hc (length l) _ _ _ _ (le_n _) HP Hv) as H. rewrite firstn_all in H.
    destruct (pcr_sweep ops A l _) as [B1 v1]. destruct (pcr_sweep ops' A' l _) as [B2 v2]. destruct H as [_ H]. now apply slice_agr.
  - unfold hybrid_matvec. destruct (pcr_blocks k n) as [[[st fn] lst]|] eqn:EB; [|exact I].
    destruct (pcr_blocks_spec k n st fn lst EB) as (s0 & e0 & E' & c & -> & -> & Hc1 & _ & _ & Hlst).
    rewrite E in E'. injection E' as <- <-. rewrite map_length in Hc1. rewrite !firstn_map, combine_fst_snd.
    pose proof (sweep_agr n A A' HA l 0 Hc c _ _ _ _ Hc1 HP Hv) as H.
    destruct (pcr_sweep ops A _ _) as [B1 v1]. destruct (pcr_sweep ops' A' _ _) as [B2 v2]. destruct H as [H1 H2].
    destruct (Nat.le_gt_cases lst n) as [L|G].
    + apply thomas_agr; auto; try lia.
      * intros j Hj. apply H1. lia.
      * subst lst. apply last_pos. constructor; [lia|]. rewrite firstn_map. apply Forall_map. apply Forall_forall. intros p Hp.
        pose proof (chain_pos _ _ _ Hc) as F. rewrite Forall_forall in F. apply F. rewrite <- (firstn_skipn c l). apply in_or_app. now left.
      * now apply slice_agr.
    + replace (n - lst) with 0 by lia. simpl. now apply slice_agr.
Qed.
End Rel.

Lemma matvec_agr {M V} (ops : block_ops M V) mth n A A' B B' v v' : 0 < n -> agr eq n A A' -> agr eq (n - 1) B B' -> agr eq n v v' ->
  match matvec ops mth n A B v, matvec ops mth n A' B' v' with
  | Some (x, _), Some (x', _) => agr eq n x x' | None, None => True | _, _ => False end.
Proof. apply matvec_rel; congruence. Qed.
