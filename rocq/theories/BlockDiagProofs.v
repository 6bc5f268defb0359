From Coq Require Import List ZArith Lia Bool Arith Sorting.Permutation.
Import ListNotations.
From Verif Require Import BlockDiag.

(** ** Specification *)

(** Input of the constructor: distinct diagonals inside the matrix, each with
    the right number of blocks. *)
Definition diag_input {X} (nblk : nat) (l : list (Z * @btensor X)) : Prop :=
  NoDup (map fst l) /\ l <> [] /\
  forall d t, In (d, t) l -> (Z.abs_nat d < nblk)%nat /\ fst t = nblk - Z.abs_nat d.

(** The matrix the input denotes, at block position (I,J), entry (p,q): the
    min(I,J)-th block of diagonal J - I if that diagonal was given, else zero. *)
Definition denotes {X} (zero : X) (l : list (Z * @btensor X)) (I J : nat)
    (b p q : nat) (val : X) : Prop :=
  (exists len f, In ((Z.of_nat J - Z.of_nat I)%Z, (len, f)) l /\ val = f (Nat.min I J) b p q)
  \/ (~ In (Z.of_nat J - Z.of_nat I)%Z (map fst l) /\ val = zero).

Section Proofs.
Context {X : Type} (zero : X).

Lemma insert_perm (x : Z * @btensor X) l : Permutation (insert_diag x l) (x :: l).
Proof.
  induction l as [|y l IH]; simpl; [reflexivity|].
  destruct (_ <=? _)%Z; [reflexivity|]. rewrite IH. apply perm_swap.
Qed.

Lemma sort_perm (l : list (Z * @btensor X)) : Permutation (sort_diags l) l.
Proof.
  induction l as [|x l IH]; simpl; [reflexivity|]. rewrite insert_perm. now constructor.
Qed.

Lemma diag_input_perm nblk (l l' : list (Z * @btensor X)) :
  Permutation l' l -> diag_input nblk l -> diag_input nblk l'.
Proof.
  intros P (H1 & H2 & H3). split; [|split].
  - apply Permutation_NoDup with (map fst l); [|exact H1]. apply Permutation_map. now symmetry.
  - intros ->. apply Permutation_nil in P. contradiction.
  - intros d t Hin. apply H3. now apply Permutation_in with l'.
Qed.

Lemma mk_bdm_ok nblk sblk (l : list (Z * @btensor X)) : diag_input nblk l ->
  exists m, mk_bdm l sblk = Some m /\ bd_nblk m = nblk /\ bd_sblk m = sblk /\
            Permutation (bd_list m) l.
Proof.
  intros H. pose proof (diag_input_perm nblk l _ (sort_perm l) H) as H'.
  pose proof (sort_perm l) as P.
  unfold mk_bdm. revert H' P. destruct (sort_diags l) as [|[d [len f]] r] eqn:E; intros H' P.
  - destruct H' as (_ & H2 & _). contradiction.
  - eexists. split; [reflexivity|]. cbn [bd_nblk bd_sblk bd_list]. repeat split; auto.
    destruct H' as (_ & _ & H3). destruct (H3 d (len, f) (or_introl eq_refl)) as [A B].
    simpl in B. lia.
Qed.

(** *** to_dense *)
Lemma write_block_at s i j (blk : nat -> nat -> nat -> X) D b I J p q : p < s -> q < s ->
  write_block s i j blk D b (I * s + p) (J * s + q) =
  if (i =? I) && (j =? J) then blk b p q else D b (I * s + p) (J * s + q).
Proof.
  intros Hp Hq. unfold write_block.
  assert (E1 : (i * s <=? I * s + p) && (I * s + p <? (i + 1) * s) = (i =? I)).
  { destruct (Nat.eqb_spec i I) as [->|Hne].
    - apply andb_true_iff. rewrite Nat.leb_le, Nat.ltb_lt. nia.
    - apply andb_false_iff. rewrite Nat.leb_gt, Nat.ltb_ge. nia. }
  assert (E2 : (j * s <=? J * s + q) && (J * s + q <? (j + 1) * s) = (j =? J)).
  { destruct (Nat.eqb_spec j J) as [->|Hne].
    - apply andb_true_iff. rewrite Nat.leb_le, Nat.ltb_lt. nia.
    - apply andb_false_iff. rewrite Nat.leb_gt, Nat.ltb_ge. nia. }
  rewrite <- andb_assoc, E1, E2.
  destruct (Nat.eqb_spec i I) as [->|]; simpl; auto.
  destruct (Nat.eqb_spec j J) as [->|]; simpl; auto.
  f_equal; lia.
Qed.

Lemma dense_ij_diag d k i j : dense_ij d k = (i, j) ->
  (Z.of_nat j - Z.of_nat i = d)%Z /\ k = Nat.min i j.
Proof.
  unfold dense_ij. destruct (Z.leb_spec d 0); intros E; injection E as <- <-; lia.
Qed.

Lemma inner_fold s d (f : nat -> nat -> nat -> nat -> X) b I J p q : p < s -> q < s ->
  forall ks D,
  fold_left (fun D k => let '(i, j) := dense_ij d k in write_block s i j (f k) D) ks D
     b (I * s + p) (J * s + q) =
  if ((Z.of_nat J - Z.of_nat I =? d)%Z && existsb (Nat.eqb (Nat.min I J)) ks)
  then f (Nat.min I J) b p q else D b (I * s + p) (J * s + q).
Proof.
  intros Hp Hq. induction ks as [|k ks IH]; intros D; cbn [fold_left existsb].
  - now rewrite andb_false_r.
  - rewrite IH. destruct (dense_ij d k) as [i j] eqn:E.
    apply dense_ij_diag in E as [Ed Ek].
    rewrite write_block_at by auto.
    destruct (Z.eqb_spec (Z.of_nat J - Z.of_nat I) d) as [Hd|Hd]; simpl.
    + destruct (existsb _ ks); simpl; [now rewrite orb_true_r|]. rewrite orb_false_r.
      destruct (Nat.eqb_spec (Nat.min I J) k) as [Hk|Hk].
      * assert (i = I /\ j = J) as [-> ->] by lia. rewrite !Nat.eqb_refl. simpl. congruence.
      * destruct (Nat.eqb_spec i I); destruct (Nat.eqb_spec j J); simpl; auto. subst. lia.
    + destruct (Nat.eqb_spec i I); destruct (Nat.eqb_spec j J); simpl; auto. subst. lia.
Qed.

Lemma existsb_seq x n : existsb (Nat.eqb x) (seq 0 n) = (x <? n).
Proof.
  destruct (Nat.ltb_spec x n).
  - apply existsb_exists. exists x. rewrite in_seq, Nat.eqb_refl. split; [lia|reflexivity].
  - destruct (existsb _ _) eqn:E; [|reflexivity]. apply existsb_exists in E as (y & Hy & E).
    apply Nat.eqb_eq in E. apply in_seq in Hy. lia.
Qed.

Lemma outer_fold nblk s b I J p q : p < s -> q < s -> I < nblk -> J < nblk ->
  forall (l : list (Z * @btensor X)) D, NoDup (map fst l) ->
  let r := fold_left (fun D (x : Z * btensor) =>
       fold_left (fun D k => let '(i, j) := dense_ij (fst x) k in write_block s i j (snd (snd x) k) D)
         (seq 0 (nblk - Z.abs_nat (fst x))) D) l D b (I * s + p) (J * s + q) in
  (forall t, In ((Z.of_nat J - Z.of_nat I)%Z, t) l -> r = snd t (Nat.min I J) b p q) /\
  (~ In (Z.of_nat J - Z.of_nat I)%Z (map fst l) -> r = D b (I * s + p) (J * s + q)).
Proof.
  intros Hp Hq HI HJ. induction l as [|[d [len f]] l IH]; intros D Hnd; cbn [fold_left].
  - split; [intros t []|reflexivity].
  - inversion Hnd as [|? ? Hnin Hnd']; subst. simpl fst in *.
    set (D1 := fold_left _ (seq 0 _) D). specialize (IH D1 Hnd').
    cbv zeta in IH |- *. destruct IH as [IH1 IH2].
    assert (ED1 : D1 b (I * s + p) (J * s + q) =
      if (Z.of_nat J - Z.of_nat I =? d)%Z then f (Nat.min I J) b p q
      else D b (I * s + p) (J * s + q)).
    { unfold D1. cbn [snd fst]. rewrite inner_fold by auto. rewrite existsb_seq.
      destruct (Z.eqb_spec (Z.of_nat J - Z.of_nat I) d) as [Hd|Hd]; simpl; auto.
      destruct (Nat.ltb_spec (Nat.min I J) (nblk - Z.abs_nat d)); auto. lia. }
    split.
    + intros t [Ht|Ht].
      * injection Ht as Hd <-. rewrite IH2 by congruence. rewrite ED1.
        rewrite (proj2 (Z.eqb_eq _ _)) by congruence. reflexivity.
      * now apply IH1.
    + intros Hn. simpl in Hn. rewrite IH2 by tauto. rewrite ED1.
      destruct (Z.eqb_spec (Z.of_nat J - Z.of_nat I) d) as [Hd|Hd]; auto.
      exfalso. apply Hn. now left.
Qed.

Lemma denotes_perm (l l' : list (Z * @btensor X)) I J b p q val :
  Permutation l' l -> denotes zero l' I J b p q val -> denotes zero l I J b p q val.
Proof.
  intros P [(len & f & H1 & H2)|[H1 H2]].
  - left. exists len, f. split; auto. now apply Permutation_in with l'.
  - right. split; auto. intros H. apply H1.
    apply Permutation_in with (map fst l); auto. apply Permutation_map. now symmetry.
Qed.

Lemma diag_dec (d : Z) (l : list (Z * @btensor X)) :
  (exists t, In (d, t) l) \/ ~ In d (map fst l).
Proof.
  destruct (in_dec Z.eq_dec d (map fst l)) as [H|H]; [left|now right].
  apply in_map_iff in H as ([d' t] & E & H). simpl in E. subst. eauto.
Qed.

Lemma to_dense_raw m I J b p q : diag_input (bd_nblk m) (bd_list m) ->
  I < bd_nblk m -> J < bd_nblk m -> p < bd_sblk m -> q < bd_sblk m ->
  denotes zero (bd_list m) I J b p q
          (to_dense zero m b (I * bd_sblk m + p) (J * bd_sblk m + q)).
Proof.
  intros (Hnd & _ & _) HI HJ Hp Hq. unfold to_dense.
  destruct (outer_fold (bd_nblk m) (bd_sblk m) b I J p q Hp Hq HI HJ (bd_list m)
              (fun _ _ _ => zero) Hnd) as [H1 H2].
  destruct (diag_dec (Z.of_nat J - Z.of_nat I) (bd_list m)) as [[[len f] Ht]|Hn].
  - left. exists len, f. split; auto. rewrite (H1 _ Ht). reflexivity.
  - right. split; auto.
Qed.

Lemma to_dense_spec nblk sblk (l : list (Z * @btensor X)) : diag_input nblk l ->
  exists m, mk_bdm l sblk = Some m /\ bd_n m = nblk * sblk /\
  forall I J b p q, I < nblk -> J < nblk -> p < sblk -> q < sblk ->
    denotes zero l I J b p q (to_dense zero m b (I * sblk + p) (J * sblk + q)).
Proof.
  intros H. destruct (mk_bdm_ok nblk sblk l H) as (m & E & H1 & H2 & P).
  exists m. split; [exact E|]. unfold bd_n. rewrite H1, H2. split; [reflexivity|].
  intros I J b p q HI HJ Hp Hq.
  apply denotes_perm with (bd_list m); [exact P|].
  pose proof (to_dense_raw m I J b p q) as T. rewrite H1, H2 in T. apply T; auto.
  now apply diag_input_perm with l.
Qed.

(** *** COO *)
Lemma NoDup_app_intro {Y} (l1 l2 : list Y) : NoDup l1 -> NoDup l2 ->
  (forall x, In x l1 -> ~ In x l2) -> NoDup (l1 ++ l2).
Proof.
  intros H1 H2 H. induction H1 as [|x l Hx H1 IH]; simpl; [exact H2|].
  constructor.
  - rewrite in_app_iff. intros [Hi|Hi]; [contradiction|]. apply (H x); [now left|exact Hi].
  - apply IH. intros y Hy. apply H. now right.
Qed.

Lemma NoDup_flat_map {Y Z'} (f : Y -> list Z') l : NoDup l -> (forall x, In x l -> NoDup (f x)) ->
  (forall x y z, In x l -> In y l -> In z (f x) -> In z (f y) -> x = y) -> NoDup (flat_map f l).
Proof.
  intros Hl H1 H2. induction Hl as [|x l Hx Hl IH]; simpl; [constructor|].
  apply NoDup_app_intro.
  - apply H1. now left.
  - apply IH; [intros y Hy; apply H1; now right|].
    intros y z w Hy Hz. apply H2; now right.
  - intros z Hz Hz'. apply in_flat_map in Hz' as (y & Hy & Hzy).
    assert (x = y) by (apply (H2 x y z); auto; [now left|now right]). subst. contradiction.
Qed.

Definition pos (e : nat * nat * (nat -> X)) : nat * nat := fst e.

Lemma map_flat_map {A B C} (g : B -> C) (f : A -> list B) l :
  map g (flat_map f l) = flat_map (fun x => map g (f x)) l.
Proof. induction l; simpl; [reflexivity|]. now rewrite map_app, IHl. Qed.

Lemma flat_map_ext' {A B} (f g : A -> list B) l : (forall x, In x l -> f x = g x) ->
  flat_map f l = flat_map g l.
Proof.
  induction l as [|x l IH]; intros H; simpl; [reflexivity|].
  rewrite H by now left. f_equal. apply IH. intros y Hy. apply H. now right.
Qed.

(** Block coordinates of block i of diagonal d as COO sees them. *)
Definition coo_ij (d : Z) (i : nat) : nat * nat :=
  if (d <? 0)%Z then (i + Z.abs_nat d, i) else (i, i + Z.abs_nat d).

Lemma coo_ij_spec d i I J : coo_ij d i = (I, J) <->
  (Z.of_nat J - Z.of_nat I)%Z = d /\ i = Nat.min I J.
Proof.
  unfold coo_ij. destruct (Z.ltb_spec d 0); split.
  - intros E; injection E as <- <-; lia.
  - intros [H1 H2]. f_equal; lia.
  - intros E; injection E as <- <-; lia.
  - intros [H1 H2]. f_equal; lia.
Qed.

Lemma in_coo_block s d blk i e : In e (coo_block s d blk i) <->
  exists p q, p < s /\ q < s /\
    e = (fst (coo_ij d i) * s + p, snd (coo_ij d i) * s + q, fun b => blk b p q) :> nat * nat * (nat -> X).
Proof.
  unfold coo_block, coo_ij.
  assert (G : forall ro co, In e (flat_map (fun p => map (fun q => (p + ro, q + co, fun b => blk b p q)) (seq 0 s)) (seq 0 s))
     <-> exists p q, p < s /\ q < s /\ e = (ro + p, co + q, fun b => blk b p q)).
  { intros ro co. rewrite in_flat_map. split.
    - intros (p & Hp & Hq). apply in_map_iff in Hq as (q & <- & Hq).
      apply in_seq in Hp, Hq. exists p, q. repeat split; try lia. f_equal. f_equal; lia.
    - intros (p & q & Hp & Hq & ->). exists p. rewrite in_seq. split; [lia|].
      apply in_map_iff. exists q. rewrite in_seq. split; [f_equal; f_equal; lia|lia]. }
  destruct (d <? 0)%Z; apply G.
Qed.

Lemma coo_block_length s d blk i : length (coo_block s d blk i : list (nat*nat*(nat->X))) = s * s.
Proof.
  unfold coo_block. destruct (d <? 0)%Z.
  all: rewrite flat_map_concat_map.
  all: match goal with |- length (concat (map ?f ?l)) = _ =>
    assert (G : forall l', length (concat (map f l')) = length l' * s) end.
  all: try (intros l'; induction l' as [|x l' IH]; simpl; [reflexivity|];
            rewrite app_length, map_length, seq_length, IH; lia).
  all: rewrite G, seq_length; reflexivity.
Qed.

Lemma block_pos_inj s I J p q I' J' p' q' : p < s -> q < s -> p' < s -> q' < s ->
  (I * s + p, J * s + q) = (I' * s + p', J' * s + q') -> I = I' /\ J = J' /\ p = p' /\ q = q'.
Proof.
  intros Hp Hq Hp' Hq' E. injection E as E1 E2.
  assert (I = I') by nia. assert (J = J') by nia. subst. lia.
Qed.

Lemma in_to_coo (m : bdm X) e : In e (to_coo m) <->
  exists d len f i p q, In (d, (len, f)) (bd_list m) /\ i < len /\ p < bd_sblk m /\ q < bd_sblk m /\
    e = (fst (coo_ij d i) * bd_sblk m + p, snd (coo_ij d i) * bd_sblk m + q, fun b => f i b p q).
Proof.
  unfold to_coo. rewrite in_flat_map. split.
  - intros ([d [len f]] & Hin & H). apply in_flat_map in H as (i & Hi & H).
    apply in_coo_block in H as (p & q & Hp & Hq & E). apply in_seq in Hi. simpl in *.
    exists d, len, f, i, p, q. repeat split; auto. lia.
  - intros (d & len & f & i & p & q & Hin & Hi & Hp & Hq & E).
    exists (d, (len, f)). split; auto. apply in_flat_map. exists i. split; [apply in_seq; simpl; lia|].
    apply in_coo_block. simpl. eauto.
Qed.

Lemma coo_NoDup (m : bdm X) : diag_input (bd_nblk m) (bd_list m) ->
  NoDup (map pos (to_coo m)).
Proof.
  intros (Hnd & _ & Hwf). unfold to_coo. rewrite map_flat_map.
  apply NoDup_flat_map.
  - now apply NoDup_map_inv with (f := fst).
  - intros [d [len f]] Hin. rewrite map_flat_map. apply NoDup_flat_map.
    + apply seq_NoDup.
    + intros i _. simpl.
      set (s := bd_sblk m).
      assert (G : forall ro co, NoDup (map pos (flat_map (fun p => map (fun q => (p + ro, q + co, fun b => f i b p q)) (seq 0 s)) (seq 0 s)))).
      { intros ro co. rewrite map_flat_map. apply NoDup_flat_map.
        - apply seq_NoDup.
        - intros p _. rewrite map_map. simpl.
          apply FinFun.Injective_map_NoDup; [|apply seq_NoDup].
          intros q q' E. injection E. lia.
        - intros p p' z _ _ H1 H2. rewrite map_map in H1, H2. simpl in H1, H2.
          apply in_map_iff in H1 as (q & <- & _). apply in_map_iff in H2 as (q' & E & _).
          unfold pos in E. simpl in E. injection E. lia. }
      unfold coo_block. destruct (d <? 0)%Z; apply G.
    + intros i i' z _ _ H1 H2. simpl in *.
      apply in_map_iff in H1 as (e & <- & H1). apply in_map_iff in H2 as (e' & E & H2).
      apply in_coo_block in H1 as (p & q & Hp & Hq & ->).
      apply in_coo_block in H2 as (p' & q' & Hp' & Hq' & ->).
      unfold pos in E; cbn [fst] in E.
      apply block_pos_inj in E; auto. destruct E as (E1 & E2 & _).
      destruct (coo_ij d i) as [I J] eqn:C1. destruct (coo_ij d i') as [I' J'] eqn:C2.
      apply coo_ij_spec in C1, C2. simpl in *. lia.
  - intros [d [len f]] [d' [len' f']] z Hin Hin' H1 H2. simpl in *.
    apply in_map_iff in H1 as (e & <- & H1). apply in_map_iff in H2 as (e' & E & H2).
    apply in_flat_map in H1 as (i & _ & H1). apply in_flat_map in H2 as (i' & _ & H2).
    apply in_coo_block in H1 as (p & q & Hp & Hq & ->).
    apply in_coo_block in H2 as (p' & q' & Hp' & Hq' & ->).
    unfold pos in E; cbn [fst] in E. apply block_pos_inj in E; auto. destruct E as (E1 & E2 & _).
    assert (Ed : d = d').
    { destruct (coo_ij d i) as [I J] eqn:C1. destruct (coo_ij d' i') as [I' J'] eqn:C2.
      apply coo_ij_spec in C1, C2. simpl in *. lia. }
    subst d'.
    (* distinct keys *)
    clear -Hnd Hin Hin'.
    induction (bd_list m) as [|[d0 t0] l IH]; [destruct Hin|].
    inversion Hnd as [|? ? Hn Hnd']; subst. simpl in *.
    destruct Hin as [E1|Hin], Hin' as [E2|Hin'].
    + congruence.
    + exfalso. apply Hn. injection E1 as -> _. apply in_map_iff. now exists (d, (len', f')).
    + exfalso. apply Hn. injection E2 as -> _. apply in_map_iff. now exists (d, (len, f)).
    + now apply IH.
Qed.

Lemma coo_length (m : bdm X) : length (to_coo m) = bd_nnz m.
Proof.
  unfold to_coo, bd_nnz. induction (bd_list m) as [|[d [len f]] l IH]; simpl; [reflexivity|].
  rewrite app_length, IH. f_equal.
  assert (G : forall is, length (flat_map (fun i => coo_block (bd_sblk m) d (f i) i) is)
                 = length is * bd_sblk m * bd_sblk m).
  { induction is as [|i is IHi]; simpl; [reflexivity|].
    rewrite app_length, coo_block_length, IHi. lia. }
  rewrite G, seq_length. reflexivity.
Qed.

Lemma coo_in_range (m : bdm X) e : diag_input (bd_nblk m) (bd_list m) -> In e (to_coo m) ->
  fst (pos e) < bd_n m /\ snd (pos e) < bd_n m.
Proof.
  intros (_ & _ & Hwf) He. apply in_to_coo in He as (d & len & f & i & p & q & Hin & Hi & Hp & Hq & ->).
  unfold pos, bd_n; simpl. destruct (Hwf _ _ Hin) as [H1 H2]. simpl in H2.
  destruct (coo_ij d i) as [I J] eqn:C. apply coo_ij_spec in C. simpl. nia.
Qed.

Variable add : X -> X -> X.
Hypothesis add_zero : forall x, add x zero = x.

Lemma coo_value_absent l b r c : ~ In (r, c) (map pos l) -> coo_value zero add l b r c = zero.
Proof.
  induction l as [|e l IH]; simpl; [reflexivity|]. intros H.
  destruct (Nat.eqb_spec (fst (fst e)) r) as [E1|]; simpl; [|apply IH; tauto].
  destruct (Nat.eqb_spec (snd (fst e)) c) as [E2|]; simpl; [|apply IH; tauto].
  exfalso. apply H. left. unfold pos. destruct (fst e); simpl in *; congruence.
Qed.

Lemma coo_value_present l b e : NoDup (map pos l) -> In e l ->
  coo_value zero add l b (fst (fst e)) (snd (fst e)) = snd e b.
Proof.
  induction l as [|e' l IH]; simpl; intros Hnd Hin; [destruct Hin|].
  inversion Hnd as [|? ? Hn Hnd']; subst.
  destruct Hin as [->|Hin].
  - rewrite !Nat.eqb_refl. simpl. rewrite coo_value_absent; [apply add_zero|].
    intros H. apply Hn. unfold pos at 1. now rewrite (surjective_pairing (fst e)).
  - destruct (Nat.eqb_spec (fst (fst e')) (fst (fst e))) as [E1|]; simpl; [|now apply IH].
    destruct (Nat.eqb_spec (snd (fst e')) (snd (fst e))) as [E2|]; simpl; [|now apply IH].
    exfalso. apply Hn. apply in_map_iff. exists e. split; auto. unfold pos.
    rewrite (surjective_pairing (fst e)), (surjective_pairing (fst e')). congruence.
Qed.

Lemma coo_denotes (m : bdm X) I J b p q : diag_input (bd_nblk m) (bd_list m) ->
  I < bd_nblk m -> J < bd_nblk m -> p < bd_sblk m -> q < bd_sblk m ->
  denotes zero (bd_list m) I J b p q
     (coo_value zero add (to_coo m) b (I * bd_sblk m + p) (J * bd_sblk m + q)).
Proof.
  intros Hwf HI HJ Hp Hq. set (s := bd_sblk m) in *.
  destruct (diag_dec (Z.of_nat J - Z.of_nat I) (bd_list m)) as [[[len f] Ht]|Hn].
  - left. exists len, f. split; auto.
    set (e := (I * s + p, J * s + q, fun b => f (Nat.min I J) b p q)).
    assert (He : In e (to_coo m)).
    { apply in_to_coo. exists (Z.of_nat J - Z.of_nat I)%Z, len, f, (Nat.min I J), p, q.
      destruct Hwf as (_ & _ & Hwf). destruct (Hwf _ _ Ht) as [H1 H2]. simpl in H2.
      repeat split; auto; [lia|].
      assert (C : coo_ij (Z.of_nat J - Z.of_nat I) (Nat.min I J) = (I, J))
        by (apply coo_ij_spec; lia).
      rewrite C. reflexivity. }
    exact (coo_value_present (to_coo m) b e (coo_NoDup m Hwf) He).
  - right. split; auto. apply coo_value_absent.
    intros H. apply in_map_iff in H as (e & E & He).
    apply in_to_coo in He as (d & len & f & i & p' & q' & Hin & Hi & Hp' & Hq' & ->).
    unfold pos in E; simpl in E. apply block_pos_inj in E; auto.
    destruct E as (E1 & E2 & _). destruct (coo_ij d i) as [I' J'] eqn:C.
    apply coo_ij_spec in C. simpl in *. subst I' J'. apply Hn.
    apply in_map_iff. exists (d, (len, f)). split; auto. simpl. lia.
Qed.

Lemma denotes_fun nblk (l : list (Z * @btensor X)) I J b p q v1 v2 : diag_input nblk l ->
  denotes zero l I J b p q v1 -> denotes zero l I J b p q v2 -> v1 = v2.
Proof.
  intros (Hnd & _ & _) [(len & f & H1 & ->)|[H1 ->]] [(len' & f' & H2 & ->)|[H2 ->]]; auto.
  - assert (E : forall (t t' : @btensor X) d, In (d, t) l -> In (d, t') l -> t = t').
    { clear -Hnd. intros t t' d Hin Hin'. induction l as [|[d0 t0] l IH]; [destruct Hin|].
      inversion Hnd as [|? ? Hn Hnd']; subst. simpl in *.
      destruct Hin as [E1|Hin], Hin' as [E2|Hin'].
      + congruence.
      + exfalso. apply Hn. injection E1 as -> _. apply in_map_iff. now exists (d, t').
      + exfalso. apply Hn. injection E2 as -> _. apply in_map_iff. now exists (d, t).
      + now apply IH. }
    specialize (E _ _ _ H1 H2). congruence.
  - exfalso. apply H2. apply in_map_iff. eexists (_, (len, f)). split; [reflexivity|exact H1].
  - exfalso. apply H1. apply in_map_iff. eexists (_, (len', f')). split; [reflexivity|exact H2].
Qed.

Lemma coo_spec nblk sblk (l : list (Z * @btensor X)) m : diag_input nblk l ->
  mk_bdm l sblk = Some m ->
  length (to_coo m) = bd_nnz m /\
  NoDup (map fst (to_coo m)) /\
  (forall e, In e (to_coo m) -> fst (fst e) < nblk * sblk /\ snd (fst e) < nblk * sblk) /\
  (forall b r c, r < nblk * sblk -> c < nblk * sblk ->
     coo_value zero add (to_coo m) b r c = to_dense zero m b r c).
Proof.
  intros H E. destruct (mk_bdm_ok nblk sblk l H) as (m' & E' & H1 & H2 & P).
  rewrite E in E'. injection E' as <-.
  assert (Hm : diag_input (bd_nblk m) (bd_list m)) by (rewrite H1; now apply diag_input_perm with l).
  split; [apply coo_length|]. split; [now apply coo_NoDup|]. split.
  - intros e He. pose proof (coo_in_range m e Hm He) as R. unfold bd_n in R. now rewrite H1, H2 in R.
  - intros b r c Hr Hc. assert (Hs : sblk <> 0) by nia.
    rewrite (Nat.div_mod r sblk Hs), (Nat.div_mod c sblk Hs).
    rewrite (Nat.mul_comm sblk (r / sblk)), (Nat.mul_comm sblk (c / sblk)).
    assert (r / sblk < nblk) by (apply Nat.div_lt_upper_bound; lia).
    assert (c / sblk < nblk) by (apply Nat.div_lt_upper_bound; lia).
    pose proof (Nat.mod_upper_bound r sblk Hs). pose proof (Nat.mod_upper_bound c sblk Hs).
    apply (denotes_fun (bd_nblk m) (bd_list m) (r / sblk) (c / sblk) b (r mod sblk) (c mod sblk)); auto.
    + pose proof (coo_denotes m (r / sblk) (c / sblk) b (r mod sblk) (c mod sblk) Hm) as T.
      rewrite H1, H2 in T. now apply T.
    + pose proof (to_dense_raw m (r / sblk) (c / sblk) b (r mod sblk) (c mod sblk) Hm) as T.
      rewrite H1, H2 in T. now apply T.
Qed.

(** *** CSR shape *)
Lemma fold_max_ge {Y} (g : Y -> nat) l y : In y l ->
  g y <= fold_right (fun e acc => Nat.max (g e) acc) 0 l.
Proof. induction l as [|z l IH]; simpl; [easy|]. intros [->|H]; [lia|]. specialize (IH H). lia. Qed.

Lemma fold_max_le {Y} (g : Y -> nat) l n : (forall y, In y l -> g y <= n) ->
  fold_right (fun e acc => Nat.max (g e) acc) 0 l <= n.
Proof.
  induction l as [|z l IH]; simpl; [lia|]. intros H.
  pose proof (H z (or_introl eq_refl)). specialize (IH (fun y Hy => H y (or_intror Hy))). lia.
Qed.

Lemma csr_shape_main nblk sblk (l : list (Z * @btensor X)) m : diag_input nblk l ->
  In 0%Z (map fst l) -> 0 < sblk -> mk_bdm l sblk = Some m ->
  csr_shape m = (nblk * sblk, nblk * sblk).
Proof.
  intros H H0 Hs E. destruct (mk_bdm_ok nblk sblk l H) as (m' & E' & H1 & H2 & P).
  rewrite E in E'. injection E' as <-.
  assert (Hm : diag_input (bd_nblk m) (bd_list m)) by (rewrite H1; now apply diag_input_perm with l).
  apply in_map_iff in H0 as ([d [len f]] & Ed & Hin). simpl in Ed. subst d.
  destruct H as (_ & _ & Hwf). destruct (Hwf _ _ Hin) as [W1 W2]. simpl in W1, W2.
  assert (He : In ((nblk - 1) * sblk + (sblk - 1), (nblk - 1) * sblk + (sblk - 1),
                   fun b => f (nblk - 1) b (sblk - 1) (sblk - 1)) (to_coo m)).
  { apply in_to_coo. exists 0%Z, len, f, (nblk - 1), (sblk - 1), (sblk - 1). rewrite H2.
    repeat split; try lia.
    - apply Permutation_in with l; [now symmetry|exact Hin].
    - unfold coo_ij. simpl. rewrite Nat.add_0_r. reflexivity. }
  assert (Hlast : S ((nblk - 1) * sblk + (sblk - 1)) = nblk * sblk) by nia.
  unfold csr_shape. f_equal; apply Nat.le_antisymm.
  - apply (fold_max_le (fun e : nat * nat * (nat -> X) => S (fst (fst e)))). intros e Hin'.
    destruct (coo_in_range m e Hm Hin') as [R _]. unfold bd_n, pos in R. rewrite H1, H2 in R. lia.
  - pose proof (fold_max_ge (fun e : nat * nat * (nat -> X) => S (fst (fst e))) _ _ He) as G.
    simpl in G. simpl. lia.
  - apply (fold_max_le (fun e : nat * nat * (nat -> X) => S (snd (fst e)))). intros e Hin'.
    destruct (coo_in_range m e Hm Hin') as [_ R]. unfold bd_n, pos in R. rewrite H1, H2 in R. lia.
  - pose proof (fold_max_ge (fun e : nat * nat * (nat -> X) => S (snd (fst e))) _ _ He) as G.
    simpl in G. simpl. lia.
Qed.

End Proofs.
