(** Model of the time series interpolators, utility.py 279-475.
    A (ntime, nbatch) tensor is a function [nat -> nat -> R] of (time, batch);
    queries [t : nat -> nat -> R] are (query, batch). *)
From Coq Require Import Reals List Lra Lia Arith Bool.
Import ListNotations.
Local Open Scope R_scope.

Definition leb (x y : R) : bool := if Rle_dec x y then true else false.
Definition ltb (x y : R) : bool := if Rlt_dec x y then true else false.
Definition eqb (x y : R) : bool := if Req_EM_T x y then true else false.

Section Interp.
Variables (nt nb : nat) (times values : nat -> nat -> R).

(** [torch.diff(values) / torch.diff(times)], utility.py 301, 367, 412. *)
Definition slope (b i : nat) : R :=
  (values (S i) b - values i b) / (times (S i) b - times i b).

(** ** ArbitraryBatchTimeSeriesInterpolator.forward, utility.py 303-342 *)

(** Value extrapolated from segment i (lines 325-327). *)
Definition poss (b i : nat) (x : R) : R := slope b i * (x - times i b) + values i b.

(** Mask (lines 329-337). *)
Definition loc (b i : nat) (x : R) : bool :=
  (leb x (times (S i) b) && ltb (times i b) x) || ((i =? 0)%nat && eqb x (times 0%nat b)).

(** Entries selected by the mask for one query, in order. *)
Definition select (b : nat) (x : R) : list R :=
  flat_map (fun i => if loc b i x then [poss b i x] else []) (seq 0 (nt - 1)).

(** Two-dimensional queries: [poss[locs].reshape(t.shape).t()], line 342; the
    mask is flattened batch-major because of the transposes at 301 and 319.
    reshape raises (None) unless the count fits. *)
Definition abtsi (nq : nat) (t : nat -> nat -> R) : option (nat -> nat -> R) :=
  let flat := flat_map (fun b => flat_map (fun q => select b (t q b)) (seq 0 nq)) (seq 0 nb) in
  if (length flat =? nb * nq)%nat then Some (fun q b => nth (b * nq + q) flat 0) else None.

(** One-dimensional queries (lines 313-317, 339-340): no reshape, and
    [squeeze(-1)] drops the dimension when one entry was selected. *)
Inductive tensor1 := Scalar (r : R) | Vec (l : list R).
Definition abtsi1 (t : nat -> R) : tensor1 :=
  match flat_map (fun b => select b (t b)) (seq 0 nb) with
  | [r] => Scalar r
  | l => Vec l
  end.

(** ** Index lookup shared by the other interpolators
    [torch.remainder(torch.sum((times - t) <= 0, dim=0), ntime)], 379-381, 448, 473. *)
Definition count_le (b : nat) (x : R) : nat :=
  length (filter (fun k => leb (times k b - x) 0) (seq 0 nt)).
Definition gi (b : nat) (x : R) : nat := (count_le b x mod nt)%nat.

(** Python's index [g - 1] into a dimension of the given length: -1 is the last. *)
Definition pred_index (len g : nat) : nat := match g with O => (len - 1)%nat | S g' => g' end.

(** BatchTimeSeriesInterpolator.forward, utility.py 369-384, for batch entry b. *)
Definition batch_tsi (t : nat -> R) (b : nat) : R :=
  let g := gi b (t b) in
  values (pred_index nt g) b + slope b (pred_index (nt - 1) g) * (t b - times (pred_index nt g) b).

(** timeseries_interpolate_batch_times, utility.py 432-455. *)
Definition interp_batch (t : nat -> R) (b : nat) : R :=
  let g := gi b (t b) in
  let y2 := values g b in let y1 := values (pred_index nt g) b in
  let t2 := times g b in let t1 := times (pred_index nt g) b in
  y1 + (y2 - y1) / (t2 - t1) * (t b - t1).

(** CheaterBatchTimeSeriesInterpolator.forward, utility.py 414-429: first index
    whose time in column 0 is >= t[0] (argmax of an all-false mask is 0), at least 1. *)
Fixpoint first_true (p : nat -> bool) (fuel k : nat) : nat :=
  match fuel with
  | O => O
  | S fuel' => if p k then k else first_true p fuel' (S k)
  end.
Definition cheat_gi (x : R) : nat := Nat.max (first_true (fun k => leb x (times k 0%nat)) nt 0) 1.
Definition cheater (t : nat -> R) (b : nat) : R :=
  let g := cheat_gi (t 0%nat) in
  values (g - 1) b + slope b (g - 1) * (t b - times (g - 1) b).
End Interp.

(** timeseries_interpolate_single_times, utility.py 458-475: one column of
    times for every batch entry. *)
Definition interp_single (nt : nat) (times : nat -> R) (values : nat -> nat -> R) (t : R) (b : nat) : R :=
  let g := gi nt (fun k _ => times k) 0 t in
  let y2 := values g b in let y1 := values (pred_index nt g) b in
  let t2 := times g in let t1 := times (pred_index nt g) in
  y1 + (y2 - y1) / (t2 - t1) * (t - t1).

(** ** Specification: piecewise linear interpolation of the points (T i, V i), i < n *)
Definition increasing (n : nat) (T : nat -> R) : Prop := forall i j, (i < j)%nat -> (j < n)%nat -> T i < T j.
Definition in_range (n : nat) (T : nat -> R) (x : R) : Prop := T 0%nat <= x <= T (n - 1)%nat.
Definition interpolates (n : nat) (T V : nat -> R) (x y : R) : Prop :=
  exists i, (S i < n)%nat /\ T i <= x <= T (S i) /\
    y = V i + (V (S i) - V i) / (T (S i) - T i) * (x - T i).

Lemma leb_true x y : leb x y = true <-> x <= y.
Proof. unfold leb. destruct (Rle_dec x y); intuition (auto; discriminate). Qed.
Lemma leb_false x y : leb x y = false <-> y < x.
Proof. unfold leb. destruct (Rle_dec x y); intuition (auto; try discriminate; lra). Qed.
Lemma ltb_true x y : ltb x y = true <-> x < y.
Proof. unfold ltb. destruct (Rlt_dec x y); intuition (auto; discriminate). Qed.
Lemma eqb_true x y : eqb x y = true <-> x = y.
Proof. unfold eqb. destruct (Req_EM_T x y); intuition (auto; discriminate). Qed.

(** The interpolant is unique, so "interpolates" determines a value. *)
Lemma increasing_le n T : increasing n T -> forall i j, (i <= j)%nat -> (j < n)%nat -> T i <= T j.
Proof. intros H i j Hij Hj. destruct (Nat.eq_dec i j) as [->|]; [lra|]. left. apply H; lia. Qed.

Lemma interpolates_unique_lt n T V x i j : increasing n T -> (i < j)%nat -> (S j < n)%nat ->
  T i <= x <= T (S i) -> T j <= x <= T (S j) ->
  V i + (V (S i) - V i) / (T (S i) - T i) * (x - T i) = V j + (V (S j) - V j) / (T (S j) - T j) * (x - T j).
Proof.
  intros HT Hij Hj [A B] [C D].
  assert (E : S i = j).
  { destruct (Nat.eq_dec (S i) j) as [|Hne]; auto. exfalso.
    assert (T (S i) < T j) by (apply HT; lia). lra. }
  subst j. assert (x = T (S i)) by lra. subst x.
  assert (T i < T (S i)) by (apply HT; lia).
  field_simplify_eq; [ring|]. assert (T (S i) < T (S (S i))) by (apply HT; lia). lra.
Qed.

Lemma interpolates_unique n T V x y y' : increasing n T ->
  interpolates n T V x y -> interpolates n T V x y' -> y = y'.
Proof.
  intros HT (i & Hi & Hx & ->) (j & Hj & Hx' & ->).
  destruct (lt_eq_lt_dec i j) as [[H|H]|H].
  - now apply (interpolates_unique_lt n).
  - now subst.
  - symmetry. now apply (interpolates_unique_lt n).
Qed.

(** At a node the interpolant is the data value. *)
Lemma interpolates_node n T V i y : increasing n T -> (2 <= n)%nat -> (i < n)%nat ->
  interpolates n T V (T i) y -> y = V i.
Proof.
  intros HT Hn Hi H. apply (interpolates_unique n T V (T i)) with (2 := H); auto.
  destruct (Nat.eq_dec (S i) n) as [E|E].
  - destruct i as [|i]; [lia|]. exists i. split; [lia|].
    assert (T i < T (S i)) by (apply HT; lia). split; [lra|]. field. lra.
  - exists i. split; [lia|]. assert (T i < T (S i)) by (apply HT; lia). split; [lra|]. field. lra.
Qed.

(** ** Locating the bracket *)
Lemma bracket_exists T x : forall n, increasing (S (S n)) T -> T 0%nat < x -> x <= T (S n) ->
  exists i, (i <= n)%nat /\ T i < x <= T (S i).
Proof.
  induction n as [|n IH]; intros HT H0 H1.
  - exists 0%nat. split; [lia|]. lra.
  - destruct (Rle_lt_dec x (T (S n))) as [H|H].
    + destruct IH as (i & Hi & Hb); auto. { intros a b Ha Hb. apply HT; lia. }
      exists i. split; [lia|auto].
    + exists (S n). split; [lia|]. lra.
Qed.

Section Proofs.
Variables (nt nb : nat) (times values : nat -> nat -> R).
Notation T b := (fun k => times k b).
Notation V b := (fun k => values k b).
Hypothesis (Hnt : (2 <= nt)%nat).

Lemma loc_spec b i x : increasing nt (T b) -> (S i < nt)%nat ->
  loc times b i x = true <-> times i b < x <= times (S i) b \/ (i = 0%nat /\ x = times 0%nat b).
Proof.
  intros _ _. unfold loc. rewrite orb_true_iff, !andb_true_iff, leb_true, ltb_true, eqb_true, Nat.eqb_eq.
  intuition.
Qed.

Lemma loc_unique b i j x : increasing nt (T b) -> (S i < nt)%nat -> (S j < nt)%nat ->
  loc times b i x = true -> loc times b j x = true -> i = j.
Proof.
  intros HT Hi Hj Li Lj. apply loc_spec in Li, Lj; auto.
  destruct (lt_eq_lt_dec i j) as [[H|H]|H]; auto; exfalso;
    destruct Li as [Li|[-> Li]], Lj as [Lj|[-> Lj]]; try lia.
  - assert (times (S i) b <= times j b) by (apply (increasing_le nt (T b)); auto; lia). lra.
  - assert (times 0%nat b <= times j b) by (apply (increasing_le nt (T b)); auto; lia). lra.
  - assert (times (S j) b <= times i b) by (apply (increasing_le nt (T b)); auto; lia). lra.
  - assert (times 0%nat b <= times i b) by (apply (increasing_le nt (T b)); auto; lia). lra.
Qed.

Lemma loc_exists b x : increasing nt (T b) -> in_range nt (T b) x ->
  exists i, (S i < nt)%nat /\ loc times b i x = true.
Proof.
  intros HT [H0 H1].
  destruct (Req_EM_T x (times 0%nat b)) as [E|E].
  - exists 0%nat. split; [lia|]. apply loc_spec; auto; lia.
  - destruct (bracket_exists (T b) x (nt - 2)) as (i & Hi & Hb).
    + intros a c Ha Hc. apply HT; lia.
    + lra.
    + replace (S (nt - 2)) with (nt - 1)%nat by lia. auto.
    + exists i. split; [lia|]. apply loc_spec; auto; lia.
Qed.

Lemma loc_in_range b i x : increasing nt (T b) -> (S i < nt)%nat -> loc times b i x = true ->
  in_range nt (T b) x.
Proof.
  intros HT Hi L. apply loc_spec in L; auto.
  assert (times 0%nat b <= times i b) by (apply (increasing_le nt (T b)); auto; lia).
  assert (times (S i) b <= times (nt - 1)%nat b) by (apply (increasing_le nt (T b)); auto; lia).
  assert (times i b < times (S i) b) by (apply HT; lia).
  unfold in_range. destruct L as [L|[-> ->]]; lra.
Qed.

(** Selection with at most one marked index. *)
Lemma flat_map_none {A} (p : nat -> bool) (f : nat -> A) l : (forall i, In i l -> p i = false) ->
  flat_map (fun i => if p i then [f i] else []) l = [].
Proof.
  induction l as [|i l IH]; intros H; cbn; [reflexivity|].
  rewrite (H i) by now left. apply IH. intros j Hj. apply H. now right.
Qed.
Lemma flat_map_one {A} (p : nat -> bool) (f : nat -> A) i l : NoDup l -> In i l -> p i = true ->
  (forall j, In j l -> p j = true -> j = i) ->
  flat_map (fun i => if p i then [f i] else []) l = [f i].
Proof.
  induction l as [|j l IH]; intros Hd Hi Hp Hu; [contradiction|]. cbn.
  inversion Hd as [|? ? Hn Hd']; subst. destruct Hi as [->|Hi].
  - rewrite Hp, flat_map_none; [reflexivity|]. intros k Hk. destruct (p k) eqn:E; auto.
    exfalso. apply Hn. rewrite <- (Hu k); auto. now right.
  - destruct (p j) eqn:E.
    + exfalso. apply Hn. rewrite (Hu j); auto. now left.
    + apply IH; auto. intros k Hk. apply Hu. now right.
Qed.

Lemma select_in b x : increasing nt (T b) -> in_range nt (T b) x ->
  exists y, select nt times values b x = [y] /\ interpolates nt (T b) (V b) x y.
Proof.
  intros HT HR. destruct (loc_exists b x HT HR) as (i & Hi & L).
  exists (poss times values b i x). split.
  - unfold select. apply (flat_map_one (fun i => loc times b i x) (fun i => poss times values b i x)).
    + apply seq_NoDup.
    + apply in_seq. lia.
    + auto.
    + intros j Hj Lj. apply in_seq in Hj. apply (loc_unique b j i x); auto; lia.
  - exists i. split; [auto|]. apply loc_spec in L; auto.
    assert (times i b < times (S i) b) by (apply HT; lia).
    split; [destruct L as [L|[-> ->]]; lra|]. unfold poss, slope. ring.
Qed.

Lemma select_out b x : increasing nt (T b) -> ~ in_range nt (T b) x -> select nt times values b x = [].
Proof.
  intros HT HR. apply (flat_map_none (fun i => loc times b i x) (fun i => poss times values b i x)).
  intros i Hi. apply in_seq in Hi. destruct (loc times b i x) eqn:L; auto.
  exfalso. apply HR. apply (loc_in_range b i x); auto; lia.
Qed.

Lemma in_range_dec b x : {in_range nt (T b) x} + {~ in_range nt (T b) x}.
Proof.
  unfold in_range. destruct (Rle_dec (times 0%nat b) x), (Rle_dec x (times (nt - 1)%nat b));
    [left|right|right|right]; lra.
Qed.

Lemma select_len b x : increasing nt (T b) ->
  length (select nt times values b x) = if in_range_dec b x then 1%nat else 0%nat.
Proof.
  intros HT. destruct (in_range_dec b x) as [H|H].
  - now destruct (select_in b x HT H) as (y & -> & _).
  - now rewrite select_out.
Qed.

(** Concatenation of singletons. *)
Lemma flat_map_single {A} (g : nat -> list A) (d : A) n0 n : (forall k, (n0 <= k < n0 + n)%nat -> exists y, g k = [y]) ->
  length (flat_map g (seq n0 n)) = n /\
  forall k, (k < n)%nat -> g (n0 + k)%nat = [nth k (flat_map g (seq n0 n)) d].
Proof.
  revert n0. induction n as [|n IH]; intros n0 H; cbn; [split; [reflexivity|lia]|].
  destruct (H n0) as [y Ey]; [lia|]. rewrite Ey. cbn.
  destruct (IH (S n0)) as [IL IN]; [intros k Hk; apply H; lia|]. rewrite IL. split; [reflexivity|].
  intros [|k] Hk.
  - now rewrite Nat.add_0_r.
  - rewrite <- Nat.add_succ_comm. apply IN. lia.
Qed.

(** Concatenation of rows of equal length. *)
Lemma flat_map_rows {A} (g : nat -> list A) (d : A) m n0 n : (forall k, (n0 <= k < n0 + n)%nat -> length (g k) = m) ->
  length (flat_map g (seq n0 n)) = (n * m)%nat /\
  forall k q, (k < n)%nat -> (q < m)%nat -> nth (k * m + q) (flat_map g (seq n0 n)) d = nth q (g (n0 + k)%nat) d.
Proof.
  revert n0. induction n as [|n IH]; intros n0 H; cbn; [split; [reflexivity|lia]|].
  assert (E : length (g n0) = m) by (apply H; lia).
  destruct (IH (S n0)) as [IL IN]; [intros k Hk; apply H; lia|]. rewrite app_length, IL, E. split; [reflexivity|].
  intros [|k] q Hk Hq.
  - cbn. rewrite Nat.add_0_r. apply app_nth1. lia.
  - cbn [Nat.mul]. rewrite app_nth2 by lia. rewrite E.
    replace (m + k * m + q - m)%nat with (k * m + q)%nat by lia.
    rewrite <- Nat.add_succ_comm. apply IN; lia.
Qed.

Lemma abtsi_in_range nq t : (forall b, (b < nb)%nat -> increasing nt (T b)) ->
  (forall q b, (q < nq)%nat -> (b < nb)%nat -> in_range nt (T b) (t q b)) ->
  exists out, abtsi nt nb times values nq t = Some out /\
    forall q b, (q < nq)%nat -> (b < nb)%nat -> interpolates nt (T b) (V b) (t q b) (out q b).
Proof.
  intros HT HR.
  assert (Hrow : forall b, (b < nb)%nat ->
     length (flat_map (fun q => select nt times values b (t q b)) (seq 0 nq)) = nq /\
     forall q, (q < nq)%nat -> select nt times values b (t q b)
        = [nth q (flat_map (fun q => select nt times values b (t q b)) (seq 0 nq)) 0]).
  { intros b Hb. apply (flat_map_single (fun q => select nt times values b (t q b)) 0 0 nq).
    intros q Hq. destruct (select_in b (t q b)) as (y & E & _); auto. apply HR; lia. eauto. }
  destruct (flat_map_rows (fun b => flat_map (fun q => select nt times values b (t q b)) (seq 0 nq)) 0 nq 0 nb)
    as [L N]; [intros b Hb; apply Hrow; lia|].
  unfold abtsi. rewrite L, Nat.eqb_refl. eexists. split; [reflexivity|].
  intros q b Hq Hb. cbv beta. rewrite N by auto. cbn [Nat.add].
  destruct (Hrow b Hb) as [_ Hn]. specialize (Hn q Hq).
  destruct (select_in b (t q b)) as (y & E & I); auto.
  rewrite E in Hn. injection Hn as Hn. now rewrite <- Hn.
Qed.

Lemma flat_map_len_le {A} (g : nat -> list A) m n0 n : (forall k, (n0 <= k < n0 + n)%nat -> (length (g k) <= m)%nat) ->
  (length (flat_map g (seq n0 n)) <= n * m)%nat.
Proof.
  revert n0. induction n as [|n IH]; intros n0 H; cbn; [lia|].
  rewrite app_length. assert (length (g n0) <= m)%nat by (apply H; lia).
  assert (length (flat_map g (seq (S n0) n)) <= n * m)%nat by (apply IH; intros k Hk; apply H; lia). lia.
Qed.
Lemma flat_map_len_lt {A} (g : nat -> list A) m n0 n i : (forall k, (n0 <= k < n0 + n)%nat -> (length (g k) <= m)%nat) ->
  (n0 <= i < n0 + n)%nat -> (length (g i) < m)%nat -> (length (flat_map g (seq n0 n)) < n * m)%nat.
Proof.
  revert n0. induction n as [|n IH]; intros n0 H Hi Hl; [lia|]. cbn [seq flat_map].
  rewrite app_length. assert (length (g n0) <= m)%nat by (apply H; lia).
  destruct (Nat.eq_dec i n0) as [->|].
  - assert (length (flat_map g (seq (S n0) n)) <= n * m)%nat
      by (apply flat_map_len_le; intros k Hk; apply H; lia). cbn. lia.
  - assert (length (flat_map g (seq (S n0) n)) < n * m)%nat by (apply IH; auto; [intros k Hk; apply H|]; lia).
    cbn. lia.
Qed.

Lemma select_le b x : increasing nt (T b) -> (length (select nt times values b x) <= 1)%nat.
Proof. intros H. rewrite select_len by auto. destruct (in_range_dec b x); lia. Qed.

Lemma abtsi_out_of_range nq t q b : (forall b, (b < nb)%nat -> increasing nt (T b)) ->
  (q < nq)%nat -> (b < nb)%nat -> ~ in_range nt (T b) (t q b) ->
  abtsi nt nb times values nq t = None.
Proof.
  intros HT Hq Hb HR. unfold abtsi.
  assert (L : (length (flat_map (fun b => flat_map (fun q => select nt times values b (t q b)) (seq 0 nq)) (seq 0 nb))
     < nb * nq)%nat).
  { apply flat_map_len_lt with (i := b); [|lia|].
    - intros k Hk. rewrite <- (Nat.mul_1_r nq) at 2. apply flat_map_len_le. intros j _.
      apply select_le, HT. lia.
    - rewrite <- (Nat.mul_1_r nq) at 2. apply flat_map_len_lt with (i := q); [|lia|].
      + intros j _. apply select_le; auto.
      + rewrite select_out; auto. }
  destruct (Nat.eqb_spec (length (flat_map (fun b => flat_map (fun q => select nt times values b (t q b)) (seq 0 nq)) (seq 0 nb))) (nb * nq)); [lia|reflexivity].
Qed.

(** One-dimensional queries. *)
Lemma abtsi1_in_range t : (forall b, (b < nb)%nat -> increasing nt (T b)) ->
  (forall b, (b < nb)%nat -> in_range nt (T b) (t b)) ->
  exists l, length l = nb /\
    abtsi1 nt nb times values t = (match l with [r] => Scalar r | _ => Vec l end) /\
    forall b, (b < nb)%nat -> interpolates nt (T b) (V b) (t b) (nth b l 0).
Proof.
  intros HT HR.
  destruct (flat_map_single (fun b => select nt times values b (t b)) 0 0 nb) as [L N].
  { intros b Hb. destruct (select_in b (t b)) as (y & E & _); eauto; [apply HT|apply HR]; lia. }
  eexists. split; [exact L|]. split.
  { unfold abtsi1. now destruct (flat_map _ (seq 0 nb)) as [|? [|? ?]]. }
  intros b Hb.
  destruct (select_in b (t b)) as (y & E & I); auto. specialize (N b Hb). cbn [Nat.add] in N.
  rewrite E in N. injection N as <-. auto.
Qed.

Lemma abtsi1_out_of_range t b : (forall b, (b < nb)%nat -> increasing nt (T b)) ->
  (b < nb)%nat -> ~ in_range nt (T b) (t b) ->
  match abtsi1 nt nb times values t with Scalar _ => (1 < nb)%nat | Vec l => (length l < nb)%nat end.
Proof.
  intros HT Hb HR.
  assert (L : (length (flat_map (fun b => select nt times values b (t b)) (seq 0 nb)) < nb * 1)%nat).
  { apply flat_map_len_lt with (i := b); [|lia|].
    - intros k Hk. apply select_le, HT. lia.
    - rewrite select_out; auto. }
  unfold abtsi1. rewrite Nat.mul_1_r in L.
  destruct (flat_map (fun b => select nt times values b (t b)) (seq 0 nb)) as [|r [|r' l]]; cbn in *; lia.
Qed.

(** ** Counting *)
Lemma count_le_spec b x c : increasing nt (T b) -> (c <= nt)%nat ->
  (forall k, (k < c)%nat -> times k b <= x) -> (forall k, (c <= k < nt)%nat -> x < times k b) ->
  count_le nt times b x = c.
Proof.
  intros _ Hc Hl Hr. unfold count_le.
  replace (seq 0 nt) with (seq 0 c ++ seq c (nt - c)) by (rewrite <- seq_app; f_equal; lia).
  rewrite filter_app, app_length.
  assert (A : forall n0 n, (forall k, (n0 <= k < n0 + n)%nat -> leb (times k b - x) 0 = true) ->
     length (filter (fun k => leb (times k b - x) 0) (seq n0 n)) = n).
  { intros n0 n. revert n0. induction n as [|n IH]; intros n0 H; cbn; [reflexivity|].
    rewrite H by lia. cbn. now rewrite IH by (intros k Hk; apply H; lia). }
  assert (B : forall n0 n, (forall k, (n0 <= k < n0 + n)%nat -> leb (times k b - x) 0 = false) ->
     length (filter (fun k => leb (times k b - x) 0) (seq n0 n)) = 0%nat).
  { intros n0 n. revert n0. induction n as [|n IH]; intros n0 H; cbn; [reflexivity|].
    rewrite H by lia. apply IH. intros k Hk. apply H. lia. }
  rewrite A, B; [lia| |].
  - intros k Hk. apply leb_false. specialize (Hr k). lra || (assert (x < times k b) by (apply Hr; lia); lra).
  - intros k Hk. apply leb_true. specialize (Hl k). assert (times k b <= x) by (apply Hl; lia). lra.
Qed.

(** x in [T i, T (i+1)): index i+1; x = last time: index 0. *)
Lemma gi_in_range b x : increasing nt (T b) -> in_range nt (T b) x ->
  (exists i, (S i < nt)%nat /\ times i b <= x < times (S i) b /\ gi nt times b x = S i) \/
  (x = times (nt - 1)%nat b /\ gi nt times b x = 0%nat).
Proof.
  intros HT [H0 H1]. destruct (Req_EM_T x (times (nt - 1)%nat b)) as [E|E].
  - right. split; auto. unfold gi. rewrite (count_le_spec b x nt); auto.
    + apply Nat.mod_same. lia.
    + intros k Hk. subst x. apply (increasing_le nt (T b)); auto; lia.
    + intros k Hk. lia.
  - left.
    assert (G : forall n, (n < nt)%nat -> x < times n b -> exists i, (i < n)%nat /\ times i b <= x < times (S i) b).
    { induction n as [|n IH]; intros Hn Hx; [lra|].
      destruct (Rle_lt_dec (times n b) x).
      - exists n. split; [lia|lra].
      - destruct IH as (i & Hi & Hb); [lia|auto|]. exists i. split; [lia|auto]. }
    destruct (G (nt - 1)%nat) as (i & Hi & Hb); [lia|lra|].
    exists i. split; [lia|]. split; [auto|]. unfold gi. rewrite (count_le_spec b x (S i)); auto.
    + apply Nat.mod_small. lia.
    + lia.
    + intros k Hk. assert (times k b <= times i b) by (apply (increasing_le nt (T b)); auto; lia). lra.
    + intros k Hk. assert (times (S i) b <= times k b) by (apply (increasing_le nt (T b)); auto; lia). lra.
Qed.

Lemma last_node b y : increasing nt (T b) -> y = values (nt - 1)%nat b ->
  interpolates nt (T b) (V b) (times (nt - 1)%nat b) y.
Proof.
  intros HT ->. exists (nt - 2)%nat. replace (S (nt - 2)) with (nt - 1)%nat by lia.
  assert (times (nt - 2)%nat b < times (nt - 1)%nat b) by (apply HT; lia).
  split; [lia|]. split; [lra|]. field. lra.
Qed.

Lemma batch_tsi_in_range t b : increasing nt (T b) -> in_range nt (T b) (t b) ->
  interpolates nt (T b) (V b) (t b) (batch_tsi nt times values t b).
Proof.
  intros HT HR. unfold batch_tsi. destruct (gi_in_range b (t b) HT HR) as [(i & Hi & Hx & ->)|[E ->]]; cbn [pred_index].
  - exists i. split; [auto|]. split; [lra|]. unfold slope. ring.
  - rewrite E. apply last_node; auto. ring.
Qed.

Lemma interp_batch_in_range t b : increasing nt (T b) -> in_range nt (T b) (t b) ->
  interpolates nt (T b) (V b) (t b) (interp_batch nt times values t b).
Proof.
  intros HT HR. unfold interp_batch. destruct (gi_in_range b (t b) HT HR) as [(i & Hi & Hx & ->)|[E ->]]; cbn [pred_index].
  - exists i. split; [auto|]. split; [lra|]. ring.
  - rewrite E. apply last_node; auto. ring.
Qed.

(** Queries before the first time: extrapolation of the last segment. *)
Lemma gi_left b x : increasing nt (T b) -> x < times 0%nat b -> gi nt times b x = 0%nat.
Proof.
  intros HT Hx. unfold gi. rewrite (count_le_spec b x 0); auto; try lia.
  - apply Nat.mod_0_l. lia.
  - intros k Hk. assert (times 0%nat b <= times k b) by (apply (increasing_le nt (T b)); auto; lia). lra.
Qed.

Lemma batch_tsi_left t b : increasing nt (T b) -> t b < times 0%nat b ->
  batch_tsi nt times values t b
  = values (nt - 1)%nat b + (values (nt - 1)%nat b - values (nt - 2)%nat b)
      / (times (nt - 1)%nat b - times (nt - 2)%nat b) * (t b - times (nt - 1)%nat b).
Proof.
  intros HT Hx. unfold batch_tsi. rewrite gi_left by auto. cbn [pred_index]. unfold slope.
  replace (S (nt - 1 - 1)) with (nt - 1)%nat by lia. replace (nt - 1 - 1)%nat with (nt - 2)%nat by lia.
  reflexivity.
Qed.

Lemma interp_batch_left t b : increasing nt (T b) -> t b < times 0%nat b ->
  interp_batch nt times values t b
  = values (nt - 1)%nat b + (values 0%nat b - values (nt - 1)%nat b)
      / (times 0%nat b - times (nt - 1)%nat b) * (t b - times (nt - 1)%nat b).
Proof. intros HT Hx. unfold interp_batch. now rewrite gi_left by auto. Qed.

(** ** Cheater *)
Lemma first_true_spec p : forall fuel k i, (k <= i < k + fuel)%nat -> p i = true ->
  (forall j, (k <= j < i)%nat -> p j = false) -> first_true p fuel k = i.
Proof.
  induction fuel as [|fuel IH]; intros k i Hi Hp Hj; [lia|]. cbn.
  destruct (p k) eqn:E.
  - destruct (Nat.eq_dec k i); auto. rewrite Hj in E; [discriminate|lia].
  - apply IH; auto.
    + destruct (Nat.eq_dec k i); [subst; congruence|lia].
    + intros j Hj'. apply Hj. lia.
Qed.

Lemma cheat_gi_spec x i : increasing nt (T 0%nat) -> (S i < nt)%nat ->
  times i 0%nat < x <= times (S i) 0%nat -> cheat_gi nt times x = S i.
Proof.
  intros HT Hi Hx. unfold cheat_gi. rewrite (first_true_spec _ nt 0 (S i)); [lia|lia| |].
  - apply leb_true. lra.
  - intros j Hj. apply leb_false.
    assert (times j 0%nat <= times i 0%nat) by (apply (increasing_le nt (T 0%nat)); auto; lia). lra.
Qed.

Lemma cheat_gi_first x : (0 < nt)%nat -> x <= times 0%nat 0%nat -> cheat_gi nt times x = 1%nat.
Proof.
  intros Hn Hx. unfold cheat_gi. rewrite (first_true_spec _ nt 0 0); [lia|lia| |lia].
  now apply leb_true.
Qed.

Lemma cheater_zero t : increasing nt (T 0%nat) -> in_range nt (T 0%nat) (t 0%nat) ->
  interpolates nt (T 0%nat) (V 0%nat) (t 0%nat) (cheater nt times values t 0%nat).
Proof.
  intros HT HR. unfold cheater.
  destruct (loc_exists 0 (t 0%nat) HT HR) as (i & Hi & L). apply loc_spec in L; auto.
  destruct L as [L|[-> L]].
  - rewrite (cheat_gi_spec (t 0%nat) i); auto. replace (S i - 1)%nat with i by lia.
    exists i. split; [auto|]. split; [lra|]. unfold slope. ring.
  - rewrite cheat_gi_first by (lia || lra). cbn [Nat.sub].
    assert (times 0%nat 0%nat < times 1%nat 0%nat) by (apply HT; lia).
    exists 0%nat. split; [auto|]. split; [lra|]. unfold slope. ring.
Qed.

Lemma cheater_other t b i : increasing nt (T 0%nat) -> (S i < nt)%nat ->
  times i 0%nat < t 0%nat <= times (S i) 0%nat -> times i b <= t b <= times (S i) b ->
  interpolates nt (T b) (V b) (t b) (cheater nt times values t b).
Proof.
  intros HT Hi Hx Hb. unfold cheater. rewrite (cheat_gi_spec (t 0%nat) i); auto.
  replace (S i - 1)%nat with i by lia. exists i. split; [auto|]. split; [lra|]. unfold slope. ring.
Qed.

Lemma cheater_other_first t b : (0 < nt)%nat -> t 0%nat <= times 0%nat 0%nat -> 
  times 0%nat b <= t b <= times 1%nat b ->
  interpolates nt (T b) (V b) (t b) (cheater nt times values t b).
Proof.
  intros Hn Hx Hb. unfold cheater. rewrite cheat_gi_first by auto. cbn [Nat.sub].
  exists 0%nat. split; [lia|]. split; [lra|]. unfold slope. ring.
Qed.
End Proofs.

Lemma interp_single_in_range nt times values t b : (2 <= nt)%nat -> increasing nt times -> in_range nt times t ->
  interpolates nt times (fun k => values k b) t (interp_single nt times values t b).
Proof.
  intros Hn HT HR. unfold interp_single.
  destruct (gi_in_range nt (fun k _ => times k) Hn 0 t HT HR) as [(i & Hi & Hx & ->)|[E ->]]; cbn [pred_index].
  - exists i. split; [auto|]. cbv beta in Hx. split; [lra|]. ring.
  - rewrite E. exists (nt - 2)%nat. replace (S (nt - 2)) with (nt - 1)%nat by lia.
    assert (times (nt - 2)%nat < times (nt - 1)%nat) by (apply HT; lia).
    assert (times 0%nat < times (nt - 1)%nat) by (apply HT; lia).
    split; [lia|]. split; [lra|]. field. split; lra.
Qed.
