(** Continuously differentiable functions of finitely many real variables, at and near a point: closure under the operations of the constitutive models. *)
From Coq Require Import Reals Lra Lia.
From Verif Require Import Torch Deriv VCStep.
Local Open Scope R_scope.

Section Smooth.
Variables (N : nat) (v0 : nat -> R).
Definition near (r : R) (v : nat -> R) : Prop := forall j, (j < N)%nat -> Rabs (v j - v0 j) <= r.
Definition cont (F : (nat -> R) -> R) : Prop := forall e, 0 < e -> exists r, 0 < r /\ forall v, near r v -> Rabs (F v - F v0) < e.
Definition curve (c : R -> nat -> R) (th : R) (w : nat -> R) : Prop := forall j, (j < N)%nat -> D (fun u => c u j) th (w j).
(** F has the gradient G near v0, and F and G are continuous at v0. *)
Definition gradient (F : (nat -> R) -> R) (G : (nat -> R) -> nat -> R) : Prop :=
  cont F /\ (forall j, (j < N)%nat -> cont (fun v => G v j)) /\
  exists r, 0 < r /\ forall c th w, near r (c th) -> curve c th w -> D (fun u => F (c u)) th (sum N (fun j => G (c th) j * w j)).
Definition smooth (F : (nat -> R) -> R) : Prop := exists G, gradient F G.

Lemma near0 r : 0 <= r -> near r v0.
Proof. intros H j _. rewrite Rminus_diag_eq, Rabs_R0; auto. Qed.
Lemma near_le r r' v : r <= r' -> near r v -> near r' v.
Proof. intros H K j Hj. specialize (K j Hj). lra. Qed.
Ltac nmin := match goal with H : near (Rmin ?a ?b) ?v |- near ?a ?v => apply (near_le _ _ _ (Rmin_l a b) H) | H : near (Rmin ?a ?b) ?v |- near ?b ?v => apply (near_le _ _ _ (Rmin_r a b) H) end.

(** ** Continuity *)
Lemma cont_ext F F' : (forall v, F v = F' v) -> cont F -> cont F'.
Proof. intros H K e He. destruct (K e He) as (r & Hr & A). exists r. split; auto. intros v Hv. rewrite <- !H. auto. Qed.
Lemma cont_loc F F' r : 0 < r -> (forall v, near r v -> F v = F' v) -> cont F -> cont F'.
Proof.
  intros Hr H K e He. destruct (K e He) as (q & Hq & A). exists (Rmin r q). split; [now apply Rmin_pos|]. intros v Hv.
  rewrite <- !H; [apply A; nmin|apply near0; lra|nmin].
Qed.
Lemma cont_const a : cont (fun _ => a).
Proof. intros e He. exists 1. split; [lra|]. intros. rewrite Rminus_diag_eq, Rabs_R0; auto. Qed.
Lemma cont_coord j : (j < N)%nat -> cont (fun v => v j).
Proof. intros Hj e He. exists (e / 2). split; [lra|]. intros v Hv. specialize (Hv j Hj). lra. Qed.
Lemma cont_plus F F' : cont F -> cont F' -> cont (fun v => F v + F' v).
Proof.
  intros A B e He. destruct (A (e / 2) ltac:(lra)) as (r & Hr & Ar). destruct (B (e / 2) ltac:(lra)) as (q & Hq & Bq).
  exists (Rmin r q). split; [now apply Rmin_pos|]. intros v Hv. specialize (Ar v ltac:(nmin)). specialize (Bq v ltac:(nmin)).
  replace (F v + F' v - (F v0 + F' v0)) with ((F v - F v0) + (F' v - F' v0)) by ring. eapply Rle_lt_trans; [apply Rabs_triang|lra].
Qed.
Definition cont1 (f : R -> R) (x : R) : Prop := forall e, 0 < e -> exists r, 0 < r /\ forall y, Rabs (y - x) < r -> Rabs (f y - f x) < e.
Lemma D_cont1 f x l : D f x l -> cont1 f x.
Proof. intros H e He. exact (D_cont f x l H e He). Qed.
Lemma cont_comp f F : cont1 f (F v0) -> cont F -> cont (fun v => f (F v)).
Proof. intros A B e He. destruct (A e He) as (r & Hr & Ar). destruct (B r Hr) as (q & Hq & Bq). exists q. split; auto. Qed.
Lemma cont_mult F F' : cont F -> cont F' -> cont (fun v => F v * F' v).
Proof.
  intros A B e He. set (a := Rabs (F v0)). set (b := Rabs (F' v0)). assert (a0 : 0 <= a) by apply Rabs_pos. assert (b0 : 0 <= b) by apply Rabs_pos.
  set (k := Rmin 1 (e / (a + b + 1))). assert (k0 : 0 < k) by (apply Rmin_pos; [lra|apply Rdiv_lt_0_compat; lra]).
  destruct (A k k0) as (r & Hr & Ar). destruct (B k k0) as (q & Hq & Bq). exists (Rmin r q). split; [now apply Rmin_pos|]. intros v Hv.
  specialize (Ar v ltac:(nmin)). specialize (Bq v ltac:(nmin)).
  replace (F v * F' v - F v0 * F' v0) with ((F v - F v0) * (F' v - F' v0) + ((F v - F v0) * F' v0 + F v0 * (F' v - F' v0))) by ring.
  pose proof (Rabs_triang ((F v - F v0) * (F' v - F' v0)) ((F v - F v0) * F' v0 + F v0 * (F' v - F' v0))) as T1.
  pose proof (Rabs_triang ((F v - F v0) * F' v0) (F v0 * (F' v - F' v0))) as T2. rewrite (Rabs_mult (F v - F v0) (F' v - F' v0)) in T1. rewrite (Rabs_mult (F v - F v0) (F' v0)), (Rabs_mult (F v0)) in T2. fold a b in T2.
  set (p := Rabs (F v - F v0)) in *. set (s := Rabs (F' v - F' v0)) in *. assert (p0 : 0 <= p) by apply Rabs_pos. assert (s0 : 0 <= s) by apply Rabs_pos.
  assert (k1 : k <= 1) by apply Rmin_l. assert (k2 : k * (a + b + 1) <= e).
  { apply Rle_trans with (e / (a + b + 1) * (a + b + 1)); [apply Rmult_le_compat_r; [lra|apply Rmin_r]|]. rewrite div_mul; lra. }
  assert (p * s <= p * 1) by (apply Rmult_le_compat_l; lra). assert (p * b <= k * b) by (apply Rmult_le_compat_r; lra). assert (a * s <= a * k) by (apply Rmult_le_compat_l; lra).
  lra.
Qed.
Lemma cont_scal a F : cont F -> cont (fun v => a * F v).
Proof. intros H. apply (cont_mult (fun _ => a) F); [apply cont_const|exact H]. Qed.
Lemma cont_opp F : cont F -> cont (fun v => - F v).
Proof. intros H. apply (cont_ext (fun v => -1 * F v)); [intros; ring|]. now apply cont_scal. Qed.
Lemma cont_minus F F' : cont F -> cont F' -> cont (fun v => F v - F' v).
Proof. intros A B. apply (cont_plus F (fun v => - F' v) A). now apply cont_opp. Qed.
Lemma cont_sum n (F : nat -> (nat -> R) -> R) : (forall i, (i < n)%nat -> cont (F i)) -> cont (fun v => sum n (fun i => F i v)).
Proof. induction n as [|n IH]; intros H; cbn; [apply cont_const|]. apply (cont_plus (fun v => sum n (fun i => F i v))); [apply IH; intros; apply H; lia|apply H; lia]. Qed.
Lemma cont_squeeze F H r : 0 < r -> (forall v, near r v -> Rabs (F v) <= H v) -> H v0 = 0 -> cont H -> cont F.
Proof.
  intros Hr B Z K. assert (F0 : F v0 = 0). { specialize (B v0 ltac:(apply near0; lra)). rewrite Z in B. pose proof (Rabs_pos (F v0)). destruct (Req_dec (F v0) 0) as [|Q]; auto. apply Rabs_no_R0 in Q. lra. }
  intros e He. destruct (K e He) as (q & Hq & A). exists (Rmin r q). split; [now apply Rmin_pos|]. intros v Hv. rewrite F0, Rminus_0_r.
  specialize (B v ltac:(nmin)). specialize (A v ltac:(nmin)). rewrite Z, Rminus_0_r in A. pose proof (Rle_abs (H v)). lra.
Qed.
Lemma cont_pos F : cont F -> 0 < F v0 -> exists r, 0 < r /\ forall v, near r v -> 0 < F v.
Proof. intros K P. destruct (K (F v0) P) as (r & Hr & A). exists r. split; auto. intros v Hv. specialize (A v Hv). apply Rabs_def2 in A. lra. Qed.
Lemma cont_lt F F' : cont F -> cont F' -> F v0 < F' v0 -> exists r, 0 < r /\ forall v, near r v -> F v < F' v.
Proof. intros A B L. destruct (cont_pos (fun v => F' v - F v) (cont_minus _ _ B A) ltac:(lra)) as (r & Hr & H). exists r. split; auto. intros v Hv. specialize (H v Hv). lra. Qed.

(** ** Curves stay near *)
Lemma curve_near c th w r : 0 < r -> near (r / 2) (c th) -> curve c th w -> exists q, 0 < q /\ forall u, Rabs (u - th) < q -> near r (c u).
Proof.
  intros Hr Hn Hc.
  assert (K : forall n, (n <= N)%nat -> exists q, 0 < q /\ forall u, Rabs (u - th) < q -> forall j, (j < n)%nat -> Rabs (c u j - v0 j) <= r).
  { induction n as [|n IH]; intros L; [exists 1; split; [lra|intros; lia]|]. destruct IH as (q & Hq & A); [lia|].
    destruct (D_cont _ _ _ (Hc n ltac:(lia)) (r / 2) ltac:(lra)) as (p & Hp & B). exists (Rmin q p). split; [now apply Rmin_pos|].
    intros u Hu j Hj. destruct (Nat.eq_dec j n) as [->|Ne].
    - specialize (B u ltac:(eapply Rlt_le_trans; [exact Hu|apply Rmin_r])). specialize (Hn n ltac:(lia)).
      replace (c u n - v0 n) with ((c u n - c th n) + (c th n - v0 n)) by ring. eapply Rle_trans; [apply Rabs_triang|]. lra.
    - apply A; [eapply Rlt_le_trans; [exact Hu|apply Rmin_l]|lia]. }
  destruct (K N (Nat.le_refl N)) as (q & Hq & A). exists q. split; [exact Hq|]. intros u Hu j Hj. now apply A.
Qed.

(** ** Closure *)
Lemma smooth_cont F : smooth F -> cont F.
Proof. intros (G & H & _). exact H. Qed.
Lemma smooth_loc F F' r : 0 < r -> (forall v, near r v -> F v = F' v) -> smooth F -> smooth F'.
Proof.
  intros Hr E (G & A & B & q & Hq & H). exists G. split; [now apply (cont_loc F F' r)|]. split; [exact B|]. exists (Rmin (r / 2) q). split; [apply Rmin_pos; lra|].
  intros c th w Hn Hc. destruct (curve_near c th w r Hr ltac:(nmin) Hc) as (p & Hp & K).
  apply (D_ext_loc (fun u => F (c u)) _ th _ p Hp); [intros u Hu; apply E, K, Hu|]. apply H; [nmin|exact Hc].
Qed.
Lemma smooth_ext F F' : (forall v, F v = F' v) -> smooth F -> smooth F'.
Proof. intros H. apply (smooth_loc F F' 1); [lra|auto]. Qed.
Lemma smooth_const a : smooth (fun _ => a).
Proof.
  exists (fun _ _ => 0). split; [apply cont_const|]. split; [intros; apply cont_const|]. exists 1. split; [lra|]. intros c th w _ _.
  eapply D_eq; [apply D_const|]. rewrite sum_0; auto. intros; ring.
Qed.
Lemma smooth_coord j : (j < N)%nat -> smooth (fun v => v j).
Proof.
  intros Hj. exists (fun _ i => if Nat.eq_dec i j then 1 else 0). split; [now apply cont_coord|]. split; [intros; apply cont_const|]. exists 1. split; [lra|]. intros c th w _ Hc.
  eapply D_eq; [apply (Hc j Hj)|]. rewrite (sum_single N j); auto; [destruct (Nat.eq_dec j j); [ring|congruence]|]. intros i _ Ne. destruct (Nat.eq_dec i j); [congruence|ring].
Qed.
Lemma smooth_plus F F' : smooth F -> smooth F' -> smooth (fun v => F v + F' v).
Proof.
  intros (G & A & B & r & Hr & H) (G' & A' & B' & r' & Hr' & H'). exists (fun v j => G v j + G' v j). split; [now apply cont_plus|]. split; [intros j Hj; apply cont_plus; auto|].
  exists (Rmin r r'). split; [now apply Rmin_pos|]. intros c th w Hn Hc. eapply D_eq; [apply (D_plus _ _ _ _ _ (H c th w ltac:(nmin) Hc) (H' c th w ltac:(nmin) Hc))|].
  rewrite <- sum_plus. apply sum_ext. intros; ring.
Qed.
Lemma smooth_mult F F' : smooth F -> smooth F' -> smooth (fun v => F v * F' v).
Proof.
  intros (G & A & B & r & Hr & H) (G' & A' & B' & r' & Hr' & H'). exists (fun v j => G v j * F' v + F v * G' v j).
  split; [now apply cont_mult|]. split; [intros j Hj; apply cont_plus; apply cont_mult; auto|].
  exists (Rmin r r'). split; [now apply Rmin_pos|]. intros c th w Hn Hc. eapply D_eq; [apply (D_mult _ _ _ _ _ (H c th w ltac:(nmin) Hc) (H' c th w ltac:(nmin) Hc))|].
  rewrite <- sum_scal_r, <- sum_scal, <- sum_plus. apply sum_ext. intros; ring.
Qed.
(** composition with a continuously differentiable function of one variable *)
Lemma smooth_comp f f' F r : 0 < r -> (forall x, Rabs (x - F v0) < r -> D f x (f' x)) -> cont1 f' (F v0) -> smooth F -> smooth (fun v => f (F v)).
Proof.
  intros Hr Df Cf (G & A & B & q & Hq & H). exists (fun v j => f' (F v) * G v j).
  assert (Cf0 : cont1 f (F v0)). { apply (D_cont1 _ _ (f' (F v0))), Df. rewrite Rminus_diag_eq, Rabs_R0; auto. }
  split; [now apply cont_comp|]. split; [intros j Hj; apply cont_mult; [now apply cont_comp|auto]|].
  destruct (A r Hr) as (p & Hp & K). exists (Rmin p q). split; [now apply Rmin_pos|]. intros c th w Hn Hc.
  eapply D_eq; [apply (D_comp f _ _ _ (f' (F (c th))) (H c th w ltac:(nmin) Hc)), Df, K; nmin|]. cbv beta. rewrite <- sum_scal. apply sum_ext. intros; ring.
Qed.
Lemma smooth_scal a F : smooth F -> smooth (fun v => a * F v).
Proof. intros H. apply (smooth_mult (fun _ => a) F); [apply smooth_const|exact H]. Qed.
Lemma smooth_opp F : smooth F -> smooth (fun v => - F v).
Proof. intros H. apply (smooth_ext (fun v => -1 * F v)); [intros; ring|]. now apply smooth_scal. Qed.
Lemma smooth_minus F F' : smooth F -> smooth F' -> smooth (fun v => F v - F' v).
Proof. intros A B. apply (smooth_plus F (fun v => - F' v) A). now apply smooth_opp. Qed.
Lemma smooth_sum n (F : nat -> (nat -> R) -> R) : (forall i, (i < n)%nat -> smooth (F i)) -> smooth (fun v => sum n (fun i => F i v)).
Proof. induction n as [|n IH]; intros H; cbn; [apply smooth_const|]. apply (smooth_plus (fun v => sum n (fun i => F i v))); [apply IH; intros; apply H; lia|apply H; lia]. Qed.
Lemma smooth_exp F : smooth F -> smooth (fun v => exp (F v)).
Proof.
  apply (smooth_comp exp exp F 1); [lra| |].
  - intros x _. eapply D_eq; [apply (D_exp (fun y => y) x 1 (D_id x))|ring].
  - apply (D_cont1 _ _ (exp (F v0) * 1)). apply (D_exp (fun y => y)), D_id.
Qed.
Lemma smooth_ln F : 0 < F v0 -> smooth F -> smooth (fun v => ln (F v)).
Proof.
  intros P. apply (smooth_comp ln (fun x => / x) F (F v0) P).
  - intros x Hx. apply Rabs_def2 in Hx. eapply D_eq; [apply (D_ln (fun y => y) x 1 ltac:(lra) (D_id x))|ring].
  - apply (D_cont1 _ _ (- 1 / (F v0 * F v0))). apply (D_inv (fun y => y)); [lra|apply D_id].
Qed.
Lemma smooth_inv F : 0 < F v0 -> smooth F -> smooth (fun v => / F v).
Proof.
  intros P H. destruct (cont_pos F (smooth_cont _ H) P) as (r & Hr & A). apply (smooth_loc (fun v => exp (- ln (F v))) _ r Hr).
  - intros v Hv. rewrite exp_Ropp, exp_ln; auto.
  - now apply smooth_exp, smooth_opp, smooth_ln.
Qed.
Lemma smooth_div F F' : 0 < F' v0 -> smooth F -> smooth F' -> smooth (fun v => F v / F' v).
Proof. intros P A B. apply smooth_mult; [exact A|now apply smooth_inv]. Qed.
End Smooth.

(** ** One-sided powers with a variable exponent *)
Lemma mpow_pos n x : 0 < x -> mpow n x = exp (n * ln x).
Proof. intros H. unfold mpow. rewrite mac_pos, pow0_pos by lra. reflexivity. Qed.
Lemma mpow_exponent n n' x : x <= 1 -> 0 < n <= n' -> mpow n' x <= mpow n x.
Proof.
  intros H L. destruct (Rle_lt_dec x 0) as [P|P]; [rewrite !mpow_neg; lra|]. rewrite !mpow_pos by exact P.
  assert (Q : ln x <= 0). { rewrite <- ln_1. destruct H as [H|H]; [left; now apply ln_increasing|right; now rewrite H]. }
  assert (K : n' * ln x <= n * ln x). { pose proof (Rmult_le_compat_l (n' - n) (ln x) 0 ltac:(lra) Q). lra. }
  destruct K as [K|K]; [left; now apply exp_increasing|right; now rewrite K].
Qed.
Lemma mpow_ln n n1 x : 0 < x <= 1 -> 1 < n1 <= n -> Rabs (mpow n x * ln x) <= mpow (n1 - 1) x.
Proof.
  intros [P H] L. assert (Q : ln x <= 0). { rewrite <- ln_1. destruct H as [H|H]; [left; now apply ln_increasing|right; now rewrite H]. }
  assert (B : x * - ln x <= 1).
  { assert (Y : - ln x <= / x). { rewrite <- ln_Rinv by exact P. left. apply Rlt_le_trans with (/ x); [|lra]. apply Rlt_le_trans with (ln (exp (/ x))); [|rewrite ln_exp; lra].
      apply ln_increasing; [now apply Rinv_0_lt_compat|]. pose proof (exp_ineq1 (/ x)). pose proof (Rinv_0_lt_compat x P). specialize (H0 ltac:(lra)). lra. }
    pose proof (Rmult_le_compat_l x _ _ (Rlt_le _ _ P) Y) as Z. rewrite Rinv_r in Z; lra. }
  rewrite Rabs_mult, (Rabs_pos_eq (mpow n x)), (Rabs_left1 (ln x)) by (try apply mpow_ge0; exact Q).
  assert (M : mpow n x = mpow (n - 1) x * x). { rewrite !mpow_pos by exact P. rewrite <- (exp_ln x P) at 3. rewrite <- exp_plus. f_equal. ring. }
  rewrite M. pose proof (mpow_exponent (n1 - 1) (n - 1) x H ltac:(lra)) as X. pose proof (mpow_ge0 (n - 1) x) as X0.
  replace (mpow (n - 1) x * x * - ln x) with (mpow (n - 1) x * (x * - ln x)) by ring.
  pose proof (Rmult_le_compat_l _ _ _ X0 B). lra.
Qed.

Section Pow.
Variables (N : nat) (v0 : nat -> R) (n X : (nat -> R) -> R).
Hypotheses (Sn : smooth N v0 n) (SX : smooth N v0 X) (n1 : 1 < n v0).
Lemma mpow_zero_case : X v0 = 0 -> smooth N v0 (fun v => mpow (n v) (X v)).
Proof.
  intros X0. destruct Sn as (Gn & An & Bn & rn & Hrn & Hn). destruct SX as (GX & AX & BX & rX & HrX & HX).
  set (k := (1 + n v0) / 2). assert (k1 : 1 < k) by (unfold k; lra).
  (* near v0 the exponent exceeds k, is at most n v0 + 1, and the base is below one *)
  destruct (cont_lt N v0 (fun _ => k) n (cont_const N v0 k) An ltac:(unfold k; lra)) as (r1 & Hr1 & L1).
  destruct (cont_lt N v0 n (fun _ => n v0 + 1) An (cont_const N v0 _) ltac:(lra)) as (r2 & Hr2 & L2).
  destruct (cont_lt N v0 X (fun _ => 1) AX (cont_const N v0 1) ltac:(lra)) as (r3 & Hr3 & L3).
  set (r := Rmin (Rmin r1 r2) r3). assert (Hr : 0 < r) by (unfold r; repeat apply Rmin_pos; auto).
  assert (L : forall v, near N v0 r v -> k < n v < n v0 + 1 /\ X v < 1).
  { intros v Hv. assert (near N v0 r1 v /\ near N v0 r2 v /\ near N v0 r3 v) as (U1 & U2 & U3).
    { unfold r in Hv. repeat split; eapply near_le; [|exact Hv| |exact Hv| |exact Hv]; [eapply Rle_trans; [apply Rmin_l|apply Rmin_l]|eapply Rle_trans; [apply Rmin_l|apply Rmin_r]|apply Rmin_r]. }
    specialize (L1 v U1). specialize (L2 v U2). specialize (L3 v U3). lra. }
  assert (Ck : forall q, 0 < q -> cont N v0 (fun v => mpow q (X v))).
  { intros q Hq. apply (cont_comp N v0 (mpow q) X); [|exact AX]. intros e He. destruct (mpow_continuous q Hq (X v0) e He) as (dl & Hd & K). exists dl. split; [exact Hd|].
    intros y Hy. destruct (Req_dec y (X v0)) as [->|Ne]; [rewrite Rminus_diag_eq, Rabs_R0; auto|]. apply (K y). split; [split; [exact I|auto]|exact Hy]. }
  exists (fun v j => n v * mpow (n v - 1) (X v) * GX v j + (if Rlt_dec 0 (X v) then mpow (n v) (X v) * ln (X v) else 0) * Gn v j).
  split; [|split].
  - apply (cont_squeeze N v0 _ (fun v => mpow k (X v)) r Hr); [|rewrite X0, mpow_neg; lra|apply Ck; lra].
    intros v Hv. destruct (L v Hv). rewrite Rabs_pos_eq by apply mpow_ge0. apply mpow_exponent; lra.
  - intros j Hj. apply cont_plus; apply cont_mult; auto.
    + apply (cont_squeeze N v0 _ (fun v => (n v0 + 1) * mpow (k - 1) (X v)) r Hr); [|rewrite X0, mpow_neg; lra|apply cont_scal, Ck; lra].
      intros v Hv. destruct (L v Hv). rewrite Rabs_pos_eq by (apply Rmult_le_pos; [lra|apply mpow_ge0]). apply Rmult_le_compat; try lra; [apply mpow_ge0|apply mpow_exponent; lra].
    + apply (cont_squeeze N v0 _ (fun v => mpow (k - 1) (X v)) r Hr); [|rewrite X0, mpow_neg; lra|apply Ck; lra].
      intros v Hv. destruct (L v Hv). destruct (Rlt_dec 0 (X v)); [apply mpow_ln; lra|rewrite Rabs_R0; apply mpow_ge0].
  - exists (Rmin (r / 2) (Rmin rn rX)). split; [repeat apply Rmin_pos; lra|]. intros c th w Hnr Hc.
    assert (near N v0 (r / 2) (c th) /\ near N v0 rn (c th) /\ near N v0 rX (c th)) as (U1 & U2 & U3).
    { repeat split; eapply near_le; [|exact Hnr| |exact Hnr| |exact Hnr]; [apply Rmin_l|eapply Rle_trans; [apply Rmin_r|apply Rmin_l]|eapply Rle_trans; [apply Rmin_r|apply Rmin_r]]. }
    pose proof (Hn c th w U2 Hc) as Dn. pose proof (HX c th w U3 Hc) as DX. destruct (curve_near N v0 c th w r Hr U1 Hc) as (p & Hp & K).
    destruct (L (c th)) as [Lt1 Lt2]. { apply (near_le N v0 (r / 2) r); [lra|exact U1]. }
    set (a := sum N (fun j => GX (c th) j * w j)) in *. set (b := sum N (fun j => Gn (c th) j * w j)) in *.
    match goal with |- D _ _ ?s => replace s with (n (c th) * mpow (n (c th) - 1) (X (c th)) * a + (if Rlt_dec 0 (X (c th)) then mpow (n (c th)) (X (c th)) * ln (X (c th)) else 0) * b) end.
    2:{ unfold a, b. rewrite <- !sum_scal, <- sum_plus. apply sum_ext. intros; ring. }
    destruct (Rtotal_order (X (c th)) 0) as [S1|[S1|S1]].
    + destruct (D_near_neg _ _ _ DX S1) as (q & Hq & Ng). destruct (Rlt_dec 0 (X (c th))); [lra|]. rewrite (mpow_neg (n (c th) - 1)) by lra.
      apply (D_ext_loc (fun _ => 0) _ th _ (Rmin p q)); [now apply Rmin_pos| |eapply D_eq; [apply D_const|ring]].
      intros u Hu. specialize (Ng u ltac:(eapply Rlt_le_trans; [exact Hu|apply Rmin_r])). destruct (L (c u)) as [Q _]; [apply K; eapply Rlt_le_trans; [exact Hu|apply Rmin_l]|]. rewrite mpow_neg; lra.
    + destruct (Rlt_dec 0 (X (c th))); [lra|]. rewrite (mpow_neg (n (c th) - 1)) by lra. eapply D_eq; [|rewrite Rmult_0_r, !Rmult_0_l, Rplus_0_r; reflexivity].
      apply (D_squeeze _ (fun u => mpow k (X (c u))) th p Hp); [|rewrite S1, mpow_neg; lra|].
      * intros u Hu. destruct (L (c u) (K u Hu)). rewrite !Rabs_pos_eq by apply mpow_ge0. apply mpow_exponent; lra.
      * eapply D_eq; [apply (D_macpow (fun u => X (c u)) th a k k1 DX)|]. cbv beta. rewrite S1, mac_neg, pow0_0; lra.
    + destruct (D_near_pos _ _ _ DX S1) as (q & Hq & Ps). destruct (Rlt_dec 0 (X (c th))); [|lra].
      apply (D_ext_loc (fun u => exp (n (c u) * ln (X (c u)))) _ th _ q Hq); [intros u Hu; rewrite mpow_pos; auto|].
      eapply D_eq; [apply D_exp, D_mult; [exact Dn|apply D_ln; [exact S1|exact DX]]|]. cbv beta. rewrite !mpow_pos by exact S1.
      replace (exp (n (c th) * ln (X (c th)))) with (exp ((n (c th) - 1) * ln (X (c th))) * X (c th)); [field; lra|].
      rewrite <- (exp_ln (X (c th))) at 2 by exact S1. rewrite <- exp_plus. f_equal. ring.
Qed.
Lemma smooth_mpow : smooth N v0 (fun v => mpow (n v) (X v)).
Proof.
  pose proof (smooth_cont _ _ _ SX) as CX. pose proof (smooth_cont _ _ _ Sn) as Cn.
  destruct (Rtotal_order (X v0) 0) as [H|[H|H]]; [|now apply mpow_zero_case|].
  - destruct (cont_lt N v0 X (fun _ => 0) CX (cont_const N v0 0) H) as (r & Hr & A). destruct (cont_lt N v0 (fun _ => 0) n (cont_const N v0 0) Cn ltac:(lra)) as (q & Hq & B).
    apply (smooth_loc N v0 (fun _ => 0) _ (Rmin r q)); [now apply Rmin_pos| |apply smooth_const]. intros v Hv. symmetry. apply mpow_neg.
    + apply B. eapply near_le; [apply Rmin_r|exact Hv].
    + left. apply A. eapply near_le; [apply Rmin_l|exact Hv].
  - destruct (cont_pos N v0 X CX H) as (r & Hr & A). apply (smooth_loc N v0 (fun v => exp (n v * ln (X v))) _ r Hr).
    + intros v Hv. rewrite mpow_pos; auto.
    + apply smooth_exp, smooth_mult; [exact Sn|now apply smooth_ln].
Qed.
End Pow.

(** ** The flow rate and its magnitude, when the flow stress is positive *)
Section FlowS.
Variables (N : nat) (v0 : nat -> R) (n eta k r : (nat -> R) -> R).
Hypotheses (Sn : smooth N v0 n) (Se : smooth N v0 eta) (Sk : smooth N v0 k) (Sr : smooth N v0 r) (n1 : 1 < n v0) (e0 : 0 < eta v0) (k0 : 0 < k v0).
Lemma flow_near : exists q, 0 < q /\ forall v, near N v0 q v -> 1 < n v /\ 0 < eta v /\ 0 < k v.
Proof.
  destruct (cont_lt N v0 (fun _ => 1) n (cont_const N v0 1) (smooth_cont _ _ _ Sn) n1) as (a & Ha & A). destruct (cont_pos N v0 eta (smooth_cont _ _ _ Se) e0) as (b & Hb & B).
  destruct (cont_pos N v0 k (smooth_cont _ _ _ Sk) k0) as (c & Hc & C). exists (Rmin a (Rmin b c)). split; [repeat apply Rmin_pos; auto|]. intros v Hv.
  repeat split; [apply A|apply B|apply C]; (eapply near_le; [|exact Hv]); [apply Rmin_l|eapply Rle_trans; [apply Rmin_r|apply Rmin_l]|eapply Rle_trans; [apply Rmin_r|apply Rmin_r]].
Qed.
Let half (q : (nat -> R) -> R) : smooth N v0 q -> smooth N v0 (fun v => mpow (n v) ((q v - k v) / eta v)).
Proof. intros Sq. apply (smooth_mpow N v0 n (fun v => (q v - k v) / eta v)); auto. apply smooth_div; auto. now apply smooth_minus. Qed.
Lemma smooth_flow : smooth N v0 (fun v => flow (n v) (eta v) (k v) (r v)).
Proof.
  destruct flow_near as (q & Hq & K). apply (smooth_loc N v0 (fun v => mpow (n v) ((r v - k v) / eta v) - mpow (n v) ((- r v - k v) / eta v)) _ q Hq).
  - intros v Hv. destruct (K v Hv) as (A & B & C). symmetry. apply (flow_split (n v) (eta v) (k v) (r v)); lra.
  - apply smooth_minus; [now apply half|]. apply (half (fun v => - r v)). now apply smooth_opp.
Qed.
Lemma smooth_abs_flow : smooth N v0 (fun v => Rabs (flow (n v) (eta v) (k v) (r v))).
Proof.
  destruct flow_near as (q & Hq & K). apply (smooth_loc N v0 (fun v => mpow (n v) ((r v - k v) / eta v) + mpow (n v) ((- r v - k v) / eta v)) _ q Hq).
  - intros v Hv. destruct (K v Hv) as (A & B & C). symmetry. apply (flow_split (n v) (eta v) (k v) (r v)); lra.
  - apply smooth_plus; [now apply half|]. apply (half (fun v => - r v)). now apply smooth_opp.
Qed.
End FlowS.

(** ** Gradients imply continuity; functions of the last coordinates only *)
Lemma gradient_intro N v0 F G : (forall j, (j < N)%nat -> cont N v0 (fun v => G v j)) ->
  (exists r, 0 < r /\ forall c th w, near N v0 r (c th) -> curve N c th w -> D (fun u => F (c u)) th (sum N (fun j => G (c th) j * w j))) -> gradient N v0 F G.
Proof.
  intros HG (r & Hr & H). split; [|split; [exact HG|exists r; auto]].
  (* bound of the gradient near v0 *)
  assert (B : forall k, (k <= N)%nat -> exists q M, 0 < q /\ 0 <= M /\ forall v, near N v0 q v -> forall w s, 0 <= s -> (forall j, (j < N)%nat -> Rabs (w j) <= s) -> Rabs (sum k (fun j => G v j * w j)) <= M * s).
  { induction k as [|k IH]; intros L; [exists 1, 0; repeat split; try lra; intros; cbn; rewrite Rabs_R0; lra|].
    destruct IH as (q & M & Hq & HM & A); [lia|]. destruct (HG k ltac:(lia) 1 Rlt_0_1) as (p & Hp & K).
    exists (Rmin q p), (M + (Rabs (G v0 k) + 1)). split; [now apply Rmin_pos|]. pose proof (Rabs_pos (G v0 k)). split; [lra|]. intros v Hv w s Hs Hw. cbn.
    eapply Rle_trans; [apply Rabs_triang|]. rewrite Rmult_plus_distr_r. apply Rplus_le_compat.
    - apply A; auto. eapply near_le; [apply Rmin_l|exact Hv].
    - rewrite Rabs_mult. specialize (K v ltac:(eapply near_le; [apply Rmin_r|exact Hv])).
      apply Rmult_le_compat; try apply Rabs_pos; [|apply Hw; lia]. pose proof (Rabs_triang (G v k - G v0 k) (G v0 k)) as T. replace (G v k - G v0 k + G v0 k) with (G v k) in T by ring. lra. }
  destruct (B N (Nat.le_refl N)) as (q & M & Hq & HM & A). intros e He. exists (Rmin (Rmin r q) (e / (M + 1) / 2)).
  assert (P : 0 < e / (M + 1) / 2) by (apply Rdiv_lt_0_compat; [apply Rdiv_lt_0_compat; lra|lra]).
  split; [repeat apply Rmin_pos; auto|]. intros v Hv.
  pose (c := fun u j => v0 j + u * (v j - v0 j)).
  assert (Nr : forall s u, near N v0 s v -> 0 <= u <= 1 -> near N v0 s (c u)).
  { intros s u Hs Hu j Hj. unfold c. replace (v0 j + u * (v j - v0 j) - v0 j) with (u * (v j - v0 j)) by ring. rewrite Rabs_mult, (Rabs_pos_eq u) by lra.
    specialize (Hs j Hj). pose proof (Rabs_pos (v j - v0 j)). pose proof (Rmult_le_compat_r _ u 1 H0 ltac:(lra)). lra. }
  assert (Cv : forall u, curve N c u (fun j => v j - v0 j)).
  { intros u j Hj. unfold c. eapply D_eq; [apply D_plus; [apply D_const|apply D_scal_r, D_id]|ring]. }
  assert (near N v0 r v /\ near N v0 q v /\ near N v0 (e / (M + 1) / 2) v) as (U1 & U2 & U3).
  { repeat split; eapply near_le; [|exact Hv| |exact Hv| |exact Hv]; [eapply Rle_trans; [apply Rmin_l|apply Rmin_l]|eapply Rle_trans; [apply Rmin_l|apply Rmin_r]|apply Rmin_r]. }
  destruct (MVT_cor2 (fun u => F (c u)) (fun u => sum N (fun j => G (c u) j * (v j - v0 j))) 0 1 Rlt_0_1) as (x & Ex & Hx).
  { intros u Hu. apply H; [now apply Nr|apply Cv]. }
  assert (c1 : c 1 = v) by (apply FunctionalExtensionality.functional_extensionality; intros j; unfold c; ring).
  assert (c0 : c 0 = v0) by (apply FunctionalExtensionality.functional_extensionality; intros j; unfold c; ring).
  rewrite c1, c0, Rminus_0_r, Rmult_1_r in Ex. rewrite Ex.
  eapply Rle_lt_trans; [apply (A (c x) ltac:(apply Nr; [exact U2|lra]) (fun j => v j - v0 j) (e / (M + 1) / 2) ltac:(lra) U3)|].
  assert (M * (e / (M + 1) / 2) <= (M + 1) * (e / (M + 1) / 2)) by (apply Rmult_le_compat_r; lra). replace ((M + 1) * (e / (M + 1) / 2)) with (e / 2) in H0 by (field; lra). lra.
Qed.
Section Lift.
Variables (m np : nat) (v0 : nat -> R).
Definition tail (v : nat -> R) : nat -> R := fun j => v (m + j)%nat.
Lemma near_tail r v : near (m + np) v0 r v -> near np (tail v0) r (tail v).
Proof. intros H j Hj. apply H. lia. Qed.
Lemma smooth_tail F : smooth np (tail v0) F -> smooth (m + np) v0 (fun v => F (tail v)).
Proof.
  assert (CT : forall F, cont np (tail v0) F -> cont (m + np) v0 (fun v => F (tail v))).
  { intros K HK e He. destruct (HK e He) as (q & Hq & HQ). exists q. split; [exact Hq|]. intros v Hv. apply HQ, near_tail, Hv. }
  intros (G & A & B & r & Hr & H). exists (fun v j => if Nat.ltb j m then 0 else G (tail v) (j - m)%nat). split; [now apply CT|]. split.
  - intros j Hj. destruct (Nat.ltb_spec j m); [apply cont_const|]. apply (CT (fun v => G v (j - m)%nat)), B. lia.
  - exists r. split; [exact Hr|]. intros c th w Hn Hc. eapply D_eq.
    + apply (H (fun u => tail (c u)) th (fun j => w (m + j)%nat)); [now apply near_tail|]. intros j Hj. apply (Hc (m + j)%nat). lia.
    + cbv beta. rewrite sum_app. rewrite (sum_0 m).
      * rewrite Rplus_0_l. apply sum_ext. intros j Hj. destruct (Nat.ltb_spec (m + j) m); [lia|]. replace (m + j - m)%nat with j by lia. reflexivity.
      * intros j Hj. destruct (Nat.ltb_spec j m); [ring|lia].
Qed.
End Lift.
