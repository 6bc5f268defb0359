(** Proofs about the GMRES iteration (Gmres.v): residual bound, optimality,
    exact preconditioners, existence of least-squares solutions. *)
From Coq Require Import Reals List Lra FunctionalExtensionality.
From mathcomp Require Import all_ssreflect all_algebra.
From Verif Require Import NewtonModel RField Gmres.
Import GRing.Theory.
Set Implicit Arguments. Unset Strict Implicit. Unset Printing Implicit Defensive.
Local Open Scope ring_scope.

Section One.
Variables (n : nat) (A : 'M[RF]_n) (b x0 : 'cV[RF]_n) (M : 'cV[RF]_n -> 'cV[RF]_n) (eps : R).
Variable lsq : nat -> (nat -> nat -> R) -> (nat -> R) -> nat -> R.
Notation bV := (bV A b x0 M eps). Notation bZ := (bZ A b x0 M eps). Notation bH := (bH A b x0 M eps). Notation bw := (bw A b x0 M eps).
Notation beta := (beta A b x0). Notation e1v := (e1v A b x0). Notation kcand := (kcand A b x0 M eps lsq). Notation kst := (kstate_at A b x0 M eps).
Notation lres := (lres A b x0 M eps).

Lemma sumsq_ext k H H' c y : (forall i j, (j < k)%N -> H i j = H' i j) -> sumsq_res k H c y = sumsq_res k H' c y.
Proof.
move=> E; apply: eq_bigr => i _; congr (Rsqr (Rminus _ _)); apply: eq_bigr => j _; by rewrite E.
Qed.
(** the candidate in terms of the final basis *)
Lemma kcandE k : kcand k = \sum_(j < k) ((lsq k (gH (kst k.+1)) e1v j : RF) *: bZ j) + x0.
Proof. by rewrite /Gmres.kcand; congr (_ + _); apply: eq_bigr => j _; rewrite kZ // ltnW // ltnS ltnW. Qed.
Lemma kmin k y : minimises k (gH (kst k.+1)) e1v (lsq k (gH (kst k.+1)) e1v) ->
  sumsq_res k bH e1v (lsq k (gH (kst k.+1)) e1v) <=R sumsq_res k bH e1v y.
Proof.
move=> Mi; have E := sumsq_ext e1v _ (fun i j (jk : (j < k)%N) => kH A b x0 M eps i (ltnW jk : (j < k.+1)%N)).
by rewrite -!E.
Qed.
Lemma sumsq_lres k y : sumsq_res k bH e1v y = \sum_(i < k.+1) (Rmult (lres k y i) (lres k y i) : RF).
Proof. by []. Qed.

Lemma sumsq_zero k : sumsq_res k bH e1v (fun _ => R0) = Rsqr beta.
Proof.
have Z i : \sum_(j < k) (Rmult (bH i j) R0 : RF) = R0 by rewrite big1 // => j _; exact: Rmult_0_r.
rewrite /sumsq_res big_ord_recl [X in _ + X]big1 => [|i _]; first by rewrite addr0 Z Rminus_0_r.
by rewrite Z Rminus_0_r /Gmres.e1v /= Rsqr_0.
Qed.

(** residual of the candidate *)
Lemma cand_bound k y : Rlt R0 eps -> beta <> R0 ->
  minimises k (gH (kst k.+1)) e1v (lsq k (gH (kst k.+1)) e1v) ->
  norm (b - A *m kcand k) <=R Rmult (sqrt (INR k.+1)) (sqrt (sumsq_res k bH e1v y)).
Proof.
move=> e0 b0 Mi; have h0 j : Rplus (norm (bw j)) eps <> R0 by have := norm_ge0 (bw j); lra.
rewrite kcandE residual_id //; last exact: Rlt_le.
apply: Rle_trans (norm_sum _) _.
apply: (Rle_trans _ (\sum_(i < k.+1) (Rabs (lres k (lsq k (gH (kst k.+1)) e1v) i) : RF))).
{ apply: sum_le => i; rewrite normZ -{2}[Rabs _]Rmult_1_r; apply: Rmult_le_compat_l; first exact: Rabs_pos.
  by apply: bV_le1 => //; apply: Rlt_le. }
apply: Rle_trans (sum_abs_sq _) _; apply: Rmult_le_compat_l; first exact: sqrt_pos.
apply: sqrt_le_1_alt; rewrite -sumsq_lres; exact: kmin.
Qed.
Lemma cand_bound0 k : Rlt R0 eps -> beta <> R0 ->
  minimises k (gH (kst k.+1)) e1v (lsq k (gH (kst k.+1)) e1v) ->
  norm (b - A *m kcand k) <=R Rmult (sqrt (INR k.+1)) (norm (b - A *m x0)).
Proof.
move=> e0 b0 Mi; have := cand_bound (fun _ => R0) e0 b0 Mi; rewrite sumsq_zero sqrt_Rsqr //; exact: norm_ge0.
Qed.

(** ** Without the eps shift: orthonormal basis, optimal candidate *)
Section Orth.
Hypotheses (e0 : eps = R0) (b0 : beta <> R0).
Definition delta (i j : nat) : R := if i == j then R1 else R0.
Lemma orth_dot K (V : nat -> 'cV[RF]_n) w : (forall i j, (i < K)%N -> (j < K)%N -> dot (V i) (V j) = delta i j) ->
  forall j i, (j <= K)%N -> (i < K)%N -> dot (V i) (orth_w V j w) = if (i < j)%N then R0 else dot (V i) w.
Proof.
move=> O; elim=> [//|j IH] i jK iK /=; rewrite dotDr dotN dotZr IH //; last exact: ltnW.
rewrite IH ?ltnn //; last exact: ltnW.
rewrite O // /delta ltnS; case: (ltngtP i j) => [ij|ji|->]; lra.
Qed.
Lemma orthonormal K : (forall j, (j < K)%N -> norm (bw j) <> R0) ->
  forall i j, (i <= K)%N -> (j <= K)%N -> dot (bV i) (bV j) = delta i j.
Proof.
elim: K => [|K IH] H.
- move=> [|i] [|j] // _ _; rewrite bV0 dotZl dotZr -norm_sq -/beta /delta /=; by field.
- have {}IH := IH (fun j jK => H j (ltnW jK)).
  have Z i : (i <= K)%N -> dot (bV i) (bV K.+1) = R0.
  { by move=> iK; rewrite bVS dotZr /Gmres.bw (@orth_dot K.+1) // ltnS iK Rmult_0_r. }
  have O : dot (bV K.+1) (bV K.+1) = R1.
  { have E : Rplus (norm (bw K)) eps = norm (bw K) by move: (norm _) => x; lra.
    rewrite bVS E dotZl dotZr -norm_sq; have q := H K (ltnSn K); by field. }
  move=> i j; rewrite (leq_eqVlt i) (leq_eqVlt j) !ltnS => /orP[/eqP->|iK] /orP[/eqP->|jK].
  + by rewrite O /delta eqxx.
  + by rewrite dotC Z // /delta gtn_eqF // ltnS.
  + by rewrite Z // /delta ltn_eqF // ltnS.
  + exact: IH.
Qed.
Lemma norm_comb K (a : nat -> R) : (forall j, (j < K)%N -> norm (bw j) <> R0) ->
  dot (\sum_(i < K.+1) ((a i : RF) *: bV i)) (\sum_(i < K.+1) ((a i : RF) *: bV i)) = \sum_(i < K.+1) (Rmult (a i) (a i) : RF).
Proof.
move=> H; have O := orthonormal H.
have ds k (f : 'I_k -> 'cV[RF]_n) u : dot (\sum_i f i) u = \sum_i (dot (f i) u : RF).
{ elim: k f => [|k IH] f; first by rewrite !big_ord0 dotC dot0r.
  by rewrite !big_ord_recr /= dotDl IH. }
rewrite ds; apply: eq_bigr => i _; rewrite dotZl dotC ds; congr Rmult.
rewrite (bigD1 i) //= big1 => [|j ji].
- by rewrite addr0 dotZl O ?leq_ord // /delta eqxx Rmult_1_r.
- rewrite dotZl O ?leq_ord // /delta; case: eqP => [e|_]; last exact: Rmult_0_r.
  by case/eqP: ji; apply: val_inj.
Qed.
Lemma cand_optimal k (y : nat -> R) : (forall j, (j < k)%N -> norm (bw j) <> R0) ->
  minimises k (gH (kst k.+1)) e1v (lsq k (gH (kst k.+1)) e1v) ->
  norm (b - A *m kcand k) <=R norm (b - A *m (\sum_(j < k) ((y j : RF) *: bZ j) + x0)).
Proof.
move=> H Mi.
have e1 : Rle R0 eps by rewrite e0; exact: Rle_refl.
rewrite kcandE !residual_id // /norm !norm_comb //; apply: sqrt_le_1_alt; rewrite -!sumsq_lres; exact: kmin.
Qed.
End Orth.

(** ** The search space contains the preconditioned Krylov space *)
Hypothesis Mlin : forall (a : R) u v, M ((a : RF) *: u + v) = (a : RF) *: M u + M v.
Fixpoint krylov (j : nat) : 'cV[RF]_n := match j with O => M (b - A *m x0) | S i => M (A *m krylov i) end.
Lemma M0 : M 0 = 0.
Proof. by have := Mlin R1 0 0; rewrite !scale1r addr0 => /eqP; rewrite -subr_eq0 opprD addrA subrr sub0r oppr_eq0 => /eqP. Qed.
Lemma Msum k (f : 'I_k -> 'cV[RF]_n) (a : nat -> R) : M (\sum_(i < k) ((a i : RF) *: f i)) = \sum_(i < k) ((a i : RF) *: M (f i)).
Proof.
elim: k f => [|k IH] f; first by rewrite !big_ord0 M0.
by rewrite !big_ord_recr /= addrC Mlin IH addrC.
Qed.
Definition in_span (k : nat) (u : 'cV[RF]_n) : Prop := exists y : nat -> R, u = \sum_(j < k) ((y j : RF) *: bZ j).
Lemma span_widen k k' u : (k <= k')%N -> in_span k u -> in_span k' u.
Proof.
move=> kk [y ->]; exists (fun j => if (j < k)%N then y j else R0).
rewrite (big_ord_widen _ (fun j => (y j : RF) *: bZ j) kk) big_mkcond /=; apply: eq_bigr => i _.
by case: ifP => // _; rewrite scale0r.
Qed.
Lemma span_comb k p (f : 'I_p -> 'cV[RF]_n) (a : 'I_p -> R) : (forall i, in_span k (f i)) -> in_span k (\sum_i ((a i : RF) *: f i)).
Proof.
elim: p f a => [|p IH] f a H.
- exists (fun _ => R0); rewrite big_ord0 big1 // => j _; exact: scale0r.
- rewrite big_ord_recr /=; have [y E] := IH (fun i => f (widen_ord (leqnSn p) i)) (fun i => a (widen_ord (leqnSn p) i)) (fun i => H _).
  have [y' E'] := H ord_max; exists (fun j => Rplus (y j) (Rmult (a ord_max) (y' j))).
  rewrite E E' scaler_sumr -big_split; apply: eq_bigr => j _; by rewrite /= scalerA -scalerDl.
Qed.
Lemma krylov_span j : beta <> R0 -> Rle R0 eps -> in_span j.+1 (krylov j).
Proof.
move=> b0 e0; elim: j => [|j IH].
- exists (fun _ => beta); rewrite big_ord_recl big_ord0 addr0 bZE bV0 /= -/(resid A b x0).
  have := Mlin (Rinv beta) (resid A b x0) 0; rewrite addr0 M0 addr0 => ->.
  rewrite scalerA; have -> : (beta : RF) * Rinv beta = 1 by exact: Rinv_r.
  by rewrite scale1r.
- have [y E] := IH; rewrite [krylov _]/= E mulmx_sumr.
  rewrite (eq_bigr (fun i : 'I_j.+1 => (y i : RF) *: (A *m bZ i))); last by move=> i _; rewrite -scalemxAr.
  rewrite (Msum (fun i : 'I_j.+1 => A *m bZ i) y); apply: span_comb => i; rewrite arnoldi //.
  rewrite (Msum (fun k : 'I_i.+2 => bV k) (fun k => bH k i)).
  apply: (@span_widen i.+2); first by rewrite ltnS ltn_ord.
  by exists (fun k => bH k i); apply: eq_bigr => k _; rewrite bZE.
Qed.
End One.

Lemma sum0_zero k (f : 'I_k -> R) : (forall i, Rle R0 (f i)) -> \sum_i (f i : RF) = R0 -> forall i, f i = R0.
Proof.
move=> P E i; apply: Rle_antisym => //; rewrite -E (bigD1 i) //= -[_ + _]/(Rplus _ _) -{1}[f i]Rplus_0_r.
apply: Rplus_le_compat_l; rewrite big_mkcond; apply: sum_nonneg => j; case: ifP => _ //; exact: Rle_refl.
Qed.
(** ** Without the eps shift the iteration terminates *)
Section Finish.
Variables (n : nat) (A : 'M[RF]_n) (b x0 : 'cV[RF]_n) (M : 'cV[RF]_n -> 'cV[RF]_n) (eps : R).
Variable lsq : nat -> (nat -> nat -> R) -> (nat -> R) -> nat -> R.
Notation bV := (bV A b x0 M eps). Notation bZ := (bZ A b x0 M eps). Notation bH := (bH A b x0 M eps). Notation bw := (bw A b x0 M eps).
Notation beta := (beta A b x0). Notation e1v := (e1v A b x0). Notation kcand := (kcand A b x0 M eps lsq). Notation kst := (kstate_at A b x0 M eps).
Hypotheses (e0 : eps = R0) (b0 : beta <> R0).
Hypothesis Mlin : forall (a : R) u v, M ((a : RF) *: u + v) = (a : RF) *: M u + M v.
Hypothesis Minj : forall u, M u = 0 -> u = 0.
Hypothesis Au : A \in unitmx.
Let e0' : Rle R0 eps. Proof. by rewrite e0; exact: Rle_refl. Qed.

Lemma breakdown : exists d, (d < n)%N /\ bw d = 0 /\ forall j, (j < d)%N -> norm (bw j) <> R0.
Proof.
have [d dn] : exists d, (d < n)%N && (bw d == 0).
{ apply: Classical_Prop.NNPP => N.
  have H j : (j < n)%N -> norm (bw j) <> R0.
  { move=> jn /norm_eq0 z; apply: N; exists j; by rewrite jn z eqxx. }
  have O := orthonormal e0 b0 H.
  pose V : 'M[RF]_(n, n.+1) := \matrix_(i, j) bV j i ord0.
  have VV : V^T *m V = 1%:M.
  { apply/matrixP => i j; rewrite !mxE.
    have -> : (i == j)%:R = (delta i j : RF) by rewrite /delta -val_eqE; case: eqP.
    rewrite -(O i j (leq_ord i) (leq_ord j)); apply: eq_bigr => l _; by rewrite !mxE. }
  have := mxrankM_maxr V^T V; rewrite VV mxrank1 => /leq_trans /(_ (rank_leq_row V)); by rewrite ltnn. }
have [m /andP[mn /eqP mz] mm] := ex_minnP (ex_intro (fun d => (d < n)%N && (bw d == 0)) d dn).
exists m; split=> //; split=> // j jm /norm_eq0 z.
have := mm j; rewrite z eqxx (ltn_trans jm mn) => /(_ isT); by rewrite leqNgt jm.
Qed.

(** at the breakdown the projected system has an exact solution *)
Lemma exact_y d : bw d = 0 -> (forall j, (j < d)%N -> norm (bw j) <> R0) ->
  exists y : nat -> R, (forall j, (d < j)%N -> y j = R0) /\ forall i, \sum_(j < d.+1) (bH i j * y j : RF) = e1v i.
Proof.
move=> wd H; have O := orthonormal e0 b0 H.
have last i j : (d < i)%N -> (j <= d)%N -> bH i j = R0.
{ move=> di; rewrite leq_eqVlt => /orP[/eqP->|jd]; rewrite bHE leqNgt.
  - by rewrite di /=; case: eqP => // _; rewrite wd norm0 e0 Rplus_0_r.
  - by rewrite (ltn_trans jd di) /= gtn_eqF // (leq_ltn_trans jd). }
have lastS i (y : nat -> R) : (d < i)%N -> \sum_(j < d.+1) (bH i j * y j : RF) = 0.
{ move=> di; rewrite big1 // => j _; rewrite last ?leq_ord //; exact: Rmult_0_l. }
pose K : 'M[RF]_d.+1 := \matrix_(i, j) bH i j.
have sumK (y : nat -> R) (i : 'I_d.+1) : \sum_(j < d.+1) (bH i j * y j : RF) = (K *m \col_j (y j : RF)) i ord0.
{ by rewrite mxE; apply: eq_bigr => j _; rewrite !mxE. }
have Ku : K \in unitmx.
{ rewrite -unitmx_tr -row_free_unit -kermx_eq0 -submx0; apply/row_subP => l; set u := row l _.
  have : u *m K^T = 0 by apply/sub_kermxP; exact: row_sub.
  move: u => u Ez; pose z (j : nat) : R := if insub j is Some i then u ord0 i else R0.
  have uz : u^T = \col_j (z j : RF) by apply/colP => j; rewrite !mxE /z valK.
  have Kz : K *m \col_j (z j : RF) = 0 by rewrite -uz -[K]trmxK -trmx_mul Ez trmx0.
  have : A *m (\sum_(j < d.+1) ((z j : RF) *: bZ j)) = 0.
  { rewrite A_sum // big_ord_recr /= lastS // scale0r addr0 big1 // => i _.
    by rewrite (sumK z i) Kz mxE scale0r. }
  move=> Az; have {}Az : \sum_(j < d.+1) ((z j : RF) *: bZ j) = 0.
  { by rewrite -(mulKmx Au (\sum_(j < d.+1) _)) Az mulmx0. }
  have Mz : M (\sum_(j < d.+1) ((z j : RF) *: bV j)) = 0.
  { rewrite (Msum Mlin (fun j : 'I_d.+1 => bV j) z) -[RHS]Az; apply: eq_bigr => j _; by rewrite bZE. }
  have := norm_comb e0 b0 z H; rewrite (Minj Mz) dot0r => q.
  have -> : u = 0; last exact: sub0mx.
  apply/rowP => i; rewrite mxE.
  have := @sum0_zero _ (fun i : 'I_d.+1 => Rmult (z i) (z i)) (fun i => Rle_0_sqr _) (esym q) i.
  by move/Rsqr_0_uniq; rewrite /z valK. }
pose y : nat -> R := fun j => if insub j is Some i then (invmx K *m \col_i (e1v i : RF)) i ord0 else R0.
have yc : \col_j (y j : RF) = invmx K *m \col_(i < d.+1) (e1v i : RF) by apply/colP => j; rewrite mxE /y valK.
exists y; split=> [j dj|i]; first by rewrite /y insubF // ltnNge dj.
case: (ltnP i d.+1) => id; last by rewrite lastS // /Gmres.e1v gtn_eqF // (leq_trans _ id).
by rewrite (sumK y (Ordinal id)) yc mulKVmx // mxE.
Qed.
Lemma exact_sumsq d (y : nat -> R) : (forall j, (d < j)%N -> y j = R0) ->
  (forall i, \sum_(j < d.+1) (bH i j * y j : RF) = e1v i) -> forall k, (d < k)%N -> sumsq_res k bH e1v y = R0.
Proof.
move=> Y E k dk; rewrite /sumsq_res big1 // => i _.
have -> : \sum_(j < k) (Rmult (bH i j) (y j) : RF) = e1v i; last by rewrite Rminus_eq_0 Rsqr_0.
rewrite -E (big_ord_widen _ (fun j => (bH i j * y j : RF)) dk) [RHS]big_mkcond /=; apply: eq_bigr => j _.
by case: ltnP => // dj; rewrite Y //; exact: Rmult_0_r.
Qed.
Lemma exact_finish d : bw d = 0 -> (forall j, (j < d)%N -> norm (bw j) <> R0) ->
  minimises d.+1 (gH (kst d.+2)) e1v (lsq d.+1 (gH (kst d.+2)) e1v) ->
  b - A *m kcand d.+1 = 0.
Proof.
move=> wd H Mi; have [y [Y E]] := exact_y wd H.
have := kmin y Mi; rewrite (exact_sumsq Y E) // sumsq_lres => q.
set yy := lsq _ _ _ in q *.
have Z i : (i < d.+2)%N -> Gmres.lres A b x0 M eps d.+1 yy i = R0.
{ move=> id; apply: Rsqr_0_uniq.
  apply: (@sum0_zero _ (fun i : 'I_d.+2 => Rmult (Gmres.lres A b x0 M eps d.+1 yy i) (Gmres.lres A b x0 M eps d.+1 yy i)) (fun i => Rle_0_sqr _) _ (Ordinal id)).
  apply: Rle_antisym => //; apply: sum_nonneg => j; exact: Rle_0_sqr. }
rewrite kcandE residual_id // big1 // => i _; rewrite Z // scale0r //.
Qed.
End Finish.

(** ** Exact preconditioners (LU of the matrix itself, Jacobi of a diagonal matrix) *)
Section Exact.
Variables (n : nat) (A : 'M[RF]_n) (b x0 : 'cV[RF]_n) (M : 'cV[RF]_n -> 'cV[RF]_n) (eps : R).
Variable lsq : nat -> (nat -> nat -> R) -> (nat -> R) -> nat -> R.
Notation bV := (bV A b x0 M eps). Notation bZ := (bZ A b x0 M eps). Notation bH := (bH A b x0 M eps). Notation bw := (bw A b x0 M eps).
Notation beta := (beta A b x0). Notation e1v := (e1v A b x0). Notation kcand := (kcand A b x0 M eps lsq). Notation kst := (kstate_at A b x0 M eps).
Hypotheses (MA : forall v, A *m M v = v) (e0 : Rlt R0 eps) (b0 : beta <> R0).

Lemma ex_V00 : dot (bV 0) (bV 0) = R1.
Proof. by rewrite bV0 dotZl dotZr -norm_sq -/beta; field. Qed.
Lemma orth_0 (V : nat -> 'cV[RF]_n) j : orth_w V j 0 = 0.
Proof. by elim: j => [//|j IH] /=; rewrite IH dot0r scale0r subr0. Qed.
Lemma ex_w0 : bw 0 = 0.
Proof. by rewrite /Gmres.bw bZE MA /= ex_V00 scale1r subrr. Qed.
Lemma ex_VS j : bV j.+1 = 0.
Proof.
elim: j => [|j IH]; rewrite bVS; first by rewrite ex_w0 scaler0.
have -> : bw j.+1 = orth_w bV j.+2 0 by rewrite /Gmres.bw bZE MA IH.
by rewrite orth_0 scaler0.
Qed.
Lemma ex_H00 : bH 0 0 = R1.
Proof. by rewrite bHE /= /orth_h /= bZE MA ex_V00. Qed.
Lemma ex_H0S j : bH 0 j.+1 = R0.
Proof. by rewrite bHE /= /orth_h /= bZE MA ex_VS dot0r. Qed.
Lemma ex_HS0 i : bH i.+1 0 = if i == 0%N then eps else R0.
Proof. by rewrite bHE /= eqSS; case: eqP => // _; rewrite ex_w0 norm0 Rplus_0_l. Qed.
Lemma ex_H1S j : bH 1 j.+1 = R0.
Proof. by rewrite bHE /= /orth_h /= ex_VS dotC dot0r. Qed.

Lemma sumsq2 k (H : nat -> nat -> R) (c y s : nat -> R) : (forall i, \sum_(j < k.+1) (Rmult (H i j) (y j) : RF) = s i) ->
  sumsq_res k.+1 H c y = Rplus (Rsqr (Rminus (c 0%N) (s 0%N))) (Rplus (Rsqr (Rminus (c 1%N) (s 1%N))) (\sum_(i < k) (Rsqr (Rminus (c i.+2) (s i.+2)) : RF))).
Proof.
move=> E; rewrite /sumsq_res (eq_bigr (fun i : 'I_k.+2 => (Rsqr (Rminus (c i) (s i)) : RF))); last by move=> i _; rewrite E.
by rewrite !big_ord_recl.
Qed.
Lemma ex_y0 k y : (0 < k)%N -> minimises k bH e1v y -> y 0%N = Rdiv beta (Rplus R1 (Rsqr eps)).
Proof.
case: k => [//|k] _ Mi; pose ys := Rdiv beta (Rplus R1 (Rsqr eps)).
have ep : Rlt R0 (Rplus R1 (Rsqr eps)) by have := Rle_0_sqr eps; lra.
have := Mi (fun j => if j == 0%N then ys else R0).
have -> : sumsq_res k.+1 bH e1v (fun j => if j == 0%N then ys else R0) = Rplus (Rsqr (Rminus beta ys)) (Rsqr (Rmult eps ys)).
{ have S i : \sum_(j < k.+1) (Rmult (bH i j) (if nat_of_ord j == 0%N then ys else R0) : RF) = Rmult (bH i 0) ys.
  { rewrite big_ord_recl big1 ?addr0 // => j _; exact: Rmult_0_r. }
  rewrite (sumsq2 _ S) big1 => [|i _].
  - by rewrite Rplus_0_r ex_H00 ex_HS0 /= Rmult_1_l /Gmres.e1v /= /Rminus Rplus_0_l -Rsqr_neg.
  - by rewrite ex_HS0 /= Rmult_0_l /Gmres.e1v /= Rminus_0_r Rsqr_0. }
have r0 : \sum_(j < k.+1) (Rmult (bH 0 j) (y j) : RF) = y 0%N.
{ by rewrite big_ord_recl big1 ?addr0 /= => [|j _]; [rewrite ex_H00 Rmult_1_l|rewrite /bump /= add1n ex_H0S; exact: Rmult_0_l]. }
have r1 : \sum_(j < k.+1) (Rmult (bH 1 j) (y j) : RF) = Rmult eps (y 0%N).
{ by rewrite big_ord_recl big1 ?addr0 /= => [|j _]; [rewrite ex_HS0|rewrite /bump /= add1n ex_H1S; exact: Rmult_0_l]. }
have : Rplus (Rsqr (Rminus beta (y 0%N))) (Rsqr (Rmult eps (y 0%N))) <=R sumsq_res k.+1 bH e1v y.
{ rewrite (sumsq2 _ (fun i => erefl)) r0 r1 {1 2}/Gmres.e1v /=.
  apply: Rplus_le_compat_l; rewrite Rminus_0_l -Rsqr_neg -{1}[Rsqr _]Rplus_0_r; apply: Rplus_le_compat_l.
  by apply: sum_nonneg => i; exact: Rle_0_sqr. }
move=> H1 H2; have H3 := Rle_trans _ _ _ H1 H2.
have E : Rminus (Rplus (Rsqr (Rminus beta (y 0%N))) (Rsqr (Rmult eps (y 0%N)))) (Rplus (Rsqr (Rminus beta ys)) (Rsqr (Rmult eps ys))) = Rmult (Rplus R1 (Rsqr eps)) (Rsqr (Rminus (y 0%N) ys)).
{ rewrite /ys /Rsqr; field; rewrite -/(Rsqr eps); lra. }
have Q : Rsqr (Rminus (y 0%N) ys) = R0.
{ have [q|//] := Rle_0_sqr (Rminus (y 0%N) ys). have := Rmult_lt_0_compat _ _ ep q; rewrite -E; lra. }
by have := Rsqr_0_uniq _ Q; rewrite -/ys; lra.
Qed.
(** the residual of every candidate from the second iteration on *)
Lemma ex_residual k : (0 < k)%N -> minimises k (gH (kst k.+1)) e1v (lsq k (gH (kst k.+1)) e1v) ->
  b - A *m kcand k = (Rdiv (Rsqr eps) (Rplus R1 (Rsqr eps)) : RF) *: (b - A *m x0).
Proof.
move=> k0 Mi.
have Mi' : minimises k bH e1v (lsq k (gH (kst k.+1)) e1v) by move=> y; apply: kmin.
have e1 := Rlt_le _ _ e0.
have Y := ex_y0 k0 Mi'; rewrite kcandE residual_id // big_ord_recl big1 ?addr0 => [|i _]; last first.
{ by rewrite lift0 ex_VS scaler0. }
rewrite /Gmres.lres; case: k k0 Mi Mi' Y => [//|k] _ Mi Mi' Y.
rewrite big_ord_recl big1 ?addr0 => [|j _]; last by rewrite lift0 ex_H0S mul0r.
rewrite [bH _ _]ex_H00 mul1r [lsq _ _ _ _]Y bV0 scalerA; congr (_ *: _).
have ep : Rplus R1 (Rsqr eps) <> R0 by have := Rle_0_sqr eps; lra.
by rewrite -[_ * _]/(Rmult _ _) /Gmres.e1v /=; field; split.
Qed.
End Exact.

(** ** Least-squares solutions exist *)
Section Lsq.
Variables (k : nat) (H : nat -> nat -> R) (c : nat -> R).
Let K : 'M[RF]_(k.+1, k) := \matrix_(i, j) H i j.
Let cc : 'cV[RF]_k.+1 := \col_i c i.
Let ty (y : nat -> R) : 'cV[RF]_k := \col_j y j.
Lemma dotE p (u v : 'cV[RF]_p) : dot u v = (u^T *m v) ord0 ord0.
Proof. by rewrite mxE; apply: eq_bigr => i _; rewrite mxE. Qed.
Lemma sumsq_dot y : sumsq_res k H c y = dot (cc - K *m ty y) (cc - K *m ty y).
Proof.
apply: eq_bigr => i _; rewrite !mxE /Rsqr -[_ * _]/(Rmult _ _).
have -> : \sum_j (K i j * ty y j ord0) = \sum_(j < k) (Rmult (H i j) (y j) : RF); last by [].
by apply: eq_bigr => j _; rewrite !mxE.
Qed.
Lemma normal_solvable : exists y : 'cV[RF]_k, K^T *m K *m y = K^T *m cc.
Proof.
have Z : (K^T :&: kermx K = 0)%MS.
{ apply/eqP; rewrite -submx0; apply/row_subP => i; set u := row i _.
  have u1 : (u <= K^T)%MS by apply: submx_trans (row_sub _ _) _; exact: capmxSl.
  have u2 : u *m K = 0 by apply/sub_kermxP; apply: submx_trans (row_sub _ _) _; exact: capmxSr.
  case/submxP: u1 => z E; rewrite E in u2 *.
  have : dot (K *m z^T) (K *m z^T) = R0 by rewrite dotE trmx_mul trmxK mulmxA u2 mul0mx mxE.
  move/dot_eq0 => q; have -> : z *m K^T = (K *m z^T)^T by rewrite trmx_mul trmxK.
  by rewrite q trmx0 sub0mx. }
have rk : (\rank (K^T *m K) = \rank K)%N by have := mxrank_mul_ker K^T K; rewrite Z mxrank0 addn0 mxrank_tr.
have sub : (K <= K^T *m K)%MS.
{ by rewrite -(geq_leqif (mxrank_leqif_sup (submxMl K^T K))) rk. }
have : (cc^T *m K <= K^T *m K)%MS by apply: submx_trans (submxMl _ _) sub.
case/submxP => y E; exists y^T; apply: trmx_inj; by rewrite !trmx_mul !trmxK -E.
Qed.
Lemma lsq_exists : exists y, minimises k H c y.
Proof.
have [y N] := normal_solvable.
exists (fun j => if insub j is Some i then y i ord0 else R0) => y'; rewrite !sumsq_dot.
have -> : ty (fun j => if insub j is Some i then y i ord0 else R0) = y by apply/colP => i; rewrite mxE valK.
set y2 := ty y'; have -> : cc - K *m y2 = (cc - K *m y) + K *m (y - y2).
{ by rewrite mulmxBr addrA subrK. }
set r := cc - K *m y; have O v : dot r (K *m v) = R0.
{ rewrite dotC dotE trmx_mul -mulmxA /r mulmxBr mulmxA N subrr mulmx0 mxE //. }
move: r O => r O; rewrite dotDl !dotDr (dotC (K *m _) r) !O; have := dot_ge0 (K *m (y - y2)); lra.
Qed.
End Lsq.
(** a least-squares solver meeting the specification *)
Definition best (k : nat) (H : nat -> nat -> R) (c : nat -> R) : nat -> R :=
  proj1_sig (ClassicalEpsilon.constructive_indefinite_description _ (lsq_exists k H c)).
Lemma best_ok k H c : minimises k H c (best k H c).
Proof. exact: (proj2_sig (ClassicalEpsilon.constructive_indefinite_description _ (lsq_exists k H c))). Qed.
