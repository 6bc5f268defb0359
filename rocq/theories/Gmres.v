(** The GMRES iteration itself, solvers.py 156-376: Arnoldi process with
    preconditioned basis, projected least-squares problem, candidate solution.
    (The control flow is NewtonModel.gmres.)  Exact real arithmetic. *)
From Coq Require Import Reals List Lra FunctionalExtensionality.
From mathcomp Require Import all_ssreflect all_algebra.
From Verif Require Import NewtonModel RField.
Import GRing.Theory.
Set Implicit Arguments. Unset Strict Implicit. Unset Printing Implicit Defensive.
Local Open Scope ring_scope.

Notation RF := R_fieldType.
Notation "x <=R y" := (Rle x y) (at level 70).

(** v . w and torch.linalg.vector_norm *)
Definition dot (n : nat) (u v : 'cV[RF]_n) : R := \sum_i (u i ord0 * v i ord0).
Definition norm (n : nat) (u : 'cV[RF]_n) : R := sqrt (dot u u).

(** ** Inner products *)
Section Dot.
Variable n : nat.
Implicit Types u v w : 'cV[RF]_n.
Lemma sum_nonneg (k : nat) (f : 'I_k -> R) : (forall i, Rle R0 (f i)) -> Rle R0 (\sum_i (f i : RF)).
Proof.
elim: k f => [|k IH] f H; first by rewrite big_ord0; exact: Rle_refl.
by rewrite big_ord_recr; apply: Rplus_le_le_0_compat => //; apply: IH.
Qed.
Lemma sum_le (k : nat) (f g : 'I_k -> R) : (forall i, f i <=R g i) -> \sum_i (f i : RF) <=R \sum_i (g i : RF).
Proof.
elim: k f g => [|k IH] f g H; first by rewrite !big_ord0; exact: Rle_refl.
by rewrite !big_ord_recr; apply: Rplus_le_compat => //; apply: IH.
Qed.
Lemma dotC u v : dot u v = dot v u.
Proof. by apply: eq_bigr => i _; rewrite mulrC. Qed.
Lemma dotDl u v w : dot (u + v) w = Rplus (dot u w) (dot v w).
Proof. by rewrite /dot -[Rplus _ _]/(_ + _ : RF) -big_split; apply: eq_bigr => i _; rewrite mxE mulrDl. Qed.
Lemma dotZl (a : R) u w : dot ((a : RF) *: u) w = Rmult a (dot u w).
Proof. by rewrite /dot -[Rmult _ _]/(_ * _ : RF) mulr_sumr; apply: eq_bigr => i _; rewrite mxE mulrA. Qed.
Lemma dotDr u v w : dot w (u + v) = Rplus (dot w u) (dot w v).
Proof. by rewrite !(dotC w) dotDl. Qed.
Lemma dotZr (a : R) u w : dot w ((a : RF) *: u) = Rmult a (dot w u).
Proof. by rewrite !(dotC w) dotZl. Qed.
Lemma dotN u w : dot w (- u) = Ropp (dot w u).
Proof. by rewrite -scaleN1r dotZr; exact: (@mulN1r RF). Qed.
Lemma dot0r u : dot u 0 = R0.
Proof. by rewrite /dot big1 // => i _; rewrite mxE mulr0. Qed.
Lemma dot_ge0 u : Rle R0 (dot u u).
Proof. by apply: sum_nonneg => i; apply: Rle_0_sqr. Qed.
Lemma dot_eq0 u : dot u u = R0 -> u = 0.
Proof.
move=> H; apply/colP => i; rewrite mxE.
have [//|N] := Req_dec (u i ord0) R0; exfalso.
have : Rlt R0 (dot u u); last by rewrite H => /Rlt_irrefl.
rewrite /dot (bigD1 i) //= -[_ + _]/(Rplus _ _); apply: Rplus_lt_le_0_compat; first by apply: Rlt_0_sqr.
rewrite big_mkcond; apply: sum_nonneg => j; case: ifP => _; [exact: Rle_0_sqr|exact: Rle_refl].
Qed.
Lemma norm_ge0 u : Rle R0 (norm u). Proof. exact: sqrt_pos. Qed.
Lemma norm_sq u : Rmult (norm u) (norm u) = dot u u. Proof. exact: sqrt_sqrt (dot_ge0 u). Qed.
Lemma norm_eq0 u : norm u = R0 -> u = 0.
Proof. by move=> H; apply: dot_eq0; rewrite -norm_sq H Rmult_0_l. Qed.
Lemma norm0 : norm (0 : 'cV[RF]_n) = R0. Proof. by rewrite /norm dot0r sqrt_0. Qed.
Lemma normZ (a : R) u : norm ((a : RF) *: u) = Rmult (Rabs a) (norm u).
Proof.
rewrite /norm dotZl dotZr -Rmult_assoc sqrt_mult; [|exact: Rle_0_sqr|exact: dot_ge0].
by rewrite -/(Rsqr a) sqrt_Rsqr_abs.
Qed.
Lemma cauchy_schwarz u v : Rle (Rmult (dot u v) (dot u v)) (Rmult (dot u u) (dot v v)).
Proof.
have [H|N] := Req_dec (dot v v) R0.
- by rewrite (dot_eq0 H) !dot0r !Rmult_0_r; exact: Rle_refl.
- have vp : Rlt R0 (dot v v) by case: (dot_ge0 v) => // e; case: N.
  pose a := Ropp (Rdiv (dot u v) (dot v v)).
  have := dot_ge0 (u + (a : RF) *: v); rewrite dotDl !dotDr !dotZl !dotZr (dotC v u).
  have E : Rplus (Rplus (dot u u) (Rmult a (dot u v))) (Rplus (Rmult a (dot u v)) (Rmult a (Rmult a (dot v v)))) =
           Rminus (dot u u) (Rdiv (Rmult (dot u v) (dot u v)) (dot v v)).
  { by rewrite /a; field. }
  rewrite E => H; have H2 := Rmult_le_compat_r _ _ _ (Rlt_le _ _ vp) H; rewrite Rmult_0_l in H2.
  have E2 : Rmult (Rminus (dot u u) (Rdiv (Rmult (dot u v) (dot u v)) (dot v v))) (dot v v) = Rminus (Rmult (dot u u) (dot v v)) (Rmult (dot u v) (dot u v)).
  { by field. }
  rewrite E2 in H2; lra.
Qed.
Lemma dot_le_norm u v : Rle (dot u v) (Rmult (norm u) (norm v)).
Proof.
apply: Rle_trans (Rle_abs _) _; apply: Rsqr_incr_0.
- rewrite /Rsqr -Rabs_mult Rabs_pos_eq; last exact: Rle_0_sqr.
  have := cauchy_schwarz u v; rewrite -!norm_sq; lra.
- exact: Rabs_pos.
- by apply: Rmult_le_pos; apply: norm_ge0.
Qed.
Lemma norm_triangle u v : Rle (norm (u + v)) (Rplus (norm u) (norm v)).
Proof.
apply: Rsqr_incr_0.
- rewrite /Rsqr norm_sq dotDl !dotDr (dotC v u) -!norm_sq.
  have := dot_le_norm u v; lra.
- exact: norm_ge0.
- by apply: Rplus_le_le_0_compat; apply: norm_ge0.
Qed.
Lemma norm_sum k (f : 'I_k -> 'cV[RF]_n) : norm (\sum_i f i) <=R \sum_i (norm (f i) : RF).
Proof.
elim: k f => [|k IH] f; first by rewrite !big_ord0 norm0; exact: Rle_refl.
rewrite !big_ord_recr /=; apply: Rle_trans (norm_triangle _ _) _; exact: Rplus_le_compat_r.
Qed.
End Dot.
(** (sum |a_i|)^2 <= k sum a_i^2 *)
Lemma sum_abs_sq k (a : 'I_k -> R) :
  \sum_i (Rabs (a i) : RF) <=R Rmult (sqrt (INR k)) (sqrt (\sum_i (Rmult (a i) (a i) : RF))).
Proof.
have := dot_le_norm (\col_i (1 : RF)) (\col_i (Rabs (a i) : RF)).
rewrite /norm.
have -> : dot (\col_i (1 : RF)) (\col_i (Rabs (a i) : RF)) = \sum_i (Rabs (a i) : RF).
{ by apply: eq_bigr => i _; rewrite !mxE mul1r. }
have -> : dot (\col_(i < k) (1 : RF)) (\col_i (1 : RF)) = INR k.
{ rewrite /dot (eq_bigr (fun _ => 1)); last by move=> i _; rewrite !mxE mul1r.
  elim: k {a} => [|k IH]; first by rewrite big_ord0.
  by rewrite big_ord_recr IH S_INR. }
have -> : dot (\col_i (Rabs (a i) : RF)) (\col_i (Rabs (a i) : RF)) = \sum_i (Rmult (a i) (a i) : RF).
{ by apply: eq_bigr => i _; rewrite !mxE -[_ * _]/(Rmult _ _) -Rabs_mult Rabs_pos_eq //; exact: Rle_0_sqr. }
by [].
Qed.

Section One.
(** one batch entry: matrix, right-hand side, initial guess, preconditioner (M.dot), eps *)
Variables (n : nat) (A : 'M[RF]_n) (b x0 : 'cV[RF]_n) (M : 'cV[RF]_n -> 'cV[RF]_n) (eps : R).
(** torch.linalg.lstsq for a (k+1, k) matrix and a vector; specified where it is used *)
Variable lsq : nat -> (nat -> nat -> R) -> (nat -> R) -> nat -> R.

(** lines 315, 329 *)
Definition resid : 'cV[RF]_n := b - A *m x0.
Definition beta : R := norm resid.

(** V, Z and H, lines 318-326 and 337-358; entries not yet written are zero *)
Record kstate := KState { gV : nat -> 'cV[RF]_n; gZ : nat -> 'cV[RF]_n; gH : nat -> nat -> R }.
(** lines 317-326.  Simplification: for a zero residual the code stores NaN (0/0);
    that case is [batch_cand] below, here the quotient is a real. *)
Definition kinit : kstate :=
  let v0 := (Rinv beta : RF) *: resid in
  KState (fun j => if j == 0%N then v0 else 0) (fun j => if j == 0%N then M v0 else 0) (fun _ _ => R0).

(** lines 345-350: w after orthogonalisation against V_0 .. V_(j-1), and H[j, k] *)
Fixpoint orth_w (V : nat -> 'cV[RF]_n) (j : nat) (w : 'cV[RF]_n) : 'cV[RF]_n :=
  match j with O => w | S i => let w' := orth_w V i w in w' - (dot (V i) w' : RF) *: V i end.
Definition orth_h (V : nat -> 'cV[RF]_n) (w : 'cV[RF]_n) (j : nat) : R := dot (V j) (orth_w V j w).

(** iteration k, lines 342-358 *)
Definition kstep (k : nat) (st : kstate) : kstate :=
  let w0 := A *m gZ st k in
  let w := orth_w (gV st) k.+1 w0 in
  let hk := Rplus (norm w) eps in
  let v := (Rinv hk : RF) *: w in
  KState (fun j => if j == k.+1 then v else gV st j) (fun j => if j == k.+1 then M v else gZ st j)
    (fun i j => if j == k then (if (i <= k)%N then orth_h (gV st) w0 i else if i == k.+1 then hk else gH st i j) else gH st i j).

(** the state after iterations 0 .. k-1 *)
Fixpoint kstate_at (k : nat) : kstate := match k with O => kinit | S j => kstep j (kstate_at j) end.

(** lines 332-334 *)
Definition e1v (i : nat) : R := if i == 0%N then beta else R0.

(** the candidate computed at the check of iteration k, lines 361-367: it uses the
    first k columns of Z and the (k+1) x k leading block of H *)
Definition kcand (k : nat) : 'cV[RF]_n :=
  let st := kstate_at k.+1 in
  let y := lsq k (gH st) e1v in
  \sum_(j < k) ((y j : RF) *: gZ st j) + x0.

(** ** The basis no longer changes once written *)
Lemma kV_stable k j d : (j <= k)%N -> gV (kstate_at (k + d)) j = gV (kstate_at k) j.
Proof.
move=> jk; elim: d => [|d IH]; first by rewrite addn0.
by rewrite addnS /= -IH; case: eqP => // e; move: jk; rewrite e leqNgt ltnS leq_addr.
Qed.
Lemma kZ_stable k j d : (j <= k)%N -> gZ (kstate_at (k + d)) j = gZ (kstate_at k) j.
Proof.
move=> jk; elim: d => [|d IH]; first by rewrite addn0.
by rewrite addnS /= -IH; case: eqP => // e; move: jk; rewrite e leqNgt ltnS leq_addr.
Qed.
Lemma kH_stable k i j d : (j < k)%N -> gH (kstate_at (k + d)) i j = gH (kstate_at k) i j.
Proof.
move=> jk; elim: d => [|d IH]; first by rewrite addn0.
by rewrite addnS /= -IH; case: eqP => // e; move: jk; rewrite e ltnNge leq_addr.
Qed.
(** final values of the columns *)
Definition bV (j : nat) := gV (kstate_at j) j.
Definition bZ (j : nat) := gZ (kstate_at j) j.
Definition bH (i j : nat) := gH (kstate_at j.+1) i j.
Lemma kV k j : (j <= k)%N -> gV (kstate_at k) j = bV j.
Proof. by move=> jk; rewrite -(subnKC jk) kV_stable. Qed.
Lemma kZ k j : (j <= k)%N -> gZ (kstate_at k) j = bZ j.
Proof. by move=> jk; rewrite -(subnKC jk) kZ_stable. Qed.
Lemma kH k i j : (j < k)%N -> gH (kstate_at k) i j = bH i j.
Proof. by move=> jk; rewrite -(subnKC jk) kH_stable. Qed.

Lemma bV0 : bV 0 = (Rinv beta : RF) *: resid. Proof. by []. Qed.
Lemma bZE j : bZ j = M (bV j).
Proof. by rewrite /bZ /bV; case: j => [|j] //=; rewrite eqxx. Qed.

(** w before normalisation *)
Definition bw (k : nat) := orth_w bV k.+1 (A *m bZ k).
Lemma orth_ext V V' k w : (forall j, (j < k)%N -> V j = V' j) -> orth_w V k w = orth_w V' k w.
Proof. by elim: k => [//|k IH] H /=; rewrite IH ?H // => j jk; apply: H; apply: ltnW. Qed.
Lemma kw k : orth_w (gV (kstate_at k)) k.+1 (A *m gZ (kstate_at k) k) = bw k.
Proof. by rewrite /bw kZ //; apply: orth_ext => j jk; rewrite kV. Qed.
Lemma bVS k : bV k.+1 = (Rinv (Rplus (norm (bw k)) eps) : RF) *: bw k.
Proof. by rewrite {1}/bV [kstate_at k.+1]/= /kstep kw /= eqxx. Qed.
Lemma bHE i k : bH i k = if (i <= k)%N then orth_h bV (A *m bZ k) i else if i == k.+1 then Rplus (norm (bw k)) eps else R0.
Proof.
rewrite /bH [kstate_at k.+1]/= /kstep kw /= eqxx kZ //.
case: leqP => [ik|ki].
- by rewrite /orth_h kV //; congr dot; apply: orth_ext => j ji; rewrite kV //; apply: leq_trans ik; apply: ltnW.
- case: eqP => // _.
  have : forall k' i', gH (kstate_at k') i' k' = R0; last by apply.
  move=> k' i'; suff : forall d, (d <= k')%N -> gH (kstate_at d) i' k' = R0 by apply.
  elim=> [//|d IH] dk /=; rewrite IH; last exact: ltnW.
  by case: eqP => // e; rewrite e ltnn in dk.
Qed.

(** orthogonalisation subtracts what H records *)
Lemma orth_sum V k w : w = orth_w V k w + \sum_(j < k) ((orth_h V w j : RF) *: V j).
Proof.
elim: k => [|k IH] /=; first by rewrite big_ord0 addr0.
rewrite big_ord_recr /= {1}IH /orth_h.
set W := orth_w V k w; set s := \sum_(j < k) _; set c := (_ : RF) *: _.
by rewrite [s + c]addrC addrA subrK.
Qed.

(** ** The Arnoldi relation: A Z_k = sum_(i <= k+1) H[i,k] V_i *)
Lemma arnoldi k : Rle R0 eps ->
  A *m bZ k = \sum_(i < k.+2) ((bH i k : RF) *: bV i).
Proof.
move=> e0; rewrite big_ord_recr /= {1}(orth_sum bV k.+1 (A *m bZ k)) -/(bw k) addrC; congr (_ + _).
- by apply: eq_bigr => j _; rewrite bHE -ltnS ltn_ord.
- rewrite bHE ltnn eqxx bVS scalerA.
  have [h|h0] := Req_dec (Rplus (norm (bw k)) eps) R0.
  { have -> : bw k = 0 by apply: norm_eq0; have := norm_ge0 (bw k); lra.
    by rewrite scaler0. }
  have -> : (Rplus (norm (bw k)) eps : RF) * Rinv (Rplus (norm (bw k)) eps) = 1 by exact: Rinv_r.
  by rewrite scale1r.
Qed.

(** the least-squares residual (a coordinate) *)
Definition lres (k : nat) (y : nat -> R) (i : nat) : R := Rminus (e1v i) (\sum_(j < k) (bH i j * y j : RF)).

(** A sum_j y_j Z_j = sum_i (H y)_i V_i *)
Lemma A_sum k (y : nat -> R) : Rle R0 eps ->
  A *m (\sum_(j < k) ((y j : RF) *: bZ j)) = \sum_(i < k.+1) ((\sum_(j < k) (bH i j * y j) : RF) *: bV i).
Proof.
move=> e0; rewrite mulmx_sumr.
rewrite (eq_bigr (fun j : 'I_k => \sum_(i < k.+1) ((bH i j * y j : RF) *: bV i))).
- by rewrite exchange_big; apply: eq_bigr => i _; rewrite scaler_suml.
- move=> j _; rewrite -scalemxAr arnoldi //.
  have jk : (j.+2 <= k.+1)%N by rewrite ltnS ltn_ord.
  rewrite scaler_sumr (big_ord_widen _ (fun i => (y j : RF) *: ((bH i j : RF) *: bV i)) jk) big_mkcond /=.
  apply: eq_bigr => i _; case: ltnP => ij; first by rewrite scalerA mulrC.
  by rewrite bHE leqNgt (ltnW ij) /= gtn_eqF //= mul0r scale0r.
Qed.
(** b - A (x0 + sum_j y_j Z_j) = sum_i (beta e1 - H y)_i V_i *)
Lemma residual_id k (y : nat -> R) : beta <> R0 -> Rle R0 eps ->
  b - A *m (\sum_(j < k) ((y j : RF) *: bZ j) + x0) = \sum_(i < k.+1) ((lres k y i : RF) *: bV i).
Proof.
move=> b0 e0; rewrite mulmxDr opprD addrA [b - _ - _]addrAC -/resid.
have -> : resid = (beta : RF) *: bV 0.
{ rewrite bV0 scalerA; have -> : (beta : RF) * Rinv beta = 1 by exact: Rinv_r.
  by rewrite scale1r. }
rewrite A_sum //.
have -> : (beta : RF) *: bV 0 = \sum_(i < k.+1) ((e1v i : RF) *: bV i).
{ rewrite big_ord_recl /= big1 ?addr0 // => i _; by rewrite /e1v /= scale0r. }
by rewrite -sumrB; apply: eq_bigr => i _; rewrite -scalerBl.
Qed.

(** ** The basis vectors have norm at most one *)
Lemma bV_le1 : Rle R0 eps -> beta <> R0 -> (forall k, Rplus (norm (bw k)) eps <> R0) -> forall k, norm (bV k) <=R R1.
Proof.
move=> e0 b0 h0 [|k]; first rewrite bV0 normZ -/beta.
- rewrite Rabs_pos_eq ?Rinv_l //; first exact: Rle_refl.
  apply/Rlt_le/Rinv_0_lt_compat; case: (norm_ge0 resid) => // e; by case: b0.
- rewrite bVS normZ; have n0 := norm_ge0 (bw k); have hp : Rlt R0 (Rplus (norm (bw k)) eps).
  { have [|e] := Rplus_le_le_0_compat _ _ n0 e0; [by []|by case: (h0 k)]. }
  rewrite Rabs_pos_eq; last by apply/Rlt_le/Rinv_0_lt_compat.
  apply: (Rmult_le_reg_l (Rplus (norm (bw k)) eps)) => //.
  rewrite -Rmult_assoc Rinv_r // Rmult_1_l Rmult_1_r; lra.
Qed.
End One.

(** what torch.linalg.lstsq returns for the leading (k+1) x k block: a minimiser *)
Definition sumsq_res (k : nat) (H : nat -> nat -> R) (c y : nat -> R) : R :=
  \sum_(i < k.+1) (Rsqr (Rminus (c i) (\sum_(j < k) (Rmult (H i j) (y j) : RF))) : RF).
Definition minimises (k : nat) (H : nat -> nat -> R) (c y : nat -> R) : Prop :=
  forall y', sumsq_res k H c y <=R sumsq_res k H c y'.

(** ** Batches *)
Section Batch.
Variables (nb n : nat) (A : 'I_nb -> 'M[RF]_n) (b x0 : 'I_nb -> 'cV[RF]_n) (M : 'I_nb -> 'cV[RF]_n -> 'cV[RF]_n) (eps : R).
Variable lsq : nat -> (nat -> nat -> R) -> (nat -> R) -> nat -> R.
(** the iterate of each batch entry; None: its components are NaN *)
Definition batch := 'I_nb -> option 'cV[RF]_n.
(** An entry whose initial residual is zero has V[:,0] = 0/0 = NaN (line 319), hence NaN in Z and in every
    candidate that uses a column of Z; the candidate of iteration 0 uses none. *)
Definition batch_cand (k : nat) : batch := fun i =>
  if (k != 0%N) && (resid (A i) (b i) (x0 i) == 0) then None
  else Some (kcand (A i) (b i) (x0 i) (M i) eps lsq k).
(** nRc, lines 369-370 *)
Definition batch_resn (x : batch) : list ext :=
  [seq if x i is Some v then Num (norm (b i - A i *m v)) else NaN | i <- enum 'I_nb].
(** gmres, lines 274-376, with return_iters *)
Definition gmres_call (tol : R) (maxiter check : nat) : option (batch * nat) :=
  gmres batch_resn tol (fun i => Some (x0 i)) batch_cand maxiter check.
End Batch.

(** NoOp.dot, solvers.py 152-172 *)
Definition noop (n : nat) (x : 'cV[RF]_n) : 'cV[RF]_n := x.
(** JacobiPreconitionerOperator, solvers.py 175-198 (nonzero diagonal) *)
Definition jacobi_op (n : nat) (A : 'M[RF]_n) (x : 'cV[RF]_n) : 'cV[RF]_n := \col_i (Rdiv (x i ord0) (A i i) : RF).
(** LUPreconitionerOperator, solvers.py 201-224: the solution of A y = x (nonsingular A) *)
Definition lu_op (n : nat) (A : 'M[RF]_n) (x : 'cV[RF]_n) : 'cV[RF]_n := invmx A *m x.
(** lu_gmres, solvers.py 227-248, and jacobi_gmres, 251-271 *)
Definition lu_gmres nb n (A : 'I_nb -> 'M[RF]_n) b x0 eps lsq tol maxiter :=
  gmres_call A b x0 (fun i => lu_op (A i)) eps lsq tol maxiter 1.
Definition jacobi_gmres nb n (A : 'I_nb -> 'M[RF]_n) b x0 eps lsq tol maxiter check :=
  gmres_call A b x0 (fun i => jacobi_op (A i)) eps lsq tol maxiter check.
