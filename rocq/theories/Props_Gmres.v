(** C97-C100: the GMRES solver, solvers.py 152-376. *)
From Coq Require Import Reals List Lra Lia FunctionalExtensionality.
From mathcomp Require Import all_ssreflect all_algebra.
From Verif Require Import NewtonModel NewtonProofs RField Gmres GmresProofs GmresLimit.
Import GRing.Theory.
Set Implicit Arguments. Unset Strict Implicit. Unset Printing Implicit Defensive.
Local Open Scope ring_scope.

(** ** Specification *)
(** torch.linalg.lstsq returns a least-squares solution *)
Definition lsq_ok (lsq : nat -> (nat -> nat -> R) -> (nat -> R) -> nat -> R) : Prop := forall k H c, minimises k H c (lsq k H c).
(** the residual of x *)
Definition res n (A : 'M[RF]_n) (b x : 'cV[RF]_n) : 'cV[RF]_n := b - A *m x.
(** (A M)^j r *)
Fixpoint ampow n (A : 'M[RF]_n) (M : 'cV[RF]_n -> 'cV[RF]_n) (r : 'cV[RF]_n) (j : nat) : 'cV[RF]_n :=
  if j is i.+1 then A *m M (ampow A M r i) else r.
Definition linear_op n (M : 'cV[RF]_n -> 'cV[RF]_n) : Prop := forall (a : R) u v, M ((a : RF) *: u + v) = (a : RF) *: M u + M v.
Definition independent n (k : nat) (f : nat -> 'cV[RF]_n) : Prop :=
  forall c : nat -> R, \sum_(j < k) ((c j : RF) *: f j) = 0 -> forall j, (j < k)%N -> c j = R0.
(** no entry of the batch is finished before the first iteration *)
Definition started nb n (A : 'I_nb -> 'M[RF]_n) (b x0 : 'I_nb -> 'cV[RF]_n) (tol : R) : Prop :=
  exists i, Rle tol (norm (res (A i) (b i) (x0 i))).

(** ** Control flow *)
Lemma modn_coq (j c : nat) : (0 < c)%N -> Nat.modulo j c = (j %% c)%N.
Proof.
move=> c0; symmetry; apply: (Nat.mod_unique j c (j %/ c)%N); first by apply/ltP; rewrite ltn_mod.
by rewrite {1}(divn_eq j c) mulnC.
Qed.
Section Flow.
Variables (nb n : nat) (A : 'I_nb -> 'M[RF]_n) (b x0 : 'I_nb -> 'cV[RF]_n) (M : 'I_nb -> 'cV[RF]_n -> 'cV[RF]_n) (eps : R).
Variable lsq : nat -> (nat -> nat -> R) -> (nat -> R) -> nat -> R.
Variables (tol : R) (maxiter check : nat).
Lemma below_iff (x : batch nb n) : all_below tol (batch_resn A b x) <-> forall i, exists v, x i = Some v /\ Rlt (norm (res (A i) (b i) v)) tol.
Proof.
rewrite /all_below /batch_resn; split=> [F i|F].
- have I : In (if x i is Some v then Num (norm (b i - A i *m v)) else NaN) [seq if x i is Some v then Num (norm (b i - A i *m v)) else NaN | i <- enum 'I_nb].
  { apply/(in_map (fun i => if x i is Some v then Num (norm (b i - A i *m v)) else NaN)).
    have : i \in enum 'I_nb by rewrite mem_enum.
    elim: (enum _) => [//|a l IH]; rewrite inE => /orP[/eqP->|/IH]; [by left|by right]. }
  have := proj1 (Forall_forall _ _) F _ I; case: (x i) => [v|] //; last by case=> v [].
  by case=> t [[<-] Q]; exists v.
- apply/Forall_forall => y /in_map_iff [i [<- _]]; have [v [-> Q]] := F i; by exists (norm (b i - A i *m v)).
Qed.
Notation call := (gmres_call A b x0 M eps lsq tol maxiter check).
Notation cand := (batch_cand A b x0 M eps lsq).
Definition done (x : batch nb n) : Prop := forall i, exists v, x i = Some v /\ Rlt (norm (res (A i) (b i) v)) tol.
Lemma cand0 : cand 0 = (fun i => Some (x0 i)).
Proof. by apply: functional_extensionality => i; rewrite /batch_cand /= /kcand big_ord0 add0r. Qed.
Lemma cand_some i k : res (A i) (b i) (x0 i) <> 0 -> cand k i = Some (kcand (A i) (b i) (x0 i) (M i) eps lsq k).
Proof. by move=> /eqP/negbTE r0; rewrite /batch_cand [_ == 0]r0 andbF. Qed.
Lemma not_done : started A b x0 tol -> ~ done (fun i => Some (x0 i)).
Proof. by move=> [i Q] /(_ i) [v [[<-]]] /Rlt_not_le. Qed.
Lemma flow : (0 < maxiter)%N -> (0 < check)%N ->
  exists x k, call = Some (x, k) /\ (k < maxiter)%N /\
  (~ started A b x0 tol -> x = (fun i => Some (x0 i)) /\ k = 0%N) /\
  (started A b x0 tol -> x = cand k /\
     ((k.+1 < maxiter)%N -> done x) /\
     (forall j, (j < k)%N -> (j.+1 %% check = 0)%N -> ~ done (cand j)) /\
     ((1 < maxiter)%N -> (0 < k)%N)).
Proof.
move=> /ltP m0 /ltP c0.
have [x [k [E [km [I1 I2]]]]] := gmres_spec (batch_resn A b) tol (fun i => Some (x0 i)) cand _ _ m0 c0.
exists x, k; split=> //; split; first exact/ltP.
split=> [N|/not_done S0].
- apply: I1; apply/below_iff => i; exists (x0 i); split=> //; apply: Rnot_le_lt => Q; apply: N; by exists i.
- have [X [D J]] := I2 (fun h => S0 (proj1 (below_iff _) h)).
  have D' : (k.+1 < maxiter)%N -> done x by move=> /ltP q; apply: (proj1 (below_iff _)); exact: proj1 (D q).
  split=> //; split=> //; split=> [j jk jc Dj|m1].
  + apply: (J j); [exact/ltP| |exact: (proj2 (below_iff _))].
    by rewrite modn_coq //; exact/ltP.
  + case: (posnP k) => // k0; exfalso; apply: S0; rewrite -cand0 -k0 -X; apply: D'; by rewrite k0.
Qed.
End Flow.

(** ** C97: the quality of the result *)
(** For every batch, preconditioner, shift eps > 0, tolerance, maxiter and check: an entry whose initial residual
    is not zero comes back as numbers, with a residual at most sqrt(k + 1) times the initial one. *)
Theorem C97_residual_bound nb n (A : 'I_nb -> 'M[RF]_n) b x0 M eps lsq tol maxiter check :
  lsq_ok lsq -> Rlt R0 eps -> (0 < maxiter)%N -> (0 < check)%N ->
  exists x k, gmres_call A b x0 M eps lsq tol maxiter check = Some (x, k) /\ (k < maxiter)%N /\
  forall i, res (A i) (b i) (x0 i) <> 0 ->
    exists v, x i = Some v /\ Rle (norm (res (A i) (b i) v)) (Rmult (sqrt (INR k.+1)) (norm (res (A i) (b i) (x0 i)))).
Proof.
move=> L e0 m0 c0; have [x [k [E [km [F1 F2]]]]] := flow A b x0 M eps lsq tol m0 c0.
exists x, k; split=> //; split=> // i r0.
have [S|/F1[-> ->]] := Classical_Prop.classic (started A b x0 tol); last first.
{ exists (x0 i); split=> //; rewrite sqrt_1 Rmult_1_l; exact: Rle_refl. }
have [-> _] := F2 S; exists (kcand (A i) (b i) (x0 i) (M i) eps lsq k); split.
- exact: cand_some.
- by apply: cand_bound0 => // /norm_eq0.
Qed.
Print Assumptions C97_residual_bound.

(** Krylov vectors lie in the span of the basis *)
Lemma ampow_span n (A : 'M[RF]_n) b x0 M : linear_op M -> res A b x0 <> 0 -> forall j,
  exists c : nat -> R, ampow A M (res A b x0) j = \sum_(i < j.+1) ((c i : RF) *: bV A b x0 M R0 i).
Proof.
move=> Ml r0 j; have b0 : beta A b x0 <> R0 by move/norm_eq0.
elim: j => [|j [c E]].
- exists (fun _ => beta A b x0); rewrite big_ord_recl big_ord0 addr0 bV0 scalerA.
  have -> : (beta A b x0 : RF) * Rinv (beta A b x0) = 1 by exact: Rinv_r.
  by rewrite scale1r.
- exists (fun i => \sum_(l < j.+1) (bH A b x0 M R0 i l * c l : RF)).
  rewrite -A_sum; last exact: Rle_refl.
  rewrite [ampow _ _ _ _]/= E (Msum Ml (fun i : 'I_j.+1 => bV A b x0 M R0 i) c); congr (_ *m _).
  by apply: eq_bigr => i _; rewrite bZE.
Qed.
Lemma independent_sub n k k' (f : nat -> 'cV[RF]_n) : (k <= k')%N -> independent k' f -> independent k f.
Proof.
move=> kk I c E j jk; pose c' j := if (j < k)%N then c j else R0.
have := I c'; rewrite /c' => /(_ _ j (leq_trans jk kk)); rewrite jk; apply.
rewrite -[RHS]E (big_ord_widen _ (fun j => (c j : RF) *: f j) kk) [RHS]big_mkcond /=; apply: eq_bigr => i _.
by case: ifP => // _; rewrite scale0r.
Qed.
Lemma no_breakdown n (A : 'M[RF]_n) b x0 M k : linear_op M -> independent k.+1 (ampow A M (res A b x0)) ->
  res A b x0 <> 0 /\ forall j, (j < k)%N -> norm (bw A b x0 M R0 j) <> R0.
Proof.
move=> Ml I; have r0 : res A b x0 <> 0.
{ move=> z; have := I (fun j => if j == 0%N then R1 else R0) _ 0%N (ltn0Sn k) => /= H; apply: R1_neq_R0; apply: H.
  by rewrite big_ord_recl /= z scaler0 add0r big1 // => i _; rewrite scale0r. }
split=> // j jk /norm_eq0 z.
have {}I := independent_sub (jk : (j.+2 <= k.+1)%N) I.
have V0 : bV A b x0 M R0 j.+1 = 0 by rewrite bVS z scaler0.
pose W : 'M[RF]_(j.+1, n) := \matrix_i (bV A b x0 M R0 i)^T.
pose U : 'M[RF]_(j.+2, n) := \matrix_i (ampow A M (res A b x0) i)^T.
have sub : (U <= W)%MS.
{ apply/row_subP => i; rewrite rowK; have [c ->] := ampow_span Ml r0 i.
  rewrite linear_sum /=; apply: summx_sub => l _; rewrite linearZ /=; apply: scalemx_sub.
  case: (ltnP l j.+1) => lj; first by rewrite -(rowK (fun i : 'I_j.+1 => (bV A b x0 M R0 i)^T) (Ordinal lj)); exact: row_sub.
  have -> : (l = j.+1 :> nat) by apply/eqP; rewrite eqn_leq lj andbT -ltnS; apply: leq_trans (ltn_ord l) _; rewrite ltnS -ltnS.
  by rewrite V0 trmx0 sub0mx. }
have : row_free U.
{ rewrite -kermx_eq0 -submx0; apply/row_subP => l; set u := row l _.
  have : u *m U = 0 by apply/sub_kermxP; exact: row_sub.
  move: u => u Ez; pose c (j : nat) : R := if insub j is Some i then u ord0 i else R0.
  have : \sum_(i < j.+2) ((c i : RF) *: ampow A M (res A b x0) i) = 0.
  { apply: trmx_inj; rewrite trmx0 -Ez mulmx_sum_row linear_sum /=; apply: eq_bigr => i _.
    by rewrite linearZ /= rowK /c valK. }
  move/I => Z; have -> : u = 0; last exact: sub0mx.
  by apply/rowP => i; have := Z i (ltn_ord i); rewrite /c valK mxE. }
rewrite /row_free => /eqP rU; have := leq_trans (mxrankS sub) (rank_leq_row W); by rewrite rU ltnn.
Qed.

(** With eps = 0 and a linear preconditioner: as long as r, AMr, .., (AM)^k r are linearly independent, the
    result of iteration k has the smallest residual among all x0 + M (c_0 r + c_1 AMr + .. + c_(k-1) (AM)^(k-1) r). *)
Theorem C97_optimal nb n (A : 'I_nb -> 'M[RF]_n) b x0 M lsq tol maxiter check x k i :
  lsq_ok lsq -> (0 < maxiter)%N -> (0 < check)%N -> linear_op (M i) -> started A b x0 tol ->
  gmres_call A b x0 M R0 lsq tol maxiter check = Some (x, k) ->
  independent k.+1 (ampow (A i) (M i) (res (A i) (b i) (x0 i))) ->
  exists v, x i = Some v /\
  forall c : nat -> R, Rle (norm (res (A i) (b i) v))
    (norm (res (A i) (b i) (x0 i + \sum_(j < k) ((c j : RF) *: M i (ampow (A i) (M i) (res (A i) (b i) (x0 i)) j))))).
Proof.
move=> L m0 c0 Ml S E I; have [x' [k' [E' [km [F1 F2]]]]] := flow A b x0 M R0 lsq tol m0 c0.
move: E'; rewrite E => -[xx kk]; move: F2 km; rewrite -{}xx -{}kk => F2 km.
have [-> _] := F2 S; have [r0 NB] := no_breakdown Ml I.
have b0 : beta (A i) (b i) (x0 i) <> R0 by move/norm_eq0.
exists (kcand (A i) (b i) (x0 i) (M i) R0 lsq k); split.
{ exact: cand_some. }
move=> c.
have kr j : krylov (A i) (b i) (x0 i) (M i) j = M i (ampow (A i) (M i) (res (A i) (b i) (x0 i)) j).
{ by elim: j => [//|j /= ->]. }
have [y Y] : in_span (A i) (b i) (x0 i) (M i) R0 k (\sum_(j < k) ((c j : RF) *: M i (ampow (A i) (M i) (res (A i) (b i) (x0 i)) j))).
{ apply: (span_comb (f := fun j : 'I_k => _) (fun j : 'I_k => c j)) => j; rewrite -kr.
  apply: span_widen (ltn_ord j) _; apply: krylov_span => //; exact: Rle_refl. }
rewrite Y addrC; exact: cand_optimal.
Qed.
Print Assumptions C97_optimal.

(** ** C98: exact preconditioners *)
(** If every preconditioner inverts its matrix exactly, the result of every call with maxiter >= 2 has, in each entry
    with a nonzero initial residual, exactly eps^2 / (1 + eps^2) times the initial residual; the call stops in the
    second iteration when that is below the tolerance and check = 1. *)
Theorem C98_exact_preconditioner nb n (A : 'I_nb -> 'M[RF]_n) b x0 M eps lsq tol maxiter check :
  lsq_ok lsq -> Rlt R0 eps -> (1 < maxiter)%N -> (0 < check)%N -> started A b x0 tol ->
  (forall i v, A i *m M i v = v) -> (forall i, res (A i) (b i) (x0 i) <> 0) ->
  exists x k, gmres_call A b x0 M eps lsq tol maxiter check = Some (x, k) /\
  (forall i, exists v, x i = Some v /\
     res (A i) (b i) v = (Rdiv (Rsqr eps) (Rplus R1 (Rsqr eps)) : RF) *: res (A i) (b i) (x0 i)) /\
  (check = 1%N -> (forall i, Rlt (Rmult (Rdiv (Rsqr eps) (Rplus R1 (Rsqr eps))) (norm (res (A i) (b i) (x0 i)))) tol) -> k = 1%N).
Proof.
move=> L e0 m1 c0 S MA r0; have [x [k [E [km [F1 F2]]]]] := flow A b x0 M eps lsq tol (ltnW m1) c0.
have [X [D [J K]]] := F2 S; have k0 := K m1.
have C i j : (0 < j)%N -> res (A i) (b i) (kcand (A i) (b i) (x0 i) (M i) eps lsq j) = (Rdiv (Rsqr eps) (Rplus R1 (Rsqr eps)) : RF) *: res (A i) (b i) (x0 i).
{ by move=> j0; apply: ex_residual => //; move/norm_eq0/r0. }
exists x, k; split=> //; split=> [i|c1 T].
- exists (kcand (A i) (b i) (x0 i) (M i) eps lsq k); split; last exact: C.
  rewrite X; exact: cand_some.
- case: k k0 X D J K E km F1 F2 => [//|[//|k]] _ X D J K E km F1 F2; exfalso.
  apply: (J 1%N) => //; first by rewrite c1.
  move=> i; exists (kcand (A i) (b i) (x0 i) (M i) eps lsq 1); split; first exact: cand_some.
  rewrite C // normZ Rabs_pos_eq //; apply: Rlt_le; apply: Rdiv_lt_0_compat; first exact: Rlt_0_sqr (Rgt_not_eq _ _ e0).
  have := Rle_0_sqr eps; lra.
Qed.
Print Assumptions C98_exact_preconditioner.
Theorem C98_lu_gmres nb n (A : 'I_nb -> 'M[RF]_n) b x0 eps lsq tol maxiter :
  lsq_ok lsq -> Rlt R0 eps -> (1 < maxiter)%N -> started A b x0 tol ->
  (forall i, A i \in unitmx) -> (forall i, res (A i) (b i) (x0 i) <> 0) ->
  exists x k, lu_gmres A b x0 eps lsq tol maxiter = Some (x, k) /\
  (forall i, exists v, x i = Some v /\
     res (A i) (b i) v = (Rdiv (Rsqr eps) (Rplus R1 (Rsqr eps)) : RF) *: res (A i) (b i) (x0 i)) /\
  ((forall i, Rlt (Rmult (Rdiv (Rsqr eps) (Rplus R1 (Rsqr eps))) (norm (res (A i) (b i) (x0 i)))) tol) -> k = 1%N).
Proof.
move=> L e0 m1 S Au r0.
have MA i v : A i *m lu_op (A i) v = v by rewrite /lu_op mulmxA mulmxV // mul1mx.
have [x [k [E [X K]]]] := C98_exact_preconditioner L e0 m1 (ltn0Sn 0) S MA r0.
exists x, k; split=> //; split=> // T; exact: K.
Qed.
Print Assumptions C98_lu_gmres.
Lemma mul_div_cancel a x : a <> R0 -> Rmult a (Rdiv x a) = x.
Proof. by move=> a0; field. Qed.
Theorem C98_jacobi_gmres nb n (A : 'I_nb -> 'M[RF]_n) b x0 eps lsq tol maxiter check :
  lsq_ok lsq -> Rlt R0 eps -> (1 < maxiter)%N -> (0 < check)%N -> started A b x0 tol ->
  (forall i, is_diag_mx (A i)) -> (forall i j, A i j j <> R0) -> (forall i, res (A i) (b i) (x0 i) <> 0) ->
  exists x k, jacobi_gmres A b x0 eps lsq tol maxiter check = Some (x, k) /\
  (forall i, exists v, x i = Some v /\
     res (A i) (b i) v = (Rdiv (Rsqr eps) (Rplus R1 (Rsqr eps)) : RF) *: res (A i) (b i) (x0 i)).
Proof.
move=> L e0 m1 c0 S Ad A0 r0.
have MA i v : A i *m jacobi_op (A i) v = v.
{ apply/colP => j; rewrite mxE (bigD1 j) //= big1 ?addr0 => [|l lj].
  - by rewrite mxE; apply: mul_div_cancel; exact: A0.
  - by have /is_diag_mxP -> := Ad i; [rewrite mul0r|rewrite eq_sym]. }
by have [x [k [E [X K]]]] := C98_exact_preconditioner L e0 m1 c0 S MA r0; exists x, k; split.
Qed.
Print Assumptions C98_jacobi_gmres.

(** ** C99: how many iterations are enough *)
(** With maxiter = 1 the initial guess comes back unchanged. *)
Theorem C99_one_iteration nb n (A : 'I_nb -> 'M[RF]_n) b x0 M eps lsq tol check : (0 < check)%N ->
  gmres_call A b x0 M eps lsq tol 1 check = Some (fun i => Some (x0 i), 0%N).
Proof.
move=> c0; have [x [k [-> [km [F1 F2]]]]] := flow A b x0 M eps lsq tol (ltn0Sn 0) c0.
have k0 : k = 0%N by case: k km {F1 F2}. subst k.
have [/F2[->]|/F1[->]//] := Classical_Prop.classic (started A b x0 tol).
by rewrite cand0.
Qed.
Print Assumptions C99_one_iteration.

(** n iterations are not enough for an n x n system: for the exchange matrix and b = (1, 0), x0 = 0, no
    preconditioner, every eps, least-squares solver and check, maxiter = 2 leaves a residual of at least 1. *)
Definition swap2 : 'M[RF]_2 := \matrix_(i, j) (if i == j then R0 else R1 : RF).
Definition first2 : 'cV[RF]_2 := \col_i (if i == ord0 then R1 else R0 : RF).
Lemma swap2_unit : swap2 \in unitmx.
Proof.
have E : swap2 *m swap2 = 1%:M; last by case: (mulmx1_unit E).
apply/matrixP => i j; rewrite !mxE !big_ord_recl big_ord0 !mxE.
case: i => [[|[|i]] Hi] //; case: j => [[|[|j]] Hj] //=; rewrite ?mulr1 ?mulr0 ?mul0r ?mul1r ?addr0 ?add0r.
all: by [].
Qed.
Lemma comp_le_norm n (u : 'cV[RF]_n) i : Rle (Rabs (u i ord0)) (norm u).
Proof.
rewrite -sqrt_Rsqr_abs; apply: sqrt_le_1_alt; rewrite /dot (bigD1 i) //= -[_ + _]/(Rplus _ _) -{1}[Rsqr _]Rplus_0_r.
apply: Rplus_le_compat_l; rewrite big_mkcond; apply: sum_nonneg => j; case: ifP => _; [exact: Rle_0_sqr|exact: Rle_refl].
Qed.
Theorem C99_n_iterations_refuted eps lsq tol check : (0 < check)%N -> Rle tol R1 ->
  swap2 \in unitmx /\
  exists v, gmres_call (nb := 1) (fun _ => swap2) (fun _ => first2) (fun _ => 0) (fun _ => noop (n := 2)) eps lsq tol 2 check
              = Some (fun _ => Some v, 1%N) /\
            Rle R1 (norm (res swap2 first2 v)).
Proof.
move=> c0 t1; split; first exact: swap2_unit.
have r0 : res swap2 first2 0 <> 0.
{ rewrite /res mulmx0 subr0 => /colP /(_ ord0); rewrite !mxE /=; exact: R1_neq_R0. }
have S : started (nb := 1) (fun _ => swap2) (fun _ => first2) (fun _ => 0) tol.
{ exists ord0; apply: Rle_trans t1 _; apply: Rle_trans (comp_le_norm _ ord0).
  rewrite /res mulmx0 subr0 mxE /= Rabs_R1; exact: Rle_refl. }
have [x [k [E [km [F1 F2]]]]] := flow (nb := 1) (fun _ => swap2) (fun _ => first2) (fun _ => 0) (fun _ => noop (n := 2)) eps lsq tol (ltn0Sn 1) c0.
have [X [D [J K]]] := F2 S; have k0 := K isT.
have k1 : k = 1%N by case: k k0 km {E F1 F2 X D J K} => [|[|k]]. subst k.
exists (kcand swap2 first2 0 (noop (n := 2)) eps lsq 1); split.
- rewrite E X; do 2 f_equal; apply: functional_extensionality => i; exact: cand_some.
- apply: Rle_trans (comp_le_norm _ ord0).
  suff -> : res swap2 first2 (kcand swap2 first2 0 (noop (n:=2)) eps lsq 1) ord0 ord0 = R1 by rewrite Rabs_R1; exact: Rle_refl.
  rewrite /res kcandE big_ord_recl big_ord0 !addr0 bZE /noop bV0 /resid mulmx0 subr0 -!scalemxAr !mxE /=.
  by rewrite !big_ord_recl big_ord0 !mxE /= mul0r mulr0 !addr0 !mulr0 oppr0 addr0.
Qed.
Print Assumptions C99_n_iterations_refuted.

(** n + 1 iterations are: for every batch of nonsingular systems and nonsingular (matrix) preconditioners, with nonzero
    initial residuals, every tol > 0 and every maxiter > n there is a bound e1 such that for every shift 0 < eps < e1
    and every check interval the call reaches the tolerance in every entry. *)
Theorem C99_enough_iterations nb n (A Pm : 'I_nb -> 'M[RF]_n) b x0 lsq tol maxiter :
  lsq_ok lsq -> (forall i, A i \in unitmx) -> (forall i, Pm i \in unitmx) -> (forall i, res (A i) (b i) (x0 i) <> 0) ->
  Rlt R0 tol -> (n < maxiter)%N ->
  exists e1, Rlt R0 e1 /\ forall eps check, Rlt R0 eps -> Rlt eps e1 -> (0 < check)%N ->
  exists x k, gmres_call A b x0 (fun i => mulmx (Pm i)) eps lsq tol maxiter check = Some (x, k) /\
  forall i, exists v, x i = Some v /\ Rlt (norm (res (A i) (b i) v)) tol.
Proof.
move=> L Au Pu r0 t0 nm; have m0 : (0 < maxiter)%N := leq_ltn_trans (leq0n n) nm.
have nm' : (n <= maxiter.-1)%N by rewrite -ltnS prednK.
pose Q i e := if insub i is Some i then Rlt (norm (res (A i) (b i) (kcand (A i) (b i) (x0 i) (mulmx (Pm i)) e lsq maxiter.-1))) tol else True.
have [e1 [e10 D]] : exists d, Rlt R0 d /\ forall e, Rlt R0 e -> Rlt e d -> forall i, (i < nb)%N -> Q i e.
{ apply: fin_delta => i ib.
  have b0 : beta (A (Ordinal ib)) (b (Ordinal ib)) (x0 (Ordinal ib)) <> R0 by move/norm_eq0/r0.
  have [d [d0 Dd]] := small_eps lsq b0 (Au (Ordinal ib)) (Pu (Ordinal ib)) t0 nm'.
  exists d; split=> // e e0 ed; rewrite /Q insubT; apply: Dd => //; exact: L. }
exists e1; split=> // eps check ep ee c0.
have [x [k [E [km [F1 F2]]]]] := flow A b x0 (fun i => mulmx (Pm i)) eps lsq tol m0 c0.
exists x, k; split=> // i.
have [S|NS] := Classical_Prop.classic (started A b x0 tol); last first.
{ have [-> _] := F1 NS; exists (x0 i); split=> //; apply: Rnot_le_lt => h; apply: NS; by exists i. }
have [X [Dn _]] := F2 S.
have [q|q] := ltnP k.+1 maxiter; first exact: Dn.
have ek : k = maxiter.-1 by apply/eqP; rewrite eqn_leq -ltnS prednK // km -ltnS prednK //.
exists (kcand (A i) (b i) (x0 i) (mulmx (Pm i)) eps lsq k); split; first by rewrite X; exact: cand_some.
by have := D eps ep ee i (ltn_ord i); rewrite /Q valK ek.
Qed.
Print Assumptions C99_enough_iterations.
(** eps = 0, check = 1, one system, any injective linear preconditioner: done after at most n + 1 iterations *)
Theorem C99_exact_arithmetic n (A : 'M[RF]_n) (b x0 : 'cV[RF]_n) M lsq tol maxiter :
  lsq_ok lsq -> A \in unitmx -> linear_op M -> (forall u, M u = 0 -> u = 0) -> Rlt R0 tol -> (n < maxiter)%N ->
  exists x k, gmres_call (nb := 1) (fun _ => A) (fun _ => b) (fun _ => x0) (fun _ => M) R0 lsq tol maxiter 1 = Some (x, k) /\
  (k <= n)%N /\ exists v, x ord0 = Some v /\ Rlt (norm (res A b v)) tol.
Proof.
move=> L Au Ml Mi t0 nm; have m0 : (0 < maxiter)%N := leq_ltn_trans (leq0n n) nm.
have [x [k [E [km [F1 F2]]]]] := flow (nb := 1) (fun _ => A) (fun _ => b) (fun _ => x0) (fun _ => M) R0 lsq tol m0 (ltn0Sn 0).
exists x, k; split=> //.
have [S|NS] := Classical_Prop.classic (started (nb := 1) (fun _ => A) (fun _ => b) (fun _ => x0) tol); last first.
{ have [-> ->] := F1 NS; split=> //; exists x0; split=> //; apply: Rnot_le_lt => h; apply: NS; by exists ord0. }
have r0 : res A b x0 <> 0 by case: S => i Q z; move: Q; rewrite z norm0; lra.
have b0 : beta A b x0 <> R0 by move/norm_eq0.
have [d [dn [wd H]]] := breakdown M (erefl R0) b0.
have Z := exact_finish (erefl R0) b0 Ml Mi Au wd H (L _ _ _ : minimises _ _ _ (lsq _ _ _)).
have [X [Dn [J _]]] := F2 S.
have kd : (k <= d.+1)%N.
{ rewrite leqNgt; apply/negP => dk; apply: (J d.+1) => //; first by rewrite modn1.
  move=> i; exists (kcand A b x0 M R0 lsq d.+1); split; first exact: cand_some.
  by rewrite /res Z norm0. }
split; first exact: leq_trans kd dn.
have [q|q] := ltnP k.+1 maxiter; first exact: (Dn q ord0).
have ek : k = d.+1 by apply/eqP; rewrite eqn_leq kd -ltnS; apply: leq_trans q; apply: leq_ltn_trans nm.
exists (kcand A b x0 M R0 lsq k); split; first by rewrite X; exact: (cand_some (nb := 1)).
by rewrite ek /res Z norm0.
Qed.
Print Assumptions C99_exact_arithmetic.

(** ** C100: an entry that is already solved *)
(** A batch entry whose initial residual is exactly zero, in a batch with an unfinished entry, comes back as NaN and
    keeps the whole batch from ever being reported as converged: all maxiter iterations are used. *)
Theorem C100_solved_entry_refuted nb n (A : 'I_nb -> 'M[RF]_n) b x0 M eps lsq tol maxiter check i :
  (1 < maxiter)%N -> (0 < check)%N -> started A b x0 tol -> res (A i) (b i) (x0 i) = 0 ->
  exists x, gmres_call A b x0 M eps lsq tol maxiter check = Some (x, maxiter.-1) /\ x i = None.
Proof.
move=> m1 c0 S r0; have [x [k [E [km [F1 F2]]]]] := flow A b x0 M eps lsq tol (ltnW m1) c0.
have [X [D [J K]]] := F2 S; have k0 := K m1.
have xi : x i = None by rewrite X /batch_cand -lt0n k0 /= [resid _ _ _]r0 eqxx.
have ek : k = maxiter.-1; last by exists x; rewrite -ek.
apply/eqP; rewrite eqn_leq -ltnS prednK ?(ltnW m1) // km /= -ltnS prednK ?(ltnW m1) // leqNgt; apply/negP => /D /(_ i) [v []].
by rewrite xi.
Qed.
Print Assumptions C100_solved_entry_refuted.

(** ** Concrete cases *)
Lemma best_lsq : lsq_ok best. Proof. exact: best_ok. Qed.
Lemma ex_r0 : res swap2 first2 0 = first2. Proof. by rewrite /res mulmx0 subr0. Qed.
Lemma ex_r0_n0 : res swap2 first2 0 <> 0.
Proof. rewrite ex_r0 => /colP /(_ ord0); rewrite !mxE /=; exact: R1_neq_R0. Qed.
Lemma ex_started nb tol : Rle tol R1 -> started (nb := nb.+1) (fun _ => swap2) (fun _ => first2) (fun _ => 0) tol.
Proof.
move=> t1; exists ord0; rewrite ex_r0; apply: Rle_trans t1 _; apply: Rle_trans (comp_le_norm _ ord0); rewrite mxE /= Rabs_R1; exact: Rle_refl.
Qed.
(** two entries, maxiter = 7, check = 3 *)
Example C97_ex : exists x k, gmres_call (nb := 2) (fun _ => swap2) (fun _ => first2) (fun _ => 0) (fun _ => noop (n := 2)) (Rdiv 1 1000) best R1 7 3 = Some (x, k) /\
  forall i, exists v, x i = Some v /\ Rle (norm (res swap2 first2 v)) (Rmult (sqrt (INR k.+1)) (norm (res swap2 first2 0))).
Proof.
have e0 : Rlt R0 (Rdiv 1 1000) by lra.
have [x [k [E [km H]]]] := C97_residual_bound (nb := 2) (fun _ => swap2) (fun _ => first2) (fun _ => 0) (fun _ => noop (n := 2)) R1 best_lsq e0 (ltn0Sn 6) (ltn0Sn 2).
exists x, k; split=> // i; apply: H; exact: ex_r0_n0.
Qed.
(** the hypotheses of the optimality theorem hold for one system after the second iteration *)
Example C97_optimal_ex : linear_op (noop (n := 2)) /\ independent 2 (ampow swap2 (noop (n := 2)) (res swap2 first2 0)) /\
  exists x, gmres_call (nb := 1) (fun _ => swap2) (fun _ => first2) (fun _ => 0) (fun _ => noop (n := 2)) R0 best R1 2 1 = Some (x, 1%N).
Proof.
split; first by []. split.
- move=> c; rewrite ex_r0 !big_ord_recl big_ord0 addr0 /= /noop => E j jk.
  have := congr1 (fun u : 'cV[RF]_2 => u ord0 ord0) E; have := congr1 (fun u : 'cV[RF]_2 => u ord_max ord0) E.
  rewrite !mxE !big_ord_recl !big_ord0 !mxE /= !mul0r !mulr0 !mul1r !addr0 !mulr1 add0r.
  rewrite mulr0 addr0 => h1 h2; by case: j jk => [|[|j]].
- have [_ [v [-> _]]] := C99_n_iterations_refuted R0 best (ltn0Sn 0) (Rle_refl R1).
  by exists (fun _ => Some v).
Qed.
(** the LU-preconditioned solver on the exchange matrix: two iterations *)
Example C98_ex : exists x, lu_gmres (nb := 1) (fun _ => swap2) (fun _ => first2) (fun _ => 0) (Rdiv 1 1000) best R1 5 = Some (x, 1%N).
Proof.
have e0 : Rlt R0 (Rdiv 1 1000) by lra.
have [x [k [E [X K]]]] := C98_lu_gmres (nb := 1) (A := fun _ => swap2) (b := fun _ => first2) (x0 := fun _ => 0) best_lsq e0 (ltnSn 1 : (1 < 5)%N) (ex_started 0 (Rle_refl R1)) (fun _ => swap2_unit) (fun _ => ex_r0_n0).
exists x; rewrite E K // => _; rewrite ex_r0.
have -> : norm first2 = R1.
{ rewrite /norm /dot !big_ord_recl big_ord0 !mxE /= mul0r !addr0 mul1r; exact: sqrt_1. }
rewrite /Rsqr; lra.
Qed.
(** three iterations solve the exchange system for small eps *)
Example C99_ex tol : Rlt R0 tol -> exists e1, Rlt R0 e1 /\ forall eps, Rlt R0 eps -> Rlt eps e1 ->
  exists x k, gmres_call (nb := 1) (fun _ => swap2) (fun _ => first2) (fun _ => 0) (fun _ => mulmx 1%:M) eps best tol 3 5 = Some (x, k) /\
  forall i, exists v, x i = Some v /\ Rlt (norm (res swap2 first2 v)) tol.
Proof.
move=> t0; have [e1 [e10 H]] := C99_enough_iterations (nb := 1) (A := fun _ => swap2) (Pm := fun _ => 1%:M) (b := fun _ => first2) (x0 := fun _ => 0) best_lsq (fun _ => swap2_unit) (fun _ => unitmx1 _ 2) (fun _ => ex_r0_n0) t0 (ltnSn 2).
exists e1; split=> // eps ep ee; exact: H.
Qed.
(** a batch of two exchange systems, the second solved already by its initial guess *)
Example C100_ex : let b (i : 'I_2) := if i == ord0 then first2 else 0 in
  exists x, gmres_call (nb := 2) (fun _ => swap2) b (fun _ => 0) (fun _ => noop (n := 2)) (Rdiv 1 1000) best (Rdiv 1 2) 100 5 = Some (x, 99%N) /\ x ord_max = None.
Proof.
move=> b; apply: C100_solved_entry_refuted => //.
- exists ord0; rewrite ex_r0; apply: Rle_trans (comp_le_norm _ ord0); rewrite mxE /= Rabs_R1; lra.
- by rewrite /res mulmx0 subr0.
Qed.
