(** Real analysis used for the adjoint theorems: contraction mappings on column
    vectors, strict differentiability, and the local solution of one implicit
    step.  (No code is modelled here.) *)
From Coq Require Import Reals List String Lra Lia ClassicalEpsilon FunctionalExtensionality.
From mathcomp Require Import all_ssreflect all_algebra.
From Verif Require Import ChunkModel ChunkSolve ChunkInst NewtonModel Ode OdeForward OdeAdjoint OdeReal OdeDiff ZmodTac RField Gmres.
Import GRing.Theory.
Set Implicit Arguments. Unset Strict Implicit. Unset Printing Implicit Defensive.
Local Open Scope ring_scope.
Delimit Scope R_scope with Re.
Arguments norm {n} u%R.
Notation RF := R_fieldType.

(** ** Norms *)
Section Norms.
Variable n : nat.
Implicit Types u v w : 'cV[RF]_n.
Lemma normN u : norm (- u) = norm u.
Proof. by rewrite -scaleN1r -[-1]/(Ropp R1 : RF) normZ Rabs_Ropp Rabs_R1 Rmult_1_l. Qed.
Lemma comp_norm u i : (Rabs (u i ord0) <= norm u)%Re.
Proof.
rewrite -sqrt_Rsqr_abs; apply: sqrt_le_1_alt; rewrite /dot (bigD1 i) //= -[_ + _]/(Rplus _ _) -{1}[Rsqr _]Rplus_0_r.
apply: Rplus_le_compat_l; rewrite big_mkcond; apply: sum_nonneg => j; case: ifP => _; [exact: Rle_0_sqr|exact: Rle_refl].
Qed.
Lemma norm_le_sum u : (norm u <= \sum_i (Rabs (u i ord0) : RF))%Re.
Proof.
have E : u = \sum_i ((u i ord0 : RF) *: delta_mx i 0) by rewrite [LHS]matrix_sum_delta; apply: eq_bigr => i _; rewrite big_ord1.
rewrite {1}E; apply: Rle_trans (norm_sum _) _; apply: sum_le => i; rewrite normZ.
have -> : norm (delta_mx i 0 : 'cV[RF]_n) = R1; last by rewrite Rmult_1_r; exact: Rle_refl.
rewrite /norm /dot (bigD1 i) //= big1 => [|j ji]; first by rewrite addr0 !mxE !eqxx mulr1 sqrt_1.
by rewrite !mxE (negbTE ji) mul0r.
Qed.
End Norms.
Lemma abs_sum k (f : 'I_k -> R) : (Rabs (\sum_i (f i : RF)) <= \sum_i (Rabs (f i) : RF))%Re.
Proof.
elim: k f => [|k IH] f; first by rewrite !big_ord0 Rabs_R0; exact: Rle_refl.
rewrite !big_ord_recr; apply: Rle_trans (Rabs_triang _ _) _; exact: Rplus_le_compat_r.
Qed.
Lemma mat_bound p q (M : 'M[RF]_(p, q)) : exists c, (0 < c)%Re /\ forall v, (norm (M *m v) <= c * norm v)%Re.
Proof.
pose c : R := \sum_i \sum_j (Rabs (M i j) : RF).
have c0 : (0 <= c)%Re by apply: sum_nonneg => i; apply: sum_nonneg => j; exact: Rabs_pos.
exists (c + 1)%Re; split; first lra.
move=> v; apply: (Rle_trans _ (Rmult c (norm v))); last by apply: Rmult_le_compat_r; [exact: norm_ge0|lra].
apply: Rle_trans (norm_le_sum _) _; rewrite /c -[Rmult _ _]/(_ * _ : RF) mulr_suml; apply: sum_le => i.
rewrite mxE mulr_suml; apply: Rle_trans (abs_sum _) _; apply: sum_le => j.
rewrite -[_ * _]/(Rmult _ _) Rabs_mult; apply: Rmult_le_compat_l; [exact: Rabs_pos|exact: comp_norm].
Qed.
(** ** Distances *)
Definition dst n (u v : 'cV[RF]_n) : R := norm (u - v).
Section Dst.
Variable n : nat.
Implicit Types u v w : 'cV[RF]_n.
Lemma dst_ge0 u v : (0 <= dst u v)%Re. Proof. exact: norm_ge0. Qed.
Lemma dstC u v : dst u v = dst v u. Proof. by rewrite /dst -normN opprB. Qed.
Lemma dst0 u : dst u u = R0. Proof. by rewrite /dst subrr norm0. Qed.
Lemma dst_tri u v w : (dst u w <= dst u v + dst v w)%Re.
Proof. by rewrite /dst (_ : u - w = (u - v) + (v - w)); [exact: norm_triangle|rewrite addrA subrK]. Qed.
Lemma dst_eq0 u v : dst u v = R0 -> u = v.
Proof. by move/norm_eq0/eqP; rewrite subr_eq0 => /eqP. Qed.
Lemma comp_dst u v i : (Rabs (u i ord0 - v i ord0) <= dst u v)%Re.
Proof. by have := comp_norm (u - v) i; rewrite !mxE. Qed.
End Dst.
Lemma half_pow_pos k : (0 < / 2 ^ k)%Re.
Proof. apply: Rinv_0_lt_compat; apply: pow_lt; lra. Qed.
Lemma le_lim a b K : (0 <= K)%Re -> (forall k, (a <= b + K * / 2 ^ k)%Re) -> (a <= b)%Re.
Proof.
move=> K0 H; apply: le_epsilon => e e0.
have [N HN] := cv_pow_half K e e0; have := HN N (le_n _); rewrite /R_dist Rminus_0_r Rabs_pos_eq => [q|].
- have := H N; rewrite /Rdiv in q; lra.
- apply: Rmult_le_pos => //; apply: Rlt_le; exact: half_pow_pos.
Qed.

Lemma sum_const k (e : R) : \sum_(i < k) (e : RF) = Rmult (INR k) e.
Proof.
elim: k => [|k IH]; first by rewrite big_ord0 Rmult_0_l.
by rewrite big_ord_recr IH S_INR Rmult_plus_distr_r Rmult_1_l.
Qed.
(** ** Contractions *)
Section Contraction.
Variables (n : nat) (T : 'cV[RF]_n -> 'cV[RF]_n) (c : 'cV[RF]_n) (r : R).
Hypothesis lip : forall x y, (dst x c <= r)%Re -> (dst y c <= r)%Re -> (dst (T x) (T y) <= / 2 * dst x y)%Re.
Let D := dst (T c) c.
Hypothesis start : (2 * D <= r)%Re.
Let x k := iter k T c.
Lemma iter_inv k : (dst (x k) c <= 2 * D * (1 - / 2 ^ k))%Re /\ (dst (x k.+1) (x k) <= D * / 2 ^ k)%Re.
Proof.
have D0 : (0 <= D)%Re := dst_ge0 _ _.
elim: k => [|k [I1 I2]].
- rewrite /x /= dst0 -/D; split; [lra|rewrite Rinv_1; lra].
- have hp := half_pow_pos k.
  have E : (/ 2 ^ k.+1 = / 2 * / 2 ^ k)%Re by rewrite /= Rinv_mult.
  have hk : (/ 2 ^ k <= 1)%Re.
  { rewrite -Rinv_1; apply: Rinv_le_contravar; [lra|apply: pow_R1_Rle; lra]. }
  have B1 : (dst (x k.+1) c <= 2 * D * (1 - / 2 ^ k.+1))%Re.
  { apply: Rle_trans (dst_tri _ (x k) _) _; rewrite E; have q : (2 * D * (1 - / 2 * / 2 ^ k) = D * / 2 ^ k + 2 * D * (1 - / 2 ^ k))%Re by field; apply: pow_nonzero; lra.
    lra. }
  have P k' : (0 <= 2 * D * / 2 ^ k')%Re by apply: Rmult_le_pos; [lra|apply: Rlt_le; exact: half_pow_pos].
  split=> //; rewrite E; apply: Rle_trans (_ : (/ 2 * dst (x k.+1) (x k) <= _)%Re); last lra.
  apply: lip.
  + apply: Rle_trans B1 _; have := P k.+1; lra.
  + apply: Rle_trans I1 _; have := P k; lra.
Qed.
Lemma iter_cauchy k j : (dst (x (k + j)) (x k) <= 2 * D * / 2 ^ k)%Re.
Proof.
have D0 : (0 <= D)%Re := dst_ge0 _ _.
have G : (dst (x (k + j)) (x k) <= 2 * D * (/ 2 ^ k - / 2 ^ (k + j)))%Re.
{ elim: j => [|j IH]; first by rewrite addn0 dst0; lra.
  rewrite addnS; apply: Rle_trans (dst_tri _ (x (k + j)%N) _) _; have [_ I2] := iter_inv (k + j)%N.
  have E : (/ 2 ^ (k + j).+1 = / 2 * / 2 ^ (k + j))%Re by rewrite /= Rinv_mult.
  rewrite E; lra. }
have := half_pow_pos (k + j)%N; have : (0 <= 2 * D * / 2 ^ (k + j))%Re by apply: Rmult_le_pos; [lra|apply: Rlt_le; exact: half_pow_pos].
lra.
Qed.
Lemma fixpoint : exists z, T z = z /\ (dst z c <= 2 * D)%Re.
Proof.
have D0 : (0 <= D)%Re := dst_ge0 _ _.
have C i : Cauchy_crit (fun k => x k i ord0).
{ move=> e e0; have [N HN] := cv_pow_half (4 * D)%Re e e0; exists N => p q pN qN; rewrite /R_dist.
  have Np : (N <= p)%N by apply/leP. have Nq : (N <= q)%N by apply/leP.
  have := iter_cauchy N (p - N); have := iter_cauchy N (q - N); rewrite !subnKC // => h1 h2.
  have := comp_dst (x p) (x q) i; have := dst_tri (x p) (x N) (x q); rewrite (dstC (x N)).
  have := HN N (le_n _); rewrite /R_dist Rminus_0_r /Rdiv Rabs_pos_eq; first by lra.
  apply: Rmult_le_pos; [lra|apply: Rlt_le; exact: half_pow_pos]. }
pose z : 'cV[RF]_n := \col_i (proj1_sig (R_complete _ (C i)) : RF).
have Z i : Un_cv (fun k => x k i ord0) (z i ord0) by rewrite mxE; exact: proj2_sig (R_complete _ (C i)).
have cl k i : (Rabs (z i ord0 - x k i ord0) <= 2 * D * / 2 ^ k)%Re.
{ apply: le_epsilon => e e0; have [N HN] := Z i e e0.
  have := HN (k + N)%N; rewrite /R_dist => /(_ _) q.
  have {}q := q ltac:(apply/leP; exact: leq_addl).
  have := comp_dst (x (k + N)%N) (x k) i; have := iter_cauchy k N.
  have := Rabs_triang (z i ord0 - x (k + N)%N i ord0)%Re (x (k + N)%N i ord0 - x k i ord0)%Re.
  have -> : (z i ord0 - x (k + N)%N i ord0 + (x (k + N)%N i ord0 - x k i ord0) = z i ord0 - x k i ord0)%Re by ring.
  rewrite (Rabs_minus_sym (z i ord0) (x (k + N)%N i ord0)); lra. }
pose K := (INR n * (2 * D))%Re.
have K0 : (0 <= K)%Re by apply: Rmult_le_pos; [exact: pos_INR|lra].
have cz k : (dst z (x k) <= K * / 2 ^ k)%Re.
{ apply: Rle_trans (norm_le_sum _) _; apply: Rle_trans (_ : (\sum_(i < n) (2 * D * / 2 ^ k : RF)%Re <= _)%Re).
  - apply: sum_le => i; rewrite mxE [X in Rabs (_ + X)]mxE; exact: cl.
  - rewrite sum_const /K; lra. }
have zc : (dst z c <= 2 * D)%Re.
{ apply: (@le_lim _ _ K K0) => k; apply: Rle_trans (dst_tri _ (x k) _) _.
  have := cz k; have [I1 _] := iter_inv k.
  have : (0 <= 2 * D * / 2 ^ k)%Re by apply: Rmult_le_pos; [lra|apply: Rlt_le; exact: half_pow_pos].
  lra. }
exists z; split=> //; apply: dst_eq0; apply: Rle_antisym; last exact: dst_ge0.
apply: (@le_lim _ _ K K0) => k; apply: Rle_trans (dst_tri _ (x k.+1) _) _.
have h1 : (dst (T z) (x k.+1) <= / 2 * dst z (x k))%Re.
{ apply: lip; first by lra.
  have [I1 _] := iter_inv k; apply: Rle_trans I1 _; have : (0 <= 2 * D * / 2 ^ k)%Re by apply: Rmult_le_pos; [lra|apply: Rlt_le; exact: half_pow_pos].
  lra. }
have E : (/ 2 ^ k.+1 = / 2 * / 2 ^ k)%Re by rewrite /= Rinv_mult.
have := cz k; have := cz k.+1; rewrite (dstC (x k.+1)) E => q1 q2.
have : (K * (/ 2 * / 2 ^ k) = / 2 * (K * / 2 ^ k))%Re by ring. lra.
Qed.
Lemma fix_unique u v : (dst u c <= r)%Re -> (dst v c <= r)%Re -> T u = u -> T v = v -> u = v.
Proof.
move=> hu hv eu ev; apply: dst_eq0; have := lip hu hv; rewrite eu ev; have := dst_ge0 u v; lra.
Qed.
End Contraction.

(** ** Little-o form of derivatives *)
Definition near (th : R) (Q : R -> Prop) : Prop := exists d, (0 < d)%Re /\ forall u, (Rabs (u - th) < d)%Re -> Q u.
Lemma near_and th Q1 Q2 : near th Q1 -> near th Q2 -> near th (fun u => Q1 u /\ Q2 u).
Proof.
move=> [d [d0 H]] [d' [d0' H']]; exists (Rmin d d'); split; first exact: Rmin_glb_lt.
move=> u hu; split; [apply: H; exact: Rlt_le_trans hu (Rmin_l _ _)|apply: H'; exact: Rlt_le_trans hu (Rmin_r _ _)].
Qed.
Lemma near_imp th (Q1 Q2 : R -> Prop) : (forall u, Q1 u -> Q2 u) -> near th Q1 -> near th Q2.
Proof. by move=> H [d [d0 Hd]]; exists d; split=> // u /Hd; exact: H. Qed.
Lemma near_all n th (Q : 'I_n -> R -> Prop) : (forall i, near th (Q i)) -> near th (fun u => forall i, Q i u).
Proof.
elim: n Q => [|n IH] Q H; first by exists R1; split; [lra|move=> u _ []].
have := near_and (IH _ (fun i => H (widen_ord (leqnSn n) i))) (H ord_max).
apply: near_imp => u [H1 H2] i; case: (unliftP ord_max i) => [j ->|-> //].
by have := H1 j; rewrite (_ : widen_ord _ j = lift ord_max j) //; apply: val_inj; rewrite /= /bump leqNgt ltn_ord.
Qed.
Lemma near_true th (Q : R -> Prop) : (forall u, Q u) -> near th Q.
Proof. by move=> H; exists R1; split; [lra|]. Qed.
Lemma near_at th Q : near th Q -> Q th.
Proof. by case=> d [d0]; apply; rewrite Rminus_eq_0 Rabs_R0. Qed.

Lemma dpl_near f th l : derivable_pt_lim f th l <->
  forall e, (0 < e)%Re -> near th (fun u => (Rabs (f u - f th - l * (u - th)) <= e * Rabs (u - th))%Re).
Proof.
split=> H e e0.
- have [d Hd] := H e e0; exists d; split; first exact: cond_pos.
  move=> u hu; have [z|nz] := Req_dec (u - th)%Re R0.
  { have -> : u = th by lra. have -> : (f th - f th - l * (th - th) = 0)%Re by ring. rewrite Rabs_R0; have := Rabs_pos (th - th)%Re => ap; apply: Rmult_le_pos; lra. }
  have := Hd (u - th)%Re nz hu; have -> : (th + (u - th) = u)%Re by ring.
  move=> q; have -> : (f u - f th - l * (u - th) = ((f u - f th) / (u - th) - l) * (u - th))%Re by field.
  rewrite Rabs_mult; apply: Rmult_le_compat_r; [exact: Rabs_pos|lra].
- have [d [d0 Hd]] := H (e / 2)%Re ltac:(lra); exists (mkposreal d d0) => h h0 /= hd.
  have := Hd (th + h)%Re; have -> : (th + h - th = h)%Re by ring. move=> /(_ hd) q.
  have -> : ((f (th + h) - f th) / h - l = (f (th + h) - f th - l * h) / h)%Re by field.
  rewrite /Rdiv Rabs_mult Rabs_inv //; have hp := Rabs_pos_lt h h0.
  apply: (Rmult_lt_reg_r (Rabs h)) => //; rewrite Rmult_assoc Rinv_l; last lra.
  have : (0 < e * Rabs h)%Re by exact: Rmult_lt_0_compat. lra.
Qed.
Lemma comp3 n (a b d : 'cV[RF]_n) (c : R) i : (a - b - (c : RF) *: d) i ord0 = (a i ord0 - b i ord0 - d i ord0 * c)%Re.
Proof. by rewrite !mxE [_ * _]mulrC. Qed.
Lemma cdiff_near n (v : R -> 'cV[RF]_n) th v' : cdiff v th v' <->
  forall e, (0 < e)%Re -> near th (fun u => (norm (v u - v th - ((u - th)%Re : RF) *: v') <= e * Rabs (u - th))%Re).
Proof.
split=> [H e e0|H i].
- pose e' := (e / (INR n + 1))%Re; have np : (0 < INR n + 1)%Re by have := pos_INR n; lra.
  have e0' : (0 < e')%Re by exact: Rdiv_lt_0_compat.
  have := near_all (fun i => proj1 (dpl_near _ _ _) (H i) e' e0'); apply: near_imp => u Hu.
  apply: Rle_trans (norm_le_sum _) _; apply: Rle_trans (_ : (\sum_(i < n) ((e' * Rabs (u - th))%Re : RF) <= _)%Re).
  + apply: sum_le => i; rewrite comp3; exact: Hu.
  + rewrite sum_const -Rmult_assoc; apply: Rmult_le_compat_r; first exact: Rabs_pos.
    have : (e' * (INR n + 1) = e)%Re by rewrite /e'; field; lra. lra.
- apply/dpl_near => e e0; have := H e e0; apply: near_imp => u Hu; apply: Rle_trans Hu.
  have := comp_norm (v u - v th - ((u - th)%Re : RF) *: v') i; by rewrite comp3.
Qed.
(** a differentiable curve is Lipschitz at the point *)
Lemma cdiff_lip n (v : R -> 'cV[RF]_n) th v' : cdiff v th v' -> near th (fun u => (dst (v u) (v th) <= (norm v' + 1) * Rabs (u - th))%Re).
Proof.
move=> /cdiff_near /(_ R1 Rlt_0_1); apply: near_imp => u Hu.
have := norm_triangle (v u - v th - ((u - th)%Re : RF) *: v') (((u - th)%Re : RF) *: v').
rewrite subrK normZ -/(dst _ _); lra.
Qed.
Lemma near_small n (v : R -> 'cV[RF]_n) th v' d : cdiff v th v' -> (0 < d)%Re -> near th (fun u => (dst (v u) (v th) <= d)%Re).
Proof.
move=> /cdiff_lip L d0; have k0 : (0 < norm v' + 1)%Re by have := norm_ge0 v'; lra.
have Nn : near th (fun u => (Rabs (u - th) < d / (norm v' + 1))%Re) by exists (d / (norm v' + 1))%Re; split=> //; exact: Rdiv_lt_0_compat.
have := near_and L Nn; apply: near_imp => u [h1 h2]; apply: Rle_trans h1 _.
have := Rmult_le_compat_l _ _ _ (Rlt_le _ _ k0) (Rlt_le _ _ h2).
by have -> : ((norm v' + 1) * (d / (norm v' + 1)) = d)%Re by field; lra.
Qed.

(** ** Strict differentiability *)
(** [f] is strictly differentiable at (y0, p0) with partial derivatives [J], [P]
    (every continuously differentiable function is, with its Jacobians) *)
Definition sdiff (m np : nat) (f : 'cV[RF]_m -> 'cV[RF]_np -> 'cV[RF]_m)
    (J : 'M[RF]_m) (P : 'M[RF]_(m, np)) (y0 : 'cV[RF]_m) (p0 : 'cV[RF]_np) : Prop :=
  forall e, (0 < e)%Re -> exists d, (0 < d)%Re /\ forall y y' p p',
    (dst y y0 <= d)%Re -> (dst y' y0 <= d)%Re -> (dst p p0 <= d)%Re -> (dst p' p0 <= d)%Re ->
    (norm ((f y' p' - f y p) - (J *m (y' - y) + P *m (p' - p)))%R <= e * (dst y' y + dst p' p))%Re.

Section Step.
Variables (m np : nat) (f : 'cV[RF]_m -> 'cV[RF]_np -> 'cV[RF]_m) (J : 'M[RF]_m) (P : 'M[RF]_(m, np)).
Variables (y0 a0 : 'cV[RF]_m) (p0 : 'cV[RF]_np) (h : R).
Hypothesis sd : sdiff f J P y0 p0.
(** the chain rule along curves follows *)
Lemma sdiff_partials : partials_at f J P y0 p0.
Proof.
move=> y p th y' p' ey ep Dy Dp; apply/cdiff_near => e e0.
have [cJ [cJ0 bJ]] := mat_bound J; have [cP [cP0 bP]] := mat_bound P.
pose K := (norm y' + 1 + (norm p' + 1))%Re; have K0 : (0 < K)%Re by have := norm_ge0 y'; have := norm_ge0 p'; rewrite /K; lra.
pose e1 := (e / 2 / K)%Re; have e10 : (0 < e1)%Re by apply: Rdiv_lt_0_compat; lra.
pose e2 := (e / 2 / (cJ + cP))%Re; have e20 : (0 < e2)%Re by apply: Rdiv_lt_0_compat; lra.
have [d [d0 Hd]] := sd e10.
have A := near_and (near_and (near_small Dy d0) (near_small Dp d0)) (near_and (near_and (cdiff_lip Dy) (cdiff_lip Dp))
   (near_and (proj1 (cdiff_near _ _ _) Dy e2 e20) (proj1 (cdiff_near _ _ _) Dp e2 e20))).
apply: near_imp A => u [[n1 n2] [[l1 l2] [o1 o2]]].
set s := (u - th)%Re in l1 l2 o1 o2 *; rewrite ey ep in n1 n2 l1 l2 o1 o2 *.
have z1 : (dst y0 y0 <= d)%Re by rewrite dst0; lra. have z2 : (dst p0 p0 <= d)%Re by rewrite dst0; lra.
have H := Hd _ _ _ _ z1 n1 z2 n2.
have E : f (y u) (p u) - f y0 p0 - (s : RF) *: (J *m y' + P *m p') =
  ((f (y u) (p u) - f y0 p0) - (J *m (y u - y0) + P *m (p u - p0))) + (J *m (y u - y0 - (s : RF) *: y') + P *m (p u - p0 - (s : RF) *: p')).
{ by rewrite !mulmxBr -!scalemxAr scalerDr; zmod. }
rewrite E; apply: Rle_trans (norm_triangle _ _) _; have T2 := norm_triangle (J *m (y u - y0 - (s : RF) *: y')) (P *m (p u - p0 - (s : RF) *: p')).
have q1 := bJ (y u - y0 - (s : RF) *: y'); have q2 := bP (p u - p0 - (s : RF) *: p').
have r1 := Rmult_le_compat_l _ _ _ (Rlt_le _ _ cJ0) o1; have r2 := Rmult_le_compat_l _ _ _ (Rlt_le _ _ cP0) o2.
have r3 : (e1 * (dst (y u) y0 + dst (p u) p0) <= e1 * (K * Rabs s))%Re by apply: Rmult_le_compat_l; [lra|rewrite /K; lra].
have i1 : (e1 * (K * Rabs s) = e / 2 * Rabs s)%Re by rewrite /e1; field; lra.
have i2 : (cJ * (e2 * Rabs s) + cP * (e2 * Rabs s) = e / 2 * Rabs s)%Re by rewrite /e2; field; lra.
apply: Rle_trans (Rplus_le_compat _ _ _ _ H T2) _.
apply: Rle_trans (Rplus_le_compat _ _ _ _ r3 (Rplus_le_compat _ _ _ _ (Rle_trans _ _ _ q1 r1) (Rle_trans _ _ _ q2 r2))) _.
rewrite i1 i2; lra.
Qed.

Hypothesis base : y0 - a0 - (h : RF) *: f y0 p0 = 0.
Let A : 'M[RF]_m := 1%:M - (h : RF) *: J.
Hypothesis Au : A \in unitmx.
(** the implicit step has a solution near y0, unique there, and close to y0 *)
Lemma step_solution : exists r d L, (0 < r)%Re /\ (0 < d)%Re /\ (0 <= L)%Re /\ forall a p, (dst a a0 <= d)%Re -> (dst p p0 <= d)%Re ->
  exists y, (dst y y0 <= r)%Re /\ y - a - (h : RF) *: f y p = 0 /\ (dst y y0 <= L * (dst a a0 + dst p p0))%Re /\
  forall y', (dst y' y0 <= r)%Re -> y' - a - (h : RF) *: f y' p = 0 -> y' = y.
Proof.
have [c [c0 bA]] := mat_bound (invmx A); have [cP [cP0 bP]] := mat_bound P.
have h0 := Rabs_pos h.
pose e := (/ (2 * c * (Rabs h + 1)))%Re; have e0 : (0 < e)%Re.
{ apply: Rinv_0_lt_compat; apply: Rmult_lt_0_compat; [lra|lra]. }
have [r [r0 Hr]] := sd e0.
pose L0 := (c * (1 + Rabs h * (cP + e)))%Re.
have he0 : (0 <= Rabs h * (cP + e))%Re by apply: Rmult_le_pos; lra.
have L00 : (0 < L0)%Re by apply: Rmult_lt_0_compat; lra.
pose d := Rmin r (r / (4 * L0))%Re.
have d0 : (0 < d)%Re by apply: Rmin_glb_lt => //; apply: Rdiv_lt_0_compat; lra.
exists r, d, (2 * L0)%Re; split=> //; split=> //; split; first lra.
move=> a p ha hp.
have ha' := Rle_trans _ _ _ ha (Rmin_l _ _); have hp' := Rle_trans _ _ _ hp (Rmin_l _ _).
pose T y := y - invmx A *m (y - a - (h : RF) *: f y p).
have Tfix y : T y = y <-> y - a - (h : RF) *: f y p = 0.
{ rewrite /T; split=> [/eqP|->]; last by rewrite mulmx0 subr0.
  rewrite -subr_eq0 addrC addrA addNr sub0r oppr_eq0 => /eqP q.
  by rewrite -(mulKVmx Au (y - a - _)) q mulmx0. }
have lip x y : (dst x y0 <= r)%Re -> (dst y y0 <= r)%Re -> (dst (T x) (T y) <= / 2 * dst x y)%Re.
{ move=> hx hy; have H := Hr y x p p hy hx hp' hp'; rewrite subrr mulmx0 addr0 dst0 Rplus_0_r in H.
  have E : T x - T y = invmx A *m ((h : RF) *: ((f x p - f y p) - J *m (x - y))).
  { have -> : (h : RF) *: ((f x p - f y p) - J *m (x - y)) = A *m (x - y) - ((x - a - (h : RF) *: f x p) - (y - a - (h : RF) *: f y p)).
    { by rewrite /A mulmxBl mul1mx -scalemxAl !scalerBr; zmod. }
    rewrite /T; move: (x - a - _) (y - a - _) => X Y; rewrite mulmxBr mulKmx // mulmxBr; zmod. }
  rewrite {1}/dst E; apply: Rle_trans (bA _) _; rewrite normZ.
  have q := Rmult_le_compat_l _ _ _ h0 H; have q2 := Rmult_le_compat_l _ _ _ (Rlt_le _ _ c0) q; apply: Rle_trans q2 _.
  have -> : (c * (Rabs h * (e * dst x y)) = (c * Rabs h * e) * dst x y)%Re by ring.
  apply: Rmult_le_compat_r; first exact: dst_ge0.
  have : (c * (Rabs h + 1) * e = / 2)%Re by rewrite /e; field; split; lra.
  have : (0 <= c * e)%Re by apply: Rmult_le_pos; lra. lra. }
have st : (dst (T y0) y0 <= L0 * (dst a a0 + dst p p0))%Re.
{ have E : T y0 - y0 = invmx A *m ((a - a0) + (h : RF) *: (f y0 p - f y0 p0)).
  { rewrite /T addrC addrA addNr sub0r -mulmxN; congr (_ *m _).
    rewrite -[LHS]addr0 -[X in _ + X]base scalerBr; zmod. }
  rewrite /dst E -!/(dst _ _); apply: Rle_trans (bA _) _; rewrite /L0 Rmult_assoc; apply: Rmult_le_compat_l; first lra.
  apply: Rle_trans (norm_triangle _ _) _; rewrite normZ -/(dst a a0).
  have z : (dst y0 y0 <= r)%Re by rewrite dst0; lra. have z2 : (dst p0 p0 <= r)%Re by rewrite dst0; lra.
  have H := Hr y0 y0 p0 p z z z2 hp'; rewrite subrr mulmx0 add0r dst0 Rplus_0_l in H.
  have Tr := norm_triangle ((f y0 p - f y0 p0) - P *m (p - p0)) (P *m (p - p0)); rewrite subrK in Tr.
  have q := bP (p - p0); rewrite -/(dst p p0) in q.
  have F : (norm (f y0 p - f y0 p0) <= (cP + e) * dst p p0)%Re by lra.
  have G := Rmult_le_compat_l _ _ _ h0 F.
  have pa := dst_ge0 a a0; have pp := dst_ge0 p p0.
  have : (0 <= Rabs h * (cP + e) * dst a a0)%Re by apply: Rmult_le_pos. lra. }
have small : (2 * (L0 * (dst a a0 + dst p p0)) <= r)%Re.
{ have qd : (d <= r / (4 * L0))%Re := Rmin_r _ _.
  have : (L0 * (dst a a0 + dst p p0) <= L0 * (2 * (r / (4 * L0))))%Re by apply: Rmult_le_compat_l; lra.
  have -> : (L0 * (2 * (r / (4 * L0))) = r / 2)%Re by field; lra. lra. }
have st2 : (2 * dst (T y0) y0 <= r)%Re by lra.
have [y [Ty yc]] := fixpoint lip st2.
exists y; split; first lra. split; first exact/Tfix. split; first lra.
move=> y' hy' /Tfix ey'; apply: (fix_unique lip) => //; lra.
Qed.
(** derivative of the solution along curves *)
Lemma step_derivative (y a : R -> 'cV[RF]_m) (p : R -> 'cV[RF]_np) th a' p' L :
  y th = y0 -> a th = a0 -> p th = p0 -> cdiff a th a' -> cdiff p th p' -> (0 <= L)%Re ->
  near th (fun u => y u - a u - (h : RF) *: f (y u) (p u) = 0 /\ (dst (y u) y0 <= L * (dst (a u) a0 + dst (p u) p0))%Re) ->
  cdiff y th (invmx A *m (a' + (h : RF) *: (P *m p'))).
Proof.
move=> ey ea ep Da Dp L0 N; apply/cdiff_near => e e0.
have [c [c0 bA]] := mat_bound (invmx A); have [cP [cP0 bP]] := mat_bound P; have h0 := Rabs_pos h.
pose K := (norm a' + 1 + (norm p' + 1))%Re; have K0 : (0 < K)%Re by have := norm_ge0 a'; have := norm_ge0 p'; rewrite /K; lra.
pose B := (c * (1 + Rabs h * cP + Rabs h * ((L + 1) * K)))%Re.
have t1 : (0 <= Rabs h * cP)%Re by apply: Rmult_le_pos; lra.
have t2 : (0 <= Rabs h * ((L + 1) * K))%Re by apply: Rmult_le_pos => //; apply: Rmult_le_pos; lra.
have B0 : (0 < B)%Re by apply: Rmult_lt_0_compat; lra.
pose e1 := (e / B)%Re; have e10 : (0 < e1)%Re by exact: Rdiv_lt_0_compat.
have [d [d0 Hd]] := sd e10.
pose d2 := (d / (2 * (L + 1)))%Re; have d20 : (0 < d2)%Re by apply: Rdiv_lt_0_compat; lra.
have N2 := near_and N (near_and (near_and (near_and (near_small Da d20) (near_small Dp d20)) (near_small Dp d0)) (near_and (near_and (cdiff_lip Da) (cdiff_lip Dp))
   (near_and (proj1 (cdiff_near _ _ _) Da e1 e10) (proj1 (cdiff_near _ _ _) Dp e1 e10)))).
apply: near_imp N2 => u [[eq ly] [[[n1 n2] n3] [[l1 l2] [o1 o2]]]].
set s := (u - th)%Re in l1 l2 o1 o2 *; rewrite ey ea ep in n1 n2 n3 l1 l2 o1 o2 *.
have yd : (dst (y u) y0 <= d)%Re.
{ apply: Rle_trans ly _; have : (L * (dst (a u) a0 + dst (p u) p0) <= L * (2 * d2))%Re by apply: Rmult_le_compat_l; lra.
  have : ((L + 1) * (2 * d2) = d)%Re by rewrite /d2; field; lra. lra. }
have z1 : (dst y0 y0 <= d)%Re by rewrite dst0; lra. have z2 : (dst p0 p0 <= d)%Re by rewrite dst0; lra.
have H := Hd _ _ _ _ z1 yd z2 n3.
set rem := (f (y u) (p u) - f y0 p0) - (J *m (y u - y0) + P *m (p u - p0)) in H.
have E : y u - y0 - (s : RF) *: (invmx A *m (a' + (h : RF) *: (P *m p'))) =
  invmx A *m ((a u - a0 - (s : RF) *: a') + (h : RF) *: (P *m (p u - p0 - (s : RF) *: p') + rem)).
{ have -> : (a u - a0 - (s : RF) *: a') + (h : RF) *: (P *m (p u - p0 - (s : RF) *: p') + rem) = A *m (y u - y0) - (s : RF) *: (a' + (h : RF) *: (P *m p')).
  { have e1' : a u = y u - (h : RF) *: f (y u) (p u) by apply/eqP; rewrite eq_sym -subr_eq0 addrAC; apply/eqP.
    have e2' : a0 = y0 - (h : RF) *: f y0 p0 by apply/eqP; rewrite eq_sym -subr_eq0 addrAC; apply/eqP.
    rewrite e1' e2' /A /rem mulmxBl mul1mx -scalemxAl !mulmxBr -!scalemxAr !(scalerDr, scalerBr, scalerN) !scalerA [(s : RF) * h]mulrC; zmod. }
  by rewrite mulmxBr mulKmx // scalemxAr. }
rewrite E; apply: Rle_trans (bA _) _.
have T1 := norm_triangle (a u - a0 - (s : RF) *: a') ((h : RF) *: (P *m (p u - p0 - (s : RF) *: p') + rem)).
rewrite normZ in T1; have T2 := norm_triangle (P *m (p u - p0 - (s : RF) *: p')) rem.
have q2 := bP (p u - p0 - (s : RF) *: p'); have r2 := Rmult_le_compat_l _ _ _ (Rlt_le _ _ cP0) o2.
have s0 := Rabs_pos s.
have r3 : (dst (y u) y0 + dst (p u) p0 <= (L + 1) * (K * Rabs s))%Re.
{ have pa := dst_ge0 (a u) a0; have : (dst (a u) a0 + dst (p u) p0 <= K * Rabs s)%Re by rewrite /K; lra.
  move=> k1; have := Rmult_le_compat_l _ _ _ L0 k1; lra. }
have r4 := Rmult_le_compat_l _ _ _ (Rlt_le _ _ e10) r3.
have F : (norm (P *m (p u - p0 - (s : RF) *: p') + rem) <= cP * (e1 * Rabs s) + e1 * ((L + 1) * (K * Rabs s)))%Re.
{ apply: Rle_trans T2 _; apply: Rplus_le_compat; [exact: Rle_trans q2 r2|exact: Rle_trans H r4]. }
have G := Rmult_le_compat_l _ _ _ h0 F.
have fin : (c * (e1 * Rabs s + Rabs h * (cP * (e1 * Rabs s) + e1 * ((L + 1) * (K * Rabs s)))) = e * Rabs s)%Re.
{ have -> : (e = e1 * B)%Re by rewrite /e1; field; lra. rewrite /B; ring. }
rewrite -fin; apply: Rmult_le_compat_l; first lra; apply: Rle_trans T1 _; exact: Rplus_le_compat o1 G.
Qed.
End Step.

(** ** A continuously differentiable function is strictly differentiable *)
Definition c1_near (m np : nat) (f : 'cV[RF]_m -> 'cV[RF]_np -> 'cV[RF]_m)
    (J : 'cV[RF]_m -> 'cV[RF]_np -> 'M[RF]_m) (P : 'cV[RF]_m -> 'cV[RF]_np -> 'M[RF]_(m, np)) (y0 : 'cV[RF]_m) (p0 : 'cV[RF]_np) : Prop :=
  (exists d, (0 < d)%Re /\ forall y p, (dst y y0 <= d)%Re -> (dst p p0 <= d)%Re -> partials_at f (J y p) (P y p) y p) /\
  (forall e, (0 < e)%Re -> exists d, (0 < d)%Re /\ forall y p, (dst y y0 <= d)%Re -> (dst p p0 <= d)%Re ->
     (forall i j, Rabs (J y p i j - J y0 p0 i j) <= e)%Re /\ (forall i j, Rabs (P y p i j - P y0 p0 i j) <= e)%Re).

Lemma dst_seg n (y y' y0 : 'cV[RF]_n) s d : (0 <= s <= 1)%Re -> (dst y y0 <= d)%Re -> (dst y' y0 <= d)%Re -> (dst (y + (s : RF) *: (y' - y)) y0 <= d)%Re.
Proof.
move=> [s0 s1] h1 h2; rewrite /dst.
have -> : y + (s : RF) *: (y' - y) - y0 = ((1 - s)%Re : RF) *: (y - y0) + (s : RF) *: (y' - y0).
{ rewrite -[(1 - s)%Re]/(1 - s : RF) !scalerBr !scalerBl !scale1r; zmod. }
apply: Rle_trans (norm_triangle _ _) _; rewrite !normZ (Rabs_pos_eq s) // (Rabs_pos_eq (1 - s)); last lra.
have q1 := Rmult_le_compat_l (1 - s) _ _ ltac:(lra) h1; have q2 := Rmult_le_compat_l s _ _ s0 h2.
apply: Rle_trans (Rplus_le_compat _ _ _ _ q1 q2) _; lra.
Qed.
Lemma seg_diff n (y v : 'cV[RF]_n) s : cdiff (fun u => y + (u : RF) *: v) s v.
Proof.
move=> i; apply: (@dpl_ext (fun u => Rplus (y i 0) (Rmult (v i 0) u))) => [u|]; first by rewrite !mxE [_ * v i 0]mulrC.
rewrite -[v i 0]Rplus_0_l; apply: derivable_pt_lim_plus; first exact: derivable_pt_lim_const.
rewrite Rplus_0_l -{2}[v i 0]Rmult_1_r; apply: derivable_pt_lim_scal; exact: derivable_pt_lim_id.
Qed.
Lemma row_bound n k (A : 'M[RF]_(k, n)) (v : 'cV[RF]_n) e i : (0 <= e)%Re -> (forall j, Rabs (A i j) <= e)%Re -> (Rabs ((A *m v) i ord0) <= e * INR n * norm v)%Re.
Proof.
move=> e0 H; rewrite mxE; apply: Rle_trans (abs_sum _) _.
apply: Rle_trans (_ : (\sum_(j < n) ((e * norm v)%Re : RF) <= _)%Re); last by rewrite sum_const; apply: Req_le; ring.
apply: sum_le => j; rewrite -[_ * _]/(Rmult _ _) Rabs_mult; apply: Rmult_le_compat; try exact: Rabs_pos; [exact: H|exact: comp_norm].
Qed.
Lemma entA k (a b : 'cV[RF]_k) i : (a + b) i ord0 = a i ord0 + b i ord0. Proof. by rewrite mxE. Qed.
Lemma entN k (a : 'cV[RF]_k) i : (- a) i ord0 = - a i ord0. Proof. by rewrite mxE. Qed.
Lemma c1_sdiff m np f J P (y0 : 'cV[RF]_m) (p0 : 'cV[RF]_np) : c1_near f J P y0 p0 -> sdiff f (J y0 p0) (P y0 p0) y0 p0.
Proof.
move=> [[d1 [d10 H1]] Hc] e e0.
pose M := ((INR m + 1) * (INR m + INR np + 1))%Re; have pm := pos_INR m; have pn := pos_INR np.
have M0 : (0 < M)%Re by apply: Rmult_lt_0_compat; lra.
pose e1 := (e / M)%Re; have e10 : (0 < e1)%Re by exact: Rdiv_lt_0_compat.
have [d2 [d20 H2]] := Hc _ e10.
exists (Rmin d1 d2); split; first exact: Rmin_glb_lt.
move=> y y' p p' hy hy' hp hp'.
have a1 := Rle_trans _ _ _ hy (Rmin_l _ _); have a2 := Rle_trans _ _ _ hy (Rmin_r _ _).
have b1 := Rle_trans _ _ _ hy' (Rmin_l _ _); have b2 := Rle_trans _ _ _ hy' (Rmin_r _ _).
have c1 := Rle_trans _ _ _ hp (Rmin_l _ _); have c2 := Rle_trans _ _ _ hp (Rmin_r _ _).
have f1 := Rle_trans _ _ _ hp' (Rmin_l _ _); have f2 := Rle_trans _ _ _ hp' (Rmin_r _ _).
pose Y (s : R) := y + (s : RF) *: (y' - y); pose Q (s : R) := p + (s : RF) *: (p' - p).
have comp i : (Rabs (((f y' p' - f y p) - (J y0 p0 *m (y' - y) + P y0 p0 *m (p' - p)))%R i ord0) <= e1 * (INR m + INR np + 1) * (dst y' y + dst p' p))%Re.
{ pose g s := f (Y s) (Q s) i ord0.
  pose g' s := (J (Y s) (Q s) *m (y' - y) + P (Y s) (Q s) *m (p' - p)) i ord0.
  have D s : (0 <= s <= 1)%Re -> derivable_pt_lim g s (g' s).
  { move=> hs; exact: (H1 (Y s) (Q s) (dst_seg hs a1 b1) (dst_seg hs c1 f1) Y Q s (y' - y) (p' - p) erefl erefl (seg_diff _ _ _) (seg_diff _ _ _) i). }
  have [c [Ec [c0 c1']]] := MVT_cor2 g g' 0 1 Rlt_0_1 D.
  have e1' : g 1%Re = f y' p' i ord0 by rewrite /g /Y /Q -[IZR 1]/(1 : RF) !scale1r ![_ + (_ - _)]addrC !subrK.
  have e2' : g 0%Re = f y p i ord0 by rewrite /g /Y /Q -[IZR 0]/(0 : RF) !scale0r !addr0.
  rewrite e1' e2' Rminus_0_r Rmult_1_r in Ec.
  have hc : (0 <= c <= 1)%Re by lra.
  have [k1 k2] := H2 (Y c) (Q c) (dst_seg hc a2 b2) (dst_seg hc c2 f2).
  have -> : ((f y' p' - f y p) - (J y0 p0 *m (y' - y) + P y0 p0 *m (p' - p))) i ord0 =
     ((J (Y c) (Q c) - J y0 p0) *m (y' - y)) i ord0 + ((P (Y c) (Q c) - P y0 p0) *m (p' - p)) i ord0.
  { have E2 : (f y' p' - f y p) i ord0 = g' c by rewrite -Ec !mxE.
    by rewrite [LHS]mxE E2 /g' !mulmxBl !(entA, entN); zmod. }
  apply: Rle_trans (Rabs_triang _ _) _.
  have q1 : (Rabs (((J (Y c) (Q c) - J y0 p0) *m (y' - y))%R i ord0) <= e1 * INR m * dst y' y)%Re.
  { apply: row_bound; [lra|move=> j; rewrite !mxE; exact: k1]. }
  have q2 : (Rabs (((P (Y c) (Q c) - P y0 p0) *m (p' - p))%R i ord0) <= e1 * INR np * dst p' p)%Re.
  { apply: row_bound; [lra|move=> j; rewrite !mxE; exact: k2]. }
  apply: Rle_trans (Rplus_le_compat _ _ _ _ q1 q2) _.
  have w1 := dst_ge0 y' y; have w2 := dst_ge0 p' p.
  have : (0 <= e1 * ((INR m + 1) * dst p' p + (INR np + 1) * dst y' y))%Re.
  { apply: Rmult_le_pos; first lra; apply: Rplus_le_le_0_compat; apply: Rmult_le_pos; lra. }
  lra. }
apply: Rle_trans (norm_le_sum _) _; apply: Rle_trans (sum_le comp) _; rewrite sum_const.
have w1 := dst_ge0 y' y; have w2 := dst_ge0 p' p.
have E : (e = e1 * M)%Re by rewrite /e1; field; lra.
rewrite E /M.
have : (0 <= e1 * (INR m + INR np + 1) * (dst y' y + dst p' p))%Re by apply: Rmult_le_pos; [apply: Rmult_le_pos; lra|lra].
lra.
Qed.

(** ** The implicit steps chained: a whole history *)
Section Chain.
Variables (m np nt : nat) (g : nat -> 'cV[RF]_m -> 'cV[RF]_np -> 'cV[RF]_m) (h : nat -> R).
Variables (J : nat -> 'M[RF]_m) (P : nat -> 'M[RF]_(m, np)) (y : nat -> 'cV[RF]_m).
Variables (p : R -> 'cV[RF]_np) (th : R) (q : 'cV[RF]_np) (y0 : R -> 'cV[RF]_m) (z0 : 'cV[RF]_m).
Definition eqn (pv : 'cV[RF]_np) (Y : nat -> 'cV[RF]_m) (k : nat) : Prop := Y k - Y k.-1 - (h k : RF) *: g k (Y k) pv = 0.
Hypothesis sd : forall k, (0 < k)%N -> (k < nt)%N -> sdiff (g k) (J k) (P k) (y k) (p th).
Hypothesis base : forall k, (0 < k)%N -> (k < nt)%N -> eqn (p th) y k.
Hypothesis un : forall k, (0 < k)%N -> (k < nt)%N -> (1%:M - (h k : RF) *: J k) \in unitmx.
Hypothesis Dp : cdiff p th q.
Hypothesis D0 : cdiff y0 th z0.
Hypothesis e0 : y0 th = y 0%N.

Lemma chain N : (N < nt)%N -> exists (Y : R -> nat -> 'cV[RF]_m) (z : nat -> 'cV[RF]_m) r,
  [/\ (0 < r)%Re, forall k, (k <= N)%N -> Y th k = y k, forall u, Y u 0%N = y0 u & z 0%N = z0] /\
  [/\ forall k, (k <= N)%N -> cdiff (fun u => Y u k) th (z k),
      near th (fun u => forall k, (0 < k)%N -> (k <= N)%N -> eqn (p u) (Y u) k) &
      near th (fun u => forall X, X 0%N = y0 u -> (forall k, (k <= N)%N -> (dst (X k) (y k) <= r)%Re) ->
        (forall k, (0 < k)%N -> (k <= N)%N -> eqn (p u) X k) -> forall k, (k <= N)%N -> X k = Y u k)].
Proof.
elim: N => [|N IH] Nn.
- exists (fun u _ => y0 u), (fun _ => z0), 1%Re; split; split=> //; try lra.
  + by move=> k; rewrite leqn0 => /eqP->.
  + by apply: near_true => u k; rewrite lt0n leqn0 => /negbTE->.
  + by apply: near_true => u X X0 _ _ k; rewrite leqn0 => /eqP->.
have [Y [z [r [[r0 Yth Y0 z00] [DY NS NU]]]]] := IH (ltnW Nn).
have N0 : (0 < N.+1)%N by [].
have [r1 [d [L [r10 [d0 [L0 St]]]]]] := step_solution (sd N0 Nn) (base N0 Nn) (un N0 Nn).
pose ok u s := (dst s (y N.+1) <= r1)%Re /\ s - Y u N - (h N.+1 : RF) *: g N.+1 s (p u) = 0 /\
   (dst s (y N.+1) <= L * (dst (Y u N) (y N) + dst (p u) (p th)))%Re.
pose s u := epsilon (inhabits (0 : 'cV[RF]_m)) (ok u).
have NA : near th (fun u => (dst (Y u N) (y N) <= d)%Re /\ (dst (p u) (p th) <= d)%Re).
{ apply: near_and; last exact: near_small Dp d0.
  rewrite -(Yth N (leqnn N)); exact: near_small (DY N (leqnn N)) d0. }
have sok u : (dst (Y u N) (y N) <= d)%Re -> (dst (p u) (p th) <= d)%Re -> ok u (s u).
{ move=> h1 h2; have [w [w1 [w2 [w3 _]]]] := St _ _ h1 h2; apply: epsilon_spec; by exists w. }
have suq u X : (dst (Y u N) (y N) <= d)%Re -> (dst (p u) (p th) <= d)%Re -> (dst X (y N.+1) <= r1)%Re ->
   X - Y u N - (h N.+1 : RF) *: g N.+1 X (p u) = 0 -> X = s u.
{ move=> h1 h2 h3 h4; have [w [w1 [w2 [w3 w4]]]] := St _ _ h1 h2; have [s1 [s2 _]] := sok u h1 h2.
  by rewrite (w4 _ h3 h4) (w4 _ s1 s2). }
have sth : s th = y N.+1.
{ have [h1 h2] := near_at NA; symmetry; apply: suq => //; first by rewrite dst0; lra.
  rewrite (Yth N (leqnn N)); exact: (base N0 Nn). }
pose Y' u k := if k == N.+1 then s u else Y u k.
pose dz := invmx (1%:M - (h N.+1 : RF) *: J N.+1) *m (z N + (h N.+1 : RF) *: (P N.+1 *m q)).
have YN u k : (k <= N)%N -> Y' u k = Y u k by rewrite /Y' => kN; case: eqP => // ek; rewrite ek ltnn in kN.
have YS u : Y' u N.+1 = s u by rewrite /Y' eqxx.
have le_cases k : (k <= N.+1)%N -> (k <= N)%N \/ k = N.+1 by rewrite leq_eqVlt => /orP[/eqP|]; [right|left].
have eqnN u k : (k <= N)%N -> eqn (p u) (Y' u) k = eqn (p u) (Y u) k.
{ move=> kN; rewrite /eqn !YN //; exact: leq_trans (leq_pred k) kN. }
exists Y', (fun k => if k == N.+1 then dz else z k), (Rmin r r1); split; split.
- exact: Rmin_glb_lt.
- move=> k /le_cases[kN|->]; first by rewrite YN // Yth. by rewrite YS.
- by move=> u; rewrite YN.
- by [].
- move=> k /le_cases[kN|->].
  + have -> : (k == N.+1) = false by apply/negbTE; rewrite neq_ltn ltnS kN.
    apply: (cdiff_ext _ (DY k kN)) => u; by rewrite YN.
  + rewrite eqxx; apply: (@cdiff_ext _ s) => [u|]; first by rewrite YS.
    apply: (step_derivative (sd N0 Nn) (base N0 Nn) (un N0 Nn) sth _ _ (DY N (leqnn N)) Dp L0); [exact: Yth|by []|].
    apply: near_imp NA => u [h1 h2]; have [_ [s2 s3]] := sok u h1 h2; by split.
- have := near_and NA NS; apply: near_imp => u [[h1 h2] H] k k0 /le_cases[kN|->].
  + rewrite eqnN //; exact: H.
  + rewrite /eqn YS YN //=; by have [_ [s2 _]] := sok u h1 h2.
- have := near_and NA NU; apply: near_imp => u [[h1 h2] H] X X0 Xr Xe.
  have XN k : (k <= N)%N -> X k = Y u k.
  { apply: H => // j.
    - move=> jN; apply: Rle_trans (Xr j (leqW jN)) (Rmin_l _ _).
    - move=> j0 jN; exact: Xe j0 (leqW jN). }
  move=> k /le_cases[kN|->]; first by rewrite YN // XN.
  rewrite YS; apply: suq => //; first by apply: Rle_trans (Xr _ (leqnn _)) (Rmin_r _ _).
  by have := Xe N.+1 N0 (leqnn _); rewrite /eqn /= (XN N (leqnn N)).
Qed.
End Chain.

(** ** All batch entries: the solution map of backward Euler is differentiable *)
Section Map.
Variables (nb m np : nat).
Notation vb := (VB RF nb m).
Variables (fp : 'I_nb -> RF -> 'cV[RF]_m -> 'cV[RF]_np -> 'cV[RF]_m)
  (Jp : 'I_nb -> RF -> 'cV[RF]_m -> 'cV[RF]_np -> 'M[RF]_m)
  (Pp : 'I_nb -> RF -> 'cV[RF]_m -> 'cV[RF]_np -> 'M[RF]_(m, np)).
Variables (nt : nat) (t : nat -> TB RF nb).
Lemma solution_map (p : R -> 'cV[RF]_np) (y : nat -> vb) q (y0 : R -> vb) (z0 : vb) th : (0 < nt)%N ->
  scheme_solution fp BackwardEuler nt t (p th) y -> y0 th = y 0%N ->
  cdiff p th q -> (forall b, cdiff (fun u => y0 u b) th (z0 b)) ->
  (forall k b, (0 < k)%N -> (k < nt)%N -> sdiff (fp b (t k b)) (Jp b (t k b) (y k b) (p th)) (Pp b (t k b) (y k b) (p th)) (y k b) (p th)) ->
  steps_regular Jp BackwardEuler nt t (p th) y ->
  exists (Y : R -> nat -> vb) (z : nat -> vb) r,
    [/\ (0 < r)%Re, Y th = y, z 0%N = z0 & forall k b, (k < nt)%N -> cdiff (fun u => Y u k b) th (z k b)] /\
    near th (fun u => [/\ Y u 0%N = y0 u, scheme_solution fp BackwardEuler nt t (p u) (Y u) &
      forall X, X 0%N = y0 u -> scheme_solution fp BackwardEuler nt t (p u) X ->
       (forall k b, (k < nt)%N -> (dst (X k b) (y k b) <= r)%Re) -> forall k, (k < nt)%N -> X k = Y u k]).
Proof.
move=> nt0 sol e0 Dp D0 sd reg.
have predn : (nt.-1 < nt)%N by rewrite prednK.
have lep k : (k <= nt.-1)%N = (k < nt)%N by rewrite -ltnS prednK.
have C (b : 'I_nb) := @chain m np nt (fun k => fp b (t k b)) (fun k => t k b - t k.-1 b)
   (fun k => Jp b (t k b) (y k b) (p th)) (fun k => Pp b (t k b) (y k b) (p th)) (fun k => y k b) p th q (fun u => y0 u b) (z0 b)
   (fun k k0 kn => sd k b k0 kn) (fun k k0 kn => sol k b k0 kn) (fun k k0 kn => reg erefl k b k0 kn) Dp (D0 b)
   (congr1 (fun v : vb => v b) e0) nt.-1 predn.
have {C} [YY {}C] := fin_all_exists C.
have {C} [zz {}C] := fin_all_exists C.
have {C} [rr {}C] := fin_all_exists C.
pose Y u k : vb := if (k < nt)%N then [ffun b => YY b u k] else y k.
have YE u k b : (k < nt)%N -> Y u k b = YY b u k by rewrite /Y => ->; rewrite ffunE.
have Y0 u : Y u 0%N = y0 u by apply/ffunP => b; rewrite YE //; have [[_ _ ->]] := C b.
pose r := \big[Rmin/1%Re]_(b < nb) rr b.
have r0 : (0 < r)%Re.
{ rewrite /r; elim/big_ind: _ => [|a b a0 b0|b _]; [exact: Rlt_0_1|exact: Rmin_glb_lt|by have [[]] := C b]. }
have rb b : (r <= rr b)%Re.
{ rewrite /r; have : b \in index_enum [finType of 'I_nb] by rewrite mem_index_enum.
  elim: (index_enum _) => // c l IH; rewrite in_cons big_cons => /orP[/eqP->|/IH]; first exact: Rmin_l.
  apply: Rle_trans; exact: Rmin_r. }
exists Y, (fun k => [ffun b => zz b k]), r; split; first split=> //.
- apply: functional_extensionality => k; rewrite /Y; case: ifP => // kn; apply/ffunP => b; rewrite ffunE.
  by have [[_ -> //]] := C b; rewrite lep.
- apply/ffunP => b; rewrite ffunE; by have [[_ _ _ ->]] := C b.
- move=> k b kn; rewrite ffunE; have [_ [D _ _]] := C b; apply: (cdiff_ext _ (D k _)) => [u|]; first by rewrite YE.
  by rewrite lep.
have NS : near th (fun u => forall b k, (0 < k)%N -> (k <= nt.-1)%N -> eqn (fun k => fp b (t k b)) (fun k => t k b - t k.-1 b) (p u) (YY b u) k).
{ apply: near_all => b; by have [_ []] := C b. }
have NU : near th (fun u => forall b (X : nat -> 'cV[RF]_m), X 0%N = y0 u b -> (forall k, (k <= nt.-1)%N -> (dst (X k) (y k b) <= rr b)%Re) ->
  (forall k, (0 < k)%N -> (k <= nt.-1)%N -> eqn (fun k => fp b (t k b)) (fun k => t k b - t k.-1 b) (p u) X k) -> forall k, (k <= nt.-1)%N -> X k = YY b u k).
{ apply: near_all => b; by have [_ []] := C b. }
apply: near_imp (near_and NS NU) => u [Hs Hu]; split=> //.
- move=> k b k0 kn; have := Hs b k k0; rewrite lep => /(_ kn); rewrite /eqn /step_res !YE //.
  by rewrite prednK // ltnW.
- move=> X X0 Xs Xr k kn; apply/ffunP => b; rewrite YE //.
  apply: (Hu b (fun k => X k b)); rewrite ?lep ?X0 //.
  + move=> j; rewrite lep => jn; exact: Rle_trans (Xr j b jn) (rb b).
  + move=> j j0; rewrite lep => jn; exact: Xs.
Qed.
End Map.
