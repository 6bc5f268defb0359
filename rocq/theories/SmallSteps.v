(** Backward Euler blocks with small steps: Newton's method from the zero guess meets
    the relative tolerance after at most one iteration.  (No code is modelled here.) *)
From Coq Require Import Reals List String Lra Lia.
From mathcomp Require Import all_ssreflect all_algebra.
From Verif Require Import ChunkModel ChunkSolve ChunkInst NewtonModel NewtonProofs Ode OdeForward OdeReal OdeAffine OdeDiff RField Gmres Implicit Tolerance Converge NewtonConv ZmodTac.
Import GRing.Theory.
Set Implicit Arguments. Unset Strict Implicit. Unset Printing Implicit Defensive.
Local Open Scope ring_scope.
Delimit Scope R_scope with Re.

Lemma unit_of_bound m (A : 'M[RF]_m) : (forall v, (norm v <= 2 * norm (A *m v))%Re) -> A \in unitmx.
Proof.
move=> H; rewrite unitmxE unitfE -det_tr; apply/det0P => -[v vn vA].
have : (norm v^T <= 0)%Re.
{ apply: Rle_trans (H _) _; rewrite -[A]trmxK -trmx_mul vA trmx0 norm0; lra. }
move=> h; have := norm_eq0 (Rle_antisym _ _ h (norm_ge0 _)) => /(congr1 trmx); rewrite trmxK trmx0 => z; by rewrite z eqxx in vn.
Qed.

Section BlockNorm.
Variables (nb m : nat).
Lemma bn_sq len (v : tens2 RF) (b : 'I_nb) : sumsq (len * m) (v b) = \sum_(k < len) (dot (blkV nb m v k b) (blkV nb m v k b) : RF).
Proof.
rewrite /sumsq (@sum_blocks RF len m (fun i => v b i * v b i)); apply: eq_bigr => k _; rewrite /dot; apply: eq_bigr => j _; by rewrite !ffunE !mxE.
Qed.
Lemma bn_row len (v : tens2 RF) (b : 'I_nb) k : (k < len)%N -> (norm (blkV nb m v k b) <= sqrt (sumsq (len * m) (v b)))%Re.
Proof.
move=> kl; apply: sqrt_le_1_alt; rewrite bn_sq (bigD1 (Ordinal kl)) //= -[_ + _]/(Rplus _ _) -{1}[dot _ _]Rplus_0_r.
apply: Rplus_le_compat_l; rewrite big_mkcond; apply: sum_nonneg => j; case: ifP => _; [exact: dot_ge0|exact: Rle_refl].
Qed.
Lemma bn_le len (v : tens2 RF) (b : 'I_nb) E : (0 <= E)%Re -> (forall k, (k < len)%N -> (norm (blkV nb m v k b) <= E)%Re) ->
  (sqrt (sumsq (len * m) (v b)) <= INR len * E)%Re.
Proof.
move=> E0 H; case: len H => [|len] H; first by rewrite mul0n /sumsq big_ord0 -[0]/R0 sqrt_0 [INR 0]/=; lra.
have L1 : (1 <= INR len.+1)%Re by rewrite S_INR; have := pos_INR len; lra.
rewrite -[X in (_ <= X)%Re]sqrt_Rsqr; last by apply: Rmult_le_pos => //; lra.
apply: sqrt_le_1_alt; rewrite bn_sq.
apply: (Rle_trans _ (\sum_(k < len.+1) ((E * E)%Re : RF))).
{ apply: sum_le => k; rewrite -norm_sq; have h := H k (ltn_ord k); apply: Rmult_le_compat => //; exact: norm_ge0. }
rewrite sum_const /Rsqr.
have h : (INR len.+1 * (E * E) * 1 <= INR len.+1 * (E * E) * INR len.+1)%Re.
{ apply: Rmult_le_compat_l => //; apply: Rmult_le_pos; [lra|exact: Rmult_le_pos]. }
lra.
Qed.
End BlockNorm.

Section Block.
Variables (nb m : nat) (f : 'I_nb -> RF -> 'cV[RF]_m -> 'cV[RF]_m) (Jf : 'I_nb -> RF -> 'cV[RF]_m -> 'M[RF]_m).
Variables (lm : lin_method) (len : nat) (tstart : TB RF nb) (ts : nat -> TB RF nb) (ystart : VB RF nb m).
Let times := block_times tstart ts.
Let rfn := block_RJ f Jf BackwardEuler tstart ts ystart.
Variables (yc : VB RF nb m) (Rad K L M H : R).
Hypothesis len0 : (0 < len)%N.
Hypotheses (K0 : (0 <= K)%Re) (L0 : (0 <= L)%Re) (M0 : (0 <= M)%Re) (H0 : (0 <= H)%Re).
Hypothesis smooth : forall k b, (k < len)%N -> smooth_near (f b (times k.+1 b)) (Jf b (times k.+1 b)) (yc b) Rad K.
Hypothesis Jbound : forall k b y v, (k < len)%N -> (dst y (yc b) <= Rad)%Re -> (norm (Jf b (times k.+1 b) y *m v) <= L * norm v)%Re.
Hypothesis fbound : forall k b y, (k < len)%N -> (dst y (yc b) <= Rad)%Re -> (norm (f b (times k.+1 b) y) <= M)%Re.
Hypothesis steps : forall k b, (k < len)%N -> (0 <= times k.+1 b - times k b <= H)%Re.
Hypothesis HL : (2 * (H * L) <= 1)%Re.

Definition sb_res (x : tens2 RF) (k : nat) (b : 'I_nb) : 'cV[RF]_m :=
  dys nb m x k.+1 b - dys nb m x k b - (times k.+1 b - times k b) *: f b (times k.+1 b) (dys nb m x k.+1 b + ystart b).
Lemma sb_res_eq x k b : blkV nb m (fst (rfn x)) k b = sb_res x k b.
Proof. by rewrite /rfn /block_RJ /= blkV_flat /sb_res !ffunE. Qed.
Definition in_tube (x : tens2 RF) : Prop := forall k b, (k <= len)%N -> (dst (dys nb m x k b + ystart b)%R (yc b) <= Rad)%Re.

Lemma step_matrix x k b v : in_tube x -> (k < len)%N ->
  (norm v <= 2 * norm ((1%:M - (times k.+1 b - times k b) *: Jf b (times k.+1 b) (dys nb m x k.+1 b + ystart b)) *m v))%Re.
Proof.
move=> T kl; have [h0 h1] := steps b kl; have jb := Jbound v kl (T k.+1 b kl).
set h := times k.+1 b - times k b in h0 h1 *; set A := Jf _ _ _ in jb *.
have E : v = (1%:M - h *: A) *m v + h *: (A *m v) by rewrite mulmxBl mul1mx -scalemxAl subrK.
have q := norm_triangle ((1%:M - h *: A) *m v) (h *: (A *m v)); rewrite -E normZ (Rabs_pos_eq h h0) in q.
have n0 := norm_ge0 v.
have q1 := Rmult_le_compat_l _ _ _ h0 jb; have q2 := Rmult_le_compat_r _ _ _ (Rmult_le_pos _ _ L0 n0) h1.
have q3 := Rmult_le_compat_r _ _ _ n0 HL.
have pureR (n a j h' H' L' : R) : (n <= a + h' * j)%Re -> (h' * j <= h' * (L' * n))%Re -> (h' * (L' * n) <= H' * (L' * n))%Re ->
  (2 * (H' * L') * n <= 1 * n)%Re -> (n <= 2 * a)%Re by move=> *; lra.
exact: pureR q q1 q2 q3.
Qed.

Let upd := update rfn (block_linsolve lm len) (@tsub RF).
Definition sb_beta : R := (2 ^ len.+1)%Re.

Lemma sb_update x : in_tube x -> exists X : nat -> VB RF nb m,
  [/\ forall b, X 0%N b = 0, forall k b, dys nb m (upd x) k b = dys nb m x k b - X k b &
  forall k b, (k < len)%N -> (1%:M - (times k.+1 b - times k b) *: Jf b (times k.+1 b) (dys nb m x k.+1 b + ystart b)) *m X k.+1 b - X k b = sb_res x k b].
Proof.
move=> T.
set A := form_A BackwardEuler (func_jac Jf times (ys x ystart)) (tdiff times).
set B := form_B BackwardEuler (func_jac Jf times (ys x ystart)) (tdiff times).
set dx := block_linsolve lm len (A, B) (fst (rfn x)).
have AE k b : A k b = 1%:M - (times k.+1 b - times k b) *: Jf b (times k.+1 b) (dys nb m x k.+1 b + ystart b).
  by rewrite /A /form_A /func_jac /tdiff /ys /addV !ffunE.
have BE k b : B k b = - 1%:M by rewrite ffunE.
have ns' : forall k, (k < len)%N -> nonsing (A k).
{ move=> k kn b; rewrite AE; apply: unit_of_bound => v; exact: step_matrix. }
have [S0 S1] := @linsolve_blocks RF nb m lm len A B (fst (rfn x)) len0 ns'.
exists (dys nb m dx); split.
- by move=> b; rewrite /dys ffunE.
- move=> [|k] b /=; first by rewrite ffunE subr0. by apply/colP => j; rewrite !ffunE !mxE.
- move=> [|i] b h; rewrite -AE -sb_res_eq.
  + have := S0 (elimT ltP h); move/ffunP/(_ b) => <-.
    have E (N : MB RF nb m) (u : VB RF nb m) : bact (fops RF nb m) N u b = N b *m u b by rewrite /= ffunE.
    by rewrite E [dys nb m dx 0 b]ffunE subr0.
  + have := S1 i (elimT ltP h); move/ffunP/(_ b) => <-.
    have E (N N' : MB RF nb m) (u v : VB RF nb m) : badd (fops RF nb m) (bact (fops RF nb m) N u) (bact (fops RF nb m) N' v) b
      = N b *m u b + N' b *m v b by rewrite /= !ffunE.
    by rewrite E BE mulNmx mul1mx.
Qed.

(** the update is bounded by the residuals *)
Lemma sb_update_small x (X : nat -> VB RF nb m) b E : in_tube x -> (0 <= E)%Re -> X 0%N b = 0 ->
  (forall k, (k < len)%N -> (1%:M - (times k.+1 b - times k b) *: Jf b (times k.+1 b) (dys nb m x k.+1 b + ystart b)) *m X k.+1 b - X k b = sb_res x k b) ->
  (forall k, (k < len)%N -> (norm (sb_res x k b) <= E)%Re) -> forall k, (k <= len)%N -> (norm (X k b) <= sb_beta * E)%Re.
Proof.
move=> T E0 X0 XS HE.
have G k : (k <= len)%N -> (norm (X k b) <= (2 ^ k.+1 - 2) * E)%Re.
{ elim: k => [|k IH] kl; first by rewrite X0 norm0 /=; lra.
  apply: Rle_trans (step_matrix b (X k.+1 b) T kl) _.
  have := XS k kl => /eqP; rewrite subr_eq => /eqP ->.
  have t1 := norm_triangle (sb_res x k b) (X k b); have t2 := HE k kl; have t3 := IH (ltnW kl).
  have -> : (2 ^ k.+2 = 2 * 2 ^ k.+1)%Re by [].
  move: (norm _) (norm _) (norm _) (2 ^ k.+1)%Re t1 t2 t3 => a1 a2 a3 w t1 t2 t3; lra. }
move=> k kl; apply: Rle_trans (G k kl) _; rewrite /sb_beta; apply: Rmult_le_compat_r => //.
have : (2 ^ k.+1 <= 2 ^ len.+1)%Re by apply: Rle_pow; [lra|apply/leP]. lra.
Qed.

(** the residuals after one update *)
Lemma sb_quadratic x (X : nat -> VB RF nb m) b D : in_tube x -> in_tube (upd x) ->
  (forall k, dys nb m (upd x) k b = dys nb m x k b - X k b) ->
  (forall k, (k < len)%N -> (1%:M - (times k.+1 b - times k b) *: Jf b (times k.+1 b) (dys nb m x k.+1 b + ystart b)) *m X k.+1 b - X k b = sb_res x k b) ->
  (forall k, (k <= len)%N -> (norm (X k b) <= D)%Re) -> forall k, (k < len)%N -> (norm (sb_res (upd x) k b) <= H * (K / 2 * (D * D)))%Re.
Proof.
move=> T T' dE XS HD k kl; have [h0 h1] := steps b kl.
have r := remainder (d := X k.+1 b) K0 (smooth b kl) (T k.+1 b kl).
have t' := T' k.+1 b kl; rewrite dE addrAC in t'; have {r t'} := r t'.
have -> : sb_res (upd x) k b = - ((times k.+1 b - times k b) *: (f b (times k.+1 b) (dys nb m x k.+1 b + ystart b - X k.+1 b)
   - f b (times k.+1 b) (dys nb m x k.+1 b + ystart b) + Jf b (times k.+1 b) (dys nb m x k.+1 b + ystart b) *m X k.+1 b)).
{ have XE := XS k kl; rewrite mulmxBl mul1mx -scalemxAl in XE; rewrite /sb_res !dE in XE *.
  have -> : dys nb m x k.+1 b - X k.+1 b + ystart b = dys nb m x k.+1 b + ystart b - X k.+1 b by rewrite addrAC.
  move: (f b _ _) (f b _ _) (Jf b _ _ *m _) XE => F1 F0 JX XE.
  have -> : dys nb m x k.+1 b - X k.+1 b - (dys nb m x k b - X k b) - (times k.+1 b - times k b) *: F1 =
    (dys nb m x k.+1 b - dys nb m x k b - (times k.+1 b - times k b) *: F0) - (X k.+1 b - (times k.+1 b - times k b) *: JX - X k b)
      - (times k.+1 b - times k b) *: (F1 - F0 + JX).
  { rewrite !scalerDr !scalerN; zmod. }
  by rewrite XE subrr sub0r. }
rewrite normN normZ (Rabs_pos_eq _ h0) => r.
have d := HD k.+1 kl; have dd := Rmult_le_compat _ _ _ _ (norm_ge0 _) (norm_ge0 _) d d.
have w := Rmult_le_compat_l (K / 2) _ _ ltac:(lra) dd.
apply: Rmult_le_compat => //; [exact: norm_ge0|exact: Rle_trans r w].
Qed.

Lemma nrmR_rel n (v v0 : tens2 RF) a : (forall b : 'I_nb, (sqrt (sumsq (n * m) (v b)) <= a * sqrt (sumsq (n * m) (v0 b)))%Re) -> all_le_rel (nrmR nb m n v) (nrmR nb m n v0) a.
Proof.
move=> h; rewrite /nrmR /all_le_rel.
have h' b : b \in iota 0 nb -> (sqrt (sumsq (n * m) (v b)) <= a * sqrt (sumsq (n * m) (v0 b)))%Re.
{ rewrite mem_iota add0n => bn; exact: (h (Ordinal bn)). }
elim: (iota 0 nb) h' => [|b l IH] h'; constructor.
- by eexists; eexists; split; first reflexivity; split; first reflexivity; apply: h'; rewrite mem_head.
- by apply: IH => c cl; apply: h'; rewrite inE cl orbT.
Qed.

Lemma sb_block_ok rtol atol miter throw x0 : (1 < miter)%N -> (forall k b, (k <= len)%N -> dys nb m x0 k b = 0) ->
  (forall b, (dst (ystart b) (yc b) + sb_beta * (INR len * (H * M)) <= Rad)%Re) ->
  (INR len * (H * (K / 2 * (sb_beta * sb_beta))) * (INR len * (H * M)) <= rtol)%Re ->
  exists r, newton_raphson_chunk rfn (nrmR nb m len) rtol atol (block_linsolve lm len) (@tsub RF) miter throw x0 = Ok r /\ (res_iters r <= 1)%N /\
   forall k b, (k < len)%N -> (dst (dys nb m (res_x r) k.+1 b + ystart b)%R (yc b) <= Rad)%Re /\
     (norm (dys nb m (res_x r) k.+1 b - dys nb m (res_x r) k b)%R <= (times k.+1 b - times k b) * M + rtol * (INR len * (H * M)))%Re /\
     ((0 <= atol)%Re -> (rtol < 1)%Re ->
       (norm (sb_res (res_x r) k b) <= atol + H * (K / 2 * (sb_beta * (INR len * (H * M)) * (sb_beta * (INR len * (H * M))))))%Re).
Proof.
move=> m1 z0 room small.
have bp : (0 < sb_beta)%Re by apply: pow_lt; lra.
have lp := pos_INR len.
have HM : (0 <= INR len * (H * M))%Re by apply: Rmult_le_pos => //; exact: Rmult_le_pos.
have T0 : in_tube x0.
{ move=> k b kl; rewrite z0 // add0r; have := room b; have := Rmult_le_pos _ _ (Rlt_le _ _ bp) HM; lra. }
pose E (b : 'I_nb) := sqrt (sumsq (len * m) (fst (rfn x0) b)).
have E0 b : (0 <= E b)%Re by exact: sqrt_pos.
have rowE k b : (k < len)%N -> (norm (sb_res x0 k b) <= E b)%Re by move=> kl; rewrite -sb_res_eq; exact: bn_row.
have EM b : (E b <= INR len * (H * M))%Re.
{ apply: bn_le; first exact: Rmult_le_pos. move=> k kl; rewrite sb_res_eq /sb_res !z0 ?subrr ?sub0r ?add0r ?normN; try exact: ltnW; last by [].
  have [h0 h1] := steps b kl; rewrite normZ (Rabs_pos_eq _ h0); apply: Rmult_le_compat => //; first exact: norm_ge0.
  apply: fbound => //; have := T0 0%N b isT; by rewrite z0 // add0r. }
have [X [X0 dE XS]] := sb_update T0.
have XB k b : (k <= len)%N -> (norm (X k b) <= sb_beta * E b)%Re.
{ move=> kl; apply: (sb_update_small T0 (E0 b) (X0 b) (fun k => XS k b)) => // j jl; exact: rowE. }
have T1 : in_tube (upd x0).
{ move=> k b kl; rewrite dE z0 // sub0r addrC; have := dst_tri (ystart b - X k b) (ystart b) (yc b).
  have -> : dst (ystart b - X k b) (ystart b) = norm (X k b) by rewrite /dst addrAC subrr sub0r normN.
  have := XB k b kl; have := room b; have := Rmult_le_compat_l _ _ _ (Rlt_le _ _ bp) (EM b); lra. }
have R1 k b : (k < len)%N -> (norm (sb_res (upd x0) k b) <= H * (K / 2 * (sb_beta * E b * (sb_beta * E b))))%Re.
{ move=> kl; exact: (sb_quadratic T0 T1 (fun j => dE j b) (fun j => XS j b) (fun j => XB j b) kl). }
have N1 (b : 'I_nb) : (sqrt (sumsq (len * m) (fst (rfn (upd x0)) b)) <= rtol * E b)%Re.
{ apply: (Rle_trans _ (INR len * (H * (K / 2 * (sb_beta * E b * (sb_beta * E b)))))%Re).
  - apply: bn_le; last by move=> k kl; rewrite sb_res_eq; exact: R1.
    have be := Rmult_le_pos _ _ (Rlt_le _ _ bp) (E0 b). apply: Rmult_le_pos => //; apply: Rmult_le_pos; [lra|exact: Rmult_le_pos].
  - have c0 : (0 <= INR len * (H * (K / 2 * (sb_beta * sb_beta))))%Re.
    { apply: Rmult_le_pos => //; apply: Rmult_le_pos => //; apply: Rmult_le_pos; first lra. by apply: Rmult_le_pos; lra. }
    have q := Rmult_le_compat_r _ _ _ (E0 b) (Rle_trans _ _ _ (Rmult_le_compat_l _ _ _ c0 (EM b)) small).
    apply: Rle_trans q; lra. }
have N1' : all_le_rel (nrmR nb m len (fst (rfn (upd x0)))) (nrmR nb m len (fst (rfn x0))) rtol by apply: nrmR_rel.
have stop : keep_going rtol atol (norms rfn (nrmR nb m len) (point rfn (block_linsolve lm len) (@tsub RF) x0 1)) (norms rfn (nrmR nb m len) x0) = false.
{ apply: converged_keep; [exact: nrmR_finite|exact: nrmR_finite|by right]. }
have := nr_solve_spec rfn (nrmR nb m len) rtol atol (block_linsolve lm len) (@tsub RF) miter x0.
rewrite /newton_raphson_chunk; set r := nr_solve _ _ _ _ _ _ _ _; cbv zeta => -[_ [xE [_ [_ [_ [HK HF]]]]]].
have it : (res_iters r <= 1)%N.
{ rewrite leqNgt; apply/negP => /ltP /HK; by rewrite stop. }
exists r; case: (Nat.eqb_spec (res_iters r) miter) => e; first by move: (leq_ltn_trans it m1); rewrite e ltnn.
split=> //; split=> // k b kl; have [h0 h1] := steps b kl.
have rp : (0 <= rtol)%Re.
{ apply: Rle_trans small; apply: Rmult_le_pos => //; apply: Rmult_le_pos => //; apply: Rmult_le_pos => //; apply: Rmult_le_pos; [lra|apply: Rmult_le_pos; lra]. }
have rp2 := Rmult_le_pos _ _ rp HM.
have E3 : (0 <= H * (K / 2 * (sb_beta * (INR len * (H * M)) * (sb_beta * (INR len * (H * M))))))%Re.
{ apply: Rmult_le_pos => //; apply: Rmult_le_pos; first lra. apply: Rle_0_sqr. }
case: (res_iters r) it xE HF => [|[|//]] _ -> HF.
- have {}HF := HF ltac:(by apply/ltP; exact: ltnW).
  have -> : point rfn (block_linsolve lm len) (@tsub RF) x0 0 = x0 by [].
  split; first exact: T0. split; first by rewrite !z0 ?subrr ?norm0 //; last exact: ltnW; have := Rmult_le_pos _ _ h0 M0; lra.
  move=> at0 rt1; apply: (Rle_trans _ atol); last lra. apply: (Rle_trans _ _ _ (rowE k b kl)).
  have fin := nrmR_finite nb m len (fst (rfn x0)); have nn := nrmR_nonan nb m len (fst (rfn x0)).
  have := keep_going_false rtol atol _ _ erefl nn fin HF; case=> [al|rl]; first exact: (nrmR_all_le al (ltn_ord b)).
  have := nrmR_all_le_rel rl (ltn_ord b); rewrite -/(E b) => q; have eb := E0 b.
  have [z|z] := Req_dec (E b) 0; first by rewrite z. have : (rtol * E b < 1 * E b)%Re by apply: Rmult_lt_compat_r; lra. lra.
- have -> : point rfn (block_linsolve lm len) (@tsub RF) x0 1 = upd x0 by [].
  split; first exact: T1. split; last first.
  { move=> at0 _; apply: (Rle_trans _ _ _ (R1 k b kl)); have w := Rmult_le_compat_l _ _ _ (Rlt_le _ _ bp) (EM b).
    have w0 := Rmult_le_pos _ _ (Rlt_le _ _ bp) (E0 b).
    have w2 := Rmult_le_compat_l _ _ _ H0 (Rmult_le_compat_l (K / 2) _ _ ltac:(lra) (Rmult_le_compat _ _ _ _ w0 w0 w w)); lra. }
  have F := fbound kl (T1 k.+1 b kl).
  have rr : (norm (sb_res (upd x0) k b) <= rtol * (INR len * (H * M)))%Re.
  { have q := @bn_row nb m len (fst (rfn (upd x0))) b k kl; rewrite sb_res_eq in q.
    exact: Rle_trans q (Rle_trans _ _ _ (N1 b) (Rmult_le_compat_l _ _ _ rp (EM b))). }
  have -> : dys nb m (upd x0) k.+1 b - dys nb m (upd x0) k b = (times k.+1 b - times k b) *: f b (times k.+1 b) (dys nb m (upd x0) k.+1 b + ystart b) + sb_res (upd x0) k b.
  { rewrite /sb_res; zmod. }
  apply: Rle_trans (norm_triangle _ _) _; rewrite normZ (Rabs_pos_eq _ h0); have := Rmult_le_compat_l _ _ _ h0 F; lra.
Qed.
End Block.

(** ** Runs *)
Section Run.
Variables (nb m : nat) (f : 'I_nb -> RF -> 'cV[RF]_m -> 'cV[RF]_m) (Jf : 'I_nb -> RF -> 'cV[RF]_m -> 'M[RF]_m).
Variables (lm : lin_method) (rtol atol : R) (miter : nat) (throw : bool) (n nt : nat) (t : nat -> TB RF nb) (y0 : VB RF nb m).
Variables (Rad K L M H : R).
Hypotheses (n0 : (0 < n)%N) (m1 : (1 < miter)%N) (nt0 : (0 < nt)%N).
Hypotheses (K0 : (0 <= K)%Re) (L0 : (0 <= L)%Re) (M0 : (0 <= M)%Re) (H0 : (0 <= H)%Re).
Hypothesis smooth : forall k b, (0 < k)%N -> (k < nt)%N -> smooth_near (f b (t k b)) (Jf b (t k b)) (y0 b) Rad K.
Hypothesis Jbound : forall k b y v, (0 < k)%N -> (k < nt)%N -> (dst y (y0 b) <= Rad)%Re -> (norm (Jf b (t k b) y *m v) <= L * norm v)%Re.
Hypothesis fbound : forall k b y, (0 < k)%N -> (k < nt)%N -> (dst y (y0 b) <= Rad)%Re -> (norm (f b (t k b) y) <= M)%Re.
Hypothesis steps : forall k (b : 'I_nb), (0 < k)%N -> (k < nt)%N -> (0 <= t k b - t k.-1 b <= H)%Re.
Hypothesis HL : (2 * (H * L) <= 1)%Re.
Let beta := (2 ^ n.+1)%Re.
Let Cn := (INR n * (H * M))%Re.
Hypothesis small : (INR n * (H * (K / 2 * (beta * beta))) * Cn <= rtol)%Re.
Hypothesis room : forall k (b : 'I_nb), (k < nt)%N -> (M * (t k b - t 0%N b)%R + INR k * (rtol * Cn) + beta * Cn <= Rad)%Re.

Lemma small_steps_run init : exists st,
  integrate f Jf BackwardEuler lm (nrmR nb m) rtol atol miter throw "zero" n nt t y0 init = inl st /\ i_warned st = [::] /\
  (forall k b, (k < nt)%N -> (dst (i_result st k b) (y0 b) <= M * (t k b - t 0%N b)%R + INR k * (rtol * Cn))%Re) /\
  ((0 <= atol)%Re -> (rtol < 1)%Re -> forall k b, (0 < k)%N -> (k < nt)%N ->
     (norm (step_res f BackwardEuler t (i_result st) k b) <= atol + H * (K / 2 * (beta * Cn * (beta * Cn))))%Re).
Proof.
have bp : (0 < beta)%Re by apply: pow_lt; lra.
have Cp : (0 <= Cn)%Re by apply: Rmult_le_pos; [exact: pos_INR|exact: Rmult_le_pos].
rewrite /integrate gtn_eqF // gtn_eqF //.
set Etol := (atol + _)%Re.
have key : forall fuel k st, (nt <= fuel + k)%N -> (0 < k)%N -> i_warned st = [::] ->
  (forall j b, (j < k)%N -> (j < nt)%N -> (dst (i_result st j b) (y0 b) <= M * (t j b - t 0%N b)%R + INR j * (rtol * Cn))%Re) ->
  ((0 <= atol)%Re -> (rtol < 1)%Re -> forall j b, (0 < j)%N -> (j < k)%N -> (j < nt)%N -> (norm (step_res f BackwardEuler t (i_result st) j b) <= Etol)%Re) ->
  exists st', int_loop f Jf BackwardEuler lm (nrmR nb m) rtol atol miter throw fuel "zero" n nt t k st = inl st' /\ i_warned st' = [::] /\
  (forall k b, (k < nt)%N -> (dst (i_result st' k b) (y0 b) <= M * (t k b - t 0%N b)%R + INR k * (rtol * Cn))%Re) /\
  ((0 <= atol)%Re -> (rtol < 1)%Re -> forall k b, (0 < k)%N -> (k < nt)%N -> (norm (step_res f BackwardEuler t (i_result st') k b) <= Etol)%Re).
{ elim=> [|fuel IH] k st hf k0 W B BR; rewrite [int_loop _ _ _ _ _ _ _ _ _ _ _ _ _ _ _ _]/=; case: ifP => [kn|kn].
  - by move: hf; rewrite add0n leqNgt kn.
  - have jk j : (j < nt)%N -> (j < k)%N by move=> jn; apply: leq_trans jn _; rewrite leqNgt kn.
    exists st; split=> //; split=> //; split=> [j b jn|a r j b j0 jn]; [exact: B (jk j jn) jn|exact: BR (jk j jn) jn].
  - rewrite /int_step guess_zero eqxx [~~ true]/= /block_update; set len := slice_len nt k (k + n); set x0 := flat _.
    have lenn : (len <= n)%N by rewrite /len /slice_len leq_subLR; exact: geq_minl.
    have len0 : (0 < len)%N by exact: slice_len_gt0.
    have kl j : (j < len)%N -> (k + j < nt)%N.
    { move=> jl; have : (k + j < minn (k + n) nt)%N by rewrite -(slice_len_add n (ltnW kn)) ltn_add2l.
      by rewrite leq_min => /andP[]. }
    set tb := block_times (t (k - 1)%N) (fun j => t (k + j)%N).
    have tE j : tb j.+1 = t (k + j)%N by [].
    have tD j b : tb j.+1 b - tb j b = t (k + j)%N b - t (k + j).-1 b.
    { case: j => [|j]; rewrite /tb /=; first by rewrite addn0 subn1. by rewrite addnS. }
    have kj j : (0 < k + j)%N by rewrite addn_gt0 k0.
    have le1 : (INR len <= INR n)%Re by apply: le_INR; apply/leP.
    have le2 : (sb_beta len <= beta)%Re by apply: Rle_pow; [lra|apply/leP].
    have lp := pos_INR len.
    have bp' : (0 < sb_beta len)%Re by apply: pow_lt; lra.
    have HMp := Rmult_le_pos _ _ H0 M0.
    have le3 : (INR len * (H * M) <= Cn)%Re by exact: Rmult_le_compat_r.
    have k1 : (k - 1 < k)%N by rewrite subn1 prednK.
    have k1n : (k - 1 < nt)%N := ltn_trans k1 kn.
    have stb (j : nat) (b : 'I_nb) : (j < len)%N -> (0 <= tb j.+1 b - tb j b <= H)%Re 
      by move=> jl; have e : (tb j.+1 b - tb j b)%Re = (t (k + j)%N b - t (k + j).-1 b)%Re := tD j b; rewrite e; exact: steps (kj j) (kl j jl).
    have z0 (j : nat) (b : 'I_nb) : (j <= len)%N -> dys nb m x0 j b = 0.
    { case: j => [_|j jl]; first by rewrite /= ffunE. by rewrite [dys _ _ _ _]/= /x0 blkV_flat jl ffunE. }
    have rm (b : 'I_nb) : (dst (i_result st (k - 1)%N b) (y0 b) + sb_beta len * (INR len * (H * M)) <= Rad)%Re.
    { have h1 := B (k - 1)%N b k1 k1n; have h2 := room b k1n.
      have h3 := Rmult_le_compat _ _ _ _ (Rlt_le _ _ bp') (Rmult_le_pos _ _ lp HMp) le2 le3; lra. }
    have sm : (INR len * (H * (K / 2 * (sb_beta len * sb_beta len))) * (INR len * (H * M)) <= rtol)%Re.
    { apply: Rle_trans small; apply: Rmult_le_compat => //.
      - apply: Rmult_le_pos => //; apply: Rmult_le_pos => //; apply: Rmult_le_pos; [lra|apply: Rmult_le_pos; lra].
      - exact: Rmult_le_pos.
      - apply: Rmult_le_compat => //; first by apply: Rmult_le_pos => //; apply: Rmult_le_pos; [lra|apply: Rmult_le_pos; lra].
        apply: Rmult_le_compat_l => //; apply: Rmult_le_compat_l; first lra. apply: Rmult_le_compat => //; lra. }
    have [r [-> [_ HR]]] := @sb_block_ok nb m f Jf lm len (t (k - 1)%N) (fun j => t (k + j)%N) (i_result st (k - 1)%N) y0 Rad K L M H len0 K0 L0 M0 H0
      (fun j b jl => smooth b (kj j) (kl j jl)) (fun j b y v jl => @Jbound _ b y v (kj j) (kl j jl)) (fun j b y jl => @fbound _ b y (kj j) (kl j jl)) stb HL
      rtol atol miter throw x0 m1 z0 rm sm.
    have rp : (0 <= rtol)%Re.
    { apply: Rle_trans sm; apply: Rmult_le_pos; last exact: Rmult_le_pos. 
      apply: Rmult_le_pos => //; apply: Rmult_le_pos => //; apply: Rmult_le_pos; [lra|apply: Rmult_le_pos; lra]. }
    have D j b : (j <= len)%N -> (dst (dys nb m (res_x r) j b + i_result st (k - 1)%N b)%R (y0 b) <= M * (tb j b - t 0%N b)%R + INR (k - 1 + j) * (rtol * Cn))%Re.
    { elim: j => [|j IHj] jl.
      - rewrite [dys _ _ _ 0 _]ffunE add0r addn0; exact: B.
      - have [_ [q _]] := HR j b jl; have q1 := IHj (ltnW jl).
        have tr := dst_tri (dys nb m (res_x r) j.+1 b + i_result st (k - 1)%N b) (dys nb m (res_x r) j b + i_result st (k - 1)%N b) (y0 b).
        have e : dst (dys nb m (res_x r) j.+1 b + i_result st (k - 1)%N b) (dys nb m (res_x r) j b + i_result st (k - 1)%N b)
          = norm (dys nb m (res_x r) j.+1 b - dys nb m (res_x r) j b) by rewrite /dst opprD addrACA subrr addr0.
        rewrite e in tr; have w := Rmult_le_compat_l _ _ _ rp le3.
        rewrite addnS S_INR; move: tr q q1 w; rewrite -/tb; move: (norm _) (dst _ _) (dst _ _) => a1 a2 a3 tr q q1 w.
        have pureR (x1 x2 x3 : R) : (x1 - x3 = (x1 - x2) + (x2 - x3))%Re by ring.
        have E := pureR (tb j.+1 b) (tb j b) (t 0%N b).
        rewrite -[(tb j.+1 b - t 0%N b)%R]/(tb j.+1 b - t 0%N b)%Re E.
        move: q q1; rewrite -[(tb j b - t 0%N b)%R]/(tb j b - t 0%N b)%Re; lra. }
    apply: (IH (k + n)%N) => //.
    + apply: leq_trans hf _; by rewrite addSn -addnS leq_add2l -[X in (X < _)%N]addn0 ltn_add2l.
    + move=> j b jk jn; cbn [i_result]; case: ifP => [/andP[kj1 kj2]|/negbT].
      * have jl : (j - k < len)%N by rewrite ltn_subLR.
        have := D (j - k).+1 b jl; rewrite tE subnKC // [dys _ _ _ _]/= [addV _ _ b]ffunE.
        have -> : (k - 1 + (j - k).+1)%N = j by rewrite addnS -addSn subn1 prednK // subnKC. exact.
      * rewrite negb_and -ltnNge -leqNgt => /orP[jk2|jk2]; first exact: B.
        exfalso; move: jk2; rewrite /len (slice_len_add n (ltnW kn)) leqNgt; apply/negP; rewrite negbK leq_min jk jn //.
    + move=> at0 rt1 j b j0 jk jn; set st2 := i_result _.
      have st2E i : st2 i = if (k <= i < k + len)%N then addV (blkV nb m (res_x r) (i - k)) (i_result st (k - 1)%N) else i_result st i by [].
      have [kj1|jk2] := leqP k j; last first.
      { have e i : (i < k)%N -> st2 i = i_result st i by move=> ik; rewrite st2E leqNgt ik.
        rewrite /step_res (e j jk2) (e j.-1 (leq_ltn_trans (leq_pred _) jk2)); exact: BR. }
      have jl : (j - k < len)%N by rewrite ltn_subLR // /len (slice_len_add n (ltnW kn)) leq_min jk jn.
      have [_ [_ q]] := HR (j - k)%N b jl; have {q} := q at0 rt1.
      have k1E : st2 (k - 1)%N = i_result st (k - 1)%N by rewrite st2E leqNgt k1.
      have Hy i : (i < len)%N -> st2 (k + i)%N = addV (blkV nb m (res_x r) i) (st2 (k - 1)%N).
      { by move=> il; rewrite k1E st2E leq_addr ltn_add2l il addKn. }
      have := @block_step_res _ _ _ f BackwardEuler (res_x r) t st2 k len (j - k) b k0 jl Hy; rewrite subnKC // => <-; rewrite k1E.
      have -> : form_residual BackwardEuler (dys nb m (res_x r)) (func_rate f (block_times (t (k - 1)%N) (fun j => t (k + j)%N)) (ys (res_x r) (i_result st (k - 1)%N)))
        (tdiff (block_times (t (k - 1)%N) (fun j => t (k + j)%N))) (j - k) b = sb_res f (t (k - 1)%N) (fun j => t (k + j)%N) (i_result st (k - 1)%N) (res_x r) (j - k) b.
      { by rewrite /form_residual /sb_res /func_rate /tdiff /ys /addV !ffunE. }
      move=> q; apply: (Rle_trans _ _ _ q); rewrite /Etol; apply: Rplus_le_compat_l.
      have w0 := Rmult_le_pos _ _ (Rlt_le _ _ bp') (Rmult_le_pos _ _ lp HMp).
      have w := Rmult_le_compat _ _ _ _ (Rlt_le _ _ bp') (Rmult_le_pos _ _ lp HMp) le2 le3.
      apply: Rmult_le_compat_l => //; apply: Rmult_le_compat_l; first lra. exact: Rmult_le_compat.
  - have jk j : (j < nt)%N -> (j < k)%N by move=> jn; apply: leq_trans jn _; rewrite leqNgt kn.
    exists st; split=> //; split=> //; split=> [j b jn|a r j b j0 jn]; [exact: B (jk j jn) jn|exact: BR (jk j jn) jn]. }
apply: (key nt 1%N) => //; [by rewrite addn1| |by move=> _ _ [|[|j]]].
move=> [|//] b _ _; cbn [i_result]; rewrite eqxx dst0 subrr [INR 0]/=; rewrite -[(0 : RF)]/R0; lra.
Qed.
End Run.
