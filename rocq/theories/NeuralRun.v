(** Backward Euler histories of Lipschitz rates: exactly one for steps with 2 h L <= 1. *)
From Coq Require Import Reals List String Lra Lia FunctionalExtensionality.
From mathcomp Require Import all_ssreflect all_algebra.
From Verif Require Import ChunkModel ChunkSolve ChunkInst NewtonModel Ode OdeForward OdeAdjoint OdeReal OdeDiff ZmodTac RField Gmres Implicit Tolerance Converge SmoothMx.
From Verif Require Props_Utility SmallSteps Props_Converge SmoothR Slices Hardening Utility Deriv NeuralR.
Import GRing.Theory.
Set Implicit Arguments. Unset Strict Implicit. Unset Printing Implicit Defensive.
Local Open Scope ring_scope.
Delimit Scope R_scope with Re.

Lemma lip_step m (g : 'cV[RF]_m -> 'cV[RF]_m) (h L : R) (a : 'cV[RF]_m) : (0 <= h)%Re -> (2 * (h * L) <= 1)%Re -> lipschitz L g ->
  exists z, z - a - (h : RF) *: g z = 0.
Proof.
move=> h0 hL li; pose T z := a + (h : RF) *: g z.
have lip x y : (dst x a <= 2 * dst (T a) a)%Re -> (dst y a <= 2 * dst (T a) a)%Re -> (dst (T x) (T y) <= / 2 * dst x y)%Re.
{ move=> _ _; rewrite /dst /T (_ : a + _ - _ = (h : RF) *: (g x - g y)); last by rewrite scalerBr; zmod.
  rewrite normZ (Rabs_pos_eq _ h0); have q := li x y; have := Rmult_le_compat_l _ _ _ h0 q; have := dst_ge0 x y; rewrite /dst in q * => n0 k.
  have := Rmult_le_compat_r _ _ _ n0 hL; lra. }
have [z [Ez _]] := fixpoint lip (Rle_refl _); exists z; rewrite -{1}Ez /T; zmod.
Qed.

Section Hist.
Variables (nb m : nat) (f : 'I_nb -> RF -> 'cV[RF]_m -> 'cV[RF]_m) (nt : nat) (t : nat -> TB RF nb) (L : R).
Hypothesis steps : forall k b, (0 < k)%N -> (k < nt)%N -> (0 <= t k b - t k.-1 b)%Re /\ (2 * ((t k b - t k.-1 b) * L) <= 1)%Re.
Hypothesis lip : forall k b, (0 < k)%N -> (k < nt)%N -> lipschitz L (f b (t k b)).
Lemma lip_history_exists (y0 : VB RF nb m) : exists y : nat -> VB RF nb m, y 0%N = y0 /\ forall k b, (0 < k)%N -> (k < nt)%N -> step_res f BackwardEuler t y k b = 0.
Proof.
suff Nn : forall N, exists y : nat -> VB RF nb m, y 0%N = y0 /\ forall k b, (0 < k)%N -> (k < nt)%N -> (k <= N)%N -> step_res f BackwardEuler t y k b = 0.
{ have [y [e H]] := Nn nt; exists y; split=> // k b k0 kn; apply: H => //; exact: ltnW. }
elim=> [|N [y [e H]]]; first by exists (fun _ => y0); split=> // k b; case: k.
have [lt|ge] := boolP (N.+1 < nt)%N; last first.
{ exists y; split=> // k b k0 kn; rewrite leq_eqVlt => /orP [/eqP E|]; first by rewrite -E kn in ge. exact: H. }
have X b : exists z, z - y N b - (t N.+1 b - t N b) *: f b (t N.+1 b) z = 0.
{ have [s1 s2] := steps b (ltn0Sn N) lt; exact: lip_step s1 s2 (lip b (ltn0Sn N) lt). }
have [z Hz] := fin_all_exists X.
exists (fun k => if (k <= N)%N then y k else [ffun b => z b]); split=> // k b k0 kn; rewrite leq_eqVlt => /orP [/eqP E|].
- by rewrite E /step_res ltnn leqnn [[ffun _ => _] b]ffunE.
- rewrite ltnS => kN; rewrite /step_res kN (leq_trans (leq_pred k) kN); exact: H.
Qed.
Lemma lip_history_unique (y y' : nat -> VB RF nb m) : y 0%N = y' 0%N ->
  (forall k b, (0 < k)%N -> (k < nt)%N -> step_res f BackwardEuler t y k b = 0) -> (forall k b, (0 < k)%N -> (k < nt)%N -> step_res f BackwardEuler t y' k b = 0) ->
  forall k b, (k < nt)%N -> y k b = y' k b.
Proof.
move=> e H H'; elim=> [|k IH] b kn; first by rewrite e.
have [s1 s2] := steps b (ltn0Sn k) kn; have li := lip b (ltn0Sn k) kn.
have E := H k.+1 b (ltn0Sn k) kn; have E' := H' k.+1 b (ltn0Sn k) kn; rewrite /step_res /= in E E'.
have e1 := IH b (ltnW kn); rewrite e1 in E.
set h := (t k.+1 b - t k.+1.-1 b)%Re in s1 s2.
apply: dst_eq0; apply: Rle_antisym; last exact: dst_ge0.
have D : y k.+1 b - y' k.+1 b = (h : RF) *: (f b (t k.+1 b) (y k.+1 b) - f b (t k.+1 b) (y' k.+1 b)).
{ apply/eqP; rewrite -subr_eq0 -(subrr 0) -{1}E -E' scalerBr /h; apply/eqP; zmod. }
have : (dst (y k.+1 b) (y' k.+1 b) <= h * (L * dst (y k.+1 b) (y' k.+1 b)))%Re.
{ rewrite {1}/dst D normZ (Rabs_pos_eq _ s1); apply: Rmult_le_compat_l => //; exact: li. }
have n0 := dst_ge0 (y k.+1 b) (y' k.+1 b); have := Rmult_le_compat_r _ _ _ n0 s2; lra.
Qed.
(** A history that satisfies the equations to [tol] is close to the one that satisfies them exactly. *)
Lemma lip_history_close (y y' : nat -> VB RF nb m) (b : 'I_nb) tol : (0 <= L)%Re -> (0 <= tol)%Re -> y 0%N b = y' 0%N b ->
  (forall k, (0 < k)%N -> (k < nt)%N -> (norm (step_res f BackwardEuler t y k b) <= tol)%Re) -> (forall k, (0 < k)%N -> (k < nt)%N -> step_res f BackwardEuler t y' k b = 0) ->
  forall k, (k < nt)%N -> (dst (y k b) (y' k b) <= exp (2 * L * (t k b - t 0%N b)) * (INR k * tol))%Re.
Proof.
move=> L0 t0 e H H' k kn.
have := proj1 (@accumulate_exp (fun k => dst (y k b) (y' k b)) (fun k => t k b) nt (2 * L)%Re 0%Re tol _ t0 (Rle_refl _) _ k kn).
rewrite e dst0 Rmult_0_r !Rplus_0_l; apply; first lra.
move=> j j0 jn; have [h0 hL] := steps b j0 jn; split; first lra.
rewrite Rmult_0_r Rplus_0_l; have hl0 : (0 <= (t j b - t j.-1 b) * L)%Re by apply: Rmult_le_pos.
set h := (t j b - t j.-1 b)%Re in h0 hL hl0 *.
have os : one_sided L (f b (t j b)).
{ exact: Props_Converge.lipschitz_one_sided (lip b j0 jn). }
have := @implicit_step m (f b (t j b)) h L (exp (2 * L * h)) (y j b) (y' j b) (y j.-1 b) (y' j.-1 b) tol 0%Re h0 os.
rewrite Rplus_0_r; apply.
- apply: exp_ge1; lra.
- have e1 := exp_ineq1_le (2 * L * h)%Re; have x1 : (0 <= 1 - h * L)%Re by lra.
  have := Rmult_le_compat_r _ _ _ x1 e1; have x2 : (0 <= (h * L) * (1 - 2 * (h * L)))%Re by apply: Rmult_le_pos; lra. lra.
- exact: H.
- by have -> : y' j b - y' j.-1 b - (h : RF) *: f b (t j b) (y' j b) = 0 by [exact: H']; rewrite norm0; lra.
Qed.
End Hist.

(** The Jacobian of a Lipschitz function is bounded by its constant, so steps with h L < 1 are solvable. *)
Lemma lip_jacobian m (g : 'cV[RF]_m -> 'cV[RF]_m) (J : 'M[RF]_m) y L : lipschitz L g -> jacobian_at g J y -> forall v, (norm (J *m v) <= L * norm v)%Re.
Proof.
move=> li Hj v.
have Y0 : (fun u : R => y + (u : RF) *: v) R0 = y by rewrite scale0r addr0.
have Dg := Hj _ R0 v Y0 (seg_diff y v R0).
have K := proj1 (cdiff_near _ _ _) Dg.
apply: le_epsilon => e e0; have [d [d0 Hd]] := K e e0.
pose u := (d / 2)%Re; have u0 : (0 < u)%Re by rewrite /u; lra.
have := Hd u; rewrite Rminus_0_r (Rabs_pos_eq u) ?[(u < d)%Re]/u; last lra.
move=> /(_ _) q; have {}q := q ltac:(rewrite /u; lra).
have lu := li (y + (u : RF) *: v) y.
rewrite Y0 in q.
have A : (u * norm (J *m v) <= u * (L * norm v) + e * u)%Re.
{ have := norm_triangle (g (y + (u : RF) *: v) - g y) (- (g (y + (u : RF) *: v) - g y - (u : RF) *: (J *m v))).
  rewrite normN (_ : _ + _ = (u : RF) *: (J *m v)); last by zmod.
  rewrite normZ (Rabs_pos_eq u); last lra.
  rewrite /dst addrAC subrr add0r normZ (Rabs_pos_eq u) in lu; last lra.
  lra. }
apply: (Rmult_le_reg_l u) => //; lra.
Qed.
Lemma lip_regular m (J : 'M[RF]_m) (h L : R) : (0 <= h)%Re -> (2 * (h * L) <= 1)%Re -> (forall v, (norm (J *m v) <= L * norm v)%Re) -> (1%:M - (h : RF) *: J) \in unitmx.
Proof.
move=> h0 hL HJ; apply: SmallSteps.unit_of_bound => v.
have T := norm_triangle ((1%:M - (h : RF) *: J) *m v) ((h : RF) *: (J *m v)).
have E : (1%:M - (h : RF) *: J) *m v + (h : RF) *: (J *m v) = v by rewrite mulmxBl mul1mx -scalemxAl subrK.
rewrite E normZ (Rabs_pos_eq _ h0) in T.
have := Rmult_le_compat_l _ _ _ h0 (HJ v); have := Rmult_le_compat_r _ _ _ (norm_ge0 v) hL; lra.
Qed.

(** ** A network wrapped by NeuralODE *)
(** [net q x]: the network with parameters [q] on input [x]; [dnet q x]: what reverse-mode AD returns for the derivatives with respect to the input. *)
Definition differentiable_network (n N0 np : nat) (net : Slices.vec -> Slices.vec -> Slices.vec) (dnet : Slices.vec -> Slices.vec -> Slices.mat) : Prop :=
  [/\ forall q q' x, (forall j, (j < np)%coq_nat -> q j = q' j) -> net q x = net q' x,
      forall q x x', (forall j, (j < N0)%coq_nat -> x j = x' j) -> net q x = net q x',
      forall i x q, (i < n)%coq_nat -> SmoothR.smooth (N0 + np) (NeuralR.pair_up N0 x q) (fun v => net (SmoothR.tail N0 v) v i) &
      forall q x M, NeuralR.input_deriv n N0 (net q) x M -> forall i j, (i < n)%coq_nat -> (j < N0)%coq_nat -> dnet q x i j = M i j].
Section Neural.
Variables (nb n s np : nat) (net : Slices.vec -> Slices.vec -> Slices.vec) (dnet : Slices.vec -> Slices.vec -> Slices.mat) (force : 'I_nb -> RF -> Slices.vec).
(** NeuralODE.forward (neuralode.py 53-65) as the rate and Jacobian of [integrate], at one time and one batch entry (the wrapper and jacobianize treat the entries
    of the batch separately: Utility.v).  Columns beyond the width of the sliced Jacobian do not exist in the code; for s >= 1 there are none (C75). *)
Definition neural_call (b : 'I_nb) (t : RF) (y : 'cV[RF]_n) (p : 'cV[RF]_np) :=
  Utility.neural_forward (fun _ => dnet (tv p)) (net (tv p)) n s n (fun _ => force b t) (fun _ => tv y).
Definition neural_rate b t y p : 'cV[RF]_n := ct n ((neural_call b t y p).1 0%N).
Definition neural_jac b t y p : 'M[RF]_n :=
  match (neural_call b t y p).2 with
  | Some J => \matrix_(i < n, j < n) (if (j < Utility.j_cols (J 0%N))%N then Utility.j_at (J 0%N) i j : RF else 0)
  | None => 0
  end.
Hypothesis dn : differentiable_network n (n + s) np net dnet.
Lemma net_input_deriv q x : NeuralR.input_deriv n (n + s) (net q) x (dnet q x).
Proof.
have [N1 N2 N3 N4] := dn; have [M HM] := @NeuralR.input_deriv_smooth n (n + s) np net x q N1 N2 (fun i => N3 i x q).
have E := N4 q x M HM; move=> X x' HX i Hi; have := HM X x' HX i Hi; rewrite (_ : Deriv.sum _ _ = Deriv.sum (n + s) (fun j => dnet q x i j * x' j)%Re) //.
by apply: Deriv.sum_ext => j Hj; rewrite E.
Qed.
Lemma dpl_shift (g : R -> R) x l : derivable_pt_lim (fun z => g (x + z)%Re) 0 l -> derivable_pt_lim g x l.
Proof.
move=> H e e0; have [d Hd] := H e e0; exists d => h hn hd; have := Hd h hn hd; by rewrite Rplus_0_l Rplus_0_r.
Qed.
Lemma neural_jacobian_at b t y p : (0 < s)%N -> jacobian_at (fun y => neural_rate b t y p) (neural_jac b t y p) y.
Proof.
move=> s0 Y th y' Yy Dy i.
have [J [EJ HJ]] := @Props_Utility.C75_state_jacobian (fun _ => dnet (tv p)) (net (tv p)) n s n (fun _ => force b t) (fun _ => tv y) (elimT leP s0)
  (fun x X x' HX i Hi => @net_input_deriv (tv p) x X x' HX i Hi).
have [_ [c1 /(_ (fun z => tv (Y (th + z)%Re)) (tv y'))]] := HJ 0%N.
have V : Hardening.vthrough n (fun z => tv (Y (th + z)%Re)) (tv y) (tv y').
{ move=> j /ltP jn; split; first by rewrite Rplus_0_r Yy.
  apply: (@dpl_ext (fun z => Y (th + z)%Re (Ordinal jn) 0)) => [z|]; first by rewrite (tv_lt _ jn).
  rewrite (tv_lt _ jn) => e e0; have [d Hd] := Dy (Ordinal jn) e e0; exists d => h hn hd; have := Hd h hn hd; by rewrite Rplus_0_l Rplus_0_r. }
move=> /(_ V i (elimT ltP (ltn_ord i))) K.
apply: dpl_shift; apply: (@dpl_ext (fun z => net (tv p) (Slices.cat n (tv (Y (th + z)%Re)) (force b t)) i)) => [z|]; first by rewrite mxE.
have -> // : (neural_jac b t y p *m y') i 0 = Deriv.sum n (fun j => Utility.j_at (J 0%N) i j * tv y' j)%Re.
rewrite /neural_jac /neural_call EJ /= sumE !mxE; apply: eq_bigr => j _; by rewrite mxE c1 ltn_ord tvE.
Qed.
Lemma neural_rows b t (y : 'cV[RF]_n) (p : 'cV[RF]_np) (i : 'I_n) : SmoothR.smooth (n + np) (join y p) (fun v => neural_rate b t (ct n v) (ct np (SmoothR.tail n v)) i 0).
Proof.
have [N1 N2 N3 _] := dn.
have P : NeuralR.insert n s (force b t) (join y p) = NeuralR.pair_up (n + s) (NeuralR.insert n s (force b t) (join y p)) (fun j => join y p (n + j)%coq_nat).
{ apply: functional_extensionality => j; rewrite /NeuralR.pair_up; case: PeanoNat.Nat.ltb_spec => // h; rewrite /NeuralR.insert.
  case: PeanoNat.Nat.ltb_spec => h1; first by exfalso; move: h h1; rewrite -plusE; lia.
  case: PeanoNat.Nat.ltb_spec => h2; first by exfalso; move: h h2; rewrite -plusE; lia.
  congr join; move: h h1 h2; rewrite -?plusE -?minusE; lia. }
have S := N3 i (NeuralR.insert n s (force b t) (join y p)) (fun j => join y p (n + j)%coq_nat) (elimT ltP (ltn_ord i)).
rewrite -P in S; have S' := NeuralR.smooth_insert n s np (force b t) (join y p) _ S; apply: (SmoothR.smooth_ext _ _ _ _ _ S') => v.
rewrite mxE /=.
suff -> : net (SmoothR.tail (n + s) (NeuralR.insert n s (force b t) v)) (NeuralR.insert n s (force b t) v) = net (tv (ct np (SmoothR.tail n v))) (Slices.cat n (tv (ct n v)) (force b t)) by [].
rewrite (N2 _ _ (Slices.cat n (tv (ct n v)) (force b t))) ; [apply: N1 => j hj|move=> j hj].
- rewrite tvK; last exact/ltP. rewrite /SmoothR.tail /NeuralR.insert.
  case: PeanoNat.Nat.ltb_spec => h1; first by exfalso; move: h1; rewrite -plusE; lia.
  case: PeanoNat.Nat.ltb_spec => h2; first by exfalso; move: h2; rewrite -plusE; lia.
  congr v; rewrite -?plusE; lia.
- rewrite /NeuralR.insert /Slices.cat; case: PeanoNat.Nat.ltb_spec => h1; first by rewrite tvK //; exact/ltP.
  case: PeanoNat.Nat.ltb_spec => h2 //; exfalso; move: h1 h2 hj; rewrite -?plusE; lia.
Qed.
Lemma neural_c1 (dp : 'I_nb -> RF -> 'cV[RF]_n -> 'cV[RF]_np -> 'M[RF]_(n, np)) b t y p : (0 < s)%N ->
  (forall y p M, param_deriv (neural_rate b t) y p M -> dp b t y p = M) -> c1_near (neural_rate b t) (neural_jac b t) (dp b t) y p.
Proof.
move=> s0 ag; apply: c1_of_rows => //; first exact: neural_rows.
exists 1%Re; split; first lra. move=> y' p' _ _; exact: neural_jacobian_at.
Qed.
End Neural.
