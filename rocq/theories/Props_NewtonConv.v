(** Property theorems: quadratic convergence of Newton's method (C105). *)
From Coq Require Import Reals List String Lra Lia.
From mathcomp Require Import all_ssreflect all_algebra.
From Verif Require Import NewtonModel NewtonProofs OdeReal OdeDiff RField Gmres Implicit Tolerance Converge NewtonConv Props_NewtonAffine ZmodTac.
Import GRing.Theory.
Set Implicit Arguments. Unset Strict Implicit. Unset Printing Implicit Defensive.
Local Open Scope ring_scope.
Delimit Scope R_scope with Re.

Section Batch.
Variables (nb n : nat) (g : 'I_nb -> 'cV[RF]_n -> 'cV[RF]_n) (J : 'I_nb -> 'cV[RF]_n -> 'M[RF]_n).
(** The user's function fn(x) -> residual, Jacobian of a batch of systems (argument of newton_raphson,
    solvers.py 78-86), torch.norm(R, dim=-1) (112), and jacobi_iteration_linear_solve (140-149). *)
Definition sys_fn (x : bvec RF nb n) : bvec RF nb n * bmat RF nb n := ([ffun b => g b (x b)], [ffun b => J b (x b)]).
Definition sys_nrm (v : bvec RF nb n) : list ext := [seq Num (norm (v b)) | b <- enum 'I_nb].
Definition diag_step (A : bmat RF nb n) (v : bvec RF nb n) : bvec RF nb n := [ffun b => \col_i (v b i ord0 / A b i i)].
Definition sys_solver (k : lin_kind) : bmat RF nb n -> bvec RF nb n -> bvec RF nb n :=
  match k with LuSolve => @lu_step RF nb n | DiagSolve => diag_step end.
End Batch.

Lemma iter_entry nb n (g : 'I_nb -> 'cV[RF]_n -> 'cV[RF]_n) J x0 k (b : 'I_nb) :
  point (sys_fn g J) (@lu_step RF nb n) (@bsub RF nb n) x0 k b = Nat.iter k (fun x => x - invmx (J b x) *m g b x) (x0 b).
Proof. elim: k => [//|k IH]; rewrite /point /= -/(point _ _ _ _ _) /bsub ffunE /lu_step !ffunE !IH; by []. Qed.

Lemma diag_lu nb (A : bmat RF nb 1) v : (forall b, A b \in unitmx) -> diag_step A v = @lu_step RF nb 1 A v.
Proof.
move=> U; apply/ffunP => b; rewrite !ffunE.
have E : A b = (A b ord0 ord0)%:M by apply/matrixP => i j; rewrite !ord1 !mxE eqxx mulr1n.
have nz : A b ord0 ord0 != 0 by have := U b; rewrite {1}E unitmxE det_scalar1 unitfE.
have K : A b *m (\col_i (v b i ord0 / A b i i)) = v b.
{ rewrite {1}E mul_scalar_mx; apply/colP => i; rewrite !ord1 !mxE mulrC mulfVK //. }
by rewrite -{2}K mulKmx.
Qed.

Lemma sys_nrm_all nb n (v : bvec RF nb n) a : (forall b, (norm (v b) <= a)%Re) -> all_le (sys_nrm v) a.
Proof.
move=> H; rewrite /sys_nrm; elim: (enum _) => [|b l IH]; constructor => //.
by exists (norm (v b)); split.
Qed.

Lemma nth_error_points (A : Type) (f : nat -> A) m k x : nth_error (List.map f (List.seq 0 m)) k = Some x -> x = f k.
Proof.
move=> H; have L : (k < m)%coq_nat by rewrite -(List.seq_length m 0) -(List.map_length f); apply/List.nth_error_Some; rewrite H.
have := List.map_nth f (List.seq 0 m) 0%N k; rewrite (List.seq_nth _ _ L) /= => <-.
by have := List.nth_error_nth _ _ (f 0%N) H.
Qed.

(** C105: residual norms of the points newton_raphson visits, and its result. *)
Theorem C105_newton_raphson_converges nb n g J (x0 : bvec RF nb n) (r K beta : 'I_nb -> R) rtol atol miter linsolver N :
  (n = 1%N \/ linsolver = "lu"%string) ->
  (forall b, [/\ (0 <= r b)%Re, (0 <= K b)%Re & (0 <= beta b)%Re]) ->
  (forall b, smooth_near (g b) (J b) (x0 b) (r b) (K b)) -> (forall b, inverse_near (J b) (x0 b) (r b) (beta b)) ->
  (forall b, (4 * (beta b * K b * r b) <= 1)%Re) -> (forall b, (2 * (beta b * norm (g b (x0 b))) <= r b)%Re) ->
  (N < miter)%N -> (forall b, (norm (g b (x0 b)) * (/ 16) ^ (2 ^ N - 1) <= atol)%Re) ->
  exists res (z : 'I_nb -> 'cV[RF]_n),
    newton_raphson (sys_fn g J) (@sys_nrm nb n) (@sys_solver nb n) (@bsub RF nb n) rtol atol miter linsolver n x0 = Ok res /\
    (res_iters res <= N)%N /\
    (forall k x, nth_error (res_evals res) k = Some x ->
       forall b, (dst (x b) (x0 b) <= r b)%Re /\ (norm (g b (x b)) <= norm (g b (x0 b)) * (/ 16) ^ (2 ^ k - 1))%Re) /\
    (forall b, [/\ g b (z b) = 0, (dst (z b) (x0 b) <= r b)%Re, 
       forall z', g b z' = 0 -> (dst z' (x0 b) <= r b)%Re -> z' = z b &
       (dst (res_x res b) (z b) <= 2 * (beta b * norm (g b (res_x res b))))%Re]).
Proof.
move=> hl pos sm inv small start Nm tol.
have P k b : (dst (point (sys_fn g J) (@lu_step RF nb n) (@bsub RF nb n) x0 k b) (x0 b) <= r b)%Re /\
   (norm (g b (point (sys_fn g J) (@lu_step RF nb n) (@bsub RF nb n) x0 k b)) <= norm (g b (x0 b)) * (/ 16) ^ (2 ^ k - 1))%Re.
{ rewrite iter_entry; have [r0 K0 b0] := pos b; exact: (newton_points K0 b0 r0 (sm b) (inv b) (small b) (start b)). }
have Z b : exists z, g b z = 0 /\ (dst z (x0 b) <= r b)%Re.
{ have [r0 K0 b0] := pos b; exact: (root_exists K0 b0 r0 (sm b) (inv b) (small b) (start b)). }
pose z b := ClassicalEpsilon.constructive_indefinite_description _ (Z b).
have E : newton_raphson (sys_fn g J) (@sys_nrm nb n) (@sys_solver nb n) (@bsub RF nb n) rtol atol miter linsolver n x0
   = newton_raphson_core (sys_fn g J) (@sys_nrm nb n) rtol atol (@lu_step RF nb n) (@bsub RF nb n) miter x0 \/
   exists k, newton_raphson (sys_fn g J) (@sys_nrm nb n) (@sys_solver nb n) (@bsub RF nb n) rtol atol miter linsolver n x0
   = newton_raphson_core (sys_fn g J) (@sys_nrm nb n) rtol atol (@diag_step nb n) (@bsub RF nb n) miter x0 /\ n = 1%N /\ k = 0%N.
{ rewrite /newton_raphson /choose_solver; case: (Nat.eqb_spec n 1) => n1; first by right; exists 0%N.
  by case: hl => [//|->]; left. }
have PD k : n = 1%N -> point (sys_fn g J) (@diag_step nb n) (@bsub RF nb n) x0 k = point (sys_fn g J) (@lu_step RF nb n) (@bsub RF nb n) x0 k.
{ move=> n1; elim: k => [//|k IH]; rewrite /point /= -/(point _ _ _ _ _) -/(point (sys_fn g J) (@lu_step RF nb n) _ _ _) IH /update.
  have -> // : diag_step (sys_fn g J (point (sys_fn g J) (@lu_step RF nb n) (@bsub RF nb n) x0 k)).2 (sys_fn g J (point (sys_fn g J) (@lu_step RF nb n) (@bsub RF nb n) x0 k)).1
    = @lu_step RF nb n (sys_fn g J (point (sys_fn g J) (@lu_step RF nb n) (@bsub RF nb n) x0 k)).2 (sys_fn g J (point (sys_fn g J) (@lu_step RF nb n) (@bsub RF nb n) x0 k)).1.
  have U b : (sys_fn g J (point (sys_fn g J) (@lu_step RF nb n) (@bsub RF nb n) x0 k)).2 b \in unitmx.
  { rewrite /= ffunE; exact: proj1 (inv b _ (proj1 (P k b))). }
  clear -n1 U; move: (_.2) U (_.1); subst n => A U v; exact: diag_lu. }
have core step : (forall k, point (sys_fn g J) step (@bsub RF nb n) x0 k = point (sys_fn g J) (@lu_step RF nb n) (@bsub RF nb n) x0 k) ->
  exists res, newton_raphson_core (sys_fn g J) (@sys_nrm nb n) rtol atol step (@bsub RF nb n) miter x0 = Ok res /\ (res_iters res <= N)%N /\
    res_x res = point (sys_fn g J) (@lu_step RF nb n) (@bsub RF nb n) x0 (res_iters res) /\
    res_evals res = List.map (point (sys_fn g J) (@lu_step RF nb n) (@bsub RF nb n) x0) (List.seq 0 (res_iters res).+1).
{ move=> PE; have /= := nr_solve_spec (sys_fn g J) (@sys_nrm nb n) rtol atol step (@bsub RF nb n) miter x0.
  rewrite /newton_raphson_core; set res := nr_solve _ _ _ _ _ _ _ _ => -[H1 [H2 [_ [_ [H5 [H6 H7]]]]]].
  have le : (res_iters res <= N)%N.
  { rewrite leqNgt; apply/negP => /ltP lt; have := H6 N lt.
    rewrite /keep_going (_ : any_gt _ _ = false) //; apply: any_gt_all_le; apply: sys_nrm_all => b.
    rewrite PE /sys_fn /= ffunE; apply: Rle_trans (tol b); exact: proj2 (P N b). }
  exists res; case: (Nat.eqb_spec (res_iters res) miter) => e; first by move: (leq_ltn_trans le Nm); rewrite e ltnn.
  split=> //; split=> //; split; first by rewrite H2 PE.
  transitivity (List.map (point (sys_fn g J) step (@bsub RF nb n) x0) (List.seq 0 (res_iters res).+1)); [exact: H5|apply: List.map_ext => k; exact: PE]. }
have [res [E1 [E2 [E3 E4]]]] : exists res, newton_raphson (sys_fn g J) (@sys_nrm nb n) (@sys_solver nb n) (@bsub RF nb n) rtol atol miter linsolver n x0 = Ok res /\
    (res_iters res <= N)%N /\ res_x res = point (sys_fn g J) (@lu_step RF nb n) (@bsub RF nb n) x0 (res_iters res) /\
    res_evals res = List.map (point (sys_fn g J) (@lu_step RF nb n) (@bsub RF nb n) x0) (List.seq 0 (res_iters res).+1).
{ case: E => [->|[_ [-> [n1 _]]]]; [exact: core|apply: core => k; exact: PD]. }
exists res, (fun b => sval (z b)); split=> //; split=> //; split.
- move=> k x; rewrite E4 => hk b; rewrite (nth_error_points hk); exact: P.
- move=> b; have [z1 z2] := proj2_sig (z b); have [r0 K0 b0] := pos b; split=> //.
  + move=> z' e h; exact: (root_unique K0 b0 (sm b) (inv b) (small b) h z2 e z1).
  + apply: (root_error K0 b0 (sm b) (inv b) (small b) _ z2 z1); rewrite E3; exact: proj1 (P _ b).
Qed.
Print Assumptions C105_newton_raphson_converges.

(** The square root of two from 1.5 with the default tolerances: at most four iterations. *)
Definition sq_g (_ : 'I_1) (x : 'cV[RF]_1) : 'cV[RF]_1 := ((x ord0 ord0 * x ord0 ord0 - 2)%Re : RF)%:M.
Definition sq_J (_ : 'I_1) (x : 'cV[RF]_1) : 'M[RF]_1 := ((2 * x ord0 ord0)%Re : RF)%:M.
Definition sq_x0 : bvec RF 1 1 := [ffun=> ((3 / 2)%Re : RF)%:M].
Lemma norm_1 (u : 'cV[RF]_1) : norm u = Rabs (u ord0 ord0).
Proof. by rewrite /norm /dot big_ord1 -[_ * _]/(Rsqr _) sqrt_Rsqr_abs. Qed.
Lemma sq_near (x : 'cV[RF]_1) : (dst x (sq_x0 ord0) <= / 4)%Re -> (5 / 4 <= x ord0 ord0 <= 7 / 4)%Re.
Proof.
rewrite /dst norm_1 /sq_x0 !mxE ffunE mxE /= mulr1n -[_ - _]/(Rminus _ _) => h.
move: h; rewrite /Rabs; case: Rcase_abs => ? ?; lra.
Qed.
Example C105_ex : exists res z,
  newton_raphson (sys_fn sq_g sq_J) (@sys_nrm 1 1) (@sys_solver 1 1) (@bsub RF 1 1) (/ 10 ^ 6) (/ 10 ^ 10) 100 "lu" 1 sq_x0 = Ok res /\
  (res_iters res <= 4)%N /\ sq_g ord0 z = 0 /\ (dst (res_x res ord0) z <= 4 / 5 * norm (sq_g ord0 (res_x res ord0)))%Re.
Proof.
have e0 : norm (sq_g ord0 (sq_x0 ord0)) = (/ 4)%Re.
{ rewrite norm_1 /sq_g /sq_x0 ffunE !mxE /= mulr1n; have -> : ((3 / 2 * (3 / 2) - 2) = / 4)%Re by field. rewrite Rabs_pos_eq //; lra. }
have := @C105_newton_raphson_converges 1 1 sq_g sq_J sq_x0 (fun _ => / 4)%Re (fun _ => 2%Re) (fun _ => 2 / 5)%Re (/ 10 ^ 6)%Re (/ 10 ^ 10)%Re 100 "lu" 4 (or_introl erefl).
case=> [b|b|b|b|b||b|res [z [h1 [h2 [_ h4]]]]] //.
- by split; lra.
- split=> [x _ Y th y' e D i|x x' v _ _].
  + have Dy := D ord0; have DD := derivable_pt_lim_minus _ _ _ _ _ (derivable_pt_lim_mult _ _ _ _ _ Dy Dy) (derivable_pt_lim_const 2 th).
    rewrite (ord1 i); apply: (@dpl_ext _ _ _ _ _ (_ : derivable_pt_lim (fun u => (Y u ord0 ord0 * Y u ord0 ord0 - 2)%Re) th _)) => [u|].
    { by rewrite /sq_g mxE. }
    move: DD; rewrite /minus_fct /mult_fct /fct_cte; set l := (_ - _)%Re; set l2 := (X in _ -> derivable_pt_lim _ _ X).
    have -> : l = l2; last by [].
    rewrite /l /l2 /sq_J -e mul_scalar_mx !mxE.
    have ringR (a c : R) : (c * a + a * c - 0 = 2 * a * c)%Re by ring. exact: ringR.
  + rewrite /sq_J -raddfB mul_scalar_mx normZ /dst (norm_1 (x - x')) !mxE.
    have -> : Rabs ((2 * x ord0 ord0)%Re - (2 * x' ord0 ord0)%Re)%R = (2 * Rabs (x ord0 ord0 - x' ord0 ord0)%R)%Re.
    { have A (a c : R) : Rabs (2 * a - 2 * c)%Re = (2 * Rabs (a - c))%Re by rewrite -Rmult_minus_distr_l Rabs_mult (Rabs_pos_eq 2) //; lra.
      exact: A. }
    exact: Rle_refl.
- move=> x hx0; have hx : (5 / 4 <= x ord0 ord0 <= 7 / 4)%Re by apply: sq_near; move: hx0; rewrite (ord1 b).
   rewrite /sq_J; split.
  + by rewrite unitmxE det_scalar1 unitfE; apply/eqP => e; have : (2 * x ord0 ord0 = 0)%Re by []; lra.
  + move=> v; have nz : (2 * x ord0 ord0 <> 0)%Re by lra.
    rewrite invmx_scalar mul_scalar_mx normZ; apply: Rmult_le_compat_r; first exact: norm_ge0.
    have -> : ((2 * x ord0 ord0)%Re : RF)^-1 = (/ (2 * x ord0 ord0))%Re by rewrite /GRing.inv /= /Rinvx; case: eqP.
    rewrite Rabs_pos_eq; last by apply: Rlt_le; apply: Rinv_0_lt_compat; lra.
    have -> : (2 / 5 = / (5 / 2))%Re by field. apply: Rinv_le_contravar; lra.
- lra.
- have -> : b = ord0 by rewrite ord1. rewrite e0; lra.
- have -> : b = ord0 by rewrite ord1. rewrite e0 (_ : (2 ^ 4 - 1)%N = 15%N) //= ; lra.
- exists res, (z ord0); have [z1 z2 z3 z4] := h4 ord0; split=> //; split=> //; split=> //; apply: Rle_trans z4 _; lra.
Qed.
