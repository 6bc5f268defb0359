(** Convergence to the exact solution of the differential equation: truncation
    errors of the two schemes and their accumulation.  (No code is modelled here.) *)
From Coq Require Import Reals List String Lra Lia.
From mathcomp Require Import all_ssreflect all_algebra.
From Verif Require Import ChunkModel NewtonModel Ode OdeForward OdeDiff RField Gmres Implicit Tolerance ZmodTac.
Import GRing.Theory.
Set Implicit Arguments. Unset Strict Implicit. Unset Printing Implicit Defensive.
Local Open Scope ring_scope.
Delimit Scope R_scope with Re.

(** ** Specification *)
(** [Y] solves y' = g(x, y) on [a, b]: continuous there, differentiable inside *)
Definition solves_on (m : nat) (a b : R) (g : R -> 'cV[RF]_m -> 'cV[RF]_m) (Y : R -> 'cV[RF]_m) : Prop :=
  (forall x i, (a <= x <= b)%Re -> continuity_pt (fun u => Y u i ord0) x) /\
  (forall x, (a < x < b)%Re -> cdiff Y x (g x (Y x))).

Section Trunc.
Variable m : nat.
Implicit Types (Y : R -> 'cV[RF]_m) (w v : 'cV[RF]_m).

Lemma cont_sum (I : Type) (r : seq I) (f : I -> R -> R) x :
  (forall i, continuity_pt (f i) x) -> continuity_pt (fun u => \sum_(i <- r) (f i u : RF)) x.
Proof.
move=> H; elim: r => [|i r IH].
- rewrite (_ : (fun u : R => _) = (fun _ => R0)); first exact: continuity_pt_const.
  apply: FunctionalExtensionality.functional_extensionality => u; by rewrite big_nil.
- rewrite (_ : (fun u : R => _) = (fun u => f i u + \sum_(j <- r) (f j u : RF))%Re).
  + exact: continuity_pt_plus (H i) IH.
  + apply: FunctionalExtensionality.functional_extensionality => u; by rewrite big_cons.
Qed.
Lemma cont_dot v Y x : (forall i, continuity_pt (fun u => Y u i ord0) x) -> continuity_pt (fun u => dot v (Y u)) x.
Proof. move=> H; apply: cont_sum => i; exact: (continuity_pt_scal (fun u => Y u i ord0) (v i ord0) x (H i)). Qed.
Lemma diff_dot v Y x w : cdiff Y x w -> derivable_pt_lim (fun u => dot v (Y u)) x (dot v w).
Proof. move=> H; apply: dpl_sum => i; exact: dpl_scal. Qed.

(** the increment of [Y] over an interval is the length times any vector that the derivative stays close to *)
Lemma truncation (a b e : R) g Y w : (a <= b)%Re -> solves_on a b g Y ->
  (forall x, (a < x < b)%Re -> (dst (g x (Y x)) w <= e)%Re) ->
  (norm (Y b - Y a - (b - a : RF) *: w)%R <= (b - a) * e)%Re.
Proof.
move=> ab [C D] H.
have [ab'|E] := ab; last first.
{ subst b; have -> : ((a - a : RF) = 0)%R by rewrite subrr. rewrite scale0r subr0 subrr norm0 (_ : (a - a = 0)%Re); lra. }
set v := (Y b - Y a - _ : 'cV[RF]_m)%R.
have [c [P E]] : exists c, (a < c < b)%Re /\ (dot v (Y b) - dot v (Y a) = dot v (g c (Y c)) * (b - a))%Re.
{ have pr1 : forall c, (a < c < b)%Re -> derivable_pt (fun u => dot v (Y u)) c.
  { move=> c P; exists (dot v (g c (Y c))); exact: diff_dot (D c P). }
  have pr2 : forall c, (a < c < b)%Re -> derivable_pt id c by move=> c _; exact: derivable_pt_id.
  have [c [P E]] := @MVT (fun u => dot v (Y u)) id a b pr1 pr2 ab'
    (fun c P => @cont_dot v Y c (fun i => C c i P)) (fun c _ => derivable_continuous_pt _ _ (derivable_pt_id c)).
  exists c; split=> //; move: E.
  rewrite (derive_pt_eq_0 _ _ _ (pr1 c P) (diff_dot v (D c P))) (derive_pt_eq_0 _ _ _ (pr2 c P) (derivable_pt_lim_id c)) /id.
  by rewrite /id; lra. }
have q := H c P; have n0 := norm_ge0 v.
have S : (norm v * norm v <= norm v * ((b - a) * e))%Re.
{ rewrite norm_sq {2}/v !dotDr !dotN dotZr.
  rewrite (_ : (dot v (Y b) + - dot v (Y a) + - ((b - a : RF)%R * dot v w) = (b - a) * dot v (g c (Y c) - w)%R)%Re).
  - have k1 := dot_le_norm v (g c (Y c) - w)%R; have k2 := Rmult_le_compat_l _ _ _ n0 q.
    have ba : (0 <= b - a)%Re by lra.
    have k3 := Rmult_le_compat_l _ _ _ ba (Rle_trans _ _ _ k1 k2); lra.
  - rewrite dotDr dotN -[(b - a : RF)%R]/(b - a)%Re; lra. }
have [z|nz] := Req_dec (norm v) 0; last first.
{ apply: (Rmult_le_reg_l (norm v)) => //; lra. }
rewrite z; apply: Rmult_le_pos; first lra. exact: Rle_trans (dst_ge0 _ _) q.
Qed.
End Trunc.

(** ** Accumulation *)
Lemma exp_ge1 x : (0 <= x)%Re -> (1 <= exp x)%Re.
Proof. by move=> x0; have := exp_ineq1_le x; lra. Qed.
Lemma exp_le x y : (x <= y)%Re -> (exp x <= exp y)%Re.
Proof. by case=> [h|->]; [exact: Rlt_le (exp_increasing _ _ h)|exact: Rle_refl]. Qed.
(** d_k <= r_k (d_{k-1} + e_k) with r_k <= exp(c h_k), h_k the steps of the grid [T] *)
Lemma accumulate_exp (d T : nat -> R) (nt : nat) (c E tol : R) : (0 <= c)%Re -> (0 <= tol)%Re -> (0 <= E)%Re ->
  (forall k, (0 < k)%N -> (k < nt)%N -> (T k.-1 <= T k)%Re /\
     (d k <= exp (c * (T k - T k.-1)) * (d k.-1 + ((T k - T k.-1) * E + tol)))%Re) ->
  forall k, (k < nt)%N -> (d k <= exp (c * (T k - T 0%N)) * (d 0%N + (T k - T 0%N) * E + INR k * tol))%Re /\ (T 0%N <= T k)%Re.
Proof.
move=> c0 tol0 E0 H; elim=> [|k IH] kn.
{ rewrite !Rminus_eq_0 Rmult_0_r exp_0 [INR 0]/=; lra. }
have [IH1 IH2] := IH (ltnW kn); have [m1 m2] := H k.+1 (ltn0Sn k) kn; move: m1 m2; rewrite [k.+1.-1]/= => m1 m2.
split; last lra.
apply: Rle_trans m2 _.
rewrite (_ : (c * (T k.+1 - T 0%N) = c * (T k.+1 - T k) + c * (T k - T 0%N))%Re); last by ring.
rewrite exp_plus Rmult_assoc; apply: Rmult_le_compat_l; first exact: Rlt_le (exp_pos _).
have e1 : (1 <= exp (c * (T k - T 0%N)))%Re by apply: exp_ge1; apply: Rmult_le_pos => //; lra.
have s0 : (0 <= (T k.+1 - T k) * E + tol)%Re by have := Rmult_le_pos (T k.+1 - T k) E ltac:(lra) E0; lra.
have := Rmult_le_compat_r _ _ _ s0 e1; rewrite S_INR; lra.
Qed.

Section Error.
Variables (m nt : nat) (T : nat -> R) (g : nat -> R -> 'cV[RF]_m -> 'cV[RF]_m) (y : nat -> 'cV[RF]_m) (Y : R -> 'cV[RF]_m).
(** [g k]: the rate during step k; [M]: how fast the solution's rate changes; [H]: largest step *)
Variables (L M H tol : R).
Hypothesis grid : forall k, (0 < k)%N -> (k < nt)%N -> (0 <= T k - T k.-1 <= H)%Re.
Hypothesis sol : forall k, (0 < k)%N -> (k < nt)%N -> solves_on (T k.-1) (T k) (g k) Y.
Hypothesis L0 : (0 <= L)%Re.

Lemma implicit_error_at : (2 * (H * L) <= 1)%Re ->
  (forall k x, (0 < k)%N -> (k < nt)%N -> (T k.-1 < x < T k)%Re -> (dst (g k x (Y x)) (g k (T k) (Y (T k))) <= M * H)%Re) ->
  (0 <= M)%Re -> (0 <= H)%Re -> (0 <= tol)%Re ->
  (forall k, (0 < k)%N -> (k < nt)%N -> (dot (y k - Y (T k))%R (g k (T k) (y k) - g k (T k) (Y (T k)))%R <= L * (dst (y k) (Y (T k)) * dst (y k) (Y (T k))))%Re) ->
  (forall k, (0 < k)%N -> (k < nt)%N -> (norm (y k - y k.-1 - (T k - T k.-1 : RF) *: g k (T k) (y k))%R <= tol)%Re) ->
  forall k, (k < nt)%N -> (dst (y k) (Y (T k)) <= exp (2 * L * (T k - T 0%N)) * (dst (y 0%N) (Y (T 0%N)) + (T k - T 0%N) * (M * H) + INR k * tol))%Re.
Proof.
move=> HL Sm M0 H0 t0 os He k kn.
have MH : (0 <= M * H)%Re by exact: Rmult_le_pos.
apply: (proj1 (@accumulate_exp (fun k => dst (y k) (Y (T k))) T nt (2 * L)%Re (M * H)%Re tol _ t0 MH _ k kn)); first lra.
move=> j j0 jn; have [h0 hH] := grid j0 jn; split; first lra.
set h := (T j - T j.-1)%Re in h0 hH *.
have hl : (h * L <= H * L)%Re by apply: Rmult_le_compat_r.
have hl0 : (0 <= h * L)%Re by apply: Rmult_le_pos.
have Tr := truncation (_ : (T j.-1 <= T j)%Re) (sol j0 jn) (fun x P => Sm j x j0 jn P).
have := @implicit_step_at m (g j (T j)) h L (exp (2 * L * h)) (y j) (Y (T j)) (y j.-1) (Y (T j.-1)) tol (h * (M * H))%Re h0 (os j j0 jn) _ _ (He j j0 jn) (Tr _).
rewrite [(tol + _)%Re]Rplus_comm; apply; [apply: exp_ge1; lra| |by move: h0; rewrite /h; lra].
(* exp(2x)(1-x) >= (1+2x)(1-x) = 1 + x - 2x^2 = 1 + x(1-2x) >= 1 *)
have e1 := exp_ineq1_le (2 * L * h)%Re.
have x1 : (0 <= 1 - h * L)%Re by lra.
have := Rmult_le_compat_r _ _ _ x1 e1; have x2 : (0 <= (h * L) * (1 - 2 * (h * L)))%Re by apply: Rmult_le_pos; lra.
lra.
Qed.

Lemma implicit_error : (2 * (H * L) <= 1)%Re ->
  (forall k x, (0 < k)%N -> (k < nt)%N -> (T k.-1 < x < T k)%Re -> (dst (g k x (Y x)) (g k (T k) (Y (T k))) <= M * H)%Re) ->
  (0 <= M)%Re -> (0 <= H)%Re -> (0 <= tol)%Re ->
  (forall k, (0 < k)%N -> (k < nt)%N -> one_sided L (g k (T k))) ->
  (forall k, (0 < k)%N -> (k < nt)%N -> (norm (y k - y k.-1 - (T k - T k.-1 : RF) *: g k (T k) (y k))%R <= tol)%Re) ->
  forall k, (k < nt)%N -> (dst (y k) (Y (T k)) <= exp (2 * L * (T k - T 0%N)) * (dst (y 0%N) (Y (T 0%N)) + (T k - T 0%N) * (M * H) + INR k * tol))%Re.
Proof. move=> HL Sm M0 H0 t0 os; apply: implicit_error_at => // k k0 kn; exact: os. Qed.

Lemma explicit_error :
  (forall k x, (0 < k)%N -> (k < nt)%N -> (T k.-1 < x < T k)%Re -> (dst (g k x (Y x)) (g k (T k.-1) (Y (T k.-1))) <= M * H)%Re) ->
  (0 <= M)%Re -> (0 <= H)%Re -> (0 <= tol)%Re ->
  (forall k, (0 < k)%N -> (k < nt)%N -> lipschitz L (g k (T k.-1))) ->
  (forall k, (0 < k)%N -> (k < nt)%N -> (norm (y k - y k.-1 - (T k - T k.-1 : RF) *: g k (T k.-1) (y k.-1))%R <= tol)%Re) ->
  forall k, (k < nt)%N -> (dst (y k) (Y (T k)) <= exp (L * (T k - T 0%N)) * (dst (y 0%N) (Y (T 0%N)) + (T k - T 0%N) * (M * H) + INR k * tol))%Re.
Proof.
move=> Sm M0 H0 t0 os He k kn.
have MH : (0 <= M * H)%Re by exact: Rmult_le_pos.
apply: (proj1 (@accumulate_exp (fun k => dst (y k) (Y (T k))) T nt L (M * H)%Re tol _ t0 MH _ k kn)) => //.
move=> j j0 jn; have [h0 hH] := grid j0 jn; split; first lra.
set h := (T j - T j.-1)%Re in h0 hH *.
have hl0 : (0 <= h * L)%Re by apply: Rmult_le_pos.
have Tr := truncation (_ : (T j.-1 <= T j)%Re) (sol j0 jn) (fun x P => Sm j x j0 jn P).
have := @explicit_step m (g j (T j.-1)) h L (exp (L * h)) (y j) (Y (T j)) (y j.-1) (Y (T j.-1)) tol (h * (M * H))%Re h0 (os j j0 jn) _ _ (He j j0 jn) (Tr _).
rewrite [(tol + _)%Re]Rplus_comm; apply; [apply: exp_ge1; lra| |by move: h0; rewrite /h; lra].
have := exp_ineq1_le (L * h)%Re; lra.
Qed.
End Error.
