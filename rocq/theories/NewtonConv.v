(** Quadratic convergence of Newton's method: the second order remainder of a map with
    a Lipschitz Jacobian, and the majorant sequence.  (No code is modelled here.) *)
From Coq Require Import Reals List String Lra Lia.
From mathcomp Require Import all_ssreflect all_algebra.
From Verif Require Import NewtonModel NewtonProofs OdeReal OdeDiff RField Gmres Implicit Tolerance Converge ZmodTac.
Import GRing.Theory.
Set Implicit Arguments. Unset Strict Implicit. Unset Printing Implicit Defensive.
Local Open Scope ring_scope.
Delimit Scope R_scope with Re.

(** ** Specification *)
(** [J] is the derivative of [g] at [x]: along every differentiable curve through [x] *)
Definition jac_at (n m : nat) (g : 'cV[RF]_n -> 'cV[RF]_m) (J : 'M[RF]_(m, n)) (x : 'cV[RF]_n) : Prop :=
  forall Y th y', Y th = x -> cdiff Y th y' -> cdiff (fun u => g (Y u)) th (J *m y').
(** On the ball of radius [r] around [x0], [J] is the Jacobian of [g] and is Lipschitz with constant [K]. *)
Definition smooth_near (n m : nat) (g : 'cV[RF]_n -> 'cV[RF]_m) (J : 'cV[RF]_n -> 'M[RF]_(m, n)) (x0 : 'cV[RF]_n) (r K : R) : Prop :=
  (forall x, (dst x x0 <= r)%Re -> jac_at g (J x) x) /\
  (forall x x' v, (dst x x0 <= r)%Re -> (dst x' x0 <= r)%Re -> (norm ((J x - J x') *m v) <= K * dst x x' * norm v)%Re).
(** Its inverse exists there and is bounded by [beta]. *)
Definition inverse_near (n : nat) (J : 'cV[RF]_n -> 'M[RF]_n) (x0 : 'cV[RF]_n) (r beta : R) : Prop :=
  forall x, (dst x x0 <= r)%Re -> J x \in unitmx /\ forall v, (norm (invmx (J x) *m v) <= beta * norm v)%Re.

(** ** Second order remainder *)
Lemma cdiff_line n (v : 'cV[RF]_n) s : cdiff (fun u : R => (u : RF) *: v) s v.
Proof.
move=> i; apply: (@dpl_ext (fun u : R => (v i ord0 * u)%Re)) => [u|]; first by rewrite mxE Rmult_comm.
rewrite -[X in derivable_pt_lim _ _ X]Rmult_1_r; exact: derivable_pt_lim_scal (derivable_pt_lim_id s).
Qed.
Section Taylor.
Variables (n m : nat) (g : 'cV[RF]_n -> 'cV[RF]_m) (J : 'cV[RF]_n -> 'M[RF]_(m, n)).

Lemma ball_segment (x d x0 : 'cV[RF]_n) r s : (0 <= s <= 1)%Re -> (dst x x0 <= r)%Re -> (dst (x - d) x0 <= r)%Re ->
  (dst (x - (s : RF) *: d) x0 <= r)%Re.
Proof.
move=> hs h1 h2; rewrite /dst.
have -> : x - (s : RF) *: d - x0 = (1 - s : RF) *: (x - x0) + (s : RF) *: (x - d - x0).
{ rewrite !scalerBr !scalerBl !scale1r; zmod. }
apply: Rle_trans (norm_triangle _ _) _; rewrite !normZ -[(1 - s : RF)]/(1 - s)%Re !Rabs_pos_eq; try lra.
rewrite -/(dst x x0) -/(dst (x - d) x0).
have q1 := Rmult_le_compat_l (1 - s) _ _ ltac:(lra) h1; have q2 := Rmult_le_compat_l s _ _ ltac:(lra) h2; lra.
Qed.

Lemma remainder x0 r K (x d : 'cV[RF]_n) : (0 <= K)%Re -> smooth_near g J x0 r K -> (dst x x0 <= r)%Re -> (dst (x - d) x0 <= r)%Re ->
  (norm (g (x - d) - g x + J x *m d)%R <= K / 2 * (norm d * norm d))%Re.
Proof.
move=> K0 [HJ HL] h1 h2; set w := (X in norm X); set N := (norm d * norm d)%Re.
pose G (s : R) : 'cV[RF]_m := g (x - (s : RF) *: d) + (s : RF) *: (J x *m d).
have N0 : (0 <= N)%Re by apply: Rmult_le_pos; exact: norm_ge0.
have w0 := norm_ge0 w.
have Ds (v : 'cV[RF]_n) s : cdiff (fun u : R => (u : RF) *: v) s v.
{ move=> i; apply: (@dpl_ext (fun u : R => (v i ord0 * u)%Re)) => [u|]; first by rewrite mxE Rmult_comm.
  rewrite -[X in derivable_pt_lim _ _ X]Rmult_1_r; exact: derivable_pt_lim_scal (derivable_pt_lim_id s). }
have Ds' (v : 'cV[RF]_m) s : cdiff (fun u : R => (u : RF) *: v) s v.
{ move=> i; apply: (@dpl_ext (fun u : R => (v i ord0 * u)%Re)) => [u|]; first by rewrite mxE Rmult_comm.
  rewrite -[X in derivable_pt_lim _ _ X]Rmult_1_r; exact: derivable_pt_lim_scal (derivable_pt_lim_id s). }
have DG s : (0 <= s <= 1)%Re -> cdiff G s (J (x - (s : RF) *: d) *m (- d) + J x *m d).
{ move=> hs; apply: cdiff_add; last exact: Ds'. apply: (HJ _ (ball_segment hs h1 h2)) => //.
  have := cdiff_add (cdiff_cst x s) (cdiff_opp (Ds d s)); by rewrite add0r. }
pose phi (s : R) : R := (dot w (G s) - norm w * (K / 2 * N) * (s * s))%Re.
pose phi' (s : R) : R := (dot w (J (x - (s : RF) *: d) *m (- d) + J x *m d)%R - norm w * (K * N) * s)%Re.
have Dphi s : (0 <= s <= 1)%Re -> derivable_pt_lim phi s (phi' s).
{ move=> hs; rewrite /phi /phi'; apply: derivable_pt_lim_minus; first exact: diff_dot (DG s hs).
  have -> : (norm w * (K * N) * s = norm w * (K / 2 * N) * (1 * s + s * 1))%Re by field.
  apply: (@derivable_pt_lim_scal (fun u : R => (u * u)%Re)); exact: derivable_pt_lim_mult (derivable_pt_lim_id s) (derivable_pt_lim_id s). }
have neg s : (0 <= s <= 1)%Re -> (phi' s <= 0)%Re.
{ move=> hs; rewrite /phi'.
  have -> : J (x - (s : RF) *: d) *m (- d) + J x *m d = (J x - J (x - (s : RF) *: d)) *m d by rewrite mulmxBl mulmxN addrC.
  have q := HL x (x - (s : RF) *: d) d h1 (ball_segment hs h1 h2).
  have e : dst x (x - (s : RF) *: d) = (s * norm d)%Re by rewrite /dst opprB addrC subrK normZ Rabs_pos_eq //; lra.
  rewrite e in q; have q1 := dot_le_norm w ((J x - J (x - (s : RF) *: d)) *m d).
  have q2 := Rmult_le_compat_l _ _ _ w0 q; have -> : (norm w * (K * N) * s = norm w * (K * (s * norm d) * norm d))%Re by rewrite /N; ring.
  lra. }
have dec : (phi 1 <= phi 0)%Re.
{ have pr : forall c, (0 < c < 1)%Re -> derivable_pt phi c by move=> c P; exists (phi' c); apply: Dphi; lra.
  have pr2 : forall c, (0 < c < 1)%Re -> derivable_pt id c by move=> c _; exact: derivable_pt_id.
  have C c : (0 <= c <= 1)%Re -> continuity_pt phi c by move=> P; apply: derivable_continuous_pt; exists (phi' c); exact: Dphi.
  have [c [P E]] := @MVT phi id 0 1 pr pr2 ltac:(lra) C (fun c _ => derivable_continuous_pt _ _ (derivable_pt_id c)).
  move: E; rewrite (derive_pt_eq_0 _ _ _ (pr c P) (Dphi c ltac:(lra))) (derive_pt_eq_0 _ _ _ (pr2 c P) (derivable_pt_lim_id c)) /id.
  have := neg c ltac:(lra); lra. }
have E1 : G 1%Re = g (x - d) + J x *m d by rewrite /G -[1%Re]/(1 : RF) !scale1r.
have E0 : G 0%Re = g x by rewrite /G -[0%Re]/(0 : RF) !scale0r subr0 addr0.
have S : (norm w * norm w <= norm w * (K / 2 * N))%Re.
{ have -> : (norm w * norm w = dot w (G 1%Re) - dot w (G 0%Re))%Re.
  { rewrite norm_sq E1 E0 {2}/w !dotDr dotN; lra. }
  move: dec; rewrite /phi; lra. }
have [z|nz] := Req_dec (norm w) 0; last by apply: (Rmult_le_reg_l (norm w)) => //; lra.
rewrite z; apply: Rmult_le_pos => //; lra.
Qed.
(** a bound on the Jacobian is a Lipschitz constant *)
Lemma ball_lipschitz x0 r K L (u v : 'cV[RF]_n) : smooth_near g J x0 r K ->
  (forall x w, (dst x x0 <= r)%Re -> (norm (J x *m w) <= L * norm w)%Re) ->
  (dst u x0 <= r)%Re -> (dst v x0 <= r)%Re -> (dst (g u) (g v) <= L * dst u v)%Re.
Proof.
move=> [HJ _] HB hu hv; set d := u - v; set w := g u - g v.
pose G (s : R) : 'cV[RF]_m := g (u - (s : RF) *: d).
have hv' : (dst (u - d) x0 <= r)%Re by rewrite /d subKr.
have DG s : (0 <= s <= 1)%Re -> cdiff G s (J (u - (s : RF) *: d) *m (- d)).
{ move=> hs; apply: (HJ _ (ball_segment hs hu hv')) => //.
  have := cdiff_add (cdiff_cst u s) (cdiff_opp (cdiff_line d s)); by rewrite add0r. }
pose phi (s : R) : R := dot w (G s).
have Dphi s : (0 <= s <= 1)%Re -> derivable_pt_lim phi s (dot w (J (u - (s : RF) *: d) *m (- d))) by move=> hs; exact: diff_dot (DG s hs).
have [c [P E]] : exists c, (0 < c < 1)%Re /\ (phi 1 - phi 0 = dot w (J (u - (c : RF) *: d) *m (- d)))%Re.
{ have pr : forall c, (0 < c < 1)%Re -> derivable_pt phi c by move=> c P; exists (dot w (J (u - (c : RF) *: d) *m (- d))); apply: Dphi; lra.
  have pr2 : forall c, (0 < c < 1)%Re -> derivable_pt id c by move=> c _; exact: derivable_pt_id.
  have C c : (0 <= c <= 1)%Re -> continuity_pt phi c by move=> P; apply: derivable_continuous_pt; exists (dot w (J (u - (c : RF) *: d) *m (- d))); exact: Dphi.
  have [c [P E]] := @MVT phi id 0 1 pr pr2 ltac:(lra) C (fun c _ => derivable_continuous_pt _ _ (derivable_pt_id c)).
  exists c; split=> //; move: E.
  rewrite (derive_pt_eq_0 _ _ _ (pr c P) (Dphi c ltac:(lra))) (derive_pt_eq_0 _ _ _ (pr2 c P) (derivable_pt_lim_id c)) /id; lra. }
have E1 : G 1%Re = g v by rewrite /G -[1%Re]/(1 : RF) scale1r /d subKr.
have E0 : G 0%Re = g u by rewrite /G -[0%Re]/(0 : RF) scale0r subr0.
have w0 := norm_ge0 w.
have B := HB (u - (c : RF) *: d) (- d) (ball_segment (conj (Rlt_le _ _ (proj1 P)) (Rlt_le _ _ (proj2 P))) hu hv'); rewrite normN in B.
have S : (norm w * norm w <= norm w * (L * norm d))%Re.
{ have -> : (norm w * norm w = - (phi 1 - phi 0))%Re by rewrite norm_sq /phi E1 E0 {2}/w dotDr dotN; lra.
  rewrite E -dotN; apply: Rle_trans (dot_le_norm _ _) _; rewrite normN; exact: Rmult_le_compat_l. }
have [z|nz] := Req_dec (norm w) 0; last by rewrite /dst -/w -/d; apply: (Rmult_le_reg_l (norm w)) => //; lra.
rewrite /dst -/w -/d z; apply: Rle_trans (norm_ge0 _) B.
Qed.
End Taylor.

(** ** The majorant sequence *)
Section Seq.
Variables (X : Type) (upd : X -> X) (e : X -> R) (dd : X -> X -> R) (x0 : X) (beta c r q : R).
Hypotheses (d00 : dd x0 x0 = R0) (tri : forall x y, (dd x0 y <= dd x0 x + dd x y)%Re) (e0 : forall x, (0 <= e x)%Re).
Hypotheses (beta0 : (0 <= beta)%Re) (c0 : (0 <= c)%Re).
Hypothesis Hstep : forall x, (dd x0 x <= r)%Re -> (dd x (upd x) <= beta * e x)%Re.
Hypothesis Hquad : forall x, (dd x0 x <= r)%Re -> (dd x0 (upd x) <= r)%Re -> (e (upd x) <= c * (e x * e x))%Re.
Hypotheses (hq : (c * e x0 <= q)%Re) (q1 : (0 <= q < 1)%Re) (hr : (beta * e x0 <= r * (1 - q))%Re).

Lemma pow2_ge k : (k <= 2 ^ k - 1)%N.
Proof. by rewrite -ltnS subn1 prednK ?expn_gt0 // ltn_expl. Qed.
Lemma qpow_le a b : (a <= b)%N -> (q ^ b <= q ^ a)%Re.
Proof.
move=> ab; rewrite -(subnK ab) -[(b - a + a)%N]/(Nat.add (b - a) a) pow_add -[X in (_ <= X)%Re]Rmult_1_l.
apply: Rmult_le_compat_r; first by apply: pow_le; lra.
elim: (b - a)%N => [|j IH] /=; first lra.
have qle : (q * q ^ j <= 1 * 1)%Re; last lra. apply: Rmult_le_compat => //; [lra|exact: pow_le (proj1 q1)|lra].
Qed.
Lemma newton_seq k : let x := Nat.iter k upd x0 in
  (dd x0 x <= r)%Re /\ (dd x0 x * (1 - q) <= beta * e x0 * (1 - q ^ k))%Re /\ (e x <= e x0 * q ^ (2 ^ k - 1))%Re.
Proof.
have be : (0 <= beta * e x0)%Re by apply: Rmult_le_pos.
elim: k => [|k [IH1 [IH2 IH3]]] /=.
{ rewrite d00; split; last by split; lra.
  apply: (Rmult_le_reg_r (1 - q)); lra. }
set x := Nat.iter k upd x0 in IH1 IH2 IH3 *.
have ek : (e x <= e x0 * q ^ k)%Re.
{ apply: Rle_trans IH3 _; apply: Rmult_le_compat_l => //; apply: qpow_le; exact: pow2_ge. }
have D : (dd x0 (upd x) * (1 - q) <= beta * e x0 * (1 - q ^ k.+1))%Re.
{ have h1 := tri x (upd x); have h2 := Hstep IH1; have h3 := Rmult_le_compat_l _ _ _ beta0 ek.
  have h4 := Rmult_le_compat_r (1 - q) _ _ ltac:(lra) (Rle_trans _ _ _ h1 (Rplus_le_compat_l (dd x0 x) _ _ (Rle_trans _ _ _ h2 h3))).
  rewrite /=; lra. }
have inb : (dd x0 (upd x) <= r)%Re.
{ apply: (Rmult_le_reg_r (1 - q)); first lra. apply: Rle_trans D _; apply: Rle_trans hr.
  rewrite -[X in (_ <= X)%Re]Rmult_1_r; apply: Rmult_le_compat_l => //. have := pow_le q k.+1 (proj1 q1); lra. }
split=> //; split=> //.
apply: Rle_trans (Hquad IH1 inb) _.
have p0 := pow_le q (2 ^ k - 1) (proj1 q1).
have h := Rmult_le_compat _ _ _ _ (e0 x) (e0 x) IH3 IH3.
have h' := Rmult_le_compat_l _ _ _ c0 h.
apply: Rle_trans h' _.
have -> : (c * (e x0 * q ^ (2 ^ k - 1) * (e x0 * q ^ (2 ^ k - 1))) = e x0 * (c * e x0 * (q ^ (2 ^ k - 1) * q ^ (2 ^ k - 1))))%Re by ring.
apply: Rmult_le_compat_l => //.
have -> : (2 ^ k.+1 - 1)%N = Nat.add 1 (Nat.add (2 ^ k - 1) (2 ^ k - 1)).
{ rewrite !plusE expnS mul2n -addnn; case: (2 ^ k)%N (expn_gt0 2 k) => // j _; by rewrite subn1 addSn /= addnS add1n subn1. }
rewrite !pow_add; apply: Rmult_le_compat_r; [exact: Rmult_le_pos|rewrite /=; lra].
Qed.
End Seq.

(** ** One system *)
Section System.
Variables (n : nat) (g : 'cV[RF]_n -> 'cV[RF]_n) (J : 'cV[RF]_n -> 'M[RF]_n) (x0 : 'cV[RF]_n) (r K beta : R).
Hypotheses (K0 : (0 <= K)%Re) (b0 : (0 <= beta)%Re) (r0 : (0 <= r)%Re).
Hypotheses (sm : smooth_near g J x0 r K) (inv : inverse_near J x0 r beta).
Hypotheses (small : (4 * (beta * K * r) <= 1)%Re) (start : (2 * (beta * norm (g x0)) <= r)%Re).

Let upd x := x - invmx (J x) *m g x.
Let in0 : (dst x0 x0 <= r)%Re. Proof. by rewrite dst0. Qed.

Lemma newton_remainder x : (dst x x0 <= r)%Re -> (dst (upd x) x0 <= r)%Re ->
  (norm (g (upd x)) <= beta * beta * K / 2 * (norm (g x) * norm (g x)))%Re.
Proof.
move=> h1 h2; have [U B] := inv h1; have := remainder K0 sm h1 h2.
rewrite mulKVmx // -/(upd x) subrK => q; apply: Rle_trans q _.
have k := B (g x); have k' := Rmult_le_compat _ _ _ _ (norm_ge0 _) (norm_ge0 _) k k.
have := Rmult_le_compat_l (K / 2) _ _ ltac:(lra) k'; lra.
Qed.

Lemma newton_points k : let x := Nat.iter k upd x0 in
  (dst x x0 <= r)%Re /\ (norm (g x) <= norm (g x0) * (/ 16) ^ (2 ^ k - 1))%Re.
Proof.
have n0 := norm_ge0 (g x0).
have cq : (beta * beta * K / 2 * norm (g x0) <= / 16)%Re.
{ have h1 := Rmult_le_compat_l (beta * K) _ _ (Rmult_le_pos _ _ b0 K0) start.
  have -> : (beta * beta * K / 2 * norm (g x0) = beta * K * (2 * (beta * norm (g x0))) / 4)%Re by field. lra. }
have [] := @newton_seq _ upd (fun x => norm (g x)) (fun x y => dst y x) x0 beta (beta * beta * K / 2)%Re r (/ 16)%Re _ _ _ b0 _ _ _ cq _ _ k.
- exact: dst0.
- move=> x y; have := dst_tri y x x0; lra.
- by move=> x; exact: norm_ge0.
- have := Rmult_le_pos _ _ (Rmult_le_pos _ _ b0 b0) K0; lra.
- move=> x xr; have [_ B] := inv xr; rewrite /dst /upd addrAC subrr sub0r normN; exact: B.
- move=> x; exact: newton_remainder.
- lra.
- lra.
- by move=> h1 [_ h2].
Qed.

(** the residual bounds the distance to a root *)
Lemma root_error x z : (dst x x0 <= r)%Re -> (dst z x0 <= r)%Re -> g z = 0 -> (dst x z <= 2 * (beta * norm (g x)))%Re.
Proof.
move=> hx hz gz; have [U B] := inv hx.
have hz' : (dst (x - (x - z)) x0 <= r)%Re by rewrite subKr.
have q := remainder K0 sm hx hz'; rewrite subKr gz sub0r in q.
have E : x - z = invmx (J x) *m (g x + (- g x + J x *m (x - z))) by rewrite addNKr mulKmx.
have k : (norm (x - z) <= beta * (norm (g x) + norm (- g x + J x *m (x - z))%R))%Re.
{ rewrite {1}E; apply: Rle_trans (B _) _; apply: Rmult_le_compat_l => //; exact: norm_triangle. }
have k2 := Rmult_le_compat_l _ _ _ b0 q.
have d2 : (norm (x - z) <= 2 * r)%Re by have := dst_tri x x0 z; rewrite (dstC x0) /dst in hx hz *; lra.
have k3 : (beta * (K / 2 * (norm (x - z) * norm (x - z))) <= / 4 * norm (x - z))%Re.
{ have n0 := norm_ge0 (x - z).
  have h1 := Rmult_le_compat_r _ _ _ n0 (Rmult_le_compat_l _ _ _ (Rmult_le_pos _ _ b0 K0) d2).
  have h2 := Rmult_le_compat_r _ _ _ n0 small. lra. }
have := norm_ge0 (x - z); have := Rmult_le_pos _ _ b0 (norm_ge0 (g x)); rewrite /dst; lra.
Qed.

Lemma root_unique z z' : (dst z x0 <= r)%Re -> (dst z' x0 <= r)%Re -> g z = 0 -> g z' = 0 -> z = z'.
Proof.
move=> h h' e e'; apply: dst_eq0; have := root_error h h' e'; rewrite e norm0 => q; have := dst_ge0 z z'; lra.
Qed.

Lemma root_exists : exists z, g z = 0 /\ (dst z x0 <= r)%Re.
Proof.
have [U B] := inv in0.
pose T x := x - invmx (J x0) *m g x.
have D : (dst (T x0) x0 <= beta * norm (g x0))%Re by rewrite /dst /T addrAC subrr sub0r normN; exact: B.
have [z [Tz zc]] : exists z, T z = z /\ (dst z x0 <= 2 * dst (T x0) x0)%Re.
{ apply: (@fixpoint _ T x0 r) => [u v hu hv|]; last lra.
  have E : T u - T v = invmx (J x0) *m (J x0 *m (u - v) - (g u - g v)).
  { by rewrite [RHS]mulmxBr mulKmx // /T mulmxBr; zmod. }
  have hv' : (dst (u - (u - v)) x0 <= r)%Re by rewrite subKr.
  have q := remainder K0 sm hu hv'; rewrite subKr in q.
  have q2 := proj2 sm x0 u (u - v) in0 hu.
  have S : (norm (J x0 *m (u - v) - (g u - g v))%R <= norm (g v - g u + J u *m (u - v))%R + norm ((J x0 - J u) *m (u - v)))%Re.
  { have -> : J x0 *m (u - v) - (g u - g v) = (g v - g u + J u *m (u - v)) + (J x0 - J u) *m (u - v); last exact: norm_triangle.
    rewrite mulmxBl; zmod. }
  have d2 : (norm (u - v) <= 2 * r)%Re by have := dst_tri u x0 v; rewrite (dstC x0) /dst in hu hv *; lra.
  have n0 := norm_ge0 (u - v).
  have b1 : (norm (J x0 *m (u - v) - (g u - g v))%R <= 2 * (K * r) * norm (u - v))%Re.
  { have h1 := Rmult_le_compat_r _ _ _ n0 (Rmult_le_compat_l _ _ _ K0 d2).
    have h2 := Rmult_le_compat_r _ _ _ n0 (Rmult_le_compat_l _ _ _ K0 hu); rewrite (dstC u) in h2. lra. }
  rewrite {1}/dst E; apply: Rle_trans (B _) _; have h3 := Rmult_le_compat_l _ _ _ b0 b1.
  have h4 := Rmult_le_compat_r _ _ _ n0 small; rewrite /dst; lra. }
exists z; split; last lra.
have G0 : invmx (J x0) *m g z = 0 by move: Tz; rewrite /T => /eqP; rewrite subr_eq addrC -subr_eq subrr eq_sym => /eqP.
by rewrite -(mulKVmx U (g z)) G0 mulmx0.
Qed.
End System.
