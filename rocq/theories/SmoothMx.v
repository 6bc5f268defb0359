(** From continuously differentiable rows (SmoothR) to the hypotheses of the gradient theorem: rates as functions of column vectors. *)
From Coq Require Import Reals List String Lra Lia FunctionalExtensionality.
From mathcomp Require Import all_ssreflect all_algebra.
From Verif Require Import ChunkModel ChunkSolve ChunkInst NewtonModel Ode OdeForward OdeReal OdeDiff RField Gmres Implicit.
From Verif Require Deriv Slices SmoothR.
Import GRing.Theory.
Set Implicit Arguments. Unset Strict Implicit. Unset Printing Implicit Defensive.
Local Open Scope ring_scope.
Delimit Scope R_scope with Re.

(** columns and sequences *)
Definition ct n (v : nat -> R) : 'cV[RF]_n := \col_i (v i : RF).
Definition tv n (y : 'cV[RF]_n) : nat -> R := fun i => if insub i is Some o then y o 0 else R0.
Lemma tvE n (y : 'cV[RF]_n) (i : 'I_n) : tv y i = y i 0.
Proof. by rewrite /tv insubT //= => h; congr (y _ _); apply: val_inj. Qed.
Lemma tv_lt n (y : 'cV[RF]_n) i (h : (i < n)%N) : tv y i = y (Ordinal h) 0. Proof. exact: (tvE y (Ordinal h)). Qed.
Lemma ctK n (y : 'cV[RF]_n) : ct n (tv y) = y. Proof. by apply/colP => i; rewrite mxE tvE. Qed.
Lemma tvK n v i : (i < n)%N -> tv (ct n v) i = v i. Proof. by move=> h; rewrite (tv_lt _ h) mxE. Qed.
Definition join m np (y : 'cV[RF]_m) (p : 'cV[RF]_np) : nat -> R := fun j => if (j < m)%N then tv y j else tv p (j - m).
Lemma join_l m np (y : 'cV[RF]_m) (p : 'cV[RF]_np) (j : 'I_m) : join y p j = y j 0. Proof. by rewrite /join ltn_ord tvE. Qed.
Lemma join_r m np (y : 'cV[RF]_m) (p : 'cV[RF]_np) (j : 'I_np) : join y p (m + j) = p j 0. Proof. by rewrite /join ltnNge leq_addr /= addKn tvE. Qed.
Lemma ct_join m np (y : 'cV[RF]_m) (p : 'cV[RF]_np) : ct m (join y p) = y. Proof. by apply/colP => i; rewrite mxE join_l. Qed.
Lemma ct_tail m np (y : 'cV[RF]_m) (p : 'cV[RF]_np) : ct np (SmoothR.tail m (join y p)) = p. Proof. by apply/colP => i; rewrite mxE /SmoothR.tail join_r. Qed.
Lemma tail_join m np (y : 'cV[RF]_m) (p : 'cV[RF]_np) : SmoothR.tail m (join y p) = tv p.
Proof. by apply: functional_extensionality => j; rewrite /SmoothR.tail /join ltnNge leq_addr /= addKn. Qed.
Lemma sumE n (f : nat -> R) : Deriv.sum n f = \sum_(i < n) (f i : RF).
Proof. by elim: n => [|n IH]; rewrite ?big_ord0 // big_ord_recr /= IH. Qed.
Lemma sum_join m np (a : nat -> R) : Deriv.sum (m + np) a = \sum_(i < m) (a i : RF) + \sum_(i < np) (a (m + i)%N : RF).
Proof. by rewrite sumE big_split_ord. Qed.

(** finitely many radii *)
Lemma fin_radius (I : finType) (P : I -> R -> Prop) : (forall i r r', (r' <= r)%Re -> P i r -> P i r') ->
  (forall i, exists r, (0 < r)%Re /\ P i r) -> exists r, (0 < r)%Re /\ forall i, P i r.
Proof.
move=> mono H; suff [r [r0 Hr]] : exists r, (0 < r)%Re /\ forall i, i \in enum I -> P i r by exists r; split=> // i; apply: Hr; rewrite mem_enum.
elim: (enum I) => [|i s [r [r0 Hr]]]; first by exists 1%Re; split; [lra|].
have [r1 [r10 H1]] := H i; exists (Rmin r r1); split; first exact: Rmin_glb_lt.
move=> j; rewrite inE => /orP [/eqP ->|js]; [exact: mono (Rmin_r _ _) H1|exact: mono (Rmin_l _ _) (Hr j js)].
Qed.

(** ** Continuously differentiable functions of the parameter vector *)
Section Param.
Variable np : nat.
Definition c1_at (F : 'cV[RF]_np -> R) (p0 : 'cV[RF]_np) : Prop := exists G : 'cV[RF]_np -> 'cV[RF]_np,
  (exists d, (0 < d)%Re /\ forall c th q, (dst (c th) p0 <= d)%Re -> cdiff c th q -> derivable_pt_lim (fun u => F (c u)) th (\sum_i G (c th) i 0 * q i 0)) /\
  (forall e, (0 < e)%Re -> exists d, (0 < d)%Re /\ forall p, (dst p p0 <= d)%Re -> forall i, (Rabs (G p i ord0 - G p0 i ord0) <= e)%Re).
Lemma near_dst v0 r v : (0 < r)%Re -> SmoothR.near np v0 (r / (INR np + 1)) v -> (dst (ct np v) (ct np v0) <= r)%Re.
Proof.
move=> r0 H; have n0 := pos_INR np; apply: Rle_trans (norm_le_sum _) _.
apply: Rle_trans (_ : (\sum_(i < np) ((r / (INR np + 1))%Re : RF) <= _)%Re).
- apply: sum_le => i; rewrite !mxE; apply: H; exact/ltP.
- rewrite sum_const; have : (r / (INR np + 1) * (INR np + 1) = r)%Re by field; lra.
  have : (0 < r / (INR np + 1))%Re by apply: Rdiv_lt_0_compat; lra. lra.
Qed.
Lemma c1_smooth F p0 : c1_at F p0 -> SmoothR.smooth np (tv p0) (fun v => F (ct np v)).
Proof.
move=> [G [[d [d0 HD]] HC]]; have n0 := pos_INR np; exists (fun v => tv (G (ct np v))); apply: SmoothR.gradient_intro.
- move=> j /ltP jn e e0; have [|r [r0 Hr]] := HC (e / 2)%Re; first lra.
  exists (r / (INR np + 1))%Re; split; first by apply: Rdiv_lt_0_compat; lra.
  move=> v Hv; rewrite !(tv_lt _ jn) ctK; have := near_dst r0 Hv; rewrite ctK => /Hr /(_ (Ordinal jn)) K; apply: Rle_lt_trans K _; lra.
- exists (d / (INR np + 1))%Re; split; first by apply: Rdiv_lt_0_compat; lra.
  move=> c th w Hn Hc; have := near_dst d0 Hn; rewrite ctK => Hd.
  have Dc : cdiff (fun u => ct np (c u)) th (ct np w) by move=> i; apply: (@dpl_ext (fun u => c u i)) => [u|]; rewrite mxE //; apply: Hc; exact/ltP.
  have := HD (fun u => ct np (c u)) th (ct np w) Hd Dc.
  rewrite sumE; set a := (X in derivable_pt_lim _ _ X -> _); set b := (X in _ -> derivable_pt_lim _ _ X).
  suff -> : a = b by [].
  by apply: eq_bigr => i _; rewrite tvE mxE.
Qed.
End Param.

(** ** Rates *)
Section Rows.
Variables (m np : nat) (f : 'cV[RF]_m -> 'cV[RF]_np -> 'cV[RF]_m).
(** [M] is the derivative of the rate with respect to the parameters. *)
Definition param_deriv (y : 'cV[RF]_m) (p : 'cV[RF]_np) (M : 'M[RF]_(m, np)) : Prop :=
  forall c th q, c th = p -> cdiff c th q -> cdiff (fun u => f y (c u)) th (M *m q).
Variables (J : 'cV[RF]_m -> 'cV[RF]_np -> 'M[RF]_m) (P : 'cV[RF]_m -> 'cV[RF]_np -> 'M[RF]_(m, np)) (y0 : 'cV[RF]_m) (p0 : 'cV[RF]_np).
Hypothesis rows : forall i : 'I_m, SmoothR.smooth (m + np) (join y0 p0) (fun v => f (ct m v) (ct np (SmoothR.tail m v)) i 0).
Hypothesis Jn : exists r, (0 < r)%Re /\ forall y p, (dst y y0 <= r)%Re -> (dst p p0 <= r)%Re -> jacobian_at (f ^~ p) (J y p) y.
Hypothesis Pg : forall y p M, param_deriv y p M -> P y p = M.
Lemma join_near y p r : (dst y y0 <= r)%Re -> (dst p p0 <= r)%Re -> SmoothR.near (m + np) (join y0 p0) r (join y p).
Proof.
move=> Hy Hp j /ltP jn; rewrite /join; case: ltnP => jm.
- rewrite !(tv_lt _ jm); exact: Rle_trans (comp_dst _ _ _) Hy.
- have h : (j - m < np)%N by rewrite ltn_subLR.
  rewrite !(tv_lt _ h); exact: Rle_trans (comp_dst _ _ _) Hp.
Qed.
Lemma join_curve (Y : R -> 'cV[RF]_m) (Q : R -> 'cV[RF]_np) th y' p' : cdiff Y th y' -> cdiff Q th p' -> SmoothR.curve (m + np) (fun u => join (Y u) (Q u)) th (join y' p').
Proof.
move=> Dy Dp j /ltP jn; rewrite /join; case: ltnP => jm.
- rewrite (tv_lt _ jm); apply: (@dpl_ext (fun u => Y u (Ordinal jm) 0)) => [u|]; [by rewrite (tv_lt _ jm)|exact: Dy].
- have h : (j - m < np)%N by rewrite ltn_subLR.
  rewrite (tv_lt _ h); apply: (@dpl_ext (fun u => Q u (Ordinal h) 0)) => [u|]; [by rewrite (tv_lt _ h)|exact: Dp].
Qed.
Lemma c1_of_rows : c1_near f J P y0 p0.
Proof.
have [G HG] := fin_all_exists rows.
have [r1 [r10 H1]] : exists r, (0 < r)%Re /\ forall i, forall c th w, SmoothR.near (m + np) (join y0 p0) r (c th) -> SmoothR.curve (m + np) c th w ->
  derivable_pt_lim (fun u => f (ct m (c u)) (ct np (SmoothR.tail m (c u))) i 0) th (Deriv.sum (m + np) (fun j => G i (c th) j * w j)%Re).
{ apply: (@fin_radius _ (fun i r => forall c th w, SmoothR.near _ _ r (c th) -> SmoothR.curve _ c th w -> derivable_pt_lim _ th _)) => [i r r' rr H c th w Hn|i].
  - apply: H; exact: SmoothR.near_le rr Hn.
  - by have [_ [_ [r [r0 H]]]] := HG i; exists r. }
have [r2 [r20 H2]] := Jn.
pose d := Rmin r1 r2; have d0 : (0 < d)%Re by exact: Rmin_glb_lt.
pose GJ (y : 'cV[RF]_m) (p : 'cV[RF]_np) : 'M[RF]_m := \matrix_(i, j) (G i (join y p) j : RF).
pose GP (y : 'cV[RF]_m) (p : 'cV[RF]_np) : 'M[RF]_(m, np) := \matrix_(i, j) (G i (join y p) (m + j)%N : RF).
have par y p : (dst y y0 <= d)%Re -> (dst p p0 <= d)%Re -> partials_at f (GJ y p) (GP y p) y p.
{ move=> Hy Hp Y Q th y' p' Yy Qp Dy Dp i.
  have Nr : SmoothR.near (m + np) (join y0 p0) r1 (join (Y th) (Q th)) by rewrite Yy Qp; apply: join_near; [exact: Rle_trans Hy (Rmin_l _ _)|exact: Rle_trans Hp (Rmin_l _ _)].
  have := H1 i (fun u => join (Y u) (Q u)) th _ Nr (join_curve Dy Dp).
  rewrite Yy Qp sum_join; set a := (X in derivable_pt_lim _ _ X -> _); set b := (X in _ -> derivable_pt_lim _ _ X).
  have -> : a = b.
  { rewrite /a /b !mxE; congr (_ + _); apply: eq_bigr => j _; rewrite mxE; [by rewrite join_l|by rewrite join_r]. }
  apply: dpl_ext => u; by rewrite ct_join ct_tail. }
have EJ y p : (dst y y0 <= d)%Re -> (dst p p0 <= d)%Re -> J y p = GJ y p.
{ move=> Hy Hp; have Hj := H2 y p (Rle_trans _ _ _ Hy (Rmin_r _ _)) (Rle_trans _ _ _ Hp (Rmin_r _ _)).
  apply/matrixP => i j; pose Y (u : R) : 'cV[RF]_m := y + (u : RF) *: delta_mx j 0.
  have Dy : cdiff Y R0 (delta_mx j 0).
  { move=> k; apply: (@dpl_ext (fun u => y k ord0 + u * ((delta_mx j 0)%R : 'cV[RF]_m) k ord0)%Re) => [u|]; first by rewrite /Y !mxE.
    have := derivable_pt_lim_plus (fun _ => y k 0) (fun u => u * ((delta_mx j 0)%R : 'cV[RF]_m) k ord0)%Re R0 _ _ (derivable_pt_lim_const _ _) (derivable_pt_lim_mult id (fun _ => (delta_mx j 0 : 'cV[RF]_m) k 0) R0 _ _ (derivable_pt_lim_id _) (derivable_pt_lim_const _ _)).
    rewrite /id Rmult_1_l Rmult_0_l Rplus_0_r Rplus_0_l; exact. }
  have Y0 : Y R0 = y by rewrite /Y scale0r addr0.
  have A := Hj Y R0 _ Y0 Dy i.
  have Z : cdiff (fun _ : R => p) R0 0 by exact: cdiff_cst.
  have B := par y p Hy Hp Y (fun _ => p) R0 _ _ Y0 erefl Dy Z i.
  have := uniqueness_limite _ _ _ _ A B; rewrite mulmx0 addr0 -!colE !mxE; exact. }
have EP y p : (dst y y0 <= d)%Re -> (dst p p0 <= d)%Re -> P y p = GP y p.
{ move=> Hy Hp; apply: Pg => c th q cp Dc; have Z : cdiff (fun _ : R => y) th 0 by exact: cdiff_cst.
  have := par y p Hy Hp (fun _ => y) c th _ _ erefl cp Z Dc; by rewrite mulmx0 add0r. }
have z1 : (dst y0 y0 <= d)%Re by rewrite dst0; exact: Rlt_le.
have z2 : (dst p0 p0 <= d)%Re by rewrite dst0; exact: Rlt_le.
split.
- exists d; split=> // y p Hy Hp; rewrite EJ // EP //; exact: par.
- move=> e e0.
  have [r [r0 Hr]] : exists r, (0 < r)%Re /\ forall ij : 'I_m * 'I_(m + np), forall v, SmoothR.near (m + np) (join y0 p0) r v -> (Rabs (G ij.1 v ij.2 - G ij.1 (join y0 p0) ij.2) < e)%Re.
  { apply: (@fin_radius _ (fun (ij : 'I_m * 'I_(m + np)) r => forall v, SmoothR.near _ _ r v -> (_ < e)%Re)) => [ij r r' rr H v Hn|ij].
    - apply: H; exact: SmoothR.near_le rr Hn.
    - have [_ [H _]] := HG ij.1; have [r [r0 Hr]] := H ij.2 (elimT ltP (ltn_ord _)) e e0; by exists r. }
  exists (Rmin r d); split; first exact: Rmin_glb_lt.
  move=> y p Hy Hp; have Hy' := Rle_trans _ _ _ Hy (Rmin_r _ _); have Hp' := Rle_trans _ _ _ Hp (Rmin_r _ _).
  have N : SmoothR.near (m + np) (join y0 p0) r (join y p) by apply: join_near; [exact: Rle_trans Hy (Rmin_l _ _)|exact: Rle_trans Hp (Rmin_l _ _)].
  rewrite !EJ // !EP //; split=> i j; rewrite !mxE; apply: Rlt_le.
  + exact: (Hr (i, lshift np j) _ N).
  + exact: (Hr (i, rshift m j) _ N).
Qed.
End Rows.
