(** Behaviour of the GMRES iteration (Gmres.v) for small positive eps: after the
    breakdown index every candidate's residual tends to zero with eps. *)
From Coq Require Import Reals List Lra FunctionalExtensionality.
From mathcomp Require Import all_ssreflect all_algebra.
From Verif Require Import NewtonModel RField Gmres GmresProofs.
Import GRing.Theory.
Set Implicit Arguments. Unset Strict Implicit. Unset Printing Implicit Defensive.
Local Open Scope ring_scope.

(** limits at 0 from the right, 0 included *)
Definition lim (f : R -> R) (l : R) : Prop := limit1_in f (fun x => Rle R0 x) l R0.
Lemma limP f l : lim f l <-> forall t, Rlt R0 t -> exists d, Rlt R0 d /\ forall x, Rle R0 x -> Rlt x d -> Rlt (Rabs (Rminus (f x) l)) t.
Proof.
split=> H t t0.
- have [d [d0 D]] := H t t0; exists d; split=> // x x0 xd; apply: (D x); split=> //; rewrite /= /R_dist Rabs_pos_eq; lra.
- have [d [d0 D]] := H t t0; exists d; split=> // x [x0]; rewrite /= /R_dist => xd; apply: D => //; have := Rle_abs (Rminus x R0); lra.
Qed.
Lemma lim_const c : lim (fun _ => c) c.
Proof. apply/limP => t t0; exists R1; split=> [|x _ _]; [lra|by rewrite Rminus_eq_0 Rabs_R0]. Qed.
Lemma lim_id : lim (fun x => x) R0.
Proof. apply/limP => t t0; exists t; split=> // x xp xt; by rewrite Rminus_0_r Rabs_pos_eq. Qed.
Lemma lim_plus f g a b : lim f a -> lim g b -> lim (fun x => Rplus (f x) (g x)) (Rplus a b).
Proof. by move=> F G; apply: limit_plus. Qed.
Lemma lim_mul f g a b : lim f a -> lim g b -> lim (fun x => Rmult (f x) (g x)) (Rmult a b).
Proof. by move=> F G; apply: limit_mul. Qed.
Lemma lim_opp f a : lim f a -> lim (fun x => Ropp (f x)) (Ropp a).
Proof. by move=> F; apply: limit_Ropp. Qed.
Lemma lim_inv f a : lim f a -> a <> R0 -> lim (fun x => Rinv (f x)) (Rinv a).
Proof. by move=> F A; apply: limit_inv. Qed.
Lemma sqrt_dist a b : Rle R0 a -> Rle R0 b -> Rle (Rabs (Rminus (sqrt a) (sqrt b))) (sqrt (Rabs (Rminus a b))).
Proof.
move=> a0 b0; apply: Rsqr_incr_0; [|exact: Rabs_pos|exact: sqrt_pos].
rewrite Rsqr_sqrt; last exact: Rabs_pos.
have E : Rminus a b = Rmult (Rminus (sqrt a) (sqrt b)) (Rplus (sqrt a) (sqrt b)).
{ have := sqrt_sqrt a a0; have := sqrt_sqrt b b0; lra. }
rewrite E Rabs_mult /Rsqr; apply: Rmult_le_compat_l; first exact: Rabs_pos.
have := sqrt_pos a; have := sqrt_pos b => pb pa; rewrite (Rabs_pos_eq (Rplus _ _)); last lra.
apply: Rabs_le; lra.
Qed.
Lemma lim_sqrt f a : (forall x, Rle R0 (f x)) -> Rle R0 a -> lim f a -> lim (fun x => sqrt (f x)) (sqrt a).
Proof.
move=> P a0 /limP F; apply/limP => t t0; have [d [d0 D]] := F _ (Rmult_lt_0_compat _ _ t0 t0).
exists d; split=> // x xp xd; apply: Rle_lt_trans (sqrt_dist (P x) a0) _.
rewrite -(sqrt_square t); last lra.
apply: sqrt_lt_1_alt; split; [exact: Rabs_pos|exact: D].
Qed.
Lemma lim_sum k (f : 'I_k -> R -> R) (l : 'I_k -> R) : (forall i, lim (f i) (l i)) ->
  lim (fun e => \sum_(i < k) (f i e : RF)) (\sum_(i < k) (l i : RF)).
Proof.
elim: k f l => [|k IH] f l H.
- by rewrite big_ord0 (_ : (fun e => _) = fun _ => R0); [exact: lim_const|apply: functional_extensionality => e; rewrite big_ord0].
- rewrite big_ord_recr (_ : (fun e => _) = fun e => Rplus (\sum_(i < k) (f (widen_ord (leqnSn k) i) e : RF)) (f ord_max e)).
  + by apply: lim_plus => //; apply: IH.
  + by apply: functional_extensionality => e; rewrite big_ord_recr.
Qed.
Lemma lim_ext f g l : (forall x, f x = g x) -> lim f l -> lim g l.
Proof. by move=> E; rewrite (functional_extensionality _ _ E). Qed.

Section Vec.
Variable n : nat.
Definition vlim (f : R -> 'cV[RF]_n) (v : 'cV[RF]_n) : Prop := forall i, lim (fun e => f e i ord0) (v i ord0).
Lemma vlim_const v : vlim (fun _ => v) v. Proof. move=> i; exact: lim_const. Qed.
Lemma vlim_sub f g u v : vlim f u -> vlim g v -> vlim (fun e => f e - g e) (u - v).
Proof. by move=> F G i; rewrite !mxE; apply: (@lim_ext (fun e => Rplus (f e i ord0) (Ropp (g e i ord0)))) => [e|]; [rewrite !mxE|apply: lim_plus => //; apply: lim_opp]. Qed.
Lemma vlim_scale (a : R -> R) f (c : R) v : lim a c -> vlim f v -> vlim (fun e => (a e : RF) *: f e) ((c : RF) *: v).
Proof. by move=> F G i; rewrite !mxE; apply: (@lim_ext (fun e => Rmult (a e) (f e i ord0))) => [e|]; [rewrite !mxE|apply: lim_mul]. Qed.
Lemma vlim_mul (A : 'M[RF]_n) f v : vlim f v -> vlim (fun e => A *m f e) (A *m v).
Proof.
move=> F i; rewrite !mxE; apply: (@lim_ext (fun e => \sum_(j < n) (Rmult (A i j) (f e j ord0) : RF))) => [e|]; first by rewrite !mxE.
by apply: (lim_sum (f := fun j e => Rmult (A i j) (f e j ord0)) (l := fun j => Rmult (A i j) (v j ord0))) => j; apply: lim_mul => //; exact: lim_const.
Qed.
Lemma lim_dot f g u v : vlim f u -> vlim g v -> lim (fun e => dot (f e) (g e)) (dot u v).
Proof.
move=> F G; apply: (lim_sum (f := fun j e => Rmult (f e j ord0) (g e j ord0)) (l := fun j => Rmult (u j ord0) (v j ord0))) => j.
exact: lim_mul.
Qed.
Lemma lim_norm f u : vlim f u -> lim (fun e => norm (f e)) (norm u).
Proof. by move=> F; apply: lim_sqrt => [x||]; [exact: dot_ge0|exact: dot_ge0|exact: lim_dot]. Qed.
End Vec.

Section Small.
Variables (n : nat) (A P : 'M[RF]_n) (b x0 : 'cV[RF]_n).
Let M := mulmx P : 'cV[RF]_n -> 'cV[RF]_n.
Notation bV e := (bV A b x0 M e). Notation bZ e := (bZ A b x0 M e). Notation bH e := (bH A b x0 M e). Notation bw e := (bw A b x0 M e).
Notation beta := (beta A b x0). Notation e1v := (e1v A b x0).
Variable lsq : nat -> (nat -> nat -> R) -> (nat -> R) -> nat -> R.
Hypothesis b0 : beta <> R0.

Section Cont.
Variable d : nat.
Hypothesis H : forall j, (j < d)%N -> norm (bw R0 j) <> R0.
Lemma lim_orth (V : R -> nat -> 'cV[RF]_n) w u k : (forall j, (j < k)%N -> vlim (fun e => V e j) (V R0 j)) ->
  vlim w u -> vlim (fun e => orth_w (V e) k (w e)) (orth_w (V R0) k u).
Proof.
elim: k => [//|k IH] HV W /=; have {}IH := IH (fun j jk => HV j (ltnW jk)) W.
by apply: vlim_sub => //; apply: vlim_scale; [apply: lim_dot => //; exact: HV|exact: HV].
Qed.
Lemma lim_Z j : vlim (fun e => bV e j) (bV R0 j) -> vlim (fun e => bZ e j) (bZ R0 j).
Proof.
move=> F; rewrite bZE (_ : (fun e => bZ e j) = fun e => M (bV e j)); first exact: vlim_mul.
by apply: functional_extensionality => e; rewrite bZE.
Qed.
Lemma lim_V_upto k : (k <= d)%N -> forall j, (j <= k)%N -> vlim (fun e => bV e j) (bV R0 j).
Proof.
elim: k => [|k IH] kd j.
- by rewrite leqn0 => /eqP->; exact: vlim_const.
- have {}IH := IH (ltnW kd); rewrite leq_eqVlt ltnS => /orP[/eqP->|]; last exact: IH.
  have W : vlim (fun e => bw e k) (bw R0 k).
  { apply: (lim_orth (V := fun e => bV e)) => [i ik|]; first exact: IH.
    by apply: vlim_mul; apply: lim_Z; exact: IH. }
  rewrite bVS (_ : (fun e => bV e k.+1) = fun e => (Rinv (Rplus (norm (bw e k)) e) : RF) *: bw e k); last first.
  { by apply: functional_extensionality => e; rewrite bVS. }
  apply: vlim_scale => //; apply: lim_inv; last by rewrite Rplus_0_r; exact: H.
  by apply: lim_plus; [exact: lim_norm|exact: lim_id].
Qed.
Lemma lim_V j : (j <= d)%N -> vlim (fun e => bV e j) (bV R0 j).
Proof. by move=> jd; apply: lim_V_upto jd _ (leqnn j). Qed.
Lemma lim_w j : (j <= d)%N -> vlim (fun e => bw e j) (bw R0 j).
Proof.
move=> jd; apply: (lim_orth (V := fun e => bV e)) => [i ij|].
- by apply: lim_V; apply: leq_trans jd; rewrite -ltnS.
- by apply: vlim_mul; apply: lim_Z; exact: lim_V.
Qed.
Lemma lim_H i j : (j <= d)%N -> lim (fun e => bH e i j) (bH R0 i j).
Proof.
move=> jd; rewrite bHE.
apply: (@lim_ext (fun e => if (i <= j)%N then orth_h (bV e) (A *m bZ e j) i else if i == j.+1 then Rplus (norm (bw e j)) e else R0)).
{ by move=> e; rewrite bHE. }
case: leqP => ij.
- rewrite /orth_h; apply: lim_dot; first by apply: lim_V; apply: leq_trans jd.
  apply: (lim_orth (V := fun e => bV e)) => [l li|].
  + by apply: lim_V; apply: leq_trans jd; apply: leq_trans ij; apply: ltnW.
  + by apply: vlim_mul; apply: lim_Z; exact: lim_V.
- case: eqP => _; last exact: lim_const.
  by apply: lim_plus; [apply: lim_norm; exact: lim_w|exact: lim_id].
Qed.
Lemma lim_sumsq k (y : nat -> R) : (forall j, (d < j)%N -> y j = R0) ->
  lim (fun e => sumsq_res k (bH e) e1v y) (sumsq_res k (bH R0) e1v y).
Proof.
move=> Y.
apply: (lim_sum (f := fun (i : 'I_k.+1) e => Rsqr (Rminus (e1v i) (\sum_(j < k) (Rmult (bH e i j) (y j) : RF))))
                (l := fun i : 'I_k.+1 => Rsqr (Rminus (e1v i) (\sum_(j < k) (Rmult (bH R0 i j) (y j) : RF))))) => i.
have L : lim (fun e => Rminus (e1v i) (\sum_(j < k) (Rmult (bH e i j) (y j) : RF))) (Rminus (e1v i) (\sum_(j < k) (Rmult (bH R0 i j) (y j) : RF))).
{ apply: lim_plus; first exact: lim_const.
  apply: lim_opp; apply: (lim_sum (f := fun (j : 'I_k) e => Rmult (bH e i j) (y j)) (l := fun j : 'I_k => Rmult (bH R0 i j) (y j))) => j.
  case: (leqP j d) => jd; first by apply: lim_mul; [exact: lim_H|exact: lim_const].
  rewrite Y // Rmult_0_r; apply: (@lim_ext (fun _ => R0)) => [e|]; [by rewrite Rmult_0_r|exact: lim_const]. }
exact: lim_mul.
Qed.
End Cont.

(** enough iterations and a small enough eps reduce the residual below any tolerance *)
Lemma small_eps (t : R) (k : nat) : A \in unitmx -> P \in unitmx -> Rlt R0 t -> (n <= k)%N ->
  exists e1, Rlt R0 e1 /\ forall e, Rlt R0 e -> Rlt e e1 ->
    minimises k (gH (kstate_at A b x0 M e k.+1)) e1v (lsq k (gH (kstate_at A b x0 M e k.+1)) e1v) ->
    Rlt (norm (b - A *m kcand A b x0 M e lsq k)) t.
Proof.
move=> Au Pu t0 nk.
have Mlin (a : R) u v : M ((a : RF) *: u + v) = (a : RF) *: M u + M v by rewrite /M mulmxDr -scalemxAr.
have Minj u : M u = 0 -> u = 0 by rewrite /M => E; rewrite -(mulKmx Pu u) E mulmx0.
have [d [dn [wd H]]] := breakdown M (erefl R0) b0.
have [y [Y E]] := exact_y (erefl R0) b0 Mlin Minj Au wd H.
have Z := exact_sumsq Y E (leq_trans dn nk).
have s0 : Rlt R0 (sqrt (INR k.+1)) by apply: sqrt_lt_R0; apply: lt_0_INR; apply/ltP.
have t1 : Rlt R0 (Rdiv t (sqrt (INR k.+1))) by apply: Rdiv_lt_0_compat.
have := lim_sumsq H k Y; rewrite Z => L.
have L2 : lim (fun e => sqrt (sumsq_res k (bH e) e1v y)) (sqrt R0).
{ by apply: lim_sqrt => // [x|]; [apply: sum_nonneg => i; exact: Rle_0_sqr|exact: Rle_refl]. }
rewrite sqrt_0 in L2; have [e1 [e10 D]] := (proj1 (limP _ _) L2) _ t1.
exists e1; split=> // e ep ee Mi; have := D e (Rlt_le _ _ ep) ee; rewrite Rminus_0_r Rabs_pos_eq; last exact: sqrt_pos.
move=> Q; apply: Rle_lt_trans (cand_bound y ep b0 Mi) _.
have := Rmult_lt_compat_l _ _ _ s0 Q.
by have -> : Rmult (sqrt (INR k.+1)) (Rdiv t (sqrt (INR k.+1))) = t by field; lra.
Qed.
End Small.
(** finitely many thresholds *)
Lemma fin_delta (Q : nat -> R -> Prop) m :
  (forall k, (k < m)%N -> exists d, Rlt R0 d /\ forall e, Rlt R0 e -> Rlt e d -> Q k e) ->
  exists d, Rlt R0 d /\ forall e, Rlt R0 e -> Rlt e d -> forall k, (k < m)%N -> Q k e.
Proof.
elim: m => [|m IH] H; first by exists R1; split=> //; lra.
have [d [d0 D]] := IH (fun k km => H k (ltnW km)); have [d' [d0' D']] := H m (ltnSn m).
exists (Rmin d d'); split; first by apply: Rmin_glb_lt.
move=> e e0 ed k; rewrite ltnS leq_eqVlt => /orP[/eqP->|km].
- by apply: D' => //; apply: Rlt_le_trans ed (Rmin_r _ _).
- by apply: D => //; apply: Rlt_le_trans ed (Rmin_l _ _).
Qed.
