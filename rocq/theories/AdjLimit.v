(** Limits of matrices of reals, and the limit of the adjoint pass.  (No code is modelled here.) *)
From Coq Require Import Reals List String Lra Lia.
From mathcomp Require Import all_ssreflect all_algebra all_fingroup.
From Verif Require Import ChunkModel ChunkSolve ChunkInst NewtonModel Ode OdeAdjoint OdeDiff RField Implicit.
Import GRing.Theory.
Set Implicit Arguments. Unset Strict Implicit. Unset Printing Implicit Defensive.
Local Open Scope ring_scope.
Delimit Scope R_scope with Re.

(** [A]: approximations; [sz a d]: [a] is within [d] of what it approximates. *)
Section Lim.
Variables (A : Type) (sz : A -> R -> Prop).
Hypothesis szm : forall a d d', (d <= d')%Re -> sz a d -> sz a d'.
Definition ev (Q : A -> Prop) : Prop := exists d, (0 < d)%Re /\ forall a, sz a d -> Q a.
Definition tends (x : A -> R) (l : R) : Prop := forall e, (0 < e)%Re -> ev (fun a => Rabs (x a - l) <= e)%Re.
Definition mtends (m n : nat) (X : A -> 'M[RF]_(m, n)) (L : 'M[RF]_(m, n)) : Prop := forall i j, tends (fun a => X a i j) (L i j).

Lemma ev_imp (Q1 Q2 : A -> Prop) : (forall a, Q1 a -> Q2 a) -> ev Q1 -> ev Q2.
Proof. move=> H [d [d0 D]]; exists d; split=> // a ha; exact: H (D a ha). Qed.
Lemma ev_true (Q : A -> Prop) : (forall a, Q a) -> ev Q.
Proof. move=> H; exists 1%Re; split=> //; lra. Qed.
Lemma ev_and Q1 Q2 : ev Q1 -> ev Q2 -> ev (fun a => Q1 a /\ Q2 a).
Proof.
move=> [d1 [p1 D1]] [d2 [p2 D2]]; exists (Rmin d1 d2); split; first exact: Rmin_glb_lt.
move=> a ha; split; [apply: D1|apply: D2]; apply: szm ha; [exact: Rmin_l|exact: Rmin_r].
Qed.
Lemma ev_all n (Q : 'I_n -> A -> Prop) : (forall i, ev (Q i)) -> ev (fun a => forall i, Q i a).
Proof.
elim: n Q => [|n IH] Q H; first by apply: ev_true => a [].
have [d [d0 D]] := ev_and (H ord0) (IH _ (fun i => H (lift ord0 i))).
exists d; split=> // a ha i; have [D0 D1] := D a ha; case: (unliftP ord0 i) => [j|] ->; [exact: D1|exact: D0].
Qed.
Lemma ev_nat n (Q : nat -> A -> Prop) : (forall i, (i < n)%N -> ev (Q i)) -> ev (fun a => forall i, (i < n)%N -> Q i a).
Proof.
move=> H; apply: (ev_imp _ (ev_all (Q := fun (i : 'I_n) a => Q i a) (fun i => H i (ltn_ord i)))) => a K i hi; exact: (K (Ordinal hi)).
Qed.

Lemma tends_ext (x y : A -> R) l : (forall a, x a = y a) -> tends x l -> tends y l.
Proof. by move=> E T e e0; apply: ev_imp (T e e0) => a; rewrite E. Qed.
Lemma tends_ev (x y : A -> R) l : ev (fun a => x a = y a) -> tends x l -> tends y l.
Proof. by move=> E T e e0; apply: ev_imp (ev_and E (T e e0)) => a [->]. Qed.
Lemma tends_cst l : tends (fun _ => l) l.
Proof. move=> e e0; apply: ev_true => a; rewrite (_ : (l - l = 0)%Re) ?Rabs_R0; [exact: Rlt_le|ring]. Qed.
Lemma tends_add (x y : A -> R) l k : tends x l -> tends y k -> tends (fun a => x a + y a)%Re (l + k)%Re.
Proof.
move=> T1 T2 e e0; have h : (0 < e / 2)%Re by lra.
apply: ev_imp (ev_and (T1 _ h) (T2 _ h)) => a [a1 a2].
have -> : (x a + y a - (l + k) = (x a - l) + (y a - k))%Re by ring.
apply: Rle_trans (Rabs_triang _ _) _; lra.
Qed.
Lemma tends_opp (x : A -> R) l : tends x l -> tends (fun a => - x a)%Re (- l)%Re.
Proof.
move=> T e e0; apply: ev_imp (T e e0) => a; have -> : (- x a - - l = - (x a - l))%Re by ring. by rewrite Rabs_Ropp.
Qed.
Lemma tends_bounded (x : A -> R) l : tends x l -> ev (fun a => Rabs (x a) <= Rabs l + 1)%Re.
Proof.
move=> T; apply: ev_imp (T 1%Re Rlt_0_1) => a h; have -> : (x a = l + (x a - l))%Re by ring.
apply: Rle_trans (Rabs_triang _ _) _; lra.
Qed.
Lemma tends_mul (x y : A -> R) l k : tends x l -> tends y k -> tends (fun a => x a * y a)%Re (l * k)%Re.
Proof.
move=> T1 T2 e e0; pose M := (Rabs l + Rabs k + 1)%Re.
have pl := Rabs_pos l; have pk := Rabs_pos k; have M0 : (0 < M)%Re by rewrite /M; lra.
have h : (0 < e / 2 / M)%Re by apply: Rdiv_lt_0_compat => //; lra.
apply: ev_imp (ev_and (tends_bounded T2) (ev_and (T1 _ h) (T2 _ h))) => a [b2 [a1 a2]].
have -> : (x a * y a - l * k = (x a - l) * y a + l * (y a - k))%Re by ring.
apply: Rle_trans (Rabs_triang _ _) _; rewrite !Rabs_mult.
have q1 : (Rabs (x a - l) * Rabs (y a) <= e / 2 / M * M)%Re by apply: Rmult_le_compat => //; try exact: Rabs_pos; rewrite /M; lra.
have q2 : (Rabs l * Rabs (y a - k) <= M * (e / 2 / M))%Re by apply: Rmult_le_compat => //; try exact: Rabs_pos; rewrite /M; lra.
have q3 : (e / 2 / M * M = e / 2)%Re by field; lra.
lra.
Qed.
Lemma tends_ne0 (x : A -> R) l : tends x l -> l <> R0 -> ev (fun a => (Rabs l / 2 <= Rabs (x a))%Re).
Proof.
move=> T l0; have h : (0 < Rabs l / 2)%Re by have := Rabs_pos_lt _ l0; lra.
apply: ev_imp (T _ h) => a q; have := Rabs_triang (x a) (l - x a).
have -> : (x a + (l - x a) = l)%Re by ring. rewrite (Rabs_minus_sym l); lra.
Qed.
Lemma tends_inv (x : A -> R) l : tends x l -> l <> R0 -> tends (fun a => / x a)%Re (/ l)%Re.
Proof.
move=> T l0 e e0; have pl := Rabs_pos_lt _ l0.
have h : (0 < e * (Rabs l * (Rabs l / 2)))%Re by apply: Rmult_lt_0_compat => //; apply: Rmult_lt_0_compat => //; lra.
apply: ev_imp (ev_and (tends_ne0 T l0) (T _ h)) => a [q1 q2].
have x0 : x a <> R0 by move=> Z; rewrite Z Rabs_R0 in q1; lra.
have px := Rabs_pos_lt _ x0.
have -> : (/ x a - / l = - (x a - l) * / (l * x a))%Re by field.
rewrite Rabs_mult Rabs_Ropp Rabs_inv.
rewrite Rabs_mult; apply: (Rmult_le_reg_r (Rabs l * Rabs (x a))); first exact: Rmult_lt_0_compat.
rewrite Rmult_assoc Rinv_l; last by apply: Rgt_not_eq; exact: Rmult_lt_0_compat.
rewrite Rmult_1_r; apply: Rle_trans q2 _; apply: Rmult_le_compat_l; first exact: Rlt_le.
apply: Rmult_le_compat_l; [exact: Rlt_le|exact: q1].
Qed.
Lemma tends_sum (I : Type) (r : seq I) (P : pred I) (x : I -> A -> R) (l : I -> R) : (forall i, tends (x i) (l i)) ->
  tends (fun a => \sum_(i <- r | P i) (x i a : RF)) (\sum_(i <- r | P i) (l i : RF)).
Proof.
move=> T; elim: r => [|i r IH]; first by apply: (tends_ext (x := fun _ => R0)) => [a|]; rewrite big_nil //; exact: tends_cst.
rewrite big_cons; apply: (tends_ext (x := fun a => if P i then (x i a : RF) + \sum_(i <- r | P i) (x i a : RF) else \sum_(i <- r | P i) (x i a : RF))) => [a|].
- by rewrite big_cons.
- by case: (P i) => //; apply: tends_add.
Qed.
Lemma tends_prod (I : Type) (r : seq I) (P : pred I) (x : I -> A -> R) (l : I -> R) : (forall i, tends (x i) (l i)) ->
  tends (fun a => \prod_(i <- r | P i) (x i a : RF)) (\prod_(i <- r | P i) (l i : RF)).
Proof.
move=> T; elim: r => [|i r IH]; first by apply: (tends_ext (x := fun _ => R1)) => [a|]; rewrite big_nil //; exact: tends_cst.
rewrite big_cons; apply: (tends_ext (x := fun a => if P i then (x i a : RF) * \prod_(i <- r | P i) (x i a : RF) else \prod_(i <- r | P i) (x i a : RF))) => [a|].
- by rewrite big_cons.
- by case: (P i) => //; apply: tends_mul.
Qed.

(** Matrices. *)
Lemma mt_ext m n (X Y : A -> 'M[RF]_(m, n)) L : (forall a, X a = Y a) -> mtends X L -> mtends Y L.
Proof. move=> E T i j; apply: tends_ext (T i j) => a; by rewrite E. Qed.
Lemma mt_cst m n (L : 'M[RF]_(m, n)) : mtends (fun _ => L) L.
Proof. move=> i j; exact: tends_cst. Qed.
Lemma mt_add m n (X Y : A -> 'M[RF]_(m, n)) L K : mtends X L -> mtends Y K -> mtends (fun a => X a + Y a) (L + K).
Proof. move=> T1 T2 i j; rewrite mxE; apply: tends_ext (tends_add (T1 i j) (T2 i j)) => a; by rewrite mxE. Qed.
Lemma mt_opp m n (X : A -> 'M[RF]_(m, n)) L : mtends X L -> mtends (fun a => - X a) (- L).
Proof. move=> T1 i j; rewrite mxE; apply: tends_ext (tends_opp (T1 i j)) => a; by rewrite mxE. Qed.
Lemma mt_sub m n (X Y : A -> 'M[RF]_(m, n)) L K : mtends X L -> mtends Y K -> mtends (fun a => X a - Y a) (L - K).
Proof. move=> T1 T2; exact: mt_add T1 (mt_opp T2). Qed.
Lemma mt_scale m n (c : A -> R) k (X : A -> 'M[RF]_(m, n)) L : tends c k -> mtends X L -> mtends (fun a => (c a : RF) *: X a) ((k : RF) *: L).
Proof. move=> T1 T2 i j; rewrite mxE; apply: tends_ext (tends_mul T1 (T2 i j)) => a; by rewrite mxE. Qed.
Lemma mt_tr m n (X : A -> 'M[RF]_(m, n)) L : mtends X L -> mtends (fun a => (X a)^T) L^T.
Proof. move=> T i j; rewrite mxE; apply: tends_ext (T j i) => a; by rewrite mxE. Qed.
Lemma mt_mul m n p (X : A -> 'M[RF]_(m, n)) (Y : A -> 'M[RF]_(n, p)) L K : mtends X L -> mtends Y K -> mtends (fun a => X a *m Y a) (L *m K).
Proof.
move=> T1 T2 i j; rewrite mxE; apply: (tends_ext (x := fun a => \sum_k ((X a i k * Y a k j : RF)))) => [a|]; first by rewrite mxE.
apply: (@tends_sum _ _ _ (fun k a => (X a i k * Y a k j)%Re)) => k; exact: tends_mul.
Qed.
Lemma mt_sum m n (I : Type) (r : seq I) (P : pred I) (X : I -> A -> 'M[RF]_(m, n)) L : (forall i, mtends (X i) (L i)) ->
  mtends (fun a => \sum_(i <- r | P i) X i a) (\sum_(i <- r | P i) L i).
Proof.
move=> T i j; rewrite summxE; apply: (tends_ext (x := fun a => \sum_(k <- r | P k) (X k a i j : RF))) => [a|]; first by rewrite summxE.
apply: (@tends_sum _ _ _ (fun k a => X k a i j)) => k; exact: T.
Qed.
Lemma tends_det n (X : A -> 'M[RF]_n) L : mtends X L -> tends (fun a => \det (X a)) (\det L).
Proof.
move=> T; apply: (@tends_sum _ _ _ (fun (s : 'S_n) a => ((-1) ^+ s * \prod_i X a i (s i) : RF)) (fun s : 'S_n => ((-1) ^+ s * \prod_i L i (s i) : RF))) => s.
apply: tends_mul; first exact: tends_cst. apply: (@tends_prod _ _ _ (fun i a => X a i (s i)) (fun i => L i (s i))) => i; exact: T.
Qed.
Lemma mt_adj n (X : A -> 'M[RF]_n) L : mtends X L -> mtends (fun a => \adj (X a)) (\adj L).
Proof.
move=> T i j; rewrite mxE; apply: (tends_ext (x := fun a => cofactor (X a) j i)) => [a|]; first by rewrite mxE.
apply: tends_mul; first exact: tends_cst. apply: tends_det => k l; rewrite !mxE; apply: tends_ext (T _ _) => a; by rewrite !mxE.
Qed.
Lemma mt_unit n (X : A -> 'M[RF]_n) L : mtends X L -> L \in unitmx -> ev (fun a => X a \in unitmx).
Proof.
move=> T; rewrite unitmxE unitfE => /eqP U; apply: ev_imp (tends_ne0 (tends_det T) U) => a q.
rewrite unitmxE unitfE; apply/eqP => Z; rewrite Z Rabs_R0 in q; have P := Rabs_pos_lt _ U.
have lr (x : R) : (0 < x)%Re -> (x / 2 <= 0)%Re -> False by lra.
exact: lr P q.
Qed.
Lemma mt_inv n (X : A -> 'M[RF]_n) L : mtends X L -> L \in unitmx -> mtends (fun a => invmx (X a)) (invmx L).
Proof.
move=> T U i j; rewrite /invmx U mxE; apply: (tends_ev (x := fun a => ((\det (X a))^-1 * (\adj (X a)) i j)%R)).
- apply: ev_imp (mt_unit T U) => a u; by rewrite u !mxE.
- refine (tends_mul (x := fun a => ((\det (X a))^-1 : RF)) _ (mt_adj T i j)). have D : \det L <> R0 by move: U; rewrite unitmxE unitfE => /eqP.
  have -> : (\det L)^-1 = (/ \det L)%Re by move: U; rewrite unitmxE unitfE /GRing.inv /= /Rinvx => ->.
  apply: (tends_ev _ (tends_inv (tends_det T) D)); apply: ev_imp (mt_unit T U) => a; rewrite unitmxE unitfE => u.
  by rewrite /GRing.inv /= /Rinvx u.
Qed.

(** The adjoint pass: the derivatives [J a], [P a] in use at the steps tend to [J0], [P0], the output gradients [gf a] to [gf0]. *)
Section Adj.
Variables (nb m np : nat) (s : scheme) (nt : nat) (tf : nat -> TB RF nb).
Variables (Jf : 'I_nb -> RF -> 'cV[RF]_m -> 'cV[RF]_np -> 'M[RF]_m) (Pf : 'I_nb -> RF -> 'cV[RF]_m -> 'cV[RF]_np -> 'M[RF]_(m, np)).
Variables (p : A -> 'cV[RF]_np) (p0 : 'cV[RF]_np) (rf gf : A -> nat -> VB RF nb m) (rf0 gf0 : nat -> VB RF nb m).
Hypothesis HJ : forall k b, (k < nt)%N -> mtends (fun a => Jf b (tf k b) (rf a k b) (p a)) (Jf b (tf k b) (rf0 k b) p0).
Hypothesis HP : forall k b, (k < nt)%N -> mtends (fun a => Pf b (tf k b) (rf a k b) (p a)) (Pf b (tf k b) (rf0 k b) p0).
Hypothesis HG : forall k b, (k < nt)%N -> mtends (fun a => gf a k b) (gf0 k b).
Hypothesis reg : adj_nonsing (at_p Jf p0) s nt tf rf0.
Notation adj_a a := (adj (at_p Jf (p a)) s tf (rf a) (gf a)).
Notation adj_0 := (adj (at_p Jf p0) s tf rf0 gf0).

Lemma step_limit k b : (k.+1 < nt)%N -> mtends (fun a => 1%:M - hstep tf k b *: (Jf b (tf k b) (rf a k b) (p a))^T) (1%:M - hstep tf k b *: (Jf b (tf k b) (rf0 k b) p0)^T).
Proof. move=> kn; apply: mt_sub; first exact: mt_cst. apply: (mt_scale (c := fun _ => hstep tf k b)); first exact: tends_cst. apply: mt_tr; exact: HJ (ltnW kn). Qed.
Lemma adj_limit k b : (k < nt)%N -> mtends (fun a => adj_a a k b) (adj_0 k b).
Proof.
elim: k b => [|k IH] b kn; first exact: HG.
have E a' r g : adj (at_p Jf a') s tf r g k.+1 b = g k.+1 b + match s with
       | BackwardEuler => invmx (1%:M - hstep tf k b *: (at_p Jf a' b (tf k b) (r k b))^T) *m adj (at_p Jf a') s tf r g k b
       | ForwardEuler => (1%:M + hstep tf k b *: (at_p Jf a' b (tf k.+1 b) (r k.+1 b))^T) *m adj (at_p Jf a') s tf r g k b
       end by rewrite {1}/adj -/adj ffunE.
rewrite E; apply: (mt_ext (X := fun a => gf a k.+1 b + match s with
       | BackwardEuler => invmx (1%:M - hstep tf k b *: (at_p Jf (p a) b (tf k b) (rf a k b))^T) *m adj_a a k b
       | ForwardEuler => (1%:M + hstep tf k b *: (at_p Jf (p a) b (tf k.+1 b) (rf a k.+1 b))^T) *m adj_a a k b
       end)) => [a|]; first by rewrite E.
apply: mt_add; first exact: HG.
case: s reg IH {E} => [reg'|_] IH; apply: mt_mul; try exact: IH (ltnW kn).
- apply: mt_inv; first exact: step_limit. by rewrite -unitmx_tr linearB linearZ /= trmx1 trmxK; exact: reg'.
- apply: mt_add; first exact: mt_cst. apply: (mt_scale (c := fun _ => hstep tf k b)); first exact: tends_cst. apply: mt_tr; exact: HJ.
Qed.
Lemma contrib_limit k : (k.+1 < nt)%N -> mtends (fun a => contrib (at_p Jf (p a)) (at_p Pf (p a)) s tf (rf a) (gf a) k) (contrib (at_p Jf p0) (at_p Pf p0) s tf rf0 gf0 k).
Proof.
move=> kn; have Ac := adj_limit; rewrite /contrib; case: s Ac => Ac; apply: mt_sum => b; apply: mt_mul.
- apply: mt_tr; exact: HP (ltnW kn).
- apply: (mt_scale (c := fun _ => hstep tf k b)); first exact: tends_cst. apply: mt_sub; [exact: Ac|exact: HG].
- apply: mt_tr; exact: HP.
- apply: (mt_scale (c := fun _ => hstep tf k b)); first exact: tends_cst. exact: Ac (ltnW kn).
Qed.
Lemma reg_limit : ev (fun a => adj_nonsing (at_p Jf (p a)) s nt tf (rf a)).
Proof.
case: s reg => reg'; last exact: ev_true.
have H k b : (k.+1 < nt)%N -> ev (fun a => (1%:M - hstep tf k b *: Jf b (tf k b) (rf a k b) (p a)) \in unitmx).
{ move=> kn; apply: ev_imp (mt_unit (step_limit b kn) _); last by rewrite -unitmx_tr linearB linearZ /= trmx1 trmxK; exact: reg'.
  by move=> a; rewrite -unitmx_tr linearB linearZ /= trmx1 trmxK. }
have H' k : (k < nt)%N -> ev (fun a => forall b, (k.+1 < nt)%N -> (1%:M - hstep tf k b *: Jf b (tf k b) (rf a k b) (p a)) \in unitmx).
{ move=> _; apply: ev_all => b; case: (ltnP k.+1 nt) => kn; last by apply: ev_true.
  by apply: ev_imp (H k b kn). }
apply: ev_imp (ev_nat H') => a K k b kn; exact: K (ltnW kn) b kn.
Qed.
End Adj.
End Lim.

(** The backward pass near a history. *)
Section Rewind.
Variables (A : Type) (sz : A -> R -> Prop) (szm : forall a d d', (d <= d')%Re -> sz a d -> sz a d') (nb m np : nat) (s : scheme) (nt : nat) (t : nat -> TB RF nb).
Variables (Jf : 'I_nb -> RF -> 'cV[RF]_m -> 'cV[RF]_np -> 'M[RF]_m) (Pf : 'I_nb -> RF -> 'cV[RF]_m -> 'cV[RF]_np -> 'M[RF]_(m, np)).
Variables (p : A -> 'cV[RF]_np) (p0 : 'cV[RF]_np) (y og : A -> nat -> VB RF nb m) (y0 og0 : nat -> VB RF nb m).
Lemma rewind_limit : (0 < nt)%N ->
  (forall k b, (k < nt)%N -> mtends sz (fun a => Jf b (t k b) (y a k b) (p a)) (Jf b (t k b) (y0 k b) p0)) ->
  (forall k b, (k < nt)%N -> mtends sz (fun a => Pf b (t k b) (y a k b) (p a)) (Pf b (t k b) (y0 k b) p0)) ->
  (forall k b, (k < nt)%N -> mtends sz (fun a => og a k b) (og0 k b)) ->
  steps_regular Jf s nt t p0 y0 ->
  forall mth0 n0 grad0 lam0, (0 < n0)%N -> rewind (at_p Jf p0) (at_p Pf p0) mth0 s n0 nt t y0 og0 = Some (grad0, lam0) ->
  forall e, (0 < e)%Re -> exists d, (0 < d)%Re /\ forall a mth n, sz a d -> (0 < n)%N ->
    exists grad lam, rewind (at_p Jf (p a)) (at_p Pf (p a)) mth s n nt t (y a) (og a) = Some (grad, lam) /\      (forall i, Rabs (grad i ord0 - grad0 i ord0) <= e)%Re /\ (forall b i, Rabs (lam b i ord0 - lam0 b i ord0) <= e)%Re.
Proof.
move=> nt0 HJ HP HG /regular_nonsing reg mth0 n0 grad0 lam0 np0; rewrite (rewind_spec _ _ _ np0 nt0 reg) => -[<- <-] e e0.
have fl k : (k < nt)%N -> (nt - 1 - k < nt)%N by move=> kn; rewrite -subnDA ltn_subrL nt0.
have J' k b : (k < nt)%N -> mtends sz (fun a => Jf b (flipn nt t k b) (flipn nt (y a) k b) (p a)) (Jf b (flipn nt t k b) (flipn nt y0 k b) p0) by move=> kn; exact: HJ (fl k kn).
have P' k b : (k < nt)%N -> mtends sz (fun a => Pf b (flipn nt t k b) (flipn nt (y a) k b) (p a)) (Pf b (flipn nt t k b) (flipn nt y0 k b) p0) by move=> kn; exact: HP (fl k kn).
have G' k b : (k < nt)%N -> mtends sz (fun a => flipn nt (og a) k b) (flipn nt og0 k b) by move=> kn; exact: HG (fl k kn).
have R' := reg_limit szm J' reg.
have nt1 : (nt.-1 < nt)%N by rewrite prednK.
have L1 b := adj_limit szm J' G' reg b nt1.
have L2 : mtends sz (fun a => \sum_(0 <= j < nt.-1) contrib (at_p Jf (p a)) (at_p Pf (p a)) s (flipn nt t) (flipn nt (y a)) (flipn nt (og a)) j)
   (\sum_(0 <= j < nt.-1) contrib (at_p Jf p0) (at_p Pf p0) s (flipn nt t) (flipn nt y0) (flipn nt og0) j).
{ rewrite big_mkord; apply: (mt_ext (X := fun a => \sum_(j < nt.-1) contrib (at_p Jf (p a)) (at_p Pf (p a)) s (flipn nt t) (flipn nt (y a)) (flipn nt (og a)) j)) => [a|]; first by rewrite big_mkord.
  apply: (mt_sum szm) => j; apply: (contrib_limit szm J' P' G' reg); by rewrite -ltn_predRL. }
have [d [d0 D]] := ev_and szm R' (ev_and szm (ev_all szm (fun i => L2 i ord0 e e0)) (ev_all szm (fun b => ev_all szm (fun i => L1 b i ord0 e e0)))).
exists d; split=> // a mth n ad n1; have [Ra [A1 A2]] := D a ad.
by rewrite (rewind_spec _ _ _ n1 nt0 Ra); eexists; eexists; split; first reflexivity; split.
Qed.
End Rewind.
