(** Derivatives of the integrators over the reals: the assembled operator is the
    Jacobian of the block residual (C22); the adjoint pass returns derivatives
    of the outputs (C25, C26). *)
From Coq Require Import Reals List String Lra.
From mathcomp Require Import all_ssreflect all_algebra.
From Verif Require Import ChunkModel ChunkSolve ChunkInst NewtonModel Ode OdeForward OdeAdjoint OdeReal
  ZmodTac RField.
Import GRing.Theory.
Set Implicit Arguments. Unset Strict Implicit. Unset Printing Implicit Defensive.
Local Open Scope ring_scope.

(** ** Derivative of a vector-valued curve, componentwise *)
Definition cdiff (n : nat) (v : R -> 'cV[RF]_n) (th : R) (v' : 'cV[RF]_n) : Prop :=
  forall i, derivable_pt_lim (fun u => v u i 0) th (v' i 0).

(** [J], [P] are the partial derivatives of [f] at (y0, p0): along every curve
    through that point the chain rule holds with them. *)
Definition partials_at (m np : nat) (f : 'cV[RF]_m -> 'cV[RF]_np -> 'cV[RF]_m)
    (J : 'M[RF]_m) (P : 'M[RF]_(m, np)) (y0 : 'cV[RF]_m) (p0 : 'cV[RF]_np) : Prop :=
  forall y p th y' p', y th = y0 -> p th = p0 -> cdiff y th y' -> cdiff p th p' ->
    cdiff (fun u => f (y u) (p u)) th (J *m y' + P *m p').

Definition jacobian_at (m : nat) (f : 'cV[RF]_m -> 'cV[RF]_m) (J : 'M[RF]_m) (y0 : 'cV[RF]_m) : Prop :=
  forall y th y', y th = y0 -> cdiff y th y' -> cdiff (fun u => f (y u)) th (J *m y').

Lemma dpl_ext f g x l : (forall u, f u = g u) -> derivable_pt_lim f x l -> derivable_pt_lim g x l.
Proof. move=> e H eps he; have [d Hd] := H eps he; exists d => h h0 hd; rewrite -!e; exact: Hd. Qed.

Lemma dpl_cst (c : R) x : derivable_pt_lim (fun _ => c) x 0.
Proof. exact: derivable_pt_lim_const. Qed.
Lemma dpl_add f g x a b : derivable_pt_lim f x a -> derivable_pt_lim g x b ->
  derivable_pt_lim (fun u => (f u + g u : RF)) x (a + b : RF).
Proof. exact: derivable_pt_lim_plus. Qed.
Lemma dpl_opp f x a : derivable_pt_lim f x a -> derivable_pt_lim (fun u => (- f u : RF)) x (- a : RF).
Proof. exact: derivable_pt_lim_opp. Qed.
Lemma dpl_scal c f x a : derivable_pt_lim f x a -> derivable_pt_lim (fun u => (c * f u : RF)) x (c * a : RF).
Proof. exact: derivable_pt_lim_scal. Qed.
Lemma dpl_sum (I : Type) (r : seq I) (f : I -> R -> R) (a : I -> R) x :
  (forall i, derivable_pt_lim (f i) x (a i)) ->
  derivable_pt_lim (fun u => \sum_(i <- r) (f i u : RF)) x (\sum_(i <- r) (a i : RF)).
Proof.
move=> H; elim: r => [|i r IH].
- rewrite big_nil; apply: (@dpl_ext (fun _ => 0)) => [u|]; first by rewrite big_nil. exact: dpl_cst.
- rewrite big_cons; apply: (@dpl_ext (fun u => (f i u + \sum_(j <- r) (f j u : RF) : RF))) => [u|].
  + by rewrite big_cons.
  + exact: dpl_add.
Qed.

Section CD.
Variable n : nat.
Implicit Types u v : R -> 'cV[RF]_n.
Lemma cdiff_ext u v th du : (forall x, u x = v x) -> cdiff u th du -> cdiff v th du.
Proof. move=> e H i; apply: dpl_ext (H i) => x; by rewrite e. Qed.
Lemma cdiff_cst (c : 'cV[RF]_n) th : cdiff (fun _ => c) th 0.
Proof. move=> i; rewrite mxE; exact: dpl_cst. Qed.
Lemma cdiff_add u v th du dv : cdiff u th du -> cdiff v th dv -> cdiff (fun x => u x + v x) th (du + dv).
Proof.
move=> H1 H2 i; rewrite mxE; apply: (dpl_ext _ (dpl_add (H1 i) (H2 i))) => x; by rewrite mxE.
Qed.
Lemma cdiff_opp u th du : cdiff u th du -> cdiff (fun x => - u x) th (- du).
Proof. move=> H i; rewrite mxE; apply: (dpl_ext _ (dpl_opp (H i))) => x; by rewrite mxE. Qed.
Lemma cdiff_scal c u th du : cdiff u th du -> cdiff (fun x => c *: u x) th (c *: du).
Proof. move=> H i; rewrite mxE; apply: (dpl_ext _ (dpl_scal c (H i))) => x; by rewrite mxE. Qed.
Lemma cdiff_unique u th du d2 : cdiff u th du -> cdiff u th d2 -> du = d2.
Proof. move=> H1 H2; apply/colP => i; exact: (uniqueness_limite _ _ _ _ (H1 i) (H2 i)). Qed.
End CD.

Section Jac.
Variables (nb m : nat).
Notation vb := (VB RF nb m).
Notation mb := (MB RF nb m).
Variables (f : 'I_nb -> RF -> 'cV[RF]_m -> 'cV[RF]_m) (Jf : 'I_nb -> RF -> 'cV[RF]_m -> 'M[RF]_m).

(** C22 *)
Lemma block_jacobian s tstart ts ystart n (x : R -> tens2 RF) (xd : tens2 RF) th :
  (forall b idx, (b < nb)%N -> (idx < n * m)%N -> derivable_pt_lim (fun u => x u b idx) th (xd b idx)) ->
  (forall k b, (k <= n)%N -> let t := block_times tstart ts k b in let y := ys (x th) ystart k b in
     jacobian_at (f b t) (Jf b t y) y) ->
  let RJ u := block_RJ f Jf s tstart ts ystart (x u) in
  forall b idx, (b < nb)%N -> (idx < n * m)%N ->
  derivable_pt_lim (fun u => fst (RJ u) b idx) th
    (op_forward nb m (unblkM (RJ th).2.1) (unblkM (RJ th).2.2) xd b idx).
Proof.
move=> Hx HJ RJ b idx bn il.
have m0 : (0 < m)%N by move: il; case: (m) => //; rewrite muln0.
have kl : (idx %/ m < n)%N by rewrite ltn_divLR.
have -> : idx = (idx %/ m * m + Ordinal (ltn_pmod idx m0))%N by rewrite /= -divn_eq.
move: (idx %/ m)%N kl (Ordinal (ltn_pmod idx m0)) => {il idx} k kn c.
pose B := Ordinal bn.
have dyD j : (j <= n)%N -> cdiff (fun u => dys nb m (x u) j B) th (dys nb m xd j B).
{ case: j => [|j] jn i /=.
  - by rewrite !ffunE mxE; exact: dpl_cst.
  - rewrite !ffunE mxE; apply: (@dpl_ext (fun u => x u b (j * m + i)%N)) => [u|]; first by rewrite !ffunE mxE.
    apply: Hx => //; apply: (@leq_trans (j.+1 * m)); last by rewrite leq_mul2r jn orbT.
    by rewrite mulSn addnC ltn_add2r. }
have yD j : (j <= n)%N -> cdiff (fun u => ys (x u) ystart j B) th (dys nb m xd j B).
{ move=> jn; rewrite -[dys nb m xd j B]addr0.
  apply: (cdiff_ext _ (cdiff_add (dyD j jn) (cdiff_cst (ystart B) th))) => u; by rewrite /ys ffunE. }
set times := block_times tstart ts.
have fD j : (j <= n)%N -> cdiff (fun u => f B (times j B) (ys (x u) ystart j B)) th
   (Jf B (times j B) (ys (x th) ystart j B) *m dys nb m xd j B).
{ move=> jn; apply: (HJ j B jn) => //; exact: yD. }
rewrite /op_forward (flatE _ B).
have resE u : fst (RJ u) b (k * m + c)%N =
  (dys nb m (x u) k.+1 B - dys nb m (x u) k B - (times k.+1 B - times k B) *:
     match s with BackwardEuler => f B (times k.+1 B) (ys (x u) ystart k.+1 B)
     | ForwardEuler => f B (times k B) (ys (x u) ystart k B) end) c 0.
{ rewrite /RJ /block_RJ /= (flatE _ B) ffunE [tdiff _ _ _]ffunE; by case: s {RJ}; rewrite [func_rate _ _ _ _ _]ffunE. }
apply: (@dpl_ext _ _ _ _ (fun u => esym (resE u))).
set D := (X in derivable_pt_lim _ _ (fun_of_matrix X c 0)).
have -> : D = dys nb m xd k.+1 B - dys nb m xd k B - (times k.+1 B - times k B) *:
     match s with BackwardEuler => Jf B (times k.+1 B) (ys (x th) ystart k.+1 B) *m dys nb m xd k.+1 B
     | ForwardEuler => Jf B (times k B) (ys (x th) ystart k B) *m dys nb m xd k B end.
{ rewrite /D /RJ /block_RJ.
  have fbE (A1 B1 : nat -> mb) v i : forward_blocks (fops RF nb m) A1 B1 v i.+1 B =
     A1 i.+1 B *m v i.+1 B + B1 i B *m v i B by rewrite /= !ffunE.
  case: k kn {resE D} => [|k] kn; [rewrite /forward_blocks /=|rewrite fbE /=].
  - rewrite [in LHS]ffunE blkM_unblkM [in LHS]ffunE [tdiff _ _ _]ffunE [zeroV _ _ _ _]ffunE; case: s {RJ} => /=.
    + by rewrite mulmxBl mul1mx subr0 [func_jac _ _ _ _ _]ffunE -scalemxAl.
    + by rewrite mul1mx subr0 mulmx0 scaler0 subr0.
  - rewrite !blkM_unblkM ![form_A _ _ _ _ _]ffunE ![form_B _ _ _ _ _]ffunE ![tdiff _ _ _]ffunE.
    case: s {RJ} => /=.
    + rewrite [func_jac _ _ _ _ _]ffunE mulmxBl mul1mx -scalemxAl mulNmx mul1mx.
      by rewrite -/(block_times tstart ts k.+2); zmod.
    + rewrite [func_jac _ _ _ _ _]ffunE mul1mx mulmxBl mulNmx mul1mx -scalemxAl; zmod. }
apply: cdiff_add; first by apply: cdiff_add; [|apply: cdiff_opp]; apply: dyD => //; exact: ltnW.
apply: cdiff_opp; apply: cdiff_scal; case: s {RJ resE D} => //; apply: fD => //; exact: ltnW.
Qed.
End Jac.

Lemma dpl_ext_loc f g x l : (exists d, Rlt 0 d /\ forall u, Rlt (Rabs (u - x)) d -> f u = g u) ->
  derivable_pt_lim f x l -> derivable_pt_lim g x l.
Proof.
move=> [d [d0 e]] H eps he; have [d' Hd] := H eps he.
have m0 : Rlt 0 (Rmin d d') by apply: Rmin_glb_lt => //; exact: (cond_pos d').
exists (mkposreal _ m0) => h h0 /= hd.
have hd1 := Rlt_le_trans _ _ _ hd (Rmin_l _ _); have hd2 := Rlt_le_trans _ _ _ hd (Rmin_r _ _).
rewrite -!e; first exact: Hd.
- rewrite (_ : Rminus x x = R0) ?Rabs_R0 //; exact: Rminus_diag_eq.
- by rewrite (_ : Rminus (Rplus x h) x = h) //; rewrite /Rminus Rplus_comm -Rplus_assoc Rplus_opp_l Rplus_0_l.
Qed.

Section Adjoint.
Variables (nb m np : nat).
Notation vb := (VB RF nb m).
(** A parameterised rate and its partial derivatives. *)
Variables (fp : 'I_nb -> RF -> 'cV[RF]_m -> 'cV[RF]_np -> 'cV[RF]_m)
  (Jp : 'I_nb -> RF -> 'cV[RF]_m -> 'cV[RF]_np -> 'M[RF]_m)
  (Pp : 'I_nb -> RF -> 'cV[RF]_m -> 'cV[RF]_np -> 'M[RF]_(m, np)).
Variables (s : scheme) (nt : nat) (t : nat -> TB RF nb).

Definition at_p {A} (g : 'I_nb -> RF -> 'cV[RF]_m -> 'cV[RF]_np -> A) (p : 'cV[RF]_np) :=
  fun b t y => g b t y p.

(** [y] solves the update equations of the scheme. *)
Definition scheme_solution (p : 'cV[RF]_np) (y : nat -> vb) : Prop :=
  forall k b, (0 < k)%N -> (k < nt)%N -> step_res (at_p fp p) s t y k b = 0.

(** The supplied derivatives are right at every point of the history. *)
Definition partials_along (p : 'cV[RF]_np) (y : nat -> vb) : Prop :=
  forall k b, (k < nt)%N ->
    partials_at (fp b (t k b)) (Jp b (t k b) (y k b) p) (Pp b (t k b) (y k b) p) (y k b) p.

(** The implicit steps are linearly solvable (backward Euler only). *)
Definition steps_regular (p : 'cV[RF]_np) (y : nat -> vb) : Prop :=
  s = BackwardEuler -> forall k b, (0 < k)%N -> (k < nt)%N ->
    (1%:M - (t k b - t k.-1 b) *: Jp b (t k b) (y k b) p) \in unitmx.

(** Weighted sum of the outputs. *)
Definition loss (og : nat -> vb) (y : nat -> vb) : RF := \sum_(k < nt) \sum_b \sum_(c < m) og k b c 0 * y k b c 0.

Lemma curve_tangent (p : R -> 'cV[RF]_np) (y : R -> nat -> vb) (z : nat -> vb) q th :
  (exists d, Rlt 0 d /\ forall u, Rlt (Rabs (u - th)) d -> scheme_solution (p u) (y u)) ->
  (forall k b, (k < nt)%N -> cdiff (fun u => y u k b) th (z k b)) -> cdiff p th q ->
  partials_along (p th) (y th) ->
  tangent (at_p Jp (p th)) (at_p Pp (p th)) s nt t (y th) z q.
Proof.
move=> [d [d0 sol]] Hz Hq Hp k b kn i.
have ki : (i < nt)%N by rewrite /i; case: s {sol i} => //; exact: ltnW.
have D : cdiff (fun u => y u k b + (t k.+1 b - t k b) *: fp b (t i b) (y u i b) (p u)) th
  (z k b + (t k.+1 b - t k b) *: (Jp b (t i b) (y th i b) (p th) *m z i b + Pp b (t i b) (y th i b) (p th) *m q)).
{ apply: cdiff_add; first by apply: Hz; exact: ltnW.
  apply: cdiff_scal; apply: (Hp i b ki) => //; exact: Hz. }
apply: (cdiff_unique (Hz k.+1 b kn)) => c.
apply: dpl_ext_loc (D c); exists d; split=> // u hu.
have := sol u hu k.+1 b isT kn; rewrite /step_res /= => /eqP; rewrite subr_eq0 subr_eq addrC => /eqP ->.
by rewrite /i /at_p; case: (s).
Qed.

Lemma regular_nonsing p y : steps_regular p y -> adj_nonsing (at_p Jp p) s nt (flipn nt t) (flipn nt y).
Proof.
rewrite /steps_regular /adj_nonsing; case: (s) => // H k b kn.
have := H erefl (nt - 1 - k)%N b; rewrite /hstep /flipn /at_p.
have -> : (nt - 1 - k.+1)%N = (nt - 1 - k).-1 by rewrite subnS.
apply; first by rewrite -subnDA add1n subn_gt0.
apply: leq_ltn_trans (leq_subr _ _) _; rewrite subn1 prednK // ; exact: leq_ltn_trans (leq0n _) kn.
Qed.

Lemma loss_deriv og (y : R -> nat -> vb) (z : nat -> vb) th :
  (forall k b, (k < nt)%N -> cdiff (fun u => y u k b) th (z k b)) ->
  derivable_pt_lim (fun u => loss og (y u)) th (\sum_(k < nt) dotB (og k) (z k)).
Proof.
move=> Hz.
have -> : \sum_(k < nt) dotB (og k) (z k) = \sum_(k < nt) \sum_b \sum_(c < m) og k b c 0 * z k b c 0.
{ apply: eq_bigr => k _; apply: eq_bigr => b _; rewrite mxE; apply: eq_bigr => c _; by rewrite mxE. }
apply: (@dpl_sum _ _ (fun (k : 'I_nt) u => \sum_b \sum_(c < m) og k b c 0 * y u k b c 0)) => k.
apply: (@dpl_sum _ _ (fun b u => \sum_(c < m) og k b c 0 * y u k b c 0)) => b.
apply: (@dpl_sum _ _ (fun c u => og k b c 0 * y u k b c 0)) => c.
exact: dpl_scal (Hz k b (ltn_ord k) c).
Qed.

(** C25/C26: along any differentiable family of parameters and solutions. *)
Lemma adjoint_derivative mth n (p : R -> 'cV[RF]_np) (y : R -> nat -> vb) (z : nat -> vb) q th og :
  (0 < n)%N -> (0 < nt)%N ->
  (exists d, Rlt 0 d /\ forall u, Rlt (Rabs (u - th)) d -> scheme_solution (p u) (y u)) ->
  (forall k b, (k < nt)%N -> cdiff (fun u => y u k b) th (z k b)) -> cdiff p th q ->
  partials_along (p th) (y th) -> steps_regular (p th) (y th) ->
  exists grad lam,
    rewind (at_p Jp (p th)) (at_p Pp (p th)) mth s n nt t (y th) og = Some (grad, lam) /\
    derivable_pt_lim (fun u => loss og (y u)) th
      ((\sum_(i < np) grad i 0 * q i 0) + (\sum_b \sum_(c < m) lam b c 0 * z 0%N b c 0)).
Proof.
move=> n0 nt0 sol Hz Hq Hp Hr.
have tg := curve_tangent sol Hz Hq Hp.
have [grad [lam [E H]]] := @adjoint_exact _ _ _ _ _ (at_p Pp (p th)) mth s n nt t (y th) og z q n0 nt0
   (regular_nonsing Hr) tg.
exists grad, lam; split=> //.
have := @loss_deriv og y z th Hz; rewrite -H.
have -> // : dotp grad q + dotB lam (z 0%N) =
 (\sum_(i < np) grad i 0 * q i 0) + (\sum_b \sum_(c < m) lam b c 0 * z 0%N b c 0).
congr (_ + _); first by rewrite /dotp mxE; apply: eq_bigr => i _; rewrite mxE.
apply: eq_bigr => b _; rewrite mxE; apply: eq_bigr => c _; by rewrite mxE.
Qed.
End Adjoint.

(** C26: forward Euler needs no differentiability assumption on the history. *)
Section FE.
Variables (nb m np : nat).
Notation vb := (VB RF nb m).
Variables (fp : 'I_nb -> RF -> 'cV[RF]_m -> 'cV[RF]_np -> 'cV[RF]_m)
  (Jp : 'I_nb -> RF -> 'cV[RF]_m -> 'cV[RF]_np -> 'M[RF]_m)
  (Pp : 'I_nb -> RF -> 'cV[RF]_m -> 'cV[RF]_np -> 'M[RF]_(m, np)).
Variables (nt : nat) (t : nat -> TB RF nb).

Lemma euler_solution p y0 : scheme_solution fp ForwardEuler nt t p (euler (at_p fp p) t y0).
Proof. by move=> [//|k] b _ kn; rewrite /step_res /= ffunE /at_p; zmod. Qed.

Lemma euler_diff (p : R -> 'cV[RF]_np) (y0 : R -> vb) q (z0 : vb) th :
  cdiff p th q -> (forall b, cdiff (fun u => y0 u b) th (z0 b)) ->
  partials_along fp Jp Pp nt t (p th) (euler (at_p fp (p th)) t (y0 th)) ->
  exists z : nat -> vb, z 0%N = z0 /\
    forall k b, (k < nt)%N -> cdiff (fun u => euler (at_p fp (p u)) t (y0 u) k b) th (z k b).
Proof.
move=> Hq H0 Hp; pose Y u := euler (at_p fp (p u)) t (y0 u).
pose z := fix z k : vb := if k is k'.+1 then
  [ffun b => z k' b + (t k b - t k' b) *: (Jp b (t k' b) (Y th k' b) (p th) *m z k' b
     + Pp b (t k' b) (Y th k' b) (p th) *m q)] else z0.
exists z; split=> //; elim=> [|k IH] b kn; first exact: H0.
have k' : (k < nt)%N by exact: ltnW.
rewrite [z k.+1 b]ffunE -/(z k).
apply: (@cdiff_ext _ (fun u => Y u k b + (t k.+1 b - t k b) *: fp b (t k b) (Y u k b) (p u))).
{ by move=> u; rewrite /Y /= [RHS]ffunE. }
apply: cdiff_add; first exact: IH.
apply: cdiff_scal; apply: (Hp k b k') => //; exact: IH.
Qed.

Lemma adjoint_fe mth n (p : R -> 'cV[RF]_np) (y0 : R -> vb) q (z0 : vb) th og :
  (0 < n)%N -> (0 < nt)%N -> cdiff p th q -> (forall b, cdiff (fun u => y0 u b) th (z0 b)) ->
  let Y u := euler (at_p fp (p u)) t (y0 u) in
  partials_along fp Jp Pp nt t (p th) (Y th) ->
  exists grad lam,
    rewind (at_p Jp (p th)) (at_p Pp (p th)) mth ForwardEuler n nt t (Y th) og = Some (grad, lam) /\
    derivable_pt_lim (fun u => loss nt og (Y u)) th
      ((\sum_(i < np) grad i 0 * q i 0) + (\sum_b \sum_(c < m) lam b c 0 * z0 b c 0)).
Proof.
move=> n0 nt0 Hq H0 Y Hp; have [z [<- Hz]] := euler_diff Hq H0 Hp.
apply: (adjoint_derivative mth og n0 nt0 _ Hz Hq Hp) => //.
exists 1; split; first exact: Rlt_0_1. move=> u _; exact: euler_solution.
Qed.
End FE.

Lemma cdiff_mulmx (p q : nat) (M : 'M[RF]_(p, q)) (u : R -> 'cV[RF]_q) th du :
  cdiff u th du -> cdiff (fun x => M *m u x) th (M *m du).
Proof.
move=> H i; rewrite mxE.
apply: (@dpl_ext (fun x => \sum_j M i j * u x j 0)) => [x|]; first by rewrite mxE.
apply: (@dpl_sum _ _ (fun j x => M i j * u x j 0)) => j; exact: dpl_scal.
Qed.
