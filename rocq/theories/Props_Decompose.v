(** C128: what the gradient of a batch is made of: the adjoint pass is linear in the incoming gradient, adds over the tests of the batch and does not
    look at rows the loss does not depend on. *)
From Coq Require Import Reals List String Lia.
From mathcomp Require Import all_ssreflect all_algebra.
From Verif Require Import ChunkModel ChunkSolve ChunkInst NewtonModel Ode OdeAdjoint ZmodTac.
Import GRing.Theory.
Set Implicit Arguments. Unset Strict Implicit. Unset Printing Implicit Defensive.
Local Open Scope ring_scope.

Section Decompose.
Variables (F : fieldType) (nb m np : nat).
Notation vb := (VB F nb m).
Variables (Jf : 'I_nb -> F -> 'cV[F]_m -> 'M[F]_m) (Pf : 'I_nb -> F -> 'cV[F]_m -> 'M[F]_(m, np)).
(** Backward Euler: the linear systems of the steps up to row nt have a solution. *)
Definition solvable (s : scheme) (nt : nat) (t : nat -> TB F nb) (y : nat -> vb) : Prop :=
  s = BackwardEuler -> forall k b, (0 < k)%N -> (k < nt)%N -> (1%:M - (t k b - t k.-1 b) *: Jf b (t k b) (y k b)) \in unitmx.
Lemma solvable_adj s nt t y : solvable s nt t y -> adj_nonsing Jf s nt (flipn nt t) (flipn nt y).
Proof.
case: s => //= H k b kn; have := H erefl (nt - 1 - k)%N b; rewrite /hstep /flipn.
have nt0 : (0 < nt)%N by exact: leq_ltn_trans kn.
have e : (nt - 1 - k.+1)%N = (nt - 1 - k).-1 by rewrite subnS.
rewrite -e; apply; first by rewrite subn_gt0 ltn_subRL.
by apply: leq_ltn_trans (leq_subr _ _) _; rewrite subn1 prednK.
Qed.
Variables (s : scheme) (nt : nat) (t : nat -> TB F nb) (y : nat -> vb).
Hypotheses (nt0 : (0 < nt)%N) (So : solvable s nt t y).

Lemma adj_lin (tf : nat -> TB F nb) (rf gf gf' : nat -> vb) c k :
  adj Jf s tf rf (fun k => [ffun b => c *: gf k b + gf' k b]) k = [ffun b => c *: adj Jf s tf rf gf k b + adj Jf s tf rf gf' k b].
Proof.
elim: k => [//|k IH]; apply/ffunP => b; rewrite [LHS]/= [adj Jf s tf rf gf k.+1]/= [adj Jf s tf rf gf' k.+1]/= !ffunE IH ffunE.
by case: s; rewrite mulmxDr -scalemxAr scalerDr; zmod.
Qed.
Lemma contrib_lin (tf : nat -> TB F nb) (rf gf gf' : nat -> vb) c k :
  contrib Jf Pf s tf rf (fun k => [ffun b => c *: gf k b + gf' k b]) k = c *: contrib Jf Pf s tf rf gf k + contrib Jf Pf s tf rf gf' k.
Proof.
rewrite /contrib scaler_sumr -big_split; apply: eq_bigr => b _.
have A j : adj Jf s tf rf (fun k => [ffun b => c *: gf k b + gf' k b]) j b = c *: adj Jf s tf rf gf j b + adj Jf s tf rf gf' j b by rewrite adj_lin ffunE.
have G : [ffun b => c *: gf k.+1 b + gf' k.+1 b] b = c *: gf k.+1 b + gf' k.+1 b by rewrite ffunE.
rewrite !A G; move: (adj Jf s tf rf gf) (adj Jf s tf rf gf') => u v; case: s.
- have -> : c *: u k.+1 b + v k.+1 b - (c *: gf k.+1 b + gf' k.+1 b) = c *: (u k.+1 b - gf k.+1 b) + (v k.+1 b - gf' k.+1 b) by rewrite scalerBr; zmod.
  by rewrite scalerDr scalerA mulrC -scalerA mulmxDr -scalemxAr.
- by rewrite scalerDr scalerA mulrC -scalerA mulmxDr -scalemxAr.
Qed.

(** Linear in the incoming gradient (whatever block sizes and solvers the three passes use). *)
Lemma linear_core mth mth1 mth2 n n1 n2 c og og' : (0 < n)%N -> (0 < n1)%N -> (0 < n2)%N -> exists g lam g' lam',
  [/\ rewind Jf Pf mth1 s n1 nt t y og = Some (g, lam), rewind Jf Pf mth2 s n2 nt t y og' = Some (g', lam') &
      rewind Jf Pf mth s n nt t y (fun k => [ffun b => c *: og k b + og' k b]) = Some (c *: g + g', [ffun b => c *: lam b + lam' b])].
Proof.
move=> n0 n10 n20; do 4 eexists; split; try (apply: rewind_spec => //; exact: solvable_adj).
rewrite rewind_spec //; last exact: solvable_adj.
have -> : flipn nt (fun k => [ffun b => c *: og k b + og' k b]) = (fun k => [ffun b => c *: flipn nt og k b + flipn nt og' k b]) by [].
rewrite adj_lin; congr (Some (_, _)); rewrite scaler_sumr -big_split; apply: eq_bigr => k _; exact: contrib_lin.
Qed.
End Decompose.

(** The batch made of the tests [sigma 0], [sigma 1], ... of another. *)
Definition pick (A : Type) nb nb' (sigma : 'I_nb' -> 'I_nb) (x : nat -> {ffun 'I_nb -> A}) : nat -> {ffun 'I_nb' -> A} := fun k => [ffun b => x k (sigma b)].
Section Pick.
Variables (F : fieldType) (nb nb' m np : nat) (sigma : 'I_nb' -> 'I_nb).
Variables (Jf : 'I_nb -> F -> 'cV[F]_m -> 'M[F]_m) (Pf : 'I_nb -> F -> 'cV[F]_m -> 'M[F]_(m, np)).
Variables (s : scheme) (nt : nat) (t : nat -> TB F nb) (y : nat -> VB F nb m).
Lemma adj_pick (tf : nat -> TB F nb) (rf gf : nat -> VB F nb m) k b : adj (fun b => Jf (sigma b)) s (pick sigma tf) (pick sigma rf) (pick sigma gf) k b = adj Jf s tf rf gf k (sigma b).
Proof. by elim: k => [|k IH]; rewrite /= !ffunE // /pick /hstep !ffunE -IH. Qed.
Lemma solvable_pick : solvable Jf s nt t y -> solvable (fun b => Jf (sigma b)) s nt (pick sigma t) (pick sigma y).
Proof. move=> H sB k b k0 kn; rewrite !ffunE; exact: H. Qed.
End Pick.

(** The gradient of row j, as a sum over the tests of what each test alone gives. *)
Section Alone.
Variables (F : fieldType) (nb m np : nat).
Variables (Jf : 'I_nb -> F -> 'cV[F]_m -> 'M[F]_m) (Pf : 'I_nb -> F -> 'cV[F]_m -> 'M[F]_(m, np)).
Variables (s : scheme) (nt : nat) (t : nat -> TB F nb) (y og : nat -> VB F nb m).
Hypotheses (nt0 : (0 < nt)%N) (So : solvable Jf s nt t y).
Definition only (b : 'I_nb) : 'I_1 -> 'I_nb := fun _ => b.
(** The backward pass of test b alone. *)
Definition alone mth n (b : 'I_nb) := rewind (fun b' => Jf (only b b')) (fun b' => Pf (only b b')) mth s n nt (pick (only b) t) (pick (only b) y) (pick (only b) og).
Lemma contrib_alone (tf : nat -> TB F nb) (rf gf : nat -> VB F nb m) k :
  contrib Jf Pf s tf rf gf k = \sum_b contrib (fun b' => Jf (only b b')) (fun b' => Pf (only b b')) s (pick (only b) tf) (pick (only b) rf) (pick (only b) gf) k.
Proof. by apply: eq_bigr => b _; rewrite /contrib big_ord1 /hstep !adj_pick /pick /only !ffunE. Qed.
Lemma sum_core mth mth' n n' : (0 < n)%N -> (0 < n')%N -> exists g lam,
  (forall b, alone mth' n' b = Some (g b, [ffun _ => lam b])) /\ rewind Jf Pf mth s n nt t y og = Some (\sum_b g b, finfun lam).
Proof.
move=> n0 n0'.
have R b : alone mth' n' b = _ := rewind_spec (fun b' => Pf (only b b')) mth' (pick (only b) og) n0' nt0 (solvable_adj (solvable_pick (only b) So)).
exists (fun b => \sum_(0 <= j < nt.-1) contrib (fun b' => Jf (only b b')) (fun b' => Pf (only b b')) s (pick (only b) (flipn nt t)) (pick (only b) (flipn nt y)) (pick (only b) (flipn nt og)) j).
exists (fun b => adj Jf s (flipn nt t) (flipn nt y) (flipn nt og) nt.-1 b); split.
- move=> b; rewrite R; congr (Some (_, _)); apply/ffunP => b'; rewrite ffunE; exact: (@adj_pick _ _ _ _ (only b)).
- rewrite rewind_spec //; last exact: solvable_adj.
  congr (Some (_, _)); last by apply/ffunP => b; rewrite ffunE.
  rewrite [RHS]exchange_big; apply: eq_bigr => k _; exact: contrib_alone.
Qed.
End Alone.

(** Rows the loss does not depend on. *)
Section Cut.
Variables (F : fieldType) (nb m np : nat).
Variables (Jf : 'I_nb -> F -> 'cV[F]_m -> 'M[F]_m) (Pf : 'I_nb -> F -> 'cV[F]_m -> 'M[F]_(m, np)).
Variables (s : scheme).
Lemma adj_shift (tf : nat -> TB F nb) (rf gf : nat -> VB F nb m) d k : (forall j, (j < d)%N -> gf j = 0) ->
  ((k < d)%N -> adj Jf s tf rf gf k = 0) /\ adj Jf s tf rf gf (d + k)%N = adj Jf s (fun j => tf (d + j)%N) (fun j => rf (d + j)%N) (fun j => gf (d + j)%N) k.
Proof.
move=> Z; have Z0 j : (j < d)%N -> adj Jf s tf rf gf j = 0.
{ elim: j => [|j IH] jd; first exact: Z. apply/ffunP => b; rewrite /= !ffunE Z // IH 1?ltnW // !ffunE; by case: s; rewrite mulmx0 addr0. }
split; first exact: Z0.
elim: k => [|k IH]; last by rewrite addnS; apply/ffunP => b; rewrite /= !ffunE IH /hstep !addnS.
rewrite addn0; case: d Z Z0 => [//|d] Z Z0; apply/ffunP => b; rewrite /= ffunE Z0 // !ffunE addn0; by case: s; rewrite mulmx0 addr0.
Qed.
Lemma contrib_shift (tf : nat -> TB F nb) (rf gf : nat -> VB F nb m) d : (forall j, (j < d)%N -> gf j = 0) ->
  (forall k, (k < d)%N -> contrib Jf Pf s tf rf gf k = 0) /\
  forall k, contrib Jf Pf s tf rf gf (d + k)%N = contrib Jf Pf s (fun j => tf (d + j)%N) (fun j => rf (d + j)%N) (fun j => gf (d + j)%N) k.
Proof.
move=> Z; split=> k; last first.
{ rewrite /contrib /hstep; apply: eq_bigr => b _; have [_ H1] := adj_shift tf rf k Z; have [_ H2] := adj_shift tf rf k.+1 Z; rewrite addnS in H2; by rewrite H1 H2 addnS. }
move=> kd; rewrite /contrib big1 // => b _; have [/(_ kd) A _] := adj_shift tf rf k Z; case: (s) A => A.
- by rewrite [adj _ _ _ _ _ k.+1]/= ffunE A ffunE mulmx0 addr0 subrr scaler0 mulmx0.
- by rewrite A ffunE scaler0 mulmx0.
Qed.
Lemma cut_core mth mth' n n' nt K t y (og : nat -> VB F nb m) : (0 < n)%N -> (0 < n')%N -> (0 < K)%N -> (K <= nt)%N -> solvable Jf s nt t y ->
  (forall k, (K <= k)%N -> (k < nt)%N -> og k = 0) ->
  rewind Jf Pf mth s n nt t y og = rewind Jf Pf mth' s n' K t y og.
Proof.
move=> n0 n0' K0 Kn So Z; have nt0 : (0 < nt)%N := leq_trans K0 Kn.
have So' : solvable Jf s K t y by move=> sB k b k0 kK; apply: So => //; exact: leq_trans Kn.
rewrite !rewind_spec //; try exact: solvable_adj.
pose d := (nt - K)%N.
have fl A (x : nat -> A) : (fun j => flipn nt x (d + j)%N) = flipn K x.
{ apply: FunctionalExtensionality.functional_extensionality => j; rewrite /flipn /d; congr (x _); apply/eqP; move: Kn K0 {Z So So' d n0 n0'}; clear.
  move=> /leP a /ltP c; apply/eqP; rewrite -!minusE -!plusE; lia. }
have Zf j : (j < d)%N -> flipn nt og j = 0.
{ move=> /ltP jd; rewrite /flipn; apply: Z; [apply/leP|apply/ltP]; move: jd Kn K0 => jd /leP a /ltP c; rewrite /d -!minusE in jd *; lia. }
have ntE : nt.-1 = (d + K.-1)%N by rewrite /d; move: Kn K0 => /leP a /ltP c; rewrite -!minusE -!plusE; lia.
have [_ Ad] := adj_shift (flipn nt t) (flipn nt y) K.-1 Zf; have [C0 C1] := contrib_shift (flipn nt t) (flipn nt y) Zf.
rewrite ntE; congr (Some (_, _)); last by rewrite Ad !fl.
rewrite (big_cat_nat _ (n := d)) ?leq_addr //= big_nat_cond big1 ?add0r => [|j /andP [/andP [_ jd] _]]; last exact: C0.
rewrite -{1}[d]add0n big_addn addKn; apply: eq_bigr => j _; by rewrite addnC C1 !fl.
Qed.
End Cut.

(** C128.  The backward pass of an integration whose steps are solvable (see [solvable]); [og] is the incoming gradient, [(g, lam)] the returned derivatives
    with respect to the parameters and to the initial state.  Block sizes and linear solvers may differ from pass to pass. *)
Theorem C128_linear (F : fieldType) nb m np (Jf : 'I_nb -> F -> 'cV[F]_m -> 'M[F]_m) (Pf : 'I_nb -> F -> 'cV[F]_m -> 'M[F]_(m, np)) s nt t y
    mth mth1 mth2 n n1 n2 c (og og' : nat -> VB F nb m) :
  (0 < nt)%N -> solvable Jf s nt t y -> (0 < n)%N -> (0 < n1)%N -> (0 < n2)%N -> exists g lam g' lam',
  [/\ rewind Jf Pf mth1 s n1 nt t y og = Some (g, lam), rewind Jf Pf mth2 s n2 nt t y og' = Some (g', lam') &
      rewind Jf Pf mth s n nt t y (fun k => [ffun b => c *: og k b + og' k b]) = Some (c *: g + g', [ffun b => c *: lam b + lam' b])].
Proof. move=> nt0 So n0 n10 n20; exact: linear_core. Qed.
Print Assumptions C128_linear.

(** The gradient of a batch is the sum of the gradients of its tests, each run alone; the derivative with respect to a test's initial state is its own. *)
Theorem C128_sum_over_tests (F : fieldType) nb m np (Jf : 'I_nb -> F -> 'cV[F]_m -> 'M[F]_m) (Pf : 'I_nb -> F -> 'cV[F]_m -> 'M[F]_(m, np)) s nt t y
    mth mth' n n' (og : nat -> VB F nb m) :
  (0 < nt)%N -> solvable Jf s nt t y -> (0 < n)%N -> (0 < n')%N -> exists g lam,
  (forall b, rewind (fun _ => Jf b) (fun _ => Pf b) mth' s n' nt (fun k => [ffun _ : 'I_1 => t k b]) (fun k => [ffun _ => y k b]) (fun k => [ffun _ => og k b]) = Some (g b, [ffun _ => lam b])) /\
  rewind Jf Pf mth s n nt t y og = Some (\sum_b g b, finfun lam).
Proof. move=> nt0 So n0 n0'; exact: (sum_core Pf og nt0 So mth mth' n0 n0'). Qed.
Print Assumptions C128_sum_over_tests.

(** Minibatches, reordered batches and batches with repeated tests: each occurrence of a test counts once, with the gradient it has alone. *)
Theorem C128_selection (F : fieldType) nb nb' m np (sigma : 'I_nb' -> 'I_nb) (Jf : 'I_nb -> F -> 'cV[F]_m -> 'M[F]_m) (Pf : 'I_nb -> F -> 'cV[F]_m -> 'M[F]_(m, np)) s nt t y
    mth mth' n n' (og : nat -> VB F nb m) :
  (0 < nt)%N -> solvable Jf s nt t y -> (0 < n)%N -> (0 < n')%N -> exists g lam,
  rewind Jf Pf mth s n nt t y og = Some (\sum_b g b, finfun lam) /\
  rewind (fun b => Jf (sigma b)) (fun b => Pf (sigma b)) mth' s n' nt (pick sigma t) (pick sigma y) (pick sigma og) = Some (\sum_(b < nb') g (sigma b), [ffun b => lam (sigma b)]).
Proof.
move=> nt0 So n0 n0'; have [g [lam [A E]]] := sum_core Pf og nt0 So mth Thomas n0 (ltn0Sn 0).
have [g' [lam' [A' E']]] := sum_core (fun b => Pf (sigma b)) (pick sigma og) nt0 (solvable_pick sigma So) mth' Thomas n0' (ltn0Sn 0).
exists g, lam; split=> //; rewrite E'.
have H b : g' b = g (sigma b) /\ lam' b = lam (sigma b).
{ have P X (x : nat -> {ffun 'I_nb -> X}) : pick (only b) (pick sigma x) = pick (only (sigma b)) x.
  { apply: FunctionalExtensionality.functional_extensionality => k; apply/ffunP => i; by rewrite !ffunE. }
  have := A' b; rewrite /alone !P; have := A (sigma b); rewrite /alone /only => -> [-> /ffunP /(_ ord0)]; by rewrite !ffunE => ->. }
congr (Some (_, _)); first by apply: eq_bigr => b _; case: (H b).
apply/ffunP => b; rewrite !ffunE; by case: (H b).
Qed.
Print Assumptions C128_selection.

(** A test the loss does not look at contributes nothing. *)
Theorem C128_silent_tests (F : fieldType) nb m np (Jf : 'I_nb -> F -> 'cV[F]_m -> 'M[F]_m) (Pf : 'I_nb -> F -> 'cV[F]_m -> 'M[F]_(m, np)) s nt t y
    mth mth' n n' (og : nat -> VB F nb m) (quiet : pred 'I_nb) :
  (0 < nt)%N -> solvable Jf s nt t y -> (0 < n)%N -> (0 < n')%N ->
  (forall k b, (k < nt)%N -> quiet b -> og k b = 0) -> exists g lam,
  (forall b, rewind (fun _ => Jf b) (fun _ => Pf b) mth' s n' nt (fun k => [ffun _ : 'I_1 => t k b]) (fun k => [ffun _ => y k b]) (fun k => [ffun _ => og k b]) = Some (g b, [ffun _ => lam b])) /\
  (forall b, quiet b -> lam b = 0) /\
  rewind Jf Pf mth s n nt t y og = Some (\sum_(b | ~~ quiet b) g b, finfun lam).
Proof.
move=> nt0 So n0 n0' Z; have [g [lam [A E]]] := sum_core Pf og nt0 So mth mth' n0 n0'.
have H b : quiet b -> g b = 0 /\ lam b = 0.
{ move=> qb; have := A b.
  have := linear_core (fun b' => Pf (only b b')) nt0 (solvable_pick (only b) So) mth' mth' mth' 0 (pick (only b) og) (fun _ => 0) n0' n0' n0' => -[g1 [lam1 [g2 [lam2 [E1 E2 E3]]]]].
  rewrite /alone E1 => -[e1 e2].
  have C := cut_core (s := s) (fun b' => Pf (only b b')) mth' mth' n0' n0' (ltn0Sn 0) nt0 (solvable_pick (only b) So) (og := pick (only b) og).
  have C' : rewind (fun b' => Jf (only b b')) (fun b' => Pf (only b b')) mth' s n' nt (pick (only b) t) (pick (only b) y) (pick (only b) og) = Some (0, 0).
  { rewrite C => [|k k1 kn]; last by apply/ffunP => i; rewrite !ffunE; exact: Z.
    rewrite rewind_spec // ?big_nil; last by case: (s).
    congr (Some (_, _)); rewrite /= /flipn /=; apply/ffunP => i; rewrite !ffunE; exact: Z. }
  move: E1; rewrite C' => -[h1 h2]; split; first by rewrite -e1 -h1.
  by move: e2; rewrite -h2 => /ffunP /(_ ord0); rewrite !ffunE. }
exists g, lam; split=> //; split; first by move=> b /H [].
rewrite E; congr (Some (_, _)); rewrite (bigID quiet) /= big1 ?add0r // => b /H []; by [].
Qed.
Print Assumptions C128_silent_tests.

(** Rows the loss does not look at can be cut off before the backward pass. *)
Theorem C128_unseen_rows (F : fieldType) nb m np (Jf : 'I_nb -> F -> 'cV[F]_m -> 'M[F]_m) (Pf : 'I_nb -> F -> 'cV[F]_m -> 'M[F]_(m, np)) s nt K t y
    mth mth' n n' (og : nat -> VB F nb m) :
  (0 < n)%N -> (0 < n')%N -> (0 < K)%N -> (K <= nt)%N -> solvable Jf s nt t y ->
  (forall k, (K <= k)%N -> (k < nt)%N -> og k = 0) ->
  rewind Jf Pf mth s n nt t y og = rewind Jf Pf mth' s n' K t y og.
Proof. move=> n0 n0' K0 Kn So Z; exact: (cut_core Pf mth mth' n0 n0' K0 Kn So Z). Qed.
Print Assumptions C128_unseen_rows.

(** Example: decay y' = - p y, one row per second, any history; every step is solvable. *)
Definition ex_t (k : nat) : TB rat_fieldType 3 := [ffun _ => k%:R].
Example C128_ex s (y : nat -> VB rat_fieldType 3 1) : solvable (fun _ _ _ => (-1)%:M) s 7 ex_t y.
Proof.
move=> _ k b k0 _; rewrite !ffunE; case: k k0 => // k _; rewrite [k.+1.-1]/=.
have -> : (k.+1)%:R - k%:R = 1 :> rat by rewrite -natrB // subSnn.
by rewrite scale1r -raddfB unitmxE det_scalar1 unitfE.
Qed.
