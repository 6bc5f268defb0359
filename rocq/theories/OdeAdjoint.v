(** Proofs about the adjoint pass (C25-C27), over an arbitrary field. *)
From Coq Require Import Reals List String.
From mathcomp Require Import all_ssreflect all_algebra.
From Verif Require Import ChunkModel ChunkSolve ChunkInst NewtonModel Ode ZmodTac.
Import GRing.Theory.
Set Implicit Arguments. Unset Strict Implicit. Unset Printing Implicit Defensive.
Local Open Scope ring_scope.

Section Adj.
Variables (F : fieldType) (nb m np : nat).
Notation vb := (VB F nb m).
Notation mb := (MB F nb m).
Variables (f : 'I_nb -> F -> 'cV[F]_m -> 'cV[F]_m) (Jf : 'I_nb -> F -> 'cV[F]_m -> 'M[F]_m).
Variable Pf : 'I_nb -> F -> 'cV[F]_m -> 'M[F]_(m, np).

(** ** Specification (time-flipped index: 0 is the last time)
    Step-by-step adjoint recursion and the gradient as a plain sum. *)
Section Spec.
Variables (s : scheme) (tf : nat -> TB F nb) (rf gf : nat -> vb).

Definition hstep (k : nat) (b : 'I_nb) : F := tf k b - tf k.+1 b.

Fixpoint adj (k : nat) : vb :=
  if k is k'.+1 then
    [ffun b => gf k b +
       match s with
       | BackwardEuler =>
         invmx (1%:M - hstep k' b *: (Jf b (tf k' b) (rf k' b))^T) *m adj k' b
       | ForwardEuler =>
         (1%:M + hstep k' b *: (Jf b (tf k b) (rf k b))^T) *m adj k' b
       end]
  else gf 0%N.

Definition contrib (k : nat) : 'cV[F]_np :=
  \sum_b match s with
    | BackwardEuler =>
        (Pf b (tf k b) (rf k b))^T *m (hstep k b *: (adj k.+1 b - gf k.+1 b))
    | ForwardEuler =>
        (Pf b (tf k.+1 b) (rf k.+1 b))^T *m (hstep k b *: adj k b)
    end.
End Spec.

(** The implicit steps are solvable (backward Euler only). *)
Definition adj_nonsing (s : scheme) (nt : nat) (tf : nat -> TB F nb) (rf : nat -> vb) : Prop :=
  match s with
  | BackwardEuler => forall k b, (k.+1 < nt)%N ->
      (1%:M - hstep tf k b *: Jf b (tf k b) (rf k b)) \in unitmx
  | ForwardEuler => True
  end.

Lemma tdiffE (ts : nat -> TB F nb) k b : tdiff ts k b = - hstep ts k b.
Proof. by rewrite ffunE /hstep opprB. Qed.

Lemma update_adjoint_spec s mth n tf rf gf k0 nt (a_prev := adj s tf rf gf k0) :
  (0 < n)%N -> (k0 + n < nt)%N -> adj_nonsing s nt tf rf ->
  let ts := fun j => tf (k0 + j)%N in
  let y := fun j => rf (k0 + j)%N in
  let g := fun j => gf (k0 + j)%N in
  exists a, update_adjoint mth s n (tdiff ts) (func_jac Jf ts y) a_prev g = Some a /\
    forall j, (j <= n)%N -> a j = adj s tf rf gf (k0 + j)%N.
Proof.
move=> n0 kn ns ts y g.
have nsA : forall j, (j < n)%coq_nat -> nonsing (adj_A s (tdiff ts) (func_jac Jf ts y) j).
{ move=> j /ltP jn b. rewrite ffunE. case: s ns a_prev => ns a_prev; last by rewrite unitmx1.
  have jk : ((k0 + j).+1 < nt)%N by apply: leq_ltn_trans kn; rewrite ltn_add2l.
  have := ns (k0 + j)%N b jk.
  rewrite -unitmx_tr !ffunE /hstep linearB linearZ /= trmx1 /ts /y addnS -scaleNr opprB. by []. }
have [x [B' [E [S0 S1]]]] := @matvec_spec _ _ _ _ (fops_laws F nb m) mth n
   (adj_A s (tdiff ts) (func_jac Jf ts y)) (adj_B s (tdiff ts) (func_jac Jf ts y))
   (adj_rhs s (tdiff ts) (func_jac Jf ts y) a_prev g) nsA (elimT ltP n0).
rewrite /update_adjoint E. eexists; split; first reflexivity.
elim=> [|j IH] jn; first by rewrite addn0.
have {}IH := IH (ltnW jn).
have jk : ((k0 + j).+1 < nt)%N by apply: leq_ltn_trans kn; rewrite ltn_add2l.
apply/ffunP=> b; rewrite ffunE addnS [adj s]lock /= -lock ffunE.
(* the equation of row j in terms of the values *)
have row : (adj_A s (tdiff ts) (func_jac Jf ts y) j) b *m x j b
   + (if j is j'.+1 then adj_B s (tdiff ts) (func_jac Jf ts y) j' b *m x j' b else 0)
   = adj_rhs s (tdiff ts) (func_jac Jf ts y) a_prev g j b.
{ case: j jn {IH jk} => [|j] jn.
  - by have := S0 (elimT ltP n0); move/ffunP/(_ b); rewrite ffunE addr0.
  - by have := S1 j (elimT ltP jn); move/ffunP/(_ b); rewrite !ffunE. }
move: row; rewrite !ffunE.
have prevE : (if j is j'.+1 then x j' b + a_prev b else a_prev b) = adj s tf rf gf (k0 + j) b.
{ move: IH => /ffunP/(_ b) <-. by case: (j) => //= j'; rewrite ffunE. }
have dtE : ts j.+1 b - ts j b = - hstep tf (k0 + j) b by rewrite /ts /hstep addnS opprB.
case: s ns @a_prev nsA E S0 S1 IH prevE => ns a_prev nsA E S0 S1 IH prevE.
- (* backward *)
  have U := ns _ b jk.
  set W := 1%:M - hstep tf (k0 + j) b *: (Jf b (tf (k0 + j)%N b) (rf (k0 + j)%N b))^T.
  have UW : W \in unitmx by rewrite -unitmx_tr /W linearB linearZ /= trmx1 trmxK.
  have -> : 1%:M + (ts j.+1 b - ts j b) *: (func_jac Jf ts y j b)^T = W.
    by rewrite dtE /func_jac ffunE /W scaleNr.
  move=> row.
  suff key : W *m (x j b + a_prev b - gf (k0 + j).+1 b) = adj BackwardEuler tf rf gf (k0 + j) b.
    rewrite -key mulKmx // addrCA subrr addr0 //.
  rewrite -prevE mulmxBr mulmxDr.
  have dJE : (ts j.+1 b - ts j b) *: (func_jac Jf ts y j b)^T = W - 1%:M.
    by rewrite dtE /func_jac ffunE /W scaleNr addrAC subrr add0r.
  have row' : W *m x j b = g j.+1 b + (W - 1%:M) *m (g j.+1 b - a_prev b)
     + (if j is j'.+1 then x j' b else 0).
  { move: row; rewrite dJE => <-.
    case: (j) => [|j']; first by rewrite !addr0.
    by rewrite !ffunE mulNmx mul1mx subrK. }
  rewrite row' /g addnS mulmxBl mul1mx mulmxBr.
  by case: (j) => [|j'] /=; rewrite ?addr0; zmod.
- (* forward *)
  set W := hstep tf (k0 + j) b *: (Jf b (tf (k0 + j).+1 b) (rf (k0 + j).+1 b))^T.
  have dJE : (ts j.+1 b - ts j b) *: (func_jac Jf ts y j.+1 b)^T = - W.
    by rewrite dtE /func_jac ffunE /W /ts /y addnS scaleNr.
  rewrite dJE mul1mx => row.
  have row' : x j b = g j.+1 b + W *m a_prev b
     + (if j is j'.+1 then (W + 1%:M) *m x j' b else 0).
  { have -> : g j.+1 b + W *m a_prev b = g j.+1 b + - W *m - a_prev b by rewrite mulNmx mulmxN opprK.
    rewrite -row.
    case: (j) dJE => [|j'] dJE'; first by rewrite !addr0.
    have -> : adj_B ForwardEuler (tdiff ts) (func_jac Jf ts y) j' b = - (W + 1%:M).
      by move: dJE'; rewrite !ffunE => ->; rewrite opprD.
    by rewrite mulNmx subrK. }
  rewrite row' -prevE /g addnS mulmxDl mul1mx.
  case: (j) => [|j'] /=; first by rewrite addr0; zmod.
  rewrite mulmxDl mul1mx mulmxDr; zmod.
Qed.

Lemma accumulate_spec s n tf rf gf k0 prev a :
  let ts := fun j => tf (k0 + j)%N in
  let y := fun j => rf (k0 + j)%N in
  let g := fun j => gf (k0 + j)%N in
  (forall j, (j <= n)%N -> a j = adj s tf rf gf (k0 + j)%N) ->
  accumulate Pf s n prev ts y a g = prev + \sum_(k0 <= k < k0 + n) contrib s tf rf gf k.
Proof.
move=> ts y g Ha. rewrite /accumulate; congr (_ + _).
rewrite -{1}[k0]add0n [(k0 + n)%N]addnC big_addn addnK big_mkord.
case: s Ha => Ha; rewrite /param_partial; apply: eq_bigr => k _; rewrite /contrib; apply: eq_bigr => b _.
- rewrite ffunE tdiffE opprK Ha // addnS /hstep /ts /y /g !addnS ![(k0 + k)%N]addnC.
  by [].
- rewrite ffunE tdiffE opprK Ha 1?ltnW // /hstep /ts /y /g !addnS ![(k0 + k)%N]addnC.
  by [].
Qed.

Lemma rewind_loop_spec mth s n nt tf rf gf : (0 < n)%N -> adj_nonsing s nt tf rf ->
  forall fuel k, (k < nt)%N -> (nt <= fuel + k)%N ->
  rewind_loop Jf Pf mth fuel s n nt tf rf gf k.+1
    (\sum_(0 <= j < k) contrib s tf rf gf j) (adj s tf rf gf k)
  = Some (\sum_(0 <= j < nt.-1) contrib s tf rf gf j, adj s tf rf gf nt.-1).
Proof.
move=> n0 ns; elim=> [|fuel IH] k kn hf /=; first by move: hf; rewrite add0n leqNgt kn.
case: ifP => [kn'|/negbT]; last first.
  rewrite -leqNgt => hle; have -> : k = nt.-1 by case: (nt) kn hle => // p /=; rewrite ltnS => h1 h2; apply/eqP; rewrite eqn_leq h1.
  by [].
set len := slice_len _ _ _.
have kmin : (k.+1 < minn (k.+1 + n) nt)%N by rewrite leq_min kn' andbT -[X in (X < _)%N]addn0 ltn_add2l.
have len0 : (0 < len)%N by rewrite /len /slice_len subn_gt0.
have lenE : (k + len < nt)%N by rewrite -addSn /len /slice_len subnKC ?geq_minr // ltnW.
rewrite subn1 /=.
have [a [E Ha]] := @update_adjoint_spec s mth len tf rf gf k nt len0 lenE ns.
rewrite E (accumulate_spec _ Ha) -big_cat_nat ?leq_addr //= Ha //.
have [full|short] := ltnP (k.+1 + n) nt.
- have lenn : len = n by rewrite /len /slice_len (minn_idPl (ltnW full)) addKn.
  rewrite lenn addSn; apply: IH; first by rewrite -lenn.
  by apply: leq_trans hf _; rewrite addSn -addnS leq_add2l -[X in (X < _)%N]addn0 ltn_add2l.
- have lenn : (k + len)%N = nt.-1.
    by apply: succn_inj; rewrite -addSn /len /slice_len (minn_idPr short) subnKC 1?ltnW // prednK // (ltn_trans _ kn').
  rewrite lenn. by case: (fuel) => [|fu] /=; rewrite ltnNge short.
Qed.

Lemma rewind_spec mth s n nt t result og : (0 < n)%N -> (0 < nt)%N ->
  adj_nonsing s nt (flipn nt t) (flipn nt result) ->
  rewind Jf Pf mth s n nt t result og =
  Some (\sum_(0 <= j < nt.-1) contrib s (flipn nt t) (flipn nt result) (flipn nt og) j,
        adj s (flipn nt t) (flipn nt result) (flipn nt og) nt.-1).
Proof.
move=> n0 nt0 ns; rewrite /rewind gtn_eqF //.
rewrite -(@rewind_loop_spec mth s n nt _ _ (flipn nt og) n0 ns nt 0) ?leq_addr ?addn0 //.
by rewrite big_nil.
Qed.

(** ** The discrete adjoint identity *)
Definition dotB (u v : vb) : F := \sum_b ((u b)^T *m v b) 0 0.
Definition dotp (u v : 'cV[F]_np) : F := (u^T *m v) 0 0.

(** A tangent of the integrated history in direction [q] of the parameters
    (forward time): what differentiating the update equations gives. *)
Definition tangent (s : scheme) (nt : nat) (t : nat -> TB F nb) (y z : nat -> vb) (q : 'cV[F]_np) : Prop :=
  forall k b, (k.+1 < nt)%N ->
    let i := match s with BackwardEuler => k.+1 | ForwardEuler => k end in
    z k.+1 b = z k b + (t k.+1 b - t k b) *:
       (Jf b (t i b) (y i b) *m z i b + Pf b (t i b) (y i b) *m q).

Section Dot.
Variable n : nat.
Definition dot (u v : 'cV[F]_n) : F := (u^T *m v) 0 0.
Lemma dotDl u v w : dot (u + v) w = dot u w + dot v w.
Proof. by rewrite /dot linearD mulmxDl mxE. Qed.
Lemma dotDr u v w : dot w (u + v) = dot w u + dot w v.
Proof. by rewrite /dot mulmxDr mxE. Qed.
Lemma dotNl u w : dot (- u) w = - dot u w.
Proof. by rewrite /dot linearN mulNmx mxE. Qed.
Lemma dotZl c u w : dot (c *: u) w = c * dot u w.
Proof. by rewrite /dot linearZ -scalemxAl mxE. Qed.
Lemma dotZr c u w : dot u (c *: w) = c * dot u w.
Proof. by rewrite /dot -scalemxAr mxE. Qed.
End Dot.
Lemma dot_adj n p (A : 'M[F]_(n, p)) u v : dot (A^T *m u) v = dot u (A *m v).
Proof. by rewrite /dot trmx_mul trmxK mulmxA. Qed.

Lemma adjoint_partial s nt t y z q og : tangent s nt t y z q ->
  adj_nonsing s nt (flipn nt t) (flipn nt y) ->
  forall j, (j < nt)%N ->
  dotp (\sum_(0 <= i < j) contrib s (flipn nt t) (flipn nt y) (flipn nt og) i) q
  + dotB (adj s (flipn nt t) (flipn nt y) (flipn nt og) j) (flipn nt z j)
  = \sum_(0 <= i < j.+1) dotB (flipn nt og i) (flipn nt z i).
Proof.
move=> tg ns; elim=> [|j IH] jn.
  by rewrite big_nil big_nat1 /dotp trmx0 mul0mx mxE add0r.
have {}IH := IH (ltnW jn).
set a := adj s _ _ _ in IH *. set c := contrib s _ _ _ in IH *.
rewrite [RHS]big_nat_recr //= -IH big_nat_recr //=.
rewrite /dotp -/(dot _ q) dotDl -/(dot _ q) -!addrA; congr (_ + _).
suff key : dotB (a j) (flipn nt z j) = dot (c j) q + dotB (subV (a j.+1) (flipn nt og j.+1)) (flipn nt z j.+1).
  rewrite key -addrA; congr (_ + _); rewrite -big_split /=; apply: eq_bigr => b _.
  by rewrite -!/(dot _ _) [subV _ _ b]ffunE -dotDl subrK.
have -> : dot (c j) q = \sum_b dot (match s with
    | BackwardEuler => (Pf b (flipn nt t j b) (flipn nt y j b))^T *m (hstep (flipn nt t) j b *: (a j.+1 b - flipn nt og j.+1 b))
    | ForwardEuler => (Pf b (flipn nt t j.+1 b) (flipn nt y j.+1 b))^T *m (hstep (flipn nt t) j b *: a j b)
    end) q.
  by rewrite /c /contrib /dot linear_sum mulmx_suml summxE.
rewrite -big_split /=; apply: eq_bigr => b _; rewrite -!/(dot _ _).
have zk : (nt - 1 - j = (nt - 1 - j.+1).+1)%N by rewrite -subSn ?subSS // subn1 -ltnS prednK // (ltn_trans _ jn).
set k := (nt - 1 - j.+1)%N in zk *.
have kn : (k.+1 < nt)%N by rewrite -zk -subnDA ltn_subrL (ltn_trans _ jn).
have zE0 := tg k b kn.
have subE : subV (a j.+1) (flipn nt og j.+1) b = a j.+1 b - flipn nt og j.+1 b by rewrite [LHS]ffunE.
rewrite subE.
have hE : hstep (flipn nt t) j b = t k.+1 b - t k b by rewrite /hstep /flipn zk.
set h := t k.+1 b - t k b in hE *.
case: s @a @c IH tg ns zE0 subE => a c IH tg ns zE subE; cbn zeta in zE; rewrite -/h in zE.
- have U := ns j b jn. rewrite hE /flipn zk -/k in U.
  have aE : a j.+1 b - flipn nt og j.+1 b =
     invmx (1%:M - h *: (Jf b (t k.+1 b) (y k.+1 b))^T) *m a j b.
    by rewrite /a /= ffunE addrC addKr hE /flipn zk.
  set W := 1%:M - h *: Jf b (t k.+1 b) (y k.+1 b) in U.
  have WT : 1%:M - h *: (Jf b (t k.+1 b) (y k.+1 b))^T = W^T.
    by apply/matrixP => i0 j0; rewrite !mxE eq_sym.
  rewrite WT in aE.
  have ajE : a j b = W^T *m (a j.+1 b - flipn nt og j.+1 b) by rewrite aE mulKVmx // unitmx_tr.
  set mu := a j.+1 b - _ in ajE *.
  rewrite ajE dot_adj dot_adj hE dotZl /flipn zk -/k.
  have -> : W *m z k.+1 b = z k b + h *: (Pf b (t k.+1 b) (y k.+1 b) *m q).
    rewrite mulmxBl mul1mx -scalemxAl {1}zE scalerDr; zmod.
  by rewrite dotDr dotZr addrC.
- have ajE : a j.+1 b - flipn nt og j.+1 b = a j b + h *: ((Jf b (t k b) (y k b))^T *m a j b).
    by rewrite /a /= ffunE addrC addKr hE mulmxDl mul1mx -scalemxAl /flipn -/k.
  rewrite ajE dotDl dotZl !dot_adj dotZl hE /flipn zk -/k zE.
  by rewrite dotDr dotZr dotDr mulrDr; zmod.
Qed.

(** The gradient pass returns the derivative of sum_k g_k . y_k along every
    tangent: parameter part paired with q plus y0 part paired with z_0. *)
Lemma adjoint_exact mth s n nt t y og z q : (0 < n)%N -> (0 < nt)%N ->
  adj_nonsing s nt (flipn nt t) (flipn nt y) -> tangent s nt t y z q ->
  exists grad lam, rewind Jf Pf mth s n nt t y og = Some (grad, lam) /\
    dotp grad q + dotB lam (z 0%N) = \sum_(k < nt) dotB (og k) (z k).
Proof.
move=> n0 nt0 ns tg; rewrite rewind_spec //; do 2!eexists; split; first reflexivity.
have := @adjoint_partial s nt t y z q og tg ns nt.-1.
rewrite prednK // => /(_ (leqnn _)).
have -> : flipn nt z nt.-1 = z 0%N by rewrite /flipn -subn1 subnn.
move=> ->. rewrite big_mkord (reindex_inj rev_ord_inj) /=; apply: eq_bigr => k _; rewrite /flipn subn1.
have -> : (nt.-1 - (nt - k.+1) = k)%N by case: (nt) nt0 k => // p _ k; rewrite subSS subKn // -ltnS.
by [].
Qed.
End Adj.
