(** Instantiation of the solver model with batches of matrices over an
    arbitrary field, the (sbat, nblk*sblk) layout of the public interface,
    and the dense strategy.  chunktime.py 131-171, 411-534. *)
From Coq Require Import ZArith List Lia.
From mathcomp Require Import all_ssreflect all_algebra.
From Verif Require Import ChunkModel ChunkSpec ChunkPow2 ChunkSolve BlockDiag BlockDiagProofs.
Import GRing.Theory.
Set Implicit Arguments. Unset Strict Implicit. Unset Printing Implicit Defensive.
Local Open Scope ring_scope.

Section Inst.
Variable F : fieldType.

(** A tensor of shape (nblk, sbat, sblk, sblk): entries by index. *)
Definition tens4 := nat -> nat -> nat -> nat -> F.
(** A tensor of shape (sbat, nblk*sblk): entries by index. *)
Definition tens2 := nat -> nat -> F.

Section Ops.
Variables (nb m : nat).   (* batch size, block size *)

Definition MB := {ffun 'I_nb -> 'M[F]_m}.
Definition VB := {ffun 'I_nb -> 'cV[F]_m}.

(** Batched block operations: torch.bmm / mbmm / lu_solve act independently on
    every batch entry; lu_solve of a factored block is multiplication by the
    inverse. *)
Definition fops : block_ops MB VB := {|
  bmul := fun A B : MB => [ffun b => A b *m B b] : MB;
  bopp := fun A : MB => [ffun b => - A b] : MB;
  bzero := [ffun b => 0] : MB;
  bact := fun (A : MB) (x : VB) => [ffun b => A b *m x b] : VB;
  bsub := fun u v : VB => [ffun b => u b - v b] : VB;
  badd := fun u v : VB => [ffun b => u b + v b] : VB;
  bsolve := fun (A : MB) (v : VB) => [ffun b => invmx (A b) *m v b] : VB;
  bsolveM := fun A B : MB => [ffun b => invmx (A b) *m B b] : MB
|}.

Definition nonsing (A : MB) : Prop := forall b, A b \in unitmx.

Lemma fops_laws : block_laws fops nonsing.
Proof.
split=> /=.
- by move=> A x H; apply/ffunP=> b; rewrite !ffunE mulKmx.
- by move=> A x H; apply/ffunP=> b; rewrite !ffunE mulKVmx.
- by move=> A u v H; apply/ffunP=> b; rewrite !ffunE mulmxDr.
- by move=> A u v; apply/ffunP=> b; rewrite !ffunE mulmxDr.
- by move=> A B x; apply/ffunP=> b; rewrite !ffunE mulmxA.
- by move=> A B x _; apply/ffunP=> b; rewrite !ffunE mulmxA.
- by move=> A u x; apply/ffunP=> b; rewrite !ffunE mulNmx.
- by move=> u v; apply/ffunP=> b; rewrite !ffunE addrK.
- by move=> u v; apply/ffunP=> b; rewrite !ffunE subrK.
- by move=> u v w; apply/ffunP=> b; rewrite !ffunE opprD addrA addrK.
Qed.

Definition blkM (A : tens4) (k : nat) : MB := [ffun b : 'I_nb => \matrix_(i < m, j < m) A k b i j].

(** [v.reshape((sbat,nblk,sblk)).transpose(0,1).unsqueeze(-1)], lines 163-165. *)
Definition blkV (v : tens2) (k : nat) : VB := [ffun b : 'I_nb => \col_(j < m) v b (k * m + j)%N].

(** [.squeeze(-1).transpose(0,1).flatten(start_dim=1)], lines 168-170. *)
Definition flat (x : nat -> VB) : tens2 := fun b idx =>
  if insub b is Some b' then
    if insub (idx %% m)%N is Some j then x (idx %/ m)%N b' j 0 else 0
  else 0.

Lemma flatE x (b : 'I_nb) k (j : 'I_m) : flat x b (k * m + j)%N = x k b j 0.
Proof.
have m0 : (0 < m)%N by apply: leq_ltn_trans (ltn_ord j).
rewrite /flat valK modnMDl modn_small // valK divnMDl //.
by rewrite divn_small // addn0.
Qed.

Lemma blkV_flat x k : blkV (flat x) k = x k.
Proof. by apply/ffunP=> b; apply/colP=> j; rewrite !ffunE !mxE flatE. Qed.

(** chunktime.py 153-171, [LUFactorization.forward], for each factorization. *)
Definition lu_forward (mth : direct_method) (nblk : nat) (A B : tens4) (v : tens2)
  : option tens2 :=
  match matvec fops mth nblk (blkM A) (blkM B) (blkV v) with
  | Some (x, _) => Some (flat x)
  | None => None
  end.

(** chunktime.py 452-478, [BidiagonalForwardOperator.forward]. *)
Definition op_forward (A B : tens4) (v : tens2) : tens2 :=
  flat (forward_blocks fops (blkM A) (blkM B) (blkV v)).

(** chunktime.py 445-450, [to_diag]. *)
Definition to_diag (nblk : nat) (A B : tens4) : option (bdm F) :=
  mk_bdm [:: (Z0, (nblk, A)); (Zneg xH, ((nblk - 1)%N, B))] m.

(** chunktime.py 515-523, [solve_dense]; torch.linalg.solve_ex as
    multiplication by the inverse. *)
Definition solve_dense (nblk : nat) (A B : tens4) (v : tens2) : option tens2 :=
  match to_diag nblk A B with
  | None => None
  | Some D => Some (fun b idx =>
      if insub idx is Some i then
        (invmx (\matrix_(r < nblk * m, c < nblk * m) to_dense 0 D b r c)
          *m \col_(r < nblk * m) v b r) (i : 'I_(nblk * m)) 0
      else 0)
  end.

End Ops.

(** chunktime.py 487-534, [ChunkTimeOperatorSolverContext] (with the
    inverse_operator chosen by the integrator). *)
Inductive lin_method := Dense | Direct (mth : direct_method).

Definition ctx_solve (lm : lin_method) (nb m nblk : nat) (A B : tens4) (v : tens2)
  : option tens2 :=
  match lm with
  | Dense => solve_dense m nblk A B v
  | Direct mth => lu_forward nb m mth nblk A B v
  end.

(** ** Specification *)

(** Row [i] of block row [k] of the system, batch entry [b]. *)
Definition bidiag_row (m : nat) (A B : tens4) (r : tens2) (b k i : nat) : F :=
  \sum_(j < m) A k b i j * r b (k * m + j)%N
  + (if k is k'.+1 then \sum_(j < m) B k' b i j * r b (k' * m + j)%N else 0).

(** [r] solves the block bidiagonal system with right-hand side [v]. *)
Definition bidiag_system (nb m nblk : nat) (A B : tens4) (v r : tens2) : Prop :=
  forall b k i, (b < nb)%N -> (k < nblk)%N -> (i < m)%N ->
    bidiag_row m A B r b k i = v b (k * m + i)%N.

Definition nonsing_blocks (nb m nblk : nat) (A : tens4) : Prop :=
  forall k b, (k < nblk)%N -> (b < nb)%N -> (\matrix_(i < m, j < m) A k b i j) \in unitmx.

(** ** Proofs *)
Lemma blkM_nonsing nb m nblk A : nonsing_blocks nb m nblk A ->
  forall k, (k < nblk)%coq_nat -> nonsing (blkM nb m A k).
Proof. by move=> H k /ltP kn b; rewrite ffunE; apply: H. Qed.

Lemma system_blocks nb m nblk A B v r : (0 < nblk)%N ->
  bidiag_system nb m nblk A B v r <->
  bidiag_solution (fops nb m) nblk (blkM nb m A) (blkM nb m B) (blkV nb m v) (blkV nb m r).
Proof.
move=> n0; split.
- move=> H; split.
  + move=> _; apply/ffunP=> b; apply/colP=> i; rewrite !ffunE !mxE.
    have := H b 0%N i (ltn_ord b) n0 (ltn_ord i); rewrite /bidiag_row addr0 => <-.
    by apply: eq_bigr => j _; rewrite !mxE.
  + move=> k /ltP kn; apply/ffunP=> b; apply/colP=> i; rewrite !ffunE !mxE.
    have := H b k.+1 i (ltn_ord b) kn (ltn_ord i); rewrite /bidiag_row => <-.
    by congr (_ + _); apply: eq_bigr => j _; rewrite !mxE.
- move=> [H0 H1] b k i bn kn im.
  pose b' := Ordinal bn; pose i' := Ordinal im.
  case: k kn => [|k] kn.
  + have /ffunP/(_ b')/colP/(_ i') := H0 (elimT ltP n0); rewrite !ffunE !mxE /bidiag_row addr0 => <-.
    by apply: eq_bigr => j _; rewrite !mxE.
  + have /ffunP/(_ b')/colP/(_ i') := H1 k (elimT ltP kn); rewrite !ffunE !mxE /bidiag_row => <-.
    by congr (_ + _); apply: eq_bigr => j _; rewrite !mxE.
Qed.

Lemma bidiag_solution_ext nb m nblk A B v (x y : nat -> VB nb m) : (forall k, x k = y k) ->
  bidiag_solution (fops nb m) nblk A B v x -> bidiag_solution (fops nb m) nblk A B v y.
Proof. by move=> E [H0 H1]; split=> [h|i h]; rewrite -!E; [apply: H0|apply: H1]. Qed.

(** Every direct method solves the system, and the solution is unique. *)
Lemma lu_forward_correct nb m nblk mth A B v : (0 < nblk)%N -> nonsing_blocks nb m nblk A ->
  exists r, lu_forward nb m mth nblk A B v = Some r /\ bidiag_system nb m nblk A B v r.
Proof.
move=> n0 HA.
have [x [B' [E S]]] := @matvec_spec _ _ _ _ (fops_laws nb m) mth nblk (blkM nb m A) (blkM nb m B)
  (blkV nb m v) (blkM_nonsing HA) (elimT ltP n0).
exists (flat x); split; first by rewrite /lu_forward E.
apply/system_blocks=> //; apply: bidiag_solution_ext S => k; by rewrite blkV_flat.
Qed.

Lemma bidiag_system_unique nb m nblk A B v r r' : nonsing_blocks nb m nblk A ->
  bidiag_system nb m nblk A B v r -> bidiag_system nb m nblk A B v r' ->
  forall b idx, (b < nb)%N -> (idx < nblk * m)%N -> r b idx = r' b idx.
Proof.
move=> HA S S' b idx bn idxn.
have m0 : (0 < m)%N by case: (m) idxn => // ; rewrite muln0.
have n0 : (0 < nblk)%N by case: (nblk) idxn.
have kn : (idx %/ m < nblk)%N by rewrite ltn_divLR.
have := @solution_unique _ _ _ _ (fops_laws nb m) _ _ _ _ _ _ (blkM_nonsing HA)
   (proj1 (@system_blocks nb m nblk A B v r n0) S) (proj1 (@system_blocks nb m nblk A B v r' n0) S') _ (elimT ltP kn).
move=> /ffunP/(_ (Ordinal bn))/colP/(_ (Ordinal (ltn_pmod idx m0))).
by rewrite !ffunE !mxE /= -divn_eq.
Qed.

(** Sum over a flat index is a sum over blocks. *)
Lemma sum_blocks (nblk m : nat) (f : nat -> F) :
  \sum_(c < nblk * m) f c = \sum_(k < nblk) \sum_(j < m) f (k * m + j)%N.
Proof.
elim: nblk => [|n IH]; first by rewrite mul0n !big_ord0.
rewrite big_ord_recr /= -IH -[n.+1]addn1 mulnDl mul1n.
by rewrite big_split_ord.
Qed.

Lemma to_diag_ok m nblk A B : (0 < nblk)%N ->
  exists D, to_diag m nblk A B = Some D /\ bd_n D = (nblk * m)%N /\
  forall b k l i j, (k < nblk)%N -> (l < nblk)%N -> (i < m)%N -> (j < m)%N ->
   to_dense 0 D b (k * m + i)%N (l * m + j)%N =
     if l == k then A k b i j else if l.+1 == k then B l b i j else 0.
Proof.
move=> n0.
case: (posnP nblk.-1) => [n1|n1].
- (* one block: the -1 diagonal has length zero *)
  have {n1} -> : nblk = 1%N by case: nblk n0 n1 => [|[|]].
  rewrite /to_diag /mk_bdm /=.
  eexists; split; first reflexivity.
  split; first by [].
  move=> b [|//] [|//] i j _ _ im jm /=.
  rewrite /to_dense /= !mul0n !add0n /write_block /=.
  rewrite !PeanoNat.Nat.add_0_r.
  have -> : PeanoNat.Nat.ltb i m by apply/PeanoNat.Nat.ltb_lt/ltP.
  have -> : PeanoNat.Nat.ltb j m by apply/PeanoNat.Nat.ltb_lt/ltP.
  by rewrite /= !PeanoNat.Nat.sub_0_r.
have H : diag_input nblk [:: (Z0, (nblk, A)); (Zneg xH, ((nblk - 1)%N, B))].
{ split; [|split].
  - constructor; first by case=> //.
    constructor=> //; by constructor.
  - by [].
  - move=> d t [[<- <-]|[[<- <-]|//]] /=.
    + split; [by apply/ltP|by rewrite PeanoNat.Nat.sub_0_r].
    + split=> //. change (Pos.to_nat 1) with 1%N. apply/ltP. by case: (nblk) n1 => [|[|]]. }
have [D [E [En S]]] := @to_dense_spec _ (0 : F) _ m _ H.
exists D; split=> //; split=> // b k l i j kn ln im jm.
have := S k l b i j (elimT ltP kn) (elimT ltP ln) (elimT ltP im) (elimT ltP jm).
case=> [[len [f [Hin ->]]]|[Hn ->]].
- case: Hin => [[Ed _ <-]|[[Ed _ <-]|//]].
  + have e : l = k by lia. by rewrite e eqxx PeanoNat.Nat.min_id.
  + have e : l.+1 = k by lia. rewrite -e eqxx ltn_eqF //.
    by rewrite PeanoNat.Nat.min_r //; lia.
- have [e|_] := eqVneq l k.
    by case: Hn; left; rewrite e BinInt.Z.sub_diag.
  have [e|//] := eqVneq l.+1 k.
  by case: Hn; right; left; rewrite -e /=; lia.
Qed.

(** The dense matrix of the operator, applied to [r], is the bidiagonal row. *)
Lemma dense_row m nblk A B D (r : tens2) b k i : to_diag m nblk A B = Some D -> (0 < nblk)%N ->
  (k < nblk)%N -> (i < m)%N ->
  \sum_(c < nblk * m) to_dense 0 D b (k * m + i)%N c * r b c = bidiag_row m A B r b k i.
Proof.
move=> E n0 kn im. have [D' [E' [_ S]]] := to_diag_ok m A B n0.
move: E'; rewrite E => -[Q]; subst D'.
rewrite (sum_blocks nblk m (fun c => to_dense 0 D b (k * m + i)%N c * r b c)).
have -> : \sum_(l < nblk) \sum_(j < m) to_dense 0 D b (k * m + i)%N (l * m + j)%N * r b (l * m + j)%N
  = \sum_(l < nblk) ((if l == k :> nat then \sum_(j < m) A k b i j * r b (l * m + j)%N else 0)
     + (if l.+1 == k then \sum_(j < m) B l b i j * r b (l * m + j)%N else 0)).
{ apply: eq_bigr => l _.
  have [e|ne] := eqVneq (l : nat) k.
  - have -> : (l.+1 == k) = false by rewrite e; apply/eqP; lia.
    rewrite addr0; apply: eq_bigr => j _; rewrite S //; by rewrite e eqxx.
  - rewrite add0r. case: ifP => h.
    + apply: eq_bigr => j _; rewrite S //. by rewrite (negbTE ne) h.
    + rewrite big1 // => j _; rewrite S //. by rewrite (negbTE ne) h mul0r. }
rewrite big_split /= /bidiag_row; congr (_ + _).
- rewrite (bigD1 (Ordinal kn)) //= eqxx [X in _ + X]big1 ?addr0 // => l ne.
  by case: eqP => // e; case/eqP: ne; apply: val_inj.
- case: k kn => [|k] kn.
  + by rewrite big1.
  + have kn' : (k < nblk)%N by apply: ltnW.
    rewrite (bigD1 (Ordinal kn')) //= eqxx [X in _ + X]big1 ?addr0 // => l ne.
    rewrite eqSS; by case: eqP => // e; case/eqP: ne; apply: val_inj.
Qed.

Lemma op_forward_row nb m A B v b k i : (b < nb)%N -> (i < m)%N ->
  op_forward nb m A B v b (k * m + i)%N = bidiag_row m A B v b k i.
Proof.
move=> bn im. rewrite /op_forward.
have -> := flatE (forward_blocks (fops nb m) (blkM nb m A) (blkM nb m B) (blkV nb m v))
              (Ordinal bn) k (Ordinal im).
case: k => [|k] /=; rewrite !ffunE !mxE /bidiag_row.
- by rewrite addr0; apply: eq_bigr => j _; rewrite ?ffunE !mxE.
- by congr (_ + _); apply: eq_bigr => j _; rewrite ?ffunE !mxE.
Qed.

(** The dense matrix is invertible when the diagonal blocks are. *)
Lemma dense_unit nb m nblk A B D b : (0 < nblk)%N -> (b < nb)%N -> nonsing_blocks nb m nblk A ->
  to_diag m nblk A B = Some D ->
  (\matrix_(r < nblk * m, c < nblk * m) to_dense 0 D b r c) \in unitmx.
Proof.
move=> n0 bn HA E. set DM := (\matrix_(r, c) _).
have ex (v : tens2) : exists r, bidiag_system nb m nblk A B v r.
  by have [r [_ S]] := lu_forward_correct Thomas B v n0 HA; exists r.
have sol (c : 'I_(nblk * m)) : exists x : 'cV[F]_(nblk * m), DM *m x = delta_mx c 0.
{ have [r S] := ex (fun _ idx => (idx == c :> nat)%:R).
  exists (\col_i r b i); apply/colP => i; rewrite !mxE.
  have m0 : (0 < m)%N by rewrite lt0n; apply/eqP => e; have := ltn_ord c; rewrite {2}e muln0.
  have kn : (i %/ m < nblk)%N by rewrite ltn_divLR.
  have := S b (i %/ m)%N (i %% m)%N bn kn (ltn_pmod i m0).
  rewrite -(dense_row _ _ E n0 kn (ltn_pmod i m0)) -divn_eq andbT => <-.
  by apply: eq_bigr => j _; rewrite !mxE. }
have [X HX] : exists X : 'M[F]_(nblk * m), forall c, DM *m col c X = delta_mx c 0.
{ have /fin_all_exists [f Hf] := sol.
  exists (\matrix_(i, j) f j i 0) => c; rewrite -[RHS]Hf; congr (_ *m _).
  by apply/colP=> i; rewrite !mxE. }
have H1 : DM *m X = 1%:M.
{ apply/matrixP => i j. have /colP/(_ i) := HX j.
  rewrite !mxE andbT -[RHS]/((i == j)%:R) => <-; apply: eq_bigr => k _; by rewrite !mxE. }
by case: (mulmx1_unit H1).
Qed.

Lemma solve_dense_correct nb m nblk A B v : (0 < nblk)%N -> nonsing_blocks nb m nblk A ->
  exists r, solve_dense m nblk A B v = Some r /\ bidiag_system nb m nblk A B v r.
Proof.
move=> n0 HA. have [D [E _]] := to_diag_ok m A B n0.
rewrite /solve_dense E; eexists; split; first reflexivity.
move=> b k i bn kn im.
rewrite -(dense_row _ _ E n0 kn im).
have U := dense_unit n0 bn HA E.
set DM := (\matrix_(r, c) _) in U *.
have lt : (k * m + i < nblk * m)%N.
  by apply: leq_trans (_ : k.+1 * m <= _)%N; [rewrite mulSn addnC ltn_add2r|rewrite leq_mul2r kn orbT].
have /colP/(_ (Ordinal lt)) : DM *m (invmx DM *m \col_(r < nblk * m) v b r) = \col_(r < nblk * m) v b r
  by rewrite mulKVmx.
rewrite [RHS]mxE /= => <-; rewrite mxE; apply: eq_bigr => c _.
by rewrite valK [in RHS]mxE.
Qed.

Lemma ctx_solve_correct lm nb m nblk A B v : (0 < nblk)%N -> nonsing_blocks nb m nblk A ->
  exists r, ctx_solve lm nb m nblk A B v = Some r /\ bidiag_system nb m nblk A B v r.
Proof.
by case: lm => [|mth] n0 HA; [apply: solve_dense_correct|apply: lu_forward_correct].
Qed.

Lemma ctx_solve_agree lm lm' nb m nblk A B v : (0 < nblk)%N -> nonsing_blocks nb m nblk A ->
  exists r r', ctx_solve lm nb m nblk A B v = Some r /\ ctx_solve lm' nb m nblk A B v = Some r' /\
    forall b idx, (b < nb)%N -> (idx < nblk * m)%N -> r b idx = r' b idx.
Proof.
move=> n0 HA. have [r [E S]] := ctx_solve_correct lm B v n0 HA.
have [r' [E' S']] := ctx_solve_correct lm' B v n0 HA.
exists r, r'; split=> //; split=> //; exact: bidiag_system_unique HA S S'.
Qed.

Lemma op_forward_dense nb m nblk A B D (v : tens2) b r : to_diag m nblk A B = Some D -> (0 < nblk)%N ->
  (b < nb)%N -> (r < nblk * m)%N ->
  op_forward nb m A B v b r = \sum_(c < nblk * m) to_dense 0 D b r c * v b c.
Proof.
move=> E n0 bn rn.
have m0 : (0 < m)%N by case: (m) rn => //; rewrite muln0.
have kn : (r %/ m < nblk)%N by rewrite ltn_divLR.
rewrite [in LHS](divn_eq r m) op_forward_row ?ltn_pmod //.
by rewrite -(dense_row _ _ E n0 kn) ?ltn_pmod // -divn_eq.
Qed.

Lemma inverse_forward lm nb m nblk A B v : (0 < nblk)%N -> nonsing_blocks nb m nblk A ->
  exists r, ctx_solve lm nb m nblk A B (op_forward nb m A B v) = Some r /\
    forall b idx, (b < nb)%N -> (idx < nblk * m)%N -> r b idx = v b idx.
Proof.
move=> n0 HA. have [r [E S]] := ctx_solve_correct lm B (op_forward nb m A B v) n0 HA.
exists r; split=> //; apply: bidiag_system_unique HA S _.
by move=> b k i bn kn im; rewrite op_forward_row.
Qed.

(** Thomas factorization objects can be reused. *)
Definition lu_forward_seq (mth : direct_method) (nb m nblk : nat) (A B : tens4) (vs : seq tens2)
  : option (seq tens2) :=
  match matvec_seq (fops nb m) mth nblk (blkM nb m A) (blkM nb m B) (map (blkV nb m) vs) with
  | Some xs => Some (map (@flat nb m) xs)
  | None => None
  end.

Lemma thomas_seq_correct nb m nblk A B vs : (0 < nblk)%N -> nonsing_blocks nb m nblk A ->
  exists rs, lu_forward_seq Thomas nb m nblk A B vs = Some rs /\
    Forall2 (fun v r => bidiag_system nb m nblk A B v r) vs rs.
Proof.
move=> n0 HA.
have [xs [E S]] := @thomas_seq _ _ _ _ (fops_laws nb m) nblk (blkM nb m A) (blkM nb m B)
   (map (blkV nb m) vs) (elimT ltP n0) (blkM_nonsing HA).
rewrite /lu_forward_seq E; eexists; split; first reflexivity.
elim: vs xs S {E} => [|v vs IH] xs S; inversion S; subst; simpl; constructor.
- apply/system_blocks=> //; match goal with H : bidiag_solution _ _ _ _ _ _ |- _ =>
    apply: bidiag_solution_ext H => k; by rewrite blkV_flat end.
- by apply: IH.
Qed.

(** The caller's right-hand side tensor after [M(v)] (lines 153-171): if the
    reshaped view is already contiguous the solve works in its storage. *)
Definition caller_rhs_after (mth : direct_method) (nb m nblk : nat) (A B : tens4) (v : tens2)
  : option tens2 :=
  if forward_view_contiguous nb nblk m then
    match matvec_storage (fops nb m) mth nblk (blkM nb m A) (blkM nb m B) (blkV nb m v) with
    | Some x => Some (@flat nb m x)
    | None => None
    end
  else Some v.

Lemma contiguous_iff nb nblk m : (0 < m)%N -> (0 < nblk)%N -> (0 < nb)%N ->
  forward_view_contiguous nb nblk m = (nb == 1%N) || (nblk == 1%N).
Proof.
have E n k : PeanoNat.Nat.eqb n k = (n == k) by apply/PeanoNat.Nat.eqb_spec/eqP.
move=> m0 n0 b0. rewrite /forward_view_contiguous /contig_rev PeanoNat.Nat.eqb_refl !E.
have K : PeanoNat.Nat.mul 1 m = m by rewrite PeanoNat.Nat.mul_1_l.
have -> : (if m == 1%N then
     if nb == 1%N then if nblk == 1%N then true else if m == 1%N then true else false
     else if PeanoNat.Nat.mul nblk m == 1%N then
        if nblk == 1%N then true else if m == PeanoNat.Nat.mul 1 nb then true else false else false
   else if 1%N == 1%N then
     if nb == 1%N then if nblk == 1%N then true else if m == PeanoNat.Nat.mul 1 m then true else false
     else if PeanoNat.Nat.mul nblk m == PeanoNat.Nat.mul 1 m then
        if nblk == 1%N then true
        else if m == PeanoNat.Nat.mul (PeanoNat.Nat.mul 1 m) nb then true else false else false else false)
  = (nb == 1%N) || (nblk == 1%N); last by [].
rewrite !K eqxx.
have -> : PeanoNat.Nat.mul nblk m = (nblk * m)%N by rewrite multE.
have [->|m1] := eqVneq m 1%N; have [_|b1] := eqVneq nb 1%N => //=.
- by case: ifP.
- by rewrite muln1; case: (nblk == 1%N).
- by rewrite eqxx; case: (nblk == 1%N).
- have [->|n1] := eqVneq nblk 1%N; first by rewrite mul1n eqxx.
  by rewrite -{2}[m]mul1n eqn_pmul2r // (negbTE n1).
Qed.

Lemma caller_rhs_kept mth nb m nblk A B v : (0 < m)%N -> (1 < nblk)%N -> (1 < nb)%N ->
  caller_rhs_after mth nb m nblk A B v = Some v.
Proof.
move=> m0 n1 b1; rewrite /caller_rhs_after contiguous_iff //; try by apply: ltnW.
by rewrite (gtn_eqF b1) (gtn_eqF n1).
Qed.

Lemma caller_rhs_overwritten nb m nblk A B v : (0 < m)%N -> (0 < nblk)%N -> (0 < nb)%N ->
  nb = 1%N \/ nblk = 1%N ->
  caller_rhs_after Thomas nb m nblk A B v = lu_forward nb m Thomas nblk A B v.
Proof.
move=> m0 n0 b0 H; rewrite /caller_rhs_after contiguous_iff //.
have -> // : (nb == 1%N) || (nblk == 1%N) by case: H => ->; rewrite eqxx ?orbT.
Qed.

End Inst.

(** ** Reuse of PCR / hybrid objects: counterexample *)
Section Reuse.
Definition one4 : tens4 [fieldType of rat] := fun _ _ i j => (i == j)%:R.
Definition e0 : tens2 [fieldType of rat] := fun _ idx => (idx == 0%N)%:R.

Lemma one4_nonsing nb m nblk : nonsing_blocks nb m nblk one4.
Proof.
move=> k b _ _. suff -> : (\matrix_(i < m, j < m) one4 k b i j) = 1%:M by apply: unitmx1.
by apply/matrixP=> i j; rewrite !mxE.
Qed.

Lemma blkM_one nb m k : blkM nb m one4 k = [ffun b => 1%:M].
Proof. by apply/ffunP=> b; rewrite !ffunE; apply/matrixP=> i j; rewrite !mxE. Qed.

Lemma reuse_wrong mth : mth = PCR \/ mth = Hybrid 0 -> forall rs,
  lu_forward_seq mth 1 1 4 one4 one4 [:: e0; e0] = Some rs ->
  ~ Forall2 (fun v r => bidiag_system 1 1 4 one4 one4 v r) [:: e0; e0] rs.
Proof.
move=> Hm rs.
pose ops := fops [fieldType of rat] 1 1. pose M := blkM 1 1 one4.
have [x [B' [E [B0 [B1 B2]]]]] : exists r B', matvec ops mth 4 M M (blkV 1 1 e0) = Some (r, B') /\
  B' 0%N = M 0%N /\
  B' 1%N = bopp ops (bmul ops (M 1%N) (bsolveM ops (M 1%N) (M 0%N))) /\
  B' 2%N = bopp ops (bmul ops (M 2%N) (bsolveM ops (M 2%N) (M 1%N))).
{ by case: Hm => ->; [exact: pcr4_B|exact: hybrid4_B]. }
have [x2 [B2' [E2 S2]]] := @matvec_spec _ _ _ _ (fops_laws [fieldType of rat] 1 1) mth 4 M B'
   (blkV 1 1 e0) (blkM_nonsing (@one4_nonsing 1 1 4)) (PeanoNat.Nat.lt_0_succ 3).
rewrite /lu_forward_seq /=. rewrite -/ops -/M E E2 => -[<-] H.
inversion H as [|? ? ? ? _ H2]; subst. inversion H2 as [|? ? ? ? S _]; subst => {H H2}.
move/system_blocks: S => /(_ isT) [R0 R1]. case: S2 => [Q0 Q1].
have lt i : (i < 4)%N -> (i < 4)%coq_nat by move/ltP.
have := R1 0%N (lt 1%N isT). have := R1 1%N (lt 2%N isT).
have := Q1 0%N (lt 1%N isT). have := Q1 1%N (lt 2%N isT).
have := Q0 (lt 0%N isT).
rewrite B0 B1 !blkV_flat /M !blkM_one /=.
move=> /ffunP/(_ ord0)/colP/(_ ord0); rewrite !ffunE mul1mx [RHS]mxE /= => X0.
move=> /ffunP/(_ ord0)/colP/(_ ord0); rewrite !ffunE invmx1 !mul1mx mulNmx mul1mx !mxE /= => X2.
move=> /ffunP/(_ ord0)/colP/(_ ord0); rewrite !ffunE !mul1mx !mxE /= => X1.
move=> /ffunP/(_ ord0)/colP/(_ ord0); rewrite !ffunE !mul1mx !mxE /= => Y2 _.
move: Y2 X2 X1; rewrite X0. move: (x2 1%N ord0 ord0 0) (x2 2%N ord0 ord0 0) => a c.
move=> /eqP; rewrite addr_eq0 => /eqP -> /eqP; rewrite subr_eq0 => /eqP h /eqP.
rewrite addr_eq0 => /eqP e. move: h; rewrite e opprK => /eqP; by [].
Qed.

Lemma rhs_lost : exists w, caller_rhs_after Thomas 1 1 2 one4 one4 e0 = Some w /\
  w 0%N 1%N <> e0 0%N 1%N.
Proof.
rewrite caller_rhs_overwritten //; last by left.
have [r [-> S]] := lu_forward_correct Thomas one4 e0 (isT : (0 < 2)%N) (@one4_nonsing 1 1 2).
exists r; split=> //.
have := S 0%N 0%N 0%N isT isT isT. have := S 0%N 1%N 0%N isT isT isT.
rewrite /bidiag_row !big_ord_recl !big_ord0 /one4 /e0 /= !mul1r !addr0 => Q Q0.
have {}Q0 : r 0%N 0%N = 1 by exact: Q0.
have {}Q : r 0%N 1%N + r 0%N 0%N = 0 by exact: Q.
move/eqP: Q; rewrite Q0 addr_eq0 => /eqP ->; by [].
Qed.
End Reuse.
