(** Rows of a simulation only depend on the rows up to them: two integrations (ode.py 354-519) whose functions and times agree on the first
    blocks make the same decisions and write the same values there. *)
From Coq Require Import Reals List String Lia.
From mathcomp Require Import all_ssreflect all_algebra.
From Verif Require Import ChunkModel ChunkSolve ChunkInst BlockDiag NewtonModel Ode OdeForward RField OdeReal OdeBlock NewtonLocal ChunkRel.
Import GRing.Theory.
Set Implicit Arguments. Unset Strict Implicit. Unset Printing Implicit Defensive.
Local Open Scope ring_scope.

Section Lin.
Variables (F : fieldType) (nb m : nat).
Lemma blkVE (x : tens2 F) k (b : 'I_nb) (j : 'I_m) : blkV nb m x k b j 0 = x b (k * m + j)%N.
Proof. by rewrite ffunE mxE. Qed.
(** Two flat vectors with the same first n blocks. *)
Definition sameV (n : nat) (x x' : tens2 F) : Prop := forall k, (k < n)%N -> blkV nb m x k = blkV nb m x' k.
Lemma sameV_entry n x x' b idx : sameV n x x' -> (b < nb)%N -> (idx < n * m)%N -> x b idx = x' b idx.
Proof.
move=> H bn il; have m0 : (0 < m)%N by move: il; case: (m) => //; rewrite muln0.
have kl : (idx %/ m < n)%N by rewrite ltn_divLR.
have := H _ kl; move=> /ffunP/(_ (Ordinal bn))/colP/(_ (Ordinal (ltn_pmod idx m0))).
by rewrite !ffunE !mxE /= -divn_eq.
Qed.
Lemma sub_same n (x x' d d' : tens2 F) : sameV n x x' -> sameV n d d' -> sameV n (tsub x d) (tsub x' d').
Proof.
move=> H L k kn; have E := L k kn; have E' := H k kn.
apply/ffunP => b; apply/colP => j; move: E E' => /ffunP/(_ b)/colP/(_ j) E /ffunP/(_ b)/colP/(_ j).
rewrite !blkVE => E'; move: E; rewrite !blkVE => E; by rewrite /tsub E E'.
Qed.
Lemma linsolve_local lm n (A A' B B' : nat -> MB F nb m) r r' : (0 < n)%N ->
  (forall k, (k < n)%N -> A k = A' k) -> (forall k, (k.+1 < n)%N -> B k = B' k) -> sameV n r r' ->
  sameV n (block_linsolve lm n (A, B) r) (block_linsolve lm n (A', B') r').
Proof.
move=> n0 HA HB Hr; case: lm => [|mth].
- rewrite /block_linsolve -[(A, B).1]/A -[(A, B).2]/B -[(A', B').1]/A' -[(A', B').2]/B' /ctx_solve /solve_dense.
  have [D [-> [_ S]]] := @to_diag_ok F m n (unblkM A) (unblkM B) n0.
  have [D' [-> [_ S']]] := @to_diag_ok F m n (unblkM A') (unblkM B') n0.
  move=> k kn; apply/ffunP => b; apply/colP => j; rewrite !ffunE !mxE; case: insubP => // u _ _.
  have -> : \matrix_(r0 < n * m, c < n * m) to_dense 0 D b r0 c = \matrix_(r0 < n * m, c < n * m) to_dense 0 D' b r0 c.
  { apply/matrixP => p q; rewrite !mxE.
    have m0 : (0 < m)%N by exact: leq_ltn_trans (ltn_ord j).
    have pl : (p %/ m < n)%N by rewrite ltn_divLR. have ql : (q %/ m < n)%N by rewrite ltn_divLR.
    rewrite (divn_eq p m) (divn_eq q m) S ?ltn_pmod // S' ?ltn_pmod //.
    rewrite /unblkM HA //; case: ifP => // _; case: eqP => // e; rewrite HB // e //. }
  have -> // : \col_(r0 < n * m) r b r0 = \col_(r0 < n * m) r' b r0.
  by apply/colP => p; rewrite !mxE; apply: sameV_entry Hr _ _.
- rewrite /block_linsolve /= /lu_forward.
  have EM (C : nat -> MB F nb m) : blkM nb m (unblkM C) = C by apply: FunctionalExtensionality.functional_extensionality => k; exact: blkM_unblkM.
  rewrite !EM.
  have := @matvec_agr _ _ (fops F nb m) mth n A A' B B' (blkV nb m r) (blkV nb m r') (elimT ltP n0) (fun k h => HA k (introT ltP h))
    (fun k h => HB k ltac:(apply/ltP; have := elimT ltP n0; lia)) (fun k h => Hr k (introT ltP h)).
  case: (matvec _ _ _ _ _ _) => [[x Bx]|]; case: (matvec _ _ _ _ _ _) => [[x' Bx']|] //.
  by move=> H k kn; rewrite !blkV_flat; apply: H; apply/ltP.
Qed.
End Lin.

Section Run.
Variables (nb m : nat).
Notation vb := (VB RF nb m).
Notation mb := (MB RF nb m).
Notation fnG := (nat -> (nat -> TB RF nb) -> (nat -> vb) -> (nat -> vb) * (nat -> mb)).
Lemma nrmR_local n (v v' : tens2 RF) : sameV nb m n v v' -> nrmR nb m n v = nrmR nb m n v'.
Proof.
move=> H; rewrite /nrmR; apply/eq_in_map => b; rewrite mem_iota add0n => bn; congr (Num (sqrt _)).
by rewrite /sumsq; apply: eq_bigr => i _; rewrite (@sameV_entry RF nb m n v v').
Qed.

(** A call on the rows 0..n of a block gives the same rows for the same times and states. *)
Definition same_calls (G G' : fnG) (n : nat) (T T' : nat -> TB RF nb) : Prop :=
  forall Y Y', (forall j, (j <= n)%N -> Y j = Y' j) -> forall j, (j <= n)%N ->
    (G n.+1 T Y).1 j = (G' n.+1 T' Y').1 j /\ (G n.+1 T Y).2 j = (G' n.+1 T' Y').2 j.

Section Block.
Variables (G G' : fnG) (s : scheme) (n : nat) (t0 : TB RF nb) (ts ts' : nat -> TB RF nb) (ystart : vb).
Hypotheses (n0 : (0 < n)%N) (HT : forall j, (j < n)%N -> ts j = ts' j) (HG : same_calls G G' n (block_times t0 ts) (block_times t0 ts')).
Let fn := block_RJG G s n t0 ts ystart.
Let fn' := block_RJG G' s n t0 ts' ystart.
Lemma dys_same (x x' : tens2 RF) : sameV nb m n x x' -> forall j, (j <= n)%N -> dys nb m x j = dys nb m x' j.
Proof. by move=> H [|j] jn //=; apply: H. Qed.
Lemma ys_same (x x' : tens2 RF) : sameV nb m n x x' -> forall j, (j <= n)%N -> ys x ystart j = ys x' ystart j.
Proof. by move=> H j jn; rewrite /ys (dys_same H). Qed.
Lemma times_same j : (j <= n)%N -> block_times t0 ts j = block_times t0 ts' j.
Proof. by case: j => [|j] //= jn; apply: HT. Qed.
Lemma tdiff_same j : (j < n)%N -> tdiff (block_times t0 ts) j = tdiff (block_times t0 ts') j.
Proof. by move=> jn; apply/ffunP => b; rewrite /tdiff !ffunE (times_same jn) (times_same (ltnW jn)). Qed.
Lemma res_same (x x' : tens2 RF) : sameV nb m n x x' -> sameV nb m n (fst (fn x)) (fst (fn' x')).
Proof.
move=> H k kn; rewrite /fn /fn' /block_RJG [fst _]/= [fst (flat _, _)]/= !blkV_flat.
apply/eq_ffun => b; rewrite (tdiff_same kn) (dys_same H kn) (dys_same H (ltnW kn)).
by case: s; [have [-> _] := HG (ys_same H) kn|have [-> _] := HG (ys_same H) (ltnW kn)].
Qed.
Lemma upd_same (x x' : tens2 RF) lm : sameV nb m n x x' ->
  sameV nb m n (tsub x (block_linsolve lm n (snd (fn x)) (fst (fn x)))) (tsub x' (block_linsolve lm n (snd (fn' x')) (fst (fn' x')))).
Proof.
move=> H.
have L : sameV nb m n (block_linsolve lm n (snd (fn x)) (fst (fn x))) (block_linsolve lm n (snd (fn' x')) (fst (fn' x'))).
{ apply: linsolve_local => // [k kn|k kn|]; last exact: res_same.
  - apply/eq_ffun => b; rewrite (tdiff_same kn); by case: s => //; have [_ ->] := HG (ys_same H) kn.
  - apply/eq_ffun => b; case: s => //; rewrite (tdiff_same kn); by have [_ ->] := HG (ys_same H) (ltnW kn). }
exact: sub_same H L.
Qed.
Lemma block_same lm rtol atol miter throw g g' : sameV nb m n g g' ->
  out_rel (fun o o' => forall k, (k < n)%N -> o k = o' k)
    (block_updateG G s lm (nrmR nb m) rtol atol miter throw n t0 ts ystart g) (block_updateG G' s lm (nrmR nb m) rtol atol miter throw n t0 ts' ystart g').
Proof.
move=> Hg; have := @chunk_rel _ _ _ fn fn' (nrmR nb m n) (nrmR nb m n) rtol atol (block_linsolve lm n) (block_linsolve lm n) (@tsub RF) (@tsub RF) (sameV nb m n)
  (fun x x' h => nrmR_local (res_same h)) (fun x x' h => upd_same lm h) miter throw g g' Hg.
rewrite /block_updateG -/fn -/fn'; case: (newton_raphson_chunk fn _ _ _ _ _ _ _ _) => [r|r|]; case: (newton_raphson_chunk fn' _ _ _ _ _ _ _ _) => [r'|r'|] //= H k kn; by rewrite H.
Qed.
End Block.

Section Loop.
Variables (G G' : fnG) (s : scheme) (lm : lin_method) (rtol atol : R) (miter : nat) (throw : bool) (gt : string) (n nt nt' K : nat) (t t' : nat -> TB RF nb).
Hypotheses (n0 : (0 < n)%N) (Kn : (K < nt)%N) (Kn' : (K < nt')%N) (HT : forall j, (j <= K)%N -> t j = t' j).
Hypothesis HG : forall k, (0 < k)%N -> (k + n <= K.+1)%N ->
  same_calls G G' n (block_times (t (k - 1)%N) (fun j => t (k + j)%N)) (block_times (t (k - 1)%N) (fun j => t' (k + j)%N)).
Notation step G nt t := (int_stepG G s lm (nrmR nb m) rtol atol miter throw gt n nt t).
Notation loop G nt t fuel := (int_loopG G s lm (nrmR nb m) rtol atol miter throw fuel gt n nt t).
(** States that agree on the rows before k. *)
Definition same_upto (k : nat) (st st' : istate RF nb m) : Prop :=
  (forall j, (j < k)%N -> i_result st j = i_result st' j) /\ i_writes st = i_writes st' /\ i_warned st = i_warned st'.
Definition both_sum {A} (P : A -> A -> Prop) (x x' : A + ode_error) : Prop :=
  match x, x' with inl a, inl a' => P a a' | inr e, inr e' => e = e' | _, _ => False end.
Lemma len_full N k : (k + n <= K.+1)%N -> (K < N)%N -> slice_len N k (k + n) = n.
Proof. by move=> a b; rewrite /slice_len (minn_idPl (leq_trans a b)) addKn. Qed.
Lemma step_same k st st' : (0 < k)%N -> (k + n <= K.+1)%N -> same_upto k st st' ->
  both_sum (same_upto (k + n)) (step G nt t k st) (step G' nt' t' k st').
Proof.
move=> k0 kn [Hr [Hw Ha]]; rewrite /int_stepG (len_full kn Kn) (len_full kn Kn').
have k1 : (k - 1 < k)%N by rewrite subn1 ltn_predL.
have GE : exists o, initial_guess gt n nt (i_result st) k = o /\ match o, initial_guess gt n nt' (i_result st') k with
  | Some (l, g), Some (l', g') => l = l' /\ forall j, (j < l)%N -> (l <= n)%N -> g j = g' j | None, None => True | _, _ => False end.
{ eexists; split; first reflexivity; rewrite /initial_guess (len_full kn Kn) (len_full kn Kn').
  case: String.eqb => //; case: String.eqb => //; case: ltnP => h //=.
  have sl N : (K < N)%N -> slice_len N (k - n) k = n.
  { move=> KN; have kN : (k <= N)%N by apply: leq_trans KN; apply: leq_trans kn; exact: leq_addr.
    rewrite /slice_len (minn_idPl kN) subKn //; apply: leq_trans h; exact: leq_addr. }
  rewrite (sl nt Kn) (sl nt' Kn') subnn subn0; split=> // j jn _; rewrite add0n.
  have nk : (n <= k)%N by apply: leq_trans h; exact: leq_addr.
  rewrite !Hr //; last by rewrite -{2}(subnK nk) ltn_add2l.
  apply: leq_ltn_trans (leq_subr _ _) _; rewrite ltn_subrL n0; exact: k0. }
case: GE => [[[l g]|] [-> ]]; case: (initial_guess gt n nt' _ k) => [[l' g']|] //; move=> -[<- Hg].
case: eqP => [ln|//] /=; rewrite ln.
have Hg' : sameV nb m n (flat (fun j => if (j < n)%N then g j else zeroV RF nb m)) (flat (fun j => if (j < n)%N then g' j else zeroV RF nb m)).
{ move=> j jn; rewrite !blkV_flat jn; apply: Hg; rewrite ln //. }
have kK : (k - 1 <= K)%N by rewrite leq_subLR add1n; exact: leq_trans (leq_addr n k) kn.
have B := @block_same G G' s n (t (k - 1)%N) (fun j => t (k + j)%N) (fun j => t' (k + j)%N) (i_result st (k - 1)%N) n0 _ (HG k0 kn) lm rtol atol miter throw _ _ Hg'.
have {B} := B ltac:(by move=> j jn; apply: HT; rewrite -ltnS; apply: leq_trans kn; rewrite ltn_add2l).
rewrite (HT kK) -(Hr _ k1).
case: (block_updateG G _ _ _ _ _ _ _ _ _ _ _ _) => [o|o|]; case: (block_updateG G' _ _ _ _ _ _ _ _ _ _ _ _) => [o'|o'|] //= H;
  (split; [|by rewrite /= Hw Ha]) => j jk /=; case: ifP => hj.
all: try (by apply: H; rewrite ltn_subLR //; case/andP: hj).
all: by apply: Hr; move/negbT: hj; rewrite negb_and -ltnNge jk orbF.
Qed.

Lemma loop_same r : forall fuel fuel' k st st', (0 < k)%N -> (k + r * n)%N = K.+1 -> (r <= fuel)%N -> (r <= fuel')%N -> same_upto k st st' ->
  (exists e, loop G nt t fuel k st = inr e /\ loop G' nt' t' fuel' k st' = inr e) \/
  exists st1 st1', same_upto K.+1 st1 st1' /\ loop G nt t fuel k st = loop G nt t (fuel - r) K.+1 st1 /\ loop G' nt' t' fuel' k st' = loop G' nt' t' (fuel' - r) K.+1 st1'.
Proof.
elim: r => [|r IH] fuel fuel' k st st' k0 E rf rf' H.
- right; exists st, st'; move: E; rewrite mul0n addn0 => <-; by rewrite !subn0.
- case: fuel rf => [//|fuel] rf; case: fuel' rf' => [//|fuel'] rf'.
  have kn : (k + n <= K.+1)%N by rewrite -E mulSn addnA leq_addr.
  have kK : (k <= K)%N by rewrite -ltnS; apply: leq_trans kn; rewrite -[k.+1]addn1 leq_add2l.
  rewrite [int_loopG G _ _ _ _ _ _ _ _ _ _ _ _ _ _]/= (leq_ltn_trans kK Kn) [int_loopG G' _ _ _ _ _ _ _ _ _ _ _ _ _ _]/= (leq_ltn_trans kK Kn') !subSS.
  have := step_same k0 kn H; case: (step G nt t k st) => [s1|e]; case: (step G' nt' t' k st') => [s1'|e'] //=.
  + move=> H1; apply: IH => //; [exact: ltn_addr|by rewrite -addnA -mulSn].
  + by move=> <-; left; exists e.
Qed.
End Loop.

(** Later blocks keep the earlier rows and warnings. *)
Lemma loop_keeps (G : fnG) s lm rtol atol miter throw gt n nt t : (0 < n)%N -> forall fuel k st st',
  int_loopG G s lm (nrmR nb m) rtol atol miter throw fuel gt n nt t k st = inl st' ->
  (forall j, (j < k)%N -> i_result st' j = i_result st j) /\
  exists w, i_warned st' = i_warned st ++ w /\ forall p, p \in w -> (k <= p.1)%N.
Proof.
move=> n0; elim=> [|fuel IH] k st st' /=; case: ifP => kn //.
- by case=> <-; split=> //; exists [::]; rewrite cats0.
- case E : (int_stepG _ _ _ _ _ _ _ _ _ _ _ _ _ _) => [s1|//] /IH[Hr [w [Hw Hp]]].
  have [g [r [_ [_ [R1 [_ W1]]]]]] := int_stepGE E; split.
  + move=> j jk; rewrite Hr ?R1; [by rewrite leqNgt jk|exact: ltn_addr].
  + have w1 : exists w1, i_warned s1 = i_warned st ++ w1 /\ forall p, p \in w1 -> (k <= p.1)%N.
    { case: W1 => [[-> _]|[-> _]]; first by exists [::]; rewrite cats0.
      eexists; split; first reflexivity; by move=> p; rewrite inE => /eqP ->. }
    case: w1 => w1 [E1 P1]; exists (w1 ++ w); split; first by rewrite Hw E1 catA.
    move=> p; rewrite mem_cat => /orP[/P1 //|/Hp h]; apply: leq_trans h; exact: leq_addr.
- by case=> <-; split=> //; exists [::]; rewrite cats0.
Qed.

(** Two integrations whose functions and times agree on the rows up to K = q n, a whole number of blocks. *)
Lemma integrate_same (G G' : fnG) s lm rtol atol miter throw gt n nt nt' q (t t' : nat -> TB RF nb) y0 init init' (K := (q * n)%N) :
  (0 < n)%N -> (K < nt)%N -> (K < nt')%N -> (forall j, (j <= K)%N -> t j = t' j) ->
  (forall k, (0 < k)%N -> (k + n <= K.+1)%N -> same_calls G G' n (block_times (t (k - 1)%N) (fun j => t (k + j)%N)) (block_times (t (k - 1)%N) (fun j => t' (k + j)%N))) ->
  let x := integrateG G s lm (nrmR nb m) rtol atol miter throw gt n nt t y0 init in
  let x' := integrateG G' s lm (nrmR nb m) rtol atol miter throw gt n nt' t' y0 init' in
  (exists e, x = inr e /\ x' = inr e) \/
  exists rows warned, 
    (forall st, x = inl st -> (forall j, (j <= K)%N -> i_result st j = rows j) /\ [seq p <- i_warned st | (p.1 <= K)%N] = warned) /\
    (forall st', x' = inl st' -> (forall j, (j <= K)%N -> i_result st' j = rows j) /\ [seq p <- i_warned st' | (p.1 <= K)%N] = warned) /\
    (nt = K.+1 -> exists st, x = inl st) /\ (nt' = K.+1 -> exists st, x' = inl st).
Proof.
move=> n0 Kn Kn' HT HG x x'.
have nt0 : (0 < nt)%N by exact: leq_ltn_trans Kn. have nt0' : (0 < nt')%N by exact: leq_ltn_trans Kn'.
have qK : (q <= K)%N by rewrite /K leq_pmulr.
rewrite /x /x' /integrateG (gtn_eqF nt0) (gtn_eqF nt0') (gtn_eqF n0).
have [[e [-> ->]]|[s1 [s1' [[Hr [_ Hw]] [-> ->]]]]] := @loop_same G G' s lm rtol atol miter throw gt n nt nt' K t t' n0 Kn Kn' HT HG q nt nt' 1
   {| i_result := fun j => if j == 0%N then y0 else init j; i_writes := [:: 0%N]; i_warned := [::] |}
   {| i_result := fun j => if j == 0%N then y0 else init' j; i_writes := [:: 0%N]; i_warned := [::] |}
   isT (add1n _) (leq_trans qK (ltnW Kn)) (leq_trans qK (ltnW Kn')) ltac:(by split=> // -[]).
- by left; exists e.
- right; exists (i_result s1), [seq p <- i_warned s1 | (p.1 <= K)%N].
  have F w : (forall p : nat * nat, p \in w -> (K.+1 <= p.1)%N) -> [seq p <- w | (p.1 <= K)%N] = [::].
  { move=> H; apply/eqP; rewrite -[_ == _]negbK -has_filter; apply/hasPn => p /H; by rewrite -ltnNge. }
  split; [|split; [|split]].
  + move=> st /(loop_keeps n0)[H1 [w [-> H2]]]; split; first by move=> j jK; rewrite H1.
    by rewrite filter_cat (F w H2) cats0.
  + move=> st /(loop_keeps n0)[H1 [w [-> H2]]]; split; first by move=> j jK; rewrite H1 // Hr.
    by rewrite filter_cat (F w H2) cats0 Hw.
  + by move=> E; exists s1; case: (nt - q)%N => [|f] /=; rewrite E ltnn.
  + by move=> E; exists s1'; case: (nt' - q)%N => [|f] /=; rewrite E ltnn.
Qed.
End Run.
