(** Stopping an integration at a row and resuming it from the state reached there. *)
From Coq Require Import Reals List String Lia FunctionalExtensionality.
From mathcomp Require Import all_ssreflect all_algebra.
From Verif Require Import ChunkModel ChunkSolve ChunkInst NewtonModel Ode OdeAdjoint ZmodTac Props_Decompose.
Import GRing.Theory.
Set Implicit Arguments. Unset Strict Implicit. Unset Printing Implicit Defensive.
Local Open Scope ring_scope.

(** Rows K, K + 1, ... of an array *)
Definition from_row (A : Type) (K : nat) (x : nat -> A) : nat -> A := fun j => x (K + j)%N.

Section Forward.
Variables (F : fieldType) (nb m : nat).
Notation vb := (VB F nb m).
Variables (f : 'I_nb -> F -> 'cV[F]_m -> 'cV[F]_m) (Jf : 'I_nb -> F -> 'cV[F]_m -> 'M[F]_m) (s : scheme) (lm : lin_method) (nrm : nat -> tens2 F -> list ext).
Variables (rtol atol : R) (miter : nat) (throw : bool) (n : nat) (t : nat -> TB F nb).
Hypothesis n0 : (0 < n)%N.
Notation step nt t k st := (int_step f Jf s lm nrm rtol atol miter throw "zero" n nt t k st).
Notation loop fuel nt t k st := (int_loop f Jf s lm nrm rtol atol miter throw fuel "zero" n nt t k st).
Notation run nt t y0 init := (integrate f Jf s lm nrm rtol atol miter throw "zero" n nt t y0 init).
Implicit Types (st : istate F nb m).

(** A step at row k of one run and at row d + k of another whose times are those of the first shifted by d rows *)
Lemma step_shift nt nt' d k st st' : (0 < k)%N -> slice_len nt k (k + n) = slice_len nt' (d + k) (d + k + n) ->
  i_result st (k - 1)%N = i_result st' (d + k - 1)%N ->
  (exists e, step nt (from_row d t) k st = inr e /\ step nt' t (d + k) st' = inr e) \/
  exists st1 st1' (w : seq (nat * nat)), [/\ step nt (from_row d t) k st = inl st1, step nt' t (d + k) st' = inl st1',
    (forall j, (j < k + n)%N -> ((j < k)%N -> i_result st j = i_result st' (d + j)%N) -> (j < nt)%N -> i_result st1 j = i_result st1' (d + j)%N) /\
      (forall j, (j < k)%N -> i_result st1 j = i_result st j) /\ (forall j, (j < d + k)%N -> i_result st1' j = i_result st' j),
    i_warned st1 = i_warned st ++ w & i_warned st1' = i_warned st' ++ [seq ((d + p.1)%N, p.2) | p <- w]].
Proof.
move=> k0 El Er; rewrite /int_step /= -El; set len := slice_len nt k (k + n); rewrite eqxx /=.
have -> : from_row d t (k - 1)%N = t (d + k - 1)%N by rewrite /from_row addnBA.
have -> : (fun j => from_row d t (k + j)%N) = (fun j => t (d + k + j)%N) by apply: functional_extensionality => j; rewrite /from_row addnA.
rewrite -Er; set o := block_update _ _ _ _ _ _ _ _ _ _ _ _ _ _.
have wr (out : nat -> vb) : (forall j, (j < k + n)%N -> ((j < k)%N -> i_result st j = i_result st' (d + j)%N) -> (j < nt)%N ->
    (if (k <= j < k + len)%N then out (j - k)%N else i_result st j) = (if (d + k <= d + j < d + k + len)%N then out (d + j - (d + k))%N else i_result st' (d + j)%N)) /\
  (forall j, (j < k)%N -> (if (k <= j < k + len)%N then out (j - k)%N else i_result st j) = i_result st j) /\
  (forall j, (j < d + k)%N -> (if (d + k <= j < d + k + len)%N then out (j - (d + k))%N else i_result st' j) = i_result st' j).
{ split; [|split] => [j jk H jn|j jk|j jk]; last by rewrite leqNgt jk.
  - rewrite leq_add2l -addnA ltn_add2l subnDl; case: ifP => // /negbT; rewrite negb_and -ltnNge -leqNgt => /orP [/H //|lj].
    have : (k + len <= j < k + len)%N; last by case/andP => a /(leq_ltn_trans a); rewrite ltnn.
    rewrite lj /= /len /slice_len subnKC; first by rewrite leq_min jk jn.
    by rewrite leq_min leq_addr /=; apply: leq_trans (ltnW jn); case: (leqP k j) => // jk'; move: lj; rewrite leqNgt (leq_trans jk') // leq_addr.
  - by rewrite leqNgt jk. }
case: o => [out|out|]; [right; do 2 eexists; exists [::] | right; do 2 eexists; exists [:: (k, len)] |left; by exists ErrSolve].
- by split; [reflexivity|reflexivity|exact: wr|rewrite /= cats0|rewrite /= cats0].
- by split; [reflexivity|reflexivity|exact: wr|done|done].
Qed.

(** The first q blocks are the same in a run that stops there and in a longer one. *)
Lemma head_loop nt : forall q fuel fuel' k st st', (0 < k)%N -> (k + q * n <= nt)%N -> (q <= fuel)%N -> (nt <= k + fuel')%N ->
  (forall j, (j < k)%N -> i_result st j = i_result st' j) -> i_warned st = i_warned st' ->
  (exists e, loop fuel (k + q * n)%N t k st = inr e /\ loop fuel' nt t k st' = inr e) \/
  exists st1 st1' fu, [/\ loop fuel (k + q * n)%N t k st = inl st1, loop fuel' nt t k st' = loop fu nt t (k + q * n)%N st1', (nt <= k + q * n + fu)%N,
    (forall j, (j < k + q * n)%N -> i_result st1 j = i_result st1' j) & i_warned st1 = i_warned st1'].
Proof.
have e0 : from_row 0 t = t by apply: functional_extensionality.
elim=> [|q IH] fuel fuel' k st st' k0 kn qf nf H W.
{ rewrite mul0n addn0 in kn *; right; exists st, st', fuel'; split=> //. by case: fuel {qf} => [|fu] /=; rewrite ltnn. }
case: fuel qf => // fuel; rewrite ltnS => qf.
have kn1 : (k < k + q.+1 * n)%N by rewrite -[X in (X < _)%N]addn0 ltn_add2l muln_gt0.
have kn2 : (k < nt)%N := leq_trans kn1 kn.
case: fuel' nf => [|fuel'] nf; first by move: nf; rewrite addn0 leqNgt kn2.
have kE : (k + q.+1 * n)%N = (k + n + q * n)%N by rewrite mulSn addnA.
have kl : (k + n <= k + q.+1 * n)%N by rewrite kE leq_addr.
have sl : slice_len (k + q.+1 * n) k (k + n) = slice_len nt (0 + k) (0 + k + n).
{ by rewrite !add0n /slice_len (minn_idPl kl) (minn_idPl (leq_trans kl kn)). }
have Er : i_result st (k - 1)%N = i_result st' (0 + k - 1)%N by rewrite add0n; apply: H; rewrite subn1 prednK.
have [[e [E1 E2]]|[st1 [st1' [w [E1 E2 [S1 [S2 S3]] W1 W2]]]]] := @step_shift (k + q.+1 * n) nt 0 k st st' k0 sl Er.
{ left; exists e; rewrite add0n e0 in E1 E2; split; first by rewrite /= kn1 E1. by rewrite /= kn2 E2. }
rewrite add0n e0 in E1 E2; cbn [int_loop]; rewrite kn1 kn2 E1 E2 kE; rewrite kE in kn; apply: IH => //.
- by rewrite addn_gt0 k0.
- by apply: leq_trans nf _; rewrite -addnA -addSnnS -[k.+1]addn1 -addnA leq_add2l leq_add2r.
- move=> j jk; have := S1 j jk (H j); rewrite add0n; apply; rewrite kE; exact: leq_trans jk (leq_addr _ _).
- by rewrite W1 W2 W; congr (_ ++ _); elim: (w) => //= -[a b] w' <-; rewrite add0n.
Qed.

(** The rest of the longer run is the resumed run, shifted. *)
Lemma tail_loop nt d : (d < nt)%N -> forall fuel fuel' k st st', (0 < k)%N -> (nt - d <= k + fuel)%N -> (nt <= d + k + fuel')%N ->
  (forall j, (j < k)%N -> (j < nt - d)%N -> i_result st j = i_result st' (d + j)%N) ->
  (exists e, loop fuel (nt - d)%N (from_row d t) k st = inr e /\ loop fuel' nt t (d + k)%N st' = inr e) \/
  exists st1 st1' (w : seq (nat * nat)), [/\ loop fuel (nt - d)%N (from_row d t) k st = inl st1, loop fuel' nt t (d + k)%N st' = inl st1',
    (forall j, (d + j < nt)%N -> i_result st1 j = i_result st1' (d + j)%N) /\ (forall j, (j < d + k)%N -> i_result st1' j = i_result st' j),
    i_warned st1 = i_warned st ++ w & i_warned st1' = i_warned st' ++ [seq ((d + p.1)%N, p.2) | p <- w]].
Proof.
move=> dn; elim=> [|fuel IH] fuel' k st st' k0 nf nf' H.
{ rewrite addn0 in nf; right; exists st, st', [::]; rewrite /= !cats0 ltnNge nf /=; split=> //.
  - by case: fuel' {nf'} => [|fu] /=; rewrite ltnNge -leq_subLR nf.
  - split=> // j; rewrite -ltn_subRL => jn; apply: H => //; exact: leq_trans nf. }
cbn [int_loop]; case: ifP => kn; last first.
{ right; exists st, st', [::]; have kn' : (d + k < nt)%N = false by rewrite -ltn_subRL. split; rewrite ?cats0 //=.
  - by case: fuel' {nf'} => [|fu] /=; rewrite kn'.
  - split=> // j; rewrite -ltn_subRL => jn; apply: H => //; apply: leq_trans jn _; by rewrite leqNgt kn. }
have kn' : (d + k < nt)%N by rewrite -ltn_subRL.
case: fuel' nf' => [|fuel'] nf'; first by move: nf'; rewrite addn0 leqNgt kn'.
have sl : slice_len (nt - d) k (k + n) = slice_len nt (d + k) (d + k + n).
{ by rewrite /slice_len -{2}(subnKC (ltnW dn)) -addnA -addn_minr subnDl. }
have Er : i_result st (k - 1)%N = i_result st' (d + k - 1)%N by rewrite -addnBA //; apply: H; rewrite subn1 prednK // ltnW.
cbn [int_loop]; rewrite kn'.
have [[e [E1 E2]]|[st1 [st1' [w [E1 E2 [S1 [S2 S3]] W1 W2]]]]] := @step_shift (nt - d) nt d k st st' k0 sl Er; first by left; exists e; rewrite E1 E2.
rewrite E1 E2 -addnA.
have kn0 : (0 < k + n)%N by rewrite addn_gt0 k0.
have n1 : (k.+1 <= k + n)%N by rewrite -addn1 leq_add2l.
have f1 : (nt - d <= k + n + fuel)%N by apply: leq_trans nf _; rewrite -addSnnS leq_add2r.
have f2 : (nt <= d + (k + n) + fuel')%N by apply: leq_trans nf' _; rewrite -addSnnS leq_add2r -addnS leq_add2l.
have H1 j : (j < k + n)%N -> (j < nt - d)%N -> i_result st1 j = i_result st1' (d + j)%N.
{ move=> jk jn; apply: S1 => // jk'; exact: H. }
have [[e [L1 L2]]|[st2 [st2' [w' [L1 L2 [T1 T2] V1 V2]]]]] := IH fuel' (k + n)%N st1 st1' kn0 f1 f2 H1; first by left; exists e.
right; exists st2, st2', (w ++ w'); split=> //; last by rewrite V2 W2 map_cat catA.
- split=> // j jk; rewrite T2; [exact: S3|by apply: leq_trans jk _; rewrite addnA leq_addr].
- by rewrite V1 W1 catA.
Qed.

Lemma resume_core q nt y0 init init1 init2 : (q * n < nt)%N -> let K := (q * n)%N in
  (exists e, run K.+1 t y0 init1 = inr e /\ run nt t y0 init = inr e) \/
  exists hd, run K.+1 t y0 init1 = inl hd /\ ((exists e, run (nt - K)%N (from_row K t) (i_result hd K) init2 = inr e /\ run nt t y0 init = inr e) \/
     exists tl whole, [/\ run (nt - K)%N (from_row K t) (i_result hd K) init2 = inl tl, run nt t y0 init = inl whole,
       (forall k, (k <= K)%N -> i_result whole k = i_result hd k) /\ (forall k, (K + k < nt)%N -> i_result whole (K + k)%N = i_result tl k) &
       i_warned whole = i_warned hd ++ [seq ((K + p.1)%N, p.2) | p <- i_warned tl]]).
Proof.
move=> Kn K; rewrite /integrate /= (gtn_eqF n0) (gtn_eqF (leq_ltn_trans (leq0n _) Kn)).
have d0 : (nt - K == 0)%N = false by rewrite subn_eq0 leqNgt Kn.
rewrite d0.
set s1 := {| i_result := fun j => if j == 0%N then y0 else init1 j; i_writes := _; i_warned := _ |}.
set s0 := {| i_result := fun j => if j == 0%N then y0 else init j; i_writes := _; i_warned := _ |}.
have qK : (q <= K.+1)%N by apply: leqW; rewrite -{1}[q]muln1 leq_mul2l n0 orbT.
have H0 j : (j < 1)%N -> i_result s1 j = i_result s0 j by case: j.
have := @head_loop nt q K.+1 nt 1 s1 s0 (ltn0Sn 0) Kn qK (leqnSn _) H0 erefl; rewrite add1n.
move=> [[e [E1 E2]]|[hd [st' [fu [E1 E2 nf H W]]]]]; [left; by exists e|right; exists hd; split=> //].
rewrite E2.
set s2 := {| i_result := fun j => if j == 0%N then i_result hd K else init2 j; i_writes := _; i_warned := _ |}.
have H2 j : (j < 1)%N -> (j < nt - K)%N -> i_result s2 j = i_result st' (K + j)%N by case: j => // _ _; rewrite addn0 /= H.
have := @tail_loop nt K Kn (nt - K) fu 1 s2 st' (ltn0Sn 0) (leqW (leqnn _)) _ H2; rewrite addn1 => /(_ nf).
move=> [[e [L1 L2]]|[tl [whole [w [L1 L2 [T1 T2] V1 V2]]]]]; [left; by exists e|right; exists tl, whole; split=> //].
- split=> [k kK|k kn]; last by rewrite T1.
  by rewrite T2 // H.
- by rewrite V2 V1 W.
Qed.
End Forward.

Section Backward.
Variables (F : fieldType) (nb m np : nat).
Notation vb := (VB F nb m).
Variables (Jf : 'I_nb -> F -> 'cV[F]_m -> 'M[F]_m) (Pf : 'I_nb -> F -> 'cV[F]_m -> 'M[F]_(m, np)) (s : scheme).

Lemma adj_ext (tf tf' : nat -> TB F nb) (rf rf' gf gf' : nat -> vb) k :
  (forall j, (j <= k)%N -> [/\ tf j = tf' j, rf j = rf' j & gf j = gf' j]) -> adj Jf s tf rf gf k = adj Jf s tf' rf' gf' k.
Proof.
elim: k => [|k IH] H /=; first by have [] := H 0%N isT.
have [a b c] := H k.+1 (leqnn _); have [a' b' _] := H k (leqnSn _).
rewrite IH => [|j jk]; last exact: H _ (leqW jk).
by apply/eq_ffun => x; rewrite /hstep a a' b b' c.
Qed.
Lemma contrib_ext (tf tf' : nat -> TB F nb) (rf rf' gf gf' : nat -> vb) k :
  (forall j, (j <= k.+1)%N -> [/\ tf j = tf' j, rf j = rf' j & gf j = gf' j]) -> contrib Jf Pf s tf rf gf k = contrib Jf Pf s tf' rf' gf' k.
Proof.
move=> H; rewrite /contrib; have [a b c] := H k.+1 (leqnn _); have [a' b' _] := H k (leqnSn _).
have A := adj_ext H; have A' : adj Jf s tf rf gf k = adj Jf s tf' rf' gf' k by apply: adj_ext => j jk; exact: H _ (leqW jk).
by apply: eq_bigr => x _; rewrite /hstep A A' a a' b b' c.
Qed.
(** The recursion restarted at row d with the adjoint reached there *)
Lemma adj_restart (tf : nat -> TB F nb) (rf gf gf' : nat -> vb) d k :
  gf' 0%N = adj Jf s tf rf gf d -> (forall j, gf' j.+1 = gf (d + j.+1)%N) ->
  adj Jf s (fun j => tf (d + j)%N) (fun j => rf (d + j)%N) gf' k = adj Jf s tf rf gf (d + k)%N.
Proof.
move=> G0 G; elim: k => [|k IH]; first by rewrite addn0.
rewrite addnS [RHS]/= [LHS]/= IH G; apply/eq_ffun => x; by rewrite /hstep !addnS.
Qed.
Lemma contrib_restart (tf : nat -> TB F nb) (rf gf gf' : nat -> vb) d k :
  gf' 0%N = adj Jf s tf rf gf d -> (forall j, gf' j.+1 = gf (d + j.+1)%N) ->
  contrib Jf Pf s (fun j => tf (d + j)%N) (fun j => rf (d + j)%N) gf' k = contrib Jf Pf s tf rf gf (d + k)%N.
Proof.
by move=> G0 G; rewrite /contrib !(adj_restart _ G0 G) G; apply: eq_bigr => x _; rewrite /hstep !addnS.
Qed.

Lemma checkpoint_core mth mth1 mth2 n n1 n2 nt K t y (og : nat -> vb) : (0 < n)%N -> (0 < n1)%N -> (0 < n2)%N -> (K < nt)%N -> solvable Jf s nt t y ->
  exists g1 g2 lam1 lam2, [/\ rewind Jf Pf mth2 s n2 (nt - K)%N (from_row K t) (from_row K y) (from_row K og) = Some (g2, lam2),
    rewind Jf Pf mth1 s n1 K.+1 t y (fun k => if k == K then lam2 else og k) = Some (g1, lam1) &
    rewind Jf Pf mth s n nt t y og = Some (g1 + g2, lam1)].
Proof.
move=> n0 n10 n20 Kn So; have nt0 : (0 < nt)%N by exact: leq_ltn_trans Kn.
have d0 : (0 < nt - K)%N by rewrite subn_gt0.
have So1 : solvable Jf s K.+1 t y by move=> sB k b k0 kK; apply: So => //; exact: leq_trans Kn.
have So2 : solvable Jf s (nt - K)%N (from_row K t) (from_row K y).
{ move=> sB k b k0 kK; rewrite /from_row. have := So sB (K + k)%N b; case: k k0 kK => // k _ kK; rewrite addnS /=; apply=> //.
  by rewrite -addnS -ltn_subRL. }
do 4 eexists; split.
- by rewrite rewind_spec //; exact: solvable_adj.
- by rewrite rewind_spec //; exact: solvable_adj.
rewrite rewind_spec //; last exact: solvable_adj.
pose d := (nt - K).-1; have dE : (nt - K)%N = d.+1 by rewrite /d prednK.
have ntE : nt = (K + d.+1)%N by rewrite -dE subnKC // ltnW.
have fl A (x : nat -> A) j : (j <= d)%N -> flipn nt x j = flipn (nt - K) (from_row K x) j.
{ move=> jd; rewrite /flipn /from_row dE ntE addnS !subn1 /=; congr (x _); by rewrite addnBA. }
have fh A (x : nat -> A) : flipn K.+1 x = (fun j => flipn nt x (d + j)%N).
{ apply: functional_extensionality => j; rewrite /flipn ntE addnS !subn1 /=; congr (x _). by rewrite [(d + j)%N]addnC subnDA subnAC addnK. }
have X j : (j <= d)%N -> [/\ flipn nt t j = flipn (nt - K) (from_row K t) j, flipn nt y j = flipn (nt - K) (from_row K y) j & flipn nt og j = flipn (nt - K) (from_row K og) j].
{ by move=> jd; split; apply: fl. }
set gh := flipn K.+1 (fun k => if k == K then _ else og k).
have G0 : gh 0%N = adj Jf s (flipn nt t) (flipn nt y) (flipn nt og) d.
{ rewrite /gh /flipn subn0 subn1 /= eqxx -/d; apply/esym/adj_ext => j jd; exact: X. }
have G j : (j < K)%N -> gh j.+1 = flipn nt og (d + j.+1)%N.
{ move=> jK; rewrite -[RHS]/((fun i => flipn nt og (d + i)%N) j.+1) -fh /gh /flipn subn1 /= ltn_eqF //. by rewrite ltn_subrL (leq_ltn_trans _ jK). }
pose g' (j : nat) : vb := if j == 0%N then adj Jf s (flipn nt t) (flipn nt y) (flipn nt og) d else flipn nt og (d + j)%N.
have Y j : (j <= K)%N -> [/\ flipn K.+1 t j = flipn nt t (d + j)%N, flipn K.+1 y j = flipn nt y (d + j)%N & gh j = g' j].
{ by move=> jK; split; rewrite ?fh //; case: j jK => [|j] jK; rewrite /g' /= ?G0 ?G. }
have g0 : g' 0%N = adj Jf s (flipn nt t) (flipn nt y) (flipn nt og) d by [].
have gs j : g' j.+1 = flipn nt og (d + j.+1)%N by [].
have nt1 : nt.-1 = (d + K)%N by rewrite ntE addnS addnC.
congr (Some (_, _)); last by rewrite nt1 -(adj_restart K g0 gs); apply/esym/adj_ext => j /Y.
rewrite nt1 (@big_cat_nat _ _ _ d 0 (d + K) _ _ (leq0n d) (leq_addr K d)) [LHS]addrC; congr (_ + _).
- rewrite -{1}[d]add0n big_addn addKn !big_mkord; apply: eq_bigr => j _; rewrite addnC -(contrib_restart j g0 gs).
  by apply/esym/contrib_ext => i ij; apply: Y; apply: leq_trans ij _.
- rewrite -/d !big_mkord; apply: eq_bigr => j _; apply: contrib_ext => i ij; apply: X; exact: leq_trans ij _.
Qed.
End Backward.
