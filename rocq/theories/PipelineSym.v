(** Symmetries of whole simulations (models.py 298-412): tests that correspond under a map of the batch entries, a shift of the origin of
    time and a sign change that the material respects. *)
From Coq Require Import Reals List String Lra FunctionalExtensionality.
From mathcomp Require Import all_ssreflect all_algebra.
From Verif Require Import ChunkModel ChunkSolve ChunkInst NewtonModel NewtonLocal Ode OdeForward OdeReal OdeBlock OdeLocal OdeSym RField Pipeline PipelineBoth.
From Verif Require Interp Models Flow Slices StressSym.
Import GRing.Theory.
Set Implicit Arguments. Unset Strict Implicit. Unset Printing Implicit Defensive.
Local Open Scope ring_scope.
Delimit Scope R_scope with Re.

Section Sym.
Variables (B : Models.rateform) (nb nb' nt : nat) (sigma : 'I_nb' -> 'I_nb) (sg : nat -> R).
Notation m := (Models.rf_n B).
Variables (times data temps times' data' temps' : nat -> nat -> R) (control control' : nat -> R).
Hypotheses (m0 : (0 < m)%N) (sg1 : forall j, (sg j * sg j = 1)%Re) (onto : forall b, exists b', sigma b' = b).
Hypotheses (Gr : grid_ok nb nt times) (Gr' : grid_ok nb' nt times').
Hypothesis Hdt : forall k (b : 'I_nb'), (k.+1 < nt)%N -> (times' k.+1 b - times' k b = times k.+1 (sigma b) - times k (sigma b))%Re.
Hypothesis Hlaw : forall k (b : 'I_nb'), (k < nt)%N -> StressSym.sym_at B sg (times k (sigma b)) (times' k b).
Hypothesis Hdata : forall k (b : 'I_nb'), (k < nt)%N -> data' k b = (sg 0%N * data k (sigma b))%Re.
Hypothesis Htemp : forall k (b : 'I_nb'), (k < nt)%N -> temps' k b = temps k (sigma b).
Hypothesis Hcon : forall b : 'I_nb', control' b = control (sigma b).
Notation D := (sgm (sg : nat -> RF) m m).
Notation relV := (@relV RF nb nb' m sigma sg).

Lemma sgR j : (sg j : RF) * sg j = 1. Proof. exact: sg1. Qed.
Lemma flip_vec (v : 'cV[RF]_m) : to_vec (B := B) (D *m v) = StressSym.flip sg (to_vec (B := B) v).
Proof.
apply: functional_extensionality => j; rewrite /StressSym.flip /to_vec; case: insubP => [i im iE|_]; last by rewrite Rmult_0_r.
by rewrite sgm_mulV -iE modn_small.
Qed.
Lemma rates_flip k (b : 'I_nb') : (k < nt)%N -> table_rates times' data' k b = (sg 0%N * table_rates times data k (sigma b))%Re.
Proof.
case: k => [|k] kn; first by rewrite /= Rmult_0_r.
rewrite /table_rates Hdt // !Hdata //; last exact: ltnW.
case: (Req_EM_T _ 0) => ?; first by rewrite Rmult_0_r. by rewrite -Rmult_minus_distr_l /Rdiv Rmult_assoc.
Qed.

Section Rows.
Variables (k len : nat).
Hypotheses (k0 : (0 < k)%N) (kn : (k < nt)%N) (kl : (k + len <= nt)%N).
Notation T := (block_times (time_table nb times (k - 1)%N) (fun j => time_table nb times (k + j)%N)).
Notation T' := (block_times (time_table nb' times' (k - 1)%N) (fun j => time_table nb' times' (k + j)%N)).
Lemma nt2 : (1 < nt)%N. Proof. exact: leq_ltn_trans k0 kn. Qed.
Lemma rowT j : (j <= len)%N -> (k.-1 + j < nt)%N.
Proof. by move=> jl; rewrite -addSn prednK //; apply: leq_trans kl; rewrite leq_add2l. Qed.
Lemma T_knot j (b : 'I_nb) : T j b = times (k.-1 + j)%N b.
Proof. by case: j => [|j] /=; rewrite ffunE ?addn0 ?subn1 // -addSnnS prednK. Qed.
Lemma T_knot' j (b : 'I_nb') : T' j b = times' (k.-1 + j)%N b.
Proof. by case: j => [|j] /=; rewrite ffunE ?addn0 ?subn1 // -addSnnS prednK. Qed.
Lemma tdiff_knot j (b : 'I_nb') : (j < len)%N -> tdiff T' j b = tdiff T j (sigma b).
Proof. move=> jl; rewrite /tdiff [LHS]ffunE [RHS]ffunE !T_knot !T_knot' !addnS; apply: Hdt; rewrite -addnS; exact: rowT. Qed.
Lemma interp_row (v v' : nat -> nat -> R) (c : R) j (b : 'I_nb') : (forall r, (r < nt)%N -> v' r b = (c * v r (sigma b))%Re) -> (j <= len)%N ->
  interp_at nt times' v' b (T' j b) = (c * interp_at nt times v (sigma b) (T j (sigma b)))%Re.
Proof.
move=> E jl; rewrite T_knot T_knot' (@interp_knot nb') ?nt2 ?rowT // (@interp_knot nb) ?nt2 ?rowT //; apply: E; exact: rowT.
Qed.
Lemma interp_row1 (v v' : nat -> nat -> R) j (b : 'I_nb') : (forall r, (r < nt)%N -> v' r b = v r (sigma b)) -> (j <= len)%N ->
  interp_at nt times' v' b (T' j b) = interp_at nt times v (sigma b) (T j (sigma b)).
Proof. by move=> E jl; rewrite -[RHS]Rmult_1_l; apply: interp_row jl => r rn; rewrite Rmult_1_l; exact: E. Qed.
(** rates and Jacobians of corresponding rows give corresponding increments *)
Lemma work_of s (G : nat -> (nat -> TB RF nb) -> (nat -> VB RF nb m) -> (nat -> VB RF nb m) * (nat -> MB RF nb m))
    (G' : nat -> (nat -> TB RF nb') -> (nat -> VB RF nb' m) -> (nat -> VB RF nb' m) * (nat -> MB RF nb' m)) :
  (forall Y Y', (forall j, (j <= len)%N -> relV (Y j) (Y' j)) -> forall j b, (j <= len)%N ->
     (G' len.+1 T' Y').1 j b = D *m (G len.+1 T Y).1 j (sigma b) /\ (G' len.+1 T' Y').2 j b = D *m (G len.+1 T Y).2 j (sigma b) *m D) ->
  same_work sigma sg s G G' len T T'.
Proof.
move=> H Y Y' HY j jl b i; have il : (i <= len)%N by rewrite /i; case: (s) => //; exact: ltnW.
have [E1 E2] := H Y Y' HY i b il; rewrite (tdiff_knot b jl); split; first by rewrite E1 -scalemxAr.
by rewrite E2 -scalemxAr -scalemxAl.
Qed.
Lemma work_strain s : same_work sigma sg s
  (fun _ ts y => (func_rate (strain_f (B := B) nt times data temps) ts y, func_jac (strain_J (B := B) nt times data temps) ts y))
  (fun _ ts y => (func_rate (strain_f (B := B) nt times' data' temps') ts y, func_jac (strain_J (B := B) nt times' data' temps') ts y)) len T T'.
Proof.
apply: work_of => Y Y' HY j b jl.
have Er : interp_at nt times' (table_rates times' data') b (T' j b) = (sg 0%N * interp_at nt times (table_rates times data) (sigma b) (T j (sigma b)))%Re
  by apply: interp_row jl => r; exact: rates_flip.
have Et : interp_at nt times' temps' b (T' j b) = interp_at nt times temps (sigma b) (T j (sigma b)) by apply: interp_row1 jl => r; exact: Htemp.
have L := Hlaw b (rowT jl); rewrite -T_knot -T_knot' in L.
have [L1 [L2 _]] := L (to_vec (B := B) (Y j (sigma b))) (interp_at nt times (table_rates times data) (sigma b) (T j (sigma b))) (interp_at nt times temps (sigma b) (T j (sigma b))).
split; rewrite /func_rate /func_jac ?[fst _]/= ?[snd _]/= [LHS]ffunE /strain_f /strain_J (HY j jl b) flip_vec Er Et.
- apply/colP => i; rewrite sgm_mulV !mxE [LHS](L1 i (elimT ltP (ltn_ord i))) modn_small // ffunE mxE //.
- apply/matrixP => i i'; rewrite sgm_conj !mxE [LHS](L2 i i' (elimT ltP (ltn_ord i)) (elimT ltP (ltn_ord i'))) !modn_small // ffunE mxE //.
Qed.
Definition pmap (i : nat) : nat := if insub (i %% nb')%N is Some b then (i %/ nb' * nb + sigma b)%N else 0%N.
Lemma pmapE j (b : 'I_nb') : pmap (j * nb' + b)%N = (j * nb + sigma b)%N.
Proof. by rewrite /pmap pt_b pt_k valK. Qed.
Lemma unflat_rel p p' j b : StressSym.rel_points B sg (len.+1 * nb') pmap p p' -> (j <= len)%N ->
  (@unflatten B nb' p').1 j b = D *m (@unflatten B nb p).1 j (sigma b) /\ (@unflatten B nb' p').2 j b = D *m (@unflatten B nb p).2 j (sigma b) *m D.
Proof.
case: p => [[r J]|]; case: p' => [[r' J']|] //= H jl.
have lt : (j * nb' + b < len.+1 * nb')%coq_nat by apply/ltP; apply: (@leq_trans (j.+1 * nb')); [rewrite mulSn addnC ltn_add2r|rewrite leq_mul2r ltnS jl orbT].
have [H1 H2] := H _ lt; rewrite pmapE in H1 H2; split.
- rewrite [LHS]ffunE; apply/colP => i; rewrite sgm_mulV !mxE [LHS](H1 i (elimT ltP (ltn_ord i))) modn_small // ffunE mxE //.
- rewrite [LHS]ffunE; apply/matrixP => i i'; rewrite sgm_conj !mxE [LHS](H2 i i' (elimT ltP (ltn_ord i)) (elimT ltP (ltn_ord i'))) !modn_small // ffunE mxE //.
Qed.
Lemma pts_rel Y Y' : (forall j, (j <= len)%N -> relV (Y j) (Y' j)) -> forall i, (i < len.+1 * nb')%coq_nat ->
  (pmap i < len.+1 * nb)%coq_nat /\ control' (i %% nb')%N = control (pmap i %% nb)%N /\ StressSym.sym_at B sg (pt_t T (pmap i)) (pt_t T' i) /\
  pt_base nt times' data' T' i = (sg 0%N * pt_base nt times data T (pmap i))%Re /\ pt_rate nt times' data' T' i = (sg 0%N * pt_rate nt times data T (pmap i))%Re /\
  pt_temp nt times' temps' T' i = pt_temp nt times temps T (pmap i) /\ forall j, @pt_y B nb' Y' i j = StressSym.flip sg (@pt_y B nb Y (pmap i)) j.
Proof.
move=> EY i /ltP ilt.
have nb0 : (0 < nb')%N by move: ilt; case: (posnP nb') => // ->; rewrite muln0.
have bl : (i %% nb' < nb')%N by rewrite ltn_mod.
have jl : (i %/ nb' <= len)%N by rewrite -ltnS ltn_divLR.
rewrite (divn_eq i nb') -[X in (i %/ nb' * nb' + X)%N]/(nat_of_ord (Ordinal bl)).
set b := Ordinal bl; set j := (i %/ nb')%N in jl *.
rewrite !pmapE !pt_b !pt_tE !pt_baseE !pt_rateE !pt_tempE !pt_yE (EY j jl b) flip_vec.
split; first by apply/ltP; apply: (@leq_trans (j.+1 * nb)); [rewrite mulSn addnC ltn_add2r|rewrite leq_mul2r ltnS jl orbT].
split; first exact: Hcon.
split; first by rewrite T_knot T_knot'; exact: Hlaw (rowT jl).
split; first by apply: interp_row jl => r; exact: Hdata.
split; first by apply: interp_row jl => r; exact: rates_flip.
by split=> //; apply: interp_row1 jl => r; exact: Htemp.
Qed.
Lemma pts_onto i : (i < len.+1 * nb)%coq_nat -> exists i', (i' < len.+1 * nb')%coq_nat /\ pmap i' = i.
Proof.
move=> /ltP ilt; have nb0 : (0 < nb)%N by move: ilt; case: (posnP nb) => // ->; rewrite muln0.
have bl : (i %% nb < nb)%N by rewrite ltn_mod.
have jl : (i %/ nb <= len)%N by rewrite -ltnS ltn_divLR.
have [b' E] := onto (Ordinal bl); exists (i %/ nb * nb' + b')%N; split; last by rewrite pmapE E /= -divn_eq.
by apply/ltP; apply: (@leq_trans ((i %/ nb).+1 * nb')); [rewrite mulSn addnC ltn_add2r|rewrite leq_mul2r ltnS jl orbT].
Qed.
Lemma work_both s : same_work sigma sg s (both_G (B := B) (nb := nb) nt times data temps control) (both_G (B := B) (nb := nb') nt times' data' temps' control') len T T'.
Proof.
apply: work_of => Y Y' HY j b jl; apply: unflat_rel jl.
have Q := (@StressSym.both_forward_rel B sg (len.+1 * nb) (len.+1 * nb') pmap (fun i => control (i %% nb)%N) (fun i => control' (i %% nb')%N) (pt_t T) (pt_t T') (pt_base nt times data T) (pt_base nt times' data' T') (pt_rate nt times data T) (pt_rate nt times' data' T') (pt_temp nt times temps T) (pt_temp nt times' temps' T') (@pt_y B nb Y) (@pt_y B nb' Y') (elimT ltP m0) sg1 (pts_rel HY) pts_onto). exact: Q.
Qed.
Lemma work_stress s : same_work sigma sg s (stress_G (B := B) (nb := nb) nt times data temps) (stress_G (B := B) (nb := nb') nt times' data' temps') len T T'.
Proof.
apply: work_of => Y Y' HY j b jl; apply: unflat_rel jl.
have Q := (@StressSym.sb_forward_rel B sg (len.+1 * nb) (len.+1 * nb') pmap (fun i => control (i %% nb)%N) (fun i => control' (i %% nb')%N) (pt_t T) (pt_t T') (pt_base nt times data T) (pt_base nt times' data' T') (pt_rate nt times data T) (pt_rate nt times' data' T') (pt_temp nt times temps T) (pt_temp nt times' temps' T') (@pt_y B nb Y) (@pt_y B nb' Y') (elimT ltP m0) sg1 (pts_rel HY) pts_onto). exact: Q.
Qed.
End Rows.

Variables (s : scheme) (lm : lin_method) (rtol atol : R) (miter : nat) (throw : bool) (gt : string) (n : nat) (init : nat -> VB RF nb m) (init' : nat -> VB RF nb' m).
(** Two runs correspond: same error, or corresponding rows and the same warnings. *)
Definition runs_correspond (x : istate RF nb m + ode_error) (x' : istate RF nb' m + ode_error) : Prop :=
  match x, x' with
  | inl st, inl st' => (forall k (b : 'I_nb') i, (k < nt)%N -> (i < m)%N -> entry st' k b i = (sg i * entry st k (sigma b) i)%Re) /\ i_warned st' = i_warned st
  | inr e, inr e' => e = e'
  | _, _ => False
  end.
Lemma slice_in k : (k < nt)%N -> (k + slice_len nt k (k + n) <= nt)%N.
Proof. by move=> kn; rewrite /slice_len subnKC ?geq_minr // leq_min leq_addr ltnW. Qed.
Lemma correspond x x' : rel_sum (@rel_upto nb nb' m sigma sg nt nt) x x' -> runs_correspond x x'.
Proof.
case: x => [st|e]; case: x' => [st'|e'] //= -[H [_ W]]; split=> // k b i kn im.
by rewrite /entry (H k kn kn b) flip_vec.
Qed.
Lemma len_slice : n = 0%N \/ (0 < n)%N. Proof. by case: n; [left|right]. Qed.
Lemma sym_run (G : nat -> (nat -> TB RF nb) -> (nat -> VB RF nb m) -> (nat -> VB RF nb m) * (nat -> MB RF nb m))
    (G' : nat -> (nat -> TB RF nb') -> (nat -> VB RF nb' m) -> (nat -> VB RF nb' m) * (nat -> MB RF nb' m)) :
  (forall k len, (0 < k)%N -> (k < nt)%N -> (k + len <= nt)%N -> same_work sigma sg s G G' len
    (block_times (time_table nb times (k - 1)%N) (fun j => time_table nb times (k + j)%N)) (block_times (time_table nb' times' (k - 1)%N) (fun j => time_table nb' times' (k + j)%N))) ->
  runs_correspond (integrateG G s lm (nrmR nb m) rtol atol miter throw gt n nt (time_table nb times) (zeroV RF nb m) init)
    (integrateG G' s lm (nrmR nb' m) rtol atol miter throw gt n nt (time_table nb' times') (zeroV RF nb' m) init').
Proof.
move=> H; apply: correspond; case: len_slice => [->|n0]; first by rewrite /integrateG; case: eqP.
apply: (@integrate_rel nb nb' m sigma sg sgR onto G G' s lm rtol atol miter throw gt n nt _ _ n0).
- by move=> k k0 kn; exact: (H k _ k0 kn (slice_in kn)).
- by move=> b; rewrite !ffunE mulmx0.
Qed.
Lemma sym_strain : runs_correspond (solve_strain nt times data temps s lm rtol atol miter throw gt n init) (solve_strain nt times' data' temps' s lm rtol atol miter throw gt n init').
Proof. exact: (@sym_run (fun _ ts y => (func_rate (strain_f (B := B) nt times data temps) ts y, func_jac (strain_J (B := B) nt times data temps) ts y)) (fun _ ts y => (func_rate (strain_f (B := B) nt times' data' temps') ts y, func_jac (strain_J (B := B) nt times' data' temps') ts y)) (fun k len k0 kn kl => work_strain k0 kn kl s)). Qed.
Lemma sym_both : runs_correspond (solve_both nt times data temps control s lm rtol atol miter throw gt n init) (solve_both nt times' data' temps' control' s lm rtol atol miter throw gt n init').
Proof. exact: (sym_run (fun k len k0 kn kl => work_both k0 kn kl s)). Qed.
Lemma sym_stress : runs_correspond (solve_stress nt times data temps s lm rtol atol miter throw gt n init) (solve_stress nt times' data' temps' s lm rtol atol miter throw gt n init').
Proof. exact: (sym_run (fun k len k0 kn kl => work_stress k0 kn kl s)). Qed.
End Sym.
