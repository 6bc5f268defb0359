(** Batches of tests loaded within the elastic range (models.py 298-333, 451-562 with flowrules.py and hardening.py): the integrator always succeeds. *)
From Coq Require Import Reals List String Lra Lia FunctionalExtensionality.
From mathcomp Require Import all_ssreflect all_algebra.
From Verif Require Import ChunkModel ChunkSolve ChunkInst NewtonModel Ode OdeForward OdeReal OdeBlock ZmodTac RField Pipeline PipelineBoth FlatRun.
From Verif Require Interp Models Flow Deriv Slices PipelineR StressR FullModel.
Import GRing.Theory.
Set Implicit Arguments. Unset Strict Implicit. Unset Printing Implicit Defensive.
Local Open Scope ring_scope.

Section Elastic.
Variables (E : R -> R) (F : Flow.flowrule).
Let B := Models.inelastic E F.
Notation m := (Models.rf_n B).
Variables (nb nt : nat) (times data temps : nat -> nat -> R) (control : nat -> R).
(** the stress of a strain-controlled entry that has been elastic so far *)
Definition elastic_stress (k b : nat) : R := Deriv.sum k (fun j => Rmult (E (temps j.+1 b)) (Rminus (data j.+1 b) (data j b))).
Variable Y : nat -> R.
Hypotheses (Gr : grid_ok nb nt times) (nt2 : (1 < nt)%N).
Hypothesis El : forall k b, (k < nt)%N -> (b < nb)%N -> FullModel.elastic_upto F (temps k b) (Y b).
Variables (rtol atol : R).
Hypotheses (rtol1 : Rlt rtol R1) (atol0 : Rle R0 atol).
Hypothesis Hs : forall k b, (k < nt)%N -> (b < nb)%N -> control b = R0 -> Rle (Rplus (Rabs (elastic_stress k b)) (Rmult (INR k) atol)) (Y b).
Hypothesis Ht : forall k b, (k < nt)%N -> (b < nb)%N -> control b = R1 -> Rle (Rabs (data k b)) (Y b).
(** states of the batch with virgin history *)
Definition resting (y : VB RF nb m) : Prop := forall b i, (i < Flow.fl_nhist F)%N -> to_vec (y b) i.+1 = R0.
(** the strain of a stress-controlled entry that has been elastic so far, and the accuracy of the inner strain-rate solves *)
Definition elastic_strain (k b : nat) : R := Deriv.sum k (fun j => Rdiv (Rminus (data j.+1 b) (data j b)) (E (temps j.+1 b))).
Definition inner_error (k b : nat) : R := Deriv.sum k (fun j => Rdiv (Rminus (times j.+1 b) (times j b)) (Rmult (pow 10 10) (E (temps j.+1 b)))).
Definition inner_ok : Prop := Models.rate_free F /\ forall k b, (k < nt)%N -> (b < nb)%N -> Rlt R0 (E (temps k b)).
Definition elastic_state (k : nat) (y : VB RF nb m) : Prop := resting y /\
  (forall b : 'I_nb, control b = R0 -> Rle (Rabs (Rminus (to_vec (y b) 0%N) (elastic_stress k b))) (Rmult (INR k) atol)) /\
  (forall b : 'I_nb, control b = R1 -> inner_ok -> Rle (Rabs (Rminus (to_vec (y b) 0%N) (elastic_strain k b))) (Rplus (Rmult (INR k) atol) (inner_error k b))).

Lemma rest_set0 rows (U V : nat -> VB RF nb m) c i : (forall k, (k < rows)%N -> resting (U k)) -> (forall k, (k < rows)%N -> resting (V k)) -> (i < rows * nb)%N ->
  Models.set0 c (pt_y U i) = Models.set0 c (pt_y V i).
Proof.
move=> RU RV ir; apply: functional_extensionality => j; rewrite /Models.set0; case: PeanoNat.Nat.eqb_spec => // j0.
have kr : (i %/ nb < rows)%N by rewrite ltn_divLR //; case: (nb) ir => //; rewrite muln0.
have z (W : nat -> VB RF nb m) : (forall k, (k < rows)%N -> resting (W k)) -> pt_y W i j = R0.
{ move=> RW; rewrite /pt_y; case: insub => [b|//]; case: j j0 => // j _; case: (ltnP j (Flow.fl_nhist F)) => [lt|ge]; first exact: RW.
  by rewrite /to_vec insubF // ltnS ltnNge ge. }
by rewrite !z.
Qed.
Lemma vec_m (v : 'cV[RF]_m) i : (Flow.fl_nhist F < i)%N -> to_vec v i = R0.
Proof. by move=> h; rewrite /to_vec insubF //; apply/negbTE; rewrite -leqNgt. Qed.

Section Rows.
Variables (k rows : nat) (tb : nat -> TB RF nb).
Hypotheses (kr : (k + rows < nt)%N) (Htb : forall j, (j <= rows)%N -> tb j = time_table nb times (k + j)%N).
Let G := both_G (B := B) (nb := nb) nt times data temps control rows.+1 tb.
Lemma pt_row j (b : 'I_nb) : (j <= rows)%N -> let i := (j * nb + b)%N in
  pt_t tb i = times (k + j)%N b /\ pt_rate nt times data tb i = table_rates times data (k + j)%N b /\
  pt_base nt times data tb i = data (k + j)%N b /\ pt_temp nt times temps tb i = temps (k + j)%N b.
Proof.
move=> jr i.
have Hts : forall j, (j < rows.+1)%N -> tb j = time_table nb times (k + j)%N by move=> j' h; apply: Htb.
have Hr : (k + rows.+1 <= nt)%N by rewrite addnS.
split; first exact: (row_t Hts b jr).
split; first exact: (row_rate data nt2 Gr Hts Hr b jr).
split; first exact: (row_base data nt2 Gr Hts Hr b jr).
exact: (row_temp temps nt2 Gr Hts Hr b jr).
Qed.
(** both forwards of a resting batch: the rates do not depend on the state, the Jacobians vanish *)
Lemma rest_rate (U : nat -> VB RF nb m) : (forall k, (k <= rows)%N -> resting (U k)) -> (forall j (b : 'I_nb), (0 < j)%N -> (j <= rows)%N -> control b = R0 -> Rle (Rabs (to_vec (U j b) 0%N)) (Y b)) ->
  forall j (b : 'I_nb), (0 < j)%N -> (j <= rows)%N -> (G U).2 j b = 0 /\
  (control b = R0 -> (G U).1 j b = \col_i (if (i == 0%N :> nat) then Rmult (E (temps (k + j)%N b)) (table_rates times data (k + j)%N b) else R0)) /\
  (forall i : 'I_m, (0 < i)%N -> (G U).1 j b i 0 = R0).
Proof.
move=> RU HU j b j0 jr.
have [p1 [p2 [p3 p4]]] := pt_row b jr.
have kj : (k + j < nt)%N by apply: leq_ltn_trans kr; rewrite leq_add2l.
rewrite /G /both_G /Models.both_forward.
have [r /Models.sb_forward_of ->] := Models.sb_forward_some B (rows.+1 * nb) (pt_t tb) (pt_base nt times data tb) (pt_rate nt times data tb) (pt_temp nt times temps tb) (pt_y U).
rewrite /unflatten !ffunE /Models.masked /Models.strain_forward /= pt_b p1 p2 p3 p4 pt_yE.
case: (Req_EM_T (control b) 1) => c1 /=.
{ have c0 : control b <> R0 by rewrite c1; exact: R1_neq_R0.
  set er := res_x r _.
  have V i : (i < Flow.fl_nhist F)%coq_nat -> Models.set0 (data (k + j)%N b) (to_vec (U j b)) (S i) = R0 by move=> h; apply: RU => //; apply/ltP.
  have [q1 [q2 q3]] := FullModel.inelastic_elastic E F (temps (k + j)%N b) (Y b) (Models.set0 (data (k + j)%N b) (to_vec (U j b))) (times (k + j)%N b) er (El kj (ltn_ord b)) (Ht kj (ltn_ord b) c1) V.
  split.
  - apply/matrixP => i i'; rewrite !mxE /Models.sb_jac.
    rewrite (q3 0%N i' (Nat.lt_0_succ _) (elimT ltP (ltn_ord i'))) (q3 i i' (elimT ltP (ltn_ord i)) (elimT ltP (ltn_ord i'))).
    rewrite /Rdiv Ropp_0 Rmult_0_l; by case: ifP => // _; case: ifP.
  - split=> // i i0; rewrite mxE /Models.sb_rate; case: i i0 => [[|i] hi] //= _.
    by rewrite /Models.set0 /=; apply: q2; apply/ltP. }
case: (Req_EM_T (control b) 0) => c0 /=.
{ have V i : (i < Flow.fl_nhist F)%coq_nat -> to_vec (U j b) (S i) = R0 by move=> h; apply: RU => //; apply/ltP.
  have [q1 [q2 q3]] := FullModel.inelastic_elastic E F (temps (k + j)%N b) (Y b) (to_vec (U j b)) (times (k + j)%N b) (table_rates times data (k + j)%N b) (El kj (ltn_ord b)) (HU j b j0 jr c0) V.
  split; first by apply/matrixP => i i'; rewrite !mxE; apply: q3; apply/ltP.
  split=> [_|i i0].
  - apply/colP => i; rewrite !mxE; case: i => [[|i] hi] /=; [exact: q1|apply: q2; exact/ltP].
  - rewrite mxE; case: i i0 => [[|i] hi] //= _; apply: q2; exact/ltP. }
split; first by apply/matrixP => i i'; rewrite !mxE.
by split=> // i _; rewrite mxE.
Qed.
(** the strain rate of a stress-controlled entry *)
Lemma rest_strain (y : VB RF nb m) : resting y -> inner_ok ->
  forall j (b : 'I_nb), (0 < j)%N -> (j <= rows)%N -> control b = R1 ->
  Rle (Rabs (Rminus (Rmult (E (temps (k + j)%N b)) (to_vec ((G (fun _ => y)).1 j b) 0%N)) (table_rates times data (k + j)%N b))) (Rinv (pow 10 10)).
Proof.
move=> RU [RFr Ep] j b j0 jr c1.
have kj : (k + j < nt)%N by apply: leq_ltn_trans kr; rewrite leq_add2l.
have Hts : forall j, (j < rows.+1)%N -> tb j = time_table nb times (k + j)%N by move=> j' h; apply: Htb.
have Hr : (k + rows.+1 <= nt)%N by rewrite addnS.
have [j' b' j'r|er Q] := @stress_rows B nb nt times data temps control tb (fun _ => y) rows.+1 k (fun _ => y) nt2 Gr Hts (fun _ _ => erefl) Hr.
{ apply: StressR.inelastic_affine => //; apply: Rgt_not_eq; apply: Ep => //; apply: leq_trans Hr; by rewrite ltn_add2l. }
have [Q1 [_ /(_ c1)]] := Q j b jr; rewrite /G => ->.
have V i : (i < Flow.fl_nhist F)%coq_nat -> Models.set0 (data (k + j)%N b) (to_vec (y b)) (S i) = R0 by move=> h; apply: RU => //; apply/ltP.
have [q1 _] := FullModel.inelastic_elastic E F (temps (k + j)%N b) (Y b) (Models.set0 (data (k + j)%N b) (to_vec (y b))) (times (k + j)%N b) (er j b) (El kj (ltn_ord b)) (Ht kj (ltn_ord b) c1) V.
rewrite q1 in Q1; by rewrite /to_vec insubT mxE.
Qed.
Lemma rest_same (U V : nat -> VB RF nb m) : (forall k, (k <= rows)%N -> resting (U k)) -> (forall k, (k <= rows)%N -> resting (V k)) ->
  (forall j (b : 'I_nb), (0 < j)%N -> (j <= rows)%N -> control b = R0 -> Rle (Rabs (to_vec (U j b) 0%N)) (Y b)) ->
  (forall j (b : 'I_nb), (0 < j)%N -> (j <= rows)%N -> control b = R0 -> Rle (Rabs (to_vec (V j b) 0%N)) (Y b)) ->
  forall j (b : 'I_nb), (0 < j)%N -> (j <= rows)%N -> (G U).1 j b = (G V).1 j b.
Proof.
move=> RU RV HU HV j b j0 jr.
case: (Req_EM_T (control b) 0) => c0.
{ have [_ [-> // _]] := rest_rate RU HU b j0 jr; by have [_ [-> // _]] := rest_rate RV HV b j0 jr. }
have [r [J [r' [J' [E1 [E2 E3]]]]]] := FullModel.sb_forward_local B (rows.+1 * nb) (pt_t tb) (pt_base nt times data tb) (pt_rate nt times data tb) (pt_temp nt times temps tb) (pt_y U) (pt_y V)
  (fun i h => @rest_set0 rows.+1 U V _ i RU RV (introT ltP h)).
rewrite /G /both_G /Models.both_forward E1 E2 /unflatten !ffunE; apply/colP => i; rewrite !mxE /Models.masked pt_b.
have jn : (j * nb + b < rows.+1 * nb)%N.
{ apply: (@leq_trans (j.+1 * nb)); last by rewrite leq_mul2r ltnS jr orbT.
  by rewrite mulSn addnC ltn_add2r. }
case: Req_EM_T => // _; last by case: Req_EM_T.
by rewrite /= (proj1 (E3 _ (elimT ltP jn))).
Qed.
End Rows.

Lemma elastic_start : elastic_state 0 (@zeroV RF nb m).
Proof.
have z (v : VB RF nb m) b i : v b = 0 -> to_vec (v b) i = R0 by move=> e; rewrite /to_vec; case: insub => // o; rewrite e mxE.
split=> [b i h|]; first by rewrite z // ffunE.
split=> b c => [|_]; rewrite z ?ffunE // /elastic_stress /elastic_strain /inner_error /= Rmult_0_l Rminus_0_r Rabs_R0 ?Rplus_0_r; exact: Rle_refl.
Qed.
Lemma elastic_run lm miter throw n init : (0 < n)%N -> (1 < miter)%N ->
  exists st, @solve_both B nb nt times data temps control BackwardEuler lm rtol atol miter throw "zero" n init = inl st /\ i_warned st = [::] /\
    forall k, (k < nt)%N -> elastic_state k (i_result st k).
Proof.
move=> n0 m1; apply: flat_run => //; first exact: ltnW nt2; first exact: elastic_start.
move=> k ystart k0 kn Es len tb g; have [Rs [Ss Se]] := Es.
have kl : (k - 1 + len < nt)%N.
{ have : (k + len <= nt)%N by rewrite slice_len_add ?geq_minr // ltnW.
  by rewrite -{1}(subnK k0) addn1 addSn. }
have Htb j : (j <= len)%N -> tb j = time_table nb times (k - 1 + j)%N.
{ case: j => [|j] jl /=; first by rewrite addn0. by rewrite addnS -addSn -subSn // subSS subn0. }
have k1 : (k - 1 < nt)%N by apply: leq_ltn_trans kn; exact: leq_subr.
have U0 (q : nat) (v : VB RF nb m) (b : 'I_nb) : (q < nt)%N -> elastic_state q v -> control b = R0 -> Rle (Rabs (to_vec (v b) 0%N)) (Y b).
{ move=> qn [_ [v1 _]] c; apply: (FullModel.within_plus (elastic_stress q b)); [exact: v1|exact: Hs]. }
have U1 (j : nat) (b : 'I_nb) : (0 < j)%N -> (j <= len)%N -> control b = R0 -> Rle (Rabs (to_vec (ystart b) 0%N)) (Y b) by move=> _ _; apply: U0 k1 Es.
have RG := rest_rate kl Htb (fun _ _ => Rs) U1.
have RS := rest_strain kl Htb Rs.
have dt0 (j : nat) (b : 'I_nb) : (j < len)%N -> Rlt R0 (Rminus (times (k - 1 + j).+1 b) (times (k - 1 + j)%N b)).
{ move=> jl; apply: Rlt_Rminus; apply: (Gr (ltn_ord b)); first exact: Nat.lt_succ_diag_r. apply/ltP; apply: leq_ltn_trans kl; by rewrite -addnS leq_add2l. }
(* the increments the solution has over step j *)
have inc (j : nat) (b : 'I_nb) i : (j < len)%N -> to_vec ((tb j.+1 b - tb j b) *: g.1 j.+1 b) i = Rmult (Rminus (times (k - 1 + j).+1 b) (times (k - 1 + j)%N b)) (to_vec (g.1 j.+1 b) i).
{ move=> jl; have -> : tb j.+1 b = times (k - 1 + j).+1 b by rewrite Htb // ffunE addnS.
  have -> : tb j b = times (k - 1 + j)%N b by rewrite Htb ?ffunE // ltnW.
  rewrite /to_vec; case: insub => [o|]; first by rewrite mxE. by rewrite Rmult_0_r. }
have inc_h (j : nat) (b : 'I_nb) i : (j < len)%N -> (i < Flow.fl_nhist F)%N -> to_vec ((tb j.+1 b - tb j b) *: g.1 j.+1 b) i.+1 = R0.
{ move=> jl iF; have [_ [_ q]] := RG j.+1 b isT jl; have iF' : (i.+1 < m)%N by [].
  by rewrite inc // /to_vec insubT (q (Ordinal iF')) // Rmult_0_r. }
have tr (j : nat) (b : 'I_nb) : (j < len)%N -> Rmult (Rminus (times (k - 1 + j).+1 b) (times (k - 1 + j)%N b)) (table_rates times data (k - 1 + j).+1 b) = Rminus (data (k - 1 + j).+1 b) (data (k - 1 + j)%N b).
{ move=> jl; rewrite /table_rates; have D := dt0 j b jl.
  case: Req_EM_T => [e|e]; first by exfalso; rewrite e in D; exact: (Rlt_irrefl _ D).
  rewrite /=; exact: FullModel.rate_back e. }
have inc_s (j : nat) (b : 'I_nb) : (j < len)%N -> control b = R0 -> to_vec ((tb j.+1 b - tb j b) *: g.1 j.+1 b) 0%N = Rmult (E (temps (k - 1 + j).+1 b)) (Rminus (data (k - 1 + j).+1 b) (data (k - 1 + j)%N b)).
{ move=> jl c; have [_ [/(_ c) q _]] := RG j.+1 b isT jl; rewrite inc // q -tr // addnS /to_vec insubT mxE /=; exact: FullModel.mul_swap. }
have inc_e (j : nat) (b : 'I_nb) : (j < len)%N -> control b = R1 -> inner_ok ->
  Rle (Rabs (Rminus (to_vec ((tb j.+1 b - tb j b) *: g.1 j.+1 b) 0%N) (Rdiv (Rminus (data (k - 1 + j).+1 b) (data (k - 1 + j)%N b)) (E (temps (k - 1 + j).+1 b)))))
      (Rdiv (Rminus (times (k - 1 + j).+1 b) (times (k - 1 + j)%N b)) (Rmult (pow 10 10) (E (temps (k - 1 + j).+1 b)))).
{ move=> jl c Ok; rewrite inc // -tr //; have := RS Ok j.+1 b isT jl c; rewrite addnS.
  apply: FullModel.inner_scale; [apply: (proj2 Ok); [apply: leq_ltn_trans kl; by rewrite -addnS leq_add2l|exact: ltn_ord]|exact: Rlt_le (dt0 j b jl)]. }
have sh (j : nat) : (k + j)%N = (k - 1 + j.+1)%N by rewrite addnS -addSn -subSn // subSS subn0.
split; first by move=> j b jl; exact: (proj1 (RG j.+1 b isT jl)).
split.
- move=> Z Z0 ZS.
  have Zb j (b : 'I_nb) i : (j < len)%N -> to_vec (Z j.+1 b) i = Rplus (to_vec (Z j b) i) (to_vec ((tb j.+1 b - tb j b) *: g.1 j.+1 b) i).
  { move=> jl; rewrite ZS // /to_vec; case: insub => [o|]; first by rewrite !mxE. by rewrite Rplus_0_r. }
  have St j : (j <= len)%N -> elastic_state (k - 1 + j)%N (Z j).
  { elim: j => [|j IH] jl; first by rewrite addn0 Z0.
    have [I1 [I2 I3]] := IH (ltnW jl); split; last split.
    - by move=> b i iF; rewrite Zb // I1 // inc_h // Rplus_0_r.
    - move=> b c; rewrite Zb // inc_s // addnS /elastic_stress [Deriv.sum _.+1 _]/= S_INR; apply: FullModel.abs_step_eq; [exact: atol0|exact: I2].
    - move=> b c Ok; rewrite Zb // addnS /elastic_strain /inner_error ![Deriv.sum _.+1 _]/= S_INR; apply: FullModel.abs_step_le; [exact: atol0|exact: I3|exact: inc_e]. }
  split; first by move=> j jl; rewrite sh; exact: St.
  have Z1 (j : nat) (b : 'I_nb) : (0 < j)%N -> (j <= len)%N -> control b = R0 -> Rle (Rabs (to_vec (Z j b) 0%N)) (Y b).
  { move=> _ jl; apply: U0 (St j jl); apply: leq_ltn_trans kl; by rewrite leq_add2l. }
  by move=> j b jl; apply: (rest_same kl Htb (fun q ql => proj1 (St q ql)) (fun _ _ => Rs) Z1 U1).
- move=> Sm.
  have Sm0 (j : nat) (b : 'I_nb) : (j < len)%N -> Rle (Rabs (to_vec ((tb j.+1 b - tb j b) *: g.1 j.+1 b) 0%N)) atol by move=> jl; rewrite /to_vec insubT; exact: Sm.
  have St j : (j <= len)%N -> elastic_state (k - 1 + j)%N ystart.
  { elim: j => [|j IH] jl; first by rewrite addn0.
    have [I1 [I2 I3]] := IH (ltnW jl); split; [exact: I1|split].
    - move=> b c; rewrite addnS /elastic_stress [Deriv.sum _.+1 _]/= S_INR; apply: FullModel.abs_skip_eq; [exact: I2|rewrite -inc_s //; exact: Sm0].
    - move=> b c Ok; rewrite addnS /elastic_strain /inner_error ![Deriv.sum _.+1 _]/= S_INR; apply: FullModel.abs_skip_le; [exact: I3|exact: inc_e|exact: Sm0]. }
  by move=> j jl; rewrite sh; apply: St.
Qed.
End Elastic.
