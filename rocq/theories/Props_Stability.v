(** C136: relaxation with the explicit scheme is stable only for short steps, and instability is silent. *)
From Coq Require Import Reals List String Lra Lia FunctionalExtensionality.
From mathcomp Require Import all_ssreflect all_algebra.
From Verif Require Import ChunkModel ChunkSolve ChunkInst NewtonModel Ode OdeForward OdeReal RField Pipeline Props_Explicit.
From Verif Require Interp Models Flow Slices PipelineR Torch ExplicitR CompareR Props_Ode.
Import GRing.Theory.
Set Implicit Arguments. Unset Strict Implicit. Unset Printing Implicit Defensive.
Local Open Scope R_scope.

(** A run of the explicit scheme on a perfectly viscoplastic material whose strain is held from time number [k0] on, at constant material properties. *)
Definition explicit_hold (E pn eta : R -> R) nb nt (times strains temps : nat -> nat -> R) lm miter throw gt n init
    (st : istate RF nb (Models.rf_n (Models.inelastic E (Flow.perfect pn eta)))) (b : 'I_nb) k0 E0 n0 eta0 : Prop :=
  [/\ times_increase nb nt times,
      @solve_strain (Models.inelastic E (Flow.perfect pn eta)) nb nt times strains temps ForwardEuler lm 0 0 miter throw gt n init = inl st,
      i_warned st = [::] &
      (forall k, (k0 <= k)%N -> (k < nt)%N -> strains k b = strains k0 b /\ E (temps k b) = E0 /\ pn (temps k b) = n0 /\ eta (temps k b) = eta0)].

Lemma hold_step E pn eta nb nt (times strains temps : nat -> nat -> R) lm miter throw gt n init st (b : 'I_nb) k0 E0 n0 eta0 :
  @explicit_hold E pn eta nb nt times strains temps lm miter throw gt n init st b k0 E0 n0 eta0 ->
  forall k, (k0 < k)%N -> (k.+1 < nt)%N -> ExplicitR.fe_hold E0 n0 eta0 (times k.+1 b - times k b) (entry st k b 0%N) (entry st k.+1 b 0%N).
Proof.
move=> [Gr S W H] k kk kn.
have := C93_actual_increment Gr S W b kn (isT : (0 < Models.rf_n (Models.inelastic E (Flow.perfect pn eta)))%N).
have [e1 [e2 [e3 e4]]] := H k (ltnW kk) (ltnW kn).
case: k kk kn e1 e2 e3 e4 => [//|k] kk kn e1 e2 e3 e4.
have [d1 _] := H k kk (ltnW (ltnW kn)).
rewrite /imposed [k.+1.-1]/= e1 d1 Rminus_eq_0 /Rdiv Rmult_0_l /= /Slices.cat /= e2 e3 e4 /ExplicitR.fe_hold /CompareR.pvf /Rdiv => Q.
apply: (Rplus_eq_reg_r (- entry st k.+1 b 0%N)); rewrite [LHS]Q; ring.
Qed.

(** Steps at most [h] long with E h |s/eta|^n <= |s| at the start of the hold: the stress keeps its sign and its magnitude never grows. *)
Theorem C136_short_steps_relax E pn eta nb nt (times strains temps : nat -> nat -> R) lm miter throw gt n init st (b : 'I_nb) k0 E0 n0 eta0 h :
  @explicit_hold E pn eta nb nt times strains temps lm miter throw gt n init st b k0 E0 n0 eta0 ->
  0 < E0 -> 1 <= n0 -> 0 < eta0 ->
  (forall k, (k0 < k)%N -> (k.+1 < nt)%N -> times k.+1 b - times k b <= h) ->
  E0 * h * Torch.pow0 (Rabs (entry st k0.+1 b 0%N) / eta0) n0 <= Rabs (entry st k0.+1 b 0%N) ->
  forall k, (k0 < k)%N -> (k.+1 < nt)%N -> 0 <= entry st k.+1 b 0%N * entry st k b 0%N /\ Rabs (entry st k.+1 b 0%N) <= Rabs (entry st k b 0%N).
Proof.
move=> X E1 n1 e1 dh H0; have St := hold_step X; have [Gr _ _ _] := X.
have D k : (k.+1 < nt)%N -> 0 <= times k.+1 b - times k b.
{ move=> kn; have := Gr b (ltn_ord b) k k.+1 (PeanoNat.Nat.lt_succ_diag_r k) (ltP kn); lra. }
suff I k : (k0 < k)%N -> (k < nt)%N -> E0 * h * Torch.pow0 (Rabs (entry st k b 0%N) / eta0) n0 <= Rabs (entry st k b 0%N).
{ move=> k kk kn; have [a [c _]] := ExplicitR.safe_step _ _ _ _ _ _ _ E1 n1 e1 (D k kn) (dh k kk kn) (I k kk (ltnW kn)) (St k kk kn); by split. }
elim: k => [//|k IH]; rewrite ltnS leq_eqVlt => /orP [/eqP <- _ //|kk] kn.
by have [_ [_ c]] := ExplicitR.safe_step _ _ _ _ _ _ _ E1 n1 e1 (D k kn) (dh k kk kn) (IH kk (ltnW kn)) (St k kk kn).
Qed.
Print Assumptions C136_short_steps_relax.

(** Steps at least [h] long with E h |s/eta|^n >= (1 + r) |s|, r >= 1: the stress changes sign in every step and its magnitude grows by a factor of at least [r]. *)
Theorem C136_long_steps_oscillate E pn eta nb nt (times strains temps : nat -> nat -> R) lm miter throw gt n init st (b : 'I_nb) k0 E0 n0 eta0 h r :
  @explicit_hold E pn eta nb nt times strains temps lm miter throw gt n init st b k0 E0 n0 eta0 ->
  0 < E0 -> 1 <= n0 -> 0 < eta0 -> 0 < h -> 1 <= r ->
  (forall k, (k0 < k)%N -> (k.+1 < nt)%N -> h <= times k.+1 b - times k b) ->
  entry st k0.+1 b 0%N <> 0 -> (1 + r) * Rabs (entry st k0.+1 b 0%N) <= E0 * h * Torch.pow0 (Rabs (entry st k0.+1 b 0%N) / eta0) n0 ->
  forall j, (k0.+1 + j < nt)%N ->
    r ^ j * Rabs (entry st k0.+1 b 0%N) <= Rabs (entry st (k0.+1 + j)%N b 0%N) /\
    (((k0.+1 + j).+1 < nt)%N -> entry st (k0.+1 + j).+1 b 0%N * entry st (k0.+1 + j)%N b 0%N < 0).
Proof.
move=> X E1 n1 e1 h0 r1 dh H0 H1; have St := hold_step X.
have kk j : (k0 < k0.+1 + j)%N by rewrite addSn ltnS leq_addr.
suff I j : (k0.+1 + j < nt)%N -> entry st (k0.+1 + j)%N b 0%N <> 0 /\ r ^ j * Rabs (entry st k0.+1 b 0%N) <= Rabs (entry st (k0.+1 + j)%N b 0%N) /\
    (1 + r) * Rabs (entry st (k0.+1 + j)%N b 0%N) <= E0 * h * Torch.pow0 (Rabs (entry st (k0.+1 + j)%N b 0%N) / eta0) n0.
{ move=> j jn; have [a [c e]] := I j jn; split=> // jn'.
  by have [A _] := ExplicitR.unsafe_step _ _ _ _ _ _ _ _ E1 n1 e1 h0 (dh _ (kk j) jn') r1 a e (St _ (kk j) jn'). }
elim: j => [|j IH]; first by rewrite addn0 /= Rmult_1_l; split=> //; split=> //; exact: Rle_refl.
rewrite addnS => jn; have [a [c e]] := IH (ltnW jn).
have [A [C F]] := ExplicitR.unsafe_step _ _ _ _ _ _ _ _ E1 n1 e1 h0 (dh _ (kk j) jn) r1 a e (St _ (kk j) jn).
split; first by move=> z; rewrite z Rmult_0_l in A; lra.
split=> //; apply: Rle_trans C; rewrite /= Rmult_assoc; apply: Rmult_le_compat_l => //; lra.
Qed.
Print Assumptions C136_long_steps_oscillate.

(** The runs of a bar of unit modulus and viscosity (n = 1), strained by [e] in the first step and held, with steps of length [c] and one step per block *)
Definition step_times (c : R) (k _ : nat) : R := INR k * c.
Definition step_strain (e : R) (k _ : nat) : R := if k is 0%N then 0 else e.
Definition unit_bar := Models.inelastic (fun _ => 1) (Flow.perfect (fun _ => 1) (fun _ => 1)).
Lemma held_bar c e m lm : 0 < c ->
  exists st : istate RF 1 1, @solve_strain unit_bar 1 m.+3 (step_times c) (step_strain e) (fun _ _ => 0) ForwardEuler lm 0 0 10 true "zero" 1 (fun _ => zeroV RF 1 1) = inl st /\
    i_warned st = [::] /\
    @explicit_hold (fun _ => 1) (fun _ => 1) (fun _ => 1) 1 m.+3 (step_times c) (step_strain e) (fun _ _ => 0) lm 10 true "zero" 1 (fun _ => @zeroV RF 1 1) st ord0 1%N 1 1 1 /\
    entry (B := unit_bar) st 2 (ord0 : 'I_1) 0 = e.
Proof.
move=> c0; set B := unit_bar; set times := step_times c; set strains := step_strain e.
have Gr : times_increase 1 m.+3 times by move=> b _ i j ij _; apply: Rmult_lt_compat_r; [lra|exact: lt_INR].
have [st [S W]] := @fe_never_fails 1 1 (strain_f (B := B) m.+3 times strains (fun _ _ => 0)) (strain_J (B := B) m.+3 times strains (fun _ _ => 0)) lm 0 0 10 true "zero" 1 m.+3
  (time_table 1 times) (@zeroV RF 1 1) (fun _ => @zeroV RF 1 1) (Rle_refl _) isT isT isT (or_introl erefl).
exists st; split=> //; split=> //; split; first by split=> //; case.
have S2 : @solve_strain B 1 m.+3 times strains (fun _ _ => 0) ForwardEuler lm 0 0 10 true "zero" 1 (fun _ => @zeroV RF 1 1) = inl st := S.
have i1 := isT : (0 < Models.rf_n B)%N.
have Z0 : entry (B := B) st 0 (ord0 : 'I_1) 0 = 0.
{ have [_ [R0' _]] := integrate_writes S; rewrite (@entryE B 1 st 0 (ord0 : 'I_1) (ord0 : 'I_1)) R0' ffunE mxE //. }
have Z1 : entry (B := B) st 1 (ord0 : 'I_1) 0 = 0.
{ have := C93_actual_increment Gr S2 W (ord0 : 'I_1) (isT : (1 < m.+3)%N) i1; rewrite /= /Slices.cat /= !Z0 Torch.tsign_0 => Q; rewrite -[LHS]Rminus_0_r [LHS]Q; ring. }
have := C93_actual_increment Gr S2 W (ord0 : 'I_1) (isT : (2 < m.+3)%N) i1; rewrite /= /Slices.cat /= !Z1 Torch.tsign_0 /imposed /times /step_times /strains /= => Q; rewrite -[LHS]Rminus_0_r [LHS]Q; field; lra.
Qed.

(** Instability is silent: such a run always succeeds without a warning, and with steps of length [1 + r] its stress after j steps of the hold is at least r^j times [e]. *)
Theorem C136_silent r e m lm : 1 <= r -> 0 < e ->
  exists st, @solve_strain unit_bar 1 m.+3 (step_times (1 + r)) (step_strain e) (fun _ _ => 0) ForwardEuler lm 0 0 10 true "zero" 1 (fun _ => zeroV RF 1 1) = inl st /\
    i_warned st = [::] /\ forall j, (j <= m)%N -> r ^ j * e <= Rabs (entry st j.+2 (ord0 : 'I_1) 0%N).
Proof.
move=> r1 e0; have [st [S [W [X Z2]]]] := @held_bar (1 + r) e m lm ltac:(lra); exists st; split=> //; split=> // j jm.
have a := Rabs_pos_eq e (Rlt_le _ _ e0).
have := @C136_long_steps_oscillate _ _ _ _ _ _ _ _ _ _ _ _ _ _ _ _ _ _ _ _ (1 + r) r X Rlt_0_1 (Rle_refl 1) Rlt_0_1 ltac:(lra) r1 _ _ _ j _.
rewrite Z2 a add2n => -[] //.
- move=> k _ _; rewrite /step_times S_INR; lra.
- lra.
- rewrite (_ : e / 1 = e); last field. rewrite Torch.pow0_1; lra.
Qed.
Print Assumptions C136_silent.

(** With steps of length one half the same test relaxes. *)
Example C136_ex e m lm : 0 < e ->
  exists st, @solve_strain unit_bar 1 m.+3 (step_times (1 / 2)) (step_strain e) (fun _ _ => 0) ForwardEuler lm 0 0 10 true "zero" 1 (fun _ => zeroV RF 1 1) = inl st /\
    entry st 2 (ord0 : 'I_1) 0%N = e /\ forall k, (1 < k)%N -> (k.+1 < m.+3)%N -> Rabs (entry st k.+1 (ord0 : 'I_1) 0%N) <= Rabs (entry st k (ord0 : 'I_1) 0%N).
Proof.
move=> e0; have [st [S [W [X Z2]]]] := @held_bar (1 / 2) e m lm ltac:(lra); exists st; split=> //; split=> // k k1 kn.
have a := Rabs_pos_eq e (Rlt_le _ _ e0).
have := @C136_short_steps_relax _ _ _ _ _ _ _ _ _ _ _ _ _ _ _ _ _ _ _ _ (1 / 2) X Rlt_0_1 (Rle_refl 1) Rlt_0_1 _ _ k k1 kn; rewrite Z2 a => -[] //.
- move=> j _ _; rewrite /step_times S_INR; lra.
- rewrite (_ : e / 1 = e); last field. rewrite Torch.pow0_1; lra.
Qed.
