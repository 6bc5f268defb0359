(** Model of damage.py at one batch point (real arithmetic). *)
From Coq Require Import Reals Lra Lia Arith.
From Verif Require Import Torch Deriv Slices Hardening.
Local Open Scope R_scope.

(** What a damage model provides; arguments stress, damage, time, temperature,
    strain rate.  damage_rate returns (dm_rate, dm_dd). *)
Record damage := Damage {
  dm_rate : R -> R -> R -> R -> R -> R;
  dm_dd : R -> R -> R -> R -> R -> R;
  dm_ds : R -> R -> R -> R -> R -> R;
  dm_de : R -> R -> R -> R -> R -> R }.

(** NoDamage, damage.py 22-73 *)
Definition nodamage : damage := {|
  dm_rate s d t T e := 0; dm_dd s d t T e := 0; dm_ds s d t T e := 0; dm_de s d t T e := 0 |}.

(** ConstantDamage, damage.py 150-206 *)
Definition constdamage (rate : R -> R) : damage := {|
  dm_rate s d t T e := 1 * rate T; dm_dd s d t T e := 0; dm_ds s d t T e := 0; dm_de s d t T e := 0 |}.

(** HayhurstLeckie, damage.py 76-147.  Bases are non-negative for d <= 1 and
    A > 0 (see [hl_torch] for the domain where torch's power is finite). *)
Definition hayhurst (A xi phi : R -> R) : damage := {|
  dm_rate s d t T e := pow0 (Rabs s / A T) (xi T) * pow0 (1 - d) (xi T - phi T);
  dm_dd s d t T e := - pow0 (Rabs s / A T) (xi T) * pow0 (1 - d) (xi T - phi T - 1);
  dm_ds s d t T e := pow0 (Rabs s / A T) (xi T - 1) * pow0 (1 - d) (xi T - phi T) * tsign s;
  dm_de s d t T e := 0 |}.

(** LarsonMillerDamage, damage.py 209-285 *)
Definition larsonmiller (C A B : R -> R) (eps : R) : damage := {|
  dm_rate s d t T e := Rpower 10 (C T - B T / T) * pow0 (Rabs s * (1 - d)) (- A T / T);
  dm_dd s d t T e := Rpower 10 (C T - B T / T) * A T * Rabs s * pow0 (Rabs s * (1 - d)) (- (A T + T) / T) / T;
  dm_ds s d t T e := - Rpower 10 (C T - B T / T) * A T * pow0 (Rabs s * (1 - d)) (- A T / T)
                     / ((Rabs s + eps) * T) * tsign s;
  dm_de s d t T e := 0 |}.

(** The same two rates with torch's power made explicit: [None] is inf/nan. *)
Definition omul (a b : option R) : option R :=
  match a, b with Some x, Some y => Some (x * y) | _, _ => None end.
Definition hl_torch (A xi phi : R -> R) (s d T : R) : option R :=
  omul (tpow (Rabs s / A T) (xi T)) (tpow (1 - d) (xi T - phi T)).
Definition lm_torch (C A B : R -> R) (s d T : R) : option R :=
  omul (Some (Rpower 10 (C T - B T / T))) (tpow (Rabs s * (1 - d)) (- A T / T)).

(** ** Specification *)
(** The returned derivatives predict the change of the damage rate along every
    differentiable curve of stress, damage and strain rate. *)
Definition damage_exact (m : damage) (s d t T e : R) : Prop :=
  forall S Dm E s' d' e', through S s s' -> through Dm d d' -> through E e e' -> e <> 0 \/ e' = 0 ->
  D (fun y => dm_rate m (S y) (Dm y) t T (E y)) 0
    (dm_ds m s d t T e * s' + dm_dd m s d t T e * d' + dm_de m s d t T e * e').

(** ** Proofs *)
Lemma nodamage_exact s d t T e : damage_exact nodamage s d t T e.
Proof. intros S Dm E s' d' e' _ _ _ _. cbn [nodamage constdamage dm_rate dm_ds dm_dd dm_de]. eapply D_eq; [apply D_const|ring]. Qed.
Lemma constdamage_exact r s d t T e : damage_exact (constdamage r) s d t T e.
Proof. intros S Dm E s' d' e' _ _ _ _. cbn [nodamage constdamage dm_rate dm_ds dm_dd dm_de]. eapply D_eq; [apply D_const|ring]. Qed.

(** The true derivative of the Hayhurst-Leckie rate. *)
Lemma hayhurst_D A xi phi S Dm s d s' d' t T e E : s <> 0 -> d < 1 -> 0 < A T ->
  through S s s' -> through Dm d d' ->
  D (fun y => dm_rate (hayhurst A xi phi) (S y) (Dm y) t T (E y)) 0
    (xi T / A T * dm_ds (hayhurst A xi phi) s d t T e * s' + (xi T - phi T) * dm_dd (hayhurst A xi phi) s d t T e * d').
Proof.
  intros Hs Hd HA [S0 S1] [D0 D1]. cbn [hayhurst dm_rate dm_ds dm_dd].
  assert (Ps : 0 < Rabs s) by now apply Rabs_pos_lt. assert (P : 0 < Rabs s / A T) by now apply Rdiv_lt_0_compat.
  eapply D_eq.
  - apply D_mult.
    + apply (D_pow0 (fun y => Rabs (S y) / A T)); [rewrite S0; auto|].
      apply D_div_c, D_Rabs; [exact S1|]. rewrite S0. auto.
    + apply (D_pow0 (fun y => 1 - Dm y)); [rewrite D0; lra|]. apply D_minus; [apply D_const|exact D1].
  - cbv beta. rewrite S0, D0. unfold Rdiv. ring.
Qed.

Lemma larsonmiller_D C A B eps S Dm s d s' d' t T e E : s <> 0 -> d < 1 -> T <> 0 -> Rabs s + eps <> 0 ->
  through S s s' -> through Dm d d' ->
  D (fun y => dm_rate (larsonmiller C A B eps) (S y) (Dm y) t T (E y)) 0
    ((Rabs s + eps) / Rabs s * dm_ds (larsonmiller C A B eps) s d t T e * s' + dm_dd (larsonmiller C A B eps) s d t T e * d').
Proof.
  intros Hs Hd HT He [S0 S1] [D0 D1]. cbn [larsonmiller dm_rate dm_ds dm_dd].
  assert (Ps : 0 < Rabs s) by now apply Rabs_pos_lt. assert (P : 0 < Rabs s * (1 - d)) by (apply Rmult_lt_0_compat; lra).
  eapply D_eq.
  - apply D_scal. apply (D_pow0 (fun y => Rabs (S y) * (1 - Dm y))); [rewrite S0, D0; auto|].
    apply D_mult; [apply D_Rabs; [exact S1|rewrite S0; auto]|apply D_minus; [apply D_const|exact D1]].
  - cbv beta. rewrite S0, D0. rewrite !pow0_pos by auto.
    replace (- (A T + T) / T) with (- A T / T - 1) by (field; auto).
    set (x := Rabs s * (1 - d)) in *. replace (Rpower x (- A T / T)) with (Rpower x (- A T / T - 1) * x).
    + generalize (Rpower x (- A T / T - 1)). intros p. unfold x. field. repeat split; lra.
    + rewrite <- (Rpower_1 x) at 2 by auto. rewrite <- Rpower_plus. f_equal. ring.
Qed.

Lemma omul_some a b : omul (Some a) (Some b) = Some (a * b).
Proof. reflexivity. Qed.
Lemma tpow_pos x y : 0 < x -> tpow x y = Some (pow0 x y).
Proof. intros H. unfold tpow, pow0. destruct (Rlt_dec 0 x); [auto|lra]. Qed.
Lemma tpow_0pos y : 0 < y -> tpow 0 y = Some (pow0 0 y).
Proof.
  intros H. unfold tpow, pow0. destruct (Rlt_dec 0 0); [lra|]. destruct (Req_EM_T y 0); [lra|]. destruct (Rlt_dec 0 y); [auto|lra].
Qed.
Lemma hl_finite A xi phi s d t T e : 0 < A T -> 0 < xi T -> d < 1 ->
  hl_torch A xi phi s d T = Some (dm_rate (hayhurst A xi phi) s d t T e).
Proof.
  intros HA Hx Hd. unfold hl_torch. rewrite (tpow_pos (1 - d)) by lra.
  destruct (Req_dec s 0) as [->|Hs].
  - cbn [hayhurst dm_rate]. rewrite Rabs_R0. unfold Rdiv. rewrite Rmult_0_l, tpow_0pos by auto. reflexivity.
  - rewrite tpow_pos; [reflexivity|]. apply Rdiv_lt_0_compat; auto. now apply Rabs_pos_lt.
Qed.
Lemma lm_finite C A B eps s d t T e : s <> 0 -> d < 1 ->
  lm_torch C A B s d T = Some (dm_rate (larsonmiller C A B eps) s d t T e).
Proof.
  intros Hs Hd. unfold lm_torch. rewrite tpow_pos; [reflexivity|]. apply Rmult_lt_0_compat; [now apply Rabs_pos_lt|lra].
Qed.
