(** C87-C89: the rates the constitutive models return, written out the way the
    docstrings of hardening.py, flowrules.py and damage.py write them. *)
From Coq Require Import Reals Lra Lia List Arith.
From Verif Require Import Torch Deriv Slices Hardening Temperature Flow Damage Models.
Import ListNotations.
Local Open Scope R_scope.

(** ** Specification *)
(** x ^ p for a base that is not negative.  Nothing is said about 0 ^ p with
    p < 0 (torch returns inf). *)
Inductive power_of (x p : R) : R -> Prop :=
| power_pos : 0 < x -> power_of x p (exp (p * ln x))
| power_zero : x = 0 -> 0 < p -> power_of x p 0
| power_one : x = 0 -> p = 0 -> power_of x p 1.
Lemma power_is x p w : 0 < x -> w = exp (p * ln x) -> power_of x p w.
Proof. intros H ->. now apply power_pos. Qed.
Lemma power_of_pow0 x p w : power_of x p w -> pow0 x p = w.
Proof.
  intros [H|H Hp|H Hp].
  - rewrite pow0_pos by auto. reflexivity.
  - subst. apply pow0_0. lra.
  - subst. unfold pow0. destruct (Rlt_dec 0 0); [lra|]. destruct (Req_EM_T 0 0); [auto|lra].
Qed.

(** ** C87: hardening.py *)
Theorem C87_voce Rs d s h t p T e :
  hd_nhist (voce Rs d) = 1%nat /\ hd_value (voce Rs d) h = h 0%nat /\
  hd_rate (voce Rs d) s h t p T e 0%nat = d T * (Rs T - h 0%nat) * Rabs p.
Proof. repeat split. Qed.
Print Assumptions C87_voce.
Theorem C87_theta0voce tau theta s h t p T e :
  hd_nhist (theta0voce tau theta) = 1%nat /\ hd_value (theta0voce tau theta) h = h 0%nat /\
  hd_rate (theta0voce tau theta) s h t p T e 0%nat = theta T * (1 - h 0%nat / tau T) * Rabs p.
Proof. repeat split. Qed.
Print Assumptions C87_theta0voce.
Theorem C87_theta0recovery tau theta R0 r1 r2 s h t p T e w :
  power_of (Rabs (R0 T - h 0%nat)) (r2 T - 1) w ->
  hd_nhist (theta0recovery tau theta R0 r1 r2) = 1%nat /\
  hd_value (theta0recovery tau theta R0 r1 r2) h = h 0%nat /\
  hd_rate (theta0recovery tau theta R0 r1 r2) s h t p T e 0%nat
    = theta T * (1 - h 0%nat / tau T) * Rabs p + r1 T * (R0 T - h 0%nat) * w.
Proof. intros H. apply power_of_pow0 in H. repeat split. cbn [hd_rate theta0recovery]. now rewrite H. Qed.
Print Assumptions C87_theta0recovery.
(** C stands for the code's C, which is the documented 2/3 C (C81). *)
Theorem C87_chaboche nback C g s h t p T e i : (i < nback)%nat ->
  hd_nhist (chaboche nback C g) = nback /\
  hd_value (chaboche nback C g) h = sum nback h /\
  hd_rate (chaboche nback C g) s h t p T e i = C T i * p - g T i * h i * Rabs p.
Proof. repeat split. Qed.
Print Assumptions C87_chaboche.
Theorem C87_chaboche_recovery nback C g b r s h t p T e i w : (i < nback)%nat ->
  power_of (Rabs (h i)) (r T i - 1) w ->
  hd_nhist (chaboche_recovery nback C g b r) = nback /\
  hd_value (chaboche_recovery nback C g b r) h = sum nback h /\
  hd_rate (chaboche_recovery nback C g b r) s h t p T e i
    = C T i * p - g T i * h i * Rabs p - b T i * w * h i.
Proof. intros Hi H. apply power_of_pow0 in H. repeat split. cbn [hd_rate chaboche_recovery]. now rewrite H. Qed.
Print Assumptions C87_chaboche_recovery.
Theorem C87_frederick_armstrong C g b r s h t p T e w :
  power_of (Rabs (h 0%nat)) (r T - 1) w ->
  hd_nhist (fa C g (Some b) (Some r)) = 1%nat /\
  hd_value (fa C g (Some b) (Some r)) h = h 0%nat /\
  hd_rate (fa C g (Some b) (Some r)) s h t p T e 0%nat
    = C T * p - g T * h 0%nat * Rabs p - b T * w * h 0%nat.
Proof. intros H. apply power_of_pow0 in H. repeat split. cbn [hd_rate fa]. rewrite H. ring. Qed.
Print Assumptions C87_frederick_armstrong.
Theorem C87_frederick_armstrong_norecovery C g s h t p T e :
  hd_nhist (fa_norecovery C g) = 1%nat /\ hd_value (fa_norecovery C g) h = h 0%nat /\
  hd_rate (fa_norecovery C g) s h t p T e 0%nat = C T * p - g T * h 0%nat * Rabs p.
Proof. repeat split. cbn [hd_rate fa_norecovery]. ring. Qed.
Print Assumptions C87_frederick_armstrong_norecovery.
(** Superposition of two models: the values add, each keeps its own variables. *)
Theorem C87_superimposed_pair m1 m2 s h t p T e :
  hd_nhist (superimposed [m1; m2]) = (hd_nhist m1 + hd_nhist m2)%nat /\
  hd_value (superimposed [m1; m2]) h = hd_value m1 h + hd_value m2 (fun i => h (hd_nhist m1 + i)%nat) /\
  (forall i, (i < hd_nhist m1)%nat -> hd_rate (superimposed [m1; m2]) s h t p T e i = hd_rate m1 s h t p T e i) /\
  (forall i, (i < hd_nhist m2)%nat -> hd_rate (superimposed [m1; m2]) s h t p T e (hd_nhist m1 + i)%nat
     = hd_rate m2 s (fun j => h (hd_nhist m1 + j)%nat) t p T e i).
Proof.
  split; [reflexivity|]. split; [|split].
  - cbn [hd_value superimposed]. unfold loop_add, items, offsets, slice. cbn -[Rplus]. rewrite Rplus_0_l. reflexivity.
  - intros i Hi. cbn [hd_rate superimposed]. unfold loop_assign, items, offsets, assign, slice. cbn -[Nat.leb Nat.ltb].
    destruct (Nat.ltb_spec i (hd_nhist m1)); [|lia].
    destruct (Nat.leb_spec (hd_nhist m1) i); [lia|]. cbn. now rewrite Nat.sub_0_r.
  - intros i Hi. cbn [hd_rate superimposed]. unfold loop_assign, items, offsets, assign, slice. cbn -[Nat.leb Nat.ltb].
    destruct (Nat.leb_spec (hd_nhist m1) (hd_nhist m1 + i)); [|lia].
    destruct (Nat.ltb_spec (hd_nhist m1 + i) (hd_nhist m1 + hd_nhist m2)); [|lia]. cbn.
    now replace (hd_nhist m1 + i - hd_nhist m1)%nat with i by lia.
Qed.
Print Assumptions C87_superimposed_pair.

Example C87_example :
  hd_rate (voce (fun _ => 5) (fun _ => 2)) 0 (fun _ => 1) 0 (-3) 0 0 0%nat = 24 /\
  hd_rate (theta0recovery (fun _ => 4) (fun _ => 2) (fun _ => 3) (fun _ => 7) (fun _ => 2)) 0 (fun _ => 1) 0 (-1) 0 0 0%nat = 59 / 2.
Proof.
  destruct (C87_voce (fun _ => 5) (fun _ => 2) 0 (fun _ => 1) 0 (-3) 0 0) as (_ & _ & ->).
  assert (Hw : power_of (Rabs (3 - 1)) (2 - 1) 2).
  { rewrite Rabs_pos_eq by lra. replace (3 - 1) with 2 by ring. apply power_is; [lra|].
    replace ((2 - 1) * ln 2) with (ln 2) by ring. symmetry. apply exp_ln. lra. }
  destruct (C87_theta0recovery (fun _ => 4) (fun _ => 2) (fun _ => 3) (fun _ => 7) (fun _ => 2) 0 (fun _ => 1) 0 (-1) 0 0 2 Hw) as (_ & _ & ->).
  rewrite !Rabs_left by lra. split; lra.
Qed.

(** ** C88: a complete model, InelasticModel with IsoKinViscoplasticity, Voce
    hardening and Chaboche backstresses.  State: stress, K, x_0 ... x_(nb-1). *)
Section Law.
Variables (E n eta s0 Rs d : R -> R) (nb : nat) (C g : R -> vec).
(** The inelastic strain rate for overstress x = stress - backstress. *)
Definition viscoplastic_rate (T x yield p : R) : Prop :=
  (Rabs x <= yield /\ p = 0) \/
  (yield < x /\ p = exp (n T * ln ((x - yield) / eta T))) \/
  (x < - yield /\ p = - exp (n T * ln ((- x - yield) / eta T))).
Definition voce_chaboche_law (T e : R) (y ydot : vec) : Prop :=
  exists p, viscoplastic_rate T (y 0%nat - sum nb (fun i => y (2 + i)%nat)) (s0 T + y 1%nat) p /\
  ydot 0%nat = E T * (e - p) /\
  ydot 1%nat = d T * (Rs T - y 1%nat) * Rabs p /\
  forall i, (i < nb)%nat -> ydot (2 + i)%nat = C T i * p - g T i * y (2 + i)%nat * Rabs p.
End Law.

Lemma viscoplastic_isokin n eta s0 iso kin s h t T e : 0 < n T -> 0 < eta T -> 0 <= s0 T + hd_value iso h ->
  viscoplastic_rate n eta T (s - hd_value kin (slice (hd_nhist iso) h)) (s0 T + hd_value iso h)
    (fl_rate (isokin n eta s0 iso kin) s h t T e).
Proof.
  intros Hn He Hy. set (x := s - hd_value kin (slice (hd_nhist iso) h)).
  destruct (Rle_lt_dec (Rabs x) (s0 T + hd_value iso h)) as [L|L].
  - left. split; auto. cbn [isokin fl_rate]. now apply ik_zero.
  - right. cbn [isokin fl_rate]. rewrite (ik_flows n eta s0 iso kin s h t T e Hn He L).
    fold (ik_kin iso kin h) in x. fold x. unfold ik_iso.
    destruct (Rle_lt_dec 0 x) as [P|N].
    + left. rewrite Rabs_pos_eq in * by auto. split; auto. rewrite tsign_pos by lra.
      rewrite Rmult_1_r. unfold Rpower. now replace (x - s0 T - hd_value iso h) with (x - (s0 T + hd_value iso h)) by ring.
    + right. rewrite Rabs_left in * by auto. split; [lra|]. rewrite tsign_neg by auto. unfold Rpower.
      replace (- x - s0 T - hd_value iso h) with (- x - (s0 T + hd_value iso h)) by ring. ring.
Qed.

Theorem C88_voce_chaboche_model E n eta s0 Rs d nb C g t y e T :
  0 < n T -> 0 < eta T -> 0 <= s0 T + y 1%nat ->
  let B := inelastic E (isokin n eta s0 (voce Rs d) (chaboche nb C g)) in
  rf_n B = (2 + nb)%nat /\
  voce_chaboche_law E n eta s0 Rs d nb C g T e y (rf_rate B t y e T).
Proof.
  intros Hn He Hy. cbv zeta. split; [reflexivity|].
  set (F := isokin n eta s0 (voce Rs d) (chaboche nb C g)).
  exists (fl_rate F (y 0%nat) (slice 1 y) t T e). split; [|split; [reflexivity|split]].
  - exact (viscoplastic_isokin n eta s0 (voce Rs d) (chaboche nb C g) (y 0%nat) (slice 1 y) t T e Hn He Hy).
  - reflexivity.
  - intros i Hi. cbn -[Rmult Rminus Rabs]. unfold slice. cbn -[Rmult Rminus Rabs]. rewrite !Nat.sub_0_r.
    reflexivity.
Qed.
Print Assumptions C88_voce_chaboche_model.
(** The rates are determined: no two different rates obey the law. *)
Theorem C88_law_determines_rates E n eta s0 Rs d nb C g T e y y1 y2 :
  0 <= s0 T + y 1%nat ->
  voce_chaboche_law E n eta s0 Rs d nb C g T e y y1 -> voce_chaboche_law E n eta s0 Rs d nb C g T e y y2 ->
  forall i, (i < 2 + nb)%nat -> y1 i = y2 i.
Proof.
  intros Hy (p1 & V1 & A1 & B1 & C1) (p2 & V2 & A2 & B2 & C2) i Hi.
  assert (p1 = p2).
  { set (x := y 0%nat - _) in *. pose proof (Rle_abs x). pose proof (Rle_abs (- x)) as Hx. rewrite Rabs_Ropp in Hx.
    destruct V1 as [[V1 ->]|[[V1 ->]|[V1 ->]]], V2 as [[V2 ->]|[[V2 ->]|[V2 ->]]]; auto; exfalso; lra. }
  subst p2. destruct i as [|[|i]]; [congruence|congruence|].
  change (S (S i)) with (2 + i)%nat. rewrite C1, C2 by lia. reflexivity.
Qed.
Print Assumptions C88_law_determines_rates.
Example C88_example : let B := inelastic (fun _ => 100) (isokin (fun _ => 1) (fun _ => 2) (fun _ => 3)
      (voce (fun _ => 5) (fun _ => 7)) (chaboche 2 (fun _ _ => 11) (fun _ _ => 13))) in
  let y : vec := fun i => match i with O => 10 | S O => 1 | S (S O) => 1 | _ => 3 end in
  map (rf_rate B 0 y 1 0) [0; 1; 2; 3]%nat = [0; 28; -2; -28].
Proof.
  cbv zeta. unfold map. cbn [rf_rate inelastic]. cbv zeta. unfold cat.
  cbn [Nat.ltb Nat.leb]. cbn [fl_hrate isokin fl_rate]. cbv zeta.
  set (iso := voce _ _). set (kin := chaboche _ _ _). set (y := fun i : nat => _). 
  assert (HR : ik_rate (fun _ => 1) (fun _ => 2) (fun _ => 3) iso kin 10 (slice 1 y) 0 0 1 = 1).
  { rewrite ik_flows; [| lra | lra |].
    - unfold ik_kin, ik_iso. cbn. unfold slice. cbn.
      replace (10 - (0 + 1 + 3)) with 6 by ring. rewrite Rabs_pos_eq by lra. rewrite tsign_pos by lra.
      replace ((6 - 3 - 1) / 2) with 1 by field. rewrite Rpower_1 by lra. ring.
    - unfold ik_kin. cbn. unfold slice. cbn. replace (10 - (0 + 1 + 3)) with 6 by ring. rewrite Rabs_pos_eq by lra. lra. }
  change (y 0%nat) with 10. rewrite HR. cbn -[Rmult Rminus Rabs]. unfold slice. cbn -[Rmult Rminus Rabs].
  rewrite Rabs_R1. repeat f_equal; lra.
Qed.

(** ** C89: damage.py *)
Theorem C89_hayhurst A xi phi s d t T e w1 w2 :
  power_of (Rabs s / A T) (xi T) w1 -> power_of (1 - d) (xi T - phi T) w2 ->
  dm_rate (hayhurst A xi phi) s d t T e = w1 * w2.
Proof. intros H1 H2. cbn [dm_rate hayhurst]. now rewrite (power_of_pow0 _ _ _ H1), (power_of_pow0 _ _ _ H2). Qed.
Print Assumptions C89_hayhurst.
Theorem C89_larson_miller C A B eps s d t T e w :
  power_of (Rabs s * (1 - d)) (- A T / T) w ->
  dm_rate (larsonmiller C A B eps) s d t T e = exp ((C T - B T / T) * ln 10) * w.
Proof. intros H. cbn [dm_rate larsonmiller]. now rewrite (power_of_pow0 _ _ _ H). Qed.
Print Assumptions C89_larson_miller.
Theorem C89_constant_and_none r s d t T e :
  dm_rate (constdamage r) s d t T e = r T /\ dm_rate nodamage s d t T e = 0.
Proof. split; cbn; ring. Qed.
Print Assumptions C89_constant_and_none.
Example C89_example :
  dm_rate (hayhurst (fun _ => 2) (fun _ => 1) (fun _ => 1)) (-6) (1/2) 0 0 0 = 3 /\
  dm_rate (larsonmiller (fun _ => 1) (fun _ => -2) (fun _ => 0) 0) (-6) (1/2) 0 2 0 = 30.
Proof.
  assert (P1 : power_of (Rabs (-6) / 2) 1 3).
  { rewrite Rabs_left by lra. replace (- -6 / 2) with 3 by field. apply power_is; [lra|].
    rewrite Rmult_1_l. symmetry. apply exp_ln. lra. }
  assert (P2 : power_of (1 - 1 / 2) (1 - 1) 1).
  { apply power_is; [lra|]. replace ((1 - 1) * ln (1 - 1 / 2)) with 0 by ring. symmetry. apply exp_0. }
  assert (P3 : power_of (Rabs (-6) * (1 - 1 / 2)) (- -2 / 2) 3).
  { rewrite Rabs_left by lra. replace (- -6 * (1 - 1 / 2)) with 3 by field. apply power_is; [lra|].
    replace (- -2 / 2 * ln 3) with (ln 3) by field. symmetry. apply exp_ln. lra. }
  rewrite (C89_hayhurst (fun _ => 2) (fun _ => 1) (fun _ => 1) (-6) (1/2) 0 0 0 3 1 P1 P2).
  rewrite (C89_larson_miller (fun _ => 1) (fun _ => -2) (fun _ => 0) 0 (-6) (1/2) 0 2 0 3 P3).
  replace ((1 - 0 / 2) * ln 10) with (ln 10) by field. rewrite exp_ln by lra. split; lra.
Qed.

(** C44-C46: the wrappers, written out. *)
(** The regime is decided by the strain rate alone: the second model is used exactly while
    |rate| + eps < eps0 exp (- g0 mu b^3 / (k T)), i.e. while the activation energy exceeds g0. *)
Theorem C45_regime_law m1 m2 g0 mu b eps0 k eps sc s h t T e :
  0 < k -> 0 < T -> 0 < tp_value mu T -> 0 < b -> 0 < eps -> 0 < eps0 ->
  let threshold := eps0 * exp (- (sc g0 * (tp_value mu T * b ^ 3) / (k * T))) in
  let m := km_rule m1 m2 g0 mu b eps0 k eps sc in
  (Rabs e + eps < threshold -> fl_rate m s h t T e = fl_rate m2 s h t T e /\ fl_hrate m s h t T e = fl_hrate m2 s h t T e) /\
  (threshold <= Rabs e + eps -> fl_rate m s h t T e = fl_rate m1 s h t T e /\ fl_hrate m s h t T e = fl_hrate m1 s h t T e).
Proof.
  intros Hk HT Hm Hb He H0 th m.
  assert (A : 0 < k * T / (tp_value mu T * b ^ 3)).
  { apply Rdiv_lt_0_compat; [nra|]. apply Rmult_lt_0_compat; auto. now apply pow_lt. }
  assert (B3 : 0 < b ^ 3) by now apply pow_lt.
  assert (Hd : 0 < Rabs e + eps) by (pose proof (Rabs_pos e); lra).
  set (c := k * T / (tp_value mu T * b ^ 3)) in *.
  assert (Th : th = eps0 * exp (- (sc g0 / c))). { unfold th, c. do 3 f_equal. field. repeat split; lra. }
  assert (Q : forall x, 0 < x -> (x < th <-> sc g0 < c * ln (eps0 / x)) ).
  { intros x Hx. rewrite Th. replace (ln (eps0 / x)) with (ln eps0 - ln x) by (unfold Rdiv; rewrite ln_mult, ln_Rinv by (auto; now apply Rinv_0_lt_compat); ring).
    assert (E : x < eps0 * exp (- (sc g0 / c)) <-> ln x < ln eps0 - sc g0 / c).
    { replace (eps0 * exp (- (sc g0 / c))) with (exp (ln eps0 - sc g0 / c)).
      2:{ unfold Rminus. now rewrite exp_plus, exp_ln. }
      split; intros L.
      - apply exp_lt_inv. now rewrite exp_ln.
      - rewrite <- (exp_ln x) by auto. now apply exp_increasing. }
    rewrite E. replace (sc g0) with (c * (sc g0 / c)) at 2 by (field; lra). split; intros L.
    - apply Rmult_lt_compat_l; lra.
    - apply Rmult_lt_reg_l in L; lra. }
  subst m. cbn [km_rule fl_rate fl_hrate]. unfold km_switch, km_second, km_g. fold c. split; intros L.
  - apply Q in L; auto. destruct (Rlt_dec _ _); [auto|lra].
  - destruct (Rlt_dec _ _) as [L'|]; [|auto]. apply Q in L'; auto. lra.
Qed.
Print Assumptions C45_regime_law.
(** The weight of the second model is the logistic function of 2 sf (g - g0). *)
Theorem C46_blend_law m1 m2 g0 mu b eps0 k sf eps sc s h t T e :
  let g := k * T / (tp_value mu T * b ^ 3) * ln (eps0 / (Rabs e + eps)) in
  let w := / (1 + exp (- (2 * sf * (g - sc g0)))) in
  let m := soft_rule m1 m2 g0 mu b eps0 k sf eps sc in
  fl_rate m s h t T e = (1 - w) * fl_rate m1 s h t T e + w * fl_rate m2 s h t T e /\
  forall i, fl_hrate m s h t T e i = (1 - w) * fl_hrate m1 s h t T e i + w * fl_hrate m2 s h t T e i.
Proof.
  intros g w m.
  assert (W : soft_f g0 mu b eps0 k sf eps sc T e = w).
  { unfold soft_f, km_g, w. fold g. unfold tanh, sinh, cosh. set (x := sf * (g - sc g0)).
    replace (2 * sf * (g - sc g0)) with (x + x) by (unfold x; ring).
    rewrite exp_Ropp, (exp_Ropp (x + x)), exp_plus. pose proof (exp_pos x). field. repeat split; nra. }
  subst m. cbn [soft_rule fl_rate fl_hrate]. unfold blend. rewrite W. auto.
Qed.
Print Assumptions C46_blend_law.
Theorem C44_rate_law base lmbda eps_ref s h t T e :
  let k := (1 - lmbda) + lmbda * (Rabs e / eps_ref) in
  fl_rate (ri_rule base lmbda eps_ref) s h t T e = k * fl_rate base s h t T e /\
  forall i, fl_hrate (ri_rule base lmbda eps_ref) s h t T e i = k * fl_hrate base s h t T e i.
Proof. cbn [ri_rule fl_rate fl_hrate]. unfold ri_scale. split; intros; unfold Rdiv; ring. Qed.
Print Assumptions C44_rate_law.
Example C45_ex : let mu := TParam (fun x => x) (fun _ => 1) in
  let a := perfect (fun _ => 3) (fun _ => 1) in let c := perfect (fun _ => 1) (fun _ => 1) in
  let m := km_rule a c 0 mu 1 5 1 1 (fun x => x) in
  fl_rate m 2 vzero 0 300 1 = fl_rate c 2 vzero 0 300 1 /\ fl_rate m 2 vzero 0 300 10 = fl_rate a 2 vzero 0 300 10.
Proof.
  cbv zeta. set (mu := TParam _ _). set (a := perfect (fun _ => 3) _). set (c := perfect (fun _ => 1) _).
  assert (E : exp (- (0 * (tp_value mu 300 * 1 ^ 3) / (1 * 300))) = 1).
  { rewrite <- exp_0. f_equal. unfold Rdiv. ring. }
  split.
  - destruct (C45_regime_law a c 0 mu 1 5 1 1 (fun x => x) 2 vzero 0 300 1) as [H _]; try (cbn; lra).
    apply H. rewrite E, Rabs_right; lra.
  - destruct (C45_regime_law a c 0 mu 1 5 1 1 (fun x => x) 2 vzero 0 300 10) as [_ H]; try (cbn; lra).
    apply H. rewrite E, Rabs_right; lra.
Qed.

(** C42: the history of an isotropic/kinematic flow rule is the isotropic variables followed by the
    kinematic ones, each evolving as its own model says at the flow rule's own inelastic rate. *)
Theorem C42_history n eta s0 iso kin s h t T e :
  let m := isokin n eta s0 iso kin in let p := fl_rate m s h t T e in
  let hk := fun i => h (hd_nhist iso + i)%nat in
  fl_nhist m = (hd_nhist iso + hd_nhist kin)%nat /\
  (forall i, (i < hd_nhist iso)%nat -> fl_hrate m s h t T e i = hd_rate iso s h t p T e i) /\
  (forall i, fl_hrate m s h t T e (hd_nhist iso + i)%nat = hd_rate kin s hk t p T e i).
Proof.
  cbn [isokin fl_rate fl_hrate fl_nhist]. cbv zeta. split; [reflexivity|]. split.
  - intros i Hi. now rewrite cat_l.
  - intros i. rewrite cat_r. reflexivity.
Qed.
Print Assumptions C42_history.
