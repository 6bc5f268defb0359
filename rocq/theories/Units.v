(** The same material in other units: which parameters have to be converted, class by class, when stresses are expressed by c times larger numbers
    and times by q times larger numbers, and what the conversion does to the rates and derivatives (hardening.py, flowrules.py, damage.py,
    models.py 47-269). *)
From Coq Require Import Reals Lra Lia List Arith Bool FunctionalExtensionality.
From Verif Require Import Torch Deriv Slices Hardening Flow Damage NewtonModel Models StressSym Symmetry.
Import ListNotations.
Local Open Scope bool_scope.
Local Open Scope R_scope.

Section Conv.
(** stresses are c times larger numbers, times q times larger ones; P marks the temperatures that occur *)
Variables (c q : R) (P : R -> Prop).

(** ** The conversions *)
(** A recovery coefficient b in a term b |x|^r, x a stress, of a rate of stress. *)
Definition recovery_coeff (b r : R) : R := b * Rpower c (1 - r) / q.
Inductive hardening_units : hardening -> hardening -> Prop :=
| hu_voce Rs d : hardening_units (voce Rs d) (voce (fun T => c * Rs T) d)
| hu_theta0 tau theta : hardening_units (theta0voce tau theta) (theta0voce (fun T => c * tau T) (fun T => c * theta T))
| hu_recovery tau theta R0 r1 r2 : hardening_units (theta0recovery tau theta R0 r1 r2)
    (theta0recovery (fun T => c * tau T) (fun T => c * theta T) (fun T => c * R0 T) (fun T => recovery_coeff (r1 T) (r2 T)) r2)
| hu_none : hardening_units nokin nokin
| hu_fa C g : hardening_units (fa C g None None) (fa (fun T => c * C T) g None None)
| hu_fa_recovery C g b r : hardening_units (fa C g (Some b) (Some r)) (fa (fun T => c * C T) g (Some (fun T => recovery_coeff (b T) (r T))) (Some r))
| hu_fan C g : hardening_units (fa_norecovery C g) (fa_norecovery (fun T => c * C T) g)
| hu_chaboche nback C g : hardening_units (chaboche nback C g) (chaboche nback (fun T i => c * C T i) g)
| hu_chabocher nback C g b r : hardening_units (chaboche_recovery nback C g b r)
    (chaboche_recovery nback (fun T i => c * C T i) g (fun T i => recovery_coeff (b T i) (r T i)) r)
| hu_nil : hardening_units (superimposed []) (superimposed [])
| hu_cons m m' ms ms' : hardening_units m m' -> hardening_units (superimposed ms) (superimposed ms') -> hardening_units (superimposed (m :: ms)) (superimposed (m' :: ms')).
(** A viscosity eta in (stress / eta)^n, a strain rate. *)
Definition viscosity (eta n : R) : R := c * eta * Rpower q (/ n).
(** The shear modulus of the Kocks-Mecking energy in other units, Boltzmann's constant going with it; strain rates are divided by q. *)
Definition modulus_units (mu mu' : tparam) : Prop := forall T, tp_value mu' T = c * tp_value mu T.
Inductive flow_units : flowrule -> flowrule -> Prop :=
| fu_perfect n eta : (forall T, P T -> n T <> 0) -> flow_units (perfect n eta) (perfect n (fun T => viscosity (eta T) (n T)))
| fu_isokin n eta s0 iso iso' kin kin' : (forall T, P T -> n T <> 0) -> hardening_units iso iso' -> hardening_units kin kin' ->
    flow_units (isokin n eta s0 iso kin) (isokin n (fun T => viscosity (eta T) (n T)) (fun T => c * s0 T) iso' kin')
| fu_km F1 F1' F2 F2' g0 mu mu' b eps0 k eps g0s : fl_nhist F1 = fl_nhist F2 -> flow_units F1 F1' -> flow_units F2 F2' -> modulus_units mu mu' ->
    flow_units (km_rule F1 F2 g0 mu b eps0 k eps g0s) (km_rule F1' F2' g0 mu' b (eps0 / q) (c * k) (eps / q) g0s)
| fu_soft F1 F1' F2 F2' g0 mu mu' b eps0 k sf eps g0s : fl_nhist F1 = fl_nhist F2 -> flow_units F1 F1' -> flow_units F2 F2' -> modulus_units mu mu' ->
    flow_units (soft_rule F1 F2 g0 mu b eps0 k sf eps g0s) (soft_rule F1' F2' g0 mu' b (eps0 / q) (c * k) sf (eps / q) g0s)
| fu_ri F F' lmbda eps_ref : flow_units F F' -> flow_units (ri_rule F lmbda eps_ref) (ri_rule F' lmbda (eps_ref / q))
| fu_nil : flow_units (super_rule []) (super_rule [])
| fu_cons F F' Fs Fs' : flow_units F F' -> flow_units (super_rule Fs) (super_rule Fs') -> flow_units (super_rule (F :: Fs)) (super_rule (F' :: Fs')).
(** Damage models: another unit of time only (the damage itself is a pure number). *)
Inductive damage_units : damage -> damage -> Prop :=
| du_none : damage_units nodamage nodamage
| du_const r : damage_units (constdamage r) (constdamage (fun T => r T / q))
| du_lm C A B eps : damage_units (larsonmiller C A B eps) (larsonmiller (fun T => C T - ln q / ln 10) A B eps).
Inductive model_units : rateform -> rateform -> Prop :=
| mu_inelastic E F F' : flow_units F F' -> model_units (inelastic E F) (inelastic (fun T => c * E T) F')
| mu_damaged E F F' M M' : c = 1 -> flow_units F F' -> damage_units M M' -> model_units (damaged E F M) (damaged E F' M').

(** ** What they do to the rates *)
Hypotheses (Hc : 0 < c) (Hq : 0 < q).
Let a := / q.
Let k0 := / c.
Lemma aq : a * q = 1. Proof. unfold a. field. lra. Qed.
Lemma kc : k0 * c = 1. Proof. unfold k0. field. lra. Qed.
Lemma a_pos : 0 < a. Proof. now apply Rinv_0_lt_compat. Qed.
Lemma abs_pos w x : 0 < w -> Rabs (w * x) = w * Rabs x.
Proof. intros H. now rewrite Rabs_mult, (Rabs_right w) by lra. Qed.
Lemma sign_pos w x : 0 < w -> tsign (w * x) = tsign x.
Proof.
  intros H. unfold tsign.
  destruct (Rlt_dec 0 (w * x)), (Rlt_dec 0 x); try reflexivity.
  - exfalso. nra.
  - exfalso. nra.
  - destruct (Rlt_dec (w * x) 0), (Rlt_dec x 0); try reflexivity; exfalso; nra.
Qed.
Lemma macaulay_pos w x : 0 < w -> macaulay (w * x) = w * macaulay x.
Proof. intros H. unfold macaulay, heaviside. rewrite sign_pos by exact H. ring. Qed.
Lemma pow0_scale w x y : 0 < w -> pow0 (w * x) y = Rpower w y * pow0 x y.
Proof.
  intros H. unfold pow0. destruct (Rlt_dec 0 x) as [Hx|Hx].
  - destruct (Rlt_dec 0 (w * x)); [|exfalso; nra]. now rewrite Rpower_mult_distr.
  - destruct (Rlt_dec 0 (w * x)); [exfalso; nra|]. destruct (Req_EM_T y 0) as [->|]; [|ring]. rewrite Rpower_O by exact H. ring.
Qed.
(** c x^y c^(1-y) *)
Lemma pow_back y : Rpower c (1 - y) * Rpower c (y - 1) = 1.
Proof. rewrite <- Rpower_plus. replace (1 - y + (y - 1)) with 0 by ring. now apply Rpower_O. Qed.
Lemma rec_pow b r x : recovery_coeff b r * pow0 (c * x) (r - 1) = a * (b * pow0 x (r - 1)).
Proof.
  unfold recovery_coeff. rewrite pow0_scale by exact Hc.
  transitivity (b * (Rpower c (1 - r) * Rpower c (r - 1)) * pow0 x (r - 1) * a); [unfold a, Rdiv; ring|]. rewrite pow_back. ring.
Qed.

Definition hd_unit (m m' : hardening) : Prop := hd_nhist m' = hd_nhist m /\
  forall s h h' t t' ep T e, (forall j, (j < hd_nhist m)%nat -> h' j = c * h j) ->
  hd_value m' h' = c * hd_value m h /\
  (forall j, (j < hd_nhist m)%nat -> hd_dvalue m' h' j = hd_dvalue m h j) /\
  (forall i, (i < hd_nhist m)%nat ->
    hd_rate m' (c * s) h' t' (a * ep) T (a * e) i = c * a * hd_rate m s h t ep T e i /\
    hd_dstress m' (c * s) h' t' (a * ep) T (a * e) i = a * hd_dstress m s h t ep T e i /\
    hd_derate m' (c * s) h' t' (a * ep) T (a * e) i = c * hd_derate m s h t ep T e i /\
    hd_dtotal m' (c * s) h' t' (a * ep) T (a * e) i = c * hd_dtotal m s h t ep T e i /\
    forall j, (j < hd_nhist m)%nat -> hd_dhistory m' (c * s) h' t' (a * ep) T (a * e) i j = a * hd_dhistory m s h t ep T e i j).
Lemma ratio x y : c * x / (c * y) = x / y.
Proof. unfold Rdiv. rewrite Rinv_mult. transitivity (c * / c * (x * / y)); [ring|]. rewrite Rinv_r by lra. ring. Qed.
Ltac scalar_hd H := split; [reflexivity|]; intros s h h' t t' ep T e H; let E := fresh in pose proof (H 0%nat (Nat.lt_0_succ 0)) as E; cbn; rewrite ?E, ?(abs_pos a), ?(sign_pos a) by exact a_pos;
  split; [try ring|split; [try (intros; reflexivity)|intros i Hi; unfold default_dtotal, vzero; rewrite ?ratio; repeat split; try (intros j Hj); try ring]].
Lemma voce_unit Rs d : hd_unit (voce Rs d) (voce (fun T => c * Rs T) d).
Proof. scalar_hd H. Qed.
Lemma theta0_unit tau theta : hd_unit (theta0voce tau theta) (theta0voce (fun T => c * tau T) (fun T => c * theta T)).
Proof.
  scalar_hd H. rewrite (ltac:(unfold Rdiv; ring) : - (c * theta T) / (c * tau T) = - (c * theta T / (c * tau T))), ratio. unfold Rdiv. ring.
Qed.
Lemma recovery_unit tau theta R0 r1 r2 : hd_unit (theta0recovery tau theta R0 r1 r2)
  (theta0recovery (fun T => c * tau T) (fun T => c * theta T) (fun T => c * R0 T) (fun T => recovery_coeff (r1 T) (r2 T)) r2).
Proof.
  scalar_hd H; rewrite (ltac:(ring) : c * R0 T - c * h 0%nat = c * (R0 T - h 0%nat)), (abs_pos c) by exact Hc.
  - rewrite (ltac:(ring) : recovery_coeff (r1 T) (r2 T) * (c * (R0 T - h 0%nat)) * pow0 (c * Rabs (R0 T - h 0%nat)) (r2 T - 1) =
      recovery_coeff (r1 T) (r2 T) * pow0 (c * Rabs (R0 T - h 0%nat)) (r2 T - 1) * (c * (R0 T - h 0%nat))), rec_pow. ring.
  - rewrite (ltac:(ring) : r2 T * recovery_coeff (r1 T) (r2 T) * pow0 (c * Rabs (R0 T - h 0%nat)) (r2 T - 1) =
      r2 T * (recovery_coeff (r1 T) (r2 T) * pow0 (c * Rabs (R0 T - h 0%nat)) (r2 T - 1))), rec_pow.
    rewrite (ltac:(unfold Rdiv; ring) : - (c * theta T) / (c * tau T) = - (c * theta T / (c * tau T))), ratio. unfold Rdiv. ring.
Qed.
Lemma nokin_unit : hd_unit nokin nokin.
Proof. split; [reflexivity|]. intros s h h' t t' ep T e H. cbn. split; [ring|]. split; intros; lia. Qed.
Lemma fan_unit C g : hd_unit (fa_norecovery C g) (fa_norecovery (fun T => c * C T) g).
Proof. scalar_hd H. Qed.
Lemma fa_unit C g : hd_unit (fa C g None None) (fa (fun T => c * C T) g None None).
Proof. scalar_hd H. Qed.
Lemma fa_recovery_unit C g b r : hd_unit (fa C g (Some b) (Some r)) (fa (fun T => c * C T) g (Some (fun T => recovery_coeff (b T) (r T))) (Some r)).
Proof.
  scalar_hd H; rewrite (abs_pos c) by exact Hc.
  - rewrite rec_pow. ring.
  - rewrite (ltac:(ring) : recovery_coeff (b T) (r T) * r T * pow0 (c * Rabs (h 0%nat)) (r T - 1) = r T * (recovery_coeff (b T) (r T) * pow0 (c * Rabs (h 0%nat)) (r T - 1))), rec_pow. ring.
Qed.
Lemma sum_unit n (h h' : vec) : (forall j, (j < n)%nat -> h' j = c * h j) -> sum n h' = c * sum n h.
Proof. intros H. induction n as [|n IH]; cbn; [ring|]. rewrite IH, (H n) by auto. ring. Qed.
Lemma chaboche_unit nb C g : hd_unit (chaboche nb C g) (chaboche nb (fun T i => c * C T i) g).
Proof.
  split; [reflexivity|]. intros s h h' t t' ep T e H. cbn in *. split; [now apply sum_unit|]. split; [reflexivity|]. intros i Hi.
  rewrite (H i Hi), !(abs_pos a), (sign_pos a) by exact a_pos. unfold default_dtotal, vzero, diag_embed. repeat split; try ring. intros j Hj. destruct (_ =? _); ring.
Qed.
Lemma chabocher_unit nb C g b r : hd_unit (chaboche_recovery nb C g b r) (chaboche_recovery nb (fun T i => c * C T i) g (fun T i => recovery_coeff (b T i) (r T i)) r).
Proof.
  split; [reflexivity|]. intros s h h' t t' ep T e H. cbn in *. split; [now apply sum_unit|]. split; [reflexivity|]. intros i Hi.
  rewrite (H i Hi), !(abs_pos a), (sign_pos a) by exact a_pos. unfold default_dtotal, vzero, diag_embed. repeat split; try ring.
  - rewrite (abs_pos c), rec_pow by exact Hc. ring.
  - intros j Hj. destruct (i =? j); [|ring]. rewrite (H i Hi), (abs_pos c) by exact Hc.
    rewrite (ltac:(ring) : - recovery_coeff (b T i) (r T i) * r T i * pow0 (c * Rabs (h i)) (r T i - 1) = - r T i * (recovery_coeff (b T i) (r T i) * pow0 (c * Rabs (h i)) (r T i - 1))), rec_pow. ring.
Qed.
Lemma superimposed_nil_unit : hd_unit (superimposed []) (superimposed []).
Proof. split; [reflexivity|]. intros s h h' t t' ep T e H. cbn. split; [unfold loop_add; cbn; ring|]. split; intros; cbn in *; lia. Qed.
Lemma superimposed_cons_unit m m' ms ms' : hd_unit m m' -> hd_unit (superimposed ms) (superimposed ms') -> hd_unit (superimposed (m :: ms)) (superimposed (m' :: ms')).
Proof.
  intros [N Hm] [Ns Hs]. cbn [superimposed hd_nhist] in Ns. split; [cbn [superimposed hd_nhist]; now rewrite !total_cons, N, Ns|].
  intros s h h' t t' ep T e H. cbn [superimposed hd_nhist] in H. rewrite total_cons in H.
  destruct (Hm s h h' t t' ep T e) as (A1 & A2 & A3); [intros; apply H; lia|].
  destruct (Hs s (slice (hd_nhist m) h) (slice (hd_nhist m) h') t t' ep T e) as (B1 & B2 & B3); [intros; apply H; cbn [superimposed hd_nhist] in *; lia|].
  cbn [superimposed hd_value hd_dvalue hd_rate hd_dstress hd_dhistory hd_derate hd_dtotal hd_nhist] in *. rewrite total_cons. split.
  { rewrite !loop_add_cons, N, A1, B1. ring. } split.
  { intros j Hj. rewrite !loop_assign_cons by (rewrite ?N, ?Ns; exact Hj). rewrite N. destruct (Nat.ltb_spec j (hd_nhist m)); [now apply A2|apply B2; lia]. }
  intros i Hi. rewrite !(loop_assign_cons _ (fun m h => hd_rate m _ h _ _ _ _)), !(loop_assign_cons _ (fun m h => hd_dstress m _ h _ _ _ _)),
    !(loop_assign_cons _ (fun m h => hd_derate m _ h _ _ _ _)), !(loop_assign_cons _ (fun m h => hd_dtotal m _ h _ _ _ _)) by (rewrite ?N, ?Ns; exact Hi).
  rewrite N. destruct (Nat.ltb_spec i (hd_nhist m)) as [L|L].
  - destruct (A3 i L) as (C1 & C2 & C3 & C4 & C5). repeat split; try assumption. intros j Hj. rewrite !(loop_assign2_cons _ (fun m h => hd_dhistory m _ h _ _ _ _)) by (rewrite ?N, ?Ns; assumption).
    rewrite N. destruct (Nat.ltb_spec i (hd_nhist m)); [|lia]. destruct (Nat.ltb_spec j (hd_nhist m)); [now apply C5|ring].
  - destruct (B3 (i - hd_nhist m)%nat ltac:(lia)) as (C1 & C2 & C3 & C4 & C5). repeat split; try assumption. intros j Hj.
    rewrite !(loop_assign2_cons _ (fun m h => hd_dhistory m _ h _ _ _ _)) by (rewrite ?N, ?Ns; assumption).
    rewrite N. destruct (Nat.ltb_spec i (hd_nhist m)); [lia|]. destruct (Nat.ltb_spec j (hd_nhist m)); [ring|apply C5; lia].
Qed.
Lemma hardening_unit m m' : hardening_units m m' -> hd_unit m m'.
Proof.
  induction 1; [apply voce_unit|apply theta0_unit|apply recovery_unit|apply nokin_unit|apply fa_unit|apply fa_recovery_unit|apply fan_unit|apply chaboche_unit|apply chabocher_unit|apply superimposed_nil_unit|].
  now apply superimposed_cons_unit.
Qed.

(** ** Flow rules *)
Definition fl_unit (F F' : flowrule) : Prop := fl_nhist F' = fl_nhist F /\
  forall s h h' t t' T e, P T -> (forall j, (j < fl_nhist F)%nat -> h' j = c * h j) ->
  fl_rate F' (c * s) h' t' T (a * e) = a * fl_rate F s h t T e /\
  fl_ds F' (c * s) h' t' T (a * e) = a * k0 * fl_ds F s h t T e /\
  fl_de F' (c * s) h' t' T (a * e) = fl_de F s h t T e /\
  (forall j, (j < fl_nhist F)%nat -> fl_dh F' (c * s) h' t' T (a * e) j = a * k0 * fl_dh F s h t T e j) /\
  (forall i, (i < fl_nhist F)%nat ->
    fl_hrate F' (c * s) h' t' T (a * e) i = c * a * fl_hrate F s h t T e i /\
    fl_hds F' (c * s) h' t' T (a * e) i = a * fl_hds F s h t T e i /\
    fl_hde F' (c * s) h' t' T (a * e) i = c * fl_hde F s h t T e i /\
    forall j, (j < fl_nhist F)%nat -> fl_hdh F' (c * s) h' t' T (a * e) i j = a * fl_hdh F s h t T e i j).
(** the factor of stress / viscosity *)
Let w n := Rpower q (- / n).
Lemma w_pos n : 0 < w n. Proof. apply exp_pos. Qed.
Lemma inv_visc eta n : / viscosity eta n = k0 * w n * / eta.
Proof. unfold viscosity, w, k0. rewrite !Rinv_mult, Rpower_Ropp. ring. Qed.
Lemma over_visc x eta n : c * x / viscosity eta n = w n * (x / eta).
Proof. unfold Rdiv. rewrite inv_visc. transitivity (k0 * c * (w n * (x * / eta))); [ring|]. rewrite kc. ring. Qed.
Lemma w_n n : n <> 0 -> Rpower (w n) n = a.
Proof. intros H. unfold w. rewrite Rpower_mult. replace (- / n * n) with (- (1)) by (field; exact H). now rewrite Rpower_Ropp, Rpower_1. Qed.
Lemma w_n1 n : n <> 0 -> Rpower (w n) (n - 1) * w n = a.
Proof. intros H. rewrite <- (Rpower_1 (w n)) at 2 by apply w_pos. rewrite <- Rpower_plus. replace (n - 1 + 1) with n by ring. now apply w_n. Qed.
Lemma pow_rate x n : n <> 0 -> pow0 (w n * x) n = a * pow0 x n.
Proof. intros H. rewrite pow0_scale, w_n by (exact H || apply w_pos). reflexivity. Qed.
Lemma pow_drate x eta n : n <> 0 -> pow0 (w n * x) (n - 1) / viscosity eta n = a * k0 * (pow0 x (n - 1) / eta).
Proof.
  intros H. unfold Rdiv. rewrite inv_visc, pow0_scale by apply w_pos.
  transitivity ((Rpower (w n) (n - 1) * w n) * k0 * (pow0 x (n - 1) * / eta)); [ring|]. now rewrite w_n1.
Qed.
Lemma perfect_unit n eta : (forall T, P T -> n T <> 0) -> fl_unit (perfect n eta) (perfect n (fun T => viscosity (eta T) (n T))).
Proof.
  intros Hn. split; [reflexivity|]. intros s h h' t t' T e HT H. specialize (Hn T HT). cbn.
  rewrite (abs_pos c), (sign_pos c), over_visc, pow_rate by assumption. split; [ring|].
  rewrite (ltac:(unfold Rdiv; ring) : n T * pow0 (w (n T) * (Rabs s / eta T)) (n T - 1) / viscosity (eta T) (n T) = n T * (pow0 (w (n T) * (Rabs s / eta T)) (n T - 1) / viscosity (eta T) (n T))), pow_drate by assumption.
  split; [unfold Rdiv; ring|]. repeat split; intros; lia.
Qed.
Lemma isokin_unit n eta s0 iso iso' kin kin' : (forall T, P T -> n T <> 0) -> hd_unit iso iso' -> hd_unit kin kin' ->
  fl_unit (isokin n eta s0 iso kin) (isokin n (fun T => viscosity (eta T) (n T)) (fun T => c * s0 T) iso' kin').
Proof.
  intros Hn [Ni Hi] [Nk Hk]. split; [cbn; now rewrite Ni, Nk|]. intros s h h' t t' T e HT H. cbn [isokin fl_nhist] in H. specialize (Hn T HT).
  assert (H1 : forall j, (j < hd_nhist iso)%nat -> h' j = c * h j) by (intros j Hj; rewrite H by lia; reflexivity).
  assert (H2 : forall j, (j < hd_nhist kin)%nat -> slice (hd_nhist iso) h' j = c * slice (hd_nhist iso) h j) by (intros j Hj; unfold slice; rewrite H by lia; reflexivity).
  assert (V1 : ik_iso iso' h' = c * ik_iso iso h) by (unfold ik_iso; destruct (Hi s h h' t t' 0 T e H1) as (-> & _); ring).
  assert (V2 : ik_kin iso' kin' h' = c * ik_kin iso kin h) by (unfold ik_kin; rewrite Ni; now destruct (Hk s (slice (hd_nhist iso) h) (slice (hd_nhist iso) h') t t' 0 T e H2) as (-> & _)).
  assert (D : c * s - ik_kin iso' kin' h' = c * (s - ik_kin iso kin h)) by (rewrite V2; ring).
  assert (X : (Rabs (c * s - ik_kin iso' kin' h') - c * s0 T - ik_iso iso' h') / viscosity (eta T) (n T) = w (n T) * ((Rabs (s - ik_kin iso kin h) - s0 T - ik_iso iso h) / eta T)).
  { rewrite D, V1, (abs_pos c) by exact Hc. rewrite <- over_visc. f_equal. ring. }
  set (eta' := fun T => viscosity (eta T) (n T)) in *. set (s0' := fun T => c * s0 T).
  assert (Er : ik_rate n eta' s0' iso' kin' (c * s) h' t' T (a * e) = a * ik_rate n eta s0 iso kin s h t T e).
  { unfold ik_rate, eta', s0'. rewrite X, D, (sign_pos c), (macaulay_pos (w (n T))), pow_rate by (assumption || apply w_pos). ring. }
  assert (Ed : n T * pow0 (macaulay ((Rabs (c * s - ik_kin iso' kin' h') - s0' T - ik_iso iso' h') / eta' T)) (n T - 1) / eta' T =
    a * k0 * (n T * pow0 (macaulay ((Rabs (s - ik_kin iso kin h) - s0 T - ik_iso iso h) / eta T)) (n T - 1) / eta T)).
  { unfold eta', s0'. rewrite X, (macaulay_pos (w (n T))) by apply w_pos. set (m := macaulay _).
    rewrite (ltac:(unfold Rdiv; ring) : n T * pow0 (w (n T) * m) (n T - 1) / viscosity (eta T) (n T) = n T * (pow0 (w (n T) * m) (n T - 1) / viscosity (eta T) (n T))), pow_drate by assumption.
    unfold Rdiv. ring. }
  assert (Eds : ik_ds n eta' s0' iso' kin' (c * s) h' t' T (a * e) = a * k0 * ik_ds n eta s0 iso kin s h t T e) by exact Ed.
  assert (Ng : forall u v x : R, - u * v / x = - (u * v / x)) by (intros; unfold Rdiv; ring).
  assert (Ei : ik_diso n eta' s0' iso' kin' (c * s) h' t' T (a * e) = a * k0 * ik_diso n eta s0 iso kin s h t T e).
  { unfold ik_diso. cbv zeta. rewrite !Ng, Ed, D, (sign_pos c) by exact Hc. ring. }
  assert (Ek : ik_dkin n eta' s0' iso' kin' (c * s) h' t' T (a * e) = a * k0 * ik_dkin n eta s0 iso kin s h t T e) by (unfold ik_dkin; rewrite !Ng, Ed; ring).
  set (ep := ik_rate n eta s0 iso kin s h t T e) in *.
  destruct (Hi s h h' t t' ep T e H1) as (_ & I2 & I3). destruct (Hk s (slice (hd_nhist iso) h) (slice (hd_nhist iso) h') t t' ep T e H2) as (_ & K2 & K3).
  assert (CK : forall x y, c * x * (a * k0 * y) = a * (x * y)) by (intros x y; transitivity (k0 * c * (a * (x * y))); [ring|]; rewrite kc; ring).
  cbn [isokin fl_nhist fl_rate fl_ds fl_de fl_dh fl_hrate fl_hds fl_hde fl_hdh]. cbv zeta. rewrite Er, Eds, Ei, Ek, Ni. fold ep. unfold default_scalar.
  split; [reflexivity|]. split; [reflexivity|]. split; [reflexivity|]. unfold cat. split.
  { intros j Hj. destruct (Nat.ltb_spec j (hd_nhist iso)); [rewrite I2 by auto; ring|]. rewrite K2 by lia. ring. }
  intros i Hii. destruct (Nat.ltb_spec i (hd_nhist iso)) as [L|L].
  - destruct (I3 i L) as (C1 & C2 & C3 & C4 & C5). rewrite C1, C2, C3, C4. split; [ring|]. split; [rewrite CK; ring|]. split; [ring|]. intros j Hj.
    destruct (Nat.ltb_spec j (hd_nhist iso)).
    + rewrite C5, I2 by auto. rewrite (Rmult_assoc (a * k0)), CK. ring.
    + rewrite K2 by lia. rewrite CK. ring.
  - destruct (K3 (i - hd_nhist iso)%nat ltac:(lia)) as (C1 & C2 & C3 & C4 & C5). rewrite C1, C2, C3, C4. split; [ring|]. split; [rewrite CK; ring|]. split; [ring|]. intros j Hj.
    destruct (Nat.ltb_spec j (hd_nhist iso)).
    + rewrite I2 by auto. rewrite (Rmult_assoc (a * k0)), CK. ring.
    + rewrite C5, K2 by lia. rewrite (Rmult_assoc (a * k0)), CK. ring.
Qed.
Lemma km_g_unit k mu mu' b eps0 eps T e : modulus_units mu mu' -> km_g (c * k) mu' b (eps0 / q) (eps / q) T (a * e) = km_g k mu b eps0 eps T e.
Proof.
  intros Hm. unfold km_g. rewrite (Hm T), (abs_pos a) by exact a_pos. f_equal.
  - rewrite (Rmult_assoc c k), (Rmult_assoc c (tp_value mu T)). apply ratio; exact Hc.
  - f_equal. unfold Rdiv. fold a. rewrite (ltac:(ring) : a * Rabs e + eps * a = a * (Rabs e + eps)), Rinv_mult. unfold a at 2. rewrite Rinv_inv.
    transitivity (a * q * (eps0 * / (Rabs e + eps))); [ring|]. rewrite aq. ring.
Qed.
Lemma km_unit F1 F1' F2 F2' g0 mu mu' b eps0 k eps g0s : fl_nhist F1 = fl_nhist F2 -> fl_unit F1 F1' -> fl_unit F2 F2' -> modulus_units mu mu' ->
  fl_unit (km_rule F1 F2 g0 mu b eps0 k eps g0s) (km_rule F1' F2' g0 mu' b (eps0 / q) (c * k) (eps / q) g0s).
Proof.
  intros N [N1 H1] [N2 H2] Hm. split; [exact N1|]. intros s h h' t t' T e HT H. cbn in H.
  specialize (H1 s h h' t t' T e HT H). specialize (H2 s h h' t t' T e HT). rewrite <- N in H2. specialize (H2 H).
  cbn. unfold km_switch, km_second. rewrite (km_g_unit k mu mu') by exact Hm. destruct (Rlt_dec _ _); [exact H2|exact H1].
Qed.
Lemma soft_f_unit g0 mu mu' b eps0 k sf eps g0s T e : modulus_units mu mu' -> soft_f g0 mu' b (eps0 / q) (c * k) sf (eps / q) g0s T (a * e) = soft_f g0 mu b eps0 k sf eps g0s T e.
Proof. intros Hm. unfold soft_f. now rewrite (km_g_unit k mu mu'). Qed.
Lemma soft_df_unit g0 mu mu' b eps0 k sf eps g0s T e : modulus_units mu mu' -> soft_df g0 mu' b (eps0 / q) (c * k) sf (eps / q) g0s T (a * e) = q * soft_df g0 mu b eps0 k sf eps g0s T e.
Proof.
  intros Hm. unfold soft_df, soft_dg. rewrite (km_g_unit k mu mu'), (Hm T), (abs_pos a), (sign_pos a) by (exact Hm || exact a_pos).
  rewrite (Rmult_assoc c k), (Rmult_assoc c (tp_value mu T)), ratio by exact Hc. unfold Rdiv. fold a.
  rewrite (ltac:(ring) : a * Rabs e + eps * a = a * (Rabs e + eps)), (Rinv_mult a). unfold a. rewrite Rinv_inv. ring.
Qed.
Lemma soft_unit F1 F1' F2 F2' g0 mu mu' b eps0 k sf eps g0s : fl_nhist F1 = fl_nhist F2 -> fl_unit F1 F1' -> fl_unit F2 F2' -> modulus_units mu mu' ->
  fl_unit (soft_rule F1 F2 g0 mu b eps0 k sf eps g0s) (soft_rule F1' F2' g0 mu' b (eps0 / q) (c * k) sf (eps / q) g0s).
Proof.
  intros N [N1 H1] [N2 H2] Hm. split; [exact N1|]. intros s h h' t t' T e HT H. cbn in H.
  destruct (H1 s h h' t t' T e HT H) as (A1 & A2 & A3 & A4 & A5). specialize (H2 s h h' t t' T e HT). rewrite <- N in H2. destruct (H2 H) as (B1 & B2 & B3 & B4 & B5).
  assert (QA : forall x y, q * x * (a * y) = x * y) by (intros x y; transitivity (a * q * (x * y)); [ring|]; rewrite aq; ring).
  cbn. unfold blend. rewrite !(soft_f_unit g0 mu mu'), !(soft_df_unit g0 mu mu'), A1, A2, A3, B1, B2, B3 by exact Hm. split; [ring|]. split; [ring|]. split.
  { rewrite <- Rmult_minus_distr_l, QA. reflexivity. }
  split; [intros j Hj; rewrite A4, B4 by auto; ring|]. intros i Hi. destruct (A5 i Hi) as (C1 & C2 & C3 & C4). destruct (B5 i Hi) as (D1 & D2 & D3 & D4).
  rewrite C1, C2, C3, D1, D2, D3. split; [ring|]. split; [ring|]. split.
  { rewrite <- Rmult_minus_distr_l, (Rmult_comm _ (q * _)), (Rmult_comm c a), (Rmult_assoc a), QA. ring. }
  intros j Hj. rewrite C4, D4 by auto. ring.
Qed.
Lemma over_q x : / (x / q) = q * / x.
Proof. unfold Rdiv. rewrite Rinv_mult, Rinv_inv. ring. Qed.
Lemma ri_scale_unit l er e : ri_scale l (er / q) (a * e) = ri_scale l er e.
Proof.
  unfold ri_scale. rewrite (abs_pos a) by exact a_pos. unfold Rdiv at 1. rewrite over_q. f_equal. transitivity (a * q * (l * Rabs e * / er)); [ring|]. rewrite aq. unfold Rdiv. ring.
Qed.
Lemma ri_dscale_unit l er e : ri_dscale l (er / q) (a * e) = q * ri_dscale l er e.
Proof. unfold ri_dscale. rewrite (sign_pos a) by exact a_pos. unfold Rdiv at 1. rewrite over_q. unfold Rdiv. ring. Qed.
Lemma ri_unit F F' l er : fl_unit F F' -> fl_unit (ri_rule F l er) (ri_rule F' l (er / q)).
Proof.
  intros [N1 H1]. split; [exact N1|]. intros s h h' t t' T e HT H. cbn in H. destruct (H1 s h h' t t' T e HT H) as (A1 & A2 & A3 & A4 & A5).
  cbn. rewrite !ri_scale_unit, !ri_dscale_unit, A1, A2, A3. split; [ring|]. split; [ring|]. split.
  { f_equal. transitivity (a * q * (fl_rate F s h t T e * ri_dscale l er e)); [ring|]. rewrite aq. ring. }
  split; [intros j Hj; rewrite A4 by auto; ring|]. intros i Hi. destruct (A5 i Hi) as (C1 & C2 & C3 & C4). rewrite C1, C2, C3. split; [ring|]. split; [ring|]. split.
  { rewrite Rmult_plus_distr_l. f_equal; [ring|]. transitivity (a * q * (c * (fl_hrate F s h t T e i * ri_dscale l er e))); [ring|]. rewrite aq. ring. }
  intros j Hj. rewrite C4 by auto. ring.
Qed.
Lemma super_nil_unit : fl_unit (super_rule []) (super_rule []).
Proof. split; [reflexivity|]. intros s h h' t t' T e HT H. cbn. unfold loop_add. cbn. split; [ring|]. split; [ring|]. split; [ring|]. split; intros; cbn in *; lia. Qed.
Lemma super_cons_unit F F' Fs Fs' : fl_unit F F' -> fl_unit (super_rule Fs) (super_rule Fs') -> fl_unit (super_rule (F :: Fs)) (super_rule (F' :: Fs')).
Proof.
  intros [N H1] [Ns H2]. cbn [super_rule fl_nhist] in Ns. split; [cbn [super_rule fl_nhist]; now rewrite !total_cons, N, Ns|].
  intros s h h' t t' T e HT H. cbn [super_rule fl_nhist] in H. rewrite total_cons in H.
  destruct (H1 s h h' t t' T e HT) as (A1 & A2 & A3 & A4 & A5); [intros j Hj; apply H; lia|].
  destruct (H2 s (slice (fl_nhist F) h) (slice (fl_nhist F) h') t t' T e HT) as (B1 & B2 & B3 & B4 & B5).
  { intros j Hj. unfold slice. cbn [super_rule fl_nhist] in Hj. apply H. lia. }
  cbn [super_rule fl_nhist fl_rate fl_ds fl_de fl_dh fl_hrate fl_hds fl_hde fl_hdh] in *. rewrite total_cons.
  rewrite !(loop_add_cons _ (fun m h => fl_rate m _ h _ _ _)), !(loop_add_cons _ (fun m h => fl_ds m _ h _ _ _)), !(loop_add_cons _ (fun m h => fl_de m _ h _ _ _)), N, A1, A2, A3, B1, B2, B3.
  split; [ring|]. split; [ring|]. split; [reflexivity|]. split.
  { intros j Hj. rewrite !(loop_assign_cons _ (fun m h => fl_dh m _ h _ _ _)) by (rewrite ?N, ?Ns; exact Hj). rewrite N. destruct (Nat.ltb_spec j (fl_nhist F)); [now apply A4|apply B4; lia]. }
  intros i Hi. rewrite !(loop_assign_cons _ (fun m h => fl_hrate m _ h _ _ _)), !(loop_assign_cons _ (fun m h => fl_hds m _ h _ _ _)), !(loop_assign_cons _ (fun m h => fl_hde m _ h _ _ _)) by (rewrite ?N, ?Ns; exact Hi).
  rewrite N. destruct (Nat.ltb_spec i (fl_nhist F)) as [L|L].
  - destruct (A5 i L) as (C1 & C2 & C3 & C4). repeat split; try assumption. intros j Hj. rewrite !(loop_assign2_cons _ (fun m h => fl_hdh m _ h _ _ _)) by (rewrite ?N, ?Ns; assumption).
    rewrite N. destruct (Nat.ltb_spec i (fl_nhist F)); [|lia]. destruct (Nat.ltb_spec j (fl_nhist F)); [now apply C4|ring].
  - destruct (B5 (i - fl_nhist F)%nat ltac:(lia)) as (C1 & C2 & C3 & C4). repeat split; try assumption. intros j Hj. rewrite !(loop_assign2_cons _ (fun m h => fl_hdh m _ h _ _ _)) by (rewrite ?N, ?Ns; assumption).
    rewrite N. destruct (Nat.ltb_spec i (fl_nhist F)); [lia|]. destruct (Nat.ltb_spec j (fl_nhist F)); [ring|apply C4; lia].
Qed.
Lemma flow_unit F F' : flow_units F F' -> fl_unit F F'.
Proof.
  induction 1.
  - now apply perfect_unit.
  - apply isokin_unit; auto using hardening_unit.
  - now apply km_unit.
  - now apply soft_unit.
  - now apply ri_unit.
  - apply super_nil_unit.
  - now apply super_cons_unit.
Qed.

(** ** Damage *)
Definition dm_unit (M M' : damage) : Prop := forall s d t t' T e,
  dm_rate M' s d t' T (a * e) = a * dm_rate M s d t T e /\ dm_dd M' s d t' T (a * e) = a * dm_dd M s d t T e /\ dm_ds M' s d t' T (a * e) = a * dm_ds M s d t T e.
Lemma ten_q x y : Rpower 10 (x - ln q / ln 10 - y) = a * Rpower 10 (x - y).
Proof.
  assert (0 < ln 10) by (rewrite <- ln_1; apply ln_increasing; lra).
  assert (E : Rpower 10 (- (ln q / ln 10)) = a).
  { rewrite Rpower_Ropp. unfold Rpower. unfold a. f_equal. replace (ln q / ln 10 * ln 10) with (ln q) by (field; lra). now apply exp_ln. }
  rewrite <- E, <- Rpower_plus. f_equal. ring.
Qed.
Lemma damage_unit M M' : damage_units M M' -> dm_unit M M'.
Proof.
  intros [|r|C A B eps] s d t t' T e; cbn; try rewrite !ten_q; repeat split; unfold Rdiv; fold a; ring.
Qed.

(** ** Models *)
Definition rf_unit (B B' : rateform) : Prop := rf_n B' = rf_n B /\
  forall y y' t t' e T, P T -> (forall j, (j < rf_n B)%nat -> y' j = c * y j) ->
  (forall i, (i < rf_n B)%nat -> rf_rate B' t' y' (a * e) T i = c * a * rf_rate B t y e T i) /\
  (forall i j, (i < rf_n B)%nat -> (j < rf_n B)%nat -> rf_jac B' t' y' (a * e) T i j = a * rf_jac B t y e T i j).
Lemma inelastic_unit E F F' : fl_unit F F' -> rf_unit (inelastic E F) (inelastic (fun T => c * E T) F').
Proof.
  intros [N HF]. split; [cbn; now rewrite N|]. intros y y' t t' e T HT H. cbn [inelastic rf_n] in H.
  assert (Y0 : y' 0%nat = c * y 0%nat) by (apply H; lia).
  assert (Yh : forall j, (j < fl_nhist F)%nat -> slice 1 y' j = c * slice 1 y j) by (intros j Hj; unfold slice; apply H; lia).
  destruct (HF (y 0%nat) (slice 1 y) (slice 1 y') t t' T e HT Yh) as (A1 & A2 & A3 & A4 & A5).
  assert (CK : forall x y, - (c * x) * (a * k0 * y) = a * (- x * y)) by (intros x z; transitivity (k0 * c * (a * (- x * z))); [ring|]; rewrite kc; ring).
  cbn [inelastic rf_n rf_rate rf_jac]. cbv zeta. rewrite Y0, A1, A2. split.
  - intros [|i] Hi; unfold cat; cbn; [ring|]. rewrite Nat.sub_0_r. apply A5; lia.
  - intros [|i] [|j] Hi Hj; unfold cat; cbn; rewrite ?Nat.sub_0_r.
    + apply CK.
    + rewrite A4 by lia. apply CK.
    + destruct (A5 i ltac:(lia)) as (_ & -> & _). ring.
    + destruct (A5 i ltac:(lia)) as (_ & _ & _ & C4). apply C4; lia.
Qed.
Lemma damaged_unit E F F' M M' : c = 1 -> fl_unit F F' -> dm_unit M M' -> rf_unit (damaged E F M) (damaged E F' M').
Proof.
  intros c1 [N HF] HM. split; [cbn; now rewrite N|]. intros y y' t t' e T HT H. cbn [damaged rf_n] in H. rewrite c1 in H.
  assert (K1 : k0 = 1) by (unfold k0; rewrite c1; apply Rinv_1).
  rewrite c1, K1 in HF. set (n := fl_nhist F) in *.
  assert (Y0 : y' 0%nat = y 0%nat) by (rewrite H by lia; ring).
  assert (Yd : y' (1 + n)%nat = y (1 + n)%nat) by (rewrite H by lia; ring).
  assert (Yh : forall j, (j < n)%nat -> slice 1 y' j = 1 * slice 1 y j) by (intros j Hj; unfold slice; apply H; lia).
  set (d := y (1 + n)%nat) in *. set (se := y 0%nat / (1 - d)).
  destruct (HF se (slice 1 y) (slice 1 y') t t' T e HT Yh) as (A1 & A2 & A3 & A4 & A5). destruct (HM se d t t' T e) as (M1 & M2 & M3).
  rewrite Rmult_1_l in A1, A2, A3, A4, A5.
  cbn [damaged rf_n rf_rate rf_jac]. cbv zeta. rewrite N. fold n. rewrite Yd, Y0. fold d. fold se. rewrite A1, A2, M1, M2, M3, c1. split.
  - intros [|i] Hi; rewrite ?cat1S, ?cat10; [ring|]. unfold cat. destruct (Nat.ltb_spec i n) as [L|L]; [destruct (A5 i L) as (-> & _); ring|ring].
  - intros [|i] [|j] Hi Hj; change (0 <? 1) with true; try change (S i <? 1) with false; cbv iota; rewrite ?cat1S, ?cat10; try (replace (S i - 1)%nat with i by lia).
    + ring.
    + unfold cat. destruct (Nat.ltb_spec j n); [rewrite A4 by lia; ring|]. unfold Rdiv; ring.
    + destruct (Nat.ltb_spec i n) as [L|L]; rewrite ?cat1S, ?cat10.
      * destruct (A5 i ltac:(lia)) as (_ & -> & _). unfold Rdiv. ring.
      * unfold Rdiv. ring.
    + destruct (Nat.ltb_spec i n) as [L|L]; rewrite ?cat1S, ?cat10.
      * destruct (A5 i ltac:(lia)) as (_ & C2 & _ & C4). destruct (Nat.ltb_spec j n) as [L'|L']; rewrite ?(cat_lt n _ _ j L'), ?(cat_ge n _ _ j L'); [apply C4; lia|]. rewrite C2. unfold Rdiv. ring.
      * destruct (Nat.ltb_spec j n) as [L'|L']; rewrite ?(cat_lt n _ _ j L'), ?(cat_ge n _ _ j L'); [ring|]. unfold Rdiv. ring.
Qed.
Lemma model_unit B B' : model_units B B' -> rf_unit B B'.
Proof. intros []; [apply inelastic_unit|apply damaged_unit]; auto using flow_unit, damage_unit. Qed.
End Conv.
