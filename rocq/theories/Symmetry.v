(** Which materials behave the same when the load is reversed and when the clock is reset: every class of the library.  The sign c is -1 for a
    reversal of the load and 1 for none; in both cases the time may be any other. *)
From Coq Require Import Reals Lra Lia List Arith Bool FunctionalExtensionality.
From Verif Require Import Torch Deriv Slices Hardening Flow Damage NewtonModel Models StressSym.
Import ListNotations.
Local Open Scope bool_scope.
Local Open Scope R_scope.

Section Sign.
Variable c : R.
Hypothesis c1 : c * c = 1.
Lemma c_cases : c = 1 \/ c = -1.
Proof. assert ((c - 1) * (c + 1) = 0) as H by nra. apply Rmult_integral in H. destruct H; [left|right]; lra. Qed.
Lemma abs_c x : Rabs (c * x) = Rabs x.
Proof. destruct c_cases as [-> | ->]; [now rewrite Rmult_1_l|]. replace (-1 * x) with (- x) by ring. apply Rabs_Ropp. Qed.
Lemma sign_c x : tsign (c * x) = c * tsign x.
Proof.
  destruct c_cases as [-> | ->]; [now rewrite !Rmult_1_l|]. unfold tsign.
  destruct (Rlt_dec 0 (-1 * x)), (Rlt_dec 0 x); try lra; destruct (Rlt_dec (-1 * x) 0), (Rlt_dec x 0); lra.
Qed.

(** ** Hardening models: k is the sign of the internal variables (1 for isotropic, c for kinematic ones) *)
Definition hd_sym (k : R) (m : hardening) : Prop := forall s h h' t t' ep T e, (forall j, (j < hd_nhist m)%nat -> h' j = k * h j) ->
  hd_value m h' = k * hd_value m h /\
  (forall j, (j < hd_nhist m)%nat -> hd_dvalue m h' j = hd_dvalue m h j) /\
  (forall i, (i < hd_nhist m)%nat ->
    hd_rate m (c * s) h' t' (c * ep) T (c * e) i = k * hd_rate m s h t ep T e i /\
    hd_dstress m (c * s) h' t' (c * ep) T (c * e) i = k * c * hd_dstress m s h t ep T e i /\
    hd_derate m (c * s) h' t' (c * ep) T (c * e) i = k * c * hd_derate m s h t ep T e i /\
    hd_dtotal m (c * s) h' t' (c * ep) T (c * e) i = k * c * hd_dtotal m s h t ep T e i /\
    forall j, (j < hd_nhist m)%nat -> hd_dhistory m (c * s) h' t' (c * ep) T (c * e) i j = hd_dhistory m s h t ep T e i j).
Ltac scalar_hd H := let E := fresh in pose proof (H 0%nat (Nat.lt_0_succ 0)) as E; cbn; rewrite ?E, ?abs_c, ?sign_c; split; [try ring|split; [try (intros; reflexivity)|intros i Hi; repeat split; try (intros j Hj)]].
Lemma voce_sym Rs d : hd_sym 1 (voce Rs d).
Proof. intros s h h' t t' ep T e H. scalar_hd H; cbn; unfold default_dtotal, vzero; ring. Qed.
Lemma theta0voce_sym tau theta : hd_sym 1 (theta0voce tau theta).
Proof. intros s h h' t t' ep T e H. scalar_hd H; cbn; unfold default_dtotal, vzero, Rdiv; rewrite ?Rmult_1_l; ring. Qed.
Lemma theta0recovery_sym tau theta R0 r1 r2 : hd_sym 1 (theta0recovery tau theta R0 r1 r2).
Proof. intros s h h' t t' ep T e H. scalar_hd H; cbn; unfold default_dtotal, vzero, Rdiv; rewrite ?Rmult_1_l; ring. Qed.
Lemma nokin_sym k : hd_sym k nokin.
Proof. intros s h h' t t' ep T e H. cbn. split; [ring|]. split; intros; lia. Qed.
Lemma ckk x : c * (c * x) = x. Proof. rewrite <- Rmult_assoc, c1. ring. Qed.
Lemma fa_sym C g ob orr : hd_sym c (fa C g ob orr).
Proof.
  intros s h h' t t' ep T e H. unfold fa. destruct ob as [b|], orr as [r|]; scalar_hd H; cbn; unfold default_dtotal, vzero; rewrite ?abs_c, ?sign_c; try ring;
    rewrite ?c1; try ring; rewrite ?Rmult_assoc, ?(Rmult_comm _ c); ring_simplify; try (replace (c ^ 2) with 1 by (rewrite <- c1; ring)); ring.
Qed.
Lemma fa_norecovery_sym C g : hd_sym c (fa_norecovery C g).
Proof.
  intros s h h' t t' ep T e H. scalar_hd H; cbn; unfold default_dtotal, vzero; try ring; ring_simplify; try (replace (c ^ 2) with 1 by (rewrite <- c1; ring)); ring.
Qed.
Lemma sum_c n (h h' : vec) : (forall j, (j < n)%nat -> h' j = c * h j) -> sum n h' = c * sum n h.
Proof. intros H. induction n as [|n IH]; cbn; [ring|]. rewrite IH, (H n) by auto. ring. Qed.
Lemma chaboche_sym nb C g : hd_sym c (chaboche nb C g).
Proof.
  intros s h h' t t' ep T e H. cbn in *. split; [now apply sum_c|]. split; [reflexivity|]. intros i Hi. rewrite (H i Hi), abs_c, sign_c.
  unfold default_dtotal, vzero, diag_embed. repeat split; [ring|ring| |ring].
  rewrite (ltac:(ring) : C T i * 1 - g T i * (c * h i) * (c * tsign ep) = C T i * 1 - (c * c) * (g T i * h i * tsign ep)), !c1. ring.
Qed.
Lemma chaboche_recovery_sym nb C g b r : hd_sym c (chaboche_recovery nb C g b r).
Proof.
  intros s h h' t t' ep T e H. cbn in *. split; [now apply sum_c|]. split; [reflexivity|]. intros i Hi. rewrite !(H i Hi), !abs_c, !sign_c.
  unfold default_dtotal, vzero, diag_embed. repeat split; [ring|ring| |ring|].
  - rewrite (ltac:(ring) : C T i * 1 - g T i * (c * h i) * (c * tsign ep) = C T i * 1 - (c * c) * (g T i * h i * tsign ep)), !c1. ring.
  - intros j Hj. destruct (Nat.eqb_spec i j); [|reflexivity]. now rewrite !(H i Hi), !abs_c.
Qed.

(** One more model in front: SuperimposedKinematicHardening and SuperimposedFlowRule block by block. *)
Lemma slice_add (o k : nat) (h : vec) : slice (k + o) h = slice o (slice k h).
Proof. apply functional_extensionality. intros i. unfold slice. f_equal. lia. Qed.
Section Cons.
Context {M : Type} (nh : M -> nat).
Lemma size_total ms : total (map nh ms) = size nh ms.
Proof. unfold size. now rewrite total_sum. Qed.
Lemma total_cons m ms : total (map nh (m :: ms)) = (nh m + total (map nh ms))%nat.
Proof. now rewrite !total_sum. Qed.
Lemma rec_add_shift (f : M -> vec -> R) h k ms o : rec_add nh (fun o m => f m (slice o h)) (k + o) ms = rec_add nh (fun o m => f m (slice o (slice k h))) o ms.
Proof. revert o. induction ms as [|m ms IH]; intros o; [reflexivity|]. cbn [rec_add]. now rewrite slice_add, <- IH, Nat.add_assoc. Qed.
Lemma rec_assign_shift (f : M -> vec -> vec) h k ms o : rec_assign nh (fun o m => f m (slice o h)) (k + o) ms = rec_assign nh (fun o m => f m (slice o (slice k h))) o ms.
Proof. revert o. induction ms as [|m ms IH]; intros o; [reflexivity|]. cbn [rec_assign]. now rewrite slice_add, <- IH, Nat.add_assoc. Qed.
Lemma rec_assign2_shift (f : M -> vec -> mat) h k ms o : rec_assign2 nh (fun o m => f m (slice o h)) (k + o) ms = rec_assign2 nh (fun o m => f m (slice o (slice k h))) o ms.
Proof. revert o. induction ms as [|m ms IH]; intros o; [reflexivity|]. cbn [rec_assign2]. now rewrite slice_add, <- IH, Nat.add_assoc. Qed.
Lemma slice0 (h : vec) : slice 0 h = h. Proof. reflexivity. Qed.
Lemma loop_add_cons (f : M -> vec -> R) h m ms : loop_add nh (fun o m => f m (slice o h)) (m :: ms) = f m h + loop_add nh (fun o m' => f m' (slice o (slice (nh m) h))) ms.
Proof. rewrite !loop_add_rec. cbn [rec_add]. rewrite slice0. f_equal. rewrite Nat.add_0_l. rewrite <- (Nat.add_0_r (nh m)) at 1. apply rec_add_shift. Qed.
Lemma loop_assign_cons (f : M -> vec -> vec) h m ms i : (i < nh m + total (map nh ms))%nat ->
  loop_assign nh (fun o m => f m (slice o h)) (m :: ms) i = if i <? nh m then f m h i else loop_assign nh (fun o m' => f m' (slice o (slice (nh m) h))) ms (i - nh m)%nat.
Proof.
  intros Hi. rewrite loop_assign_rec by (rewrite <- size_total, total_cons; exact Hi). cbn [rec_assign]. unfold cat. rewrite slice0, Nat.add_0_l.
  destruct (Nat.ltb_spec i (nh m)); [reflexivity|]. rewrite loop_assign_rec by (rewrite <- size_total; lia).
  rewrite <- (Nat.add_0_r (nh m)) at 1. now rewrite rec_assign_shift.
Qed.
Lemma loop_assign2_cons (f : M -> vec -> mat) h m ms i j : (i < nh m + total (map nh ms))%nat -> (j < nh m + total (map nh ms))%nat ->
  loop_assign2 nh (fun o m => f m (slice o h)) (m :: ms) i j = if i <? nh m then (if j <? nh m then f m h i j else 0) else
    (if j <? nh m then 0 else loop_assign2 nh (fun o m' => f m' (slice o (slice (nh m) h))) ms (i - nh m)%nat (j - nh m)%nat).
Proof.
  intros Hi Hj. rewrite loop_assign2_rec by (rewrite <- size_total, total_cons; assumption). cbn [rec_assign2]. unfold cat2. rewrite slice0, Nat.add_0_l.
  destruct (Nat.ltb_spec i (nh m)), (Nat.ltb_spec j (nh m)); try reflexivity. rewrite loop_assign2_rec by (rewrite <- size_total; lia).
  rewrite <- (Nat.add_0_r (nh m)) at 1. now rewrite rec_assign2_shift.
Qed.
End Cons.
Lemma superimposed_nil_sym k : hd_sym k (superimposed []).
Proof. intros s h h' t t' ep T e H. cbn. split; [unfold loop_add; cbn; ring|]. split; intros; cbn in *; lia. Qed.
Lemma superimposed_cons_sym k m ms : hd_sym k m -> hd_sym k (superimposed ms) -> hd_sym k (superimposed (m :: ms)).
Proof.
  intros Hm Hs s h h' t t' ep T e H. cbn [superimposed hd_nhist] in H. rewrite total_cons in H.
  destruct (Hm s h h' t t' ep T e) as (A1 & A2 & A3); [intros; apply H; lia|].
  destruct (Hs s (slice (hd_nhist m) h) (slice (hd_nhist m) h') t t' ep T e) as (B1 & B2 & B3); [intros; apply H; cbn [superimposed hd_nhist] in *; lia|].
  cbn [superimposed hd_value hd_dvalue hd_rate hd_dstress hd_dhistory hd_derate hd_dtotal hd_nhist] in *. rewrite total_cons. split.
  { rewrite !loop_add_cons, A1, B1. ring. } split.
  { intros j Hj. rewrite !loop_assign_cons by exact Hj. destruct (Nat.ltb_spec j (hd_nhist m)); [now apply A2|apply B2; lia]. }
  intros i Hi. rewrite !(loop_assign_cons _ (fun m h => hd_rate m _ h _ _ _ _)), !(loop_assign_cons _ (fun m h => hd_dstress m _ h _ _ _ _)),
    !(loop_assign_cons _ (fun m h => hd_derate m _ h _ _ _ _)), !(loop_assign_cons _ (fun m h => hd_dtotal m _ h _ _ _ _)) by exact Hi.
  destruct (Nat.ltb_spec i (hd_nhist m)) as [L|L].
  - destruct (A3 i L) as (C1 & C2 & C3 & C4 & C5). repeat split; try assumption. intros j Hj. rewrite !(loop_assign2_cons _ (fun m h => hd_dhistory m _ h _ _ _ _)) by assumption.
    destruct (Nat.ltb_spec i (hd_nhist m)); [|lia]. destruct (Nat.ltb_spec j (hd_nhist m)); [now apply C5|reflexivity].
  - destruct (B3 (i - hd_nhist m)%nat ltac:(lia)) as (C1 & C2 & C3 & C4 & C5). repeat split; try assumption. intros j Hj.
    rewrite !(loop_assign2_cons _ (fun m h => hd_dhistory m _ h _ _ _ _)) by assumption.
    destruct (Nat.ltb_spec i (hd_nhist m)); [lia|]. destruct (Nat.ltb_spec j (hd_nhist m)); [reflexivity|apply C5; lia].
Qed.

(** ** Flow rules: sh j is the sign of internal variable j *)
Definition fl_sym (sh : nat -> R) (F : flowrule) : Prop := (forall j, sh j * sh j = 1) /\
  forall s h h' t t' T e, (forall j, (j < fl_nhist F)%nat -> h' j = sh j * h j) ->
  fl_rate F (c * s) h' t' T (c * e) = c * fl_rate F s h t T e /\
  fl_ds F (c * s) h' t' T (c * e) = fl_ds F s h t T e /\
  fl_de F (c * s) h' t' T (c * e) = fl_de F s h t T e /\
  (forall j, (j < fl_nhist F)%nat -> fl_dh F (c * s) h' t' T (c * e) j = c * sh j * fl_dh F s h t T e j) /\
  (forall i, (i < fl_nhist F)%nat ->
    fl_hrate F (c * s) h' t' T (c * e) i = sh i * fl_hrate F s h t T e i /\
    fl_hds F (c * s) h' t' T (c * e) i = sh i * c * fl_hds F s h t T e i /\
    fl_hde F (c * s) h' t' T (c * e) i = sh i * c * fl_hde F s h t T e i /\
    forall j, (j < fl_nhist F)%nat -> fl_hdh F (c * s) h' t' T (c * e) i j = sh i * fl_hdh F s h t T e i j * sh j).
Lemma perfect_sym sh n eta : (forall j, sh j * sh j = 1) -> fl_sym sh (perfect n eta).
Proof.
  intros Hs. split; [exact Hs|]. intros s h h' t t' T e H. cbn. rewrite abs_c, sign_c. repeat split; try (intros; lia). ring.
Qed.
Lemma isokin_sym n eta s0 iso kin : hd_sym 1 iso -> hd_sym c kin -> fl_sym (fun j => if j <? hd_nhist iso then 1 else c) (isokin n eta s0 iso kin).
Proof.
  intros Hi Hk. split; [intros j; destruct (j <? hd_nhist iso); lra|]. intros s h h' t t' T e H. cbn [isokin fl_nhist] in H.
  assert (H1 : forall j, (j < hd_nhist iso)%nat -> h' j = 1 * h j) by (intros j Hj; rewrite H by lia; destruct (Nat.ltb_spec j (hd_nhist iso)); [reflexivity|lia]).
  assert (H2 : forall j, (j < hd_nhist kin)%nat -> slice (hd_nhist iso) h' j = c * slice (hd_nhist iso) h j)
    by (intros j Hj; unfold slice; rewrite H by lia; destruct (Nat.ltb_spec (hd_nhist iso + j) (hd_nhist iso)); [lia|reflexivity]).
  assert (V1 : ik_iso iso h' = ik_iso iso h) by (unfold ik_iso; destruct (Hi s h h' t t' 0 T e H1) as (-> & _); ring).
  assert (V2 : ik_kin iso kin h' = c * ik_kin iso kin h) by (unfold ik_kin; now destruct (Hk s (slice (hd_nhist iso) h) (slice (hd_nhist iso) h') t t' 0 T e H2) as (-> & _)).
  assert (D : c * s - ik_kin iso kin h' = c * (s - ik_kin iso kin h)) by (rewrite V2; ring).
  assert (Er : ik_rate n eta s0 iso kin (c * s) h' t' T (c * e) = c * ik_rate n eta s0 iso kin s h t T e) by (unfold ik_rate; rewrite D, V1, abs_c, sign_c; ring).
  assert (Eds : ik_ds n eta s0 iso kin (c * s) h' t' T (c * e) = ik_ds n eta s0 iso kin s h t T e) by (unfold ik_ds; now rewrite D, V1, abs_c).
  assert (Ei : ik_diso n eta s0 iso kin (c * s) h' t' T (c * e) = c * ik_diso n eta s0 iso kin s h t T e) by (unfold ik_diso; cbv zeta; rewrite D, V1, abs_c, sign_c; ring).
  assert (Ek : ik_dkin n eta s0 iso kin (c * s) h' t' T (c * e) = ik_dkin n eta s0 iso kin s h t T e) by (unfold ik_dkin; now rewrite D, V1, abs_c).
  set (ep := ik_rate n eta s0 iso kin s h t T e) in *.
  destruct (Hi s h h' t t' ep T e H1) as (_ & I2 & I3). destruct (Hk s (slice (hd_nhist iso) h) (slice (hd_nhist iso) h') t t' ep T e H2) as (_ & K2 & K3).
  cbn [isokin fl_nhist fl_rate fl_ds fl_de fl_dh fl_hrate fl_hds fl_hde fl_hdh]. cbv zeta. rewrite Er, Eds, Ei, Ek. fold ep. unfold default_scalar.
  split; [reflexivity|]. split; [reflexivity|]. split; [reflexivity|]. unfold cat. split.
  { intros j Hj. destruct (Nat.ltb_spec j (hd_nhist iso)); [rewrite I2 by auto; ring|]. rewrite K2, c1 by lia. ring. }
  intros i Hii. destruct (Nat.ltb_spec i (hd_nhist iso)) as [L|L].
  - destruct (I3 i L) as (C1 & C2 & C3 & C4 & C5). rewrite C1, C2, C3, C4. repeat split; try ring. intros j Hj.
    destruct (Nat.ltb_spec j (hd_nhist iso)).
    + rewrite C5, I2 by auto. transitivity (hd_dhistory iso s h t ep T e i j + (c * c) * (hd_derate iso s h t ep T e i * (ik_diso n eta s0 iso kin s h t T e * hd_dvalue iso h j))); [ring|]. rewrite c1. ring.
    + rewrite K2 by lia. ring.
  - destruct (K3 (i - hd_nhist iso)%nat ltac:(lia)) as (C1 & C2 & C3 & C4 & C5). rewrite C1, C2, C3, C4, !c1. repeat split; try ring. intros j Hj.
    destruct (Nat.ltb_spec j (hd_nhist iso)).
    + rewrite I2 by auto. ring.
    + rewrite C5, K2 by lia. match goal with |- ?a + 1 * ?b * ?d = _ => transitivity ((c * c) * (a + b * d)); [rewrite c1; ring|ring] end.
Qed.
Lemma km_g_sym k mu b eps0 eps T e : km_g k mu b eps0 eps T (c * e) = km_g k mu b eps0 eps T e.
Proof. unfold km_g. now rewrite abs_c. Qed.
Lemma km_sym sh m1 m2 g0 mu b eps0 k eps g0s : fl_nhist m1 = fl_nhist m2 -> fl_sym sh m1 -> fl_sym sh m2 -> fl_sym sh (km_rule m1 m2 g0 mu b eps0 k eps g0s).
Proof.
  intros N [S1 H1] [_ H2]. split; [exact S1|]. intros s h h' t t' T e H. cbn in H.
  specialize (H1 s h h' t t' T e H). specialize (H2 s h h' t t' T e). rewrite <- N in H2. specialize (H2 H).
  cbn. unfold km_switch, km_second. rewrite km_g_sym. destruct (Rlt_dec _ _); [exact H2|exact H1].
Qed.
Lemma soft_f_sym g0 mu b eps0 k sf eps g0s T e : soft_f g0 mu b eps0 k sf eps g0s T (c * e) = soft_f g0 mu b eps0 k sf eps g0s T e.
Proof. unfold soft_f. now rewrite km_g_sym. Qed.
Lemma soft_df_sym g0 mu b eps0 k sf eps g0s T e : soft_df g0 mu b eps0 k sf eps g0s T (c * e) = c * soft_df g0 mu b eps0 k sf eps g0s T e.
Proof. unfold soft_df, soft_dg. rewrite km_g_sym, abs_c, sign_c. ring. Qed.
Lemma soft_sym sh m1 m2 g0 mu b eps0 k sf eps g0s : fl_nhist m1 = fl_nhist m2 -> fl_sym sh m1 -> fl_sym sh m2 -> fl_sym sh (soft_rule m1 m2 g0 mu b eps0 k sf eps g0s).
Proof.
  intros N [S1 H1] [_ H2]. split; [exact S1|]. intros s h h' t t' T e H. cbn in H.
  destruct (H1 s h h' t t' T e H) as (A1 & A2 & A3 & A4 & A5). specialize (H2 s h h' t t' T e). rewrite <- N in H2. destruct (H2 H) as (B1 & B2 & B3 & B4 & B5).
  cbn. unfold blend. rewrite !soft_f_sym, !soft_df_sym, A1, A2, A3, B1, B2, B3. split; [ring|]. split; [ring|]. split.
  { transitivity ((1 - soft_f g0 mu b eps0 k sf eps g0s T e) * fl_de m1 s h t T e + soft_f g0 mu b eps0 k sf eps g0s T e * fl_de m2 s h t T e
      + (c * c) * (soft_df g0 mu b eps0 k sf eps g0s T e * (fl_rate m2 s h t T e - fl_rate m1 s h t T e))); [ring|]. rewrite c1. ring. }
  split; [intros j Hj; rewrite A4, B4 by auto; ring|]. intros i Hi. destruct (A5 i Hi) as (C1 & C2 & C3 & C4). destruct (B5 i Hi) as (D1 & D2 & D3 & D4).
  rewrite C1, C2, C3, D1, D2, D3. repeat split; try ring. intros j Hj. rewrite C4, D4 by auto. ring.
Qed.
Lemma ri_scale_sym l er e : ri_scale l er (c * e) = ri_scale l er e.
Proof. unfold ri_scale. now rewrite abs_c. Qed.
Lemma ri_dscale_sym l er e : ri_dscale l er (c * e) = c * ri_dscale l er e.
Proof. unfold ri_dscale. rewrite sign_c. unfold Rdiv. ring. Qed.
Lemma ri_sym sh base l er : fl_sym sh base -> fl_sym sh (ri_rule base l er).
Proof.
  intros [S1 H1]. split; [exact S1|]. intros s h h' t t' T e H. cbn in H. destruct (H1 s h h' t t' T e H) as (A1 & A2 & A3 & A4 & A5).
  cbn. rewrite !ri_scale_sym, !ri_dscale_sym, A1, A2, A3. split; [ring|]. split; [ring|]. split.
  { transitivity (fl_de base s h t T e * ri_scale l er e + (c * c) * (fl_rate base s h t T e * ri_dscale l er e)); [ring|]. rewrite c1. ring. }
  split; [intros j Hj; rewrite A4 by auto; ring|]. intros i Hi. destruct (A5 i Hi) as (C1 & C2 & C3 & C4). rewrite C1, C2, C3. repeat split; try ring.
  intros j Hj. rewrite C4 by auto. ring.
Qed.
Lemma super_nil_sym sh : (forall j, sh j * sh j = 1) -> fl_sym sh (super_rule []).
Proof. intros Hs. split; [exact Hs|]. intros s h h' t t' T e H. cbn. unfold loop_add. cbn. split; [ring|]. split; [ring|]. split; [ring|]. split; intros; cbn in *; lia. Qed.
Lemma super_cons_sym sh sh' F Fs : fl_sym sh F -> fl_sym sh' (super_rule Fs) -> fl_sym (cat (fl_nhist F) sh sh') (super_rule (F :: Fs)).
Proof.
  intros [S1 H1] [S2 H2]. split; [intros j; unfold cat; destruct (j <? fl_nhist F); auto|].
  intros s h h' t t' T e H. cbn [super_rule fl_nhist] in H. rewrite total_cons in H.
  destruct (H1 s h h' t t' T e) as (A1 & A2 & A3 & A4 & A5); [intros j Hj; rewrite H by lia; unfold cat; destruct (Nat.ltb_spec j (fl_nhist F)); [reflexivity|lia]|].
  destruct (H2 s (slice (fl_nhist F) h) (slice (fl_nhist F) h') t t' T e) as (B1 & B2 & B3 & B4 & B5).
  { intros j Hj. unfold slice. cbn [super_rule fl_nhist] in Hj. rewrite H by lia. unfold cat. destruct (Nat.ltb_spec (fl_nhist F + j) (fl_nhist F)); [lia|]. do 2 f_equal. lia. }
  cbn [super_rule fl_nhist fl_rate fl_ds fl_de fl_dh fl_hrate fl_hds fl_hde fl_hdh] in *. rewrite total_cons. unfold cat.
  rewrite !(loop_add_cons _ (fun m h => fl_rate m _ h _ _ _)), !(loop_add_cons _ (fun m h => fl_ds m _ h _ _ _)), !(loop_add_cons _ (fun m h => fl_de m _ h _ _ _)), A1, A2, A3, B1, B2, B3.
  split; [ring|]. split; [reflexivity|]. split; [reflexivity|]. split.
  { intros j Hj. rewrite !(loop_assign_cons _ (fun m h => fl_dh m _ h _ _ _)) by exact Hj. destruct (Nat.ltb_spec j (fl_nhist F)); [now apply A4|apply B4; lia]. }
  intros i Hi. rewrite !(loop_assign_cons _ (fun m h => fl_hrate m _ h _ _ _)), !(loop_assign_cons _ (fun m h => fl_hds m _ h _ _ _)), !(loop_assign_cons _ (fun m h => fl_hde m _ h _ _ _)) by exact Hi.
  destruct (Nat.ltb_spec i (fl_nhist F)) as [L|L].
  - destruct (A5 i L) as (C1 & C2 & C3 & C4). repeat split; try assumption. intros j Hj. rewrite !(loop_assign2_cons _ (fun m h => fl_hdh m _ h _ _ _)) by assumption.
    destruct (Nat.ltb_spec i (fl_nhist F)); [|lia]. destruct (Nat.ltb_spec j (fl_nhist F)); [now apply C4|ring].
  - destruct (B5 (i - fl_nhist F)%nat ltac:(lia)) as (C1 & C2 & C3 & C4). repeat split; try assumption. intros j Hj. rewrite !(loop_assign2_cons _ (fun m h => fl_hdh m _ h _ _ _)) by assumption.
    destruct (Nat.ltb_spec i (fl_nhist F)); [lia|]. destruct (Nat.ltb_spec j (fl_nhist F)); [ring|apply C4; lia].
Qed.

(** ** Damage models *)
Definition dm_sym (M : damage) : Prop := forall s d t t' T e,
  dm_rate M (c * s) d t' T (c * e) = dm_rate M s d t T e /\ dm_dd M (c * s) d t' T (c * e) = dm_dd M s d t T e /\
  dm_ds M (c * s) d t' T (c * e) = c * dm_ds M s d t T e /\ dm_de M (c * s) d t' T (c * e) = c * dm_de M s d t T e.
Lemma nodamage_sym : dm_sym nodamage.
Proof. intros s d t t' T e. cbn. repeat split; ring. Qed.
Lemma constdamage_sym r : dm_sym (constdamage r).
Proof. intros s d t t' T e. cbn. repeat split; ring. Qed.
Lemma hayhurst_sym A xi phi : dm_sym (hayhurst A xi phi).
Proof. intros s d t t' T e. cbn. rewrite abs_c, sign_c. repeat split; ring. Qed.
Lemma larsonmiller_sym C A B eps : dm_sym (larsonmiller C A B eps).
Proof. intros s d t t' T e. cbn. rewrite abs_c, sign_c. repeat split; ring. Qed.

(** ** Whole models *)
Lemma inelastic_sym E sh F t t' : fl_sym sh F -> sym_at (inelastic E F) (cat 1 (fun _ => c) sh) t t'.
Proof.
  intros [S1 HF] y e T. cbv zeta. change (cat 1 (fun _ => c) sh 0%nat) with c. set (y' := flip _ y).
  assert (Y0 : y' 0%nat = c * y 0%nat) by reflexivity.
  assert (Yh : forall j, slice 1 y' j = sh j * slice 1 y j) by (intros j; unfold y', flip, slice, cat; cbn; now rewrite Nat.sub_0_r).
  destruct (HF (y 0%nat) (slice 1 y) (slice 1 y') t t' T e) as (A1 & A2 & A3 & A4 & A5); [intros; apply Yh|].
  cbn [inelastic rf_n rf_rate rf_jac rf_de]. cbv zeta. rewrite Y0, A1, A2, A3. repeat split.
  - intros [|i] Hi; unfold cat; cbn; [ring|]. rewrite Nat.sub_0_r. apply A5; lia.
  - intros [|i] [|j] Hi Hj; unfold cat; cbn; rewrite ?Nat.sub_0_r.
    + transitivity ((c * c) * (- E T * fl_ds F (y 0%nat) (slice 1 y) t T e)); [rewrite c1; ring|ring].
    + rewrite A4 by lia. ring.
    + destruct (A5 i ltac:(lia)) as (_ & -> & _). ring.
    + destruct (A5 i ltac:(lia)) as (_ & _ & _ & C4). apply C4; lia.
Qed.
Lemma cat_lt n a b i : (i < n)%nat -> cat n a b i = a i.
Proof. intros H. unfold cat. destruct (Nat.ltb_spec i n); [reflexivity|lia]. Qed.
Lemma cat_ge n a b i : (n <= i)%nat -> cat n a b i = b (i - n)%nat.
Proof. intros H. unfold cat. destruct (Nat.ltb_spec i n); [lia|reflexivity]. Qed.
Lemma cat1S a b i : cat 1 a b (S i) = b i.
Proof. unfold cat. change (S i <? 1) with false. cbv iota. f_equal. lia. Qed.
Lemma cat10 a b : cat 1 a b 0%nat = a 0%nat.
Proof. reflexivity. Qed.
Lemma damaged_sym E sh F M t t' : fl_sym sh F -> dm_sym M -> sym_at (damaged E F M) (cat 1 (fun _ => c) (cat (fl_nhist F) sh (fun _ => 1))) t t'.
Proof.
  intros [S1 HF] HM y e T. cbv zeta. change (cat 1 (fun _ => c) (cat (fl_nhist F) sh (fun _ => 1)) 0%nat) with c. set (sg := cat 1 _ _). set (y' := flip sg y). set (n := fl_nhist F) in *.
  assert (Y0 : y' 0%nat = c * y 0%nat) by reflexivity.
  assert (Yd : y' (1 + n)%nat = y (1 + n)%nat) by (unfold y', flip, sg, cat; change (1 + n <? 1) with false; change (1 + n - 1)%nat with (n - 0)%nat; cbv iota; rewrite Nat.sub_0_r, Nat.ltb_irrefl; ring).
  assert (Yh : forall j, (j < n)%nat -> slice 1 y' j = sh j * slice 1 y j)
    by (intros j Hj; unfold y', flip, sg, slice; change (1 + j)%nat with (S j); rewrite cat1S; unfold cat; destruct (Nat.ltb_spec j n); [reflexivity|lia]).
  set (d := y (1 + n)%nat) in *. set (se := y 0%nat / (1 - d)).
  assert (Se : y' 0%nat / (1 - y' (1 + n)%nat) = c * se) by (rewrite Y0, Yd; unfold se, Rdiv; ring).
  destruct (HF se (slice 1 y) (slice 1 y') t t' T e Yh) as (A1 & A2 & A3 & A4 & A5). destruct (HM se d t t' T e) as (M1 & M2 & M3 & M4).
  cbn [damaged rf_n rf_rate rf_jac rf_de]. cbv zeta. fold n. fold d. fold se. rewrite Se, Yd, Y0, A1, A2, A3, M1, M2, M3. repeat split.
  - intros [|i] Hi; unfold sg; rewrite ?cat1S, ?cat10; [ring|]. unfold cat. destruct (Nat.ltb_spec i n); [now apply A5|ring].
  - intros [|i] [|j] Hi Hj; unfold sg; change (0 <? 1) with true; try change (S i <? 1) with false; cbv iota; rewrite ?cat1S, ?cat10; try (replace (S i - 1)%nat with i by lia).
    + transitivity ((c * c) * (- E T * fl_ds F se (slice 1 y) t T e)); [rewrite c1; ring|ring].
    + unfold cat. destruct (Nat.ltb_spec j n); [rewrite A4 by lia; ring|]. unfold Rdiv; ring.
    + destruct (Nat.ltb_spec i n) as [L|L]; rewrite ?cat1S, ?cat10, ?(cat_lt n sh _ i L), ?(cat_ge n sh _ i L).
      * destruct (A5 i ltac:(lia)) as (_ & -> & _). unfold Rdiv. ring.
      * unfold Rdiv. ring.
    + destruct (Nat.ltb_spec i n) as [L|L]; rewrite ?cat1S, ?cat10, ?(cat_lt n sh _ i L), ?(cat_ge n sh _ i L).
      * destruct (A5 i ltac:(lia)) as (_ & C2 & _ & C4). destruct (Nat.ltb_spec j n) as [L'|L']; rewrite ?(cat_lt n _ _ j L'), ?(cat_ge n _ _ j L'); [apply C4; lia|]. rewrite C2.
        transitivity ((c * c) * (sh i * (fl_hds F se (slice 1 y) t T e i * y 0%nat / (1 - d) ^ 2))); [unfold Rdiv; ring|]. rewrite c1. unfold Rdiv. ring.
      * destruct (Nat.ltb_spec j n) as [L'|L']; rewrite ?(cat_lt n _ _ j L'), ?(cat_ge n _ _ j L'); ring.
Qed.
End Sign.

(** ** The materials one can build from the classes of the library *)
(** hardening.py 64-444: the isotropic models *)
Inductive isotropic_law : hardening -> Prop :=
| iso_voce Rs d : isotropic_law (voce Rs d)
| iso_theta0 tau theta : isotropic_law (theta0voce tau theta)
| iso_recovery tau theta R0 r1 r2 : isotropic_law (theta0recovery tau theta R0 r1 r2).
(** hardening.py 458-1311: the kinematic models and their superposition *)
Inductive kinematic_law : hardening -> Prop :=
| kin_none : kinematic_law nokin
| kin_fa C g b r : kinematic_law (fa C g b r)
| kin_fan C g : kinematic_law (fa_norecovery C g)
| kin_chaboche nback C g : kinematic_law (chaboche nback C g)
| kin_chabocher nback C g b r : kinematic_law (chaboche_recovery nback C g b r)
| kin_nil : kinematic_law (superimposed [])
| kin_cons m ms : kinematic_law m -> kinematic_law (superimposed ms) -> kinematic_law (superimposed (m :: ms)).
(** flowrules.py: F is a flow rule of the library in which exactly the internal variables marked by rev (the backstresses) change sign with the
    load; the two rules of a Kocks-Mecking switch must agree on which these are. *)
Inductive library_flow : flowrule -> (nat -> bool) -> Prop :=
| lf_perfect n eta rev : library_flow (perfect n eta) rev
| lf_isokin n eta s0 iso kin : isotropic_law iso -> kinematic_law kin -> library_flow (isokin n eta s0 iso kin) (fun j => negb (j <? hd_nhist iso))
| lf_km F1 F2 g0 mu b eps0 k eps g0s rev : fl_nhist F1 = fl_nhist F2 -> library_flow F1 rev -> library_flow F2 rev ->
    library_flow (km_rule F1 F2 g0 mu b eps0 k eps g0s) rev
| lf_soft F1 F2 g0 mu b eps0 k sf eps g0s rev : fl_nhist F1 = fl_nhist F2 -> library_flow F1 rev -> library_flow F2 rev ->
    library_flow (soft_rule F1 F2 g0 mu b eps0 k sf eps g0s) rev
| lf_ri F lmbda eps_ref rev : library_flow F rev -> library_flow (ri_rule F lmbda eps_ref) rev
| lf_nil rev : library_flow (super_rule []) rev
| lf_cons F Fs rev rev' : library_flow F rev -> library_flow (super_rule Fs) rev' ->
    library_flow (super_rule (F :: Fs)) (fun j => if j <? fl_nhist F then rev j else rev' (j - fl_nhist F)%nat).
(** damage.py *)
Inductive library_damage : damage -> Prop :=
| ld_none : library_damage nodamage
| ld_const r : library_damage (constdamage r)
| ld_hayhurst A xi phi : library_damage (hayhurst A xi phi)
| ld_lm C A B eps : library_damage (larsonmiller C A B eps).
(** models.py 47-269: the state is the stress, the internal variables and (with damage) the damage; rev marks the components that change
    sign with the load: the stress and the backstresses. *)
Inductive library_model : rateform -> (nat -> bool) -> Prop :=
| lm_inelastic E F rev : library_flow F rev -> library_model (inelastic E F) (fun i => match i with 0 => true | S j => rev j end)
| lm_damaged E F M rev : library_flow F rev -> library_damage M ->
    library_model (damaged E F M) (fun i => match i with 0 => true | S j => (j <? fl_nhist F) && rev j end).
Definition signs (c : R) (rev : nat -> bool) : nat -> R := fun i => if rev i then c else 1.
Section Built.
Variable c : R.
Hypothesis c1 : c * c = 1.
Lemma signs1 rev j : signs c rev j * signs c rev j = 1.
Proof. unfold signs. destruct (rev j); lra. Qed.
Lemma isotropic_sym m : isotropic_law m -> hd_sym c 1 m.
Proof. intros []; [apply voce_sym|apply theta0voce_sym|apply theta0recovery_sym]; exact c1. Qed.
Lemma kinematic_sym m : kinematic_law m -> hd_sym c c m.
Proof.
  induction 1; [apply nokin_sym|apply fa_sym|apply fa_norecovery_sym|apply chaboche_sym|apply chaboche_recovery_sym|apply superimposed_nil_sym|]; try exact c1.
  now apply superimposed_cons_sym.
Qed.
Lemma flow_sym F rev : library_flow F rev -> fl_sym c (signs c rev) F.
Proof.
  induction 1.
  - apply perfect_sym; [exact c1|]. intros j. apply signs1.
  - assert (E : signs c (fun j => negb (j <? hd_nhist iso)) = fun j => if j <? hd_nhist iso then 1 else c) by (apply functional_extensionality; intros j; unfold signs; now destruct (j <? hd_nhist iso)).
    rewrite E. apply isokin_sym; [exact c1|now apply isotropic_sym|now apply kinematic_sym].
  - now apply km_sym.
  - now apply soft_sym.
  - now apply ri_sym.
  - apply super_nil_sym. intros j. apply signs1.
  - assert (E : signs c (fun j => if j <? fl_nhist F then rev j else rev' (j - fl_nhist F)%nat) = cat (fl_nhist F) (signs c rev) (signs c rev'))
      by (apply functional_extensionality; intros j; unfold signs, cat; now destruct (j <? fl_nhist F)).
    rewrite E. now apply super_cons_sym.
Qed.
Lemma damage_sym M : library_damage M -> dm_sym c M.
Proof. intros []; [apply nodamage_sym|apply constdamage_sym|apply hayhurst_sym|apply larsonmiller_sym]; exact c1. Qed.
Lemma library_sym B rev : library_model B rev -> forall t t', sym_at B (signs c rev) t t'.
Proof.
  intros [E F r HF|E F M r HF HM] t t'.
  - assert (Eq : signs c (fun i => match i with 0 => true | S j => r j end) = cat 1 (fun _ => c) (signs c r)) by (apply functional_extensionality; intros [|j]; [reflexivity|now rewrite cat1S]).
    rewrite Eq. now apply inelastic_sym; [|apply flow_sym].
  - assert (Eq : signs c (fun i => match i with 0 => true | S j => (j <? fl_nhist F) && r j end) = cat 1 (fun _ => c) (cat (fl_nhist F) (signs c r) (fun _ => 1))).
    { apply functional_extensionality; intros [|j]; [reflexivity|]. rewrite cat1S. unfold signs, cat. now destruct (j <? fl_nhist F). }
    rewrite Eq. now apply damaged_sym; [|apply flow_sym|apply damage_sym].
Qed.
End Built.

(** ** No model of the library looks at the clock, whatever hardening models are combined *)
Inductive any_flow : flowrule -> Prop :=
| af_perfect n eta : any_flow (perfect n eta)
| af_isokin n eta s0 iso kin : isotropic_law iso \/ kinematic_law iso -> isotropic_law kin \/ kinematic_law kin -> any_flow (isokin n eta s0 iso kin)
| af_km F1 F2 g0 mu b eps0 k eps g0s : fl_nhist F1 = fl_nhist F2 -> any_flow F1 -> any_flow F2 -> any_flow (km_rule F1 F2 g0 mu b eps0 k eps g0s)
| af_soft F1 F2 g0 mu b eps0 k sf eps g0s : fl_nhist F1 = fl_nhist F2 -> any_flow F1 -> any_flow F2 -> any_flow (soft_rule F1 F2 g0 mu b eps0 k sf eps g0s)
| af_ri F lmbda eps_ref : any_flow F -> any_flow (ri_rule F lmbda eps_ref)
| af_nil : any_flow (super_rule [])
| af_cons F Fs : any_flow F -> any_flow (super_rule Fs) -> any_flow (super_rule (F :: Fs)).
Inductive any_model : rateform -> Prop :=
| am_inelastic E F : any_flow F -> any_model (inelastic E F)
| am_damaged E F M : any_flow F -> library_damage M -> any_model (damaged E F M).
(** The material laws do not depend on the time. *)
Definition autonomous (B : rateform) : Prop := forall t t' y e T,
  (forall i, (i < rf_n B)%nat -> rf_rate B t' y e T i = rf_rate B t y e T i) /\
  (forall i j, (i < rf_n B)%nat -> (j < rf_n B)%nat -> rf_jac B t' y e T i j = rf_jac B t y e T i j) /\
  rf_de B t' y e T 0%nat = rf_de B t y e T 0%nat.
Lemma flip1 y : flip (fun _ => 1) y = y.
Proof. apply functional_extensionality. intros j. unfold flip. ring. Qed.
Lemma autonomous_sym B t t' : autonomous B -> sym_at B (fun _ => 1) t t'.
Proof.
  intros H y e T. cbv zeta. rewrite flip1, Rmult_1_l. destruct (H t t' y e T) as (H1 & H2 & H3). repeat split; intros; rewrite ?H1, ?H2 by auto; [ring|ring|exact H3].
Qed.
Lemma sym_autonomous B : (forall t t', sym_at B (fun _ => 1) t t') -> autonomous B.
Proof.
  intros H t t' y e T. destruct (H t t' y e T) as (H1 & H2 & H3). rewrite flip1, Rmult_1_l in *. repeat split; intros; rewrite ?H1, ?H2 by auto; [ring|ring|exact H3].
Qed.
Lemma any_hd_sym m : isotropic_law m \/ kinematic_law m -> hd_sym 1 1 m.
Proof. intros [H|H]; [apply isotropic_sym|apply kinematic_sym]; auto; ring. Qed.
Lemma any_flow_sym F : any_flow F -> fl_sym 1 (fun _ => 1) F.
Proof.
  assert (o : 1 * 1 = 1) by ring. induction 1.
  - apply perfect_sym; auto.
  - assert (E : (fun _ : nat => 1) = fun j => if j <? hd_nhist iso then 1 else 1) by (apply functional_extensionality; intros j; now destruct (j <? hd_nhist iso)).
    rewrite E. apply isokin_sym; auto using any_hd_sym.
  - now apply km_sym.
  - now apply soft_sym.
  - now apply ri_sym.
  - now apply super_nil_sym.
  - assert (E : (fun _ : nat => 1) = cat (fl_nhist F) (fun _ => 1) (fun _ => 1)) by (apply functional_extensionality; intros j; unfold cat; now destruct (j <? fl_nhist F)).
    rewrite E. now apply super_cons_sym.
Qed.
Lemma any_autonomous B : any_model B -> autonomous B.
Proof.
  assert (o : 1 * 1 = 1) by ring. intros [E F HF|E F M HF HM]; apply sym_autonomous; intros t t'.
  - assert (Eq : (fun _ : nat => 1) = cat 1 (fun _ => 1) (fun _ => 1)) by (apply functional_extensionality; intros [|j]; [reflexivity|now rewrite cat1S]).
    rewrite Eq. apply inelastic_sym; auto using any_flow_sym.
  - assert (Eq : (fun _ : nat => 1) = cat 1 (fun _ => 1) (cat (fl_nhist F) (fun _ => 1) (fun _ => 1))).
    { apply functional_extensionality; intros [|j]; [reflexivity|]. rewrite cat1S. unfold cat. now destruct (j <? fl_nhist F). }
    rewrite Eq. apply damaged_sym; auto using any_flow_sym. now apply damage_sym.
Qed.
