(** The step matrix I - dt J of the Voce / Chaboche model has a trivial kernel: the Jacobian the code supplies, written out. *)
From Coq Require Import Reals Lra Lia.
From Verif Require Import Torch Slices Deriv Hardening Flow Models VCStep VCHistory.
Local Open Scope R_scope.

Section VCR.
Variables (E n eta s0 Rs d : R -> R) (nback : nat) (C g : R -> nat -> R) (t T e : R) (y : vec).
Notation F := (isokin n eta s0 (voce Rs d) (chaboche nback C g)).
Notation B := (inelastic E F).
Notation f := (the_flow n eta s0 nback T (y 0%nat) (fun i => y (S i))).
Notation r := (y 0%nat - sum nback (fun i => y (S (S i)))).
(** slope of the flow curve *)
Definition slope : R := n T * pow0 (mac ((Rabs r - (s0 T + y 1%nat)) / eta T)) (n T - 1) / eta T.
Definition dflow (z : vec) : R := slope * (z 0%nat - tsign r * z 1%nat - sum nback (fun i => z (S (S i)))).
Let arg : (Rabs r - s0 T - y 1%nat) / eta T = (Rabs r - (s0 T + y 1%nat)) / eta T.
Proof. f_equal. ring. Qed.
Let Ds : ik_ds n eta s0 (voce Rs d) (chaboche nback C g) (y 0%nat) (slice 1 y) t T e = slope.
Proof. unfold ik_ds, slope, ik_kin, ik_iso. cbn. unfold slice. cbn. rewrite macaulay_mac, arg. reflexivity. Qed.
Let Di : ik_diso n eta s0 (voce Rs d) (chaboche nback C g) (y 0%nat) (slice 1 y) t T e = - slope * tsign r.
Proof. unfold ik_diso, slope, ik_kin, ik_iso. cbv zeta. cbn. unfold slice. cbn. rewrite macaulay_mac, arg. unfold Rdiv. ring. Qed.
Let Dk : ik_dkin n eta s0 (voce Rs d) (chaboche nback C g) (y 0%nat) (slice 1 y) t T e = - slope.
Proof. unfold ik_dkin, slope, ik_kin, ik_iso. cbn. unfold slice. cbn. rewrite macaulay_mac, arg. unfold Rdiv. ring. Qed.
Let Fl : ik_rate n eta s0 (voce Rs d) (chaboche nback C g) (y 0%nat) (slice 1 y) t T e = f.
Proof. exact (vc_rate n eta s0 Rs d nback C g (y 0%nat) (slice 1 y) t T e). Qed.
Let J := rf_jac B t y e T.
Let j00 : J 0%nat 0%nat = - E T * slope. Proof. rewrite <- Ds. reflexivity. Qed.
Let j01 : J 0%nat 1%nat = - E T * (- slope * tsign r * 1). Proof. rewrite <- Di. reflexivity. Qed.
Let j0S j : J 0%nat (S (S j)) = - E T * (- slope * 1). Proof. rewrite <- Dk. reflexivity. Qed.
Let j10 : J 1%nat 0%nat = 0 + d T * (Rs T - y 1%nat) * tsign f * slope. Proof. rewrite <- Fl, <- Ds. reflexivity. Qed.
Let j11 : J 1%nat 1%nat = - d T * 1 * Rabs f + d T * (Rs T - y 1%nat) * tsign f * (- slope * tsign r * 1). Proof. rewrite <- Di, <- Fl. reflexivity. Qed.
Let j1S j : J 1%nat (S (S j)) = d T * (Rs T - y 1%nat) * tsign f * - slope * 1. Proof. rewrite <- Dk, <- Fl. reflexivity. Qed.
Let jS0 i : J (S (S i)) 0%nat = 0 + (C T i * 1 - g T i * y (S (S i)) * tsign f) * slope.
Proof. rewrite <- Fl, <- Ds. unfold J. cbn. unfold cat. cbn. now rewrite Nat.sub_0_r. Qed.
Let jS1 i : J (S (S i)) 1%nat = (C T i * 1 - g T i * y (S (S i)) * tsign f) * (- slope * tsign r * 1).
Proof. rewrite <- Di, <- Fl. unfold J. cbn. unfold cat. cbn. now rewrite Nat.sub_0_r. Qed.
Let jSS i j : J (S (S i)) (S (S j)) = diag_embed (fun k => - g T k * Rabs f) i j + (C T i * 1 - g T i * y (S (S i)) * tsign f) * (- slope * 1).
Proof. rewrite <- Dk, <- Fl. unfold J. cbn. unfold cat. cbn. now rewrite !Nat.sub_0_r. Qed.
Lemma jac_row0 z : sum (rf_n B) (fun j => rf_jac B t y e T 0%nat j * z j) = - E T * dflow z.
Proof.
  change (rf_n B) with (S (S nback)). fold J. rewrite !sum_S, j00, j01. unfold dflow.
  rewrite (sum_ext nback (fun i => J 0%nat (S (S i)) * z (S (S i))) (fun i => (E T * slope) * z (S (S i)))); [rewrite sum_scal; ring|]. intros i _. rewrite j0S. ring.
Qed.
Lemma jac_row1 z : sum (rf_n B) (fun j => rf_jac B t y e T 1%nat j * z j) = d T * (Rs T - y 1%nat) * tsign f * dflow z - d T * Rabs f * z 1%nat.
Proof.
  change (rf_n B) with (S (S nback)). fold J. rewrite !sum_S, j10, j11. unfold dflow.
  rewrite (sum_ext nback (fun i => J 1%nat (S (S i)) * z (S (S i))) (fun i => (- (d T * (Rs T - y 1%nat) * tsign f) * slope) * z (S (S i)))); [rewrite sum_scal; ring|]. intros i _. rewrite j1S. ring.
Qed.
Lemma jac_rowS z i : (i < nback)%nat -> sum (rf_n B) (fun j => rf_jac B t y e T (S (S i)) j * z j) =
  (C T i - g T i * y (S (S i)) * tsign f) * dflow z - g T i * Rabs f * z (S (S i)).
Proof.
  intros Hi. change (rf_n B) with (S (S nback)). fold J. rewrite !sum_S, jS0, jS1. unfold dflow.
  set (P := C T i * 1 - g T i * y (S (S i)) * tsign f). 
  rewrite (sum_ext nback (fun j => J (S (S i)) (S (S j)) * z (S (S j))) (fun j => (diag_embed (fun k => - g T k * Rabs f) i j * z (S (S j))) + (- P * slope) * z (S (S j)))).
  - rewrite sum_plus, sum_scal, (sum_diag nback (fun k => - g T k * Rabs f) (fun j => z (S (S j))) i Hi). unfold P. ring.
  - intros j _. rewrite jSS. fold P. ring.
Qed.

(** A vector that the step matrix sends to zero is zero. *)
Hypotheses (E0 : 0 <= E T) (n0 : 0 < n T) (e0 : 0 < eta T) (d0 : 0 <= d T) (s00 : 0 <= s0 T).
Hypothesis range : 0 <= y 1%nat <= Rs T /\ forall i, (i < nback)%nat -> 0 <= g T i /\ g T i * Rabs (y (S (S i))) <= C T i.
Lemma sign_flow : tsign r * tsign f = Rabs (tsign f).
Proof.
  destruct range as [P _].
  assert (Q : r <> 0 -> f <> 0 -> tsign r = tsign f).
  { intros Hr Hf. unfold the_flow, flow in *. set (p := pow0 _ _) in *. assert (0 <= p) by apply pow0_ge0. assert (p <> 0) by (intros Z; apply Hf; rewrite Z; ring).
    destruct (Rdichotomy _ _ Hr) as [L|L]; [rewrite (tsign_neg r), tsign_neg; auto; rewrite ?(tsign_neg r) by lra; lra|rewrite (tsign_pos r), tsign_pos; auto; rewrite ?(tsign_pos r) by lra; lra]. }
  destruct (Req_dec f 0) as [Z|Z]; [rewrite Z, tsign_0, Rabs_R0; ring|].
  destruct (Req_dec r 0) as [Zr|Zr]; [exfalso; apply Z; unfold the_flow, flow; rewrite Zr, tsign_0; ring|].
  rewrite Q by assumption. destruct (Rdichotomy _ _ Z) as [L|L]; [rewrite tsign_neg by exact L; rewrite Rabs_left; lra|rewrite tsign_pos by exact L; rewrite Rabs_pos_eq; lra].
Qed.
Lemma sum_ge0 N (a : nat -> R) : (forall i, (i < N)%nat -> 0 <= a i) -> 0 <= sum N a.
Proof. induction N as [|N IH]; intros H; cbn; [lra|]. specialize (IH ltac:(intros; apply H; lia)). specialize (H N ltac:(lia)). lra. Qed.
Lemma tsign_bound x : -1 <= tsign x <= 1.
Proof. destruct (Rtotal_order x 0) as [H|[H|H]]; [rewrite tsign_neg; lra|rewrite H, tsign_0; lra|rewrite tsign_pos; lra]. Qed.
Lemma regular dt z : 0 < dt -> (forall i, (i < rf_n B)%nat -> z i = dt * sum (rf_n B) (fun j => rf_jac B t y e T i j * z j)) -> forall i, (i < rf_n B)%nat -> z i = 0.
Proof.
  intros Hdt H. destruct range as [P Q]. set (df := dflow z). set (sg := tsign f).
  assert (z0 : z 0%nat = - (dt * E T) * df). { rewrite (H 0%nat ltac:(cbn; lia)), jac_row0. unfold df. ring. }
  assert (D1 : 0 < 1 + dt * d T * Rabs f) by (apply denom_pos; lra).
  assert (z1 : z 1%nat = (dt * (d T * (Rs T - y 1%nat)) / (1 + dt * d T * Rabs f)) * sg * df).
  { pose proof (H 1%nat ltac:(cbn; lia)) as K. rewrite jac_row1 in K. fold df sg in K. apply Rmult_eq_reg_r with (1 + dt * d T * Rabs f); [|lra].
    transitivity (dt * (d T * (Rs T - y 1%nat)) * sg * df); [lra|field; lra]. }
  assert (DS : forall i, (i < nback)%nat -> 0 < 1 + dt * g T i * Rabs f) by (intros i Hi; destruct (Q i Hi); apply denom_pos; lra).
  assert (zS : forall i, (i < nback)%nat -> z (S (S i)) = (dt * (C T i - g T i * y (S (S i)) * sg) / (1 + dt * g T i * Rabs f)) * df).
  { intros i Hi. pose proof (H (S (S i)) ltac:(cbn; lia)) as K. rewrite (jac_rowS z i Hi) in K. fold df sg in K. specialize (DS i Hi). apply Rmult_eq_reg_r with (1 + dt * g T i * Rabs f); [|lra].
    transitivity (dt * (C T i - g T i * y (S (S i)) * sg) * df); [lra|field; lra]. }
  set (b1 := dt * (d T * (Rs T - y 1%nat)) / (1 + dt * d T * Rabs f)) in *.
  assert (b1p : 0 <= b1). { apply Rmult_le_pos; [|left; now apply Rinv_0_lt_compat]. apply Rmult_le_pos; [lra|]. apply Rmult_le_pos; lra. }
  set (bS := fun i => dt * (C T i - g T i * y (S (S i)) * sg) / (1 + dt * g T i * Rabs f)).
  assert (bSp : forall i, (i < nback)%nat -> 0 <= bS i).
  { intros i Hi. unfold bS. destruct (Q i Hi) as [G1 G2]. apply Rmult_le_pos; [|left; now apply Rinv_0_lt_compat, DS]. apply Rmult_le_pos; [lra|].
    assert (K : Rabs (g T i * y (S (S i)) * sg) <= g T i * Rabs (y (S (S i)))).
    { rewrite !Rabs_mult, (Rabs_pos_eq (g T i)) by exact G1. rewrite <- (Rmult_1_r (g T i * Rabs (y (S (S i))))) at 2. apply Rmult_le_compat_l; [apply Rmult_le_pos; [exact G1|apply Rabs_pos]|]. apply Rabs_le, tsign_bound. }
    pose proof (Rle_abs (g T i * y (S (S i)) * sg)). lra. }
  assert (Sl : 0 <= slope). { unfold slope. apply Rmult_le_pos; [apply Rmult_le_pos; [lra|apply pow0_ge0]|left; now apply Rinv_0_lt_compat]. }
  assert (X : df = - (slope * (dt * E T + b1 * Rabs sg + sum nback bS)) * df).
  { unfold df at 1. unfold dflow. rewrite z0, z1. rewrite (sum_ext nback (fun i => z (S (S i))) (fun i => bS i * df)) by exact zS. rewrite sum_scal_r.
    unfold sg at 2. rewrite <- sign_flow. fold sg. ring. }
  assert (q0 : 0 <= slope * (dt * E T + b1 * Rabs sg + sum nback bS)).
  { apply Rmult_le_pos; [exact Sl|]. pose proof (Rmult_le_pos dt (E T) ltac:(lra) E0). pose proof (Rmult_le_pos b1 (Rabs sg) b1p (Rabs_pos sg)). pose proof (sum_ge0 nback bS bSp). lra. }
  assert (df0 : df = 0). { set (q := slope * _) in *. assert (Y : (1 + q) * df = 0) by lra. apply Rmult_integral in Y. destruct Y; [lra|assumption]. }
  intros [|[|i]] Hi; [rewrite z0, df0; ring|rewrite z1, df0; ring|]. rewrite zS by (cbn in Hi; lia). rewrite df0. ring.
Qed.
End VCR.
(** The rates depend only on the first 2 + nback entries of the state. *)
Lemma vc_rate_ext (E n eta s0 Rs d : R -> R) nback (C g : R -> nat -> R) t (y y' : vec) e T i :
  (forall j, (j < S (S nback))%nat -> y j = y' j) -> (i < S (S nback))%nat ->
  rf_rate (inelastic E (isokin n eta s0 (voce Rs d) (chaboche nback C g))) t y e T i = rf_rate (inelastic E (isokin n eta s0 (voce Rs d) (chaboche nback C g))) t y' e T i.
Proof.
  intros H Hi.
  assert (F : the_flow n eta s0 nback T (y 0%nat) (fun i => y (S i)) = the_flow n eta s0 nback T (y' 0%nat) (fun i => y' (S i))).
  { unfold the_flow. rewrite (H 0%nat), (H 1%nat) by lia. do 2 f_equal. apply sum_ext. intros j Hj. apply H. lia. }
  destruct i as [|[|i]]; [rewrite !(vc_row0 E)|rewrite !(vc_row1 E)|rewrite !(vc_rowS E)]; rewrite F; auto; [rewrite (H 1%nat) by lia|rewrite (H (S (S i))) by lia]; reflexivity.
Qed.
(** Exactness of the Jacobian, at any point of the parameter line. *)
Lemma exact_shift B t y e T i Y th y' : row_exact B t y e T i -> (forall j, (j < rf_n B)%nat -> Y th j = y j /\ D (fun u => Y u j) th (y' j)) ->
  D (fun u => rf_rate B t (Y u) e T i) th (sum (rf_n B) (fun j => rf_jac B t y e T i j * y' j)).
Proof.
  intros H HY. assert (X : D (fun z => rf_rate B t (Y (th + z)) e T i) 0 (sum (rf_n B) (fun j => rf_jac B t y e T i j * y' j))).
  { eapply D_eq; [apply (H (fun z => Y (th + z)) (fun _ => e) y' 0)|ring].
    - intros j Hj. destruct (HY j Hj) as [Y0 DY]. split; [now rewrite Rplus_0_r|]. intros eps He. destruct (DY eps He) as [dl Hd]. exists dl. intros h h0 hd. rewrite Rplus_0_l, Rplus_0_r. now apply Hd.
    - split; [reflexivity|apply D_const].
    - now right. }
  intros eps He. destruct (X eps He) as [dl Hd]. exists dl. intros h h0 hd. specialize (Hd h h0 hd). now rewrite Rplus_0_l, Rplus_0_r in Hd.
Qed.
