(** Facts about networks wrapped as ODE rates (neuralode.py 53-65): inserting the forcing between the state and the parameters keeps differentiability; a one-hidden-layer
    perceptron as an example of a network.  Networks are functions of a parameter vector and an input vector; nothing here is code of pyoptmat. *)
From Coq Require Import Reals Arith Lra Lia.
From Verif Require Import Deriv Slices Hardening SmoothR.
Local Open Scope R_scope.

Section Insert.
Variables (n s np : nat) (f : nat -> R).
(** (state, parameters) |-> (state, forcing, parameters) *)
Definition insert (v : nat -> R) : nat -> R := fun j => if Nat.ltb j n then v j else if Nat.ltb j (n + s) then f (j - n)%nat else v (j - s)%nat.
Lemma insert_near v0 r v : 0 <= r -> near (n + np) v0 r v -> near (n + s + np) (insert v0) r (insert v).
Proof.
  intros Hr H j Hj. unfold insert. destruct (Nat.ltb_spec j n); [apply H; lia|]. destruct (Nat.ltb_spec j (n + s)); [|apply H; lia].
  replace (f (j - n)%nat - f (j - n)%nat) with 0 by ring. rewrite Rabs_R0. exact Hr.
Qed.
Lemma smooth_insert v0 F : smooth (n + s + np) (insert v0) F -> smooth (n + np) v0 (fun v => F (insert v)).
Proof.
  assert (CT : forall K, cont (n + s + np) (insert v0) K -> cont (n + np) v0 (fun v => K (insert v))).
  { intros K HK e He. destruct (HK e He) as (q & Hq & HQ). exists q. split; [exact Hq|]. intros v Hv. apply HQ, insert_near; [lra|exact Hv]. }
  intros (G & A & B & r & Hr & H). exists (fun v j => if Nat.ltb j n then G (insert v) j else G (insert v) (j + s)%nat). split; [now apply CT|]. split.
  - intros j Hj. destruct (Nat.ltb_spec j n); [apply (CT (fun v => G v j)), B; lia|apply (CT (fun v => G v (j + s)%nat)), B; lia].
  - exists r. split; [exact Hr|]. intros c th w Hn Hc. eapply D_eq.
    + apply (H (fun u => insert (c u)) th (fun j => if Nat.ltb j n then w j else if Nat.ltb j (n + s) then 0 else w (j - s)%nat)).
      * apply insert_near; [lra|exact Hn].
      * intros j Hj. unfold insert. destruct (Nat.ltb_spec j n); [apply Hc; lia|]. destruct (Nat.ltb_spec j (n + s)); [apply D_const|apply Hc; lia].
    + rewrite !sum_app. rewrite (sum_0 s).
      * rewrite Rplus_0_r. f_equal; apply sum_ext; intros i Hi.
        -- apply Nat.ltb_lt in Hi. now rewrite Hi.
        -- destruct (Nat.ltb_spec (n + s + i) n); [lia|]. destruct (Nat.ltb_spec (n + s + i) (n + s)); [lia|]. destruct (Nat.ltb_spec (n + i) n); [lia|].
           replace (n + s + i - s)%nat with (n + i)%nat by lia. now replace (n + i + s)%nat with (n + s + i)%nat by lia.
      * intros i Hi. destruct (Nat.ltb_spec (n + i) n); [lia|]. destruct (Nat.ltb_spec (n + i) (n + s)); [ring|lia].
Qed.
End Insert.

(** [M] holds the derivatives of the outputs of [N] with respect to its [N0] inputs at [x]. *)
Definition input_deriv (n_out N0 : nat) (N : vec -> vec) (x : vec) (M : mat) : Prop :=
  forall (X : R -> vec) x', vthrough N0 X x x' -> forall i, (i < n_out)%nat -> derivable_pt_lim (fun z => N (X z) i) 0 (sum N0 (fun j => M i j * x' j)).
(** inputs and parameters in one vector *)
Definition pair_up (N0 : nat) (x q : vec) : vec := fun j => if Nat.ltb j N0 then x j else q (j - N0)%nat.
Lemma input_deriv_smooth n_out N0 np (net : vec -> vec -> vec) x q :
  (forall q q' x, (forall j, (j < np)%nat -> q j = q' j) -> net q x = net q' x) ->
  (forall q x x', (forall j, (j < N0)%nat -> x j = x' j) -> net q x = net q x') ->
  (forall i, (i < n_out)%nat -> smooth (N0 + np) (pair_up N0 x q) (fun v => net (tail N0 v) v i)) -> exists M, input_deriv n_out N0 (net q) x M.
Proof.
  intros Eq Ex H.
  assert (K : exists M : mat, forall i, (i < n_out)%nat -> forall (X : R -> vec) x', vthrough N0 X x x' -> derivable_pt_lim (fun z => net q (X z) i) 0 (sum N0 (fun j => M i j * x' j))).
  { assert (K1 : forall i, (i < n_out)%nat -> exists G : vec, forall (X : R -> vec) x', vthrough N0 X x x' -> derivable_pt_lim (fun z => net q (X z) i) 0 (sum N0 (fun j => G j * x' j))).
    { intros i Hi. destruct (H i Hi) as (G & _ & _ & r & Hr & HD). exists (G (pair_up N0 x q)). intros X x' HX.
      pose (c := fun u => pair_up N0 (X u) q).
      assert (c0 : forall j, (j < N0 + np)%nat -> c 0 j = pair_up N0 x q j).
      { intros j Hj. unfold c, pair_up. destruct (Nat.ltb_spec j N0); [|reflexivity]. apply (HX j); lia. }
      assert (D0 := HD (fun u j => if Nat.ltb j (N0 + np) then (if Req_EM_T u 0 then pair_up N0 x q j else c u j) else pair_up N0 x q j) 0 (fun j => if Nat.ltb j N0 then x' j else 0)).
      assert (E : (fun j => if (j <? N0 + np)%nat then if Req_EM_T 0 0 then pair_up N0 x q j else c 0 j else pair_up N0 x q j) = pair_up N0 x q).
      { apply FunctionalExtensionality.functional_extensionality. intros j. destruct (Nat.ltb j (N0 + np)); [|reflexivity]. destruct (Req_EM_T 0 0); [reflexivity|easy]. }
      cbv beta in D0. rewrite E in D0. eapply D_eq; [eapply D_ext; [|apply D0]|].
      - intros u. cbv beta.
        rewrite (Eq (tail N0 _) q). 2:{ intros j Hj. unfold tail. destruct (Nat.ltb_spec (N0 + j) (N0 + np)); [|lia].
          destruct (Req_EM_T u 0); unfold c, pair_up; destruct (Nat.ltb_spec (N0 + j) N0); try lia; now replace (N0 + j - N0)%nat with j by lia. }
        rewrite (Ex q _ (X u)); [reflexivity|]. intros j Hj. destruct (Nat.ltb_spec j (N0 + np)); [|lia].
        destruct (Req_EM_T u 0) as [->|]; unfold c, pair_up; destruct (Nat.ltb_spec j N0); try lia; auto. symmetry. apply (HX j); lia.
      - intros j Hj. unfold pair_up. replace (_ - _) with 0 by ring. rewrite Rabs_R0. lra.
      - intros j Hj. apply Nat.ltb_lt in Hj as Hj'. rewrite Hj'. eapply (D_ext (fun u => c u j)).
        + intros u. destruct (Req_EM_T u 0) as [->|]; [now apply c0|reflexivity].
        + unfold c, pair_up. destruct (Nat.ltb_spec j N0); [apply (HX j); lia|apply D_const].
      - rewrite sum_app. rewrite (sum_0 np).
        + rewrite Rplus_0_r. apply sum_ext. intros j Hj. apply Nat.ltb_lt in Hj. now rewrite Hj.
        + intros j Hj. destruct (Nat.ltb_spec (N0 + j) N0); [lia|ring]. }
    clear H. induction n_out as [|k IH]; [exists (fun _ _ => 0); intros; lia|].
    destruct IH as (M & HM); [intros; apply K1; lia|]. destruct (K1 k ltac:(lia)) as (G & HG).
    exists (fun i => if Nat.eqb i k then G else M i). intros i Hi. destruct (Nat.eqb_spec i k) as [->|]; [exact HG|apply HM; lia]. }
  destruct K as (M & HM). exists M. intros X x' HX i Hi. now apply HM.
Qed.

(** ** A perceptron with one hidden layer *)
Section Perceptron.
Variables (act act' : R -> R) (n N0 H : nat).
Definition q_out (i h : nat) : nat := (i * H + h)%nat.
Definition q_in (h j : nat) : nat := (n * H + h * N0 + j)%nat.
Definition q_bias (h : nat) : nat := (n * H + H * N0 + h)%nat.
Definition nparams : nat := (n * H + H * N0 + H)%nat.
(** torch.nn.Sequential(Linear(N0, H), act, Linear(H, n, bias=False)) *)
Definition perceptron (q x : vec) : vec := fun i => if Nat.ltb i n then sum H (fun h => q (q_out i h) * act (sum N0 (fun j => q (q_in h j) * x j) + q (q_bias h))) else 0.
Hypothesis actD : forall x, D act x (act' x).
Hypothesis actC : forall x, cont1 act' x.
Hypothesis actB : forall x, Rabs (act' x) <= 1.
Lemma q_lt i h : (i < n)%nat -> (h < H)%nat -> (q_out i h < nparams)%nat.
Proof. intros. unfold q_out, nparams. nia. Qed.
Lemma qi_lt h j : (h < H)%nat -> (j < N0)%nat -> (q_in h j < nparams)%nat.
Proof. intros. unfold q_in, nparams. nia. Qed.
Lemma qb_lt h : (h < H)%nat -> (q_bias h < nparams)%nat.
Proof. intros. unfold q_bias, nparams. lia. Qed.
Lemma perceptron_params q q' x : (forall j, (j < nparams)%nat -> q j = q' j) -> perceptron q x = perceptron q' x.
Proof.
  intros E. apply FunctionalExtensionality.functional_extensionality. intros i. unfold perceptron. destruct (Nat.ltb_spec i n); [|reflexivity].
  apply sum_ext. intros h Hh. rewrite (E (q_out i h)) by now apply q_lt. f_equal. f_equal. rewrite (E (q_bias h)) by now apply qb_lt. f_equal.
  apply sum_ext. intros j Hj. now rewrite (E (q_in h j)) by now apply qi_lt.
Qed.
(** Every network of this shape has a parameter vector: weights and biases are free of each other. *)
Lemma every_perceptron (W2 W1 : nat -> nat -> R) (b : nat -> R) : exists q : vec, forall x i, (i < n)%nat ->
  perceptron q x i = sum H (fun h => W2 i h * act (sum N0 (fun j => W1 h j * x j) + b h)).
Proof.
  exists (fun k => if Nat.ltb k (n * H) then W2 (Nat.div k H) (Nat.modulo k H)
                   else if Nat.ltb k (n * H + H * N0) then W1 (Nat.div (k - n * H) N0) (Nat.modulo (k - n * H) N0) else b (k - (n * H + H * N0))%nat).
  intros x i Hi. unfold perceptron. apply Nat.ltb_lt in Hi as Hi'. rewrite Hi'. apply sum_ext. intros h Hh.
  assert (dm : forall a c m, (c < m)%nat -> Nat.div (a * m + c) m = a /\ Nat.modulo (a * m + c) m = c).
  { intros a c m L. rewrite Nat.add_comm, Nat.div_add, Nat.mod_add by lia. rewrite Nat.div_small, Nat.mod_small by lia. lia. }
  assert (O : (q_out i h < n * H)%nat) by (unfold q_out; nia).
  apply Nat.ltb_lt in O as O'. rewrite O'. unfold q_out at 1 2. destruct (dm i h H Hh) as [-> ->]. f_equal. f_equal. f_equal.
  - apply sum_ext. intros j Hj. assert (I : (n * H <= q_in h j < n * H + H * N0)%nat) by (unfold q_in; nia).
    destruct (Nat.ltb_spec (q_in h j) (n * H)); [lia|]. destruct (Nat.ltb_spec (q_in h j) (n * H + H * N0)); [|lia].
    replace (q_in h j - n * H)%nat with (h * N0 + j)%nat by (unfold q_in; lia). destruct (dm h j N0 Hj) as [-> ->]. reflexivity.
  - unfold q_bias. destruct (Nat.ltb_spec (n * H + H * N0 + h) (n * H)); [lia|]. destruct (Nat.ltb_spec (n * H + H * N0 + h) (n * H + H * N0)); [lia|].
    f_equal. lia.
Qed.
Lemma perceptron_inputs q x x' : (forall j, (j < N0)%nat -> x j = x' j) -> perceptron q x = perceptron q x'.
Proof.
  intros E. apply FunctionalExtensionality.functional_extensionality. intros i. unfold perceptron. destruct (Nat.ltb i n); [|reflexivity].
  apply sum_ext. intros h Hh. f_equal. f_equal. f_equal. apply sum_ext. intros j Hj. now rewrite (E j).
Qed.
Lemma perceptron_smooth i v0 : (i < n)%nat -> smooth (N0 + nparams) v0 (fun v => perceptron (tail N0 v) v i).
Proof.
  intros Hi. unfold perceptron, tail. apply Nat.ltb_lt in Hi as Hi'. rewrite Hi'.
  apply smooth_sum. intros h Hh. apply smooth_mult; [apply smooth_coord; pose proof (q_lt i h Hi Hh); lia|].
  apply smooth_comp with (f' := act') (r := 1); [lra|intros; apply actD|apply actC|].
  apply smooth_plus; [|apply smooth_coord; pose proof (qb_lt h Hh); lia].
  apply smooth_sum. intros j Hj. apply smooth_mult; apply smooth_coord; [pose proof (qi_lt h j Hh Hj)|]; lia.
Qed.
Lemma act_lip x y : Rabs (act x - act y) <= Rabs (x - y).
Proof.
  assert (K : forall x y, x < y -> Rabs (act y - act x) <= Rabs (y - x)).
  { intros a b ab. destruct (MVT_cor2 act act' a b ab) as (c & Hc & _); [intros; apply actD|]. rewrite Hc, Rabs_mult.
    specialize (actB c). pose proof (Rabs_pos (b - a)). pose proof (Rmult_le_compat_r _ _ _ H0 actB). lra. }
  destruct (Rtotal_order x y) as [L|[->|L]].
  - rewrite (Rabs_minus_sym (act x)), (Rabs_minus_sym x). now apply K.
  - rewrite !Rminus_eq_0. lra.
  - now apply K.
Qed.
Lemma sum_abs k (g : nat -> R) : Rabs (sum k g) <= sum k (fun j => Rabs (g j)).
Proof. induction k; cbn; [rewrite Rabs_R0; lra|]. eapply Rle_trans; [apply Rabs_triang|]. lra. Qed.
Lemma sum_mono k (g g' : nat -> R) : (forall j, (j < k)%nat -> g j <= g' j) -> sum k g <= sum k g'.
Proof. induction k; cbn; intros E; [lra|]. pose proof (E k ltac:(lia)). pose proof (IHk ltac:(intros; apply E; lia)). lra. Qed.
Lemma sum_minus k (g g' : nat -> R) : sum k g - sum k g' = sum k (fun j => g j - g' j).
Proof. induction k; cbn; [ring|]. rewrite <- IHk. ring. Qed.
(** how much output i can change per unit change of an input *)
Definition gain (q : vec) (i : nat) : R := sum H (fun h => Rabs (q (q_out i h)) * sum N0 (fun j => Rabs (q (q_in h j)))).
Lemma perceptron_gain q x x' d i : 0 <= d -> (forall j, (j < N0)%nat -> Rabs (x j - x' j) <= d) -> Rabs (perceptron q x i - perceptron q x' i) <= gain q i * d.
Proof.
  intros Hd E. assert (G0 : 0 <= gain q i * d).
  { apply Rmult_le_pos; [|exact Hd]. unfold gain. replace 0 with (sum H (fun _ => 0)) by now apply sum_0. apply sum_mono. intros h Hh. apply Rmult_le_pos; [apply Rabs_pos|].
    replace 0 with (sum N0 (fun _ => 0)) by now apply sum_0. apply sum_mono. intros. apply Rabs_pos. }
  unfold perceptron. destruct (Nat.ltb i n); [|rewrite Rminus_eq_0, Rabs_R0; exact G0].
  rewrite sum_minus. eapply Rle_trans; [apply sum_abs|]. unfold gain.
  assert (SS : forall k (g : nat -> R), sum k g * d = sum k (fun j => g j * d)) by (intros k g; induction k; cbn; [ring|rewrite <- IHk; ring]).
  rewrite SS. apply sum_mono. intros h Hh. rewrite <- Rmult_minus_distr_l, Rabs_mult, Rmult_assoc. apply Rmult_le_compat_l; [apply Rabs_pos|].
  eapply Rle_trans; [apply act_lip|]. replace (_ - _) with (sum N0 (fun j => q (q_in h j) * x j) - sum N0 (fun j => q (q_in h j) * x' j)) by ring.
  rewrite sum_minus. eapply Rle_trans; [apply sum_abs|]. rewrite SS. apply sum_mono. intros j Hj. rewrite <- Rmult_minus_distr_l, Rabs_mult.
  apply Rmult_le_compat_l; [apply Rabs_pos|now apply E].
Qed.
End Perceptron.
Lemma gain_cont n N0 H q0 : cont (nparams n N0 H) q0 (fun q => sum n (gain n N0 H q)).
Proof.
  assert (A : forall x, cont1 Rabs x).
  { intros x e He. exists e. split; [exact He|]. intros y Hy. eapply Rle_lt_trans; [apply Rabs_triang_inv2|exact Hy]. }
  apply cont_sum. intros i Hi. unfold gain. apply cont_sum. intros h Hh. apply cont_mult.
  - apply (cont_comp _ _ Rabs); [apply A|]. apply cont_coord. now apply q_lt.
  - apply cont_sum. intros j Hj. apply (cont_comp _ _ Rabs); [apply A|]. apply cont_coord. now apply qi_lt.
Qed.

(** torch.tanh *)
Definition tanh' (x : R) : R := / (cosh x * cosh x).
Lemma cosh_ge1 x : 1 <= cosh x.
Proof.
  unfold cosh. assert (E : exp x * exp (- x) = 1) by (rewrite <- exp_plus, Rplus_opp_r; apply exp_0).
  pose proof (exp_pos x). pose proof (exp_pos (- x)). pose proof (Rle_0_sqr (exp x - exp (- x))) as Q. unfold Rsqr in Q.
  assert (4 <= (exp x + exp (- x)) * (exp x + exp (- x))) by lra.
  assert (2 <= exp x + exp (- x)); [|lra]. apply Rnot_lt_le. intros K. assert ((exp x + exp (- x)) * (exp x + exp (- x)) < 2 * 2); [|lra].
  apply Rmult_le_0_lt_compat; lra.
Qed.
Lemma tanhD x : D tanh x (tanh' x).
Proof.
  pose proof (cosh_ge1 x). unfold tanh. eapply D_eq; [apply (derivable_pt_lim_div sinh cosh); [apply derivable_pt_lim_sinh|apply derivable_pt_lim_cosh|lra]|].
  assert (E : cosh x * cosh x - sinh x * sinh x = 1).
  { unfold cosh, sinh. assert (Ee : exp x * exp (- x) = 1) by (rewrite <- exp_plus, Rplus_opp_r; apply exp_0). nra. }
  rewrite E. unfold tanh', Rsqr. field. lra.
Qed.
Lemma tanhC x : cont1 tanh' x.
Proof.
  pose proof (cosh_ge1 x). eapply D_cont1. unfold tanh'.
  apply (D_inv (fun y => cosh y * cosh y)); [nra|]. apply D_mult; apply derivable_pt_lim_cosh.
Qed.
Lemma tanhB x : Rabs (tanh' x) <= 1.
Proof.
  pose proof (cosh_ge1 x). unfold tanh'. assert (1 <= cosh x * cosh x) by nra. rewrite Rabs_pos_eq; [|apply Rlt_le, Rinv_0_lt_compat; lra].
  rewrite <- Rinv_1. apply Rinv_le_contravar; lra.
Qed.
