(** The log densities pyro evaluates for StatisticalModel and HierarchicalStatisticalModel
    (optimize.py 168-258, 261-563), on top of the sites of Inference.v.  A distribution is its log
    density; drawing random numbers is not modelled, a latent site takes a given value
    (poutine.condition / poutine.replay).  The densities are torch.distributions'. *)
From Coq Require Import Reals ZArith List String Bool Lia Lra Permutation.
From Verif Require Import Experiments Inference DetR.
Import ListNotations.
Local Open Scope string_scope.

(** ** Densities and sums *)
(** torch.distributions.Normal.log_prob *)
Definition normal_logp (mu s x : R) : R := (- ((x - mu) ^ 2 / (2 * s ^ 2)) - ln s - ln (sqrt (2 * PI)))%R.
(** torch.distributions.HalfNormal.log_prob for x >= 0 (minus infinity below is not represented: the
    guide's scale and noise parameters are constrained positive, optimize.py 441, 460) *)
Definition half_logp (s x : R) : R := (ln 2 + normal_logp 0 s x)%R.
Fixpoint rsum (n : nat) (f : nat -> R) : R := match n with O => 0%R | S n => (rsum n f + f n)%R end.
Fixpoint lsum {A} (f : A -> R) (l : list A) : R := match l with [] => 0%R | a :: l => (f a + lsum f l)%R end.
Fixpoint osum {A} (f : A -> option R) (l : list A) : option R :=
  match l with
  | [] => Some 0%R
  | a :: l => match f a, osum f l with Some x, Some y => Some (x + y)%R | _, _ => None end
  end.

(** ** Tensors: shape and entries in row-major order (indices past the size are ignored) *)
Record tensor := Tensor { t_shape : list nat; t_at : nat -> R }.
Definition t_dim (t : tensor) : nat := List.length (t_shape t).
Definition size_of (sh : list nat) : nat := fold_right Nat.mul 1 sh.
Definition t_size (t : tensor) : nat := size_of (t_shape t).
Definition shape_eqb (a b : list nat) : bool := if list_eq_dec Nat.eq_dec a b then true else false.
(** the value of a parameter: a stored tensor, or val.unsqueeze(0).repeat((n, 1, ...)) *)
Definition tval (p : pval tensor) : tensor :=
  match p with
  | PVal _ t => t
  | PRepeat _ n t => Tensor (n :: t_shape t) (fun j => t_at t (j mod t_size t))
  end.
(** pyro's plate expands a leading dimension of one; any other mismatch raises (None) *)
Definition expand (n : nat) (sh : list nat) (t : tensor) : option tensor :=
  if shape_eqb (t_shape t) (n :: sh) then Some t
  else if shape_eqb (t_shape t) (1 :: sh) then Some (Tensor (n :: sh) (fun j => t_at t (j mod size_of sh)))
  else None.

(** a distribution over tensors of one shape with independent entries (to_event) *)
Record dist := Dist { d_shape : list nat; d_logp : nat -> R -> R }.
(** Simplification: loc and scale have the same shape (torch would broadcast) *)
Definition normal (loc scale : tensor) : option dist :=
  if shape_eqb (t_shape loc) (t_shape scale) then Some (Dist (t_shape loc) (fun i => normal_logp (t_at loc i) (t_at scale i))) else None.
Definition half_normal (scale : tensor) : dist := Dist (t_shape scale) (fun i => half_logp (t_at scale i)).
Definition event_logp (d : dist) (at_ : nat -> R) : R := rsum (size_of (d_shape d)) (fun i => d_logp d i (at_ i)).

(** ** HierarchicalStatisticalModel *)
Section Hier.
Variable class_attr : string -> bool.
Notation hsm := (hsm tensor).

(** the PyroSample assigned to each attribute, optimize.py 352-393, in the order of [assignments] *)
Inductive prior := PNone | PNormal (l s : tensor) | PHalf (s : tensor) | PBot (l s : string).
Definition var_priors (h : hsm) (r : string * tensor * tensor * tensor) : list (string * prior) :=
  match r with (v, ll, ls, ss) =>
    [(v +++ h_loc_suffix _ h, PNormal ll ls); (v +++ h_scale_suffix _ h, PHalf ss);
     (v, PBot (v +++ h_loc_suffix _ h) (v +++ h_scale_suffix _ h))] end.
Definition priors (h : hsm) : list (string * prior) :=
  (map (fun n => (n, PNone)) reserved ++ flat_map (var_priors h) (rows _ h) ++
   [("eps", if h_include_noise _ h then PHalf (h_noise _ h) else PNone); ("extra_param_names", PNone)])%list.
Fixpoint last_of (k : string) (l : list (string * prior)) : prior :=
  match l with
  | [] => PNone
  | (k', p) :: l => match last_of k l with PNone => if String.eqb k k' then p else PNone | q => q end
  end.
Definition prior_of (h : hsm) (k : string) : prior := if class_attr k then PNone else last_of k (priors h).

(** values of the latent sites *)
Definition values := list (string * tensor).
Fixpoint vget (k : string) (vs : values) : option tensor :=
  match vs with [] => None | (k', t) :: vs => if String.eqb k' k then Some t else vget k vs end.

(** the data passed to forward: number of trials and times, type codes, cycle numbers, measured results
    (by test), content of the uninitialised storage of convert_results and full_noise *)
Record data := Data { d_trials : nat; d_times : nat; d_types : list Z; d_cycles : list (list Z);
  d_obs : list (list R); d_junk : list (list R); d_njunk : list R }.
(** maker( *sample_bot(), extra_params=...).solve_both(...)[:, :, 0], by test; None: it raises *)
Variable solve : list tensor -> option (list (list R)).

Definition dist_of (h : hsm) (vs : values) (k : string) : option dist :=
  match prior_of h k with
  | PNone => None
  | PNormal l s => normal l s
  | PHalf s => Some (half_normal s)
  | PBot l s => match vget l vs, vget s vs with Some l, Some s => normal l s | _, _ => None end
  end.

(** optimize.py 521-528 *)
Definition full_noise (h : hsm) (vs : values) (D : data) : option (list R) :=
  match (if h_include_noise _ h then vget "eps" vs else Some (h_noise _ h)) with
  | None => None
  | Some e =>
    if type_noise_on _ t_dim h then type_noise (map (t_at e) (seq 0 (t_size e))) (d_njunk D) (d_types D)
    else Some (repeat (t_at e 0) (d_trials D))
  end.
(** optimize.py 534-546: simulate with the sampled bottom-level values, in the order of the names, and convert *)
Definition results (h : hsm) (vs : values) (D : data) : option (list (list R)) :=
  match traverse (fun k => vget k vs) (h_names _ h) with
  | None => None
  | Some bs => match solve bs with
               | None => None
               | Some pred => convert_results (d_junk D) pred (d_cycles D) (d_types D)
               end
  end.
Definition at2 (cols : list (list R)) (b t : nat) : R := nth t (nth b cols []) 0%R.
(** log density of one test's measurements: Normal(results, full_noise), optimize.py 548-549 *)
Definition obs_logp (D : data) (res : list (list R)) (noise : list R) (b : nat) : R :=
  rsum (d_times D) (fun t => normal_logp (at2 res b t) (nth b noise 0%R) (at2 (d_obs D) b t)).

(** what a site adds to the model's log density; [w] is the tensor of poutine.scale (optimize.py 530-532),
    which multiplies everything sampled under the "trials" plate *)
Definition site_logp (h : hsm) (vs : values) (D : data) (res : list (list R)) (noise w : list R) (n : node) : option R :=
  match n with
  | NPlate _ => Some 0%R
  | NSample _ _ _ true => Some (rsum (d_trials D) (fun b => nth b w 0 * obs_logp D res noise b))%R
  | NSample k plate _ false =>
    match dist_of h vs k, vget k vs with
    | Some d, Some x =>
      if plate then
        if shape_eqb (t_shape x) (d_trials D :: d_shape d)
        then Some (rsum (d_trials D) (fun b => nth b w 0 * event_logp d (fun i => t_at x (b * size_of (d_shape d) + i)%nat)))%R
        else None
      else if shape_eqb (t_shape x) (d_shape d) then Some (event_logp d (t_at x)) else None
    | _, _ => None
    end
  end.

(** optimize.py 498-550 with the latent sites at [vs]: log density and returned results *)
Definition hier_forward (limit : nat) (h : hsm) (table : list (Z * R)) (made : bool) (s : Inference.store tensor) (vs : values) (D : data)
  : option (R * list (list R)) :=
  match model_trace tensor t_dim class_attr limit h made s with
  | inr _ => None
  | inl tr =>
    match full_noise h vs D, results h vs D with
    | Some noise, Some res =>
      match osum (site_logp h vs D res noise (make_weight_tensor table (d_types D))) tr with
      | Some lp => Some (lp, res)
      | None => None
      end
    | _, _ => None
    end
  end.

(** values the guide's Delta sites take: as stored, expanded by the "trials" plate for the bottom level *)
Definition guide_value (h : hsm) (ntrials : nat) (kv : string * pval tensor) : option (string * tensor) :=
  match prior_of h (fst kv) with
  | PBot _ _ => match expand ntrials (tl (t_shape (tval (snd kv)))) (tval (snd kv)) with Some t => Some (fst kv, t) | None => None end
  | _ => Some (fst kv, tval (snd kv))
  end.
(** One evaluation of pyro's Trace_ELBO loss: run the guide, replay the model with its values.  The guide
    is a product of Deltas at the current parameters, so its own log density is 0.  Result: the loss, the
    simulated results and the parameter store afterwards. *)
Definition svi_loss (limit : nat) (h : hsm) (table : list (Z * R)) (s : Inference.store tensor) (D : data)
  : option (R * list (list R) * Inference.store tensor) :=
  match guide tensor t_dim h (d_trials D) s with
  | inr _ => None
  | inl (_, gv, s') =>
    match traverse (guide_value h (d_trials D)) gv with
    | None => None
    | Some vs =>
      match hier_forward limit h table true s' vs D with
      | None => None
      | Some (lp, res) => Some (- lp, res, s')%R
      end
    end
  end.
End Hier.

(** ** StatisticalModel *)
Section Stat.
(** names, locs, scales: scalar parameters; setattr of the PyroSamples as in DetR.det_init *)
Definition stat_priors (names : list string) (locs scales : list R) : @DetR.store (R * R) :=
  det_init names (combine locs scales).
(** get_params: the sites sampled when the parameters are read in order; a name read again is cached *)
Fixpoint stat_sites (seen : list string) (names : list string) : list string :=
  match names with
  | [] => []
  | n :: names => if existsb (String.eqb n) seen then stat_sites seen names else n :: stat_sites (n :: seen) names
  end.
(** forward of a DeterministicModel whose attributes hold the given values (optimize.py 229-237 = 153-164;
    nan_to_num, lines 239-240, is the identity on real numbers) *)
Variable forward : @DetR.store R -> option (list (list R)).
(** log density at parameter values [theta] and measurements [obs]; [noise_dim]: self.type_noise *)
Definition stat_noise (type_noise_on : bool) (eps njunk : list R) (ntrials : nat) (types : list Z) : option (list R) :=
  if type_noise_on then type_noise eps njunk types else Some (repeat (nth 0 eps 0%R) ntrials).
Definition stat_joint (names : list string) (locs scales : list R) (tn : bool) (eps njunk : list R) (ntrials ntimes : nat)
    (types : list Z) (theta : @DetR.store R) (obs : list (list R)) : option (R * list (list R)) :=
  match forward theta, stat_noise tn eps njunk ntrials types with
  | Some res, Some noise =>
    match osum (fun k => match get_attr (stat_priors names locs scales) k, get_attr theta k with
                         | Some (l, s), Some x => Some (normal_logp l s x) | _, _ => None end) (stat_sites [] names) with
    | Some lp => Some (lp + rsum ntrials (fun b => rsum ntimes (fun t => normal_logp (at2 res b t) (nth b noise 0) (at2 obs b t))), obs)%R
    | None => None
    end
  | _, _ => None
  end.
End Stat.
