(** A small reflective tactic [zmod] for equalities in abelian groups
    (mathcomp zmodType): used in proofs only. *)
From mathcomp Require Import all_ssreflect all_algebra.
Import GRing.Theory.
Set Implicit Arguments. Unset Strict Implicit. Unset Printing Implicit Defensive.
Local Open Scope ring_scope.

Inductive zx := ZV (i : nat) | ZA (a b : zx) | ZO (a : zx) | ZZ.
Fixpoint zcoeff (e : zx) (i : nat) : int :=
  match e with
  | ZV j => (j == i)%:Z
  | ZA a b => zcoeff a i + zcoeff b i
  | ZO a => - zcoeff a i
  | ZZ => 0
  end.
Fixpoint zdenote (V : zmodType) (env : seq V) (e : zx) : V :=
  match e with
  | ZV j => nth 0 env j
  | ZA a b => zdenote env a + zdenote env b
  | ZO a => - zdenote env a
  | ZZ => 0
  end.
Fixpoint zbound (e : zx) (n : nat) : bool :=
  match e with
  | ZV j => (j < n)%N | ZA a b => zbound a n && zbound b n | ZO a => zbound a n | ZZ => true
  end.

Lemma zdenoteE (V : zmodType) (env : seq V) e : zbound e (size env) ->
  zdenote env e = \sum_(i < size env) (nth 0 env i) *~ (zcoeff e i).
Proof.
elim: e => [j|a IHa b IHb|a IHa|] /=.
- move=> jn. rewrite (bigD1 (Ordinal jn)) //= eqxx big1 ?addr0 // => i /eqP ne.
  by case: eqP => // e; case: ne; apply: val_inj.
- move=> /andP[/IHa-> /IHb->]; rewrite -big_split /=; apply: eq_bigr => i _; by rewrite mulrzDl.
- move=> /IHa->. rewrite -sumrN; apply: eq_bigr => i _; by rewrite mulrNz.
- by move=> _; rewrite big1.
Qed.

Lemma zmod_correct n (V : zmodType) (env : seq V) e1 e2 : size env = n ->
  [&& zbound e1 n, zbound e2 n & all (fun i => zcoeff e1 i == zcoeff e2 i) (iota 0 n)] ->
  zdenote env e1 = zdenote env e2.
Proof.
move=> <- /and3P[b1 b2 /allP h]. rewrite !zdenoteE //; apply: eq_bigr => i _.
by rewrite (eqP (h i _)) // mem_iota add0n ltn_ord.
Qed.

Ltac zm_find x l :=
  lazymatch l with
  | @nil _ => constr:(@None nat)
  | @cons _ ?y ?l' =>
    match constr:(Set) with
    | _ => let _ := match constr:(Set) with _ => unify x y end in constr:(Some 0%N)
    | _ => let r := zm_find x l' in
           lazymatch r with Some ?n => constr:(Some (S n)) | None => constr:(@None nat) end
    end
  end.
Ltac zm_snoc l x :=
  lazymatch l with
  | @nil ?T => constr:(@cons T x (@nil T))
  | @cons ?T ?y ?l' => let r := zm_snoc l' x in constr:(@cons T y r)
  end.
Ltac zm_len l := lazymatch l with @nil _ => constr:(0%N) | @cons _ _ ?l' => let n := zm_len l' in constr:(S n) end.
Ltac zm_reify t env k :=
  lazymatch t with
  | @GRing.add _ ?a ?b => zm_reify a env ltac:(fun ea env1 =>
        zm_reify b env1 ltac:(fun eb env2 => k (ZA ea eb) env2))
  | @GRing.opp _ ?a => zm_reify a env ltac:(fun ea env1 => k (ZO ea) env1)
  | @GRing.zero _ => k ZZ env
  | _ =>
    let r := zm_find t env in
    lazymatch r with
    | Some ?n => k (ZV n) env
    | None => let n := zm_len env in let env' := zm_snoc env t in k (ZV n) env'
    end
  end.
Ltac zmod :=
  lazymatch goal with
  | |- @eq ?T ?a ?b =>
    zm_reify a (@nil T) ltac:(fun ea env1 => zm_reify b env1 ltac:(fun eb env2 =>
      let n := zm_len env2 in
      change (zdenote (env2 : seq _) ea = zdenote env2 eb);
      apply: (@zmod_correct n); [reflexivity | vm_compute; reflexivity]))
  end.

Goal forall (V : zmodType) (a b c : V), a - b + (c - a) = c - b + 0.
Proof. intros. zmod. Qed.
