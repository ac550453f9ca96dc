(** Optimiser states, gradient transformations, histories, lax.cond.  Models base.py and the jax
    control-flow primitives the library uses. *)
From Verif Require Export Tree.

(** Integer array dtypes. *)
Inductive iw := I32 | I64.
Definition iw_eqb (a b : iw) : bool := match a, b with I32, I32 | I64, I64 => true | _, _ => false end.
Definition ibits (w : iw) : Z := match w with I32 => 32 | I64 => 64 end.
(** Two's-complement wrap of XLA integer arithmetic. *)
Definition iwrap (w : iw) (z : Z) : Z :=
  let m := (2 ^ ibits w)%Z in let h := (2 ^ (ibits w - 1))%Z in ((z + h) mod m - h)%Z.

(** The named-tuple class of a state ([NList] is a Python list, [NTup] a tuple). *)
Inductive sname :=
| NList | NTup | NEmpty | NTrace | NEma | NRss | NRms | NStdDev | NAdam | NBelief | NSchedule
| NTrust | NNoise | NApplyEvery | NSM3 | NZeroNans | NNonneg | NClip | NIfFinite | NMulti
| NMasked | NMaybe | NLookahead | NDP | NInject | NTraceCV | NDict.
Definition sname_eqb (a b : sname) : bool :=
  match a, b with
  | NList, NList | NTup, NTup | NEmpty, NEmpty | NTrace, NTrace | NEma, NEma | NRss, NRss | NRms, NRms
  | NStdDev, NStdDev | NAdam, NAdam | NBelief, NBelief | NSchedule, NSchedule | NTrust, NTrust
  | NNoise, NNoise | NApplyEvery, NApplyEvery | NSM3, NSM3 | NZeroNans, NZeroNans
  | NNonneg, NNonneg | NClip, NClip | NIfFinite, NIfFinite | NMulti, NMulti | NMasked, NMasked
  | NMaybe, NMaybe | NLookahead, NLookahead | NDP, NDP | NInject, NInject | NTraceCV, NTraceCV
  | NDict, NDict => true
  | _, _ => false
  end.
Lemma sname_eqb_eq a b : sname_eqb a b = true <-> a = b.
Proof. destruct a, b; cbn; split; congruence. Qed.
Lemma iw_eqb_eq a b : iw_eqb a b = true <-> a = b.
Proof. destruct a, b; cbn; split; congruence. Qed.

(** What jax sees of a state when it compares signatures: structure, shapes, dtypes. *)
Inductive ssg :=
| GInt (w : iw) | GBool | GKey | GNum (d : fdt) | GTree (t : tree (fdt * list nat)) | GBTree (t : tree unit)
| GNode (n : sname) (l : list ssg).
Fixpoint ssg_eqb (a b : ssg) : bool :=
  match a, b with
  | GInt w, GInt w' => iw_eqb w w'
  | GBool, GBool | GKey, GKey => true
  | GNum d, GNum d' => fdt_eqb d d'
  | GTree t, GTree t' => tree_eqb aval_eqb t t'
  | GBTree t, GBTree t' => tree_eqb (fun _ _ => true) t t'
  | GNode n l, GNode n' l' =>
    sname_eqb n n' &&
    (fix go (l m : list ssg) : bool :=
       match l, m with [], [] => true | x :: r, y :: q => ssg_eqb x y && go r q | _, _ => false end) l l'
  | _, _ => false
  end.

Section SsgInd.
  Variable P : ssg -> Prop.
  Hypothesis H1 : forall w, P (GInt w).
  Hypothesis H2 : P GBool.
  Hypothesis H3 : P GKey.
  Hypothesis H4 : forall d, P (GNum d).
  Hypothesis H5 : forall t, P (GTree t).
  Hypothesis H6 : forall t, P (GBTree t).
  Hypothesis H7 : forall n l, Forall P l -> P (GNode n l).
  Fixpoint ssg_ind' (s : ssg) : P s :=
    match s with
    | GInt w => H1 w | GBool => H2 | GKey => H3 | GNum d => H4 d | GTree t => H5 t | GBTree t => H6 t
    | GNode n l => H7 n l ((fix go (l : list ssg) : Forall P l :=
        match l with [] => Forall_nil _ | x :: r => Forall_cons x (ssg_ind' x) (go r) end) l)
    end.
End SsgInd.

Lemma ssg_eqb_eq a b : ssg_eqb a b = true <-> a = b.
Proof.
  revert b; induction a as [w| | |d|t|t|n l IH] using ssg_ind'; intros [w'| | |d'|t'|t'|n' l']; cbn;
    try (split; congruence).
  - rewrite iw_eqb_eq. split; congruence.
  - rewrite fdt_eqb_eq. split; congruence.
  - rewrite tree_eqb_spec by apply aval_eqb_eq. split; congruence.
  - rewrite tree_eqb_spec; [split; congruence|]. intros [] []; easy.
  - rewrite andb_true_iff, sname_eqb_eq.
    match goal with |- _ /\ ?X = true <-> _ => enough (X = true <-> l = l') as ->; [split; [now intros [-> ->]|now intros [= -> ->]]|] end.
    revert l'; induction l as [|x l IHl]; intros [|y l']; try (split; congruence).
    inversion IH as [|? ? Hx Ht]; subst. rewrite andb_true_iff, Hx, IHl by assumption.
    split; [now intros [-> ->]|now intros [= -> ->]].
Qed.

Section Ops.
  Context `{O : Ops}.

  (** States.  Arrays of rank 0 holding counters, flags, keys and floats are kept apart from
      trees of arrays only for readability. *)
  Inductive state :=
  | SInt (w : iw) (z : Z)
  | SBool (b : bool)
  | SKey (k : key)
  | SNum (d : fdt) (x : F)
  | STree (t : tree tensor)
  | SBTree (t : tree bool)
  | SNode (n : sname) (l : list state).

  Fixpoint ssig (s : state) : ssg :=
    match s with
    | SInt w _ => GInt w
    | SBool _ => GBool
    | SKey _ => GKey
    | SNum d _ => GNum d
    | STree t => GTree (avals t)
    | SBTree t => GBTree (tdef t)
    | SNode n l => GNode n (map ssig l)
    end.

  Notation updates := (tree tensor).
  Notation params := (option (tree tensor)).

  (** base.py:43-46 (GradientTransformation): a pair of functions. *)
  Record GT := mkGT {
    init : tree tensor -> result state;
    update : tree tensor -> state -> option (tree tensor) -> result (tree tensor * state);
  }.

  (** base.py:48-49 *)
  Definition EmptyState : state := SNode NEmpty [].

  (** base.py:53-67 (identity) *)
  Definition identity : GT :=
    mkGT (fun _ => Ok EmptyState) (fun u s _ => Ok (u, s)).

  (** A stateless transformation: [init] returns an empty named tuple and [update] passes the state
      it was given through unchanged. *)
  Definition stateless (n : sname) (f : updates -> params -> result updates) : GT :=
    mkGT (fun _ => Ok (SNode n []))
         (fun u s p => let* u' := f u p in Ok (u', s)).

  (** The user's loop: feed a history of (gradients, params) to [update], threading the state. *)
  Fixpoint run (g : GT) (s : state) (h : list (updates * params)) : result (list updates * state) :=
    match h with
    | [] => Ok ([], s)
    | (u, p) :: r =>
      let* (o, s1) := update g u s p in
      let* (os, s2) := run g s1 r in
      Ok (o :: os, s2)
    end.

  (** init followed by the loop: the emitted updates. *)
  Definition trains (g : GT) (p0 : tree tensor) (h : list (updates * params)) (outs : list updates) : Prop :=
    exists s0 s1, init g p0 = Ok s0 /\ run g s0 h = Ok (outs, s1).

  (** jax.lax.cond(pred, tf, ff): both branches are traced, so either one's exception is raised
      whatever the predicate; outputs whose structure, shapes or dtypes differ raise TypeError. *)
  Definition lax_cond {A B} (sig : A -> B) (eqb : B -> B -> bool) (c : bool) (tf ff : result A) : result A :=
    let* x := tf in
    let* y := ff in
    if eqb (sig x) (sig y) then Ok (if c then x else y) else Err EType.
  Definition sig_us (p : updates * state) : tree (fdt * list nat) * ssg := (avals (fst p), ssig (snd p)).
  Definition sig_us_eqb (a b : tree (fdt * list nat) * ssg) : bool :=
    tree_eqb aval_eqb (fst a) (fst b) && ssg_eqb (snd a) (snd b).
  (** cond returning (updates, state) *)
  Definition cond_us := @lax_cond (updates * state) _ sig_us sig_us_eqb.
  (** cond returning a tree of arrays *)
  Definition cond_tree := @lax_cond updates _ avals (tree_eqb aval_eqb).
End Ops.
Arguments GT {O}.
Arguments state {O}.
Arguments mkGT {O}.

Section Facts.
  Context `{O : Ops}.
  Lemma sig_us_eqb_eq a b : sig_us_eqb a b = true <-> a = b.
  Proof.
    destruct a as [x y], b as [x' y']; unfold sig_us_eqb; cbn.
    rewrite andb_true_iff, tree_eqb_spec by apply aval_eqb_eq. rewrite ssg_eqb_eq.
    split; [now intros [-> ->]|now intros [= -> ->]].
  Qed.
  Lemma avals_eqb_eq (a b : tree (fdt * list nat)) : tree_eqb aval_eqb a b = true <-> a = b.
  Proof. apply tree_eqb_spec, aval_eqb_eq. Qed.

  Lemma lax_cond_Ok {A B} (sig : A -> B) eqb c tf ff x :
    (forall a b, eqb a b = true <-> a = b) ->
    (lax_cond sig eqb c tf ff = Ok x <->
     exists a b, tf = Ok a /\ ff = Ok b /\ sig a = sig b /\ x = if c then a else b).
  Proof.
    intros He. unfold lax_cond. rewrite rbind_Ok. split.
    - intros (a & Ha & H). apply rbind_Ok in H as (b & Hb & H).
      destruct (eqb (sig a) (sig b)) eqn:E; [|discriminate]. apply He in E. inversion H; subst.
      exists a, b; auto.
    - intros (a & b & -> & -> & E & ->). exists a; split; [reflexivity|]. cbn.
      apply He in E. now rewrite E.
  Qed.

  Lemma run_app g s h1 h2 :
    run g s (h1 ++ h2) =
    (let* (o1, s1) := run g s h1 in let* (o2, s2) := run g s1 h2 in Ok (o1 ++ o2, s2)).
  Proof.
    revert s; induction h1 as [|[u p] h1 IH]; intros s; cbn.
    - destruct (run g s h2) as [[o s']|e]; reflexivity.
    - destruct (update g u s p) as [[o s1]|e]; cbn; [|reflexivity].
      rewrite IH. destruct (run g s1 h1) as [[o1 s2]|e]; cbn; [|reflexivity].
      destruct (run g s2 h2) as [[o2 s3]|e]; reflexivity.
  Qed.
  Lemma run_length g s h o s' : run g s h = Ok (o, s') -> length o = length h.
  Proof.
    revert s o s'; induction h as [|[u p] h IH]; intros s o s'; cbn.
    - intros [= <- <-]. reflexivity.
    - destruct (update g u s p) as [[o1 s1]|e]; cbn; [|discriminate].
      destruct (run g s1 h) as [[o2 s2]|e] eqn:E; cbn; [|discriminate].
      intros [= <- <-]. cbn. f_equal. eauto.
  Qed.
End Facts.
