(** How element-wise laws are stated. *)
From Verif Require Export P_adaptive.
Open Scope R_scope.

(** [emits np T Rel]: for every parameter tree and every history of gradients (and params) shaped
    like it, init and all updates succeed, every emitted tree has the structure, shapes and dtypes
    of the parameters, and at every element whose gradient history g 0 .. g n (and parameter
    history q 0 .. q n, when [np] is false) consists of finite numbers, the n-th emitted value y
    satisfies [Rel g q n y].  With [np] true, params may be anything, also None. *)
Definition emits `{P : Platform} (np : bool) (T : GT)
           (Rel : (nat -> R) -> (nat -> R) -> nat -> XR -> Prop) : Prop :=
  forall (p : tree tensor) H, trwf p -> hist_ok np p H ->
  exists outs, trains T p H outs /\ length outs = length H /\ Forall (like p) outs /\
    forall n pos (g q : nat -> R), (n < length H)%nat ->
      (forall i, (i <= n)%nat -> helt H i pos = Some (Fin (g i))) ->
      (np = false -> forall i, (i <= n)%nat -> hpelt H i pos = Some (Fin (q i))) ->
      exists y, oelt outs n pos = Some y /\ Rel g q n y.

Lemma refines_emits `{P : Platform} np T M (Rel : (nat -> R) -> (nat -> R) -> nat -> XR -> Prop) :
  refines np T M ->
  (forall d x g q n, Rel g q n (mout M d x (fun i => Fin (g i)) (fun i => Fin (q i)) n)) ->
  emits np T Rel.
Proof.
  intros HR HL p H Wp HH. destruct (refines_trains np T M HR p H Wp HH) as (outs & Ht & Hl & Ho & He).
  exists outs. repeat split; auto. intros n pos g q Hn Hg Hq.
  destruct (He n pos (fun i => Fin (g i)) (fun i => Fin (q i)) Hn Hg Hq) as (x & _ & E).
  eexists; split; [exact E|]. apply HL.
Qed.

Lemma emits_impl `{P : Platform} np T (R1 R2 : (nat -> R) -> (nat -> R) -> nat -> XR -> Prop) :
  (forall g q n y, R1 g q n y -> R2 g q n y) -> emits np T R1 -> emits np T R2.
Proof.
  intros HI HE p H Wp HH. destruct (HE p H Wp HH) as (outs & Ht & Hl & Ho & He).
  exists outs. repeat split; auto. intros n pos g q Hn Hg Hq.
  destruct (He n pos g q Hn Hg Hq) as (y & Ey & Hy). eauto.
Qed.
