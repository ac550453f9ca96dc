(** Pytrees (jax.tree_util): leaves and labelled inner nodes.  [None] is an inner node without
    children, as in jax.  Dict children are listed in sorted key order, as jax flattens them. *)
From Verif Require Export Tensor.
From Coq Require Strings.String.

Inductive kind :=
| KNone | KTuple | KList
| KDict (keys : list String.string)
| KNT (name : String.string) (fields : list String.string).

Definition strs_eqb := list_eqb String.eqb.
Definition kind_eqb (a b : kind) : bool :=
  match a, b with
  | KNone, KNone | KTuple, KTuple | KList, KList => true
  | KDict k, KDict k' => strs_eqb k k'
  | KNT n f, KNT n' f' => String.eqb n n' && strs_eqb f f'
  | _, _ => false
  end.

Inductive tree (A : Type) := Leaf (a : A) | Node (k : kind) (ts : list (tree A)).
Arguments Leaf {A} a.
Arguments Node {A} k ts.

Section TreeInd.
  Context {A : Type} (P : tree A -> Prop).
  Hypothesis HL : forall a, P (Leaf a).
  Hypothesis HN : forall k ts, Forall P ts -> P (Node k ts).
  Fixpoint tree_ind' (t : tree A) : P t :=
    match t with
    | Leaf a => HL a
    | Node k ts =>
      HN k ts ((fix go (l : list (tree A)) : Forall P l :=
                  match l with [] => Forall_nil _ | x :: r => Forall_cons x (tree_ind' x) (go r) end) ts)
    end.
End TreeInd.

(** jax.tree_map with one tree, a total function. *)
Fixpoint tmap {A B} (f : A -> B) (t : tree A) : tree B :=
  match t with Leaf a => Leaf (f a) | Node k ts => Node k (map (tmap f) ts) end.
(** jax.tree_leaves *)
Fixpoint leaves {A} (t : tree A) : list A :=
  match t with Leaf a => [a] | Node _ ts => flat_map leaves ts end.
(** jax.tree_structure *)
Definition tdef {A} (t : tree A) : tree unit := tmap (fun _ => tt) t.

Fixpoint tree_eqb {A} (e : A -> A -> bool) (t r : tree A) : bool :=
  match t, r with
  | Leaf a, Leaf b => e a b
  | Node k ts, Node k' rs =>
    kind_eqb k k' &&
    (fix go (l m : list (tree A)) : bool :=
       match l, m with
       | [], [] => true
       | x :: l', y :: m' => tree_eqb e x y && go l' m'
       | _, _ => false
       end) ts rs
  | _, _ => false
  end.
Definition tdef_eqb : tree unit -> tree unit -> bool := tree_eqb (fun _ _ => true).

(** jax.tree_map with a function that may raise (leaves visited left to right). *)
Fixpoint tmapM {A B} (f : A -> result B) (t : tree A) : result (tree B) :=
  match t with
  | Leaf a => rmap Leaf (f a)
  | Node k ts => rmap (Node k) (mapM (tmapM f) ts)
  end.

(** [treedef.flatten_up_to]: pair every leaf of [t] with the corresponding subtree of [r];
    ValueError when [r] does not have [t] as a prefix. *)
Fixpoint tzip {A B} (t : tree A) (r : tree B) : result (tree (A * tree B)) :=
  match t with
  | Leaf a => Ok (Leaf (a, r))
  | Node k ts =>
    match r with
    | Leaf _ => Err EValue
    | Node k' rs =>
      if kind_eqb k k' then
        rmap (Node k)
             ((fix go (l : list (tree A)) (m : list (tree B)) : result (list (tree (A * tree B))) :=
                 match l, m with
                 | [], [] => Ok []
                 | x :: l', y :: m' => let* a := tzip x y in let* q := go l' m' in Ok (a :: q)
                 | _, _ => Err EValue
                 end) ts rs)
      else Err EValue
    end
  end.

(** A leaf function given a subtree instead of an array: arithmetic on containers raises TypeError. *)
Definition as_leaf {B} (s : tree B) : result B := match s with Leaf b => Ok b | Node _ _ => Err EType end.

(** jax.tree_multimap (= tree_map with several trees). *)
Definition tmm2 {A B C} (f : A -> B -> result C) (t : tree A) (r : tree B) : result (tree C) :=
  let* z := tzip t r in
  tmapM (fun p => let* b := as_leaf (snd p) in f (fst p) b) z.
Definition tmm3 {A B C D} (f : A -> B -> C -> result D) (t : tree A) (r : tree B) (s : tree C) : result (tree D) :=
  let* z := tzip t r in
  let* y := tzip z s in
  tmapM (fun p => let* b := as_leaf (snd (fst p)) in let* c := as_leaf (snd p) in f (fst (fst p)) b c) y.

(** jax.tree_unflatten: consume leaves left to right. *)
Fixpoint tfill {A B} (d : tree A) (l : list B) : option (tree B * list B) :=
  match d with
  | Leaf _ => match l with b :: l' => Some (Leaf b, l') | [] => None end
  | Node k ts =>
    match (fix go (ts : list (tree A)) (l : list B) : option (list (tree B) * list B) :=
             match ts with
             | [] => Some ([], l)
             | t :: ts' =>
               match tfill t l with
               | Some (x, l') => match go ts' l' with Some (xs, l'') => Some (x :: xs, l'') | None => None end
               | None => None
               end
             end) ts l with
    | Some (xs, l') => Some (Node k xs, l')
    | None => None
    end
  end.
Definition tunflatten {A B} (d : tree A) (l : list B) : result (tree B) :=
  match tfill d l with Some (t, []) => Ok t | _ => Err EValue end.

Definition avals {A} (t : tree (gt A)) : tree (fdt * list nat) := tmap aval t.
Definition trwf {A} (t : tree (gt A)) : Prop := Forall twf (leaves t).
(** Map over the elements of every leaf. *)
Definition emapt {A B} (f : fdt -> A -> B) (t : tree (gt A)) : tree (gt B) := tmap (emap f) t.
(** Element [i] (row-major) of leaf [j]. *)
Definition elt {A} (t : tree (gt A)) (p : nat * nat) : option A :=
  match nth_error (leaves t) (fst p) with Some l => nth_error (dat l) (snd p) | None => None end.

(** ** Facts *)
Lemma strs_eqb_eq a b : strs_eqb a b = true <-> a = b.
Proof. apply list_eqb_spec, String.eqb_eq. Qed.
Lemma kind_eqb_eq a b : kind_eqb a b = true <-> a = b.
Proof.
  destruct a, b; cbn; try (split; congruence).
  - rewrite strs_eqb_eq. split; congruence.
  - rewrite andb_true_iff, String.eqb_eq, strs_eqb_eq. split; [intros [-> ->]; reflexivity|].
    now intros [= -> ->].
Qed.
Lemma kind_eqb_refl a : kind_eqb a a = true.
Proof. now apply kind_eqb_eq. Qed.

Lemma tmap_tmap {A B C} (g : B -> C) (f : A -> B) t : tmap g (tmap f t) = tmap (fun x => g (f x)) t.
Proof.
  induction t as [a|k ts IH] using tree_ind'; cbn; [reflexivity|]. f_equal.
  rewrite map_map. apply map_ext_in. now apply Forall_forall.
Qed.
Lemma tmap_ext {A B} (f g : A -> B) t : (forall a, In a (leaves t) -> f a = g a) -> tmap f t = tmap g t.
Proof.
  induction t as [a|k ts IH] using tree_ind'; cbn; intros H; [now rewrite H by now left|].
  f_equal. apply map_ext_in. intros x Hx. eapply Forall_forall in IH; [|exact Hx]. apply IH.
  intros a Ha. apply H. apply in_flat_map. eauto.
Qed.
Lemma tmap_id {A} (t : tree A) : tmap (fun x => x) t = t.
Proof.
  induction t as [a|k ts IH] using tree_ind'; cbn; [reflexivity|]. f_equal.
  rewrite <- (map_id ts) at 2. apply map_ext_in. now apply Forall_forall.
Qed.
Lemma leaves_tmap {A B} (f : A -> B) t : leaves (tmap f t) = map f (leaves t).
Proof.
  induction t as [a|k ts IH] using tree_ind'; cbn; [reflexivity|].
  induction ts as [|x ts IHl]; cbn; [reflexivity|].
  inversion IH as [|? ? Hx Ht]; subst. rewrite map_app, Hx. f_equal. now apply IHl.
Qed.
Lemma tmapM_ok {A B} (f : A -> B) t : tmapM (fun x => Ok (f x)) t = Ok (tmap f t).
Proof.
  induction t as [a|k ts IH] using tree_ind'; cbn; [reflexivity|].
  rewrite (mapM_ext _ (fun x => Ok (tmap f x))), mapM_ok; [reflexivity|]. now apply Forall_forall.
Qed.
Lemma tmapM_ext {A B} (f g : A -> result B) t :
  (forall a, In a (leaves t) -> f a = g a) -> tmapM f t = tmapM g t.
Proof.
  induction t as [a|k ts IH] using tree_ind'; cbn; intros H; [now rewrite H by now left|].
  f_equal. apply mapM_ext. intros x Hx. eapply Forall_forall in IH; [|exact Hx]. apply IH.
  intros a Ha. apply H. apply in_flat_map. eauto.
Qed.
Lemma tmapM_tmap {A B C} (f : B -> result C) (g : A -> B) t :
  tmapM f (tmap g t) = tmapM (fun x => f (g x)) t.
Proof.
  induction t as [a|k ts IH] using tree_ind'; cbn; [reflexivity|]. f_equal.
  rewrite mapM_map. apply mapM_ext. now apply Forall_forall.
Qed.

Lemma tzip_family {A B Z} (u : Z -> A) (v : Z -> tree B) (z : tree Z) (r : tree B) :
  tzip (tmap u z) (tmap (fun x => x) r) = tzip (tmap u z) r.
Proof. now rewrite tmap_id. Qed.

Lemma tzip_same {A B Z} (u : Z -> A) (v : Z -> B) (z : tree Z) :
  tzip (tmap u z) (tmap v z) = Ok (tmap (fun e => (u e, Leaf (v e))) z).
Proof.
  induction z as [a|k ts IH] using tree_ind'; cbn; [reflexivity|].
  rewrite kind_eqb_refl.
  match goal with |- rmap _ ?X = _ => enough (X = Ok (map (tmap (fun e => (u e, Leaf (v e)))) ts)) as -> by reflexivity end.
  induction ts as [|x ts IHl]; cbn; [reflexivity|].
  inversion IH as [|? ? Hx Ht]; subst. rewrite Hx. cbn. now rewrite IHl.
Qed.

Lemma tmm2_same {A B C Z} (f : A -> B -> result C) (u : Z -> A) (v : Z -> B) (z : tree Z) :
  tmm2 f (tmap u z) (tmap v z) = tmapM (fun e => f (u e) (v e)) z.
Proof. unfold tmm2. rewrite tzip_same. cbn. now rewrite tmapM_tmap. Qed.
Lemma tmm3_same {A B C D Z} (f : A -> B -> C -> result D) (u : Z -> A) (v : Z -> B) (w : Z -> C) (z : tree Z) :
  tmm3 f (tmap u z) (tmap v z) (tmap w z) = tmapM (fun e => f (u e) (v e) (w e)) z.
Proof. unfold tmm3. rewrite tzip_same. cbn [rbind]. rewrite tzip_same. cbn. now rewrite tmapM_tmap. Qed.

(** Trees that agree under [f] and [g] are the two halves of one tree of pairs. *)
Lemma tree_pair {A B C} (f : A -> C) (g : B -> C) (x : tree A) (y : tree B) :
  tmap f x = tmap g y ->
  exists z : tree (A * B), tmap fst z = x /\ tmap snd z = y /\
    Forall (fun p => f (fst p) = g (snd p)) (leaves z).
Proof.
  revert y; induction x as [a|k ts IH] using tree_ind'; intros [b|k' rs]; cbn; intros E; try discriminate.
  - inversion E. exists (Leaf (a, b)); cbn; auto.
  - inversion E as [[Ek El]]; clear E; subst k'.
    enough (exists zs, map (tmap fst) zs = ts /\ map (tmap snd) zs = rs /\
              Forall (fun p => f (fst p) = g (snd p)) (flat_map leaves zs)) as (zs & E1 & E2 & E3).
    { exists (Node k zs); cbn. rewrite E1, E2. auto. }
    revert rs El; induction ts as [|x ts IHl]; intros [|y rs]; cbn; intros El; try discriminate.
    + exists []; cbn; auto.
    + inversion IH as [|? ? Hx Ht]; subst. inversion El as [[Ex Er]].
      destruct (Hx y Ex) as (z & <- & <- & Hz). destruct (IHl Ht rs Er) as (zs & <- & <- & Hzs).
      exists (z :: zs); cbn. repeat split. apply Forall_app; auto.
Qed.

Lemma tree_choice {A B} (R : A -> B -> Prop) (t : tree A) :
  Forall (fun a => exists b, R a b) (leaves t) ->
  exists z : tree (A * B), tmap fst z = t /\ Forall (fun p => R (fst p) (snd p)) (leaves z).
Proof.
  induction t as [a|k ts IH] using tree_ind'; cbn; intros H.
  - inversion H as [|? ? [b Hb] _]; subst. exists (Leaf (a, b)); cbn; auto.
  - enough (exists zs, map (tmap fst) zs = ts /\ Forall (fun p => R (fst p) (snd p)) (flat_map leaves zs)) as (zs & E1 & E2).
    { exists (Node k zs); cbn. rewrite E1. auto. }
    induction ts as [|x ts IHl]; cbn in *; [exists []; cbn; auto|].
    inversion IH as [|? ? Hx Ht]; subst. apply Forall_app in H as [H1 H2].
    destruct (Hx H1) as (z & <- & Hz). destruct (IHl Ht H2) as (zs & <- & Hzs).
    exists (z :: zs); cbn. split; [reflexivity|]. apply Forall_app; auto.
Qed.

Lemma trwf_tmap {A B} (f : gt A -> gt B) t :
  (forall x, twf x -> twf (f x)) -> trwf t -> trwf (tmap f t).
Proof.
  unfold trwf. rewrite leaves_tmap, Forall_map. intros Hf H. eapply Forall_impl; [|exact H]. exact Hf.
Qed.

(** Two trees of arrays with the same structure, shapes and dtypes are the two projections of one
    tree of arrays of pairs. *)
Lemma tree_gzip {A B} (x : tree (gt A)) (y : tree (gt B)) :
  avals x = avals y -> trwf x -> trwf y ->
  exists z : tree (gt (A * B)), avals z = avals x /\ trwf z /\
    emapt (fun _ => fst) z = x /\ emapt (fun _ => snd) z = y.
Proof.
  intros E Wx Wy. destruct (tree_pair aval aval x y E) as (z & <- & <- & Hz).
  assert (Hc : Forall (fun p => exists q : gt (A * B), (aval q = aval (fst p) /\ twf q /\
            emap (fun _ => fst) q = fst p /\ emap (fun _ => snd) q = snd p)) (leaves z)).
  { unfold trwf in *. rewrite leaves_tmap, Forall_map in Wx. rewrite leaves_tmap, Forall_map in Wy.
    rewrite Forall_forall in *. intros [a b] Hin. apply gzip; [exact (Hz _ Hin)|exact (Wx _ Hin)|exact (Wy _ Hin)]. }
  apply tree_choice in Hc as (w & <- & Hw). exists (tmap snd w).
  rewrite Forall_forall in Hw.
  unfold avals, trwf, emapt. rewrite !tmap_tmap, leaves_tmap. repeat split.
  - apply tmap_ext. intros p Hp. now destruct (Hw p Hp).
  - apply Forall_map, Forall_forall. intros p Hp. now destruct (Hw p Hp) as (_ & ? & _).
  - apply tmap_ext. intros p Hp. now destruct (Hw p Hp) as (_ & _ & ? & _).
  - apply tmap_ext. intros p Hp. now destruct (Hw p Hp) as (_ & _ & _ & ?).
Qed.

Lemma emapt_avals {A B} (f : fdt -> A -> B) t : avals (emapt f t) = avals t.
Proof. unfold avals, emapt. rewrite tmap_tmap. apply tmap_ext. reflexivity. Qed.
Lemma emapt_wf {A B} (f : fdt -> A -> B) t : trwf (emapt f t) <-> trwf t.
Proof.
  unfold trwf, emapt. rewrite leaves_tmap, Forall_map. split; apply Forall_impl; intros x; apply emap_wf.
Qed.
Lemma emapt_emapt {A B C} (g : fdt -> B -> C) (f : fdt -> A -> B) t :
  emapt g (emapt f t) = emapt (fun d x => g d (f d x)) t.
Proof. unfold emapt. rewrite tmap_tmap. apply tmap_ext. intros; apply emap_emap. Qed.
Lemma emapt_id {A} (t : tree (gt A)) : emapt (fun _ x => x) t = t.
Proof. unfold emapt. erewrite tmap_ext; [apply tmap_id|]. intros; apply emap_id. Qed.
Lemma emapt_ext {A B} (f g : fdt -> A -> B) t : (forall d x, f d x = g d x) -> emapt f t = emapt g t.
Proof. intros H. apply tmap_ext. intros a _. apply emap_ext. intros; apply H. Qed.
(** Extensionality on the elements that occur. *)
Lemma emapt_ext_in {A B} (f g : fdt -> A -> B) t :
  (forall l x, In l (leaves t) -> In x (dat l) -> f (dt l) x = g (dt l) x) -> emapt f t = emapt g t.
Proof. intros H. apply tmap_ext. intros a Ha. apply emap_ext. intros x Hx. now apply H. Qed.

Definition leafdt {A} (t : tree (gt A)) (p : nat * nat) : fdt :=
  match nth_error (leaves t) (fst p) with Some l => dt l | None => F32 end.

Lemma elt_emapt {A B} (f : fdt -> A -> B) t p :
  elt (emapt f t) p = option_map (f (leafdt t p)) (elt t p).
Proof.
  unfold elt, emapt, leafdt. rewrite leaves_tmap, nth_error_map.
  destruct (nth_error (leaves t) (fst p)); cbn; [|reflexivity]. now rewrite nth_error_map.
Qed.
Lemma leafdt_avals {A B} (t : tree (gt A)) (r : tree (gt B)) p : avals t = avals r -> leafdt t p = leafdt r p.
Proof.
  intros E. unfold leafdt.
  assert (H : nth_error (map aval (leaves t)) (fst p) = nth_error (map aval (leaves r)) (fst p)).
  { rewrite <- !leaves_tmap. unfold avals in E. now rewrite E. }
  rewrite !nth_error_map in H.
  destruct (nth_error (leaves t) (fst p)), (nth_error (leaves r) (fst p)); cbn in H; try discriminate; [|reflexivity].
  now inversion H.
Qed.

Lemma tdef_tmap {A B} (f : A -> B) t : tdef (tmap f t) = tdef t.
Proof. unfold tdef. now rewrite tmap_tmap. Qed.
Lemma tdef_avals {A B} (x : tree (gt A)) (y : tree (gt B)) : avals x = avals y -> tdef x = tdef y.
Proof. intros E. rewrite <- (tdef_tmap aval x), <- (tdef_tmap aval y). unfold avals in E. now rewrite E. Qed.

Lemma tree_eqb_spec {A} (e : A -> A -> bool) (t r : tree A) :
  (forall a b, e a b = true <-> a = b) -> (tree_eqb e t r = true <-> t = r).
Proof.
  intros He. revert r; induction t as [a|k ts IH] using tree_ind'; intros [b|k' rs]; cbn.
  - rewrite He. split; congruence.
  - split; discriminate.
  - split; discriminate.
  - rewrite andb_true_iff, kind_eqb_eq.
    match goal with |- _ /\ ?X = true <-> _ => enough (X = true <-> ts = rs) as ->; [split; [now intros [-> ->]|now intros [= -> ->]]|] end.
    revert rs; induction ts as [|x ts IHl]; intros [|y rs]; try (split; congruence).
    inversion IH as [|? ? Hx Ht]; subst. rewrite andb_true_iff, Hx, IHl by assumption.
    split; [now intros [-> ->]|now intros [= -> ->]].
Qed.

Lemma tfill_leaves {A B} (d : tree A) (t : tree B) (l : list B) :
  tdef t = tdef d -> tfill d (leaves t ++ l) = Some (t, l).
Proof.
  revert t l; induction d as [a|k ts IH] using tree_ind'; intros [b|k' rs] l; cbn; intros E; try discriminate.
  - reflexivity.
  - inversion E as [[Ek El]]; subst k'.
    match goal with |- match ?X with _ => _ end = _ => enough (X = Some (rs, l)) as -> by reflexivity end.
    clear E. revert rs l El; induction ts as [|x ts IHl]; intros [|y rs] l El; cbn in *; try discriminate; [reflexivity|].
    inversion IH as [|? ? Hx Ht]; subst. inversion El as [[Ex Er]].
    rewrite <- app_assoc, (Hx y) by assumption. now rewrite IHl.
Qed.
Lemma tunflatten_leaves {A B} (d : tree A) (t : tree B) :
  tdef t = tdef d -> tunflatten d (leaves t) = Ok t.
Proof. intros E. unfold tunflatten. rewrite <- (app_nil_r (leaves t)). now rewrite tfill_leaves. Qed.

(** Structure and leaves determine the tree. *)
Lemma tree_ext {A} (t r : tree A) : tdef t = tdef r -> leaves t = leaves r -> t = r.
Proof.
  intros E L. pose proof (tunflatten_leaves r t E) as H1. pose proof (tunflatten_leaves r r eq_refl) as H2.
  rewrite L in H1. congruence.
Qed.
