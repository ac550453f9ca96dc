(** Exceptions as values and list utilities shared by the model. *)
From Coq Require Export List Arith ZArith Bool Lia QArith.
Export ListNotations.
Open Scope nat_scope.
Open Scope list_scope.

(** Python exceptions raised by the modelled code (the class, not the message). *)
Inductive err := EValue | EType | EIndex | EAttr | EAssert | EKey | EZeroDiv | EStop.

Inductive result (A : Type) := Ok (a : A) | Err (e : err).
Arguments Ok {A} a.
Arguments Err {A} e.

Definition rbind {A B} (x : result A) (f : A -> result B) : result B :=
  match x with Ok a => f a | Err e => Err e end.
Definition rmap {A B} (f : A -> B) (x : result A) : result B :=
  match x with Ok a => Ok (f a) | Err e => Err e end.

Declare Scope res_scope.
Notation "'let*' x ':=' e 'in' k" := (rbind e (fun x => k))
  (at level 200, x pattern, e at level 100, k at level 200, right associativity) : res_scope.
Open Scope res_scope.

(** A Python [raise E] guarded by a condition. *)
Definition rguard (b : bool) (e : err) : result unit := if b then Ok tt else Err e.

(** Evaluate a list of computations left to right; the first exception wins. *)
Fixpoint seqM {A} (l : list (result A)) : result (list A) :=
  match l with
  | [] => Ok []
  | x :: xs => let* a := x in let* r := seqM xs in Ok (a :: r)
  end.

Section MapM.
  Context {A B : Type} (f : A -> result B).
  Fixpoint mapM (l : list A) : result (list B) :=
    match l with
    | [] => Ok []
    | x :: xs => let* a := f x in let* r := mapM xs in Ok (a :: r)
    end.
End MapM.

(** Python [zip]-style map stopping at the shorter list. *)
Fixpoint map2 {A B C} (f : A -> B -> C) (l : list A) (m : list B) : list C :=
  match l, m with a :: l', b :: m' => f a b :: map2 f l' m' | _, _ => [] end.

Fixpoint list_eqb {A} (e : A -> A -> bool) (l m : list A) : bool :=
  match l, m with
  | [], [] => true
  | a :: l', b :: m' => e a b && list_eqb e l' m'
  | _, _ => false
  end.

Definition prodn (l : list nat) : nat := fold_right Nat.mul 1%nat l.

(** Split a list into consecutive pieces of the given sizes (jnp.split at cumulative offsets). *)
Fixpoint splits {A} (ns : list nat) (l : list A) : list (list A) :=
  match ns with [] => [] | n :: r => firstn n l :: splits r (skipn n l) end.

(** ** Facts *)

Lemma rbind_Ok {A B} (x : result A) (f : A -> result B) b :
  rbind x f = Ok b <-> exists a, x = Ok a /\ f a = Ok b.
Proof.
  destruct x as [a|e]; cbn; split.
  - eauto.
  - intros (a' & H & H'); inversion H; subst; auto.
  - discriminate.
  - intros (a' & H & _); discriminate.
Qed.

Lemma rbind_Err {A B} (x : result A) (f : A -> result B) e :
  x = Err e -> rbind x f = Err e.
Proof. now intros ->. Qed.

Lemma mapM_map {A B C} (f : B -> result C) (g : A -> B) l :
  mapM f (map g l) = mapM (fun x => f (g x)) l.
Proof. induction l as [|a l IH]; cbn; [reflexivity|]. now rewrite IH. Qed.

Lemma mapM_ok {A B} (f : A -> B) l : mapM (fun x => Ok (f x)) l = Ok (map f l).
Proof. induction l as [|a l IH]; cbn; [reflexivity|]. now rewrite IH. Qed.

Lemma mapM_ext {A B} (f g : A -> result B) l :
  (forall x, In x l -> f x = g x) -> mapM f l = mapM g l.
Proof.
  induction l as [|a l IH]; cbn; intros H; [reflexivity|].
  rewrite H by now left. rewrite IH; [reflexivity|]. intros; apply H; now right.
Qed.

Lemma mapM_Forall2 {A B} (f : A -> result B) l r :
  mapM f l = Ok r <-> Forall2 (fun a b => f a = Ok b) l r.
Proof.
  revert r; induction l as [|a l IH]; cbn; intros r.
  - split; intros H; inversion H; subst; constructor.
  - rewrite rbind_Ok. split.
    + intros (b & Hb & H). apply rbind_Ok in H as (r' & Hr & [= <-]).
      constructor; [assumption|]. now apply IH.
    + intros H; inversion H as [|? b ? r' Hb Hr]; subst.
      exists b; split; [assumption|]. apply rbind_Ok. exists r'; split; [now apply IH|reflexivity].
Qed.

Lemma mapM_length {A B} (f : A -> result B) l r : mapM f l = Ok r -> length r = length l.
Proof. intros H; apply mapM_Forall2 in H. induction H; cbn; congruence. Qed.

Lemma seqM_map {A B} (f : A -> result B) l : seqM (map f l) = mapM f l.
Proof. induction l as [|a l IH]; cbn; [reflexivity|]. now rewrite IH. Qed.

Lemma map2_map {A B C D E} (f : A -> B -> C) (g : D -> A) (h : E -> B) l m :
  map2 f (map g l) (map h m) = map2 (fun x y => f (g x) (h y)) l m.
Proof. revert m; induction l as [|a l IH]; intros [|b m]; cbn; try reflexivity. now rewrite IH. Qed.

Lemma map2_diag {A C} (f : A -> A -> C) l : map2 f l l = map (fun x => f x x) l.
Proof. induction l as [|a l IH]; cbn; [reflexivity|]. now rewrite IH. Qed.

Lemma map2_map_same {A B C Z} (f : A -> B -> C) (g : Z -> A) (h : Z -> B) l :
  map2 f (map g l) (map h l) = map (fun z => f (g z) (h z)) l.
Proof. now rewrite map2_map, map2_diag. Qed.

Lemma map2_length {A B C} (f : A -> B -> C) l m :
  length (map2 f l m) = Nat.min (length l) (length m).
Proof. revert m; induction l as [|a l IH]; intros [|b m]; cbn; try reflexivity. now rewrite IH. Qed.

Lemma map2_combine {A B C} (f : A -> B -> C) l m :
  map2 f l m = map (fun z => f (fst z) (snd z)) (combine l m).
Proof. revert m; induction l as [|a l IH]; intros [|b m]; cbn; try reflexivity. now rewrite IH. Qed.

Lemma map_fst_combine {A B} (l : list A) (m : list B) :
  length l = length m -> map fst (combine l m) = l.
Proof.
  revert m; induction l as [|a l IH]; intros [|b m]; cbn; intros H; try easy.
  rewrite IH; [reflexivity|]. lia.
Qed.

Lemma map_snd_combine {A B} (l : list A) (m : list B) :
  length l = length m -> map snd (combine l m) = m.
Proof.
  revert m; induction l as [|a l IH]; intros [|b m]; cbn; intros H; try easy.
  rewrite IH; [reflexivity|]. lia.
Qed.

Lemma list_eqb_spec {A} (e : A -> A -> bool) :
  (forall a b, e a b = true <-> a = b) -> forall l m, list_eqb e l m = true <-> l = m.
Proof.
  intros He l; induction l as [|a l IH]; intros [|b m]; cbn; split; try easy.
  - rewrite andb_true_iff, He, IH. now intros [-> ->].
  - intros [= -> ->]. now rewrite andb_true_iff, He, IH.
Qed.

Lemma nth_error_map2 {A B C} (f : A -> B -> C) l m i :
  nth_error (map2 f l m) i =
  match nth_error l i, nth_error m i with Some a, Some b => Some (f a b) | _, _ => None end.
Proof.
  revert m i; induction l as [|a l IH]; intros [|b m] [|i]; cbn; try reflexivity.
  - now destruct (nth_error l i).
  - apply IH.
Qed.

Lemma splits_concat {A} (ls : list (list A)) : splits (map (@length A) ls) (concat ls) = ls.
Proof.
  induction ls as [|l ls IH]; cbn; [reflexivity|].
  rewrite firstn_app, Nat.sub_diag, firstn_all, firstn_O, app_nil_r.
  rewrite skipn_app, Nat.sub_diag, skipn_all. cbn. now rewrite IH.
Qed.

Lemma nth_error_ext {A} (l m : list A) : (forall i, nth_error l i = nth_error m i) -> l = m.
Proof.
  revert m; induction l as [|a l IH]; intros [|b m] H; [reflexivity| | |].
  - specialize (H 0%nat); discriminate.
  - specialize (H 0%nat); discriminate.
  - f_equal; [specialize (H 0%nat); now inversion H|].
    apply IH. intros i. exact (H (S i)).
Qed.
