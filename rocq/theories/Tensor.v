(** Arrays: dtype, shape and row-major data (what jnp.ndarray is to this library).
    [gt A] is an array whose elements are of type [A]; [tensor] has float elements. *)
From Verif Require Export Scalar.
From Coq Require FinFun.

Record gt (A : Type) := mkT { dt : fdt; shp : list nat; dat : list A }.
Arguments mkT {A}. Arguments dt {A}. Arguments shp {A}. Arguments dat {A}.

Definition aval {A} (t : gt A) : fdt * list nat := (dt t, shp t).
Definition twf {A} (t : gt A) : Prop := length (dat t) = prodn (shp t).

Definition shape_eqb (s s' : list nat) : bool := list_eqb Nat.eqb s s'.
Definition aval_eqb (a b : fdt * list nat) : bool := fdt_eqb (fst a) (fst b) && shape_eqb (snd a) (snd b).

(** Element-wise map, the function may look at the dtype. *)
Definition emap {A B} (f : fdt -> A -> B) (t : gt A) : gt B :=
  mkT (dt t) (shp t) (map (f (dt t)) (dat t)).

(** Row-major multi-indices of a shape and their linear position. *)
Fixpoint indices (s : list nat) : list (list nat) :=
  match s with
  | [] => [[]]
  | n :: s' => flat_map (fun i => map (cons i) (indices s')) (seq 0 n)
  end.
Fixpoint ravel (s idx : list nat) : nat :=
  match s, idx with
  | n :: s', i :: idx' => i * prodn s' + ravel s' idx'
  | _, _ => 0
  end.
Fixpoint valid (s idx : list nat) : Prop :=
  match s, idx with
  | [], [] => True
  | n :: s', i :: idx' => i < n /\ valid s' idx'
  | _, _ => False
  end.

Definition tab {A} (d : fdt) (s : list nat) (f : list nat -> A) : gt A := mkT d s (map f (indices s)).

(** Reduction of the axes marked [true] in [red], with keepdims: entry [o] of the result combines
    the entries [j] that agree with [o] on the other axes. *)
Definition reduced_shape (red : list bool) (s : list nat) : list nat :=
  map2 (fun (r : bool) n => if r then 1 else n) red s.
Definition proj (red : list bool) (idx : list nat) : list nat :=
  map2 (fun (r : bool) i => if r then 0 else i) red idx.
Definition fiber (red : list bool) (s : list nat) (o : list nat) : list (list nat) :=
  filter (fun j => list_eqb Nat.eqb (proj red j) o) (indices s).

(** numpy broadcasting *)
Definition bdim (a b : nat) : option nat :=
  if a =? b then Some a else if a =? 1 then Some b else if b =? 1 then Some a else None.
Fixpoint bdims (s t : list nat) : option (list nat) :=
  match s, t with
  | [], [] => Some []
  | a :: s', b :: t' =>
    match bdim a b, bdims s' t' with Some c, Some r => Some (c :: r) | _, _ => None end
  | _, _ => None
  end.
Definition padl (r : nat) (s : list nat) : list nat := repeat 1 (r - length s) ++ s.
Definition bshape (s t : list nat) : option (list nat) :=
  let r := Nat.max (length s) (length t) in bdims (padl r s) (padl r t).
(** Index into an operand of shape [s] for output index [o]. *)
Definition bidx (s o : list nat) : list nat :=
  map2 (fun n i => if n =? 1 then 0 else i) s (skipn (length o - length s) o).

Notation tensor := (gt F).

Section Ops.
  Context `{O : Ops}.

  Definition tget (t : tensor) (idx : list nat) : F := nth (ravel (shp t) idx) (dat t) fzero.
  Definition full (d : fdt) (s : list nat) (x : F) : tensor := mkT d s (repeat (fcast d x) (prodn s)).
  Definition full_like (t : tensor) (x : F) : tensor := full (dt t) (shp t) x.
  Definition zeros_like (t : tensor) : tensor := full_like t fzero.
  Definition ones_like (t : tensor) : tensor := full_like t fone.
  (** A rank-0 array. *)
  Definition scalar (d : fdt) (x : F) : tensor := mkT d [] [x].

  Definition conv (from to : fdt) (x : F) : F := if fdt_eqb from to then x else fcast to x.
  Definition astype (d : fdt) (t : tensor) : tensor := mkT d (shp t) (map (conv (dt t) d) (dat t)).

  (** A binary jnp operator on two arrays: dtype promotion and broadcasting; incompatible shapes
      raise TypeError.  (Equal shapes need no broadcasting: the data are zipped.) *)
  Definition bin (op : fdt -> F -> F -> F) (a b : tensor) : result tensor :=
    let d := promote (dt a) (dt b) in
    let f x y := op d (conv (dt a) d x) (conv (dt b) d y) in
    if shape_eqb (shp a) (shp b) then Ok (mkT d (shp a) (map2 f (dat a) (dat b)))
    else match bshape (shp a) (shp b) with
         | Some s => Ok (tab d s (fun o => f (tget a (bidx (shp a) o)) (tget b (bidx (shp b) o))))
         | None => Err EType
         end.
  (** A binary operator with a (weakly typed) Python scalar on the left / on the right. *)
  Definition sl (op : fdt -> F -> F -> F) (c : F) (t : tensor) : tensor := emap (fun d x => op d (fcast d c) x) t.
  Definition sr (op : fdt -> F -> F -> F) (t : tensor) (c : F) : tensor := emap (fun d x => op d x (fcast d c)) t.
  Definition un (op : fdt -> F -> F) (t : tensor) : tensor := emap op t.

  (** jnp.where on a boolean array of the same shape. *)
  Definition twhere (c : gt bool) (a b : tensor) : tensor :=
    mkT (dt a) (shp a) (map2 (fun (b : bool) p => if b then fst p else snd p) (dat c) (combine (dat a) (dat b))).

  (** jnp.sum over all elements, and over some axes with keepdims. *)
  Definition tsum (t : tensor) : F := fsum (dt t) (dat t).
  Definition reduce (red : list bool) (f : fdt -> list F -> F) (t : tensor) : tensor :=
    tab (dt t) (reduced_shape red (shp t))
        (fun o => f (dt t) (map (tget t) (fiber red (shp t) o))).
End Ops.

(** ** Facts *)
Lemma shape_eqb_eq s t : shape_eqb s t = true <-> s = t.
Proof. apply list_eqb_spec, Nat.eqb_eq. Qed.
Lemma shape_eqb_refl s : shape_eqb s s = true.
Proof. now apply shape_eqb_eq. Qed.
Lemma aval_eqb_eq a b : aval_eqb a b = true <-> a = b.
Proof.
  destruct a as [d s], b as [d' s']; unfold aval_eqb; cbn.
  rewrite andb_true_iff, fdt_eqb_eq, shape_eqb_eq. split; [now intros [-> ->]|now intros [= -> ->]].
Qed.

Lemma gt_eq {A} (a b : gt A) : aval a = aval b -> dat a = dat b -> a = b.
Proof. destruct a, b; cbn. now intros [= -> ->] ->. Qed.

Lemma emap_aval {A B} (f : fdt -> A -> B) t : aval (emap f t) = aval t.
Proof. reflexivity. Qed.
Lemma emap_wf {A B} (f : fdt -> A -> B) t : twf (emap f t) <-> twf t.
Proof. unfold twf, emap; cbn. now rewrite map_length. Qed.
Lemma emap_emap {A B C} (g : fdt -> B -> C) (f : fdt -> A -> B) t :
  emap g (emap f t) = emap (fun d x => g d (f d x)) t.
Proof. unfold emap; cbn. now rewrite map_map. Qed.
Lemma emap_id {A} (t : gt A) : emap (fun _ x => x) t = t.
Proof. destruct t; unfold emap; cbn. now rewrite map_id. Qed.
Lemma emap_ext {A B} (f g : fdt -> A -> B) t :
  (forall x, In x (dat t) -> f (dt t) x = g (dt t) x) -> emap f t = emap g t.
Proof. intros H; unfold emap. f_equal. now apply map_ext_in. Qed.

Lemma gzip {A B} (a : gt A) (b : gt B) :
  aval a = aval b -> twf a -> twf b ->
  exists z : gt (A * B), aval z = aval a /\ twf z /\
    emap (fun _ => fst) z = a /\ emap (fun _ => snd) z = b.
Proof.
  intros E Wa Wb. exists (mkT (dt a) (shp a) (combine (dat a) (dat b))).
  destruct a as [d s la], b as [d' s' lb]; unfold twf, emap, aval in *; cbn in *.
  inversion E; subst. repeat split.
  - rewrite combine_length. lia.
  - now rewrite map_fst_combine by lia.
  - now rewrite map_snd_combine by lia.
Qed.

Lemma indices_length s : length (indices s) = prodn s.
Proof.
  induction s as [|n s IH]; cbn; [reflexivity|].
  fold (prodn s). rewrite <- IH. generalize 0 as k.
  induction n as [|n IHn]; intros k; cbn; [reflexivity|].
  now rewrite app_length, map_length, IHn.
Qed.

Lemma In_indices s idx : In idx (indices s) <-> valid s idx.
Proof.
  revert idx; induction s as [|n s IH]; intros idx; cbn.
  - destruct idx; cbn; split; auto; try easy. intros [E|E]; easy.
  - rewrite in_flat_map. split.
    + intros (i & Hi & H). apply in_seq in Hi. apply in_map_iff in H as (j & <- & Hj).
      split; [lia|]. now apply IH.
    + destruct idx as [|i idx]; [easy|]. intros [Hi Hv]. exists i.
      split; [apply in_seq; lia|]. apply in_map. now apply IH.
Qed.

Lemma ravel_lt s idx : valid s idx -> ravel s idx < prodn s.
Proof.
  revert idx; induction s as [|n s IH]; intros [|i idx]; cbn; try easy; [lia|].
  intros [Hi Hv]. apply IH in Hv. fold (prodn s). nia.
Qed.

Lemma nth_error_flat_map_const {A B} (f : A -> list B) (k : nat) l i j a :
  (forall x, length (f x) = k) -> nth_error l i = Some a -> j < k ->
  nth_error (flat_map f l) (i * k + j) = nth_error (f a) j.
Proof.
  intros Hk. revert i; induction l as [|x l IH]; intros [|i] E Hj; cbn in *; try easy.
  - inversion E; subst. rewrite nth_error_app1; [reflexivity|now rewrite Hk].
  - rewrite nth_error_app2 by (rewrite Hk; lia).
    rewrite Hk. replace (k + i * k + j - k) with (i * k + j) by lia. now apply IH.
Qed.

Lemma nth_error_indices s idx : valid s idx -> nth_error (indices s) (ravel s idx) = Some idx.
Proof.
  revert idx; induction s as [|n s IH]; intros [|i idx]; cbn; try easy.
  intros [Hi Hv]. fold (prodn s).
  erewrite nth_error_flat_map_const with (a := i).
  - rewrite nth_error_map, IH by assumption. reflexivity.
  - intros x. now rewrite map_length, indices_length.
  - rewrite nth_error_nth' with (d := 0) by (rewrite seq_length; lia). now rewrite seq_nth by lia.
  - now apply ravel_lt.
Qed.

Lemma NoDup_app_intro {A} (l m : list A) :
  NoDup l -> NoDup m -> (forall x, In x l -> ~ In x m) -> NoDup (l ++ m).
Proof.
  induction l as [|a l IH]; cbn; intros Hl Hm H; [assumption|].
  inversion Hl; subst. constructor.
  - rewrite in_app_iff. intros [?|?]; [easy|]. eapply H; eauto.
  - apply IH; auto.
Qed.

Lemma indices_NoDup s : NoDup (indices s).
Proof.
  induction s as [|n s IH]; cbn; [constructor; [easy|constructor]|].
  generalize 0 as k. induction n as [|n IHn]; intros k; cbn; [constructor|].
  apply NoDup_app_intro.
  - apply FinFun.Injective_map_NoDup; [|assumption]. now intros x y [= ->].
  - apply IHn.
  - intros x Hx Hx'. apply in_map_iff in Hx as (j & <- & _).
    apply in_flat_map in Hx' as (i & Hi & Hx'). apply in_seq in Hi.
    apply in_map_iff in Hx' as (j' & [= -> ->] & _). lia.
Qed.

Lemma valid_length s idx : valid s idx -> length idx = length s.
Proof.
  revert idx; induction s as [|n s IH]; intros [|i idx]; cbn; try easy.
  intros [_ Hv]. now rewrite IH.
Qed.

Lemma tab_wf {A} d s (f : list nat -> A) : twf (tab d s f).
Proof. unfold twf, tab; cbn. now rewrite map_length, indices_length. Qed.
Lemma tab_aval {A} d s (f : list nat -> A) : aval (tab d s f) = (d, s).
Proof. reflexivity. Qed.
Lemma tab_ext {A} d s (f g : list nat -> A) :
  (forall i, valid s i -> f i = g i) -> tab d s f = tab d s g.
Proof. intros H; unfold tab. f_equal. apply map_ext_in. intros i Hi. now apply H, In_indices. Qed.

Section OpsFacts.
  Context `{O : Ops}.

  Lemma tget_tab d s f idx : valid s idx -> tget (tab d s f) idx = f idx.
  Proof.
    intros Hv. unfold tget, tab; cbn.
    apply nth_error_nth. rewrite nth_error_map, nth_error_indices by assumption. reflexivity.
  Qed.

  Lemma dat_tget (t : tensor) : twf t -> dat t = map (tget t) (indices (shp t)).
  Proof.
    destruct t as [d s l]; unfold twf, tget; cbn. intros W.
    apply nth_error_ext. intros i.
    rewrite nth_error_map.
    assert (Hin : forall idx, nth_error (indices s) i = Some idx -> ravel s idx = i).
    { intros idx Hidx. pose proof (nth_error_In _ _ Hidx) as Hv. apply In_indices in Hv.
      pose proof (nth_error_indices s idx Hv) as H2. rewrite <- Hidx in H2.
      eapply NoDup_nth_error; [apply indices_NoDup| |exact H2].
      rewrite indices_length. now apply ravel_lt. }
    destruct (nth_error (indices s) i) as [idx|] eqn:E; cbn.
    - rewrite (Hin idx eq_refl).
      assert (i < length l).
      { rewrite W, <- indices_length. apply nth_error_Some. congruence. }
      now apply nth_error_nth'.
    - apply nth_error_None in E. apply nth_error_None. now rewrite W, <- indices_length.
  Qed.

  Lemma tab_tget (t : tensor) : twf t -> tab (dt t) (shp t) (tget t) = t.
  Proof. intros W. unfold tab. rewrite <- dat_tget by assumption. now destruct t. Qed.

  Lemma tensor_ext (a b : tensor) :
    twf a -> twf b -> aval a = aval b -> (forall i, valid (shp a) i -> tget a i = tget b i) -> a = b.
  Proof.
    intros Wa Wb E H. apply gt_eq; [assumption|].
    rewrite (dat_tget a Wa), (dat_tget b Wb). assert (Es : shp b = shp a) by (unfold aval in E; congruence). rewrite Es.
    apply map_ext_in. intros i Hi. apply H. now apply In_indices.
  Qed.

  Lemma conv_same d x : conv d d x = x.
  Proof. unfold conv. now destruct d. Qed.
  Lemma astype_same (t : tensor) : astype (dt t) t = t.
  Proof.
    unfold astype. destruct t as [d s l]; cbn. f_equal.
    erewrite map_ext; [apply map_id|]. intros; apply conv_same.
  Qed.

  (** The two arrays are images of one array of pairs: the operator is a map. *)
  Lemma bin_emap {Z} op (u v : fdt -> Z -> F) (z : gt Z) :
    bin op (emap u z) (emap v z) = Ok (emap (fun d e => op d (u d e) (v d e)) z).
  Proof.
    unfold bin; cbn. rewrite shape_eqb_refl, promote_same, map2_map_same.
    unfold emap. do 2 f_equal. apply map_ext. intros e. now rewrite !conv_same.
  Qed.
  Lemma sl_emap {Z} op c (u : fdt -> Z -> F) (z : gt Z) :
    sl op c (emap u z) = emap (fun d e => op d (fcast d c) (u d e)) z.
  Proof. apply emap_emap. Qed.
  Lemma sr_emap {Z} op c (u : fdt -> Z -> F) (z : gt Z) :
    sr op (emap u z) c = emap (fun d e => op d (u d e) (fcast d c)) z.
  Proof. apply emap_emap. Qed.
  Lemma un_emap {Z} op (u : fdt -> Z -> F) (z : gt Z) :
    un op (emap u z) = emap (fun d e => op d (u d e)) z.
  Proof. apply emap_emap. Qed.
  Lemma astype_emap {Z} (u : fdt -> Z -> F) (z : gt Z) :
    astype (dt z) (emap u z) = emap u z.
  Proof. exact (astype_same (emap u z)). Qed.
  Lemma full_emap {Z} c (z : gt Z) : twf z -> full (dt z) (shp z) c = emap (fun d _ => fcast d c) z.
  Proof.
    unfold full, emap, twf. intros W. f_equal. rewrite <- W. clear W.
    induction (dat z) as [|a l IH]; cbn; [reflexivity|]. now rewrite IH.
  Qed.
  Lemma full_wf d s c : twf (full d s c).
  Proof. unfold twf, full; cbn. now rewrite repeat_length. Qed.
  Lemma twhere_emap {Z} (c : fdt -> Z -> bool) (u v : fdt -> Z -> F) (z : gt Z) :
    twhere (emap c z) (emap u z) (emap v z) = emap (fun d e => if c d e then u d e else v d e) z.
  Proof.
    unfold twhere, emap; cbn. f_equal. induction (dat z) as [|a l IH]; cbn; [reflexivity|].
    now rewrite IH.
  Qed.
  Lemma tget_emap_gen f (t : tensor) i :
    twf t -> valid (shp t) i -> tget (emap f t) i = f (dt t) (tget t i).
  Proof.
    intros W V. unfold tget, emap; cbn.
    assert (ravel (shp t) i < length (dat t)) by (rewrite W; now apply ravel_lt).
    rewrite nth_indep with (d' := f (dt t) fzero) by now rewrite map_length.
    apply map_nth.
  Qed.
End OpsFacts.

Lemma prodn_nil : prodn [] = 1. Proof. reflexivity. Qed.
