(** inject_hyperparams. *)
From Verif Require Export M_inject P_norm.
From Coq Require Import String List.
Import ListNotations.
Open Scope list_scope.
(*@header
From Coq Require Import String List.
Import ListNotations.
Open Scope list_scope.
*)

(** ** Specification *)
(** What the user does between init and the end of training: calls update, or writes into
    state.hyperparams. *)
Inductive hop `{O : Ops} := Upd (u : tree tensor) (p : option (tree tensor)) | Write (k : string) (v : hnum).

Section Spec.
  Context `{O : Ops} {Obj : Type}.
  (** number of updates in a history; last value written to key k (or the initial one) *)
  Fixpoint n_updates (h : list hop) : nat := match h with [] => 0 | Upd _ _ :: r => S (n_updates r) | _ :: r => n_updates r end.
  Fixpoint last_written (k : string) (v : hnum) (h : list hop) : hnum :=
    match h with
    | [] => v
    | Write k' v' :: r => last_written k (if String.eqb k k' then v' else v) r
    | _ :: r => last_written k v r
    end.
  (** The dtype of the first leaf of a tree, if it has one. *)
  Definition leaf_dtype (t : tree tensor) : option fdt := option_map dt (hd_error (leaves t)).
  (** A hyper-parameter as stored: Python floats and float arrays become arrays of the dtype (when
      there is no leaf: of the default dtype, resp. unchanged); integers stay. *)
  Definition in_dtype (dtype : option fdt) (v : hnum) : hnum :=
    match v with
    | IntV z => IntV z
    | PyF x => match dtype with Some d => ArrF d (fcast d x) | None => ArrF defdt (fcast defdt x) end
    | ArrF d' x => match dtype with Some d => ArrF d (conv d' d x) | None => ArrF d' x end
    end.
  (** Which names are keys of state.hyperparams. *)
  Definition is_key (static : list string) (args : list (string * arg (Obj := Obj))) (k : string) : bool :=
    negb (existsb (String.eqb k) static) && existsb (fun ka => String.eqb k (fst ka) && match snd ka with ANum _ | ASched _ => true | _ => false end) args.
  (** The value parameter [k] (given as [a]) must have in the update that follows history [h]:
      scheduled ones f(n) for the n-th update (n = number of updates including this one, saturating
      at 2^31-1), numeric ones the last written value, both with floats converted to [dtype]; static,
      boolean and other arguments unchanged. *)
  Definition value_after (static : list string) (dtype : option fdt) (h : list hop) (k : string) (a : arg (Obj := Obj)) : arg :=
    if mem k static then a else
    match a with
    | ASched f => ANum (in_dtype dtype (f (Z.min (Z.of_nat (S (n_updates h))) (2 ^ 31 - 1))))
    | ANum v => ANum (in_dtype dtype (last_written k v h))
    | _ => a
    end.
  Definition value_init (static : list string) (dtype : option fdt) (k : string) (a : arg (Obj := Obj)) : arg :=
    if mem k static then a else
    match a with ASched f => ANum (in_dtype dtype (f 0%Z)) | ANum v => ANum (in_dtype dtype v) | _ => a end.

  (** The reference execution: every update is the update of a freshly built inner transformation. *)
  Fixpoint ref_run (f : factory Obj) (static : list string) (args : list (string * arg)) (dtype : option fdt) (past h : list hop) (si : state)
    : result (list (tree tensor) * state) :=
    match h with
    | [] => Ok ([], si)
    | Upd u p :: r =>
      let* g := f (map (fun ka => value_after static dtype past (fst ka) (snd ka)) args) in
      let* (o, si') := update g u si p in
      let* (os, sf) := ref_run f static args dtype (past ++ [Upd u p]) r si' in
      Ok (o :: os, sf)
    | Write k v :: r =>
      if is_key static args k then ref_run f static args dtype (past ++ [Write k v]) r si else Err EType
    end.
  (** The execution of the wrapped transformation. *)
  Fixpoint exec (T : GT) (static : list string) (args : list (string * arg (Obj := Obj))) (h : list hop) (s : state) : result (list (tree tensor) * state) :=
    match h with
    | [] => Ok ([], s)
    | Upd u p :: r =>
      let* (o, s') := update T u s p in
      let* (os, sf) := exec T static args r s' in
      Ok (o :: os, sf)
    | Write k v :: r => let* s' := set_hyperparam static args k v s in exec T static args r s'
    end.
  Definition inner_of (s : state) : state := match s with SNode NInject [_; _; si] => si | _ => s end.
  Definition ufirst (dtype : option fdt) (x : hop) : Prop := match x with Upd u _ => leaf_dtype u = dtype | _ => True end.
End Spec.

(** ** Dicts *)
Section Dict.
  Context {A : Type}.
  Lemma dget_dset (l : list (string * A)) k k' v : dget (dset l k v) k' = if String.eqb k' k then Some v else dget l k'.
  Proof.
    induction l as [|[k0 v0] l IH]; cbn; [reflexivity|].
    destruct (String.eqb_spec k k0); subst; cbn.
    - destruct (String.eqb_spec k' k0); reflexivity.
    - rewrite IH. destruct (String.eqb_spec k' k0); subst; [|reflexivity]. destruct (String.eqb_spec k0 k); congruence.
  Qed.
  Lemma keys_dset (l : list (string * A)) k v : In k (map fst l) -> map fst (dset l k v) = map fst l.
  Proof.
    induction l as [|[k0 v0] l IH]; cbn; [easy|]. intros H. destruct (String.eqb_spec k k0); [reflexivity|]. cbn. f_equal. apply IH. destruct H; congruence.
  Qed.
  Lemma keys_dset_new (l : list (string * A)) k v : ~ In k (map fst l) -> dset l k v = l ++ [(k, v)].
  Proof. induction l as [|[k0 v0] l IH]; cbn; [reflexivity|]. intros H. destruct (String.eqb_spec k k0); [subst; tauto|]. f_equal. apply IH. tauto. Qed.
  Lemma dget_none (l : list (string * A)) k : ~ In k (map fst l) -> dget l k = None.
  Proof. induction l as [|[k0 v0] l IH]; cbn; [reflexivity|]. intros H. destruct (String.eqb_spec k k0); [subst; tauto|]. apply IH. tauto. Qed.
  Lemma dget_In (l : list (string * A)) k v : NoDup (map fst l) -> In (k, v) l -> dget l k = Some v.
  Proof.
    induction l as [|[k0 v0] l IH]; cbn; [easy|]. intros Hn [H|H]; inversion Hn; subst.
    - injection H as -> ->. now rewrite String.eqb_refl.
    - destruct (String.eqb_spec k k0); [subst; exfalso; apply H2; now apply (in_map fst _ (k0, v))|]. now apply IH.
  Qed.
  Lemma dget_dupdate (m : list (string * A)) : forall l k, NoDup (map fst m) -> dget (dupdate l m) k = match dget m k with Some v => Some v | None => dget l k end.
  Proof.
    unfold dupdate. induction m as [|[k0 v0] m IH]; intros l k Hn; [reflexivity|]. cbn [fold_left fst snd]. inversion Hn; subst. rewrite IH by assumption. rewrite dget_dset. cbn.
    destruct (String.eqb_spec k k0); [subst|reflexivity]. now rewrite (dget_none m k0).
  Qed.
  Lemma keys_dupdate (m : list (string * A)) : forall l, incl (map fst m) (map fst l) -> map fst (dupdate l m) = map fst l.
  Proof.
    unfold dupdate. induction m as [|[k0 v0] m IH]; intros l Hi; [reflexivity|]. cbn [fold_left fst snd]. rewrite IH; rewrite keys_dset; auto; [apply Hi; now left|intros x Hx; apply Hi; now right|apply Hi; now left].
  Qed.
  Lemma dupdate_new (m : list (string * A)) : forall l, NoDup (map fst m) -> (forall k, In k (map fst m) -> ~ In k (map fst l)) -> dupdate l m = l ++ m.
  Proof.
    unfold dupdate. induction m as [|[k0 v0] m IH]; intros l Hn Hd; [cbn; now rewrite app_nil_r|]. inversion Hn; subst. cbn [fold_left fst snd]. rewrite keys_dset_new by (apply Hd; now left).
    rewrite IH; [now rewrite <- app_assoc|assumption|]. intros k Hk. rewrite map_app, in_app_iff. cbn. intros [H|[H|[]]]; [apply (Hd k); [now right|exact H]|subst; contradiction].
  Qed.
End Dict.
Lemma dget_map {A B} (g : A -> B) (l : list (string * A)) k : dget (map (fun kv => (fst kv, g (snd kv))) l) k = option_map g (dget l k).
Proof. induction l as [|[k0 v0] l IH]; cbn; [reflexivity|]. destruct (String.eqb k k0); [reflexivity|exact IH]. Qed.
Lemma keys_map {A B} (g : A -> B) (l : list (string * A)) : map fst (map (fun kv => (fst kv, g (snd kv))) l) = map fst l.
Proof. rewrite map_map. reflexivity. Qed.
Lemma combine_keys {A} (l : list (string * A)) : combine (map fst l) (map snd l) = l.
Proof. induction l as [|[k v] l IH]; cbn; [reflexivity|]. now rewrite IH. Qed.
Lemma mem_In k l : mem k l = true <-> In k l.
Proof. unfold mem. rewrite existsb_exists. split; [intros (x & H & E); apply String.eqb_eq in E; now subst|intros H; exists k; split; [exact H|apply String.eqb_refl]]. Qed.

Section Proof.
  Context `{O : Ops} {Obj : Type}.
  Variable f : factory Obj.
  Variable static : list string.
  Variable args : list (string * arg (Obj := Obj)).
  Hypothesis Hnd : NoDup (map fst args).

  Lemma In_sched k g : In (k, g) (sched_hps static args) <-> mem k static = false /\ In (k, ASched g) args.
  Proof.
    unfold sched_hps. rewrite in_flat_map. split.
    - intros ([k0 a] & Hi & H). cbn in H. destruct (mem k0 static) eqn:E; [easy|]. destruct a; try easy. destruct H as [H|[]]. injection H as -> ->. auto.
    - intros (E & H). exists (k, ASched g). split; [exact H|]. cbn. rewrite E. now left.
  Qed.
  Lemma In_numeric k v : In (k, v) (numeric_hps static args) <-> mem k static = false /\ In (k, ANum v) args.
  Proof.
    unfold numeric_hps. rewrite in_flat_map. split.
    - intros ([k0 a] & Hi & H). cbn in H. destruct (mem k0 static) eqn:E; [easy|]. destruct a; try easy. destruct H as [H|[]]. injection H as -> ->. auto.
    - intros (E & H). exists (k, ANum v). split; [exact H|]. cbn. rewrite E. now left.
  Qed.
  Lemma arg_fun k a a' : In (k, a) args -> In (k, a') args -> a = a'.
  Proof. intros H H'. apply dget_In in H; [|exact Hnd]. apply dget_In in H'; [|exact Hnd]. congruence. Qed.
  Lemma NoDup_flat {B} (g : string * arg (Obj := Obj) -> list (string * B)) (l : list (string * arg (Obj := Obj))) :
    (forall ka x, In x (g ka) -> fst x = fst ka) -> (forall ka, (List.length (g ka) <= 1)%nat) -> NoDup (map fst l) -> NoDup (map fst (flat_map g l)).
  Proof.
    intros Hg H1. induction l as [|ka l IH]; cbn; [constructor|]. intros Hn. inversion Hn; subst.
    specialize (IH H3). rewrite map_app. destruct (g ka) as [|x [|]] eqn:E; [exact IH| |specialize (H1 ka); rewrite E in H1; cbn in H1; lia].
    cbn. constructor; [|exact IH]. intros Hi. apply H2. rewrite <- (Hg ka x) by (rewrite E; now left).
    apply in_map_iff in Hi as (y & Ey & Hy). apply in_flat_map in Hy as (ka' & Hka & Hy). rewrite <- Ey, (Hg ka' y Hy). now apply in_map.
  Qed.
  Lemma nd_sched : NoDup (map fst (sched_hps static args)).
  Proof. apply NoDup_flat; [| |exact Hnd]; intros [k a]; cbn; destruct (mem k static), a; cbn; try lia; try easy. intros x [<-|[]]; reflexivity. Qed.
  Lemma nd_numeric : NoDup (map fst (numeric_hps static args)).
  Proof. apply NoDup_flat; [| |exact Hnd]; intros [k a]; cbn; destruct (mem k static), a; cbn; try lia; try easy. intros x [<-|[]]; reflexivity. Qed.
  Lemma disj k : In k (map fst (sched_hps static args)) -> ~ In k (map fst (numeric_hps static args)).
  Proof.
    intros H1 H2. apply in_map_iff in H1 as ([k1 g] & <- & H1). apply in_map_iff in H2 as ([k2 v] & E & H2). cbn in E. subst k2.
    apply In_sched in H1 as (_ & H1). apply In_numeric in H2 as (_ & H2). pose proof (arg_fun _ _ _ H1 H2). discriminate.
  Qed.
  Lemma keys_schedule_fn c d : map fst (schedule_fn static args c d) = map fst (sched_hps static args).
  Proof. unfold schedule_fn. rewrite map_map. reflexivity. Qed.
  Lemma dget_schedule_fn c d k : dget (schedule_fn static args c d) k = option_map (fun g : Z -> hnum => convert_floats (g c) d) (dget (sched_hps static args) k).
  Proof. unfold schedule_fn. exact (dget_map (fun g : Z -> hnum => convert_floats (g c) d) (sched_hps static args) k). Qed.
  Lemma dget_sched_iff k g : dget (sched_hps static args) k = Some g <-> In (k, g) (sched_hps static args).
  Proof.
    split; [|apply dget_In, nd_sched]. clear Hnd. induction (sched_hps static args) as [|[k0 v0] l IH]; cbn; [easy|].
    destruct (String.eqb_spec k k0); [intros [= ->]; subst; now left|right; auto].
  Qed.

  Lemma leaf_dtype_eq t : first_dtype t = leaf_dtype t.
  Proof. unfold first_dtype, leaf_dtype. destruct (leaves t); reflexivity. Qed.
  Lemma in_dtype_eq d v : convert_floats v d = in_dtype d v.
  Proof. destruct v, d; reflexivity. Qed.
  Lemma is_key_eq k : mem k (hp_keys static args) = is_key static args k.
  Proof.
    assert (G : mem k (hp_keys static args) = true <-> is_key static args k = true); [|destruct (mem k _), (is_key _ _ _); try reflexivity; destruct G as [G1 G2]; [symmetry; now apply G1|now apply G2]].
    rewrite mem_In. unfold hp_keys, is_key. fold (mem k static). rewrite in_app_iff, andb_true_iff, negb_true_iff, existsb_exists. split.
    - intros [H|H]; apply in_map_iff in H as ([k0 x] & E & H); cbn in E; subst k0; [apply In_numeric in H as (E & H)|apply In_sched in H as (E & H)]; (split; [exact E|]); eexists; (split; [exact H|]); cbn; now rewrite String.eqb_refl.
    - intros (E & [k0 a] & H & C). cbn in C. apply andb_true_iff in C as (C1 & C2). apply String.eqb_eq in C1. subst k0. destruct a as [b|g|v|o]; try discriminate; [right; apply (in_map fst _ (k, g)), In_sched; auto|left; apply (in_map fst _ (k, v)), In_numeric; auto].
  Qed.
  Lemma conv_self d x : conv d d x = x.
  Proof. unfold conv. assert (E : fdt_eqb d d = true) by now apply fdt_eqb_eq. now rewrite E. Qed.
  Lemma convert_idem v d : convert_floats (convert_floats v d) d = convert_floats v d.
  Proof. destruct v, d; cbn; rewrite ?conv_self; reflexivity. Qed.
  Lemma dec_enc v : dec (enc v) = Ok v.
  Proof. destruct v; reflexivity. Qed.
  Lemma mapM_dec (l : list hnum) : mapM dec (map enc l) = Ok l.
  Proof. induction l as [|v l IH]; [reflexivity|]. cbn [map mapM]. rewrite dec_enc. cbn [rbind]. rewrite IH. reflexivity. Qed.

  Variable dtype : option fdt.
  (** stored values [hps] after a history *)
  Definition stored (past : list hop) (hps : list (string * hnum)) : Prop :=
    map fst hps = hp_keys static args /\
    forall k v, mem k static = false -> In (k, ANum v) args -> exists c, dget hps k = Some c /\ convert_floats c dtype = convert_floats (last_written k v past) dtype.
  Definition st (past : list hop) (hps : list (string * hnum)) (si : state) : state :=
    SNode NInject [SInt I32 (cnt (n_updates past)); SNode NDict (map (fun kv => enc (snd kv)) hps); si].

  Lemma n_updates_app a b : n_updates (a ++ b) = (n_updates a + n_updates b)%nat.
  Proof. induction a as [|[]]; cbn; auto. Qed.
  Lemma last_written_app k : forall a v b, last_written k v (a ++ b) = last_written k (last_written k v a) b.
  Proof. induction a as [|[] a IH]; intros; cbn; auto. Qed.

  Lemma call_inner_eq hps g : (forall k a, In (k, a) args -> (if is_other static k a then a else match dget hps k with Some v => ANum v | None => a end) = g k a) ->
    call_inner f static args hps = f (map (fun ka => g (fst ka) (snd ka)) args).
  Proof. intros H. unfold call_inner. f_equal. apply map_ext_in. intros [k a] Hi. now apply H. Qed.

  Lemma step_hps past hps : stored past hps ->
    let hps' := dupdate (map (fun kv => (fst kv, convert_floats (snd kv) dtype)) hps) (schedule_fn static args (cnt (S (n_updates past))) dtype) in
    (forall k g, mem k static = false -> In (k, ASched g) args -> dget hps' k = Some (convert_floats (g (cnt (S (n_updates past)))) dtype)) /\
    (forall k v, mem k static = false -> In (k, ANum v) args -> dget hps' k = Some (convert_floats (last_written k v past) dtype)) /\
    map fst hps' = hp_keys static args.
  Proof.
    intros (Hk & Hv) hps'. split; [|split].
    - intros k g E Hi. unfold hps'. rewrite dget_dupdate by (rewrite keys_schedule_fn; apply nd_sched). rewrite dget_schedule_fn.
      assert (E2 : dget (sched_hps static args) k = Some g) by (apply dget_sched_iff, In_sched; auto). now rewrite E2.
    - intros k v E Hi. unfold hps'. rewrite dget_dupdate by (rewrite keys_schedule_fn; apply nd_sched). rewrite dget_schedule_fn.
      assert (E2 : dget (sched_hps static args) k = None) by (apply dget_none; intros H; apply (disj k H); apply (in_map fst _ (k, v)), In_numeric; auto). rewrite E2. cbn [option_map].
      etransitivity; [exact (dget_map (fun c => convert_floats c dtype) hps k)|]. destruct (Hv k v E Hi) as (c & Ec & Hc). rewrite Ec. cbn. now rewrite Hc.
    - unfold hps'. rewrite keys_dupdate; [rewrite (keys_map (fun c => convert_floats c dtype)); exact Hk|]. rewrite keys_schedule_fn, (keys_map (fun c => convert_floats c dtype)), Hk. unfold hp_keys. apply incl_appr, incl_refl.
  Qed.

  Definition next_hps (past : list hop) (hps : list (string * hnum)) :=
    dupdate (map (fun kv => (fst kv, convert_floats (snd kv) dtype)) hps) (schedule_fn static args (cnt (S (n_updates past))) dtype).
  Lemma stored_upd past hps u p : stored past hps -> stored (past ++ [Upd u p]) (next_hps past hps).
  Proof.
    intros Hst. destruct (step_hps past hps Hst) as (Hgs & Hgn & Hk'). split; [exact Hk'|]. intros k v E Hi. eexists. split; [apply Hgn; eassumption|].
    rewrite convert_idem, last_written_app. reflexivity.
  Qed.
  Lemma upd_st past hps si u p : stored past hps -> first_dtype u = dtype -> inject_update f static args u (st past hps si) p =
    (let* g := f (map (fun ka => value_after static dtype past (fst ka) (snd ka)) args) in
     let* (u', si') := update g u si p in Ok (u', st (past ++ [Upd u p]) (next_hps past hps) si')).
  Proof.
    intros Hst Hd. unfold inject_update. unfold st at 1. rewrite cnt_S. cbn [rbind].
    assert (Ev : mapM dec (map (fun kv : string * hnum => enc (snd kv)) hps) = Ok (map snd hps)) by (rewrite <- (map_map snd enc); apply mapM_dec).
    rewrite Ev. cbn [rbind]. destruct (step_hps past hps Hst) as (Hgs & Hgn & Hk'). rewrite <- (proj1 Hst), combine_keys, Hd. fold (next_hps past hps) in *.
    rewrite (call_inner_eq (next_hps past hps) (value_after static dtype past)).
    - destruct (f _) as [g|e]; cbn [rbind]; [|reflexivity]. destruct (update g u si p) as [[o si']|e]; cbn [rbind]; [|reflexivity].
      unfold st. rewrite n_updates_app. cbn [n_updates]. rewrite Nat.add_1_r. reflexivity.
    - intros k a Hi. unfold is_other, value_after. destruct (mem k static) eqn:E; [reflexivity|]. cbn [orb]. destruct a as [b|g|v|o]; [reflexivity| | |reflexivity].
      + rewrite (Hgs k g E Hi), in_dtype_eq. reflexivity.
      + rewrite (Hgn k v E Hi), in_dtype_eq. reflexivity.
  Qed.

  Lemma inject_sim : forall h past hps si, stored past hps -> Forall (ufirst dtype) h ->
    match ref_run f static args dtype past h si, exec (mkGT (inject_init f static args) (inject_update f static args)) static args h (st past hps si) with
    | Ok (os, sf), Ok (os', sf') => os = os' /\ exists hps', stored (past ++ h) hps' /\ sf' = st (past ++ h) hps' sf
    | Err e, Err e' => e = e'
    | _, _ => False
    end.
  Proof.
    induction h as [|[u p|k v] h IH]; intros past hps si Hst Hu; cbn [ref_run exec].
    - rewrite app_nil_r. split; [reflexivity|]. exists hps. auto.
    - inversion Hu as [|? ? Hd Hu']; subst. cbn [ufirst] in Hd. rewrite <- leaf_dtype_eq in Hd. cbn [update]. rewrite (upd_st past hps si u p Hst Hd).
      destruct (f _) as [g|e]; cbn [rbind]; [|reflexivity]. destruct (update g u si p) as [[o si']|e]; cbn [rbind]; [|reflexivity].
      specialize (IH (past ++ [Upd u p]) _ si' (stored_upd past hps u p Hst) Hu').
      rewrite <- app_assoc in IH. cbn [app] in IH.
      destruct (ref_run _ _ _ _ _ _ _) as [[os sf]|e], (exec _ _ _ _ _) as [[os' sf']|e']; cbn [rbind]; try easy.
      destruct IH as (-> & hps2 & ?). eauto.
    - inversion Hu; subst. unfold set_hyperparam. cbn [st]. rewrite <- is_key_eq. destruct (mem k (hp_keys static args)) eqn:Em; [|reflexivity]. cbn [rbind]. destruct Hst as (Hk & Hv).
      assert (Ec : map snd (dset (combine (hp_keys static args) (map (fun kv => enc (snd kv)) hps)) k (enc v)) = map (fun kv => enc (snd kv)) (dset hps k v)).
      { rewrite <- Hk. clear. induction hps as [|[k0 v0] l IHl]; [reflexivity|]. cbn. destruct (String.eqb k k0); cbn; [|now rewrite IHl].
        f_equal. clear. induction l as [|[k1 v1] l IHl]; [reflexivity|]. cbn. now rewrite IHl. }
      rewrite Ec. assert (Hst' : stored (past ++ [Write k v]) (dset hps k v)).
      { split. { rewrite keys_dset; [exact Hk|]. rewrite Hk. now apply mem_In. }
        intros k0 v0 E Hi. rewrite dget_dset, last_written_app. cbn [last_written]. destruct (String.eqb k0 k); [eexists; split; reflexivity|]. exact (Hv k0 v0 E Hi). }
      specialize (IH (past ++ [Write k v]) (dset hps k v) si Hst').
      assert (Es : st (past ++ [Write k v]) (dset hps k v) si = SNode NInject [SInt I32 (cnt (n_updates past)); SNode NDict (map (fun kv => enc (snd kv)) (dset hps k v)); si]).
      { unfold st. rewrite n_updates_app. cbn [n_updates]. now rewrite Nat.add_0_r. }
      rewrite Es, <- app_assoc in IH. cbn [app] in IH.
      apply IH. assumption.
  Qed.

  Lemma inject_init_eq p : first_dtype p = dtype ->
    inject_init f static args p = (let* g := f (map (fun ka => value_init static dtype (fst ka) (snd ka)) args) in let* si := init g p in
      Ok (st [] (map (fun kv => (fst kv, convert_floats (snd kv) dtype)) (numeric_hps static args) ++ schedule_fn static args 0 dtype) si)).
  Proof.
    intros Hd. unfold inject_init. rewrite Hd.
    rewrite dupdate_new.
    2:{ rewrite keys_schedule_fn. apply nd_sched. }
    2:{ intros k. rewrite keys_schedule_fn, (keys_map (fun c => convert_floats c dtype)). apply disj. }
    rewrite (call_inner_eq _ (value_init static dtype)); [reflexivity|]. intros k a Hi. unfold is_other, value_init. destruct (mem k static) eqn:E; [reflexivity|]. cbn [orb].
    assert (Ha : forall l m, dget (l ++ m) k = match dget l k with Some v => Some v | None => @dget hnum m k end).
    { induction l as [|[k0 v0] l IHl]; intros m; cbn; [reflexivity|]. destruct (String.eqb k k0); auto. }
    rewrite Ha. destruct a as [b|g|v|o]; [reflexivity| | |reflexivity].
    - rewrite dget_none. 2:{ rewrite (keys_map (fun c => convert_floats c dtype)). apply disj. apply (in_map fst _ (k, g)), In_sched. auto. }
      rewrite dget_schedule_fn. assert (E2 : dget (sched_hps static args) k = Some g) by (apply dget_sched_iff, In_sched; auto). rewrite E2. cbn [option_map]. now rewrite in_dtype_eq.
    - rewrite (dget_map (fun c => convert_floats c dtype)). rewrite (dget_In (numeric_hps static args) k v nd_numeric) by (apply In_numeric; auto). cbn [option_map]. now rewrite in_dtype_eq.
  Qed.
  Lemma stored_init : stored [] (map (fun kv => (fst kv, convert_floats (snd kv) dtype)) (numeric_hps static args) ++ schedule_fn static args 0 dtype).
  Proof.
    split. { rewrite map_app, (keys_map (fun c => convert_floats c dtype)), keys_schedule_fn. reflexivity. }
    intros k v E Hi. exists (convert_floats v dtype). split; [|apply convert_idem].
    assert (Ha : forall l m, dget (l ++ m) k = match dget l k with Some v => Some v | None => @dget hnum m k end).
    { induction l as [|[k0 v0] l IHl]; intros m; cbn; [reflexivity|]. destruct (String.eqb k k0); auto. }
    rewrite Ha, (dget_map (fun c => convert_floats c dtype)). rewrite (dget_In (numeric_hps static args) k v nd_numeric) by (apply In_numeric; auto). reflexivity.
  Qed.
End Proof.

(*@ C46_inject : for every factory, static names, bound arguments (distinct names) and every interleaving of updates and manual writes to state.hyperparams, over gradients whose first leaf has the dtype of the first parameter leaf: running the wrapped transformation gives exactly (same outputs, same inner state, same errors) the reference execution, in which the n-th update is the update of inner_factory called with: each scheduled parameter equal to its schedule at n (not n-1; saturating at 2^31-1) whatever was written to it, each numeric one equal to the last written value or else its initial value, floats converted to that dtype, and static/bool/other arguments passed through; init uses the schedules at 0. Any arithmetic. *)
Lemma inject_spec : forall `{O : Ops} (Obj : Type) (f : factory Obj) (static : list string) (args : list (string * arg)) (p : tree tensor) (h : list hop) (T : GT) (dtype : option fdt),
  NoDup (map fst args) -> inject_hyperparams f static args = Ok T -> leaf_dtype p = dtype -> Forall (ufirst dtype) h ->
  rmap (fun r : list (tree tensor) * state => (fst r, inner_of (snd r))) (let* s := init T p in exec T static args h s) =
  (let* g0 := f (map (fun ka => value_init static dtype (fst ka) (snd ka)) args) in
   let* si := init g0 p in
   ref_run f static args dtype [] h si).
Proof.
  intros O Obj f static args p h T dtype Hn HT Hp Hu. rewrite <- leaf_dtype_eq in Hp. unfold inject_hyperparams in HT. destruct (forallb _ _); [|discriminate]. injection HT as <-. cbn [init].
  rewrite (inject_init_eq f static args Hn dtype p Hp). destruct (f _) as [g0|e]; cbn [rbind rmap]; [|reflexivity]. destruct (init g0 p) as [si|e]; cbn [rbind rmap]; [|reflexivity].
  pose proof (inject_sim f static args Hn dtype h [] _ si (stored_init static args Hn dtype) Hu) as H.
  destruct (ref_run _ _ _ _ _ _ _) as [[os sf]|e], (exec _ _ _ _ _) as [[os' sf']|e']; try easy; cbn [rmap rbind fst snd].
  - destruct H as (-> & hps & _ & ->). reflexivity.
  - now rewrite H.
Qed.

(*@ C46_reads : after any history of updates and writes ending in an update, reading a scheduled hyper-parameter from the state gives its schedule's value at the number of updates made, and reading a numeric one gives the last written value (or its initial value), floats converted to the gradients' dtype; a static argument, a flag or an object has no entry (KeyError). *)
Lemma inject_reads : forall `{O : Ops} (Obj : Type) (f : factory Obj) (static : list string) (args : list (string * arg)) (p : tree tensor) (h : list hop) (u : tree tensor) (q : option (tree tensor))
    (T : GT) (dtype : option fdt) (s0 s1 : state) (outs : list (tree tensor)),
  NoDup (map fst args) -> inject_hyperparams f static args = Ok T -> leaf_dtype p = dtype -> Forall (ufirst dtype) (h ++ [Upd u q]) ->
  init T p = Ok s0 -> exec T static args (h ++ [Upd u q]) s0 = Ok (outs, s1) ->
  forall k,
    (forall sch, mem k static = false -> In (k, ASched sch) args -> get_hyperparam static args k s1 = Ok (in_dtype dtype (sch (Z.min (Z.of_nat (S (n_updates h))) (2 ^ 31 - 1))))) /\
    (forall v, mem k static = false -> In (k, ANum v) args -> get_hyperparam static args k s1 = Ok (in_dtype dtype (last_written k v h))) /\
    (mem k static = true \/ (forall sch, ~ In (k, ASched sch) args) /\ (forall v, ~ In (k, ANum v) args) -> get_hyperparam static args k s1 = Err EKey).
Proof.
  intros O Obj f static args p h u q T dtype s0 s1 outs Hn HT Hp Hu E0 E1 k. rewrite <- leaf_dtype_eq in Hp. unfold inject_hyperparams in HT. destruct (forallb _ _); [|discriminate]. injection HT as <-. cbn [init] in E0.
  rewrite (inject_init_eq f static args Hn dtype p Hp) in E0. destruct (f (map _ args)) as [g0|e]; cbn [rbind] in E0; [|discriminate]. destruct (init g0 p) as [si|e]; cbn [rbind] in E0; [|discriminate]. injection E0 as <-.
  apply Forall_app in Hu as (Hu & Hd). inversion Hd as [|? ? Hd' _]; subst. cbn in Hd'. rewrite <- leaf_dtype_eq in Hd'.
  pose proof (inject_sim f static args Hn (first_dtype p) h [] _ si (stored_init static args Hn (first_dtype p)) Hu) as H.
  set (T := mkGT (inject_init f static args) (inject_update f static args)) in *.
  assert (Ha : forall h s, exec T static args (h ++ [Upd u q]) s = let* (o1, s') := exec T static args h s in let* (o2, s'') := update T u s' q in Ok (o1 ++ [o2], s'')).
  { induction h0 as [|[u' q'|k' v'] h0 IH]; intros s; cbn [app exec].
    - cbn [rbind]. destruct (update T u s q) as [[? ?]|]; reflexivity.
    - destruct (update T u' s q') as [[o s']|]; cbn [rbind]; [|reflexivity]. rewrite IH. destruct (exec T static args h0 s') as [[o1 s2]|]; cbn [rbind]; [|reflexivity]. destruct (update T u s2 q) as [[? ?]|]; reflexivity.
    - destruct (set_hyperparam _ _ _ _ _) as [s'|]; cbn [rbind]; [|reflexivity]. apply IH. }
  rewrite Ha in E1. destruct (exec T static args h _) as [[o1 s']|e]; [|discriminate]. cbn [rbind] in E1.
  destruct (ref_run _ _ _ _ _ _ _) as [[os sf]|e]; [|easy]. cbn [app] in H. destruct H as (-> & hps & Hst & ->).
  cbn [update T] in E1. rewrite (upd_st f static args Hn (first_dtype p) h hps sf u q Hst Hd') in E1.
  destruct (step_hps static args Hn (first_dtype p) h hps Hst) as (Hgs & Hgn & Hk). unfold next_hps in E1. set (hps' := dupdate _ _) in *.
  destruct (f _) as [g|]; cbn [rbind] in E1; [|discriminate]. destruct (update g u sf q) as [[u' si']|]; cbn [rbind] in E1; [|discriminate]. injection E1 as <- <-.
  assert (Hget : get_hyperparam static args k (st (h ++ [Upd u q]) hps' si') = match dget hps' k with Some x => Ok x | None => Err EKey end).
  { unfold get_hyperparam, st. rewrite <- Hk. assert (Ec : combine (map fst hps') (map (fun kv => enc (snd kv)) hps') = map (fun kv => (fst kv, enc (snd kv))) hps').
    { clear. induction hps' as [|[k0 v0] l IHl]; [reflexivity|]. cbn. now rewrite IHl. }
    rewrite Ec, dget_map. destruct (dget hps' k); [apply dec_enc|reflexivity]. }
  rewrite Hget. split; [|split].
  - intros sch Em Hi. rewrite (Hgs k sch Em Hi). now rewrite <- in_dtype_eq.
  - intros v Em Hi. rewrite (Hgn k v Em Hi). now rewrite <- in_dtype_eq.
  - intros Hno. rewrite dget_none; [reflexivity|]. rewrite Hk. unfold hp_keys, numeric_hps, sched_hps. intros Hin. apply in_app_or in Hin as [Hin|Hin]; apply in_map_iff in Hin as ([k' x] & E & Hin); cbn [fst] in E; subst k'; apply in_flat_map in Hin as ([k' a] & Ha' & Hin); cbn [fst snd] in Hin;
      destruct (mem k' static) eqn:Em; try (now destruct Hin); destruct a as [v|sch|b|o]; cbn [In] in Hin; try (now destruct Hin); destruct Hin as [Hin|[]]; injection Hin as -> ->; (destruct Hno as [Hno|(H1 & H2)]; [rewrite Hno in Em; discriminate Em|]); [exact (H2 _ Ha')|exact (H1 _ Ha')].
Qed.

(*@ C46_static_check : a static name that is not a parameter of the factory raises ValueError. *)
Lemma inject_static : forall `{O : Ops} (Obj : Type) (f : factory Obj) (static : list string) (args : list (string * arg)) (k : string),
  In k static -> ~ In k (map fst args) -> inject_hyperparams f static args = Err EValue.
Proof.
  intros O Obj f static args k Hi Hn. unfold inject_hyperparams. destruct (forallb _ _) eqn:E; [|reflexivity]. exfalso. rewrite forallb_forall in E. apply Hn, mem_In, E, Hi.
Qed.

(*@ex C46_example *)
Lemma inject_example : forall `{P : Platform},
  let f := fun l : list (arg (Obj := unit)) => match l with [ANum (ArrF d x); ANum (ArrF _ _); ABool true] => Ok (scale x) | _ => Err EType end in
  let args := [("lr"%string, ASched (fun n => PyF (Fin (IZR n)))); ("m"%string, ANum (PyF (Fin 0))); ("flag"%string, ABool true)] in
  exists T, inject_hyperparams f [] args = Ok T /\
    rmap fst (let* s := init T (one (Fin 1)) in exec T [] args [Upd (one (Fin 5)) None; Write "lr"%string (PyF (Fin 7)); Upd (one (Fin 5)) None] s)
    = Ok [one (Fin 5); one (Fin 10)].
Proof.
  intros P f args. eexists. split; [reflexivity|].
  match goal with |- rmap fst ?x = _ => assert (E : rmap (fun r : list (tree tensor) * state => (fst r, inner_of (snd r))) x = Ok ([one (Fin 5); one (Fin 10)], SNode NEmpty [])) end.
  { etransitivity; [apply (@inject_spec (XROps P) unit f [] args (one (Fin 1)) _ _ (Some F32))|].
    - repeat constructor; cbn; intuition discriminate.
    - reflexivity.
    - reflexivity.
    - repeat constructor.
    - unfold one. cbn -[Rmult IZR Z.min]. change (Z.min 1 2147483647) with 1%Z. change (Z.min 2 2147483647) with 2%Z. unfold sl, emap. cbn -[Rmult IZR].
      replace (1 * 5)%R with 5%R by lra. replace (2 * 5)%R with 10%R by lra. reflexivity. }
  destruct (let* s := _ in _) as [[o s]|e]; [|discriminate]. cbn in *. congruence.
Qed.
