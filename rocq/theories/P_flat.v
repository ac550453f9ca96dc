(** flatten. *)
From Verif Require Export P_mask.
From Coq Require Import String List Psatz.
Import ListNotations.
Open Scope list_scope.
Open Scope nat_scope.
(*@header
From Coq Require Import List.
Import ListNotations.
Open Scope list_scope.
Open Scope nat_scope.
*)

(** A non-empty tree of arrays all of dtype [d]. *)
Definition uniform {A} (d : fdt) (t : tree (gt A)) : Prop := leaves t <> [] /\ Forall (fun x => dt x = d) (leaves t).
(** The vector of all elements, leaf after leaf. *)
Definition as_vector {A} (d : fdt) (t : tree (gt A)) : gt A := let l := flat_map dat (leaves t) in mkT d [length l] l.

Section Facts.
  Lemma as_vector_emapt {A B} d (f : fdt -> A -> B) (t : tree (gt A)) : uniform d t -> as_vector d (emapt f t) = emap f (as_vector d t).
  Proof.
    intros (_ & Hd).
    assert (E : flat_map dat (leaves (emapt f t)) = map (f d) (flat_map dat (leaves t))).
    { unfold emapt. rewrite leaves_tmap. induction Hd as [|x l Hx Hd IH]; [reflexivity|]. cbn [map flat_map]. rewrite IH, map_app. unfold emap at 1. cbn [dat]. now rewrite Hx. }
    unfold as_vector. rewrite E. unfold emap. cbn [dat dt shp]. rewrite map_length. reflexivity.
  Qed.
  Lemma uniform_avals {A B} d (t : tree (gt A)) (r : tree (gt B)) : avals t = avals r -> uniform d t -> uniform d r.
  Proof.
    intros E (H1 & H2). assert (El : map aval (leaves t) = map aval (leaves r)) by (rewrite <- !leaves_tmap; unfold avals in E; congruence). split.
    - intros Hn. rewrite Hn in El. destruct (leaves t); [easy|discriminate].
    - clear - El H2. revert El. generalize (leaves r). induction H2 as [|x l Hx Hl IH]; intros [|y r0] El; try discriminate; [constructor|]. cbn in El. injection El as E1 E2 E3. constructor; [|now apply IH]. unfold aval in *. congruence.
  Qed.
  Context `{O : Ops}.
  Lemma promote_same d : promote d d = d. Proof. now destruct d. Qed.
  Lemma flat_cat_uniform d (t : tree tensor) : uniform d t -> flat_cat t = Ok (as_vector d t).
  Proof.
    intros (Hn & Hd). unfold flat_cat, as_vector. destruct (leaves t) as [|x r]; [easy|].
    inversion Hd as [|? ? Hx Hr]; subst.
    assert (E : fold_left (fun d y => promote d (dt y)) r (dt x) = dt x).
    { clear - Hr. induction Hr as [|y l Hy Hr IH]; [reflexivity|]. cbn. now rewrite Hy, promote_same. }
    rewrite E. assert (E2 : flat_map (fun y => map (conv (dt y) (dt x)) (dat y)) (x :: r) = flat_map dat (x :: r)); [|now rewrite E2].
    rewrite !flat_map_concat_map. f_equal. apply map_ext_in. intros y Hy. rewrite Forall_forall in Hd. rewrite (Hd y Hy). rewrite <- (map_id (dat y)) at 2. apply map_ext. intros a. apply conv_same.
  Qed.
  Lemma split_reshape_spec d (ls : list tensor) : ls <> [] -> Forall twf ls -> forall (new : list tensor), map aval new = map (fun x => (d, shp x)) ls -> Forall twf new ->
    split_reshape d (flat_map dat new) ls = Ok new.
  Proof.
    intros Hne Hw. induction ls as [|x ls IH]; [easy|]. intros [|y new] E Hn; [discriminate|]. cbn [map] in E. injection E as E1 E2 E3. inversion Hn as [|? ? Hy Hn']; subst. inversion Hw as [|? ? Hx Hw']; subst.
    assert (Ly : length (dat y) = prodn (shp x)) by (rewrite <- E2; exact Hy). assert (Ey : mkT (dt y) (shp x) (dat y) = y) by (rewrite <- E2; now destruct y).
    destruct ls as [|x' ls].
    - destruct new; [|discriminate]. cbn. rewrite app_nil_r, Ly, Nat.eqb_refl. now rewrite Ey.
    - cbn [split_reshape flat_map]. cbn [split_reshape] in IH. assert (Ef : firstn (prodn (shp x)) (dat y ++ flat_map dat new) = dat y) by (rewrite <- Ly, firstn_app, Nat.sub_diag, firstn_all; cbn; apply app_nil_r).
      rewrite Ef, Ly, Nat.eqb_refl. assert (Es : skipn (prodn (shp x)) (dat y ++ flat_map dat new) = flat_map dat new) by (rewrite <- Ly, skipn_app, Nat.sub_diag, skipn_all; reflexivity). rewrite Es.
      rewrite (IH ltac:(discriminate) Hw' new E3 Hn'). cbn [rbind]. now rewrite Ey.
  Qed.
  Lemma flat_uncat_as d (u r : tree tensor) : uniform d u -> like u r -> trwf u -> flat_uncat u (Leaf (as_vector d r)) = Ok r.
  Proof.
    intros Hu (Ha & Hw) Hwu. unfold flat_uncat, as_vector. cbn [shp dt dat].
    assert (El : map aval (leaves r) = map aval (leaves u)) by (rewrite <- !leaves_tmap; unfold avals in Ha; congruence).
    rewrite (split_reshape_spec d (leaves u)) with (new := leaves r).
    - cbn [rbind]. apply tunflatten_leaves. now apply tdef_avals.
    - apply Hu.
    - exact Hwu.
    - rewrite El. apply map_ext_in. intros x Hx. destruct Hu as (_ & Hu). rewrite Forall_forall in Hu. unfold aval. now rewrite (Hu x Hx).
    - exact Hw.
  Qed.
  Lemma as_vector_wf {A} d (t : tree (gt A)) : trwf (Leaf (as_vector d t)).
  Proof. unfold trwf. cbn. constructor; [|constructor]. unfold twf, as_vector. cbn. lia. Qed.

  (** The flattened run is in lock step with the inner run. *)
  Lemma flatten_sim np inner M d p0 : refines np inner M -> uniform d p0 -> trwf p0 -> forall H, hist_ok np p0 H -> Forall (full_params p0) H ->
    exists s0 f0 outs s1 f1, init inner p0 = Ok s0 /\ init (flatten inner) p0 = Ok f0 /\ run inner s0 H = Ok (outs, s1) /\ run (flatten inner) f0 H = Ok (outs, f1).
  Proof.
    intros (repr & sg & Hi & Hsg & Hnp & Hu) Hun Hw H Hh Hf.
    enough (Hg : forall n Z, avals Z = avals p0 -> trwf Z -> exists outs s1 f1, run inner (repr n Z) H = Ok (outs, s1) /\ run (flatten inner) (repr n (Leaf (as_vector d Z))) H = Ok (outs, f1)).
    { destruct (Hg 0 (emapt (m_init M) p0)) as (outs & s1 & f1 & E1 & E2); [apply emapt_avals|now apply emapt_wf|].
      exists (repr 0 (emapt (m_init M) p0)), (repr 0 (Leaf (as_vector d (emapt (m_init M) p0)))), outs, s1, f1. split; [now apply Hi|]. split; [|split; [exact E1|exact E2]].
      cbn [flatten init]. rewrite (flat_cat_uniform d) by exact Hun. cbn [rbind]. rewrite Hi by apply as_vector_wf. rewrite as_vector_emapt by exact Hun. reflexivity. }
    induction H as [|[u par] H IH]; intros n Z Ha Hz; [eexists _, _, _; split; reflexivity|].
    inversion Hh as [|? ? ((Hua & Huw) & Hpar) Hh']; subst. inversion Hf as [|? ? Hfp Hf']; subst. cbn [fst snd] in *. specialize (IH Hh' Hf').
    assert (Hq : exists q, like p0 q /\ (np = false -> par = Some q) /\ (par <> None -> True)).
    { destruct np; [exists p0; repeat split; auto; discriminate|]. destruct (Hpar eq_refl) as (q & -> & Hq). exists q. split; auto. }
    destruct Hq as (q & (Hqa & Hqw) & Hpq & _).
    destruct (tree_gzip u q) as (W1 & HW1a & HW1w & HW1u & HW1q); [congruence|assumption|assumption|].
    destruct (tree_gzip W1 Z) as (W & HWa & HWw & HW1 & HWz); [congruence|assumption|assumption|].
    assert (Eu : emapt (fun _ z => fst (fst z)) W = u) by (rewrite <- HW1u, <- HW1, emapt_emapt; reflexivity).
    assert (Eq : emapt (fun _ z => snd (fst z)) W = q) by (rewrite <- HW1q, <- HW1, emapt_emapt; reflexivity).
    assert (Ez : emapt (fun _ z => snd z) W = Z) by exact HWz.
    assert (HWp : avals W = avals p0) by congruence.
    assert (HunW : uniform d W) by (eapply uniform_avals; [symmetry; exact HWp|exact Hun]).
    rewrite !run_cons. pose proof (Hu n W par HWw) as H1. rewrite Eu, Eq, Ez in H1. rewrite (H1 Hpq). cbn [rbind].
    set (o := emapt (fun d z => fst (m_step M n d (fst (fst z)) (snd (fst z)) (snd z))) W) in *. set (Z' := emapt (fun d z => snd (m_step M n d (fst (fst z)) (snd (fst z)) (snd z))) W) in *.
    assert (Ef : update (flatten inner) u (repr n (Leaf (as_vector d Z))) par = Ok (o, repr (S n) (Leaf (as_vector d Z')))).
    { cbn [flatten update].
      assert (Hpp : exists fp, (match par with Some q0 => rmap (fun v => Some (Leaf v)) (flat_cat q0) | None => Ok None end) = Ok fp /\ (np = false -> fp = Some (Leaf (as_vector d q)))).
      { destruct Hfp as [E|(q' & E & Hq')]; cbn [snd] in E; subst par.
        - exists None. split; [reflexivity|]. intros E. specialize (Hpq E). discriminate.
        - rewrite (flat_cat_uniform d); [|eapply uniform_avals; [symmetry; apply Hq'|exact Hun]]. eexists. split; [reflexivity|]. intros E. specialize (Hpq E). congruence. }
      destruct Hpp as (fp & -> & Hfp2). cbn [rbind]. rewrite (flat_cat_uniform d); [|eapply uniform_avals; [symmetry; exact Hua|exact Hun]]. cbn [rbind].
      pose proof (Hu n (Leaf (as_vector d W)) fp (as_vector_wf d W)) as H2. unfold emapt in H2. cbn [tmap] in H2. rewrite <- !as_vector_emapt in H2 by exact HunW. rewrite Eu, Eq, Ez in H2.
      rewrite (H2 Hfp2). cbn [rbind]. fold o Z'. rewrite flat_uncat_as; [reflexivity|eapply uniform_avals; [symmetry; exact Hua|exact Hun]| |exact Huw].
      split; [unfold o; rewrite emapt_avals; congruence|]. now apply emapt_wf. }
    rewrite Ef. cbn [rbind]. destruct (IH (S n) Z') as (outs & s1 & f1 & E1 & E2); [unfold Z'; rewrite emapt_avals; exact HWp|now apply emapt_wf|]. rewrite E1, E2. eexists _, _, _. split; reflexivity.
  Qed.
End Facts.

(*@ C29_roundtrip : for a non-empty tree of well-formed arrays of one dtype, flatten hands the inner transformation the vector of all elements, leaf after leaf in row-major order, and re-assembling any vector made that way from a tree with the same structure, shapes and dtypes gives back exactly that tree. *)
Lemma flatten_roundtrip : forall `{O : Ops} (d : fdt) (u r : tree tensor), trwf u -> uniform d u -> like u r ->
  flat_cat r = Ok (as_vector d r) /\ flat_uncat u (Leaf (as_vector d r)) = Ok r.
Proof.
  intros O d u r Hw Hu Hr. split; [apply flat_cat_uniform; eapply uniform_avals; [symmetry; apply Hr|exact Hu]|now apply flat_uncat_as].
Qed.
(*@ C29_transparent : for every transformation that works element by element (refined by a scalar machine), every non-empty params tree of one dtype and every history like it (params None or like it), flatten around it succeeds and emits exactly the same updates. *)
Lemma flatten_transparent : forall `{O : Ops} (np : bool) (inner : GT) (M : machine) (d : fdt) (p0 : tree tensor) (H : list (tree tensor * option (tree tensor))),
  refines np inner M -> trwf p0 -> uniform d p0 -> hist_ok np p0 H -> Forall (full_params p0) H ->
  exists outs, trains inner p0 H outs /\ trains (flatten inner) p0 H outs.
Proof.
  intros O np inner M d p0 H HR Hw Hu Hh Hf. destruct (flatten_sim np inner M d p0 HR Hu Hw H Hh Hf) as (s0 & f0 & outs & s1 & f1 & E1 & E2 & E3 & E4).
  exists outs. split; [exists s0, s1|exists f0, f1]; auto.
Qed.
(*@ C29_leafless : a tree without leaves makes init, and update on it, raise ValueError. *)
Lemma flatten_leafless : forall `{O : Ops} (inner : GT) (u : tree tensor) (s : state), leaves u = [] -> init (flatten inner) u = Err EValue /\ update (flatten inner) u s None = Err EValue.
Proof. intros O inner u s E. cbn [flatten init update rbind]. unfold flat_cat. rewrite E. auto. Qed.
(*@ C29_mixed : when the dtypes of the leaves differ, all leaves of the emitted tree have one dtype - that of the vector the inner transformation returned; flatten(identity()) returns every leaf in the promotion of all the dtypes (so float16 and bfloat16 leaves come back as float32 next to a float32 one). *)
Lemma flatten_mixed : forall `{O : Ops} (inner : GT) (u r : tree tensor) (s s' : state) (p : option (tree tensor)),
  update (flatten inner) u s p = Ok (r, s') ->
  (exists d, Forall (fun x => dt x = d) (leaves r)) /\
  (inner = identity -> forall x l, leaves u = x :: l -> Forall (fun y => dt y = fold_left promote (map dt l) (dt x)) (leaves r)).
Proof.
  intros O inner u r s s' p E. cbn [flatten update] in E. apply rbind_Ok in E as (fp & _ & E). apply rbind_Ok in E as (v & Ev & E). apply rbind_Ok in E as ([o si'] & Eo & E). apply rbind_Ok in E as (t & Et & E). injection E as <- <-.
  unfold flat_uncat in Et. destruct o as [w|]; [|discriminate]. destruct (shp w) as [|? [|? ?]]; try discriminate. apply rbind_Ok in Et as (ls & Els & Et).
  assert (Hs : forall ls0 d l ls, split_reshape d l ls0 = Ok ls -> Forall (fun x => dt x = d) ls).
  { clear. induction ls0 as [|x ls0 IH]; intros d l ls E; [injection E as <-; constructor|]. cbn [split_reshape] in E. destruct ls0 as [|x' ls0].
    - destruct (_ =? _); [|discriminate]. injection E as <-. repeat constructor.
    - destruct (_ =? _); [|discriminate]. apply rbind_Ok in E as (q & Eq & E). injection E as <-. constructor; [reflexivity|]. eapply IH; eauto. }
  apply Hs in Els. assert (El : leaves t = ls).
  { unfold tunflatten in Et. destruct (tfill u ls) as [[t' [|? ?]]|] eqn:Ef; try discriminate. injection Et as ->.
    assert (Hg : forall (u : tree tensor) (l r : list tensor) t, tfill u l = Some (t, r) -> l = leaves t ++ r).
    { clear. induction u as [a|k ts IH] using tree_ind'; intros l r t E; cbn in E.
      - destruct l; [discriminate|]. injection E as <- <-. reflexivity.
      - match type of E with match ?X with _ => _ end = _ => destruct X as [[xs l']|] eqn:Ex end; [|discriminate]. injection E as <- <-. cbn [leaves].
        revert l xs Ex. induction ts as [|t ts IHt]; intros l xs Ex; [injection Ex as <- <-; reflexivity|]. inversion IH as [|? ? Ht Hts]; subst.
        destruct (tfill t l) as [[x l1]|] eqn:E1; [|discriminate]. match type of Ex with match ?X with _ => _ end = _ => destruct X as [[ys l2]|] eqn:E2 end; [|discriminate]. injection Ex as <- <-.
        apply Ht in E1. apply (IHt Hts) in E2. rewrite E1, E2. cbn. now rewrite app_assoc. }
    apply Hg in Ef. rewrite app_nil_r in Ef. auto. }
  split; [exists (dt w); now rewrite El|]. intros -> x l Eu. cbn in Eo. injection Eo as <- <-. unfold flat_cat in Ev. rewrite Eu in Ev. injection Ev as <-. cbn [dt] in Els. rewrite El.
  assert (Ep : forall l0 d0, fold_left (fun d y => promote d (@dt F y)) l0 d0 = fold_left promote (map dt l0) d0) by (induction l0; intros; cbn; auto). now rewrite <- Ep.
Qed.
(*@ex C29_example *)
Lemma flatten_example : forall `{P : Platform}, trwf ex_p /\ uniform F32 ex_p /\ hist_ok true ex_p ex_H /\ Forall (full_params ex_p) ex_H /\
  (exists M, refines true (chain_gt [clip (Fin 1); scale_by_adam (Fin (9/10)) (Fin (999/1000)) (Fin (1/100)) (Fin 0); scale (Fin (-1))]) M) /\
  exists r s, update (flatten identity) (Node KTuple [Leaf (mkT F16 [1] [Fin 1]); Leaf (mkT BF16 [2] [Fin 2; Fin 3])]) EmptyState None = Ok (r, s) /\ r = Node KTuple [Leaf (mkT F32 [1] [Fin 1]); Leaf (mkT F32 [2] [Fin 2; Fin 3])].
Proof.
  intros P. split; [apply ex_p_wf|]. split; [split; [discriminate|repeat constructor]|]. split; [apply ex_H_ok|]. split; [apply Forall_forall; intros h Hh; right; exists ex_p; cbn in Hh; decompose [or] Hh; subst; try easy; repeat constructor|].
  split.
  - eexists. eapply (@refines_chain (XROps P)). repeat constructor; [apply (@refines_clip (XROps P))|apply (@refines_adam (XROps P))|apply (@refines_scale (XROps P))].
  - eexists _, _. split; reflexivity.
Qed.
