(** Norms and the transformations built on them. *)
From Verif Require Export P_elem Bcast Norms.
From Coq Require Import Psatz Qreals Permutation.
Open Scope R_scope.
(*@header
From Coq Require Import Permutation.
Open Scope R_scope.
*)

Ltac nx := match goal with P : Platform |- _ => change (@F (XROps P)) with XR in * end.
(** All elements of all leaves, in flattening order. *)
Definition vals {A} (u : tree (gt A)) : list A := concat (map dat (leaves u)).
(** A tree of finite values. *)
Definition finite_tree (u : tree (gt XR)) : Prop := Forall isfin (vals u).
Definition rvals (u : tree (gt XR)) : list R := map xval (vals u).
Lemma isfin_map (l : list XR) : Forall isfin l -> l = map Fin (map xval l).
Proof.
  induction 1 as [|x l Hx Hl IH]; cbn; [reflexivity|]. apply isfin_val in Hx. rewrite <- Hx. now f_equal.
Qed.
Lemma finite_leaves u : finite_tree u -> Forall (fun t => Forall isfin (dat t)) (leaves u).
Proof.
  unfold finite_tree, vals. induction (leaves u) as [|t l IH]; cbn; intros H; [constructor|].
  apply Forall_app in H as [H1 H2]. constructor; auto.
Qed.
Lemma finite_elt u pos x : finite_tree u -> elt u pos = Some x -> exists r, x = Fin r.
Proof.
  intros H. apply finite_leaves in H. unfold elt. destruct (nth_error (leaves u) (fst pos)) as [t|] eqn:E; [|discriminate].
  rewrite Forall_forall in H. apply nth_error_In in E. specialize (H _ E). rewrite Forall_forall in H.
  intros Hx. apply nth_error_In in Hx. destruct (H _ Hx) as (r & ->). now exists r.
Qed.

Section XNorm.
  Context `{P : Platform}.
  Notation xr := (XROps P).
  Lemma tsum_square (t : gt XR) : Forall isfin (dat t) -> @tsum xr (@tsquare xr t) = Fin (sumsq (map xval (dat t))).
  Proof.
    intros H. unfold tsum, tsquare, un, emap. cbn [dat fsum XROps fmul dt]. unfold sumsq, rsum.
    rewrite <- xsum_fin, !map_map. f_equal. rewrite Forall_forall in H. apply map_ext_in.
    intros x Hx. destruct (H x Hx) as (r & ->). reflexivity.
  Qed.
  Lemma pysum_fin (l : list (fdt * XR)) (rs : list R) : map snd l = map Fin rs ->
    snd (@pysum xr l) = Fin (rsum rs).
  Proof.
    assert (G : forall l rs a, map snd l = map Fin rs -> forall d,
      snd (fold_left (@add_scalars xr) l (d, Fin a)) = Fin (a + rsum rs)).
    { clear. induction l as [|[d x] l IH]; intros [|r rs] a; cbn [map]; try discriminate.
      - intros _ d. cbn. now rewrite rsum_nil, Rplus_0_r.
      - intros [= -> E] d'. cbn [fold_left]. unfold add_scalars at 2. cbn [fst snd].
        change (@conv xr) with (@conv (XROps P)). rewrite !xconv. cbn [fadd XROps]. rewrite xadd_fin.
        rewrite (IH rs _ E). rewrite rsum_cons. f_equal. lra. }
    intros E. destruct l as [|[d x] l], rs as [|r rs]; try discriminate; cbn [pysum].
    - cbn [snd fcast XROps]. rewrite f0. reflexivity.
    - cbn [map] in E. injection E as -> E. cbn [fcast fadd XROps]. rewrite f0, xadd_fin.
      rewrite (G l rs _ E). rewrite rsum_cons. f_equal. lra.
  Qed.
  Lemma global_norm_val (u : tree (gt XR)) : finite_tree u -> snd (@global_norm xr u) = Fin (norm2 (rvals u)).
  Proof.
    intros H. unfold global_norm.
    match goal with |- context [pysum ?x] => set (l := x) end. assert (E : map snd l = map Fin (map (fun t : gt XR => sumsq (map xval (dat t))) (leaves u))).
    { unfold l. rewrite !map_map. cbn [snd]. apply finite_leaves in H. rewrite Forall_forall in H.
      apply map_ext_in. intros t Ht. apply tsum_square. now apply H. }
    pose proof (pysum_fin l _ E) as Es. destruct (@pysum xr l) as [d s]. cbn [snd] in *. rewrite Es.
    cbn [fsqrt XROps].
    assert (Eq : rsum (map (fun t : gt XR => sumsq (map xval (dat t))) (leaves u)) = sumsq (rvals u)).
    { unfold rvals, vals. rewrite concat_map, sumsq_concat, !map_map. reflexivity. }
    rewrite Eq, xsqrt_fin by apply sumsq_nonneg. reflexivity.
  Qed.
End XNorm.

(** ** C52 *)
(*@ C52_global_norm_value : global_norm is the Euclidean norm of all elements of all leaves, whatever the nesting, shapes and dtypes. *)
Lemma global_norm_is : forall `{P : Platform} (u : tree tensor), finite_tree u ->
  snd (global_norm u) = Fin (sqrt (rsum (map (fun x => x * x) (rvals u)))).
Proof. intros P u H. exact (global_norm_val u H). Qed.
(*@ C52_zero_iff : It is 0 exactly when every element is 0. *)
Lemma global_norm_zero : forall `{P : Platform} (u : tree tensor), finite_tree u ->
  (snd (global_norm u) = Fin 0 <-> forall pos x, elt u pos = Some x -> x = Fin 0).
Proof.
  intros P u H. rewrite global_norm_val by assumption. split.
  - intros [= E] pos x Hx. apply norm2_0 in E. destruct (finite_elt _ _ _ H Hx) as (r & ->). f_equal.
    rewrite Forall_forall in E. apply E. unfold rvals, vals. apply in_map_iff. exists (Fin r). split; [reflexivity|].
    apply in_concat. unfold elt in Hx. destruct (nth_error (leaves u) (fst pos)) as [t|] eqn:Et; [|discriminate].
    exists (dat t). split; [apply in_map; now apply nth_error_In in Et|now apply nth_error_In in Hx].
  - intros Hz. f_equal. apply norm2_0. apply Forall_forall. intros r Hr. unfold rvals, vals in Hr.
    apply in_map_iff in Hr as (x & <- & Hx). apply in_concat in Hx as (l & Hl & Hx). apply in_map_iff in Hl as (t & <- & Ht).
    apply In_nth_error in Ht as (i & Ei). apply In_nth_error in Hx as (j & Ej).
    rewrite (Hz (i, j) x); [reflexivity|]. unfold elt. cbn. now rewrite Ei.
Qed.
Lemma combine_appl {A B} (a b : list A) (c d : list B) : length a = length c -> combine (a ++ b) (c ++ d) = combine a c ++ combine b d.
Proof. revert c; induction a as [|x a IH]; intros [|y c] E; cbn in *; try discriminate; [reflexivity|]. now rewrite IH by lia. Qed.
Lemma nth_error_combine {A B} (a : list A) (b : list B) j : nth_error (combine a b) j = match nth_error a j, nth_error b j with Some x, Some y => Some (x, y) | _, _ => None end.
Proof.
  revert b j; induction a as [|x a IH]; intros [|y b] [|j]; cbn; auto; destruct (nth_error a j); auto.
Qed.
(** a tree whose elements are all known has all its elements finite *)
Lemma rvals_of_elts `{P : Platform} (u w : tree tensor) (f : R -> R) : tmap (fun t => length (dat t)) w = tmap (fun t => length (dat t)) u -> finite_tree u ->
  (forall pos x, elt u pos = Some (Fin x) -> elt w pos = Some (Fin (f x))) -> finite_tree w /\ rvals w = map f (rvals u).
Proof.
  intros EL Hu He.
  assert (HL : map (fun t => length (dat t)) (leaves w) = map (fun t => length (dat t)) (leaves u)) by (rewrite <- !leaves_tmap; now rewrite EL).
  assert (Hd : vals w = map (fun x => Fin (f (xval x))) (vals u)).
  { unfold vals. rewrite concat_map, map_map. f_equal. apply finite_leaves in Hu.
    assert (He' : forall i j x, match nth_error (leaves u) i with Some t => nth_error (dat t) j | None => None end = Some (Fin x) -> match nth_error (leaves w) i with Some t => nth_error (dat t) j | None => None end = Some (Fin (f x))) by (intros i j x; exact (He (i, j) x)).
    clear He EL. nx. revert HL Hu He'. generalize (leaves u) as U, (leaves w) as W. induction U as [|a U IH]; intros [|c W] HL HU He; cbn in HL; try discriminate; [reflexivity|].
    injection HL as H1 H2. inversion HU as [|? ? Fa FU]; subst. cbn [map]. f_equal.
    - apply nth_error_ext. intros j. rewrite nth_error_map. destruct (nth_error (dat a) j) as [x|] eqn:Ex; cbn.
      + rewrite Forall_forall in Fa. destruct (Fa x (nth_error_In _ _ Ex)) as (r & ->). exact (He 0%nat j r Ex).
      + apply nth_error_None in Ex. apply nth_error_None. nx. lia.
    - apply IH; auto. intros i j x. exact (He (S i) j x). }
  split.
  - unfold finite_tree. nx. rewrite Hd. apply Forall_map, Forall_forall. intros r _. eexists; reflexivity.
  - unfold rvals. nx. rewrite Hd, !map_map. reflexivity.
Qed.
(*@ C52_homogeneous : A tree of the same leaf sizes every element of which is c times the corresponding element has |c| times the norm. *)
Lemma global_norm_scale : forall `{P : Platform} (u w : tree tensor) (c : R), finite_tree u -> tmap (fun t => length (dat t)) w = tmap (fun t => length (dat t)) u ->
  (forall pos x, elt u pos = Some (Fin x) -> elt w pos = Some (Fin (c * x))) ->
  exists n, snd (global_norm u) = Fin n /\ snd (global_norm w) = Fin (Rabs c * n).
Proof.
  intros P u w c H EL He. exists (norm2 (rvals u)). split; [now apply global_norm_val|].
  destruct (rvals_of_elts u w (Rmult c) EL H He) as (Fw & Ew). rewrite global_norm_val by assumption. rewrite Ew, norm2_scal. reflexivity.
Qed.
(*@ C52_triangle : For three trees of the same leaf sizes, the third of which is the element-wise sum of the others, the norm of the sum is at most the sum of the norms. *)
Lemma global_norm_triangle : forall `{P : Platform} (u v w : tree tensor), finite_tree u -> finite_tree v ->
  tmap (fun t => length (dat t)) v = tmap (fun t => length (dat t)) u -> tmap (fun t => length (dat t)) w = tmap (fun t => length (dat t)) u ->
  (forall pos x y, elt u pos = Some (Fin x) -> elt v pos = Some (Fin y) -> elt w pos = Some (Fin (x + y))) ->
  exists a b c, snd (global_norm u) = Fin a /\ snd (global_norm v) = Fin b /\ snd (global_norm w) = Fin c /\ c <= a + b.
Proof.
  intros P u v w Fu Fv Ev Ew He. exists (norm2 (rvals u)), (norm2 (rvals v)), (norm2 (vadd (rvals u) (rvals v))).
  assert (HV : map (fun t => length (dat t)) (leaves v) = map (fun t => length (dat t)) (leaves u)) by (rewrite <- !leaves_tmap; now rewrite Ev).
  assert (HW : map (fun t => length (dat t)) (leaves w) = map (fun t => length (dat t)) (leaves u)) by (rewrite <- !leaves_tmap; now rewrite Ew).
  assert (Hs : vals w = map Fin (vadd (rvals u) (rvals v)) /\ length (rvals u) = length (rvals v)).
  { unfold rvals, vals. apply finite_leaves in Fu. apply finite_leaves in Fv.
    assert (He' : forall i j x y, match nth_error (leaves u) i with Some t => nth_error (dat t) j | None => None end = Some (Fin x) -> match nth_error (leaves v) i with Some t => nth_error (dat t) j | None => None end = Some (Fin y) ->
      match nth_error (leaves w) i with Some t => nth_error (dat t) j | None => None end = Some (Fin (x + y))) by (intros i j x y; exact (He (i, j) x y)).
    clear He Ev Ew. nx. revert HV HW Fu Fv He'. generalize (leaves u) as A, (leaves v) as B, (leaves w) as C.
    induction A as [|a A IH]; intros [|b B] [|c C] HV HW FA FB He; cbn in HV, HW; try discriminate; [split; reflexivity|].
    injection HV as V1 V2. injection HW as W1 W2. inversion FA as [|? ? Fa FA']; subst. inversion FB as [|? ? Fb FB']; subst.
    destruct (IH B C V2 W2 FA' FB') as (E & L); [intros i j x y; exact (He (S i) j x y)|]. cbn [map concat].
    rewrite !map_app. split; [|rewrite !app_length; nx; rewrite L, !map_length; lia].
    unfold vadd in *. rewrite combine_appl by (rewrite !map_length; nx; lia). rewrite !map_app. nx. rewrite <- E. f_equal.
    apply nth_error_ext. intros j. rewrite !nth_error_map, nth_error_combine, !nth_error_map.
    destruct (nth_error (dat a) j) as [x|] eqn:Ex; cbn [option_map].
    - destruct (nth_error (dat b) j) as [y|] eqn:Ey; cbn [option_map].
      + rewrite Forall_forall in Fa, Fb. destruct (Fa x (nth_error_In _ _ Ex)) as (r & ->). destruct (Fb y (nth_error_In _ _ Ey)) as (r' & ->). exact (He 0%nat j r r' Ex Ey).
      + apply nth_error_None in Ey. assert (nth_error (dat a) j <> None) as Hn by congruence. apply nth_error_Some in Hn. nx. lia.
    - apply nth_error_None in Ex. apply nth_error_None. nx. lia. }
  destruct Hs as (Hv & Hl).
  split; [now apply global_norm_val|]. split; [now apply global_norm_val|]. split; [|now apply norm2_triangle].
  rewrite global_norm_val.
  - nx. unfold rvals at 1. rewrite Hv, map_map. cbn [xval]. now rewrite map_id.
  - unfold finite_tree. nx. rewrite Hv. apply Forall_map, Forall_forall. intros r _. now exists r.
Qed.
(*@ C52_independent_of_nesting : Any two trees holding the same elements, in any order, nesting, splitting into leaves, shape or dtype, have the same norm. *)
Lemma global_norm_perm : forall `{P : Platform} (u v : tree tensor), finite_tree u -> Permutation (vals u) (vals v) ->
  snd (global_norm u) = snd (global_norm v).
Proof.
  intros P u v H Hp. rewrite !global_norm_val; [|unfold finite_tree in *; eapply Permutation_Forall; eassumption|assumption].
  f_equal. apply norm2_perm. unfold rvals. now apply Permutation_map.
Qed.
(*@ex C52_example *)
Lemma global_norm_example : forall `{P : Platform},
  snd (global_norm (Node KList [Leaf (mkT F32 [1%nat] [Fin 3]); Node KTuple [Leaf (mkT BF16 [] [Fin (-4)])]])) = Fin 5.
Proof.
  intros P. rewrite global_norm_is by (repeat constructor; eexists; reflexivity). f_equal. unfold rvals, rsum. cbn.
  replace (3 * 3 + (-4 * -4 + 0)) with (5 * 5) by lra. now rewrite sqrt_square by lra.
Qed.

(** ** C02, value *)
Section SafeNorm.
  Context `{P : Platform}.
  Notation xr := (XROps P).
  Lemma norm_val (t : gt XR) : Forall isfin (dat t) -> @norm xr t = Fin (norm2 (map xval (dat t))).
  Proof. intros H. unfold norm. rewrite tsum_square by assumption. cbn [fsqrt XROps]. now rewrite xsqrt_fin by apply sumsq_nonneg. Qed.
  Lemma safe_norm_val (t : gt XR) m : Forall isfin (dat t) -> @safe_norm xr t (Fin m) = Fin (Rmax (norm2 (map xval (dat t))) m).
  Proof.
    intros H. unfold safe_norm. rewrite norm_val by assumption. cbn [fcast fle XROps].
    destruct (xle _ _) eqn:E.
    - apply xle_fin in E. now rewrite Rmax_right.
    - apply xle_fin_f in E. rewrite norm_val by assumption. now rewrite Rmax_left by lra.
  Qed.
End SafeNorm.
(*@ C02_safe_norm_value : For every array of finite values, of any shape and dtype, and every real m, safe_norm(x, m) = max(||x||, m). *)
Lemma safe_norm_is : forall `{P : Platform} (t : tensor) (m : R), Forall isfin (dat t) ->
  safe_norm t (Fin m) = Fin (Rmax (norm2 (map xval (dat t))) m).
Proof. intros P t m H. now apply safe_norm_val. Qed.

(** ** C05 *)
Section Cbgn.
  Context `{P : Platform}.
  Notation xr := (XROps P).
  Lemma cbgn_leaf_val gd gn m (t : gt XR) : twf t -> 0 < m -> 0 <= gn ->
    exists t', @cbgn_leaf xr gd (Fin gn) (Fin m) t = Ok t' /\ shp t' = shp t /\ dt t' = promote (dt t) (promote (dt t) gd) /\ twf t' /\
    dat t' = map (fun x => if Rlt_dec gn m then x else xmul (xdiv x (Fin gn)) (Fin m)) (dat t).
  Proof.
    intros W Hm Hg. unfold cbgn_leaf. rewrite bin_scalar_r by assumption. cbn [rbind].
    eexists. split; [reflexivity|]. cbn [fcast flt fdiv XROps].
    split; [destruct (xlt _ _); reflexivity|]. split; [destruct (xlt _ _); reflexivity|].
    destruct (Rlt_dec gn m) as [Hl|Hl].
    - assert (E : xlt (Fin gn) (Fin m) = true) by now apply xlt_fin. rewrite E.
      split; [unfold twf in *; cbn; now rewrite map_length|]. cbn. apply map_ext. intros x. apply xconv.
    - assert (E : xlt (Fin gn) (Fin m) = false) by (apply xlt_fin_f; lra). rewrite E.
      split; [unfold twf in *; cbn; now rewrite !map_length|]. cbn. rewrite !map_map. apply map_ext. intros x. now rewrite !xconv.
  Qed.
End Cbgn.
Lemma promote_idem_r a b : promote a (promote a b) = promote a b.
Proof. now destruct a, b. Qed.

Lemma promote_fold_split d l a : fold_left promote l (promote d a) = promote d (fold_left promote l a).
Proof. revert d a; induction l as [|z l IH]; intros x y; cbn [fold_left]; [reflexivity|]. rewrite <- IH. f_equal. now destruct x, y, z. Qed.
Lemma pysum_dt_fold `{O : Ops} (l : list (fdt * F)) d x : fst (pysum ((d, x) :: l)) = fold_left promote (map fst l) d.
Proof.
  cbn [pysum]. generalize (fadd d (fcast d fzero) x). revert d. induction l as [|[e y] l IH]; intros d a; cbn; [reflexivity|].
  unfold add_scalars at 2. cbn. apply IH.
Qed.
Lemma global_norm_dt_fold `{O : Ops} (u : tree tensor) d : In d (map (fun t => dt t) (leaves u)) ->
  promote d (fst (global_norm u)) = fold_left promote (map (fun t => dt t) (leaves u)) d.
Proof.
  intros Hin. unfold global_norm. destruct (leaves u) as [|t l] eqn:E; [destruct Hin|]. cbn [map].
  pose proof (pysum_dt_fold (map (fun x => (dt x, tsum (tsquare x))) l) (dt t) (tsum (tsquare t))) as Hp.
  destruct (pysum _) as [d0 s]. cbn [fst] in *. rewrite Hp, map_map. cbn [fst].
  rewrite <- promote_fold_split. cbn [fold_left]. reflexivity.
Qed.
(*@ C05_clip_by_global_norm : For every finite tree (any nesting, shapes, dtypes) and m > 0, the result is c * updates for one common scalar 0 < c <= 1, where with n the Euclidean norm of all elements of all leaves c = 1 if n < m and c = m/n otherwise; the Euclidean norm of the result is min(n, m); the tree structure and leaf shapes are kept and every leaf gets the dtype all leaf dtypes promote to. *)
Lemma cbgn_spec : forall `{P : Platform} (u : tree tensor) (m : R) (st : state) par,
  0 < m -> trwf u -> finite_tree u ->
  let n := norm2 (rvals u) in
  exists u' c, update (clip_by_global_norm (Fin m)) u st par = Ok (u', st) /\ 0 < c <= 1 /\ (n < m -> c = 1) /\ (m <= n -> c = m / n) /\
    tmap (fun t => shp t) u' = tmap (fun t => shp t) u /\ trwf u' /\
    tmap (fun t => dt t) u' = tmap (fun t => fold_left promote (map (fun t' => dt t') (leaves u)) (dt t)) u /\
    (forall pos x, elt u pos = Some (Fin x) -> elt u' pos = Some (Fin (c * x))) /\
    finite_tree u' /\ norm2 (rvals u') = Rmin n m.
Proof.
  intros P u m st par Hm Wu Hf n.
  assert (Hn : snd (global_norm u) = Fin n) by now apply global_norm_val.
  set (c := if Rlt_dec n m then 1 else m / n).
  assert (Hn0 : 0 <= n) by apply norm2_nonneg.
  assert (Hc : 0 < c <= 1).
  { unfold c. destruct (Rlt_dec n m); [lra|]. assert (0 < n) by lra. split.
    - apply Rdiv_lt_0_compat; lra.
    - apply (Rmult_le_reg_r n); [lra|]. unfold Rdiv. rewrite Rmult_assoc, Rinv_l by lra. lra. }
  assert (Hel : forall x, (if Rlt_dec n m then Fin x else xmul (xdiv (Fin x) (Fin n)) (Fin m)) = Fin (c * x)).
  { intros x. unfold c. destruct (Rlt_dec n m); [f_equal; lra|]. rewrite xdiv_fin by lra. rewrite xmul_fin. f_equal. field. lra. }
  destruct (global_norm u) as [gd gn] eqn:Eg. cbn [snd] in Hn. subst gn.
  destruct (tree_choice (fun t t' => @cbgn_leaf (XROps P) gd (Fin n) (Fin m) t = Ok t' /\ shp t' = shp t /\ dt t' = promote (dt t) gd /\ twf t' /\
      dat t' = map (fun x => if Rlt_dec n m then x else xmul (xdiv x (Fin n)) (Fin m)) (dat t)) u) as (w & Ew & Hw).
  { eapply Forall_impl; [|exact Wu]. intros t Wt. destruct (cbgn_leaf_val gd n m t Wt Hm Hn0) as (t' & H1 & H2 & H3 & H4 & H5).
    exists t'. rewrite promote_idem_r in H3. auto. }
  rewrite Forall_forall in Hw.
  exists (tmap snd w), c.
  assert (Hu : update (clip_by_global_norm (Fin m)) u st par = Ok (tmap snd w, st)).
  { cbn [update clip_by_global_norm stateless]. rewrite Eg. rewrite <- Ew at 1. rewrite tmapM_tmap.
    rewrite (tmapM_ext _ (fun q => Ok (snd q))); [now rewrite tmapM_ok|]. intros q Hq. apply Hw, Hq. }
  assert (Hv : vals (tmap snd w) = map Fin (map (Rmult c) (rvals u))).
  { unfold rvals, vals. rewrite <- Ew, !leaves_tmap, !map_map. unfold finite_tree, vals in Hf. rewrite <- Ew, leaves_tmap, map_map in Hf.
    clear - Hf Hw Hel. induction (leaves w) as [|q l IH]; cbn [map concat] in *; [reflexivity|].
    apply Forall_app in Hf as [Hq Hl]. rewrite !map_app, IH; [|assumption|intros; apply Hw; now right]. f_equal.
    destruct (Hw q (or_introl eq_refl)) as (_ & _ & _ & _ & ->). rewrite Forall_forall in Hq.
    apply map_ext_in. intros x Hx. destruct (Hq x Hx) as (r & ->). apply Hel. }
  split; [exact Hu|]. split; [exact Hc|]. split; [intros Hl; unfold c; now destruct (Rlt_dec n m)|]. split; [intros Hl; unfold c; destruct (Rlt_dec n m); [lra|reflexivity]|].
  split; [rewrite <- Ew, !tmap_tmap; apply tmap_ext; intros q Hq; apply Hw, Hq|].
  split; [unfold trwf; rewrite leaves_tmap, Forall_map, Forall_forall; intros q Hq; apply Hw, Hq|].
  split.
  { match goal with |- _ = tmap ?h u => set (ff := h) end. rewrite <- Ew. rewrite !tmap_tmap. unfold ff. apply tmap_ext. intros q Hq. destruct (Hw q Hq) as (_ & _ & -> & _).
    assert (Hin : In (dt (fst q)) (map (fun t' => dt t') (leaves u))) by (rewrite <- Ew, leaves_tmap, map_map; now apply (in_map (fun x => dt (fst x)))).
    replace gd with (fst (global_norm u)) by (nx; now rewrite Eg). apply global_norm_dt_fold. exact Hin. }
  split.
  - intros pos x. unfold elt. rewrite <- Ew, !nth_error_leaves_tmap. destruct (nth_error (leaves w) (fst pos)) as [q|] eqn:Eq; cbn; [|discriminate].
    intros Hx. destruct (Hw q (nth_error_In _ _ Eq)) as (_ & _ & _ & _ & Hd).
    nx. rewrite Hd, nth_error_map, Hx. cbn. now rewrite Hel.
  - split.
    + unfold finite_tree. nx. rewrite Hv. apply Forall_map, Forall_forall. intros r _. now exists r.
    + unfold rvals at 1. nx. rewrite Hv, map_map. cbn [xval]. rewrite map_id, norm2_scal. fold n.
      rewrite Rabs_right by lra. unfold c. destruct (Rlt_dec n m).
      * rewrite Rmin_left by lra. lra.
      * rewrite Rmin_right by lra. field. lra.
Qed.
(** every leaf has dtype d *)
Lemma pysum_dt `{O : Ops} d (l : list (fdt * F)) : Forall (fun p => fst p = d) l -> l <> [] -> fst (pysum l) = d.
Proof.
  destruct l as [|[d0 x] l]; [easy|]. intros HF _. inversion HF as [|? ? E HF']; cbn in E; subst. cbn [pysum].
  generalize (fadd d (fcast d fzero) x). clear HF. induction HF' as [|[d0 y] l E HF' IH]; intros a; cbn; [reflexivity|].
  cbn in E. subst. unfold add_scalars at 2. cbn. rewrite promote_same. apply IH.
Qed.
(*@ C05_below_unchanged : When all leaves have one dtype, shapes and dtypes are exactly preserved, and updates of norm below m are returned bit for bit, in any arithmetic. *)
Lemma cbgn_unchanged : forall `{O : Ops} (u : tree tensor) (m : F) (d : fdt) (st : state) par,
  trwf u -> Forall (fun t => dt t = d) (leaves u) -> flt (snd (global_norm u)) (fcast d m) = true ->
  update (clip_by_global_norm m) u st par = Ok (u, st).
Proof.
  intros O u m d st par Wu Hd Hlt. cbn [update clip_by_global_norm stateless].
  assert (Hg : leaves u <> [] -> fst (global_norm u) = d).
  { intros Hne. unfold global_norm. pose proof (pysum_dt d (map (fun x => (dt x, tsum (tsquare x))) (leaves u))) as Hp.
    destruct (pysum _) as [d0 s]. cbn [fst] in *. apply Hp; [apply Forall_map; exact Hd|]. destruct (leaves u); easy. }
  destruct (global_norm u) as [gd gn]. cbn [fst snd] in *.
  rewrite (tmapM_ext _ (fun t => Ok t)).
  - rewrite (tmapM_ok (fun t => t)), tmap_id. reflexivity.
  - intros t Ht. rewrite Forall_forall in Hd. unfold trwf in Wu. rewrite Forall_forall in Wu.
    assert (gd = d) as -> by (apply Hg; intros E; rewrite E in Ht; destruct Ht).
    unfold cbgn_leaf. rewrite bin_scalar_r by now apply Wu. cbn [rbind]. rewrite Hlt, (Hd t Ht), promote_same.
    unfold twhere_s, sr, emap. cbn [dt]. rewrite (Hd t Ht), promote_same. rewrite <- (Hd t Ht) at 1. now rewrite astype_same.
Qed.
(*@ C05_zero_max_norm_refuted : The restriction m > 0 is needed: clip_by_global_norm(0) turns the zero gradient into NaN. *)
Lemma cbgn_zero : forall `{P : Platform}, exists u', update (clip_by_global_norm (Fin 0)) (one (Fin 0)) EmptyState None = Ok (u', EmptyState) /\
  elt u' (0%nat, 0%nat) = Some NaN.
Proof.
  intros P. cbn [update clip_by_global_norm stateless].
  assert (Eg : global_norm (one (Fin 0)) = (F32, Fin 0)).
  { rewrite (surjective_pairing (global_norm _)). apply f_equal2; [reflexivity|]. apply global_norm_zero.
    - repeat constructor. eexists; reflexivity.
    - intros [[|[|i]] [|[|j]]] x; cbn; try discriminate. now intros [= <-]. }
  rewrite Eg. cbn [one tmapM]. unfold cbgn_leaf. rewrite bin_scalar_r by reflexivity. cbn [rbind].
  eexists. split; [reflexivity|]. cbn [fcast flt XROps fdiv].
  assert (E : xlt (Fin 0) (Fin 0) = false) by (apply xlt_fin_f; lra). rewrite E.
  unfold elt. cbn.  destruct (Req_EM_T 0 0); [|easy]. rewrite rsgn_0. reflexivity.
Qed.
(*@ C05_mixed_dtypes_promoted_refuted : Dtypes are not always preserved: a bfloat16 leaf next to a float32 leaf comes back as float32. *)
Lemma cbgn_mixed : forall `{P : Platform}, exists u',
  update (clip_by_global_norm (Fin 1)) (Node KList [Leaf (mkT BF16 [] [Fin 1]); Leaf (mkT F32 [] [Fin 1])]) EmptyState None = Ok (u', EmptyState) /\
  tmap (fun t => dt t) u' = Node KList [Leaf F32; Leaf F32].
Proof.
  intros P. destruct (cbgn_spec (Node KList [Leaf (mkT BF16 [] [Fin 1]); Leaf (mkT F32 [] [Fin 1])]) 1 EmptyState None) as (u' & c & E & _ & _ & _ & _ & _ & Hd & _).
  - lra. - repeat constructor. - repeat constructor; eexists; reflexivity.
  - exists u'. split; [exact E|]. rewrite Hd. reflexivity.
Qed.
(*@ex C05_example *)
Lemma cbgn_example : forall `{P : Platform}, exists u',
  update (clip_by_global_norm (Fin 1)) (Node KList [one (Fin 3); one (Fin (-4))]) EmptyState None = Ok (u', EmptyState) /\
  elt u' (1%nat, 0%nat) = Some (Fin (- (4 / 5))).
Proof.
  intros P. destruct (cbgn_spec (Node KList [one (Fin 3); one (Fin (-4))]) 1 EmptyState None) as (u' & c & E & _ & _ & Hc & _ & _ & _ & He & _).
  - lra. - repeat constructor. - repeat constructor; eexists; reflexivity.
  - exists u'. split; [exact E|]. rewrite (He (1%nat, 0%nat) (-4) eq_refl). do 2 f_equal.
    unfold norm2, rvals, rsum in Hc. cbn in Hc. replace (3 * 3 + (-4 * -4 + 0)) with (5 * 5) in Hc by lra.
    rewrite sqrt_square in Hc by lra. rewrite Hc by lra. lra.
Qed.

(** ** C24 *)
(** A leaf scaled by k: same shape, every finite element multiplied. *)
Definition leaf_scaled (k : R) (a r : gt XR) : Prop :=
  shp r = shp a /\ dat r = map (fun x => Fin (k * xval x)) (dat a).
Definition lnorm (a : gt XR) : R := norm2 (map xval (dat a)).
Lemma leaf_scaled_norm k a r : leaf_scaled k a r -> lnorm r = Rabs k * lnorm a.
Proof.
  intros [_ E]. unfold lnorm. rewrite E, map_map. cbn [xval]. rewrite <- norm2_scal, map_map. reflexivity.
Qed.
Lemma trust_leaf_val `{P : Platform} m (a b : gt XR) : 0 <= m -> twf a -> Forall isfin (dat a) -> Forall isfin (dat b) ->
  let pn := Rmax (lnorm b) m in let un := Rmax (lnorm a) m in
  exists r, @trust_leaf (XROps P) (Fin m) a b = Ok r /\ twf r /\
    leaf_scaled (if Req_EM_T pn 0 then 1 else if Req_EM_T un 0 then 1 else pn / un) a r.
Proof.
  intros Hm Wa Ha Hb pn un. unfold trust_leaf. rewrite !safe_norm_val by assumption. fold (lnorm a) (lnorm b) pn un.
  rewrite bin_scalar_r by assumption. eexists; split; [reflexivity|].
  split; [unfold twf in *; cbn; now rewrite map_length|]. split; [reflexivity|]. cbn [dat]. rewrite Forall_forall in Ha. apply map_ext_in.
  intros x Hx. destruct (Ha x Hx) as (r & ->). rewrite !xconv. cbn [feqb fmul fdiv fcast XROps xval]. rewrite f0, f1.
  destruct (xeqb (Fin pn) (Fin 0)) eqn:E1; [|destruct (xeqb (Fin un) (Fin 0)) eqn:E2]; cbn [orb]; rewrite ?xconv.
  - apply xeqb_fin in E1. destruct (Req_EM_T pn 0); [|easy]. rewrite xmul_fin. f_equal. ring.
  - apply xeqb_fin_f in E1. apply xeqb_fin in E2. destruct (Req_EM_T pn 0); [easy|]. destruct (Req_EM_T un 0); [|easy]. rewrite xmul_fin. f_equal. ring.
  - apply xeqb_fin_f in E1, E2. destruct (Req_EM_T pn 0); [easy|]. destruct (Req_EM_T un 0); [easy|]. rewrite xdiv_fin by assumption. rewrite xmul_fin. f_equal. ring.
Qed.
(*@ C24_scale_by_trust_ratio : For every updates/params trees of one structure (shapes and dtypes arbitrary) with finite elements and min_norm m >= 0: every leaf is multiplied by one positive number k, so direction and shape are kept and nothing becomes infinite or NaN; k is max(|p|,m)/max(|u|,m) unless one of these is zero, then k = 1. With m = 0 the new norm is the parameter's norm if both norms are non-zero, and the leaf is unchanged if either is zero. *)
Lemma trust_spec : forall `{P : Platform} (u p : tree tensor) (m : R) (st : state),
  0 <= m -> tdef u = tdef p -> trwf u -> finite_tree u -> finite_tree p ->
  exists u', update (scale_by_trust_ratio (Fin m)) u st (Some p) = Ok (u', st) /\ tdef u' = tdef u /\
    forall j a b r, nth_error (leaves u) j = Some a -> nth_error (leaves p) j = Some b -> nth_error (leaves u') j = Some r ->
      exists k, 0 < k /\ leaf_scaled k a r /\
        (0 < Rmax (lnorm b) m -> 0 < Rmax (lnorm a) m -> k = Rmax (lnorm b) m / Rmax (lnorm a) m) /\
        (Rmax (lnorm b) m = 0 \/ Rmax (lnorm a) m = 0 -> k = 1) /\
        (m = 0 -> lnorm a <> 0 -> lnorm b <> 0 -> lnorm r = lnorm b) /\
        (m = 0 -> lnorm a = 0 \/ lnorm b = 0 -> dat r = dat a).
Proof.
  intros P u p m st Hm E Wu Hu Hp. destruct (tree_pair_tdef u p E) as (z & Z1 & Z2).
  apply finite_leaves in Hu, Hp. unfold trwf in Wu. nx.
  destruct (tree_choice (fun q r => @trust_leaf (XROps P) (Fin m) (fst q) (snd q) = Ok r /\
     leaf_scaled (if Req_EM_T (Rmax (lnorm (snd q)) m) 0 then 1 else if Req_EM_T (Rmax (lnorm (fst q)) m) 0 then 1 else Rmax (lnorm (snd q)) m / Rmax (lnorm (fst q)) m) (fst q) r) z) as (w & Ew & Hw).
  { rewrite <- Z1, leaves_tmap, Forall_map in Hu, Wu. rewrite <- Z2, leaves_tmap, Forall_map in Hp. rewrite Forall_forall in *.
    intros q Hq. destruct (trust_leaf_val m (fst q) (snd q) Hm (Wu q Hq) (Hu q Hq) (Hp q Hq)) as (r & H1 & _ & H2). exists r. auto. }
  rewrite Forall_forall in Hw. exists (tmap snd w).
  split.
  { cbn [update scale_by_trust_ratio stateless]. rewrite <- Z1, <- Z2, tmm2_same, <- Ew, tmapM_tmap.
    rewrite (tmapM_ext _ (fun q => Ok (snd q))); [now rewrite tmapM_ok|]. intros q Hq. apply Hw, Hq. }
  split; [rewrite <- Z1, <- Ew; now rewrite !tdef_tmap|].
  intros j a b r. rewrite <- Z1, <- Z2, <- Ew, !tmap_tmap, !nth_error_leaves_tmap.
  destruct (nth_error (leaves w) j) as [q|] eqn:Eq; cbn; [|discriminate]. intros [= <-] [= <-] [= <-].
  destruct (Hw q (nth_error_In _ _ Eq)) as [_ Hs]. nx. set (a := fst (fst q)) in *. set (b := snd (fst q)) in *.
  rewrite Forall_forall in Hu. assert (Ha : Forall isfin (dat a)).
  { apply Hu. rewrite <- Z1, <- Ew, !tmap_tmap, leaves_tmap. apply (in_map (fun x => fst (fst x))). now apply nth_error_In in Eq. }
  assert (0 <= lnorm a) by apply norm2_nonneg. assert (0 <= lnorm b) by apply norm2_nonneg.
  assert (lnorm a <= Rmax (lnorm a) m) by apply Rmax_l. assert (lnorm b <= Rmax (lnorm b) m) by apply Rmax_l.
  eexists. split; [|split; [exact Hs|]].
  - destruct (Req_EM_T _ 0); [lra|]. destruct (Req_EM_T _ 0); [lra|]. apply Rdiv_lt_0_compat; lra.
  - assert (Hid : forall k, k = 1 -> leaf_scaled k a (snd q) -> dat (snd q) = dat a).
    { intros k -> [_ Hd]. nx. rewrite Hd. rewrite Forall_forall in Ha. rewrite <- (map_id (dat a)) at 2. apply map_ext_in. intros x Hx.
      destruct (Ha x Hx) as (v & ->). cbn. f_equal. ring. }
    split; [intros H3 H4; destruct (Req_EM_T _ 0); [lra|]; destruct (Req_EM_T _ 0); [lra|]; reflexivity|].
    split; [intros H3; destruct (Req_EM_T _ 0); [reflexivity|]; destruct (Req_EM_T _ 0); [reflexivity|]; lra|].
    split; intros ->.
    + intros H3 H4. apply leaf_scaled_norm in Hs. rewrite Hs, !Rmax_left by lra. clear Hs.
      destruct (Req_EM_T (lnorm b) 0); [easy|]. destruct (Req_EM_T (lnorm a) 0); [easy|]. rewrite Rabs_right; [field; lra|].
      apply Rle_ge. left. apply Rdiv_lt_0_compat; lra.
    + intros H3. refine (Hid _ _ Hs). clear Hs. rewrite !Rmax_left by lra. destruct (Req_EM_T (lnorm b) 0); [reflexivity|]. destruct (Req_EM_T (lnorm a) 0); [reflexivity|]. destruct H3; contradiction.
Qed.
(*@ C24_params_required : Without params it raises ValueError. *)
Lemma trust_none : forall `{O : Ops} (m : F) u st, update (scale_by_trust_ratio m) u st None = Err EValue.
Proof. reflexivity. Qed.
(*@ex C24_example *)
Lemma trust_example : forall `{P : Platform}, exists u',
  update (scale_by_trust_ratio (Fin 0)) (one (Fin 2)) EmptyState (Some (one (Fin (-3)))) = Ok (u', EmptyState) /\ elt u' (0%nat, 0%nat) = Some (Fin 3).
Proof.
  intros P. destruct (trust_spec (one (Fin 2)) (one (Fin (-3))) 0 EmptyState) as (u' & E & Et & He).
  - lra. - reflexivity. - apply one_wf. - repeat constructor; eexists; reflexivity. - repeat constructor; eexists; reflexivity.
  - exists u'. split; [exact E|]. destruct u' as [r|]; [|discriminate].
    destruct (He 0%nat _ _ r eq_refl eq_refl eq_refl) as (k & _ & [_ Hs] & Hk & _).
    unfold elt. cbn. rewrite Hs. cbn. do 2 f_equal. rewrite Hk; unfold lnorm, norm2, rsum; cbn.
    all: replace (2 * 2 + 0) with (2 * 2) by lra; replace (-3 * -3 + 0) with (3 * 3) by lra; rewrite !sqrt_square by lra.
    all: rewrite ?Rmax_left by lra; lra.
Qed.
