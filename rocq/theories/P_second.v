(** hvp, hessian_diag, fisher_diag (C55). *)
From Verif Require Export M_second P_delta P_flat P_look.
From Coq Require Import String List Psatz Reals Qreals Lia ZArith.
Import ListNotations.
Open Scope R_scope.
(*@header
From Coq Require Import String List.
Import ListNotations.
Open Scope R_scope.
*)

(** ** Specification *)
(** A tree with the structure, dtypes and shapes of [p] whose elements, in ravel order (leaf after
    leaf, row-major), are x 0, ..., x (n-1). *)
Definition holds {A} (p : tree (fdt * list nat)) (t : tree (gt A)) (n : nat) (x : nat -> A) : Prop :=
  avals t = p /\ trwf t /\ flat_map dat (leaves t) = map x (seq 0 n).
(** [grad f] has at the point [v] the value [g] and the derivative [H]: exact differentiation of the
    gradient, along every tangent. *)
Definition exact_grad (grad : (tree (gt dual) -> dual) -> tree (gt dual) -> result (tree (gt dual))) (f : tree (gt dual) -> dual) (p : tree (fdt * list nat)) (n : nat) (v g : rvec) (H : rmat) : Prop :=
  forall x t, holds p x n (fun i => fd (v i) (t i)) -> exists r, grad f x = Ok r /\ holds p r n (fun i => fd (g i) (Sig n (fun j => H i j * t j))).

Section T.
  Lemma tfill_total {A B} (d : tree A) (l m : list B) : length l = length (leaves d) -> exists t, tfill d (l ++ m) = Some (t, m) /\ leaves t = l /\ tdef t = tdef d.
  Proof.
    revert l m; induction d as [a|k ts IH] using tree_ind'; intros l m L.
    - destruct l as [|b [|? ?]]; try discriminate. exists (Leaf b). auto.
    - cbn [tfill leaves] in *.
      enough (H : exists rs, (fix go (ts : list (tree A)) (l : list B) : option (list (tree B) * list B) :=
             match ts with
             | [] => Some ([], l)
             | t :: ts' =>
               match tfill t l with
               | Some (x, l') => match go ts' l' with Some (xs, l'') => Some (x :: xs, l'') | None => None end
               | None => None
               end
             end) ts (l ++ m) = Some (rs, m) /\ flat_map leaves rs = l /\ map tdef rs = map tdef ts).
      { destruct H as (rs & -> & H2 & H3). exists (Node k rs). split; [reflexivity|]. split; [exact H2|]. unfold tdef. cbn. f_equal. exact H3. }
      revert l m L; induction IH as [|x ts Hx Ht IHl]; intros l m L.
      + destruct l; [|discriminate]. exists []. auto.
      + cbn [flat_map] in L. rewrite app_length in L. destruct (Hx (firstn (length (leaves x)) l) (skipn (length (leaves x)) l ++ m)) as (t & E1 & E2 & E3); [rewrite firstn_length; lia|].
        rewrite app_assoc, firstn_skipn in E1. rewrite E1. destruct (IHl (skipn (length (leaves x)) l) m) as (rs & F1 & F2 & F3); [rewrite skipn_length; lia|]. rewrite F1. exists (t :: rs). split; [reflexivity|]. cbn [flat_map map]. rewrite E2, F2, E3, F3, firstn_skipn. auto.
  Qed.
  Lemma tunflatten_total {A B} (d : tree A) (l : list B) : length l = length (leaves d) -> exists t, tunflatten d l = Ok t /\ leaves t = l /\ tdef t = tdef d.
  Proof. intros L. destruct (tfill_total d l [] L) as (t & E & H). unfold tunflatten. rewrite app_nil_r in E. rewrite E. eauto. Qed.
  Lemma avals_intro {A B} (t : tree (gt A)) (r : tree (gt B)) : tdef t = tdef r -> map aval (leaves t) = map aval (leaves r) -> avals t = avals r.
  Proof. intros E L. apply tree_ext; unfold avals; [unfold tdef in *; rewrite !tmap_tmap; exact E|]. now rewrite !leaves_tmap. Qed.
  Lemma leaves_aval {A B} (t : tree (gt A)) (r : tree (gt B)) : avals t = avals r -> map aval (leaves t) = map aval (leaves r).
  Proof. intros E. rewrite <- !leaves_tmap. unfold avals in E. congruence. Qed.
  Definition sizes {A} (ls : list (gt A)) : nat := fold_right (fun x n => (prodn (shp x) + n)%nat) 0%nat ls.
  Lemma flat_size {A} (ls : list (gt A)) : Forall twf ls -> length (flat_map dat ls) = sizes ls.
  Proof. induction 1 as [|x l Hx Hl IH]; [reflexivity|]. cbn [flat_map sizes fold_right]. rewrite app_length, IH. now rewrite Hx. Qed.
  Lemma sizes_aval {A B} (l : list (gt A)) (r : list (gt B)) : map aval l = map aval r -> sizes l = sizes r.
  Proof. revert r; induction l as [|x l IH]; intros [|y r]; try discriminate; [reflexivity|]. cbn [map sizes fold_right]. unfold aval at 1 3. intros [= _ -> E]. f_equal. now apply IH. Qed.
  (** Cutting a list into pieces of given shapes. *)
  Lemma pieces {A B} (d : fdt) (ls : list (gt A)) (l : list B) : length l = sizes ls -> exists new, map aval new = map (fun x => (d, shp x)) ls /\ Forall twf new /\ flat_map dat new = l.
  Proof.
    revert l; induction ls as [|x ls IH]; intros l L; cbn [sizes fold_right] in L; [destruct l; [|discriminate]; exists []; auto|].
    destruct (IH (skipn (prodn (shp x)) l)) as (new & E1 & E2 & E3); [rewrite skipn_length; unfold sizes in *; lia|]. exists (mkT d (shp x) (firstn (prodn (shp x)) l) :: new). cbn [map]. rewrite E1. split; [reflexivity|]. split.
    - constructor; [|exact E2]. unfold twf. cbn [dat shp]. rewrite firstn_length. unfold sizes in *; lia.
    - cbn [flat_map dat]. rewrite E3. apply firstn_skipn.
  Qed.
End T.

Lemma point_vec {P : Platform} d n v : is_vec (point d n v) d n v.
Proof. apply (@vec_intro P); [reflexivity|reflexivity|unfold twf; cbn; rewrite map_length, seq_length; lia|]. intros i Hi. unfold tget. cbn [shp dat point ravel prodn fold_right]. rewrite Nat.mul_1_r, Nat.add_0_r. apply nth_error_nth. rewrite nth_error_map, (nth_error_nth' _ 0%nat) by (rewrite seq_length; exact Hi). now rewrite seq_nth by exact Hi. Qed.
Section X.
  Context {P : Platform}.
  Notation xr := (XROps P). Notation dr := (DualOps P).
  (** The promoted dtype of the leaves. *)
  Definition flat_dtype {A} (t : tree (gt A)) : fdt := match leaves t with [] => F32 | x :: r => fold_left (fun d y => promote d (dt y)) r (dt x) end.
  Lemma ravel_tree_x (t : tree (gt XR)) : @ravel_tree xr t = Ok (mkT (flat_dtype t) [length (flat_map dat (leaves t))] (flat_map dat (leaves t))).
  Proof.
    unfold ravel_tree, flat_dtype, flat_cat. nx. destruct (leaves t) as [|x r]; [reflexivity|]. cbv zeta.
    match goal with |- Ok (mkT _ [length ?a] ?a) = Ok (mkT _ [length ?b] ?b) => assert (E : a = b); [|now rewrite E] end.
    rewrite !flat_map_concat_map. f_equal. apply map_ext. intros y. etransitivity; [|apply map_id]. apply map_ext. intros a. apply conv_x.
  Qed.
  Lemma flat_dtype_avals {A B} (t : tree (gt A)) (r : tree (gt B)) : avals t = avals r -> flat_dtype t = flat_dtype r.
  Proof.
    intros E. apply leaves_aval in E. unfold flat_dtype. destruct (leaves t) as [|x l], (leaves r) as [|y m]; try discriminate; [reflexivity|]. cbn [map] in E. injection E as E1 _ E2. rewrite E1. generalize (dt y). clear E1. revert m E2; induction l as [|a l IH]; intros [|b m] E2 d0; try discriminate; [reflexivity|]. cbn [map] in E2. injection E2 as E1 _ E2. cbn [fold_left]. rewrite E1. now apply IH.
  Qed.
  Lemma split_reshape_ok d (ls : list (gt XR)) (new : list (gt XR)) : ls <> [] -> map aval new = map (fun x => (d, shp x)) ls -> Forall twf new -> @split_reshape xr d (flat_map dat new) ls = Ok new.
  Proof.
    intros Hne. induction ls as [|x ls IH] in new, Hne |- *; [easy|]. intros E Hn. destruct new as [|y new]; [discriminate|]. cbn [map] in E. injection E as E1 E2 E3. inversion Hn as [|? ? Hy Hn']; subst.
    assert (Ly : length (dat y) = prodn (shp x)) by (rewrite <- E2; exact Hy). assert (Ey : mkT (dt y) (shp x) (dat y) = y) by (rewrite <- E2; now destruct y).
    destruct ls as [|x' ls].
    - destruct new; [|discriminate]. cbn [flat_map split_reshape]. rewrite app_nil_r. nx. rewrite Ly, Nat.eqb_refl. now rewrite Ey.
    - cbn [split_reshape flat_map]. cbn [split_reshape] in IH. assert (Ef : firstn (prodn (shp x)) (dat y ++ flat_map dat new) = dat y) by (rewrite <- Ly, firstn_app, Nat.sub_diag, firstn_all; cbn; apply app_nil_r).
      nx. rewrite Ef, Ly, Nat.eqb_refl. assert (Es : skipn (prodn (shp x)) (dat y ++ flat_map dat new) = flat_map dat new) by (rewrite <- Ly, skipn_app, Nat.sub_diag, skipn_all; reflexivity). rewrite Es.
      etransitivity; [refine (f_equal (fun z => rbind z _) _); exact (IH new ltac:(discriminate) E3 Hn')|]. cbn [rbind]. now rewrite Ey.
  Qed.
  Lemma astype_pieces d (ls new : list (gt XR)) : map aval new = map (fun x => (d, shp x)) ls -> Forall twf new ->
    let l := map2 (fun a b => @astype xr (dt a) b) ls new in map aval l = map aval ls /\ Forall twf l /\ flat_map dat l = flat_map dat new.
  Proof.
    intros E Hn. cbv zeta. revert ls E; induction Hn as [|b new Hb Hn IH]; intros [|a ls] E; try discriminate; [repeat split; constructor|]. cbn [map] in E. injection E as D1 S1 E. destruct (IH ls E) as (H1 & H2 & H3). cbn [map2 map flat_map]. split; [|split].
    - f_equal; [|exact H1]. unfold aval, astype. cbn [dt shp]. f_equal. exact S1.
    - constructor; [|exact H2]. unfold twf, astype in *. cbn [dat shp]. now rewrite map_length.
    - f_equal; [|exact H3]. unfold astype. cbn [dat]. etransitivity; [|apply map_id]. apply map_ext. intros c. apply conv_x.
  Qed.
  (** unravel of a vector of the right dtype and size. *)
  Lemma unravel_ok (params : tree (gt XR)) n v w (x : gt XR) : holds (avals params) params n v -> (leaves params = [] \/ dt x = flat_dtype params) -> shp x = [n] -> dat x = map w (seq 0 n) ->
    exists r, @unravel_tree xr params x = Ok r /\ holds (avals params) r n w.
  Proof.
    intros (_ & Hw & Hp) Hd Hs Hx. unfold unravel_tree. pose proof (ravel_tree_x params) as ER.
    assert (Hn : n = sizes (leaves params)) by (rewrite <- (flat_size _ Hw), Hp, map_length, seq_length; reflexivity).
    nx. destruct (leaves params) as [|y ls] eqn:EL.
    - destruct (tunflatten_total params (@nil (gt XR))) as (t & E & E1 & E2); [now rewrite EL|]. exists t. split; [exact E|]. split; [apply avals_intro; [exact E2|now rewrite E1, EL]|]. split; [unfold trwf; rewrite E1; constructor|]. rewrite E1. cbn in Hn. now subst n.
    - destruct Hd as [Hd|Hd]; [discriminate|].
      change (@F xr) with XR in *. rewrite ER. cbn [rbind dt]. rewrite (proj2 (fdt_eqb_eq _ _) Hd), Hs. cbn [length Nat.eqb rguard rbind].
      destruct (pieces (dt x) (y :: ls) (dat x)) as (new & E1 & E2 & E3); [rewrite Hx, map_length, seq_length; exact Hn|]. rewrite <- E3. rewrite (split_reshape_ok (dt x) (y :: ls) new) by (auto; discriminate). cbn [rbind].
      set (l := map2 (fun a b => @astype xr (dt a) b) (y :: ls) new).
      assert (HL : map aval l = map aval (y :: ls) /\ Forall twf l /\ flat_map dat l = flat_map dat new).
      { apply (astype_pieces (dt x)); assumption. }
      destruct HL as (L1 & L2 & L3).
      destruct (tunflatten_total params l) as (t & E & F1 & F2); [rewrite EL, <- (map_length aval l), L1; now rewrite map_length|]. exists t. split; [exact E|]. split; [apply avals_intro; [exact F2|rewrite EL; etransitivity; [exact (f_equal (map aval) F1)|exact L1]]|]. split; [unfold trwf; change (Forall twf (leaves t)); exact (eq_ind_r (Forall twf) L2 F1)|]. etransitivity; [exact (f_equal (flat_map dat) F1)|]. etransitivity; [exact L3|]. now rewrite E3, Hx.
  Qed.
  Lemma pair_ok (params tg : tree (gt XR)) n (v w : rvec) : holds (avals params) params n (fun i => Fin (v i)) -> holds (avals params) tg n (fun i => Fin (w i)) -> exists r, @pair_tree params tg = Ok r /\ holds (avals params) r n (fun i => fd (v i) (w i)).
  Proof.
    intros (_ & Hw & Hp) (Ha & Hw' & Ht). unfold pair_tree. apply leaves_aval in Ha.
    set (l := map2 (fun p t => mkT (dt p) (shp p) (map2 (fun a b => (a, b) : dual) (dat p) (dat t))) (leaves params) (leaves tg)).
    assert (HL : map aval l = map aval (leaves params) /\ Forall twf l /\ flat_map dat l = map2 (fun a b => (a, b) : dual) (flat_map dat (leaves params)) (flat_map dat (leaves tg))).
    { unfold l. unfold trwf in *. clear - Ha Hw Hw'. revert Ha. revert Hw'. generalize (leaves tg). induction Hw as [|a la Hxa Hla IH]; intros [|b lb] Hw' Ha; try discriminate; [repeat split; constructor|]. inversion Hw' as [|? ? Hb Hw'']; subst. cbn [map] in Ha. injection Ha as D1 S1 E1. destruct (IH lb Hw'' E1) as (H1 & H2 & H3). cbn [map2 map flat_map dat].
      assert (LL : length (dat a) = length (dat b)) by (unfold twf in *; congruence). split; [|split].
      - rewrite H1. reflexivity.
      - constructor; [|exact H2]. unfold twf in *. cbn [dat shp]. rewrite map2_length. lia.
      - rewrite H3. clear - LL. revert LL. generalize (dat b). induction (dat a) as [|c l1 IH]; intros [|e l2] LL; try discriminate; [reflexivity|]. cbn [map2 app]. f_equal. apply IH. now injection LL. }
    destruct HL as (L1 & L2 & L3).
    destruct (tunflatten_total params l) as (t & E & F1 & F2); [rewrite <- (map_length aval l), L1; now rewrite map_length|]. exists t. split; [exact E|]. split; [apply avals_intro; [exact F2|now rewrite F1]|]. split; [unfold trwf; now rewrite F1|].
    rewrite F1, L3, Hp, Ht. apply (map2_map_same (fun a b => (a, b) : dual)).
  Qed.
  Lemma holds_emapt {A B} (f : A -> B) p (t : tree (gt A)) n x : holds p t n x -> holds p (emapt (fun _ => f) t) n (fun i => f (x i)).
  Proof.
    intros (H1 & H2 & H3). split; [rewrite <- H1; apply emapt_avals|]. split; [now apply emapt_wf|]. unfold emapt. rewrite leaves_tmap.
    assert (E : forall l : list (gt A), flat_map dat (map (emap (fun _ => f)) l) = map f (flat_map dat l)) by (induction l as [|a l IH]; [reflexivity|]; cbn [map flat_map]; rewrite map_app, IH; reflexivity).
    rewrite E, H3, map_map. reflexivity.
  Qed.
End X.

(*@ C55_hvp : hvp, for every loss, every parameter tree (any structure, shapes and dtypes) and every vector w of the promoted dtype and of the right size: given that jax.grad of the loss is differentiated exactly (derivative H), the result has the structure, shapes and dtypes of params and its elements, in ravel order, are H w. *)
Lemma hvp_correct : forall `{P : Platform} (I Tg : Type) (grad : (tree (gt dual) -> dual) -> tree (gt dual) -> result (tree (gt dual))) (loss : tree (gt dual) -> I -> Tg -> dual) (params : tree (gt XR)) (inputs : I) (targets : Tg) (n : nat) (v g w : rvec) (H : rmat) (x : gt XR),
  holds (avals params) params n (fun i => Fin (v i)) -> exact_grad grad (fun p => loss p inputs targets) (avals params) n v g H ->
  is_vec x (flat_dtype params) n w ->
  exists r, hvp grad loss x params inputs targets = Ok r /\ holds (avals params) r n (fun i => Fin (mv n H w i)).
Proof.
  intros P I Tg grad loss params inputs targets n v g w H x Hp Hg Hx. destruct (is_vec_parts _ _ _ _ Hx) as (Dx & Sx & Wx). pose proof (is_vec_dat _ _ _ _ Hx) as Ex. rewrite map_map in Ex.
  unfold hvp. destruct (unravel_ok params n _ (fun i => Fin (w i)) x Hp (or_intror Dx) Sx Ex) as (tg & Et & Ht). change (@F (XROps P)) with XR in *. rewrite Et. cbn [rbind]. destruct (pair_ok params tg n v w Hp Ht) as (dp & Ep & Hdp). rewrite Ep. cbn [rbind].
  destruct (Hg dp w Hdp) as (r & Er & Hr). rewrite Er. cbn [rbind]. eexists. split; [reflexivity|]. exact (holds_emapt snd _ _ _ _ Hr).
Qed.

(*@ C55_hessian_diag : hessian_diag, for every loss and every parameter tree whose promoted dtype is the default float dtype: the result is the vector of the diagonal entries of the Hessian in ravel order. *)
Lemma hessian_diag_correct : forall `{P : Platform} (I Tg : Type) (grad : (tree (gt dual) -> dual) -> tree (gt dual) -> result (tree (gt dual))) (loss : tree (gt dual) -> I -> Tg -> dual) (params : tree (gt XR)) (inputs : I) (targets : Tg) (n : nat) (v g : rvec) (H : rmat),
  holds (avals params) params n (fun i => Fin (v i)) -> exact_grad grad (fun p => loss p inputs targets) (avals params) n v g H ->
  flat_dtype params = @defdt (XROps P) ->
  exists r, hessian_diag grad loss params inputs targets = Ok r /\ is_vec r (@defdt (XROps P)) n (fun i => H i i).
Proof.
  intros P I Tg grad loss params inputs targets n v g H Hp Hg Hd. unfold hessian_diag. rewrite ravel_tree_x. cbn [rbind dat].
  assert (Hn : length (flat_map dat (leaves params)) = n) by (destruct Hp as (_ & _ & ->); now rewrite map_length, seq_length). nx. rewrite Hn.
  set (vs := @eye_default (XROps P) n). set (f := fun v0 => rbind _ _).
  assert (Hf : forall w (x : gt XR), is_vec x (flat_dtype params) n w -> f x = Ok (@defdt (XROps P), Fin (Sig n (fun i => w i * mv n H w i)))).
  { intros w x Hx. unfold f. destruct (@hvp_correct P I Tg grad loss params inputs targets n v g w H x Hp Hg Hx) as (r & Er & Hr). rewrite Er. cbn [rbind]. rewrite ravel_tree_x. cbn [rbind]. pose proof Hr as (Ha & _ & Hf). rewrite (flat_dtype_avals _ _ Ha). unfold vdot_p. cbn [dt dat].
    destruct (is_vec_parts _ _ _ _ Hx) as (Dx & Sx & Wx). pose proof (is_vec_dat _ _ _ _ Hx) as Ex. rewrite map_map in Ex. nx. rewrite Ex, Hf, !map_length, Nat.eqb_refl. cbn [rguard rbind]. rewrite Dx, promote_same, Hd. f_equal. f_equal. cbn [fsum XROps].
    rewrite map2_map_same. etransitivity; [|apply xsum_list]. f_equal. unfold Sig. rewrite map_map. apply map_ext. intros i. rewrite !conv_x. reflexivity. }
  assert (Hrow : forall k, is_vec (@slice0 (XROps P) vs k) (flat_dtype params) n (fun i => if (k <? n)%nat then idm k i else 0)).
  { intros k. unfold slice0. rewrite Hd. change (tl (shp vs)) with [n]. change (dt vs) with (@defdt (XROps P)). eapply tabv_vec; try exact P. intros i Hi. destruct (Nat.ltb_spec k n) as [Hk|Hk].
    - unfold vs, eye_default. etransitivity; [apply (@tget_tab (XROps P)); cbn; auto|]. cbn [hd nth]. unfold idm, fone, fzero. cbn [flit XROps]. destruct (k =? i)%nat; [now rewrite Q2R_1|now rewrite Q2R_0].
    - unfold tget. rewrite nth_overflow; [unfold fzero; cbn [flit XROps]; now rewrite Q2R_0|]. assert (W : length (dat vs) = (n * (n * 1))%nat) by (unfold vs, eye_default; apply (tab_wf (@defdt (XROps P)) [n; n])). nx. rewrite W. change (shp vs) with [n; n]. rewrite ravel2. nia. }
  unfold vmap_s. nx. rewrite (Hf _ _ (Hrow 0%nat)). cbn [rbind]. change (shp vs) with [n; n]. cbn [hd]. rewrite mapM_map.
  destruct (mapM_all (fun k => f (@slice0 (XROps P) vs k)) (fun k y => snd y = Fin (H k k)) (seq 0 n)) as (ys & Eys & F2).
  { intros k Hk. apply In_seq0 in Hk. eexists. split; [apply (Hf _ _ (Hrow k))|]. cbn [snd]. f_equal. rewrite (proj2 (Nat.ltb_lt k n) Hk). cbv beta iota. rewrite (Sig_ext n _ (fun i => mv n H (idm k) i * idm k i)) by (intros i _; apply Rmult_comm). rewrite (Sig_idm n _ k Hk). unfold mv. apply (Sig_idm n (fun j => H k j) k Hk). }
  rewrite Eys. cbn [rbind]. eexists. split; [reflexivity|]. apply (@vec_intro P); [reflexivity|reflexivity| |].
  - unfold twf. cbn. rewrite map_length. assert (Ly : length ys = length (seq 0 n)) by (clear - F2; induction F2; cbn; congruence). rewrite Ly, seq_length. lia.
  - intros i Hi. unfold tget. cbn [shp dat ravel prodn fold_right]. rewrite Nat.mul_1_r, Nat.add_0_r. apply nth_error_nth.
    destruct (Forall2_nth_error _ _ _ i i F2) as (y & Ny & Ey); [rewrite (nth_error_nth' _ 0%nat) by (rewrite seq_length; exact Hi); now rewrite seq_nth|]. rewrite nth_error_map, Ny. cbn [option_map]. exact (f_equal Some Ey).
Qed.

(*@ C55_fisher_diag : fisher_diag, for every negative log-likelihood and every parameter tree: the result is the vector of the squares of the gradient's entries in ravel order, of the promoted dtype. *)
Lemma fisher_diag_correct : forall `{P : Platform} (I Tg : Type) (grad : (tree (gt dual) -> dual) -> tree (gt dual) -> result (tree (gt dual))) (nll : tree (gt dual) -> I -> Tg -> dual) (params : tree (gt XR)) (inputs : I) (targets : Tg) (n : nat) (v g : rvec) (H : rmat),
  holds (avals params) params n (fun i => Fin (v i)) -> exact_grad grad (fun p => nll p inputs targets) (avals params) n v g H ->
  exists r, fisher_diag grad nll params inputs targets = Ok r /\ is_vec r (flat_dtype params) n (fun i => g i ^ 2).
Proof.
  intros P I Tg grad nll params inputs targets n v g H Hp Hg. unfold fisher_diag.
  destruct (Hg (emapt (fun _ a => dconst a) params) (fun _ => 0)) as (r & Er & Hr); [exact (holds_emapt dconst _ _ _ _ Hp)|]. rewrite Er. cbn [rbind]. rewrite ravel_tree_x. cbn [rbind].
  pose proof (holds_emapt fst _ _ _ _ Hr) as (Ha & _ & Hf). cbn [fst fd] in Hf. change (fun i => fst (fd (g i) (Sig n (fun j => H i j * 0)))) with (fun i => Fin (g i)) in Hf. change (@F (XROps P)) with XR in *. rewrite Hf, (flat_dtype_avals _ _ Ha), map_length, seq_length. eexists. split; [reflexivity|].
  apply (map_v (fun d a => @fmul (XROps P) d a a) (mkT (flat_dtype params) [n] (map (fun i => Fin (g i)) (seq 0 n))) (flat_dtype params) n g).
  - exact (@point_vec P (flat_dtype params) n g).
  - intros i Hi dd. cbn [fmul XROps]. rewrite xmul_fin. f_equal. ring.
Qed.

(*@ C55_errors : For every parameter tree with at least one leaf: hvp raises TypeError when the vector does not have the promoted dtype of the parameters, or does not have as many entries as the parameters have elements; hessian_diag raises TypeError for every parameter tree whose promoted dtype is not the default one (finding: e.g. bfloat16 parameters, or float32 ones with x64 enabled). *)
Lemma second_errors : forall `{P : Platform} (I Tg : Type) (grad : (tree (gt dual) -> dual) -> tree (gt dual) -> result (tree (gt dual))) (loss : tree (gt dual) -> I -> Tg -> dual) (params : tree (gt XR)) (inputs : I) (targets : Tg) (n : nat) (v : nat -> XR) (x : gt XR),
  holds (avals params) params n v -> leaves params <> [] -> twf x -> length (shp x) = 1%nat ->
  (dt x <> flat_dtype params \/ shp x <> [n] -> hvp grad loss x params inputs targets = Err EType) /\
  (flat_dtype params <> @defdt (XROps P) -> hessian_diag grad loss params inputs targets = Err EType).
Proof.
  intros P I Tg grad loss params inputs targets n v x Hp Hne Wx Hr.
  assert (Hn : length (flat_map dat (leaves params)) = n) by (destruct Hp as (_ & _ & ->); now rewrite map_length, seq_length).
  assert (Hd : forall y : gt XR, dt y <> flat_dtype params -> @unravel_tree (XROps P) params y = Err EType).
  { intros y Hy. unfold unravel_tree. pose proof (ravel_tree_x params) as ER. nx. destruct (leaves params) as [|a l]; [easy|]. rewrite ER. cbn [rbind dt]. destruct (fdt_eqb (dt y) (flat_dtype params)) eqn:E; [apply fdt_eqb_eq in E; contradiction|]. reflexivity. }
  split.
  - intros Hx. unfold hvp. enough (E : @unravel_tree (XROps P) params x = Err EType) by (change (@F (XROps P)) with XR in *; now rewrite E).
    destruct (fdt_eqb (dt x) (flat_dtype params)) eqn:Ed; [|apply Hd; intros E; apply fdt_eqb_eq in E; congruence].
    destruct Hx as [Hx|Hx]; [now apply Hd|]. unfold unravel_tree. pose proof (ravel_tree_x params) as ER. destruct Hp as (_ & Hw & Hp). unfold trwf in Hw. nx. destruct (leaves params) as [|a l]; [easy|]. rewrite ER. cbn [rbind dt]. rewrite Ed, Hr. cbn [Nat.eqb rguard rbind].
    assert (Hl : length (dat x) <> sizes (a :: l)).
    { rewrite <- (flat_size _ Hw), Hp, map_length, seq_length. intros E. apply Hx. destruct (shp x) as [|m [|? ?]] eqn:Es; try discriminate. unfold twf in Wx. rewrite Es in Wx. cbn in Wx. f_equal. lia. }
    clear - Hl. enough (E : @split_reshape (XROps P) (dt x) (dat x) (a :: l) = Err EType) by (change (@F (XROps P)) with XR in *; now rewrite E).
    revert a Hl. generalize (dat x). induction l as [|b l IH]; intros q a Hl; cbn [split_reshape]; nx.
    + destruct (Nat.eqb_spec (length q) (prodn (shp a))) as [E|_]; [|reflexivity]. cbn [sizes fold_right] in Hl. lia.
    + destruct (Nat.eqb_spec (length (firstn (prodn (shp a)) q)) (prodn (shp a))) as [E|_]; [|reflexivity]. rewrite firstn_length in E.
      etransitivity; [refine (f_equal (fun z => rbind z _) _); apply (IH (skipn (prodn (shp a)) q) b)|reflexivity]. rewrite skipn_length. cbn [sizes fold_right] in Hl |- *. lia.
  - intros Hx. unfold hessian_diag. rewrite ravel_tree_x. cbn [rbind dat]. unfold vmap_s. assert (E : forall k, hvp grad loss (@slice0 (XROps P) (@eye_default (XROps P) (length (flat_map dat (leaves params)))) k) params inputs targets = Err EType).
    { intros k. unfold hvp. nx. rewrite Hd; [reflexivity|]. intros E. apply Hx. rewrite <- E. reflexivity. }
    nx. rewrite E. reflexivity.
Qed.

(** Example: the squared error ½ (w.x + b - y)^2 of a linear model with parameters {b: [], w: [2]} (jax sorts dict keys). *)
Definition ex_params (b w0 w1 : R) : tree (gt XR) := Node (KDict ["b"; "w"]%string) [Leaf (mkT F32 [] [Fin b]); Leaf (mkT F32 [2%nat] [Fin w0; Fin w1])].
Definition lin_loss (p : tree (gt dual)) (x : R * R) (y : R) : dual :=
  match flat_map dat (leaves p) with
  | [b; w0; w1] =>
    let e := @fsub (DualOps ones_platform) F32 (@fadd (DualOps ones_platform) F32 (@fadd (DualOps ones_platform) F32 (@fmul (DualOps ones_platform) F32 (fd (fst x) 0) w0) (@fmul (DualOps ones_platform) F32 (fd (snd x) 0) w1)) b) (fd y 0) in
    @fmul (DualOps ones_platform) F32 (fd (/ 2) 0) (@fmul (DualOps ones_platform) F32 e e)
  | _ => nan_dual
  end.
(** Its gradient, (e, e x0, e x1) with e the residual; the loss argument supplies the inputs. *)
Definition lin_grad (x : R * R) (y : R) (_ : tree (gt dual) -> dual) (p : tree (gt dual)) : result (tree (gt dual)) :=
  match flat_map dat (leaves p) with
  | [b; w0; w1] =>
    let e := @fsub (DualOps ones_platform) F32 (@fadd (DualOps ones_platform) F32 (@fadd (DualOps ones_platform) F32 (@fmul (DualOps ones_platform) F32 (fd (fst x) 0) w0) (@fmul (DualOps ones_platform) F32 (fd (snd x) 0) w1)) b) (fd y 0) in
    tunflatten p [mkT F32 [] [e]; mkT F32 [2%nat] [@fmul (DualOps ones_platform) F32 e (fd (fst x) 0); @fmul (DualOps ones_platform) F32 e (fd (snd x) 0)]]
  | _ => Err EValue
  end.
Definition feature (x : R * R) (i : nat) : R := match i with 0%nat => 1 | 1%nat => fst x | _ => snd x end.
Lemma lin_exact b w0 w1 x y : exact_grad (lin_grad x y) (fun p => lin_loss p x y) (avals (ex_params b w0 w1)) 3 (fun i => match i with 0%nat => b | 1%nat => w0 | _ => w1 end)
  (fun i => (fst x * w0 + snd x * w1 + b - y) * feature x i) (fun i j => feature x i * feature x j).
Proof.
  intros p t (Ha & Hw & Hp). unfold lin_grad. rewrite Hp. cbn [seq map].
  change (@F (DualOps ones_platform)) with dual. match goal with |- context [tunflatten p ?l] => destruct (tunflatten_total p l) as (r & Er & F1 & F2); [rewrite <- (map_length aval (leaves p)), (leaves_aval p (ex_params b w0 w1) Ha); reflexivity|] end.
  exists r. split; [exact Er|]. split; [rewrite <- Ha; apply avals_intro; [exact F2|rewrite (leaves_aval p (ex_params b w0 w1) Ha); exact (f_equal (map aval) F1)]|]. split; [unfold trwf; refine (eq_ind_r (Forall twf) _ F1); repeat constructor|]. etransitivity; [exact (f_equal (flat_map dat) F1)|]. cbn [flat_map dat app seq map].
  rewrite !d_mul, !d_add, !d_sub, !d_mul. unfold feature. apply f_equal2; [apply fd_ext|apply f_equal2; [apply fd_ext|apply f_equal2; [apply fd_ext|reflexivity]]]; cbn [fst snd]; unfold Sig; cbn [seq map]; rewrite ?rsum_cons, ?rsum_nil; ring.
Qed.
(*@ex C55_example *)
Lemma second_example : exists h f, @hessian_diag ones_platform (R * R) R (lin_grad (3, 5) 1) lin_loss (ex_params 0 2 1) (3, 5) 1 = Ok h /\ is_vec h F32 3 (fun i => match i with 0%nat => 1 | 1%nat => 9 | _ => 25 end) /\
  @fisher_diag ones_platform (R * R) R (lin_grad (3, 5) 1) lin_loss (ex_params 0 2 1) (3, 5) 1 = Ok f /\ is_vec f F32 3 (fun i => match i with 0%nat => 100 | 1%nat => 900 | _ => 2500 end).
Proof.
  assert (Hp : holds (avals (ex_params 0 2 1)) (ex_params 0 2 1) 3 (fun i => Fin (match i with 0%nat => 0 | 1%nat => 2 | _ => 1 end))) by (split; [reflexivity|]; split; [repeat constructor|reflexivity]).
  destruct (@hessian_diag_correct ones_platform _ _ (lin_grad (3, 5) 1) lin_loss (ex_params 0 2 1) (3, 5) 1 3 _ _ _ Hp (lin_exact 0 2 1 (3, 5) 1) eq_refl) as (h & Eh & Hh).
  destruct (@fisher_diag_correct ones_platform _ _ (lin_grad (3, 5) 1) lin_loss (ex_params 0 2 1) (3, 5) 1 3 _ _ _ Hp (lin_exact 0 2 1 (3, 5) 1)) as (f & Ef & Hf).
  exists h, f. split; [exact Eh|]. split; [eapply vec_ext; [|exact Hh]|split; [exact Ef|eapply vec_ext; [|exact Hf]]]; intros [|[|[|i]]] Hi; try lia; unfold feature; cbn [fst snd]; ring.
Qed.
