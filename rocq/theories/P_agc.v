(** adaptive_grad_clip in any arithmetic. *)
From Verif Require Export P_unit.
From Coq Require Import Bool.

(** The norm of the unit of [x] at position [o]: sum of squares, then the power 1/2, in the array's dtype. *)
Definition unit_norm_ops `{O : Ops} (x : tensor) (o : list nat) : F :=
  fpow (dt x) (fsum (dt x) (map (fun j => fmul (dt x) (tget x j) (tget x j)) (unit_members (shp x) o))) (fcast (dt x) (flit (1 # 2))).
Lemma unitwise_norm_ops `{O : Ops} (x : tensor) : twf x -> (exists ax, unit_axes (shp x) = Ok ax) ->
  exists N, unitwise_norm x = Ok N /\ shp N = nshape (shp x) /\ dt N = dt x /\ twf N /\ forall o, valid (shp x) o -> tget N (bidx (shp N) o) = unit_norm_ops x o.
Proof.
  intros W [ax E]. unfold unitwise_norm. rewrite E. cbn [rbind]. eexists; split; [reflexivity|].
  assert (Hsum : forall l, (forall j, In j l -> valid (shp x) j) -> map (tget (tsquare x)) l = map (fun j => fmul (dt x) (tget x j) (tget x j)) l).
  { intros l Hl. apply map_ext_in. intros j Hj. unfold tsquare, un. now rewrite tget_emap_gen by auto. }
  destruct ax as [red|].
  - assert (L := unit_red_len _ _ E).
    split; [unfold nshape, unit_red; rewrite E; reflexivity|]. split; [reflexivity|]. split; [unfold sr; apply emap_wf, reduce_wf|].
    intros o V. cbn [shp sr emap reduce tab]. cbn [shp tsquare un emap] in *. rewrite bidx_reduced by assumption.
    unfold sr. rewrite tget_emap_gen; [|apply reduce_wf|now apply proj_valid].
    rewrite tget_reduce by now apply proj_valid. cbn [shp dt tsquare un emap reduce tab]. rewrite unit_fiber by assumption.
    change (mkT (dt x) (shp x) (map _ (dat x))) with (tsquare x).
    rewrite Hsum; [reflexivity|intros j Hj; now apply In_unit in Hj].
  - split; [unfold nshape, unit_red; rewrite E; reflexivity|]. split; [reflexivity|]. split; [reflexivity|].
    intros o V. cbn [shp sr emap scalar]. rewrite bidx_nil. unfold tget at 1. cbn [ravel nth sr emap dat scalar map shp dt].
    unfold unit_norm_ops. rewrite unit_all by assumption. rewrite <- Hsum by (intros j Hj; now apply In_indices). unfold tsum.
    assert (W2 : twf (tsquare x)) by now apply emap_wf. rewrite (dat_tget _ W2) at 1. reflexivity.
Qed.
Lemma agc_leaf_ops `{O : Ops} (c eps : F) (g p : tensor) : twf g -> twf p -> dt g = dt p -> shp g = shp p -> (exists ax, unit_axes (shp g) = Ok ax) ->
  exists gn pn r, unitwise_norm g = Ok gn /\ unitwise_norm p = Ok pn /\
    unitwise_clip gn (emap (fun d x => fmul d (fcast d c) (fmax x (fcast d eps))) pn) g = Ok r /\ twf r /\ aval r = aval g /\
    forall o, valid (shp g) o ->
      let d := dt g in let n := unit_norm_ops g o in let M := fmul d (fcast d c) (fmax (unit_norm_ops p o) (fcast d eps)) in
      tget r o = if flt n M then tget g o else fmul d (tget g o) (fdiv d M (fmax n (fcast d (flit (1 # 1000000))))).
Proof.
  intros Wg Wp Ed Es Hax.
  destruct (unitwise_norm_ops g Wg Hax) as (gn & Eg & Sg & Dg & WNg & Vg).
  assert (Hax' : exists ax, unit_axes (shp p) = Ok ax) by (rewrite <- Es; exact Hax).
  destruct (unitwise_norm_ops p Wp Hax') as (pn & Ep & Sp & Dp & WNp & Vp).
  set (mn := emap (fun d x => fmul d (fcast d c) (fmax x (fcast d eps))) pn).
  assert (Smn : shp mn = nshape (shp g)) by (unfold mn; cbn [shp emap]; now rewrite Sp, Es).
  assert (Dmn : dt mn = dt g) by (unfold mn; cbn [dt emap]; now rewrite Dp, Ed).
  assert (Wmn : twf mn) by now apply emap_wf.
  assert (Vmn : forall o, valid (shp g) o -> tget mn (bidx (nshape (shp g)) o) = fmul (dt g) (fcast (dt g) c) (fmax (unit_norm_ops p o) (fcast (dt g) eps))).
  { intros o V. unfold mn. rewrite tget_emap_gen; [|assumption|rewrite Sp, <- Es; now apply bidx_n_valid].
    rewrite Es, <- Sp. rewrite Vp by now rewrite <- Es. now rewrite Dp, Ed. }
  assert (Vgn : forall o, valid (shp g) o -> tget gn (bidx (nshape (shp g)) o) = unit_norm_ops g o).
  { intros o V. rewrite <- Sg. now apply Vg. }
  set (gm := emap (fun d x => fmax x (fcast d (flit (1 # 1000000)))) gn).
  assert (Wgm : twf gm) by now apply emap_wf.
  assert (Sgm : shp gm = nshape (shp g)) by exact Sg.
  assert (Dgm : dt gm = dt g) by exact Dg.
  exists gn, pn. unfold unitwise_clip. fold gm.
  unfold bcmp at 1. fold mn. rewrite Sg, Smn, bshape_same, Dg, Dmn, promote_same. cbn [rbind].
  rewrite (bin_same_tab fdiv mn gm Wmn Wgm (eq_trans Smn (eq_sym Sgm))). cbn [rbind].
  match goal with |- context [bin fmul g ?x] => set (q := x) end.
  assert (Wq : twf q) by apply tab_wf. assert (Sq : shp q = nshape (shp g)) by exact Smn.
  assert (Dq : dt q = dt g) by (unfold q; cbn [dt tab]; now rewrite Dmn, Dgm, promote_same).
  rewrite (bin_tab fmul g q (shp g) Wg Wq) by (rewrite Sq; now apply bshape_n). cbn [rbind].
  unfold twhere_b. cbn [shp tab dt]. rewrite bshape_same, bshape_n_l by assumption. rewrite Dq, !promote_same.
  eexists. split; [exact Eg|]. split; [exact Ep|]. split; [reflexivity|]. split; [apply tab_wf|]. split; [reflexivity|].
  intros o V. cbn zeta. rewrite tget_tab by assumption. rewrite !conv_same.
  assert (VN := bidx_n_valid _ _ Hax V).
  rewrite (nth_tab _ (nshape (shp g))) by assumption. rewrite (bidx_same (nshape (shp g)) (bidx (nshape (shp g)) o)) by assumption.
  rewrite !conv_same, Vmn, Vgn by assumption. rewrite !bidx_same by assumption.
  rewrite tget_tab by assumption. rewrite !conv_same, (bidx_same (shp g)) by assumption. rewrite Sq.
  unfold q. rewrite Smn, Dmn, Dgm, promote_same. rewrite tget_tab by assumption. rewrite !conv_same. rewrite Vmn by assumption.
  unfold gm. rewrite tget_emap_gen by first [exact WNg | rewrite Sg; exact VN]. rewrite Vgn, Dg by assumption. reflexivity.
Qed.
(*@ C06_any_arithmetic : In any arithmetic, for trees of equal structure, shapes and dtypes with leaves of supported rank: adaptive_grad_clip keeps structure, shapes and dtypes, and in a leaf of dtype d every element g of a unit becomes g where norm(unit) < clipping * max(norm(param unit), eps), else g * (that bound / max(norm(unit), 1e-6)); a norm is the sum of the squares of the unit's elements to the power 1/2; every operation is made in d. *)
Lemma agc_ops : forall `{O : Ops} (u p : tree tensor) (c eps : F) (st : state), avals u = avals p -> trwf u -> trwf p ->
  Forall (fun t => one_unit (shp t) = true \/ (2 <= length (shp t) <= 4)%nat) (leaves u) ->
  exists u', update (adaptive_grad_clip c eps) u st (Some p) = Ok (u', st) /\ like u u' /\
    forall l a b r, nth_error (leaves u) l = Some a -> nth_error (leaves p) l = Some b -> nth_error (leaves u') l = Some r ->
      forall o, valid (shp a) o ->
        let d := dt a in
        let norm x := fpow d (fsum d (map (fun j => fmul d (tget x j) (tget x j)) (unit_members (shp a) o))) (fcast d (flit (1 # 2))) in
        let bound := fmul d (fcast d c) (fmax (norm b) (fcast d eps)) in
        tget r o = if flt (norm a) bound then tget a o else fmul d (tget a o) (fdiv d bound (fmax (norm a) (fcast d (flit (1 # 1000000))))).
Proof.
  intros O u p c eps st Ea Wu Wp Hr.
  destruct (tree_pair aval aval u p Ea) as (z & Z1 & Z2 & Zs). unfold trwf in Wu, Wp.
  assert (Hax : forall s, one_unit s = true \/ (2 <= length s <= 4)%nat -> exists ax, unit_axes s = Ok ax).
  { intros s Hs. unfold unit_axes. rewrite <- one_unit_eq. destruct (one_unit s); [eauto|]. destruct Hs as [|Hs]; [discriminate|].
    destruct s as [|? [|? [|? [|? [|? ?]]]]]; cbn in Hs; try lia; eauto. }
  set (f := fun d x => fmul d (fcast d c) (fmax x (fcast d eps))). rewrite Forall_forall in Zs.
  destruct (tree_choice (fun q (r : tensor * tensor * tensor) =>
     unitwise_norm (fst q) = Ok (fst (fst r)) /\ unitwise_norm (snd q) = Ok (snd (fst r)) /\
     unitwise_clip (fst (fst r)) (emap f (snd (fst r))) (fst q) = Ok (snd r) /\ twf (snd r) /\ aval (snd r) = aval (fst q) /\
     forall o, valid (shp (fst q)) o ->
      let d := dt (fst q) in let n := unit_norm_ops (fst q) o in let M := fmul d (fcast d c) (fmax (unit_norm_ops (snd q) o) (fcast d eps)) in
      tget (snd r) o = if flt n M then tget (fst q) o else fmul d (tget (fst q) o) (fdiv d M (fmax n (fcast d (flit (1 # 1000000)))))) z) as (w & Ew & Hw).
  { rewrite <- Z1, leaves_tmap, Forall_map in Wu, Hr. rewrite <- Z2, leaves_tmap, Forall_map in Wp. rewrite Forall_forall in *.
    intros q Hq. pose proof (Zs q Hq) as A. destruct (agc_leaf_ops c eps (fst q) (snd q)) as (gn & pn & r & H1 & H2 & H3 & H6 & H4 & H5); auto; [exact (f_equal fst A)|exact (f_equal snd A)|].
    exists (gn, pn, r). cbn [fst snd]. auto 10. }
  rewrite Forall_forall in Hw. exists (tmap (fun q => snd (snd q)) w).
  assert (Eu : u = tmap (fun q => fst (fst q)) w) by (rewrite <- Z1, <- Ew, tmap_tmap; reflexivity).
  assert (Ep : p = tmap (fun q => snd (fst q)) w) by (rewrite <- Z2, <- Ew, tmap_tmap; reflexivity).
  split.
  { cbn [update adaptive_grad_clip stateless]. rewrite Eu, Ep, !tmapM_tmap.
    rewrite (tmapM_ext _ (fun q => Ok (fst (fst (snd q))))) by (intros q Hq; apply Hw, Hq). rewrite tmapM_ok. cbn [rbind].
    rewrite (tmapM_ext _ (fun q => Ok (snd (fst (snd q))))) by (intros q Hq; apply Hw, Hq). rewrite tmapM_ok. cbn [rbind].
    rewrite tmap_tmap, tmm3_same.
    rewrite (tmapM_ext _ (fun q => Ok (snd (snd q)))) by (intros q Hq; apply Hw, Hq). rewrite tmapM_ok. reflexivity. }
  split; [split|].
  - unfold avals. rewrite Eu, !tmap_tmap. apply tmap_ext. intros q Hq. apply Hw, Hq.
  - unfold trwf. rewrite leaves_tmap, Forall_map, Forall_forall. intros q Hq. apply Hw, Hq.
  - intros l a b r. rewrite Eu, Ep, !nth_error_leaves_tmap. destruct (nth_error (leaves w) l) as [q|] eqn:Eq; cbn [option_map]; [|discriminate].
    intros [= <-] [= <-] [= <-] o V. destruct (Hw q (nth_error_In _ _ Eq)) as (_ & _ & _ & _ & _ & Hv).
    assert (A : aval (fst (fst q)) = aval (snd (fst q))). { apply (Zs (fst q)). rewrite <- Ew, leaves_tmap. apply in_map. now apply nth_error_In in Eq. }
    rewrite (Hv o V). unfold unit_norm_ops. unfold aval in A. injection A as A1 A2. rewrite <- A1, <- A2. reflexivity.
Qed.
