(** Per-unit clipping (adaptive_grad_clip), centralize, SM3. *)
From Verif Require Export P_norm.
From Coq Require Import Psatz Qreals Permutation.
Open Scope R_scope.
(*@header
Open Scope R_scope.
*)

Lemma tmapM_Err {A B} (f : A -> result B) (t : tree A) e : tmapM f t = Err e -> exists a, In a (leaves t) /\ f a = Err e.
Proof.
  revert e; induction t as [a|k ts IH] using tree_ind'; cbn; intros e.
  - destruct (f a) as [b|e'] eqn:E; cbn; [discriminate|]. intros [= <-]. exists a. auto.
  - destruct (mapM (tmapM f) ts) as [x|e'] eqn:E; cbn; [discriminate|]. intros [= <-].
    assert (IH' : Forall (fun t => forall e, tmapM f t = Err e -> exists a, In a (leaves t) /\ f a = Err e) ts) by (eapply Forall_impl; [|exact IH]; auto).
    clear IH. revert e' E. induction IH' as [|t ts Ht _ IHts]; cbn; intros e' E; [discriminate|].
    destruct (tmapM f t) as [y|e''] eqn:Et; cbn in E.
    + destruct (mapM (tmapM f) ts) as [ys|e''] eqn:Es; cbn in E; [discriminate|]. injection E as <-.
      destruct (IHts _ eq_refl) as (a & Ha & Hf). exists a. split; [apply in_or_app; now right|assumption].
    + injection E as <-. destruct (Ht _ eq_refl) as (a & Ha & Hf). exists a. split; [apply in_or_app; now left|assumption].
Qed.

(** ** C06 *)
(** The output unit an element belongs to: arrays with at most one dimension different from 1 are
    one unit; the units of a matrix are its columns (reduction over axis 0); of a rank-3 array, too;
    of a rank-4 kernel HWIO, the fibres over H, W, I. *)
Definition one_unit (s : list nat) : bool := Nat.leb (length (filter (fun n => negb (n =? 1)%nat) s)) 1.
Definition unit_key (s idx : list nat) : list nat :=
  if one_unit s then [] else
  match length s with
  | 2 => [nth 1 idx 0] | 3 => [nth 1 idx 0; nth 2 idx 0] | 4 => [nth 3 idx 0] | _ => idx
  end%nat.
Definition unit_members (s o : list nat) : list (list nat) :=
  filter (fun j => list_eqb Nat.eqb (unit_key s j) (unit_key s o)) (indices s).
Definition rget `{P : Platform} (x : tensor) (j : list nat) : R := xval (tget x j).
Definition unit_norm `{P : Platform} (x : tensor) (o : list nat) : R :=
  norm2 (map (rget x) (unit_members (shp x) o)).

Lemma In_unit s o j : In j (unit_members s o) <-> valid s j /\ unit_key s j = unit_key s o.
Proof.
  unfold unit_members. rewrite filter_In, In_indices. split; intros [H1 H2]; split; auto;
    now apply (list_eqb_spec Nat.eqb Nat.eqb_eq).
Qed.
Lemma unit_members_same s i j : unit_key s i = unit_key s j -> unit_members s i = unit_members s j.
Proof. intros E. unfold unit_members. now rewrite E. Qed.

Lemma nth_tab {A} d s (f : list nat -> A) i b : valid s i -> nth (ravel s i) (dat (tab d s f)) b = f i.
Proof. intros V. cbn. apply nth_error_nth. rewrite nth_error_map, nth_error_indices by assumption. reflexivity. Qed.

Section Agc.
  Context `{P : Platform}.
  Notation xr := (XROps P).
  (** the norm arrays: shape [sN], addressed by [bidx sN] *)
  Definition unit_red (s : list nat) : option (list bool) := match unit_axes s with Ok r => r | _ => None end.
  Definition nshape (s : list nat) : list nat := match unit_red s with None => [] | Some red => reduced_shape red s end.

  Lemma one_unit_eq s : one_unit s = Nat.leb (squeeze_rank s) 1.
  Proof. reflexivity. Qed.
  Lemma unit_red_len s red : unit_axes s = Ok (Some red) -> length red = length s.
  Proof.
    unfold unit_axes. destruct (Nat.leb _ _); [discriminate|].
    destruct s as [|a [|b [|c [|d [|e s]]]]]; intros [= <-]; reflexivity.
  Qed.
  Lemma unit_fiber s red o : unit_axes s = Ok (Some red) -> valid s o ->
    fiber red s (proj red o) = unit_members s o.
  Proof.
    intros E V. unfold fiber, unit_members. apply filter_ext_in. intros j Hj. apply In_indices in Hj.
    unfold unit_key. rewrite one_unit_eq. unfold unit_axes in E. destruct (Nat.leb (squeeze_rank s) 1); [discriminate|].
    destruct s as [|a [|b [|c [|d [|e s]]]]]; try discriminate E; injection E as <-;
    destruct o as [|o0 [|o1 [|o2 [|o3 [|o4 o]]]]]; cbn in V; try tauto;
    destruct j as [|j0 [|j1 [|j2 [|j3 [|j4 j]]]]]; cbn in Hj; try tauto; cbn; rewrite ?andb_true_r; reflexivity.
  Qed.
  Lemma unit_all s o : unit_axes s = Ok None -> unit_members s o = indices s.
  Proof.
    unfold unit_axes. intros E. unfold unit_members, unit_key. rewrite one_unit_eq.
    destruct (Nat.leb (squeeze_rank s) 1).
    - induction (indices s) as [|a l IH]; cbn; [reflexivity|]. now f_equal.
    - exfalso. destruct s as [|? [|? [|? [|? [|? ?]]]]]; discriminate.
  Qed.
  Lemma bshape_n s : (exists ax, unit_axes s = Ok ax) -> bshape s (nshape s) = Some s.
  Proof.
    intros [[red|] E]; unfold nshape, unit_red; rewrite E.
    - apply bshape_reduced. now apply unit_red_len.
    - apply bshape_nil_r.
  Qed.
  Lemma bshape_n_l s : (exists ax, unit_axes s = Ok ax) -> bshape (nshape s) s = Some s.
  Proof.
    intros [[red|] E]; unfold nshape, unit_red; rewrite E.
    - apply bshape_reduced_l. now apply unit_red_len.
    - apply bshape_nil_l.
  Qed.
  Lemma bidx_n_valid s o : (exists ax, unit_axes s = Ok ax) -> valid s o -> valid (nshape s) (bidx (nshape s) o).
  Proof.
    intros [[red|] E] V; unfold nshape, unit_red; rewrite E.
    - pose proof (unit_red_len _ _ E). rewrite bidx_reduced by assumption. now apply proj_valid.
    - now rewrite bidx_nil.
  Qed.
  Lemma xsqrt_half a : 0 <= a -> xpow (Fin a) (Fin (Q2R (1 # 2))) = Fin (sqrt a).
  Proof.
    intros Ha. assert (Hh : Q2R (1 # 2) = / 2) by (unfold Q2R; cbn; lra). rewrite Hh.
    destruct (Req_dec a 0) as [->|Hn].
    - rewrite sqrt_0. cbn. destruct (Req_EM_T (/ 2) 0); [lra|].
      destruct (is_int (/ 2)) as [n0|] eqn:E.
      + apply is_int_Some in E. exfalso. assert (0 < IZR n0 < 1) as [H1 H2] by lra. apply lt_IZR in H1, H2. lia.
      + destruct (Rlt_dec 0 0); [lra|]. destruct (Req_EM_T 0 0); [|easy]. destruct (Rlt_dec (/ 2) 0); [lra|reflexivity].
    - rewrite xpow_pos by lra. f_equal. rewrite Rpower_sqrt by lra. reflexivity.
  Qed.
  Lemma fin_tget (x : gt XR) j : twf x -> Forall isfin (dat x) -> valid (shp x) j -> @tget xr x j = Fin (rget x j).
  Proof.
    intros W H V. rewrite Forall_forall in H. unfold rget. apply isfin_val, H. eapply nth_error_In. apply (@tget_nth xr); assumption.
  Qed.
  Lemma xsum_map_fin {A} (f : A -> XR) (g : A -> R) l : (forall a, In a l -> f a = Fin (g a)) -> xsum (map f l) = Fin (rsum (map g l)).
  Proof. intros H. unfold rsum. rewrite <- xsum_fin, map_map. f_equal. now apply map_ext_in. Qed.

  Lemma unitwise_norm_val (x : gt XR) : twf x -> Forall isfin (dat x) -> (exists ax, unit_axes (shp x) = Ok ax) ->
    exists N, @unitwise_norm xr x = Ok N /\ shp N = nshape (shp x) /\ dt N = dt x /\ twf N /\
      forall o, valid (shp x) o -> @tget xr N (bidx (shp N) o) = Fin (unit_norm x o).
  Proof.
    intros W Hf [ax E]. unfold unitwise_norm. nx. rewrite E. cbn [rbind]. eexists; split; [reflexivity|].
    assert (Hsum : forall l, (forall j, In j l -> valid (shp x) j) -> xsum (map (@tget xr (@tsquare xr x)) l) = Fin (sumsq (map (rget x) l))).
    { intros l Hl. unfold sumsq. rewrite map_map. apply xsum_map_fin. intros j Hj. unfold tsquare, un.
      rewrite tget_emap_gen by auto. rewrite fin_tget by auto. reflexivity. }
    destruct ax as [red|].
    - assert (L := unit_red_len _ _ E).
      split; [unfold nshape, unit_red; rewrite E; reflexivity|]. split; [reflexivity|]. split; [unfold sr; apply emap_wf, reduce_wf|].
      intros o V. cbn [shp sr emap reduce tab]. cbn [shp tsquare un emap] in *. rewrite bidx_reduced by assumption.
      unfold sr. rewrite tget_emap_gen; [|apply reduce_wf|now apply proj_valid].
      rewrite tget_reduce by now apply proj_valid.
      cbn [fsum fpow fcast flit XROps shp dt tsquare un emap]. rewrite unit_fiber by assumption.
      change (mkT (dt x) (shp x) (map _ (dat x))) with (@tsquare xr x).
      rewrite Hsum; [|intros j Hj; now apply In_unit in Hj]. rewrite xsqrt_half by apply sumsq_nonneg. reflexivity.
    - split; [unfold nshape, unit_red; rewrite E; reflexivity|]. split; [reflexivity|]. split; [reflexivity|].
      intros o V. cbn [shp sr emap scalar]. rewrite bidx_nil. unfold tget. cbn [ravel nth sr emap dat scalar map shp].
      cbn [fpow fcast flit XROps]. rewrite tsum_square by assumption.
      rewrite xsqrt_half by apply sumsq_nonneg. unfold unit_norm. rewrite unit_all by assumption.
      replace (map (rget x) (indices (shp x))) with (map xval (dat x)); [reflexivity|].
      pose proof (@dat_tget xr x W) as Hd. nx. rewrite Hd at 1. rewrite map_map. reflexivity.
  Qed.

  Lemma agc_leaf (c eps : R) (g p : gt XR) : twf g -> twf p -> shp g = shp p -> Forall isfin (dat g) -> Forall isfin (dat p) ->
    (exists ax, unit_axes (shp g) = Ok ax) -> 0 <= c -> 0 <= eps ->
    exists gn pn r, @unitwise_norm xr g = Ok gn /\ @unitwise_norm xr p = Ok pn /\
      @unitwise_clip xr gn (emap (fun d x => @fmul xr d (@fcast xr d (Fin c)) (@fmax xr x (@fcast xr d (Fin eps)))) pn) g = Ok r /\
      twf r /\ shp r = shp g /\
      forall o, valid (shp g) o ->
        let n := unit_norm g o in let M := c * Rmax (unit_norm p o) eps in
        @tget xr r o = Fin (if Rlt_dec n M then rget g o else rget g o * (M / Rmax n (1 / 1000000))).
  Proof.
    intros Wg Wp Es Fg Fp Hax Hc Heps.
    destruct (unitwise_norm_val g Wg Fg Hax) as (gn & Eg & Sg & Dg & WNg & Vg).
    assert (Hax' : exists ax, unit_axes (shp p) = Ok ax) by (rewrite <- Es; exact Hax).
    destruct (unitwise_norm_val p Wp Fp Hax') as (pn & Ep & Sp & Dp & WNp & Vp).
    set (mn := emap (fun d x => @fmul xr d (@fcast xr d (Fin c)) (@fmax xr x (@fcast xr d (Fin eps)))) pn).
    assert (Smn : shp mn = nshape (shp g)) by (unfold mn; cbn [shp emap]; now rewrite Sp, Es).
    assert (Wmn : twf mn) by now apply emap_wf.
    assert (Vmn : forall o, valid (shp g) o -> @tget xr mn (bidx (nshape (shp g)) o) = Fin (c * Rmax (unit_norm p o) eps)).
    { intros o V. unfold mn. rewrite tget_emap_gen; [|assumption|rewrite Sp, <- Es; now apply bidx_n_valid].
      rewrite Es, <- Sp. rewrite Vp by now rewrite <- Es. reflexivity. }
    assert (Vgn : forall o, valid (shp g) o -> @tget xr gn (bidx (nshape (shp g)) o) = Fin (unit_norm g o)).
    { intros o V. rewrite <- Sg. now apply Vg. }
    set (gm := emap (fun d x => @fmax xr x (@fcast xr d (@flit xr (1 # 1000000)))) gn).
    assert (Wgm : twf gm) by now apply emap_wf.
    assert (Sgm : shp gm = nshape (shp g)) by exact Sg.
    exists gn, pn. unfold unitwise_clip. fold gm.
    unfold bcmp at 1. nx. fold mn. rewrite Sg, Smn, bshape_same. cbn [rbind].
    rewrite (@bin_same_tab xr (@fdiv xr) mn gm Wmn Wgm (eq_trans Smn (eq_sym Sgm))). cbn [rbind].
    match goal with |- context [@bin _ (@fmul xr) g ?x] => set (q := x) end.
    assert (Wq : twf q) by apply tab_wf. assert (Sq : shp q = nshape (shp g)) by exact Smn.
    rewrite (@bin_tab xr (@fmul xr) g q (shp g) Wg Wq) by (rewrite Sq; now apply bshape_n). cbn [rbind].
    unfold twhere_b. cbn [shp tab]. rewrite bshape_same, bshape_n_l by assumption.
    eexists. split; [exact Eg|]. split; [exact Ep|]. split; [reflexivity|]. split; [apply tab_wf|]. split; [reflexivity|].
    intros o V. set (n := unit_norm g o). set (M := c * Rmax (unit_norm p o) eps). rewrite (@tget_tab xr) by assumption. rewrite !xconv.
    assert (VN := bidx_n_valid _ _ Hax V).
    rewrite (nth_tab _ (nshape (shp g))) by assumption. rewrite (@bidx_same (nshape (shp g)) (bidx (nshape (shp g)) o)) by assumption.
    rewrite !xconv, Vmn, Vgn by assumption. nx. rewrite !bidx_same by assumption.
     rewrite (@tget_tab xr) by assumption. rewrite !xconv, (bidx_same (shp g)) by assumption. rewrite Sq.
    unfold q. rewrite Smn. rewrite (@tget_tab xr) by assumption. rewrite !xconv. rewrite Vmn by assumption.
    unfold gm. rewrite (@tget_emap_gen xr) by first [exact WNg | nx; rewrite Sg; exact VN]. rewrite Vgn by assumption.
    rewrite fin_tget by assumption. fold n M. cbn [flt fmul fdiv fmax fcast flit XROps].
    assert (Hq : Q2R (1 # 1000000) = 1 / 1000000) by (unfold Q2R; cbn; lra). rewrite Hq. cbn [xmax].
    assert (0 < Rmax n (1 / 1000000)) by (pose proof (Rmax_r n (1 / 1000000)); lra).
    destruct (Rlt_dec n M) as [Hl|Hl].
    - assert (E : xlt (Fin n) (Fin M) = true) by now apply xlt_fin. now rewrite E.
    - assert (E : xlt (Fin n) (Fin M) = false) by (apply xlt_fin_f; lra). rewrite E.
      rewrite xdiv_fin by lra. reflexivity.
  Qed.
End Agc.

(*@ C06_adaptive_grad_clip : For every pair of trees of one structure with equal shapes (dtypes arbitrary), finite elements, c, eps >= 0 and leaves of supported rank: it succeeds, keeps structure and shapes, and for every leaf and every unit of it there is k >= 0 with output = k * input on that unit, the unit's norm is at most c*max(norm of the param unit, eps), and a unit whose norm is below that bound is unchanged. *)
Lemma agc_spec : forall `{P : Platform} (u p : tree tensor) (c eps : R) (st : state),
  0 <= c -> 0 <= eps -> tmap (fun t => shp t) u = tmap (fun t => shp t) p -> trwf u -> trwf p -> finite_tree u -> finite_tree p ->
  Forall (fun t => one_unit (shp t) = true \/ (2 <= length (shp t) <= 4)%nat) (leaves u) ->
  exists u', update (adaptive_grad_clip (Fin c) (Fin eps)) u st (Some p) = Ok (u', st) /\ tmap (fun t => shp t) u' = tmap (fun t => shp t) u /\
    forall l a b r, nth_error (leaves u) l = Some a -> nth_error (leaves p) l = Some b -> nth_error (leaves u') l = Some r ->
      forall o, valid (shp a) o ->
        let bound := c * Rmax (unit_norm b o) eps in
        unit_norm r o <= bound /\
        (exists k, 0 <= k /\ forall j, In j (unit_members (shp a) o) -> tget r j = Fin (k * rget a j)) /\
        (unit_norm a o < bound -> forall j, In j (unit_members (shp a) o) -> tget r j = tget a j).
Proof.
  intros P u p c eps st Hc He Es Wu Wp Fu Fp Hr.
  destruct (tree_pair shp shp u p Es) as (z & Z1 & Z2 & Zs). apply finite_leaves in Fu, Fp. unfold trwf in Wu, Wp. nx.
  assert (Hax : forall s, one_unit s = true \/ (2 <= length s <= 4)%nat -> exists ax, unit_axes s = Ok ax).
  { intros s Hs. unfold unit_axes. rewrite <- one_unit_eq. destruct (one_unit s); [eauto|]. destruct Hs as [|Hs]; [discriminate|].
    destruct s as [|? [|? [|? [|? [|? ?]]]]]; cbn in Hs; try lia; eauto. }
  set (f := fun d x => @fmul (XROps P) d (@fcast (XROps P) d (Fin c)) (@fmax (XROps P) x (@fcast (XROps P) d (Fin eps)))).
  destruct (tree_choice (fun q (r : gt XR * gt XR * gt XR) =>
     @unitwise_norm (XROps P) (fst q) = Ok (fst (fst r)) /\ @unitwise_norm (XROps P) (snd q) = Ok (snd (fst r)) /\
     @unitwise_clip (XROps P) (fst (fst r)) (emap f (snd (fst r))) (fst q) = Ok (snd r) /\ shp (snd r) = shp (fst q) /\
     forall o, valid (shp (fst q)) o ->
        let n := unit_norm (fst q) o in let M := c * Rmax (unit_norm (snd q) o) eps in
        @tget (XROps P) (snd r) o = Fin (if Rlt_dec n M then rget (fst q) o else rget (fst q) o * (M / Rmax n (1 / 1000000)))) z) as (w & Ew & Hw).
  { rewrite <- Z1, leaves_tmap, Forall_map in Wu, Fu, Hr. rewrite <- Z2, leaves_tmap, Forall_map in Fp, Wp. rewrite Forall_forall in *.
    intros q Hq. destruct (agc_leaf c eps (fst q) (snd q)) as (gn & pn & r & H1 & H2 & H3 & _ & H4 & H5); auto.
    exists (gn, pn, r). cbn [fst snd]. auto 10. }
  rewrite Forall_forall in Hw, Zs. exists (tmap (fun q => snd (snd q)) w).
  assert (Eu : u = tmap (fun q => fst (fst q)) w) by (rewrite <- Z1, <- Ew, tmap_tmap; reflexivity).
  assert (Ep : p = tmap (fun q => snd (fst q)) w) by (rewrite <- Z2, <- Ew, tmap_tmap; reflexivity).
  split.
  { cbn [update adaptive_grad_clip stateless]. rewrite Eu, Ep, !tmapM_tmap.
    rewrite (tmapM_ext _ (fun q => Ok (fst (fst (snd q))))) by (intros q Hq; apply Hw, Hq). rewrite tmapM_ok. cbn [rbind].
    rewrite (tmapM_ext _ (fun q => Ok (snd (fst (snd q))))) by (intros q Hq; apply Hw, Hq). rewrite tmapM_ok. cbn [rbind].
    rewrite tmap_tmap, tmm3_same.
    rewrite (tmapM_ext _ (fun q => Ok (snd (snd q)))) by (intros q Hq; apply Hw, Hq). rewrite tmapM_ok. reflexivity. }
  split; [rewrite Eu, !tmap_tmap; apply tmap_ext; intros q Hq; apply Hw, Hq|].
  intros l a b r. rewrite Eu, Ep, !nth_error_leaves_tmap. destruct (nth_error (leaves w) l) as [q|] eqn:Eq; cbn [option_map]; [|discriminate].
  intros [= <-] [= <-] [= <-] o V. set (bound := c * Rmax (unit_norm (snd (fst q)) o) eps). destruct (Hw q (nth_error_In _ _ Eq)) as (_ & _ & _ & Hs & Hv).
  set (a := fst (fst q)) in *. set (b := snd (fst q)) in *. set (r := snd (snd q)) in *. nx.
  assert (Sb : shp b = shp a).
  { symmetry. apply (Zs (fst q)). rewrite <- Ew, leaves_tmap. apply in_map. now apply nth_error_In in Eq. }
  assert (Hun : forall (x : gt XR) i, shp x = shp a -> In i (unit_members (shp a) o) -> unit_norm x i = unit_norm x o).
  { intros x i Ex Hi. apply In_unit in Hi as [_ Hk]. unfold unit_norm. nx. rewrite Ex. now rewrite (unit_members_same _ _ _ Hk). }
  set (n := unit_norm a o) in *. assert (Hn : 0 <= n) by apply norm2_nonneg.
  set (k := if Rlt_dec n bound then 1 else bound / Rmax n (1 / 1000000)).
  assert (Hb : 0 <= bound). { unfold bound. apply Rmult_le_pos; [assumption|]. eapply Rle_trans; [exact He|apply Rmax_r]. }
  assert (Hmx : 0 < Rmax n (1 / 1000000)) by (pose proof (Rmax_r n (1 / 1000000)); lra).
  assert (Hk0 : 0 <= k). { unfold k. destruct (Rlt_dec n bound); [lra|]. apply Rdiv_nonneg; lra. }
  assert (Hk : forall j, In j (unit_members (shp a) o) -> tget r j = Fin (k * rget a j)).
  { intros j Hj. pose proof (Hun a j eq_refl Hj) as Ha. pose proof (Hun b j Sb Hj) as Hbj. apply In_unit in Hj as [Vj _]. rewrite (Hv j Vj). cbn zeta. rewrite Ha, Hbj. fold n bound.
    unfold k. destruct (Rlt_dec n bound); f_equal; ring. }
  change (unit_norm r o <= bound /\ (exists k, 0 <= k /\ forall j, In j (unit_members (shp a) o) -> tget r j = Fin (k * rget a j)) /\
    (n < bound -> forall j, In j (unit_members (shp a) o) -> tget r j = tget a j)).
  split; [|split].
  - assert (En : unit_norm r o = k * n).
    { unfold unit_norm at 1. nx. rewrite Hs. unfold n, unit_norm. rewrite <- (Rabs_right k) by lra. rewrite <- norm2_scal, map_map.
      f_equal. apply map_ext_in. intros j Hj. unfold rget at 1. rewrite (Hk j Hj). cbn [xval]. reflexivity. }
    rewrite En. unfold k. destruct (Rlt_dec n bound); [lra|].
    pose proof (Rmax_l n (1 / 1000000)). apply (Rmult_le_reg_r (Rmax n (1 / 1000000))); [assumption|].
    replace (bound / Rmax n (1 / 1000000) * n * Rmax n (1 / 1000000)) with (bound * n) by (field; lra). nra.
  - exists k. split; assumption.
  - intros Hl j Hj. rewrite (Hk j Hj). apply In_unit in Hj as [Vj _].
    assert (Ha : Forall isfin (dat a)).
    { rewrite Forall_forall in Fu. apply Fu. rewrite Eu, leaves_tmap. apply (in_map (fun q => fst (fst q))). now apply nth_error_In in Eq. }
    assert (Wa : twf a).
    { rewrite Forall_forall in Wu. apply Wu. rewrite Eu, leaves_tmap. apply (in_map (fun q => fst (fst q))). now apply nth_error_In in Eq. }
    rewrite (fin_tget a j Wa Ha Vj). unfold k. destruct (Rlt_dec n bound); [f_equal; ring|easy].
Qed.
(*@ C06_unsupported_rank_raises : A leaf with at least two non-trivial dimensions and rank above 4 makes it raise ValueError, in any arithmetic. *)
Lemma agc_rank : forall `{O : Ops} (u p : tree tensor) (c eps : F) (st : state),
  Exists (fun t => one_unit (shp t) = false /\ (4 < length (shp t))%nat) (leaves u) ->
  update (adaptive_grad_clip c eps) u st (Some p) = Err EValue.
Proof.
  intros O u p c eps st He. cbn [update adaptive_grad_clip stateless].
  assert (H1 : forall x : tensor, forall e, unitwise_norm x = Err e -> e = EValue).
  { intros x e. unfold unitwise_norm, unit_axes. destruct (Nat.leb _ 1); [discriminate|].
    destruct (shp x) as [|? [|? [|? [|? [|? ?]]]]]; cbn; try discriminate; now intros [= <-]. }
  destruct (tmapM_fails unitwise_norm u) as [e E].
  { apply Exists_exists in He as (t & Ht & H2 & H3). apply Exists_exists. exists t. split; [assumption|]. exists EValue.
    unfold unitwise_norm, unit_axes. rewrite <- one_unit_eq, H2. destruct (shp t) as [|? [|? [|? [|? [|? ?]]]]]; cbn in H3; try lia. reflexivity. }
  rewrite E. cbn. f_equal. apply tmapM_Err in E as (a & _ & Ha). now apply H1 in Ha.
Qed.
(*@ C06_params_required : Without params it raises ValueError. *)
Lemma agc_none : forall `{O : Ops} (c eps : F) u st, update (adaptive_grad_clip c eps) u st None = Err EValue.
Proof. reflexivity. Qed.
(*@ex C06_example *)
Lemma agc_example : forall `{P : Platform}, exists u',
  update (adaptive_grad_clip (Fin (1/2)) (Fin (1/1000))) (ex_g 2) EmptyState (Some ex_p) = Ok (u', EmptyState) /\ tmap (fun t => shp t) u' = tmap (fun t => shp t) ex_p.
Proof.
  intros P. destruct (agc_spec (ex_g 2) ex_p (1/2) (1/1000) EmptyState) as (u' & E & Es & _); try lra.
  - reflexivity. - apply ex_g_wf. - apply ex_p_wf. - repeat constructor; eexists; reflexivity. - repeat constructor; eexists; reflexivity.
  - constructor; [left; reflexivity|constructor; [right; cbn; lia|constructor]].
  - exists u'. split; [exact E|]. rewrite Es. reflexivity.
Qed.

(** ** C27 *)
Lemma proj_trues (rest j : list nat) : length j = length rest -> proj (map (fun _ => true) rest) j = map (fun _ => 0%nat) rest.
Proof. revert j; induction rest as [|n rest IH]; intros [|i j]; cbn; try discriminate; [reflexivity|]. intros [= E]. f_equal. now apply IH. Qed.
Lemma filter_none {A} (f : A -> bool) l : (forall x, In x l -> f x = false) -> filter f l = [].
Proof. induction l as [|a l IH]; cbn; intros H; [reflexivity|]. rewrite H by auto. apply IH. auto. Qed.
Lemma filter_all {A} (f : A -> bool) l : (forall x, In x l -> f x = true) -> filter f l = l.
Proof. induction l as [|a l IH]; cbn; intros H; [reflexivity|]. rewrite H by auto. f_equal. apply IH. auto. Qed.
Lemma filter_app_ {A} (f : A -> bool) l m : filter f (l ++ m) = filter f l ++ filter f m.
Proof. induction l as [|a l IH]; cbn; [reflexivity|]. rewrite IH. now destruct (f a). Qed.
Lemma fiber_first n rest i : (i < n)%nat ->
  fiber (not_first (n :: rest)) (n :: rest) (i :: map (fun _ => 0%nat) rest) = map (cons i) (indices rest).
Proof.
  intros Hi. unfold fiber. cbn [not_first indices].
  assert (Hp : forall k j, In j (indices rest) -> proj (false :: map (fun _ => true) rest) (k :: j) = k :: map (fun _ => 0%nat) rest).
  { intros k j Hj. apply In_indices, valid_length in Hj. unfold proj. cbn [map2]. f_equal. exact (proj_trues rest j Hj). }
  assert (G : forall l, NoDup l -> In i l ->
    filter (fun j => list_eqb Nat.eqb (proj (false :: map (fun _ => true) rest) j) (i :: map (fun _ => 0%nat) rest)) (flat_map (fun k => map (cons k) (indices rest)) l) = map (cons i) (indices rest)).
  { assert (G0 : forall l, ~ In i l ->
      filter (fun j => list_eqb Nat.eqb (proj (false :: map (fun _ => true) rest) j) (i :: map (fun _ => 0%nat) rest)) (flat_map (fun k => map (cons k) (indices rest)) l) = []).
    { intros l Hl. apply filter_none. intros x Hx. apply in_flat_map in Hx as (k & Hk & Hx). apply in_map_iff in Hx as (j & <- & Hj).
      rewrite Hp by assumption. cbn. destruct (Nat.eqb_spec k i); [now subst|reflexivity]. }
    induction l as [|k l IH]; intros HN HI; [destruct HI|]. inversion HN; subst. cbn [flat_map]. rewrite filter_app_.
    destruct (Nat.eq_dec k i) as [->|Hne].
    - rewrite G0 by assumption. rewrite app_nil_r. apply filter_all. intros x Hx. apply in_map_iff in Hx as (j & <- & Hj).
      rewrite Hp by assumption. now apply (list_eqb_spec Nat.eqb Nat.eqb_eq).
    - rewrite IH; [|assumption|destruct HI; [congruence|assumption]].
      rewrite filter_none; [reflexivity|]. intros x Hx. apply in_map_iff in Hx as (j & <- & Hj).
      rewrite Hp by assumption. cbn. destruct (Nat.eqb_spec k i); [congruence|reflexivity]. }
  apply G; [apply seq_NoDup|apply in_seq; lia].
Qed.

Lemma subtract_mean_val `{P : Platform} (g : gt XR) n0 n1 rest : twf g -> Forall isfin (dat g) -> shp g = n0 :: n1 :: rest ->
  exists r, @subtract_mean (XROps P) g = Ok r /\ twf r /\ aval r = aval g /\
    forall i j, (i < n0)%nat -> valid (n1 :: rest) j ->
      tget r (i :: j) = Fin (rget g (i :: j) - rsum (map (fun j => rget g (i :: j)) (indices (n1 :: rest))) / INR (length (indices (n1 :: rest)))).
Proof.
  intros W Hf Es. unfold subtract_mean. nx. rewrite Es. cbn [length Nat.ltb Nat.leb].
  set (red := not_first (n0 :: n1 :: rest)).
  assert (L : length red = length (shp g)) by (rewrite Es; unfold red; cbn; now rewrite map_length).
  rewrite (@bin_reduced (XROps P) (@fsub (XROps P)) red g _ W (reduce_wf _ _ _) L eq_refl).
  eexists. split; [reflexivity|]. split; [apply tab_wf|].
  split; [unfold aval; cbn [dt shp tab reduce]; now rewrite promote_same|].
  intros i j Hi Hj. assert (V : valid (shp g) (i :: j)) by (rewrite Es; split; assumption).
  rewrite tget_tab by assumption. rewrite !xconv. rewrite tget_reduce by now apply proj_valid.
  rewrite fin_tget by assumption.
  assert (Ep : proj red (i :: j) = i :: map (fun _ => 0%nat) (n1 :: rest)).
  { unfold red, not_first, proj. cbn [map2]. f_equal. apply (proj_trues (n1 :: rest)). now apply valid_length. }
  rewrite Ep. nx. rewrite Es. unfold red. rewrite fiber_first by assumption. unfold mean_list.
  rewrite map_map, !map_length. cbn [fsum fdiv fsub fcast XROps].
  rewrite (xsum_map_fin _ (fun j => rget g (i :: j))).
  2:{ intros j' Hj'. apply In_indices in Hj'. apply fin_tget; [assumption|assumption|]. nx. rewrite Es. split; assumption. }
  unfold fofZ. cbn [flit XROps]. rewrite Q2R_Z, <- INR_IZR_INZ.
  assert (0 < INR (length (indices (n1 :: rest)))).
  { apply lt_0_INR. apply In_indices in Hj. destruct (indices (n1 :: rest)); [destruct Hj|cbn; lia]. }
  rewrite xdiv_fin by lra. reflexivity.
Qed.

(*@ C27_centralize : For every finite tree, structure, shapes, dtypes and state are kept; leaves of rank below 2 are unchanged; in a leaf of rank >= 2 each slice along axis 0 has a constant c subtracted from all its elements, and its elements then sum to 0 (so its mean is 0). *)
Lemma centralize_spec : forall `{P : Platform} (u : tree tensor) (st : state) par, trwf u -> finite_tree u ->
  exists u', update centralize u st par = Ok (u', st) /\ like u u' /\ finite_tree u' /\
    forall l a r, nth_error (leaves u) l = Some a -> nth_error (leaves u') l = Some r ->
      ((length (shp a) < 2)%nat -> r = a) /\
      (forall n0 rest, shp a = n0 :: rest -> rest <> [] -> forall i, (i < n0)%nat ->
         exists c, (forall j, valid rest j -> tget r (i :: j) = Fin (rget a (i :: j) - c)) /\
           rsum (map (fun j => rget r (i :: j)) (indices rest)) = 0).
Proof.
  intros P u st par Wu Fu. assert (Fu' := finite_leaves u Fu). unfold trwf in Wu.
  destruct (tree_choice (fun a r => @subtract_mean (XROps P) a = Ok r /\ twf r /\ aval r = aval a /\ Forall isfin (dat r) /\
      ((length (shp a) < 2)%nat -> r = a) /\
      (forall n0 rest, shp a = n0 :: rest -> rest <> [] -> forall i, (i < n0)%nat ->
         exists c, (forall j, valid rest j -> @tget (XROps P) r (i :: j) = Fin (rget a (i :: j) - c)) /\
           rsum (map (fun j => rget r (i :: j)) (indices rest)) = 0)) u) as (w & Ew & Hw).
  { rewrite Forall_forall in *. intros a Ha. specialize (Wu a Ha). specialize (Fu' a Ha). nx.
    destruct (shp a) as [|n0 [|n1 rest]] eqn:Es.
    - exists a. unfold subtract_mean. nx. rewrite Es. repeat split; auto. intros n0 rest [=].
    - exists a. unfold subtract_mean. nx. rewrite Es. repeat split; auto. intros n1 rest [= <- <-]. easy.
    - destruct (subtract_mean_val a n0 n1 rest Wu Fu' Es) as (r & E & Wr & Ar & Hv). exists r. split; [exact E|]. split; [exact Wr|]. split; [exact Ar|].
      assert (Sr : shp r = n0 :: n1 :: rest) by (unfold aval in Ar; nx; congruence).
      split.
      + apply Forall_forall. intros x Hx. apply (@In_dat_tget (XROps P)) in Hx as (idx & V & <-); [|exact Wr]. nx. rewrite Sr in V.
        destruct idx as [|i j]; [destruct V|]. destruct V as [Hi Hj]. rewrite Hv by assumption. eexists; reflexivity.
      + split; [cbn; lia|]. intros n0' rest' [= <- <-] _ i Hi. eexists. split.
        * intros j Hj. rewrite Hv by assumption. reflexivity.
        * set (I := indices (n1 :: rest)) in *. set (m := rsum (map (fun j => rget a (i :: j)) I) / INR (length I)).
          rewrite (rsum_map_ext _ (fun j => rget a (i :: j) + - m)).
          2:{ intros j Hj. apply In_indices in Hj. unfold rget at 1. rewrite Hv by assumption. cbn [xval]. fold I. fold m. ring. }
          rewrite rsum_map_add, rsum_map_const. unfold m.
          destruct (Nat.eq_dec (length I) 0) as [E0|E0].
          -- destruct I; [|discriminate]. cbn. rewrite !rsum_nil. lra.
          -- assert (0 < INR (length I)) by (apply lt_0_INR; lia). field. lra. }
  rewrite Forall_forall in Hw. exists (tmap snd w).
  split.
  { cbn [update centralize stateless]. rewrite <- Ew, tmapM_tmap.
    rewrite (tmapM_ext _ (fun q => Ok (snd q))) by (intros q Hq; apply Hw, Hq). now rewrite tmapM_ok. }
  split; [split|split].
  - unfold avals. rewrite <- Ew, !tmap_tmap. apply tmap_ext. intros q Hq. apply Hw, Hq.
  - unfold trwf. rewrite leaves_tmap, Forall_map, Forall_forall. intros q Hq. apply Hw, Hq.
  - unfold finite_tree, vals. rewrite leaves_tmap, map_map. apply Forall_concat, Forall_map, Forall_forall. intros q Hq. apply Hw, Hq.
  - intros l a r. rewrite <- Ew, !nth_error_leaves_tmap. destruct (nth_error (leaves w) l) as [q|] eqn:Eq; cbn; [|discriminate].
    intros [= <-] [= <-]. apply Hw. now apply nth_error_In in Eq.
Qed.
Lemma subtract_mean_ops `{O : Ops} (g : tensor) n0 n1 rest : twf g -> shp g = n0 :: n1 :: rest ->
  exists r, subtract_mean g = Ok r /\ twf r /\ aval r = aval g /\
    forall i j, (i < n0)%nat -> valid (n1 :: rest) j ->
      tget r (i :: j) = fsub (dt g) (tget g (i :: j)) (fdiv (dt g) (fsum (dt g) (map (fun j => tget g (i :: j)) (indices (n1 :: rest)))) (fcast (dt g) (fofZ (Z.of_nat (prodn (n1 :: rest)))))).
Proof.
  intros W Es. unfold subtract_mean. rewrite Es. cbn [length Nat.ltb Nat.leb].
  set (red := not_first (n0 :: n1 :: rest)).
  assert (L : length red = length (shp g)) by (rewrite Es; unfold red; cbn; now rewrite map_length).
  rewrite (bin_reduced fsub red g _ W (reduce_wf _ _ _) L eq_refl).
  eexists. split; [reflexivity|]. split; [apply tab_wf|].
  split; [unfold aval; cbn [dt shp tab reduce]; now rewrite promote_same|].
  intros i j Hi Hj. assert (V : valid (shp g) (i :: j)) by (rewrite Es; split; assumption).
  rewrite tget_tab by assumption. cbn [dt tab reduce]. rewrite !promote_same, !conv_same. rewrite tget_reduce by now apply proj_valid.
  assert (Ep : proj red (i :: j) = i :: map (fun _ => 0%nat) (n1 :: rest)).
  { unfold red, not_first, proj. cbn [map2]. f_equal. apply (proj_trues (n1 :: rest)). now apply valid_length. }
  rewrite Ep, Es. unfold red. rewrite fiber_first by assumption. unfold mean_list.
  rewrite map_map, !map_length, indices_length. reflexivity.
Qed.
(*@ C27_any_arithmetic : In any arithmetic (IEEE, with rounding, NaN and infinities): leaves of rank below 2 are returned as they are; in a leaf of dtype d and rank >= 2 every element has the mean of its slice along axis 0 subtracted - sum, division by the number of elements and subtraction all made in d. *)
Lemma centralize_ops : forall `{O : Ops} (u : tree tensor) (st : state) par, trwf u ->
  exists u', update centralize u st par = Ok (u', st) /\ like u u' /\
    forall l a r, nth_error (leaves u) l = Some a -> nth_error (leaves u') l = Some r ->
      ((length (shp a) < 2)%nat -> r = a) /\
      (forall n0 rest, shp a = n0 :: rest -> rest <> [] -> forall i j, (i < n0)%nat -> valid rest j ->
         tget r (i :: j) = fsub (dt a) (tget a (i :: j)) (fdiv (dt a) (fsum (dt a) (map (fun j => tget a (i :: j)) (indices rest))) (fcast (dt a) (fofZ (Z.of_nat (prodn rest)))))).
Proof.
  intros O u st par Wu. unfold trwf in Wu.
  destruct (tree_choice (fun a r => subtract_mean a = Ok r /\ twf r /\ aval r = aval a /\ ((length (shp a) < 2)%nat -> r = a) /\
      (forall n0 rest, shp a = n0 :: rest -> rest <> [] -> forall i j, (i < n0)%nat -> valid rest j ->
         tget r (i :: j) = fsub (dt a) (tget a (i :: j)) (fdiv (dt a) (fsum (dt a) (map (fun j => tget a (i :: j)) (indices rest))) (fcast (dt a) (fofZ (Z.of_nat (prodn rest))))))) u) as (w & Ew & Hw).
  { rewrite Forall_forall in *. intros a Ha. specialize (Wu a Ha).
    destruct (shp a) as [|n0 [|n1 rest]] eqn:Es.
    - exists a. unfold subtract_mean. rewrite Es. repeat split; auto. intros n0 rest [=].
    - exists a. unfold subtract_mean. rewrite Es. repeat split; auto. intros n1 rest [= <- <-]. easy.
    - destruct (subtract_mean_ops a n0 n1 rest Wu Es) as (r & E & Wr & Ar & Hv). exists r. split; [exact E|]. split; [exact Wr|]. split; [exact Ar|].
      split; [cbn; lia|]. intros n0' rest' [= <- <-] _ i j Hi Hj. now apply Hv. }
  rewrite Forall_forall in Hw. exists (tmap snd w).
  split.
  { cbn [update centralize stateless]. rewrite <- Ew, tmapM_tmap.
    rewrite (tmapM_ext _ (fun q => Ok (snd q))) by (intros q Hq; apply Hw, Hq). now rewrite tmapM_ok. }
  split; [split|].
  - unfold avals. rewrite <- Ew, !tmap_tmap. apply tmap_ext. intros q Hq. apply Hw, Hq.
  - unfold trwf. rewrite leaves_tmap, Forall_map, Forall_forall. intros q Hq. apply Hw, Hq.
  - intros l a r. rewrite <- Ew, !nth_error_leaves_tmap. destruct (nth_error (leaves w) l) as [q|] eqn:Eq; cbn; [|discriminate].
    intros [= <-] [= <-]. apply Hw. now apply nth_error_In in Eq.
Qed.
(*@ C27_idempotent : Centralizing twice is centralizing once. *)
Lemma centralize_idem : forall `{P : Platform} (u u' : tree tensor) (st st' : state) par, trwf u -> finite_tree u ->
  update centralize u st par = Ok (u', st') -> update centralize u' st' par = Ok (u', st').
Proof.
  intros P u u' st st' par Wu Fu E.
  destruct (centralize_spec u st par Wu Fu) as (v & Ev & [Av Wv] & Fv & Hv). rewrite E in Ev. injection Ev as <- ->.
  destruct (centralize_spec u' st par Wv Fv) as (v & Ev & [Av' Wv'] & Fv' & Hv'). rewrite Ev. do 2 f_equal.
  apply tree_ext; [now apply tdef_avals|]. apply nth_error_ext. intros l.
  assert (Hn : forall (x y : tree tensor) l, avals x = avals y -> nth_error (leaves x) l = None -> nth_error (leaves y) l = None).
  { intros x y l' Exy Hx. assert (option_map aval (nth_error (leaves x) l') = option_map aval (nth_error (leaves y) l')).
    { rewrite <- !nth_error_leaves_tmap. unfold avals in Exy. now rewrite Exy. } rewrite Hx in H. destruct (nth_error (leaves y) l'); easy. }
  destruct (nth_error (leaves u') l) as [a|] eqn:Ea; [|eapply Hn; [symmetry; exact Av'|exact Ea]].
  destruct (nth_error (leaves v) l) as [r|] eqn:Er; [|exfalso; rewrite (Hn v u' l Av' Er) in Ea; discriminate].
  destruct (nth_error (leaves u) l) as [b|] eqn:Eb; [|exfalso; rewrite (Hn u u' l (eq_sym Av) Eb) in Ea; discriminate].
  f_equal. destruct (Hv' l a r Ea Er) as [H1 H2]. destruct (Hv l b a Eb Ea) as [H3 H4].
  assert (Wa : twf a) by (unfold trwf in Wv; rewrite Forall_forall in Wv; apply Wv; now apply nth_error_In in Ea).
  assert (Wr : twf r) by (unfold trwf in Wv'; rewrite Forall_forall in Wv'; apply Wv'; now apply nth_error_In in Er).
  assert (Fa : Forall isfin (dat a)) by (pose proof (finite_leaves _ Fv) as HF; rewrite Forall_forall in HF; apply HF; now apply nth_error_In in Ea).
  assert (Aab : aval a = aval b).
  { assert (Q : option_map aval (nth_error (leaves u') l) = option_map aval (nth_error (leaves u) l)).
    { rewrite <- !nth_error_leaves_tmap. unfold avals in Av. now rewrite Av. } rewrite Ea, Eb in Q. exact (f_equal (fun o => match o with Some x => x | None => aval a end) Q). }
  assert (Ara : aval r = aval a).
  { assert (Q : option_map aval (nth_error (leaves v) l) = option_map aval (nth_error (leaves u') l)).
    { rewrite <- !nth_error_leaves_tmap. unfold avals in Av'. now rewrite Av'. } rewrite Ea, Er in Q. exact (f_equal (fun o => match o with Some x => x | None => aval a end) Q). }
  destruct (Nat.ltb_spec (length (shp a)) 2) as [Hs|Hs]; [now apply H1|].
  destruct (shp a) as [|n0 rest] eqn:Es; [cbn in Hs; lia|].
  assert (Hr : rest <> []) by (destruct rest; [cbn in Hs; lia|discriminate]).
  assert (Ssr : shp r = n0 :: rest) by (rewrite <- Es; exact (f_equal snd Ara)).
  assert (Ssb : shp b = n0 :: rest) by (rewrite <- Es; exact (eq_sym (f_equal snd Aab))).
  apply tensor_ext; try assumption. intros idx V. rewrite Ssr in V. destruct idx as [|i j]; [destruct V|]. destruct V as [Hi Hj].
  destruct (H2 n0 rest eq_refl Hr i Hi) as (c & Hc & Hc0). destruct (H4 n0 rest Ssb Hr i Hi) as (c' & _ & Hs0).
  rewrite (Hc j Hj). rewrite fin_tget; [|assumption|assumption|nx; rewrite Es; split; assumption]. f_equal.
  assert (Hz : rsum (map (fun j => rget a (i :: j) + - c) (indices rest)) = 0).
  { rewrite <- Hc0. apply rsum_map_ext. intros k Hk. apply In_indices in Hk. unfold rget at 2. rewrite (Hc k Hk). reflexivity. }
  rewrite rsum_map_add, rsum_map_const, Hs0 in Hz.
  assert (0 < INR (length (indices rest))).
  { apply lt_0_INR. apply In_indices in Hj. destruct (indices rest); [destruct Hj|cbn; lia]. }
  nra.
Qed.
(*@ex C27_example *)
Lemma centralize_example : forall `{P : Platform}, exists u', update centralize (ex_g 3) EmptyState None = Ok (u', EmptyState) /\
  elt u' (0%nat, 1%nat) = Some (Fin 3).
Proof.
  intros P. destruct (centralize_spec (ex_g 3) EmptyState None (ex_g_wf 3)) as (u' & E & _ & _ & He).
  - repeat constructor; eexists; reflexivity.
  - exists u'. split; [exact E|]. apply (f_equal (fun r => match r with Ok q => q | _ => (ex_g 3, EmptyState) end)) in E. cbn in E.
    apply (f_equal fst) in E. cbn in E. rewrite <- E. reflexivity.
Qed.
