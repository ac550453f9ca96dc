(** Piecewise interpolation, one-cycle, joined and warm-up schedules. *)
From Verif Require Export P_sched.
From Coq Require Import Psatz Qreals Permutation Sorting.Sorted.
Open Scope R_scope.
(*@header
From Coq Require Import Permutation.
Open Scope R_scope.
*)

(** ** Specification of the interpolation *)
Definition rinterp (ty : itype) (s e t : R) : R :=
  match ty with ILinear => s + (e - s) * t | _ => e + (s - e) * ((1 + cos (PI * t)) / 2) end.
(** init times the factors of all boundaries at or before b *)
Definition knot (init : R) (l : list (Z * R)) (b : Z) : R := init * rprod (map snd (filter (fun x => (fst x <=? b)%Z) l)).
Definition keys (l : list (Z * R)) : list Z := map fst l.

Lemma rinterp_0 ty s e : rinterp ty s e 0 = s.
Proof. destruct ty; cbn; try ring; rewrite Rmult_0_r, cos_0; field. Qed.
Lemma rinterp_between ty s e t : 0 <= t <= 1 -> Rmin s e <= rinterp ty s e t <= Rmax s e.
Proof.
  intros Ht. assert (H : forall u, 0 <= u <= 1 -> Rmin s e <= e + (s - e) * u <= Rmax s e) by (intros u Hu; unfold Rmin, Rmax; destruct (Rle_dec s e); nra).
  destruct ty; cbn [rinterp].
  - replace (s + (e - s) * t) with (e + (s - e) * (1 - t)) by ring. apply H. lra.
  - apply H. pose proof (COS_bound (PI * t)). lra.
  - apply H. pose proof (COS_bound (PI * t)). lra.
Qed.

Lemma xmul_nan_r x : xmul x NaN = NaN.
Proof. destruct x; reflexivity. Qed.

(** ** Evaluation on sorted items *)
Fixpoint pw (ty : itype) (b0 : Z) (v0 : R) (items : list (Z * R)) (c : Z) : R :=
  match items with
  | [] => v0
  | (b1, x) :: r => if (c <? b1)%Z then rinterp ty v0 (v0 * x) (IZR (c - b0) / IZR (b1 - b0)) else pw ty b1 (v0 * x) r c
  end.
Inductive incr : Z -> list (Z * R) -> Prop :=
| incr_nil b : incr b []
| incr_cons b b1 x r : (b < b1)%Z -> incr b1 r -> incr b ((b1, x) :: r).
Lemma incr_lt b l : incr b l -> forall x, In x l -> (b < fst x)%Z.
Proof. induction 1 as [|b b1 x r H Hr IH]; intros y; [easy|]. intros [<-|Hy]; [exact H|]. specialize (IH y Hy). lia. Qed.
Lemma incr_weaken b b' l : (b' <= b)%Z -> incr b l -> incr b' l.
Proof. intros H Hi. inversion Hi; subst; constructor; auto. lia. Qed.
Lemma insert_incr x : forall l b, (b < fst x)%Z -> ~ In (fst x) (map fst l) -> incr b l -> incr b (insert_item x l).
Proof.
  destruct x as [k v]. induction l as [|[b1 y] l IH]; intros b Hb Hn Hl; cbn.
  - constructor; [exact Hb|constructor].
  - cbn in Hb, Hn. inversion Hl as [|? ? ? ? H1 H2]; subst. destruct (Z.leb_spec k b1).
    + constructor; [exact Hb|]. constructor; [|exact H2]. lia.
    + constructor; [exact H1|]. apply IH; [cbn; lia|tauto|exact H2].
Qed.
Lemma In_sorted {A} (l : list (Z * A)) x : In x (sorted_items l) <-> In x l.
Proof. split; apply Permutation_in; [symmetry|]; apply sorted_perm. Qed.
Lemma sorted_incr l b : NoDup (map fst l) -> Forall (fun x => (b < fst x)%Z) l -> incr b (sorted_items l).
Proof.
  induction l as [|x l IH]; intros Hn Hl; [constructor|]. cbn. inversion Hn as [|? ? Hx Hn']; subst. inversion Hl; subst.
  apply insert_incr; [assumption| |now apply IH]. intros Hi. apply Hx. apply in_map_iff in Hi as (y & <- & Hy). apply in_map.
  apply (Permutation_in y (Permutation_sym (sorted_perm l))). exact Hy.
Qed.

Section S.
  Context `{P : Platform}.
  Notation xr := (XROps P).
  Definition ifn (ty : itype) : XR -> XR -> XR -> XR := match ty with ILinear => @linear_interpolate xr | _ => @cosine_interpolate xr end.
  Lemma ifn_val ty s e t : ifn ty (Fin s) (Fin e) (Fin t) = Fin (rinterp ty s e t).
  Proof.
    destruct ty; cbn [ifn rinterp]; unfold linear_interpolate, cosine_interpolate; cbn [fadd fmul fsub fdiv fcos fcast flit fpi XROps].
    - rewrite xsub_fin, xmul_fin, xadd_fin. f_equal. ring.
    - change (Fin (Q2R 1)) with (@fone xr). rewrite (@f1 P). replace (Q2R 2) with 2 by (unfold Q2R; cbn; lra).
      rewrite xsub_fin, xdiv_fin by lra. rewrite xmul_fin. cbn [xcos]. rewrite xadd_fin, xmul_fin, xadd_fin. f_equal. field.
    - change (Fin (Q2R 1)) with (@fone xr). rewrite (@f1 P). replace (Q2R 2) with 2 by (unfold Q2R; cbn; lra).
      rewrite xsub_fin, xdiv_fin by lra. rewrite xmul_fin. cbn [xcos]. rewrite xadd_fin, xmul_fin, xadd_fin. f_equal. field.
  Qed.
  Lemma fbool_val b : @fbool xr b = Fin (if b then 1 else 0).
  Proof. destruct b; cbn [fbool]; [exact (@f1 P)|exact (@f0 P)]. Qed.
  Lemma interp_term_val ty c b0 b1 v0 v1 : (b0 <> b1)%Z -> @interp_term xr (ifn ty) c (b0, b1, Fin v0, Fin v1) =
    Fin (if ((b0 <=? c) && (c <? b1))%Z then rinterp ty v0 v1 (IZR (c - b0) / IZR (b1 - b0)) else 0).
  Proof.
    intros H. unfold interp_term. rewrite !zf_val, fbool_val. cbn [fdiv fmul XROps]. rewrite xdiv_fin by (apply not_0_IZR; lia).
    rewrite ifn_val, xmul_fin. f_equal. destruct (_ && _)%bool; ring.
  Qed.
  Lemma sum_val ty : forall items b0 v0 c, incr b0 items -> exists S L,
    xsum (map (@interp_term xr (ifn ty) c) (@intervals xr (b0 :: map fst items) (@cumprod xr (Fin v0) (map snd (map fitem items))))) = Fin S /\
    last (@cumprod xr (Fin v0) (map snd (map fitem items))) (@fcast xr (@defdt xr) (@fzero xr)) = Fin L /\
    S + (if (last (b0 :: map fst items) 0 <=? c)%Z then L else 0) = if (c <? b0)%Z then 0 else pw ty b0 v0 items c.
  Proof.
    induction items as [|[b1 x] r IH]; intros b0 v0 c Hi.
    - exists 0, v0. split; [reflexivity|]. split; [reflexivity|]. cbn. destruct (Z.leb_spec b0 c), (Z.ltb_spec c b0); try lia; ring.
    - inversion Hi as [|? ? ? ? H1 H2]; subst. destruct (IH b1 (v0 * x) c H2) as (S & L & ES & EL & E).
      assert (Ec : @cumprod xr (Fin v0) (map snd (map fitem ((b1, x) :: r))) = Fin v0 :: @cumprod xr (Fin (v0 * x)) (map snd (map fitem r))) by reflexivity.
      rewrite Ec.
      assert (Hd : exists q, @cumprod xr (Fin (v0 * x)) (map snd (map fitem r)) = Fin (v0 * x) :: q).
      { destruct r as [|[b2 y] r']; cbn; eauto. }
      destruct Hd as (q & Eq).
      exists ((if ((b0 <=? c) && (c <? b1))%Z then rinterp ty v0 (v0 * x) (IZR (c - b0) / IZR (b1 - b0)) else 0) + S), L.
      split; [|split].
      + rewrite Eq in *. cbn [map fst intervals]. cbn [intervals map fst] in ES.
        change (map (@interp_term xr (ifn ty) c) ((b0, b1, Fin v0, Fin (v0 * x)) :: @intervals xr (b1 :: map fst r) (Fin (v0 * x) :: q)))
          with (@interp_term xr (ifn ty) c (b0, b1, Fin v0, Fin (v0 * x)) :: map (@interp_term xr (ifn ty) c) (@intervals xr (b1 :: map fst r) (Fin (v0 * x) :: q))).
        rewrite interp_term_val by lia. unfold xsum in *. cbn [fold_right]. rewrite ES. reflexivity.
      + rewrite Eq in *. exact EL.
      + cbn [map fst]. change (last (b0 :: b1 :: map fst r) 0%Z) with (last (b1 :: map fst r) 0%Z). rewrite Rplus_assoc, E. cbn [pw].
        destruct (Z.leb_spec b0 c), (Z.ltb_spec c b0), (Z.ltb_spec c b1); cbn [andb]; try lia; ring.
  Qed.

  Lemma pwi_val ty init l : ty <> IOther -> NoDup (keys l) -> Forall (fun x => (0 < fst x)%Z /\ 0 <= snd x) l ->
    exists s, @piecewise_interpolate_schedule xr ty (Fin init) (Some (map fitem l)) = Ok s /\
      forall c, s c = Fin (if (c <? 0)%Z then 0 else pw ty 0 init (sorted_items l) c).
  Proof.
    intros Ht Hn Hl. unfold piecewise_interpolate_schedule. rewrite sorted_map.
    assert (E : forallb (fun x => @fle xr (@fzero xr) (snd x)) (map fitem (sorted_items l)) = true).
    { apply forallb_forall. intros x Hx. apply in_map_iff in Hx as (y & <- & Hy). rewrite (@f0 P). apply xle_fin. apply (proj1 (In_sorted l y)) in Hy. rewrite Forall_forall in Hl. apply (Hl y Hy). }
    assert (Hi : incr 0 (sorted_items l)) by (apply sorted_incr; [exact Hn|]; eapply Forall_impl; [|exact Hl]; now intros x [? ?]).
    destruct ty; [| |easy]; cbn [rbind]; nx; rewrite E; eexists; (split; [reflexivity|]); intros c; cbv beta.
    - destruct (sum_val ILinear (sorted_items l) 0 init c Hi) as (S & L & ES & EL & E1). rewrite <- E1.
      assert (Em : map fst (map fitem (sorted_items l)) = map fst (sorted_items l)) by (rewrite map_map; reflexivity). nx. rewrite Em.
      cbn [fsum fadd fmul fcast XROps ifn] in *. nx. rewrite ES, EL, fbool_val, xmul_fin, xadd_fin. f_equal. f_equal. destruct (_ <=? c)%Z; ring.
    - destruct (sum_val ICosine (sorted_items l) 0 init c Hi) as (S & L & ES & EL & E1). rewrite <- E1.
      assert (Em : map fst (map fitem (sorted_items l)) = map fst (sorted_items l)) by (rewrite map_map; reflexivity). nx. rewrite Em.
      cbn [fsum fadd fmul fcast XROps ifn] in *. nx. rewrite ES, EL, fbool_val, xmul_fin, xadd_fin. f_equal. f_equal. destruct (_ <=? c)%Z; ring.
  Qed.
End S.

(** ** From sorted items to knots *)
Lemma knot_cons v b x r c : (b <= c)%Z -> knot v ((b, x) :: r) c = knot (v * x) r c.
Proof. intros H. unfold knot. cbn [filter fst]. destruct (Z.leb_spec b c); [|lia]. unfold rprod. cbn [map snd fold_right]. ring. Qed.
Lemma knot_none v b l c : incr b l -> (c <= b)%Z -> knot v l c = v.
Proof.
  intros Hi Hc. unfold knot. assert (E : filter (fun x => (fst x <=? c)%Z) l = []); [|rewrite E; cbn; ring].
  pose proof (incr_lt b l Hi) as H. clear Hi. induction l as [|y l IH]; cbn; [reflexivity|].
  pose proof (H y (or_introl eq_refl)). destruct (Z.leb_spec (fst y) c); [lia|]. apply IH. intros; apply H; now right.
Qed.
Lemma pw_after ty : forall l b0 v0 c, (forall x, In x l -> (fst x <= c)%Z) -> pw ty b0 v0 l c = knot v0 l c.
Proof.
  induction l as [|[b1 x] r IH]; intros b0 v0 c H; cbn [pw].
  - unfold knot. cbn. ring.
  - pose proof (H (b1, x) (or_introl eq_refl)) as H1. cbn in H1. destruct (Z.ltb_spec c b1); [lia|].
    rewrite knot_cons by lia. apply IH. intros y Hy. apply H. now right.
Qed.
Lemma pw_between ty : forall l b0 v0 c a b, incr b0 l -> (a = b0 \/ In a (keys l)) -> In b (keys l) -> (b0 <= a <= c)%Z -> (c < b)%Z ->
  (forall k, In k (keys l) -> (k <= a)%Z \/ (b <= k)%Z) ->
  pw ty b0 v0 l c = rinterp ty (knot v0 l a) (knot v0 l b) (IZR (c - a) / IZR (b - a)).
Proof.
  induction l as [|[b1 x] r IH]; intros b0 v0 c a b Hi Ha Hb Hac Hcb Hk; [destruct Hb|].
  inversion Hi as [|? ? ? ? H1 H2]; subst. cbn [pw]. destruct (Z.ltb_spec c b1) as [Hc|Hc].
  - assert (Eb : b1 = b). { destruct (Hk b1 (or_introl eq_refl)); [lia|]. destruct Hb as [Hb|Hb]; [exact Hb|]. unfold keys in Hb. apply in_map_iff in Hb as (y & <- & Hy).
      pose proof (incr_lt _ _ H2 y Hy). lia. }
    subst b1. assert (Ea : a = b0). { destruct Ha as [Ha|[Ha|Ha]]; [exact Ha|cbn in Ha; lia|]. unfold keys in Ha. apply in_map_iff in Ha as (y & <- & Hy). pose proof (incr_lt _ _ H2 y Hy). cbn in *. lia. }
    subst a. rewrite (knot_none v0 b0) by (auto; lia). rewrite knot_cons by lia. now rewrite (knot_none (v0 * x) b) by (auto; lia).
  - assert (Hab : (b1 <= a)%Z). { destruct (Hk b1 (or_introl eq_refl)); [assumption|lia]. }
    rewrite !knot_cons by lia. apply IH; auto.
    + destruct Ha as [Ha|[Ha|Ha]]; [lia|left; cbn in Ha; lia|now right].
    + destruct Hb as [Hb|Hb]; [cbn in Hb; lia|exact Hb].
    + lia.
    + intros k Hk'. apply Hk. now right.
Qed.
Lemma knot_sorted v l c : knot v (sorted_items l) c = knot v l c.
Proof. unfold knot. f_equal. apply rprod_perm, Permutation_map, filter_perm, Permutation_sym, sorted_perm. Qed.
Lemma In_keys_sorted l k : In k (keys (sorted_items l)) <-> In k (keys l).
Proof. unfold keys. rewrite !in_map_iff. split; intros (x & E & H); exists x; (split; [exact E|]); apply In_sorted; exact H. Qed.

(** The admissible dictionaries: distinct positive boundaries, non-negative factors. *)
Definition dict_ok (l : list (Z * R)) : Prop := NoDup (keys l) /\ Forall (fun x => (0 < fst x)%Z /\ 0 <= snd x) l.

(*@ C43_interpolate : for 'linear' and 'cosine', any init and any dictionary of distinct positive boundaries and non-negative factors in any order: between two consecutive knots a <= count < b (a is 0 or a boundary, b the next boundary) the value is the linear / half-cosine interpolation, at fraction (count-a)/(b-a), between the knot values init * product of the factors with boundary <= a (resp. <= b); from the last boundary on it is the last knot value; before 0 it is 0. *)
Lemma interpolate_spec : forall `{P : Platform} (ty : itype) (init : R) (l : list (Z * R)), ty <> IOther -> dict_ok l ->
  exists s, piecewise_interpolate_schedule ty (Fin init) (Some (map fitem l)) = Ok s /\
    (forall c a b, a = 0%Z \/ In a (keys l) -> In b (keys l) -> (a <= c < b)%Z -> (forall k, In k (keys l) -> (k <= a)%Z \/ (b <= k)%Z) ->
       s c = Fin (rinterp ty (knot init l a) (knot init l b) (IZR (c - a) / IZR (b - a)))) /\
    (forall c, (0 <= c)%Z -> (forall k, In k (keys l) -> (k <= c)%Z) -> s c = Fin (knot init l c)) /\
    (forall c, (c < 0)%Z -> s c = Fin 0).
Proof.
  intros P ty init l Ht (Hn & Hl). destruct (pwi_val ty init l Ht Hn Hl) as (s & E & Hs). exists s. split; [exact E|].
  assert (Hi : incr 0 (sorted_items l)) by (apply sorted_incr; [exact Hn|]; eapply Forall_impl; [|exact Hl]; now intros x [? ?]).
  assert (Hpos : forall k, In k (keys l) -> (0 < k)%Z) by (intros k Hk; unfold keys in Hk; apply in_map_iff in Hk as (x & <- & Hx); rewrite Forall_forall in Hl; now apply Hl).
  split; [|split].
  - intros c a b Ha Hb Hc Hk. rewrite Hs. destruct (Z.ltb_spec c 0) as [H0|H0]; [exfalso; destruct Ha as [->|Ha]; [lia|specialize (Hpos a Ha); lia]|].
    f_equal. rewrite <- (knot_sorted init l a), <- (knot_sorted init l b). apply pw_between; auto.
    + destruct Ha as [Ha|Ha]; [now left|right; now apply In_keys_sorted].
    + now apply In_keys_sorted.
    + destruct Ha as [->|Ha]; [lia|specialize (Hpos a Ha); lia].
    + lia.
    + intros k H. apply Hk. now apply In_keys_sorted.
  - intros c H0 Hk. rewrite Hs. destruct (Z.ltb_spec c 0); [lia|]. f_equal. rewrite <- knot_sorted. apply pw_after. intros x Hx. apply Hk.
    apply In_keys_sorted. unfold keys. now apply in_map.
  - intros c Hc. rewrite Hs. destruct (Z.ltb_spec c 0); [reflexivity|lia].
Qed.

(*@ C43_between : in the same setting, at a boundary (and at 0) the value is exactly the knot value, and at every count between two consecutive knots it lies between the two knot values. *)
Lemma interpolate_between : forall `{P : Platform} (ty : itype) (init : R) (l : list (Z * R)), ty <> IOther -> dict_ok l ->
  exists s (f : Z -> R), piecewise_interpolate_schedule ty (Fin init) (Some (map fitem l)) = Ok s /\ (forall c, s c = Fin (f c)) /\
    (forall b, b = 0%Z \/ In b (keys l) -> f b = knot init l b) /\
    (forall c a b, a = 0%Z \/ In a (keys l) -> In b (keys l) -> (a <= c < b)%Z -> (forall k, In k (keys l) -> (k <= a)%Z \/ (b <= k)%Z) ->
       Rmin (knot init l a) (knot init l b) <= f c <= Rmax (knot init l a) (knot init l b)).
Proof.
  intros P ty init l Ht Hd. destruct (interpolate_spec ty init l Ht Hd) as (s & E & H1 & H2 & H3). destruct Hd as (Hn & Hl).
  destruct (pwi_val ty init l Ht Hn Hl) as (s' & E' & Hs). rewrite E in E'. injection E' as <-.
  exists s, (fun c => if (c <? 0)%Z then 0 else pw ty 0 init (sorted_items l) c). split; [exact E|]. split; [exact Hs|].
  assert (Hpos : forall k, In k (keys l) -> (0 < k)%Z) by (intros k Hk; unfold keys in Hk; apply in_map_iff in Hk as (x & <- & Hx); rewrite Forall_forall in Hl; now apply Hl).
  split.
  - intros b Hb. assert (H0 : (0 <= b)%Z) by (destruct Hb as [->|Hb]; [lia|specialize (Hpos b Hb); lia]).
    (* the next boundary, if any *)
    assert (Hnext : (forall k, In k (keys l) -> (k <= b)%Z) \/ exists b', In b' (keys l) /\ (b < b')%Z /\ forall k, In k (keys l) -> (k <= b)%Z \/ (b' <= k)%Z).
    { clear. induction (keys l) as [|k ks IH]; [left; easy|]. destruct IH as [IH|(b' & I1 & I2 & I3)].
      - destruct (Z_le_gt_dec k b) as [H|H]; [left; intros j [<-|Hj]; auto|]. right. exists k. split; [now left|]. split; [lia|].
        intros j [<-|Hj]; [right; lia|left; auto].
      - right. destruct (Z_le_gt_dec k b) as [H|H]; [exists b'; split; [now right|]; split; [exact I2|]; intros j [<-|Hj]; auto|].
        destruct (Z_le_gt_dec b' k) as [H'|H']; [exists b'; split; [now right|]; split; [exact I2|]; intros j [<-|Hj]; [right; exact H'|auto]|].
        exists k. split; [now left|]. split; [lia|]. intros j [<-|Hj]; [right; lia|]. destruct (I3 j Hj); [now left|right; lia]. }
    enough (EQ : s b = Fin (knot init l b)) by (rewrite Hs in EQ; now injection EQ).
    destruct Hnext as [Hlast|(b' & I1 & I2 & I3)]; [now apply H2|].
    rewrite (H1 b b b') by (auto; lia). f_equal. rewrite Z.sub_diag. unfold Rdiv. rewrite Rmult_0_l. apply rinterp_0.
  - intros c a b Ha Hb Hc Hk. pose proof (H1 c a b Ha Hb Hc Hk) as EQ. rewrite Hs in EQ. injection EQ as ->. apply rinterp_between.
    assert (0 < IZR (b - a)) by (apply IZR_lt; lia). split; [apply Rdiv_nonneg; [apply IZR_le; lia|assumption]|].
    apply (Rmult_le_reg_r (IZR (b - a))); [assumption|]. unfold Rdiv. rewrite Rmult_assoc, Rinv_l by lra. rewrite Rmult_1_r, Rmult_1_l. apply IZR_le; lia.
Qed.

(*@ C43_raises : an unknown interpolation type, or a negative factor, raises ValueError. *)
Lemma interpolate_raises : forall `{O : Ops} (ty : itype) (init : F) (l : list (Z * F)),
  ty = IOther \/ Exists (fun x => fle fzero (snd x) = false) l -> piecewise_interpolate_schedule ty init (Some l) = Err EValue.
Proof.
  intros O ty init l H. unfold piecewise_interpolate_schedule. destruct ty; try reflexivity; cbn [rbind];
  (destruct (forallb _ _) eqn:E; [|reflexivity]); exfalso; rewrite forallb_forall in E; (destruct H as [H|H]; [discriminate|]);
  apply Exists_exists in H as (x & Hx & Hf); rewrite (E x (proj2 (In_sorted l x) Hx)) in Hf; discriminate.
Qed.

Lemma xmul0_nan y a b : y = NaN \/ y = PInf \/ y = NInf -> xmul (Fin 0) (xadd (xmul (Fin a) y) (Fin b)) = NaN.
Proof.
  intros Hy. destruct (Rtotal_order a 0) as [H|[H|H]]; destruct Hy as [->|[->| ->]]; try reflexivity; unfold xmul; cbn [xsgn];
  try rewrite (rsgn_neg a) by exact H; try rewrite (rsgn_pos a) by exact H; try (subst a); rewrite ?rsgn_0; cbn; rewrite ?rsgn_0; reflexivity.
Qed.

(*@ C43_zero_boundary_nan : a dictionary with a boundary at 0 (the others positive) makes the schedule NaN at every count. *)
Lemma interpolate_zero : forall `{P : Platform} (ty : itype) (init : R) (l : list (Z * R)), ty <> IOther -> NoDup (keys l) ->
  Forall (fun x => (0 <= fst x)%Z /\ 0 <= snd x) l -> In 0%Z (keys l) ->
  exists s, piecewise_interpolate_schedule ty (Fin init) (Some (map fitem l)) = Ok s /\ forall c, s c = NaN.
Proof.
  intros P ty init l Ht Hn Hl H0. unfold piecewise_interpolate_schedule. rewrite sorted_map.
  assert (E : forallb (fun x => @fle (XROps P) (@fzero (XROps P)) (snd x)) (map fitem (sorted_items l)) = true).
  { apply forallb_forall. intros x Hx. apply in_map_iff in Hx as (y & <- & Hy). rewrite (@f0 P). apply xle_fin. apply (proj1 (In_sorted l y)) in Hy. rewrite Forall_forall in Hl. apply (Hl y Hy). }
  assert (Hi : incr (-1) (sorted_items l)) by (apply sorted_incr; [exact Hn|]; eapply Forall_impl; [|exact Hl]; intros x [? ?]; lia).
  assert (Hf : exists x r, sorted_items l = (0%Z, x) :: r).
  { apply In_keys_sorted in H0. destruct (sorted_items l) as [|[b x] r] eqn:Es; [destruct H0|]. exists x, r. f_equal. f_equal.
    assert (Hb : (0 <= b)%Z). { rewrite Forall_forall in Hl. apply (Hl (b, x)). apply (@In_sorted R). rewrite Es. now left. }
    destruct H0 as [H0|H0]; [exact H0|]. inversion Hi as [|? ? ? ? H1 H2]; subst. unfold keys in H0. apply in_map_iff in H0 as (y & Ey & Hy). pose proof (incr_lt _ _ H2 y Hy). lia. }
  destruct Hf as (x & r & Es). rewrite Es in *.
  assert (Hterm : forall c q, @xsum (map (@interp_term (XROps P) (ifn ty) c) ((0%Z, 0%Z, Fin init, Fin (init * x)) :: q)) = NaN).
  { intros c q. cbn [map xsum fold_right]. enough (EN : @interp_term (XROps P) (ifn ty) c (0%Z, 0%Z, Fin init, Fin (init * x)) = NaN) by (unfold xsum; cbn [fold_right]; rewrite EN; reflexivity).
    unfold interp_term. rewrite fbool_val, !zf_val, Z.sub_0_r. cbn [fdiv fmul XROps]. replace (IZR (0 - 0)) with 0 by reflexivity. rewrite xdiv_zero.
    assert (EB : ((0 <=? c) && (c <? 0))%Z = false) by (destruct (Z.leb_spec 0 c), (Z.ltb_spec c 0); try reflexivity; lia). rewrite EB.
    assert (EI : xinf (rsgn (IZR c)) = NaN \/ xinf (rsgn (IZR c)) = PInf \/ xinf (rsgn (IZR c)) = NInf).
    { unfold rsgn. destruct (Rlt_dec 0 (IZR c)); [auto|]. destruct (Rlt_dec (IZR c) 0); auto. }
    assert (EC : xcos (xmul (Fin PI) (xinf (rsgn (IZR c)))) = NaN).
    { destruct EI as [EI|[EI|EI]]; rewrite EI; cbn [xmul xsgn]; [reflexivity| |]; rewrite (rsgn_pos PI) by apply PI_RGT_0; reflexivity. }
    destruct ty; [| |easy]; cbn [ifn]; unfold linear_interpolate, cosine_interpolate; cbn [fadd fmul fsub fdiv fcos fcast flit fpi XROps].
    - rewrite xsub_fin. now apply xmul0_nan.
    - rewrite EC. cbn [xadd]. rewrite xmul_nan_r. reflexivity. }
  assert (Hd : exists q, @cumprod (XROps P) (Fin (init * x)) (map snd (map fitem r)) = Fin (init * x) :: q) by (destruct r as [|[b2 y] r']; cbn; eauto).
  destruct Hd as (q & Eq).
  destruct ty; [| |easy]; cbn [rbind]; nx; rewrite E; eexists; (split; [reflexivity|]); intros c; cbv beta;
  match goal with |- @fadd _ _ (@fsum _ _ ?l0) _ = _ => assert (EN : xsum l0 = NaN) end.
  1,3: change (@cumprod (XROps P) (@fcast (XROps P) (@defdt (XROps P)) (Fin init)) (map snd (map fitem ((0%Z, x) :: r)))) with (Fin init :: @cumprod (XROps P) (Fin (init * x)) (map snd (map fitem r))); rewrite Eq.
  - exact (Hterm c _).
  - exact (Hterm c _).
  - cbn [fadd fsum XROps]. nx. rewrite EN. reflexivity.
  - cbn [fadd fsum XROps]. nx. rewrite EN. reflexivity.
Qed.
(*@ex C43_example *)
Lemma interpolate_example : forall `{P : Platform}, dict_ok [(8%Z, / 2); (3%Z, 2)] /\ exists s,
  piecewise_interpolate_schedule ILinear (Fin 4) (Some (map fitem [(8%Z, / 2); (3%Z, 2)])) = Ok s /\ s 4%Z = Fin (8 - 4 / 5).
Proof.
  intros P. assert (Hd : dict_ok [(8%Z, / 2); (3%Z, 2)]).
  { split; [repeat constructor; cbn; intuition lia|repeat constructor; cbn; lra || lia]. }
  split; [exact Hd|]. destruct (interpolate_spec ILinear 4 _ ltac:(discriminate) Hd) as (s & E & H1 & _). exists s. split; [exact E|].
  rewrite (H1 4%Z 3%Z 8%Z); [unfold knot, rprod; cbn; f_equal; lra|cbn; tauto|cbn; tauto|lia|intros k Hk; cbn in Hk; lia].
Qed.
