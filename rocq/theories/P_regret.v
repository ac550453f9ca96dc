(** What sgd and adagrad guarantee for every sequence of gradients, and for minimising a function. *)
From Verif Require Export P_alias.
From Coq Require Import List Psatz.
Import ListNotations.
Open Scope R_scope.
(*@header
From Coq Require Import List.
Import ListNotations.
Open Scope R_scope.
*)

(** Difference of two vectors; [dot] and [sumsq] (inner product and squared norm) are in Norms.v, [rvals] lists the
    elements of all leaves of a tree in flattening order. *)
Definition vsub (l m : list R) : list R := map (fun p => fst p - snd p) (combine l m).
(** The minimisation loop: the gradient at the current parameters, update, apply_updates. *)
Fixpoint minimise `{O : Ops} (T : GT) (grad : tree tensor -> tree tensor) (n : nat) (s : state) (q : tree tensor) : result (list (tree tensor) * state) :=
  match n with
  | O => Ok ([], s)
  | S m =>
    let* (u, s') := update T (grad q) s (Some q) in
    let* q' := apply_updates q u in
    let* (qs, sf) := minimise T grad m s' q' in Ok (q' :: qs, sf)
  end.
(** Parameter trees of the signature of [p] with finite elements. *)
Definition point_of `{P : Platform} (p x : tree (gt XR)) : Prop := @like (XROps P) p x /\ finite_tree x.
(** [grad] computes subgradients of [f]; their squared norm is at most G; [f] is L-smooth along them. *)
Definition subgradients `{P : Platform} (p : tree (gt XR)) (f : list R -> R) (grad : tree (gt XR) -> tree (gt XR)) : Prop :=
  forall x y, point_of p x -> length y = length (rvals p) -> f (rvals x) + dot (rvals (grad x)) (vsub y (rvals x)) <= f y.
Definition smooth `{P : Platform} (p : tree (gt XR)) (f : list R -> R) (grad : tree (gt XR) -> tree (gt XR)) (L : R) : Prop :=
  forall x y, point_of p x -> point_of p y -> f (rvals y) <= f (rvals x) + dot (rvals (grad x)) (vsub (rvals y) (rvals x)) + L / 2 * sumsq (vsub (rvals y) (rvals x)).

(** ** Vectors by coordinates *)
Lemma nth_map_seq (f : nat -> R) n i : (i < n)%nat -> nth i (map f (seq 0 n)) 0 = f i.
Proof. intros Hi. rewrite (nth_indep _ 0 (f 0%nat)) by now rewrite map_length, seq_length. rewrite map_nth, seq_nth by exact Hi. reflexivity. Qed.
Lemma map_seq_nth (l : list R) : l = map (fun i => nth i l 0) (seq 0 (length l)).
Proof. apply (nth_ext _ _ 0 0); [symmetry; rewrite map_length; apply seq_length|]. intros i Hi. now rewrite nth_map_seq. Qed.
Lemma combine_maps {A B C} (f : A -> B) (g : A -> C) l : combine (map f l) (map g l) = map (fun x => (f x, g x)) l.
Proof. induction l as [|a l IH]; cbn; [reflexivity|]. now rewrite IH. Qed.
Lemma dot_seq l m N : length l = N -> length m = N -> dot l m = rsum (map (fun i => nth i l 0 * nth i m 0) (seq 0 N)).
Proof.
  intros H1 H2. unfold dot. rewrite (map_seq_nth l) at 1. rewrite (map_seq_nth m) at 1. rewrite H1, H2, combine_maps, map_map. reflexivity.
Qed.
Lemma sumsq_seq l N : length l = N -> sumsq l = rsum (map (fun i => nth i l 0 * nth i l 0) (seq 0 N)).
Proof. intros H. unfold sumsq. rewrite (map_seq_nth l) at 1. rewrite H, map_map. reflexivity. Qed.
Lemma vsub_length l m N : length l = N -> length m = N -> length (vsub l m) = N.
Proof. intros H1 H2. unfold vsub. rewrite map_length, combine_length. lia. Qed.
Lemma vsub_nth l m N i : length l = N -> length m = N -> (i < N)%nat -> nth i (vsub l m) 0 = nth i l 0 - nth i m 0.
Proof.
  intros H1 H2 Hi. unfold vsub. rewrite (map_seq_nth l) at 1. rewrite (map_seq_nth m) at 1. rewrite H1, H2, combine_maps, map_map.
  cbn [fst snd]. now rewrite nth_map_seq.
Qed.
Lemma dot_vsub g x y N : length g = N -> length x = N -> length y = N -> dot g (vsub x y) = rsum (map (fun i => nth i g 0 * (nth i x 0 - nth i y 0)) (seq 0 N)).
Proof.
  intros H1 H2 H3. rewrite (dot_seq _ _ N H1) by now apply vsub_length. apply rsum_map_ext. intros i Hi. apply in_seq in Hi. rewrite (vsub_nth x y N) by (auto; lia). reflexivity.
Qed.
Lemma sumsq_vsub x y N : length x = N -> length y = N -> sumsq (vsub x y) = rsum (map (fun i => (nth i x 0 - nth i y 0) * (nth i x 0 - nth i y 0)) (seq 0 N)).
Proof.
  intros H2 H3. rewrite (sumsq_seq _ N) by now apply vsub_length. apply rsum_map_ext. intros i Hi. apply in_seq in Hi. rewrite (vsub_nth x y N) by (auto; lia). reflexivity.
Qed.
Lemma rsum_seq_S f n : rsum (map f (seq 0 (S n))) = rsum (map f (seq 0 n)) + f n.
Proof. rewrite seq_S, map_app, rsum_app. cbn [map plus]. rewrite rsum_cons, rsum_nil. lra. Qed.
Lemma rsum_map_sub {A} (f g : A -> R) l : rsum (map (fun a => f a - g a) l) = rsum (map f l) - rsum (map g l).
Proof. induction l as [|a l IH]; cbn [map]; rewrite ?rsum_cons, ?rsum_nil; [lra|]. rewrite IH. lra. Qed.
Lemma rsum_swap {A B} (f : A -> B -> R) l m : rsum (map (fun a => rsum (map (f a) m)) l) = rsum (map (fun b => rsum (map (fun a => f a b) l)) m).
Proof.
  induction l as [|a l IH]; cbn [map]; [rewrite rsum_nil; induction m as [|b m IH]; cbn [map]; rewrite ?rsum_cons; change (rsum []) with 0 in *; lra|].
  rewrite rsum_cons, IH, <- rsum_map_add. apply rsum_map_ext. intros b _. now rewrite rsum_cons.
Qed.

(** Coordinate [i] of the flattened vector is an element of the tree, the same one for all trees of one signature. *)
Fixpoint pos_from {A} (j : nat) (l : list (gt A)) : list (nat * nat) :=
  match l with [] => [] | t :: r => map (pair j) (seq 0 (length (dat t))) ++ pos_from (S j) r end.
Definition positions {A} (u : tree (gt A)) : list (nat * nat) := pos_from 0 (leaves u).
Lemma map_some_seq {A} (l : list A) : map Some l = map (nth_error l) (seq 0 (length l)).
Proof. induction l as [|a l IH]; [reflexivity|]. cbn [length seq map nth_error]. f_equal. rewrite IH, <- seq_shift, map_map. reflexivity. Qed.
Lemma vals_positions {A} (u : tree (gt A)) : map Some (vals u) = map (elt u) (positions u).
Proof.
  assert (G : forall (l pre : list (gt A)), map Some (concat (map dat l)) = map (fun pos => match nth_error (pre ++ l) (fst pos) with Some t => nth_error (dat t) (snd pos) | None => None end) (pos_from (length pre) l)).
  { induction l as [|t l IH]; intros pre; [reflexivity|]. cbn [map concat pos_from]. rewrite !map_app. f_equal.
    - rewrite map_some_seq, map_map. apply map_ext. intros i. cbn [fst snd]. rewrite nth_error_app2, Nat.sub_diag by lia. reflexivity.
    - specialize (IH (pre ++ [t])). rewrite app_length in IH. cbn [length] in IH. rewrite Nat.add_1_r, <- app_assoc in IH. exact IH. }
  exact (G (leaves u) []).
Qed.
Lemma positions_like {A B} (p : tree (gt A)) (u : tree (gt B)) : avals u = avals p -> trwf p -> trwf u -> positions u = positions p.
Proof.
  intros E Wp Wu. destruct (tree_gzip p u (eq_sym E) Wp Wu) as (z & _ & _ & <- & <-).
  unfold positions. assert (G : forall (l : list (gt (A * B))) j, pos_from j (map (emap (fun _ => snd)) l) = pos_from j (map (emap (fun _ => fst)) l)).
  { induction l as [|t l IH]; intros j; [reflexivity|]. cbn [map pos_from]. f_equal; [|apply IH]. unfold emap. cbn [dat]. now rewrite !map_length. }
  unfold emapt. rewrite !leaves_tmap. apply G.
Qed.
Lemma coord `{P : Platform} (p : tree (gt XR)) i : trwf p -> (i < length (rvals p))%nat -> exists pos, forall u, point_of p u -> elt u pos = Some (Fin (nth i (rvals u) 0)).
Proof.
  intros Wp Hi. destruct (nth_error (positions p) i) as [pos|] eqn:Ep.
  - exists pos. intros u ((Ha & Wu) & Fu). pose proof (vals_positions u) as E. rewrite (positions_like p u Ha Wp Wu) in E.
    assert (E2 : nth_error (map (elt u) (positions p)) i = Some (elt u pos)) by (rewrite nth_error_map, Ep; reflexivity).
    rewrite <- E, nth_error_map in E2. destruct (nth_error (vals u) i) as [x|] eqn:Ex; [|discriminate]. cbn in E2. injection E2 as <-.
    unfold rvals. rewrite (nth_error_nth (map xval (vals u)) i 0 (x := xval x)) by (rewrite nth_error_map, Ex; reflexivity).
    unfold finite_tree in Fu. rewrite Forall_forall in Fu. destruct (Fu x (nth_error_In _ _ Ex)) as (r & ->). reflexivity.
  - exfalso. apply nth_error_None in Ep. pose proof (f_equal (@length _) (vals_positions p)) as E. rewrite !map_length in E. unfold rvals in Hi. rewrite map_length in Hi. lia.
Qed.
Lemma rvals_length `{P : Platform} (p u : tree (gt XR)) : trwf p -> point_of p u -> length (rvals u) = length (rvals p).
Proof.
  intros Wp ((Ha & Wu) & _). unfold rvals. rewrite !map_length. pose proof (f_equal (@length _) (vals_positions p)) as E1. pose proof (f_equal (@length _) (vals_positions u)) as E2.
  rewrite (positions_like p u Ha Wp Wu) in E2. rewrite !map_length in *. lia.
Qed.
Lemma finite_of_elts (u : tree (gt XR)) : (forall pos x, elt u pos = Some x -> isfin x) -> finite_tree u.
Proof.
  intros H. unfold finite_tree. apply Forall_forall. intros x Hx. assert (E : In (Some x) (map Some (vals u))) by now apply in_map.
  rewrite vals_positions in E. apply in_map_iff in E as (pos & E & _). eapply H; eauto.
Qed.

(** ** The training loop in coordinates *)
Section Loop.
  Context {P : Platform}.
  Notation xr := (XROps P).
  Definition pt (p : tree (gt XR)) (l : list (tree (gt XR))) (t : nat) : list R := rvals (nth t l p).
  Lemma loop_vec_q np (T : @GT xr) (dir : (nat -> R) -> (nat -> R) -> nat -> R) : @emits P np T (fun g q n y => y = Fin (dir g q n)) ->
    forall p gs, trwf p -> finite_tree p -> Forall (point_of p) gs ->
    exists s0 qs sf, @init xr T p = Ok s0 /\ @train_loop xr T s0 p gs = Ok (qs, sf) /\ length qs = length gs /\ Forall (point_of p) qs /\
      forall i t, (i < length (rvals p))%nat -> (t < length gs)%nat ->
        nth i (pt p (p :: qs) (S t)) 0 = nth i (pt p (p :: qs) t) 0 + dir (fun k => nth i (pt p gs k) 0) (fun k => nth i (pt p (p :: qs) k) 0) t.
  Proof.
    intros HE p gs Wp Fp Hgs.
    assert (Hlk : Forall (@like xr p) gs) by (eapply Forall_impl; [|exact Hgs]; intros a (H & _); exact H).
    destruct (emits_loop np T _ HE p gs Wp Hlk) as (s0 & qs & sf & Ei & El & Hl & Hq & Hn).
    assert (Hpp : point_of p p) by (split; [split; [reflexivity|exact Wp]|exact Fp]).
    assert (Hg : forall k, (k < length gs)%nat -> point_of p (nth k gs p)) by (intros k Hk; rewrite Forall_forall in Hgs; apply Hgs; nx; now apply nth_In).
    assert (Hqn : forall k, (k <= length gs)%nat -> @like xr p (nth k (p :: qs) p)).
    { intros k Hk. destruct k as [|k]; [apply Hpp|]. nx. cbn [nth]. rewrite Forall_forall in Hq. nx. apply Hq, nth_In. lia. }
    assert (HF : forall k, (k <= length gs)%nat -> point_of p (nth k (p :: qs) p)).
    { intros k. induction k as [k IH] using lt_wf_ind. intros Hk. destruct k as [|k]; [exact Hpp|]. split; [now apply Hqn|].
      apply finite_of_elts. intros pos x Hx.
      assert (Hne : forall u, point_of p u -> exists r, elt u pos = Some (Fin r)).
      { intros u ((Ha & Wu) & Fu). destruct (Hqn (S k) Hk) as (Hb & Wb). destruct (elt u pos) as [y|] eqn:Ey.
        - destruct (finite_elt u pos y Fu Ey) as (r & ->). eauto.
        - exfalso. assert (elt (nth (S k) (p :: qs) p) pos <> None) as H1 by (rewrite Hx; discriminate). exact (elt_like u (nth (S k) (p :: qs) p) pos (eq_trans Hb (eq_sym Ha)) Wu Wb H1 Ey). }
      set (gf := fun j => match elt (nth j gs p) pos with Some y => xval y | None => 0 end).
      set (qf := fun j => match elt (nth j (p :: qs) p) pos with Some y => xval y | None => 0 end).
      destruct (Hn pos k gf qf) as (y & Hy & Ey).
      - nx. lia.
      - intros j Hj. unfold oelt, gf. nx. rewrite (nth_error_nth' gs p) by lia. destruct (Hne (nth j gs p)) as (r & Er); [apply Hg; lia|]. now rewrite Er.
      - intros j Hj. unfold oelt, qf. nx. rewrite (nth_error_nth' (p :: qs) p) by (cbn; lia). destruct (Hne (nth j (p :: qs) p)) as (r & Er); [apply IH; lia|]. now rewrite Er.
      - unfold oelt in Ey. nx. rewrite (nth_error_nth' (p :: qs) p) in Ey by (cbn; lia). rewrite Hx in Ey. injection Ey as ->. rewrite Hy. eexists; reflexivity. }
    exists s0, qs, sf. split; [exact Ei|]. split; [exact El|]. split; [exact Hl|].
    split. { apply Forall_forall. intros u Hu. destruct (In_nth _ _ p Hu) as (k & Hk & <-). nx. apply (HF (S k)). lia. }
    intros i t Hi Ht. destruct (coord p i Wp Hi) as (pos & Hpos).
    destruct (Hn pos t (fun k => nth i (pt p gs k) 0) (fun k => nth i (pt p (p :: qs) k) 0)) as (y & Hy & Ey).
    - nx. lia.
    - intros j Hj. unfold oelt. nx. rewrite (nth_error_nth' gs p) by lia. apply Hpos, Hg. lia.
    - intros j Hj. unfold oelt. nx. rewrite (nth_error_nth' (p :: qs) p) by (cbn; lia). apply Hpos, HF. lia.
    - unfold oelt in Ey. nx. rewrite (nth_error_nth' (p :: qs) p) in Ey by (cbn; lia). rewrite Hpos in Ey by (apply HF; lia). rewrite Hy, xadd_fin in Ey. injection Ey as E. exact E.
  Qed.
  Lemma loop_vec (T : @GT xr) (dir : (nat -> R) -> nat -> R) : @emits P true T (fun g _ n y => y = Fin (dir g n)) ->
    forall p gs, trwf p -> finite_tree p -> Forall (point_of p) gs ->
    exists s0 qs sf, @init xr T p = Ok s0 /\ @train_loop xr T s0 p gs = Ok (qs, sf) /\ length qs = length gs /\ Forall (point_of p) qs /\
      forall i t, (i < length (rvals p))%nat -> (t < length gs)%nat ->
        nth i (pt p (p :: qs) (S t)) 0 = nth i (pt p (p :: qs) t) 0 + dir (fun k => nth i (pt p gs k) 0) t.
  Proof. intros HE. exact (loop_vec_q true T (fun g _ n => dir g n) HE). Qed.
  Lemma minimise_of_loop (T : @GT xr) grad : forall gs s q qs sf, @train_loop xr T s q gs = Ok (qs, sf) -> (forall t, (t < length gs)%nat -> nth_error gs t = option_map grad (nth_error (q :: qs) t)) ->
    @minimise xr T grad (length gs) s q = Ok (qs, sf).
  Proof.
    induction gs as [|g gs IH]; intros s q qs sf E Hg; [exact E|]. cbn [train_loop] in E. cbn [length minimise]. nx.
    pose proof (Hg 0%nat ltac:(cbn; lia)) as H0. cbn in H0. injection H0 as ->.
    destruct (update T (grad q) s (Some q)) as [[u s']|]; cbn [rbind] in *; [|discriminate]. nx. destruct (@apply_updates xr q u) as [q'|]; cbn [rbind] in *; [|discriminate].
    destruct (@train_loop xr T s' q' gs) as [[qs' sf']|] eqn:E2; cbn [rbind] in E; [|discriminate]. injection E as <- <-.
    nx. rewrite (IH s' q' qs' sf' E2); [reflexivity|]. intros t Ht. exact (Hg (S t) ltac:(cbn; lia)).
  Qed.
  Lemma train_loop_prefix (T : @GT xr) s p gs g qs sf : @train_loop xr T s p (gs ++ [g]) = Ok (qs, sf) -> forall qs1 sf1, @train_loop xr T s p gs = Ok (qs1, sf1) -> exists q, qs = qs1 ++ [q].
  Proof.
    intros E qs1 sf1 E1. rewrite train_loop_app, E1 in E. cbn [rbind train_loop] in E. nx. destruct (update T g sf1 (Some (last qs1 p))) as [[u s']|]; cbn [rbind] in *; [|discriminate]. nx.
    destruct (@apply_updates xr (last qs1 p) u) as [q'|]; cbn [rbind] in *; [|discriminate]. injection E as <- _. eauto.
  Qed.
  Lemma minimise_vec (T : @GT xr) (dir : (nat -> R) -> nat -> R) grad p : @emits P true T (fun g _ n y => y = Fin (dir g n)) -> trwf p -> finite_tree p -> (forall x, point_of p x -> point_of p (grad x)) ->
    forall n, exists s0 qs sf, @init xr T p = Ok s0 /\ @minimise xr T grad n s0 p = Ok (qs, sf) /\ length qs = n /\ Forall (point_of p) qs /\
      forall i t, (i < length (rvals p))%nat -> (t < n)%nat -> nth i (pt p (p :: qs) (S t)) 0 = nth i (pt p (p :: qs) t) 0 + dir (fun k => nth i (rvals (grad (nth k (p :: qs) p))) 0) t.
  Proof.
    intros HE Wp Fp Hgr n. assert (Hpp : point_of p p) by (split; [split; [reflexivity|exact Wp]|exact Fp]).
    enough (G : exists gs s0 qs sf, length gs = n /\ Forall (point_of p) gs /\ @init xr T p = Ok s0 /\ @train_loop xr T s0 p gs = Ok (qs, sf) /\ length qs = n /\
       forall t, (t < n)%nat -> nth_error gs t = option_map grad (nth_error (p :: qs) t)).
    { destruct G as (gs & s0 & qs & sf & Hl & Hg & Ei & El & Hq & Ht). destruct (loop_vec T dir HE p gs Wp Fp Hg) as (s0' & qs' & sf' & Ei' & El' & Hl' & Hp' & Hs).
      rewrite Ei in Ei'. injection Ei' as <-. rewrite El in El'. injection El' as <- <-. exists s0, qs, sf. split; [exact Ei|]. split. { rewrite <- Hl. apply minimise_of_loop; [exact El|]. intros t H. apply Ht. nx. lia. }
      split; [exact Hq|]. split; [exact Hp'|]. intros i t Hi Hlt. rewrite (Hs i t Hi) by (nx; lia). f_equal. nx.
      (* dir only looks at gradients up to t: use emits with either history *)
      destruct (coord p i Wp Hi) as (pos & Hpos).
      assert (HP : forall k, (k <= n)%nat -> point_of p (nth k (p :: qs) p)). { intros k Hk. destruct k as [|k]; [exact Hpp|]. cbn [nth]. rewrite Forall_forall in Hp'. apply Hp'. nx. apply nth_In. lia. }
      assert (HG : forall k, (k < n)%nat -> nth k gs p = grad (nth k (p :: qs) p)).
      { intros k Hk. pose proof (Ht k Hk) as E. nx. rewrite (nth_error_nth' gs p), (nth_error_nth' (p :: qs) p) in E by (cbn; lia). cbn in E. now injection E. }
      destruct (HE p (map (fun g => (g, None)) gs) Wp) as (outs & _ & _ & _ & Ho).
      { apply Forall_forall. intros h Hh. apply in_map_iff in Hh as (g & <- & Hin). rewrite Forall_forall in Hg. split; [apply (Hg g Hin)|discriminate]. }
      assert (Hh : forall k, (k <= t)%nat -> @helt xr (map (fun g => (g, None)) gs) k pos = Some (Fin (nth i (pt p gs k) 0))).
      { intros k Hk. unfold helt. rewrite nth_error_map. nx. rewrite (nth_error_nth' gs p) by lia. cbn [option_map fst]. apply Hpos. rewrite Forall_forall in Hg. apply Hg, nth_In. lia. }
      destruct (Ho t pos (fun k => nth i (pt p gs k) 0) (fun _ => 0)) as (y1 & E1 & R1); [rewrite map_length; lia|exact Hh|discriminate|].
      destruct (Ho t pos (fun k => nth i (rvals (grad (nth k (p :: qs) p))) 0) (fun _ => 0)) as (y2 & E2 & R2); [rewrite map_length; lia| |discriminate|].
      - intros k Hk. rewrite (Hh k Hk). unfold pt. rewrite HG by lia. reflexivity.
      - rewrite E1 in E2. injection E2 as <-. rewrite R1 in R2. now injection R2. }
    induction n as [|n IH].
    - destruct (loop_vec T dir HE p [] Wp Fp (Forall_nil _)) as (s0 & qs & sf & Ei & El & Hl & _). exists [], s0, qs, sf. repeat split; auto. intros t Ht; lia.
    - destruct IH as (gs & s0 & qs & sf & Hl & Hg & Ei & El & Hq & Ht).
      destruct (loop_vec T dir HE p gs Wp Fp Hg) as (s0' & qs' & sf' & Ei' & El' & _ & Hp' & _). rewrite Ei in Ei'. injection Ei' as <-. rewrite El in El'. injection El' as <- <-.
      assert (HP : point_of p (nth n (p :: qs) p)). { destruct n as [|k]; [exact Hpp|]. cbn [nth]. rewrite Forall_forall in Hp'. apply Hp'. nx. apply nth_In. lia. }
      assert (Hg' : Forall (point_of p) (gs ++ [grad (nth n (p :: qs) p)])) by (apply Forall_app; split; [exact Hg|constructor; [now apply Hgr|constructor]]).
      destruct (loop_vec T dir HE p _ Wp Fp Hg') as (s0' & qs' & sf' & Ei' & El' & Hl' & _). rewrite Ei in Ei'. injection Ei' as <-.
      destruct (train_loop_prefix T s0 p gs _ qs' sf' El' qs sf El) as (q & ->).
      exists (gs ++ [grad (nth n (p :: qs) p)]), s0, (qs ++ [q]), sf'. nx. split; [rewrite app_length; cbn; lia|]. split; [exact Hg'|]. split; [exact Ei|]. split; [exact El'|]. split; [rewrite app_length; cbn; lia|]. nx.
      intros t Hlt. change (p :: qs ++ [q]) with ((p :: qs) ++ [q]). rewrite (nth_error_app1 (p :: qs)) by (cbn; lia). destruct (Nat.eq_dec t n) as [->|Hne].
      + nx. rewrite nth_error_app2, Hl, Nat.sub_diag by lia. rewrite (nth_error_nth' (p :: qs) p) by (cbn; lia). reflexivity.
      + nx. rewrite nth_error_app1 by lia. apply Ht. lia.
  Qed.
End Loop.

(** ** sgd *)
Section Seqs.
  (** One coordinate-wise gradient step, summed over the coordinates. *)
  Variables (N : nat) (lr : R) (x g : nat -> nat -> R) (q : nat -> R).
  Let D t := rsum (map (fun i => (x t i - q i) * (x t i - q i)) (seq 0 N)).
  Let I t := rsum (map (fun i => g t i * (x t i - q i)) (seq 0 N)).
  Let G t := rsum (map (fun i => g t i * g t i) (seq 0 N)).
  Lemma step_identity t : (forall i, (i < N)%nat -> x (S t) i = x t i - lr * g t i) -> D (S t) = D t - 2 * lr * I t + lr * lr * G t.
  Proof.
    intros Hx. unfold D, I, G. rewrite <- !rsum_map_scal, <- rsum_map_sub, <- rsum_map_add. apply rsum_map_ext. intros i Hi. apply in_seq in Hi. rewrite Hx by lia. ring.
  Qed.
  Lemma run_identity n : (forall t i, (t < n)%nat -> (i < N)%nat -> x (S t) i = x t i - lr * g t i) ->
    2 * lr * rsum (map I (seq 0 n)) = D 0%nat - D n + lr * lr * rsum (map G (seq 0 n)).
  Proof.
    induction n as [|n IH]; intros Hx; [cbn [seq map]; rewrite !rsum_nil; ring|]. rewrite !rsum_seq_S. assert (E := step_identity n (fun i => Hx n i (le_n _))).
    assert (E2 : 2 * lr * rsum (map I (seq 0 n)) = D 0%nat - D n + lr * lr * rsum (map G (seq 0 n))) by (apply IH; intros; apply Hx; lia). lra.
  Qed.
End Seqs.

Section Sgd.
  Context {P : Platform}.
  Notation xr := (XROps P).
  Lemma sgd_dir lr : exists T, @sgd xr (@LConst xr (Fin lr)) None false = Ok T /\ @emits P true T (fun g _ n y => y = Fin (- lr * g n)).
  Proof. destruct (@sgd_emits P (@LConst xr (Fin lr)) (fun _ => lr) None false (fun _ => eq_refl)) as (T & E & HE). exists T. split; [exact E|exact HE]. Qed.
End Sgd.

(*@ C78_sgd_identity : for every learning rate lr, every finite parameters and every list of finite gradients of the parameters' signature, whatever they are gradients of: the loop of sgd(lr) updates and apply_updates never fails, and for every vector q and every number n of steps, 2 lr sum_{t<n} <g_t, x_t - q> = |x_0 - q|^2 - |x_n - q|^2 + lr^2 sum_{t<n} |g_t|^2. *)
Lemma sgd_identity : forall `{P : Platform} (lr : R) (p : tree tensor) (gs : list (tree tensor)) (q : list R), trwf p -> finite_tree p -> Forall (point_of p) gs -> length q = length (rvals p) ->
  exists T s0 qs sf, sgd (LConst (Fin lr)) None false = Ok T /\ init T p = Ok s0 /\ train_loop T s0 p gs = Ok (qs, sf) /\ length qs = length gs /\ Forall (point_of p) qs /\
    let x t := rvals (nth t (p :: qs) p) in let g t := rvals (nth t gs p) in
    forall n, (n <= length gs)%nat ->
      2 * lr * rsum (map (fun t => dot (g t) (vsub (x t) q)) (seq 0 n)) = sumsq (vsub (rvals p) q) - sumsq (vsub (x n) q) + lr ^ 2 * rsum (map (fun t => sumsq (g t)) (seq 0 n)).
Proof.
  intros P lr p gs q Wp Fp Hgs Lq. destruct (sgd_dir lr) as (T & ET & HE). destruct (loop_vec T _ HE p gs Wp Fp Hgs) as (s0 & qs & sf & Ei & El & Hl & Hq & Hs).
  exists T, s0, qs, sf. repeat (split; [assumption|]). cbn zeta. intros n Hn. nx. set (N := length (rvals p)) in *.
  assert (Hpp : point_of p p) by (split; [split; [reflexivity|exact Wp]|exact Fp]).
  assert (Lx : forall t, (t <= n)%nat -> length (rvals (nth t (p :: qs) p)) = N). { intros t Ht. apply rvals_length; [exact Wp|]. destruct t; [exact Hpp|]. cbn [nth]. rewrite Forall_forall in Hq. apply Hq, nth_In. lia. }
  assert (Lg : forall t, (t < n)%nat -> length (rvals (nth t gs p)) = N). { intros t Ht. apply rvals_length; [exact Wp|]. rewrite Forall_forall in Hgs. apply Hgs, nth_In. lia. }
  pose proof (run_identity N lr (fun t i => nth i (rvals (nth t (p :: qs) p)) 0) (fun t i => nth i (rvals (nth t gs p)) 0) (fun i => nth i q 0) n) as E.
  rewrite (rsum_map_ext (fun t => dot _ _) (fun t => rsum (map (fun i => nth i (rvals (nth t gs p)) 0 * (nth i (rvals (nth t (p :: qs) p)) 0 - nth i q 0)) (seq 0 N)))).
  2:{ intros t Ht. apply in_seq in Ht. apply dot_vsub; [apply Lg; lia|apply Lx; lia|exact Lq]. }
  rewrite (rsum_map_ext (fun t => sumsq _) (fun t => rsum (map (fun i => nth i (rvals (nth t gs p)) 0 * nth i (rvals (nth t gs p)) 0) (seq 0 N)))).
  2:{ intros t Ht. apply in_seq in Ht. apply sumsq_seq, Lg. lia. }
  rewrite (sumsq_vsub (rvals p) q N), (sumsq_vsub (rvals (nth n (p :: qs) p)) q N) by (auto; apply Lx; lia).
  cbn beta in E. rewrite E; [cbn [nth]; ring|]. intros t i Ht Hi. specialize (Hs i t Hi ltac:(lia)). unfold pt in Hs. rewrite Hs. ring.
Qed.

Section Min.
  Context {P : Platform}.
  Notation xr := (XROps P).
  Variables (lr : R) (p : tree (gt XR)) (grad : tree (gt XR) -> tree (gt XR)).
  Hypotheses (Wp : trwf p) (Fp : finite_tree p) (Hgr : forall x, point_of p x -> point_of p (grad x)).
  Let x (qs : list (tree (gt XR))) t := rvals (nth t (p :: qs) p).
  Let g (qs : list (tree (gt XR))) t := rvals (grad (nth t (p :: qs) p)).
  (** The loop, with the step identity for every comparison vector. *)
  Lemma sgd_minimise n : exists T s0 qs sf, @sgd xr (@LConst xr (Fin lr)) None false = Ok T /\ @init xr T p = Ok s0 /\ @minimise xr T grad n s0 p = Ok (qs, sf) /\ length qs = n /\ Forall (point_of p) qs /\
    (forall t, (t <= n)%nat -> point_of p (nth t (p :: qs) p)) /\
    (forall t q, (t < n)%nat -> length q = length (rvals p) -> sumsq (vsub (x qs (S t)) q) = sumsq (vsub (x qs t) q) - 2 * lr * dot (g qs t) (vsub (x qs t) q) + lr * lr * sumsq (g qs t)) /\
    (forall t, (t < n)%nat -> dot (g qs t) (vsub (x qs (S t)) (x qs t)) = - lr * sumsq (g qs t) /\ sumsq (vsub (x qs (S t)) (x qs t)) = lr * lr * sumsq (g qs t)).
  Proof.
    destruct (@sgd_dir P lr) as (T & ET & HE). destruct (minimise_vec T _ grad p HE Wp Fp Hgr n) as (s0 & qs & sf & Ei & El & Hl & Hq & Hs).
    assert (Hpp : point_of p p) by (split; [split; [reflexivity|exact Wp]|exact Fp]).
    assert (HP : forall t, (t <= n)%nat -> point_of p (nth t (p :: qs) p)). { intros t Ht. destruct t; [exact Hpp|]. cbn [nth]. rewrite Forall_forall in Hq. apply Hq. nx. apply nth_In. lia. }
    exists T, s0, qs, sf. repeat (split; [assumption|]).
    assert (Lx : forall t, (t <= n)%nat -> length (x qs t) = length (rvals p)) by (intros t Ht; apply rvals_length; auto).
    assert (Lg : forall t, (t <= n)%nat -> length (g qs t) = length (rvals p)) by (intros t Ht; apply rvals_length; auto).
    split.
    - intros t q Ht Lq. rewrite (sumsq_vsub (x qs (S t)) q _ (Lx _ Ht) Lq), (sumsq_vsub (x qs t) q _ (Lx t ltac:(lia)) Lq), (dot_vsub _ _ _ _ (Lg t ltac:(lia)) (Lx t ltac:(lia)) Lq), (sumsq_seq _ _ (Lg t ltac:(lia))).
      apply (step_identity (length (rvals p)) lr (fun t i => nth i (x qs t) 0) (fun t i => nth i (g qs t) 0) (fun i => nth i q 0) t).
      intros i Hi. specialize (Hs i t Hi Ht). unfold pt in Hs. fold (x qs (S t)) (x qs t) in Hs. rewrite Hs. unfold g. ring.
    - intros t Ht. rewrite (dot_vsub _ _ _ _ (Lg t ltac:(lia)) (Lx (S t) ltac:(lia)) (Lx t ltac:(lia))), (sumsq_vsub _ _ _ (Lx (S t) ltac:(lia)) (Lx t ltac:(lia))), (sumsq_seq _ _ (Lg t ltac:(lia))), <- !rsum_map_scal.
      split; apply rsum_map_ext; intros i Hi; apply in_seq in Hi; specialize (Hs i t ltac:(lia) Ht); unfold pt in Hs; fold (x qs (S t)) (x qs t) in Hs; rewrite Hs; unfold g; ring.
  Qed.
End Min.
Lemma dot_vsub_anti g x y N : length g = N -> length x = N -> length y = N -> dot g (vsub x y) = - dot g (vsub y x).
Proof. intros H1 H2 H3. rewrite (dot_vsub g x y N), (dot_vsub g y x N) by assumption. rewrite <- (Rmult_1_l (rsum (map (fun i => nth i g 0 * (nth i y 0 - nth i x 0)) _))), Ropp_mult_distr_l, <- rsum_map_scal. apply rsum_map_ext. intros i _. ring. Qed.
Lemma rsum_const n c : rsum (map (fun _ : nat => c) (seq 0 n)) = INR n * c.
Proof. now rewrite rsum_map_const, seq_length. Qed.
(** An average is at least one of its terms. *)
Lemma some_below (f : nat -> R) n c : (0 < n)%nat -> rsum (map f (seq 0 n)) <= INR n * c -> exists t, (t < n)%nat /\ f t <= c.
Proof.
  induction n as [|n IH]; [lia|]. intros _ H. destruct (Rle_dec (f n) c) as [Hc|Hc]; [exists n; auto|]. destruct n as [|n].
  - exfalso. rewrite rsum_seq_S in H. cbn [seq map] in H. rewrite rsum_nil in H. cbn in H. lra.
  - destruct IH as (t & Ht & Hf); [lia| |exists t; split; [lia|exact Hf]]. rewrite rsum_seq_S in H. rewrite (S_INR (S n)) in H. lra.
Qed.

(*@ C78_convex : minimising any function f of which grad computes subgradients of squared norm at most G (f is then convex; it need not be differentiable) with sgd(lr), lr > 0: n steps never fail, the average of f at the n visited points exceeds f at any vector q by at most |x_0 - q|^2 / (2 lr n) + lr G / 2, and so does f at one of the visited points. *)
Lemma sgd_convex : forall `{P : Platform} (lr G : R) (p : tree tensor) (grad : tree tensor -> tree tensor) (f : list R -> R) (n : nat) (q : list R), 0 < lr -> (0 < n)%nat -> trwf p -> finite_tree p ->
  (forall x, point_of p x -> point_of p (grad x) /\ sumsq (rvals (grad x)) <= G) -> subgradients p f grad -> length q = length (rvals p) ->
  exists T s0 qs sf, sgd (LConst (Fin lr)) None false = Ok T /\ init T p = Ok s0 /\ minimise T grad n s0 p = Ok (qs, sf) /\ length qs = n /\ Forall (point_of p) qs /\
    let x t := rvals (nth t (p :: qs) p) in
    rsum (map (fun t => f (x t)) (seq 0 n)) / INR n - f q <= sumsq (vsub (rvals p) q) / (2 * lr * INR n) + lr * G / 2 /\
    exists t, (t < n)%nat /\ f (x t) - f q <= sumsq (vsub (rvals p) q) / (2 * lr * INR n) + lr * G / 2.
Proof.
  intros P lr G p grad f n q Hlr Hn Wp Fp Hgr Hsub Lq. destruct (sgd_minimise lr p grad Wp Fp (fun x H => proj1 (Hgr x H)) n) as (T & s0 & qs & sf & ET & Ei & El & Hl & Hq & HP & Hs & _).
  exists T, s0, qs, sf. repeat (split; [assumption|]). cbn zeta. nx. pose proof (lt_0_INR n Hn) as Hn'.
  assert (E : forall k, (k <= n)%nat -> rsum (map (fun t => f (rvals (nth t (p :: qs) p)) - f q) (seq 0 k)) <= (sumsq (vsub (rvals p) q) - sumsq (vsub (rvals (nth k (p :: qs) p)) q)) / (2 * lr) + INR k * (lr * G / 2)).
  { induction k as [|k IH]; intros Hk; [cbn [seq map nth INR]; rewrite rsum_nil; right; field; lra|]. specialize (IH ltac:(lia)). rewrite rsum_seq_S, S_INR.
    specialize (Hs k q ltac:(lia) Lq). set (xk := nth k (p :: qs) p) in *. assert (Hk' : point_of p xk) by (apply HP; lia). destruct (Hgr xk Hk') as (Hg1 & Hg2).
    pose proof (Hsub xk q Hk' Lq) as H1. rewrite (dot_vsub_anti _ _ _ (length (rvals p))) in H1 by (try apply rvals_length; auto).
    set (d := dot (rvals (grad xk)) (vsub (rvals xk) q)) in *. set (s := sumsq (rvals (grad xk))) in *. set (a := sumsq (vsub (rvals xk) q)) in *. set (b := sumsq (vsub (rvals (nth (S k) (p :: qs) p)) q)) in *.
    assert (E1 : d = (a - b) / (2 * lr) + lr * s / 2) by (rewrite Hs; field; lra).
    assert (E2 : lr * s / 2 <= lr * G / 2) by nra.
    replace ((sumsq (vsub (rvals p) q) - b) / (2 * lr)) with ((sumsq (vsub (rvals p) q) - a) / (2 * lr) + (a - b) / (2 * lr)) by (field; lra). lra. }
  specialize (E n (le_n _)). set (B := sumsq (vsub (rvals p) q) / (2 * lr * INR n) + lr * G / 2).
  assert (E2 : rsum (map (fun t => f (rvals (nth t (p :: qs) p)) - f q) (seq 0 n)) <= INR n * B).
  { eapply Rle_trans; [exact E|]. unfold B. pose proof (sumsq_nonneg (vsub (rvals (nth n (p :: qs) p)) q)) as H. apply (Rmult_le_compat_r (/ (2 * lr))) in H; [|left; apply Rinv_0_lt_compat; lra].
    replace (INR n * (sumsq (vsub (rvals p) q) / (2 * lr * INR n) + lr * G / 2)) with (sumsq (vsub (rvals p) q) * / (2 * lr) + INR n * (lr * G / 2)) by (field; lra). unfold Rdiv. lra. }
  split.
  - rewrite rsum_map_sub, rsum_const in E2. apply (Rmult_le_reg_l (INR n)); [exact Hn'|]. rewrite Rmult_minus_distr_l. replace (INR n * (rsum (map (fun t => f (rvals (nth t (p :: qs) p))) (seq 0 n)) / INR n)) with (rsum (map (fun t => f (rvals (nth t (p :: qs) p))) (seq 0 n))) by (field; lra). exact E2.
  - exact (some_below _ n B Hn E2).
Qed.

(*@ C78_smooth : minimising any L-smooth function (convex or not) with sgd(lr), 0 < lr <= 1/L: every step decreases f by at least lr/2 |grad|^2; if f never goes below m, one of the first n gradients has squared norm at most 2 (f(x_0) - m) / (lr n). If moreover grad computes subgradients (f convex), f after n steps exceeds f at any vector q by at most |x_0 - q|^2 / (2 lr n). *)
Lemma sgd_smooth : forall `{P : Platform} (lr L : R) (p : tree tensor) (grad : tree tensor -> tree tensor) (f : list R -> R) (n : nat), 0 < lr -> lr * L <= 1 -> (0 < n)%nat -> trwf p -> finite_tree p ->
  (forall x, point_of p x -> point_of p (grad x)) -> smooth p f grad L ->
  exists T s0 qs sf, sgd (LConst (Fin lr)) None false = Ok T /\ init T p = Ok s0 /\ minimise T grad n s0 p = Ok (qs, sf) /\ length qs = n /\ Forall (point_of p) qs /\
    let x t := nth t (p :: qs) p in
    (forall t, (t < n)%nat -> f (rvals (x (S t))) <= f (rvals (x t)) - lr / 2 * sumsq (rvals (grad (x t)))) /\
    (forall m, (forall y, m <= f y) -> exists t, (t < n)%nat /\ sumsq (rvals (grad (x t))) <= 2 * (f (rvals p) - m) / (lr * INR n)) /\
    (forall q, subgradients p f grad -> length q = length (rvals p) -> f (rvals (x n)) - f q <= sumsq (vsub (rvals p) q) / (2 * lr * INR n)).
Proof.
  intros P lr L p grad f n Hlr HL Hn Wp Fp Hgr Hsm. destruct (sgd_minimise lr p grad Wp Fp Hgr n) as (T & s0 & qs & sf & ET & Ei & El & Hl & Hq & HP & Hs & Hd).
  exists T, s0, qs, sf. repeat (split; [assumption|]). cbn zeta. nx. pose proof (lt_0_INR n Hn) as Hn'.
  assert (HD : forall t, (t < n)%nat -> f (rvals (nth (S t) (p :: qs) p)) <= f (rvals (nth t (p :: qs) p)) - lr / 2 * sumsq (rvals (grad (nth t (p :: qs) p)))).
  { intros t Ht. pose proof (Hsm (nth t (p :: qs) p) (nth (S t) (p :: qs) p) (HP t ltac:(lia)) (HP (S t) Ht)) as H. destruct (Hd t Ht) as (E1 & E2). rewrite E1, E2 in H.
    set (s := sumsq (rvals (grad (nth t (p :: qs) p)))) in *. assert (0 <= s) by apply sumsq_nonneg. assert (lr * L * (lr * s) <= 1 * (lr * s)) by (apply Rmult_le_compat_r; [nra|exact HL]). nra. }
  split; [exact HD|]. split.
  - intros m Hm. assert (E : forall k, (k <= n)%nat -> rsum (map (fun t => sumsq (rvals (grad (nth t (p :: qs) p)))) (seq 0 k)) <= 2 / lr * (f (rvals p) - f (rvals (nth k (p :: qs) p)))).
    { induction k as [|k IH]; intros Hk; [cbn [seq map nth]; rewrite rsum_nil; right; ring|]. specialize (IH ltac:(lia)). rewrite rsum_seq_S. specialize (HD k ltac:(lia)). set (s := sumsq (rvals (grad (nth k (p :: qs) p)))) in *.
      assert (E3 : s <= 2 / lr * (f (rvals (nth k (p :: qs) p)) - f (rvals (nth (S k) (p :: qs) p)))). { apply (Rmult_le_reg_l (lr / 2)); [lra|]. rewrite <- Rmult_assoc. replace (lr / 2 * (2 / lr)) with 1 by (field; lra). lra. }
      lra. }
    specialize (E n (le_n _)). apply (some_below _ n _ Hn). eapply Rle_trans; [exact E|]. replace (INR n * (2 * (f (rvals p) - m) / (lr * INR n))) with (2 / lr * (f (rvals p) - m)) by (field; lra).
    apply Rmult_le_compat_l; [unfold Rdiv; apply Rmult_le_pos; [lra|left; now apply Rinv_0_lt_compat]|]. specialize (Hm (rvals (nth n (p :: qs) p))). lra.
  - intros q Hsub Lq.
    assert (E : forall k, (k <= n)%nat -> INR k * (f (rvals (nth k (p :: qs) p)) - f q) <= (sumsq (vsub (rvals p) q) - sumsq (vsub (rvals (nth k (p :: qs) p)) q)) / (2 * lr)).
    { induction k as [|k IH]; intros Hk; [cbn [nth INR]; right; field; lra|]. specialize (IH ltac:(lia)). rewrite S_INR. specialize (HD k ltac:(lia)). specialize (Hs k q ltac:(lia) Lq).
      set (xk := nth k (p :: qs) p) in *. assert (Hk' : point_of p xk) by (apply HP; lia). pose proof (Hsub xk q Hk' Lq) as H1. rewrite (dot_vsub_anti _ _ _ (length (rvals p))) in H1 by (try apply rvals_length; auto).
      set (d := dot (rvals (grad xk)) (vsub (rvals xk) q)) in *. set (s := sumsq (rvals (grad xk))) in *. set (a := sumsq (vsub (rvals xk) q)) in *. set (b := sumsq (vsub (rvals (nth (S k) (p :: qs) p)) q)) in *.
      assert (E1 : d = (a - b) / (2 * lr) + lr * s / 2) by (rewrite Hs; field; lra). assert (0 <= s) by apply sumsq_nonneg.
      replace ((sumsq (vsub (rvals p) q) - b) / (2 * lr)) with ((sumsq (vsub (rvals p) q) - a) / (2 * lr) + (a - b) / (2 * lr)) by (field; lra).
      pose proof (pos_INR k). set (f1 := f (rvals (nth (S k) (p :: qs) p))) in *. assert (INR k * (f1 - f q) <= INR k * (f (rvals xk) - f q)) by (apply Rmult_le_compat_l; nra). nra. }
    specialize (E n (le_n _)). pose proof (sumsq_nonneg (vsub (rvals (nth n (p :: qs) p)) q)) as H. apply (Rmult_le_compat_r (/ (2 * lr))) in H; [|left; apply Rinv_0_lt_compat; lra].
    apply (Rmult_le_reg_l (INR n)); [exact Hn'|]. replace (INR n * (sumsq (vsub (rvals p) q) / (2 * lr * INR n))) with (sumsq (vsub (rvals p) q) * / (2 * lr)) by (field; lra). unfold Rdiv in E. lra.
Qed.

(** A quadratic: hypotheses hold with L = 1. *)
Definition quad (l : list R) : R := rsum (map (fun v => (v - 3) * (v - 3) / 2) l).
Definition quad_grad (x : tree (gt XR)) : tree (gt XR) := emapt (fun _ v => xsub v (Fin 3)) x.
Lemma quad_grad_vals x : finite_tree x -> rvals (quad_grad x) = map (fun v => v - 3) (rvals x).
Proof.
  intros Fx. unfold rvals, vals, quad_grad, emapt. rewrite leaves_tmap, map_map. change (fun x : gt XR => dat (emap (fun _ v => xsub v (Fin 3)) x)) with (fun x : gt XR => map (fun v => xsub v (Fin 3)) (dat x)).
  rewrite <- (map_map dat (map (fun v => xsub v (Fin 3)))), <- concat_map, !map_map. unfold finite_tree, vals in Fx. rewrite Forall_forall in Fx. apply map_ext_in. intros v Hv. destruct (Fx v Hv) as (r & ->). reflexivity.
Qed.
Lemma quad_ok `{P : Platform} (p x : tree (gt XR)) : point_of p x -> point_of p (quad_grad x).
Proof.
  intros ((Ha & Hw) & Fx). split; [split; [unfold quad_grad; now rewrite emapt_avals|now apply emapt_wf]|]. apply finite_of_elts. intros pos v. unfold quad_grad. rewrite elt_emapt.
  destruct (elt x pos) as [w|] eqn:E; [|discriminate]. destruct (finite_elt x pos w Fx E) as (r & ->). intros [= <-]. eexists; reflexivity.
Qed.
Lemma quad_taylor (x y : list R) : length y = length x -> quad y = quad x + dot (map (fun v => v - 3) x) (vsub y x) + 1 / 2 * sumsq (vsub y x).
Proof.
  revert y. induction x as [|a x IH]; intros [|b y] E; try discriminate; [unfold quad, dot, vsub, sumsq; cbn; unfold rsum; cbn; lra|]. cbn in E. injection E as E. specialize (IH y E).
  unfold quad, vsub in *. cbn [map combine fst snd]. rewrite !rsum_cons, dot_cons, sumsq_cons. lra.
Qed.
Lemma quad_sub `{P : Platform} (p : tree (gt XR)) : trwf p -> subgradients p quad quad_grad.
Proof.
  intros Wp x y Hx Ly. rewrite quad_grad_vals by apply Hx. rewrite (quad_taylor (rvals x) y) by (rewrite Ly; symmetry; now apply rvals_length). pose proof (sumsq_nonneg (vsub y (rvals x))). lra.
Qed.
Lemma quad_smooth `{P : Platform} (p : tree (gt XR)) : trwf p -> smooth p quad quad_grad 1.
Proof.
  intros Wp x y Hx Hy. rewrite quad_grad_vals by apply Hx. right. apply quad_taylor. transitivity (length (rvals p)); [now apply rvals_length|symmetry; now apply rvals_length].
Qed.
(*@ex C78_example *)
Lemma regret_example : forall `{P : Platform}, let p := Leaf (mkT F32 [2%nat] [Fin 5; Fin 1]) in
  trwf p /\ finite_tree p /\ rvals p = [5; 1] /\ (forall x, point_of p x -> point_of p (quad_grad x)) /\ subgradients p quad quad_grad /\ smooth p quad quad_grad 1 /\
  exists T s0 qs sf, sgd (LConst (Fin (1 / 2))) None false = Ok T /\ init T p = Ok s0 /\ minimise T quad_grad 4 s0 p = Ok (qs, sf) /\
    quad (rvals (nth 4 (p :: qs) p)) - quad [3; 3] <= sumsq (vsub [5; 1] [3; 3]) / (2 * (1 / 2) * INR 4).
Proof.
  intros P. cbn zeta. set (p := Leaf (mkT F32 [2%nat] [Fin 5; Fin 1])). assert (Wp : trwf p) by (repeat constructor). assert (Fp : finite_tree p) by (repeat constructor; eexists; reflexivity).
  split; [exact Wp|]. split; [exact Fp|]. split; [reflexivity|]. split; [apply quad_ok|]. split; [now apply quad_sub|]. split; [now apply quad_smooth|].
  destruct (@sgd_smooth P (1/2) 1 p quad_grad quad 4) as (T & s0 & qs & sf & ET & Ei & El & _ & _ & H); [lra|lra|lia|exact Wp|exact Fp|apply quad_ok|now apply quad_smooth|]. exists T, s0, qs, sf. split; [exact ET|]. split; [exact Ei|]. split; [exact El|].
  destruct H as (_ & _ & H). exact (H [3; 3] (quad_sub p Wp) eq_refl).
Qed.

(** ** adagrad *)
Section Ada.
  Variables (lr a0 eps D q : R) (x g : nat -> R).
  Hypotheses (Hlr : 0 < lr) (Ha : 0 <= a0) (He : 0 < eps).
  Let S_ n := a0 + sum_f_R0 (fun i => g i * g i) n + eps.
  Lemma ada_run n : (forall t, (t <= n)%nat -> x (S t) = x t + - lr * (g t / sqrt (S_ t))) -> (forall t, (t <= n)%nat -> Rabs (x t - q) <= D) ->
    sum_f_R0 (fun t => g t * (x t - q)) n + (x (S n) - q) * (x (S n) - q) * sqrt (S_ n) / (2 * lr) <= D * D / (2 * lr) * sqrt (S_ n) + lr * (sqrt (S_ n) - sqrt (a0 + eps)).
  Proof.
    assert (Hsq : forall n, 0 <= sum_f_R0 (fun i => g i * g i) n) by (intros m; apply cond_pos_sum; intros; nra).
    assert (Hp : forall n, 0 < sqrt (S_ n)) by (intros m; apply sqrt_lt_R0; unfold S_; specialize (Hsq m); lra).
    (* the step: g (x - q) + d' h / (2 lr) <= d h / (2 lr) + lr (h - h0) when h^2 = h0^2 + g^2 *)
    assert (K : forall xt gt h h0 xs, 0 < h -> 0 <= h0 -> h * h = h0 * h0 + gt * gt -> xs = xt + - lr * (gt / h) ->
      gt * (xt - q) + (xs - q) * (xs - q) * h / (2 * lr) <= (xt - q) * (xt - q) * h / (2 * lr) + lr * (h - h0)).
    { intros xt gt h h0 xs Hh Hh0 Eh ->. assert (Hle : h0 <= h) by nra.
      replace (gt * (xt - q) + (xt + - lr * (gt / h) - q) * (xt + - lr * (gt / h) - q) * h / (2 * lr)) with ((xt - q) * (xt - q) * h / (2 * lr) + lr * (gt * gt) / (2 * h)) by (field; lra).
      apply Rplus_le_compat_l. unfold Rdiv. rewrite Rmult_assoc. apply Rmult_le_compat_l; [lra|]. apply (Rmult_le_reg_r (2 * h)); [lra|]. rewrite Rmult_assoc, Rinv_l by lra. nra. }
    induction n as [|n IH]; intros Hx HD.
    - cbn [sum_f_R0]. assert (E0 : sqrt (S_ 0) * sqrt (S_ 0) = sqrt (a0 + eps) * sqrt (a0 + eps) + g 0%nat * g 0%nat) by (rewrite !sqrt_sqrt; [unfold S_; cbn [sum_f_R0]; ring|lra|unfold S_; cbn [sum_f_R0]; nra]).
      pose proof (K (x 0%nat) (g 0%nat) (sqrt (S_ 0)) (sqrt (a0 + eps)) (x 1%nat) (Hp 0%nat) (sqrt_pos _) E0 (Hx 0%nat (le_n _))) as H.
      pose proof (HD 0%nat (le_n _)) as Hd. eapply Rle_trans; [exact H|]. apply Rplus_le_compat_r. specialize (Hp 0%nat).
      assert (H2 : (x 0%nat - q) * (x 0%nat - q) <= D * D). { apply Rsqr_le_abs_1. rewrite (Rabs_pos_eq D); [exact Hd|]. eapply Rle_trans; [apply Rabs_pos|exact Hd]. }
      replace (D * D / (2 * lr) * sqrt (S_ 0)) with (D * D * (sqrt (S_ 0) / (2 * lr))) by (field; lra). unfold Rdiv at 1. rewrite Rmult_assoc. apply Rmult_le_compat_r; [|exact H2]. apply Rmult_le_pos; [lra|left; apply Rinv_0_lt_compat; lra].
    - assert (IH' : sum_f_R0 (fun t => g t * (x t - q)) n + (x (S n) - q) * (x (S n) - q) * sqrt (S_ n) / (2 * lr) <= D * D / (2 * lr) * sqrt (S_ n) + lr * (sqrt (S_ n) - sqrt (a0 + eps))) by (apply IH; intros; [apply Hx|apply HD]; lia).
      cbn [sum_f_R0]. set (h := sqrt (S_ (S n))) in *. set (h0 := sqrt (S_ n)) in *.
      assert (E : h * h = h0 * h0 + g (S n) * g (S n)) by (unfold h, h0; pose proof (Hsq n); pose proof (Hsq (S n)); rewrite !sqrt_sqrt by (unfold S_; lra); unfold S_; cbn [sum_f_R0]; ring).
      pose proof (K (x (S n)) (g (S n)) h h0 (x (S (S n))) (Hp (S n)) (sqrt_pos _) E (Hx (S n) (le_n _))) as H.
      pose proof (HD (S n) (le_n _)) as Hd. assert (H2 : (x (S n) - q) * (x (S n) - q) <= D * D). { apply Rsqr_le_abs_1. rewrite (Rabs_pos_eq D); [exact Hd|]. eapply Rle_trans; [apply Rabs_pos|exact Hd]. }
      set (d := (x (S n) - q) * (x (S n) - q)) in *. pose proof (Hp n : 0 < h0). pose proof (Hp (S n) : 0 < h). assert (Hle : h0 <= h) by nra.
      assert (H3 : d * h / (2 * lr) - d * h0 / (2 * lr) <= D * D / (2 * lr) * h - D * D / (2 * lr) * h0).
      { replace (d * h / (2 * lr) - d * h0 / (2 * lr)) with (d * ((h - h0) / (2 * lr))) by (field; lra). replace (D * D / (2 * lr) * h - D * D / (2 * lr) * h0) with (D * D * ((h - h0) / (2 * lr))) by (field; lra).
        apply Rmult_le_compat_r; [|exact H2]. apply Rmult_le_pos; [lra|left; apply Rinv_0_lt_compat; lra]. }
      lra.
  Qed.
End Ada.
Lemma sum_seq f n : sum_f_R0 f n = rsum (map f (seq 0 (S n))).
Proof. induction n as [|n IH]; [cbn; unfold rsum; cbn; lra|]. rewrite rsum_seq_S, <- IH. reflexivity. Qed.

(*@ C78_adagrad : for every learning rate lr > 0, initial accumulator a0 >= 0, eps > 0, finite parameters and list of finite gradients, whatever they are gradients of: the loop of adagrad updates and apply_updates never fails, and if the visited points stay within D of the coordinates of a vector q, then sum_{t<n} <g_t, x_t - q> <= (D^2 / (2 lr) + lr) * sum_i sqrt(a0 + eps + sum_{t<n} g_{t,i}^2). *)
Lemma adagrad_regret : forall `{P : Platform} (lr a0 eps D : R) (p : tree tensor) (gs : list (tree tensor)) (q : list R), 0 < lr -> 0 <= a0 -> 0 < eps -> trwf p -> finite_tree p -> Forall (point_of p) gs -> length q = length (rvals p) ->
  exists T s0 qs sf, adagrad (LConst (Fin lr)) (Fin a0) (Fin eps) = Ok T /\ init T p = Ok s0 /\ train_loop T s0 p gs = Ok (qs, sf) /\ length qs = length gs /\ Forall (point_of p) qs /\
    let x t := rvals (nth t (p :: qs) p) in let g t := rvals (nth t gs p) in
    forall n, (n <= length gs)%nat -> (forall t i, (t < n)%nat -> (i < length q)%nat -> Rabs (nth i (x t) 0 - nth i q 0) <= D) ->
      rsum (map (fun t => dot (g t) (vsub (x t) q)) (seq 0 n)) <=
      (D ^ 2 / (2 * lr) + lr) * rsum (map (fun i => sqrt (a0 + eps + rsum (map (fun t => nth i (g t) 0 ^ 2) (seq 0 n)))) (seq 0 (length q))).
Proof.
  intros P lr a0 eps D p gs q Hlr Ha He Wp Fp Hgs Lq.
  assert (HE : exists T, adagrad (LConst (Fin lr)) (Fin a0) (Fin eps) = Ok T /\ emits true T (fun g _ n y => y = Fin (- lr * rss_dir a0 eps g n))).
  { destruct (@alias_closed_forms P (@LConst (XROps P) (Fin lr)) (fun _ => lr) 0 0 eps 0 5 a0 (fun _ => eq_refl)) as (_ & _ & H & _); [lra..|]. exact H. }
  destruct HE as (T & ET & HE). destruct (loop_vec T _ HE p gs Wp Fp Hgs) as (s0 & qs & sf & Ei & El & Hl & Hq & Hs).
  exists T, s0, qs, sf. repeat (split; [assumption|]). cbn zeta. intros n Hn HD. nx. set (N := length (rvals p)) in *. rewrite Lq in *.
  assert (Hpp : point_of p p) by (split; [split; [reflexivity|exact Wp]|exact Fp]).
  assert (Lx : forall t, (t <= n)%nat -> length (rvals (nth t (p :: qs) p)) = N). { intros t Ht. apply rvals_length; [exact Wp|]. destruct t; [exact Hpp|]. cbn [nth]. rewrite Forall_forall in Hq. apply Hq, nth_In. lia. }
  assert (Lg : forall t, (t < n)%nat -> length (rvals (nth t gs p)) = N). { intros t Ht. apply rvals_length; [exact Wp|]. rewrite Forall_forall in Hgs. apply Hgs, nth_In. lia. }
  rewrite (rsum_map_ext (fun t => dot _ _) (fun t => rsum (map (fun i => nth i (rvals (nth t gs p)) 0 * (nth i (rvals (nth t (p :: qs) p)) 0 - nth i q 0)) (seq 0 N)))).
  2:{ intros t Ht. apply in_seq in Ht. apply dot_vsub; [apply Lg; lia|apply Lx; lia|exact Lq]. }
  rewrite rsum_swap, <- rsum_map_scal. apply rsum_map_le. intros i Hi. apply in_seq in Hi. destruct n as [|n].
  { cbn [seq map]. rewrite !rsum_nil. apply Rmult_le_pos; [|apply sqrt_pos]. assert (0 <= D ^ 2 / (2 * lr)) by (apply Rmult_le_pos; [nra|left; apply Rinv_0_lt_compat; lra]). lra. }
  set (xi := fun t => nth i (rvals (nth t (p :: qs) p)) 0). set (gi := fun t => nth i (rvals (nth t gs p)) 0).
  pose proof (ada_run lr a0 eps D (nth i q 0) xi gi Hlr Ha He n) as H. cbv zeta in H. rewrite sum_seq in H.
  assert (E : a0 + eps + rsum (map (fun t => gi t ^ 2) (seq 0 (S n))) = a0 + sum_f_R0 (fun t => gi t * gi t) n + eps).
  { rewrite sum_seq. rewrite (rsum_map_ext (fun t => gi t ^ 2) (fun t => gi t * gi t)) by (intros; ring). ring. }
  fold gi. change (fun t => nth i (rvals (nth t gs p)) 0 ^ 2) with (fun t => gi t ^ 2). rewrite E. set (h := sqrt (a0 + sum_f_R0 (fun t => gi t * gi t) n + eps)) in *.
  eapply Rle_trans; [|eapply Rle_trans; [apply H|]].
  - rewrite <- (Rplus_0_r (rsum _)) at 1. apply Rplus_le_compat_l. unfold Rdiv. apply Rmult_le_pos; [|left; apply Rinv_0_lt_compat; lra]. apply Rmult_le_pos; [apply Rle_0_sqr|apply sqrt_pos].
  - intros t Ht. specialize (Hs i t ltac:(lia) ltac:(lia)). unfold pt in Hs. exact Hs.
  - intros t Ht. apply HD; lia.
  - pose proof (sqrt_pos (a0 + eps)). replace (D ^ 2) with (D * D) by ring. nra.
Qed.
(*@ex C78_adagrad_example *)
Lemma adagrad_regret_example : forall `{P : Platform}, let p := Leaf (mkT F32 [2%nat] [Fin 5; Fin 1]) in let g := Leaf (mkT F32 [2%nat] [Fin 4; Fin 0]) in Forall (point_of p) [g] /\
  exists T s0 q sf, adagrad (LConst (Fin (1 / 2))) (Fin 0) (Fin 9) = Ok T /\ init T p = Ok s0 /\ train_loop T s0 p [g] = Ok ([q], sf) /\
    rsum (map (fun t => dot (rvals (nth t [g] p)) (vsub (rvals (nth t [p; q] p)) [3; 3])) (seq 0 1)) <= (2 ^ 2 / (2 * (1 / 2)) + 1 / 2) * (sqrt 25 + (sqrt 9 + 0)).
Proof.
  intros P. cbn zeta. set (p := Leaf (mkT F32 [2%nat] [Fin 5; Fin 1])). set (g := Leaf (mkT F32 [2%nat] [Fin 4; Fin 0])).
  assert (Wp : trwf p) by (repeat constructor). assert (Fp : finite_tree p) by (repeat constructor; eexists; reflexivity).
  assert (Hg : Forall (point_of p) [g]). { constructor; [|constructor]. split; [split; [reflexivity|repeat constructor]|repeat constructor; eexists; reflexivity]. }
  split; [exact Hg|]. destruct (@adagrad_regret P (1/2) 0 9 2 p [g] [3; 3]) as (T & s0 & qs & sf & ET & Ei & El & Hl & _ & H); [lra|lra|lra|exact Wp|exact Fp|exact Hg|reflexivity|].
  destruct qs as [|q [|]]; [discriminate| |discriminate]. exists T, s0, q, sf. split; [exact ET|]. split; [exact Ei|]. split; [exact El|].
  specialize (H 1%nat (le_n _)). eapply Rle_trans; [apply H|].
  - intros t i Ht Hi. assert (t = 0%nat) by lia. subst t. cbn in Hi. destruct i as [|[|i]]; [| |lia]; cbn; unfold Rabs; destruct (Rcase_abs _); lra.
  - right. f_equal. unfold rsum. cbn. f_equal; [f_equal; lra|]. f_equal. f_equal. lra.
Qed.
