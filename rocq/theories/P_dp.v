(** differentially_private_aggregate is differentially private (C81). *)
From Coquelicot Require Import Coquelicot.
From Verif Require Export Gauss GaussDP P_noise.
From Coq Require Import List Psatz Reals Lia.
Import ListNotations.
Open Scope list_scope.
Open Scope nat_scope.
(*@header
From Coquelicot Require Import Coquelicot.
From Coq Require Import List Reals.
Import ListNotations.
Open Scope list_scope.
Open Scope nat_scope.
*)

(** ** Specification *)
(** Start of leaf [j] in the flattened vector of leaves of the given shapes, and the total size. *)
Definition offset (shapes : list (list nat)) (j : nat) : nat := list_sum (map prodn (firstn j shapes)).
Definition total_size (shapes : list (list nat)) : nat := list_sum (map prodn shapes).
(** The per-example shapes of the leaves of a batch with the given shapes and dtypes. *)
Definition example_shapes (A : tree (fdt * list nat)) : list (list nat) := map (fun a => tl (snd a)) (leaves A).

(** A training run in which the gradients of every call may depend on everything released before: [G ys] are the per-example gradients
    submitted after the aggregates [ys] (flattened values) have been released; [ys] is the sequence of the T released aggregates. *)
Definition releases `{P : Platform} (C m : R) (seed : Z) (p0 : tree (gt XR)) (G : list (list R) -> tree (gt XR)) (T : nat) (ys : list (list R)) : Prop :=
  exists outs, @trains (XROps P) (differentially_private_aggregate (Fin C) (Fin m) seed) p0 (map (fun t => (G (firstn t ys), None)) (seq 0 T)) outs /\ ys = map rvals outs.

(** The generator of the platform hands out exactly the numbers [w] as the noise of the T calls. *)
Definition hands_out (P : Platform) (seed : Z) (shapes : list (list nat)) (T : nat) (w : list (list R)) : Prop :=
  (forall k n, length (@ksplit (XROps P) k n) = n) /\ (forall k d s i, isfin (@knormal (XROps P) k d s i)) /\
  forall t j s k i d, t < T -> nth_error shapes j = Some s -> i < prodn s -> @drawn (XROps P) (@prng_key (XROps P) seed) (repeat (length shapes) T) t j = Some k ->
    @knormal (XROps P) k d s i = Fin (nth (offset shapes j + i) (nth t w []) 0%R).
Definition noise_shape (n T : nat) (w : list (list R)) : Prop := length w = T /\ Forall (fun z => length z = n) w.

(** The batches a run may submit, and two of them that differ in (at most) one example. *)
Definition submits (A : tree (fdt * list nat)) (B : nat) (G : list (list R) -> tree (gt XR)) : Prop := forall h, batch B (G h) /\ finite_tree (G h) /\ avals (G h) = A.
Definition differ_in_one (B : nat) (u u' : tree (gt XR)) : Prop := exists i, i < B /\ forall b, b < B -> b <> i -> example u' b = example u b.
Definition differ_in_one_zero (B : nat) (u u' : tree (gt XR)) : Prop :=
  exists i, i < B /\ (forall b, b < B -> b <> i -> example u' b = example u b) /\ (Forall (fun x => x = 0%R) (example u i) \/ Forall (fun x => x = 0%R) (example u' i)).

(** ** The released values as a function of the noise *)
Definition noisy (C m : R) (B : nat) (s z : list R) : list R := map2 (fun s z => (s + C * m * z) / INR B)%R s z.
Fixpoint rel (C m : R) (B : nat) (tot : list (list R) -> list R) (h w : list (list R)) : list (list R) :=
  match w with [] => [] | z :: w => let y := noisy C m B (tot h) z in y :: rel C m B tot (h ++ [y]) w end.

Lemma chunks (z : list R) : forall (shapes : list (list nat)) o, length z = o + total_size shapes ->
  concat (map2 (fun s j => map (fun i => nth (o + (offset shapes j + i)) z 0%R) (seq 0 (prodn s))) shapes (seq 0 (length shapes))) = skipn o z.
Proof.
  induction shapes as [|s shapes IH]; intros o H.
  - cbn in *. symmetry. apply skipn_all2. lia.
  - cbn [length seq map2 concat]. rewrite <- seq_shift, map2_map_r.
    assert (E : map2 (fun s0 j => map (fun i => nth (o + (offset (s :: shapes) (S j) + i)) z 0%R) (seq 0 (prodn s0))) shapes (seq 0 (length shapes)) =
                map2 (fun s0 j => map (fun i => nth (o + prodn s + (offset shapes j + i)) z 0%R) (seq 0 (prodn s0))) shapes (seq 0 (length shapes))).
    { apply map2_ext. intros. apply map_ext. intros i. f_equal. unfold offset. cbn [firstn map]. change (list_sum (prodn s :: ?l)) with (prodn s + list_sum l). cbn [list_sum fold_right]. lia. }
    rewrite E, IH by (unfold total_size in *; cbn [map list_sum fold_right] in H; unfold list_sum; lia).
    change (offset (s :: shapes) 0) with 0. unfold total_size in H. cbn [map list_sum fold_right] in H.
    replace (map (fun i => nth (o + (0 + i)) z 0%R) (seq 0 (prodn s))) with (firstn (prodn s) (skipn o z)).
    + rewrite <- skipn_skipn'. apply firstn_skipn.
    + apply nth_error_ext. intros i. rewrite nth_error_map. destruct (Nat.lt_ge_cases i (prodn s)) as [Hi|Hi].
      * rewrite (nth_error_nth' (seq 0 (prodn s)) 0) by now rewrite seq_length. rewrite seq_nth by exact Hi. cbn [option_map]. rewrite (nth_error_nth' _ 0%R) by (rewrite firstn_length, skipn_length; lia). f_equal. cbn [Nat.add].
        rewrite <- (firstn_skipn o z) at 2. rewrite app_nth2 by (rewrite firstn_length; lia). rewrite firstn_length, Nat.min_l by lia. replace (o + i - o) with i by lia.
        rewrite <- (firstn_skipn (prodn s) (skipn o z)) at 2. rewrite app_nth1; [reflexivity|]. rewrite firstn_length, skipn_length. lia.
      * transitivity (@None R); [apply nth_error_None; rewrite firstn_length; lia|]. symmetry. replace (nth_error (seq 0 (prodn s)) i) with (@None nat); [reflexivity|]. symmetry. apply nth_error_None. now rewrite seq_length.
Qed.
Lemma concat_map2_ext {A B A' B' C} (f : A -> B -> list C) (g : A' -> B' -> list C) : forall (l : list A) (m : list B) (l' : list A') (m' : list B'),
  length m = length l -> length m' = length l' -> length l = length l' ->
  (forall j a b a' b', nth_error l j = Some a -> nth_error m j = Some b -> nth_error l' j = Some a' -> nth_error m' j = Some b' -> f a b = g a' b') ->
  map2 f l m = map2 g l' m'.
Proof.
  induction l as [|a l IH]; intros [|b m] [|a' l'] [|b' m'] H1 H2 H3 H; try discriminate; [reflexivity|]. cbn [map2]. f_equal; [exact (H 0 a b a' b' eq_refl eq_refl eq_refl eq_refl)|].
  apply IH; [now injection H1|now injection H2|now injection H3|]. intros j. exact (H (S j)).
Qed.
Lemma repeat_snoc {A} (x : A) n : repeat x n ++ [x] = repeat x (S n).
Proof. induction n as [|n IH]; cbn; [reflexivity|]. now rewrite IH. Qed.
Lemma firstn_repeat' {A} (x : A) n m : n <= m -> firstn n (repeat x m) = repeat x n.
Proof. revert m. induction n as [|n IH]; intros [|m] H; cbn; try reflexivity; [lia|]. rewrite IH by lia. reflexivity. Qed.

Section Run.
  Context {P : Platform}.
  Notation xr := (XROps P).
  Variables (C m : R) (seed : Z) (B T : nat) (A : tree (fdt * list nat)) (w : list (list R)) (G : list (list R) -> tree (gt XR)).
  Hypotheses (HC : (0 < C)%R) (HB : 1 <= B) (HG : submits A B G) (HO : hands_out P seed (example_shapes A) T w) (Hw : noise_shape (total_size (example_shapes A)) T w).
  Notation c := (length (example_shapes A)).
  Notation tot := (fun h => dp_total C B (G h)).
  Lemma leaves_A h : map aval (leaves (G h)) = leaves A.
  Proof. destruct (HG h) as (_ & _ & E). rewrite <- E. unfold avals. now rewrite leaves_tmap. Qed.
  Lemma shapes_eq h : map (fun l => tl (shp l)) (leaves (G h)) = example_shapes A.
  Proof. unfold example_shapes. rewrite <- (leaves_A h), map_map. reflexivity. Qed.
  Lemma len_eq h : length (leaves (G h)) = c.
  Proof. rewrite <- (shapes_eq h). now rewrite map_length. Qed.
  Lemma keyed t : @carried xr (@prng_key xr seed) (repeat c (S t)) = hd (@carried xr (@prng_key xr seed) (repeat c t)) (@ksplit xr (@carried xr (@prng_key xr seed) (repeat c t)) (c + 1)).
  Proof. rewrite <- repeat_snoc, (@carried_app xr). reflexivity. Qed.
  Lemma handed h t z : t < T -> nth_error w t = Some z -> dp_noise (@carried xr (@prng_key xr seed) (repeat c t)) (G h) = z.
  Proof.
    intros Ht Ez. destruct HO as (Hsp & Hno & Hd). destruct Hw as (Hl & HF). rewrite Forall_forall in HF. pose proof (HF z (nth_error_In _ _ Ez)) as Hz.
    transitivity (skipn 0 z); [|reflexivity]. rewrite <- (chunks z (example_shapes A) 0 Hz). unfold dp_noise. f_equal. rewrite (len_eq h).
    set (k := @carried xr _ _). pose proof (Hsp k (c + 1)) as Hk. apply concat_map2_ext.
    - rewrite (len_eq h). destruct (ksplit k (c + 1)); cbn in *; lia.
    - apply seq_length.
    - apply len_eq.
    - intros j l kk s b El Ekk Es Eb.
      assert (Es' : s = tl (shp l)). { pose proof (f_equal (fun x => nth_error x j) (shapes_eq h)) as Q. cbv beta in Q. rewrite nth_error_map, Es in Q. nx. rewrite El in Q. cbn in Q. now injection Q. } subst s.
      assert (Hj : j < c) by (apply nth_error_Some; rewrite Es; discriminate). rewrite (nth_error_nth' _ 0) in Eb by (rewrite seq_length; exact Hj). rewrite seq_nth in Eb by exact Hj. injection Eb as <-. cbn [Nat.add].
      apply map_ext_in. intros i Hi. apply in_seq in Hi. transitivity (xval (Fin (nth (offset (example_shapes A) j + i) (nth t w []) 0%R))); [apply f_equal, (Hd t j (tl (shp l)) kk i); [exact Ht|exact Es|lia|]|].
      + unfold drawn. rewrite firstn_repeat' by lia. replace (nth t (repeat c T) 0) with c; [fold k; now rewrite <- nth_error_tl|]. clear -Ht. revert T Ht. induction t as [|t IH]; intros [|T] Ht; cbn; [lia|reflexivity|lia|apply IH; lia].
      + cbn [xval]. f_equal. exact (nth_error_nth w t [] Ez).
  Qed.
  Lemma step h t z : t < T -> nth_error w t = Some z ->
    exists o, @update xr (differentially_private_aggregate (Fin C) (Fin m) seed) (G h) (SNode NDP [@SKey xr (@carried xr (@prng_key xr seed) (repeat c t))]) None = Ok (o, SNode NDP [@SKey xr (@carried xr (@prng_key xr seed) (repeat c (S t)))]) /\
      rvals o = noisy C m B (tot h) z /\ finite_tree o.
  Proof.
    intros Ht Ez. destruct HO as (Hsp & Hno & _). destruct (HG h) as (Hb & Hf & _).
    destruct (@dp_step xr (Fin C) (Fin m) seed B (G h) (@carried xr (@prng_key xr seed) (repeat c t)) None Hsp Hb) as (o & E & _ & Ho). exists o. split.
    - rewrite keyed. etransitivity; [exact E|]. nx. rewrite (len_eq h). reflexivity.
    - pose proof (dp_vals C m B (G h) o _ HC Hsp Hno Hb HB Hf Ho) as V. rewrite (handed h t z Ht Ez) in V. split; [exact (vals_fin _ _ V)|]. unfold finite_tree. nx. rewrite V. apply Forall_map, Forall_forall. intros. eexists; reflexivity.
  Qed.
  Lemma run_exists : forall w2 w1 h, w = w1 ++ w2 -> length h = length w1 -> exists outs s,
    @run xr (differentially_private_aggregate (Fin C) (Fin m) seed) (SNode NDP [@SKey xr (@carried xr (@prng_key xr seed) (repeat c (length w1)))]) (map (fun t => (G (firstn t (h ++ rel C m B tot h w2)), None)) (seq (length w1) (length w2))) = Ok (outs, s) /\
    map rvals outs = rel C m B tot h w2 /\ Forall finite_tree outs.
  Proof.
    destruct Hw as (Hl & _). induction w2 as [|z w2 IH]; intros w1 h E Hh.
    - eexists [], _. split; [reflexivity|]. split; [reflexivity|constructor].
    - destruct (step h (length w1) z) as (o & Eu & Ro & Fo); [rewrite <- Hl, E, app_length; cbn; lia|rewrite E, nth_error_app2, Nat.sub_diag by lia; reflexivity|].
      destruct (IH (w1 ++ [z]) (h ++ [noisy C m B (tot h) z])) as (outs & s & Er & Ho & Hf); [now rewrite <- app_assoc|rewrite !app_length, Hh; reflexivity|].
      rewrite app_length in Er. cbn [length] in Er. rewrite Nat.add_1_r in Er. exists (o :: outs), s. split; [|split; [cbn [map rel]; rewrite Ro, Ho; reflexivity|now constructor]].
      cbn [length seq map run rel]. rewrite <- app_assoc in Er. cbn [app] in Er.
      assert (Ef : firstn (length w1) (h ++ noisy C m B (tot h) z :: rel C m B tot (h ++ [noisy C m B (tot h) z]) w2) = h) by (rewrite <- Hh, firstn_app, firstn_all, Nat.sub_diag; apply app_nil_r).
      cbv zeta beta. rewrite Ef. etransitivity; [exact (f_equal (fun x => rbind x _) Eu)|]. cbn [rbind]. exact (f_equal (fun x => rbind x _) Er).
  Qed.
  Lemma run_unique : forall w2 w1 h ys outs s, w = w1 ++ w2 -> length h = length w1 ->
    @run xr (differentially_private_aggregate (Fin C) (Fin m) seed) (SNode NDP [@SKey xr (@carried xr (@prng_key xr seed) (repeat c (length w1)))]) (map (fun t => (G (firstn t (h ++ ys)), None)) (seq (length w1) (length w2))) = Ok (outs, s) ->
    ys = map rvals outs -> ys = rel C m B tot h w2.
  Proof.
    destruct Hw as (Hl & _). induction w2 as [|z w2 IH]; intros w1 h ys outs s E Hh Er Ey.
    - cbn in Er. injection Er as <- _. exact Ey.
    - destruct (step h (length w1) z) as (o & Eu & Ro & Fo); [rewrite <- Hl, E, app_length; cbn; lia|rewrite E, nth_error_app2, Nat.sub_diag by lia; reflexivity|].
      cbn [length seq map run] in Er. assert (Ef : firstn (length w1) (h ++ ys) = h) by (rewrite <- Hh, firstn_app, firstn_all, Nat.sub_diag; apply app_nil_r). rewrite Ef in Er.
      pose proof (eq_trans (eq_sym (f_equal (fun x => rbind x _) Eu)) Er) as Er'. clear Er. cbn [rbind] in Er'.
      match type of Er' with (rbind ?x _) = _ => destruct x as [[os s2]|] eqn:Er; [|discriminate Er'] end. cbn [rbind] in Er'. injection Er' as <- <-. cbn [map] in Ey. rewrite Ro in Ey. subst ys.
      cbn [rel]. f_equal. apply (IH (w1 ++ [z]) _ _ os s2); [now rewrite <- app_assoc|rewrite !app_length, Hh; reflexivity| |reflexivity].
      rewrite app_length. cbn [length]. rewrite Nat.add_1_r. rewrite <- app_assoc. exact Er.
  Qed.
  Lemma releases_iff p0 ys : releases (P := P) C m seed p0 G T ys <-> ys = rel C m B tot [] w.
  Proof.
    pose proof (proj1 Hw) as Hl. split.
    - intros (outs & (s0 & s1 & Ei & Er) & Ey). cbn in Ei. injection Ei as <-. rewrite <- Hl in Er. exact (run_unique w [] [] ys outs s1 eq_refl eq_refl Er Ey).
    - intros ->. destruct (run_exists w [] [] eq_refl eq_refl) as (outs & s & Er & Ey & _). exists outs. split; [|symmetry; exact Ey]. eexists _, s. split; [reflexivity|]. rewrite <- Hl. exact Er.
  Qed.
End Run.

Lemma map2_len {A B C} (f : A -> B -> C) l m : length l = length m -> length (map2 f l m) = length m.
Proof. revert m. induction l as [|a l IH]; intros [|b m] H; try discriminate; [reflexivity|]. cbn. f_equal. apply IH. now injection H. Qed.
Lemma vsub_len a b n : length a = n -> length b = n -> length (vsub a b) = n.
Proof. intros <- H. unfold vsub. rewrite map_length, combine_length, H. apply Nat.min_id. Qed.

Section Mechanism.
  Variables (C m : R) (B n : nat) (S : R) (tot tot' : list (list R) -> list R).
  Hypotheses (HC : (0 < C)%R) (Hm : (0 < m)%R) (HB : 1 <= B) (Hl : forall h, length (tot h) = n) (Hl' : forall h, length (tot' h) = n) (Hd : forall h, (norm2 (vsub (tot h) (tot' h)) <= S)%R).
  Definition dshift (h p : list (list R)) : list R := let h' := h ++ rel C m B tot' h p in map (Rmult (/ (C * m))) (vsub (tot h') (tot' h')).
  Lemma dshift_len h p : length (dshift h p) = n.
  Proof. unfold dshift. rewrite map_length. now apply vsub_len. Qed.
  Lemma dshift_sq h p : (sumsq (dshift h p) <= S / (C * m) * (S / (C * m)))%R.
  Proof.
    unfold dshift. set (h' := h ++ _). rewrite sumsq_scal, <- norm2_sq. pose proof (Hd h'). pose proof (norm2_nonneg (vsub (tot h') (tot' h'))). assert (0 < / (C * m))%R by (apply Rinv_0_lt_compat; nra).
    set (x := norm2 _) in *. set (i := (/ (C * m))%R) in *. unfold Rdiv. fold i. assert (0 <= i * x <= S * i)%R by nra. nra.
  Qed.
  Lemma noisy_shift (a b z : list R) : length a = n -> length b = n -> length z = n -> noisy C m B a (vsubr z (map (Rmult (/ (C * m))) (vsub a b))) = noisy C m B b z.
  Proof.
    unfold noisy, vsubr, vsub. clear -HC Hm HB. revert n b z. induction a as [|x a IH]; intros n [|y b] [|t z] H1 H2 H3; try (cbn in *; congruence).
    cbn [combine map map2 fst snd]. f_equal; [|apply (IH (length z)); cbn in *; lia]. field. assert (0 < INR B)%R by (apply lt_0_INR; lia). split; lra.
  Qed.
  Lemma rel_shift : forall w h, Forall (fun z => length z = n) w -> rel C m B tot h (shift_blocks (dshift h) w) = rel C m B tot' h w.
  Proof.
    induction w as [|z w IH]; intros h HF; [reflexivity|]. cbn [shift_blocks rel].
    assert (E0 : dshift h [] = map (Rmult (/ (C * m))) (vsub (tot h) (tot' h))) by (unfold dshift; cbn [rel]; now rewrite app_nil_r).
    rewrite E0, noisy_shift by (auto; now apply Forall_inv in HF). f_equal. rewrite <- (IH _ (Forall_inv_tail HF)). f_equal.
    assert (Ed : forall w' p, shift_blocks (fun p0 => dshift h (z :: p ++ p0)) w' = shift_blocks (fun p0 => dshift (h ++ [noisy C m B (tot' h) z]) (p ++ p0)) w'); [|exact (Ed w [])].
    induction w' as [|y w' IHw]; intros p; [reflexivity|]. cbn [shift_blocks]. f_equal.
    - f_equal. unfold dshift. cbn [rel]. now rewrite <- app_assoc.
    - specialize (IHw (p ++ [y])). assert (Q : forall (f g f' g' : list (list R) -> list R), (forall q, f' q = f q) -> (forall q, g' q = g q) -> shift_blocks f w' = shift_blocks g w' -> shift_blocks f' w' = shift_blocks g' w').
      { clear. intros f g f' g' H1 H2 H. assert (X : forall w f f', (forall q, f' q = f q) -> shift_blocks f' w = shift_blocks f w) by (clear; induction w as [|y w IH]; intros f f' H; cbn [shift_blocks]; [reflexivity|]; rewrite H; f_equal; apply IH; intros; apply H). rewrite (X w' f f' H1), (X w' g g' H2). exact H. }
      apply (Q _ _ _ _ (fun q => f_equal (fun l => dshift h (z :: l)) (eq_trans (eq_refl (p ++ y :: q)) (app_assoc p [y] q))) (fun q => f_equal (fun l => dshift (h ++ [noisy C m B (tot' h) z]) l) (app_assoc p [y] q)) IHw).
  Qed.
  Lemma shift_shape d : (forall p, length (d p) = n) -> forall w, Forall (fun z => length z = n) w -> Forall (fun z => length z = n) (shift_blocks d w).
  Proof.
    intros H w HF. revert d H. induction HF as [|z w Hz HF IH]; intros d H; cbn [shift_blocks]; constructor; [unfold vsubr; rewrite map_length, combine_length, Hz, (H []); apply Nat.min_id|]. apply IH. intros; apply H.
  Qed.
  Lemma shift_length d w : length (shift_blocks d w) = length w.
  Proof. revert d. induction w as [|z w IH]; intros d; cbn; [reflexivity|]. now rewrite IH. Qed.
  Lemma mechanism T (phi : list (list R) -> R) a b eps al : (forall ys, 0 <= phi ys <= 1)%R -> (1 < al)%R ->
    E_blocks n T (fun w => phi (rel C m B tot [] w)) a -> E_blocks n T (fun w => phi (rel C m B tot' [] w)) b ->
    (a <= exp eps * b + exp ((al - 1) * (al * INR T * (S / (C * m) * (S / (C * m))) / 2 - eps)))%R.
  Proof.
    intros Hphi Hal Ea Eb. apply (E_blocks_shift n T _ a (dshift []) (fun p _ => dshift_len [] p)) in Ea.
    apply (gauss_mechanism n T (fun w => phi (rel C m B tot' [] w)) a b (dshift [])); auto.
    - intros p _. split; [apply dshift_len|apply dshift_sq].
    - revert Ea. apply E_blocks_ext. intros w _ HF. now rewrite rel_shift.
  Qed.
End Mechanism.

Lemma total_length (C : R) B (A : tree (fdt * list nat)) (u : tree (gt XR)) : batch B u -> 1 <= B -> avals u = A -> length (dp_total C B u) = total_size (example_shapes A).
Proof.
  intros Hb HB E. unfold dp_total. rewrite vsum_length.
  - assert (Es : example_shapes A = map (fun l => tl (shp l)) (leaves u)). { unfold example_shapes. rewrite <- E. unfold avals. now rewrite leaves_tmap, map_map. }
    rewrite Es. destruct Hb as (_ & Hb). unfold example, total_size. clear E Es. induction Hb as [|l ls (Hw & Hs) Hls IH]; [reflexivity|]. cbn [map concat]. rewrite app_length, IH, (row_length B) by (auto; lia). reflexivity.
  - apply Forall_map, Forall_forall. intros b Hbb. apply in_seq in Hbb. unfold contribution. rewrite map_length. apply (example_length B); [exact Hb|lia|lia].
Qed.
Lemma norm2_zeros (l : list R) : Forall (fun x => x = 0%R) l -> norm2 l = 0%R.
Proof. intros H. unfold norm2. fold (sumsq l). apply sumsq_0 in H. rewrite H. apply sqrt_0. Qed.
Lemma contribution_zeros C (x : list R) : Forall (fun v => v = 0%R) x -> Forall (fun v => v = 0%R) (contribution C x).
Proof. intros H. unfold contribution. apply Forall_map. revert H. apply Forall_impl. intros v ->. unfold Rdiv. ring. Qed.
Lemma total_diff_zero (C : R) B (u u' : tree (gt XR)) : (0 < C)%R -> avals u' = avals u -> batch B u -> batch B u' -> differ_in_one_zero B u u' -> (norm2 (vsub (dp_total C B u) (dp_total C B u')) <= C)%R.
Proof.
  intros HC Ha Hb Hb' (i & Hi & He & Hz). unfold dp_total. rewrite (example_avals u u' B 0 Ha Hb Hb') by lia. set (n := length (example u 0)).
  assert (Hn : forall b, b < B -> length (contribution C (example u b)) = n) by (intros b Hlt; rewrite contribution_length; apply (example_length B); auto; lia).
  assert (Hn' : forall b, b < B -> length (contribution C (example u' b)) = n) by (intros b Hlt; rewrite contribution_length, (example_avals u u' B b) by auto; apply (example_length B); auto; lia).
  rewrite (vsum_split n (fun b => contribution C (example u b)) B i Hi Hn), (vsum_split n (fun b => contribution C (example u' b)) B i Hi Hn').
  assert (E1 : map (fun b => contribution C (example u' b)) (seq 0 i) = map (fun b => contribution C (example u b)) (seq 0 i)) by (apply map_ext_in; intros b Hbb; apply in_seq in Hbb; rewrite He by lia; reflexivity).
  assert (E2 : map (fun b => contribution C (example u' b)) (seq (S i) (B - S i)) = map (fun b => contribution C (example u b)) (seq (S i) (B - S i))) by (apply map_ext_in; intros b Hbb; apply in_seq in Hbb; rewrite He by lia; reflexivity).
  rewrite E1, E2. rewrite vsub_vadd.
  - eapply Rle_trans; [apply norm2_vsub; now rewrite Hn, Hn'|]. destruct (contribution_norm C (example u i) HC) as (H1 & _), (contribution_norm C (example u' i) HC) as (H2 & _).
    destruct Hz as [Hz|Hz]; rewrite (norm2_zeros _ (contribution_zeros C _ Hz)); lra.
  - rewrite Hn by exact Hi. rewrite vadd_length, !vsum_length, Nat.min_id; [reflexivity|..]; apply Forall_map, Forall_forall; intros b Hbb; apply in_seq in Hbb; apply Hn; lia.
  - rewrite Hn' by exact Hi. rewrite vadd_length, !vsum_length, Nat.min_id; [reflexivity|..]; apply Forall_map, Forall_forall; intros b Hbb; apply in_seq in Hbb; apply Hn; lia.
Qed.

(*@ C81_session : Whatever gradients the run submits (finite, of the declared shapes, chosen from everything released before) and whatever noise the generator hands out, the T calls succeed and release exactly one sequence of aggregates, of T entries. *)
Lemma dp_session : forall (P : Platform) (C m : R) (seed : Z) (B T : nat) (A : tree (fdt * list nat)) (w : list (list R)) (G : list (list R) -> tree (gt XR)) (p0 : tree (gt XR)),
  (0 < C)%R -> 1 <= B -> submits A B G -> noise_shape (total_size (example_shapes A)) T w -> hands_out P seed (example_shapes A) T w ->
  exists ys, releases (P := P) C m seed p0 G T ys /\ length ys = T /\ forall ys', releases (P := P) C m seed p0 G T ys' -> ys' = ys.
Proof.
  intros P C m seed B T A w G p0 HC HB HG Hw HO. exists (rel C m B (fun h => dp_total C B (G h)) [] w). split; [|split].
  - now apply (releases_iff C m seed B T A w G HC HB HG HO Hw).
  - rewrite <- (proj1 Hw). generalize (@nil (list R)) at 1 as h. clear. induction w as [|z w IH]; intros h; cbn; [reflexivity|]. f_equal. apply IH.
  - intros ys'. now apply (releases_iff C m seed B T A w G HC HB HG HO Hw).
Qed.

Lemma private (C m : R) (seed : Z) (B T : nat) (A : tree (fdt * list nat)) (world : list (list R) -> Platform) (G G' : list (list R) -> tree (gt XR)) (p0 : tree (gt XR)) (phi : list (list R) -> R) (X X' : list (list R) -> R) (a b eps al S : R) :
  (0 < C)%R -> (0 < m)%R -> 1 <= B -> submits A B G -> submits A B G' -> (forall h, norm2 (vsub (dp_total C B (G h)) (dp_total C B (G' h))) <= S)%R ->
  (forall w, noise_shape (total_size (example_shapes A)) T w -> hands_out (world w) seed (example_shapes A) T w) ->
  (forall ys, 0 <= phi ys <= 1)%R ->
  (forall w ys, noise_shape (total_size (example_shapes A)) T w -> releases (P := world w) C m seed p0 G T ys -> X w = phi ys) ->
  (forall w ys, noise_shape (total_size (example_shapes A)) T w -> releases (P := world w) C m seed p0 G' T ys -> X' w = phi ys) ->
  E_blocks (total_size (example_shapes A)) T X a -> E_blocks (total_size (example_shapes A)) T X' b -> (1 < al)%R ->
  (a <= exp eps * b + exp ((al - 1) * (al * INR T * (S / (C * m) * (S / (C * m))) / 2 - eps)))%R.
Proof.
  intros HC Hm HB HG HG' Hd Hw Hphi HX HX' Ea Eb Hal.
  apply (mechanism C m B (total_size (example_shapes A)) S (fun h => dp_total C B (G h)) (fun h => dp_total C B (G' h)) HC Hm HB) with (phi := phi); auto.
  - intros h. destruct (HG h) as (Hb & _ & HA). now apply total_length.
  - intros h. destruct (HG' h) as (Hb & _ & HA). now apply total_length.
  - revert Ea. apply E_blocks_ext. intros w W1 W2. apply HX; [now split|]. now apply (releases_iff C m seed B T A w G HC HB HG (Hw w (conj W1 W2)) (conj W1 W2)).
  - revert Eb. apply E_blocks_ext. intros w W1 W2. apply HX'; [now split|]. now apply (releases_iff C m seed B T A w G' HC HB HG' (Hw w (conj W1 W2)) (conj W1 W2)).
Qed.
Lemma rdp_optimum s eps : (0 < s)%R -> let al := ((eps / s + 1) / 2)%R in ((al - 1) * (s * al - eps) = - ((eps - s) * (eps - s) / (4 * s)))%R.
Proof. intros Hs. cbv zeta. field. lra. Qed.

(*@ C81_privacy : Differential privacy of T calls of differentially_private_aggregate with independent standard normal noise.  The per-example gradients of each call may depend on everything released before (as they do in training); the two runs differ, at each call, in at most one example of the batch.  For every test of the T released aggregates, randomised or not, with values in [0,1], its expectation under the one run is at most e^eps times that under the other, plus delta, with delta = exp((al - 1) (2 al T / noise_multiplier^2 - eps)) for every al > 1: whatever l2_norm_clip, the batch size, the shapes and the gradients.  In particular, for eps > 2 T / noise_multiplier^2, delta = exp(- (eps - 2 T / m^2)^2 m^2 / (8 T)). *)
Lemma dp_privacy : forall (C m : R) (seed : Z) (B T : nat) (A : tree (fdt * list nat)) (world : list (list R) -> Platform) (G G' : list (list R) -> tree (gt XR)) (p0 : tree (gt XR)) (phi X X' : list (list R) -> R) (a b eps : R),
  let n := total_size (example_shapes A) in
  (0 < C)%R -> (0 < m)%R -> 1 <= B -> 1 <= T -> submits A B G -> submits A B G' -> (forall h, differ_in_one B (G h) (G' h)) ->
  (forall w, noise_shape n T w -> hands_out (world w) seed (example_shapes A) T w) ->
  (forall ys, 0 <= phi ys <= 1)%R ->
  (forall w ys, noise_shape n T w -> releases (P := world w) C m seed p0 G T ys -> X w = phi ys) ->
  (forall w ys, noise_shape n T w -> releases (P := world w) C m seed p0 G' T ys -> X' w = phi ys) ->
  E_blocks n T X a -> E_blocks n T X' b ->
  (forall al, 1 < al -> a <= exp eps * b + exp ((al - 1) * (2 * al * INR T / (m * m) - eps)))%R /\
  (2 * INR T / (m * m) < eps -> a <= exp eps * b + exp (- ((eps - 2 * INR T / (m * m)) * (eps - 2 * INR T / (m * m)) * (m * m) / (8 * INR T))))%R.
Proof.
  intros C m seed B T A world G G' p0 phi X X' a b eps n HC Hm HB HT HG HG' Hd Hw Hphi HX HX' Ea Eb.
  assert (H1 : (forall al, 1 < al -> a <= exp eps * b + exp ((al - 1) * (2 * al * INR T / (m * m) - eps)))%R).
  { intros al Hal. replace (2 * al * INR T / (m * m))%R with (al * INR T * (2 * C / (C * m) * (2 * C / (C * m))) / 2)%R by (field; lra).
    apply (private C m seed B T A world G G' p0 phi X X'); auto. intros h. destruct (Hd h) as (i & Hi & He), (HG h) as (Hb & _ & HA), (HG' h) as (Hb' & _ & HA'). apply (total_diff C B _ _ i); auto. congruence. }
  split; [exact H1|]. intros He. assert (HT0 : (0 < INR T)%R) by (apply lt_0_INR; lia). set (s := (2 * INR T / (m * m))%R) in *. assert (Hs : (0 < s)%R) by (apply Rdiv_lt_0_compat; nra).
  replace (- ((eps - s) * (eps - s) * (m * m) / (8 * INR T)))%R with (- ((eps - s) * (eps - s) / (4 * s)))%R by (unfold s; field; split; lra).
  rewrite <- (rdp_optimum s eps Hs). set (al := ((eps / s + 1) / 2)%R). assert (Hal : (1 < al)%R). { unfold al. assert (1 < eps / s)%R; [|lra]. apply Rmult_lt_reg_r with s; [exact Hs|]. unfold Rdiv. rewrite Rmult_assoc, Rinv_l by lra. lra. }
  specialize (H1 al Hal). replace (2 * al * INR T / (m * m))%R with (s * al)%R in H1 by (unfold s; field; lra). exact H1.
Qed.

(*@ C81_removal : The same when the two runs differ, at each call, in one example that is all zero in one of them (removing a person's data instead of exchanging it): the sensitivity halves, delta = exp((al - 1) (al T / (2 noise_multiplier^2) - eps)), and for eps > T / (2 m^2), delta = exp(- (eps - T / (2 m^2))^2 m^2 / (2 T)). *)
Lemma dp_removal : forall (C m : R) (seed : Z) (B T : nat) (A : tree (fdt * list nat)) (world : list (list R) -> Platform) (G G' : list (list R) -> tree (gt XR)) (p0 : tree (gt XR)) (phi X X' : list (list R) -> R) (a b eps : R),
  let n := total_size (example_shapes A) in
  (0 < C)%R -> (0 < m)%R -> 1 <= B -> 1 <= T -> submits A B G -> submits A B G' -> (forall h, differ_in_one_zero B (G h) (G' h)) ->
  (forall w, noise_shape n T w -> hands_out (world w) seed (example_shapes A) T w) ->
  (forall ys, 0 <= phi ys <= 1)%R ->
  (forall w ys, noise_shape n T w -> releases (P := world w) C m seed p0 G T ys -> X w = phi ys) ->
  (forall w ys, noise_shape n T w -> releases (P := world w) C m seed p0 G' T ys -> X' w = phi ys) ->
  E_blocks n T X a -> E_blocks n T X' b ->
  (forall al, 1 < al -> a <= exp eps * b + exp ((al - 1) * (al * INR T / (2 * (m * m)) - eps)))%R /\
  (INR T / (2 * (m * m)) < eps -> a <= exp eps * b + exp (- ((eps - INR T / (2 * (m * m))) * (eps - INR T / (2 * (m * m))) * (m * m) / (2 * INR T))))%R.
Proof.
  intros C m seed B T A world G G' p0 phi X X' a b eps n HC Hm HB HT HG HG' Hd Hw Hphi HX HX' Ea Eb.
  assert (H1 : (forall al, 1 < al -> a <= exp eps * b + exp ((al - 1) * (al * INR T / (2 * (m * m)) - eps)))%R).
  { intros al Hal. replace (al * INR T / (2 * (m * m)))%R with (al * INR T * (C / (C * m) * (C / (C * m))) / 2)%R by (field; lra).
    apply (private C m seed B T A world G G' p0 phi X X'); auto. intros h. destruct (HG h) as (Hb & _ & HA), (HG' h) as (Hb' & _ & HA'). apply total_diff_zero; auto. congruence. }
  split; [exact H1|]. intros He. assert (HT0 : (0 < INR T)%R) by (apply lt_0_INR; lia). set (s := (INR T / (2 * (m * m)))%R) in *. assert (Hs : (0 < s)%R) by (apply Rdiv_lt_0_compat; nra).
  replace (- ((eps - s) * (eps - s) * (m * m) / (2 * INR T)))%R with (- ((eps - s) * (eps - s) / (4 * s)))%R by (unfold s; field; split; lra).
  rewrite <- (rdp_optimum s eps Hs). set (al := ((eps / s + 1) / 2)%R). assert (Hal : (1 < al)%R). { unfold al. assert (1 < eps / s)%R; [|lra]. apply Rmult_lt_reg_r with s; [exact Hs|]. unfold Rdiv. rewrite Rmult_assoc, Rinv_l by lra. lra. }
  specialize (H1 al Hal). replace (al * INR T / (2 * (m * m)))%R with (s * al)%R in H1 by (unfold s; field; lra). exact H1.
Qed.

(** A generator that hands out given numbers: keys are paths, the draw of a path is looked up. *)
Fixpoint depth (k : fkey) : nat := match k with FRoot _ => 0 | FChild k _ _ => S (depth k) end.
Definition handing (shapes : list (list nat)) (w : list (list R)) : Platform :=
  free_platform false (fun k _ _ i => match k with FChild k _ (S j) => Fin (nth (offset shapes j + i) (nth (depth k) w []) 0%R) | _ => Fin 0 end) (fun _ _ _ _ => Fin 0).
(*@ C81_generators : Such generators exist, for all shapes, numbers of calls, noise vectors and seeds, and they are ideal splittable generators. *)
Lemma generators_exist : forall (shapes : list (list nat)) (w : list (list R)), @ideal_split (XROps (handing shapes w)) /\ forall (seed : Z) (T : nat), hands_out (handing shapes w) seed shapes T w.
Proof.
  intros shapes w. split; [apply free_ideal|]. intros seed T. split; [intros; cbn; now rewrite map_length, seq_length|]. split.
  - intros k d s i. cbn. destruct k as [|k n [|j]]; eexists; reflexivity.
  - intros t j s k i d Ht Es Hi Ek. assert (Hj : j < length shapes) by (apply nth_error_Some; rewrite Es; discriminate). unfold drawn in Ek. cbn [ksplit XROps handing free_platform p_ksplit] in Ek. rewrite firstn_repeat' in Ek by lia.
    assert (En : nth t (repeat (length shapes) T) 0 = length shapes) by (clear -Ht; revert T Ht; induction t as [|t IH]; intros [|T] Ht; cbn; [lia|reflexivity|lia|apply IH; lia]). rewrite En in Ek.
    rewrite nth_error_map, (nth_error_nth' _ 0) in Ek by (rewrite seq_length; lia). rewrite seq_nth in Ek by lia. cbn [option_map Nat.add] in Ek. injection Ek as <-. cbn [knormal XROps handing free_platform p_knormal]. do 2 f_equal. f_equal.
    assert (G : forall k, depth (@carried (XROps (handing shapes w)) k (repeat (length shapes) t)) = t + depth k); [|rewrite G; cbn; lia].
    clear -w. induction t as [|t IH]; intros k; [reflexivity|]. cbn [repeat carried]. rewrite IH. cbn [ksplit XROps handing free_platform p_ksplit]. rewrite Nat.add_1_r. cbn. lia.
Qed.

(*@ C81_expectations : The expectation used above: over T blocks of n independent standard normal draws every function has at most one expectation, constants have themselves, it is linear and monotone, the first draw has the density of the standard normal law, and every bounded Lipschitz function of the draws has one. *)
Lemma expectation_ok : forall (n T : nat),
  (forall k, E_blocks n T (fun _ => k) k) /\
  (forall g g' l l' a b, E_blocks n T g l -> E_blocks n T g' l' -> E_blocks n T (fun w => a * g w + b * g' w)%R (a * l + b * l')%R) /\
  (forall g g' l l', (forall w, noise_shape n T w -> g w <= g' w)%R -> E_blocks n T g l -> E_blocks n T g' l' -> (l <= l')%R) /\
  (forall g l l', E_blocks n T g l -> E_blocks n T g l' -> l = l') /\
  (forall (f : R -> R) l, is_RInt_gen (V := R_NormedModule) (fun x => f x * (exp (- (x * x) / 2) / sqrt (2 * PI)))%R (Rbar_locally m_infty) (Rbar_locally p_infty) l -> E_blocks (S n) (S T) (fun w => f (hd 0%R (hd [] w))) l) /\
  (forall g L M, (0 <= L)%R -> (forall w, noise_shape n T w -> Rabs (g w) <= M)%R -> (forall w w', noise_shape n T w -> noise_shape n T w' -> Rabs (g w - g w') <= L * dist2 w w')%R -> exists l, E_blocks n T g l).
Proof.
  assert (HM : forall n T g g' l l', (forall w, noise_shape n T w -> g w <= g' w)%R -> E_blocks n T g l -> E_blocks n T g' l' -> (l <= l')%R).
  { intros n T g g' l l' H. apply E_blocks_mono. intros w W1 W2. apply H. now split. }
  intros n T. split; [apply E_blocks_const|]. split; [intros; now apply E_blocks_lin|]. split; [apply HM|]. split; [|split].
  - intros g l l' H H'. apply Rle_antisym; [apply (HM n T g g l l')|apply (HM n T g g l' l)]; auto; intros; apply Rle_refl.
  - intros f l H. cbn [E_blocks]. exists (fun zs => f (hd 0%R zs)). split; [intros zs Hz; exact (E_blocks_const (S n) T (f (hd 0%R zs)))|]. cbn [E_normals]. exists f. split; [intros z; exact (E_normals_const n (f z))|]. exact H.
  - intros g L M HL HB HLip. exists (evb n T g). apply (E_blocks_lip n T g L M HL); [intros w W1 W2; apply HB; now split|]. intros w w' W1 W2 W1' W2'. apply HLip; now split.
Qed.

(** A concrete case: two calls on batches of two scalar gradients; the second call's first gradient is the value released by the first call, and the second
    example is 2 in the one run and -3 in the other. *)
Definition dp_pair (x y : R) : tree (gt XR) := Node KList [Leaf (mkT F32 [2; 1] [Fin x; Fin y])].
Definition adaptive (v : R) (ys : list (list R)) : tree (gt XR) := dp_pair (match ys with [] => 1%R | y :: _ => nth 0 y 0%R end) v.
Definition test_first (ys : list (list R)) : R := Rmin 1 (Rabs (nth 0 (nth 0 ys []) 0%R)).
Lemma test_lip (x y : R) : (Rabs (Rmin 1 (Rabs x) - Rmin 1 (Rabs y)) <= Rabs (x - y))%R.
Proof. unfold Rmin, Rabs. repeat destruct (Rle_dec _ _); repeat destruct (Rcase_abs _); lra. Qed.
(*@ex C81_example *)
Lemma dp_privacy_example : exists (X X' : list (list R) -> R) (a b : R), let A := avals (dp_pair 0 0) in let n := total_size (example_shapes A) in
  submits A 2 (adaptive 2) /\ submits A 2 (adaptive (-3)) /\ (forall h, differ_in_one 2 (adaptive 2 h) (adaptive (-3) h)) /\ (forall h, adaptive 2 h <> adaptive (-3) h) /\
  (forall w, noise_shape n 2 w -> hands_out (handing (example_shapes A) w) 7 (example_shapes A) 2 w) /\ (forall ys, 0 <= test_first ys <= 1)%R /\
  (forall w ys, noise_shape n 2 w -> releases (P := handing (example_shapes A) w) 1 1 7 ex_p (adaptive 2) 2 ys -> X w = test_first ys) /\
  (forall w ys, noise_shape n 2 w -> releases (P := handing (example_shapes A) w) 1 1 7 ex_p (adaptive (-3)) 2 ys -> X' w = test_first ys) /\
  E_blocks n 2 X a /\ E_blocks n 2 X' b /\ (a <= exp 6 * b + exp (- (1 / 4)))%R.
Proof.
  set (A := avals (dp_pair 0 0)). set (n := total_size (example_shapes A)).
  assert (Hsub : forall v, submits A 2 (adaptive v)). { intros v h. split; [split; [discriminate|repeat constructor; eexists; reflexivity]|]. split; [repeat constructor; eexists; reflexivity|reflexivity]. }
  assert (Hex : forall v, exists X a, (forall w ys, noise_shape n 2 w -> releases (P := handing (example_shapes A) w) 1 1 7 ex_p (adaptive v) 2 ys -> X w = test_first ys) /\ E_blocks n 2 X a).
  { intros v. set (tot := fun h => dp_total 1 2 (adaptive v h)). set (X := fun w => test_first (rel 1 1 2 tot [] w)). exists X.
    destruct (proj2 (proj2 (proj2 (proj2 (proj2 (expectation_ok n 2))))) X 1%R 1%R) as (a & Ha); [lra| | |].
    - intros w _. unfold X, test_first, Rmin. pose proof (Rabs_pos (nth 0 (nth 0 (rel 1 1 2 tot [] w) []) 0%R)). apply Rabs_le. destruct (Rle_dec _ _); lra.
    - intros w w' (W1 & W2) (W1' & W2'). destruct w as [|[|z [|? ?]] [|[|y [|? ?]] [|? ?]]]; try discriminate; try (apply Forall_inv in W2; discriminate); try (apply Forall_inv_tail, Forall_inv in W2; discriminate).
      destruct w' as [|[|z' [|? ?]] [|[|y' [|? ?]] [|? ?]]]; try discriminate; try (apply Forall_inv in W2'; discriminate); try (apply Forall_inv_tail, Forall_inv in W2'; discriminate).
      unfold X, test_first. cbn [rel]. assert (Ht : length (tot []) = 1) by (apply (total_length 1 2 A); [apply Hsub|lia|reflexivity]). destruct (tot []) as [|s [|? ?]]; try discriminate. cbn [noisy map2 nth]. 
      eapply Rle_trans; [apply test_lip|]. cbn [dist2]. unfold dist1, vsubr. cbn [combine map fst snd]. rewrite !rsum_cons, !rsum_nil. replace ((s + 1 * 1 * z) / INR 2 - (s + 1 * 1 * z') / INR 2)%R with ((z - z') / 2)%R by (cbn; field).
      unfold Rdiv. rewrite Rabs_mult, (Rabs_pos_eq (/ 2)) by lra. pose proof (Rabs_pos (z - z')). pose proof (Rabs_pos (y - y')). lra.
    - exists a. split; [|exact Ha]. intros w ys Hw Hr. unfold X. f_equal. symmetry. apply (releases_iff (P := handing (example_shapes A) w) 1 1 7 2 2 A w (adaptive v)) with (p0 := ex_p); auto; [lra|]. apply generators_exist. }
  destruct (Hex 2%R) as (X & a & HX & Ha), (Hex (-3)%R) as (X' & b & HX' & Hb).
  assert (Hdif : forall h, differ_in_one 2 (adaptive 2 h) (adaptive (-3) h)). { intros h. exists 1. split; [lia|]. intros c Hc Hn. assert (c = 0) by lia. subst c. reflexivity. }
  assert (Hphi : forall ys, (0 <= test_first ys <= 1)%R). { intros ys. unfold test_first, Rmin. pose proof (Rabs_pos (nth 0 (nth 0 ys []) 0%R)). destruct (Rle_dec _ _); lra. }
  exists X, X', a, b. cbv zeta. fold A. fold n. repeat (split; [first [apply Hsub|exact Hdif|exact Hphi|exact HX|exact HX'|exact Ha|exact Hb|intros; apply generators_exist|idtac]|]).
  - intros h E. injection E. lra.
  - destruct (dp_privacy 1 1 7 2 2 A (handing (example_shapes A)) (adaptive 2) (adaptive (-3)) ex_p test_first X X' a b 6) as (_ & H); auto; [lra|lra|intros; apply generators_exist|].
    replace (- (1 / 4))%R with (- ((6 - 2 * INR 2 / (1 * 1)) * (6 - 2 * INR 2 / (1 * 1)) * (1 * 1) / (8 * INR 2)))%R by (cbn; field). apply H. cbn. lra.
Qed.
