(** add_noise and differentially_private_aggregate. *)
From Verif Require Export P_sched P_look M_privacy.
From Coq Require Import List Psatz.
Import ListNotations.
Open Scope list_scope.
Open Scope nat_scope.
(*@header
From Coq Require Import List.
Import ListNotations.
Open Scope list_scope.
Open Scope nat_scope.
*)

(** ** Specifications *)
Section Spec.
  Context `{O : Ops}.
  (** Key carried by the state after calls on trees with [cs] leaves: the first key of every split is
      carried on. *)
  Fixpoint carried (k : key) (cs : list nat) : key :=
    match cs with [] => k | c :: r => carried (hd k (ksplit k (c + 1))) r end.
  (** Key the [j]-th leaf's noise is drawn from at call [n]. *)
  Definition drawn (k : key) (cs : list nat) (n j : nat) : option key :=
    nth_error (ksplit (carried k (firstn n cs)) (nth n cs 0 + 1)) (S j).
  (** An ideal splittable generator: [n] keys per split, never the same key from two different
      (key, position) pairs, and never a seed's own key. *)
  Definition ideal_split : Prop :=
    (forall k n, length (ksplit k n) = n) /\
    (forall k k' n n' i i' c, nth_error (ksplit k n) i = Some c -> nth_error (ksplit k' n') i' = Some c -> k = k' /\ i = i') /\
    (forall k n z, ~ In (prng_key z) (ksplit k n)).
End Spec.

Section Keys.
  Context `{O : Ops}.
  Lemma carried_app k cs cs' : carried k (cs ++ cs') = carried (carried k cs) cs'.
  Proof. revert k. induction cs as [|c cs IH]; intros k; cbn; [reflexivity|]. now rewrite IH. Qed.
  Lemma carried_S k cs n c : nth_error cs n = Some c -> carried k (firstn (S n) cs) = hd (carried k (firstn n cs)) (ksplit (carried k (firstn n cs)) (c + 1)).
  Proof.
    intros E. replace (firstn (S n) cs) with (firstn n cs ++ [c]); [rewrite carried_app; reflexivity|].
    revert cs E. induction n as [|n IH]; intros [|x cs] E; try discriminate; cbn in E; [now injection E as ->|]. change (x :: (firstn n cs ++ [c]) = x :: firstn (S n) cs). f_equal. now apply IH.
  Qed.
  Hypothesis Hid : ideal_split.
  Variable z : Z.
  Notation k0 := (prng_key z).
  Lemma carried_child cs n c : nth_error cs n = Some c -> nth_error (ksplit (carried k0 (firstn n cs)) (c + 1)) 0 = Some (carried k0 (firstn (S n) cs)).
  Proof.
    intros E. rewrite (carried_S _ _ _ _ E). destruct Hid as (Hl & _). specialize (Hl (carried k0 (firstn n cs)) (c + 1)). destruct (ksplit _ _); cbn in *; [lia|reflexivity].
  Qed.
  (** Carried keys of different calls differ. *)
  Lemma carried_inj cs : forall n m, n <= length cs -> m <= length cs -> carried k0 (firstn n cs) = carried k0 (firstn m cs) -> n = m.
  Proof.
    induction n as [|n IH]; intros m Hn Hm E.
    - destruct m as [|m]; [reflexivity|exfalso]. change (carried (prng_key z) (firstn 0 cs)) with (prng_key z) in E. destruct (nth_error cs m) as [c|] eqn:Ec; [|apply nth_error_None in Ec; lia].
      pose proof (carried_child cs m c Ec) as H. rewrite <- E in H. destruct Hid as (_ & _ & H3). apply (H3 _ _ z (nth_error_In _ _ H)).
    - destruct (nth_error cs n) as [c|] eqn:Ec; [|apply nth_error_None in Ec; lia]. pose proof (carried_child cs n c Ec) as H.
      destruct m as [|m].
      + exfalso. rewrite E in H. change (carried (prng_key z) (firstn 0 cs)) with (prng_key z) in H. destruct Hid as (_ & _ & H3). apply (H3 _ _ z (nth_error_In _ _ H)).
      + destruct (nth_error cs m) as [c'|] eqn:Ec'; [|apply nth_error_None in Ec'; lia]. pose proof (carried_child cs m c' Ec') as H'. rewrite E in H.
        destruct Hid as (_ & H2 & _). destruct (H2 _ _ _ _ _ _ _ H H') as (Hk & _). f_equal. apply IH; [lia|lia|exact Hk].
  Qed.
End Keys.

(*@ C25_keys : for an ideal splittable generator and every sequence of calls: the key a leaf's noise is drawn from at a call always exists, no two (call, leaf) pairs draw from the same key, and no key drawn from is ever split, at any call. *)
Lemma noise_keys : forall `{O : Ops} (seed : Z) (cs : list nat), ideal_split ->
  (forall n j, n < length cs -> j < nth n cs 0 -> exists k, drawn (prng_key seed) cs n j = Some k) /\
  (forall n j n' j' k, n < length cs -> n' < length cs -> drawn (prng_key seed) cs n j = Some k -> drawn (prng_key seed) cs n' j' = Some k -> n = n' /\ j = j') /\
  (forall n j m, n < length cs -> m <= length cs -> drawn (prng_key seed) cs n j <> Some (carried (prng_key seed) (firstn m cs))).
Proof.
  intros O seed cs Hid. split; [|split].
  - intros n j Hn Hj. unfold drawn. destruct (nth_error _ _) as [k|] eqn:E; [eauto|]. apply nth_error_None in E. destruct Hid as (Hl & _). rewrite Hl in E. lia.
  - intros n j n' j' k Hn Hn' E E'. unfold drawn in E, E'. destruct Hid as (Hl & H2 & H3). destruct (H2 _ _ _ _ _ _ _ E E') as (Hk & Hj). split; [|lia].
    apply (carried_inj (conj Hl (conj H2 H3)) seed cs); [lia|lia|exact Hk].
  - intros n j m Hn Hm E. unfold drawn in E. destruct m as [|m].
    + change (carried (prng_key seed) (firstn 0 cs)) with (prng_key seed) in E. destruct Hid as (_ & _ & H3). apply (H3 _ _ seed (nth_error_In _ _ E)).
    + destruct (nth_error cs m) as [c|] eqn:Ec; [|apply nth_error_None in Ec; lia]. pose proof (carried_child Hid seed cs m c Ec) as H. destruct Hid as (_ & H2 & _). destruct (H2 _ _ _ _ _ _ _ E H) as (_ & Hj). discriminate.
Qed.

(** The free generator: keys are paths. *)
Inductive fkey := FRoot (z : Z) | FChild (k : fkey) (n i : nat).
Definition free_platform (x : bool) (normal : fkey -> fdt -> list nat -> nat -> XR) (draw : law -> fkey -> list nat -> nat -> XR) : Platform :=
  {| p_x64 := x; p_key := fkey; p_prng_key := FRoot; p_ksplit := fun k n => map (FChild k n) (seq 0 n); p_knormal := normal; p_kdraw := draw |}.
(*@ C25_keys_exist : such generators exist, with any samplers: keys as paths. *)
Lemma free_ideal : forall (x : bool) (normal : fkey -> fdt -> list nat -> nat -> XR) (draw : law -> fkey -> list nat -> nat -> XR), @ideal_split (XROps (free_platform x normal draw)).
Proof.
  intros x normal draw. unfold ideal_split. cbn. split; [|split].
  - intros. now rewrite map_length, seq_length.
  - intros k k' n n' i i' c H H'. rewrite nth_error_map in H, H'. destruct (nth_error (seq 0 n) i) as [a|] eqn:E; [|discriminate]. destruct (nth_error (seq 0 n') i') as [a'|] eqn:E'; [|discriminate].
    cbn in H, H'. injection H as <-. injection H' as -> -> ->. split; [reflexivity|].
    assert (forall n i a, nth_error (seq 0 n) i = Some a -> a = i). { intros m j b Hb. assert (j < m) by (rewrite <- (seq_length m 0); apply nth_error_Some; congruence). rewrite (nth_error_nth' _ 0) in Hb by now rewrite seq_length. rewrite seq_nth in Hb by lia. now injection Hb as <-. }
    rewrite <- (H _ _ _ E). apply (H _ _ _ E').
  - intros k n z H. apply in_map_iff in H as (j & E & _). discriminate.
Qed.

(** ** Trees from lists of leaves *)
Lemma skipn_skipn' {A} (a b : nat) (l : list A) : skipn a (skipn b l) = skipn (b + a) l.
Proof. revert l. induction b as [|b IH]; intros l; [reflexivity|]. destruct l; [now rewrite !skipn_nil|]. cbn. apply IH. Qed.
Lemma tfill_total {A B} : forall (d : tree A) (l : list B), length (leaves d) <= length l -> exists t, tdef t = tdef d /\ leaves t = firstn (length (leaves d)) l /\ tfill d l = Some (t, skipn (length (leaves d)) l).
Proof.
  intros d. induction d as [a|k ts IH] using tree_ind'; intros l Hl.
  - destruct l as [|b l]; cbn in Hl; [lia|]. exists (Leaf b). repeat split.
  - assert (G : exists rs, map tdef rs = map tdef ts /\ flat_map leaves rs = firstn (length (flat_map leaves ts)) l /\
      (fix go (ts : list (tree A)) (l : list B) : option (list (tree B) * list B) :=
             match ts with [] => Some ([], l) | x :: r => match tfill x l with Some (y, l') => match go r l' with Some (ys, l'') => Some (y :: ys, l'') | None => None end | None => None end end) ts l = Some (rs, skipn (length (flat_map leaves ts)) l)).
    { cbn [leaves] in Hl. revert l Hl. induction IH as [|x ts Hx IH IHl]; intros l Hl.
      - exists []. repeat split.
      - cbn [flat_map] in Hl. rewrite app_length in Hl. destruct (Hx l) as (y & E1 & E2 & E3); [lia|]. destruct (IHl (skipn (length (leaves x)) l)) as (rs & F1 & F2 & F3); [rewrite skipn_length; lia|].
        exists (y :: rs). split; [cbn; now rewrite E1, F1|]. split.
        + cbn [flat_map]. rewrite E2, F2, app_length. rewrite <- (firstn_skipn (length (leaves x)) l) at 3. rewrite firstn_app, firstn_length, Nat.min_l by lia.
          replace (length (leaves x) + length (flat_map leaves ts) - length (leaves x)) with (length (flat_map leaves ts)) by lia. f_equal. symmetry. apply firstn_all2. rewrite firstn_length. lia.
        + rewrite E3, F3. cbn [flat_map]. rewrite app_length, skipn_skipn'. reflexivity. }
    destruct G as (rs & E1 & E2 & E3). exists (Node k rs). split; [|split; [exact E2|]].
    + unfold tdef in *. cbn [tmap]. f_equal. exact E1.
    + cbn [tfill leaves]. rewrite E3. reflexivity.
Qed.
Lemma tunflatten_total {A B} (d : tree A) (l : list B) : length l = length (leaves d) -> exists t, tunflatten d l = Ok t /\ tdef t = tdef d /\ leaves t = l.
Proof.
  intros H. destruct (tfill_total d l) as (t & E1 & E2 & E3); [lia|]. exists t. unfold tunflatten. rewrite E3, <- H, skipn_all. split; [reflexivity|]. split; [exact E1|]. rewrite E2, <- H. apply firstn_all.
Qed.

(** ** add_noise *)
Section Noise.
  Context `{O : Ops}.
  (** Standard deviation used by the [n]-th call, counting from 1. *)
  Definition noise_std (eta gamma : F) (c : Z) : F := fdiv defdt (fcast defdt eta) (fpow defdt (fcast defdt (fofZ c)) (fcast defdt gamma)).
  Definition noisy (std : F) (l : tensor) (k : key) : tensor :=
    mkT (dt l) (shp l) (map2 (fun x i => fadd (dt l) x (fmul (dt l) (conv defdt (dt l) std) (knormal k (dt l) (shp l) i))) (dat l) (seq 0 (prodn (shp l)))).
  Lemma map2_map_r {A B C D} (f : A -> C -> D) (g : B -> C) l m : map2 f l (map g m) = map2 (fun a b => f a (g b)) l m.
  Proof. revert m. induction l as [|a l IH]; intros [|b m]; cbn; [reflexivity..|]. now rewrite IH. Qed.
  Lemma nth_error_map2 {A B C} (f : A -> B -> C) l m i a b : nth_error l i = Some a -> nth_error m i = Some b -> nth_error (map2 f l m) i = Some (f a b).
  Proof. revert l m. induction i as [|i IH]; intros [|x l] [|y m]; cbn; try discriminate; [congruence|apply IH]. Qed.
  Lemma noisy_wf std l k : twf l -> twf (noisy std l k).
  Proof. unfold twf, noisy. cbn [dat shp]. intros H. rewrite map2_length, seq_length, H. apply Nat.min_id. Qed.
  Lemma add_noise_step eta gamma seed u k c par : (forall k n, length (ksplit k n) = n) -> trwf u ->
    exists o c', safe_int32_increment I32 c = Ok c' /\
      update (add_noise eta gamma seed) u (SNode NNoise [SInt I32 c; SKey k]) par = Ok (o, SNode NNoise [SInt I32 c'; SKey (hd k (ksplit k (length (leaves u) + 1)))]) /\
      tdef o = tdef u /\ length (leaves o) = length (leaves u) /\
      forall j l kk, nth_error (leaves u) j = Some l -> nth_error (ksplit k (length (leaves u) + 1)) (S j) = Some kk -> nth_error (leaves o) j = Some (noisy (noise_std eta gamma c') l kk).
  Proof.
    intros Hl Hw. assert (Ec : exists c', safe_int32_increment I32 c = Ok c') by (cbn; eauto). destruct Ec as (c' & Ec).
    specialize (Hl k (length (leaves u) + 1)). destruct (ksplit k (length (leaves u) + 1)) as [|k0 ks] eqn:Ek; [cbn in Hl; lia|]. cbn in Hl.
    destruct (tunflatten_total u ks) as (kt & E1 & E2 & E3); [lia|]. destruct (tree_pair_tdef u kt (eq_sym E2)) as (z & Ez1 & Ez2).
    exists (tmap (fun p => noisy (noise_std eta gamma c') (fst p) (snd p)) z), c'. split; [exact Ec|].
    assert (Hwz : Forall (fun p => twf (fst p)) (leaves z)) by (unfold trwf in Hw; rewrite <- Ez1, leaves_tmap, Forall_map in Hw; exact Hw).
    split; [|split; [|split]].
    - cbn [update add_noise]. rewrite Ec. cbn [rbind]. rewrite Ek, E1. cbn [rbind].
      rewrite <- Ez1 at 1. rewrite <- Ez2. rewrite tmm2_same. rewrite tmapM_ok. cbn [rbind]. rewrite <- Ez1 at 1. rewrite tmm2_same.
      erewrite tmapM_ext; [rewrite tmapM_ok; reflexivity|]. intros [l kk] Hin. cbn [fst snd].
      unfold bin, emap. cbn [dt shp dat random_normal]. rewrite shape_eqb_refl, promote_same. unfold noisy. do 2 f_equal. rewrite !map_map, !map2_map_r.
      assert (G : forall (f g : F -> nat -> F) xs is, (forall x i, f x i = g x i) -> map2 f xs is = map2 g xs is). { clear. intros f g. induction xs as [|x xs IH]; intros [|i is] H; cbn; [reflexivity..|]. rewrite H, IH; auto. }
      apply G. intros. now rewrite !conv_same.
    - rewrite tdef_tmap, <- Ez1. now rewrite tdef_tmap.
    - rewrite leaves_tmap, map_length, <- Ez1, leaves_tmap, map_length. reflexivity.
    - intros j l kk Hj Hk. cbn in Hk. rewrite <- E3, <- Ez2, leaves_tmap, nth_error_map in Hk. rewrite <- Ez1, leaves_tmap, nth_error_map in Hj. rewrite leaves_tmap, nth_error_map.
      destruct (nth_error (leaves z) j) as [[a b]|]; [|discriminate]. cbn in *. congruence.
  Qed.
End Noise.

Lemma avals_of_leaves {A B} (t : tree (gt A)) (r : tree (gt B)) : tdef t = tdef r -> (forall j a, nth_error (leaves r) j = Some a -> exists b, nth_error (leaves t) j = Some b /\ aval b = aval a) -> avals t = avals r.
Proof.
  intros Hd H. apply tree_ext; [unfold avals; now rewrite !tdef_tmap|]. unfold avals. rewrite !leaves_tmap. apply nth_error_ext. intros j. rewrite !nth_error_map.
  destruct (nth_error (leaves r) j) as [a|] eqn:E; [destruct (H j a E) as (b & -> & Hb); cbn; now rewrite Hb|].
  destruct (nth_error (leaves t) j) as [b|] eqn:Eb; [exfalso|reflexivity]. apply nth_error_None in E. assert (Hj : j < length (leaves t)) by (apply nth_error_Some; congruence).
  assert (length (leaves t) = length (leaves r)); [|lia]. pose proof (f_equal (fun x => length (leaves x)) Hd) as Hn. unfold tdef in Hn. now rewrite !leaves_tmap, !map_length in Hn.
Qed.
(*@ C25_run : for every generator whose split returns as many keys as asked and every history of well-formed gradient trees: add_noise never raises, keeps structure, shapes and dtypes, and adds to every element of every leaf, at the n-th call, (eta / n^gamma) times a normal sample drawn with that (call, leaf)'s own key. *)
Lemma noise_run : forall `{O : Ops} (eta gamma : F) (seed : Z) (p0 : tree tensor) (H : list (tree tensor * option (tree tensor))),
  (forall k n, length (ksplit k n) = n) -> Forall (fun h => trwf (fst h)) H ->
  exists outs, trains (add_noise eta gamma seed) p0 H outs /\ length outs = length H /\
    forall n u par, nth_error H n = Some (u, par) -> exists o, nth_error outs n = Some o /\ like u o /\
      forall j l k i x, nth_error (leaves u) j = Some l -> nth_error (dat l) i = Some x ->
        drawn (prng_key seed) (map (fun h => length (leaves (fst h))) H) n j = Some k ->
        elt o (j, i) = Some (fadd (dt l) x (fmul (dt l) (conv defdt (dt l) (noise_std eta gamma (cnt (S n)))) (knormal k (dt l) (shp l) i))).
Proof.
  intros O eta gamma seed p0 H Hl HH. set (T := add_noise eta gamma seed).
  assert (G : forall H m k, Forall (fun h => trwf (fst h)) H ->
    exists outs s1, run T (SNode NNoise [SInt I32 (cnt m); SKey k]) H = Ok (outs, s1) /\ length outs = length H /\
     forall n u par, nth_error H n = Some (u, par) -> exists o, nth_error outs n = Some o /\ tdef o = tdef u /\
      forall j l kk, nth_error (leaves u) j = Some l -> drawn k (map (fun h => length (leaves (fst h))) H) n j = Some kk -> nth_error (leaves o) j = Some (noisy (noise_std eta gamma (cnt (S (m + n)))) l kk)).
  { clear H HH. induction H as [|[u par] H IH]; intros m k HH.
    - exists [], (SNode NNoise [SInt I32 (cnt m); SKey k]). split; [reflexivity|]. split; [reflexivity|]. intros [|n] u par E; discriminate.
    - pose proof (Forall_inv HH) as Hu. pose proof (Forall_inv_tail HH) as HH'. cbn [fst] in Hu.
      destruct (add_noise_step eta gamma seed u k (cnt m) par Hl Hu) as (o & c' & Ec & Eu & Hd & Hlen & Ho).
      rewrite cnt_S in Ec. injection Ec as <-. destruct (IH (S m) (hd k (ksplit k (length (leaves u) + 1))) HH') as (outs & s1 & Er & Hlo & Hn).
      exists (o :: outs), s1. split; [cbn [run]; fold T in Eu; rewrite Eu; cbn [rbind]; rewrite Er; reflexivity|]. split; [cbn; now rewrite Hlo|].
      intros [|n] v q E; cbn in E.
      + injection E as <- <-. exists o. split; [reflexivity|]. split; [exact Hd|]. intros j l kk Hj Hk. rewrite Nat.add_0_r. apply (Ho j l kk Hj). exact Hk.
      + destruct (Hn n v q E) as (o' & E' & Hd' & Hl'). exists o'. split; [exact E'|]. split; [exact Hd'|]. intros j l kk Hj Hk. replace (m + S n) with (S m + n) by lia. apply (Hl' j l kk Hj). exact Hk. }
  destruct (G H 0 (prng_key seed) HH) as (outs & s1 & Er & Hlo & Hn). exists outs. split; [exists (SNode NNoise [SInt I32 0; SKey (prng_key seed)]), s1; split; [reflexivity|exact Er]|]. split; [exact Hlo|].
  intros n u par E. destruct (Hn n u par E) as (o & Eo & Hd & Hj). exists o. split; [exact Eo|].
  assert (Hu : trwf u) by (rewrite Forall_forall in HH; exact (HH _ (nth_error_In _ _ E))).
  assert (Hk : forall j l, nth_error (leaves u) j = Some l -> exists kk, drawn (prng_key seed) (map (fun h => length (leaves (fst h))) H) n j = Some kk).
  { intros j l Hjl. unfold drawn. destruct (nth_error _ (S j)) as [kk|] eqn:Ek; [eauto|]. apply nth_error_None in Ek. rewrite Hl in Ek.
    assert (En : nth n (map (fun h => length (leaves (fst h))) H) 0 = length (leaves u)) by (apply nth_error_nth; rewrite nth_error_map, E; reflexivity).
    rewrite En in Ek. assert (j < length (leaves u)) by (apply nth_error_Some; congruence). lia. }
  split; [split|].
  - apply avals_of_leaves; [exact Hd|]. intros j a Ha. destruct (Hk j a Ha) as (kk & Hkk). eexists. split; [exact (Hj j a kk Ha Hkk)|reflexivity].
  - unfold trwf in *. apply Forall_forall. intros x Hx. apply In_nth_error in Hx as (j & Ex). destruct (nth_error (leaves u) j) as [l|] eqn:El.
    + destruct (Hk j l El) as (kk & Hkk). pose proof (Hj j l kk El Hkk) as E2. rewrite Ex in E2. injection E2 as ->. apply noisy_wf. rewrite Forall_forall in Hu. exact (Hu _ (nth_error_In _ _ El)).
    + exfalso. apply nth_error_None in El. assert (j < length (leaves o)) by (apply nth_error_Some; congruence). pose proof (f_equal (fun x => length (leaves x)) Hd) as Hn2. unfold tdef in Hn2. rewrite !leaves_tmap, !map_length in Hn2. lia.
  - intros j l k i x Hl1 Hi Hkk. unfold elt. cbn [fst snd]. rewrite (Hj j l k Hl1 Hkk). unfold noisy. cbn [dat].
    assert (Hwl : twf l) by (unfold trwf in Hu; rewrite Forall_forall in Hu; exact (Hu _ (nth_error_In _ _ Hl1))). unfold twf in Hwl.
    assert (Hi2 : i < prodn (shp l)) by (rewrite <- Hwl; apply nth_error_Some; congruence).
    exact (nth_error_map2 _ _ _ _ _ _ Hi (eq_trans (nth_error_nth' _ 0 ltac:(rewrite seq_length; exact Hi2)) (f_equal Some (seq_nth _ _ Hi2)))).
Qed.
(*@ C25_formula : in exact arithmetic the emitted element is g + eta/n^gamma * z, z the normal sample. *)
Lemma noise_formula : forall `{P : Platform} (eta gamma : R) (seed : Z) (p0 : tree tensor) (H : list (tree tensor * option (tree tensor))),
  (forall k n, length (ksplit k n) = n) -> Forall (fun h => trwf (fst h)) H -> (Z.of_nat (length H) <= int32_max)%Z ->
  exists outs, trains (add_noise (Fin eta) (Fin gamma) seed) p0 H outs /\ length outs = length H /\
    forall n u par j l k i g z, nth_error H n = Some (u, par) -> nth_error (leaves u) j = Some l -> nth_error (dat l) i = Some (Fin g) ->
        drawn (prng_key seed) (map (fun h => length (leaves (fst h))) H) n j = Some k -> knormal k (dt l) (shp l) i = Fin z ->
        oelt outs n (j, i) = Some (Fin (g + eta / Rpower (INR (S n)) gamma * z)).
Proof.
  intros P eta gamma seed p0 H Hl HH Hlen. destruct (@noise_run (XROps P) (Fin eta) (Fin gamma) seed p0 H Hl HH) as (outs & Ht & Hlo & Hn). exists outs. split; [exact Ht|]. split; [exact Hlo|].
  intros n u par j l k i g z E El Ei Ek Ez. destruct (Hn n u par E) as (o & Eo & _ & Ho). unfold oelt. rewrite Eo. rewrite (Ho j l k i (Fin g) El Ei Ek). f_equal.
  assert (Hnl : n < length H) by (apply nth_error_Some; congruence).
  assert (Ec : cnt (S n) = Z.of_nat (S n)) by (apply cnt_val; change (2 ^ 31 - 1)%Z with int32_max; lia).
  assert (Hp : (0 < INR (S n))%R) by (apply lt_0_INR; lia).
  assert (Es : @noise_std (XROps P) (Fin eta) (Fin gamma) (cnt (S n)) = Fin (eta / Rpower (INR (S n)) gamma)).
  { unfold noise_std. rewrite Ec. cbn [fdiv fpow fcast XROps]. rewrite fofZ_val. rewrite <- INR_IZR_INZ. rewrite xpow_pos by exact Hp. apply xdiv_fin. apply Rgt_not_eq, exp_pos. }
  rewrite conv_x, Ez. cbn [fadd fmul XROps]. etransitivity; [apply f_equal; apply (f_equal (fun w => xmul w (Fin z))); exact Es|]. reflexivity.
Qed.

(** ** differentially_private_aggregate *)
(** Trees of per-example gradients of [B] examples. *)
Definition batch {A} (B : nat) (u : tree (gt A)) : Prop := leaves u <> [] /\ Forall (fun l => twf l /\ exists s, shp l = B :: s) (leaves u).
(** The gradient of example [b], as one vector. *)
Definition row (b : nat) (l : gt XR) : list R := let n := prodn (tl (shp l)) in map xval (firstn n (skipn (b * n) (dat l))).
Definition example (u : tree (gt XR)) (b : nat) : list R := concat (map (row b) (leaves u)).
(** A vector scaled down to norm at most C. *)
Definition contribution (C : R) (x : list R) : list R := map (fun v => v / Rmax (norm2 x / C) 1)%R x.
Definition vsum (n : nat) (vs : list (list R)) : list R := fold_right vadd (repeat 0%R n) vs.
(** The aggregated sum of the batch. *)
Definition dp_total (C : R) (B : nat) (u : tree (gt XR)) : list R := vsum (length (example u 0)) (map (fun b => contribution C (example u b)) (seq 0 B)).

Section DP.
  Context `{O : Ops}.
  Definition dp_leaf (clip mult : F) (B : nat) (gs : list tensor) (g : tensor) (k : key) : tensor :=
    let c := dp_clipped clip gs B g in
    mkT (dt c) (shp c) (map2 (fun x i => fdiv (dt c) (fadd (dt c) x (fmul (dt c) (fcast (dt c) (fmul F64 clip mult)) (knormal k (dt c) (shp c) i))) (fcast (dt c) (fofZ (Z.of_nat B)))) (dat c) (seq 0 (prodn (shp c)))).
  Lemma map_map2 {A B C D} (f : C -> D) (g : A -> B -> C) l m : map f (map2 g l m) = map2 (fun a b => f (g a b)) l m.
  Proof. revert m. induction l as [|a l IH]; intros [|b m]; cbn; [reflexivity..|]. now rewrite IH. Qed.
  Lemma map2_ext {A B C} (f g : A -> B -> C) l m : (forall a b, f a b = g a b) -> map2 f l m = map2 g l m.
  Proof. intros H. revert m. induction l as [|a l IH]; intros [|b m]; cbn; [reflexivity..|]. now rewrite IH, H. Qed.
  Lemma dp_noised_leaf clip mult B gs g k : dp_noised (fmul F64 clip mult) B (dp_clipped clip gs B g) k = Ok (dp_leaf clip mult B gs g k).
  Proof.
    unfold dp_noised, dp_leaf, sl, sr. set (c := dp_clipped clip gs B g). unfold bin. cbn [emap dt shp dat random_normal]. rewrite shape_eqb_refl, promote_same. cbn [rbind]. unfold emap. cbn [dt shp dat]. do 2 f_equal.
    rewrite map_map2, map2_map_r, map2_map_r. apply map2_ext. intros. now rewrite !conv_same.
  Qed.
  Lemma seqM_map2 {A B C} (f : A -> B -> result C) (g : A -> B -> C) l m : (forall a b, f a b = Ok (g a b)) -> seqM (map2 f l m) = Ok (map2 g l m).
  Proof. intros H. revert m. induction l as [|a l IH]; intros [|b m]; cbn; [reflexivity..|]. rewrite H. cbn. now rewrite IH. Qed.
  Lemma map2_map_l {A B C D} (f : B -> C -> D) (g : A -> B) l m : map2 f (map g l) m = map2 (fun a b => f (g a) b) l m.
  Proof. revert m. induction l as [|a l IH]; intros [|b m]; cbn; [reflexivity..|]. now rewrite IH. Qed.
  Lemma dp_step clip mult seed B u k par : (forall k n, length (ksplit k n) = n) -> batch B u ->
    exists o, update (differentially_private_aggregate clip mult seed) u (SNode NDP [SKey k]) par = Ok (o, SNode NDP [SKey (hd k (ksplit k (length (leaves u) + 1)))]) /\
      tdef o = tdef u /\ leaves o = map2 (dp_leaf clip mult B (leaves u)) (leaves u) (tl (ksplit k (length (leaves u) + 1))).
  Proof.
    intros Hl (Hne & Hb). cbn [update differentially_private_aggregate]. specialize (Hl k (length (leaves u) + 1)).
    destruct (leaves u) as [|g0 gs] eqn:Eg; [easy|]. rewrite <- Eg in *. pose proof Hb as Hb'. rewrite Eg in Hb'. destruct (Forall_inv Hb') as (_ & s & Es). rewrite Es.
    assert (Hbad : existsb (bad_batch B) (leaves u) = false).
    { apply Bool.not_true_is_false. intros Hx. apply existsb_exists in Hx as (x & Hx & Hbx). rewrite Forall_forall in Hb. destruct (Hb x Hx) as (_ & s' & Es'). unfold bad_batch in Hbx. rewrite Es', Nat.eqb_refl in Hbx. discriminate. }
    rewrite Hbad. destruct (ksplit k (length (leaves u) + 1)) as [|k0 ks] eqn:Ek; [cbn in Hl; lia|]. cbn in Hl. cbn [hd tl].
    rewrite map2_map_l. rewrite (seqM_map2 _ (dp_leaf clip mult B (leaves u))); [|intros; apply dp_noised_leaf]. cbn [rbind].
    destruct (tunflatten_total u (map2 (dp_leaf clip mult B (leaves u)) (leaves u) ks)) as (o & E1 & E2 & E3); [rewrite map2_length; lia|].
    exists o. rewrite E1. cbn [rbind]. split; [reflexivity|]. split; [exact E2|exact E3].
  Qed.
  Lemma nth_error_tl {A} (l : list A) j : nth_error (tl l) j = nth_error l (S j).
  Proof. destruct l; [destruct j; reflexivity|reflexivity]. Qed.
  Lemma dp_run clip mult seed p0 H : (forall k n, length (ksplit k n) = n) -> Forall (fun h => exists B, batch B (fst h)) H ->
    exists outs, trains (differentially_private_aggregate clip mult seed) p0 H outs /\ length outs = length H /\
      forall n u par B, nth_error H n = Some (u, par) -> batch B u -> exists o, nth_error outs n = Some o /\ tdef o = tdef u /\
        forall j l k, nth_error (leaves u) j = Some l -> drawn (prng_key seed) (map (fun h => length (leaves (fst h))) H) n j = Some k -> nth_error (leaves o) j = Some (dp_leaf clip mult B (leaves u) l k).
  Proof.
    intros Hl HH. set (T := differentially_private_aggregate clip mult seed).
    assert (G : forall H k, Forall (fun h => exists B, batch B (fst h)) H ->
      exists outs s1, run T (SNode NDP [SKey k]) H = Ok (outs, s1) /\ length outs = length H /\
       forall n u par B, nth_error H n = Some (u, par) -> batch B u -> exists o, nth_error outs n = Some o /\ tdef o = tdef u /\
        forall j l kk, nth_error (leaves u) j = Some l -> drawn k (map (fun h => length (leaves (fst h))) H) n j = Some kk -> nth_error (leaves o) j = Some (dp_leaf clip mult B (leaves u) l kk)).
    { clear H HH. induction H as [|[u par] H IH]; intros k HH.
      - exists [], (SNode NDP [SKey k]). split; [reflexivity|]. split; [reflexivity|]. intros [|n] u par B E; discriminate.
      - pose proof (Forall_inv HH) as (B & Hu). pose proof (Forall_inv_tail HH) as HH'. cbn [fst] in Hu.
        destruct (dp_step clip mult seed B u k par Hl Hu) as (o & Eu & Hd & Ho).
        destruct (IH (hd k (ksplit k (length (leaves u) + 1))) HH') as (outs & s1 & Er & Hlo & Hn).
        exists (o :: outs), s1. split; [cbn [run]; fold T in Eu; rewrite Eu; cbn [rbind]; rewrite Er; reflexivity|]. split; [cbn; now rewrite Hlo|].
        intros [|n] v q B' E Hv; cbn in E.
        + injection E as <- <-. exists o. split; [reflexivity|]. split; [exact Hd|]. intros j l kk Hj Hk.
          assert (B' = B). { destruct Hu as (Hne & Hu), Hv as (_ & Hv). destruct (leaves u) as [|g gs]; [easy|]. destruct (Forall_inv Hu) as (_ & s & Es), (Forall_inv Hv) as (_ & s' & Es'). congruence. } subst B'.
          rewrite Ho. apply nth_error_map2; [exact Hj|]. rewrite nth_error_tl. exact Hk.
        + destruct (Hn n v q B' E Hv) as (o' & E' & Hd' & Hl'). exists o'. split; [exact E'|]. split; [exact Hd'|]. intros j l kk Hj Hk. apply (Hl' j l kk Hj). exact Hk. }
    destruct (G H (prng_key seed) HH) as (outs & s1 & Er & Hlo & Hn). exists outs. split; [exists (SNode NDP [SKey (prng_key seed)]), s1; split; [reflexivity|exact Er]|]. auto.
  Qed.
End DP.

Section DPReal.
  Context {P : Platform}.
  Notation xr := (XROps P).
  Lemma isfin_sub (l : list XR) i n : Forall isfin l -> Forall isfin (firstn n (skipn i l)).
  Proof. intros H. rewrite <- (firstn_skipn i l) in H. apply Forall_app in H as (_ & H). rewrite <- (firstn_skipn n (skipn i l)) in H. now apply Forall_app in H as (H & _). Qed.
  Lemma dp_norm_val (u : tree (gt XR)) b : finite_tree u -> snd (@dp_norm xr (leaves u) b) = Fin (norm2 (example u b)).
  Proof.
    intros H. apply finite_leaves in H. unfold dp_norm. rewrite (@global_norm_val P).
    - f_equal. f_equal. unfold rvals, vals, example, row. cbn [leaves]. rewrite flat_map_concat_map, map_map. cbn [leaves]. induction (leaves u) as [|l ls IH]; [reflexivity|]. inversion H; subst. cbn [map concat app]. rewrite map_app, <- IH by assumption. reflexivity.
    - unfold finite_tree, vals. cbn [leaves]. rewrite flat_map_concat_map, map_map. cbn [leaves]. induction H as [|l ls Hl Hls IH]; [constructor|]. cbn [map concat app]. apply Forall_app. split; [|exact IH]. cbn [dat dp_row]. now apply isfin_sub.
  Qed.
  Lemma dp_divisor_val (C : R) (u : tree (gt XR)) b : finite_tree u -> (0 < C)%R -> @dp_divisor xr (Fin C) (leaves u) b = Fin (Rmax (norm2 (example u b) / C) 1).
  Proof.
    intros H HC. unfold dp_divisor. pose proof (dp_norm_val u b H) as E. destruct (@dp_norm xr (leaves u) b) as [D n]. cbn [snd] in E. subst n. cbn [fmax fdiv fcast XROps]. rewrite xdiv_fin by lra. rewrite (@f1 P).
    reflexivity.
  Qed.
  Lemma nth_row_lt B (l : gt XR) s b i : twf l -> shp l = B :: s -> b < B -> i < prodn s -> b * prodn s + i < length (dat l).
  Proof. intros Hw Hs Hb Hi. unfold twf in Hw. rewrite Hw, Hs. change (prodn (B :: s)) with (B * prodn s). nia. Qed.
  Lemma dp_clipped_val (C : R) (u : tree (gt XR)) B g : finite_tree u -> (0 < C)%R -> batch B u -> In g (leaves u) ->
    dat (@dp_clipped xr (Fin C) (leaves u) B g) = map Fin (map (fun i => rsum (map (fun b => xval (nth (b * prodn (tl (shp g)) + i) (dat g) NaN) / Rmax (norm2 (example u b) / C) 1)%R (seq 0 B))) (seq 0 (prodn (tl (shp g))))).
  Proof.
    intros Hf HC (_ & Hb) Hg. unfold dp_clipped. cbn [dat]. rewrite map_map. apply map_ext_in. intros i Hi. apply in_seq in Hi. cbn [fsum XROps]. rewrite <- xsum_fin, map_map. f_equal. apply map_ext_in. intros b Hbb. apply in_seq in Hbb.
    rewrite !conv_x, dp_divisor_val by assumption. rewrite Forall_forall in Hb. destruct (Hb g Hg) as (Hw & s & Es).
    assert (Hlt : b * prodn (tl (shp g)) + i < length (dat g)) by (rewrite Es in Hi |- *; cbn [tl] in *; apply (nth_row_lt B g s); auto; lia).
    assert (Hx : isfin (nth (b * prodn (tl (shp g)) + i) (dat g) NaN)). { apply finite_leaves in Hf. rewrite Forall_forall in Hf. specialize (Hf g Hg). rewrite Forall_forall in Hf. apply Hf. now apply nth_In. }
    nx. rewrite (nth_indep (dat g) _ NaN Hlt). destruct Hx as (x & Ex). rewrite Ex. cbn [fdiv XROps xval]. apply xdiv_fin. pose proof (Rmax_r (norm2 (example u b) / C) 1). lra.
  Qed.
End DPReal.

Lemma vadd_app a b c d : length a = length c -> vadd (a ++ b) (c ++ d) = vadd a c ++ vadd b d.
Proof. revert c. induction a as [|x a IH]; intros [|y c] H; try discriminate; [reflexivity|]. cbn in *. injection H as H. unfold vadd in *. cbn. now rewrite IH. Qed.
Lemma vadd_length a b : length (vadd a b) = Nat.min (length a) (length b).
Proof. unfold vadd. now rewrite map_length, combine_length. Qed.
Lemma vadd_map {A} (f g : A -> R) l : vadd (map f l) (map g l) = map (fun x => f x + g x)%R l.
Proof. induction l as [|a l IH]; [reflexivity|]. unfold vadd in *. cbn. now rewrite IH. Qed.
Lemma vsum_length n vs : Forall (fun v => length v = n) vs -> length (vsum n vs) = n.
Proof. induction 1 as [|v vs Hv Hvs IH]; [apply repeat_length|]. cbn [vsum fold_right]. fold (vsum n vs). rewrite vadd_length, IH, Hv. apply Nat.min_id. Qed.
Lemma vsum_app {A} n m (f g : A -> list R) bs : (forall b, In b bs -> length (f b) = n) -> vsum (n + m) (map (fun b => f b ++ g b) bs) = vsum n (map f bs) ++ vsum m (map g bs).
Proof.
  induction bs as [|b bs IH]; intros H; [apply repeat_app|]. cbn [map vsum fold_right]. fold (vsum (n + m) (map (fun b => f b ++ g b) bs)) (vsum n (map f bs)) (vsum m (map g bs)).
  rewrite IH by (intros; apply H; now right). apply vadd_app. rewrite H by now left. symmetry. apply vsum_length. apply Forall_map, Forall_forall. intros; apply H. now right.
Qed.
Lemma vsum_tab {A} n (f : A -> nat -> R) bs : vsum n (map (fun b => map (f b) (seq 0 n)) bs) = map (fun i => rsum (map (fun b => f b i) bs)) (seq 0 n).
Proof.
  induction bs as [|b bs IH]; [cbn; generalize 0; induction n as [|n IHn]; intros k; cbn; [reflexivity|now rewrite <- IHn]|].
  cbn [map vsum fold_right]. fold (vsum n (map (fun b => map (f b) (seq 0 n)) bs)). rewrite IH, vadd_map. reflexivity.
Qed.
Lemma vadd_comm a b : vadd a b = vadd b a.
Proof. revert b. induction a as [|x a IH]; intros [|y b]; unfold vadd in *; cbn; [reflexivity..|]. f_equal; [lra|apply IH]. Qed.
Lemma vadd_assoc a b c : vadd a (vadd b c) = vadd (vadd a b) c.
Proof. revert b c. induction a as [|x a IH]; intros [|y b] [|z c]; unfold vadd in *; cbn; [reflexivity..|]. f_equal; [lra|apply IH]. Qed.
Lemma vadd_zero a n : length a = n -> vadd a (repeat 0%R n) = a.
Proof. revert n. induction a as [|x a IH]; intros [|n] H; try discriminate; [reflexivity|]. unfold vadd in *. cbn. f_equal; [lra|]. apply IH. now injection H. Qed.
Lemma vsum_app_list n xs ys : Forall (fun v => length v = n) xs -> Forall (fun v => length v = n) ys -> vsum n (xs ++ ys) = vadd (vsum n xs) (vsum n ys).
Proof.
  induction 1 as [|x xs Hx Hxs IH]; intros Hy.
  - cbn [app]. rewrite vadd_comm. symmetry. apply vadd_zero. now apply vsum_length.
  - cbn [app vsum fold_right]. fold (vsum n (xs ++ ys)) (vsum n xs). rewrite IH by exact Hy. apply vadd_assoc.
Qed.

Section DPReal2.
  Context {P : Platform}.
  Notation xr := (XROps P).
  Lemma row_tab B (l : gt XR) s b : twf l -> shp l = B :: s -> b < B -> row b l = map (fun i => xval (nth (b * prodn s + i) (dat l) NaN)) (seq 0 (prodn s)).
  Proof.
    intros Hw Hs Hb. unfold row. rewrite Hs. cbn [tl]. rewrite <- (map_map (fun i => nth (b * prodn s + i) (dat l) NaN) xval). f_equal.
    apply nth_error_ext. intros i. rewrite nth_error_map. destruct (Nat.lt_ge_cases i (prodn s)) as [Hi|Hi].
    - rewrite (nth_error_nth' (seq 0 (prodn s)) 0) by now rewrite seq_length. rewrite seq_nth by exact Hi. cbn [option_map]. rewrite (nth_error_nth' _ NaN).
      + rewrite <- (firstn_skipn (b * prodn s) (dat l)) at 2. rewrite app_nth2 by (rewrite firstn_length; lia). rewrite firstn_length. pose proof (nth_row_lt B l s b i Hw Hs Hb Hi).
        rewrite Nat.min_l by lia. replace (b * prodn s + (0 + i) - b * prodn s) with i by lia. rewrite <- (firstn_skipn (prodn s) (skipn (b * prodn s) (dat l))) at 2. rewrite app_nth1; [reflexivity|]. rewrite firstn_length, skipn_length. lia.
      + rewrite firstn_length, skipn_length. pose proof (nth_row_lt B l s b i Hw Hs Hb Hi). lia.
    - transitivity (@None XR); [apply nth_error_None; rewrite firstn_length; lia|]. symmetry. replace (nth_error (seq 0 (prodn s)) i) with (@None nat); [reflexivity|]. symmetry. apply nth_error_None. now rewrite seq_length.
  Qed.
  Lemma row_length B (l : gt XR) b : twf l -> (exists s, shp l = B :: s) -> b < B -> length (row b l) = prodn (tl (shp l)).
  Proof. intros Hw (s & Hs) Hb. rewrite (row_tab B l s b Hw Hs Hb), map_length, seq_length, Hs. reflexivity. Qed.
  Lemma example_length B (u : tree (gt XR)) b b' : batch B u -> b < B -> b' < B -> length (example u b) = length (example u b').
  Proof.
    intros (_ & H) Hb Hb'. unfold example. induction H as [|l ls (Hw & Hs) Hls IH]; [reflexivity|]. cbn [map concat]. rewrite !app_length, IH. f_equal. rewrite (row_length B), (row_length B l b') by assumption. reflexivity.
  Qed.
  Lemma total_concat (w : nat -> R) B bs (ls : list (gt XR)) : Forall (fun l => twf l /\ exists s, shp l = B :: s) ls -> (forall b, In b bs -> b < B) -> 1 <= B ->
    vsum (length (concat (map (row 0) ls))) (map (fun b => map (fun v => v / w b)%R (concat (map (row b) ls))) bs) =
    concat (map (fun g => map (fun i => rsum (map (fun b => xval (nth (b * prodn (tl (shp g)) + i) (dat g) NaN) / w b)%R bs)) (seq 0 (prodn (tl (shp g))))) ls).
  Proof.
    intros H Hbs HB. induction H as [|l ls (Hw & s & Hs) Hls IH].
    - cbn [map concat length]. induction bs as [|b bs IHb]; [reflexivity|]. reflexivity.
    - cbn [map concat]. rewrite <- IH. rewrite app_length.
      erewrite (map_ext (fun b => map (fun v => v / w b)%R (row b l ++ concat (map (row b) ls)))); [|intros b; apply map_app].
      rewrite vsum_app.
      + f_equal. rewrite (row_length B l 0) by (eauto; lia). rewrite Hs. cbn [tl].
        rewrite <- (vsum_tab (prodn s) (fun b i => xval (nth (b * prodn s + i) (dat l) NaN) / w b)%R). f_equal. apply map_ext_in. intros b Hb. rewrite (row_tab B l s b Hw Hs (Hbs b Hb)), map_map. reflexivity.
      + intros b Hb. rewrite map_length, !(row_length B) by (eauto; lia). reflexivity.
  Qed.
  Definition dp_noise (k : p_key P) (u : tree (gt XR)) : list R :=
    concat (map2 (fun l k => map (fun i => xval (@knormal xr k (promote (dt l) (fst (@dp_norm xr (leaves u) 0))) (tl (shp l)) i)) (seq 0 (prodn (tl (shp l))))) (leaves u) (tl (@ksplit xr k (length (leaves u) + 1)))).
  Lemma map2_app {A B C} (f : A -> B -> C) a b c d : length a = length c -> map2 f (a ++ b) (c ++ d) = map2 f a c ++ map2 f b d.
  Proof. revert c. induction a as [|x a IH]; intros [|y c] H; try discriminate; [reflexivity|]. cbn. f_equal. apply IH. now injection H. Qed.
  Lemma dp_vals C m B (u : tree (gt XR)) o (k : p_key P) : (0 < C)%R -> (forall k n, length (@ksplit xr k n) = n) -> (forall k d s i, isfin (@knormal xr k d s i)) -> batch B u -> 1 <= B -> finite_tree u ->
    leaves o = map2 (@dp_leaf xr (Fin C) (Fin m) B (leaves u)) (leaves u) (tl (@ksplit xr k (length (leaves u) + 1))) ->
    vals o = map Fin (map2 (fun s z => (s + C * m * z) / INR B)%R (dp_total C B u) (dp_noise k u)).
  Proof.
    intros HC Hsp Hno Hb HB Hf Ho. assert (HB0 : (0 < INR B)%R) by (apply lt_0_INR; lia). unfold vals. rewrite Ho. unfold dp_total, contribution, dp_noise.
    assert (Et : vsum (length (example u 0)) (map (fun b => map (fun v => v / Rmax (norm2 (example u b) / C) 1)%R (example u b)) (seq 0 B)) =
      concat (map (fun g => map (fun i => rsum (map (fun b => xval (nth (b * prodn (tl (shp g)) + i) (dat g) NaN) / Rmax (norm2 (example u b) / C) 1)%R (seq 0 B))) (seq 0 (prodn (tl (shp g))))) (leaves u))).
    { apply (total_concat (fun b => Rmax (norm2 (example u b) / C) 1) B (seq 0 B) (leaves u)); [apply Hb|intros b Hbb; apply in_seq in Hbb; lia|exact HB]. }
    rewrite Et. clear Et.
    assert (Hlen : length (tl (@ksplit xr k (length (leaves u) + 1))) = length (leaves u)). { pose proof (Hsp k (length (leaves u) + 1)) as Hl. destruct (ksplit _ _); cbn in *; lia. }
    set (W := fun b => Rmax (norm2 (example u b) / C) 1). set (D := fst (@dp_norm xr (leaves u) 0)).
    assert (Hall : forall g, In g (leaves u) -> dat (@dp_clipped xr (Fin C) (leaves u) B g) = map Fin (map (fun i => rsum (map (fun b => xval (nth (b * prodn (tl (shp g)) + i) (dat g) NaN) / W b)%R (seq 0 B))) (seq 0 (prodn (tl (shp g)))))) by (intros g Hg; apply dp_clipped_val; auto).
    clear Ho. revert Hlen. generalize (tl (@ksplit xr k (length (leaves u) + 1))) as ks.
    assert (G : forall ls ks, (forall g, In g ls -> In g (leaves u)) -> length ks = length ls ->
      concat (map dat (map2 (@dp_leaf xr (Fin C) (Fin m) B (leaves u)) ls ks)) =
      map Fin (map2 (fun s z => (s + C * m * z) / INR B)%R (concat (map (fun g => map (fun i => rsum (map (fun b => xval (nth (b * prodn (tl (shp g)) + i) (dat g) NaN) / W b)%R (seq 0 B))) (seq 0 (prodn (tl (shp g))))) ls))
        (concat (map2 (fun l k => map (fun i => xval (@knormal xr k (promote (dt l) D) (tl (shp l)) i)) (seq 0 (prodn (tl (shp l))))) ls ks)))).
    { induction ls as [|g ls IH]; intros [|kk ks] Hin Hl; try discriminate; [reflexivity|]. cbn [map2 map concat]. rewrite IH; [|intros; apply Hin; now right|now injection Hl].
      rewrite map2_app by now rewrite !map_length. rewrite map_app. f_equal. unfold dp_leaf. cbn [dat]. rewrite Hall by (apply Hin; now left).
      cbn [dt shp dp_clipped]. fold D. rewrite map2_map_same, map2_map_l, map2_map_l, map2_diag, map_map. 
      apply map_ext. intros i. destruct (Hno kk (promote (dt g) D) (tl (shp g)) i) as (z & Ez). nx. rewrite Ez. cbn [fdiv fadd fmul fcast XROps xval]. rewrite fofZ_val, <- INR_IZR_INZ. rewrite xmul_fin, xmul_fin, xadd_fin. apply xdiv_fin. lra. }
    intros ks Hks. now apply G.
  Qed.
End DPReal2.

Definition vsub (a b : list R) : list R := map (fun p => fst p - snd p)%R (combine a b).
Lemma vsub_vadd a b r : length a = length r -> length b = length r -> vsub (vadd a r) (vadd b r) = vsub a b.
Proof. revert b r. induction a as [|x a IH]; intros [|y b] [|z r] H1 H2; try discriminate; [reflexivity|]. unfold vsub, vadd in *. cbn. f_equal; [lra|]. apply IH; [now injection H1|now injection H2]. Qed.
Lemma vsub_opp a b : vsub a b = vadd a (map (Rmult (-1)) b).
Proof. revert b. induction a as [|x a IH]; intros [|y b]; unfold vsub, vadd in *; cbn; [reflexivity..|]. f_equal; [lra|apply IH]. Qed.
Lemma norm2_vsub a b : length a = length b -> (norm2 (vsub a b) <= norm2 a + norm2 b)%R.
Proof. intros H. rewrite vsub_opp. eapply Rle_trans; [apply norm2_triangle; now rewrite map_length|]. rewrite norm2_scal. rewrite Rabs_left by lra. lra. Qed.
Lemma noisy_diff (c : R) B T T' N : (0 < INR B)%R -> (INR B * norm2 (vsub (map2 (fun s z => (s + c * z) / INR B) T N) (map2 (fun s z => (s + c * z) / INR B) T' N)) <= norm2 (vsub T T'))%R.
Proof.
  intros HB. assert (H : (INR B * INR B * sumsq (vsub (map2 (fun s z => (s + c * z) / INR B) T N) (map2 (fun s z => (s + c * z) / INR B) T' N)) <= sumsq (vsub T T'))%R).
  { revert T' N. induction T as [|t T IH]; intros T' N.
    - assert (E : forall l, vsub [] l = []) by reflexivity. cbn [map2]. rewrite !E. change (sumsq []) with 0%R. lra.
    - destruct T' as [|t' T']; [|destruct N as [|z N]].
      + assert (E : forall l, vsub l [] = []) by (intros []; reflexivity). cbn [map2]. rewrite !E. change (sumsq []) with 0%R. lra.
      + cbn [map2]. change (vsub [] []) with (@nil R). change (sumsq []) with 0%R. rewrite Rmult_0_r. apply sumsq_nonneg.
      + cbn [map2]. unfold vsub in *. cbn [combine map fst snd]. rewrite !sumsq_cons. specialize (IH T' N). rewrite Rmult_plus_distr_l. apply Rplus_le_compat; [|exact IH]. apply Req_le. field. lra. }
  set (V := vsub (map2 _ T N) _) in *. unfold norm2. fold (sumsq V) (sumsq (vsub T T')). rewrite <- (sqrt_square (INR B)) by lra. rewrite <- sqrt_mult; [|nra|apply sumsq_nonneg]. apply sqrt_le_1; [|apply sumsq_nonneg|exact H]. apply Rmult_le_pos; [nra|apply sumsq_nonneg].
Qed.
Lemma contribution_scale C x : contribution C x = map (Rmult (/ Rmax (norm2 x / C) 1)) x.
Proof. unfold contribution. apply map_ext. intros. unfold Rdiv. apply Rmult_comm. Qed.
(*@ C37_clip : the contribution x / max(|x|/C, 1) of an example has Euclidean norm at most C, and is x itself when its norm is at most C. *)
Lemma contribution_norm : forall (C : R) (x : list R), (0 < C)%R -> (norm2 (contribution C x) <= C)%R /\ ((norm2 x <= C)%R -> contribution C x = x).
Proof.
  intros C x HC. pose proof (norm2_nonneg x) as Hn. split.
  - rewrite contribution_scale, norm2_scal. pose proof (Rmax_r (norm2 x / C) 1) as H1. pose proof (Rmax_l (norm2 x / C) 1) as H2. set (m := Rmax _ _) in *.
    rewrite Rabs_right by (apply Rle_ge, Rlt_le, Rinv_0_lt_compat; lra). apply (Rmult_le_reg_l m); [lra|]. rewrite <- Rmult_assoc, Rinv_r by lra. rewrite Rmult_1_l.
    apply (Rmult_le_compat_r C) in H2; [|lra]. unfold Rdiv in H2. rewrite Rmult_assoc, Rinv_l in H2 by lra. lra.
  - intros H. unfold contribution. rewrite Rmax_right; [rewrite <- (map_id x) at 2; apply map_ext; intros; field|]. apply (Rmult_le_reg_r C); [lra|]. unfold Rdiv. rewrite Rmult_assoc, Rinv_l by lra. lra.
Qed.
Lemma vals_fin (l : list R) (o : tree (gt XR)) : vals o = map Fin l -> rvals o = l.
Proof. intros H. unfold rvals. rewrite H, map_map. apply map_id. Qed.

Lemma noise_ext {K} (f : K -> fdt -> list nat -> nat -> XR) : forall (l l' : list (gt XR)) D D' ks, map (fun x => (dt x, tl (shp x))) l' = map (fun x => (dt x, tl (shp x))) l -> D' = D ->
  map2 (fun l k => map (fun i => xval (f k (promote (dt l) D') (tl (shp l)) i)) (seq 0 (prodn (tl (shp l))))) l' ks = map2 (fun l k => map (fun i => xval (f k (promote (dt l) D) (tl (shp l)) i)) (seq 0 (prodn (tl (shp l))))) l ks.
Proof.
  induction l as [|x l IH]; intros [|y l'] D D' ks H ->; try discriminate; [reflexivity|]. cbn in H. injection H as Hd Hs Hl. destruct ks as [|kk ks]; [reflexivity|]. cbn [map2]. rewrite Hd, Hs. apply f_equal. now apply IH.
Qed.
Lemma noise_length {K} (f : K -> fdt -> list nat -> nat -> XR) B : 1 <= B -> forall (l : list (gt XR)) D ks, Forall (fun l => twf l /\ exists s, shp l = B :: s) l -> length ks = length l ->
  length (concat (map2 (fun l k => map (fun i => xval (f k (promote (dt l) D) (tl (shp l)) i)) (seq 0 (prodn (tl (shp l))))) l ks)) = length (concat (map (row 0) l)).
Proof.
  intros HB l D ks Hb. revert ks. induction Hb as [|x l (Hw & Hs) Hls IH]; intros [|kk ks] Hk; try discriminate; [reflexivity|].
  cbn [map2 concat map]. rewrite !app_length, IH by now injection Hk. f_equal. rewrite map_length, seq_length. symmetry. apply (row_length B); [exact Hw|exact Hs|lia].
Qed.
Section DPdt.
  Context `{O : Ops}.
  Lemma pysum_dt l l' : map (@fst fdt F) l = map fst l' -> fst (pysum l) = fst (pysum l').
  Proof.
    assert (G : forall l l' a a', map (@fst fdt F) l = map fst l' -> fst a = fst a' -> fst (fold_left add_scalars l a) = fst (fold_left add_scalars l' a')).
    { induction l0 as [|x r IH]; intros [|y r'] a a' H1 H2; try discriminate; [exact H2|]. cbn in H1. injection H1 as Hx Hr. cbn [fold_left]. apply IH; [exact Hr|]. unfold add_scalars. cbn [fst]. now rewrite Hx, H2. }
    destruct l as [|[d x] r], l' as [|[d' x'] r']; intros H; try discriminate; [reflexivity|]. cbn in H. injection H as -> Hr. cbn [pysum]. now apply G.
  Qed.
  Lemma global_norm_dt t : fst (global_norm t) = fst (pysum (map (fun x => (dt x, tsum (tsquare x))) (leaves t))).
  Proof. unfold global_norm. now destruct (pysum _). Qed.
  Lemma dp_norm_dt ls ls' b : map dt ls = map dt ls' -> fst (dp_norm ls b) = fst (dp_norm ls' b).
  Proof.
    intros H. unfold dp_norm. rewrite !global_norm_dt. apply pysum_dt. cbn [leaves]. rewrite !map_map. cbn [fst].
    assert (G : forall l, map dt (flat_map leaves (map (fun g => Leaf (dp_row g b)) l)) = map dt l) by (clear; induction l as [|x l IH]; cbn; [reflexivity|now rewrite IH]). now rewrite !G.
  Qed.
End DPdt.

(*@ C37_aggregate : for every clipping norm C > 0, every batch of B >= 1 finite per-example gradient trees: one call returns, for a noise vector that depends only on the key and the leaves' shapes and dtypes, exactly (sum over the examples of their contributions + C * noise_multiplier * noise) / B. *)
Lemma dp_aggregate : forall `{P : Platform} (C m : R) (seed : Z) (B : nat) (u : tree tensor) (k : key),
  (0 < C)%R -> (forall k n, length (ksplit k n) = n) -> (forall k d s i, isfin (knormal k d s i)) -> batch B u -> 1 <= B -> finite_tree u ->
  exists noise, (forall u' (par : option (tree tensor)), avals u' = avals u -> batch B u' -> finite_tree u' ->
    exists o s', update (differentially_private_aggregate (Fin C) (Fin m) seed) u' (SNode NDP [SKey k]) par = Ok (o, s') /\ tdef o = tdef u' /\
      vals o = map Fin (map2 (fun s z => (s + C * m * z) / INR B)%R (dp_total C B u') noise)) /\ length noise = length (dp_total C B u).
Proof.
  intros P C m seed B u k HC Hsp Hno Hb HB Hf. exists (dp_noise k u). split.
  - intros u' par Ha Hb' Hf'. destruct (@dp_step (XROps P) (Fin C) (Fin m) seed B u' k par Hsp Hb') as (o & E & Hd & Ho). exists o. eexists. split; [exact E|]. split; [exact Hd|].
    assert (En : dp_noise k u' = dp_noise k u).
    { unfold dp_noise. assert (Hl : map aval (leaves u') = map aval (leaves u)) by (rewrite <- !leaves_tmap; apply (f_equal leaves Ha)).
      assert (Hlen : length (leaves u') = length (leaves u)) by (rewrite <- (map_length aval), Hl; apply map_length).
      assert (Hdt : fst (@dp_norm (XROps P) (leaves u') 0) = fst (@dp_norm (XROps P) (leaves u) 0)).
      { apply dp_norm_dt. transitivity (map fst (map aval (leaves u'))); [now rewrite map_map|]. rewrite Hl, map_map. reflexivity. }
      etransitivity; [apply f_equal; apply noise_ext; [|exact Hdt]; transitivity (map (fun a => (fst a, tl (snd a))) (map aval (leaves u'))); [now rewrite map_map|]; rewrite Hl, map_map; reflexivity|]. rewrite Hlen. reflexivity. }
    rewrite <- En. now apply dp_vals.
  - unfold dp_noise, dp_total. rewrite vsum_length.
    + assert (Hlen : length (tl (@ksplit (XROps P) k (length (leaves u) + 1))) = length (leaves u)). { pose proof (Hsp k (length (leaves u) + 1)) as Hl. destruct (ksplit _ _); cbn in *; lia. }
      apply (noise_length (@knormal (XROps P)) B HB (leaves u)); [apply Hb|exact Hlen].
    + apply Forall_map, Forall_forall. intros b Hbb. apply in_seq in Hbb. unfold contribution. rewrite map_length. apply (example_length B); [exact Hb|lia|lia].
Qed.

Lemma vsum_split n (f : nat -> list R) B i : i < B -> (forall b, b < B -> length (f b) = n) ->
  vsum n (map f (seq 0 B)) = vadd (f i) (vadd (vsum n (map f (seq 0 i))) (vsum n (map f (seq (S i) (B - S i))))).
Proof.
  intros Hi Hf. replace (seq 0 B) with (seq 0 i ++ i :: seq (S i) (B - S i)).
  - rewrite map_app. rewrite vsum_app_list.
    + cbn [map vsum fold_right]. fold (vsum n (map f (seq (S i) (B - S i)))). rewrite vadd_assoc, (vadd_comm (vsum n (map f (seq 0 i)))), <- vadd_assoc. reflexivity.
    + apply Forall_map, Forall_forall. intros b Hb. apply in_seq in Hb. apply Hf. lia.
    + apply Forall_map, Forall_forall. intros b [Hb|Hb]; [subst; now apply Hf|]. apply in_seq in Hb. apply Hf. lia.
  - replace B with (i + S (B - S i)) at 2 by lia. rewrite seq_app. reflexivity.
Qed.
Lemma contribution_length C x : length (contribution C x) = length x.
Proof. apply map_length. Qed.
Lemma example_avals (u u' : tree (gt XR)) B b : avals u' = avals u -> batch B u -> batch B u' -> b < B -> length (example u' b) = length (example u b).
Proof.
  intros Ha (_ & Hb) (_ & Hb') Hlt. assert (Hl : map aval (leaves u') = map aval (leaves u)) by (rewrite <- !leaves_tmap; apply (f_equal leaves Ha)). unfold example.
  revert Hl Hb. generalize (leaves u). induction Hb' as [|x l (Hw & Hs) Hls IH]; intros [|y l'] H Hb; try discriminate; [reflexivity|]. cbn in H. pose proof (Forall_inv Hb) as (Hw' & Hs'). apply Forall_inv_tail in Hb. injection H as Hd He Hr.
  cbn [map concat]. rewrite !app_length, (IH l' Hr Hb), (row_length B x), (row_length B y) by assumption. now rewrite He.
Qed.
(** Total of two batches differing in example [i] only. *)
Lemma total_diff (C : R) B (u u' : tree (gt XR)) i : (0 < C)%R -> avals u' = avals u -> batch B u -> batch B u' -> i < B -> (forall b, b < B -> b <> i -> example u' b = example u b) ->
  (norm2 (vsub (dp_total C B u) (dp_total C B u')) <= 2 * C)%R.
Proof.
  intros HC Ha Hb Hb' Hi He. unfold dp_total. rewrite (example_avals u u' B 0 Ha Hb Hb') by lia. set (n := length (example u 0)).
  assert (Hn : forall b, b < B -> length (contribution C (example u b)) = n) by (intros b Hlt; rewrite contribution_length; apply (example_length B); auto; lia).
  assert (Hn' : forall b, b < B -> length (contribution C (example u' b)) = n) by (intros b Hlt; rewrite contribution_length, (example_avals u u' B b) by auto; apply (example_length B); auto; lia).
  rewrite (vsum_split n (fun b => contribution C (example u b)) B i Hi Hn), (vsum_split n (fun b => contribution C (example u' b)) B i Hi Hn').
  assert (E1 : map (fun b => contribution C (example u' b)) (seq 0 i) = map (fun b => contribution C (example u b)) (seq 0 i)) by (apply map_ext_in; intros b Hbb; apply in_seq in Hbb; rewrite He by lia; reflexivity).
  assert (E2 : map (fun b => contribution C (example u' b)) (seq (S i) (B - S i)) = map (fun b => contribution C (example u b)) (seq (S i) (B - S i))) by (apply map_ext_in; intros b Hbb; apply in_seq in Hbb; rewrite He by lia; reflexivity).
  rewrite E1, E2. rewrite vsub_vadd.
  - eapply Rle_trans; [apply norm2_vsub; now rewrite Hn, Hn'|]. destruct (contribution_norm C (example u i) HC) as (H1 & _), (contribution_norm C (example u' i) HC) as (H2 & _). lra.
  - rewrite Hn by exact Hi. rewrite vadd_length, !vsum_length, Nat.min_id; [reflexivity|..]; apply Forall_map, Forall_forall; intros b Hbb; apply in_seq in Hbb; apply Hn; lia.
  - rewrite Hn' by exact Hi. rewrite vadd_length, !vsum_length, Nat.min_id; [reflexivity|..]; apply Forall_map, Forall_forall; intros b Hbb; apply in_seq in Hbb; apply Hn; lia.
Qed.
(*@ C37_sensitivity : for every clipping norm C > 0, batch size B >= 1, generator state, and two batches of finite gradients of the same shapes that differ in (at most) one example: B times the difference of the two outputs of one call -- the difference of the two sums -- has global norm at most 2 C, whatever the noise. *)
Lemma dp_sensitivity : forall `{P : Platform} (C m : R) (seed : Z) (B i : nat) (u u' : tree tensor) (s : state) (par par' : option (tree tensor)) (o o' : tree tensor) (s1 s1' : state),
  (0 < C)%R -> (forall k n, length (ksplit k n) = n) -> (forall k d s i, isfin (knormal k d s i)) ->
  avals u' = avals u -> batch B u -> batch B u' -> finite_tree u -> finite_tree u' ->
  i < B -> (forall b, b < B -> b <> i -> example u' b = example u b) ->
  update (differentially_private_aggregate (Fin C) (Fin m) seed) u s par = Ok (o, s1) ->
  update (differentially_private_aggregate (Fin C) (Fin m) seed) u' s par' = Ok (o', s1') ->
  (INR B * norm2 (vsub (rvals o) (rvals o')) <= 2 * C)%R.
Proof.
  intros P C m seed B i u u' s par par' o o' s1 s1' HC Hsp Hno Ha Hb Hb' Hf Hf' Hi He E E'.
  assert (Hs : exists k, s = SNode NDP [SKey k]). { cbn [update differentially_private_aggregate] in E. destruct s as [ | | | | | |[] ss]; try discriminate E. destruct ss as [|[] [|? ?]]; try discriminate E. eauto. }
  destruct Hs as (k & ->). destruct (dp_aggregate C m seed B u k HC Hsp Hno Hb ltac:(lia) Hf) as (N & HN & _).
  destruct (HN u par eq_refl Hb Hf) as (o2 & s2 & E2 & _ & V). destruct (HN u' par' Ha Hb' Hf') as (o3 & s3 & E3 & _ & V').
  pose proof (Ok_inj _ _ (eq_trans (eq_sym E) E2)) as Q. pose proof (Ok_inj _ _ (eq_trans (eq_sym E') E3)) as Q'.
  assert (Qo : o = o2) by exact (f_equal fst Q). assert (Qo' : o' = o3) by exact (f_equal fst Q'). rewrite Qo, Qo'. clear Q Q' Qo Qo'.
  rewrite (vals_fin _ o2 V), (vals_fin _ o3 V'). eapply Rle_trans; [apply (noisy_diff (C * m)); apply lt_0_INR; lia|]. now apply (total_diff C B u u' i).
Qed.

Lemma contribution_zero C n : contribution C (repeat 0%R n) = repeat 0%R n.
Proof. unfold contribution. set (w := Rmax _ _). clearbody w. induction n as [|n IH]; [reflexivity|]. cbn. rewrite IH. f_equal. unfold Rdiv. apply Rmult_0_l. Qed.
Lemma total_zero (C : R) B (u u' : tree (gt XR)) n : batch B u -> 1 <= B -> (forall b, b < B -> example u' b = example u b) -> length (example u 0) = n -> example u' B = repeat 0%R n ->
  dp_total C (S B) u' = dp_total C B u.
Proof.
  intros Hb HB He Hn Hz. unfold dp_total. rewrite He by lia. rewrite Hn.
  replace (seq 0 (S B)) with (seq 0 B ++ [B]) by (rewrite seq_S; reflexivity).
  assert (Hl : forall b, b < B -> length (contribution C (example u b)) = n) by (intros b Hlt; rewrite contribution_length, <- Hn; apply (example_length B); auto; lia).
  rewrite map_app, vsum_app_list.
  - cbn [map vsum fold_right]. rewrite Hz, contribution_zero. rewrite (vadd_zero (repeat 0%R n) n) by apply repeat_length. fold (vsum n (map (fun b => contribution C (example u' b)) (seq 0 B))).
    assert (E : map (fun b => contribution C (example u' b)) (seq 0 B) = map (fun b => contribution C (example u b)) (seq 0 B)) by (apply map_ext_in; intros b Hbb; apply in_seq in Hbb; now rewrite He by lia).
    rewrite E. apply vadd_zero. apply vsum_length. apply Forall_map, Forall_forall. intros b Hbb. apply in_seq in Hbb. apply Hl. lia.
  - apply Forall_map, Forall_forall. intros b Hbb. apply in_seq in Hbb. rewrite He by lia. apply Hl. lia.
  - constructor; [|constructor]. rewrite Hz, contribution_zero. apply repeat_length.
Qed.
(*@ C37_zero_example : adding an all-zero example to a batch leaves the (noised) sum unchanged: B+1 times the new output equals B times the old one. *)
Lemma dp_zero_example : forall `{P : Platform} (C m : R) (seed : Z) (B n : nat) (u u' : tree tensor) (s : state) (par par' : option (tree tensor)) (o o' : tree tensor) (s1 s1' : state),
  (0 < C)%R -> (forall k n, length (ksplit k n) = n) -> (forall k d s i, isfin (knormal k d s i)) -> 1 <= B ->
  map (fun l => (dt l, tl (shp l))) (leaves u') = map (fun l => (dt l, tl (shp l))) (leaves u) -> batch B u -> batch (S B) u' -> finite_tree u -> finite_tree u' ->
  (forall b, b < B -> example u' b = example u b) -> example u' B = repeat 0%R n ->
  update (differentially_private_aggregate (Fin C) (Fin m) seed) u s par = Ok (o, s1) ->
  update (differentially_private_aggregate (Fin C) (Fin m) seed) u' s par' = Ok (o', s1') ->
  map (Rmult (INR (S B))) (rvals o') = map (Rmult (INR B)) (rvals o).
Proof.
  intros P C m seed B n u u' s par par' o o' s1 s1' HC Hsp Hno HB Ha Hb Hb' Hf Hf' He Hz E E'.
  assert (Hs : exists k, s = SNode NDP [SKey k]). { cbn [update differentially_private_aggregate] in E. destruct s as [ | | | | | |[] ss]; try discriminate E. destruct ss as [|[] [|? ?]]; try discriminate E. eauto. }
  destruct Hs as (k & ->).
  destruct (@dp_step (XROps P) (Fin C) (Fin m) seed B u k par Hsp Hb) as (o2 & E2 & _ & Ho). destruct (@dp_step (XROps P) (Fin C) (Fin m) seed (S B) u' k par' Hsp Hb') as (o3 & E3 & _ & Ho').
  pose proof (Ok_inj _ _ (eq_trans (eq_sym E) E2)) as Q. pose proof (Ok_inj _ _ (eq_trans (eq_sym E') E3)) as Q'.
  assert (Qo : o = o2) by exact (f_equal fst Q). assert (Qo' : o' = o3) by exact (f_equal fst Q'). rewrite Qo, Qo'. clear Q Q' Qo Qo' E E' E2 E3.
  assert (V : vals o2 = map Fin (map2 (fun s z => (s + C * m * z) / INR B)%R (dp_total C B u) (dp_noise k u))) by (apply dp_vals; auto).
  assert (V' : vals o3 = map Fin (map2 (fun s z => (s + C * m * z) / INR (S B))%R (dp_total C (S B) u') (dp_noise k u'))) by (apply dp_vals; auto; lia).
  assert (Hlen : length (leaves u') = length (leaves u)) by (rewrite <- (map_length (fun l => (dt l, tl (shp l)))), Ha; apply map_length).
  assert (En : dp_noise k u' = dp_noise k u).
  { unfold dp_noise. apply f_equal. etransitivity; [apply (fun D D' H => noise_ext (@knormal (XROps P)) (leaves u) (leaves u') D D' (tl (@ksplit (XROps P) k (length (leaves u') + 1))) Ha H)|rewrite Hlen; reflexivity]. apply dp_norm_dt. pose proof (f_equal (map fst) Ha) as Hx. rewrite !map_map in Hx. exact Hx. }
  assert (Hn : length (example u 0) = n).
  { rewrite <- He by lia. rewrite <- (repeat_length 0%R n), <- Hz. apply (example_length (S B)); auto; lia. }
  rewrite (vals_fin _ o2 V), (vals_fin _ o3 V'), En, (total_zero C B u u' n) by auto. generalize (dp_total C B u) (dp_noise k u). clear - HB. intros T N.
  assert (H1 : INR B <> 0%R) by (apply Rgt_not_eq, lt_0_INR; lia). assert (H2 : INR (S B) <> 0%R) by (apply Rgt_not_eq, lt_0_INR; lia). revert N. induction T as [|t T IH]; intros [|z N]; cbn [map2 map]; [reflexivity..|]. rewrite IH. f_equal. field. auto.
Qed.

(*@ C38_keys : the key discipline, for differentially_private_aggregate: for an ideal splittable generator and every sequence of calls on trees with cs leaves, the noise key of every (call, leaf) exists, no two (call, leaf) pairs share one, and none is ever split. *)
Lemma dp_keys : forall `{O : Ops} (seed : Z) (cs : list nat), ideal_split ->
  (forall n j, n < length cs -> j < nth n cs 0 -> exists k, drawn (prng_key seed) cs n j = Some k) /\
  (forall n j n' j' k, n < length cs -> n' < length cs -> drawn (prng_key seed) cs n j = Some k -> drawn (prng_key seed) cs n' j' = Some k -> n = n' /\ j = j') /\
  (forall n j m, n < length cs -> m <= length cs -> drawn (prng_key seed) cs n j <> Some (carried (prng_key seed) (firstn m cs))).
Proof. exact @noise_keys. Qed.
Lemma pysum_same_dt `{O : Ops} d l : l <> [] -> Forall (fun x => fst x = d) l -> fst (pysum l) = d.
Proof.
  destruct l as [|[d' x] l]; intros Hn H; [easy|]. cbn [pysum]. pose proof (Forall_inv H) as H1. apply Forall_inv_tail in H. cbn in H1. subst d'. 
  assert (G : forall l a, Forall (fun x : fdt * F => fst x = d) l -> fst a = d -> fst (fold_left add_scalars l a) = d).
  { clear. induction l as [|y l IH]; intros a H Ha; [exact Ha|]. cbn [fold_left]. apply IH; [now apply Forall_inv_tail in H|]. unfold add_scalars. cbn [fst]. rewrite Ha, (Forall_inv H). apply promote_same. }
  now apply G.
Qed.
(*@ C38_formula : for every history of batches: the aggregate never raises, drops the batch axis, keeps the tree structure, and element i of leaf j at call n is ( sum over the examples b of x_b / max(|example b|/C, 1)  +  C * noise_multiplier * z ) / B, z the normal sample drawn with that (call, leaf)'s own key; the sample's dtype is the leaf's when all leaves share one. *)
Lemma dp_formula : forall `{P : Platform} (C m : R) (seed : Z) (p0 : tree tensor) (H : list (tree tensor * option (tree tensor))),
  (0 < C)%R -> (forall k n, length (ksplit k n) = n) -> Forall (fun h => exists B, batch B (fst h)) H ->
  exists outs, trains (differentially_private_aggregate (Fin C) (Fin m) seed) p0 H outs /\ length outs = length H /\
    forall n u par B, nth_error H n = Some (u, par) -> batch B u -> exists o, nth_error outs n = Some o /\ tdef o = tdef u /\
      forall j l k, nth_error (leaves u) j = Some l -> drawn (prng_key seed) (map (fun h => length (leaves (fst h))) H) n j = Some k ->
        exists lo, nth_error (leaves o) j = Some lo /\ shp lo = tl (shp l) /\ ((forall l', In l' (leaves u) -> dt l' = dt l) -> dt lo = dt l) /\
          forall i z, finite_tree u -> 1 <= B -> i < prodn (tl (shp l)) -> knormal k (dt lo) (tl (shp l)) i = Fin z ->
            elt o (j, i) = Some (Fin ((rsum (map (fun b => xval (nth (b * prodn (tl (shp l)) + i) (dat l) NaN) / Rmax (norm2 (example u b) / C) 1)%R (seq 0 B)) + C * m * z) / INR B)%R).
Proof.
  intros P C m seed p0 H HC Hsp HH. destruct (@dp_run (XROps P) (Fin C) (Fin m) seed p0 H Hsp HH) as (outs & Ht & Hlo & Hn). exists outs. split; [exact Ht|]. split; [exact Hlo|].
  intros n u par B E Hb. destruct (Hn n u par B E Hb) as (o & Eo & Hd & Hj). exists o. split; [exact Eo|]. split; [exact Hd|]. intros j l k El Ek. eexists. split; [exact (Hj j l k El Ek)|]. split; [reflexivity|]. split.
  - intros Hs. cbn [dp_leaf dt dp_clipped]. assert (Hd2 : fst (@dp_norm (XROps P) (leaves u) 0) = dt l); [|rewrite Hd2; apply promote_same].
    unfold dp_norm. rewrite global_norm_dt. apply pysum_same_dt.
    + cbn [leaves]. destruct Hb as (Hne & _). destruct (leaves u); [easy|]. cbn. discriminate.
    + apply Forall_map. cbn [leaves]. apply Forall_forall. intros x Hx. cbn [fst]. apply in_flat_map in Hx as (y & Hy & Hx). apply in_map_iff in Hy as (g & <- & Hg). destruct Hx as [<-|[]]. cbn [dt dp_row]. now apply Hs.
  - intros i z Hf HB Hi Hz. unfold elt. cbn [fst snd]. etransitivity; [apply (f_equal (fun x => match x with Some l0 => nth_error (dat l0) i | None => None end)); exact (Hj j l k El Ek)|].
    cbn [dp_leaf dat]. rewrite (dp_clipped_val C u B l Hf HC Hb (nth_error_In _ _ El)). cbn [dt shp dp_clipped] in Hz |- *.
    erewrite nth_error_map2; [|rewrite nth_error_map, nth_error_map, (nth_error_nth' _ 0) by (rewrite seq_length; exact Hi); rewrite seq_nth by exact Hi; reflexivity|rewrite (nth_error_nth' _ 0) by (rewrite seq_length; exact Hi); rewrite seq_nth by exact Hi; reflexivity].
    cbn [Nat.add]. f_equal. cbn [dp_leaf dt dp_clipped] in Hz. nx. rewrite Hz. cbn [fdiv fadd fmul fcast XROps]. rewrite fofZ_val, <- INR_IZR_INZ. rewrite xmul_fin, xmul_fin, xadd_fin. apply xdiv_fin. apply Rgt_not_eq, lt_0_INR. lia.
Qed.
(*@ C38_errors : inconsistent batch sizes and rank-0 leaves are refused: ValueError, except that a tree without leaves or whose first leaf has rank 0 raises IndexError; and nothing else is refused. *)
Lemma dp_errors : forall `{O : Ops} (C m : F) (seed : Z) (u : tree tensor) (k : key) (par : option (tree tensor)), (forall k n, length (ksplit k n) = n) -> trwf u ->
  let r := update (differentially_private_aggregate C m seed) u (SNode NDP [SKey k]) par in
  (r = Err EIndex <-> match leaves u with [] => True | g :: _ => shp g = [] end) /\
  (r = Err EValue <-> exists g B s, hd_error (leaves u) = Some g /\ shp g = B :: s /\ exists g', In g' (leaves u) /\ forall s', shp g' <> B :: s') /\
  ((exists o s, r = Ok (o, s)) <-> exists B, batch B u).
Proof.
  intros O C m seed u k par Hsp Hw r.
  assert (Hex : (match leaves u with [] => True | g :: _ => shp g = [] end) \/ (exists g B s, hd_error (leaves u) = Some g /\ shp g = B :: s /\ exists g', In g' (leaves u) /\ forall s', shp g' <> B :: s') \/ exists B, batch B u).
  { destruct (leaves u) as [|g gs] eqn:Eg; [now left|]. destruct (shp g) as [|B s] eqn:Es; [now left|right]. destruct (existsb (bad_batch B) (leaves u)) eqn:Eb.
    - left. exists g, B, s. split; [reflexivity|]. split; [exact Es|]. apply existsb_exists in Eb as (g' & Hin & Hbad). exists g'. rewrite <- Eg. split; [exact Hin|]. intros s' Hs'. unfold bad_batch in Hbad. rewrite Hs', Nat.eqb_refl in Hbad. discriminate.
    - right. exists B. split; [rewrite Eg; discriminate|]. apply Forall_forall. intros x Hx. unfold trwf in Hw. rewrite Forall_forall in Hw. split; [now apply Hw|].
      assert (Hbx : bad_batch B x = false) by (destruct (bad_batch B x) eqn:E; [|reflexivity]; rewrite <- Eb; symmetry; apply existsb_exists; eauto). unfold bad_batch in Hbx. destruct (shp x) as [|n s']; [discriminate|]. apply Bool.negb_false_iff, Nat.eqb_eq in Hbx. subst n. eauto. }
  assert (H1 : match leaves u with [] => True | g :: _ => shp g = [] end -> r = Err EIndex).
  { intros H. subst r. cbn [update differentially_private_aggregate]. destruct (leaves u) as [|g gs]; [reflexivity|]. now rewrite H. }
  assert (H2 : (exists g B s, hd_error (leaves u) = Some g /\ shp g = B :: s /\ exists g', In g' (leaves u) /\ forall s', shp g' <> B :: s') -> r = Err EValue).
  { intros (g & B & s & Hg & Hs & g' & Hin & Hx). subst r. cbn [update differentially_private_aggregate]. destruct (leaves u) as [|g0 gs] eqn:Eg; [discriminate|]. cbn in Hg. injection Hg as ->. rewrite Hs.
    replace (existsb (bad_batch B) (g :: gs)) with true; [reflexivity|]. symmetry. apply existsb_exists. exists g'. split; [exact Hin|]. unfold bad_batch. destruct (shp g') as [|n s'] eqn:Es; [reflexivity|]. destruct (n =? B) eqn:En; [|reflexivity]. apply Nat.eqb_eq in En. subst n. now destruct (Hx s'). }
  assert (H3 : (exists B, batch B u) -> exists o s, r = Ok (o, s)) by (intros (B & Hb); destruct (dp_step C m seed B u k par Hsp Hb) as (o & E & _); eauto).
  split; [|split]; (split; [|assumption]).
  - intros E. destruct Hex as [H|[H|H]]; [exact H|apply H2 in H; congruence|apply H3 in H as (? & ? & H); congruence].
  - intros E. destruct Hex as [H|[H|H]]; [apply H1 in H; congruence|exact H|apply H3 in H as (? & ? & H); congruence].
  - intros (o & s & E). destruct Hex as [H|[H|H]]; [apply H1 in H; congruence|apply H2 in H; congruence|exact H].
Qed.

(** Concrete cases: keys as paths, every normal sample 1. *)
Definition ones_platform : Platform := free_platform false (fun _ _ _ _ => Fin 1) (fun _ _ _ _ => Fin 1).
Definition dp_ex (a b c d : R) : tree (gt XR) := Node KList [Leaf (mkT F32 [2; 1] [Fin a; Fin b]); Leaf (mkT F32 [2; 1] [Fin c; Fin d])].
Lemma ones_split : forall (k : @key (XROps ones_platform)) n, length (@ksplit (XROps ones_platform) k n) = n.
Proof. intros. cbn. now rewrite map_length, seq_length. Qed.
(*@ex C25_example *)
Lemma noise_example : exists outs, @trains (XROps ones_platform) (@add_noise (XROps ones_platform) (Fin 1) (Fin 1) 7) ex_p ex_H outs /\ oelt outs 1 (0, 1) = Some (Fin (2 + 1 / 2)).
Proof.
  destruct (@noise_formula ones_platform 1 1 7 ex_p ex_H ones_split) as (outs & Ht & _ & Hn); [repeat constructor|vm_compute; discriminate|]. exists outs. split; [exact Ht|].
  rewrite (Hn 1 (ex_g 2) (Some ex_p) 0 (mkT F32 [2] [Fin 1; Fin 2]) (FChild (FChild (FRoot 7) 3 0) 3 1) 1 2%R 1%R eq_refl eq_refl eq_refl eq_refl eq_refl). do 2 f_equal. rewrite Rpower_1 by (cbn; lra). cbn. lra.
Qed.
(*@ex C37_example *)
Lemma dp_example : exists o s, @update (XROps ones_platform) (@differentially_private_aggregate (XROps ones_platform) (Fin 1) (Fin 1) 7) (dp_ex 3 (3 / 10) 4 (4 / 10)) (@SNode (XROps ones_platform) NDP [@SKey (XROps ones_platform) (FRoot 7)]) None = Ok (o, s) /\
  rvals o = [(3 / 5 + 3 / 10 + 1) / 2; (4 / 5 + 4 / 10 + 1) / 2]%R.
Proof.
  assert (Hb : forall a b c d, batch 2 (dp_ex a b c d)) by (intros; split; [discriminate|repeat constructor; eexists; reflexivity]).
  assert (Hf : forall a b c d, finite_tree (dp_ex a b c d)) by (intros; repeat constructor; eexists; reflexivity).
  destruct (@dp_step (XROps ones_platform) (Fin 1) (Fin 1) 7 2 (dp_ex 3 (3 / 10) 4 (4 / 10)) (FRoot 7) None ones_split (Hb _ _ _ _)) as (o & E & _ & Ho). exists o. eexists. split; [exact E|].
  assert (V : vals o = map Fin (map2 (fun s z => (s + 1 * 1 * z) / INR 2)%R (dp_total 1 2 (dp_ex 3 (3 / 10) 4 (4 / 10))) (@dp_noise ones_platform (FRoot 7) (dp_ex 3 (3 / 10) 4 (4 / 10))))).
  { apply dp_vals; auto; try lra; [apply ones_split|intros; eexists; reflexivity]. }
  rewrite (vals_fin _ o V). unfold dp_total, dp_ex, example, row, contribution. cbn [leaves flat_map app map shp tl prodn dat Nat.mul skipn firstn seq concat xval fold_right Nat.add length vsum repeat].
  assert (N1 : norm2 [3; 4]%R = 5%R). { unfold norm2, sumsq. cbn [map]. rewrite !rsum_cons, rsum_nil. replace (3 * 3 + (4 * 4 + 0))%R with (5 * 5)%R by lra. apply sqrt_square. lra. }
  assert (N2 : norm2 [3 / 10; 4 / 10]%R = (1 / 2)%R). { unfold norm2, sumsq. cbn [map]. rewrite !rsum_cons, rsum_nil. replace (3 / 10 * (3 / 10) + (4 / 10 * (4 / 10) + 0))%R with (1 / 2 * (1 / 2))%R by lra. apply sqrt_square. lra. }
  rewrite N1, N2. rewrite Rmax_left, Rmax_right by lra. unfold dp_noise, vadd. cbn. repeat (apply f_equal2; [field|]). reflexivity.
Qed.
(*@ex C38_example *)
Lemma dp_run_example : exists outs o, @trains (XROps ones_platform) (@differentially_private_aggregate (XROps ones_platform) (Fin 1) (Fin 1) 7) ex_p [(dp_ex 1 2 3 4, None); (dp_ex 3 (3 / 10) 4 (4 / 10), None)] outs /\ nth_error outs 1 = Some o /\ tdef o = tdef (dp_ex 1 2 3 4) /\
  elt o (1, 0) = Some (Fin ((4 / 5 + 4 / 10 + 1) / 2)).
Proof.
  assert (Hb : forall a b c d, batch 2 (dp_ex a b c d)) by (intros; split; [discriminate|repeat constructor; eexists; reflexivity]).
  assert (Hf : forall a b c d, finite_tree (dp_ex a b c d)) by (intros; repeat constructor; eexists; reflexivity).
  destruct (@dp_formula ones_platform 1 1 7 ex_p [(dp_ex 1 2 3 4, None); (dp_ex 3 (3 / 10) 4 (4 / 10), None)] ltac:(lra) ones_split) as (outs & Ht & _ & Hn); [repeat constructor; exists 2; apply Hb|].
  destruct (Hn 1 _ None 2 eq_refl (Hb _ _ _ _)) as (o & Eo & Hd & Hj). exists outs, o. split; [exact Ht|]. split; [exact Eo|]. split; [exact Hd|].
  destruct (Hj 1 _ _ eq_refl eq_refl) as (lo & _ & _ & _ & Hi). rewrite (Hi 0 1%R (Hf _ _ _ _) ltac:(lia) ltac:(cbn; lia) eq_refl).
  unfold dp_ex, example, row. cbn [leaves flat_map app map shp tl prodn dat Nat.mul skipn firstn seq concat xval fold_right Nat.add length nth].
  assert (N1 : norm2 [3; 4]%R = 5%R). { unfold norm2, sumsq. cbn [map]. rewrite !rsum_cons, rsum_nil. replace (3 * 3 + (4 * 4 + 0))%R with (5 * 5)%R by lra. apply sqrt_square. lra. }
  assert (N2 : norm2 [3 / 10; 4 / 10]%R = (1 / 2)%R). { unfold norm2, sumsq. cbn [map]. rewrite !rsum_cons, rsum_nil. replace (3 / 10 * (3 / 10) + (4 / 10 * (4 / 10) + 0))%R with (1 / 2 * (1 / 2))%R by lra. apply sqrt_square. lra. }
  rewrite N1, N2. rewrite Rmax_left, Rmax_right by lra. cbn. do 2 f_equal. rewrite ?rsum_cons, ?rsum_nil. lra.
Qed.
