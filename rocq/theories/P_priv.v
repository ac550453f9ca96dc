(** differentially_private_aggregate in any arithmetic, and lookahead on params that are not a LookaheadParams pair. *)
From Verif Require Export P_noise P_look.
From Coq Require Import Psatz Bool.
(*@header
*)
(** A number of dtype d: the norm of example b of a list of leaves (all of dtype d): square root of the sum, left to right from 0, of the leaves' sums of squares. *)
Definition example_norm `{O : Ops} (d : fdt) (gs : list tensor) (b : nat) : F :=
  fsqrt d (fold_left (fadd d) (map (fun g => let n := prodn (tl (shp g)) in fsum d (map (fun x => fmul d x x) (firstn n (skipn (b * n) (dat g))))) gs) (fcast d fzero)).
Lemma fold_scalars `{O : Ops} d l a : Forall (fun x => fst x = d) l -> fold_left add_scalars l (d, a) = (d, fold_left (fadd d) (map snd l) a).
Proof.
  revert a. induction l as [|[e x] l IH]; intros a H; [reflexivity|]. inversion H; subst. cbn [fst] in *. cbn [fold_left map snd].
  rewrite <- IH by assumption. f_equal. unfold add_scalars. cbn [fst snd]. now rewrite promote_same, !conv_same.
Qed.
Lemma pysum_one `{O : Ops} d l : l <> [] -> Forall (fun x => fst x = d) l -> pysum l = (d, fold_left (fadd d) (map snd l) (fcast d fzero)).
Proof. destruct l as [|[e x] l]; intros Hn H; [easy|]. inversion H; subst. cbn [fst] in *. cbn [pysum]. rewrite fold_scalars by assumption. reflexivity. Qed.
Lemma dp_norm_one `{O : Ops} d gs b : gs <> [] -> Forall (fun g => dt g = d) gs -> dp_norm gs b = (d, example_norm d gs b).
Proof.
  intros Hn H. unfold dp_norm, global_norm. cbn [leaves].
  assert (E : flat_map (@leaves tensor) (map (fun g => Leaf (dp_row g b)) gs) = map (fun g => dp_row g b) gs).
  { clear. induction gs as [|g gs IH]; [reflexivity|]. cbn. now rewrite IH. }
  rewrite E, map_map. rewrite (pysum_one d).
  - unfold example_norm. f_equal. f_equal. f_equal. rewrite map_map. apply map_ext_in. intros g Hg. rewrite Forall_forall in H. cbn [snd]. unfold tsum, tsquare, un, emap, dp_row. cbn [dt dat]. now rewrite (H g Hg).
  - now destruct gs.
  - apply Forall_map. rewrite Forall_forall in *. intros g Hg. cbn [fst dt dp_row]. auto.
Qed.
(*@ C38_any_arithmetic : In any arithmetic, for every history of batches whose leaves share a dtype d: the aggregate never raises, drops the batch axis, keeps structure and dtype, and element i of leaf j at call n is ( sum over the examples b of x_b / max(norm_b / clip, 1)  +  (clip * noise_multiplier) * z ) / B, z the sample of dtype d drawn with that (call, leaf)'s own key; norm_b is the square root of the sum over the leaves of the sums of the squares of example b; every operation is made in d (the product of the two constants in float64), with the constants rounded to d. *)
Lemma dp_ops : forall `{O : Ops} (C m : F) (seed : Z) (p0 : tree tensor) (H : list (tree tensor * option (tree tensor))) (d : fdt),
  (forall k n, length (ksplit k n) = n) -> Forall (fun h => (exists B, batch B (fst h)) /\ Forall (fun g => dt g = d) (leaves (fst h))) H ->
  exists outs, trains (differentially_private_aggregate C m seed) p0 H outs /\ length outs = length H /\
    forall n u par B, nth_error H n = Some (u, par) -> batch B u -> exists o, nth_error outs n = Some o /\ tdef o = tdef u /\
      forall j l k, nth_error (leaves u) j = Some l -> drawn (prng_key seed) (map (fun h => length (leaves (fst h))) H) n j = Some k ->
        exists lo, nth_error (leaves o) j = Some lo /\ shp lo = tl (shp l) /\ dt lo = d /\
          forall i, i < prodn (tl (shp l)) ->
            let x b := nth (b * prodn (tl (shp l)) + i) (dat l) fzero in
            let clipped b := fdiv d (x b) (fmax (fdiv d (example_norm d (leaves u) b) (fcast d C)) (fcast d fone)) in
            let noise := fmul d (fcast d (fmul F64 C m)) (knormal k d (tl (shp l)) i) in
            nth_error (dat lo) i = Some (fdiv d (fadd d (fsum d (map clipped (seq 0 B))) noise) (fcast d (fofZ (Z.of_nat B)))).
Proof.
  intros O C m seed p0 H d Hl HH.
  destruct (dp_run C m seed p0 H Hl) as (outs & Ht & Hlo & Hn). { eapply Forall_impl; [|exact HH]. intros h X. apply X. }
  exists outs. split; [exact Ht|]. split; [exact Hlo|]. intros n u par B E Hb. destruct (Hn n u par B E Hb) as (o & Eo & Hd & Hj). exists o. split; [exact Eo|]. split; [exact Hd|].
  intros j l k El Ek. exists (dp_leaf C m B (leaves u) l k). split; [exact (Hj j l k El Ek)|]. split; [reflexivity|].
  rewrite Forall_forall in HH. destruct (HH _ (nth_error_In _ _ E)) as (_ & Hdt). cbn [fst] in Hdt.
  assert (Hne : leaves u <> []) by apply Hb.
  assert (Dl : dt l = d) by (rewrite Forall_forall in Hdt; apply Hdt, (nth_error_In _ _ El)).
  assert (ED : dt (dp_clipped C (leaves u) B l) = d) by (cbn [dt dp_clipped]; rewrite (dp_norm_one d) by assumption; cbn [fst]; rewrite Dl; apply promote_same).
  split; [exact ED|]. intros i Hi. cbn zeta. cbn [dp_leaf dat]. rewrite ED. cbn [shp dp_clipped dat].
  erewrite @P_noise.nth_error_map2; [|rewrite nth_error_map, (nth_error_nth' _ 0) by (rewrite seq_length; exact Hi); rewrite seq_nth by exact Hi; reflexivity|rewrite (nth_error_nth' _ 0) by (rewrite seq_length; exact Hi); rewrite seq_nth by exact Hi; reflexivity].
  cbn [Nat.add]. rewrite (dp_norm_one d) by assumption. cbn [fst]. rewrite Dl, promote_same.
  match goal with |- Some (fdiv _ (fadd _ (fsum _ ?A) _) _) = Some (fdiv _ (fadd _ (fsum _ ?B) _) _) => replace A with B; [reflexivity|] end. apply map_ext. intros b.
  unfold dp_divisor. rewrite (dp_norm_one d) by assumption. now rewrite !conv_same.
Qed.
(** Params that are not a namedtuple: an array, a dict, a list, a tuple, None. *)
Definition plain_params {A} (p : tree A) : Prop := match p with Node (KNT _ _) _ => False | _ => True end.
(*@ C36_plain_params : for every fast optimiser, period, step size and reset flag, and params that are no namedtuple (an array, a dict, a list, ...): lookahead's init accepts them as the fast parameters - it returns what it returns for the pair of those params and any slow params - but every update given them raises, whatever the updates and the state. *)
Lemma look_plain : forall `{O : Ops} (opt T : GT) (k : Z) (a : F) (reset : bool), lookahead opt k a reset = Ok T ->
  forall p, plain_params p -> (forall slow, init T p = init T (LookaheadParams p slow)) /\ forall u s, exists e, update T u s (Some p) = Err e.
Proof.
  intros O opt T k a reset HT p Hp. unfold lookahead in HT. destruct (k <? 1)%Z; [discriminate|]. injection HT as <-.
  assert (G : forall nm, getattr p nm = Err EAttr) by (intros nm; destruct p as [x|[]]; cbn in *; [reflexivity|..]; try reflexivity; contradiction).
  split.
  - intros slow. cbn [init]. unfold LookaheadParams. rewrite G. reflexivity.
  - intros u s. cbn [update]. destruct s as [w z|b|kk|d x|t|t|nm l]; eauto.
    destruct nm; eauto. destruct l as [|si [|c [|? ?]]]; eauto; destruct c; eauto.
    destruct (update opt u si (Some p)) as [[u' si']|e]; cbn [rbind]; [|eauto]. unfold lookahead_update. rewrite G. cbn [rbind]. eauto.
Qed.
(*@ex C36_plain_example *)
Lemma look_plain_example : forall `{O : Ops}, let p := Node KList [Leaf (mkT F32 [] [fone])] in
  plain_params p /\ exists T, lookahead (scale fone) 3 fone true = Ok T /\ exists s, init T p = Ok s.
Proof. intros O p. split; [exact Logic.I|]. eexists. split; [reflexivity|]. eexists. reflexivity. Qed.
