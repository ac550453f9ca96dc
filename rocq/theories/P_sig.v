(** Signatures of updates and states are invariant under every alias (C64). *)
From Verif Require Export P_alias2.
From Coq Require Import String List Psatz.
Import ListNotations.
Open Scope nat_scope.
(*@header
From Coq Require Import String List.
Import ListNotations.
Open Scope nat_scope.
*)

Section SM3.
  Context `{O : Ops}.
  Definition tok (s : list nat) (t : tensor) : Prop := dt t = defdt /\ shp t = s /\ twf t.
  Definition muok (s : list nat) (mu : tree tensor) : Prop := exists vs, mu = Node KList (map Leaf vs) /\ map aval vs = map (fun n => (defdt, [n])) s /\ Forall twf vs.
  Definition subok (s : list nat) (x : tensor) : Prop := dt x = defdt /\ sub s (shp x) /\ twf x.
  Lemma nth_mu (s : list nat) (vs : list tensor) i : map aval vs = map (fun n => (defdt, [n])) s -> i < length s -> exists v, nth_error vs i = Some v /\ dt v = defdt /\ shp v = [nth i s 0].
  Proof.
    intros E Hi. assert (Hl : length vs = length s) by (rewrite <- (map_length aval vs), E; apply map_length).
    destruct (nth_error vs i) as [v|] eqn:Ev; [|apply nth_error_None in Ev; lia]. exists v. split; [reflexivity|]. apply (f_equal (fun l => nth_error l i)) in E. rewrite !nth_error_map, Ev, (nth_error_nth' s 0 Hi) in E. cbn in E. unfold aval in E. injection E as E1 E2. auto.
  Qed.
  Lemma expand_sig (g : tensor) mu : muok (shp g) mu -> exists xs, sm3_expand g mu = Ok (Node KList (map Leaf xs)) /\ length xs = length (shp g) /\ Forall (subok (shp g)) xs.
  Proof.
    intros (vs & -> & Ea & Wv). set (s := shp g) in *. unfold sm3_expand. fold s.
    assert (HM : forall l, (forall i, In i l -> i < length s) -> exists xs, mapM (fun i => let* x := list_item (Node KList (map Leaf vs)) i in reshape (expanded_shape s i) x) l = Ok xs /\ length xs = length l /\ Forall (subok s) xs).
    { induction l as [|i l IH]; intros Hl; [exists []; repeat split; constructor|]. destruct IH as (xs & E & L & HF); [intros; apply Hl; now right|].
      destruct (nth_mu s vs i Ea) as (v & Ev & Dv & Sv); [apply Hl; now left|]. cbn [mapM].
      unfold list_item at 1. rewrite nth_error_map, Ev. cbn [option_map as_leaf rbind]. unfold reshape at 1. rewrite Sv, expanded_ex, prodn_ex by (apply Hl; now left). cbn [prodn fold_right]. rewrite Nat.mul_1_r, Nat.eqb_refl. cbn [rbind]. rewrite E. cbn [rbind].
      eexists. split; [reflexivity|]. split; [cbn; congruence|]. constructor; [|exact HF]. split; [exact Dv|]. split; [apply ex_sub|]. rewrite Forall_forall in Wv. pose proof (Wv v (nth_error_In _ _ Ev)) as W. unfold twf in *. cbn [dat shp]. rewrite W, Sv, prodn_ex by (apply Hl; now left). cbn [prodn fold_right]. lia. }
    destruct (HM (seq 0 (length s))) as (xs & E & L & HF); [intros i Hi; apply in_seq in Hi; lia|]. rewrite E. cbn [rbind]. exists xs. rewrite seq_length in L. auto.
  Qed.
  Lemma minimum_sig s xs : Forall (subok s) xs -> forall m, subok s m -> exists r, minimum_from m (map Leaf xs) = Ok r /\ subok s r.
  Proof.
    induction 1 as [|x xs (Dx & Sx & Wx) HF IH]; intros m (Dm & Sm & Wm); cbn [map minimum_from]; [exists m; repeat split; auto|]. cbn [as_leaf rbind].
    destruct (bin_sub (fun _ => fmin) m x s Sm Sx Wm Wx) as (z & Ez & Sz & Wz & Dz & _). rewrite Ez. cbn [rbind]. apply IH. split; [rewrite Dz, Dm, Dx; apply promote_same|auto].
  Qed.
  Lemma accum_sig (g : tensor) b2 xs : tok (shp g) g -> shp g <> [] -> length xs = length (shp g) -> Forall (subok (shp g)) xs -> exists acc, sm3_new_accum b2 g (Node KList (map Leaf xs)) = Ok acc /\ tok (shp g) acc.
  Proof.
    intros (Dg & _ & Wg) Hs L HF. set (s := shp g) in *. unfold sm3_new_accum. fold s. set (c0 := if feqb b2 fone then fone else py1m b2).
    assert (G : forall m, subok s m -> exists acc, bin fadd (sl fmul c0 (tsquare g)) (sl fmul b2 m) = Ok acc /\ tok s acc).
    { intros m (Dm & Sm & Wm). destruct (bin_sub fadd (sl fmul c0 (tsquare g)) (sl fmul b2 m) s (sub_refl s) Sm) as (z & Ez & _ & Wz & Dz & Hz & _).
      - unfold sl, tsquare, un. now apply emap_wf, emap_wf.
      - unfold sl. now apply emap_wf.
      - exists z. split; [exact Ez|]. split; [rewrite Dz; unfold sl, tsquare, un, emap; cbn [dt]; rewrite Dg, Dm; apply promote_same|]. split; [apply Hz; now left|exact Wz]. }
    destruct xs as [|x xs]; [destruct s; easy|]. inversion HF as [|? ? Hx HF']; subst. destruct (Nat.ltb_spec (length s) 2).
    - unfold list_item. cbn [map nth_error as_leaf rbind]. apply G, Hx.
    - cbn [map as_leaf rbind]. destruct (minimum_sig s xs HF' x Hx) as (m & -> & Hm). cbn [rbind]. apply G, Hm.
  Qed.
  Lemma mus_sig (acc : tensor) s : tok s acc -> s <> [] -> Forall (fun n => 0 < n) s -> exists mu, sm3_mus acc = Ok mu /\ muok s mu.
  Proof.
    intros (Da & Sa & W) Hs Hpos. unfold sm3_mus. rewrite Sa.
    assert (Hmu : forall i, i < length s -> exists v, sm3_new_mu acc i = Ok v /\ aval v = (defdt, [nth i s 0]) /\ twf v).
    { intros i Hi. unfold sm3_new_mu. rewrite Sa. destruct (Nat.ltb_spec (length s) 2) as [Hr|Hr].
      - exists acc. split; [reflexivity|]. split; [|exact W]. unfold aval. rewrite Da, Sa. destruct s as [|n [|n' s']]; [easy| |cbn in Hr; lia]. destruct i; [reflexivity|cbn in Hi; lia].
      - assert (E0 : existsb (fun j => negb (j =? i)%nat && (nth j s 0 =? 0)%nat) (seq 0 (length s)) = false).
        { apply not_true_iff_false. intros E. apply existsb_exists in E as (j & Hj & E). apply in_seq in Hj. apply andb_prop in E as [_ E].
          apply Nat.eqb_eq in E. rewrite Forall_forall in Hpos. assert (Hj' : (j < length s)%nat) by lia. specialize (Hpos (nth j s 0%nat) (nth_In s 0%nat Hj')). lia. }
        rewrite E0, red_rd. eexists. split; [reflexivity|]. split; [unfold aval; cbn [dt shp reduce tab]; rewrite Da; reflexivity|].
        unfold twf. cbn [dat shp prodn fold_right]. pose proof (reduce_wf (rd s i) (fun _ => max_list) acc) as Wr. unfold twf in Wr. etransitivity; [exact Wr|]. cbn [reduce tab shp]. rewrite Sa, reduced_rd, prodn_ex by exact Hi. lia. }
    assert (HM : forall l, (forall i, In i l -> i < length s) -> exists vs, mapM (sm3_new_mu acc) l = Ok vs /\ map aval vs = map (fun i => (defdt, [nth i s 0])) l /\ Forall twf vs).
    { induction l as [|i l IH]; intros Hl; [exists []; repeat split; constructor|]. destruct (Hmu i) as (v & Ev & Av & Wv); [apply Hl; now left|]. destruct IH as (vs & Evs & Avs & Wvs); [intros; apply Hl; now right|].
      exists (v :: vs). cbn [mapM]. rewrite Ev. cbn [rbind]. rewrite Evs. split; [reflexivity|]. split; [cbn; congruence|now constructor]. }
    destruct (HM (seq 0 (length s))) as (vs & Evs & Avs & Wvs); [intros i Hi; apply in_seq in Hi; lia|]. rewrite Evs. cbn [rbind]. eexists. split; [reflexivity|]. exists vs. split; [reflexivity|]. split; [|exact Wvs].
    rewrite Avs. clear. apply nth_error_ext. intros i. rewrite !nth_error_map. destruct (Nat.lt_ge_cases i (length s)) as [H|H].
    - rewrite (nth_error_nth' s 0 H), (nth_error_nth' (seq 0 (length s)) 0) by (rewrite seq_length; exact H). rewrite seq_nth by exact H. reflexivity.
    - rewrite (proj2 (nth_error_None s i) H), (proj2 (nth_error_None (seq 0 (length s)) i)) by (rewrite seq_length; exact H). reflexivity.
  Qed.
  Record s3rec := mkS3 { s3_m1 : tree tensor; s3_acc : tensor; s3_up : tensor; s3_nu : tensor; s3_mu : tree tensor }.
  Definition sm3_leaf (b1 b2 eps : F) (g : tensor) (mu : tree tensor) (nu : tensor) : result s3rec :=
    let* m1 := sm3_expand g mu in
    let* acc := sm3_new_accum b2 g m1 in
    let* up := bin fmul g (inv_sqrt_pos eps acc) in
    let* nu' := update_moment_leaf b1 1 up nu in
    let* mu' := sm3_mus acc in
    Ok (mkS3 m1 acc up nu' mu').
  Lemma bin_tok op s x y : tok s x -> tok s y -> exists z, bin op x y = Ok z /\ tok s z.
  Proof.
    intros (Dx & Sx & Wx) (Dy & Sy & Wy). destruct (bin_sub op x y s) as (z & Ez & _ & Wz & Dz & Hz & _); try (rewrite ?Sx, ?Sy; apply sub_refl); auto.
    exists z. split; [exact Ez|]. split; [rewrite Dz, Dx, Dy; apply promote_same|]. split; [apply Hz; now left|exact Wz].
  Qed.
  Lemma sm3_leaf_sig b1 b2 eps s g mu nu : tok s g -> s <> [] -> Forall (fun n => 0 < n) s -> muok s mu -> tok s nu -> exists r, sm3_leaf b1 b2 eps g mu nu = Ok r /\ muok s (s3_mu r) /\ tok s (s3_nu r).
  Proof.
    intros Hg Hs Hpos Hmu Hnu. pose proof Hg as (_ & Sg & _). subst s. destruct (expand_sig g mu Hmu) as (xs & E1 & L & Hx). destruct (accum_sig g b2 xs Hg Hs L Hx) as (acc & E2 & Ha).
    destruct (bin_tok fmul _ g (inv_sqrt_pos eps acc) Hg) as (up & E3 & Hup). { destruct Ha as (D & S1 & W). split; [exact D|]. split; [exact S1|]. unfold inv_sqrt_pos. now apply emap_wf. }
    destruct (bin_tok fadd (shp g) (sl fmul (py1m b1) (ipow 1 up)) (sl fmul b1 nu)) as (nu' & E4 & Hnu').
    { destruct Hup as (D & S1 & W). split; [exact D|]. split; [exact S1|]. unfold sl. now apply emap_wf. }
    { destruct Hnu as (D & S1 & W). split; [exact D|]. split; [exact S1|]. unfold sl. now apply emap_wf. }
    destruct (mus_sig acc (shp g) Ha Hs Hpos) as (mu' & E5 & Hmu'). exists (mkS3 (Node KList (map Leaf xs)) acc up nu' mu'). split; [|cbn [s3_mu s3_nu]; auto].
    unfold sm3_leaf. rewrite E1. cbn [rbind]. rewrite E2. cbn [rbind]. rewrite E3. cbn [rbind]. unfold update_moment_leaf. rewrite E4. cbn [rbind]. rewrite E5. reflexivity.
  Qed.
  Lemma sm3_update_sig b1 b2 eps (w : tree (tensor * (tree tensor * tensor))) (x : tree s3rec) par :
    tmapM (fun e => sm3_leaf b1 b2 eps (fst e) (fst (snd e)) (snd (snd e))) w = Ok x ->
    update (scale_by_sm3 b1 b2 eps) (tmap fst w) (SNode NSM3 [STree (tjoin (tmap (fun e => fst (snd e)) w)); STree (tmap (fun e => snd (snd e)) w)]) par =
    Ok (tmap s3_nu x, SNode NSM3 [STree (tjoin (tmap s3_mu x)); STree (tmap s3_nu x)]).
  Proof.
    intros H. apply tmapM_Ok in H as (v & <- & <- & HF). rewrite Forall_forall in HF. rewrite !tmap_tmap. cbn [update scale_by_sm3].
    assert (Hs : forall e, In e (leaves v) -> exists m1 acc up nu' mu', sm3_expand (fst (fst e)) (fst (snd (fst e))) = Ok m1 /\ sm3_new_accum b2 (fst (fst e)) m1 = Ok acc /\
       bin fmul (fst (fst e)) (inv_sqrt_pos eps acc) = Ok up /\ update_moment_leaf b1 1 up (snd (snd (fst e))) = Ok nu' /\ sm3_mus acc = Ok mu' /\ snd e = mkS3 m1 acc up nu' mu').
    { intros e He. specialize (HF e He). unfold sm3_leaf in HF. apply rbind_Ok in HF as (m1 & E1 & HF). apply rbind_Ok in HF as (acc & E2 & HF). apply rbind_Ok in HF as (up & E3 & HF).
      apply rbind_Ok in HF as (nu' & E4 & HF). apply rbind_Ok in HF as (mu' & E5 & HF). injection HF as HF. exists m1, acc, up, nu', mu'. rewrite <- HF. auto 10. }
    rewrite (tmm2s_join sm3_expand), (tmapM_ext _ (fun e => Ok (s3_m1 (snd e)))) by (intros e He; destruct (Hs e He) as (? & ? & ? & ? & ? & E1 & E2 & E3 & E4 & E5 & Ee); rewrite Ee; exact E1). rewrite tmapM_ok. cbn [rbind].
    rewrite (tmm2s_join (sm3_new_accum b2)), (tmapM_ext _ (fun e => Ok (s3_acc (snd e)))) by (intros e He; destruct (Hs e He) as (? & ? & ? & ? & ? & E1 & E2 & E3 & E4 & E5 & Ee); rewrite Ee; exact E2). rewrite tmapM_ok. cbn [rbind]. rewrite tmap_tmap.
    rewrite (tmm2_same (bin fmul)), (tmapM_ext _ (fun e => Ok (s3_up (snd e)))) by (intros e He; destruct (Hs e He) as (? & ? & ? & ? & ? & E1 & E2 & E3 & E4 & E5 & Ee); rewrite Ee; exact E3). rewrite tmapM_ok. cbn [rbind]. unfold update_moment.
    rewrite (tmm2_same (update_moment_leaf b1 1)), (tmapM_ext _ (fun e => Ok (s3_nu (snd e)))) by (intros e He; destruct (Hs e He) as (? & ? & ? & ? & ? & E1 & E2 & E3 & E4 & E5 & Ee); rewrite Ee; exact E4). rewrite tmapM_ok. cbn [rbind]. rewrite tmapM_tmap.
    rewrite (tmapM_ext _ (fun e => Ok (s3_mu (snd e)))) by (intros e He; destruct (Hs e He) as (? & ? & ? & ? & ? & E1 & E2 & E3 & E4 & E5 & Ee); rewrite Ee; exact E5). rewrite tmapM_ok. reflexivity.
  Qed.
  Lemma tjoin_tmap {A B C} (f : B -> C) (g : A -> tree B) (t : tree A) : tmap f (tjoin (tmap g t)) = tjoin (tmap (fun a => tmap f (g a)) t).
  Proof.
    induction t as [a|k ts IH] using tree_ind'; cbn; [reflexivity|]. f_equal. rewrite !map_map. apply map_ext_in. rewrite Forall_forall in IH. exact IH.
  Qed.
  Definition sm3_st (z : tree (tree tensor * tensor)) : state := SNode NSM3 [STree (tjoin (tmap fst z)); STree (tmap snd z)].
  Definition sm3_inv (p : tree tensor) (s : state) : Prop := exists z, s = sm3_st z /\ exists w, tmap fst w = p /\ tmap snd w = z /\ Forall (fun e => muok (shp (fst e)) (fst (snd e)) /\ tok (shp (fst e)) (snd (snd e))) (leaves w).
  Definition musig (s : list nat) : tree (fdt * list nat) := Node KList (map (fun n => Leaf (defdt, [n])) s).
  Lemma muok_sig s mu : muok s mu -> tmap aval mu = musig s.
  Proof. intros (vs & -> & E & _). cbn. unfold musig. f_equal. rewrite map_map. cbn. rewrite <- (map_map aval Leaf), E, map_map. reflexivity. Qed.
  Lemma sm3_inv_sig p s : sm3_inv p s -> ssig s = GNode NSM3 [GTree (tjoin (tmap (fun l => musig (shp l)) p)); GTree (tmap (fun l => (defdt, shp l)) p)].
  Proof.
    intros (z & -> & w & <- & <- & HF). rewrite Forall_forall in HF. unfold sm3_st. cbn [ssig map]. unfold avals. rewrite !tmap_tmap, tjoin_tmap. f_equal. f_equal; [f_equal; f_equal; apply tmap_ext; intros e He; apply muok_sig, HF, He|].
    f_equal. f_equal. apply tmap_ext. intros e He. destruct (HF e He) as (_ & D & S1 & _). unfold aval. now rewrite D, S1.
  Qed.
  Lemma stable_sm3 b1 b2 eps p : Forall (fun l => dt l = defdt /\ shp l <> [] /\ Forall (fun n => 0 < n) (shp l)) (leaves p) -> trwf p -> stable true (scale_by_sm3 b1 b2 eps) p.
  Proof.
    intros Hp Wp. exists (sm3_inv p). split.
    - eexists. split; [reflexivity|]. exists (tmap (fun l => (zeros_for_dim l, zeros_like l)) p). split; [unfold sm3_st; now rewrite !tmap_tmap|].
      exists (tmap (fun l => (l, (zeros_for_dim l, zeros_like l))) p). rewrite !tmap_tmap, tmap_id. split; [reflexivity|]. split; [reflexivity|]. rewrite leaves_tmap. apply Forall_map. rewrite Forall_forall in *. intros l Hl. cbn [fst snd]. split.
      + exists (map (fun n => full defdt [n] fzero) (shp l)). unfold zeros_for_dim. rewrite !map_map. split; [reflexivity|]. split; [reflexivity|]. apply Forall_map, Forall_forall. intros n _. apply full_wf.
      + destruct (Hp l Hl) as (D & _). split; [exact D|]. split; [reflexivity|]. apply full_wf.
    - intros s u par Hs (Hua & Huw) _. pose proof Hs as (z & -> & w & E1 & <- & HF).
      destruct (tree_pair_tdef u w) as (v & <- & Ev); [rewrite <- (tdef_tmap aval u), <- (tdef_tmap fst w), E1, <- (tdef_tmap aval p); unfold avals in Hua; congruence|]. subst w.
      set (f := fun e => sm3_leaf b1 b2 eps (fst e) (fst (snd e)) (snd (snd e))). set (v' := tmap (fun e => (fst e, snd (snd e))) v).
      assert (Hv : Forall (fun e => exists r, f (fst e, snd (snd e)) = Ok r /\ muok (shp (fst (snd e))) (s3_mu r) /\ tok (shp (fst (snd e))) (s3_nu r) /\ dt (fst (snd e)) = defdt) (leaves v)).
      { unfold trwf in Huw, Wp. rewrite leaves_tmap, Forall_map in Huw. rewrite leaves_tmap, Forall_map in HF. rewrite <- E1, !leaves_tmap, !Forall_map in Hp. rewrite Forall_forall in *. intros e He. destruct (HF e He) as (Hmu & Hnu). destruct (Hp e He) as (D & Hs1 & Hpos).
        assert (Ha : map aval (leaves (tmap fst v)) = map aval (leaves (tmap fst (tmap snd v)))) by (rewrite <- !leaves_tmap; f_equal; unfold avals in *; congruence).
        rewrite !leaves_tmap, !map_map in Ha. apply ext_in_map with (a := e) in Ha; [|exact He]. unfold aval in Ha. injection Ha as Ha1 Ha2.
        destruct (sm3_leaf_sig b1 b2 eps (shp (fst (snd e))) (fst e) (fst (snd (snd e))) (snd (snd (snd e)))) as (r & Er & Hr1 & Hr2); auto.
        { split; [congruence|]. split; [exact Ha2|]. apply Huw, He. } exists r. auto. }
      destruct (tree_choice (fun e r => f (fst e, snd (snd e)) = Ok r /\ muok (shp (fst (snd e))) (s3_mu r) /\ tok (shp (fst (snd e))) (s3_nu r) /\ dt (fst (snd e)) = defdt) v Hv) as (x & <- & Hx). rewrite Forall_forall in Hx.
      exists (tmap s3_nu (tmap snd x)), (SNode NSM3 [STree (tjoin (tmap s3_mu (tmap snd x))); STree (tmap s3_nu (tmap snd x))]).
      assert (HI : sm3_inv p (SNode NSM3 [STree (tjoin (tmap s3_mu (tmap snd x))); STree (tmap s3_nu (tmap snd x))])).
      { exists (tmap (fun e => (s3_mu (snd e), s3_nu (snd e))) x). split; [unfold sm3_st; now rewrite !tmap_tmap|]. exists (tmap (fun e => (fst (snd (fst e)), (s3_mu (snd e), s3_nu (snd e)))) x). rewrite !tmap_tmap. cbn [fst snd]. rewrite <- E1, !tmap_tmap. split; [reflexivity|]. split; [reflexivity|].
        rewrite leaves_tmap. apply Forall_map, Forall_forall. intros e He. cbn [fst snd]. split; apply Hx, He. }
      split.
      { pose proof (sm3_update_sig b1 b2 eps (tmap (fun e => (fst (fst e), snd (snd (fst e)))) x) (tmap snd x) par) as U. rewrite !tmap_tmap in U. cbn [fst snd] in U. unfold sm3_st. rewrite !tmap_tmap. cbn [fst snd]. apply U.
        rewrite tmapM_tmap. cbn [fst snd]. rewrite (tmapM_ext _ (fun e => Ok (snd e))); [apply tmapM_ok|]. intros e He. destruct (Hx e He) as (E & _). exact E. }
      split; [|split; [rewrite (sm3_inv_sig p _ HI), (sm3_inv_sig p _ Hs); reflexivity|exact HI]].
      split.
      + rewrite <- E1. unfold avals. rewrite !tmap_tmap. apply tmap_ext. intros e He. destruct (Hx e He) as (_ & _ & (D & S1 & _) & D'). unfold aval. congruence.
      + unfold trwf. rewrite !leaves_tmap, map_map. apply Forall_map, Forall_forall. intros e He. apply (Hx e He).
  Qed.
End SM3.

(** ** The aliases *)
(** From [p] the transformation initialises; after any history of calls with updates (and, if [np] is false, params) that have the structure,
    shapes and dtypes of [p] no call has raised, every returned update has the signature of [p], and the state has the signature of the initial state. *)
Definition keeps_signatures `{O : Ops} (np : bool) (T : GT) (p : tree tensor) : Prop :=
  forall H, hist_ok np p H -> exists s0 outs s1, init T p = Ok s0 /\ run T s0 H = Ok (outs, s1) /\ length outs = length H /\ Forall (like p) outs /\ ssig s1 = ssig s0.
(*@ C64_aliases : sgd, adam, adabelief, adagrad, radam, rmsprop and yogi (for every learning rate or schedule and every setting, params or no params), on every well-formed parameter tree: no call ever raises, every update has exactly the signature of the parameters, and the state keeps its initial signature. *)
Lemma alias_signatures : forall `{O : Ops} (L : lrate) (b1 b2 eps er th : F) (centered nest : bool) (m : option F) (p : tree tensor) (T : GT),
  In (Ok T) [sgd L m nest; adam L b1 b2 eps er; adabelief L b1 b2 eps; adagrad L b1 eps; radam L b1 b2 eps er th; rmsprop L b1 eps er centered m nest; yogi L b1 b2 eps] -> trwf p ->
  keeps_signatures true T p.
Proof.
  intros O L b1 b2 eps er th centered nest m p T HT Wp H. apply stable_runs. revert HT.
  assert (Hl : stable true (scale_by_learning_rate L) p) by now apply stable_lr.
  assert (Hm : stable true (opt_trace m nest) p) by (destruct m; cbn [opt_trace]; eapply stable_refines; try exact Wp; [apply refines_trace|apply refines_identity]).
  intros HT. cbn [In] in HT. unfold rmsprop, radam in HT.
  destruct centered; repeat (destruct HT as [HT|HT]; [try (destruct (feqb (py1m b2) fzero); [discriminate HT|]); injection HT as <-; apply stable_chain; repeat (apply Forall_cons; [|]); try apply Forall_nil; try assumption;
    eapply stable_refines; try exact Wp; solve [apply refines_adam|apply refines_belief|apply refines_rss|apply refines_radam|apply refines_rms|apply refines_stddev|apply refines_yogi]|]); destruct HT.
Qed.
(*@ C64_param_aliases : adamw, lamb and fromage, given params at every call: the same. *)
Lemma param_alias_signatures : forall `{O : Ops} (L : lrate) (b1 b2 eps er wd lr mn : F) (p : tree tensor) (T : GT),
  In (Ok T) [adamw L b1 b2 eps er wd; lamb L b1 b2 eps er wd; fromage lr mn] -> trwf p -> keeps_signatures false T p.
Proof.
  intros O L b1 b2 eps er wd lr mn p T HT Wp H. apply stable_runs.
  cbn [In] in HT. destruct HT as [HT|[HT|[HT|[]]]]; injection HT as <-; apply stable_chain; repeat apply Forall_cons; try apply Forall_nil;
    first [now apply stable_trust | now apply stable_lr | now apply stable_adam | now apply stable_wd | apply stable_weaken; eapply stable_refines; [apply refines_scale|exact Wp]].
Qed.
(*@ C64_noisy_sgd : noisy_sgd, for every splittable random generator: the same. *)
Lemma noisy_signatures : forall `{O : Ops} (L : lrate) (eta gamma : F) (seed : Z) (p : tree tensor) (T : GT),
  noisy_sgd L eta gamma seed = Ok T -> (forall k n, length (ksplit k n) = n) -> trwf p -> keeps_signatures true T p.
Proof.
  intros O L eta gamma seed p T HT Hk Wp H. apply stable_runs. injection HT as <-. apply stable_chain. repeat (apply Forall_cons; [|]); try apply Forall_nil; [now apply stable_lr|now apply stable_noise].
Qed.
(*@ C64_sm3 : sm3, on trees whose leaves have the default dtype, rank at least one and no empty axis: the same. *)
Lemma sm3_signatures : forall `{O : Ops} (lr b1 : F) (p : tree tensor) (T : GT), sm3 lr b1 = Ok T ->
  Forall (fun l => dt l = defdt /\ shp l <> [] /\ Forall (fun n => 0 < n) (shp l)) (leaves p) -> trwf p -> keeps_signatures true T p.
Proof.
  intros O lr b1 p T HT Hp Wp H. apply stable_runs. injection HT as <-. apply stable_chain. repeat (apply Forall_cons; [|]); try apply Forall_nil; [now apply stable_sm3|]. eapply stable_refines; [apply refines_scale|exact Wp].
Qed.
Lemma dp_state `{O : Ops} clip mult seed H : forall k outs s, run (differentially_private_aggregate clip mult seed) (SNode NDP [SKey k]) H = Ok (outs, s) -> exists k', s = SNode NDP [SKey k'].
Proof.
  induction H as [|[u par] H IH]; intros k outs s E; [injection E as <- <-; eauto|]. cbn [run] in E. apply rbind_Ok in E as ([u1 s1] & E1 & E). apply rbind_Ok in E as ([us s2] & E2 & E). injection E as <- <-.
  assert (Hs : exists k', s1 = SNode NDP [SKey k']); [|destruct Hs as (k' & ->); eauto].
  cbn [update differentially_private_aggregate] in E1.
  repeat match type of E1 with
  | rbind _ _ = Ok _ => let x := fresh "x" in let Ex := fresh "E" in apply rbind_Ok in E1 as (x & Ex & E1)
  | (match ?c with _ => _ end) = Ok _ => destruct c; try discriminate E1
  end. all: try (injection E1 as _ <-; eauto).
Qed.
(*@ C64_dpsgd : dpsgd, fed per-example gradients (one leading batch axis, of any size, on every leaf) for parameters of one dtype: no call raises, every update has the signature of the parameters (without the batch axis), and the state keeps its initial signature. *)
Lemma dpsgd_signatures : forall `{O : Ops} (L : lrate) (clip mult : F) (seed : Z) (m : option F) (nest : bool) (p : tree tensor) (T : GT) (H : list (tree tensor * option (tree tensor))),
  dpsgd L clip mult seed m nest = Ok T -> (forall k n, length (ksplit k n) = n) -> trwf p -> Forall (fun h => per_example p (fst h)) H ->
  exists s0 outs s1, init T p = Ok s0 /\ run T s0 H = Ok (outs, s1) /\ length outs = length H /\ Forall (like p) outs /\ ssig s1 = ssig s0.
Proof.
  intros O L clip mult seed m nest p T H HT Hk Wp HH. injection HT as <-. destruct (dp_like clip mult seed p H Hk HH) as (mid & (s0 & s1 & Ei & Er) & Hlen & Hlike).
  assert (St : stable true (chain_gt [opt_trace m nest; scale_by_learning_rate L]) p).
  { apply stable_chain. repeat (apply Forall_cons; [|]); try apply Forall_nil; [|now apply stable_lr]. destruct m; cbn [opt_trace]; eapply stable_refines; try exact Wp; [apply refines_trace|apply refines_identity]. }
  destruct (stable_runs true _ p St (feed mid H)) as (t0 & outs & t1 & Ei' & Er' & Hl' & Ho & Hsg).
  { apply Forall_forall. intros h Hh. split; [|discriminate]. rewrite Forall_forall in Hlike. apply Hlike. assert (Hf : In (fst h) (map fst (feed mid H))) by now apply in_map. rewrite map_fst_feed in Hf by exact Hlen. exact Hf. }
  cbn [init chain_gt] in Ei'. apply rbind_Ok in Ei' as (ss & Ess & E). injection E as <-. pose proof (chain_init_length _ _ _ Ess) as Hss. cbn [init differentially_private_aggregate] in Ei. injection Ei as <-.
  assert (exists ss', t1 = SNode NList ss') as (ss' & ->).
  { assert (G : forall H s outs t, run (chain_gt [opt_trace m nest; scale_by_learning_rate L]) (SNode NList s) H = Ok (outs, t) -> exists ss', t = SNode NList ss').
    { clear. induction H as [|[u par] H IH]; intros s outs t E; [injection E as <- <-; eauto|]. cbn [run] in E. apply rbind_Ok in E as ([u1 s1] & E1 & E). apply rbind_Ok in E as ([us s2] & E2 & E). injection E as <- <-. cbn [update chain_gt] in E1. destruct (_ =? _) in E1; [|discriminate]. apply rbind_Ok in E1 as ([u2 s2'] & _ & E1). injection E1 as <- <-. eauto. }
    exact (G _ _ _ _ Er'). }
  destruct (dp_state clip mult seed H _ _ _ Er) as (k' & ->).
  exists (SNode NList (SNode NDP [SKey (prng_key seed)] :: ss)), outs, (SNode NList (SNode NDP [SKey k'] :: ss')). split.
  { revert Ess. generalize [opt_trace m nest; scale_by_learning_rate L]. intros l Ess. cbn [init chain_gt chain_init differentially_private_aggregate rbind]. rewrite Ess. reflexivity. }
  split.
  - apply (chain_run (differentially_private_aggregate clip mult seed) [opt_trace m nest; scale_by_learning_rate L] _ ss H outs); [exact Hss|]. exists mid, (SNode NDP [SKey k']), ss'. split; [exact Er|]. split; [exact Er'|]. split; [reflexivity|].
    cbn [ssig] in Hsg. injection Hsg as Hsg. apply (f_equal (@length _)) in Hsg. rewrite !map_length in Hsg. congruence.
  - split; [rewrite Hl'; unfold feed; rewrite combine_length, map_length, Hlen; apply Nat.min_id|]. split; [exact Ho|]. cbn [ssig map] in *. injection Hsg as Hsg. now rewrite Hsg.
Qed.
(*@ex C64_example *)
Lemma signatures_example : exists T s0 outs s1, @sm3 (XROps ones_platform) (Fin (1 / 2)) (Fin (9 / 10)) = Ok T /\ @init (XROps ones_platform) T ex_p = Ok s0 /\ @run (XROps ones_platform) T s0 ex_H = Ok (outs, s1) /\
  length outs = 3 /\ Forall (@like (XROps ones_platform) ex_p) outs /\ ssig s1 = ssig s0 /\ ssig s0 = GNode NList [GNode NSM3 [GTree (Node (KDict ["b"%string; "w"%string]) [Node KList [Leaf (F32, [2])]; Node KList [Leaf (F32, [2]); Leaf (F32, [2])]]); GTree (avals ex_p)]; GNode NEmpty []].
Proof.
  eexists. destruct (@sm3_signatures (XROps ones_platform) (Fin (1 / 2)) (Fin (9 / 10)) ex_p _ eq_refl) with (H := ex_H) as (s0 & outs & s1 & Ei & Er & Hl & Ho & Hs); [| |apply ex_H_ok|].
  - repeat constructor; cbn; discriminate.
  - exact ex_p_wf.
  - exists s0, outs, s1. split; [reflexivity|]. split; [exact Ei|]. split; [exact Er|]. split; [exact Hl|]. split; [exact Ho|]. split; [exact Hs|].
    cbn in Ei. injection Ei as <-. reflexivity.
Qed.
