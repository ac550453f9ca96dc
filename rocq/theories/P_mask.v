(** masked. *)
From Verif Require Export P_multi P_sm3.
From Coq Require Import String List Psatz.
Import ListNotations.
Open Scope list_scope.
Open Scope nat_scope.
(*@header
From Coq Require Import String List.
Import ListNotations.
Open Scope list_scope.
Open Scope nat_scope.
*)

(** ** Specifications *)
(** The mask [m] is a prefix of the tree [t], and [z] pairs every leaf of the mask with the subtree of
    [t] at its place. *)
Definition split_by {A} (m : tree bool) (t : tree A) (z : tree (bool * tree A)) : Prop := tmap fst z = m /\ tjoin (tmap snd z) = t.
(** The subtrees of [t] with mask True, left to right. *)
Definition picked {A} (z : tree (bool * tree A)) : list (tree A) := map snd (filter fst (leaves z)).
Definition picks {A} (m : tree bool) (t : tree A) (l : list (tree A)) : Prop := exists z, split_by m t z /\ picked z = l.
(** [r] is [u] with its subtrees with mask True replaced by [new]. *)
Definition weaves {A} (m : tree bool) (u : tree A) (new : list (tree A)) (r : tree A) : Prop :=
  exists z z', split_by m u z /\ split_by m r z' /\ picked z' = new /\
    Forall2 (fun a b => fst a = fst b /\ (fst a = false -> snd b = snd a)) (leaves z) (leaves z').

Section Facts.
  Context {A : Type}.
  Lemma selected_picked (z : tree (bool * tree A)) : selected z = picked z.
  Proof. unfold selected, picked. induction (leaves z) as [|[[] x] l IH]; cbn; [reflexivity| |]; now rewrite IH. Qed.
  Lemma split_tzip (m : tree bool) (t : tree A) z : tzip m t = Ok z <-> split_by m t z.
  Proof.
    split.
    - revert t z. induction m as [b|k ms IH] using tree_ind'; intros t z E; cbn in E; [injection E as <-; now split|].
      destruct t as [|k' ts]; [discriminate|]. destruct (kind_eqb k k') eqn:Ek; [|discriminate]. apply kind_eqb_eq in Ek. subst k'.
      match type of E with rmap _ ?X = _ => destruct X as [zs|] eqn:Ez end; [|discriminate]. injection E as <-. unfold split_by. cbn [tmap tjoin].
      enough (map (tmap fst) zs = ms /\ map tjoin (map (tmap snd) zs) = ts) as (-> & ->) by auto.
      revert ts zs Ez. induction ms as [|m ms IHm]; intros [|t ts] zs Ez; try discriminate; [injection Ez as <-; auto|].
      inversion IH as [|? ? Hm Hms]; subst. apply rbind_Ok in Ez as (a & Ea & Ez). apply rbind_Ok in Ez as (q & Eq & Ez). injection Ez as <-.
      destruct (Hm _ _ Ea) as (E1 & E2). destruct (IHm Hms _ _ Eq) as (E3 & E4). cbn [map]. now rewrite E1, E2, E3, E4.
    - intros (<- & <-). pose proof (tzip_join (fun e : bool * tree A => fst e) (fun e => snd e) z) as H. cbn in H. etransitivity; [exact H|]. f_equal. rewrite <- (tmap_id z) at 2. apply tmap_ext. intros [? ?] _. reflexivity.
  Qed.
  Lemma tzip_err (m : tree bool) (t : tree A) e : tzip m t = Err e -> e = EValue.
  Proof.
    revert t. induction m as [b|k ms IH] using tree_ind'; intros t E; cbn in E; [discriminate|].
    destruct t as [|k' ts]; [now injection E as <-|]. destruct (kind_eqb k k'); [|now injection E as <-].
    match type of E with rmap _ ?X = _ => destruct X as [zs|e'] eqn:Ez end; [discriminate|]. injection E as ->.
    revert ts Ez. induction ms as [|m ms IHm]; intros [|t ts] Ez; try discriminate; try (now injection Ez as <-).
    inversion IH as [|? ? Hm Hms]; subst. destruct (tzip m t) as [a|e0] eqn:Ea; cbn [rbind] in Ez; [|injection Ez as ->; eauto].
    match type of Ez with rbind ?X _ = _ => destruct X as [q|e1] eqn:Eq end; cbn [rbind] in Ez; [discriminate|]. injection Ez as ->. eapply IHm; eauto.
  Qed.
  Lemma tunflatten_tmap {B C} (z : tree B) (l : list C) : length l = length (leaves z) -> exists t, tunflatten z l = Ok t /\ tdef t = tdef z /\ leaves t = l.
  Proof.
    assert (Hg : forall (z : tree B) (l r : list C), length l = length (leaves z) -> exists t, tfill z (l ++ r) = Some (t, r) /\ tdef t = tdef z /\ leaves t = l).
    { clear z l. induction z as [b|k zs IH] using tree_ind'; intros l r Hl; cbn in Hl.
      - destruct l as [|c [|? ?]]; try discriminate. exists (Leaf c). auto.
      - enough (exists ts, (fix go (ts : list (tree B)) (l : list C) : option (list (tree C) * list C) := match ts with [] => Some ([], l) | t :: ts' => match tfill t l with Some (x, l') => match go ts' l' with Some (xs, l'') => Some (x :: xs, l'') | None => None end | None => None end end) zs (l ++ r) = Some (ts, r) /\ map tdef ts = map tdef zs /\ flat_map leaves ts = l) as (ts & E1 & E2 & E3).
        { exists (Node k ts). cbn [tfill]. rewrite E1. split; [reflexivity|]. split; [unfold tdef; cbn [tmap]; f_equal; exact E2|exact E3]. }
        revert l Hl. induction zs as [|z zs IHz]; intros l Hl; cbn in Hl.
        + destruct l; [|discriminate]. exists []. auto.
        + inversion IH as [|? ? Hz Hzs]; subst. rewrite app_length in Hl.
          destruct (Hz (firstn (length (leaves z)) l) (skipn (length (leaves z)) l ++ r)) as (t & E1 & E2 & E3); [rewrite firstn_length; lia|].
          destruct (IHz Hzs (skipn (length (leaves z)) l)) as (ts & F1 & F2 & F3); [rewrite skipn_length; lia|].
          exists (t :: ts). rewrite app_assoc, firstn_skipn in E1. cbn. rewrite E1, F1. split; [reflexivity|]. rewrite E2, F2, E3, F3. split; [reflexivity|]. apply firstn_skipn. }
    intros Hl. destruct (Hg z l [] Hl) as (t & E & E2 & E3). rewrite app_nil_r in E. unfold tunflatten. rewrite E. eauto.
  Qed.
  (** What the loop over the flattened mask computes. *)
  Lemma replace_spec (l : list (bool * tree A)) (it : list (tree A)) : 
    match replace_sel l it with
    | Ok r => exists l' rest, map snd l' = r /\ it = map snd (filter fst l') ++ rest /\ map fst l' = map fst l /\ Forall2 (fun a b => fst a = fst b /\ (fst a = false -> snd b = snd a)) l l'
    | Err e => e = EStop /\ length it < length (filter fst l)
    end.
  Proof.
    revert it. induction l as [|[[] x] l IH]; intros it; cbn [replace_sel filter fst].
    - exists [], it. auto.
    - destruct it as [|y it]; [cbn; split; [reflexivity|lia]|]. specialize (IH it). destruct (replace_sel l it) as [q|e]; cbn [rbind].
      + destruct IH as (l' & rest & <- & -> & E & HF). exists ((true, y) :: l'), rest. cbn. rewrite E. repeat split. constructor; [|exact HF]. split; [reflexivity|discriminate].
      + destruct IH as (-> & Hl). cbn. split; [reflexivity|lia].
    - specialize (IH it). destruct (replace_sel l it) as [q|e]; cbn [rbind]; [|exact IH].
      destruct IH as (l' & rest & <- & -> & E & HF). exists ((false, x) :: l'), rest. cbn. rewrite E. repeat split. constructor; [|exact HF]. auto.
  Qed.
  Lemma weave_spec (m : tree bool) (u : tree A) z (it : list (tree A)) l t : split_by m u z -> replace_sel (leaves z) it = Ok l -> tunflatten m l = Ok t -> exists new rest, it = new ++ rest /\ weaves m u new (tjoin t).
  Proof.
    intros Hs El Et. pose proof (replace_spec (leaves z) it) as H. rewrite El in H. destruct H as (l' & rest & El' & Eit & Ef & HF).
    destruct (tunflatten_tmap z l') as (z' & _ & Ed & Elv); [apply (f_equal (@length _)) in Ef; now rewrite !map_length in Ef|].
    destruct Hs as (Em & Eu).
    assert (Ez : tmap fst z' = m).
    { rewrite <- Em. apply tree_ext; [now rewrite !tdef_tmap|]. rewrite !leaves_tmap. now rewrite Elv. }
    assert (Et' : t = tmap snd z').
    { pose proof (tunflatten_leaves m (tmap snd z')) as H. rewrite leaves_tmap, Elv, El', Et in H. assert (Hd : tdef (tmap snd z') = tdef m) by (rewrite <- Ez, !tdef_tmap; reflexivity). specialize (H Hd). congruence. }
    exists (picked z'), rest. split; [unfold picked; now rewrite Elv|]. exists z, z'. repeat split; auto; [now rewrite Et'|]. now rewrite Elv.
  Qed.
  Lemma weave_total (m : tree bool) (u : tree A) z (it : list (tree A)) : split_by m u z -> length (picked z) <= length it -> exists l t, replace_sel (leaves z) it = Ok l /\ tunflatten m l = Ok t.
  Proof.
    intros Hs Hl. pose proof (replace_spec (leaves z) it) as H. destruct (replace_sel (leaves z) it) as [l|e].
    - destruct H as (l' & rest & El' & Eit & Ef & HF). exists l. destruct (tunflatten_tmap m l) as (t & Et & _); [|eauto].
      destruct Hs as (Em & _). rewrite <- Em, leaves_tmap, map_length, <- El', map_length. apply (f_equal (@length _)) in Ef. now rewrite !map_length in Ef.
    - destruct H as (_ & H). unfold picked in Hl. rewrite map_length in Hl. lia.
  Qed.
End Facts.

Section Run.
  Context `{O : Ops}.
  Notation updates := (tree tensor).
  Notation params := (option (tree tensor)).
  (** What the inner transformation receives for one call. *)
  Definition inner_call (m : tree bool) (h h' : updates * params) : Prop :=
    (exists l, picks m (fst h) l /\ fst h' = Node KList l) /\
    match truthy (snd h) with
    | Ok true => exists q l, snd h = Some q /\ picks m q l /\ snd h' = Some (Node KList l)
    | Ok false => snd h' = None
    | Err _ => False
    end.
  Definition woven (m : tree bool) (h : updates * params) (o r : updates) : Prop :=
    exists kind new rest, o = Node kind (new ++ rest) /\ weaves m (fst h) new r.
  Fixpoint woven_all (m : tree bool) (H : list (updates * params)) (os outs : list updates) : Prop :=
    match H, os, outs with
    | [], [], [] => True
    | h :: H', o :: os', r :: outs' => woven m h o r /\ woven_all m H' os' outs'
    | _, _, _ => False
    end.
  Lemma masked_step inner mask u s p r s' : update (masked inner mask) u s p = Ok (r, s') ->
    exists si h' o si', s = SNode NMasked [si] /\ inner_call (mask u) (u, p) h' /\ update inner (fst h') si (snd h') = Ok (o, si') /\ s' = SNode NMasked [si'] /\ woven (mask u) (u, p) o r.
  Proof.
    cbn [masked update]. intros E. apply rbind_Ok in E as (z & Ez & E). apply rbind_Ok in E as (b & Eb & E). apply rbind_Ok in E as (mp & Emp & E).
    destruct s as [| | | | | |[] [|si [|? ?]]]; try discriminate. apply rbind_Ok in E as ([nu si'] & Eu & E). apply rbind_Ok in E as (it & Eit & E). apply rbind_Ok in E as (l & El & E). apply rbind_Ok in E as (t & Et & E). injection E as <- <-.
    exists si, (Node KList (selected z), mp), nu, si'. apply split_tzip in Ez. split; [reflexivity|]. split; [|split; [exact Eu|split; [reflexivity|]]].
    - split; [exists (picked z); split; [now exists z|]; cbn; now rewrite selected_picked|]. cbn [snd]. rewrite Eb. destruct b; [|destruct p; injection Emp as <-; reflexivity].
      destruct p as [q|]; [|discriminate]. apply rbind_Ok in Emp as (y & Ey & Emp). injection Emp as <-. apply split_tzip in Ey. exists q, (picked y). split; [reflexivity|]. split; [now exists y|]. now rewrite selected_picked.
    - destruct (weave_spec _ _ _ _ _ _ Ez El Et) as (new & rest & -> & Hw). unfold woven. destruct nu as [|kd ts]; [discriminate|]. exists kd, new, rest. split; [|exact Hw]. destruct kd; cbn in Eit; try discriminate; injection Eit as ->; reflexivity.
  Qed.
  Lemma masked_sim inner mask m : forall H si outs s1, Forall (fun h => mask (fst h) = m) H -> run (masked inner mask) (SNode NMasked [si]) H = Ok (outs, s1) ->
    exists H' os sf, Forall2 (inner_call m) H H' /\ run inner si H' = Ok (os, sf) /\ s1 = SNode NMasked [sf] /\ woven_all m H os outs.
  Proof.
    induction H as [|[u p] H IH]; intros si outs s1 Hm Hr.
    - injection Hr as <- <-. exists [], [], si. repeat split; constructor.
    - inversion Hm as [|? ? Em Hm']; subst. cbn [fst] in *. rewrite run_cons in Hr. apply rbind_Ok in Hr as ([o s2] & Eu & Hr). apply rbind_Ok in Hr as ([os s3] & Er & Hr). injection Hr as <- <-.
      apply masked_step in Eu as (si0 & h' & o' & si' & Es & Hc & Eo & -> & Hw). injection Es as <-. destruct (IH _ _ _ Hm' Er) as (H' & os' & sf & HF & Ero & -> & Hws).
      exists (h' :: H'), (o' :: os'), sf. split; [now constructor|]. destruct h' as [g q]. rewrite run_cons. cbn [fst snd] in Eo. rewrite Eo. cbn [rbind]. rewrite Ero. repeat split; auto.
  Qed.
End Run.

(*@ C33_run : for any inner transformation, mask (a tree or a function giving the same mask for all trees of the history) and history on which nothing raises: the inner state is built from exactly the selected subtrees of the params; at every call the inner transformation receives exactly the selected subtrees of the updates, and of the params when these are truthy (None otherwise); the emitted tree is the given one with its selected subtrees replaced by the inner outputs in order, all others untouched; and the inner state is threaded. *)
Lemma masked_run : forall `{O : Ops} (inner : GT) (mask : tree tensor -> tree bool) (m : tree bool) (p0 : tree tensor) (H : list (tree tensor * option (tree tensor))) (s0 s1 : state) (outs : list (tree tensor)),
  mask p0 = m -> Forall (fun h => mask (fst h) = m) H -> init (masked inner mask) p0 = Ok s0 -> run (masked inner mask) s0 H = Ok (outs, s1) ->
  exists l0 si0 H' os sf, picks m p0 l0 /\ init inner (Node KList l0) = Ok si0 /\ Forall2 (inner_call m) H H' /\ run inner si0 H' = Ok (os, sf) /\
    s1 = SNode NMasked [sf] /\ woven_all m H os outs.
Proof.
  intros O inner mask m p0 H s0 s1 outs Em Hm Hi Hr. cbn [masked init] in Hi. rewrite Em in Hi. apply rbind_Ok in Hi as (z & Ez & Hi). apply rbind_Ok in Hi as (si & Ei & Hi). injection Hi as <-.
  apply split_tzip in Ez. destruct (masked_sim inner mask m H si outs s1 Hm Hr) as (H' & os & sf & HF & Ero & -> & Hw).
  exists (picked z), si, H', os, sf. split; [now exists z|]. rewrite <- selected_picked. auto.
Qed.

(*@ C33_mismatch : a tree that does not have the mask as a prefix makes init and update raise ValueError. *)
Lemma masked_mismatch : forall `{O : Ops} (inner : GT) (mask : tree tensor -> tree bool) (u : tree tensor) (s : state) (p : option (tree tensor)),
  (forall z, ~ split_by (mask u) u z) -> init (masked inner mask) u = Err EValue /\ update (masked inner mask) u s p = Err EValue.
Proof.
  intros O inner mask u s p Hn. cbn [masked init update]. destruct (tzip (mask u) u) as [z|e] eqn:E; [apply split_tzip in E; exfalso; exact (Hn z E)|]. apply tzip_err in E. subst e. auto.
Qed.
(*@ C33_all_false : with a mask that is False everywhere, every emitted tree is the given one, whatever the inner transformation. *)
Lemma masked_all_false : forall `{O : Ops} (inner : GT) (mask : tree tensor -> tree bool) (u : tree tensor) (s s' : state) (p : option (tree tensor)) (r : tree tensor),
  Forall (fun b => b = false) (leaves (mask u)) -> update (masked inner mask) u s p = Ok (r, s') -> r = u.
Proof.
  intros O inner mask u s s' p r Hf E. apply masked_step in E as (si & h' & o & si' & _ & _ & _ & _ & kd & new & rest & _ & z & z' & (Ez & Eu) & (Ez' & Er) & _ & HF). cbn [fst] in Eu.
  rewrite <- Eu, <- Er. f_equal. apply tree_ext; [rewrite !tdef_tmap; rewrite <- (tdef_tmap fst z), <- (tdef_tmap fst z'); congruence|]. rewrite !leaves_tmap.
  rewrite <- Ez, leaves_tmap in Hf. apply Forall_map in Hf. clear - Hf HF. induction HF as [|a b l l' (_ & Hab) HF IH]; [reflexivity|]. inversion Hf; subst. cbn. rewrite Hab by assumption. f_equal. auto.
Qed.
(*@ C33_falsy_params : None, empty containers and a one-element array holding 0 are passed on as None. *)
Lemma masked_falsy : forall `{O : Ops} (inner : GT) (mask : tree tensor -> tree bool) (u : tree tensor) (s : state) (p : option (tree tensor)),
  (p = None \/ (exists k, p = Some (Node k [])) \/ (exists t x, p = Some (Leaf t) /\ dat t = [x] /\ feqb x fzero = true)) ->
  update (masked inner mask) u s p = update (masked inner mask) u s None.
Proof.
  intros O inner mask u s p Hp. cbn [masked update]. destruct (tzip (mask u) u) as [z|e]; [|reflexivity]. cbn [rbind].
  assert (E : truthy p = Ok false); [|rewrite E; destruct p; reflexivity].
  destruct Hp as [->|[(k & ->)|(t & x & -> & Hd & Hx)]]; [reflexivity|destruct k; reflexivity|]. cbn. rewrite Hd, Hx. reflexivity.
Qed.

(** ** The wrapper does not raise, and element-wise inner transformations *)
Lemma tjoin_inv {A B C} (f : A -> C) (g : B -> tree C) (z : tree B) : forall u : tree A, tmap f u = tjoin (tmap g z) ->
  exists w : tree (B * tree A), tmap fst w = z /\ tjoin (tmap snd w) = u /\ Forall (fun p => tmap f (snd p) = g (fst p)) (leaves w).
Proof.
  induction z as [b|k zs IH] using tree_ind'; intros u E.
  - exists (Leaf (b, u)). cbn in *. auto.
  - cbn [tmap tjoin] in E. destruct u as [|k' us]; [discriminate|]. cbn [tmap] in E. injection E as -> E.
    enough (exists ws : list (tree (B * tree A)), map (tmap fst) ws = zs /\ map tjoin (map (tmap snd) ws) = us /\ Forall (fun p => tmap f (snd p) = g (fst p)) (flat_map leaves ws)) as (ws & E1 & E2 & E3).
    { exists (Node k ws). cbn [tmap tjoin leaves]. rewrite E1, E2. auto. }
    revert us E. induction zs as [|z zs IHz]; intros [|u us] E; try discriminate; [exists []; cbn; auto|]. cbn [map] in E. injection E as E1 E2. inversion IH as [|? ? Hz Hzs]; subst.
    destruct (Hz _ E1) as (w & F1 & F2 & F3). destruct (IHz Hzs _ E2) as (ws & G1 & G2 & G3). exists (w :: ws). cbn [map flat_map]. rewrite F1, F2, G1, G2. repeat split. apply Forall_app; auto.
Qed.
Lemma tjoin_leaves {A} (z : tree (tree A)) : leaves (tjoin z) = flat_map leaves (leaves z).
Proof.
  induction z as [t|k zs IH] using tree_ind'; cbn; [now rewrite app_nil_r|]. induction zs as [|z zs IHz]; [reflexivity|]. inversion IH; subst. cbn. rewrite flat_map_app, H1. f_equal. auto.
Qed.
Lemma tmap_tjoin {A B} (f : A -> B) (z : tree (tree A)) : tmap f (tjoin z) = tjoin (tmap (tmap f) z).
Proof.
  induction z as [t|k zs IH] using tree_ind'; cbn; [reflexivity|]. f_equal. rewrite !map_map. apply map_ext_in. now apply Forall_forall.
Qed.
Section Total.
  Context `{O : Ops}.
  Lemma picks_like m (p0 u : tree tensor) l0 : picks m p0 l0 -> like p0 u -> exists l, picks m u l /\ like (Node KList l0) (Node KList l).
  Proof.
    intros (z & (Em & Ep) & El) (Ha & Hw). unfold avals in Ha. rewrite <- Ep, tmap_tjoin, tmap_tmap in Ha.
    destruct (tjoin_inv aval (fun x => tmap aval (snd x)) z u Ha) as (w & E1 & E2 & HF).
    exists (picked (tmap (fun x => (fst (fst x), snd x)) w)). split.
    - exists (tmap (fun x => (fst (fst x), snd x)) w). split; [|reflexivity]. split; [rewrite <- Em, <- E1, !tmap_tmap; reflexivity|]. rewrite tmap_tmap. exact E2.
    - subst l0. unfold picked. rewrite <- E1, !leaves_tmap. split.
      + unfold avals. cbn [tmap]. f_equal. clear - HF. induction (leaves w) as [|[[[] x] y] l IH]; [reflexivity| |]; inversion HF as [|? ? H1 H2]; subst; cbn in *; [|now apply IH]. rewrite H1. f_equal. now apply IH.
      + unfold trwf in *. rewrite <- E2, tjoin_leaves, leaves_tmap in Hw. cbn [leaves]. clear - Hw.
        induction (leaves w) as [|[[[] x] y] l IH]; [constructor| |]; cbn in *; apply Forall_app in Hw as (H1 & H2); [apply Forall_app; auto|auto].
  Qed.
  Lemma like_klist l0 (o : tree tensor) : like (Node KList l0) o -> exists l, o = Node KList l /\ length l = length l0.
  Proof.
    intros (Ha & _). destruct o as [|k l]; [discriminate|]. unfold avals in Ha. cbn in Ha. injection Ha as -> E. exists l. split; [reflexivity|]. apply (f_equal (@length _)) in E. now rewrite !map_length in E.
  Qed.
  Lemma picks_fun {A} m (t : tree A) l l' : picks m t l -> picks m t l' -> l = l'.
  Proof. intros (z & Hz & <-) (z' & Hz' & <-). apply split_tzip in Hz, Hz'. congruence. Qed.
  Definition full_params (p0 : tree tensor) (h : tree tensor * option (tree tensor)) : Prop := snd h = None \/ exists q, snd h = Some q /\ like p0 q.
  Definition container {A} (t : tree A) : Prop := match t with Node KNone _ => False | Node _ (_ :: _) => True | _ => False end.
  Lemma truthy_container (p0 q : tree tensor) : container p0 -> like p0 q -> truthy (Some q) = Ok true.
  Proof.
    intros Hc (Ha & _). destruct p0 as [|k ts]; [easy|]. destruct q as [|k' us]; [discriminate|]. unfold avals in Ha. cbn in Ha. injection Ha as -> E. destruct ts as [|t ts]; [destruct k; easy|]. destruct us as [|u us]; [discriminate|]. destruct k; easy.
  Qed.
  Lemma masked_total_run np inner (mask : tree tensor -> tree bool) m p0 l0 I : container p0 -> picks m p0 l0 -> steady np inner (Node KList l0) I ->
    forall H si, I si -> Forall (fun h => mask (fst h) = m) H -> hist_ok np p0 H -> Forall (full_params p0) H -> exists outs s1, run (masked inner mask) (SNode NMasked [si]) H = Ok (outs, s1).
  Proof.
    intros Hc Hp (_ & Hst). induction H as [|[u par] H IH]; intros si HI Hm Hh Hf; [eexists _, _; reflexivity|].
    inversion Hm as [|? ? Em Hm']; subst. inversion Hh as [|? ? (Hu & Hpar) Hh']; subst. inversion Hf as [|? ? Hfp Hf']; subst. cbn [fst snd] in *.
    destruct (picks_like _ _ _ _ Hp Hu) as (l & Hl & Hll). destruct Hl as (z & Hz & El).
    assert (Hpp : exists b mp, truthy par = Ok b /\ (match b, par with true, Some q => let* y := tzip (mask u) q in Ok (Some (Node KList (selected y))) | _, _ => Ok None end) = Ok mp /\ (np = false -> exists q, mp = Some q /\ like (Node KList l0) q)).
    { destruct Hfp as [E|(q & E & Hq)]; cbn [snd] in E; subst par.
      - exists false, None. split; [reflexivity|]. split; [reflexivity|]. intros Hn. destruct (Hpar Hn) as (? & ? & _). discriminate.
      - destruct (picks_like _ _ _ _ Hp Hq) as (lq & (y & Hy & Ey) & Hlq). exists true, (Some (Node KList lq)). split; [now apply (truthy_container p0)|]. apply split_tzip in Hy. rewrite Hy. cbn [rbind]. rewrite selected_picked, Ey. split; [reflexivity|]. intros _. eauto. }
    destruct Hpp as (b & mp & Eb & Emp & Hmp).
    destruct (Hst si (Node KList l) mp HI Hll Hmp) as (o & si' & Eo & Ho & _ & HI'). destruct (like_klist _ _ Ho) as (lo & -> & Hlen).
    destruct (weave_total (mask u) u z lo Hz) as (r & t & Er & Et). { rewrite El, Hlen. destruct (like_klist _ _ Hll) as (l1 & E & Hl1). injection E as <-. lia. }
    rewrite run_cons. cbn [masked update]. pose proof Hz as Hz2. apply split_tzip in Hz2. rewrite Hz2. cbn [rbind]. rewrite Eb. cbn [rbind]. rewrite Emp. cbn [rbind]. rewrite selected_picked, El, Eo. cbn [rbind iter_tree]. rewrite Er. cbn [rbind]. rewrite Et. cbn [rbind].
    destruct (IH si' HI' Hm' Hh' Hf') as (outs & s1 & E). rewrite E. eexists _, _. reflexivity.
  Qed.

  (** Rank of leaf [j] among the selected leaves. *)
  Definition rank (m : tree bool) (j : nat) : nat := length (filter (fun b => b) (firstn j (leaves m))).
  Lemma split_full {A} (m : tree bool) (u : tree A) z : tdef m = tdef u -> split_by m u z -> leaves z = map (fun e => (fst e, Leaf (snd e))) (combine (leaves m) (leaves u)) /\ length (leaves m) = length (leaves u).
  Proof.
    intros Hd Hz. destruct (tree_pair_tdef m u Hd) as (w & E1 & E2). apply split_tzip in Hz. rewrite <- E1, <- E2, tzip_same in Hz. injection Hz as <-. rewrite <- E1, <- E2, !leaves_tmap, !map_length. split; [|reflexivity].
    induction (leaves w) as [|[a b] l IH]; [reflexivity|]. cbn. now rewrite IH.
  Qed.
  Lemma filter_nth {A} (L : list (bool * A)) : forall j b x, nth_error L j = Some (b, x) -> b = true ->
    nth_error (map snd (filter fst L)) (length (filter (fun b => b) (firstn j (map fst L)))) = Some x.
  Proof.
    induction L as [|[c y] L IH]; intros j b x E Hb; [destruct j; discriminate|]. destruct j as [|j]; cbn in *.
    - injection E as -> ->. rewrite Hb. reflexivity.
    - destruct c; cbn; eauto.
  Qed.
  Lemma picked_elt (m : tree bool) (u : tree tensor) l j : tdef m = tdef u -> picks m u l -> nth_error (leaves m) j = Some true -> forall i, elt (Node KList l) (rank m j, i) = elt u (j, i).
  Proof.
    intros Hd (z & Hz & <-) Hj i. destruct (split_full m u z Hd Hz) as (Ez & Hlen). unfold picked. rewrite Ez. unfold elt. cbn [fst snd leaves].
    set (L := combine (leaves m) (leaves u)). assert (E1 : map fst L = leaves m /\ map snd L = leaves u).
    { unfold L. clear - Hlen. revert Hlen. generalize (leaves u). induction (leaves m) as [|a l IH]; intros [|b k] Hl; try discriminate; [auto|]. cbn in *. destruct (IH k) as (-> & ->); auto. }
    destruct E1 as (E1 & E2).
    assert (El : flat_map leaves (map snd (filter fst (map (fun e : bool * tensor => (fst e, Leaf (snd e))) L))) = map snd (filter fst L)).
    { clear. induction L as [|[[] x] L IH]; cbn; [reflexivity| |]; now rewrite ?IH. }
    rewrite El. assert (Hx : exists x, nth_error L j = Some (true, x)).
    { assert (H : nth_error (map fst L) j = Some true) by now rewrite E1. rewrite nth_error_map in H. destruct (nth_error L j) as [[b x]|]; [|discriminate]. cbn in H. injection H as ->. eauto. }
    destruct Hx as (x & Hx). pose proof (filter_nth L j true x Hx eq_refl) as H. unfold rank. rewrite <- E1. rewrite H. rewrite <- E2, nth_error_map, Hx. reflexivity.
  Qed.
  Lemma weaves_elt (m : tree bool) (u r : tree tensor) new j b : tdef m = tdef u -> tdef m = tdef r -> weaves m u new r -> nth_error (leaves m) j = Some b -> forall i,
    elt r (j, i) = if b then elt (Node KList new) (rank m j, i) else elt u (j, i).
  Proof.
    intros Hd Hdr (z & z' & Hz & Hz' & Hn & HF) Hj i. destruct b; [symmetry; apply picked_elt; auto; now exists z'|].
    destruct (split_full m u z Hd Hz) as (E & Hl). destruct (split_full m r z' Hdr Hz') as (E' & Hl').
    assert (HH : nth_error (leaves r) j = nth_error (leaves u) j); [|unfold elt; cbn [fst snd]; now rewrite HH].
    rewrite E, E' in HF. clear - HF Hl Hl' Hj. revert HF Hl Hl' j Hj. generalize (leaves u), (leaves r), (leaves m). intros lu lr lm. revert lu lr.
    induction lm as [|c lm IH]; intros [|x lu] [|y lr] HF Hl Hl' j Hj; try discriminate; [destruct j; discriminate|]. cbn in HF. inversion HF as [|? ? ? ? (_ & Hab) HF']; subst. destruct j as [|j]; cbn in *.
    - injection Hj as ->. specialize (Hab eq_refl). injection Hab as ->. reflexivity.
    - apply IH; auto.
  Qed.
  Lemma split_new (m : tree bool) (u r : tree tensor) new : tdef m = tdef u -> Forall (fun t => exists x, t = Leaf x) new -> weaves m u new r -> tdef m = tdef r.
  Proof.
    intros Hd Hnew (z & z' & Hz & (Em & Er) & Hn & HF). destruct (split_full m u z Hd Hz) as (E & Hl).
    assert (HL : Forall (fun p : bool * tree tensor => exists x, snd p = Leaf x) (leaves z')).
    { rewrite <- Hn in Hnew. unfold picked in Hnew. rewrite E in HF. clear - Hnew HF. revert HF Hnew. generalize (combine (leaves m) (leaves u)) as L, (leaves z') as L'. intros L L'. revert L.
      induction L' as [|[b t] L' IH]; intros [|a L] HF Hn; try solve [inversion HF]; constructor; cbn in HF; inversion HF as [|? ? ? ? (E & Hab) HF']; subst; cbn in *.
      - destruct b; [inversion Hn; subst; auto|]. rewrite Hab by auto. eauto.
      - apply (IH L HF'). destruct b; [now inversion Hn|exact Hn]. }
    rewrite <- Em, <- Er, tdef_tmap. clear - HL. induction z' as [[b t]|k zs IH] using tree_ind'; cbn in *.
    - inversion HL as [|? ? (x & Hx) _]; subst. cbn in Hx. subst. reflexivity.
    - unfold tdef. cbn [tmap]. f_equal. rewrite !map_map. apply map_ext_in. intros t Ht. rewrite Forall_forall in IH. apply IH; [exact Ht|]. rewrite Forall_forall in *. intros x Hx. apply HL. apply in_flat_map. eauto.
  Qed.
End Total.

(*@ C33_total : for a params tree that is a non-empty container, histories like it with params None or like it, and an inner transformation that on the selected subtrees does not raise and keeps structure, shapes and dtypes, masked never raises. *)
Lemma masked_total : forall `{O : Ops} (np : bool) (inner : GT) (mask : tree tensor -> tree bool) (m : tree bool) (p0 : tree tensor) (l0 : list (tree tensor)) (I : state -> Prop) (H : list (tree tensor * option (tree tensor))),
  container p0 -> mask p0 = m -> Forall (fun h => mask (fst h) = m) H -> picks m p0 l0 -> steady np inner (Node KList l0) I -> hist_ok np p0 H -> Forall (full_params p0) H ->
  exists outs, trains (masked inner mask) p0 H outs.
Proof.
  intros O np inner mask m p0 l0 I H Hc Em Hm Hp Hs Hh Hf. pose proof Hs as ((si & Ei & HI) & _).
  destruct (masked_total_run np inner mask m p0 l0 I Hc Hp Hs H si HI Hm Hh Hf) as (outs & s1 & Er).
  exists outs. eexists. exists s1. split; [|exact Er]. cbn [masked init]. destruct Hp as (z & Hz & El). apply split_tzip in Hz. rewrite Em, Hz. cbn [rbind]. rewrite selected_picked, El, Ei. reflexivity.
Qed.

(*@ C33_elementwise : for every transformation that works element by element (refined by a scalar machine) and a mask with the structure of the params: at leaves with mask True the masked transformation emits, over any history, exactly what the transformation emits there (the machine's output for that element's own history), and at leaves with mask False the updates it was given; all-True gives the transformation itself. *)
Lemma masked_elementwise : forall `{O : Ops} (np : bool) (inner : GT) (M : machine) (mask : tree tensor -> tree bool) (m : tree bool) (p0 : tree tensor) (H : list (tree tensor * option (tree tensor))),
  refines np inner M -> trwf p0 -> container p0 -> tdef m = tdef p0 -> mask p0 = m -> Forall (fun h => mask (fst h) = m) H -> hist_ok np p0 H -> Forall (full_params p0) H ->
  exists outs, trains (masked inner mask) p0 H outs /\
    forall n j i b, n < length H -> nth_error (leaves m) j = Some b ->
      (b = false -> oelt outs n (j, i) = helt H n (j, i)) /\
      (b = true -> forall x gs ps, elt p0 (j, i) = Some x -> (forall i', i' <= n -> helt H i' (j, i) = Some (gs i')) -> (np = false -> forall i', i' <= n -> hpelt H i' (j, i) = Some (ps i')) ->
         oelt outs n (j, i) = Some (mout M (leafdt p0 (j, i)) x gs ps n)).
Proof.
  intros O np inner M mask m p0 H HR Hw Hc Hd Em Hm Hh Hf.
  assert (Hz0 : exists l0, picks m p0 l0).
  { destruct (tree_pair_tdef m p0 Hd) as (w & E1 & E2). eexists. eexists. split; [|reflexivity]. apply split_tzip. rewrite <- E1, <- E2. apply tzip_same. }
  destruct Hz0 as (l0 & Hp). 
  assert (Hlp : like p0 p0) by (split; auto). destruct (picks_like m p0 p0 l0 Hp Hlp) as (l0' & Hp' & Hl0). assert (l0' = l0) by (eapply picks_fun; eauto). subst l0'.
  destruct Hl0 as (_ & Hw0).
  destruct (refines_steady np inner M (Node KList l0) HR Hw0) as (I & Hs).
  destruct (masked_total np inner mask m p0 l0 I H Hc Em Hm Hp Hs Hh Hf) as (outs & s0 & s1 & Ei & Er). exists outs. split; [exists s0, s1; auto|].
  destruct (masked_run inner mask m p0 H s0 s1 outs Em Hm Ei Er) as (l0' & si0 & H' & os & sf & Hpl & Ei0 & HF & Ero & -> & Hwv). assert (l0' = l0) by (eapply picks_fun; eauto). subst l0'.
  assert (Hh' : hist_ok np (Node KList l0) H' /\ forall n j i, nth_error (leaves m) j = Some true -> helt H' n (rank m j, i) = helt H n (j, i) /\ (np = false -> hpelt H' n (rank m j, i) = hpelt H n (j, i))).
  { clear Ei Er Ei0 Ero Hwv. induction HF as [|[u p] [u' p'] H H' Hcall HF IH]; [split; [constructor|]; intros [|n] j i _; auto|].
    inversion Hm as [|? ? Em' Hm']; subst. inversion Hh as [|? ? (Hu & Hpar) Hh']; subst. inversion Hf as [|? ? Hfp Hf']; subst. cbn [fst snd] in *. destruct (IH Hm' Hh' Hf') as (IH1 & IH2).
    destruct Hcall as ((l & Hl & E1) & Hpc). cbn [fst snd] in *. subst u'.
    destruct (picks_like _ _ _ _ Hp Hu) as (l1 & Hl1 & Hll1). assert (l1 = l) by (eapply picks_fun; eauto). subst l1.
    assert (Hq : np = false -> exists q lq, p = Some q /\ p' = Some (Node KList lq) /\ picks (mask p0) q lq /\ like p0 q /\ like (Node KList l0) (Node KList lq)).
    { intros Hn. destruct (Hpar Hn) as (q & -> & Hq). rewrite (truthy_container p0 q Hc Hq) in Hpc. destruct Hpc as (q' & lq & Eq & Hlq & ->). injection Eq as <-.
      destruct (picks_like _ _ _ _ Hp Hq) as (l2 & Hl2 & Hll2). assert (l2 = lq) by (eapply picks_fun; eauto). subst l2. exists q, lq. auto. }
    split.
    - constructor; [|exact IH1]. cbn [fst snd]. split; [exact Hll1|]. intros Hn. destruct (Hq Hn) as (q & lq & _ & -> & _ & _ & Hlq). eauto.
    - intros [|n] j i Hj; [|apply IH2; exact Hj]. split.
      + unfold helt. cbn [nth_error fst]. apply picked_elt; auto. destruct Hu as (Ha & _). rewrite Hd. symmetry. now apply tdef_avals.
      + intros Hn. destruct (Hq Hn) as (q & lq & -> & -> & Hlq & (Ha & _) & _). unfold hpelt. cbn [nth_error]. apply picked_elt; auto. rewrite Hd. symmetry. now apply tdef_avals. }
  destruct Hh' as (Hh' & Hpos).
  destruct (refines_run np inner M HR (Node KList l0) H' Hw0 Hh') as (s0' & os' & s1' & Ei' & Er' & _ & Hos & Hmo).
  assert (s0' = si0) by congruence. subst s0'. assert (os' = os) by congruence. subst os'.
  assert (Hlen : length H' = length H) by (clear - HF; induction HF; cbn; congruence).
  intros n j i b Hn Hj.
  assert (Hon : exists u p o r, nth_error H n = Some (u, p) /\ nth_error os n = Some o /\ nth_error outs n = Some r /\ woven m (u, p) o r /\ like p0 u /\ like (Node KList l0) o).
  { clear - Hwv Hn Hh Hos. revert os outs n Hwv Hn Hos. induction H as [|[u p] H IH]; intros [|o os] [|r outs] n Hwv Hn Hos; cbn in Hn, Hwv; try lia; try easy.
    destruct Hwv as (H1 & H2). inversion Hh as [|? ? (Hu & _) Hh']; subst. inversion Hos as [|? ? Ho Hos']; subst. destruct n as [|n]; [exists u, p, o, r; auto 10|]. cbn. apply IH; auto. lia. }
  destruct Hon as (u & p & o & r & Eh & Eo & Er2 & (kd & new & rest & E & Hwe) & Hu & Ho). cbn [fst] in Hwe.
  assert (Hdu : tdef m = tdef u) by (rewrite Hd; symmetry; apply tdef_avals, Hu).
  assert (Hnew : rest = [] /\ kd = KList /\ Forall (fun t => exists x, t = Leaf x) new).
  { destruct (like_klist _ _ Ho) as (lo & E' & Hlo). rewrite E in E'. injection E' as -> <-.
    assert (Hcount : length new = length l0).
    { destruct Hwe as (z & z' & Hz & Hz' & <- & HFz). destruct Hp as (z0 & Hz0 & <-). unfold picked. rewrite !map_length. destruct Hz as (Hzm & _). destruct Hz' as (Hz'm & _). destruct Hz0 as (Hz0m & _).
      assert (E1 : map fst (leaves z') = map fst (leaves z0)) by (rewrite <- !leaves_tmap; congruence).
      clear - E1. revert E1. generalize (leaves z0). induction (leaves z') as [|[a x] l IH]; intros [|[c y] l'] E1; try discriminate; [reflexivity|]. cbn in *. injection E1 as -> E1. destruct c; cbn; auto. }
    rewrite app_length in Hlo. destruct rest; [|cbn in Hlo; lia]. split; [reflexivity|]. split; [reflexivity|].
    rewrite app_nil_r in E. rewrite E in Ho. assert (Hl0 : Forall (fun t => exists x, t = Leaf x) l0).
    { destruct Hp as (z0 & Hz0 & <-). destruct (split_full m p0 z0 Hd Hz0) as (Ez & _). unfold picked. rewrite Ez. clear. induction (combine (leaves m) (leaves p0)) as [|[[] x] L IH]; cbn; [constructor|constructor; eauto|exact IH]. }
    destruct Ho as (Ha & _). unfold avals in Ha. cbn in Ha. injection Ha as Ha. clear - Ha Hl0. revert l0 Ha Hl0. induction new as [|t new IH]; intros [|t0 l0] Ha Hl0; try discriminate; constructor; inversion Hl0 as [|? ? (x & ->) Hl0']; subst; cbn in Ha; injection Ha as Ha1 Ha2; [|now apply (IH l0)].
    destruct t; [eauto|discriminate]. }
  destruct Hnew as (-> & -> & Hnew). rewrite app_nil_r in E.
  pose proof (split_new m u r new Hdu Hnew Hwe) as Hdr. pose proof (weaves_elt m u r new j b Hdu Hdr Hwe Hj i) as Hr.
  split; intros ->.
  - unfold oelt, helt. rewrite Er2, Eh. cbn [fst]. exact Hr.
  - intros x gs ps Hx Hgs Hps. unfold oelt. rewrite Er2, Hr.
    specialize (Hmo n (rank m j, i) x gs ps ltac:(lia)). unfold oelt in Hmo. rewrite Eo, E in Hmo.
    assert (Edt : leafdt (Node KList l0) (rank m j, i) = leafdt p0 (j, i)).
    { destruct Hp as (z0 & Hz0 & <-). destruct (split_full m p0 z0 Hd Hz0) as (Ez & Hl). unfold leafdt. cbn [fst leaves]. unfold picked. rewrite Ez.
      set (L := combine (leaves m) (leaves p0)). assert (E1 : map fst L = leaves m /\ map snd L = leaves p0).
      { unfold L. clear - Hl. revert Hl. generalize (leaves p0). induction (leaves m) as [|a l IH]; intros [|c k] Hl; try discriminate; [auto|]. cbn in *. destruct (IH k) as (-> & ->); auto. }
      destruct E1 as (E1 & E2).
      assert (El : flat_map leaves (map snd (filter fst (map (fun e : bool * tensor => (fst e, Leaf (snd e))) L))) = map snd (filter fst L)) by (clear; induction L as [|[[] y] L IH]; cbn; [reflexivity| |]; now rewrite ?IH).
      rewrite El. assert (Hy : exists y, nth_error L j = Some (true, y)).
      { assert (Hb : nth_error (map fst L) j = Some true) by now rewrite E1. rewrite nth_error_map in Hb. destruct (nth_error L j) as [[b y]|]; [|discriminate]. cbn in Hb. injection Hb as ->. eauto. }
      destruct Hy as (y & Hy). unfold rank. rewrite <- E1, (filter_nth L j true y Hy eq_refl), <- E2, nth_error_map, Hy. reflexivity. }
    rewrite Edt in Hmo. apply Hmo.
    + rewrite (picked_elt m p0 l0 j Hd Hp Hj). exact Hx.
    + intros i' Hi'. destruct (Hpos i' j i Hj) as (-> & _). auto.
    + intros Hnp i' Hi'. destruct (Hpos i' j i Hj) as (_ & Hpp). rewrite Hpp by exact Hnp. auto.
Qed.
(*@ex C33_example *)
Lemma masked_example : forall `{P : Platform}, let m := Node (KDict ["b"%string; "w"%string]) [Leaf false; Leaf true] in
  trwf ex_p /\ container ex_p /\ tdef m = tdef ex_p /\ hist_ok false ex_p ex_H /\ Forall (full_params ex_p) ex_H /\ (exists M, refines false (add_decayed_weights (Fin (1/10))) M) /\
  (forall z, ~ split_by m (one (Fin 1)) z).
Proof.
  intros P m. split; [apply ex_p_wf|]. split; [exact I|]. split; [reflexivity|]. split; [apply ex_H_ok|]. split; [apply Forall_forall; intros h Hh; right; exists ex_p; cbn in Hh; decompose [or] Hh; subst; try easy; repeat constructor|].
  split; [eexists; apply (@refines_wd (XROps P))|]. intros [x|k ts] (E1 & E2); [discriminate|]. cbn in E2. discriminate.
Qed.
