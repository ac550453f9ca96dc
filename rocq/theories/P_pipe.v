(** Pipelines assembled from the library: no call raises, signatures are kept, and the state can be checkpointed and resumed. *)
From Verif Require Export P_sig P_ieee7.
From Coq Require Import List Psatz.
Import ListNotations.
Open Scope list_scope.
Open Scope nat_scope.
(*@header
From Coq Require Import List.
Import ListNotations.
Open Scope list_scope.
Open Scope nat_scope.
*)

(** ** What an assembled optimiser is *)
(** [pipeline np p T]: [T] is built from the library's transformations and wrappers, nested to any depth, for parameters with the structure, shapes and dtypes of [p];
    if [np] is false some part of it asks for params. *)
Inductive pipeline `{O : Ops} : bool -> tree tensor -> GT -> Prop :=
| pl_elementwise np p T : elementwise np T -> pipeline np p T
| pl_learning_rate p L : pipeline true p (scale_by_learning_rate L)
| pl_zero_nans p : pipeline true p zero_nans
| pl_global_norm p d c : Forall (fun t => dt t = d) (leaves p) -> pipeline true p (clip_by_global_norm c)
| pl_adaptive_clip p c eps : Forall (fun t => one_unit (shp t) = true \/ 2 <= length (shp t) <= 4) (leaves p) -> pipeline false p (adaptive_grad_clip c eps)
| pl_centralize p : pipeline true p centralize
| pl_trust p m : pipeline false p (scale_by_trust_ratio m)
| pl_noise p eta gamma seed : (forall k n, length (ksplit k n) = n) -> pipeline true p (add_noise eta gamma seed)
| pl_sm3 p b1 b2 eps : Forall (fun t => dt t = defdt /\ shp t <> [] /\ Forall (fun n => 0 < n) (shp t)) (leaves p) -> pipeline true p (scale_by_sm3 b1 b2 eps)
| pl_weaken p T : pipeline true p T -> pipeline false p T
| pl_chain np p ts c : Forall (pipeline np p) ts -> chain ts = Ok c -> pipeline np p c
| pl_if_finite np p T k : pipeline np p T -> pipeline np p (apply_if_finite T k)
| pl_maybe np p T f : pipeline np p T -> pipeline np p (maybe_update T f)
| pl_multi_steps p T k use_mean : pipeline true p T -> pipeline true p (multi_steps T k use_mean)
| pl_flatten np p d T : uniform d p -> pipeline np (Leaf (as_vector d p)) T -> pipeline np p (flatten T)
| pl_masked np p T mask m l : container p -> (forall u, like p u -> mask u = m) -> picks m p l -> pipeline np (Node KList l) T -> pipeline np p (masked T mask).

(** ** Checkpoints *)
(** The arrays of a state, in the order of jax.tree_leaves, and putting arrays into the structure of a state (jax.tree_unflatten). *)
Inductive saved `{O : Ops} := VInt (w : iw) (z : Z) | VBool (b : bool) | VKey (k : key) | VNum (d : fdt) (x : F) | VArr (t : tensor).
Fixpoint save `{O : Ops} (s : state) : list saved :=
  match s with
  | SInt w z => [VInt w z] | SBool b => [VBool b] | SKey k => [VKey k] | SNum d x => [VNum d x]
  | STree t => map VArr (leaves t) | SBTree t => map VBool (leaves t)
  | SNode _ l => flat_map save l
  end.
Section Restore.
  Context `{O : Ops}.
  Definition arr (v : saved) : option tensor := match v with VArr t => Some t | _ => None end.
  Definition flag (v : saved) : option bool := match v with VBool b => Some b | _ => None end.
  Fixpoint all_some {A B} (f : A -> option B) (l : list A) : option (list B) :=
    match l with [] => Some [] | a :: r => match f a, all_some f r with Some b, Some q => Some (b :: q) | _, _ => None end end.
  Definition put_tree {A B} (f : saved -> option B) (mk : tree B -> state) (t : tree A) (l : list saved) : option (state * list saved) :=
    let n := length (leaves t) in
    match all_some f (firstn n l) with
    | Some q => match tunflatten t q with Ok r => Some (mk r, skipn n l) | Err _ => None end
    | None => None
    end.
  Fixpoint put (s : state) (l : list saved) {struct s} : option (state * list saved) :=
    match s with
    | STree t => put_tree arr STree t l
    | SBTree t => put_tree flag SBTree t l
    | SNode n ss =>
      match (fix go (ss : list state) (l : list saved) : option (list state * list saved) :=
               match ss with
               | [] => Some ([], l)
               | s :: r => match put s l with Some (a, l') => match go r l' with Some (q, l'') => Some (a :: q, l'') | None => None end | None => None end
               end) ss l with
      | Some (q, l') => Some (SNode n q, l')
      | None => None
      end
    | _ =>
      match l with
      | VInt w z :: r => Some (SInt w z, r) | VBool b :: r => Some (SBool b, r) | VKey k :: r => Some (SKey k, r) | VNum d x :: r => Some (SNum d x, r)
      | _ => None
      end
    end.
  Definition restore (s0 : state) (l : list saved) : option state := match put s0 l with Some (s, []) => Some s | _ => None end.
End Restore.

Section StateInd.
  Context `{O : Ops}.
  Variable P : state -> Prop.
  Hypothesis H1 : forall w z, P (SInt w z).
  Hypothesis H2 : forall b, P (SBool b).
  Hypothesis H3 : forall k, P (SKey k).
  Hypothesis H4 : forall d x, P (SNum d x).
  Hypothesis H5 : forall t, P (STree t).
  Hypothesis H6 : forall t, P (SBTree t).
  Hypothesis H7 : forall n l, Forall P l -> P (SNode n l).
  Fixpoint state_ind' (s : state) : P s :=
    match s with
    | SInt w z => H1 w z | SBool b => H2 b | SKey k => H3 k | SNum d x => H4 d x | STree t => H5 t | SBTree t => H6 t
    | SNode n l => H7 n l ((fix go (l : list state) : Forall P l :=
        match l with [] => Forall_nil _ | x :: r => Forall_cons x (state_ind' x) (go r) end) l)
    end.
End StateInd.

Section Ckpt.
  Context `{O : Ops}.
  Lemma all_some_map {A B C} (f : B -> option C) (g : A -> B) (h : A -> C) l : (forall a, f (g a) = Some (h a)) -> all_some f (map g l) = Some (map h l).
  Proof. intros E. induction l as [|a l IH]; [reflexivity|]. cbn. now rewrite E, IH. Qed.
  Lemma put_tree_ok {A B} (f : saved -> option B) (g : B -> saved) mk (t : tree A) (t' : tree B) r : (forall b, f (g b) = Some b) -> tdef t' = tdef t ->
    put_tree f mk t (map g (leaves t') ++ r) = Some (mk t', r).
  Proof.
    intros E D. unfold put_tree. assert (L : length (leaves t) = length (map g (leaves t'))).
    { rewrite map_length. apply (f_equal leaves) in D. unfold tdef in D. rewrite !leaves_tmap in D. apply (f_equal (@length _)) in D. rewrite !map_length in D. lia. }
    rewrite L, firstn_app, Nat.sub_diag, firstn_all, app_nil_r, skipn_app, Nat.sub_diag, skipn_all, (all_some_map f g (fun b => b)) by exact E. rewrite map_id. cbn [app].
    now rewrite tunflatten_leaves.
  Qed.
  Lemma put_save s0 : forall s r, ssig s = ssig s0 -> put s0 (save s ++ r) = Some (s, r).
  Proof.
    induction s0 as [w z|b|k|d x|t|t|n l IH] using state_ind'; intros s r E; destruct s as [w' z'|b'|k'|d' x'|t'|t'|n' l']; try discriminate E; cbn [ssig] in E.
    - reflexivity.
    - reflexivity.
    - reflexivity.
    - reflexivity.
    - injection E as E. cbn [put save]. apply put_tree_ok; [reflexivity|now apply tdef_avals].
    - injection E as E. cbn [put save]. apply put_tree_ok; [reflexivity|exact E].
    - injection E as -> E. cbn [put save].
      assert (G : forall l' r, map ssig l' = map ssig l -> (fix go (ss : list state) (l : list saved) : option (list state * list saved) :=
               match ss with
               | [] => Some ([], l)
               | s :: r => match put s l with Some (a, l') => match go r l' with Some (q, l'') => Some (a :: q, l'') | None => None end | None => None end
               end) l (flat_map save l' ++ r) = Some (l', r)).
      { clear E l' r. induction IH as [|s l Hs HF IHl]; intros [|s' l'] r E; try discriminate E; [reflexivity|]. cbn [map] in E. injection E as E1 E2. cbn [flat_map]. rewrite <- app_assoc, (Hs s') by exact E1. now rewrite IHl. }
      now rewrite (G l' r E).
  Qed.
  Lemma restore_save s0 s : ssig s = ssig s0 -> restore s0 (save s) = Some s.
  Proof. intros E. unfold restore. rewrite <- (app_nil_r (save s)). now rewrite put_save. Qed.

  (** ** Safe transformations *)
  Definition params_ok (np : bool) (p : tree tensor) (par : option (tree tensor)) : Prop := (par = None /\ np = true) \/ exists q, par = Some q /\ like p q.
  Definition safe (np : bool) (T : GT) (p : tree tensor) : Prop :=
    exists (I : state -> Prop) sg,
      (forall p', like p p' -> exists s0, init T p' = Ok s0 /\ I s0) /\ (forall s, I s -> ssig s = sg) /\
      forall s u par, I s -> like p u -> params_ok np p par -> exists u' s', update T u s par = Ok (u', s') /\ like p u' /\ I s'.
  Lemma like_trans p q r : like p q -> like q r -> like p r.
  Proof. intros (A & B) (C & D). split; [congruence|exact D]. Qed.
  Lemma like_swap p q r : like p q -> like p r -> like q r.
  Proof. intros (A & B) (C & D). split; [congruence|exact D]. Qed.
  Lemma safe_of_stable np T p sg : (forall p', like p p' -> stable np T p') -> (forall p' s', like p p' -> init T p' = Ok s' -> ssig s' = sg) -> safe np T p.
  Proof.
    intros Hs Hi. exists (fun s => exists p' J, like p p' /\ steady np T p' J /\ J s /\ ssig s = sg), sg. split; [|split].
    - intros p' Hp. destruct (Hs p' Hp) as (J & HJ). pose proof HJ as ((s0 & E & J0) & _). exists s0. split; [exact E|]. exists p', J. eauto.
    - intros s (p' & J & _ & _ & _ & E). exact E.
    - intros s u par (p' & J & Hp & HJ & Js & Es) Hu Hpar. pose proof HJ as (_ & St).
      destruct (St s u par Js (like_swap _ _ _ Hp Hu)) as (u' & s' & E & L & Sg & J').
      { intros ->. destruct Hpar as [(_ & ?)|(q & -> & Hq)]; [discriminate|]. exists q. split; [reflexivity|now apply (like_swap p)]. }
      exists u', s'. split; [exact E|]. split; [now apply (like_trans p p')|]. exists p', J. split; [exact Hp|]. split; [exact HJ|]. split; [exact J'|congruence].
  Qed.
  Lemma safe_simple np T p (s0 : state) : (forall p', init T p' = Ok s0) ->
    (forall u par, like p u -> params_ok np p par -> exists u', update T u s0 par = Ok (u', s0) /\ like p u') -> safe np T p.
  Proof.
    intros Ei Hu. exists (fun s => s = s0), (ssig s0). split; [eauto|]. split; [now intros s ->|]. intros s u par -> Hl Hp. destruct (Hu u par Hl Hp) as (u' & E & L). exists u', s0. auto.
  Qed.
  Lemma safe_refines np T M p : refines np T M -> safe np T p.
  Proof.
    intros HR. pose proof HR as (repr & sg & Hi & Hsg & _). apply (safe_of_stable np T p (sg (avals p))).
    - intros p' (_ & W). eapply stable_refines; eauto.
    - intros p' s' (A & W) E. rewrite Hi in E by exact W. injection E as <-. now rewrite Hsg, emapt_avals, A.
  Qed.
  Lemma safe_weaken T p : safe true T p -> safe false T p.
  Proof.
    intros (I & sg & Hi & Hs & Hu). exists I, sg. split; [exact Hi|]. split; [exact Hs|]. intros s u par HI Hl [(_ & ?)|Hp]; [discriminate|]. apply Hu; auto. now right.
  Qed.
  Lemma safe_chain np Ts p : Forall (fun T => safe np T p) Ts -> safe np (chain_gt Ts) p.
  Proof.
    intros HF.
    assert (G : exists (I : list state -> Prop) sgs, (forall p', like p p' -> exists ss, chain_init Ts p' = Ok ss /\ I ss) /\ (forall ss, I ss -> map ssig ss = sgs /\ length ss = length Ts) /\
      forall ss u par, I ss -> like p u -> params_ok np p par ->
        exists u' ss', chain_update Ts ss u par = Ok (u', ss') /\ like p u' /\ I ss').
    { induction HF as [|T Ts (I & sg & Hi & Hs & Hu) HF (J & sgs & Hj & HsJ & HuJ)].
      - exists (fun ss => ss = []), []. split; [intros; exists []; auto|]. split; [intros ss ->; auto|]. intros ss u par -> Hl _. exists u, []. cbn. auto.
      - exists (fun l => match l with s :: ss => I s /\ J ss | [] => False end), (sg :: sgs). split.
        { intros p' Hp. destruct (Hi p' Hp) as (s0 & E1 & I0). destruct (Hj p' Hp) as (ss0 & E2 & J0). exists (s0 :: ss0). cbn. rewrite E1. cbn. rewrite E2. auto. }
        split; [intros [|s ss] H; [easy|]; destruct H as (A & B); destruct (HsJ ss B) as (C & D); cbn; split; [f_equal; auto|congruence]|].
        intros [|s ss] u par HIJ Hl Hp; [easy|]. destruct HIJ as (H1 & H2). destruct (Hu s u par H1 Hl Hp) as (u1 & s1 & E1 & L1 & I1).
        destruct (HuJ ss u1 par H2 L1 Hp) as (u2 & ss2 & E2 & L2 & I2). exists u2, (s1 :: ss2). cbn [chain_update]. rewrite E1. cbn [rbind]. rewrite E2. auto. }
    destruct G as (J & sgs & Hj & HsJ & HuJ). exists (fun s => exists ss, s = SNode NList ss /\ J ss), (GNode NList sgs). split; [|split].
    - intros p' Hp. destruct (Hj p' Hp) as (ss & E & HJ). exists (SNode NList ss). cbn. rewrite E. cbn. eauto.
    - intros s (ss & -> & HJ). cbn. f_equal. apply HsJ, HJ.
    - intros s u par (ss & -> & Hss) Hl Hp. destruct (HuJ ss u par Hss Hl Hp) as (u' & ss' & E & L' & J'). exists u', (SNode NList ss'). cbn [update chain_gt].
      destruct (HsJ ss Hss) as (_ & Hlen). rewrite Hlen, Nat.eqb_refl, E. cbn [rbind]. eauto.
  Qed.
  (** The branches of the wrappers agree. *)
  Lemma cond_like (I : state -> Prop) sg p c (a b : tree tensor * state) : (forall s, I s -> ssig s = sg) -> like p (fst a) -> like p (fst b) -> I (snd a) -> I (snd b) ->
    exists u' s', cond_us c (Ok a) (Ok b) = Ok (u', s') /\ like p u' /\ I s'.
  Proof.
    intros Hs La Lb Ia Ib. assert (E : cond_us c (Ok a) (Ok b) = Ok (if c then a else b)).
    { apply cond_us_Ok. exists a, b. split; [reflexivity|]. split; [reflexivity|]. split; [|reflexivity]. unfold sig_us. rewrite (Hs _ Ia), (Hs _ Ib). f_equal. destruct La, Lb. congruence. }
    rewrite E. destruct c; [destruct a|destruct b]; cbn [fst snd] in *; eauto.
  Qed.
  Lemma zeros_like_like p u : like p u -> like p (tmap zeros_like u).
  Proof. intros (A & W). rewrite zeros_of_eq. split; [now rewrite zeros_of_avals|apply zeros_of_wf]. Qed.
  Lemma safe_if_finite np T k p : safe np T p -> safe np (apply_if_finite T k) p.
  Proof.
    intros (I & sg & Hi & Hs & Hu).
    exists (fun s => exists a b c si, s = SNode NIfFinite [SInt iw64 a; SBool b; SInt iw64 c; si] /\ I si), (GNode NIfFinite [GInt iw64; GBool; GInt iw64; sg]). split; [|split].
    - intros p' Hp. destruct (Hi p' Hp) as (s0 & E & HI). eexists. cbn [init apply_if_finite]. rewrite E. split; [reflexivity|]. eauto 10.
    - intros s (a & b & c & si & -> & HI). cbn. now rewrite (Hs si HI).
    - intros s u par (a & b & c & si & -> & HI) Hl Hp. destruct (Hu si u par HI Hl Hp) as (u1 & s1 & E & L & I1). cbn [update apply_if_finite]. rewrite E.
      match goal with |- context [cond_us ?c ?x ?y] => destruct (cond_like I sg p c (u1, s1) (tmap zeros_like u, si) Hs L (zeros_like_like p u Hl) I1 HI) as (u2 & s2 & E2 & L2 & I2) end.
      rewrite E2. cbn [rbind]. eexists _, _. split; [reflexivity|]. split; [exact L2|]. eauto 10.
  Qed.
  Lemma safe_maybe np T f p : safe np T p -> safe np (maybe_update T f) p.
  Proof.
    intros (I & sg & Hi & Hs & Hu).
    exists (fun s => exists a si, s = SNode NMaybe [si; SInt iw64 a] /\ I si), (GNode NMaybe [sg; GInt iw64]). split; [|split].
    - intros p' Hp. destruct (Hi p' Hp) as (s0 & E & HI). eexists. cbn [init maybe_update]. rewrite E. split; [reflexivity|]. eauto 10.
    - intros s (a & si & -> & HI). cbn. now rewrite (Hs si HI).
    - intros s u par (a & si & -> & HI) Hl Hp. destruct (Hu si u par HI Hl Hp) as (u1 & s1 & E & L & I1). cbn [update maybe_update]. rewrite E.
      destruct (cond_like I sg p (f a) (u1, s1) (u, si) Hs L Hl I1 HI) as (u2 & s2 & E2 & L2 & I2).
      rewrite E2. cbn [rbind]. eexists _, _. split; [reflexivity|]. split; [exact L2|]. eauto 10.
  Qed.
  Lemma acc_like p u a : like p u -> like p a -> exists r, multi_acc u a = Ok r /\ like p r.
  Proof.
    intros (Hu & Wu) (Ha & Wa). destruct (tree_gzip u a) as (W & HWa & HWw & E1 & E2); [congruence|assumption|assumption|].
    exists (emapt (fun d z => fadd d (fst z) (snd z)) W). split.
    - unfold multi_acc. rewrite <- E1, <- E2. apply tmm2_ew. intros z. now rewrite bin_emap.
    - split; [rewrite emapt_avals; congruence|now apply emapt_wf].
  Qed.
  Lemma safe_multi T k b p : safe true T p -> safe true (multi_steps T k b) p.
  Proof.
    intros (I & sg & Hi & Hs & Hu).
    set (J := fun s => exists m g si a, s = SNode NMulti [SInt iw64 m; SInt iw64 g; si; STree a] /\ I si /\ like p a).
    exists J, (GNode NMulti [GInt iw64; GInt iw64; sg; GTree (avals p)]).
    assert (HJ : forall s, J s -> ssig s = GNode NMulti [GInt iw64; GInt iw64; sg; GTree (avals p)]) by (intros s (m & g & si & a & -> & HI & (A & _)); cbn; now rewrite (Hs si HI), A).
    split; [|split; [exact HJ|]].
    - intros p' Hp. destruct (Hi p' Hp) as (s0 & E & HI). eexists. cbn [init multi_steps]. unfold multi_init. rewrite E. cbn [rbind]. split; [reflexivity|]. exists 0%Z, 0%Z, s0, (tmap zeros_like p'). split; [reflexivity|]. split; [exact HI|now apply zeros_like_like].
    - intros s u par (m & g & si & a & -> & HI & Ha) Hl _. destruct (acc_like p u a Hl Ha) as (r & Er & Lr). cbn [update multi_steps]. unfold multi_update. rewrite Er. cbn [rbind].
      assert (Lm : like p (multi_mean b (k g) r)).
      { unfold multi_mean. destruct b; [|exact Lr]. destruct Lr as (A & W). split; [unfold avals; rewrite tmap_tmap; exact A|]. apply trwf_tmap; [|exact W]. intros t Ht. unfold sr. now apply emap_wf. }
      destruct (Hu si _ None HI Lm) as (u1 & s1 & E & L & I1); [now left|]. rewrite E. cbn [rbind]. apply (cond_like J _ p _ _ _ HJ); cbn [fst snd].
      + now apply zeros_like_like.
      + exact L.
      + exists (iwrap iw64 (m + 1)), g, si, r. auto.
      + exists 0%Z, (iwrap iw64 (g + 1)), s1, (tmap zeros_like r). split; [reflexivity|]. split; [exact I1|now apply zeros_like_like].
  Qed.

  (** flatten *)
  Lemma as_vector_like d p u : uniform d p -> trwf p -> like p u -> like (Leaf (as_vector d p)) (Leaf (as_vector d u)).
  Proof.
    intros Hd Wp (Ha & Wu). destruct (tree_gzip p u) as (W & HWa & HWw & E1 & E2); [congruence|assumption|assumption|].
    assert (HW : uniform d W) by (eapply uniform_avals; [|exact Hd]; congruence).
    split; [|apply as_vector_wf]. unfold avals. cbn [tmap]. f_equal. rewrite <- E1, <- E2, !as_vector_emapt by exact HW. reflexivity.
  Qed.
  Lemma split_reshape_total d (ls : list tensor) : forall l, ls <> [] -> length l = list_sum (map (fun x => prodn (shp x)) ls) ->
    exists q, split_reshape d l ls = Ok q /\ map aval q = map (fun x => (d, shp x)) ls /\ Forall twf q.
  Proof.
    induction ls as [|x ls IH]; intros l Hne Hl; [easy|]. destruct ls as [|y ls].
    - cbn in Hl. cbn [split_reshape]. rewrite Nat.add_0_r in Hl. rewrite Hl, Nat.eqb_refl. eexists. split; [reflexivity|]. split; [reflexivity|]. constructor; [exact Hl|constructor].
    - set (L := y :: ls) in *. cbn [map list_sum fold_right] in Hl. change (fold_right Nat.add 0 (map (fun x => prodn (shp x)) L)) with (list_sum (map (fun x => prodn (shp x)) L)) in Hl.
      assert (Hf : length (firstn (prodn (shp x)) l) = prodn (shp x)) by (rewrite firstn_length; lia).
      destruct (IH (skipn (prodn (shp x)) l)) as (q & Eq & Aq & Wq); [easy|rewrite skipn_length; lia|].
      exists (mkT d (shp x) (firstn (prodn (shp x)) l) :: q). split; [|split; [cbn; now rewrite Aq|now constructor]].
      change (split_reshape d l (x :: L)) with (if (length (firstn (prodn (shp x)) l) =? prodn (shp x))%nat then let* q := split_reshape d (skipn (prodn (shp x)) l) L in Ok (mkT d (shp x) (firstn (prodn (shp x)) l) :: q) else Err EType).
      rewrite Hf, Nat.eqb_refl, Eq. reflexivity.
  Qed.
  Lemma uncat_like d p u o : uniform d p -> trwf p -> like p u -> like (Leaf (as_vector d p)) o -> exists r, flat_uncat u o = Ok r /\ like p r.
  Proof.
    intros Hd Wp (Ha & Wu) (Ho & Wo). destruct o as [v|k l]; [|discriminate]. unfold avals in Ho. cbn in Ho. injection Ho as D S1. inversion Wo as [|? ? Wv _]; subst.
    unfold flat_uncat. rewrite S1.
    assert (Hu : uniform (dt v) u) by (eapply uniform_avals; [symmetry; exact Ha|exact Hd]).
    assert (El : map (fun x => prodn (shp x)) (leaves p) = map (fun x => prodn (shp x)) (leaves u)).
    { assert (El : map aval (leaves u) = map aval (leaves p)) by (rewrite <- !leaves_tmap; unfold avals in Ha; congruence).
      pose proof (map_map aval (fun a => prodn (snd a)) (leaves p)) as M1. pose proof (map_map aval (fun a => prodn (snd a)) (leaves u)) as M2. rewrite El in M2. exact (eq_trans (eq_sym M1) M2). }
    assert (Lf : forall t : tree tensor, trwf t -> length (flat_map dat (leaves t)) = list_sum (map (fun x => prodn (shp x)) (leaves t))).
    { intros t W. induction W as [|x l Hx W IH]; [reflexivity|]. cbn. rewrite app_length, IH, Hx. reflexivity. }
    destruct (split_reshape_total (dt v) (leaves u) (dat v)) as (q & Eq & Aq & Wq).
    { apply Hu. } { unfold twf in Wv. rewrite Wv, S1. cbn. rewrite <- El, <- Lf by exact Wp. lia. }
    rewrite Eq. cbn [rbind]. destruct (tunflatten_tmap u q) as (t & Et & Dt & Lt); [apply (f_equal (@length _)) in Aq; now rewrite !map_length in Aq|].
    exists t. split; [exact Et|]. split; [|unfold trwf; now rewrite Lt]. rewrite <- Ha. apply tree_ext; [unfold avals; now rewrite !tdef_tmap|]. unfold avals. rewrite !leaves_tmap, Lt, Aq.
    apply map_ext_in. intros x Hx. destruct Hu as (_ & Hu). rewrite Forall_forall in Hu. unfold aval. now rewrite (Hu x Hx).
  Qed.
  Lemma safe_flatten np T d p : uniform d p -> trwf p -> safe np T (Leaf (as_vector d p)) -> safe np (flatten T) p.
  Proof.
    intros Hd Wp (I & sg & Hi & Hs & Hu).
    assert (Hc : forall q, like p q -> flat_cat q = Ok (as_vector d q)) by (intros q (A & _); apply flat_cat_uniform; eapply uniform_avals; [symmetry; exact A|exact Hd]).
    exists I, sg. split; [|split; [exact Hs|]].
    - intros p' Hp. cbn [init flatten]. rewrite (Hc p' Hp). cbn [rbind]. apply Hi. now apply as_vector_like.
    - intros s u par HI Hl Hp. cbn [update flatten].
      assert (Hpp : exists fp, (match par with Some q => rmap (fun v => Some (Leaf v)) (flat_cat q) | None => Ok None end) = Ok fp /\ params_ok np (Leaf (as_vector d p)) fp).
      { destruct Hp as [(-> & E)|(q & -> & Hq)]; [exists None; split; [reflexivity|now left]|]. rewrite (Hc q Hq). eexists. split; [reflexivity|]. right. eexists. split; [reflexivity|now apply as_vector_like]. }
      destruct Hpp as (fp & -> & Hfp). cbn [rbind]. rewrite (Hc u Hl). cbn [rbind].
      destruct (Hu s (Leaf (as_vector d u)) fp HI (as_vector_like d p u Hd Wp Hl) Hfp) as (o & s1 & E & Lo & I1). rewrite E. cbn [rbind].
      destruct (uncat_like d p u o Hd Wp Hl Lo) as (r & Er & Lr). rewrite Er. cbn [rbind]. eauto.
  Qed.

  (** masked *)
  Lemma replace_like (L : list (bool * tree tensor)) : forall it, Forall2 (fun a b => avals b = avals a) (map snd (filter fst L)) it -> Forall trwf it -> Forall (fun x => trwf (snd x)) L ->
    exists l, replace_sel L it = Ok l /\ map avals l = map (fun x => avals (snd x)) L /\ Forall trwf l.
  Proof.
    induction L as [|[[] x] L IH]; intros it HF Wi WL; cbn [filter map fst snd] in HF.
    - exists []. cbn. auto.
    - inversion HF as [|? y ? it' Hy HF']; subst. inversion Wi as [|? ? Wy Wi']; subst. inversion WL as [|? ? Wx WL']; subst. destruct (IH it' HF' Wi' WL') as (l & E & A & W). exists (y :: l). cbn [replace_sel]. rewrite E. cbn [rbind map]. rewrite A, Hy. split; [reflexivity|]. split; [reflexivity|now constructor].
    - inversion WL as [|? ? Wx WL']; subst. destruct (IH it HF Wi WL') as (l & E & A & W). exists (x :: l). cbn [replace_sel]. rewrite E. cbn [rbind map]. rewrite A. split; [reflexivity|]. split; [reflexivity|now constructor].
  Qed.
  Lemma weave_like m u z lo : split_by m u z -> trwf u -> avals (Node KList lo) = avals (Node KList (picked z)) -> trwf (Node KList lo) ->
    exists l t, replace_sel (leaves z) lo = Ok l /\ tunflatten m l = Ok t /\ like u (tjoin t).
  Proof.
    intros (Em & Eu) Wu Ha Wl.
    assert (Wz : Forall (fun x => trwf (snd x)) (leaves z)).
    { rewrite <- Eu in Wu. unfold trwf in Wu. rewrite tjoin_leaves, leaves_tmap in Wu. clear - Wu. induction (leaves z) as [|x l IH]; [constructor|]. cbn in Wu. apply Forall_app in Wu as (A & B). constructor; [exact A|now apply IH]. }
    assert (Wlo : Forall trwf lo). { unfold trwf in Wl. cbn in Wl. clear - Wl. induction lo as [|x l IH]; [constructor|]. cbn in Wl. apply Forall_app in Wl as (A & B). constructor; [exact A|now apply IH]. }
    assert (HF : Forall2 (fun a b => avals b = avals a) (map snd (filter fst (leaves z))) lo).
    { unfold avals in Ha. cbn [tmap] in Ha. injection Ha as Ha. fold (picked z). clear - Ha. revert Ha. generalize (picked z) as q. induction lo as [|x lo IH]; intros [|y q] E; try discriminate; [constructor|]. cbn in E. injection E as E1 E2. constructor; [exact E1|now apply IH]. }
    destruct (replace_like (leaves z) lo HF Wlo Wz) as (l & El & Al & Wll).
    destruct (tunflatten_tmap m l) as (t & Et & Dt & Lt). { apply (f_equal (@length _)) in Al. rewrite !map_length in Al. rewrite Al, <- Em, leaves_tmap, map_length. reflexivity. }
    exists l, t. split; [exact El|]. split; [exact Et|]. split.
    - unfold avals. rewrite <- Eu, !tmap_tjoin, tmap_tmap. f_equal. apply tree_ext; [rewrite !tdef_tmap, Dt, <- Em, tdef_tmap; reflexivity|]. rewrite !leaves_tmap, Lt. exact Al.
    - unfold trwf. rewrite tjoin_leaves, Lt. clear - Wll. induction Wll as [|x l Hx W IH]; [constructor|]. cbn. apply Forall_app. split; assumption.
  Qed.
  Lemma safe_masked np T mask m p l0 : container p -> (forall u, like p u -> mask u = m) -> picks m p l0 -> safe np T (Node KList l0) -> safe np (masked T mask) p.
  Proof.
    intros Hc Hm Hp (I & sg & Hi & Hs & Hu). exists (fun s => exists si, s = SNode NMasked [si] /\ I si), (GNode NMasked [sg]). split; [|split].
    - intros p' Hl. destruct (picks_like _ _ _ _ Hp Hl) as (l & (z & Hz & El) & Hll). cbn [init masked]. rewrite (Hm p' Hl). apply split_tzip in Hz. rewrite Hz. cbn [rbind]. rewrite selected_picked, El.
      destruct (Hi _ Hll) as (s0 & E & HI). rewrite E. cbn [rbind]. eauto.
    - intros s (si & -> & HI). cbn. now rewrite (Hs si HI).
    - intros s u par (si & -> & HI) Hl Hpar. destruct (picks_like _ _ _ _ Hp Hl) as (l & (z & Hz & El) & Hll).
      assert (Hpp : exists b mp, truthy par = Ok b /\ (match b, par with true, Some q => let* y := tzip m q in Ok (Some (Node KList (selected y))) | _, _ => Ok None end) = Ok mp /\ params_ok np (Node KList l0) mp).
      { destruct Hpar as [(-> & E)|(q & -> & Hq)]; [exists false, None; split; [reflexivity|]; split; [reflexivity|now left]|].
        destruct (picks_like _ _ _ _ Hp Hq) as (lq & (y & Hy & Ey) & Hlq). exists true, (Some (Node KList lq)). split; [now apply (truthy_container p)|]. apply split_tzip in Hy. rewrite Hy. cbn [rbind]. rewrite selected_picked, Ey. split; [reflexivity|]. right. eauto. }
      destruct Hpp as (b & mp & Eb & Emp & Hmp). destruct (Hu si (Node KList l) mp HI Hll Hmp) as (o & s1 & Eo & Lo & I1). destruct (like_klist _ _ Lo) as (lo & -> & _).
      destruct (weave_like m u z lo Hz) as (r & t & Er & Et & Lt); [apply Hl|rewrite El; destruct Lo, Hll; congruence|apply Lo|].
      cbn [update masked]. rewrite (Hm u Hl). pose proof Hz as Hz2. apply split_tzip in Hz2. rewrite Hz2. cbn [rbind]. rewrite Eb. cbn [rbind]. rewrite Emp. cbn [rbind]. rewrite selected_picked, El, Eo. cbn [rbind iter_tree]. rewrite Er. cbn [rbind]. rewrite Et. cbn [rbind].
      eexists _, _. split; [reflexivity|]. split; [now apply (like_trans p u)|eauto].
  Qed.

  (** The transformations that are not element-wise *)
  Lemma emap_like p f u : like p u -> like p (tmap (emap f) u).
  Proof. intros (A & W). change (tmap (emap f) u) with (emapt f u). split; [now rewrite emapt_avals|now apply emapt_wf]. Qed.
  Lemma leafwise_like p u f : like p u -> (forall t, In t (leaves u) -> twf t -> exists r, f t = Ok r /\ aval r = aval t /\ twf r) -> exists u', tmapM f u = Ok u' /\ like p u'.
  Proof.
    intros (A & W) H. destruct (tree_choice (fun t r => f t = Ok r /\ aval r = aval t /\ twf r) u) as (w & Ew & Hw).
    { apply Forall_forall. intros t Ht. apply H; [exact Ht|]. unfold trwf in W. rewrite Forall_forall in W. auto. }
    rewrite Forall_forall in Hw. exists (tmap snd w). rewrite <- Ew at 1. rewrite tmapM_tmap, (tmapM_ext _ (fun e => Ok (snd e))) by (intros e He; apply Hw, He). rewrite tmapM_ok. split; [reflexivity|]. split.
    - rewrite <- A, <- Ew. unfold avals. rewrite !tmap_tmap. apply tmap_ext. intros e He. apply Hw, He.
    - unfold trwf. rewrite leaves_tmap. apply Forall_map, Forall_forall. intros e He. apply Hw, He.
  Qed.
  Lemma safe_zero_nans p : safe true zero_nans p.
  Proof.
    exists (fun s => exists t, s = SNode NZeroNans [SBTree t] /\ tdef t = tdef p), (GNode NZeroNans [GBTree (tdef p)]). split; [|split].
    - intros p' (A & _). eexists. split; [reflexivity|]. eexists. split; [reflexivity|]. rewrite tdef_tmap. now apply tdef_avals.
    - intros s (t & -> & E). cbn. now rewrite E.
    - intros s u par _ Hl _. eexists _, _. split; [reflexivity|]. split; [now apply emap_like|]. eexists. split; [reflexivity|]. rewrite tdef_tmap. destruct Hl as (A & _). now apply tdef_avals.
  Qed.
  Lemma safe_global_norm p d c : Forall (fun t => dt t = d) (leaves p) -> safe true (clip_by_global_norm c) p.
  Proof.
    intros Hd. apply (safe_simple true _ p EmptyState); [reflexivity|]. intros u par Hl _.
    assert (Hu : Forall (fun t => dt t = d) (leaves u)).
    { destruct Hl as (A & _). assert (El : map aval (leaves u) = map aval (leaves p)) by (rewrite <- !leaves_tmap; unfold avals in A; congruence).
      rewrite <- (Forall_map aval (fun a => fst a = d)), El, Forall_map. exact Hd. }
    pose proof (cbgn_gen u c d EmptyState par (proj2 Hl) Hu) as E. cbv zeta in E. rewrite E. eexists. split; [reflexivity|now apply emap_like].
  Qed.
  Lemma safe_centralize p : safe true centralize p.
  Proof.
    apply (safe_simple true _ p EmptyState); [reflexivity|]. intros u par Hl _. destruct (leafwise_like p u subtract_mean Hl) as (u' & E & L).
    - intros t _ W. unfold subtract_mean. destruct (Nat.ltb 1 (length (shp t))); [|eauto].
      rewrite (bin_reduced fsub (not_first (shp t)) t _ W (reduce_wf _ _ _)); [|unfold not_first; destruct (shp t); cbn; now rewrite ?map_length|reflexivity].
      eexists. split; [reflexivity|]. split; [|apply tab_wf]. rewrite tab_aval. unfold aval. cbn [dt reduce tab]. now rewrite promote_same.
    - exists u'. cbn [update centralize stateless]. rewrite E. auto.
  Qed.
  Lemma unitwise_norm_like x : twf x -> (exists ax, unit_axes (shp x) = Ok ax) -> exists n, unitwise_norm x = Ok n /\ aval n = (dt x, nshape (shp x)) /\ twf n.
  Proof.
    intros W (ax & E). unfold unitwise_norm. rewrite E. cbn [rbind]. unfold nshape, unit_red. rewrite E. destruct ax as [red|]; eexists; (split; [reflexivity|]); (split; [reflexivity|]); unfold sr; apply emap_wf; [apply reduce_wf|reflexivity].
  Qed.
  Lemma unitwise_clip_like a b g : twf g -> (exists ax, unit_axes (shp g) = Ok ax) -> twf a -> twf b -> aval a = (dt g, nshape (shp g)) -> aval b = (dt g, nshape (shp g)) ->
    exists r, unitwise_clip a b g = Ok r /\ aval r = aval g /\ twf r.
  Proof.
    intros Wg Hax Wa Wb Ea Eb. unfold aval in Ea, Eb. injection Ea as Da Sa. injection Eb as Db Sb. unfold unitwise_clip, bcmp. rewrite Sa, Sb, bshape_same. cbn [rbind].
    match goal with |- context [bin fdiv b ?x] => set (gm := x) end. assert (Wgm : twf gm) by now apply emap_wf. assert (Sgm : shp gm = nshape (shp g)) by exact Sa.
    rewrite (bin_same_tab fdiv b gm Wb Wgm (eq_trans Sb (eq_sym Sgm))). cbn [rbind].
    match goal with |- context [bin fmul g ?x] => set (q := x) end. assert (Wq : twf q) by apply tab_wf. assert (Sq : shp q = nshape (shp g)) by exact Sb.
    assert (Dq : dt q = dt g) by (unfold q; cbn [dt tab]; rewrite Db; change (dt gm) with (dt a); rewrite Da; apply promote_same).
    rewrite (bin_tab fmul g q (shp g) Wg Wq) by (rewrite Sq; now apply bshape_n). cbn [rbind]. unfold twhere_b. cbn [shp tab dt]. rewrite bshape_same, bshape_n_l by assumption.
    eexists. split; [reflexivity|]. split; [|apply tab_wf]. rewrite tab_aval, Dq, !promote_same. reflexivity.
  Qed.
  Lemma safe_adaptive p c eps : Forall (fun t => one_unit (shp t) = true \/ 2 <= length (shp t) <= 4) (leaves p) -> safe false (adaptive_grad_clip c eps) p.
  Proof.
    intros Hr. apply (safe_simple false _ p EmptyState); [reflexivity|]. intros u par (Ha & Wu) [(_ & ?)|(q & -> & (Hqa & Wq))]; [discriminate|].
    assert (Hax : forall s, one_unit s = true \/ 2 <= length s <= 4 -> exists ax, unit_axes s = Ok ax).
    { intros s Hs. unfold unit_axes. rewrite <- one_unit_eq. destruct (one_unit s); [eauto|]. destruct Hs as [|Hs]; [discriminate|].
      destruct s as [|? [|? [|? [|? [|? ?]]]]]; cbn in Hs; try lia; eauto. }
    destruct (tree_pair aval aval u q) as (z & Z1 & Z2 & Zs); [unfold avals in *; congruence|].
    assert (Hu : Forall (fun t => exists ax, unit_axes (shp t) = Ok ax) (leaves u)).
    { assert (El : map aval (leaves u) = map aval (leaves p)) by (rewrite <- !leaves_tmap; unfold avals in Ha; congruence).
      rewrite <- (Forall_map aval (fun a => exists ax, unit_axes (snd a) = Ok ax)), El, Forall_map. eapply Forall_impl; [|exact Hr]. intros t Ht. now apply Hax. }
    set (f := fun d x => fmul d (fcast d c) (fmax x (fcast d eps))).
    destruct (tree_choice (fun e (r : tensor * tensor * tensor) => unitwise_norm (fst e) = Ok (fst (fst r)) /\ unitwise_norm (snd e) = Ok (snd (fst r)) /\
      unitwise_clip (fst (fst r)) (emap f (snd (fst r))) (fst e) = Ok (snd r) /\ aval (snd r) = aval (fst e) /\ twf (snd r)) z) as (w & Ew & Hw).
    { unfold trwf in *. rewrite <- Z1, leaves_tmap, Forall_map in Wu, Hu. rewrite <- Z2, leaves_tmap, Forall_map in Wq. rewrite Forall_forall in *. intros e He.
      pose proof (Zs e He) as Ee. assert (Es : shp (snd e) = shp (fst e) /\ dt (snd e) = dt (fst e)) by (unfold aval in Ee; split; congruence). destruct Es as (Es & Ed).
      destruct (unitwise_norm_like (fst e) (Wu e He) (Hu e He)) as (a & E1 & A1 & W1). destruct (unitwise_norm_like (snd e) (Wq e He)) as (b & E2 & A2 & W2); [rewrite Es; exact (Hu e He)|].
      destruct (unitwise_clip_like a (emap f b) (fst e)) as (r & E3 & A3 & W3); [apply Wu, He|apply Hu, He|exact W1|now apply emap_wf|exact A1|rewrite emap_aval, A2; congruence|].
      exists (a, b, r). cbn [fst snd]. auto 10. }
    rewrite Forall_forall in Hw. exists (tmap (fun e => snd (snd e)) w).
    assert (Eu : u = tmap (fun e => fst (fst e)) w) by (rewrite <- Z1, <- Ew, tmap_tmap; reflexivity).
    assert (Ep : q = tmap (fun e => snd (fst e)) w) by (rewrite <- Z2, <- Ew, tmap_tmap; reflexivity).
    split; [|split].
    - cbn [update adaptive_grad_clip stateless]. rewrite Eu, Ep, !tmapM_tmap.
      rewrite (tmapM_ext _ (fun q => Ok (fst (fst (snd q))))) by (intros e He; apply Hw, He). rewrite tmapM_ok. cbn [rbind].
      rewrite (tmapM_ext _ (fun q => Ok (snd (fst (snd q))))) by (intros e He; apply Hw, He). rewrite tmapM_ok. cbn [rbind].
      rewrite tmap_tmap, tmm3_same. rewrite (tmapM_ext _ (fun q => Ok (snd (snd q)))) by (intros e He; apply Hw, He). rewrite tmapM_ok. reflexivity.
    - rewrite <- Ha, Eu. unfold avals. rewrite !tmap_tmap. apply tmap_ext. intros e He. apply Hw, He.
    - unfold trwf. rewrite leaves_tmap. apply Forall_map, Forall_forall. intros e He. apply Hw, He.
  Qed.
  Lemma leaves_like {B} (g : fdt * list nat -> B) (Q : B -> Prop) p q : like p q -> Forall (fun t => Q (g (aval t))) (leaves p) -> Forall (fun t => Q (g (aval t))) (leaves q).
  Proof.
    intros (A & _) H. assert (El : map aval (leaves q) = map aval (leaves p)) by (rewrite <- !leaves_tmap; unfold avals in A; congruence).
    rewrite <- (Forall_map aval (fun a => Q (g a))), El, Forall_map. exact H.
  Qed.
  Lemma safe_sm3 p b1 b2 eps : Forall (fun t => dt t = defdt /\ shp t <> [] /\ Forall (fun n => 0 < n) (shp t)) (leaves p) -> safe true (scale_by_sm3 b1 b2 eps) p.
  Proof.
    intros Hp. apply (safe_of_stable true _ p (GNode NSM3 [GTree (tjoin (tmap (fun a => musig (snd a)) (avals p))); GTree (avals p)])).
    - intros p' Hl. apply stable_sm3; [|apply Hl]. exact (leaves_like (fun a => a) (fun a => fst a = defdt /\ snd a <> [] /\ Forall (fun n => 0 < n) (snd a)) p p' Hl Hp).
    - intros p' s' (A & W) E. injection E as <-. cbn [ssig map]. rewrite <- A. unfold avals. rewrite tjoin_tmap, !tmap_tmap. f_equal. f_equal.
      f_equal. f_equal. apply tmap_ext. intros t _. unfold zeros_for_dim, musig. cbn. f_equal. rewrite map_map. reflexivity.
  Qed.
  Lemma safe_noise p eta gamma seed : (forall k n, length (ksplit k n) = n) -> safe true (add_noise eta gamma seed) p.
  Proof.
    intros Hk. apply (safe_of_stable true _ p (GNode NNoise [GInt I32; GKey])); [intros; now apply stable_noise|]. intros p' s' _ [= <-]. reflexivity.
  Qed.
  Lemma safe_trust p m : safe false (scale_by_trust_ratio m) p.
  Proof. apply (safe_of_stable false _ p (GNode NTrust [])); [intros p' (_ & W); now apply stable_trust|]. intros p' s' _ [= <-]. reflexivity. Qed.
  Lemma safe_lr p L : safe true (scale_by_learning_rate L) p.
  Proof. destruct L; cbn [scale_by_learning_rate]; eapply safe_refines; [apply refines_scale|apply refines_schedule]. Qed.
  Lemma picks_wf m (p : tree tensor) l : picks m p l -> trwf p -> trwf (Node KList l).
  Proof. intros Hp W. destruct (picks_like m p p l Hp) as (l' & Hl & (_ & Wl)); [split; [reflexivity|exact W]|]. now rewrite (picks_fun _ _ _ _ Hp Hl). Qed.

  Fixpoint pipeline_safe np p T (H : pipeline np p T) {struct H} : trwf p -> safe np T p.
  Proof.
    destruct H; intros W.
    - destruct (elementwise_machine np T H) as (M & HM & _). eapply safe_refines, HM.
    - apply safe_lr.
    - apply safe_zero_nans.
    - eapply safe_global_norm, H.
    - now apply safe_adaptive.
    - apply safe_centralize.
    - apply safe_trust.
    - now apply safe_noise.
    - now apply safe_sm3.
    - apply safe_weaken, pipeline_safe; assumption.
    - assert (c = chain_gt ts) as -> by (destruct ts; cbn in *; congruence). apply safe_chain. clear H0. induction H as [|T ts HT HF IH]; constructor; [apply pipeline_safe; assumption|exact IH].
    - apply safe_if_finite, pipeline_safe; assumption.
    - apply safe_maybe, pipeline_safe; assumption.
    - apply safe_multi, pipeline_safe; assumption.
    - eapply safe_flatten; [exact H|exact W|]. apply pipeline_safe; [assumption|apply as_vector_wf].
    - eapply safe_masked; [exact H|exact H0|exact H1|]. apply pipeline_safe; [assumption|]. eapply picks_wf; eauto.
  Qed.

  Lemma safe_run np T p : safe np T p -> forall p' H, like p p' -> Forall (fun h => like p (fst h) /\ params_ok np p (snd h)) H ->
    exists s0 outs s1, init T p' = Ok s0 /\ run T s0 H = Ok (outs, s1) /\ length outs = length H /\ Forall (like p) outs /\ ssig s1 = ssig s0.
  Proof.
    intros (I & sg & Hi & Hs & Hu) p' H Hp HH. destruct (Hi p' Hp) as (s0 & E0 & I0). exists s0.
    assert (G : forall s, I s -> exists outs s1, run T s H = Ok (outs, s1) /\ length outs = length H /\ Forall (like p) outs /\ I s1).
    { clear E0 I0 s0. induction HH as [|[u par] H (Hl & Hpar) HH IH]; intros s HI; [exists [], s; auto|]. cbn [fst snd] in *. destruct (Hu s u par HI Hl Hpar) as (u' & s' & E & L & I').
      destruct (IH s' I') as (outs & s1 & Er & Hlen & Ho & I1). exists (u' :: outs), s1. cbn [run]. rewrite E. cbn [rbind]. rewrite Er. split; [reflexivity|]. split; [cbn; congruence|]. split; [now constructor|exact I1]. }
    destruct (G s0 I0) as (outs & s1 & Er & Hlen & Ho & I1). exists outs, s1. split; [exact E0|]. split; [exact Er|]. split; [exact Hlen|]. split; [exact Ho|]. now rewrite (Hs s1 I1), (Hs s0 I0).
  Qed.
  Lemma safe_init_sig np T p : safe np T p -> forall p1 p2 s1 s2, like p p1 -> like p p2 -> init T p1 = Ok s1 -> init T p2 = Ok s2 -> ssig s1 = ssig s2.
  Proof.
    intros (I & sg & Hi & Hs & _) p1 p2 s1 s2 L1 L2 E1 E2. destruct (Hi p1 L1) as (a & Ea & Ia). destruct (Hi p2 L2) as (b & Eb & Ib). rewrite E1 in Ea. rewrite E2 in Eb. injection Ea as ->. injection Eb as ->. now rewrite (Hs _ Ia), (Hs _ Ib).
  Qed.
  Lemma run_app T : forall H1 H2 s o1 o2 s1 s2, run T s H1 = Ok (o1, s1) -> (run T s (H1 ++ H2) = Ok (o1 ++ o2, s2) <-> run T s1 H2 = Ok (o2, s2)).
  Proof.
    induction H1 as [|[u par] H1 IH]; intros H2 s o1 o2 s1 s2 E.
    - injection E as <- <-. reflexivity.
    - rewrite run_cons in E. apply rbind_Ok in E as ([o s'] & Eu & E). apply rbind_Ok in E as ([os s3] & Er & E). injection E as <- <-. cbn [app]. rewrite run_cons, Eu. cbn [rbind].
      rewrite <- (IH H2 s' os o2 s3 s2 Er). destruct (run T s' (H1 ++ H2)) as [[a b]|e]; cbn; split; congruence.
  Qed.
  Lemma apply_like p q u : like p q -> like p u -> exists r, apply_updates q u = Ok r /\ like p r.
  Proof.
    intros (Hq & Wq) (Hu & Wu). destruct (tree_gzip q u) as (W & HWa & HWw & E1 & E2); [congruence|assumption|assumption|].
    exists (emapt (fun d z => fadd d (fst z) (snd z)) W). split.
    - unfold apply_updates. rewrite <- E1, <- E2. apply tmm2_ew. intros z. rewrite bin_emap. cbn [rbind]. f_equal. exact (astype_same (emap (fun d z => fadd d (fst z) (snd z)) z)).
    - split; [rewrite emapt_avals; congruence|now apply emapt_wf].
  Qed.
End Ckpt.

(** A history a user can feed to an optimiser built for [p]: gradients like [p]; params like [p] at every call, or absent when nothing asks for them. *)
Definition calls_ok `{O : Ops} (np : bool) (p : tree tensor) (H : list (tree tensor * option (tree tensor))) : Prop :=
  Forall (fun h => like p (fst h) /\ ((snd h = None /\ np = true) \/ exists q, snd h = Some q /\ like p q)) H.

(*@ C87_never_raises : Take any optimiser assembled, to any depth of nesting, from the element-wise transformations, learning rates, zero_nans, clip_by_global_norm, adaptive_grad_clip, centralize, scale_by_trust_ratio, add_noise and scale_by_sm3 with chain, apply_if_finite, maybe_update, MultiSteps, flatten and masked, in any arithmetic (NaN and Inf included): init succeeds, no call of update on any history raises, every update has the structure, shapes and dtypes of the parameters, and the state always has the structure, shapes and dtypes it had at init. *)
Lemma pipelines_run : forall `{O : Ops} (np : bool) (p : tree tensor) (T : GT) (H : list (tree tensor * option (tree tensor))),
  pipeline np p T -> trwf p -> calls_ok np p H ->
  exists s0 outs s1, init T p = Ok s0 /\ run T s0 H = Ok (outs, s1) /\ length outs = length H /\ Forall (like p) outs /\ ssig s1 = ssig s0.
Proof.
  intros O np p T H HT W HH. eapply safe_run; [eapply pipeline_safe; eauto|split; [reflexivity|exact W]|exact HH].
Qed.

(*@ C87_resume : Checkpointing. Stop such an optimiser after any number of steps and keep only the arrays of its state (jax.tree_leaves); in a new process call init on any parameters of the same signature and put the saved arrays into that state's structure. The result is the state that was saved, and the rest of the run returns exactly the updates and the final state of the run that was never interrupted. *)
Lemma pipelines_resume : forall `{O : Ops} (np : bool) (p p' : tree tensor) (T : GT) (H1 H2 : list (tree tensor * option (tree tensor))),
  pipeline np p T -> trwf p -> calls_ok np p (H1 ++ H2) -> like p p' ->
  exists s0 out1 s1 out2 s2 f0, init T p = Ok s0 /\ run T s0 H1 = Ok (out1, s1) /\ run T s0 (H1 ++ H2) = Ok (out1 ++ out2, s2) /\
    init T p' = Ok f0 /\ restore f0 (save s1) = Some s1 /\ run T s1 H2 = Ok (out2, s2).
Proof.
  intros O np p p' T H1 H2 HT W HH Hp'. pose proof (pipeline_safe np p T HT W) as HS. unfold calls_ok in HH. apply Forall_app in HH as (HH1 & HH2).
  assert (Hp : like p p) by (split; [reflexivity|exact W]).
  destruct (safe_run np T p HS p H1 Hp HH1) as (s0 & out1 & s1 & E0 & E1 & _ & _ & Sg1).
  destruct (safe_run np T p HS p (H1 ++ H2) Hp) as (t0 & out & s2 & F0 & F1 & _); [apply Forall_app; auto|]. rewrite E0 in F0. injection F0 as <-.
  destruct (safe_run np T p HS p' [] Hp' (Forall_nil _)) as (f0 & _ & _ & G0 & _).
  assert (Hr : exists out2, out = out1 ++ out2).
  { clear - E1 F1. revert s0 out1 out E1 F1. induction H1 as [|[u par] H1 IH]; intros s0 out1 out E F; [injection E as <- _; now exists out|].
    cbn [app] in F. rewrite run_cons in E, F. apply rbind_Ok in E as ([o s'] & Eu & E). apply rbind_Ok in E as ([os s3] & Er & E). injection E as <- <-. rewrite Eu in F. cbn [rbind] in F. apply rbind_Ok in F as ([os' s4] & Fr & F). injection F as <- <-.
    destruct (IH s' os os' Er Fr) as (o2 & ->). exists o2. reflexivity. }
  destruct Hr as (out2 & ->). exists s0, out1, s1, out2, s2, f0. split; [exact E0|]. split; [exact E1|]. split; [exact F1|]. split; [exact G0|]. split.
  - apply restore_save. rewrite Sg1. exact (safe_init_sig np T p HS p p' s0 f0 Hp Hp' E0 G0).
  - exact (proj1 (run_app T H1 H2 s0 out1 out2 s1 s2 E1) F1).
Qed.

(** The user's training loop: [grad i q] are the gradients of step [i] at the parameters [q], whatever function computes them. *)
Fixpoint fit `{O : Ops} (T : GT) (grad : nat -> tree tensor -> tree tensor) (n : nat) (p : tree tensor) : result (tree tensor * state) :=
  match n with
  | 0 => let* s := init T p in Ok (p, s)
  | S m => let* (q, s) := fit T grad m p in
           let* (u, s') := update T (grad m q) s (Some q) in
           let* q' := apply_updates q u in Ok (q', s')
  end.
(*@ C87_training : Training never raises: for every such optimiser, every well-formed parameters, any number of steps and any gradient function whose result has the signature of the parameters (its values may be anything, NaN and Inf included), the loop of update and apply_updates succeeds at every step, the parameters keep their structure, shapes and dtypes, and the optimiser state keeps its signature. *)
Lemma pipelines_train : forall `{O : Ops} (np : bool) (p : tree tensor) (T : GT) (grad : nat -> tree tensor -> tree tensor) (n : nat),
  pipeline np p T -> trwf p -> (forall i q, like p q -> like p (grad i q)) ->
  exists s0 q s, init T p = Ok s0 /\ fit T grad n p = Ok (q, s) /\ like p q /\ ssig s = ssig s0.
Proof.
  intros O np p T grad n HT W Hg. destruct (pipeline_safe np p T HT W) as (I & sg & Hi & Hs & Hu).
  assert (Hp : like p p) by (split; [reflexivity|exact W]). destruct (Hi p Hp) as (s0 & E0 & I0). exists s0.
  assert (K : forall n, exists q s, fit T grad n p = Ok (q, s) /\ like p q /\ I s).
  { intros m. induction m as [|m (q & s & E & L & HI)]; [exists p, s0; cbn [fit]; rewrite E0; auto|].
    destruct (Hu s (grad m q) (Some q) HI (Hg m q L)) as (u & s' & Eu & Lu & I'); [right; eauto|].
    destruct (apply_like p q u L Lu) as (q' & Eq & Lq). exists q', s'. cbn [fit]. rewrite E. cbn [rbind]. rewrite Eu. cbn [rbind]. rewrite Eq. auto. }
  destruct (K n) as (q & s & E & L & HI). exists q, s. split; [exact E0|]. split; [exact E|]. split; [exact L|]. now rewrite (Hs s HI), (Hs s0 I0).
Qed.

(** ** An assembled optimiser: gradients cleaned and clipped, Adam with weight decay on the matrix only (mask), noise on a flattened copy, all under apply_if_finite. *)
Definition ex_mask : tree bool := tmap (fun t : gt XR => Nat.ltb 1 (length (shp t))) ex_p.
Definition ex_pipe `{P : Platform} (a c f : GT) : Prop :=
  chain [@scale_by_adam (XROps P) (Fin (9/10)) (Fin (999/1000)) (Fin 1) (Fin 0); add_decayed_weights (Fin 3)] = Ok a /\
  chain [zero_nans; clip_by_global_norm (Fin 1); masked a (fun _ => ex_mask); flatten centralize; scale_by_learning_rate (@LConst (XROps P) (Fin 2))] = Ok c /\
  f = apply_if_finite c 3.
Lemma pl_chain_gt `{O : Ops} np p t ts : Forall (pipeline np p) (t :: ts) -> pipeline np p (chain_gt (t :: ts)).
Proof. intros H. eapply pl_chain; [exact H|reflexivity]. Qed.
Lemma picks_dec {A} (m : tree bool) (t : tree A) : (exists z, tzip m t = Ok z) -> exists l, picks m t l.
Proof. intros (z & E). exists (picked z), z. split; [now apply split_tzip|reflexivity]. Qed.
(*@ex C87_example *)
Lemma pipe_example : forall `{P : Platform}, exists a c f, ex_pipe a c f /\ pipeline false ex_p f /\ trwf ex_p /\ calls_ok false ex_p ex_H /\
  pipeline true ex_p (multi_steps (chain_gt [flatten (scale (Fin 2)); zero_nans]) (fun _ => 3%Z) true) /\
  exists s0 outs s1, init f ex_p = Ok s0 /\ run f s0 ex_H = Ok (outs, s1) /\ length outs = 3 /\ restore s0 (save s1) = Some s1.
Proof.
  intros P. eexists _, _, _. assert (HP : ex_pipe _ _ _) by (split; [reflexivity|split; reflexivity]). split; [exact HP|].
  assert (Hcs : calls_ok false ex_p ex_H) by (unfold calls_ok, ex_H; repeat (apply Forall_cons; [split; [split; [reflexivity|apply ex_g_wf]|right; exists ex_p; split; [reflexivity|split; [reflexivity|apply ex_p_wf]]]|]); apply Forall_nil).
  assert (Hpl : pipeline false ex_p (apply_if_finite (chain_gt [zero_nans; clip_by_global_norm (Fin 1); masked (chain_gt [@scale_by_adam (XROps P) (Fin (9/10)) (Fin (999/1000)) (Fin 1) (Fin 0); add_decayed_weights (Fin 3)]) (fun _ => ex_mask); flatten centralize; scale_by_learning_rate (@LConst (XROps P) (Fin 2))]) 3)).
  { apply pl_if_finite. apply pl_chain_gt. repeat (apply Forall_cons; [|]); try apply Forall_nil.
    - apply pl_weaken, pl_zero_nans.
    - apply pl_weaken. apply (@pl_global_norm (XROps P) ex_p F32). repeat constructor.
    - destruct (picks_dec ex_mask ex_p) as (l & Hl); [eexists; reflexivity|]. eapply (@pl_masked (XROps P)); [exact I|reflexivity|exact Hl|].
      apply pl_chain_gt. repeat (apply Forall_cons; [|]); try apply Forall_nil.
      + apply pl_weaken, pl_elementwise, ew_adam.
      + apply pl_elementwise, ew_wd.
    - apply (@pl_flatten (XROps P) false ex_p F32); [split; [discriminate|repeat constructor]|]. apply pl_weaken, pl_centralize.
    - apply pl_weaken, pl_learning_rate. }
  split; [exact Hpl|]. split; [apply ex_p_wf|]. split; [exact Hcs|]. split.
  - apply pl_multi_steps. apply pl_chain_gt. repeat (apply Forall_cons; [|]); try apply Forall_nil; [|apply pl_zero_nans].
    apply (@pl_flatten (XROps P) true ex_p F32); [split; [discriminate|repeat constructor]|]. apply pl_elementwise, ew_scale.
  - destruct (@pipelines_run (XROps P) false ex_p _ ex_H Hpl ex_p_wf Hcs) as (s0 & outs & s1 & E0 & E1 & L & _ & Sg). exists s0, outs, s1. split; [exact E0|]. split; [exact E1|]. split; [exact L|]. now apply restore_save.
Qed.

(** ** What counts as finite *)
Lemma tree_finite_spec `{O : Ops} (u : tree tensor) : all_finite u = true <-> forall pos x, elt u pos = Some x -> fisfinite x = true.
Proof.
  unfold all_finite, elt. rewrite forallb_forall. split.
  - intros H [j i] x. cbn [fst snd]. destruct (nth_error (leaves u) j) as [t|] eqn:E; [|discriminate]. intros Ex. apply nth_error_In in E, Ex. specialize (H t E). rewrite forallb_forall in H. auto.
  - intros H t Ht. apply forallb_forall. intros x Hx. apply In_nth_error in Ht as (j & Ej), Hx as (i & Ei). apply (H (j, i)). cbn [fst snd]. rewrite Ej. exact Ei.
Qed.
Lemma finite_flag `{O : Ops} inner max u s par u' s' : update (apply_if_finite inner max) u s par = Ok (u', s') -> exists w a w' c si, s' = SNode NIfFinite [SInt w a; SBool (all_finite u); SInt w' c; si].
Proof.
  cbn [update apply_if_finite]. destruct s as [| | | | | |[] l]; try discriminate. destruct l as [|x l]; try discriminate. destruct x as [w nf| | | | | |]; try discriminate. destruct l as [|y l]; try discriminate. destruct l as [|z l]; try discriminate. destruct z as [w' t| | | | | |]; try discriminate. destruct l as [|si l]; try discriminate. destruct l; try discriminate.
  intros H. apply rbind_Ok in H as ([o s2] & _ & H). injection H as <- <-. eauto 10.
Qed.
(*@ C30_what_is_finite : apply_if_finite reports an update as finite (the second field of its state, last_finite) exactly when every element of every leaf is an ordinary number: neither an infinity nor NaN, in exact and in IEEE arithmetic. *)
Lemma finite_means : forall (P : Platform) (L : Libm) (max : Z),
  (forall (inner : @GT (XROps P)) u s par u' s', update (apply_if_finite inner max) u s par = Ok (u', s') ->
     exists last n1 n2 rest, s' = SNode NIfFinite [n1; SBool last; n2; rest] /\ (last = true <-> forall pos x, elt u pos = Some x -> x <> PInf /\ x <> NInf /\ x <> NaN)) /\
  (forall (inner : @GT (FlOps L)) u s par u' s', update (apply_if_finite inner max) u s par = Ok (u', s') ->
     exists last n1 n2 rest, s' = SNode NIfFinite [n1; SBool last; n2; rest] /\ (last = true <-> forall pos x, elt u pos = Some x -> x <> If false /\ x <> If true /\ x <> Na)).
Proof.
  intros P L max. split.
  - intros inner u s par u' s' H. destruct (finite_flag _ _ _ _ _ _ _ H) as (w & a & w' & c & si & ->). eexists _, _, _, _. split; [reflexivity|].
    rewrite (@tree_finite_spec (XROps P) u). split; intros G pos x E; specialize (G pos x E); destruct x; cbn in *; try easy; try tauto.
  - intros inner u s par u' s' H. destruct (finite_flag _ _ _ _ _ _ _ H) as (w & a & w' & c & si & ->). eexists _, _, _, _. split; [reflexivity|].
    rewrite (@tree_finite_spec (FlOps L) u). split; intros G pos x E; specialize (G pos x E); destruct x as [| |[]|]; cbn in *; try easy; try tauto.
Qed.
