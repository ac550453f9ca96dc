(** Scalar machines: element-wise transformations are refined to a step function on the state of
    one element; a tree-level state is a tree of arrays of machine states. *)
From Verif Require Export M_clipping.

Section Machines.
  Context `{O : Ops}.
  Notation updates := (tree tensor).
  Notation params := (option (tree tensor)).

  (** [m_step n d g p e]: at the n-th call (from 0), for an element of dtype [d] with gradient [g],
      current parameter [p] and state [e]: the emitted update and the new state. *)
  Record machine := mkM {
    mE : Type;
    m_init : fdt -> F -> mE;
    m_step : nat -> fdt -> F -> F -> mE -> F * mE;
  }.

  (** [np]: the transformation does not look at params (it may be None). *)
  Definition refines (np : bool) (T : GT) (M : machine) : Prop :=
    exists (repr : nat -> tree (gt (mE M)) -> state) (sg : tree (fdt * list nat) -> ssg),
      (forall p, trwf p -> init T p = Ok (repr 0 (emapt (m_init M) p))) /\
      (forall n Z, ssig (repr n Z) = sg (avals Z)) /\
      (np = true -> forall n d g p p' e, m_step M n d g p e = m_step M n d g p' e) /\
      (forall n (W : tree (gt (F * F * mE M))) par,
          trwf W ->
          (np = false -> par = Some (emapt (fun _ z => snd (fst z)) W)) ->
          update T (emapt (fun _ z => fst (fst z)) W) (repr n (emapt (fun _ z => snd z) W)) par =
          Ok (emapt (fun d z => fst (m_step M n d (fst (fst z)) (snd (fst z)) (snd z))) W,
              repr (S n) (emapt (fun d z => snd (m_step M n d (fst (fst z)) (snd (fst z)) (snd z))) W))).

  (** State of one element after [n] calls with gradients [gs] and params [ps]. *)
  Fixpoint mst (M : machine) (d : fdt) (x : F) (gs ps : nat -> F) (n : nat) : mE M :=
    match n with
    | 0 => m_init M d x
    | S k => snd (m_step M k d (gs k) (ps k) (mst M d x gs ps k))
    end.
  Definition mout (M : machine) d x gs ps n : F :=
    fst (m_step M n d (gs n) (ps n) (mst M d x gs ps n)).

  (** Histories whose gradients (and params, when used) look like the parameters. *)
  Definition like (p q : tree tensor) : Prop := avals q = avals p /\ trwf q.
  Definition hist_ok (np : bool) (p : tree tensor) (H : list (updates * params)) : Prop :=
    Forall (fun h => like p (fst h) /\ (np = false -> exists q, snd h = Some q /\ like p q)) H.
  (** Element of the n-th gradient / params / output. *)
  Definition helt (H : list (updates * params)) (n : nat) (pos : nat * nat) : option F :=
    match nth_error H n with Some h => elt (fst h) pos | None => None end.
  Definition hpelt (H : list (updates * params)) (n : nat) (pos : nat * nat) : option F :=
    match nth_error H n with Some (_, Some q) => elt q pos | _ => None end.
  Definition oelt (outs : list updates) (n : nat) (pos : nat * nat) : option F :=
    match nth_error outs n with Some o => elt o pos | None => None end.

  Lemma mst_ext M d x gs ps gs' ps' n :
    (forall i, i < n -> gs i = gs' i) -> (forall i, i < n -> ps i = ps' i) ->
    mst M d x gs ps n = mst M d x gs' ps' n.
  Proof.
    intros Hg Hp. induction n as [|n IH]; cbn; [reflexivity|].
    rewrite IH, Hg, Hp; auto.
  Qed.

  Lemma mst_indep M d x gs ps ps' n :
    (forall n d g p p' e, m_step M n d g p e = m_step M n d g p' e) ->
    mst M d x gs ps n = mst M d x gs ps' n.
  Proof. intros Hi. induction n as [|n IH]; cbn; [reflexivity|]. now rewrite IH, (Hi _ _ _ (ps n) (ps' n)). Qed.

  Lemma elt_zip {A B} (X : tree (gt A)) (Y : tree (gt B)) (Z : tree (gt (A * B))) pos :
    emapt (fun _ => fst) Z = X -> emapt (fun _ => snd) Z = Y ->
    elt Z pos = match elt X pos, elt Y pos with Some a, Some b => Some (a, b) | _, _ => None end.
  Proof.
    intros <- <-. rewrite !elt_emapt. destruct (elt Z pos) as [[a b]|]; reflexivity.
  Qed.

  Theorem refines_run np T M : refines np T M -> forall p H,
    trwf p -> hist_ok np p H ->
    exists s0 outs s1,
      init T p = Ok s0 /\ run T s0 H = Ok (outs, s1) /\ ssig s1 = ssig s0 /\
      Forall (like p) outs /\
      (forall n pos x gs ps,
          n < length H -> elt p pos = Some x ->
          (forall i, i <= n -> helt H i pos = Some (gs i)) ->
          (np = false -> forall i, i <= n -> hpelt H i pos = Some (ps i)) ->
          oelt outs n pos = Some (mout M (leafdt p pos) x gs ps n)).
  Proof.
    intros (repr & sg & Hinit & Hsig & Hind & Hupd) p H Wp HH.
    enough (exists outs Z, run T (repr 0 (emapt (m_init M) p)) H = Ok (outs, repr (length H) Z) /\
      avals Z = avals p /\ trwf Z /\ length outs = length H /\ Forall (like p) outs /\
      (forall pos x gs ps, elt p pos = Some x ->
          (forall i, i < length H -> helt H i pos = Some (gs i)) ->
          (np = false -> forall i, i < length H -> hpelt H i pos = Some (ps i)) ->
          elt Z pos = Some (mst M (leafdt p pos) x gs ps (length H))) /\
      (forall n pos x gs ps,
          n < length H -> elt p pos = Some x ->
          (forall i, i <= n -> helt H i pos = Some (gs i)) ->
          (np = false -> forall i, i <= n -> hpelt H i pos = Some (ps i)) ->
          oelt outs n pos = Some (mout M (leafdt p pos) x gs ps n))) as (outs & Z & Hr & HZ & WZ & Hl & Ho & _ & He).
    { exists (repr 0 (emapt (m_init M) p)), outs, (repr (length H) Z).
      split; [auto|]. split; [assumption|]. split; [rewrite !Hsig, HZ, emapt_avals; reflexivity|]. auto. }
    induction H as [|[g par] H IH] using rev_ind.
    - exists [], (emapt (m_init M) p). rewrite emapt_avals, emapt_wf. repeat split; auto.
      + intros pos x gs ps Hx _ _. rewrite elt_emapt, Hx. reflexivity.
      + intros n pos x gs ps Hn; inversion Hn.
    - apply Forall_app in HH as [HH Hlast]. inversion Hlast as [|? ? [[Hg Wg] Hpar] _]; subst. clear Hlast.
      destruct (IH HH) as (outs & Z & Hr & HZ & WZ & Hl & Ho & HeZ & He). clear IH.
      cbn in Hg, Wg, Hpar.
      (* the params component: the real params when used, the gradients otherwise *)
      assert (Hq : exists q, like p q /\ (np = false -> par = Some q)).
      { destruct np; [exists g; split; [split; auto|discriminate]|].
        destruct (Hpar eq_refl) as (q & -> & Hq). exists q; auto. }
      destruct Hq as (q & [Hqa Wq] & Hq).
      destruct (tree_gzip g q (eq_trans Hg (eq_sym Hqa)) Wg Wq) as (W1 & HW1 & WW1 & E1 & E2).
      destruct (tree_gzip W1 Z (eq_trans HW1 (eq_trans Hg (eq_sym HZ))) WW1 WZ) as (W & HW & WW & E3 & E4).
      assert (Eg : emapt (fun _ z => fst (fst z)) W = g) by (rewrite <- E1, <- E3, emapt_emapt; reflexivity).
      assert (Eq : emapt (fun _ z => snd (fst z)) W = q) by (rewrite <- E2, <- E3, emapt_emapt; reflexivity).
      assert (EZ : emapt (fun _ z => snd z) W = Z) by exact E4.
      pose proof (Hupd (length H) W par WW) as HU. rewrite Eg, Eq, EZ in HU. specialize (HU Hq).
      assert (HWp : avals W = avals p) by exact (eq_trans HW (eq_trans HW1 Hg)).
      eexists (outs ++ [_]), _. rewrite run_app, Hr. cbn [rbind run]. rewrite HU. cbn [rbind].
      rewrite app_length, Nat.add_1_r. split; [reflexivity|].
      rewrite !emapt_avals, emapt_wf. split; [assumption|]. split; [assumption|].
      split; [rewrite !app_length; cbn; lia|].
      split. { apply Forall_app; split; [assumption|]. constructor; [|constructor]. split; [now rewrite emapt_avals|now apply emapt_wf]. }
      assert (Helt : forall pos x gs ps, elt p pos = Some x ->
          (forall i, i < S (length H) -> helt (H ++ [(g, par)]) i pos = Some (gs i)) ->
          (np = false -> forall i, i < S (length H) -> hpelt (H ++ [(g, par)]) i pos = Some (ps i)) ->
          exists y, elt W pos = Some (gs (length H), y, mst M (leafdt p pos) x gs ps (length H)) /\
                    (np = false -> y = ps (length H))).
      { intros pos x gs ps Hx Hgs Hps.
        assert (EZp : elt Z pos = Some (mst M (leafdt p pos) x gs ps (length H))).
        { apply HeZ; auto.
          - intros i Hi. rewrite <- Hgs by lia. unfold helt. now rewrite nth_error_app1.
          - intros Hnp i Hi. rewrite <- Hps by (auto; lia). unfold hpelt. now rewrite nth_error_app1. }
        assert (Egp : elt g pos = Some (gs (length H))).
        { rewrite <- Hgs by lia. unfold helt. rewrite nth_error_app2, Nat.sub_diag by lia. reflexivity. }
        pose proof (elt_zip _ _ W pos E3 E4) as EW. rewrite EZp in EW.
        pose proof (elt_zip _ _ W1 pos E1 E2) as EW1. rewrite Egp in EW1.
        destruct (elt q pos) as [y|] eqn:Eqp.
        - rewrite EW1 in EW. exists y. split; [exact EW|]. intros Hnp.
          specialize (Hps Hnp (length H) ltac:(lia)). unfold hpelt in Hps.
          rewrite nth_error_app2, Nat.sub_diag in Hps by lia. cbn in Hps. rewrite (Hq Hnp), Eqp in Hps. congruence.
        - exfalso.
          assert (Hne : elt W1 pos <> None).
          { assert (E5 : option_map fst (elt W1 pos) = elt g pos) by (rewrite <- E1, elt_emapt; reflexivity).
            rewrite Egp in E5. intros E6. rewrite E6 in E5. discriminate. }
          congruence. }
      split.
      + intros pos x gs ps Hx Hgs Hps.
        destruct (Helt pos x gs ps Hx Hgs Hps) as (y & EW & Hy).
        rewrite elt_emapt, EW. cbn. f_equal. rewrite (leafdt_avals W p pos HWp).
        destruct np; [erewrite Hind by reflexivity; reflexivity|]. now rewrite Hy.
      + intros n pos x gs ps Hn Hx Hgs Hps.
        destruct (Nat.eq_dec n (length H)) as [->|Hne].
        * destruct (Helt pos x gs ps Hx) as (y & EW & Hy).
          { intros i Hi; apply Hgs; lia. } { intros Hnp i Hi; apply Hps; auto; lia. }
          unfold oelt. rewrite nth_error_app2, Hl, Nat.sub_diag by lia. cbn.
          rewrite elt_emapt, EW. cbn. unfold mout. f_equal. rewrite (leafdt_avals W p pos HWp).
          destruct np; [erewrite Hind by reflexivity; reflexivity|]. now rewrite Hy.
        * unfold oelt. rewrite nth_error_app1 by lia. apply He; auto; [lia| |].
          -- intros i Hi. rewrite <- Hgs by lia. unfold helt. rewrite nth_error_app1 by lia. reflexivity.
          -- intros Hnp i Hi. rewrite <- Hps by (auto; lia). unfold hpelt. rewrite nth_error_app1 by lia. reflexivity.
  Qed.

  Lemma refines_weaken T M : refines true T M -> refines false T M.
  Proof.
    intros (repr & sg & H1 & H2 & H3 & H4). exists repr, sg. split; [assumption|]. split; [assumption|]. split; [discriminate|].
    intros n W par HW _. apply H4; auto. discriminate.
  Qed.

  (** ** Tree-level rewriting *)
  Lemma tmm2_ew {Z} f (u v w : fdt -> Z -> F) (W : tree (gt Z)) :
    (forall z, f (emap u z) (emap v z) = Ok (emap w z)) ->
    tmm2 f (emapt u W) (emapt v W) = Ok (emapt w W).
  Proof. intros Hf. unfold emapt. rewrite tmm2_same. rewrite <- tmapM_ok. now apply tmapM_ext. Qed.
  Lemma tmm3_ew {Z} f (u v w x : fdt -> Z -> F) (W : tree (gt Z)) :
    (forall z, f (emap u z) (emap v z) (emap w z) = Ok (emap x z)) ->
    tmm3 f (emapt u W) (emapt v W) (emapt w W) = Ok (emapt x W).
  Proof. intros Hf. unfold emapt. rewrite tmm3_same. rewrite <- tmapM_ok. now apply tmapM_ext. Qed.
  Lemma tmap_emapt {Z} (f : tensor -> tensor) (u w : fdt -> Z -> F) (W : tree (gt Z)) :
    (forall z, f (emap u z) = emap w z) -> tmap f (emapt u W) = emapt w W.
  Proof. intros Hf. unfold emapt. rewrite tmap_tmap. apply tmap_ext. auto. Qed.
  Lemma full_like_emapt {A} (c : F) (W : tree (gt A)) (f : gt A -> tensor) :
    trwf W -> (forall z, f z = full (dt z) (shp z) c) -> tmap f W = emapt (fun d _ => fcast d c) W.
  Proof.
    intros HW Hf. apply tmap_ext. intros a Ha. rewrite Hf. apply full_emap.
    eapply Forall_forall in HW; eauto.
  Qed.

  (** ** Composition *)
  Definition mid : machine := mkM unit (fun _ _ => tt) (fun _ _ g _ e => (g, e)).
  Definition mcomp (M1 M2 : machine) : machine :=
    mkM (mE M1 * mE M2)
        (fun d x => (m_init M1 d x, m_init M2 d x))
        (fun n d g p e =>
           let r1 := m_step M1 n d g p (fst e) in
           let r2 := m_step M2 n d (fst r1) p (snd e) in
           (fst r2, (snd r1, snd r2))).
  Fixpoint mchain (Ms : list machine) : machine :=
    match Ms with [] => mid | M :: r => mcomp M (mchain r) end.

  Lemma refines_chain np Ts Ms : Forall2 (refines np) Ts Ms -> refines np (chain_gt Ts) (mchain Ms).
  Proof.
    intros HF.
    enough (exists (repr : nat -> tree (gt (mE (mchain Ms))) -> list state) (sg : tree (fdt * list nat) -> list ssg),
      (forall p, trwf p -> chain_init Ts p = Ok (repr 0 (emapt (m_init (mchain Ms)) p))) /\
      (forall n Z, map ssig (repr n Z) = sg (avals Z)) /\
      (np = true -> forall n d g p p' e, m_step (mchain Ms) n d g p e = m_step (mchain Ms) n d g p' e) /\
      (forall n Z, length (repr n Z) = length Ts) /\
      (forall n (W : tree (gt (F * F * mE (mchain Ms)))) par, trwf W ->
          (np = false -> par = Some (emapt (fun _ z => snd (fst z)) W)) ->
          chain_update Ts (repr n (emapt (fun _ z => snd z) W)) (emapt (fun _ z => fst (fst z)) W) par =
          Ok (emapt (fun d z => fst (m_step (mchain Ms) n d (fst (fst z)) (snd (fst z)) (snd z))) W,
              repr (S n) (emapt (fun d z => snd (m_step (mchain Ms) n d (fst (fst z)) (snd (fst z)) (snd z))) W))))
      as (repr & sg & H1 & H2 & H3 & H4 & H5).
    { exists (fun n Z => SNode NList (repr n Z)), (fun a => GNode NList (sg a)). repeat split.
      - intros p Hp. cbn [init chain_gt]. now rewrite H1.
      - intros n Z. cbn. now rewrite H2.
      - exact H3.
      - intros n W par HW Hpar. cbn [update chain_gt]. rewrite H4, Nat.eqb_refl.
        rewrite H5 by assumption. reflexivity. }
    induction HF as [|T M Ts Ms HT HF IH].
    - exists (fun _ _ => []), (fun _ => []). repeat split; auto.
    - destruct IH as (repr2 & sg2 & A1 & A2 & A3 & A4 & A5).
      destruct HT as (repr1 & sg1 & B1 & B2 & B3 & B4).
      change (mchain (M :: Ms)) with (mcomp M (mchain Ms)).
      generalize dependent (mchain Ms). intros N repr2 A1 A2 A3 A4 A5.
      exists (fun n Z => repr1 n (emapt (fun _ => fst) Z) :: repr2 n (emapt (fun _ => snd) Z)),
             (fun a => sg1 a :: sg2 a).
      repeat split.
      + intros p Hp. cbn [chain_init]. rewrite B1, A1 by assumption. cbn [rbind].
        rewrite !emapt_emapt. reflexivity.
      + intros n Z. cbn. now rewrite B2, A2, !emapt_avals.
      + intros Hnp n d g p p' e. cbn. now rewrite (B3 Hnp n d g p p'), (A3 Hnp n d _ p p').
      + intros n Z. cbn. now rewrite A4.
      + intros n W par HW Hpar. cbn [chain_update].
        (* first component *)
        pose proof (B4 n (emapt (fun _ z => (fst z, fst (snd z))) W) par) as HB.
        rewrite !emapt_emapt in HB. cbn [fst snd] in HB.
        cbn [mE mcomp] in *. rewrite !emapt_emapt.
        rewrite HB; [|now apply emapt_wf|assumption]. cbn [rbind].
        (* second component, fed with the first one's output *)
        pose proof (A5 n (emapt (fun d z => (fst (m_step M n d (fst (fst z)) (snd (fst z)) (fst (snd z))), snd (fst z), snd (snd z))) W) par) as HA.
        rewrite !emapt_emapt in HA. cbn [fst snd] in HA.
        rewrite HA; [|now apply emapt_wf|assumption]. cbn [rbind].
        reflexivity.
  Qed.
End Machines.
