(** The element-wise transformations refine scalar machines. *)
From Verif Require Export Machine.
From Coq Require Import ZifyBool.

(** The int32 call counter after [n] calls. *)
Definition cnt (n : nat) : Z := Z.min (Z.of_nat n) int32_max.

Lemma iwrap_small w z : (- 2 ^ (ibits w - 1) <= z < 2 ^ (ibits w - 1))%Z -> iwrap w z = z.
Proof.
  intros Hz. unfold iwrap. destruct w; cbn -[Z.modulo Z.pow] in *.
  - change (2 ^ 32)%Z with 4294967296%Z. change (2 ^ (32 - 1))%Z with 2147483648%Z in *.
    rewrite Z.mod_small; lia.
  - change (2 ^ 64)%Z with 18446744073709551616%Z. change (2 ^ (64 - 1))%Z with 9223372036854775808%Z in *.
    rewrite Z.mod_small; lia.
Qed.

Lemma int32_max_val : int32_max = 2147483647%Z. Proof. reflexivity. Qed.

Lemma safe_inc_spec z : (- 2 ^ 31 <= z <= int32_max)%Z ->
  safe_int32_increment I32 z = Ok (Z.min (z + 1) int32_max).
Proof.
  intros Hz. unfold safe_int32_increment. rewrite int32_max_val in *.
  destruct (Z.ltb_spec z 2147483647).
  - rewrite iwrap_small; [f_equal; lia|]. cbn. lia.
  - f_equal. lia.
Qed.

Lemma cnt_S n : safe_int32_increment I32 (cnt n) = Ok (cnt (S n)).
Proof.
  unfold cnt. rewrite safe_inc_spec; rewrite int32_max_val; [f_equal; lia|lia].
Qed.
Lemma cnt_0 : cnt 0 = 0%Z. Proof. reflexivity. Qed.

Section Machines.
  Context `{O : Ops}.

  Ltac ew := intros; unfold trace_leaf, update_moment_leaf, ipow, tsquare, rsqrt_eps, inv_sqrt_pos,
                     adam_leaf, radam_leaf, bmul;
             rewrite ?emap_emap, ?un_emap, ?sl_emap, ?sr_emap; rewrite ?emap_emap; try (rewrite bin_emap; reflexivity).

  Definition mfst {A} (z : F * F * A) := fst (fst z).

  (** identity, scale, scale_by_schedule, clip, add_decayed_weights, keep_params_nonnegative *)
  Definition m_fun (f : nat -> fdt -> F -> F -> F) : machine :=
    mkM unit (fun _ _ => tt) (fun n d g p e => (f n d g p, e)).

  Lemma refines_identity : refines true identity mid.
  Proof.
    exists (fun _ _ => EmptyState), (fun _ => GNode NEmpty []). repeat split; auto.
  Qed.

  Lemma refines_scale c : refines true (scale c) (m_fun (fun _ d g _ => fmul d (fcast d c) g)).
  Proof.
    exists (fun _ _ => EmptyState), (fun _ => GNode NEmpty []). repeat split; auto.
    intros n W par _ _. cbn. do 2 f_equal. apply tmap_emapt. ew. reflexivity.
  Qed.

  Lemma refines_schedule f :
    refines true (scale_by_schedule f) (m_fun (fun n d g _ => fmul d (fcast d (f (cnt n))) g)).
  Proof.
    exists (fun n _ => SNode NSchedule [SInt I32 (cnt n)]), (fun _ => GNode NSchedule [GInt I32]). repeat split; auto.
    intros n W par _ _. cbn [update scale_by_schedule]. rewrite cnt_S. cbn. do 2 f_equal.
    apply tmap_emapt. ew. reflexivity.
  Qed.

  Lemma refines_clip c : refines true (clip c) (m_fun (fun _ d g _ => clip_elt c d g)).
  Proof.
    exists (fun _ _ => EmptyState), (fun _ => GNode NEmpty []). repeat split; auto.
    intros n W par _ _. cbn. do 2 f_equal. apply tmap_emapt. ew. reflexivity.
  Qed.

  Lemma refines_wd c :
    refines false (add_decayed_weights c) (m_fun (fun _ d g p => fadd d g (fmul d (fcast d c) p))).
  Proof.
    exists (fun _ _ => EmptyState), (fun _ => GNode NEmpty []). repeat split; auto; try discriminate.
    intros n W par _ Hp. rewrite Hp by reflexivity. cbn [update add_decayed_weights stateless].
    erewrite tmm2_ew; [reflexivity|]. ew.
  Qed.

  Lemma refines_nonneg :
    refines false keep_params_nonnegative
            (m_fun (fun _ d g p => if flt (fadd d p g) (fcast d fzero) then fneg p else g)).
  Proof.
    exists (fun _ _ => EmptyState), (fun _ => GNode NEmpty []). repeat split; auto; try discriminate.
    intros n W par _ Hp. rewrite Hp by reflexivity. cbn [update keep_params_nonnegative stateless].
    erewrite tmm2_ew; [reflexivity|].
    intros z. unfold nonneg_leaf. rewrite bin_emap. cbn [rbind].
    rewrite emap_emap. cbn [shp dt emap]. rewrite shape_eqb_refl.
    assert (E : fdt_eqb (dt z) (dt z) = true) by now apply fdt_eqb_eq. rewrite E. cbn [andb].
    change (un (fun _ => fneg) (mkT (dt z) (shp z) (map (fun z0 => snd (fst z0)) (dat z))))
      with (un (fun _ => fneg) (emap (fun _ z => snd (fst z)) z)).
    rewrite un_emap.
    exact (f_equal Ok (twhere_emap (fun d e => flt (fadd d (snd (fst e)) (fst (fst e))) (fcast d fzero)) _ _ z)).
  Qed.

  (** trace *)
  Definition m_trace (decay : F) (nesterov : bool) : machine :=
    mkM F (fun d _ => fcast d fzero)
        (fun _ d g _ t =>
           let t' := fadd d g (fmul d (fcast d decay) t) in
           (if nesterov then fadd d g (fmul d (fcast d decay) t') else t', t')).
  Lemma refines_trace decay nesterov : refines true (trace decay nesterov None) (m_trace decay nesterov).
  Proof.
    exists (fun _ Z => SNode NTrace [STree Z]), (fun a => GNode NTrace [GTree a]). repeat split; auto.
    - intros p Hp. cbn. do 4 f_equal. now apply (full_like_emapt fzero).
    - intros n W par _ _. cbn [mE m_trace] in *. cbn [update trace canonicalize_dtype cast_tree].
      erewrite tmm2_ew by ew. cbn [rbind].
      destruct nesterov; cbn [rbind].
      + erewrite tmm2_ew by ew. reflexivity.
      + reflexivity.
  Qed.

  (** moments *)
  Definition e_moment (decay : F) (order : nat) (d : fdt) (g t : F) : F :=
    let gp := match order with 1 => g | _ => fmul d g g end in
    fadd d (fmul d (fcast d (py1m decay)) gp) (fmul d (fcast d decay) t).
  Lemma update_moment_ew {Z} decay order (u v : fdt -> Z -> F) (W : tree (gt Z)) :
    order = 1 \/ order = 2 ->
    update_moment (emapt u W) (emapt v W) decay order =
    Ok (emapt (fun d z => e_moment decay order d (u d z) (v d z)) W).
  Proof. intros Ho. unfold update_moment. apply tmm2_ew. destruct Ho as [-> | ->]; ew. Qed.
  Definition e_bc (decay : F) (c : Z) (d : fdt) (x : F) : F := fdiv d x (conv defdt d (bias_corr decay c)).
  Lemma bias_correction_ew {Z} decay c (u : fdt -> Z -> F) (W : tree (gt Z)) :
    bias_correction (emapt u W) decay c = emapt (fun d z => e_bc decay c d (u d z)) W.
  Proof. unfold bias_correction. apply tmap_emapt. intros z. now rewrite emap_emap. Qed.

  (** ema *)
  Definition m_ema (decay : F) (debias : bool) : machine :=
    mkM F (fun d _ => fcast d fzero)
        (fun n d g _ t => let t' := e_moment decay 1 d g t in
                          (if debias then e_bc decay (cnt (S n)) d t' else g, t')).
  Lemma refines_ema decay debias : refines true (ema decay debias None) (m_ema decay debias).
  Proof.
    exists (fun n Z => SNode NEma [SInt I32 (cnt n); STree Z]), (fun a => GNode NEma [GInt I32; GTree a]).
    repeat split; auto.
    - intros p Hp. cbn. do 5 f_equal. now apply (full_like_emapt fzero).
    - intros n W par _ _. cbn [mE m_ema] in *. cbn [update ema canonicalize_dtype cast_tree].
      rewrite update_moment_ew by auto. cbn [rbind]. rewrite cnt_S. cbn [rbind].
      destruct debias; [rewrite bias_correction_ew|]; reflexivity.
  Qed.

  (** rss *)
  Definition e_invsqrt (eps : F) (d : fdt) (x : F) : F :=
    if flt (fcast d fzero) x then frsqrt d (fadd d x (fcast d eps)) else fcast d fzero.
  Definition m_rss (initial eps : F) : machine :=
    mkM F (fun d _ => fcast d initial)
        (fun _ d g _ t => let t' := fadd d (fmul d g g) t in (fmul d (e_invsqrt eps d t') g, t')).
  Lemma refines_rss initial eps : refines true (scale_by_rss initial eps) (m_rss initial eps).
  Proof.
    exists (fun _ Z => SNode NRss [STree Z]), (fun a => GNode NRss [GTree a]). repeat split; auto.
    - intros p Hp. cbn. do 4 f_equal. now apply (full_like_emapt initial).
    - intros n W par _ _. cbn [mE m_rss] in *. cbn [update scale_by_rss].
      erewrite tmm2_ew by ew. cbn [rbind].
      erewrite (tmap_emapt (inv_sqrt_pos eps)) by (intros; apply emap_emap).
      erewrite tmm2_ew by ew. reflexivity.
  Qed.

  (** rms *)
  Definition e_rsqrt (eps : F) (d : fdt) (x : F) : F := frsqrt d (fadd d x (fcast d eps)).
  Definition m_rms (decay eps init0 : F) : machine :=
    mkM F (fun d _ => fcast d init0)
        (fun _ d g _ t => let t' := e_moment decay 2 d g t in (fmul d g (e_rsqrt eps d t'), t')).
  Lemma refines_rms decay eps init0 : refines true (scale_by_rms decay eps init0) (m_rms decay eps init0).
  Proof.
    exists (fun _ Z => SNode NRms [STree Z]), (fun a => GNode NRms [GTree a]). repeat split; auto.
    - intros p Hp. cbn. do 4 f_equal. now apply (full_like_emapt init0).
    - intros n W par _ _. cbn [mE m_rms] in *. cbn [update scale_by_rms].
      rewrite update_moment_ew by auto. cbn [rbind].
      erewrite tmm2_ew by ew. reflexivity.
  Qed.

  (** stddev *)
  Definition m_stddev (decay eps init0 : F) : machine :=
    mkM (F * F) (fun d _ => (fcast d fzero, fcast d init0))
        (fun _ d g _ e =>
           let m := e_moment decay 1 d g (fst e) in
           let v := e_moment decay 2 d g (snd e) in
           (fmul d g (e_rsqrt eps d (fsub d v (fmul d m m))), (m, v))).
  Lemma refines_stddev decay eps init0 :
    refines true (scale_by_stddev decay eps init0) (m_stddev decay eps init0).
  Proof.
    exists (fun _ Z => SNode NStdDev [STree (emapt (fun _ => fst) Z); STree (emapt (fun _ => snd) Z)]),
           (fun a => GNode NStdDev [GTree a; GTree a]). repeat split; auto.
    - intros p Hp. cbn. rewrite !emapt_emapt. cbn.
      rewrite <- (full_like_emapt fzero p zeros_like), <- (full_like_emapt init0 p (fun t => full_like t init0)) by auto.
      reflexivity.
    - intros n Z. cbn. now rewrite !emapt_avals.
    - intros n W par _ _. cbn [mE m_stddev] in *. cbn [update scale_by_stddev]. rewrite !emapt_emapt.
      rewrite !update_moment_ew by auto. cbn [rbind].
      erewrite tmm3_ew.
      2:{ intros z. unfold stddev_leaf. unfold tsquare. rewrite un_emap, bin_emap. cbn [rbind]. ew. }
      cbn [rbind]. reflexivity.
  Qed.

  (** adam-like *)
  Definition e_adam (eps eps_root : F) (d : fdt) (m v : F) : F :=
    fdiv d m (fadd d (fsqrt d (fadd d v (fcast d eps_root))) (fcast d eps)).
  Definition m_adamlike (init0 : F) (nu_step : fdt -> F -> F -> F -> F)
             (b1 b2 : F) (out : Z -> fdt -> F -> F -> F) : machine :=
    mkM (F * F) (fun d _ => (fcast d init0, fcast d init0))
        (fun n d g _ e =>
           let m := e_moment b1 1 d g (fst e) in
           let v := nu_step d g (fst e) (snd e) in
           (out (cnt (S n)) d (e_bc b1 (cnt (S n)) d m) (e_bc b2 (cnt (S n)) d v), (m, v))).
  Definition m_adam b1 b2 eps eps_root : machine :=
    m_adamlike fzero (fun d g m v => e_moment b2 2 d g v) b1 b2 (fun _ => e_adam eps eps_root).
  Definition m_belief b1 b2 eps eps_root : machine :=
    m_adamlike fzero (fun d g m v => e_moment b2 2 d (fsub d g m) v) b1 b2 (fun _ => e_adam eps eps_root).
  Definition e_signed_sq (d : fdt) (g v : F) : F := fmul d (fsign (fsub d v (fmul d g g))) (fmul d g g).
  Definition m_yogi b1 b2 eps eps_root init0 : machine :=
    m_adamlike init0 (fun d g m v => e_moment b2 2 d (e_signed_sq d g v) v) b1 b2 (fun _ => e_adam eps eps_root).
  Definition e_radam (b2 eps eps_root threshold : F) (c : Z) (d : fdt) (m v : F) : F :=
    if fle (fcast defdt threshold) (radam_ro b2 c)
    then fdiv d (fmul d (fcast d (radam_r b2 (radam_ro b2 c))) m)
                (fadd d (fsqrt d (fadd d v (fcast d eps_root))) (fcast d eps))
    else m.
  Definition m_radam b1 b2 eps eps_root threshold : machine :=
    m_adamlike fzero (fun d g m v => e_moment b2 2 d g v) b1 b2 (e_radam b2 eps eps_root threshold).

  Definition adam_repr (nm : sname) (n : nat) (Z : tree (gt (F * F))) : state :=
    SNode nm [SInt I32 (cnt n); STree (emapt (fun _ => fst) Z); STree (emapt (fun _ => snd) Z)].

  Lemma moments0_repr nm c mk (p : tree tensor) : trwf p -> (forall z, mk z = full (dt z) (shp z) c) ->
    moments0 nm mk p = Ok (adam_repr nm 0 (emapt (fun d _ => (fcast d c, fcast d c)) p)).
  Proof.
    intros Hp Hm. unfold moments0, adam_repr. rewrite !emapt_emapt. cbn.
    now rewrite (full_like_emapt c p mk) by auto.
  Qed.

  Lemma refines_adam b1 b2 eps eps_root :
    refines true (scale_by_adam b1 b2 eps eps_root) (m_adam b1 b2 eps eps_root).
  Proof.
    exists (adam_repr NAdam), (fun a => GNode NAdam [GInt I32; GTree a; GTree a]). repeat split; auto.
    - intros p Hp. now apply moments0_repr.
    - intros n Z. cbn. now rewrite !emapt_avals.
    - intros n W par _ _. cbn [mE m_adam m_adamlike] in *. cbn [update scale_by_adam adam_repr]. rewrite !emapt_emapt.
      rewrite !update_moment_ew by auto. cbn [rbind]. rewrite cnt_S. cbn [rbind].
      rewrite !bias_correction_ew. erewrite tmm2_ew by ew. cbn [rbind].
      unfold adam_repr. rewrite !emapt_emapt. reflexivity.
  Qed.

  Lemma refines_belief b1 b2 eps eps_root :
    refines true (scale_by_belief b1 b2 eps eps_root) (m_belief b1 b2 eps eps_root).
  Proof.
    exists (adam_repr NBelief), (fun a => GNode NBelief [GInt I32; GTree a; GTree a]). repeat split; auto.
    - intros p Hp. now apply moments0_repr.
    - intros n Z. cbn. now rewrite !emapt_avals.
    - intros n W par _ _. cbn [mE m_belief m_adamlike] in *. cbn [update scale_by_belief adam_repr]. rewrite !emapt_emapt.
      rewrite !update_moment_ew by auto. cbn [rbind].
      erewrite tmm2_ew by ew. cbn [rbind].
      rewrite !update_moment_ew by auto. cbn [rbind]. rewrite cnt_S. cbn [rbind].
      rewrite !bias_correction_ew. erewrite tmm2_ew by ew. cbn [rbind].
      unfold adam_repr. rewrite !emapt_emapt. reflexivity.
  Qed.

  Lemma refines_yogi b1 b2 eps eps_root init0 :
    refines true (scale_by_yogi b1 b2 eps eps_root init0) (m_yogi b1 b2 eps eps_root init0).
  Proof.
    exists (adam_repr NAdam), (fun a => GNode NAdam [GInt I32; GTree a; GTree a]). repeat split; auto.
    - intros p Hp. now apply moments0_repr.
    - intros n Z. cbn. now rewrite !emapt_avals.
    - intros n W par _ _. cbn [mE m_yogi m_adamlike] in *. cbn [update scale_by_yogi adam_repr]. rewrite !emapt_emapt.
      rewrite !update_moment_ew by auto. cbn [rbind].
      erewrite tmm2_ew.
      2:{ intros z. unfold signed_sq_leaf, tsquare. rewrite un_emap, bin_emap. cbn [rbind].
          rewrite un_emap. apply bin_emap. }
      cbn [rbind].
      rewrite !update_moment_ew by auto. cbn [rbind]. rewrite cnt_S. cbn [rbind].
      rewrite !bias_correction_ew. erewrite tmm2_ew by ew. cbn [rbind].
      unfold adam_repr. rewrite !emapt_emapt. reflexivity.
  Qed.

  Lemma refines_radam b1 b2 eps eps_root threshold :
    refines true (scale_by_radam b1 b2 eps eps_root threshold) (m_radam b1 b2 eps eps_root threshold).
  Proof.
    exists (adam_repr NAdam), (fun a => GNode NAdam [GInt I32; GTree a; GTree a]). repeat split; auto.
    - intros p Hp. now apply moments0_repr.
    - intros n Z. cbn. now rewrite !emapt_avals.
    - intros n W par _ _. cbn [mE m_radam m_adamlike] in *. cbn [update scale_by_radam adam_repr]. rewrite !emapt_emapt.
      rewrite !update_moment_ew by auto. cbn [rbind]. rewrite cnt_S. cbn [rbind].
      rewrite !bias_correction_ew. erewrite tmm2_ew by ew.
      unfold cond_tree, lax_cond. cbn [rbind].
      rewrite !emapt_avals.
      assert (E : tree_eqb aval_eqb (avals W) (avals W) = true) by now apply avals_eqb_eq.
      rewrite E. cbn [rbind].
      unfold adam_repr. rewrite !emapt_emapt. cbn [m_radam m_adamlike m_step fst snd]. unfold e_radam.
      destruct (fle (fcast defdt threshold) (radam_ro b2 (cnt (S n)))); reflexivity.
  Qed.

  (** apply_every *)
  Definition b2f (b : bool) : F := if b then fone else fzero.
  Definition m_every (k : Z) : machine :=
    mkM F (fun d _ => fcast d fzero)
        (fun n d g _ ga =>
           let c := (Z.of_nat n mod k)%Z in
           let ga' := fadd d (fmul d (fcast d (b2f (negb (c =? 0)%Z))) ga) g in
           (fmul d (fcast d (b2f (c =? k - 1)%Z)) ga', ga')).
  Lemma refines_every k : (1 <= k <= int32_max)%Z -> refines true (apply_every k) (m_every k).
  Proof.
    intros Hk.
    exists (fun n Z => SNode NApplyEvery [SInt I32 (Z.of_nat n mod k); STree Z]),
           (fun a => GNode NApplyEvery [GInt I32; GTree a]). repeat split; auto.
    - intros p Hp. cbn -[Z.modulo]. rewrite Z.mod_0_l by lia. do 5 f_equal. now apply (full_like_emapt fzero).
    - intros n W par _ _. cbn [mE m_every] in *. cbn [update apply_every].
      destruct (Z.eqb_spec k 0); [lia|].
      rewrite Z.mod_mod by lia.
      erewrite tmm2_ew by ew. cbn [rbind].
      erewrite (tmap_emapt (bmul _)) by (intros; apply emap_emap).
      pose proof (Z.mod_pos_bound (Z.of_nat n) k ltac:(lia)) as Hb.
      assert (int32_max = 2147483647%Z) by reflexivity.
      rewrite safe_inc_spec by (rewrite H in *; cbn; lia). cbn [rbind].
      rewrite Z.min_l by lia.
      replace (((Z.of_nat n mod k + 1) mod k)%Z) with (Z.of_nat (S n) mod k)%Z; [reflexivity|].
      rewrite Nat2Z.inj_succ, <- Z.add_1_r, Zplus_mod_idemp_l. reflexivity.
  Qed.
End Machines.
