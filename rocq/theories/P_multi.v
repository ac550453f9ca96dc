(** MultiSteps. *)
From Verif Require Export P_wrap.
From Coq Require Import String List Psatz.
Import ListNotations.
Open Scope list_scope.
Open Scope nat_scope.
(*@header
From Coq Require Import List.
Import ListNotations.
Open Scope list_scope.
Open Scope nat_scope.
*)

Section Spec.
  Context `{O : Ops}.
  Notation updates := (tree tensor).
  Notation params := (option (tree tensor)).
  (** The values at one position in a block of gradients, oldest first. *)
  Definition column (block : list updates) (pos : nat * nat) : list F :=
    flat_map (fun g => match elt g pos with Some x => [x] | None => [] end) block.
  (** [S] is the sum of the block: at every element, starting from zero, the gradients are added one
      after the other. *)
  Definition block_sum (p0 : updates) (block : list updates) (S : updates) : Prop :=
    like p0 S /\ forall pos x, elt p0 pos = Some x ->
      elt S pos = Some (fold_left (fun a g => fadd (leafdt p0 pos) g a) (column block pos) (fcast (leafdt p0 pos) fzero)).
  (** [G] is what the inner optimiser must see: the sum, divided by [k] for means. *)
  Definition block_value (use_mean : bool) (p0 : updates) (k : Z) (block : list updates) (G : updates) : Prop :=
    if use_mean then
      like p0 G /\ forall pos x, elt p0 pos = Some x ->
        elt G pos = Some (fdiv (leafdt p0 pos) (fold_left (fun a g => fadd (leafdt p0 pos) g a) (column block pos) (fcast (leafdt p0 pos) fzero))
                               (fcast (leafdt p0 pos) (fofZ k)))
    else block_sum p0 block G.
  (** What a complete block emits: zeros for all its gradients but the last, where the inner update is emitted. *)
  Definition block_out (block : list updates) (o : updates) : list updates := map zeros_of (removelast block) ++ [o].
  Fixpoint blocks_out (blocks : list (list updates)) (os : list updates) : list updates :=
    match blocks, os with b :: bs, o :: r => block_out b o ++ blocks_out bs r | _, _ => [] end.
  Fixpoint block_values (use_mean : bool) (p0 : updates) (k : Z -> Z) (j : nat) (blocks : list (list updates)) (Gs : list updates) : Prop :=
    match blocks, Gs with
    | [], [] => True
    | b :: bs, G :: r => block_value use_mean p0 (k (Z.of_nat j)) b G /\ block_values use_mean p0 k (S j) bs r
    | _, _ => False
    end.
  Fixpoint block_sizes (k : Z -> Z) (j : nat) (blocks : list (list updates)) : Prop :=
    match blocks with [] => True | b :: bs => Z.of_nat (length b) = k (Z.of_nat j) /\ block_sizes k (S j) bs end.
End Spec.

Section Facts.
  Context `{O : Ops}.
  Notation updates := (tree tensor).
  Notation params := (option (tree tensor)).
  Variable opt : GT.
  Variable k : Z -> Z.
  Variable mean : bool.
  Variable p0 : updates.

  Lemma elt_like (q : updates) pos x : like p0 q -> elt p0 pos = Some x -> trwf p0 -> exists y, elt q pos = Some y.
  Proof.
    intros (Ha & Hw) Hx Hp. destruct (tree_gzip q p0 Ha Hw Hp) as (W & _ & _ & E1 & E2). rewrite <- E2, elt_emapt in Hx. rewrite <- E1, elt_emapt.
    destruct (elt W pos) as [[a b]|]; [|discriminate]. eexists. reflexivity.
  Qed.
  Hypothesis Hwf : trwf p0.
  Lemma zeros_block : block_sum p0 [] (tmap zeros_like p0).
  Proof.
    split; [split; [rewrite zeros_of_eq; apply zeros_of_avals|rewrite zeros_of_eq; apply zeros_of_wf]|]. intros pos x Hx.
    assert (Ez : tmap zeros_like p0 = emapt (fun d _ => fcast d fzero) p0) by (apply full_like_emapt; [exact Hwf|reflexivity]).
    rewrite Ez, elt_emapt, Hx. reflexivity.
  Qed.
  Lemma acc_step blk g acc : block_sum p0 blk acc -> like p0 g -> exists acc', multi_acc g acc = Ok acc' /\ block_sum p0 (blk ++ [g]) acc'.
  Proof.
    intros ((Haa & Haw) & Hs) (Hga & Hgw). destruct (tree_gzip g acc) as (W & HWa & HWw & E1 & E2); [congruence|assumption|assumption|].
    assert (HWp : avals W = avals p0) by exact (eq_trans HWa Hga).
    exists (emapt (fun d z => fadd d (fst z) (snd z)) W). split.
    - unfold multi_acc. rewrite <- E1, <- E2. apply tmm2_ew. intros z. rewrite bin_emap. reflexivity.
    - split; [split; [rewrite emapt_avals; exact HWp|now apply emapt_wf]|]. intros pos x Hx. rewrite elt_emapt, (elt_zip _ _ W pos E1 E2), (Hs pos x Hx).
      destruct (elt_like g pos x (conj Hga Hgw) Hx Hwf) as (y & Ey). rewrite Ey. cbn [option_map fst snd]. rewrite (leafdt_avals W p0 pos HWp).
      unfold column. rewrite flat_map_app, fold_left_app. cbn [flat_map]. rewrite Ey. reflexivity.
  Qed.
  Lemma mean_step blk acc j : block_sum p0 blk acc -> block_value mean p0 (k j) blk (multi_mean mean (k j) acc).
  Proof.
    intros ((Haa & Haw) & Hs). unfold block_value, multi_mean. destruct mean; [|split; [split; assumption|exact Hs]].
    assert (E : tmap (fun t => sr fdiv t (fofZ (k j))) acc = emapt (fun d x => fdiv d x (fcast d (fofZ (k j)))) acc) by reflexivity.
    rewrite E. split; [split; [rewrite emapt_avals; exact Haa|now apply emapt_wf]|]. intros pos x Hx. rewrite elt_emapt, (Hs pos x Hx), (leafdt_avals acc p0 pos Haa). reflexivity.
  Qed.

  Definition mst_ (mini j : nat) (si : state) (acc : updates) : state := SNode NMulti [SInt iw64 (Z.of_nat mini); SInt iw64 (Z.of_nat j); si; STree acc].
  Lemma multi_sim : forall H blk j si acc outs s1, (Z.of_nat (length blk + j + length H) < 2 ^ 31)%Z -> (forall i, (1 <= k i)%Z) ->
    (Z.of_nat (length blk) < k (Z.of_nat j))%Z -> block_sum p0 blk acc -> Forall (like p0) (map fst H) ->
    run (multi_steps opt k mean) (mst_ (length blk) j si acc) H = Ok (outs, s1) ->
    exists Bs rest Gs os sf accf,
      blk ++ map fst H = concat Bs ++ rest /\ block_sizes k j Bs /\ (Z.of_nat (length rest) < k (Z.of_nat (j + length Bs)))%Z /\
      block_values mean p0 k j Bs Gs /\ run opt si (map (fun G => (G, None)) Gs) = Ok (os, sf) /\
      map zeros_of blk ++ outs = blocks_out Bs os ++ map zeros_of rest /\
      s1 = mst_ (length rest) (j + length Bs) sf accf /\ block_sum p0 rest accf.
  Proof.
    induction H as [|[g par] H IH]; intros blk j si acc outs s1 Hl Hk Hb Ha Hlk Hr.
    - injection Hr as <- <-. exists [], blk, [], [], si, acc. cbn [concat app map length fst blocks_out block_values block_sizes]. rewrite Nat.add_0_r, !app_nil_r. repeat split; auto; apply Ha.
    - cbn [map fst] in Hlk. apply Forall_cons_iff in Hlk as (Hg & Hlk). destruct (acc_step blk g acc Ha Hg) as (acc' & Eacc & Ha').
      rewrite run_cons in Hr. apply rbind_Ok in Hr as ([o s2] & Eu & Hr). apply rbind_Ok in Hr as ([os s3] & Er & Hr). injection Hr as <- <-.
      cbn [multi_steps update multi_update mst_] in Eu. rewrite Eacc in Eu. cbn [rbind] in Eu. apply cond_us_Ok in Eu as (a & b & Ea & Eb & _ & Ex).
      injection Ea as <-. apply rbind_Ok in Eb as ([u' si'] & Eo & Eb). assert (Eb' : b = (u', SNode NMulti [SInt iw64 0; SInt iw64 (iwrap iw64 (Z.of_nat j + 1)); si'; STree (tmap zeros_like acc')])) by congruence. clear Eb. subst b.
      cbn [length] in Hl. destruct (Z.ltb_spec (Z.of_nat (length blk)) (k (Z.of_nat j) - 1)) as [Hm|Hm].
      + assert (E2 : s2 = mst_ (length (blk ++ [g])) j si acc').
        { assert (E2 : s2 = SNode NMulti [SInt iw64 (iwrap iw64 (Z.of_nat (length blk) + 1)); SInt iw64 (Z.of_nat j); si; STree acc']) by congruence. rewrite E2. unfold mst_.
          rewrite iwrap_small by lia. rewrite app_length. cbn [length]. do 4 f_equal. lia. }
        assert (E1 : o = zeros_of g) by (rewrite <- zeros_of_eq; congruence). clear Ex. subst o s2.
        apply IH in Er as (Bs & rest & Gs & os' & sf & accf & Eh & Hsz & Hrl & Hv & Ho & Eout & Es & Hacc); [|rewrite app_length; cbn [length]; lia|assumption|rewrite app_length; cbn [length]; lia|assumption|assumption].
        exists Bs, rest, Gs, os', sf, accf. repeat split; auto; try apply Hacc.
        * rewrite <- Eh. cbn [map fst]. now rewrite <- app_assoc.
        * rewrite <- Eout, map_app, <- app_assoc. reflexivity.
      + assert (E2 : s2 = mst_ (@length updates []) (S j) si' (tmap zeros_like acc')).
        { assert (E2 : s2 = SNode NMulti [SInt iw64 0; SInt iw64 (iwrap iw64 (Z.of_nat j + 1)); si'; STree (tmap zeros_like acc')]) by congruence. rewrite E2. unfold mst_.
          rewrite iwrap_small by lia. do 4 f_equal. f_equal. lia. }
        assert (E1 : o = u') by congruence. clear Ex. subst o s2.
        assert (Hz : block_sum p0 [] (tmap zeros_like acc')).
        { destruct Ha' as ((Hx & Hxw) & _). assert (Ez : tmap zeros_like acc' = tmap zeros_like p0); [|rewrite Ez; apply zeros_block].
          transitivity (tmap (fun a => full (fst a) (snd a) fzero) (avals acc')); [unfold avals; rewrite tmap_tmap; reflexivity|]. rewrite Hx. unfold avals. rewrite tmap_tmap. reflexivity. }
        specialize (Hk (Z.of_nat (S j))) as Hk1.
        apply IH in Er as (Bs & rest & Gs & os' & sf & accf & Eh & Hsz & Hrl & Hv & Ho & Eout & Es & Hacc); [|cbn [length]; lia|assumption|cbn [length]; lia|assumption|assumption].
        exists ((blk ++ [g]) :: Bs), rest, (multi_mean mean (k (Z.of_nat j)) acc' :: Gs), (u' :: os'), sf, accf. cbn [length] in *. replace (j + S (length Bs)) with (S j + length Bs) by lia. repeat split; auto; try apply Hacc.
        * cbn [concat map fst]. rewrite <- !app_assoc. cbn [app]. f_equal. f_equal. exact Eh.
        * rewrite app_length. cbn [length]. lia.
        * now apply mean_step.
        * cbn [map]. rewrite run_cons, Eo. cbn [rbind]. rewrite Ho. reflexivity.
        * cbn [blocks_out]. unfold block_out. rewrite removelast_last, <- !app_assoc. cbn [app]. f_equal. f_equal. exact Eout.
  Qed.
  Lemma multi_total I : steady true opt p0 I -> forall H blk j si acc, I si -> (Z.of_nat (length blk + j + length H) < 2 ^ 31)%Z ->
    block_sum p0 blk acc -> Forall (like p0) (map fst H) ->
    exists outs s1, run (multi_steps opt k mean) (mst_ (length blk) j si acc) H = Ok (outs, s1).
  Proof.
    intros (_ & Hst). induction H as [|[g par] H IH]; intros blk j si acc HI Hl Ha Hlk; [eexists _, _; reflexivity|].
    cbn [map fst] in Hlk. apply Forall_cons_iff in Hlk as (Hg & Hlk). destruct (acc_step blk g acc Ha Hg) as (acc' & Eacc & Ha').
    assert (HG : like p0 (multi_mean mean (k (Z.of_nat j)) acc')).
    { pose proof (mean_step (blk ++ [g]) acc' (Z.of_nat j) Ha') as Hv. unfold block_value, block_sum in Hv. destruct mean; apply Hv. }
    destruct (Hst si (multi_mean mean (k (Z.of_nat j)) acc') None HI HG) as (u' & si' & Eo & Hu' & Hsig & HI'); [discriminate|].
    assert (Ez : tmap zeros_like acc' = tmap zeros_like p0).
    { destruct Ha' as ((Hx & Hxw) & _). transitivity (tmap (fun a => full (fst a) (snd a) fzero) (avals acc')); [unfold avals; rewrite tmap_tmap; reflexivity|]. rewrite Hx. unfold avals. rewrite tmap_tmap. reflexivity. }
    cbn [length] in Hl. assert (Hz : block_sum p0 [] (tmap zeros_like acc')) by (rewrite Ez; apply zeros_block).
    rewrite run_cons.
    assert (E : update (multi_steps opt k mean) g (mst_ (length blk) j si acc) par =
      Ok (if (Z.of_nat (length blk) <? k (Z.of_nat j) - 1)%Z then (tmap zeros_like g, mst_ (length (blk ++ [g])) j si acc') else (u', mst_ (@length updates []) (S j) si' (tmap zeros_like acc')))).
    { cbn [multi_steps update multi_update mst_]. rewrite Eacc. cbn [rbind]. rewrite Eo. cbn [rbind]. rewrite (iwrap_small iw64 (Z.of_nat (length blk) + 1)), (iwrap_small iw64 (Z.of_nat j + 1)) by lia.
      apply cond_us_Ok. eexists _, _. split; [reflexivity|]. split; [reflexivity|]. split.
      - unfold sig_us. cbn [fst snd ssig map]. rewrite Hsig. rewrite !zeros_of_eq, !zeros_of_avals. destruct Hu' as (-> & _), Hg as (-> & _). reflexivity.
      - unfold mst_. rewrite app_length. cbn [length]. replace (Z.of_nat (length blk) + 1)%Z with (Z.of_nat (length blk + 1)) by lia.
        replace (Z.of_nat j + 1)%Z with (Z.of_nat (S j)) by lia. reflexivity. }
    rewrite E. cbn [rbind]. destruct (_ <? _)%Z; cbn [rbind].
    - destruct (IH (blk ++ [g]) j si acc' HI) as (os & s1 & Er); [rewrite app_length; cbn [length]; lia|exact Ha'|exact Hlk|]. rewrite Er. eexists _, _. reflexivity.
    - destruct (IH [] (S j) si' (tmap zeros_like acc') HI') as (os & s1 & Er); [cbn [length]; lia|exact Hz|exact Hlk|]. rewrite Er. eexists _, _. reflexivity.
  Qed.
End Facts.

(*@ C31_blocks : for any wrapped optimiser, any mini-step schedule k(.) >= 1, sum or mean, and any history of fewer than 2^31 gradients like the parameters on which nothing raises: the history splits into consecutive complete blocks of k(0), k(1), ... gradients followed by an incomplete one; the wrapped optimiser is called exactly once per complete block, on that block's mean (sum) and without params; each complete block emits zeros for all its gradients but the last and the wrapped optimiser's update there, the incomplete one only zeros; the final state holds the number of gradients in the incomplete block, the number of complete blocks, the wrapped optimiser's state after those calls and the incomplete block's sum, and has_updated is true exactly when at least one block is complete and none is in progress. *)
Lemma multi_blocks : forall `{O : Ops} (opt : GT) (k : Z -> Z) (use_mean : bool) (p0 : tree tensor) (H : list (tree tensor * option (tree tensor))) (s0 s1 : state) (outs : list (tree tensor)),
  trwf p0 -> (forall j, (1 <= k j)%Z) -> (Z.of_nat (length H) < 2 ^ 31)%Z -> Forall (like p0) (map fst H) ->
  init (multi_steps opt k use_mean) p0 = Ok s0 -> run (multi_steps opt k use_mean) s0 H = Ok (outs, s1) ->
  exists Bs rest Gs si0 os sf S,
    map fst H = concat Bs ++ rest /\ block_sizes k 0 Bs /\ (Z.of_nat (length rest) < k (Z.of_nat (length Bs)))%Z /\
    block_values use_mean p0 k 0 Bs Gs /\ init opt p0 = Ok si0 /\ run opt si0 (map (fun G => (G, None)) Gs) = Ok (os, sf) /\
    outs = blocks_out Bs os ++ map zeros_of rest /\
    s1 = SNode NMulti [SInt iw64 (Z.of_nat (length rest)); SInt iw64 (Z.of_nat (length Bs)); sf; STree S] /\ block_sum p0 rest S /\
    (multi_has_updated s1 = Ok true <-> rest = [] /\ Bs <> []).
Proof.
  intros O opt k use_mean p0 H s0 s1 outs Hw Hk Hl Hh Hi Hr. cbn [multi_steps init multi_init] in Hi. apply rbind_Ok in Hi as (si & Ei & Hi). injection Hi as <-.
  destruct (multi_sim opt k use_mean p0 Hw H [] 0 si (tmap zeros_like p0) outs s1) as (Bs & rest & Gs & os & sf & accf & Eh & Hsz & Hrl & Hv & Ho & Eout & Es & Hacc).
  - cbn. lia.
  - exact Hk.
  - specialize (Hk (Z.of_nat 0)). cbn [length]. lia.
  - now apply zeros_block.
  - exact Hh.
  - exact Hr.
  - exists Bs, rest, Gs, si, os, sf, accf. cbn [map app] in *. do 9 (split; [assumption|]). subst s1. cbn [multi_has_updated mst_]. split.
    + intros E. injection E as E. apply andb_prop in E as (E1 & E2). split; [destruct rest; [reflexivity|discriminate]|]. intros ->. discriminate.
    + intros (-> & Hn). f_equal. apply andb_true_intro. split; [reflexivity|]. destruct Bs; [easy|]. reflexivity.
Qed.
(*@ C31_total : and nothing raises when the wrapped optimiser ignores params, does not raise and keeps shapes, dtypes and state structure. *)
Lemma multi_steps_total : forall `{O : Ops} (opt : GT) (k : Z -> Z) (use_mean : bool) (p0 : tree tensor) (I : state -> Prop) (H : list (tree tensor * option (tree tensor))),
  trwf p0 -> steady true opt p0 I -> Forall (like p0) (map fst H) -> (Z.of_nat (length H) < 2 ^ 31)%Z ->
  exists outs, trains (multi_steps opt k use_mean) p0 H outs.
Proof.
  intros O opt k use_mean p0 I H Hw Hs Hh Hl. destruct Hs as ((si & Ei & HI) & Hst).
  destruct (multi_total opt k use_mean p0 Hw I (conj (ex_intro _ si (conj Ei HI)) Hst) H [] 0 si (tmap zeros_like p0) HI) as (outs & s1 & Hr); [cbn; lia|now apply zeros_block|exact Hh|].
  exists outs. eexists. exists s1. split; [|exact Hr]. cbn [multi_steps init]. unfold multi_init. rewrite Ei. reflexivity.
Qed.
(*@ C31_mean : on finite gradients the values the wrapped optimiser sees are the exact sum, or the exact mean when the block has k gradients. *)
Lemma multi_mean_real : forall `{P : Platform} (use_mean : bool) (p0 : tree tensor) (k : Z) (block : list (tree tensor)) (G : tree tensor) (pos : nat * nat) (x : XR) (g : list R),
  trwf p0 -> Forall (like p0) block -> (1 <= k)%Z -> block_value use_mean p0 k block G -> elt p0 pos = Some x -> map (fun t => elt t pos) block = map (fun r => Some (Fin r)) g ->
  elt G pos = Some (Fin (if use_mean then fold_right Rplus 0 g / IZR k else fold_right Rplus 0 g)%R).
Proof.
  intros P use_mean p0 k block G pos x g Hw Hl Hk HG Hx Hg.
  assert (Hc : column block pos = map Fin g).
  { unfold column. clear - Hg. revert g Hg. induction block as [|b block IH]; intros [|r g] Hg; try discriminate; [reflexivity|]. cbn [map] in Hg. injection Hg as E1 E2. cbn [flat_map map]. specialize (IH g E2). nx. rewrite E1. cbn [app]. f_equal. exact IH. }
  assert (Hf : forall d a, fold_left (fun a g => @fadd (XROps P) d g a) (map Fin g) (Fin a) = Fin (fold_right Rplus 0 g + a)%R).
  { intros d. clear. induction g as [|r g IH]; intros a; cbn [map fold_left fold_right]; [f_equal; lra|]. change (@fadd (XROps P) d (Fin r) (Fin a)) with (xadd (Fin r) (Fin a)). rewrite xadd_fin, IH. f_equal. lra. }
  unfold block_value, block_sum in HG. destruct use_mean; destruct HG as (_ & HG); rewrite (HG pos x Hx), Hc; f_equal; change (@fcast (XROps P) (leafdt p0 pos) fzero) with (@fzero (XROps P)); rewrite (@f0 P), Hf.
  - change (@fdiv (XROps P) (leafdt p0 pos) (Fin (fold_right Rplus 0 g + 0)%R) (@fcast (XROps P) (leafdt p0 pos) (@fofZ (XROps P) k))) with (xdiv (Fin (fold_right Rplus 0 g + 0)%R) (@fofZ (XROps P) k)).
    replace (@fofZ (XROps P) k) with (Fin (IZR k)). 2:{ unfold fofZ. cbn [flit XROps]. now rewrite Q2R_Z. }
    unfold xdiv. destruct (Req_EM_T (IZR k) 0) as [E|_]; [apply eq_IZR in E; lia|]. f_equal. f_equal. lra.
  - f_equal. lra.
Qed.

(*@ C32_raises : if a transformation raises ValueError when called without params, then MultiSteps around it raises ValueError at the very first update call - even one that would only accumulate, and whatever params are passed. *)
Lemma multi_needs_params : forall `{O : Ops} (opt : GT) (k : Z -> Z) (use_mean : bool) (p0 g : tree tensor) (par : option (tree tensor)) (s0 : state),
  trwf p0 -> like p0 g -> (forall si u, init opt p0 = Ok si -> like p0 u -> update opt u si None = Err EValue) ->
  init (multi_steps opt k use_mean) p0 = Ok s0 -> update (multi_steps opt k use_mean) g s0 par = Err EValue.
Proof.
  intros O opt k use_mean p0 g par s0 Hw Hg Hn Hi. cbn [multi_steps init multi_init] in Hi. apply rbind_Ok in Hi as (si & Ei & Hi). injection Hi as <-.
  destruct (acc_step p0 Hw [] g (tmap zeros_like p0) (zeros_block p0 Hw) Hg) as (acc' & Eacc & Ha').
  cbn [multi_steps update multi_update]. rewrite Eacc. cbn [rbind].
  pose proof (mean_step k use_mean p0 ([] ++ [g]) acc' 0%Z Ha') as Hv.
  rewrite Hn; [reflexivity|exact Ei|]. unfold block_value, block_sum in Hv. destruct use_mean; apply Hv.
Qed.
Lemma chain_refuses : forall `{O : Ops} (p0 : tree tensor) (T : GT) (post : list GT), (forall s u, update T u s None = Err EValue) -> forall pre, Forall (fun t => exists I, steady true t p0 I) pre ->
  forall ss, chain_init (pre ++ T :: post) p0 = Ok ss -> length ss = length (pre ++ T :: post) /\ forall u, like p0 u -> chain_update (pre ++ T :: post) ss u None = Err EValue.
Proof.
  intros O p0 T post HT. assert (Hlen : forall ts ss, chain_init ts p0 = Ok ss -> length ss = length ts).
  { induction ts as [|t ts IH]; intros ss E; cbn [chain_init] in E; [now injection E as <-|]. apply rbind_Ok in E as (s & _ & E). apply rbind_Ok in E as (q & Eq & E). injection E as <-. cbn. f_equal. auto. }
  induction pre as [|t pre IH]; intros Hp ss E; (split; [now apply Hlen|]); intros u Hu.
  - cbn [app chain_init] in E. apply rbind_Ok in E as (s & _ & E). apply rbind_Ok in E as (q & Eq & E). injection E as <-. cbn [app chain_update]. rewrite HT. reflexivity.
  - inversion Hp as [|? ? (I & (s0 & Es0 & HI) & Hst) Hp']; subst. cbn [app chain_init] in E. apply rbind_Ok in E as (s & Es & E). apply rbind_Ok in E as (q & Eq & E). injection E as <-.
    assert (s = s0) by congruence. subst s0. cbn [app chain_update]. destruct (Hst s u None HI Hu) as (u' & s' & E & Hu' & _); [discriminate|]. rewrite E. cbn [rbind].
    destruct (IH Hp' q Eq) as (_ & IH'). rewrite IH' by exact Hu'. reflexivity.
Qed.
(*@ C32_instances : that covers add_decayed_weights, keep_params_nonnegative, scale_by_trust_ratio and adaptive_grad_clip, anywhere in a chain after transformations that ignore params and do not raise. *)
Lemma multi_needs_params_instances : forall `{O : Ops} (pre post : list GT) (T : GT) (k : Z -> Z) (use_mean : bool) (p0 g : tree tensor) (par : option (tree tensor)) (s0 : state) (wd clipping eps min_norm : F),
  trwf p0 -> like p0 g -> Forall (fun t => exists I, steady true t p0 I) pre ->
  In T [add_decayed_weights wd; keep_params_nonnegative; scale_by_trust_ratio min_norm; adaptive_grad_clip clipping eps] ->
  init (multi_steps (chain_gt (pre ++ T :: post)) k use_mean) p0 = Ok s0 -> update (multi_steps (chain_gt (pre ++ T :: post)) k use_mean) g s0 par = Err EValue.
Proof.
  intros O pre post T k use_mean p0 g par s0 wd clipping eps min_norm Hw Hg Hpre HT Hi. apply (multi_needs_params _ k use_mean p0); auto.
  intros si u Ei Hu. cbn [chain_gt init] in Ei. destruct (chain_init _ p0) as [ss|] eqn:E; [|discriminate]. injection Ei as <-.
  destruct (chain_refuses p0 T post) with (pre := pre) (ss := ss) as (Hl & Hr); auto.
  - intros s v. cbn in HT. decompose [or] HT; subst; try reflexivity. easy.
  - cbn [chain_gt update]. rewrite Hl, Nat.eqb_refl, Hr by exact Hu. reflexivity.
Qed.

(*@ex C31_example *)
Lemma multi_example : forall `{P : Platform}, let H := ones_hist [Fin 1; Fin 5; Fin 7] in
  (exists I, steady true (scale (Fin 2)) (one (Fin 1)) I) /\ trwf (one (Fin 1)) /\ Forall (like (one (Fin 1))) (map fst H) /\
  exists outs, trains (multi_steps (scale (Fin 2)) (fun _ => 2%Z) true) (one (Fin 1)) H outs /\ outs = [one (Fin 0); one (Fin 6); one (Fin 0)].
Proof.
  intros P H. assert (Hs : exists I, steady true (scale (Fin 2)) (one (Fin 1)) I) by apply (@refines_steady (XROps P) _ _ _ _ (@refines_scale (XROps P) (Fin 2)) (one_wf (Fin 1))).
  assert (Hl : Forall (like (one (Fin 1))) (map fst H)) by (repeat constructor).
  split; [exact Hs|]. split; [apply one_wf|]. split; [exact Hl|]. destruct Hs as (I & Hs).
  destruct (@multi_steps_total (XROps P) _ (fun _ => 2%Z) true _ I H (one_wf (Fin 1)) Hs Hl ltac:(reflexivity)) as (outs & s0 & s1 & Ei & Er).
  exists outs. split; [exists s0, s1; auto|].
  destruct (@multi_blocks (XROps P) _ (fun _ => 2%Z) true _ H s0 s1 outs (one_wf (Fin 1)) ltac:(lia) ltac:(reflexivity) Hl Ei Er) as (Bs & rest & Gs & si0 & os & sf & S & E1 & Hsz & Hrl & Hv & Ei0 & Ero & -> & _).
  destruct Bs as [|B [|B' Bs]].
  - exfalso. pose proof (f_equal (@List.length _) E1) as E3. cbn in E3. destruct rest as [|? [|? ?]]; [discriminate E3|discriminate E3|]. cbn -[Z.of_nat] in Hrl. lia.
  - cbn [block_sizes] in Hsz. destruct B as [|b1 [|b2 [|? ?]]]; try (cbn in Hsz; lia). cbn in E1. injection E1 as <- <- <-.
    destruct Gs as [|G [|? ?]]; try (cbn in Hv; tauto). cbn [block_values] in Hv. destruct Hv as (Hv & _).
    pose proof (fun x => @multi_mean_real P true (one (Fin 1)) 2 [one (Fin 1); one (Fin 5)] G (0, 0) x [1%R; 5%R] (one_wf _) ltac:(repeat constructor) ltac:(reflexivity || lia) Hv) as Hg. specialize (Hg (Fin 1) eq_refl eq_refl). cbn -[Rplus Rdiv IZR] in Hg.
    cbn [block_value] in Hv. destruct Hv as ((Hga & Hgw) & _).
    assert (EG : G = one (Fin 3)).
    { destruct G as [t|]; [|discriminate]. destruct t as [d s l]. unfold avals in Hga. cbn in Hga. injection Hga as -> ->. unfold trwf in Hgw. cbn in Hgw. apply Forall_inv in Hgw. unfold twf in Hgw. cbn in Hgw. destruct l as [|x [|? ?]]; try discriminate. cbn in Hg. injection Hg as ->. unfold one. do 4 f_equal. lra. }
    subst G. cbn in Ei0. injection Ei0 as <-. cbn -[Rmult IZR] in Ero. injection Ero as <- <-. cbn -[Rmult IZR]. unfold one, zeros_of, sl, emap. cbn -[Rmult IZR]. nx. repeat (f_equal; try lra).
  - exfalso. cbn [block_sizes] in Hsz. destruct Hsz as (H1 & H2 & _). destruct B as [|? [|? [|? ?]]]; try (cbn in H1; lia). destruct B' as [|? [|? [|? ?]]]; try (cbn in H2; lia).
    pose proof (f_equal (@List.length _) E1) as E3. cbn in E3. lia.
Qed.
(*@ex C32_example *)
Lemma multi_needs_params_example : forall `{P : Platform}, exists s0,
  init (multi_steps (chain_gt ([scale_by_adam (Fin (9/10)) (Fin (999/1000)) (Fin (1/100)) (Fin 0)] ++ add_decayed_weights (Fin (1/10)) :: [scale (Fin (-1))])) (fun _ => 4%Z) true) ex_p = Ok s0 /\
  update (multi_steps (chain_gt ([scale_by_adam (Fin (9/10)) (Fin (999/1000)) (Fin (1/100)) (Fin 0)] ++ add_decayed_weights (Fin (1/10)) :: [scale (Fin (-1))])) (fun _ => 4%Z) true) (ex_g 1) s0 (Some ex_p) = Err EValue.
Proof.
  intros P. eexists. split; [reflexivity|].
  eapply (@multi_needs_params_instances (XROps P) _ _ _ _ _ ex_p) with (wd := Fin (1/10)) (clipping := Fin 0) (eps := Fin 0) (min_norm := Fin 0); [apply ex_p_wf|repeat constructor| |left; reflexivity|reflexivity].
  repeat constructor. apply (@refines_steady (XROps P) _ _ _ _ (@refines_adam (XROps P) _ _ _ _) ex_p_wf).
Qed.
