(** MultiSteps around element-wise optimisers, element by element and in any arithmetic. *)
From Verif Require Export P_counters P_alias.
From Coq Require Import List Psatz.
Import ListNotations.
Open Scope nat_scope.
(*@header
From Coq Require Import List.
Import ListNotations.
Open Scope nat_scope.
*)

(** ** Specification *)
Section Spec.
  Context `{O : Ops}.
  (** Sum of the first [r] gradients of block [j] (of length k), added in order of arrival to a zero of the leaf's dtype. *)
  Fixpoint block_acc (d : fdt) (k : nat) (g : nat -> F) (j r : nat) : F :=
    match r with 0 => fcast d fzero | S i => fadd d (g (j * k + i)) (block_acc d k g j i) end.
  (** What the wrapped optimiser receives for block [j]. *)
  Definition block_grad (use_mean : bool) (d : fdt) (k : nat) (g : nat -> F) (j : nat) : F :=
    let s := block_acc d k g j k in if use_mean then fdiv d s (fcast d (fofZ (Z.of_nat k))) else s.
End Spec.

Section Machine.
  Context `{O : Ops}.
  Definition m_multi (k : nat) (use_mean : bool) (M : machine) : machine :=
    mkM (F * mE M) (fun d x => (fcast d fzero, m_init M d x))
      (fun n d g p e =>
        let a := fadd d g (fst e) in
        if (n mod k <? k - 1)%nat then (fcast d fzero, (a, snd e))
        else let r := m_step M (n / k) d (if use_mean then fdiv d a (fcast d (fofZ (Z.of_nat k))) else a) p (snd e) in (fst r, (fcast d fzero, snd r))).

  Lemma refines_multi k use_mean T M : (1 <= k)%nat -> (Z.of_nat k < 2 ^ 31)%Z -> refines true T M -> refines true (multi_steps T (fun _ => Z.of_nat k) use_mean) (m_multi k use_mean M).
  Proof.
    intros Hk Hk2 (ri & sg & Hi & Hs & Hn & Hu).
    exists (fun n Z => SNode NMulti [SInt iw64 (Z.of_nat (n mod k)); SInt iw64 (signed counter_bits (Z.of_nat (n / k))); ri (n / k) (emapt (fun _ => snd) Z); STree (emapt (fun _ => fst) Z)]),
      (fun a => GNode NMulti [GInt iw64; GInt iw64; sg a; GTree a]). split; [|split; [|split]].
    - intros p Hp. cbn [multi_steps init]. unfold multi_init. rewrite (Hi p Hp). cbn [rbind]. rewrite Nat.mod_0_l, Nat.div_0_l by lia. change (Z.of_nat 0) with 0%Z. rewrite signed_0, !emapt_emapt. cbn [m_multi m_init mE fst snd].
      rewrite (full_like_emapt fzero p zeros_like Hp) by reflexivity. reflexivity.
    - intros n Z. cbn [ssig map]. rewrite Hs, !emapt_avals. reflexivity.
    - intros _ n d g p p' e. cbn [m_multi m_step]. destruct (n mod k <? k - 1); [reflexivity|]. now rewrite (Hn eq_refl _ _ _ p p').
    - intros n W par HW _. cbn [mE m_multi] in *. cbn [multi_steps update]. unfold multi_update, multi_acc. cbn beta iota zeta. rewrite !emapt_emapt.
      rewrite (tmm2_ew (bin fadd) _ _ (fun d z => fadd d (fst (fst z)) (fst (snd z)))) by (intros; rewrite bin_emap; reflexivity). cbn [rbind].
      assert (Em : multi_mean use_mean (Z.of_nat k) (emapt (fun d (z : F * F * (F * mE M)) => fadd d (fst (fst z)) (fst (snd z))) W) =
        emapt (fun d z => if use_mean then fdiv d (fadd d (fst (fst z)) (fst (snd z))) (fcast d (fofZ (Z.of_nat k))) else fadd d (fst (fst z)) (fst (snd z))) W).
      { unfold multi_mean. destruct use_mean; [|reflexivity]. apply tmap_emapt. intros z. unfold sr. now rewrite emap_emap. }
      rewrite Em.
      pose (W2 := emapt (fun d (z : F * F * (F * mE M)) => ((if use_mean then fdiv d (fadd d (fst (fst z)) (fst (snd z))) (fcast d (fofZ (Z.of_nat k))) else fadd d (fst (fst z)) (fst (snd z))), snd (fst z), snd (snd z))) W).
      assert (HW2 : trwf W2) by (apply emapt_wf; exact HW).
      pose proof (Hu (n / k) W2 None HW2 ltac:(discriminate)) as E. unfold W2 in E. rewrite !emapt_emapt in E. cbn [fst snd] in E. rewrite E. cbn [rbind]. clear E Em W2 HW2.
      apply cond_us_Ok. eexists _, _. split; [reflexivity|]. split; [reflexivity|].
      rewrite (full_like_emapt fzero (emapt (fun _ z => fst (fst z)) W) zeros_like) by (try apply emapt_wf; auto).
      rewrite (full_like_emapt fzero (emapt (fun d z => fadd d (fst (fst z)) (fst (snd z))) W) zeros_like) by (try apply emapt_wf; auto). rewrite !emapt_emapt.
      split.
      + unfold sig_us. cbn [fst snd ssig map]. now rewrite !Hs, !emapt_avals.
      + pose proof (Nat.mod_upper_bound n k ltac:(lia)) as Hb. pose proof (Nat.div_mod n k ltac:(lia)) as Hd.
        cbn [m_multi m_step fst snd]. destruct (Nat.ltb_spec (n mod k) (k - 1)) as [Hlt|Hge]; destruct (Z.ltb_spec (Z.of_nat (n mod k)) (Z.of_nat k - 1)) as [Hlt'|Hge']; try lia; cbn [fst snd].
        * assert (E1 : S n mod k = S (n mod k)) by (symmetry; apply (Nat.mod_unique _ _ (n / k)); lia). assert (E2 : S n / k = n / k) by (symmetry; apply (Nat.div_unique _ _ _ (S (n mod k))); lia).
          rewrite E1, E2, iw64_signed, (signed_small (Z.of_nat (n mod k) + 1)) by lia. cbn [fst snd]. replace (Z.of_nat (n mod k) + 1)%Z with (Z.of_nat (S (n mod k))) by lia. reflexivity.
        * assert (E1 : S n mod k = 0) by (symmetry; apply (Nat.mod_unique _ _ (S (n / k))); lia). assert (E2 : S n / k = S (n / k)) by (symmetry; apply (Nat.div_unique _ _ _ 0); lia).
          rewrite E1, E2, signed_succ. replace (Z.of_nat (n / k) + 1)%Z with (Z.of_nat (S (n / k))) by lia. reflexivity.
  Qed.

  Lemma multi_state k um M d x g p n : (1 <= k)%nat -> (forall n d g p p' e, m_step M n d g p e = m_step M n d g p' e) ->
    mst (m_multi k um M) d x g p n = (block_acc d k g (n / k) (n mod k), mst M d x (block_grad um d k g) p (n / k)).
  Proof.
    intros Hk Hi. induction n as [|n IH].
    - rewrite Nat.mod_0_l, Nat.div_0_l by lia. reflexivity.
    - cbn [mst]. rewrite IH. cbn [m_multi m_step fst snd]. pose proof (Nat.mod_upper_bound n k ltac:(lia)) as Hb. pose proof (Nat.div_mod n k ltac:(lia)) as Hd.
      assert (Ea : fadd d (g n) (block_acc d k g (n / k) (n mod k)) = block_acc d k g (n / k) (S (n mod k))) by (cbn [block_acc]; rewrite (Nat.mul_comm (n / k) k), <- Hd; reflexivity). rewrite Ea.
      destruct (Nat.ltb_spec (n mod k) (k - 1)) as [Hlt|Hge]; cbn [fst snd].
      + assert (E1 : S n mod k = S (n mod k)) by (symmetry; apply (Nat.mod_unique _ _ (n / k)); lia). assert (E2 : S n / k = n / k) by (symmetry; apply (Nat.div_unique _ _ _ (S (n mod k))); lia). now rewrite E1, E2.
      + assert (E1 : S n mod k = 0) by (symmetry; apply (Nat.mod_unique _ _ (S (n / k))); lia). assert (E2 : S n / k = S (n / k)) by (symmetry; apply (Nat.div_unique _ _ _ 0); lia). rewrite E1, E2. replace (S (n mod k)) with k by lia. cbn [mst]. change (block_acc d k g (S (n / k)) 0) with (fcast d fzero). unfold block_grad. rewrite (Hi _ _ _ (p n) (p (n / k))). reflexivity.
  Qed.
End Machine.

(*@ C31_elementwise : for every element-wise optimiser (refined by a scalar machine: identity, scale, schedules, clip, trace, ema, adam, rms, ... of any hyper-parameters), every fixed k from 1 to 2^31-1, sum or mean, and histories of any length, in any arithmetic: MultiSteps succeeds, and at an element with gradients g its n-th output is zero, except that at calls k, 2k, 3k, ... it is exactly what the optimiser emits at its own j-th call on the element's history of block sums (means), each accumulated in order of arrival. *)
Lemma multi_elementwise : forall `{O : Ops} (T : GT) (M : machine) (k : nat) (use_mean : bool) (p : tree tensor) (H : list (tree tensor * option (tree tensor))),
  (1 <= k)%nat -> (Z.of_nat k < 2 ^ 31)%Z -> refines true T M -> trwf p -> hist_ok true p H ->
  exists outs, trains (multi_steps T (fun _ => Z.of_nat k) use_mean) p H outs /\ length outs = length H /\ Forall (like p) outs /\
    forall n pos g, (n < length H)%nat -> (forall i, (i <= n)%nat -> helt H i pos = Some (g i)) ->
      exists x, elt p pos = Some x /\
        oelt outs n pos = Some (if (S n mod k =? 0)%nat then mout M (leafdt p pos) x (block_grad use_mean (leafdt p pos) k g) (fun _ => fzero) (n / k) else fcast (leafdt p pos) fzero).
Proof.
  intros O T M k um p H Hk Hk2 HR Wp HH. destruct (refines_trains true _ _ (refines_multi k um T M Hk Hk2 HR) p H Wp HH) as (outs & Ht & Hl & Ho & He).
  exists outs. split; [exact Ht|]. split; [exact Hl|]. split; [exact Ho|]. intros n pos g Hn Hg.
  destruct (He n pos g (fun _ => fzero) Hn Hg ltac:(discriminate)) as (x & Ex & E). exists x. split; [exact Ex|]. rewrite E. f_equal.
  destruct HR as (_ & _ & _ & _ & Hi & _). specialize (Hi eq_refl). unfold mout. rewrite multi_state by assumption. cbn [m_multi m_step fst snd].
  pose proof (Nat.mod_upper_bound n k ltac:(lia)) as Hb. pose proof (Nat.div_mod n k ltac:(lia)) as Hd.
  assert (Ea : fadd (leafdt p pos) (g n) (block_acc (leafdt p pos) k g (n / k) (n mod k)) = block_acc (leafdt p pos) k g (n / k) (S (n mod k))) by (cbn [block_acc]; rewrite (Nat.mul_comm (n / k) k), <- Hd; reflexivity). rewrite Ea.
  destruct (Nat.ltb_spec (n mod k) (k - 1)) as [Hlt|Hge]; cbn [fst snd].
  - assert (E1 : S n mod k = S (n mod k)) by (symmetry; apply (Nat.mod_unique _ _ (n / k)); lia). rewrite E1. reflexivity.
  - assert (E1 : S n mod k = 0) by (symmetry; apply (Nat.mod_unique _ _ (S (n / k))); lia). rewrite E1. cbn [Nat.eqb]. replace (S (n mod k)) with k by lia. reflexivity.
Qed.
