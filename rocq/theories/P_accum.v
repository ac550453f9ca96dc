(** accumulator_dtype of trace and ema: the accumulators have the requested dtype, in any arithmetic. *)
From Verif Require Export P_transform.
From Coq Require Import List Psatz.
Import ListNotations.
Open Scope R_scope.
(*@header
From Coq Require Import List.
Import ListNotations.
Open Scope R_scope.
*)

(** ** Specification: what one element accumulates.
    [D] is the dtype of the accumulator, [dg] that of the gradients; binary operations on arrays of different dtypes
    happen at the promoted dtype. *)
Section Spec.
  Context `{O : Ops}.
  (** The dtype a float64 request gets: float32 unless x64 is enabled. *)
  Definition effective (d : fdt) : fdt := match d with F64 => defdt | _ => d end.
  Definition trace_new (decay : F) (dg D : fdt) (g t : F) : F :=
    fadd (promote dg D) (conv dg (promote dg D) g) (conv D (promote dg D) (fmul D (fcast D decay) t)).
  Fixpoint trace_acc (decay : F) (dg D : fdt) (g : nat -> F) (n : nat) : F :=
    match n with
    | 0%nat => fcast D fzero
    | S k => conv (promote dg D) D (trace_new decay dg D (g k) (trace_acc decay dg D g k))
    end.
  Definition ema_new (decay : F) (dg D : fdt) (g t : F) : F :=
    fadd (promote dg D) (conv dg (promote dg D) (fmul dg (fcast dg (fsub F64 fone decay)) g)) (conv D (promote dg D) (fmul D (fcast D decay) t)).
  Fixpoint ema_acc (decay : F) (dg D : fdt) (g : nat -> F) (n : nat) : F :=
    match n with
    | 0%nat => fcast D fzero
    | S k => conv (promote dg D) D (ema_new decay dg D (g k) (ema_acc decay dg D g k))
    end.
  (** The signature of [a] with its dtypes changed by [f]. *)
  Definition redtype (f : fdt -> fdt) (a : tree (fdt * list nat)) : tree (fdt * list nat) := tmap (fun x => (f (fst x), snd x)) a.
End Spec.

(** ** Maps that change the dtype *)
Section Dmap.
  Context `{O : Ops}.
  Definition dmap {A B} (fd : fdt -> fdt) (f : fdt -> A -> B) (t : gt A) : gt B := mkT (fd (dt t)) (shp t) (map (f (dt t)) (dat t)).
  Definition dmapt {A B} fd (f : fdt -> A -> B) (t : tree (gt A)) : tree (gt B) := tmap (dmap fd f) t.
  Lemma dmapt_avals {A B} fd (f : fdt -> A -> B) t : avals (dmapt fd f t) = redtype fd (avals t).
  Proof. unfold avals, dmapt, redtype. rewrite !tmap_tmap. apply tmap_ext. reflexivity. Qed.
  Lemma elt_dmapt {A B} fd (f : fdt -> A -> B) t p : elt (dmapt fd f t) p = option_map (f (leafdt t p)) (elt t p).
  Proof.
    unfold elt, dmapt, leafdt. rewrite leaves_tmap, nth_error_map. destruct (nth_error (leaves t) (fst p)); cbn; [|reflexivity]. now rewrite nth_error_map.
  Qed.
  Lemma dmapt_emapt {A B C} fd (f : fdt -> B -> C) (g : fdt -> A -> B) t : dmapt fd f (emapt g t) = dmapt fd (fun d x => f d (g d x)) t.
  Proof. unfold dmapt, emapt. rewrite tmap_tmap. apply tmap_ext. intros a _. unfold dmap, emap. cbn. now rewrite map_map. Qed.
  Lemma emapt_dmapt {A B} (f : fdt -> A -> B) t : emapt f t = dmapt (fun d => d) f t.
  Proof. reflexivity. Qed.
  Lemma bin_dmap {Z} op fa fb (u v : fdt -> Z -> F) (z : gt Z) :
    bin op (dmap fa u z) (dmap fb v z) = Ok (dmap (fun d => promote (fa d) (fb d)) (fun d e => op (promote (fa d) (fb d)) (conv (fa d) (promote (fa d) (fb d)) (u d e)) (conv (fb d) (promote (fa d) (fb d)) (v d e))) z).
  Proof. unfold bin, dmap; cbn. rewrite shape_eqb_refl, map2_map_same. reflexivity. Qed.
  Lemma sl_dmap {Z} op c fa (u : fdt -> Z -> F) (z : gt Z) : sl op c (dmap fa u z) = dmap fa (fun d e => op (fa d) (fcast (fa d) c) (u d e)) z.
  Proof. unfold sl, emap, dmap. cbn. now rewrite map_map. Qed.
  Lemma tmm2_dmapt {Z} f fa fb fc (u v w : fdt -> Z -> F) (W : tree (gt Z)) : (forall z, f (dmap fa u z) (dmap fb v z) = Ok (dmap fc w z)) ->
    tmm2 f (dmapt fa u W) (dmapt fb v W) = Ok (dmapt fc w W).
  Proof. intros H. unfold dmapt. rewrite tmm2_same. rewrite <- (tmapM_ok (dmap fc w)). apply tmapM_ext. intros; apply H. Qed.
  Lemma cast_dmapt {Z} d fa (u : fdt -> Z -> F) (W : tree (gt Z)) : tmap (astype d) (dmapt fa u W) = dmapt (fun _ => d) (fun dz e => conv (fa dz) d (u dz e)) W.
  Proof. unfold dmapt. rewrite tmap_tmap. apply tmap_ext. intros a _. unfold astype, dmap. cbn. now rewrite map_map. Qed.
  Lemma bc_dmapt {Z} decay c fa (u : fdt -> Z -> F) (W : tree (gt Z)) :
    bias_correction (dmapt fa u W) decay c = dmapt fa (fun d z => fdiv (fa d) (u d z) (conv defdt (fa d) (bias_corr decay c))) W.
  Proof. unfold bias_correction, dmapt. rewrite tmap_tmap. apply tmap_ext. intros a _. unfold emap, dmap. cbn. now rewrite map_map. Qed.

  (** The run of a transformation whose accumulators are at dtype [D]. *)
  Lemma acc_run (T : GT) (D : fdt) (repr : nat -> tree (gt F) -> state) (od : fdt -> fdt) (z : F) (step out : nat -> fdt -> F -> F -> F) :
    (forall p, trwf p -> init T p = Ok (repr 0%nat (dmapt (fun _ => D) (fun _ _ => z) p))) ->
    (forall n (W : tree (gt (F * F))) par, trwf W -> update T (emapt (fun _ => fst) W) (repr n (dmapt (fun _ => D) (fun _ => snd) W)) par =
       Ok (dmapt od (fun d e => out n d (fst e) (snd e)) W, repr (S n) (dmapt (fun _ => D) (fun d e => step n d (fst e) (snd e)) W))) ->
    forall p H, trwf p -> hist_ok true p H ->
    exists s0 outs acc, init T p = Ok s0 /\ run T s0 H = Ok (outs, repr (length H) acc) /\ length outs = length H /\
      avals acc = redtype (fun _ => D) (avals p) /\ Forall (fun o => avals o = redtype od (avals p)) outs /\
      forall pos x (g : nat -> F), elt p pos = Some x -> (forall i, (i < length H)%nat -> helt H i pos = Some (g i)) ->
        let t := fix t n := match n with 0%nat => z | S k => step k (leafdt p pos) (g k) (t k) end in
        elt acc pos = Some (t (length H)) /\ forall n, (n < length H)%nat -> oelt outs n pos = Some (out n (leafdt p pos) (g n) (t n)).
  Proof.
    intros Hinit Hupd p H Wp HH.
    enough (exists outs Z, run T (repr 0%nat (dmapt (fun _ => D) (fun _ _ => z) p)) H = Ok (outs, repr (length H) (dmapt (fun _ => D) (fun _ e => e) Z)) /\ avals Z = avals p /\ trwf Z /\ length outs = length H /\
      Forall (fun o => avals o = redtype od (avals p)) outs /\
      forall pos x (g : nat -> F), elt p pos = Some x -> (forall i, (i < length H)%nat -> helt H i pos = Some (g i)) ->
        let t := fix t n := match n with 0%nat => z | S k => step k (leafdt p pos) (g k) (t k) end in
        elt Z pos = Some (t (length H)) /\ forall n, (n < length H)%nat -> oelt outs n pos = Some (out n (leafdt p pos) (g n) (t n))) as (outs & Z & Hr & HZ & WZ & Hl & Ho & He).
    { exists (repr 0%nat (dmapt (fun _ => D) (fun _ _ => z) p)), outs, (dmapt (fun _ => D) (fun _ e => e) Z). split; [auto|]. split; [exact Hr|]. split; [exact Hl|].
      split; [rewrite dmapt_avals; now rewrite HZ|]. split; [exact Ho|]. intros pos x g Hx Hg. destruct (He pos x g Hx Hg) as (E1 & E2). split; [|exact E2]. rewrite elt_dmapt, E1. reflexivity. }
    induction H as [|[g par] H IH] using rev_ind.
    - exists [], (emapt (fun _ _ => z) p). rewrite dmapt_emapt, emapt_avals, emapt_wf. repeat split; auto.
      + rewrite elt_emapt, H. reflexivity.
      + cbn. intros n Hn; lia.
    - apply Forall_app in HH as [HH Hlast]. inversion Hlast as [|? ? [[Hg Wg] _] _]; subst. clear Hlast. cbn in Hg, Wg.
      destruct (IH HH) as (outs & Z & Hr & HZ & WZ & Hl & Ho & He). clear IH.
      destruct (tree_gzip g Z (eq_trans Hg (eq_sym HZ)) Wg WZ) as (W & HW & WW & E1 & E2).
      pose proof (Hupd (length H) W par WW) as HU. rewrite E1 in HU. rewrite <- E2 in Hr. rewrite dmapt_emapt in Hr. change (fun (d : fdt) (x : F * F) => snd x) with (fun _ : fdt => @snd F F) in Hr.
      exists (outs ++ [dmapt od (fun d e => out (length H) d (fst e) (snd e)) W]), (emapt (fun d e => step (length H) d (fst e) (snd e)) W).
      rewrite run_app, Hr. cbn [rbind run]. rewrite HU. cbn [rbind]. rewrite app_length, Nat.add_1_r, dmapt_emapt, emapt_avals, emapt_wf.
      assert (HWp : avals W = avals p) by exact (eq_trans HW Hg).
      split; [reflexivity|]. split; [exact HWp|]. split; [exact WW|]. split; [rewrite app_length; cbn; lia|].
      split. { apply Forall_app; split; [exact Ho|]. constructor; [|constructor]. rewrite dmapt_avals. now rewrite HWp. }
      intros pos x gs Hx Hgs. cbn zeta.
      destruct (He pos x gs Hx) as (EZ & EO). { intros i Hi. rewrite <- Hgs by lia. unfold helt. now rewrite nth_error_app1. }
      assert (Egp : elt g pos = Some (gs (length H))). { rewrite <- Hgs by lia. unfold helt. rewrite nth_error_app2, Nat.sub_diag by lia. reflexivity. }
      pose proof (elt_zip _ _ W pos E1 E2) as EW. rewrite Egp, EZ in EW.
      split.
      + rewrite elt_emapt, EW. cbn [option_map fst snd]. rewrite (leafdt_avals W p pos HWp). reflexivity.
      + intros n Hn. unfold oelt. destruct (Nat.eq_dec n (length H)) as [->|Hne].
        * rewrite nth_error_app2 by lia. rewrite Hl, Nat.sub_diag. cbn [nth_error]. rewrite elt_dmapt, EW. cbn [option_map fst snd]. rewrite (leafdt_avals W p pos HWp). reflexivity.
        * rewrite nth_error_app1 by lia. apply EO. lia.
  Qed.
  Lemma zeros_dmapt d p : trwf p -> tmap (zeros_as (Some d)) p = dmapt (fun _ => d) (fun _ _ => fcast d fzero) p.
  Proof.
    intros Wp. unfold dmapt. apply tmap_ext. intros a Ha. unfold trwf in Wp. rewrite Forall_forall in Wp. specialize (Wp a Ha). unfold twf in Wp.
    unfold zeros_as, full, dmap. f_equal. rewrite <- Wp. clear. induction (dat a); cbn; congruence.
  Qed.
End Dmap.
Lemma promote_left a b : promote a (promote a b) = promote a b.
Proof. now destruct a, b. Qed.

(*@ C12_accumulator : with accumulator_dtype = d, in any arithmetic, for every tree of parameters (any dtypes) and every history: init and every update succeed, the accumulators have dtype d (float64 being float32 unless x64 is enabled) and the parameters' shapes from the first state to the last, the outputs have the promoted dtype, and every element accumulates g + decay * t at the promoted dtype, rounded to d between calls, starting from zero; with nesterov the output is g + decay * (new t). *)
Lemma trace_accumulator : forall `{O : Ops} (decay : F) (nesterov : bool) (d : fdt) (p : tree tensor) (H : list (tree tensor * option (tree tensor))), trwf p -> hist_ok true p H ->
  let T := trace decay nesterov (Some d) in let D := effective d in
  exists s0 outs acc, init T p = Ok s0 /\ run T s0 H = Ok (outs, SNode NTrace [STree acc]) /\ length outs = length H /\
    avals acc = redtype (fun _ => D) (avals p) /\ Forall (fun o => avals o = redtype (fun dg => promote dg D) (avals p)) outs /\
    forall pos x (g : nat -> F), elt p pos = Some x -> (forall i, (i < length H)%nat -> helt H i pos = Some (g i)) ->
      let dg := leafdt p pos in let dp := promote dg D in
      elt acc pos = Some (trace_acc decay dg D g (length H)) /\
      forall n, (n < length H)%nat -> oelt outs n pos = Some (
        let t := trace_new decay dg D (g n) (trace_acc decay dg D g n) in
        if nesterov then fadd dp (conv dg dp (g n)) (fmul dp (fcast dp decay) t) else t).
Proof.
  intros O decay nesterov d p H Wp HH. cbn zeta.
  assert (ED : canonicalize_dtype (Some d) = Some (effective d)) by now destruct d.
  destruct (acc_run (trace decay nesterov (Some d)) (effective d) (fun _ a => SNode NTrace [STree a]) (fun dg => promote dg (effective d)) (fcast (effective d) fzero)
    (fun _ dg g t => conv (promote dg (effective d)) (effective d) (trace_new decay dg (effective d) g t))
    (fun _ dg g t => let t' := trace_new decay dg (effective d) g t in let dp := promote dg (effective d) in if nesterov then fadd dp (conv dg dp g) (fmul dp (fcast dp decay) t') else t')) with (p := p) (H := H) as (s0 & outs & acc & R); [| |exact Wp|exact HH|].
  - intros q Wq. unfold trace. rewrite ED. cbn [init]. now rewrite zeros_dmapt.
  - intros n W par WW. unfold trace. rewrite ED. cbn [update]. rewrite emapt_dmapt.
    erewrite (tmm2_dmapt (trace_leaf decay)). 2:{ intros z. unfold trace_leaf. rewrite sl_dmap, bin_dmap. reflexivity. }
    cbn [rbind cast_tree]. rewrite cast_dmapt. destruct nesterov; cbn [rbind]; [|reflexivity].
    erewrite (tmm2_dmapt (trace_leaf decay)). 2:{ intros z. unfold trace_leaf. rewrite sl_dmap, bin_dmap. reflexivity. }
    cbn [rbind]. do 2 f_equal. unfold dmapt. apply tmap_ext. intros a _. unfold dmap. cbv beta. rewrite promote_left. f_equal. apply map_ext. intros e. rewrite ?promote_left, ?conv_same. reflexivity.
  - exists s0, outs, acc. destruct R as (E1 & E2 & E3 & E4 & E5 & E6). split; [exact E1|]. split; [exact E2|]. split; [exact E3|]. split; [exact E4|]. split; [exact E5|].
    intros pos x g Hx Hg. destruct (E6 pos x g Hx Hg) as (A & B).
    assert (K : forall n, (fix t n := match n with 0%nat => fcast (effective d) fzero | S k => conv (promote (leafdt p pos) (effective d)) (effective d) (trace_new decay (leafdt p pos) (effective d) (g k) (t k)) end) n = trace_acc decay (leafdt p pos) (effective d) g n) by (induction n as [|n IH]; cbn; congruence).
    split; [rewrite A; f_equal; apply K|]. intros n Hn. rewrite (B n Hn). now rewrite K.
Qed.

(*@ C13_accumulator : the same for ema with accumulator_dtype = d: the accumulators have dtype d throughout; every element accumulates (1-decay) g + decay e at the promoted dtype, rounded to d between calls; with debias the unrounded new average divided by 1 - decay^(n+1) is emitted at the promoted dtype, without it the gradient itself. *)
Lemma ema_accumulator : forall `{O : Ops} (decay : F) (debias : bool) (d : fdt) (p : tree tensor) (H : list (tree tensor * option (tree tensor))), trwf p -> hist_ok true p H ->
  let T := ema decay debias (Some d) in let D := effective d in
  exists s0 outs c acc, init T p = Ok s0 /\ run T s0 H = Ok (outs, SNode NEma [SInt I32 c; STree acc]) /\ length outs = length H /\ c = Z.min (Z.of_nat (length H)) (2 ^ 31 - 1) /\
    avals acc = redtype (fun _ => D) (avals p) /\ Forall (fun o => avals o = redtype (fun dg => if debias then promote dg D else dg) (avals p)) outs /\
    forall pos x (g : nat -> F), elt p pos = Some x -> (forall i, (i < length H)%nat -> helt H i pos = Some (g i)) ->
      let dg := leafdt p pos in let dp := promote dg D in
      elt acc pos = Some (ema_acc decay dg D g (length H)) /\
      forall n, (n < length H)%nat -> oelt outs n pos = Some (
        let k := Z.min (Z.of_nat (S n)) (2 ^ 31 - 1) in
        if debias then fdiv dp (ema_new decay dg D (g n) (ema_acc decay dg D g n)) (conv defdt dp (fsub defdt (fcast defdt fone) (fpow defdt (fcast defdt decay) (fcast defdt (fofZ k)))))
        else g n).
Proof.
  intros O decay debias d p H Wp HH. cbn zeta.
  assert (ED : canonicalize_dtype (Some d) = Some (effective d)) by now destruct d.
  destruct (acc_run (ema decay debias (Some d)) (effective d) (fun n a => SNode NEma [SInt I32 (cnt n); STree a]) (fun dg => if debias then promote dg (effective d) else dg) (fcast (effective d) fzero)
    (fun _ dg g t => conv (promote dg (effective d)) (effective d) (ema_new decay dg (effective d) g t))
    (fun n dg g t => let dp := promote dg (effective d) in if debias then fdiv dp (ema_new decay dg (effective d) g t) (conv defdt dp (bias_corr decay (cnt (S n)))) else g)) with (p := p) (H := H) as (s0 & outs & acc & R); [| |exact Wp|exact HH|].
  - intros q Wq. unfold ema. rewrite ED. cbn [init]. now rewrite zeros_dmapt.
  - intros n W par WW. unfold ema. rewrite ED. cbn [update]. unfold update_moment. rewrite emapt_dmapt.
    erewrite (tmm2_dmapt (update_moment_leaf decay 1)). 2:{ intros z. unfold update_moment_leaf, ipow. rewrite !sl_dmap, bin_dmap. reflexivity. }
    cbn [rbind cast_tree]. rewrite cnt_S. cbn [rbind]. rewrite cast_dmapt. destruct debias; [|reflexivity]. rewrite bc_dmapt. reflexivity.
  - exists s0, outs, (cnt (length H)), acc. destruct R as (E1 & E2 & E3 & E4 & E5 & E6). split; [exact E1|]. split; [exact E2|]. split; [exact E3|]. split; [reflexivity|]. split; [exact E4|]. split; [exact E5|].
    intros pos x g Hx Hg. destruct (E6 pos x g Hx Hg) as (A & B).
    assert (K : forall n, (fix t n := match n with 0%nat => fcast (effective d) fzero | S k => conv (promote (leafdt p pos) (effective d)) (effective d) (ema_new decay (leafdt p pos) (effective d) (g k) (t k)) end) n = ema_acc decay (leafdt p pos) (effective d) g n) by (induction n as [|n IH]; cbn; congruence).
    split; [rewrite A; f_equal; apply K|]. intros n Hn. rewrite (B n Hn). now rewrite K.
Qed.

Lemma conv_exact `{P : Platform} a b (x : XR) : @conv (XROps P) a b x = x.
Proof. unfold conv. now destruct (fdt_eqb a b). Qed.
(*@ C12_accumulator_exact : hence in exact arithmetic the accumulator's dtype does not change what trace emits: the outputs are the sums of decay^(n-i) g_i of C12. *)
Lemma trace_accumulator_exact : forall `{P : Platform} (decay : R) (nesterov : bool) (d : fdt) (p : tree tensor) (H : list (tree tensor * option (tree tensor))), trwf p -> hist_ok true p H ->
  exists s0 outs sf, init (trace (Fin decay) nesterov (Some d)) p = Ok s0 /\ run (trace (Fin decay) nesterov (Some d)) s0 H = Ok (outs, sf) /\
    forall pos x (g : nat -> R), elt p pos = Some x -> (forall i, (i < length H)%nat -> helt H i pos = Some (Fin (g i))) ->
      forall n, (n < length H)%nat -> let t := sum_f_R0 (fun i => decay ^ (n - i) * g i) n in oelt outs n pos = Some (Fin (if nesterov then g n + decay * t else t)).
Proof.
  intros P decay nesterov d p H Wp HH. destruct (@trace_accumulator (XROps P) (Fin decay) nesterov d p H Wp HH) as (s0 & outs & acc & Ei & Er & _ & _ & _ & He).
  exists s0, outs, (SNode NTrace [STree acc]). split; [exact Ei|]. split; [exact Er|]. intros pos x g Hx Hg n Hn. cbn zeta. destruct (He pos x (fun i => Fin (g i)) Hx Hg) as (_ & Ho). rewrite (Ho n Hn). clear Ho He. f_equal. cbn zeta.
  assert (K : forall m, trace_new (O := XROps P) (Fin decay) (leafdt p pos) (effective d) (Fin (g m)) (trace_acc (O := XROps P) (Fin decay) (leafdt p pos) (effective d) (fun i => Fin (g i)) m) = Fin (wsum decay g m)).
  { induction m as [|m IH].
    - unfold trace_new. cbn [trace_acc]. rewrite !conv_exact. unfold wsum. unfold fzero. cbn. rewrite Q2R_0. f_equal. ring.
    - unfold trace_new. cbn [trace_acc]. rewrite IH, !conv_exact, wsum_S. reflexivity. }
  rewrite K, conv_exact. unfold wsum. destruct nesterov; reflexivity.
Qed.
(*@ex C12_accumulator_example *)
Lemma accumulator_example : forall `{P : Platform}, trwf ex_p /\ hist_ok true ex_p ex_H /\ promote F32 BF16 = F32 /\ promote F16 BF16 = F32 /\ effective BF16 = BF16 /\
  exists s0 outs sf, init (trace (Fin (1 / 2)) false (Some BF16)) ex_p = Ok s0 /\ run (trace (Fin (1 / 2)) false (Some BF16)) s0 ex_H = Ok (outs, sf) /\ oelt outs 2 (0%nat, 1%nat) = Some (Fin (17 / 4)).
Proof.
  intros P. split; [exact ex_p_wf|]. split; [exact (ex_H_ok true)|]. repeat (split; [reflexivity|]).
  destruct (trace_accumulator_exact (1/2) false BF16 ex_p ex_H ex_p_wf (ex_H_ok true)) as (s0 & outs & sf & Ei & Er & He). exists s0, outs, sf. split; [exact Ei|]. split; [exact Er|].
  etransitivity; [apply (He (0%nat, 1%nat) (Fin 2) (fun i => INR (S i)) eq_refl (fun i Hi => ex_H_elt i (proj1 (Nat.lt_succ_r _ _) Hi)) 2%nat); cbn; lia|]. cbn zeta. do 2 f_equal. cbn. lra.
Qed.
