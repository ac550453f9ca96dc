(** apply_if_finite, maybe_update, MultiSteps. *)
From Verif Require Export M_wrappers P_norm Ex.
From Coq Require Import String List Psatz.
Import ListNotations.
Open Scope list_scope.
Open Scope nat_scope.
(*@header
From Coq Require Import List.
Import ListNotations.
Open Scope list_scope.
Open Scope nat_scope.
*)

(** ** Specifications *)
Section Spec.
  Context `{O : Ops}.
  Notation updates := (tree tensor).
  Notation params := (option (tree tensor)).
  Definition tree_finite (u : updates) : bool := forallb fisfinite (flat_map dat (leaves u)).
  Definition zeros_of (u : updates) : updates := tmap (fun t => mkT (dt t) (shp t) (repeat (fcast (dt t) fzero) (prodn (shp t)))) u.

  (** Inner transformations that never raise on parameters like [p0] and keep shapes, dtypes and the
      structure of their state: [I] holds of every reachable state. *)
  Definition steady (np : bool) (T : GT) (p0 : updates) (I : state -> Prop) : Prop :=
    (exists s0, init T p0 = Ok s0 /\ I s0) /\
    forall s u par, I s -> like p0 u -> (np = false -> exists q, par = Some q /\ like p0 q) ->
      exists u' s', update T u s par = Ok (u', s') /\ like p0 u' /\ ssig s' = ssig s /\ I s'.

  (** Length of the current run of non-finite updates, newest flag first. *)
  Fixpoint bad_run (flags : list bool) : nat := match flags with false :: r => S (bad_run r) | _ => 0 end.
  Fixpoint bad_total (flags : list bool) : nat := match flags with [] => 0 | false :: r => S (bad_total r) | true :: r => bad_total r end.
  (** apply_if_finite: [past] is the list of finiteness flags so far, newest first. *)
  Fixpoint finite_ref (inner : GT) (max : Z) (past : list bool) (si : state) (H : list (updates * params)) : result (list updates * state) :=
    match H with
    | [] => Ok ([], si)
    | (u, p) :: r =>
      let flags := tree_finite u :: past in
      if tree_finite u || (max <? Z.of_nat (bad_run flags))%Z then
        let* (o, si') := update inner u si p in
        let* (os, sf) := finite_ref inner max flags si' r in Ok (o :: os, sf)
      else
        let* (os, sf) := finite_ref inner max flags si r in Ok (zeros_of u :: os, sf)
    end.

  (** maybe_update: the n-th call applies the inner transformation iff [f n]. *)
  Fixpoint maybe_ref (inner : GT) (f : Z -> bool) (n : nat) (si : state) (H : list (updates * params)) : result (list updates * state) :=
    match H with
    | [] => Ok ([], si)
    | (u, p) :: r =>
      let* (o, si') := (if f (Z.of_nat n) then update inner u si p else Ok (u, si)) in
      let* (os, sf) := maybe_ref inner f (S n) si' r in Ok (o :: os, sf)
    end.
End Spec.

Section Facts.
  Context `{O : Ops}.
  Notation updates := (tree tensor).
  Notation params := (option (tree tensor)).
  Lemma cond_us_Ok c (tf ff : result (updates * state)) x :
    cond_us c tf ff = Ok x <-> exists a b, tf = Ok a /\ ff = Ok b /\ sig_us a = sig_us b /\ x = if c then a else b.
  Proof. apply lax_cond_Ok, sig_us_eqb_eq. Qed.
  Lemma all_finite_tree (u : updates) : all_finite u = tree_finite u.
  Proof.
    unfold all_finite, tree_finite. induction (leaves u) as [|t l IH]; [reflexivity|]. cbn [forallb flat_map]. now rewrite forallb_app, IH.
  Qed.
  Lemma zeros_of_eq (u : updates) : tmap zeros_like u = zeros_of u.
  Proof. apply tmap_ext. intros t _. reflexivity. Qed.
  Lemma zeros_of_avals (u : updates) : avals (zeros_of u) = avals u.
  Proof. unfold avals, zeros_of. rewrite tmap_tmap. reflexivity. Qed.
  Lemma zeros_of_wf (u : updates) : trwf (zeros_of u).
  Proof. unfold trwf, zeros_of. rewrite leaves_tmap. apply Forall_map, Forall_forall. intros t _. unfold twf. cbn. apply repeat_length. Qed.
  Lemma ssig_int w z z' : ssig (SInt w z) = ssig (SInt w z').
  Proof. reflexivity. Qed.
  Lemma iwrap_small w z : (- 2 ^ 31 <= z < 2 ^ 31)%Z -> iwrap w z = z.
  Proof.
    intros H. unfold iwrap. destruct w; cbn [ibits]; [change (32 - 1)%Z with 31%Z|change (64 - 1)%Z with 63%Z]; rewrite Z.mod_small; lia.
  Qed.
  Lemma run_cons T s u p r : run T s ((u, p) :: r) = (let* (o, s1) := update T u s p in let* (os, s2) := run T s1 r in Ok (o :: os, s2)).
  Proof. reflexivity. Qed.
  Lemma bad_run_le flags : bad_run flags <= length flags.
  Proof. induction flags as [|[] r IH]; cbn; lia. Qed.
  Lemma bad_total_le flags : bad_total flags <= length flags.
  Proof. induction flags as [|[] r IH]; cbn; lia. Qed.

  (** Any transformation refined by an element-wise machine is steady. *)
  Lemma refines_steady np T M p0 : refines np T M -> trwf p0 -> exists I, steady np T p0 I.
  Proof.
    intros (repr & sg & Hi & Hsg & Hnp & Hu) Hw.
    exists (fun s => exists n Z, s = repr n Z /\ avals Z = avals p0 /\ trwf Z). split.
    - eexists. split; [apply Hi; exact Hw|]. exists 0, (emapt (m_init M) p0). split; [reflexivity|]. split; [unfold avals, emapt; now rewrite tmap_tmap|].
      apply trwf_tmap; [intros x Hx; now apply emap_wf|exact Hw].
    - intros s u par (n & Z & -> & Ha & Hz) (Hua & Huw) Hpar.
      assert (Hq : exists q, like p0 q /\ (np = false -> par = Some q)).
      { destruct np; [exists p0; repeat split; auto; discriminate|]. destruct (Hpar eq_refl) as (q & -> & Hq). exists q. split; auto. }
      destruct Hq as (q & (Hqa & Hqw) & Hpq).
      destruct (tree_gzip u q) as (W1 & HW1a & HW1w & HW1u & HW1q); [congruence|assumption|assumption|].
      destruct (tree_gzip W1 Z) as (W & HWa & HWw & HW1 & HWz); [congruence|assumption|assumption|].
      assert (Eu : emapt (fun _ z => fst (fst z)) W = u).
      { rewrite <- HW1u, <- HW1. unfold emapt. rewrite tmap_tmap. apply tmap_ext. intros. now rewrite emap_emap. }
      assert (Eq : emapt (fun _ z => snd (fst z)) W = q).
      { rewrite <- HW1q, <- HW1. unfold emapt. rewrite tmap_tmap. apply tmap_ext. intros. now rewrite emap_emap. }
      specialize (Hu n W par HWw). rewrite Eu, Eq in Hu. unfold emapt in HWz at 1. assert (Ez : emapt (fun _ z => snd z) W = Z) by exact HWz. rewrite Ez in Hu.
      specialize (Hu Hpq). rewrite Hu. eexists _, _. split; [reflexivity|].
      assert (HWp : avals W = avals p0) by congruence.
      assert (Hem : forall B (f : fdt -> F * F * mE M -> B), avals (emapt f W) = avals p0 /\ trwf (emapt f W)).
      { intros B f. split; [unfold avals, emapt; rewrite tmap_tmap; exact HWp|]. apply trwf_tmap; [intros x Hx; now apply emap_wf|exact HWw]. }
      split; [apply Hem|]. split; [rewrite !Hsg; f_equal; rewrite Ha; apply Hem|].
      eexists _, _. split; [reflexivity|]. apply Hem.
  Qed.

  (** ** apply_if_finite *)
  Definition ifs (flags : list bool) (si : state) : state :=
    SNode NIfFinite [SInt iw64 (Z.of_nat (bad_run flags)); SBool (hd true flags); SInt iw64 (Z.of_nat (bad_total flags)); si].
  Lemma finite_sim inner max : forall H past si outs s1, (Z.of_nat (length past + length H) < 2 ^ 31)%Z ->
    run (apply_if_finite inner max) (ifs past si) H = Ok (outs, s1) ->
    exists sf, finite_ref inner max past si H = Ok (outs, sf) /\ s1 = ifs (rev (map (fun h => tree_finite (fst h)) H) ++ past) sf.
  Proof.
    induction H as [|[u p] H IH]; intros past si outs s1 Hl Hr.
    - injection Hr as <- <-. exists si. split; reflexivity.
    - rewrite run_cons in Hr. apply rbind_Ok in Hr as ([o s2] & Eu & Hr). apply rbind_Ok in Hr as ([os s3] & Er & Hr). injection Hr as <- <-.
      cbn [apply_if_finite update ifs] in Eu. apply rbind_Ok in Eu as ([u' si'] & Ec & Eu). injection Eu as <- <-.
      rewrite all_finite_tree in *. cbn [length] in Hl.
      pose proof (bad_run_le past). pose proof (bad_total_le past).
      assert (Es : SNode NIfFinite [SInt iw64 (if tree_finite u then 0%Z else iwrap iw64 (1 + Z.of_nat (bad_run past))); SBool (tree_finite u);
                     SInt iw64 (iwrap iw64 ((if tree_finite u then 0 else 1) + Z.of_nat (bad_total past))); si'] = ifs (tree_finite u :: past) si').
      { unfold ifs. cbn [bad_run bad_total hd]. destruct (tree_finite u); rewrite ?iwrap_small by lia; do 3 f_equal; f_equal; f_equal; lia. }
      assert (Er' : run (apply_if_finite inner max) (ifs (tree_finite u :: past) si') H = Ok (os, s3)) by (rewrite <- Es; exact Er).
      clear Er. rename Er' into Er. apply IH in Er as (sf & Ef & ->); [|cbn [length]; lia].
      assert (En : (if tree_finite u then 0%Z else iwrap iw64 (1 + Z.of_nat (bad_run past))) = Z.of_nat (bad_run (tree_finite u :: past))).
      { cbn [bad_run]. destruct (tree_finite u); [reflexivity|]. rewrite iwrap_small by lia. lia. }
      rewrite En in Ec. exists sf. apply cond_us_Ok in Ec as (a & b & Ha & Hb & _ & Ex). injection Hb as <-. cbn [finite_ref].
      split.
      + destruct (_ || _); [subst a; rewrite Ha; cbn [rbind]; rewrite Ef; reflexivity|]. injection Ex as -> ->. cbn [rbind]. rewrite Ef. cbn [rbind]. now rewrite zeros_of_eq.
      + f_equal. cbn [map rev fst]. now rewrite <- app_assoc.
  Qed.
  Lemma finite_total np inner max p0 I : steady np inner p0 I -> forall H past si, I si -> hist_ok np p0 H -> (Z.of_nat (length past + length H) < 2 ^ 31)%Z ->
    exists outs s1, run (apply_if_finite inner max) (ifs past si) H = Ok (outs, s1).
  Proof.
    intros (_ & Hst). induction H as [|[u p] H IH]; intros past si HI Hh Hl; [eexists _, _; reflexivity|].
    inversion Hh as [|? ? (Hu & Hp) Hh']; subst. cbn [fst snd] in *.
    destruct (Hst si u p HI Hu Hp) as (u' & si' & E & Hu' & Hsig & HI').
    rewrite run_cons. cbn [apply_if_finite update ifs]. rewrite E.
    set (c := _ || _). assert (Ec : cond_us c (Ok (u', si')) (Ok (tmap zeros_like u, si)) = Ok (if c then (u', si') else (tmap zeros_like u, si))).
    { apply cond_us_Ok. eexists _, _. split; [reflexivity|]. split; [reflexivity|]. split; [|reflexivity]. unfold sig_us. cbn [fst snd]. rewrite zeros_of_eq, zeros_of_avals, Hsig. f_equal. destruct Hu, Hu'. congruence. }
    rewrite Ec. cbn [rbind].
    assert (HI2 : I (snd (if c then (u', si') else (tmap zeros_like u, si)))) by (destruct c; assumption).
    destruct (if c then (u', si') else (tmap zeros_like u, si)) as [o s2]. cbn [snd rbind] in *. rewrite all_finite_tree. cbn [length] in Hl.
    pose proof (bad_run_le past). pose proof (bad_total_le past).
    assert (Es : SNode NIfFinite [SInt iw64 (if tree_finite u then 0%Z else iwrap iw64 (1 + Z.of_nat (bad_run past))); SBool (tree_finite u);
                   SInt iw64 (iwrap iw64 ((if tree_finite u then 0 else 1) + Z.of_nat (bad_total past))); s2] = ifs (tree_finite u :: past) s2).
    { unfold ifs. cbn [bad_run bad_total hd]. destruct (tree_finite u); rewrite ?iwrap_small by lia; do 3 f_equal; f_equal; f_equal; lia. }
    rewrite Es. destruct (IH (tree_finite u :: past) s2 HI2 Hh') as (os & s1 & Er); [cbn [length]; lia|]. rewrite Er. eexists _, _. reflexivity.
  Qed.

  (** ** maybe_update *)
  Lemma maybe_sim inner f : forall H n si outs s1, (Z.of_nat (n + length H) < 2 ^ 31)%Z ->
    run (maybe_update inner f) (SNode NMaybe [si; SInt iw64 (Z.of_nat n)]) H = Ok (outs, s1) ->
    exists sf, maybe_ref inner f n si H = Ok (outs, sf) /\ s1 = SNode NMaybe [sf; SInt iw64 (Z.of_nat (n + length H))].
  Proof.
    induction H as [|[u p] H IH]; intros n si outs s1 Hl Hr.
    - injection Hr as <- <-. exists si. split; [reflexivity|]. cbn. now rewrite Nat.add_0_r.
    - rewrite run_cons in Hr. apply rbind_Ok in Hr as ([o s2] & Eu & Hr). apply rbind_Ok in Hr as ([os s3] & Er & Hr). injection Hr as <- <-.
      cbn [maybe_update update] in Eu. apply rbind_Ok in Eu as ([u' si'] & Ec & Eu). injection Eu as <- <-. cbn [length] in Hl.
      rewrite iwrap_small in Er by lia. replace (Z.of_nat n + 1)%Z with (Z.of_nat (S n)) in Er by lia.
      apply IH in Er as (sf & Ef & ->); [|lia]. exists sf. apply cond_us_Ok in Ec as (a & b & Ha & Hb & _ & Ex). injection Hb as <-. cbn [maybe_ref].
      split; [|do 5 f_equal; cbn [length]; lia].
      destruct (f (Z.of_nat n)); [subst a; rewrite Ha; cbn [rbind]; rewrite Ef; reflexivity|]. injection Ex as -> ->. cbn [rbind]. rewrite Ef. reflexivity.
  Qed.
  Lemma maybe_total np inner f p0 I : steady np inner p0 I -> forall H n si, I si -> hist_ok np p0 H -> (Z.of_nat (n + length H) < 2 ^ 31)%Z ->
    exists outs s1, run (maybe_update inner f) (SNode NMaybe [si; SInt iw64 (Z.of_nat n)]) H = Ok (outs, s1).
  Proof.
    intros (_ & Hst). induction H as [|[u p] H IH]; intros n si HI Hh Hl; [eexists _, _; reflexivity|].
    inversion Hh as [|? ? (Hu & Hp) Hh']; subst. cbn [fst snd] in *.
    destruct (Hst si u p HI Hu Hp) as (u' & si' & E & Hu' & Hsig & HI').
    rewrite run_cons. cbn [maybe_update update]. rewrite E.
    assert (Ec : cond_us (f (Z.of_nat n)) (Ok (u', si')) (Ok (u, si)) = Ok (if f (Z.of_nat n) then (u', si') else (u, si))).
    { apply cond_us_Ok. eexists _, _. split; [reflexivity|]. split; [reflexivity|]. split; [|reflexivity]. unfold sig_us. cbn [fst snd]. rewrite Hsig. f_equal. destruct Hu, Hu'. congruence. }
    rewrite Ec. cbn [rbind].
    assert (HI2 : I (snd (if f (Z.of_nat n) then (u', si') else (u, si)))) by (destruct (f _); assumption).
    destruct (if f (Z.of_nat n) then (u', si') else (u, si)) as [o s2]. cbn [snd rbind] in *. cbn [length] in Hl. rewrite iwrap_small by lia.
    replace (Z.of_nat n + 1)%Z with (Z.of_nat (S n)) by lia. destruct (IH (S n) s2 HI2 Hh') as (os & s1 & Er); [lia|]. rewrite Er. eexists _, _. reflexivity.
  Qed.
End Facts.

(*@ C30_trace : for any inner transformation, any bound and any history of fewer than 2^31 updates on which the wrapper does not raise: its outputs and the inner state it keeps are exactly those of the reference execution (finite updates, and non-finite ones whose current run of consecutive non-finite updates is longer than the bound, go to the inner transformation; all other updates give zeros and leave the inner state untouched); in the state, notfinite_count is the length of the current run, last_finite the flag of the last update and total_notfinite the number of non-finite updates so far. *)
Lemma apply_if_finite_trace : forall `{O : Ops} (inner : GT) (max : Z) (p0 : tree tensor) (H : list (tree tensor * option (tree tensor))) (s0 s1 : state) (outs : list (tree tensor)),
  (Z.of_nat (length H) < 2 ^ 31)%Z -> init (apply_if_finite inner max) p0 = Ok s0 -> run (apply_if_finite inner max) s0 H = Ok (outs, s1) ->
  exists si0 sf, init inner p0 = Ok si0 /\ finite_ref inner max [] si0 H = Ok (outs, sf) /\
    let flags := rev (map (fun h => tree_finite (fst h)) H) in
    s1 = SNode NIfFinite [SInt iw64 (Z.of_nat (bad_run flags)); SBool (hd true flags); SInt iw64 (Z.of_nat (bad_total flags)); sf].
Proof.
  intros O inner max p0 H s0 s1 outs Hl Hi Hr. cbn [apply_if_finite init] in Hi. apply rbind_Ok in Hi as (si & Ei & Hi). injection Hi as <-.
  destruct (finite_sim inner max H [] si outs s1 Hl Hr) as (sf & Ef & ->). exists si, sf. rewrite app_nil_r. auto.
Qed.

(*@ C30_total : the wrapper never raises around an inner transformation that does not raise and keeps shapes, dtypes and state structure (in particular every transformation refined by an element-wise machine), on any history of fewer than 2^31 updates like the parameters - whatever non-finite values they contain. *)
Lemma apply_if_finite_total : forall `{O : Ops} (np : bool) (inner : GT) (max : Z) (p0 : tree tensor) (I : state -> Prop) (H : list (tree tensor * option (tree tensor))),
  steady np inner p0 I -> hist_ok np p0 H -> (Z.of_nat (length H) < 2 ^ 31)%Z ->
  exists outs, trains (apply_if_finite inner max) p0 H outs.
Proof.
  intros O np inner max p0 I H Hs Hh Hl. destruct Hs as ((si & Ei & HI) & Hst).
  destruct (finite_total np inner max p0 I (conj (ex_intro _ si (conj Ei HI)) Hst) H [] si HI Hh Hl) as (outs & s1 & Hr).
  exists outs, (ifs [] si), s1. split; [cbn [apply_if_finite init]; rewrite Ei; reflexivity|exact Hr].
Qed.

Lemma filtered_ref : forall `{O : Ops} (inner : GT) (max : Z) (H : list (tree tensor * option (tree tensor))) (past : list bool) (si sf : state) (outs : list (tree tensor)),
  finite_ref inner max past si H = Ok (outs, sf) ->
  (forall n, n <= length H -> (Z.of_nat (bad_run (rev (map (fun h => tree_finite (fst h)) (firstn n H)) ++ past)) <= max)%Z) ->
  let fin := fun h : tree tensor * option (tree tensor) => tree_finite (fst h) in
  exists outs', run inner si (filter fin H) = Ok (outs', sf) /\
    outs' = map snd (filter (fun x => fin (fst x)) (combine H outs)) /\
    Forall (fun x => fin (fst x) = true \/ snd x = zeros_of (fst (fst x))) (combine H outs).
Proof.
  intros O inner max H. induction H as [|[u p] H IH]; intros past si sf outs Hr Hmax fin.
  - injection Hr as <- <-. exists []. repeat split; constructor.
  - cbn [finite_ref] in Hr.
    assert (Hmax' : forall n, n <= length H -> (Z.of_nat (bad_run (rev (map (fun h => tree_finite (fst h)) (firstn n H)) ++ tree_finite u :: past)) <= max)%Z).
    { intros n Hn. specialize (Hmax (S n)). cbn [firstn map rev fst length] in Hmax. rewrite <- app_assoc in Hmax. cbn [app] in Hmax. apply Hmax. lia. }
    pose proof (Hmax' 0 ltac:(lia)) as H1. cbn [firstn map rev app] in H1. cbn [filter]. unfold fin at 1. cbn [fst].
    destruct (tree_finite u) eqn:E; cbn [orb] in Hr.
    + apply rbind_Ok in Hr as ([o si'] & Eu & Hr). apply rbind_Ok in Hr as ([os s3] & Er & Hr). injection Hr as <- <-.
      destruct (IH _ _ _ _ Er Hmax') as (outs' & Ho & Eo & Hf). fold fin in Ho, Eo, Hf. exists (o :: outs'). rewrite run_cons, Eu. cbn [rbind]. rewrite Ho. cbn [rbind combine filter fst].
      unfold fin at 1. cbn [fst]. rewrite E. cbn [map snd]. split; [reflexivity|]. split; [now f_equal|]. constructor; [left; exact E|exact Hf].
    + destruct (Z.ltb_spec max (Z.of_nat (bad_run (false :: past)))) as [Hx|Hx]; [lia|].
      apply rbind_Ok in Hr as ([os s3] & Er & Hr). injection Hr as <- <-.
      destruct (IH _ _ _ _ Er Hmax') as (outs' & Ho & Eo & Hf). fold fin in Ho, Eo, Hf. exists outs'. cbn [combine filter fst]. unfold fin at 2. cbn [fst]. rewrite E. split; [exact Ho|]. split; [exact Eo|].
      constructor; [right; reflexivity|exact Hf].
Qed.

(*@ C30_filtered : if no run of consecutive non-finite updates ever exceeds the bound, training with the wrapper is exactly training the inner transformation on the sub-history of finite updates: the outputs at the finite steps are the inner ones, the others are zeros, and the inner state is that of the sub-history. *)
Lemma apply_if_finite_filtered : forall `{O : Ops} (inner : GT) (max : Z) (p0 : tree tensor) (H : list (tree tensor * option (tree tensor))) (s0 s1 : state) (outs : list (tree tensor)),
  (Z.of_nat (length H) < 2 ^ 31)%Z -> init (apply_if_finite inner max) p0 = Ok s0 -> run (apply_if_finite inner max) s0 H = Ok (outs, s1) ->
  (forall n, n <= length H -> (Z.of_nat (bad_run (rev (map (fun h => tree_finite (fst h)) (firstn n H)))) <= max)%Z) ->
  let fin := fun h : tree tensor * option (tree tensor) => tree_finite (fst h) in
  exists si0 sf outs' c l t, init inner p0 = Ok si0 /\ run inner si0 (filter fin H) = Ok (outs', sf) /\ s1 = SNode NIfFinite [c; l; t; sf] /\
    outs' = map snd (filter (fun x => fin (fst x)) (combine H outs)) /\
    Forall (fun x => fin (fst x) = true \/ snd x = zeros_of (fst (fst x))) (combine H outs).
Proof.
  intros O inner max p0 H s0 s1 outs Hl Hi Hr Hm fin. destruct (apply_if_finite_trace inner max p0 H s0 s1 outs Hl Hi Hr) as (si0 & sf & Ei & Ef & Es).
  destruct (filtered_ref inner max H [] si0 sf outs Ef) as (outs' & Ho & Eo & Hf); [intros n Hn; rewrite app_nil_r; now apply Hm|].
  exists si0, sf, outs'. eexists. eexists. eexists. split; [exact Ei|]. split; [exact Ho|]. split; [exact Es|]. split; [exact Eo|exact Hf].
Qed.

(*@ C34_trace : for any inner transformation and predicate, on any history of fewer than 2^31 calls on which it does not raise, maybe_update's outputs and inner state are exactly those of applying the inner transformation at the calls n (from 0) with should_update_fn(n) true and passing updates and inner state through untouched at the others; the counter in the state is the number of calls. *)
Lemma maybe_update_trace : forall `{O : Ops} (inner : GT) (f : Z -> bool) (p0 : tree tensor) (H : list (tree tensor * option (tree tensor))) (s0 s1 : state) (outs : list (tree tensor)),
  (Z.of_nat (length H) < 2 ^ 31)%Z -> init (maybe_update inner f) p0 = Ok s0 -> run (maybe_update inner f) s0 H = Ok (outs, s1) ->
  exists si0 sf, init inner p0 = Ok si0 /\ maybe_ref inner f 0 si0 H = Ok (outs, sf) /\
    s1 = SNode NMaybe [sf; SInt iw64 (Z.of_nat (length H))].
Proof.
  intros O inner f p0 H s0 s1 outs Hl Hi Hr. cbn [maybe_update init] in Hi. apply rbind_Ok in Hi as (si & Ei & Hi). injection Hi as <-.
  destruct (maybe_sim inner f H 0 si outs s1 Hl Hr) as (sf & Ef & ->). exists si, sf. auto.
Qed.
(*@ C34_total : and it never raises around an inner transformation that does not raise and keeps shapes, dtypes and state structure. *)
Lemma maybe_update_total : forall `{O : Ops} (np : bool) (inner : GT) (f : Z -> bool) (p0 : tree tensor) (I : state -> Prop) (H : list (tree tensor * option (tree tensor))),
  steady np inner p0 I -> hist_ok np p0 H -> (Z.of_nat (length H) < 2 ^ 31)%Z ->
  exists outs, trains (maybe_update inner f) p0 H outs.
Proof.
  intros O np inner f p0 I H Hs Hh Hl. destruct Hs as ((si & Ei & HI) & Hst).
  destruct (maybe_total np inner f p0 I (conj (ex_intro _ si (conj Ei HI)) Hst) H 0 si HI Hh Hl) as (outs & s1 & Hr).
  exists outs. eexists. exists s1. split; [cbn [maybe_update init]; rewrite Ei; reflexivity|exact Hr].
Qed.
Lemma maybe_ref_const : forall `{O : Ops} (inner : GT) (n : nat) (si sf : state) (H : list (tree tensor * option (tree tensor))) (outs : list (tree tensor)),
  (maybe_ref inner (fun _ => true) n si H = Ok (outs, sf) <-> run inner si H = Ok (outs, sf)) /\
  maybe_ref inner (fun _ => false) n si H = Ok (map fst H, si).
Proof.
  intros O inner n si sf H outs. split.
  - assert (E : forall H n si, maybe_ref inner (fun _ => true) n si H = run inner si H).
    { induction H0 as [|[u p] H0 IH]; intros m s; [reflexivity|]. cbn [maybe_ref]. rewrite run_cons. destruct (update inner u s p) as [[o s']|]; [|reflexivity]. cbn [rbind]. now rewrite IH. }
    now rewrite E.
  - revert n. induction H as [|[u p] H IH]; intros n; [reflexivity|]. cbn [maybe_ref rbind]. now rewrite IH.
Qed.
Lemma trains_same `{O : Ops} (g : GT) p0 H o1 o2 : trains g p0 H o1 -> trains g p0 H o2 -> o1 = o2.
Proof. intros (s0 & s1 & I1 & R1) (s2 & s3 & I2 & R2). rewrite I1 in I2. injection I2 as <-. rewrite R1 in R2. now injection R2. Qed.
(*@ C34_always_never : a predicate that is always true gives exactly the inner transformation (whenever the wrapper runs the outputs are the inner ones, and around an inner transformation that does not raise and keeps shapes, dtypes and state structure the two run on the same histories), and one that is always false the identity. *)
Lemma maybe_update_const : forall `{O : Ops} (inner : GT) (p0 : tree tensor) (H : list (tree tensor * option (tree tensor))) (outs : list (tree tensor)), (Z.of_nat (length H) < 2 ^ 31)%Z ->
  (trains (maybe_update inner (fun _ => true)) p0 H outs -> trains inner p0 H outs) /\
  (forall np I, steady np inner p0 I -> hist_ok np p0 H -> trains inner p0 H outs -> trains (maybe_update inner (fun _ => true)) p0 H outs) /\
  (trains (maybe_update inner (fun _ => false)) p0 H outs -> outs = map fst H).
Proof.
  intros O inner p0 H outs Hl. assert (A : forall outs, trains (maybe_update inner (fun _ => true)) p0 H outs -> trains inner p0 H outs).
  { intros o (s0 & s1 & Ei & Er). destruct (maybe_update_trace inner _ p0 H s0 s1 o Hl Ei Er) as (si0 & sf & E0 & E1 & _). exists si0, sf. split; [exact E0|]. now apply (maybe_ref_const inner 0 si0 sf H o). }
  split; [apply A|]. split.
  - intros np I Hs Hh Ht. destruct (maybe_update_total np inner (fun _ => true) p0 I H Hs Hh Hl) as (o & Ho). rewrite (trains_same inner p0 H outs o Ht (A o Ho)). exact Ho.
  - intros (s0 & s1 & Ei & Er). destruct (maybe_update_trace inner _ p0 H s0 s1 outs Hl Ei Er) as (si0 & sf & E0 & E1 & _).
    destruct (maybe_ref_const inner 0 si0 sf H outs) as (_ & E). rewrite E in E1. now injection E1.
Qed.

(*@ex C30_example *)
Lemma apply_if_finite_example : forall `{P : Platform}, trains (apply_if_finite (scale (Fin 2)) 1) (one (Fin 1)) (ones_hist [Fin 5; NaN; PInf; Fin 7]) [one (Fin 10); one (Fin 0); one PInf; one (Fin 14)].
Proof.
  intros P. set (H := ones_hist [Fin 5; NaN; PInf; Fin 7]). destruct (@refines_steady (XROps P) _ _ _ _ (@refines_scale (XROps P) (Fin 2)) (one_wf (Fin 1))) as (I & HI).
  destruct (@apply_if_finite_total (XROps P) true _ 1 _ I H HI (ones_ok _ _ _) ltac:(reflexivity)) as (outs & Ht). pose proof Ht as (s0 & s1 & Ei & Er).
  destruct (@apply_if_finite_trace (XROps P) _ 1 _ H s0 s1 outs ltac:(reflexivity) Ei Er) as (si0 & sf & E0 & E1 & _). injection E0 as <-.
  assert (G : rmap fst (@finite_ref (XROps P) (scale (Fin 2)) 1 [] EmptyState H) = Ok [one (Fin 10); one (Fin 0); one PInf; one (Fin 14)]).
  { clear. unfold H, ones_hist, one, finite_ref, tree_finite. cbn -[Rmult IZR]. nx. unfold xmul, zeros_of, sl, emap, one. cbn -[Rmult IZR].
    assert (Hs : rsgn 2 = 1%Z) by (apply rsgn_pos; lra). repeat (f_equal; try lra). all: try (rewrite ?Hs; reflexivity). }
  pose proof (eq_trans (eq_sym (f_equal (rmap fst) E1)) G) as G'. injection G' as E. exact (eq_ind _ (fun o => trains _ _ _ o) Ht _ E).
Qed.
(*@ex C34_example *)
Lemma maybe_update_example : forall `{P : Platform}, trains (maybe_update (scale (Fin 2)) Z.odd) (one (Fin 1)) (ones_hist [Fin 5; Fin 6; Fin 7]) [one (Fin 5); one (Fin 12); one (Fin 7)].
Proof.
  intros P. set (H := ones_hist [Fin 5; Fin 6; Fin 7]). destruct (@refines_steady (XROps P) _ _ _ _ (@refines_scale (XROps P) (Fin 2)) (one_wf (Fin 1))) as (I & HI).
  destruct (@maybe_update_total (XROps P) true _ Z.odd _ I H HI (ones_ok _ _ _) ltac:(reflexivity)) as (outs & Ht). pose proof Ht as (s0 & s1 & Ei & Er).
  destruct (@maybe_update_trace (XROps P) _ Z.odd _ H s0 s1 outs ltac:(reflexivity) Ei Er) as (si0 & sf & E0 & E1 & _). injection E0 as <-.
  assert (G : rmap fst (@maybe_ref (XROps P) (scale (Fin 2)) Z.odd 0 EmptyState H) = Ok [one (Fin 5); one (Fin 12); one (Fin 7)]).
  { clear. unfold H, ones_hist, one. cbn -[Rmult IZR]. unfold sl, emap. cbn -[Rmult IZR]. repeat (f_equal; try lra). }
  pose proof (eq_trans (eq_sym (f_equal (rmap fst) E1)) G) as G'. injection G' as E. exact (eq_ind _ (fun o => trains _ _ _ o) Ht _ E).
Qed.
