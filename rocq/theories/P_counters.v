(** The step counters of apply_if_finite, maybe_update and MultiSteps on histories of any length. *)
From Verif Require Export P_multi.
From Coq Require Import String List Psatz.
Import ListNotations.
Open Scope list_scope.
Open Scope nat_scope.
(*@header
From Coq Require Import List.
Import ListNotations.
Open Scope list_scope.
Open Scope nat_scope.
*)

(** ** Specification: the value a two's-complement counter of the given width shows for [z]. *)
Definition signed (bits z : Z) : Z := ((z + 2 ^ (bits - 1)) mod 2 ^ bits - 2 ^ (bits - 1))%Z.
(** Width of a counter declared jnp.int64. *)
Definition counter_bits `{O : Ops} : Z := if x64 then 64%Z else 32%Z.

Section Spec.
  Context `{O : Ops}.
  Notation updates := (tree tensor).
  Notation params := (option (tree tensor)).
  (** apply_if_finite with a counter that wraps: a non-finite update is applied iff the wrapped
      length of the current run of non-finite updates exceeds the bound. *)
  Fixpoint wrapped_finite_ref (inner : GT) (max : Z) (past : list bool) (si : state) (H : list (updates * params)) : result (list updates * state) :=
    match H with
    | [] => Ok ([], si)
    | (u, p) :: r =>
      let flags := tree_finite u :: past in
      if tree_finite u || (max <? signed counter_bits (Z.of_nat (bad_run flags)))%Z then
        let* (o, si') := update inner u si p in
        let* (os, sf) := wrapped_finite_ref inner max flags si' r in Ok (o :: os, sf)
      else
        let* (os, sf) := wrapped_finite_ref inner max flags si r in Ok (zeros_of u :: os, sf)
    end.
End Spec.

Lemma signed_range b z : (1 <= b)%Z -> (- 2 ^ (b - 1) <= signed b z < 2 ^ (b - 1))%Z.
Proof.
  intros Hb. unfold signed. assert (E : (2 ^ b = 2 * 2 ^ (b - 1))%Z) by (rewrite <- Z.pow_succ_r by lia; f_equal; lia).
  pose proof (Z.mod_pos_bound (z + 2 ^ (b - 1)) (2 ^ b) ltac:(apply Z.pow_pos_nonneg; lia)). lia.
Qed.
Lemma signed_cong b z : (1 <= b)%Z -> exists q, (signed b z = z + q * 2 ^ b)%Z.
Proof.
  intros Hb. unfold signed. exists (- ((z + 2 ^ (b - 1)) / 2 ^ b))%Z. rewrite Z.mod_eq by (apply Z.pow_nonzero; lia). lia.
Qed.
Lemma signed_unique b z y q : (1 <= b)%Z -> (- 2 ^ (b - 1) <= y < 2 ^ (b - 1))%Z -> (y = z + q * 2 ^ b)%Z -> signed b z = y.
Proof.
  intros Hb Hy E. unfold signed. assert (E2 : (2 ^ b = 2 * 2 ^ (b - 1))%Z) by (rewrite <- Z.pow_succ_r by lia; f_equal; lia).
  replace (z + 2 ^ (b - 1))%Z with ((y + 2 ^ (b - 1)) + (- q) * 2 ^ b)%Z by lia. rewrite Z.mod_add by (apply Z.pow_nonzero; lia).
  rewrite Z.mod_small by lia. lia.
Qed.
Lemma signed_add b a c : (1 <= b)%Z -> signed b (signed b a + c) = signed b (a + c).
Proof.
  intros Hb. destruct (signed_cong b a Hb) as (q & E). rewrite E. destruct (signed_cong b (a + c) Hb) as (q' & E').
  apply signed_unique with (q := (q' - q)%Z); [exact Hb|apply signed_range; exact Hb|]. rewrite E'. lia.
Qed.

Section Facts.
  Context `{O : Ops}.
  Notation updates := (tree tensor).
  Notation params := (option (tree tensor)).
  Lemma bits_ge : (32 <= counter_bits)%Z.
  Proof. unfold counter_bits. destruct x64; lia. Qed.
  Lemma iw64_signed z : iwrap iw64 z = signed counter_bits z.
  Proof. unfold iwrap, signed, iw64, counter_bits. destruct x64; reflexivity. Qed.
  Lemma signed_succ n : iwrap iw64 (signed counter_bits n + 1) = signed counter_bits (n + 1).
  Proof. rewrite iw64_signed. apply signed_add. pose proof bits_ge. lia. Qed.
  Lemma signed_succ' n c : iwrap iw64 (c + signed counter_bits n) = signed counter_bits (c + n).
  Proof. rewrite Z.add_comm, iw64_signed, signed_add by (pose proof bits_ge; lia). f_equal. lia. Qed.
  Lemma signed_small z : (- 2 ^ 31 <= z < 2 ^ 31)%Z -> signed counter_bits z = z.
  Proof. intros H. rewrite <- iw64_signed. now apply iwrap_small. Qed.
  Lemma signed_0 : signed counter_bits 0 = 0%Z.
  Proof. apply signed_small. lia. Qed.

  (** ** maybe_update *)
  Lemma wmaybe_sim inner f : forall H n si outs s1,
    run (maybe_update inner f) (SNode NMaybe [si; SInt iw64 (signed counter_bits (Z.of_nat n))]) H = Ok (outs, s1) ->
    exists sf, maybe_ref inner (fun i => f (signed counter_bits i)) n si H = Ok (outs, sf) /\
      s1 = SNode NMaybe [sf; SInt iw64 (signed counter_bits (Z.of_nat (n + length H)))].
  Proof.
    induction H as [|[u p] H IH]; intros n si outs s1 Hr.
    - injection Hr as <- <-. exists si. split; [reflexivity|]. cbn. now rewrite Nat.add_0_r.
    - rewrite run_cons in Hr. apply rbind_Ok in Hr as ([o s2] & Eu & Hr). apply rbind_Ok in Hr as ([os s3] & Er & Hr). injection Hr as <- <-.
      cbn [maybe_update update] in Eu. apply rbind_Ok in Eu as ([u' si'] & Ec & Eu). injection Eu as <- <-.
      rewrite signed_succ in Er. replace (Z.of_nat n + 1)%Z with (Z.of_nat (S n)) in Er by lia.
      apply IH in Er as (sf & Ef & ->). exists sf. apply cond_us_Ok in Ec as (a & b & Ha & Hb & _ & Ex). injection Hb as <-. cbn [maybe_ref].
      split; [|replace (n + length ((u, p) :: H)) with (S n + length H) by (cbn [length]; lia); reflexivity].
      destruct (f (signed counter_bits (Z.of_nat n))); [subst a; rewrite Ha; cbn [rbind]; rewrite Ef; reflexivity|]. injection Ex as -> ->. cbn [rbind]. rewrite Ef. reflexivity.
  Qed.
  Lemma wmaybe_total np inner f p0 I : steady np inner p0 I -> forall H n si, I si -> hist_ok np p0 H ->
    exists outs s1, run (maybe_update inner f) (SNode NMaybe [si; SInt iw64 (signed counter_bits (Z.of_nat n))]) H = Ok (outs, s1).
  Proof.
    intros (_ & Hst). induction H as [|[u p] H IH]; intros n si HI Hh; [eexists _, _; reflexivity|].
    inversion Hh as [|? ? (Hu & Hp) Hh']; subst. cbn [fst snd] in *.
    destruct (Hst si u p HI Hu Hp) as (u' & si' & E & Hu' & Hsig & HI').
    rewrite run_cons. cbn [maybe_update update]. rewrite E. set (c := f _).
    assert (Ec : cond_us c (Ok (u', si')) (Ok (u, si)) = Ok (if c then (u', si') else (u, si))).
    { apply cond_us_Ok. eexists _, _. split; [reflexivity|]. split; [reflexivity|]. split; [|reflexivity]. unfold sig_us. cbn [fst snd]. rewrite Hsig. f_equal. destruct Hu, Hu'. congruence. }
    rewrite Ec. cbn [rbind].
    assert (HI2 : I (snd (if c then (u', si') else (u, si)))) by (destruct c; assumption).
    destruct (if c then (u', si') else (u, si)) as [o s2]. cbn [snd rbind] in *. rewrite signed_succ.
    replace (Z.of_nat n + 1)%Z with (Z.of_nat (S n)) by lia. destruct (IH (S n) s2 HI2 Hh') as (os & s1 & Er). rewrite Er. eexists _, _. reflexivity.
  Qed.

  (** ** apply_if_finite *)
  Definition wifs (flags : list bool) (si : state) : state :=
    SNode NIfFinite [SInt iw64 (signed counter_bits (Z.of_nat (bad_run flags))); SBool (hd true flags); SInt iw64 (signed counter_bits (Z.of_nat (bad_total flags))); si].
  Lemma wifs_step u past si :
    SNode NIfFinite [SInt iw64 (if tree_finite u then 0%Z else iwrap iw64 (1 + signed counter_bits (Z.of_nat (bad_run past)))); SBool (tree_finite u);
                     SInt iw64 (iwrap iw64 ((if tree_finite u then 0 else 1) + signed counter_bits (Z.of_nat (bad_total past)))); si] = wifs (tree_finite u :: past) si.
  Proof.
    unfold wifs. cbn [bad_run bad_total hd]. rewrite !signed_succ'. destruct (tree_finite u).
    - change (Z.of_nat 0) with 0%Z. rewrite signed_0. reflexivity.
    - replace (1 + Z.of_nat (bad_run past))%Z with (Z.of_nat (S (bad_run past))) by lia.
      replace (1 + Z.of_nat (bad_total past))%Z with (Z.of_nat (S (bad_total past))) by lia. reflexivity.
  Qed.
  Lemma wrun_step u past : (if tree_finite u then 0%Z else iwrap iw64 (1 + signed counter_bits (Z.of_nat (bad_run past)))) = signed counter_bits (Z.of_nat (bad_run (tree_finite u :: past))).
  Proof.
    cbn [bad_run]. rewrite signed_succ'. destruct (tree_finite u); [symmetry; apply signed_0|]. f_equal. lia.
  Qed.
  Lemma wfinite_sim inner max : forall H past si outs s1,
    run (apply_if_finite inner max) (wifs past si) H = Ok (outs, s1) ->
    exists sf, wrapped_finite_ref inner max past si H = Ok (outs, sf) /\ s1 = wifs (rev (map (fun h => tree_finite (fst h)) H) ++ past) sf.
  Proof.
    induction H as [|[u p] H IH]; intros past si outs s1 Hr.
    - injection Hr as <- <-. exists si. split; reflexivity.
    - rewrite run_cons in Hr. apply rbind_Ok in Hr as ([o s2] & Eu & Hr). apply rbind_Ok in Hr as ([os s3] & Er & Hr). injection Hr as <- <-.
      cbn [apply_if_finite update wifs] in Eu. apply rbind_Ok in Eu as ([u' si'] & Ec & Eu). rewrite all_finite_tree, wifs_step in Eu. injection Eu as <- <-.
      rewrite all_finite_tree, wrun_step in Ec.
      apply IH in Er as (sf & Ef & ->). exists sf. apply cond_us_Ok in Ec as (a & b & Ha & Hb & _ & Ex). injection Hb as <-. cbn [wrapped_finite_ref].
      split.
      + destruct (_ || _); [subst a; rewrite Ha; cbn [rbind]; rewrite Ef; reflexivity|]. injection Ex as -> ->. cbn [rbind]. rewrite Ef. cbn [rbind]. now rewrite zeros_of_eq.
      + f_equal. cbn [map rev fst]. now rewrite <- app_assoc.
  Qed.
  Lemma wfinite_total np inner max p0 I : steady np inner p0 I -> forall H past si, I si -> hist_ok np p0 H ->
    exists outs s1, run (apply_if_finite inner max) (wifs past si) H = Ok (outs, s1).
  Proof.
    intros (_ & Hst). induction H as [|[u p] H IH]; intros past si HI Hh; [eexists _, _; reflexivity|].
    inversion Hh as [|? ? (Hu & Hp) Hh']; subst. cbn [fst snd] in *.
    destruct (Hst si u p HI Hu Hp) as (u' & si' & E & Hu' & Hsig & HI').
    rewrite run_cons. cbn [apply_if_finite update wifs]. rewrite E.
    set (c := _ || _). assert (Ec : cond_us c (Ok (u', si')) (Ok (tmap zeros_like u, si)) = Ok (if c then (u', si') else (tmap zeros_like u, si))).
    { apply cond_us_Ok. eexists _, _. split; [reflexivity|]. split; [reflexivity|]. split; [|reflexivity]. unfold sig_us. cbn [fst snd]. rewrite zeros_of_eq, zeros_of_avals, Hsig. f_equal. destruct Hu, Hu'. congruence. }
    rewrite Ec. cbn [rbind].
    assert (HI2 : I (snd (if c then (u', si') else (tmap zeros_like u, si)))) by (destruct c; assumption).
    destruct (if c then (u', si') else (tmap zeros_like u, si)) as [o s2]. cbn [snd rbind] in *. rewrite all_finite_tree, wifs_step.
    destruct (IH (tree_finite u :: past) s2 HI2 Hh') as (os & s1 & Er). rewrite Er. eexists _, _. reflexivity.
  Qed.

  (** ** MultiSteps *)
  Variable opt : GT.
  Variable k : Z -> Z.
  Variable mean : bool.
  Variable p0 : updates.
  Hypothesis Hwf : trwf p0.
  Hypothesis Hk : forall i, (1 <= k i <= 2 ^ 31)%Z.
  Let kw (i : Z) : Z := k (signed counter_bits i).
  Definition wmst (mini j : nat) (si : state) (acc : updates) : state :=
    SNode NMulti [SInt iw64 (Z.of_nat mini); SInt iw64 (signed counter_bits (Z.of_nat j)); si; STree acc].
  Lemma zeros_reset blk acc : block_sum p0 blk acc -> block_sum p0 [] (tmap zeros_like acc).
  Proof.
    intros ((Hx & Hxw) & _). assert (Ez : tmap zeros_like acc = tmap zeros_like p0); [|rewrite Ez; now apply zeros_block].
    transitivity (tmap (fun a => full (fst a) (snd a) fzero) (avals acc)); [unfold avals; rewrite tmap_tmap; reflexivity|]. rewrite Hx. unfold avals. rewrite tmap_tmap. reflexivity.
  Qed.
  Lemma wmulti_sim : forall H blk j si acc outs s1,
    (Z.of_nat (length blk) < kw (Z.of_nat j))%Z -> block_sum p0 blk acc -> Forall (like p0) (map fst H) ->
    run (multi_steps opt k mean) (wmst (length blk) j si acc) H = Ok (outs, s1) ->
    exists Bs rest Gs os sf accf,
      blk ++ map fst H = concat Bs ++ rest /\ block_sizes kw j Bs /\ (Z.of_nat (length rest) < kw (Z.of_nat (j + length Bs)))%Z /\
      block_values mean p0 kw j Bs Gs /\ run opt si (map (fun G => (G, None)) Gs) = Ok (os, sf) /\
      map zeros_of blk ++ outs = blocks_out Bs os ++ map zeros_of rest /\
      s1 = wmst (length rest) (j + length Bs) sf accf /\ block_sum p0 rest accf.
  Proof.
    induction H as [|[g par] H IH]; intros blk j si acc outs s1 Hb Ha Hlk Hr.
    - injection Hr as <- <-. exists [], blk, [], [], si, acc. cbn [concat app map length fst blocks_out block_values block_sizes]. rewrite Nat.add_0_r, !app_nil_r. repeat split; auto; apply Ha.
    - cbn [map fst] in Hlk. apply Forall_cons_iff in Hlk as (Hg & Hlk). destruct (acc_step p0 Hwf blk g acc Ha Hg) as (acc' & Eacc & Ha').
      rewrite run_cons in Hr. apply rbind_Ok in Hr as ([o s2] & Eu & Hr). apply rbind_Ok in Hr as ([os s3] & Er & Hr). injection Hr as <- <-.
      cbn [multi_steps update multi_update wmst] in Eu. rewrite Eacc in Eu. cbn [rbind] in Eu. apply cond_us_Ok in Eu as (a & b & Ea & Eb & _ & Ex).
      injection Ea as <-. apply rbind_Ok in Eb as ([u' si'] & Eo & Eb).
      assert (Eb' : b = (u', SNode NMulti [SInt iw64 0; SInt iw64 (iwrap iw64 (signed counter_bits (Z.of_nat j) + 1)); si'; STree (tmap zeros_like acc')])) by congruence. clear Eb. subst b.
      fold (kw (Z.of_nat j)) in Eo, Ex.
      destruct (Z.ltb_spec (Z.of_nat (length blk)) (kw (Z.of_nat j) - 1)) as [Hm|Hm].
      + assert (E2 : s2 = wmst (length (blk ++ [g])) j si acc').
        { assert (E2 : s2 = SNode NMulti [SInt iw64 (iwrap iw64 (Z.of_nat (length blk) + 1)); SInt iw64 (signed counter_bits (Z.of_nat j)); si; STree acc']) by congruence. rewrite E2. unfold wmst.
          specialize (Hk (signed counter_bits (Z.of_nat j))). fold (kw (Z.of_nat j)) in Hk.
          rewrite iwrap_small by lia. rewrite app_length. cbn [length]. do 4 f_equal. lia. }
        assert (E1 : o = zeros_of g) by (rewrite <- zeros_of_eq; congruence). clear Ex. subst o s2.
        apply IH in Er as (Bs & rest & Gs & os' & sf & accf & Eh & Hsz & Hrl & Hv & Ho & Eout & Es & Hacc); [|rewrite app_length; cbn [length]; lia|assumption|assumption].
        exists Bs, rest, Gs, os', sf, accf. repeat split; auto; try apply Hacc.
        * rewrite <- Eh. cbn [map fst]. now rewrite <- app_assoc.
        * rewrite <- Eout, map_app, <- app_assoc. reflexivity.
      + assert (E2 : s2 = wmst (@length updates []) (S j) si' (tmap zeros_like acc')).
        { assert (E2 : s2 = SNode NMulti [SInt iw64 0; SInt iw64 (iwrap iw64 (signed counter_bits (Z.of_nat j) + 1)); si'; STree (tmap zeros_like acc')]) by congruence. rewrite E2. unfold wmst.
          rewrite signed_succ. replace (Z.of_nat j + 1)%Z with (Z.of_nat (S j)) by lia. reflexivity. }
        assert (E1 : o = u') by congruence. clear Ex. subst o s2.
        pose proof (zeros_reset _ _ Ha') as Hz.
        pose proof (Hk (signed counter_bits (Z.of_nat (S j)))) as Hk1. fold (kw (Z.of_nat (S j))) in Hk1.
        apply IH in Er as (Bs & rest & Gs & os' & sf & accf & Eh & Hsz & Hrl & Hv & Ho & Eout & Es & Hacc); [|cbn [length]; lia|assumption|assumption].
        exists ((blk ++ [g]) :: Bs), rest, (multi_mean mean (kw (Z.of_nat j)) acc' :: Gs), (u' :: os'), sf, accf. cbn [length] in *. replace (j + S (length Bs)) with (S j + length Bs) by lia. repeat split; auto; try apply Hacc.
        * cbn [concat map fst]. rewrite <- !app_assoc. cbn [app]. f_equal. f_equal. exact Eh.
        * rewrite app_length. cbn [length]. lia.
        * apply (mean_step kw). exact Ha'.
        * cbn [map]. rewrite run_cons, Eo. cbn [rbind]. rewrite Ho. reflexivity.
        * cbn [blocks_out]. unfold block_out. rewrite removelast_last, <- !app_assoc. cbn [app]. f_equal. f_equal. exact Eout.
  Qed.
  Lemma wmulti_total I : steady true opt p0 I -> forall H blk j si acc, I si ->
    (Z.of_nat (length blk) < kw (Z.of_nat j))%Z -> block_sum p0 blk acc -> Forall (like p0) (map fst H) ->
    exists outs s1, run (multi_steps opt k mean) (wmst (length blk) j si acc) H = Ok (outs, s1).
  Proof.
    intros (_ & Hst). induction H as [|[g par] H IH]; intros blk j si acc HI Hb Ha Hlk; [eexists _, _; reflexivity|].
    cbn [map fst] in Hlk. apply Forall_cons_iff in Hlk as (Hg & Hlk). destruct (acc_step p0 Hwf blk g acc Ha Hg) as (acc' & Eacc & Ha').
    assert (HG : like p0 (multi_mean mean (kw (Z.of_nat j)) acc')).
    { pose proof (mean_step kw mean p0 (blk ++ [g]) acc' (Z.of_nat j) Ha') as Hv. unfold block_value, block_sum in Hv. destruct mean; apply Hv. }
    destruct (Hst si (multi_mean mean (kw (Z.of_nat j)) acc') None HI HG) as (u' & si' & Eo & Hu' & Hsig & HI'); [discriminate|].
    pose proof (zeros_reset _ _ Ha') as Hz. rewrite run_cons.
    pose proof (Hk (signed counter_bits (Z.of_nat j))) as Hk0. fold (kw (Z.of_nat j)) in Hk0.
    pose proof (Hk (signed counter_bits (Z.of_nat (S j)))) as Hk1. fold (kw (Z.of_nat (S j))) in Hk1.
    assert (E : update (multi_steps opt k mean) g (wmst (length blk) j si acc) par =
      Ok (if (Z.of_nat (length blk) <? kw (Z.of_nat j) - 1)%Z then (tmap zeros_like g, wmst (length (blk ++ [g])) j si acc') else (u', wmst (@length updates []) (S j) si' (tmap zeros_like acc')))).
    { cbn [multi_steps update multi_update wmst]. rewrite Eacc. cbn [rbind]. fold (kw (Z.of_nat j)). rewrite Eo. cbn [rbind]. rewrite signed_succ.
      apply cond_us_Ok. eexists _, _. split; [reflexivity|]. split; [reflexivity|]. split.
      - unfold sig_us. cbn [fst snd ssig map]. rewrite Hsig. rewrite !zeros_of_eq, !zeros_of_avals. destruct Hu' as (-> & _), Hg as (-> & _). destruct Ha' as ((-> & _) & _). reflexivity.
      - destruct (Z.ltb_spec (Z.of_nat (length blk)) (kw (Z.of_nat j) - 1)) as [Hm|Hm].
        + unfold wmst. rewrite iwrap_small by lia. rewrite app_length. cbn [length]. replace (Z.of_nat (length blk) + 1)%Z with (Z.of_nat (length blk + 1)) by lia. reflexivity.
        + unfold wmst. replace (Z.of_nat j + 1)%Z with (Z.of_nat (S j)) by lia. reflexivity. }
    rewrite E. cbn [rbind]. destruct (Z.ltb_spec (Z.of_nat (length blk)) (kw (Z.of_nat j) - 1)) as [Hm|Hm]; cbn [rbind].
    - destruct (IH (blk ++ [g]) j si acc' HI) as (os & s1 & Er); [rewrite app_length; cbn [length]; lia|exact Ha'|exact Hlk|]. rewrite Er. eexists _, _. reflexivity.
    - destruct (IH [] (S j) si' (tmap zeros_like acc') HI') as (os & s1 & Er); [cbn [length]; lia|exact Hz|exact Hlk|]. rewrite Er. eexists _, _. reflexivity.
  Qed.
End Facts.

(*@ C65_signed : what the wrapped counter shows: the only number of the counter's range congruent to the true count; the true count itself below the limit, the smallest negative number at the limit, and a negative number for the 2^(bits-1) counts from there. *)
Lemma signed_spec : forall (bits z : Z), (1 <= bits)%Z ->
  ((- 2 ^ (bits - 1) <= signed bits z < 2 ^ (bits - 1))%Z /\ (signed bits z mod 2 ^ bits = z mod 2 ^ bits)%Z /\
   forall y, (- 2 ^ (bits - 1) <= y < 2 ^ (bits - 1))%Z -> (y mod 2 ^ bits = z mod 2 ^ bits)%Z -> y = signed bits z) /\
  ((0 <= z < 2 ^ (bits - 1))%Z -> signed bits z = z) /\ signed bits (2 ^ (bits - 1)) = (- 2 ^ (bits - 1))%Z /\
  ((2 ^ (bits - 1) <= z < 2 ^ bits)%Z -> (signed bits z < 0)%Z).
Proof.
  intros b z Hb. assert (E2 : (2 ^ b = 2 * 2 ^ (b - 1))%Z) by (rewrite <- Z.pow_succ_r by lia; f_equal; lia).
  assert (Hp : (0 < 2 ^ (b - 1))%Z) by (apply Z.pow_pos_nonneg; lia).
  split; [split; [now apply signed_range|split]|split; [|split]].
  - destruct (signed_cong b z Hb) as (q & ->). apply Z.mod_add. lia.
  - intros y Hy E. symmetry. apply signed_unique with (q := (y / 2 ^ b - z / 2 ^ b)%Z); [exact Hb|exact Hy|].
    pose proof (Z.div_mod y (2 ^ b) ltac:(lia)). pose proof (Z.div_mod z (2 ^ b) ltac:(lia)). nia.
  - intros Hz. apply signed_unique with (q := 0%Z); lia.
  - apply signed_unique with (q := (-1)%Z); lia.
  - intros Hz. rewrite (signed_unique b z (z - 2 ^ b) (-1)); lia.
Qed.

(*@ C65_maybe_update : for histories of ANY length: the predicate of maybe_update is called on the wrapped number of earlier calls (32 bits, or 64 with x64), the inner transformation is applied exactly when it answers true, and the counter in the state is the wrapped number of calls. *)
Lemma maybe_update_wraps : forall `{O : Ops} (inner : GT) (f : Z -> bool) (p0 : tree tensor) (H : list (tree tensor * option (tree tensor))) (s0 s1 : state) (outs : list (tree tensor)),
  init (maybe_update inner f) p0 = Ok s0 -> run (maybe_update inner f) s0 H = Ok (outs, s1) ->
  exists si0 sf, init inner p0 = Ok si0 /\ maybe_ref inner (fun n => f (signed counter_bits n)) 0 si0 H = Ok (outs, sf) /\
    s1 = SNode NMaybe [sf; SInt iw64 (signed counter_bits (Z.of_nat (length H)))].
Proof.
  intros O inner f p0 H s0 s1 outs Hi Hr. cbn [maybe_update init] in Hi. apply rbind_Ok in Hi as (si & Ei & Hi). injection Hi as <-.
  destruct (wmaybe_sim inner f H 0 si outs s1) as (sf & Ef & ->). { change (Z.of_nat 0) with 0%Z. rewrite signed_0. exact Hr. }
  exists si, sf. auto.
Qed.
(*@ C65_maybe_update_total : and it never raises, whatever the length, around an inner transformation that does not raise and keeps shapes, dtypes and state structure. *)
Lemma maybe_update_total_any : forall `{O : Ops} (np : bool) (inner : GT) (f : Z -> bool) (p0 : tree tensor) (I : state -> Prop) (H : list (tree tensor * option (tree tensor))),
  steady np inner p0 I -> hist_ok np p0 H -> exists outs, trains (maybe_update inner f) p0 H outs.
Proof.
  intros O np inner f p0 I H Hs Hh. destruct Hs as ((si & Ei & HI) & Hst).
  destruct (wmaybe_total np inner f p0 I (conj (ex_intro _ si (conj Ei HI)) Hst) H 0 si HI Hh) as (outs & s1 & Hr).
  change (Z.of_nat 0) with 0%Z in Hr. rewrite signed_0 in Hr.
  exists outs. eexists. exists s1. split; [cbn [maybe_update init]; rewrite Ei; reflexivity|exact Hr].
Qed.
(*@ C65_apply_if_finite : for histories of ANY length: apply_if_finite counts the current run and the total of non-finite updates modulo the counter's width, and accepts a non-finite update exactly when the wrapped length of the run exceeds the bound. *)
Lemma apply_if_finite_wraps : forall `{O : Ops} (inner : GT) (max : Z) (p0 : tree tensor) (H : list (tree tensor * option (tree tensor))) (s0 s1 : state) (outs : list (tree tensor)),
  init (apply_if_finite inner max) p0 = Ok s0 -> run (apply_if_finite inner max) s0 H = Ok (outs, s1) ->
  exists si0 sf, init inner p0 = Ok si0 /\ wrapped_finite_ref inner max [] si0 H = Ok (outs, sf) /\
    let flags := rev (map (fun h => tree_finite (fst h)) H) in
    s1 = SNode NIfFinite [SInt iw64 (signed counter_bits (Z.of_nat (bad_run flags))); SBool (hd true flags);
                          SInt iw64 (signed counter_bits (Z.of_nat (bad_total flags))); sf].
Proof.
  intros O inner max p0 H s0 s1 outs Hi Hr. cbn [apply_if_finite init] in Hi. apply rbind_Ok in Hi as (si & Ei & Hi). injection Hi as <-.
  destruct (wfinite_sim inner max H [] si outs s1) as (sf & Ef & ->).
  { unfold wifs. cbn [bad_run bad_total hd]. change (Z.of_nat 0) with 0%Z. rewrite signed_0. exact Hr. }
  exists si, sf. rewrite app_nil_r. auto.
Qed.
(*@ C65_apply_if_finite_total : and it never raises, whatever the length, around an inner transformation that does not raise and keeps shapes, dtypes and state structure. *)
Lemma apply_if_finite_total_any : forall `{O : Ops} (np : bool) (inner : GT) (max : Z) (p0 : tree tensor) (I : state -> Prop) (H : list (tree tensor * option (tree tensor))),
  steady np inner p0 I -> hist_ok np p0 H -> exists outs, trains (apply_if_finite inner max) p0 H outs.
Proof.
  intros O np inner max p0 I H Hs Hh. destruct Hs as ((si & Ei & HI) & Hst).
  destruct (wfinite_total np inner max p0 I (conj (ex_intro _ si (conj Ei HI)) Hst) H [] si HI Hh) as (outs & s1 & Hr).
  exists outs. eexists. exists s1. split; [cbn [apply_if_finite init]; rewrite Ei; reflexivity|].
  unfold wifs in Hr. cbn [bad_run bad_total hd] in Hr. change (Z.of_nat 0) with 0%Z in Hr. rewrite signed_0 in Hr. exact Hr.
Qed.
(*@ C65_multi_steps : for histories of ANY length and any mini-step schedule with values from 1 to 2^31: MultiSteps behaves as the block execution whose j-th block has k(wrapped j) gradients; the state's gradient step is the wrapped number of complete blocks, so has_updated answers false right after a complete block whenever that wrapped number is not positive. *)
Lemma multi_steps_wraps : forall `{O : Ops} (opt : GT) (k : Z -> Z) (use_mean : bool) (p0 : tree tensor) (H : list (tree tensor * option (tree tensor))) (s0 s1 : state) (outs : list (tree tensor)),
  trwf p0 -> (forall j, (1 <= k j <= 2 ^ 31)%Z) -> Forall (like p0) (map fst H) ->
  init (multi_steps opt k use_mean) p0 = Ok s0 -> run (multi_steps opt k use_mean) s0 H = Ok (outs, s1) ->
  let kw := fun i => k (signed counter_bits i) in
  exists Bs rest Gs si0 os sf S,
    map fst H = concat Bs ++ rest /\ block_sizes kw 0 Bs /\ (Z.of_nat (length rest) < kw (Z.of_nat (length Bs)))%Z /\
    block_values use_mean p0 kw 0 Bs Gs /\ init opt p0 = Ok si0 /\ run opt si0 (map (fun G => (G, None)) Gs) = Ok (os, sf) /\
    outs = blocks_out Bs os ++ map zeros_of rest /\
    s1 = SNode NMulti [SInt iw64 (Z.of_nat (length rest)); SInt iw64 (signed counter_bits (Z.of_nat (length Bs))); sf; STree S] /\ block_sum p0 rest S /\
    (multi_has_updated s1 = Ok true <-> rest = [] /\ (0 < signed counter_bits (Z.of_nat (length Bs)))%Z).
Proof.
  intros O opt k use_mean p0 H s0 s1 outs Hw Hk Hh Hi Hr kw. cbn [multi_steps init multi_init] in Hi. apply rbind_Ok in Hi as (si & Ei & Hi). injection Hi as <-.
  destruct (wmulti_sim opt k use_mean p0 Hw Hk H [] 0 si (tmap zeros_like p0) outs s1) as (Bs & rest & Gs & os & sf & accf & Eh & Hsz & Hrl & Hv & Ho & Eout & Es & Hacc).
  - specialize (Hk (signed counter_bits (Z.of_nat 0))). cbn [length]. lia.
  - now apply zeros_block.
  - exact Hh.
  - unfold wmst. change (Z.of_nat 0) with 0%Z. rewrite signed_0. exact Hr.
  - exists Bs, rest, Gs, si, os, sf, accf. cbn [map app] in *. do 9 (split; [assumption|]). subst s1. cbn [multi_has_updated wmst Nat.add]. split.
    + intros E. injection E as E. apply andb_prop in E as (E1 & E2). split; [destruct rest; [reflexivity|discriminate]|]. now apply Z.ltb_lt in E2.
    + intros (-> & Hn). f_equal. apply andb_true_intro. split; [reflexivity|]. now apply Z.ltb_lt.
Qed.
(*@ C65_multi_steps_total : and nothing raises, whatever the length, when the wrapped optimiser ignores params, does not raise and keeps shapes, dtypes and state structure. *)
Lemma multi_steps_total_any : forall `{O : Ops} (opt : GT) (k : Z -> Z) (use_mean : bool) (p0 : tree tensor) (I : state -> Prop) (H : list (tree tensor * option (tree tensor))),
  trwf p0 -> (forall j, (1 <= k j <= 2 ^ 31)%Z) -> steady true opt p0 I -> Forall (like p0) (map fst H) ->
  exists outs, trains (multi_steps opt k use_mean) p0 H outs.
Proof.
  intros O opt k use_mean p0 I H Hw Hk Hs Hh. destruct Hs as ((si & Ei & HI) & Hst).
  destruct (wmulti_total opt k use_mean p0 Hw Hk I (conj (ex_intro _ si (conj Ei HI)) Hst) H [] 0 si (tmap zeros_like p0) HI) as (outs & s1 & Hr).
  - specialize (Hk (signed counter_bits (Z.of_nat 0))). cbn [length]. lia.
  - now apply zeros_block.
  - exact Hh.
  - unfold wmst in Hr. change (Z.of_nat 0) with 0%Z in Hr. rewrite signed_0 in Hr.
    exists outs. eexists. exists s1. split; [|exact Hr]. cbn [multi_steps init]. unfold multi_init. rewrite Ei. reflexivity.
Qed.

(*@ex C65_example *)
Lemma counters_example : forall `{P : Platform} (n : nat), @x64 (XROps P) = false -> Z.of_nat n = (2 ^ 31)%Z ->
  let H := repeat (one (Fin 5), Some (one (Fin 1))) n in
  hist_ok true (one (Fin 1)) H /\
  exists outs s0 sf, init (maybe_update (scale (Fin 2)) (fun s => (0 <=? s)%Z)) (one (Fin 1)) = Ok s0 /\
    run (maybe_update (scale (Fin 2)) (fun s => (0 <=? s)%Z)) s0 H = Ok (outs, SNode NMaybe [sf; SInt I32 (- 2 ^ 31)]) /\
    rmap fst (update (maybe_update (scale (Fin 2)) (fun s => (0 <=? s)%Z)) (one (Fin 5)) (SNode NMaybe [sf; SInt I32 (- 2 ^ 31)]) None) = Ok (one (Fin 5)) /\
    rmap fst (update (maybe_update (scale (Fin 2)) (fun s => (0 <=? s)%Z)) (one (Fin 5)) s0 None) = Ok (one (Fin 10)).
Proof.
  intros P n Hx Hn H.
  assert (Hh : hist_ok true (one (Fin 1)) H).
  { unfold H, hist_ok. clear. induction n as [|n IH]; cbn [repeat]; [constructor|]. constructor; [|exact IH]. split; [split; [reflexivity|apply one_wf]|discriminate]. }
  split; [exact Hh|].
  destruct (@refines_steady (XROps P) _ _ _ _ (@refines_scale (XROps P) (Fin 2)) (one_wf (Fin 1))) as (I & Hs).
  destruct (@maybe_update_total_any (XROps P) true _ (fun s => (0 <=? s)%Z) _ I H Hs Hh) as (outs & s0 & s1 & Ei & Er).
  destruct (@maybe_update_wraps (XROps P) _ _ _ H s0 s1 outs Ei Er) as (si & sf & Esi & Em & ->).
  assert (Hb : @counter_bits (XROps P) = 32%Z) by (unfold counter_bits; now rewrite Hx).
  assert (Hw : @iw64 (XROps P) = I32) by (unfold iw64; now rewrite Hx).
  assert (Hlen : Z.of_nat (length H) = (2 ^ 31)%Z) by (unfold H; now rewrite repeat_length).
  assert (Er' : run (maybe_update (scale (Fin 2)) (fun s => (0 <=? s)%Z)) s0 H = Ok (outs, SNode NMaybe [sf; SInt iw64 (signed counter_bits (2 ^ 31))])) by (rewrite <- Hlen; exact Er).
  clear Er. rename Er' into Er. rewrite Hb, Hw in Er. change (signed 32 (2 ^ 31)) with (- 2 ^ 31)%Z in Er.
  assert (Esf : sf = EmptyState).
  { assert (G : forall H n si sf outs, maybe_ref (scale (Fin 2)) (fun n => (0 <=? signed counter_bits n)%Z) n si H = Ok (outs, sf) -> sf = si).
    { clear. induction H as [|[u p] H IH]; intros n si sf outs E; [now injection E|]. cbn [maybe_ref] in E. apply rbind_Ok in E as ([o s'] & E1 & E). apply rbind_Ok in E as ([os s''] & E2 & E). injection E as <- <-.
      apply IH in E2. subst s''. destruct (_ <=? _)%Z in E1; [|now injection E1]. cbn in E1. now injection E1. }
    apply G in Em. subst sf. cbn in Esi. now injection Esi. }
  exists outs, s0, sf. split; [exact Ei|]. split; [exact Er|]. subst sf.
  cbn in Ei. injection Ei as <-. unfold one. split; cbn -[Rmult IZR]; [reflexivity|]. unfold sl, emap. cbn -[Rmult IZR]. repeat (f_equal; try lra).
Qed.
