(** One-cycle, joined, warm-up and SGDR schedules. *)
From Verif Require Export P_sched2.
From Coq Require Import Psatz Qreals Permutation Sorting.Sorted.
Open Scope R_scope.
(*@header
From Coq Require Import Permutation.
Open Scope R_scope.
*)

Section S.
  Context `{P : Platform}.
  Notation xr := (XROps P).
  Lemma pydiv_val a b : b <> 0 -> @pydiv xr (Fin a) (Fin b) = Ok (Fin (a / b)).
  Proof.
    intros H. unfold pydiv. rewrite (@f0 P). assert (E : @feqb xr (Fin b) (Fin 0) = false) by (apply xeqb_fin_f; exact H). rewrite E.
    cbn [fdiv XROps]. now rewrite xdiv_fin.
  Qed.
  Lemma pct_val p n k : 0 <= p -> (0 <= n)%Z -> IZR k <= p * IZR n < IZR k + 1 -> @pct_of xr (Fin p) n = k.
  Proof.
    intros Hp Hn Hk. unfold pct_of. rewrite fofZ_val. cbn [fmul ftoZ XROps]. rewrite xmul_fin. cbn [xtoZ].
    assert (0 <= p * IZR n) by (apply Rmult_le_pos; [assumption|now apply IZR_le]).
    destruct (Rlt_dec (p * IZR n) 0); [lra|]. unfold Int_part. rewrite <- (tech_up _ (k + 1)); [lia| |]; rewrite plus_IZR; lra.
  Qed.
  Lemma pct_zero p n : Rabs (p * IZR n) < 1 -> @pct_of xr (Fin p) n = 0%Z.
  Proof.
    intros H. unfold pct_of. rewrite fofZ_val. cbn [fmul ftoZ XROps]. rewrite xmul_fin. cbn [xtoZ].
    apply Rabs_def2 in H. destruct (Rlt_dec (p * IZR n) 0).
    - unfold Int_part. rewrite <- (tech_up _ 1); [lia| |]; lra.
    - unfold Int_part. rewrite <- (tech_up _ 1); [lia| |]; lra.
  Qed.
End S.

(*@ C44_linear_onecycle : with k1 = int(pct_start*steps) and k2 = int(pct_final*steps), 0 < k1 < k2 < steps, positive div factors: the schedule is finite; it is the straight line from peak/div at 0 to peak at k1, then back to peak/div at k2, then down to peak/(div*final_div) at steps, and stays there; with peak >= 0, div >= 1, final_div >= 1 it never exceeds peak_value at any count. *)
Lemma linear_onecycle : forall `{P : Platform} (steps k1 k2 : Z) (peak ps pf df ff : R),
  (0 < k1 < k2)%Z -> (k2 < steps)%Z -> 0 <= ps -> 0 <= pf ->
  IZR k1 <= ps * IZR steps < IZR k1 + 1 -> IZR k2 <= pf * IZR steps < IZR k2 + 1 -> 0 < df -> 0 < ff ->
  exists s (f : Z -> R), linear_onecycle_schedule steps (Fin peak) (Fin ps) (Fin pf) (Fin df) (Fin ff) = Ok s /\ (forall c, s c = Fin (f c)) /\
    f 0%Z = peak / df /\ f k1 = peak /\ f k2 = peak / df /\
    (forall c, (steps <= c)%Z -> f c = peak / df / ff) /\
    (forall c, (0 <= c <= k1)%Z -> f c = peak / df + (peak - peak / df) * (IZR c / IZR k1)) /\
    (forall c, (k1 <= c <= k2)%Z -> f c = peak + (peak / df - peak) * (IZR (c - k1) / IZR (k2 - k1))) /\
    (forall c, (k2 <= c <= steps)%Z -> f c = peak / df + (peak / df / ff - peak / df) * (IZR (c - k2) / IZR (steps - k2))) /\
    (0 <= peak -> 1 <= df -> 1 <= ff -> forall c, f c <= peak).
Proof.
  intros P steps k1 k2 peak ps pf df ff Hk Hk2 Hps Hpf E1 E2 Hdf Hff. unfold linear_onecycle_schedule.
  destruct (Z.leb_spec steps 0); [lia|]. rewrite (@f1 P). rewrite !pydiv_val by lra. cbn [rbind].
  rewrite (pct_val ps steps k1), (pct_val pf steps k2) by (lia || assumption).
  assert (Ed : dict_lit [(k1, Fin df); (k2, Fin (1 / df)); (steps, Fin (1 / ff))] = map fitem [(k1, df); (k2, 1 / df); (steps, 1 / ff)]).
  { unfold dict_lit. cbn [fold_left dict_set fst snd]. destruct (Z.eqb_spec k2 k1); [lia|]. cbn [dict_set fst snd]. destruct (Z.eqb_spec steps k1); [lia|]. destruct (Z.eqb_spec steps k2); [lia|]. reflexivity. }
  nx. rewrite Ed.
  assert (Hrd : 0 < 1 / df) by (apply Rdiv_lt_0_compat; lra). assert (Hrf : 0 < 1 / ff) by (apply Rdiv_lt_0_compat; lra).
  destruct (pwi_val ILinear (peak / df) [(k1, df); (k2, 1 / df); (steps, 1 / ff)]) as (s & E & Hs); [discriminate| | |].
  { unfold keys. cbn. repeat constructor; cbn; lia. }
  { repeat constructor; cbn; (lia || lra). }
  assert (Es : sorted_items [(k1, df); (k2, 1 / df); (steps, 1 / ff)] = [(k1, df); (k2, 1 / df); (steps, 1 / ff)]).
  { unfold sorted_items. cbn [fold_right insert_item fst]. destruct (Z.leb_spec k2 steps); [|lia]. cbn [insert_item fst]. destruct (Z.leb_spec k1 k2); [reflexivity|lia]. }
  rewrite Es in Hs.
  set (f := fun c => if (c <? 0)%Z then 0 else pw ILinear 0 (peak / df) [(k1, df); (k2, 1 / df); (steps, 1 / ff)] c) in *.
  assert (V1 : peak / df * df = peak) by (field; lra). assert (V2 : peak * (1 / df) = peak / df) by (field; lra). assert (V3 : peak / df * (1 / ff) = peak / df / ff) by (field; lra).
  assert (P1 : 0 < IZR k1) by (apply IZR_lt; lia). assert (P2 : 0 < IZR (k2 - k1)) by (apply IZR_lt; lia). assert (P3 : 0 < IZR (steps - k2)) by (apply IZR_lt; lia).
  assert (A4 : forall c, (steps <= c)%Z -> f c = peak / df / ff).
  { intros c Hc. unfold f. cbn [pw]. destruct (Z.ltb_spec c 0); [lia|]. destruct (Z.ltb_spec c k1); [lia|]. destruct (Z.ltb_spec c k2); [lia|]. destruct (Z.ltb_spec c steps); [lia|]. now rewrite V1, V2, V3. }
  assert (A3 : forall c, (k2 <= c <= steps)%Z -> f c = peak / df + (peak / df / ff - peak / df) * (IZR (c - k2) / IZR (steps - k2))).
  { intros c Hc. destruct (Z.eq_dec c steps) as [->|]; [rewrite A4 by lia; field; lra|].
    unfold f. cbn [pw]. destruct (Z.ltb_spec c 0); [lia|]. destruct (Z.ltb_spec c k1); [lia|]. destruct (Z.ltb_spec c k2); [lia|]. destruct (Z.ltb_spec c steps); [|lia]. now rewrite V1, V2, V3. }
  assert (A2 : forall c, (k1 <= c <= k2)%Z -> f c = peak + (peak / df - peak) * (IZR (c - k1) / IZR (k2 - k1))).
  { intros c Hc. destruct (Z.eq_dec c k2) as [->|]; [rewrite A3 by lia; rewrite Z.sub_diag; field; lra|].
    unfold f. cbn [pw]. destruct (Z.ltb_spec c 0); [lia|]. destruct (Z.ltb_spec c k1); [lia|]. destruct (Z.ltb_spec c k2); [|lia]. now rewrite V1, V2. }
  assert (A1 : forall c, (0 <= c <= k1)%Z -> f c = peak / df + (peak - peak / df) * (IZR c / IZR k1)).
  { intros c Hc. destruct (Z.eq_dec c k1) as [->|]; [rewrite A2 by lia; rewrite Z.sub_diag; field; lra|].
    unfold f. cbn [pw]. destruct (Z.ltb_spec c 0); [lia|]. destruct (Z.ltb_spec c k1); [|lia]. now rewrite V1, !Z.sub_0_r. }
  exists s, f. split; [exact E|]. split; [exact Hs|]. repeat split; try assumption.
  - rewrite A1 by lia. field. lra.
  - rewrite A2 by lia. rewrite Z.sub_diag. field. lra.
  - rewrite A3 by lia. rewrite Z.sub_diag. field. lra.
  - intros Hpk H1 H2 c.
    assert (Q1 : peak / df <= peak) by (apply (Rmult_le_reg_r df); [lra|]; unfold Rdiv; rewrite Rmult_assoc, Rinv_l by lra; nra).
    assert (Q0 : 0 <= peak / df) by (apply Rdiv_nonneg; lra).
    assert (Q2 : peak / df / ff <= peak / df) by (apply (Rmult_le_reg_r ff); [lra|]; unfold Rdiv at 1; rewrite Rmult_assoc, Rinv_l by lra; nra).
    assert (Hfr : forall a b, (0 <= a <= b)%Z -> (0 < b)%Z -> 0 <= IZR a / IZR b <= 1).
    { intros a b Ha Hb. assert (0 < IZR b) by (apply IZR_lt; lia). split; [apply Rdiv_nonneg; [apply IZR_le; lia|lra]|].
      apply (Rmult_le_reg_r (IZR b)); [lra|]. unfold Rdiv. rewrite Rmult_assoc, Rinv_l by lra. rewrite Rmult_1_r, Rmult_1_l. apply IZR_le; lia. }
    destruct (Z_lt_ge_dec c 0); [unfold f; destruct (Z.ltb_spec c 0); [lra|lia]|].
    destruct (Z_le_gt_dec c k1); [rewrite A1 by lia; pose proof (Hfr c k1 ltac:(lia) ltac:(lia)); nra|].
    destruct (Z_le_gt_dec c k2); [rewrite A2 by lia; pose proof (Hfr (c - k1)%Z (k2 - k1)%Z ltac:(lia) ltac:(lia)); nra|].
    destruct (Z_le_gt_dec c steps); [rewrite A3 by lia; pose proof (Hfr (c - k2)%Z (steps - k2)%Z ltac:(lia) ltac:(lia)); nra|].
    rewrite A4 by lia. lra.
Qed.

(*@ C44_cosine_onecycle : with k1 = int(pct_start*steps), 0 < k1 < steps, positive div factors: the schedule is finite, starts at peak/div, rises along a half cosine to peak at k1, falls along a half cosine to peak/(div*final_div) at steps and stays there; with peak >= 0, div >= 1, div*final_div >= 1 it never exceeds peak_value. *)
Lemma cosine_onecycle : forall `{P : Platform} (steps k1 : Z) (peak ps df ff : R),
  (0 < k1 < steps)%Z -> 0 <= ps -> IZR k1 <= ps * IZR steps < IZR k1 + 1 -> 0 < df -> 0 < ff ->
  exists s (f : Z -> R), cosine_onecycle_schedule steps (Fin peak) (Fin ps) (Fin df) (Fin ff) = Ok s /\ (forall c, s c = Fin (f c)) /\
    f 0%Z = peak / df /\ f k1 = peak /\ (forall c, (steps <= c)%Z -> f c = peak / (df * ff)) /\
    (forall c, (0 <= c <= k1)%Z -> f c = peak + (peak / df - peak) * ((1 + cos (PI * (IZR c / IZR k1))) / 2)) /\
    (forall c, (k1 <= c <= steps)%Z -> f c = peak / (df * ff) + (peak - peak / (df * ff)) * ((1 + cos (PI * (IZR (c - k1) / IZR (steps - k1)))) / 2)) /\
    (0 <= peak -> 1 <= df -> 1 <= df * ff -> forall c, f c <= peak).
Proof.
  intros P steps k1 peak ps df ff Hk Hps E1 Hdf Hff. unfold cosine_onecycle_schedule. assert (Hdff : 0 < df * ff) by nra.
  destruct (Z.leb_spec steps 0); [lia|]. rewrite (@f1 P). cbn [fmul XROps]. rewrite xmul_fin, !pydiv_val by lra. cbn [rbind].
  rewrite (pct_val ps steps k1) by (lia || assumption).
  assert (Ed : dict_lit [(k1, Fin df); (steps, Fin (1 / (df * ff)))] = map fitem [(k1, df); (steps, 1 / (df * ff))]).
  { unfold dict_lit. cbn [fold_left dict_set fst snd]. destruct (Z.eqb_spec steps k1); [lia|]. reflexivity. }
  nx. rewrite Ed.
  assert (Hrf : 0 < 1 / (df * ff)) by (apply Rdiv_lt_0_compat; lra).
  destruct (pwi_val ICosine (peak / df) [(k1, df); (steps, 1 / (df * ff))]) as (s & E & Hs); [discriminate| | |].
  { unfold keys. cbn. repeat constructor; cbn; lia. }
  { repeat constructor; cbn; (lia || lra). }
  assert (Es : sorted_items [(k1, df); (steps, 1 / (df * ff))] = [(k1, df); (steps, 1 / (df * ff))]).
  { unfold sorted_items. cbn [fold_right insert_item fst]. destruct (Z.leb_spec k1 steps); [reflexivity|lia]. }
  rewrite Es in Hs.
  set (f := fun c => if (c <? 0)%Z then 0 else pw ICosine 0 (peak / df) [(k1, df); (steps, 1 / (df * ff))] c) in *.
  assert (V1 : peak / df * df = peak) by (field; lra). assert (V2 : peak * (1 / (df * ff)) = peak / (df * ff)) by (field; lra).
  assert (P1 : 0 < IZR k1) by (apply IZR_lt; lia). assert (P3 : 0 < IZR (steps - k1)) by (apply IZR_lt; lia).
  assert (A4 : forall c, (steps <= c)%Z -> f c = peak / (df * ff)).
  { intros c Hc. unfold f. cbn [pw]. destruct (Z.ltb_spec c 0); [lia|]. destruct (Z.ltb_spec c k1); [lia|]. destruct (Z.ltb_spec c steps); [lia|]. now rewrite V1, V2. }
  assert (A3 : forall c, (k1 <= c <= steps)%Z -> f c = peak / (df * ff) + (peak - peak / (df * ff)) * ((1 + cos (PI * (IZR (c - k1) / IZR (steps - k1)))) / 2)).
  { intros c Hc. destruct (Z.eq_dec c steps) as [->|]. { rewrite A4 by lia. replace (PI * (IZR (steps - k1) / IZR (steps - k1))) with PI by (field; lra). rewrite cos_PI. field. lra. }
    unfold f. cbn [pw]. destruct (Z.ltb_spec c 0); [lia|]. destruct (Z.ltb_spec c k1); [lia|]. destruct (Z.ltb_spec c steps); [|lia]. now rewrite V1, V2. }
  assert (A1 : forall c, (0 <= c <= k1)%Z -> f c = peak + (peak / df - peak) * ((1 + cos (PI * (IZR c / IZR k1))) / 2)).
  { intros c Hc. destruct (Z.eq_dec c k1) as [->|]. { rewrite A3 by lia. rewrite Z.sub_diag. replace (PI * (IZR k1 / IZR k1)) with PI by (field; lra). replace (PI * (0 / IZR (steps - k1))) with 0 by (field; lra). rewrite cos_PI, cos_0. field. lra. }
    unfold f. cbn [pw]. destruct (Z.ltb_spec c 0); [lia|]. destruct (Z.ltb_spec c k1); [|lia]. now rewrite V1, !Z.sub_0_r. }
  exists s, f. split; [exact E|]. split; [exact Hs|]. repeat split; try assumption.
  - rewrite A1 by lia. replace (PI * (0 / IZR k1)) with 0 by (field; lra). rewrite cos_0. field. lra.
  - rewrite A3 by lia. rewrite Z.sub_diag. replace (PI * (0 / IZR (steps - k1))) with 0 by (field; lra). rewrite cos_0. field. lra.
  - intros Hpk H1 H2 c.
    assert (Q1 : peak / df <= peak) by (apply (Rmult_le_reg_r df); [lra|]; unfold Rdiv; rewrite Rmult_assoc, Rinv_l by lra; nra).
    assert (Q2 : peak / (df * ff) <= peak) by (apply (Rmult_le_reg_r (df * ff)); [lra|]; unfold Rdiv at 1; rewrite Rmult_assoc, Rinv_l by lra; nra).
    destruct (Z_lt_ge_dec c 0); [unfold f; destruct (Z.ltb_spec c 0); [lra|lia]|].
    destruct (Z_le_gt_dec c k1); [rewrite A1 by lia; pose proof (COS_bound (PI * (IZR c / IZR k1))); nra|].
    destruct (Z_le_gt_dec c steps); [rewrite A3 by lia; pose proof (COS_bound (PI * (IZR (c - k1) / IZR (steps - k1)))); nra|].
    rewrite A4 by lia. lra.
Qed.

(*@ C44_raises : non-positive transition_steps raise ValueError (any arithmetic, any other arguments). *)
Lemma onecycle_raises : forall `{O : Ops} (steps : Z) (peak ps pf df ff : F), (steps <= 0)%Z ->
  linear_onecycle_schedule steps peak ps pf df ff = Err EValue /\ cosine_onecycle_schedule steps peak ps df ff = Err EValue.
Proof. intros O steps peak ps pf df ff H. unfold linear_onecycle_schedule, cosine_onecycle_schedule. destruct (Z.leb_spec steps 0); [now split|lia]. Qed.

(*@ C44_short_cycle_nan : if pct_start*transition_steps is below 1 (so int(...) is 0) the one-cycle schedules are NaN at every count. *)
Lemma onecycle_nan : forall `{P : Platform} (steps k2 : Z) (peak ps pf df ff : R),
  (0 < steps)%Z -> Rabs (ps * IZR steps) < 1 -> (0 <= k2)%Z -> 0 <= pf -> IZR k2 <= pf * IZR steps < IZR k2 + 1 -> 0 < df -> 0 < ff ->
  (exists s, linear_onecycle_schedule steps (Fin peak) (Fin ps) (Fin pf) (Fin df) (Fin ff) = Ok s /\ forall c, s c = NaN) /\
  (exists s, cosine_onecycle_schedule steps (Fin peak) (Fin ps) (Fin df) (Fin ff) = Ok s /\ forall c, s c = NaN).
Proof.
  intros P steps k2 peak ps pf df ff Hs H1 Hk2 Hpf E2 Hdf Hff. unfold linear_onecycle_schedule, cosine_onecycle_schedule.
  destruct (Z.leb_spec steps 0); [lia|]. rewrite (@f1 P). assert (Hdff : 0 < df * ff) by nra. cbn [fmul XROps]. rewrite xmul_fin, !pydiv_val by lra. cbn [rbind].
  rewrite (pct_zero ps steps) by assumption. rewrite (pct_val pf steps k2) by (lia || assumption).
  assert (Hrd : 0 < 1 / df) by (apply Rdiv_lt_0_compat; lra). assert (Hrf : 0 < 1 / ff) by (apply Rdiv_lt_0_compat; lra). assert (Hrdf : 0 < 1 / (df * ff)) by (apply Rdiv_lt_0_compat; lra).
  split.
  - assert (Ed : exists l, dict_lit [(0%Z, Fin df); (k2, Fin (1 / df)); (steps, Fin (1 / ff))] = map fitem l /\ NoDup (keys l) /\
        Forall (fun x => (0 <= fst x)%Z /\ 0 <= snd x) l /\ In 0%Z (keys l)).
    { unfold dict_lit, keys. cbn [fold_left dict_set fst snd]. destruct (Z.eqb_spec k2 0) as [->|].
      - cbn [dict_set]. destruct (Z.eqb_spec steps 0); [lia|]. exists [(0%Z, 1 / df); (steps, 1 / ff)]. repeat split; cbn; [repeat constructor; cbn; lia|repeat constructor; cbn; (lia||lra)|tauto].
      - cbn [dict_set]. destruct (Z.eqb_spec steps 0); [lia|]. destruct (Z.eqb_spec steps k2) as [->|].
        + exists [(0%Z, df); (k2, 1 / ff)]. repeat split; cbn; [repeat constructor; cbn; lia|repeat constructor; cbn; (lia||lra)|tauto].
        + exists [(0%Z, df); (k2, 1 / df); (steps, 1 / ff)]. repeat split; cbn; [repeat constructor; cbn; lia|repeat constructor; cbn; (lia||lra)|tauto]. }
    destruct Ed as (l & Ed & Hn & Hl & H0). nx. rewrite Ed. now apply interpolate_zero.
  - assert (Ed : dict_lit [(0%Z, Fin df); (steps, Fin (1 / (df * ff)))] = map fitem [(0%Z, df); (steps, 1 / (df * ff))]).
    { unfold dict_lit. cbn [fold_left dict_set fst snd]. destruct (Z.eqb_spec steps 0); [lia|reflexivity]. }
    nx. rewrite Ed. apply interpolate_zero; [discriminate|repeat constructor; cbn; lia|repeat constructor; cbn; (lia||lra)|cbn; tauto].
Qed.
(*@ex C44_example *)
Lemma onecycle_example : forall `{P : Platform}, exists s, linear_onecycle_schedule 10 (Fin 1) (Fin (3/10)) (Fin (85/100)) (Fin 25) (Fin 10000) = Ok s /\ s 3%Z = Fin 1 /\ s 0%Z = Fin (1/25).
Proof.
  intros P. destruct (linear_onecycle 10 3 8 1 (3/10) (85/100) 25 10000) as (s & f & E & Hs & H0 & H1 & _); try lia; try lra.
  exists s. rewrite !Hs, H0, H1. split; [exact E|]. split; f_equal; lra.
Qed.

(** ** join_schedules *)
(** The specification: the number of boundaries at or before the step selects the schedule, which is
    evaluated at the offset from the last such boundary. *)
Inductive increasing : list Z -> Prop :=
| inc_nil : increasing []
| inc_cons b l : Forall (fun b' => (b < b')%Z) l -> increasing l -> increasing (b :: l).

(*@ C45_join : for n+1 schedules and n increasing boundaries, and any step: if the i-th interval (b_i <= step < b_{i+1}, with b_0 = minus infinity and b_{n+1} = infinity) contains the step, join_schedules evaluates exactly the i-th schedule at step - b_i (the 0-th one at the step itself). Any arithmetic, any schedules. *)
Lemma join_spec : forall `{O : Ops} (s0 : schedule) (rest : list schedule) (bs : list Z), length rest = length bs -> increasing bs ->
  exists s, join_schedules (s0 :: rest) bs = Ok s /\
    (forall step, Forall (fun b => (step < b)%Z) bs -> s step = s0 step) /\
    (forall i b si step, nth_error bs i = Some b -> nth_error rest i = Some si -> (b <= step)%Z ->
       (forall b', nth_error bs (S i) = Some b' -> (step < b')%Z) -> s step = si (step - b)%Z).
Proof.
  intros O s0 rest bs Hl Hi. eexists. split; [reflexivity|]. cbv beta.
  assert (Hskip : forall step rest bs out, Forall (fun b => (step < b)%Z) bs ->
     fold_left (fun out (x : Z * schedule) => if (step <? fst x)%Z then out else snd x (step - fst x)%Z) (combine bs rest) out = out).
  { intros step r bs'. revert r. induction bs' as [|b bs' IH]; intros r out HF; [reflexivity|]. destruct r as [|x r]; [reflexivity|].
    inversion HF; subst. cbn [combine fold_left fst snd]. destruct (Z.ltb_spec step b); [|lia]. now apply IH. }
  split; [intros; now apply Hskip|].
  intros i b si step Eb Es Hb Hn. revert rest i Hl Hi Eb Es Hn. generalize (s0 step). induction bs as [|c bs IH]; intros out rest i Hl Hi Eb Es Hn; [destruct i; discriminate|].
  destruct rest as [|x rest]; [discriminate|]. cbn [combine fold_left fst snd]. inversion Hi as [|? ? Hc Hi']; subst.
  destruct i as [|i].
  - injection Eb as ->. injection Es as ->. destruct (Z.ltb_spec step b); [lia|]. apply Hskip.
    destruct bs as [|c' bs]; [constructor|]. specialize (Hn c' eq_refl). inversion Hi' as [|? ? Hc' _]; subst. constructor; [exact Hn|].
    eapply Forall_impl; [|exact Hc']. intros; cbn in *; lia.
  - apply (IH _ rest i); auto.
Qed.

(*@ C45_warmup_cosine : for warmup_steps > 0, decay_steps > warmup_steps and peak_value <> 0: finite everywhere; init_value at 0; the straight line from init to peak up to warmup_steps, where it is exactly peak_value; then the half cosine down to end_value, which it equals from decay_steps on; from warmup_steps on it lies between peak_value and end_value. *)
Lemma warmup_cosine : forall `{P : Platform} (init peak fin : R) (w n : Z), (0 < w < n)%Z -> peak <> 0 ->
  exists s (f : Z -> R), warmup_cosine_decay_schedule (Fin init) (Fin peak) w n (Fin fin) = Ok s /\ (forall c, s c = Fin (f c)) /\
    f 0%Z = init /\ f w = peak /\ (forall c, (n <= c)%Z -> f c = fin) /\
    (forall c, (0 <= c <= w)%Z -> f c = init + (peak - init) * (IZR c / IZR w)) /\
    (forall c, (w <= c <= n)%Z -> f c = fin + (peak - fin) * ((1 + cos (PI * IZR (c - w) / IZR (n - w))) / 2)) /\
    (forall c, (w <= c)%Z -> Rmin peak fin <= f c <= Rmax peak fin).
Proof.
  intros P init peak fin w n Hw Hp. unfold warmup_cosine_decay_schedule. rewrite pydiv_val by exact Hp. cbn [rbind].
  destruct (cosine_val peak (n - w) (fin / peak) ltac:(lia)) as (sc & Ec & Hc). nx. rewrite Ec. cbn [rbind]. eexists.
  exists (fun c => if (c <? w)%Z then init + (peak - init) * (IZR (Z.min (Z.max 0 (c - Z.max 0 0)) w) / IZR w) else peak * ((1 - fin / peak) * cos_mult (n - w) (c - w) + fin / peak)).
  split; [reflexivity|]. assert (Hw' : 0 < IZR w) by (apply IZR_lt; lia). assert (Hnw : 0 < IZR (n - w)) by (apply IZR_lt; lia).
  assert (HF : forall x, peak * ((1 - fin / peak) * x + fin / peak) = fin + (peak - fin) * x) by (intros x; field; exact Hp).
  split; [|repeat split].
  - intros c. cbn [combine fold_left fst snd]. destruct (Z.ltb_spec c w); [now rewrite linear_values by lia|now rewrite Hc].
  - destruct (Z.ltb_spec 0 w); [|lia]. replace (Z.min (Z.max 0 (0 - Z.max 0 0)) w) with 0%Z by lia. field. lra.
  - destruct (Z.ltb_spec w w); [lia|]. rewrite HF. unfold cos_mult. rewrite Z.sub_diag. replace (Z.min 0 (n - w)) with 0%Z by lia. replace (PI * 0 / IZR (n - w)) with 0 by (field; lra). rewrite cos_0. field.
  - intros c H. destruct (Z.ltb_spec c w); [lia|]. rewrite HF. unfold cos_mult. replace (Z.min (c - w) (n - w)) with (n - w)%Z by lia. replace (PI * IZR (n - w) / IZR (n - w)) with PI by (field; lra). rewrite cos_PI. field.
  - intros c H. destruct (Z.ltb_spec c w).
    + replace (Z.min (Z.max 0 (c - Z.max 0 0)) w) with c by lia. reflexivity.
    + assert (c = w) by lia. subst c. rewrite HF. unfold cos_mult. rewrite Z.sub_diag. replace (Z.min 0 (n - w)) with 0%Z by lia. replace (PI * 0 / IZR (n - w)) with 0 by (field; lra). rewrite cos_0. field. lra.
  - intros c H. destruct (Z.ltb_spec c w); [lia|]. rewrite HF. unfold cos_mult. replace (Z.min (c - w) (n - w)) with (c - w)%Z by lia. reflexivity.
  - destruct (Z.ltb_spec c w); [lia|]. rewrite HF. pose proof (cos_mult_range (n - w) (c - w)). unfold Rmin. destruct (Rle_dec peak fin); nra.
  - destruct (Z.ltb_spec c w); [lia|]. rewrite HF. pose proof (cos_mult_range (n - w) (c - w)). unfold Rmax. destruct (Rle_dec peak fin); nra.
Qed.

(*@ C45_warmup_edge_cases : warmup_steps <= 0 starts at peak_value (init_value is never used at counts >= 0); peak_value = 0 raises ZeroDivisionError; decay_steps <= warmup_steps raises ValueError. *)
Lemma warmup_edges : forall `{P : Platform} (init peak fin : R) (w n : Z),
  (peak = 0 -> warmup_cosine_decay_schedule (Fin init) (Fin peak) w n (Fin fin) = Err EZeroDiv) /\
  (peak <> 0 -> (n <= w)%Z -> warmup_cosine_decay_schedule (Fin init) (Fin peak) w n (Fin fin) = Err EValue) /\
  (peak <> 0 -> w = 0%Z -> (0 < n)%Z -> exists s, warmup_cosine_decay_schedule (Fin init) (Fin peak) w n (Fin fin) = Ok s /\ s 0%Z = Fin peak).
Proof.
  intros P init peak fin w n. unfold warmup_cosine_decay_schedule. split; [|split].
  - intros ->. unfold pydiv. rewrite (@f0 P). assert (E : @feqb (XROps P) (Fin 0) (Fin 0) = true) by now apply xeqb_fin. now rewrite E.
  - intros Hp H. rewrite pydiv_val by exact Hp. cbn [rbind]. rewrite cosine_raises by lia. reflexivity.
  - intros Hp -> H. rewrite pydiv_val by exact Hp. cbn [rbind]. destruct (cosine_val peak (n - 0) (fin / peak) ltac:(lia)) as (sc & Ec & Hc). nx. rewrite Ec. cbn [rbind].
    eexists. split; [reflexivity|]. cbn [combine fold_left fst snd]. change (0 <? 0)%Z with false. cbv iota. rewrite Hc. f_equal. unfold cos_mult. replace (Z.min (0 - 0) (n - 0)) with 0%Z by lia.
    assert (0 < IZR (n - 0)) by (apply IZR_lt; lia). replace (PI * 0 / IZR (n - 0)) with 0 by (field; lra). rewrite cos_0. field. exact Hp.
Qed.

(*@ C45_warmup_exponential : for warmup_steps > 0: the straight line from init to peak on [0, warmup_steps), then exactly the exponential decay from peak at the offset count - warmup_steps. *)
Lemma warmup_exponential : forall `{P : Platform} (init peak rate : R) (w steps begin : Z) (stair : bool) (e : option R), (0 < w)%Z ->
  exists s, warmup_exponential_decay_schedule (Fin init) (Fin peak) w steps (Fin rate) begin stair (option_map Fin e) = Ok s /\
    s 0%Z = Fin init /\
    (forall c, (0 <= c < w)%Z -> s c = Fin (init + (peak - init) * (IZR c / IZR w))) /\
    (forall c, (w <= c)%Z -> s c = exponential_decay (Fin peak) steps (Fin rate) begin stair (option_map Fin e) (c - w)%Z) /\
    ((0 < steps)%Z -> 0 < rate -> e = None -> s w = Fin peak) /\
    ((0 < steps)%Z -> 0 < rate < 1 -> forall x, e = Some x -> forall c, (w <= c)%Z -> exists v, s c = Fin v /\ x <= v).
Proof.
  intros P init peak rate w steps begin stair e Hw. eexists. split; [reflexivity|]. cbn [combine fold_left fst snd]. assert (Hw' : 0 < IZR w) by (apply IZR_lt; lia).
  split; [|split; [|split; [|split]]].
  - destruct (Z.ltb_spec 0 w); [|lia]. rewrite linear_values by lia. f_equal. replace (Z.min (Z.max 0 (0 - Z.max 0 0)) w) with 0%Z by lia. field. lra.
  - intros c Hc. destruct (Z.ltb_spec c w); [|lia]. rewrite linear_values by lia. f_equal. replace (Z.min (Z.max 0 (c - Z.max 0 0)) w) with c by lia. reflexivity.
  - intros c Hc. destruct (Z.ltb_spec c w); [lia|reflexivity].
  - intros Hs Hr ->. destruct (Z.ltb_spec w w); [lia|]. rewrite Z.sub_diag. rewrite exp_values by assumption. cbn [exp_clip].
    destruct (Z.leb_spec (0 - Z.max 0 begin) 0); [reflexivity|lia].
  - intros Hs Hr x -> c Hc. destruct (Z.ltb_spec c w); [lia|]. rewrite exp_values by (lia || lra). eexists. split; [reflexivity|]. cbn [exp_clip].
    destruct (Rlt_dec rate 1); [apply Rmax_r|lra].
Qed.

(** ** SGDR *)
Fixpoint sumz (l : list Z) : Z := match l with [] => 0%Z | x :: r => (x + sumz r)%Z end.
Lemma cum_steps_nth `{O : Ops} : forall l b i k, nth_error l i = Some k -> nth_error (cum_steps b l) i = Some (b + sumz (map ck_decay (firstn (S i) l)))%Z.
Proof.
  induction l as [|x l IH]; intros b i k E; [destruct i; discriminate|]. destruct i as [|i]; cbn [nth_error cum_steps].
  - cbn. do 2 f_equal. lia.
  - rewrite (IH _ i k E). change (firstn (S (S i)) (x :: l)) with (x :: firstn (S i) l). cbn [map sumz]. f_equal. lia.
Qed.
Lemma cum_steps_length `{O : Ops} : forall l b, length (cum_steps b l) = length l.
Proof. induction l; intros; cbn; auto. Qed.
Lemma cum_steps_inc `{O : Ops} : forall l b, Forall (fun k => (0 < ck_decay k)%Z) l -> increasing (cum_steps b l) /\ Forall (fun x => (b < x)%Z) (cum_steps b l).
Proof.
  induction l as [|x l IH]; intros b H; cbn; [split; constructor|]. inversion H; subst. destruct (IH (b + ck_decay x)%Z) as (I1 & I2); [assumption|].
  split; constructor; auto; [lia|]. eapply Forall_impl; [|exact I2]. intros; cbn in *; lia.
Qed.
Lemma removelast_inc l : increasing l -> increasing (removelast l).
Proof.
  induction 1 as [|b l Hb Hl IH]; [constructor|]. cbn. destruct l as [|c l]; [constructor|]. constructor; [|exact IH].
  apply Forall_forall. intros x Hx. rewrite Forall_forall in Hb. apply Hb. clear -Hx. revert Hx. generalize (c :: l). intros m. induction m as [|y m IHm]; cbn; [easy|]. destruct m; [easy|]. intros [->|H]; [now left|right; auto].
Qed.
Lemma removelast_len {A} (l : list A) : length (removelast l) = (length l - 1)%nat.
Proof. induction l as [|x l IH]; [reflexivity|]. cbn [removelast]. destruct l; [reflexivity|]. cbn [length] in *. rewrite IH. lia. Qed.
Lemma removelast_nth {A} (l : list A) i x : nth_error (removelast l) i = Some x -> nth_error l i = Some x.
Proof.
  revert i. induction l as [|y l IH]; intros i E; [destruct i; discriminate|]. cbn [removelast] in E. destruct l as [|z l]; [destruct i; discriminate|].
  destruct i; [exact E|]. apply IH. exact E.
Qed.
Lemma removelast_nth_lt {A} (l : list A) i : (S i < length l)%nat -> nth_error (removelast l) i = nth_error l i.
Proof.
  revert i. induction l as [|y l IH]; intros i H; [cbn in H; lia|]. destruct l as [|z l]; [cbn in H; lia|]. cbn [removelast].
  destruct i; [reflexivity|]. cbn [nth_error]. apply IH. cbn in *. lia.
Qed.

(*@ C45_sgdr : for any non-empty list of cycles with positive decay_steps (whose warm-up cosine schedules exist), sgdr_schedule at a step in the i-th cycle - from the sum of the previous decay_steps to the sum including its own, the last cycle being open-ended - is exactly the i-th cycle's warmup_cosine_decay_schedule at the offset from the cycle's start: it restarts at each cumulative boundary. *)
Lemma sgdr_spec : forall `{O : Ops} (l : list cosine_kwargs) (ss : list schedule), l <> [] -> Forall (fun k => (0 < ck_decay k)%Z) l ->
  Forall2 (fun k s => warmup_cosine_decay_schedule (ck_init k) (ck_peak k) (ck_warmup k) (ck_decay k) (ck_end k) = Ok s) l ss ->
  exists s, sgdr_schedule l = Ok s /\
    forall i si step, nth_error ss i = Some si ->
      let start := sumz (map ck_decay (firstn i l)) in
      ((start <= step)%Z \/ i = 0%nat) -> ((step < start + sumz (map ck_decay (firstn 1 (skipn i l))))%Z \/ S i = length l) ->
      s step = si (step - start)%Z.
Proof.
  intros O l ss Hne Hpos H2. unfold sgdr_schedule.
  assert (Em : mapM (fun k => warmup_cosine_decay_schedule (ck_init k) (ck_peak k) (ck_warmup k) (ck_decay k) (ck_end k)) l = Ok ss).
  { clear Hne Hpos. induction H2 as [|k s l ss E H2 IH]; [reflexivity|]. cbn [mapM]. rewrite E. cbn [rbind]. rewrite IH. reflexivity. }
  rewrite Em. cbn [rbind]. assert (Hlen : length l = length ss) by (clear -H2; induction H2; cbn; auto). destruct ss as [|s0 rest]; [destruct l; [easy|discriminate]|].
  destruct (cum_steps_inc l 0 Hpos) as (I1 & I2).
  destruct (join_spec s0 rest (removelast (cum_steps 0 l))) as (s & E & J1 & J2).
  { rewrite removelast_len, cum_steps_length. rewrite Hlen. cbn. lia. }
  { now apply removelast_inc. }
  exists s. split; [exact E|]. intros i si step Ei Hs Hend. set (start := sumz (map ck_decay (firstn i l))) in *.
  assert (Hi : (i < length l)%nat) by (rewrite Hlen; apply nth_error_Some; congruence).
  destruct i as [|i].
  - injection Ei as <-. unfold start. cbn [firstn map sumz]. rewrite Z.sub_0_r. apply J1.
    destruct l as [|k l]; [easy|]. cbn [cum_steps]. destruct (cum_steps (0 + ck_decay k) l) as [|c r] eqn:Ec; [constructor|]. cbn [removelast].
    assert (Hlt : (step < ck_decay k)%Z).
    { destruct Hend as [He|He]; [unfold start in He; cbn in He; lia|]. exfalso. pose proof (cum_steps_length l (0 + ck_decay k)) as Hc. rewrite Ec in Hc. cbn in He, Hc. lia. }
    apply removelast_inc in I1. cbn [cum_steps] in I1. rewrite Ec in I1. cbn [removelast] in I1. inversion I1 as [|? ? Hb Hl']; subst. constructor; [lia|].
    eapply Forall_impl; [|exact Hb]. intros; cbn in *; lia.
  - cbn [nth_error] in Ei. destruct (nth_error l i) as [k|] eqn:Ek; [|apply nth_error_None in Ek; lia].
    destruct Hs as [Hs|Hs]; [|discriminate].
    apply (J2 i start si step).
    + rewrite removelast_nth_lt by (rewrite cum_steps_length; lia). rewrite (cum_steps_nth l 0 i k Ek). now rewrite Z.add_0_l.
    + exact Ei.
    + exact Hs.
    + intros b' Eb. assert (Hlt : (S (S i) < length l)%nat).
      { assert (S i < length (removelast (cum_steps 0 l)))%nat by (apply nth_error_Some; congruence). rewrite removelast_len, cum_steps_length in H. lia. }
      destruct Hend as [Hend|Hend]; [|lia]. apply removelast_nth in Eb.
      destruct (nth_error l (S i)) as [k'|] eqn:Ek'; [|apply nth_error_None in Ek'; lia]. rewrite (cum_steps_nth l 0 (S i) k' Ek') in Eb. injection Eb as <-.
      assert (Esk : sumz (map ck_decay (firstn (S (S i)) l)) = (start + sumz (map ck_decay (firstn 1 (skipn (S i) l))))%Z).
      { unfold start. clear. revert l. induction (S i) as [|j IHj]; intros l; [destruct l; cbn; lia|]. destruct l as [|x l]; [reflexivity|].
        cbn [skipn]. change (firstn (S (S j)) (x :: l)) with (x :: firstn (S j) l). change (firstn (S j) (x :: l)) with (x :: firstn j l). cbn [map sumz]. specialize (IHj l). cbn [firstn] in IHj. cbn [firstn]. lia. }
      match goal with |- (_ < ?x)%Z => change x with (0 + sumz (map ck_decay (firstn (S (S i)) l)))%Z end. rewrite Z.add_0_l, Esk. exact Hend.
Qed.
(*@ex C45_example *)
Lemma warmup_example : forall `{P : Platform}, exists s, warmup_cosine_decay_schedule (Fin 0) (Fin 2) 4 12 (Fin 1) = Ok s /\ s 4%Z = Fin 2 /\ s 100%Z = Fin 1 /\
  exists t, sgdr_schedule [mkCos (Fin 0) (Fin 2) 4 12 (Fin 1); mkCos (Fin 0) (Fin 1) 2 6 (Fin (1/4))] = Ok t /\ t 14%Z = Fin 1.
Proof.
  intros P. destruct (warmup_cosine 0 2 1 4 12 ltac:(lia) ltac:(lra)) as (s & f & E & Hs & _ & H1 & H2 & _). exists s. rewrite !Hs, H1, H2 by lia. split; [exact E|]. split; [reflexivity|]. split; [reflexivity|].
  destruct (warmup_cosine 0 1 (1/4) 2 6 ltac:(lia) ltac:(lra)) as (s2 & f2 & E2 & Hs2 & _ & H1' & _).
  destruct (@sgdr_spec (XROps P) [@mkCos (XROps P) (Fin 0) (Fin 2) 4 12 (Fin 1); @mkCos (XROps P) (Fin 0) (Fin 1) 2 6 (Fin (1/4))] [s; s2]) as (t & Et & Ht).
  - discriminate.
  - repeat constructor; cbn; lia.
  - repeat constructor; assumption.
  - exists t. split; [exact Et|]. rewrite (Ht 1%nat s2 14%Z); cbn; try reflexivity; try lia. rewrite Hs2. now rewrite H1'.
Qed.
