(** Inversion and introduction lemmas for maps over trees whose function may raise. *)
From Verif Require Export Tree.

Lemma tmapM_Ok {A B} (f : A -> result B) (t : tree A) (x : tree B) :
  tmapM f t = Ok x <->
  exists z : tree (A * B), tmap fst z = t /\ tmap snd z = x /\ Forall (fun p => f (fst p) = Ok (snd p)) (leaves z).
Proof.
  split.
  - revert x; induction t as [a|k ts IH] using tree_ind'; intros x; cbn.
    + destruct (f a) as [b|e] eqn:E; cbn; [|discriminate]. intros [= <-].
      exists (Leaf (a, b)). cbn. repeat split; auto.
    + destruct (mapM (tmapM f) ts) as [xs|e] eqn:E; cbn; [|discriminate]. intros [= <-].
      apply mapM_Forall2 in E.
      enough (exists zs : list (tree (A * B)), map (tmap fst) zs = ts /\ map (tmap snd) zs = xs /\
                Forall (fun p => f (fst p) = Ok (snd p)) (flat_map leaves zs)) as (zs & E1 & E2 & E3).
      { exists (Node k zs). cbn. now rewrite E1, E2. }
      induction E as [|t x ts xs Ht E IHE]; [exists []; cbn; auto|].
      inversion IH as [|? ? Hx Hr]; subst. destruct (IHE Hr) as (zs & E1 & E2 & E3).
      destruct (Hx _ Ht) as (z & F1 & F2 & F3). exists (z :: zs). cbn. rewrite E1, E2, F1, F2.
      repeat split; auto. apply Forall_app; auto.
  - intros (z & <- & <- & HF). rewrite tmapM_tmap.
    rewrite (tmapM_ext _ (fun p => Ok (snd p))); [apply tmapM_ok|]. now apply Forall_forall.
Qed.

Lemma tree_pair_tdef {A B} (x : tree A) (y : tree B) : tdef x = tdef y ->
  exists z : tree (A * B), tmap fst z = x /\ tmap snd z = y.
Proof. intros E. destruct (tree_pair (fun _ => tt) (fun _ => tt) x y E) as (z & H1 & H2 & _). eauto. Qed.

Lemma tzip_Ok {A B} (t : tree A) (r : tree B) z :
  tzip t r = Ok z -> (forall p, In p (leaves z) -> exists b, snd p = Leaf b) ->
  exists w : tree (A * B), tmap fst w = t /\ tmap snd w = r /\ z = tmap (fun p => (fst p, Leaf (snd p))) w.
Proof.
  revert r z; induction t as [a|k ts IH] using tree_ind'; intros r z; cbn.
  - intros [= <-] Hl. destruct (Hl (a, r)) as (b & Hb); [now left|]. cbn in Hb. subst.
    exists (Leaf (a, b)). auto.
  - destruct r as [|k' rs]; [discriminate|]. destruct (kind_eqb k k') eqn:Ek; [|discriminate].
    apply kind_eqb_eq in Ek. subst k'.
    match goal with |- rmap _ ?X = _ -> _ => destruct X as [zs|e] eqn:E end; cbn; [|discriminate].
    intros [= <-]. cbn. intros Hl.
    enough (exists ws : list (tree (A * B)), map (tmap fst) ws = ts /\ map (tmap snd) ws = rs /\
              zs = map (tmap (fun p => (fst p, Leaf (snd p)))) ws) as (ws & E1 & E2 & E3).
    { exists (Node k ws). cbn. now rewrite E1, E2, E3. }
    revert rs zs E Hl; induction ts as [|t ts IHt]; intros [|r rs] zs E Hl; try discriminate.
    + injection E as <-. exists []. auto.
    + inversion IH as [|? ? Hx Hr]; subst. apply rbind_Ok in E as (a & Ea & E). apply rbind_Ok in E as (q & Eq & E).
      injection E as <-. cbn in Hl.
      destruct (Hx r a Ea) as (w & W1 & W2 & W3). { intros p Hp. apply Hl. apply in_or_app; auto. }
      destruct (IHt Hr rs q Eq) as (ws & F1 & F2 & F3). { intros p Hp. apply Hl. apply in_or_app; auto. }
      exists (w :: ws). cbn. now rewrite W1, W2, F1, F2, W3, F3.
Qed.

Lemma tmm2_Ok {A B C} (f : A -> B -> result C) (t : tree A) (r : tree B) (x : tree C) :
  tmm2 f t r = Ok x <->
  exists z : tree (A * B * C), tmap (fun p => fst (fst p)) z = t /\ tmap (fun p => snd (fst p)) z = r /\ tmap snd z = x /\
    Forall (fun p => f (fst (fst p)) (snd (fst p)) = Ok (snd p)) (leaves z).
Proof.
  split.
  - unfold tmm2. intros H. apply rbind_Ok in H as (y & Ey & H). apply tmapM_Ok in H as (w & W1 & W2 & W3).
    destruct (tzip_Ok t r y Ey) as (v & V1 & V2 & V3).
    { intros p Hp. rewrite <- W1, leaves_tmap in Hp. apply in_map_iff in Hp as (q & <- & Hq).
      rewrite Forall_forall in W3. specialize (W3 q Hq). cbn in W3. destruct (snd (fst q)) as [b|k ts]; [eauto|discriminate]. }
    assert (EE : tmap fst w = tmap (fun p => (fst p, Leaf (snd p))) v) by congruence.
    destruct (tree_pair _ _ w v EE) as (u & U1 & U2 & U3).
    exists (tmap (fun p => (snd p, snd (fst p))) u). rewrite !tmap_tmap. cbn. repeat split.
    + rewrite <- V1, <- U2, tmap_tmap. reflexivity.
    + rewrite <- V2, <- U2, tmap_tmap. reflexivity.
    + rewrite <- W2, <- U1, tmap_tmap. reflexivity.
    + rewrite leaves_tmap, Forall_map. rewrite Forall_forall in *. intros q Hq. cbn.
      specialize (U3 q Hq). specialize (W3 (fst q)). rewrite <- U1, leaves_tmap in W3. specialize (W3 (in_map _ _ _ Hq)).
      rewrite U3 in W3. exact W3.
  - intros (z & <- & <- & <- & HF). rewrite tmm2_same.
    rewrite (tmapM_ext _ (fun p => Ok (snd p))); [apply tmapM_ok|]. now apply Forall_forall.
Qed.

Lemma tmm2_tdef {A B C} (f : A -> B -> result C) t r x : tmm2 f t r = Ok x -> tdef r = tdef t /\ tdef x = tdef t.
Proof. intros H. apply tmm2_Ok in H as (z & <- & <- & <- & _). now rewrite !tdef_tmap. Qed.
Lemma tmapM_tdef {A B} (f : A -> result B) t x : tmapM f t = Ok x -> tdef x = tdef t.
Proof. intros H. apply tmapM_Ok in H as (z & <- & <- & _). now rewrite !tdef_tmap. Qed.

(** Success when the function succeeds on every leaf. *)
Lemma tmapM_total {A B} (f : A -> result B) (t : tree A) :
  Forall (fun a => exists b, f a = Ok b) (leaves t) -> exists x, tmapM f t = Ok x.
Proof.
  intros H. destruct (tree_choice (fun a b => f a = Ok b) t H) as (z & <- & HF).
  exists (tmap snd z). apply tmapM_Ok. exists z. auto.
Qed.
(** An exception on some leaf is an exception of the map. *)
Lemma tmapM_fails {A B} (f : A -> result B) (t : tree A) :
  Exists (fun a => exists e, f a = Err e) (leaves t) -> exists e, tmapM f t = Err e.
Proof.
  intros H. destruct (tmapM f t) as [x|e] eqn:E; [|eauto]. exfalso.
  apply tmapM_Ok in E as (z & <- & _ & HF). rewrite leaves_tmap in H.
  apply Exists_exists in H as (a & Ha & e & He). apply in_map_iff in Ha as (p & <- & Hp).
  rewrite Forall_forall in HF. rewrite (HF p Hp) in He. discriminate.
Qed.

Lemma nth_error_leaves_tmap {A B} (f : A -> B) t i : nth_error (leaves (tmap f t)) i = option_map f (nth_error (leaves t) i).
Proof. now rewrite leaves_tmap, nth_error_map. Qed.

Lemma tdef_tree_ext {A} (t r : tree A) : tdef t = tdef r -> leaves t = leaves r -> t = r.
Proof. apply tree_ext. Qed.
