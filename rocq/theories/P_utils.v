(** utils.py: set_diags and tile_second_to_last_dim (C56). *)
From Verif Require Export M_utils Rows XR.
From Coq Require Import List Psatz Lia Qreals.
Import ListNotations.
Open Scope nat_scope.
(*@header
From Coq Require Import List.
Import ListNotations.
Open Scope nat_scope.
*)

Lemma ravel_inj s i j : valid s i -> valid s j -> ravel s i = ravel s j -> i = j.
Proof. intros Vi Vj E. pose proof (nth_error_indices s i Vi) as H1. pose proof (nth_error_indices s j Vj) as H2. rewrite E, H2 in H1. now injection H1. Qed.
Lemma set_nth_length {A} k (x : A) l : length (set_nth k x l) = length l.
Proof. revert k; induction l as [|y l IH]; intros [|k]; cbn; auto. Qed.
Lemma set_nth_same {A} k (x : A) l : k < length l -> nth_error (set_nth k x l) k = Some x.
Proof. revert k; induction l as [|y l IH]; intros [|k] H; cbn in *; try lia; [reflexivity|]. apply IH. lia. Qed.
Lemma set_nth_other {A} k p (x : A) l : k <> p -> nth_error (set_nth k x l) p = nth_error l p.
Proof. revert k p; induction l as [|y l IH]; intros [|k] [|p] H; cbn in *; try easy. apply IH. lia. Qed.
Lemma scatter_length {A} s idx (v : list A) l : length (scatter s idx v l) = length l.
Proof. revert v l; induction idx as [|i idx IH]; intros [|x v] l; cbn; auto. now rewrite IH, set_nth_length. Qed.
Lemma scatter_miss {A} s idx (v : list A) l p : (forall i, In i idx -> ravel s i <> p) -> nth_error (scatter s idx v l) p = nth_error l p.
Proof.
  revert v l; induction idx as [|i idx IH]; intros [|x v] l H; cbn; auto. rewrite IH by (intros; apply H; now right).
  apply set_nth_other. apply H. now left.
Qed.
Lemma scatter_hit {A} s idx (v : list A) l q i x : NoDup (map (ravel s) idx) -> nth_error idx q = Some i -> nth_error v q = Some x -> ravel s i < length l ->
  nth_error (scatter s idx v l) (ravel s i) = Some x.
Proof.
  revert v l q; induction idx as [|j idx IH]; intros [|y v] l [|q] Hn Hi Hx Hl; cbn in *; try easy.
  - injection Hi as ->. injection Hx as ->. inversion Hn as [|? ? Hnot _]; subst. rewrite scatter_miss; [now apply set_nth_same|].
    intros k Hk E. apply Hnot. rewrite <- E. now apply in_map.
  - inversion Hn; subst. apply IH with (q := q); auto. now rewrite set_nth_length.
Qed.

Lemma combine_same {A} (l : list A) : combine l l = map (fun x => (x, x)) l.
Proof. induction l; cbn; congruence. Qed.
Definition diag_idx (n d : nat) : list (list nat) := flat_map (fun k => map (fun i => [k; i; i]) (seq 0 d)) (seq 0 n).
Lemma idx_diag n d : map2 (fun i jk => [i; fst jk; snd jk]) (np_repeat n d) (combine (np_tile d n) (np_tile d n)) = diag_idx n d.
Proof.
  rewrite combine_same. unfold np_repeat, np_tile, diag_idx.
  assert (G : forall s, map2 (fun i jk => [i; fst jk; snd jk]) (flat_map (fun i => repeat i d) (seq s n)) (map (fun x => (x, x)) (concat (repeat (seq 0 d) n))) = flat_map (fun k => map (fun i => [k; i; i]) (seq 0 d)) (seq s n)); [|apply G].
  induction n as [|n IH]; intros s; [reflexivity|]. cbn [seq flat_map repeat concat].
  rewrite map_app, map2_app by (now rewrite repeat_length, map_length, seq_length). rewrite (IH (S s)). f_equal. clear. generalize 0 as z. induction d as [|d IH]; intros z; [reflexivity|]. cbn. now rewrite IH.
Qed.
Lemma diag_idx_length n d : length (diag_idx n d) = n * d.
Proof. unfold diag_idx. generalize 0 at 2 as s. induction n as [|n IH]; intros s; [reflexivity|]. cbn. now rewrite app_length, map_length, seq_length, IH. Qed.
Lemma diag_idx_nth n d k i : k < n -> i < d -> nth_error (diag_idx n d) (k * d + i) = Some [k; i; i].
Proof.
  intros Hk Hi. unfold diag_idx. rewrite (nth_error_flat_map_const _ d _ k i k).
  - rewrite nth_error_map, (nth_error_nth' _ 0) by (rewrite seq_length; lia). now rewrite seq_nth.
  - intros. now rewrite map_length, seq_length.
  - rewrite (nth_error_nth' _ 0) by (rewrite seq_length; lia). now rewrite seq_nth.
  - exact Hi.
Qed.
Lemma diag_idx_in n d x : In x (diag_idx n d) <-> exists k i, x = [k; i; i] /\ k < n /\ i < d.
Proof.
  unfold diag_idx. rewrite in_flat_map. split.
  - intros (k & Hk & H). apply in_map_iff in H as (i & <- & Hi). apply in_seq in Hk, Hi. exists k, i. repeat split; lia.
  - intros (k & i & -> & Hk & Hi). exists k. split; [apply in_seq; lia|]. apply in_map_iff. exists i. split; [reflexivity|apply in_seq; lia].
Qed.
Lemma diag_valid n d k i : k < n -> i < d -> valid [n; d; d] [k; i; i].
Proof. cbn. auto. Qed.
Lemma diag_idx_nodup n d : NoDup (map (ravel [n; d; d]) (diag_idx n d)).
Proof.
  rewrite NoDup_nth_error. rewrite map_length, diag_idx_length. intros p q Hp E.
  assert (D : forall p, p < n * d -> exists k i, p = k * d + i /\ k < n /\ i < d).
  { clear. intros p Hp. assert (d <> 0) by nia. exists (p / d), (p mod d). pose proof (Nat.div_mod p d H). pose proof (Nat.mod_upper_bound p d H). split; [lia|]. split; [apply Nat.div_lt_upper_bound; lia|assumption]. }
  assert (Hq : q < n * d). { rewrite <- diag_idx_length, <- (map_length (ravel [n; d; d])). apply nth_error_Some. rewrite <- E. apply nth_error_Some. now rewrite map_length, diag_idx_length. }
  destruct (D p Hp) as (k & i & -> & Hk & Hi), (D q Hq) as (k' & i' & -> & Hk' & Hi'). rewrite !nth_error_map, !diag_idx_nth in E by assumption. cbn [option_map] in E. injection E as E. change (ravel [n; d; d] [k; i; i] = ravel [n; d; d] [k'; i'; i']) in E.
  apply (ravel_inj [n; d; d]) in E; [now injection E as -> ->| |]; now apply diag_valid.
Qed.

(*@ C56_set_diags : in any arithmetic, for every N, D, every N x D x D array a and every array of N*D values, set_diags returns an array of the dtype and shape of a whose entry [k,i,i] is the (k*D+i)-th value (cast to a's dtype) and whose other entries are those of a. *)
Lemma set_diags_correct : forall `{O : Ops} (a v : tensor) (n d : nat), twf a -> twf v -> shp a = [n; d; d] -> length (dat v) = n * d ->
  exists r, set_diags a v = Ok r /\ dt r = dt a /\ shp r = shp a /\ twf r /\
  forall k i j, k < n -> i < d -> j < d ->
    tget r [k; i; j] = if i =? j then conv (dt v) (dt a) (nth (k * d + i) (dat v) fzero) else tget a [k; i; j].
Proof.
  intros O a v n d Wa Wv Sa Lv. unfold set_diags. rewrite Sa, Nat.eqb_refl, idx_diag, diag_idx_length. cbn [astype dat]. rewrite map_length, Lv, Nat.eqb_refl. cbn [rbind].
  assert (La : length (dat a) = n * (d * d)) by (unfold twf in Wa; rewrite Wa, Sa; cbn; lia).
  eexists. split; [reflexivity|]. cbn [dt shp]. repeat split.
  - unfold twf. cbn [dat shp]. rewrite scatter_length. rewrite La. cbn. lia.
  - intros k i j Hk Hi Hj. assert (V : valid [n; d; d] [k; i; j]) by (cbn; auto). pose proof (ravel_lt _ _ V) as Hlt. assert (Ep : prodn [n; d; d] = n * (d * d)) by (cbn; lia). rewrite Ep in Hlt.
    destruct (Nat.eqb_spec i j) as [<-|Hne].
    + unfold tget. cbn [shp dat]. apply nth_error_nth. apply scatter_hit with (q := k * d + i); [apply diag_idx_nodup|now apply diag_idx_nth| |lia].
      rewrite nth_error_map, (nth_error_nth' (dat v) fzero) by nia. reflexivity.
    + unfold tget. cbn [shp dat]. rewrite Sa. apply nth_error_nth. rewrite scatter_miss; [apply nth_error_nth'; lia|].
      intros x Hx E. apply diag_idx_in in Hx as (k' & i' & -> & Hk' & Hi'). apply (ravel_inj [n; d; d]) in E; [injection E as -> -> ->; easy| |exact V]. now apply diag_valid.
Qed.
(*@ C56_set_diags_matrix : with an N x D matrix of new diagonals of the same dtype, set_diags(a, m)[k,i,j] is m[k,i] when i = j and a[k,i,j] otherwise. *)
Lemma set_diags_matrix : forall `{O : Ops} (a m : tensor) (n d : nat), twf a -> twf m -> shp a = [n; d; d] -> shp m = [n; d] -> dt m = dt a ->
  exists r, set_diags a m = Ok r /\ dt r = dt a /\ shp r = [n; d; d] /\ twf r /\
  forall k i j, k < n -> i < d -> j < d -> tget r [k; i; j] = if i =? j then tget m [k; i] else tget a [k; i; j].
Proof.
  intros O a m n d Wa Wm Sa Sm Em. assert (Lm : length (dat m) = n * d) by (unfold twf in Wm; rewrite Wm, Sm; cbn; lia).
  destruct (set_diags_correct a m n d Wa Wm Sa Lm) as (r & Er & Dr & Sr & Wr & H). exists r. rewrite <- Sa. repeat split; auto. intros k i j Hk Hi Hj. rewrite H by assumption. destruct (i =? j); [|reflexivity].
  rewrite Em, conv_same. unfold tget. rewrite Sm. f_equal. cbn. lia.
Qed.
(*@ C56_set_diags_errors : an array that is not of rank 3 raises ValueError, one whose matrices are not square fails an assertion, and a number of new values different from N*D and from 1 raises ValueError; a single value is broadcast to every diagonal entry. *)
Lemma set_diags_errors : forall `{O : Ops} (a v : tensor),
  (length (shp a) <> 3 -> set_diags a v = Err EValue) /\
  (forall n d d1, shp a = [n; d; d1] -> d <> d1 -> set_diags a v = Err EAssert) /\
  (forall n d, shp a = [n; d; d] -> length (dat v) <> n * d -> length (dat v) <> 1 -> set_diags a v = Err EValue) /\
  (forall n d x, shp a = [n; d; d] -> dat v = [x] -> twf a -> exists r, set_diags a v = Ok r /\
    forall k i j, k < n -> i < d -> j < d -> tget r [k; i; j] = if i =? j then conv (dt v) (dt a) x else tget a [k; i; j]).
Proof.
  intros O a v. repeat split.
  - intros H. unfold set_diags. destruct (shp a) as [|n [|d [|d1 [|? ?]]]]; cbn in H; try reflexivity. lia.
  - intros n d d1 E H. unfold set_diags. rewrite E. destruct (Nat.eqb_spec d d1); [easy|reflexivity].
  - intros n d E H1 H2. unfold set_diags. rewrite E, Nat.eqb_refl, idx_diag, diag_idx_length. cbn [astype dat]. rewrite map_length. destruct (Nat.eqb_spec (length (dat v)) (n * d)); [easy|].
    destruct (dat v) as [|x [|y l]]; cbn in H2 |- *; try reflexivity. lia.
  - intros n d x E Ev Wa.
    set (v' := mkT (dt v) [n * d] (repeat x (n * d))).
    destruct (set_diags_correct a v' n d Wa) as (r & Er & _ & _ & _ & H); [unfold twf, v'; cbn; rewrite repeat_length; cbn; lia|exact E|cbn; apply repeat_length|].
    exists r. split.
    + rewrite <- Er. unfold set_diags. rewrite E, Nat.eqb_refl, idx_diag, diag_idx_length. unfold v'. cbn [astype dat dt]. rewrite !map_length, repeat_length, Nat.eqb_refl, Ev. cbn [length map rbind].
      assert (Hm : map (conv (dt v) (dt a)) (repeat x (n * d)) = repeat (conv (dt v) (dt a) x) (n * d)) by (clear; generalize (n * d) as q; induction q as [|q IH]; [reflexivity|]; cbn [repeat map]; now rewrite IH). rewrite Hm.
      destruct (Nat.eqb_spec 1 (n * d)) as [E1|E1]; cbn [rbind]; [rewrite <- E1|]; reflexivity.
    + intros k i j Hk Hi Hj. rewrite H by assumption. destruct (i =? j); [|reflexivity]. f_equal. unfold v'. cbn [dat]. apply nth_error_nth. rewrite nth_error_nth' with (d := x) by (rewrite repeat_length; nia). f_equal. apply nth_repeat.
Qed.

Lemma last_snoc' {A} (l : list A) x d : last (l ++ [x]) d = x.
Proof. apply last_last. Qed.
Lemma ravel_snoc1 B i : length i = length B -> forall n j, ravel (B ++ [n]) (i ++ [j]) = ravel B i * n + j.
Proof.
  revert i; induction B as [|b B IH]; intros [|x i] E n j; cbn [app ravel length] in *; try discriminate.
  - cbn. lia.
  - injection E as E. rewrite (IH i E). assert (Hp : prodn (B ++ [n]) = prodn B * n). { clear. unfold prodn. induction B as [|b B IH]; cbn in *; [lia|]. rewrite IH. lia. } rewrite Hp. lia.
Qed.
Lemma prodn_snoc B n : prodn (B ++ [n]) = prodn B * n.
Proof. unfold prodn. induction B as [|b B IH]; cbn in *; [lia|]. rewrite IH. lia. Qed.
Lemma valid_snoc2 B n m o : valid (B ++ [n; m]) o <-> exists b i j, o = b ++ [i; j] /\ valid B b /\ i < n /\ j < m.
Proof.
  replace (B ++ [n; m]) with ((B ++ [n]) ++ [m]) by (rewrite <- app_assoc; reflexivity). rewrite valid_snoc. split.
  - intros (b & j & -> & Hb & Hj). apply valid_snoc in Hb as (b' & i & -> & Hb' & Hi). exists b', i, j. rewrite <- app_assoc. auto.
  - intros (b & i & j & -> & Hb & Hi & Hj). exists (b ++ [i]), j. rewrite <- app_assoc. repeat split; auto. apply valid_snoc. eauto.
Qed.

(** What the library writes ones * a, in any arithmetic. *)
Lemma tile_value `{O : Ops} (a : tensor) B n : twf a -> shp a = B ++ [n] ->
  exists r, tile_second_to_last_dim a = Ok r /\ dt r = dt a /\ shp r = B ++ [n; n] /\ twf r /\
  forall b i j, valid B b -> i < n -> j < n -> tget r (b ++ [i; j]) = fmul (dt a) (fcast (dt a) fone) (tget a (b ++ [i])).
Proof.
  intros Wa Sa. unfold tile_second_to_last_dim. unfold expand_2nd_last. cbn [ones_like full_like full shp dt dat]. rewrite Sa.
  destruct (B ++ [n]) as [|z zs] eqn:Ez; [destruct B; discriminate|]. rewrite <- Ez in *. clear z zs Ez. rewrite removelast_snoc, last_snoc'. cbn [rbind].
  set (o := mkT (dt a) (B ++ [1; n]) (repeat (fcast (dt a) fone) (prodn (B ++ [n])))).
  set (a' := expand_last a).
  assert (Sa' : shp a' = B ++ [n; 1]) by (unfold a', expand_last; cbn [shp]; rewrite Sa, <- app_assoc; reflexivity).
  assert (E1 : B ++ [1; n] = (B ++ [1]) ++ [n]) by (rewrite <- app_assoc; reflexivity).
  assert (E2 : B ++ [n; 1] = (B ++ [n]) ++ [1]) by (rewrite <- app_assoc; reflexivity).
  assert (Wo : twf o) by (unfold twf, o; cbn [dat shp]; rewrite repeat_length, E1, !prodn_snoc; lia).
  assert (Wa' : twf a') by (unfold twf in *; rewrite Sa'; unfold a', expand_last; cbn [dat]; rewrite Wa, Sa, E2, !prodn_snoc; lia).
  assert (Es : bshape (shp o) (shp a') = Some (B ++ [n; n])).
  { unfold o. cbn [shp]. rewrite Sa', E1, E2. replace (B ++ [n; n]) with ((B ++ [n]) ++ [n]) by (rewrite <- app_assoc; reflexivity).
    apply bshape_snoc; [apply bshape_snoc; [apply bshape_same|]|]; unfold bdim.
    - destruct (Nat.eqb_spec 1 n); [now subst|reflexivity].
    - destruct (Nat.eqb_spec n 1) as [->|]; reflexivity. }
  destruct (bin_elem fmul o a' (B ++ [n; n]) Wo Wa' Es) as (r & Er & Dr & Sr & Wr & H). exists r. split; [exact Er|].
  assert (Ed : promote (dt o) (dt a') = dt a) by apply promote_same.
  rewrite Ed in *. repeat split; auto. intros b i j Vb Hi Hj. pose proof (valid_length _ _ Vb) as Lb.
  rewrite H by (apply valid_snoc2; exists b, i, j; auto). change (dt o) with (dt a). change (dt a') with (dt a). rewrite !conv_same. f_equal.
  - unfold bget, tget, o. cbn [shp dat]. rewrite E1. replace (b ++ [i; j]) with ((b ++ [i]) ++ [j]) by (rewrite <- app_assoc; reflexivity).
    rewrite !bidx_snoc by (rewrite ?app_length; cbn; lia). rewrite bidx_same by exact Vb. apply nth_error_nth.
    assert (L : ravel ((B ++ [1]) ++ [n]) ((b ++ [if 1 =? 1 then 0 else i]) ++ [if n =? 1 then 0 else j]) < prodn (B ++ [n])).
    { replace (prodn (B ++ [n])) with (prodn ((B ++ [1]) ++ [n])) by (rewrite !prodn_snoc; lia). apply ravel_lt. apply valid_snoc. eexists _, _. split; [reflexivity|]. split; [apply valid_snoc; eexists _, _; split; [reflexivity|]; split; [exact Vb|cbn; lia]|]. destruct (Nat.eqb_spec n 1); lia. }
    rewrite nth_error_nth' with (d := fcast (dt a) fone) by (rewrite repeat_length; exact L). f_equal. apply nth_repeat.
  - unfold bget. rewrite Sa', E2. replace (b ++ [i; j]) with ((b ++ [i]) ++ [j]) by (rewrite <- app_assoc; reflexivity).
    rewrite !bidx_snoc by (rewrite ?app_length; cbn; lia). rewrite bidx_same by exact Vb. cbn [Nat.eqb].
    unfold tget. rewrite Sa', E2, Sa, ravel_snoc1 by (rewrite !app_length; cbn; lia). unfold a', expand_last. cbn [dat]. f_equal.
    destruct (Nat.eqb_spec n 1) as [->|]; [replace i with 0 by lia; lia|lia].
Qed.
Lemma xmul_1 x : xmul (Fin 1) x = x.
Proof.
  destruct x as [r| | |]; cbn; try reflexivity; [f_equal; apply Rmult_1_l| |]; unfold rsgn; destruct (Rlt_dec 0 1); try lra; reflexivity.
Qed.
(*@ C56_tile : tile_second_to_last_dim duplicates the last axis: for every array a of shape B ++ [n] (any rank >= 1, any entries, finite or not) the result has shape B ++ [n; n] and entry [..., i, j] equal to a[..., i]. *)
Lemma tile_correct : forall `{P : Platform} (a : tensor) (B : list nat) (n : nat), twf a -> shp a = B ++ [n] ->
  exists r, tile_second_to_last_dim a = Ok r /\ dt r = dt a /\ shp r = B ++ [n; n] /\ twf r /\
  forall b i j, valid B b -> i < n -> j < n -> tget r (b ++ [i; j]) = tget a (b ++ [i]).
Proof.
  intros P a B n W S. destruct (tile_value a B n W S) as (r & Er & Dr & Sr & Wr & H). exists r. repeat split; auto. intros b i j Hb Hi Hj. rewrite H by assumption.
  cbn. unfold fone, flit; cbn. replace (Q2R 1) with 1%R by (unfold Q2R; cbn; lra). apply xmul_1.
Qed.
(*@ C56_tile_scalar : an array of rank 0 raises ValueError. *)
Lemma tile_scalar : forall `{O : Ops} (a : tensor), shp a = [] -> tile_second_to_last_dim a = Err EValue.
Proof. intros O a E. unfold tile_second_to_last_dim, expand_2nd_last. cbn [ones_like full_like full shp]. now rewrite E. Qed.
(** Example: 2 x 2 x 2 zeros with new diagonals. *)
(*@ex C56_example *)
Lemma utils_example : forall `{P : Platform},
  let a : tensor := full F32 [2; 2; 2] (Fin 0) in let m : tensor := mkT F32 [2; 2] [Fin 1; Fin 2; Fin 3; NaN] in
  twf a /\ twf m /\ set_diags a m = Ok (mkT F32 [2; 2; 2] [Fin 1; Fin 0; Fin 0; Fin 2; Fin 3; Fin 0; Fin 0; NaN]) /\
  exists r, tile_second_to_last_dim m = Ok r /\ shp r = [2; 2; 2] /\ tget r [1; 0; 1] = Fin 3 /\ tget r [1; 1; 0] = NaN.
Proof.
  intros P a m. split; [reflexivity|]. split; [reflexivity|]. split; [reflexivity|].
  destruct (@tile_correct P m [2] 2) as (r & Er & _ & Sr & _ & H); [reflexivity|reflexivity|]. exists r. split; [exact Er|]. split; [exact Sr|]. split.
  - etransitivity; [exact (H [1] 0 1 ltac:(cbn; lia) ltac:(lia) ltac:(lia))|reflexivity].
  - etransitivity; [exact (H [1] 1 0 ltac:(cbn; lia) ltac:(lia) ltac:(lia))|reflexivity].
Qed.
