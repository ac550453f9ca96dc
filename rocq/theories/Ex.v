(** A concrete, non-trivial parameter tree and history used to show that the hypotheses of the
    theorems are met by reachable cases: a dict with a vector and a 2x2 float32 matrix, three steps. *)
From Verif Require Export P_adaptive.
From Coq Require Import String List.
Open Scope R_scope.

Definition ex_leafs {A} (a b c d e f : A) : tree (gt A) :=
  Node (KDict ["b"%string; "w"%string])
       [Leaf (mkT F32 [2%nat] [a; b]); Leaf (mkT F32 [2%nat; 2%nat] [c; d; e; f])].
Definition ex_p : tree (gt XR) := ex_leafs (Fin 1) (Fin 2) (Fin 3) (Fin 4) (Fin 5) (Fin (-6)).
Definition ex_g (k : R) : tree (gt XR) := ex_leafs (Fin 1) (Fin k) (Fin 0) (Fin (- k)) (Fin 7) (Fin (k * k)).
Definition ex_H : list (tree (gt XR) * option (tree (gt XR))) :=
  [(ex_g 1, Some ex_p); (ex_g 2, Some ex_p); (ex_g 3, Some ex_p)].

Lemma ex_p_wf : trwf ex_p.
Proof. repeat constructor. Qed.
Lemma ex_g_wf k : trwf (ex_g k).
Proof. repeat constructor. Qed.
Lemma ex_H_ok `{P : Platform} np : hist_ok np ex_p ex_H.
Proof. repeat constructor; intros; exists ex_p; repeat constructor. Qed.
(** the gradient history of element 1 of the vector is 1, 2, 3 *)
Lemma ex_H_elt `{P : Platform} i : (i <= 2)%nat -> helt ex_H i (0%nat, 1%nat) = Some (Fin (INR (S i))).
Proof. intros H. destruct i as [|[|[|i]]]; [| | |lia]; unfold helt; cbn; repeat f_equal; lra. Qed.
Lemma ex_H_pelt `{P : Platform} i : (i <= 2)%nat -> hpelt ex_H i (0%nat, 1%nat) = Some (Fin 2).
Proof. intros H. destruct i as [|[|[|i]]]; [| | |lia]; reflexivity. Qed.

(** One float32 array of one element, and histories given by a list of values. *)
Definition one (x : XR) : tree (gt XR) := Leaf (mkT F32 [1%nat] [x]).
Definition ones_hist (l : list XR) : list (tree (gt XR) * option (tree (gt XR))) := map (fun x => (one x, Some (one (Fin 1)))) l.
Lemma one_wf x : trwf (one x). Proof. repeat constructor. Qed.
Lemma ones_ok `{P : Platform} np x l : hist_ok np (one x) (ones_hist l).
Proof.
  apply Forall_forall. intros h Hh. apply in_map_iff in Hh as (y & <- & _). split; [repeat constructor|].
  intros _. eexists. repeat constructor.
Qed.
Lemma ones_elt `{P : Platform} l i : helt (ones_hist l) i (0%nat, 0%nat) = nth_error l i.
Proof. unfold helt, ones_hist. rewrite nth_error_map. destruct (nth_error l i); reflexivity. Qed.
(** Running a refined transformation on such a history. *)
Lemma ones_run `{P : Platform} T M x l : refines true T M -> exists outs,
  trains T (one x) (ones_hist l) outs /\
  forall n gs ps, (n < length l)%nat -> (forall i, (i <= n)%nat -> nth_error l i = Some (gs i)) ->
    oelt outs n (0%nat, 0%nat) = Some (mout M F32 x gs ps n).
Proof.
  intros HR. destruct (refines_trains true T M HR (one x) (ones_hist l) (one_wf x) (ones_ok true x l)) as (outs & Ht & _ & _ & He).
  exists outs. split; [exact Ht|]. intros n gs ps Hn Hg.
  destruct (He n (0%nat, 0%nat) gs ps) as (y & Ey & E).
  - unfold ones_hist. now rewrite map_length.
  - intros i Hi. rewrite ones_elt. auto.
  - discriminate.
  - cbn in Ey. injection Ey as <-. exact E.
Qed.
