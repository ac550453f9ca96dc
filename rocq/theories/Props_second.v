(** Generated by tools/genprops.py from P_second.v: property theorems only. *)
From Verif Require Import P_second.
From Coq Require Import String List.
Import ListNotations.
Open Scope R_scope.

(** hvp, for every loss, every parameter tree (any structure, shapes and dtypes) and every vector w of the promoted dtype and of the right size: given that jax.grad of the loss is differentiated exactly (derivative H), the result has the structure, shapes and dtypes of params and its elements, in ravel order, are H w. *)
Theorem C55_hvp : forall `{P : Platform} (I Tg : Type) (grad : (tree (gt dual) -> dual) -> tree (gt dual) -> result (tree (gt dual))) (loss : tree (gt dual) -> I -> Tg -> dual) (params : tree (gt XR)) (inputs : I) (targets : Tg) (n : nat) (v g w : rvec) (H : rmat) (x : gt XR),
  holds (avals params) params n (fun i => Fin (v i)) -> exact_grad grad (fun p => loss p inputs targets) (avals params) n v g H ->
  is_vec x (flat_dtype params) n w ->
  exists r, hvp grad loss x params inputs targets = Ok r /\ holds (avals params) r n (fun i => Fin (mv n H w i)).
Proof. exact @hvp_correct. Qed.
Print Assumptions C55_hvp.

(** hessian_diag, for every loss and every parameter tree whose promoted dtype is the default float dtype: the result is the vector of the diagonal entries of the Hessian in ravel order. *)
Theorem C55_hessian_diag : forall `{P : Platform} (I Tg : Type) (grad : (tree (gt dual) -> dual) -> tree (gt dual) -> result (tree (gt dual))) (loss : tree (gt dual) -> I -> Tg -> dual) (params : tree (gt XR)) (inputs : I) (targets : Tg) (n : nat) (v g : rvec) (H : rmat),
  holds (avals params) params n (fun i => Fin (v i)) -> exact_grad grad (fun p => loss p inputs targets) (avals params) n v g H ->
  flat_dtype params = @defdt (XROps P) ->
  exists r, hessian_diag grad loss params inputs targets = Ok r /\ is_vec r (@defdt (XROps P)) n (fun i => H i i).
Proof. exact @hessian_diag_correct. Qed.
Print Assumptions C55_hessian_diag.

(** fisher_diag, for every negative log-likelihood and every parameter tree: the result is the vector of the squares of the gradient's entries in ravel order, of the promoted dtype. *)
Theorem C55_fisher_diag : forall `{P : Platform} (I Tg : Type) (grad : (tree (gt dual) -> dual) -> tree (gt dual) -> result (tree (gt dual))) (nll : tree (gt dual) -> I -> Tg -> dual) (params : tree (gt XR)) (inputs : I) (targets : Tg) (n : nat) (v g : rvec) (H : rmat),
  holds (avals params) params n (fun i => Fin (v i)) -> exact_grad grad (fun p => nll p inputs targets) (avals params) n v g H ->
  exists r, fisher_diag grad nll params inputs targets = Ok r /\ is_vec r (flat_dtype params) n (fun i => g i ^ 2).
Proof. exact @fisher_diag_correct. Qed.
Print Assumptions C55_fisher_diag.

(** For every parameter tree with at least one leaf: hvp raises TypeError when the vector does not have the promoted dtype of the parameters, or does not have as many entries as the parameters have elements; hessian_diag raises TypeError for every parameter tree whose promoted dtype is not the default one (finding: e.g. bfloat16 parameters, or float32 ones with x64 enabled). *)
Theorem C55_errors : forall `{P : Platform} (I Tg : Type) (grad : (tree (gt dual) -> dual) -> tree (gt dual) -> result (tree (gt dual))) (loss : tree (gt dual) -> I -> Tg -> dual) (params : tree (gt XR)) (inputs : I) (targets : Tg) (n : nat) (v : nat -> XR) (x : gt XR),
  holds (avals params) params n v -> leaves params <> [] -> twf x -> length (shp x) = 1%nat ->
  (dt x <> flat_dtype params \/ shp x <> [n] -> hvp grad loss x params inputs targets = Err EType) /\
  (flat_dtype params <> @defdt (XROps P) -> hessian_diag grad loss params inputs targets = Err EType).
Proof. exact @second_errors. Qed.
Print Assumptions C55_errors.

Example C55_example : exists h f, @hessian_diag ones_platform (R * R) R (lin_grad (3, 5) 1) lin_loss (ex_params 0 2 1) (3, 5) 1 = Ok h /\ is_vec h F32 3 (fun i => match i with 0%nat => 1 | 1%nat => 9 | _ => 25 end) /\
  @fisher_diag ones_platform (R * R) R (lin_grad (3, 5) 1) lin_loss (ex_params 0 2 1) (3, 5) 1 = Ok f /\ is_vec f F32 3 (fun i => match i with 0%nat => 100 | 1%nat => 900 | _ => 2500 end).
Proof. exact @second_example. Qed.
