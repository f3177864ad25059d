(** C89: vectorizing the empirical NTK over examples does not change it. *)
From Coq Require Import Reals ZArith List Arith Bool Lia Lra.
From Verif Require Import Base Tensor Model_Net Model_Empirical Spec_Empirical Model_Vmap Spec_Vmap Proof_Vmap4 Proof_Vmap5.
Import ListNotations.
Local Open Scope R_scope.

(** Jacobian contraction computes the tangent kernel of every output, for any [vmap_axes] the function vectorizes over. *)
Theorem C89_jacobian_contraction {A} (f : list (tensor R) -> list (tensor A) -> list (tensor R)) params zx zk zf xa ka outs x1 kw1 kw2 x2 rs tr di :
  let xs2 := match x2 with None => x1 ++ kw1 | Some x2 => x2 ++ kw2 end in
  let fx1 := f params (x1 ++ kw1) in let fx2 := f params xs2 in
  function_of_arrays f params -> in_axes zx xa x1 -> in_axes zk ka kw1 -> out_axes zf outs fx1 ->
  vectorizes f params (xa ++ ka) outs (x1 ++ kw1) -> vectorizes f params (xa ++ ka) outs xs2 -> length fx1 = length fx2 ->
  (forall m, (m < length fx1)%nat -> same_sizes (rs m) (shape (nth m fx1 none)) (shape (nth m fx2 none)) /\ denotes tr Traced (rs m) /\ denotes di Diag (rs m)) ->
  params <> [] ->
  are_kernels rs fx1 fx2 (tangent_kernel f params (x1 ++ kw1) xs2) (jacobian_contraction f params tr di zx zk zf x1 x2 kw1 kw2).
Proof. intros ? ? ? Hf. exact (jacobian_contraction_kernels f params Hf zx zk zf xa ka outs x1 kw1 kw2 x2 rs tr di). Qed.
Print Assumptions C89_jacobian_contraction.

(** NTK-vector products compute the same, if keywords are the same for both inputs when [x2] is [None]. *)
Theorem C89_vector_products {A} (f : list (tensor R) -> list (tensor A) -> list (tensor R)) params zx zk zf xa ka outs x1 kw1 kw2 x2 rs tr di :
  let xs2 := match x2 with None => x1 ++ kw1 | Some x2 => x2 ++ kw2 end in
  let fx1 := f params (x1 ++ kw1) in let fx2 := f params xs2 in
  function_of_arrays f params -> in_axes zx xa x1 -> in_axes zk ka kw1 -> out_axes zf outs fx1 ->
  vectorizes f params (xa ++ ka) outs (x1 ++ kw1) -> vectorizes f params (xa ++ ka) outs xs2 -> length fx1 = length fx2 ->
  (forall m, (m < length fx1)%nat -> same_sizes (rs m) (shape (nth m fx1 none)) (shape (nth m fx2 none)) /\ denotes tr Traced (rs m) /\ denotes di Diag (rs m)) ->
  (x2 = None -> outs <> None -> kw2 = kw1) ->
  are_kernels rs fx1 fx2 (tangent_kernel f params (x1 ++ kw1) xs2) (vector_products f params tr di zx zk zf x1 x2 kw1 kw2).
Proof. intros ? ? ? Hf. exact (vector_products_kernels f params Hf zx zk zf xa ka outs x1 kw1 kw2 x2 rs tr di). Qed.
Print Assumptions C89_vector_products.

(** Hence with and without [vmap_axes], both implementations return the same arrays. *)
Theorem C89_unvectorized {A} (f : list (tensor R) -> list (tensor A) -> list (tensor R)) params zx zk zf xa ka outs x1 kw1 kw2 x2 rs tr di :
  let fx1 := f params (x1 ++ kw1) in
  let xs2 := match x2 with None => x1 ++ kw1 | Some x2 => x2 ++ kw2 end in
  let fx2 := f params xs2 in
  function_of_arrays f params -> in_axes zx xa x1 -> in_axes zk ka kw1 -> out_axes zf outs fx1 ->
  vectorizes f params (xa ++ ka) outs (x1 ++ kw1) -> vectorizes f params (xa ++ ka) outs xs2 ->
  length fx1 = length fx2 -> params <> [] -> (x2 = None -> outs <> None -> kw2 = kw1) ->
  (forall m, (m < length fx1)%nat -> same_sizes (rs m) (shape (nth m fx1 none)) (shape (nth m fx2 none)) /\ denotes tr Traced (rs m) /\ denotes di Diag (rs m)) ->
  exists ts us vs ws,
    jacobian_contraction f params tr di zx zk zf x1 x2 kw1 kw2 = Ok ts /\
    jacobian_contraction f params tr di (map (fun _ => None) zx) (map (fun _ => None) zk) None x1 x2 kw1 kw2 = Ok us /\
    vector_products f params tr di zx zk zf x1 x2 kw1 kw2 = Ok vs /\
    vector_products f params tr di (map (fun _ => None) zx) (map (fun _ => None) zk) None x1 x2 kw1 kw2 = Ok ws /\
    Forall2 teq ts us /\ Forall2 teq ts vs /\ Forall2 teq ts ws.
Proof. exact (unvectorized f params zx zk zf xa ka outs x1 kw1 kw2 x2 rs tr di). Qed.
Print Assumptions C89_unvectorized.

(** A keyword given as a pair, with [x2 = None]: vectorized NTK-vector products use its second element for the second inputs … *)
Theorem C89_paired_keywords {A} (f : list (tensor R) -> list (tensor A) -> list (tensor R)) params zx zk zf xa ka outs x1 kw1 kw2 rs tr di :
  let fx1 := f params (x1 ++ kw1) in let fx2 := f params (x1 ++ kw2) in
  function_of_arrays f params -> in_axes zx xa x1 -> in_axes zk ka kw1 -> out_axes zf outs fx1 -> outs <> None ->
  vectorizes f params (xa ++ ka) outs (x1 ++ kw1) -> vectorizes f params (xa ++ ka) outs (x1 ++ kw2) ->
  length fx1 = length fx2 ->
  (forall m, (m < length fx1)%nat -> same_sizes (rs m) (shape (nth m fx1 none)) (shape (nth m fx2 none)) /\ denotes tr Traced (rs m) /\ denotes di Diag (rs m)) ->
  are_kernels rs fx1 fx2 (tangent_kernel f params (x1 ++ kw1) (x1 ++ kw2)) (vector_products f params tr di zx zk zf x1 None kw1 kw2).
Proof. exact (paired_keywords f params zx zk zf xa ka outs x1 kw1 kw2 rs tr di). Qed.
Print Assumptions C89_paired_keywords.

(** … whereas Jacobian contraction uses the first for both: the implementations differ. *)
Theorem C89_paired_keywords_refuted : exists (f : list (tensor R) -> list (tensor R) -> list (tensor R)) params x1 a b t u,
  function_of_arrays f params /\
  vectorizes f params [Some 0%nat; Some 0%nat] (Some [0%nat]) [x1; a] /\ vectorizes f params [Some 0%nat; Some 0%nat] (Some [0%nat]) [x1; b] /\
  jacobian_contraction f params [] [] [Some 0%Z] [Some 0%Z] (Some [0%Z]) [x1] None [a] [b] = Ok [t] /\
  vector_products f params [] [] [Some 0%Z] [Some 0%Z] (Some [0%Z]) [x1] None [a] [b] = Ok [u] /\ shape t = [1; 1]%nat /\ shape u = [1; 1]%nat /\
  entry t [0; 0]%nat = 1 /\ entry u [0; 0]%nat = 2.
Proof. exact paired_differ. Qed.
Print Assumptions C89_paired_keywords_refuted.

(** Three examples against two, negative axes. *)
Example C89_example :
  let x1 := ex_vec [1; 2; 3] in let a := ex_vec [1; 1; 2] in let x2 := ex_vec [5; 7] in let b := ex_vec [1; 3] in
  function_of_arrays ex_f ex_params /\ in_axes [Some (-1)%Z] [Some 0%nat] [x1] /\ in_axes [Some 0%Z] [Some 0%nat] [a] /\
  out_axes (Some [(-1)%Z]) (Some [0%nat]) (ex_f ex_params [x1; a]) /\
  vectorizes ex_f ex_params [Some 0%nat; Some 0%nat] (Some [0%nat]) [x1; a] /\ vectorizes ex_f ex_params [Some 0%nat; Some 0%nat] (Some [0%nat]) [x2; b] /\
  same_sizes [Full] (shape (nth 0 (ex_f ex_params [x1; a]) none)) (shape (nth 0 (ex_f ex_params [x2; b]) none)) /\ denotes [] Traced [Full] /\ denotes [] Diag [Full] /\
  tangent_kernel ex_f ex_params [x1; a] [x2; b] 0 [2%nat] [1%nat] = 126.
Proof.
  cbn zeta. split; [exact ex_arrays|]. split. { split; [|reflexivity]. constructor; [|constructor]. cbn. split; [lia|right; lia]. }
  split. { split; [|reflexivity]. constructor; [|constructor]. cbn. split; [lia|left; lia]. }
  split. { split; [|reflexivity]. constructor; [|constructor]. cbn. split; [lia|right; lia]. }
  split; [now apply (ex_acts _ _ 3)|]. split; [now apply (ex_acts _ _ 2)|]. split; [cbn; auto|].
  split; [exists []; split; [reflexivity|]; split; [constructor|]; cbn; tauto|]. split; [exists []; split; [reflexivity|]; split; [constructor|]; cbn; tauto|].
  rewrite (ex_kernel _ _ _ _ 3 2) by reflexivity. cbn. lra.
Qed.
