(** A concrete kernel function used in the examples of Prop_Batching.v: products
    of scalar data. *)
From Coq Require Import List Arith Lia Bool String.
From Verif Require Import Base Tensor Reshape Model_Kernel Model_Batching Spec_Batching.
Import ListNotations.
Local Open Scope nat_scope.
Local Open Scope list_scope.

Definition ex_sig : sig := mkSig [] [] [] [].

Definition ex_at (x : tensor nat) (i : nat) : nat := entry x [i].

Definition ex_array : kernel_fn_t nat (tensor nat) := fun x1 x2 _ =>
  let x2 := match x2 with None => x1 | Some x2 => x2 end in
  Ok (mkT [hd 0 (shape x1); hd 0 (shape x2)]
          (fun i => ex_at x1 (nth 0 i 0) * ex_at x2 (nth 1 i 0))).

Lemma ex_array_pairwise : pairwise_array ex_sig [] ex_array.
Proof.
  split.
  - intros n1 n2 x1 x2 kw (S1 & S2 & _). eexists; split; [reflexivity|]. simpl. now rewrite S1, S2.
  - intros n1 n2 x1 x2 kw n1' n2' x1' x2' kw' t t' i j i' j' r _ _ [= <-] [= <-] _ _ _ _ [H1 _] [H2 _] _.
    simpl. unfold ex_at. rewrite (H1 []), (H2 []) by constructor. reflexivity.
Qed.

(** With all fields; [mask] says whether the inputs are masked (value 0 = masked). *)
Definition ex_mask (mask : bool) (x : tensor nat) : option (tensor bool) :=
  if mask then Some (mkT [hd 0 (shape x)] (fun i => ex_at x (nth 0 i 0) =? 0)) else None.

Definition ex_equal (x1 x2 : tensor nat) : bool :=
  (hd 0 (shape x1) =? hd 0 (shape x2))
  && forallb (fun i => ex_at x1 i =? ex_at x2 i) (seq 0 (hd 0 (shape x1))).

Definition ex_kernel (mask : bool) : kernel_fn_t nat (kernel nat) := fun x1 x2 _ =>
  let x2' := match x2 with None => x1 | Some x2 => x2 end in
  let outer := mkT [hd 0 (shape x1); hd 0 (shape x2')]
                   (fun i => ex_at x1 (nth 0 i 0) * ex_at x2' (nth 1 i 0)) in
  let sq x := mkT [hd 0 (shape x)] (fun i => ex_at x (nth 0 i 0) * ex_at x (nth 0 i 0)) in
  Ok (mkK outer (Some outer) (sq x1) (option_map sq x2) (scalar (ex_equal x1 x2'))
          true false true true false [hd 0 (shape x1); 1] [hd 0 (shape x2'); 1] 0 1
          (ex_mask mask x1) (match x2 with None => None | Some x2 => ex_mask mask x2 end)).

Definition ex_ksig (mask : bool) : ksig :=
  mkKsig [] (Some []) [] [] (if mask then Some [] else None) (if mask then Some [] else None)
         true false true false [0; 1] 0 1.

Lemma ex_kernel_pairwise mask : pairwise_kernel ex_sig (ex_ksig mask) (ex_kernel mask).
Proof.
  split; [simpl; lia|]. split.
  - intros n1 n2 x1 x2 kw (S1 & S2 & _). eexists; split; [reflexivity|].
    unfold kernel_of; simpl. unfold set_at; simpl. rewrite S1, S2; simpl.
    destruct mask; simpl; rewrite ?S1, ?S2; repeat split; auto.
  - intros n1 n2 x1 x2 kw n1' n2' x1' x2' kw' t t' i j i' j' _ _ [= <-] [= <-] _ _ _ _; simpl.
    assert (forall (y y' : tensor nat) a a', same_sample [] y a y' a' -> ex_at y a = ex_at y' a') as X
      by (intros y y' a a' H; apply (H []); constructor).
    split; [|split].
    + intros [H _]; apply X in H. split; intros r _; [now rewrite H|]. unfold ex_mask; destruct mask; simpl; auto. now rewrite H.
    + intros [H _]; apply X in H. split; intros r _; [now rewrite H|]. unfold ex_mask; destruct mask; simpl; auto. now rewrite H.
    + intros [H _] [H' _]; apply X in H, H'. split; intros r _; now rewrite H, H'.
Qed.

Definition vec (l : list nat) : tensor nat := mkT [List.length l] (fun i => nth (hd 0 i) l 0).

Lemma vec_call l l' : call ex_sig (List.length l) (List.length l') (vec l) (vec l') [].
Proof. repeat split; constructor. Qed.

Lemma ex_flag_right mask n1 n2 x1 x2 kw k :
  call ex_sig n1 n2 x1 x2 kw -> ex_kernel mask x1 (Some x2) kw = Ok k ->
  (entry (k_x1_is_x2 k) [] = true <-> n1 = n2 /\ forall i, i < n1 -> same_sample [] x1 i x2 i).
Proof.
  intros (S1 & S2 & _) [= <-]; simpl. unfold ex_equal. rewrite S1, S2; simpl.
  rewrite andb_true_iff, Nat.eqb_eq, forallb_forall. split; intros [H H']; split; auto.
  - intros i Hi r Hr. inversion Hr; subst. apply Nat.eqb_eq, H', in_seq; lia.
  - intros i Hi; apply in_seq in Hi. apply Nat.eqb_eq. apply (H' i); [lia|constructor].
Qed.

(** A layer: scale the covariances by 3 (a [Dense] without bias). *)
Definition ex_scale {S} (f : S -> S) (t : tensor S) : tensor S := mkT (shape t) (fun i => f (entry t i)).
Definition ex_layer (k : kernel nat) : result (kernel nat) :=
  let f := ex_scale (fun x => 3 * x) in
  Ok (replace_covs k (f (k_cov1 k)) (f (k_nngp k)) (option_map f (k_cov2 k)) (option_map f (k_ntk k))).

Lemma ex_layer_pairwise : pairwise_layer (ex_ksig false) (ex_ksig false) ex_layer.
Proof.
  split; [simpl; lia|]. split.
  - intros n1 n2 k H. eexists; split; [reflexivity|]. unfold kernel_of in *; simpl in *.
    decompose [and] H; repeat split; auto.
    + destruct (k_ntk k); simpl in *; auto.
    + destruct (k_cov2 k); simpl in *; auto.
  - intros n1 n2 k m1 m2 q k' q' i j i' j' _ _ [= <-] [= <-] _ _ _ _ Hf.
    unfold same_row, same_col, same_cell; simpl. repeat split; auto.
    + intros r Hr. rewrite (proj1 H r Hr); auto.
    + intros r Hr. apply (proj2 H r I).
    + intros r Hr. pose proof (proj1 H r Hr) as E. destruct (k_cov2 k), (k_cov2 q); simpl in *; congruence.
    + intros r Hr. apply (proj2 H r I).
    + intros r Hr. rewrite (proj1 H1 r Hr); auto.
    + intros r Hr. pose proof (proj2 H1 r Hr) as E. destruct (k_ntk k), (k_ntk q); simpl in *; congruence.
Qed.
