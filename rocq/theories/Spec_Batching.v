(** Specification vocabulary for batching: what it means for a kernel function to
    compute each entry from one sample of each input. *)
From Coq Require Import List Arith Lia Bool String.
From Verif Require Import Base Tensor Model_Kernel Model_Batching.
Import ListNotations.
Local Open Scope nat_scope.
Local Open Scope list_scope.

(** Sample [i] of [x] is sample [i'] of [x'] ([s]: the shape of a sample). *)
Definition same_sample {A} (s : list nat) (x : tensor A) (i : nat) (x' : tensor A) (i' : nat) : Prop :=
  forall r, in_range s r -> entry x (i :: r) = entry x' (i' :: r).

(** [vs] are arrays of [n] samples each, of sample shapes [ss]. *)
Definition samples {A} (n : nat) (ss : list (list nat)) (vs : list (tensor A)) : Prop :=
  Forall2 (fun s v => shape v = n :: s) ss vs.

Definition same_samples {A} (ss : list (list nat)) (vs : list (tensor A)) (i : nat)
           (vs' : list (tensor A)) (i' : nat) : Prop :=
  Forall2 (fun s vv => same_sample s (fst vv) i (snd vv) i') ss (combine vs vs').

(** An input signature: sample shape of the data, names of the pair-valued
    keyword arguments and the sample shapes of their two members. *)
Record sig := mkSig { g_s : list nat; g_names : list string; g_ss1 : list (list nat); g_ss2 : list (list nat) }.

Definition kw1 {A} (kw : kwargs A) : list (tensor A) := map (fun kv => fst (snd kv)) kw.
Definition kw2 {A} (kw : kwargs A) : list (tensor A) := map (fun kv => snd (snd kv)) kw.

(** A well-formed call with [n1] and [n2] samples. *)
Definition call {A} (g : sig) (n1 n2 : nat) (x1 x2 : tensor A) (kw : kwargs A) : Prop :=
  shape x1 = n1 :: g_s g /\ shape x2 = n2 :: g_s g /\ map fst kw = g_names g
  /\ samples n1 (g_ss1 g) (kw1 kw) /\ samples n2 (g_ss2 g) (kw2 kw).

Definition same1 {A} (g : sig) (x1 : tensor A) (kw : kwargs A) (i : nat)
           (x1' : tensor A) (kw' : kwargs A) (i' : nat) : Prop :=
  same_sample (g_s g) x1 i x1' i' /\ same_samples (g_ss1 g) (kw1 kw) i (kw1 kw') i'.
Definition same2 {A} (g : sig) (x2 : tensor A) (kw : kwargs A) (j : nat)
           (x2' : tensor A) (kw' : kwargs A) (j' : nat) : Prop :=
  same_sample (g_s g) x2 j x2' j' /\ same_samples (g_ss2 g) (kw2 kw) j (kw2 kw') j'.

(** Entry [(i, j)] of the result depends only on sample [i] of the first and
    sample [j] of the second input (and of the pair arguments); entries have
    shape [o]. *)
Definition pairwise_array {A R} (g : sig) (o : list nat) (F : kernel_fn_t A (tensor R)) : Prop :=
  (forall n1 n2 x1 x2 kw, call g n1 n2 x1 x2 kw ->
     exists t, F x1 (Some x2) kw = Ok t /\ shape t = n1 :: n2 :: o)
  /\ (forall n1 n2 x1 x2 kw n1' n2' x1' x2' kw' t t' i j i' j' r,
     call g n1 n2 x1 x2 kw -> call g n1' n2' x1' x2' kw' ->
     F x1 (Some x2) kw = Ok t -> F x1' (Some x2') kw' = Ok t' ->
     i < n1 -> j < n2 -> i' < n1' -> j' < n2' ->
     same1 g x1 kw i x1' kw' i' -> same2 g x2 kw j x2' kw' j' -> in_range o r ->
     entry t (i :: j :: r) = entry t' (i' :: j' :: r)).

(** Shapes of the array fields of a [Kernel] for one pair of samples, and its
    static fields; [d_shape] has an arbitrary number in the batch position. *)
Record ksig := mkKsig {
  d_nngp : list nat; d_ntk : option (list nat); d_cov1 : list nat; d_cov2 : list nat;
  d_mask1 : option (list nat); d_mask2 : option (list nat);
  d_gaussian : bool; d_reversed : bool; d_input : bool; d_spatial : bool;
  d_shape : list nat; d_batch_axis : nat; d_channel_axis : nat }.

Definition set_at (a n : nat) (sh : list nat) : list nat := firstn a sh ++ [n] ++ skipn (a + 1) sh.

(** [k] is a kernel between [n1] and [n2] samples of kind [d]. *)
Definition kernel_of {R} (d : ksig) (n1 n2 : nat) (k : kernel R) : Prop :=
  shape (k_nngp k) = n1 :: n2 :: d_nngp d
  /\ option_map shape (k_ntk k) = option_map (fun s => n1 :: n2 :: s) (d_ntk d)
  /\ shape (k_cov1 k) = n1 :: d_cov1 d
  /\ option_map shape (k_cov2 k) = Some (n2 :: d_cov2 d)
  /\ shape (k_x1_is_x2 k) = []
  /\ option_map shape (k_mask1 k) = option_map (cons n1) (d_mask1 d)
  /\ option_map shape (k_mask2 k) = option_map (cons n2) (d_mask2 d)
  /\ k_is_gaussian k = d_gaussian d /\ k_is_reversed k = d_reversed d
  /\ k_is_input k = d_input d /\ k_diagonal_batch k = true
  /\ k_diagonal_spatial k = d_spatial d
  /\ k_shape1 k = set_at (d_batch_axis d) n1 (d_shape d)
  /\ k_shape2 k = set_at (d_batch_axis d) n2 (d_shape d)
  /\ k_batch_axis k = d_batch_axis d /\ k_channel_axis k = d_channel_axis d.

(** Same entry in two optional arrays. *)
Definition oentry {R} (o : option (tensor R)) (i : list nat) : option R :=
  option_map (fun t => entry t i) o.

Definition oin_range (s : option (list nat)) (r : list nat) : Prop :=
  match s with None => True | Some s => in_range s r end.

Definition pairwise_kernel {A R} (g : sig) (d : ksig) (F : kernel_fn_t A (kernel R)) : Prop :=
  d_batch_axis d < List.length (d_shape d)
  /\ (forall n1 n2 x1 x2 kw, call g n1 n2 x1 x2 kw ->
     exists k, F x1 (Some x2) kw = Ok k /\ kernel_of d n1 n2 k)
  /\ (forall n1 n2 x1 x2 kw n1' n2' x1' x2' kw' k k' i j i' j',
     call g n1 n2 x1 x2 kw -> call g n1' n2' x1' x2' kw' ->
     F x1 (Some x2) kw = Ok k -> F x1' (Some x2') kw' = Ok k' ->
     i < n1 -> j < n2 -> i' < n1' -> j' < n2' ->
     (same1 g x1 kw i x1' kw' i' ->
        (forall r, in_range (d_cov1 d) r -> entry (k_cov1 k) (i :: r) = entry (k_cov1 k') (i' :: r))
        /\ (forall r, oin_range (d_mask1 d) r -> oentry (k_mask1 k) (i :: r) = oentry (k_mask1 k') (i' :: r)))
     /\ (same2 g x2 kw j x2' kw' j' ->
        (forall r, in_range (d_cov2 d) r -> oentry (k_cov2 k) (j :: r) = oentry (k_cov2 k') (j' :: r))
        /\ (forall r, oin_range (d_mask2 d) r -> oentry (k_mask2 k) (j :: r) = oentry (k_mask2 k') (j' :: r)))
     /\ (same1 g x1 kw i x1' kw' i' -> same2 g x2 kw j x2' kw' j' ->
        (forall r, in_range (d_nngp d) r -> entry (k_nngp k) (i :: j :: r) = entry (k_nngp k') (i' :: j' :: r))
        /\ (forall r, oin_range (d_ntk d) r -> oentry (k_ntk k) (i :: j :: r) = oentry (k_ntk k') (i' :: j' :: r)))).

Definition oteq {R} (o o' : option (tensor R)) : Prop :=
  match o, o' with None, None => True | Some t, Some u => teq t u | _, _ => False end.

(** Equality of all fields except [x1_is_x2], [cov2] and [mask2]. *)
Definition kernel_eq_but {R} (k k' : kernel R) : Prop :=
  teq (k_nngp k) (k_nngp k') /\ oteq (k_ntk k) (k_ntk k') /\ teq (k_cov1 k) (k_cov1 k')
  /\ oteq (k_mask1 k) (k_mask1 k')
  /\ k_is_gaussian k = k_is_gaussian k' /\ k_is_reversed k = k_is_reversed k'
  /\ k_is_input k = k_is_input k' /\ k_diagonal_batch k = k_diagonal_batch k'
  /\ k_diagonal_spatial k = k_diagonal_spatial k'
  /\ k_shape1 k = k_shape1 k' /\ k_shape2 k = k_shape2 k'
  /\ k_batch_axis k = k_batch_axis k' /\ k_channel_axis k = k_channel_axis k'.

(** Omitting [x2] means [x2 = x1] with [cov2 = mask2 = None]. *)
Definition none_is_self {A R} (F : kernel_fn_t A (kernel R)) : Prop :=
  forall x kw k, F x (Some x) kw = Ok k ->
  exists k0, F x None kw = Ok k0 /\ kernel_eq_but k0 k /\ k_cov2 k0 = None /\ k_mask2 k0 = None.

(** Equality of all fields except [x1_is_x2]. *)
Definition kernel_agree {R} (k k' : kernel R) : Prop :=
  kernel_eq_but k k' /\ oteq (k_cov2 k) (k_cov2 k') /\ oteq (k_mask2 k) (k_mask2 k').

(** ** Layers acting on [Kernel]s *)

(** A [Kernel] with the covariance of the second input filled in. *)
Definition filled {R} (k : kernel R) : kernel R :=
  replace_covs k (k_cov1 k) (k_nngp k)
    (Some (match k_cov2 k with Some c => c | None => k_cov1 k end)) (k_ntk k).

Definition same_row {R} (d : ksig) (k : kernel R) (i : nat) (k' : kernel R) (i' : nat) : Prop :=
  (forall r, in_range (d_cov1 d) r -> entry (k_cov1 k) (i :: r) = entry (k_cov1 k') (i' :: r))
  /\ (forall r, oin_range (d_mask1 d) r -> oentry (k_mask1 k) (i :: r) = oentry (k_mask1 k') (i' :: r)).
Definition same_col {R} (d : ksig) (k : kernel R) (j : nat) (k' : kernel R) (j' : nat) : Prop :=
  (forall r, in_range (d_cov2 d) r -> oentry (k_cov2 k) (j :: r) = oentry (k_cov2 k') (j' :: r))
  /\ (forall r, oin_range (d_mask2 d) r -> oentry (k_mask2 k) (j :: r) = oentry (k_mask2 k') (j' :: r)).
Definition same_cell {R} (d : ksig) (k : kernel R) (i j : nat) (k' : kernel R) (i' j' : nat) : Prop :=
  (forall r, in_range (d_nngp d) r -> entry (k_nngp k) (i :: j :: r) = entry (k_nngp k') (i' :: j' :: r))
  /\ (forall r, oin_range (d_ntk d) r -> oentry (k_ntk k) (i :: j :: r) = oentry (k_ntk k') (i' :: j' :: r)).

(** [F] maps kernels of kind [d] to kernels of kind [d'], one pair of samples at a time. *)
Definition pairwise_layer {R} (d d' : ksig) (F : kernel R -> result (kernel R)) : Prop :=
  d_batch_axis d' < List.length (d_shape d')
  /\ (forall n1 n2 k, kernel_of d n1 n2 k -> exists k', F k = Ok k' /\ kernel_of d' n1 n2 k')
  /\ (forall n1 n2 k m1 m2 q k' q' i j i' j',
     kernel_of d n1 n2 k -> kernel_of d m1 m2 q -> F k = Ok k' -> F q = Ok q' ->
     i < n1 -> j < n2 -> i' < m1 -> j' < m2 ->
     entry (k_x1_is_x2 k) [] = entry (k_x1_is_x2 q) [] ->
     (same_row d k i q i' -> same_row d' k' i q' i')
     /\ (same_col d k j q j' -> same_col d' k' j q' j')
     /\ (same_row d k i q i' -> same_col d k j q j' -> same_cell d k i j q i' j' ->
         same_cell d' k' i j q' i' j')
     /\ entry (k_x1_is_x2 k') [] = entry (k_x1_is_x2 q') []).
