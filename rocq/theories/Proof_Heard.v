(** Masks leave unmasked what is heard: linear forms. *)
From Coq Require Import Reals ZArith List Arith Lia Lra Bool.
From Verif Require Import Base Tensor Reshape Model_Axes Model_Slice Model_Geom Model_Net Model_Predict Model_Kernel
  Model_Empirical Model_Inputs Model_Conv Model_ConvApply Model_Index Model_Aggregate Model_DotGeneral.
From Verif Require Import Model_Branching Model_Mask Model_Masking Model_MaskingLayers.
From Verif Require Import Spec_Slice Spec_Geom Spec_Conv Spec_ConvApply Spec_Mask Spec_Masking Spec_InitShapes Spec_MaskFits Spec_Heard.
From Verif Require Import Proof_Inputs Proof_Mask Proof_Mask2 Proof_Conv3 Proof_ConvApply Proof_ConvApply2 Proof_Index4 Proof_DotGeneral8 Proof_Attention
  Proof_Axes Proof_Move Proof_Rules4 Proof_Masking Proof_Masking4 Model_InitShapes Proof_InitShapes2 Proof_Masking5 Proof_Tsum Proof_Dot Proof_DotGeneral Proof_BranchMask.
Import ListNotations.
Local Open Scope R_scope.

Definition zeroed (n : tensor bool) (x : tensor R) : Prop := forall i, in_range (shape x) i -> masked n i = true -> entry x i = 0.
Definition told (apply : tensor R -> result (tensor R)) (n : tensor bool) (s : list nat) (j : list nat) : Prop :=
  exists x1 x2 y1 y2, shape x1 = s /\ shape x2 = s /\ zeroed n x1 /\ zeroed n x2 /\ apply x1 = Ok y1 /\ apply x2 = Ok y2 /\ entry y1 j <> entry y2 j.

Section Layers.
Variable kernel_fn : tree (kernel R) -> result (tree (kernel R)).

Lemma array_heard init apply mf rm p x n j :
  heard (array_layer kernel_fn init apply mf rm) p (Leaf x) (Leaf (Some n)) j <-> told (fun x => apply p x (Some n)) n (shape x) j.
Proof.
  split.
  - intros (x1 & x2 & y1 & y2 & S1 & S2 & B1 & B2 & E1 & E2 & D). destruct x1 as [x1|], x2 as [x2|]; try easy.
    cbn in *. unfold same_shape in *. destruct B1 as (n1 & N1 & B1). destruct B2 as (n2 & N2 & B2). injection N1 as <-. injection N2 as <-.
    apply rmap_ok in E1 as (z1 & E1 & Z1). apply rmap_ok in E2 as (z2 & E2 & Z2). injection Z1 as <-. injection Z2 as <-.
    exists x1, x2, y1, y2. repeat match goal with |- _ /\ _ => split end; auto.
  - intros (x1 & x2 & y1 & y2 & S1 & S2 & B1 & B2 & E1 & E2 & D). exists (Leaf x1), (Leaf x2), y1, y2. cbn.
    rewrite E1, E2. unfold same_shape. repeat match goal with |- _ /\ _ => split end; auto; exists n; auto.
Qed.
Lemma array_marks (Q : list nat -> list nat -> Prop) init apply mf rm p :
  (forall (x : tensor R) n y a, mask_fits n (shape x) -> Q (shape n) (shape x) -> apply p x (Some n) = Ok y -> maskf mf n (shape x) = Ok a ->
    forall j, in_range (shape y) j -> (masked a j = false <-> told (fun x => apply p x (Some n)) n (shape x) j)) ->
  marks_unheard Q (array_layer kernel_fn init apply mf rm) p.
Proof.
  intros H x m y a F E M j Hj. destruct x as [x|l]; [|discriminate]. destruct m as [m|l]; [|discriminate]. cbn in F, E. destruct F as (n & -> & F & FQ).
  apply rmap_ok in E as (y0 & E & Ey). injection Ey as <-. rewrite array_heard. apply (H x n y a); auto.
  destruct mf as [f|]; unfold mask_fn in M; cbn in *; [|injection M as <-; reflexivity]. apply rmap_ok in M as (a0 & M & Ea). injection Ea as ->. exact M.
Qed.
End Layers.

Lemma in_locs sh k : In k (locs sh) <-> in_range sh k.
Proof.
  revert k. induction sh as [|s sh IH]; intros k; cbn.
  - split; [intros [<-|[]]; constructor|]. intros H. inversion H. now left.
  - rewrite in_flat_map. split.
    + intros (i & Hi & Hk). apply in_map_iff in Hk as (r & <- & Hr). apply in_seq in Hi. constructor; [lia|]. now apply IH.
    + intros H. inversion H as [|i s' r sh' Hi Hr]; subst. exists i. split; [apply in_seq; lia|]. apply in_map. now apply IH.
Qed.

(** The output at [j] is a linear form of the inputs at positions [pos k]. *)
Lemma linear_told (apply : tensor R -> result (tensor R)) n s j sh (c : R) (w : list nat -> R) (pos : list nat -> list nat) :
  (forall x, shape x = s -> exists y, apply x = Ok y /\ entry y j = c + tsum sh (fun k => w k * entry x (pos k))) ->
  (forall k, in_range sh k -> in_range s (pos k)) ->
  (forall k l, in_range sh k -> in_range sh l -> pos k = pos l -> k = l) ->
  (told apply n s j <-> exists k, in_range sh k /\ w k <> 0 /\ masked n (pos k) = false).
Proof.
  intros Hf Hr Hi. split.
  - intros (x1 & x2 & y1 & y2 & S1 & S2 & B1 & B2 & E1 & E2 & D).
    destruct (Exists_dec (fun k => w k <> 0 /\ masked n (pos k) = false) (locs sh)) as [X|X].
    { intros k. destruct (Req_EM_T (w k) 0) as [Hw|Hw]; [right; intros [? _]; contradiction|].
      destruct (masked n (pos k)); [right; intros [_ ?]; discriminate|left; auto]. }
    + apply Exists_exists in X as (k & Hk & W & M). exists k. rewrite in_locs in Hk. auto.
    + exfalso. apply D. assert (Z : forall x y, shape x = s -> zeroed n x -> apply x = Ok y -> entry y j = c).
      { intros x y S B E. destruct (Hf x S) as (y' & E' & V). rewrite E in E'. injection E' as <-. rewrite V, (tsum_zero sh); [ring|]. intros k Hk.
        destruct (Req_EM_T (w k) 0) as [->|Hw]; [ring|]. destruct (masked n (pos k)) eqn:Mk.
        - rewrite B; [ring| |exact Mk]. rewrite S. now apply Hr.
        - exfalso. apply X. apply Exists_exists. exists k. rewrite in_locs. auto. }
      rewrite (Z x1 y1), (Z x2 y2); auto.
  - intros (k0 & Hk & W & M). pose (x2 := mkT s (fun i => if list_eq_dec Nat.eq_dec i (pos k0) then 1 else 0)).
    destruct (Hf (mkT s (fun _ => 0)) eq_refl) as (y1 & E1 & V1). destruct (Hf x2 eq_refl) as (y2 & E2 & V2).
    exists (mkT s (fun _ => 0)), x2, y1, y2. repeat match goal with |- _ /\ _ => split end; auto.
    + intros i _ _. reflexivity.
    + intros i _ Mi. cbn. destruct (list_eq_dec Nat.eq_dec i (pos k0)) as [->|]; [congruence|reflexivity].
    + rewrite V1, V2. rewrite (tsum_zero sh) by (intros; cbn; ring).
      rewrite (tsum_ext sh _ (fun k => (if list_eq_dec Nat.eq_dec k k0 then 1 else 0) * w k)).
      * rewrite tsum_one_hot by exact Hk. lra.
      * intros k Hk'. cbn. destruct (list_eq_dec Nat.eq_dec (pos k) (pos k0)) as [Ep|Np].
        -- apply Hi in Ep; auto. subst k. destruct (list_eq_dec Nat.eq_dec k0 k0); [ring|congruence].
        -- destruct (list_eq_dec Nat.eq_dec k k0) as [->|]; [congruence|ring].
Qed.

(** ** Positions of which some components are summed over, the others belong to the output *)
Section Pick.
Variables (n : nat) (C : list nat) (q : nat -> nat).
Definition pick_pos (k j : list nat) : list nat :=
  map (fun a => if mem a C then nth (index_of a C) k 0%nat else nth (q a) j 0%nat) (seq 0 n).
Hypothesis ND : NoDup C.
Hypothesis CL : forall a, In a C -> (a < n)%nat.
Definition csizes (s : list nat) := map (fun a => nth a s 0%nat) C.
Definition kept_sizes (s t : list nat) : Prop := length s = n /\ forall a, (a < n)%nat -> ~ In a C -> (q a < length t)%nat /\ nth (q a) t 0%nat = nth a s 0%nat.

Lemma pick_nth k j a : (a < n)%nat -> nth a (pick_pos k j) 0%nat = if mem a C then nth (index_of a C) k 0%nat else nth (q a) j 0%nat.
Proof.
  intros H. unfold pick_pos. set (f := fun a => _). transitivity (nth a (map f (seq 0 n)) (f 0%nat)); [apply nth_indep; now rewrite map_length, seq_length|].
  rewrite map_nth, seq_nth by exact H. reflexivity.
Qed.
Lemma pick_length k j : length (pick_pos k j) = n.
Proof. unfold pick_pos. now rewrite map_length, seq_length. Qed.
Lemma range_nth s i : in_range s i <-> length i = length s /\ forall a, (a < length s)%nat -> (nth a i 0 < nth a s 0)%nat.
Proof.
  split.
  - intros H. split; [exact (Forall2_length _ _ _ H)|]. induction H as [|x y l l' Hx H IH]; intros [|a] Ha; cbn in *; try lia. apply IH. lia.
  - revert i. induction s as [|x s IH]; intros [|y i] [L H]; try discriminate; constructor.
    + apply (H 0%nat). cbn; lia.
    + apply IH. split; [cbn in L; lia|]. intros a Ha. apply (H (S a)). cbn; lia.
Qed.
Lemma index_lt a : In a C -> (index_of a C < length C)%nat.
Proof. intros H. exact (pair_index C C a eq_refl H). Qed.
Lemma csizes_nth s a : In a C -> nth (index_of a C) (csizes s) 0%nat = nth a s 0%nat.
Proof. intros H. unfold csizes. now rewrite nth_index_of_map. Qed.
Lemma pick_range s t k j : kept_sizes s t -> in_range (csizes s) k -> in_range t j -> in_range s (pick_pos k j).
Proof.
  intros [L H] Hk Hj. apply range_nth. rewrite pick_length. split; [auto|]. intros a Ha. rewrite L in Ha. rewrite pick_nth by exact Ha.
  apply range_nth in Hk as [Lk Hk]. apply range_nth in Hj as [Lj Hj]. destruct (mem a C) eqn:M.
  - apply mem_In in M. rewrite <- (csizes_nth s a M). apply Hk. unfold csizes. rewrite map_length. now apply index_lt.
  - apply mem_false in M. destruct (H a Ha M) as [Hq <-]. now apply Hj.
Qed.
Lemma pick_inj s k l j : in_range (csizes s) k -> in_range (csizes s) l -> pick_pos k j = pick_pos l j -> k = l.
Proof.
  intros Hk Hl E. apply range_nth in Hk as [Lk _]. apply range_nth in Hl as [Ll _]. unfold csizes in *. rewrite map_length in Lk, Ll.
  rewrite <- (map_index_self C k ND Lk), <- (map_index_self C l ND Ll). apply map_ext_in. intros a Ha.
  assert (X : nth a (pick_pos k j) 0%nat = nth a (pick_pos l j) 0%nat) by now rewrite E. rewrite !pick_nth in X by now apply CL.
  apply mem_In in Ha. rewrite Ha in X. exact X.
Qed.
Lemma pick_clip s t k j : kept_sizes s t -> length k = length C -> length j = length t ->
  clip s (pick_pos k j) = pick_pos (clip (csizes s) k) (clip t j).
Proof.
  intros [L H] Lk Lj. apply nth_ext with (d := 0%nat) (d' := 0%nat); [rewrite Proof_BranchMask.clip_length, !pick_length by (rewrite pick_length; auto); reflexivity|].
  intros a Ha. rewrite Proof_BranchMask.clip_length, pick_length in Ha by (rewrite pick_length; auto).
  rewrite Proof_BranchMask.clip_nth, !pick_nth by (rewrite ?pick_length; auto). destruct (mem a C) eqn:M.
  - apply mem_In in M. rewrite Proof_BranchMask.clip_nth, csizes_nth; auto; unfold csizes; [now rewrite map_length|rewrite Lk; now apply index_lt].
  - apply mem_false in M. destruct (H a Ha M) as [Hq E]. rewrite Proof_BranchMask.clip_nth, E; auto. lia.
Qed.
End Pick.
