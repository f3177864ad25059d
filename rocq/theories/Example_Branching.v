(** Concrete kernels and masks for the examples of Prop_Branching.v. *)
From Coq Require Import List Arith Lia Bool ZArith Reals Lra.
From Verif Require Import Base Tensor Reshape Model_Net Model_Kernel Model_Branching Spec_Branching.
Import ListNotations.
Local Open Scope R_scope.

(** Two samples against one, activations of spatial shape 2 x [w] with [c] channels; the entry at an
    index is a number telling indices (in the unreversed order) apart. *)
Definition code (rev : bool) (base : nat) (i : list nat) : R :=
  match i with
  | [a; b; p; p'; q; q'] => if rev then INR (base + 32 * a + 16 * b + 8 * q + 4 * q' + 2 * p + p')
                            else INR (base + 32 * a + 16 * b + 8 * p + 4 * p' + 2 * q + q')
  | [a; p; p'; q; q'] => if rev then INR (base + 32 * a + 8 * q + 4 * q' + 2 * p + p')
                         else INR (base + 32 * a + 8 * p + 4 * p' + 2 * q + q')
  | _ => 0
  end.
Definition sizes4 (rev : bool) (w : nat) : list nat := if rev then [w; w; 2; 2]%nat else [2; 2; w; w]%nat.
Definition ex_branch (rev : bool) (w c base : nat) : kernel R :=
  mkK (mkT ([2; 1]%nat ++ sizes4 rev w) (code rev base)) (Some (mkT ([2; 1]%nat ++ sizes4 rev w) (code rev (S base))))
      (mkT ([2]%nat ++ sizes4 rev w) (code rev base)) (Some (mkT ([1]%nat ++ sizes4 rev w) (code rev base)))
      (scalar false) true rev false true false [2; 2; w; c]%nat [1; 2; w; c]%nat 0 3 None None.

Lemma ex_well_formed rev w c base : well_formed (ex_branch rev w c base).
Proof.
  unfold well_formed. cbn. repeat split; try lia.
  intros f t. destruct f; cbn; intros [= <-]; left; destruct rev; reflexivity.
Qed.
Lemma ex_attributes rev w c base rev' w' c' base' : same_attributes (ex_branch rev w c base) (ex_branch rev' w' c' base').
Proof. repeat split. Qed.
Lemma ex_unmixed f ks : Forall (fun k => exists rev w c base, k = ex_branch rev w c base) ks -> unmixed f ks.
Proof.
  intros H. right. rewrite Forall_forall in H. intros k Hk. destruct (H k Hk) as (rev & w & c & base & ->). destruct f; discriminate.
Qed.
Lemma ex_full k t : (exists rev w c base, k = ex_branch rev w c base) -> k_ntk k = Some t -> shape t <> [].
Proof. intros (rev & w & c & base & ->) [= <-]. discriminate. Qed.
Ltac ex_wf := repeat first [apply Forall_nil|apply Forall_cons; [apply ex_well_formed|]].
