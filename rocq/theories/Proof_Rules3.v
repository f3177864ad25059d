(** The rules of primitives with one input that move elements: copies, [neg], [transpose], [squeeze], [rev]. *)
From Coq Require Import Reals ZArith List Arith Lia Lra Bool Permutation.
From Verif Require Import Base Tensor Reshape Model_Net Model_Predict Model_Empirical Model_Structure Model_Aggregate Model_Structured Model_Lax Model_Rules
  Spec_Structure Spec_Structured Spec_Rules Proof_Linalg Proof_Tsum Proof_Structure Proof_Structured Proof_Structured2 Proof_Structured3 Proof_Structured4 Proof_Rules Proof_Rules2.
Import ListNotations.
Local Open Scope R_scope.

Definition sound (p : prim) (idx : nat) (vs : list value) (ws ys : list nat) (c : structure) (J : list nat -> list nat -> R) : Prop :=
  forall sr jr, exists r s, dy_dw_of sr jr p vs idx ys c = Ok (r, s) /\
    fits s (in_trace s) (diagonal_of idx s) (use_shape p ys ws) ws /\
    has_structure s (in_trace s) (diagonal_of idx s) (use_shape p ys ws) ws J r.

Lemma trim_one t d b A B ws : _trim_invals [Undefined ws] (restrict t d b (trace_only A B [0%nat])) =
  Ok [Undefined (trimmed (map snd (filter (fun x => t (snd x)) (combine A B))) ws)].
Proof. reflexivity. Qed.

Lemma fits_trace A B idxs ys ws : NoDup A -> NoDup B -> length A = length B ->
  (forall a b, In (a, b) (combine A B) -> (a < length ys)%nat /\ (b < length ws)%nat /\ nth a ys 0%nat = nth b ws 0%nat) ->
  fits (trace_only A B idxs) (in_trace (trace_only A B idxs)) [] ys ws.
Proof.
  intros NA NB L H. unfold fits. cbn. rewrite !app_nil_r. repeat split; auto.
  - rewrite <- (map_fst_combine A B L). apply Forall_forall. intros x I. apply in_map_iff in I. destruct I as ((a & b) & <- & I). now apply (H a b).
  - rewrite <- (map_snd_combine A B L). apply Forall_forall. intros x I. apply in_map_iff in I. destruct I as ((a & b) & <- & I). now apply (H a b).
  - apply Forall_forall. intros [a b] I. now apply H.
Qed.

Definition not_reshape (p : prim) : Prop := match p with ReshapeTo _ | BroadcastInDim _ _ | ConvGeneralDilated _ => False | _ => True end.
Lemma use_shape_id p ys ws : not_reshape p -> use_shape p ys ws = ys.
Proof. destruct p; easy. Qed.
Lemma trim_eqn_id p idx vs cts : not_reshape p -> _trim_eqn p idx vs cts = p.
Proof. destruct p; easy. Qed.

Section Unary.
  Variables (p : prim) (src : list nat -> list nat -> option (list nat)) (k : R) (valid : list nat -> list nat -> Prop).
  Hypothesis (Hp : not_reshape p).
  Hypothesis (Heval : forall ws ys, valid ws ys -> forall t, shape t = ws -> exists o, lax_eval p [t] = Ok o /\ shape o = ys /\
    forall y, in_range ys y -> entry o y = match src ws y with Some v => k * entry t v | None => 0 end).
  Hypothesis (Hsrc : forall ws ys y v, valid ws ys -> in_range ys y -> src ws y = Some v -> in_range ws v).
  Hypothesis (Hrule : forall ws ys, valid ws ys -> rule_ok p 0 [Undefined ws] ws ys (gather (src ws) (fun _ => k))).

  Lemma unary_affine ws ys x : valid ws ys -> affine p 0 [x] ws ys (gather (src ws) (fun _ => k)).
  Proof.
    intros V. apply (gather_affine p 0 [x] ws ys (src ws) (fun _ => k) (fun _ => 0)). { intros; eapply Hsrc; eauto. }
    intros t Ht. destruct (Heval ws ys V t Ht) as (o & E & S & F). exists o. repeat split; auto. intros y Hy. rewrite F by auto. ring.
  Qed.

  Variables (ws ys A B : list nat).
  Hypothesis (V : valid ws ys).
  Hypothesis (Hs : structure_rule p 0 [ws] ys = Ok (trace_only A B [0%nat])).
  Hypothesis (NA : NoDup A) (NB : NoDup B) (L : length A = length B).
  Hypothesis (HP : forall a b, In (a, b) (combine A B) -> (a < length ys)%nat /\ (b < length ws)%nat /\ nth a ys 0%nat = nth b ws 0%nat).
  Hypothesis (HQ : forall y v a b, in_range ys y -> src ws y = Some v -> In (a, b) (combine A B) -> nth b v 0%nat = nth a y 0%nat).
  Hypothesis (HT : forall t : nat -> bool, let P := filter (fun x => t (snd x)) (combine A B) in
    valid (trimmed (map snd P) ws) (trimmed (map fst P) ys) /\
    forall y, in_range ys y -> src (trimmed (map snd P) ws) (zeroed (map fst P) y) = option_map (zeroed (map snd P)) (src ws y)).

  Lemma unary_sound c : common ws c -> sound p 0 [Undefined ws] ws ys c (gather (src ws) (fun _ => k)).
  Proof.
    intros Hc [|] jr.
    - destruct (HT (fun i => mem i (in_trace c))) as [V' S'].
      set (P := filter (fun x => mem (snd x) (in_trace c)) (combine A B)) in *.
      set (A' := map fst P) in *. set (B' := map snd P) in *.
      set (s' := restrict (fun i => mem i (in_trace c)) (fun i => mem i (out_diagonal c)) (fun i => mem i (out_broadcast c)) (trace_only A B [0%nat])).
      assert (E1 : out_trace s' = A') by reflexivity. assert (E2 : in_trace s' = B') by reflexivity. assert (E3 : out_broadcast s' = []) by reflexivity.
      assert (E4 : use_shape p ys ws = ys) by (now apply use_shape_id).
      destruct (no_diagonal p 0 [Undefined ws] ws ys c (trace_only A B [0%nat]) (gather (src ws) (fun _ => k)) eq_refl Hc Hs eq_refl eq_refl
        ltac:(rewrite E4; now apply fits_trace) [Undefined (trimmed B' ws)] (Undefined (trimmed B' ws)) (trimmed A' ys)
        (gather (src (trimmed B' ws)) (fun _ => k)) (gather (src (trimmed B' ws)) (fun _ => k)) jr) as (r & E & F & G).
      + apply trim_one.
      + reflexivity.
      + reflexivity.
      + rewrite trim_eqn_id by auto. now apply unary_affine.
      + fold s'. now rewrite E1, E3, E4, app_nil_r.
      + fold s'. rewrite E1, E3, E4, app_nil_r. intros y w Hy Hw. now rewrite unravel_ravel.
      + fold s'. rewrite trim_eqn_id by auto. rewrite E1, E2, E3, E4, app_nil_r. now apply Hrule.
      + intros y w Hy Hw. rewrite E4 in Hy. rewrite restrict_pairs. fold s'. rewrite E1, E2, E3, app_nil_r.
        apply gather_structure.
        * intros a b I v Ev. apply filter_In in I. eapply HQ; eauto. apply I.
        * intros v Ev. apply in_range_length in Hw. rewrite Hw. apply in_range_length. eapply Hsrc; eauto.
        * now apply S'.
        * reflexivity.
      + exists r, s'. split; [exact E|]. split; [exact F|exact G].
    - edestruct (no_rules p 0 [Undefined ws] ws ys c (gather (src ws) (fun _ => k)) (gather (src ws) (fun _ => k)) jr) as (r & E & F & G); auto.
      + cbn [map]. now apply unary_affine.
      + now rewrite use_shape_id.
      + intros y w Hy Hw. rewrite use_shape_id in Hy |- * by auto. now rewrite unravel_ravel.
      + rewrite use_shape_id by auto. now apply Hrule.
      + exists r, empty_structure. auto.
  Qed.
End Unary.
