(** C78: structure and Jacobian rules. *)
From Coq Require Import Reals ZArith List Arith Lia Lra Bool.
From Verif Require Import Base Tensor Reshape Model_Net Model_Empirical Model_Structure Model_Aggregate Model_Structured Model_Lax Model_Rules Spec_Structured Spec_Rules
  Proof_Rules Proof_Rules2 Proof_Rules3 Proof_Rules16 Proof_Rules17.
Import ListNotations.
Local Open Scope R_scope.

(** An equation of a linear program is affine in a parameter. *)
Theorem C78_affine p idx vs xs ws o : nth_error vs idx = Some (Undefined ws) -> Forall2 value_is vs xs -> linear_in p idx vs -> lax_eval p xs = Ok o ->
  exists J, affine p idx xs ws (shape o) J.
Proof. intros N F L E. destruct (whole_all _ _ _ _ _ _ N F L E) as (J & A & _). eauto. Qed.
Print Assumptions C78_affine.

(** Its matrix [J] is what the reduced Jacobian and the structure describe: with or without structure rules,
    with or without Jacobian rules, whatever the other uses of the parameter. *)
Theorem C78_structured_jacobian_partial p idx vs xs ws o c J sr jr :
  nth_error vs idx = Some (Undefined ws) -> Forall2 value_is vs xs -> linear_in p idx vs -> ruled p idx vs -> lax_eval p xs = Ok o -> common ws c ->
  affine p idx xs ws (shape o) J ->
  exists r s, dy_dw_of sr jr p vs idx (shape o) c = Ok (r, s) /\
    fits s (in_trace s) (diagonal_of idx s) (use_shape p (shape o) ws) ws /\
    has_structure s (in_trace s) (diagonal_of idx s) (use_shape p (shape o) ws) ws (use_jacobian p (shape o) ws J) r.
Proof.
  intros N F L Rp E Hc A. destruct (whole_all _ _ _ _ _ _ N F L E) as (J' & A' & S). specialize (S Rp c Hc).
  apply (sound_ext p idx vs ws (shape o) c (use_jacobian p (shape o) ws J')); auto. intros y w Hy Hw.
  assert (Q : forall y, in_range (shape o) y -> J' y w = J y w) by (intros y' Hy'; now apply (affine_unique p idx xs ws (shape o))).
  destruct p; cbn [use_jacobian use_shape] in *; auto. apply Q. apply unravel_in_range.
  assert (I0 : xs = [hd (mkT [] (fun _ => 0)) xs]) by (destruct xs as [|x [|]]; easy). destruct xs as [|x [|]]; try easy. cbn [lax_eval] in E.
  destruct (one_value _ x _ _ F N) as (_ & _ & Sx). pose proof (reshape_inv _ _ _ E) as Z. rewrite (reshape_shape _ _ _ E). rewrite Z, Sx. now apply ravel_lt.
Qed.
Print Assumptions C78_structured_jacobian_partial.

(** The structures of the uses of a parameter have a common structure, of the kind assumed above, and narrowed
    to it they are all traced along the same axes of the parameter. *)
Theorem C78_shared_structure sr ws (uses : list (prim * (list (list nat) * (nat * list nat)))) ss c :
  Forall2 (fun u s => let '(p, (shapes, (idx, cts))) := u in nth_error shapes idx = Some ws /\ get_structure sr p shapes idx cts = Ok s) uses ss ->
  structure_cache ss = Ok c ->
  common ws c /\ forall s, In s ss -> exists r, structure_and s c = Ok r /\ in_trace r = in_trace c /\ out_diagonal r = out_diagonal c.
Proof.
  intros F E. assert (H : forall s, In s ss -> shared ws s).
  { clear E. induction F as [|(p & shapes & idx & cts) s uses ss [N G] F IH]; intros x I; [easy|]. destruct I as [<-|I]; auto. now apply (get_structure_shared sr p shapes idx ws cts). }
  destruct ss as [|s0 ss]; [easy|]. destruct (cache_shared ws ss s0 c H E) as (Sc & _). split; [now apply shared_common|]. intros s I.
  destruct (and_shared ws s c (H s I) Sc) as (r & Er & _). exists r. split; auto. now apply (and_cache ws (s0 :: ss) c s).
Qed.
Print Assumptions C78_shared_structure.
Theorem C78_shared_exists sr ws (uses : list (prim * (list (list nat) * (nat * list nat)))) ss :
  Forall2 (fun u s => let '(p, (shapes, (idx, cts))) := u in nth_error shapes idx = Some ws /\ get_structure sr p shapes idx cts = Ok s) uses ss -> ss <> [] ->
  exists c, structure_cache ss = Ok c.
Proof.
  intros F E. assert (H : forall s, In s ss -> shared ws s).
  { clear E. induction F as [|(p & shapes & idx & cts) s uses ss [N G] F IH]; intros x I; [easy|]. destruct I as [<-|I]; auto. now apply (get_structure_shared sr p shapes idx ws cts). }
  destruct ss as [|s0 ss]; [easy|]. now apply (cache_ok ws).
Qed.
Print Assumptions C78_shared_exists.

(** A dense layer with batch 2: x of shape (2, 3) times w of shape (3, 4). *)
Definition ex_x : tensor R := mkT [2; 3]%nat (fun i => INR (3 * nth 0 i 0 + nth 1 i 0 + 1)%nat).
Definition ex_w : tensor R := mkT [3; 4]%nat (fun i => INR (nth 0 i 0 + nth 1 i 0)%nat).
Definition ex_dot : prim := DotGeneral [1%nat] [0%nat] [] [].
Definition ex_c : structure := mkStructure [1%nat] [1%nat] [0%nat; 1%nat] [] [] [] [] [] 0.
Example C78_structured_jacobian_example :
  nth_error [Known ex_x; Undefined [3; 4]%nat] 1 = Some (Undefined [3; 4]%nat) /\ Forall2 value_is [Known ex_x; Undefined [3; 4]%nat] [ex_x; ex_w] /\
  linear_in ex_dot 1 [Known ex_x; Undefined [3; 4]%nat] /\ (exists o, lax_eval ex_dot [ex_x; ex_w] = Ok o /\ shape o = [2; 4]%nat /\ exists J, affine ex_dot 1 [ex_x; ex_w] [3; 4]%nat [2; 4]%nat J) /\
  common [3; 4]%nat ex_c /\
  exists r s, dy_dw_of true true ex_dot [Known ex_x; Undefined [3; 4]%nat] 1 [2; 4]%nat ex_c = Ok (r, s) /\ shape r = [2; 1; 3; 1]%nat /\ entry r [1; 0; 2; 0]%nat = 6 /\ in_trace s = [1%nat].
Proof.
  assert (F : Forall2 value_is [Known ex_x; Undefined [3; 4]%nat] [ex_x; ex_w]) by (repeat constructor).
  assert (L : linear_in ex_dot 1 [Known ex_x; Undefined [3; 4]%nat]) by (exists ex_x; reflexivity).
  split; [reflexivity|]. split; auto. split; auto. split.
  - eexists. split; [reflexivity|]. split; [reflexivity|]. now apply (C78_affine ex_dot 1 [Known ex_x; Undefined [3; 4]%nat] [ex_x; ex_w] [3; 4]%nat (mkT [2; 4]%nat (entry (match lax_eval ex_dot [ex_x; ex_w] with Ok o => o | _ => ex_x end)))).
  - split; [split; [reflexivity|]; cbn; tauto|]. eexists. eexists. split; [vm_compute; reflexivity|]. split; [reflexivity|]. split; [|reflexivity]. cbv -[Rplus Rmult IZR]. lra.
Qed.
Example C78_shared_structure_example :
  Forall2 (fun u s => let '(p, (shapes, (idx, cts))) := u in nth_error shapes idx = Some [3; 4]%nat /\ get_structure true p shapes idx cts = Ok s)
    [(ex_dot, ([[2; 3]; [3; 4]]%nat, (1%nat, [2; 4]%nat))); (Identity, ([[3; 4]]%nat, (0%nat, [3; 4]%nat)))]
    [mkStructure [1%nat] [1%nat] [1%nat] [] [] [] [] [] 0; trace_only [0; 1]%nat [0; 1]%nat [0%nat]] /\
  exists c, structure_cache [mkStructure [1%nat] [1%nat] [1%nat] [] [] [] [] [] 0; trace_only [0; 1]%nat [0; 1]%nat [0%nat]] = Ok c /\ in_trace c = [1%nat].
Proof. split; [repeat constructor|]. eexists. split; reflexivity. Qed.

(** Refuted for all affine equations: [broadcast_in_dim] that stretches an axis of size 1 fails the assertion that
    traced axes have equal sizes. *)
Theorem C78_broadcast_refuted : exists p idx vs xs ws o c,
  nth_error vs idx = Some (Undefined ws) /\ Forall2 value_is vs xs /\ lax_eval p xs = Ok o /\ common ws c /\
  (exists J, affine p idx xs ws (shape o) J) /\ forall jr, dy_dw_of true jr p vs idx (shape o) c = Raise AssertionError.
Proof.
  exists (BroadcastInDim [2] [0])%nat, 0%nat, [Undefined [1%nat]], [mkT [1%nat] (fun _ => 1)], [1%nat]. eexists. exists (trace_only [0%nat] [0%nat] [0%nat]).
  split; [reflexivity|]. split; [repeat constructor|]. split; [reflexivity|]. split; [split; [reflexivity|]; cbn; tauto|]. split.
  - exists (fun _ _ => 1). exists (fun _ => 0). intros t Ht. cbn [update lax_eval]. unfold lax_broadcast_in_dim, ndim. rewrite Ht. eexists. split; [reflexivity|]. split; [reflexivity|].
    intros y _. cbn. unfold Model_Predict.msum. cbn. ring.
  - reflexivity.
Qed.
Print Assumptions C78_broadcast_refuted.

(** Refuted for a parameter used as the padding value: its rule describes the padded array. *)
Theorem C78_pad_refuted : exists p idx vs xs ws o c,
  nth_error vs idx = Some (Undefined ws) /\ Forall2 value_is vs xs /\ lax_eval p xs = Ok o /\ common ws c /\
  (exists J, affine p idx xs ws (shape o) J) /\ forall jr, dy_dw_of true jr p vs idx (shape o) c = Raise IndexError.
Proof.
  exists (Pad [(1%Z, 0%Z, 0%nat); (0%Z, 0%Z, 0%nat)]), 1%nat, [Known (mkT [1; 1]%nat (fun _ => 1)); Undefined []], [mkT [1; 1]%nat (fun _ => 1); mkT [] (fun _ => 1)], [].
  eexists. exists empty_structure.
  split; [reflexivity|]. split; [repeat constructor|]. split; [reflexivity|]. split; [split; [reflexivity|]; cbn; tauto|]. split.
  - exists (fun y _ => if (nth 0%nat y 0%nat =? 0)%nat then 1 else 0). exists (fun y => if (nth 0%nat y 0%nat =? 0)%nat then 0 else 1). intros t Ht. cbn [update lax_eval]. unfold ndim. rewrite Ht. eexists. split; [reflexivity|]. split; [reflexivity|].
    intros y Hy. inversion Hy as [|a n y' l Ha Hy']; subst. inversion Hy' as [|b m y'' l' Hb Hy'']; subst. inversion Hy''; subst. assert (b = 0)%nat by (cbn in Hb; lia). subst b.
    assert (a = 0 \/ a = 1)%nat as [-> | ->] by (cbn in Ha; lia); destruct t as [st e]; cbn in Ht; subst st; cbv -[Rplus Rmult IZR]; ring.
  - reflexivity.
Qed.
Print Assumptions C78_pad_refuted.

(** A convolution: an image with 2 channels and 3 pixels, filters of 2 pixels, 2 output channels. *)
Definition ex_conv : prim := ConvGeneralDilated (mkConv [0; 1; 2] [0; 1; 2] [0; 1; 2] [mkConvDim 1 0 0 1 1] 1 1)%nat.
Definition ex_image : tensor R := mkT [1; 2; 3]%nat (fun i => INR (3 * nth 1 i 0 + nth 2 i 0)%nat).
Definition ex_filter : tensor R := mkT [2; 2; 2]%nat (fun i => INR (nth 0 i 0 + nth 1 i 0 + nth 2 i 0)%nat).
Example C78_convolution_example :
  Forall2 value_is [Known ex_image; Undefined [2; 2; 2]%nat] [ex_image; ex_filter] /\
  linear_in ex_conv 1 [Known ex_image; Undefined [2; 2; 2]%nat] /\ ruled ex_conv 1 [Known ex_image; Undefined [2; 2; 2]%nat] /\
  (exists o, lax_eval ex_conv [ex_image; ex_filter] = Ok o /\ shape o = [1; 2; 2]%nat /\ entry o [0; 1; 1]%nat = 28) /\
  common [2; 2; 2]%nat (trace_only [1%nat] [0%nat] [1%nat]) /\
  exists r s, dy_dw_of true true ex_conv [Known ex_image; Undefined [2; 2; 2]%nat] 1 [1; 2; 2]%nat (trace_only [1%nat] [0%nat] [1%nat]) = Ok (r, s) /\
    shape r = [1; 1; 2; 1; 2; 2]%nat /\ entry r [0; 0; 1; 0; 1; 1]%nat = 5 /\ in_trace s = [0%nat] /\ out_trace s = [1%nat].
Proof.
  split; [repeat constructor|]. split; [exists ex_image; reflexivity|]. split; [cbn; repeat split; lia|].
  split; [eexists; split; [reflexivity|]; split; [reflexivity|]; cbv -[Rplus Rmult IZR]; lra|]. split; [split; [reflexivity|]; cbn; tauto|].
  eexists. eexists. split; [vm_compute; reflexivity|]. split; [reflexivity|]. split; [|split; reflexivity]. cbv -[Rplus Rmult IZR]. lra.
Qed.

(** Refuted for convolutions in the image, and for images without channels. *)
Theorem C78_convolution_refuted : exists c us ws u w o,
  shape u = us /\ shape w = ws /\ lax_eval (ConvGeneralDilated c) [u; w] = Ok o /\
  linear_in (ConvGeneralDilated c) 0 [Undefined us; Known w] /\ common us empty_structure /\ (exists J, affine (ConvGeneralDilated c) 0 [u; w] us (shape o) J) /\
  forall jr, dy_dw_of true jr (ConvGeneralDilated c) [Undefined us; Known w] 0 (shape o) empty_structure = Raise NotImplementedError.
Proof.
  exists (mkConv [0; 1; 2] [0; 1; 2] [0; 1; 2] [mkConvDim 1 0 0 1 1] 1 1)%nat, [1; 2; 3]%nat, [2; 2; 2]%nat, ex_image, ex_filter. eexists. split; [reflexivity|]. split; [reflexivity|]. split; [reflexivity|].
  assert (L : linear_in ex_conv 0 [Undefined [1; 2; 3]%nat; Known ex_filter]) by (exists ex_filter; reflexivity).
  split; [exact L|]. split; [split; [reflexivity|]; cbn; tauto|]. split; [|intros []; reflexivity].
  eapply (C78_affine ex_conv 0 [Undefined [1; 2; 3]%nat; Known ex_filter]); auto. repeat constructor.
Qed.
Print Assumptions C78_convolution_refuted.
Theorem C78_no_channels_refuted : exists c us ws u w o,
  shape u = us /\ shape w = ws /\ lax_eval (ConvGeneralDilated c) [u; w] = Ok o /\
  linear_in (ConvGeneralDilated c) 1 [Known u; Undefined ws] /\ common ws empty_structure /\ (exists J, affine (ConvGeneralDilated c) 1 [u; w] ws (shape o) J) /\
  (forall sr, dy_dw_of sr true (ConvGeneralDilated c) [Known u; Undefined ws] 1 (shape o) empty_structure = Raise ValueError) /\
  exists rs, dy_dw_of true false (ConvGeneralDilated c) [Known u; Undefined ws] 1 (shape o) empty_structure = Ok rs.
Proof.
  exists (mkConv [0; 1; 2] [0; 1; 2] [0; 1; 2] [mkConvDim 1 0 0 1 1] 1 1)%nat, [1; 0; 3]%nat, [2; 0; 2]%nat, (mkT [1; 0; 3]%nat (fun _ => 0)), (mkT [2; 0; 2]%nat (fun _ => 0)). eexists. split; [reflexivity|]. split; [reflexivity|]. split; [reflexivity|].
  assert (L : linear_in ex_conv 1 [Known (mkT [1; 0; 3]%nat (fun _ => 0)); Undefined [2; 0; 2]%nat]) by (eexists; reflexivity).
  split; [exact L|]. split; [split; [reflexivity|]; cbn; tauto|]. split; [|split; [intros []; reflexivity|eexists; vm_compute; reflexivity]].
  eapply (C78_affine ex_conv 1 [Known (mkT [1; 0; 3]%nat (fun _ => 0)); Undefined [2; 0; 2]%nat]); auto. repeat constructor.
Qed.
Print Assumptions C78_no_channels_refuted.
