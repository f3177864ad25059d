(** Concrete networks: witnesses that the hypotheses of the theorems about networks can
    be met, and counterexamples. *)
From Coq Require Import List Arith Lia Bool Reals Lra.
From Verif Require Import Base Model_Req Model_Geom Spec_Geom Proof_Geom Model_Net Spec_Net Proof_Net Proof_Diag
  Spec_Psd Proof_PsdBase Proof_Psd.
Import ListNotations.
Local Open Scope R_scope.

Ltac run := cbv - [Rplus Rminus Rmult Rdiv Rinv Ropp IZR INR pow sqrt Rlt_dec Rabs IPR Rlt Rle].

Lemma is_ok_some {A} (r : result A) : is_ok r = true -> exists a, r = Ok a.
Proof. destruct r; simpl; [eauto|discriminate]. Qed.

Definition get (k0 : sk) (r : result sk) : sk := match r with Ok k => k | Raise _ => k0 end.
Lemma get_ok k0 r : is_ok r = true -> r = Ok (get k0 r).
Proof. destruct r; simpl; [auto|discriminate]. Qed.

Lemma agrees_nngp r full bi p :
  agrees_kernel r full -> length bi = 2%nat -> in_shape (s_sp r) p ->
  s_nngp r bi (if s_ds r then [p] else [p; p]) = s_nngp full bi [p; p].
Proof.
  intros (_ & _ & _ & _ & H & _) Hb Hp. specialize (H bi Hb). destruct (s_ds r); [apply H|apply H]; auto.
Qed.

(** ** C23 *)
Definition ones : input := fun _ _ _ => 1.
Definition window (pad : padding) (f : nat) : geom := mkG pad [f] [1%nat].

(** [serial(Dense, FanOut(2), parallel(Identity(), ConvLocal), FanInSum(), GlobalAvgPool())]:
    the branch [Identity()] says nothing about [diagonal_spatial]. *)
Definition undeclared_net : net :=
  Seq [Leaf (LDense 1 1 None None);
       Par FanInSum [Leaf LIdent; Leaf (LConv false (window SAME 1) 1 1 None None)];
       Leaf (LGlobalPool true)].

Lemma undeclared_branch :
  exists t sp ch n1 x1 r full,
    Forall layer_consistent (layers t) /\ pools_unwrapped t sp
    /\ net_req t = Some (mkD YES YES)
    /\ eval t (input_kernel sp ch n1 x1 None false true false) = Ok r
    /\ eval t (input_kernel sp ch n1 x1 None false false false) = Ok full
    /\ ~ agrees_kernel r full.
Proof.
  exists undeclared_net, [2%nat], 1%nat, 1%nat, ones.
  set (D := input_kernel [2%nat] 1 1 ones None false true false).
  set (K := input_kernel [2%nat] 1 1 ones None false false false).
  exists (get D (eval undeclared_net D)), (get K (eval undeclared_net K)). split; [|split; [|split; [|split; [|split]]]].
  - repeat constructor.
  - cbn; auto.
  - reflexivity.
  - apply get_ok; lazy; reflexivity.
  - apply get_ok; lazy; reflexivity.
  - intros H. apply (agrees_nngp _ _ [0; 0]%nat []) in H; [|reflexivity|constructor].
    revert H; run; intros H. simpl INR in H. lra.
Qed.

(** [serial(ConvLocal, AvgPool((2,), padding='CIRCULAR'), Flatten())] on one position. *)
Definition wrapped_net : net :=
  Seq [Leaf (LConv false (window SAME 1) 1 1 None None);
       Leaf (LPool true false (window CIRCULAR 2)); Leaf LFlatten].

Lemma wrapped_pool :
  exists t sp ch n1 x1 r full,
    Forall layer_consistent (layers t) /\ branches_declared t
    /\ net_req t = Some (mkD YES YES)
    /\ eval t (input_kernel sp ch n1 x1 None false true false) = Ok r
    /\ eval t (input_kernel sp ch n1 x1 None false false false) = Ok full
    /\ ~ agrees_kernel r full.
Proof.
  exists wrapped_net, [1%nat], 1%nat, 1%nat, ones.
  set (D := input_kernel [1%nat] 1 1 ones None false true false).
  set (K := input_kernel [1%nat] 1 1 ones None false false false).
  exists (get D (eval wrapped_net D)), (get K (eval wrapped_net K)). split; [|split; [|split; [|split; [|split]]]].
  - repeat constructor.
  - cbn; auto.
  - reflexivity.
  - apply get_ok; lazy; reflexivity.
  - apply get_ok; lazy; reflexivity.
  - intros H. apply (agrees_nngp _ _ [0; 0]%nat []) in H; [|reflexivity|constructor].
    revert H; run; intros H. simpl INR in H. lra.
Qed.

(** A residual network with pooling inside, for which the shortcut is taken. *)
Definition square_nl : nonlin :=
  mkNl (fun n v w => v * w + 2 * (n * n)) (fun n _ _ => 4 * n) (fun n v w => v * w + 2 * (n * n)) (fun v => 3 * (v * v)).

Definition residual_net : net :=
  Seq [Leaf (LConv false (window SAME 2) 3 2 (Some 1) None);
       Leaf (LNonlin square_nl);
       Par FanInSum [Leaf (LConv false (window SAME 1) 3 1 None None);
                     Seq [Leaf (LConv false (window SAME 3) 3 1 (Some 1) None); Leaf (LNorm 1 [false]);
                          Leaf (LNonlin square_nl); Leaf (LConv false (window SAME 1) 3 2 None None)]];
       Leaf (LPool true false (window SAME 2));
       Leaf (LDropout (/ 2));
       Leaf LFlatten].

Lemma square_consistent : nl_consistent square_nl.
Proof. intros v Hv; cbn; split; nra. Qed.

Lemma residual_meets :
  Forall layer_consistent (layers residual_net) /\ branches_declared residual_net
  /\ pools_unwrapped residual_net [3%nat] /\ net_req residual_net = Some (mkD YES YES)
  /\ (exists r, eval residual_net (input_kernel [3%nat] 1 2 ones None true true true) = Ok r).
Proof.
  split; [|split; [|split; [|split]]].
  - cbn. repeat (apply Forall_cons; [cbn; auto using square_consistent; try lra|]); apply Forall_nil.
  - cbn. repeat split; auto. left; intros t [<-|[<-|[]]]; cbn; discriminate.
  - cbn. repeat split; auto; unfold geom_no_wrap; cbn; discriminate.
  - reflexivity.
  - apply is_ok_some; lazy; reflexivity.
Qed.

(** ** C26-C31 *)
Lemma residual_symmetric : Forall layer_symmetric (layers residual_net).
Proof. cbn. repeat (apply Forall_cons; [cbn; auto; intros; split; ring|]); apply Forall_nil. Qed.

Lemma residual_uniform : Forall layer_uniform (layers residual_net).
Proof.
  cbn. repeat (apply Forall_cons; [cbn; auto; try (split; [reflexivity|apply square_consistent]); try lra|]); apply Forall_nil.
Qed.

Lemma square_expands : expands (nl_nngp square_nl) /\ expands (nl_ntk square_nl).
Proof.
  split.
  - apply (expands_finite _ (fun r v => match r with 0%nat => v | 2%nat => sqrt 2 | _ => 0 end) 3).
    intros n v w; cbn. replace (n * (n * 1)) with (n * n) by ring.
    rewrite (sqrt_sqrt 2) by lra. ring.
  - apply (expands_finite _ (fun r v => match r with 1%nat => 2 | _ => 0 end) 2).
    intros n v w; cbn. ring.
Qed.

Lemma square_preserves : preserves_psd (nl_nngp square_nl) /\ preserves_psd (nl_ntk square_nl).
Proof. split; apply expands_preserves; apply square_expands. Qed.

Lemma residual_psd : Forall layer_psd (layers residual_net).
Proof.
  cbn. repeat (apply Forall_cons; [cbn; try exact square_preserves; auto; try lra|]); apply Forall_nil.
Qed.

(** Equal samples in different blocks. *)
Definition dropout_net : net := Seq [Leaf (LDense 1 1 None None); Leaf (LDropout (/ 2))].

Lemma tiny : 0 < / 1000000000000 < 1.
Proof. split; [apply Rinv_0_lt_compat; lra|]. rewrite <- Rinv_1. apply Rinv_lt_contravar; lra. Qed.

Lemma dropout_duplicates :
  exists t sp ch n b x1 u v r full s,
    u <> v /\ (in_block b u 0 < n)%nat /\ (in_block b v 0 < n)%nat
    /\ eval t (input_kernel sp ch n x1 None true false false) = Ok full
    /\ eval t (input_kernel sp ch b (pick (in_block b u) x1) (Some (b, pick (in_block b v) x1)) true false false) = Ok r
    /\ s_nngp r [0%nat; 0%nat] s <> s_nngp full [in_block b u 0; in_block b v 0] s.
Proof.
  exists dropout_net, [], 1%nat, 2%nat, 1%nat, ones, 0%nat, 1%nat.
  set (K := input_kernel [] 1 2 ones None true false false).
  set (D := input_kernel [] 1 1 (pick (in_block 1 0) ones) (Some (1%nat, pick (in_block 1 1) ones)) true false false).
  exists (get D (eval dropout_net D)), (get K (eval dropout_net K)), [[]; []].
  split; [discriminate|split; [unfold in_block; lia|split; [unfold in_block; lia|split; [|split]]]].
  - apply get_ok; lazy; reflexivity.
  - apply get_ok; lazy; reflexivity.
  - run. pose proof tiny as Ht.
    destruct (Rlt_dec (Rabs (1 - 1)) (/ 1000000000000)) as [_|Hn];
      [|exfalso; apply Hn; replace (1 - 1) with 0 by ring; rewrite Rabs_R0; lra].
    simpl INR. simpl pow. rewrite Rinv_inv. intros H. lra.
Qed.

Definition two_levels : input := fun i _ _ => INR (S i).

Lemma dropout_partial_match :
  exists t sp ch n b x1 x2 u r full s,
    (in_block b u 0 < n)%nat
    /\ eval t (input_kernel sp ch n x1 (Some (n, x2)) true false false) = Ok full
    /\ eval t (input_kernel sp ch b (pick (in_block b u) x1) (Some (b, pick (in_block b u) x2)) true false false) = Ok r
    /\ s_nngp r [0%nat; 0%nat] s <> s_nngp full [in_block b u 0; in_block b u 0] s.
Proof.
  exists dropout_net, [], 1%nat, 2%nat, 1%nat, ones, two_levels, 0%nat.
  set (K := input_kernel [] 1 2 ones (Some (2%nat, two_levels)) true false false).
  set (D := input_kernel [] 1 1 (pick (in_block 1 0) ones) (Some (1%nat, pick (in_block 1 0) two_levels)) true false false).
  exists (get D (eval dropout_net D)), (get K (eval dropout_net K)), [[]; []].
  split; [unfold in_block; lia|split; [|split]].
  - apply get_ok; lazy; reflexivity.
  - apply get_ok; lazy; reflexivity.
  - run. pose proof tiny as Ht. simpl INR.
    destruct (Rlt_dec (Rabs (1 - 1)) (/ 1000000000000)) as [_|Hn];
      [|exfalso; apply Hn; replace (1 - 1) with 0 by ring; rewrite Rabs_R0; lra].
    destruct (Rlt_dec (Rabs (1 - (1 + 1))) (/ 1000000000000)) as [Hn|_];
      [exfalso; replace (1 - (1 + 1)) with (-1) in Hn by ring; rewrite Rabs_left in Hn; lra|].
    simpl pow. rewrite Rinv_inv. intros H. lra.
Qed.

Lemma levels_differ :
  arrays_close 1 [] 1 (pick (in_block 1 0) two_levels) (pick (in_block 1 1) two_levels) = false.
Proof.
  run. simpl INR. pose proof tiny as Ht.
  destruct (Rlt_dec (Rabs (1 - (1 + 1))) (/ 1000000000000)) as [Hn|_]; auto.
  exfalso; replace (1 - (1 + 1)) with (-1) in Hn by ring; rewrite Rabs_left in Hn; lra.
Qed.
