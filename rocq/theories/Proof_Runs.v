(** Comparing runs on related inputs: C26, C27, C29, C30. *)
From Coq Require Import List Arith Lia Bool Reals Lra.
From Verif Require Import Base Model_Req Model_Geom Spec_Geom Proof_Geom Model_Net Spec_Net Proof_Net Proof_Pull.
Import ListNotations.
Local Open Scope R_scope.

Lemma close_sym a b : close a b = close b a.
Proof. unfold close. rewrite Rabs_minus_sym; reflexivity. Qed.

Lemma close_refl a : close a a = true.
Proof.
  unfold close. destruct (Rlt_dec _ _) as [|H]; auto. exfalso; apply H.
  rewrite Rminus_diag_eq, Rabs_R0 by auto. apply Rinv_0_lt_compat; lra.
Qed.

Lemma forallb_ext' {A} (f g : A -> bool) l : (forall a, f a = g a) -> forallb f l = forallb g l.
Proof. intros H; induction l; simpl; congruence. Qed.

Lemma arrays_close_sym n sp ch x y : arrays_close n sp ch x y = arrays_close n sp ch y x.
Proof. unfold arrays_close. do 3 (apply forallb_ext'; intros ?). apply close_sym. Qed.

Lemma arrays_close_refl n sp ch x : arrays_close n sp ch x x = true.
Proof.
  unfold arrays_close. do 3 (apply forallb_forall; intros ? _). apply close_refl.
Qed.

Lemma gram_map ch x y f g bi bi' s :
  bi' <> [] -> hd 0%nat bi = f (hd 0%nat bi') -> last bi 0%nat = g (last bi' 0%nat) ->
  gram ch x y bi s = gram ch (pick f x) (pick g y) bi' s.
Proof. intros Hn A B; unfold gram, pick; rewrite A, B; reflexivity. Qed.

Definition second (x1 : input) (x2 : option (nat * input)) : input := match x2 with Some (_, x) => x | None => x1 end.
Definition size2 (n1 : nat) (x2 : option (nat * input)) : nat := match x2 with Some (n, _) => n | None => n1 end.

Lemma input_k_cov2 sp ch n1 x1 x2 db ds ntk :
  k_cov2 (input_kernel sp ch n1 x1 x2 db ds ntk) = gram ch (second x1 x2) (second x1 x2).
Proof. destruct x2 as [[n x]|]; reflexivity. Qed.

(** Inputs of which the second run sees a selection. *)
Lemma input_pick f g sp ch n1 x1 x2 n1' x1' x2' db ds ntk :
  x1' = pick f x1 -> second x1' x2' = pick g (second x1 x2) ->
  pulled false f g (is_none x2) (is_none x2') db
    (s_same (input_kernel sp ch n1 x1 x2 db ds ntk)) (s_same (input_kernel sp ch n1' x1' x2' db ds ntk))
    n1 (size2 n1 x2) n1' (size2 n1' x2')
    (input_kernel sp ch n1 x1 x2 db ds ntk) (input_kernel sp ch n1' x1' x2' db ds ntk).
Proof.
  intros E1 E2. constructor; try reflexivity.
  - destruct x2; reflexivity.
  - destruct x2'; reflexivity.
  - intros bi s bi' s' (L & _ & -> & ->). cbn [side_a input_kernel s_cov1]. rewrite E1.
    assert (bi' <> []) as Hn by (apply (nd_nonnil db); auto).
    apply gram_map; auto; [apply hd_map|apply last_map]; auto.
  - unfold side_b. rewrite !input_k_cov2, E2. intros bi s bi' s' (L & _ & -> & ->).
    assert (bi' <> []) as Hn by (apply (nd_nonnil db); auto).
    apply gram_map; auto; [apply hd_map|apply last_map]; auto.
  - intros bi s bi' s' (i & j & _ & _ & -> & -> & ->).
    change (gram ch x1 (second x1 x2) [f i; g j] s' = gram ch x1' (second x1' x2') [i; j] s').
    rewrite E1 at 1. rewrite E2. apply gram_map; auto; discriminate.
  - destruct ntk; cbn; auto. intros ? ? ? ? _; reflexivity.
Qed.

Lemma second_cov_k k : second_cov k = k_cov2 k.
Proof. reflexivity. Qed.

Lemma same_outcome_of {A} (P Q : A -> A -> Prop) r r' :
  rres P r r' -> (forall a b, P a b -> Q a b) -> same_outcome Q r r'.
Proof. destruct r, r'; simpl; auto. Qed.

Lemma pulled_selected f g o o' db same same' N1 N2 N1' N2' k k' :
  pulled false f g o o' db same same' N1 N2 N1' N2' k k' -> selected f g k k'.
Proof.
  intros [].
  assert (forall c c', prel (pn false f g N1' N2') c c' -> picked f g k' c c') as Hpn.
  { intros c c' H i j s Hi Hj. symmetry; apply H. exists i, j; repeat split; auto; congruence. }
  assert (batch_ndim k' = nd db) as Hb by (unfold batch_ndim, nd; rewrite pu_db'; reflexivity).
  unfold selected, cov_index. rewrite Hb, pu_n1', pu_n2'.
  split; [repeat split; congruence|].
  split; [auto|]. split.
  - unfold ntk_related; destruct (s_ntk k), (s_ntk k'); simpl in *; auto.
  - split; intros bi s [L B]; symmetry; [apply pu_a|apply pu_b]; repeat split; auto.
Qed.

Lemma pulled_transposed o db same same' N1 N2 k k' :
  pulled true (fun i => i) (fun i => i) o o db same same' N1 N2 N2 N1 k k' -> transposed k k'.
Proof.
  intros [].
  assert (forall c c', prel (pn true (fun i => i) (fun i => i) N2 N1) c c' -> flipped k c c') as Hpn.
  { intros c c' H i j s Hi Hj. apply H. exists j, i; repeat split; auto; try congruence.
    rewrite rev_involutive; auto. }
  assert (batch_ndim k = nd db) as Hb by (unfold batch_ndim, nd; rewrite pu_db; reflexivity).
  unfold transposed, cov_index. rewrite Hb, pu_n1, pu_n2, pu_n1', pu_n2'.
  split; [repeat split; congruence|]. split; [auto|]. split; [auto|].
  split; [auto|]. split.
  - unfold ntk_related; destruct (s_ntk k), (s_ntk k'); simpl in *; auto.
  - split; intros bi s [L B]; [apply pu_b|apply pu_a]; repeat split; auto; symmetry; apply map_id.
Qed.

Lemma gram_flip ch x y bi bi' s :
  hd 0%nat bi = last bi' 0%nat -> last bi 0%nat = hd 0%nat bi' ->
  gram ch x y bi (rev s) = gram ch y x bi' s.
Proof.
  intros A B; unfold gram; rewrite A, B, hd_rev, last_rev. f_equal. apply lsum_ext; intros; apply Rmult_comm.
Qed.

Lemma symmetric_pull_ok l same N1 N2 :
  layer_symmetric l ->
  pull_ok true (fun i => i) (fun i => i) same same N1 N2 N2 N1 l.
Proof.
  intros H. destruct l; cbn; auto.
  split; [auto|split; [auto|]]. intros i j _ _. rewrite (Nat.eqb_sym N1 N2). reflexivity.
Qed.

(** C26 *)
Theorem symmetric_runs t sp ch n1 x1 n2 x2 db ds ntk :
  Forall layer_symmetric (layers t) ->
  same_outcome transposed (eval t (input_kernel sp ch n1 x1 (Some (n2, x2)) db ds ntk))
                          (eval t (input_kernel sp ch n2 x2 (Some (n1, x1)) db ds ntk)).
Proof.
  intros Hs.
  set (same := s_same (input_kernel sp ch n1 x1 (Some (n2, x2)) db ds ntk)).
  apply (same_outcome_of (pulled true (fun i => i) (fun i => i) false false db same same n1 n2 n2 n1)).
  2:{ intros a b; apply pulled_transposed. }
  apply pulled_eval.
  { eapply Forall_impl; [|exact Hs]. intros l; apply symmetric_pull_ok; auto. }
  constructor; try reflexivity.
  - cbn. rewrite Nat.eqb_sym. destruct (Nat.eqb_spec n1 n2) as [->|]; [|reflexivity].
    simpl. apply arrays_close_sym.
  - intros bi s bi' s' (L & _ & -> & ->). rewrite map_id; reflexivity.
  - intros bi s bi' s' (L & _ & -> & ->). rewrite map_id; reflexivity.
  - intros bi s bi' s' (i & j & _ & _ & -> & -> & ->). apply gram_flip; reflexivity.
  - destruct ntk; cbn; auto. intros ? ? ? ? _; reflexivity.
Qed.

Theorem symmetric_self t sp ch n1 x1 db ds ntk :
  Forall layer_symmetric (layers t) ->
  same_outcome transposed (eval t (input_kernel sp ch n1 x1 None db ds ntk))
                          (eval t (input_kernel sp ch n1 x1 None db ds ntk)).
Proof.
  intros Hs.
  apply (same_outcome_of (pulled true (fun i => i) (fun i => i) true true db true true n1 n1 n1 n1)).
  2:{ intros a b; apply pulled_transposed. }
  apply pulled_eval.
  { eapply Forall_impl; [|exact Hs]. intros l; apply symmetric_pull_ok; auto. }
  constructor; try reflexivity.
  - intros bi s bi' s' (L & _ & -> & ->). rewrite map_id; reflexivity.
  - intros bi s bi' s' (L & _ & -> & ->). rewrite map_id; reflexivity.
  - intros bi s bi' s' (i & j & _ & _ & -> & -> & ->). apply gram_flip; reflexivity.
  - destruct ntk; cbn; auto. intros ? ? ? ? _; reflexivity.
Qed.

(** C27 *)
Theorem omitted_input t sp ch n1 x1 db ds ntk :
  same_outcome (selected (fun i => i) (fun i => i))
    (eval t (input_kernel sp ch n1 x1 None db ds ntk))
    (eval t (input_kernel sp ch n1 x1 (Some (n1, x1)) db ds ntk)).
Proof.
  apply (same_outcome_of (pulled false (fun i => i) (fun i => i) true false db true true n1 n1 n1 n1)).
  2:{ intros a b; apply pulled_selected. }
  apply pulled_eval.
  { apply Forall_forall; intros l _. destruct l; cbn; auto; try discriminate.
    split; [auto|split; [auto|]]. intros; reflexivity. }
  pose proof (input_pick (fun i => i) (fun i => i) sp ch n1 x1 None n1 x1 (Some (n1, x1)) db ds ntk) as H.
  replace (s_same (input_kernel sp ch n1 x1 (Some (n1, x1)) db ds ntk)) with true in H
    by (cbn; rewrite Nat.eqb_refl, arrays_close_refl; reflexivity).
  apply H; reflexivity.
Qed.

Lemma runs_selected t f g o o' db same same' N1 N2 N1' N2' k k' :
  pulled false f g o o' db same same' N1 N2 N1' N2' k k' ->
  Forall (pull_ok false f g same same' N1 N2 N1' N2') (layers t) ->
  same_outcome (selected f g) (eval t k) (eval t k').
Proof.
  intros H Hl. apply (same_outcome_of (pulled false f g o o' db same same' N1 N2 N1' N2')).
  - apply pulled_eval; auto.
  - intros a b; apply pulled_selected.
Qed.

(** C29 *)
Lemma select_runs t sp ch n1 x1 x2 m1 m2 f g db ds ntk x2' :
  Forall no_dropout (layers t) ->
  second (pick f x1) x2' = pick g (second x1 x2) -> size2 m1 x2' = m2 ->
  same_outcome (selected f g)
    (eval t (input_kernel sp ch n1 x1 x2 db ds ntk))
    (eval t (input_kernel sp ch m1 (pick f x1) x2' db ds ntk)).
Proof.
  intros Hd E _.
  eapply runs_selected; [apply input_pick; auto|].
  eapply Forall_impl; [|exact Hd]. intros l Hl; destruct l; cbn in *; auto; try tauto; discriminate.
Qed.

Theorem select_pair t sp ch n1 x1 n2 x2 m1 m2 f g db ds ntk :
  Forall no_dropout (layers t) ->
  same_outcome (selected f g)
    (eval t (input_kernel sp ch n1 x1 (Some (n2, x2)) db ds ntk))
    (eval t (input_kernel sp ch m1 (pick f x1) (Some (m2, pick g x2)) db ds ntk)).
Proof. intros H; apply (select_runs t sp ch n1 x1 _ m1 m2 f g); auto. Qed.

Theorem select_self t sp ch n1 x1 m f db ds ntk :
  Forall no_dropout (layers t) ->
  same_outcome (selected f f)
    (eval t (input_kernel sp ch n1 x1 None db ds ntk))
    (eval t (input_kernel sp ch m (pick f x1) None db ds ntk)).
Proof. intros H; apply (select_runs t sp ch n1 x1 _ m m f f); auto. Qed.

Theorem select_blocks_self t sp ch n1 x1 m1 m2 f g db ds ntk :
  Forall no_dropout (layers t) ->
  same_outcome (selected f g)
    (eval t (input_kernel sp ch n1 x1 None db ds ntk))
    (eval t (input_kernel sp ch m1 (pick f x1) (Some (m2, pick g x1)) db ds ntk)).
Proof. intros H; apply (select_runs t sp ch n1 x1 _ m1 m2 f g); auto. Qed.

(** C30 *)
Lemma in_block_inj b u i j : in_block b u i = in_block b u j -> i = j.
Proof. unfold in_block; lia. Qed.

Lemma in_block_disj b u v i j : (i < b)%nat -> (j < b)%nat -> in_block b u i = in_block b v j -> u = v.
Proof. unfold in_block; intros. nia. Qed.

Theorem dropout_blocks_self t sp ch n b x1 u v db ds ntk :
  (u <> v -> arrays_close b sp ch (pick (in_block b u) x1) (pick (in_block b v) x1) = false) ->
  same_outcome (selected (in_block b u) (in_block b v))
    (eval t (input_kernel sp ch n x1 None db ds ntk))
    (eval t (input_kernel sp ch b (pick (in_block b u) x1) (Some (b, pick (in_block b v) x1)) db ds ntk)).
Proof.
  intros Hc.
  eapply runs_selected; [apply input_pick; reflexivity|].
  apply Forall_forall; intros l _; destruct l; cbn; auto; try discriminate.
  split; [|split]; cbn.
  - intros i j _ _; apply in_block_inj.
  - intros i j _ _; apply in_block_inj.
  - intros i j Hi Hj. rewrite !Nat.eqb_refl; cbn.
    destruct (Nat.eq_dec u v) as [->|Huv].
    + rewrite arrays_close_refl, !andb_true_r.
      destruct (Nat.eqb_spec i j), (Nat.eqb_spec (in_block b v i) (in_block b v j)); auto; subst; try congruence.
      exfalso; eauto using in_block_inj.
    + rewrite (Hc Huv), andb_false_r, andb_true_r.
      destruct (Nat.eqb_spec (in_block b u i) (in_block b v j)) as [E|]; auto.
      exfalso; apply Huv. apply (in_block_disj b u v i j); auto.
Qed.

Theorem dropout_blocks_pair t sp ch n1 x1 n2 x2 b1 b2 u v db ds ntk :
  ((n1 =? n2)%nat && arrays_close n1 sp ch x1 x2 = false) ->
  ((b1 =? b2)%nat && arrays_close b1 sp ch (pick (in_block b1 u) x1) (pick (in_block b2 v) x2) = false) ->
  same_outcome (selected (in_block b1 u) (in_block b2 v))
    (eval t (input_kernel sp ch n1 x1 (Some (n2, x2)) db ds ntk))
    (eval t (input_kernel sp ch b1 (pick (in_block b1 u) x1) (Some (b2, pick (in_block b2 v) x2)) db ds ntk)).
Proof.
  intros H1 H2.
  eapply runs_selected; [apply input_pick; reflexivity|].
  apply Forall_forall; intros l _; destruct l; cbn; auto; try discriminate.
  rewrite H1, H2. split; [|split]; cbn.
  - intros i j _ _; apply in_block_inj.
  - intros i j _ _; apply in_block_inj.
  - intros i j Hi Hj. rewrite !andb_false_r; reflexivity.
Qed.
