(** Proofs about [Kernel] methods. *)
From Coq Require Import List Arith Lia Bool Permutation Field_theory.
From Verif Require Import Base Tensor Reshape Model_Axes Spec_Axes Proof_Axes Proof_Axes2 Model_Kernel Spec_Kernel.
Import ListNotations.

Lemma app_inj_len {A} (a b c d : list A) : a ++ b = c ++ d -> length a = length c -> a = c /\ b = d.
Proof.
  revert c; induction a as [|x a IH]; intros [|y c]; simpl; intros E L; try discriminate; auto.
  injection E as -> E. destruct (IH c E) as [-> ->]; auto.
Qed.

Lemma Forall2_nth_iff {A B} (R : A -> B -> Prop) l l' d d' :
  Forall2 R l l' <-> length l = length l' /\ forall i, i < length l -> R (nth i l d) (nth i l' d').
Proof.
  split.
  - induction 1 as [|x y l l' H F [IH1 IH2]]; simpl; split; try lia.
    intros [|i] Hi; auto; apply IH2; lia.
  - revert l'; induction l as [|x l IH]; intros [|y l'] [L H]; simpl in *; try discriminate; constructor.
    + apply (H 0); lia.
    + apply IH; split; [lia|]. intros i Hi; apply (H (S i)); lia.
Qed.

Lemma map_covs_spec {A} (f : nat -> tensor A -> result (tensor A))
      (P : nat -> tensor A -> Prop) (R : nat -> tensor A -> tensor A -> Prop) (k : kernel A) :
  (forall bn t, P bn t -> exists u, f bn t = Ok u /\ R bn t u) ->
  covs_all P k ->
  exists k', map_covs f k = Ok k' /\ covs_rel R k k' /\ same_rest k k'
             /\ k_is_reversed k' = k_is_reversed k.
Proof.
  intros H (H1 & H2 & H3 & H4); unfold map_covs.
  destruct (H _ _ H1) as (u1 & E1 & R1); rewrite E1; cbn [bind].
  destruct (H _ _ H3) as (u3 & E3 & R3).
  assert (exists o2, on_opt (f (batch_ndim k)) (k_cov2 k) = Ok o2 /\ opt_rel (R (batch_ndim k)) (k_cov2 k) o2) as (o2 & -> & R2).
  { destruct (k_cov2 k) as [t|]; simpl in *; [|now exists None].
    destruct (H _ _ H2) as (u & -> & Ru); now exists (Some u). }
  cbn [bind]. rewrite E3; cbn [bind].
  assert (exists o4, on_opt (f 2) (k_ntk k) = Ok o4 /\ opt_rel (R 2) (k_ntk k) o4) as (o4 & -> & R4).
  { destruct (k_ntk k) as [t|]; simpl in *; [|now exists None].
    destruct (H _ _ H4) as (u & -> & Ru); now exists (Some u). }
  cbn [bind]. eexists; split; [reflexivity|].
  unfold covs_rel, same_rest, replace_covs; simpl; intuition.
Qed.

Lemma full_layout_split {A} n bn (t : tensor A) : full_layout n bn t ->
  exists sb sp sq, length sb = bn /\ length sp = n /\ length sq = n /\ shape t = sb ++ interleave sp sq.
Proof.
  unfold full_layout, ndim; intros H.
  destruct (split_interleave (skipn bn (shape t)) n) as (p & q & E & Hp & Hq).
  { rewrite skipn_length; lia. }
  exists (firstn bn (shape t)), p, q; repeat split; auto.
  - rewrite firstn_length; lia.
  - rewrite <- E; symmetry; apply firstn_skipn.
Qed.

Lemma even_interleave {A} (p q : list A) : length p = length q ->
  Nat.even (length (interleave p q)) = true.
Proof. intros H; rewrite interleave_length by auto. apply Nat.even_spec; now exists (length p). Qed.

Lemma reverse_zipped_reverses {A} n bn (t : tensor A) : full_layout n bn t ->
  exists u, reverse_zipped t bn = Ok u /\ reverses n bn t u.
Proof.
  intros H; destruct (full_layout_split _ _ _ H) as (sb & sp & sq & Lb & Lp & Lq & Sh).
  destruct (reverse_zipped_spec t sb _ Sh) as (u & E & Su & Eu).
  { apply even_interleave; lia. }
  rewrite Lb in E; exists u; split; auto; split.
  - exists sb, sp, sq; repeat split; auto.
    rewrite Su, rev_pairs_interleave by lia; auto.
  - intros b p q Hb Hp Hq. rewrite <- rev_pairs_interleave by lia.
    apply Eu; [lia|]. rewrite !interleave_length by lia; lia.
Qed.

Lemma reverses_layout {A} n bn (t u : tensor A) : reverses n bn t u -> full_layout n bn u.
Proof.
  intros [(sb & sp & sq & L1 & L2 & L3 & S1 & S2) _]; unfold full_layout, ndim.
  rewrite S2, app_length, interleave_length; rewrite !rev_length; lia.
Qed.

Theorem k_reverse_spec {A} (k : kernel A) n :
  covs_all (full_layout n) k ->
  exists k', k_reverse k = Ok k' /\ covs_rel (reverses n) k k' /\ same_rest k k'
             /\ k_is_reversed k' = negb (k_is_reversed k).
Proof.
  intros H; unfold k_reverse.
  destruct (map_covs_spec (fun bn t => reverse_zipped t bn) (full_layout n) (reverses n) k)
    as (k' & -> & R & S & _); auto.
  { intros; now apply reverse_zipped_reverses. }
  simpl. eexists; split; [reflexivity|]. split; [exact R|]. split; [exact S|reflexivity].
Qed.

Lemma in_range_split sb s i : in_range (sb ++ s) i ->
  exists b j, i = b ++ j /\ in_range sb b /\ in_range s j.
Proof. apply in_range_app_inv. Qed.

Lemma reverses_twice {A} n bn (t u v : tensor A) :
  reverses n bn t u -> reverses n bn u v -> teq t v.
Proof.
  intros [(sb & sp & sq & L1 & L2 & L3 & S1 & S2) E1] [(sb' & sp' & sq' & L1' & L2' & L3' & S1' & S2') E2].
  assert (shape t = shape v) as Es.
  { rewrite S2 in S1'. apply app_inj_len in S1'; [|lia].
    destruct S1' as [<- S1']. rewrite S1, S2'.
    assert (interleave (rev sp') (rev sq') = rev_pairs (interleave sp' sq')) as -> by
      (rewrite rev_pairs_interleave; auto; lia).
    rewrite <- S1', rev_pairs_interleave, !rev_involutive by (rewrite !rev_length; lia); auto. }
  split; auto. intros i Hi; rewrite S1 in Hi.
  destruct (in_range_app_inv _ _ _ Hi) as (b & j & -> & Hb & Hj).
  apply in_range_length in Hb; apply in_range_length in Hj.
  rewrite interleave_length in Hj by lia.
  destruct (split_interleave j n) as (p & q & -> & Hp & Hq); [lia|].
  rewrite <- (rev_involutive p), <- (rev_involutive q), E2, E1 by (rewrite ?rev_length; lia).
  now rewrite !rev_involutive.
Qed.

Lemma opt_rel_comp {A B C} (R : A -> B -> Prop) (S : B -> C -> Prop) (T : A -> C -> Prop) o1 o2 o3 :
  (forall a b c, R a b -> S b c -> T a c) -> opt_rel R o1 o2 -> opt_rel S o2 o3 -> opt_rel T o1 o3.
Proof. destruct o1, o2, o3; simpl; intuition eauto. Qed.

Lemma covs_rel_comp {A B C} (R : nat -> tensor A -> tensor B -> Prop) (S : nat -> tensor B -> tensor C -> Prop)
      (T : nat -> tensor A -> tensor C -> Prop) k1 k2 k3 :
  (forall bn a b c, R bn a b -> S bn b c -> T bn a c) -> batch_ndim k1 = batch_ndim k2 ->
  covs_rel R k1 k2 -> covs_rel S k2 k3 -> covs_rel T k1 k3.
Proof.
  intros H E (A1 & A2 & A3 & A4) (B1 & B2 & B3 & B4); rewrite <- E in *.
  repeat split; eauto using opt_rel_comp.
Qed.

Lemma covs_rel_all {A B} (R : nat -> tensor A -> tensor B -> Prop) (P : nat -> tensor B -> Prop) k1 k2 :
  (forall bn a b, R bn a b -> P bn b) -> batch_ndim k1 = batch_ndim k2 ->
  covs_rel R k1 k2 -> covs_all P k2.
Proof.
  intros H E (A1 & A2 & A3 & A4); rewrite E in *.
  repeat split; eauto.
  - destruct (k_cov2 k2), (k_cov2 k1); simpl in *; try tauto; eauto.
  - destruct (k_ntk k2), (k_ntk k1); simpl in *; try tauto; eauto.
Qed.

Lemma same_rest_batch {A B} (k : kernel A) (k' : kernel B) : same_rest k k' -> batch_ndim k = batch_ndim k'.
Proof. unfold same_rest, batch_ndim; intros H; destruct H as (_ & _ & _ & -> & _); auto. Qed.

Lemma same_rest_trans {A B C} (k1 : kernel A) (k2 : kernel B) (k3 : kernel C) :
  same_rest k1 k2 -> same_rest k2 k3 -> same_rest k1 k3.
Proof. unfold same_rest; intuition congruence. Qed.

Theorem k_reverse_involutive {A} (k : kernel A) n :
  covs_all (full_layout n) k ->
  exists k' k'', k_reverse k = Ok k' /\ k_reverse k' = Ok k'' /\ kernel_eq k k''.
Proof.
  intros H. destruct (k_reverse_spec k n H) as (k' & E & R & S & V).
  pose proof (same_rest_batch _ _ S) as Hb.
  destruct (k_reverse_spec k' n) as (k'' & E' & R' & S' & V').
  { eapply covs_rel_all; eauto. intros; eapply reverses_layout; eauto. }
  exists k', k''. split; [auto|]. split; [auto|]. split; [|split].
  - apply (covs_rel_comp (reverses n) (reverses n) (fun _ => teq) k k' k''); auto.
    intros; eapply reverses_twice; eauto.
  - eapply same_rest_trans; eauto.
  - rewrite V', V; apply negb_involutive.
Qed.

(** * transpose *)

Lemma permute_permutes {A} ds axes n bn (t : tensor A) :
  is_perm n axes -> layout ds n bn t ->
  exists u, permute ds bn axes t = Ok u /\ permutes ds axes n bn t u.
Proof.
  intros Hp; destruct ds; simpl; intros Hl.
  - unfold diag_layout, ndim in Hl.
    assert (shape t = firstn bn (shape t) ++ skipn bn (shape t)) as Sh by (symmetry; apply firstn_skipn).
    assert (length (firstn bn (shape t)) = bn) as L1 by (rewrite firstn_length; lia).
    assert (length (skipn bn (shape t)) = n) as L2 by (rewrite skipn_length; lia).
    destruct (permute_diag_spec t axes _ _ Sh) as (u & E & Su & Eu); [now rewrite L2|].
    rewrite L1 in E; exists u; split; auto; split.
    + exists (firstn bn (shape t)), (skipn bn (shape t)); auto.
    + intros; apply Eu; lia.
  - destruct (full_layout_split _ _ _ Hl) as (sb & sp & sq & Lb & Lp & Lq & Sh).
    destruct (permute_full_spec t axes _ _ _ Sh) as (u & E & Su & Eu); [lia|now rewrite Lp|].
    rewrite Lb in E; exists u; split; auto; split.
    + exists sb, sp, sq; auto.
    + intros; apply Eu; lia.
Qed.

Theorem k_transpose_spec {A} (k : kernel A) axes n :
  is_perm n axes -> covs_all (layout (k_diagonal_spatial k) n) k ->
  exists k', k_transpose k (Some axes) = Ok k'
    /\ covs_rel (permutes (k_diagonal_spatial k) axes n) k k' /\ same_rest k k'
    /\ k_is_reversed k' = k_is_reversed k.
Proof.
  intros Hp H; unfold k_transpose.
  apply (map_covs_spec (fun bn => permute (k_diagonal_spatial k) bn axes)
    (layout (k_diagonal_spatial k) n)); auto.
  intros; now apply permute_permutes.
Qed.

Lemma permuted_seq l n : length l = n -> permuted (seq 0 n) l = l.
Proof. intros <-; apply map_nth_seq_all. Qed.

Lemma permutes_seq {A} ds n bn (t u : tensor A) : permutes ds (seq 0 n) n bn t u -> teq t u.
Proof.
  destruct ds; intros [Hs He]; split.
  - destruct Hs as (sb & sp & L1 & L2 & S1 & S2). rewrite S1, S2, permuted_seq; auto.
  - destruct Hs as (sb & sp & L1 & L2 & S1 & S2). intros i Hi; rewrite S1 in Hi.
    destruct (in_range_app_inv _ _ _ Hi) as (b & j & -> & Hb & Hj).
    apply in_range_length in Hb; apply in_range_length in Hj.
    rewrite <- He by lia. rewrite permuted_seq by lia; auto.
  - destruct Hs as (sb & sp & sq & L1 & L2 & L3 & S1 & S2). rewrite S1, S2, !permuted_seq; auto.
  - destruct Hs as (sb & sp & sq & L1 & L2 & L3 & S1 & S2). intros i Hi; rewrite S1 in Hi.
    destruct (in_range_app_inv _ _ _ Hi) as (b & j & -> & Hb & Hj).
    apply in_range_length in Hb; apply in_range_length in Hj.
    rewrite interleave_length in Hj by lia.
    destruct (split_interleave j n) as (p & q & -> & Hp & Hq); [lia|].
    rewrite <- He by lia. rewrite !permuted_seq by lia; auto.
Qed.

Lemma opt_rel_impl {A B} (R S : A -> B -> Prop) o o' :
  (forall a b, R a b -> S a b) -> opt_rel R o o' -> opt_rel S o o'.
Proof. destruct o, o'; simpl; auto. Qed.

Lemma covs_rel_impl {A B} (R S : nat -> tensor A -> tensor B -> Prop) k k' :
  (forall bn a b, R bn a b -> S bn a b) -> covs_rel R k k' -> covs_rel S k k'.
Proof.
  intros H (A1 & A2 & A3 & A4); repeat split; auto; (eapply opt_rel_impl; [intros ? ?; apply H|]; auto).
Qed.

(** No [axes]: identity. *)
Theorem k_transpose_none {A} (k : kernel A) n :
  length (k_shape1 k) = n + 2 -> covs_all (layout (k_diagonal_spatial k) n) k ->
  exists k', k_transpose k None = Ok k' /\ kernel_eq k k'.
Proof.
  intros Hn H. unfold k_transpose. rewrite Hn. replace (n + 2 - 2) with n by lia.
  destruct (k_transpose_spec k (seq 0 n) n) as (k' & E & R & S & V); auto.
  { apply Permutation_refl. }
  exists k'; split; auto. split; [|split; auto].
  eapply covs_rel_impl; [|exact R]. intros bn a b; apply permutes_seq.
Qed.

Lemma in_range_permuted axes sp p n : length sp = n -> (forall a, In a axes -> a < n) ->
  in_range sp p -> in_range (permuted axes sp) (permuted axes p).
Proof.
  intros Ln Hax H. unfold permuted. induction axes as [|a axes IH]; simpl; constructor.
  - assert (a < length sp) by (rewrite Ln; apply Hax; simpl; auto).
    clear - H H0. revert a H0; induction H as [|x s p sp Hx H IH]; intros a Ha; simpl in *; [lia|].
    destruct a; auto. apply IH; lia.
  - apply IH; intros; apply Hax; simpl; auto.
Qed.

Lemma unpermute axes n (p' : list nat) : is_perm n axes -> length p' = n ->
  exists p, length p = n /\ permuted axes p = p'.
Proof.
  intros Hp Hl. exists (map (fun j => nth (index_of j axes) p' 0) (seq 0 n)).
  split; [now rewrite map_length, seq_length|].
  unfold permuted. pose proof (is_perm_length _ _ Hp) as Ha.
  set (f := fun a => nth a _ 0).
  transitivity (map f (map (fun a => nth a axes 0) (seq 0 n))).
  { rewrite <- Ha, map_nth_seq_all; auto. }
  transitivity (map (fun a => nth a p' 0) (seq 0 n)); [|rewrite <- Hl; apply map_nth_seq_all].
  rewrite map_map; subst f; cbv beta.
  apply map_ext_in; intros i Hi; apply in_seq in Hi.
  assert (nth i axes 0 < n) as Hn by (apply (is_perm_In _ _ _ Hp), nth_In; lia).
  rewrite (nth_indep (map (fun j => nth (index_of j axes) p' 0) (seq 0 n)) 0 (nth (index_of 0 axes) p' 0))
    by (rewrite map_length, seq_length; auto).
  rewrite (map_nth (fun j => nth (index_of j axes) p' 0)).
  rewrite seq_nth by auto. simpl. rewrite index_of_nth; auto; [|lia].
  now apply is_perm_NoDup in Hp.
Qed.

Lemma interleave_inj {A} (p q p' q' : list A) : interleave p q = interleave p' q' ->
  length p = length q -> length p' = length q' -> p = p' /\ q = q'.
Proof.
  revert q p' q'; induction p as [|x p IH]; intros [|y q] [|x' p'] [|y' q']; simpl; intros E L L';
    try discriminate; auto.
  injection E as -> -> E. destruct (IH q p' q' E) as [-> ->]; auto.
Qed.

Lemma spatial_diagonal_permutes {A} axes n bn (t d t' d' : tensor A) :
  is_perm n axes -> spatial_diagonal n bn t d ->
  permutes_full axes n bn t t' -> permutes_diag axes n bn d d' ->
  spatial_diagonal n bn t' d'.
Proof.
  intros Hp (sb & sp & Lb & Lp & St & Sd & E) [(sb1 & sp1 & sq1 & L1 & L2 & L3 & S1 & S1') E1]
    [(sb2 & sp2 & L1' & L2' & S2 & S2') E2].
  assert (sb1 = sb /\ sp1 = sp /\ sq1 = sp) as (-> & -> & ->).
  { rewrite St in S1. apply app_inj_len in S1; [|lia]. destruct S1 as [-> S1].
    split; auto. apply interleave_inj in S1; try lia. intuition. }
  assert (sb2 = sb /\ sp2 = sp) as (-> & ->).
  { rewrite Sd in S2; apply app_inj_len in S2; [|lia]. intuition. }
  exists sb, (permuted axes sp); repeat split; auto.
  - unfold permuted; rewrite map_length. now apply is_perm_length.
  - intros b p' Hb Hp'.
    pose proof (in_range_length _ _ Hb). pose proof (in_range_length _ _ Hp') as Lp'.
    unfold permuted in Lp'; rewrite map_length, (is_perm_length _ _ Hp) in Lp'.
    destruct (unpermute axes n p' Hp) as (p & Hlen & <-); [lia|].
    rewrite E2, E1 by lia. apply E; auto.
    (* p in range *)
    apply (Forall2_nth_iff lt p sp 0 0); split; [lia|]. intros i Hi.
    assert (In i axes) as Hin by (apply (is_perm_In _ _ _ Hp); lia).
    pose proof (Forall2_nth_iff lt (permuted axes p) (permuted axes sp) 0 0) as [F _].
    destruct (F Hp') as [_ F']. clear F.
    specialize (F' (index_of i axes)). unfold permuted in F'.
    rewrite map_length in F'. specialize (F' (index_of_lt _ _ Hin)).
    rewrite !(nth_indep (map _ axes) 0 (nth 0 p 0)) in F' by (rewrite map_length; now apply index_of_lt).
    rewrite (map_nth (fun a => nth a p 0)) in F'.
    rewrite (nth_indep (map _ axes) (nth 0 p 0) (nth 0 sp 0)) in F' by (rewrite map_length; now apply index_of_lt).
    rewrite (map_nth (fun a => nth a sp 0)) in F'.
    now rewrite nth_index_of in F'.
Qed.

Lemma opt_rel_comp2 {A} (R S T U : A -> A -> Prop) o1 o2 o3 o4 :
  (forall a b c d, R a b -> S a c -> T b d -> U c d) ->
  opt_rel R o1 o2 -> opt_rel S o1 o3 -> opt_rel T o2 o4 -> opt_rel U o3 o4.
Proof. destruct o1, o2, o3, o4; simpl; intuition eauto. Qed.

(** Transposing and taking the spatial diagonal commute. *)
Theorem k_transpose_diagonal {A} (k d k' d' : kernel A) axes n :
  is_perm n axes -> k_diagonal_spatial k = false -> k_diagonal_spatial d = true ->
  k_diagonal_batch k = k_diagonal_batch d ->
  covs_rel (spatial_diagonal n) k d ->
  k_transpose k (Some axes) = Ok k' -> k_transpose d (Some axes) = Ok d' ->
  covs_rel (spatial_diagonal n) k' d'.
Proof.
  intros Hp Hk Hd Hb R Ek Ed.
  assert (covs_all (layout (k_diagonal_spatial k) n) k) as Lk.
  { rewrite Hk. destruct R as (R1 & R2 & R3 & R4).
    assert (forall bn (a b : tensor A), spatial_diagonal n bn a b -> full_layout n bn a) as F.
    { intros bn a b (sb & sp & Lb & Lp & Sa & _). unfold full_layout, ndim.
      rewrite Sa, app_length, interleave_length; lia. }
    repeat split; simpl; eauto.
    - destruct (k_cov2 k), (k_cov2 d); simpl in *; try tauto; eauto.
    - destruct (k_ntk k), (k_ntk d); simpl in *; try tauto; eauto. }
  assert (batch_ndim k = batch_ndim d) as Bkd by (unfold batch_ndim; now rewrite Hb).
  assert (covs_all (layout (k_diagonal_spatial d) n) d) as Ld.
  { rewrite Hd. eapply covs_rel_all; [|exact Bkd|exact R].
    intros bn a b (sb & sp & Lb & Lp & Sa & Sb & _). unfold layout, diag_layout, ndim.
    rewrite Sb, app_length; lia. }
  destruct (k_transpose_spec k axes n Hp Lk) as (k1 & E1 & R1 & S1 & _).
  destruct (k_transpose_spec d axes n Hp Ld) as (d1 & E2 & R2 & S2 & _).
  rewrite Ek in E1; injection E1 as <-. rewrite Ed in E2; injection E2 as <-.
  rewrite Hk in R1; rewrite Hd in R2. unfold permutes in *.
  pose proof (same_rest_batch _ _ S1) as B1. 
  destruct R as (Q1 & Q2 & Q3 & Q4), R1 as (P1 & P2 & P3 & P4), R2 as (T1 & T2 & T3 & T4).
  rewrite <- Bkd in T1, T2.
  assert (forall bn (t d t' d' : tensor A), spatial_diagonal n bn t d ->
  permutes_full axes n bn t t' -> permutes_diag axes n bn d d' ->
  spatial_diagonal n bn t' d') as K by (intros; eapply spatial_diagonal_permutes; eauto).
  unfold covs_rel. rewrite <- B1.
  repeat split; eauto; eapply opt_rel_comp2; eauto; eauto.
Qed.

(** * arithmetic *)
Lemma tmap_tmap {A B C} (g : B -> C) (f : A -> B) t : tmap g (tmap f t) = tmap (fun x => g (f x)) t.
Proof. reflexivity. Qed.

Lemma tmap_ext {A B} (f g : A -> B) t : (forall x, f x = g x) -> teq (tmap f t) (tmap g t).
Proof. intros H; split; auto; intros i _; simpl; auto. Qed.

Lemma tmap_id {A} (f : A -> A) t : (forall x, f x = x) -> teq (tmap f t) t.
Proof. intros H; split; auto; intros i _; simpl; auto. Qed.

Section Arith.
  Context {A : Type} (zero one : A) (add mul sub : A -> A -> A) (opp inv : A -> A) (div : A -> A -> A).
  Hypothesis F : field_theory zero one add mul sub opp div inv eq.

  Lemma covs_rel_tmap (R : nat -> tensor A -> tensor A -> Prop) f k :
    (forall bn t, R bn t (tmap f t)) ->
    covs_rel R k (replace_covs k (tmap f (k_cov1 k)) (tmap f (k_nngp k))
      (option_map (tmap f) (k_cov2 k)) (option_map (tmap f) (k_ntk k))).
  Proof.
    intros H; unfold covs_rel, replace_covs; simpl. repeat split; auto.
    - destruct (k_cov2 k); simpl; auto.
    - destruct (k_ntk k); simpl; auto.
  Qed.

  Lemma k_div_mul k c : c <> zero -> kernel_eq k (k_truediv mul inv (k_mul mul k c) c).
  Proof.
    intros Hc. destruct F as [Rt _ _ Hinv]. destruct Rt.
    assert (forall x, mul (mul (inv c) (inv c)) (mul (mul c c) x) = x) as E.
    { intros x. rewrite Rmul_assoc, <- (Rmul_assoc (inv c)), (Rmul_assoc (inv c) c c), Hinv by auto.
      rewrite Rmul_1_l, Hinv, Rmul_1_l; auto. }
    unfold kernel_eq, k_truediv, k_mul, same_rest, covs_rel, replace_covs; simpl.
    repeat split; try (intros; simpl; rewrite ?E; reflexivity).
    - destruct (k_cov2 k); simpl; auto. split; auto. intros; simpl; now rewrite E.
    - destruct (k_ntk k); simpl; auto. split; auto. intros; simpl; now rewrite E.
  Qed.

  Lemma k_mul_div k c : c <> zero -> kernel_eq k (k_mul mul (k_truediv mul inv k c) c).
  Proof.
    intros Hc. destruct F as [Rt _ _ Hinv]. destruct Rt.
    assert (forall x, mul (mul c c) (mul (mul (inv c) (inv c)) x) = x) as E.
    { intros x. rewrite Rmul_assoc, <- (Rmul_assoc c), (Rmul_assoc c (inv c)), (Rmul_comm c (inv c)), Hinv by auto.
      rewrite Rmul_1_l, (Rmul_comm c), Hinv, Rmul_1_l; auto. }
    unfold kernel_eq, k_truediv, k_mul, same_rest, covs_rel, replace_covs; simpl.
    repeat split; try (intros; simpl; rewrite ?E; reflexivity).
    - destruct (k_cov2 k); simpl; auto. split; auto. intros; simpl; now rewrite E.
    - destruct (k_ntk k); simpl; auto. split; auto. intros; simpl; now rewrite E.
  Qed.
End Arith.

(** Array functions that only move entries commute with entrywise maps. *)
Definition natural {A} (f : tensor A -> result (tensor A)) : Prop :=
  forall g t, f (tmap g t) = rmap (tmap g) (f t).

Lemma map_covs_tmap {A} (f : nat -> tensor A -> result (tensor A)) (g h : A -> A) k :
  (forall bn, natural (f bn)) ->
  map_covs f (replace_covs k (tmap g (k_cov1 k)) (tmap g (k_nngp k))
      (option_map (tmap g) (k_cov2 k)) (option_map (tmap h) (k_ntk k)))
  = rmap (fun k => replace_covs k (tmap g (k_cov1 k)) (tmap g (k_nngp k))
      (option_map (tmap g) (k_cov2 k)) (option_map (tmap h) (k_ntk k))) (map_covs f k).
Proof.
  intros N; unfold map_covs; cbn [k_cov1 k_cov2 k_nngp k_ntk replace_covs].
  change (batch_ndim (replace_covs _ _ _ _ _)) with (batch_ndim k).
  rewrite (N _ g (k_cov1 k)). destruct (f (batch_ndim k) (k_cov1 k)) as [c1|e]; cbn [rmap bind]; auto.
  destruct (k_cov2 k) as [c2|]; cbn [option_map on_opt].
  - rewrite (N _ g c2). destruct (f (batch_ndim k) c2) as [c2'|e]; cbn [rmap bind]; auto.
    rewrite (N _ g (k_nngp k)). destruct (f 2 (k_nngp k)) as [n1|e]; cbn [rmap bind]; auto.
    destruct (k_ntk k) as [n2|]; cbn [option_map on_opt bind rmap]; auto.
    rewrite (N _ h n2). destruct (f 2 n2); cbn [rmap bind]; auto.
  - cbn [bind].
    rewrite (N _ g (k_nngp k)). destruct (f 2 (k_nngp k)) as [n1|e]; cbn [rmap bind]; auto.
    destruct (k_ntk k) as [n2|]; cbn [option_map on_opt bind rmap]; auto.
    rewrite (N _ h n2). destruct (f 2 n2); cbn [rmap bind]; auto.
Qed.

Lemma natural_permute {A} ds bn axes : natural (A:=A) (permute ds bn axes).
Proof.
  intros g t; unfold permute, ndim; simpl.
  destruct (_ && _); reflexivity.
Qed.

Lemma natural_reverse_zipped {A} bn : natural (A:=A) (fun t => reverse_zipped t bn).
Proof.
  intros g t; unfold reverse_zipped, moveaxis, ndim; simpl.
  destruct (_ && _); reflexivity.
Qed.

Lemma option_map_id {A} (o : option A) : option_map (fun x => x) o = o.
Proof. now destruct o. Qed.

Lemma k_mul_transpose {A} mul (k : kernel A) c axes :
  k_transpose (k_mul mul k c) axes = rmap (fun k => k_mul mul k c) (k_transpose k axes).
Proof. unfold k_transpose, k_mul; apply map_covs_tmap; intros; apply natural_permute. Qed.

Lemma k_mul_reverse {A} mul (k : kernel A) c :
  k_reverse (k_mul mul k c) = rmap (fun k => k_mul mul k c) (k_reverse k).
Proof.
  unfold k_reverse, k_mul; rewrite map_covs_tmap by (intros; apply natural_reverse_zipped).
  destruct (map_covs _ k); reflexivity.
Qed.

Lemma tmap_id_eq {A} (t : tensor A) : tmap (fun x => x) t = t.
Proof. destruct t; reflexivity. Qed.

Lemma k_add_as {A} add mul (k : kernel A) c :
  k_add add mul k c = replace_covs k (tmap (add (mul c c)) (k_cov1 k)) (tmap (add (mul c c)) (k_nngp k))
    (option_map (tmap (add (mul c c))) (k_cov2 k)) (option_map (tmap (fun x => x)) (k_ntk k)).
Proof. unfold k_add. destruct (k_ntk k); simpl; rewrite ?tmap_id_eq; auto. Qed.

Lemma rmap_ext {A B} (f g : A -> B) r : (forall a, f a = g a) -> rmap f r = rmap g r.
Proof. intros H; destruct r; simpl; now rewrite ?H. Qed.

Lemma k_add_transpose {A} add mul (k : kernel A) c axes :
  k_transpose (k_add add mul k c) axes = rmap (fun k => k_add add mul k c) (k_transpose k axes).
Proof.
  erewrite (rmap_ext (fun k => k_add add mul k c)) by (intros; apply k_add_as).
  rewrite k_add_as. unfold k_transpose; apply map_covs_tmap; intros; apply natural_permute.
Qed.

Lemma k_add_reverse {A} add mul (k : kernel A) c :
  k_reverse (k_add add mul k c) = rmap (fun k => k_add add mul k c) (k_reverse k).
Proof.
  rewrite k_add_as; unfold k_reverse; rewrite map_covs_tmap by (intros; apply natural_reverse_zipped).
  destruct (map_covs _ k); simpl; auto. now rewrite k_add_as.
Qed.

Lemma k_mul_slice {A} mul (k : kernel A) c n1 n2 :
  k_slice (k_mul mul k c) n1 n2 = k_mul mul (k_slice k n1 n2) c.
Proof.
  unfold k_slice, k_mul; simpl. destruct (k_cov2 k), (k_ntk k); simpl; auto;
    unfold ndim; simpl; destruct (_ =? _); reflexivity.
Qed.

Lemma k_add_slice {A} add mul (k : kernel A) c n1 n2 :
  k_slice (k_add add mul k c) n1 n2 = k_add add mul (k_slice k n1 n2) c.
Proof.
  unfold k_slice, k_add; simpl. destruct (k_cov2 k), (k_ntk k); simpl; auto;
    unfold ndim; simpl; destruct (_ =? _); reflexivity.
Qed.

Lemma k_add_spec {A} (add mul : A -> A -> A) (k : kernel A) c :
  let k' := k_add add mul k c in
  entrywise (add (mul c c)) (k_cov1 k) (k_cov1 k')
  /\ opt_rel (entrywise (add (mul c c))) (k_cov2 k) (k_cov2 k')
  /\ entrywise (add (mul c c)) (k_nngp k) (k_nngp k')
  /\ k_ntk k' = k_ntk k /\ same_rest k k' /\ k_is_reversed k' = k_is_reversed k.
Proof.
  cbv zeta; unfold k_add, entrywise, same_rest; simpl. intuition.
  destruct (k_cov2 k); simpl; auto.
Qed.

Lemma k_mul_spec {A} (mul : A -> A -> A) (k : kernel A) c :
  covs_rel (fun _ => entrywise (mul (mul c c))) k (k_mul mul k c)
  /\ same_rest k (k_mul mul k c) /\ k_is_reversed (k_mul mul k c) = k_is_reversed k.
Proof.
  split; [|split; [|reflexivity]].
  - apply (covs_rel_tmap (fun _ => entrywise (mul (mul c c)))). intros; split; auto.
  - unfold same_rest; simpl; intuition.
Qed.
