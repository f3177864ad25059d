(** Proofs about batching. *)
From Coq Require Import List Arith Lia Bool String.
From Verif Require Import Base Tensor Reshape Model_Kernel Model_Batching Spec_Batching.
Import ListNotations.
Local Open Scope nat_scope.
Local Open Scope list_scope.

(** * The plan (C09) *)

Lemma plan_spec n1 n2 bs dc B1 b1 B2 b2 :
  0 < bs -> 0 < dc -> get_n_batches_and_batch_sizes n1 n2 bs dc = Ok (B1, b1, B2, b2) ->
  (0 < b2 /\ B1 * b1 = n1 /\ B2 * b2 = n2 /\ b2 <= bs /\ b1 = dc * b2 /\ dc * b2 <= Nat.gcd n1 n2)
  \/ (Nat.gcd n1 n2 < dc /\ B1 = 0 /\ b1 = 0 /\ B2 = 0 /\ b2 = 0).
Proof.
  intros Hbs Hdc; unfold get_n_batches_and_batch_sizes, np_divmod.
  set (m := Nat.min bs (Nat.gcd n1 n2 / dc)).
  destruct (Nat.eqb_spec (m * dc) 0) as [E|E].
  - assert (m = 0) as Em by nia.
    destruct (Nat.eqb_spec m 0) as [E2|E2]; [|lia]. simpl.
    intros H; injection H as <- <- <- <-. right. rewrite Em; repeat split; auto.
    assert (Nat.gcd n1 n2 / dc = 0) as Eg by lia.
    apply Nat.div_small_iff in Eg; lia.
  - destruct (Nat.eqb_spec (n1 mod (m * dc)) 0) as [E1|E1]; simpl; [|discriminate].
    destruct (Nat.eqb_spec m 0) as [E2|E2]; [lia|].
    destruct (Nat.eqb_spec (n2 mod m) 0) as [E3|E3]; simpl; [|discriminate].
    intros H; injection H as <- <- <- <-. left.
    pose proof (Nat.div_mod n1 (m * dc) E). pose proof (Nat.div_mod n2 m E2).
    repeat split; try lia.
    assert (m <= Nat.gcd n1 n2 / dc) by (subst m; lia).
    pose proof (Nat.mul_div_le (Nat.gcd n1 n2) dc ltac:(lia)). nia.
Qed.

Lemma plan_single_device n1 n2 bs :
  0 < n1 -> 0 < n2 -> Nat.gcd n1 n2 <= bs ->
  get_n_batches_and_batch_sizes n1 n2 bs 1
  = Ok (n1 / Nat.gcd n1 n2, Nat.gcd n1 n2, n2 / Nat.gcd n1 n2, Nat.gcd n1 n2).
Proof.
  intros H1 H2 Hb; unfold get_n_batches_and_batch_sizes, np_divmod.
  rewrite Nat.div_1_r, Nat.min_r, Nat.mul_1_r by lia.
  pose proof (Nat.gcd_divide_l n1 n2) as [a Ha]. pose proof (Nat.gcd_divide_r n1 n2) as [b Hb'].
  assert (Nat.gcd n1 n2 <> 0) as G by (intros E; apply Nat.gcd_eq_0_l in E; lia).
  rewrite (proj2 (Nat.eqb_neq _ _) G).
  rewrite (proj2 (Nat.mod_divide n1 _ G)), (proj2 (Nat.mod_divide n2 _ G)) by
    (apply Nat.gcd_divide_l || apply Nat.gcd_divide_r).
  reflexivity.
Qed.

(** The plan refuses exactly when a size is not divisible (or gives the all-zero
    plan, which the following reshape refuses). *)
Lemma plan_complete n1 n2 bs dc :
  0 < bs -> 0 < dc -> dc <= Nat.gcd n1 n2 ->
  let b2 := Nat.min bs (Nat.gcd n1 n2 / dc) in
  ((exists p, get_n_batches_and_batch_sizes n1 n2 bs dc = Ok p)
   <-> (Nat.divide (b2 * dc) n1 /\ Nat.divide b2 n2)).
Proof.
  intros Hbs Hdc Hg b2.
  assert (1 <= Nat.gcd n1 n2 / dc) as G by (apply Nat.div_le_lower_bound; lia).
  assert (0 < b2) by (subst b2; lia).
  unfold get_n_batches_and_batch_sizes, np_divmod. fold b2.
  rewrite (proj2 (Nat.eqb_neq (b2 * dc) 0)) by nia.
  rewrite (proj2 (Nat.eqb_neq b2 0)) by lia.
  split.
  - intros [p Hp].
    destruct (Nat.eqb_spec (n1 mod (b2 * dc)) 0) as [E1|E1]; simpl in Hp; [|discriminate].
    destruct (Nat.eqb_spec (n2 mod b2) 0) as [E2|E2]; simpl in Hp; [|discriminate].
    split; apply Nat.mod_divide; auto; nia.
  - intros [D1 D2]. apply Nat.mod_divide in D1; [|nia]. apply Nat.mod_divide in D2; [|nia].
    rewrite D1, D2; simpl; eauto.
Qed.

(** * Lists *)

Lemma mapM_ok {A B} (f : A -> result B) l (P : A -> B -> Prop) :
  (forall a, In a l -> exists b, f a = Ok b /\ P a b) ->
  exists l', mapM f l = Ok l' /\ Forall2 P l l'.
Proof.
  induction l as [|a l IH]; intros H; simpl; [eauto|].
  destruct (H a) as (b & -> & Pb); simpl; auto.
  destruct IH as (l' & -> & F); [intros; apply H; simpl; auto|].
  simpl; eauto.
Qed.

Lemma mapM_Forall2 {A B} (f : A -> result B) l l' :
  mapM f l = Ok l' -> Forall2 (fun a b => f a = Ok b) l l'.
Proof.
  revert l'; induction l as [|a l IH]; simpl; intros l' H.
  - injection H as <-; constructor.
  - destruct (f a) as [b|] eqn:E; simpl in H; [|discriminate].
    destruct (mapM f l) as [m|]; simpl in H; [|discriminate].
    injection H as <-; constructor; auto.
Qed.

Lemma Forall2_map_r {A B C} (R : A -> C -> Prop) (f : B -> C) l l' :
  Forall2 (fun a b => R a (f b)) l l' <-> Forall2 R l (map f l').
Proof.
  split.
  - induction 1; simpl; constructor; auto.
  - revert l'; induction l; intros [|b l'] H; inversion H; subst; constructor; auto.
Qed.

Lemma Forall2_map_l {A B C} (R : C -> B -> Prop) (f : A -> C) l l' :
  Forall2 (fun a b => R (f a) b) l l' <-> Forall2 R (map f l) l'.
Proof.
  split.
  - induction 1; simpl; constructor; auto.
  - revert l'; induction l; intros [|b l'] H; inversion H; subst; constructor; auto.
Qed.

Lemma Forall2_seq_nth {B} (P : nat -> B -> Prop) s n l d :
  Forall2 P (seq s n) l -> List.length l = n /\ forall i, i < n -> P (s + i) (nth i l d).
Proof.
  revert s l; induction n as [|n IH]; intros s l H; inversion H; subst; simpl; [split; auto; lia|].
  destruct (IH _ _ H4) as [L N]. split; auto.
  intros [|i] Hi; [now rewrite Nat.add_0_r|].
  replace (s + S i) with (S s + i) by lia. apply N; lia.
Qed.

Lemma shape_eqb_refl s : shape_eqb s s = true.
Proof. induction s; simpl; rewrite ?Nat.eqb_refl; auto. Qed.

(** * Stacking *)

(** [ts] stacked gives [T]. *)
Definition stacks {R} (ts : list (tensor R)) (s : list nat) (T : tensor R) : Prop :=
  shape T = List.length ts :: s
  /\ forall i r t, nth_error ts i = Some t -> entry T (i :: r) = entry t r.

Lemma stack_ok {R} (ts : list (tensor R)) s :
  ts <> [] -> (forall t, In t ts -> shape t = s) ->
  exists T, stack ts = Ok T /\ stacks ts s T.
Proof.
  intros Hne H. destruct ts as [|t ts]; [congruence|]. unfold stack.
  assert (shape t = s) as St by (apply H; simpl; auto).
  replace (forallb (fun u => shape_eqb (shape u) (shape t)) ts) with true.
  - eexists; split; [reflexivity|]. split; [simpl; now rewrite St|].
    intros i r u Hu; cbn [entry hd tl]. now rewrite (nth_error_nth _ _ t Hu).
  - symmetry; apply forallb_forall; intros u Hu. rewrite St, (H u) by (simpl; auto). apply shape_eqb_refl.
Qed.

Definition ostacks {R} (ts : list (option (tensor R))) (s : option (list nat)) (T : option (tensor R)) : Prop :=
  option_map shape T = option_map (cons (List.length ts)) s
  /\ forall i r o, nth_error ts i = Some o -> oentry T (i :: r) = oentry o r.

Lemma all_some_map {A} (l : list (option A)) (l' : list A) : l = map Some l' -> all_some l = Some l'.
Proof. intros ->; induction l'; simpl; auto. now rewrite IHl'. Qed.

Lemma all_some_ex {A} (l : list (option A)) : (forall o, In o l -> o <> None) -> exists l', l = map Some l'.
Proof.
  induction l as [|[a|] l IH]; intros H; [now exists []| |].
  - destruct IH as [l' ->]; [intros; apply H; simpl; auto|]. now exists (a :: l').
  - exfalso; apply (H None); simpl; auto.
Qed.

Lemma stack_opt_ok {R} (ts : list (option (tensor R))) s :
  ts <> [] -> (forall t, In t ts -> option_map shape t = s) ->
  exists T, stack_opt ts = Ok T /\ ostacks ts s T.
Proof.
  intros Hne H. unfold stack_opt. destruct s as [s|].
  - destruct (all_some_ex ts) as [l ->].
    { intros o Ho E; subst; apply H in Ho; discriminate. }
    replace (forallb _ _) with false.
    2:{ destruct l; simpl in *; congruence. }
    rewrite (all_some_map _ l) by auto.
    destruct (stack_ok l s) as (T & -> & S & E).
    { intros ->; apply Hne; auto. }
    { intros t Ht. specialize (H (Some t) (in_map Some _ _ Ht)). simpl in H; congruence. }
    exists (Some T); split; auto. split; simpl.
    + now rewrite S, map_length.
    + intros i r o Ho. rewrite nth_error_map in Ho. destruct (nth_error l i) eqn:El; [|discriminate].
      injection Ho as <-; simpl. erewrite E; eauto.
  - assert (forall t, In t ts -> t = None) as Hn.
    { intros t Ht; apply H in Ht; destruct t; auto; discriminate. }
    replace (forallb _ ts) with true.
    + exists None; split; auto. split; auto. intros i r o Ho; apply nth_error_In in Ho.
      rewrite (Hn _ Ho); auto.
    + symmetry; apply forallb_forall; intros t Ht; rewrite (Hn _ Ht); auto.
Qed.

(** * Flattening *)

Lemma merge01_spec {R} (K : tensor R) B b o : shape K = B :: b :: o ->
  exists T, merge01 K = Ok T /\ shape T = B * b :: o
    /\ forall i a r, i < B -> a < b -> in_range o r -> entry T (i * b + a :: r) = entry K (i :: a :: r).
Proof.
  intros S; unfold merge01; rewrite S; cbn [nth skipn].
  destruct (reshape_ok (B * b :: o) K) as [T E]; [rewrite S; simpl; lia|].
  exists T; split; auto. split; [now apply reshape_shape in E|].
  intros i a r Hi Ha Hr. apply (reshape_entry _ _ _ _ _ E).
  - rewrite S; repeat constructor; auto.
  - rewrite S; simpl. nia.
Qed.

Lemma flatten_pair {R} (K : tensor R) B1 B2 b1 b2 o : shape K = B1 :: B2 :: b1 :: b2 :: o ->
  exists T, flatten_batch_dimensions K false None = Ok T /\ shape T = B1 * b1 :: B2 * b2 :: o
    /\ forall i j a c r, i < B1 -> j < B2 -> a < b1 -> c < b2 -> in_range o r ->
       entry T (i * b1 + a :: j * b2 + c :: r) = entry K (i :: j :: a :: c :: r).
Proof.
  intros S; unfold flatten_batch_dimensions.
  assert (ndim K = 4 + List.length o) as N by (unfold ndim; now rewrite S).
  rewrite N. replace (4 + List.length o <? 4) with false by (symmetry; apply Nat.ltb_ge; lia).
  replace (4 + List.length o - 4) with (List.length o) by lia.
  assert (forall x y z w (l : list nat), List.length l = List.length o ->
    map (fun p => nth p (x :: y :: z :: w :: l) 0) ([0; 2; 1; 3] ++ seq 4 (List.length o)) = x :: z :: y :: w :: l) as M.
  { intros x y z w l Hl. rewrite map_app. simpl map at 1.
    rewrite map_nth_seq by (simpl; lia). simpl skipn. rewrite <- Hl, firstn_all. reflexivity. }
  set (P := [0; 2; 1; 3] ++ seq 4 (List.length o)) in *.
  assert (is_perm (ndim K) P) as HP.
  { rewrite N; unfold is_perm, P. rewrite seq_app. simpl.
    apply Permutation.perm_skip, Permutation.perm_swap. }
  set (K' := transpose P K).
  assert (shape K' = B1 :: b1 :: B2 :: b2 :: o) as S' by (unfold K'; rewrite transpose_shape, S; apply M; auto).
  rewrite S'. cbn [nth skipn].
  destruct (reshape_ok (B1 * b1 :: B2 * b2 :: o) K') as [T E]; [rewrite S'; simpl; lia|].
  exists T; split; auto. split; [now apply reshape_shape in E|].
  intros i j a c r Hi Hj Ha Hc Hr.
  rewrite (reshape_entry _ _ _ _ (i :: a :: j :: c :: r) E).
  - unfold K'. rewrite <- (M i j a c r) by now apply in_range_length.
    apply transpose_entry; auto. rewrite N; simpl; f_equal; f_equal; f_equal; f_equal. now apply in_range_length.
  - rewrite S'; repeat constructor; auto.
  - rewrite S'; simpl. nia.
Qed.

Lemma flatten_first {R} (K : tensor R) B1 B2 b1 o : shape K = B1 :: B2 :: b1 :: o -> 0 < B2 ->
  exists T, flatten_batch_dimensions K false (Some 1) = Ok T /\ shape T = B1 * b1 :: o
    /\ forall i a r, i < B1 -> a < b1 -> in_range o r ->
       entry T (i * b1 + a :: r) = entry K (i :: 0 :: a :: r).
Proof.
  intros S H2; unfold flatten_batch_dimensions; cbn [negb].
  destruct (merge01_spec (take_first 1 K) B1 b1 o) as (T & E & ST & ET).
  { unfold take_first; simpl; now rewrite S. }
  exists T; split; [exact E|split; [exact ST|exact ET]].
Qed.

Lemma flatten_second {R} (K : tensor R) B1 B2 b2 o : shape K = B1 :: B2 :: b2 :: o ->
  exists T, flatten_batch_dimensions K false (Some 0) = Ok T /\ shape T = B2 * b2 :: o
    /\ forall j c r, j < B2 -> c < b2 -> in_range o r ->
       entry T (j * b2 + c :: r) = entry K (0 :: j :: c :: r).
Proof.
  intros S; unfold flatten_batch_dimensions; cbn [negb].
  destruct (merge01_spec (take_first 0 K) B2 b2 o) as (T & E & ST & ET).
  { unfold take_first; simpl; now rewrite S. }
  exists T; split; [exact E|split; [exact ST|exact ET]].
Qed.

(** * Inputs *)

Lemma batch_input_spec {A} (x : tensor A) B b s : shape x = B * b :: s ->
  exists y, batch_input x B b = Ok y /\ shape y = B :: b :: s
    /\ forall i, i < B -> shape (lead i y) = b :: s
       /\ forall a, a < b -> same_sample s (lead i y) a x (i * b + a).
Proof.
  intros S; unfold batch_input; rewrite S; cbn [tl].
  destruct (reshape_ok (B :: b :: s) x) as [y E]; [rewrite S; simpl; lia|].
  pose proof (reshape_shape _ _ _ E) as Sy.
  exists y; split; auto. split; auto. intros i Hi; split.
  - unfold lead; simpl; now rewrite Sy.
  - intros a Ha r Hr. unfold lead; simpl. apply (reshape_entry _ _ _ _ _ E).
    + rewrite S; constructor; auto. nia.
    + rewrite S; simpl. nia.
Qed.

Lemma batch_kwargs_spec {A} (kw : kwargs A) B1 b1 B2 b2 ss1 ss2 :
  samples (B1 * b1) ss1 (kw1 kw) -> samples (B2 * b2) ss2 (kw2 kw) ->
  exists kws, batch_kwargs kw B1 b1 B2 b2 = Ok kws
    /\ forall i j, i < B1 -> j < B2 ->
       map fst (lead_kwargs i j kws) = map fst kw
       /\ samples b1 ss1 (kw1 (lead_kwargs i j kws)) /\ samples b2 ss2 (kw2 (lead_kwargs i j kws))
       /\ (forall a, a < b1 -> same_samples ss1 (kw1 (lead_kwargs i j kws)) a (kw1 kw) (i * b1 + a))
       /\ (forall c, c < b2 -> same_samples ss2 (kw2 (lead_kwargs i j kws)) c (kw2 kw) (j * b2 + c)).
Proof.
  revert ss1 ss2; induction kw as [|[key [v1 v2]] kw IH]; intros ss1 ss2 H1 H2.
  - inversion H1; inversion H2; subst. exists []; split; auto.
    intros; repeat split; intros; constructor.
  - unfold samples in *; simpl in H1, H2.
    inversion H1 as [|s1 ? ss1' ? Hv1 Hr1]; inversion H2 as [|s2 ? ss2' ? Hv2 Hr2]; subst.
    destruct (IH _ _ Hr1 Hr2) as (kws & E & Hk).
    destruct (batch_input_spec v1 B1 b1 s1 Hv1) as (y1 & E1 & _ & Y1).
    destruct (batch_input_spec v2 B2 b2 s2 Hv2) as (y2 & E2 & _ & Y2).
    unfold batch_kwargs in *; simpl. rewrite E1, E2; simpl. rewrite E; simpl.
    eexists; split; [reflexivity|]. intros i j Hi Hj.
    destruct (Hk i j Hi Hj) as (K1 & K2 & K3 & K4 & K5).
    destruct (Y1 i Hi) as [S1 Q1]. destruct (Y2 j Hj) as [S2 Q2].
    simpl. repeat split.
    + now f_equal.
    + constructor; auto.
    + constructor; auto.
    + intros a Ha; constructor; auto. now apply K4.
    + intros c Hc; constructor; auto. now apply K5.
Qed.

(** All blocks of a call are calls, with the right samples. *)
Lemma blocks_ok {A} g B1 b1 B2 b2 (x1 x2 : tensor A) kw :
  call g (B1 * b1) (B2 * b2) x1 x2 kw ->
  exists x1s x2s kws, batch_input x1 B1 b1 = Ok x1s /\ batch_input x2 B2 b2 = Ok x2s
    /\ batch_kwargs kw B1 b1 B2 b2 = Ok kws
    /\ forall i j, i < B1 -> j < B2 ->
       call g b1 b2 (lead i x1s) (lead j x2s) (lead_kwargs i j kws)
       /\ (forall a, a < b1 -> same1 g (lead i x1s) (lead_kwargs i j kws) a x1 kw (i * b1 + a))
       /\ (forall c, c < b2 -> same2 g (lead j x2s) (lead_kwargs i j kws) c x2 kw (j * b2 + c)).
Proof.
  intros (S1 & S2 & N & K1 & K2).
  destruct (batch_input_spec x1 B1 b1 _ S1) as (y1 & E1 & _ & Y1).
  destruct (batch_input_spec x2 B2 b2 _ S2) as (y2 & E2 & _ & Y2).
  destruct (batch_kwargs_spec kw B1 b1 B2 b2 _ _ K1 K2) as (kws & E & Hk).
  exists y1, y2, kws. repeat (split; auto).
  - apply Y1; auto.
  - apply Y2; auto.
  - destruct (Hk i j) as (Q & _); auto. congruence.
  - apply Hk; auto.
  - apply Hk; auto.
  - apply Y1; auto.
  - apply Hk; auto.
  - apply Y2; auto.
  - apply Hk; auto.
Qed.

Lemma div_mod_block i B b : i < B * b -> i / b < B /\ i mod b < b /\ i = i / b * b + i mod b.
Proof.
  intros H. assert (b <> 0) by nia. pose proof (Nat.div_mod i b ltac:(auto)).
  pose proof (Nat.mod_upper_bound i b ltac:(auto)).
  split; [apply Nat.div_lt_upper_bound; lia|]. split; auto. lia.
Qed.

(** Same with one data set split only (parallel). *)
Lemma same_sample_refl {A} s (x : tensor A) i : same_sample s x i x i.
Proof. intros r _; reflexivity. Qed.

Lemma same_samples_refl {A} n ss (vs : list (tensor A)) i : samples n ss vs -> same_samples ss vs i vs i.
Proof.
  unfold samples, same_samples; induction 1; simpl; constructor; auto. apply same_sample_refl.
Qed.

Lemma same1_refl {A} g n1 n2 (x1 x2 : tensor A) kw i : call g n1 n2 x1 x2 kw -> same1 g x1 kw i x1 kw i.
Proof. intros (_ & _ & _ & K & _); split; [apply same_sample_refl|eapply same_samples_refl; eauto]. Qed.
Lemma same2_refl {A} g n1 n2 (x1 x2 : tensor A) kw i : call g n1 n2 x1 x2 kw -> same2 g x2 kw i x2 kw i.
Proof. intros (_ & _ & _ & _ & K); split; [apply same_sample_refl|eapply same_samples_refl; eauto]. Qed.

(** * Serial batching of array-valued kernel functions (C10) *)

Lemma double_scan_array {R} (blk : nat -> nat -> result (tensor R)) B1 B2 s :
  0 < B1 -> 0 < B2 ->
  (forall i j, i < B1 -> j < B2 -> exists t, blk i j = Ok t /\ shape t = s) ->
  exists K, double_scan array_ops blk B1 B2 = Ok K /\ shape K = B1 :: B2 :: s
    /\ forall i j r t, i < B1 -> j < B2 -> blk i j = Ok t -> entry K (i :: j :: r) = entry t r.
Proof.
  intros H1 H2 H; unfold double_scan; cbn [o_stack array_ops].
  destruct (mapM_ok (fun i => bind (mapM (fun j => blk i j) (seq 0 B2)) stack) (seq 0 B1)
    (fun i T => shape T = B2 :: s /\ forall j r t, j < B2 -> blk i j = Ok t -> entry T (j :: r) = entry t r))
    as (rows & -> & F).
  - intros i Hi; apply in_seq in Hi.
    destruct (mapM_ok (fun j => blk i j) (seq 0 B2) (fun j t => blk i j = Ok t /\ shape t = s)) as (l & -> & F).
    { intros j Hj; apply in_seq in Hj. destruct (H i j) as (t & E & S); [lia|lia|]. eauto. }
    assert (List.length l = B2) as L by (apply Forall2_length in F; now rewrite seq_length in F).
    simpl bind. destruct (stack_ok l s) as (T & E & S & ET).
    { destruct l; simpl in L; [lia|congruence]. }
    { intros t Ht. clear - F Ht. induction F; simpl in Ht; [tauto|]. destruct Ht as [<-|Ht]; tauto. }
    exists T; split; auto. split; [congruence|].
    intros j r t Hj Et. apply ET.
    pose proof (Forall2_seq_nth _ 0 B2 l T F) as [_ N]. destruct (N j Hj) as [N1 _]. simpl in N1.
    rewrite Et in N1; injection N1 as ->. apply nth_error_nth'; lia.
  - assert (List.length rows = B1) as L by (apply Forall2_length in F; now rewrite seq_length in F).
    simpl bind. destruct (stack_ok rows (B2 :: s)) as (T & E & S & ET).
    { destruct rows; simpl in L; [lia|congruence]. }
    { intros t Ht. clear - F Ht. induction F; simpl in Ht; [tauto|]. destruct Ht as [<-|Ht]; tauto. }
    exists T; split; auto. split; [congruence|].
    intros i j r t Hi Hj Et.
    pose proof (Forall2_seq_nth _ 0 B1 rows T F) as [_ N]. destruct (N i Hi) as [N1 N2].
    rewrite (ET i (j :: r) (nth i rows T)) by (apply nth_error_nth'; lia). apply N2; auto.
Qed.

(** [F'] is what is run on the blocks; it may itself be batched. *)
Theorem serial_array_gen {A R} g o (F F' : kernel_fn_t A (tensor R)) bs dc n1 n2 x1 x2 kw B1 b1 B2 b2 :
  pairwise_array g o F -> call g n1 n2 x1 (match x2 with Some x => x | None => x1 end) kw ->
  0 < n1 -> 0 < n2 -> 0 < bs -> 0 < dc ->
  get_n_batches_and_batch_sizes n1 n2 bs dc = Ok (B1, b1, B2, b2) -> 0 < b2 ->
  (forall y1 y2 kw', call g b1 b2 y1 y2 kw' ->
     exists t u, F' y1 (Some y2) kw' = Ok t /\ F y1 (Some y2) kw' = Ok u /\ teq t u) ->
  exists t u, serial_fn_x1 array_ops F' bs dc x1 x2 kw = Ok t
    /\ F x1 (Some (match x2 with Some x => x | None => x1 end)) kw = Ok u /\ teq t u.
Proof.
  intros [Hex Hloc] Hc P1 P2 Hbs Hdc Hplan Hb2 Hag.
  destruct (plan_spec _ _ _ _ _ _ _ _ Hbs Hdc Hplan) as [(_ & E1 & E2 & _ & _ & _)|(_ & _ & _ & _ & Z)]; [|lia].
  unfold serial_fn_x1.
  set (x2' := match x2 with Some x => x | None => x1 end) in *.
  destruct (Hex _ _ _ _ _ Hc) as (u & Eu & Su).
  pose proof Hc as (S1 & S2 & _).
  rewrite S1, S2; cbn [hd]. rewrite Hplan; cbn [bind].
  rewrite <- E1, <- E2 in Hc.
  destruct (blocks_ok _ _ _ _ _ _ _ _ Hc) as (x1s & x2s & kws & -> & -> & -> & Hblk). cbn [bind].
  assert (forall i j, i < B1 -> j < B2 -> exists t' t,
     F' (lead i x1s) (Some (lead j x2s)) (lead_kwargs i j kws) = Ok t'
     /\ F (lead i x1s) (Some (lead j x2s)) (lead_kwargs i j kws) = Ok t
     /\ teq t' t /\ shape t' = b1 :: b2 :: o) as HF'.
  { intros i j Hi Hj. destruct (Hblk i j Hi Hj) as (Hcall & _).
    destruct (Hag _ _ _ Hcall) as (t' & t & Et' & Et & Ht). exists t', t; repeat (split; auto).
    destruct (Hex _ _ _ _ _ Hcall) as (t2 & Et2 & St2). rewrite Et in Et2; injection Et2 as <-.
    destruct Ht; congruence. }
  destruct (double_scan_array
     (fun i j => F' (lead i x1s) (Some (lead j x2s)) (lead_kwargs i j kws)) B1 B2 (b1 :: b2 :: o))
    as (K & EK & SK & HK); [nia|nia| |].
  { intros i j Hi Hj. destruct (HF' i j Hi Hj) as (t' & t & ? & ? & ? & ?); eauto. }
  rewrite EK; cbn [bind o_flatten array_ops]. unfold flatten_array.
  destruct (flatten_pair K _ _ _ _ _ SK) as (T & ET & ST & HT).
  exists T, u; split; auto. split; auto. split; [congruence|].
  intros idx Hidx. rewrite ST in Hidx. inversion Hidx as [|i ? idx1 ? Hi Hidx1]; subst.
  inversion Hidx1 as [|j ? r ? Hj Hr]; subst.
  destruct (div_mod_block i B1 b1 Hi) as (I1 & I2 & I3).
  destruct (div_mod_block j B2 b2 Hj) as (J1 & J2 & J3).
  destruct (Hblk (i / b1) (j / b2) I1 J1) as (Hcall & Hs1 & Hs2).
  destruct (HF' (i / b1) (j / b2) I1 J1) as (t' & t & Et' & Et & [_ Ht] & St).
  rewrite I3, J3, HT by auto. rewrite (HK _ _ _ _ I1 J1 Et').
  rewrite Ht by (rewrite St; constructor; auto; constructor; auto).
  apply (Hloc _ _ _ _ _ _ _ _ _ _ t u (i mod b1) (j mod b2) _ _ r Hcall Hc Et Eu); auto; nia.
Qed.

Lemma teq_refl {R} (t : tensor R) : teq t t.
Proof. split; auto. Qed.

Theorem serial_array {A R} g o (F : kernel_fn_t A (tensor R)) bs dc n1 n2 x1 x2 kw B1 b1 B2 b2 :
  pairwise_array g o F -> call g n1 n2 x1 (match x2 with Some x => x | None => x1 end) kw ->
  0 < n1 -> 0 < n2 -> 0 < bs -> 0 < dc ->
  get_n_batches_and_batch_sizes n1 n2 bs dc = Ok (B1, b1, B2, b2) -> 0 < b2 ->
  exists t u, serial_fn_x1 array_ops F bs dc x1 x2 kw = Ok t
    /\ F x1 (Some (match x2 with Some x => x | None => x1 end)) kw = Ok u /\ teq t u.
Proof.
  intros HF Hc P1 P2 Hbs Hdc Hplan Hb2.
  apply (serial_array_gen g o F F bs dc n1 n2 x1 x2 kw B1 b1 B2 b2); auto.
  intros y1 y2 kw' Hc'. destruct HF as [Hex _]. destruct (Hex _ _ _ _ _ Hc') as (t & ? & ?).
  exists t, t; repeat split; auto.
Qed.

(** * Parallel batching (C14) *)

(** Pair arguments with only the first member split. *)
Lemma pkwargs_spec {A} (kw : kwargs A) B1 b1 n2 ss1 ss2 :
  samples (B1 * b1) ss1 (kw1 kw) -> samples n2 ss2 (kw2 kw) ->
  exists kws, mapM (fun kv : string * (tensor A * tensor A) => let '(key, (v1, v2)) := kv in
            rmap (fun v1 => (key, (v1, v2))) (batch_input v1 B1 b1)) kw = Ok kws
    /\ forall i, i < B1 ->
       let kw' := map (fun kv : string * (tensor A * tensor A) => let '(key, (v1, v2)) := kv in (key, (lead i v1, v2))) kws in
       map fst kw' = map fst kw
       /\ samples b1 ss1 (kw1 kw') /\ samples n2 ss2 (kw2 kw')
       /\ (forall a, a < b1 -> same_samples ss1 (kw1 kw') a (kw1 kw) (i * b1 + a))
       /\ (forall c, same_samples ss2 (kw2 kw') c (kw2 kw) c).
Proof.
  revert ss1 ss2; induction kw as [|[key [v1 v2]] kw IH]; intros ss1 ss2 H1 H2.
  - inversion H1; inversion H2; subst. exists []; split; auto.
    intros; repeat split; intros; constructor.
  - unfold samples in *; simpl in H1, H2.
    inversion H1 as [|s1 ? ss1' ? Hv1 Hr1]; inversion H2 as [|s2 ? ss2' ? Hv2 Hr2]; subst.
    destruct (IH _ _ Hr1 Hr2) as (kws & E & Hk).
    destruct (batch_input_spec v1 B1 b1 s1 Hv1) as (y1 & E1 & _ & Y1).
    simpl. rewrite E1; simpl. rewrite E; simpl.
    eexists; split; [reflexivity|]. intros i Hi.
    destruct (Hk i Hi) as (K1 & K2 & K3 & K4 & K5).
    destruct (Y1 i Hi) as [S1 Q1].
    simpl. repeat split.
    + now f_equal.
    + constructor; auto.
    + constructor; auto.
    + intros a Ha; constructor; auto. now apply K4.
    + intros c; constructor; auto; [apply same_sample_refl|]. now apply K5.
Qed.

Lemma pblocks_ok {A} g B1 b1 n2 (x1 x2 : tensor A) kw :
  call g (B1 * b1) n2 x1 x2 kw ->
  exists x1s kws, batch_input x1 B1 b1 = Ok x1s
    /\ mapM (fun kv : string * (tensor A * tensor A) => let '(key, (v1, v2)) := kv in
            rmap (fun v1 => (key, (v1, v2))) (batch_input v1 B1 b1)) kw = Ok kws
    /\ forall i, i < B1 ->
       let kw' := map (fun kv : string * (tensor A * tensor A) => let '(key, (v1, v2)) := kv in (key, (lead i v1, v2))) kws in
       call g b1 n2 (lead i x1s) x2 kw'
       /\ (forall a, a < b1 -> same1 g (lead i x1s) kw' a x1 kw (i * b1 + a))
       /\ (forall c, same2 g x2 kw' c x2 kw c).
Proof.
  intros (S1 & S2 & N & K1 & K2).
  destruct (batch_input_spec x1 B1 b1 _ S1) as (y1 & E1 & _ & Y1).
  destruct (pkwargs_spec kw B1 b1 n2 _ _ K1 K2) as (kws & E & Hk).
  exists y1, kws. split; auto. split; auto. intros i Hi kw'.
  destruct (Hk i Hi) as (Q1 & Q2 & Q3 & Q4 & Q5). fold kw' in Q1, Q2, Q3, Q4, Q5.
  repeat split; auto.
  - apply Y1; auto.
  - congruence.
  - apply Y1; auto.
Qed.

Lemma per_device_spec n1 dc b D : 0 < dc -> get_n_per_device n1 dc = Ok (b, D) ->
  D * b = n1 /\ D <= dc /\ (0 < n1 -> 0 < D /\ 0 < b).
Proof.
  intros Hdc; unfold get_n_per_device. pose proof (Nat.div_mod n1 dc ltac:(lia)) as Ed.
  pose proof (Nat.mod_upper_bound n1 dc ltac:(lia)).
  destruct (Nat.eqb_spec (n1 / dc) 0) as [E|E], (Nat.eqb_spec (n1 mod dc) 0) as [E'|E'];
    cbn [negb andb]; intros Q; try discriminate; injection Q as <- <-; rewrite ?E in Ed; lia.
Qed.

Lemma per_device_complete n1 dc : 0 < dc ->
  ((exists p, get_n_per_device n1 dc = Ok p) <-> n1 < dc \/ Nat.divide dc n1).
Proof.
  intros Hdc; unfold get_n_per_device.
  destruct (Nat.eqb_spec (n1 / dc) 0) as [E|E]; simpl.
  - split; [intros _; left; apply Nat.div_small_iff; lia|eauto].
  - destruct (Nat.eqb_spec (n1 mod dc) 0) as [E'|E']; simpl.
    + split; [intros _; right; apply Nat.mod_divide; lia|eauto].
    + split; [intros [p Hp]; discriminate|]. intros [H|H]; [apply Nat.div_small in H; lia|].
      apply Nat.mod_divide in H; lia.
Qed.

Theorem parallel_array {A R} g o (F : kernel_fn_t A (tensor R)) dc n1 n2 x1 x2 kw :
  pairwise_array g o F -> call g n1 n2 x1 (match x2 with Some x => x | None => x1 end) kw ->
  0 < n1 -> 0 < dc -> n1 < dc \/ Nat.divide dc n1 ->
  exists t u, parallel_fn_x1 array_ops F dc x1 x2 kw = Ok t
    /\ F x1 (Some (match x2 with Some x => x | None => x1 end)) kw = Ok u /\ teq t u.
Proof.
  intros [Hex Hloc] Hc P1 Hdc Hd.
  apply per_device_complete in Hd; auto. destruct Hd as [[b D] Hplan].
  destruct (per_device_spec _ _ _ _ Hdc Hplan) as (E1 & _ & Hpos). destruct (Hpos P1) as [HD Hb].
  unfold parallel_fn_x1.
  set (x2' := match x2 with Some x => x | None => x1 end) in *.
  destruct (Hex _ _ _ _ _ Hc) as (u & Eu & Su).
  pose proof Hc as (S1 & S2 & _).
  rewrite S1; cbn [hd]. rewrite Hplan; cbn [bind].
  rewrite <- E1 in Hc.
  destruct (pblocks_ok _ _ _ _ _ _ _ Hc) as (x1s & kws & -> & -> & Hblk). cbn [bind].
  set (kwi := fun i => map (fun kv : string * (tensor A * tensor A) => let '(key, (v1, v2)) := kv in (key, (lead i v1, v2))) kws) in *.
  change (mapM _ (seq 0 D)) with (mapM (fun d => F (lead d x1s) (Some x2') (kwi d)) (seq 0 D)).
  destruct (mapM_ok (fun d => F (lead d x1s) (Some x2') (kwi d)) (seq 0 D)
     (fun d t => F (lead d x1s) (Some x2') (kwi d) = Ok t /\ shape t = b :: n2 :: o)) as (l & -> & Fl).
  { intros i Hi; apply in_seq in Hi. destruct (Hblk i) as (Hcall & _); [lia|].
    destruct (Hex _ _ _ _ _ Hcall) as (t & ? & ?); eauto. }
  assert (List.length l = D) as Ln by (apply Forall2_length in Fl; now rewrite seq_length in Fl).
  cbn [bind o_stack array_ops].
  destruct (stack_ok l (b :: n2 :: o)) as (K & -> & SK & HK).
  { destruct l; simpl in Ln; [lia|congruence]. }
  { intros t Ht. clear - Fl Ht. induction Fl; simpl in Ht; [tauto|]. destruct Ht as [<-|Ht]; tauto. }
  cbn [bind o_flatten array_ops]. unfold flatten_array, flatten_batch_dimensions.
  rewrite Ln in SK.
  destruct (merge01_spec K D b (n2 :: o) SK) as (T & ET & ST & HT).
  exists T, u; split; auto. split; auto. split; [congruence|].
  intros idx Hidx. rewrite ST in Hidx. inversion Hidx as [|i ? idx1 ? Hi Hidx1]; subst.
  inversion Hidx1 as [|j ? r ? Hj Hr]; subst.
  destruct (div_mod_block i _ _ Hi) as (I1 & I2 & I3).
  destruct (Hblk (i / b) I1) as (Hcall & Hs1 & Hs2).
  pose proof (Forall2_seq_nth _ 0 _ l K Fl) as [_ N]. destruct (N (i / b) I1) as [N1 N2]. simpl in N1.
  rewrite I3, HT by auto.
  rewrite (HK (i / b) _ (nth (i / b) l K)) by (apply nth_error_nth'; lia).
  apply (Hloc _ _ _ _ _ _ _ _ _ _ _ u (i mod b) j _ j r Hcall Hc N1 Eu); auto. nia.
Qed.

(** Serial over parallel. *)
Theorem batch_array {A R} g o (F : kernel_fn_t A (tensor R)) bs dc n1 n2 x1 x2 kw :
  pairwise_array g o F -> call g n1 n2 x1 (match x2 with Some x => x | None => x1 end) kw ->
  0 < n1 -> 0 < n2 -> 0 < bs -> 0 < dc ->
  dc <= Nat.gcd n1 n2 ->
  (exists p, get_n_batches_and_batch_sizes n1 n2 bs dc = Ok p) ->
  exists t u, batch array_ops F bs dc x1 x2 kw = Ok t
    /\ F x1 (Some (match x2 with Some x => x | None => x1 end)) kw = Ok u /\ teq t u.
Proof.
  intros HF Hc P1 P2 Hbs Hdc Hg [[[[B1 b1] B2] b2] Hplan].
  unfold batch. rewrite (proj2 (Nat.ltb_lt 0 dc) Hdc), (proj2 (Nat.eqb_neq bs 0)), Nat.max_l by lia.
  destruct (plan_spec _ _ _ _ _ _ _ _ Hbs Hdc Hplan) as [(Hb2 & E1 & E2 & _ & Eb & _)|(Z & _)]; [|lia].
  apply (serial_array_gen g o F _ bs dc n1 n2 x1 x2 kw B1 b1 B2 b2); auto.
  intros y1 y2 kw' Hc'.
  apply (parallel_array g o F dc b1 b2 y1 (Some y2) kw'); auto; [nia|].
  right; exists b2; lia.
Qed.
