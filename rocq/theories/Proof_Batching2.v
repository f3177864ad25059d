(** Proofs about batching of [Kernel]-valued kernel functions. *)
From Coq Require Import List Arith Lia Bool String.
From Verif Require Import Base Tensor Reshape Model_Kernel Model_Batching Spec_Batching Proof_Batching.
Import ListNotations.
Local Open Scope nat_scope.
Local Open Scope list_scope.

Record kleaf := mkL { l_nngp : list nat; l_ntk : option (list nat); l_cov1 : list nat;
  l_cov2 : option (list nat); l_x : list nat; l_m1 : option (list nat); l_m2 : option (list nat) }.

Definition kleaf_of {R} (k : kernel R) : kleaf :=
  mkL (shape (k_nngp k)) (option_map shape (k_ntk k)) (shape (k_cov1 k))
      (option_map shape (k_cov2 k)) (shape (k_x1_is_x2 k))
      (option_map shape (k_mask1 k)) (option_map shape (k_mask2 k)).

Definition consl (n : nat) (L : kleaf) : kleaf :=
  mkL (n :: l_nngp L) (option_map (cons n) (l_ntk L)) (n :: l_cov1 L) (option_map (cons n) (l_cov2 L))
      (n :: l_x L) (option_map (cons n) (l_m1 L)) (option_map (cons n) (l_m2 L)).

Definition statics {R} (k : kernel R) :=
  (k_is_gaussian k, k_is_reversed k, k_is_input k, k_diagonal_batch k, k_diagonal_spatial k,
   k_shape1 k, k_shape2 k, k_batch_axis k, k_channel_axis k).

Definition picks {R} (p : list nat) (K k : kernel R) : Prop :=
  (forall r, entry (k_nngp K) (p ++ r) = entry (k_nngp k) r)
  /\ (forall r, oentry (k_ntk K) (p ++ r) = oentry (k_ntk k) r)
  /\ (forall r, entry (k_cov1 K) (p ++ r) = entry (k_cov1 k) r)
  /\ (forall r, oentry (k_cov2 K) (p ++ r) = oentry (k_cov2 k) r)
  /\ (forall r, entry (k_x1_is_x2 K) (p ++ r) = entry (k_x1_is_x2 k) r)
  /\ (forall r, oentry (k_mask1 K) (p ++ r) = oentry (k_mask1 k) r)
  /\ (forall r, oentry (k_mask2 K) (p ++ r) = oentry (k_mask2 k) r).

Lemma same_static_statics {R} (k k' : kernel R) : statics k = statics k' -> same_static k k' = true.
Proof.
  unfold statics, same_static; intros E.
  injection E as -> -> -> -> -> -> -> -> ->.
  now rewrite !Bool.eqb_reflx, !shape_eqb_refl, !Nat.eqb_refl.
Qed.

Lemma stack_kernel_ok {R} (ks : list (kernel R)) L St :
  ks <> [] -> (forall k, In k ks -> kleaf_of k = L /\ statics k = St) ->
  exists K, stack_kernel ks = Ok K /\ kleaf_of K = consl (List.length ks) L /\ statics K = St
    /\ forall i k, nth_error ks i = Some k -> picks [i] K k.
Proof.
  intros Hne H.
  destruct ks as [|k0 ks0] eqn:Eks; [congruence|]. unfold stack_kernel. rewrite <- Eks in *.
  assert (negb (forallb (same_static k0) ks0) = false) as ->.
  { apply negb_false_iff, forallb_forall; intros k Hk. apply same_static_statics.
    destruct (H k0) as [_ ->]; [rewrite Eks; simpl; auto|].
    destruct (H k) as [_ ->]; [rewrite Eks; simpl; auto|]. auto. }
  assert (forall X (f : kernel R -> X) (P : X -> Prop), (forall k, In k ks -> P (f k)) -> forall y, In y (map f ks) -> P y) as Hm.
  { intros X f P HP y Hy; apply in_map_iff in Hy; destruct Hy as (k & <- & Hk); auto. }
  assert (forall X (f : kernel R -> X), map f ks <> []) as Hn by
    (intros X f E; rewrite Eks in E; discriminate).
  destruct (stack_ok (map k_nngp ks) (l_nngp L)) as (T1 & -> & S1 & E1); auto.
  { apply (Hm _ k_nngp (fun t => shape t = l_nngp L)); intros k Hk; destruct (H k Hk) as [<- _]; auto. }
  destruct (stack_opt_ok (map k_ntk ks) (l_ntk L)) as (T2 & -> & S2 & E2); auto.
  { apply (Hm _ k_ntk (fun t => option_map shape t = l_ntk L)); intros k Hk; destruct (H k Hk) as [<- _]; auto. }
  destruct (stack_ok (map k_cov1 ks) (l_cov1 L)) as (T3 & -> & S3 & E3); auto.
  { apply (Hm _ k_cov1 (fun t => shape t = l_cov1 L)); intros k Hk; destruct (H k Hk) as [<- _]; auto. }
  destruct (stack_opt_ok (map k_cov2 ks) (l_cov2 L)) as (T4 & -> & S4 & E4); auto.
  { apply (Hm _ k_cov2 (fun t => option_map shape t = l_cov2 L)); intros k Hk; destruct (H k Hk) as [<- _]; auto. }
  destruct (stack_ok (map k_x1_is_x2 ks) (l_x L)) as (T5 & -> & S5 & E5); auto.
  { apply (Hm _ k_x1_is_x2 (fun t => shape t = l_x L)); intros k Hk; destruct (H k Hk) as [<- _]; auto. }
  destruct (stack_opt_ok (map k_mask1 ks) (l_m1 L)) as (T6 & -> & S6 & E6); auto.
  { apply (Hm _ k_mask1 (fun t => option_map shape t = l_m1 L)); intros k Hk; destruct (H k Hk) as [<- _]; auto. }
  destruct (stack_opt_ok (map k_mask2 ks) (l_m2 L)) as (T7 & -> & S7 & E7); auto.
  { apply (Hm _ k_mask2 (fun t => option_map shape t = l_m2 L)); intros k Hk; destruct (H k Hk) as [<- _]; auto. }
  cbn [bind]. eexists; split; [reflexivity|]. split; [|split].
  - unfold kleaf_of, consl; simpl. rewrite map_length in *. congruence.
  - unfold statics; simpl. destruct (H k0) as [_ <-]; [rewrite Eks; simpl; auto|]. reflexivity.
  - intros i k Hk. unfold picks; simpl.
    repeat split; intros r;
      ((eapply E1 || eapply E2 || eapply E3 || eapply E4 || eapply E5 || eapply E6 || eapply E7);
       rewrite nth_error_map, Hk; reflexivity).
Qed.

Lemma picks_trans {R} p q (K1 K2 K3 : kernel R) : picks p K1 K2 -> picks q K2 K3 -> picks (p ++ q) K1 K3.
Proof.
  unfold picks; intros (A1 & A2 & A3 & A4 & A5 & A6 & A7) (B1 & B2 & B3 & B4 & B5 & B6 & B7).
  repeat split; intros r; rewrite <- app_assoc;
    [rewrite A1|rewrite A2|rewrite A3|rewrite A4|rewrite A5|rewrite A6|rewrite A7]; auto.
Qed.

Lemma double_scan_kernel {R} neg (blk : nat -> nat -> result (kernel R)) B1 B2 L St :
  0 < B1 -> 0 < B2 ->
  (forall i j, i < B1 -> j < B2 -> exists k, blk i j = Ok k /\ kleaf_of k = L /\ statics k = St) ->
  exists K, double_scan (kernel_ops neg) blk B1 B2 = Ok K /\ kleaf_of K = consl B1 (consl B2 L)
    /\ statics K = St
    /\ forall i j k, i < B1 -> j < B2 -> blk i j = Ok k -> picks [i; j] K k.
Proof.
  intros H1 H2 H; unfold double_scan; cbn [o_stack kernel_ops].
  destruct (mapM_ok (fun i => bind (mapM (fun j => blk i j) (seq 0 B2)) stack_kernel) (seq 0 B1)
    (fun i K => kleaf_of K = consl B2 L /\ statics K = St
                /\ forall j k, j < B2 -> blk i j = Ok k -> picks [j] K k))
    as (rows & -> & F).
  - intros i Hi; apply in_seq in Hi.
    destruct (mapM_ok (fun j => blk i j) (seq 0 B2)
      (fun j k => blk i j = Ok k /\ kleaf_of k = L /\ statics k = St)) as (l & -> & F).
    { intros j Hj; apply in_seq in Hj. destruct (H i j) as (t & E & S); [lia|lia|]. eauto. }
    assert (List.length l = B2) as Ln by (apply Forall2_length in F; now rewrite seq_length in F).
    simpl bind. destruct (stack_kernel_ok l L St) as (T & E & S & S' & ET).
    { destruct l; simpl in Ln; [lia|congruence]. }
    { intros t Ht. clear - F Ht. induction F; simpl in Ht; [tauto|]. destruct Ht as [<-|Ht]; tauto. }
    exists T; split; auto. split; [congruence|]. split; auto.
    intros j k Hj Et. apply ET.
    pose proof (Forall2_seq_nth _ 0 B2 l k F) as [_ N]. destruct (N j Hj) as [N1 _]. simpl in N1.
    rewrite Et in N1; injection N1 as N1.
    transitivity (Some (nth j l k)); [apply nth_error_nth'; lia | f_equal; symmetry; exact N1].
  - assert (List.length rows = B1) as Ln by (apply Forall2_length in F; now rewrite seq_length in F).
    simpl bind. destruct (stack_kernel_ok rows (consl B2 L) St) as (T & E & S & S' & ET).
    { destruct rows; simpl in Ln; [lia|congruence]. }
    { intros t Ht. clear - F Ht. induction F; simpl in Ht; [tauto|]. destruct Ht as [<-|Ht]; tauto. }
    exists T; split; auto. split; [congruence|]. split; auto.
    intros i j k Hi Hj Et.
    pose proof (Forall2_seq_nth _ 0 B1 rows k F) as [_ N]. destruct (N i Hi) as (N1 & N2 & N3).
    change [i; j] with ([i] ++ [j]). eapply picks_trans.
    + apply ET. apply nth_error_nth'; lia.
    + apply N3; eauto.
Qed.

Lemma scale_set d n B b : d_batch_axis d < List.length (d_shape d) ->
  n = B * b ->
  scale_at (set_at (d_batch_axis d) b (d_shape d)) (d_batch_axis d) B = set_at (d_batch_axis d) n (d_shape d).
Proof.
  intros H ->; unfold scale_at, set_at. set (a := d_batch_axis d) in *. set (l := d_shape d) in *.
  assert (List.length (firstn a l) = a) as La by (rewrite firstn_length; lia).
  rewrite firstn_app, La, Nat.sub_diag, firstn_O, app_nil_r, firstn_firstn, Nat.min_id.
  rewrite app_nth2 by lia. rewrite La, Nat.sub_diag. simpl nth.
  rewrite skipn_app, La. rewrite (skipn_all2 (firstn a l)) by lia.
  replace (a + 1 - a) with 1 by lia. simpl. rewrite (Nat.mul_comm b B). reflexivity.
Qed.

Lemma leaf_of_kernel {R} d n1 n2 (k : kernel R) : kernel_of d n1 n2 k ->
  kleaf_of k = mkL (n1 :: n2 :: d_nngp d) (option_map (fun s => n1 :: n2 :: s) (d_ntk d)) (n1 :: d_cov1 d)
     (Some (n2 :: d_cov2 d)) [] (option_map (cons n1) (d_mask1 d)) (option_map (cons n2) (d_mask2 d))
  /\ statics k = (d_gaussian d, d_reversed d, d_input d, true, d_spatial d,
       set_at (d_batch_axis d) n1 (d_shape d), set_at (d_batch_axis d) n2 (d_shape d),
       d_batch_axis d, d_channel_axis d).
Proof. unfold kernel_of, kleaf_of, statics; intros H; decompose [and] H; split; congruence. Qed.

(** Lifting the three flattenings to optional arrays. *)
Lemma on_opt_flatten {R} (f : tensor R -> result (tensor R)) (o : option (tensor R)) (S S' : list nat -> list nat)
      (E : list nat -> tensor R -> tensor R -> Prop) (d : option (list nat)) :
  (forall K s, shape K = S s -> exists T, f K = Ok T /\ shape T = S' s /\ E s K T) ->
  option_map shape o = option_map S d ->
  exists o', on_opt f o = Ok o' /\ option_map shape o' = option_map S' d
     /\ match o, o', d with Some K, Some T, Some s => E s K T | None, None, None => True | _, _, _ => False end.
Proof.
  intros H Hs; destruct o as [K|], d as [s|]; simpl in *; try discriminate.
  - injection Hs as Hs. destruct (H K s Hs) as (T & -> & S1 & S2); simpl. exists (Some T); simpl; repeat split; auto. congruence.
  - exists None; auto.
Qed.

(** What a flattened batched kernel looks like. *)
Definition neg_needed {R} (k : kernel R) (x2_is_none : bool) : Prop := x2_is_none = false /\ k_mask2 k <> None.

Lemma flatten_kernel_serial {R} neg d B1 b1 B2 b2 (K : kernel R) (x2_is_none : bool) St :
  0 < B2 ->
  d_batch_axis d < List.length (d_shape d) ->
  x2_is_none = true \/ d_mask2 d = None ->
  kleaf_of K = consl B1 (consl B2 (mkL (b1 :: b2 :: d_nngp d) (option_map (fun s => b1 :: b2 :: s) (d_ntk d)) (b1 :: d_cov1 d)
     (Some (b2 :: d_cov2 d)) [] (option_map (cons b1) (d_mask1 d)) (option_map (cons b2) (d_mask2 d)))) ->
  statics K = St ->
  St = (d_gaussian d, d_reversed d, d_input d, true, d_spatial d,
       set_at (d_batch_axis d) b1 (d_shape d), set_at (d_batch_axis d) b2 (d_shape d),
       d_batch_axis d, d_channel_axis d) ->
  exists T, flatten_kernel neg K x2_is_none false = Ok T
    /\ shape (k_nngp T) = B1 * b1 :: B2 * b2 :: d_nngp d
    /\ option_map shape (k_ntk T) = option_map (fun s => B1 * b1 :: B2 * b2 :: s) (d_ntk d)
    /\ shape (k_cov1 T) = B1 * b1 :: d_cov1 d
    /\ option_map shape (k_cov2 T) = (if x2_is_none then None else Some (B2 * b2 :: d_cov2 d))
    /\ option_map shape (k_mask1 T) = option_map (cons (B1 * b1)) (d_mask1 d)
    /\ k_mask2 T = None
    /\ shape (k_x1_is_x2 T) = []
    /\ statics T = (d_gaussian d, d_reversed d, d_input d, true, d_spatial d,
       set_at (d_batch_axis d) (B1 * b1) (d_shape d), set_at (d_batch_axis d) (B2 * b2) (d_shape d),
       d_batch_axis d, d_channel_axis d)
    /\ (forall i j a c r, i < B1 -> j < B2 -> a < b1 -> c < b2 -> in_range (d_nngp d) r ->
        entry (k_nngp T) (i * b1 + a :: j * b2 + c :: r) = entry (k_nngp K) (i :: j :: a :: c :: r))
    /\ (forall i j a c r, i < B1 -> j < B2 -> a < b1 -> c < b2 -> oin_range (d_ntk d) r ->
        oentry (k_ntk T) (i * b1 + a :: j * b2 + c :: r) = oentry (k_ntk K) (i :: j :: a :: c :: r))
    /\ (forall i a r, i < B1 -> a < b1 -> in_range (d_cov1 d) r ->
        entry (k_cov1 T) (i * b1 + a :: r) = entry (k_cov1 K) (i :: 0 :: a :: r))
    /\ (forall i a r, i < B1 -> a < b1 -> oin_range (d_mask1 d) r ->
        oentry (k_mask1 T) (i * b1 + a :: r) = oentry (k_mask1 K) (i :: 0 :: a :: r))
    /\ (x2_is_none = false -> forall j c r, j < B2 -> c < b2 -> in_range (d_cov2 d) r ->
        oentry (k_cov2 T) (j * b2 + c :: r) = oentry (k_cov2 K) (0 :: j :: c :: r))
    /\ entry (k_x1_is_x2 T) [] = entry (k_x1_is_x2 K) [0; 0].
Proof.
  intros HB2 Hax Hm HL HS ->. unfold kleaf_of, consl in HL; simpl in HL.
  injection HL as S1 S2 S3 S4 S5 S6 S7.
  unfold statics in HS. injection HS as Hq1 Hq2 Hq3 Hdb Hq4 Hs1 Hs2 Hba Hq5.
  unfold flatten_kernel. rewrite Hdb; cbn [negb].
  destruct (flatten_pair _ _ _ _ _ _ S1) as (T1 & -> & ST1 & E1). cbn [bind].
  destruct (on_opt_flatten (fun t => flatten_batch_dimensions t false None) (k_ntk K)
     (fun s => B1 :: B2 :: b1 :: b2 :: s) (fun s => B1 * b1 :: B2 * b2 :: s)
     (fun o K T => forall i j a c r, i < B1 -> j < B2 -> a < b1 -> c < b2 -> in_range o r ->
       entry T (i * b1 + a :: j * b2 + c :: r) = entry K (i :: j :: a :: c :: r)) (d_ntk d))
    as (T2 & -> & ST2 & E2).
  { intros; now apply flatten_pair. }
  { rewrite S2. destruct (d_ntk d); reflexivity. }
  cbn [bind].
  destruct (flatten_first _ _ _ _ _ S3 HB2) as (T3 & -> & ST3 & E3). cbn [bind].
  assert (exists T4, (if x2_is_none then Ok None
     else on_opt (fun t => flatten_batch_dimensions t false (Some 0)) (k_cov2 K)) = Ok T4
     /\ option_map shape T4 = (if x2_is_none then None else Some (B2 * b2 :: d_cov2 d))
     /\ (x2_is_none = false -> forall j c r, j < B2 -> c < b2 -> in_range (d_cov2 d) r ->
        oentry T4 (j * b2 + c :: r) = oentry (k_cov2 K) (0 :: j :: c :: r))) as (T4 & -> & ST4 & E4).
  { destruct x2_is_none; [exists None; repeat split; auto; discriminate|].
    destruct (k_cov2 K) as [c2|]; [|discriminate]. simpl in S4; injection S4 as S4.
    destruct (flatten_second c2 _ _ _ _ S4) as (T4 & E & ST & ET). cbn [on_opt rmap]. rewrite E; cbn [rmap].
    exists (Some T4); simpl; repeat split; auto; [congruence|]. intros; f_equal; auto. }
  cbn [bind].
  destruct (on_opt_flatten (fun t => flatten_batch_dimensions t false (Some 1)) (k_mask1 K)
     (fun s => B1 :: B2 :: b1 :: s) (fun s => B1 * b1 :: s)
     (fun o K T => forall i a r, i < B1 -> a < b1 -> in_range o r ->
       entry T (i * b1 + a :: r) = entry K (i :: 0 :: a :: r)) (d_mask1 d))
    as (T6 & -> & ST6 & E6).
  { intros K0 s HS; exact (flatten_first K0 _ _ _ _ HS HB2). }
  { rewrite S6. destruct (d_mask1 d); reflexivity. }
  cbn [bind].
  assert ((if x2_is_none then Ok None
     else on_opt (fun t => bind (flatten_batch_dimensions t false (Some 0)) neg) (k_mask2 K)) = Ok None) as ->.
  { destruct x2_is_none; auto. destruct Hm as [Hm|Hm]; [discriminate|].
    rewrite Hm in S7; destruct (k_mask2 K); [discriminate|]. reflexivity. }
  cbn [bind]. eexists; split; [reflexivity|].
  rewrite S1, Hs1, Hs2, Hba; simpl.
  repeat split; auto.
  - unfold statics; simpl. rewrite Hq1, Hq2, Hq3, Hq4, Hq5, !(scale_set d _ _ _ Hax eq_refl). auto.
  - intros i j a c r Hi Hj Ha Hc Hr. destruct (k_ntk K), T2, (d_ntk d); simpl in *; try tauto. f_equal; auto.
  - intros i a r Hi Ha Hr. destruct (k_mask1 K), T6, (d_mask1 d); simpl in *; try tauto. f_equal; auto.
  - unfold ndim; rewrite S5; reflexivity.
Qed.

(** * Serial batching of [Kernel]-valued kernel functions (C11-C13) *)

Lemma oteq_shape {R} (o o' : option (tensor R)) : oteq o o' -> option_map shape o = option_map shape o'.
Proof. destruct o, o'; simpl; try tauto. intros [-> _]; auto. Qed.

Lemma oteq_entry {R} (o o' : option (tensor R)) s i : oteq o o' -> option_map shape o = Some s -> in_range s i ->
  oentry o i = oentry o' i.
Proof. destruct o as [t|], o' as [u|]; simpl; try tauto; try discriminate. intros [H E] [= <-] Hi. f_equal; auto. Qed.

Lemma oteq_entry' {R} (o o' : option (tensor R)) (pre : list nat) (d : option (list nat)) (f : list nat -> list nat) i :
  oteq o o' -> option_map shape o = option_map f d -> (forall s, d = Some s -> in_range (f s) i) ->
  oentry o i = oentry o' i.
Proof.
  intros H Hs Hi. destruct d as [s|]; simpl in Hs.
  - eapply oteq_entry; eauto.
  - destruct o, o'; simpl in *; try discriminate; try tauto.
Qed.

Lemma oteq_refl {R} (o : option (tensor R)) : oteq o o.
Proof. destruct o; simpl; auto. apply teq_refl. Qed.

Lemma agree_refl {R} (k : kernel R) : kernel_agree k k.
Proof.
  unfold kernel_agree, kernel_eq_but.
  repeat split; auto; apply oteq_refl.
Qed.

Lemma agree_kernel_of {R} d n1 n2 (t u : kernel R) : kernel_of d n1 n2 u -> kernel_agree t u ->
  shape (k_x1_is_x2 t) = [] -> kernel_of d n1 n2 t.
Proof.
  unfold kernel_of, kernel_agree, kernel_eq_but. intros H ((A1 & A2 & A3 & A4 & A) & C2 & M2) Hx.
  apply oteq_shape in A2, A4, C2, M2. destruct A1 as [A1 _], A3 as [A3 _].
  decompose [and] H; decompose [and] A; repeat split; congruence.
Qed.

(** Scanning and flattening when every block agrees with the corresponding part
    of [u]. *)
Lemma assemble_kernel {R} neg d B1 b1 B2 b2 (blk : nat -> nat -> result (kernel R)) (u : kernel R) (xn : bool) :
  d_batch_axis d < List.length (d_shape d) ->
  0 < B1 -> 0 < B2 -> 0 < b1 -> 0 < b2 ->
  xn = true \/ d_mask2 d = None ->
  kernel_of d (B1 * b1) (B2 * b2) u ->
  (forall i j, i < B1 -> j < B2 -> exists k, blk i j = Ok k /\ kernel_of d b1 b2 k /\
     forall a c, a < b1 -> c < b2 ->
     ((forall r, in_range (d_cov1 d) r -> entry (k_cov1 k) (a :: r) = entry (k_cov1 u) (i * b1 + a :: r))
        /\ (forall r, oin_range (d_mask1 d) r -> oentry (k_mask1 k) (a :: r) = oentry (k_mask1 u) (i * b1 + a :: r)))
     /\ (forall r, in_range (d_cov2 d) r -> oentry (k_cov2 k) (c :: r) = oentry (k_cov2 u) (j * b2 + c :: r))
     /\ ((forall r, in_range (d_nngp d) r -> entry (k_nngp k) (a :: c :: r) = entry (k_nngp u) (i * b1 + a :: j * b2 + c :: r))
        /\ (forall r, oin_range (d_ntk d) r -> oentry (k_ntk k) (a :: c :: r) = oentry (k_ntk u) (i * b1 + a :: j * b2 + c :: r)))) ->
  exists K T, double_scan (kernel_ops neg) blk B1 B2 = Ok K /\ flatten_kernel neg K xn false = Ok T
    /\ kernel_eq_but T u
    /\ (xn = true -> k_cov2 T = None) /\ (xn = false -> oteq (k_cov2 T) (k_cov2 u))
    /\ k_mask2 T = None
    /\ shape (k_x1_is_x2 T) = []
    /\ (forall k, blk 0 0 = Ok k -> entry (k_x1_is_x2 T) [] = entry (k_x1_is_x2 k) []).
Proof.
  intros Hax HB1 HB2 Hb1 Hb2 Hm2 Su HF'.
  destruct (double_scan_kernel neg blk B1 B2
    (mkL (b1 :: b2 :: d_nngp d) (option_map (fun s => b1 :: b2 :: s) (d_ntk d)) (b1 :: d_cov1 d)
     (Some (b2 :: d_cov2 d)) [] (option_map (cons b1) (d_mask1 d)) (option_map (cons b2) (d_mask2 d)))
    (d_gaussian d, d_reversed d, d_input d, true, d_spatial d,
       set_at (d_batch_axis d) b1 (d_shape d), set_at (d_batch_axis d) b2 (d_shape d),
       d_batch_axis d, d_channel_axis d))
    as (K & EK & LK & SK & HK); auto.
  { intros i j Hi Hj. destruct (HF' i j Hi Hj) as (k' & Ek' & Sk & _).
    exists k'; split; auto. now apply leaf_of_kernel. }
  destruct (flatten_kernel_serial neg d B1 b1 B2 b2 K xn _ HB2 Hax Hm2 LK SK eq_refl)
    as (T & ET & T1 & T2 & T3 & T4 & T5 & T6 & T7 & T8 & N1 & N2 & N3 & N4 & N5 & N6).
  exists K, T; split; auto. split; auto.
  assert (forall i j a c, i < B1 -> j < B2 -> a < b1 -> c < b2 -> exists k, blk i j = Ok k /\ picks [i; j] K k /\
     ((forall r, in_range (d_cov1 d) r -> entry (k_cov1 k) (a :: r) = entry (k_cov1 u) (i * b1 + a :: r))
        /\ (forall r, oin_range (d_mask1 d) r -> oentry (k_mask1 k) (a :: r) = oentry (k_mask1 u) (i * b1 + a :: r)))
     /\ (forall r, in_range (d_cov2 d) r -> oentry (k_cov2 k) (c :: r) = oentry (k_cov2 u) (j * b2 + c :: r))
     /\ ((forall r, in_range (d_nngp d) r -> entry (k_nngp k) (a :: c :: r) = entry (k_nngp u) (i * b1 + a :: j * b2 + c :: r))
        /\ (forall r, oin_range (d_ntk d) r -> oentry (k_ntk k) (a :: c :: r) = oentry (k_ntk u) (i * b1 + a :: j * b2 + c :: r)))) as Q.
  { intros i j a c Hi Hj Ha Hcc. destruct (HF' i j Hi Hj) as (k & Ek & _ & Hk). exists k; split; auto. }
  destruct Su as (U1 & U2 & U3 & U4 & U5 & U6 & U7 & U8 & U9 & U10 & U11 & U12 & U13 & U14 & U15 & U16).
  unfold statics in T8; injection T8 as V1 V2 V3 V4 V5 V6 V7 V8 V9.
  split; [|split; [|split; [|split; [|split]]]].
  - unfold kernel_eq_but. split; [|split; [|split; [|split]]].
    + split; [congruence|]. rewrite T1. intros idx Hidx. inversion Hidx as [|i ? idx1 ? Hi Hidx1]; subst.
      inversion Hidx1 as [|j ? r ? Hj Hr]; subst.
      destruct (div_mod_block i B1 b1 Hi) as (I1 & I2 & I3).
      destruct (div_mod_block j B2 b2 Hj) as (J1 & J2 & J3).
      destruct (Q _ _ _ _ I1 J1 I2 J2) as (k & Ek & Pk & _ & _ & Q3 & _).
      rewrite I3, J3, N1, <- Q3 by auto. apply (proj1 Pk (_ :: _ :: r)).
    + unfold oteq. destruct (d_ntk d) as [s|] eqn:Ed; destruct (k_ntk T) as [tk|] eqn:Et; try discriminate;
      destruct (k_ntk u) as [uk|] eqn:Euk; try discriminate; auto.
      simpl in T2, U2. injection T2 as T2. injection U2 as U2. split; [congruence|].
      rewrite T2. intros idx Hidx. inversion Hidx as [|i ? idx1 ? Hi Hidx1]; subst.
      inversion Hidx1 as [|j ? r ? Hj Hr]; subst.
      destruct (div_mod_block i B1 b1 Hi) as (I1 & I2 & I3).
      destruct (div_mod_block j B2 b2 Hj) as (J1 & J2 & J3).
      destruct (Q _ _ _ _ I1 J1 I2 J2) as (k & Ek & Pk & _ & _ & _ & Q4).
      enough (oentry (Some tk) (i :: j :: r) = oentry (Some uk) (i :: j :: r)) as G by (injection G; auto).
      rewrite I3, J3, N2, <- Q4 by auto. apply (proj1 (proj2 Pk) (_ :: _ :: r)).
    + split; [congruence|]. rewrite T3. intros idx Hidx. inversion Hidx as [|i ? r ? Hi Hr]; subst.
      destruct (div_mod_block i B1 b1 Hi) as (I1 & I2 & I3).
      destruct (Q _ 0 _ 0 I1 ltac:(auto) I2 ltac:(auto)) as (k & Ek & Pk & (Q1 & _) & _).
      rewrite I3, N3, <- Q1 by auto. apply (proj1 (proj2 (proj2 Pk)) (_ :: r)).
    + unfold oteq. destruct (d_mask1 d) as [s|] eqn:Ed; destruct (k_mask1 T) as [tk|] eqn:Et; try discriminate;
      destruct (k_mask1 u) as [uk|] eqn:Euk; try discriminate; auto.
      simpl in T5, U6. injection T5 as T5. injection U6 as U6. split; [congruence|].
      rewrite T5. intros idx Hidx. inversion Hidx as [|i ? r ? Hi Hr]; subst.
      destruct (div_mod_block i B1 b1 Hi) as (I1 & I2 & I3).
      destruct (Q _ 0 _ 0 I1 ltac:(auto) I2 ltac:(auto)) as (k & Ek & Pk & (_ & Q1) & _).
      enough (oentry (Some tk) (i :: r) = oentry (Some uk) (i :: r)) as G by (injection G; auto).
      rewrite I3, N4, <- Q1 by auto. apply (proj1 (proj2 (proj2 (proj2 (proj2 (proj2 Pk))))) (_ :: r)).
    + repeat split; congruence.
  - intros Hx. rewrite Hx in T4. destruct (k_cov2 T); [discriminate|auto].
  - intros Hxn.
    rewrite Hxn in T4. specialize (N5 Hxn).
    unfold oteq. destruct (k_cov2 T) as [tk|] eqn:Et; try discriminate.
    destruct (k_cov2 u) as [uk|] eqn:Euk; try discriminate.
    simpl in T4, U4. injection T4 as T4. injection U4 as U4. split; [congruence|].
    rewrite T4. intros idx Hidx. inversion Hidx as [|j ? r ? Hj Hr]; subst.
    destruct (div_mod_block j B2 b2 Hj) as (J1 & J2 & J3).
    destruct (Q 0 _ 0 _ ltac:(auto) J1 ltac:(auto) J2) as (k & Ek & Pk & _ & Q1 & _).
    enough (oentry (Some tk) (j :: r) = oentry (Some uk) (j :: r)) as G by (injection G; auto).
    rewrite J3, N5, <- Q1 by auto. apply (proj1 (proj2 (proj2 (proj2 Pk))) (_ :: r)).
  - auto.
  - auto.
  - intros k Ek. rewrite N6. apply (proj1 (proj2 (proj2 (proj2 (proj2 (HK 0 0 k HB1 HB2 Ek))))) []).
Qed.

Theorem serial_kernel_gen {A R} neg g d (F F' : kernel_fn_t A (kernel R)) bs dc n1 n2 x1 x2 kw B1 b1 B2 b2 :
  pairwise_kernel g d F -> call g n1 n2 x1 (match x2 with Some x => x | None => x1 end) kw ->
  0 < n1 -> 0 < n2 -> 0 < bs -> 0 < dc ->
  get_n_batches_and_batch_sizes n1 n2 bs dc = Ok (B1, b1, B2, b2) -> 0 < b2 ->
  x2 = None \/ d_mask2 d = None ->
  (forall y1 y2 kw', call g b1 b2 y1 y2 kw' ->
     exists t u, F' y1 (Some y2) kw' = Ok t /\ F y1 (Some y2) kw' = Ok u /\ kernel_agree t u
       /\ shape (k_x1_is_x2 t) = []) ->
  exists t u, serial_fn_x1 (kernel_ops neg) F' bs dc x1 x2 kw = Ok t
    /\ F x1 (Some (match x2 with Some x => x | None => x1 end)) kw = Ok u
    /\ kernel_eq_but t u
    /\ (x2 = None -> k_cov2 t = None) /\ (x2 <> None -> oteq (k_cov2 t) (k_cov2 u))
    /\ k_mask2 t = None
    /\ shape (k_x1_is_x2 t) = []
    /\ exists y1 y2 kw' k, call g b1 b2 y1 y2 kw'
       /\ (forall a, a < b1 -> same1 g y1 kw' a x1 kw a)
       /\ (forall c, c < b2 -> same2 g y2 kw' c (match x2 with Some x => x | None => x1 end) kw c)
       /\ F' y1 (Some y2) kw' = Ok k /\ entry (k_x1_is_x2 t) [] = entry (k_x1_is_x2 k) [].
Proof.
  intros (Hax & Hex & Hloc) Hc P1 P2 Hbs Hdc Hplan Hb2 Hm2 Hag.
  destruct (plan_spec _ _ _ _ _ _ _ _ Hbs Hdc Hplan) as [(_ & E1 & E2 & _ & _ & _)|(_ & _ & _ & _ & Z)]; [|lia].
  unfold serial_fn_x1.
  set (x2' := match x2 with Some x => x | None => x1 end) in *.
  destruct (Hex _ _ _ _ _ Hc) as (u & Eu & Su).
  pose proof Hc as (S1 & S2 & _).
  rewrite S1, S2; cbn [hd]. rewrite Hplan; cbn [bind].
  rewrite <- E1, <- E2 in Hc, Su.
  assert (0 < B1) by nia. assert (0 < B2) by nia. assert (0 < b1) by nia.
  destruct (blocks_ok _ _ _ _ _ _ _ _ Hc) as (x1s & x2s & kws & -> & -> & -> & Hblk). cbn [bind].
  set (blk := fun i j => F' (lead i x1s) (Some (lead j x2s)) (lead_kwargs i j kws)).
  assert (forall i j, i < B1 -> j < B2 -> exists k' k, blk i j = Ok k'
     /\ F (lead i x1s) (Some (lead j x2s)) (lead_kwargs i j kws) = Ok k
     /\ kernel_agree k' k /\ kernel_of d b1 b2 k') as HF'.
  { intros i j Hi Hj. destruct (Hblk i j Hi Hj) as (Hcall & _).
    destruct (Hag _ _ _ Hcall) as (k' & k & Ek' & Ek & Hk & Hx). exists k', k. split; [exact Ek'|]. split; [exact Ek|]. split; [exact Hk|].
    destruct (Hex _ _ _ _ _ Hcall) as (k2 & Ek2 & Sk2). rewrite Ek in Ek2; injection Ek2 as <-.
    eapply agree_kernel_of; eauto. }
  set (xn := match x2 with None => true | Some _ => false end).
  destruct (assemble_kernel neg d B1 b1 B2 b2 blk u xn) as (K & T & -> & ET & R1 & R2 & R3 & R4 & R5 & R6); auto.
  { subst xn; destruct x2; [destruct Hm2; [discriminate|auto]|auto]. }
  { intros i j Hi Hj. destruct (Hblk i j Hi Hj) as (Hcall & Hs1 & Hs2).
    destruct (HF' i j Hi Hj) as (k' & k & Ek' & Ek & Hk & Sk). exists k'; split; auto. split; auto.
    intros a c Ha Hcc.
    destruct (Hloc _ _ _ _ _ _ _ _ _ _ k u a c (i * b1 + a) (j * b2 + c) Hcall Hc Ek Eu)
      as (L1 & L2 & L3); auto; try nia.
    specialize (L1 (Hs1 a Ha)). specialize (L2 (Hs2 c Hcc)). specialize (L3 (Hs1 a Ha) (Hs2 c Hcc)).
    destruct Hk as (([A0 A1] & A2 & [A3' A3] & A4 & A5) & C2 & M2).
    destruct Sk as (V1 & V2 & V3 & V4 & V5 & V6 & _).
    split; [split|split; [|split]].
    - intros r Hr. rewrite A3 by (rewrite V3; constructor; auto). now apply L1.
    - intros r Hr. rewrite (oteq_entry' _ _ [] _ _ _ A4 V6); [now apply L1|].
      intros s Es. rewrite Es in Hr. constructor; auto.
    - intros r Hr. rewrite (oteq_entry _ _ _ _ C2 V4); [now apply L2|]. constructor; auto.
    - intros r Hr. rewrite A1 by (rewrite V1; constructor; auto; constructor; auto). now apply L3.
    - intros r Hr. rewrite (oteq_entry' _ _ [] _ _ _ A2 V2); [now apply L3|].
      intros s Es. rewrite Es in Hr. constructor; auto; constructor; auto. }
  cbn [bind o_flatten kernel_ops]. exists T, u.
  split; auto. split; auto. split; auto.
  split; [intros Hx; apply R2; subst xn; now rewrite Hx|].
  split; [intros Hx; apply R3; subst xn; destruct x2; congruence|]. split; auto. split; auto.
  destruct (Hblk 0 0) as (Hcall & Hs1 & Hs2); auto.
  destruct (HF' 0 0) as (k' & k & Ek' & _); auto.
  do 4 eexists; split; [exact Hcall|]. split; [exact Hs1|]. split; [exact Hs2|]. split; [exact Ek'|]. auto.
Qed.

Theorem serial_kernel {A R} neg g d (F : kernel_fn_t A (kernel R)) bs dc n1 n2 x1 x2 kw B1 b1 B2 b2 :
  pairwise_kernel g d F -> call g n1 n2 x1 (match x2 with Some x => x | None => x1 end) kw ->
  0 < n1 -> 0 < n2 -> 0 < bs -> 0 < dc ->
  get_n_batches_and_batch_sizes n1 n2 bs dc = Ok (B1, b1, B2, b2) -> 0 < b2 ->
  x2 = None \/ d_mask2 d = None ->
  exists t u, serial_fn_x1 (kernel_ops neg) F bs dc x1 x2 kw = Ok t
    /\ F x1 (Some (match x2 with Some x => x | None => x1 end)) kw = Ok u
    /\ kernel_eq_but t u
    /\ (x2 = None -> k_cov2 t = None) /\ (x2 <> None -> oteq (k_cov2 t) (k_cov2 u))
    /\ k_mask2 t = None
    /\ shape (k_x1_is_x2 t) = []
    /\ exists y1 y2 kw' k, call g b1 b2 y1 y2 kw'
       /\ (forall a, a < b1 -> same1 g y1 kw' a x1 kw a)
       /\ (forall c, c < b2 -> same2 g y2 kw' c (match x2 with Some x => x | None => x1 end) kw c)
       /\ F y1 (Some y2) kw' = Ok k /\ entry (k_x1_is_x2 t) [] = entry (k_x1_is_x2 k) [].
Proof.
  intros HF Hc P1 P2 Hbs Hdc Hplan Hb2 Hm2.
  apply (serial_kernel_gen neg g d F F bs dc n1 n2 x1 x2 kw B1 b1 B2 b2); auto.
  intros y1 y2 kw' Hc'. destruct HF as (_ & Hex & _). destruct (Hex _ _ _ _ _ Hc') as (k & Ek & Sk).
  exists k, k; split; auto. split; auto. split; [apply agree_refl|]. apply Sk.
Qed.

(** With both masks present line 232 raises: [neg] is applied to a boolean array. *)
Theorem serial_kernel_mask2 {A R} g d (F : kernel_fn_t A (kernel R)) bs dc n1 n2 x1 x2 kw B1 b1 B2 b2 :
  pairwise_kernel g d F -> call g n1 n2 x1 x2 kw ->
  0 < n1 -> 0 < n2 -> 0 < bs -> 0 < dc ->
  get_n_batches_and_batch_sizes n1 n2 bs dc = Ok (B1, b1, B2, b2) -> 0 < b2 ->
  d_mask2 d <> None ->
  serial_fn_x1 (kernel_ops jax_neg) F bs dc x1 (Some x2) kw = Raise TypeError.
Proof.
  intros (Hax & Hex & Hloc) Hc P1 P2 Hbs Hdc Hplan Hb2 Hm2.
  destruct (plan_spec _ _ _ _ _ _ _ _ Hbs Hdc Hplan) as [(_ & E1 & E2 & _ & _ & _)|(_ & _ & _ & _ & Z)]; [|lia].
  unfold serial_fn_x1.
  pose proof Hc as (S1 & S2 & _).
  rewrite S1, S2; cbn [hd]. rewrite Hplan; cbn [bind].
  rewrite <- E1, <- E2 in Hc.
  assert (0 < B1) by nia. assert (0 < B2) by nia. assert (0 < b1) by nia.
  destruct (blocks_ok _ _ _ _ _ _ _ _ Hc) as (x1s & x2s & kws & -> & -> & -> & Hblk). cbn [bind].
  destruct (double_scan_kernel jax_neg (fun i j => F (lead i x1s) (Some (lead j x2s)) (lead_kwargs i j kws)) B1 B2
    (mkL (b1 :: b2 :: d_nngp d) (option_map (fun s => b1 :: b2 :: s) (d_ntk d)) (b1 :: d_cov1 d)
     (Some (b2 :: d_cov2 d)) [] (option_map (cons b1) (d_mask1 d)) (option_map (cons b2) (d_mask2 d)))
    (d_gaussian d, d_reversed d, d_input d, true, d_spatial d,
       set_at (d_batch_axis d) b1 (d_shape d), set_at (d_batch_axis d) b2 (d_shape d),
       d_batch_axis d, d_channel_axis d))
    as (K & -> & LK & SK & HK); auto.
  { intros i j Hi Hj. destruct (Hblk i j Hi Hj) as (Hcall & _). destruct (Hex _ _ _ _ _ Hcall) as (k & Ek & Sk).
    exists k; split; auto. now apply leaf_of_kernel. }
  cbn [bind o_flatten kernel_ops]. unfold flatten_kernel.
  unfold kleaf_of, consl in LK; simpl in LK. injection LK as L1 L2 L3 L4 L5 L6 L7.
  unfold statics in SK. injection SK as Hq1 Hq2 Hq3 Hdb Hq4 Hs1 Hs2 Hba Hq5.
  rewrite Hdb; cbn [negb].
  destruct (flatten_pair _ _ _ _ _ _ L1) as (T1 & -> & _). cbn [bind].
  destruct (on_opt_flatten (fun t => flatten_batch_dimensions t false None) (k_ntk K)
     (fun s => B1 :: B2 :: b1 :: b2 :: s) (fun s => B1 * b1 :: B2 * b2 :: s)
     (fun _ _ _ => True) (d_ntk d)) as (T2 & -> & _).
  { intros K0 s HS; destruct (flatten_pair _ _ _ _ _ _ HS) as (T & ? & ? & _); eauto. }
  { rewrite L2. destruct (d_ntk d); reflexivity. }
  cbn [bind]. destruct (flatten_first _ _ _ _ _ L3 ltac:(auto)) as (T3 & -> & _). cbn [bind].
  destruct (k_cov2 K) as [c2|]; [|discriminate]. simpl in L4; injection L4 as L4.
  destruct (flatten_second c2 _ _ _ _ L4) as (T4 & E4 & _). cbn [on_opt]. rewrite E4; cbn [rmap bind].
  destruct (on_opt_flatten (fun t => flatten_batch_dimensions t false (Some 1)) (k_mask1 K)
     (fun s => B1 :: B2 :: b1 :: s) (fun s => B1 * b1 :: s)
     (fun _ _ _ => True) (d_mask1 d)) as (T6 & -> & _).
  { intros K0 s HS; destruct (flatten_first K0 _ _ _ _ HS ltac:(auto)) as (T & ? & ? & _); eauto. }
  { rewrite L6. destruct (d_mask1 d); reflexivity. }
  cbn [bind]. destruct (d_mask2 d) as [m|]; [|congruence]. simpl in L7.
  destruct (k_mask2 K) as [m2|]; [|discriminate]. simpl in L7; injection L7 as L7.
  destruct (flatten_second m2 _ _ _ _ L7) as (T7 & E7 & _). cbn [on_opt]. rewrite E7; reflexivity.
Qed.

(** * [x1_is_x2] (C13) *)

(** The flag is computed as it should: equal data. *)
Definition flag_right {A R} (g : sig) (F : kernel_fn_t A (kernel R)) : Prop :=
  forall n1 n2 x1 x2 kw k, call g n1 n2 x1 x2 kw -> F x1 (Some x2) kw = Ok k ->
    (entry (k_x1_is_x2 k) [] = true <-> n1 = n2 /\ forall i, i < n1 -> same_sample (g_s g) x1 i x2 i).

Theorem serial_flag {A R} neg g d (F : kernel_fn_t A (kernel R)) bs n1 n2 x1 x2 kw B1 b1 B2 b2 t u :
  pairwise_kernel g d F -> flag_right g F ->
  call g n1 n2 x1 (match x2 with Some x => x | None => x1 end) kw ->
  0 < n1 -> 0 < n2 -> 0 < bs ->
  get_n_batches_and_batch_sizes n1 n2 bs 1 = Ok (B1, b1, B2, b2) -> 0 < b2 ->
  x2 = None \/ d_mask2 d = None ->
  serial_fn_x1 (kernel_ops neg) F bs 1 x1 x2 kw = Ok t ->
  F x1 (Some (match x2 with Some x => x | None => x1 end)) kw = Ok u ->
  (entry (k_x1_is_x2 t) [] = true
   <-> forall i, i < b2 -> same_sample (g_s g) x1 i (match x2 with Some x => x | None => x1 end) i)
  /\ (entry (k_x1_is_x2 u) [] = true -> entry (k_x1_is_x2 t) [] = true).
Proof.
  intros HF Hfl Hc P1 P2 Hbs Hplan Hb2 Hm2 Et Eu.
  destruct (serial_kernel neg g d F bs 1 n1 n2 x1 x2 kw B1 b1 B2 b2) as
     (t' & u' & Et' & Eu' & _ & _ & _ & _ & _ & y1 & y2 & kw' & k & Hcall & Hs1 & Hs2 & Ek & Ef); auto.
  rewrite Et in Et'; injection Et' as <-. rewrite Eu in Eu'; injection Eu' as <-.
  destruct (plan_spec _ _ _ _ _ _ _ _ Hbs (Nat.lt_0_succ 0) Hplan) as [(_ & E1 & E2 & _ & E3 & _)|(_ & _ & _ & _ & Z)]; [|lia].
  assert (b1 = b2) as Eb by lia.
  rewrite Ef. assert (entry (k_x1_is_x2 k) [] = true
   <-> forall i, i < b2 -> same_sample (g_s g) x1 i (match x2 with Some x => x | None => x1 end) i) as Q.
  { rewrite (Hfl _ _ _ _ _ _ Hcall Ek). rewrite Eb in *. split.
    - intros [_ H] i Hi r Hr. destruct (Hs1 i Hi) as [G1 _]. destruct (Hs2 i Hi) as [G2 _].
      rewrite <- (G1 r Hr), <- (G2 r Hr). apply H; auto.
    - intros H; split; auto. intros i Hi r Hr. destruct (Hs1 i Hi) as [G1 _]. destruct (Hs2 i Hi) as [G2 _].
      rewrite (G1 r Hr), (G2 r Hr). apply H; auto. }
  split; auto. intros H. apply Q. apply (Hfl _ _ _ _ _ _ Hc Eu) in H. destruct H as [_ H].
  intros i Hi; apply H. assert (0 < B1) by nia. nia.
Qed.

(** * Parallel batching of [Kernel]s (C14) *)

Theorem parallel_kernel {A R} neg g d (F : kernel_fn_t A (kernel R)) dc n1 n2 x1 x2 kw :
  pairwise_kernel g d F -> call g n1 n2 x1 (match x2 with Some x => x | None => x1 end) kw ->
  0 < n1 -> 0 < n2 -> 0 < dc -> n1 < dc \/ Nat.divide dc n1 ->
  x2 = None \/ d_mask2 d = None ->
  exists t u, parallel_fn_x1 (kernel_ops neg) F dc x1 x2 kw = Ok t
    /\ F x1 (Some (match x2 with Some x => x | None => x1 end)) kw = Ok u
    /\ kernel_eq_but t u
    /\ (x2 = None -> k_cov2 t = None) /\ (x2 <> None -> oteq (k_cov2 t) (k_cov2 u))
    /\ k_mask2 t = None /\ shape (k_x1_is_x2 t) = [].
Proof.
  intros (Hax & Hex & Hloc) Hc P1 P2 Hdc Hd Hm2.
  apply per_device_complete in Hd; auto. destruct Hd as [[b D] Hplan].
  destruct (per_device_spec _ _ _ _ Hdc Hplan) as (E1 & _ & Hpos). destruct (Hpos P1) as [HD Hb].
  unfold parallel_fn_x1.
  set (x2' := match x2 with Some x => x | None => x1 end) in *.
  destruct (Hex _ _ _ _ _ Hc) as (u & Eu & Su).
  pose proof Hc as (S1 & S2 & _).
  rewrite S1; cbn [hd]. rewrite Hplan; cbn [bind].
  rewrite <- E1 in Hc, Su.
  destruct (pblocks_ok _ _ _ _ _ _ _ Hc) as (x1s & kws & -> & -> & Hblk). cbn [bind].
  set (kwi := fun i => map (fun kv : string * (tensor A * tensor A) => let '(key, (v1, v2)) := kv in (key, (lead i v1, v2))) kws) in *.
  change (mapM _ (seq 0 D)) with (mapM (fun d => F (lead d x1s) (Some x2') (kwi d)) (seq 0 D)).
  set (L := mkL (b :: n2 :: d_nngp d) (option_map (fun s => b :: n2 :: s) (d_ntk d)) (b :: d_cov1 d)
     (Some (n2 :: d_cov2 d)) [] (option_map (cons b) (d_mask1 d)) (option_map (cons n2) (d_mask2 d))).
  set (St := (d_gaussian d, d_reversed d, d_input d, true, d_spatial d,
       set_at (d_batch_axis d) b (d_shape d), set_at (d_batch_axis d) n2 (d_shape d),
       d_batch_axis d, d_channel_axis d)).
  destruct (mapM_ok (fun d => F (lead d x1s) (Some x2') (kwi d)) (seq 0 D)
     (fun i k => F (lead i x1s) (Some x2') (kwi i) = Ok k /\ kleaf_of k = L /\ statics k = St)) as (l & -> & Fl).
  { intros i Hi; apply in_seq in Hi. destruct (Hblk i) as (Hcall & _); [lia|].
    destruct (Hex _ _ _ _ _ Hcall) as (k & Ek & Sk). exists k; repeat (split; auto); now apply leaf_of_kernel. }
  assert (List.length l = D) as Ln by (apply Forall2_length in Fl; now rewrite seq_length in Fl).
  cbn [bind o_stack kernel_ops].
  destruct (stack_kernel_ok l L St) as (K & -> & LK & SK & HK).
  { destruct l; simpl in Ln; [lia|congruence]. }
  { intros t Ht. clear - Fl Ht. induction Fl; simpl in Ht; [tauto|]. destruct Ht as [<-|Ht]; tauto. }
  rewrite Ln in LK.
  assert (forall i, i < D -> exists k, F (lead i x1s) (Some x2') (kwi i) = Ok k /\ picks [i] K k) as Hpk.
  { intros i Hi. destruct l as [|k0 l0] eqn:El; [simpl in Ln; lia|]. rewrite <- El in *.
    pose proof (Forall2_seq_nth _ 0 _ l k0 Fl) as [_ N]. destruct (N i Hi) as [N1 _]. simpl in N1.
    exists (nth i l k0); split; auto. apply HK. apply nth_error_nth'; lia. }
  clear HK Fl l Ln.
  cbn [bind o_flatten kernel_ops].
  unfold kleaf_of, consl, L in LK; simpl in LK. injection LK as L1 L2 L3 L4 L5 L6 L7.
  unfold statics, St in SK. injection SK as Hq1 Hq2 Hq3 Hdb Hq4 Hs1 Hs2 Hba Hq5.
  unfold flatten_kernel. rewrite Hdb; cbn [negb]. unfold flatten_batch_dimensions; cbn [negb].
  change (1 =? 1) with true; change (0 =? 1) with false; cbn iota.
  destruct (merge01_spec _ _ _ _ L1) as (T1 & -> & ST1 & N1). cbn [bind].
  destruct (on_opt_flatten (fun t => merge01 t) (k_ntk K)
     (fun s => D :: b :: n2 :: s) (fun s => D * b :: n2 :: s)
     (fun o K T => forall i a r, i < D -> a < b -> in_range (n2 :: o) r ->
        entry T (i * b + a :: r) = entry K (i :: a :: r)) (d_ntk d)) as (T2 & -> & ST2 & N2).
  { intros K0 s HS; destruct (merge01_spec _ _ _ _ HS) as (T & ? & ? & ?); eauto. }
  { rewrite L2. destruct (d_ntk d); reflexivity. }
  cbn [bind]. destruct (merge01_spec _ _ _ _ L3) as (T3 & -> & ST3 & N3). cbn [bind].
  set (xn := match x2 with None => true | Some _ => false end).
  assert (exists T4, (if xn then Ok None else on_opt (fun t => Ok (lead 0 t)) (k_cov2 K)) = Ok T4
     /\ option_map shape T4 = (if xn then None else Some (n2 :: d_cov2 d))
     /\ (xn = false -> forall r, oentry T4 r = oentry (k_cov2 K) (0 :: r))) as (T4 & -> & ST4 & N4).
  { destruct xn; [exists None; repeat split; auto; discriminate|].
    destruct (k_cov2 K) as [c2|]; [|discriminate]. simpl in L4; injection L4 as L4.
    simpl. eexists; split; [reflexivity|]. simpl. rewrite L4; auto. }
  cbn [bind].
  destruct (on_opt_flatten (fun t => merge01 t) (k_mask1 K)
     (fun s => D :: b :: s) (fun s => D * b :: s)
     (fun o K T => forall i a r, i < D -> a < b -> in_range o r ->
        entry T (i * b + a :: r) = entry K (i :: a :: r)) (d_mask1 d)) as (T6 & -> & ST6 & N6).
  { intros K0 s HS; destruct (merge01_spec _ _ _ _ HS) as (T & ? & ? & ?); eauto. }
  { rewrite L6. destruct (d_mask1 d); reflexivity. }
  cbn [bind].
  assert ((if xn then Ok None else on_opt (fun t => neg (lead 0 t)) (k_mask2 K)) = Ok None) as ->.
  { subst xn. destruct x2; auto. destruct Hm2 as [Hm2|Hm2]; [discriminate|].
    rewrite Hm2 in L7. destruct (k_mask2 K); [discriminate|]. reflexivity. }
  cbn [bind]. eexists; exists u; split; [reflexivity|]. split; [exact Eu|].
  rewrite L1, Hs1, Hs2, Hba; cbn [nth k_cov2 k_mask2 k_x1_is_x2].
  assert (forall i a c, i < D -> a < b -> c < n2 -> exists k, picks [i] K k /\
     ((forall r, in_range (d_cov1 d) r -> entry (k_cov1 k) (a :: r) = entry (k_cov1 u) (i * b + a :: r))
        /\ (forall r, oin_range (d_mask1 d) r -> oentry (k_mask1 k) (a :: r) = oentry (k_mask1 u) (i * b + a :: r)))
     /\ (forall r, in_range (d_cov2 d) r -> oentry (k_cov2 k) (c :: r) = oentry (k_cov2 u) (c :: r))
     /\ ((forall r, in_range (d_nngp d) r -> entry (k_nngp k) (a :: c :: r) = entry (k_nngp u) (i * b + a :: c :: r))
        /\ (forall r, oin_range (d_ntk d) r -> oentry (k_ntk k) (a :: c :: r) = oentry (k_ntk u) (i * b + a :: c :: r)))) as Q.
  { intros i a c Hi Ha Hcc. destruct (Hblk i Hi) as (Hcall & Hss1 & Hss2).
    destruct (Hpk i Hi) as (k & Ek & Pk). exists k; split; auto.
    destruct (Hloc _ _ _ _ _ _ _ _ _ _ k u a c (i * b + a) c Hcall Hc Ek Eu) as (M1 & M2 & M3); auto; try nia.
    specialize (M1 (Hss1 a Ha)). specialize (M2 (Hss2 c)). specialize (M3 (Hss1 a Ha) (Hss2 c)).
    split; [exact M1|]. split; [apply M2|exact M3]. }
  destruct Su as (U1 & U2 & U3 & U4 & U5 & U6 & U7 & U8 & U9 & U10 & U11 & U12 & U13 & U14 & U15 & U16).
  split; [|split; [|split; [|split]]].
  - unfold kernel_eq_but; cbn [k_nngp k_ntk k_cov1 k_mask1 k_is_gaussian k_is_reversed k_is_input k_diagonal_batch
       k_diagonal_spatial k_shape1 k_shape2 k_batch_axis k_channel_axis].
    split; [|split; [|split; [|split]]].
    + split; [congruence|]. rewrite ST1. intros idx Hidx. inversion Hidx as [|i ? idx1 ? Hi Hidx1]; subst.
      inversion Hidx1 as [|j ? r ? Hj Hr]; subst.
      destruct (div_mod_block i _ _ Hi) as (I1 & I2 & I3).
      destruct (Q _ _ _ I1 I2 Hj) as (k & Pk & _ & _ & Q3 & _).
      rewrite I3, N1, <- Q3 by auto. apply (proj1 Pk (_ :: _ :: r)).
    + unfold oteq. destruct (d_ntk d) as [s|] eqn:Ed; destruct T2 as [tk|] eqn:Et; try discriminate;
      destruct (k_ntk u) as [uk|] eqn:Euk; try discriminate; auto.
      simpl in ST2, U2. injection ST2 as ST2. injection U2 as U2. split; [congruence|].
      rewrite ST2. intros idx Hidx. inversion Hidx as [|i ? idx1 ? Hi Hidx1]; subst.
      inversion Hidx1 as [|j ? r ? Hj Hr]; subst.
      destruct (div_mod_block i _ _ Hi) as (I1 & I2 & I3).
      destruct (Q _ _ _ I1 I2 Hj) as (k & Pk & _ & _ & _ & Q4).
      destruct (k_ntk K) as [kk|] eqn:Ekk; [|tauto].
      enough (oentry (Some tk) (i :: j :: r) = oentry (Some uk) (i :: j :: r)) as G by (injection G; auto).
      rewrite I3, <- Q4 by auto. simpl oentry at 1. rewrite N2 by auto.
      pose proof (proj1 (proj2 Pk) (i mod b :: j :: r)) as G. rewrite Ekk in G. exact G.
    + split; [congruence|]. rewrite ST3. intros idx Hidx. inversion Hidx as [|i ? r ? Hi Hr]; subst.
      destruct (div_mod_block i _ _ Hi) as (I1 & I2 & I3).
      destruct (Q _ _ 0 I1 I2 ltac:(auto)) as (k & Pk & (Q1 & _) & _).
      rewrite I3, N3, <- Q1 by auto. apply (proj1 (proj2 (proj2 Pk)) (_ :: r)).
    + unfold oteq. destruct (d_mask1 d) as [s|] eqn:Ed; destruct T6 as [tk|] eqn:Et; try discriminate;
      destruct (k_mask1 u) as [uk|] eqn:Euk; try discriminate; auto.
      simpl in ST6, U6. injection ST6 as ST6. injection U6 as U6. split; [congruence|].
      rewrite ST6. intros idx Hidx. inversion Hidx as [|i ? r ? Hi Hr]; subst.
      destruct (div_mod_block i _ _ Hi) as (I1 & I2 & I3).
      destruct (Q _ _ 0 I1 I2 ltac:(auto)) as (k & Pk & (_ & Q1) & _).
      destruct (k_mask1 K) as [kk|] eqn:Ekk; [|tauto].
      enough (oentry (Some tk) (i :: r) = oentry (Some uk) (i :: r)) as G by (injection G; auto).
      rewrite I3, <- Q1 by auto. simpl oentry at 1. rewrite N6 by auto.
      pose proof (proj1 (proj2 (proj2 (proj2 (proj2 (proj2 Pk))))) (i mod b :: r)) as G. rewrite Ekk in G. exact G.
    + rewrite (scale_set d _ _ _ Hax eq_refl). repeat split; congruence.
  - intros Hx. subst xn; rewrite Hx in ST4. destruct T4; [discriminate|auto].
  - intros Hx. assert (xn = false) as Hxn by (subst xn; destruct x2; congruence).
    rewrite Hxn in ST4. specialize (N4 Hxn).
    unfold oteq. destruct T4 as [tk|] eqn:Et; try discriminate.
    destruct (k_cov2 u) as [uk|] eqn:Euk; try discriminate.
    simpl in ST4, U4. injection ST4 as ST4. injection U4 as U4. split; [congruence|].
    rewrite ST4. intros idx Hidx. inversion Hidx as [|j ? r ? Hj Hr]; subst.
    destruct (Q 0 0 j ltac:(auto) ltac:(auto) Hj) as (k & Pk & _ & Q1 & _).
    enough (oentry (Some tk) (j :: r) = oentry (Some uk) (j :: r)) as G by (injection G; auto).
    rewrite N4, <- Q1 by auto. apply (proj1 (proj2 (proj2 (proj2 Pk))) (_ :: r)).
  - auto.
  - auto.
Qed.

(** Serial over parallel. The inner function always receives [x2], so [mask2] has
    to be absent even when [x2] is omitted. *)
Theorem batch_kernel {A R} neg g d (F : kernel_fn_t A (kernel R)) bs dc n1 n2 x1 x2 kw :
  pairwise_kernel g d F -> call g n1 n2 x1 (match x2 with Some x => x | None => x1 end) kw ->
  0 < n1 -> 0 < n2 -> 0 < bs -> 0 < dc -> dc <= Nat.gcd n1 n2 ->
  (exists p, get_n_batches_and_batch_sizes n1 n2 bs dc = Ok p) ->
  d_mask2 d = None ->
  exists t u, batch (kernel_ops neg) F bs dc x1 x2 kw = Ok t
    /\ F x1 (Some (match x2 with Some x => x | None => x1 end)) kw = Ok u
    /\ kernel_eq_but t u
    /\ (x2 = None -> k_cov2 t = None) /\ (x2 <> None -> oteq (k_cov2 t) (k_cov2 u))
    /\ k_mask2 t = None /\ shape (k_x1_is_x2 t) = [].
Proof.
  intros HF Hc P1 P2 Hbs Hdc Hg [[[[B1 b1] B2] b2] Hplan] Hm2.
  unfold batch. rewrite (proj2 (Nat.ltb_lt 0 dc) Hdc), (proj2 (Nat.eqb_neq bs 0)), Nat.max_l by lia.
  destruct (plan_spec _ _ _ _ _ _ _ _ Hbs Hdc Hplan) as [(Hb2 & E1 & E2 & _ & Eb & _)|(Z & _)]; [|lia].
  destruct (serial_kernel_gen neg g d F (parallel_fn_x1 (kernel_ops neg) F dc) bs dc n1 n2 x1 x2 kw B1 b1 B2 b2)
    as (t & u & H1 & H2 & H3 & H4 & H5 & H6 & H7 & _); auto.
  - intros y1 y2 kw' Hc'.
    destruct (parallel_kernel neg g d F dc b1 b2 y1 (Some y2) kw') as (t & u & H1 & H2 & H3 & _ & H5 & H6 & H7); auto.
    { nia. } { right; exists b2; lia. }
    exists t, u; split; auto. split; auto. split; auto. split; auto. split; [apply H5; discriminate|].
    rewrite H6. destruct HF as (_ & Hex & _). destruct (Hex _ _ _ _ _ Hc') as (u' & Eu' & Su').
    rewrite H2 in Eu'; injection Eu' as <-. destruct Su' as (_ & _ & _ & _ & _ & _ & Sm & _).
    rewrite Hm2 in Sm. destruct (k_mask2 u); [discriminate|]. simpl; auto.
  - exists t, u; repeat (split; auto).
Qed.

(** * [Kernel] inputs (C15) *)

Lemma nth_block i b a : a < b -> nth a (seq (i * b) b) 0 = i * b + a.
Proof. intros; now rewrite seq_nth. Qed.

Lemma slice_spec {R} d B1 b1 B2 b2 (k : kernel R) i j :
  d_batch_axis d = 0 -> kernel_of d (B1 * b1) (B2 * b2) (filled k) ->
  let s := k_slice k (seq (i * b1) b1) (seq (j * b2) b2) in
  kernel_of d b1 b2 s
  /\ (forall a, a < b1 -> same_row d s a (filled k) (i * b1 + a))
  /\ (forall c, c < b2 -> same_col d s c (filled k) (j * b2 + c))
  /\ (forall a c, a < b1 -> c < b2 -> same_cell d s a c (filled k) (i * b1 + a) (j * b2 + c))
  /\ entry (k_x1_is_x2 s) [] = entry (k_x1_is_x2 (filled k)) [].
Proof.
  intros Hax H s. subst s. unfold kernel_of in *. simpl in H.
  destruct H as (U1 & U2 & U3 & U4 & U5 & U6 & U7 & U8 & U9 & U10 & U11 & U12 & U13 & U14 & U15 & U16).
  injection U4 as U4. rewrite Hax in *. simpl in U13, U14. unfold set_at in U13, U14; simpl in U13, U14.
  assert (forall (o : option (tensor R)), option_map shape o = option_map (fun s => B1 * b1 :: B2 * b2 :: s) (d_ntk d) ->
     match o with Some t => (ndim t =? 0) = false | None => True end) as Hnd.
  { intros [t|]; simpl; auto. destruct (d_ntk d) as [s|]; simpl; [|discriminate]. intros [= E]. unfold ndim; rewrite E; reflexivity. }
  specialize (Hnd _ U2).
  split; [|split; [|split; [|split]]].
  - unfold k_slice; simpl. rewrite !seq_length, U1, U3, U13, U14; simpl.
    repeat split; auto.
    + destruct (k_ntk k) as [t|], (d_ntk d) as [s|]; simpl in *; try discriminate; auto.
      rewrite Hnd. injection U2 as U2. simpl. now rewrite !seq_length, U2.
    + destruct (k_cov2 k); simpl; rewrite seq_length, U4; auto.
    + destruct (k_mask1 k), (d_mask1 d); simpl in *; try discriminate; auto. injection U6 as ->. now rewrite seq_length.
    + destruct (k_mask2 k), (d_mask2 d); simpl in *; try discriminate; auto. injection U7 as ->. now rewrite seq_length.
    + destruct (k_cov2 k); simpl; unfold set_at; simpl; now rewrite seq_length.
  - intros a Ha; split; intros r Hr; unfold k_slice; simpl.
    + now rewrite nth_block.
    + destruct (k_mask1 k); simpl; auto. now rewrite nth_block.
  - intros c Hc; split; intros r Hr; unfold k_slice; simpl.
    + destruct (k_cov2 k); simpl; now rewrite nth_block.
    + destruct (k_mask2 k); simpl; auto. now rewrite nth_block.
  - intros a c Ha Hc; split; intros r Hr; unfold k_slice; simpl.
    + now rewrite !nth_block.
    + destruct (k_ntk k); simpl; auto. rewrite Hnd; simpl. now rewrite !nth_block.
  - reflexivity.
Qed.

Theorem serial_layer {R} neg d d' (F : kernel R -> result (kernel R)) bs dc n1 n2 k B1 b1 B2 b2 :
  pairwise_layer d d' F -> d_batch_axis d = 0 -> kernel_of d n1 n2 (filled k) ->
  0 < n1 -> 0 < n2 -> 0 < bs -> 0 < dc ->
  get_n_batches_and_batch_sizes n1 n2 bs dc = Ok (B1, b1, B2, b2) -> 0 < b2 ->
  k_cov2 k = None \/ d_mask2 d' = None ->
  exists t u, serial_fn_kernel neg F bs dc k = Ok t
    /\ F (filled k) = Ok u
    /\ kernel_eq_but t u
    /\ (k_cov2 k = None -> k_cov2 t = None) /\ (k_cov2 k <> None -> oteq (k_cov2 t) (k_cov2 u))
    /\ k_mask2 t = None
    /\ teq (k_x1_is_x2 t) (k_x1_is_x2 u).
Proof.
  intros (Hax & Hex & Hloc) Hb0 Hk P1 P2 Hbs Hdc Hplan Hb2 Hm2.
  destruct (plan_spec _ _ _ _ _ _ _ _ Hbs Hdc Hplan) as [(_ & E1 & E2 & _ & E3 & _)|(_ & _ & _ & _ & Z)]; [|lia].
  destruct (Hex _ _ _ Hk) as (u & Eu & Su).
  rewrite <- E1, <- E2 in Hk, Su.
  assert (0 < B1) by nia. assert (0 < B2) by nia. assert (0 < b1) by nia.
  unfold serial_fn_kernel.
  assert (shape (k_nngp k) = B1 * b1 :: B2 * b2 :: d_nngp d) as U1' by exact (proj1 Hk).
  rewrite U1'; cbn [nth]. rewrite E1, E2, Hplan; cbn [bind].
  rewrite (proj2 (Nat.eqb_neq b1 0)), (proj2 (Nat.eqb_neq b2 0)) by lia. cbn [orb].
  set (blk := fun i j => F (k_slice k (seq (i * b1) b1) (seq (j * b2) b2))).
  set (xn := match k_cov2 k with None => true | Some _ => false end).
  destruct (assemble_kernel neg d' B1 b1 B2 b2 blk u xn) as (K & T & EK & ET & R1 & R2 & R3 & R4 & R5 & R6); auto.
  { subst xn; destruct (k_cov2 k); [destruct Hm2; [discriminate|auto]|auto]. }
  { intros i j Hi Hj. destruct (slice_spec d B1 b1 B2 b2 k i j Hb0 Hk) as (S1 & S2 & S3 & S4 & S5).
    destruct (Hex _ _ _ S1) as (k' & Ek' & Sk'). exists k'; split; [exact Ek'|]. split; [exact Sk'|].
    intros a c Ha Hc.
    destruct (Hloc _ _ _ _ _ _ k' u a c (i * b1 + a) (j * b2 + c) S1 Hk Ek' Eu) as (L1 & L2 & L3 & L4); auto; try nia.
    specialize (L1 (S2 a Ha)). specialize (L2 (S3 c Hc)). specialize (L3 (S2 a Ha) (S3 c Hc) (S4 a c Ha Hc)).
    split; [exact L1|]. split; [apply L2|exact L3]. }
  fold blk. rewrite EK; cbn [bind].
  assert (flatten_kernel neg (if xn then replace_covs K (k_cov1 K) (k_nngp K) None (k_ntk K) else K) xn false = Ok T) as ->.
  { rewrite <- ET. destruct xn; reflexivity. }
  exists T, u. split; auto. split; auto. split; auto.
  split; [intros Hx; apply R2; subst xn; now rewrite Hx|].
  split; [intros Hx; apply R3; subst xn; destruct (k_cov2 k); congruence|]. split; auto.
  destruct (slice_spec d B1 b1 B2 b2 k 0 0 Hb0 Hk) as (S1 & S2 & S3 & S4 & S5).
  destruct (Hex _ _ _ S1) as (k' & Ek' & Sk').
  destruct (Hloc _ _ _ _ _ _ k' u 0 0 0 0 S1 Hk Ek' Eu) as (_ & _ & _ & L4); auto; try nia.
  assert (shape (k_x1_is_x2 u) = []) as Sx by apply Su.
  split; [congruence|]. intros idx Hidx. rewrite R5 in Hidx. inversion Hidx; subst.
  rewrite <- L4. apply R6. exact Ek'.
Qed.

(** The all-zero plan is refused by the reshape of the data, whatever the kernel function. *)
Theorem zero_plan_refused {A O} (ops : outops O) (F : kernel_fn_t A O) bs dc n1 s x1 x2 kw :
  shape x1 = n1 :: s -> 0 < size (shape x1) -> 0 < bs ->
  Nat.gcd n1 (hd 0 (shape (match x2 with None => x1 | Some x2 => x2 end))) < dc ->
  serial_fn_x1 ops F bs dc x1 x2 kw = Raise TypeError.
Proof.
  intros S1 Hs Hbs Hg. unfold serial_fn_x1. rewrite S1; cbn [hd].
  set (n2 := hd 0 (shape (match x2 with Some x => x | None => x1 end))) in *.
  assert (get_n_batches_and_batch_sizes n1 n2 bs dc = Ok (0, 0, 0, 0)) as ->.
  { unfold get_n_batches_and_batch_sizes. rewrite (Nat.div_small (Nat.gcd n1 n2) dc Hg), Nat.min_0_r. reflexivity. }
  cbn [bind]. unfold batch_input, reshape. rewrite S1 in *. simpl in Hs. simpl.
  destruct (Nat.eqb_spec 0 (n1 * size s)); [lia|]. simpl. destruct (Nat.eqb_spec (n1 * size s) 0); [lia|reflexivity].
Qed.
