(** Indexed kernels are kernels of the indexed arrays. *)
From Coq Require Import Reals List Arith ZArith Lia Bool.
From Verif Require Import Base Tensor Model_Slice Model_Kernel Model_Empirical Model_Index Spec_Slice Spec_Inputs Spec_Aggregate Spec_Index Proof_Slice Proof_Axes Proof_Axes2 Proof_Inputs Proof_Aggregate Proof_Index Proof_Index2.
Import ListNotations.

Lemma ord_length {A} r (l : list A) : length (ord r l) = length l.
Proof. destruct r; [apply rev_length|reflexivity]. Qed.
Lemma ord_ord {A} r (l : list A) : ord r (ord r l) = l.
Proof. destruct r; [apply rev_involutive|reflexivity]. Qed.
Lemma cuts_ord r c s o : cuts c s o -> cuts (ord r c) (ord r s) (ord r o).
Proof. destruct r; [apply cuts_rev|auto]. Qed.
Lemma source_ord r c s o p : cuts c s o -> length p = length o -> source (ord r c) (ord r s) p = ord r (source c s (ord r p)).
Proof.
  intros H L. destruct r; cbn [ord]; [|reflexivity]. rewrite <- (rev_involutive p) at 1. apply (source_rev c s o); auto. rewrite rev_length. exact L.
Qed.
Lemma in_range_rev sh p : in_range sh p -> in_range (rev sh) (rev p).
Proof. unfold in_range. induction 1; cbn [rev]; [constructor|]. apply Forall2_app; auto. Qed.
Lemma in_range_ord' r sh p : in_range sh p -> in_range (ord r sh) (ord r p).
Proof. destruct r; [apply in_range_rev|auto]. Qed.
Lemma in_range_unord r sh p : in_range (ord r sh) p -> in_range sh (ord r p).
Proof. intros H. apply (in_range_ord' r) in H. rewrite ord_ord in H. exact H. Qed.

Definition one (e : index) (N i : nat) : nat := hd 0 (source [e] [N] [i]).
Lemma one_eq e N N' i : cuts [e] [N] [N'] -> source [e] [N] [i] = [one e N i].
Proof. intros H. unfold one. pose proof (source_length _ _ _ [i] H eq_refl) as L. destruct (source [e] [N] [i]) as [|v [|]]; try discriminate. reflexivity. Qed.
Lemma one_lt e N N' i : cuts [e] [N] [N'] -> i < N' -> one e N i < N.
Proof.
  intros H Hi. pose proof (source_in_range _ _ _ [i] H ltac:(constructor; [exact Hi|constructor])) as R. rewrite (one_eq _ _ _ _ H) in R.
  inversion R. auto.
Qed.

Definition sidx_of (r ds : bool) (cs : list index) : list index :=
  let s := if r then rev cs else cs in if negb ds then flat_map (fun v => [v; v]) s else s.

Lemma index_holds r db ds e cs N1 N2 N1' N2' sp1 sp2 o1 o2 G t :
  cuts [e] [N1] [N1'] -> cuts [e] [N2] [N2'] -> cuts cs sp1 o1 -> cuts cs sp2 o2 -> (db = true -> N1 = N2) -> (ds = true -> sp1 = sp2) ->
  holds_gram db ds N1 N2 (ord r sp1) (ord r sp2) G t ->
  exists t', getitem t ((if db then [e] else [e; e]) ++ sidx_of r ds cs) = Ok t'
    /\ holds_gram db ds N1' N2' (ord r o1) (ord r o2)
         (fun i j p q => G (one e N1 i) (one e N2 j) (ord r (source cs sp1 (ord r p))) (ord r (source cs sp2 (ord r q)))) t'.
Proof.
  intros E1 E2 H1 H2 Db Ds [Sh En].
  pose proof (cuts_ord r _ _ _ H1) as K1. pose proof (cuts_ord r _ _ _ H2) as K2.
  assert (CS : cuts (sidx_of r ds cs) (lay ds (ord r sp1) (ord r sp2)) (lay ds (ord r o1) (ord r o2))).
  { unfold sidx_of, lay. change (if r then rev cs else cs) with (ord r cs). destruct ds; cbn [negb]; [exact K1|]. apply cuts_double; auto. }
  assert (CB : cuts (if db then [e] else [e; e]) (if db then [N1] else [N1; N2]) (if db then [N1'] else [N1'; N2'])).
  { destruct db; [exact E1|]. apply (cuts_app [e] [N1] [N1'] [e] [N2] [N2']); auto. }
  pose proof (cuts_app _ _ _ _ _ _ CB CS) as CA. rewrite <- Sh in CA. eexists. split; [apply getitem_cuts; exact CA|].
  split; [reflexivity|]. cbn [entry]. intros i j p q Hi Hj Hp Hq Hd Hs. rewrite Sh.
  pose proof (in_range_length _ _ Hp) as Lp. pose proof (in_range_length _ _ Hq) as Lq. rewrite ord_length in Lp, Lq.
  rewrite (source_app _ _ _ CB) by (destruct db; reflexivity).
  assert (SB : source (if db then [e] else [e; e]) (if db then [N1] else [N1; N2]) (if db then [i] else [i; j]) = if db then [one e N1 i] else [one e N1 i; one e N2 j]).
  { destruct db; [apply (one_eq _ _ _ _ E1)|]. pose proof (source_app [e] [N1] [N1'] E1 [e] [N2] [i] [j] eq_refl) as Q. cbn [app] in Q. rewrite Q.
    rewrite (one_eq _ _ _ _ E1), (one_eq _ _ _ _ E2). reflexivity. }
  assert (SS : source (sidx_of r ds cs) (lay ds (ord r sp1) (ord r sp2)) (lay ds p q) = lay ds (ord r (source cs sp1 (ord r p))) (ord r (source cs sp2 (ord r q)))).
  { unfold sidx_of, lay. change (if r then rev cs else cs) with (ord r cs). destruct ds; cbn [negb]; [apply (source_ord r _ _ o1); auto|].
    rewrite (source_double _ _ _ K1 _ _ p q K2) by (rewrite ord_length; auto).
    rewrite (source_ord r _ _ o1), (source_ord r _ _ o2) by auto. reflexivity. }
  rewrite SB, SS. apply En.
  - eapply one_lt; eauto.
  - eapply one_lt; eauto.
  - apply in_range_ord'. eapply source_in_range; [exact H1|]. apply in_range_unord. exact Hp.
  - apply in_range_ord'. eapply source_in_range; [exact H2|]. apply in_range_unord. exact Hq.
  - intros D. rewrite (Hd D), (Db D). reflexivity.
  - intros D. rewrite (Hs D), (Ds D). reflexivity.
Qed.

Lemma holds_ext db ds N1 N2 sp1 sp2 G G' t : (forall i j p q, i < N1 -> j < N2 -> in_range sp1 p -> in_range sp2 q -> G i j p q = G' i j p q) ->
  holds_gram db ds N1 N2 sp1 sp2 G t -> holds_gram db ds N1 N2 sp1 sp2 G' t.
Proof. intros E [H1 H2]. split; [exact H1|]. intros. rewrite <- E by auto. apply H2; auto. Qed.

(** What indexing does to the sites of one array. *)
Record indexed {A} (b c b' c' : nat) (e : index) (cs : list index) (N N' : nat) (sp o : list nat) (C : nat) (x y : tensor A) : Prop := {
  ix_e : cuts [e] [N] [N'];
  ix_cs : cuts cs sp o;
  ix_shape : shape y = site (2 + length o) b' c' N' o C;
  ix_fibre : forall i p k, length p = length o -> fibre b' c' y i p k = fibre b c x (one e N i) (source cs sp p) k }.

Lemma index_array {A} idx b c b' c' e cs N sp C (x y : tensor A) : well_indexed idx (2 + length sp) -> b <> c ->
  parts (canonicalize_idx idx (2 + length sp)) b c sp e cs -> shape x = site (2 + length sp) b c N sp C -> getitem x idx = Ok y ->
  shifted_axes (canonicalize_idx idx (2 + length sp)) c b = (c', b') ->
  exists N' o, b' < 2 + length o /\ c' < 2 + length o /\ b' <> c' /\ indexed b c b' c' e cs N N' sp o C x y.
Proof.
  intros Hw Hbc P Sx Hy Sh. assert (Lx : length (shape x) = 2 + length sp) by (rewrite Sx; apply site_length).
  destruct (getitem_inv x y idx) as [Hc He]; [rewrite Lx; auto|auto|]. rewrite Lx in Hc, He. pose proof (canon_length idx _ Hw) as L.
  assert (Hc' := Hc). rewrite Sx in Hc'. destruct (parts_cut _ _ _ _ _ _ _ _ _ Hbc P L Hc') as (N' & o & K1 & K2).
  destruct (parts_cuts _ _ _ _ _ _ _ _ _ Hbc P L K1 K2) as (b'' & c'' & Sh' & F1 & F2 & F3 & KC & KS).
  rewrite Sh in Sh'. injection Sh' as <- <-. exists N', o. do 3 (split; [assumption|]).
  assert (Sy : shape y = site (2 + length o) b' c' N' o C) by (eapply cuts_unique; eauto).
  constructor; auto. intros i p k Lp. unfold fibre. rewrite He by (rewrite Sy, !site_length; lia). f_equal. rewrite Sx. apply KS. exact Lp.
Qed.

Lemma index_mask {A} idx b c b' c' e cs N N' sp o C (x y : tensor A) Cm M m : well_indexed idx (2 + length sp) -> b <> c ->
  parts (canonicalize_idx idx (2 + length sp)) b c sp e cs -> shifted_axes (canonicalize_idx idx (2 + length sp)) c b = (c', b') ->
  indexed b c b' c' e cs N N' sp o C x y -> (forall k, k < Cm -> of_channels1 C (fun u => M u k)) ->
  masks_sites b c N sp Cm M x m ->
  exists m', getitem m (canonicalize_idx idx (2 + length sp)) = Ok m' /\ masks_sites b' c' N' o Cm M y m'.
Proof.
  intros Hw Hbc P Sh [K1 K2 Sy Fy] HM [Sm Em]. pose proof (canon_length idx _ Hw) as L.
  destruct (parts_cuts _ _ _ _ _ _ _ _ _ Hbc P L K1 K2) as (b'' & c'' & Sh' & F1 & F2 & F3 & KC & KS).
  rewrite Sh in Sh'. injection Sh' as <- <-. eexists. split; [apply getitem_cuts; rewrite Sm; apply KC|].
  split; [reflexivity|]. cbn [entry]. intros i p k Hi Hp Hk. pose proof (in_range_length _ _ Hp) as Lp. rewrite Sm, KS by exact Lp.
  fold (one e N i). rewrite Em; [|eapply one_lt; eauto|eapply source_in_range; eauto|exact Hk].
  apply (HM k Hk). intros l Hl. symmetry. apply Fy. exact Lp.
Qed.

Lemma on_opt_ok {A B} (f : A -> result B) (o : option A) (P : A -> B -> Prop) : (forall a, o = Some a -> exists b, f a = Ok b /\ P a b) ->
  exists o', on_opt f o = Ok o' /\ (o = None <-> o' = None) /\ forall b, o' = Some b -> exists a, o = Some a /\ P a b.
Proof.
  intros H. destruct o as [a|]; cbn [on_opt].
  - destruct (H a eq_refl) as (b & -> & Hb). exists (Some b). split; [reflexivity|]. split; [split; discriminate|]. intros b' E. injection E as <-. eauto.
  - exists None. split; [reflexivity|]. split; [tauto|]. discriminate.
Qed.

Theorem kernel_index {A} (C : nat) (K T : (nat -> A) -> (nat -> A) -> R) (Cm : nat) (M : (nat -> A) -> nat -> bool)
  (k : kernel R) (x1 x2 y1 y2 : tensor A) idx :
  of_channels C K -> of_channels C T -> (forall κ, κ < Cm -> of_channels1 C (fun u => M u κ)) ->
  kernel_of C K T Cm M k x1 x2 ->
  well_indexed idx (ndim x1) -> keeps_channels idx (ndim x1) (k_channel_axis k) -> keeps_batch idx (ndim x1) (k_batch_axis k) ->
  getitem x1 idx = Ok y1 -> getitem x2 idx = Ok y2 ->
  exists k', k_getitem k idx = Ok k' /\ same_kind k k' /\ kernel_of C K T Cm M k' y1 y2.
Proof.
  intros HK HT HM (N1 & N2 & sp1 & sp2 & Lsp & Ds & Hb & Hc & Hbc & S1 & S2 & KS1 & KS2 & Hn & H1 & H2 & Ht & Hm1 & Hm2) Hw Kc Kb Y1 Y2.
  unfold ndim in Hw, Kc, Kb. assert (L1 : length (shape x1) = 2 + length sp1) by (rewrite S1; apply site_length). rewrite L1 in Hw, Kc, Kb.
  destruct (parts_of idx _ _ sp1 Hw Hb Hc Hbc Kc Kb) as (e & cs & P). pose proof (canon_length idx _ Hw) as L.
  destruct (shifted_axes (canonicalize_idx idx (2 + length sp1)) (k_channel_axis k) (k_batch_axis k)) as [c' b'] eqn:Sh.
  destruct (index_array idx _ _ b' c' e cs N1 sp1 C x1 y1 Hw Hbc P S1 Y1 Sh) as (N1' & o1 & F1 & F2 & F3 & I1).
  assert (P2 : parts (canonicalize_idx idx (2 + length sp2)) (k_batch_axis k) (k_channel_axis k) sp2 e cs).
  { rewrite <- Lsp. destruct P. constructor; auto. congruence. }
  destruct (index_array idx _ _ b' c' e cs N2 sp2 C x2 y2 ltac:(rewrite <- Lsp; auto) Hbc P2 S2 Y2 ltac:(rewrite <- Lsp; auto)) as (N2' & o2 & G1 & G2 & G3 & I2).
  assert (Lo : length o1 = length o2) by (rewrite (cuts_out _ _ _ (ix_cs _ _ _ _ _ _ _ _ _ _ _ _ _ I1)), (cuts_out _ _ _ (ix_cs _ _ _ _ _ _ _ _ _ _ _ _ _ I2)); reflexivity).
  assert (Dso : k_diagonal_spatial k = true -> o1 = o2).
  { intros D. specialize (Ds D). eapply cuts_unique; [apply (ix_cs _ _ _ _ _ _ _ _ _ _ _ _ _ I1)|]. rewrite Ds. apply (ix_cs _ _ _ _ _ _ _ _ _ _ _ _ _ I2). }
  unfold k_getitem. rewrite KS1, L1. unfold item. rewrite (pt_c _ _ _ _ _ _ P), (pt_b _ _ _ _ _ _ P). cbn [bind is_full full negb]. rewrite (pt_int _ _ _ _ _ _ P), (pt_spatial _ _ _ _ _ _ P).
  fold (sidx_of (k_is_reversed k) (k_diagonal_spatial k) cs).
  (* covariances of two arrays *)
  assert (G : forall db (u1 u2 v1 v2 : tensor A) M1 M2 M1' M2' s1 s2 q1 q2 (F : (nat -> A) -> (nat -> A) -> R) (t : tensor R), indexed (k_batch_axis k) (k_channel_axis k) b' c' e cs M1 M1' s1 q1 C u1 v1 ->
     indexed (k_batch_axis k) (k_channel_axis k) b' c' e cs M2 M2' s2 q2 C u2 v2 -> (db = true -> M1 = M2) -> (k_diagonal_spatial k = true -> s1 = s2) -> of_channels C F ->
     describes (k_is_reversed k) db (k_diagonal_spatial k) (k_batch_axis k) (k_channel_axis k) M1 M2 s1 s2 F u1 u2 t ->
     exists t', getitem t ((if db then [e] else [e; e]) ++ sidx_of (k_is_reversed k) (k_diagonal_spatial k) cs) = Ok t'
       /\ describes (k_is_reversed k) db (k_diagonal_spatial k) b' c' M1' M2' q1 q2 F v1 v2 t').
  { intros db u1 u2 v1 v2 M1 M2 M1' M2' s1 s2 q1 q2 F t J1 J2 D1 D2 HF HD. destruct J1 as [A1 B1 C1 E1]. destruct J2 as [A2 B2 C2 E2].
    destruct (index_holds _ _ _ e cs M1 M2 M1' M2' s1 s2 q1 q2 _ t A1 A2 B1 B2 D1 D2 HD) as (t' & T1 & T2). exists t'. split; [exact T1|].
    eapply holds_ext; [|exact T2]. intros i j p q _ _ Hp Hq. cbv beta. rewrite !ord_ord. pose proof (in_range_length _ _ Hp) as Lp. pose proof (in_range_length _ _ Hq) as Lq. rewrite ord_length in Lp, Lq.
    apply HF; intros l Hl; symmetry; [apply E1|apply E2]; rewrite ord_length; auto. }
  destruct (G false _ _ _ _ _ _ _ _ _ _ _ _ K (k_nngp k) I1 I2 (fun D => False_ind _ (Bool.diff_false_true D)) Ds HK Hn) as (nngp & -> & Dn). cbn [bind].
  destruct (on_opt_ok (fun t => if ndim t =? 0 then Ok t else getitem t ([e; e] ++ sidx_of (k_is_reversed k) (k_diagonal_spatial k) cs)) (k_ntk k)
    (fun _ t' => (shape t' = [] /\ forall u v, T u v = entry t' []) \/ describes (k_is_reversed k) false (k_diagonal_spatial k) b' c' N1' N2' o1 o2 T y1 y2 t')) as (ntk & -> & Nn & Dt).
  { intros t E. destruct (Ht t E) as [[E0 E1]|D].
    - exists t. unfold ndim. rewrite E0. cbn. auto.
    - destruct (G false _ _ _ _ _ _ _ _ _ _ _ _ T t I1 I2 (fun D => False_ind _ (Bool.diff_false_true D)) Ds HT D) as (t' & E' & D').
      exists t'. unfold ndim. destruct D as [Sht _]. rewrite Sht. cbn [app length Nat.eqb]. auto. }
  cbn [bind].
  destruct (G (k_diagonal_batch k) _ _ _ _ _ _ _ _ _ _ _ _ K (k_cov1 k) I1 I1 (fun _ => eq_refl) (fun _ => eq_refl) HK H1) as (cov1 & -> & D1). cbn [bind].
  destruct (on_opt_ok (fun t => getitem t ((if k_diagonal_batch k then [e] else [e; e]) ++ sidx_of (k_is_reversed k) (k_diagonal_spatial k) cs)) (k_cov2 k)
    (fun _ t' => describes (k_is_reversed k) (k_diagonal_batch k) (k_diagonal_spatial k) b' c' N2' N2' o2 o2 K y2 y2 t')) as (cov2 & -> & Nc & D2).
  { intros t E. apply (G (k_diagonal_batch k) _ _ _ _ _ _ _ _ _ _ _ _ K t I2 I2 (fun _ => eq_refl) (fun _ => eq_refl) HK (H2 t E)). }
  cbn [bind]. rewrite Sh.
  destruct (parts_cuts _ _ _ _ _ _ _ _ _ Hbc P L (ix_e _ _ _ _ _ _ _ _ _ _ _ _ _ I1) (ix_cs _ _ _ _ _ _ _ _ _ _ _ _ _ I1)) as (? & ? & Sh1 & _ & _ & _ & KC1 & _).
  rewrite Sh in Sh1. injection Sh1 as <- <-.
  assert (L2 : length (canonicalize_idx idx (2 + length sp2)) = 2 + length sp2) by (rewrite <- Lsp; exact L).
  destruct (parts_cuts _ _ _ _ _ _ _ _ _ Hbc P2 L2 (ix_e _ _ _ _ _ _ _ _ _ _ _ _ _ I2) (ix_cs _ _ _ _ _ _ _ _ _ _ _ _ _ I2)) as (? & ? & Sh2 & _ & _ & _ & KC2 & _).
  rewrite <- Lsp in Sh2, KC2. rewrite Sh in Sh2. injection Sh2 as <- <-.
  rewrite S1, (slice_nats_cuts _ _ _ (KC1 C)). cbn [bind]. rewrite KS2, S2, <- Lsp, (slice_nats_cuts _ _ _ (KC2 C)). cbn [bind].
  destruct (on_opt_ok (fun m => getitem m (canonicalize_idx idx (2 + length sp1))) (k_mask1 k) (fun _ m' => masks_sites b' c' N1' o1 Cm M y1 m')) as (mask1 & -> & Nm1 & Dm1).
  { intros m E. apply (index_mask idx (k_batch_axis k) (k_channel_axis k) b' c' e cs N1 N1' sp1 o1 C x1 y1 Cm M m); auto. }
  cbn [bind].
  destruct (on_opt_ok (fun m => getitem m (canonicalize_idx idx (2 + length sp1))) (k_mask2 k) (fun _ m' => masks_sites b' c' N2' o2 Cm M y2 m')) as (mask2 & -> & Nm2 & Dm2).
  { intros m E. rewrite Lsp. apply (index_mask idx (k_batch_axis k) (k_channel_axis k) b' c' e cs N2 N2' sp2 o2 C x2 y2 Cm M m); auto; rewrite <- Lsp; auto. }
  cbn [bind]. eexists. split; [reflexivity|].
  split; [repeat split; cbn; tauto|].
  exists N1', N2', o1, o2. cbn [k_batch_axis k_channel_axis k_is_reversed k_diagonal_batch k_diagonal_spatial k_shape1 k_shape2 k_nngp k_cov1 k_cov2 k_ntk k_mask1 k_mask2].
  split; [exact Lo|]. split; [exact Dso|]. do 3 (split; [assumption|]).
  split; [apply (ix_shape _ _ _ _ _ _ _ _ _ _ _ _ _ I1)|]. split; [apply (ix_shape _ _ _ _ _ _ _ _ _ _ _ _ _ I2)|].
  split; [symmetry; apply (ix_shape _ _ _ _ _ _ _ _ _ _ _ _ _ I1)|]. split; [symmetry; apply (ix_shape _ _ _ _ _ _ _ _ _ _ _ _ _ I2)|].
  split; [exact Dn|]. split; [exact D1|]. split; [intros t E; destruct (D2 t E) as (? & _ & D); exact D|].
  split; [intros t E; destruct (Dt t E) as (? & _ & D); exact D|].
  split; intros m E; [destruct (Dm1 m E) as (? & _ & D)|destruct (Dm2 m E) as (? & _ & D)]; exact D.
Qed.
