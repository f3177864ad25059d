(** Covariances with positional embeddings. *)
From Coq Require Import Reals ZArith List Arith Lia Lra Bool Permutation.
From Verif Require Import Base Tensor Reshape Model_Geom Model_Axes Model_Net Model_Kernel Model_Predict Model_Empirical Model_Mask Model_Aggregate Model_Attention
  Spec_Inputs Spec_Aggregate Spec_Conv Spec_Attention
  Proof_Axes Proof_Axes2 Proof_Tsum Proof_Move Proof_Einsum Proof_Inputs Proof_Aggregate2 Proof_Attention Proof_Attention2 Proof_Attention3.
Import ListNotations.
Local Open Scope R_scope.

(** Kernel arrays: shape, indices and reading. *)
Definition bidx (db : bool) (i j : nat) : list nat := if db then [i] else [i; j].
Definition bsh (db : bool) (n m : nat) (sp : list nat) : list nat := bidx db n m ++ interleave sp sp.
Definition rd {A} (db : bool) (F : nat -> nat -> list nat -> list nat -> A) (idx : list nat) : A :=
  let i := nth 0 idx 0%nat in
  let j := if db then i else nth 1 idx 0%nat in
  let rest := skipn (if db then 1 else 2)%nat idx in F i j (evens rest) (odds rest).

Lemma rd_at {A} db (F : nat -> nat -> list nat -> list nat -> A) i j p q : (db = true -> i = j) -> length p = length q ->
  rd db F (bidx db i j ++ interleave p q) = F i j p q.
Proof.
  intros H Hl. unfold rd, bidx. destruct db; cbn [app nth skipn]; rewrite evens_interleave, odds_interleave by auto; [rewrite <- H by auto|]; reflexivity.
Qed.
Lemma bsh_range db n m sp i j p q : (i < n)%nat -> (j < m)%nat -> in_range sp p -> in_range sp q -> in_range (bsh db n m sp) (bidx db i j ++ interleave p q).
Proof. intros. unfold bsh, bidx. apply in_range_app; [destruct db; repeat constructor; auto|apply in_range_interleave; auto]. Qed.
Lemma bsh_split db n m sp idx : (db = true -> n = m) -> in_range (bsh db n m sp) idx ->
  exists i j p q, idx = bidx db i j ++ interleave p q /\ (i < n)%nat /\ (j < m)%nat /\ in_range sp p /\ in_range sp q /\ (db = true -> i = j).
Proof.
  intros Hd H. unfold bsh in H. apply in_range_app_inv in H. destruct H as (a & l & -> & Ha & Hl).
  destruct (in_range_interleave_split sp sp l eq_refl Hl) as (p & q & -> & Hp & Hq). unfold bidx in *. destruct db.
  - inversion Ha as [|i ? ? ? Hi H0]; subst. inversion H0; subst. exists i, i, p, q. rewrite <- Hd by auto. repeat split; auto.
  - inversion Ha as [|i ? ? ? Hi H0]; subst. inversion H0 as [|j ? ? ? Hj H1]; subst. inversion H1; subst. exists i, j, p, q. repeat split; auto. discriminate.
Qed.
Lemma bsh_ne db n m sp : bsh db n m sp <> [].
Proof. unfold bsh, bidx. destruct db; discriminate. Qed.
Lemma rd_ext {A} db n m sp (F G : nat -> nat -> list nat -> list nat -> A) : (db = true -> n = m) ->
  (forall i j p q, (i < n)%nat -> (j < m)%nat -> in_range sp p -> in_range sp q -> (db = true -> i = j) -> F i j p q = G i j p q) ->
  forall idx, in_range (bsh db n m sp) idx -> rd db F idx = rd db G idx.
Proof.
  intros Hd H idx Hi. destruct (bsh_split db n m sp idx Hd Hi) as (i & j & p & q & -> & H1 & H2 & H3 & H4 & H5).
  rewrite !rd_at by (auto; rewrite (in_range_length _ _ H3), (in_range_length _ _ H4); auto). auto.
Qed.

Lemma gram_breads db n m sp F t : (db = true -> n = m) -> holds_gram db false n m sp sp F t <-> shape t = bsh db n m sp /\ breads (bsh db n m sp) (rd db F) t.
Proof.
  intros Hd. split.
  - intros [Hs H]. split; [exact Hs|]. apply breads_of; [exact Hs|]. intros idx Hi. destruct (bsh_split db n m sp idx Hd Hi) as (i & j & p & q & -> & H1 & H2 & H3 & H4 & H5).
    rewrite rd_at by (auto; rewrite (in_range_length _ _ H3), (in_range_length _ _ H4); auto). apply H; auto. discriminate.
  - intros [Hs H]. split; [exact Hs|]. intros i j p q H1 H2 H3 H4 H5 _. change (entry t (bidx db i j ++ interleave p q) = F i j p q).
    rewrite (breads_exact _ _ _ H Hs) by (apply bsh_range; auto). apply rd_at; auto. rewrite (in_range_length _ _ H3), (in_range_length _ _ H4); auto.
Qed.

(** ** Products of masks *)
Lemma mask_reshape_spec {A} (k : kernel A) b c N sp M m : (b < 2 + length sp)%nat -> (c < 2 + length sp)%nat -> b <> c ->
  k_batch_axis k = b -> k_channel_axis k = c -> marks b c N sp 1 M m ->
  exists u, mask_reshape k m = Ok u /\ shape u = N :: ord (k_is_reversed k) sp
    /\ forall i p, (i < N)%nat -> in_range (ord (k_is_reversed k) sp) p -> entry u (i :: p) = M i (ord (k_is_reversed k) p).
Proof.
  intros Hb Hc Hbc Eb Ec Hm. unfold mask_reshape. rewrite Eb, Ec.
  assert (E : nth c (shape m) 0%nat = 1%nat).
  { destruct Hm as [-> _]. unfold site. set (f := fun a => if (a =? c)%nat then 1%nat else _).
    rewrite (nth_indep _ 0%nat (f 0%nat)) by (rewrite map_length, seq_length; lia). rewrite map_nth, seq_nth by lia. unfold f. cbn [Nat.add]. now rewrite Nat.eqb_refl. }
  rewrite E. cbn [Nat.eqb negb]. apply mask_sites; auto.
Qed.

Definition both (r : bool) (M M' : masking) : nat -> nat -> list nat -> list nat -> bool := fun i j p q => M i (ord r p) || M' j (ord r q).

Lemma mask_prod_full {A} (k : kernel A) b c N1 N2 sp M1 M2 m1 m2 : (b < 2 + length sp)%nat -> (c < 2 + length sp)%nat -> b <> c ->
  k_batch_axis k = b -> k_channel_axis k = c -> k_diagonal_spatial k = false -> marks b c N1 sp 1 M1 m1 -> marks b c N2 sp 1 M2 m2 ->
  exists z, get_mask_prod k (Some m1) (Some m2) 2 = Ok (Some z) /\ shape z = bsh false N1 N2 (ord (k_is_reversed k) sp)
    /\ breads (bsh false N1 N2 (ord (k_is_reversed k) sp)) (rd false (both (k_is_reversed k) M1 M2)) z.
Proof.
  intros Hb Hc Hbc Eb Ec Ed H1 H2. unfold get_mask_prod. set (r := k_is_reversed k).
  destruct (mask_reshape_spec k b c N1 sp M1 m1 Hb Hc Hbc Eb Ec H1) as (u1 & E1 & S1 & R1). fold r in S1, R1.
  destruct (mask_reshape_spec k b c N2 sp M2 m2 Hb Hc Hbc Eb Ec H2) as (u2 & E2 & S2 & R2). fold r in S2, R2.
  rewrite E1. cbn [bind]. cbn [on_opt]. rewrite E2. cbn [bind rmap]. rewrite Ed.
  destruct (outer_prod_spec orb u1 u2 [] (N1 :: ord r sp) (N2 :: ord r sp) []) as (z & Ez & Sz & Rz).
  { cbn. rewrite S1. now rewrite app_nil_r. } { cbn. rewrite S2. now rewrite app_nil_r. } { reflexivity. }
  cbn [length Nat.add] in Ez. unfold ndim. rewrite S1. cbn [length]. change (2 - 2)%nat with 0%nat. rewrite Ez. cbn [rmap bind]. exists z. split; [reflexivity|].
  cbn [app interleave] in Sz. rewrite app_nil_r in Sz. split; [exact Sz|].
  apply breads_of; [exact Sz|]. intros idx Hi. destruct (bsh_split false N1 N2 _ idx ltac:(discriminate) Hi) as (i & j & p & q & -> & G1 & G2 & G3 & G4 & G5).
  rewrite rd_at by (auto; rewrite (in_range_length _ _ G3), (in_range_length _ _ G4); auto).
  assert (Z : entry z ([] ++ interleave (i :: p) (j :: q) ++ []) = orb (entry u1 ([] ++ (i :: p) ++ [])) (entry u2 ([] ++ (j :: q) ++ []))) by (apply Rz; constructor; auto).
  cbn [app interleave] in Z. rewrite !app_nil_r in Z. cbn [bidx app]. rewrite Z, R1, R2 by auto. reflexivity.
Qed.

Lemma mask_prod_diag {A} (k : kernel A) b c N sp M m : (b < 2 + length sp)%nat -> (c < 2 + length sp)%nat -> b <> c ->
  k_batch_axis k = b -> k_channel_axis k = c -> k_diagonal_spatial k = false -> marks b c N sp 1 M m ->
  exists z, get_mask_prod k (Some m) (Some m) 1 = Ok (Some z) /\ shape z = bsh true N N (ord (k_is_reversed k) sp)
    /\ breads (bsh true N N (ord (k_is_reversed k) sp)) (rd true (both (k_is_reversed k) M M)) z.
Proof.
  intros Hb Hc Hbc Eb Ec Ed H. unfold get_mask_prod. set (r := k_is_reversed k).
  destruct (mask_reshape_spec k b c N sp M m Hb Hc Hbc Eb Ec H) as (u1 & E1 & S1 & R1). fold r in S1, R1.
  rewrite E1. cbn [bind]. cbn [on_opt]. rewrite E1. cbn [bind rmap]. rewrite Ed.
  destruct (outer_prod_spec orb u1 u1 [N] (ord r sp) (ord r sp) []) as (z & Ez & Sz & Rz).
  { cbn. rewrite S1. now rewrite app_nil_r. } { cbn. rewrite S1. now rewrite app_nil_r. } { reflexivity. }
  cbn [length Nat.add] in Ez. unfold ndim. rewrite S1. cbn [length]. change (2 - 1)%nat with 1%nat. rewrite Ez. cbn [rmap bind]. exists z. split; [reflexivity|].
  cbn [app] in Sz. rewrite app_nil_r in Sz. split; [exact Sz|].
  apply breads_of; [exact Sz|]. intros idx Hi. destruct (bsh_split true N N _ idx ltac:(auto) Hi) as (i & j & p & q & -> & G1 & G2 & G3 & G4 & G5).
  rewrite rd_at by (auto; rewrite (in_range_length _ _ G3), (in_range_length _ _ G4); auto). specialize (G5 eq_refl). subst j.
  assert (Z : entry z ([i] ++ interleave p q ++ []) = orb (entry u1 ([i] ++ p ++ [])) (entry u1 ([i] ++ q ++ []))) by (apply Rz; auto; try constructor; auto).
  cbn [app] in Z. rewrite !app_nil_r in Z. cbn [bidx app]. rewrite Z, !R1 by auto. reflexivity.
Qed.

Lemma mask_prod_self {A} (k : kernel A) b c N sp M m : (b < 2 + length sp)%nat -> (c < 2 + length sp)%nat -> b <> c ->
  k_batch_axis k = b -> k_channel_axis k = c -> k_diagonal_spatial k = false -> marks b c N sp 1 M m ->
  let db := k_diagonal_batch k in
  exists z, get_mask_prod k (Some m) (Some m) (batch_ndim k) = Ok (Some z) /\ shape z = bsh db N N (ord (k_is_reversed k) sp)
    /\ breads (bsh db N N (ord (k_is_reversed k) sp)) (rd db (both (k_is_reversed k) M M)) z.
Proof.
  intros Hb Hc Hbc Eb Ec Ed H db. unfold batch_ndim. subst db. destruct (k_diagonal_batch k); [apply (mask_prod_diag k b c)|apply (mask_prod_full k b c)]; auto.
Qed.
Lemma mask_prod_none {A} (k : kernel A) m n : get_mask_prod k (Some m) None n = get_mask_prod k (Some m) (Some m) n.
Proof. unfold get_mask_prod. destruct (mask_reshape k m) as [u|e] eqn:E; [|reflexivity]. cbn [bind on_opt]. rewrite E. cbn [bind rmap]. reflexivity. Qed.

Lemma masked_breads sh F (M : list nat -> bool) x m : sh <> [] -> breads sh F x -> shape x <> [] -> shape m = sh -> breads sh M m ->
  exists z, mask_arr 0 (Some x) (Some m) = Ok (Some z) /\ breads sh (fun i => if M i then 0 else F i) z /\ shape z = sh.
Proof.
  intros Hne Hx Hx0 Sm Hm. unfold mask_arr.
  assert ((ndim x =? 0)%nat = false) as -> by (unfold ndim; destruct (shape x); [congruence|reflexivity]).
  destruct Hx as [[E _]|[Sx Rx]]; [congruence|]. destruct Hm as [[E _]|[Sm' Rm]]; [congruence|].
  destruct (broadcast2_breads (fun (b : bool) a => if b then 0 else a) sh M F m x Sm' Sx Rm Rx) as (z & E & Hz & _ & Hs & _).
  rewrite E. cbn [rmap bind]. exists z. auto.
Qed.

Lemma expanded db n m sp F (t : tensor R) : (db = true -> n = m) -> pairs sp F t ->
  breads (bsh db n m sp) (rd db (fun _ _ => F)) (expand_front (if db then 1 else 2) t) /\ shape (expand_front (if db then 1 else 2)%nat t) <> [].
Proof.
  intros Hd [Hs H]. split; [|destruct db; discriminate]. right. cbn [expand_front shape entry]. split.
  - apply shorter_app; [|exact Hs]. destruct db; cbn; repeat (apply Forall2_cons; [right; reflexivity|]); apply Forall2_nil.
  - intros idx Hi. destruct (bsh_split db n m sp idx Hd Hi) as (i & j & p & q & -> & G1 & G2 & G3 & G4 & G5).
    rewrite rd_at by (auto; rewrite (in_range_length _ _ G3), (in_range_length _ _ G4); auto).
    rewrite clip_app by (destruct db; reflexivity). rewrite <- (H p q G3 G4). f_equal. apply skipn_app_l. destruct db; reflexivity.
Qed.

Lemma spatial_shape b c N sp C : (b < 2 + length sp)%nat -> (c < 2 + length sp)%nat -> b <> c ->
  _shape_and_axes (site (2 + length sp) b c N sp C) [b; c] = sp.
Proof.
  intros Hb Hc Hbc. unfold _shape_and_axes. set (n := (2 + length sp)%nat).
  assert (Ln : length (site n b c N sp C) = n) by (unfold site; rewrite map_length, seq_length; auto). rewrite Ln.
  assert (Fs : filter (fun i => negb (mem i [b; c])) (seq 0 n) = spatial_axes n b c).
  { unfold spatial_axes. apply filter_ext. intros a. cbn [mem existsb]. rewrite orb_false_r. destruct (a =? b)%nat, (a =? c)%nat; reflexivity. }
  rewrite Fs.
  assert (Nsp : NoDup (spatial_axes n b c)) by (apply NoDup_filter, seq_NoDup).
  assert (Lsp : length (spatial_axes n b c) = length sp).
  { rewrite <- Fs, filter_not_length; [cbn; unfold n; lia| |].
    - constructor; [cbn; intuition|constructor; [cbn; tauto|constructor]].
    - intros x [<-|[<-|[]]]; auto. }
  transitivity (map (fun a => nth (index_of a (spatial_axes n b c)) sp 0%nat) (spatial_axes n b c)).
  - apply map_ext_in. intros a Ha. unfold spatial_axes in Ha. apply filter_In in Ha. destruct Ha as [Ha Hx]. apply in_seq in Ha. apply andb_true_iff in Hx. destruct Hx as [H1 H2].
    apply negb_true_iff in H1, H2. unfold site. set (f := fun a => if (a =? c)%nat then C else _).
    rewrite (nth_indep _ 0%nat (f 0%nat)) by (rewrite map_length, seq_length; lia). rewrite map_nth, seq_nth by lia. unfold f. cbn [Nat.add]. now rewrite H1, H2.
  - apply map_index_self; auto.
Qed.
Lemma site_channel b c N sp C : (c < 2 + length sp)%nat -> nth c (site (2 + length sp) b c N sp C) 0%nat = C.
Proof.
  intros Hc. unfold site. set (f := fun a => if (a =? c)%nat then C else _).
  rewrite (nth_indep _ 0%nat (f 0%nat)) by (rewrite map_length, seq_length; lia). rewrite map_nth, seq_nth by lia. unfold f. cbn [Nat.add]. now rewrite Nat.eqb_refl.
Qed.

(** ** Embeddings of a kernel *)
Definition emb (L : attention) (r : bool) (M M' : masking) : nat -> nat -> list nat -> list nat -> R :=
  fun i j p q => if M i (ord r p) || M' j (ord r q) then 0 else embedding_cov L (ord r p) (ord r q).

Lemma all_pos_emb b c N1 N2 C Cm sp G T G1 G2 M1 M2 L k : attended b c N1 N2 C Cm sp G T G1 G2 M1 M2 L k ->
  at_pos_emb_type L <> NO_EMBEDDING ->
  let r := k_is_reversed k in let db := k_diagonal_batch k in
  exists R1 R12 R2, _get_all_pos_emb k L = Ok (Some R1, Some R12, R2)
    /\ breads (bsh db N1 N1 (ord r sp)) (rd db (emb L r M1 M1)) R1
    /\ (breads (bsh false N1 N2 (ord r sp)) (rd false (emb L r M1 M2)) R12 /\ shape R12 <> [])
    /\ match k_cov2 k with None => R2 = None | Some _ => exists R, R2 = Some R /\ breads (bsh db N2 N2 (ord r sp)) (rd db (emb L r M2 M2)) R end.
Proof.
  intros [Hk (Hb & Hc & Hbc) _ Hself Hmask Hch] Ht r db. destruct Hch as [|Hch]; [contradiction|]. subst Cm.
  destruct (ko_axes _ _ _ _ _ _ _ _ _ _ _ _ Hk) as [Eb Ec]. pose proof (ko_full _ _ _ _ _ _ _ _ _ _ _ _ Hk) as Ed.
  destruct (pos_emb_pdist L sp) as (Rm & ERm & HRm).
  assert (HR : exists Rm', (if r then reverse_zipped Rm 0 else Ok Rm) = Ok Rm' /\ pairs (ord r sp) (fun p q => embedding_cov L (ord r p) (ord r q)) Rm').
  { destruct r; [apply (pairs_reverse sp (embedding_cov L) Rm HRm)|exists Rm; auto]. }
  destruct HR as (Rm' & ERm' & HRm').
  assert (E : _get_all_pos_emb k L =
      let R11 := expand_front (if db then 1 else 2)%nat Rm' in let R12 := expand_front 2 Rm' in
      let R22 := match k_cov2 k with None => None | Some _ => Some R11 end in
      bind (get_mask_prods k (k_mask1 k) (k_mask2 k)) (fun masks =>
      let '(mask11, mask12, mask22) := masks in
      bind (mask_arr 0 (Some R11) mask11) (fun R11 =>
      bind (mask_arr 0 (Some R12) mask12) (fun R12 =>
      bind (mask_arr 0 R22 mask22) (fun R22 =>
      Ok (R11, R12, R22)))))).
  { unfold _get_all_pos_emb. rewrite Eb, Ec. rewrite (ko_shape1 _ _ _ _ _ _ _ _ _ _ _ _ Hk), spatial_shape by auto. fold r. rewrite ERm. cbn [bind]. rewrite ERm'. cbn [bind].
    unfold batch_ndim. fold db. destruct (at_pos_emb_type L); [contradiction| |]; destruct db; reflexivity. }
  rewrite E. cbv zeta.
  destruct (expanded db N1 N1 (ord r sp) _ Rm' (fun _ => eq_refl) HRm') as [B1 Z1].
  destruct (expanded db N2 N2 (ord r sp) _ Rm' (fun _ => eq_refl) HRm') as [B2 _].
  destruct (expanded false N1 N2 (ord r sp) _ Rm' ltac:(discriminate) HRm') as [B12 Z12].
  set (x11 := expand_front (if db then 1 else 2)%nat Rm') in *. set (x12 := expand_front (if false then 1 else 2)%nat Rm') in *. change (expand_front 2 Rm') with x12.
  destruct (k_mask1 k) as [m1|] eqn:Em1; destruct (k_mask2 k) as [m2|] eqn:Em2.
  - destruct Hmask as [H1 H2].
    destruct (mask_prod_self k b c N1 sp M1 m1 Hb Hc Hbc Eb Ec Ed H1) as (z11 & E11 & S11 & R11). fold db r in S11, R11.
    destruct (mask_prod_self k b c N2 sp M2 m2 Hb Hc Hbc Eb Ec Ed H2) as (z22 & E22 & S22 & R22). fold db r in S22, R22.
    destruct (mask_prod_full k b c N1 N2 sp M1 M2 m1 m2 Hb Hc Hbc Eb Ec Ed H1 H2) as (z12 & E12 & S12 & R12). fold r in S12, R12.
    unfold get_mask_prods. rewrite E11. cbn [bind]. rewrite E22. cbn [bind]. rewrite E12. cbn [bind].
    destruct (masked_breads _ _ _ x11 z11 (bsh_ne _ _ _ _) B1 Z1 S11 R11) as (y1 & F1 & Y1 & _). rewrite F1. cbn [bind].
    destruct (masked_breads _ _ _ x12 z12 (bsh_ne _ _ _ _) B12 Z12 S12 R12) as (y12 & F12 & Y12 & Q12). rewrite F12. cbn [bind].
    destruct (masked_breads _ _ _ x11 z22 (bsh_ne _ _ _ _) B2 Z1 S22 R22) as (y2 & F2 & Y2 & _).
    destruct (k_cov2 k) as [c2|]; [rewrite F2; cbn [bind]|cbn [mask_arr bind]].
    + exists y1, y12, (Some y2). split; [reflexivity|]. split; [exact Y1|]. split; [split; [exact Y12|rewrite Q12; apply bsh_ne]|]. exists y2. split; [reflexivity|exact Y2].
    + exists y1, y12, None. split; [reflexivity|]. split; [exact Y1|]. split; [split; [exact Y12|rewrite Q12; apply bsh_ne]|]. reflexivity.
  - destruct Hmask as [Ecov H1]. destruct (Hself Ecov) as (-> & -> & ->). rewrite Ecov.
    destruct (mask_prod_self k b c N1 sp M1 m1 Hb Hc Hbc Eb Ec Ed H1) as (z11 & E11 & S11 & R11). fold db r in S11, R11.
    destruct (mask_prod_full k b c N1 N1 sp M1 M1 m1 m1 Hb Hc Hbc Eb Ec Ed H1 H1) as (z12 & E12 & S12 & R12). fold r in S12, R12.
    unfold get_mask_prods. rewrite E11. cbn [bind]. rewrite mask_prod_none, E12. cbn [bind].
    destruct (masked_breads _ _ _ x11 z11 (bsh_ne _ _ _ _) B1 Z1 S11 R11) as (y1 & F1 & Y1 & _). rewrite F1. cbn [bind].
    destruct (masked_breads _ _ _ x12 z12 (bsh_ne _ _ _ _) B12 Z12 S12 R12) as (y12 & F12 & Y12 & Q12). rewrite F12. cbn [mask_arr bind].
    exists y1, y12, None. split; [reflexivity|]. split; [exact Y1|]. split; [split; [exact Y12|rewrite Q12; apply bsh_ne]|]. reflexivity.
  - destruct Hmask.
  - destruct Hmask as [-> ->]. cbn [get_mask_prods get_mask_prod bind]. cbn [mask_arr bind].
    exists x11, x12, (match k_cov2 k with None => None | Some _ => Some x11 end). split.
    { unfold get_mask_prods, get_mask_prod. cbn [bind mask_arr]. destruct (k_cov2 k); reflexivity. }
    split; [exact B1|]. split; [split; [exact B12|exact Z12]|]. destruct (k_cov2 k); [exists x11; split; [reflexivity|exact B2]|reflexivity].
Qed.

(** ** Interpolation *)
Definition interp (L : attention) (C : nat) (r : bool) (M M' : masking) (G : covariances) : nat -> nat -> list nat -> list nat -> R :=
  fun i j p q => with_embedding L C M M' G i j (ord r p) (ord r q).

Lemma interp_breads L C r M M' G shape1 c sh db x R : at_pos_emb_type L <> NO_EMBEDDING -> nth c shape1 0%nat = C -> sh <> [] ->
  breads sh (rd db (fun i j p q => G i j (ord r p) (ord r q))) x -> breads sh (rd db (emb L r M M')) R ->
  exists z, weighted_sum (Some x) (Some R) (interpolation_coefficients L shape1 c) = Ok (Some z)
    /\ breads sh (rd db (interp L C r M M' G)) z /\ (shape x = sh -> shape z = sh).
Proof.
  intros Ht Ec Hne Hx HR. unfold weighted_sum. set (w := interpolation_coefficients L shape1 c).
  destruct (elementwise_breads Rplus sh _ _ _ _ Hne (breads_tmap (Rmult (fst w)) sh _ x Hx) (breads_tmap (Rmult (snd w)) sh _ R HR)) as (z & E & Hz & Hs).
  rewrite E. cbn [rmap bind]. exists z. split; [reflexivity|]. split; [|intros S0; apply Hs; left; exact S0].
  revert Hz. apply breads_ext. intros idx _. unfold rd. cbv zeta. unfold interp, with_embedding, emb. unfold w, interpolation_coefficients. rewrite Ec.
  destruct (at_pos_emb_type L); [contradiction| |]; cbn [fst snd].
  - ring.
  - unfold Rdiv. ring.
Qed.
