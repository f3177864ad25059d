(** The kernel of attention layers: linear and square root scaling. *)
From Coq Require Import Reals ZArith List Arith Lia Lra Bool Permutation.
From Verif Require Import Base Tensor Reshape Model_Geom Model_Axes Model_Net Model_Kernel Model_Predict Model_Empirical Model_Mask Model_Aggregate Model_Attention
  Spec_Inputs Spec_Aggregate Spec_Conv Spec_Attention
  Proof_Axes Proof_Axes2 Proof_Tsum Proof_Move Proof_Einsum Proof_Inputs Proof_Net Proof_Aggregate2 Proof_Conv5
  Proof_Attention Proof_Attention2 Proof_Attention3 Proof_Attention4 Proof_Attention5 Proof_Attention6 Proof_Attention7.
Import ListNotations.
Local Open Scope R_scope.

(** Functions of positions in stored order. *)
Definition st (r : bool) (F : covariances) : covariances := fun i j p q => F i j (ord r p) (ord r q).

Lemma averaged_average L C sp r G1 G2 M1 M2 V i j p q :
  averaged (ord r sp) (weight L C sp r M1 G1) (weight L C sp r M2 G2) (st r V) i j p q = st r (average L sp C G1 G2 M1 M2 V) i j p q.
Proof.
  unfold averaged, st, average. rewrite ord_locs. apply lsum_ext. intros u _. rewrite ord_locs. apply lsum_ext. intros v _. unfold weight. rewrite !ord_ord. reflexivity.
Qed.

Lemma st_interp L C r M M' F : interp L C r M M' F = st r (with_embedding L C M M' F).
Proof. reflexivity. Qed.

Lemma rd_fun {A} db (F G : nat -> nat -> list nat -> list nat -> A) idx : (forall i j p q, F i j p q = G i j p q) -> rd db F idx = rd db G idx.
Proof. intros H. unfold rd. cbv zeta. apply H. Qed.

(** An array that holds [F] in stored order. *)
Definition full (r db : bool) (n m : nat) (sp : list nat) (F : covariances) (t : tensor R) : Prop :=
  shape t = bsh db n m (ord r sp) /\ breads (bsh db n m (ord r sp)) (rd db (st r F)) t.
Lemma full_stored r db n m sp F t : (db = true -> n = m) -> full r db n m sp F t <-> stored r db n m sp F t.
Proof. intros H. unfold stored. rewrite gram_breads by auto. reflexivity. Qed.

Definition scal_zero (F : covariances) (t : tensor R) : Prop := shape t = [] -> entry t [] = 0 /\ forall i j p q, F i j p q = 0.

Section Kernel.
  Variables (b c N1 N2 C Cm : nat) (sp : list nat) (G T G1 G2 : covariances) (M1 M2 : masking) (L : attention) (k : kernel R).
  Hypothesis H : attended b c N1 N2 C Cm sp G T G1 G2 M1 M2 L k.
  Let r := k_is_reversed k.
  Let db := k_diagonal_batch k.
  Variables (c1 nn : tensor R) (c2 nt : option (tensor R)).
  Hypothesis HI : interpolated L C N1 N2 sp G T G1 G2 M1 M2 k c1 nn c2 nt.

  Lemma val_cov1 : full r db N1 N1 sp (valued L C M1 M1 G1) (pick (at_val_pos_emb L) c1 (k_cov1 k)).
  Proof.
    unfold valued, pick. destruct (own_arrays _ _ _ _ _ _ _ _ _ _ _ (ad_kernel _ _ _ _ _ _ _ _ _ _ _ _ _ _ _ H)) as (B1 & _ & _).
    destruct (at_val_pos_emb L); [exact (in_cov1 _ _ _ _ _ _ _ _ _ _ _ _ _ _ _ _ HI)|exact B1].
  Qed.
  Lemma val_nngp : full r false N1 N2 sp (valued L C M1 M2 G) (pick (at_val_pos_emb L) nn (k_nngp k)).
  Proof.
    unfold valued, pick. destruct (own_arrays _ _ _ _ _ _ _ _ _ _ _ (ad_kernel _ _ _ _ _ _ _ _ _ _ _ _ _ _ _ H)) as (_ & B1 & _).
    destruct (at_val_pos_emb L); [exact (in_nngp _ _ _ _ _ _ _ _ _ _ _ _ _ _ _ _ HI)|exact B1].
  Qed.
  Lemma val_cov2 : match k_cov2 k with None => c2 = None | Some _ => exists x, c2 = Some x /\ full r db N2 N2 sp (with_embedding L C M2 M2 G2) x
       /\ exists y, pick (at_val_pos_emb L) c2 (k_cov2 k) = Some y /\ full r db N2 N2 sp (valued L C M2 M2 G2) y end.
  Proof.
    unfold valued, pick. destruct (own_arrays _ _ _ _ _ _ _ _ _ _ _ (ad_kernel _ _ _ _ _ _ _ _ _ _ _ _ _ _ _ H)) as (_ & _ & B1).
    pose proof (in_cov2 _ _ _ _ _ _ _ _ _ _ _ _ _ _ _ _ HI) as B2.
    destruct (k_cov2 k) as [x0|]; [|exact B2]. destruct B2 as (x & -> & Sx & Bx). exists x. split; [reflexivity|]. split; [split; auto|].
    destruct (at_val_pos_emb L); eexists; (split; [reflexivity|]); [split; auto|exact B1].
  Qed.
  Lemma val_ntk : match k_ntk k with None => nt = None | Some tn => exists x, nt = Some x
       /\ breads (bsh false N1 N2 (ord r sp)) (rd false (st r (with_embedding L C M1 M2 T))) x
       /\ (breads (bsh false N1 N2 (ord r sp)) (rd false (st r T)) tn)
       /\ exists y, pick (at_val_pos_emb L) nt (k_ntk k) = Some y /\ breads (bsh false N1 N2 (ord r sp)) (rd false (st r (valued L C M1 M2 T))) y
          /\ (shape y = [] -> entry y [] = 0 /\ forall i j p q, st r (valued L C M1 M2 T) i j p q = 0) end.
  Proof.
    unfold valued, pick. pose proof (fun t E => own_ntk _ _ _ _ _ _ _ _ _ _ _ _ _ _ _ t H E) as On. cbv zeta in On.
    pose proof (in_ntk _ _ _ _ _ _ _ _ _ _ _ _ _ _ _ _ HI) as B2.
    destruct (k_ntk k) as [x0|]; [|exact B2]. destruct B2 as (x & -> & Bx & Zx). destruct (On x0 eq_refl) as [Bo Zo]. exists x. split; [reflexivity|]. split; [exact Bx|]. split; [exact Bo|].
    destruct (at_val_pos_emb L); eexists; (split; [reflexivity|]); [split; auto|]. split; [exact Bo|]. intros E. destruct (Zo E) as [Z1 Z2]. split; [exact Z1|]. intros. apply Z2.
  Qed.

  Lemma weights1 : exists W, _get_weighting L k c1 (k_mask1 k) = Ok W /\ shape W = N1 :: interleave (ord r sp) (ord r sp)
    /\ forall i p u, (i < N1)%nat -> in_range (ord r sp) p -> in_range (ord r sp) u -> entry W (i :: interleave p u) = weight L C sp r M1 G1 i p u.
  Proof.
    destruct (ad_axes _ _ _ _ _ _ _ _ _ _ _ _ _ _ _ H) as (Hb & Hc & Hbc). destruct (ko_axes _ _ _ _ _ _ _ _ _ _ _ _ (ad_kernel _ _ _ _ _ _ _ _ _ _ _ _ _ _ _ H)) as [Eb Ec].
    destruct (in_cov1 _ _ _ _ _ _ _ _ _ _ _ _ _ _ _ _ HI) as [S1 B1].
    apply (weighting L C Cm b c N1 sp M1 G1 k c1 (k_mask1 k) Hb Hc Hbc Eb Ec S1 B1).
    pose proof (ad_masks _ _ _ _ _ _ _ _ _ _ _ _ _ _ _ H) as Z. destruct (k_mask1 k), (k_mask2 k); tauto.
  Qed.
  Lemma weights2 x : k_cov2 k <> None -> full r db N2 N2 sp (with_embedding L C M2 M2 G2) x -> exists W, _get_weighting L k x (k_mask2 k) = Ok W /\ shape W = N2 :: interleave (ord r sp) (ord r sp)
    /\ forall i p u, (i < N2)%nat -> in_range (ord r sp) p -> in_range (ord r sp) u -> entry W (i :: interleave p u) = weight L C sp r M2 G2 i p u.
  Proof.
    intros Hne [S1 B1]. destruct (ad_axes _ _ _ _ _ _ _ _ _ _ _ _ _ _ _ H) as (Hb & Hc & Hbc). destruct (ko_axes _ _ _ _ _ _ _ _ _ _ _ _ (ad_kernel _ _ _ _ _ _ _ _ _ _ _ _ _ _ _ H)) as [Eb Ec].
    apply (weighting L C Cm b c N2 sp M2 G2 k x (k_mask2 k) Hb Hc Hbc Eb Ec S1 B1).
    pose proof (ad_masks _ _ _ _ _ _ _ _ _ _ _ _ _ _ _ H) as Z. destruct (k_mask1 k), (k_mask2 k); tauto.
  Qed.

  (** One covariance of averages. *)
  Lemma weigh_full db' n1 n2 A1 A2 mat Ma Mb Ga Gb V : (db' = true -> n1 = n2) ->
    shape A1 = n1 :: interleave (ord r sp) (ord r sp) -> (forall i p u, (i < n1)%nat -> in_range (ord r sp) p -> in_range (ord r sp) u -> entry A1 (i :: interleave p u) = weight L C sp r Ma Ga i p u) ->
    shape A2 = n2 :: interleave (ord r sp) (ord r sp) -> (forall i p u, (i < n2)%nat -> in_range (ord r sp) p -> in_range (ord r sp) u -> entry A2 (i :: interleave p u) = weight L C sp r Mb Gb i p u) ->
    breads (bsh db' n1 n2 (ord r sp)) (rd db' (st r V)) mat -> (shape mat = [] -> entry mat [] = 0 /\ forall i j p q, st r V i j p q = 0) ->
    exists t, _weigh_kernel L mat A1 (Some A2) = Ok t
      /\ breads (bsh db' n1 n2 (ord r sp)) (rd db' (st r (fun i j p q => ov_scale L ^ 2 * average L sp C Ga Gb Ma Mb V i j p q + bias2 L))) t
      /\ (shape mat <> [] -> shape t = bsh db' n1 n2 (ord r sp)).
  Proof.
    intros Hd S1 R1 S2 R2 HM Hz.
    destruct (weigh_kernel L db' n1 n2 (ord r sp) _ _ _ A1 A2 mat Hd S1 R1 S2 R2 HM) as (t & E & B & S'); [intros Es; intros; apply (Hz Es)|intros Es; apply (Hz Es)|].
    exists t. split; [exact E|]. split; [|exact S']. revert B. apply breads_ext. intros idx _. apply rd_fun. intros i j p q. rewrite averaged_average. reflexivity.
  Qed.

  Lemma full_ne rr dd n m F t : full rr dd n m sp F t -> shape t <> [].
  Proof. intros [-> _]. apply bsh_ne. Qed.

  Lemma linear_read : at_linear_scaling L = true ->
    exists k', linear_kernel L k c1 nn c2 nt = Ok k'
    /\ full r db N1 N1 sp (nngp_of L sp C G1 G1 M1 M1 G1) (k_cov1 k')
    /\ full r false N1 N2 sp (nngp_of L sp C G1 G2 M1 M2 G) (k_nngp k')
    /\ match k_cov2 k with None => k_cov2 k' = None | Some _ => exists x, k_cov2 k' = Some x /\ full r db N2 N2 sp (nngp_of L sp C G2 G2 M2 M2 G2) x end
    /\ match k_ntk k with None => k_ntk k' = None | Some _ => exists x, k_ntk k' = Some x /\ full r false N1 N2 sp (ntk_of L sp C G1 G2 M1 M2 G T) x end
    /\ exists cov1 nngp cov2 ntk, k' = replace_gaussian (replace_covs k cov1 nngp cov2 ntk).
  Proof.
    intros HL. unfold nngp_of, ntk_of. rewrite HL. unfold linear_kernel. destruct weights1 as (A1 & EA1 & SA1 & RA1). rewrite EA1. cbn [bind].
    (* the second weights *)
    assert (X : exists A2, on_opt (fun c => _get_weighting L k c (k_mask2 k)) c2 = Ok A2
       /\ match k_cov2 k with None => c2 = None /\ A2 = None | Some _ => exists W, A2 = Some W end
       /\ let W := match A2 with Some W => W | None => A1 end in shape W = N2 :: interleave (ord r sp) (ord r sp)
         /\ forall i p u, (i < N2)%nat -> in_range (ord r sp) p -> in_range (ord r sp) u -> entry W (i :: interleave p u) = weight L C sp r M2 G2 i p u).
    { pose proof val_cov2 as V. pose proof (ad_self _ _ _ _ _ _ _ _ _ _ _ _ _ _ _ H) as Hs. pose proof weights2 as W2. destruct (k_cov2 k) as [x0|].
      - destruct V as (x & -> & Hx & _). destruct (W2 x ltac:(discriminate) Hx) as (W & EW & SW & RW). cbn [on_opt]. rewrite EW. cbn [bind rmap]. exists (Some W). repeat split; eauto.
      - subst c2. destruct (Hs eq_refl) as (-> & -> & ->). exists None. repeat split; auto. }
    destruct X as (A2 & EA2 & X2 & SA2 & RA2). rewrite EA2. cbn [bind].
    (* cov1 *)
    destruct val_cov1 as [Sv1 Bv1].
    destruct (weigh_full db N1 N1 A1 A1 _ M1 M1 G1 G1 _ ltac:(auto) SA1 RA1 SA1 RA1 Bv1) as (t1 & E1 & B1 & Z1); [rewrite Sv1; intros E; elim (bsh_ne _ _ _ _ E)|].
    assert (N_ : forall m a, _weigh_kernel L m a None = _weigh_kernel L m a (Some a)) by reflexivity.
    rewrite N_, E1. cbn [bind].
    (* cov2 *)
    assert (X : exists t2, match pick (at_val_pos_emb L) c2 (k_cov2 k), A2 with
        | Some c, Some G2 => rmap Some (_weigh_kernel L c G2 None)
        | o, _ => Ok (option_map (fun c => _affine c (OV_std L) (at_b_std L)) o)
        end = Ok t2 /\ match k_cov2 k with None => t2 = None | Some _ => exists x, t2 = Some x /\ full r db N2 N2 sp (linear_nngp L sp C G2 G2 M2 M2 G2) x end).
    { pose proof val_cov2 as V. destruct (k_cov2 k) as [x0|].
      - destruct V as (x & -> & Hx & y & Ey & Sy & By). destruct X2 as (W & ->). rewrite Ey.
        destruct (weigh_full db N2 N2 W W y M2 M2 G2 G2 _ ltac:(auto) SA2 RA2 SA2 RA2 By) as (t2 & E2 & B2 & Z2); [rewrite Sy; intros E; elim (bsh_ne _ _ _ _ E)|].
        rewrite N_, E2. cbn [rmap bind]. exists (Some t2). split; [reflexivity|]. exists t2. split; [reflexivity|]. split; [apply Z2; rewrite Sy; apply bsh_ne|exact B2].
      - subst c2. destruct X2 as [_ ->]. exists None. unfold pick. destruct (at_val_pos_emb L); auto. }
    destruct X as (t2 & -> & Ht2). cbn [bind].
    (* nngp *)
    destruct val_nngp as [Svn Bvn].
    assert (N2_ : forall m, _weigh_kernel L m A1 A2 = _weigh_kernel L m A1 (Some (match A2 with Some W => W | None => A1 end))) by (intros; destruct A2; reflexivity).
    destruct (weigh_full false N1 N2 A1 _ _ M1 M2 G1 G2 _ ltac:(discriminate) SA1 RA1 SA2 RA2 Bvn) as (tn & En & Bn & Zn); [rewrite Svn; intros E; elim (bsh_ne _ _ _ _ E)|].
    rewrite N2_, En. cbn [bind]. assert (Sn : shape tn = bsh false N1 N2 (ord r sp)) by (apply Zn; rewrite Svn; apply bsh_ne).
    (* ntk *)
    pose (own := match at_b_std L with None => tn | Some b => tmap (fun v => v - b ^ 2) tn end).
    assert (Bo : breads (bsh false N1 N2 (ord r sp)) (rd false (st r (fun i j p q => ov_scale L ^ 2 * average L sp C G1 G2 M1 M2 (valued L C M1 M2 G) i j p q))) own /\ shape own = bsh false N1 N2 (ord r sp)).
    { unfold own, bias2 in *. destruct (at_b_std L) as [bs|].
      - split; [|exact Sn]. pose proof (breads_tmap (fun v => v - bs ^ 2) _ _ _ Bn) as Z. revert Z. apply breads_ext. intros idx _. unfold rd, st. cbv zeta. ring.
      - split; [|exact Sn]. revert Bn. apply breads_ext. intros idx _. apply rd_fun. intros. unfold st. ring. }
    destruct Bo as [Bo So].
    assert (X : exists tt, match k_ntk k with
        | None => Ok None
        | Some _ =>
            on_opt (fun t =>
              bind (_weigh_kernel L t A1 A2) (fun ntk =>
              let own := match at_b_std L with None => tn | Some b => tmap (fun v => v - b ^ 2) tn end in
              elementwise Rplus ntk (tmap (Rmult 2) own))) (pick (at_val_pos_emb L) nt (k_ntk k))
        end = Ok tt /\ match k_ntk k with None => tt = None | Some _ => exists x, tt = Some x /\ full r false N1 N2 sp (linear_ntk L sp C G1 G2 M1 M2 G T) x end).
    { pose proof val_ntk as V. destruct (k_ntk k) as [x0|]; [|exists None; auto]. destruct V as (x & -> & Bx & _ & y & Ey & By & Zy). rewrite Ey. cbn [on_opt].
      destruct (weigh_full false N1 N2 A1 _ y M1 M2 G1 G2 _ ltac:(discriminate) SA1 RA1 SA2 RA2 By Zy) as (ty & Ety & Bty & _). rewrite N2_, Ety. cbn [bind]. fold own.
      destruct (elementwise_breads Rplus _ _ _ ty (tmap (Rmult 2) own) (bsh_ne _ _ _ _) Bty (breads_tmap (Rmult 2) _ _ _ Bo)) as (z & Ez & Bz & Sz).
      cbv zeta. rewrite Ez. cbn [rmap bind]. exists (Some z). split; [reflexivity|]. exists z. split; [reflexivity|]. split; [apply Sz; right; exact So|].
      revert Bz. apply breads_ext. intros idx _. unfold rd, st, linear_ntk. cbv zeta. ring. }
    destruct X as (tt & Ett & Htt). cbv zeta in Ett |- *. rewrite Ett. cbn [bind].
    eexists. split; [reflexivity|]. cbn [replace_gaussian replace_covs k_cov1 k_nngp k_cov2 k_ntk].
    split; [split; [apply Z1; rewrite Sv1; apply bsh_ne|exact B1]|]. split; [split; [exact Sn|exact Bn]|]. split; [exact Ht2|]. split; [exact Htt|]. eauto.
  Qed.
End Kernel.
