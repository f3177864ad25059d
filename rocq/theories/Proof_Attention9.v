(** The kernel of attention layers: square root scaling, and both. *)
From Coq Require Import Reals ZArith List Arith Lia Lra Bool Permutation.
From Verif Require Import Base Tensor Reshape Model_Geom Model_Axes Model_Net Model_Kernel Model_Predict Model_Empirical Model_Mask Model_Aggregate Model_Attention
  Spec_Inputs Spec_Aggregate Spec_Conv Spec_Attention
  Proof_Axes Proof_Axes2 Proof_Tsum Proof_Move Proof_Einsum Proof_Inputs Proof_Net Proof_Aggregate2 Proof_Conv5
  Proof_Attention Proof_Attention2 Proof_Attention3 Proof_Attention4 Proof_Attention5 Proof_Attention6 Proof_Attention7 Proof_Attention8.
Import ListNotations.
Local Open Scope R_scope.

Lemma tsum_interleave : forall sp sq f, length sp = length sq -> tsum (interleave sp sq) f = tsum sp (fun u => tsum sq (fun v => f (interleave u v))).
Proof.
  induction sp as [|s sp IH]; intros [|s' sq] f Hl; try discriminate; [reflexivity|]. cbn [interleave tsum]. cbn in Hl.
  rewrite !msum_lsum. apply lsum_ext. intros i _.
  transitivity (msum s' (fun j => tsum sp (fun u => tsum sq (fun v => f (i :: j :: interleave u v))))).
  - apply lsum_ext. intros j _. apply IH. lia.
  - symmetry. apply tsum_msum.
Qed.

Lemma dot_breads r db n m sp F V lhs rhs : (db = true -> n = m) -> full r db n m sp F lhs ->
  match rhs with None => V = F | Some t => breads (bsh db n m (ord r sp)) (rd db (st r V)) t end ->
  exists d, att_dot db lhs rhs = Ok d /\ breads (bsh db n m (ord r sp)) (rd db (fun i j _ _ => overlap sp F V i j)) d.
Proof.
  intros Hd [Sl Bl] Hr. unfold att_dot. set (sp' := ord r sp) in *.
  assert (Ef : firstn (if db then 1 else 2)%nat (shape lhs) = bidx db n m) by (rewrite Sl; unfold bsh; apply firstn_app_l; destruct db; reflexivity).
  assert (Es : skipn (if db then 1 else 2)%nat (shape lhs) = interleave sp' sp') by (rewrite Sl; unfold bsh; apply skipn_app_l; destruct db; reflexivity).
  cbv zeta. rewrite Ef, Es.
  pose (out := fun f : list nat -> R => mkT (bidx db n m ++ repeat 1%nat (length (interleave sp' sp'))) (fun i => tsum (interleave sp' sp') (fun u => f (firstn (if db then 1 else 2)%nat i ++ u)))).
  assert (O : forall f, (forall idx, in_range (bsh db n m sp') idx -> f idx = rd db (st r F) idx * rd db (st r V) idx) -> breads (bsh db n m sp') (rd db (fun i j _ _ => overlap sp F V i j)) (out f)).
  { intros f Hf. right. unfold out. cbn [shape entry]. split.
    - unfold bsh. apply shorter_app; [apply shorter_refl|apply shorter_ones].
    - intros idx Hi. destruct (bsh_split db n m sp' idx Hd Hi) as (i & j & p & q & -> & Hi1 & Hj & Hp & Hq & Hij).
      rewrite rd_at by (auto; rewrite (in_range_length _ _ Hp), (in_range_length _ _ Hq); auto).
      rewrite clip_app by (destruct db; reflexivity). rewrite (clip_id (bidx db n m)) by (destruct db; repeat constructor; auto).
      rewrite firstn_app_l by (destruct db; reflexivity).
      rewrite tsum_interleave by auto. unfold overlap.
      transitivity (lsum (locs sp') (fun u => lsum (locs sp') (fun v => st r F i j u v * st r V i j u v))).
      + rewrite <- tsum_locs. apply tsum_ext. intros u Hu. rewrite <- tsum_locs. apply tsum_ext. intros v Hv.
        rewrite Hf by (apply bsh_range; auto). rewrite !rd_at by (auto; rewrite (in_range_length _ _ Hu), (in_range_length _ _ Hv); auto). reflexivity.
      + unfold sp'. rewrite ord_locs. apply lsum_ext. intros u _. rewrite ord_locs. apply lsum_ext. intros v _. unfold st. rewrite !ord_ord. reflexivity. }
  assert (Rl : forall idx, in_range (bsh db n m sp') idx -> entry lhs idx = rd db (st r F) idx) by (intros idx Hi; apply (breads_exact _ _ _ Bl Sl idx Hi)).
  destruct rhs as [t|].
  - assert (X : exists t', (if (ndim t =? 0)%nat then Ok (mkT (shape lhs) (fun _ => entry t [])) else broadcast_to (shape lhs) t) = Ok t' /\ forall idx, in_range (bsh db n m sp') idx -> entry t' idx = rd db (st r V) idx).
    { destruct (Nat.eqb_spec (ndim t) 0) as [E0|N0].
      - eexists. split; [reflexivity|]. intros idx Hi. cbn [entry]. assert (E : shape t = []) by (unfold ndim in E0; destruct (shape t); [auto|discriminate]).
        destruct Hr as [[_ R0]|[S0 _]]; [apply R0; auto|]. rewrite E in S0. exfalso. apply (bsh_ne db n m sp'). inversion S0. reflexivity.
      - assert (Hs : shape t <> []) by (unfold ndim in N0; destruct (shape t); [elim N0; reflexivity|discriminate]).
        rewrite Sl. destruct (broadcast_to_breads _ _ _ Hr Hs) as (t' & Et & _ & Rt). eauto. }
    destruct X as (t' & -> & Rt). cbn [bind]. eexists. split; [reflexivity|]. apply (O (fun i => entry lhs i * entry t' i)). intros idx Hi. rewrite Rl, Rt by auto. reflexivity.
  - subst V. eexists. split; [reflexivity|]. apply (O (fun i => entry lhs i ^ 2)). intros idx Hi. rewrite Rl by auto. ring.
Qed.

Lemma elementwise_full {A B C} (op : A -> B -> C) sh F V x y : sh <> [] -> breads sh F x -> breads sh V y -> shape x = sh \/ shape y = sh ->
  exists z, elementwise op x y = Ok z /\ shape z = sh /\ breads sh (fun i => op (F i) (V i)) z.
Proof. intros Hne Hx Hy Hs. destruct (elementwise_breads op sh F V x y Hne Hx Hy) as (z & E & Bz & Sz). eauto. Qed.

Section Kernel.
  Variables (b c N1 N2 C Cm : nat) (sp : list nat) (G T G1 G2 : covariances) (M1 M2 : masking) (L : attention) (k : kernel R).
  Hypothesis H : attended b c N1 N2 C Cm sp G T G1 G2 M1 M2 L k.
  Let r := k_is_reversed k.
  Let db := k_diagonal_batch k.
  Variables (c1 nn : tensor R) (c2 nt : option (tensor R)).
  Hypothesis HI : interpolated L C N1 N2 sp G T G1 G2 M1 M2 k c1 nn c2 nt.

  (** One covariance of pair sums. *)
  Lemma sqrt_one db' n m Ma Mb F x o : (db' = true -> n = m) -> full r db' n m sp (with_embedding L C Ma Mb F) x ->
    (at_val_pos_emb L = false -> full r db' n m sp F o) ->
    exists d z, att_dot db' x (pick (at_val_pos_emb L) None (Some o)) = Ok d /\ elementwise Rmult d x = Ok z
      /\ breads (bsh db' n m (ord r sp)) (rd db' (fun i j _ _ => overlap sp (with_embedding L C Ma Mb F) (valued L C Ma Mb F) i j)) d
      /\ full r db' n m sp (sqrt_nngp L sp C Ma Mb F) (_affine z (QK_std L * OV_std L) (at_b_std L)).
  Proof.
    intros Hd Hx Ho.
    destruct (dot_breads r db' n m sp (with_embedding L C Ma Mb F) (valued L C Ma Mb F) x (pick (at_val_pos_emb L) None (Some o)) Hd Hx) as (d & Ed & Bd).
    { unfold pick, valued. destruct (at_val_pos_emb L); [reflexivity|]. apply Ho; auto. }
    destruct Hx as [Sx Bx].
    destruct (elementwise_full Rmult _ _ _ d x (bsh_ne _ _ _ _) Bd Bx (or_intror Sx)) as (z & Ez & Sz & Bz).
    exists d, z. split; [exact Ed|]. split; [exact Ez|]. split; [exact Bd|]. split; [rewrite affine_shape; exact Sz|].
    pose proof (affine_breads L _ _ _ (QK_std L * OV_std L) Bz) as Z. revert Z. apply breads_ext. intros idx _. unfold rd, st, sqrt_nngp. cbv zeta. reflexivity.
  Qed.

  Lemma sqrt_read : at_linear_scaling L = false ->
    exists k', sqrt_kernel L k c1 nn c2 nt = Ok k'
    /\ full r db N1 N1 sp (nngp_of L sp C G1 G1 M1 M1 G1) (k_cov1 k')
    /\ full r false N1 N2 sp (nngp_of L sp C G1 G2 M1 M2 G) (k_nngp k')
    /\ match k_cov2 k with None => k_cov2 k' = None | Some _ => exists x, k_cov2 k' = Some x /\ full r db N2 N2 sp (nngp_of L sp C G2 G2 M2 M2 G2) x end
    /\ match k_ntk k with None => k_ntk k' = None | Some _ => exists x, k_ntk k' = Some x /\ full r false N1 N2 sp (ntk_of L sp C G1 G2 M1 M2 G T) x end
    /\ exists cov1 nngp cov2 ntk, k' = replace_gaussian (replace_covs k cov1 nngp cov2 ntk).
  Proof.
    intros HL. unfold nngp_of, ntk_of. rewrite HL. unfold sqrt_kernel. fold db. cbv zeta.
    destruct (own_arrays _ _ _ _ _ _ _ _ _ _ _ (ad_kernel _ _ _ _ _ _ _ _ _ _ _ _ _ _ _ H)) as (O1 & On & O2). cbv zeta in O1, On, O2.
    destruct (sqrt_one db N1 N1 M1 M1 G1 c1 (k_cov1 k) ltac:(auto) (in_cov1 _ _ _ _ _ _ _ _ _ _ _ _ _ _ _ _ HI) (fun _ => O1)) as (d1 & z1 & Ed1 & Ez1 & _ & F1).
    rewrite Ed1. cbn [bind].
    pose proof (in_nngp _ _ _ _ _ _ _ _ _ _ _ _ _ _ _ _ HI) as Hnn. 
    destruct (sqrt_one false N1 N2 M1 M2 G nn (k_nngp k) ltac:(discriminate) Hnn (fun _ => On)) as (dn & zn & Edn & Ezn & Bdn & Fn).
    rewrite Edn. cbn [bind].
    assert (X : exists d2 z2, on_opt (fun c => att_dot db c (pick (at_val_pos_emb L) None (k_cov2 k))) c2 = Ok d2
       /\ match d2, c2 with Some d, Some c => rmap Some (elementwise Rmult d c) | _, _ => Ok None end = Ok z2
       /\ match k_cov2 k with None => z2 = None | Some _ => exists x, z2 = Some x /\ full r db N2 N2 sp (sqrt_nngp L sp C M2 M2 G2) (_affine x (QK_std L * OV_std L) (at_b_std L)) end).
    { pose proof (in_cov2 _ _ _ _ _ _ _ _ _ _ _ _ _ _ _ _ HI) as B2. destruct (k_cov2 k) as [x0|].
      - destruct B2 as (x & -> & Hx). destruct (sqrt_one db N2 N2 M2 M2 G2 x x0 ltac:(auto) Hx (fun _ => O2)) as (d & z & Ed & Ez & _ & Fz).
        exists (Some d), (Some z). cbn [on_opt]. rewrite Ed. cbn [rmap bind]. rewrite Ez. cbn [rmap bind]. repeat split; eauto.
      - subst c2. exists None, None. repeat split; auto. }
    destruct X as (d2 & z2 & Ed2 & Ez2 & F2). rewrite Ed2. cbn [bind]. rewrite Ezn. cbn [bind]. rewrite Ez1. cbn [bind]. rewrite Ez2. cbn [bind].
    assert (X : exists tt, on_opt (fun ntk_interp =>
          bind (if at_val_pos_emb L || match at_pos_emb_type L with NO_EMBEDDING => true | _ => false end
                then bind (att_dot false nn (Some ntk_interp)) (fun d => Ok (tmap (Rmult 2) d))
                else bind (att_dot false nn (k_ntk k)) (fun d1 =>
                     bind (att_dot false (k_nngp k) (Some ntk_interp)) (fun d2 => elementwise Rplus d1 d2))) (fun ntk =>
          bind (elementwise Rmult ntk nn) (fun a =>
          bind (elementwise Rplus ntk_interp (tmap (Rmult 4) nn)) (fun b =>
          bind (elementwise Rmult dn b) (fun b =>
          bind (elementwise Rplus a b) (fun ntk =>
          Ok (_affine ntk (QK_std L * OV_std L) (at_b_std L)))))))) nt = Ok tt
       /\ match k_ntk k with None => tt = None | Some _ => exists x, tt = Some x /\ full r false N1 N2 sp (sqrt_ntk L sp C M1 M2 G T) x end).
    { pose proof (val_ntk _ _ _ _ _ _ _ _ _ _ _ _ _ _ _ H _ _ _ _ HI) as V. fold r in V. destruct (k_ntk k) as [x0|]; [|subst nt; exists None; auto]. destruct V as (x & -> & Bx & Bo & _). cbn [on_opt].
      set (K := with_embedding L C M1 M2 G). set (V := valued L C M1 M2 G). set (TK := with_embedding L C M1 M2 T). set (TV := valued L C M1 M2 T).
      assert (X : exists d, (if at_val_pos_emb L || match at_pos_emb_type L with NO_EMBEDDING => true | _ => false end
                then bind (att_dot false nn (Some x)) (fun d => Ok (tmap (Rmult 2) d))
                else bind (att_dot false nn (Some x0)) (fun d1 =>
                     bind (att_dot false (k_nngp k) (Some x)) (fun d2 => elementwise Rplus d1 d2))) = Ok d
          /\ breads (bsh false N1 N2 (ord r sp)) (rd false (fun i j _ _ => overlap sp TK V i j + overlap sp K TV i j)) d).
      { assert (Sym : forall A B i j, overlap sp A B i j = overlap sp B A i j).
        { intros A B i j. unfold overlap. apply lsum_ext; intros u _. apply lsum_ext; intros v _. ring. }
        destruct (at_val_pos_emb L || match at_pos_emb_type L with NO_EMBEDDING => true | _ => false end) eqn:Ev.
        - assert (EV : V = K /\ TV = TK).
          { unfold V, TV, K, TK, valued. destruct (at_val_pos_emb L); [auto|]. cbn in Ev. unfold with_embedding. destruct (at_pos_emb_type L); try discriminate. auto. }
          destruct EV as [-> ->].
          destruct (dot_breads r false N1 N2 sp K TK nn (Some x) ltac:(discriminate) Hnn Bx) as (d & Ed & Bd). rewrite Ed. cbn [bind]. eexists. split; [reflexivity|].
          pose proof (breads_tmap (Rmult 2) _ _ _ Bd) as Z. revert Z. apply breads_ext. intros idx _. unfold rd. cbv zeta. rewrite (Sym TK K). ring.
        - apply orb_false_iff in Ev. destruct Ev as [Ev _].
          assert (EV : V = G /\ TV = T) by (unfold V, TV, valued; rewrite Ev; auto). destruct EV as [-> ->].
          destruct (dot_breads r false N1 N2 sp K T nn (Some x0) ltac:(discriminate) Hnn Bo) as (da & Eda & Bda). rewrite Eda. cbn [bind].
          destruct (dot_breads r false N1 N2 sp G TK (k_nngp k) (Some x) ltac:(discriminate) On Bx) as (db2 & Edb & Bdb). rewrite Edb. cbn [bind].
          destruct (elementwise_breads Rplus _ _ _ da db2 (bsh_ne _ _ _ _) Bda Bdb) as (z & Ez & Bz & _). exists z. split; [exact Ez|].
          revert Bz. apply breads_ext. intros idx _. unfold rd. cbv zeta. rewrite (Sym TK G). ring. }
      destruct X as (d & -> & Bd). cbn [bind]. destruct Hnn as [Snn Bnn].
      destruct (elementwise_full Rmult _ _ _ d nn (bsh_ne _ _ _ _) Bd Bnn (or_intror Snn)) as (a & Ea & Sa & Ba). rewrite Ea. cbn [bind].
      destruct (elementwise_full Rplus _ _ _ x (tmap (Rmult 4) nn) (bsh_ne _ _ _ _) Bx (breads_tmap (Rmult 4) _ _ _ Bnn) (or_intror Snn)) as (e & Ee & Se & Be). rewrite Ee. cbn [bind].
      destruct (elementwise_full Rmult _ _ _ dn e (bsh_ne _ _ _ _) Bdn Be (or_intror Se)) as (f & Ef & Sf & Bf). rewrite Ef. cbn [bind].
      destruct (elementwise_full Rplus _ _ _ a f (bsh_ne _ _ _ _) Ba Bf (or_intror Sf)) as (g & Eg & Sg & Bg). rewrite Eg. cbn [rmap bind].
      eexists. split; [reflexivity|]. eexists. split; [reflexivity|]. split; [rewrite affine_shape; exact Sg|].
      pose proof (affine_breads L _ _ _ (QK_std L * OV_std L) Bg) as Z. revert Z. apply breads_ext. intros idx _. unfold rd, st, sqrt_ntk. cbv zeta. fold K V TK TV. unfold interp. fold K r. change (qk_scale L) with (QK_std L). change (ov_scale L) with (OV_std L). ring. }
    destruct X as (tt & Ett & Htt). rewrite Ett. cbn [bind].
    eexists. split; [reflexivity|]. cbn [replace_gaussian replace_covs k_cov1 k_nngp k_cov2 k_ntk].
    split; [exact F1|]. split; [exact Fn|]. split; [|split; [exact Htt|eauto]].
    destruct (k_cov2 k); [|subst z2; reflexivity]. destruct F2 as (x & -> & Fx). eexists. split; [reflexivity|exact Fx].
  Qed.
End Kernel.

(** What [kernel_fn] returns. *)
Theorem attention_kernel_spec b c N1 N2 C Cm sp G T G1 G2 M1 M2 L k : attended b c N1 N2 C Cm sp G T G1 G2 M1 M2 L k -> has_kernel L ->
  exists k', attention_kernel_fn L k = Ok k'
    /\ kernel_of b c N1 N2 C C sp (nngp_of L sp C G1 G2 M1 M2 G) (ntk_of L sp C G1 G2 M1 M2 G T) (nngp_of L sp C G1 G1 M1 M1 G1) (nngp_of L sp C G2 G2 M2 M2 G2) k'
    /\ match k_ntk k with None => k_ntk k' = None | Some _ => exists t, k_ntk k' = Some t /\ shape t <> [] end
    /\ (k_cov2 k = None <-> k_cov2 k' = None)
    /\ exists cov1 nngp cov2 ntk, k' = replace_gaussian (replace_covs k cov1 nngp cov2 ntk).
Proof.
  intros H HK. destruct (interpolate _ _ _ _ _ _ _ _ _ _ _ _ _ _ _ H) as (R1 & R12 & R2 & c1 & nn & c2 & nt & E & E1 & E2 & En & Et & HI).
  unfold attention_kernel_fn. rewrite E. cbn [bind]. rewrite E1. cbn [bind]. rewrite E2. cbn [bind]. rewrite En. cbn [bind]. rewrite Et. cbn [bind].
  assert (X : exists k', (if at_linear_scaling L then linear_kernel L k c1 nn c2 nt
      else match at_mechanism L with
           | IDENTITY => sqrt_kernel L k c1 nn c2 nt
           | _ => Raise NotImplementedError
           end) = Ok k'
    /\ full (k_is_reversed k) (k_diagonal_batch k) N1 N1 sp (nngp_of L sp C G1 G1 M1 M1 G1) (k_cov1 k')
    /\ full (k_is_reversed k) false N1 N2 sp (nngp_of L sp C G1 G2 M1 M2 G) (k_nngp k')
    /\ match k_cov2 k with None => k_cov2 k' = None | Some _ => exists x, k_cov2 k' = Some x /\ full (k_is_reversed k) (k_diagonal_batch k) N2 N2 sp (nngp_of L sp C G2 G2 M2 M2 G2) x end
    /\ match k_ntk k with None => k_ntk k' = None | Some _ => exists x, k_ntk k' = Some x /\ full (k_is_reversed k) false N1 N2 sp (ntk_of L sp C G1 G2 M1 M2 G T) x end
    /\ exists cov1 nngp cov2 ntk, k' = replace_gaussian (replace_covs k cov1 nngp cov2 ntk)).
  { destruct (at_linear_scaling L) eqn:EL.
    - apply (linear_read _ _ _ _ _ _ _ _ _ _ _ _ _ _ _ H _ _ _ _ HI EL).
    - destruct HK as [HK|HK]; [congruence|]. rewrite HK. apply (sqrt_read _ _ _ _ _ _ _ _ _ _ _ _ _ _ _ H _ _ _ _ HI EL). }
  destruct X as (k' & -> & F1 & Fn & F2 & Ft & cv1 & ng & cv2 & tk & ->). eexists. split; [reflexivity|].
  pose proof (ad_kernel _ _ _ _ _ _ _ _ _ _ _ _ _ _ _ H) as Hk.
  cbn [replace_gaussian replace_covs k_cov1 k_nngp k_cov2 k_ntk] in *. split; [|split; [|split; [|eauto 6]]].
  - constructor; cbn [replace_gaussian replace_covs k_cov1 k_nngp k_cov2 k_ntk k_is_reversed k_diagonal_batch k_diagonal_spatial k_batch_axis k_channel_axis k_shape1 k_shape2].
    + apply (ko_full _ _ _ _ _ _ _ _ _ _ _ _ Hk).
    + apply (ko_axes _ _ _ _ _ _ _ _ _ _ _ _ Hk).
    + apply (ko_shape1 _ _ _ _ _ _ _ _ _ _ _ _ Hk).
    + apply (ko_shape2 _ _ _ _ _ _ _ _ _ _ _ _ Hk).
    + apply full_stored; [discriminate|exact Fn].
    + destruct (k_ntk k); [|subst tk; exact Logic.I]. destruct Ft as (x & -> & Fx). right. apply full_stored; [discriminate|exact Fx].
    + apply full_stored; auto.
    + destruct (k_cov2 k); [|subst cv2; exact Logic.I]. destruct F2 as (x & -> & Fx). apply full_stored; auto.
  - destruct (k_ntk k); [|exact Ft]. destruct Ft as (x & -> & Fx). exists x. split; [reflexivity|]. destruct Fx as [-> _]. apply bsh_ne.
  - destruct (k_cov2 k); [destruct F2 as (x & -> & _); split; discriminate|subst cv2; tauto].
Qed.
