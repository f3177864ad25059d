(** Attention with linear scaling and many keys: the kernel is the limit. *)
From Coq Require Import Reals List Arith Lia Lra Bool.
From Coquelicot Require Import Coquelicot.
From Verif Require Import Base Model_Geom Model_Net Model_Finite Spec_Geom Spec_Predict Spec_Finite Spec_Conv Model_Attention Model_AttentionApply Spec_Attention
  Spec_AttentionFinite Proof_Geom Proof_Net Proof_Finite Proof_AttentionFinite Proof_AttentionFinite2 Proof_AttentionFinite5 Proof_AttentionFinite6 Proof_AttentionFinite10 Proof_AttentionFinite11 Proof_AttentionFinite12 Proof_AttentionFinite13
  Example_AttentionFinite.
Import ListNotations.
Local Open Scope R_scope.

Definition masks_match (L : attention) (sp : list nat) (m : loc -> bool) : Prop :=
  at_mechanism L <> SOFTMAX \/ qk_scale L = 1 \/ forall v, In v (locs sp) -> m v = false.

Lemma linear_limit L sp C M1 M2 xk xv yk yv G G1 G2 i j p q :
  at_linear_scaling L = true -> (0 < key_channels L C)%nat -> (0 < val_channels L C)%nat -> in_shape sp p -> in_shape sp q ->
  agree sp i i (with_embedding L C M1 M1 G1) (covs (key_channels L C) xk xk) ->
  agree sp j j (with_embedding L C M2 M2 G2) (covs (key_channels L C) yk yk) ->
  agree sp i j (valued L C M1 M2 G) (covs (val_channels L C) xv yv) ->
  masks_match L sp (M1 i) -> masks_match L sp (M2 j) ->
  exists c, forall Omega (E : (Omega -> R) -> R) z H o o', random_layer E L H C z -> (o < hd_out H)%nat -> (o' < hd_out H)%nat ->
    Rabs (E (fun w => layer_out L H sp C M1 (z w) xk xv i p o * layer_out L H sp C M2 (z w) yk yv j q o')
          - if (o =? o')%nat then nngp_of L sp C G1 G2 M1 M2 G i j p q else 0) <= c / sqrt (INR (hd_key H)).
Proof.
  intros HL Hck Hcv Hp Hq A1 A2 AV N1 N2. destruct (nngp_shrinks L sp C HL Hck Hcv M1 M2 xk xv yk yv i j p q) as (c & _ & Hc).
  rewrite (limit_is_average L sp C M1 M2 xk yk i j p q G1 G2 (valued L C M1 M2 G) _ Hp Hq A1 A2 N1 N2 AV) in Hc.
  exists c. intros Omega E z H o o' HR Ho Ho'. unfold nngp_of. rewrite HL. exact (Hc (mkWorld L C Omega E z H HR) o o' Ho Ho').
Qed.

Lemma linear_limit_ntk L sp C M1 M2 xk xv yk yv G G1 G2 T i j p q n cxk cxv cyk cyv dxk dxv dyk dyv :
  at_linear_scaling L = true -> (0 < key_channels L C)%nat -> (0 < val_channels L C)%nat -> in_shape sp p -> in_shape sp q ->
  agree sp i i (with_embedding L C M1 M1 G1) (covs (key_channels L C) xk xk) ->
  agree sp j j (with_embedding L C M2 M2 G2) (covs (key_channels L C) yk yk) ->
  agree sp i j (valued L C M1 M2 G) (covs (val_channels L C) xv yv) ->
  masks_match L sp (M1 i) -> masks_match L sp (M2 j) ->
  starts_at n cxk dxk xk -> starts_at n cxv dxv xv -> starts_at n cyk dyk yk -> starts_at n cyv dyv yv ->
  orthogonal n (key_channels L C) dxk xk -> orthogonal n (key_channels L C) dyk yk ->
  agree sp i j (valued L C M1 M2 T) (tangents n (val_channels L C) dxv dyv) ->
  exists c, forall Omega (E : (Omega -> R) -> R) z H o o', random_layer E L H C z -> (o < hd_out H)%nat -> (o' < hd_out H)%nat ->
    almost_surely E (fun w => forall h, (h < hd_heads H)%nat -> smooth L sp (M1 i) (logits L H C (z w) xk i h p) /\ smooth L sp (M2 j) (logits L H C (z w) yk j h q)) ->
    Rabs (E (fun w => gradients (own_params L H C) (fun P => layer_out L H sp C M1 P xk xv i p o) (fun P => layer_out L H sp C M2 P yk yv j q o') (z w)
                      + moved n (fun a t => layer_out L H sp C M1 (z w) (cxk a t) (cxv a t) i p o) (fun a t => layer_out L H sp C M2 (z w) (cyk a t) (cyv a t) j q o'))
          - if (o =? o')%nat then ntk_of L sp C G1 G2 M1 M2 G T i j p q else 0) <= c / sqrt (INR (hd_key H)).
Proof.
  intros HL Hck Hcv Hp Hq A1 A2 AV N1 N2 S1 S2 S3 S4 O1 O2 AT.
  destruct (ntk_shrinks L sp C HL Hck Hcv M1 M2 xk xv yk yv i j p q n cxk cxv cyk cyv dxk dxv dyk dyv S1 S2 S3 S4 O1 O2) as (c & _ & Hc).
  rewrite (limit_is_average L sp C M1 M2 xk yk i j p q G1 G2 (valued L C M1 M2 G) _ Hp Hq A1 A2 N1 N2 AV) in Hc.
  rewrite (limit_is_average L sp C M1 M2 xk yk i j p q G1 G2 (valued L C M1 M2 T) _ Hp Hq A1 A2 N1 N2 AT) in Hc.
  exists c. intros Omega E z H o o' HR Ho Ho' Hs. unfold ntk_of. rewrite HL. exact (Hc (mkWorld L C Omega E z H HR) o o' Ho Ho' Hs).
Qed.

(** ** Draws for layers of all sizes *)
Lemma draw_all_monotone ps : monotone (draw_all ps).
Proof.
  induction ps as [|a ps IH]; intros X Y HX; cbn [draw_all]; [apply HX|]. unfold draw.
  pose proof (IH (fun P => X (set_param a (- sqrt 3) P)) (fun P => Y (set_param a (- sqrt 3) P)) (fun P => HX _)).
  pose proof (IH (fun P => X (set_param a 0 P)) (fun P => Y (set_param a 0 P)) (fun P => HX _)).
  pose proof (IH (fun P => X (set_param a (sqrt 3) P)) (fun P => Y (set_param a (sqrt 3) P)) (fun P => HX _)). lra.
Qed.
Lemma draw_split ps l : forall ks (f : aparams -> R), (forall a, In a ks -> ~ In a l) -> (forall P P', (forall a, In a ks -> P a = P' a) -> f P = f P') ->
  draw_all (ks ++ ps) (fun P => product (map P l) * f P) = draw_all ps (fun P => product (map P l)) * draw_all (ks ++ ps) f.
Proof.
  induction ks as [|a ks IH]; intros f Hl Hf; cbn [app draw_all].
  - pose proof (draw_all_expectation ps) as HE. rewrite (E_ext _ HE _ (fun P => f (fun _ => 0) * product (map P l))) by (intros P; rewrite (Hf P (fun _ => 0)) by (intros ? []); ring).
    rewrite (E_scale _ HE), (E_ext _ HE f (fun _ => f (fun _ => 0))) by (intros; apply Hf; intros ? []). rewrite (E_const _ HE). ring.
  - pose proof (draw_all_expectation (ks ++ ps)) as HE.
    assert (Q : forall t, draw_all (ks ++ ps) (fun P => product (map (set_param a t P) l) * f (set_param a t P)) = draw_all ps (fun P => product (map P l)) * draw_all (ks ++ ps) (fun P => f (set_param a t P))).
    { intros t. rewrite <- (IH (fun P => f (set_param a t P))).
      - apply (E_ext _ HE). intros P. f_equal. f_equal. apply map_ext_in. intros b Hb. unfold set_param. destruct (aparam_eq_dec b a) as [->|]; [destruct (Hl a); cbn; auto|reflexivity].
      - intros b Hb. apply Hl; cbn; auto.
      - intros P P' HP. apply Hf. intros b [<-|Hb]; unfold set_param; destruct (aparam_eq_dec _ a); auto; congruence. }
    unfold draw. rewrite !Q. lra.
Qed.

Lemma draws_random L H C : (0 < hd_heads H)%nat -> (0 < hd_key H)%nat -> (0 < hd_val H)%nat ->
  random_layer (draw_all (key_params L H C ++ concat [val_params L H C; out_params H; bias_params L H])) L H C (fun P => P).
Proof.
  intros Hh Hk Hv. set (kinds := [val_params L H C; out_params H; bias_params L H]).
  assert (AV : apart kinds) by apply (apart_values L H C).
  assert (NK : NoDup (key_params L H C)) by (apply NoDup_entries3; intros * [= ]; auto).
  assert (DK : forall a, In a (key_params L H C) -> ~ In a (concat kinds)).
  { intros a Ha Hb. apply in_entries3 in Ha. destruct Ha as (h & c & k & _ & _ & _ & ->). unfold kinds in Hb. apply in_concat in Hb. destruct Hb as (k' & Hk' & Hb).
    destruct Hk' as [<-|[<-|[<-|[]]]].
    - apply in_entries3 in Hb. destruct Hb as (? & ? & ? & _ & _ & _ & [=]).
    - unfold out_params in Hb. apply in_flat_map in Hb. destruct Hb as (r & _ & Hb). apply in_map_iff in Hb. destruct Hb as (o & [=] & _).
    - unfold bias_params in Hb. destruct (at_b_std L); [|destruct Hb]. apply in_map_iff in Hb. destruct Hb as (o & [=] & _). }
  assert (Happ : forall l1 l2 : list aparam, NoDup l1 -> NoDup l2 -> (forall b, In b l1 -> ~ In b l2) -> NoDup (l1 ++ l2)).
  { induction l1 as [|b l1 IH1]; intros l2 H1 H2 Hn; cbn; auto. inversion H1; subst. constructor.
    - rewrite in_app_iff; intros [X|X]; auto. apply (Hn b); cbn; auto.
    - apply IH1; auto. intros b' Hb'. apply Hn; cbn; auto. }
  pose proof (draw_all_expectation (key_params L H C ++ concat kinds)) as HE.
  split; [exact HE|]. split; [apply draw_all_monotone|]. do 3 (split; [assumption|]). split.
  - intros f Hf sel F. fold kinds in F |- *.
    rewrite (E_ext _ HE _ (fun P => product (map P (concat sel)) * f P)) by (intros; fold (draws w sel); rewrite draws_concat; reflexivity).
    rewrite draw_split; [|intros a Ha Hi; apply (DK a Ha); eapply fits_incl; eassumption|exact Hf].
    f_equal. rewrite product_mean by (auto using apart_nodup; apply fits_incl; exact F). apply (means_product sel kinds AV F).
  - destruct (draws_normal (key_params L H C ++ concat kinds)) as [D1 D2]; [apply Happ; auto using apart_nodup|].
    split; intros; [apply D1|apply D2]; apply in_or_app; auto.
Qed.

Lemma linear_apply L sp C chol M1 M2 x y i j p q (Omega : nat -> Type) (E : forall n, (Omega n -> R) -> R) z (H : nat -> heads) o o' :
  at_linear_scaling L = true -> at_pos_emb_type L = NO_EMBEDDING -> (0 < C)%nat -> in_shape sp p -> in_shape sp q ->
  masks_match L sp (M1 i) -> masks_match L sp (M2 j) ->
  (forall n, random_layer (E n) L (H n) C (z n) /\ (o < hd_out (H n))%nat /\ (o' < hd_out (H n))%nat) ->
  is_lim_seq (fun n => INR (hd_key (H n))) p_infty ->
  is_lim_seq (fun n => E n (fun w => attention_apply L (H n) sp C chol M1 (z n w) x i p o * attention_apply L (H n) sp C chol M2 (z n w) y j q o'))
    (Finite (if (o =? o')%nat then nngp_of L sp C (covs C x x) (covs C y y) M1 M2 (covs C x y) i j p q else 0)).
Proof.
  intros HL Hn HC Hp Hq N1 N2 HR Hlim.
  assert (Kc : key_channels L C = C) by (unfold key_channels; rewrite Hn; reflexivity).
  assert (Vc : val_channels L C = C) by (unfold val_channels; rewrite Kc; destruct (at_val_pos_emb L); reflexivity).
  assert (We : forall M M' G, with_embedding L C M M' G = G) by (intros; unfold with_embedding; rewrite Hn; reflexivity).
  assert (Va : forall M M' G, valued L C M M' G = G) by (intros; unfold valued; rewrite We; destruct (at_val_pos_emb L); reflexivity).
  destruct (linear_limit L sp C M1 M2 x x y y (covs C x y) (covs C x x) (covs C y y) i j p q HL) as (c & Hc); rewrite ?We, ?Va, ?Kc, ?Vc; auto; try (intros ? ? _ _; reflexivity).
  set (l := if (o =? o')%nat then nngp_of L sp C (covs C x x) (covs C y y) M1 M2 (covs C x y) i j p q else 0).
  apply (is_lim_seq_ext (fun n => (E n (fun w => layer_out L (H n) sp C M1 (z n w) x x i p o * layer_out L (H n) sp C M2 (z n w) y y j q o') - l) + l)).
  { intros n. assert (Q : forall M P u, attention_apply L (H n) sp C chol M P u = layer_out L (H n) sp C M P u u).
    { intros. unfold attention_apply, layer_out, val_inputs. unfold key_inputs. rewrite Hn. destruct (at_val_pos_emb L); reflexivity. }
    pose proof (proj1 (proj1 (HR n))) as HE. rewrite (E_ext _ HE (fun w => attention_apply L (H n) sp C chol M1 (z n w) x i p o * attention_apply L (H n) sp C chol M2 (z n w) y j q o')
      (fun w => layer_out L (H n) sp C M1 (z n w) x x i p o * layer_out L (H n) sp C M2 (z n w) y y j q o')) by (intros; rewrite !Q; reflexivity). ring. }
  replace (Finite l) with (Finite (0 + l)) by (f_equal; ring). apply is_lim_seq_plus'; [|apply is_lim_seq_const].
  assert (Hz : is_lim_seq (fun n => c / sqrt (INR (hd_key (H n)))) 0).
  { replace (Finite 0) with (Rbar_mult (Finite c) (Finite 0)) by (cbn; f_equal; ring). apply (is_lim_seq_scal_l (fun n => / sqrt (INR (hd_key (H n)))) c 0).
    apply (is_lim_seq_inv (fun n => sqrt (INR (hd_key (H n)))) p_infty); [|discriminate]. exact (filterlim_comp _ _ _ (fun n => INR (hd_key (H n))) sqrt _ _ _ Hlim filterlim_sqrt_p). }
  apply (is_lim_seq_le_le (fun n => - (c / sqrt (INR (hd_key (H n))))) _ (fun n => c / sqrt (INR (hd_key (H n))))).
  - intros n. destruct (HR n) as (R1 & Ho & Ho'). apply Rabs_le_between, (Hc _ _ _ _ _ _ R1 Ho Ho').
  - replace (Finite 0) with (Rbar_opp (Finite 0)) by (cbn; f_equal; ring). apply -> is_lim_seq_opp. exact Hz.
  - exact Hz.
Qed.
