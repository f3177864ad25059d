(** Positional embeddings and masks of finite attention layers. *)
From Coq Require Import Reals List Arith Lia Lra Bool.
From Coquelicot Require Import Coquelicot.
From Verif Require Import Base Model_Geom Model_Net Model_Finite Spec_Geom Spec_Predict Spec_Finite Spec_Conv Model_Attention Model_AttentionApply Spec_Attention
  Spec_AttentionFinite Proof_Geom Proof_Net Proof_Finite Proof_Finite4 Proof_MaskStats Proof_AttentionFinite Proof_AttentionFinite2.
Import ListNotations.
Local Open Scope R_scope.

Section Embedding.
  Variables (L : attention) (sp : list nat) (C : nat) (chol : loc -> loc -> R).
  Hypothesis HF : factor_of L sp chol.
  Hypothesis Hsum : at_pos_emb_type L = SUM -> emb_channels L C = C.
  Let W := at_W_pos_emb_std L.
  Let D := emb_channels L C.

  Definition root (p u : loc) : R := match at_pos_emb_decay_fn L with None => if loc_eq_dec u p then 1 else 0 | Some _ => chol p u end.
  Lemma root_pick p (f : loc -> R) : in_shape sp p -> lsum (locs sp) (fun u => (if loc_eq_dec u p then 1 else 0) * f u) = f p.
  Proof.
    intros Hp. rewrite (lsum_single (locs sp) p); [destruct (loc_eq_dec p p); [ring|congruence]|apply NoDup_locs|apply in_locs; auto|].
    intros u _ Hn. destruct (loc_eq_dec u p); [congruence|ring].
  Qed.
  Lemma root_cov p q : in_shape sp p -> in_shape sp q -> lsum (locs sp) (fun u => root p u * root q u) = embedding_cov L p q.
  Proof.
    intros Hp Hq. unfold root. unfold factor_of in HF. destruct (at_pos_emb_decay_fn L) eqn:Ed; [apply HF; auto|].
    rewrite root_pick by auto. unfold embedding_cov. rewrite Ed. unfold loc_eqb. destruct (loc_eq_dec p q); reflexivity.
  Qed.
  Lemma pos_emb_root m P i p c : in_shape sp p -> pos_emb L sp chol m P i p c = W * (if m i p then 0 else lsum (locs sp) (fun u => root p u * P (AE u c))).
  Proof.
    intros Hp. unfold pos_emb. fold W. rewrite Rmult_comm. f_equal. destruct (m i p); [reflexivity|]. unfold root. destruct (at_pos_emb_decay_fn L); [reflexivity|].
    rewrite (root_pick p (fun u => P (AE u c))) by auto. reflexivity.
  Qed.

  Lemma in_embs u c : at_pos_emb_type L <> NO_EMBEDDING -> In u (locs sp) -> (c < D)%nat -> In (AE u c) (emb_params L sp C).
  Proof.
    intros Ht Hu Hc. unfold emb_params. destruct (at_pos_emb_type L); try congruence; apply in_flat_map; exists u; (split; [auto|]); apply in_map, in_seq; unfold D in Hc; lia.
  Qed.
  Lemma sum_embs (f : aparam -> R) : at_pos_emb_type L <> NO_EMBEDDING -> lsum (emb_params L sp C) f = lsum (locs sp) (fun u => lsum (seq 0 D) (fun c => f (AE u c))).
  Proof.
    intros Ht. unfold emb_params. destruct (at_pos_emb_type L); try congruence; rewrite lsum_flat_map; apply lsum_ext; intros; rewrite lsum_map; reflexivity.
  Qed.

  (** ** Second moments *)
  Section Moments.
    Context {Omega : Type} (E : (Omega -> R) -> R) (HE : expectation E) (z : Omega -> aparams).
    Hypothesis Hz : independent_kinds E [emb_params L sp C] z (fun _ => 1).
    Lemma emb_mean a : In a (emb_params L sp C) -> E (fun w => z w a) = 0.
    Proof.
      intros Ha. rewrite (E_ext E HE _ (fun w => product (map (fun s => product (map (z w) s)) [[a]]) * 1)) by (intros; cbn; unfold product; cbn; ring).
      rewrite (Hz [[a]]); [cbn; unfold product; cbn; ring|]. constructor; [|constructor]. split; [cbn; lia|]. intros b [<-|[]]; auto.
    Qed.
    Lemma emb_pair a b : In a (emb_params L sp C) -> In b (emb_params L sp C) -> E (fun w => z w a * z w b) = kron a b.
    Proof.
      intros Ha Hb. rewrite (E_ext E HE _ (fun w => product (map (fun s => product (map (z w) s)) [[a; b]]) * 1)) by (intros; cbn; unfold product; cbn; ring).
      rewrite (Hz [[a; b]]); [cbn [map mean2]; unfold product; cbn; rewrite (E_const E HE); unfold kron; ring|]. constructor; [|constructor]. split; [cbn; lia|]. intros c [<-|[<-|[]]]; auto.
    Qed.
    Lemma pos_emb_mean m i p c : at_pos_emb_type L <> NO_EMBEDDING -> in_shape sp p -> (c < D)%nat -> E (fun w => pos_emb L sp chol m (z w) i p c) = 0.
    Proof.
      intros Ht Hp Hc. rewrite (E_ext E HE _ (fun w => W * (if m i p then 0 else lsum (locs sp) (fun u => root p u * z w (AE u c))))) by (intros; apply pos_emb_root; auto).
      rewrite (E_scale E HE). destruct (m i p); [rewrite (E_const E HE); ring|]. rewrite (E_lsum E HE (locs sp) (fun u w => root p u * z w (AE u c))).
      rewrite lsum_zero; [ring|]. intros u Hu. rewrite (E_scale E HE), emb_mean by (apply in_embs; auto). ring.
    Qed.
    Lemma pos_emb_pair m m' i j p q c : at_pos_emb_type L <> NO_EMBEDDING -> in_shape sp p -> in_shape sp q -> (c < D)%nat ->
      E (fun w => pos_emb L sp chol m (z w) i p c * pos_emb L sp chol m' (z w) j q c) = W ^ 2 * (if m i p || m' j q then 0 else embedding_cov L p q).
    Proof.
      intros Ht Hp Hq Hc. destruct (m i p || m' j q) eqn:Em.
      - rewrite (E_null E HE); [ring|]. intros w. rewrite !pos_emb_root by auto. apply orb_true_iff in Em. destruct Em as [-> | ->]; ring.
      - apply orb_false_iff in Em. destruct Em as [Em Em'].
        rewrite (E_ext E HE _ (fun w => W ^ 2 * lsum (locs sp) (fun u => lsum (locs sp) (fun v => root p u * root q v * (z w (AE u c) * z w (AE v c)))))).
        2: { intros w. rewrite !pos_emb_root, Em, Em' by auto.
             transitivity (W ^ 2 * (lsum (locs sp) (fun u => root p u * z w (AE u c)) * lsum (locs sp) (fun u => root q u * z w (AE u c)))); [ring|].
             f_equal. rewrite lsum_mult. apply lsum_ext; intros; apply lsum_ext; intros; ring. }
        rewrite (E_scale E HE). f_equal. rewrite <- root_cov by auto. rewrite (E_lsum E HE (locs sp) (fun u w => lsum (locs sp) (fun v => root p u * root q v * (z w (AE u c) * z w (AE v c))))).
        apply lsum_ext. intros u Hu. rewrite (E_lsum E HE (locs sp) (fun v w => root p u * root q v * (z w (AE u c) * z w (AE v c)))).
        rewrite (lsum_single (locs sp) u); [|apply NoDup_locs|auto|].
        + rewrite (E_scale E HE), emb_pair, kron_refl by (apply in_embs; auto). ring.
        + intros v Hv Hn. rewrite (E_scale E HE), emb_pair, kron_ne by (try (apply in_embs; auto); congruence). ring.
    Qed.

    Lemma lsum_seq_split a b (f : nat -> R) : lsum (seq 0 (a + b)) f = lsum (seq 0 a) f + lsum (seq 0 b) (fun c => f (a + c)%nat).
    Proof.
      rewrite seq_app, lsum_app. f_equal. change (0 + a)%nat with a. replace (seq a b) with (map (fun c => (a + c)%nat) (seq 0 b)); [apply lsum_map|].
      clear. revert a. induction b as [|b IH]; intros a; cbn; [reflexivity|]. rewrite Nat.add_0_r. f_equal. rewrite <- (IH (S a)), <- seq_shift, map_map. apply map_ext. intros; lia.
    Qed.
    Lemma key_covs M1 M2 x y i j p q : (0 < key_channels L C)%nat -> in_shape sp p -> in_shape sp q ->
      E (fun w => covs (key_channels L C) (key_inputs L sp C chol M1 (z w) x) (key_inputs L sp C chol M2 (z w) y) i j p q)
      = with_embedding L C M1 M2 (covs C x y) i j p q.
    Proof.
      intros Hch Hp Hq. unfold covs at 1, key_inputs, with_embedding. cbv zeta. fold D W. unfold key_channels in Hch |- *. revert Hch. case_eq (at_pos_emb_type L); intros Et Hch.
      - (* no embedding *) apply (E_const E HE).
      - (* SUM *)
        assert (Hd : emb_channels L C = C) by (first [exact (Hsum Et) | exact (Hsum eq_refl)]). fold D in Hd.
        rewrite (E_ext E HE _ (fun w => / INR C * lsum (seq 0 C) (fun c => pos_emb L sp chol M1 (z w) i p c * pos_emb L sp chol M2 (z w) j q c
            + (y j q c * pos_emb L sp chol M1 (z w) i p c + (x i p c * pos_emb L sp chol M2 (z w) j q c + x i p c * y j q c))))).
        2: { intros w. unfold Rdiv. rewrite Rmult_comm. f_equal. apply lsum_ext; intros; ring. }
        rewrite (E_scale E HE).
        rewrite (E_lsum E HE (seq 0 C) (fun c w => pos_emb L sp chol M1 (z w) i p c * pos_emb L sp chol M2 (z w) j q c
            + (y j q c * pos_emb L sp chol M1 (z w) i p c + (x i p c * pos_emb L sp chol M2 (z w) j q c + x i p c * y j q c)))).
        rewrite (lsum_ext (seq 0 C) _ (fun c => W ^ 2 * (if M1 i p || M2 j q then 0 else embedding_cov L p q) + x i p c * y j q c)).
        + rewrite lsum_plus, lsum_const, seq_length. unfold covs. field. apply not_0_INR. lia.
        + intros c Hc. apply in_seq in Hc. assert (Hc' : (c < D)%nat) by lia.
          rewrite (E_plus E HE (fun w => pos_emb L sp chol M1 (z w) i p c * pos_emb L sp chol M2 (z w) j q c) (fun w => y j q c * pos_emb L sp chol M1 (z w) i p c + (x i p c * pos_emb L sp chol M2 (z w) j q c + x i p c * y j q c))).
          rewrite (E_plus E HE (fun w => y j q c * pos_emb L sp chol M1 (z w) i p c) (fun w => x i p c * pos_emb L sp chol M2 (z w) j q c + x i p c * y j q c)).
          rewrite (E_plus E HE (fun w => x i p c * pos_emb L sp chol M2 (z w) j q c) (fun w => x i p c * y j q c)).
          rewrite !(E_scale E HE _ (fun w => pos_emb L sp chol _ (z w) _ _ _)). rewrite !pos_emb_mean, pos_emb_pair, (E_const E HE) by (auto; congruence). ring.
      - (* CONCAT *)
        rewrite (E_ext E HE _ (fun w => / INR (C + D) * (lsum (seq 0 C) (fun c => x i p c * y j q c) + lsum (seq 0 D) (fun c => pos_emb L sp chol M1 (z w) i p c * pos_emb L sp chol M2 (z w) j q c)))).
        2: { intros w. fold D. unfold Rdiv. rewrite Rmult_comm, lsum_seq_split. f_equal. f_equal.
             - apply lsum_ext. intros c Hc. apply in_seq in Hc. replace (c <? C)%nat with true by (symmetry; apply Nat.ltb_lt; lia). reflexivity.
             - apply lsum_ext. intros c Hc. replace (C + c <? C)%nat with false by (symmetry; apply Nat.ltb_ge; lia). rewrite minus_plus. reflexivity. }
        rewrite (E_scale E HE). rewrite (E_plus E HE (fun _ => lsum (seq 0 C) (fun c => x i p c * y j q c)) (fun w => lsum (seq 0 D) (fun c => pos_emb L sp chol M1 (z w) i p c * pos_emb L sp chol M2 (z w) j q c))).
        rewrite (E_const E HE), (E_lsum E HE (seq 0 D) (fun c w => pos_emb L sp chol M1 (z w) i p c * pos_emb L sp chol M2 (z w) j q c)).
        rewrite (lsum_ext (seq 0 D) _ (fun c => W ^ 2 * (if M1 i p || M2 j q then 0 else embedding_cov L p q))).
        2: { intros c Hc. apply in_seq in Hc. apply pos_emb_pair; auto; [congruence|lia]. }
        rewrite lsum_const, seq_length. change (match at_n_chan_pos_emb L with None => C | Some n => n end) with D.
        assert (Ec : INR C * covs C x y i j p q = lsum (seq 0 C) (fun c => x i p c * y j q c)).
        { unfold covs. destruct (Nat.eq_dec C 0) as [-> |Hn]; [cbn; ring|]. field. apply not_0_INR. lia. }
        rewrite Ec. unfold Rdiv. ring.
    Qed.
    Lemma val_covs M1 M2 x y i j p q : (0 < val_channels L C)%nat -> in_shape sp p -> in_shape sp q ->
      E (fun w => covs (val_channels L C) (val_inputs L sp C chol M1 (z w) x) (val_inputs L sp C chol M2 (z w) y) i j p q)
      = valued L C M1 M2 (covs C x y) i j p q.
    Proof.
      unfold val_channels, val_inputs, valued. destruct (at_val_pos_emb L); [apply key_covs|]. intros. apply (E_const E HE).
    Qed.
  End Moments.

  (** ** Gradients *)
  Lemma pos_emb_Derive m P u c' i p c : in_shape sp p -> In u (locs sp) ->
    Derive (fun t : R => pos_emb L sp chol m (abump P (AE u c') t) i p c) 0 = W * (if m i p then 0 else if (c =? c')%nat then root p u else 0).
  Proof.
    intros Hp Hu. apply is_derive_unique.
    apply (is_derive_ext (fun t => W * (if m i p then 0 else lsum (locs sp) (fun v => root p v * abump P (AE u c') t (AE v c))))); [intros; symmetry; apply pos_emb_root; auto|].
    apply (is_derive_scal (fun t => if m i p then 0 else lsum (locs sp) (fun v => root p v * abump P (AE u c') t (AE v c)))).
    destruct (m i p); [apply is_derive_Reals, derivable_pt_lim_const|].
    replace (if (c =? c')%nat then root p u else 0) with (lsum (locs sp) (fun v => root p v * kron (AE v c) (AE u c'))).
    - apply (is_derive_lsum (locs sp) (fun v t => root p v * abump P (AE u c') t (AE v c))). intros v _. apply (is_derive_scal (fun t => abump P (AE u c') t (AE v c))). apply bump_derive.
    - destruct (Nat.eqb_spec c c') as [-> |Hn].
      + rewrite (lsum_single (locs sp) u); [rewrite kron_refl; ring|apply NoDup_locs|auto|]. intros v _ Hn. rewrite kron_ne by congruence. ring.
      + apply lsum_zero. intros v _. rewrite kron_ne by congruence. ring.
  Qed.
  Lemma const_Derive (c : R) : Derive (fun _ : R => c) 0 = 0.
  Proof. apply Derive_const. Qed.
  Lemma plus_const_Derive (f : R -> R) c : ex_derive f 0 -> Derive (fun t : R => f t + c) 0 = Derive f 0.
  Proof. intros Hf. rewrite (Derive_plus f (fun _ => c)); [rewrite const_Derive; ring|auto|apply ex_derive_const]. Qed.
  Lemma pos_emb_ex m P u c' i p c : in_shape sp p -> ex_derive (fun t : R => pos_emb L sp chol m (abump P (AE u c') t) i p c) 0.
  Proof.
    intros Hp. apply (ex_derive_ext (fun t => W * (if m i p then 0 else lsum (locs sp) (fun v => root p v * abump P (AE u c') t (AE v c))))); [intros; symmetry; apply pos_emb_root; auto|].
    apply (ex_derive_scal (fun t => if m i p then 0 else lsum (locs sp) (fun v => root p v * abump P (AE u c') t (AE v c)))).
    destruct (m i p); [apply ex_derive_const|]. eexists.
    apply (is_derive_lsum (locs sp) (fun v t => root p v * abump P (AE u c') t (AE v c)) (fun v => root p v * kron (AE v c) (AE u c'))). intros v _. apply (is_derive_scal (fun t => abump P (AE u c') t (AE v c))). apply bump_derive.
  Qed.
  Lemma channels_pick (a b : R) c' n : (c' < n)%nat -> lsum (seq 0 n) (fun c => (if (c =? c')%nat then a else 0) * (if (c =? c')%nat then b else 0)) = a * b.
  Proof.
    intros Hc. rewrite (lsum_single (seq 0 n) c'); [rewrite Nat.eqb_refl; reflexivity|apply seq_NoDup|apply in_seq; lia|].
    intros c _ Hn. destruct (Nat.eqb_spec c c'); [congruence|ring].
  Qed.
  Lemma slopes_sum (M1 M2 : masking) i j p q u c' n : (c' < n)%nat ->
    lsum (seq 0 n) (fun c => W * (if M1 i p then 0 else if (c =? c')%nat then root p u else 0) * (W * (if M2 j q then 0 else if (c =? c')%nat then root q u else 0)))
    = W ^ 2 * (if M1 i p || M2 j q then 0 else root p u * root q u).
  Proof.
    intros Hc. destruct (M1 i p); [cbn [orb]; rewrite lsum_zero by (intros; ring); ring|]. destruct (M2 j q); [cbn [orb]; rewrite lsum_zero by (intros; ring); ring|]. cbn [orb].
    rewrite <- (channels_pick (root p u) (root q u) c' n Hc), <- lsum_scale. apply lsum_ext; intros; ring.
  Qed.
  Lemma key_tangents P M1 M2 x y i j p q : (0 < key_channels L C)%nat -> in_shape sp p -> in_shape sp q ->
    embedding_tangents L sp C (key_channels L C) P (fun P => key_inputs L sp C chol M1 P x) (fun P => key_inputs L sp C chol M2 P y) i j p q
    = with_embedding L C M1 M2 no_covariances i j p q.
  Proof.
    intros Hch Hp Hq. unfold embedding_tangents, with_embedding, no_covariances. cbv zeta. change (match at_n_chan_pos_emb L with None => C | Some n => n end) with D. fold W.
    case_eq (at_pos_emb_type L); intros Et.
    - unfold emb_params. rewrite Et. reflexivity.
    - rewrite sum_embs by congruence. assert (Hd : emb_channels L C = C) by (first [exact (Hsum Et) | exact (Hsum eq_refl)]). fold D in Hd.
      rewrite (lsum_ext (locs sp) _ (fun u => W ^ 2 * (if M1 i p || M2 j q then 0 else root p u * root q u))).
      + rewrite lsum_scale. rewrite Rplus_0_l. f_equal. destruct (M1 i p || M2 j q); [apply lsum_zero; auto|]. apply root_cov; auto.
      + intros u Hu. rewrite (lsum_ext (seq 0 D) _ (fun _ => W ^ 2 * (if M1 i p || M2 j q then 0 else root p u * root q u) / INR C)).
        * rewrite lsum_const, seq_length, Hd. unfold key_channels in Hch. rewrite Et in Hch. field. apply not_0_INR. lia.
        * intros c' Hc'. apply in_seq in Hc'. unfold covs. unfold key_channels at 1 2. rewrite Et. apply (f_equal2 Rdiv); [|reflexivity].
          rewrite <- (slopes_sum M1 M2 i j p q u c' C) by lia. apply lsum_ext. intros c _. unfold key_inputs. rewrite Et.
          rewrite !plus_const_Derive, !pos_emb_Derive by (auto; apply pos_emb_ex; auto). reflexivity.
    - rewrite sum_embs by congruence.
      rewrite (lsum_ext (locs sp) _ (fun u => INR D * (W ^ 2 * (if M1 i p || M2 j q then 0 else root p u * root q u)) / INR (C + D))).
      + rewrite lsum_div, !lsum_scale. rewrite Rmult_0_r, Rplus_0_l. apply (f_equal2 Rdiv); [|reflexivity]. f_equal. f_equal.
        destruct (M1 i p || M2 j q); [apply lsum_zero; auto|]. apply root_cov; auto.
      + intros u Hu. rewrite (lsum_ext (seq 0 D) _ (fun _ => W ^ 2 * (if M1 i p || M2 j q then 0 else root p u * root q u) / INR (C + D))).
        * rewrite lsum_const, seq_length. unfold Rdiv. ring.
        * intros c' Hc'. apply in_seq in Hc'. unfold covs. unfold key_channels at 1 2. rewrite Et. fold D. apply (f_equal2 Rdiv); [|reflexivity].
          rewrite lsum_seq_split. rewrite (lsum_zero (seq 0 C)).
          2: { intros c Hc. apply in_seq in Hc. unfold key_inputs. rewrite Et. replace (c <? C)%nat with true by (symmetry; apply Nat.ltb_lt; lia). rewrite const_Derive. ring. }
          rewrite Rplus_0_l, <- (slopes_sum M1 M2 i j p q u c' D) by lia. apply lsum_ext. intros c _. unfold key_inputs. rewrite Et.
          replace (C + c <? C)%nat with false by (symmetry; apply Nat.ltb_ge; lia). rewrite minus_plus. rewrite !pos_emb_Derive by auto. reflexivity.
  Qed.
  Lemma val_tangents P M1 M2 x y i j p q : (0 < val_channels L C)%nat -> in_shape sp p -> in_shape sp q ->
    embedding_tangents L sp C (val_channels L C) P (fun P => val_inputs L sp C chol M1 P x) (fun P => val_inputs L sp C chol M2 P y) i j p q
    = valued L C M1 M2 no_covariances i j p q.
  Proof.
    unfold val_channels, valued. intros Hch Hp Hq. destruct (at_val_pos_emb L) eqn:Ev.
    - rewrite <- (key_tangents P M1 M2 x y i j p q Hch Hp Hq). unfold embedding_tangents, val_inputs. rewrite Ev. reflexivity.
    - unfold embedding_tangents, val_inputs. rewrite Ev. apply lsum_zero. intros a _. unfold covs. rewrite lsum_zero; [unfold Rdiv; ring|]. intros c _. rewrite const_Derive. ring.
  Qed.

  (** Masked positions of the inputs stay zero. *)
  Lemma key_inputs_zero M P x : zero_at M C x -> zero_at M (key_channels L C) (key_inputs L sp C chol M P x).
  Proof.
    intros Hx i p c Hc Hm. unfold key_inputs, key_channels, pos_emb in *. rewrite Hm. destruct (at_pos_emb_type L).
    - apply Hx; auto.
    - rewrite Hx by auto. ring.
    - destruct (c <? C)%nat eqn:Ec; [apply Nat.ltb_lt in Ec; apply Hx; auto|ring].
  Qed.
End Embedding.

Lemma apply_layer L H sp C chol M P x : attention_apply L H sp C chol M P x = layer_out L H sp C M P (key_inputs L sp C chol M P x) (val_inputs L sp C chol M P x).
Proof. reflexivity. Qed.

(** ** Masks *)
Lemma mechanism_activation m v : m <> SOFTMAX -> mechanism_fn m v = activation m v.
Proof.
  destruct m; intros Hm; try congruence; cbn; try reflexivity.
  - unfold Rabs. destruct (Rcase_abs v), (Rle_dec 0 v); lra.
  - unfold Rmax. destruct (Rle_dec 0 v), (Rle_dec v 0); lra.
Qed.

(** The weights of the network, given logits at their means. *)
Section Masks.
  Variables (L : attention) (sp : list nat) (K : loc -> loc -> R) (m : loc -> bool) (p : loc).
  Let weights := mechanism_apply L sp m (fun u => qk_scale L * K p u).
  Lemma masks_nonlinear u : at_mechanism L <> SOFTMAX -> weights u = attends L sp K m p u.
  Proof.
    intros Hm. unfold weights, mechanism_apply, attends. destruct (at_mechanism L) eqn:Em; try congruence.
    all: rewrite mechanism_activation by congruence; destruct (m u); [rewrite Rmult_0_r|]; reflexivity.
  Qed.
  Lemma softmax_weights_at s (t : loc -> R) u : at_mechanism L = SOFTMAX ->
    (forall v, In v (locs sp) -> s v = t v) -> s u = t u -> exp (s u) / lsum (locs sp) (fun v => exp (s v)) = exp (t u) / lsum (locs sp) (fun v => exp (t v)).
  Proof. intros _ Hs Hu. rewrite Hu. apply (f_equal2 Rdiv); [reflexivity|]. apply lsum_ext. intros v Hv. rewrite Hs by auto. reflexivity. Qed.
  Lemma masks_softmax u : at_mechanism L = SOFTMAX -> In u (locs sp) -> qk_scale L = 1 \/ (forall v, In v (locs sp) -> m v = false) -> weights u = attends L sp K m p u.
  Proof.
    intros Hm Hu Hq. unfold weights, mechanism_apply, attends. rewrite Hm.
    assert (Q : forall v, In v (locs sp) -> (if m v then NEG_INF else qk_scale L * K p v) = qk_scale L * (if m v then minus_infinity else K p v)).
    { intros v Hv. destruct Hq as [Hq|Hq]; [rewrite Hq; destruct (m v); unfold minus_infinity, NEG_INF; ring|]. rewrite (Hq v Hv). reflexivity. }
    apply (softmax_weights_at (fun v => if m v then NEG_INF else qk_scale L * K p v) (fun v => qk_scale L * (if m v then minus_infinity else K p v))); auto.
  Qed.
  (** Weights of masked positions, next to one that is not. *)
  Lemma softmax_small (s : loc -> R) u v : In u (locs sp) -> In v (locs sp) -> exp (s u) / lsum (locs sp) (fun u => exp (s u)) <= exp (s u - s v).
  Proof.
    intros Hu Hv. assert (Hle : exp (s v) <= lsum (locs sp) (fun u => exp (s u))).
    { clear Hu. induction (locs sp) as [|a l IH]; [destruct Hv|]. cbn. assert (Hp : 0 <= lsum l (fun u => exp (s u))).
      { clear. induction l as [|b l IH]; cbn; [lra|]. pose proof (exp_pos (s b)). lra. }
      destruct Hv as [->|Hv]; [lra|]. pose proof (exp_pos (s a)). specialize (IH Hv). lra. }
    pose proof (exp_pos (s v)). pose proof (exp_pos (s u)). unfold Rminus. rewrite exp_plus, exp_Ropp. unfold Rdiv. apply Rmult_le_compat_l; [lra|]. apply Rinv_le_contravar; lra.
  Qed.
  Lemma masked_small u v : at_mechanism L = SOFTMAX -> In u (locs sp) -> In v (locs sp) -> m u = true -> m v = false ->
    weights u <= exp (- 10 ^ 20 - qk_scale L * K p v) /\ attends L sp K m p u <= exp (qk_scale L * (- 10 ^ 20 - K p v)).
  Proof.
    intros Hm Hu Hv Mu Mv. split.
    - unfold weights, mechanism_apply. rewrite Hm. eapply Rle_trans; [apply (softmax_small (fun v => if m v then NEG_INF else qk_scale L * K p v) u v Hu Hv)|].
      cbv beta. rewrite Mu, Mv. right. f_equal. unfold NEG_INF. lra.
    - unfold attends. rewrite Hm. eapply Rle_trans; [apply (softmax_small (fun v => qk_scale L * (if m v then minus_infinity else K p v)) u v Hu Hv)|].
      cbv beta. rewrite Mu, Mv. right. f_equal. unfold minus_infinity. ring.
  Qed.
End Masks.
