(** Standard and NTK parameterizations. *)
From Coq Require Import List Arith Lia Bool Reals Lra.
From Coquelicot Require Import Coquelicot.
From Verif Require Import Base Model_Req Model_Geom Model_Net Model_Finite Spec_Geom Spec_Predict Spec_Finite Proof_Geom Proof_Net Proof_Diag Proof_Finite Proof_Finite2 Proof_Finite3.
Import ListNotations.
Local Open Scope R_scope.

(** The same draws give the same outputs. *)
Lemma dense_same_outputs ch W b s0 z x i p o : (0 < ch)%nat -> 0 < s0 ->
  dense_apply ch W b (Some s0) (dense_init ch W b (Some s0) z) x i p o = dense_apply ch W b None (dense_init ch W b None z) x i p o.
Proof.
  intros Hch Hs. unfold dense_apply, dense_init. cbv zeta. pose proof (lt_0_INR ch Hch) as Hc.
  assert (0 < sqrt (INR ch)) by (apply sqrt_lt_R0; auto). assert (0 < sqrt s0) by (apply sqrt_lt_R0; auto).
  f_equal; [|destruct b; ring].
  rewrite <- lsum_scale, <- lsum_div. apply lsum_ext; intros c _. rewrite sqrt_div by lra. field. lra.
Qed.
Lemma conv_same_outputs shared ch g sp W b s0 z x i p o : (0 < ch)%nat -> geom_fits g sp -> 0 < s0 ->
  conv_apply shared ch g sp W b (Some s0) (conv_init ch g W b (Some s0) z) x i p o
  = conv_apply shared ch g sp W b None (conv_init ch g W b None z) x i p o.
Proof.
  intros Hch Hg Hs. unfold conv_apply, conv_init. cbv zeta. pose proof (lt_0_INR _ (fan_pos g sp Hg ch Hch)) as Hc.
  assert (0 < sqrt (INR (fan_in_of ch g))) by (apply sqrt_lt_R0; auto). assert (0 < sqrt s0) by (apply sqrt_lt_R0; auto).
  f_equal; [|destruct b; ring].
  rewrite <- !lsum_scale. apply lsum_ext; intros k _. rewrite <- !lsum_scale. apply lsum_ext; intros c _. rewrite sqrt_div by lra. field. lra.
Qed.

(** ** Networks *)
Lemma layer_req_ntk l : layer_req (ntk_layer l) = layer_req l.
Proof. destruct l; reflexivity. Qed.
Lemma net_req_ntk t : net_req (ntk_net t) = net_req t.
Proof.
  induction t as [l|ts IH|f ts IH] using net_ind'; cbn [ntk_net net_req]; [apply layer_req_ntk| |];
    rewrite map_map; f_equal; apply map_ext_Forall; exact IH.
Qed.
Lemma same_refl k : same_but_ntk k k.
Proof. unfold same_but_ntk. intuition. Qed.

Lemma same_refused r k k' : same_but_ntk k k' -> refused r k = refused r k'.
Proof. intros (_ & _ & _ & _ & _ & _ & _ & _ & H & _). unfold refused. rewrite H. reflexivity. Qed.

Lemma none_iff_map {A B} (f g : A -> B) (o o' : option A) : (o = None <-> o' = None) -> (option_map f o = None <-> option_map g o' = None).
Proof. destruct o, o'; cbn; intros [H1 H2]; split; intros; try discriminate; auto; try (specialize (H1 eq_refl); discriminate); specialize (H2 eq_refl); discriminate. Qed.

Ltac same_parts :=
  repeat match goal with
  | |- _ /\ _ => split
  | |- _ <-> _ => idtac
  | |- _ = _ => reflexivity
  end.

Lemma same_layer l k k' : same_but_ntk k k' -> rres same_but_ntk (layer_fn l k) (layer_fn (ntk_layer l) k').
Proof.
  intros H. pose proof H as (H1 & H2 & H3 & H4 & H5 & H6 & H7 & H8 & H9 & H10 & H11 & H12).
  destruct l as [|width W b std|shared g width W b std|avg ne g|avg| |nl|eps over|rate]; cbn [ntk_layer layer_fn].
  - exact H.
  - unfold rres, same_but_ntk, replace; cbn [s_n1 s_n2 s_sp s_ch s_cov1 s_cov2 s_nngp s_ntk s_db s_ds s_same s_gauss].
    rewrite H1, H2, H3, H5, H6, H7, H8, H9, H10. same_parts. destruct std; apply none_iff_map; auto.
  - rewrite H3, H9. destruct (geom_ok g (s_sp k')); [|reflexivity].
    unfold rres, same_but_ntk, replace; cbn [s_n1 s_n2 s_sp s_ch s_cov1 s_cov2 s_nngp s_ntk s_db s_ds s_same s_gauss].
    rewrite H1, H2, H5, H6, H7, H8, H10. same_parts. destruct std; apply none_iff_map; auto.
  - rewrite H3, H9. destruct (geom_ok g (s_sp k')); [|reflexivity].
    unfold rres, same_but_ntk, replace; cbn [s_n1 s_n2 s_sp s_ch s_cov1 s_cov2 s_nngp s_ntk s_db s_ds s_same s_gauss].
    rewrite H1, H2, H4, H5, H6, H7, H8, H10, H11. same_parts. apply none_iff_map; auto.
  - rewrite H3, H9.
    unfold rres, same_but_ntk, replace; cbn [s_n1 s_n2 s_sp s_ch s_cov1 s_cov2 s_nngp s_ntk s_db s_ds s_same s_gauss].
    rewrite H1, H2, H4, H5, H6, H7, H8, H10, H11. same_parts. apply none_iff_map; auto.
  - rewrite H3, H9.
    unfold rres, same_but_ntk, replace; cbn [s_n1 s_n2 s_sp s_ch s_cov1 s_cov2 s_nngp s_ntk s_db s_ds s_same s_gauss].
    rewrite H1, H2, H4, H5, H6, H7, H8, H10. same_parts. apply none_iff_map; auto.
  - rewrite H11. destruct (s_gauss k'); [|reflexivity].
    assert (Hc : k_cov2 k = k_cov2 k') by (unfold k_cov2; rewrite H5, H6; reflexivity).
    unfold rres, same_but_ntk, replace; cbn [s_n1 s_n2 s_sp s_ch s_cov1 s_cov2 s_nngp s_ntk s_db s_ds s_same s_gauss].
    rewrite H1, H2, H3, H4, H5, H6, H7, H8, H9, H10, Hc. same_parts. apply none_iff_map; auto.
  - rewrite H11. destruct (s_gauss k'); [|reflexivity].
    assert (Hc : k_cov2 k = k_cov2 k') by (unfold k_cov2; rewrite H5, H6; reflexivity).
    unfold rres, same_but_ntk, replace; cbn [s_n1 s_n2 s_sp s_ch s_cov1 s_cov2 s_nngp s_ntk s_db s_ds s_same s_gauss].
    rewrite H1, H2, H3, H4, H5, H6, H7, H8, H9, H10, Hc. same_parts. apply none_iff_map; auto.
  - unfold rres, same_but_ntk, replace; cbn [s_n1 s_n2 s_sp s_ch s_cov1 s_cov2 s_nngp s_ntk s_db s_ds s_same s_gauss].
    rewrite H1, H2, H3, H4, H5, H6, H7, H8, H9, H10. same_parts. apply none_iff_map; auto.
Qed.

Lemma all_some_none {A} (l l' : list (option A)) : Forall2 (fun o o' => o = None <-> o' = None) l l' ->
  (all_some l = None <-> all_some l' = None).
Proof.
  induction 1 as [|o o' l l' H _ IH]; cbn; [tauto|]. destruct o, o'; [apply none_iff_map; auto| | |tauto].
  - destruct H as [_ H]. specialize (H eq_refl). discriminate.
  - destruct H as [H _]. specialize (H eq_refl). discriminate.
Qed.
Lemma mixed_none {A} (l l' : list (option A)) : Forall2 (fun o o' => o = None <-> o' = None) l l' -> mixed l = mixed l'.
Proof.
  intros H. destruct H as [|o o' l l' H Hl]; [reflexivity|]. cbn.
  assert (Hx : existsb (fun o => match o with None => true | _ => false end) l = existsb (fun o => match o with None => true | _ => false end) l').
  { induction Hl as [|a a' l l' Ha _ IH]; [reflexivity|]. cbn. rewrite IH. f_equal. destruct a, a'; auto.
    - destruct Ha as [_ Ha]. specialize (Ha eq_refl). discriminate.
    - destruct Ha as [Ha _]. specialize (Ha eq_refl). discriminate. }
  destruct o, o'; auto.
  - destruct H as [_ H]. specialize (H eq_refl). discriminate.
  - destruct H as [H _]. specialize (H eq_refl). discriminate.
Qed.

Lemma same_maps ks ks' : Forall2 same_but_ntk ks ks' ->
  map s_n1 ks = map s_n1 ks' /\ map s_n2 ks = map s_n2 ks' /\ map s_sp ks = map s_sp ks' /\ map s_ch ks = map s_ch ks'
  /\ map s_cov1 ks = map s_cov1 ks' /\ map s_cov2 ks = map s_cov2 ks' /\ map s_nngp ks = map s_nngp ks'
  /\ map s_db ks = map s_db ks' /\ map s_ds ks = map s_ds ks' /\ map s_gauss ks = map s_gauss ks'
  /\ Forall2 (fun o o' => o = None <-> o' = None) (map s_ntk ks) (map s_ntk ks').
Proof.
  induction 1 as [|k k' ks ks' H _ IH]; [repeat split; auto; constructor|].
  destruct H as (H1 & H2 & H3 & H4 & H5 & H6 & H7 & H8 & H9 & H10 & H11 & H12).
  destruct IH as (I1 & I2 & I3 & I4 & I5 & I6 & I7 & I8 & I9 & I10 & I11). cbn [map].
  rewrite H1, H2, H3, H4, H5, H6, H7, H8, H9, H11, I1, I2, I3, I4, I5, I6, I7, I8, I9, I10. repeat (split; [reflexivity|]). constructor; auto.
Qed.

Lemma forallb_same {A B} (f : A -> B) (P : B -> bool) (Q : A -> bool) l l' : (forall a, Q a = P (f a)) -> map f l = map f l' -> forallb Q l = forallb Q l'.
Proof.
  intros HQ. revert l'. induction l as [|a l IH]; intros [|a' l'] H; try discriminate; [reflexivity|]. cbn in *. injection H as Ha Hl. rewrite !HQ, Ha, (IH l' Hl). reflexivity.
Qed.

Lemma same_fan f ks ks' : Forall2 same_but_ntk ks ks' -> rres same_but_ntk (fan_in f ks) (fan_in f ks').
Proof.
  intros H. pose proof (same_maps _ _ H) as (M1 & M2 & M3 & M4 & M5 & M6 & M7 & M8 & M9 & M10 & M11).
  destruct H as [|k k' ks ks' H Hs]; [reflexivity|].
  pose proof H as (H1 & H2 & H3 & H4 & H5 & H6 & H7 & H8 & H9 & H10 & H11 & H12).
  pose proof (same_maps _ _ Hs) as (N1 & N2 & N3 & N4 & N5 & N6 & N7 & N8 & N9 & N10 & N11).
  assert (C : fan_check f (k :: ks) = fan_check f (k' :: ks')).
  { unfold fan_check.
    assert (E1 : forallb (fun a => same_layout a k) ks = forallb (fun a => same_layout a k') ks').
    { clear - Hs H8 H9. induction Hs as [|a a' ks ks' Ha _ IH]; [reflexivity|]. cbn [forallb]. rewrite IH. f_equal. unfold same_layout.
      destruct Ha as (A1 & A2 & A3 & A4 & A5 & A6 & A7 & A8 & A9 & A10 & A11 & A12). rewrite A8, A9, H8, H9. reflexivity. }
    assert (E2 : forallb (fun a => same_batch a k) ks = forallb (fun a => same_batch a k') ks').
    { clear - Hs H1 H2 H3. induction Hs as [|a a' ks ks' Ha _ IH]; [reflexivity|]. cbn [forallb]. rewrite IH. f_equal. unfold same_batch.
      destruct Ha as (A1 & A2 & A3 & A4 & A5 & A6 & A7 & A8 & A9 & A10 & A11 & A12). rewrite A1, A2, A3, H1, H2, H3. reflexivity. }
    assert (E3 : forallb (fun a => s_ch a =? s_ch k)%nat ks = forallb (fun a => s_ch a =? s_ch k')%nat ks').
    { rewrite H4. apply (forallb_same s_ch (fun c => c =? s_ch k')%nat); auto. }
    assert (E4 : forallb s_gauss (k :: ks) = forallb s_gauss (k' :: ks')) by (apply (forallb_same s_gauss (fun b => b)); auto).
    assert (E5 : length (k :: ks) = length (k' :: ks')) by (cbn; f_equal; eapply Forall2_length; eauto).
    rewrite E1, E2, E3, E4, E5, M6, (mixed_none _ _ M11). reflexivity. }
  unfold fan_in. rewrite C. destruct (fan_check f (k' :: ks')); [reflexivity|].
  unfold rres, same_but_ntk, fan_value, replace; cbn [s_n1 s_n2 s_sp s_ch s_cov1 s_cov2 s_nngp s_ntk s_db s_ds s_same s_gauss].
  rewrite M4, M5, M6, M7, H1, H2, H3, H4, H8, H9, H10.
  assert (E4 : forallb s_gauss (k :: ks) = forallb s_gauss (k' :: ks')) by (apply (forallb_same s_gauss (fun b => b)); auto).
  assert (E5 : length (k :: ks) = length (k' :: ks')) by (cbn; f_equal; eapply Forall2_length; eauto).
  rewrite E4, E5, H11. same_parts. apply none_iff_map, all_some_none. exact M11.
Qed.

Lemma same_eval t k k' : same_but_ntk k k' -> rres same_but_ntk (eval t k) (eval (ntk_net t) k').
Proof.
  revert k k'. induction t as [l|ts IH|f ts IH] using net_ind'; intros k k' H.
  - cbn [ntk_net]. rewrite !eval_Leaf, layer_req_ntk, (same_refused _ _ _ H). destruct (refused _ _); [reflexivity|]. apply same_layer; auto.
  - pose proof (net_req_ntk (Seq ts)) as Hr. cbn [ntk_net] in *. rewrite !eval_Seq, Hr, (same_refused _ _ _ H).
    destruct (refused _ _); [reflexivity|]. clear Hr. revert k k' H. induction IH as [|t ts Ht _ IHts]; intros k k' H; [exact H|].
    cbn [map eval_seq]. apply (rres_bind same_but_ntk); auto.
  - pose proof (net_req_ntk (Par f ts)) as Hr. cbn [ntk_net] in *. rewrite !eval_Par, Hr, (same_refused _ _ _ H).
    destruct (refused _ _); [reflexivity|]. clear Hr. apply (rres_bind (Forall2 same_but_ntk)); [|intros; apply same_fan; auto].
    induction IH as [|t ts Ht _ IHts]; [constructor|]. cbn [map eval_par]. apply (rres_bind same_but_ntk); auto.
    intros a b Hab. apply (rres_rmap (Forall2 same_but_ntk)); auto.
Qed.

(** ** The tangent kernel of a sequence of dense layers and nonlinearities *)
Lemma eval_layers ls k k' : eval (Seq (map Leaf ls)) k = Ok k' -> eval_seq (map Leaf ls) k = Ok k'.
Proof. rewrite eval_Seq. destruct (refused _ _); [discriminate|auto]. Qed.
Lemma eval_seq_layer l ls k k' : eval_seq (map Leaf (l :: ls)) k = Ok k' -> exists k1, layer_fn l k = Ok k1 /\ eval_seq (map Leaf ls) k1 = Ok k'.
Proof.
  cbn [map eval_seq]. rewrite eval_Leaf. destruct (refused _ _); [discriminate|]. destruct (layer_fn l k) as [k1|]; [|discriminate]. cbn [bind]. eauto.
Qed.

Lemma combination ls k0 k k' t t' bi s :
  List.Forall dense_or_nonlin ls -> same_but_ntk k k0 -> eval_seq (map Leaf ls) k = Ok k' -> s_ntk k = Some t -> s_ntk k' = Some t' ->
  let L := received (map ntk_layer ls) k0 in
  t' bi s = t bi s * product (map (fun lk => carried (fst lk) (snd lk) bi s) L)
            + lsum (seq 0 (length ls)) (fun n =>
                let l := nth n ls LIdent in
                let lk := nth n L (LIdent, k0) in
                (weight_rate l (s_ch (snd lk)) * weight_part (fst lk) (snd lk) bi s + bias_rate l * bias_part (fst lk))
                * product (map (fun lk => carried (fst lk) (snd lk) bi s) (skipn (S n) L))).
Proof.
  intros Hls. revert k0 k t. induction Hls as [|l ls Hl _ IH]; intros k0 k t Hs Hev Ht Ht'.
  - cbn [map eval_seq] in Hev. injection Hev as <-. cbn. rewrite Ht in Ht'. injection Ht' as <-. lra.
  - apply eval_seq_layer in Hev. destruct Hev as (k1 & Hl1 & Hev).
    pose proof (same_layer l k k0 Hs) as Hsl. rewrite Hl1 in Hsl.
    cbn [map received]. destruct (layer_fn (ntk_layer l) k0) as [k2|] eqn:E2; [|contradiction]. cbn [rres] in Hsl.
    destruct (s_ntk k1) as [t1|] eqn:Et1.
    2:{ exfalso. destruct l; try contradiction.
        - cbn [layer_fn] in Hl1. injection Hl1 as <-. cbn [s_ntk replace] in Et1. rewrite Ht in Et1. destruct std; discriminate.
        - cbn [layer_fn] in Hl1. destruct (s_gauss k); [|discriminate]. injection Hl1 as <-. cbn [s_ntk replace] in Et1. rewrite Ht in Et1. discriminate. }
    specialize (IH k2 k1 t1 Hsl Hev Et1 Ht'). cbv zeta in IH.
    cbv zeta. cbn [length seq lsum]. rewrite <- seq_shift, lsum_map. cbn [nth skipn map fst snd].
    assert (S1 : t1 bi s = t bi s * carried (ntk_layer l) k0 bi s
                 + (weight_rate l (s_ch k0) * weight_part (ntk_layer l) k0 bi s + bias_rate l * bias_part (ntk_layer l))).
    { destruct Hs as (H1 & H2 & H3 & H4 & H5 & H6 & H7 & H8 & H9 & H10 & H11 & H12).
      destruct l as [|width W b std| | | | |nl| |]; try contradiction.
      - cbn [layer_fn] in Hl1. injection Hl1 as <-. cbn [s_ntk replace] in Et1. rewrite Ht in Et1.
        destruct Hl as (HW & Hb & Hstd). cbn [ntk_layer carried weight_rate weight_part bias_rate bias_part].
        destruct std as [s0|]; cbn [omap option_map] in Et1; injection Et1 as <-; unfold affine; rewrite H7, ?H4; destruct b; cbn; field; repeat split; lra.
      - cbn [layer_fn] in Hl1. destruct (s_gauss k); [|discriminate]. injection Hl1 as <-. cbn [s_ntk replace] in Et1. rewrite Ht in Et1. cbn [omap option_map] in Et1. injection Et1 as <-.
        cbn [ntk_layer carried weight_rate weight_part bias_rate bias_part].
        assert (Hc : k_cov2 k = k_cov2 k0) by (unfold k_cov2; rewrite H5, H6; reflexivity). rewrite H5, H7, H8, H9, Hc. lra. }
    rewrite IH, S1. set (L := received (map ntk_layer ls) k2) in *. cbn [product map fold_right fst snd].
    change (fold_right Rmult 1 (map (fun lk => carried (fst lk) (snd lk) bi s) L)) with (product (map (fun lk => carried (fst lk) (snd lk) bi s) L)).
    rewrite Rmult_plus_distr_r, Rplus_assoc. f_equal; [ring|]. f_equal. apply lsum_ext; intros n Hn. apply in_seq in Hn.
    destruct (Nat.lt_ge_cases n (length L)) as [Hlt|Hge].
    + rewrite (nth_indep L (LIdent, k2) (LIdent, k0)) by auto. reflexivity.
    + rewrite !(nth_overflow L) by auto. cbn [fst snd weight_part bias_part]. ring.
Qed.
