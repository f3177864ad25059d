(** Padding does not change kernels (C43). *)
From Coq Require Import List Arith Lia Bool Reals Lra Permutation.
From Verif Require Import Base Model_Geom Spec_Geom Proof_Geom Model_Net Proof_Net Model_MaskNet Spec_MaskNet Proof_MaskStats.
Import ListNotations.
Local Open Scope R_scope.

Definition self (db : bool) (i : nat) : list nat := if db then [i] else [i; i].

Lemma hd_self db i : hd 0%nat (self db i) = i. Proof. destruct db; reflexivity. Qed.
Lemma last_self db i : last (self db i) 0%nat = i. Proof. destruct db; reflexivity. Qed.

Section Pair.
Variables (i j : nat) (m1 m2 : pmask).

(** The entries of the pair [(i, j)] of the batch, between the positions [ps1], [ps2]. *)
Definition agrees (ps1 ps2 : list loc) (k : sk) (s : pk) : Prop :=
  s_ds k = false /\ s_ch k = p_ch s
  /\ (forall a a', (a < length ps1)%nat -> (a' < length ps1)%nat ->
        s_cov1 k (self (s_db k) i) [nth a ps1 []; nth a' ps1 []] = p_c1 s a a')
  /\ (forall a a', (a < length ps2)%nat -> (a' < length ps2)%nat ->
        k_cov2 k (self (s_db k) j) [nth a ps2 []; nth a' ps2 []] = p_c2 s a a')
  /\ (forall a a', (a < length ps1)%nat -> (a' < length ps2)%nat ->
        s_nngp k [i; j] [nth a ps1 []; nth a' ps2 []] = p_k s a a')
  /\ (forall t, s_ntk k = Some t -> forall a a', (a < length ps1)%nat -> (a' < length ps2)%nat ->
        t [i; j] [nth a ps1 []; nth a' ps2 []] = p_t s a a').

Definition uncovered (ps1 ps2 : list loc) : Prop :=
  (forall a, (a < length ps1)%nat -> m1 i (nth a ps1 []) = false)
  /\ (forall a, (a < length ps2)%nat -> m2 j (nth a ps2 []) = false).

(** Without a second input the masks are the same. *)
Definition same_masks (k : sk) : Prop := s_cov2 k = None -> m2 = m1.

Lemma k_cov2_omap k (f : cov -> cov) (c1 : cov) : c1 = f (s_cov1 k) ->
  match omap f (s_cov2 k) with Some c => c | None => c1 end = f (k_cov2 k).
Proof. intros ->. unfold k_cov2, omap. destruct (s_cov2 k); reflexivity. Qed.

Ltac cov2 k f := unfold k_cov2 at 1; cbn [replace s_cov2 s_cov1]; rewrite (k_cov2_omap k f _ eq_refl).

Lemma layer_agrees ps1 ps2 l k k' s s' : layer_fn l k = Ok k' -> pair_layer l s = Some s' ->
  agrees ps1 ps2 k s -> agrees ps1 ps2 k' s' /\ s_db k' = s_db k /\ (s_cov2 k' = None -> s_cov2 k = None).
Proof.
  intros F G (Hds & Hch & H1 & H2 & H12 & Ht).
  destruct l as [ | width W b std | | | | | nl | eps over | ]; cbn [layer_fn pair_layer] in F, G; cbv zeta in F, G;
    try discriminate.
  - injection F as <-. injection G as <-. repeat split; auto.
  - injection F as <-. injection G as <-. split; [|split; [reflexivity|]].
    + unfold agrees. cbn [replace s_ds s_ch s_db s_cov1 s_nngp s_ntk k_cov2 s_cov2 p_ch p_c1 p_c2 p_k p_t].
      split; [exact Hds|]. split; [reflexivity|]. split; [|split; [|split]].
      * intros a a' L L'. unfold affine. rewrite H1 by assumption. reflexivity.
      * intros a a' L L'. cov2 k (affine W b). unfold affine.
        rewrite H2 by assumption. reflexivity.
      * intros a a' L L'. unfold affine. rewrite H12 by assumption. reflexivity.
      * intros t E a a' L L'. destruct std as [s0|]; unfold omap in E; destruct (s_ntk k) as [t0|]; cbn in E;
          try discriminate; injection E as <-; unfold affine;
          rewrite (Ht t0 eq_refl) by assumption; rewrite H12 by assumption; rewrite <- ?Hch; destruct b; reflexivity.
    + cbn. destruct (s_cov2 k); [discriminate|auto].
  - destruct (s_gauss k); [|discriminate]. injection F as <-. injection G as <-.
    split; [|split; [reflexivity|]].
    + unfold agrees. cbn [replace s_ds s_ch s_db s_cov1 s_nngp s_ntk k_cov2 s_cov2 p_ch p_c1 p_c2 p_k p_t].
      rewrite Hds, andb_false_r.
      split; [reflexivity|]. split; [exact Hch|]. split; [|split; [|split]].
      * intros a a' L L'. unfold with_vars, dvar. rewrite hd_self, last_self. cbn [hd last].
        fold (self (s_db k) i). rewrite !H1 by assumption. reflexivity.
      * intros a a' L L'.
        unfold k_cov2 in H2 |- *. cbn [replace s_cov2 s_cov1].
        destruct (s_cov2 k) as [c2|]; cbn [omap option_map]; rewrite ?Hds, ?andb_false_r;
          unfold with_vars, dvar; rewrite hd_self, last_self; cbn [hd last];
          fold (self (s_db k) j); rewrite !H2 by assumption; reflexivity.
      * intros a a' L L'. unfold with_vars, dvar. cbn [hd last].
        fold (self (s_db k) i). fold (self (s_db k) j).
        rewrite H12, H1, H2 by assumption. reflexivity.
      * intros t E a a' L L'. destruct (s_ntk k) as [t0|]; cbn in E; [|discriminate]. injection E as <-.
        unfold with_vars, dvar. cbn [hd last].
        fold (self (s_db k) i). fold (self (s_db k) j).
        rewrite (Ht t0 eq_refl), H12, H1, H2 by assumption. reflexivity.
    + cbn. destruct (s_cov2 k); [discriminate|auto].
  - destruct over as [|]; [|discriminate].
    destruct (s_gauss k); [|discriminate]. injection F as <-. injection G as <-.
    split; [|split; [reflexivity|]].
    + unfold agrees. cbn [replace s_ds s_ch s_db s_cov1 s_nngp s_ntk k_cov2 s_cov2 p_ch p_c1 p_c2 p_k p_t].
      rewrite Hds.
      split; [reflexivity|]. split; [exact Hch|]. split; [|split; [|split]].
      * intros a a' L L'. unfold layer_norm. rewrite !ln_var_channels, hd_self, last_self. cbn [hd last]. unfold dvar.
        fold (self (s_db k) i). rewrite !H1 by assumption. reflexivity.
      * intros a a' L L'.
        unfold k_cov2 in H2 |- *. cbn [replace s_cov2 s_cov1].
        destruct (s_cov2 k) as [c2|]; cbn [omap option_map];
          unfold layer_norm; rewrite !ln_var_channels, hd_self, last_self; cbn [hd last]; unfold dvar; rewrite ?Hds;
          fold (self (s_db k) j); rewrite !H2 by assumption; reflexivity.
      * intros a a' L L'. unfold layer_norm. rewrite !ln_var_channels. cbn [hd last]. unfold dvar.
        fold (self (s_db k) i). fold (self (s_db k) j).
        rewrite H12, H1, H2 by assumption. reflexivity.
      * intros t E a a' L L'. destruct (s_ntk k) as [t0|]; cbn in E; [|discriminate]. injection E as <-.
        unfold layer_norm. rewrite !ln_var_channels. cbn [hd last]. unfold dvar.
        fold (self (s_db k) i). fold (self (s_db k) j).
        rewrite (Ht t0 eq_refl), H1, H2 by assumption. reflexivity.
    + cbn. destruct (s_cov2 k); [discriminate|auto].
Qed.

Lemma mask_cov_at ma mb (x : cov) bi s : mask_prod ma mb bi s = false -> mask_cov ma mb x bi s = x bi s.
Proof. unfold mask_cov. intros ->. reflexivity. Qed.

Lemma remask_cov2 k : same_masks k ->
  forall bi s, k_cov2 (remask m1 m2 k) bi s = mask_cov m2 m2 (k_cov2 k) bi s.
Proof.
  intros S bi s. unfold remask, k_cov2. cbn [s_cov2 replace s_cov1]. destruct (s_cov2 k) eqn:E; [reflexivity|].
  cbn. rewrite (S E). reflexivity.
Qed.

Lemma remask_agrees ps1 ps2 k s : uncovered ps1 ps2 -> same_masks k ->
  agrees ps1 ps2 k s -> agrees ps1 ps2 (remask m1 m2 k) s.
Proof.
  intros (U1 & U2) S (Hds & Hch & H1 & H2 & H12 & Ht). split; [exact Hds|]. split; [exact Hch|].
  split; [|split; [|split]].
  - intros a a' L L'. cbn [remask s_cov1 s_db replace]. rewrite mask_cov_at; [auto|].
    unfold mask_prod. rewrite hd_self, last_self. cbn [hd last]. rewrite !U1 by assumption. reflexivity.
  - intros a a' L L'. rewrite (remask_cov2 k S). cbn [remask s_db replace]. rewrite mask_cov_at; [auto|].
    unfold mask_prod. rewrite hd_self, last_self. cbn [hd last]. rewrite !U2 by assumption. reflexivity.
  - intros a a' L L'. cbn [remask s_nngp s_db replace]. rewrite mask_cov_at; [auto|].
    unfold mask_prod. cbn [hd last]. rewrite U1, U2 by assumption. reflexivity.
  - intros t E a a' L L'. cbn [remask s_ntk replace] in E. destruct (s_ntk k) as [t0|]; cbn in E; [|discriminate].
    injection E as <-. rewrite mask_cov_at; [auto|].
    unfold mask_prod. cbn [hd last]. rewrite U1, U2 by assumption. reflexivity.
Qed.

(** Entries of masked positions are zero. *)
Definition zeros (k : sk) : Prop :=
  s_ds k = false
  /\ (forall p q, m1 i p || m1 i q = true -> s_cov1 k (self (s_db k) i) [p; q] = 0)
  /\ (forall p q, m2 j p || m2 j q = true -> k_cov2 k (self (s_db k) j) [p; q] = 0)
  /\ (forall p q, m1 i p || m2 j q = true -> s_nngp k [i; j] [p; q] = 0)
  /\ (forall t, s_ntk k = Some t -> forall p q, m1 i p || m2 j q = true -> t [i; j] [p; q] = 0).

Lemma remask_zeros k : same_masks k -> s_ds k = false -> zeros (remask m1 m2 k).
Proof.
  intros S D. split; [exact D|]. split; [|split; [|split]].
  - intros p q M. cbn [remask s_cov1 s_db replace]. unfold mask_cov, mask_prod.
    rewrite hd_self, last_self. cbn [hd last]. rewrite M. reflexivity.
  - intros p q M. rewrite (remask_cov2 k S). cbn [remask s_db replace]. unfold mask_cov, mask_prod.
    rewrite hd_self, last_self. cbn [hd last]. rewrite M. reflexivity.
  - intros p q M. cbn [remask s_nngp s_db replace]. unfold mask_cov, mask_prod. cbn [hd last]. rewrite M. reflexivity.
  - intros t E p q M. cbn [remask s_ntk replace] in E. destruct (s_ntk k) as [t0|]; cbn in E; [|discriminate].
    injection E as <-. unfold mask_cov, mask_prod. cbn [hd last]. rewrite M. reflexivity.
Qed.

Lemma layer_ds l k k' s s' : layer_fn l k = Ok k' -> pair_layer l s = Some s' -> s_ds k' = s_ds k.
Proof.
  intros F G. destruct l as [ | | | | | | nl | eps over | ]; cbn [layer_fn pair_layer] in F, G; cbv zeta in F, G;
    try discriminate; try (injection F as <-; reflexivity); destruct (s_gauss k); try discriminate;
    injection F as <-; reflexivity.
Qed.

Lemma layer_zeros l k k' s s' : layer_fn (ml_layer l) k = Ok k' -> pair_layer (ml_layer l) s = Some s' ->
  keeps_zeros l -> ml_remask l = false -> zeros k -> zeros k'.
Proof.
  intros F G [K|K] R (D & Z1 & Z2 & Z12 & Zt); [congruence|].
  destruct l as [l rm]. cbn [ml_layer ml_remask] in *.
  assert (forall p, m1 i p = true -> s_cov1 k (self (s_db k) i) [p; p] = 0) as V1
    by (intros p M; apply Z1; rewrite M; reflexivity).
  assert (forall p, m2 j p = true -> k_cov2 k (self (s_db k) j) [p; p] = 0) as V2
    by (intros p M; apply Z2; rewrite M; reflexivity).
  destruct l as [ | | | | | | nl | eps over | ]; cbn [layer_fn pair_layer] in F, G; cbv zeta in F, G;
    try discriminate; try contradiction.
  - injection F as <-. repeat split; auto.
  - destruct (s_gauss k); [|discriminate]. injection F as <-.
    unfold zeros. cbn [replace s_ds s_ch s_db s_cov1 s_nngp s_ntk k_cov2 s_cov2].
    rewrite D, andb_false_r. split; [reflexivity|]. split; [|split; [|split]].
    + intros p q M. unfold with_vars, dvar. rewrite hd_self, last_self. cbn [hd last]. fold (self (s_db k) i).
      rewrite (Z1 p q M). apply K. apply orb_prop in M. destruct M as [M|M]; [left|right]; auto.
    + intros p q M.
      unfold k_cov2 in Z2, V2 |- *. cbn [replace s_cov2 s_cov1].
      destruct (s_cov2 k) as [c2|]; cbn [omap option_map]; rewrite ?D, ?andb_false_r;
        unfold with_vars, dvar; rewrite hd_self, last_self; cbn [hd last]; fold (self (s_db k) j);
        rewrite (Z2 p q M); apply K; apply orb_prop in M; destruct M as [M|M]; [left|right|left|right]; auto.
    + intros p q M. unfold with_vars, dvar. cbn [hd last]. fold (self (s_db k) i). fold (self (s_db k) j).
      rewrite (Z12 p q M). apply K. apply orb_prop in M. destruct M as [M|M]; [left|right]; auto.
    + intros t E p q M. destruct (s_ntk k) as [t0|]; cbn in E; [|discriminate]. injection E as <-.
      rewrite (Zt t0 eq_refl p q M). ring.
  - destruct over as [|]; [|contradiction]. destruct (s_gauss k); [|discriminate]. injection F as <-.
    unfold zeros. cbn [replace s_ds s_ch s_db s_cov1 s_nngp s_ntk k_cov2 s_cov2].
    rewrite D. split; [reflexivity|]. split; [|split; [|split]].
    + intros p q M. unfold layer_norm, Rdiv. rewrite (Z1 p q M). ring.
    + intros p q M.
      unfold k_cov2 in Z2 |- *. cbn [replace s_cov2 s_cov1].
      destruct (s_cov2 k) as [c2|]; cbn [omap option_map]; unfold layer_norm, Rdiv; rewrite (Z2 p q M); ring.
    + intros p q M. unfold layer_norm, Rdiv. rewrite (Z12 p q M). ring.
    + intros t E p q M. destruct (s_ntk k) as [t0|]; cbn in E; [|discriminate]. injection E as <-.
      unfold layer_norm, Rdiv. rewrite (Zt t0 eq_refl p q M). ring.
Qed.

Lemma mserial_agrees ps1 ps2 : uncovered ps1 ps2 -> forall ls k k' s s',
  mserial m1 m2 ls k = Ok k' -> pair_layers (map ml_layer ls) s = Some s' -> same_masks k ->
  agrees ps1 ps2 k s ->
  agrees ps1 ps2 k' s' /\ same_masks k' /\ s_db k' = s_db k
  /\ (Forall keeps_zeros ls -> zeros k -> zeros k').
Proof.
  intros U. induction ls as [|l ls IH]; intros k k' s s' F G S H.
  - injection F as <-. injection G as <-. auto.
  - cbn [mserial map pair_layers] in F, G. unfold mlayer_fn in F.
    destruct (layer_fn (ml_layer l) k) as [k0|e] eqn:Fl; [|discriminate]. cbn [rmap bind] in F.
    destruct (pair_layer (ml_layer l) s) as [s0|] eqn:Gl; [|discriminate].
    destruct (layer_agrees _ _ _ _ _ _ _ Fl Gl H) as (H0 & Db & C2).
    assert (same_masks k0) as S0 by (intros E; apply S, C2, E).
    pose proof (layer_ds _ _ _ _ _ Fl Gl) as D.
    destruct (ml_remask l) eqn:R.
    + destruct (IH (remask m1 m2 k0) k' s0 s' F G) as (A & B & C & Z).
      * intros E. apply S0. cbn in E. destruct (s_cov2 k0); [discriminate|reflexivity].
      * apply remask_agrees; auto.
      * split; [exact A|]. split; [exact B|]. split; [rewrite C; exact Db|].
        intros Fk Zk. inversion Fk; subst. apply Z; [assumption|]. apply remask_zeros; [exact S0|].
        rewrite D. apply Zk.
    + destruct (IH k0 k' s0 s' F G S0 H0) as (A & B & C & Z).
      split; [exact A|]. split; [exact B|]. split; [congruence|].
      intros Fk Zk. inversion Fk; subst. apply Z; [assumption|]. eapply layer_zeros; eauto.
Qed.

End Pair.

(** ** Inputs *)
Lemma is_const_spec c0 x : reflect (x = c0) (is_const c0 x).
Proof. unfold is_const. destruct (Req_EM_T x c0); constructor; auto. Qed.

Lemma pads_mask c0 sp ch xs ps (x : input) i : (0 < ch)%nat -> pads c0 sp ch xs ps (x i) ->
  forall p, In p (locs sp) -> (position_mask c0 ch x i p = false <-> In p ps).
Proof.
  intros C (N & L & I & V & O) p Hp. unfold position_mask. split.
  - intros F. destruct (in_dec (list_eq_dec Nat.eq_dec) p ps) as [Y|No]; [exact Y|]. exfalso.
    assert (forallb (fun c => is_const c0 (x i p c)) (seq 0 ch) = true) as T.
    { apply forallb_forall. intros c Hc. apply in_seq in Hc.
      destruct (is_const_spec c0 (x i p c)) as [|E]; [reflexivity|]. exfalso. apply E, O; auto. lia. }
    congruence.
  - intros Hi. apply (@In_nth loc ps p []) in Hi. destruct Hi as (a & La & <-).
    destruct (forallb _ _) eqn:E; [|reflexivity]. exfalso. rewrite forallb_forall in E.
    specialize (E 0%nat (proj2 (in_seq _ _ _) (conj (le_n 0) C))).
    cbv beta in E. unfold is_const in E. destruct (Req_EM_T _ _) as [E'|] in E; [|discriminate E].
    destruct (V a 0%nat) as (V1 & V2); [lia|lia|]. congruence.
Qed.

Lemma pads_value c0 sp ch xs ps (x : input) i a c : pads c0 sp ch xs ps (x i) ->
  (a < length ps)%nat -> (c < ch)%nat -> masked_value c0 x i (nth a ps []) c = nth a xs (fun _ => 0) c.
Proof.
  intros (N & L & I & V & O) La Lc. destruct (V a c) as (V1 & V2); [lia|assumption|].
  unfold masked_value. destruct (is_const_spec c0 (x i (nth a ps []) c)); [congruence|exact V1].
Qed.

Lemma masked_zero c0 ch (x : input) i p c : position_mask c0 ch x i p = true -> (c < ch)%nat ->
  masked_value c0 x i p c = 0.
Proof.
  intros M C. unfold position_mask in M. rewrite forallb_forall in M.
  specialize (M c (proj2 (in_seq _ _ _) (conj (Nat.le_0_l c) C))). cbv beta in M. unfold masked_value.
  rewrite M. reflexivity.
Qed.

Lemma gram_dot c0 sp ch xs ys ps1 ps2 (x y : input) i j bi a b :
  pads c0 sp ch xs ps1 (x i) -> pads c0 sp ch ys ps2 (y j) -> hd 0%nat bi = i -> last bi 0%nat = j ->
  (a < length ps1)%nat -> (b < length ps2)%nat ->
  gram ch (masked_value c0 x) (masked_value c0 y) bi [nth a ps1 []; nth b ps2 []] =
  dot ch (nth a xs (fun _ => 0)) (nth b ys (fun _ => 0)).
Proof.
  intros P1 P2 <- <- La Lb. unfold gram, dot. cbn [hd last]. f_equal. apply lsum_ext. intros c Hc.
  apply in_seq in Hc.
  rewrite (pads_value _ _ _ _ _ _ _ _ _ P1 La), (pads_value _ _ _ _ _ _ _ _ _ P2 Lb) by lia. reflexivity.
Qed.

Lemma gram_zero c0 ch (x y : input) i j bi p q : hd 0%nat bi = i -> last bi 0%nat = j ->
  position_mask c0 ch x i p || position_mask c0 ch y j q = true ->
  gram ch (masked_value c0 x) (masked_value c0 y) bi [p; q] = 0.
Proof.
  intros <- <- M. unfold gram. cbn [hd last]. rewrite lsum_zero; [unfold Rdiv; ring|].
  intros c Hc. apply in_seq in Hc. apply orb_prop in M. destruct M as [M|M];
    rewrite (masked_zero _ _ _ _ _ c M) by lia; ring.
Qed.

Definition second (x1 : input) (x2 : option (nat * input)) : input :=
  match x2 with Some (_, x2) => x2 | None => x1 end.

Lemma input_agrees c0 sp ch n1 (x1 : input) x2 db ntk xs ys ps1 ps2 i j :
  pads c0 sp ch xs ps1 (x1 i) -> pads c0 sp ch ys ps2 (second x1 x2 j) ->
  agrees i j ps1 ps2
    (input_kernel sp ch n1 (masked_value c0 x1)
       (option_map (fun nx => (fst nx, masked_value c0 (snd nx))) x2) db false ntk)
    (pair_input ch xs ys).
Proof.
  intros P1 P2. unfold agrees, input_kernel, pair_input, second in *.
  cbn [s_ds s_ch s_cov1 s_nngp s_ntk s_db p_ch p_c1 p_c2 p_k p_t].
  split; [reflexivity|]. split; [reflexivity|]. split; [|split; [|split]].
  - intros a a' L L'. apply (gram_dot c0 sp ch xs xs ps1 ps1 x1 x1 i i); auto using hd_self, last_self.
  - intros a a' L L'. unfold k_cov2. cbn [s_cov2 s_cov1]. destruct x2 as [[n2 x2]|]; cbn [option_map snd fst];
      (eapply gram_dot; [exact P2|exact P2|apply hd_self|apply last_self|exact L|exact L']).
  - intros a a' L L'. destruct x2 as [[n2 x2]|]; cbn [option_map snd fst];
      (eapply gram_dot; [exact P1|exact P2|reflexivity|reflexivity|exact L|exact L']).
  - intros t E a a' L L'. destruct ntk; [|discriminate]. injection E as <-. reflexivity.
Qed.

Lemma input_zeros c0 sp ch n1 (x1 : input) x2 db ntk i j :
  zeros i j (position_mask c0 ch x1) (position_mask c0 ch (second x1 x2))
    (input_kernel sp ch n1 (masked_value c0 x1)
       (option_map (fun nx => (fst nx, masked_value c0 (snd nx))) x2) db false ntk).
Proof.
  unfold zeros, input_kernel, second. cbn [s_ds s_ch s_cov1 s_nngp s_ntk s_db].
  split; [reflexivity|]. split; [|split; [|split]].
  - intros p q M. eapply gram_zero; [apply hd_self|apply last_self|exact M].
  - intros p q M. unfold k_cov2. cbn [s_cov2 s_cov1]. destruct x2 as [[n2 x2]|]; cbn [option_map snd fst];
      (eapply gram_zero; [apply hd_self|apply last_self|exact M]).
  - intros p q M. destruct x2 as [[n2 x2]|]; cbn [option_map snd fst];
      (eapply gram_zero; [reflexivity|reflexivity|exact M]).
  - intros t E p q M. destruct ntk; [|discriminate]. injection E as <-. reflexivity.
Qed.

Lemma pads_uncovered c0 sp ch xs ys ps1 ps2 (x y : input) i j : (0 < ch)%nat ->
  pads c0 sp ch xs ps1 (x i) -> pads c0 sp ch ys ps2 (y j) ->
  uncovered i j (position_mask c0 ch x) (position_mask c0 ch y) ps1 ps2.
Proof.
  intros C P1 P2. split; intros a La.
  - apply (pads_mask c0 sp ch xs ps1 x i C P1); [apply P1|]; apply nth_In; exact La.
  - apply (pads_mask c0 sp ch ys ps2 y j C P2); [apply P2|]; apply nth_In; exact La.
Qed.

Lemma masked_network_agrees c0 sp ch n1 (x1 : input) x2 db ntk ls xs ys ps1 ps2 i j k s : (0 < ch)%nat ->
  pads c0 sp ch xs ps1 (x1 i) -> pads c0 sp ch ys ps2 (second x1 x2 j) ->
  masked_network c0 sp ch n1 x1 x2 db ntk ls = Ok k ->
  pair_layers (map ml_layer ls) (pair_input ch xs ys) = Some s ->
  agrees i j ps1 ps2 k s /\ s_db k = db
  /\ same_masks (position_mask c0 ch x1) (position_mask c0 ch (second x1 x2)) k
  /\ (Forall keeps_zeros ls -> zeros i j (position_mask c0 ch x1) (position_mask c0 ch (second x1 x2)) k).
Proof.
  intros C P1 P2 F G. unfold masked_network in F. cbv zeta in F. fold (second x1 x2) in F.
  destruct (mserial_agrees i j _ _ ps1 ps2 (pads_uncovered _ _ _ _ _ _ _ _ _ _ _ C P1 P2) ls _ _ _ _ F G) as (A & B & D & Z).
  - intros E. unfold second. destruct x2 as [[n2 x2]|]; [discriminate|reflexivity].
  - apply input_agrees; assumption.
  - split; [exact A|]. split; [rewrite D; reflexivity|]. split; [exact B|]. intros Fk. apply Z; [exact Fk|].
    apply input_zeros.
Qed.

(** The spatial shape stays the input's. *)
Lemma mserial_sp m1 m2 : forall ls k k' s s', mserial m1 m2 ls k = Ok k' ->
  pair_layers (map ml_layer ls) s = Some s' -> s_sp k' = s_sp k.
Proof.
  induction ls as [|l ls IH]; intros k k' s s' F G; [injection F as <-; reflexivity|].
  cbn [mserial map pair_layers] in F, G. unfold mlayer_fn in F.
  destruct (layer_fn (ml_layer l) k) as [k0|e] eqn:Fl; [|discriminate]. cbn [rmap bind] in F.
  destruct (pair_layer (ml_layer l) s) as [s0|] eqn:Gl; [|discriminate].
  rewrite (IH _ _ _ _ F G).
  assert (s_sp k0 = s_sp k) as <-.
  { destruct (ml_layer l) as [ | | | | | | nl | eps over | ]; cbn [layer_fn pair_layer] in Fl, Gl; cbv zeta in Fl, Gl;
      try discriminate; try (injection Fl as <-; reflexivity); destruct (s_gauss k); try discriminate;
      injection Fl as <-; reflexivity. }
  destruct (ml_remask l); reflexivity.
Qed.

(** ** Pooling *)
Lemma kept_perm c0 sp ch xs ps (x : input) i : (0 < ch)%nat -> pads c0 sp ch xs ps (x i) ->
  Permutation (kept (position_mask c0 ch x i) (locs sp)) ps.
Proof.
  intros C P. apply NoDup_Permutation.
  - unfold kept. apply NoDup_filter, NoDup_locs.
  - apply P.
  - intros p. unfold kept. rewrite filter_In, negb_true_iff. split.
    + intros (Hp & M). apply (pads_mask c0 sp ch xs ps x i C P p Hp), M.
    + intros Hi. assert (In p (locs sp)) as Hp by (apply P, Hi). split; [exact Hp|].
      apply (pads_mask c0 sp ch xs ps x i C P p Hp), Hi.
Qed.

Lemma lsum_nth (ps : list loc) (f : loc -> R) : lsum ps f = lsum (seq 0 (length ps)) (fun a => f (nth a ps [])).
Proof. rewrite <- (lsum_map (fun a => nth a ps []) (seq 0 (length ps)) f). rewrite (map_nth_seq_all ps []). reflexivity. Qed.

Lemma sum_positions (m m' : loc -> bool) l ps1 ps2 (f : loc -> loc -> R) :
  Permutation (kept m l) ps1 -> Permutation (kept m' l) ps2 ->
  (forall p q, m p || m' q = true -> f p q = 0) ->
  lsum l (fun p => lsum l (fun q => f p q)) =
  lsum (seq 0 (length ps1)) (fun a => lsum (seq 0 (length ps2)) (fun b => f (nth a ps1 []) (nth b ps2 []))).
Proof.
  intros P1 P2 Z.
  rewrite (lsum_split m). rewrite (lsum_zero (filter m l)).
  2:{ intros p Hp. apply filter_In in Hp. apply lsum_zero. intros q _. apply Z. destruct Hp as [_ ->]. reflexivity. }
  rewrite Rplus_0_r, (lsum_perm _ _ _ P1), lsum_nth. apply lsum_ext. intros a _.
  rewrite (lsum_split m' l). rewrite (lsum_zero (filter m' l)).
  2:{ intros q Hq. apply filter_In in Hq. apply Z. destruct Hq as [_ ->]. apply orb_true_r. }
  rewrite Rplus_0_r, (lsum_perm _ _ _ P2), lsum_nth. reflexivity.
Qed.

(** [gpool_full] for any batch index. *)
Lemma gpool_full' sp ma mb (x : cov) bi o i j : hd 0%nat bi = i -> last bi 0%nat = j ->
  gpool_masked true sp false ma mb x bi o =
  lsum (locs sp) (fun p => lsum (locs sp) (fun q => x bi [p; q]))
  / INR (Nat.max (left_over sp (ma i) * left_over sp (mb j)) 1).
Proof.
  intros <- <-. unfold gpool_masked, masked_mean. rewrite masked_size_left.
  rewrite (lsum_prod (locs sp) (locs sp) (fun p q => x bi [p; q])).
  unfold mask_prod. cbn [hd last]. unfold left_over.
  rewrite (kept_prod (ma (hd 0%nat bi)) (mb (last bi 0%nat)) (locs sp) (locs sp)), prod_length. reflexivity.
Qed.

Lemma gpool_average sp (ma mb : pmask) (x : cov) bi o i j ps1 ps2 f : hd 0%nat bi = i -> last bi 0%nat = j ->
  Permutation (kept (ma i) (locs sp)) ps1 -> Permutation (kept (mb j) (locs sp)) ps2 ->
  (0 < length ps1)%nat -> (0 < length ps2)%nat ->
  (forall p q, ma i p || mb j q = true -> x bi [p; q] = 0) ->
  (forall a b, (a < length ps1)%nat -> (b < length ps2)%nat -> x bi [nth a ps1 []; nth b ps2 []] = f a b) ->
  gpool_masked true sp false ma mb x bi o = pair_average (length ps1) (length ps2) f.
Proof.
  intros Hi Hj P1 P2 L1 L2 Z E. rewrite (gpool_full' sp ma mb x bi o i j Hi Hj).
  rewrite (sum_positions (ma i) (mb j) (locs sp) ps1 ps2 (fun p q => x bi [p; q]) P1 P2 Z).
  unfold pair_average, left_over. rewrite (Permutation_length P1), (Permutation_length P2).
  rewrite Nat.max_l by nia. rewrite mult_INR. f_equal.
  apply lsum_ext. intros a Ha. apply lsum_ext. intros b Hb. apply in_seq in Ha, Hb. apply E; lia.
Qed.

Lemma pool_agrees c0 sp ch xs ys ps1 ps2 (x1 : input) x2 i j k s : (0 < ch)%nat ->
  pads c0 sp ch xs ps1 (x1 i) -> pads c0 sp ch ys ps2 (second x1 x2 j) -> (0 < length xs)%nat -> (0 < length ys)%nat ->
  s_sp k = sp -> agrees i j ps1 ps2 k s ->
  let m1 := position_mask c0 ch x1 in let m2 := position_mask c0 ch (second x1 x2) in
  same_masks m1 m2 k -> zeros i j m1 m2 k ->
  agrees i j [[]] [[]] (gpool_fn_masked true m1 m2 k) (pair_pool (length xs) (length ys) s).
Proof.
  intros C P1 P2 Lx Ly Sp (Hds & Hch & H1 & H2 & H12 & Ht) m1 m2 S (_ & Z1 & Z2 & Z12 & Zt).
  pose proof (kept_perm _ _ _ _ _ _ _ C P1) as K1. pose proof (kept_perm _ _ _ _ _ _ _ C P2) as K2.
  fold m1 in K1. fold m2 in K2.
  assert (length ps1 = length xs) as E1 by apply P1. assert (length ps2 = length ys) as E2 by apply P2.
  rewrite <- E1, <- E2 in *.
  unfold agrees, gpool_fn_masked. rewrite Hds, Sp.
  cbn [replace s_ds s_ch s_db s_cov1 s_nngp s_ntk p_ch p_c1 p_c2 p_k p_t pair_pool].
  split; [reflexivity|]. split; [exact Hch|]. split; [|split; [|split]].
  - intros a a' _ _. apply (gpool_average sp m1 m1 (s_cov1 k) _ _ i i ps1 ps1); auto using hd_self, last_self.
  - intros a a' _ _.
    assert (k_cov2 (replace k [] (s_ch k) (gpool_masked true sp false m1 m1 (s_cov1 k))
              (omap (gpool_masked true sp false m2 m2) (s_cov2 k)) (gpool_masked true sp false m1 m2 (s_nngp k))
              (omap (gpool_masked true sp false m1 m2) (s_ntk k)) false (s_gauss k))
            = gpool_masked true sp false m2 m2 (k_cov2 k)) as ->.
    { unfold k_cov2. cbn [replace s_cov2 s_cov1]. destruct (s_cov2 k) eqn:E; [reflexivity|]. cbn.
      rewrite (S E). reflexivity. }
    apply (gpool_average sp m2 m2 (k_cov2 k) _ _ j j ps2 ps2); auto using hd_self, last_self.
  - intros a a' _ _. apply (gpool_average sp m1 m2 (s_nngp k) _ _ i j ps1 ps2); auto.
  - intros t E a a' _ _. destruct (s_ntk k) as [t0|]; cbn in E; [|discriminate]. injection E as <-.
    apply (gpool_average sp m1 m2 t0 _ _ i j ps1 ps2); auto.
Qed.

Lemma pooled_uncovered c0 sp ch xs ps (x : input) i : (0 < ch)%nat -> pads c0 sp ch xs ps (x i) ->
  (0 < length xs)%nat -> pooled_mask sp (position_mask c0 ch x) i [] = false.
Proof.
  intros C P L. unfold pooled_mask. apply Bool.not_true_iff_false. intros E. rewrite forallb_forall in E.
  assert (In (nth 0 ps []) ps) as I by (apply nth_In; destruct P as (_ & -> & _); exact L).
  assert (In (nth 0 ps []) (locs sp)) as I' by (apply P, I).
  apply (pads_mask _ _ _ _ _ _ _ C P _ I') in I. rewrite (E _ I') in I. discriminate.
Qed.

Lemma masked_gap_agrees c0 sp ch n1 (x1 : input) x2 db ntk ls ls' xs ys ps1 ps2 i j k s s' : (0 < ch)%nat ->
  pads c0 sp ch xs ps1 (x1 i) -> pads c0 sp ch ys ps2 (second x1 x2 j) -> (0 < length xs)%nat -> (0 < length ys)%nat ->
  Forall keeps_zeros ls ->
  masked_network_gap c0 sp ch n1 x1 x2 db ntk ls ls' = Ok k ->
  pair_layers (map ml_layer ls) (pair_input ch xs ys) = Some s ->
  pair_layers (map ml_layer ls') (pair_pool (length xs) (length ys) s) = Some s' ->
  agrees i j [[]] [[]] k s' /\ s_db k = db.
Proof.
  intros C P1 P2 Lx Ly Fk F G G'. unfold masked_network_gap in F. cbv zeta in F. fold (second x1 x2) in F.
  destruct (masked_network c0 sp ch n1 x1 x2 db ntk ls) as [k0|e] eqn:F0; [|discriminate]. cbn [bind] in F.
  destruct (masked_network_agrees _ _ _ _ _ _ _ _ _ _ _ _ _ _ _ _ _ C P1 P2 F0 G) as (A & B & S & Z).
  assert (s_sp k0 = sp) as Sp.
  { unfold masked_network in F0. cbv zeta in F0. rewrite (mserial_sp _ _ _ _ _ _ _ F0 G). reflexivity. }
  pose proof (pool_agrees _ _ _ _ _ _ _ _ _ _ _ _ _ C P1 P2 Lx Ly Sp A S (Z Fk)) as A'.
  refine (let '(conj A'' (conj _ (conj D _))) := mserial_agrees i j _ _ [[]] [[]] _ ls' _ _ _ _ F G' _ A' in conj A'' _).
  - split; intros [|a] La; cbn in La; try lia; cbn [nth]; eapply pooled_uncovered; eauto.
  - intros E. cbn in E. destruct (s_cov2 k0) eqn:E2; [discriminate|]. rewrite (S E2). reflexivity.
  - rewrite D. exact B.
Qed.
