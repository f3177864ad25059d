(** What [init_fn] of the layers announces. *)
From Coq Require Import Reals ZArith List Arith Lia Bool.
From Verif Require Import Base Tensor Reshape Model_Axes Model_Slice Model_Geom Model_Net Model_Predict Model_Kernel
  Model_Empirical Model_Inputs Model_Conv Model_ConvApply Model_Index Model_Aggregate Model_DotGeneral.
From Verif Require Import Model_Branching Model_Mask Model_Masking Model_MaskingLayers.
From Verif Require Import Spec_Slice Spec_Geom Spec_Conv Spec_ConvApply Spec_Mask Spec_Masking Spec_InitShapes.
From Verif Require Import Proof_Mask Proof_Mask2 Proof_Conv3 Proof_ConvApply Proof_ConvApply2 Proof_Index4 Proof_DotGeneral8 Proof_Attention
  Proof_Masking Proof_Masking4 Model_InitShapes.
Import ListNotations.
Local Open Scope nat_scope.

(** ** Lists *)
Lemma upd_insert {A} c (o : A) l : c < length l -> upd c o l = insert_at c o (drop_at c l).
Proof.
  intros H. unfold upd, insert_at, drop_at.
  assert (L : length (firstn c l) = c) by (rewrite firstn_length; lia).
  rewrite firstn_app, skipn_app, L, Nat.sub_diag. cbn [firstn skipn].
  rewrite firstn_firstn, Nat.min_id, app_nil_r. rewrite (skipn_all2 (firstn c l)) by lia. reflexivity.
Qed.
Lemma drop_at_length {A} c (l : list A) : c < length l -> S (length (drop_at c l)) = length l.
Proof. intros H. unfold drop_at. rewrite app_length, firstn_length, skipn_length. lia. Qed.
Lemma upd_length {A} c (o : A) l : c < length l -> length (upd c o l) = length l.
Proof. intros H. unfold upd. rewrite app_length. cbn [length]. rewrite firstn_length, skipn_length. lia. Qed.

Lemma map_nth_cons (l : list nat) o is_ : (forall i, In i is_ -> 0 < i) -> map (fun a => nth a (o :: l) 0) is_ = map (fun a => nth (a - 1) l 0) is_.
Proof. intros H. apply map_ext_in. intros [|i] Hi; [specialize (H 0 Hi); lia|]. cbn. now rewrite Nat.sub_0_r. Qed.
Lemma map_nth_seq1 (l : list nat) m k : k + m <= length l -> map (fun a => nth (a - 1) l 0) (seq (S k) m) = firstn m (skipn k l).
Proof.
  revert k. induction m as [|m IH]; intros k H; [reflexivity|]. cbn [seq map]. rewrite IH by lia.
  replace (S k - 1) with k by lia. clear IH. revert k H. induction l as [|x l IHl]; intros k H; [cbn in H; lia|].
  destruct k; [reflexivity|]. cbn [skipn nth]. cbn in H. apply IHl. lia.
Qed.

Lemma moveaxis_to {A} (x : tensor A) o l c : shape x = o :: l -> c <= length l ->
  exists y, moveaxis [0] [c] x = Ok y /\ shape y = insert_at c o l.
Proof.
  intros Sh Hc. assert (N : ndim x = S (length l)) by (unfold ndim; now rewrite Sh).
  unfold moveaxis. cbn [length Nat.eqb nodupb mem existsb andb negb forallb]. rewrite N.
  replace (0 <? S (length l)) with true by reflexivity. replace (c <? S (length l)) with true by (symmetry; apply Nat.ltb_lt; lia). cbn [andb].
  eexists. split; [reflexivity|]. rewrite transpose_shape, Sh.
  unfold moveaxis_order. cbn [combine sort_pairs fold_right insert_pair fold_left fst snd].
  pose proof (filter_neq_seq 0 (length l)) as F. cbn [Nat.add seq app] in F. cbn [seq]. rewrite F.
  unfold insert_at. rewrite map_app. cbn [map]. change (nth 0 (o :: l) 0) with o.
  assert (E : forall (f : nat -> nat) n (k : list nat), map f (firstn n k) = firstn n (map f k)) by (intros; symmetry; apply firstn_map).
  assert (E' : forall (f : nat -> nat) n (k : list nat), map f (skipn n k) = skipn n (map f k)) by (intros; symmetry; apply skipn_map).
  rewrite E, E', map_nth_cons by (intros i Hi; apply in_seq in Hi; lia).
  rewrite map_nth_seq1 by lia. cbn [skipn]. rewrite firstn_all. reflexivity.
Qed.

(** ** Broadcasting *)
Notation shorter := (Forall2 (fun s n => s = n \/ s = 1)).
Lemma shorter_refl s : shorter s s.
Proof. induction s; constructor; auto. Qed.
Lemma bin_shorter op (x y : tensor R) : ndim x <> 0 -> shorter (shape y) (shape x) -> exists z, bin op x y = Ok z /\ shape z = shape x.
Proof.
  intros N S. unfold bin. assert (L : ndim y = ndim x) by (apply Forall2_length with (1 := S)). rewrite L.
  destruct (Nat.eqb_spec (ndim x) 0) as [E|_]; [contradiction|]. unfold broadcast2.
  rewrite (bcompat_shorter _ _ _ (shorter_refl (shape x)) S). eexists. split; [reflexivity|]. cbn [shape].
  apply bshape_full; auto using shorter_refl.
Qed.
Lemma bin_same op (x y : tensor R) : shape y = shape x -> exists z, bin op x y = Ok z /\ shape z = shape x.
Proof.
  intros E. destruct (Nat.eq_dec (ndim x) 0) as [N|N].
  - unfold bin. rewrite N, Nat.eqb_refl. eexists. split; [reflexivity|]. exact E.
  - apply bin_shorter; [exact N|]. rewrite E. apply shorter_refl.
Qed.
Lemma fold_bin op s : forall xs (a : tensor R), shape a = s -> Forall (fun x => shape x = s) xs ->
  exists y, fold_left (fun acc x => bind acc (fun a => bin op a x)) xs (Ok a) = Ok y /\ shape y = s.
Proof.
  induction xs as [|x xs IH]; intros a Sa F; cbn; [eauto|]. inversion F; subst. destruct (bin_same op a x) as (z & E & Sz); [congruence|].
  rewrite E. apply IH; congruence || assumption.
Qed.

(** ** Layers of one array *)
Section Layers.
Variable kernel_fn : tree (kernel R) -> result (tree (kernel R)).

Lemma array_announces init apply mf rm s :
  (forall rng s' p (x : tensor R), init rng s = Ok (s', p) -> shape x = s ->
    (exists y, apply p x None = Ok y /\ shape y = s') /\ forall rng2 s2 p2, init rng2 s = Ok (s2, p2) -> s2 = s') ->
  announces (array_layer kernel_fn init apply mf rm) (Leaf s).
Proof.
  intros H rng s' p x I S. destruct x as [x|l]; [|discriminate]. cbn in S, I. injection S as S.
  apply rmap_ok in I as ([s0 p0] & I & E). injection E as -> ->. destruct (H _ _ _ x I S) as ((y & Y & Sy) & U). split; [exact Logic.I|].
  split; [|split].
  - exists (Leaf y). cbn. rewrite Y. cbn. now rewrite Sy.
  - destruct mf; reflexivity.
  - intros rng2 s2 p2 J. cbn in J. apply rmap_ok in J as ([s3 p3] & J & E). injection E as -> ->. f_equal. eauto.
Qed.

(** Without parameters. *)
Lemma plain_announces (init : list nat -> result (list nat)) apply mf rm s :
  (forall s' (x : tensor R), init s = Ok s' -> shape x = s -> exists y, apply x None = Ok y /\ shape y = s') ->
  announces (array_layer kernel_fn (fun _ s => rmap (fun s => (s, None)) (init s)) (fun _ => apply) mf rm) (Leaf s).
Proof.
  intros H. apply array_announces. intros rng s' p x I S. apply rmap_ok in I as (s0 & I & E). injection E as -> ->. split; [eauto|].
  intros rng2 s2 p2 J. apply rmap_ok in J as (s3 & J & E). injection E as -> ->. congruence.
Qed.

Lemma ones_shorter c o l : c < length l -> shorter (upd c o (repeat 1 (length l))) (upd c o l).
Proof.
  intros H. assert (R : forall k : list nat, shorter (repeat 1 (length k)) k) by (induction k; constructor; auto).
  revert c H. induction l as [|x l IH]; intros c H; [cbn in H; lia|]. unfold upd in *. destruct c; cbn in *.
  - constructor; [auto|apply R].
  - constructor; [auto|]. apply IH. lia.
Qed.

Lemma names_py_mod n z b : names_axis n z b -> py_mod z n = Ok b.
Proof.
  intros [H Hz]. unfold py_mod. destruct (Nat.eqb_spec n 0); [lia|]. f_equal.
  rewrite <- (Nat2Z.id b). f_equal. destruct Hz as [->| ->].
  - apply Z.mod_small. lia.
  - replace (Z.of_nat b - Z.of_nat n)%Z with (Z.of_nat b + (-1) * Z.of_nat n)%Z by lia. rewrite Z_mod_plus_full. apply Z.mod_small. lia.
Qed.

Theorem dense_announces L s c : names_axis (length s) (dn_channel_axis L) c -> announces (dense_fn kernel_fn L) (Leaf s).
Proof.
  intros Hc. apply array_announces. intros rng s' p x I S.
  pose proof Hc as [Hlt _]. pose proof (names_py_index _ _ _ Hc) as Pi. pose proof (names_py_mod _ _ _ Hc) as Pm.
  set (o := if dn_standard L then dn_out L * dn_s1 L else dn_out L).
  assert (Shape : forall rng s' p, dense_init_fn L rng s = Ok (s', p) -> s' = upd c o s /\
    exists W b, p = Some (W, b) /\ shape W = [nth c s 0; o] /\
      (b = None \/ exists b0 v, b = Some b0 /\ dn_b L = Some v /\ shape b0 = upd c o (repeat 1 (length s)))).
  { clear - Pi Pm. intros rng s' p I. unfold dense_init_fn in I. cbv zeta in I. fold o in I. rewrite Pm in I. cbn [bind] in I.
    destruct (dn_b L) as [v|]; rewrite ?Pi in I; cbn [bind rmap] in I; (destruct (dn_standard L) eqn:St; cbn [bind rmap] in I);
      injection I as <- <-; split; try reflexivity; do 2 eexists; (split; [reflexivity|]); (split; [reflexivity|]); eauto 10. }
  destruct (Shape _ _ _ I) as (-> & W & b & -> & SW & Hb). split.
  2: { intros rng2 s2 p2 J. now apply Shape in J as (-> & _). }
  unfold dense_apply_fn, tensordot0. unfold ndim at 1. rewrite S, Pi. cbn [bind]. rewrite SW. cbn [nth].
  rewrite Nat.eqb_refl. cbn [bind]. set (u := mkT _ _).
  assert (Su : shape u = o :: drop_at c s) by reflexivity.
  assert (Nu : ndim u = length s) by (unfold ndim; rewrite Su; apply drop_at_length; exact Hlt).
  rewrite (moveaxis1_ok u 0 (dn_channel_axis L) 0 c) by (rewrite Nu; first [exact Hc|split; lia]).
  destruct (moveaxis_to u o (drop_at c s) c Su) as (v & Ev & Sv).
  { pose proof (drop_at_length c s Hlt). lia. }
  rewrite Ev. cbn [bind]. unfold ndim. rewrite S, Pi. cbn [bind].
  rewrite <- upd_insert in Sv by exact Hlt.
  destruct Hb as [->|(b0 & v0 & -> & Hb & Sb)].
  - eexists. split; [reflexivity|]. exact Sv.
  - rewrite Hb. match goal with |- context [tmap ?f v] => set (w := tmap f v) end.
    assert (Sw : shape w = upd c o s) by exact Sv.
    assert (B : forall op, exists y, bin op w b0 = Ok y /\ shape y = upd c o s).
    { intros op. rewrite <- Sw. apply bin_shorter.
      - unfold ndim. rewrite Sw, upd_length; lia.
      - rewrite Sw, Sb. apply ones_shorter. exact Hlt. }
    destruct (dn_standard L); apply B.
Qed.

Lemma out_shape_circular t sp fs ss :
  out_shape ((if t : bool then Transposed else Forward) SAME) sp fs ss = out_shape ((if t then Transposed else Forward) CIRCULAR) sp fs ss.
Proof. revert fs ss. induction sp as [|n sp IH]; intros [|f fs] [|r ss]; cbn; try reflexivity. f_equal; [destruct t; reflexivity|apply IH]. Qed.

Theorem conv_announces L out_chan N sp C : plain_conv L sp -> announces (conv_fn kernel_fn L out_chan) (Leaf (N :: sp ++ [C])).
Proof.
  intros HL. apply array_announces. intros rng s' p x I S.
  set (out := N :: geom_out (conv_geom L) sp ++ [out_chan]).
  assert (Shape : forall rng s' p, conv_init L out_chan rng (N :: sp ++ [C]) = Ok (s', p) -> s' = out /\
    exists W b, p = Some (W, b) /\ shape W = cv_filter L ++ [C; out_chan] /\ (b = None <-> cv_b L = None)).
  { clear I S. intros rng0 s0 p0 I. unfold conv_init in I. destruct (_ && _); [|discriminate]. cbv zeta in I. injection I as <- <-. split.
    - unfold out. cbn [hd]. f_equal. f_equal. rewrite middle_ends. unfold geom_out. rewrite (plain_geom _ _ HL). cbn [g_window g_filter g_strides].
      destruct (cv_padding L); [destruct (cv_transpose L); reflexivity..|].
      rewrite out_shape_circular. destruct (cv_transpose L); reflexivity.
    - change (match sp ++ [C] with [] => N | _ :: _ => last (sp ++ [C]) 0 end) with (last (N :: sp ++ [C]) 0). rewrite last_ends. set (zW := normal _ _ _). set (zb := normal _ _ _).
      pose proof (init_ok L sp C (N :: sp ++ [C]) zW zb HL (last_ends N sp C)) as E. destruct (conv_init_fn L (N :: sp ++ [C]) zW zb) as [W b].
      destruct E as (E1 & E2 & _). exists W, b. auto. }
  destruct (Shape _ _ _ I) as (-> & W & b & -> & SW & Hb). split.
  2: { intros rng2 s2 p2 J. now apply Shape in J as (-> & _). }
  destruct (apply_ok L W x b N sp C out_chan HL S SW Hb) as (y & E & Sy & _). exists y. split; [exact E|exact Sy].
Qed.

Theorem pool_announces L zb zc s : pl_padding L <> CIRCULAR -> announces (pool_fn kernel_fn L zb zc) (Leaf s).
Proof.
  intros Hp. unfold pool_fn. apply plain_announces with (apply := fun x _ => pool_apply L zb zc x). intros s' x I S.
  unfold pool_init, pool_apply in *. destruct (non_spatial zb zc (length (pl_strides L))) as [axes|e]; cbn [bind] in *; [|discriminate].
  unfold pool_init_fun, pool_apply_fun, ndim in *. rewrite S.
  destruct (pl_padding L); try congruence; destruct (_ && _); try discriminate; injection I as <-; eexists; (split; [reflexivity|]);
    destruct (negb (pl_avg L)); try (cbn [shape reduce_window]; now rewrite S);
    destruct (_ || _); cbn [shape reduce_window tmap]; now rewrite S.
Qed.

Theorem gpool_announces avg zb zc s : announces (gpool_fn kernel_fn avg zb zc) (Leaf s).
Proof.
  apply plain_announces with (apply := fun x m => gpool_apply avg zb zc x m). intros s' x I S.
  unfold gpool_init, gpool_apply, ndim in *. rewrite S. destruct (gpool_axes zb zc (length s)) as [[keep axes]|e]; cbn in *; [|discriminate].
  injection I as <-. destruct avg; eexists; (split; [reflexivity|reflexivity]).
Qed.

Theorem flatten_announces zb zo s : announces (flatten_fn kernel_fn zb zo) (Leaf s).
Proof.
  apply plain_announces with (apply := fun x _ => flatten_apply zb zo x). intros s' x I S.
  unfold flatten_init in I. apply bind_ok in I as (out1 & Ho & I).
  assert (Hz : exists b, names_axis (length s) zb b).
  { unfold get_output_shape in I. destruct (py_index (length s) zb) as [b|e] eqn:E; [|discriminate]. exists b. unfold py_index in E.
    destruct (_ && _) eqn:E1; [|destruct ((- Z.of_nat (length s) <=? zb)%Z && (zb <? 0)%Z) eqn:E2; [|discriminate]]; injection E as <-.
    - apply andb_true_iff in E1 as [E1 E2]. apply Z.leb_le in E1. apply Z.ltb_lt in E2. split; lia.
    - apply andb_true_iff in E2 as [E2 E3]. apply Z.leb_le in E2. apply Z.ltb_lt in E3. split; lia. }
  destruct Hz as [b Hz]. rewrite <- S in Hz. destruct (flatten_apply_flattens x zb zo b out1 Hz Ho) as (y & E & l0 & n & l1 & Sx & Hb & Sy & _).
  exists y. split; [exact E|]. rewrite S in Hz. rewrite <- S, Sx in I. rewrite S in Sx. rewrite Sx in Hz.
  rewrite (output_shape_ok out1 zb b l0 n l1 Hz Hb) in I. injection I as <-. exact Sy.
Qed.

Lemma id_announces (apply : tensor R -> option (tensor bool) -> result (tensor R)) mf rm s :
  (forall x : tensor R, shape x = s -> exists y, apply x None = Ok y /\ shape y = s) ->
  announces (array_layer kernel_fn (fun _ s => Ok (s, None)) (fun _ => apply) mf rm) (Leaf s).
Proof. intros H. apply (plain_announces (fun s => Ok s)). intros s' x I S. injection I as <-. auto. Qed.

Theorem elementwise_announces fn rm s : announces (elementwise_fn kernel_fn fn rm) (Leaf s).
Proof. apply id_announces with (apply := fun x _ => Ok (tmap fn x)). intros x S. eexists. split; [reflexivity|exact S]. Qed.

Theorem layernorm_announces axis eps s : Forall (fun z => exists a, names_axis (length s) z a) axis ->
  announces (layernorm_fn kernel_fn axis eps) (Leaf s).
Proof.
  intros F. apply id_announces with (apply := fun x m => layernorm_apply axis eps x m). intros x S. unfold layernorm_apply, ndim. rewrite S.
  assert (E : exists axes, canonicalize_axis axis (length s) = Ok axes).
  { unfold canonicalize_axis. assert (E : exists l, py_indices (length s) axis = Ok l); [|destruct E as [l ->]; eexists; reflexivity].
    induction F as [|z axis [a Ha] F [l IH]]; cbn; [eexists; reflexivity|]. rewrite (names_py_index _ _ _ Ha). cbn. rewrite IH. eexists. reflexivity. }
  destruct E as [axes ->]. cbn [bind]. eexists. split; [reflexivity|]. reflexivity.
Qed.

Theorem dropout_announces rate keep s : announces (dropout_fn kernel_fn rate (Some keep)) (Leaf s).
Proof.
  apply id_announces with (apply := fun x _ => Ok (mkT (shape x) (fun i => if keep i then entry x i / rate else 0)%R)).
  intros x S. eexists. split; [reflexivity|exact S].
Qed.

Theorem index_announces idx s : well_indexed idx (length s) -> announces (index_fn kernel_fn idx) (Leaf s).
Proof.
  intros H. apply plain_announces with (apply := fun x _ => index_apply idx x). intros s' x I S.
  unfold index_init_shape, index_apply in *. rewrite <- S in I, H. rewrite (init_shape x idx H) in I. apply rmap_ok in I as (y & E & ->). eauto.
Qed.

Theorem dot_announces other is_lhs dn c s : announces (dot_general_fn kernel_fn other is_lhs dn c) (Leaf s).
Proof.
  apply plain_announces with (apply := fun x _ => dot_fn other is_lhs dn x). intros s' x I S. unfold dot_init in I. apply rmap_ok in I as (z & E & ->).
  assert (E' : rmap (@shape R) (dot_fn other is_lhs dn x) = Ok (shape z)).
  { unfold dot_fn, lax_dot_z in *. destruct dn as [[lc rc] [lb rb]]. destruct is_lhs; (destruct (forallb _ _); [|discriminate]); eapply lax_dot_shape; try exact E; auto. }
  apply rmap_ok in E' as (y & E' & Sy). eauto.
Qed.

(** ** Layers of lists *)
Lemma leaves_of (l : list (tree (tensor R))) ss : leaves (map (tree_map (@shape R)) l) = Ok ss -> exists xs, leaves l = Ok xs /\ map (@shape R) xs = ss.
Proof.
  revert ss. induction l as [|t l IH]; intros ss H; cbn in *; [injection H as <-; exists []; auto|].
  destruct t as [x|m]; cbn in *; [|discriminate]. apply rmap_ok in H as (ss' & H & ->). destruct (IH _ H) as (xs & E & S). exists (x :: xs). rewrite E. cbn. now rewrite S.
Qed.
Lemma leaves_arrays (l : list shapes) ss : leaves l = Ok ss -> l = map Leaf ss.
Proof.
  revert ss. induction l as [|t l IH]; intros ss H; cbn in *; [injection H as <-; reflexivity|].
  destruct t as [x|m]; cbn in *; [|discriminate]. apply rmap_ok in H as (ss' & H & ->). cbn. f_equal. auto.
Qed.
Lemma leaves_map {A} (l : list A) : leaves (map Leaf l) = Ok l.
Proof. induction l as [|a l IH]; cbn; [reflexivity|]. now rewrite IH. Qed.

Lemma list_announces init apply mf ss :
  (forall s' xs, init ss = Ok s' -> map (@shape R) xs = ss -> exists y, apply xs = Ok y /\ shape y = s') ->
  mf (repeat None (length ss)) ss = Ok None ->
  announces (list_layer kernel_fn init apply mf) (Node (map Leaf ss)).
Proof.
  intros H M rng s' p x I S. cbn in I. rewrite leaves_map in I. cbn in I. apply rmap_ok in I as (s0 & I & E). injection E as -> ->.
  destruct x as [x|l]; [discriminate|]. cbn in S. injection S as S.
  destruct (leaves_of l ss) as (xs & E & Sx); [unfold shapes_of in S; rewrite S; apply leaves_map|].
  destruct (H _ _ I Sx) as (y & Y & Sy). split; [|split; [|split]].
  - cbn. apply Forall_forall. intros t Ht. apply in_map_iff in Ht as (s & <- & _). eauto.
  - exists (Leaf y). cbn. rewrite E. cbn. rewrite Y. cbn. now rewrite Sy.
  - cbn.
    assert (Hm : map (tree_map (fun _ : tensor R => @None (tensor bool))) l = map Leaf (repeat None (length ss))).
    { clear - S. revert ss S. induction l as [|t l IH]; intros [|s ss] S; try discriminate; [reflexivity|]. cbn in S. injection S as S1 S2.
      destruct t; [|discriminate]. cbn. f_equal. auto. }
    rewrite Hm, !leaves_map. cbn. rewrite ?leaves_map. cbn. rewrite M. reflexivity.
  - intros rng2 s2 p2 J. cbn in J. rewrite leaves_map in J. cbn in J. rewrite I in J. cbn in J. congruence.
Qed.

Lemma sum_masks_none n : sum_masks (repeat None n) = Ok None.
Proof. unfold sum_masks. induction n as [|n IH]; [reflexivity|]. cbn. exact IH. Qed.

Lemma all_shape s ss xs : Forall (eq s) ss -> map (@shape R) xs = ss -> Forall (fun x => shape x = s) xs.
Proof. intros F <-. rewrite Forall_forall in *. intros x Hx. symmetry. apply F. now apply in_map. Qed.

Theorem fan_in_sum_announces s ss : Forall (eq s) ss -> announces (fan_in_sum_fn kernel_fn) (Node (map Leaf ss)).
Proof.
  intros F. apply list_announces; [|apply sum_masks_none]. intros s' xs I Sx. destruct ss as [|s0 ss]; [discriminate|]. injection I as <-.
  destruct xs as [|x xs]; [discriminate|]. pose proof (all_shape _ _ _ F Sx) as G. inversion F; subst s0. inversion G; subst. cbn [fold_left bind].
  unfold bin at 2. cbn [ndim shape length Nat.eqb]. apply fold_bin; auto.
Qed.
Theorem fan_in_prod_announces s ss : Forall (eq s) ss -> announces (fan_in_prod_fn kernel_fn) (Node (map Leaf ss)).
Proof.
  intros F. apply list_announces; [|apply sum_masks_none]. intros s' xs I Sx. destruct ss as [|s0 ss]; [discriminate|]. injection I as <-.
  destruct xs as [|x xs]; [discriminate|]. pose proof (all_shape _ _ _ F Sx) as G. inversion F; subst s0. inversion G; subst. apply fold_bin; auto.
Qed.

Theorem fan_in_concat_announces axis a s ss : names_axis (length s) axis a ->
  Forall (fun s' => length s' = length s /\ drop_at a s' = drop_at a s) ss -> announces (fan_in_concat_fn kernel_fn axis) (Node (map Leaf ss)).
Proof.
  intros Ha F. apply list_announces.
  - intros s' xs I Sx. unfold concat_init in I. destruct ss as [|s0 ss]; [discriminate|]. cbn [first_shape bind] in I.
    destruct xs as [|x xs]; [discriminate|]. pose proof (Forall_inv F) as [L0 D0]. rewrite L0 in I. rewrite (names_py_mod _ _ _ Ha) in I. cbn [bind] in I.
    destruct (forallb _ _); [|discriminate]. injection I as <-.
    unfold concat_apply. pose proof Sx as Sx'. cbn in Sx'. injection Sx' as S0 _. unfold ndim. rewrite S0, L0, (names_py_index _ _ _ Ha). cbn [bind].
    unfold concatenate, ndim. rewrite S0, L0. replace (a <? length s) with true by (symmetry; apply Nat.ltb_lt; apply Ha).
    match goal with |- context [forallb ?f ?l] => assert (E : forallb f l = true) end.
    { apply forallb_forall. intros t Ht. assert (Hs : In (shape t) (s0 :: ss)) by (rewrite <- Sx; now apply in_map).
      rewrite Forall_forall in F. destruct (F _ Hs) as [L D]. rewrite L, Nat.eqb_refl. unfold nat_list_eqb. rewrite D, D0. destruct (list_eq_dec _ _ _); [reflexivity|congruence]. }
    rewrite E. cbn [andb]. eexists. split; [reflexivity|]. cbn [shape]. replace (map (fun t : tensor R => nth a (shape t) 0) (x :: xs)) with (map (fun s => nth a s 0) (s0 :: ss)) by (rewrite <- Sx, map_map; reflexivity). reflexivity.
  - unfold concat_masks. rewrite repeat_length, Nat.eqb_refl. cbn [negb].
    assert (E : forall n, forallb (fun m : option (tensor bool) => match m with None => true | Some _ => false end) (repeat None n) = true) by (induction n; auto).
    now rewrite E.
Qed.
End Layers.
