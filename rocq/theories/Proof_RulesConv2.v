(** Convolutions: what they compute, and their structure. *)
From Coq Require Import Reals ZArith List Arith Lia Lra Bool Permutation.
From Verif Require Import Base Tensor Reshape Model_Net Model_Predict Model_Empirical Model_Structure Model_Aggregate Model_Structured Model_Lax Model_Rules
  Spec_Structure Spec_Structured Spec_Rules Proof_Linalg Proof_Tsum Proof_Einsum Proof_Structure Proof_Structured Proof_Structured2 Proof_Structured3 Proof_Structured4 Proof_Rules Proof_Rules2 Proof_Rules3 Proof_Rules4 Proof_Rules5 Proof_Rules9 Proof_Rules10 Proof_Rules11 Proof_RulesConv.
Import ListNotations.
Local Open Scope R_scope.

Lemma range_one s l v : in_range (s :: l) v -> exists a r, v = a :: r /\ (a < s)%nat /\ in_range l r.
Proof. intros R. inversion R as [|a ? v1 ? Ha R1]; subst. exists a, v1. auto. Qed.
Lemma group_lt o O G : (o < O)%nat -> (0 < G)%nat -> (O mod G = 0)%nat -> (o / (O / G) < G)%nat.
Proof.
  intros Ho HG HM. assert (E : (O = G * (O / G))%nat) by (rewrite (Nat.div_mod O G) at 1; lia). apply Nat.div_lt_upper_bound; [|lia]. intros Z. rewrite Z in E. lia.
Qed.

(** * The sum *)

Definition conv_src (p : prim) (ws us ys k y : list nat) : list nat :=
  match p with ConvGeneralDilated c => conv_rhs c (spec_read (c_out c) y) k | _ => [] end.
Definition conv_co (p : prim) (ws us ys k y : list nat) (u : tensor R) : R :=
  match p with ConvGeneralDilated c => if conv_hit c us ws (spec_read (c_out c) y) k then entry u (conv_lhs c us ws (spec_read (c_out c) y) k) else 0 | _ => 0 end.
Definition conv_valid0 (K : list nat) (p : prim) (ws us ys : list nat) : Prop :=
  exists c n N C X O I F, p = ConvGeneralDilated c /\ geometry c us ws n N C X O I F /\ ys = conv_shape c us ws /\ K = I :: F.
Definition conv_valid (K : list nat) (p : prim) (ws us ys : list nat) : Prop :=
  exists c n N C X O I F, p = ConvGeneralDilated c /\ geometry c us ws n N C X O I F /\ ys = conv_shape c us ws /\ K = I :: F /\ (N <> 0 /\ C <> 0 /\ O <> 0)%nat.
Lemma conv_valid_0 K p ws us ys : conv_valid K p ws us ys -> conv_valid0 K p ws us ys.
Proof. intros (c & n & N & C & X & O & I & F & E & g & Ey & EK & _). exists c, n, N, C, X, O, I, F. auto. Qed.

Lemma conv_eval K p ws us ys (t u : tensor R) : conv_valid0 K p ws us ys -> shape t = ws -> shape u = us -> exists o, lax_eval p (pair_at 1 t u) = Ok o /\ shape o = ys /\
    forall y, in_range ys y -> entry o y = tsum K (fun k => conv_co p ws us ys k y u * entry t (conv_src p ws us ys k y)).
Proof.
  intros (c & n & N & C & X & O & I & F & -> & g & -> & ->) <- <-. cbn [pair_at Nat.eqb lax_eval]. unfold lax_conv. rewrite (geometry_conv_ok _ _ _ _ _ _ _ _ _ _ g). eexists. split; [reflexivity|]. split; [reflexivity|].
  intros y Hy. cbn [entry]. destruct (geometry_reads _ _ _ _ _ _ _ _ _ _ g) as [R1 R2]. rewrite R2. cbn [skipn]. apply tsum_ext. intros k Hk. unfold conv_co, conv_src. match goal with |- context [if ?b then _ else _] => destruct b end; ring.
Qed.
Lemma conv_src_range K p ws us ys k y : conv_valid0 K p ws us ys -> in_range K k -> in_range ys y -> in_range ws (conv_src p ws us ys k y).
Proof.
  intros (c & n & N & C & X & O & I & F & -> & g & -> & ->) Hk Hy. destruct (conv_coords _ _ _ _ _ _ _ _ _ _ g y Hy) as (b & o & yy & -> & R & Hb & Ho & Hyy & L).
  unfold conv_src, conv_rhs. rewrite R. cbn [nth]. rewrite (g_ws _ _ _ _ _ _ _ _ _ _ g). apply (range_layout n); [apply g|destruct (geometry_lens _ _ _ _ _ _ _ _ _ _ g) as (_ & _ & _ & H); exact H|]. constructor; auto.
Qed.
Lemma conv_affine K p ws us ys x u : conv_valid0 K p ws us ys -> shape u = us ->
  affine p 1 (pair_at 1 x u) ws ys (sums K (fun k y => Some (conv_src p ws us ys k y)) (fun k y => conv_co p ws us ys k y u)).
Proof.
  intros V Hu. apply (products_affine 1 K (conv_valid0 K) conv_src conv_co); auto.
  - intros. now apply conv_eval.
  - intros. eapply conv_src_range; eauto.
Qed.

Lemma windows_hit_pos ws X y k : length X = length ws -> windows_hit ws X y k = true -> in_range X (windows_pos ws y k).
Proof.
  intros L H. unfold windows_hit in H. rewrite forallb_forall in H. apply Tensor.in_range_nth. unfold windows_pos. rewrite map_length, seq_length. split; [lia|]. intros d Hd.
  rewrite (nth_indep _ 0%nat ((fun d => window_pos (nth d ws (mkWindow 1 1 0 0 1 1)) (nth d y 0%nat) (nth d k 0%nat)) 0%nat)) by (rewrite map_length, seq_length; lia).
  rewrite (map_nth (fun d => window_pos (nth d ws (mkWindow 1 1 0 0 1 1)) (nth d y 0%nat) (nth d k 0%nat))). rewrite seq_nth by lia. cbn [Nat.add].
  specialize (H d). unfold window_hit in H. assert (I : In d (seq 0 (length ws))) by (apply in_seq; lia). specialize (H I). apply andb_prop in H. destruct H as [_ H]. apply Nat.ltb_lt in H. exact H.
Qed.

(** In the image. *)
Lemma conv_affine_image K p ws us ys t x : conv_valid0 K p ws us ys -> shape t = ws ->
  affine p 0 [x; t] us ys (sums K (fun k y => match p with ConvGeneralDilated c => if conv_hit c us ws (spec_read (c_out c) y) k then Some (conv_lhs c us ws (spec_read (c_out c) y) k) else None | _ => None end)
    (fun k y => entry t (conv_src p ws us ys k y))).
Proof.
  intros V Ht. apply sums_affine with (base := fun _ => 0).
  - destruct V as (c & n & N & C & X & O & I & F & -> & g & -> & ->). intros k y v Hk Hy Ev. destruct (conv_coords _ _ _ _ _ _ _ _ _ _ g y Hy) as (b & o & yy & -> & R & Hb & Ho & Hyy & L).
    rewrite R in Ev. destruct (conv_hit c us ws (b :: o :: yy) k) eqn:Hh; [|easy]. injection Ev as <-. rewrite (conv_hit_at _ _ _ _ _ _ _ _ _ _ g) in Hh. rewrite (conv_lhs_at _ _ _ _ _ _ _ _ _ _ g).
    rewrite (g_us _ _ _ _ _ _ _ _ _ _ g) at 1. apply (range_layout n); [apply g|destruct (geometry_lens _ _ _ _ _ _ _ _ _ _ g) as (_ & _ & H & _); exact H|].
    destruct (range_one _ _ _ Hk) as (i & kk & -> & Hi & Hkk). pose proof (group_lt o O (c_fgroups c) Ho (g_G _ _ _ _ _ _ _ _ _ _ g) (g_OG _ _ _ _ _ _ _ _ _ _ g)) as G1.
    pose proof (group_lt o O (c_bgroups c) Ho (g_B _ _ _ _ _ _ _ _ _ _ g) (g_OB _ _ _ _ _ _ _ _ _ _ g)) as G2. unfold image_at. cbn [nth skipn] in *. constructor; [|constructor].
    + pose proof (g_NB _ _ _ _ _ _ _ _ _ _ g) as NB. pose proof (g_B _ _ _ _ _ _ _ _ _ _ g) as HB. assert (E : (N = c_bgroups c * (N / c_bgroups c))%nat) by (rewrite (Nat.div_mod N (c_bgroups c)) at 1; lia). rewrite E at 2. nia.
    + rewrite (g_C _ _ _ _ _ _ _ _ _ _ g). nia.
    + apply windows_hit_pos; auto. unfold conv_windows. rewrite map_length, combine_length. destruct g. lia.
  - intros x' Hx'. destruct (conv_eval K p ws us ys t x' V Ht Hx') as (o & Eo & So & Fo). exists o. cbn [update pair_at Nat.eqb] in *. split; auto. split; auto. intros y Hy. rewrite Fo by auto. rewrite Rplus_0_l. apply tsum_ext. intros k Hk.
    destruct V as (c & n & N & C & X & O & I & F & -> & _). unfold conv_co. match goal with |- context [if ?b then _ else _] => destruct b end; ring.
Qed.

(** * Trimming *)

Definition ungrouped (c : conv) : conv := mkConv (c_lhs c) (c_rhs c) (c_out c) (c_dims c) 1 1.

Lemma conv_e_reads c us ws vs n N C X O I F N' C' O' : geometry c us ws n N C X O I F ->
  map vshape vs = [spec_layout (c_lhs c) (N' :: C' :: X); spec_layout (c_rhs c) (O' :: I :: F)] ->
  _conv_general_dilated_e c vs = mkConv (c_lhs c) (c_rhs c) (c_out c) (c_dims c)
    (if (C' <? c_fgroups c)%nat || (O' <? c_fgroups c)%nat then 1%nat else c_fgroups c) (if (O' <? c_bgroups c)%nat || (N' <? c_bgroups c)%nat then 1%nat else c_bgroups c).
Proof.
  intros g E. destruct vs as [|v0 [|v1 [|]]]; try easy. cbn in E. injection E as E0 E1. unfold _conv_general_dilated_e. cbn [nth]. rewrite E0, E1.
  destruct (geometry_lens _ _ _ _ _ _ _ _ _ _ g) as (_ & _ & L1 & L2). rewrite !(read_layout n) by (auto; apply g). reflexivity.
Qed.
Lemma mod_le O G : (O <> 0)%nat -> (0 < G)%nat -> (O mod G = 0)%nat -> (O <? G)%nat = false.
Proof. intros H HG M. apply Nat.ltb_ge. destruct (Nat.lt_ge_cases O G) as [L|L]; auto. rewrite Nat.mod_small in M by auto. lia. Qed.
Lemma conv_e_same c us ws n N C X O I F u : geometry c us ws n N C X O I F -> (N <> 0 /\ C <> 0 /\ O <> 0)%nat -> shape u = us ->
  _conv_general_dilated_e c [Known u; Undefined ws] = c.
Proof.
  intros g (HN & HC & HO) Hu. rewrite (conv_e_reads c us ws _ n N C X O I F N C O g). 2:{ cbn. rewrite Hu. destruct g. now subst us ws. }
  destruct g. rewrite (mod_le O) by auto. rewrite (mod_le O) by auto. rewrite (mod_le N) by auto. replace (C <? c_fgroups c)%nat with false; [now destruct c|].
  symmetry. apply Nat.ltb_ge. subst C. destruct I; [lia|]. nia.
Qed.

Lemma ungrouped_geometry c us ws n N C X O I F N' C' O' : geometry c us ws n N C X O I F -> C' = I ->
  geometry (ungrouped c) (spec_layout (c_lhs c) (N' :: C' :: X)) (spec_layout (c_rhs c) (O' :: I :: F)) n N' C' X O' I F.
Proof.
  intros [] ->. constructor; cbn [ungrouped c_lhs c_rhs c_out c_dims c_fgroups c_bgroups]; auto. lia.
Qed.

(** The structures of the rule. *)
Lemma conv_structure c us ws n N C X O I F ys : geometry c us ws n N C X O I F ->
  let o := nth 1 (c_out c) 0%nat in let w := nth 0 (c_rhs c) 0%nat in
  exists TI A B D, structure_rule (ConvGeneralDilated c) 1 (pair_at 1 ws us) ys = Ok (product_with TI 1 A B D) /\
  ((A = [] /\ B = [] /\ D = [(o, (w, nth 1 (c_lhs c) 0%nat))] /\ TI = [] /\ O = c_fgroups c /\ I = 1%nat /\ C = c_fgroups c) \/
   (A = [] /\ B = [] /\ D = [(o, (w, nth 0 (c_lhs c) 0%nat))] /\ TI = [] /\ O = c_bgroups c /\ N = c_bgroups c) \/
   (A = [o] /\ B = [w] /\ D = [] /\ TI = [1%nat] /\ c_fgroups c = 1%nat /\ c_bgroups c = 1%nat) \/
   (A = [] /\ B = [] /\ D = [] /\ TI = [])).
Proof.
  intros g o w. destruct (geometry_reads _ _ _ _ _ _ _ _ _ _ g) as [R1 R2]. cbn [pair_at Nat.eqb structure_rule get_item nth_error bind]. unfold _conv_general_dilated_s. cbn [Nat.eqb negb get_item nth_error bind]. rewrite R1, R2. cbn [nth].
  destruct ((O =? c_fgroups c)%nat && (I =? 1)%nat) eqn:E1.
  - apply andb_prop in E1. destruct E1 as [E1 E2]. apply Nat.eqb_eq in E1, E2. assert (EC : C = c_fgroups c) by (rewrite (g_C _ _ _ _ _ _ _ _ _ _ g); lia). rewrite <- EC, Nat.eqb_refl.
    exists [], [], [], [(o, (w, nth 1 (c_lhs c) 0%nat))]. split; [reflexivity|]. left. repeat split; auto. lia.
  - destruct ((N =? c_bgroups c)%nat && (O =? c_bgroups c)%nat) eqn:E2.
    + apply andb_prop in E2. destruct E2 as [E2 E3]. apply Nat.eqb_eq in E2, E3. exists [], [], [], [(o, (w, nth 0 (c_lhs c) 0%nat))]. split; [reflexivity|]. right. left. repeat split; auto.
    + destruct ((c_bgroups c =? c_fgroups c)%nat && (c_fgroups c =? 1)%nat) eqn:E3.
      * apply andb_prop in E3. destruct E3 as [E3 E4]. apply Nat.eqb_eq in E3, E4. exists [1%nat], [o], [w], []. split; [reflexivity|]. right. right. left. repeat split; auto. lia.
      * exists [], [], [], []. split; [reflexivity|]. right. right. right. auto.
Qed.
