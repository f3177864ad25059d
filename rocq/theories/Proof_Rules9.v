(** [add] and [sub]. *)
From Coq Require Import Reals ZArith List Arith Lia Lra Bool Permutation.
From Verif Require Import Base Tensor Reshape Model_Net Model_Predict Model_Empirical Model_Structure Model_Aggregate Model_Structured Model_Lax Model_Rules
  Spec_Structure Spec_Structured Spec_Rules Proof_Linalg Proof_Tsum Proof_Einsum Proof_Aggregate Proof_Structure Proof_Structured Proof_Structured2 Proof_Structured3 Proof_Structured4 Proof_Rules Proof_Rules2 Proof_Rules3 Proof_Rules4 Proof_Rules5 Proof_Rules6 Proof_Rules7 Proof_Rules8.
From Verif Require Proof_BranchMask Proof_Branching Proof_Axes2.
Import ListNotations.
Local Open Scope R_scope.

Notation clip_nth := Proof_BranchMask.clip_nth.
Notation bcompat_spec := Proof_BranchMask.bcompat_spec.
Notation bshape_nth := Proof_BranchMask.bshape_nth.

(** * Broadcasting two arrays *)

Definition binary_valid (ws os ys : list nat) : Prop :=
  (os = [] /\ ys = ws) \/ (ws = [] /\ ys = os) \/
  (length ws = length os /\ length ys = length ws /\ forall a, (a < length ws)%nat ->
     (nth a ws 0 = nth a os 0 \/ nth a ws 0 = 1 \/ nth a os 0 = 1)%nat /\ nth a ys 0%nat = if (nth a ws 0 =? 1)%nat then nth a os 0%nat else nth a ws 0%nat).

Lemma binary_valid_sym ws os ys : binary_valid ws os ys -> binary_valid os ws ys.
Proof.
  intros [H|[H|(L1 & L2 & H)]]; [right; now left|now left|]. right. right. repeat split; try lia.
  - destruct (H a ltac:(lia)) as [[Q|[Q|Q]] _]; auto.
  - destruct (H a ltac:(lia)) as [Q ->]. destruct (Nat.eqb_spec (nth a ws 0%nat) 1), (Nat.eqb_spec (nth a os 0%nat) 1); lia.
Qed.
Lemma binary_valid_length ws os ys : binary_valid ws os ys -> (length ws <= length ys)%nat.
Proof. intros [[-> ->]|[[-> ->]|(L1 & L2 & H)]]; cbn; lia. Qed.
Lemma clip_empty i : clip [] i = [].
Proof. reflexivity. Qed.
Lemma clip_id sh i : in_range sh i -> clip sh i = i.
Proof. apply Proof_Axes2.clip_id. Qed.
Lemma binary_clip_range ws os ys y : binary_valid ws os ys -> in_range ys y -> in_range ws (clip ws y).
Proof.
  intros [[-> ->]|[[-> ->]|(L1 & L2 & H)]] Hy; [now rewrite clip_id|constructor|].
  pose proof (in_range_length _ _ Hy) as Ly. apply in_range_nth in Hy. destruct Hy as [_ Hy]. apply in_range_nth. rewrite Proof_BranchMask.clip_length by lia. split; [lia|]. intros a Ha.
  rewrite clip_nth by lia. specialize (Hy a ltac:(lia)). destruct (H a Ha) as [_ Q]. destruct (Nat.eqb_spec (nth a ws 0%nat) 1); lia.
Qed.

Lemma binary_eval f ws os ys t u : binary_valid ws os ys -> shape t = ws -> shape u = os -> exists o, lax_binary f t u = Ok o /\ shape o = ys /\
  forall y, in_range ys y -> entry o y = f (entry t (clip ws y)) (entry u (clip os y)).
Proof.
  intros V Ht Hu. unfold lax_binary, ndim. rewrite Ht, Hu. destruct (Nat.eqb_spec (length ws) 0) as [Z|Z].
  - destruct ws; [|easy]. eexists. split; [reflexivity|]. cbn [shape entry]. assert (E : ys = os). { destruct V as [[-> ->]|[[_ ->]|(L1 & L2 & H)]]; auto. destruct os, ys; easy. }
    subst ys. split; auto. intros y Hy. now rewrite (clip_id os).
  - destruct (Nat.eqb_spec (length os) 0) as [Z'|Z'].
    + destruct os; [|easy]. eexists. split; [reflexivity|]. cbn [shape entry]. assert (E : ys = ws). { destruct V as [[_ ->]|[[-> ->]|(L1 & L2 & H)]]; auto. cbn in L1; lia. }
      subst ys. split; auto. intros y Hy. now rewrite (clip_id ws).
    + destruct V as [[-> _]|[[-> _]|(L1 & L2 & H)]]; [easy|easy|]. assert (C : bcompat ws os = true). { apply bcompat_spec. split; auto. intros a Ha. now apply H. }
      unfold broadcast2. rewrite Ht, Hu, C. eexists. split; [reflexivity|]. cbn [shape entry]. split; auto.
      apply list_nth_eq; [rewrite Proof_BranchMask.bshape_length; auto|]. rewrite Proof_BranchMask.bshape_length by auto. intros a Ha. rewrite bshape_nth by auto. symmetry. now apply H.
Qed.
Lemma binary_eval_r f ws os ys t u : binary_valid ws os ys -> shape t = ws -> shape u = os -> exists o, lax_binary f u t = Ok o /\ shape o = ys /\
  forall y, in_range ys y -> entry o y = f (entry u (clip os y)) (entry t (clip ws y)).
Proof. intros V Ht Hu. apply (binary_eval f os ws ys u t); auto. now apply binary_valid_sym. Qed.

(** What evaluates has broadcast shapes. *)
Lemma binary_inv f t u o : lax_binary f t u = Ok o -> binary_valid (shape t) (shape u) (shape o).
Proof.
  unfold lax_binary, ndim. destruct (Nat.eqb_spec (length (shape t)) 0) as [Z|Z].
  - intros E. injection E as <-. right. left. destruct (shape t); easy.
  - destruct (Nat.eqb_spec (length (shape u)) 0) as [Z'|Z'].
    + intros E. injection E as <-. left. destruct (shape u); easy.
    + destruct (bcompat (shape t) (shape u)) eqn:C; [|easy]. unfold broadcast2. rewrite C. intros E. injection E as <-. cbn [shape]. apply bcompat_spec in C. destruct C as [L C].
      right. right. split; auto. split; [now rewrite Proof_BranchMask.bshape_length|]. intros a Ha. split; [now apply C|]. now apply bshape_nth.
Qed.

(** * Pairs of inputs *)

Definition pair_at {A} (idx : nat) (a b : A) : list A := if (idx =? 0)%nat then [a; b] else [b; a].
Lemma pair_nth {A} idx (a b : A) : (idx <= 1)%nat -> nth_error (pair_at idx a b) idx = Some a /\ nth_error (pair_at idx a b) (other_idx idx) = Some b.
Proof. intros H. destruct idx as [|[|]]; [now split|now split|lia]. Qed.
Lemma pair_map {A B} (f : A -> B) idx a b : map f (pair_at idx a b) = pair_at idx (f a) (f b).
Proof. unfold pair_at. now destruct (idx =? 0)%nat. Qed.
Lemma pair_update {A} idx (a b c : A) : (idx <= 1)%nat -> update (pair_at idx a b) idx c = pair_at idx c b.
Proof. intros H. destruct idx as [|[|]]; [reflexivity|reflexivity|lia]. Qed.

Definition trims (l : list nat) (v : value) : value := fold_left (fun v ax => trim_value [ax] v) l v.
Lemma trims_shape : forall l v, vshape (trims l v) = trimmed l (vshape v).
Proof.
  induction l as [|a l IH]; intros v; cbn; [now rewrite trimmed_nil|]. unfold trims in IH. rewrite IH, trim_value_shape, trimmed_trimmed. apply trimmed_ext. intros k _. right. rewrite in_app_iff. cbn. tauto.
Qed.
Lemma trims_undefined l sh : trims l (Undefined sh) = Undefined (trimmed l sh).
Proof.
  revert sh. induction l as [|a l IH]; intros sh; cbn; [now rewrite trimmed_nil|]. unfold trims in IH. rewrite IH. change (trim_axis [a] sh) with (trimmed [a] sh). rewrite trimmed_trimmed. f_equal. apply trimmed_ext. intros k _. right. rewrite in_app_iff. cbn. tauto.
Qed.
Lemma foldM_trim_fst : forall l a b, foldM (fun ax => trim_at 0 [ax]) l [a; b] = Ok [trims l a; b].
Proof. induction l as [|x l IH]; intros a b; [reflexivity|]. cbn [foldM]. change (trim_at 0 [x] [a; b]) with (Ok [trim_value [x] a; b]). cbn [bind]. apply IH. Qed.
Lemma foldM_trims_fst : forall l a b, foldM (fun ax => foldM (fun i => trim_at i [ax]) [0%nat]) l [a; b] = Ok [trims l a; b].
Proof. induction l as [|x l IH]; intros a b; [reflexivity|]. cbn [foldM]. change (trim_at 0 [x] [a; b]) with (Ok [trim_value [x] a; b]). cbn [bind]. apply IH. Qed.
Lemma foldM_trims_snd : forall l a b, foldM (fun ax => foldM (fun i => trim_at i [ax]) [1%nat]) l [a; b] = Ok [a; trims l b].
Proof. induction l as [|x l IH]; intros a b; [reflexivity|]. cbn [foldM]. change (trim_at 1 [x] [a; b]) with (Ok [a; trim_value [x] b]). cbn [bind]. apply IH. Qed.

(** Inputs of a sum along traced axes [T] and broadcast axes [O]. *)
Lemma trim_pair idx ws v s T O : (idx <= 1)%nat -> in_trace s = T -> in_trace_idxs s = [0; 1]%nat -> in_broadcast s = O -> in_broadcast_idx s = 0%nat ->
  out_broadcast s = O -> out_broadcast_idxs s = [other_idx idx] -> in_diagonal s = [] ->
  (forall a, In a O -> (a < length ws)%nat -> nth a ws 0%nat = 1%nat) ->
  exists v', _trim_invals (pair_at idx (Undefined ws) v) s = Ok (pair_at idx (Undefined (trimmed T ws)) v') /\ vshape v' = trimmed (T ++ O) (vshape v).
Proof.
  intros Hi H1 H2 H3 H4 H5 H6 H7 H8. unfold _trim_invals. rewrite H1, H2, H3, H4, H5, H6, H7.
  assert (W : trimmed O (trimmed T ws) = trimmed T ws).
  { rewrite trimmed_trimmed. apply trimmed_ext. intros k Hk. rewrite in_app_iff. destruct (in_dec Nat.eq_dec k O) as [I|I]; [left; auto|right; tauto]. }
  destruct idx as [|[|]]; [| |lia].
  - exists (trims O (trim_value T v)). change (pair_at 0 (Undefined ws) v) with [Undefined ws; v].
    change (foldM (fun i => trim_at i T) [0; 1]%nat [Undefined ws; v]) with (Ok [Undefined (trimmed T ws); trim_value T v]). cbn [bind].
    rewrite foldM_trim_fst. cbn [bind]. change (other_idx 0) with 1%nat. rewrite foldM_trims_snd. cbn [bind]. rewrite trim_diagonal_nil, trims_undefined, W. split; [reflexivity|].
    rewrite trims_shape, trim_value_shape, trimmed_trimmed. apply trimmed_ext. intros k _. right. rewrite !in_app_iff. tauto.
  - exists (trims O (trims O (trim_value T v))). change (pair_at 1 (Undefined ws) v) with [v; Undefined ws].
    change (foldM (fun i => trim_at i T) [0; 1]%nat [v; Undefined ws]) with (Ok [trim_value T v; Undefined (trimmed T ws)]). cbn [bind].
    rewrite foldM_trim_fst. cbn [bind]. change (other_idx 1) with 0%nat. rewrite foldM_trims_fst. cbn [bind]. rewrite trim_diagonal_nil. split; [reflexivity|].
    rewrite !trims_shape, trim_value_shape, !trimmed_trimmed. apply trimmed_ext. intros k _. right. rewrite !in_app_iff. tauto.
Qed.

(** * The rule *)

Lemma broadcast_to_same t sh : length (shape t) = length sh -> (forall a, (a < length sh)%nat -> nth a (shape t) 0%nat = nth a sh 0%nat \/ nth a (shape t) 0%nat = 1%nat) ->
  exists o, jnp_broadcast_to t sh = Ok o /\ shape o = sh /\ forall i, entry o i = entry t (clip (shape t) i).
Proof.
  intros L H. unfold jnp_broadcast_to, lift, ndim. cbn [shape entry]. rewrite L, Nat.sub_diag. cbn [repeat app skipn]. rewrite L, Nat.eqb_refl.
  rewrite (combine_forallb_seq _ 0%nat 0%nat) by auto. cbn [fst snd]. replace (forallb _ (seq 0 (length (shape t)))) with true.
  2:{ symmetry. apply forallb_forall. intros a I. apply in_seq in I. destruct (H a ltac:(lia)) as [->| ->]; [now rewrite Nat.eqb_refl|apply orb_true_r]. }
  cbn [andb]. eexists. split; [reflexivity|]. cbn. auto.
Qed.
Lemma broadcast_to_scalar t sh : shape t = [] -> exists o, jnp_broadcast_to t sh = Ok o /\ shape o = sh /\ forall i, length i = length sh -> entry o i = entry t [].
Proof.
  intros L. unfold jnp_broadcast_to, lift, ndim. cbn [shape entry]. rewrite L. cbn [length]. rewrite Nat.sub_0_r, app_nil_r, repeat_length, Nat.eqb_refl.
  rewrite (combine_forallb_seq _ 0%nat 0%nat) by (apply repeat_length). cbn [fst snd]. replace (forallb _ (seq 0 (length (repeat 1%nat (length sh))))) with true.
  2:{ symmetry. apply forallb_forall. intros a I. apply in_seq in I. rewrite repeat_length in I. rewrite (nth_indep _ 0%nat 1%nat) by (rewrite repeat_length; lia). rewrite nth_repeat. apply orb_true_r. }
  cbn [andb]. eexists. split; [reflexivity|]. cbn [shape entry]. split; auto. intros i Li. f_equal. apply skipn_all2. unfold clip. rewrite map_length, combine_length, repeat_length. lia.
Qed.

Definition sign_of (is_sub : bool) (idx : nat) : R := if is_sub && (idx =? 1)%nat then -1 else 1.
Lemma add_rule is_sub idx ws os ys : (idx <= 1)%nat -> binary_valid ws os ys ->
  exists j, _add_j is_sub idx ws ys = Ok j /\ shape j = ys ++ ws /\
    forall y w, in_range ys y -> in_range ws w -> entry j (y ++ w) = gather (fun y => Some (clip ws y)) (fun _ => sign_of is_sub idx) y w.
Proof.
  intros Hi V. unfold _add_j. destruct (eye_square ws) as (j & Ej & Sj & Fj). rewrite Ej. cbn [bind].
  assert (B : exists o, jnp_broadcast_to j (ys ++ ws) = Ok o /\ shape o = ys ++ ws /\ forall y w, in_range ys y -> in_range ws w -> entry o (y ++ w) = entry j (clip ws y ++ w)).
  { destruct (list_eq_dec Nat.eq_dec ws []) as [E|E].
    - subst ws. destruct (broadcast_to_scalar j (ys ++ [])) as (o & Eo & So & Fo); auto. exists o. split; auto. split; auto. intros y w Hy Hw. inversion Hw; subst w. rewrite Fo; [reflexivity|].
      rewrite !app_nil_r. now apply in_range_length.
    - assert (Lw : length ys = length ws). { destruct V as [[_ ->]|[[-> _]|(L1 & L2 & H)]]; auto; easy. }
      destruct (broadcast_to_same j (ys ++ ws)) as (o & Eo & So & Fo).
      + rewrite Sj, !app_length. lia.
      + intros a Ha. rewrite Sj. rewrite app_length in Ha. destruct (Nat.lt_ge_cases a (length ws)) as [K|K].
        * rewrite !app_nth1 by lia. destruct V as [[_ ->]|[[-> _]|(L1 & L2 & H)]]; [now left|easy|]. destruct (H a K) as [_ ->]. destruct (Nat.eqb_spec (nth a ws 0%nat) 1); auto.
        * left. rewrite !app_nth2 by lia. f_equal. lia.
      + exists o. split; auto. split; auto. intros y w Hy Hw. rewrite Fo, Sj. f_equal. rewrite Proof_Axes2.clip_app by (rewrite (in_range_length _ _ Hy); auto). now rewrite (clip_id ws w). }
  destruct B as (o & Eo & So & Fo). rewrite Eo. cbn [bind]. eexists. split; [reflexivity|]. split; [now destruct (is_sub && (idx =? 1)%nat)|].
  intros y w Hy Hw. unfold gather, sign_of. pose proof (binary_clip_range _ _ _ _ V Hy) as Hc.
  destruct (is_sub && (idx =? 1)%nat); cbn [tmap entry]; rewrite Fo, Fj by auto; destruct (list_eq_dec Nat.eq_dec (clip ws y) w); ring.
Qed.

Definition add_prim (is_sub : bool) : prim := if is_sub then Sub else Add.
Lemma add_affine is_sub idx ws ys v : (idx <= 1)%nat -> binary_valid ws (vshape v) ys ->
  affine (add_prim is_sub) idx (pair_at idx (zeros ws) (filled v)) ws ys (gather (fun y => Some (clip ws y)) (fun _ => sign_of is_sub idx)).
Proof.
  intros Hi V. apply (gather_affine _ idx _ ws ys _ _ (fun y => (if is_sub && (idx =? 0)%nat then -1 else 1) * entry (filled v) (clip (vshape v) y))).
  - intros y u Hy Eu. injection Eu as <-. eapply binary_clip_range; eauto.
  - intros t Ht. rewrite pair_update by auto. set (f := if is_sub then Rminus else Rplus).
    destruct (binary_eval f ws (vshape v) ys t (filled v) V Ht (filled_shape v)) as (o1 & E1 & S1 & F1).
    destruct (binary_eval_r f ws (vshape v) ys t (filled v) V Ht (filled_shape v)) as (o2 & E2 & S2 & F2).
    destruct idx as [|[|]]; [| |lia].
    + exists o1. split; [destruct is_sub; exact E1|]. split; auto. intros y Hy. rewrite F1 by auto. unfold f, sign_of. destruct is_sub; cbn; ring.
    + exists o2. split; [destruct is_sub; exact E2|]. split; auto. intros y Hy. rewrite F2 by auto. unfold f, sign_of. destruct is_sub; cbn; ring.
Qed.

(** * Axes *)

Definition add_trace (ws os : list nat) : list nat :=
  if (length os =? 0)%nat then seq 0 (length ws) else if (length ws =? 0)%nat then []
  else filter (fun i => (nth i os 0 =? nth i ws 0)%nat || (nth i os 0 =? 1)%nat) (seq 0 (length ws)).
Definition add_broadcast (ws os : list nat) : list nat :=
  if (length os =? 0)%nat then [] else if (length ws =? 0)%nat then seq 0 (length os)
  else filter (fun i => negb ((nth i os 0 =? nth i ws 0)%nat || (nth i os 0 =? 1)%nat)) (seq 0 (length ws)).

Lemma add_loop_filter : forall ws os i, length ws = length os ->
  (forall a, (a < length ws)%nat -> nth a ws 0 = nth a os 0 \/ nth a ws 0 = 1 \/ nth a os 0 = 1)%nat ->
  add_loop i ws os = Ok (filter (fun k => (nth (k - i) os 0 =? nth (k - i) ws 0)%nat || (nth (k - i) os 0 =? 1)%nat) (seq i (length ws)),
                         filter (fun k => negb ((nth (k - i) os 0 =? nth (k - i) ws 0)%nat || (nth (k - i) os 0 =? 1)%nat)) (seq i (length ws))).
Proof.
  induction ws as [|a ws IH]; intros [|b os] i L H; cbn [length] in L; try lia; [reflexivity|]. cbn [add_loop length seq filter]. rewrite (IH os (S i)) by (try lia; intros k Hk; apply (H (S k)); cbn; lia).
  cbn [bind]. rewrite Nat.sub_diag. change (nth 0 (b :: os) 0%nat) with b. change (nth 0 (a :: ws) 0%nat) with a.
  assert (E : forall f : nat -> nat -> bool, filter (fun k => f (nth (k - S i) os 0%nat) (nth (k - S i) ws 0%nat)) (seq (S i) (length ws)) = filter (fun k => f (nth (k - i) (b :: os) 0%nat) (nth (k - i) (a :: ws) 0%nat)) (seq (S i) (length ws))).
  { intros f. apply filter_ext_in. intros k I. apply in_seq in I. replace (k - i)%nat with (S (k - S i)) by lia. reflexivity. }
  rewrite (E (fun x y => (x =? y)%nat || (x =? 1)%nat)). rewrite (E (fun x y => negb ((x =? y)%nat || (x =? 1)%nat))).
  destruct ((b =? a)%nat || (b =? 1)%nat) eqn:C; cbn [negb]; auto. destruct (H 0%nat ltac:(cbn; lia)) as [Q|[Q|Q]]; cbn in Q.
  - subst. now rewrite Nat.eqb_refl in C.
  - subst. reflexivity.
  - subst. now rewrite orb_true_r in C.
Qed.

Definition add_s (idx : nat) (ws os : list nat) : structure :=
  mkStructure (add_trace ws os) (add_trace ws os) [0; 1]%nat [] [] (add_broadcast ws os) [other_idx idx] [] 0.
Lemma add_structure is_sub idx ws ys v : (idx <= 1)%nat -> binary_valid ws (vshape v) ys ->
  structure_rule (add_prim is_sub) idx (map vshape (pair_at idx (Undefined ws) v)) ys = Ok (add_s idx ws (vshape v)).
Proof.
  intros Hi V. rewrite pair_map. cbn [vshape]. destruct (pair_nth idx ws (vshape v) Hi) as [N1 N2]. unfold structure_rule, get_item. rewrite N1. cbn [bind].
  transitivity (_add_s idx (pair_at idx ws (vshape v))); [now destruct is_sub|]. unfold _add_s, get_item. rewrite N1, N2. cbn [bind]. unfold add_s, add_trace, add_broadcast.
  set (os := vshape v) in *. destruct (Nat.eqb_spec (length os) 0); [reflexivity|]. destruct (Nat.eqb_spec (length ws) 0); [reflexivity|].
  destruct V as [[-> _]|[[-> _]|(L1 & L2 & H)]]; [easy|easy|]. rewrite L1, Nat.eqb_refl. rewrite (add_loop_filter ws os 0) by (auto; intros a Ha; now apply H). cbn [rmap].
  rewrite L1. f_equal. f_equal; apply filter_ext; intros k; now rewrite Nat.sub_0_r.
Qed.

Section Axes.
  Variables (ws os ys : list nat).
  Hypothesis (V : binary_valid ws os ys).
  Lemma add_trace_spec a : In a (add_trace ws os) -> (a < length ws)%nat /\ (a < length ys)%nat /\ nth a ys 0%nat = nth a ws 0%nat /\ (os = [] \/ nth a os 0 = nth a ws 0 \/ nth a os 0 = 1)%nat.
  Proof.
    unfold add_trace. destruct (Nat.eqb_spec (length os) 0) as [Z|Z].
    - intros I. apply in_seq in I. destruct os; [|easy]. assert (E : ys = ws). { destruct V as [[_ ->]|[[-> ->]|(L1 & L2 & H)]]; auto. destruct ws, ys; easy. } rewrite E. repeat split; auto; lia.
    - destruct (Nat.eqb_spec (length ws) 0); [easy|]. destruct V as [[-> _]|[[-> _]|(L1 & L2 & H)]]; [easy|easy|]. intros I. apply filter_In in I. destruct I as [I1 I2]. apply in_seq in I1.
      destruct (H a ltac:(lia)) as [_ ->]. apply orb_prop in I2. rewrite !Nat.eqb_eq in I2. repeat split; [lia|lia| |auto]. destruct (Nat.eqb_spec (nth a ws 0%nat) 1); lia.
  Qed.
  Lemma add_broadcast_spec a : In a (add_broadcast ws os) -> (a < length ys)%nat /\ (a < length os)%nat /\ ((a < length ws)%nat -> nth a ws 0%nat = 1%nat).
  Proof.
    unfold add_broadcast. destruct (Nat.eqb_spec (length os) 0) as [Z|Z]; [easy|]. destruct (Nat.eqb_spec (length ws) 0) as [Z2|Z2].
    - intros I. apply in_seq in I. destruct ws; [|easy]. assert (E : ys = os). { destruct V as [[-> ->]|[[_ ->]|(L1 & L2 & H)]]; auto. destruct os, ys; easy. } rewrite E. cbn. repeat split; lia.
    - destruct V as [[-> _]|[[-> _]|(L1 & L2 & H)]]; [easy|easy|]. intros I. apply filter_In in I. destruct I as [I1 I2]. apply in_seq in I1. apply negb_true_iff, orb_false_elim in I2. rewrite !Nat.eqb_neq in I2.
      destruct (H a ltac:(lia)) as [Q _]. repeat split; try lia.
  Qed.
  Lemma add_trace_NoDup : NoDup (add_trace ws os).
  Proof. unfold add_trace. destruct (_ =? _)%nat; [apply seq_NoDup|]. destruct (_ =? _)%nat; [constructor|]. apply NoDup_filter, seq_NoDup. Qed.
  Lemma add_broadcast_NoDup : NoDup (add_broadcast ws os).
  Proof. unfold add_broadcast. destruct (_ =? _)%nat; [constructor|]. destruct (_ =? _)%nat; [apply seq_NoDup|]. apply NoDup_filter, seq_NoDup. Qed.
  Lemma add_disjoint a : In a (add_trace ws os) -> In a (add_broadcast ws os) -> False.
  Proof.
    unfold add_trace, add_broadcast. destruct (_ =? _)%nat; [easy|]. destruct (_ =? _)%nat; [easy|]. rewrite !filter_In. intros [_ A] [_ B]. rewrite A in B. easy.
  Qed.

  (** Trimming traced and broadcast axes. *)
  Variables (T O : list nat).
  Hypothesis (HT : forall a, In a T -> In a (add_trace ws os)) (HO : forall a, In a O -> In a (add_broadcast ws os)).
  Lemma binary_trimmed : binary_valid (trimmed T ws) (trimmed (T ++ O) os) (trimmed (T ++ O) ys).
  Proof.
    assert (V0 := V). destruct V0 as [[E1 E2]|[[E1 E2]|(L1 & L2 & H)]].
    - left. rewrite E1, E2. split; [reflexivity|]. apply trimmed_ext. intros k Hk. right. rewrite in_app_iff. split; [|tauto]. intros [I|I]; auto.
      apply HO in I. rewrite E1 in I. easy.
    - right. left. rewrite E1, E2. split; reflexivity.
    - right. right. rewrite !trimmed_len. split; auto. split; auto. intros a Ha. destruct (H a Ha) as [Q1 Q2]. rewrite !trimmed_at by lia. unfold mem. rewrite existsb_app. fold (mem a T) (mem a O).
      destruct (mem a T) eqn:MT; cbn [orb]; [auto|]. destruct (mem a O) eqn:MO; [|auto]. apply mem_iff, HO, add_broadcast_spec in MO. destruct MO as (_ & _ & MO). rewrite MO by auto. auto.
  Qed.
  Lemma clip_trimmed y : in_range ys y -> clip (trimmed T ws) (zeroed (T ++ O) y) = zeroed T (clip ws y).
  Proof.
    intros Hy. pose proof (binary_clip_range _ _ _ _ V Hy) as Hc. pose proof (in_range_length _ _ Hc) as Lc. pose proof (in_range_length _ _ Hy) as Ly. pose proof (binary_valid_length _ _ _ V) as Lw.
    assert (EL : length ws = 0%nat \/ length ws = length y). { destruct V as [[_ ->]|[[-> _]|(L1 & L2 & H)]]; [right; lia|now left|right; lia]. }
    destruct EL as [EL|EL]; [destruct ws; easy|].
    apply list_nth_eq; [rewrite Proof_BranchMask.clip_length, zeroed_length, zeroed_length; rewrite ?trimmed_len, ?zeroed_length; lia|].
    rewrite Proof_BranchMask.clip_length by (rewrite trimmed_len, zeroed_length; lia). rewrite zeroed_length. intros a Ha.
    rewrite clip_nth by (rewrite ?trimmed_len, ?zeroed_length; lia). rewrite trimmed_at by lia. rewrite !zeroed_nth, clip_nth by lia. unfold mem at 2. rewrite existsb_app. fold (mem a T) (mem a O).
    destruct (mem a T) eqn:MT; cbn [orb Nat.eqb]; auto. destruct (mem a O) eqn:MO; auto. apply mem_iff, HO, add_broadcast_spec in MO. destruct MO as (_ & _ & MO). rewrite MO by lia. reflexivity.
  Qed.
End Axes.

Lemma add_rule_ok is_sub idx ws v ys : (idx <= 1)%nat -> binary_valid ws (vshape v) ys ->
  rule_ok (add_prim is_sub) idx (pair_at idx (Undefined ws) v) ws ys (gather (fun y => Some (clip ws y)) (fun _ => sign_of is_sub idx)).
Proof.
  intros Hi V. unfold rule_ok. destruct (pair_nth idx (Undefined ws) v Hi) as [N1 _]. destruct (add_rule is_sub idx ws (vshape v) ys Hi V) as (j & E & S & F).
  unfold jacobian_rule. rewrite (nth_error_nth _ _ _ N1). cbn [vshape]. destruct is_sub; cbn [add_prim]; eauto.
Qed.

Lemma add_sound is_sub idx ws v ys c : (idx <= 1)%nat -> binary_valid ws (vshape v) ys -> common ws c ->
  sound (add_prim is_sub) idx (pair_at idx (Undefined ws) v) ws ys c (gather (fun y => Some (clip ws y)) (fun _ => sign_of is_sub idx)).
Proof.
  intros Hi V Hc. destruct (pair_nth idx (Undefined ws) v Hi) as [N1 _]. assert (Hp : not_reshape (add_prim is_sub)) by (now destruct is_sub).
  assert (Hpu : forall a, use_shape (add_prim is_sub) a ws = a) by (now destruct is_sub).
  intros [|] jr.
  - set (s := add_s idx ws (vshape v)). set (A := add_trace ws (vshape v)). set (O := add_broadcast ws (vshape v)).
    set (s' := restrict (fun i => mem i (in_trace c)) (fun i => mem i (out_diagonal c)) (fun i => mem i (out_broadcast c)) s).
    set (P := filter (fun x => mem (snd x) (in_trace c)) (combine A A)).
    set (T := map snd P). set (O' := filter (fun i => mem i (out_broadcast c)) O).
    assert (EP : map fst P = T). { unfold T, P. generalize A. intros l. induction l as [|x l IH]; cbn; auto. destruct (mem x (in_trace c)); cbn; congruence. }
    assert (E1 : out_trace s' = T) by exact EP. assert (E2 : in_trace s' = T) by reflexivity. assert (E3 : out_broadcast s' = O') by reflexivity.
    assert (HT : forall a, In a T -> In a A). { intros a I. unfold T in I. apply in_map_iff in I. destruct I as ((x & z) & <- & I). apply filter_In in I. destruct I as [I _]. now apply in_combine_r in I. }
    assert (HO : forall a, In a O' -> In a O). { intros a I. apply filter_In in I. apply I. }
    assert (V' := binary_trimmed ws (vshape v) ys V T O' HO).
    destruct (trim_pair idx ws v s' T O' Hi) as (v' & Tv & Sv); auto. { intros a I. apply HO in I. apply (add_broadcast_spec ws (vshape v) ys V) in I. apply I. }
    rewrite <- Sv in V'.
    assert (Fit : fits s (in_trace s) [] (use_shape (add_prim is_sub) ys ws) ws).
    { rewrite Hpu. unfold fits. cbn [s add_s out_trace out_diagonal out_broadcast in_trace app length combine]. fold A O. rewrite !app_nil_r. repeat split; auto.
      - apply NoDup_app_intro; [apply add_trace_NoDup|apply add_broadcast_NoDup|]. apply add_disjoint.
      - apply Forall_app. split; apply Forall_forall; intros x X; [apply (add_trace_spec ws (vshape v) ys V) in X|apply (add_broadcast_spec ws (vshape v) ys V) in X]; apply X.
      - apply add_trace_NoDup.
      - apply Forall_forall. intros x X. apply (add_trace_spec ws (vshape v) ys V) in X. apply X.
      - apply Forall_forall. intros [a b] X. apply in_combine_same in X. destruct X as [<- X]. apply (add_trace_spec ws (vshape v) ys V) in X. apply X. }
    destruct (no_diagonal (add_prim is_sub) idx (pair_at idx (Undefined ws) v) ws ys c s (gather (fun y => Some (clip ws y)) (fun _ => sign_of is_sub idx)) N1 Hc
      (add_structure is_sub idx ws ys v Hi V) eq_refl eq_refl Fit (pair_at idx (Undefined (trimmed T ws)) v') (Undefined (trimmed T ws)) (trimmed (T ++ O') ys)
      (gather (fun y => Some (clip (trimmed T ws) y)) (fun _ => sign_of is_sub idx)) (gather (fun y => Some (clip (trimmed T ws) y)) (fun _ => sign_of is_sub idx)) jr) as (r & Er & F & G).
    + exact Tv.
    + apply pair_nth; auto.
    + reflexivity.
    + rewrite trim_eqn_id by auto. rewrite pair_map. now apply add_affine.
    + fold s'. now rewrite E1, E3, Hpu.
    + fold s'. rewrite E1, E3, Hpu. intros y w Hy Hw. now rewrite unravel_ravel.
    + fold s'. rewrite trim_eqn_id by auto. rewrite E1, E2, E3, Hpu. now apply add_rule_ok.
    + intros y w Hy Hw. rewrite Hpu in Hy. rewrite restrict_pairs. change (filter _ (combine (out_trace s) (in_trace s))) with P. fold s'. rewrite E1, E2, E3. apply (gather_structure P).
      * intros a b I u Eu. injection Eu as <-. apply filter_In in I. destruct I as [I _]. apply in_combine_same in I. destruct I as [<- I]. destruct (add_trace_spec ws (vshape v) ys V a I) as (Q1 & Q2 & Q3 & Q4).
        pose proof (in_range_length _ _ Hy) as Ly. assert (Lw : length ws = length ys). { destruct V as [[_ ->]|[[-> _]|(L1 & L2 & H)]]; auto. cbn in Q1. lia. }
        rewrite clip_nth by lia. destruct (Nat.eqb_spec (nth a ws 0%nat) 1) as [Z|]; auto. apply in_range_nth in Hy. destruct Hy as [_ Hy]. specialize (Hy a Q2). lia.
      * intros u Eu. injection Eu as <-. rewrite (in_range_length _ _ Hw). apply in_range_length. eapply binary_clip_range; eauto.
      * cbn [option_map]. apply some_eq. now apply (clip_trimmed ws (vshape v) ys V T O').
      * reflexivity.
    + exists r, s'. split; [exact Er|]. split; [exact F|exact G].
  - edestruct (no_rules (add_prim is_sub) idx (pair_at idx (Undefined ws) v) ws ys c (gather (fun y => Some (clip ws y)) (fun _ => sign_of is_sub idx))
      (gather (fun y => Some (clip ws y)) (fun _ => sign_of is_sub idx)) jr) as (r & Er & F & G); auto.
    + rewrite pair_map. now apply add_affine.
    + now rewrite Hpu.
    + rewrite Hpu. intros y w Hy Hw. now rewrite unravel_ravel.
    + rewrite Hpu. now apply add_rule_ok.
    + exists r, empty_structure. auto.
Qed.
