(** Jacobians and NTK-vector products of functions known by their entries. *)
From Coq Require Import Reals ZArith List Arith Bool Lia Lra.
From Coquelicot Require Import Coquelicot.
From Verif Require Import Base Tensor Reshape Model_Net Proof_Net Model_Predict Model_Empirical Proof_Tsum Model_Structure Proof_Empirical
  Spec_Empirical Model_Vmap Spec_Vmap Proof_Vmap.
Import ListNotations.
Local Open Scope R_scope.

Lemma nth_enumerate {A} (l : list A) k d d' : (k < length l)%nat -> nth k (enumerate l) d = (k, nth k l d').
Proof.
  intros H. unfold enumerate. rewrite (nth_indep _ _ (0%nat, d')) by (rewrite combine_length, seq_length; lia).
  rewrite combine_nth by apply seq_length. now rewrite seq_nth by lia.
Qed.
Lemma enumerate_length {A} (l : list A) : length (enumerate l) = length l.
Proof. unfold enumerate. rewrite combine_length, seq_length. lia. Qed.
Lemma nth_map_in {A B} (g : A -> B) l k d d' : (k < length l)%nat -> nth k (map g l) d = g (nth k l d').
Proof. intros H. rewrite (nth_indep _ _ (g d')) by (now rewrite map_length). apply map_nth. Qed.
Lemma nth_map_enumerate {A B} (g : nat * A -> B) l k d d' : (k < length l)%nat -> nth k (map g (enumerate l)) d = g (k, nth k l d').
Proof. intros H. rewrite (nth_map_in g _ _ _ (0%nat, d')) by (now rewrite enumerate_length). now rewrite (nth_enumerate _ _ _ d'). Qed.
Lemma lsum_seq {A} (l : list A) d g : lsum l g = lsum (seq 0 (length l)) (fun k => g (nth k l d)).
Proof. induction l as [|a l IH]; [reflexivity|]. cbn [length seq lsum nth]. f_equal. rewrite IH, <- seq_shift, lsum_map. reflexivity. Qed.
Lemma lsum_at {A} (l : list A) d g : forall m, (m < length l)%nat -> (forall k, (k < length l)%nat -> k <> m -> g (nth k l d) = 0) -> lsum l g = g (nth m l d).
Proof.
  induction l as [|a l IH]; intros m H Z; [cbn in H; lia|]. cbn [lsum]. destruct m.
  - cbn [nth]. rewrite (lsum_seq l d), lsum_zero; [lra|]. intros k Hk. apply in_seq in Hk. apply (Z (S k)); cbn; lia.
  - rewrite (IH m). 2:{ cbn in H. lia. } 2:{ intros k Hk Hn. apply (Z (S k)); cbn; lia. }
    pose proof (Z 0%nat ltac:(cbn; lia) ltac:(lia)) as Z0. cbn in Z0. rewrite Z0. cbn. lra.
Qed.
Lemma Forall2_nth {A B} (R : A -> B -> Prop) l l' da db : Forall2 R l l' -> forall k, (k < length l)%nat -> R (nth k l da) (nth k l' db).
Proof. induction 1; intros [|k] Hk; cbn in *; try lia; auto. apply IHForall2. lia. Qed.
Lemma nth_Forall2 {A B} (R : A -> B -> Prop) da db : forall l l', length l = length l' -> (forall k, (k < length l)%nat -> R (nth k l da) (nth k l' db)) -> Forall2 R l l'.
Proof.
  induction l as [|a l IH]; intros [|b l'] L H; cbn in L; try lia; constructor.
  - apply (H 0%nat). cbn; lia.
  - apply IH; [lia|]. intros k Hk. apply (H (S k)). cbn; lia.
Qed.
Lemma set_at_length {A} (v : A) : forall l a, length (set_at a v l) = length l.
Proof. induction l; intros [|k]; cbn; auto. Qed.
Lemma set_at_nth {A} (v d : A) : forall l a k, (k < length l)%nat -> nth k (set_at a v l) d = if (k =? a)%nat then v else nth k l d.
Proof. induction l; intros [|a'] [|k] H; cbn in *; try lia; auto. apply IHl. lia. Qed.

Section P.
  Variable params : list (tensor R).
  Notation like := (same_shapes params).
  Let np := length params.

  Lemma perturb_nth k q t j : (j < np)%nat -> nth j (perturb params k q t) none =
    if (j =? k)%nat then mkT (shape (nth j params none)) (fun i => entry (nth j params none) i + (if list_eq_dec Nat.eq_dec i q then t else 0)) else nth j params none.
  Proof. intros H. unfold perturb. rewrite (nth_map_enumerate _ _ _ _ none) by exact H. reflexivity. Qed.
  Lemma perturb_length k q t : length (perturb params k q t) = np.
  Proof. unfold perturb. now rewrite map_length, enumerate_length. Qed.
  Lemma perturb_teq k q t : Forall2 teq (perturb params k q t) (nudge params k q t).
  Proof.
    apply (nth_Forall2 _ none none); rewrite perturb_length; unfold nudge; [now rewrite set_at_length|].
    intros j Hj. rewrite perturb_nth, set_at_nth by exact Hj. destruct (Nat.eqb_spec j k) as [->|]; [|now split].
    split; [reflexivity|]. intros i _. cbn [entry]. destruct (list_eq_dec _ _ _); lra.
  Qed.
  Lemma perturb_like k q t : like (perturb params k q t).
  Proof.
    apply (nth_Forall2 _ none none); [now rewrite perturb_length|]. intros j Hj. rewrite perturb_nth by exact Hj. now destruct (j =? k)%nat.
  Qed.
  Lemma nudge_like k q t : like (nudge params k q t).
  Proof.
    apply (nth_Forall2 _ none none); unfold nudge; [now rewrite set_at_length|]. intros j Hj. rewrite set_at_nth by exact Hj. destruct (Nat.eqb_spec j k) as [->|]; reflexivity.
  Qed.
  Lemma params_like : like params.
  Proof. unfold same_shapes. induction params; constructor; auto. Qed.

  (** A function of parameters, known by shapes and entries. *)
  Definition good (F : list (tensor R) -> result (list (tensor R))) (fxs : list (list nat)) (D : list (tensor R) -> nat -> list nat -> R) : Prop :=
    (forall p, like p -> exists ys, F p = Ok ys /\ map (@shape R) ys = fxs /\
      forall m o, (m < length fxs)%nat -> in_range (nth m fxs []) o -> entry (nth m ys none) o = D p m o) /\
    (forall p p' m o, like p -> Forall2 teq p p' -> (m < length fxs)%nat -> in_range (nth m fxs []) o -> D p m o = D p' m o).
  Definition grad (D : list (tensor R) -> nat -> list nat -> R) m o k q : R := Derive (fun t => D (nudge params k q t) m o) 0.

  Definition is_jac (fxs : list (list nat)) (g : nat -> list nat -> nat -> list nat -> R) (J : list (list (tensor R))) : Prop :=
    length J = length fxs /\ forall m, (m < length fxs)%nat -> length (nth m J []) = np /\
      forall k, (k < np)%nat -> shape (nth k (nth m J []) none) = nth m fxs [] ++ shape (nth k params none) /\
        forall o q, in_range (nth m fxs []) o -> in_range (shape (nth k params none)) q -> entry (nth k (nth m J []) none) (o ++ q) = g m o k q.

  Lemma jacobian_good F fxs D : good F fxs D -> exists J, jacobian F params = Ok J /\ is_jac fxs (grad D) J.
  Proof.
    intros (H & HR). unfold jacobian. destruct (H params params_like) as (ys & E & S & _). rewrite E. cbn [bind].
    eexists. split; [reflexivity|]. assert (Ly : length ys = length fxs) by (now rewrite <- S, map_length).
    split; [now rewrite map_length, enumerate_length|]. intros m Hm.
    rewrite (nth_map_enumerate _ _ _ _ none) by lia. cbn [fst snd]. split; [now rewrite map_length, enumerate_length|].
    assert (Sm : shape (nth m ys none) = nth m fxs []). { rewrite <- S. rewrite (nth_map_in _ _ _ _ none) by lia. reflexivity. }
    intros k Hk. rewrite (nth_map_enumerate _ _ _ _ none) by exact Hk. cbn [fst snd shape entry]. split; [now rewrite Sm|].
    intros o q Ho Hq. unfold ndim. rewrite Sm. assert (Lo := in_range_length _ _ Ho). rewrite <- Lo.
    rewrite skipn_app, skipn_all, Nat.sub_diag, firstn_app, firstn_all, Nat.sub_diag, app_nil_r. cbn [skipn app].
    unfold grad. apply Derive_ext. intros t. destruct (H _ (perturb_like k q t)) as (ys' & E' & _ & He). rewrite E'. cbn [output_at]. fold none. rewrite He by assumption.
    apply HR; auto using perturb_like, perturb_teq.
  Qed.

  Section Products.
    Variables (F1 F2 : list (tensor R) -> result (list (tensor R))) (fx1 fx2 : list (list nat)).
    Variables D1 D2 : list (tensor R) -> nat -> list nat -> R.
    Hypothesis G1 : good F1 fx1 D1.
    Hypothesis G2 : good F2 fx2 D2.
    Hypothesis Hl : length fx1 = length fx2.
    Definition gram (g1 g2 : nat -> list nat -> nat -> list nat -> R) m o1 o2 : R :=
      lsum (seq 0 np) (fun k => tsum (shape (nth k params none)) (fun q => g1 m o1 k q * g2 m o2 k q)).

    Lemma products J1 J2 m o1 o2 : is_jac fx1 (grad D1) J1 -> is_jac fx2 (grad D2) J2 -> (m < length fx1)%nat -> in_range (nth m fx1 []) o1 -> in_range (nth m fx2 []) o2 ->
      entry (nth m (jvp_tree fx1 J1 (vjp_tree (map (@shape R) params) fx2 J2
        (map (fun ms => if (fst ms =? m)%nat then one_hot (snd ms) o2 else mkT (snd ms) (fun _ => 0)) (enumerate fx2)))) none) o1 = gram (grad D1) (grad D2) m o1 o2.
    Proof.
      intros [L1 E1] [L2 E2] Hm R1 R2. destruct (E1 m Hm) as [Lk1 K1]. destruct (E2 m ltac:(lia)) as [Lk2 K2].
      unfold jvp_tree. rewrite (nth_map_in _ _ _ _ ([], [])) by (rewrite combine_length; lia). rewrite combine_nth by lia. cbn [fst snd jvp_out entry].
      set (v := vjp_tree _ _ _ _). assert (Lv : length v = np) by (unfold v, vjp_tree; now rewrite map_length, enumerate_length, map_length).
      rewrite (lsum_seq _ (none, none)). rewrite combine_length, Lk1, Lv, Nat.min_id. unfold gram.
      apply lsum_ext. intros k Hk. apply in_seq in Hk. assert (Hk' : (k < np)%nat) by lia. destruct (K1 k Hk') as [S1 En1]. destruct (K2 k Hk') as [S2 En2].
      rewrite combine_nth by lia. cbn [fst snd]. unfold param_shape. rewrite S1, skipn_app, skipn_all, Nat.sub_diag. cbn [skipn app].
      apply tsum_ext. intros q Hq. rewrite En1 by assumption. f_equal.
      unfold v, vjp_tree. rewrite (nth_map_enumerate _ _ _ _ []) by (rewrite map_length; lia). cbn [fst snd entry].
      rewrite (lsum_at _ ([], [], none) _ m).
      - rewrite combine_nth. 2:{ rewrite map_length, enumerate_length, combine_length. lia. } rewrite combine_nth by lia. cbn [fst snd].
        rewrite (nth_map_enumerate _ _ _ _ []) by lia. cbn [fst snd]. rewrite Nat.eqb_refl.
        rewrite <- En2 by assumption. fold none.
        rewrite <- (tsum_one_hot (nth m fx2 []) o2 (fun o => entry (nth k (nth m J2 []) none) (o ++ q)) R2). apply tsum_ext. intros o _. cbn [one_hot entry]. reflexivity.
      - rewrite combine_length, map_length, enumerate_length, combine_length. lia.
      - intros j Hj Hn. rewrite !combine_length, map_length, enumerate_length in Hj. rewrite combine_nth. 2:{ rewrite map_length, enumerate_length, combine_length. lia. } cbn [fst snd].
        rewrite (nth_map_enumerate _ _ _ _ []) by lia. cbn [fst snd]. destruct (Nat.eqb_spec j m); [easy|].
        apply tsum_zero. intros o _. cbn [entry]. lra.
    Qed.

    Lemma ntk_of_good : exists T, ntk_of params F1 F2 = Ok T /\ length T = length fx1 /\ forall m, (m < length fx1)%nat ->
      shape (nth m T none) = nth m fx1 [] ++ nth m fx2 [] /\
      forall o1 o2, in_range (nth m fx1 []) o1 -> in_range (nth m fx2 []) o2 -> entry (nth m T none) (o1 ++ o2) = gram (grad D1) (grad D2) m o1 o2.
    Proof.
      unfold ntk_of. destruct G1 as [Y1 _]. destruct G2 as [Y2 _]. destruct (Y1 _ params_like) as (y1 & -> & S1 & _). destruct (Y2 _ params_like) as (y2 & -> & S2 & _). cbn [bind].
      destruct (jacobian_good _ _ _ G1) as (J1 & -> & I1). destruct (jacobian_good _ _ _ G2) as (J2 & -> & I2). cbn [bind]. rewrite S1, S2.
      eexists. split; [reflexivity|]. rewrite flat_map_concat_map, diagonal_blocks.
      2:{ now rewrite map_length, seq_length. }
      2:{ apply List.Forall_forall. intros r Hr. apply in_map_iff in Hr. destruct Hr as (? & <- & _). now rewrite map_length, seq_length. }
      split; [now rewrite map_length, seq_length|]. intros m Hm. rewrite nth_map_seq by lia. rewrite nth_map_seq by lia. rewrite nth_map_seq by lia. cbn [shape entry].
      split; [reflexivity|]. intros o1 o2 R1 R2. assert (Lo := in_range_length _ _ R1). rewrite <- Lo.
      rewrite skipn_app, skipn_all, Nat.sub_diag, firstn_app, firstn_all, Nat.sub_diag, app_nil_r. cbn [skipn app]. fold none. now apply products.
    Qed.
  End Products.
End P.
