(** Jacobians and NTK-vector products over vectorized axes. *)
From Coq Require Import Reals ZArith List Arith Bool Lia Lra.
From Coquelicot Require Import Coquelicot.
From Verif Require Import Base Tensor Reshape Model_Net Proof_Net Model_Predict Model_Empirical Proof_Tsum Model_Structure Model_Lax
  Spec_Empirical Model_Vmap Spec_Vmap Proof_Vmap Proof_Vmap2.
Import ListNotations.
Local Open Scope R_scope.

Lemma nth_error_lt {A} (l : list A) m d : (m < length l)%nat -> nth_error l m = Some (nth m l d).
Proof. intros H. now apply nth_error_nth'. Qed.
Lemma mapM2_nth {A B C} (g : A -> B -> result C) (P : nat -> C -> Prop) da db dc : forall l l', length l = length l' ->
  (forall m, (m < length l)%nat -> exists c, g (nth m l da) (nth m l' db) = Ok c /\ P m c) ->
  exists cs, mapM2 g l l' = Ok cs /\ length cs = length l /\ forall m, (m < length l)%nat -> P m (nth m cs dc).
Proof.
  intros l. revert P. induction l as [|a l IH]; intros P [|b l'] L H; cbn in L; try lia.
  - exists []. split; [reflexivity|]. split; [reflexivity|]. cbn. lia.
  - destruct (H 0%nat ltac:(cbn; lia)) as (c & E & Pc). destruct (IH (fun m => P (S m)) l') as (cs & E' & L' & Pcs); [lia| |].
    { intros m Hm. apply (H (S m)). cbn; lia. }
    exists (c :: cs). cbn [mapM2]. cbn in E. rewrite E. cbn [bind]. rewrite E'. split; [reflexivity|]. split; [cbn; lia|].
    intros [|m] Hm; cbn; auto. apply Pcs. cbn in Hm. lia.
Qed.
Lemma nth_app_lt {A} (l l' : list A) a d : (a < length l)%nat -> nth a (l ++ l') d = nth a l d.
Proof. intros. now apply app_nth1. Qed.
Lemma drop_at_app {A} (o q : list A) a : (a < length o)%nat -> drop_at a (o ++ q) = drop_at a o ++ q.
Proof. intros H. destruct (split_lt o a H) as (l1 & v & l2 & -> & <-). rewrite <- app_assoc. cbn [app]. rewrite !drop_app. now rewrite app_assoc. Qed.
Lemma insert_drop_app {A} (o q : list A) v a : nth_error o a = Some v -> insert_at a v (drop_at a o ++ q) = o ++ q.
Proof. intros H. destruct (split_at o a v H) as (l1 & l2 & -> & <-). rewrite drop_app, <- app_assoc, insert_app, <- app_assoc. reflexivity. Qed.
Lemma insert_drop_set {A} (o : list A) v a : (a < length o)%nat -> insert_at a v (drop_at a o) = set_at a v o.
Proof. intros H. destruct (split_lt o a H) as (l1 & w & l2 & -> & <-). now rewrite drop_app, insert_app, set_app. Qed.
Lemma drop_in_range sh o a : in_range sh o -> (a < length sh)%nat -> in_range (drop_at a sh) (drop_at a o).
Proof.
  intros H L. destruct (split_lt sh a L) as (l1 & v & l2 & -> & <-). destruct (in_range_mid _ _ _ _ H) as (i1 & b & i2 & -> & Li & R1 & _ & R2).
  rewrite drop_app. rewrite <- Li, drop_app. now apply in_range_app.
Qed.

Section F.
  Context {A : Type}.
  Variable f : list (tensor R) -> list (tensor A) -> list (tensor R).
  Variable params : list (tensor R).
  Hypothesis Hf : function_of_arrays f params.
  Notation like := (same_shapes params).
  Definition fxs (xs : list (tensor A)) : list (list nat) := map (@shape R) (f params xs).

  Lemma teq_refls {B} (l : list (tensor B)) : Forall2 teq l l.
  Proof. induction l; constructor; auto. now split. Qed.
  Lemma like_shape p xs m : like p -> (m < length (f params xs))%nat -> shape (nth m (f p xs) none) = shape (nth m (f params xs) none).
  Proof.
    intros Hp Hm. destruct Hf as [_ H2]. pose proof (H2 p xs Hp) as E. assert (L : length (f p xs) = length (f params xs)) by (rewrite <- (map_length (@shape R)), E; apply map_length).
    rewrite <- !(nth_map_in (@shape R) _ m [] none) by lia. now rewrite E.
  Qed.
  Lemma like_length p xs : like p -> length (f p xs) = length (f params xs).
  Proof. intros Hp. destruct Hf as [_ H2]. rewrite <- (map_length (@shape R)), (H2 p xs Hp). apply map_length. Qed.

  (** ** No axis *)
  Lemma expand_none axes xs : Forall2 (fun a (_ : tensor A) => a = None) axes xs -> mapM (@expand A) (combine axes xs) = Ok xs.
  Proof. induction 1 as [|a x axes xs -> H IH]; [reflexivity|]. cbn [combine mapM expand fst snd bind]. now rewrite IH. Qed.
  Definition D0 (xs : list (tensor A)) (p : list (tensor R)) m o : R := entry (nth m (f p xs) none) o.
  Lemma D0_teq xs p p' m o : like p -> Forall2 teq p p' -> (m < length (f params xs))%nat -> in_range (shape (nth m (f params xs) none)) o -> D0 xs p m o = D0 xs p' m o.
  Proof.
    intros Hp Ht Hm Ho. destruct Hf as [H1 _]. pose proof (H1 p p' xs xs Hp Ht (teq_refls xs)) as T.
    destruct (Forall2_nth _ _ _ none none T m) as [_ E]; [now rewrite like_length|]. apply E. now rewrite like_shape.
  Qed.
  Lemma plain_good axes xs : Forall2 (fun a (_ : tensor A) => a = None) axes xs -> good params (f_params f axes None xs) (fxs xs) (D0 xs).
  Proof.
    intros H. unfold fxs. split.
    - intros p Hp. unfold f_params. rewrite expand_none by exact H. cbn [bind squeeze_outputs]. exists (f p xs). split; [reflexivity|].
      destruct Hf as [_ H2]. split; [now apply H2|]. reflexivity.
    - intros p p' m o Hp Ht Hm Ho. rewrite map_length in Hm. rewrite (nth_map_in _ _ _ _ none) in Ho by exact Hm. now apply D0_teq.
  Qed.

  (** ** One example *)
  Section One.
    Variables (axes : list (option nat)) (outs : list nat) (xs : list (tensor A)) (n b : nat).
    Hypothesis Hex : examples axes n xs.
    Hypothesis Hact : forall p, like p ->
      length (f p xs) = length outs /\
      (forall b, (b < n \/ b = 0)%nat -> length (f p (example axes b xs)) = length outs) /\
      forall m a, nth_error outs m = Some a ->
        let y := nth m (f p xs) none in
        nth_error (shape y) a = Some n /\
        (forall b, (b < n \/ b = 0)%nat -> shape (nth m (f p (example axes b xs)) none) = set_at a 1%nat (shape y)) /\
        (forall i, in_range (shape y) i -> entry y i = entry (nth m (f p (example axes (nth a i 0%nat) xs)) none) (set_at a 0%nat i)).
    Hypothesis Hb : (b < n \/ b = 0)%nat.
    Notation ex := (map (take_axis b) (combine axes xs)).
    Definition fxs' : list (list nat) := map (fun m => drop_at (nth m outs 0%nat) (shape (nth m (f params xs) none))) (seq 0 (length outs)).
    Definition D1 (p : list (tensor R)) m o : R := entry (nth m (f p (example axes b xs)) none) (insert_at (nth m outs 0%nat) 0%nat o).

    Lemma expand_some : exists e, mapM (@expand A) (combine axes ex) = Ok e /\ Forall2 teq e (example axes b xs).
    Proof.
      clear Hact Hb. unfold example. induction Hex as [|a x axes' xs' H HF IH]; [exists []; split; [reflexivity|constructor]|].
      cbn [combine map mapM fst snd]. destruct (IH HF) as (e & E & T). destruct a as [a|].
      - destruct (split_at _ _ _ H) as (l1 & l2 & S & L). unfold take_axis at 1, expand at 1. cbn [fst snd]. rewrite S, <- L, drop_app, set_app.
        destruct (expand_dims_ok (mkT (l1 ++ l2) (fun i => entry x (insert_at (length l1) b i))) l1 l2 eq_refl) as (y & Ey & Sy & Hy). rewrite Ey. cbn [bind]. rewrite E. cbn [rmap].
        exists (y :: e). split; [reflexivity|]. constructor; [|exact T]. split; [exact Sy|]. cbn [entry]. intros i Hi. rewrite Sy in Hi.
        destruct (in_range_mid _ _ _ _ Hi) as (i1 & v & i2 & -> & Li & _ & _ & R2). rewrite Hy by (auto; now apply in_range_length). cbn [entry].
        rewrite <- Li, set_app, insert_app. reflexivity.
      - cbn [take_axis expand fst snd bind]. rewrite E. cbn [rmap]. exists (x :: e). split; [reflexivity|]. constructor; [now split|exact T].
    Qed.

    Lemma one_good : good params (f_params f axes (Some outs) ex) fxs' D1.
    Proof.
      destruct expand_some as (e & E & T). destruct (Hact _ (params_like params)) as (L0 & Lb0 & _).
      assert (Lf : length fxs' = length outs) by (unfold fxs'; now rewrite map_length, seq_length).
      assert (Nf : forall m, (m < length outs)%nat -> nth m fxs' [] = drop_at (nth m outs 0%nat) (shape (nth m (f params xs) none))).
      { intros m Hm. unfold fxs'. now rewrite nth_map_seq. }
      assert (Sh : forall p m, like p -> (m < length outs)%nat -> shape (nth m (f p (example axes b xs)) none) = set_at (nth m outs 0%nat) 1%nat (shape (nth m (f params xs) none))).
      { intros p m Hp Hm. destruct (Hact p Hp) as (_ & _ & H). destruct (H m (nth m outs 0%nat)) as (_ & H' & _); [now apply nth_error_lt|]. rewrite (H' b Hb). f_equal. apply like_shape; [exact Hp|]. now rewrite L0. }
      assert (In : forall m, (m < length outs)%nat -> nth_error (shape (nth m (f params xs) none)) (nth m outs 0%nat) = Some n).
      { intros m Hm. destruct (Hact _ (params_like params)) as (_ & _ & H). destruct (H m (nth m outs 0%nat)) as (H' & _); [now apply nth_error_lt|exact H']. }
      split.
      - intros p Hp. unfold f_params. rewrite E. cbn [bind squeeze_outputs]. destruct (Hact p Hp) as (_ & Lp & _). specialize (Lp b Hb).
        destruct Hf as [H1 _]. pose proof (H1 p p e (example axes b xs) Hp (teq_refls p) T) as Te.
        assert (Le : length (f p e) = length outs) by (apply Forall2_length in Te; lia).
        destruct (mapM2_nth (fun a y => squeeze 0 y [Z.of_nat a]) (fun m y => shape y = nth m fxs' [] /\ forall o, in_range (nth m fxs' []) o -> entry y o = D1 p m o) 0%nat none none outs (f p e)) as (ys & Ey & Ly & Hy); [lia| |].
        { intros m Hm. destruct (Forall2_nth _ _ _ none none Te m ltac:(lia)) as [Se Ee].
          destruct (split_at _ _ _ (In m Hm)) as (l1 & l2 & S & L). rewrite Sh in Se by assumption. rewrite S, <- L, set_app in Se.
          destruct (squeeze_ok (nth m (f p e) none) l1 l2 Se) as (y & Eq & Sy & Hy). rewrite <- L. exists y. split; [exact Eq|].
          rewrite Nf by exact Hm. rewrite S, <- L, drop_app. split; [exact Sy|]. intros o Ho. apply in_range_app_inv in Ho. destruct Ho as (o1 & o2 & -> & R1 & R2).
          pose proof (in_range_length _ _ R1) as Lo. rewrite Hy by (auto using in_range_length). unfold D1. rewrite <- L, <- Lo, insert_app. apply Ee. rewrite Se. apply in_range_mk; auto. }
        exists ys. split; [exact Ey|]. split.
        + apply nth_ext with (d := []) (d' := []); [rewrite map_length; lia|]. intros m Hm. rewrite map_length in Hm. rewrite (nth_map_in _ _ _ _ none) by exact Hm. apply Hy. lia.
        + intros m o Hm Ho. apply Hy; [lia|exact Ho].
      - intros p p' m o Hp Ht Hm Ho. rewrite Lf in Hm. rewrite Nf in Ho by exact Hm. destruct Hf as [H1 _].
        pose proof (H1 p p' (example axes b xs) (example axes b xs) Hp Ht (teq_refls _)) as Te. destruct (Hact p Hp) as (_ & Lp & _). specialize (Lp b Hb).
        destruct (Forall2_nth _ _ _ none none Te m ltac:(lia)) as [_ Ee]. apply Ee. rewrite Sh by assumption.
        destruct (split_at _ _ _ (In m Hm)) as (l1 & l2 & S & L). rewrite S, <- L, drop_app in Ho. rewrite S, <- L, set_app.
        apply in_range_app_inv in Ho. destruct Ho as (o1 & o2 & -> & R1 & R2). rewrite <- (in_range_length _ _ R1), insert_app. apply in_range_mk; auto.
    Qed.
  End One.

  Section All.
    Variables (axes : list (option nat)) (outs : list nat) (xs : list (tensor A)) (n : nat).
    Hypothesis Hex : examples axes n xs.
    Hypothesis Hact : forall p, like p ->
      length (f p xs) = length outs /\
      (forall b, (b < n \/ b = 0)%nat -> length (f p (example axes b xs)) = length outs) /\
      forall m a, nth_error outs m = Some a ->
        let y := nth m (f p xs) none in
        nth_error (shape y) a = Some n /\
        (forall b, (b < n \/ b = 0)%nat -> shape (nth m (f p (example axes b xs)) none) = set_at a 1%nat (shape y)) /\
        (forall i, in_range (shape y) i -> entry y i = entry (nth m (f p (example axes (nth a i 0%nat) xs)) none) (set_at a 0%nat i)).
    Notation ex b := (map (take_axis b) (combine axes xs)).
    Lemma outs_length : length (f params xs) = length outs.
    Proof. apply (Hact _ (params_like params)). Qed.
    Lemma out_axis m : (m < length outs)%nat -> nth_error (shape (nth m (f params xs) none)) (nth m outs 0%nat) = Some n.
    Proof. intros Hm. destruct (Hact _ (params_like params)) as (_ & _ & H). apply (H m). now apply nth_error_lt. Qed.

    Lemma D1_grad m o k q : (m < length outs)%nat -> in_range (shape (nth m (f params xs) none)) o ->
      grad params (D1 axes outs xs (nth (nth m outs 0%nat) o 0%nat)) m (drop_at (nth m outs 0%nat) o) k q = slope f params xs m o k q.
    Proof.
      intros Hm Ho. unfold grad, slope. apply Derive_ext. intros t. pose proof (nudge_like params k q t) as Hp. destruct (Hact _ Hp) as (_ & _ & H).
      destruct (H m (nth m outs 0%nat)) as (_ & _ & H'); [now apply nth_error_lt|]. rewrite H'. 2:{ rewrite like_shape; auto. now rewrite outs_length. }
      unfold D1. rewrite insert_drop_set; [reflexivity|]. rewrite (in_range_length _ _ Ho). apply nth_error_Some. now rewrite out_axis.
    Qed.

    Hypothesis Hmap : exists a, In (Some a) axes.

    Lemma vmapped_jacobian : exists J, vmap (fun xs => jacobian (f_params f axes (Some outs) xs) params) axes (Some outs) xs = Ok J /\ is_jac params (fxs xs) (slope f params xs) J.
    Proof.
      set (fn := fun xs0 : list (tensor A) => jacobian (f_params f axes (Some outs) xs0) params).
      set (G := fun b => match fn (ex b) with Ok J => J | Raise _ => [] end).
      assert (HG : forall b, (b < n \/ b = 0)%nat -> fn (ex b) = Ok (G b) /\ is_jac params (fxs' outs xs) (grad params (D1 axes outs xs b)) (G b)).
      { intros b Hb. pose proof (one_good axes outs xs n b Hex Hact Hb) as Hg. destruct (jacobian_good _ _ _ _ Hg) as (J & E & IJ). unfold G, fn. rewrite E. auto. }
      assert (Lf : length (fxs' outs xs) = length outs) by (unfold fxs'; now rewrite map_length, seq_length).
      destruct (vmap_ok axes xs n Hex Hmap fn outs G) as (Y & EY & LY & HY).
      { intros b Hb. now apply HG. }
      { destruct (HG 0%nat ltac:(auto)) as (_ & L & _). lia. }
      exists Y. split; [exact EY|]. pose proof outs_length as L0. unfold is_jac, fxs. rewrite map_length, L0. split; [exact LY|]. intros m Hm.
      destruct (HY m (nth m outs 0%nat)) as (Lm & Hk); [now apply nth_error_lt|]. destruct (HG 0%nat ltac:(auto)) as (_ & _ & J0). destruct (J0 m ltac:(lia)) as (Lg & Hg). rewrite Lg in Lm, Hk. split; [exact Lm|].
      rewrite (nth_map_in _ _ _ _ none) by lia. pose proof (out_axis m Hm) as Ha. assert (Nf : nth m (fxs' outs xs) [] = drop_at (nth m outs 0%nat) (shape (nth m (f params xs) none))) by (unfold fxs'; now rewrite nth_map_seq).
      intros k Hkp. destruct (Hk k Hkp) as (Sk & Ek). destruct (Hg k Hkp) as (Sg & _). split.
      - rewrite Sk, Sg, Nf. now apply insert_drop_app.
      - intros o q Ho Hq. assert (La : (nth m outs 0 < length o)%nat) by (rewrite (in_range_length _ _ Ho); apply nth_error_Some; congruence).
        assert (Hb : (nth (nth m outs 0) o 0 < n)%nat).
        { destruct (split_at _ _ _ Ha) as (l1 & l2 & S & L). rewrite S in Ho. destruct (in_range_mid _ _ _ _ Ho) as (i1 & b & i2 & -> & Li & _ & Hb & _). rewrite <- L, <- Li, nth_mid. exact Hb. }
        rewrite Ek by (now rewrite nth_app_lt). rewrite nth_app_lt by exact La. rewrite drop_at_app by exact La.
        destruct (HG _ (or_introl Hb)) as (_ & _ & Jb). destruct (Jb m ltac:(lia)) as (_ & Hgb). destruct (Hgb k Hkp) as (_ & Eb). rewrite Eb; [now apply D1_grad| |exact Hq].
        rewrite Nf. apply drop_in_range; [exact Ho|]. apply nth_error_Some. congruence.
    Qed.
  End All.
End F.
